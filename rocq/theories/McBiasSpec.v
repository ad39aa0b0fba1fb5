(** Specification vocabulary for C111: expected values over the random numbers. No pystra
    code here.

    A source of random numbers is a function of the position in the stream.  [scons x s]
    is the number x followed by the numbers of s. *)
From Coquelicot Require Import Coquelicot.
From Verif Require Import Base Gauss MomSpec.
Open Scope R_scope.

Definition scons (x : R) (s : nat -> R) : nat -> R := fun i => match i with O => x | S j => s j end.

(** [is_mean m f v]: v is the expected value of f over streams whose first m numbers are
    independent standard normal, f not depending on the later ones: an iterated improper
    integral with the normal density, the first number outermost ([expectN], C79). *)
Fixpoint is_mean (m : nat) (f : (nat -> R) -> R) (v : R) : Prop :=
  match m with
  | O => forall s, f s = v
  | S m' => exists F : R -> R, (forall x, is_mean m' (fun s => f (scons x s)) (F x)) /\ expectN F v
  end.

(** [is_integral n f v]: v is the integral of f over R^n, as an iterated improper integral. *)
Fixpoint is_integral (n : nat) (f : vec -> R) (v : R) : Prop :=
  match n with
  | O => forall u, f u = v
  | S n' => exists F : R -> R, (forall x, is_integral n' (fun u => f (scons x u)) (F x)) /\
              is_RInt_gen F (Rbar_locally m_infty) (Rbar_locally p_infty) v
  end.

(** g reads the first n coordinates of a point *)
Definition reads (n : nat) (g : vec -> R) : Prop := forall u v, (forall i, (i < n)%nat -> u i = v i) -> g u = g v.
