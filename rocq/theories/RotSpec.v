(** Specification vocabulary for C90 and C91: runs of Form that report the same reliability. *)
From Coquelicot Require Import Coquelicot.
From Verif Require Import Base Ext StochModel StochModelSpec LimitState LimitStateSpec Transf TransfSpec Form.
From Coq Require Import Permutation.

(** np.linalg.inv: inverts exactly the invertible matrices, otherwise raises LinAlgError. *)
Definition inv_total (n : nat) (inv : nat -> mat -> result mat) (e0 : exn) : Prop :=
  (forall A B, inv n A = Ok B -> inverse_pair n B A) /\
  (forall A B, inverse_pair n B A -> exists C, inv n A = Ok C) /\
  (forall A e, inv n A = Err e -> e = e0).

(** Two finished runs agree, when variable i of the second is variable (s i) of the first: the
    same number of iterations and limit state values, the same beta and Pf, and design points that
    are the same physical point at the same distance from the origin; the importance vectors
    correspond in the space of the standardised correlated variables (A alpha). *)
Definition same_result (n : nat) (s : nat -> nat) (A A' : mat) (m m' : nat -> rv) (r r' : form_res) : Prop :=
  fr_i r' = fr_i r /\ fr_G r' = fr_G r /\ fr_Go r' = fr_Go r /\
  form_beta n r' = form_beta n r /\ form_Pf n r' = form_Pf n r /\
  match fr_u r, fr_u r', form_alpha n r, form_alpha n r' with
  | Some u, Some u', Some a, Some a' =>
      norm n u' = norm n u /\
      (forall i, (i < n)%nat -> u_to_x n A' m' u' i = u_to_x n A m u (s i)) /\
      (forall i, (i < n)%nat -> mvec n A' a' i = mvec n A a (s i))
  | None, None, None, None => True
  | _, _, _, _ => False
  end.
(** Two runs agree: both finish with agreeing results, both raise the same exception, or both are
    still iterating, after the same number of limit state calls. *)
Definition same_run (n : nat) (s : nat -> nat) (A A' : mat) (m m' : nat -> rv) (a b : form_out * nat) : Prop :=
  match a, b with
  | (FDone r, c), (FDone r', c') => c' = c /\ same_result n s A A' m m' r r'
  | (FRaise e, c), (FRaise e', c') => e' = e /\ c' = c
  | (FFuel, c), (FFuel, c') => c' = c
  | _, _ => False
  end.

(** s and t are inverse permutations of 0..n-1 *)
Definition perm_pair (n : nat) (s t : nat -> nat) : Prop :=
  (forall i, (i < n)%nat -> (s i < n)%nat /\ t (s i) = i) /\ (forall i, (i < n)%nat -> (t i < n)%nat /\ s (t i) = i).

(** The history h' registers the variables of h in another order (variable i of h' is variable
    (s i) of h) and the same constants in some order. *)
Definition reordered (n : nat) (s : nat -> nat) (h h' : list smop) : Prop :=
  ndists h = n /\ ndists h' = n /\
  (forall i, (i < n)%nat -> nth_error (dists_of (accepted h')) i = nth_error (dists_of (accepted h)) (s i)) /\
  Permutation (consts_of (accepted h)) (consts_of (accepted h')).

(** A function of keyword arguments does not depend on their order. *)
Definition order_free (f : list (string * R) -> R) : Prop :=
  forall kw kw', NoDup (map fst kw) -> Permutation kw kw' -> f kw' = f kw.

(** the marginals of a history, by position *)
Definition margs (h : list smop) (i : nat) : rv :=
  nth i (dists_of (accepted h)) (mkrv "" 0 0 0 (fun u => u) (fun x => x) (fun _ _ => 1)).
