(** Specification vocabulary for C09-C12. *)
From Coquelicot Require Import Coquelicot.
From Verif Require Import Base StochModel.

Definition inverse_pair (n : nat) (A B : mat) : Prop :=
  meq n (mmul n A B) meye /\ meq n (mmul n B A) meye.

(** A is a square-root factor of Ro *)
Definition factor_of (n : nat) (A Ro : mat) : Prop :=
  forall i j, (i < n)%nat -> (j < n)%nat -> fsum n (fun k => A i k * A j k) = Ro i j.

Definition symmetric (n : nat) (M : mat) : Prop :=
  forall i j, (i < n)%nat -> (j < n)%nat -> M i j = M j i.

Definition pos_def (n : nat) (M : mat) : Prop :=
  forall v : vec, (exists i, (i < n)%nat /\ v i <> 0) ->
    0 < fsum n (fun i => fsum n (fun j => v i * M i j * v j)).

(** U diag(D) V' = M with U, V orthogonal and D >= 0 *)
Definition svd_of (n : nat) (U : mat) (D : vec) (V : mat) (M : mat) : Prop :=
  inverse_pair n U (mtrans U) /\ inverse_pair n V (mtrans V) /\
  (forall i, (i < n)%nat -> 0 <= D i) /\
  forall i j, (i < n)%nat -> (j < n)%nat -> fsum n (fun k => U i k * D k * V j k) = M i j.

(** replace component j *)
Definition vset (v : vec) (j : nat) (t : R) : vec := fun i => if Nat.eqb i j then t else v i.

(** g is differentiable at x with gradient grad, in the sense that the chain
    rule holds along every differentiable curve through x. *)
Definition has_gradient (n : nat) (g : vec -> R) (x grad : vec) : Prop :=
  forall (c : R -> vec) (t0 : R) (v : vec),
    (forall i, (i < n)%nat -> c t0 i = x i) ->
    (forall i, (i < n)%nat -> is_derive (fun t => c t i) t0 (v i)) ->
    is_derive (fun t => g (c t)) t0 (fsum n (fun i => grad i * v i)).

(** Contracts of the NumPy linear-algebra calls: when they return, the result
    is a Cholesky factor (its triangularity is not needed), an SVD, an inverse. *)
Definition chol_contract (n : nat) (chol : nat -> mat -> result mat) (Ro : mat) : Prop :=
  forall L, chol n Ro = Ok L -> factor_of n L Ro.
Definition svd_contract (n : nat) (svd : nat -> mat -> result (mat * vec)) (Ro : mat) : Prop :=
  forall U D, svd n Ro = Ok (U, D) -> exists V, svd_of n U D V Ro.
Definition inv_contract (n : nat) (inv : nat -> mat -> result mat) : Prop :=
  forall A B, inv n A = Ok B -> inverse_pair n B A.
