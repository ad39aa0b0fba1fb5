(** Specification vocabulary for C130: a limit state function of normal variables seen from standard normal space. *)
From Coquelicot Require Import Coquelicot.
From Verif Require Import Base StochModel StochModelSpec LimitState LimitStateSpec Transf Nataf Dist.
From Coq Require Import ZArith.
Open Scope R_scope.

(** the physical point x = mu + diag(sd) A u, and the gradient of u |-> f(x(u)) by the chain rule *)
Definition phys_point (n : nat) (mu sd : vec) (A : mat) (u : vec) : list R := map (fun i => mu i + sd i * fsum n (fun k => A i k * u k)) (seq 0 n).
Definition u_gradient (n : nat) (h : list smop) (gr : list (string * R) -> list R) (mu sd : vec) (A : mat) (u : vec) : vec :=
  fun a => fsum n (fun i => nth i (gr (args_at h (phys_point n mu sd A u))) 0 * (sd i * A i a)).
(** moving by t along axis i *)
Definition along (u : vec) (i : nat) (t : R) : vec := fun b => if Nat.eqb b i then u b + t else u b.

(** F has first derivative F1 and second derivative F2 on [0, d], the second bounded by M *)
Definition twice_differentiable (F F1 F2 : R -> R) (d M : R) : Prop :=
  forall t, 0 <= t <= d -> is_derive F t (F1 t) /\ is_derive F1 t (F2 t) /\ Rabs (F2 t) <= M.

(** l contains only real eigenvalues of the m x m matrix A, as many as A has rows *)
Definition real_eigenvalues (m : nat) (A : mat) (l : list R) : Prop :=
  length l = m /\ forall k, In k l -> exists v : vec, (exists i, (i < m)%nat /\ v i <> 0) /\ forall i, (i < m)%nat -> fsum m (fun j => A i j * v j) = k * v i.
