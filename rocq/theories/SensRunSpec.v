(** Specification vocabulary for C96. *)
From Coquelicot Require Import Coquelicot.
From Verif Require Import Base Quad Nataf.

(** The reliability index of the margin c0 + sum c_i X_i for jointly normal X with means mu,
    standard deviations sd and correlation matrix C: mean over standard deviation. *)
Definition margin_beta (n : nat) (c0 : R) (c mu sd : vec) (C : mat) : R :=
  (c0 + fsum n (fun i => c i * mu i)) / sqrt (fsum n (fun i => fsum n (fun j => (c i * sd i) * C i j * (c j * sd j)))).
(** v with entry k replaced *)
Definition vset (v : vec) (k : nat) (x : R) : vec := fun i => if Nat.eqb i k then x else v i.
(** the quadrature nodes used for a pair with correlation rho lie in the integration range [-6, 6] *)
Definition nodes_inside (rho : R) : Prop :=
  forall q, (q < nIP_sensitivity rho)%nat -> -6 <= zx_z 6 (nIP_sensitivity rho) q <= 6.
