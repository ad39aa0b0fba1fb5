(** Specification vocabulary for C103. *)
From Coquelicot Require Import Coquelicot.
From Verif Require Import Base Ext Gauss Valid.
Open Scope R_scope.

(** the two curvatures that point fitting reads off the plane alphaS . u = beta, seen in coordinates whose
    last axis is another unit vector: [c] is the cosine between the two, [d] that between alphaS and the
    fitting axis, [t] (with |t| = max(1, min(|beta|, 3))) the distance of the fitting points *)
Definition spurious (beta c t d : R) : R := 2 * (beta * (1 - c) - t * d) / (c * (t * t)).

(** Breitung's formula with separate curvatures for the two sides of each axis *)
Definition two_sided (beta : R) (m : nat) (km kp : nat -> R) (pf bg : sattr) : Prop :=
  ((forall i, (i < m)%nat -> 0 < 1 + beta * km i /\ 0 < 1 + beta * kp i) ->
     let p := Phi (- beta) * lprod (map (fun i => (/ sqrt (1 + beta * kp i) + / sqrt (1 + beta * km i)) / 2) (seq 0 m)) in
     pf = SArr (Fin p) /\ forall z, Phi (- z) = p -> bg = SArr (Fin z)) /\
  ((exists i, (i < m)%nat /\ (1 + beta * km i <= 0 \/ 1 + beta * kp i <= 0)) -> pf = SArr (Fin 0) /\ bg = SArr (Fin 0)).
