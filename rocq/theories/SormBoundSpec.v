(** Specification vocabulary for C115: the paraboloid SORM puts in place of the limit state
    surface. No pystra code here. *)
From Verif Require Import Base McSpec McBiasSpec FormBoundSpec.
From Coq Require Import Reals List.
Import ListNotations.
Open Scope R_scope.

(** A point has one coordinate per principal direction and then its coordinate along the
    design direction.  The surface  v_last = beta + 1/2 sum_i k_i v_i^2  where the curvature
    k_i along axis i is km_i on the negative half axis and kp_i on the other (the curve fit has
    km = kp).  [paraboloid beta km kp] is negative beyond the surface. *)
Definition bent (km kp : list R) (v : vec) (i : nat) : R :=
  / 2 * ((if Rltb (v i) 0 then nth i km 0 else nth i kp 0) * v i ^ 2).
Definition paraboloid (beta : R) (km kp : list R) (v : vec) : R :=
  beta + fsum (length kp) (bent km kp v) - v (length kp).

(** the probability of being beyond it *)
Definition beyond (beta : R) (km kp : list R) (p : R) : Prop :=
  failure_probability (S (length kp)) (paraboloid beta km kp) p.
