(** Specification vocabulary for C112. No pystra code here. *)
From Coquelicot Require Import Coquelicot.
From Verif Require Import Base McSpec McBiasSpec.
Open Scope R_scope.

(** the probability that n independent standard normal variables fall where gu is negative *)
Definition failure_probability (n : nat) (gu : vec -> R) (v : R) : Prop :=
  is_integral n (fun u => if Rltb (gu u) 0 then joint_density n u else 0) v.

(** the point dividing the way from u to w in the ratio t : 1 - t *)
Definition mix (t : R) (u w : vec) : vec := fun i => u i + t * (w i - u i).

Definition convex (g : vec -> R) : Prop := forall u w t, 0 <= t <= 1 -> g (mix t u w) <= (1 - t) * g u + t * g w.
Definition concave (g : vec -> R) : Prop := convex (fun u => - g u).
Definition convex_set (P : vec -> Prop) : Prop := forall u w t, 0 <= t <= 1 -> P u -> P w -> P (mix t u w).

(** the rate of change of gu at u along every straight line is given by the vector g *)
Definition slopes (n : nat) (gu : vec -> R) (u g : vec) : Prop :=
  forall w, is_derive (fun t => gu (mix t u w)) 0 (dot n g (fun i => w i - u i)).
