(** Specification vocabulary for moments; no pystra code here except the record of a
    distribution's methods. *)
From Coquelicot Require Import Coquelicot.
From Verif Require Import Base Gauss Dist.
Open Scope R_scope.

(** Expected value of g(P), P uniform on (0,1), and of h(U), U standard normal, as
    improper Riemann integrals. *)
Definition expect01 (g : R -> R) (m : R) : Prop := is_RInt_gen g (at_right 0) (at_left 1) m.
Definition expectN (h : R -> R) (m : R) : Prop :=
  is_RInt_gen (fun u => h u * phi u) (Rbar_locally m_infty) (Rbar_locally p_infty) m.

(** Mean m and variance s^2 of a sampled value d_sample(P) and of u_to_x(U). *)
Definition sample_moments (d : dist) (m s : R) : Prop :=
  expect01 (d_sample d) m /\ expect01 (fun p => (d_sample d p - m) * (d_sample d p - m)) (s * s).
Definition mc_moments (d : dist) (m s : R) : Prop :=
  expectN (d_u2x d) m /\ expectN (fun u => (d_u2x d u - m) * (d_u2x d u - m)) (s * s).

(** What a user relies on: the reported mean and stdv are those of the values produced,
    both by sample() and by the transformation used in every analysis. *)
Definition moments_true (d : dist) : Prop :=
  sample_moments d (d_mean d) (d_stdv d) /\ mc_moments d (d_mean d) (d_stdv d).

(** The same for a SciPy family at loc 0, scale 1: the continuous quantile function has
    mean sf_mean and standard deviation sf_std. *)
Definition fam_moments (f : sfam) : Prop :=
  (forall p, 0 < p < 1 -> continuous (sf_ppf f) p)
  /\ expect01 (sf_ppf f) (sf_mean f)
  /\ expect01 (fun p => sf_ppf f p * sf_ppf f p) (sf_mean f * sf_mean f + sf_std f * sf_std f).

(** Improper integral over (0, +inf). *)
Definition int0 (f : R -> R) (m : R) : Prop := is_RInt_gen f (at_right 0) (Rbar_locally p_infty) m.

(** Euler's gamma function: Gam s is the integral of t^(s-1) e^(-t) over (0, +inf). *)
Definition is_gamma (Gam : R -> R) : Prop := forall s, 0 < s ->
  int0 (fun t => Rpower t (s - 1) * exp (- t)) (Gam s).

(** The constants of the Gumbel law: Euler's constant and pi^2/6 as integrals. *)
Definition gumbel_constants (eg : R) : Prop :=
  int0 (fun t => - ln t * exp (- t)) eg /\ int0 (fun t => ln t * ln t * exp (- t)) (eg * eg + PI * PI / 6).
