(** Specification vocabulary for the distributions; no pystra code here. *)
From Coquelicot Require Import Coquelicot.
From Verif Require Import Base Gauss Dist.
Open Scope R_scope.

(** [F] is a continuous, increasing cdf with quantile function [Q] and density [f]:
    [Q] is a two-sided inverse where 0 < F < 1. *)
Definition quantile_pair (F Q : R -> R) : Prop :=
  (forall x, 0 <= F x <= 1) /\ (forall x y, x <= y -> F x <= F y)
  /\ (forall p, 0 < p < 1 -> F (Q p) = p)
  /\ (forall x, 0 < F x < 1 -> Q (F x) = x).
Definition density_of (F f : R -> R) : Prop := forall x, 0 < F x < 1 -> is_derive F x (f x).

Definition fam_ok (f : sfam) : Prop := quantile_pair (sf_cdf f) (sf_ppf f) /\ density_of (sf_cdf f) (sf_pdf f).

(** The three marginal maps of a Distribution describe one variable X with cdf
    d_cdf: u_to_x is increasing, P-level preserving and inverted by x_to_u, and the
    Jacobian is f(x)/phi(u) = du/dx. *)
Definition marginal_maps_ok (d : dist) : Prop :=
  (forall u v, u < v -> d_u2x d u < d_u2x d v)
  /\ (forall u, d_cdf d (d_u2x d u) = Phi u)
  /\ (forall u, d_x2u d (d_u2x d u) = u)
  /\ (forall u, d_jac d u (d_u2x d u) = d_pdf d (d_u2x d u) / phi u)
  /\ (forall u, is_derive (d_x2u d) (d_u2x d u) (d_jac d u (d_u2x d u))).

(** ppf, and hence sample, agrees with the cdf *)
Definition ppf_ok (d : dist) : Prop := forall p, 0 < p < 1 -> d_cdf d (d_ppf d p) = p.

Definition reports (d : dist) (m s : R) : Prop := d_mean d = m /\ d_stdv d = s.

(** A history of set_location / set_scale calls and the values last given. *)
Inductive update := SetLocation (v : R) | SetScale (v : R).
Definition last_location (v0 : R) (us : list update) : R :=
  fold_left (fun v u => match u with SetLocation w => w | SetScale _ => v end) us v0.
Definition last_scale (v0 : R) (us : list update) : R :=
  fold_left (fun v u => match u with SetScale w => w | SetLocation _ => v end) us v0.
Definition apply_updates {S : Type} (loc scale : R -> S -> S) (us : list update) (s : S) : S :=
  fold_left (fun s u => match u with SetLocation w => loc w s | SetScale w => scale w s end) us s.
Definition all_scales (P : R -> Prop) (us : list update) : Prop := forall v, In (SetScale v) us -> P v.
Definition all_locations (P : R -> Prop) (us : list update) : Prop := forall v, In (SetLocation v) us -> P v.
