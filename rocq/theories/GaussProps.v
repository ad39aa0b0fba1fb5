(** Property theorems C66: the standard normal distribution. *)
From Coquelicot Require Import Coquelicot.
From Verif Require Import Base Gauss GaussProofs.

(** C66: Phi is a distribution function: strictly increasing from 0 to 1, with
    density phi, symmetric about 0. *)
Theorem C66_cdf_is_distribution :
  (forall x y, x < y -> Phi x < Phi y) /\
  (forall x, 0 < Phi x < 1) /\
  (forall x, is_derive Phi x (phi x)) /\
  (forall x, Phi (- x) = 1 - Phi x) /\ Phi 0 = 1 / 2 /\
  is_lim Phi p_infty 1 /\ is_lim Phi m_infty 0.
Proof.
  split; [exact Phi_incr|]. split; [exact Phi_bound|]. split; [exact Phi_derive|].
  split; [exact Phi_opp|]. split; [exact Phi_0|].
  split; apply is_lim_spec; intros eps.
  - destruct (Phi_exceeds (1 - eps)) as [x Hx]; [pose proof (cond_pos eps); lra|].
    exists x. intros y Hy. pose proof (Phi_incr _ _ Hy). pose proof (Phi_bound y). apply Rabs_def1; lra.
  - destruct (Phi_below eps (cond_pos eps)) as [x Hx].
    exists x. intros y Hy. pose proof (Phi_incr _ _ Hy). pose proof (Phi_bound y). apply Rabs_def1; lra.
Qed.
Print Assumptions C66_cdf_is_distribution.

(** C66: ppf inverts it on (0,1), with infinite values outside. *)
Theorem C66_ppf_inverts_cdf :
  (forall x, Phi_inv (Phi x) = Finite x) /\
  (forall p, 0 < p < 1 -> Phi_inv p = Finite (ppf p) /\ Phi (ppf p) = p) /\
  (forall p q, 0 < p -> p < q -> q < 1 -> ppf p < ppf q) /\
  (forall p, 0 < p < 1 -> is_derive ppf p (/ phi (ppf p))) /\
  Phi_inv 0 = m_infty /\ Phi_inv 1 = p_infty.
Proof.
  split; [exact Phi_inv_Phi|]. split.
  - intros p Hp. split; [apply Phi_inv_finite; exact Hp|apply Phi_ppf; exact Hp].
  - split; [exact ppf_incr|]. split; [exact ppf_derive|].
    split; [apply Phi_inv_le0|apply Phi_inv_ge1]; lra.
Qed.
Print Assumptions C66_ppf_inverts_cdf.

Example C66_example : exists x, Phi x = 1 / 1000 /\ x < 0.
Proof.
  exists (ppf (1/1000)). split; [apply Phi_ppf; lra|]. rewrite <- ppf_half. apply ppf_incr; lra.
Qed.
