From Coquelicot Require Import Coquelicot.
From Verif Require Import Base StochModel Gauss GaussProofs Dist DistSpec DistProofs DistMomProofs.
Open Scope R_scope.

(** ** marginal maps of the closed-form classes *)
Lemma normal_maps s : 0 < no_stdv s -> marginal_maps_ok (normal_dist s) /\ ppf_ok (normal_dist s).
Proof.
  intros Hs. unfold marginal_maps_ok, ppf_ok. cbn [normal_dist d_u2x d_x2u d_cdf d_jac d_pdf d_ppf].
  assert (E : forall u, (u * no_stdv s + no_mean s - no_mean s) / no_stdv s = u) by (intros; field; lra).
  split; [split; [|split; [|split; [|split]]]|].
  - intros. nra.
  - intros u. rewrite E. reflexivity.
  - intros u. apply E.
  - intros u. rewrite E. pose proof (phi_pos u). field. lra.
  - intros u. auto_derive; [exact I|field; lra].
  - intros p Hp. replace ((no_stdv s * ppf p + no_mean s - no_mean s) / no_stdv s) with (ppf p) by (field; lra). apply Phi_ppf, Hp.
Qed.

Lemma lognormal_maps s : 0 < ln_zeta s -> marginal_maps_ok (lognormal_dist s).
Proof.
  intros Hz. unfold marginal_maps_ok. cbn [lognormal_dist d_u2x d_x2u d_cdf d_jac d_pdf d_ppf].
  assert (E : forall u, (ln (exp (u * ln_zeta s + ln_lamb s)) - ln_lamb s) / ln_zeta s = u) by (intros; rewrite ln_exp; field; lra).
  split; [|split; [|split; [|split]]].
  - intros u v H. apply exp_increasing. nra.
  - intros u. rewrite ln_cdf_Phi, E by apply exp_pos. reflexivity.
  - intros u. apply E.
  - intros u. reflexivity.
  - intros u. pose proof (exp_pos (u * ln_zeta s + ln_lamb s)) as P. rewrite ln_pdf_phi by assumption. rewrite E.
    pose proof (phi_pos u). auto_derive; [exact P|]. field. repeat split; lra.
Qed.

Lemma slognormal_maps s : 0 < ln_zeta (sl_ln s) -> marginal_maps_ok (slognormal_dist s).
Proof.
  intros Hz. destruct (lognormal_maps _ Hz) as (A & B & C & D & E). unfold marginal_maps_ok.
  unfold slognormal_dist. set (b := lognormal_dist (sl_ln s)) in *. cbn [d_u2x d_x2u d_cdf d_jac d_pdf].
  assert (S : forall u, d_u2x b u + sl_lower s - sl_lower s = d_u2x b u) by (intros; ring).
  split; [|split; [|split; [|split]]].
  - intros u v H. apply Rplus_lt_compat_r, A, H.
  - intros u. rewrite S. apply B.
  - intros u. rewrite S. apply C.
  - intros u. reflexivity.
  - intros u. rewrite S, <- D.
    replace (d_jac b u (d_u2x b u)) with (scal 1 (d_jac b u (d_u2x b u))) by (unfold scal; simpl; unfold mult; simpl; ring).
    apply (is_derive_comp (d_x2u b) (fun x => x - sl_lower s)); [rewrite S; apply E|]. auto_derive; [exact I|ring].
Qed.

(** ** histories *)
Lemma apply_updates_cons {S} (l sc : R -> S -> S) u us s :
  apply_updates l sc (u :: us) s = apply_updates l sc us (match u with SetLocation w => l w s | SetScale w => sc w s end).
Proof. reflexivity. Qed.

Lemma last_scale_P (P : R -> Prop) us : forall v0, P v0 -> all_scales P us -> P (last_scale v0 us).
Proof.
  induction us as [|u us IH]; intros v0 H A; [exact H|]. unfold last_scale. cbn [fold_left]. apply IH.
  - destruct u; [exact H|]. apply A. left. reflexivity.
  - intros v Hv. apply A. right. exact Hv.
Qed.
Lemma last_location_P (P : R -> Prop) us : forall v0, P v0 -> all_locations P us -> P (last_location v0 us).
Proof.
  induction us as [|u us IH]; intros v0 H A; [exact H|]. unfold last_location. cbn [fold_left]. apply IH.
  - destruct u; [|exact H]. apply A. left. reflexivity.
  - intros v Hv. apply A. right. exact Hv.
Qed.

Lemma normal_updates us : forall s, apply_updates normal_set_location normal_set_scale us s
  = mkNormal (last_location (no_mean s) us) (last_scale (no_stdv s) us) (no_start s).
Proof.
  induction us as [|u us IH]; intros s; [destruct s; reflexivity|]. rewrite apply_updates_cons, IH. destruct u; reflexivity.
Qed.

Lemma lognormal_updates us : forall s, (ln_lamb s, ln_zeta s) = ln_params (ln_mean s) (ln_stdv s) ->
  let t := apply_updates lognormal_set_location lognormal_set_scale us s in
  ln_mean t = last_location (ln_mean s) us /\ ln_stdv t = last_scale (ln_stdv s) us
  /\ (ln_lamb t, ln_zeta t) = ln_params (ln_mean t) (ln_stdv t) /\ ln_obj t = ln_obj s /\ ln_start t = ln_start s.
Proof.
  induction us as [|u us IH]; intros s H t; [repeat split; assumption|]. unfold t. rewrite apply_updates_cons.
  set (s1 := match u with SetLocation w => lognormal_set_location w s | SetScale w => lognormal_set_scale w s end).
  assert (H1 : (ln_lamb s1, ln_zeta s1) = ln_params (ln_mean s1) (ln_stdv s1)).
  { unfold s1. destruct u; cbn [lognormal_set_location lognormal_set_scale ln_lamb ln_zeta ln_mean ln_stdv]; symmetry; apply surjective_pairing. }
  destruct (IH s1 H1) as (A & B & C & D & E). split; [rewrite A; unfold s1; destruct u; reflexivity|]. split; [rewrite B; unfold s1; destruct u; reflexivity|]. split; [exact C|].
  split; [rewrite D|rewrite E]; unfold s1; destruct u; reflexivity.
Qed.

Lemma slognormal_updates us : forall s, (ln_lamb (sl_ln s), ln_zeta (sl_ln s)) = ln_params (ln_mean (sl_ln s) - sl_lower s) (ln_stdv (sl_ln s)) ->
  let t := apply_updates slognormal_set_location slognormal_set_scale us s in
  ln_mean (sl_ln t) = last_location (ln_mean (sl_ln s)) us /\ ln_stdv (sl_ln t) = last_scale (ln_stdv (sl_ln s)) us
  /\ (ln_lamb (sl_ln t), ln_zeta (sl_ln t)) = ln_params (ln_mean (sl_ln t) - sl_lower t) (ln_stdv (sl_ln t)) /\ ln_obj (sl_ln t) = ln_obj (sl_ln s)
  /\ sl_lower t = sl_lower s.
Proof.
  induction us as [|u us IH]; intros s H t; [repeat split; assumption|]. unfold t. rewrite apply_updates_cons.
  set (s1 := match u with SetLocation w => slognormal_set_location w s | SetScale w => slognormal_set_scale w s end).
  assert (H1 : (ln_lamb (sl_ln s1), ln_zeta (sl_ln s1)) = ln_params (ln_mean (sl_ln s1) - sl_lower s1) (ln_stdv (sl_ln s1))).
  { unfold s1. destruct u; cbn [slognormal_set_location slognormal_set_scale sl_ln sl_lower ln_lamb ln_zeta ln_mean ln_stdv]; symmetry; apply surjective_pairing. }
  destruct (IH s1 H1) as (A & B & C & D & E). split; [rewrite A; unfold s1; destruct u; reflexivity|]. split; [rewrite B; unfold s1; destruct u; reflexivity|]. split; [exact C|].
  split; [rewrite D|rewrite E]; unfold s1; destruct u; reflexivity.
Qed.

Lemma uniform_updates us : forall s,
  let t := apply_updates uniform_set_location uniform_set_scale us s in
  un_a t = un_a s /\ un_b t = un_b s
  /\ fz_fam (so_obj (un_s t)) = fz_fam (so_obj (un_s s))
  /\ fz_loc (so_obj (un_s t)) = last_location (fz_loc (so_obj (un_s s))) us
  /\ fz_scale (so_obj (un_s t)) = last_scale (fz_scale (so_obj (un_s s))) us
  /\ (so_mean (un_s s) = fz_mean (so_obj (un_s s)) -> so_stdv (un_s s) = fz_std (so_obj (un_s s)) ->
      so_mean (un_s t) = fz_mean (so_obj (un_s t)) /\ so_stdv (un_s t) = fz_std (so_obj (un_s t))).
Proof.
  induction us as [|u us IH]; intros s t; [repeat split; assumption|]. unfold t. rewrite apply_updates_cons.
  set (s1 := match u with SetLocation w => uniform_set_location w s | SetScale w => uniform_set_scale w s end).
  destruct (IH s1) as (A & B & C & D & E & F). rewrite A, B, C, D, E. unfold s1 in *. destruct u; (repeat split; try reflexivity; apply F; reflexivity).
Qed.

Lemma base_updates us : forall s,
  let t := apply_updates base_set_location base_set_scale us s in
  fz_fam (so_obj t) = fz_fam (so_obj s)
  /\ fz_loc (so_obj t) = last_location (fz_loc (so_obj s)) us
  /\ fz_scale (so_obj t) = last_scale (fz_scale (so_obj s)) us
  /\ so_start t = so_start s
  /\ (so_mean s = fz_mean (so_obj s) -> so_stdv s = fz_std (so_obj s) ->
      so_mean t = fz_mean (so_obj t) /\ so_stdv t = fz_std (so_obj t)).
Proof.
  induction us as [|u us IH]; intros s t; [repeat split; assumption|]. unfold t. rewrite apply_updates_cons.
  set (s1 := match u with SetLocation w => base_set_location w s | SetScale w => base_set_scale w s end).
  destruct (IH s1) as (A & B & C & D & E). rewrite A, B, C, D. unfold s1 in *. destruct u; (repeat split; try reflexivity; apply E; reflexivity).
Qed.

(** ** consequences *)
Lemma lognormal_ppf_stale t o l0 z0 : ln_obj t = mkFrozen (lognorm_fam z0) 0 (exp l0) -> 0 < ln_zeta t -> o = tt ->
  forall p, 0 < p < 1 -> d_cdf (lognormal_dist t) (d_ppf (lognormal_dist t) p) = Phi ((l0 + z0 * ppf p - ln_lamb t) / ln_zeta t).
Proof.
  intros H Hz _ p Hp. cbn [lognormal_dist d_cdf d_ppf]. rewrite H. unfold fz_ppf. cbn [fz_fam fz_loc fz_scale lognorm_fam sf_ppf].
  replace (Rleb p 0) with false by (symmetry; apply Rleb_false; lra).
  rewrite Rplus_0_l, <- exp_plus, ln_cdf_Phi, ln_exp by apply exp_pos. reflexivity.
Qed.

Lemma lin_all_ppf a b c d : 0 < d -> (forall p, 0 < p < 1 -> (a + b * ppf p - c) / d = ppf p) -> a = c /\ b = d.
Proof.
  intros Hd H. pose proof (H (1 / 2) ltac:(lra)) as H0. rewrite ppf_half in H0.
  pose proof (H (Phi 1) (Phi_bound 1)) as H1. rewrite ppf_Phi in H1.
  apply (f_equal (fun x => x * d)) in H0. apply (f_equal (fun x => x * d)) in H1.
  unfold Rdiv in H0, H1. rewrite Rmult_assoc, Rinv_l in H0 by lra. rewrite Rmult_assoc, Rinv_l in H1 by lra. lra.
Qed.

Lemma lognormal_ppf_ok_iff t l0 z0 : ln_obj t = mkFrozen (lognorm_fam z0) 0 (exp l0) -> 0 < ln_zeta t ->
  (ppf_ok (lognormal_dist t) <-> ln_lamb t = l0 /\ ln_zeta t = z0).
Proof.
  intros H Hz. pose proof (lognormal_ppf_stale t tt l0 z0 H Hz eq_refl) as P. split.
  - intros K. destruct (lin_all_ppf l0 z0 (ln_lamb t) (ln_zeta t) Hz) as [A B]; [|split; symmetry; assumption].
    intros p Hp. apply Phi_inj. rewrite <- (P p Hp), K, Phi_ppf by exact Hp. reflexivity.
  - intros [A B] p Hp. rewrite P by exact Hp. rewrite A, B.
    replace ((l0 + z0 * ppf p - l0) / z0) with (ppf p) by (field; lra). apply Phi_ppf, Hp.
Qed.

Lemma uniform_cdf_level t a b loc sc : un_a t = a -> un_b t = b -> fz_fam (so_obj (un_s t)) = uniform_fam ->
  fz_loc (so_obj (un_s t)) = loc -> fz_scale (so_obj (un_s t)) = sc -> 0 < sc ->
  ((forall u, d_cdf (uniform_dist t) (d_u2x (uniform_dist t) u) = Phi u) <-> a = loc /\ b - a = sc).
Proof.
  intros Ha Hb Hf Hl Hs Hsc.
  assert (E : forall u, d_cdf (uniform_dist t) (d_u2x (uniform_dist t) u) =
    let v := (a + (b - a) * Phi u - loc) / sc in if Rltb v 0 then 0 else if Rltb 1 v then 1 else v).
  { intros u. cbn [uniform_dist d_cdf d_u2x base_dist]. unfold fz_cdf. rewrite Hf, Ha, Hb, Hl, Hs. reflexivity. }
  split.
  - intros H.
    assert (K : forall u, (a + (b - a) * Phi u - loc) / sc = Phi u).
    { intros u. pose proof (H u) as Hu. rewrite E in Hu. cbv zeta in Hu. pose proof (Phi_bound u). unfold Rltb in Hu.
      destruct (Rlt_dec _ 0); [lra|]. destruct (Rlt_dec 1 _); [lra|exact Hu]. }
    pose proof (K 0) as K0. pose proof (K 1) as K1. assert (Hlt : Phi 0 < Phi 1) by (apply Phi_incr; lra).
    apply (f_equal (fun x => x * sc)) in K0. apply (f_equal (fun x => x * sc)) in K1.
    unfold Rdiv in K0, K1. rewrite Rmult_assoc, Rinv_l in K0 by lra. rewrite Rmult_assoc, Rinv_l in K1 by lra.
    assert (b - a = sc) by nra. split; [nra|assumption].
  - intros [A B] u. rewrite E. cbv zeta. rewrite <- A, B. replace ((a + sc * Phi u - a) / sc) with (Phi u) by (field; lra).
    pose proof (Phi_bound u). unfold Rltb. destruct (Rlt_dec (Phi u) 0) as [r|r]; [exfalso; lra|]. destruct (Rlt_dec 1 (Phi u)) as [r1|r1]; [exfalso; lra|reflexivity].
Qed.

Lemma uniform_maps t : fz_fam (so_obj (un_s t)) = uniform_fam -> fz_loc (so_obj (un_s t)) = un_a t -> fz_scale (so_obj (un_s t)) = un_b t - un_a t ->
  (un_a t < un_b t)%R -> marginal_maps_ok (uniform_dist t) /\ ppf_ok (uniform_dist t).
Proof.
  intros Hf Hl Hs Hab. assert (Hsc : 0 < fz_scale (so_obj (un_s t))) by (rewrite Hs; apply Rlt_Rminus, Hab).
  assert (F : fam_ok (fz_fam (so_obj (un_s t)))) by (rewrite Hf; apply sfam_uniform).
  destruct (base_maps (un_s t) F Hsc) as ((A & B & C & D & E) & P).
  assert (U : forall u, d_u2x (uniform_dist t) u = d_u2x (base_dist (un_s t)) u).
  { intros u. cbn [uniform_dist base_dist d_u2x]. unfold fz_ppf. rewrite Hf, Hl, Hs. reflexivity. }
  split; [|exact P]. split; [|split; [|split; [|split]]]; intros; rewrite ?U; [apply A; assumption|apply B|apply C|apply D|apply E].
Qed.
