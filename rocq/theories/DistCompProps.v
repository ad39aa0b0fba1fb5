(** C49 ZeroInflated, C50 Maximum / MaxParent, C51 GEVmin. *)
From Coquelicot Require Import Coquelicot.
From Verif Require Import Base StochModel Gauss GaussProofs Dist DistSpec DistProofs DistMomProofs DistUpdProofs DistCompProofs.
Open Scope R_scope.

(** ** C49 *)
(** base distribution: continuous increasing cdf with its quantile function; when it has
    no mass below zero, ppf(0) is a non-negative lower end of its support *)
Definition zi_base_ok (d : dist) : Prop :=
  quantile_pair (d_cdf d) (d_ppf d) /\ (d_cdf d 0 = 0 -> 0 <= d_ppf d 0 /\ d_cdf d (d_ppf d 0) = 0).

Theorem C49_construction_raises_iff : forall d p,
  (zinf_init d p = Err EException <-> p < 0 \/ 1 <= p) /\ (0 <= p < 1 -> exists z, zinf_init d p = Ok z).
Proof.
  intros d p. unfold zinf_init, Rltb, Rleb. destruct (Rlt_dec p 0); [split; [tauto|lra]|].
  destruct (Rle_dec 1 p); [split; [tauto|lra]|]. split; [|intros; eexists; reflexivity]. split; [discriminate|lra].
Qed.
Print Assumptions C49_construction_raises_iff.

Theorem C49_cdf : forall d p z, quantile_pair (d_cdf d) (d_ppf d) -> 0 <= p < 1 -> zinf_init d p = Ok z ->
  let w := zinf_dist z in
  (forall x, 0 <= d_cdf w x <= 1) /\ (forall x y, x <= y -> d_cdf w x <= d_cdf w y)
  /\ (forall x, 0 <= x -> d_cdf w x = (1 - p) * d_cdf d x + p)
  /\ (forall x, x <= - zero_tol -> d_cdf w x = (1 - p) * d_cdf d x).
Proof.
  intros d p z HQ Hp Hz w. split; [|split; [|split]].
  - intros x. apply (zinf_cdf_bounds d p HQ Hp z Hz).
  - intros x y. apply (zinf_cdf_mono d p HQ Hp z Hz).
  - intros x Hx. change (zinf_cdf z x = (1 - p) * d_cdf d x + p). rewrite (zcdf d p Hp z Hz). pose proof tol_pos. destruct (Rlt_dec (- zero_tol) x); lra.
  - intros x Hx. change (zinf_cdf z x = (1 - p) * d_cdf d x). rewrite (zcdf d p Hp z Hz). destruct (Rlt_dec (- zero_tol) x); lra.
Qed.
Print Assumptions C49_cdf.

Theorem C49_ppf : forall d p z, zi_base_ok d -> 0 <= p < 1 -> zinf_init d p = Ok z ->
  let w := zinf_dist z in
  (forall s t, 0 < s -> s <= t -> t < 1 -> d_ppf w s <= d_ppf w t)
  /\ (forall x, 0 < d_cdf d x < 1 -> x <= - zero_tol \/ 0 <= x -> d_ppf w (d_cdf w x) = x)
  /\ (0 < p -> forall x, 0 < d_cdf d x < 1 -> - zero_tol < x < 0 -> x < d_ppf w (d_cdf w x))
  /\ (forall t, 0 < t < 1 -> t <= d_cdf w (d_ppf w t))
  /\ (forall t, 0 < t < 1 -> d_ppf w t <= - zero_tol \/ 0 < d_ppf w t \/ t = d_cdf w 0 -> d_cdf w (d_ppf w t) = t)
  /\ (forall t, 0 < t < 1 -> d_ppf w t = 0 <-> (1 - p) * d_cdf d 0 <= t <= (1 - p) * d_cdf d 0 + p /\ (t = (1 - p) * d_cdf d 0 + p -> d_ppf d (d_cdf d 0) = 0)).
Proof.
  intros d p z [HQ H0] Hp Hz w. pose proof tol_pos as T. destruct (zinf_fields d p Hp z Hz) as (_ & _ & _ & Q).
  split; [|split; [|split; [|split; [|split]]]].
  - intros s t. apply (zinf_ppf_mono d p HQ Hp H0 z Hz).
  - intros x. apply (zinf_ppf_cdf d p HQ Hp z Hz).
  - intros Pp x. apply (zinf_ppf_cdf_window d p HQ Hp z Hz x Pp).
  - intros t Ht. apply (zinf_cdf_ppf d p HQ Hp H0 z Hz t Ht).
  - intros t Ht K. destruct (zinf_cdf_ppf d p HQ Hp H0 z Hz t Ht) as [_ E]. apply E.
    destruct K as [K|[K|K]]; [left; exact K| |].
    + right. destruct (Rle_lt_dec (lo d p + p) t) as [G|G]; [exact G|]. exfalso. change (0 < zinf_ppf z t) in K.
      destruct (Rlt_le_dec t (lo d p)) as [L|L].
      * rewrite (zppf_low d p Hp z Hz t L) in K. destruct (low_neg d p HQ Hp z Hz t (proj1 Ht) L). lra.
      * rewrite (zppf_mid d p Hp z Hz t) in K by lra. lra.
    + right. change (t = zinf_cdf z 0) in K. rewrite (zcdf d p Hp z Hz) in K. destruct (Rlt_dec (- zero_tol) 0); [|lra]. unfold lo. lra.
  - intros t Ht. change (d_ppf w t) with (zinf_ppf z t). fold (lo d p).
    destruct (Rlt_le_dec t (lo d p)) as [L|L].
    + rewrite (zppf_low d p Hp z Hz t L). destruct (low_neg d p HQ Hp z Hz t (proj1 Ht) L). split; intros; lra.
    + destruct (Rlt_le_dec t (lo d p + p)) as [G|G].
      * rewrite (zppf_mid d p Hp z Hz t) by lra. split; [intros _; split; [lra|intros; lra]|reflexivity].
      * rewrite (zppf_high d p Hp z Hz t G). destruct (high_nonneg d p HQ Hp H0 z Hz t (proj2 Ht) G) as [E N].
        assert (Et : t = lo d p + p -> (t - p) / (1 - p) = d_cdf d 0). { intros ->. unfold lo. field. lra. }
        split.
        -- intros Z. rewrite Z in E. assert (t = lo d p + p). { unfold lo. rewrite E. field. lra. }
           split; [lra|]. intros K. rewrite <- (Et K). exact Z.
        -- intros [K1 K2]. assert (K : t = lo d p + p) by lra. rewrite (Et K). apply K2, K.
Qed.
Print Assumptions C49_ppf.

(** mean and variance are those of the mixture p * delta_0 + (1-p) * base, after
    construction and after set_zero_probability with an admissible probability *)
Theorem C49_moments : forall d p p' z, 0 <= p < 1 -> 0 <= p' < 1 -> zinf_init d p = Ok z ->
  let mixture w prob := d_mean w = (1 - prob) * d_mean d
     /\ d_stdv w * d_stdv w = (1 - prob) * (d_stdv d * d_stdv d + d_mean d * d_mean d) - d_mean w * d_mean w in
  mixture (zinf_dist z) p /\ mixture (zinf_dist (zinf_set_zero_probability p' z)) p'.
Proof.
  intros d p p' z Hp Hp' Hz mixture.
  assert (G : forall r, 0 <= r < 1 -> let st := zi_stats d r (1 - r) in fst st = (1 - r) * d_mean d /\ snd st * snd st = (1 - r) * (d_stdv d * d_stdv d + d_mean d * d_mean d) - fst st * fst st).
  { intros r Hr. cbn [zi_stats fst snd]. split; [reflexivity|]. pose proof (Rle_0_sqr (d_stdv d)). pose proof (Rle_0_sqr (d_mean d)). unfold Rsqr in *.
    rewrite sqrt_sqrt; [ring|]. assert (0 <= (1 - r) * (d_stdv d * d_stdv d)) by (apply Rmult_le_pos; lra).
    assert (0 <= r * (1 - r) * (d_mean d * d_mean d)) by (apply Rmult_le_pos; [apply Rmult_le_pos; lra|lra]). lra. }
  destruct (zinf_fields d p Hp z Hz) as (A & _). split.
  - unfold zinf_init in Hz. destruct (Rltb p 0); [discriminate|]. destruct (Rleb 1 p); [discriminate|]. injection Hz as <-. apply (G p Hp).
  - unfold mixture. cbn [zinf_dist zinf_set_zero_probability d_mean d_stdv zi_mean zi_stdv]. rewrite A. apply (G p' Hp').
Qed.
Print Assumptions C49_moments.

(** set_zero_probability accepts anything; outside [0,1] the cdf leaves [0,1] *)
Theorem C49_set_zero_probability_unchecked : forall d p z p', quantile_pair (d_cdf d) (d_ppf d) -> 0 <= p < 1 -> zinf_init d p = Ok z -> 1 < p' ->
  forall x, x <= - zero_tol -> 0 < d_cdf d x -> d_cdf (zinf_dist (zinf_set_zero_probability p' z)) x < 0.
Proof.
  intros d p z p' HQ Hp Hz Hp' x Hx HF. destruct (zinf_fields d p Hp z Hz) as (A & _).
  change (zinf_cdf (zinf_set_zero_probability p' z) x < 0). unfold zinf_cdf. cbn [zinf_set_zero_probability zi_base zi_p zi_q]. rewrite A.
  replace (Rltb (- zero_tol) x) with false by (symmetry; apply Rltb_false; lra). nra.
Qed.
Print Assumptions C49_set_zero_probability_unchecked.

(** the density: derivative of the cdf plus p on the window (-tol, tol), so the Jacobian
    there is not the derivative of x_to_u *)
Theorem C49_pdf : forall d p z, quantile_pair (d_cdf d) (d_ppf d) -> 0 <= p < 1 -> zinf_init d p = Ok z ->
  forall x, is_derive (d_cdf d) x (d_pdf d x) -> x <> - zero_tol ->
  exists D, is_derive (d_cdf (zinf_dist z)) x D /\ d_pdf (zinf_dist z) x = D + (if Rlt_dec (Rabs x) zero_tol then p else 0).
Proof.
  intros d p z HQ Hp Hz x Hd Hx. exists ((1 - p) * d_pdf d x). split.
  - apply (zinf_cdf_derive d p Hp z Hz); assumption.
  - apply (zinf_pdf_val d p Hp z Hz).
Qed.
Print Assumptions C49_pdf.

(** the Jacobian is du/dx outside the window and p / phi(u) more than it inside *)
Theorem C49_jacobian : forall d p z, quantile_pair (d_cdf d) (d_ppf d) -> 0 <= p < 1 -> zinf_init d p = Ok z ->
  let w := zinf_dist z in
  forall x, is_derive (d_cdf d) x (d_pdf d x) -> x <> - zero_tol -> 0 < d_cdf w x < 1 ->
  let u := d_x2u w x in
  exists D, is_derive (d_x2u w) x D /\ d_jac w u x = D + (if Rlt_dec (Rabs x) zero_tol then p / phi u else 0).
Proof.
  intros d p z HQ Hp Hz w x Hd Hx Hc u. exists ((1 - p) * d_pdf d x / phi u). split.
  - assert (Dc := zinf_cdf_derive d p Hp z Hz x _ Hd Hx).
    replace ((1 - p) * d_pdf d x / phi u) with (scal ((1 - p) * d_pdf d x) (/ phi (ppf (zinf_cdf z x)))) by reflexivity.
    apply (is_derive_comp ppf (zinf_cdf z)); [apply ppf_derive; exact Hc|exact Dc].
  - unfold w. cbn [zinf_dist d_jac]. rewrite (zinf_pdf_val d p Hp z Hz). pose proof (phi_pos u). destruct (Rlt_dec (Rabs x) zero_tol); field; lra.
Qed.
Print Assumptions C49_jacobian.

(** ** C50 *)
Theorem C50_construction_raises_iff : forall d N,
  (maximum_init d N = Err EException <-> N < 1) /\ (maxparent_init d N = Err EException <-> N < 1)
  /\ (1 <= N -> maximum_init d N = Ok (mkPow d N) /\ maxparent_init d N = Ok (mkPow d N)).
Proof.
  intros d N. unfold maximum_init, maxparent_init, Rltb. destruct (Rlt_dec N 1); repeat split; try tauto; try discriminate; intros; lra.
Qed.
Print Assumptions C50_construction_raises_iff.

Theorem C50_maximum_cdf_is_power : forall fmin d n w m s, (forall x, 0 <= d_cdf d x <= 1) -> (1 <= n)%nat -> maximum_init d (INR n) = Ok w ->
  forall x, d_cdf (maximum_dist fmin w m s) x = d_cdf d x ^ n.
Proof.
  intros fmin d n w m s B Hn Hw x. unfold maximum_init in Hw. destruct (Rltb (INR n) 1); [discriminate|]. injection Hw as <-.
  cbn [maximum_dist d_cdf]. unfold maximum_cdf. cbn [pw_base pw_N]. apply ppow_nat, B.
Qed.
Print Assumptions C50_maximum_cdf_is_power.

(** pdf is the derivative; cdf is a cdf *)
Theorem C50_pdf_is_derivative : forall fmin d N w m s, (forall x, 0 <= d_cdf d x <= 1) -> density_of (d_cdf d) (d_pdf d) ->
  (maximum_init d N = Ok w -> density_of (d_cdf (maximum_dist fmin w m s)) (d_pdf (maximum_dist fmin w m s)))
  /\ (maxparent_init d N = Ok w -> density_of (d_cdf (maxparent_dist fmin w m s)) (d_pdf (maxparent_dist fmin w m s))).
Proof.
  intros fmin d N w m s B D. split; intros Hw; unfold maximum_init, maxparent_init in Hw; destruct (Rltb N 1) eqn:E; try discriminate; injection Hw as <-; apply Rltb_false in E.
  - apply maximum_density; assumption.
  - apply maxparent_density; assumption.
Qed.
Print Assumptions C50_pdf_is_derivative.

(** MaxParent undoes Maximum, and the other way round *)
Theorem C50_parent_of_maximum : forall fmin d N w m s v, (forall x, 0 <= d_cdf d x <= 1) ->
  (maximum_init d N = Ok w -> maxparent_init (maximum_dist fmin w m s) N = Ok v -> forall m' s' x, d_cdf (maxparent_dist fmin v m' s') x = d_cdf d x)
  /\ (maxparent_init d N = Ok w -> maximum_init (maxparent_dist fmin w m s) N = Ok v -> forall m' s' x, d_cdf (maximum_dist fmin v m' s') x = d_cdf d x).
Proof.
  intros fmin d N w m s v B. split; intros Hw Hv m' s' x; unfold maximum_init, maxparent_init in Hw, Hv; destruct (Rltb N 1) eqn:E; try discriminate;
    injection Hw as <-; injection Hv as <-; apply Rltb_false in E; cbn [maximum_dist maxparent_dist d_cdf]; unfold maximum_cdf, maxparent_cdf; cbn [pw_base pw_N maximum_dist maxparent_dist d_cdf];
    unfold maximum_cdf, maxparent_cdf; cbn [pw_base pw_N].
  - assert (0 < 1 / N) by (apply Rdiv_lt_0_compat; lra). rewrite ppow_mult by (try apply B; lra). replace (N * (1 / N)) with 1 by (field; lra). apply ppow_1, B.
  - assert (0 < 1 / N) by (apply Rdiv_lt_0_compat; lra). rewrite ppow_mult by (try apply B; lra). replace (1 / N * N) with 1 by (field; lra). apply ppow_1, B.
Qed.
Print Assumptions C50_parent_of_maximum.

(** more repetitions: a larger maximum (smaller cdf everywhere), a smaller parent *)
Theorem C50_monotone_in_N : forall fmin d N N' w w' m s m' s', (forall x, 0 <= d_cdf d x <= 1) -> 1 <= N -> N <= N' ->
  (maximum_init d N = Ok w -> maximum_init d N' = Ok w' -> forall x, d_cdf (maximum_dist fmin w' m' s') x <= d_cdf (maximum_dist fmin w m s) x)
  /\ (maxparent_init d N = Ok w -> maxparent_init d N' = Ok w' -> forall x, d_cdf (maxparent_dist fmin w m s) x <= d_cdf (maxparent_dist fmin w' m' s') x).
Proof.
  intros fmin d N N' w w' m s m' s' B H1 H2.
  split; intros Hw Hw' x; unfold maximum_init, maxparent_init in Hw, Hw'; destruct (Rltb N 1); try discriminate; destruct (Rltb N' 1); try discriminate;
    injection Hw as <-; injection Hw' as <-; cbn [maximum_dist maxparent_dist d_cdf]; unfold maximum_cdf, maxparent_cdf; cbn [pw_base pw_N].
  - apply ppow_anti; [apply B|lra|exact H2].
  - apply ppow_anti; [apply B|apply Rdiv_lt_0_compat; lra|]. unfold Rdiv. rewrite !Rmult_1_l. apply Rinv_le_contravar; lra.
Qed.
Print Assumptions C50_monotone_in_N.

(** if the numerical minimiser really minimises |cdf - p|, both classes are consistent
    distributions *)
Theorem C50_ppf_and_maps : forall fmin d N w m s, quantile_pair (d_cdf d) (d_ppf d) -> density_of (d_cdf d) (d_pdf d) ->
  (forall F t, 0 < t < 1 -> (exists y, F y = t) -> forall y, Rabs (F (fmin (fun x => Rabs (F x - t)) (d_mean d)) - t) <= Rabs (F y - t)) ->
  (maximum_init d N = Ok w -> ppf_ok (maximum_dist fmin w m s) /\ marginal_maps_ok (maximum_dist fmin w m s))
  /\ (maxparent_init d N = Ok w -> ppf_ok (maxparent_dist fmin w m s) /\ marginal_maps_ok (maxparent_dist fmin w m s)).
Proof.
  intros fmin d N w m s HQ HD HF. pose proof (proj1 HQ) as B.
  split; intros Hw; unfold maximum_init, maxparent_init in Hw; destruct (Rltb N 1) eqn:E; try discriminate; injection Hw as <-; apply Rltb_false in E.
  - assert (P : quantile_pair (maximum_cdf (mkPow d N)) (fun t => d_ppf d (ppow t (1 / N)))) by (apply (pow_pair (d_cdf d) (d_ppf d) N); [lra|exact HQ]).
    assert (K : quantile_pair (maximum_cdf (mkPow d N)) (pow_ppf fmin (maximum_cdf (mkPow d N)) (d_mean d))).
    { eapply pair_of_ext; [exact P|]. apply (fmin_pair _ _ fmin (d_mean d) P). intros t Ht. apply HF; [exact Ht|]. eexists. apply P, Ht. }
    split; [intros t Ht; apply K, Ht|]. apply maps_of_pair; [exact K|]. apply maximum_density; assumption.
  - assert (P : quantile_pair (maxparent_cdf (mkPow d N)) (fun t => d_ppf d (ppow t (1 / (1 / N))))) by (apply (pow_pair (d_cdf d) (d_ppf d) (1 / N)); [apply Rdiv_lt_0_compat; lra|exact HQ]).
    assert (K : quantile_pair (maxparent_cdf (mkPow d N)) (pow_ppf fmin (maxparent_cdf (mkPow d N)) (d_mean d))).
    { eapply pair_of_ext; [exact P|]. apply (fmin_pair _ _ fmin (d_mean d) P). intros t Ht. apply HF; [exact Ht|]. eexists. apply P, Ht. }
    split; [intros t Ht; apply K, Ht|]. apply maps_of_pair; [exact K|]. apply maxparent_density; assumption.
Qed.
Print Assumptions C50_ppf_and_maps.

(** ** C51 *)
Theorem C51_gevmin_is_mirrored : forall Gam eg a b shape by_moments sp t, gevmin_init Gam eg a b shape by_moments sp = Ok t -> 0 < fz_scale (gm_obj t) ->
  let d := gevmin_dist t in
  (forall x, 0 <= d_cdf d x <= 1) /\ (forall x y, x <= y -> d_cdf d x <= d_cdf d y)
  /\ (forall p, 0 < p < 1 -> d_cdf d (d_ppf d p) = 1 - p)
  /\ (forall p q, 0 < p -> p < q -> q < 1 -> d_ppf d q < d_ppf d p)
  /\ (forall p, 0 < p < 1 -> (d_cdf d (d_ppf d p) = p <-> p = 1 / 2))
  /\ (forall u, d_cdf d (- d_u2x d u) = 1 - Phi u)
  /\ ~ ppf_ok d /\ ~ (forall u, d_cdf d (d_u2x d u) = Phi u) /\ ~ marginal_maps_ok d.
Proof.
  intros Gam eg a b shape bm sp t Ht Hs d.
  assert (E : exists l, gm_obj t = mkFrozen (gev_fam Gam eg (- shape)) l (fz_scale (gm_obj t))).
  { unfold gevmin_init in Ht. destruct (Rleb (1 / 2) shape); [discriminate|]. injection Ht as <-. cbn [gm_obj fz_scale]. eexists. reflexivity. }
  destruct E as [l E].
  assert (HQ : quantile_pair (fz_cdf (gm_obj t)) (fz_ppf (gm_obj t))) by (apply fz_quantile; [rewrite E; apply sfam_gev|exact Hs]).
  destruct (gevmin_cdf_ppf t _ _ eq_refl eq_refl HQ) as (A & B & C & D & F).
  assert (NL : ~ (forall u, d_cdf d (d_u2x d u) = Phi u)).
  { intros H. pose proof (proj1 (gevmin_level_iff t HQ) H) as K. rewrite E in K. revert K. apply gev_not_symmetric. exact Hs. }
  split; [exact D|split; [exact C|split; [exact A|split; [exact B|split; [|split; [|split; [|split]]]]]]].
  - intros p Hp. unfold d. rewrite A by exact Hp. split; lra.
  - intros u. pose proof (F u) as Fu. unfold d. lra.
  - intros H. pose proof (H (1 / 4) ltac:(lra)) as K. unfold d in K. rewrite A in K by lra. lra.
  - exact NL.
  - intros (_ & H & _). apply NL, H.
Qed.
Print Assumptions C51_gevmin_is_mirrored.

(** the reported mean is that of the largest-value law, not of the variable whose cdf is
    given: -X has SciPy's mean, so the true mean is minus it *)
Theorem C51_reported_mean : forall Gam eg mean stdv shape sp t, gevmin_init Gam eg mean stdv shape true sp = Ok t ->
  d_mean (gevmin_dist t) = mean /\ d_stdv (gevmin_dist t) = stdv
  /\ (shape = 0 -> d_mean (gevmin_dist t) - (- fz_mean (gm_obj t)) = 2 * fz_scale (gm_obj t) * eg)
  /\ (/ 10 ^ 8 < Rabs shape -> d_mean (gevmin_dist t) - (- fz_mean (gm_obj t)) = 2 * fz_scale (gm_obj t) * ((Gam (1 - shape) - 1) / shape)).
Proof.
  intros Gam eg m s shape sp t Ht. unfold gevmin_init in Ht. destruct (Rleb (1 / 2) shape); [discriminate|]. injection Ht as <-.
  cbn [gevmin_dist d_mean d_stdv gm_mean gm_stdv gm_obj]. unfold fz_mean. cbn [fz_loc fz_scale fz_fam].
  assert (T : 0 < / 10 ^ 8) by (apply Rinv_0_lt_compat, pow_lt; lra).
  split; [reflexivity|split; [reflexivity|split]].
  - intros ->. unfold gev_loc_scale. replace (close0 0) with true by (symmetry; unfold close0; apply Rleb_spec; rewrite Rabs_R0; lra).
    unfold gev_fam, Reqb. destruct (Req_EM_T (- 0) 0) as [e|e]; [|exfalso; apply e; ring]. cbn [fst snd gumbel_fam sf_mean]. ring.
  - intros Hs. assert (N : shape <> 0) by (intros E; rewrite E, Rabs_R0 in Hs; lra).
    unfold gev_loc_scale. replace (close0 shape) with false by (symmetry; unfold close0; apply Rleb_false, Hs).
    unfold gev_fam, Reqb. destruct (Req_EM_T (- shape) 0) as [e|e]; [exfalso; lra|]. cbn [fst snd sf_mean].
    set (sc := s * Rabs shape / sqrt (Gam (1 - 2 * shape) - Gam (1 - shape) * Gam (1 - shape))). replace (1 + - shape) with (1 - shape) by ring. field. exact N.
Qed.
Print Assumptions C51_reported_mean.

(** GEVmax, by contrast, is consistent (C53 for this class) *)
Theorem C53_gevmax_maps : forall Gam eg loc scale shape sp, 0 < scale -> shape < 1 / 2 ->
  exists o, gevmax_obj Gam eg loc scale shape false = Ok o
    /\ marginal_maps_ok (base_dist (base_init o sp)) /\ ppf_ok (base_dist (base_init o sp)).
Proof.
  intros Gam eg loc scale shape sp Hs Hk. unfold gevmax_obj. replace (Rleb (1 / 2) shape) with false by (symmetry; apply Rleb_false, Hk).
  eexists. split; [reflexivity|]. apply base_maps; cbn [base_init so_obj fz_fam fz_scale]; [apply sfam_gev|exact Hs].
Qed.
Print Assumptions C53_gevmax_maps.

(** *** Non-vacuity *)
Example zi_base_normal : zi_base_ok (normal_dist (normal_init 1 2 None)).
Proof.
  split.
  - cbn [normal_dist normal_init d_cdf d_ppf no_mean no_stdv]. split; [|split; [|split]].
    + intros x. pose proof (Phi_bound ((x - 1) / 2)). lra.
    + intros x y H. apply (proj1 (Phi_le _ _)). lra.
    + intros p Hp. replace ((2 * ppf p + 1 - 1) / 2) with (ppf p) by field. apply Phi_ppf, Hp.
    + intros x _. rewrite ppf_Phi. field.
  - cbn [normal_dist normal_init d_cdf d_ppf no_mean no_stdv]. intros H. pose proof (Phi_bound ((0 - 1) / 2)). lra.
Qed.
Example zi_base_lognormal m s : 0 < m -> 0 < s -> zi_base_ok (lognormal_dist (lognormal_init m s true None)).
Proof.
  intros Hm Hs. pose proof (zeta_pos m s Hm Hs) as Z. set (l := fst (ln_params m s)). set (z := snd (ln_params m s)) in *.
  assert (E : forall x, d_cdf (lognormal_dist (lognormal_init m s true None)) x = fz_cdf (mkFrozen (lognorm_fam z) 0 (exp l)) x).
  { intros x. cbn [lognormal_dist lognormal_init d_cdf ln_lamb ln_zeta]. fold l z. unfold fz_cdf. cbn [fz_loc fz_scale fz_fam lognorm_fam sf_cdf].
    pose proof (exp_pos l) as P. rewrite Rminus_0_r. unfold Rltb at 1. destruct (Rlt_dec 0 (x / exp l)) as [G|G].
    - assert (Hx : 0 < x). { apply (Rmult_lt_compat_r (exp l)) in G; [|exact P]. unfold Rdiv in G. rewrite Rmult_assoc, Rinv_l in G by lra. lra. }
      rewrite ln_cdf_Phi by exact Hx. rewrite ln_div, ln_exp by assumption. reflexivity.
    - unfold ln_cdf. replace (Rltb 0 x) with false; [reflexivity|]. symmetry. apply Rltb_false.
      destruct (Rle_lt_dec x 0) as [H|H]; [exact H|]. exfalso. apply G, Rdiv_lt_0_compat; assumption. }
  pose proof (fz_quantile (mkFrozen (lognorm_fam z) 0 (exp l)) (sfam_lognorm z Z) (exp_pos l)) as (Q1 & Q2 & Q3 & Q4).
  split.
  - split; [|split; [|split]].
    + intros x. rewrite E. apply Q1.
    + intros x y H. rewrite !E. apply Q2, H.
    + intros p Hp. rewrite E. apply (Q3 p Hp).
    + intros x. rewrite E. apply (Q4 x).
  - intros _. rewrite E. change (d_ppf (lognormal_dist (lognormal_init m s true None)) 0) with (fz_ppf (mkFrozen (lognorm_fam z) 0 (exp l)) 0).
    unfold fz_ppf, fz_cdf. cbn [fz_loc fz_scale fz_fam lognorm_fam sf_ppf sf_cdf].
    replace (Rleb 0 0) with true by (symmetry; apply Rleb_spec; lra). rewrite Rmult_0_r, Rplus_0_l, Rminus_0_r. unfold Rdiv. rewrite Rmult_0_l.
    replace (Rltb 0 0) with false by (symmetry; apply Rltb_false; lra). split; [lra|reflexivity].
Qed.
Example zi_base_uniform : zi_base_ok (uniform_dist (uniform_init 1 2 false None)).
Proof.
  split.
  - apply (fz_quantile (mkFrozen uniform_fam 1 (2 - 1))); [apply sfam_uniform|cbn; lra].
  - intros _. cbn [uniform_dist uniform_init base_dist base_init un_s d_ppf d_cdf so_obj]. unfold fz_ppf, fz_cdf. cbn [fz_loc fz_scale fz_fam uniform_fam sf_ppf sf_cdf].
    split; [lra|]. replace ((1 + (2 - 1) * 0 - 1) / (2 - 1)) with 0 by field.
    replace (Rltb 0 0) with false by (symmetry; apply Rltb_false; lra). replace (Rltb 1 0) with false by (symmetry; apply Rltb_false; lra). reflexivity.
Qed.
Example C49_example : exists z, zinf_init (normal_dist (normal_init 1 2 None)) (3 / 10) = Ok z.
Proof. apply C49_construction_raises_iff. lra. Qed.
Example C51_example : exists t, gevmin_init (fun _ => 1) 0 3 2 0 true None = Ok t /\ 0 < fz_scale (gm_obj t).
Proof.
  unfold gevmin_init. replace (Rleb (1 / 2) 0) with false by (symmetry; apply Rleb_false; lra). eexists. split; [reflexivity|].
  cbn [gm_obj fz_scale]. unfold gev_loc_scale. replace (close0 0) with true.
  2:{ symmetry. unfold close0. apply Rleb_spec. rewrite Rabs_R0. apply Rlt_le, Rinv_0_lt_compat, pow_lt. lra. }
  cbn [snd]. pose proof PI_RGT_0. assert (0 < sqrt 6) by (apply sqrt_lt_R0; lra). apply Rdiv_lt_0_compat; lra.
Qed.
