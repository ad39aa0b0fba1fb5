(** Theorems about distributions: C47, C48, C52, C53, C75 (C49-C51 in DistCompProps.v). *)
From Coquelicot Require Import Coquelicot.
From Verif Require Import Base StochModel Gauss GaussProofs Dist DistSpec DistProofs DistMomProofs DistUpdProofs.
Open Scope R_scope.

(** *** Lognormal objects: what the constructor stores *)
Lemma lognormal_by_moments m s sp : 0 < m -> 0 < s ->
  let t := lognormal_init m s true sp in
  ln_mean t = m /\ ln_stdv t = s /\ (ln_lamb t, ln_zeta t) = ln_params m s
  /\ ln_obj t = mkFrozen (lognorm_fam (ln_zeta t)) 0 (exp (ln_lamb t)) /\ 0 < ln_zeta t.
Proof.
  intros Hm Hs t. destruct (ln_moments m s Hm Hs) as [A B].
  unfold t, lognormal_init, base_init, fz_mean, fz_std. cbn [ln_mean ln_stdv ln_lamb ln_zeta ln_obj so_mean so_stdv fz_loc fz_scale fz_fam lognorm_fam sf_mean sf_std].
  split; [rewrite A; ring|]. split; [exact B|]. split; [symmetry; apply surjective_pairing|]. split; [reflexivity|]. apply zeta_pos; assumption.
Qed.

Lemma lognormal_by_params l z sp : 0 < z ->
  let t := lognormal_init l z false sp in
  ln_lamb t = l /\ ln_zeta t = z /\ (ln_lamb t, ln_zeta t) = ln_params (ln_mean t) (ln_stdv t) /\ 0 < ln_mean t /\ 0 < ln_stdv t.
Proof.
  intros Hz t. unfold t, lognormal_init, base_init, fz_mean, fz_std. cbn [fst snd ln_mean ln_stdv ln_lamb ln_zeta ln_obj so_mean so_stdv fz_loc fz_scale fz_fam lognorm_fam sf_mean sf_std].
  rewrite Rplus_0_l, ln_params_of_moments by exact Hz. repeat split.
  - apply Rmult_lt_0_compat; apply exp_pos.
  - apply Rmult_lt_0_compat; [apply exp_pos|]. apply sqrt_lt_R0. assert (1 < exp (z * z)) by (rewrite <- exp_0; apply exp_increasing; nra).
    apply Rmult_lt_0_compat; lra.
Qed.

Lemma lognormal_dF_state t x : (ln_lamb t, ln_zeta t) = ln_params (ln_mean t) (ln_stdv t) -> 0 < ln_mean t -> 0 < ln_stdv t -> 0 < x ->
  is_derive (fun m => d_cdf (lognormal_dist (lognormal_set_location m t)) x) (ln_mean t) (fst (lognormal_dF t x))
  /\ is_derive (fun s => d_cdf (lognormal_dist (lognormal_set_scale s t)) x) (ln_stdv t) (snd (lognormal_dF t x)).
Proof.
  intros E Hm Hs Hx. assert (El : ln_lamb t = fst (ln_params (ln_mean t) (ln_stdv t))) by (rewrite <- E; reflexivity).
  assert (Ez : ln_zeta t = snd (ln_params (ln_mean t) (ln_stdv t))) by (rewrite <- E; reflexivity).
  unfold lognormal_dF. cbn [fst snd]. rewrite El, Ez. fold (ln_z (ln_mean t) (ln_stdv t) x). split.
  - apply (is_derive_ext (fun m => Phi (ln_z m (ln_stdv t) x))); [|apply ln_dmean; assumption].
    intros m. cbn [lognormal_dist lognormal_set_location d_cdf ln_lamb ln_zeta]. rewrite ln_cdf_Phi by exact Hx. reflexivity.
  - apply (is_derive_ext (fun s => Phi (ln_z (ln_mean t) s x))); [|apply ln_dstdv; assumption].
    intros s. cbn [lognormal_dist lognormal_set_scale d_cdf ln_lamb ln_zeta]. rewrite ln_cdf_Phi by exact Hx. reflexivity.
Qed.

(** ** C47 Analytic CDF derivatives *)
Theorem C47_normal_dF : forall mean stdv sp x, 0 < stdv ->
  let dF := normal_dF (normal_init mean stdv sp) x in
  is_derive (fun m => d_cdf (normal_dist (normal_init m stdv sp)) x) mean (fst dF)
  /\ is_derive (fun s => d_cdf (normal_dist (normal_init mean s sp)) x) stdv (snd dF).
Proof.
  intros mean stdv sp x Hs. cbn [normal_init normal_dist normal_dF d_cdf fst snd no_mean no_stdv]. split.
  - apply normal_dmean, Hs.
  - apply normal_dstdv, Hs.
Qed.
Print Assumptions C47_normal_dF.

Theorem C47_lognormal_dF : forall mean stdv sp x, 0 < mean -> 0 < stdv -> 0 < x ->
  let dF := lognormal_dF (lognormal_init mean stdv true sp) x in
  is_derive (fun m => d_cdf (lognormal_dist (lognormal_init m stdv true sp)) x) mean (fst dF)
  /\ is_derive (fun s => d_cdf (lognormal_dist (lognormal_init mean s true sp)) x) stdv (snd dF).
Proof.
  intros m s sp x Hm Hs Hx. destruct (lognormal_by_moments m s sp Hm Hs) as (A & B & C & _).
  set (t := lognormal_init m s true sp) in *. rewrite <- A, <- B in C.
  destruct (lognormal_dF_state t x C) as [D1 D2]; [rewrite A; exact Hm|rewrite B; exact Hs|exact Hx|].
  rewrite A in D1. rewrite B in D2. split.
  - eapply is_derive_ext; [|exact D1]. intros m'. cbn [lognormal_dist lognormal_set_location d_cdf ln_lamb ln_zeta lognormal_init]. rewrite B. reflexivity.
  - eapply is_derive_ext; [|exact D2]. intros s'. cbn [lognormal_dist lognormal_set_scale d_cdf ln_lamb ln_zeta lognormal_init]. rewrite A. reflexivity.
Qed.
Print Assumptions C47_lognormal_dF.

(** and in every state reached by set_location / set_scale, for both ways of constructing *)
Theorem C47_lognormal_dF_after_updates : forall a b by_moments sp us x,
  (by_moments = true -> 0 < a) -> 0 < b -> all_locations (fun v => 0 < v) us -> all_scales (fun v => 0 < v) us -> 0 < x ->
  let t := apply_updates lognormal_set_location lognormal_set_scale us (lognormal_init a b by_moments sp) in
  is_derive (fun m => d_cdf (lognormal_dist (lognormal_set_location m t)) x) (d_mean (lognormal_dist t)) (fst (lognormal_dF t x))
  /\ is_derive (fun s => d_cdf (lognormal_dist (lognormal_set_scale s t)) x) (d_stdv (lognormal_dist t)) (snd (lognormal_dF t x)).
Proof.
  intros a b bm sp us x Ha Hb HL HS Hx t.
  assert (H0 : let t0 := lognormal_init a b bm sp in (ln_lamb t0, ln_zeta t0) = ln_params (ln_mean t0) (ln_stdv t0) /\ 0 < ln_mean t0 /\ 0 < ln_stdv t0).
  { cbv zeta. destruct bm.
    - destruct (lognormal_by_moments a b sp (Ha eq_refl) Hb) as (A & B & C & _). rewrite A, B. split; [exact C|split; [apply Ha; reflexivity|exact Hb]].
    - destruct (lognormal_by_params a b sp Hb) as (_ & _ & C & D & E). split; [exact C|split; assumption]. }
  destruct H0 as (E0 & M0 & S0). destruct (lognormal_updates us _ E0) as (M & S & E & _ & _). fold t in M, S, E.
  cbn [lognormal_dist d_mean d_stdv]. apply lognormal_dF_state; [exact E| | |exact Hx].
  - rewrite M. apply last_location_P; assumption.
  - rewrite S. apply last_scale_P; assumption.
Qed.
Print Assumptions C47_lognormal_dF_after_updates.

(** ** C48 Moment parametrisation round trip *)
Definition base_of (o : frozen) (sp : option R) : dist := base_dist (base_init o sp).

Theorem C48_closed_form_round_trip : forall mean stdv lower sp, 0 < stdv ->
  reports (normal_dist (normal_init mean stdv sp)) mean stdv
  /\ (0 < mean -> reports (lognormal_dist (lognormal_init mean stdv true sp)) mean stdv)
  /\ (lower < mean -> exists t, slognormal_init mean stdv lower true sp = Ok t /\ reports (slognormal_dist t) mean stdv)
  /\ reports (uniform_dist (uniform_init mean stdv true sp)) mean stdv
  /\ reports (base_of (shiftedexp_obj mean stdv true) sp) mean stdv
  /\ reports (base_of (shiftedrayleigh_obj mean stdv true) sp) mean stdv.
Proof.
  intros m s lo sp Hs. split; [split; reflexivity|]. split; [|split; [|split; [|split]]].
  - intros Hm. destruct (lognormal_by_moments m s sp Hm Hs) as (A & B & _). split; assumption.
  - intros Hl. assert (Hm : 0 < m - lo) by lra. destruct (ln_moments (m - lo) s Hm Hs) as [A B]. eexists. split; [reflexivity|].
    unfold reports. unfold slognormal_dist. cbn [lognormal_dist d_mean d_stdv sl_ln ln_mean ln_stdv base_init so_mean so_stdv].
    unfold fz_mean, fz_std. cbn [fz_loc fz_scale fz_fam lognorm_fam sf_mean sf_std]. split; [rewrite A; ring|exact B].
  - unfold reports. cbn [uniform_dist uniform_init base_dist base_init un_s d_mean d_stdv so_mean so_stdv]. unfold fz_mean, fz_std.
    cbn [fz_loc fz_scale fz_fam uniform_fam sf_mean sf_std]. split; [field|].
    assert (E : sqrt 3 * sqrt (1 / 12) = 1 / 2).
    { rewrite <- sqrt_mult by lra. replace (3 * (1 / 12)) with (1 / 2 * (1 / 2)) by field. apply sqrt_square. lra. }
    replace ((m + sqrt 3 * s - (m - sqrt 3 * s)) * sqrt (1 / 12)) with (2 * s * (sqrt 3 * sqrt (1 / 12))) by ring. rewrite E. field.
  - unfold reports, base_of. cbn [base_dist base_init d_mean d_stdv so_mean so_stdv]. unfold fz_mean, fz_std, shiftedexp_obj.
    cbn [fz_loc fz_scale fz_fam expon_fam sf_mean sf_std]. split; field; lra.
  - unfold reports, base_of. cbn [base_dist base_init d_mean d_stdv so_mean so_stdv]. unfold fz_mean, fz_std, shiftedrayleigh_obj.
    cbn [fz_loc fz_scale fz_fam rayleigh_fam sf_mean sf_std].
    assert (P : 0 < 2 - PI / 2) by (pose proof PI_lt_4; lra).
    replace (2 - PI * (1 / 2)) with (2 - PI / 2) by field.
    pose proof (sqrt_lt_R0 _ P) as Q. split.
    + replace (PI / (4 - PI)) with (PI / 2 / (2 - PI / 2)) by (field; lra).
      rewrite sqrt_div; [field; lra|pose proof PI_RGT_0; lra|exact P].
    + field. lra.
Qed.
Print Assumptions C48_closed_form_round_trip.

(** reconstruction from the object's own moments gives the same distribution, however
    it was specified *)
Theorem C48_lognormal_reconstruction : forall lamb zeta sp sp', 0 < zeta ->
  let t := lognormal_init lamb zeta false sp in
  let t' := lognormal_init (d_mean (lognormal_dist t)) (d_stdv (lognormal_dist t)) true sp' in
  forall x, d_cdf (lognormal_dist t') x = d_cdf (lognormal_dist t) x /\ d_pdf (lognormal_dist t') x = d_pdf (lognormal_dist t) x
            /\ d_u2x (lognormal_dist t') x = d_u2x (lognormal_dist t) x /\ d_ppf (lognormal_dist t') x = d_ppf (lognormal_dist t) x.
Proof.
  intros l z sp sp' Hz t t' x. destruct (lognormal_by_params l z sp Hz) as (A & B & C & _). fold t in A, B, C.
  assert (E : ln_lamb t' = l /\ ln_zeta t' = z /\ ln_obj t' = ln_obj t).
  { unfold t'. cbn [lognormal_dist d_mean d_stdv lognormal_init ln_lamb ln_zeta ln_obj]. rewrite <- C, A, B. repeat split. }
  destruct E as (E1 & E2 & E3). cbn [lognormal_dist d_cdf d_pdf d_u2x d_ppf]. rewrite E1, E2, E3, A, B. repeat split.
Qed.
Print Assumptions C48_lognormal_reconstruction.

Theorem C48_uniform_reconstruction : forall a b sp sp',
  let t := uniform_init a b false sp in
  let t' := uniform_init (d_mean (uniform_dist t)) (d_stdv (uniform_dist t)) true sp' in
  un_a t' = a /\ un_b t' = b /\ forall x, d_cdf (uniform_dist t') x = d_cdf (uniform_dist t) x.
Proof.
  intros a b sp sp' t t'.
  assert (E : sqrt 3 * sqrt (1 / 12) = 1 / 2).
  { rewrite <- sqrt_mult by lra. replace (3 * (1 / 12)) with (1 / 2 * (1 / 2)) by field. apply sqrt_square. lra. }
  assert (M : d_mean (uniform_dist t) = a + (b - a) * (1 / 2)) by reflexivity.
  assert (S : d_stdv (uniform_dist t) = (b - a) * sqrt (1 / 12)) by reflexivity.
  assert (EA : un_a t' = a). { unfold t'. cbn [uniform_init un_a]. rewrite M, S. replace (sqrt 3 * ((b - a) * sqrt (1 / 12))) with ((b - a) * (sqrt 3 * sqrt (1 / 12))) by ring. rewrite E. field. }
  assert (EB : un_b t' = b). { unfold t'. cbn [uniform_init un_b]. rewrite M, S. replace (sqrt 3 * ((b - a) * sqrt (1 / 12))) with ((b - a) * (sqrt 3 * sqrt (1 / 12))) by ring. rewrite E. field. }
  split; [exact EA|split; [exact EB|]]. intros x.
  assert (O : so_obj (un_s t') = mkFrozen uniform_fam (un_a t') (un_b t' - un_a t')) by reflexivity.
  cbn [uniform_dist d_cdf base_dist]. rewrite O, EA, EB. reflexivity.
Qed.
Print Assumptions C48_uniform_reconstruction.

(** Gumbel, TypeIlargestValue, TypeIsmallestValue: the standard deviation is exact,
    the mean off by the error of the ten-digit Euler constant in the source *)
Theorem C48_gumbel_round_trip_up_to_constant : forall eg mean stdv sp, 0 < stdv ->
  reports (base_of (gumbel_obj eg mean stdv true) sp) (mean + (eg - 5772156649 / 10000000000) * (stdv * sqrt 6 / PI)) stdv
  /\ reports (base_of (typeismallest_obj eg mean stdv true) sp) (mean - (eg - 5772156649 / 10000000000) * (stdv * sqrt 6 / PI)) stdv.
Proof.
  change (5772156649 / 10000000000) with eg_literal.
  intros eg m s sp Hs. pose proof PI_RGT_0. assert (0 < sqrt 6) by (apply sqrt_lt_R0; lra).
  unfold reports, base_of. cbn [base_dist base_init d_mean d_stdv so_mean so_stdv]. unfold fz_mean, fz_std, gumbel_obj, typeismallest_obj.
  cbn [fz_loc fz_scale fz_fam gumbel_fam gumbel_l_fam sf_mean sf_std]. repeat split; field; lra.
Qed.
Print Assumptions C48_gumbel_round_trip_up_to_constant.

(** Gamma; ChiSquare reports both moments multiplied by r = mean / (stdv^2/2), and
    prints its warning exactly when r leaves [0.95, 1.05] *)
Theorem C48_gamma_chisquare : forall gam chi2 mean stdv sp, 0 < mean -> 0 < stdv ->
  (forall a, 0 < a -> sf_mean (gam a) = a /\ sf_std (gam a) = sqrt a) ->
  (forall nu, 0 < nu -> sf_mean (chi2 nu) = nu /\ sf_std (chi2 nu) = sqrt (2 * nu)) ->
  reports (base_of (gamma_obj gam mean stdv true) sp) mean stdv
  /\ (let r := mean / (1 / 2 * (stdv * stdv)) in
      let d := base_of (chisquare_obj chi2 mean stdv true) sp in
      reports d (r * mean) (r * stdv)
      /\ (reports d mean stdv <-> mean = stdv * stdv / 2)
      /\ (chisquare_warns mean stdv = true <-> ~ (95 / 100 <= r <= 105 / 100))).
Proof.
  intros gam chi2 m s sp Hm Hs HG HC.
  assert (R : reports (base_of (chisquare_obj chi2 m s true) sp) (m / (1 / 2 * (s * s)) * m) (m / (1 / 2 * (s * s)) * s)).
  { unfold reports, base_of. cbn [base_dist base_init d_mean d_stdv so_mean so_stdv]. unfold fz_mean, fz_std, chisquare_obj.
    cbn [fz_loc fz_scale fz_fam]. assert (N : 0 < 2 * (m * m) / (s * s)) by (apply Rdiv_lt_0_compat; nra). destruct (HC _ N) as [-> ->]. split.
    - field. lra.
    - replace (2 * (2 * (m * m) / (s * s))) with ((2 * m / s) * (2 * m / s)) by (field; lra).
      rewrite sqrt_square by (apply Rlt_le, Rdiv_lt_0_compat; lra). field. lra. }
  split.
  - unfold reports, base_of. cbn [base_dist base_init d_mean d_stdv so_mean so_stdv]. unfold fz_mean, fz_std, gamma_obj.
    cbn [fz_loc fz_scale fz_fam]. assert (A : 0 < m * m / (s * s)) by (apply Rdiv_lt_0_compat; nra). destruct (HG _ A) as [-> ->]. split; [field; lra|].
    replace (m * m / (s * s)) with ((m / s) * (m / s)) by (field; lra). rewrite sqrt_square by (apply Rlt_le, Rdiv_lt_0_compat; lra). field. lra.
  - cbv zeta. split; [exact R|]. split.
    + destruct R as [R1 R2]. unfold reports. rewrite R1, R2. split.
      * intros [E _]. assert (E' : m / (1 / 2 * (s * s)) = 1) by (apply (Rmult_eq_reg_r m); [rewrite E; ring|lra]).
        apply (f_equal (fun v => v * (s * s / 2))) in E'. field_simplify in E'; lra.
      * intros E. assert (E' : m / (1 / 2 * (s * s)) = 1) by (rewrite E; field; lra). rewrite E'. split; ring.
    + unfold chisquare_warns. rewrite Bool.orb_true_iff, !Rltb_spec. lra.
Qed.
Print Assumptions C48_gamma_chisquare.

(** Weibull/TypeIIIsmallest, TypeIIlargest, Beta: exact whenever the numerical solver
    returns a root (a zero of the objective) *)
Theorem C48_solver_based : forall Gam fsolve bet fmin mean stdv eps a b sp,
  (let k := fsolve (fun x => weibull_parameter Gam x (mean - eps) stdv) (1 / 10) in
   weibull_parameter Gam k (mean - eps) stdv = 0 -> mean <> eps -> Gam (1 + 1 / k) <> 0 ->
   reports (base_of (weibull_obj Gam fsolve mean stdv eps true) sp) mean stdv)
  /\ (let k := fsolve (fun x => typeII_parameter Gam x mean stdv) (2000001 / 1000000) in
   typeII_parameter Gam k mean stdv = 0 -> mean <> 0 -> Gam (1 - 1 / k) <> 0 ->
   reports (base_of (typeII_obj Gam fsolve mean stdv true) sp) mean stdv)
  /\ (let q := fmin (beta_parameter a b mean stdv) 1 in
   beta_parameter a b mean stdv q = 0 -> 0 < q -> a < mean < b ->
   (forall q r, 0 < q -> 0 < r -> sf_mean (bet q r) = q / (q + r) /\ sf_std (bet q r) = sqrt (q * r / (q + r + 1)) / (q + r)) ->
   reports (base_of (beta_obj bet fmin mean stdv a b true) sp) mean stdv).
Proof.
  intros Gam fsolve bet fmin m s eps a b sp. split; [|split].
  - intros k H Hm Hg. change (fz_mean (weibull_obj Gam fsolve m s eps true) = m /\ fz_std (weibull_obj Gam fsolve m s eps true) = s). unfold fz_mean, fz_std, weibull_obj. cbv zeta. fold k. cbn [fz_loc fz_scale fz_fam weibull_fam sf_mean sf_std].
    unfold weibull_parameter in H. assert (E : sqrt (Gam (1 + 2 / k) - Gam (1 + 1 / k) * Gam (1 + 1 / k)) = s / (m - eps) * Gam (1 + 1 / k)) by lra.
    rewrite E. split; field; [exact Hg|split; [lra|exact Hg]].
  - intros k H Hm Hg. change (fz_mean (typeII_obj Gam fsolve m s true) = m /\ fz_std (typeII_obj Gam fsolve m s true) = s). unfold fz_mean, fz_std, typeII_obj. cbv zeta. fold k. cbn [fz_loc fz_scale fz_fam frechet_fam sf_mean sf_std].
    unfold typeII_parameter in H. assert (E : sqrt (Gam (1 - 2 / k) - Gam (1 - 1 / k) * Gam (1 - 1 / k)) = s / m * Gam (1 - 1 / k)) by lra.
    rewrite E. split; field; [exact Hg|split; [exact Hm|exact Hg]].
  - intros q H Hq Hab HB. change (fz_mean (beta_obj bet fmin m s a b true) = m /\ fz_std (beta_obj bet fmin m s a b true) = s). unfold fz_mean, fz_std, beta_obj. cbv zeta. fold q. cbn [fz_loc fz_scale fz_fam].
    set (r := q * (b - a) * / (m - a) - q).
    assert (Er : r = (b - m) * / (m - a) * q) by (unfold r; field; lra).
    assert (Hr : 0 < r). { rewrite Er. apply Rmult_lt_0_compat; [|exact Hq]. apply Rmult_lt_0_compat; [lra|apply Rinv_0_lt_compat; lra]. }
    destruct (HB q r Hq Hr) as [-> ->]. split.
    + assert (Es : q + r = q * (b - a) / (m - a)) by (unfold r; field; lra). rewrite Es. field. lra.
    + unfold beta_parameter in H. cbv zeta in H. rewrite <- Er in H.
      assert (Z : (b - a) * / (q + r) * sqrt (q * r * / (q + r + 1)) - s = 0).
      { destruct (Req_dec ((b - a) * / (q + r) * sqrt (q * r * / (q + r + 1)) - s) 0) as [W|W]; [exact W|]. apply Rabs_no_R0 in W. contradiction. }
      unfold Rdiv. lra.
Qed.
Print Assumptions C48_solver_based.

(** GEVmax *)
Theorem C48_gevmax_round_trip : forall Gam eg mean stdv shape sp,
  let g1 := Gam (1 - shape) in let g2 := Gam (1 - 2 * shape) in
  (gevmax_obj Gam eg mean stdv shape true = Err EValue <-> 1 / 2 <= shape)
  /\ (shape < 1 / 2 -> shape = 0 \/ (/ 10 ^ 8 < Rabs shape /\ 0 < g2 - g1 * g1) ->
      exists o, gevmax_obj Gam eg mean stdv shape true = Ok o /\ reports (base_of o sp) mean stdv).
Proof.
  intros Gam eg m s shape sp g1 g2. pose proof PI_RGT_0. assert (0 < sqrt 6) by (apply sqrt_lt_R0; lra). split.
  - unfold gevmax_obj. destruct (Rleb (1 / 2) shape) eqn:E; [apply Rleb_spec in E|apply Rleb_false in E]; split; intros; try reflexivity; try discriminate; lra.
  - intros Hs Hc. unfold gevmax_obj. replace (Rleb (1 / 2) shape) with false by (symmetry; apply Rleb_false, Hs). eexists. split; [reflexivity|].
    unfold reports, base_of. cbn [base_dist base_init d_mean d_stdv so_mean so_stdv]. unfold fz_mean, fz_std, gev_loc_scale. fold g1 g2.
    destruct Hc as [Hc|[Hc Hg]].
    + replace (close0 shape) with true.
      2:{ symmetry. unfold close0. apply Rleb_spec. rewrite Hc, Rabs_R0. apply Rlt_le, Rinv_0_lt_compat, pow_lt. lra. }
      cbn [fz_fam fz_loc fz_scale fst snd]. unfold gev_fam, Reqb. destruct (Req_EM_T (- shape) 0) as [e|e]; [|exfalso; apply e; lra].
      cbn [gumbel_fam sf_mean sf_std]. split; field; lra.
    + replace (close0 shape) with false by (symmetry; unfold close0; apply Rleb_false, Hc).
      assert (N : shape <> 0). { intros E. rewrite E, Rabs_R0 in Hc. pose proof (pow_lt 10 8 ltac:(lra)). apply Rinv_0_lt_compat in H1. lra. }
      cbn [fz_fam fz_loc fz_scale fst snd]. unfold gev_fam, Reqb. destruct (Req_EM_T (- shape) 0) as [e|e]; [exfalso; lra|].
      cbn [sf_mean sf_std]. replace (1 + - shape) with (1 - shape) by ring. replace (1 + 2 * - shape) with (1 - 2 * shape) by ring. fold g1 g2.
      rewrite Rabs_Ropp. pose proof (sqrt_lt_R0 _ Hg). assert (Rabs shape <> 0) by (apply Rabs_no_R0, N). split; field; repeat split; lra.
Qed.
Print Assumptions C48_gevmax_round_trip.

(** ** C52 Updates *)
Theorem C52_normal_updates : forall mean stdv sp us, 0 < stdv -> all_scales (fun v => 0 < v) us ->
  let d := normal_dist (apply_updates normal_set_location normal_set_scale us (normal_init mean stdv sp)) in
  reports d (last_location mean us) (last_scale stdv us) /\ marginal_maps_ok d /\ ppf_ok d
  /\ forall x, d_cdf d x = d_cdf (normal_dist (normal_init (last_location mean us) (last_scale stdv us) sp)) x.
Proof.
  intros m s sp us Hs HS d. unfold d. rewrite normal_updates. cbn [normal_init no_mean no_stdv].
  assert (P : 0 < last_scale s us) by (apply last_scale_P; assumption). split; [split; reflexivity|].
  destruct (normal_maps (mkNormal (last_location m us) (last_scale s us) (no_start (normal_init m s sp))) P) as [A B].
  split; [exact A|split; [exact B|reflexivity]].
Qed.
Print Assumptions C52_normal_updates.

Theorem C52_lognormal_updates : forall mean stdv sp us, 0 < mean -> 0 < stdv ->
  all_locations (fun v => 0 < v) us -> all_scales (fun v => 0 < v) us ->
  let d0 := lognormal_dist (lognormal_init mean stdv true sp) in
  let d := lognormal_dist (apply_updates lognormal_set_location lognormal_set_scale us (lognormal_init mean stdv true sp)) in
  reports d (last_location mean us) (last_scale stdv us) /\ marginal_maps_ok d
  /\ (forall x, d_cdf d x = d_cdf (lognormal_dist (lognormal_init (last_location mean us) (last_scale stdv us) true sp)) x)
  /\ (forall p, d_ppf d p = d_ppf d0 p)
  /\ (ppf_ok d <-> last_location mean us = mean /\ last_scale stdv us = stdv).
Proof.
  intros m s sp us Hm Hs HL HS d0 d. destruct (lognormal_by_moments m s sp Hm Hs) as (A & B & C & O & Z).
  set (t0 := lognormal_init m s true sp) in *. assert (C0 : (ln_lamb t0, ln_zeta t0) = ln_params (ln_mean t0) (ln_stdv t0)) by (rewrite A, B; exact C).
  destruct (lognormal_updates us t0 C0) as (M & S & E & Ob & _).
  unfold d. set (t := apply_updates lognormal_set_location lognormal_set_scale us t0) in *. rewrite A in M. rewrite B in S.
  assert (PM : 0 < last_location m us) by (apply last_location_P; assumption).
  assert (PS : 0 < last_scale s us) by (apply last_scale_P; assumption).
  rewrite M, S in E.
  assert (El : ln_lamb t = fst (ln_params (last_location m us) (last_scale s us))) by (rewrite <- E; reflexivity).
  assert (Ez : ln_zeta t = snd (ln_params (last_location m us) (last_scale s us))) by (rewrite <- E; reflexivity).
  assert (Pz : 0 < ln_zeta t) by (rewrite Ez; apply zeta_pos; assumption).
  split; [split; assumption|]. split; [apply lognormal_maps, Pz|]. split; [|split].
  - intros x. cbn [lognormal_dist d_cdf]. rewrite El, Ez. reflexivity.
  - intros p. cbn [lognormal_dist d_ppf]. rewrite Ob. reflexivity.
  - rewrite (lognormal_ppf_ok_iff t (ln_lamb t0) (ln_zeta t0)); [|rewrite Ob; exact O|exact Pz].
    split.
    + intros [E1 E2]. destruct (ln_moments m s Hm Hs) as [Q1 Q2]. destruct (ln_moments _ _ PM PS) as [Q3 Q4]. rewrite <- El, <- Ez in Q3, Q4.
      assert (F1 : ln_lamb t0 = fst (ln_params m s)) by (rewrite <- C; reflexivity). assert (F2 : ln_zeta t0 = snd (ln_params m s)) by (rewrite <- C; reflexivity).
      rewrite E1, E2, F1, F2 in Q3, Q4. split; [rewrite <- Q3; exact Q1|rewrite <- Q4; exact Q2].
    + intros [E1 E2]. rewrite E1, E2 in El, Ez. rewrite El, Ez, <- C. split; reflexivity.
Qed.
Print Assumptions C52_lognormal_updates.

(** Uniform: the location is the lower bound and the scale the width *)
Theorem C52_uniform_updates : forall a b sp us, a < b -> all_scales (fun v => 0 < v) us ->
  let d := uniform_dist (apply_updates uniform_set_location uniform_set_scale us (uniform_init a b false sp)) in
  let lo := last_location a us in let w := last_scale (b - a) us in
  (forall x, d_cdf d x = d_cdf (uniform_dist (uniform_init lo (lo + w) false sp)) x)
  /\ (forall p, 0 < p < 1 -> d_cdf d (d_ppf d p) = p)
  /\ reports d (lo + w / 2) (w * sqrt (1 / 12))
  /\ (forall u, d_u2x d u = a + (b - a) * Phi u)
  /\ ((forall u, d_cdf d (d_u2x d u) = Phi u) <-> lo = a /\ w = b - a).
Proof.
  intros a b sp us Hab HS d lo w. set (t0 := uniform_init a b false sp).
  destruct (uniform_updates us t0) as (A & B & F & L & S & M). unfold d.
  fold t0. set (t := apply_updates uniform_set_location uniform_set_scale us t0) in *.
  assert (L' : fz_loc (so_obj (un_s t)) = lo) by exact L.
  assert (S' : fz_scale (so_obj (un_s t)) = w) by exact S.
  assert (F' : fz_fam (so_obj (un_s t)) = uniform_fam) by exact F.
  assert (A' : un_a t = a) by exact A. assert (B' : un_b t = b) by exact B.
  assert (Pw : 0 < w) by (apply (last_scale_P (fun v => 0 < v)); [lra|exact HS]).
  destruct (M eq_refl eq_refl) as [M1 M2].
  split; [|split; [|split; [|split]]].
  - intros x. cbn [uniform_dist uniform_init base_dist base_init d_cdf un_s so_obj]. unfold fz_cdf. rewrite F', L', S'. cbn [fz_fam fz_loc fz_scale].
    replace (lo + w - lo) with w by ring. reflexivity.
  - intros p Hp. apply (fz_quantile (so_obj (un_s t))); [rewrite F'; apply sfam_uniform|rewrite S'; exact Pw|exact Hp].
  - unfold reports. cbn [uniform_dist base_dist d_mean d_stdv]. rewrite M1, M2. unfold fz_mean, fz_std. rewrite F', L', S'. cbn [uniform_fam sf_mean sf_std].
    split; [field|reflexivity].
  - intros u. cbn [uniform_dist d_u2x]. rewrite A', B'. reflexivity.
  - rewrite (uniform_cdf_level t a b lo w A' B' F' L' S' Pw). split; intros [? ?]; split; lra.
Qed.
Print Assumptions C52_uniform_updates.

(** any SciPy-backed class without its own maps: everything follows the update, except
    the start point *)
Theorem C52_scipy_updates : forall o sp us, fam_ok (fz_fam o) -> 0 < fz_scale o -> all_scales (fun v => 0 < v) us ->
  let s := apply_updates base_set_location base_set_scale us (base_init o sp) in
  let o' := mkFrozen (fz_fam o) (last_location (fz_loc o) us) (last_scale (fz_scale o) us) in
  marginal_maps_ok (base_dist s) /\ ppf_ok (base_dist s)
  /\ reports (base_dist s) (fz_mean o') (fz_std o')
  /\ (forall x, d_cdf (base_dist s) x = fz_cdf o' x)
  /\ so_start s = match sp with None => fz_mean o | Some v => v end.
Proof.
  intros o sp us HF Hs HS s o'. destruct (base_updates us (base_init o sp)) as (F & L & S & St & M). fold s in F, L, S, St, M.
  destruct (M eq_refl eq_refl) as [M1 M2]. cbn [base_init so_obj] in F, L, S.
  assert (Pw : 0 < fz_scale (so_obj s)) by (rewrite S; apply (last_scale_P (fun v => 0 < v)); assumption).
  assert (EO : so_obj s = o') by (unfold o'; rewrite <- F, <- L, <- S; destruct (so_obj s); reflexivity).
  destruct (base_maps s) as [A B]; [rewrite F; exact HF|exact Pw|].
  split; [exact A|split; [exact B|split; [|split]]].
  - unfold reports. cbn [base_dist d_mean d_stdv]. rewrite M1, M2, EO. split; reflexivity.
  - intros x. cbn [base_dist d_cdf]. rewrite EO. reflexivity.
  - rewrite St. reflexivity.
Qed.
Print Assumptions C52_scipy_updates.

(** ** C53 Marginal maps *)
Theorem C53_normal_maps : forall mean stdv sp, 0 < stdv ->
  marginal_maps_ok (normal_dist (normal_init mean stdv sp)) /\ ppf_ok (normal_dist (normal_init mean stdv sp)).
Proof. intros. apply normal_maps. exact H. Qed.
Print Assumptions C53_normal_maps.

Theorem C53_lognormal_maps : forall a b by_moments sp, 0 < b -> (by_moments = true -> 0 < a) ->
  marginal_maps_ok (lognormal_dist (lognormal_init a b by_moments sp)) /\ ppf_ok (lognormal_dist (lognormal_init a b by_moments sp)).
Proof.
  intros a b bm sp Hb Ha. assert (Z : 0 < ln_zeta (lognormal_init a b bm sp)).
  { destruct bm; [apply lognormal_by_moments; auto|exact Hb]. }
  split; [apply lognormal_maps, Z|]. apply (lognormal_ppf_ok_iff _ (ln_lamb (lognormal_init a b bm sp)) (ln_zeta (lognormal_init a b bm sp))); [reflexivity|exact Z|split; reflexivity].
Qed.
Print Assumptions C53_lognormal_maps.

Theorem C53_shiftedlognormal_maps : forall mean stdv lower sp, 0 < stdv -> lower < mean ->
  exists t, slognormal_init mean stdv lower true sp = Ok t /\ marginal_maps_ok (slognormal_dist t) /\ ppf_ok (slognormal_dist t).
Proof.
  intros m s lo sp Hs Hl. eexists. split; [reflexivity|].
  assert (Z : 0 < snd (ln_params (m - lo) s)) by (apply zeta_pos; lra). split; [apply slognormal_maps; exact Z|].
  intros p Hp. unfold slognormal_dist. cbn [sl_ln sl_lower lognormal_dist d_cdf d_ppf ln_lamb ln_zeta ln_obj]. unfold fz_ppf. cbn [fz_fam fz_loc fz_scale lognorm_fam sf_ppf].
  replace (Rleb p 0) with false by (symmetry; apply Rleb_false; lra).
  set (l := fst (ln_params (m - lo) s)). set (z := snd (ln_params (m - lo) s)) in *.
  replace (lo + exp l * exp (z * ppf p) - lo) with (exp l * exp (z * ppf p)) by ring. rewrite <- exp_plus.
  rewrite ln_cdf_Phi, ln_exp by apply exp_pos. replace ((l + z * ppf p - l) / z) with (ppf p) by (field; lra). apply Phi_ppf, Hp.
Qed.
Print Assumptions C53_shiftedlognormal_maps.

Theorem C53_uniform_maps : forall a b (by_moments : bool) sp, (if by_moments then 0 < b else a < b) ->
  marginal_maps_ok (uniform_dist (uniform_init a b by_moments sp)) /\ ppf_ok (uniform_dist (uniform_init a b by_moments sp)).
Proof.
  intros a b bm sp H. apply uniform_maps; try reflexivity. destruct bm; cbn [uniform_init un_a un_b]; [|exact H].
  assert (0 < sqrt 3) by (apply sqrt_lt_R0; lra). nra.
Qed.
Print Assumptions C53_uniform_maps.

(** every class that only hands a frozen SciPy object to the base class, by what SciPy
    guarantees about the family; and the families pystra uses do guarantee it *)
Theorem C53_scipy_maps : forall o sp, fam_ok (fz_fam o) -> 0 < fz_scale o ->
  marginal_maps_ok (base_of o sp) /\ ppf_ok (base_of o sp).
Proof. intros o sp H Hs. apply base_maps; assumption. Qed.
Print Assumptions C53_scipy_maps.

Theorem C53_scipy_classes_maps : forall sp mean stdv eg Gam fsolve eps, 0 < stdv ->
  let good o := marginal_maps_ok (base_of o sp) /\ ppf_ok (base_of o sp) in
  good (shiftedexp_obj mean stdv true) /\ good (shiftedrayleigh_obj mean stdv true)
  /\ good (gumbel_obj eg mean stdv true) /\ good (typeismallest_obj eg mean stdv true)
  /\ (forall u_1, eps < u_1 -> good (weibull_obj Gam fsolve u_1 stdv eps false))
  /\ (forall u_n, 0 < u_n -> good (typeII_obj Gam fsolve u_n stdv false)).
Proof.
  intros sp m s eg Gam fsolve eps Hs good. pose proof PI_RGT_0. assert (0 < sqrt 6) by (apply sqrt_lt_R0; lra).
  assert (P4 : 0 < 2 - PI * (1 / 2)) by (pose proof PI_lt_4; lra).
  pose proof (sqrt_lt_R0 _ P4).
  split; [|split; [|split; [|split; [|split]]]]; intros; apply C53_scipy_maps; cbn [shiftedexp_obj shiftedrayleigh_obj gumbel_obj typeismallest_obj weibull_obj typeII_obj fz_fam fz_scale].
  - apply sfam_expon.
  - unfold Rdiv. rewrite Rmult_1_l, Rmult_1_l, Rinv_inv. exact Hs.
  - apply sfam_rayleigh.
  - apply Rdiv_lt_0_compat; assumption.
  - apply sfam_gumbel.
  - apply Rdiv_lt_0_compat; [nra|assumption].
  - apply sfam_gumbel_l.
  - unfold Rdiv. rewrite Rmult_1_l. apply Rinv_0_lt_compat. apply Rmult_lt_0_compat; [assumption|]. apply Rinv_0_lt_compat. nra.
  - apply sfam_weibull, Hs.
  - lra.
  - apply sfam_frechet, Hs.
  - assumption.
Qed.
Print Assumptions C53_scipy_classes_maps.

(** ** C75 ShiftedLognormal.dF_dtheta *)
Definition sl_cdf_of (sp : option R) (mean stdv lower x : R) : R :=
  match slognormal_init mean stdv lower true sp with Ok t => d_cdf (slognormal_dist t) x | Err _ => 0 end.

Lemma ln_slope_zero m s : 0 < m -> 0 < s ->
  ln_z m s (exp (fst (ln_params m s) + snd (ln_params m s) * snd (ln_params m s))) = snd (ln_params m s).
Proof. intros Hm Hs. unfold ln_z. rewrite ln_exp. pose proof (zeta_pos m s Hm Hs). field. lra. Qed.

Theorem C75_shiftedlognormal_dF_refuted : forall mean stdv lower sp, 0 < mean -> lower < mean -> 0 < stdv -> lower <> 0 ->
  exists t x D, slognormal_init mean stdv lower true sp = Ok t /\ lower < x /\ 0 < x
    /\ is_derive (fun s => sl_cdf_of sp mean s lower x) stdv D /\ snd (slognormal_dF t x) <> D.
Proof.
  intros m s lo sp Hm Hl Hs Hn. assert (Hm' : 0 < m - lo) by lra.
  set (l := fst (ln_params (m - lo) s)). set (z := snd (ln_params (m - lo) s)).
  pose proof (zeta_pos (m - lo) s Hm' Hs) as Hz. fold z in Hz.
  set (y := exp (l + z * z)). assert (Y : m - lo < y).
  { destruct (ln_moments (m - lo) s Hm' Hs) as [Q _]. fold l z in Q. rewrite <- Q, <- exp_plus. unfold y. apply exp_increasing. nra. }
  eexists. exists (lo + y). exists 0. split; [reflexivity|]. pose proof (exp_pos (l + z * z)) as Py. fold y in Py.
  split; [lra|split; [lra|split]].
  - replace 0 with (phi (ln_z (m - lo) s y) / z * (- (- z * ((s / (m - lo)) / ((m - lo) * z * (1 + s / (m - lo) * (s / (m - lo)))))) - ln_z (m - lo) s y * ((s / (m - lo)) / ((m - lo) * z * (1 + s / (m - lo) * (s / (m - lo))))))).
    2:{ pose proof (ln_slope_zero (m - lo) s Hm' Hs) as E. fold l z y in E. rewrite E. ring. }
    apply (is_derive_ext (fun s => Phi (ln_z (m - lo) s y))); [|apply (ln_dstdv (m - lo) y s Hm' Hs)].
    intros s'. unfold sl_cdf_of, slognormal_init, slognormal_dist. cbn [negb sl_ln sl_lower lognormal_dist d_cdf ln_lamb ln_zeta].
    replace (lo + y - lo) with y by ring. rewrite ln_cdf_Phi by exact Py. reflexivity.
  - unfold slognormal_dF, lognormal_dF. cbn [snd sl_ln ln_stdv ln_mean ln_lamb ln_zeta base_init so_mean so_stdv]. fold l z.
    destruct (ln_moments (m - lo) s Hm' Hs) as [Q1 Q2]. fold l z in Q1, Q2.
    unfold fz_mean, fz_std. cbn [fz_loc fz_scale fz_fam lognorm_fam sf_mean sf_std]. rewrite Q1, Q2. replace (lo + (m - lo)) with m by ring.
    set (w := (ln (lo + y) - l) / z). set (dz := s / m / (m * z * (1 + s / m * (s / m)))).
    assert (Pd : 0 < dz). { unfold dz. apply Rdiv_lt_0_compat; [apply Rdiv_lt_0_compat; assumption|]. pose proof (cov_pos m s Hm Hs). apply Rmult_lt_0_compat; [nra|lra]. }
    replace (phi w / z * (- (- z * dz) - w * dz)) with (phi w / z * dz * (z - w)) by ring.
    apply Rmult_integral_contrapositive_currified.
    + apply Rmult_integral_contrapositive_currified; [|lra]. pose proof (phi_pos w). assert (0 < phi w / z) by (apply Rdiv_lt_0_compat; assumption). lra.
    + intros E. assert (E' : w = z) by lra. unfold w in E'. apply (f_equal (fun v => v * z)) in E'. unfold Rdiv in E'. rewrite Rmult_assoc, Rinv_l, Rmult_1_r in E' by lra.
      assert (E2 : ln (lo + y) = ln y) by (unfold y at 2; rewrite ln_exp; lra).
      apply ln_inv in E2; lra.
Qed.
Print Assumptions C75_shiftedlognormal_dF_refuted.

(** without a shift the inherited formula is right *)
Theorem C75_unshifted_dF : forall mean stdv sp x, 0 < mean -> 0 < stdv -> 0 < x ->
  exists t, slognormal_init mean stdv 0 true sp = Ok t
    /\ is_derive (fun m => sl_cdf_of sp m stdv 0 x) mean (fst (slognormal_dF t x))
    /\ is_derive (fun s => sl_cdf_of sp mean s 0 x) stdv (snd (slognormal_dF t x)).
Proof.
  intros m s sp x Hm Hs Hx. eexists. split; [reflexivity|].
  destruct (C47_lognormal_dF m s sp x Hm Hs Hx) as [D1 D2].
  assert (E : lognormal_init m s true sp = sl_ln (mkSln
     (mkLn (fst (ln_params (m - 0) s)) (snd (ln_params (m - 0) s)) (mkFrozen (lognorm_fam (snd (ln_params (m - 0) s))) 0 (exp (fst (ln_params (m - 0) s))))
       (so_mean (base_init (mkFrozen (lognorm_fam (snd (ln_params (m - 0) s))) 0 (exp (fst (ln_params (m - 0) s)))) sp))
       (so_stdv (base_init (mkFrozen (lognorm_fam (snd (ln_params (m - 0) s))) 0 (exp (fst (ln_params (m - 0) s)))) sp))
       (so_start (base_init (mkFrozen (lognorm_fam (snd (ln_params (m - 0) s))) 0 (exp (fst (ln_params (m - 0) s)))) sp))) 0 0)).
  { rewrite Rminus_0_r. reflexivity. }
  unfold slognormal_dF. rewrite <- E. split.
  - eapply is_derive_ext; [|exact D1]. intros m'. unfold sl_cdf_of, slognormal_init, slognormal_dist. cbn [negb sl_ln sl_lower lognormal_dist lognormal_init d_cdf ln_lamb ln_zeta].
    rewrite !Rminus_0_r. reflexivity.
  - eapply is_derive_ext; [|exact D2]. intros m'. unfold sl_cdf_of, slognormal_init, slognormal_dist. cbn [negb sl_ln sl_lower lognormal_dist lognormal_init d_cdf ln_lamb ln_zeta].
    rewrite !Rminus_0_r. reflexivity.
Qed.
Print Assumptions C75_unshifted_dF.

(** *** Non-vacuity *)
Example C52_history_example : last_location 10 [SetScale 3; SetLocation 12; SetScale 2] = 12 /\ last_scale 1 [SetScale 3; SetLocation 12; SetScale 2] = 2.
Proof. split; reflexivity. Qed.
Example C52_lognormal_history_breaks_ppf :
  ~ ppf_ok (lognormal_dist (apply_updates lognormal_set_location lognormal_set_scale [SetScale 3; SetLocation 12] (lognormal_init 10 1 true None))).
Proof.
  intros H. destruct (C52_lognormal_updates 10 1 None [SetScale 3; SetLocation 12]) as (_ & _ & _ & _ & E); try lra.
  - intros v [K|[K|[]]]; [discriminate|]. injection K as <-. lra.
  - intros v [K|[K|[]]]; [|discriminate]. injection K as <-. lra.
  - apply E in H. destruct H as [H _]. cbn in H. lra.
Qed.
Example C75_example : 0 < 2 /\ 1 < 2 /\ 0 < 1 /\ 1 <> 0.
Proof. repeat split; lra. Qed.
(** the moment contracts used for Gamma and ChiSquare are met by some families *)
Example C48_contract_example : exists gam : R -> sfam, forall a, 0 < a -> sf_mean (gam a) = a /\ sf_std (gam a) = sqrt a.
Proof. exists (fun a => mkFam (fun _ => 0) (fun _ => 0) (fun _ => 0) a (sqrt a)). intros. split; reflexivity. Qed.
