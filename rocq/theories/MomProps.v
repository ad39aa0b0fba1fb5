(** C79: the reported mean and standard deviation are the moments of the values a
    distribution produces. *)
From Coquelicot Require Import Coquelicot.
From Verif Require Import Base Gauss GaussProofs Dist DistSpec DistProofs DistMomProofs DistUpdProofs DistCompProofs DistProps
  MomSpec MomProofs MomFamProofs GammaProofs MomGamProofs MomZiProofs.
From Coq Require Import Lra Lia.
Open Scope R_scope.

(** Any SciPy-backed object, after any history of set_location / set_scale. *)
Theorem C79_scipy_objects : forall o sp us, fam_moments (fz_fam o) ->
  moments_true (base_dist (apply_updates base_set_location base_set_scale us (base_init o sp))).
Proof.
  intros o sp us H. destruct (base_updates us (base_init o sp)) as (F & _ & _ & _ & M). destruct (M eq_refl eq_refl) as [M1 M2].
  apply base_moments; [rewrite F; exact H|exact M1|exact M2].
Qed.
Print Assumptions C79_scipy_objects.

(** The families pystra freezes do satisfy it.  [is_gamma] says Gam is Euler's integral;
    [gumbel_constants] that eg is Euler's constant (as an integral) and the second moment of
    the standard Gumbel law is eg^2 + pi^2/6. *)
Theorem C79_families : forall Gam eg c, is_gamma Gam ->
  fam_moments uniform_fam /\ fam_moments expon_fam /\ fam_moments rayleigh_fam /\ (forall s, fam_moments (lognorm_fam s))
  /\ (0 < c -> fam_moments (weibull_fam Gam c)) /\ (2 < c -> fam_moments (frechet_fam Gam c))
  /\ (- (1 / 2) < c -> c <> 0 -> fam_moments (gev_fam Gam eg c))
  /\ (gumbel_constants eg -> fam_moments (gumbel_fam eg) /\ fam_moments (gumbel_l_fam eg) /\ fam_moments (gev_fam Gam eg 0)).
Proof.
  intros Gam eg c HG. split; [apply fam_uniform|]. split; [apply fam_expon|]. split; [apply fam_rayleigh|]. split; [apply fam_lognorm|].
  split; [now apply fam_weibull|]. split; [now apply fam_frechet|]. split; [now apply fam_gev|]. intros K.
  split; [now apply fam_gumbel|]. split; [now apply fam_gumbel_l|]. unfold gev_fam, Reqb. destruct (Req_EM_T 0 0); [now apply fam_gumbel|congruence].
Qed.
Print Assumptions C79_families.

(** ... and Euler's integral converges, so [is_gamma] is satisfiable, with the usual values. *)
Theorem C79_gamma_exists : is_gamma GammaF /\ forall Gam, is_gamma Gam ->
  Gam 1 = 1 /\ (forall s, 0 < s -> Gam (s + 1) = s * Gam s).
Proof. split; [apply GammaF_is_gamma|]. intros Gam H. split; [now apply gamma_1|intros s Hs; now apply gamma_rec]. Qed.
Print Assumptions C79_gamma_exists.

(** Hence, whatever parameters or moments they were built from: *)
Theorem C79_classes : forall Gam eg fsolve mean stdv eps shape by_moments sp us, is_gamma Gam ->
  let good o := moments_true (base_dist (apply_updates base_set_location base_set_scale us (base_init o sp))) in
  good (shiftedexp_obj mean stdv by_moments) /\ good (shiftedrayleigh_obj mean stdv by_moments)
  /\ (0 < stdv -> good (weibull_obj Gam fsolve mean stdv eps false))
  /\ (0 < fsolve (fun x => weibull_parameter Gam x (mean - eps) stdv) (1 / 10) -> good (weibull_obj Gam fsolve mean stdv eps true))
  /\ (2 < stdv -> good (typeII_obj Gam fsolve mean stdv false))
  /\ (2 < fsolve (fun x => typeII_parameter Gam x mean stdv) (2000001 / 1000000) -> good (typeII_obj Gam fsolve mean stdv true))
  /\ (gumbel_constants eg -> good (gumbel_obj eg mean stdv by_moments) /\ good (typeismallest_obj eg mean stdv by_moments))
  /\ (forall o, gevmax_obj Gam eg mean stdv shape by_moments = Ok o -> shape <> 0 \/ gumbel_constants eg -> good o).
Proof.
  intros Gam eg fsolve m s eps shape bm sp us HG good.
  assert (G : forall o, fam_moments (fz_fam o) -> good o) by (intros o Ho; exact (C79_scipy_objects o sp us Ho)). clearbody good.
  repeat match goal with |- _ /\ _ => split end; intros; repeat match goal with |- _ /\ _ => split end; apply G.
  - apply fam_expon.
  - apply fam_rayleigh.
  - now apply fam_weibull.
  - now apply fam_weibull.
  - now apply fam_frechet.
  - now apply fam_frechet.
  - now apply fam_gumbel.
  - now apply fam_gumbel_l.
  - unfold gevmax_obj in H. destruct (Rleb (1 / 2) shape) eqn:El; [discriminate|]. apply Rleb_false in El. injection H as <-. cbn [fz_fam].
    destruct (Req_dec shape 0) as [->|N].
    + destruct H0 as [H0|H0]; [congruence|]. replace (- 0) with 0 by ring. now apply C79_families.
    + apply fam_gev; [exact HG|lra|lra].
Qed.
Print Assumptions C79_classes.

(** Normal: any construction, any history, any sign of the scale. *)
Theorem C79_normal : forall mean stdv sp us,
  moments_true (normal_dist (apply_updates normal_set_location normal_set_scale us (normal_init mean stdv sp))).
Proof.
  intros m s sp us. rewrite normal_updates. cbn [normal_init no_mean no_stdv no_start].
  set (m' := last_location m us). set (s' := last_scale s us).
  assert (I1 := eN_u). assert (I2 : expectN (fun u => u * u) (0 * 0 + 1 * 1)) by (replace (0 * 0 + 1 * 1) with 1 by ring; exact eN_u2).
  destruct (eN_affine (fun u => u) 0 1 m' s' I1 I2) as [K1 K2].
  replace (m' + s' * 0) with m' in * by ring. replace (s' * 1 * (s' * 1)) with (s' * s') in K2 by ring.
  split; split; unfold d_sample; cbn [normal_dist d_ppf d_u2x d_mean d_stdv no_mean no_stdv].
  - assert (X := to_01 (fun u => m' + s' * u) m' (fun u => cont_aff (fun u => u) m' s' u (continuous_id u)) K1).
    refine (e01_ext _ _ _ _ X). intros p _. cbn beta. ring.
  - assert (X := to_01 (fun u => (m' + s' * u - m') * (m' + s' * u - m')) (s' * s') (fun u => cont_sq (fun u => m' + s' * u) m' u (cont_aff (fun u => u) m' s' u (continuous_id u))) K2).
    refine (e01_ext _ _ _ _ X). intros p _. cbn beta. ring.
  - refine (eN_ext _ _ _ _ K1). intros u. ring.
  - refine (eN_ext _ _ _ _ K2). intros u. cbn beta. ring.
Qed.
Print Assumptions C79_normal.

(** a lognormal-type transformation exp(u zeta + lamb) + lower *)
Lemma lnu_moments l z lower m s : lower + exp l * exp (z * z / 2) = m -> exp l * sqrt ((exp (z * z) - 1) * exp (z * z)) = s ->
  expectN (fun u => exp (u * z + l) + lower) m /\ expectN (fun u => (exp (u * z + l) + lower - m) * (exp (u * z + l) + lower - m)) (s * s).
Proof.
  intros <- <-. destruct (eN_affine (fun u => exp (z * u)) _ _ lower (exp l) (eN_exp z) (eN_exp2 z)) as [K1 K2].
  assert (E : forall u, exp (u * z + l) = exp l * exp (z * u)) by (intros; rewrite <- exp_plus; f_equal; ring).
  split.
  - refine (eN_ext _ _ _ _ K1). intros u. rewrite E. ring.
  - refine (eN_ext _ _ _ _ K2). intros u. cbn beta. rewrite E. ring.
Qed.
(** samples come from the frozen object, whatever happened to lamb and zeta *)
Lemma lno_moments t l z lower : ln_obj t = mkFrozen (lognorm_fam z) lower (exp l) ->
  sample_moments (lognormal_dist t) (lower + exp l * exp (z * z / 2)) (exp l * sqrt ((exp (z * z) - 1) * exp (z * z))).
Proof.
  intros E. destruct (fam_lognorm z) as (_ & H1 & H2).
  destruct (e01_affine _ _ _ lower (exp l) H1 H2) as [K1 K2].
  unfold sample_moments, d_sample. cbn [lognormal_dist d_ppf]. rewrite E. unfold fz_ppf. cbn [fz_loc fz_scale fz_fam]. split; assumption.
Qed.

Theorem C79_lognormal : forall a b by_moments sp,
  moments_true (lognormal_dist (lognormal_init a b by_moments sp)).
Proof.
  intros a b bm sp. set (t := lognormal_init a b bm sp).
  assert (O : ln_obj t = mkFrozen (lognorm_fam (ln_zeta t)) 0 (exp (ln_lamb t))) by reflexivity.
  assert (M : ln_mean t = 0 + exp (ln_lamb t) * exp (ln_zeta t * ln_zeta t / 2)) by reflexivity.
  assert (S : ln_stdv t = exp (ln_lamb t) * sqrt ((exp (ln_zeta t * ln_zeta t) - 1) * exp (ln_zeta t * ln_zeta t))) by reflexivity.
  split; cbn [lognormal_dist d_mean d_stdv].
  - rewrite M, S. apply (lno_moments t _ _ 0 O).
  - destruct (lnu_moments (ln_lamb t) (ln_zeta t) 0 _ _ (eq_sym M) (eq_sym S)) as [K1 K2]. unfold mc_moments. cbn [lognormal_dist d_u2x]. split.
    + refine (eN_ext _ _ _ _ K1). intros; ring.
    + refine (eN_ext _ _ _ _ K2). intros; cbn beta; ring.
Qed.
Print Assumptions C79_lognormal.

(** After updates the analyses see the new moments, but sample() and ppf() keep the old. *)
Theorem C79_lognormal_updates : forall mean stdv sp us, 0 < mean -> 0 < stdv ->
  all_locations (fun v => 0 < v) us -> all_scales (fun v => 0 < v) us ->
  let d := lognormal_dist (apply_updates lognormal_set_location lognormal_set_scale us (lognormal_init mean stdv true sp)) in
  reports d (last_location mean us) (last_scale stdv us)
  /\ mc_moments d (last_location mean us) (last_scale stdv us)
  /\ sample_moments d mean stdv.
Proof.
  intros m s sp us Hm Hs HL HS d. destruct (lognormal_by_moments m s sp Hm Hs) as (A & B & C & O & Z).
  set (t0 := lognormal_init m s true sp) in *. assert (C0 : (ln_lamb t0, ln_zeta t0) = ln_params (ln_mean t0) (ln_stdv t0)) by (rewrite A, B; exact C).
  destruct (lognormal_updates us t0 C0) as (M & S & E & Ob & _).
  unfold d. set (t := apply_updates lognormal_set_location lognormal_set_scale us t0) in *. rewrite A in M. rewrite B in S.
  assert (PM : 0 < last_location m us) by (apply last_location_P; assumption).
  assert (PS : 0 < last_scale s us) by (apply last_scale_P; assumption).
  rewrite M, S in E.
  assert (El : ln_lamb t = fst (ln_params (last_location m us) (last_scale s us))) by (rewrite <- E; reflexivity).
  assert (Ez : ln_zeta t = snd (ln_params (last_location m us) (last_scale s us))) by (rewrite <- E; reflexivity).
  split; [split; assumption|]. split.
  - destruct (ln_moments _ _ PM PS) as [Q1 Q2]. rewrite <- El, <- Ez in Q1, Q2.
    destruct (lnu_moments (ln_lamb t) (ln_zeta t) 0 (last_location m us) (last_scale s us)) as [K1 K2]; [rewrite Q1; ring|exact Q2|].
    unfold mc_moments. cbn [lognormal_dist d_u2x]. split.
    + refine (eN_ext _ _ _ _ K1). intros; ring.
    + refine (eN_ext _ _ _ _ K2). intros; cbn beta; ring.
  - rewrite O in Ob. destruct (ln_moments m s Hm Hs) as [Q1 Q2].
    assert (F1 : ln_lamb t0 = fst (ln_params m s)) by (rewrite <- C; reflexivity). assert (F2 : ln_zeta t0 = snd (ln_params m s)) by (rewrite <- C; reflexivity).
    assert (K := lno_moments t _ _ 0 Ob). rewrite F1, F2 in K.
    rewrite Q2 in K. rewrite Q1 in K. rewrite Rplus_0_l in K. exact K.
Qed.
Print Assumptions C79_lognormal_updates.

Theorem C79_shiftedlognormal : forall mean stdv lower sp us, 0 < stdv -> lower < mean ->
  all_locations (fun v => lower < v) us -> all_scales (fun v => 0 < v) us ->
  exists t, slognormal_init mean stdv lower true sp = Ok t /\
  let d := slognormal_dist (apply_updates slognormal_set_location slognormal_set_scale us t) in
  reports d (last_location mean us) (last_scale stdv us)
  /\ mc_moments d (last_location mean us) (last_scale stdv us)
  /\ sample_moments d mean stdv.
Proof.
  intros m s lower sp us Hs Hm HL HS. eexists. split; [reflexivity|].
  set (t0 := mkSln _ _ _). intros d.
  destruct (ln_moments (m - lower) s ltac:(lra) Hs) as [Q1 Q2].
  assert (A : ln_mean (sl_ln t0) = m). { cbn [t0 sl_ln ln_mean base_init so_mean]. unfold fz_mean. cbn [fz_loc fz_scale fz_fam lognorm_fam sf_mean]. rewrite Q1. ring. }
  assert (B : ln_stdv (sl_ln t0) = s). { cbn [t0 sl_ln ln_stdv base_init so_stdv]. unfold fz_std. cbn [fz_loc fz_scale fz_fam lognorm_fam sf_std]. exact Q2. }
  assert (C0 : (ln_lamb (sl_ln t0), ln_zeta (sl_ln t0)) = ln_params (ln_mean (sl_ln t0) - sl_lower t0) (ln_stdv (sl_ln t0))).
  { rewrite A, B. cbn [t0 sl_ln sl_lower ln_lamb ln_zeta]. symmetry. apply surjective_pairing. }
  destruct (slognormal_updates us t0 C0) as (M & S & E & Ob & Lo). unfold d.
  set (t := apply_updates slognormal_set_location slognormal_set_scale us t0) in *. rewrite A in M. rewrite B in S.
  assert (Lo' : sl_lower t = lower) by (rewrite Lo; reflexivity).
  assert (PM : lower < last_location m us) by (apply (last_location_P (fun v => lower < v)); assumption).
  assert (PS : 0 < last_scale s us) by (apply last_scale_P; assumption).
  rewrite M, S, Lo' in E.
  assert (El : ln_lamb (sl_ln t) = fst (ln_params (last_location m us - lower) (last_scale s us))) by (rewrite <- E; reflexivity).
  assert (Ez : ln_zeta (sl_ln t) = snd (ln_params (last_location m us - lower) (last_scale s us))) by (rewrite <- E; reflexivity).
  split; [split; assumption|]. split.
  - destruct (ln_moments (last_location m us - lower) (last_scale s us) ltac:(lra) PS) as [Q3 Q4]. rewrite <- El, <- Ez in Q3, Q4.
    destruct (lnu_moments (ln_lamb (sl_ln t)) (ln_zeta (sl_ln t)) lower (last_location m us) (last_scale s us)) as [K1 K2]; [rewrite Q3; ring|exact Q4|].
    unfold mc_moments. cbn [slognormal_dist lognormal_dist d_u2x]. rewrite Lo'. split; assumption.
  - cbn [t0 sl_ln ln_obj] in Ob. assert (K := lno_moments (sl_ln t) _ _ _ Ob).
    rewrite Q2 in K. rewrite Q1 in K. replace (lower + (m - lower)) with m in K by ring. exact K.
Qed.
Print Assumptions C79_shiftedlognormal.

(** Uniform: true as constructed; afterwards samples follow the updates and the analyses
    keep the original bounds. *)
Theorem C79_uniform : forall a b by_moments sp us,
  let t0 := uniform_init a b by_moments sp in
  let d := uniform_dist (apply_updates uniform_set_location uniform_set_scale us t0) in
  moments_true (uniform_dist t0)
  /\ sample_moments d (d_mean d) (d_stdv d)
  /\ mc_moments d (d_mean (uniform_dist t0)) (d_stdv (uniform_dist t0)).
Proof.
  intros a b bm sp us t0 d.
  assert (B0 : moments_true (base_dist (un_s t0))) by (apply base_moments; [apply fam_uniform|reflexivity|reflexivity]).
  assert (EU : forall u, d_u2x (uniform_dist t0) u = d_u2x (base_dist (un_s t0)) u) by reflexivity.
  assert (MC : mc_moments (uniform_dist t0) (d_mean (uniform_dist t0)) (d_stdv (uniform_dist t0))).
  { destruct B0 as [_ [K1 K2]]. split; [refine (eN_ext _ _ _ _ K1)|refine (eN_ext _ _ _ _ K2)]; intros u; reflexivity. }
  split; [split; [apply B0|exact MC]|].
  destruct (uniform_updates us t0) as (A & B & F & _ & _ & M). destruct (M eq_refl eq_refl) as [M1 M2].
  unfold d. set (t := apply_updates uniform_set_location uniform_set_scale us t0) in *.
  split.
  - assert (BT : moments_true (base_dist (un_s t))) by (apply base_moments; [rewrite F; apply fam_uniform|exact M1|exact M2]). apply BT.
  - destruct MC as [K1 K2]. split; [refine (eN_ext _ _ _ _ K1)|refine (eN_ext _ _ _ _ K2)]; intros u; cbn [uniform_dist d_u2x]; rewrite A, B; reflexivity.
Qed.
Print Assumptions C79_uniform.

(** so after set_location the mean a Uniform reports is not the mean the analyses see *)
Theorem C79_uniform_updates_refuted : forall a b sp loc, loc <> a ->
  let d := uniform_dist (uniform_set_location loc (uniform_init a b false sp)) in
  ~ expectN (d_u2x d) (d_mean d).
Proof.
  intros a b sp loc N d H.
  destruct (C79_uniform a b false sp [SetLocation loc]) as (_ & _ & K & _).
  assert (E : d_mean d = d_mean (uniform_dist (uniform_init a b false sp))).
  { assert (X := is_RInt_gen_unique _ _ H). assert (Y := is_RInt_gen_unique _ _ K). rewrite <- X, <- Y. reflexivity. }
  unfold d in E. cbn [uniform_dist uniform_set_location uniform_init base_set_location base_init base_dist d_mean un_s so_mean so_obj fz_fam fz_scale] in E.
  unfold fz_mean in E. cbn [fz_loc fz_scale fz_fam] in E. apply N. lra.
Qed.
Print Assumptions C79_uniform_updates_refuted.

(** ZeroInflated: if the base distribution's moments are those of its samples, so are the
    mixture's, as constructed and after set_zero_probability. *)
Theorem C79_zero_inflated : forall d p z p', quantile_pair (d_cdf d) (d_ppf d) -> (forall q, 0 < q < 1 -> continuous (d_ppf d) q) ->
  sample_moments d (d_mean d) (d_stdv d) -> 0 <= p < 1 -> zinf_init d p = Ok z -> 0 <= p' < 1 ->
  let w := zinf_dist z in
  let w' := zinf_dist (zinf_set_zero_probability p' z) in
  sample_moments w (d_mean w) (d_stdv w) /\ sample_moments w' (d_mean w') (d_stdv w').
Proof.
  intros d p z p' HQ Hc [H1 H2] Hp Hz Hp' w w'.
  assert (G : forall r zz, 0 <= r < 1 -> zinf_init d r = Ok zz -> sample_moments (zinf_dist zz) (d_mean (zinf_dist zz)) (d_stdv (zinf_dist zz))).
  { intros r zz Hr Hzz.
    assert (M2 : expect01 (fun q => d_ppf d q * d_ppf d q) (d_stdv d * d_stdv d + d_mean d * d_mean d)).
    { assert (K := e01_lin _ _ 1 (2 * d_mean d) (- (d_mean d * d_mean d)) _ _ H2 H1).
      replace (d_stdv d * d_stdv d + d_mean d * d_mean d) with (1 * (d_stdv d * d_stdv d) + 2 * d_mean d * d_mean d + - (d_mean d * d_mean d)) by ring.
      refine (e01_ext _ _ _ _ K). intros q _. unfold d_sample. cbn beta. ring. }
    destruct (zi_all _ _ r _ _ HQ Hc Hr H1 M2) as [Z1 Z2].
    assert (EQ : forall x, zi_int (d_ppf d) (d_cdf d 0) r x = zinf_ppf zz x).
    { intros x. unfold zi_int. destruct (Rlt_dec x _) as [L|L]; [symmetry; apply (zppf_low d r Hr zz Hzz x L)|].
      destruct (Rlt_dec x _) as [L'|L']; [symmetry; apply (zppf_mid d r Hr zz Hzz x); unfold lo; lra|].
      symmetry. apply (zppf_high d r Hr zz Hzz x). unfold lo. lra. }
    assert (EQ2 : forall x, zi_int (fun q => d_ppf d q * d_ppf d q) (d_cdf d 0) r x = zinf_ppf zz x * zinf_ppf zz x).
    { intros x. rewrite <- EQ. unfold zi_int. destruct (Rlt_dec x _); [reflexivity|]. destruct (Rlt_dec x _); [ring|reflexivity]. }
    unfold zinf_init in Hzz. destruct (Rltb r 0); [discriminate|]. destruct (Rleb 1 r); [discriminate|]. injection Hzz as <-.
    cbn [zinf_dist d_mean d_stdv zi_mean zi_stdv zi_stats fst snd].
    set (q := 1 - r) in *. set (m := d_mean d) in *. set (s := d_stdv d) in *.
    assert (X1 : expect01 (d_sample (zinf_dist (mkZi d r q (q * m) (sqrt (q * (s * s) + r * q * (m * m)))))) (q * m)).
    { refine (e01_ext _ _ _ _ Z1). intros x _. apply EQ. }
    split; [exact X1|].
    set (W := mkZi d r q (q * m) (sqrt (q * (s * s) + r * q * (m * m)))) in *. clearbody W.
    rewrite sqrt_sqrt.
    2:{ pose proof (Rle_0_sqr s). pose proof (Rle_0_sqr m). unfold Rsqr in *. assert (0 <= q) by (unfold q; lra).
        assert (0 <= q * (s * s)) by nra. assert (0 <= r * q * (m * m)) by (apply Rmult_le_pos; [nra|lra]). lra. }
    assert (K := e01_lin _ _ 1 (-2 * (q * m)) ((q * m) * (q * m)) _ _ Z2 Z1).
    replace (q * (s * s) + r * q * (m * m)) with (1 * (q * (s * s + m * m)) + -2 * (q * m) * (q * m) + q * m * (q * m)) by (unfold q; ring).
    refine (e01_ext _ _ _ _ K). intros x _. cbn beta. rewrite EQ2, EQ. unfold d_sample. cbn [zinf_dist d_ppf]. ring. }
  split; [apply (G p z Hp Hz)|].
  destruct (zinf_fields d p Hp z Hz) as (A & _).
  assert (X : zinf_init d p' = Ok (zinf_set_zero_probability p' z)).
  { unfold zinf_init. replace (Rltb p' 0) with false by (symmetry; apply Rltb_false; lra). replace (Rleb 1 p') with false by (symmetry; apply Rleb_false; lra).
    unfold zinf_set_zero_probability. rewrite A. reflexivity. }
  apply (G p' _ Hp' X).
Qed.
Print Assumptions C79_zero_inflated.

(** GEVmin: the mean the analyses see is that of -X. *)
Theorem C79_gevmin_refuted : forall Gam eg mean stdv shape sp t, is_gamma Gam -> 0 < stdv -> shape <> 0 -> / 10 ^ 8 < Rabs shape ->
  0 < Gam (1 - 2 * shape) - Gam (1 - shape) * Gam (1 - shape) ->
  gevmin_init Gam eg mean stdv shape true sp = Ok t ->
  let d := gevmin_dist t in
  let g := fz_scale (gm_obj t) * ((Gam (1 - shape) - 1) / shape) in
  d_mean d = mean /\ expectN (d_u2x d) (2 * g - mean) /\ expect01 (d_sample d) (mean - 2 * g)
  /\ (expectN (d_u2x d) (d_mean d) <-> mean = g) /\ (expect01 (d_sample d) (d_mean d) <-> g = 0).
Proof.
  intros Gam eg m s shape sp t HG Hs N Hsh Hv Ht d g.
  assert (Hlt : shape < 1 / 2) by (unfold gevmin_init in Ht; destruct (Rleb (1 / 2) shape) eqn:El; [discriminate|]; now apply Rleb_false in El).
  assert (EM : fz_mean (gm_obj t) = 2 * g - m /\ fz_fam (gm_obj t) = gev_fam Gam eg (- shape) /\ d_mean d = m).
  { unfold d, g. unfold gevmin_init in Ht. destruct (Rleb (1 / 2) shape); [discriminate|]. injection Ht as <-.
    cbn [gevmin_dist d_mean gm_mean gm_obj]. unfold fz_mean. cbn [fz_loc fz_scale fz_fam].
    unfold gev_loc_scale. replace (close0 shape) with false by (symmetry; unfold close0; apply Rleb_false, Hsh).
    unfold gev_fam, Reqb. destruct (Req_EM_T (- shape) 0) as [e|e]; [exfalso; lra|]. cbn [fst snd sf_mean]. split; [|split; reflexivity].
    set (sc := s * Rabs shape / sqrt _). replace (1 + - shape) with (1 - shape) by ring. field. exact N. }
  destruct EM as (EM & EF & ED).
  assert (FM : fam_moments (fz_fam (gm_obj t))) by (rewrite EF; apply fam_gev; [exact HG|lra|lra]).
  destruct (base_moments (base_init (gm_obj t) None) FM eq_refl eq_refl) as [[S1 _] [U1 _]].
  cbn [base_dist base_init d_mean so_mean] in S1, U1. rewrite EM in S1, U1.
  assert (K1 : expectN (d_u2x d) (2 * g - m)) by exact U1.
  assert (K2 : expect01 (d_sample d) (m - 2 * g)).
  { assert (X := e01_lin _ _ (-1) 0 0 _ _ S1 S1). replace (-1 * (2 * g - m) + 0 * (2 * g - m) + 0) with (m - 2 * g) in X by ring.
    refine (e01_ext _ _ _ _ X). intros p _. cbn [base_dist base_init d_sample d_ppf so_obj]. unfold d, d_sample. cbn [gevmin_dist d_ppf]. unfold d_sample. cbn [d_ppf]. ring. }
  split; [exact ED|]. split; [exact K1|]. split; [exact K2|]. rewrite ED. split; split.
  - intros X. assert (E1 := is_RInt_gen_unique _ _ X). assert (E2 := is_RInt_gen_unique _ _ K1). rewrite E1 in E2. lra.
  - intros E. assert (Q : 2 * g - m = m) by lra. rewrite Q in K1. exact K1.
  - intros X. assert (E1 := is_RInt_gen_unique _ _ X). assert (E2 := is_RInt_gen_unique _ _ K2). rewrite E1 in E2. lra.
  - intros E. assert (Q : m - 2 * g = m) by lra. rewrite Q in K2. exact K2.
Qed.
Print Assumptions C79_gevmin_refuted.

(** *** Concrete instances *)
Example C79_weibull_c1 : sf_mean (weibull_fam GammaF 1) = 1 /\ sf_std (weibull_fam GammaF 1) = 1 /\ fam_moments (weibull_fam GammaF 1).
Proof.
  destruct C79_gamma_exists as [HG HV]. destruct (HV _ HG) as [V1 VR].
  assert (G2 : GammaF 2 = 1) by (replace 2 with (1 + 1) by ring; rewrite VR, V1 by lra; ring).
  assert (G3 : GammaF 3 = 2) by (replace 3 with (2 + 1) by ring; rewrite VR, G2 by lra; ring).
  cbn [weibull_fam sf_mean sf_std]. replace (1 + 1 / 1) with 2 by field. replace (1 + 2 / 1) with 3 by field. rewrite G2, G3.
  split; [reflexivity|]. split; [replace (2 - 1 * 1) with 1 by ring; apply sqrt_1|]. apply fam_weibull; [exact HG|lra].
Qed.
Example C79_zi_instance : exists z, zinf_init (normal_dist (normal_init 1 2 None)) (3 / 10) = Ok z /\
  sample_moments (zinf_dist z) (d_mean (zinf_dist z)) (d_stdv (zinf_dist z)).
Proof.
  assert (E : exists z, zinf_init (normal_dist (normal_init 1 2 None)) (3 / 10) = Ok z).
  { unfold zinf_init. replace (Rltb (3 / 10) 0) with false by (symmetry; apply Rltb_false; lra). replace (Rleb 1 (3 / 10)) with false by (symmetry; apply Rleb_false; lra). eexists. reflexivity. }
  destruct E as [z Hz]. exists z. split; [exact Hz|].
  apply (C79_zero_inflated (normal_dist (normal_init 1 2 None)) (3 / 10) z (3 / 10)); try assumption; try lra.
  - destruct (normal_maps (normal_init 1 2 None)) as [A B]; [cbn; lra|].
    split; [intros x; cbn [normal_dist d_cdf]; generalize (Phi_bound ((x - no_mean (normal_init 1 2 None)) / no_stdv (normal_init 1 2 None))); lra|].
    split; [intros x y Hxy; cbn [normal_dist d_cdf normal_init no_mean no_stdv]; apply (proj1 (Phi_le _ _)); lra|].
    split; [exact B|]. intros x _. cbn [normal_dist d_cdf d_ppf normal_init no_mean no_stdv]. rewrite ppf_Phi. field.
  - intros q Hq. cbn [normal_dist d_ppf normal_init no_mean no_stdv].
    apply (continuous_plus (V := R_NormedModule) (fun p => 2 * ppf p) (fun _ => 1)); [|apply continuous_const]. apply (continuous_scal_r (V := R_NormedModule) 2 ppf). now apply ppf_continuous.
  - apply (C79_normal 1 2 None []).
Qed.
