From Coquelicot Require Import Coquelicot.
From Verif Require Import Base Gauss GaussProofs Dist DistSpec DistProofs DistMomProofs MomSpec MomProofs MomFamProofs GammaProofs.
From Coq Require Import Lra Lia.
Open Scope R_scope.

(** expectations of non-negative values are non-negative; a variance is non-negative *)
Lemma e01_nonneg g m : (forall p, 0 < p < 1 -> 0 <= g p) -> expect01 g m -> 0 <= m.
Proof.
  intros H K. apply Rnot_lt_le. intros N.
  assert (Hm : 0 < - m) by lra.
  assert (Hb : locally m (fun v => v < 0)).
  { exists (mkposreal _ Hm). intros y By. apply Rabs_lt_between' in By. cbn [pos] in By. lra. }
  specialize (K _ Hb). destruct K as [Q1 Q2 K1 K2 K].
  assert (h12 : 0 < 1 / 2) by lra. assert (h21 : 1 / 2 < 1) by lra.
  assert (E1 : exists a, Q1 a /\ 0 < a < 1 / 2).
  { apply (filter_ex (F := at_right 0)). apply filter_and; [exact K1|]. refine (filter_imp (F := at_right 0) _ _ _ (filter_and _ _ at_right_01 (at_right_lt (1 / 2) h12))). intros x Hx; lra. }
  assert (E2 : exists b, Q2 b /\ 1 / 2 < b < 1).
  { apply (filter_ex (F := at_left 1)). apply filter_and; [exact K2|]. refine (filter_imp (F := at_left 1) _ _ _ (filter_and _ _ at_left_01 (at_left_gt (1 / 2) h21))). intros x Hx; lra. }
  destruct E1 as (a & Qa & Ha). destruct E2 as (b & Qb & Hb').
  destruct (K a b Qa Qb) as (v & Hv & Hn). cbn [fst snd] in Hv.
  assert (0 <= v); [|lra].
  rewrite <- (is_RInt_unique _ _ _ _ Hv). apply RInt_ge_0; [lra|eexists; exact Hv|]. intros x Hx. apply H. lra.
Qed.
Lemma var_nonneg Q m m2 : expect01 Q m -> expect01 (fun p => Q p * Q p) m2 -> 0 <= m2 - m * m.
Proof.
  intros H1 H2.
  assert (K := e01_lin (fun p => Q p * Q p) Q 1 (-2 * m) (m * m) m2 m H2 H1).
  replace (m2 - m * m) with (1 * m2 + -2 * m * m + m * m) by ring.
  refine (e01_nonneg _ _ _ K). intros p _. cbn beta. replace (1 * (Q p * Q p) + -2 * m * Q p + m * m) with (Rsqr (Q p - m)) by (unfold Rsqr; ring). apply Rle_0_sqr.
Qed.
(** moments of a family given by h(-ln(1-p)) or h(-ln p) *)
Lemma fam_of_T f h m m2 : (forall p, 0 < p < 1 -> sf_ppf f p = h (- ln (1 - p))) -> (forall t, 0 < t -> continuous h t) ->
  int0 (fun t => h t * exp (- t)) m -> int0 (fun t => h t * h t * exp (- t)) m2 -> sf_mean f = m -> (0 <= m2 - m * m -> sf_std f * sf_std f = m2 - m * m) ->
  fam_moments f.
Proof.
  intros E Hc I1 I2 Em Es.
  assert (K1 : expect01 (fun p => h (- ln (1 - p))) m) by now apply e01_T.
  assert (K2 : expect01 (fun p => h (- ln (1 - p)) * h (- ln (1 - p))) m2).
  { apply (e01_T (fun t => h t * h t)); [|exact I2]. intros t Ht. apply (continuous_mult h h); auto. }
  rewrite <- Em in *. specialize (Es (var_nonneg _ _ _ K1 K2)).
  split; [|split].
  - intros p Hp. refine (continuous_ext_loc _ _ p _ (T_cont h p Hp Hc)).
    assert (A : locally p (fun q => 0 < q)) by (apply locally_gt; lra).
    assert (B : locally p (fun q => q < 1)).
    { assert (D : 0 < 1 - p) by lra. exists (mkposreal _ D). intros y By. apply Rabs_lt_between' in By. cbn [pos] in By. lra. }
    refine (filter_imp _ _ _ (filter_and _ _ A B)). intros q [Hq1 Hq2]. first [apply E; lra|symmetry; apply E; lra].
  - refine (e01_ext _ _ _ _ K1). intros p Hp. symmetry. now apply E.
  - replace (sf_mean f * sf_mean f + sf_std f * sf_std f) with m2 by (rewrite Es; ring).
    refine (e01_ext _ _ _ _ K2). intros p Hp. cbn beta. now rewrite E.
Qed.
Lemma fam_of_L f h m m2 : (forall p, 0 < p < 1 -> sf_ppf f p = h (- ln p)) -> (forall t, 0 < t -> continuous h t) ->
  int0 (fun t => h t * exp (- t)) m -> int0 (fun t => h t * h t * exp (- t)) m2 -> sf_mean f = m -> (0 <= m2 - m * m -> sf_std f * sf_std f = m2 - m * m) ->
  fam_moments f.
Proof.
  intros E Hc I1 I2 Em Es.
  assert (K1 : expect01 (fun p => h (- ln p)) m) by now apply e01_L.
  assert (K2 : expect01 (fun p => h (- ln p) * h (- ln p)) m2).
  { apply (e01_L (fun t => h t * h t)); [|exact I2]. intros t Ht. apply (continuous_mult h h); auto. }
  rewrite <- Em in *. specialize (Es (var_nonneg _ _ _ K1 K2)).
  assert (Lc : forall p, 0 < p < 1 -> continuous (fun p => h (- ln p)) p).
  { intros p Hp. apply (continuous_comp (fun p => - ln p) h).
    - apply (ex_derive_continuous (V := R_NormedModule)). auto_derive. lra.
    - apply Hc. assert (ln p < ln 1) by (apply ln_increasing; lra). rewrite ln_1 in *. lra. }
  split; [|split].
  - intros p Hp. refine (continuous_ext_loc _ _ p _ (Lc p Hp)).
    assert (A : locally p (fun q => 0 < q)) by (apply locally_gt; lra).
    assert (B : locally p (fun q => q < 1)).
    { assert (D : 0 < 1 - p) by lra. exists (mkposreal _ D). intros y By. apply Rabs_lt_between' in By. cbn [pos] in By. lra. }
    refine (filter_imp _ _ _ (filter_and _ _ A B)). intros q [Hq1 Hq2]. first [apply E; lra|symmetry; apply E; lra].
  - refine (e01_ext _ _ _ _ K1). intros p Hp. symmetry. now apply E.
  - replace (sf_mean f * sf_mean f + sf_std f * sf_std f) with m2 by (rewrite Es; ring).
    refine (e01_ext _ _ _ _ K2). intros p Hp. cbn beta. now rewrite E.
Qed.

Lemma gamma_pow Gam e : is_gamma Gam -> 0 < 1 + e -> int0 (fun t => Rpower t e * exp (- t)) (Gam (1 + e)).
Proof. intros H He. refine (int0_ext _ _ _ _ (H (1 + e) He)). intros t _. now replace (1 + e - 1) with e by ring. Qed.
Lemma gamma_pow2 Gam e : is_gamma Gam -> 0 < 1 + 2 * e -> int0 (fun t => Rpower t e * Rpower t e * exp (- t)) (Gam (1 + 2 * e)).
Proof. intros H He. refine (int0_ext _ _ _ _ (gamma_pow Gam (2 * e) H He)). intros t _. rewrite <- Rpower_plus. now replace (e + e) with (2 * e) by ring. Qed.

Lemma if_pos p (x y : R) : 0 < p -> (if Rleb p 0 then x else y) = y.
Proof. intros Hp. destruct (Rleb p 0) eqn:El; [|reflexivity]. apply Rleb_spec in El. lra. Qed.

Lemma fam_weibull Gam c : is_gamma Gam -> 0 < c -> fam_moments (weibull_fam Gam c).
Proof.
  intros HG Hc. assert (Hi : 0 < 1 / c) by (apply Rdiv_lt_0_compat; lra).
  apply (fam_of_T _ (fun t => Rpower t (1 / c)) (Gam (1 + 1 / c)) (Gam (1 + 2 * (1 / c)))).
  - intros p Hp. cbn [weibull_fam sf_ppf]. rewrite if_pos by lra. reflexivity.
  - intros; now apply Rpow_cont.
  - apply gamma_pow; [assumption|lra].
  - apply gamma_pow2; [assumption|lra].
  - reflexivity.
  - intros Hn. cbn [weibull_fam sf_std]. replace (2 / c) with (2 * (1 / c)) by (field; lra). apply sqrt_sqrt, Hn.
Qed.
Lemma fam_frechet Gam c : is_gamma Gam -> 2 < c -> fam_moments (frechet_fam Gam c).
Proof.
  intros HG Hc. assert (Hi : 0 < 1 / c < 1 / 2).
  { split; [apply Rdiv_lt_0_compat; lra|]. apply (Rmult_lt_reg_r c); [lra|]. replace (1 / c * c) with 1 by (field; lra). lra. }
  apply (fam_of_L _ (fun t => Rpower t (- (1 / c))) (Gam (1 + - (1 / c))) (Gam (1 + 2 * - (1 / c)))).
  - intros p Hp. cbn [frechet_fam sf_ppf]. rewrite if_pos by lra. reflexivity.
  - intros; now apply Rpow_cont.
  - apply gamma_pow; [assumption|lra].
  - apply gamma_pow2; [assumption|lra].
  - reflexivity.
  - intros Hn. cbn [frechet_fam sf_std]. replace (1 - 2 / c) with (1 + 2 * - (1 / c)) by (field; lra). apply sqrt_sqrt, Hn.
Qed.
Lemma int0_lin g h a b m1 m2 : int0 g m1 -> int0 h m2 -> int0 (fun t => a * g t + b * h t) (a * m1 + b * m2).
Proof.
  intros H1 H2. apply (is_RInt_gen_plus (fun t => a * g t) (fun t => b * h t)); [apply (is_RInt_gen_scal g), H1|apply (is_RInt_gen_scal h), H2].
Qed.
Lemma int_e : int0 (fun t => exp (- t)) 1.
Proof.
  rewrite <- (gamma_1 GammaF GammaF_is_gamma).
  refine (int0_ext _ _ _ _ (GammaF_is_gamma 1 Rlt_0_1)). intros t Ht. replace (1 - 1) with 0 by ring. rewrite Rpower_O by exact Ht. ring.
Qed.
Lemma fam_gev Gam eg c : is_gamma Gam -> - (1 / 2) < c -> c <> 0 -> fam_moments (gev_fam Gam eg c).
Proof.
  intros HG Hc H0. unfold gev_fam. destruct (Reqb c 0) eqn:Ec; [apply Reqb_spec in Ec; contradiction|].
  assert (I1 := gamma_pow Gam c HG ltac:(lra)). assert (I2 := gamma_pow2 Gam c HG ltac:(lra)).
  apply (fam_of_L _ (fun t => (1 - Rpower t c) / c) ((1 - Gam (1 + c)) / c) ((1 - 2 * Gam (1 + c) + Gam (1 + 2 * c)) / (c * c))).
  - reflexivity.
  - intros t Ht. unfold Rdiv. apply (continuous_mult (fun t => 1 - Rpower t c) (fun _ => / c)); [|apply continuous_const].
    apply (continuous_minus (V := R_NormedModule) (fun _ => 1) (fun t => Rpower t c)); [apply continuous_const|now apply Rpow_cont].
  - replace ((1 - Gam (1 + c)) / c) with (/ c * 1 + - / c * Gam (1 + c)) by (field; assumption).
    refine (int0_ext _ _ _ _ (int0_lin _ _ _ _ _ _ int_e I1)). intros t Ht. cbn beta. field. assumption.
  - replace ((1 - 2 * Gam (1 + c) + Gam (1 + 2 * c)) / (c * c)) with (1 * (/ (c * c) * 1 + - 2 / (c * c) * Gam (1 + c)) + / (c * c) * Gam (1 + 2 * c)) by (field; assumption).
    refine (int0_ext _ _ _ _ (int0_lin _ _ 1 (/ (c * c)) _ _ (int0_lin _ _ (/ (c * c)) (- 2 / (c * c)) _ _ int_e I1) I2)). intros t Ht. cbn beta. field. assumption.
  - reflexivity.
  - cbn [sf_std]. intros Hn.
    replace ((1 - 2 * Gam (1 + c) + Gam (1 + 2 * c)) / (c * c) - (1 - Gam (1 + c)) / c * ((1 - Gam (1 + c)) / c)) with ((Gam (1 + 2 * c) - Gam (1 + c) * Gam (1 + c)) / (c * c)) in * by (field; assumption).
    assert (Hcc : 0 < c * c) by (destruct (Rtotal_order c 0) as [|[|]]; nra).
    assert (Hg : 0 <= Gam (1 + 2 * c) - Gam (1 + c) * Gam (1 + c)).
    { apply (Rmult_le_compat_r (c * c)) in Hn; [|lra]. replace ((Gam (1 + 2 * c) - Gam (1 + c) * Gam (1 + c)) / (c * c) * (c * c)) with (Gam (1 + 2 * c) - Gam (1 + c) * Gam (1 + c)) in Hn by (field; assumption). lra. }
    set (r := sqrt (Gam (1 + 2 * c) - Gam (1 + c) * Gam (1 + c))).
    assert (Hr : r * r = Gam (1 + 2 * c) - Gam (1 + c) * Gam (1 + c)) by now apply sqrt_sqrt.
    rewrite <- Hr. assert (Ha : Rabs c <> 0) by now apply Rabs_no_R0.
    replace (c * c) with (Rabs c * Rabs c) by (destruct (Rcase_abs c); [rewrite Rabs_left by lra; ring|rewrite Rabs_right by lra; ring]). field. assumption.
Qed.

Lemma ln_cont t : 0 < t -> continuous ln t.
Proof. intros. apply (ex_derive_continuous (V := R_NormedModule)). auto_derive. lra. Qed.
Lemma sd_gumbel : PI / sqrt 6 * (PI / sqrt 6) = PI * PI / 6.
Proof.
  assert (0 < sqrt 6) by (apply sqrt_lt_R0; lra). assert (S : sqrt 6 * sqrt 6 = 6) by (apply sqrt_sqrt; lra).
  replace (PI / sqrt 6 * (PI / sqrt 6)) with (PI * PI / (sqrt 6 * sqrt 6)) by (field; lra). now rewrite S.
Qed.
Lemma fam_gumbel eg : gumbel_constants eg -> fam_moments (gumbel_fam eg).
Proof.
  intros [I1 I2]. apply (fam_of_L _ (fun t => - ln t) eg (eg * eg + PI * PI / 6)).
  - reflexivity.
  - intros t Ht. apply (continuous_opp (V := R_NormedModule) ln). now apply ln_cont.
  - exact I1.
  - refine (int0_ext _ _ _ _ I2). intros; ring.
  - reflexivity.
  - intros _. cbn [gumbel_fam sf_std]. rewrite sd_gumbel. ring.
Qed.
Lemma fam_gumbel_l eg : gumbel_constants eg -> fam_moments (gumbel_l_fam eg).
Proof.
  intros [I1 I2]. apply (fam_of_T _ ln (- eg) (eg * eg + PI * PI / 6)).
  - reflexivity.
  - apply ln_cont.
  - replace (- eg) with (-1 * eg + 0 * 1) by ring. refine (int0_ext _ _ _ _ (int0_lin _ _ _ _ _ _ I1 int_e)). intros; cbn beta; ring.
  - exact I2.
  - reflexivity.
  - intros _. cbn [gumbel_l_fam sf_std]. rewrite sd_gumbel. ring.
Qed.
