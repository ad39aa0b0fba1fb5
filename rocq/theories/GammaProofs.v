(** Euler's gamma function as an improper integral: convergence, recursion. *)
From Coquelicot Require Import Coquelicot.
From Verif Require Import Base Gauss GaussProofs Dist DistSpec DistProofs DistMomProofs MomSpec MomProofs MomFamProofs.
From Coq Require Import Lra Lia.
Open Scope R_scope.

(** The gamma function: least upper bound of the integrals over compact intervals. *)
Definition gf (s t : R) : R := Rpower t (s - 1) * exp (- t).
Definition GammaF (s : R) : R := real (Lub_Rbar (fun v => exists a b, 0 < a /\ a < b /\ v = RInt (gf s) a b)).

Lemma Rpow_derive e t : 0 < t -> is_derive (fun t => Rpower t e) t (e * Rpower t (e - 1)).
Proof.
  intros Ht. unfold Rpower. auto_derive; [lra|].
  replace ((e - 1) * ln t) with (e * ln t - ln t) by ring. unfold Rminus at 1. rewrite exp_plus, exp_Ropp, exp_ln by lra. field. lra.
Qed.
Lemma Rpow_cont e t : 0 < t -> continuous (fun t => Rpower t e) t.
Proof. intros. apply (ex_derive_continuous (V := R_NormedModule)). eexists. now apply Rpow_derive. Qed.
Lemma gf_cont s t : 0 < t -> continuous (gf s) t.
Proof.
  intros Ht. apply (continuous_mult (fun t => Rpower t (s - 1)) (fun t => exp (- t))); [now apply Rpow_cont|].
  apply (ex_derive_continuous (V := R_NormedModule)). auto_derive. exact I.
Qed.
Lemma gf_pos s t : 0 < gf s t.
Proof. unfold gf. apply Rmult_lt_0_compat; [apply Rpower_pos|apply exp_pos]. Qed.
Lemma gf_int s a b : 0 < a -> 0 < b -> ex_RInt (gf s) a b.
Proof.
  intros Ha Hb. apply (ex_RInt_continuous (V := R_CompleteNormedModule)). intros z Hz. apply gf_cont. destruct Hz as [Hz _].
  eapply Rlt_le_trans; [|exact Hz]. now apply Rmin_glb_lt.
Qed.

Lemma ln_le x : 0 < x -> ln x <= x - 1.
Proof. intros. generalize (exp_ineq1_le (ln x)). rewrite exp_ln by lra. lra. Qed.
(** t^s <= K e^(t/2) *)
Lemma pow_exp_bound s t : 0 < s -> 0 < t -> Rpower t s <= exp (s * (ln (2 * s) - 1)) * exp (t / 2).
Proof.
  intros Hs Ht. rewrite <- exp_plus. apply exp_le_compat.
  assert (Hx : 0 < t / (2 * s)) by (apply Rdiv_lt_0_compat; lra).
  generalize (ln_le _ Hx). rewrite ln_div by lra. intros H.
  assert (s * ln t <= s * (ln (2 * s) + t / (2 * s) - 1)) by (apply Rmult_le_compat_l; lra).
  replace (s * (ln (2 * s) + t / (2 * s) - 1)) with (s * (ln (2 * s) - 1) + t / 2) in * by (field; lra). assumption.
Qed.
Definition gC (s : R) : R := (1 + exp (s * (ln (2 * s) - 1))) * (1 + exp (s * (ln (2 * s) - 1))).
Definition gdom (s t : R) : R := gC s * (Rpower t (s - 1) / ((1 + Rpower t s) * (1 + Rpower t s))).
Lemma gf_le_gdom s t : 0 < s -> 0 < t -> gf s t <= gdom s t.
Proof.
  intros Hs Ht. unfold gf, gdom, gC.
  set (K := exp (s * (ln (2 * s) - 1))). assert (HK : 0 < K) by apply exp_pos.
  generalize (pow_exp_bound s t Hs Ht). fold K. intros HB.
  assert (HE : 1 <= exp (t / 2)) by (rewrite <- exp_0; apply exp_le_compat; lra).
  set (P := Rpower t s) in *. assert (HP : 0 < P) by apply Rpower_pos.
  assert (HQ : 0 < Rpower t (s - 1)) by apply Rpower_pos.
  assert (H1 : (1 + P) <= (1 + K) * exp (t / 2)) by nra.
  assert (H2 : (1 + P) * (1 + P) <= (1 + K) * (1 + K) * exp t).
  { replace (exp t) with (exp (t / 2) * exp (t / 2)) by (rewrite <- exp_plus; f_equal; field).
    replace ((1 + K) * (1 + K) * (exp (t / 2) * exp (t / 2))) with (((1 + K) * exp (t / 2)) * ((1 + K) * exp (t / 2))) by ring.
    apply Rmult_le_compat; lra. }
  rewrite exp_Ropp. generalize (exp_pos t). intros He.
  replace ((1 + K) * (1 + K) * (Rpower t (s - 1) / ((1 + P) * (1 + P)))) with (Rpower t (s - 1) * ((1 + K) * (1 + K) / ((1 + P) * (1 + P)))) by (field; lra).
  apply Rmult_le_compat_l; [lra|].
  apply (Rmult_le_reg_r (exp t * ((1 + P) * (1 + P)))); [apply Rmult_lt_0_compat; nra|].
  replace (/ exp t * (exp t * ((1 + P) * (1 + P)))) with ((1 + P) * (1 + P)) by (field; lra).
  replace ((1 + K) * (1 + K) / ((1 + P) * (1 + P)) * (exp t * ((1 + P) * (1 + P)))) with ((1 + K) * (1 + K) * exp t) by (field; lra).
  exact H2.
Qed.
Lemma gdom_F s t : 0 < s -> 0 < t -> is_derive (fun t => - (gC s / s) * / (1 + Rpower t s)) t (gdom s t).
Proof.
  intros Hs Ht. assert (HP : 0 < Rpower t s) by apply Rpower_pos.
  evar_last.
  - apply (is_derive_scal (fun t => / (1 + Rpower t s))). apply (is_derive_inv (fun t => 1 + Rpower t s)); [|lra].
    apply (is_derive_plus (K := R_AbsRing) (fun _ => 1) (fun t => Rpower t s)); [apply is_derive_const|now apply Rpow_derive].
  - unfold gdom, plus, zero; cbn. field. lra.
Qed.
Lemma gdom_cont s t : 0 < t -> continuous (gdom s) t.
Proof.
  intros Ht. assert (HP : 0 < Rpower t s) by apply Rpower_pos. unfold gdom.
  apply (continuous_scal_r (V := R_NormedModule) (gC s)).
  apply (continuous_mult (fun t => Rpower t (s - 1)) (fun t => / ((1 + Rpower t s) * (1 + Rpower t s)))); [now apply Rpow_cont|].
  assert (C : continuous (fun t => 1 + Rpower t s) t).
  { apply (continuous_plus (V := R_NormedModule) (fun _ => 1) (fun t => Rpower t s)); [apply continuous_const|now apply Rpow_cont]. }
  apply (continuous_comp (fun t => (1 + Rpower t s) * (1 + Rpower t s)) Rinv).
  - apply (continuous_mult (fun t => 1 + Rpower t s) (fun t => 1 + Rpower t s)); exact C.
  - apply (ex_derive_continuous (V := R_NormedModule)). auto_derive. nra.
Qed.
Lemma gf_bounded s a b : 0 < s -> 0 < a -> a < b -> RInt (gf s) a b <= gC s / s.
Proof.
  intros Hs Ha Hab.
  assert (Hz : forall z, Rmin a b <= z <= Rmax a b -> 0 < z) by (intros z; rewrite Rmin_left, Rmax_right; lra).
  assert (ID : is_RInt (gdom s) a b (minus (- (gC s / s) * / (1 + Rpower b s)) (- (gC s / s) * / (1 + Rpower a s)))).
  { apply (is_RInt_derive (fun t => - (gC s / s) * / (1 + Rpower t s))); intros z Z; [apply gdom_F; auto|apply gdom_cont; auto]. }
  apply Rle_trans with (RInt (gdom s) a b).
  - apply RInt_le; [lra|now apply gf_int; lra|eexists; exact ID|]. intros x Hx. apply gf_le_gdom; lra.
  - rewrite (is_RInt_unique _ _ _ _ ID). unfold minus, plus, opp; cbn.
    assert (HC : 0 < gC s) by (unfold gC; generalize (exp_pos (s * (ln (2 * s) - 1))); nra).
    assert (Hg : 0 < gC s / s) by (apply Rdiv_lt_0_compat; lra).
    assert (Pa : 0 < / (1 + Rpower a s) <= 1).
    { generalize (Rpower_pos a s). intros. split; [apply Rinv_0_lt_compat; lra|]. rewrite <- Rinv_1. apply Rinv_le_contravar; lra. }
    assert (Pb : 0 < / (1 + Rpower b s)) by (apply Rinv_0_lt_compat; generalize (Rpower_pos b s); lra).
    nra.
Qed.
Lemma gf_mono s a b a' b' : 0 < a' -> a' <= a -> a < b -> b <= b' -> RInt (gf s) a b <= RInt (gf s) a' b'.
Proof.
  intros H0 H1 H2 H3.
  rewrite <- (RInt_Chasles (gf s) a' a b') by (apply gf_int; lra).
  rewrite <- (RInt_Chasles (gf s) a b b') by (apply gf_int; lra).
  assert (0 <= RInt (gf s) a' a) by (apply RInt_ge_0; [lra|apply gf_int; lra|intros; left; apply gf_pos]).
  assert (0 <= RInt (gf s) b b') by (apply RInt_ge_0; [lra|apply gf_int; lra|intros; left; apply gf_pos]).
  change (RInt (gf s) a b <= RInt (gf s) a' a + (RInt (gf s) a b + RInt (gf s) b b')). lra.
Qed.
Lemma GammaF_is_gamma : is_gamma GammaF.
Proof.
  intros s Hs. unfold int0. fold (gf s). unfold GammaF.
  set (S := fun v : R => exists a b, 0 < a /\ a < b /\ v = RInt (gf s) a b).
  assert (HL : is_lub_Rbar S (Lub_Rbar S)) by apply Lub_Rbar_correct. destruct HL as [Hub Hlub].
  assert (HS : S (RInt (gf s) 1 2)) by (exists 1, 2; repeat split; lra).
  assert (HB : Rbar_le (Lub_Rbar S) (gC s / s)).
  { apply Hlub. intros v (a & b & Ha & Hab & ->). now apply gf_bounded. }
  generalize (Hub _ HS). destruct (Lub_Rbar S) as [L| |]; [|intros; contradiction|intros; contradiction]. intros _. cbn [real].
  apply (filterlimi_lim_ext_loc (fun ab => RInt (gf s) (fst ab) (snd ab))).
  - apply (Filter_prod _ _ _ (fun x => 0 < x) (fun x => 0 < x)).
    + exists (mkposreal 1 Rlt_0_1). intros y _ Hy. exact Hy.
    + exists 0. auto.
    + intros x y Hx Hy. apply (RInt_correct (V := R_CompleteNormedModule)), gf_int; assumption.
  - intros P [e He].
    assert (Hex : exists a b, 0 < a /\ a < b /\ L - e < RInt (gf s) a b).
    { apply Classical_Prop.NNPP. intros N.
      assert (K : Rbar_le L (L - e)).
      { apply Hlub. intros v (a & b & Ha & Hab & ->). apply Rnot_lt_le. intros Hc. apply N. exists a, b. auto. }
      cbn in K. generalize (cond_pos e). lra. }
    destruct Hex as (a & b & Ha & Hab & Hl).
    apply (Filter_prod _ _ _ (fun x => 0 < x < a) (fun x => b < x)).
    + exists (mkposreal a Ha). intros y By Hy. apply Rabs_lt_between' in By. cbn [pos] in By. lra.
    + exists b. auto.
    + intros x y Hx Hy. cbn [fst snd]. apply He.
      assert (RInt (gf s) x y <= L) by (apply (Hub (RInt (gf s) x y)); exists x, y; repeat split; lra).
      assert (RInt (gf s) a b <= RInt (gf s) x y) by (apply gf_mono; lra).
      apply Rabs_lt_between'. generalize (cond_pos e). intros. lra.
Qed.

Lemma int0_unique f m m' : int0 f m -> int0 f m' -> m = m'.
Proof. intros H H'. rewrite <- (is_RInt_gen_unique f m H). now rewrite <- (is_RInt_gen_unique f m' H'). Qed.
Lemma gamma_1 Gam : is_gamma Gam -> Gam 1 = 1.
Proof.
  intros H. apply (int0_unique (fun t => Rpower t (1 - 1) * exp (- t))); [apply (H 1 Rlt_0_1)|].
  apply (int0_ext (fun t => exp (- t))). { intros t Ht. replace (1 - 1) with 0 by ring. rewrite Rpower_O by exact Ht. ring. }
  apply (int0_F (fun t => - exp (- t)) _ (- exp (- 0)) (- 0)).
  - intros. auto_derive; [exact I|ring].
  - intros. apply (ex_derive_continuous (V := R_NormedModule)). auto_derive. exact I.
  - apply (lim_right (fun t => - exp (- t))). apply (ex_derive_continuous (V := R_NormedModule)). auto_derive. exact I.
  - eapply filterlim_comp; [apply ee_lim|apply (filterlim_opp (K:=R_AbsRing) (V:=R_NormedModule))].
  - rewrite Ropp_0, exp_0. ring.
Qed.
Lemma pow_right0 s : 0 < s -> filterlim (fun t => Rpower t s * exp (- t)) (at_right 0) (locally 0).
Proof.
  intros Hs P [e He].
  assert (Hd : 0 < Rpower e (/ s)) by apply Rpower_pos.
  refine (filter_imp _ (fun t => P (Rpower t s * exp (- t))) _ (filter_and _ _ at_right_01 (at_right_lt _ Hd))).
  intros t [Ht Hl]. apply He. apply Rabs_lt_between'. unfold minus, plus, opp; cbn.
  assert (H1 : 0 < Rpower t s) by apply Rpower_pos.
  assert (H2 : Rpower t s < e).
  { replace (pos e) with (Rpower (Rpower e (/ s)) s).
    - unfold Rpower at 1 2. apply exp_increasing. apply Rmult_lt_compat_l; [exact Hs|]. apply ln_increasing; [lra|exact Hl].
    - rewrite Rpower_mult. replace (/ s * s) with 1 by (field; lra). apply Rpower_1, cond_pos. }
  assert (0 < exp (- t) <= 1) by (split; [apply exp_pos|rewrite <- exp_0; apply exp_le_compat; lra]). nra.
Qed.
Lemma pow_inf s : 0 < s -> filterlim (fun t => Rpower t s * exp (- t)) (Rbar_locally p_infty) (locally 0).
Proof.
  intros Hs. set (K := exp (s * (ln (2 * s) - 1))).
  apply (is_lim_le_le_loc (fun _ => 0) (fun t => K * exp (- (t / 2))) _ p_infty 0).
  - exists 0. intros t Ht. generalize (Rpower_pos t s) (exp_pos (- t)). intros. split; [nra|].
    generalize (pow_exp_bound s t Hs Ht). fold K. intros HB.
    replace (- (t / 2)) with (t / 2 + - t) by field. rewrite exp_plus. nra.
  - apply is_lim_const.
  - replace (Finite 0) with (Finite (K * 0)) by (f_equal; ring). refine (lim_mult (fun _ => K) _ _ _ _ _ _); [apply filterlim_const|].
    apply (filterlim_comp _ _ _ (fun t => t / 2) (fun y => exp (- y)) _ (Rbar_locally p_infty)); [apply half_inf|apply ee_lim].
Qed.
Lemma gamma_rec Gam s : is_gamma Gam -> 0 < s -> Gam (s + 1) = s * Gam s.
Proof.
  intros H Hs.
  assert (K : int0 (fun t => s * (Rpower t (s - 1) * exp (- t)) + -1 * (Rpower t (s + 1 - 1) * exp (- t))) 0).
  { apply (int0_F (fun t => Rpower t s * exp (- t)) _ 0 0).
    - intros t Ht. evar_last.
      + apply (is_derive_mult (fun t => Rpower t s) (fun t => exp (- t)) t (s * Rpower t (s - 1)) (- exp (- t))); [now apply Rpow_derive| |intros; apply Rmult_comm].
        auto_derive; [exact I|ring].
      + unfold plus, mult; cbn. replace (s + 1 - 1) with s by ring. ring.
    - intros t Ht. apply (continuous_plus (V := R_NormedModule) (fun t => s * gf s t) (fun t => -1 * gf (s + 1) t));
        [apply (continuous_scal_r (V := R_NormedModule) s (gf s))|apply (continuous_scal_r (V := R_NormedModule) (-1) (gf (s + 1)))]; now apply gf_cont.
    - now apply pow_right0.
    - now apply pow_inf.
    - ring. }
  assert (K2 : int0 (fun t => s * (Rpower t (s - 1) * exp (- t)) + -1 * (Rpower t (s + 1 - 1) * exp (- t))) (s * Gam s + -1 * Gam (s + 1))).
  { apply (is_RInt_gen_plus (fun t => s * (Rpower t (s - 1) * exp (- t))) (fun t => -1 * (Rpower t (s + 1 - 1) * exp (- t)))).
    - apply (is_RInt_gen_scal (fun t => Rpower t (s - 1) * exp (- t))), (H s Hs).
    - apply (is_RInt_gen_scal (fun t => Rpower t (s + 1 - 1) * exp (- t))), (H (s + 1)). lra. }
  generalize (int0_unique _ _ _ K K2). lra.
Qed.
