From Coquelicot Require Import Coquelicot.
From Verif Require Import Base Gauss GaussProofs Dist DistSpec DistProofs DistMomProofs MomSpec.
From Coq Require Import Lra Lia.
Open Scope R_scope.

(** * Improper integrals: antiderivatives and substitution *)
Lemma gen_F (F f : R -> R) Fa Fb {FFa : Filter Fa} {FFb : Filter Fb} la lb :
  filter_prod Fa Fb (fun ab => forall x, Rmin (fst ab) (snd ab) <= x <= Rmax (fst ab) (snd ab) -> is_derive F x (f x) /\ continuous f x) ->
  filterlim F Fa (locally la) -> filterlim F Fb (locally lb) -> is_RInt_gen f Fa Fb (lb - la).
Proof.
  intros H Ha Hb.
  apply (filterlimi_lim_ext_loc (fun ab => F (snd ab) - F (fst ab))).
  - refine (filter_imp _ _ _ H). intros ab K. apply (is_RInt_derive F f (fst ab) (snd ab)); intros x Hx; apply (K x Hx).
  - apply (filterlim_comp_2 (F := filter_prod Fa Fb) (G := locally lb) (H := locally la) (fun ab : R * R => F (snd ab)) (fun ab => F (fst ab)) Rminus).
    + eapply filterlim_comp; [apply filterlim_snd|exact Hb].
    + eapply filterlim_comp; [apply filterlim_fst|exact Ha].
    + eapply (filterlim_comp_2 (fun x : R * R => fst x) (fun x => - snd x) Rplus).
      * apply filterlim_fst.
      * eapply filterlim_comp; [apply filterlim_snd|apply (filterlim_opp (K:=R_AbsRing) (V:=R_NormedModule))].
      * apply (filterlim_plus (K:=R_AbsRing) (V:=R_NormedModule)).
Qed.

Lemma gen_subst (f phi0 dphi : R -> R) (Fa Fb Ga Gb : (R -> Prop) -> Prop) {FFa : Filter Fa} {FFb : Filter Fb} l :
  filterlim phi0 Fa Ga -> filterlim phi0 Fb Gb ->
  filter_prod Fa Fb (fun ab => forall x, Rmin (fst ab) (snd ab) <= x <= Rmax (fst ab) (snd ab) ->
     continuous f (phi0 x) /\ is_derive phi0 x (dphi x) /\ continuous dphi x) ->
  is_RInt_gen f Ga Gb l -> is_RInt_gen (fun x => dphi x * f (phi0 x)) Fa Fb l.
Proof.
  intros Ha Hb HD HI P HP.
  specialize (HI P HP).
  unfold filtermapi in *.
  destruct HI as [Q1 Q2 K1 K2 K]. destruct HD as [S1 S2 L1 L2 L].
  apply (Filter_prod _ _ _ (fun x => Q1 (phi0 x) /\ S1 x) (fun x => Q2 (phi0 x) /\ S2 x)).
  - apply filter_and; [apply (Ha _ K1)|exact L1].
  - apply filter_and; [apply (Hb _ K2)|exact L2].
  - intros x y [A1 A2] [B1 B2]. destruct (K _ _ A1 B1) as [v [V1 V2]]. exists v. split; [|exact V2].
    cbn [fst snd] in *. specialize (L x y A2 B2). cbn [fst snd] in L.
    assert (E : is_RInt (fun y0 => scal (dphi y0) (f (phi0 y0))) x y (RInt f (phi0 x) (phi0 y))).
    { apply (is_RInt_comp (V := R_CompleteNormedModule) f phi0 dphi x y); intros z Hz; specialize (L z Hz); tauto. }
    rewrite (is_RInt_unique _ _ _ _ V1) in E. exact E.
Qed.

(** Neighbourhood facts *)
Lemma near01 : filter_prod (at_right 0) (at_left 1) (fun ab => forall x, Rmin (fst ab) (snd ab) <= x <= Rmax (fst ab) (snd ab) -> 0 < x < 1).
Proof.
  apply (Filter_prod _ _ _ (fun x => 0 < x < 1) (fun x => 0 < x < 1)).
  - exists (mkposreal 1 Rlt_0_1). intros y By Hy. apply Rabs_lt_between' in By. cbn [pos] in By. unfold minus, plus, opp in *; cbn in *. lra.
  - exists (mkposreal 1 Rlt_0_1). intros y By Hy. apply Rabs_lt_between' in By. cbn [pos] in By. unfold minus, plus, opp in *; cbn in *. lra.
  - intros x y Hx Hy z; cbn [fst snd]. unfold Rmin, Rmax. destruct (Rle_dec x y); lra.
Qed.
Lemma near_pos : filter_prod (at_right 0) (Rbar_locally p_infty) (fun ab => forall x, Rmin (fst ab) (snd ab) <= x <= Rmax (fst ab) (snd ab) -> 0 < x).
Proof.
  apply (Filter_prod _ _ _ (fun x => 0 < x) (fun x => 0 < x)).
  - exists (mkposreal 1 Rlt_0_1). intros y By Hy. exact Hy.
  - exists 0. intros y Hy. exact Hy.
  - intros x y Hx Hy z; cbn [fst snd]. unfold Rmin, Rmax. destruct (Rle_dec x y); lra.
Qed.
Lemma near_all Fa Fb {FFa : Filter Fa} {FFb : Filter Fb} : filter_prod Fa Fb (fun _ : R * R => True).
Proof. apply filter_true. Qed.

(** Composite limits at the ends *)
Lemma Phi_m : filterlim Phi (Rbar_locally m_infty) (at_right 0).
Proof.
  intros P [e He]. destruct (Phi_below e (cond_pos e)) as [x Hx]. exists x. intros y Hy.
  apply He.
  - apply Rabs_lt_between'. unfold minus, plus, opp; cbn. generalize (Phi_bound y) (Phi_incr y x Hy). lra.
  - apply Phi_bound.
Qed.
Lemma Phi_p : filterlim Phi (Rbar_locally p_infty) (at_left 1).
Proof.
  intros P [e He]. destruct (Phi_exceeds (1 - e)) as [x Hx]; [generalize (cond_pos e); lra|]. exists x. intros y Hy.
  apply He.
  - apply Rabs_lt_between'. unfold minus, plus, opp; cbn. generalize (Phi_bound y) (Phi_incr x y Hy). lra.
  - apply Phi_bound.
Qed.
Lemma at_right_01 : at_right 0 (fun p => 0 < p < 1).
Proof. exists (mkposreal 1 Rlt_0_1). intros y By Hy. apply Rabs_lt_between' in By. cbn [pos] in By. lra. Qed.
Lemma at_left_01 : at_left 1 (fun p => 0 < p < 1).
Proof. exists (mkposreal 1 Rlt_0_1). intros y By Hy. apply Rabs_lt_between' in By. cbn [pos] in By. lra. Qed.
Lemma at_right_lt e : 0 < e -> at_right 0 (fun p => p < e).
Proof. intros He. exists (mkposreal e He). intros y By Hy. apply Rabs_lt_between' in By. cbn [pos] in By. lra. Qed.
Lemma at_left_gt e : e < 1 -> at_left 1 (fun p => e < p).
Proof. intros He. assert (K : 0 < 1 - e) by lra. exists (mkposreal _ K). intros y By Hy. apply Rabs_lt_between' in By. cbn [pos] in By. lra. Qed.
Lemma ppf_m : filterlim ppf (at_right 0) (Rbar_locally m_infty).
Proof.
  intros P [M HM]. refine (filter_imp _ (fun p => P (ppf p)) _ (filter_and _ _ at_right_01 (at_right_lt (Phi M) (proj1 (Phi_bound M))))).
  intros p [Hp Hl]. apply HM. rewrite <- (ppf_Phi M). apply ppf_incr; try lra. apply Phi_bound.
Qed.
Lemma ppf_p : filterlim ppf (at_left 1) (Rbar_locally p_infty).
Proof.
  intros P [M HM]. refine (filter_imp _ (fun p => P (ppf p)) _ (filter_and _ _ at_left_01 (at_left_gt (Phi M) (proj2 (Phi_bound M))))).
  intros p [Hp Hl]. apply HM. rewrite <- (ppf_Phi M). apply ppf_incr; try lra. apply Phi_bound.
Qed.

Lemma phi_continuous x : continuous phi x.
Proof. unfold phi. apply (ex_derive_continuous (V := R_NormedModule)). auto_derive. generalize sqrt2_pos. intros. assert (0 < sqrt (2 * PI)) by (apply sqrt_lt_R0; generalize PI_RGT_0; lra). lra. Qed.

Lemma ln_m : filterlim ln (at_right 0) (Rbar_locally m_infty).
Proof. generalize is_lim_ln_0. tauto. Qed.

(** * Transfer between the two forms of expectation *)
Lemma to_N (g : R -> R) m : (forall p, 0 < p < 1 -> continuous g p) -> expect01 g m -> expectN (fun u => g (Phi u)) m.
Proof.
  intros Hc H.
  apply (is_RInt_gen_ext (fun u => phi u * g (Phi u))).
  - apply filter_forall. intros ab x _. apply Rmult_comm.
  - refine (gen_subst g Phi phi _ _ _ _ m Phi_m Phi_p _ H).
    apply filter_forall. intros ab x _. split; [apply Hc, Phi_bound|]. split; [apply Phi_derive|apply phi_continuous].
Qed.
Lemma ppf_continuous p : 0 < p < 1 -> continuous ppf p.
Proof. intros Hp. apply (ex_derive_continuous (V := R_NormedModule)). eexists. apply ppf_derive, Hp. Qed.
Lemma to_01 (h : R -> R) m : (forall u, continuous h u) -> expectN h m -> expect01 (fun p => h (ppf p)) m.
Proof.
  intros Hc H. unfold expect01.
  apply (is_RInt_gen_ext (fun p => / phi (ppf p) * (h (ppf p) * phi (ppf p)))).
  - refine (filter_imp _ _ _ near01). intros ab K x Hx.
    assert (E : / phi (ppf x) * (h (ppf x) * phi (ppf x)) = h (ppf x)) by (field; generalize (phi_pos (ppf x)); lra). exact E.
  - refine (gen_subst (fun u => h u * phi u) ppf (fun p => / phi (ppf p)) _ _ _ _ m ppf_m ppf_p _ H).
    refine (filter_imp _ _ _ near01). intros ab K x Hx. specialize (K x Hx). split; [|split].
    + apply (continuous_mult h phi); [apply Hc|apply phi_continuous].
    + apply ppf_derive, K.
    + apply continuous_comp; [apply continuous_comp; [apply ppf_continuous, K|apply phi_continuous]|].
      apply (ex_derive_continuous (V := R_NormedModule) Rinv). auto_derive. generalize (phi_pos (ppf x)). lra.
Qed.

(** * Linear combinations *)
Lemma e01_ext g h m : (forall p, 0 < p < 1 -> g p = h p) -> expect01 g m -> expect01 h m.
Proof. intros E. apply is_RInt_gen_ext. refine (filter_imp _ _ _ near01). intros ab K x Hx. apply E, K. lra. Qed.
Lemma eN_ext g h m : (forall u, g u = h u) -> expectN g m -> expectN h m.
Proof. intros E. apply is_RInt_gen_ext. apply filter_forall. intros ab x _. now rewrite E. Qed.
Lemma lim_right (F : R -> R) a : continuous F a -> filterlim F (at_right a) (locally (F a)).
Proof. intros H. eapply filterlim_filter_le_1; [|exact H]. apply filter_le_within. Qed.
Lemma lim_left (F : R -> R) a : continuous F a -> filterlim F (at_left a) (locally (F a)).
Proof. intros H. eapply filterlim_filter_le_1; [|exact H]. apply filter_le_within. Qed.
Lemma e01_const c : expect01 (fun _ => c) c.
Proof.
  assert (E : c * 1 - c * 0 = c) by ring. enough (K : expect01 (fun _ => c) (c * 1 - c * 0)) by (now rewrite E in K). unfold expect01.
  refine (gen_F (fun x => c * x) (fun _ => c) _ _ (c * 0) (c * 1) _ _ _).
  - apply filter_forall. intros ab x _. split; [auto_derive; [exact I|ring]|apply continuous_const].
  - apply (lim_right (fun x => c * x)). apply (continuous_scal_r (V := R_NormedModule) c (fun x => x)). apply continuous_id.
  - apply (lim_left (fun x => c * x)). apply (continuous_scal_r (V := R_NormedModule) c (fun x => x)). apply continuous_id.
Qed.
Lemma e01_lin g h a b c m1 m2 : expect01 g m1 -> expect01 h m2 -> expect01 (fun p => a * g p + b * h p + c) (a * m1 + b * m2 + c).
Proof.
  intros H1 H2.
  apply (is_RInt_gen_plus (fun p => a * g p + b * h p) (fun _ => c)); [|apply e01_const].
  apply (is_RInt_gen_plus (fun p => a * g p) (fun p => b * h p)); [apply (is_RInt_gen_scal g), H1|apply (is_RInt_gen_scal h), H2].
Qed.

(** mean and second moment give mean and variance of any affine image *)
Lemma e01_affine Q m s loc sc : expect01 Q m -> expect01 (fun p => Q p * Q p) (m * m + s * s) ->
  expect01 (fun p => loc + sc * Q p) (loc + sc * m) /\ expect01 (fun p => (loc + sc * Q p - (loc + sc * m)) * (loc + sc * Q p - (loc + sc * m))) ((sc * s) * (sc * s)).
Proof.
  intros H1 H2. split.
  - replace (loc + sc * m) with (sc * m + 0 * m + loc) by ring.
    apply (e01_ext (fun p => sc * Q p + 0 * Q p + loc)); [intros; ring|]. now apply e01_lin.
  - replace (sc * s * (sc * s)) with ((sc * sc) * (m * m + s * s) + (- 2 * sc * sc * m) * m + sc * sc * m * m) by ring.
    eapply e01_ext; [|apply (e01_lin (fun p => Q p * Q p) Q (sc * sc) (- 2 * sc * sc * m) (sc * sc * m * m) _ _ H2 H1)].
    intros p _. cbn beta. ring.
Qed.

Lemma cont_aff (Q : R -> R) a b p : continuous Q p -> continuous (fun p => a + b * Q p) p.
Proof.
  intros H. apply (continuous_plus (V := R_NormedModule) (fun _ => a) (fun p => b * Q p)); [apply continuous_const|].
  apply (continuous_scal_r (V := R_NormedModule) b Q), H.
Qed.
Lemma cont_sq (Q : R -> R) c p : continuous Q p -> continuous (fun p => (Q p - c) * (Q p - c)) p.
Proof.
  intros H. assert (K : continuous (fun p => Q p - c) p) by (apply (continuous_minus (V := R_NormedModule) Q (fun _ => c)); [exact H|apply continuous_const]).
  apply (continuous_mult (fun p => Q p - c) (fun p => Q p - c)); exact K.
Qed.

Lemma base_moments s : fam_moments (fz_fam (so_obj s)) -> so_mean s = fz_mean (so_obj s) -> so_stdv s = fz_std (so_obj s) ->
  moments_true (base_dist s).
Proof.
  intros [Hc [H1 H2]] Em Es.
  destruct (e01_affine _ _ _ (fz_loc (so_obj s)) (fz_scale (so_obj s)) H1 H2) as [K1 K2].
  unfold moments_true, sample_moments, mc_moments, d_sample, base_dist.
  cbn [d_ppf d_u2x d_mean d_stdv]. rewrite Em, Es. unfold fz_ppf, fz_mean, fz_std.
  split; split; try assumption.
  - apply (to_N (fun p => fz_loc (so_obj s) + fz_scale (so_obj s) * sf_ppf (fz_fam (so_obj s)) p)); [|exact K1].
    intros p Hp. apply cont_aff. now apply Hc.
  - refine (to_N (fun p => (_ + _ * sf_ppf (fz_fam (so_obj s)) p - _) * (_ + _ * sf_ppf (fz_fam (so_obj s)) p - _)) _ _ K2).
    intros p Hp. apply (cont_sq (fun p => _ + _ * sf_ppf (fz_fam (so_obj s)) p)). apply cont_aff. now apply Hc.
Qed.

(** antiderivative form on (0,1) *)
Lemma e01_F (F g : R -> R) la lb m : (forall p, 0 < p < 1 -> is_derive F p (g p)) -> (forall p, 0 < p < 1 -> continuous g p) ->
  filterlim F (at_right 0) (locally la) -> filterlim F (at_left 1) (locally lb) -> m = lb - la -> expect01 g m.
Proof.
  intros HD Hc Ha Hb ->. refine (gen_F F g _ _ la lb _ Ha Hb).
  refine (filter_imp _ _ _ near01). intros ab K x Hx. specialize (K x Hx). split; auto.
Qed.
Lemma eN_F (F h : R -> R) la lb m : (forall u, is_derive F u (h u * phi u)) -> (forall u, continuous h u) ->
  filterlim F (Rbar_locally m_infty) (locally la) -> filterlim F (Rbar_locally p_infty) (locally lb) -> m = lb - la -> expectN h m.
Proof.
  intros HD Hc Ha Hb ->. refine (gen_F F (fun u => h u * phi u) _ _ la lb _ Ha Hb).
  apply filter_forall. intros ab x _. split; [apply HD|]. apply (continuous_mult h phi); [apply Hc|apply phi_continuous].
Qed.

(** * Families *)
Lemma fam_uniform : fam_moments uniform_fam.
Proof.
  unfold fam_moments; cbn [uniform_fam sf_ppf sf_mean sf_std]. split; [intros; apply continuous_id|]. split.
  - apply (e01_F (fun p => p * p / 2) (fun p => p) (0 * 0 / 2) (1 * 1 / 2)).
    + intros. auto_derive; [exact I|lra].
    + intros. apply continuous_id.
    + apply (lim_right (fun p => p * p / 2)). apply (ex_derive_continuous (V := R_NormedModule)). auto_derive. exact I.
    + apply (lim_left (fun p => p * p / 2)). apply (ex_derive_continuous (V := R_NormedModule)). auto_derive. exact I.
    + lra.
  - rewrite sqrt_sqrt by lra.
    apply (e01_F (fun p => p * p * p / 3) (fun p => p * p) (0 * 0 * 0/ 3) (1 * 1 * 1 / 3)).
    + intros. auto_derive; [exact I|lra].
    + intros. apply (ex_derive_continuous (V := R_NormedModule)). auto_derive. exact I.
    + apply (lim_right (fun p => p * p * p / 3)). apply (ex_derive_continuous (V := R_NormedModule)). auto_derive. exact I.
    + apply (lim_left (fun p => p * p * p / 3)). apply (ex_derive_continuous (V := R_NormedModule)). auto_derive. exact I.
    + lra.
Qed.

(** * Substitution t = -ln(1-p) and t = -ln p *)
Lemma T_derive p : p < 1 -> is_derive (fun p => - ln (1 - p)) p (/ (1 - p)).
Proof. intros H. auto_derive; [lra|field; lra]. Qed.
Lemma T_pos p : 0 < p < 1 -> 0 < - ln (1 - p).
Proof. intros H. assert (ln (1 - p) < ln 1) by (apply ln_increasing; lra). rewrite ln_1 in *. lra. Qed.
Lemma exp_T p : p < 1 -> exp (- - ln (1 - p)) = 1 - p.
Proof. intros H. rewrite Ropp_involutive. apply exp_ln. lra. Qed.
Lemma T_right : filterlim (fun p => - ln (1 - p)) (at_right 0) (at_right 0).
Proof.
  intros P [e He].
  assert (Hp : 0 < 1 - exp (- e)) by (assert (exp (- e) < exp 0) by (apply exp_increasing; generalize (cond_pos e); lra); rewrite exp_0 in *; lra).
  refine (filter_imp _ (fun p => P (- ln (1 - p))) _ (filter_and _ _ at_right_01 (at_right_lt _ Hp))).
  intros p [H1 H2]. generalize (T_pos p H1). intros. apply He; [|assumption].
  apply Rabs_lt_between'. unfold minus, plus, opp; cbn.
  assert (- e < ln (1 - p)) by (rewrite <- (ln_exp (- e)); apply ln_increasing; [apply exp_pos|lra]). lra.
Qed.
Lemma T_left : filterlim (fun p => - ln (1 - p)) (at_left 1) (Rbar_locally p_infty).
Proof.
  intros P [M HM].
  assert (Hp : 1 - exp (- M) < 1) by (generalize (exp_pos (- M)); lra).
  refine (filter_imp _ (fun p => P (- ln (1 - p))) _ (filter_and _ _ at_left_01 (at_left_gt _ Hp))).
  intros p [H1 H2]. apply HM.
  assert (ln (1 - p) < - M) by (rewrite <- (ln_exp (- M)); apply ln_increasing; lra). lra.
Qed.
Lemma e01_T (h : R -> R) m : (forall t, 0 < t -> continuous h t) ->
  is_RInt_gen (fun t => h t * exp (- t)) (at_right 0) (Rbar_locally p_infty) m -> expect01 (fun p => h (- ln (1 - p))) m.
Proof.
  intros Hc H.
  apply (e01_ext (fun p => / (1 - p) * (h (- ln (1 - p)) * exp (- - ln (1 - p))))).
  - intros p Hp. rewrite exp_T by lra. field. lra.
  - refine (gen_subst (fun t => h t * exp (- t)) (fun p => - ln (1 - p)) (fun p => / (1 - p)) _ _ _ _ m T_right T_left _ H).
    refine (filter_imp _ _ _ near01). intros ab K x Hx. specialize (K x Hx). split; [|split].
    + apply (continuous_mult h (fun t => exp (- t))); [apply Hc, T_pos, K|].
      apply (ex_derive_continuous (V := R_NormedModule)). auto_derive. exact I.
    + apply T_derive. lra.
    + apply (ex_derive_continuous (V := R_NormedModule)). auto_derive. lra.
Qed.

(** the reflection p -> 1 - p *)
Lemma refl_r : filterlim (fun p => 1 - p) (at_right 0) (at_left 1).
Proof. intros P [e He]. exists e. intros y By Hy. apply He; [|lra]. apply Rabs_lt_between' in By. apply Rabs_lt_between'. unfold minus, plus, opp in *; cbn in *. lra. Qed.
Lemma refl_l : filterlim (fun p => 1 - p) (at_left 1) (at_right 0).
Proof. intros P [e He]. exists e. intros y By Hy. apply He; [|lra]. apply Rabs_lt_between' in By. apply Rabs_lt_between'. unfold minus, plus, opp in *; cbn in *. lra. Qed.
Lemma e01_refl g m : (forall p, 0 < p < 1 -> continuous g p) -> expect01 g m -> expect01 (fun p => g (1 - p)) m.
Proof.
  intros Hc H.
  assert (K : is_RInt_gen (fun p => -1 * g (1 - p)) (at_left 1) (at_right 0) m).
  { refine (gen_subst g (fun p => 1 - p) (fun _ => -1) _ _ _ _ m refl_l refl_r _ H).
    apply (Filter_prod _ _ _ (fun x => 0 < x < 1) (fun x => 0 < x < 1)); [apply at_left_01|apply at_right_01|].
    intros x y Hx Hy z Hz. cbn [fst snd] in Hz. assert (0 < z < 1) by (revert Hz; unfold Rmin, Rmax; destruct (Rle_dec x y); lra).
    split; [apply Hc; lra|]. split; [auto_derive; [exact I|ring]|apply continuous_const]. }
  apply is_RInt_gen_swap in K. apply (is_RInt_gen_scal _ (-1)) in K.
  apply (is_RInt_gen_ext (fun p => g (1 - p))) in K || idtac.
  unfold expect01. replace m with (scal (-1) (opp m)) by (unfold scal, opp; cbn; unfold mult; cbn; ring).
  refine (is_RInt_gen_ext _ _ _ _ K). apply filter_forall. intros ab x _. unfold scal; cbn; unfold mult; cbn. ring.
Qed.
Lemma e01_L (h : R -> R) m : (forall t, 0 < t -> continuous h t) ->
  is_RInt_gen (fun t => h t * exp (- t)) (at_right 0) (Rbar_locally p_infty) m -> expect01 (fun p => h (- ln p)) m.
Proof.
  intros Hc H. apply (e01_ext (fun p => h (- ln (1 - (1 - p))))); [intros; do 3 f_equal; ring|].
  apply (e01_refl (fun p => h (- ln (1 - p)))); [|now apply e01_T].
  intros p Hp. apply continuous_comp; [|apply Hc, T_pos, Hp].
  apply (ex_derive_continuous (V := R_NormedModule)). eexists. apply T_derive. lra.
Qed.
