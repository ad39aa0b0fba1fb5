From Coquelicot Require Import Coquelicot.
From Verif Require Import Base Gauss GaussProofs Dist DistSpec DistProofs DistMomProofs MomSpec MomProofs.
From Coq Require Import Lra Lia.
Open Scope R_scope.

Lemma int0_F (F f : R -> R) la lb m : (forall t, 0 < t -> is_derive F t (f t)) -> (forall t, 0 < t -> continuous f t) ->
  filterlim F (at_right 0) (locally la) -> filterlim F (Rbar_locally p_infty) (locally lb) -> m = lb - la -> int0 f m.
Proof.
  intros HD Hc Ha Hb ->. refine (gen_F F f _ _ la lb _ Ha Hb).
  refine (filter_imp _ _ _ near_pos). intros ab K x Hx. specialize (K x Hx). split; auto.
Qed.
Lemma int0_ext f g m : (forall t, 0 < t -> f t = g t) -> int0 f m -> int0 g m.
Proof. intros E. apply is_RInt_gen_ext. refine (filter_imp _ _ _ near_pos). intros ab K x Hx. apply E, K. lra. Qed.

(** t e^(-t) and t^2 e^(-t) vanish at +inf *)
Lemma te_lim : filterlim (fun t => t * exp (- t)) (Rbar_locally p_infty) (locally 0).
Proof.
  apply (filterlim_ext (fun t => - (- t * exp (- t)))); [intros; ring|].
  replace 0 with (- 0) by ring.
  eapply filterlim_comp; [|apply (filterlim_opp (K:=R_AbsRing) (V:=R_NormedModule))].
  apply (filterlim_comp _ _ _ Ropp (fun y => y * exp y) _ (Rbar_locally m_infty)).
  - apply (filterlim_Rbar_opp p_infty).
  - apply is_lim_mul_exp_m.
Qed.
Lemma ee_lim : filterlim (fun t => exp (- t)) (Rbar_locally p_infty) (locally 0).
Proof.
  apply (filterlim_comp _ _ _ Ropp exp _ (Rbar_locally m_infty)).
  - apply (filterlim_Rbar_opp p_infty).
  - apply is_lim_exp_m.
Qed.
Lemma lim_plus (f g : R -> R) (F : (R -> Prop) -> Prop) {FF : Filter F} a b : filterlim f F (locally a) -> filterlim g F (locally b) -> filterlim (fun t => f t + g t) F (locally (a + b)).
Proof. intros H1 H2. eapply filterlim_comp_2; [exact H1|exact H2|apply (filterlim_plus (K:=R_AbsRing) (V:=R_NormedModule))]. Qed.
Lemma lim_mult (f g : R -> R) (F : (R -> Prop) -> Prop) {FF : Filter F} a b : filterlim f F (locally a) -> filterlim g F (locally b) -> filterlim (fun t => f t * g t) F (locally (a * b)).
Proof. intros H1 H2. eapply filterlim_comp_2; [exact H1|exact H2|apply (filterlim_mult (K:=R_AbsRing))]. Qed.
Lemma half_inf : filterlim (fun t => t / 2) (Rbar_locally p_infty) (Rbar_locally p_infty).
Proof. intros P [M HM]. exists (2 * M). intros x Hx. apply HM. lra. Qed.
Lemma t2e_lim : filterlim (fun t => t * t * exp (- t)) (Rbar_locally p_infty) (locally 0).
Proof.
  apply (filterlim_ext (fun t => 4 * ((t / 2 * exp (- (t / 2))) * (t / 2 * exp (- (t / 2)))))).
  { intros t. replace (- t) with (- (t / 2) + - (t / 2)) by field. rewrite exp_plus. field. }
  replace 0 with (4 * (0 * 0)) by ring.
  assert (K : filterlim (fun t => t / 2 * exp (- (t / 2))) (Rbar_locally p_infty) (locally 0)).
  { apply (filterlim_comp _ _ _ (fun t => t / 2) (fun y => y * exp (- y)) _ (Rbar_locally p_infty)); [apply half_inf|apply te_lim]. }
  refine (lim_mult (fun _ => 4) _ _ _ _ _ _); [apply filterlim_const|]. refine (lim_mult _ _ _ _ _ K K).
Qed.

Lemma int_t : int0 (fun t => t * exp (- t)) 1.
Proof.
  apply (int0_F (fun t => - (t * exp (- t)) + - exp (- t)) _ (- (0 * exp (- 0)) + - exp (- 0)) (- 0 + - 0)).
  - intros. auto_derive; [exact I|ring].
  - intros. apply (ex_derive_continuous (V := R_NormedModule)). auto_derive. exact I.
  - apply (lim_right (fun t => - (t * exp (- t)) + - exp (- t))). apply (ex_derive_continuous (V := R_NormedModule)). auto_derive. exact I.
  - refine (lim_plus _ _ _ _ _ _ _); (eapply filterlim_comp; [|apply (filterlim_opp (K:=R_AbsRing) (V:=R_NormedModule))]); [apply te_lim|apply ee_lim].
  - rewrite Ropp_0, exp_0. ring.
Qed.
Lemma int_t2 : int0 (fun t => t * t * exp (- t)) 2.
Proof.
  apply (int0_F (fun t => - (t * t * exp (- t)) + -2 * (t * exp (- t)) + -2 * exp (- t)) _ (- (0 * 0 * exp (- 0)) + -2 * (0 * exp (- 0)) + -2 * exp (- 0)) (- 0 + -2 * 0 + -2 * 0)).
  - intros. auto_derive; [exact I|ring].
  - intros. apply (ex_derive_continuous (V := R_NormedModule)). auto_derive. exact I.
  - apply (lim_right (fun t => - (t * t * exp (- t)) + -2 * (t * exp (- t)) + -2 * exp (- t))). apply (ex_derive_continuous (V := R_NormedModule)). auto_derive. exact I.
  - refine (lim_plus _ _ _ _ _ _ _); [refine (lim_plus _ _ _ _ _ _ _)|].
    + eapply filterlim_comp; [apply t2e_lim|apply (filterlim_opp (K:=R_AbsRing) (V:=R_NormedModule))].
    + refine (lim_mult (fun _ => -2) _ _ _ _ _ _); [apply filterlim_const|apply te_lim].
    + refine (lim_mult (fun _ => -2) _ _ _ _ _ _); [apply filterlim_const|apply ee_lim].
  - rewrite Ropp_0, exp_0. ring.
Qed.

Lemma T_cont (h : R -> R) p : 0 < p < 1 -> (forall t, 0 < t -> continuous h t) -> continuous (fun p => h (- ln (1 - p))) p.
Proof.
  intros Hp Hc. apply continuous_comp; [|apply Hc, T_pos, Hp].
  apply (ex_derive_continuous (V := R_NormedModule)). eexists. apply T_derive. lra.
Qed.
Lemma fam_expon : fam_moments expon_fam.
Proof.
  unfold fam_moments; cbn [expon_fam sf_ppf sf_mean sf_std]. split; [|split].
  - intros p Hp. apply (T_cont (fun t => t)); [exact Hp|intros; apply continuous_id].
  - apply (e01_T (fun t => t)); [intros; apply continuous_id|apply int_t].
  - replace (1 * 1 + 1 * 1) with 2 by ring. apply (e01_T (fun t => t * t)); [|apply int_t2].
    intros. apply (ex_derive_continuous (V := R_NormedModule)). auto_derive. exact I.
Qed.

(** Rayleigh *)
Lemma sqrt2t_pos t : 0 < t -> 0 < sqrt (2 * t).
Proof. intros. apply sqrt_lt_R0. lra. Qed.
Lemma phi_sqrt t : 0 < t -> sqrt (2 * PI) * phi (sqrt (2 * t)) = exp (- t).
Proof.
  intros Ht. unfold phi. rewrite sqrt_sqrt by lra. replace (- (1 / 2) * (2 * t)) with (- t) by field.
  field. assert (0 < sqrt (2 * PI)) by (apply sqrt_lt_R0; generalize PI_RGT_0; lra). lra.
Qed.
Lemma sqrt_inf : filterlim (fun t => sqrt (2 * t)) (Rbar_locally p_infty) (Rbar_locally p_infty).
Proof.
  intros P [M HM]. exists (Rmax 1 (M * M)). intros x Hx. apply HM.
  assert (1 < x) by (eapply Rle_lt_trans; [apply Rmax_l|exact Hx]). assert (M * M < x) by (eapply Rle_lt_trans; [apply Rmax_r|exact Hx]).
  destruct (Rlt_dec M 0); [assert (0 < sqrt (2 * x)) by (apply sqrt_lt_R0; lra); lra|].
  rewrite <- (sqrt_square M) by lra. apply sqrt_lt_1; nra.
Qed.
Lemma Phi_cont' x : continuous Phi x.
Proof. apply (ex_derive_continuous (V := R_NormedModule)). eexists. apply Phi_derive. Qed.
Lemma int_sqrt : int0 (fun t => sqrt (2 * t) * exp (- t)) (sqrt (PI / 2)).
Proof.
  set (c := sqrt (2 * PI)).
  apply (int0_F (fun t => - (sqrt (2 * t) * exp (- t)) + c * Phi (sqrt (2 * t))) _ (- (sqrt (2 * 0) * exp (- 0)) + c * Phi (sqrt (2 * 0))) (- 0 + c * 1)).
  - intros t Ht.
    assert (D : is_derive (fun t => sqrt (2 * t)) t (/ sqrt (2 * t))).
    { auto_derive; [lra|]. field. generalize (sqrt2t_pos t Ht). lra. }
    evar_last.
    + apply (is_derive_plus (K := R_AbsRing) (fun t => - (sqrt (2 * t) * exp (- t))) (fun t => c * Phi (sqrt (2 * t)))).
      * apply (is_derive_opp (K := R_AbsRing) (fun t => sqrt (2 * t) * exp (- t))).
        apply (is_derive_mult (fun t => sqrt (2 * t)) (fun t => exp (- t)) t (/ sqrt (2 * t)) (- exp (- t))); [exact D| |intros; apply Rmult_comm].
        auto_derive; [exact I|ring].
      * apply (is_derive_scal (fun t => Phi (sqrt (2 * t)))). apply (Phi_comp_derive (fun t => sqrt (2 * t))), D.
    + unfold plus, opp, mult; cbn. generalize (phi_sqrt t Ht) (sqrt2t_pos t Ht). fold c. intros E P. rewrite <- E. field. lra.
  - intros t Ht. apply (continuous_mult (fun t => sqrt (2 * t)) (fun t => exp (- t))); apply (ex_derive_continuous (V := R_NormedModule)); auto_derive; [lra|exact I].
  - apply (lim_right (fun t => - (sqrt (2 * t) * exp (- t)) + c * Phi (sqrt (2 * t)))).
    assert (S : continuous (fun t => sqrt (2 * t)) 0).
    { apply continuous_comp; [apply (ex_derive_continuous (V := R_NormedModule)); auto_derive; exact I|]. apply continuous_sqrt. }
    apply (continuous_plus (V := R_NormedModule) (fun t => - (sqrt (2 * t) * exp (- t))) (fun t => c * Phi (sqrt (2 * t)))).
    + apply (continuous_opp (V := R_NormedModule) (fun t => sqrt (2 * t) * exp (- t))). apply (continuous_mult (fun t => sqrt (2 * t)) (fun t => exp (- t))); [exact S|].
      apply (ex_derive_continuous (V := R_NormedModule)). auto_derive. exact I.
    + apply (continuous_scal_r (V := R_NormedModule) c (fun t => Phi (sqrt (2 * t)))). apply continuous_comp; [exact S|apply Phi_cont'].
  - refine (lim_plus _ _ _ _ _ _ _).
    + eapply filterlim_comp; [|apply (filterlim_opp (K:=R_AbsRing) (V:=R_NormedModule))].
      apply (is_lim_le_le_loc (fun _ => 0) (fun t => exp (- t) + 2 * (t * exp (- t))) _ p_infty 0).
      * exists 0. intros t Ht. generalize (exp_pos (- t)) (sqrt2t_pos t Ht). intros He Hs.
        assert (sqrt (2 * t) <= 1 + 2 * t) by (generalize (sqrt_sqrt (2 * t)); intros Q; assert (sqrt (2 * t) * sqrt (2 * t) = 2 * t) by (apply Q; lra); nra). nra.
      * apply is_lim_const.
      * replace (Finite 0) with (Finite (0 + 2 * 0)) by (f_equal; ring). refine (lim_plus _ _ _ _ _ _ _); [apply ee_lim|]. refine (lim_mult (fun _ => 2) _ _ _ _ _ _); [apply filterlim_const|apply te_lim].
    + refine (lim_mult (fun _ => c) _ _ _ _ _ _); [apply filterlim_const|].
      apply (filterlim_comp _ _ _ (fun t => sqrt (2 * t)) Phi _ (Rbar_locally p_infty)); [apply sqrt_inf|].
      eapply filterlim_filter_le_2; [|apply Phi_p]. apply filter_le_within.
  - rewrite Rmult_0_r, sqrt_0, Phi_0. unfold c. replace (2 * PI) with (4 * (PI / 2)) by field. rewrite sqrt_mult by (generalize PI_RGT_0; lra).
    replace 4 with (2 * 2) by ring. rewrite sqrt_square by lra. field.
Qed.

Lemma fam_rayleigh : fam_moments rayleigh_fam.
Proof.
  assert (Hc : forall t, 0 < t -> continuous (fun t => sqrt (2 * t)) t).
  { intros t Ht. apply (ex_derive_continuous (V := R_NormedModule)). auto_derive. lra. }
  assert (Hi : PI / 2 <= 2) by (generalize PI_lt_4; lra). assert (Hp : 0 <= PI / 2) by (generalize PI_RGT_0; lra).
  unfold fam_moments; cbn [rayleigh_fam sf_ppf sf_mean sf_std].
  assert (E : forall p, sqrt (-2 * ln (1 - p)) = sqrt (2 * (- ln (1 - p)))) by (intros; f_equal; ring).
  split; [|split].
  - intros p Hp'. apply (continuous_ext (fun p => sqrt (2 * (- ln (1 - p))))); [intros; now rewrite E|].
    now apply (T_cont (fun t => sqrt (2 * t))).
  - apply (e01_ext (fun p => sqrt (2 * (- ln (1 - p))))); [intros; now rewrite E|].
    apply (e01_T (fun t => sqrt (2 * t))); [exact Hc|apply int_sqrt].
  - rewrite !sqrt_sqrt by lra. replace (PI / 2 + (2 - PI / 2)) with 2 by ring.
    apply (e01_ext (fun p => 2 * (- ln (1 - p)))).
    { intros p Hp'. rewrite E. rewrite sqrt_sqrt; [reflexivity|]. generalize (T_pos p Hp'). lra. }
    assert (K : expect01 (fun p => - ln (1 - p)) 1) by (apply (e01_T (fun t => t)); [intros; apply continuous_id|apply int_t]).
    assert (K2 := e01_lin (fun p => - ln (1 - p)) (fun p => - ln (1 - p)) 2 0 0 1 1 K K).
    replace (2 * 1 + 0 * 1 + 0) with 2 in K2 by ring. refine (e01_ext _ _ _ _ K2). intros; cbn beta; ring.
Qed.

(** * Normal and lognormal values, in the space of U *)
Lemma Phi_lim_m : filterlim Phi (Rbar_locally m_infty) (locally 0).
Proof. eapply filterlim_filter_le_2; [|apply Phi_m]. apply filter_le_within. Qed.
Lemma Phi_lim_p : filterlim Phi (Rbar_locally p_infty) (locally 1).
Proof. eapply filterlim_filter_le_2; [|apply Phi_p]. apply filter_le_within. Qed.
Lemma shift_m a : filterlim (fun u => u - a) (Rbar_locally m_infty) (Rbar_locally m_infty).
Proof. intros P [M HM]. exists (M + a). intros x Hx. apply HM. lra. Qed.
Lemma shift_p a : filterlim (fun u => u - a) (Rbar_locally p_infty) (Rbar_locally p_infty).
Proof. intros P [M HM]. exists (M + a). intros x Hx. apply HM. lra. Qed.
Lemma phi_shift u z : exp (z * u) * phi u = exp (z * z / 2) * phi (u - z).
Proof. unfold phi, Rdiv. rewrite <- !Rmult_assoc, <- !exp_plus. do 2 f_equal. field. Qed.
Lemma eN_exp z : expectN (fun u => exp (z * u)) (exp (z * z / 2)).
Proof.
  apply (eN_F (fun u => exp (z * z / 2) * Phi (u - z)) _ (exp (z * z / 2) * 0) (exp (z * z / 2) * 1)).
  - intros u. rewrite phi_shift. apply (is_derive_scal (fun u => Phi (u - z))).
    evar_last; [apply (Phi_comp_derive (fun u => u - z) u 1); auto_derive; [exact I|ring]|ring].
  - intros. apply (ex_derive_continuous (V := R_NormedModule)). auto_derive. exact I.
  - refine (lim_mult (fun _ => exp (z * z / 2)) _ _ _ _ _ _); [apply filterlim_const|].
    apply (filterlim_comp _ _ _ (fun u => u - z) Phi _ (Rbar_locally m_infty)); [apply shift_m|apply Phi_lim_m].
  - refine (lim_mult (fun _ => exp (z * z / 2)) _ _ _ _ _ _); [apply filterlim_const|].
    apply (filterlim_comp _ _ _ (fun u => u - z) Phi _ (Rbar_locally p_infty)); [apply shift_p|apply Phi_lim_p].
  - ring.
Qed.
Lemma phi_derive u : is_derive phi u (- u * phi u).
Proof. unfold phi. assert (0 < sqrt (2 * PI)) by (apply sqrt_lt_R0; generalize PI_RGT_0; lra). auto_derive; [lra|field; lra]. Qed.
Lemma phi_le u : 0 < u -> 0 <= phi u <= phi 0 * exp (- u) * exp (1 / 2).
Proof.
  intros Hu. split; [left; apply phi_pos|]. unfold phi. assert (0 < sqrt (2 * PI)) by (apply sqrt_lt_R0; generalize PI_RGT_0; lra).
  replace (exp (- (1 / 2) * (0 * 0)) / sqrt (2 * PI) * exp (- u) * exp (1 / 2)) with (exp (- u + 1 / 2) / sqrt (2 * PI)).
  2:{ replace (- (1 / 2) * (0 * 0)) with 0 by ring. rewrite exp_0, exp_plus. field. lra. }
  apply Rmult_le_compat_r; [left; now apply Rinv_0_lt_compat|]. apply exp_le_compat. assert (0 <= (u - 1) * (u - 1)) by apply Rle_0_sqr. lra.
Qed.
Lemma uphi_lim_p : filterlim (fun u => u * phi u) (Rbar_locally p_infty) (locally 0).
Proof.
  apply (is_lim_le_le_loc (fun _ => 0) (fun u => (phi 0 * exp (1 / 2)) * (u * exp (- u))) _ p_infty 0).
  - exists 0. intros u Hu. generalize (phi_le u Hu). intros. nra.
  - apply is_lim_const.
  - replace (Finite 0) with (Finite (phi 0 * exp (1 / 2) * 0)) by (f_equal; ring). refine (lim_mult (fun _ => phi 0 * exp (1 / 2)) _ _ _ _ _ _); [apply filterlim_const|apply te_lim].
Qed.
Lemma phi_lim_p : filterlim phi (Rbar_locally p_infty) (locally 0).
Proof.
  apply (is_lim_le_le_loc (fun _ => 0) (fun u => u * phi u) _ p_infty 0).
  - exists 1. intros u Hu. generalize (phi_pos u). intros. nra.
  - apply is_lim_const.
  - apply uphi_lim_p.
Qed.
Lemma opp_m : filterlim Ropp (Rbar_locally m_infty) (Rbar_locally p_infty).
Proof. apply (filterlim_Rbar_opp m_infty). Qed.
Lemma phi_lim_m : filterlim phi (Rbar_locally m_infty) (locally 0).
Proof.
  apply (filterlim_ext (fun u => phi (- u))); [intros; apply phi_opp|].
  apply (filterlim_comp _ _ _ Ropp phi _ (Rbar_locally p_infty)); [apply opp_m|apply phi_lim_p].
Qed.
Lemma uphi_lim_m : filterlim (fun u => u * phi u) (Rbar_locally m_infty) (locally 0).
Proof.
  apply (filterlim_ext (fun u => - (- u * phi (- u)))); [intros; rewrite phi_opp; ring|].
  replace 0 with (- 0) by ring.
  eapply filterlim_comp; [|apply (filterlim_opp (K:=R_AbsRing) (V:=R_NormedModule))].
  apply (filterlim_comp _ _ _ Ropp (fun u => u * phi u) _ (Rbar_locally p_infty)); [apply opp_m|apply uphi_lim_p].
Qed.
Lemma eN_u : expectN (fun u => u) 0.
Proof.
  apply (eN_F (fun u => - phi u) _ (- 0) (- 0)).
  - intros u. evar_last; [apply (is_derive_opp (K := R_AbsRing) phi), phi_derive|]. unfold opp; cbn. ring.
  - intros; apply continuous_id.
  - eapply filterlim_comp; [apply phi_lim_m|apply (filterlim_opp (K:=R_AbsRing) (V:=R_NormedModule))].
  - eapply filterlim_comp; [apply phi_lim_p|apply (filterlim_opp (K:=R_AbsRing) (V:=R_NormedModule))].
  - ring.
Qed.
Lemma eN_u2 : expectN (fun u => u * u) 1.
Proof.
  apply (eN_F (fun u => Phi u + - (u * phi u)) _ (0 + - 0) (1 + - 0)).
  - intros u. evar_last.
    + apply (is_derive_plus (K := R_AbsRing) Phi (fun u => - (u * phi u))); [apply Phi_derive|].
      apply (is_derive_opp (K := R_AbsRing) (fun u => u * phi u)).
      apply (is_derive_mult (fun u => u) phi u 1 (- u * phi u)); [auto_derive; [exact I|ring]|apply phi_derive|intros; apply Rmult_comm].
    + unfold plus, opp, mult; cbn. ring.
  - intros. apply (ex_derive_continuous (V := R_NormedModule)). auto_derive. exact I.
  - refine (lim_plus _ _ _ _ _ _ _); [apply Phi_lim_m|]. eapply filterlim_comp; [apply uphi_lim_m|apply (filterlim_opp (K:=R_AbsRing) (V:=R_NormedModule))].
  - refine (lim_plus _ _ _ _ _ _ _); [apply Phi_lim_p|]. eapply filterlim_comp; [apply uphi_lim_p|apply (filterlim_opp (K:=R_AbsRing) (V:=R_NormedModule))].
  - ring.
Qed.
Lemma eN_const c : expectN (fun _ => c) c.
Proof. apply (to_N (fun _ => c)); [intros; apply continuous_const|apply e01_const]. Qed.
Lemma eN_lin g h a b c m1 m2 : expectN g m1 -> expectN h m2 -> expectN (fun p => a * g p + b * h p + c) (a * m1 + b * m2 + c).
Proof.
  intros H1 H2. unfold expectN.
  apply (is_RInt_gen_ext (fun u => (a * (g u * phi u) + b * (h u * phi u)) + c * phi u)).
  { apply filter_forall. intros ab x _. assert (E : (a * (g x * phi x) + b * (h x * phi x)) + c * phi x = (a * g x + b * h x + c) * phi x) by ring. exact E. }
  apply (is_RInt_gen_plus (fun u => a * (g u * phi u) + b * (h u * phi u)) (fun u => c * phi u)); [|apply eN_const].
  apply (is_RInt_gen_plus (fun u => a * (g u * phi u)) (fun u => b * (h u * phi u))); [apply (is_RInt_gen_scal (fun u => g u * phi u)), H1|apply (is_RInt_gen_scal (fun u => h u * phi u)), H2].
Qed.
Lemma eN_affine Q m s loc sc : expectN Q m -> expectN (fun p => Q p * Q p) (m * m + s * s) ->
  expectN (fun p => loc + sc * Q p) (loc + sc * m) /\
  expectN (fun p => (loc + sc * Q p - (loc + sc * m)) * (loc + sc * Q p - (loc + sc * m))) ((sc * s) * (sc * s)).
Proof.
  intros H1 H2. split.
  - replace (loc + sc * m) with (sc * m + 0 * m + loc) by ring.
    apply (eN_ext (fun p => sc * Q p + 0 * Q p + loc)); [intros; ring|]. now apply eN_lin.
  - replace (sc * s * (sc * s)) with ((sc * sc) * (m * m + s * s) + (- 2 * sc * sc * m) * m + sc * sc * m * m) by ring.
    eapply eN_ext; [|apply (eN_lin (fun p => Q p * Q p) Q (sc * sc) (- 2 * sc * sc * m) (sc * sc * m * m) _ _ H2 H1)].
    intros p. cbn beta. ring.
Qed.
Lemma eN_exp2 z : expectN (fun u => exp (z * u) * exp (z * u)) (exp (z * z / 2) * exp (z * z / 2) + sqrt ((exp (z * z) - 1) * exp (z * z)) * sqrt ((exp (z * z) - 1) * exp (z * z))).
Proof.
  rewrite sqrt_sqrt.
  2:{ generalize (exp_pos (z * z)); intros. assert (exp 0 <= exp (z * z)) by (apply exp_le_compat; nra). rewrite exp_0 in *. nra. }
  rewrite exp_half_sq. replace (exp (z * z) + (exp (z * z) - 1) * exp (z * z)) with (exp ((2 * z) * (2 * z) / 2)).
  2:{ replace (2 * z * (2 * z) / 2) with (z * z + z * z) by field. rewrite exp_plus. ring. }
  apply (eN_ext (fun u => exp (2 * z * u))); [|apply eN_exp].
  intros u. rewrite <- exp_plus. f_equal. ring.
Qed.
Lemma exp_cont z u : continuous (fun u => exp (z * u)) u.
Proof. apply (ex_derive_continuous (V := R_NormedModule)). auto_derive. exact I. Qed.
Lemma cont_ext_pos (f g : R -> R) p : 0 < p -> (forall q, 0 < q -> f q = g q) -> continuous f p -> continuous g p.
Proof.
  intros Hp E H. refine (continuous_ext_loc g f p _ H).
  assert (K : locally p (fun q => 0 < q)) by (apply locally_gt; lra). refine (filter_imp _ _ _ K). intros q Hq. first [now apply E | symmetry; now apply E].
Qed.
Lemma fam_lognorm s : fam_moments (lognorm_fam s).
Proof.
  unfold fam_moments; cbn [lognorm_fam sf_ppf sf_mean sf_std].
  assert (E : forall p, 0 < p < 1 -> (if Rleb p 0 then 0 else exp (s * ppf p)) = exp (s * ppf p)).
  { intros p Hp. destruct (Rleb p 0) eqn:El; [|reflexivity]. apply Rleb_spec in El. lra. }
  split; [|split].
  - intros p Hp. apply (cont_ext_pos (fun p => exp (s * ppf p))); [lra| |].
    + intros q Hq. destruct (Rleb q 0) eqn:El; [|reflexivity]. apply Rleb_spec in El. lra.
    + apply (continuous_comp ppf (fun u => exp (s * u))); [now apply ppf_continuous|apply exp_cont].
  - apply (e01_ext (fun p => exp (s * ppf p))); [intros; now rewrite E|].
    apply (to_01 (fun u => exp (s * u))); [intros; apply exp_cont|apply eN_exp].
  - apply (e01_ext (fun p => exp (s * ppf p) * exp (s * ppf p))); [intros; now rewrite E|].
    apply (to_01 (fun u => exp (s * u) * exp (s * u))); [|apply eN_exp2].
    intros u. apply (continuous_mult (fun u => exp (s * u)) (fun u => exp (s * u))); apply exp_cont.
Qed.
