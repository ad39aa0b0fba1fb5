From Coquelicot Require Import Coquelicot.
From Verif Require Import Base Gauss.

Ltac req := match goal with |- @eq _ ?a ?b => change (@eq R a b) end.

Lemma Rint_ext (f g : R -> R) a b : (forall t, f t = g t) -> RInt f a b = RInt g a b.
Proof. intros H. apply RInt_ext. intros t _. apply H. Qed.

Definition ge (t : R) : R := exp (- (t * t)).
Definition gI (x : R) : R := RInt ge 0 x.
Definition gf (x t : R) : R := exp (- (x * x * (1 + t * t))) / (1 + t * t).
Definition gJ (x : R) : R := RInt (gf x) 0 1.

Lemma one_sq t : 0 < 1 + t * t.
Proof. pose proof (Rle_0_sqr t). unfold Rsqr in H. lra. Qed.

Lemma ge_cont t : continuous ge t.
Proof. apply (ex_derive_continuous ge). unfold ge. auto_derive. exact I. Qed.

Lemma ge_pos t : 0 < ge t.
Proof. apply exp_pos. Qed.

Lemma ge_int a b : ex_RInt ge a b.
Proof. apply (ex_RInt_continuous ge). intros z _. apply ge_cont. Qed.

Lemma gI_derive x : is_derive gI x (ge x).
Proof.
  apply (is_derive_RInt ge gI 0 x).
  - exists (mkposreal 1 Rlt_0_1). intros y _. apply (RInt_correct ge). apply ge_int.
  - apply ge_cont.
Qed.

Lemma gI_0 : gI 0 = 0.
Proof. unfold gI. rewrite RInt_point. reflexivity. Qed.

Lemma gf_cont x t : continuous (gf x) t.
Proof.
  apply (ex_derive_continuous (gf x)). unfold gf. auto_derive. pose proof (one_sq t). lra.
Qed.

Lemma gf_int x a b : ex_RInt (gf x) a b.
Proof. apply (ex_RInt_continuous (gf x)). intros z _. apply gf_cont. Qed.

Lemma gf_dx x t : is_derive (fun z => gf z t) x (-2 * x * exp (- (x * x * (1 + t * t)))).
Proof.
  unfold gf. pose proof (one_sq t). auto_derive; [exact I|]. field. lra.
Qed.

Lemma gf_D x t : Derive (fun z => gf z t) x = -2 * x * exp (- (x * x * (1 + t * t))).
Proof. apply is_derive_unique. apply gf_dx. Qed.

Lemma cont2d x t : continuity_2d_pt (fun u v => -2 * u * exp (- (u * u * (1 + v * v)))) x t.
Proof.
  apply continuity_2d_pt_mult.
  - apply continuity_2d_pt_mult; [apply continuity_2d_pt_const|apply continuity_2d_pt_id1].
  - apply (continuity_1d_2d_pt_comp exp).
    + apply derivable_continuous_pt. apply derivable_pt_exp.
    + apply continuity_2d_pt_opp. apply continuity_2d_pt_mult.
      * apply continuity_2d_pt_mult; apply continuity_2d_pt_id1.
      * apply continuity_2d_pt_plus; [apply continuity_2d_pt_const|].
        apply continuity_2d_pt_mult; apply continuity_2d_pt_id2.
Qed.

Lemma gJ_derive_raw x : is_derive gJ x (RInt (fun t => -2 * x * exp (- (x * x * (1 + t * t)))) 0 1).
Proof.
  rewrite (Rint_ext _ (fun t => Derive (fun u => gf u t) x)).
  2:{ intros t. symmetry. apply gf_D. }
  unfold gJ. apply (is_derive_RInt_param gf 0 1 x).
  - exists (mkposreal 1 Rlt_0_1). intros y _ t _. eexists. apply gf_dx.
  - intros t _. apply (continuity_2d_pt_ext (fun u v => -2 * u * exp (- (u * u * (1 + v * v))))).
    + intros u v. symmetry. apply gf_D.
    + apply cont2d.
  - exists (mkposreal 1 Rlt_0_1). intros y _. apply gf_int.
Qed.

Lemma gI_scale x : RInt (fun t => x * ge (x * t)) 0 1 = gI x.
Proof.
  unfold gI.
  assert (H := RInt_comp_lin ge x 0 0 1).
  rewrite (Rint_ext (fun t => x * ge (x * t)) (fun y => scal x (ge (x * y + 0)))).
  2:{ intros t. unfold scal; simpl; unfold mult; simpl. rewrite Rplus_0_r. reflexivity. }
  transitivity (RInt ge (x * 0 + 0) (x * 1 + 0)).
  - apply H. apply ge_int.
  - f_equal; ring.
Qed.

Lemma gJ_derive x : is_derive gJ x (-2 * ge x * gI x).
Proof.
  replace (-2 * ge x * gI x) with (RInt (fun t => -2 * x * exp (- (x * x * (1 + t * t)))) 0 1); [apply gJ_derive_raw|].
  rewrite (Rint_ext _ (fun t => scal (-2 * ge x) (x * ge (x * t)))).
  2:{ intros t. unfold scal; simpl; unfold mult; simpl. unfold ge.
      replace (- (x * x * (1 + t * t))) with (- (x * x) + - (x * t * (x * t))) by ring.
      rewrite exp_plus. ring. }
  transitivity (scal (-2 * ge x) (RInt (fun t => x * ge (x * t)) 0 1)); [apply (RInt_scal (fun t => x * ge (x * t)) 0 1 (-2 * ge x))|].
  2:{ unfold scal; simpl; unfold mult; simpl. rewrite gI_scale. reflexivity. }
  - apply (ex_RInt_continuous (fun t => x * ge (x * t))). intros z _.
    apply (ex_derive_continuous (fun t => x * ge (x * t))). unfold ge. auto_derive. exact I.
Qed.

Lemma atan_1_int : gJ 0 = PI / 4.
Proof.
  unfold gJ. rewrite (Rint_ext _ (fun t => / (1 + t * t))).
  2:{ intros t. unfold gf. replace (- (0 * 0 * (1 + t * t))) with 0 by ring. rewrite exp_0. unfold Rdiv. ring. }
  assert (H : is_RInt (fun t => / (1 + t * t)) 0 1 (minus (atan 1) (atan 0))).
  { apply (is_RInt_derive atan).
    - intros t _. apply is_derive_Reals.
      replace (/ (1 + t * t)) with (/ (1 + t ^ 2)) by (f_equal; ring).
      apply derivable_pt_lim_atan.
    - intros t _. apply (ex_derive_continuous (fun t => / (1 + t * t))). auto_derive. pose proof (one_sq t). lra. }
  transitivity (atan 1 - atan 0).
  - apply (is_RInt_unique (fun t => / (1 + t * t)) 0 1 (atan 1 - atan 0)). exact H.
  - rewrite atan_1, atan_0. ring.
Qed.

Lemma gauss_const x : gI x * gI x + gJ x = PI / 4.
Proof.
  rewrite <- atan_1_int. replace (gJ 0) with (gI 0 * gI 0 + gJ 0) by (rewrite gI_0; ring).
  set (h := fun x => gI x * gI x + gJ x).
  assert (Hd : forall y, is_derive h y 0).
  { intros y. replace 0 with ((ge y * gI y + gI y * ge y) + (-2 * ge y * gI y)) by ring.
    apply (is_derive_plus (fun x => gI x * gI x) gJ); [|apply gJ_derive].
    apply (is_derive_mult gI gI); [apply gI_derive|apply gI_derive|intros; apply Rmult_comm]. }
  change (h x = h 0).
  destruct (MVT_gen h 0 x (fun _ => 0)) as [c [_ Hc]].
  - intros y _. apply Hd.
  - intros y _. apply continuity_pt_filterlim. apply (ex_derive_continuous h). eexists. apply Hd.
  - lra.
Qed.

Lemma gJ_bounds x : 0 < gJ x /\ gJ x <= ge x.
Proof.
  split.
  - unfold gJ. apply RInt_gt_0; [lra| |].
    + intros t _. unfold gf. apply Rdiv_lt_0_compat; [apply exp_pos|apply one_sq].
    + intros t _. apply gf_cont.
  - unfold gJ. apply Rle_trans with (RInt (fun _ => ge x) 0 1).
    + apply RInt_le; [lra|apply gf_int|apply ex_RInt_const|].
      intros t Ht. unfold gf, ge. pose proof (one_sq t).
      assert (Hle : exp (- (x * x * (1 + t * t))) <= exp (- (x * x))).
      { assert (- (x * x * (1 + t * t)) <= - (x * x)).
        { pose proof (Rle_0_sqr x). pose proof (Rle_0_sqr t). unfold Rsqr in *. nra. }
        destruct H0 as [H0|H0]; [left; apply exp_increasing; exact H0|right; rewrite H0; reflexivity]. }
      apply Rmult_le_reg_r with (1 + t * t); [lra|].
      unfold Rdiv. rewrite Rmult_assoc, Rinv_l by lra. rewrite Rmult_1_r.
      pose proof (exp_pos (- (x * x))). pose proof (Rle_0_sqr t). unfold Rsqr in *. nra.
    + rewrite RInt_const. unfold scal; simpl; unfold mult; simpl. lra.
Qed.

Lemma gI_sq_lt x : gI x * gI x < PI / 4.
Proof. pose proof (gauss_const x). destruct (gJ_bounds x). lra. Qed.

Lemma sqrtPI_pos : 0 < sqrt PI.
Proof. apply sqrt_lt_R0. apply PI_RGT_0. Qed.

Lemma sqrtPI_sq : sqrt PI * sqrt PI = PI.
Proof. apply sqrt_sqrt. pose proof PI_RGT_0. lra. Qed.

Lemma gI_opp x : gI (- x) = - gI x.
Proof.
  rewrite <- (gI_scale (-x)), <- (gI_scale x).
  rewrite (Rint_ext _ (fun t => opp (x * ge (x * t)))).
  2:{ intros t. unfold ge, opp; simpl. replace (- x * t * (- x * t)) with (x * t * (x * t)) by ring. ring. }
  apply (RInt_opp (fun t => x * ge (x * t)) 0 1).
  apply (ex_RInt_continuous (fun t => x * ge (x * t))). intros z _.
  apply (ex_derive_continuous (fun t => x * ge (x * t))). unfold ge. auto_derive. exact I.
Qed.

(** *** erf *)
Lemma erf_gI x : erf x = 2 / sqrt PI * gI x.
Proof. reflexivity. Qed.

Lemma erf_bound x : -1 < erf x < 1.
Proof.
  rewrite erf_gI. pose proof (gI_sq_lt x) as H. pose proof sqrtPI_pos as P. pose proof sqrtPI_sq as Q.
  assert (H2 : - (sqrt PI / 2) < gI x < sqrt PI / 2).
  { assert ((gI x) * gI x < (sqrt PI / 2) * (sqrt PI / 2)) by (replace (sqrt PI / 2 * (sqrt PI / 2)) with (sqrt PI * sqrt PI / 4) by field; rewrite Q; lra).
    split; nra. }
  assert (E : 2 / sqrt PI * (sqrt PI / 2) = 1) by (field; lra).
  assert (E2 : 0 < 2 / sqrt PI) by (apply Rdiv_lt_0_compat; lra).
  split; [|rewrite <- E; apply Rmult_lt_compat_l; [exact E2|lra]].
  replace (-1) with (2 / sqrt PI * (- (sqrt PI / 2))) by (field; lra).
  apply Rmult_lt_compat_l; [exact E2|lra].
Qed.

Lemma erf_derive x : is_derive erf x (2 / sqrt PI * exp (- (x * x))).
Proof.
  apply (is_derive_ext (fun x => 2 / sqrt PI * gI x)); [intros; symmetry; apply erf_gI|].
  apply (is_derive_scal gI x (2 / sqrt PI)). apply gI_derive.
Qed.

Lemma erf_opp x : erf (- x) = - erf x.
Proof. rewrite !erf_gI, gI_opp. ring. Qed.

Lemma erf_0 : erf 0 = 0.
Proof. rewrite erf_gI, gI_0. ring. Qed.

(** *** Phi and phi *)
Lemma sqrt2_pos : 0 < sqrt 2.
Proof. apply sqrt_lt_R0. lra. Qed.
Lemma sqrt2_sq : sqrt 2 * sqrt 2 = 2.
Proof. apply sqrt_sqrt. lra. Qed.

Lemma phi_pos x : 0 < phi x.
Proof.
  unfold phi. apply Rdiv_lt_0_compat; [apply exp_pos|]. apply sqrt_lt_R0. pose proof PI_RGT_0. lra.
Qed.

Lemma phi_opp x : phi (- x) = phi x.
Proof. unfold phi. f_equal. f_equal. ring. Qed.

Lemma Phi_derive x : is_derive Phi x (phi x).
Proof.
  unfold Phi. pose proof sqrt2_pos as P2. pose proof sqrtPI_pos as PP.
  assert (H : is_derive (fun u => erf (u / sqrt 2)) x (/ sqrt 2 * (2 / sqrt PI * exp (- ((x / sqrt 2) * (x / sqrt 2)))))).
  { apply (is_derive_comp erf (fun u => u / sqrt 2)); [apply erf_derive|]. auto_derive; [exact I|]. field. lra. }
  replace (phi x) with (0 + / 2 * (/ sqrt 2 * (2 / sqrt PI * exp (- ((x / sqrt 2) * (x / sqrt 2)))))).
  - apply (is_derive_plus (fun _ => 1 / 2) (fun u => erf (u / sqrt 2) / 2)); [apply (is_derive_const (1/2) x)|].
    apply (is_derive_ext (fun u => / 2 * erf (u / sqrt 2))); [intros; req; unfold Rdiv; ring|].
    apply (is_derive_scal (fun u => erf (u / sqrt 2)) x (/ 2)). exact H.
  - unfold phi. rewrite sqrt_mult by (pose proof PI_RGT_0; lra).
    replace (- (x / sqrt 2 * (x / sqrt 2))) with (- (1 / 2) * (x * x)).
    + field. split; lra.
    + replace (x / sqrt 2 * (x / sqrt 2)) with (x * x * / (sqrt 2 * sqrt 2)) by (field; lra). rewrite sqrt2_sq. field.
Qed.

Lemma Phi_bound x : 0 < Phi x < 1.
Proof. unfold Phi. pose proof (erf_bound (x / sqrt 2)). lra. Qed.

Lemma Phi_0 : Phi 0 = 1 / 2.
Proof. unfold Phi. replace (0 / sqrt 2) with 0 by (unfold Rdiv; ring). rewrite erf_0. lra. Qed.

Lemma Phi_opp x : Phi (- x) = 1 - Phi x.
Proof.
  unfold Phi. replace (- x / sqrt 2) with (- (x / sqrt 2)) by (unfold Rdiv; ring). rewrite erf_opp. lra.
Qed.

Lemma Phi_incr x y : x < y -> Phi x < Phi y.
Proof.
  intros H. apply (incr_function Phi m_infty p_infty phi); try exact I; [|intros; apply phi_pos|exact H].
  intros z _ _. apply Phi_derive.
Qed.

Lemma Phi_le x y : x <= y <-> Phi x <= Phi y.
Proof.
  split.
  - intros [H|H]; [left; apply Phi_incr; exact H|right; rewrite H; reflexivity].
  - intros H. destruct (Rle_lt_dec x y) as [L|L]; [exact L|]. apply Phi_incr in L. lra.
Qed.

Lemma Phi_lt x y : x < y <-> Phi x < Phi y.
Proof.
  split; [apply Phi_incr|]. intros H. destruct (Rlt_le_dec x y) as [L|L]; [exact L|].
  apply Phi_le in L. lra.
Qed.

Lemma Phi_inj x y : Phi x = Phi y -> x = y.
Proof.
  intros H. destruct (Rtotal_order x y) as [L|[L|L]]; [apply Phi_incr in L; lra|exact L|apply Phi_incr in L; lra].
Qed.

Lemma Phi_cont x : continuity_pt Phi x.
Proof. apply continuity_pt_filterlim. apply (ex_derive_continuous Phi). eexists. apply Phi_derive. Qed.

(** tail: 1 - Phi x is small for large x *)
Lemma Phi_tail x : 0 < x -> 1 - Phi x <= exp (- (x * x / 2)).
Proof.
  intros Hx. unfold Phi. rewrite erf_gI.
  set (y := x / sqrt 2). pose proof sqrt2_pos as P2. pose proof sqrtPI_pos as PP.
  assert (Hy : 0 < y) by (apply Rdiv_lt_0_compat; assumption).
  assert (Ey : y * y = x * x / 2).
  { unfold y. replace (x / sqrt 2 * (x / sqrt 2)) with (x * x * / (sqrt 2 * sqrt 2)) by (field; lra).
    rewrite sqrt2_sq. field. }
  assert (HI : 0 <= gI y).
  { unfold gI. apply RInt_ge_0; [lra|apply ge_int|]. intros t _. left. apply ge_pos. }
  pose proof (gauss_const y) as E. destruct (gJ_bounds y) as [J1 J2].
  unfold ge in J2. rewrite Ey in J2. rewrite <- Ey. rewrite <- Ey in J2.
  set (s := sqrt PI / 2) in *.
  assert (Hs : s * s = PI / 4) by (unfold s; replace (sqrt PI / 2 * (sqrt PI / 2)) with (sqrt PI * sqrt PI / 4) by field; rewrite sqrtPI_sq; reflexivity).
  assert (Hs0 : 0 < s) by (unfold s; lra).
  replace (1 - (1 / 2 + 2 / sqrt PI * gI y / 2)) with ((s - gI y) / (2 * s)) by (unfold s; field; lra).
  (* (s - I)(s + I) = J *)
  assert (HJ : (s - gI y) * (s + gI y) = gJ y) by (replace ((s - gI y) * (s + gI y)) with (s * s - gI y * gI y) by ring; lra).
  assert (Hs1 : 1 / 2 <= s * s). { rewrite Hs. pose proof PI2_3_2. lra. }
  set (ee := exp (- (y * y))) in *.
  assert (He : 0 < ee) by apply exp_pos.
  assert (Hd : 0 <= s - gI y) by nra.
  apply Rmult_le_reg_r with (2 * s); [lra|].
  unfold Rdiv. rewrite Rmult_assoc, Rinv_l by lra. rewrite Rmult_1_r.
  (* s - I <= 2 s ee ; (s-I) s <= (s-I)(s+I) <= ee *)
  assert ((s - gI y) * s <= ee) by nra.
  nra.
Qed.

Lemma Phi_exceeds p : p < 1 -> exists x, p < Phi x.
Proof.
  intros Hp. destruct (Rle_lt_dec p 0) as [H0|H0].
  { exists 0. rewrite Phi_0. lra. }
  set (q := 1 - p). assert (Hq : 0 < q) by (unfold q; lra).
  (* choose x = 2/q + 1: exp(-x^2/2) < 1/(1+x^2/2) *)
  exists (2 / q + 1). assert (Hx : 0 < 2 / q + 1) by (assert (0 < 2 / q) by (apply Rdiv_lt_0_compat; lra); lra).
  set (x := 2 / q + 1) in *.
  pose proof (Phi_tail x Hx) as T.
  assert (B : exp (- (x * x / 2)) < q).
  { rewrite exp_Ropp. assert (1 + x * x / 2 < exp (x * x / 2)) by (apply exp_ineq1; nra).
    assert (Hxq : 2 <= x * q) by (unfold x; replace ((2 / q + 1) * q) with (2 + q) by (field; lra); lra).
    assert (Hx1 : 1 <= x). { unfold x. assert (0 < 2 / q) by (apply Rdiv_lt_0_compat; lra). lra. }
    apply Rmult_lt_reg_r with (exp (x * x / 2)); [apply exp_pos|].
    rewrite Rinv_l by (pose proof (exp_pos (x * x / 2)); lra).
    assert (1 < q * (1 + x * x / 2)) by nra. nra. }
  unfold q in B. lra.
Qed.

Lemma Phi_below p : 0 < p -> exists x, Phi x < p.
Proof.
  intros Hp. destruct (Phi_exceeds (1 - p)) as [x Hx]; [lra|]. exists (- x). rewrite Phi_opp. lra.
Qed.

Lemma Phi_surj p : 0 < p < 1 -> exists x, Phi x = p.
Proof.
  intros [H0 H1]. destruct (Phi_exceeds p H1) as [b Hb]. destruct (Phi_below p H0) as [a Ha].
  assert (Hab : a < b) by (apply Phi_lt; lra).
  destruct (IVT_gen Phi a b p Phi_cont) as [x [_ Hx]].
  - rewrite Rmin_left, Rmax_right by lra. lra.
  - exists x. exact Hx.
Qed.

Lemma Phi_inv_spec p x : Phi x = p -> Phi_inv p = Finite x.
Proof.
  intros <-. unfold Phi_inv. apply is_lub_Rbar_unique. split.
  - intros y Hy. simpl. apply Phi_le. exact Hy.
  - intros b Hb. apply Hb. lra.
Qed.

Lemma Phi_inv_Phi x : Phi_inv (Phi x) = Finite x.
Proof. apply Phi_inv_spec. reflexivity. Qed.

Lemma ppf_Phi x : ppf (Phi x) = x.
Proof. unfold ppf. rewrite Phi_inv_Phi. reflexivity. Qed.

Lemma Phi_ppf p : 0 < p < 1 -> Phi (ppf p) = p.
Proof. intros H. destruct (Phi_surj p H) as [x Hx]. rewrite <- Hx, ppf_Phi. reflexivity. Qed.

Lemma Phi_inv_finite p : 0 < p < 1 -> Phi_inv p = Finite (ppf p).
Proof. intros H. apply Phi_inv_spec. apply Phi_ppf. exact H. Qed.

Lemma Phi_inv_le0 p : p <= 0 -> Phi_inv p = m_infty.
Proof.
  intros H. unfold Phi_inv. apply is_lub_Rbar_unique. split.
  - intros y Hy. pose proof (Phi_bound y). lra.
  - intros b _. exact I.
Qed.

Lemma Phi_inv_ge1 p : 1 <= p -> Phi_inv p = p_infty.
Proof.
  intros H. unfold Phi_inv. apply is_lub_Rbar_unique. split.
  - intros y _. exact I.
  - intros b Hb. destruct b as [b| |]; simpl; try exact I.
    + assert (Hc := Hb (b + 1)). simpl in Hc. pose proof (Phi_bound (b + 1)). assert (b + 1 <= b) by (apply Hc; lra). lra.
    + assert (Hc := Hb 0). apply Hc. pose proof (Phi_bound 0). lra.
Qed.

Lemma ppf_incr p q : 0 < p -> p < q -> q < 1 -> ppf p < ppf q.
Proof. intros. apply Phi_lt. rewrite !Phi_ppf by lra. assumption. Qed.

Lemma ppf_1m p : 0 < p < 1 -> ppf (1 - p) = - ppf p.
Proof. intros H. apply Phi_inj. rewrite Phi_opp, !Phi_ppf by lra. reflexivity. Qed.

Lemma ppf_half : ppf (1 / 2) = 0.
Proof. rewrite <- Phi_0. apply ppf_Phi. Qed.

Lemma ppf_derive p : 0 < p < 1 -> is_derive ppf p (/ phi (ppf p)).
Proof.
  intros Hp.
  destruct (Phi_exceeds ((1 + p) / 2)) as [b Hb]; [lra|]. destruct (Phi_below (p / 2)) as [a Ha]; [lra|].
  assert (Hab : a < b) by (apply Phi_lt; lra).
  apply is_derive_Reals.
  assert (Pr : forall c, Phi a <= c <= Phi b -> Phi (ppf c) = c).
  { intros c Hc. apply Phi_ppf. pose proof (Phi_bound a). pose proof (Phi_bound b). lra. }
  assert (Hg : derivable_pt_lim Phi (ppf p) (phi (ppf p))) by (apply is_derive_Reals; apply Phi_derive).
  (* direct epsilon proof through continuity of the inverse *)
  assert (Hcont : continuity_pt ppf p).
  { intros eps Heps.
    set (x := ppf p).
    assert (Ex : Phi x = p) by (apply Phi_ppf; exact Hp).
    assert (L1 : Phi (x - eps) < p) by (rewrite <- Ex; apply Phi_incr; lra).
    assert (L2 : p < Phi (x + eps)) by (rewrite <- Ex at 1; apply Phi_incr; lra).
    exists (Rmin (p - Phi (x - eps)) (Phi (x + eps) - p)). split; [apply Rmin_pos; lra|].
    intros y [_ Hy]. simpl in *. unfold R_dist in *.
    assert (Hy1 := Rlt_le_trans _ _ _ Hy (Rmin_l _ _)). assert (Hy2 := Rlt_le_trans _ _ _ Hy (Rmin_r _ _)).
    apply Rabs_def2 in Hy1. apply Rabs_def2 in Hy2.
    pose proof (Phi_bound (x - eps)). pose proof (Phi_bound (x + eps)).
    assert (Ey : Phi (ppf y) = y) by (apply Phi_ppf; lra).
    fold x. apply Rabs_def1; [assert (ppf y < x + eps) by (apply Phi_lt; lra); lra|].
    assert (x - eps < ppf y) by (apply Phi_lt; lra). lra. }
  unfold derivable_pt_lim. intros eps Heps.
  assert (Hphi := phi_pos (ppf p)).
  (* limit of inverse quotient *)
  set (x := ppf p) in *.
  assert (Ex : Phi x = p) by (apply Phi_ppf; exact Hp).
  set (d := phi x) in *.
  assert (He1 : 0 < Rmin (d / 2) (eps * d * d / 2)).
  { apply Rmin_pos; [lra|]. assert (0 < eps * d * d) by (apply Rmult_lt_0_compat; [apply Rmult_lt_0_compat|]; lra). lra. }
  destruct (Hg _ He1) as [d1 Hd1].
  destruct (Hcont d1 (cond_pos d1)) as [d2 [Hd2 Hc2]].
  assert (Hd3 : 0 < Rmin d2 (Rmin p (1 - p))) by (apply Rmin_pos; [exact Hd2|apply Rmin_pos; lra]).
  exists (mkposreal _ Hd3). intros h Hh Hhd. cbn in Hhd.
  assert (A1 := Rlt_le_trans _ _ _ Hhd (Rmin_l _ _)).
  assert (A2 := Rlt_le_trans _ _ _ Hhd (Rle_trans _ _ _ (Rmin_r _ _) (Rmin_l _ _))).
  assert (A3 := Rlt_le_trans _ _ _ Hhd (Rle_trans _ _ _ (Rmin_r _ _) (Rmin_r _ _))).
  apply Rabs_def2 in A2. apply Rabs_def2 in A3.
  set (k := ppf (p + h) - x).
  assert (Ek : Phi (x + k) = p + h) by (unfold k; replace (x + (ppf (p + h) - x)) with (ppf (p + h)) by ring; apply Phi_ppf; lra).
  assert (Hk0 : k <> 0). { intros E. rewrite E, Rplus_0_r, Ex in Ek. lra. }
  assert (Hkd : Rabs k < d1).
  { unfold k. apply (Hc2 (p + h)). split.
    - split; [exact I|lra].
    - simpl. unfold R_dist. replace (p + h - p) with h by ring. exact A1. }
  assert (Q := Hd1 k Hk0 Hkd). rewrite Ek, Ex in Q. replace (p + h - p) with h in Q by ring.
  set (q := h / k) in *.
  assert (Q1 : Rabs (q - d) < d / 2) by (eapply Rlt_le_trans; [exact Q|apply Rmin_l]).
  assert (Q2 : Rabs (q - d) < eps * d * d / 2) by (eapply Rlt_le_trans; [exact Q|apply Rmin_r]).
  apply Rabs_def2 in Q1.
  assert (Hq : d / 2 < q) by lra.
  replace (k / h) with (/ q) by (unfold q; field; split; assumption).
  replace (/ q - / d) with (- (q - d) * / (q * d)) by (field; lra).
  rewrite Rabs_mult, Rabs_Ropp.
  assert (Hqd : 0 < q * d) by (apply Rmult_lt_0_compat; lra).
  rewrite (Rabs_right (/ (q * d))) by (apply Rle_ge; left; apply Rinv_0_lt_compat; exact Hqd).
  apply Rmult_lt_reg_r with (q * d); [exact Hqd|]. rewrite Rmult_assoc, Rinv_l by lra. rewrite Rmult_1_r.
  eapply Rlt_trans; [exact Q2|].
  replace (eps * d * d / 2) with (eps * (d / 2 * d)) by field.
  apply Rmult_lt_compat_l; [exact Heps|]. apply Rmult_lt_compat_r; lra.
Qed.
