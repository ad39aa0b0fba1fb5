From Coquelicot Require Import Coquelicot.
From Verif Require Import Base StochModel Gauss GaussProofs Dist DistSpec.
Open Scope R_scope.

Lemma quantile_incr F Q : quantile_pair F Q -> forall p q, 0 < p -> p < q -> q < 1 -> Q p < Q q.
Proof.
  intros (H1 & H2 & H3 & H4) p q Hp Hpq Hq. destruct (Rlt_le_dec (Q p) (Q q)) as [H|H]; [exact H|].
  apply H2 in H. rewrite !H3 in H by lra. lra.
Qed.

Lemma fz_quantile o : fam_ok (fz_fam o) -> 0 < fz_scale o -> quantile_pair (fz_cdf o) (fz_ppf o).
Proof.
  intros ((H1 & H2 & H3 & H4) & _) Hs. unfold fz_cdf, fz_ppf. split; [|split; [|split]].
  - intros x. apply H1.
  - intros x y Hxy. apply H2. apply Rmult_le_compat_r; [apply Rlt_le, Rinv_0_lt_compat, Hs|lra].
  - intros p Hp. replace ((fz_loc o + fz_scale o * sf_ppf (fz_fam o) p - fz_loc o) / fz_scale o) with (sf_ppf (fz_fam o) p) by (field; lra).
    apply H3, Hp.
  - intros x Hx. rewrite H4 by exact Hx. field. lra.
Qed.

Lemma fz_density o : fam_ok (fz_fam o) -> 0 < fz_scale o -> density_of (fz_cdf o) (fz_pdf o).
Proof.
  intros (_ & H) Hs x Hx. unfold fz_cdf, fz_pdf in *.
  replace (sf_pdf (fz_fam o) ((x - fz_loc o) / fz_scale o) / fz_scale o)
    with (scal (/ fz_scale o) (sf_pdf (fz_fam o) ((x - fz_loc o) / fz_scale o))).
  2:{ unfold scal. simpl. unfold mult. simpl. field. lra. }
  apply (is_derive_comp (sf_cdf (fz_fam o)) (fun x => (x - fz_loc o) / fz_scale o)); [apply H, Hx|].
  auto_derive; [exact I|field; lra].
Qed.

(** generic: cdf/quantile pair gives good maps *)
Lemma maps_of_pair F Q f m s : quantile_pair F Q -> density_of F f ->
  marginal_maps_ok (mkDist m s f F Q (fun u => Q (Phi u)) (fun x => ppf (F x)) (fun u x => f x / phi u)).
Proof.
  intros HQ HD. pose proof HQ as (H1 & H2 & H3 & H4). unfold marginal_maps_ok. cbn [d_u2x d_x2u d_cdf d_jac d_pdf].
  split; [|split; [|split; [|split]]].
  - intros u v Huv. apply (quantile_incr F Q HQ); [apply Phi_bound|apply Phi_incr, Huv|apply Phi_bound].
  - intros u. apply H3, Phi_bound.
  - intros u. rewrite H3 by apply Phi_bound. apply ppf_Phi.
  - intros u. reflexivity.
  - intros u. assert (E : F (Q (Phi u)) = Phi u) by (apply H3, Phi_bound).
    assert (D : is_derive F (Q (Phi u)) (f (Q (Phi u)))) by (apply HD; rewrite E; apply Phi_bound).
    replace (f (Q (Phi u)) / phi u) with (scal (f (Q (Phi u))) (/ phi (ppf (F (Q (Phi u)))))).
    2:{ rewrite E, ppf_Phi. reflexivity. }
    apply (is_derive_comp ppf F); [apply ppf_derive; rewrite E; apply Phi_bound|exact D].
Qed.

Lemma base_maps s : fam_ok (fz_fam (so_obj s)) -> 0 < fz_scale (so_obj s) -> marginal_maps_ok (base_dist s) /\ ppf_ok (base_dist s).
Proof.
  intros H Hs. pose proof (fz_quantile _ H Hs) as HQ. split.
  - apply maps_of_pair; [exact HQ|apply fz_density; assumption].
  - intros p Hp. apply HQ, Hp.
Qed.

(** ** the SciPy families *)
Lemma sfam_uniform : fam_ok uniform_fam.
Proof.
  assert (C : forall x, sf_cdf uniform_fam x = if Rltb x 0 then 0 else if Rltb 1 x then 1 else x) by reflexivity.
  assert (B : forall x, 0 < sf_cdf uniform_fam x < 1 -> sf_cdf uniform_fam x = x /\ 0 < x < 1).
  { intros x H. rewrite C in *. unfold Rltb in *. destruct (Rlt_dec x 0); [lra|]. destruct (Rlt_dec 1 x); lra. }
  split; [split; [|split; [|split]]|].
  - intros x. rewrite C. unfold Rltb. destruct (Rlt_dec x 0); [lra|]. destruct (Rlt_dec 1 x); lra.
  - intros x y H. rewrite !C. unfold Rltb. destruct (Rlt_dec x 0); destruct (Rlt_dec y 0); destruct (Rlt_dec 1 x); destruct (Rlt_dec 1 y); lra.
  - intros p Hp. rewrite C. cbn [uniform_fam sf_ppf]. unfold Rltb. destruct (Rlt_dec p 0); [lra|]. destruct (Rlt_dec 1 p); lra.
  - intros x H. destruct (B x H) as [E _]. cbn [uniform_fam sf_ppf]. exact E.
  - intros x H. destruct (B x H) as [_ Hx]. cbn [uniform_fam sf_pdf].
    replace (Rleb 0 x) with true by (symmetry; apply Rleb_spec; lra). replace (Rleb x 1) with true by (symmetry; apply Rleb_spec; lra).
    cbn [andb]. apply (is_derive_ext_loc (fun t => t)).
    + exists (mkposreal (Rmin x (1 - x)) ltac:(apply Rmin_pos; lra)). intros y Hy.
      apply Rabs_def2 in Hy. cbn in Hy. unfold minus, plus, opp in Hy. cbn in Hy.
      pose proof (Rmin_l x (1 - x)). pose proof (Rmin_r x (1 - x)).
      rewrite C. unfold Rltb. destruct (Rlt_dec y 0); [lra|]. destruct (Rlt_dec 1 y); lra.
    + apply (is_derive_id x).
Qed.

Lemma locally_gt (x a : R) : a < x -> locally x (fun y => a < y).
Proof. intros H. apply (open_gt a x H). Qed.

Lemma sfam_expon : fam_ok expon_fam.
Proof.
  assert (C : forall x, sf_cdf expon_fam x = if Rltb x 0 then 0 else 1 - exp (- x)) by reflexivity.
  assert (P : forall x, 0 <= x -> 0 <= 1 - exp (- x) < 1).
  { intros x H. pose proof (exp_pos (- x)). split; [|lra]. assert (exp (- x) <= exp 0) by (destruct H as [H|<-]; [left; apply exp_increasing; lra|right; f_equal; lra]). rewrite exp_0 in *. lra. }
  split; [split; [|split; [|split]]|].
  - intros x. rewrite C. unfold Rltb. destruct (Rlt_dec x 0); [lra|]. pose proof (P x ltac:(lra)). lra.
  - intros x y H. rewrite !C. unfold Rltb. destruct (Rlt_dec x 0); destruct (Rlt_dec y 0); try lra.
    + pose proof (P y ltac:(lra)). lra.
    + assert (exp (- y) <= exp (- x)) by (destruct H as [H|<-]; [left; apply exp_increasing; lra|lra]). lra.
  - intros p Hp. rewrite C. cbn [expon_fam sf_ppf].
    assert (L : 0 < - ln (1 - p)) by (rewrite <- ln_1; assert (ln (1 - p) < ln 1) by (apply ln_increasing; lra); rewrite ln_1 in *; lra).
    unfold Rltb. destruct (Rlt_dec (- ln (1 - p)) 0); [lra|]. rewrite Ropp_involutive, exp_ln by lra. lra.
  - intros x H. rewrite C in *. cbn [expon_fam sf_ppf]. unfold Rltb in *. destruct (Rlt_dec x 0); [lra|].
    replace (1 - (1 - exp (- x))) with (exp (- x)) by ring. rewrite ln_exp. lra.
  - intros x H. rewrite C in H. cbn [expon_fam sf_pdf]. unfold Rltb in H.
    destruct (Rlt_dec x 0); [lra|]. assert (Hx : 0 < x).
    { destruct (Req_dec x 0) as [->|]; [|lra]. rewrite Ropp_0, exp_0 in H. lra. }
    replace (Rltb x 0) with false by (symmetry; apply Rltb_false; lra).
    apply (is_derive_ext_loc (fun t => 1 - exp (- t))).
    + eapply filter_imp; [|apply (locally_gt x 0 Hx)]. intros y Hy. rewrite C.
      replace (Rltb y 0) with false by (symmetry; apply Rltb_false; lra). reflexivity.
    + auto_derive; [exact I|ring].
Qed.

Lemma exp_le_compat x y : x <= y -> exp x <= exp y.
Proof. intros [H|<-]; [left; apply exp_increasing, H|lra]. Qed.

Lemma sfam_rayleigh : fam_ok rayleigh_fam.
Proof.
  assert (C : forall x, sf_cdf rayleigh_fam x = if Rltb x 0 then 0 else 1 - exp (- (x * x) / 2)) by reflexivity.
  assert (P : forall x, 0 <= 1 - exp (- (x * x) / 2) < 1).
  { intros x. pose proof (exp_pos (- (x * x) / 2)). split; [|lra].
    assert (exp (- (x * x) / 2) <= exp 0) by (apply exp_le_compat; pose proof (Rle_0_sqr x); unfold Rsqr in *; lra). rewrite exp_0 in *. lra. }
  assert (M : forall p, 0 < p < 1 -> 0 < - 2 * ln (1 - p)).
  { intros p Hp. assert (ln (1 - p) < ln 1) by (apply ln_increasing; lra). rewrite ln_1 in *. lra. }
  split; [split; [|split; [|split]]|].
  - intros x. rewrite C. unfold Rltb. destruct (Rlt_dec x 0); [lra|]. pose proof (P x). lra.
  - intros x y H. rewrite !C. unfold Rltb. destruct (Rlt_dec x 0); destruct (Rlt_dec y 0); try lra.
    + pose proof (P y). lra.
    + assert (exp (- (y * y) / 2) <= exp (- (x * x) / 2)) by (apply exp_le_compat; nra). lra.
  - intros p Hp. rewrite C. cbn [rayleigh_fam sf_ppf]. pose proof (M p Hp) as L. pose proof (sqrt_lt_R0 _ L).
    replace (Rltb (sqrt (- 2 * ln (1 - p))) 0) with false by (symmetry; apply Rltb_false; lra).
    rewrite sqrt_sqrt by lra. replace (- (- 2 * ln (1 - p)) / 2) with (ln (1 - p)) by field. rewrite exp_ln by lra. lra.
  - intros x H. rewrite C in *. cbn [rayleigh_fam sf_ppf]. unfold Rltb in *. destruct (Rlt_dec x 0); [lra|].
    replace (1 - (1 - exp (- (x * x) / 2))) with (exp (- (x * x) / 2)) by ring. rewrite ln_exp.
    replace (- 2 * (- (x * x) / 2)) with (x * x) by field. apply sqrt_square. lra.
  - intros x H. rewrite C in H. cbn [rayleigh_fam sf_pdf]. unfold Rltb in H.
    destruct (Rlt_dec x 0); [lra|]. assert (Hx : 0 < x).
    { destruct (Req_dec x 0) as [->|]; [|lra]. replace (- (0 * 0) / 2) with 0 in H by field. rewrite exp_0 in H. lra. }
    replace (Rltb x 0) with false by (symmetry; apply Rltb_false; lra).
    apply (is_derive_ext_loc (fun t => 1 - exp (- (t * t) / 2))).
    + eapply filter_imp; [|apply (locally_gt x 0 Hx)]. intros y Hy. rewrite C.
      replace (Rltb y 0) with false by (symmetry; apply Rltb_false; lra). reflexivity.
    + auto_derive; [exact I|]. unfold Rdiv. field.
Qed.

Lemma sfam_gumbel eg : fam_ok (gumbel_fam eg).
Proof.
  split; [split; [|split; [|split]]|]; cbn [gumbel_fam sf_cdf sf_ppf sf_pdf].
  - intros x. pose proof (exp_pos (- exp (- x))). split; [lra|]. rewrite <- exp_0. apply exp_le_compat. pose proof (exp_pos (- x)). lra.
  - intros x y H. apply exp_le_compat. apply Ropp_le_contravar, exp_le_compat. lra.
  - intros p Hp. assert (ln p < ln 1) by (apply ln_increasing; lra). rewrite ln_1 in *.
    rewrite Ropp_involutive, exp_ln by lra. rewrite Ropp_involutive. apply exp_ln. lra.
  - intros x _. rewrite ln_exp, Ropp_involutive, ln_exp. ring.
  - intros x _. replace (exp (- (x + exp (- x)))) with (exp (- x) * exp (- exp (- x))) by (rewrite <- exp_plus; f_equal; ring).
    auto_derive; [exact I|ring].
Qed.

Lemma sfam_gumbel_l eg : fam_ok (gumbel_l_fam eg).
Proof.
  split; [split; [|split; [|split]]|]; cbn [gumbel_l_fam sf_cdf sf_ppf sf_pdf].
  - intros x. pose proof (exp_pos (- exp x)). split; [|lra]. assert (exp (- exp x) <= exp 0); [|rewrite exp_0 in *; lra].
    apply exp_le_compat. pose proof (exp_pos x). lra.
  - intros x y H. assert (exp (- exp y) <= exp (- exp x)); [|lra]. apply exp_le_compat, Ropp_le_contravar, exp_le_compat. lra.
  - intros p Hp. assert (ln (1 - p) < ln 1) by (apply ln_increasing; lra). rewrite ln_1 in *.
    rewrite exp_ln by lra. rewrite Ropp_involutive, exp_ln by lra. lra.
  - intros x _. replace (1 - (1 - exp (- exp x))) with (exp (- exp x)) by ring. rewrite ln_exp, Ropp_involutive, ln_exp. reflexivity.
  - intros x _. unfold Rminus at 2. rewrite exp_plus. auto_derive; [exact I|ring].
Qed.

Lemma Rpower_pos x y : 0 < Rpower x y.
Proof. apply exp_pos. Qed.

Lemma Rpower_le x y c : 0 < c -> 0 < x -> x <= y -> Rpower x c <= Rpower y c.
Proof.
  intros Hc Hx [H| <-]; [|lra]. left. unfold Rpower. apply exp_increasing, Rmult_lt_compat_l; [exact Hc|]. apply ln_increasing; assumption.
Qed.

Lemma sfam_weibull Gam c : 0 < c -> fam_ok (weibull_fam Gam c).
Proof.
  intros Hc.
  assert (C : forall x, sf_cdf (weibull_fam Gam c) x = if Rleb x 0 then 0 else 1 - exp (- Rpower x c)) by reflexivity.
  assert (P : forall x, 0 < 1 - exp (- Rpower x c) < 1).
  { intros x. pose proof (exp_pos (- Rpower x c)). split; [|lra].
    assert (exp (- Rpower x c) < exp 0) by (apply exp_increasing; pose proof (Rpower_pos x c); lra). rewrite exp_0 in *. lra. }
  split; [split; [|split; [|split]]|].
  - intros x. rewrite C. unfold Rleb. destruct (Rle_dec x 0); [lra|]. pose proof (P x). lra.
  - intros x y H. rewrite !C. unfold Rleb. destruct (Rle_dec x 0); destruct (Rle_dec y 0); try lra.
    + pose proof (P y). lra.
    + assert (exp (- Rpower y c) <= exp (- Rpower x c)); [|lra]. apply exp_le_compat, Ropp_le_contravar, Rpower_le; lra.
  - intros p Hp. rewrite C. cbn [weibull_fam sf_ppf]. replace (Rleb p 0) with false by (symmetry; apply Rleb_false; lra). set (L := - ln (1 - p)).
    assert (HL : 0 < L). { unfold L. assert (ln (1 - p) < ln 1) by (apply ln_increasing; lra). rewrite ln_1 in *. lra. }
    replace (Rleb (Rpower L (1 / c)) 0) with false by (symmetry; apply Rleb_false, Rpower_pos).
    rewrite Rpower_mult. replace (1 / c * c) with 1 by (field; lra). rewrite Rpower_1 by exact HL.
    unfold L. rewrite Ropp_involutive, exp_ln by lra. lra.
  - intros x H. rewrite C in *. cbn [weibull_fam sf_ppf]. destruct (Rleb x 0) eqn:EX; [lra|]. apply Rleb_false in EX.
    replace (Rleb (1 - exp (- Rpower x c)) 0) with false by (symmetry; apply Rleb_false; lra).
    replace (1 - (1 - exp (- Rpower x c))) with (exp (- Rpower x c)) by ring. rewrite ln_exp, Ropp_involutive, Rpower_mult.
    replace (c * (1 / c)) with 1 by (field; lra). apply Rpower_1. lra.
  - intros x H. rewrite C in H. cbn [weibull_fam sf_pdf]. unfold Rleb in H. destruct (Rle_dec x 0); [lra|].
    assert (Hx : 0 < x) by lra. replace (Rleb x 0) with false by (symmetry; apply Rleb_false; lra).
    apply (is_derive_ext_loc (fun t => 1 - exp (- Rpower t c))).
    + eapply filter_imp; [|apply (locally_gt x 0 Hx)]. intros y Hy. rewrite C.
      replace (Rleb y 0) with false by (symmetry; apply Rleb_false; lra). reflexivity.
    + unfold Rpower. auto_derive; [lra|].
      replace (exp ((c - 1) * ln x)) with (exp (c * ln x) / x).
      2:{ replace ((c - 1) * ln x) with (c * ln x + - ln x) by ring. rewrite exp_plus, exp_Ropp, exp_ln by lra. reflexivity. }
      field. lra.
Qed.

Lemma sfam_frechet Gam c : 0 < c -> fam_ok (frechet_fam Gam c).
Proof.
  intros Hc.
  assert (C : forall x, sf_cdf (frechet_fam Gam c) x = if Rleb x 0 then 0 else exp (- Rpower x (- c))) by reflexivity.
  assert (P : forall x, 0 < exp (- Rpower x (- c)) < 1).
  { intros x. split; [apply exp_pos|].
    assert (exp (- Rpower x (- c)) < exp 0) by (apply exp_increasing; pose proof (Rpower_pos x (- c)); lra). rewrite exp_0 in *. lra. }
  split; [split; [|split; [|split]]|].
  - intros x. rewrite C. unfold Rleb. destruct (Rle_dec x 0); [lra|]. pose proof (P x). lra.
  - intros x y H. rewrite !C. unfold Rleb. destruct (Rle_dec x 0); destruct (Rle_dec y 0); try lra.
    + pose proof (P y). lra.
    + apply exp_le_compat, Ropp_le_contravar. unfold Rpower. apply exp_le_compat.
      assert (ln x <= ln y) by (destruct H as [H| <-]; [left; apply ln_increasing; lra|lra]). nra.
  - intros p Hp. rewrite C. cbn [frechet_fam sf_ppf]. replace (Rleb p 0) with false by (symmetry; apply Rleb_false; lra). set (L := - ln p).
    assert (HL : 0 < L). { unfold L. assert (ln p < ln 1) by (apply ln_increasing; lra). rewrite ln_1 in *. lra. }
    replace (Rleb (Rpower L (- (1 / c))) 0) with false by (symmetry; apply Rleb_false, Rpower_pos).
    rewrite Rpower_mult. replace (- (1 / c) * - c) with 1 by (field; lra). rewrite Rpower_1 by exact HL.
    unfold L. rewrite Ropp_involutive. apply exp_ln. lra.
  - intros x H. rewrite C in *. cbn [frechet_fam sf_ppf]. destruct (Rleb x 0) eqn:EX; [lra|]. apply Rleb_false in EX.
    replace (Rleb (exp (- Rpower x (- c))) 0) with false by (symmetry; apply Rleb_false; lra).
    rewrite ln_exp, Ropp_involutive, Rpower_mult.
    replace (- c * - (1 / c)) with 1 by (field; lra). apply Rpower_1. lra.
  - intros x H. rewrite C in H. cbn [frechet_fam sf_pdf]. unfold Rleb in H. destruct (Rle_dec x 0); [lra|].
    assert (Hx : 0 < x) by lra. replace (Rleb x 0) with false by (symmetry; apply Rleb_false; lra).
    apply (is_derive_ext_loc (fun t => exp (- Rpower t (- c)))).
    + eapply filter_imp; [|apply (locally_gt x 0 Hx)]. intros y Hy. rewrite C.
      replace (Rleb y 0) with false by (symmetry; apply Rleb_false; lra). reflexivity.
    + unfold Rpower. auto_derive; [lra|].
      replace (exp ((- c - 1) * ln x)) with (exp (- c * ln x) / x).
      2:{ replace ((- c - 1) * ln x) with (- c * ln x + - ln x) by ring. rewrite exp_plus, exp_Ropp, exp_ln by lra. reflexivity. }
      field. lra.
Qed.

Lemma sfam_lognorm s : 0 < s -> fam_ok (lognorm_fam s).
Proof.
  intros Hs.
  assert (C : forall x, sf_cdf (lognorm_fam s) x = if Rltb 0 x then Phi (ln x / s) else 0) by reflexivity.
  split; [split; [|split; [|split]]|].
  - intros x. rewrite C. destruct (Rltb 0 x); [pose proof (Phi_bound (ln x / s)); lra|lra].
  - intros x y H. rewrite !C. unfold Rltb. destruct (Rlt_dec 0 x); destruct (Rlt_dec 0 y); try lra.
    + apply (proj1 (Phi_le _ _)). apply Rmult_le_compat_r; [apply Rlt_le, Rinv_0_lt_compat, Hs|].
      destruct H as [H| <-]; [left; apply ln_increasing; lra|lra].
    + pose proof (Phi_bound (ln y / s)). lra.
  - intros p Hp. rewrite C. cbn [lognorm_fam sf_ppf]. replace (Rleb p 0) with false by (symmetry; apply Rleb_false; lra). pose proof (exp_pos (s * ppf p)).
    replace (Rltb 0 (exp (s * ppf p))) with true by (symmetry; apply Rltb_spec; assumption).
    rewrite ln_exp. replace (s * ppf p / s) with (ppf p) by (field; lra). apply Phi_ppf, Hp.
  - intros x H. rewrite C in *. cbn [lognorm_fam sf_ppf]. unfold Rltb in *. destruct (Rlt_dec 0 x); [|lra].
    replace (Rleb (Phi (ln x / s)) 0) with false by (symmetry; apply Rleb_false; lra).
    rewrite ppf_Phi. replace (s * (ln x / s)) with (ln x) by (field; lra). apply exp_ln. assumption.
  - intros x H. rewrite C in H. cbn [lognorm_fam sf_pdf]. unfold Rltb in H. destruct (Rlt_dec 0 x) as [Hx|]; [|lra].
    replace (Rltb 0 x) with true by (symmetry; apply Rltb_spec; assumption).
    apply (is_derive_ext_loc (fun t => Phi (ln t / s))).
    + eapply filter_imp; [|apply (locally_gt x 0 Hx)]. intros y Hy. rewrite C.
      replace (Rltb 0 y) with true by (symmetry; apply Rltb_spec; lra). reflexivity.
    + replace (phi (ln x / s) / (s * x)) with (scal (/ (s * x)) (phi (ln x / s))).
      2:{ unfold scal. simpl. unfold mult. simpl. field. lra. }
      apply (is_derive_comp Phi (fun t => ln t / s)); [apply Phi_derive|]. auto_derive; [lra|field; lra].
Qed.
