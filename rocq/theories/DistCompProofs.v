From Coquelicot Require Import Coquelicot.
From Verif Require Import Base StochModel Gauss GaussProofs Dist DistSpec DistProofs DistMomProofs.
Open Scope R_scope.

(** ** a cdf is strictly increasing where it is in (0,1) *)
Lemma pair_lt F Q x y : quantile_pair F Q -> 0 < F x < 1 -> F x < F y -> x < y.
Proof. intros (_ & M & _ & _) _ H. destruct (Rlt_le_dec x y) as [L|L]; [exact L|]. apply M in L. lra. Qed.
Lemma pair_strict F Q x y : quantile_pair F Q -> 0 < F x < 1 -> x < y -> F x < F y.
Proof.
  intros (B & M & _ & I) H L. pose proof (M x y (Rlt_le _ _ L)) as [K|K]; [exact K|].
  pose proof (I x H) as E1. assert (0 < F y < 1) as Hy by (rewrite <- K; exact H). pose proof (I y Hy) as E2. rewrite <- K, E1 in E2. lra.
Qed.
Lemma pair_strict_l F Q x y : quantile_pair F Q -> 0 < F y < 1 -> x < y -> F x < F y.
Proof.
  intros (B & M & _ & I) H L. pose proof (M x y (Rlt_le _ _ L)) as [K|K]; [exact K|].
  pose proof (I y H) as E1. assert (0 < F x < 1) as Hx by (rewrite K; exact H). pose proof (I x Hx) as E2. rewrite K, E1 in E2. lra.
Qed.

(** ** ZeroInflated *)
Section Zinf.
  Variables (d : dist) (p : R).
  Hypothesis HQ : quantile_pair (d_cdf d) (d_ppf d).
  Hypothesis Hp : 0 <= p < 1.
  (** ppf 0, used when nothing of the base distribution lies below zero *)
  Hypothesis H0 : d_cdf d 0 = 0 -> 0 <= d_ppf d 0 /\ d_cdf d (d_ppf d 0) = 0.
  Variable z : zinf.
  Hypothesis Hz : zinf_init d p = Ok z.

  Lemma zinf_fields : zi_base z = d /\ zi_p z = p /\ zi_q z = 1 - p /\ 0 < 1 - p.
  Proof.
    unfold zinf_init in Hz. replace (Rltb p 0) with false in Hz by (symmetry; apply Rltb_false; lra).
    replace (Rleb 1 p) with false in Hz by (symmetry; apply Rleb_false; lra). injection Hz as <-. repeat split; lra.
  Qed.

  Lemma tol_pos : 0 < zero_tol.
  Proof. unfold zero_tol. apply Rinv_0_lt_compat, pow_lt. lra. Qed.

  Lemma zcdf x : zinf_cdf z x = d_cdf d x * (1 - p) + (if Rlt_dec (- zero_tol) x then p else 0).
  Proof.
    destruct zinf_fields as (A & B & C & _). unfold zinf_cdf, Rltb. rewrite A, B, C. destruct (Rlt_dec (- zero_tol) x); reflexivity.
  Qed.

  Lemma zinf_cdf_bounds x : 0 <= zinf_cdf z x <= 1.
  Proof.
    rewrite zcdf. destruct HQ as (B & _). pose proof (B x).
    assert (0 <= d_cdf d x * (1 - p)) by (apply Rmult_le_pos; lra).
    assert (d_cdf d x * (1 - p) <= 1 * (1 - p)) by (apply Rmult_le_compat_r; lra).
    destruct (Rlt_dec (- zero_tol) x); lra.
  Qed.

  Lemma zinf_cdf_mono x y : x <= y -> zinf_cdf z x <= zinf_cdf z y.
  Proof.
    intros H. rewrite !zcdf. destruct HQ as (_ & M & _). pose proof (M x y H).
    assert (d_cdf d x * (1 - p) <= d_cdf d y * (1 - p)) by (apply Rmult_le_compat_r; lra).
    destruct (Rlt_dec (- zero_tol) x); destruct (Rlt_dec (- zero_tol) y); lra.
  Qed.

  (** the three branches of ppf *)
  Definition lo : R := (1 - p) * d_cdf d 0.
  Lemma zppf_low t : t < lo -> zinf_ppf z t = d_ppf d (t / (1 - p)).
  Proof.
    destruct zinf_fields as (A & B & C & Q). intros H. unfold zinf_ppf. rewrite A, B, C. fold lo.
    replace (Rltb t lo) with true by (symmetry; apply Rltb_spec, H).
    replace (Rltb lo t) with false by (symmetry; apply Rltb_false; lra).
    replace (Rleb (lo + p) t) with false by (symmetry; apply Rleb_false; lra). reflexivity.
  Qed.
  Lemma zppf_mid t : lo <= t < lo + p -> zinf_ppf z t = 0.
  Proof.
    destruct zinf_fields as (A & B & C & Q). intros H. unfold zinf_ppf. rewrite A, B, C. fold lo.
    replace (Rltb t lo) with false by (symmetry; apply Rltb_false; lra).
    replace (Rleb (lo + p) t) with false by (symmetry; apply Rleb_false; lra). destruct (Rltb lo t && Rltb t (lo + p)); reflexivity.
  Qed.
  Lemma zppf_high t : lo + p <= t -> zinf_ppf z t = d_ppf d ((t - p) / (1 - p)).
  Proof.
    destruct zinf_fields as (A & B & C & Q). intros H. unfold zinf_ppf. rewrite A, B, C. fold lo.
    replace (Rleb (lo + p) t) with true by (symmetry; apply Rleb_spec; lra). reflexivity.
  Qed.

  Lemma low_level t : 0 < t -> t < lo -> 0 < t / (1 - p) < 1 /\ t / (1 - p) < d_cdf d 0.
  Proof.
    destruct zinf_fields as (_ & _ & _ & Q). intros H1 H2. destruct HQ as (B & _). pose proof (B 0).
    assert (t / (1 - p) < d_cdf d 0). { apply (Rmult_lt_reg_r (1 - p)); [lra|]. unfold Rdiv. rewrite Rmult_assoc, Rinv_l by lra. unfold lo in H2. lra. }
    assert (0 < t / (1 - p)) by (apply Rdiv_lt_0_compat; lra). lra.
  Qed.
  Lemma low_neg t : 0 < t -> t < lo -> d_cdf d (d_ppf d (t / (1 - p))) = t / (1 - p) /\ d_ppf d (t / (1 - p)) < 0.
  Proof.
    intros H1 H2. destruct (low_level t H1 H2) as [L1 L2]. assert (E : d_cdf d (d_ppf d (t / (1 - p))) = t / (1 - p)) by (apply HQ, L1).
    split; [exact E|]. apply (pair_lt _ _ _ _ HQ); rewrite E; assumption.
  Qed.
  Lemma high_level t : t < 1 -> lo + p <= t -> d_cdf d 0 <= (t - p) / (1 - p) < 1.
  Proof.
    destruct zinf_fields as (_ & _ & _ & Q). intros H1 H2. split.
    - apply (Rmult_le_reg_r (1 - p)); [lra|]. unfold Rdiv. rewrite Rmult_assoc, Rinv_l by lra. unfold lo in H2. lra.
    - apply (Rmult_lt_reg_r (1 - p)); [lra|]. unfold Rdiv. rewrite Rmult_assoc, Rinv_l by lra. lra.
  Qed.
  Lemma high_nonneg t : t < 1 -> lo + p <= t ->
    d_cdf d (d_ppf d ((t - p) / (1 - p))) = (t - p) / (1 - p) /\ 0 <= d_ppf d ((t - p) / (1 - p)).
  Proof.
    intros H1 H2. pose proof (high_level t H1 H2) as [L1 L2]. pose proof HQ as (B & M & C & I). pose proof (B 0) as B0.
    set (s := (t - p) / (1 - p)) in *.
    destruct (Req_dec s 0) as [Es|Es].
    - rewrite Es in *. destruct H0 as [K1 K2]; [lra|]. split; assumption.
    - assert (E : d_cdf d (d_ppf d s) = s) by (apply C; lra). split; [exact E|].
      destruct (Req_dec s (d_cdf d 0)) as [K|K].
      + rewrite K, I by lra. lra.
      + destruct (Rle_lt_dec 0 (d_ppf d s)) as [G|G]; [exact G|]. apply Rlt_le, M in G. rewrite E in G. lra.
  Qed.

  Lemma pq_high s t : t < 1 -> lo + p <= s -> s < t -> d_ppf d ((s - p) / (1 - p)) < d_ppf d ((t - p) / (1 - p)).
  Proof.
    intros H1 H2 H3. destruct zinf_fields as (_ & _ & _ & Q). pose proof (high_nonneg t H1 ltac:(lra)) as [E1 _]. pose proof (high_nonneg s ltac:(lra) H2) as [E2 _].
    assert (L : (s - p) / (1 - p) < (t - p) / (1 - p)) by (apply Rmult_lt_compat_r; [apply Rinv_0_lt_compat; lra|lra]).
    destruct (Rlt_le_dec (d_ppf d ((s - p) / (1 - p))) (d_ppf d ((t - p) / (1 - p)))) as [G|G]; [exact G|].
    apply (proj1 (proj2 HQ)) in G. lra.
  Qed.

  Lemma zinf_ppf_mono s t : 0 < s -> s <= t -> t < 1 -> zinf_ppf z s <= zinf_ppf z t.
  Proof.
    intros Hs [Hst| <-] Ht; [|lra]. destruct zinf_fields as (_ & _ & _ & Q).
    destruct (Rlt_le_dec s lo) as [S1|S1].
    - rewrite (zppf_low s S1). destruct (low_neg s Hs S1) as [Es Ns].
      destruct (Rlt_le_dec t lo) as [T1|T1].
      + rewrite (zppf_low t T1). left. apply (quantile_incr _ _ HQ); [apply low_level; assumption| |apply low_level; [lra|assumption]].
        apply Rmult_lt_compat_r; [apply Rinv_0_lt_compat; lra|lra].
      + destruct (Rlt_le_dec t (lo + p)) as [T2|T2].
        * rewrite (zppf_mid t) by lra. lra.
        * rewrite (zppf_high t T2). destruct (high_nonneg t Ht T2). lra.
    - destruct (Rlt_le_dec s (lo + p)) as [S2|S2].
      + rewrite (zppf_mid s) by lra. destruct (Rlt_le_dec t (lo + p)) as [T2|T2].
        * rewrite (zppf_mid t) by lra. lra.
        * rewrite (zppf_high t T2). destruct (high_nonneg t Ht T2). lra.
      + rewrite (zppf_high s S2), (zppf_high t) by lra. left. apply pq_high; lra.
  Qed.

  Lemma zinf_ppf_cdf x : 0 < d_cdf d x < 1 -> x <= - zero_tol \/ 0 <= x -> zinf_ppf z (zinf_cdf z x) = x.
  Proof.
    intros Hx Hc. destruct zinf_fields as (_ & _ & _ & Q). pose proof tol_pos as T. pose proof HQ as (B & M & C & I).
    rewrite zcdf. destruct Hc as [H|H].
    - destruct (Rlt_dec (- zero_tol) x); [lra|]. rewrite Rplus_0_r.
      assert (L : d_cdf d x < d_cdf d 0) by (apply (pair_strict _ _ _ _ HQ Hx); lra).
      rewrite zppf_low by (unfold lo; nra). replace (d_cdf d x * (1 - p) / (1 - p)) with (d_cdf d x) by (field; lra). apply I, Hx.
    - destruct (Rlt_dec (- zero_tol) x); [|lra]. pose proof (M 0 x H).
      rewrite zppf_high by (unfold lo; nra). replace ((d_cdf d x * (1 - p) + p - p) / (1 - p)) with (d_cdf d x) by (field; lra). apply I, Hx.
  Qed.

  Lemma zinf_ppf_cdf_window x : 0 < p -> 0 < d_cdf d x < 1 -> - zero_tol < x < 0 -> x < zinf_ppf z (zinf_cdf z x).
  Proof.
    intros Pp Hx Hc. destruct zinf_fields as (_ & _ & _ & Q). pose proof HQ as (B & M & C & I).
    assert (L : d_cdf d x < d_cdf d 0) by (apply (pair_strict _ _ _ _ HQ Hx); lra).
    rewrite zcdf. destruct (Rlt_dec (- zero_tol) x); [|lra].
    assert (G : d_cdf d x * (1 - p) + p < lo + p) by (unfold lo; nra).
    destruct (Rlt_le_dec (d_cdf d x * (1 - p) + p) lo) as [T1|T1].
    - rewrite zppf_low by exact T1. destruct (low_neg (d_cdf d x * (1 - p) + p)) as [E N]; [nra|exact T1|].
      apply (pair_lt _ _ _ _ HQ Hx). rewrite E. replace ((d_cdf d x * (1 - p) + p) / (1 - p)) with (d_cdf d x + p / (1 - p)) by (field; lra).
      assert (0 < p / (1 - p)) by (apply Rdiv_lt_0_compat; lra). lra.
    - rewrite zppf_mid by lra. lra.
  Qed.

  Lemma zinf_cdf_ppf t : 0 < t < 1 ->
    t <= zinf_cdf z (zinf_ppf z t) /\ (zinf_ppf z t <= - zero_tol \/ lo + p <= t -> zinf_cdf z (zinf_ppf z t) = t).
  Proof.
    intros [H1 H2]. destruct zinf_fields as (_ & _ & _ & Q). pose proof tol_pos as T.
    destruct (Rlt_le_dec t lo) as [T1|T1].
    - rewrite zppf_low by exact T1. destruct (low_neg t H1 T1) as [E N]. rewrite zcdf, E.
      replace (t / (1 - p) * (1 - p)) with t by (field; lra).
      destruct (Rlt_dec (- zero_tol) (d_ppf d (t / (1 - p)))); split; intros; try lra.
    - destruct (Rlt_le_dec t (lo + p)) as [T2|T2].
      + rewrite zppf_mid by lra. rewrite zcdf. destruct (Rlt_dec (- zero_tol) 0); [|lra]. unfold lo in *. split; [lra|intros [?|?]; lra].
      + rewrite zppf_high by exact T2. destruct (high_nonneg t H2 T2) as [E N]. rewrite zcdf, E.
        destruct (Rlt_dec (- zero_tol) _) as [G|G]; [|lra].
        replace ((t - p) / (1 - p) * (1 - p) + p) with t by (field; lra). split; [lra|reflexivity].
  Qed.

  (** every x <> -tol with a base density *)
  Lemma zinf_cdf_derive x f : is_derive (d_cdf d) x f -> x <> - zero_tol -> is_derive (zinf_cdf z) x ((1 - p) * f).
  Proof.
    intros Hf Hx. set (c := if Rlt_dec (- zero_tol) x then p else 0).
    apply (is_derive_ext_loc (fun t => d_cdf d t * (1 - p) + c)).
    - unfold c. destruct (Rlt_dec (- zero_tol) x) as [G|G].
      + eapply filter_imp; [|apply (open_gt (- zero_tol) x G)]. intros y Hy. rewrite zcdf. destruct (Rlt_dec (- zero_tol) y); [reflexivity|contradiction].
      + assert (L : x < - zero_tol) by lra. eapply filter_imp; [|apply (open_lt (- zero_tol) x L)]. intros y Hy. rewrite zcdf.
        destruct (Rlt_dec (- zero_tol) y); [lra|reflexivity].
    - pose proof (is_derive_unique _ _ _ Hf) as E. auto_derive; [eexists; exact Hf|].
      rewrite (is_derive_unique (fun y : R => d_cdf d y) x _ Hf). ring.
  Qed.

  Lemma zinf_pdf_val x : zinf_pdf z x = (1 - p) * d_pdf d x + (if Rlt_dec (Rabs x) zero_tol then p else 0).
  Proof.
    destruct zinf_fields as (A & B & C & _). unfold zinf_pdf. rewrite A, B, C. rewrite (Rmult_comm _ (1 - p)). f_equal.
    unfold Rltb. destruct (Rlt_dec (Rabs x) zero_tol) as [G|G].
    - apply Rabs_def2 in G. destruct (Rlt_dec (- zero_tol) x); [|lra]. destruct (Rlt_dec x zero_tol); [reflexivity|lra].
    - destruct (Rlt_dec (- zero_tol) x); [|reflexivity]. destruct (Rlt_dec x zero_tol); [|reflexivity]. exfalso. apply G, Rabs_def1; lra.
  Qed.
End Zinf.

(** ** powers of probabilities *)
Lemma ppow_pos x y : 0 < x -> ppow x y = Rpower x y.
Proof.
  intros H. unfold ppow, Reqb. destruct (Req_EM_T y 0) as [->|N]; [symmetry; apply Rpower_O, H|].
  replace (Rltb 0 x) with true by (symmetry; apply Rltb_spec, H). reflexivity.
Qed.
Lemma ppow_0 y : y <> 0 -> ppow 0 y = 0.
Proof.
  intros H. unfold ppow, Reqb. destruct (Req_EM_T y 0); [contradiction|]. replace (Rltb 0 0) with false by (symmetry; apply Rltb_false; lra). reflexivity.
Qed.
Lemma ppow_nat x n : 0 <= x -> ppow x (INR n) = x ^ n.
Proof.
  intros [H| <-]; [rewrite ppow_pos by exact H; apply Rpower_pow, H|].
  destruct n as [|n]; [cbn [INR pow]; unfold ppow, Reqb; destruct (Req_EM_T 0 0); [reflexivity|lra]|].
  rewrite ppow_0 by (apply not_0_INR; discriminate). rewrite pow_i by apply Nat.lt_0_succ. reflexivity.
Qed.
Lemma ppow_bounds x y : 0 <= x <= 1 -> 0 < y -> 0 <= ppow x y <= 1.
Proof.
  intros [[H| <-] H1] Hy; [|rewrite ppow_0; lra]. rewrite ppow_pos by exact H. split; [apply Rlt_le, Rpower_pos|].
  unfold Rpower. rewrite <- exp_0. apply exp_le_compat. assert (ln x <= 0) by (rewrite <- ln_1; destruct H1 as [H1| ->]; [left; apply ln_increasing; lra|lra]). nra.
Qed.
Lemma ppow_mono x y e : 0 < e -> 0 <= x -> x <= y -> ppow x e <= ppow y e.
Proof.
  intros He [Hx| <-] Hxy.
  - rewrite !ppow_pos by lra. apply Rpower_le; lra.
  - rewrite ppow_0 by lra. destruct Hxy as [Hy| <-]; [rewrite ppow_pos by exact Hy; apply Rlt_le, Rpower_pos|rewrite ppow_0; lra].
Qed.
Lemma ppow_mult x a b : 0 <= x -> a <> 0 -> b <> 0 -> ppow (ppow x a) b = ppow x (a * b).
Proof.
  intros [H| <-] Ha Hb; [|rewrite !ppow_0 by (try assumption; apply Rmult_integral_contrapositive_currified; assumption); reflexivity].
  rewrite !(ppow_pos x) by exact H. rewrite ppow_pos by apply Rpower_pos. apply Rpower_mult.
Qed.
Lemma ppow_1 x : 0 <= x -> ppow x 1 = x.
Proof. intros [H| <-]; [rewrite ppow_pos by exact H; apply Rpower_1, H|apply ppow_0; lra]. Qed.
Lemma ppow_anti x a b : 0 <= x <= 1 -> 0 < a -> a <= b -> ppow x b <= ppow x a.
Proof.
  intros [[H| <-] H1] Ha Hab; [|rewrite !ppow_0; lra]. rewrite !ppow_pos by exact H. unfold Rpower. apply exp_le_compat.
  assert (ln x <= 0) by (rewrite <- ln_1; destruct H1 as [H1| ->]; [left; apply ln_increasing; lra|lra]). nra.
Qed.
Lemma ppow_01 x e : 0 < e -> 0 <= x <= 1 -> 0 < ppow x e < 1 -> 0 < x < 1.
Proof.
  intros He Hx H. split.
  - destruct (Req_dec x 0) as [->|]; [|lra]. rewrite ppow_0 in H by lra. lra.
  - destruct (Req_dec x 1) as [->|]; [|lra]. rewrite ppow_pos in H by lra. unfold Rpower in H. rewrite ln_1, Rmult_0_r, exp_0 in H. lra.
Qed.
Lemma ppow_in_01 x e : 0 < e -> 0 < x < 1 -> 0 < ppow x e < 1.
Proof.
  intros He Hx. rewrite ppow_pos by lra. split; [apply Rpower_pos|]. unfold Rpower. rewrite <- exp_0. apply exp_increasing.
  assert (ln x < 0) by (rewrite <- ln_1; apply ln_increasing; lra). nra.
Qed.

(** a power of a cdf is a cdf, its quantile function that of the root *)
Lemma pow_pair F Q e : 0 < e -> quantile_pair F Q -> quantile_pair (fun x => ppow (F x) e) (fun t => Q (ppow t (1 / e))).
Proof.
  intros He (B & M & C & I). assert (Hi : 0 < 1 / e) by (apply Rdiv_lt_0_compat; lra). split; [|split; [|split]].
  - intros x. apply ppow_bounds; [apply B|exact He].
  - intros x y H. apply ppow_mono; [exact He|apply B|apply M, H].
  - intros t Ht. rewrite C by (apply ppow_in_01; assumption). rewrite ppow_mult by lra.
    replace (1 / e * e) with 1 by (field; lra). apply ppow_1. lra.
  - intros x H. pose proof (ppow_01 _ _ He (B x) H) as K. rewrite ppow_mult by lra. replace (e * (1 / e)) with 1 by (field; lra).
    rewrite ppow_1 by lra. apply I, K.
Qed.

Lemma pow_density F f e : 0 < e -> (forall x, 0 <= F x <= 1) -> density_of F f ->
  density_of (fun x => ppow (F x) e) (fun x => e * f x * ppow (F x) (e - 1)).
Proof.
  intros He B D x H. pose proof (ppow_01 _ _ He (B x) H) as K. pose proof (D x K) as Hd.
  apply (is_derive_ext_loc (fun t => Rpower (F t) e)).
  - assert (Cn : continuous F x) by (apply (@ex_derive_continuous R_AbsRing R_NormedModule); eexists; exact Hd).
    specialize (Cn (fun v => 0 < v) (open_gt 0 (F x) (proj1 K))). eapply filter_imp; [|exact Cn].
    intros y Hy. symmetry. apply ppow_pos, Hy.
  - rewrite ppow_pos by lra. unfold Rpower.
    auto_derive; [repeat split; [eexists; exact Hd|lra]|].
    rewrite (is_derive_unique (fun y : R => F y) x _ Hd).
    replace (exp ((e - 1) * ln (F x))) with (exp (e * ln (F x)) / F x).
    2:{ replace ((e - 1) * ln (F x)) with (e * ln (F x) + - ln (F x)) by ring. rewrite exp_plus, exp_Ropp, exp_ln by lra. reflexivity. }
    field. lra.
Qed.

Lemma density_ext F G f g : (forall x, F x = G x) -> (forall x, 0 < F x < 1 -> f x = g x) -> density_of F f -> density_of G g.
Proof. intros E1 E2 D x H. rewrite <- E1 in H. rewrite <- E2 by exact H. eapply is_derive_ext; [exact E1|]. apply D, H. Qed.

Lemma maximum_density w : 1 <= pw_N w -> (forall x, 0 <= d_cdf (pw_base w) x <= 1) -> density_of (d_cdf (pw_base w)) (d_pdf (pw_base w)) ->
  density_of (maximum_cdf w) (maximum_pdf w).
Proof.
  intros HN B D. refine (density_ext _ _ _ _ _ _ (pow_density _ _ (pw_N w) _ B D)); [reflexivity| |lra].
  intros x H. unfold maximum_pdf, Rltb. destruct (Rlt_dec 1 (pw_N w)) as [L|L]; [reflexivity|].
  assert (E : pw_N w - 1 = 0) by lra. rewrite E. f_equal. unfold ppow, Reqb. destruct (Req_EM_T 0 0); [reflexivity|lra].
Qed.

Lemma maxparent_density w : 1 <= pw_N w -> (forall x, 0 <= d_cdf (pw_base w) x <= 1) -> density_of (d_cdf (pw_base w)) (d_pdf (pw_base w)) ->
  density_of (maxparent_cdf w) (maxparent_pdf w).
Proof.
  intros HN B D. assert (Hi : 0 < 1 / pw_N w) by (apply Rdiv_lt_0_compat; lra).
  refine (density_ext _ _ _ _ _ _ (pow_density _ _ (1 / pw_N w) Hi B D)); [reflexivity|].
  intros x H. pose proof (ppow_01 _ _ Hi (B x) H) as K. unfold maxparent_pdf, maxparent_cdf.
  rewrite !(ppow_pos (d_cdf (pw_base w) x)) by lra. rewrite ppow_pos by apply Rpower_pos. rewrite Rpower_mult.
  replace (1 / pw_N w * (pw_N w - 1)) with (- (1 / pw_N w - 1)) by (field; lra). rewrite Rpower_Ropp.
  pose proof (Rpower_pos (d_cdf (pw_base w) x) (1 / pw_N w - 1)). field. lra.
Qed.

(** an exact minimiser of |cdf - p| makes ppf the quantile function *)
Lemma fmin_pair F Q fmin x0 : quantile_pair F Q ->
  (forall t, 0 < t < 1 -> forall y, Rabs (F (fmin (fun x => Rabs (F x - t)) x0) - t) <= Rabs (F y - t)) ->
  (forall t, 0 < t < 1 -> pow_ppf fmin F x0 t = Q t) .
Proof.
  intros (B & M & C & I) H t Ht. unfold pow_ppf. pose proof (H t Ht (Q t)) as K. rewrite C in K by exact Ht.
  replace (t - t) with 0 in K by ring. rewrite Rabs_R0 in K. pose proof (Rabs_pos (F (fmin (fun x => Rabs (F x - t)) x0) - t)).
  assert (E : F (fmin (fun x => Rabs (F x - t)) x0) = t).
  { assert (Z : Rabs (F (fmin (fun x => Rabs (F x - t)) x0) - t) = 0) by lra. destruct (Req_dec (F (fmin (fun x => Rabs (F x - t)) x0) - t) 0) as [W|W]; [lra|]. apply Rabs_no_R0 in W. contradiction. }
  rewrite <- (I (fmin (fun x => Rabs (F x - t)) x0)) by (rewrite E; exact Ht). rewrite E. reflexivity.
Qed.

Lemma pair_of_ext F Q Q' : quantile_pair F Q -> (forall t, 0 < t < 1 -> Q' t = Q t) -> quantile_pair F Q'.
Proof.
  intros (B & M & C & I) H. split; [exact B|split; [exact M|split]].
  - intros t Ht. rewrite H by exact Ht. apply C, Ht.
  - intros x Hx. rewrite H by exact Hx. apply I, Hx.
Qed.

(** ** GEV family *)
Lemma sfam_gev Gam eg c : fam_ok (gev_fam Gam eg c).
Proof.
  unfold gev_fam, Reqb. destruct (Req_EM_T c 0) as [Ec|Nc]; [apply sfam_gumbel|].
  set (F := fun z => if Rltb 0 (1 - c * z) then exp (- Rpower (1 - c * z) (1 / c)) else if Rltb 0 c then 1 else 0).
  assert (P : forall z, 0 < exp (- Rpower (1 - c * z) (1 / c)) < 1).
  { intros z. split; [apply exp_pos|]. assert (exp (- Rpower (1 - c * z) (1 / c)) < exp 0) by (apply exp_increasing; pose proof (Rpower_pos (1 - c * z) (1 / c)); lra).
    rewrite exp_0 in *. lra. }
  assert (V : forall z, 0 < 1 - c * z -> F z = exp (- Rpower (1 - c * z) (1 / c))).
  { intros z H. unfold F. replace (Rltb 0 (1 - c * z)) with true by (symmetry; apply Rltb_spec, H). reflexivity. }
  assert (W : forall z, 0 < F z < 1 -> 0 < 1 - c * z).
  { intros z H. unfold F, Rltb in H. destruct (Rlt_dec 0 (1 - c * z)); [assumption|]. destruct (Rlt_dec 0 c); lra. }
  split; [split; [|split; [|split]]|]; cbn [sf_cdf sf_ppf sf_pdf]; fold F.
  - intros z. unfold F. destruct (Rltb 0 (1 - c * z)); [pose proof (P z); lra|]. destruct (Rltb 0 c); lra.
  - intros x y H. unfold F, Rltb. destruct (Rlt_dec 0 (1 - c * x)) as [Hx|Hx]; destruct (Rlt_dec 0 (1 - c * y)) as [Hy|Hy].
    + apply exp_le_compat, Ropp_le_contravar. unfold Rpower. apply exp_le_compat.
      destruct (Rlt_le_dec 0 c) as [Hc|Hc].
      * apply Rmult_le_compat_l; [apply Rlt_le, Rdiv_lt_0_compat; lra|].
        assert (L : 1 - c * y <= 1 - c * x) by nra. destruct L as [L|L]; [left; apply ln_increasing; assumption|rewrite L; lra].
      * assert (Hc' : c < 0) by lra. assert (1 / c < 0) by (unfold Rdiv; rewrite Rmult_1_l; apply Rinv_lt_0_compat, Hc').
        assert (L : 1 - c * x <= 1 - c * y) by nra.
        assert (ln (1 - c * x) <= ln (1 - c * y)) by (destruct L as [L|L]; [left; apply ln_increasing; assumption|rewrite L; lra]). nra.
    + pose proof (P x). destruct (Rlt_dec 0 c) as [Hc|Hc]; [lra|]. exfalso. apply Hy. nra.
    + pose proof (P y). destruct (Rlt_dec 0 c) as [Hc|Hc]; [|lra]. exfalso. apply Hx. nra.
    + destruct (Rlt_dec 0 c); lra.
  - intros p Hp. assert (L : 0 < - ln p). { assert (ln p < ln 1) by (apply ln_increasing; lra). rewrite ln_1 in *. lra. }
    assert (E : 1 - c * ((1 - Rpower (- ln p) c) / c) = Rpower (- ln p) c) by (field; exact Nc).
    rewrite V by (rewrite E; apply Rpower_pos). rewrite E, Rpower_mult. replace (c * (1 / c)) with 1 by (field; exact Nc).
    rewrite Rpower_1 by exact L. rewrite Ropp_involutive. apply exp_ln. lra.
  - intros z Hz. pose proof (W z Hz) as G. rewrite V by exact G. rewrite ln_exp, Ropp_involutive, Rpower_mult.
    replace (1 / c * c) with 1 by (field; exact Nc). rewrite Rpower_1 by exact G. field. exact Nc.
  - intros z Hz. pose proof (W z Hz) as G. replace (Rltb 0 (1 - c * z)) with true by (symmetry; apply Rltb_spec, G).
    apply (is_derive_ext_loc (fun t => exp (- Rpower (1 - c * t) (1 / c)))).
    + assert (Cn : continuous (fun t => 1 - c * t) z) by (apply (@ex_derive_continuous R_AbsRing R_NormedModule (fun t => 1 - c * t)); auto_derive; exact I).
      specialize (Cn (fun v => 0 < v) (open_gt 0 (1 - c * z) G)). eapply filter_imp; [|exact Cn]. intros y Hy. symmetry. apply V, Hy.
    + unfold Rpower. auto_derive; [exact G|].
      replace (exp ((1 / c - 1) * ln (1 - c * z))) with (exp (1 / c * ln (1 - c * z)) / (1 - c * z)).
      2:{ replace ((1 / c - 1) * ln (1 - c * z)) with (1 / c * ln (1 - c * z) + - ln (1 - c * z)) by ring. rewrite exp_plus, exp_Ropp, exp_ln by exact G. reflexivity. }
      replace (1 + - (c * z)) with (1 - c * z) by ring. field. split; [lra|exact Nc].
Qed.

Lemma exp_neg_lt_1 t : 0 < t -> exp (- t) < 1.
Proof. intros H. rewrite <- exp_0. apply exp_increasing. lra. Qed.

(** no GEV law is symmetric about 0 *)
Lemma gev_not_symmetric Gam eg c loc sc : 0 < sc ->
  let G := fz_cdf (mkFrozen (gev_fam Gam eg c) loc sc) in
  ~ (forall x, 0 < G x < 1 -> 1 - G (- x) = G x).
Proof.
  intros Hs G H.
  destruct (Req_dec c 0) as [->|Nc].
  - assert (E : forall x, G x = exp (- exp (- ((x - loc) / sc)))).
    { intros x. unfold G, fz_cdf, gev_fam, Reqb. cbn [fz_fam fz_loc fz_scale]. destruct (Req_EM_T 0 0); [reflexivity|lra]. }
    assert (B : forall x, 0 < G x < 1).
    { intros x. rewrite E. split; [apply exp_pos|]. apply exp_neg_lt_1, exp_pos. }
    assert (K : forall x, exp (- exp (- ((- x - loc) / sc))) + exp (- exp (- ((x - loc) / sc))) = 1).
    { intros x. pose proof (H x (B x)) as Hx. rewrite !E in Hx. lra. }
    pose proof (K 0) as K0. replace (- 0 - loc) with (0 - loc) in K0 by ring.
    set (a := exp (- ((0 - loc) / sc))) in K0.
    assert (A : exp (- a) = / 2) by lra.
    pose proof (K (sc * ln 2)) as K1.
    replace (exp (- ((- (sc * ln 2) - loc) / sc))) with (a * 2) in K1.
    2:{ unfold a. rewrite <- (exp_ln 2) at 1 by lra. rewrite <- exp_plus. f_equal. field. lra. }
    replace (exp (- ((sc * ln 2 - loc) / sc))) with (a / 2) in K1.
    2:{ unfold a, Rdiv at 1. rewrite <- (exp_ln 2) at 1 by lra. rewrite <- exp_Ropp, <- exp_plus. f_equal. field. lra. }
    assert (Q1 : exp (- (a * 2)) = / 2 * / 2) by (rewrite <- A, <- exp_plus; f_equal; ring).
    assert (Q2 : exp (- (a / 2)) * exp (- (a / 2)) = / 2) by (rewrite <- A, <- exp_plus; f_equal; field).
    rewrite Q1 in K1. assert (exp (- (a / 2)) = 3 / 4) by lra. rewrite H0 in Q2. lra.
  - assert (E : forall x, G x = let z := (x - loc) / sc in if Rltb 0 (1 - c * z) then exp (- Rpower (1 - c * z) (1 / c)) else if Rltb 0 c then 1 else 0).
    { intros x. unfold G, fz_cdf, gev_fam, Reqb. cbn [fz_fam fz_loc fz_scale]. destruct (Req_EM_T c 0); [contradiction|reflexivity]. }
    assert (In : forall x, 0 < 1 - c * ((x - loc) / sc) -> 0 < G x < 1).
    { intros x Hx. rewrite E. cbv zeta. replace (Rltb 0 (1 - c * ((x - loc) / sc))) with true by (symmetry; apply Rltb_spec, Hx).
      split; [apply exp_pos|]. apply exp_neg_lt_1, Rpower_pos. }
    assert (Out : forall x, 1 - c * ((x - loc) / sc) <= 0 -> G x = if Rltb 0 c then 1 else 0).
    { intros x Hx. rewrite E. cbv zeta. replace (Rltb 0 (1 - c * ((x - loc) / sc))) with false by (symmetry; apply Rltb_false, Hx). reflexivity. }
    (* a point so far out that -x is outside the support and x inside *)
    set (k := 1 + Rabs loc / sc * Rabs c).
    assert (Kp : 0 <= Rabs loc / sc * Rabs c).
    { apply Rmult_le_pos; [|apply Rabs_pos]. apply Rmult_le_pos; [apply Rabs_pos|apply Rlt_le, Rinv_0_lt_compat, Hs]. }
    set (x := - (sc * k / c)).
    assert (Cz : Rabs (c * (loc / sc)) = Rabs loc / sc * Rabs c).
    { rewrite Rabs_mult. unfold Rdiv. rewrite Rabs_mult, (Rabs_right (/ sc)) by (apply Rle_ge, Rlt_le, Rinv_0_lt_compat, Hs). ring. }
    pose proof (Rle_abs (c * (loc / sc))) as A1. pose proof (Rle_abs (- (c * (loc / sc)))) as A2. rewrite Rabs_Ropp in A2.
    assert (X1 : 1 - c * ((x - loc) / sc) = 1 + k + c * (loc / sc)) by (unfold x; field; lra).
    assert (X2 : 1 - c * ((- x - loc) / sc) = 1 - k + c * (loc / sc)) by (unfold x; field; lra).
    assert (Hin : 0 < G x < 1) by (apply In; rewrite X1; unfold k; lra).
    pose proof (H x Hin) as Hx. rewrite (Out (- x)) in Hx by (rewrite X2; unfold k; lra). destruct (Rltb 0 c); lra.
Qed.

(** ** GEVmin: mirrored *)
Lemma gevmin_cdf_ppf s F Q : fz_cdf (gm_obj s) = F -> fz_ppf (gm_obj s) = Q -> quantile_pair F Q ->
  (forall p, 0 < p < 1 -> d_cdf (gevmin_dist s) (d_ppf (gevmin_dist s) p) = 1 - p)
  /\ (forall p q, 0 < p -> p < q -> q < 1 -> d_ppf (gevmin_dist s) q < d_ppf (gevmin_dist s) p)
  /\ (forall x y, x <= y -> d_cdf (gevmin_dist s) x <= d_cdf (gevmin_dist s) y)
  /\ (forall x, 0 <= d_cdf (gevmin_dist s) x <= 1)
  /\ (forall u, 1 - d_cdf (gevmin_dist s) (- d_u2x (gevmin_dist s) u) = Phi u).
Proof.
  intros <- <- HQ. pose proof HQ as (B & M & C & I). cbn [gevmin_dist d_cdf d_ppf d_u2x]. split; [|split; [|split; [|split]]].
  - intros p Hp. rewrite Ropp_involutive, C by exact Hp. reflexivity.
  - intros p q H1 H2 H3. apply Ropp_lt_contravar, (quantile_incr _ _ HQ); assumption.
  - intros x y H. pose proof (M (- y) (- x) ltac:(lra)). lra.
  - intros x. pose proof (B (- x)). lra.
  - intros u. rewrite Ropp_involutive, C by apply Phi_bound. ring.
Qed.

Lemma gevmin_level_iff s : quantile_pair (fz_cdf (gm_obj s)) (fz_ppf (gm_obj s)) ->
  ((forall u, d_cdf (gevmin_dist s) (d_u2x (gevmin_dist s) u) = Phi u)
   <-> (forall x, 0 < fz_cdf (gm_obj s) x < 1 -> 1 - fz_cdf (gm_obj s) (- x) = fz_cdf (gm_obj s) x)).
Proof.
  intros HQ. pose proof HQ as (B & M & C & I). cbn [gevmin_dist d_cdf d_ppf d_u2x]. split.
  - intros H x Hx. pose proof (H (ppf (fz_cdf (gm_obj s) x))) as K. rewrite Phi_ppf, I in K by exact Hx. exact K.
  - intros H u. assert (E : fz_cdf (gm_obj s) (fz_ppf (gm_obj s) (Phi u)) = Phi u) by (apply C, Phi_bound).
    rewrite H; [exact E|]. rewrite E. apply Phi_bound.
Qed.
