From Coquelicot Require Import Coquelicot.
From Verif Require Import Base Gauss GaussProofs MomSpec MomProofs McSpec SsKernelProofs McBiasSpec McBiasProofs.
From Coq Require Import Lra Lia ZArith FunctionalExtensionality.
Open Scope R_scope.

(** ** sum of two independent normal variables *)
Section Conv.
  Variable b : R.
  Let c := sqrt (1 + b * b).
  Lemma c_pos : 0 < c. Proof. apply sqrt_lt_R0. nra. Qed.
  Lemma c_sq : c * c = 1 + b * b. Proof. apply sqrt_sqrt. nra. Qed.

  Lemma phi_prod t x : phi (t + b * x) * phi x = phi (t / c) * phi (c * x + b * t / c).
  Proof.
    pose proof c_pos as H. pose proof c_sq as Q. assert (P : 0 < sqrt (2 * PI)) by (apply sqrt_lt_R0; pose proof PI_RGT_0; lra). unfold phi.
    assert (E : exp (- (1 / 2) * ((t + b * x) * (t + b * x))) * exp (- (1 / 2) * (x * x)) = exp (- (1 / 2) * (t / c * (t / c))) * exp (- (1 / 2) * ((c * x + b * t / c) * (c * x + b * t / c)))).
    { rewrite <- !exp_plus. f_equal. replace ((c * x + b * t / c) * (c * x + b * t / c)) with (c * c * (x * x) + 2 * b * t * x + b * b * (t / c * (t / c))) by (field; lra).
      assert (E : t * t = (1 + b * b) * (t / c * (t / c))) by (rewrite <- Q; field; lra). rewrite Q. nra. }
    revert E. generalize (exp (- (1 / 2) * ((t + b * x) * (t + b * x)))), (exp (- (1 / 2) * (x * x))), (exp (- (1 / 2) * (t / c * (t / c)))), (exp (- (1 / 2) * ((c * x + b * t / c) * (c * x + b * t / c)))).
    intros e1 e2 e3 e4 E. transitivity (e1 * e2 / (sqrt (2 * PI) * sqrt (2 * PI))); [field; lra|]. rewrite E. field. lra.
  Qed.

  Lemma Phi_continuous x : continuous Phi x.
  Proof. apply continuity_pt_filterlim, Phi_cont. Qed.
  Lemma cont2_lin : cont2 (fun x t => phi (t + b * x) * phi x).
  Proof.
    intros x y. apply continuity_2d_pt_mult.
    - apply (cont2_comp1 phi (fun u r => r + b * u) phi_continuous). intros p q. apply continuity_2d_pt_plus; [apply continuity_2d_pt_id2|]. apply continuity_2d_pt_mult; [apply continuity_2d_pt_const|apply continuity_2d_pt_id1].
    - apply (cont2_comp1 phi (fun u _ => u) phi_continuous). intros p q. apply continuity_2d_pt_id1.
  Qed.

  Definition W (l m a : R) : R := RInt (fun x => Phi (a + b * x) * phi x) l m.
  Lemma W_cont a x : continuous (fun x => Phi (a + b * x) * phi x) x.
  Proof.
    apply (continuous_mult (fun x => Phi (a + b * x)) phi); [|apply phi_continuous]. apply (continuous_comp (fun x => a + b * x) Phi); [|apply Phi_continuous].
    apply (continuous_plus (fun _ => a) (fun x => b * x)); [apply continuous_const|]. apply (continuous_mult (fun _ => b) (fun x => x)); [apply continuous_const|apply continuous_id].
  Qed.
  Lemma W_ex a l m : ex_RInt (fun x => Phi (a + b * x) * phi x) l m.
  Proof. apply (ex_RInt_continuous (V := R_CompleteNormedModule)). intros z _. apply W_cont. Qed.

  (** the inner integrals *)
  Lemma in_t x a1 a : RInt (fun t => phi (t + b * x) * phi x) a1 a = (Phi (a + b * x) - Phi (a1 + b * x)) * phi x.
  Proof.
    apply is_RInt_unique. replace ((Phi (a + b * x) - Phi (a1 + b * x)) * phi x) with (minus (Phi (a + b * x) * phi x) (Phi (a1 + b * x) * phi x)) by (unfold minus, plus, opp; cbn; ring).
    apply (is_RInt_derive (fun t => Phi (t + b * x) * phi x)).
    - intros t _. replace (phi (t + b * x) * phi x) with (1 * phi (t + b * x) * phi x) by ring.
      apply (is_derive_ext (fun t => Phi (t + b * x) * phi x)); [reflexivity|]. evar_last. 
      { apply (is_derive_mult (fun t => Phi (t + b * x)) (fun _ => phi x) t); [apply (is_derive_comp Phi (fun t => t + b * x)); [apply Phi_derive|apply (is_derive_plus (fun t => t) (fun _ => b * x)); [apply is_derive_id|apply is_derive_const]]|apply is_derive_const|intros; apply Rmult_comm]. }
      unfold scal, plus, mult, zero, one; cbn; unfold mult; cbn. ring.
    - intros t _. exact (cont2_2 _ x cont2_lin t).
  Qed.
  Lemma in_x t l m : RInt (fun x => phi (t + b * x) * phi x) l m = / c * phi (t / c) * (Phi (c * m + b * t / c) - Phi (c * l + b * t / c)).
  Proof.
    pose proof c_pos as H. apply is_RInt_unique.
    replace (/ c * phi (t / c) * (Phi (c * m + b * t / c) - Phi (c * l + b * t / c))) with (minus (/ c * phi (t / c) * Phi (c * m + b * t / c)) (/ c * phi (t / c) * Phi (c * l + b * t / c))) by (unfold minus, plus, opp; cbn; ring).
    apply (is_RInt_derive (fun x => / c * phi (t / c) * Phi (c * x + b * t / c))).
    - intros x _. evar_last. { apply (is_derive_scal (fun x => Phi (c * x + b * t / c)) x). apply (is_derive_comp Phi (fun x => c * x + b * t / c)); [apply Phi_derive|]. apply (is_derive_plus (fun x => c * x) (fun _ => b * t / c)); [apply (is_derive_scal (fun x => x) x c); apply is_derive_id|apply is_derive_const]. }
      rewrite phi_prod. unfold scal, plus, mult, zero, one; cbn; unfold mult; cbn. field. lra.
    - intros x _. exact (cont2_1 _ t cont2_lin x).
  Qed.

  Definition k (t : R) : R := / c * phi (t / c).
  Definition gap (l m t : R) : R := Phi (c * m + b * t / c) - Phi (c * l + b * t / c).
  Lemma k_cont t : continuous k t.
  Proof.
    apply (continuous_mult (fun _ => / c) (fun t => phi (t / c))); [apply continuous_const|]. apply (continuous_comp (fun t => t / c) phi); [|apply phi_continuous]. apply (continuous_mult (fun t => t) (fun _ => / c)); [apply continuous_id|apply continuous_const].
  Qed.
  Lemma k_pos t : 0 < k t.
  Proof. apply Rmult_lt_0_compat; [apply Rinv_0_lt_compat, c_pos|apply phi_pos]. Qed.
  Lemma k_int a1 a : is_RInt k a1 a (Phi (a / c) - Phi (a1 / c)).
  Proof.
    pose proof c_pos as H. apply (is_RInt_derive (fun t => Phi (t / c)) k); [|intros t _; apply k_cont]. intros t _. evar_last.
    { apply (is_derive_comp Phi (fun t => t / c)); [apply Phi_derive|]. instantiate (1 := / c). auto_derive; [exact I|field; lra]. }
    unfold k, scal; cbn; unfold mult; cbn. field. lra.
  Qed.
  Lemma W_step l m a1 a : a1 <= a -> l <= m -> W l m a - W l m a1 = RInt (fun t => k t * gap l m t) a1 a.
  Proof.
    intros Ha Hl. unfold W.
    assert (E : RInt (fun x => Phi (a + b * x) * phi x) l m - RInt (fun x => Phi (a1 + b * x) * phi x) l m = RInt (fun x => RInt (fun t => phi (t + b * x) * phi x) a1 a) l m).
    { pose proof (RInt_minus (V := R_CompleteNormedModule) _ _ l m (W_ex a l m) (W_ex a1 l m)) as E. refine (eq_trans (eq_sym E) _). apply RInt_ext. intros x _. rewrite in_t. unfold minus, plus, opp; cbn. ring. }
    rewrite E, (fubini _ l m a1 a Ha cont2_lin). apply RInt_ext. intros t _. rewrite in_x. reflexivity.
  Qed.

  Lemma gap_le l m t : gap l m t <= 1.
  Proof. unfold gap. pose proof (Phi_bound (c * m + b * t / c)). pose proof (Phi_bound (c * l + b * t / c)). lra. Qed.
  Lemma gap_cont l m t : continuous (fun t => k t * gap l m t) t.
  Proof.
    apply (continuous_mult k (gap l m)); [apply k_cont|]. unfold gap.
    assert (Q : forall y, continuous (fun t => Phi (c * y + b * t / c)) t).
    { intros y. apply (continuous_comp (fun t => c * y + b * t / c) Phi); [|apply Phi_continuous]. apply (continuous_plus (fun _ => c * y) (fun t => b * t / c)); [apply continuous_const|].
      apply (continuous_mult (fun t => b * t) (fun _ => / c)); [|apply continuous_const]. apply (continuous_mult (fun _ => b) (fun t => t)); [apply continuous_const|apply continuous_id]. }
    apply (continuous_minus (fun t => Phi (c * m + b * t / c)) (fun t => Phi (c * l + b * t / c))); apply Q.
  Qed.

  (** the window of the outer variable is wide enough: the difference is nearly that of the limits *)
  Lemma W_bounds l m a1 a eps : a1 <= a -> l <= m -> (forall t, a1 <= t <= a -> 1 - eps <= gap l m t) ->
    (1 - eps) * (Phi (a / c) - Phi (a1 / c)) <= W l m a - W l m a1 <= Phi (a / c) - Phi (a1 / c).
  Proof.
    intros Ha Hl G. rewrite (W_step l m a1 a Ha Hl). pose proof (k_int a1 a) as K.
    assert (X : ex_RInt (fun t => k t * gap l m t) a1 a) by (apply (ex_RInt_continuous (V := R_CompleteNormedModule)); intros z _; apply gap_cont).
    split.
    - rewrite <- (is_RInt_unique _ _ _ _ K). refine (Rle_trans _ (RInt (fun t => scal (1 - eps) (k t)) a1 a) _ _ _).
      + rewrite (RInt_scal (V := R_CompleteNormedModule)) by (exists (Phi (a / c) - Phi (a1 / c)); exact K). apply Rle_refl.
      + apply RInt_le; [exact Ha| |exact X|].
        * apply (ex_RInt_scal (V := R_CompleteNormedModule)). exists (Phi (a / c) - Phi (a1 / c)). exact K.
        * intros t Ht. unfold scal; cbn; unfold mult; cbn. rewrite Rmult_comm. apply Rmult_le_compat_l; [apply Rlt_le, k_pos|apply G; lra].
    - rewrite <- (is_RInt_unique _ _ _ _ K). apply RInt_le; [exact Ha|exact X|exists (Phi (a / c) - Phi (a1 / c)); exact K|].
      intros t Ht. rewrite <- (Rmult_1_r (k t)) at 2. apply Rmult_le_compat_l; [apply Rlt_le, k_pos|apply gap_le].
  Qed.

  Lemma phi_int l m : is_RInt phi l m (Phi m - Phi l).
  Proof. apply (is_RInt_derive Phi phi); intros x _; [apply Phi_derive|apply phi_continuous]. Qed.

  (** far to the left the mean is small *)
  Lemma W_small eps : 0 < eps -> exists a0, forall a1 l m, a1 <= a0 -> l <= m -> 0 <= W l m a1 <= eps.
  Proof.
    intros He. destruct (Phi_below (eps / 4) ltac:(lra)) as (x & Hx). set (K := Rmax 1 (- x)).
    assert (HK : Phi (- K) <= eps / 4). { assert (- K <= x) by (unfold K; pose proof (Rmax_r 1 (- x)); lra). apply Phi_le in H. lra. }
    assert (HK1 : 1 <= K) by apply Rmax_l.
    destruct (Phi_below (eps / 4) ltac:(lra)) as (y & Hy). exists (y - Rabs b * K). intros a1 l m Ha Hl.
    (* bound of the integrand on a piece by const * phi *)
    assert (P : forall u v B, u <= v -> (forall z, u <= z <= v -> Phi (a1 + b * z) <= B) -> 0 <= W u v a1 <= B * (Phi v - Phi u)).
    { intros u v B Huv HB. split.
      - unfold W. apply RInt_ge_0; [exact Huv|apply W_ex|]. intros z _. apply Rmult_le_pos; [apply Rlt_le, Phi_bound|apply Rlt_le, phi_pos].
      - unfold W. rewrite <- (is_RInt_unique _ _ _ _ (phi_int u v)). refine (Rle_trans _ (RInt (fun z => scal B (phi z)) u v) _ _ _).
        + apply RInt_le; [exact Huv|apply W_ex|apply (ex_RInt_scal (V := R_CompleteNormedModule)); exists (Phi v - Phi u); apply phi_int|].
          intros z Hz. unfold scal; cbn; unfold mult; cbn. apply Rmult_le_compat_r; [apply Rlt_le, phi_pos|apply HB; lra].
        + rewrite (RInt_scal (V := R_CompleteNormedModule)) by (exists (Phi v - Phi u); apply phi_int). apply Rle_refl. }
    assert (P1 : forall u v, u <= v -> 0 <= W u v a1 <= Phi v - Phi u) by (intros u v Huv; rewrite <- (Rmult_1_l (Phi v - Phi u)); apply P; [exact Huv|intros z _; apply Rlt_le, Phi_bound]).
    assert (PM : forall u v, u <= v -> - K <= u -> v <= K -> 0 <= W u v a1 <= eps / 4).
    { intros u v Huv H1 H2. destruct (P u v (eps / 4) Huv) as [A1 A2].
      - intros z Hz. apply Rle_trans with (Phi y); [|lra]. apply (proj1 (Phi_le _ _)). assert (b * z <= Rabs b * K); [|lra]. apply Rle_trans with (Rabs (b * z)); [apply Rle_abs|]. rewrite Rabs_mult. apply Rmult_le_compat_l; [apply Rabs_pos|]. apply Rabs_le. lra.
      - split; [exact A1|]. apply Rle_trans with (1 := A2). rewrite <- (Rmult_1_r (eps / 4)) at 2. apply Rmult_le_compat_l; [lra|]. pose proof (Phi_bound u). pose proof (Phi_bound v). lra. }
    assert (PL : forall u v, u <= v -> v <= - K -> 0 <= W u v a1 <= eps / 4).
    { intros u v Huv H1. destruct (P1 u v Huv). apply Phi_le in H1. pose proof (Phi_bound u). lra. }
    assert (PR : forall u v, u <= v -> K <= u -> 0 <= W u v a1 <= eps / 4).
    { intros u v Huv H1. destruct (P1 u v Huv). apply Phi_le in H1. pose proof (Phi_opp K). pose proof (Phi_bound v). lra. }
    assert (CH : forall u w v, W u w a1 + W w v a1 = W u v a1) by (intros u w v; exact (RInt_Chasles (V := R_CompleteNormedModule) _ u w v (W_ex a1 u w) (W_ex a1 w v))).
    destruct (Rle_or_lt m (- K)); [pose proof (PL l m Hl H); lra|].
    destruct (Rle_or_lt K l); [pose proof (PR l m Hl H0); lra|].
    set (u := Rmax l (- K)). set (v := Rmin m K). assert (l <= u) by apply Rmax_l. assert (- K <= u) by apply Rmax_r. assert (v <= m) by apply Rmin_l. assert (v <= K) by apply Rmin_r.
    assert (u <= v) by (unfold u, v, Rmax, Rmin; destruct (Rle_dec l (- K)), (Rle_dec m K); lra).
    rewrite <- (CH l u m), <- (CH u v m). pose proof (PM u v H5 H2 H4).
    assert (L1 : 0 <= W l u a1 <= eps / 4). { destruct (Rle_dec l (- K)) as [D|D]; [apply PL; [exact H1|unfold u; rewrite Rmax_right; lra]|]. assert (u = l) as -> by (unfold u; rewrite Rmax_left; lra). replace (W l l a1) with 0; [lra|]. unfold W. rewrite RInt_point. reflexivity. }
    assert (L2 : 0 <= W v m a1 <= eps / 4). { destruct (Rle_dec K m) as [D|D]; [apply PR; [exact H3|unfold v; rewrite Rmin_right; lra]|]. assert (v = m) as -> by (unfold v; rewrite Rmin_left; lra). replace (W m m a1) with 0; [lra|]. unfold W. rewrite RInt_point. reflexivity. }
    lra.
  Qed.

  Lemma conv a : expectN (fun x => Phi (a + b * x)) (Phi (a / c)).
  Proof.
    pose proof c_pos as Hc. unfold expectN. apply (filterlimi_lim_ext_loc (fun lm => W (fst lm) (snd lm) a)).
    - apply filter_forall. intros [l m]. cbn [fst snd]. apply (RInt_correct (V := R_CompleteNormedModule)), W_ex.
    - apply filterlim_locally. intros [eps He]. cbn [pos].
      destruct (W_small (eps / 4) ltac:(lra)) as (a0 & HW). destruct (Phi_below (eps / 4) ltac:(lra)) as (y & Hy).
      set (a1 := Rmin a (Rmin a0 (c * y))).
      assert (A1 : a1 <= a) by apply Rmin_l. assert (A2 : a1 <= a0) by (unfold a1; pose proof (Rmin_r a (Rmin a0 (c * y))); pose proof (Rmin_l a0 (c * y)); lra).
      assert (A3 : a1 <= c * y) by (unfold a1; pose proof (Rmin_r a (Rmin a0 (c * y))); pose proof (Rmin_r a0 (c * y)); lra).
      assert (H1 : Phi (a1 / c) <= eps / 4). { apply Rle_trans with (Phi y); [|lra]. apply (proj1 (Phi_le _ _)). apply (Rmult_le_reg_l c); [exact Hc|]. replace (c * (a1 / c)) with a1 by (field; lra). exact A3. }
      destruct (Phi_exceeds (1 - eps / 8) ltac:(lra)) as (X & HX).
      set (T := Rabs b / c * Rmax (Rabs a1) (Rabs a)).
      assert (HT : forall t, a1 <= t <= a -> Rabs (b * t / c) <= T).
      { intros t Ht. unfold T. unfold Rdiv. rewrite !Rabs_mult, (Rabs_right (/ c)) by (apply Rle_ge, Rlt_le, Rinv_0_lt_compat; exact Hc).
        replace (Rabs b * Rabs t * / c) with (Rabs b * / c * Rabs t) by ring. apply Rmult_le_compat_l; [apply Rmult_le_pos; [apply Rabs_pos|apply Rlt_le, Rinv_0_lt_compat; exact Hc]|].
        unfold Rmax, Rabs. destruct (Rle_dec _ _); repeat destruct (Rcase_abs _); unfold Rabs in *; repeat destruct (Rcase_abs _); lra. }
      exists (fun l => l < Rmin 0 (- (X + T) / c)) (fun m => Rmax 0 ((X + T) / c) < m).
      { exists (Rmin 0 (- (X + T) / c)). auto. } { exists (Rmax 0 ((X + T) / c)). auto. }
      intros l m Hl Hm. cbn [fst snd].
      assert (L1 : l < 0) by (pose proof (Rmin_l 0 (- (X + T) / c)); lra). assert (L2 : c * l < - (X + T)). { assert (Q : l < - (X + T) / c) by (pose proof (Rmin_r 0 (- (X + T) / c)); lra). apply (Rmult_lt_compat_l c) in Q; [|exact Hc]. replace (c * (- (X + T) / c)) with (- (X + T)) in Q by (field; lra). exact Q. }
      assert (M1 : 0 < m) by (pose proof (Rmax_l 0 ((X + T) / c)); lra). assert (M2 : X + T < c * m). { assert (Q : (X + T) / c < m) by (pose proof (Rmax_r 0 ((X + T) / c)); lra). apply (Rmult_lt_compat_l c) in Q; [|exact Hc]. replace (c * ((X + T) / c)) with (X + T) in Q by (field; lra). exact Q. }
      assert (G : forall t, a1 <= t <= a -> 1 - eps / 4 <= gap l m t).
      { intros t Ht. specialize (HT t Ht). apply Rabs_le_between in HT. unfold gap. assert (Q1 : Phi X <= Phi (c * m + b * t / c)) by (apply (proj1 (Phi_le _ _)); lra). assert (Q2 : Phi (c * l + b * t / c) <= Phi (- X)) by (apply (proj1 (Phi_le _ _)); lra). rewrite Phi_opp in Q2. lra. }
      pose proof (W_bounds l m a1 a (eps / 4) A1 ltac:(lra) G) as [B1 B2]. specialize (HW a1 l m A2 ltac:(lra)).
      pose proof (Phi_bound (a / c)). pose proof (Phi_bound (a1 / c)).
      assert (D : 0 <= eps / 4 * (1 - (Phi (a / c) - Phi (a1 / c)))) by (apply Rmult_le_pos; lra).
      change (Rabs (W l m a - Phi (a / c)) < eps). apply Rabs_def1; lra.
  Qed.
End Conv.

(** ** half spaces *)
Lemma eN_step (f : R -> R) x0 A B : (forall x, x < x0 -> f x = A) -> (forall x, x0 < x -> f x = B) -> expectN f (A * Phi x0 + B * (1 - Phi x0)).
Proof.
  intros HA HB.
  assert (E : expectN (fun x => B + (A - B) * (if Rltb x x0 then 1 else 0)) (B + (A - B) * Phi x0)) by (apply (eN_plus (fun _ => B)); [apply eN_const|apply eN_scal, eN_below]).
  replace (A * Phi x0 + B * (1 - Phi x0)) with (B + (A - B) * Phi x0) by ring.
  assert (Z : expectN (fun x => f x - (B + (A - B) * (if Rltb x x0 then 1 else 0))) 0).
  { apply (filterlimi_lim_ext_loc (fun _ => 0)); [|apply filterlim_const].
    apply (Filter_prod _ _ _ (fun a => a < x0) (fun b => x0 < b)); [exists x0; auto|exists x0; auto|]. intros a b Ha Hb. cbn [fst snd].
    assert (Q : plus (scal (x0 - a) 0) (scal (b - x0) 0) = 0) by (unfold plus, scal; cbn; unfold mult; cbn; ring).
    refine (eq_ind _ (fun v => is_RInt _ a b v) _ _ Q). apply (is_RInt_Chasles (V := R_NormedModule) _ a x0 b).
    - apply (is_RInt_ext (V := R_NormedModule) (fun _ => 0)); [|apply (is_RInt_const (V := R_NormedModule) a x0 0)]. rewrite Rmin_left, Rmax_right by lra. intros x Hx. change (0 = (f x - (B + (A - B) * (if Rltb x x0 then 1 else 0))) * phi x).
      rewrite HA by lra. destruct (Rltb x x0) eqn:E0; [ring|apply Rltb_false in E0; lra].
    - apply (is_RInt_ext (V := R_NormedModule) (fun _ => 0)); [|apply (is_RInt_const (V := R_NormedModule) x0 b 0)]. rewrite Rmin_left, Rmax_right by lra. intros x Hx. change (0 = (f x - (B + (A - B) * (if Rltb x x0 then 1 else 0))) * phi x).
      rewrite HB by lra. destruct (Rltb x x0) eqn:E0; [apply Rltb_spec in E0; lra|ring]. }
  pose proof (eN_plus _ _ _ _ Z E) as S. rewrite Rplus_0_l in S. refine (eN_ext _ _ _ _ S). intros x. cbn beta. ring.
Qed.

(** the probability that alpha.u exceeds beta *)
Lemma half_space : forall n alpha beta, 0 < norm n alpha -> is_mean n (fun u => if Rltb beta (dot n alpha u) then 1 else 0) (Phi (- (beta / norm n alpha))).
Proof.
  induction n as [|n IH]; intros alpha beta Hn; [unfold norm, dot in Hn; cbn in Hn; rewrite sqrt_0 in Hn; lra|].
  set (a' := fun i => alpha (S i)). set (r := norm n a'). set (a0 := alpha 0%nat).
  assert (ED : forall x u, dot (S n) alpha (scons x u) = a0 * x + dot n a' u) by (intros x u; unfold dot; rewrite fsum_shift; reflexivity).
  assert (EN : dot (S n) alpha alpha = a0 * a0 + dot n a' a') by (unfold dot; rewrite fsum_shift; reflexivity).
  assert (Rp : 0 <= r) by apply sqrt_pos. assert (RS : r * r = dot n a' a') by (apply sqrt_sqrt; unfold dot; apply fsum_nonneg; intros; nra).
  assert (NE : norm (S n) alpha = sqrt (a0 * a0 + r * r)) by (unfold norm; rewrite EN, RS; reflexivity).
  destruct (Req_dec r 0) as [R0|R0].
  - assert (Z : forall i, (i < n)%nat -> a' i = 0).
    { intros i Hi. assert (Q : a' i * a' i = 0); [|nra]. apply (fsum_pos_eq0 n (fun i => a' i * a' i)); [intros; nra| |exact Hi]. unfold dot in RS. rewrite <- RS, R0. ring. }
    assert (DZ : forall u, dot n a' u = 0) by (intros u; unfold dot; apply fsum_zero; intros i Hi; rewrite (Z i Hi); ring).
    rewrite R0, Rmult_0_l, Rplus_0_r in NE. change (a0 * a0) with (Rsqr a0) in NE. rewrite sqrt_Rsqr_abs in NE. rewrite NE in *.
    exists (fun x => if Rltb beta (a0 * x) then 1 else 0). split; [intros x; refine (mean_ext n _ _ _ _ (mean_const n (if Rltb beta (a0 * x) then 1 else 0))); intros s; rewrite ED, DZ, Rplus_0_r; reflexivity|].
    assert (A0 : a0 <> 0) by (intros Q; rewrite Q, Rabs_R0 in Hn; lra).
    destruct (Rlt_or_le 0 a0) as [P|P].
    + rewrite Rabs_right by lra. rewrite Phi_opp. replace (1 - Phi (beta / a0)) with (0 * Phi (beta / a0) + 1 * (1 - Phi (beta / a0))) by ring. apply eN_step; intros x Hx.
      * destruct (Rltb beta (a0 * x)) eqn:E; [|reflexivity]. apply Rltb_spec in E. exfalso. apply (Rmult_lt_compat_l a0) in Hx; [|exact P]. replace (a0 * (beta / a0)) with beta in Hx by (field; lra). lra.
      * destruct (Rltb beta (a0 * x)) eqn:E; [reflexivity|]. apply Rltb_false in E. exfalso. apply (Rmult_lt_compat_l a0) in Hx; [|exact P]. replace (a0 * (beta / a0)) with beta in Hx by (field; lra). lra.
    + rewrite Rabs_left by lra. replace (- (beta / - a0)) with (beta / a0) by (field; lra). replace (Phi (beta / a0)) with (1 * Phi (beta / a0) + 0 * (1 - Phi (beta / a0))) at 1 by ring. apply eN_step; intros x Hx.
      * destruct (Rltb beta (a0 * x)) eqn:E; [reflexivity|]. apply Rltb_false in E. exfalso. apply (Rmult_lt_compat_l (- a0)) in Hx; [|lra]. replace (- a0 * (beta / a0)) with (- beta) in Hx by (field; lra). lra.
      * destruct (Rltb beta (a0 * x)) eqn:E; [|reflexivity]. apply Rltb_spec in E. exfalso. apply (Rmult_lt_compat_l (- a0)) in Hx; [|lra]. replace (- a0 * (beta / a0)) with (- beta) in Hx by (field; lra). lra.
  - assert (RP : 0 < r) by lra. exists (fun x => Phi (- ((beta - a0 * x) / r))). split.
    + intros x. refine (mean_ext n _ _ _ _ (IH a' (beta - a0 * x) RP)). intros u. rewrite ED. destruct (Rltb (beta - a0 * x) (dot n a' u)) eqn:E1, (Rltb beta (a0 * x + dot n a' u)) eqn:E2; try reflexivity; exfalso.
      * apply Rltb_spec in E1. apply Rltb_false in E2. lra.
      * apply Rltb_false in E1. apply Rltb_spec in E2. lra.
    + assert (S1 : 0 < sqrt (1 + a0 / r * (a0 / r))) by (apply sqrt_lt_R0; nra).
      assert (Q : - (beta / norm (S n) alpha) = - beta / r / sqrt (1 + a0 / r * (a0 / r))).
      { rewrite NE. replace (a0 * a0 + r * r) with (r * r * (1 + a0 / r * (a0 / r))) by (field; lra). rewrite sqrt_mult_alt by nra. rewrite sqrt_square by lra. field. lra. }
      rewrite Q. refine (eN_ext _ _ _ _ (conv (a0 / r) (- beta / r))). intros x. f_equal. field. lra.
Qed.
