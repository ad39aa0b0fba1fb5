(** The tail of the normal distribution: its hazard rate phi(x) / Phi(-x) is increasing and
    1-Lipschitz, and the exponential bounds that follow.  No pystra code here except
    [psi] (Sorm.v). *)
From Coquelicot Require Import Coquelicot.
From Verif Require Import Base Gauss GaussProofs Sorm SormProofs.
From Coq Require Import Lra Lia.
Open Scope R_scope.

Lemma phi_derive x : is_derive phi x (- x * phi x).
Proof. unfold phi. assert (S0 : 0 < sqrt (2 * PI)) by (apply sqrt_lt_R0; pose proof PI_RGT_0; lra). auto_derive; [lra|]. field. lra. Qed.
Definition Q (x : R) : R := Phi (- x).
Lemma Q_derive x : is_derive Q x (- phi x).
Proof.
  unfold Q. pose proof (is_derive_comp Phi (fun x => - x) x (phi (- x)) (-1) (Phi_derive (- x))) as H.
  rewrite <- (phi_opp x). replace (- phi (- x)) with (scal (-1) (phi (- x))) by (unfold scal; cbn; unfold mult; cbn; ring). apply H. auto_derive; [exact I|ring].
Qed.
Lemma Q_pos x : 0 < Q x. Proof. apply Phi_bound. Qed.

(** decay *)
Definition ee (x : R) := exp (- (x * x / 2)).
Lemma ee_sq x : x * x * ee x <= 2.
Proof.
  unfold ee. rewrite exp_Ropp. pose proof (exp_ineq1_le (x * x / 2)) as E. pose proof (exp_pos (x * x / 2)) as P.
  apply (Rmult_le_reg_r (exp (x * x / 2))); [exact P|]. rewrite Rmult_assoc, Rinv_l by lra. lra.
Qed.
Lemma ee_pos x : 0 < ee x. Proof. apply exp_pos. Qed.
Lemma phi_ee x : phi x <= ee x.
Proof.
  unfold phi, ee. replace (- (1 / 2) * (x * x)) with (- (x * x / 2)) by field. pose proof (exp_pos (- (x * x / 2))) as P.
  assert (S0 : 1 <= sqrt (2 * PI)). { rewrite <- sqrt_1. apply sqrt_le_1_alt. pose proof PI2_3_2. lra. }
  unfold Rdiv. rewrite <- (Rmult_1_r (exp _)) at 2. apply Rmult_le_compat_l; [lra|]. rewrite <- Rinv_1. apply Rinv_le_contravar; lra.
Qed.
Lemma Q_ee x : 0 < x -> Q x <= ee x.
Proof. intros H. unfold Q. rewrite Phi_opp. apply Phi_tail, H. Qed.
Lemma ee_1 x : 1 <= x -> ee x <= 2 / x /\ x * ee x <= 2 / x /\ ee x <= 1.
Proof.
  intros H. pose proof (ee_sq x) as S. pose proof (ee_pos x) as P. repeat split.
  - apply (Rmult_le_reg_r x); [lra|]. replace (2 / x * x) with 2 by (field; lra). nra.
  - apply (Rmult_le_reg_r x); [lra|]. replace (2 / x * x) with 2 by (field; lra). nra.
  - unfold ee. rewrite <- exp_0. destruct (Rle_lt_or_eq_dec (- (x * x / 2)) 0 ltac:(nra)) as [L|L]; [apply Rlt_le, exp_increasing, L|rewrite L; lra].
Qed.

(** mean value *)
Lemma mono_dec (f df : R -> R) a b : (forall x, is_derive f x (df x)) -> (forall x, a <= x <= b -> df x <= 0) -> a <= b -> f b <= f a.
Proof.
  intros D S L. destruct (MVT_gen f a b df) as (c & Hc & E); rewrite ?(Rmin_left a b L), ?(Rmax_right a b L) in *.
  - intros x _. apply D.
  - intros x _. apply continuity_pt_filterlim, (ex_derive_continuous f). eexists. apply D.
  - pose proof (S c Hc). nra.
Qed.
Lemma dec_nonneg (f df : R -> R) C : (forall x, is_derive f x (df x)) -> (forall x, df x <= 0) -> (forall x, 1 <= x -> Rabs (f x) <= C / x) -> forall x, 0 <= f x.
Proof.
  intros D S B a. destruct (Rle_or_lt 0 (f a)) as [L|L]; [exact L|exfalso].
  assert (C0 : 0 <= C). { pose proof (B 1 ltac:(lra)) as Q1. pose proof (Rabs_pos (f 1)). unfold Rdiv in Q1. rewrite Rinv_1, Rmult_1_r in Q1. lra. }
  set (x := Rmax 1 (Rmax a ((C + 1) / - f a))).
  assert (X1 : 1 <= x) by apply Rmax_l. assert (X2 : a <= x) by (unfold x; eapply Rle_trans; [apply Rmax_l|apply Rmax_r]).
  assert (X3 : (C + 1) / - f a <= x) by (unfold x; eapply Rle_trans; [apply Rmax_r|apply Rmax_r]).
  pose proof (mono_dec f df a x D (fun y _ => S y) X2) as M. specialize (B x X1). rewrite Rabs_left in B by lra.
  apply (Rmult_le_compat_r (- f a)) in X3; [|lra]. replace ((C + 1) / - f a * - f a) with (C + 1) in X3 by (field; lra).
  assert (B2 : - f a * x <= C). { apply (Rmult_le_compat_r x) in B; [|lra]. replace (C / x * x) with C in B by (field; lra). nra. }
  lra.
Qed.
Lemma dec_pos (f df : R -> R) C : (forall x, is_derive f x (df x)) -> (forall x, df x < 0) -> (forall x, 1 <= x -> Rabs (f x) <= C / x) -> forall x, 0 < f x.
Proof.
  intros D S B a. pose proof (dec_nonneg f df C D (fun x => Rlt_le _ _ (S x)) B (a + 1)) as N.
  destruct (MVT_gen f a (a + 1) df) as (c & Hc & E).
  - intros x _. apply D.
  - intros x _. apply continuity_pt_filterlim, (ex_derive_continuous f). eexists. apply D.
  - pose proof (S c). lra.
Qed.

Lemma abs_le2 a b c : 0 <= a -> 0 <= b -> a <= c -> b <= c -> Rabs (a - b) <= c.
Proof. intros. apply Rabs_le. lra. Qed.

(** Mills' ratio *)
Lemma mills x : x * Q x < phi x.
Proof.
  cut (0 < phi x - x * Q x); [lra|].
  apply (dec_pos (fun x => phi x - x * Q x) (fun x => - Q x) 2).
  - intros y. pose proof (phi_derive y) as A. pose proof (Q_derive y) as B.
    assert (C : is_derive (fun x => x * Q x) y (1 * Q y + y * - phi y)) by (apply (is_derive_mult (fun x => x) Q y 1 (- phi y)); [apply (is_derive_id y)|exact B|intros; apply Rmult_comm]).
    pose proof (is_derive_minus _ _ _ _ _ A C) as E. refine (eq_ind _ (fun d => is_derive (fun x => phi x - x * Q x) y d) E _ _). unfold minus, plus, opp; cbn. ring.
  - intros y. pose proof (Q_pos y). lra.
  - intros y Hy. pose proof (phi_ee y). pose proof (phi_pos y). pose proof (Q_ee y ltac:(lra)). pose proof (Q_pos y). destruct (ee_1 y Hy) as (E1 & E2 & _).
    apply abs_le2; [lra|nra|lra|nra].
Qed.
Lemma mills_low x : x * phi x < (1 + x * x) * Q x.
Proof.
  assert (S : 0 < 1 + x * x) by nra. cut (0 < Q x - x * phi x / (1 + x * x)).
  { intros H. apply (Rmult_lt_compat_r (1 + x * x)) in H; [|exact S]. replace ((Q x - x * phi x / (1 + x * x)) * (1 + x * x)) with ((1 + x * x) * Q x - x * phi x) in H by (field; lra). lra. }
  apply (dec_pos (fun x => Q x - x * phi x / (1 + x * x)) (fun x => - (2 * phi x / ((1 + x * x) * (1 + x * x)))) 4).
  - intros y. assert (Y : 0 < 1 + y * y) by nra. pose proof (phi_derive y) as A. pose proof (Q_derive y) as B.
    assert (C : is_derive (fun x => x / (1 + x * x)) y ((1 - y * y) / ((1 + y * y) * (1 + y * y)))) by (auto_derive; [nra|field; nra]).
    assert (D : is_derive (fun x => x / (1 + x * x) * phi x) y ((1 - y * y) / ((1 + y * y) * (1 + y * y)) * phi y + y / (1 + y * y) * (- y * phi y))) by (apply (is_derive_mult _ phi y _ _ C A); intros; apply Rmult_comm).
    pose proof (is_derive_minus _ _ _ _ _ B D) as E. apply (is_derive_ext (fun x => Q x - x / (1 + x * x) * phi x)); [intros t; change (Q t - t / (1 + t * t) * phi t = Q t - t * phi t / (1 + t * t)); unfold Rdiv; ring|].
    refine (eq_ind _ (fun d => is_derive (fun x => Q x - x / (1 + x * x) * phi x) y d) E _ _). unfold minus, plus, opp; cbn. field. lra.
  - intros y. pose proof (phi_pos y). assert (0 < 2 * phi y / ((1 + y * y) * (1 + y * y))); [|lra]. apply Rdiv_lt_0_compat; [lra|]. nra.
  - intros y Hy. pose proof (phi_ee y) as P1. pose proof (phi_pos y) as P2. pose proof (Q_ee y ltac:(lra)) as P3. pose proof (Q_pos y) as P4. destruct (ee_1 y Hy) as (E1 & E2 & _).
    assert (T : 0 <= 2 / y) by (apply Rlt_le, Rdiv_lt_0_compat; lra).
    assert (Z : 0 <= y * phi y / (1 + y * y) <= 2 / y).
    { split; [apply Rlt_le, Rdiv_lt_0_compat; nra|]. apply Rle_trans with (y * phi y); [|nra]. apply (Rmult_le_reg_r (1 + y * y)); [nra|]. replace (y * phi y / (1 + y * y) * (1 + y * y)) with (y * phi y) by (field; nra). assert (0 <= y * phi y) by nra. nra. }
    replace (4 / y) with (2 / y + 2 / y) by (field; lra). apply abs_le2; lra.
Qed.
Lemma hazard_low x : phi x * phi x <= Q x * Q x + x * phi x * Q x.
Proof.
  cut (0 <= Q x * Q x + x * phi x * Q x - phi x * phi x); [lra|].
  apply (dec_nonneg (fun x => Q x * Q x + x * phi x * Q x - phi x * phi x) (fun x => phi x * (x * phi x - (1 + x * x) * Q x)) 6).
  - intros y. pose proof (phi_derive y) as A. pose proof (Q_derive y) as B.
    assert (QQ : is_derive (fun x => Q x * Q x) y (- phi y * Q y + Q y * - phi y)) by (apply (is_derive_mult Q Q y _ _ B B); intros; apply Rmult_comm).
    assert (PP : is_derive (fun x => phi x * phi x) y (- y * phi y * phi y + phi y * (- y * phi y))) by (apply (is_derive_mult phi phi y _ _ A A); intros; apply Rmult_comm).
    assert (XP : is_derive (fun x => x * phi x) y (1 * phi y + y * (- y * phi y))) by (apply (is_derive_mult (fun x => x) phi y _ _ (is_derive_id y) A); intros; apply Rmult_comm).
    assert (XPQ : is_derive (fun x => x * phi x * Q x) y ((1 * phi y + y * (- y * phi y)) * Q y + y * phi y * - phi y)) by (apply (is_derive_mult _ Q y _ _ XP B); intros; apply Rmult_comm).
    pose proof (is_derive_minus _ _ _ _ _ (is_derive_plus _ _ _ _ _ QQ XPQ) PP) as E.
    refine (eq_ind _ (fun d => is_derive (fun x => Q x * Q x + x * phi x * Q x - phi x * phi x) y d) E _ _). unfold minus, plus, opp; cbn. ring.
  - intros y. pose proof (mills_low y). pose proof (phi_pos y). nra.
  - intros y Hy. pose proof (phi_ee y) as P1. pose proof (phi_pos y) as P2. pose proof (Q_ee y ltac:(lra)) as P3. pose proof (Q_pos y) as P4. destruct (ee_1 y Hy) as (E1 & E2 & E3).
    assert (T : 0 <= 2 / y) by (apply Rlt_le, Rdiv_lt_0_compat; lra). set (t := 2 / y) in *.
    assert (Z1 : 0 <= Q y * Q y <= t) by nra. assert (Z2 : 0 <= phi y * phi y <= t) by nra. assert (Z3 : 0 <= y * phi y <= t) by nra. assert (Z4 : 0 <= y * phi y * Q y <= t) by nra.
    replace (6 / y) with (3 * t) by (unfold t; field; lra). apply abs_le2; lra.
Qed.

(** the hazard rate *)
Lemma psi_Q x : psi x = phi x / Q x. Proof. reflexivity. Qed.
Lemma psi_gt x : x < psi x.
Proof. rewrite psi_Q. pose proof (Q_pos x) as P. apply (Rmult_lt_reg_r (Q x)); [exact P|]. replace (phi x / Q x * Q x) with (phi x) by (field; lra). apply mills. Qed.
Lemma psi_derive x : is_derive psi x (psi x * (psi x - x)).
Proof.
  pose proof (Q_pos x) as P. pose proof (is_derive_div phi Q x _ _ (phi_derive x) (Q_derive x) ltac:(lra)) as E.
  refine (eq_ind _ (fun d => is_derive psi x d) E _ _). rewrite psi_Q. cbn. field. lra.
Qed.
Lemma psi_rate x : 0 <= psi x * (psi x - x) <= 1.
Proof.
  pose proof (psi_pos x) as P. pose proof (psi_gt x) as G. split; [nra|]. pose proof (hazard_low x) as H. pose proof (Q_pos x) as PQ. rewrite psi_Q.
  apply (Rmult_le_reg_r (Q x * Q x)); [nra|]. replace (phi x / Q x * (phi x / Q x - x) * (Q x * Q x)) with (phi x * phi x - x * phi x * Q x) by (field; lra). lra.
Qed.
Lemma psi_lip x y : x <= y -> psi x <= psi y <= psi x + (y - x).
Proof.
  intros L. split.
  - pose proof (mono_dec (fun z => - psi z) (fun z => - (psi z * (psi z - z))) x y) as M. cbn beta in M.
    assert (- psi y <= - psi x); [|lra]. apply M; [intros z; apply (is_derive_opp psi), psi_derive|intros z _; pose proof (psi_rate z); lra|exact L].
  - pose proof (mono_dec (fun z => psi z - z) (fun z => psi z * (psi z - z) - 1) x y) as M. cbn beta in M.
    assert (psi y - y <= psi x - x); [|lra]. apply M; [intros z; apply (is_derive_minus psi (fun z => z)); [apply psi_derive|apply (is_derive_id z)]|intros z _; pose proof (psi_rate z); lra|exact L].
Qed.
Lemma psi_upper x : 0 < x -> psi x < x + / x.
Proof.
  intros H. pose proof (mills_low x) as M. pose proof (Q_pos x) as P. rewrite psi_Q. apply (Rmult_lt_reg_r (x * Q x)); [nra|].
  replace (phi x / Q x * (x * Q x)) with (x * phi x) by (field; lra). replace ((x + / x) * (x * Q x)) with ((1 + x * x) * Q x) by (field; lra). exact M.
Qed.

(** exponential bounds of the tail, to both sides of beta *)
Lemma valley (f df : R -> R) : (forall x, is_derive f x (df x)) -> (forall x, 0 <= x -> 0 <= df x) -> (forall x, x <= 0 -> df x <= 0) -> forall h, f 0 <= f h.
Proof.
  intros D P N h. destruct (Rle_or_lt 0 h) as [L|L].
  - pose proof (mono_dec (fun x => - f x) (fun x => - df x) 0 h) as M. cbn beta in M. assert (- f h <= - f 0); [|lra].
    apply M; [intros; apply (is_derive_opp f), D|intros x Hx; pose proof (P x ltac:(lra)); lra|exact L].
  - apply (mono_dec f df h 0 D); [intros x Hx; apply N; lra|lra].
Qed.
Lemma lnQ_derive b h : is_derive (fun h => ln (Q (b + h))) h (- psi (b + h)).
Proof.
  pose proof (Q_pos (b + h)) as P.
  assert (A : is_derive (fun h => Q (b + h)) h (- phi (b + h))).
  { pose proof (is_derive_comp Q (fun h => b + h) h (- phi (b + h)) 1 (Q_derive (b + h))) as H. replace (- phi (b + h)) with (scal 1 (- phi (b + h))) at 1 by (unfold scal; cbn; unfold mult; cbn; ring). apply H. auto_derive; [exact I|ring]. }
  pose proof (is_derive_comp ln (fun h => Q (b + h)) h (/ Q (b + h)) (- phi (b + h)) (is_derive_ln _ P) A) as E.
  refine (eq_ind _ (fun d => is_derive (fun h => ln (Q (b + h))) h d) E _ _). rewrite psi_Q. unfold scal; cbn; unfold mult; cbn. field. lra.
Qed.
Lemma exp_le a b : a <= b -> exp a <= exp b.
Proof. intros [L|L]; [apply Rlt_le, exp_increasing, L|rewrite L; lra]. Qed.

Lemma tail_upper b h : Q (b + h) <= Q b * exp (- psi b * h).
Proof.
  assert (V : forall h, - ln (Q (b + 0)) - psi b * 0 <= - ln (Q (b + h)) - psi b * h).
  { apply (valley (fun h => - ln (Q (b + h)) - psi b * h) (fun h => psi (b + h) - psi b)).
    - intros x. pose proof (is_derive_opp _ _ _ (lnQ_derive b x)) as A. assert (B : is_derive (fun h => psi b * h) x (psi b)) by (auto_derive; [exact I|ring]).
      pose proof (is_derive_minus _ _ _ _ _ A B) as E. refine (eq_ind _ (fun d => is_derive (fun h => - ln (Q (b + h)) - psi b * h) x d) E _ _). unfold minus, plus, opp; cbn. ring.
    - intros x Hx. pose proof (psi_lip b (b + x) ltac:(lra)). lra.
    - intros x Hx. pose proof (psi_lip (b + x) b ltac:(lra)). lra. }
  specialize (V h). rewrite Rplus_0_r in V. rewrite <- (exp_ln (Q (b + h))) by apply Q_pos. rewrite <- (exp_ln (Q b)) at 1 by apply Q_pos. rewrite <- exp_plus. apply exp_le. lra.
Qed.
Lemma tail_lower b h : Q b * exp (- psi b * h) * (1 - h * h / 2) <= Q (b + h).
Proof.
  assert (V : forall h, ln (Q (b + 0)) + (psi b * 0 + 0 * 0 / 2) <= ln (Q (b + h)) + (psi b * h + h * h / 2)).
  { apply (valley (fun h => ln (Q (b + h)) + (psi b * h + h * h / 2)) (fun h => - psi (b + h) + psi b + h)).
    - intros x. pose proof (lnQ_derive b x) as A. assert (B : is_derive (fun h => psi b * h + h * h / 2) x (psi b + x)) by (auto_derive; [exact I|field]).
      pose proof (is_derive_plus _ _ _ _ _ A B) as E. refine (eq_ind _ (fun d => is_derive (fun h => ln (Q (b + h)) + (psi b * h + h * h / 2)) x d) E _ _). unfold plus; cbn. ring.
    - intros x Hx. pose proof (psi_lip b (b + x) ltac:(lra)). lra.
    - intros x Hx. pose proof (psi_lip (b + x) b ltac:(lra)). lra. }
  specialize (V h). rewrite Rplus_0_r in V. apply Rle_trans with (Q b * exp (- psi b * h) * exp (- (h * h / 2))).
  - apply Rmult_le_compat_l; [apply Rmult_le_pos; [apply Rlt_le, Q_pos|apply Rlt_le, exp_pos]|]. pose proof (exp_ineq1_le (- (h * h / 2))). lra.
  - rewrite <- (exp_ln (Q (b + h))) by apply Q_pos. rewrite <- (exp_ln (Q b)) at 1 by apply Q_pos. rewrite <- !exp_plus. apply exp_le. lra.
Qed.
