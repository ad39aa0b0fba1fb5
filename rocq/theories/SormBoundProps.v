(** C115: Breitung's formulas, as SORM evaluates them, and the probability content of the
    paraboloid they stand for. *)
From Coquelicot Require Import Coquelicot.
From Verif Require Import Base Ext Gauss GaussProofs MomSpec McSpec McBiasSpec McBiasProofs McBiasLinProps FormBoundSpec FormBoundProofs Sorm SormProofs TailProofs SormBoundSpec SormBoundProofs.
From Coq Require Import Lra Lia.
Open Scope R_scope.

Theorem C115_probability : forall beta km kp, length km = length kp ->
  exists p, beyond beta km kp p /\ 0 <= p <= 1 /\ (forall q, beyond beta km kp q -> q = p).
Proof.
  intros beta km kp L. destruct (beyond_fun km kp L) as (P & P1 & P2 & _). exists (P beta). split; [apply P1|]. split.
  - split; [|pose proof (P2 beta) as A; apply Rabs_le_between in A; lra].
    apply (mean_le (S (length kp)) (fun _ => 0) (ind beta km kp)); [|apply mean_const|apply beyond_mean, P1]. intros s. unfold ind. destruct (Rltb _ 0); lra.
  - intros q Hq. apply (beyond_unique beta km kp); [exact Hq|apply P1].
Qed.
Print Assumptions C115_probability.

Theorem C115_point_fit : forall beta km kp p,
  let psi := phi beta / Phi (- beta) in
  length km = length kp -> Forall (fun k => -1 / psi < k) km -> Forall (fun k => -1 / psi < k) kp ->
  beyond beta km kp p ->
  exists q, sr_pf (pf_breitung_m_pf beta km kp) = Fin q /\ sr_msg (pf_breitung_m_pf beta km kp) = false /\ p <= q.
Proof.
  intros beta km kp p ps L HM HP HB. change ps with (psi beta) in *.
  assert (HM' : Forall (fun k => 0 < 1 + psi beta * k) km) by (eapply Forall_impl; [|exact HM]; intros k Hk; apply adm_iff; [apply psi_pos|exact Hk]).
  assert (HP' : Forall (fun k => 0 < 1 + psi beta * k) kp) by (eapply Forall_impl; [|exact HP]; intros k Hk; apply adm_iff; [apply psi_pos|exact Hk]).
  unfold pf_breitung_m_pf. rewrite breit_pf_ok by assumption. cbv zeta. cbn [sr_pf sr_msg]. eexists. split; [reflexivity|]. split; [reflexivity|].
  pose proof (beyond_mean _ _ _ _ HB) as M. assert (M' : is_mean (S (length kp)) (ind (beta + 0) km kp) p) by (rewrite Rplus_0_r; exact M).
  pose proof (upper beta km kp L HM' HP' 0 p M') as U. rewrite Rmult_0_r, exp_0, Rmult_1_r in U. exact U.
Qed.
Print Assumptions C115_point_fit.

Theorem C115_curve_fit : forall beta kappa p,
  let psi := phi beta / Phi (- beta) in
  let r := map (fun k => k / (1 + psi * k)) kappa in
  Forall (fun k => -1 / psi < k) kappa ->
  beyond beta kappa kappa p ->
  exists q, sr_pf (pf_breitung_m beta kappa) = Fin q /\ sr_msg (pf_breitung_m beta kappa) = false /\
    q * (1 - / 8 * (lsum r ^ 2 + 2 * lsum (map (fun t => t ^ 2) r))) <= p <= q.
Proof.
  intros beta kappa p ps r HK HB. unfold r. change ps with (psi beta) in *. pose proof (psi_pos beta) as PP.
  assert (HK' : Forall (fun k => 0 < 1 + psi beta * k) kappa) by (eapply Forall_impl; [|exact HK]; intros k Hk; apply adm_iff; assumption).
  unfold pf_breitung_m. rewrite breit_ok by assumption. cbv zeta. cbn [sr_pf sr_msg]. eexists. split; [reflexivity|]. split; [reflexivity|].
  pose proof (beyond_mean _ _ _ _ HB) as M. assert (M' : is_mean (S (length kappa)) (ind (beta + 0) kappa kappa) p) by (rewrite Rplus_0_r; exact M). split.
  - pose proof (lower beta kappa HK' 0 p M') as U. rewrite Rmult_0_r, exp_0, Rmult_1_r in U. destruct (mo_closed (psi beta) kappa) as [_ E2]. rewrite E2 in U.
    eapply Rle_trans; [|exact U]. apply Req_le. rewrite map_map. change (map (fun k => k / (1 + psi beta * k)) kappa) with (map (ratio (psi beta)) kappa). change (map (fun x => (x / (1 + psi beta * x)) ^ 2) kappa) with (map (fun k => ratio (psi beta) k ^ 2) kappa). unfold Q. field.
  - pose proof (upper beta kappa kappa eq_refl HK' HK' 0 p M') as U. rewrite Rmult_0_r, exp_0, Rmult_1_r, pfprod_same in U. exact U.
Qed.
Print Assumptions C115_curve_fit.

(** ** Breitung's own formula *)
Lemma ratio_bound c k : 0 < c -> 0 <= k -> 0 <= k / (1 + c * k) <= / c.
Proof.
  intros Hc Hk. assert (D : 0 < 1 + c * k) by nra. split; [apply Rmult_le_pos; [exact Hk|apply Rlt_le, Rinv_0_lt_compat, D]|].
  apply (Rmult_le_reg_r (1 + c * k)); [exact D|]. replace (k / (1 + c * k) * (1 + c * k)) with k by (field; lra). replace (/ c * (1 + c * k)) with (/ c + k) by (field; lra). pose proof (Rinv_0_lt_compat c Hc). lra.
Qed.
Lemma sums_bound c kappa : 0 < c -> Forall (fun k => 0 <= k) kappa -> let r := map (fun k => k / (1 + c * k)) kappa in
  0 <= lsum r <= INR (length kappa) / c /\ 0 <= lsum (map (fun t => t ^ 2) r) <= INR (length kappa) / c ^ 2.
Proof.
  intros Hc H r. unfold r. induction H as [|k kappa Hk H IH].
  - cbn. unfold Rdiv. rewrite !Rmult_0_l. lra.
  - cbn [map lsum length]. rewrite S_INR. destruct (ratio_bound c k Hc Hk) as [B1 B2]. destruct IH as [I1 I2]. unfold Rdiv in *. rewrite Rmult_plus_distr_r, Rmult_1_l.
    rewrite (Rmult_plus_distr_r (INR (length kappa)) 1 (/ c ^ 2)), Rmult_1_l. set (t := k * / (1 + c * k)) in *.
    assert (T : t ^ 2 <= / c ^ 2). { replace (/ c ^ 2) with (/ c * / c) by (field; lra). nra. } assert (T0 : 0 <= t ^ 2) by nra. split; lra.
Qed.
Lemma sqrt_half t : 0 <= t < 2 -> sqrt (1 + t) * (1 - t / 2) <= 1.
Proof.
  intros H. assert (S1 : sqrt (1 + t) <= 1 + t / 2). { rewrite <- (sqrt_square (1 + t / 2)) by lra. apply sqrt_le_1_alt. nra. } pose proof (sqrt_pos (1 + t)). nra.
Qed.
(** c <= d <= c (1 + t): the two products *)
Lemma bprod_compare c d t kappa : 0 < c -> c <= d -> d <= c * (1 + t) -> 0 <= t < 2 -> Forall (fun k => 0 <= k) kappa ->
  bprod c kappa * (1 - INR (length kappa) * t / 2) <= bprod d kappa /\ bprod d kappa <= bprod c kappa /\ 0 <= bprod d kappa.
Proof.
  intros Hc L1 L2 Ht H. induction H as [|k kappa Hk H (I1 & I2 & I3)]; [unfold bprod; cbn; lra|].
  cbn [length]. rewrite S_INR. assert (Ec : bprod c (k :: kappa) = / sqrt (1 + c * k) * bprod c kappa) by reflexivity. assert (Ed : bprod d (k :: kappa) = / sqrt (1 + d * k) * bprod d kappa) by reflexivity. rewrite Ec, Ed.
  assert (K1 : 0 < 1 + c * k) by nra. assert (K2 : 1 + c * k <= 1 + d * k) by nra. assert (K3 : 1 + d * k <= (1 + t) * (1 + c * k)) by nra.
  set (sc := sqrt (1 + c * k)). set (sd := sqrt (1 + d * k)). assert (S1 : 0 < sc) by (apply sqrt_lt_R0; lra). assert (S2 : sc <= sd) by (apply sqrt_le_1_alt; lra).
  assert (S3 : sd <= sqrt (1 + t) * sc) by (unfold sc, sd; rewrite <- sqrt_mult by lra; apply sqrt_le_1_alt; lra).
  assert (V1 : 0 < / sd) by (apply Rinv_0_lt_compat; lra). assert (V2 : / sd <= / sc) by (apply Rinv_le_contravar; lra). pose proof (sqrt_half t Ht) as SH.
  assert (F : / sc * (1 - t / 2) <= / sd).
  { apply (Rmult_le_reg_r (sc * sd)); [nra|]. replace (/ sc * (1 - t / 2) * (sc * sd)) with (sd * (1 - t / 2)) by (field; lra). replace (/ sd * (sc * sd)) with sc by (field; lra).
    apply Rle_trans with (sqrt (1 + t) * sc * (1 - t / 2)); [apply Rmult_le_compat_r; lra|]. nra. }
  assert (BC : 0 <= bprod c kappa) by lra. set (n := INR (length kappa)) in *. assert (N0 : 0 <= n) by apply pos_INR.
  split; [|split].
  - apply Rle_trans with (/ sc * (1 - t / 2) * (bprod c kappa * (1 - n * t / 2))).
    + assert (Z : 0 <= / sc * bprod c kappa) by (apply Rmult_le_pos; lra). assert (ZZ : 0 <= t * (n * t)) by (apply Rmult_le_pos; [lra|apply Rmult_le_pos; lra]). nra.
    + apply Rle_trans with (/ sc * (1 - t / 2) * bprod d kappa); [apply Rmult_le_compat_l; [apply Rmult_le_pos; lra|exact I1]|apply Rmult_le_compat_r; assumption].
  - apply Rmult_le_compat; lra.
  - apply Rmult_le_pos; lra.
Qed.

Theorem C115_breitung : forall beta kappa p, 0 < beta -> Forall (fun k => 0 <= k) kappa -> beyond beta kappa kappa p ->
  exists q qm, sr_pf (pf_breitung beta kappa) = Fin q /\ sr_pf (pf_breitung_m beta kappa) = Fin qm /\ p <= qm <= q /\
    let m := INR (length kappa) in q * (1 - m * (m + 6) / (8 * beta ^ 2)) <= p.
Proof.
  intros beta kappa p Hb HK HB. set (c := psi beta). pose proof (psi_pos beta) as PP. pose proof (psi_gt beta) as PG. pose proof (psi_upper beta Hb) as PU. fold c in PP, PG, PU.
  assert (F1 : Forall (fun k => -1 / beta < k) kappa) by (eapply Forall_impl; [|exact HK]; intros k Hk; cbn beta in Hk; apply adm_iff; [exact Hb|nra]).
  assert (F2 : Forall (fun k => -1 / c < k) kappa) by (eapply Forall_impl; [|exact HK]; intros k Hk; cbn beta in Hk; apply adm_iff; [exact PP|nra]).
  destruct (C115_curve_fit beta kappa p F2 HB) as (qm & E1 & _ & L1 & L2).
  assert (EQ : qm = Q beta * bprod c kappa) by (unfold pf_breitung_m in E1; rewrite breit_ok in E1 by assumption; cbv zeta in E1; cbn [sr_pf] in E1; unfold Q, c; congruence).
  exists (Q beta * bprod beta kappa), qm. split; [unfold pf_breitung; rewrite breit_ok by assumption; reflexivity|]. split; [exact E1|].
  set (t := / beta ^ 2). assert (B2 : 0 < beta ^ 2) by nra. assert (T0 : 0 < t) by (apply Rinv_0_lt_compat, B2).
  assert (CT : c <= beta * (1 + t)) by (unfold t; replace (beta * (1 + / beta ^ 2)) with (beta + / beta) by (field; lra); lra).
  pose proof (Q_pos beta) as PQ.
  assert (P0 : 0 <= p). { apply (mean_le (S (length kappa)) (fun _ => 0) (ind beta kappa kappa)); [|apply mean_const|apply beyond_mean, HB]. intros s. unfold ind. destruct (Rltb _ 0); lra. }
  set (m := INR (length kappa)). assert (M0 : 0 <= m) by apply pos_INR.
  assert (UP : bprod c kappa <= bprod beta kappa).
  { clear -Hb PG HK. induction HK as [|k kappa Hk H IH]; [unfold bprod; cbn; lra|]. assert (Ec : forall c, bprod c (k :: kappa) = / sqrt (1 + c * k) * bprod c kappa) by reflexivity. rewrite !Ec.
    assert (0 < sqrt (1 + beta * k)) by (apply sqrt_lt_R0; nra). assert (sqrt (1 + beta * k) <= sqrt (1 + c * k)) by (apply sqrt_le_1_alt; nra).
    apply Rmult_le_compat; [apply Rlt_le, Rinv_0_lt_compat; lra|apply Rlt_le, bprod_pos; eapply Forall_impl; [|exact H]; intros a Ha; cbn beta in Ha; nra|apply Rinv_le_contravar; lra|exact IH]. }
  assert (QB : 0 < Q beta * bprod beta kappa) by (apply Rmult_lt_0_compat; [exact PQ|apply bprod_pos; eapply Forall_impl; [|exact HK]; intros a Ha; cbn beta in Ha; nra]).
  split; [split; [exact L2|rewrite EQ; apply Rmult_le_compat_l; lra]|]. cbv zeta. fold m. replace (m * (m + 6) / (8 * beta ^ 2)) with (m * (m + 6) / 8 * t) by (unfold t; field; lra).
  destruct (Rle_or_lt 2 t) as [T2|T2].
  - destruct kappa as [|k kappa].
    + (* no curvature *)
      assert (M1 : m = 0) by reflexivity. rewrite M1. unfold bprod in EQ |- *. cbn [map lprod lsum] in EQ, L1 |- *. rewrite EQ in L1. lra.
    + assert (M1 : 1 <= m) by (unfold m; cbn [length]; rewrite S_INR; pose proof (pos_INR (length kappa)); lra). assert (NEG : 1 - m * (m + 6) / 8 * t <= 0) by nra. nra.
  - destruct (bprod_compare beta c t kappa Hb ltac:(lra) CT ltac:(lra) HK) as (C1 & _ & C3). fold m in C1.
    destruct (sums_bound c kappa PP HK) as [[S1 S2] [S3 S4]]. fold m in S2, S4. cbv zeta in L1. change (phi beta / Phi (- beta)) with c in L1.
    set (s1 := lsum (map (fun k => k / (1 + c * k)) kappa)) in *. set (s2 := lsum (map (fun x => x ^ 2) (map (fun k => k / (1 + c * k)) kappa))) in *.
    assert (CI : / c ^ 2 <= t) by (unfold t; apply Rinv_le_contravar; nra).
    assert (A1 : s1 ^ 2 <= m ^ 2 * t). { apply Rle_trans with ((m / c) ^ 2); [apply pow_incr; lra|]. replace ((m / c) ^ 2) with (m ^ 2 * / c ^ 2) by (field; lra). apply Rmult_le_compat_l; [nra|exact CI]. }
    assert (A2 : s2 <= m * t). { eapply Rle_trans; [exact S4|]. unfold Rdiv. apply Rmult_le_compat_l; assumption. }
    assert (QM : 0 <= qm) by (rewrite EQ; apply Rmult_le_pos; lra).
    set (d := m * (m + 2) / 8 * t). assert (D : / 8 * (s1 ^ 2 + 2 * s2) <= d) by (unfold d; nra).
    assert (L3 : qm * (1 - d) <= p) by (eapply Rle_trans; [|exact L1]; apply Rmult_le_compat_l; lra).
    assert (L4 : Q beta * bprod beta kappa * (1 - m * t / 2) <= qm) by (rewrite EQ, Rmult_assoc; apply Rmult_le_compat_l; lra).
    set (q := Q beta * bprod beta kappa) in *. assert (DD : 0 <= d) by (unfold d; apply Rmult_le_pos; [nra|lra]). assert (MT : 0 <= m * t / 2) by nra.
    replace (1 - m * (m + 6) / 8 * t) with (1 - d - m * t / 2) by (unfold d; field).
    destruct (Rle_or_lt d 1) as [D1|D1].
    + apply Rle_trans with (q * ((1 - m * t / 2) * (1 - d))); [apply Rmult_le_compat_l; [lra|nra]|]. rewrite <- Rmult_assoc. eapply Rle_trans; [apply Rmult_le_compat_r; [lra|exact L4]|exact L3].
    + assert (q * (1 - d - m * t / 2) <= 0) by nra. lra.
Qed.
Print Assumptions C115_breitung.

(** towards the origin it is on the unsafe side, however far the surface *)
Theorem C115_breitung_unsafe_refuted : forall beta, 0 < beta ->
  exists k p q, k < 0 /\ -1 / beta < k /\ beyond beta [k] [k] p /\
    sr_pf (pf_breitung beta [k]) = Fin q /\ sr_msg (pf_breitung beta [k]) = false /\ q < p.
Proof.
  intros beta Hb. set (c := psi beta). pose proof (psi_pos beta) as PP. pose proof (psi_gt beta) as PG. fold c in PP, PG. set (dl := c - beta). assert (DL : 0 < dl) by (unfold dl; lra).
  set (t := Rmin (/ (2 * c)) (Rmin (dl / 4) (1 / 4))).
  assert (T1 : t <= / (2 * c)) by apply Rmin_l. assert (T2 : t <= dl / 4) by (unfold t; eapply Rle_trans; [apply Rmin_r|apply Rmin_l]). assert (T3 : t <= 1 / 4) by (unfold t; eapply Rle_trans; [apply Rmin_r|apply Rmin_r]).
  assert (T0 : 0 < t) by (unfold t; repeat apply Rmin_glb_lt; [apply Rinv_0_lt_compat; lra|lra|lra]).
  assert (CT : c * t <= / 2). { apply (Rmult_le_compat_l c) in T1; [|lra]. replace (c * / (2 * c)) with (/ 2) in T1 by (field; lra). exact T1. }
  assert (BT : beta * t < c * t) by nra.
  destruct (C115_probability beta [- t] [- t] eq_refl) as (p & Hp & _).
  assert (F2 : Forall (fun k => -1 / c < k) [- t]) by (constructor; [apply adm_iff; lra|constructor]).
  assert (F1 : Forall (fun k => -1 / beta < k) [- t]) by (constructor; [apply adm_iff; lra|constructor]).
  destruct (C115_curve_fit beta [- t] p F2 Hp) as (qm & E1 & _ & L1 & _).
  assert (EQ : qm = Q beta * bprod c [- t]) by (unfold pf_breitung_m in E1; rewrite breit_ok in E1 by assumption; cbv zeta in E1; cbn [sr_pf] in E1; unfold Q, c; congruence).
  exists (- t), p, (Q beta * bprod beta [- t]). split; [lra|]. split; [exact (Forall_inv F1)|]. split; [exact Hp|].
  split; [unfold pf_breitung; rewrite breit_ok by assumption; reflexivity|]. split; [unfold pf_breitung; rewrite breit_ok by assumption; reflexivity|].
  eapply Rlt_le_trans; [|exact L1]. cbn [map lsum]. change (phi beta / Phi (- beta)) with c. rewrite EQ. unfold bprod. cbn [map lprod]. rewrite !Rmult_1_r.
  set (sc := sqrt (1 + c * - t)). set (sb := sqrt (1 + beta * - t)).
  assert (C0 : / 2 <= 1 + c * - t) by lra. assert (S1 : 0 < sc) by (apply sqrt_lt_R0; lra). assert (S2 : 0 < sb) by (apply sqrt_lt_R0; lra).
  assert (Q1 : sc * sc = 1 - c * t) by (unfold sc; rewrite sqrt_sqrt by lra; ring). assert (Q2 : sb * sb = 1 - beta * t) by (unfold sb; rewrite sqrt_sqrt by lra; ring).
  set (r := - t / (1 + c * - t)).
  assert (R2 : r ^ 2 <= 4 * (t * t)).
  { unfold r. replace ((- t / (1 + c * - t)) ^ 2) with (t * t / ((1 + c * - t) * (1 + c * - t))) by (field; lra). apply (Rmult_le_reg_r ((1 + c * - t) * (1 + c * - t))); [nra|].
    replace (t * t / ((1 + c * - t) * (1 + c * - t)) * ((1 + c * - t) * (1 + c * - t))) with (t * t) by (field; lra). assert (/ 4 <= (1 + c * - t) * (1 + c * - t)) by nra. assert (0 <= t * t) by nra. nra. }
  replace (r + 0) with r by ring. replace (r ^ 2 + 0) with (r ^ 2) by ring.
  apply Rlt_le_trans with (Q beta * / sc * (1 - 3 / 2 * (t * t))).
  2:{ apply Rmult_le_compat_l; [apply Rmult_le_pos; [apply Rlt_le, Q_pos|apply Rlt_le, Rinv_0_lt_compat, S1]|lra]. }
  rewrite Rmult_assoc. apply Rmult_lt_compat_l; [apply Q_pos|].
  apply (Rmult_lt_reg_r (sb * sc)); [nra|]. replace (/ sb * (sb * sc)) with sc by (field; lra). replace (/ sc * (1 - 3 / 2 * (t * t)) * (sb * sc)) with (sb * (1 - 3 / 2 * (t * t))) by (field; lra).
  set (w := 1 - 3 / 2 * (t * t)). assert (TT : t * t <= / 16) by nra. assert (W : 0 < w) by (unfold w; lra).
  destruct (Rlt_or_le sc (sb * w)) as [L|L]; [exact L|exfalso].
  assert (SQ : sb * w * (sb * w) <= sc * sc) by (apply Rmult_le_compat; try assumption; apply Rlt_le, Rmult_lt_0_compat; assumption).
  assert (W2 : 1 - 3 * (t * t) <= w * w) by (unfold w; nra).
  assert (BB : 0 < 1 - beta * t) by lra.
  assert (X : (1 - beta * t) * (1 - 3 * (t * t)) <= 1 - c * t). { rewrite <- Q2, <- Q1. apply Rle_trans with (sb * w * (sb * w)); [|exact SQ]. replace (sb * w * (sb * w)) with (sb * sb * (w * w)) by ring. apply Rmult_le_compat_l; [nra|exact W2]. }
  (* dl t <= 3 t^2 *)
  assert (Y : dl * t <= 3 * (t * t)). { unfold dl. assert (0 <= beta * t * (t * t)) by (apply Rmult_le_pos; nra). nra. }
  nra.
Qed.
Print Assumptions C115_breitung_unsafe_refuted.
