(** Property theorems C124: FORM with full steps on a limit state that depends on one direction. *)
From Coquelicot Require Import Coquelicot.
From Verif Require Import Base Ext Gauss StochModel LimitState Transf Form FormProofs FormProps FormNewtonProofs.
From Coq Require Import ZArith Lra Lia.
Open Scope R_scope.

(** the evaluation of G(u) = phi(a.u) and its gradient *)
Definition ridge_ev (n : nat) (a : vec) (phi dphi : R -> R) (ev : vec -> result (R * vec) * nat) : Prop :=
  forall u, exists g k, ev u = (Ok (phi (dot n a u), g), k) /\ veq n g (fun i => dphi (dot n a u) * a i).

(** C124: with step_size = 1 and from the origin FORM is Newton's iteration t_0 = 0,
    t_{k+1} = t_k - phi(t_k)/phi'(t_k) along a: it stops at the first k with |phi(t_k)| < e1 |phi(0)|
    or k + 1 = i_max, and reports the point t_k a, and beta = t_k if phi'(t_k) < 0, -t_k otherwise. *)
Theorem C124_newton : forall n o ev trial evn a phi dphi fuel u0,
  dot n a a = 1 -> ridge_ev n a phi dphi ev -> fo_step o = 1 -> 0 < fo_e2 o -> phi 0 <> 0 -> (1 <= fo_imax o)%Z ->
  let t := newton phi dphi in
  (forall k, (Z.of_nat (S k) <= fo_imax o)%Z -> dphi (t k) <> 0) ->
  (Z.to_nat (fo_imax o) <= fuel)%nat -> veq n u0 (fun _ => 0) ->
  let ends k := Z.of_nat (S k) = fo_imax o \/ Rabs (phi (t k)) < fo_e1 o * Rabs (phi 0) in
  exists k r c u, form_run n o ev trial evn fuel u0 = (FDone r, c) /\ fr_i r = Z.of_nat (S k) /\
    ends k /\ (forall j, (j < k)%nat -> ~ ends j) /\
    fr_G r = phi (t k) /\ fr_u r = Some u /\ veq n u (fun i => t k * a i) /\
    form_beta n r = Fin (if Rltb (dphi (t k)) 0 then t k else - t k).
Proof.
  intros n o ev trial evn a phi dphi fuel u0 Ua Hev Hs He H0 Hi t Hd Hf Hu ends.
  destruct (loop_newton n o ev trial evn a phi dphi 0 Ua Hev Hs He H0 Hd (Z.to_nat (fo_imax o) - 1) 0 fuel None u0 0 (fun _ => 0) 0%nat) as (K & r & c & u & E & _ & Ei & S & NS & EG & _ & Eu & V & Vg); [lia|lia|reflexivity|intros i Hi'; rewrite (Hu i Hi'); unfold newton; cbn; ring|].
  exists K, r, c, u. split; [exact E|]. split; [exact Ei|]. split; [exact S|]. split; [intros j Hj; apply NS; lia|]. split; [exact EG|]. split; [exact Eu|]. split; [exact V|].
  assert (Dk : dphi (t K) <> 0). { apply Hd. destruct (Z.eq_dec (fr_i r) (fo_imax o)); [lia|]. destruct (C21_converged_or_at_limit n o ev trial evn fuel u0 r c E) as [C _]. specialize (C Hi). lia. }
  unfold form_beta. rewrite Eu. f_equal. rewrite (dot_alpha n a Ua (dphi (t K)) _ (t K) u Dk Vg V). destruct (Rltb (dphi (t K)) 0) eqn:L.
  - apply Rltb_spec in L. rewrite Rabs_left by exact L. field. exact Dk.
  - assert (0 < dphi (t K)) by (destruct (Rtotal_order (dphi (t K)) 0) as [X|[X|X]]; [apply Rltb_spec in X; congruence|contradiction|exact X]). rewrite Rabs_right by lra. field. lra.
Qed.
Print Assumptions C124_newton.

(** convexity through tangents *)
Definition convex_decreasing (phi dphi : R -> R) (lo hi m M : R) : Prop :=
  (forall x y, lo <= x <= hi -> lo <= y <= hi -> phi x + dphi x * (y - x) <= phi y) /\
  (forall x, lo <= x <= hi -> - M <= dphi x <= - m).

Lemma newton_convex phi dphi ts m M : convex_decreasing phi dphi 0 ts m M -> 0 < m -> 0 < ts -> phi ts = 0 -> 0 <= phi 0 ->
  forall k, 0 <= newton phi dphi k <= ts /\ 0 <= phi (newton phi dphi k) <= phi 0 * (1 - m / M) ^ k /\ (m <= M)%R.
Proof.
  intros [HC HD] Hm Hts Hr H0. assert (HM : m <= M) by (pose proof (HD 0 ltac:(lra)); lra).
  induction k as [|k ([I1 I2] & [I3 I4] & _)]; [cbn; lra|]. change (newton phi dphi (S k)) with (newton phi dphi k - phi (newton phi dphi k) / dphi (newton phi dphi k)). set (t := newton phi dphi k) in *.
  pose proof (HD t ltac:(lra)) as Dt. set (c := dphi t) in *. assert (Cn : c < 0) by lra.
  assert (Q : 0 <= - (phi t / c)). { replace (- (phi t / c)) with (phi t * / (- c)) by (field; lra). apply Rmult_le_pos; [exact I3|apply Rlt_le, Rinv_0_lt_compat; lra]. }
  assert (U : t - phi t / c <= ts). { pose proof (HC t ts ltac:(lra) ltac:(lra)) as T. fold c in T. rewrite Hr in T. assert (phi t * / (- c) <= ts - t); [|replace (phi t / c) with (- (phi t * / (- c))) by (field; lra); lra]. apply (Rmult_le_reg_r (- c)); [lra|]. rewrite Rmult_assoc, Rinv_l, Rmult_1_r by lra. lra. }
  set (t' := t - phi t / c) in *. assert (Tt : t <= t') by (unfold t'; lra). split; [lra|]. split; [|exact HM]. split.
  - pose proof (HC t t' ltac:(lra) ltac:(lra)) as T. fold c in T. replace (phi t + c * (t' - t)) with 0 in T by (unfold t'; field; lra). lra.
  - (* from the tangent at t' *)
    pose proof (HC t' t ltac:(lra) ltac:(lra)) as T. pose proof (HD t' ltac:(lra)) as D'. set (c' := dphi t') in *.
    assert (E : t' - t = phi t / - c) by (unfold t'; field; lra). assert (LB : phi t / M <= t' - t). { rewrite E. unfold Rdiv. apply Rmult_le_compat_l; [exact I3|]. apply Rinv_le_contravar; lra. }
    assert (X : phi t' <= phi t - m * (phi t / M)). { assert (m * (phi t / M) <= - c' * (t' - t)); [|lra]. apply Rmult_le_compat; try lra. apply Rmult_le_pos; [exact I3|apply Rlt_le, Rinv_0_lt_compat; lra]. }
    replace (phi t - m * (phi t / M)) with (phi t * (1 - m / M)) in X by (field; lra). apply (Rle_trans _ _ _ X). cbn [pow]. replace (phi 0 * ((1 - m / M) * (1 - m / M) ^ k)) with ((phi 0 * (1 - m / M) ^ k) * (1 - m / M)) by ring. apply Rmult_le_compat_r; [|exact I4].
    assert (m / M <= 1); [|lra]. apply (Rmult_le_reg_r M); [lra|]. unfold Rdiv. rewrite Rmult_assoc, Rinv_l, Rmult_1_r by lra. lra.
Qed.

(** C124: a convex decreasing limit state (safe at the origin, slope between -M and -m up to the root ts):
    FORM ends by its criterion as soon as i_max allows for k steps with (1 - m/M)^k < e1; it never
    overshoots, so that the reported beta is at most the true one ts (the reported probability is on the
    safe side), and is at most e1 phi(0)/m below it. *)
Theorem C124_convex : forall n o ev trial evn a phi dphi fuel u0 ts m M,
  dot n a a = 1 -> ridge_ev n a phi dphi ev -> fo_step o = 1 -> 0 < fo_e2 o -> 0 < fo_e1 o ->
  convex_decreasing phi dphi 0 ts m M -> 0 < m -> 0 < ts -> phi ts = 0 -> 0 < phi 0 ->
  (1 <= fo_imax o)%Z -> (Z.to_nat (fo_imax o) <= fuel)%nat -> veq n u0 (fun _ => 0) ->
  forall k, (1 - m / M) ^ k < fo_e1 o -> (Z.of_nat (S k) < fo_imax o)%Z ->
  exists r c b, form_run n o ev trial evn fuel u0 = (FDone r, c) /\ (fr_i r <= Z.of_nat (S k))%Z /\ Rabs (fr_G r) < fo_e1 o * phi 0 /\
    form_beta n r = Fin b /\ 0 <= b <= ts /\ ts - b <= fo_e1 o * phi 0 / m /\ form_Pf n r = Fin (Phi (- b)).
Proof.
  intros n o ev trial evn a phi dphi fuel u0 ts m M Ua Hev Hs He2 He1 HC Hm Hts Hr H0 Hi Hf Hu k Hk Hki.
  pose proof (newton_convex phi dphi ts m M HC Hm Hts Hr (Rlt_le _ _ H0)) as NC. destruct HC as [HT HD].
  assert (DN : forall j, dphi (newton phi dphi j) < 0) by (intros j; destruct (NC j) as ([A B] & _); pose proof (HD _ (conj A B)); lra).
  destruct (C124_newton n o ev trial evn a phi dphi fuel u0 Ua Hev Hs He2 ltac:(lra) Hi) as (K & r & c & u & E & Ei & S & NS & EG & Eu & V & EB); [intros j _; pose proof (DN j); lra|exact Hf|exact Hu|].
  rewrite (Rabs_right (phi 0)) in * by lra.
  assert (CK : Rabs (phi (newton phi dphi k)) < fo_e1 o * phi 0). { destruct (NC k) as (_ & [A B] & _). rewrite Rabs_right by lra. apply (Rle_lt_trans _ _ _ B). rewrite Rmult_comm. apply Rmult_lt_compat_r; assumption. }
  assert (KL : (K <= k)%nat). { destruct (Nat.le_gt_cases K k) as [|G]; [assumption|]. exfalso. apply (NS k G). right. exact CK. }
  assert (CKK : Rabs (phi (newton phi dphi K)) < fo_e1 o * phi 0) by (destruct S as [S|S]; [lia|exact S]).
  exists r, c, (newton phi dphi K). split; [exact E|]. split; [lia|]. split; [rewrite EG; exact CKK|]. assert (L : Rltb (dphi (newton phi dphi K)) 0 = true) by (apply Rltb_spec, DN). rewrite L in EB. split; [exact EB|].
  destruct (NC K) as ([A B] & [P1 P2] & _). split; [lra|]. split; [|unfold form_Pf; rewrite EB; reflexivity].
  rewrite Rabs_right in CKK by lra. pose proof (HT ts (newton phi dphi K) ltac:(lra) ltac:(lra)) as T. rewrite Hr in T. pose proof (HD ts ltac:(lra)) as Dts.
  apply (Rmult_le_reg_r m); [exact Hm|]. unfold Rdiv. rewrite Rmult_assoc, Rinv_l, Rmult_1_r by lra. assert ((ts - newton phi dphi K) * m <= (ts - newton phi dphi K) * - dphi ts) by (apply Rmult_le_compat_l; lra). lra.
Qed.
Print Assumptions C124_convex.

(** the cycle of Newton's method on t^3 - 2 t + 2 *)
Definition cub (t : R) : R := t ^ 3 - 2 * t + 2.
Definition dcub (t : R) : R := 3 * t ^ 2 - 2.
Lemma newton_cub : forall k, newton cub dcub k = if Nat.even k then 0 else 1.
Proof.
  intros k. enough (H : newton cub dcub k = (if Nat.even k then 0 else 1) /\ newton cub dcub (S k) = (if Nat.even (S k) then 0 else 1)) by apply H. induction k as [|k [I1 I2]].
  - unfold newton, cub, dcub. cbn. split; [reflexivity|field].
  - split; [exact I2|]. change (newton cub dcub (S (S k))) with (newton cub dcub (S k) - cub (newton cub dcub (S k)) / dcub (newton cub dcub (S k))). rewrite I2. change (Nat.even (S (S k))) with (Nat.even k). rewrite Nat.even_succ, <- Nat.negb_even. destruct (Nat.even k); cbn; unfold cub, dcub; field.
Qed.

(** C124 refuted: "with i_max = 100 iterations FORM finds the design point of a smooth limit state of one
    variable". For G = u^3 - 2 u + 2 the failure domain is u < c for a single root c in (-1.8, -1.7), the
    reliability index 1.7 < -c < 1.8; with step_size = 1 the iterates are 0, 1, 0, 1, ... for every e1 <= 1/2,
    and after 100 iterations FORM reports beta = -1 with results marked valid. *)
Theorem C124_cycle_refuted : forall n o ev trial evn a fuel u0,
  dot n a a = 1 -> ridge_ev n a cub dcub ev -> fo_step o = 1 -> 0 < fo_e2 o -> 0 < fo_e1 o <= 1 / 2 -> fo_imax o = 100%Z ->
  (100 <= fuel)%nat -> veq n u0 (fun _ => 0) ->
  (exists r c, form_run n o ev trial evn fuel u0 = (FDone r, c) /\ fr_i r = 100%Z /\ form_beta n r = Fin (-1) /\ form_Pf n r = Fin (Phi 1)) /\
  (exists c, 1.7 < - c < 1.8 /\ forall t, (cub t < 0 <-> t < c) /\ (cub t = 0 <-> t = c)).
Proof.
  intros n o ev trial evn a fuel u0 Ua Hev Hs He2 He1 Hi Hf Hu. split.
  - destruct (C124_newton n o ev trial evn a cub dcub fuel u0 Ua Hev Hs He2) as (K & r & c & u & E & Ei & S & NS & EG & Eu & V & EB); [unfold cub; lra|lia| |rewrite Hi; exact Hf|exact Hu|].
    + intros k _. rewrite newton_cub. destruct (Nat.even k); unfold dcub; lra.
    + assert (C0 : Rabs (cub 0) = 2) by (unfold cub; rewrite Rabs_right; lra).
      assert (NE : forall k, fo_e1 o * Rabs (cub 0) <= Rabs (cub (newton cub dcub k))). { intros k. rewrite C0, newton_cub. destruct (Nat.even k); unfold cub; rewrite Rabs_right; lra. }
      assert (K99 : K = 99%nat). { destruct S as [S|S]; [rewrite Hi in S; lia|]. pose proof (NE K). lra. } subst K. exists r, c. split; [exact E|]. split; [rewrite Ei; reflexivity|].
      assert (N99 : newton cub dcub 99 = 1) by (rewrite newton_cub; reflexivity). rewrite N99 in EB. assert (L : Rltb (dcub 1) 0 = false) by (destruct (Rltb (dcub 1) 0) eqn:L; [apply Rltb_spec in L; unfold dcub in L; lra|reflexivity]). rewrite L in EB.
      split; [exact EB|]. unfold form_Pf. rewrite EB. f_equal. f_equal. ring.
  - destruct (IVT cub (-1.8) (-1.7)) as (c & [C1 C2] & C3).
    + unfold cub. intros x. reg.
    + lra.
    + unfold cub. lra.
    + unfold cub. lra.
    + exists c. assert (Cm : cub (-1.8) < 0 /\ 0 < cub (-1.7)) by (unfold cub; lra). assert (C4 : -1.8 < c < -1.7) by (destruct (Req_dec c (-1.8)) as [->|]; [lra|]; destruct (Req_dec c (-1.7)) as [->|]; lra). split; [lra|].
      assert (F : forall t, cub t = (t - c) * (t ^ 2 + c * t + c ^ 2 - 2)) by (intros t; transitivity (cub t - cub c); [lra|unfold cub; ring]).
      assert (Q : forall t, 0 < t ^ 2 + c * t + c ^ 2 - 2). { intros t. replace (t ^ 2 + c * t + c ^ 2 - 2) with ((t + c / 2) ^ 2 + (3 / 4 * c ^ 2 - 2)) by field. assert (0 <= (t + c / 2) ^ 2) by apply pow2_ge_0. assert (1.7 ^ 2 < c ^ 2) by (clear - C4; nra). lra. }
      intros t. rewrite F. specialize (Q t). set (q := t ^ 2 + c * t + c ^ 2 - 2) in *. clear - Q. split; split; intros H; [destruct (Rlt_le_dec t c); [assumption|exfalso; nra]|nra|apply Rmult_integral in H; destruct H; lra|subst t; ring].
Qed.
Print Assumptions C124_cycle_refuted.

(** hypotheses met: exp(-t) - 1/8 along the first of two variables: convex and decreasing, ln 8 the true index *)
Example C124_example :
  let a := fun i => if Nat.eqb i 0 then 1 else 0 : R in let phi t := exp (- t) - 1 / 8 in let dphi t := - exp (- t) in
  let ev := fun u : vec => (Ok (phi (dot 2 a u), fun i => dphi (dot 2 a u) * a i), 3%nat) in
  dot 2 a a = 1 /\ ridge_ev 2 a phi dphi ev /\ convex_decreasing phi dphi 0 (ln 8) (1 / 8) 1 /\ 0 < ln 8 /\ phi (ln 8) = 0 /\ 0 < phi 0 /\ (1 - 1 / 8 / 1) ^ 60 < 1 / 1000.
Proof.
  intros a phi dphi ev. split; [unfold dot, a; cbn; ring|]. split; [intros u; exists (fun i => dphi (dot 2 a u) * a i), 3%nat; split; [reflexivity|intros i _; reflexivity]|].
  assert (L8 : 0 < ln 8) by (rewrite <- ln_1; apply ln_increasing; lra). assert (E8 : exp (- ln 8) = 1 / 8) by (rewrite exp_Ropp, exp_ln by lra; lra).
  split; [split|].
  - intros x y _ _. unfold phi, dphi. pose proof (exp_ineq1_le (- (y - x))) as X. assert (exp (- y) = exp (- x) * exp (- (y - x))) by (rewrite <- exp_plus; f_equal; ring). rewrite H. pose proof (exp_pos (- x)). assert (exp (- x) * (1 + - (y - x)) <= exp (- x) * exp (- (y - x))) by (apply Rmult_le_compat_l; lra). lra.
  - intros x Hx. unfold dphi. split.
    + assert (exp (- x) <= exp 0); [|rewrite exp_0 in *; lra]. destruct (Req_dec x 0) as [->|]; [rewrite Ropp_0; lra|]. apply Rlt_le, exp_increasing. lra.
    + assert (exp (- ln 8) <= exp (- x)); [|lra]. destruct (Req_dec x (ln 8)) as [->|]; [lra|]. apply Rlt_le, exp_increasing. lra.
  - split; [exact L8|]. split; [unfold phi; rewrite E8; lra|]. split; [unfold phi; rewrite Ropp_0, exp_0; lra|]. replace (1 - 1 / 8 / 1) with (7 / 8) by lra. lra.
Qed.
