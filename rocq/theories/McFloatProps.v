(** Property theorems C118: crude Monte Carlo in double precision. *)
From Coquelicot Require Import Coquelicot.
From Flocq Require Import Core.
From Verif Require Import Base Ext Gauss GaussProofs StochModel LimitState Transf Form Sorm SormProofs Mc McProofs McProps McFloat McFloatSpec McFloatProofs.
From Coq Require Import ZArith Lra Lia.
Open Scope R_scope.

Lemma u_pow : u = / 2 ^ 53. Proof. rewrite u_eq. f_equal. cbn. lra. Qed.

(** C118: the arithmetic of the model: an operation returns a double nearest to the exact value. *)
Theorem C118_arithmetic : forall x, nearest x (rnd x).
Proof. exact rnd_nearest. Qed.
Print Assumptions C118_arithmetic.

(** C118: after k samples with s failures, at most half of them: the reported probability and
    coefficient of variation are those of exact arithmetic up to a few units of rounding, whatever
    faithful powers the C library computes. *)
Theorem C118_accuracy : forall recip sq inv (k s : Z),
  (forall k, (1 <= k <= 2 ^ 53)%Z -> faithful (/ IZR k) (recip k)) ->
  (forall q, 0 < q <= 2 -> faithful (q * q) (sq q) /\ faithful (/ q) (inv q)) ->
  (1 <= s)%Z -> (2 * s <= k)%Z -> (k <= 2 ^ 53)%Z ->
  let r := fl_update recip sq inv k (IZR s) in
  Rabs (fst r - IZR s / IZR k) <= 4 / 2 ^ 53 * (IZR s / IZR k) /\
  exists c, snd r = Some c /\ Rabs (c - exact_cov k s) <= 20 / 2 ^ 53 * exact_cov k s.
Proof.
  intros recip sq inv k s H1 H2 Hs Hk Hk2 r. pose proof (accuracy recip sq inv H1 (fun q Hq => proj1 (H2 q Hq)) (fun q Hq => proj2 (H2 q Hq)) k s Hs Hk Hk2) as A.
  cbv zeta in A. rewrite u_pow in A. exact A.
Qed.
Print Assumptions C118_accuracy.

Lemma exact_is k s : (1 <= s)%Z -> (s < k)%Z -> ex_update k (IZR s) = (IZR s / IZR k, Some (exact_cov k s)).
Proof.
  intros Hs Hk. assert (S1 : 1 <= IZR s) by (apply IZR_le; exact Hs). assert (K1 : IZR s < IZR k) by (apply IZR_lt; exact Hk).
  unfold ex_update, cov_update. assert (Rltb 0 (IZR s) = true) as -> by (apply Rltb_spec; lra). cbn [fst snd]. f_equal; [field; lra|].
  unfold exact_cov. set (Q := IZR s / IZR k). assert (QE : / IZR k * IZR s = Q) by (unfold Q; field; lra). rewrite QE.
  assert (Q01 : 0 < Q < 1). { unfold Q. split; [apply Rdiv_lt_0_compat; lra|]. apply (Rmult_lt_reg_r (IZR k)); [lra|]. unfold Rdiv. rewrite Rmult_assoc, Rinv_l by lra. lra. }
  replace (/ IZR k * (Q - Q ^ 2)) with (Q * (1 - Q) / IZR k) by (field; lra). f_equal. fold (sqrt (Q * (1 - Q) / IZR k) / Q).
  unfold Reqb. destruct (Req_EM_T _ 0) as [E|E]; [exfalso|reflexivity].
  assert (P : 0 < Q * (1 - Q) / IZR k) by (apply Rdiv_lt_0_compat; nra). pose proof (sqrt_lt_R0 _ P). assert (0 < / Q) by (apply Rinv_0_lt_compat; lra). unfold Rdiv in E. nra.
Qed.
Lemma fails_split fails k b : (0 <= k)%Z -> (0 <= b)%Z -> IZR (failures fails (k + b)) = IZR (failures fails k) + block_fails fails (Z.to_nat k) (Z.to_nat b).
Proof.
  intros Hk Hb. unfold failures. rewrite Z2Nat.inj_add, seq_app, filter_app, app_length, Nat2Z.inj_add, plus_IZR by lia. f_equal. cbn [Nat.add].
  unfold block_fails. generalize (seq (Z.to_nat k) (Z.to_nat b)). induction l as [|j l IH]; [reflexivity|]. cbn [filter map]. change (lsum ((if fails j then 1 else 0) :: map (fun j => if fails j then 1 else 0) l)) with ((if fails j then 1 else 0) + lsum (map (fun j => if fails j then 1 else 0) l)).
  destruct (fails j); cbn [length]; [rewrite Nat2Z.inj_succ, succ_IZR|]; rewrite IH; ring.
Qed.
Lemma failures_le fails k : (0 <= k)%Z -> (0 <= failures fails k <= k)%Z.
Proof. intros H. unfold failures. assert (length (filter fails (seq 0 (Z.to_nat k))) <= Z.to_nat k)%nat; [|lia]. rewrite <- (seq_length (Z.to_nat k) 0) at 2. generalize (seq 0 (Z.to_nat k)). induction l as [|j l IH]; cbn; [lia|]. destruct (fails j); cbn; lia. Qed.

(** C118: the whole run. If at every block end no sample or at most half of them have failed, and the
    exact coefficient of variation is not within 20 units of rounding of the target, the run in double
    precision stops after the same number of samples as in exact arithmetic, and reports the same
    probability up to 4 units of rounding. *)
Theorem C118_same_run : forall recip sq inv samples block target fails fuel st,
  (forall k, (1 <= k <= 2 ^ 53)%Z -> faithful (/ IZR k) (recip k)) ->
  (forall q, 0 < q <= 2 -> faithful (q * q) (sq q) /\ faithful (/ q) (inv q)) ->
  (1 <= block)%Z -> (1 <= samples <= 2 ^ 53)%Z ->
  (forall j, (1 <= j)%Z -> let k := Z.min (j * block) samples in let s := failures fails k in
     s = 0%Z \/ ((1 <= s)%Z /\ (2 * s <= k)%Z /\ 20 / 2 ^ 53 * exact_cov k s < Rabs (exact_cov k s - target))) ->
  cnt_run ex_update samples block target fails fuel = Some st ->
  exists st', cnt_run (fl_update recip sq inv) samples block target fails fuel = Some st' /\
    cn_k st' = cn_k st /\ cn_fails st' = cn_fails st /\ Rabs (cnt_Pf st' - cnt_Pf st) <= 4 / 2 ^ 53 * cnt_Pf st.
Proof.
  intros recip sq inv samples block target fails fuel st H1 H2 Hb Hs HK. unfold cnt_run.
  assert (U53 : 0 < / 2 ^ 53 < 1) by (rewrite <- u_pow; pose proof u_pos; lra).
  assert (G : forall fuel j s1 s2, (0 <= j)%Z -> cn_k s1 = Z.min (j * block) samples -> cn_k s2 = cn_k s1 -> cn_fails s1 = IZR (failures fails (cn_k s1)) -> cn_fails s2 = cn_fails s1 ->
     Rabs (cn_qbar s2 - cn_qbar s1) <= 4 / 2 ^ 53 * cn_qbar s1 -> cnt_loop ex_update samples block target fails fuel s1 = Some st ->
     exists st', cnt_loop (fl_update recip sq inv) samples block target fails fuel s2 = Some st' /\ cn_k st' = cn_k st /\ cn_fails st' = cn_fails st /\ Rabs (cnt_Pf st' - cnt_Pf st) <= 4 / 2 ^ 53 * cnt_Pf st).
  { clear fuel. induction fuel as [|f IH]; intros j s1 s2 Hj K1 K2 F1 F2 Q12 E; [discriminate|]. cbn [cnt_loop] in E |- *. rewrite K2.
    destruct (Z.ltb_spec (cn_k s1) samples) as [L|L].
    2: { injection E as <-. exists s2. split; [reflexivity|]. split; [exact K2|]. split; [exact F2|]. unfold cnt_Pf. rewrite F2. destruct (Rltb 0 (cn_fails s1)); [exact Q12|]. replace (0 - 0) with 0 by ring. rewrite Rabs_R0, Rmult_0_r. lra. }
    assert (KJ : cn_k s1 = (j * block)%Z) by lia. set (b := Z.min block (samples - cn_k s1)) in *.
    assert (KN : (cn_k s1 + b)%Z = Z.min ((j + 1) * block) samples) by (unfold b; rewrite KJ; lia).
    assert (B0 : (1 <= b)%Z) by (unfold b; lia).
    rewrite F2. set (sN := cn_fails s1 + block_fails fails (Z.to_nat (cn_k s1)) (Z.to_nat b)) in *.
    assert (SN : sN = IZR (failures fails (cn_k s1 + b))) by (unfold sN; rewrite F1; symmetry; apply fails_split; nia).
    set (kN := (cn_k s1 + b)%Z) in *. specialize (HK (j + 1)%Z ltac:(lia)). cbv zeta in HK. rewrite <- KN in HK. set (s := failures fails kN) in *.
    assert (STEP : fst (fl_update recip sq inv kN sN) = fst (ex_update kN sN) /\ snd (fl_update recip sq inv kN sN) = snd (ex_update kN sN) \/
       exists c, snd (fl_update recip sq inv kN sN) = Some c /\ le_target (Some c) target = le_target (snd (ex_update kN sN)) target /\ Rabs (fst (fl_update recip sq inv kN sN) - fst (ex_update kN sN)) <= 4 / 2 ^ 53 * fst (ex_update kN sN)).
    { rewrite SN. destruct HK as [Z|(S1 & S2 & S3)].
      - left. rewrite Z. unfold fl_update, ex_update, cov_update. assert (Rltb 0 0 = false) as -> by (apply Rltb_false; lra). split; reflexivity.
      - right. destruct (C118_accuracy recip sq inv kN s H1 H2 S1 S2 ltac:(lia)) as (A1 & c & A2 & A3). exists c. rewrite (exact_is kN s S1 ltac:(lia)). cbn [fst snd]. split; [exact A2|]. split; [|exact A1].
        cbn [le_target]. assert (EC : 0 <= exact_cov kN s). { pose proof (Rabs_pos (c - exact_cov kN s)). assert (0 < 20 / 2 ^ 53) by (unfold Rdiv; lra). destruct (Rle_or_lt 0 (exact_cov kN s)) as [X|X]; [exact X|]. nra. }
        apply Rabs_le_between in A3. destruct (Rleb (exact_cov kN s) target) eqn:T.
        + apply Rleb_spec in T. apply Rleb_spec. rewrite Rabs_left1 in S3 by lra. lra.
        + apply Rleb_false in T. apply Rleb_false. rewrite Rabs_right in S3 by lra. lra. }
    assert (ND : 0 <= fst (ex_update kN sN)).
    { unfold ex_update, cov_update. destruct (Rltb 0 sN) eqn:Z; [|cbn; lra]. apply Rltb_spec in Z. cbn [fst]. assert (0 < IZR kN) by (apply IZR_lt; unfold kN; nia). pose proof (Rinv_0_lt_compat _ H). nra. }
    assert (QN : Rabs (fst (fl_update recip sq inv kN sN) - fst (ex_update kN sN)) <= 4 / 2 ^ 53 * fst (ex_update kN sN)).
    { destruct STEP as [[S1 _]|(c & _ & _ & S3)]; [|exact S3]. rewrite S1. replace (fst (ex_update kN sN) - fst (ex_update kN sN)) with 0 by ring. rewrite Rabs_R0. unfold Rdiv. apply Rmult_le_pos; lra. }
    assert (TN : le_target (snd (fl_update recip sq inv kN sN)) target = le_target (snd (ex_update kN sN)) target) by (destruct STEP as [[_ ->]|(c & -> & S2 & _)]; [reflexivity|exact S2]).
    rewrite TN. destruct (le_target (snd (ex_update kN sN)) target).
    - injection E as <-. eexists. split; [reflexivity|]. cbn [cn_k cn_fails]. split; [reflexivity|]. split; [reflexivity|]. unfold cnt_Pf. cbn [cn_fails cn_qbar]. destruct (Rltb 0 sN); [exact QN|]. replace (0 - 0) with 0 by ring. rewrite Rabs_R0, Rmult_0_r. lra.
    - apply (IH (j + 1)%Z (mkcnt kN sN (fst (ex_update kN sN)) (snd (ex_update kN sN)))); cbn [cn_k cn_fails cn_qbar]; auto. lia. }
  apply (G fuel 0%Z); cbn [cn_k cn_fails cn_qbar]; [lia|lia|reflexivity|reflexivity|reflexivity|]. replace (0 - 0) with 0 by ring. rewrite Rabs_R0, Rmult_0_r. lra.
Qed.
Print Assumptions C118_same_run.

(** C118: for all counts: the reported probability is between 0 and 1, grows with the number of
    failures, is 0 only without failures, and the coefficient of variation is a positive number, never
    NaN. *)
Theorem C118_range : forall recip sq inv,
  (forall k, (1 <= k <= 2 ^ 53)%Z -> double (recip k) /\ Rabs (recip k * IZR k - 1) <= / 2 ^ 53) ->
  (forall q, 0 < q <= 1 -> faithful (q * q) (sq q) /\ faithful (/ q) (inv q)) ->
  (forall k s, (1 <= k <= 2 ^ 53)%Z -> (0 <= s <= k)%Z ->
     let r := fl_update recip sq inv k (IZR s) in 0 <= fst r <= 1 /\ (fst r = 0 <-> s = 0%Z) /\ exists c, snd r = Some c /\ 0 < c) /\
  (forall k s s', (1 <= k <= 2 ^ 53)%Z -> (0 <= s <= s')%Z -> (s' <= k)%Z -> fst (fl_update recip sq inv k (IZR s)) <= fst (fl_update recip sq inv k (IZR s'))).
Proof.
  intros recip sq inv H1 H2. rewrite <- u_pow in H1. pose proof (range recip sq inv H1 (fun q Hq => proj1 (H2 q Hq)) (fun q Hq => proj2 (H2 q Hq))) as RG.
  assert (Z0 : forall k, fl_update recip sq inv k 0 = (0, Some 1)) by (intros k; unfold fl_update; assert (Rltb 0 0 = false) as -> by (apply Rltb_false; lra); reflexivity).
  assert (Q : forall k s, 0 < s -> fst (fl_update recip sq inv k s) = rnd (recip k * s)).
  { intros k s Hs. unfold fl_update. assert (Rltb 0 s = true) as -> by (apply Rltb_spec; lra). cbv zeta. destruct (Rltb _ 0); reflexivity. }
  split.
  - intros k s Hk Hs. destruct (Z.eq_dec s 0) as [->|N]; cbv zeta.
    + rewrite Z0. cbn [fst snd]. split; [lra|]. split; [tauto|]. exists 1. split; [reflexivity|lra].
    + destruct (RG k (IZR s) Hk) as (A & B). { split; apply IZR_le; lia. } split; [lra|]. split; [|exact B]. split; [lra|lia].
  - intros k s s' Hk Hs Hs'. destruct (Z.eq_dec s 0) as [->|N].
    + rewrite Z0. cbn [fst]. destruct (Z.eq_dec s' 0) as [->|N']; [rewrite Z0; cbn; lra|]. destruct (RG k (IZR s') Hk) as (A & _); [split; apply IZR_le; lia|]. lra.
    + assert (1 <= IZR s) by (apply IZR_le; lia). assert (IZR s <= IZR s') by (apply IZR_le; lia). rewrite !Q by lra. apply rnd_le. apply Rmult_le_compat_l; [|lra]. left. apply (recip_pos recip H1 k Hk).
Qed.
Print Assumptions C118_range.

(** C118: all samples failed: either 1 and 1, or 1 - 2^-53 and a coefficient of variation below 2^-25. *)
Theorem C118_all_failed : forall recip sq inv k,
  (forall k, (1 <= k <= 2 ^ 53)%Z -> double (recip k) /\ Rabs (recip k * IZR k - 1) <= / 2 ^ 53) ->
  (forall q, 0 < q <= 1 -> nearest (q * q) (sq q) /\ faithful (q * q) (sq q) /\ faithful (/ q) (inv q)) -> (1 <= k <= 2 ^ 53)%Z ->
  let r := fl_update recip sq inv k (IZR k) in
  (fst r = 1 /\ snd r = Some 1) \/ (fst r = 1 - / 2 ^ 53 /\ exists c, snd r = Some c /\ 0 < c <= / 2 ^ 25).
Proof.
  intros recip sq inv k H1 H2 Hk. rewrite <- u_pow in *. replace (/ 2 ^ 25) with (bpow radix2 (-25)) by (cbn; lra).
  apply (all_failed recip sq inv H1 (fun q Hq => proj1 (proj2 (H2 q Hq))) (fun q Hq => proj2 (proj2 (H2 q Hq))) k Hk).
  pose proof u_pos as U. destruct (H2 (1 - u) ltac:(lra)) as ((D & N) & F & _). destruct (rnd_nearest ((1 - u) * (1 - u))) as [D' N'].
  apply nearest_1u; [exact D|exact N|exact F].
Qed.
Print Assumptions C118_all_failed.

(** C118: what the runs of C118_same_run mean: in exact arithmetic the loop over counts is the run of the
    crude estimator, sample j having failed iff its limit state value is negative. *)
Theorem C118_exact_model : forall n o stream tox Gof g prev off fuel st,
  (forall us, Gof us = Ok (map g us)) -> mo_stdv o = 1 -> (0 < mo_block o)%Z ->
  mc_run n o stream (setPoint None) tox Gof fuel prev off = MDone st ->
  let fails j := match nth_error (ms_pts st) j with Some v => Rltb (g v) 0 | None => false end in
  exists c, cnt_run ex_update (mo_samples o) (mo_block o) (mo_target o) fails fuel = Some c /\
    cn_k c = ms_k st /\ cn_fails c = ms_sum_q st /\ cn_cov c = Some (ms_cov st) /\ cnt_Pf c = mc_Pf st /\ cnt_beta c = mc_beta st.
Proof.
  intros n o stream tox Gof g prev off fuel st HG Hs Hb E fails. unfold mc_run in E. destruct (Z.ltb_spec (mo_samples o) 0); [discriminate|]. destruct (Z.eqb_spec (mo_samples o) 0); [discriminate|].
  change (setPoint None) with (fun _ : nat => 0) in E. set (p := fun _ : nat => 0) in *.
  assert (WI : forall v, McProofs.w n o p g v = indicator (g v)) by (intros v; unfold McProofs.w; rewrite Hs; apply weight_crude).
  assert (I2 : forall l, lsum (map (fun v => McProofs.w n o p g v ^ 2) l) = lsum (map (McProofs.w n o p g) l)).
  { intros l. apply lsum_ext. intros v _. rewrite WI. unfold indicator. destruct (Rltb (g v) 0); ring. }
  assert (G : forall fuel s, inv n o p tox g prev off s -> mc_loop n o stream p tox Gof fuel s = MDone st ->
    (exists r, ms_pts st = ms_pts s ++ r) /\
    cnt_loop ex_update (mo_samples o) (mo_block o) (mo_target o) fails fuel (mkcnt (ms_k s) (ms_sum_q s) (ms_qbar s) (Some (ms_cov s))) = Some (mkcnt (ms_k st) (ms_sum_q st) (ms_qbar st) (Some (ms_cov st)))).
  { clear E fuel. induction fuel as [|f IH]; intros s HI E; [discriminate|]. cbn [mc_loop] in E. cbn [cnt_loop cn_k cn_fails].
    destruct (Z.ltb_spec (ms_k s) (mo_samples o)) as [L|L]; [|injection E as <-; split; [exists []; symmetry; apply app_nil_r|reflexivity]].
    set (b := Z.min (mo_block o) (mo_samples o - ms_k s)) in *. destruct (mc_block n o stream p tox Gof s b) as [s1|e] eqn:EB; [|discriminate].
    assert (B0 : (0 < b)%Z) by (unfold b; lia).
    destruct (block_inv n o stream p tox Gof g HG prev off s b s1 HI ltac:(lia) ltac:(unfold b; lia) EB) as (HI1 & Ek & _ & Ebl).
    set (us := map (draw n stream (ms_off s) (Z.to_nat b) p (mo_stdv o)) (seq 0 (Z.to_nat b))) in *.
    assert (P1 : ms_pts s1 = ms_pts s ++ us) by (unfold ms_pts; rewrite Ebl, concat_app; cbn [concat]; rewrite app_nil_r; reflexivity).
    assert (Lus : length us = Z.to_nat b) by (unfold us; rewrite map_length, seq_length; reflexivity).
    assert (X : (exists r, ms_pts st = ms_pts s1 ++ r) /\ ((if Rleb (ms_cov s1) (mo_target o) then Some (mkcnt (ms_k s1) (ms_sum_q s1) (ms_qbar s1) (Some (ms_cov s1))) else cnt_loop ex_update (mo_samples o) (mo_block o) (mo_target o) fails f (mkcnt (ms_k s1) (ms_sum_q s1) (ms_qbar s1) (Some (ms_cov s1)))) = Some (mkcnt (ms_k st) (ms_sum_q st) (ms_qbar st) (Some (ms_cov st))))).
    { destruct (Rleb (ms_cov s1) (mo_target o)); [injection E as <-; split; [exists []; symmetry; apply app_nil_r|reflexivity]|]. apply IH; assumption. }
    destruct X as [[r R1] X2]. split; [exists (us ++ r); rewrite R1, P1, app_assoc; reflexivity|].
    assert (BF : block_fails fails (Z.to_nat (ms_k s)) (Z.to_nat b) = lsum (map (McProofs.w n o p g) us)).
    { unfold block_fails. rewrite (inv_k _ _ _ _ _ _ _ _ HI), Nat2Z.id, <- Lus. assert (FS : forall i, (i < length us)%nat -> fails (length (ms_pts s) + i)%nat = match nth_error us i with Some v => Rltb (g v) 0 | None => false end).
      { intros i Hi. unfold fails. rewrite R1, P1, <- app_assoc, nth_error_app2, Nat.add_comm, Nat.add_sub, nth_error_app1 by lia. reflexivity. }
      clear - FS WI. revert FS. generalize (length (ms_pts s)) as m. induction us as [|v us IH]; intros m FS; [reflexivity|]. cbn [length seq map lsum]. f_equal.
      - specialize (FS O ltac:(cbn; lia)). rewrite Nat.add_0_r in FS. rewrite FS, WI. reflexivity.
      - apply IH. intros i Hi. specialize (FS (S i) ltac:(cbn; lia)). rewrite Nat.add_succ_r in FS. exact FS. }
    assert (SQ : ms_sum_q s + block_fails fails (Z.to_nat (ms_k s)) (Z.to_nat b) = ms_sum_q s1).
    { rewrite BF, (inv_q _ _ _ _ _ _ _ _ HI), (inv_q _ _ _ _ _ _ _ _ HI1), P1, map_app, lsum_app. reflexivity. }
    rewrite SQ, <- Ek. assert (NB : ms_blocks s1 <> []) by (rewrite Ebl; intros C; symmetry in C; apply app_cons_not_nil in C; exact C).
    pose proof (inv_qc _ _ _ _ _ _ _ _ HI1 NB) as QC. rewrite (inv_q2 _ _ _ _ _ _ _ _ HI1), I2, <- (inv_q _ _ _ _ _ _ _ _ HI1) in QC.
    unfold ex_update. rewrite <- QC. cbn [fst snd le_target]. exact X2. }
  destruct (G fuel _ (init_inv n o p tox g prev off ltac:(lia)) E) as [_ X]. eexists. split; [exact X|]. cbn [cn_k cn_fails cn_cov]. repeat split.
Qed.
Print Assumptions C118_exact_model.

Lemma all_block k b : block_fails (fun _ => true) k b = INR b.
Proof. unfold block_fails. revert k. induction b as [|b IH]; intros k; [reflexivity|]. cbn [seq map lsum]. rewrite IH, S_INR. ring. Qed.
Lemma all_step upd samples block target f k q c : (0 <= k < samples)%Z -> (0 < block)%Z ->
  let k' := Z.min (k + block) samples in
  cnt_loop upd samples block target (fun _ => true) (S f) (mkcnt k (IZR k) q c) =
    let st := mkcnt k' (IZR k') (fst (upd k' (IZR k'))) (snd (upd k' (IZR k'))) in
    if le_target (snd (upd k' (IZR k'))) target then Some st else cnt_loop upd samples block target (fun _ => true) f st.
Proof.
  intros Hk Hb. cbv zeta. cbn [cnt_loop cn_k cn_fails]. destruct (Z.ltb_spec k samples) as [L|L]; [|lia]. rewrite all_block.
  replace (k + Z.min block (samples - k))%Z with (Z.min (k + block) samples) by lia.
  replace (IZR k + INR (Z.to_nat (Z.min block (samples - k)))) with (IZR (Z.min (k + block) samples)); [reflexivity|].
  rewrite INR_IZR_INZ, Z2Nat.id, <- plus_IZR by lia. f_equal. lia.
Qed.
Lemma ex_all k : (1 <= k)%Z -> ex_update k (IZR k) = (1, Some 1).
Proof.
  intros Hk. assert (1 <= IZR k) by (apply IZR_le; exact Hk). unfold ex_update, cov_update. assert (Rltb 0 (IZR k) = true) as -> by (apply Rltb_spec; lra). cbn [fst snd]. rewrite Rinv_l by lra.
  replace (1 - 1 ^ 2) with 0 by ring. rewrite Rmult_0_r, sqrt_0, Rmult_0_l. unfold Reqb. destruct (Req_EM_T 0 0); [reflexivity|contradiction].
Qed.

(** C118: in exact arithmetic a run in which every sample fails uses all samples and reports 1 and -inf. *)
Theorem C118_exact_run : forall samples block target fuel, (1 <= samples)%Z -> (1 <= block)%Z -> target < 1 -> (Z.to_nat samples < fuel)%nat ->
  exists st, cnt_run ex_update samples block target (fun _ => true) fuel = Some st /\ cn_k st = samples /\ cnt_Pf st = 1 /\ cnt_beta st = NInf.
Proof.
  intros samples block target fuel Hs Hb Ht Hf. unfold cnt_run.
  assert (FIN : cnt_Pf (mkcnt samples (IZR samples) 1 (Some 1)) = 1).
  { unfold cnt_Pf. cbn [cn_fails cn_qbar]. assert (Rltb 0 (IZR samples) = true) as -> by (apply Rltb_spec, (IZR_lt 0); lia). reflexivity. }
  assert (FB : cnt_beta (mkcnt samples (IZR samples) 1 (Some 1)) = NInf).
  { unfold cnt_beta. rewrite FIN. cbn [cn_fails]. assert (Rltb 0 (IZR samples) = true) as -> by (apply Rltb_spec, (IZR_lt 0); lia).
    rewrite xppf_1. reflexivity. }
  assert (G : forall fuel k q c, (0 <= k <= samples)%Z -> (Z.to_nat (samples - k) < fuel)%nat -> (k = samples -> q = 1 /\ c = Some 1) ->
     exists st, cnt_loop ex_update samples block target (fun _ => true) fuel (mkcnt k (IZR k) q c) = Some st /\ cn_k st = samples /\ cnt_Pf st = 1 /\ cnt_beta st = NInf).
  { clear fuel Hf. induction fuel as [|f IH]; intros k q c Hk Hf E; [lia|]. destruct (Z.eq_dec k samples) as [->|N].
    - destruct (E eq_refl) as [-> ->]. cbn [cnt_loop cn_k]. rewrite Z.ltb_irrefl. eexists. split; [reflexivity|]. split; [reflexivity|]. split; [exact FIN|exact FB].
    - rewrite all_step by lia. cbv zeta. rewrite ex_all by lia. cbn [fst snd le_target]. assert (Rleb 1 target = false) as -> by (apply Rleb_false; exact Ht). apply IH; [lia|lia|]. intros _. split; reflexivity. }
  apply (G fuel 0%Z 0 (Some 1)); [lia|rewrite Z.sub_0_r; exact Hf|lia].
Qed.
Print Assumptions C118_exact_run.

(** C118 refuted: "a run in which every sample fails uses all samples and reports 1" (true in exact
    arithmetic). With powers correctly rounded and the default block size and target: the run stops after
    11000 of 100000 samples with 1 - 2^-53 and a finite reliability index. *)
Theorem C118_default_options_refuted : forall fuel, (Z.to_nat 100000 < fuel)%nat ->
  (exists st, cnt_run (fl_update (fun k => rnd (/ IZR k)) (fun q => rnd (q * q)) (fun q => rnd (/ q))) 100000 1000 (1 / 20) (fun _ => true) fuel = Some st /\
     cn_k st = 11000%Z /\ cnt_Pf st = 1 - / 2 ^ 53 /\ exists b, cnt_beta st = Fin b /\ Phi (- b) = 1 - / 2 ^ 53) /\
  (exists st, cnt_run ex_update 100000 1000 (1 / 20) (fun _ => true) fuel = Some st /\ cn_k st = 100000%Z /\ cnt_Pf st = 1 /\ cnt_beta st = NInf).
Proof.
  intros fuel Hf. split; [|apply C118_exact_run; [lia|lia|lra|exact Hf]].
  change (fun k => rnd (/ IZR k)) with n_recip. change (fun q => rnd (q * q)) with n_sq. change (fun q => rnd (/ q)) with n_inv.
  assert (AF : forall k, (1 <= k <= 2 ^ 53)%Z -> let r := fl_update n_recip n_sq n_inv k (IZR k) in (fst r = 1 /\ snd r = Some 1) \/ (fst r = 1 - / 2 ^ 53 /\ exists c, snd r = Some c /\ 0 < c <= / 2 ^ 25)).
  { intros k Hk. apply C118_all_failed; [|intros q Hq; split; [apply rnd_nearest|split; apply rnd_faithful]|exact Hk]. intros k' Hk'. rewrite <- u_pow. apply n_recip_ok, Hk'. }
  assert (FQ : forall k, (1 <= k)%Z -> fst (fl_update n_recip n_sq n_inv k (IZR k)) = rnd (n_recip k * IZR k)).
  { intros k Hk. unfold fl_update. assert (Rltb 0 (IZR k) = true) as -> by (apply Rltb_spec, (IZR_lt 0); lia). cbv zeta. destruct (Rltb _ 0); reflexivity. }
  assert (U := u_pos). assert (UP := u_pow).
  assert (ONE : forall k m N, (1 <= k <= 2 ^ 53)%Z -> chk k m N = true -> chk1 k m N = true -> fl_update n_recip n_sq n_inv k (IZR k) = (1, Some 1)).
  { intros k m N Hk C C1. pose proof (proj1 (q_one k m N Hk C) C1) as Q. destruct (AF k Hk) as [[A B]|[A _]]; rewrite (FQ k) in A by lia; [|lra].
    rewrite (surjective_pairing (fl_update _ _ _ _ _)), (FQ k), B, Q by lia. reflexivity. }
  assert (STEP : forall f k q c m N, (0 <= k <= 90000)%Z -> chk (k + 1000) m N = true -> chk1 (k + 1000) m N = true ->
    cnt_loop (fl_update n_recip n_sq n_inv) 100000 1000 (1 / 20) (fun _ => true) (S f) (mkcnt k (IZR k) q c) = cnt_loop (fl_update n_recip n_sq n_inv) 100000 1000 (1 / 20) (fun _ => true) f (mkcnt (k + 1000) (IZR (k + 1000)) 1 (Some 1))).
  { intros f k q c m N Hk C C1. rewrite all_step by lia. rewrite Z.min_l by lia. rewrite (ONE (k + 1000)%Z m N ltac:(lia) C C1). cbn [fst snd le_target]. assert (Rleb 1 (1 / 20) = false) as -> by (apply Rleb_false; lra). reflexivity. }
  assert (exists f, fuel = S (S (S (S (S (S (S (S (S (S (S f))))))))))) as [f ->].
  { exists (fuel - 11)%nat. assert (11 <= Z.to_nat 100000)%nat; [|lia]. change 11%nat with (Z.to_nat 11). apply Z2Nat.inj_le; lia. }
  clear Hf. unfold cnt_run.
  rewrite (STEP _ 0%Z _ _ 4611686018427388%Z 62%Z ltac:(lia) eq_refl eq_refl). cbn [Z.add Pos.add Pos.succ Pos.add_carry].
  rewrite (STEP _ 1000%Z _ _ 4611686018427388%Z 63%Z ltac:(lia) eq_refl eq_refl). cbn [Z.add Pos.add Pos.succ Pos.add_carry].
  rewrite (STEP _ 2000%Z _ _ 6148914691236517%Z 64%Z ltac:(lia) eq_refl eq_refl). cbn [Z.add Pos.add Pos.succ Pos.add_carry].
  rewrite (STEP _ 3000%Z _ _ 4611686018427388%Z 64%Z ltac:(lia) eq_refl eq_refl). cbn [Z.add Pos.add Pos.succ Pos.add_carry].
  rewrite (STEP _ 4000%Z _ _ 7378697629483821%Z 65%Z ltac:(lia) eq_refl eq_refl). cbn [Z.add Pos.add Pos.succ Pos.add_carry].
  rewrite (STEP _ 5000%Z _ _ 6148914691236517%Z 65%Z ltac:(lia) eq_refl eq_refl). cbn [Z.add Pos.add Pos.succ Pos.add_carry].
  rewrite (STEP _ 6000%Z _ _ 5270498306774158%Z 65%Z ltac:(lia) eq_refl eq_refl). cbn [Z.add Pos.add Pos.succ Pos.add_carry].
  rewrite (STEP _ 7000%Z _ _ 4611686018427388%Z 65%Z ltac:(lia) eq_refl eq_refl). cbn [Z.add Pos.add Pos.succ Pos.add_carry].
  rewrite (STEP _ 8000%Z _ _ 8198552921648690%Z 66%Z ltac:(lia) eq_refl eq_refl). cbn [Z.add Pos.add Pos.succ Pos.add_carry].
  rewrite (STEP _ 9000%Z _ _ 7378697629483821%Z 66%Z ltac:(lia) eq_refl eq_refl). cbn [Z.add Pos.add Pos.succ Pos.add_carry].
  rewrite (all_step _ 100000 1000 (1 / 20) f 10000) by lia. cbv zeta. change (Z.min (10000 + 1000) 100000) with 11000%Z.
  pose proof (proj2 (q_one 11000 6707906935894382 66 ltac:(lia) eq_refl) eq_refl) as Q. pose proof (FQ 11000%Z ltac:(lia)) as F. rewrite Q in F.
  destruct (AF 11000%Z ltac:(lia)) as [[A _]|[A (c & B & C)]]; [lra|]. rewrite B, A. cbn [le_target]. assert (P25 : / 2 ^ 25 <= 1 / 20) by (cbn; lra).
  assert (Rleb c (1 / 20) = true) as -> by (apply Rleb_spec; lra). eexists. split; [reflexivity|]. split; [reflexivity|].
  assert (PF : cnt_Pf (mkcnt 11000 (IZR 11000) (1 - / 2 ^ 53) (Some c)) = 1 - / 2 ^ 53). { unfold cnt_Pf. cbn [cn_fails cn_qbar]. assert (Rltb 0 (IZR 11000) = true) as -> by (apply Rltb_spec; lra). reflexivity. }
  split; [exact PF|]. exists (- ppf (1 - / 2 ^ 53)). unfold cnt_beta. rewrite PF. cbn [cn_fails]. assert (Rltb 0 (IZR 11000) = true) as -> by (apply Rltb_spec; lra).
  rewrite xppf_in by (rewrite <- UP; lra). split; [reflexivity|]. rewrite Ropp_involutive. apply Phi_ppf. rewrite <- UP. lra.
Qed.
Print Assumptions C118_default_options_refuted.

(** The hypotheses of C118 hold for correctly rounded powers, and those of C118_same_run for a concrete run:
    every fifth of 1000 samples fails, blocks of 100, target 1/10. *)
Example C118_powers : 
  (forall k, (1 <= k <= 2 ^ 53)%Z -> faithful (/ IZR k) (rnd (/ IZR k)) /\ double (rnd (/ IZR k)) /\ Rabs (rnd (/ IZR k) * IZR k - 1) <= / 2 ^ 53) /\
  (forall q, nearest (q * q) (rnd (q * q)) /\ faithful (q * q) (rnd (q * q)) /\ faithful (/ q) (rnd (/ q))).
Proof.
  split.
  - intros k Hk. split; [apply rnd_faithful|]. rewrite <- u_pow. apply (n_recip_ok k Hk).
  - intros q. split; [apply rnd_nearest|split; apply rnd_faithful].
Qed.
Example C118_same_run_applies :
  let fails j := Nat.eqb (j mod 5) 0 in
  (forall j, (1 <= j)%Z -> let k := Z.min (j * 100) 1000 in let s := failures fails k in
     s = 0%Z \/ ((1 <= s)%Z /\ (2 * s <= k)%Z /\ 20 / 2 ^ 53 * exact_cov k s < Rabs (exact_cov k s - 3 / 20))) /\
  exists st, cnt_run ex_update 1000 100 (3 / 20) fails 11 = Some st /\ cn_k st = 200%Z /\ cnt_Pf st = 1 / 5.
Proof.
  intros fails.
  assert (FK : forall i, (1 <= i <= 10)%Z -> failures fails (i * 100) = (i * 20)%Z).
  { intros i Hi. assert (i = 1 \/ i = 2 \/ i = 3 \/ i = 4 \/ i = 5 \/ i = 6 \/ i = 7 \/ i = 8 \/ i = 9 \/ i = 10)%Z as H by lia.
    destruct H as [->|[->|[->|[->|[->|[->|[->|[->|[->| ->]]]]]]]]]; vm_compute; reflexivity. }
  assert (EC : forall i, (1 <= i)%Z -> exact_cov (i * 100) (i * 20) = / 5 * / sqrt (IZR i)).
  { intros i Hi. assert (1 <= IZR i) by (apply IZR_le; exact Hi). unfold exact_cov. rewrite !mult_IZR. replace (IZR i * 20 / (IZR i * 100)) with (1 / 5) by (field; lra).
    replace (1 / 5 * (1 - 1 / 5) / (IZR i * 100)) with ((/ 25) ^ 2 * / IZR i) by (field; lra). rewrite sqrt_mult_alt, sqrt_pow2, sqrt_inv by (try apply pow2_ge_0; lra). field. apply Rgt_not_eq, sqrt_lt_R0. lra. }
  assert (E2 : / 5 * / sqrt (IZR 2) <= 3 / 20 - / 200).
  { assert (S2 : 14 / 10 <= sqrt 2) by (rewrite <- (sqrt_pow2 (14 / 10)) by lra; apply sqrt_le_1_alt; lra). assert (/ sqrt 2 <= / (14 / 10)) by (apply Rinv_le_contravar; lra). lra. }
  split.
  - intros j Hj k s. right. assert (exists i, (1 <= i <= 10)%Z /\ k = (i * 100)%Z) as (i & Hi & K) by (exists (Z.min j 10); unfold k; lia).
    assert (S : s = (i * 20)%Z) by (unfold s; rewrite K; apply FK, Hi). rewrite S, K, EC by lia. split; [lia|]. split; [lia|].
    assert (C1 : 0 < / 5 * / sqrt (IZR i) <= / 5). { assert (1 <= IZR i) by (apply IZR_le; lia). assert (1 <= sqrt (IZR i)) by (rewrite <- sqrt_1 at 1; apply sqrt_le_1_alt; lra). assert (0 < / sqrt (IZR i)) by (apply Rinv_0_lt_compat; lra). assert (/ sqrt (IZR i) <= 1) by (rewrite <- Rinv_1; apply Rinv_le_contravar; lra). lra. }
    assert (T : 20 / 2 ^ 53 <= / 1000) by (cbn; lra). assert (T0 : 0 < 20 / 2 ^ 53) by (unfold Rdiv; rewrite <- u_pow; pose proof u_pos; lra).
    assert (X : 20 / 2 ^ 53 * (/ 5 * / sqrt (IZR i)) <= / 1000 * / 5) by (apply Rmult_le_compat; lra).
    destruct (Z.eq_dec i 1) as [->|N].
    + rewrite sqrt_1, Rinv_1, Rmult_1_r in *. rewrite Rabs_right by lra. lra.
    + assert (sqrt 2 <= sqrt (IZR i)) by (apply sqrt_le_1_alt, IZR_le; lia). assert (0 < sqrt 2) by (apply sqrt_lt_R0; lra). assert (/ sqrt (IZR i) <= / sqrt 2) by (apply Rinv_le_contravar; lra). rewrite Rabs_left1 by lra. lra.
  - unfold cnt_run.
    assert (ST : forall f i q c, (0 <= i <= 9)%Z -> cnt_loop ex_update 1000 100 (3 / 20) fails (S f) (mkcnt (i * 100) (IZR (i * 20)) q c) =
       let st := mkcnt ((i + 1) * 100) (IZR ((i + 1) * 20)) (1 / 5) (Some (/ 5 * / sqrt (IZR (i + 1)))) in if Rleb (/ 5 * / sqrt (IZR (i + 1))) (3 / 20) then Some st else cnt_loop ex_update 1000 100 (3 / 20) fails f st).
    { intros f i q c Hi. cbn [cnt_loop cn_k cn_fails]. destruct (Z.ltb_spec (i * 100) 1000) as [L|L]; [|lia]. replace (Z.min 100 (1000 - i * 100)) with 100%Z by lia.
      assert (F0 : failures fails (i * 100) = (i * 20)%Z) by (destruct (Z.eq_dec i 0) as [->|N]; [reflexivity|apply FK; lia]).
      replace (i * 100 + 100)%Z with ((i + 1) * 100)%Z by ring.
      assert (F1 : IZR (i * 20) + block_fails fails (Z.to_nat (i * 100)) (Z.to_nat 100) = IZR ((i + 1) * 20)).
      { rewrite <- F0, <- (FK (i + 1)%Z) by lia. replace ((i + 1) * 100)%Z with (i * 100 + 100)%Z by ring. symmetry. apply fails_split; lia. }
      rewrite F1, exact_is, EC by lia. cbn [fst snd le_target].
      assert (1 <= IZR (i + 1)) by (apply IZR_le; lia). replace (IZR ((i + 1) * 20) / IZR ((i + 1) * 100)) with (1 / 5) by (rewrite !mult_IZR; field; lra). reflexivity. }
    pose proof (ST 10%nat 0%Z 0 (Some 1) ltac:(lia)) as A. pose proof (ST 9%nat 1%Z (1 / 5) (Some (/ 5 * / sqrt (IZR 1))) ltac:(lia)) as B. cbv zeta in A, B.
    rewrite !Z.mul_0_l, !Z.add_0_l, Z.mul_1_l in A. change (IZR (1 * 20)) with (IZR 20) in B. change (1 * 100)%Z with 100%Z in B. change (1 * 20)%Z with 20%Z in A.
    eexists. split; [rewrite A|].
    { assert (Rleb (/ 5 * / sqrt (IZR 1)) (3 / 20) = false) as -> by (apply Rleb_false; rewrite sqrt_1, Rinv_1; lra). rewrite B. change (1 + 1)%Z with 2%Z. assert (Rleb (/ 5 * / sqrt (IZR 2)) (3 / 20) = true) as -> by (apply Rleb_spec; lra). reflexivity. }
    split; [reflexivity|]. unfold cnt_Pf. cbn [cn_fails cn_qbar]. assert (Rltb 0 (IZR (2 * 20)) = true) as -> by (apply Rltb_spec, (IZR_lt 0); lia). reflexivity.
Qed.
