(** Property theorems C28 - C33.

    [Gof] is the step that transforms a block of standard-normal points and
    evaluates the limit state on it; the contract [forall us, Gof us = Ok (map g us)]
    says the limit state is evaluated point by point without raising, g being the
    limit state seen from standard-normal space.  C28_limit_state_contract shows
    the model's own evaluation meets it. *)
From Coquelicot Require Import Coquelicot.
From Verif Require Import Base Ext Gauss GaussProofs StochModel StochModelSpec LimitState LimitStateSpec
  Transf Form FormProofs Sorm SormProofs Mc McSpec McProofs McRunProofs.
From Coq Require Import ZArith Lra Lia.

Theorem C28_limit_state_contract : forall h expr f o invT m,
  o_multi_proc o <> 0%Z -> pointwise expr f -> (1 <= ndists h)%nat -> (1 <= o_block_size o)%Z ->
  forall us, mc_limit_state (sm_run h) expr o (ndists h) invT m us =
    Ok (map (fun u => f (args_at h (vlist (ndists h) (u_to_x (ndists h) invT m u)))) us).
Proof. exact mc_limit_state_ok. Qed.
Print Assumptions C28_limit_state_contract.

(** C28: the crude estimator, for every stream, block size and sample count. *)
Theorem C28_crude_estimate : forall n o stream tox Gof g prev off fuel st,
  (forall us, Gof us = Ok (map g us)) -> mo_stdv o = 1 -> (0 < mo_block o)%Z ->
  mc_run n o stream (setPoint None) tox Gof fuel prev off = MDone st ->
  let k := List.length (ms_pts st) in
  ms_k st = Z.of_nat k /\ (0 < ms_k st <= mo_samples o)%Z /\
  mc_Pf st = INR (nfail g (ms_pts st)) / INR k /\ 0 <= mc_Pf st <= 1 /\
  ms_off st = (off + n * k)%nat.
Proof.
  intros n o stream tox Gof g prev off fuel st HG Hs Hb E k.
  destruct (run_inv n o stream (setPoint None) tox Gof g HG prev off fuel st Hb E) as (HI & Kp & _).
  destruct (run_Pf n o stream (setPoint None) tox Gof g HG prev off fuel st Hb ltac:(lra) E) as [P1 P2].
  destruct HI as [I1 I2 I3 _ _ _ _ _].
  assert (KP : 0 < INR k) by (apply (lt_INR 0); unfold k; lia).
  assert (E1 : mc_Pf st = INR (nfail g (ms_pts st)) / INR k).
  { rewrite P1, I1, <- INR_IZR_INZ. f_equal. rewrite <- lsum_indicator. apply lsum_ext. intros u _. cbn [setPoint]. apply w_crude. exact Hs. }
  refine (conj I1 (conj (conj Kp I2) (conj E1 (conj (conj P2 _) I3)))).
  rewrite E1. apply (Rmult_le_reg_r (INR k)); [exact KP|]. unfold Rdiv. rewrite Rmult_assoc, Rinv_l, Rmult_1_r, Rmult_1_l by lra.
  apply le_INR, nfail_le.
Qed.
Print Assumptions C28_crude_estimate.

(** C28: the reported index. *)
Theorem C28_beta : forall n o stream tox Gof g prev off fuel st,
  (forall us, Gof us = Ok (map g us)) -> mo_stdv o = 1 -> (0 < mo_block o)%Z ->
  mc_run n o stream (setPoint None) tox Gof fuel prev off = MDone st ->
  (0 < mc_Pf st < 1 -> exists b, mc_beta st = Fin b /\ Phi (- b) = mc_Pf st) /\
  (mc_Pf st = 1 -> mc_beta st = NInf).
Proof.
  intros n o stream tox Gof g prev off fuel st HG Hs Hb E. unfold mc_beta.
  assert (S : 0 < mc_Pf st -> Rltb 0 (ms_sum_q st) = true).
  { unfold mc_Pf. destruct (Rltb 0 (ms_sum_q st)); [reflexivity|intros; lra]. }
  split.
  - intros [A B]. rewrite S by exact A. rewrite xppf_in by lra. cbn [xneg]. eexists. split; [reflexivity|].
    rewrite Ropp_involutive. apply Phi_ppf. lra.
  - intros P1. rewrite S by lra. rewrite P1. unfold xppf.
    destruct (Rltb 1 0) eqn:C; [apply Rltb_spec in C; lra|].
    destruct (Rltb 1 1) eqn:C1; [apply Rltb_spec in C1; lra|].
    rewrite (Phi_inv_ge1 1) by lra. reflexivity.
Qed.
Print Assumptions C28_beta.

(** C28: a run with a positive block size always returns. *)
Theorem C28_terminates : forall n o stream p tox Gof g prev off fuel,
  (forall us, Gof us = Ok (map g us)) -> (0 < mo_block o)%Z -> (0 < mo_samples o)%Z -> mo_rg o = 0%Z ->
  (Z.to_nat (mo_samples o) < fuel)%nat ->
  exists st, mc_run n o stream p tox Gof fuel prev off = MDone st.
Proof.
  intros n o stream p tox Gof g prev off fuel HG Hb Hs Hr Hf. unfold mc_run.
  destruct (Z.ltb_spec (mo_samples o) 0); [lia|]. destruct (Z.eqb_spec (mo_samples o) 0); [lia|].
  apply (loop_term n o stream p tox Gof g HG prev off); [exact Hb|apply init_inv; exact Hs| |exact Hr].
  cbn [ms_k]. rewrite Z.sub_0_r. exact Hf.
Qed.
Print Assumptions C28_terminates.

(** C28: a zero block size makes the run loop forever (for a target below 1). *)
Theorem C28_zero_block_diverges : forall n o stream p tox Gof g prev off,
  (forall us, Gof us = Ok (map g us)) -> mo_block o = 0%Z -> (0 < mo_samples o)%Z -> mo_rg o = 0%Z ->
  mo_target o < 1 -> forall fuel, mc_run n o stream p tox Gof fuel prev off = MFuel.
Proof.
  intros n o stream p tox Gof g prev off HG Hb Hs Hr Ht fuel. unfold mc_run.
  destruct (Z.ltb_spec (mo_samples o) 0); [lia|]. destruct (Z.eqb_spec (mo_samples o) 0); [lia|].
  apply (loop_zero_diverges n o stream p tox Gof g HG Hb Hs Hr Ht); reflexivity.
Qed.
Print Assumptions C28_zero_block_diverges.

(** C28: with one random variable the block size does not matter. *)
Theorem C28_block_size_irrelevant_one_variable : forall o1 o2 stream p tox Gof g prev off f1 f2 s1 s2,
  (forall us, Gof us = Ok (map g us)) ->
  (forall u v : vec, u 0%nat = v 0%nat -> g u = g v) ->
  mo_stdv o1 = mo_stdv o2 -> 0 < mo_stdv o1 -> (0 < mo_block o1)%Z -> (0 < mo_block o2)%Z ->
  mc_run 1 o1 stream p tox Gof f1 prev off = MDone s1 ->
  mc_run 1 o2 stream p tox Gof f2 prev off = MDone s2 ->
  ms_k s1 = ms_k s2 -> mc_Pf s1 = mc_Pf s2.
Proof.
  intros o1 o2 stream p tox Gof g prev off f1 f2 s1 s2 HG Hg Hs Hp B1 B2 E1 E2 K.
  destruct (run_Pf 1 o1 stream p tox Gof g HG prev off f1 s1 B1 Hp E1) as [P1 _].
  destruct (run_Pf 1 o2 stream p tox Gof g HG prev off f2 s2 B2 ltac:(lra) E2) as [P2 _].
  destruct (run_inv 1 o1 stream p tox Gof g HG prev off f1 s1 B1 E1) as (I1 & _). destruct I1 as [K1 _ _ _ _ _ _ _].
  destruct (run_inv 1 o2 stream p tox Gof g HG prev off f2 s2 B2 E2) as (I2 & _). destruct I2 as [K2 _ _ _ _ _ _ _].
  rewrite P1, P2, K. do 2 f_equal.
  apply (map_by_nth (A:=vec) (fun _ => 0)); [lia|]. intros j Hj.
  assert (Q : nth j (ms_pts s1) (fun _ => 0) 0%nat = nth j (ms_pts s2) (fun _ => 0) 0%nat).
  { rewrite (pts_nrv1 o1 stream p tox Gof g prev off f1 s1 HG ltac:(lia) E1) by exact Hj.
    rewrite (pts_nrv1 o2 stream p tox Gof g prev off f2 s2 HG ltac:(lia) E2) by lia. rewrite Hs. reflexivity. }
  unfold w. rewrite !weight_form, Hs. unfold dot. cbn [fsum].
  rewrite (Hg _ _ Q). rewrite Q. reflexivity.
Qed.
Print Assumptions C28_block_size_irrelevant_one_variable.

(** C28: with two random variables it does: the block is filled row by row from
    the stream.  Two draws, no early stop, same stream. *)
Definition ex_stream (i : nat) : R := match i with 2%nat => 1 | 3%nat => 1 | _ => 0 end.
Definition ex_g (u : vec) : R := u 0%nat - u 1%nat.
Definition ex_o (b : Z) : mc_opts := mkmo 2 b 0 1 0.

Theorem C28_block_size_matters_refuted :
  exists s1 s2,
    mc_run 2 (ex_o 1) ex_stream (setPoint None) (fun u => u) (fun us => Ok (map ex_g us)) 3 mc_fresh 0 = MDone s1 /\
    mc_run 2 (ex_o 2) ex_stream (setPoint None) (fun u => u) (fun us => Ok (map ex_g us)) 3 mc_fresh 0 = MDone s2 /\
    ms_k s1 = 2%Z /\ ms_k s2 = 2%Z /\ mc_Pf s1 = 0 /\ mc_Pf s2 = 1.
Proof.
  assert (HG : forall us : list vec, Ok (map ex_g us) = Ok (map ex_g us)) by reflexivity.
  destruct (C28_terminates 2 (ex_o 1) ex_stream (setPoint None) (fun u => u) (fun us => Ok (map ex_g us)) ex_g mc_fresh 0 3 HG
              ltac:(cbn; lia) ltac:(cbn; lia) eq_refl ltac:(cbn; lia)) as [s1 E1].
  destruct (C28_terminates 2 (ex_o 2) ex_stream (setPoint None) (fun u => u) (fun us => Ok (map ex_g us)) ex_g mc_fresh 0 3 HG
              ltac:(cbn; lia) ltac:(cbn; lia) eq_refl ltac:(cbn; lia)) as [s2 E2].
  exists s1, s2. split; [exact E1|]. split; [exact E2|].
  assert (D : forall off b p j, draw 2 ex_stream off b (fun _ => 0) 1 j p = if Nat.ltb p 2 then ex_stream (off + p * b + j)%nat else draw 2 ex_stream off b (fun _ => 0) 1 j p).
  { intros. destruct (Nat.ltb_spec p 2); [|reflexivity]. rewrite draw_entry by assumption. ring. }
  (* run 1: blocks of one point *)
  assert (R1 : ms_k s1 = 2%Z /\ nfail ex_g (ms_pts s1) = 0%nat).
  { destruct (C28_crude_estimate 2 (ex_o 1) ex_stream (fun u => u) _ ex_g mc_fresh 0 3 s1 HG eq_refl ltac:(cbn; lia) E1) as (K1 & [K2 K3] & P1 & P2 & _).
    assert (NF : nfail ex_g (ms_pts s1) = 0%nat).
    { apply nfail_zero. intros u Hu. apply (In_nth (A:=vec) _ _ (fun _ => 0)) in Hu. destruct Hu as (j & Hj & <-).
      destruct (nth_concat_firstn (A:=vec) (fun _ : nat => 0) (ms_blocks s1) j Hj) as (m & H1 & H2 & H3 & H4).
      destruct (run_layout 2 (ex_o 1) ex_stream (setPoint None) (fun u => u) _ ex_g HG mc_fresh 0%nat 3 s1 ltac:(cbn; lia) E1 m H1) as [L K].
      cbv zeta in *. unfold ms_pts in *. rewrite H4. rewrite L in H3. cbn [mo_block mo_samples ex_o] in *.
      set (done := List.length (concat (firstn m (ms_blocks s1)))) in *.
      unfold ex_g. rewrite !K by lia. cbn [setPoint mo_stdv ex_o].
      replace (Z.to_nat (Z.min 1 (2 - Z.of_nat done))) with 1%nat in * by lia.
      replace (j - done)%nat with 0%nat by lia.
      assert (done = 0 \/ done = 1)%nat as [-> | ->] by lia; cbn; lra. }
    split; [|exact NF].
    destruct (run_inv 2 (ex_o 1) ex_stream (setPoint None) (fun u => u) _ ex_g HG mc_fresh 0%nat 3 s1 ltac:(cbn; lia) E1) as (I1 & _ & NB & [C|C] & _); [|exact C].
    exfalso. destruct I1 as [_ _ _ I4 _ I6 _ _]. specialize (I6 NB).
    assert (Z0 : ms_sum_q s1 = 0).
    { rewrite I4. rewrite (lsum_ext _ (fun u => indicator (ex_g u))) by (intros; apply w_crude; reflexivity).
      rewrite lsum_indicator, NF. reflexivity. }
    rewrite Z0 in I6. unfold cov_update in I6. destruct (Rltb 0 0) eqn:Z1; [apply Rltb_spec in Z1; lra|].
    injection I6 as _ I6. rewrite I6 in C. cbn in C. lra. }
  assert (R2 : ms_k s2 = 2%Z /\ nfail ex_g (ms_pts s2) = List.length (ms_pts s2)).
  { destruct (C28_crude_estimate 2 (ex_o 2) ex_stream (fun u => u) _ ex_g mc_fresh 0 3 s2 HG eq_refl ltac:(cbn; lia) E2) as (K1 & [K2 K3] & P1 & P2 & _).
    cbn [mo_samples ex_o] in *.
    assert (NF : nfail ex_g (ms_pts s2) = List.length (ms_pts s2) /\ (0 < List.length (ms_blocks s2))%nat).
    { split; [|destruct (ms_blocks s2) eqn:EB; [unfold ms_pts in K1; rewrite EB in K1; cbn in K1; lia|cbn; lia]].
      apply nfail_all. intros u Hu. apply (In_nth (A:=vec) _ _ (fun _ => 0)) in Hu. destruct Hu as (j & Hj & <-).
      destruct (nth_concat_firstn (A:=vec) (fun _ : nat => 0) (ms_blocks s2) j Hj) as (m & H1 & H2 & H3 & H4).
      destruct (run_layout 2 (ex_o 2) ex_stream (setPoint None) (fun u => u) _ ex_g HG mc_fresh 0%nat 3 s2 ltac:(cbn; lia) E2 m H1) as [L K].
      cbv zeta in *. unfold ms_pts in *. rewrite H4. rewrite L in H3. cbn [mo_block mo_samples ex_o] in *.
      set (done := List.length (concat (firstn m (ms_blocks s2)))) in *.
      assert (D0 : done = 0%nat).
      { destruct m as [|m']; [reflexivity|]. exfalso.
        destruct (run_layout 2 (ex_o 2) ex_stream (setPoint None) (fun u => u) _ ex_g HG mc_fresh 0%nat 3 s2 ltac:(cbn; lia) E2 0%nat ltac:(lia)) as [L0 _].
        cbn [firstn concat mo_block mo_samples ex_o List.length] in L0. change (Z.to_nat (Z.min 2 (2 - Z.of_nat 0))) with 2%nat in L0.
        destruct (ms_blocks s2) as [|b0 bl]; [cbn in L0; lia|]. cbn [nth] in L0.
        unfold done in *. cbn [firstn concat] in *. rewrite app_length in *. lia. }
      rewrite D0 in *.
      unfold ex_g. rewrite !K by lia. cbn [setPoint mo_stdv ex_o].
      change (Z.to_nat (Z.min 2 (2 - Z.of_nat 0))) with 2%nat in *. rewrite Nat.sub_0_r in *.
      assert (j = 0 \/ j = 1)%nat as [-> | ->] by lia; cbn; lra. }
    split; [|apply NF]. destruct NF as [_ NB].
    destruct (run_layout 2 (ex_o 2) ex_stream (setPoint None) (fun u => u) _ ex_g HG mc_fresh 0%nat 3 s2 ltac:(cbn; lia) E2 0%nat NB) as [L0 _].
    cbn [firstn concat mo_block mo_samples ex_o List.length] in L0. change (Z.to_nat (Z.min 2 (2 - Z.of_nat 0))) with 2%nat in L0.
    unfold ms_pts in K1. destruct (ms_blocks s2) as [|b0 bl]; [cbn in L0; lia|]. cbn [nth] in L0. cbn [concat] in K1. rewrite app_length, L0 in K1. lia. }
  destruct R1 as [A1 A2]. destruct R2 as [B1 B2].
  refine (conj A1 (conj B1 _)).
  destruct (C28_crude_estimate 2 (ex_o 1) ex_stream (fun u => u) _ ex_g mc_fresh 0 3 s1 HG eq_refl ltac:(cbn; lia) E1) as (K1 & _ & P1 & _).
  destruct (C28_crude_estimate 2 (ex_o 2) ex_stream (fun u => u) _ ex_g mc_fresh 0 3 s2 HG eq_refl ltac:(cbn; lia) E2) as (K2 & _ & P2 & _).
  rewrite P1, P2, A2, B2. replace (List.length (ms_pts s2)) with 2%nat by lia. split; [cbn; unfold Rdiv; ring|cbn; field].
Qed.
Print Assumptions C28_block_size_matters_refuted.

(** C29: the weight of a failing point is the likelihood ratio; safe points weigh 0. *)
Theorem C29_weight_is_likelihood_ratio : forall n p s u g, 0 < s ->
  (g < 0 -> weight n p s u (indicator g) = joint_density n u / sampling_density n p s u) /\
  (0 <= g -> weight n p s u (indicator g) = 0) /\ 0 < sampling_density n p s u.
Proof.
  intros n p s u g Hs. rewrite (weight_ratio n p s u _ Hs). unfold indicator.
  refine (conj _ (conj _ (sampling_density_pos n p s u Hs))); intros H.
  - destruct (Rltb g 0) eqn:E; [ring|apply Rltb_false in E; lra].
  - destruct (Rltb g 0) eqn:E; [apply Rltb_spec in E; lra|ring].
Qed.
Print Assumptions C29_weight_is_likelihood_ratio.

(** the points really are drawn from the density C29 divides by: coordinate i of a
    point is p_i + s times a standard normal number of the stream, each number
    being used once. *)
Theorem C29_draw_is_shifted_scaled : forall n stream off b p s j i, (i < n)%nat ->
  draw n stream off b p s j i = p i + s * stream (off + i * b + j)%nat.
Proof. exact draw_entry. Qed.
Print Assumptions C29_draw_is_shifted_scaled.

Theorem C29_Pf_is_mean_weight : forall n o stream p tox Gof g prev off fuel st,
  (forall us, Gof us = Ok (map g us)) -> 0 < mo_stdv o -> (0 < mo_block o)%Z ->
  mc_run n o stream p tox Gof fuel prev off = MDone st ->
  mc_Pf st = lsum (map (fun u => if Rltb (g u) 0 then joint_density n u / sampling_density n p (mo_stdv o) u else 0) (ms_pts st))
             / INR (List.length (ms_pts st)) /\ 0 <= mc_Pf st.
Proof.
  intros n o stream p tox Gof g prev off fuel st HG Hs Hb E.
  destruct (run_Pf n o stream p tox Gof g HG prev off fuel st Hb Hs E) as [P1 P2].
  destruct (run_inv n o stream p tox Gof g HG prev off fuel st Hb E) as (HI & _). destruct HI as [I1 _ _ _ _ _ _ _].
  split; [|exact P2]. rewrite P1, I1, <- INR_IZR_INZ. f_equal. apply lsum_ext. intros u _. unfold w. rewrite weight_ratio by exact Hs.
  unfold indicator. destruct (Rltb (g u) 0); ring.
Qed.
Print Assumptions C29_Pf_is_mean_weight.

Theorem C29_unit_sampling_is_crude : forall n u g, weight n (setPoint None) 1 u (indicator g) = indicator g.
Proof. intros. apply weight_crude. Qed.
Print Assumptions C29_unit_sampling_is_crude.

(** C30: stopping rule and recorded coefficient of variation, crude case. *)
Theorem C30_stopping_rule : forall n o stream tox Gof g prev off fuel st,
  (forall us, Gof us = Ok (map g us)) -> mo_stdv o = 1 -> (0 < mo_block o)%Z ->
  mc_run n o stream (setPoint None) tox Gof fuel prev off = MDone st ->
  let nb := List.length (ms_blocks st) in
  let upto m := concat (firstn m (ms_blocks st)) in
  let cov m := crude_cov (INR (List.length (upto m))) (INR (nfail g (upto m))) in
  (* one record per block end *)
  ms_hist st = map (fun m => (Z.of_nat (List.length (upto m)), INR (nfail g (upto m)) / INR (List.length (upto m)), cov m)) (seq 1 nb) /\
  (* block sizes *)
  (forall m, (m < nb)%nat -> Z.of_nat (List.length (nth m (ms_blocks st) [])) =
      Z.min (mo_block o) (mo_samples o - Z.of_nat (List.length (upto m)))) /\
  (* no block end before the last met the target *)
  (forall m, (1 <= m < nb)%nat -> mo_target o < cov m) /\
  (* the last one did, or the samples are used up *)
  (cov nb <= mo_target o \/ ms_k st = mo_samples o).
Proof.
  intros n o stream tox Gof g prev off fuel st HG Hs Hb E nb upto cov.
  pose proof (run_hist n o stream (setPoint None) tox Gof g HG prev off fuel st ltac:(lia) E) as Hh.
  pose proof (run_layout n o stream (setPoint None) tox Gof g HG prev off fuel st ltac:(lia) E) as Hl.
  destruct (run_inv n o stream (setPoint None) tox Gof g HG prev off fuel st Hb E) as (HI & Kp & NB & ST & (h & HO & Hst)).
  destruct HI as [I1 I2 I3 I4 I5 I6 I7 I8].
  assert (BL : forall m, (m < nb)%nat -> List.length (nth m (ms_blocks st) []) = Z.to_nat (Z.min (mo_block o) (mo_samples o - Z.of_nat (List.length (upto m))))).
  { intros m Hm. apply (Hl m Hm). }
  assert (UP : forall m, (m <= nb)%nat -> (List.length (upto m) <= List.length (ms_pts st))%nat).
  { intros m Hm. unfold upto, ms_pts. rewrite <- (firstn_skipn m (ms_blocks st)) at 2. rewrite concat_app, app_length. lia. }
  assert (US : forall m, (m < nb)%nat -> List.length (upto (S m)) = (List.length (upto m) + List.length (nth m (ms_blocks st) []))%nat).
  { intros m Hm. unfold upto. rewrite <- (firstn_skipn m (firstn (S m) (ms_blocks st))).
    rewrite firstn_firstn, Nat.min_l by lia. rewrite skipn_firstn_comm. replace (S m - m)%nat with 1%nat by lia.
    rewrite concat_app, app_length. f_equal.
    destruct (nth_split (ms_blocks st) [] Hm) as (l1 & l2 & Q & L1). rewrite Q at 1.
    rewrite skipn_app, L1, Nat.sub_diag, skipn_all2 by lia. cbn [skipn app firstn concat]. rewrite app_nil_r. reflexivity. }
  assert (NE : forall m, (1 <= m <= nb)%nat -> upto m <> []).
  { intros m Hm C. assert (L : List.length (upto m) = 0%nat) by (rewrite C; reflexivity).
    destruct m as [|m]; [lia|]. rewrite US in L by lia. rewrite BL in L by lia.
    assert (L0 : List.length (upto m) = 0%nat) by lia. rewrite L0 in L. cbn [Z.of_nat] in L. rewrite Z.sub_0_r in L. lia. }
  assert (HH : ms_hist st = map (fun m => (Z.of_nat (List.length (upto m)), INR (nfail g (upto m)) / INR (List.length (upto m)), cov m)) (seq 1 nb)).
  { rewrite Hh. apply map_ext_in. intros m Hm. apply in_seq in Hm. apply end_rec_crude; [exact Hs|]. apply NE. fold nb in Hm. lia. }
  assert (B2 : forall m, (m < nb)%nat -> Z.of_nat (List.length (nth m (ms_blocks st) [])) =
      Z.min (mo_block o) (mo_samples o - Z.of_nat (List.length (upto m)))).
  { intros m Hm. rewrite BL by exact Hm. pose proof (UP m ltac:(lia)). lia. }
  split; [exact HH|]. split; [exact B2|]. split.
  - intros m Hm.
    assert (In (Z.of_nat (List.length (upto m)), INR (nfail g (upto m)) / INR (List.length (upto m)), cov m) h).
    { destruct nb as [|nb'] eqn:EN; [lia|].
      destruct Hst as [Hst|Hst].
      - rewrite <- Hst, HH. apply (in_map (fun m => (Z.of_nat (List.length (upto m)), INR (nfail g (upto m)) / INR (List.length (upto m)), cov m))). apply in_seq. lia.
      - rewrite HH, seq_S, map_app in Hst. cbn [map] in Hst. apply app_inj_tail in Hst. destruct Hst as [Hst _]. rewrite <- Hst.
        apply (in_map (fun m => (Z.of_nat (List.length (upto m)), INR (nfail g (upto m)) / INR (List.length (upto m)), cov m))). apply in_seq. lia. }
    apply HO in H. exact H.
  - destruct ST as [ST|ST]; [left|right; exact ST].
    assert (NBp : (1 <= nb)%nat) by (unfold nb; destruct (ms_blocks st); [contradiction|cbn; lia]).
    pose proof (end_rec_crude n o g (ms_pts st) Hs) as ER.
    assert (NEp : ms_pts st <> []) by (intros C; rewrite C in I1; cbn in I1; lia).
    specialize (ER NEp). unfold end_rec in ER. cbv zeta in ER. specialize (I6 NB). change (setPoint None) with (fun _ : nat => 0) in *.
    rewrite <- I4, <- I5, <- I1, <- I6 in ER. cbn [fst snd] in ER. injection ER as _ ER.
    unfold cov, upto, nb. rewrite firstn_all. change (concat (ms_blocks st)) with (ms_pts st). rewrite <- ER. exact ST.
Qed.
Print Assumptions C30_stopping_rule.

(** C30: all points failing, or none, never stops early for a target below 1. *)
Theorem C30_all_or_none_uses_all_samples : forall n o stream tox Gof g prev off fuel st,
  (forall us, Gof us = Ok (map g us)) -> mo_stdv o = 1 -> (0 < mo_block o)%Z -> mo_target o < 1 ->
  mc_run n o stream (setPoint None) tox Gof fuel prev off = MDone st ->
  (forall u, In u (ms_pts st) -> g u < 0) \/ (forall u, In u (ms_pts st) -> 0 <= g u) ->
  ms_k st = mo_samples o.
Proof.
  intros n o stream tox Gof g prev off fuel st HG Hs Hb Ht E HA.
  destruct (C30_stopping_rule n o stream tox Gof g prev off fuel st HG Hs Hb E) as (_ & _ & _ & [C|C]); [|exact C].
  exfalso. rewrite firstn_all in C. change (concat (ms_blocks st)) with (ms_pts st) in C. unfold crude_cov in C.
  destruct HA as [HA|HA].
  - rewrite (nfail_all g _ HA) in C.
    destruct (Rltb (INR (List.length (ms_pts st))) (INR (List.length (ms_pts st)))) eqn:Z1; [apply Rltb_spec in Z1; lra|].
    destruct (Rltb 0 _); lra.
  - rewrite (nfail_zero g _ HA) in C. destruct (Rltb 0 (INR 0)) eqn:Z1; [apply Rltb_spec in Z1; cbn in Z1; lra|]. lra.
Qed.
Print Assumptions C30_all_or_none_uses_all_samples.

(** C31: no failure observed: Pf = 0 and beta = 0 (any centre and deviation). *)
Theorem C31_no_failure : forall n o stream p tox Gof g prev off fuel st,
  (forall us, Gof us = Ok (map g us)) -> (0 < mo_block o)%Z ->
  mc_run n o stream p tox Gof fuel prev off = MDone st ->
  (forall u, In u (ms_pts st) -> 0 <= g u) ->
  mc_Pf st = 0 /\ mc_beta st = Fin 0 /\ Phi 0 = 1 / 2.
Proof.
  intros n o stream p tox Gof g prev off fuel st HG Hb E HA.
  destruct (run_inv n o stream p tox Gof g HG prev off fuel st Hb E) as (HI & _). destruct HI as [I1 I2 I3 I4 I5 I6 I7 I8].
  assert (Z0 : ms_sum_q st = 0).
  { rewrite I4. rewrite (lsum_ext _ (fun _ => 0)).
    - clear. induction (ms_pts st) as [|a l IH]; cbn; [reflexivity|]. rewrite IH. ring.
    - intros u Hu. unfold w, indicator. destruct (Rltb (g u) 0) eqn:C; [apply Rltb_spec in C; specialize (HA u Hu); lra|]. apply weight_zero. }
  unfold mc_Pf, mc_beta. rewrite Z0. destruct (Rltb 0 0) eqn:C; [apply Rltb_spec in C; lra|].
  refine (conj eq_refl (conj eq_refl Phi_0)).
Qed.
Print Assumptions C31_no_failure.

(** C32: the records of a first run. *)
Theorem C32_records : forall n o stream p tox Gof g off fuel st,
  (forall us, Gof us = Ok (map g us)) -> (0 < mo_block o)%Z ->
  mc_run n o stream p tox Gof fuel mc_fresh off = MDone st ->
  ms_allG st = Some (map g (ms_pts st)) /\
  ms_approx st = Some (map (fun u => sqrt (dot n u u)) (ms_pts st)) /\
  exists ua xa,
    ms_uall st = Some ua /\ ms_xall st = Some xa /\
    flatten ua = flat_map (by_rows n) (ms_blocks st) /\
    flatten xa = by_rows n (map tox (hd [] (ms_blocks st))) ++ flat_map (by_rows n) (tl (ms_blocks st)).
Proof.
  intros n o stream p tox Gof g off fuel st HG Hb E.
  destruct (run_inv n o stream p tox Gof g HG mc_fresh off fuel st Hb E) as (HI & Kp & NB & _).
  destruct HI as [I1 I2 I3 I4 I5 I6 I7 I8]. cbn [mc_fresh ms_uall ms_xall] in I7, I8.
  pose proof (run_allG n o stream p tox Gof g HG mc_fresh off fuel st ltac:(lia) ltac:(split; reflexivity) E) as HA.
  pose proof (run_approx n o stream p tox Gof g HG mc_fresh off fuel st ltac:(lia) E) as HB.
  cbn [mc_fresh ms_allG ms_approx olist app] in HA, HB.
  assert (PNE : ms_pts st <> []) by (intros C; rewrite C in I1; cbn in I1; lia).
  split. { destruct (ms_allG st); cbn [olist] in HA; [rewrite HA; reflexivity|]. symmetry in HA. apply map_eq_nil in HA. contradiction. }
  split. { destruct (ms_approx st); cbn [olist] in HB; [rewrite HB; reflexivity|]. symmetry in HB. apply map_eq_nil in HB. contradiction. }
  destruct (ms_blocks st) as [|b0 bl] eqn:EB; [contradiction|]. cbn [hd tl flat_map].
  cbn [rec_u rec_x opt_app] in I7, I8.
  assert (FU : forall bl a, exists a', rec_u n (Some a) bl = Some a' /\ flatten a' = flatten a ++ flat_map (by_rows n) bl).
  { induction bl0 as [|b bl0 IH]; intros a; cbn [rec_u opt_app flat_map]; [exists a; rewrite app_nil_r; auto|].
    destruct (IH (np_append a (A2 n b))) as (a' & Q1 & Q2). exists a'. split; [exact Q1|]. rewrite Q2. cbn [np_append flatten]. rewrite app_assoc. reflexivity. }
  assert (FX : forall bl a, exists a', rec_x n tox (Some a) bl = Some a' /\ flatten a' = flatten a ++ flat_map (by_rows n) bl).
  { induction bl0 as [|b bl0 IH]; intros a; cbn [rec_x flat_map]; [exists a; rewrite app_nil_r; auto|].
    destruct (IH (np_append a (A2 n b))) as (a' & Q1 & Q2). exists a'. split; [exact Q1|]. rewrite Q2. cbn [np_append flatten]. rewrite app_assoc. reflexivity. }
  destruct (FU bl (A2 n b0)) as (ua & U1 & U2). destruct (FX bl (A2 n (map tox b0))) as (xa & X1 & X2).
  exists ua, xa. rewrite I7, I8. refine (conj U1 (conj X1 (conj U2 X2))).
Qed.
Print Assumptions C32_records.

(** C32: a second run on the same object appends to the old records. *)
Theorem C32_second_run_appends : forall n o stream p tox Gof g off1 off2 f1 f2 s1 s2,
  (forall us, Gof us = Ok (map g us)) -> (0 < mo_block o)%Z ->
  mc_run n o stream p tox Gof f1 mc_fresh off1 = MDone s1 ->
  mc_run n o stream p tox Gof f2 s1 off2 = MDone s2 ->
  ms_allG s2 = Some (map g (ms_pts s1) ++ map g (ms_pts s2)).
Proof.
  intros n o stream p tox Gof g off1 off2 f1 f2 s1 s2 HG Hb E1 E2.
  destruct (C32_records n o stream p tox Gof g off1 f1 s1 HG Hb E1) as (A1 & _ & ua & xa & U & _).
  pose proof (run_allG n o stream p tox Gof g HG s1 off2 f2 s2 ltac:(lia)) as HA.
  rewrite A1, U in HA. specialize (HA ltac:(split; discriminate) E2). cbn [olist] in HA.
  destruct (ms_allG s2) as [l|]; cbn [olist] in HA; [rewrite HA; reflexivity|].
  exfalso. destruct (run_inv n o stream p tox Gof g HG mc_fresh off1 f1 s1 Hb E1) as (HI & Kp & _). destruct HI as [I1 _ _ _ _ _ _ _].
  symmetry in HA. apply app_eq_nil in HA. destruct HA as [HA _]. apply map_eq_nil in HA. rewrite HA in I1. cbn in I1. lia.
Qed.
Print Assumptions C32_second_run_appends.

(** C32: DistributionAnalysis. *)
Theorem C32_distribution_analysis : forall n o stream tox Gof g off fuel st,
  (forall us, Gof us = Ok (map g us)) -> (0 <= mo_block o)%Z ->
  da_run n o stream tox Gof fuel off = DDone st ->
  da_k st = mo_samples o /\ List.length (da_pts st) = Z.to_nat (mo_samples o) /\
  da_X st = map tox (da_pts st) /\ da_G st = map g (da_pts st).
Proof. intros n o stream tox Gof g off fuel st HG. apply (da_run_records n o stream tox Gof g HG). Qed.
Print Assumptions C32_distribution_analysis.

(** C33 *)
Theorem C33_print_flag : forall (A : Type) (init : result unit) (inner : bool -> bool * result A) (shown : A -> bool) flag,
  (* CrudeMonteCarlo.run only reads the flag *)
  (forall b, fst (inner b) = b) ->
  let r := is_run init inner shown flag in
  (forall a, io_res r = Ok a -> io_flag r = flag) /\ 
  (flag = false -> io_shown r = false) /\ 
  (init = Ok tt -> forall e, snd (inner false) = Err e -> io_res r = Err e /\ io_flag r = false) /\ 
  (forall e, init = Err e -> io_flag r = flag).
Proof.
  intros A init inner shown flag Hin. cbv zeta. unfold is_run. destruct init as [[]|e].
  - pose proof (Hin false) as H. destruct (inner false) as [b r]. cbn in H. subst b. destruct r as [a|e]; cbn.
    + refine (conj _ (conj _ (conj _ _))); intros; try discriminate; subst; reflexivity.
    + refine (conj _ (conj _ (conj _ _))); intros; try discriminate; [reflexivity|]. inversion H0; subst. split; reflexivity.
  - cbn. refine (conj _ (conj _ (conj _ _))); intros; try discriminate; reflexivity.
Qed.
Print Assumptions C33_print_flag.

(** Non-vacuity: a concrete two-block run with one failing and one safe point. *)
Example mc_example : exists st,
  mc_run 1 (mkmo 2 1 0 1 0) (fun i => if Nat.eqb i 0 then -1 else 1) (setPoint None) (fun u => u)
    (fun us => Ok (map (fun u : vec => u 0%nat) us)) 3 mc_fresh 0 = MDone st /\ mc_Pf st = 1 / 2.
Proof.
  set (o := mkmo 2 1 0 1 0). set (str := fun i => if Nat.eqb i 0 then -1 else 1). set (g := fun u : vec => u 0%nat).
  assert (HG : forall us : list vec, Ok (map g us) = Ok (map g us)) by reflexivity.
  destruct (C28_terminates 1 o str (setPoint None) (fun u => u) (fun us => Ok (map g us)) g mc_fresh 0 3 HG
              ltac:(cbn; lia) ltac:(cbn; lia) eq_refl ltac:(cbn; lia)) as [st E].
  exists st. split; [exact E|].
  destruct (C28_crude_estimate 1 o str (fun u => u) _ g mc_fresh 0 3 st HG eq_refl ltac:(cbn; lia) E) as (K1 & [K2 K3] & P1 & _).
  pose proof (pts_nrv1 o str (setPoint None) (fun u => u) _ g mc_fresh 0 3 st HG ltac:(cbn; lia) E) as PT.
  destruct (C30_stopping_rule 1 o str (fun u => u) _ g mc_fresh 0 3 st HG eq_refl ltac:(cbn; lia) E) as (_ & _ & _ & ST).
  cbn [mo_samples o] in *.
  assert (K : List.length (ms_pts st) = 2%nat).
  { destruct ST as [ST|ST]; [|lia]. exfalso. rewrite firstn_all in ST. change (concat (ms_blocks st)) with (ms_pts st) in ST.
    destruct (ms_pts st) as [|a [|b [|c r]]] eqn:EP; cbn [List.length] in *; try lia.
    - pose proof (PT 0%nat ltac:(lia)) as H0. cbn in H0. unfold crude_cov in ST. cbn [nfail] in ST. unfold g in ST. rewrite H0 in ST.
      destruct (Rltb (0 + 1 * -1) 0) eqn:C; [|apply Rltb_false in C; lra].
      cbn in ST. destruct (Rltb 0 1) eqn:C0; [|apply Rltb_false in C0; lra]. destruct (Rltb 1 1) eqn:C1; [apply Rltb_spec in C1; lra|]. lra.
    - pose proof (PT 0%nat ltac:(lia)) as H0. pose proof (PT 1%nat ltac:(lia)) as H1. cbn in H0, H1. unfold crude_cov in ST. cbn [nfail] in ST. unfold g in ST. rewrite H0, H1 in ST.
      destruct (Rltb (0 + 1 * -1) 0) eqn:C; [|apply Rltb_false in C; lra].
      destruct (Rltb (0 + 1 * 1) 0) eqn:C'; [apply Rltb_spec in C'; lra|].
      cbn in ST. destruct (Rltb 0 1) eqn:C0; [|apply Rltb_false in C0; lra]. destruct (Rltb 1 (1 + 1)) eqn:C1; [|apply Rltb_false in C1; lra].
      assert (0 < sqrt ((1 - 1 / (1 + 1)) / ((1 + 1) * (1 / (1 + 1))))) by (apply sqrt_lt_R0; lra). lra. }
  destruct (ms_pts st) as [|a [|b [|c r]]] eqn:EP; cbn [List.length] in *; try lia.
  pose proof (PT 0%nat ltac:(lia)) as H0. pose proof (PT 1%nat ltac:(lia)) as H1. cbn in H0, H1.
  rewrite P1. cbn [nfail]. unfold g. rewrite H0, H1.
  destruct (Rltb (0 + 1 * -1) 0) eqn:C; [|apply Rltb_false in C; lra].
  destruct (Rltb (0 + 1 * 1) 0) eqn:C'; [apply Rltb_spec in C'; lra|]. cbn. lra.
Qed.
