(** Property theorems C94: Monte Carlo and importance sampling estimates of related limit states,
    computed from the same random numbers. *)
From Coquelicot Require Import Coquelicot.
From Verif Require Import Base Ext Gauss GaussProofs StochModel LimitState Transf Form FormProofs Sorm SormProofs Mc McSpec McProofs McRunProofs McProps McRelProofs.
From Coq Require Import ZArith Lra Lia.
Open Scope R_scope.

(** C94: two runs with the same options, sampling centre and random numbers that use equally many
    samples draw the same points, whatever the limit states and the earlier runs. *)
Theorem C94_same_samples : forall n o stream p off tox Gof1 Gof2 g1 g2 prev1 prev2 f1 f2 s1 s2,
  (forall us, Gof1 us = Ok (map g1 us)) -> (forall us, Gof2 us = Ok (map g2 us)) -> (0 < mo_block o)%Z ->
  mc_run n o stream p tox Gof1 f1 prev1 off = MDone s1 -> mc_run n o stream p tox Gof2 f2 prev2 off = MDone s2 ->
  ms_k s1 = ms_k s2 -> ms_pts s1 = ms_pts s2.
Proof. intros n o stream p off tox Gof1 Gof2 g1 g2 prev1 prev2 f1 f2 s1 s2 H1 H2 Hb E1 E2 K. exact (same_points n o stream p off tox tox Gof1 Gof2 g1 g2 prev1 prev2 f1 f2 s1 s2 H1 H2 Hb E1 E2 K). Qed.
Print Assumptions C94_same_samples.

Section Rel.
Variables (n : nat) (o : mc_opts) (stream : nat -> R) (p : vec) (off : nat) (tox : vec -> vec).
Hypothesis Hs : 0 < mo_stdv o.
Hypothesis Hb : (0 < mo_block o)%Z.
Definition est (g : vec -> R) (st : mc_state) : Prop :=
  exists fuel prev Gof, (forall us, Gof us = Ok (map g us)) /\ mc_run n o stream p tox Gof fuel prev off = MDone st.
Definition lr (u : vec) : R := joint_density n u / sampling_density n p (mo_stdv o) u.
Lemma lr_pos u : 0 < lr u.
Proof. apply Rdiv_lt_0_compat; [apply lprod_map_pos; intros; apply phi_pos|now apply sampling_density_pos]. Qed.
Lemma est_Pf g st : est g st -> mc_Pf st = lsum (map (fun u => if Rltb (g u) 0 then lr u else 0) (ms_pts st)) / INR (length (ms_pts st)).
Proof. intros (f & pr & Gf & HG & E). apply (C29_Pf_is_mean_weight n o stream p tox _ g pr off f st HG Hs Hb E). Qed.
Lemma est_len g st : est g st -> 0 < INR (length (ms_pts st)).
Proof.
  intros (f & pr & Gf & HG & E). destruct (run_inv n o stream p tox _ g HG pr off f st Hb E) as (I & Kp & _). destruct I as [I1 _ _ _ _ _ _ _].
  apply (lt_INR 0). lia.
Qed.
Lemma est_pts g1 g2 s1 s2 : est g1 s1 -> est g2 s2 -> ms_k s1 = ms_k s2 -> ms_pts s1 = ms_pts s2.
Proof.
  intros (f1 & p1 & G1 & H1 & E1) (f2 & p2 & G2 & H2 & E2). apply (C94_same_samples n o stream p off tox _ _ g1 g2 p1 p2 f1 f2 s1 s2 H1 H2 Hb E1 E2).
Qed.
Lemma est_le g1 g2 s1 s2 : (forall u, g1 u < 0 -> g2 u < 0) -> est g1 s1 -> est g2 s2 -> ms_k s1 = ms_k s2 -> mc_Pf s1 <= mc_Pf s2.
Proof.
  intros H E1 E2 K. rewrite (est_Pf _ _ E1), (est_Pf _ _ E2), (est_pts _ _ _ _ E1 E2 K).
  apply Rmult_le_compat_r; [left; apply Rinv_0_lt_compat, (est_len _ _ E2)|]. apply lsum_le. intros u _.
  destruct (Rltb (g1 u) 0) eqn:A, (Rltb (g2 u) 0) eqn:B; rewrite ?Rltb_spec, ?Rltb_false in *; try lra.
  - specialize (H u A). lra.
  - left. apply lr_pos.
Qed.
Lemma est_incl g1 g2 s1 s2 s3 s4 : est g1 s1 -> est g2 s2 -> est (fun u => Rmin (g1 u) (g2 u)) s3 -> est (fun u => Rmax (g1 u) (g2 u)) s4 ->
  ms_k s1 = ms_k s2 -> ms_k s1 = ms_k s3 -> ms_k s1 = ms_k s4 -> mc_Pf s3 + mc_Pf s4 = mc_Pf s1 + mc_Pf s2.
Proof.
  intros E1 E2 E3 E4 K2 K3 K4. rewrite (est_Pf _ _ E1), (est_Pf _ _ E2), (est_Pf _ _ E3), (est_Pf _ _ E4).
  rewrite <- (est_pts _ _ _ _ E1 E2 K2), <- (est_pts _ _ _ _ E1 E3 K3), <- (est_pts _ _ _ _ E1 E4 K4).
  unfold Rdiv. rewrite <- !Rmult_plus_distr_r. f_equal. rewrite <- !lsum_add. apply lsum_ext. intros u _.
  unfold Rmin, Rmax. destruct (Rle_dec (g1 u) (g2 u)); destruct (Rltb (g1 u) 0), (Rltb (g2 u) 0); lra.
Qed.
End Rel.

(** C94: a limit state that fails wherever another one fails gets at least its probability, for
    crude Monte Carlo and importance sampling alike; the crude reliability index is ordered the
    other way. *)
Theorem C94_dominance : forall n o stream p off tox Gof1 Gof2 g1 g2 prev1 prev2 f1 f2 s1 s2,
  (forall us, Gof1 us = Ok (map g1 us)) -> (forall us, Gof2 us = Ok (map g2 us)) -> 0 < mo_stdv o -> (0 < mo_block o)%Z ->
  (forall u, g1 u < 0 -> g2 u < 0) ->
  mc_run n o stream p tox Gof1 f1 prev1 off = MDone s1 -> mc_run n o stream p tox Gof2 f2 prev2 off = MDone s2 ->
  ms_k s1 = ms_k s2 ->
  mc_Pf s1 <= mc_Pf s2 /\
  (0 < mc_Pf s1 -> mc_Pf s2 < 1 -> exists b1 b2, mc_beta s1 = Fin b1 /\ mc_beta s2 = Fin b2 /\ b2 <= b1).
Proof.
  intros n o stream p off tox Gof1 Gof2 g1 g2 prev1 prev2 f1 f2 s1 s2 H1 H2 Hs Hb H E1 E2 K.
  assert (L : mc_Pf s1 <= mc_Pf s2).
  { apply (est_le n o stream p off tox Hs Hb g1 g2); try assumption; unfold est; eauto 6. }
  split; [exact L|]. intros A B. unfold mc_beta.
  assert (S : forall st, 0 < mc_Pf st -> Rltb 0 (ms_sum_q st) = true).
  { intros st. unfold mc_Pf. destruct (Rltb 0 (ms_sum_q st)); [reflexivity|intros; lra]. }
  rewrite !S by lra. rewrite !xppf_in by lra. cbn [xneg]. eexists _, _. split; [reflexivity|]. split; [reflexivity|].
  apply Ropp_le_contravar. apply Phi_le. rewrite !Phi_ppf by lra. exact L.
Qed.
Print Assumptions C94_dominance.

(** C94: series and parallel systems.  With the same random numbers the estimates of min(g1, g2)
    (either fails) and max(g1, g2) (both fail) add up to those of g1 and g2 exactly; in particular
    max(Pf1, Pf2) <= Pf_series <= Pf1 + Pf2 and Pf_parallel <= min(Pf1, Pf2). *)
Theorem C94_systems : forall n o stream p off tox g1 g2 prev f s1 s2 s3 s4,
  let run g := mc_run n o stream p tox (fun us => Ok (map g us)) f prev off in
  0 < mo_stdv o -> (0 < mo_block o)%Z ->
  run g1 = MDone s1 -> run g2 = MDone s2 ->
  run (fun u => Rmin (g1 u) (g2 u)) = MDone s3 -> run (fun u => Rmax (g1 u) (g2 u)) = MDone s4 ->
  ms_k s1 = ms_k s2 -> ms_k s1 = ms_k s3 -> ms_k s1 = ms_k s4 ->
  mc_Pf s3 + mc_Pf s4 = mc_Pf s1 + mc_Pf s2 /\ Rmax (mc_Pf s1) (mc_Pf s2) <= mc_Pf s3 <= mc_Pf s1 + mc_Pf s2 /\
  mc_Pf s4 <= Rmin (mc_Pf s1) (mc_Pf s2).
Proof.
  intros n o stream p off tox g1 g2 prev f s1 s2 s3 s4 run Hs Hb E1 E2 E3 E4 K2 K3 K4.
  assert (X1 : est n o stream p off tox g1 s1) by (exists f, prev; eexists; split; [|exact E1]; reflexivity).
  assert (X2 : est n o stream p off tox g2 s2) by (exists f, prev; eexists; split; [|exact E2]; reflexivity).
  assert (X3 : est n o stream p off tox (fun u => Rmin (g1 u) (g2 u)) s3) by (exists f, prev; eexists; split; [|exact E3]; reflexivity).
  assert (X4 : est n o stream p off tox (fun u => Rmax (g1 u) (g2 u)) s4) by (exists f, prev; eexists; split; [|exact E4]; reflexivity).
  assert (E := est_incl n o stream p off tox Hs Hb g1 g2 s1 s2 s3 s4 X1 X2 X3 X4 K2 K3 K4).
  assert (L1 : mc_Pf s1 <= mc_Pf s3) by (apply (est_le n o stream p off tox Hs Hb g1 (fun u => Rmin (g1 u) (g2 u))); try assumption; intros u H; pose proof (Rmin_l (g1 u) (g2 u)); lra).
  assert (L2 : mc_Pf s2 <= mc_Pf s3) by (apply (est_le n o stream p off tox Hs Hb g2 (fun u => Rmin (g1 u) (g2 u))); try assumption; try congruence; intros u H; pose proof (Rmin_r (g1 u) (g2 u)); lra).
  assert (P4 : 0 <= mc_Pf s4) by apply (C29_Pf_is_mean_weight n o stream p tox _ _ prev off f s4 (fun us => eq_refl) Hs Hb E4).
  unfold Rmax, Rmin. destruct (Rle_dec (mc_Pf s1) (mc_Pf s2)); lra.
Qed.
Print Assumptions C94_systems.

(** C94: crude Monte Carlo, reversing the sign of the limit state.  If no drawn point lies exactly
    on the boundary the two probabilities add up to one and the index changes sign. *)
Theorem C94_complement : forall n o stream off tox g prev1 prev2 f1 f2 s1 s2,
  mo_stdv o = 1 -> (0 < mo_block o)%Z ->
  mc_run n o stream (setPoint None) tox (fun us => Ok (map g us)) f1 prev1 off = MDone s1 ->
  mc_run n o stream (setPoint None) tox (fun us => Ok (map (fun u => - g u) us)) f2 prev2 off = MDone s2 ->
  ms_k s1 = ms_k s2 -> (forall u, In u (ms_pts s1) -> g u <> 0) ->
  mc_Pf s1 + mc_Pf s2 = 1 /\
  (0 < mc_Pf s1 < 1 -> exists b, mc_beta s1 = Fin b /\ mc_beta s2 = Fin (- b)).
Proof.
  intros n o stream off tox g prev1 prev2 f1 f2 s1 s2 Hs Hb E1 E2 K H0.
  destruct (C28_crude_estimate n o stream tox _ g prev1 off f1 s1 (fun us => eq_refl) Hs Hb E1) as (K1 & KK & P1 & _).
  destruct (C28_crude_estimate n o stream tox _ (fun u => - g u) prev2 off f2 s2 (fun us => eq_refl) Hs Hb E2) as (K2 & _ & P2 & _).
  assert (EP := C94_same_samples n o stream (setPoint None) off tox _ _ g (fun u => - g u) prev1 prev2 f1 f2 s1 s2 (fun us => eq_refl) (fun us => eq_refl) Hb E1 E2 K).
  rewrite <- EP in P2. pose proof (nfail_compl g _ H0) as NC.
  assert (LP : 0 < INR (length (ms_pts s1))) by (apply (lt_INR 0); lia).
  assert (S1 : mc_Pf s1 + mc_Pf s2 = 1).
  { rewrite P1, P2, <- NC, plus_INR. rewrite <- NC, plus_INR in LP. field. lra. }
  split; [exact S1|]. intros HP.
  destruct (C28_beta n o stream tox _ g prev1 off f1 s1 (fun us => eq_refl) Hs Hb E1) as [B1 _]. destruct (B1 HP) as (b1 & Eb1 & F1).
  destruct (C28_beta n o stream tox _ (fun u => - g u) prev2 off f2 s2 (fun us => eq_refl) Hs Hb E2) as [B2 _]. destruct (B2 ltac:(lra)) as (b2 & Eb2 & F2).
  exists b1. split; [exact Eb1|]. rewrite Eb2. f_equal. rewrite Phi_opp in F1, F2.
  assert (X : Phi b2 = Phi (- b1)) by (rewrite Phi_opp; lra).
  apply Rle_antisym; apply Phi_le; lra.
Qed.
Print Assumptions C94_complement.

(** C94: the condition on the number of samples matters.  With a target coefficient of variation
    the run for the weaker limit state may stop earlier and report less: g1 >= g2 everywhere, but
    Pf(g1) = 1/2 after 6 samples and Pf(g2) = 1/3 after 3. *)
Definition rel_stream (i : nat) : R := match i with 0%nat => -1 | 1%nat | 2%nat => 5 | _ => -2 end.
Definition rel_o : mc_opts := mkmo 6 3 (82 / 100) 1 0.
Theorem C94_dominance_early_stop_refuted : exists s1 s2,
  let g1 := fun u : vec => u 0%nat + 3 / 2 in let g2 := fun u : vec => u 0%nat in
  mc_run 1 rel_o rel_stream (setPoint None) (fun u => u) (fun us => Ok (map g1 us)) 7 mc_fresh 0 = MDone s1 /\
  mc_run 1 rel_o rel_stream (setPoint None) (fun u => u) (fun us => Ok (map g2 us)) 7 mc_fresh 0 = MDone s2 /\
  (forall u, g2 u <= g1 u) /\ mc_Pf s1 = 1 / 2 /\ mc_Pf s2 = 1 / 3.
Proof.
  set (g1 := fun u : vec => u 0%nat + 3 / 2). set (g2 := fun u : vec => u 0%nat).
  destruct (C28_terminates 1 rel_o rel_stream (setPoint None) (fun u => u) (fun us => Ok (map g1 us)) g1 mc_fresh 0 7 (fun us => eq_refl) ltac:(cbn; lia) ltac:(cbn; lia) eq_refl ltac:(cbn; lia)) as [s1 E1].
  destruct (C28_terminates 1 rel_o rel_stream (setPoint None) (fun u => u) (fun us => Ok (map g2 us)) g2 mc_fresh 0 7 (fun us => eq_refl) ltac:(cbn; lia) ltac:(cbn; lia) eq_refl ltac:(cbn; lia)) as [s2 E2].
  exists s1, s2. cbv zeta. split; [exact E1|]. split; [exact E2|]. split; [intros u; unfold g1, g2; lra|].
  assert (PT : forall g st, mc_run 1 rel_o rel_stream (setPoint None) (fun u => u) (fun us => Ok (map g us)) 7 mc_fresh 0 = MDone st ->
     forall j, (j < length (ms_pts st))%nat -> nth j (ms_pts st) (fun _ => 0) 0%nat = rel_stream j).
  { intros g st E j Hj. rewrite (pts_nrv1 rel_o rel_stream (setPoint None) (fun u => u) _ g mc_fresh 0 7 st (fun us => eq_refl) ltac:(cbn; lia) E j Hj). cbn [setPoint rel_o mo_stdv Nat.add]. ring. }
  (* the first block has three points *)
  assert (FB : forall g st, mc_run 1 rel_o rel_stream (setPoint None) (fun u => u) (fun us => Ok (map g us)) 7 mc_fresh 0 = MDone st ->
     exists a b c bl, ms_blocks st = [a; b; c] :: bl /\ a 0%nat = -1 /\ b 0%nat = 5 /\ c 0%nat = 5 /\ 
       (bl = [] \/ exists d e f, bl = [[d; e; f]] /\ d 0%nat = -2 /\ e 0%nat = -2 /\ f 0%nat = -2)).
  { intros g st E. pose proof (PT g st E) as P. destruct (run_plan 1 rel_o rel_stream (setPoint None) 0 (fun u => u) _ g mc_fresh (fun us => eq_refl) 7 st ltac:(cbn; lia) E) as (m & EP & L).
    destruct m as [|[|m]].
    - cbn in EP. injection EP as _ _ EB. unfold ms_pts in P. rewrite <- EB in *. do 4 eexists. split; [reflexivity|].
      cbn [concat app length] in P. rewrite <- (P 0%nat ltac:(lia)), <- (P 1%nat ltac:(lia)), <- (P 2%nat ltac:(lia)) || idtac.
      split; [exact (P 0%nat ltac:(cbn; lia))|]. split; [exact (P 1%nat ltac:(cbn; lia))|]. split; [exact (P 2%nat ltac:(cbn; lia))|]. now left.
    - cbn in EP. injection EP as _ _ EB. unfold ms_pts in P. rewrite <- EB in *. do 4 eexists. split; [reflexivity|].
      split; [exact (P 0%nat ltac:(cbn; lia))|]. split; [exact (P 1%nat ltac:(cbn; lia))|]. split; [exact (P 2%nat ltac:(cbn; lia))|].
      right. do 3 eexists. split; [reflexivity|]. split; [exact (P 3%nat ltac:(cbn; lia))|]. split; [exact (P 4%nat ltac:(cbn; lia))|exact (P 5%nat ltac:(cbn; lia))].
    - exfalso. assert (X : forall m, plan_k 1 rel_o rel_stream (setPoint None) 0 (S (S m)) = 6%Z).
      { induction m0 as [|q IH]; [reflexivity|]. rewrite plan_k_S, IH. reflexivity. }
      rewrite X in L. cbn in L. lia. }
  assert (LT : forall x y, x < y -> Rltb x y = true) by (intros; apply Rltb_spec; assumption).
  assert (GE : forall x y, y <= x -> Rltb x y = false) by (intros; apply Rltb_false; assumption).
  split.
  - destruct (FB g1 s1 E1) as (a & b & c & bl & EB & Ea & Eb & Ec & D).
    destruct (C28_crude_estimate 1 rel_o rel_stream (fun u => u) _ g1 mc_fresh 0 7 s1 (fun us => eq_refl) eq_refl ltac:(cbn; lia) E1) as (K & _ & P & _).
    destruct (C30_stopping_rule 1 rel_o rel_stream (fun u => u) _ g1 mc_fresh 0 7 s1 (fun us => eq_refl) eq_refl ltac:(cbn; lia) E1) as (_ & _ & _ & ST).
    rewrite P. unfold ms_pts in *. rewrite EB in *. destruct D as [->|(d & e & f & -> & Ed & Ee & Ef)].
    + exfalso. cbn [length firstn concat app nfail] in ST. unfold g1 in ST. rewrite Ea, Eb, Ec in ST. rewrite !GE in ST by lra.
      unfold crude_cov in ST. rewrite (GE 0 (INR 0)) in ST by (cbn; lra). destruct ST as [ST|ST]; [cbn in ST; lra|]. cbn in K, ST. lia.
    + cbn [concat app nfail length]. unfold g1. rewrite Ea, Eb, Ec, Ed, Ee, Ef. rewrite !(GE _ 0), !LT by lra. cbn. field.
  - destruct (FB g2 s2 E2) as (a & b & c & bl & EB & Ea & Eb & Ec & D).
    destruct (C28_crude_estimate 1 rel_o rel_stream (fun u => u) _ g2 mc_fresh 0 7 s2 (fun us => eq_refl) eq_refl ltac:(cbn; lia) E2) as (K & _ & P & _).
    destruct (C30_stopping_rule 1 rel_o rel_stream (fun u => u) _ g2 mc_fresh 0 7 s2 (fun us => eq_refl) eq_refl ltac:(cbn; lia) E2) as (_ & _ & ST & _).
    rewrite P. unfold ms_pts in *. rewrite EB in *. destruct D as [->|(d & e & f & -> & Ed & Ee & Ef)].
    + cbn [concat app nfail length]. unfold g2. rewrite Ea, Eb, Ec. rewrite !(GE 5 0), !LT by lra. cbn. field.
    + exfalso. cbn [length] in ST. specialize (ST 1%nat ltac:(lia)). cbn [firstn concat app nfail length] in ST. unfold g2 in ST. rewrite Ea, Eb, Ec in ST. rewrite !(GE 5 0), !(LT (-1)) in ST by lra.
      unfold crude_cov in ST. rewrite !LT in ST by (cbn; lra). cbn [rel_o mo_target] in ST.
      apply Rlt_not_le in ST. apply ST. rewrite <- (sqrt_Rsqr (82 / 100)) by lra. apply sqrt_le_1_alt. unfold Rsqr. cbn. lra.
Qed.
Print Assumptions C94_dominance_early_stop_refuted.

(** *** The hypotheses are met: the same two limit states with a target that is never reached *)
Definition rel_o' : mc_opts := mkmo 6 3 (-1) 1 0.
Example C94_example : forall g : vec -> R, exists st,
  mc_run 1 rel_o' rel_stream (setPoint None) (fun u => u) (fun us => Ok (map g us)) 7 mc_fresh 0 = MDone st /\ ms_k st = 6%Z.
Proof.
  intros g.
  destruct (C28_terminates 1 rel_o' rel_stream (setPoint None) (fun u => u) (fun us => Ok (map g us)) g mc_fresh 0 7 (fun us => eq_refl) ltac:(cbn; lia) ltac:(cbn; lia) eq_refl ltac:(cbn; lia)) as [st E].
  exists st. split; [exact E|].
  destruct (C30_stopping_rule 1 rel_o' rel_stream (fun u => u) _ g mc_fresh 0 7 st (fun us => eq_refl) eq_refl ltac:(cbn; lia) E) as (_ & _ & _ & [ST|ST]); [|exact ST].
  exfalso. cbn [rel_o' mo_target] in ST. unfold crude_cov in ST.
  destruct (Rltb _ _); [|lra]. destruct (Rltb _ _); [|lra]. match type of ST with sqrt ?x <= _ => pose proof (sqrt_pos x) end. lra.
Qed.
