From Coquelicot Require Import Coquelicot.
From Verif Require Import Base Ext Gauss GaussProofs StochModel LimitState Transf Form FormProofs Sorm SormProofs Ss.
From Coq Require Import ZArith Lra Lia Permutation.

(** ** sorting and percentiles *)
Lemma insert_perm x l : Permutation (insert x l) (x :: l).
Proof.
  induction l as [|y l IH]; cbn; [apply Permutation_refl|]. destruct (Rleb x y); [apply Permutation_refl|].
  eapply Permutation_trans; [apply perm_skip, IH|apply perm_swap].
Qed.
Lemma sort_perm l : Permutation (sort l) l.
Proof. induction l as [|x l IH]; cbn; [constructor|]. eapply Permutation_trans; [apply insert_perm|apply perm_skip, IH]. Qed.
Lemma sort_length l : length (sort l) = length l.
Proof. apply Permutation_length, sort_perm. Qed.

Definition ascending (l : list R) : Prop := forall i j, (i <= j)%nat -> (j < length l)%nat -> nth i l 0 <= nth j l 0.

Lemma ascending_tl x l : ascending (x :: l) -> ascending l.
Proof. intros H i j Hij Hj. apply (H (S i) (S j)); cbn; lia. Qed.
Lemma ascending_cons x l : ascending l -> (forall y, In y l -> x <= y) -> ascending (x :: l).
Proof.
  intros H Hx i j Hij Hj. destruct j as [|j]; [replace i with 0%nat by lia; lra|].
  cbn [length] in Hj. destruct i as [|i]; cbn [nth]; [apply Hx, nth_In; lia|apply H; lia].
Qed.
Lemma ascending_hd x l : ascending (x :: l) -> forall y, In y l -> x <= y.
Proof. intros H y Hy. apply (In_nth _ _ 0) in Hy. destruct Hy as (j & Hj & <-). apply (H 0%nat (S j)); cbn; lia. Qed.

Lemma insert_asc x l : ascending l -> ascending (insert x l).
Proof.
  induction l as [|y l IH]; intros H; cbn.
  - apply ascending_cons; [intros i j; cbn; lia|intros y []].
  - destruct (Rleb x y) eqn:E.
    + apply Rleb_spec in E. apply ascending_cons; [exact H|]. intros z [<-|Hz]; [exact E|]. pose proof (ascending_hd y l H z Hz). lra.
    + apply Rleb_false in E. apply ascending_cons; [apply IH, (ascending_tl y l H)|].
      intros z Hz. apply (Permutation_in _ (insert_perm x l)) in Hz. destruct Hz as [<-|Hz]; [lra|]. exact (ascending_hd y l H z Hz).
Qed.
Lemma sort_asc l : ascending (sort l).
Proof. induction l as [|x l IH]; cbn; [intros i j; cbn; lia|apply insert_asc, IH]. Qed.

(** position of the percentile *)
Lemma pos_bounds q N : 0 < q < 1 -> (1 <= N)%nat ->
  let h := q * INR (N - 1) in let k := Z.to_nat (Int_part h) in
  INR k <= h < INR k + 1 /\ (k <= N - 1)%nat /\ ((2 <= N)%nat -> (k <= N - 2)%nat).
Proof.
  intros Hq HN h k.
  assert (H0 : 0 <= INR (N - 1)) by apply pos_INR.
  assert (Hh : 0 <= h) by (unfold h; apply Rmult_le_pos; lra).
  destruct (base_Int_part h) as [B1 B2].
  assert (IP : (0 <= Int_part h)%Z).
  { apply le_IZR. assert (-1 < IZR (Int_part h)) by lra. apply (lt_IZR (-1)) in H. apply IZR_le. lia. }
  assert (EK : INR k = IZR (Int_part h)) by (unfold k; rewrite INR_IZR_INZ, Z2Nat.id by exact IP; reflexivity).
  rewrite EK. split; [lra|].
  assert (K1 : INR k <= INR (N - 1)). { rewrite EK. assert (h <= INR (N - 1)) by (unfold h; nra). lra. }
  split; [apply INR_le; exact K1|]. intros H2.
  assert (INR k < INR (N - 1)). { rewrite EK. assert (0 < INR (N - 1)) by (apply (lt_INR 0); lia). assert (h < INR (N - 1)) by (unfold h; nra). lra. }
  apply INR_lt in H. lia.
Qed.

Lemma percentile_bounds G q : 0 < q < 1 -> (1 <= length G)%nat ->
  let k := Z.to_nat (Int_part (q * INR (length G - 1))) in
  nth k (sort G) 0 <= percentile G q <= nth (Nat.min (S k) (length G - 1)) (sort G) 0.
Proof.
  intros Hq HN k. destruct (pos_bounds q (length G) Hq HN) as (B & K1 & K2). fold k in B, K1, K2.
  unfold percentile. cbv zeta. fold k. set (h := q * INR (length G - 1)) in *.
  assert (LE : nth k (sort G) 0 <= nth (Nat.min (S k) (length G - 1)) (sort G) 0) by (apply sort_asc; rewrite ?sort_length; lia).
  set (lo := nth k (sort G) 0) in *. set (hi := nth _ (sort G) 0) in *. nra.
Qed.

Lemma percentile_le_max G q y : 0 < q < 1 -> (1 <= length G)%nat -> (forall g, In g G -> g <= y) -> percentile G q <= y.
Proof.
  intros Hq HN H. destruct (percentile_bounds G q Hq HN) as [_ B]. cbv zeta in B. eapply Rle_trans; [exact B|].
  apply H. apply (Permutation_in _ (sort_perm G)). apply nth_In. rewrite sort_length. lia.
Qed.
Lemma percentile_ge_min G q y : 0 < q < 1 -> (1 <= length G)%nat -> (forall g, In g G -> y <= g) -> y <= percentile G q.
Proof.
  intros Hq HN H. destruct (percentile_bounds G q Hq HN) as [B _]. cbv zeta in B. eapply Rle_trans; [|exact B].
  apply H. apply (Permutation_in _ (sort_perm G)). apply nth_In. rewrite sort_length.
  destruct (pos_bounds q (length G) Hq HN) as (_ & K1 & _). lia.
Qed.
Lemma percentile_gt_min G q y : 0 < q < 1 -> (1 <= length G)%nat -> (forall g, In g G -> y < g) -> y < percentile G q.
Proof.
  intros Hq HN H. destruct (percentile_bounds G q Hq HN) as [B _]. cbv zeta in B. eapply Rlt_le_trans; [|exact B].
  apply H. apply (Permutation_in _ (sort_perm G)). apply nth_In. rewrite sort_length.
  destruct (pos_bounds q (length G) Hq HN) as (_ & K1 & _). lia.
Qed.

Lemma filter_perm_len {A} (f : A -> bool) l l' : Permutation l l' -> length (filter f l) = length (filter f l').
Proof. induction 1; cbn; repeat match goal with |- context [f ?x] => destruct (f x) end; cbn; congruence || lia. Qed.

Lemma count_first l y k : ascending l -> (k < length l)%nat -> nth k l 0 <= y ->
  (S k <= length (filter (fun g => Rleb g y) l))%nat.
Proof.
  revert k. induction l as [|x l IH]; intros k HA Hk Hy; [cbn in Hk; lia|].
  assert (Hx : x <= y). { assert (x <= nth k (x :: l) 0) by (apply (HA 0%nat k); [lia|exact Hk]). lra. }
  cbn [filter]. destruct (Rleb x y) eqn:E; [|apply Rleb_false in E; lra]. cbn [length].
  destruct k as [|k]; [lia|]. cbn [length] in Hk. specialize (IH k (ascending_tl x l HA) ltac:(lia) Hy). lia.
Qed.

Lemma percentile_count G q y : 0 < q < 1 -> (1 <= length G)%nat -> percentile G q <= y ->
  (S (Z.to_nat (Int_part (q * INR (length G - 1)))) <= count_le G y)%nat.
Proof.
  intros Hq HN H. destruct (percentile_bounds G q Hq HN) as [B _]. cbv zeta in B.
  destruct (pos_bounds q (length G) Hq HN) as (_ & K1 & _).
  unfold count_le. rewrite <- (filter_perm_len _ _ _ (sort_perm G)). apply count_first.
  - apply sort_asc.
  - rewrite sort_length. lia.
  - lra.
Qed.

Lemma count_le_length G y : (count_le G y <= length G)%nat.
Proof. unfold count_le. induction G as [|g G IH]; cbn; [lia|]. destruct (Rleb g y); cbn; lia. Qed.

(** ** level 0 batch *)
Lemma eval_batch_ok block Gof g us : (forall us, Gof us = Ok (map g us)) -> (1 <= block)%Z ->
  eval_g_batch block Gof us = Ok (map g us).
Proof.
  intros HG Hb. unfold eval_g_batch. destruct (Z.leb_spec block 0); [lia|].
  assert (K : forall fuel us, (length us <= fuel)%nat -> eval_blocks block Gof fuel us = Ok (map g us)).
  { induction fuel as [|f IH]; intros vs Hv; [destruct vs; [reflexivity|cbn in Hv; lia]|].
    cbn [eval_blocks]. destruct vs as [|v vs]; [reflexivity|]. rewrite HG. rewrite IH.
    - rewrite <- map_app, firstn_skipn. reflexivity.
    - rewrite skipn_length. cbn [length] in *. lia. }
  apply K. lia.
Qed.

(** ** chains *)
Section Chains.
  Variables (nrv N : nat) (sigma : R) (unif : nat -> R) (Gof : list vec -> result (list R)) (g : vec -> R).
  Hypothesis HG : forall us, Gof us = Ok (map g us).

  Definition good (thr : R) (ug : vec * R) : Prop := snd ug = g (fst ug) /\ snd ug <= thr.

  Lemma chain_spec : forall n thr u gu pos calls acc, good thr (u, gu) -> Forall (good thr) acc ->
    exists acc', mmh_chain nrv sigma unif Gof n thr u gu pos calls acc = LvDone (acc ++ acc') (pos + 2 * nrv * n) (calls + n) /\
      length acc' = n /\ Forall (good thr) acc'.
  Proof.
    induction n as [|n IH]; intros thr u gu pos calls acc Hu Ha.
    - exists []. cbn. rewrite app_nil_r, !Nat.add_0_r. replace (pos + _)%nat with pos by lia. auto.
    - cbn [mmh_chain]. rewrite HG. cbn [map nth].
      set (up := mmh_prop nrv sigma unif u pos). set (ug := if Rleb (g up) thr then (up, g up) else (u, gu)).
      assert (GU : good thr ug).
      { unfold ug. destruct (Rleb (g up) thr) eqn:E; [apply Rleb_spec in E; split; [reflexivity|exact E]|exact Hu]. }
      destruct (IH thr (fst ug) (snd ug) (pos + 2 * nrv)%nat (S calls) (acc ++ [ug])) as (acc' & E & L & F).
      + destruct ug; exact GU.
      + apply Forall_app. auto.
      + exists (ug :: acc'). rewrite E. split; [|split; [cbn; lia|constructor; assumption]].
        f_equal; [rewrite <- app_assoc; reflexivity|lia|lia].
  Qed.

  Fixpoint total_len (Ns s : nat) (m : nat) : nat :=
    match m with O => O | S m' => (chain_len N Ns s + total_len Ns (S s) m')%nat end.

  Lemma chains_spec Ns thr : forall seeds s pos calls acc, Forall (good thr) seeds -> Forall (good thr) acc ->
    exists acc' pos', mmh_chains nrv N sigma unif Gof Ns s seeds thr pos calls acc = LvDone (acc ++ acc') pos' (calls + total_len Ns s (length seeds)) /\
      length acc' = total_len Ns s (length seeds) /\ Forall (good thr) acc'.
  Proof.
    induction seeds as [|[u gu] seeds IH]; intros s pos calls acc Hs Ha.
    - exists [], pos. cbn. rewrite app_nil_r, Nat.add_0_r. auto.
    - inversion Hs as [|? ? H1 H2]; subst. cbn [mmh_chains length total_len].
      destruct (chain_spec (chain_len N Ns s) thr u gu pos calls acc H1 Ha) as (a1 & E1 & L1 & F1). rewrite E1.
      destruct (IH (S s) (pos + 2 * nrv * chain_len N Ns s)%nat (calls + chain_len N Ns s)%nat (acc ++ a1) H2) as (a2 & pos' & E2 & L2 & F2).
      + apply Forall_app. auto.
      + exists (a1 ++ a2), pos'. rewrite E2. split; [f_equal; [rewrite app_assoc; reflexivity|lia]|].
        split; [rewrite app_length; lia|apply Forall_app; auto].
  Qed.

  Lemma total_len_val Ns : (1 <= Ns)%nat -> forall m s, (s + m <= Ns)%nat ->
    total_len Ns s m = (m * (N / Ns) + (Nat.min (s + m) (N - N / Ns * Ns) - Nat.min s (N - N / Ns * Ns)))%nat.
  Proof.
    intros HN. induction m as [|m IH]; intros s Hs; cbn [total_len]; [rewrite Nat.add_0_r, Nat.sub_diag; lia|].
    rewrite IH by lia. unfold chain_len. cbv zeta. generalize (N / Ns)%nat as b. intros b.
    destruct (Nat.ltb_spec s (N - b * Ns)); lia.
  Qed.

  Lemma total_is_N Ns : (1 <= Ns)%nat -> total_len Ns 0 Ns = N.
  Proof.
    intros HN. rewrite total_len_val by lia. pose proof (Nat.div_mod N Ns ltac:(lia)) as D. pose proof (Nat.mod_upper_bound N Ns ltac:(lia)) as M.
    rewrite Nat.min_0_l, Nat.sub_0_r, Nat.add_0_l. rewrite (Nat.mul_comm Ns) in *. lia.
  Qed.

  Lemma step_spec seeds thr pos calls : seeds <> [] -> Forall (good thr) seeds ->
    exists out pos', mmh_step nrv N sigma unif Gof seeds thr pos calls = LvDone out pos' (calls + N) /\
      length out = N /\ Forall (good thr) out.
  Proof.
    intros Hne Hs. unfold mmh_step. destruct seeds as [|s0 sr] eqn:E; [contradiction|]. rewrite <- E in *.
    assert (LS : (1 <= length seeds)%nat) by (rewrite E; cbn; lia).
    destruct (chains_spec (length seeds) thr seeds 0 pos calls [] Hs (Forall_nil _)) as (acc & pos' & E1 & L & F).
    rewrite total_is_N in * by exact LS. exists acc, pos'. auto.
  Qed.
End Chains.

(** ** the run *)
Section Runs.
  Variables (nrv N : nat) (block : Z) (p0 sigma : R) (randn unif : nat -> R) (Gof : list vec -> result (list R)) (g : vec -> R).
  Hypothesis HG : forall us, Gof us = Ok (map g us).
  Hypothesis HN : (1 <= N)%nat.
  Hypothesis Hp : 0 < p0 < 1.
  Hypothesis Hb : (1 <= block)%Z.

  Definition pmin : R := INR (S (Z.to_nat (Int_part (p0 * INR (N - 1))))) / INR N.

  (** facts about levels 0..m-1 when m thresholds have been recorded *)
  Record sinv (st : ss_state) : Prop := mksinv {
    si_len : length (ss_thresholds st) = length (ss_probs st);
    si_len2 : length (ss_levels st) = length (ss_probs st);
    si_mono : forall i j, (i <= j)%nat -> (j < length (ss_thresholds st))%nat -> nth j (ss_thresholds st) 0 <= nth i (ss_thresholds st) 0;
    si_Pf : ss_Pf st = lprod (ss_probs st);
    si_probs : Forall (fun p => pmin <= p <= 1) (ss_probs st);
    si_levlen : Forall (fun smp => length smp = N) (ss_levels st);
    si_g : forall smp ug, In smp (ss_levels st) -> In ug smp -> snd ug = g (fst ug);
    si_thr : forall j ug, (S j < length (ss_levels st))%nat -> In ug (nth (S j) (ss_levels st) []) -> snd ug <= nth j (ss_thresholds st) 0;
    si_prob : forall j, (j < length (ss_levels st))%nat ->
        nth j (ss_probs st) 0 = INR (length (filter (fun ug : vec * R => Rleb (snd ug) (nth j (ss_thresholds st) 0)) (nth j (ss_levels st) []))) / INR N;
    si_perc : forall j, (j < length (ss_levels st))%nat ->
        nth j (ss_thresholds st) 0 = Rmax 0 (percentile (map snd (nth j (ss_levels st) [])) p0);
    si_calls : ss_calls st = (N * length (ss_levels st))%nat
  }.

  Lemma filter_map_len {A} (f : A -> R) y l : length (filter (fun a => Rleb (f a) y) l) = count_le (map f l) y.
  Proof. unfold count_le. induction l as [|a l IH]; [reflexivity|]. cbn. destruct (Rleb (f a) y); cbn; rewrite IH; reflexivity. Qed.

  Lemma prob_range G y : length G = N -> percentile G p0 <= y -> pmin <= INR (count_le G y) / INR N <= 1.
  Proof.
    intros L H. assert (NP : 0 < INR N) by (apply (lt_INR 0); lia). unfold pmin. split.
    - apply Rmult_le_compat_r; [left; apply Rinv_0_lt_compat; exact NP|]. apply le_INR. rewrite <- L in *. apply percentile_count; [exact Hp|lia|exact H].
    - apply (Rmult_le_reg_r (INR N)); [exact NP|]. unfold Rdiv. rewrite Rmult_assoc, Rinv_l, Rmult_1_r, Rmult_1_l by lra. apply le_INR. rewrite <- L. apply count_le_length.
  Qed.

  Lemma lprod_app a b : lprod (a ++ b) = lprod a * lprod b.
  Proof. unfold lprod. induction a as [|x a IH]; cbn; [ring|]. rewrite IH. ring. Qed.

  (** adding a level *)
  Lemma sinv_snoc st smp thr p calls nl :
    sinv st -> length smp = N -> Forall (fun ug => snd ug = g (fst ug)) smp ->
    thr = Rmax 0 (percentile (map snd smp) p0) ->
    p = INR (count_le (map snd smp) thr) / INR N ->
    (forall j, (S j = length (ss_levels st))%nat -> Forall (fun ug => snd ug <= nth j (ss_thresholds st) 0) smp /\ thr <= nth j (ss_thresholds st) 0) ->
    calls = (ss_calls st + N)%nat ->
    sinv (mkss (ss_thresholds st ++ [thr]) (ss_probs st ++ [p]) (ss_Pf st * p) nl (ss_levels st ++ [smp]) calls).
  Proof.
    intros [A1 A2 A3 A4 A5 A6 A7 A8 A9 A10 A11] L Hg Ht Hpr Hprev Hc.
    assert (LT : length (ss_levels st) = length (ss_thresholds st)) by lia.
    constructor; cbn [ss_thresholds ss_probs ss_Pf ss_levels ss_calls]; rewrite ?app_length; cbn [length].
    - lia.
    - lia.
    - intros i j Hij Hj. destruct (Nat.lt_ge_cases j (length (ss_thresholds st))) as [Lj|Lj].
      + rewrite !app_nth1 by lia. apply A3; lia.
      + replace j with (length (ss_thresholds st)) in * by lia. rewrite nth_middle.
        destruct (Nat.lt_ge_cases i (length (ss_thresholds st))) as [Li|Li].
        * rewrite app_nth1 by lia. destruct (length (ss_thresholds st)) as [|m] eqn:EM; [lia|].
          destruct (Hprev m ltac:(lia)) as [_ Q]. specialize (A3 i m ltac:(lia) ltac:(lia)). lra.
        * replace i with (length (ss_thresholds st)) by lia. rewrite nth_middle. lra.
    - rewrite lprod_app, A4. cbn. ring.
    - apply Forall_app. split; [exact A5|]. constructor; [|constructor]. rewrite Hpr. apply prob_range; [rewrite map_length; exact L|]. rewrite Ht. apply Rmax_r.
    - apply Forall_app. auto.
    - intros s ug Hs Hu. apply in_app_or in Hs. destruct Hs as [Hs|[<-|[]]]; [exact (A7 s ug Hs Hu)|]. rewrite Forall_forall in Hg. apply Hg. exact Hu.
    - intros j ug Hj Hu. destruct (Nat.lt_ge_cases (S j) (length (ss_levels st))) as [Lj|Lj].
      + rewrite app_nth1 in Hu |- * by lia. apply A8; assumption.
      + assert (SJ : S j = length (ss_levels st)) by lia. rewrite SJ, nth_middle in Hu.
        rewrite app_nth1 by lia. destruct (Hprev j SJ) as [Q _]. rewrite Forall_forall in Q. apply Q. exact Hu.
    - intros j Hj. destruct (Nat.lt_ge_cases j (length (ss_levels st))) as [Lj|Lj].
      + rewrite !app_nth1 by lia. apply A9. exact Lj.
      + replace j with (length (ss_levels st)) by lia. rewrite (app_nth2 (ss_probs st)) by lia. rewrite (app_nth2 (ss_thresholds st)) by lia. rewrite (app_nth2 (ss_levels st)) by lia.
        replace (length (ss_levels st) - length (ss_probs st))%nat with 0%nat by lia.
        replace (length (ss_levels st) - length (ss_thresholds st))%nat with 0%nat by lia. rewrite Nat.sub_diag. cbn [nth].
        rewrite filter_map_len. exact Hpr.
    - intros j Hj. destruct (Nat.lt_ge_cases j (length (ss_levels st))) as [Lj|Lj].
      + rewrite !app_nth1 by lia. apply A10. exact Lj.
      + replace j with (length (ss_levels st)) by lia. rewrite (app_nth2 (ss_thresholds st)) by lia. rewrite (app_nth2 (ss_levels st)) by lia.
        replace (length (ss_levels st) - length (ss_thresholds st))%nat with 0%nat by lia. rewrite Nat.sub_diag. cbn [nth]. exact Ht.
    - lia.
  Qed.

  Definition posthr (l : list R) : Prop := Forall (fun y => 0 < y) l.

  Lemma seeds_nonempty smp y : length smp = N -> percentile (map snd smp) p0 <= y -> seeds_of smp y <> [].
  Proof.
    intros L H C. assert (E : length (seeds_of smp y) = 0%nat) by (rewrite C; reflexivity).
    unfold seeds_of in E. rewrite (filter_map_len (@snd vec R)) in E.
    assert (K : (S (Z.to_nat (Int_part (p0 * INR (length (map snd smp) - 1)))) <= count_le (map snd smp) y)%nat) by (apply percentile_count; [exact Hp|rewrite map_length; lia|exact H]). lia.
  Qed.

  Lemma loop_spec : forall fuel st seeds y pos level st',
    sinv st -> posthr (ss_thresholds st) -> (1 <= level)%nat -> length (ss_levels st) = level ->
    y = nth (level - 1) (ss_thresholds st) 0 -> seeds <> [] -> Forall (good g y) seeds ->
    ss_loop nrv N p0 sigma unif Gof fuel st seeds y pos level = SDone st' ->
    sinv st' /\ ss_nlevels st' = length (ss_levels st') /\
    exists ts, ss_thresholds st' = ts ++ [0] /\ posthr ts.
  Proof.
    induction fuel as [|f IH]; intros st seeds y pos level st' HI HPT Hl Hlev Hy Hne Hs E; [discriminate|].
    cbn [ss_loop] in E.
    destruct (step_spec nrv N sigma unif Gof g HG seeds y pos (ss_calls st) Hne Hs) as (out & pos' & E1 & L & F).
    rewrite E1 in E. cbv zeta in E.
    assert (F1 : Forall (fun ug => snd ug = g (fst ug)) out) by (eapply Forall_impl; [|exact F]; intros a [Q _]; exact Q).
    assert (F2 : Forall (fun ug => snd ug <= y) out) by (eapply Forall_impl; [|exact F]; intros a [_ Q]; exact Q).
    assert (Hprev : forall thr, (thr = Rmax 0 (percentile (map snd out) p0)) -> forall j, (S j = length (ss_levels st))%nat ->
              Forall (fun ug => snd ug <= nth j (ss_thresholds st) 0) out /\ thr <= nth j (ss_thresholds st) 0).
    { intros thr Ht j Hj. replace j with (level - 1)%nat by lia. rewrite <- Hy. split; [exact F2|].
      rewrite Ht. apply Rmax_lub.
      - rewrite Hy. unfold posthr in HPT. rewrite Forall_forall in HPT. left. apply HPT, nth_In. destruct HI as [A1 A2 _ _ _ _ _ _ _ _ _]. lia.
      - apply percentile_le_max; [exact Hp|rewrite map_length; lia|]. intros q Hq. apply in_map_iff in Hq. destruct Hq as (ug & <- & Hu).
        rewrite Forall_forall in F2. apply F2. exact Hu. }
    destruct (Rleb (percentile (map snd out) p0) 0) eqn:EY.
    - apply Rleb_spec in EY. inversion E; subst st'. clear E.
      assert (T0 : 0 = Rmax 0 (percentile (map snd out) p0)) by (symmetry; apply Rmax_left; exact EY).
      split; [|split].
      + apply sinv_snoc; auto. 
      + cbn. rewrite app_length. cbn. lia.
      + exists (ss_thresholds st). split; [reflexivity|exact HPT].
    - apply Rleb_false in EY.
      assert (T0 : percentile (map snd out) p0 = Rmax 0 (percentile (map snd out) p0)) by (symmetry; apply Rmax_right; lra).
      eapply IH in E; [exact E| | |lia| | | |].
      + apply sinv_snoc; auto.
      + cbn. apply Forall_app. split; [exact HPT|]. constructor; [exact EY|constructor].
      + cbn. rewrite app_length. cbn. lia.
      + cbn. replace (level + 1 - 1)%nat with (length (ss_thresholds st)); [rewrite nth_middle; reflexivity|].
        destruct HI as [A1 A2 _ _ _ _ _ _ _ _ _]. lia.
      + apply seeds_nonempty; [exact L|lra].
      + apply Forall_forall. intros ug Hu. unfold seeds_of in Hu. apply filter_In in Hu. destruct Hu as [Hu Hle]. apply Rleb_spec in Hle.
        split; [|exact Hle]. rewrite Forall_forall in F1. apply F1. exact Hu.
  Qed.

  Lemma loop_noraise : forall fuel st seeds y pos level e, 0 < y -> seeds <> [] -> Forall (good g y) seeds ->
    ss_loop nrv N p0 sigma unif Gof fuel st seeds y pos level <> SRaise e.
  Proof.
    induction fuel as [|f IH]; intros st seeds y pos level e Hy Hne Hs E; [discriminate|]. cbn [ss_loop] in E.
    destruct (step_spec nrv N sigma unif Gof g HG seeds y pos (ss_calls st) Hne Hs) as (out & pos' & E1 & L & F).
    rewrite E1 in E. cbv zeta in E. destruct (Rleb (percentile (map snd out) p0) 0) eqn:EY; [discriminate|].
    apply Rleb_false in EY. revert E. apply IH; [exact EY|apply seeds_nonempty; [exact L|lra]|].
    apply Forall_forall. intros ug Hu. unfold seeds_of in Hu. apply filter_In in Hu. destruct Hu as [Hu Hle]. apply Rleb_spec in Hle.
    split; [|exact Hle]. rewrite Forall_forall in F. apply F. exact Hu.
  Qed.

  Definition u0s : list vec := map (fun j => (fun i => randn (i * N + j)%nat) : vec) (seq 0 N).
  Lemma u0s_len : length u0s = N.
  Proof. unfold u0s. rewrite map_length, seq_length. reflexivity. Qed.
  Lemma combine_map_self {A B} (f : A -> B) l : combine l (map f l) = map (fun a => (a, f a)) l.
  Proof. induction l as [|a l IH]; [reflexivity|]. cbn. f_equal. exact IH. Qed.

  Definition lev0 : list (vec * R) := map (fun a => (a, g a)) u0s.
  Lemma lev0_snd : map snd lev0 = map g u0s.
  Proof. unfold lev0. rewrite map_map. reflexivity. Qed.
  Lemma lev0_len : length lev0 = N.
  Proof. unfold lev0. rewrite map_length. apply u0s_len. Qed.
  Lemma lev0_good : Forall (fun ug => snd ug = g (fst ug)) lev0.
  Proof. apply Forall_forall. intros ug Hu. unfold lev0 in Hu. apply in_map_iff in Hu. destruct Hu as (a & <- & _). reflexivity. Qed.

  Lemma ss_run_unfold fuel : ss_run nrv N block p0 sigma randn unif Gof fuel =
    let G := map g u0s in let y := percentile G p0 in
    if Rleb y 0 then SDone (mkss [0] [INR (count_le G 0) / INR N] (INR (count_le G 0) / INR N) 1 [lev0] N)
    else ss_loop nrv N p0 sigma unif Gof fuel (mkss [y] [INR (count_le G y) / INR N] (INR (count_le G y) / INR N) 0 [lev0] N) (seeds_of lev0 y) y 0 1.
  Proof.
    unfold ss_run. fold u0s. rewrite (eval_batch_ok block Gof g _ HG Hb). cbv zeta. rewrite combine_map_self. reflexivity.
  Qed.

  Definition ss_empty : ss_state := mkss [] [] 1 0 [] 0.
  Lemma sinv_empty : sinv ss_empty.
  Proof. constructor; cbn; try reflexivity; try constructor; intros; try lia; try contradiction. Qed.

  Lemma sinv_lev0 thr nl : thr = Rmax 0 (percentile (map g u0s) p0) ->
    sinv (mkss [thr] [INR (count_le (map g u0s) thr) / INR N] (INR (count_le (map g u0s) thr) / INR N) nl [lev0] N).
  Proof.
    intros Ht. rewrite <- lev0_snd in *.
    pose proof (sinv_snoc ss_empty lev0 thr (INR (count_le (map snd lev0) thr) / INR N) N nl sinv_empty lev0_len lev0_good Ht eq_refl) as K.
    cbn [ss_empty ss_thresholds ss_probs ss_Pf ss_levels ss_calls app] in K. rewrite Rmult_1_l in K. apply K; [|reflexivity].
    cbn. intros; lia.
  Qed.

  Lemma lev0_seeds y : Forall (good g y) (seeds_of lev0 y).
  Proof.
    apply Forall_forall. intros ug Hu. unfold seeds_of in Hu. apply filter_In in Hu. destruct Hu as [Hu Hle]. apply Rleb_spec in Hle.
    split; [|exact Hle]. pose proof lev0_good as Q. rewrite Forall_forall in Q. apply Q. exact Hu.
  Qed.

  Lemma run_spec fuel st : ss_run nrv N block p0 sigma randn unif Gof fuel = SDone st ->
    sinv st /\ ss_nlevels st = length (ss_levels st) /\ exists ts, ss_thresholds st = ts ++ [0] /\ posthr ts.
  Proof.
    rewrite ss_run_unfold. cbv zeta. set (y := percentile (map g u0s) p0). destruct (Rleb y 0) eqn:EY; intros E.
    - apply Rleb_spec in EY. inversion E; subst st. split; [apply sinv_lev0; symmetry; apply Rmax_left; exact EY|].
      split; [reflexivity|]. exists []. split; [reflexivity|constructor].
    - apply Rleb_false in EY. eapply loop_spec in E; [exact E| | |lia|reflexivity|reflexivity| |].
      + apply sinv_lev0. symmetry. apply Rmax_right. fold y. lra.
      + constructor; [exact EY|constructor].
      + apply seeds_nonempty; [apply lev0_len|]. rewrite lev0_snd. fold y. lra.
      + apply lev0_seeds.
  Qed.

  Lemma run_noraise fuel e : ss_run nrv N block p0 sigma randn unif Gof fuel <> SRaise e.
  Proof.
    rewrite ss_run_unfold. cbv zeta. set (y := percentile (map g u0s) p0). destruct (Rleb y 0) eqn:EY; [discriminate|].
    apply Rleb_false in EY. apply loop_noraise; [exact EY| |apply lev0_seeds].
    apply seeds_nonempty; [apply lev0_len|]. rewrite lev0_snd. fold y. lra.
  Qed.

  Lemma loop_diverges : (forall u, 0 < g u) -> forall fuel st seeds y pos level, seeds <> [] -> Forall (good g y) seeds ->
    ss_loop nrv N p0 sigma unif Gof fuel st seeds y pos level = SFuel.
  Proof.
    intros HP. induction fuel as [|f IH]; intros st seeds y pos level Hne Hs; [reflexivity|]. cbn [ss_loop].
    destruct (step_spec nrv N sigma unif Gof g HG seeds y pos (ss_calls st) Hne Hs) as (out & pos' & E1 & L & F).
    rewrite E1. cbv zeta. assert (EY : 0 < percentile (map snd out) p0).
    { apply percentile_gt_min; [exact Hp|rewrite map_length; lia|]. intros q Hq. apply in_map_iff in Hq. destruct Hq as (ug & <- & Hu).
      rewrite Forall_forall in F. destruct (F ug Hu) as [Q _]. rewrite Q. apply HP. }
    destruct (Rleb (percentile (map snd out) p0) 0) eqn:C; [apply Rleb_spec in C; lra|]. apply IH.
    - apply seeds_nonempty; [exact L|lra].
    - apply Forall_forall. intros ug Hu. unfold seeds_of in Hu. apply filter_In in Hu. destruct Hu as [Hu Hle]. apply Rleb_spec in Hle.
      split; [|exact Hle]. rewrite Forall_forall in F. apply F. exact Hu.
  Qed.

  Lemma run_diverges : (forall u, 0 < g u) -> forall fuel, ss_run nrv N block p0 sigma randn unif Gof fuel = SFuel.
  Proof.
    intros HP fuel. rewrite ss_run_unfold. cbv zeta.
    assert (EY : 0 < percentile (map g u0s) p0).
    { apply percentile_gt_min; [exact Hp|rewrite map_length, u0s_len; lia|]. intros q Hq. apply in_map_iff in Hq. destruct Hq as (a & <- & _). apply HP. }
    destruct (Rleb (percentile (map g u0s) p0) 0) eqn:C; [apply Rleb_spec in C; lra|]. apply loop_diverges; [exact HP| |apply lev0_seeds].
    apply seeds_nonempty; [apply lev0_len|]. rewrite lev0_snd. lra.
  Qed.
End Runs.

(** ** Metropolis rule *)
Definition acc_prob (u xi : R) : R := Rmin 1 (phi xi / phi u).

Lemma phi_ratio u xi : phi xi / phi u = exp (- (1 / 2) * (xi ^ 2 - u ^ 2)).
Proof.
  unfold phi. assert (0 < sqrt (2 * PI)) by (apply sqrt_lt_R0; pose proof PI_RGT_0; lra).
  pose proof (exp_pos (- (1 / 2) * (u * u))).
  transitivity (exp (- (1 / 2) * (xi * xi)) / exp (- (1 / 2) * (u * u))); [field; lra|].
  unfold Rdiv at 1. rewrite <- exp_Ropp, <- exp_plus. f_equal. field.
Qed.

Lemma accept_iff u xi r : 0 <= r < 1 -> (accept_comp u xi r = true <-> r < acc_prob u xi).
Proof.
  intros Hr. unfold accept_comp, log_lt, acc_prob. rewrite phi_ratio. set (a := - (1 / 2) * (xi ^ 2 - u ^ 2)).
  pose proof (exp_pos a). destruct (Rltb 0 r) eqn:E.
  - apply Rltb_spec in E. rewrite Rltb_spec. split; intros Q.
    + apply Rmin_glb_lt; [lra|]. rewrite <- (exp_ln r E). apply exp_increasing. exact Q.
    + assert (r < exp a) by (eapply Rlt_le_trans; [exact Q|apply Rmin_r]).
      apply exp_lt_inv. rewrite exp_ln by exact E. exact H0.
  - apply Rltb_false in E. split; [|reflexivity]. intros _. apply Rmin_glb_lt; lra.
Qed.

Lemma detailed_balance u xi : phi u * acc_prob u xi = phi xi * acc_prob xi u.
Proof.
  unfold acc_prob. pose proof (phi_pos u) as P1. pose proof (phi_pos xi) as P2.
  assert (K : forall a b, 0 < a -> 0 < b -> a * Rmin 1 (b / a) = Rmin a b).
  { intros a b Ha Hb. unfold Rmin. destruct (Rle_dec 1 (b / a)) as [L|L]; destruct (Rle_dec a b) as [M|M].
    - ring.
    - exfalso. apply (Rmult_le_compat_r a) in L; [|lra]. unfold Rdiv in L. rewrite Rmult_assoc, Rinv_l in L by lra. lra.
    - exfalso. apply Rnot_le_lt in L. apply (Rmult_lt_compat_r a) in L; [|lra]. unfold Rdiv in L. rewrite Rmult_assoc, Rinv_l in L by lra. lra.
    - field. lra. }
  rewrite !K by assumption. apply Rmin_comm.
Qed.
