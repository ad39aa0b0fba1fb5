(** Property theorems C107: DistributionAnalysis as a whole analysis. *)
From Coquelicot Require Import Coquelicot.
From Verif Require Import Base Ext Gauss StochModel StochModelSpec StochModelProofs LimitState LimitStateSpec LimitStateProofs LimitStateProps Transf TransfSpec Form FormProps Nataf NatafProofs Dist RotProps Pipe PipeSpec PipeProofs PipeProps Sorm Mc McProofs McRun McRunProofs McRunOnSpec McRunOnProofs LsRunProofs DaRun DaRunSpec DaRunProofs.
From Coq Require Import ZArith Lra Lia.
Open Scope R_scope.

(** C107: on an object and a model with any history of analyses: the run ends and records, at its own
    position, the physical image of every simulated point, and the limit state value of that image. *)
Theorem C107_record : forall fmin chol svd inv h expr f fo mo bins stream fl a s s1 T A M off,
  let n := ndists h in let N := Z.to_nat (mo_samples mo) in
  same_problem (sm_run h) s ->
  init_run_full fmin chol svd inv (db_type a) s = (s1, Ok (T, A)) -> sm_Ro s1 = Some M -> length M = n ->
  db_nrv a = n -> (1 <= n)%nat -> pointwise expr f ->
  o_multi_proc (fo_ls fo) <> 0%Z -> (1 <= o_block_size (fo_ls fo))%Z ->
  (0 < mo_block mo)%Z -> (0 <= mo_samples mo)%Z -> mo_rg mo = 0%Z -> (N < fl)%nat ->
  exists a' s' st, da_run_on fmin chol svd inv expr fo mo bins stream fl a s off = (a', s', MEnd) /\
    db_st a' = Some st /\ db_valid a' = true /\ db_type a' = db_type a /\ db_nrv a' = n /\ db_bins a' = Some (computeBins bins (mo_samples mo)) /\
    da_k st = mo_samples mo /\ length (da_X st) = N /\
    (forall q i, (q < N)%nat -> (i < n)%nat -> nth q (da_X st) (fun _ => 0) i = u_to_x n A (marg_at (sm_run h)) (nth_point n mo stream off q) i) /\
    da_G st = map (fun x => f (args_at h (vlist n x))) (da_X st) /\ da_off st = (off + n * N)%nat /\
    same_problem (sm_run h) s' /\ sm_calls s' = (sm_calls s + N)%nat.
Proof.
  intros fmin chol svd inv h expr f fo mo bins stream fl a s s1 T A M off n N HC EI ERo EMl En Hn Hp Hm Hbl Hb Hsa Hrg Hfl.
  assert (EM0 : length (sm_marg (sm_run h)) = n) by (destruct (registry h) as (_ & _ & X & _); rewrite X; reflexivity).
  assert (HC1 : same_core (sm_run h) s1). { pose proof (init_same fmin chol svd inv (db_type a) s) as X. rewrite EI in X. exact (core_trans _ _ _ HC X). }
  set (g := fun u => f (args_at h (vlist n (u_to_x n A (marg_at (sm_run h)) u)))).
  assert (HG : forall us, mc_limit_state (sm_run h) expr (fo_ls fo) n A (marg_at (sm_run h)) us = Ok (map g us)).
  { intros us. apply mc_limit_state_ok; assumption. }
  set (st0 := mkda 0 off (repeat (fun _ : nat => 0) N) (repeat 0 N) []).
  assert (D0 : dlay mo stream (sm_run h) n A g off st0).
  { unfold dlay, st0, dinv. cbn [da_k da_pts da_X da_G da_off length map app]. rewrite Z.sub_0_r. split; [|split; [lia|split; [right; exists 0%nat; lia|intros q i Hq; lia]]].
    refine (conj eq_refl (conj _ (conj eq_refl eq_refl))). lia. }
  destruct (da_loop_sim expr fo mo stream (sm_run h) n A g off EM0 HG Hb Hrg fl st0 s1 HC1 D0) as (st & ES & ((I1 & I2 & I3 & I4) & IO & _ & ID) & K).
  { unfold st0. cbn [da_k]. rewrite Z.sub_0_r. exact Hfl. }
  unfold st0 in ES at 2. cbn [da_k] in ES. rewrite Z.sub_0_r in ES. fold N in ES.
  exists (mkDb true (db_type a) n (Some st) (Some (computeBins bins (mo_samples mo)))), (addCallFunction s1 N), st.
  rewrite K, Z.sub_diag in I3, I4. cbn [Z.to_nat repeat] in I3, I4. rewrite app_nil_r in I3, I4.
  assert (LP : length (da_pts st) = N) by (unfold N; lia).
  split. { unfold da_run_on. rewrite EI, ERo, EMl, En. destruct (Z.ltb_spec (mo_samples mo) 0); [lia|]. fold N. fold st0. rewrite ES. reflexivity. }
  split; [reflexivity|]. split; [reflexivity|]. split; [reflexivity|]. split; [reflexivity|]. split; [reflexivity|]. split; [exact K|].
  split; [rewrite I3, map_length; exact LP|].
  split. { intros q i Hq Hi. rewrite I3. rewrite (nth_indep _ _ (u_to_x n A (marg_at (sm_run h)) (fun _ => 0))) by (rewrite map_length, LP; exact Hq). rewrite map_nth.
    unfold u_to_x. f_equal. apply (mvec_ext n A). intros j Hj. apply ID; [rewrite LP; exact Hq|exact Hj]. }
  split. { rewrite I3, I4, map_map. reflexivity. }
  split; [rewrite IO, LP; reflexivity|].
  split. { destruct HC1 as (? & ? & ? & ? & ?). repeat split; assumption. }
  assert (sm_calls s1 = sm_calls s). { unfold init_run_full in EI. unfold setModifiedCorrelationMatrix in EI. destruct (sm_corr s); [|discriminate].
    destruct (forallb _ _); [|discriminate]. destruct (computeModifiedCorrelationMatrix _ _ _ _ _) as [[? ?]|]; [|discriminate]. cbn [setModifiedCorrelation sm_Ro] in EI. injection EI as <- _. reflexivity. }
  cbn. lia.
Qed.
Print Assumptions C107_record.

(** C107: for normal variables the recorded numbers are those of variables with the deviations
    multiplied by the simulation standard deviation option. *)
Theorem C107_simulation_stdv : forall fmin chol svd inv h expr f fo mo bins stream fl a s s1 T A M off nm (mu sd : vec),
  let n := ndists h in let N := Z.to_nat (mo_samples mo) in
  same_problem (sm_run h) s ->
  init_run_full fmin chol svd inv (db_type a) s = (s1, Ok (T, A)) -> sm_Ro s1 = Some M -> length M = n ->
  db_nrv a = n -> (1 <= n)%nat -> pointwise expr f ->
  o_multi_proc (fo_ls fo) <> 0%Z -> (1 <= o_block_size (fo_ls fo))%Z ->
  (0 < mo_block mo)%Z -> (0 <= mo_samples mo)%Z -> mo_rg mo = 0%Z -> (N < fl)%nat ->
  (forall i, (i < n)%nat -> nth_error (dists_of (accepted h)) i = Some (Normal (nm i) (mu i) (sd i))) ->
  exists a' s' st, da_run_on fmin chol svd inv expr fo mo bins stream fl a s off = (a', s', MEnd) /\ db_st a' = Some st /\
    let z q := nth_point n (mkmo (mo_samples mo) (mo_block mo) (mo_target mo) 1 (mo_rg mo)) stream off q in
    forall q i, (q < N)%nat -> (i < n)%nat -> nth q (da_X st) (fun _ => 0) i = mu i + (mo_stdv mo * sd i) * mvec n A (z q) i.
Proof.
  intros fmin chol svd inv h expr f fo mo bins stream fl a s s1 T A M off nm mu sd n N HC EI ERo EMl En Hn Hp Hm Hbl Hb Hsa Hrg Hfl HN.
  destruct (C107_record fmin chol svd inv h expr f fo mo bins stream fl a s s1 T A M off HC EI ERo EMl En Hn Hp Hm Hbl Hb Hsa Hrg Hfl) as (a' & s' & st & E & ES & _ & _ & _ & _ & _ & _ & HX & _).
  exists a', s', st. split; [exact E|]. split; [exact ES|]. intros z q i Hq Hi. rewrite HX by assumption. fold n.
  unfold u_to_x. assert (EMg : marg_at (sm_run h) i = Normal (nm i) (mu i) (sd i)).
  { unfold marg_at. destruct (registry h) as (_ & _ & EM & _). rewrite EM. apply nth_error_nth, HN, Hi. }
  rewrite EMg. cbn [Normal rv_of rv_u2x]. 
  replace (mvec n A (nth_point n mo stream off q) i) with (mo_stdv mo * mvec n A (z q) i).
  - cbn. ring.
  - unfold mvec. rewrite <- fsum_scal. apply fsum_ext. intros j Hj. unfold z, nth_point. cbn [mo_stdv mo_block mo_samples]. ring.
Qed.
Print Assumptions C107_simulation_stdv.

(** C107: the figures of a finished run: one per random variable with that variable's record and the
    density of that marginal, and one of the limit state values.  The title of every figure names its
    variable if and only if no constant was added to the model before a random variable. *)
Theorem C107_figures : forall h a s st b, let n := ndists h in
  same_problem (sm_run h) s -> db_valid a = true -> db_nrv a = n -> db_st a = Some st -> db_bins a = Some b -> da_X st <> [] ->
  exists figs, da_show a s = Ok figs /\ length figs = S n /\
    (forall i, (i < n)%nat -> exists t, nth_error figs i = Some (mkFig t (map (fun x => x i) (da_X st)) b (Some i))) /\
    nth_error figs n = Some (mkFig "Distribution Analysis for the Limit State Function" (da_G st) b None) /\
    ((forall i, (i < n)%nat -> option_map fg_title (nth_error figs i) = Some ("Distribution Analysis for " ++ rv_name (nth i (dists_of (accepted h)) rv0))%string) <-> constants_last (accepted h)).
Proof.
  intros h a s st b n HC Hv En Est Eb HX.
  destruct (registry h) as (RN & RD & RM & _). assert (ENm : sm_names s = names_of (accepted h)) by (destruct HC as (_ & X & _); rewrite <- RN; exact X).
  rewrite RN in RD.
  assert (LN : (n <= length (names_of (accepted h)))%nat).
  { unfold n, ndists. clear. induction (accepted h) as [|o l IH]; [cbn; lia|].
    destruct o; [change (S (length (dists_of l)) <= S (length (names_of l)))%nat; lia|change (length (dists_of l) <= S (length (names_of l)))%nat; lia|exact IH]. }
  set (F := fun i => mkFig ("Distribution Analysis for " ++ nth i (names_of (accepted h)) "")%string (map (fun x : vec => x i) (da_X st)) b (Some i)).
  set (figs := (map F (seq 0 n) ++ [mkFig "Distribution Analysis for the Limit State Function" (da_G st) b None])%list).
  assert (LF : length (map F (seq 0 n)) = n) by (rewrite map_length, seq_length; reflexivity).
  assert (NF : forall i, (i < n)%nat -> nth_error figs i = Some (F i)).
  { intros i Hi. unfold figs. rewrite nth_error_app1 by (rewrite LF; exact Hi). rewrite nth_error_map. rewrite (nth_error_nth' (seq 0 n) 0%nat) by (rewrite seq_length; exact Hi). rewrite seq_nth by exact Hi. reflexivity. }
  exists figs. split; [|split; [|split; [|split]]].
  - unfold da_show. rewrite Hv, Est, Eb, En. cbn [negb].
    pose proof (figures_spec F (fun i => match da_X st with [] => Err EValue | _ => match nth_error (sm_names s) i with None => Err EIndex | Some nm => Ok (mkFig ("Distribution Analysis for " ++ nm)%string (map (fun x : vec => x i) (da_X st)) b (Some i)) end end) n) as FS.
    assert (EX : forall l, fold_right (fun i acc => rbind acc (fun l => match da_X st with [] => Err EValue | _ => match nth_error (sm_names s) i with None => Err EIndex | Some nm => Ok (mkFig ("Distribution Analysis for " ++ nm)%string (map (fun x : vec => x i) (da_X st)) b (Some i) :: l) end end)) (Ok []) l
      = fold_right (fun i acc => rbind acc (fun l => rbind (match da_X st with [] => Err EValue | _ => match nth_error (sm_names s) i with None => Err EIndex | Some nm => Ok (mkFig ("Distribution Analysis for " ++ nm)%string (map (fun x : vec => x i) (da_X st)) b (Some i)) end end) (fun x => Ok (x :: l)))) (Ok []) l).
    { induction l as [|i l IH]; [reflexivity|]. cbn [fold_right]. rewrite IH. match goal with |- rbind ?x _ = rbind ?x _ => destruct x as [r|] end; cbn [rbind]; [|reflexivity]. destruct (da_X st); [reflexivity|]. destruct (nth_error (sm_names s) i); reflexivity. }
    rewrite EX, FS; [reflexivity|]. intros i Hi. destruct (da_X st) eqn:EXs; [contradiction|]. rewrite ENm. rewrite (nth_error_nth' _ ""%string) by lia. unfold F. reflexivity.
  - unfold figs. rewrite app_length, LF. cbn. lia.
  - intros i Hi. rewrite NF by exact Hi. eexists. reflexivity.
  - unfold figs. rewrite nth_error_app2 by lia. rewrite LF, Nat.sub_diag. reflexivity.
  - rewrite <- (titles_iff _ RD). split; intros H i Hi.
    + specialize (H i Hi). rewrite NF in H by exact Hi. cbn [option_map F fg_title] in H. injection H as H. exact H.
    + rewrite NF by exact Hi. cbn [option_map F fg_title]. rewrite (H i Hi). reflexivity.
Qed.
Print Assumptions C107_figures.

(** ** C107 The constructor: the number of variables is that of the random variables added so far (constants
    are not counted), and nothing can be shown before a run *)
Theorem C107_constructor : forall h opt a, da_new opt (sm_run h) = Ok a -> db_nrv a = ndists h /\ db_valid a = false /\ forall s, da_show a s = Err EValue.
Proof.
  intros h opt a H. unfold da_new in H. destruct (form_init opt) as [b|] eqn:E; [|discriminate]. cbn [rbind] in H. injection H as <-. cbn [db_nrv db_valid]. split.
  - destruct (registry h) as (_ & _ & RM & _). rewrite RM. reflexivity.
  - split; reflexivity.
Qed.
Print Assumptions C107_constructor.
(** ** C107 The number of bins: the user's, or the smallest integer not below four times the fourth root of
    the number of samples *)
Theorem C107_bins : forall bins samples, (0 <= samples)%Z ->
  (forall b, bins = Some b -> computeBins bins samples = b) /\
  (bins = None -> exists r, 0 <= r /\ r ^ 4 = IZR samples /\ 4 * r <= IZR (computeBins bins samples) < 4 * r + 1).
Proof.
  intros bins samples Hs. split; [intros b ->; reflexivity|]. intros ->. exists (sqrt (sqrt (IZR samples))). split; [apply sqrt_pos|]. apply IZR_le in Hs. split.
  - replace (sqrt (sqrt (IZR samples)) ^ 4) with ((sqrt (sqrt (IZR samples)) * sqrt (sqrt (IZR samples))) * (sqrt (sqrt (IZR samples)) * sqrt (sqrt (IZR samples)))) by ring.
    rewrite sqrt_sqrt by apply sqrt_pos. apply sqrt_sqrt. exact Hs.
  - unfold computeBins, ceilZ. set (x := 4 * sqrt (sqrt (IZR samples))). destruct (base_Int_part (- x)) as (A & B). rewrite opp_IZR. lra.
Qed.
Print Assumptions C107_bins.
(** ** C107 Another random generator: a first run raises TypeError, with the object marked as having valid
    results all the same, so that showResults then shows zeros *)
Theorem C107_other_generator : forall fmin chol svd inv expr fo mo bins stream fl opt s a s1 T A off,
  da_new opt s = Ok a -> init_run_full fmin chol svd inv (db_type a) s = (s1, Ok (T, A)) ->
  (0 < mo_block mo)%Z -> (0 < mo_samples mo)%Z -> mo_rg mo <> 0%Z -> (0 < fl)%nat ->
  exists a' st, da_run_on fmin chol svd inv expr fo mo bins stream fl a s off = (a', s1, MRaised EType) /\
    db_valid a' = true /\ db_st a' = Some st /\ da_X st = repeat (fun _ => 0) (Z.to_nat (mo_samples mo)).
Proof.
  intros fmin chol svd inv expr fo mo bins stream fl opt s a s1 T A off _ EI Hb Hs Hr Hf. unfold da_run_on. rewrite EI.
  replace (mo_samples mo <? 0)%Z with false by (symmetry; apply Z.ltb_ge; lia). destruct fl as [|fl]; [lia|]. cbn [da_loop_on da_k].
  replace (0 <? mo_samples mo)%Z with true by (symmetry; apply Z.ltb_lt; lia).
  replace (Z.min (mo_block mo) (mo_samples mo - 0) <? 0)%Z with false by (symmetry; apply Z.ltb_ge; lia).
  replace (mo_rg mo =? 0)%Z with false by (symmetry; apply Z.eqb_neq; exact Hr). cbn [negb].
  eexists. eexists. split; [reflexivity|]. repeat split.
Qed.
Print Assumptions C107_other_generator.

(** *** Non-vacuity: R ~ N(200, 20), the constant k, S ~ N(40, 5); 5 samples in blocks of 2 with simulation
    standard deviation 2: the records are those of N(200, 40) and N(40, 10), and the figure of S is titled
    with the name of the constant. *)
Example C107_example : forall fmin stream off, exists a a' s' st A figs f1,
  da_new None (sm_run h_pipe) = Ok a /\
  da_run_on fmin chol2 svd2 inv2 expr_ex default_options (mkmo 5 2 (/ 20) 2 0) None stream 6 a (sm_run h_pipe) off = (a', s', MEnd) /\ db_st a' = Some st /\
  length (da_X st) = 5%nat /\ sm_calls s' = 5%nat /\
  nth 3 (da_X st) (fun _ => 0) 1%nat = 40 + 10 * (A 1%nat 0%nat * stream (off + 4 + 1)%nat + A 1%nat 1%nat * stream (off + 4 + 2 + 1)%nat) /\
  da_show a' s' = Ok figs /\ nth_error figs 1 = Some f1 /\ fg_title f1 = "Distribution Analysis for k"%string /\ fg_data f1 = map (fun x => x 1%nat) (da_X st).
Proof.
  intros fmin stream off.
  destruct (modified_ok fmin 2 (mat_of (eye_rows 2)) (fun i => marg_of (marg_at (sm_run h_pipe) i)) 2 (le_n 2)) as (Ro & E & D & S & L & _).
  match type of E with _ = Ok (_, ?x) => set (lg := x) in * end.
  assert (R10 : Ro 1%nat 0%nat = 0).
  { rewrite L by lia. unfold pair_value. unfold mat_of. cbn [nth]. cbn. now rewrite (proj2 (Reqb_spec 0 0) eq_refl). }
  assert (EI : forall i j, (i < 2)%nat -> (j < 2)%nat -> Ro i j = delta i j).
  { intros i j Hi Hj. two i Hi; two j Hj; cbn; rewrite ?D, ?R10; try reflexivity. rewrite (S 0%nat 1%nat), R10. reflexivity. }
  assert (EM : length (sm_marg (sm_run h_pipe)) = 2%nat) by reflexivity.
  destruct (ln_factor fmin chol2 svd2 inv2 ERuntime h_pipe (eye_rows 2) Ro lg aF None lapack2 eq_refl E (eye_posdef 2 Ro EI)) as (T & A & ET & _).
  assert (ESQ : forall r, In r (eye_rows 2) -> length r = 2%nat) by (intros q Hq; cbn in Hq; destruct Hq as [<-|[<-|[]]]; reflexivity).
  assert (EIN := init_ok fmin chol2 svd2 inv2 "cholesky" (sm_run h_pipe) (eye_rows 2) 2 Ro lg T A eq_refl eq_refl ESQ EM E ET (sm_run h_pipe) ltac:(repeat split)).
  set (a := mkDb false "cholesky" 2 None None).
  assert (ED : forall i, (i < 2)%nat -> nth_error (dists_of (accepted h_pipe)) i = Some (Normal (pick "R" "S" i)%string (pick 200 40 i) (pick 20 5 i))) by (intros i Hi; two i Hi; reflexivity).
  destruct (C107_record fmin chol2 svd2 inv2 h_pipe expr_ex g_ex default_options (mkmo 5 2 (/ 20) 2 0) None stream 6 a (sm_run h_pipe) _ T A _ off ltac:(repeat split) EIN eq_refl eq_refl eq_refl ltac:(cbn; lia) pointwise_ex
     ltac:(discriminate) ltac:(cbn; lia) ltac:(cbn; lia) ltac:(cbn; lia) eq_refl ltac:(cbn; lia)) as (a' & s' & st & R1 & R2 & R3 & R4 & R5 & R6 & R7 & R8 & _ & _ & _ & R12 & R13).
  destruct (C107_simulation_stdv fmin chol2 svd2 inv2 h_pipe expr_ex g_ex default_options (mkmo 5 2 (/ 20) 2 0) None stream 6 a (sm_run h_pipe) _ T A _ off (pick "R" "S")%string (pick 200 40) (pick 20 5) ltac:(repeat split) EIN eq_refl eq_refl eq_refl ltac:(cbn; lia) pointwise_ex
     ltac:(discriminate) ltac:(cbn; lia) ltac:(cbn; lia) ltac:(cbn; lia) eq_refl ltac:(cbn; lia) ED) as (a2 & s2 & st2 & Q1 & Q2 & Q3).
  rewrite R1 in Q1. injection Q1 as <- <-. rewrite R2 in Q2. injection Q2 as <-.
  assert (NX : da_X st <> []) by (intros X; rewrite X in R8; discriminate).
  destruct (C107_figures h_pipe a' s' st _ R12 R3 R5 R2 R6 NX) as (figs & F1 & _ & F2 & _ & _).
  destruct (F2 1%nat ltac:(cbn; lia)) as (t & Ft).
  exists a, a', s', st, A, figs, (mkFig t (map (fun x => x 1%nat) (da_X st)) (computeBins None 5) (Some 1%nat)).
  split; [reflexivity|]. split; [exact R1|]. split; [exact R2|]. split; [exact R8|]. split; [exact R13|].
  split. { rewrite (Q3 3%nat 1%nat) by (cbn; lia). cbn [pick mo_stdv]. change (ndists h_pipe) with 2%nat. unfold mvec. cbn [fsum]. unfold nth_point. cbn [mo_block mo_samples mo_stdv mo_rg mo_target].
    change (Z.to_nat 2) with 2%nat. change (Z.to_nat 5) with 5%nat. change (3 / 2)%nat with 1%nat. change (3 mod 2)%nat with 1%nat. change (Nat.min 2 (5 - 2 * 1)) with 2%nat.
    replace (off + 2 * (2 * 1) + 0 * 2 + 1)%nat with (off + 4 + 1)%nat by lia. replace (off + 2 * (2 * 1) + 1 * 2 + 1)%nat with (off + 4 + 2 + 1)%nat by lia. ring. }
  split; [exact F1|]. split; [exact Ft|]. split; [|reflexivity]. cbn [fg_title].
  assert (ENm : sm_names s' = ["R"; "k"; "S"]%string) by (destruct R12 as (_ & X & _); rewrite X; reflexivity).
  clear -F1 Ft ENm R2 R3 R5 R6 NX. unfold da_show in F1. rewrite R3, R2, R6, R5, ENm in F1. change (ndists h_pipe) with 2%nat in F1.
  cbn [negb seq fold_right rbind nth_error] in F1. destruct (da_X st) as [|x X] eqn:EX; [contradiction|]. cbn [rbind] in F1. injection F1 as <-. cbn [app nth_error] in Ft. injection Ft as <-. reflexivity.
Qed.
