From Coquelicot Require Import Coquelicot.
From Verif Require Import Base Ext Gauss GaussProofs StochModel StochModelSpec StochModelProofs LimitState LimitStateSpec LimitStateProofs Transf TransfSpec Form FormProofs Nataf Dist Pipe PipeSpec PipeProofs PipeProps Sorm Mc McSpec McProofs McRunProofs McRun McRunOnProofs LsRunProofs Ss SsProofs SsRun.
From Coq Require Import ZArith Lra Lia.
Open Scope R_scope.

Section Sim.
Variables (expr : expression) (fo : form_opts) (randn unif : nat -> R) (s0 : smodel) (n N : nat) (A : mat) (p0 sigma : R).
Hypothesis EM : length (sm_marg s0) = n.
Let Gof := mc_limit_state s0 expr (fo_ls fo) n A (marg_at s0).
Let block := o_block_size (fo_ls fo).

Lemma sv_sim s us : same_core s0 s -> exists c, sv_eval expr fo n n A s us = (Gof us, addCallFunction s c) /\ (forall G, Gof us = Ok G -> c = length us).
Proof.
  intros HC. destruct (eval_sim expr fo s0 n A EM s us HC) as (E1 & c & E2 & E3). exists c. split; [|exact E3].
  unfold sv_eval. destruct (mc_eval expr fo n n A s us) as [G s']. cbn [fst snd] in *. now subst.
Qed.

Lemma blocks_sim fl : (1 <= block)%Z -> forall us s, same_core s0 s -> (length us <= fl)%nat ->
  exists c, eval_blocks_on expr fo n n A fl us s = (eval_blocks block Gof fl us, addCallFunction s c) /\ (forall G, eval_blocks block Gof fl us = Ok G -> c = length us).
Proof.
  intros Hb. induction fl as [|f IH]; intros us s HC HL; cbn [eval_blocks_on eval_blocks].
  - exists 0%nat. rewrite add0. split; [reflexivity|]. intros. lia.
  - destruct us as [|u us]. { exists 0%nat. rewrite add0. split; [reflexivity|]. intros. reflexivity. }
    set (b := Z.to_nat (o_block_size (fo_ls fo))). change (Z.to_nat block) with b.
    destruct (sv_sim s (firstn b (u :: us)) HC) as (c & E & Ec). rewrite E.
    destruct (Gof (firstn b (u :: us))) as [G|e] eqn:EG.
    2: { exists c. split; [reflexivity|]. intros G HH. discriminate. }
    specialize (Ec G eq_refl). assert (BP : (1 <= b)%nat) by (unfold b, block in *; lia).
    destruct (IH (skipn b (u :: us)) (addCallFunction s c) (core_trans _ _ _ HC (core_add s c))) as (c' & E' & Ec').
    { rewrite skipn_length. lia. }
    rewrite E'. exists (c + c')%nat. rewrite add_add. split; [reflexivity|]. intros GG HGG.
    destruct (eval_blocks block Gof f (skipn b (u :: us))) as [G'|e]; [|discriminate]. rewrite (Ec' G' eq_refl), Ec, <- app_length, firstn_skipn. reflexivity.
Qed.

Lemma batch_sim us s : same_core s0 s ->
  exists c, eval_g_batch_on expr fo n n A us s = (eval_g_batch block Gof us, addCallFunction s c) /\ (forall G, eval_g_batch block Gof us = Ok G -> c = length us).
Proof.
  intros HC. unfold eval_g_batch_on, eval_g_batch. fold block. destruct (Z.leb_spec block 0).
  - exists 0%nat. rewrite add0. split; [reflexivity|]. discriminate.
  - apply blocks_sim; [lia|exact HC|lia].
Qed.

Definition advanced (r : ss_level_out) (calls c : nat) : Prop := match r with LvDone _ _ calls' => calls' = (calls + c)%nat | LvRaise _ => True end.

Lemma chain_sim thr m : forall u g pos calls acc s, same_core s0 s ->
  exists c, mmh_chain_on expr fo unif n n A sigma m thr u g pos calls acc s = (mmh_chain n sigma unif Gof m thr u g pos calls acc, addCallFunction s c) /\
    advanced (mmh_chain n sigma unif Gof m thr u g pos calls acc) calls c.
Proof.
  induction m as [|m IH]; intros u g pos calls acc s HC; cbn [mmh_chain_on mmh_chain].
  - exists 0%nat. rewrite add0. split; [reflexivity|]. cbn. lia.
  - destruct (sv_sim s [mmh_prop n sigma unif u pos] HC) as (c & E & Ec). rewrite E.
    destruct (Gof [mmh_prop n sigma unif u pos]) as [G|e] eqn:EG.
    2: { exists c. split; [reflexivity|exact I]. }
    specialize (Ec G eq_refl). cbn [length] in Ec. subst c.
    set (ug := if Rleb (nth 0 G 0) thr then _ else _).
    destruct (IH (fst ug) (snd ug) (pos + 2 * n)%nat (S calls) (acc ++ [ug]) (addCallFunction s 1) (core_trans _ _ _ HC (core_add s 1))) as (c' & E' & Ec').
    exists (1 + c')%nat. rewrite <- add_add. split; [exact E'|]. destruct (mmh_chain _ _ _ _ _ _ _ _ _ _ _); [|exact I]. cbn in *. lia.
Qed.

Lemma chains_sim thr Nc seeds : forall i pos calls acc s, same_core s0 s ->
  exists c, mmh_chains_on expr fo unif n n N A sigma Nc i seeds thr pos calls acc s = (mmh_chains n N sigma unif Gof Nc i seeds thr pos calls acc, addCallFunction s c) /\
    advanced (mmh_chains n N sigma unif Gof Nc i seeds thr pos calls acc) calls c.
Proof.
  induction seeds as [|[u g] rest IH]; intros i pos calls acc s HC; cbn [mmh_chains_on mmh_chains].
  - exists 0%nat. rewrite add0. split; [reflexivity|]. cbn. lia.
  - destruct (chain_sim thr (chain_len N Nc i) u g pos calls acc s HC) as (c & E & Ec). rewrite E.
    destruct (mmh_chain n sigma unif Gof (chain_len N Nc i) thr u g pos calls acc) as [acc' pos' calls'|e].
    2: { exists c. split; [reflexivity|exact I]. }
    destruct (IH (S i) pos' calls' acc' (addCallFunction s c) (core_trans _ _ _ HC (core_add s c))) as (c' & E' & Ec').
    exists (c + c')%nat. rewrite <- add_add. split; [exact E'|]. destruct (mmh_chains _ _ _ _ _ _ _ _ _ _ _ _); [|exact I]. cbn in *. lia.
Qed.

Lemma step_sim seeds thr pos calls s : same_core s0 s ->
  exists c, mmh_step_on expr fo unif n n N A sigma seeds thr pos calls s = (mmh_step n N sigma unif Gof seeds thr pos calls, addCallFunction s c) /\
    advanced (mmh_step n N sigma unif Gof seeds thr pos calls) calls c.
Proof.
  intros HC. unfold mmh_step_on, mmh_step. destruct seeds as [|ug rest]; [exists 0%nat; rewrite add0; split; [reflexivity|exact I]|]. apply chains_sim. exact HC.
Qed.

Lemma ss_loop_sim fl : forall st seeds y pos level s, same_core s0 s ->
  match ss_loop n N p0 sigma unif Gof fl st seeds y pos level with
  | SDone st' => exists c, ss_loop_on expr fo unif n n N A p0 sigma fl st seeds y pos level s = (st', addCallFunction s c, SEnd) /\ ss_calls st' = (ss_calls st + c)%nat
  | SRaise e => exists st' c, ss_loop_on expr fo unif n n N A p0 sigma fl st seeds y pos level s = (st', addCallFunction s c, SRaised e)
  | SFuel => exists st' c, ss_loop_on expr fo unif n n N A p0 sigma fl st seeds y pos level s = (st', addCallFunction s c, SRunning)
  end.
Proof.
  induction fl as [|f IH]; intros st seeds y pos level s HC; cbn [ss_loop ss_loop_on].
  { exists st, 0%nat. now rewrite add0. }
  destruct (step_sim seeds y pos (ss_calls st) s HC) as (c & E & Ec). rewrite E.
  destruct (mmh_step n N sigma unif Gof seeds y pos (ss_calls st)) as [smp pos' calls'|e].
  2: { exists st, c. reflexivity. }
  cbn in Ec. subst calls'. destruct (Rleb (percentile (map snd smp) p0) 0).
  { exists c. split; reflexivity. }
  set (st1 := mkss _ _ _ _ _ _).
  specialize (IH st1 (seeds_of smp (percentile (map snd smp) p0)) (percentile (map snd smp) p0) pos' (level + 1)%nat (addCallFunction s c) (core_trans _ _ _ HC (core_add s c))).
  destruct (ss_loop n N p0 sigma unif Gof f st1 (seeds_of smp (percentile (map snd smp) p0)) (percentile (map snd smp) p0) pos' (level + 1)%nat) as [st'|e|].
  - destruct IH as (c' & E' & Ec'). exists (c + c')%nat. rewrite <- add_add. split; [exact E'|]. cbn [st1 ss_calls] in Ec'. lia.
  - destruct IH as (st' & c' & E'). exists st', (c + c')%nat. rewrite <- add_add. exact E'.
  - destruct IH as (st' & c' & E'). exists st', (c + c')%nat. rewrite <- add_add. exact E'.
Qed.

Lemma body_sim fl s : same_core s0 s ->
  match ss_run n N block p0 sigma randn unif Gof fl with
  | SDone st' => exists c, ss_body expr fo randn unif n n N A p0 sigma fl s = (st', addCallFunction s c, SEnd) /\ ss_calls st' = c
  | SRaise e => exists st' c, ss_body expr fo randn unif n n N A p0 sigma fl s = (st', addCallFunction s c, SRaised e)
  | SFuel => exists st' c, ss_body expr fo randn unif n n N A p0 sigma fl s = (st', addCallFunction s c, SRunning)
  end.
Proof.
  intros HC. unfold ss_run, ss_body. cbv zeta. set (us := map _ (seq 0 N)).
  assert (LU : length us = N) by (unfold us; now rewrite map_length, seq_length).
  destruct (batch_sim us s HC) as (c & E & Ec). rewrite E.
  destruct (eval_g_batch block Gof us) as [G|e]. 2: { eexists _, c. reflexivity. }
  specialize (Ec G eq_refl). rewrite LU in Ec. subst c.
  destruct (Rleb (percentile G p0) 0). { exists N. split; reflexivity. }
  set (st0 := mkss _ _ _ _ _ _).
  pose proof (ss_loop_sim fl st0 (seeds_of (combine us G) (percentile G p0)) (percentile G p0) 0 1 (addCallFunction s N) (core_trans _ _ _ HC (core_add s N))) as H.
  destruct (ss_loop n N p0 sigma unif Gof fl st0 (seeds_of (combine us G) (percentile G p0)) (percentile G p0) 0 1) as [st'|e|].
  - destruct H as (c' & E' & Ec'). exists (N + c')%nat. rewrite <- add_add. split; [exact E'|]. cbn [st0 ss_calls] in Ec'. lia.
  - destruct H as (st' & c' & E'). exists st', (N + c')%nat. rewrite <- add_add. exact E'.
  - destruct H as (st' & c' & E'). exists st', (N + c')%nat. rewrite <- add_add. exact E'.
Qed.
End Sim.

(** the thresholds are the quantiles of the levels *)
Section Quantiles.
Variables (n N : nat) (p0 sigma : R) (unif : nat -> R) (Gof : list vec -> result (list R)).
Lemma loop_quantiles fl : forall st seeds y pos level st', length (ss_thresholds st) = length (ss_levels st) ->
  (forall j, (j < length (ss_levels st))%nat -> nth j (ss_thresholds st) 0 = percentile (map snd (nth j (ss_levels st) [])) p0) ->
  ss_loop n N p0 sigma unif Gof fl st seeds y pos level = SDone st' ->
  exists mid smp, ss_levels st' = ss_levels st ++ mid ++ [smp] /\ length (ss_thresholds st') = length (ss_levels st') /\ percentile (map snd smp) p0 <= 0 /\
    forall j, (S j < length (ss_levels st'))%nat -> nth j (ss_thresholds st') 0 = percentile (map snd (nth j (ss_levels st') [])) p0.
Proof.
  induction fl as [|f IH]; intros st seeds y pos level st' HL HQ E; cbn [ss_loop] in E; [discriminate|].
  destruct (mmh_step n N sigma unif Gof seeds y pos (ss_calls st)) as [smp pos' calls'|e]; [|discriminate].
  destruct (Rleb (percentile (map snd smp) p0) 0) eqn:C.
  - injection E as <-. exists [], smp. cbn [ss_levels ss_thresholds app]. apply Rleb_spec in C. split; [reflexivity|]. split; [rewrite !app_length; cbn; lia|]. split; [exact C|].
    intros j Hj. rewrite app_length in Hj. cbn in Hj. rewrite !app_nth1 by lia. apply HQ. lia.
  - apply IH in E; cbn [ss_levels ss_thresholds].
    + destruct E as (mid & smp' & E1 & E2 & E3 & E4). cbn [ss_levels] in E1. exists (smp :: mid), smp'. split; [|auto]. rewrite E1, <- app_assoc. reflexivity.
    + rewrite !app_length. cbn. lia.
    + intros j Hj. rewrite app_length in Hj. cbn in Hj. destruct (Nat.eq_dec j (length (ss_levels st))) as [->|Hne].
      * rewrite <- HL at 1. rewrite !app_nth2, !Nat.sub_diag by lia. reflexivity.
      * rewrite !app_nth1 by lia. apply HQ. lia.
Qed.
End Quantiles.
