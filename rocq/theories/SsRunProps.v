(** Property theorems C102: whole subset simulation analyses. *)
From Coquelicot Require Import Coquelicot.
From Verif Require Import Base Ext Gauss GaussProofs StochModel StochModelSpec StochModelProofs LimitState LimitStateSpec LimitStateProofs LimitStateProps Transf TransfSpec TransfProofs Form FormProofs FormAffineProofs FormNormalProofs FormProps Nataf NatafProofs Dist RotSpec RotProps Pipe PipeSpec SensSpec PipeProofs PipeProps Sorm SormRunProofs SormRunProps Mc McSpec McProofs McRunProofs McProps McRun LsRunProofs LsRunProps McRunOnSpec McRunOnProofs McRunOnProps Ss SsProofs SsProps CovProps SsRun SsRunSpec SsRunProofs.
From Coq Require Import ZArith Lra Lia.
Open Scope R_scope.

(** C102: a run whose preparation succeeds is the simulation of Ss.v, applied to the limit state of the
    variables the model has now, also if some were added after the object was built.  A run that raises
    keeps Pf, beta, cov and n_levels of an earlier run, on an object that counts as run. *)
Theorem C102_run_composition : forall fmin chol svd inv expr fo Ns randn unif fl a s s1 T A M n,
  init_run_full fmin chol svd inv (sv_type a) s = (s1, Ok (T, A)) -> sm_Ro s1 = Some M -> length M = n -> length (sm_marg s) = n -> (1 <= Ns)%Z ->
  let N := Z.to_nat Ns in
  match ss_run n N (o_block_size (fo_ls fo)) (sv_p0 a) (sv_sigma a) randn unif (mc_limit_state s expr (fo_ls fo) n A (marg_at s)) fl with
  | SDone st => ss_run_on fmin chol svd inv expr fo Ns randn unif fl a s =
      (mkSv true (sv_type a) (sv_p0 a) (sv_sigma a) (ss_thresholds st) (ss_probs st) (Some (ss_Pf st, ss_beta st, ss_cov N st)) (Some (ss_nlevels st)) (Some st),
       addCallFunction s1 (ss_calls st), SEnd)
  | SRaise e => exists a' c, ss_run_on fmin chol svd inv expr fo Ns randn unif fl a s = (a', addCallFunction s1 c, SRaised e) /\
      sv_valid a' = true /\ sv_res a' = sv_res a /\ sv_nlev a' = sv_nlev a
  | SFuel => exists a' c, ss_run_on fmin chol svd inv expr fo Ns randn unif fl a s = (a', addCallFunction s1 c, SRunning)
  end.
Proof.
  intros fmin chol svd inv expr fo Ns randn unif fl a s s1 T A M n EI ERo EMl EM HNs N.
  assert (HC : same_core s s1) by (pose proof (f_equal fst EI) as E1; cbn [fst] in E1; rewrite <- E1; apply init_same).
  unfold ss_run_on. rewrite EI. cbv zeta. rewrite ERo, EMl, (core_len s n EM s1 HC).
  destruct (Z.ltb_spec Ns 0); [lia|]. destruct (Z.eqb_spec Ns 0); [lia|]. fold N.
  pose proof (body_sim expr fo randn unif s n N A (sv_p0 a) (sv_sigma a) EM fl s1 HC) as HB.
  destruct (ss_run n N (o_block_size (fo_ls fo)) (sv_p0 a) (sv_sigma a) randn unif (mc_limit_state s expr (fo_ls fo) n A (marg_at s)) fl) as [st|e|].
  - destruct HB as (c & E1 & <-). rewrite E1. reflexivity.
  - destruct HB as (st & c & E1). rewrite E1. do 2 eexists. split; [reflexivity|]. repeat split.
  - destruct HB as (st & c & E1). rewrite E1. do 2 eexists. reflexivity.
Qed.
Print Assumptions C102_run_composition.

Lemma init_calls fmin chol svd inv ty s s1 r : init_run_full fmin chol svd inv ty s = (s1, r) -> sm_calls s1 = sm_calls s.
Proof.
  intros EI. unfold init_run_full in EI. unfold setModifiedCorrelationMatrix in EI. destruct (sm_corr s); [|now injection EI as <- _].
  destruct (forallb _ _); [|now injection EI as <- _]. destruct (computeModifiedCorrelationMatrix _ _ _ _ _) as [[? ?]|]; [|now injection EI as <- _].
  cbn [setModifiedCorrelation sm_Ro] in EI. now injection EI as <- _.
Qed.

(** the levels of the simulation of Ss.v *)
Lemma run_levels nrv N block p0 sigma randn unif Gof g fuel st :
  (forall us, Gof us = Ok (map g us)) -> (1 <= N)%nat -> 0 < p0 < 1 -> (1 <= block)%Z ->
  ss_run nrv N block p0 sigma randn unif Gof fuel = SDone st -> subset_levels g N p0 randn (ss_thresholds st) (ss_probs st) (ss_levels st).
Proof.
  intros HG HN Hp Hb E.
  pose proof (C34_level_invariants nrv N block p0 sigma randn unif Gof g fuel st HG HN Hp Hb E) as I. cbv zeta in I.
  destruct I as (I1 & I2 & I3 & _ & I5 & I6 & I7 & I8 & I9 & I10 & _).
  destruct (C36_total_evaluations nrv N block p0 sigma randn unif Gof g fuel st HG HN Hp Hb E) as (_ & I12).
  assert (Q : nth 0 (ss_levels st) [] = map (fun j => let u : vec := fun i => randn (i * N + j)%nat in (u, g u)) (seq 0 N) /\
     percentile (map snd (last (ss_levels st) [])) p0 <= 0 /\
     forall j, (S j < length (ss_levels st))%nat -> nth j (ss_thresholds st) 0 = percentile (map snd (nth j (ss_levels st) [])) p0).
  { unfold ss_run in E. cbv zeta in E. set (us := map _ (seq 0 N)) in E.
    rewrite (eval_batch_ok block Gof g us HG Hb) in E.
    assert (LV : combine us (map g us) = map (fun j => let u : vec := fun i => randn (i * N + j)%nat in (u, g u)) (seq 0 N)).
    { unfold us. clear. induction (seq 0 N) as [|j l IH]; [reflexivity|]. cbn. f_equal. exact IH. }
    assert (SN : map snd (combine us (map g us)) = map g us).
    { clear. induction us as [|u us IH]; [reflexivity|]. cbn. f_equal. exact IH. }
    destruct (Rleb (percentile (map g us) p0) 0) eqn:C.
    - injection E as <-. cbn [ss_levels ss_thresholds nth last length]. split; [exact LV|]. split; [|intros; lia]. rewrite SN. now apply Rleb_spec.
    - apply loop_quantiles in E; cbn [ss_levels ss_thresholds length].
      + destruct E as (mid & smp & E1 & E2 & E3 & E4). cbn [ss_levels] in E1. split; [rewrite E1; exact LV|]. split; [|exact E4].
        rewrite E1. rewrite app_assoc, last_last. exact E3.
      + reflexivity.
      + intros j Hj. destruct j; [|cbn in Hj; lia]. cbn [nth]. now rewrite SN. }
  destruct Q as (Q1 & Q2 & Q3).
  assert (SG : forall l ug, In l (ss_levels st) -> In ug l -> snd ug = g (fst ug)).
  { intros l ug Hl Hu. apply In_nth with (d := []) in Hl. destruct Hl as (j & Hj & <-). now apply (I8 j). }
  repeat split; try assumption.
  - intros l Hl. rewrite Forall_forall in I12. exact (I12 l Hl).
  - now apply Q3.
  - now apply I5.
Qed.

(** C102: for any variables, correlation and pointwise limit state, on a model object with any history:
    a finished run has gone through the levels of SsRunSpec, for the limit state seen from standard normal
    space; Pf is the product of the conditional probabilities, and every sample costs one evaluation. *)
Theorem C102_estimate : forall fmin chol svd inv h expr f fo Ns randn unif fl a s s1 T A M,
  let n := ndists h in let N := Z.to_nat Ns in
  let g := fun u => f (args_at h (vlist n (u_to_x n A (marg_at s) u))) in
  same_problem (sm_run h) s -> init_run_full fmin chol svd inv (sv_type a) s = (s1, Ok (T, A)) -> sm_Ro s1 = Some M -> length M = n ->
  (1 <= n)%nat -> pointwise expr f -> o_multi_proc (fo_ls fo) <> 0%Z -> (1 <= o_block_size (fo_ls fo))%Z -> (1 <= Ns)%Z -> 0 < sv_p0 a < 1 ->
  exists a' s' out, ss_run_on fmin chol svd inv expr fo Ns randn unif fl a s = (a', s', out) /\ same_problem (sm_run h) s' /\
    match out with
    | SEnd => exists st Pf cov, sv_st a' = Some st /\ subset_levels g N (sv_p0 a) randn (sv_thr a') (sv_probs a') (ss_levels st) /\
        sv_res a' = Some (Pf, subset_beta Pf, cov) /\ Pf = lprod (sv_probs a') /\ 0 < Pf <= 1 /\
        0 <= cov /\ cov * cov = lsum (map (fun p => (1 - p) / (INR N * p)) (sv_probs a')) /\
        sv_nlev a' = Some (length (ss_levels st)) /\ sm_calls s' = (sm_calls s + N * length (ss_levels st))%nat
    | SRaised _ => False
    | SRunning => True
    end.
Proof.
  intros fmin chol svd inv h expr f fo Ns randn unif fl a s s1 T A M n N g HC EI ERo EMl Hn Hp Hm Hbl HNs Hp0.
  assert (EM0 : length (sm_marg (sm_run h)) = n) by (destruct (registry h) as (_ & _ & X & _); rewrite X; reflexivity).
  assert (EM : length (sm_marg s) = n) by exact (core_len _ n EM0 s HC).
  assert (HC1 : same_core s s1) by (pose proof (f_equal fst EI) as E1; cbn [fst] in E1; rewrite <- E1; apply init_same).
  set (Gof := mc_limit_state s expr (fo_ls fo) n A (marg_at s)).
  assert (HG : forall us, Gof us = Ok (map g us)).
  { intros us. unfold Gof. rewrite (limit_core _ s _ _ _ _ _ us HC). apply mc_limit_state_ok; assumption. }
  assert (HN : (1 <= N)%nat) by (unfold N; lia).
  pose proof (C102_run_composition fmin chol svd inv expr fo Ns randn unif fl a s s1 T A M n EI ERo EMl EM HNs) as H. cbv zeta in H. fold N in H. fold Gof in H.
  destruct (ss_run n N (o_block_size (fo_ls fo)) (sv_p0 a) (sv_sigma a) randn unif Gof fl) as [st|e|] eqn:ER.
  - do 3 eexists. split; [exact H|]. split; [exact (core_trans _ _ _ HC (core_trans _ _ _ HC1 (core_add s1 _)))|].
    exists st, (ss_Pf st), (ss_cov N st). cbn [sv_st sv_thr sv_probs sv_res sv_nlev].
    pose proof (C35_never_zero n N _ (sv_p0 a) (sv_sigma a) randn unif Gof g fl st HG HN Hp0 Hbl ER) as K. cbv zeta in K. destruct K as (_ & _ & K1 & K2 & _).
    pose proof (C34_level_invariants n N _ (sv_p0 a) (sv_sigma a) randn unif Gof g fl st HG HN Hp0 Hbl ER) as I. cbv zeta in I. destruct I as (_ & _ & _ & I4 & _ & _ & _ & _ & _ & _ & I11).
    destruct (C80_subset_simulation n N _ (sv_p0 a) (sv_sigma a) randn unif Gof g fl st HG HN Hp0 Hbl ER) as (C1 & C2 & _).
    destruct (C36_total_evaluations n N _ (sv_p0 a) (sv_sigma a) randn unif Gof g fl st HG HN Hp0 Hbl ER) as (T1 & _).
    split; [reflexivity|]. split; [exact (run_levels n N _ _ _ randn unif Gof g fl st HG HN Hp0 Hbl ER)|].
    split. { do 3 f_equal. unfold ss_beta, subset_beta. rewrite (proj2 (Rltb_spec 0 (ss_Pf st)) K2). cbn [andb]. destruct (Rltb (ss_Pf st) 1); [reflexivity|].
      destruct (Rleb (ss_Pf st) 0) eqn:Z; [apply Rleb_spec in Z; lra|reflexivity]. }
    split; [exact I11|]. split; [lra|]. split; [exact C1|]. split; [exact C2|]. split; [now rewrite I4|].
    cbn [addCallFunction sm_calls]. rewrite T1, I4, (init_calls _ _ _ _ _ _ _ _ EI). reflexivity.
  - exfalso. exact (C34_never_raises n N _ (sv_p0 a) (sv_sigma a) randn unif Gof g fl e HG HN Hp0 Hbl ER).
  - destruct H as (a' & c & H). exists a', (addCallFunction s1 c), SRunning. split; [exact H|]. split; [|exact I].
    exact (core_trans _ _ _ HC (core_trans _ _ _ HC1 (core_add s1 _))).
Qed.
Print Assumptions C102_estimate.

(** C102: on a linear function of normal variables the levels are half spaces with FORM's alpha: with
    sigma the standard deviation of the margin, level j+1 lies in alpha.u >= beta - y_j / sigma, and the
    last fraction counts the samples with alpha.u >= beta. *)
Theorem C102_linear_normal :
  forall fmin chol svd inv e0 h expr f lf nm (mu sd cf : vec) c0 M Ro log a opt p0 psig fo Ns randn unif evn fuel fl s,
  let n := ndists h in let N := Z.to_nat Ns in
  lapack n chol svd inv e0 -> ss_new opt p0 psig = Ok a -> same_problem (sm_run h) s -> (1 <= n)%nat -> (1 <= Ns)%Z ->
  (forall i, (i < n)%nat -> nth_error (dists_of (accepted h)) i = Some (Normal (nm i) (mu i) (sd i))) ->
  (forall i, (i < n)%nat -> sd i <> 0) -> (exists i, (i < n)%nat /\ cf i <> 0) ->
  pointwise expr f -> (forall q, length q = n -> f (args_at h q) = c0 + fsum n (fun i => cf i * nth i q 0)) ->
  exact_options fo -> (n + 7 < lf)%nat -> (Z.to_nat (fo_imax fo) < fuel)%nat ->
  sm_corr (sm_run h) = Some M -> length M = n -> (forall r, In r M -> length r = n) ->
  computeModifiedCorrelationMatrix fmin n n (mat_of M) (fun i => marg_of (marg_at (sm_run h) i)) = Ok (Ro, log) -> pos_def n Ro ->
  let mean := c0 + fsum n (fun i => cf i * mu i) in
  let variance := fsum n (fun i => fsum n (fun j => (cf i * sd i) * Ro i j * (cf j * sd j))) in
  let beta := mean / sqrt variance in
  exists b sF r alpha a' s' out,
    run_form fmin chol svd inv fuel lf expr fo evn (mkFobj false (sv_type a) None None) (sm_run h) = (b, sF, FDone r) /\
    form_beta n r = Fin beta /\ form_alpha n r = Some alpha /\ norm n alpha = 1 /\
    ss_run_on fmin chol svd inv expr fo Ns randn unif fl a s = (a', s', out) /\ same_problem (sm_run h) s' /\
    match out with
    | SEnd => exists st Pf cov, sv_st a' = Some st /\
        subset_levels (fun u => sqrt variance * (beta - dot n alpha u)) N p0 randn (sv_thr a') (sv_probs a') (ss_levels st) /\
        sv_res a' = Some (Pf, subset_beta Pf, cov) /\ Pf = lprod (sv_probs a') /\
        (forall j ug, (S j < length (ss_levels st))%nat -> In ug (nth (S j) (ss_levels st) []) -> beta - nth j (sv_thr a') 0 / sqrt variance <= dot n alpha (fst ug)) /\
        last (sv_probs a') 0 = INR (length (filter (fun ug : vec * R => Rleb beta (dot n alpha (fst ug))) (last (ss_levels st) []))) / INR N /\
        sm_calls s' = (sm_calls s + N * length (ss_levels st))%nat
    | SRaised _ => False
    | SRunning => True
    end.
Proof.
  intros fmin chol svd inv e0 h expr f lf nm mu sd cf c0 M Ro lg a opt p0 psig fo Ns randn unif evn fuel fl s n N Hlap Hnew HC Hn HNs HN Hsd Hcf Hp Hlin Hfo Hlf Hfu HM HM1 HM2 HRo HPD mean variance beta.
  unfold ss_new in Hnew. destruct (form_init opt) as [a0|] eqn:Ha; [|discriminate]. cbn [rbind] in Hnew. destruct (ss_init p0) as [[]|] eqn:Hp0; [|discriminate]. cbn [rbind] in Hnew. injection Hnew as <-. cbn [sv_type].
  assert (P0 : 0 < p0 < 1). { apply (proj1 (C35_p0_checked p0)). exact Hp0. }
  assert (EaF : mkFobj false (fb_type a0) None None = a0). { unfold form_init in Ha. destruct (mkTransformation opt); [|discriminate]. cbn in Ha. injection Ha as <-. reflexivity. }
  rewrite EaF.
  destruct (lin_run fmin chol svd inv e0 h expr f lf nm mu sd cf c0 M Ro lg a0 opt fo evn fuel Hlap Ha Hn HN Hsd Hcf Hp Hlin Hfo Hlf Hfu HM HM1 HM2 HRo HPD)
    as (T & A & b & c & r & u & H). cbv zeta in H. fold n in H. fold mean variance in H. fold beta in H.
  set (av := fun j => - fsum n (fun i => cf i * sd i * A i j)) in *.
  destruct H as (ER & ETA & ERes & Eu & E0 & EG & AL & HU & EB & ET & HT & HF & EN & VP & EM & EA).
  destruct (ln_all fmin chol svd inv e0 h expr f lf nm mu sd cf c0 M Ro lg a0 opt Hlap Ha Hn HN Hsd Hp Hlin Hlf HRo HPD) as (T' & A' & ET' & EN' & _ & ETr).
  cbv zeta in ETr. fold n in ETr, ET'. change (ln_b h mu cf c0) with mean in ETr. rewrite ET in ET'. injection ET' as <- <-. fold av in ETr.
  assert (SV := sqrt_lt_R0 _ VP). assert (SQ := sqrt_sqrt variance ltac:(lra)).
  set (alpha := alpha_of n (fr_grad r)) in *.
  assert (NA : norm n alpha = 1). { apply (alpha_unit n av alpha); [rewrite EN; exact AL|rewrite EN; lra]. }
  assert (EI := init_ok fmin chol svd inv (fb_type a0) (sm_run h) M n Ro lg T A HM HM1 HM2 EM HRo ET s HC).
  set (a1 := mkSv false (fb_type a0) p0 psig [] [] None None None).
  destruct (C102_estimate fmin chol svd inv h expr f fo Ns randn unif fl a1 s _ T A (rows_of n Ro) HC EI eq_refl (rows_length n Ro)) as (a' & s' & out & H1 & H2 & H3); try assumption.
  - rewrite (proj1 Hfo). discriminate.
  - rewrite (proj1 Hfo). cbn. lia.
  - cbv zeta in H3. fold n in H3. fold N in H3.
    exists b, (addCallFunction (setModifiedCorrelation (sm_run h) (rows_of n Ro)) c), r, alpha, a', s', out. split; [exact ER|]. split; [exact EB|].
    split; [unfold form_alpha; rewrite Eu; reflexivity|]. split; [exact NA|]. split; [exact H1|]. split; [exact H2|].
    destruct out; try assumption. destruct H3 as (st & Pf & cov & K1 & K2 & K3 & K4 & _ & _ & _ & _ & K5).
    assert (EGf : (fun u => f (args_at h (vlist n (u_to_x n A (marg_at s) u)))) = (fun u => sqrt variance * (beta - dot n alpha u))).
    { apply FunctionalExtensionality.functional_extensionality. intros u'. unfold n at 1 2. rewrite (lin_value h expr f lf A s av mean u' Hp Hn ltac:(lia) HC ETr). fold n.
      rewrite (Base.dot_ext n alpha u' (fun i => / sqrt variance * av i) u').
      - rewrite dot_scal_l. unfold beta. field. lra.
      - intros i Hi. rewrite (AL i Hi). unfold Rdiv. ring.
      - intros i _. reflexivity. }
    rewrite EGf in K2. exists st, Pf, cov. split; [exact K1|]. split; [exact K2|]. split; [exact K3|]. split; [exact K4|].
    destruct K2 as (L1 & L2 & L3 & _ & _ & _ & _ & L8 & _ & _ & L11 & L12).
    split; [|split; [|exact K5]].
    + intros j ug Hj Hu. specialize (L11 j ug Hj Hu). cbv beta in L11.
      apply Rmult_le_reg_l with (sqrt variance); [exact SV|]. unfold Rdiv. replace (sqrt variance * (beta - nth j (sv_thr a') 0 * / sqrt variance)) with (sqrt variance * beta - nth j (sv_thr a') 0) by (field; lra). lra.
    + set (L := length (ss_levels st)) in *. destruct L as [|m] eqn:EL; [lia|].
      assert (LN : forall (X : Type) (l : list X) d, length l = S m -> last l d = nth m l d).
      { intros X l d Hl. destruct l as [|x l] using rev_ind; [discriminate|]. rewrite app_length in Hl. cbn in Hl. rewrite last_last, app_nth2 by lia. replace (m - length l)%nat with 0%nat by lia. reflexivity. }
      rewrite (LN _ _ _ L3), (LN _ (ss_levels st) [] EL), (L12 m ltac:(lia)). rewrite (LN _ _ 1 L2) in L8.
      assert (L8' : nth m (sv_thr a') 0 = 0) by (rewrite (nth_indep _ 0 1) by lia; exact L8). rewrite L8'.
      apply (f_equal (fun k => INR k / INR N)), (f_equal (@length _)), filter_ext. intros ug.
      destruct (Rleb (sqrt variance * (beta - dot n alpha (fst ug))) 0) eqn:C1, (Rleb beta (dot n alpha (fst ug))) eqn:C2; try reflexivity; exfalso.
      * apply Rleb_spec in C1. apply Rleb_false in C2. nra.
      * apply Rleb_spec in C2. apply Rleb_false in C1. nra.
Qed.
Print Assumptions C102_linear_normal.

(** C102: a constant limit state, for any variables: a value <= 0 (0 included) gives Pf = 1,
    beta = -inf and cov = 0 after N evaluations; with a positive value the run does not end. *)
Theorem C102_constant_limit_state : forall fmin chol svd inv h expr f fo Ns randn unif a s s1 T A M c0,
  let n := ndists h in let N := Z.to_nat Ns in
  same_problem (sm_run h) s -> init_run_full fmin chol svd inv (sv_type a) s = (s1, Ok (T, A)) -> sm_Ro s1 = Some M -> length M = n ->
  (1 <= n)%nat -> pointwise expr f -> (forall q, length q = n -> f (args_at h q) = c0) ->
  o_multi_proc (fo_ls fo) <> 0%Z -> (1 <= o_block_size (fo_ls fo))%Z -> (1 <= Ns)%Z -> 0 < sv_p0 a < 1 ->
  (c0 <= 0 -> forall fl, exists a', ss_run_on fmin chol svd inv expr fo Ns randn unif fl a s = (a', addCallFunction s1 N, SEnd) /\
     sv_res a' = Some (1, NInf, 0) /\ sv_thr a' = [0] /\ sv_probs a' = [1] /\ sv_nlev a' = Some 1%nat) /\
  (0 < c0 -> forall fl, exists a' s', ss_run_on fmin chol svd inv expr fo Ns randn unif fl a s = (a', s', SRunning)).
Proof.
  intros fmin chol svd inv h expr f fo Ns randn unif a s s1 T A M c0 n N HC EI ERo EMl Hn Hp Hc Hm Hbl HNs Hp0.
  assert (EM0 : length (sm_marg (sm_run h)) = n) by (destruct (registry h) as (_ & _ & X & _); rewrite X; reflexivity).
  assert (EM : length (sm_marg s) = n) by exact (core_len _ n EM0 s HC).
  set (Gof := mc_limit_state s expr (fo_ls fo) n A (marg_at s)).
  assert (HG : forall us, Gof us = Ok (map (fun _ => c0) us)).
  { intros us. unfold Gof. rewrite (limit_core _ s _ _ _ _ _ us HC). unfold n. rewrite (mc_limit_state_ok h expr f) by assumption. f_equal. apply map_ext. intros u. apply Hc. apply vlist_length. }
  assert (HN : (1 <= N)%nat) by (unfold N; lia). assert (NP : 0 < INR N) by (apply (lt_INR 0); lia).
  split; intros H0 fl.
  - pose proof (C102_run_composition fmin chol svd inv expr fo Ns randn unif fl a s s1 T A M n EI ERo EMl EM HNs) as H. cbv zeta in H. fold N in H. fold Gof in H.
    unfold ss_run in H. cbv zeta in H. set (us := map _ (seq 0 N)) in H. rewrite (eval_batch_ok _ Gof (fun _ => c0) us HG Hbl) in H.
    assert (LU : length us = N) by (unfold us; now rewrite map_length, seq_length).
    assert (PL : percentile (map (fun _ => c0) us) (sv_p0 a) <= 0).
    { apply percentile_le_max; [exact Hp0|rewrite map_length; lia|]. intros x Hx. apply in_map_iff in Hx. destruct Hx as (? & <- & _). exact H0. }
    rewrite (proj2 (Rleb_spec _ _) PL) in H.
    assert (CN : count_le (map (fun _ : vec => c0) us) 0 = N).
    { rewrite <- LU. unfold count_le. clear - H0. induction us as [|u us IH]; [reflexivity|]. cbn [map filter]. rewrite (proj2 (Rleb_spec c0 0) H0). cbn [length]. f_equal. exact IH. }
    rewrite CN in H. replace (INR N / INR N) with 1 in H by (field; lra). eexists. split; [exact H|]. cbn [sv_res sv_thr sv_probs sv_nlev ss_Pf ss_thresholds ss_probs ss_nlevels]. repeat split.
    do 3 f_equal.
    + f_equal. unfold ss_beta. cbn [ss_Pf]. destruct (Rltb 1 1) eqn:C; [apply Rltb_spec in C; lra|]. rewrite andb_false_r. destruct (Rleb 1 0) eqn:C2; [apply Rleb_spec in C2; lra|reflexivity].
    + unfold ss_cov. cbn [ss_probs filter]. rewrite (proj2 (Rltb_spec 0 1) Rlt_0_1). cbn [map lsum].
      replace ((1 - 1) / (INR N * 1) + 0) with 0 by (field; lra). destruct (Rltb 0 0) eqn:C; [apply Rltb_spec in C; lra|reflexivity].
  - pose proof (C102_run_composition fmin chol svd inv expr fo Ns randn unif fl a s s1 T A M n EI ERo EMl EM HNs) as H. cbv zeta in H. fold N in H. fold Gof in H.
    rewrite (C37_diverges_without_failures n N _ (sv_p0 a) (sv_sigma a) randn unif Gof (fun _ => c0) HG HN Hp0 Hbl (fun _ => H0) fl) in H. destruct H as (a' & c & H). eauto.
Qed.
Print Assumptions C102_constant_limit_state.

(** C102: a run that fails at its first evaluation (here: multi-processing switched on, which is not
    implemented) empties the thresholds and conditional probabilities of an earlier run, but leaves its
    Pf, beta, cov and n_levels. *)
Theorem C102_failed_run_mixes : forall fmin chol svd inv expr fo Ns randn unif fl a s s1 T A M n,
  init_run_full fmin chol svd inv (sv_type a) s = (s1, Ok (T, A)) -> sm_Ro s1 = Some M -> length M = n -> length (sm_marg s) = n ->
  (1 <= Ns)%Z -> o_multi_proc (fo_ls fo) = 0%Z -> (1 <= o_block_size (fo_ls fo))%Z ->
  ss_run_on fmin chol svd inv expr fo Ns randn unif fl a s =
    (mkSv true (sv_type a) (sv_p0 a) (sv_sigma a) [] [] (sv_res a) (sv_nlev a) (sv_st a), s1, SRaised ENotImpl).
Proof.
  intros fmin chol svd inv expr fo Ns randn unif fl a s s1 T A M n EI ERo EMl EM HNs Hm Hb.
  assert (HC : same_core s s1) by (pose proof (f_equal fst EI) as E1; cbn [fst] in E1; rewrite <- E1; apply init_same).
  unfold ss_run_on. rewrite EI. cbv zeta. rewrite ERo, EMl, (core_len s n EM s1 HC).
  destruct (Z.ltb_spec Ns 0); [lia|]. destruct (Z.eqb_spec Ns 0); [lia|].
  unfold ss_body. cbv zeta. destruct (Z.to_nat Ns) as [|N] eqn:EN; [lia|]. cbn [seq map]. set (u := fun i => _). set (us := map _ (seq 1 N)).
  unfold eval_g_batch_on. destruct (Z.leb_spec (o_block_size (fo_ls fo)) 0); [lia|]. cbn [length eval_blocks_on].
  destruct (Z.to_nat (o_block_size (fo_ls fo))) as [|b] eqn:Eb; [lia|]. cbn [firstn]. unfold sv_eval, mc_eval. rewrite Nat.eqb_refl, (core_len s n EM s1 HC), Nat.eqb_refl.
  unfold evaluate_lsf. rewrite Hm. reflexivity.
Qed.
Print Assumptions C102_failed_run_mixes.

(** C102: a number of samples below 1 is refused only after the lists of the previous run have been cleared;
    its probability, its index and its number of levels stay.  A failing preparation clears nothing. *)
Theorem C102_refused_runs : forall fmin chol svd inv expr fo Ns randn unif fl a s s1 r,
  init_run_full fmin chol svd inv (sv_type a) s = (s1, r) ->
  (forall e, r = Err e -> ss_run_on fmin chol svd inv expr fo Ns randn unif fl a s =
     (mkSv true (sv_type a) (sv_p0 a) (sv_sigma a) (sv_thr a) (sv_probs a) (sv_res a) (sv_nlev a) (sv_st a), s1, SRaised e)) /\
  (forall TA, r = Ok TA -> (Ns <= 0)%Z -> exists e, ss_run_on fmin chol svd inv expr fo Ns randn unif fl a s =
     (mkSv true (sv_type a) (sv_p0 a) (sv_sigma a) [] [] (sv_res a) (sv_nlev a) (sv_st a), s1, SRaised e) /\
     (Ns <> 0%Z -> e = EValue) /\ sm_calls s1 = sm_calls s).
Proof.
  intros fmin chol svd inv expr fo Ns randn unif fl a s s1 r EI. unfold ss_run_on. rewrite EI. split.
  - intros e ->. reflexivity.
  - intros [T A] -> HN.
    assert (EC : sm_calls s1 = sm_calls s).
    { revert EI. unfold init_run_full, setModifiedCorrelationMatrix. destruct (sm_corr s) as [M|]; [|discriminate]. cbv zeta.
      destruct (forallb _ M); [|discriminate]. destruct (computeModifiedCorrelationMatrix _ _ _ _ _) as [[Ro l]|]; [|discriminate].
      cbn [setModifiedCorrelation sm_Ro]. intros EI. injection EI as <- _. reflexivity. }
    destruct (Z.ltb_spec Ns 0); [exists EValue; split; [reflexivity|]; split; [reflexivity|exact EC]|].
    destruct (Z.eqb_spec Ns 0); [|lia]. destruct (o_block_size (fo_ls fo) =? 0)%Z; (eexists; split; [reflexivity|]; split; [contradiction|exact EC]).
Qed.
Print Assumptions C102_refused_runs.

(** The hypotheses can be met, and the object follows the model: built for two variables, run after a
    third was added (CrudeMonteCarlo raises in this situation, C101_variable_added).  R - 3 S with
    R ~ N(50, 20), S ~ N(40, 5), Q ~ N(0, 1) unused; the prior samples are all at the mean, where the
    value is -70. *)
Definition h_grown : list smop := h_sorm 50 ++ [OpAdd (ODist (Normal "Q" 0 1))].
Theorem C102_grown_model : forall fmin Ns unif fl, (1 <= Ns)%Z -> exists a s2 a' s' st,
  ss_new None (1 / 10) 1 = Ok a /\ addVariable (sm_run (h_sorm 50)) (ODist (Normal "Q" 0 1)) = Ok s2 /\
  ss_run_on fmin chol3 svd2 inv3 expr_ex default_options Ns (fun _ => 0) unif fl a s2 = (a', s', SEnd) /\
  sv_st a' = Some st /\ length (ss_levels st) = 1%nat /\ sm_calls s' = Z.to_nat Ns.
Proof.
  intros fmin Ns unif fl HNs. set (a := mkSv false "cholesky" (1 / 10) 1 [] [] None None None). set (s2 := sm_run h_grown).
  assert (Ea : ss_new None (1 / 10) 1 = Ok a).
  { unfold ss_new. cbn [form_init mkTransformation rbind]. unfold ss_init. rewrite (proj2 (Rltb_spec 0 (1 / 10)) ltac:(lra)), (proj2 (Rltb_spec (1 / 10) 1) ltac:(lra)). reflexivity. }
  destruct (modified_ok fmin 3 (mat_of (eye_rows 3)) (fun i => marg_of (marg_at s2 i)) 3 (le_n 3)) as (Ro3 & E3 & _).
  assert (EI : init_run_full fmin chol3 svd2 inv3 "cholesky" s2 = (setModifiedCorrelation s2 (rows_of 3 Ro3), Ok (meye, meye))).
  { unfold init_run_full, setModifiedCorrelationMatrix. change (sm_corr s2) with (Some (eye_rows 3)). cbv iota beta zeta. change (length (eye_rows 3)) with 3%nat. change (length (sm_marg s2)) with 3%nat.
    rewrite (rows_square 3) by (intros q Hq; cbn in Hq; destruct Hq as [<-|[<-|[<-|[]]]]; reflexivity). rewrite E3. reflexivity. }
  pose proof (C102_estimate fmin chol3 svd2 inv3 h_grown expr_ex g_ex default_options Ns (fun _ => 0) unif fl a s2 (setModifiedCorrelation s2 (rows_of 3 Ro3)) meye meye (rows_of 3 Ro3)) as H. cbv zeta in H. change (ndists h_grown) with 3%nat in H.
  destruct H as (a' & s' & out & H1 & H2 & H3); try assumption; try reflexivity; try exact pointwise_ex; try (cbn; lia); try (cbn; lra).
  - repeat split.
  - exists a, s2, a', s'.
    assert (EO : exists st, out = SEnd /\ length (ss_levels st) = 1%nat /\ sv_st a' = Some st).
    { unfold ss_run_on in H1. change (sv_type a) with "cholesky"%string in H1. rewrite EI in H1. cbn [setModifiedCorrelation sm_Ro sm_marg] in H1. cbv zeta in H1.
      destruct (Z.ltb_spec Ns 0); [lia|]. destruct (Z.eqb_spec Ns 0); [lia|].
      rewrite rows_length in H1. change (length (sm_marg s2)) with 3%nat in H1. assert (HN1 : (1 <= Z.to_nat Ns)%nat) by lia. set (N := Z.to_nat Ns) in *.
      unfold ss_body in H1. cbv zeta in H1. set (us := map _ (seq 0 N)) in H1.
      assert (UZ : forall u, In u us -> u = (fun _ => 0)) by (intros u Hu; apply in_map_iff in Hu; destruct Hu as (j & <- & _); reflexivity).
      assert (LU : length us = N) by (unfold us; now rewrite map_length, seq_length).
      destruct (batch_sim expr_ex default_options s2 3 meye eq_refl us (setModifiedCorrelation s2 (rows_of 3 Ro3)) (core_Ro s2 _)) as (c & E & _).
      rewrite E in H1. clear E.
      rewrite (eval_batch_ok _ _ (fun u => g_ex (args_at h_grown (vlist 3 (u_to_x 3 meye (marg_at s2) u)))) us) in H1; [|intros; apply (mc_limit_state_ok h_grown); [discriminate|exact pointwise_ex|cbn; lia|cbn; lia]|cbn; lia].
      set (g := fun u => g_ex _) in H1.
      assert (G0 : g (fun _ => 0) = -70).
      { unfold g, vlist. cbn [map seq]. unfold u_to_x. cbn. unfold args_at. cbn. unfold g_ex, lk. cbn. ring. }
      assert (PL : percentile (map g us) (sv_p0 a) <= 0).
      { apply percentile_le_max; [cbn; lra|rewrite map_length; lia|]. intros x Hx. apply in_map_iff in Hx. destruct Hx as (u & <- & Hu). rewrite (UZ u Hu), G0. lra. }
      rewrite (proj2 (Rleb_spec _ _) PL) in H1. injection H1 as <- <- <-. eexists. split; [reflexivity|]. split; [|reflexivity]. reflexivity. }
    destruct EO as (st & -> & L & E1). exists st. split; [exact Ea|]. split; [reflexivity|]. split; [exact H1|]. split; [exact E1|]. split; [exact L|].
    destruct H3 as (st' & Pf & cov & K1 & _ & _ & _ & _ & _ & _ & _ & K). rewrite E1 in K1. injection K1 as <-. rewrite K, L. cbn. lia.
Qed.
Print Assumptions C102_grown_model.
