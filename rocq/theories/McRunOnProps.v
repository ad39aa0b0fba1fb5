(** Property theorems C101: whole CrudeMonteCarlo and ImportanceSampling analyses. *)
From Coquelicot Require Import Coquelicot.
From Verif Require Import Base Ext Gauss GaussProofs StochModel StochModelSpec StochModelProofs LimitState LimitStateSpec LimitStateProofs LimitStateProps Transf TransfSpec TransfProofs Form FormProofs FormAffineProofs FormNormalProofs FormProps Nataf NatafProofs Dist RotSpec RotProps Pipe PipeSpec SensSpec PipeProofs PipeProps Sorm SormRunProofs SormRunProps Mc McSpec McProofs McRunProofs McProps McRun LsRunProofs LsRunProps McRunOnSpec McRunOnProofs.
From Coq Require Import ZArith Lra Lia.
Open Scope R_scope.

(** C101: a run whose preparation succeeds is the simulation of Mc.v, applied to the limit state of the
    registered variables.  A completed run stores Pf and beta and evaluates the limit state once per
    sample; a run that raises keeps the previous Pf and beta, although the object then counts as run. *)
Theorem C101_run_composition : forall fmin chol svd inv expr fo mo evn stream fl a s s1 T A M n p off,
  init_run_full fmin chol svd inv (mb_type a) s = (s1, Ok (T, A)) -> sm_Ro s1 = Some M -> length M = n ->
  length (sm_marg s) = n -> mb_nrv a = n -> point_of a = (n, Some p) -> mo_stdv mo <> 0 ->
  match mc_run n mo stream p (u_to_x n A (marg_at s)) (mc_limit_state s expr (fo_ls fo) n A (marg_at s)) fl (mb_st a) off with
  | MDone st => exists c, Z.of_nat c = ms_k st /\
      cmc_run_on fmin chol svd inv expr fo mo evn stream fl a s off =
        (mkMb true (mb_type a) n (Some (n, Some p)) st (Some (mc_Pf st, mc_beta st)), addCallFunction s1 c, MEnd)
  | MRaise e => exists a' c, cmc_run_on fmin chol svd inv expr fo mo evn stream fl a s off = (a', addCallFunction s1 c, MRaised e) /\
      mb_valid a' = true /\ mb_res a' = mb_res a
  | MFuel => exists a' c, cmc_run_on fmin chol svd inv expr fo mo evn stream fl a s off = (a', addCallFunction s1 c, MRunning)
  end.
Proof.
  intros fmin chol svd inv expr fo mo evn stream fl a s s1 T A M n p off EI ERo EMl EM En EP Hs.
  assert (HC : same_core s s1) by (pose proof (f_equal fst EI) as E1; cbn [fst] in E1; rewrite <- E1; apply init_same).
  unfold cmc_run_on. rewrite EI. cbv zeta. rewrite ERo, EMl, En.
  assert (EPT : match mb_point a with None => Some (n, Some (fun _ : nat => 0)) | Some q => Some q end = Some (n, Some p)).
  { unfold point_of in EP. destruct (mb_point a); [now rewrite EP|]. rewrite En in EP. now rewrite EP. }
  rewrite EPT.
  destruct (Reqb (mo_stdv mo) 0) eqn:E0; [apply Reqb_spec in E0; contradiction|].
  unfold mc_run. destruct (mo_samples mo <? 0)%Z; [cbv iota beta; exists (mkMb true (mb_type a) n (Some (n, Some p)) (mb_st a) (mb_res a)), 0%nat; rewrite add0; auto|].
  destruct (mo_samples mo =? 0)%Z; [cbv iota beta; exists (mkMb true (mb_type a) n (Some (n, Some p)) (mb_st a) (mb_res a)), 0%nat; rewrite add0; auto|].
  cbn [centre]. rewrite Nat.eqb_refl.
  set (start := mkms 0 off 0 0 0 1 _ _ _ _ _ _).
  pose proof (loop_sim expr fo mo stream s n A p EM fl start s1 HC) as H.
  destruct (mc_loop n mo stream p (u_to_x n A (marg_at s)) (mc_limit_state s expr (fo_ls fo) n A (marg_at s)) fl start) as [st|e|].
  - destruct H as (c & E1 & E2). rewrite E1. exists c. split; [|reflexivity]. rewrite E2. cbn [start ms_k]. lia.
  - destruct H as (st & c & E1). rewrite E1. do 2 eexists. split; [reflexivity|]. split; reflexivity.
  - destruct H as (st & c & E1). rewrite E1. do 2 eexists. reflexivity.
Qed.
Print Assumptions C101_run_composition.

Lemma limit_core s0 s expr o n A m us : same_core s0 s -> mc_limit_state s expr o n A m us = mc_limit_state s0 expr o n A m us.
Proof.
  intros HC. unfold mc_limit_state, form_trial. cbv zeta.
  match goal with |- context[evaluate_lsf ?l s ?a ?b ?c ?d ?e] => destruct (core_eval s0 s HC l a b c d e) as (k & E1 & E2 & E3) end.
  rewrite E3. clear. match goal with |- context[match ev_out ?e with _ => _ end] => destruct (ev_out e); reflexivity end.
Qed.

(** C101: for any variables, correlation and pointwise limit state, and on a model object with any
    history of analyses: the run ends; Pf is the mean, over the drawn points, of the likelihood ratios
    of those points whose physical image fails; the counter grows by the number of points. *)
Theorem C101_estimate : forall fmin chol svd inv h expr f fo mo evn stream fl a s s1 T A M p off,
  let n := ndists h in
  let g := fun u => f (args_at h (vlist n (u_to_x n A (marg_at s) u))) in
  same_problem (sm_run h) s ->
  init_run_full fmin chol svd inv (mb_type a) s = (s1, Ok (T, A)) -> sm_Ro s1 = Some M -> length M = n ->
  mb_nrv a = n -> point_of a = (n, Some p) -> (1 <= n)%nat -> pointwise expr f ->
  o_multi_proc (fo_ls fo) <> 0%Z -> (1 <= o_block_size (fo_ls fo))%Z ->
  0 < mo_stdv mo -> (0 < mo_block mo)%Z -> (0 < mo_samples mo)%Z -> mo_rg mo = 0%Z -> (Z.to_nat (mo_samples mo) < fl)%nat ->
  exists a' s' Pf, let pts := ms_pts (mb_st a') in
    cmc_run_on fmin chol svd inv expr fo mo evn stream fl a s off = (a', s', MEnd) /\
    mb_res a' = Some (Pf, reported_beta Pf) /\
    Pf = lsum (map (fun u => if Rltb (g u) 0 then joint_density n u / sampling_density n p (mo_stdv mo) u else 0) pts) / INR (length pts) /\
    drawn n mo stream p off (ms_blocks (mb_st a')) /\ (0 < Z.of_nat (length pts) <= mo_samples mo)%Z /\ ms_off (mb_st a') = (off + n * length pts)%nat /\
    mb_valid a' = true /\ mb_type a' = mb_type a /\ mb_nrv a' = n /\ point_of a' = (n, Some p) /\
    same_problem (sm_run h) s' /\ sm_calls s' = (sm_calls s + length pts)%nat.
Proof.
  intros fmin chol svd inv h expr f fo mo evn stream fl a s s1 T A M p off n g HC EI ERo EMl En EP Hn Hp Hm Hbl Hs Hb Hsa Hrg Hfl.
  assert (EM0 : length (sm_marg (sm_run h)) = n) by (destruct (registry h) as (_ & _ & X & _); rewrite X; reflexivity).
  assert (EM : length (sm_marg s) = n) by exact (core_len _ n EM0 s HC).
  set (Gof := mc_limit_state s expr (fo_ls fo) n A (marg_at s)).
  assert (HG : forall us, Gof us = Ok (map g us)).
  { intros us. unfold Gof. rewrite (limit_core _ s _ _ _ _ _ us HC). apply mc_limit_state_ok; assumption. }
  pose proof (C101_run_composition fmin chol svd inv expr fo mo evn stream fl a s s1 T A M n p off EI ERo EMl EM En EP ltac:(lra)) as H. fold Gof in H.
  destruct (C28_terminates n mo stream p (u_to_x n A (marg_at s)) Gof g (mb_st a) off fl HG Hb Hsa Hrg Hfl) as (st & ER). rewrite ER in H.
  destruct H as (c & Ec & E).
  destruct (C29_Pf_is_mean_weight n mo stream p _ Gof g (mb_st a) off fl st HG Hs Hb ER) as (P1 & _).
  destruct (run_inv n mo stream p _ Gof g HG (mb_st a) off fl st Hb ER) as (HI & Kp & _).
  destruct HI as [I1 I2 I3 I4 _ _ _ _].
  assert (KP : 0 < IZR (ms_k st)) by (apply (IZR_lt 0); exact Kp).
  assert (EBt : mc_beta st = reported_beta (mc_Pf st)).
  { unfold mc_beta, reported_beta. rewrite (proj1 (run_Pf n mo stream p _ Gof g HG (mb_st a) off fl st Hb Hs ER)), <- I4.
    replace (Rltb 0 (ms_sum_q st / IZR (ms_k st))) with (Rltb 0 (ms_sum_q st)); [reflexivity|].
    destruct (Rltb 0 (ms_sum_q st)) eqn:C1, (Rltb 0 (ms_sum_q st / IZR (ms_k st))) eqn:C2; try reflexivity; exfalso.
    - apply Rltb_spec in C1. apply Rltb_false in C2. pose proof (Rdiv_lt_0_compat _ _ C1 KP). lra.
    - apply Rltb_spec in C2. apply Rltb_false in C1. apply (Rmult_lt_compat_r _ _ _ KP) in C2. unfold Rdiv in C2. rewrite Rmult_assoc, Rinv_l in C2 by lra. lra. }
  exists (mkMb true (mb_type a) n (Some (n, Some p)) st (Some (mc_Pf st, mc_beta st))), (addCallFunction s1 c), (mc_Pf st). cbv zeta. cbn [mb_st mb_res mb_valid mb_type mb_nrv]. split; [exact E|].
  split; [now rewrite EBt|]. split; [exact P1|].
  split. { intros m Hmm. destruct (run_layout n mo stream p _ Gof g HG (mb_st a) off fl st ltac:(lia) ER m Hmm) as [L1 L2]. cbv zeta in *. split; [exact L1|]. intros j i Hj Hi. exact (L2 j Hj i Hi). }
  split; [lia|]. split; [lia|]. repeat split; try reflexivity.
  1-5: pose proof (init_same fmin chol svd inv (mb_type a) s) as HC1; rewrite EI in HC1; cbn [fst] in HC1;
    pose proof (core_trans _ _ _ HC HC1) as HC2; destruct HC2 as (? & ? & ? & ? & ?); cbn; assumption.
  cbn. assert (c = length (ms_pts st)) by lia. subst c.
  assert (sm_calls s1 = sm_calls s). { unfold init_run_full in EI. unfold setModifiedCorrelationMatrix in EI. destruct (sm_corr s); [|discriminate].
    destruct (forallb _ _); [|discriminate]. destruct (computeModifiedCorrelationMatrix _ _ _ _ _) as [[? ?]|]; [|discriminate]. cbn [setModifiedCorrelation sm_Ro] in EI. injection EI as <- _. reflexivity. }
  lia.
Qed.
Print Assumptions C101_estimate.

Lemma lsum_nfail g pts n : lsum (map (fun u => if Rltb (g u) 0 then joint_density n u / sampling_density n (fun _ => 0) 1 u else 0) pts) = INR (nfail g pts).
Proof.
  rewrite <- lsum_indicator. apply lsum_ext. intros u _. unfold indicator. destruct (Rltb (g u) 0) eqn:E; [|reflexivity].
  pose proof (C29_weight_is_likelihood_ratio n (fun _ => 0) 1 u (g u) Rlt_0_1) as (H & _). apply Rltb_spec in E. rewrite <- (H E).
  change (fun _ : nat => 0) with (setPoint None). rewrite weight_crude. unfold indicator. apply Rltb_spec in E. now rewrite E.
Qed.

Lemma nfail_ext g g' pts : (forall u, (g u < 0 <-> g' u < 0)) -> nfail g pts = nfail g' pts.
Proof.
  intros H. induction pts as [|u pts IH]; [reflexivity|]. cbn. rewrite IH. destruct (Rltb (g u) 0) eqn:E, (Rltb (g' u) 0) eqn:E'; try reflexivity; exfalso.
  - apply Rltb_spec in E. apply Rltb_false in E'. apply H in E. lra.
  - apply Rltb_spec in E'. apply Rltb_false in E. apply H in E'. lra.
Qed.

(** the limit state of a linear problem at the image of a standard normal point *)
Lemma lin_value h expr f lf A s (av : vec) mean u :
  pointwise expr f -> (1 <= ndists h)%nat -> (2 <= lf)%nat -> same_core (sm_run h) s ->
  (forall us, (length us < lf)%nat -> exists k, form_trial lf (sm_run h) expr default_ls (ndists h) A (marg_at (sm_run h)) us = (Ok (map (fun u => mean - dot (ndists h) av u) us), k)) ->
  f (args_at h (vlist (ndists h) (u_to_x (ndists h) A (marg_at s) u))) = mean - dot (ndists h) av u.
Proof.
  intros Hp Hn Hlf HC ETr. rewrite (core_marg _ s HC).
  set (us := repeat u (lf - 1)). assert (L : S (length us) = lf) by (unfold us; rewrite repeat_length; lia).
  destruct (ETr us ltac:(lia)) as (k & E).
  pose proof (mc_limit_state_ok h expr f default_ls A (marg_at (sm_run h)) ltac:(discriminate) Hp Hn ltac:(cbn; lia) us) as E2.
  unfold mc_limit_state in E2. rewrite L, E in E2. cbn [fst] in E2. unfold us in E2. destruct (lf - 1)%nat eqn:E3; [lia|]. cbn [repeat map] in E2. injection E2. intros _ H. symmetry. exact H.
Qed.

(** C101: on a linear function of normal variables, crude Monte Carlo counts the drawn points beyond
    FORM's hyperplane alpha . u = beta, on an object with any history. *)
Theorem C101_linear_normal :
  forall fmin chol svd inv e0 h expr f lf nm (mu sd cf : vec) c0 M Ro log a opt fo mo evn fuel stream fl s off,
  let n := ndists h in
  lapack n chol svd inv e0 -> cmc_new opt None s = Ok a -> same_problem (sm_run h) s -> (1 <= n)%nat ->
  (forall i, (i < n)%nat -> nth_error (dists_of (accepted h)) i = Some (Normal (nm i) (mu i) (sd i))) ->
  (forall i, (i < n)%nat -> sd i <> 0) -> (exists i, (i < n)%nat /\ cf i <> 0) ->
  pointwise expr f -> (forall q, length q = n -> f (args_at h q) = c0 + fsum n (fun i => cf i * nth i q 0)) ->
  exact_options fo -> (n + 7 < lf)%nat -> (Z.to_nat (fo_imax fo) < fuel)%nat ->
  sm_corr (sm_run h) = Some M -> length M = n -> (forall r, In r M -> length r = n) ->
  computeModifiedCorrelationMatrix fmin n n (mat_of M) (fun i => marg_of (marg_at (sm_run h) i)) = Ok (Ro, log) -> pos_def n Ro ->
  mo_stdv mo = 1 -> (0 < mo_block mo)%Z -> (0 < mo_samples mo)%Z -> mo_rg mo = 0%Z -> (Z.to_nat (mo_samples mo) < fl)%nat ->
  let mean := c0 + fsum n (fun i => cf i * mu i) in
  let variance := fsum n (fun i => fsum n (fun j => (cf i * sd i) * Ro i j * (cf j * sd j))) in
  let beta := mean / sqrt variance in
  exists b sF r alpha a' s' Pf, let pts := ms_pts (mb_st a') in
    run_form fmin chol svd inv fuel lf expr fo evn (mkFobj false (mb_type a) None None) (sm_run h) = (b, sF, FDone r) /\
    form_beta n r = Fin beta /\ form_alpha n r = Some alpha /\ norm n alpha = 1 /\
    cmc_run_on fmin chol svd inv expr fo mo evn stream fl a s off = (a', s', MEnd) /\
    mb_res a' = Some (Pf, reported_beta Pf) /\ Pf = INR (nfail (fun u => beta - dot n alpha u) pts) / INR (length pts) /\
    drawn n mo stream (fun _ => 0) off (ms_blocks (mb_st a')) /\ (0 < Z.of_nat (length pts) <= mo_samples mo)%Z /\ same_problem (sm_run h) s' /\ sm_calls s' = (sm_calls s + length pts)%nat.
Proof.
  intros fmin chol svd inv e0 h expr f lf nm mu sd cf c0 M Ro lg a opt fo mo evn fuel stream fl s off n Hlap Hnew HC Hn HN Hsd Hcf Hp Hlin Hfo Hlf Hfu HM HM1 HM2 HRo HPD Hs Hb Hsa Hrg Hfl mean variance beta.
  unfold cmc_new in Hnew. destruct (form_init opt) as [a0|] eqn:Ha; [|discriminate]. cbn [rbind] in Hnew. injection Hnew as <-. cbn [mb_type].
  assert (EaF : mkFobj false (fb_type a0) None None = a0). { unfold form_init in Ha. destruct (mkTransformation opt); [|discriminate]. cbn in Ha. injection Ha as <-. reflexivity. }
  rewrite EaF.
  destruct (lin_run fmin chol svd inv e0 h expr f lf nm mu sd cf c0 M Ro lg a0 opt fo evn fuel Hlap Ha Hn HN Hsd Hcf Hp Hlin Hfo Hlf Hfu HM HM1 HM2 HRo HPD)
    as (T & A & b & c & r & u & H). cbv zeta in H. fold n in H. fold mean variance in H. fold beta in H.
  set (av := fun j => - fsum n (fun i => cf i * sd i * A i j)) in *.
  destruct H as (ER & ETA & ERes & Eu & E0 & EG & AL & HU & EB & ET & HT & HF & EN & VP & EM & EA).
  destruct (ln_all fmin chol svd inv e0 h expr f lf nm mu sd cf c0 M Ro lg a0 opt Hlap Ha Hn HN Hsd Hp Hlin Hlf HRo HPD) as (T' & A' & ET' & EN' & _ & ETr).
  cbv zeta in ETr. fold n in ETr, ET'. change (ln_b h mu cf c0) with mean in ETr. rewrite ET in ET'. injection ET' as <- <-. fold av in ETr.
  assert (SV := sqrt_lt_R0 _ VP). assert (SQ := sqrt_sqrt variance ltac:(lra)).
  set (alpha := alpha_of n (fr_grad r)) in *.
  assert (NA : norm n alpha = 1). { apply (alpha_unit n av alpha); [rewrite EN; exact AL|rewrite EN; lra]. }
  assert (EI := init_ok fmin chol svd inv (fb_type a0) (sm_run h) M n Ro lg T A HM HM1 HM2 EM HRo ET s HC).
  destruct (C101_estimate fmin chol svd inv h expr f fo mo evn stream fl (mkMb false (fb_type a0) (length (sm_marg s)) None mc_fresh None) s _ T A (rows_of n Ro) (fun _ => 0) off HC EI eq_refl (rows_length n Ro))
    as (a' & s' & Pf & H); try assumption.
  - exact (core_len _ n EM s HC).
  - unfold point_of. cbn [mb_point mb_nrv]. now rewrite (core_len _ n EM s HC).
  - rewrite (proj1 Hfo). discriminate.
  - rewrite (proj1 Hfo). cbn. lia.
  - lra.
  - cbv zeta in H. fold n in H. destruct H as (H1 & H2 & HPf & HD & H3 & H4 & H5 & H6 & H7 & H8 & H9 & H10).
    exists b, (addCallFunction (setModifiedCorrelation (sm_run h) (rows_of n Ro)) c), r, alpha, a', s', Pf. cbv zeta. split; [exact ER|]. split; [exact EB|].
    split; [unfold form_alpha; rewrite Eu; reflexivity|]. split; [exact NA|]. split; [exact H1|]. split; [exact H2|]. split; [|split; [exact HD|split; [exact H3|split; assumption]]].
    rewrite HPf. f_equal. rewrite Hs, lsum_nfail. f_equal. apply nfail_ext. intros u'. unfold n.
    rewrite (lin_value h expr f lf A s av mean u' Hp Hn ltac:(lia) HC ETr). fold n.
    assert (E1 : mean - dot n av u' = sqrt variance * (beta - dot n alpha u')).
    { rewrite (Base.dot_ext n alpha u' (fun i => / sqrt variance * av i) u').
      - rewrite dot_scal_l. unfold beta. field. lra.
      - intros i Hi. rewrite (AL i Hi). unfold Rdiv. ring.
      - intros i _. reflexivity. }
    rewrite E1. split; intros HH; [apply Rmult_lt_reg_l with (sqrt variance); lra|]. apply Rmult_lt_compat_l with (r := sqrt variance) in HH; lra.
Qed.
Print Assumptions C101_linear_normal.

(** C101: importance sampling (unit deviation) around FORM's design point on such a problem.  Every
    weight is exp(beta^2/2 - beta alpha.u), for the points beyond the hyperplane.  So for beta >= 0
    the estimate is at most exp(-beta^2/2) whatever the random numbers. *)
Theorem C101_importance_linear :
  forall fmin chol svd inv e0 h expr f lf nm (mu sd cf : vec) c0 M Ro log a opt fo mo evn fuel stream fl s off,
  let n := ndists h in
  lapack n chol svd inv e0 -> form_init opt = Ok a -> same_problem (sm_run h) s -> (1 <= n)%nat ->
  (forall i, (i < n)%nat -> nth_error (dists_of (accepted h)) i = Some (Normal (nm i) (mu i) (sd i))) ->
  (forall i, (i < n)%nat -> sd i <> 0) -> (exists i, (i < n)%nat /\ cf i <> 0) ->
  pointwise expr f -> (forall q, length q = n -> f (args_at h q) = c0 + fsum n (fun i => cf i * nth i q 0)) ->
  exact_options fo -> (n + 7 < lf)%nat -> (Z.to_nat (fo_imax fo) < fuel)%nat ->
  sm_corr (sm_run h) = Some M -> length M = n -> (forall r, In r M -> length r = n) ->
  computeModifiedCorrelationMatrix fmin n n (mat_of M) (fun i => marg_of (marg_at (sm_run h) i)) = Ok (Ro, log) -> pos_def n Ro ->
  mo_stdv mo = 1 -> (0 < mo_block mo)%Z -> (0 < mo_samples mo)%Z -> mo_rg mo = 0%Z -> (Z.to_nat (mo_samples mo) < fl)%nat ->
  let mean := c0 + fsum n (fun i => cf i * mu i) in
  let variance := fsum n (fun i => fsum n (fun j => (cf i * sd i) * Ro i j * (cf j * sd j))) in
  let beta := mean / sqrt variance in
  exists alpha a0 s1 a' s' Pf, let pts := ms_pts (mb_st a') in
    norm n alpha = 1 /\
    (exists u b sF r, run_form fmin chol svd inv fuel lf expr fo evn a (sm_run h) = (b, sF, FDone r) /\ fr_u r = Some u /\ form_alpha n r = Some alpha /\ form_beta n r = Fin beta /\
       is_new fmin chol svd inv fuel lf expr fo evn opt s = (Ok a0, s1) /\ mb_point a0 = Some (n, Some u) /\ veq n u (fun i => beta * alpha i)) /\
    is_run_on fmin chol svd inv expr fo mo evn stream fl a0 s1 off = (a', s', MEnd) /\
    mb_res a' = Some (Pf, reported_beta Pf) /\ mb_valid a' = true /\
    Pf = lsum (map (fun u => if Rltb beta (dot n alpha u) then exp (/ 2 * beta ^ 2 - beta * dot n alpha u) else 0) pts) / INR (length pts) /\
    0 <= Pf /\ (0 <= beta -> Pf <= exp (- (/ 2 * beta ^ 2))) /\
    drawn n mo stream (fun i => beta * alpha i) off (ms_blocks (mb_st a')) /\ (0 < Z.of_nat (length pts) <= mo_samples mo)%Z /\ same_problem (sm_run h) s' /\ sm_calls s' = (sm_calls s1 + length pts)%nat.
Proof.
  intros fmin chol svd inv e0 h expr f lf nm mu sd cf c0 M Ro lg a opt fo mo evn fuel stream fl s off n Hlap Ha HC Hn HN Hsd Hcf Hp Hlin Hfo Hlf Hfu HM HM1 HM2 HRo HPD Hs Hb Hsa Hrg Hfl mean variance beta.
  destruct (lin_run fmin chol svd inv e0 h expr f lf nm mu sd cf c0 M Ro lg a opt fo evn fuel Hlap Ha Hn HN Hsd Hcf Hp Hlin Hfo Hlf Hfu HM HM1 HM2 HRo HPD)
    as (T & A & b & c & r & u & H). cbv zeta in H. fold n in H. fold mean variance in H. fold beta in H.
  set (av := fun j => - fsum n (fun i => cf i * sd i * A i j)) in *.
  destruct H as (ER & ETA & ERes & Eu & E0 & EG & AL & HU & EB & ET & HT & HF & EN & VP & EM & EA).
  destruct (ln_all fmin chol svd inv e0 h expr f lf nm mu sd cf c0 M Ro lg a opt Hlap Ha Hn HN Hsd Hp Hlin Hlf HRo HPD) as (T' & A' & ET' & EN' & _ & ETr).
  cbv zeta in ETr. fold n in ETr, ET'. change (ln_b h mu cf c0) with mean in ETr. rewrite ET in ET'. injection ET' as <- <-. fold av in ETr.
  assert (SV := sqrt_lt_R0 _ VP). assert (SQ := sqrt_sqrt variance ltac:(lra)).
  set (alpha := alpha_of n (fr_grad r)) in *.
  assert (NA : norm n alpha = 1). { apply (alpha_unit n av alpha); [rewrite EN; exact AL|rewrite EN; lra]. }
  assert (UA : veq n u (fun i => beta * alpha i)).
  { intros i Hi. rewrite (HU i Hi), (AL i Hi). unfold beta. set (w := sqrt variance) in *. rewrite <- SQ. field. lra. }
  destruct (run_core fmin chol svd inv fuel lf expr fo evn a a (sm_run h) s HC eq_refl) as (k & M' & HR).
  rewrite ER in HR. destruct (run_form fmin chol svd inv fuel lf expr fo evn a s) as [[b' s1] o2] eqn:ER2.
  destruct HR as (-> & _ & _ & _ & C2 & _).
  assert (C1 : same_core (sm_run h) s1) by exact (core_trans _ _ _ HC C2).
  set (a0 := mkMb false (fb_type a) n (Some (n, Some u)) mc_fresh None).
  assert (ENew : is_new fmin chol svd inv fuel lf expr fo evn opt s = (Ok a0, s1)).
  { unfold is_new. rewrite Ha, ER2. unfold cmc_new. rewrite Ha. cbn [rbind]. rewrite (core_len _ n EM s1 C1), Eu. reflexivity. }
  assert (EI1 := init_ok fmin chol svd inv (fb_type a) (sm_run h) M n Ro lg T A HM HM1 HM2 EM HRo ET s1 C1).
  set (s2 := setModifiedCorrelation s1 (rows_of n Ro)) in *.
  assert (C3 : same_core (sm_run h) s2) by exact (core_trans _ _ _ C1 (core_Ro s1 _)).
  assert (EI2 := init_ok fmin chol svd inv (fb_type a) (sm_run h) M n Ro lg T A HM HM1 HM2 EM HRo ET s2 C3).
  destruct (C101_estimate fmin chol svd inv h expr f fo mo evn stream fl a0 s2 _ T A (rows_of n Ro) u off C3 EI2 eq_refl (rows_length n Ro))
    as (a' & s' & Pf & H); try assumption.
  - reflexivity.
  - reflexivity.
  - rewrite (proj1 Hfo). discriminate.
  - rewrite (proj1 Hfo). cbn. lia.
  - lra.
  - cbv zeta in H. fold n in H. destruct H as (H1 & H2 & HPf & HD & H3 & H4 & H5 & H6 & H7 & H8 & H9 & H10).
    set (pts := ms_pts (mb_st a')) in *.
    assert (W : forall u', (if Rltb (f (args_at h (vlist n (u_to_x n A (marg_at s2) u')))) 0 then joint_density n u' / sampling_density n u (mo_stdv mo) u' else 0) =
               (if Rltb beta (dot n alpha u') then exp (/ 2 * beta ^ 2 - beta * dot n alpha u') else 0)).
    { intros u'. unfold n at 1 2. rewrite (lin_value h expr f lf A s2 av mean u' Hp Hn ltac:(lia) C3 ETr). fold n.
      assert (E1 : mean - dot n av u' = sqrt variance * (beta - dot n alpha u')).
      { rewrite (Base.dot_ext n alpha u' (fun i => / sqrt variance * av i) u').
        - rewrite dot_scal_l. unfold beta. field. lra.
        - intros i Hi. rewrite (AL i Hi). unfold Rdiv. ring.
        - intros i _. reflexivity. }
      rewrite E1. destruct (Rltb beta (dot n alpha u')) eqn:EC.
      - apply Rltb_spec in EC. assert (LT : sqrt variance * (beta - dot n alpha u') < 0) by nra.
        rewrite (proj2 (Rltb_spec _ _) LT), Hs.
        rewrite <- (proj1 (C29_weight_is_likelihood_ratio n u 1 u' (-1) Rlt_0_1) ltac:(lra)).
        rewrite weight_unit. unfold indicator. rewrite (proj2 (Rltb_spec (-1) 0) ltac:(lra)), Rmult_1_l. f_equal.
        rewrite (Base.dot_ext n u u (fun i => beta * alpha i) (fun i => beta * alpha i) UA UA), (Base.dot_ext n u u' (fun i => beta * alpha i) u' UA ltac:(intros i _; reflexivity)).
        rewrite !dot_scal_l, dot_scal_r, <- norm_sqr, NA. ring.
      - apply Rltb_false in EC. destruct (Rltb (sqrt variance * (beta - dot n alpha u')) 0) eqn:E2; [|reflexivity]. apply Rltb_spec in E2. nra. }
    assert (LP : 0 < INR (length pts)) by (apply lt_0_INR; lia).
    set (wt := fun u' => if Rltb beta (dot n alpha u') then exp (/ 2 * beta ^ 2 - beta * dot n alpha u') else 0).
    assert (BD : 0 <= lsum (map wt pts) /\ (0 <= beta -> lsum (map wt pts) <= INR (length pts) * exp (- (/ 2 * beta ^ 2)))).
    { clear - beta. induction pts as [|u' l IH].
      - cbn. split; [lra|intros _; lra].
      - destruct IH as [I1 I2]. cbn [map]. change (lsum (wt u' :: map wt l)) with (wt u' + lsum (map wt l)). change (length (u' :: l)) with (S (length l)). rewrite S_INR.
        assert (P : 0 <= wt u') by (unfold wt; destruct (Rltb _ _); [apply Rlt_le, exp_pos|lra]).
        split; [lra|]. intros Hbeta. specialize (I2 Hbeta). assert (Q : wt u' <= exp (- (/ 2 * beta ^ 2))).
        { unfold wt. destruct (Rltb _ _) eqn:EC; [|apply Rlt_le, exp_pos]. apply Rltb_spec in EC.
          assert (LE : / 2 * beta ^ 2 - beta * dot n alpha u' <= - (/ 2 * beta ^ 2)) by nra.
          destruct (Rle_lt_or_eq_dec _ _ LE) as [L|L]; [apply Rlt_le, exp_increasing, L|rewrite L; lra]. }
        lra. }
    assert (EPf : Pf = lsum (map wt pts) / INR (length pts)) by (rewrite HPf; do 2 f_equal; apply map_ext; exact W).
    exists alpha, a0, s1, a', s', Pf. cbv zeta. fold pts. split; [exact NA|]. split.
    { exists u, b, (addCallFunction (setModifiedCorrelation (sm_run h) (rows_of n Ro)) c), r. split; [exact ER|]. split; [exact Eu|]. split; [unfold form_alpha; rewrite Eu; reflexivity|]. split; [exact EB|]. split; [exact ENew|]. split; [reflexivity|exact UA]. }
    split. { unfold is_run_on. change (mb_type a0) with (fb_type a). rewrite EI1. exact H1. }
    split; [exact H2|].
    split; [exact H5|]. split; [exact EPf|]. rewrite EPf. destruct BD as [B1 B2].
    split. { apply Rmult_le_pos; [exact B1|]. apply Rlt_le, Rinv_0_lt_compat, LP. }
    split. { intros HB. apply Rmult_le_reg_r with (INR (length pts)); [exact LP|]. unfold Rdiv. rewrite Rmult_assoc, Rinv_l, Rmult_1_r by lra. specialize (B2 HB). lra. }
    split. { intros m Hm. destruct (HD m Hm) as [L1 L2]. cbv zeta in *. split; [exact L1|]. intros j i Hj Hi. rewrite (L2 j i Hj Hi), (UA i Hi). reflexivity. }
    split; [exact H3|]. split; [exact H9|]. exact H10.
Qed.
Print Assumptions C101_importance_linear.

(** C101: an object built before a variable was added to the model: the run raises before anything is
    evaluated, Pf and beta of an earlier run stay, and the object counts as run. *)
Theorem C101_variable_added : forall fmin chol svd inv expr fo mo evn stream fl a s s1 T A M p off,
  init_run_full fmin chol svd inv (mb_type a) s = (s1, Ok (T, A)) -> sm_Ro s1 = Some M -> length M <> mb_nrv a ->
  point_of a = (mb_nrv a, Some p) -> mo_stdv mo <> 0 -> (0 < mo_samples mo)%Z -> (0 < mo_block mo)%Z -> mo_rg mo = 0%Z -> (1 <= fl)%nat ->
  exists a', cmc_run_on fmin chol svd inv expr fo mo evn stream fl a s off = (a', s1, MRaised EValue) /\ mb_res a' = mb_res a /\ mb_valid a' = true.
Proof.
  intros fmin chol svd inv expr fo mo evn stream fl a s s1 T A M p off EI ERo Hne EP Hs Hsa Hb Hr Hfl.
  unfold cmc_run_on. rewrite EI. cbv zeta. rewrite ERo.
  assert (EPT : match mb_point a with None => Some (mb_nrv a, Some (fun _ : nat => 0)) | Some q => Some q end = Some (mb_nrv a, Some p)).
  { unfold point_of in EP. destruct (mb_point a); now rewrite EP. }
  rewrite EPT. destruct (Reqb (mo_stdv mo) 0) eqn:E0; [apply Reqb_spec in E0; contradiction|].
  destruct (Z.ltb_spec (mo_samples mo) 0); [lia|]. destruct (Z.eqb_spec (mo_samples mo) 0); [lia|].
  cbn [centre]. rewrite Nat.eqb_refl. destruct fl as [|f]; [lia|]. cbn [mc_loop_on ms_k].
  destruct (Z.ltb_spec 0 (mo_samples mo)); [|lia]. set (b := Z.min (mo_block mo) (mo_samples mo - 0)). destruct (Z.ltb_spec b 0); [lia|]. rewrite Hr. cbn [Z.eqb negb].
  destruct (Z.to_nat b) as [|bn] eqn:Eb; [lia|]. cbn [seq map]. unfold mc_eval. destruct (Nat.eqb_spec (mb_nrv a) (length M)); [congruence|].
  unfold mc_block. destruct (Z.ltb_spec b 0); [lia|]. rewrite Hr. cbn [Z.eqb negb]. eexists. split; [reflexivity|]. split; reflexivity.
Qed.
Print Assumptions C101_variable_added.

(** C101: importance sampling of a constant limit state, safe or failing: FORM ends in NaN, which is
    then the sampling centre; the run reports Pf = 0 and beta = 0. *)
Theorem C101_constant_limit_state :
  forall fmin chol svd inv e0 h expr f lf nm (mu sd : vec) c0 M Ro log a opt fo mo fuel stream fl off,
  let n := ndists h in let s := sm_run h in
  lapack n chol svd inv e0 -> form_init opt = Ok a -> (1 <= n)%nat ->
  (forall i, (i < n)%nat -> nth_error (dists_of (accepted h)) i = Some (Normal (nm i) (mu i) (sd i))) ->
  (forall i, (i < n)%nat -> sd i <> 0) ->
  pointwise expr f -> (forall q, length q = n -> f (args_at h q) = c0) ->
  fo_ls fo = default_ls -> (1 <= fo_imax fo)%Z -> (n + 7 < lf)%nat -> (Z.to_nat (fo_imax fo) < fuel)%nat ->
  sm_corr s = Some M -> length M = n -> (forall r, In r M -> length r = n) ->
  computeModifiedCorrelationMatrix fmin n n (mat_of M) (fun i => marg_of (marg_at s i)) = Ok (Ro, log) -> pos_def n Ro ->
  mo_stdv mo <> 0 -> (0 < mo_block mo)%Z -> (0 < mo_samples mo)%Z -> mo_rg mo = 0%Z ->
  exists a0 s1 a' s', is_new fmin chol svd inv fuel lf expr fo None opt s = (Ok a0, s1) /\
    is_run_on fmin chol svd inv expr fo mo None stream fl a0 s1 off = (a', s', MEnd) /\
    mb_res a' = Some (0, Fin 0) /\ mb_valid a' = true /\ (sm_calls s1 < sm_calls s')%nat.
Proof.
  intros fmin chol svd inv e0 h expr f lf nm mu sd c0 M Ro lg a opt fo mo fuel stream fl off n s Hlap Ha Hn HN Hsd Hp Hlin Hfo Him Hlf Hfu HM HM1 HM2 HRo HPD Hs Hb Hsa Hr.
  destruct (const_run fmin chol svd inv e0 h expr f lf nm mu sd c0 M Ro lg a opt fo fuel Hlap Ha Hn HN Hsd Hp Hlin Hfo Him Hlf Hfu HM HM1 HM2 HRo HPD) as (T & A & b & c & r & ET & ER & Eu).
  fold n in ET, ER. fold s in ER.
  assert (EM : length (sm_marg s) = n) by (destruct (registry h) as (_ & _ & X & _); unfold s; rewrite X; reflexivity).
  set (s1 := addCallFunction (setModifiedCorrelation s (rows_of n Ro)) c) in *.
  assert (C1 : same_core s s1) by exact (core_trans _ _ _ (core_Ro s _) (core_add _ c)).
  assert (EI1 := init_ok fmin chol svd inv (fb_type a) s M n Ro lg T A HM HM1 HM2 EM HRo ET s1 C1).
  set (s2 := setModifiedCorrelation s1 (rows_of n Ro)) in *.
  assert (C3 : same_core s s2) by exact (core_trans _ _ _ C1 (core_Ro s1 _)).
  assert (EI2 := init_ok fmin chol svd inv (fb_type a) s M n Ro lg T A HM HM1 HM2 EM HRo ET s2 C3).
  exists (mkMb false (fb_type a) n (Some (n, None)) mc_fresh None), s1.
  assert (G : exists a' s', is_run_on fmin chol svd inv expr fo mo None stream fl (mkMb false (fb_type a) n (Some (n, None)) mc_fresh None) s1 off = (a', s', MEnd) /\
    mb_res a' = Some (0, Fin 0) /\ mb_valid a' = true /\ (sm_calls s1 < sm_calls s')%nat).
  { unfold is_run_on. cbn [mb_type]. rewrite EI1. unfold cmc_run_on. cbn [mb_type mb_nrv mb_point]. rewrite EI2. cbv zeta. cbn [setModifiedCorrelation sm_Ro sm_marg].
    destruct (Reqb (mo_stdv mo) 0) eqn:E0; [apply Reqb_spec in E0; contradiction|].
    destruct (Z.ltb_spec (mo_samples mo) 0); [lia|]. destruct (Z.eqb_spec (mo_samples mo) 0); [lia|].
    cbn [centre]. rewrite Nat.eqb_refl. destruct (Z.ltb_spec (mo_block mo) 0); [lia|]. rewrite Hr, rows_length, Nat.eqb_refl. cbn [Z.eqb negb].
    change (sm_marg s2) with (sm_marg s). rewrite EM, Nat.eqb_refl, Hfo. cbn [negb o_multi_proc default_ls Z.eqb].
    destruct (Rleb 1 (mo_target mo)).
    - eexists _, _. split; [reflexivity|]. split; [reflexivity|]. split; [reflexivity|]. cbn. lia.
    - destruct (Z.eqb_spec (mo_block mo) 0); [lia|]. eexists _, _. split; [reflexivity|]. split; [reflexivity|]. split; [reflexivity|]. cbn. lia. }
  destruct G as (a' & s' & G1 & G2). exists a', s'. split; [|split; assumption].
  unfold is_new. rewrite Ha, ER, Eu. unfold cmc_new. rewrite Ha. cbn [rbind]. change (sm_marg s1) with (sm_marg s). rewrite EM. reflexivity.
Qed.
Print Assumptions C101_constant_limit_state.

(** *** R - 3 S with R ~ N(m, 20), S ~ N(40, 5): beta = (m - 120) / 25. *)
Section Ex.
Variables (m : R) (fmin : (R -> R) -> R -> R).
Let hs := h_sorm m.
Lemma ex_matrix : exists Ro lg, computeModifiedCorrelationMatrix fmin 2 2 (mat_of (eye_rows 2)) (fun i => marg_of (marg_at (sm_run hs) i)) = Ok (Ro, lg) /\
  pos_def 2 Ro /\ Ro 0%nat 0%nat = 1 /\ Ro 1%nat 1%nat = 1 /\ Ro 0%nat 1%nat = 0 /\ Ro 1%nat 0%nat = 0.
Proof.
  destruct (modified_ok fmin 2 (mat_of (eye_rows 2)) (fun i => marg_of (marg_at (sm_run hs) i)) 2 (le_n 2)) as (Ro & E & D & S & L & _).
  match type of E with _ = Ok (_, ?x) => set (lg := x) in * end.
  assert (R10 : Ro 1%nat 0%nat = 0).
  { rewrite L by lia. unfold pair_value. unfold mat_of. cbn [nth]. cbn. now rewrite (proj2 (Reqb_spec 0 0) eq_refl). }
  assert (EI : forall i j, (i < 2)%nat -> (j < 2)%nat -> Ro i j = delta i j).
  { intros i j Hi Hj. two i Hi; two j Hj; cbn; rewrite ?D, ?R10; try reflexivity. rewrite (S 0%nat 1%nat), R10. reflexivity. }
  exists Ro, lg. split; [exact E|]. split; [now apply eye_posdef|]. rewrite !D, (S 0%nat 1%nat), R10. auto.
Qed.
Lemma ex_linear q : length q = 2%nat -> g_ex (args_at hs q) = 0 + fsum 2 (fun i => pick 1 (-3) i * nth i q 0).
Proof.
  intros Hq. unfold args_at. change (dists_of (accepted hs)) with [Normal "R" m 20; Normal "S" 40 5]. change (consts_of (accepted hs)) with [("k"%string, 3)].
  destruct q as [|x [|y [|z q]]]; try discriminate. unfold g_ex, lk. cbn. ring.
Qed.
End Ex.

(** The hypotheses can be met. *)
Theorem C101_importance_example : forall fmin stream off m, exists a0 s1 a' s' Pf,
  is_new fmin chol2 svd2 inv2 101 10 expr_ex default_options None None (sm_run (h_sorm m)) = (Ok a0, s1) /\
  is_run_on fmin chol2 svd2 inv2 expr_ex default_options (mkmo 10 4 (/ 20) 1 0) None stream 11 a0 s1 off = (a', s', MEnd) /\
  mb_res a' = Some (Pf, reported_beta Pf) /\ 0 <= Pf /\
  (120 <= m -> Pf <= exp (- (/ 2 * ((m - 120) / 25) ^ 2))).
Proof.
  intros fmin stream off m.
  destruct (ex_matrix m fmin) as (Ro & lg & E & PD & D0 & D1 & R01 & R10).
  destruct (C101_importance_linear fmin chol2 svd2 inv2 ERuntime (h_sorm m) expr_ex g_ex 10 (pick "R" "S")%string (pick m 40) (pick 20 5) (pick 1 (-3)) 0
     (eye_rows 2) Ro lg (mkFobj false "cholesky" None None) None default_options (mkmo 10 4 (/ 20) 1 0) None 101 stream 11 (sm_run (h_sorm m)) off) as (alpha & a0 & s1 & a' & s' & Pf & H);
    change (ndists (h_sorm m)) with 2%nat in *; try exact lapack2; try reflexivity; try exact pointwise_ex; try exact default_exact; try lra; try (cbn; lia); try exact E; try exact PD; try exact (ex_linear m).
  - repeat split.
  - intros i Hi. two i Hi; reflexivity.
  - intros i Hi. two i Hi; cbn; lra.
  - exists 0%nat. split; [lia|]. cbn. lra.
  - intros q Hq. cbn in Hq. destruct Hq as [<-|[<-|[]]]; reflexivity.
  - cbv zeta in H. destruct H as (_ & (u & b & sF & r & _ & _ & _ & _ & H1 & _) & H2 & H3 & _ & _ & H4 & H5 & _).
    set (v := fsum 2 (fun i => fsum 2 (fun j => pick 1 (-3) i * pick 20 5 i * Ro i j * (pick 1 (-3) j * pick 20 5 j)))) in *.
    assert (EV : v = 625) by (unfold v; cbn [fsum pick]; rewrite D0, D1, R01, R10; ring).
    assert (SV : sqrt v = 25) by (rewrite EV; replace 625 with (Rsqr 25) by (unfold Rsqr; ring); apply sqrt_Rsqr; lra).
    assert (EB : (0 + fsum 2 (fun i => pick 1 (-3) i * pick m 40 i)) / sqrt v = (m - 120) / 25) by (rewrite SV; cbn [fsum pick]; field).
    rewrite EB in *. exists a0, s1, a', s', Pf. split; [exact H1|]. split; [exact H2|]. split; [exact H3|]. split; [exact H4|]. intros Hm. apply H5. lra.
Qed.
Print Assumptions C101_importance_example.

(** C101: with a negative index the likelihood ratios are above 1, and one sample may give a probability
    above 1 together with beta = NaN. *)
Theorem C101_importance_above_one_refuted : forall fmin, exists stream a0 s1 a' s' Pf,
  is_new fmin chol2 svd2 inv2 101 10 expr_ex default_options None None (sm_run (h_sorm 50)) = (Ok a0, s1) /\
  is_run_on fmin chol2 svd2 inv2 expr_ex default_options (mkmo 1 1 (/ 20) 1 0) None stream 2 a0 s1 0 = (a', s', MEnd) /\
  mb_res a' = Some (Pf, NaN) /\ 1 < Pf.
Proof.
  intros fmin.
  destruct (ex_matrix 50 fmin) as (Ro & lg & E & PD & D0 & D1 & R01 & R10).
  assert (GEN : forall stream, exists alpha : vec, norm 2 alpha = 1 /\ exists a0 s1 a' s' Pf, let pts := ms_pts (mb_st a') in
     is_new fmin chol2 svd2 inv2 101 10 expr_ex default_options None None (sm_run (h_sorm 50)) = (Ok a0, s1) /\ 
     (exists b sF r, run_form fmin chol2 svd2 inv2 101 10 expr_ex default_options None (mkFobj false "cholesky" None None) (sm_run (h_sorm 50)) = (b, sF, FDone r) /\ form_alpha 2 r = Some alpha) /\
     is_run_on fmin chol2 svd2 inv2 expr_ex default_options (mkmo 1 1 (/ 20) 1 0) None stream 2 a0 s1 0 = (a', s', MEnd) /\
     mb_res a' = Some (Pf, reported_beta Pf) /\
     Pf = lsum (map (fun u => if Rltb (-70/25) (dot 2 alpha u) then exp (/ 2 * (-70/25) ^ 2 - (-70/25) * dot 2 alpha u) else 0) pts) / INR (length pts) /\
     drawn 2 (mkmo 1 1 (/ 20) 1 0) stream (fun i => (-70/25) * alpha i) 0 (ms_blocks (mb_st a')) /\ length pts = 1%nat).
  { intros stream.
    destruct (C101_importance_linear fmin chol2 svd2 inv2 ERuntime (h_sorm 50) expr_ex g_ex 10 (pick "R" "S")%string (pick 50 40) (pick 20 5) (pick 1 (-3)) 0
       (eye_rows 2) Ro lg (mkFobj false "cholesky" None None) None default_options (mkmo 1 1 (/ 20) 1 0) None 101 stream 2 (sm_run (h_sorm 50)) 0) as (alpha & a0 & s1 & a' & s' & Pf & H);
      change (ndists (h_sorm 50)) with 2%nat in *; try exact lapack2; try reflexivity; try exact pointwise_ex; try exact default_exact; try lra; try (cbn; lia); try exact E; try exact PD; try exact (ex_linear 50).
    - repeat split.
    - intros i Hi. two i Hi; reflexivity.
    - intros i Hi. two i Hi; cbn; lra.
    - exists 0%nat. split; [lia|]. cbn. lra.
    - intros q Hq. cbn in Hq. destruct Hq as [<-|[<-|[]]]; reflexivity.
    - cbv zeta in H. destruct H as (NA & (u & b & sF & r & R1 & _ & R2 & _ & H1 & _) & H2 & H3 & _ & HPf & _ & _ & HD & HL & _).
      set (v := fsum 2 (fun i => fsum 2 (fun j => pick 1 (-3) i * pick 20 5 i * Ro i j * (pick 1 (-3) j * pick 20 5 j)))) in *.
      assert (EV : v = 625) by (unfold v; cbn [fsum pick]; rewrite D0, D1, R01, R10; ring).
      assert (SV : sqrt v = 25) by (rewrite EV; replace 625 with (Rsqr 25) by (unfold Rsqr; ring); apply sqrt_Rsqr; lra).
      assert (EB : (0 + fsum 2 (fun i => pick 1 (-3) i * pick 50 40 i)) / sqrt v = -70 / 25) by (rewrite SV; cbn [fsum pick]; field).
      rewrite EB in *. cbn [mo_samples] in HL. exists alpha. split; [exact NA|]. exists a0, s1, a', s', Pf. cbv zeta. split; [exact H1|]. split; [eauto|]. split; [exact H2|]. split; [exact H3|]. split; [exact HPf|]. split; [exact HD|lia]. }
  (* FORM does not depend on the random numbers *)
  destruct (GEN (fun _ => 0)) as (alpha & NA & a0 & s1 & q1 & q2 & q3 & G). cbv zeta in G. destruct G as (GN & (b & sF & r & R1 & R2) & _).
  set (stream := fun k => 10 * alpha k). exists stream.
  destruct (GEN stream) as (alpha' & _ & a0' & s1' & a' & s' & Pf & H). cbv zeta in H. destruct H as (HN & (b' & sF' & r' & R1' & R2') & HR & HP & HPf & HD & HL).
  rewrite R1 in R1'. injection R1' as <- <- <-. rewrite R2 in R2'. injection R2' as <-.
  exists a0', s1', a', s', Pf. split; [exact HN|]. split; [exact HR|].
  assert (NB : exists u, ms_pts (mb_st a') = [u] /\ (forall i, (i < 2)%nat -> u i = (-70/25) * alpha i + 1 * (10 * alpha i))).
  { unfold ms_pts in *. destruct (ms_blocks (mb_st a')) as [|blk bs] eqn:EB; [discriminate|]. destruct (HD 0%nat ltac:(cbn; lia)) as [L1 L2]. cbn in L1, L2.
    destruct blk as [|u [|u2 blk]]; try discriminate. cbn [concat app length] in HL |- *. destruct (concat bs) as [|u2 l]; [|cbn in HL; lia].
    exists u. split; [reflexivity|]. intros i Hi. specialize (L2 0%nat i ltac:(lia) Hi). cbn in L2. rewrite L2. unfold stream. do 4 f_equal. lia. }
  destruct NB as (u & EP & EU). rewrite EP in HPf. cbn [map length INR] in HPf.
  assert (DU : dot 2 alpha u = 180 / 25).
  { rewrite (Base.dot_ext 2 alpha u alpha (fun i => (180 / 25) * alpha i)).
    - rewrite dot_scal_r, <- norm_sqr, NA. field.
    - intros i _. reflexivity.
    - intros i Hi. rewrite (EU i Hi). field. }
  rewrite DU in HPf. rewrite (proj2 (Rltb_spec (-70/25) (180/25)) ltac:(lra)) in HPf.
  set (w := / 2 * (-70/25) ^ 2 - -70/25 * (180/25)) in *. assert (WP : 0 < w) by (unfold w; lra).
  assert (E1 : 1 < exp w) by (rewrite <- exp_0; apply exp_increasing; exact WP).
  assert (EPf : Pf = exp w) by (rewrite HPf; unfold lsum; cbn; field). 
  split; [|lra]. rewrite HP. do 2 f_equal. unfold reported_beta. rewrite (proj2 (Rltb_spec 0 Pf) ltac:(lra)). unfold xppf.
  destruct (Rltb Pf 0) eqn:C; [apply Rltb_spec in C; lra|]. rewrite (proj2 (Rltb_spec 1 Pf) ltac:(lra)). reflexivity.
Qed.
Print Assumptions C101_importance_above_one_refuted.
