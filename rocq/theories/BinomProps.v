(** C133: the distribution of what Monte Carlo simulation reports. *)
From Coquelicot Require Import Coquelicot.
From Verif Require Import Base Ext Gauss GaussProofs StochModel StochModelSpec StochModelProofs LimitState LimitStateSpec LimitStateProofs LimitStateProps Transf TransfSpec TransfProofs Form FormProofs FormAffineProofs FormNormalProofs FormProps Nataf NatafProofs Dist RotSpec RotProps Pipe PipeSpec SensSpec PipeProofs PipeProps Sorm SormRunProofs SormRunProps Mc McSpec McProofs McRunProofs McProps McRun LsRunProofs LsRunProps McRunOnSpec McRunOnProofs McRunOnProps MomSpec MomProofs McBiasSpec McBiasProofs McBiasProps McBiasLinProofs McBiasLinProps FormBoundSpec FormBoundProofs BinomSpec BinomProofs.
From Coq Require Import Lra Lia ZArith FunctionalExtensionality.
Open Scope R_scope.

Lemma unit_mean m (E : (nat -> R) -> bool) q : is_mean m (fun z => if E z then 1 else 0) q -> 0 <= q <= 1.
Proof.
  intros H. split.
  - apply (mean_le m (fun _ => 0) (fun z => if E z then 1 else 0)); [intros z; destruct (E z); lra|apply mean_const|exact H].
  - apply (mean_le m (fun z => if E z then 1 else 0) (fun _ => 1)); [intros z; destruct (E z); lra|exact H|apply mean_const].
Qed.

(** the probability that a sampled point fails *)
Lemma point_mean n o p (g : vec -> R) q : 0 < mo_stdv o ->
  is_integral n (fun u => if Rltb (g u) 0 then sampling_density n p (mo_stdv o) u else 0) q ->
  is_mean n (fun z => if Rltb (g (fun i => p i + mo_stdv o * z i)) 0 then 1 else 0) q.
Proof.
  intros Hs H. apply int_mean. refine (int_ext n _ _ _ _ (int_affine (mo_stdv o) Hs n p _ _ H)). intros z. cbn beta.
  rewrite <- (samp_affine n o p Hs z). destruct (Rltb _ 0); ring.
Qed.
Lemma crude_density n u : sampling_density n (setPoint None) 1 u = joint_density n u.
Proof. unfold sampling_density, joint_density. cbn [setPoint]. f_equal. apply map_ext. intros i. replace ((u i - 0) / 1) with (u i) by field. field. Qed.

Lemma nfail_le g l : (nfail g l <= length l)%nat.
Proof. induction l as [|a l IH]; cbn [nfail length]; [lia|]. destruct (Rltb (g a) 0); lia. Qed.

(** C133: crude Monte Carlo on a limit state with failure probability v, where the run
    cannot stop early: the number K of failing points is binomial, N trials with
    probability v; K/N is reported. *)
Theorem C133_failures_binomial : forall n o tox Gof g prev off pre v,
  (forall us, Gof us = Ok (map g us)) -> reads n g ->
  mo_stdv o = 1 -> (0 < mo_block o)%Z -> (0 < mo_samples o)%Z -> mo_rg o = 0%Z ->
  mo_target o <= 0 \/ (mo_samples o <= mo_block o)%Z ->
  is_integral n (fun u => if Rltb (g u) 0 then joint_density n u else 0) v ->
  let N := Z.to_nat (mo_samples o) in
  exists K : (nat -> R) -> nat,
    (forall z, exists st, mc_run n o (from off pre z) (setPoint None) tox Gof (S N) prev off = MDone st /\
       length (ms_pts st) = N /\ nfail g (ms_pts st) = K z /\ mc_Pf st = INR (K z) / INR N) /\
    forall h : nat -> R, is_mean (n * N) (fun z => h (K z)) (binomial_mean N v h).
Proof.
  intros n o tox Gof g prev off pre v HG Hg Hs Hb HN Hr Hx HI N. exists (K n o (setPoint None) g). split.
  - intros z. destruct (C28_terminates n o (from off pre z) (setPoint None) tox Gof g prev off (S N) HG Hb HN Hr ltac:(unfold N; lia)) as (st & E). exists st.
    pose proof (all_used n o (setPoint None) tox Gof g prev off pre HG Hb HN Hx z _ st E) as KN.
    pose proof (nfail_cnt n o (setPoint None) tox Gof g prev off pre HG Hg Hb HN z _ st E KN) as F.
    destruct (C28_crude_estimate n o _ tox Gof g prev off _ st HG Hs Hb E) as (K1 & _ & P & _).
    assert (L : length (ms_pts st) = N) by (unfold N; lia). rewrite L, F in P. repeat split; assumption.
  - intros h. apply K_mean; try assumption. apply point_mean; [lra|]. rewrite Hs. refine (int_ext n _ _ _ _ HI). intros u. cbn beta. rewrite crude_density. reflexivity.
Qed.
Print Assumptions C133_failures_binomial.

(** C133: the probability that the reported value is off by eps or more is at most
    v(1-v)/(N eps^2). *)
Theorem C133_accuracy : forall n o tox Gof g prev off pre v,
  (forall us, Gof us = Ok (map g us)) -> reads n g ->
  mo_stdv o = 1 -> (0 < mo_block o)%Z -> (0 < mo_samples o)%Z -> mo_rg o = 0%Z ->
  mo_target o <= 0 \/ (mo_samples o <= mo_block o)%Z ->
  is_integral n (fun u => if Rltb (g u) 0 then joint_density n u else 0) v ->
  let N := Z.to_nat (mo_samples o) in
  exists Pf : (nat -> R) -> R,
    (forall z, exists st, mc_run n o (from off pre z) (setPoint None) tox Gof (S N) prev off = MDone st /\ mc_Pf st = Pf z) /\
    forall eps, 0 < eps -> exists q, is_mean (n * N) (fun z => if Rleb eps (Rabs (Pf z - v)) then 1 else 0) q /\ 0 <= q <= v * (1 - v) / (INR N * eps ^ 2).
Proof.
  intros n o tox Gof g prev off pre v HG Hg Hs Hb HN Hr Hx HI N.
  destruct (C133_failures_binomial n o tox Gof g prev off pre v HG Hg Hs Hb HN Hr Hx HI) as (K & E & D). fold N in E, D.
  destruct (C111_crude_variance n o tox Gof g prev off pre v HG Hg Hs Hb HN Hr Hx HI) as (Pf & E' & _ & V & _). fold N in E', V.
  assert (Q : forall z, Pf z = INR (K z) / INR N). { intros z. destruct (E z) as (st & E1 & _ & _ & P), (E' z) as (st' & E2 & P'). rewrite E1 in E2. injection E2 as <-. congruence. }
  exists Pf. split; [exact E'|]. intros eps He. pose proof (D (fun k => if Rleb eps (Rabs (INR k / INR N - v)) then 1 else 0)) as M. cbn beta in M.
  assert (M' : is_mean (n * N) (fun z => if Rleb eps (Rabs (Pf z - v)) then 1 else 0) (binomial_mean N v (fun k => if Rleb eps (Rabs (INR k / INR N - v)) then 1 else 0))).
  { refine (mean_ext _ _ _ _ _ M). intros z. cbn beta. rewrite (Q z). reflexivity. }
  eexists. split; [exact M'|].
  split; [exact (proj1 (unit_mean _ (fun z => Rleb eps (Rabs (Pf z - v))) _ M'))|].
  assert (NP : 0 < INR N) by (apply (lt_INR 0); unfold N; lia).
  replace (v * (1 - v) / (INR N * eps ^ 2)) with (/ eps ^ 2 * (v * (1 - v) / INR N)) by (field; lra).
  refine (mean_le (n * N) _ _ _ _ _ M' (mean_scal _ (/ eps ^ 2) _ _ V)). intros z. cbn beta. assert (P2 : 0 < eps ^ 2) by (apply pow_lt; exact He).
  destruct (Rleb eps (Rabs (Pf z - v))) eqn:C.
  - apply Rleb_spec in C. assert (eps ^ 2 <= (Pf z - v) ^ 2). { rewrite <- (pow2_abs (Pf z - v)). apply pow_incr. lra. }
    apply (Rmult_le_reg_l (eps ^ 2)); [exact P2|]. rewrite <- Rmult_assoc, Rinv_r by lra. lra.
  - apply Rmult_le_pos; [left; apply Rinv_0_lt_compat; exact P2|apply pow2_ge_0].
Qed.
Print Assumptions C133_accuracy.

Lemma bernoulli q N : 0 <= q <= 1 -> 1 - INR N * q <= (1 - q) ^ N <= exp (- (INR N * q)).
Proof.
  intros Hq. split.
  - induction N as [|N IH]; [cbn; lra|]. rewrite S_INR. cbn [pow]. pose proof (pos_INR N). assert (0 <= INR N * q * q) by (apply Rmult_le_pos; [apply Rmult_le_pos|]; lra).
    assert ((1 - q) * (1 - INR N * q) <= (1 - q) * (1 - q) ^ N) by (apply Rmult_le_compat_l; lra). nra.
  - induction N as [|N IH]; [cbn; rewrite Rmult_0_l, Ropp_0, exp_0; lra|]. rewrite S_INR. cbn [pow]. replace (- ((INR N + 1) * q)) with (- q + - (INR N * q)) by ring. rewrite exp_plus.
    apply Rmult_le_compat; [lra|apply pow_le; lra| |exact IH]. pose proof (exp_ineq1_le (- q)). lra.
Qed.

(** C133: with any block size and any target below 1 (default 0.05), crude or importance
    sampling, with q the probability that one sampled point fails: the run reports 0 as
    the probability of failure, and 0 as the reliability index, with probability
    (1-q)^N, between 1 - N q and exp(-N q). *)
Theorem C133_nothing_found : forall n o p tox Gof g prev off pre q,
  (forall us, Gof us = Ok (map g us)) -> reads n g ->
  0 < mo_stdv o -> (0 < mo_block o)%Z -> (0 < mo_samples o)%Z -> mo_rg o = 0%Z -> mo_target o < 1 ->
  is_integral n (fun u => if Rltb (g u) 0 then sampling_density n p (mo_stdv o) u else 0) q ->
  let N := Z.to_nat (mo_samples o) in
  exists Pf : (nat -> R) -> R,
    (forall z, exists st, mc_run n o (from off pre z) p tox Gof (S N) prev off = MDone st /\ mc_Pf st = Pf z /\ (Pf z = 0 -> mc_beta st = Fin 0)) /\
    is_mean (n * N) (fun z => if Reqb (Pf z) 0 then 1 else 0) ((1 - q) ^ N) /\
    1 - INR N * q <= (1 - q) ^ N <= exp (- (INR N * q)).
Proof.
  intros n o p tox Gof g prev off pre q HG Hg Hs Hb HN Hr Ht HI N. pose proof (point_mean n o p g q Hs HI) as HM.
  set (Pf := fun z : nat -> R => match mc_run n o (from off pre z) p tox Gof (S N) prev off with MDone st => mc_Pf st | _ => 0 end).
  assert (T : forall z, exists st, mc_run n o (from off pre z) p tox Gof (S N) prev off = MDone st /\ mc_Pf st = Pf z).
  { intros z. destruct (C28_terminates n o (from off pre z) p tox Gof g prev off (S N) HG Hb HN Hr ltac:(unfold N; lia)) as (st & E). exists st. split; [exact E|]. unfold Pf. rewrite E. reflexivity. }
  exists Pf. split; [|split].
  - intros z. destruct (T z) as (st & E & P). exists st. split; [exact E|]. split; [exact P|]. intros Z0. rewrite Z0 in P.
    destruct (run_Pf n o (from off pre z) p tox Gof g HG prev off _ st Hb Hs E) as [P1 _]. destruct (run_inv n o (from off pre z) p tox Gof g HG prev off _ st Hb E) as (I & Kp & _). destruct I as [_ _ _ I4 _ _ _ _].
    assert (KR : 0 < IZR (ms_k st)) by (apply (IZR_lt 0); exact Kp).
    unfold mc_beta. destruct (Rltb 0 (ms_sum_q st)) eqn:C; [|reflexivity]. apply Rltb_spec in C. exfalso. rewrite I4 in C. rewrite P in P1. unfold Rdiv in P1. assert (0 < lsum (map (w n o p g) (ms_pts st)) * / IZR (ms_k st)) by (apply Rmult_lt_0_compat; [exact C|apply Rinv_0_lt_compat; exact KR]). lra.
  - pose proof (K_mean n o p g Hg Hb HN q (fun k => match k with O => 1 | S _ => 0 end) HM) as M. rewrite <- Bm_sum, Bm_zero in M. refine (mean_ext _ _ _ _ _ M). intros z. cbn beta.
    destruct (T z) as (st & E & P). pose proof (nothing_found n o p tox Gof g prev off pre HG Hg Hs Hb HN z _ st Ht E) as Q. rewrite P in Q.
    unfold Reqb. destruct (Req_EM_T (Pf z) 0) as [Z0|Z0].
    + rewrite (proj1 Q Z0). reflexivity.
    + destruct (K n o p g z) eqn:KZ; [|reflexivity]. elim Z0. apply Q. reflexivity.
  - apply bernoulli. exact (unit_mean _ (fun z => Rltb (g (fun i => p i + mo_stdv o * z i)) 0) _ HM).
Qed.
Print Assumptions C133_nothing_found.

(** the options of a new AnalysisOptions (src/pystra/analysis.py:153, 210-237) *)
Definition default_o : mc_opts := mkmo 100000 1000 (5 / 100) 1 0.

(** C133: with the default options every crude run on a limit state with failure
    probability at most 5e-6 has an even chance or worse of reporting failure
    probability 0 and reliability index 0. *)
Theorem C133_default_options : forall n tox Gof g prev off pre v,
  (forall us, Gof us = Ok (map g us)) -> reads n g ->
  is_integral n (fun u => if Rltb (g u) 0 then joint_density n u else 0) v -> v <= 5 / 1000000 ->
  let N := Z.to_nat 100000 in
  exists Pf : (nat -> R) -> R,
    (forall z, exists st, mc_run n default_o (from off pre z) (setPoint None) tox Gof (S N) prev off = MDone st /\ mc_Pf st = Pf z /\ (Pf z = 0 -> mc_beta st = Fin 0)) /\
    exists q, is_mean (n * N) (fun z => if Reqb (Pf z) 0 then 1 else 0) q /\ 1 / 2 <= q.
Proof.
  intros n tox Gof g prev off pre v HG Hg HI Hv N.
  destruct (C133_nothing_found n default_o (setPoint None) tox Gof g prev off pre v HG Hg) as (Pf & E & M & L & _); try (cbn; lra || reflexivity).
  - refine (int_ext n _ _ _ _ HI). intros u. cbn beta. cbn [mo_stdv default_o]. rewrite crude_density. reflexivity.
  - change (Z.to_nat (mo_samples default_o)) with N in *. exists Pf. split; [exact E|]. exists ((1 - v) ^ N). split; [exact M|].
    assert (NI : INR N = 100000). { unfold N. rewrite INR_IZR_INZ, Z2Nat.id by lia. reflexivity. } rewrite NI in L. lra.
Qed.
Print Assumptions C133_default_options.

(** C133: importance sampling of an affine limit state around its design point, whatever
    its reliability index: every sampled point fails with probability 1/2, so that
    nothing is found with probability 2^-N. *)
Theorem C133_importance_linear : forall n o tox Gof alpha beta prev off pre,
  norm n alpha = 1 -> let g := fun u => beta - dot n alpha u in
  (forall us, Gof us = Ok (map g us)) ->
  0 < mo_stdv o -> (0 < mo_block o)%Z -> (0 < mo_samples o)%Z -> mo_rg o = 0%Z -> mo_target o < 1 ->
  let N := Z.to_nat (mo_samples o) in
  exists Pf : (nat -> R) -> R,
    (forall z, exists st, mc_run n o (from off pre z) (fun i => beta * alpha i) tox Gof (S N) prev off = MDone st /\ mc_Pf st = Pf z) /\
    is_mean (n * N) (fun z => if Reqb (Pf z) 0 then 1 else 0) ((1 / 2) ^ N).
Proof.
  intros n o tox Gof alpha beta prev off pre NA g HG Hs Hb HN Hr Ht N.
  assert (Hg : reads n g). { intros u v H. unfold g. f_equal. apply Base.dot_ext; [intros i _; reflexivity|exact H]. }
  set (p := fun i => beta * alpha i : R).
  assert (HM : is_mean n (fun z => if Rltb (g (fun i => p i + mo_stdv o * z i)) 0 then 1 else 0) (1 / 2)).
  { pose proof (half_open n alpha 0 NA) as HO. rewrite Ropp_0, Phi_0 in HO. refine (mean_ext _ _ _ _ _ HO). intros z. cbn beta.
    assert (Q : g (fun i => p i + mo_stdv o * z i) = - (mo_stdv o * dot n alpha z)).
    { unfold g, p. assert (A1 : dot n alpha alpha = 1). { unfold norm in NA. rewrite <- (sqrt_sqrt (dot n alpha alpha)) by (apply dot_self_nonneg). rewrite NA. ring. }
      assert (D : dot n alpha (fun i => beta * alpha i + mo_stdv o * z i) = beta * dot n alpha alpha + mo_stdv o * dot n alpha z).
      { unfold dot. clear. induction n as [|m IH]; cbn [fsum]; [ring|]. rewrite IH. ring. }
      rewrite D, A1. ring. }
    rewrite Q. destruct (Rltb 0 (dot n alpha z)) eqn:C1, (Rltb (- (mo_stdv o * dot n alpha z)) 0) eqn:C2; try reflexivity; exfalso.
    - apply Rltb_spec in C1. apply Rltb_false in C2. nra.
    - apply Rltb_false in C1. apply Rltb_spec in C2. nra. }
  pose proof (K_mean n o p g Hg Hb HN _ (fun k => match k with O => 1 | S _ => 0 end) HM) as M. rewrite <- Bm_sum, Bm_zero in M. replace (1 - 1 / 2) with (1 / 2) in M by field.
  exists (fun z : nat -> R => match mc_run n o (from off pre z) p tox Gof (S N) prev off with MDone st => mc_Pf st | _ => 0 end).
  assert (T : forall z, exists st, mc_run n o (from off pre z) p tox Gof (S N) prev off = MDone st) by (intros z; apply (C28_terminates n o (from off pre z) p tox Gof g prev off (S N) HG Hb HN Hr); unfold N; lia).
  split; [intros z; destruct (T z) as (st & E); exists st; rewrite E; split; reflexivity|].
  refine (mean_ext _ _ _ _ _ M). intros z. cbn beta. destruct (T z) as (st & E). rewrite E.
  pose proof (nothing_found n o p tox Gof g prev off pre HG Hg Hs Hb HN z _ st Ht E) as Q. unfold Reqb. destruct (Req_EM_T (mc_Pf st) 0) as [Z0|Z0].
  + rewrite (proj1 Q Z0). reflexivity.
  + destruct (K n o p g z) eqn:KZ; [|reflexivity]. elim Z0. apply Q. reflexivity.
Qed.
Print Assumptions C133_importance_linear.

(** C133 for an analysis object: any variables, correlation and pointwise limit state, an
    object with any history, any sampling centre, and [off] numbers [pre] consumed before
    the run; the run may stop early. *)
Theorem C133_analysis : forall fmin chol svd inv h expr f fo mo evn a s s1 T A M p off pre q,
  let n := ndists h in let N := Z.to_nat (mo_samples mo) in
  let g := fun u => f (args_at h (vlist n (u_to_x n A (marg_at s) u))) in
  same_problem (sm_run h) s ->
  init_run_full fmin chol svd inv (mb_type a) s = (s1, Ok (T, A)) -> sm_Ro s1 = Some M -> length M = n ->
  mb_nrv a = n -> point_of a = (n, Some p) -> (1 <= n)%nat -> pointwise expr f ->
  o_multi_proc (fo_ls fo) <> 0%Z -> (1 <= o_block_size (fo_ls fo))%Z ->
  0 < mo_stdv mo -> (0 < mo_block mo)%Z -> (0 < mo_samples mo)%Z -> mo_rg mo = 0%Z -> mo_target mo < 1 ->
  is_integral n (fun u => if Rltb (g u) 0 then sampling_density n p (mo_stdv mo) u else 0) q ->
  exists Pf : (nat -> R) -> R,
    (forall z, exists a' s', cmc_run_on fmin chol svd inv expr fo mo evn (from off pre z) (S N) a s off = (a', s', MEnd) /\ mb_res a' = Some (Pf z, reported_beta (Pf z))) /\
    is_mean (n * N) (fun z => if Reqb (Pf z) 0 then 1 else 0) ((1 - q) ^ N) /\
    1 - INR N * q <= (1 - q) ^ N <= exp (- (INR N * q)).
Proof.
  intros fmin chol svd inv h expr f fo mo evn a s s1 T A M p off pre q n N g HC EI ERo EMl En EP Hn Hp Hm Hbl Hs Hb Hsa Hrg Ht HI.
  assert (EM0 : length (sm_marg (sm_run h)) = n) by (destruct (registry h) as (_ & _ & X & _); rewrite X; reflexivity).
  assert (EM : length (sm_marg s) = n) by exact (core_len _ n EM0 s HC).
  set (Gof := mc_limit_state s expr (fo_ls fo) n A (marg_at s)).
  assert (HG : forall us, Gof us = Ok (map g us)).
  { intros us. unfold Gof. rewrite (limit_core _ s _ _ _ _ _ us HC). apply mc_limit_state_ok; assumption. }
  destruct (C133_nothing_found n mo p (u_to_x n A (marg_at s)) Gof g (mb_st a) off pre q HG (point_reads h A (marg_at s) f) Hs Hb Hsa Hrg Ht HI) as (Pf & HR & H1).
  exists Pf. split; [|exact H1]. intros z. destruct (HR z) as (st & ER & EPf & _). fold N in ER.
  pose proof (C101_run_composition fmin chol svd inv expr fo mo evn (from off pre z) (S N) a s s1 T A M n p off EI ERo EMl EM En EP ltac:(lra)) as H. fold Gof in H. rewrite ER in H. destruct H as (c & _ & E).
  destruct (C101_estimate fmin chol svd inv h expr f fo mo evn (from off pre z) (S N) a s s1 T A M p off HC EI ERo EMl En EP Hn Hp Hm Hbl Hs Hb Hsa Hrg ltac:(unfold N; lia)) as (a' & s' & P' & Q). cbv zeta in Q. destruct Q as (E' & R' & _).
  exists a', s'. split; [exact E'|]. rewrite R'. rewrite E in E'. injection E' as <- _. cbn [mb_res] in R'. injection R' as Q1 _. rewrite <- Q1, EPf. reflexivity.
Qed.
Print Assumptions C133_analysis.

(** C133, a linear function of (correlated) normal variables: crude Monte Carlo reports 0
    with probability Phi(beta)^N, beta being FORM's reliability index. *)
Theorem C133_linear_normal :
  forall fmin chol svd inv e0 h expr f lf nm (mu sd cf : vec) c0 M Ro log a opt fo mo evn fuel s off pre,
  let n := ndists h in
  lapack n chol svd inv e0 -> cmc_new opt None s = Ok a -> same_problem (sm_run h) s -> (1 <= n)%nat ->
  (forall i, (i < n)%nat -> nth_error (dists_of (accepted h)) i = Some (Normal (nm i) (mu i) (sd i))) ->
  (forall i, (i < n)%nat -> sd i <> 0) -> (exists i, (i < n)%nat /\ cf i <> 0) ->
  pointwise expr f -> (forall q, length q = n -> f (args_at h q) = c0 + fsum n (fun i => cf i * nth i q 0)) ->
  exact_options fo -> (n + 7 < lf)%nat -> (Z.to_nat (fo_imax fo) < fuel)%nat ->
  sm_corr (sm_run h) = Some M -> length M = n -> (forall r, In r M -> length r = n) ->
  computeModifiedCorrelationMatrix fmin n n (mat_of M) (fun i => marg_of (marg_at (sm_run h) i)) = Ok (Ro, log) -> pos_def n Ro ->
  mo_stdv mo = 1 -> (0 < mo_block mo)%Z -> (0 < mo_samples mo)%Z -> mo_rg mo = 0%Z ->
  mo_target mo < 1 ->
  let mean := c0 + fsum n (fun i => cf i * mu i) in
  let variance := fsum n (fun i => fsum n (fun j => (cf i * sd i) * Ro i j * (cf j * sd j))) in
  let beta := mean / sqrt variance in let N := Z.to_nat (mo_samples mo) in
  (exists b sF r, run_form fmin chol svd inv fuel lf expr fo evn (mkFobj false (mb_type a) None None) (sm_run h) = (b, sF, FDone r) /\ form_beta n r = Fin beta) /\
  exists Pf : (nat -> R) -> R,
    (forall z, exists a' s', cmc_run_on fmin chol svd inv expr fo mo evn (from off pre z) (S N) a s off = (a', s', MEnd) /\ mb_res a' = Some (Pf z, reported_beta (Pf z))) /\
    is_mean (n * N) (fun z => if Reqb (Pf z) 0 then 1 else 0) (Phi beta ^ N).
Proof.
  intros fmin chol svd inv e0 h expr f lf nm mu sd cf c0 M Ro lg a opt fo mo evn fuel s off pre n Hlap Hnew HC Hn HN Hsd Hcf Hp Hlin Hfo Hlf Hfu HM HM1 HM2 HRo HPD Hs Hb Hsa Hrg Ht mean variance beta N.
  unfold cmc_new in Hnew. destruct (form_init opt) as [a0|] eqn:Ha; [|discriminate]. cbn [rbind] in Hnew. injection Hnew as <-. cbn [mb_type].
  assert (EaF : mkFobj false (fb_type a0) None None = a0). { unfold form_init in Ha. destruct (mkTransformation opt); [|discriminate]. cbn in Ha. injection Ha as <-. reflexivity. }
  rewrite EaF.
  destruct (lin_run fmin chol svd inv e0 h expr f lf nm mu sd cf c0 M Ro lg a0 opt fo evn fuel Hlap Ha Hn HN Hsd Hcf Hp Hlin Hfo Hlf Hfu HM HM1 HM2 HRo HPD)
    as (T & A & b & c & r & u & H). cbv zeta in H. fold n in H. fold mean variance in H. fold beta in H.
  set (av := fun j => - fsum n (fun i => cf i * sd i * A i j)) in *.
  destruct H as (ER & ETA & ERes & Eu & E0 & EG & AL & HU & EB & ET & HT & HF & EN & VP & EM & EA).
  destruct (ln_all fmin chol svd inv e0 h expr f lf nm mu sd cf c0 M Ro lg a0 opt Hlap Ha Hn HN Hsd Hp Hlin Hlf HRo HPD) as (T' & A' & ET' & EN' & _ & ETr).
  cbv zeta in ETr. fold n in ETr, ET'. change (ln_b h mu cf c0) with mean in ETr. rewrite ET in ET'. injection ET' as <- <-. fold av in ETr.
  split; [exists b, (addCallFunction (setModifiedCorrelation (sm_run h) (rows_of n Ro)) c), r; split; [exact ER|exact EB]|].
  assert (SV := sqrt_lt_R0 _ VP). assert (SQ := sqrt_sqrt variance ltac:(lra)).
  set (alpha := alpha_of n (fr_grad r)) in *.
  assert (NA : norm n alpha = 1). { apply (alpha_unit n av alpha); [rewrite EN; exact AL|rewrite EN; lra]. }
  assert (EI := init_ok fmin chol svd inv (fb_type a0) (sm_run h) M n Ro lg T A HM HM1 HM2 EM HRo ET s HC).
  assert (FR : forall u', Rltb (f (args_at h (vlist n (u_to_x n A (marg_at s) u')))) 0 = Rltb beta (dot n alpha u')).
  { intros u'. unfold n at 1 2. rewrite (lin_value h expr f lf A s av mean u' Hp Hn ltac:(lia) HC ETr). fold n.
    assert (E1 : mean - dot n av u' = sqrt variance * (beta - dot n alpha u')).
    { rewrite (Base.dot_ext n alpha u' (fun i => / sqrt variance * av i) u').
      - rewrite dot_scal_l. unfold beta. field. lra.
      - intros i Hi. rewrite (AL i Hi). unfold Rdiv. ring.
      - intros i _. reflexivity. }
    rewrite E1. destruct (Rltb beta (dot n alpha u')) eqn:EC.
    - apply Rltb_spec in EC. apply Rltb_spec. nra.
    - apply Rltb_false in EC. apply Rltb_false. nra. }
  assert (HI := half_integral n alpha beta NA).
  destruct (C133_analysis fmin chol svd inv h expr f fo mo evn (mkMb false (fb_type a0) (length (sm_marg s)) None mc_fresh None) s _ T A (rows_of n Ro) (fun _ => 0) off pre (Phi (- beta)) HC EI eq_refl (rows_length n Ro))
    as (Pf & H1 & H2 & _); try assumption.
  - exact (core_len _ n EM s HC).
  - unfold point_of. cbn [mb_point mb_nrv]. now rewrite (core_len _ n EM s HC).
  - rewrite (proj1 Hfo). discriminate.
  - rewrite (proj1 Hfo). cbn. lia.
  - lra.
  - refine (int_ext n _ _ _ _ HI). intros u'. cbn beta. fold n. rewrite FR, Hs. rewrite <- (crude_density n u'). reflexivity.
  - fold n N in H1, H2. exists Pf. split; [exact H1|]. replace (Phi beta) with (1 - Phi (- beta)) by (rewrite Phi_opp; ring). exact H2.
Qed.
Print Assumptions C133_linear_normal.

(** C133 for an analysis object, crude Monte Carlo that cannot stop early: the reported
    probability is K/N and the reported index follows from it, K being binomial. *)
Theorem C133_analysis_distribution : forall fmin chol svd inv h expr f fo mo evn a s s1 T A M off pre v,
  let n := ndists h in let N := Z.to_nat (mo_samples mo) in
  let g := fun u => f (args_at h (vlist n (u_to_x n A (marg_at s) u))) in
  same_problem (sm_run h) s ->
  init_run_full fmin chol svd inv (mb_type a) s = (s1, Ok (T, A)) -> sm_Ro s1 = Some M -> length M = n ->
  mb_nrv a = n -> point_of a = (n, Some (setPoint None)) -> (1 <= n)%nat -> pointwise expr f ->
  o_multi_proc (fo_ls fo) <> 0%Z -> (1 <= o_block_size (fo_ls fo))%Z ->
  mo_stdv mo = 1 -> (0 < mo_block mo)%Z -> (0 < mo_samples mo)%Z -> mo_rg mo = 0%Z -> 
  mo_target mo <= 0 \/ (mo_samples mo <= mo_block mo)%Z ->
  is_integral n (fun u => if Rltb (g u) 0 then joint_density n u else 0) v ->
  exists K : (nat -> R) -> nat,
    (forall z, exists a' s', cmc_run_on fmin chol svd inv expr fo mo evn (from off pre z) (S N) a s off = (a', s', MEnd) /\ mb_res a' = Some (INR (K z) / INR N, reported_beta (INR (K z) / INR N))) /\
    forall h : nat -> R, is_mean (n * N) (fun z => h (K z)) (binomial_mean N v h).
Proof.
  intros fmin chol svd inv h expr f fo mo evn a s s1 T A M off pre v n N g HC EI ERo EMl En EP Hn Hp Hm Hbl Hs Hb Hsa Hrg Hx HI.
  assert (EM0 : length (sm_marg (sm_run h)) = n) by (destruct (registry h) as (_ & _ & X & _); rewrite X; reflexivity).
  assert (EM : length (sm_marg s) = n) by exact (core_len _ n EM0 s HC).
  set (Gof := mc_limit_state s expr (fo_ls fo) n A (marg_at s)).
  assert (HG : forall us, Gof us = Ok (map g us)).
  { intros us. unfold Gof. rewrite (limit_core _ s _ _ _ _ _ us HC). apply mc_limit_state_ok; assumption. }
  destruct (C133_failures_binomial n mo (u_to_x n A (marg_at s)) Gof g (mb_st a) off pre v HG (point_reads h A (marg_at s) f) Hs Hb Hsa Hrg Hx HI) as (K & HR & H1).
  exists K. split; [|exact H1]. intros z. destruct (HR z) as (st & ER & _ & _ & EPf). fold N in ER.
  pose proof (C101_run_composition fmin chol svd inv expr fo mo evn (from off pre z) (S N) a s s1 T A M n (setPoint None) off EI ERo EMl EM En EP ltac:(lra)) as H. fold Gof in H. rewrite ER in H. destruct H as (c & _ & E).
  destruct (C101_estimate fmin chol svd inv h expr f fo mo evn (from off pre z) (S N) a s s1 T A M (setPoint None) off HC EI ERo EMl En EP Hn Hp Hm Hbl ltac:(lra) Hb Hsa Hrg ltac:(unfold N; lia)) as (a' & s' & P' & Q). cbv zeta in Q. destruct Q as (E' & R' & _).
  exists a', s'. split; [exact E'|]. rewrite R'. rewrite E in E'. injection E' as <- _. cbn [mb_res] in R'. injection R' as Q1 _. rewrite <- Q1, EPf. reflexivity.
Qed.
Print Assumptions C133_analysis_distribution.

(** C133, a linear function of (correlated) normal variables: K is binomial with
    probability Phi(-beta), beta being FORM's reliability index. *)
Theorem C133_linear_distribution :
  forall fmin chol svd inv e0 h expr f lf nm (mu sd cf : vec) c0 M Ro log a opt fo mo evn fuel s off pre,
  let n := ndists h in
  lapack n chol svd inv e0 -> cmc_new opt None s = Ok a -> same_problem (sm_run h) s -> (1 <= n)%nat ->
  (forall i, (i < n)%nat -> nth_error (dists_of (accepted h)) i = Some (Normal (nm i) (mu i) (sd i))) ->
  (forall i, (i < n)%nat -> sd i <> 0) -> (exists i, (i < n)%nat /\ cf i <> 0) ->
  pointwise expr f -> (forall q, length q = n -> f (args_at h q) = c0 + fsum n (fun i => cf i * nth i q 0)) ->
  exact_options fo -> (n + 7 < lf)%nat -> (Z.to_nat (fo_imax fo) < fuel)%nat ->
  sm_corr (sm_run h) = Some M -> length M = n -> (forall r, In r M -> length r = n) ->
  computeModifiedCorrelationMatrix fmin n n (mat_of M) (fun i => marg_of (marg_at (sm_run h) i)) = Ok (Ro, log) -> pos_def n Ro ->
  mo_stdv mo = 1 -> (0 < mo_block mo)%Z -> (0 < mo_samples mo)%Z -> mo_rg mo = 0%Z ->
  mo_target mo <= 0 \/ (mo_samples mo <= mo_block mo)%Z ->
  let mean := c0 + fsum n (fun i => cf i * mu i) in
  let variance := fsum n (fun i => fsum n (fun j => (cf i * sd i) * Ro i j * (cf j * sd j))) in
  let beta := mean / sqrt variance in let N := Z.to_nat (mo_samples mo) in
  (exists b sF r, run_form fmin chol svd inv fuel lf expr fo evn (mkFobj false (mb_type a) None None) (sm_run h) = (b, sF, FDone r) /\ form_beta n r = Fin beta) /\
  exists K : (nat -> R) -> nat,
    (forall z, exists a' s', cmc_run_on fmin chol svd inv expr fo mo evn (from off pre z) (S N) a s off = (a', s', MEnd) /\ mb_res a' = Some (INR (K z) / INR N, reported_beta (INR (K z) / INR N))) /\
    forall h : nat -> R, is_mean (n * N) (fun z => h (K z)) (binomial_mean N (Phi (- beta)) h).
Proof.
  intros fmin chol svd inv e0 h expr f lf nm mu sd cf c0 M Ro lg a opt fo mo evn fuel s off pre n Hlap Hnew HC Hn HN Hsd Hcf Hp Hlin Hfo Hlf Hfu HM HM1 HM2 HRo HPD Hs Hb Hsa Hrg Hx mean variance beta N.
  unfold cmc_new in Hnew. destruct (form_init opt) as [a0|] eqn:Ha; [|discriminate]. cbn [rbind] in Hnew. injection Hnew as <-. cbn [mb_type].
  assert (EaF : mkFobj false (fb_type a0) None None = a0). { unfold form_init in Ha. destruct (mkTransformation opt); [|discriminate]. cbn in Ha. injection Ha as <-. reflexivity. }
  rewrite EaF.
  destruct (lin_run fmin chol svd inv e0 h expr f lf nm mu sd cf c0 M Ro lg a0 opt fo evn fuel Hlap Ha Hn HN Hsd Hcf Hp Hlin Hfo Hlf Hfu HM HM1 HM2 HRo HPD)
    as (T & A & b & c & r & u & H). cbv zeta in H. fold n in H. fold mean variance in H. fold beta in H.
  set (av := fun j => - fsum n (fun i => cf i * sd i * A i j)) in *.
  destruct H as (ER & ETA & ERes & Eu & E0 & EG & AL & HU & EB & ET & HT & HF & EN & VP & EM & EA).
  destruct (ln_all fmin chol svd inv e0 h expr f lf nm mu sd cf c0 M Ro lg a0 opt Hlap Ha Hn HN Hsd Hp Hlin Hlf HRo HPD) as (T' & A' & ET' & EN' & _ & ETr).
  cbv zeta in ETr. fold n in ETr, ET'. change (ln_b h mu cf c0) with mean in ETr. rewrite ET in ET'. injection ET' as <- <-. fold av in ETr.
  split; [exists b, (addCallFunction (setModifiedCorrelation (sm_run h) (rows_of n Ro)) c), r; split; [exact ER|exact EB]|].
  assert (SV := sqrt_lt_R0 _ VP). assert (SQ := sqrt_sqrt variance ltac:(lra)).
  set (alpha := alpha_of n (fr_grad r)) in *.
  assert (NA : norm n alpha = 1). { apply (alpha_unit n av alpha); [rewrite EN; exact AL|rewrite EN; lra]. }
  assert (EI := init_ok fmin chol svd inv (fb_type a0) (sm_run h) M n Ro lg T A HM HM1 HM2 EM HRo ET s HC).
  assert (FR : forall u', Rltb (f (args_at h (vlist n (u_to_x n A (marg_at s) u')))) 0 = Rltb beta (dot n alpha u')).
  { intros u'. unfold n at 1 2. rewrite (lin_value h expr f lf A s av mean u' Hp Hn ltac:(lia) HC ETr). fold n.
    assert (E1 : mean - dot n av u' = sqrt variance * (beta - dot n alpha u')).
    { rewrite (Base.dot_ext n alpha u' (fun i => / sqrt variance * av i) u').
      - rewrite dot_scal_l. unfold beta. field. lra.
      - intros i Hi. rewrite (AL i Hi). unfold Rdiv. ring.
      - intros i _. reflexivity. }
    rewrite E1. destruct (Rltb beta (dot n alpha u')) eqn:EC.
    - apply Rltb_spec in EC. apply Rltb_spec. nra.
    - apply Rltb_false in EC. apply Rltb_false. nra. }
  assert (HI := half_integral n alpha beta NA).
  destruct (C133_analysis_distribution fmin chol svd inv h expr f fo mo evn (mkMb false (fb_type a0) (length (sm_marg s)) None mc_fresh None) s _ T A (rows_of n Ro) off pre (Phi (- beta)) HC EI eq_refl (rows_length n Ro))
    as (K & H1 & H2); try assumption.
  - exact (core_len _ n EM s HC).
  - unfold point_of. cbn [mb_point mb_nrv]. now rewrite (core_len _ n EM s HC).
  - rewrite (proj1 Hfo). discriminate.
  - rewrite (proj1 Hfo). cbn. lia.
  - refine (int_ext n _ _ _ _ HI). intros u'. cbn beta. fold n. rewrite FR. reflexivity.
  - fold n N in H1, H2. exists K. split; [exact H1|exact H2].
Qed.
Print Assumptions C133_linear_distribution.

(** ** stopping after the first block *)
Lemma nfail_list n o p (g : vec -> R) z l : (forall j, (j < length l)%nat -> g (nth j l (fun _ => 0)) = g (cand n o p z j)) ->
  nfail g l = cnt (fails n o p g) (seq 0 (length l)) z.
Proof.
  assert (Q : forall l k, (forall j, (j < length l)%nat -> g (nth j l (fun _ => 0)) = g (cand n o p z (k + j))) -> nfail g l = cnt (fails n o p g) (seq k (length l)) z).
  { clear l. induction l as [|a l IH]; intros k H; [reflexivity|]. cbn [nfail length seq cnt]. unfold fails at 1. specialize (IH (S k)).
    pose proof (H 0%nat ltac:(cbn; lia)) as H0. cbn [nth] in H0. rewrite Nat.add_0_r in H0. rewrite H0. rewrite IH; [reflexivity|].
    intros j Hj. specialize (H (S j) ltac:(cbn; lia)). cbn [nth] in H. rewrite H. do 2 f_equal. lia. }
  intros H. apply Q. exact H.
Qed.

Lemma cnt_prefix_mean n o p (g : vec -> R) q b f : reads n g -> (0 < mo_block o)%Z -> (0 < mo_samples o)%Z -> (b <= Z.to_nat (mo_samples o))%nat ->
  is_mean n (fun z => if Rltb (g (fun i => p i + mo_stdv o * z i)) 0 then 1 else 0) q ->
  is_mean (n * Z.to_nat (mo_samples o)) (fun z => f (cnt (fails n o p g) (seq 0 b) z)) (binomial_mean b q f).
Proof.
  intros Hg Hb HN Hle H. rewrite <- Bm_sum. replace (Bm q b f) with (Bm q (length (seq 0 b)) f) by (rewrite seq_length; reflexivity).
  apply (cnt_mean _ (fails n o p g) (reader n o)); [apply seq_NoDup| |].
  - intros j Hj. apply in_seq in Hj. split.
    + apply (term_mean n o Hb HN j (fun z => if Rltb (g (fun i => p i + mo_stdv o * z i)) 0 then 1 else 0)); [lia|exact H].
    + intros z z' E. unfold fails. f_equal. apply Hg. intros i Hi. unfold cand. do 2 f_equal. apply E. unfold reader. apply existsb_exists. exists i. split; [apply in_seq; lia|apply Nat.eqb_refl].
  - intros a b' Ha Hb' Ne k E. apply in_seq in Ha, Hb'. unfold reader in *. apply existsb_exists in E. destruct E as (i & Hi & E). apply in_seq in Hi. apply Nat.eqb_eq in E.
    destruct (existsb _ (seq 0 n)) eqn:X; [|reflexivity]. apply existsb_exists in X. destruct X as (i' & Hi' & X). apply in_seq in Hi'. apply Nat.eqb_eq in X. exfalso. apply Ne.
    apply (pos_disj n (Z.to_nat (mo_samples o)) (Z.to_nat (mo_block o)) a b' i i'); try assumption; try lia.
Qed.

(** C133: crude Monte Carlo with more samples than one block: with K failures among the
    points of the first block, b of them, the run ends after that block exactly when
    the coefficient of variation computed from K meets the target; K is binomial. *)
Theorem C133_first_block : forall n o tox Gof g prev off pre v,
  (forall us, Gof us = Ok (map g us)) -> reads n g ->
  mo_stdv o = 1 -> (0 < mo_block o < mo_samples o)%Z -> mo_rg o = 0%Z ->
  is_integral n (fun u => if Rltb (g u) 0 then joint_density n u else 0) v ->
  let N := Z.to_nat (mo_samples o) in let b := Z.to_nat (mo_block o) in
  exists K : (nat -> R) -> nat,
    (forall z, exists st, mc_run n o (from off pre z) (setPoint None) tox Gof (S N) prev off = MDone st /\
       (ms_k st = mo_block o <-> crude_cov (INR b) (INR (K z)) <= mo_target o) /\
       (ms_k st = mo_block o -> mc_Pf st = INR (K z) / INR b)) /\
    forall h : nat -> R, is_mean (n * N) (fun z => h (K z)) (binomial_mean b v h).
Proof.
  intros n o tox Gof g prev off pre v HG Hg Hs Hb Hr HI N b. exists (fun z => cnt (fails n o (setPoint None) g) (seq 0 b) z). split.
  - intros z. destruct (C28_terminates n o (from off pre z) (setPoint None) tox Gof g prev off (S N) HG ltac:(lia) ltac:(lia) Hr ltac:(unfold N; lia)) as (st & E). exists st. split; [exact E|].
    destruct (C30_stopping_rule n o _ tox Gof g prev off _ st HG Hs ltac:(lia) E) as (_ & Sz & Bef & Last). cbv zeta in Sz, Bef, Last.
    destruct (run_inv n o (from off pre z) (setPoint None) tox Gof g HG prev off _ st ltac:(lia) E) as (I & Kp & NB & _). destruct I as [I1 _ _ _ _ _ _ _].
    pose proof (pts_g n o (setPoint None) tox Gof g prev off pre HG Hg ltac:(lia) ltac:(lia) z _ st E) as G.
    destruct (C28_crude_estimate n o _ tox Gof g prev off _ st HG Hs ltac:(lia) E) as (_ & _ & P & _).
    unfold ms_pts in *. destruct (ms_blocks st) as [|b0 bl]; [contradiction|]. clear NB. cbn [length] in Sz, Bef, Last.
    pose proof (Sz 0%nat ltac:(lia)) as L0. cbn [nth firstn concat length] in L0. change (Z.of_nat 0) with 0%Z in L0. rewrite Z.sub_0_r, Z.min_l in L0 by lia.
    assert (B0 : length b0 = b) by (unfold b; lia).
    assert (F0 : nfail g b0 = cnt (fails n o (setPoint None) g) (seq 0 b) z).
    { rewrite <- B0. apply nfail_list. intros j Hj. assert (JL : (j < length (b0 ++ concat bl))%nat) by (rewrite app_length; apply Nat.lt_lt_add_r; exact Hj). pose proof (G j JL) as Gj. cbn [concat] in Gj. rewrite app_nth1 in Gj by exact Hj. exact Gj. }
    assert (C1 : forall m, (1 <= m)%nat -> firstn m (b0 :: bl) = (b0 :: firstn (m - 1) bl)%list). { intros m Hm. destruct m as [|m]; [lia|]. cbn [firstn Nat.sub]. rewrite Nat.sub_0_r. reflexivity. }
    rewrite <- F0. destruct bl as [|b1 bl].
    + cbn [concat] in *. rewrite app_nil_r in *. cbn [length] in Last. rewrite (C1 1%nat ltac:(lia)) in Last. cbn [Nat.sub firstn concat] in Last. rewrite app_nil_r, B0 in Last.
      assert (KE : ms_k st = mo_block o) by lia. split.
      * split; [|intros _; exact KE]. intros _. destruct Last as [C|C]; [exact C|lia].
      * intros _. rewrite P, B0. reflexivity.
    + cbn [length] in *. pose proof (Bef 1%nat ltac:(lia)) as C. rewrite (C1 1%nat ltac:(lia)) in C. cbn [Nat.sub firstn concat] in C. rewrite app_nil_r, B0 in C.
      pose proof (Sz 1%nat ltac:(lia)) as L1. rewrite (C1 1%nat ltac:(lia)) in L1. cbn [nth Nat.sub firstn concat] in L1. rewrite app_nil_r, L0 in L1.
      cbn [concat] in I1. rewrite !app_length in I1. assert (KE : ms_k st <> mo_block o) by lia. split; [|intros Q; contradiction].
      split; [intros Q; contradiction|intros Q; lra].
  - intros h. apply cnt_prefix_mean; try assumption; try lia. apply point_mean; [lra|]. rewrite Hs. refine (int_ext n _ _ _ _ HI). intros u. cbn beta. rewrite crude_density. reflexivity.
Qed.
Print Assumptions C133_first_block.

Lemma cov_default k : (k <= 1000)%nat -> (crude_cov 1000 (INR k) <= 5 / 100 <-> (286 <= k <= 999)%nat).
Proof.
  intros Hk. unfold crude_cov. destruct (Rltb 0 (INR k)) eqn:Z0.
  - apply Rltb_spec in Z0. destruct (Rltb (INR k) 1000) eqn:Z1.
    + apply Rltb_spec in Z1. assert (K9 : (k <= 999)%nat). { assert (k < 1000)%nat; [|lia]. apply INR_lt. replace (INR 1000) with 1000; [exact Z1|]. rewrite INR_IZR_INZ. reflexivity. }
      replace ((1 - INR k / 1000) / (1000 * (INR k / 1000))) with ((1 - INR k / 1000) / INR k) by (field; lra).
      assert (P : (1 - INR k / 1000) / INR k <= (5 / 100) ^ 2 <-> (286 <= k)%nat).
      { split.
        - intros H. apply (Rmult_le_compat_r (INR k)) in H; [|lra]. unfold Rdiv in H. rewrite Rmult_assoc, Rinv_l in H by lra.
          assert (285 < INR k) by lra. assert (285 < k)%nat; [|lia]. apply INR_lt. replace (INR 285) with 285; [lra|]. rewrite INR_IZR_INZ. reflexivity.
        - intros H. apply le_INR in H. replace (INR 286) with 286 in H by (rewrite INR_IZR_INZ; reflexivity). apply (Rmult_le_reg_r (INR k)); [lra|]. unfold Rdiv at 1. rewrite Rmult_assoc, Rinv_l by lra. lra. }
      assert (S2 : 0 <= (1 - INR k / 1000) / INR k). { apply Rmult_le_pos; [lra|]. left. apply Rinv_0_lt_compat. exact Z0. }
      split.
      * intros H. split; [|exact K9]. apply P. rewrite <- (sqrt_sqrt _ S2). pose proof (sqrt_pos ((1 - INR k / 1000) / INR k)). nra.
      * intros [H _]. apply P in H. rewrite <- (sqrt_pow2 (5 / 100)) by lra. apply sqrt_le_1_alt. exact H.
    + apply Rltb_false in Z1. split; [lra|]. intros [_ H]. exfalso. apply le_INR in H. replace (INR 999) with 999 in H by (rewrite INR_IZR_INZ; reflexivity). lra.
  - apply Rltb_false in Z0. split; [lra|]. intros [H _]. exfalso. apply le_INR in H. replace (INR 286) with 286 in H by (rewrite INR_IZR_INZ; reflexivity). lra.
Qed.

(** C133: with the default options the run ends after 1000 of the 100000 samples with
    exactly the probability that a binomial number, 1000 trials with probability v, lies
    between 286 and 999. *)
Theorem C133_default_first_block : forall n tox Gof g prev off pre v,
  (forall us, Gof us = Ok (map g us)) -> reads n g ->
  is_integral n (fun u => if Rltb (g u) 0 then joint_density n u else 0) v ->
  let N := Z.to_nat 100000 in
  exists k : (nat -> R) -> Z,
    (forall z, exists st, mc_run n default_o (from off pre z) (setPoint None) tox Gof (S N) prev off = MDone st /\ ms_k st = k z) /\
    is_mean (n * N) (fun z => if (k z =? 1000)%Z then 1 else 0) (binomial_mean 1000 v (fun i => if ((286 <=? i) && (i <=? 999))%nat then 1 else 0)).
Proof.
  intros n tox Gof g prev off pre v HG Hg HI N.
  destruct (C133_first_block n default_o tox Gof g prev off pre v HG Hg eq_refl ltac:(cbn; lia) eq_refl HI) as (K & E & D). change (Z.to_nat (mo_samples default_o)) with N in E, D.
  assert (NB : INR (Z.to_nat (mo_block default_o)) = 1000). { cbn [mo_block default_o]. rewrite INR_IZR_INZ, Z2Nat.id by lia. reflexivity. }
  exists (fun z : nat -> R => match mc_run n default_o (from off pre z) (setPoint None) tox Gof (S N) prev off with MDone st => ms_k st | _ => 0%Z end). split.
  - intros z. destruct (E z) as (st & R1 & _). exists st. rewrite R1. split; reflexivity.
  - pose proof (D (fun i => if Rleb (crude_cov 1000 (INR i)) (5 / 100) then 1 else 0)) as M. cbn beta in M.
    assert (BE : binomial_mean (Z.to_nat (mo_block default_o)) v (fun i => if Rleb (crude_cov 1000 (INR i)) (5 / 100) then 1 else 0) = binomial_mean 1000 v (fun i => if ((286 <=? i) && (i <=? 999))%nat then 1 else 0)).
    { change (Z.to_nat (mo_block default_o)) with (Z.to_nat 1000). replace (Z.to_nat 1000) with 1000%nat by (apply Nat2Z.inj; rewrite Z2Nat.id by lia; reflexivity).
      unfold binomial_mean. apply sum_eq. intros i Hi. f_equal. destruct (Rleb (crude_cov 1000 (INR i)) (5 / 100)) eqn:C.
      - apply Rleb_spec in C. apply (cov_default i Hi) in C. destruct C as [C1 C2]. apply Nat.leb_le in C1, C2. rewrite C1, C2. reflexivity.
      - destruct ((286 <=? i) && (i <=? 999))%nat eqn:Q; [|reflexivity]. apply andb_prop in Q. destruct Q as [Q1 Q2]. apply Nat.leb_le in Q1, Q2. apply Rleb_false in C. pose proof (proj2 (cov_default i Hi) (conj Q1 Q2)). lra. }
    rewrite BE in M. refine (mean_ext _ _ _ _ _ M). intros z. cbn beta. destruct (E z) as (st & R1 & IFF & _). rewrite R1. rewrite NB in IFF. cbn [mo_target mo_block default_o] in IFF.
    destruct (Rleb (crude_cov 1000 (INR (K z))) (5 / 100)) eqn:C, (ms_k st =? 1000)%Z eqn:Q; try reflexivity; exfalso.
    + apply Rleb_spec in C. apply IFF in C. apply Z.eqb_neq in Q. contradiction.
    + apply Z.eqb_eq in Q. apply IFF in Q. apply Rleb_false in C. lra.
Qed.
Print Assumptions C133_default_first_block.

(** the hypotheses hold: failure when the first of n+1 variables is below c, for every c *)
Example C133_example n c : let g := fun u : vec => u 0%nat - c in
  reads (S n) g /\ is_integral (S n) (fun u => if Rltb (g u) 0 then joint_density (S n) u else 0) (Phi c) /\ Phi c < 1.
Proof. intros g. destruct (C111_example n c) as [A B]. split; [exact A|]. split; [exact B|]. pose proof (Phi_bound c). lra. Qed.

(** two variables, three points, no block smaller: the probability of exactly one failure *)
Example C133_example_mean v : binomial_mean 3 v (fun k => match k with 1%nat => 1 | _ => 0 end) = 3 * v * (1 - v) ^ 2.
Proof. unfold binomial_mean. cbn [sum_f_R0]. unfold C. cbn [Nat.sub fact Nat.mul Nat.add INR pow]. field. Qed.
