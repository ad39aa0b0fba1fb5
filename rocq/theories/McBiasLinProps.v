(** C111 on whole analyses: CrudeMonteCarlo and ImportanceSampling objects. *)
From Coquelicot Require Import Coquelicot.
From Verif Require Import Base Ext Gauss GaussProofs StochModel StochModelSpec StochModelProofs LimitState LimitStateSpec LimitStateProofs LimitStateProps Transf TransfSpec TransfProofs Form FormProofs FormAffineProofs FormNormalProofs FormProps Nataf NatafProofs Dist RotSpec RotProps Pipe PipeSpec SensSpec PipeProofs PipeProps Sorm SormRunProofs SormRunProps Mc McSpec McProofs McRunProofs McProps McRun LsRunProofs LsRunProps McRunOnSpec McRunOnProofs McRunOnProps MomSpec MomProofs McBiasSpec McBiasProofs McBiasProps McBiasLinProofs.
From Coq Require Import ZArith Lra Lia.
Open Scope R_scope.

Lemma point_reads h A m f : reads (ndists h) (fun u => f (args_at h (vlist (ndists h) (u_to_x (ndists h) A m u)))).
Proof.
  intros u v H. f_equal. f_equal. unfold vlist. apply map_ext_in. intros i Hi. unfold u_to_x, mvec, dot. cbv zeta. f_equal. apply fsum_ext. intros j Hj. rewrite (H j Hj). reflexivity.
Qed.

Lemma calls_same fmin chol svd inv ty s s1 T A : init_run_full fmin chol svd inv ty s = (s1, Ok (T, A)) -> sm_calls s1 = sm_calls s.
Proof.
  intros EI. unfold init_run_full in EI. unfold setModifiedCorrelationMatrix in EI. destruct (sm_corr s); [|discriminate].
  destruct (forallb _ _); [|discriminate]. destruct (computeModifiedCorrelationMatrix _ _ _ _ _) as [[? ?]|]; [|discriminate]. cbn [setModifiedCorrelation sm_Ro] in EI. injection EI as <- _. reflexivity.
Qed.

(** C111 for an analysis object: any variables, correlation and pointwise limit state, an object with any
    history, any sampling centre, and [off] numbers [pre] consumed before the run. *)
Theorem C111_analysis : forall fmin chol svd inv h expr f fo mo evn a s s1 T A M p off pre v,
  let n := ndists h in let N := Z.to_nat (mo_samples mo) in
  let g := fun u => f (args_at h (vlist n (u_to_x n A (marg_at s) u))) in
  same_problem (sm_run h) s ->
  init_run_full fmin chol svd inv (mb_type a) s = (s1, Ok (T, A)) -> sm_Ro s1 = Some M -> length M = n ->
  mb_nrv a = n -> point_of a = (n, Some p) -> (1 <= n)%nat -> pointwise expr f ->
  o_multi_proc (fo_ls fo) <> 0%Z -> (1 <= o_block_size (fo_ls fo))%Z ->
  0 < mo_stdv mo -> (0 < mo_block mo)%Z -> (0 < mo_samples mo)%Z -> mo_rg mo = 0%Z ->
  mo_target mo <= 0 \/ (mo_samples mo <= mo_block mo)%Z ->
  is_integral n (fun u => if Rltb (g u) 0 then joint_density n u else 0) v ->
  exists Pf : (nat -> R) -> R,
    (forall z, exists a' s', cmc_run_on fmin chol svd inv expr fo mo evn (from off pre z) (S N) a s off = (a', s', MEnd) /\ mb_res a' = Some (Pf z, reported_beta (Pf z))) /\
    is_mean (n * N) Pf v /\
    (forall m2, is_integral n (fun u => if Rltb (g u) 0 then joint_density n u ^ 2 / sampling_density n p (mo_stdv mo) u else 0) m2 ->
       is_mean (n * N) (fun z => (Pf z - v) ^ 2) ((m2 - v ^ 2) / INR N)).
Proof.
  intros fmin chol svd inv h expr f fo mo evn a s s1 T A M p off pre v n N g HC EI ERo EMl En EP Hn Hp Hm Hbl Hs Hb Hsa Hrg Hx HI.
  assert (EM0 : length (sm_marg (sm_run h)) = n) by (destruct (registry h) as (_ & _ & X & _); rewrite X; reflexivity).
  assert (EM : length (sm_marg s) = n) by exact (core_len _ n EM0 s HC).
  set (Gof := mc_limit_state s expr (fo_ls fo) n A (marg_at s)).
  assert (HG : forall us, Gof us = Ok (map g us)).
  { intros us. unfold Gof. rewrite (limit_core _ s _ _ _ _ _ us HC). apply mc_limit_state_ok; assumption. }
  destruct (C111_unbiased n mo p (u_to_x n A (marg_at s)) Gof g (mb_st a) off pre v HG (point_reads h A (marg_at s) f) Hs Hb Hsa Hrg Hx HI) as (Pf & HR & H1 & H2).
  exists Pf. split; [|split; assumption]. intros z. destruct (HR z) as (st & ER & EPf). fold N in ER.
  pose proof (C101_run_composition fmin chol svd inv expr fo mo evn (from off pre z) (S N) a s s1 T A M n p off EI ERo EMl EM En EP ltac:(lra)) as H. fold Gof in H. rewrite ER in H. destruct H as (c & _ & E).
  destruct (C101_estimate fmin chol svd inv h expr f fo mo evn (from off pre z) (S N) a s s1 T A M p off HC EI ERo EMl En EP Hn Hp Hm Hbl Hs Hb Hsa Hrg ltac:(unfold N; lia)) as (a' & s' & P' & Q). cbv zeta in Q. destruct Q as (E' & R' & _).
  exists a', s'. split; [exact E'|]. rewrite R'. rewrite E in E'. injection E' as <- _. cbn [mb_res] in R'. injection R' as Q1 _. rewrite <- Q1, EPf. reflexivity.
Qed.
Print Assumptions C111_analysis.

(** ** linear functions of normal variables *)
Lemma half_integral n alpha beta : norm n alpha = 1 -> is_integral n (fun u => if Rltb beta (dot n alpha u) then joint_density n u else 0) (Phi (- beta)).
Proof.
  intros NA. pose proof (half_space n alpha beta ltac:(lra)) as H. rewrite NA in H. replace (beta / 1) with beta in H by field.
  refine (int_ext n _ _ _ _ (mean_int n _ _ H)). intros u. cbn beta. destruct (Rltb beta (dot n alpha u)); ring.
Qed.

Theorem C111_linear_normal :
  forall fmin chol svd inv e0 h expr f lf nm (mu sd cf : vec) c0 M Ro log a opt fo mo evn fuel s off pre,
  let n := ndists h in
  lapack n chol svd inv e0 -> cmc_new opt None s = Ok a -> same_problem (sm_run h) s -> (1 <= n)%nat ->
  (forall i, (i < n)%nat -> nth_error (dists_of (accepted h)) i = Some (Normal (nm i) (mu i) (sd i))) ->
  (forall i, (i < n)%nat -> sd i <> 0) -> (exists i, (i < n)%nat /\ cf i <> 0) ->
  pointwise expr f -> (forall q, length q = n -> f (args_at h q) = c0 + fsum n (fun i => cf i * nth i q 0)) ->
  exact_options fo -> (n + 7 < lf)%nat -> (Z.to_nat (fo_imax fo) < fuel)%nat ->
  sm_corr (sm_run h) = Some M -> length M = n -> (forall r, In r M -> length r = n) ->
  computeModifiedCorrelationMatrix fmin n n (mat_of M) (fun i => marg_of (marg_at (sm_run h) i)) = Ok (Ro, log) -> pos_def n Ro ->
  mo_stdv mo = 1 -> (0 < mo_block mo)%Z -> (0 < mo_samples mo)%Z -> mo_rg mo = 0%Z ->
  mo_target mo <= 0 \/ (mo_samples mo <= mo_block mo)%Z ->
  let mean := c0 + fsum n (fun i => cf i * mu i) in
  let variance := fsum n (fun i => fsum n (fun j => (cf i * sd i) * Ro i j * (cf j * sd j))) in
  let beta := mean / sqrt variance in let N := Z.to_nat (mo_samples mo) in
  (exists b sF r, run_form fmin chol svd inv fuel lf expr fo evn (mkFobj false (mb_type a) None None) (sm_run h) = (b, sF, FDone r) /\ form_beta n r = Fin beta) /\
  exists Pf : (nat -> R) -> R,
    (forall z, exists a' s', cmc_run_on fmin chol svd inv expr fo mo evn (from off pre z) (S N) a s off = (a', s', MEnd) /\ mb_res a' = Some (Pf z, reported_beta (Pf z))) /\
    is_mean (n * N) Pf (Phi (- beta)) /\
    is_mean (n * N) (fun z => (Pf z - Phi (- beta)) ^ 2) (Phi (- beta) * Phi beta / INR N).
Proof.
  intros fmin chol svd inv e0 h expr f lf nm mu sd cf c0 M Ro lg a opt fo mo evn fuel s off pre n Hlap Hnew HC Hn HN Hsd Hcf Hp Hlin Hfo Hlf Hfu HM HM1 HM2 HRo HPD Hs Hb Hsa Hrg Hx mean variance beta N.
  unfold cmc_new in Hnew. destruct (form_init opt) as [a0|] eqn:Ha; [|discriminate]. cbn [rbind] in Hnew. injection Hnew as <-. cbn [mb_type].
  assert (EaF : mkFobj false (fb_type a0) None None = a0). { unfold form_init in Ha. destruct (mkTransformation opt); [|discriminate]. cbn in Ha. injection Ha as <-. reflexivity. }
  rewrite EaF.
  destruct (lin_run fmin chol svd inv e0 h expr f lf nm mu sd cf c0 M Ro lg a0 opt fo evn fuel Hlap Ha Hn HN Hsd Hcf Hp Hlin Hfo Hlf Hfu HM HM1 HM2 HRo HPD)
    as (T & A & b & c & r & u & H). cbv zeta in H. fold n in H. fold mean variance in H. fold beta in H.
  set (av := fun j => - fsum n (fun i => cf i * sd i * A i j)) in *.
  destruct H as (ER & ETA & ERes & Eu & E0 & EG & AL & HU & EB & ET & HT & HF & EN & VP & EM & EA).
  destruct (ln_all fmin chol svd inv e0 h expr f lf nm mu sd cf c0 M Ro lg a0 opt Hlap Ha Hn HN Hsd Hp Hlin Hlf HRo HPD) as (T' & A' & ET' & EN' & _ & ETr).
  cbv zeta in ETr. fold n in ETr, ET'. change (ln_b h mu cf c0) with mean in ETr. rewrite ET in ET'. injection ET' as <- <-. fold av in ETr.
  split; [exists b, (addCallFunction (setModifiedCorrelation (sm_run h) (rows_of n Ro)) c), r; split; [exact ER|exact EB]|].
  assert (SV := sqrt_lt_R0 _ VP). assert (SQ := sqrt_sqrt variance ltac:(lra)).
  set (alpha := alpha_of n (fr_grad r)) in *.
  assert (NA : norm n alpha = 1). { apply (alpha_unit n av alpha); [rewrite EN; exact AL|rewrite EN; lra]. }
  assert (EI := init_ok fmin chol svd inv (fb_type a0) (sm_run h) M n Ro lg T A HM HM1 HM2 EM HRo ET s HC).
  assert (FR : forall u', Rltb (f (args_at h (vlist n (u_to_x n A (marg_at s) u')))) 0 = Rltb beta (dot n alpha u')).
  { intros u'. unfold n at 1 2. rewrite (lin_value h expr f lf A s av mean u' Hp Hn ltac:(lia) HC ETr). fold n.
    assert (E1 : mean - dot n av u' = sqrt variance * (beta - dot n alpha u')).
    { rewrite (Base.dot_ext n alpha u' (fun i => / sqrt variance * av i) u').
      - rewrite dot_scal_l. unfold beta. field. lra.
      - intros i Hi. rewrite (AL i Hi). unfold Rdiv. ring.
      - intros i _. reflexivity. }
    rewrite E1. destruct (Rltb beta (dot n alpha u')) eqn:EC.
    - apply Rltb_spec in EC. apply Rltb_spec. nra.
    - apply Rltb_false in EC. apply Rltb_false. nra. }
  assert (HI := half_integral n alpha beta NA).
  destruct (C111_analysis fmin chol svd inv h expr f fo mo evn (mkMb false (fb_type a0) (length (sm_marg s)) None mc_fresh None) s _ T A (rows_of n Ro) (fun _ => 0) off pre (Phi (- beta)) HC EI eq_refl (rows_length n Ro))
    as (Pf & H1 & H2 & H3); try assumption.
  - exact (core_len _ n EM s HC).
  - unfold point_of. cbn [mb_point mb_nrv]. now rewrite (core_len _ n EM s HC).
  - rewrite (proj1 Hfo). discriminate.
  - rewrite (proj1 Hfo). cbn. lia.
  - lra.
  - refine (int_ext n _ _ _ _ HI). intros u'. cbn beta. fold n. rewrite FR. reflexivity.
  - fold n N in H1, H2, H3. exists Pf. split; [exact H1|]. split; [exact H2|].
    replace (Phi (- beta) * Phi beta) with (Phi (- beta) - Phi (- beta) ^ 2) by (rewrite Phi_opp; ring). apply H3.
    refine (int_ext n _ _ _ _ HI). intros u'. cbn beta. rewrite FR, Hs. destruct (Rltb beta (dot n alpha u')); [|reflexivity].
    assert (Q : sampling_density n (fun _ => 0) 1 u' = joint_density n u').
    { unfold sampling_density, joint_density. f_equal. apply map_ext. intros i. replace ((u' i - 0) / 1) with (u' i) by field. field. }
    rewrite Q. pose proof (sampling_density_pos n (fun _ => 0) 1 u' ltac:(lra)) as P. rewrite Q in P. field. lra.
Qed.
Print Assumptions C111_linear_normal.

(** ** importance sampling at FORM's design point *)
(** expected values keep the order *)
Lemma eN_le f g v w : (forall x, f x <= g x) -> expectN f v -> expectN g w -> v <= w.
Proof.
  intros H Hf Hg. destruct (Rle_or_lt v w) as [L|L]; [exact L|exfalso]. set (e := mkposreal ((v - w) / 2) ltac:(lra)).
  pose proof (Hf _ (locally_ball v e)) as F1. pose proof (Hg _ (locally_ball w e)) as G1.
  assert (O : filter_prod (Rbar_locally m_infty) (Rbar_locally p_infty) (fun ab : R * R => fst ab <= snd ab)).
  { apply (Filter_prod _ _ _ (fun a => a < 0) (fun b => 0 < b)); [exists 0; auto|exists 0; auto|]. intros a b Ha Hb. cbn. lra. }
  unfold filtermapi in F1, G1. pose proof (filter_and (F := filter_prod (Rbar_locally m_infty) (Rbar_locally p_infty)) _ _ O (filter_and (F := filter_prod (Rbar_locally m_infty) (Rbar_locally p_infty)) _ _ F1 G1)) as X. apply filter_ex in X. destruct X as ([a b] & Hab & (yf & If & Bf) & (yg & Ig & Bg)). cbn [fst snd] in *.
  pose proof (is_RInt_le _ _ _ _ _ _ Hab If Ig (fun x _ => Rmult_le_compat_r _ _ _ (Rlt_le _ _ (phi_pos x)) (H x))) as LE.
  apply Rabs_def2 in Bf. apply Rabs_def2 in Bg. unfold minus, plus, opp in Bf, Bg. cbn in Bf, Bg. lra.
Qed.
Lemma mean_le m : forall f g v w, (forall s, f s <= g s) -> is_mean m f v -> is_mean m g w -> v <= w.
Proof.
  induction m as [|m IH]; intros f g v w H Hf Hg.
  - rewrite <- (Hf (fun _ => 0)), <- (Hg (fun _ => 0)). apply H.
  - destruct Hf as (F & F1 & F2), Hg as (G & G1 & G2). apply (eN_le F G); [|exact F2|exact G2]. intros x. exact (IH _ _ _ _ (fun s => H (scons x s)) (F1 x) (G1 x)).
Qed.

Lemma joint_exp n u : joint_density n u = / sqrt (2 * PI) ^ n * exp (- (/ 2 * dot n u u)).
Proof.
  revert u. induction n as [|n IH]; intros u; [unfold joint_density, dot; cbn; rewrite Rmult_0_r, Ropp_0, exp_0; field|].
  assert (Q : joint_density (S n) u = phi (u 0%nat) * joint_density n (fun i => u (S i))). { unfold joint_density. cbn [seq map]. rewrite <- seq_shift, map_map. reflexivity. }
  rewrite Q, IH. unfold dot at 2. rewrite fsum_shift. fold (dot n (fun i => u (S i)) (fun i => u (S i))). unfold phi.
  assert (S0 : 0 < sqrt (2 * PI)) by (apply sqrt_lt_R0; pose proof PI_RGT_0; lra).
  replace (- (/ 2 * (u 0%nat * u 0%nat + dot n (fun i => u (S i)) (fun i => u (S i))))) with (- (1 / 2) * (u 0%nat * u 0%nat) + - (/ 2 * dot n (fun i => u (S i)) (fun i => u (S i)))) by field.
  rewrite exp_plus. cbn [pow]. field. split; [apply pow_nonzero; lra|lra].
Qed.

(** the second moment of the weights *)
Lemma is_second n alpha beta : norm n alpha = 1 ->
  is_integral n (fun u => if Rltb beta (dot n alpha u) then exp (/ 2 * beta ^ 2 - beta * dot n alpha u) * joint_density n u else 0) (exp (beta ^ 2) * Phi (- (2 * beta))).
Proof.
  intros NA. pose proof (int_affine 1 Rlt_0_1 n (fun i => beta * alpha i) _ _ (half_integral n alpha (2 * beta) NA)) as H. apply (int_scal n (exp (beta ^ 2))) in H.
  refine (int_ext n _ _ _ _ H). intros u. cbn beta. rewrite pow1, Rmult_1_l.
  assert (AA : dot n alpha alpha = 1) by (rewrite <- norm_sqr, NA; ring).
  assert (D : dot n alpha (fun i => beta * alpha i + 1 * u i) = beta + dot n alpha u).
  { replace (beta + dot n alpha u) with (beta * dot n alpha alpha + dot n alpha u) by (rewrite AA; ring). unfold dot. rewrite <- fsum_scal, <- fsum_plus. apply fsum_ext. intros i _. ring. }
  rewrite D. destruct (Rltb (2 * beta) (beta + dot n alpha u)) eqn:E1, (Rltb beta (dot n alpha u)) eqn:E2.
  - rewrite !joint_exp. assert (DD : dot n (fun i => beta * alpha i + 1 * u i) (fun i => beta * alpha i + 1 * u i) = beta ^ 2 + 2 * beta * dot n alpha u + dot n u u).
    { replace (beta ^ 2) with (beta ^ 2 * dot n alpha alpha) by (rewrite AA; ring). unfold dot. rewrite <- !fsum_scal, <- !fsum_plus. apply fsum_ext. intros i _. ring. }
    rewrite DD. replace (exp (beta ^ 2) * (/ sqrt (2 * PI) ^ n * exp (- (/ 2 * (beta ^ 2 + 2 * beta * dot n alpha u + dot n u u))))) with (/ sqrt (2 * PI) ^ n * (exp (beta ^ 2) * exp (- (/ 2 * (beta ^ 2 + 2 * beta * dot n alpha u + dot n u u))))) by ring.
    replace (exp (/ 2 * beta ^ 2 - beta * dot n alpha u) * (/ sqrt (2 * PI) ^ n * exp (- (/ 2 * dot n u u)))) with (/ sqrt (2 * PI) ^ n * (exp (/ 2 * beta ^ 2 - beta * dot n alpha u) * exp (- (/ 2 * dot n u u)))) by ring.
    f_equal. rewrite <- !exp_plus. f_equal. field.
  - apply Rltb_spec in E1. apply Rltb_false in E2. lra.
  - apply Rltb_spec in E2. apply Rltb_false in E1. lra.
  - ring.
Qed.

Lemma eN_unit n (alpha : vec) : norm n alpha = 1 -> (0 < n)%nat.
Proof. intros H. destruct n; [|lia]. unfold norm, dot in H. cbn in H. rewrite sqrt_0 in H. lra. Qed.

(** it is at most exp(-beta^2/2) times the failure probability for beta >= 0 *)
Lemma second_le beta : 0 <= beta -> exp (beta ^ 2) * Phi (- (2 * beta)) <= exp (- (/ 2 * beta ^ 2)) * Phi (- beta).
Proof.
  intros B. set (al := fun _ : nat => 1).
  assert (NA : norm 1 al = 1) by (unfold norm, dot, al; cbn; rewrite Rplus_0_l, Rmult_1_l; apply sqrt_1).
  pose proof (int_mean 1 (fun u => if Rltb beta (dot 1 al u) then exp (/ 2 * beta ^ 2 - beta * dot 1 al u) else 0) (exp (beta ^ 2) * Phi (- (2 * beta)))) as M1.
  pose proof (int_mean 1 (fun u => exp (- (/ 2 * beta ^ 2)) * if Rltb beta (dot 1 al u) then 1 else 0) (exp (- (/ 2 * beta ^ 2)) * Phi (- beta))) as M2.
  refine (mean_le 1 _ _ _ _ _ (M1 _) (M2 _)).
  - intros u. cbn beta. destruct (Rltb beta (dot 1 al u)) eqn:E; [|lra]. apply Rltb_spec in E. rewrite Rmult_1_r.
    assert (LE : / 2 * beta ^ 2 - beta * dot 1 al u <= - (/ 2 * beta ^ 2)) by nra. destruct (Rle_lt_or_eq_dec _ _ LE) as [L|L]; [apply Rlt_le, exp_increasing, L|rewrite L; lra].
  - refine (int_ext 1 _ _ _ _ (is_second 1 al beta NA)). intros u. cbn beta. destruct (Rltb beta (dot 1 al u)); ring.
  - refine (int_ext 1 _ _ _ _ (int_scal 1 (exp (- (/ 2 * beta ^ 2))) _ _ (half_integral 1 al beta NA))). intros u. cbn beta. destruct (Rltb beta (dot 1 al u)); ring.
Qed.

(** the variance of the estimate, compared with that of crude Monte Carlo with as many points *)
Lemma variance_order beta N : 0 < N ->
  let crude := Phi (- beta) * Phi beta / N in let V := (exp (beta ^ 2) * Phi (- (2 * beta)) - Phi (- beta) ^ 2) / N in
  (0 <= beta -> V <= exp (- (/ 2 * beta ^ 2)) * crude) /\ (beta < 0 -> crude < V).
Proof.
  intros HN crude V. pose proof (Phi_bound (- beta)) as P. assert (Q : Phi beta = 1 - Phi (- beta)) by (rewrite Phi_opp; ring).
  assert (I : 0 < / N) by (apply Rinv_0_lt_compat; exact HN). unfold crude, V, Rdiv. split; intros B.
  - rewrite <- Rmult_assoc. apply Rmult_le_compat_r; [lra|]. pose proof (second_le beta B) as H. rewrite Q. set (e := exp (- (/ 2 * beta ^ 2))) in *.
    assert (E : e <= 1). { unfold e. rewrite <- exp_0. destruct (Rle_lt_or_eq_dec (- (/ 2 * beta ^ 2)) 0 ltac:(nra)) as [L|L]; [apply Rlt_le, exp_increasing, L|rewrite L; lra]. }
    nra.
  - apply Rmult_lt_compat_r; [exact I|]. rewrite Q. assert (L : Phi (- beta) < Phi (- (2 * beta))) by (apply Phi_incr; lra).
    assert (E : 1 < exp (beta ^ 2)) by (rewrite <- exp_0; apply exp_increasing; nra). nra.
Qed.

(** C111: importance sampling (unit deviation) around FORM's design point on a linear function of normal
    variables. *)
Theorem C111_importance_linear :
  forall fmin chol svd inv e0 h expr f lf nm (mu sd cf : vec) c0 M Ro log a opt fo mo evn fuel s off pre,
  let n := ndists h in
  lapack n chol svd inv e0 -> form_init opt = Ok a -> same_problem (sm_run h) s -> (1 <= n)%nat ->
  (forall i, (i < n)%nat -> nth_error (dists_of (accepted h)) i = Some (Normal (nm i) (mu i) (sd i))) ->
  (forall i, (i < n)%nat -> sd i <> 0) -> (exists i, (i < n)%nat /\ cf i <> 0) ->
  pointwise expr f -> (forall q, length q = n -> f (args_at h q) = c0 + fsum n (fun i => cf i * nth i q 0)) ->
  exact_options fo -> (n + 7 < lf)%nat -> (Z.to_nat (fo_imax fo) < fuel)%nat ->
  sm_corr (sm_run h) = Some M -> length M = n -> (forall r, In r M -> length r = n) ->
  computeModifiedCorrelationMatrix fmin n n (mat_of M) (fun i => marg_of (marg_at (sm_run h) i)) = Ok (Ro, log) -> pos_def n Ro ->
  mo_stdv mo = 1 -> (0 < mo_block mo)%Z -> (0 < mo_samples mo)%Z -> mo_rg mo = 0%Z ->
  mo_target mo <= 0 \/ (mo_samples mo <= mo_block mo)%Z ->
  let mean := c0 + fsum n (fun i => cf i * mu i) in
  let variance := fsum n (fun i => fsum n (fun j => (cf i * sd i) * Ro i j * (cf j * sd j))) in
  let beta := mean / sqrt variance in let N := Z.to_nat (mo_samples mo) in
  let crude := Phi (- beta) * Phi beta / INR N in let V := (exp (beta ^ 2) * Phi (- (2 * beta)) - Phi (- beta) ^ 2) / INR N in
  exists a0 s1, is_new fmin chol svd inv fuel lf expr fo evn opt s = (Ok a0, s1) /\
  exists Pf : (nat -> R) -> R,
    (forall z, exists a' s', is_run_on fmin chol svd inv expr fo mo evn (from off pre z) (S N) a0 s1 off = (a', s', MEnd) /\ mb_res a' = Some (Pf z, reported_beta (Pf z))) /\
    is_mean (n * N) Pf (Phi (- beta)) /\
    is_mean (n * N) (fun z => (Pf z - Phi (- beta)) ^ 2) V /\
    (0 <= beta -> V <= exp (- (/ 2 * beta ^ 2)) * crude) /\ (beta < 0 -> crude < V).
Proof.
  intros fmin chol svd inv e0 h expr f lf nm mu sd cf c0 M Ro lg a opt fo mo evn fuel s off pre n Hlap Ha HC Hn HN Hsd Hcf Hp Hlin Hfo Hlf Hfu HM HM1 HM2 HRo HPD Hs Hb Hsa Hrg Hx mean variance beta N crude V.
  destruct (lin_run fmin chol svd inv e0 h expr f lf nm mu sd cf c0 M Ro lg a opt fo evn fuel Hlap Ha Hn HN Hsd Hcf Hp Hlin Hfo Hlf Hfu HM HM1 HM2 HRo HPD)
    as (T & A & b & c & r & u & H). cbv zeta in H. fold n in H. fold mean variance in H. fold beta in H.
  set (av := fun j => - fsum n (fun i => cf i * sd i * A i j)) in *.
  destruct H as (ER & ETA & ERes & Eu & E0 & EG & AL & HU & EB & ET & HT & HF & EN & VP & EM & EA).
  destruct (ln_all fmin chol svd inv e0 h expr f lf nm mu sd cf c0 M Ro lg a opt Hlap Ha Hn HN Hsd Hp Hlin Hlf HRo HPD) as (T' & A' & ET' & EN' & _ & ETr).
  cbv zeta in ETr. fold n in ETr, ET'. change (ln_b h mu cf c0) with mean in ETr. rewrite ET in ET'. injection ET' as <- <-. fold av in ETr.
  assert (SV := sqrt_lt_R0 _ VP). assert (SQ := sqrt_sqrt variance ltac:(lra)).
  set (alpha := alpha_of n (fr_grad r)) in *.
  assert (NA : norm n alpha = 1). { apply (alpha_unit n av alpha); [rewrite EN; exact AL|rewrite EN; lra]. }
  assert (UA : veq n u (fun i => beta * alpha i)).
  { intros i Hi. rewrite (HU i Hi), (AL i Hi). unfold beta. set (w := sqrt variance) in *. rewrite <- SQ. field. lra. }
  destruct (run_core fmin chol svd inv fuel lf expr fo evn a a (sm_run h) s HC eq_refl) as (k & M' & HR).
  rewrite ER in HR. destruct (run_form fmin chol svd inv fuel lf expr fo evn a s) as [[b' s1] o2] eqn:ER2.
  destruct HR as (-> & _ & _ & _ & C2 & _).
  assert (C1 : same_core (sm_run h) s1) by exact (core_trans _ _ _ HC C2).
  set (a0 := mkMb false (fb_type a) n (Some (n, Some u)) mc_fresh None).
  assert (ENew : is_new fmin chol svd inv fuel lf expr fo evn opt s = (Ok a0, s1)).
  { unfold is_new. rewrite Ha, ER2. unfold cmc_new. rewrite Ha. cbn [rbind]. rewrite (core_len _ n EM s1 C1), Eu. reflexivity. }
  exists a0, s1. split; [exact ENew|].
  assert (EI1 := init_ok fmin chol svd inv (fb_type a) (sm_run h) M n Ro lg T A HM HM1 HM2 EM HRo ET s1 C1).
  set (s2 := setModifiedCorrelation s1 (rows_of n Ro)) in *.
  assert (C3 : same_core (sm_run h) s2) by exact (core_trans _ _ _ C1 (core_Ro s1 _)).
  assert (EI2 := init_ok fmin chol svd inv (fb_type a) (sm_run h) M n Ro lg T A HM HM1 HM2 EM HRo ET s2 C3).
  assert (FR : forall u', Rltb (f (args_at h (vlist n (u_to_x n A (marg_at s2) u')))) 0 = Rltb beta (dot n alpha u')).
  { intros u'. unfold n at 1 2. rewrite (lin_value h expr f lf A s2 av mean u' Hp Hn ltac:(lia) C3 ETr). fold n.
    assert (E1 : mean - dot n av u' = sqrt variance * (beta - dot n alpha u')).
    { rewrite (Base.dot_ext n alpha u' (fun i => / sqrt variance * av i) u').
      - rewrite dot_scal_l. unfold beta. field. lra.
      - intros i Hi. rewrite (AL i Hi). unfold Rdiv. ring.
      - intros i _. reflexivity. }
    rewrite E1. destruct (Rltb beta (dot n alpha u')) eqn:EC.
    - apply Rltb_spec in EC. apply Rltb_spec. nra.
    - apply Rltb_false in EC. apply Rltb_false. nra. }
  assert (HI := half_integral n alpha beta NA).
  destruct (C111_analysis fmin chol svd inv h expr f fo mo evn a0 s2 _ T A (rows_of n Ro) u off pre (Phi (- beta)) C3 EI2 eq_refl (rows_length n Ro))
    as (Pf & H1 & H2 & H3); try assumption.
  - reflexivity.
  - reflexivity.
  - rewrite (proj1 Hfo). discriminate.
  - rewrite (proj1 Hfo). cbn. lia.
  - lra.
  - refine (int_ext n _ _ _ _ HI). intros u'. cbn beta. fold n. rewrite FR. reflexivity.
  - fold n N in H1, H2, H3. exists Pf. split. { intros z. destruct (H1 z) as (a' & s' & E1 & E2). exists a', s'. split; [|exact E2]. unfold is_run_on. change (mb_type a0) with (fb_type a). rewrite EI1. exact E1. }
    split; [exact H2|]. split; [|apply variance_order; apply (lt_INR 0); unfold N; lia].
    apply H3. refine (int_ext n _ _ _ _ (is_second n alpha beta NA)). intros u'. cbn beta. rewrite FR, Hs. destruct (Rltb beta (dot n alpha u')); [|reflexivity].
    pose proof (C29_weight_is_likelihood_ratio n u 1 u' (-1) Rlt_0_1) as (W1 & _ & W2). specialize (W1 ltac:(lra)).
    replace (joint_density n u' ^ 2 / sampling_density n u 1 u') with (joint_density n u' / sampling_density n u 1 u' * joint_density n u') by (field; lra). f_equal. rewrite <- W1.
    rewrite weight_unit. unfold indicator. rewrite (proj2 (Rltb_spec (-1) 0) ltac:(lra)), Rmult_1_l. f_equal.
    rewrite (Base.dot_ext n u u (fun i => beta * alpha i) (fun i => beta * alpha i) UA UA), (Base.dot_ext n u u' (fun i => beta * alpha i) u' UA ltac:(intros i _; reflexivity)).
    rewrite !dot_scal_l, dot_scal_r, <- norm_sqr, NA. ring.
Qed.
Print Assumptions C111_importance_linear.

(** The hypotheses can be met: R - 3 S with R ~ N(m, 20), S ~ N(40, 5); 10 points in one block, the
    default target. *)
Theorem C111_importance_example : forall fmin off pre m, let beta := (m - 120) / 25 in
  exists a0 s1, is_new fmin chol2 svd2 inv2 101 10 expr_ex default_options None None (sm_run (h_sorm m)) = (Ok a0, s1) /\
  exists Pf : (nat -> R) -> R,
    (forall z, exists a' s', is_run_on fmin chol2 svd2 inv2 expr_ex default_options (mkmo 10 1000 (/ 20) 1 0) None (from off pre z) 11 a0 s1 off = (a', s', MEnd) /\ mb_res a' = Some (Pf z, reported_beta (Pf z))) /\
    is_mean 20 Pf (Phi (- beta)) /\
    is_mean 20 (fun z => (Pf z - Phi (- beta)) ^ 2) ((exp (beta ^ 2) * Phi (- (2 * beta)) - Phi (- beta) ^ 2) / 10).
Proof.
  intros fmin off pre m beta.
  destruct (ex_matrix m fmin) as (Ro & lg & E & PD & D0 & D1 & R01 & R10).
  destruct (C111_importance_linear fmin chol2 svd2 inv2 ERuntime (h_sorm m) expr_ex g_ex 10 (pick "R" "S")%string (pick m 40) (pick 20 5) (pick 1 (-3)) 0
     (eye_rows 2) Ro lg (mkFobj false "cholesky" None None) None default_options (mkmo 10 1000 (/ 20) 1 0) None 101 (sm_run (h_sorm m)) off pre) as (a0 & s1 & H1 & Pf & H2 & H3 & H4 & _);
    change (ndists (h_sorm m)) with 2%nat in *; try exact lapack2; try reflexivity; try exact pointwise_ex; try exact default_exact; try lra; try (cbn; lia); try exact E; try exact PD; try exact (ex_linear m).
  - repeat split.
  - intros i Hi. two i Hi; reflexivity.
  - intros i Hi. two i Hi; cbn; lra.
  - exists 0%nat. split; [lia|]. cbn. lra.
  - intros q Hq. cbn in Hq. destruct Hq as [<-|[<-|[]]]; reflexivity.
  - change (Z.to_nat (mo_samples (mkmo 10 1000 (/ 20) 1 0))) with 10%nat in *.
    set (v := fsum 2 (fun i => fsum 2 (fun j => pick 1 (-3) i * pick 20 5 i * Ro i j * (pick 1 (-3) j * pick 20 5 j)))) in *.
    assert (EV : v = 625) by (unfold v; cbn [fsum pick]; rewrite D0, D1, R01, R10; ring).
    assert (SV : sqrt v = 25) by (rewrite EV; replace 625 with (Rsqr 25) by (unfold Rsqr; ring); apply sqrt_Rsqr; lra).
    assert (EB : (0 + fsum 2 (fun i => pick 1 (-3) i * pick m 40 i)) / sqrt v = beta) by (unfold beta; rewrite SV; cbn [fsum pick]; field).
    rewrite EB in *. exists a0, s1. split; [exact H1|]. exists Pf. split; [exact H2|]. split; [exact H3|]. change (2 * 10)%nat with 20%nat in H4. replace 10 with (INR 10) by (cbn; ring). exact H4.
Qed.
Print Assumptions C111_importance_example.
