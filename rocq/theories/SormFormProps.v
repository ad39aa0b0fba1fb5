(** Property theorems C103: SORM with a Form object whose transformation has another type. *)
From Coquelicot Require Import Coquelicot.
From Verif Require Import Base Ext Dict Gauss GaussProofs StochModel StochModelSpec StochModelProofs LimitState LimitStateSpec LimitStateProofs LimitStateProps Transf TransfSpec TransfProofs Form FormProofs FormAffineProofs FormNormalProofs FormProps Nataf NatafProofs Dist RotSpec RotProofs RotProps ScaleFormProofs Pipe PipeSpec PipeProofs PipeProps SensSpec GramSchmidt GramSchmidtProofs Sorm SormProofs Valid SormRun SormRunSpec SormRunProofs SormRunProps SormQuadProofs SormFormSpec SormFormProofs.
From Verif Require Ss SsProofs.
From Coq Require Import ZArith Lra Lia Permutation.
Open Scope R_scope.

(** C103: a limit state linear in n >= 2 correlated normal variables; the Form object was run with the
    transformation of [aF], the Sorm object has the transformation of [aS] (its own Form run would give
    alphaS and the same beta).  Curve fitting still returns the FORM values.  Point fitting mixes the two
    spaces: it measures the plane alphaS.u = beta in coordinates whose last axis is the other alpha, and
    reports the curvatures of SormFormSpec, although the limit state is linear. *)
Theorem C103_foreign_form :
  forall fmin chol svd inv eig sort e0 h expr f lf nm (mu sd cf : vec) c0 M Ro log aF aS optF optS fo evn fuel,
  let n := ndists h in let s := sm_run h in
  lapack n chol svd inv e0 -> eig_contract (n - 1) eig -> sort_contract sort -> form_init optF = Ok aF -> form_init optS = Ok aS -> (2 <= n)%nat ->
  (forall i, (i < n)%nat -> nth_error (dists_of (accepted h)) i = Some (Normal (nm i) (mu i) (sd i))) ->
  (forall i, (i < n)%nat -> sd i <> 0) -> (exists i, (i < n)%nat /\ cf i <> 0) ->
  pointwise expr f -> (forall q, length q = n -> f (args_at h q) = c0 + fsum n (fun i => cf i * nth i q 0)) ->
  exact_options fo -> (n + 7 < lf)%nat -> (Z.to_nat (fo_imax fo) < fuel)%nat ->
  sm_corr s = Some M -> length M = n -> (forall r, In r M -> length r = n) ->
  computeModifiedCorrelationMatrix fmin n n (mat_of M) (fun i => marg_of (marg_at s i)) = Ok (Ro, log) -> pos_def n Ro ->
  let mean := c0 + fsum n (fun i => cf i * mu i) in
  let variance := fsum n (fun i => fsum n (fun j => (cf i * sd i) * Ro i j * (cf j * sd j))) in
  let beta := mean / sqrt variance in
  exists b s1 r alpha alphaS TF AF TS AS,
    (* the two transformations and the sensitivity vectors they give *)
    transf_compute chol svd inv (fb_type aF) n (mat_of (rows_of n Ro)) = Ok (TF, AF) /\ transf_compute chol svd inv (fb_type aS) n (mat_of (rows_of n Ro)) = Ok (TS, AS) /\
    veq n alpha (fun j => - fsum n (fun i => cf i * sd i * AF i j) / sqrt variance) /\ veq n alphaS (fun j => - fsum n (fun i => cf i * sd i * AS i j) / sqrt variance) /\
    run_form fmin chol svd inv fuel lf expr fo evn aF s = (b, s1, FDone r) /\ form_alpha n r = Some alpha /\ form_beta n r = Fin beta /\
    (exists bS sS rS, run_form fmin chol svd inv fuel lf expr fo evn aS s = (bS, sS, FDone rS) /\ form_alpha n rS = Some alphaS /\ form_beta n rS = Fin beta) /\
    sorm_new fmin chol svd inv fuel lf expr fo evn optS (Some b) s1 = (Ok (fb_type aS, b), s1) /\
    (1 / 100000000 < Rabs (alpha (n - 1)%nat) -> forall st print, let run fit := sorm_run_on fmin chol svd inv eig sort lf expr fo evn fit print (fb_type aS) b st s1 in
       (0 <= beta -> exists st' s', run "cf"%string = (st', s', Ok tt) /\ agrees_with_form st' (n - 1) beta /\ sm_calls s' = (sm_calls s1 + (1 + n) * (1 + n))%nat) /\
       (beta <> 0 -> let c := dot n alpha alphaS in exists (axis : nat -> vec) t,
          (forall i j, (i < n - 1)%nat -> (j < n - 1)%nat -> dot n (axis i) (axis j) = delta i j /\ dot n (axis i) alpha = 0) /\
          Rabs t = Rmax 1 (Rmin (Rabs beta) 3) /\
          let d i := dot n (axis i) alphaS in
          (1 / 1000000000000 <= sqrt variance * Rabs c ->
           (forall i, (i < n - 1)%nat -> 1 / 1000000 <= sqrt variance * Rabs (beta * (1 - c) - t * d i) /\ 1 / 1000000 <= sqrt variance * Rabs (beta * (1 - c) + t * d i)) ->
           let km i := spurious beta c (- t) (d i) in let kp i := spurious beta c t (d i) in
           exists st' s', run "pf"%string = (st', s', Ok tt) /\
             so_kpf st' = Some (map km (seq 0 (n - 1)), map kp (seq 0 (n - 1))) /\
             so_kappa st' = Some (repeat (2 * beta * (1 - c) / (c * (t * t))) (n - 1)) /\
             two_sided beta (n - 1) km kp (so_pf st') (so_bg st') /\
             sm_calls s' = (sm_calls s1 + 4 * (n - 1) * (1 + n))%nat))).
Proof.
  intros fmin chol svd inv eig sort e0 h expr f lf nm mu sd cf c0 M Ro lg aF aS optF optS fo evn fuel n s Hlap Heig Hsort HaF HaS Hn2 HN Hsd Hcf Hp Hlin Hfo Hlf Hfu HM HM1 HM2 HRo HPD mean variance beta.
  assert (Hn : (1 <= n)%nat) by lia.
  destruct (lin_run fmin chol svd inv e0 h expr f lf nm mu sd cf c0 M Ro lg aF optF fo evn fuel Hlap HaF Hn HN Hsd Hcf Hp Hlin Hfo Hlf Hfu HM HM1 HM2 HRo HPD)
    as (TF & AF & b & cF & r & u & H). cbv zeta in H. fold n s in H. fold mean variance in H. fold beta in H.
  destruct H as (ER & ETA & ERes & Eu & _ & _ & AL & _ & EB & ETF & _ & _ & ENF & VP & EM & _).
  destruct (lin_run fmin chol svd inv e0 h expr f lf nm mu sd cf c0 M Ro lg aS optS fo evn fuel Hlap HaS Hn HN Hsd Hcf Hp Hlin Hfo Hlf Hfu HM HM1 HM2 HRo HPD)
    as (T & A & bS & cS & rS & uS & H). cbv zeta in H. fold n s in H. fold mean variance in H. fold beta in H.
  destruct H as (ERS & _ & _ & EuS & _ & _ & ALS & _ & EBS & ET & HT & _ & EN & _ & _ & EA).
  set (avF := fun j => - fsum n (fun i => cf i * sd i * AF i j)) in *. set (av := fun j => - fsum n (fun i => cf i * sd i * A i j)) in *.
  assert (SV := sqrt_lt_R0 _ VP). assert (NA : norm n av <> 0) by (rewrite EN; lra). assert (NAF : norm n avF <> 0) by (rewrite ENF; lra).
  set (alpha := alpha_of n (fr_grad r)) in *. set (alphaS := alpha_of n (fr_grad rS)) in *.
  set (s1 := addCallFunction (setModifiedCorrelation s (rows_of n Ro)) cF) in *.
  assert (FA : form_alpha n r = Some alpha) by (unfold form_alpha; rewrite Eu; reflexivity).
  assert (FAS : form_alpha n rS = Some alphaS) by (unfold form_alpha; rewrite EuS; reflexivity).
  exists b, s1, r, alpha, alphaS, TF, AF, T, A.
  split; [exact ETF|]. split; [exact ET|]. split; [exact AL|]. split; [exact ALS|]. split; [exact ER|]. split; [exact FA|]. split; [exact EB|]. split; [do 3 eexists; split; [exact ERS|]; split; [exact FAS|exact EBS]|].
  split; [unfold sorm_new; rewrite HaS; reflexivity|]. intros HL st print run.
  assert (C1 : same_core s s1) by (repeat split).
  assert (EI : init_run_full fmin chol svd inv (fb_type aS) s1 = (setModifiedCorrelation s1 (rows_of n Ro), Ok (T, A))).
  { unfold init_run_full, setModifiedCorrelationMatrix. change (sm_corr s1) with (sm_corr s). rewrite HM, HM1, (rows_square n M HM2).
    change (length (sm_marg s1)) with (length (sm_marg s)). rewrite EM. change (fun i => marg_of (marg_at s1 i)) with (fun i => marg_of (marg_at s i)). rewrite HRo.
    cbn [setModifiedCorrelation sm_Ro]. rewrite rows_length, ET. reflexivity. }
  set (s2 := setModifiedCorrelation s1 (rows_of n Ro)) in *. assert (C2 : same_core s s2) by (repeat split).
  assert (EM2 : length (sm_marg s2) = n) by exact EM.
  assert (Hls := proj1 Hfo).
  assert (HJ : forall i z x z' x', rv_jac (marg_at s i) z x = rv_jac (marg_at s i) z' x').
  { intros i z x z' x'. destruct (Nat.lt_ge_cases i n) as [Hi|Hi].
    - unfold s. rewrite (ln_marg h nm mu sd HN i Hi). reflexivity.
    - unfold marg_at. rewrite nth_overflow by (rewrite EM; exact Hi). reflexivity. }
  assert (HS : forall s' u', same_core s s' -> exists g,
     sev inv lf expr fo n T A s' (vlist n (u_to_x n A (marg_at s') u')) = (Ok (mean - dot n av u', g), addCallFunction s' (eval_cost n fo)) /\ veq n g (fun i => - av i)).
  { intros s' u' HC. destruct (EA u') as (g & k & Ev & Eg). exists g. split; [|exact Eg].
    rewrite (sev_form inv lf expr fo n T A s' s u' HC HJ) by (rewrite Hls; eauto). rewrite Hls, Ev. cbn [fst snd]. f_equal. f_equal.
    rewrite (form_ev_cost lf s expr default_ls n T A inv (marg_at s) u' _ k ltac:(cbn; lia) Ev). unfold eval_cost. rewrite Hls. reflexivity. }
  assert (CO : eval_cost n fo = (1 + n)%nat) by (unfold eval_cost; rewrite Hls; reflexivity).
  assert (Hff : o_ffdpara (fo_ls fo) <> 0) by (rewrite Hls; cbn; apply Rgt_not_eq; lra).
  assert (UN : norm n alpha = 1). { apply (alpha_unit n avF alpha); [rewrite ENF; exact AL|exact NAF]. }
  destruct (om_succeeds n alpha Hn2 UN HL) as (R1 & ER1).
  assert (AV : veq n av (fun i => sqrt variance * alphaS i)). { intros i Hi. cbv beta. rewrite (ALS i Hi). unfold av. field. lra. }
  split.
  - intros Hb. unfold run, sorm_run_on. rewrite EI. cbv zeta. rewrite EM2, ERes, ETA, Eu, FA, EB. cbn [String.eqb Ascii.eqb Bool.eqb].
    rewrite (curvefit_foreign inv eig sort lf expr fo n T A s av mean HS HT Hff AF alpha (fr_grad r) beta u s2 C2 Heig Hsort).
    rewrite ER1. cbn [rbind]. unfold sorm_run. cbn [si_init String.eqb Ascii.eqb Bool.eqb si_cf]. cbv zeta.
    unfold pf_breitung, pf_breitung_m. rewrite (breit_zero beta beta) by now apply guard_zero_pos. rewrite (breit_zero beta (psi beta)) by (apply guard_zero_pos; pose proof (psi_pos beta); lra).
    cbn [sr_msg sr_pf sr_beta cf_attr si_print]. unfold cf_attr. cbn [sr_msg].
    eexists. eexists. split; [refine (f_equal (fun o => (_, _, o)) _); destruct print; [unfold sorm_show; cbn; destruct (so_kpf st) as [[? ?]|]; reflexivity|reflexivity]|].
    split; [unfold agrees_with_form; repeat split; reflexivity|]. rewrite CO. reflexivity.
  - intros Hb c. destruct (om_ok n alpha R1 UN ER1) as (_ & HO & _ & HLr & _).
    exists R1, (step_coeff beta * beta). split.
    { intros i j Hi Hj. split; [apply HO; lia|]. rewrite (Base.dot_ext n (R1 i) alpha (R1 i) (R1 (n - 1)%nat)) by (first [intros k Hk; now rewrite (HLr k Hk)|intros k _; reflexivity]). rewrite HO by lia. apply delta_neq. lia. }
    assert (ST := proj1 (step_coeff_spec beta Hb)). split; [exact ST|].
    intros d Hc Hd km kp. set (k := step_coeff beta) in *. set (t := k * beta) in *.
    assert (DD : forall i, dot n (R1 i) av = sqrt variance * d i).
    { intros i. unfold d. rewrite <- dot_scal_r. apply Base.dot_ext; intros j Hj; [reflexivity|exact (AV j Hj)]. }
    assert (CC : dot n (R1 (n - 1)%nat) av = sqrt variance * c).
    { unfold c. rewrite DD. unfold d. f_equal. apply Base.dot_ext; intros j Hj; [exact (HLr j Hj)|reflexivity]. }
    assert (MB : mean = sqrt variance * beta) by (unfold beta; field; lra).
    assert (SA : forall x, Rabs (sqrt variance * x) = sqrt variance * Rabs x) by (intros x; rewrite Rabs_mult, (Rabs_right (sqrt variance)) by lra; reflexivity).
    assert (T1 : 1 <= Rabs t) by (rewrite ST; apply Rmax_l).
    assert (TN : t <> 0) by (intros X; rewrite X, Rabs_R0 in T1; lra).
    assert (CN : c <> 0) by (intros X; rewrite X, Rabs_R0 in Hc; lra).
    assert (EP : pointfit inv lf expr fo evn n T A alpha beta s2 = (Ok (beta, map km (seq 0 (n - 1)), map kp (seq 0 (n - 1))), addCallFunction s2 (4 * (n - 1) * (1 + n)))).
    { unfold pointfit. rewrite ER1, (proj2 (Reqb_false _ _) Hb). fold k.
      rewrite (fit_axes_foreign inv lf expr fo n T A s av mean HS R1 beta k Hn2); [|rewrite CC, SA; lra|fold t; lra|intros i Hi; apply in_seq in Hi; lia| |exact C2].
      - rewrite seq_length, CO. f_equal. f_equal. f_equal; [f_equal|]; apply map_ext_in; intros i Hi; unfold km, kp, spurious; fold t; rewrite DD, CC, MB; field; repeat split; try assumption; lra.
      - intros i Hi. apply in_seq in Hi. rewrite DD, CC, MB. fold t. destruct (Hd i ltac:(lia)) as (D1 & D2). rewrite <- SA in D1, D2.
        split; [replace (sqrt variance * beta - t * (sqrt variance * d i) - beta * (sqrt variance * c)) with (sqrt variance * (beta * (1 - c) - t * d i)) by ring; exact D1
               |replace (sqrt variance * beta + t * (sqrt variance * d i) - beta * (sqrt variance * c)) with (sqrt variance * (beta * (1 - c) + t * d i)) by ring; exact D2]. }
    unfold run, sorm_run_on. rewrite EI. cbv zeta. rewrite EM2, ERes, ETA, Eu, FA, EB. cbn [String.eqb Ascii.eqb Bool.eqb]. rewrite EP.
    unfold sorm_run. cbn [si_init String.eqb Ascii.eqb Bool.eqb si_pf si_sort]. cbv zeta.
    assert (ZA : map (fun q => / 2 * (fst q + snd q)) (combine (map km (seq 0 (n - 1))) (map kp (seq 0 (n - 1)))) = repeat (2 * beta * (1 - c) / (c * (t * t))) (n - 1)).
    { rewrite <- (seq_length (n - 1) 0) at 3. generalize (seq 0 (n - 1)). intros l. induction l as [|x l IH]; [reflexivity|]. cbn. rewrite IH. f_equal.
      unfold km, kp, spurious. field. split; assumption. }
    rewrite ZA.
    assert (SR : forall x m, sort (repeat x m) = repeat x m).
    { intros x m. destruct (Hsort (repeat x m)) as (P & _). pose proof (Permutation_length P) as L. rewrite repeat_length in L.
      assert (Z : forall y, In y (sort (repeat x m)) -> y = x) by (intros y Hy; apply (Permutation_in _ P), repeat_spec in Hy; exact Hy).
      revert L Z. generalize (sort (repeat x m)). intros l. clear. revert m. induction l as [|y l IH]; intros [|m] L Z; cbn in *; try lia; [reflexivity|].
      rewrite (Z y) by now left. f_equal. apply IH; [lia|]. intros z Hz. apply Z. now right. }
    rewrite SR. eexists. eexists. split; [refine (f_equal (fun o => (_, _, o)) _); destruct print; reflexivity|].
    split; [reflexivity|]. split; [reflexivity|]. cbn [so_pf so_bg]. split; [apply two_sided_breit; reflexivity|reflexivity].
Qed.
Print Assumptions C103_foreign_form.

(** *** The hypotheses are met, and the reported probability can be 0: R - 3 S with R ~ N(200, 20) and
    S ~ N(40, 5), correlation 7/25, so that beta = 80 / sqrt 457 = 3.74.  The Form object used the Cholesky
    factor, the Sorm object uses the SVD: point fitting reports Pf = 0 and a generalised index of 0. *)
Definition h_c : list smop := h_pipe ++ [OpSetCorr [[1; 7/25]; [7/25; 1]]].
Theorem C103_zero_probability_refuted : exists b s1 r st' s',
  let fmin := fun (_ : R -> R) (x : R) => x in
  run_form fmin chol2 svd2 inv2 101 10 expr_ex default_options None aF (sm_run h_c) = (b, s1, FDone r) /\ form_beta 2 r = Fin (80 / sqrt 457) /\
  sorm_new fmin chol2 svd2 inv2 101 10 expr_ex default_options None (Some "svd"%string) (Some b) s1 = (Ok ("svd"%string, b), s1) /\
  sorm_run_on fmin chol2 svd2 inv2 eig1 Ss.sort 10 expr_ex default_options None "pf"%string true "svd"%string b sorm_init s1 = (st', s', Ok tt) /\
  so_pf st' = SArr (Fin 0) /\ so_bg st' = SArr (Fin 0).
Proof.
  destruct (modified_ok (fun _ x => x) 2 (mat_of [[1; 7/25]; [7/25; 1]]) (fun i => marg_of (marg_at (sm_run h_c) i)) 2 (le_n 2)) as (Ro & E & D & S & L & _).
  match type of E with _ = Ok (_, ?x) => set (lg := x) in * end.
  assert (R10 : Ro 1%nat 0%nat = 7 / 25).
  { rewrite L by lia. unfold pair_value. unfold mat_of. cbn [nth]. replace (Reqb (7/25) 0) with false by (symmetry; apply Reqb_false; lra). reflexivity. }
  assert (R01 : Ro 0%nat 1%nat = 7 / 25) by (rewrite (S 0%nat 1%nat); exact R10).
  assert (PD : pos_def 2 Ro).
  { intros v (i & Hi & Hv). cbn [fsum]. rewrite !D, R01, R10.
    assert (v 0%nat <> 0 \/ v 1%nat <> 0) as [X|X] by (two i Hi; [left|right]; exact Hv); pose proof (Rsqr_pos_lt _ X); unfold Rsqr in *; nra. }
  set (aS := mkFobj false "svd" None None).
  destruct (C103_foreign_form (fun _ x => x) chol2 svd2 inv2 eig1 Ss.sort ERuntime h_c expr_ex g_ex 10 (pick "R" "S")%string (pick 200 40) (pick 20 5) (pick 1 (-3)) 0
     [[1; 7/25]; [7/25; 1]] Ro lg aF aS None (Some "svd"%string) default_options None 101)
     as (b & s1 & r & alpha & alphaS & TF & AF & TS & AS & ETF & ETS & HA & HAS & ER & FA & EB & _ & EN & HR);
    change (ndists h_c) with 2%nat; try exact lapack2; try exact eig1_contract; try reflexivity; try exact pointwise_ex; try exact default_exact; try exact sort_ok; try lia; try exact E; try exact PD.
  - intros i Hi. now apply h_pipe_norm.
  - intros i Hi. two i Hi; cbn; lra.
  - exists 0%nat. split; [lia|]. cbn. lra.
  - intros q Hq. now apply h_pipe_lin.
  - cbn. lia.
  - intros q [<-|[<-|[]]]; reflexivity.
  - change (ndists h_c) with 2%nat in *. change (2 - 1)%nat with 1%nat in *. change (fb_type aF) with "cholesky"%string in *. change (fb_type aS) with "svd"%string in *.
    set (v := fsum 2 (fun i => fsum 2 (fun j => pick 1 (-3) i * pick 20 5 i * Ro i j * (pick 1 (-3) j * pick 20 5 j)))) in *.
    assert (EV : v = 457) by (unfold v; cbn [fsum pick]; rewrite !D, R01, R10; field).
    replace (0 + fsum 2 (fun i => pick 1 (-3) i * pick 200 40 i)) with 80 in * by (cbn [fsum pick]; ring). rewrite EV in *.
    set (q := sqrt 457) in *. assert (Q2 : q * q = 457) by (apply sqrt_sqrt; lra).
    assert (Q0 : 0 < q) by (apply sqrt_lt_R0; lra). assert (QL : 21 < q) by nra. assert (QU : q < 22) by nra.
    set (P := mat_of (rows_of 2 Ro)) in *.
    assert (P00 : P 0%nat 0%nat = 1) by (unfold P; rewrite mat_rows by lia; apply D). assert (P11 : P 1%nat 1%nat = 1) by (unfold P; rewrite mat_rows by lia; apply D).
    assert (P01 : P 0%nat 1%nat = 7 / 25) by (unfold P; rewrite mat_rows by lia; exact R01). assert (P10 : P 1%nat 0%nat = 7 / 25) by (unfold P; rewrite mat_rows by lia; exact R10).
    assert (SP : spd2 P = true). { apply spd2_spec. unfold det2. rewrite P00, P01, P10, P11. split; [reflexivity|]. split; lra. }
    (* the two factors *)
    assert (F1 : AF 0%nat 0%nat = 1 /\ AF 0%nat 1%nat = 0 /\ AF 1%nat 0%nat = 7 / 25 /\ AF 1%nat 1%nat = 24 / 25).
    { unfold transf_compute in ETF. cbn [String.eqb Ascii.eqb Bool.eqb] in ETF. unfold computeCholesky, chol2 in ETF. rewrite SP in ETF. cbn [rbind] in ETF.
      destruct (inv2 2 _) as [X|] in ETF; [|discriminate]. cbn [rbind] in ETF. injection ETF as _ <-. unfold det2. rewrite P00, P01, P10, P11, sqrt_1.
      assert (X1 : sqrt (1 * 1 - 7 / 25 * (7 / 25)) = 24 / 25) by (apply sqrt_lem_1; lra). rewrite X1. repeat split; lra. }
    assert (F2 : AS 0%nat 0%nat = 4 / 5 /\ AS 0%nat 1%nat = 3 / 5 /\ AS 1%nat 0%nat = 4 / 5 /\ AS 1%nat 1%nat = - 3 / 5).
    { unfold transf_compute in ETS. cbn [String.eqb Ascii.eqb Bool.eqb] in ETS. unfold computeSVD, svd2 in ETS. rewrite SP in ETS. rewrite P00, P01, P11 in ETS.
      destruct (Reqb (7 / 25) 0) eqn:B; [apply Reqb_spec in B; lra|]. cbn [rbind fst snd] in ETS.
      assert (X1 : sqrt (((1 - 1) / 2) ^ 2 + (7 / 25) ^ 2) = 7 / 25) by (apply sqrt_lem_1; lra). rewrite X1 in ETS.
      replace ((1 + 1) / 2 + 7 / 25) with (32 / 25) in ETS by lra. replace ((1 + 1) / 2 - 7 / 25) with (18 / 25) in ETS by lra.
      replace (32 / 25 - 1) with (7 / 25) in ETS by lra. replace (18 / 25 - 1) with (- (7 / 25)) in ETS by lra.
      replace ((7 / 25) ^ 2 + (- (7 / 25)) ^ 2) with ((7 / 25) ^ 2 + (7 / 25) ^ 2) in ETS by ring.
      set (m := sqrt ((7 / 25) ^ 2 + (7 / 25) ^ 2)) in *.
      assert (M2 : m * m = 98 / 625) by (unfold m; rewrite sqrt_sqrt by lra; field). assert (M0 : 0 < m) by (apply sqrt_lt_R0; lra).
      destruct (inv2 2 _) as [X|] in ETS; [|discriminate]. cbn [rbind] in ETS. injection ETS as _ <-. unfold mmul. cbn [fsum Nat.eqb].
      assert (G : forall l z, 0 <= z -> 0 <= l -> l / 2 = z * z -> 7 / 25 / m * sqrt l = z).
      { intros l z Hz Hl Hq. assert (0 <= 7 / 25 / m * sqrt l) by (apply Rmult_le_pos; [apply Rlt_le, Rdiv_lt_0_compat; lra|apply sqrt_pos]).
        apply Rsqr_inj; [assumption|assumption|]. unfold Rsqr. transitivity (49 / 625 / (m * m) * (sqrt l * sqrt l)); [field; lra|]. rewrite M2, sqrt_sqrt by exact Hl. rewrite <- Hq. field. }
      assert (G1 := G (32 / 25) (4 / 5) ltac:(lra) ltac:(lra) ltac:(lra)). assert (G2 := G (18 / 25) (3 / 5) ltac:(lra) ltac:(lra) ltac:(lra)).
      repeat split; cbn; rewrite ?Rmult_0_r, ?Rmult_0_l; try lra. }
    destruct F1 as (F100 & F101 & F110 & F111). destruct F2 as (F200 & F201 & F210 & F211).
    assert (A0 := HA 0%nat ltac:(lia)). assert (A1 := HA 1%nat ltac:(lia)). assert (B0 := HAS 0%nat ltac:(lia)). assert (B1 := HAS 1%nat ltac:(lia)).
    cbn [fsum pick] in A0, A1, B0, B1. rewrite F100, F110 in A0. rewrite F101, F111 in A1. rewrite F200, F210 in B0. rewrite F201, F211 in B1.
    assert (AL : 1 / 100000000 < Rabs (alpha 1%nat)).
    { rewrite A1. replace (- (0 + 1 * 20 * 0 + -3 * 5 * (24 / 25)) / q) with (72 / 5 / q) by (field; lra). rewrite Rabs_right by (apply Rle_ge, Rlt_le, Rdiv_lt_0_compat; lra).
      apply Rmult_lt_reg_r with q; [lra|]. unfold Rdiv at 2. rewrite Rmult_assoc, Rinv_l by lra. nra. }
    destruct (HR AL sorm_init true) as (_ & HP). set (beta := 80 / q) in *.
    assert (BQ : beta * q = 80) by (unfold beta; field; lra). assert (BL : 363 / 100 < beta) by nra.
    specialize (HP ltac:(lra)). cbv zeta in HP.
    assert (EC : dot 2 alpha alphaS = - 2392 / 4570).
    { unfold dot. cbn [fsum]. rewrite A0, A1, B0, B1. transitivity (- (2392 / 10) / (q * q)); [field; lra|]. rewrite Q2. field. }
    rewrite EC in HP. destruct HP as (ax & t & HO & Ht & HP).
    rewrite (Rabs_right beta), Rmin_right, Rmax_right in Ht by lra.
    assert (T2 : t * t = 9) by (rewrite <- (Rabs_right (t * t)) by nra; rewrite Rabs_mult, Ht; lra).
    set (d := dot 2 (ax 0%nat) alphaS) in *.
    assert (DB : (t * d) * (t * d) <= 9).
    { assert (N1 : dot 2 (ax 0%nat) (ax 0%nat) = 1) by exact (proj1 (HO 0%nat 0%nat ltac:(lia) ltac:(lia))).
      assert (N2 : alphaS 0%nat * alphaS 0%nat + alphaS 1%nat * alphaS 1%nat = 1).
      { rewrite B0, B1. transitivity (457 / (q * q)); [field; lra|]. rewrite Q2. field. }
      unfold dot in N1. cbn [fsum] in N1. unfold d, dot. cbn [fsum].
      set (x := ax 0%nat 0%nat) in *. set (y := ax 0%nat 1%nat) in *. set (z := alphaS 0%nat) in *. set (w := alphaS 1%nat) in *.
      assert ((0 + x * z + y * w) * (0 + x * z + y * w) <= 1); [|nra].
      assert (0 <= (x * w - y * z) * (x * w - y * z)) by apply Rle_0_sqr.
      assert ((x * x + y * y) * (z * z + w * w) = 1) by (rewrite N2; replace (x * x + y * y) with 1 by lra; ring). nra. }
    set (y := t * d) in *.
    assert (YL : -3 <= y) by nra. assert (YU : y <= 3) by nra.
    set (w := beta * (1 - - 2392 / 4570)) in *. assert (WL : 55 / 10 <= w) by (unfold w; lra).
    destruct HP as (st' & s' & ERn & _ & _ & (_ & TS2) & _).
    { rewrite Rabs_left by lra. nra. }
    { intros i Hi. replace i with 0%nat by lia. fold d. fold y. rewrite !Rabs_right by lra. split; nra. }
    exists b, s1, r, st', s'. cbv zeta. split; [exact ER|]. split; [exact EB|]. split; [exact EN|]. split; [exact ERn|].
    apply TS2. exists 0%nat. split; [lia|]. fold d. unfold spurious. fold w.
    assert (W2 : 1996 / 100 <= beta * w) by nra.
    assert (K : forall x, 0 <= x -> 1 + beta * (2 * (w - - x) / (- 2392 / 4570 * (t * t))) <= 0).
    { intros x Hx. rewrite T2. replace (1 + beta * (2 * (w - - x) / (- 2392 / 4570 * 9))) with (1 - (beta * w + beta * x) * (9140 / 21528)) by field. nra. }
    destruct (Rle_lt_dec 0 y) as [Y|Y].
    + left. replace (w - - t * d) with (w - - y) by (unfold y; ring). replace (- t * - t) with (t * t) by ring. now apply K.
    + right. fold y. replace (w - y) with (w - - - y) by ring. apply K. lra.
Qed.
Print Assumptions C103_zero_probability_refuted.
