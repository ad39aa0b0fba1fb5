(** Property theorems C99: SORM on quadratic limit states in normal variables, with the user's gradient. *)
From Coquelicot Require Import Coquelicot.
From Verif Require Import Base Ext Dict Gauss GaussProofs StochModel StochModelSpec StochModelProofs LimitState LimitStateSpec LimitStateProofs LimitStateProps Transf TransfSpec TransfProofs Form FormProofs FormAffineProofs FormNormalProofs FormProps Nataf NatafProofs Dist RotSpec RotProofs RotProps ScaleFormProofs Pipe PipeSpec PipeProofs PipeProps GramSchmidt GramSchmidtProofs Sorm SormProofs Valid SormRun SormRunSpec SormRunProofs SormRunProps SormQuadSpec SormQuadProofs.
From Verif Require Ss SsProofs.
From Coq Require Import ZArith Lra Lia Permutation.
Open Scope R_scope.

Lemma breit_values_cf beta c kappa : 0 < c -> (forall k, In k kappa -> 0 < 1 + c * k) ->
  sr_msg (breitung_cf beta c kappa) = false /\
  breitung_values beta c kappa (cf_attr (breitung_cf beta c kappa) (sr_pf (breitung_cf beta c kappa))) (cf_attr (breitung_cf beta c kappa) (sr_beta (breitung_cf beta c kappa))).
Proof.
  intros Hc HK. rewrite (breit_ok beta c kappa Hc).
  2: { apply Forall_forall. intros k Hk. specialize (HK k Hk). apply Rmult_lt_reg_l with c; [exact Hc|]. unfold Rdiv. replace (c * (-1 * / c)) with (-1) by (field; lra). lra. }
  cbv zeta. unfold cf_attr. cbn [sr_msg sr_pf sr_beta]. split; [reflexivity|]. split; [reflexivity|].
  intros z Hz. unfold bprod. rewrite <- Hz, xppf_in by apply Phi_bound. rewrite ppf_Phi. cbn [xneg]. now rewrite Ropp_involutive.
Qed.
Lemma breit_values_pf beta c kappa : (forall k, In k kappa -> 0 < 1 + c * k) ->
  breitung_values beta c kappa (pf_attr (sr_pf (breitung_pf beta c kappa kappa))) (pf_attr (sr_beta (breitung_pf beta c kappa kappa))).
Proof.
  intros HK. rewrite (breit_pf_ok beta c kappa kappa) by (apply Forall_forall; exact HK). cbv zeta. rewrite pfprod_same.
  unfold pf_attr. cbn [sr_pf sr_beta]. split; [reflexivity|].
  intros z Hz. unfold bprod. rewrite <- Hz, xppf_in by apply Phi_bound. rewrite ppf_Phi. cbn [xneg]. now rewrite Ropp_involutive.
Qed.

(** C99 *)
Theorem C99_paraboloid :
  forall fmin chol svd inv eig sort e0 h expr f gr lf nm (mu sd cf : vec) c0 (Q : mat) M Ro log a opt fo evn fuel,
  let n := ndists h in let s := sm_run h in
  lapack n chol svd inv e0 -> eig_contract (n - 1) eig -> sort_contract sort -> form_init opt = Ok a -> (2 <= n)%nat ->
  (forall i, (i < n)%nat -> nth_error (dists_of (accepted h)) i = Some (Normal (nm i) (mu i) (sd i))) ->
  (forall i, (i < n)%nat -> sd i <> 0) -> (exists i, (i < n)%nat /\ cf i <> 0) ->
  with_gradient expr f gr ->
  (forall q, length q = n -> f (args_at h q) = quad_value n c0 cf mu Q q /\ gr (args_at h q) = quad_gradient n cf mu Q q) ->
  symmetric n Q ->
  (forall i, (i < n)%nat -> fsum n (fun j => Q i j * (sd j * fsum n (fun k => Ro j k * (sd k * cf k)))) = 0) ->
  ddm_options fo -> (6 < lf)%nat -> (Z.to_nat (fo_imax fo) < fuel)%nat ->
  sm_corr s = Some M -> length M = n -> (forall r, In r M -> length r = n) ->
  computeModifiedCorrelationMatrix fmin n n (mat_of M) (fun i => marg_of (marg_at s i)) = Ok (Ro, log) -> pos_def n Ro ->
  let mean := c0 + fsum n (fun i => cf i * mu i) in
  let variance := fsum n (fun i => fsum n (fun j => (cf i * sd i) * Ro i j * (cf j * sd j))) in
  let beta := mean / sqrt variance in
  exists b r T A alpha s1, sorm_new fmin chol svd inv fuel lf expr fo evn opt None s = (Ok (fb_type a, b), s1) /\
    fb_res b = Some r /\ fb_TA b = Some (T, A) /\ transf_compute chol svd inv (fb_type a) n (mat_of (rows_of n Ro)) = Ok (T, A) /\ inverse_pair n T A /\ factor_of n A Ro /\
    form_alpha n r = Some alpha /\ veq n alpha (fun j => - fsum n (fun i => cf i * sd i * A i j) / sqrt variance) /\ form_beta n r = Fin beta /\
    let H := u_hessian n A sd Q in
    (1 / 100000000 < Rabs (alpha (n - 1)%nat) -> forall st print,
       let run fit := sorm_run_on fmin chol svd inv eig sort lf expr fo evn fit print (fb_type a) b st s1 in
       (0 < beta -> exists kappa st' s' out, run "cf"%string = (st', s', out) /\
          principal_curvatures n H alpha (sqrt variance) kappa /\ ascending kappa /\ so_kappa st' = Some kappa /\
          sm_calls s' = (sm_calls s1 + (1 + n))%nat /\
          ((forall k, In k kappa -> 0 < 1 + beta * k) -> breitung_values beta beta kappa (so_pf st') (so_bg st') /\ out = Ok tt) /\
          ((forall k, In k kappa -> 0 < 1 + psi beta * k) -> breitung_values beta (psi beta) kappa (so_pfm st') (so_bgm st'))) /\
       (beta <> 0 -> 1 / 1000000000000 <= sqrt variance -> exists (rows : nat -> vec) st' s', run "pf"%string = (st', s', Ok tt) /\
          orthonormal_matrix n alpha = Ok rows /\
          (forall i j, (i < n - 1)%nat -> (j < n - 1)%nat -> dot n (rows i) (rows j) = delta i j /\ dot n (rows i) alpha = 0) /\
          let s2 := Rmax 1 (Rmin (Rabs beta) 3) * Rmax 1 (Rmin (Rabs beta) 3) in
          let kappa := map (fun i => fitted n H (sqrt variance) s2 (rows i)) (seq 0 (n - 1)) in
          so_kpf st' = Some (kappa, kappa) /\ so_kappa st' = Some (sort kappa) /\
          (sm_calls s1 <= sm_calls s' <= sm_calls s1 + 4 * (n - 1))%nat /\
          ((forall k, In k kappa -> 0 < 1 + beta * k) -> breitung_values beta beta kappa (so_pf st') (so_bg st')) /\
          ((forall k, In k kappa -> 0 < 1 + psi beta * k) -> breitung_values beta (psi beta) kappa (so_pfm st') (so_bgm st')))).
Proof.
  intros fmin chol svd inv eig sort e0 h expr f gr lf nm mu sd cf c0 Q M Ro lg a opt fo evn fuel n s Hlap Heig Hsort Ha Hn2 HN Hsd Hcf Hg Hq HQ HK Hfo Hlf Hfu HM HM1 HM2 HRo HPD mean variance beta.
  assert (Hn : (1 <= n)%nat) by lia.
  destruct (ln_factor fmin chol svd inv e0 h M Ro lg a opt Hlap Ha HRo HPD) as (T & A & ET & HT & HF). fold n in ET, HT, HF.
  set (av := fun j => - fsum n (fun i => cf i * sd i * A i j)). set (H := u_hessian n A sd Q).
  assert (VP : 0 < variance) by exact (ln_v_pos h sd cf Ro Hsd Hcf HPD).
  assert (SV := sqrt_lt_R0 _ VP). assert (SQ := sqrt_sqrt variance ltac:(lra)).
  assert (EN : norm n av = sqrt variance).
  { unfold norm, dot, variance. f_equal. rewrite <- (quad_norm n A Ro _ HF). apply fsum_ext. intros k _. unfold av. ring. }
  assert (NA : norm n av <> 0) by (rewrite EN; lra).
  destruct Hfo as (Hd & Hmp & Hbs & Hff & He2 & Hst). destruct Hlap as (_ & _ & (I1 & I2 & I3) & _).
  assert (HMg : forall i, (i < n)%nat -> (forall z, rv_u2x (marg_at s i) z = mu i + sd i * z) /\ forall z x, rv_jac (marg_at s i) z x = / sd i).
  { intros i Hi. unfold s. rewrite (ln_marg h nm mu sd HN i Hi). split; [intros z; cbn; ring|intros z x; cbn; unfold Rdiv; ring]. }
  assert (HIex : forall X Y, inverse_pair n Y X -> exists C, inv n X = Ok C) by assumption.
  assert (HHa : veq n (mvec n H av) (fun _ => 0)) by exact (kernel_cond n A Ro sd cf Q HF HK).
  assert (HHs : symmetric n H) by exact (hessian_sym n A sd Q HQ).
  set (ev := form_ev lf s expr (fo_ls fo) n T A inv (marg_at s)). set (tr := form_trial lf s expr (fo_ls fo) n A (marg_at s)).
  assert (EA : forall u, exists g k, ev u = (Ok (qval n av mean H u, g), k) /\ veq n g (fun i => - av i + mvec n H u i)).
  { intros u. apply (q_ev h expr f gr (fo_ls fo) lf T A inv (marg_at s) c0 cf mu sd Q); assumption. }
  assert (ETr : forall us, length us = ntrial -> exists k, tr us = (Ok (map (qval n av mean H) us), k)).
  { intros us Hus. apply (q_trial h expr f gr (fo_ls fo) lf A (marg_at s) c0 cf mu sd Q); assumption. }
  assert (U0 : veq n (computeStartingPoint n T (marg_at s)) (fun _ => 0)) by exact (PipeProps.ln_start h nm mu sd HN T).
  destruct (quad_exact n fo ev tr evn av mean H NA HHa EA ETr fuel (computeStartingPoint n T (marg_at s)) Hmp He2 Hst Hfu U0) as (r & c & u & E & E0 & EB & Eu & Hu & EG).
  assert (EM : length (sm_marg s) = n) by (destruct (registry h) as (_ & _ & X & _); unfold s; rewrite X; reflexivity).
  destruct (C92_run_composition fmin chol svd inv s M n Ro lg T A fuel lf expr fo evn a HM HM1 HM2 EM HRo ET) as (c' & b & R1 & R2 & R3 & R4 & R5).
  assert (EF : form_from n fo evn fuel lf s expr T A inv (marg_at s) = (FDone r, c)) by exact E.
  rewrite EF in R1. injection R1 as Er Ec. subst c'.
  destruct (run_form fmin chol svd inv fuel lf expr fo evn a s) as [[b1 s1'] out1] eqn:ER. cbn [fst snd] in R2, R5, Er. subst out1. injection R2 as -> ->.
  set (alpha := alpha_of n (fr_grad r)). set (s1 := addCallFunction (setModifiedCorrelation s (rows_of n Ro)) c) in *.
  assert (NG : norm n (fr_grad r) = norm n av).
  { rewrite (norm_ext n _ _ EG). rewrite (norm_ext n (fun i => - av i) (fun i => (-1) * av i)) by (intros j _; ring). rewrite norm_scale_vec.
    replace (Rabs (-1)) with 1 by (rewrite Rabs_left; lra). ring. }
  assert (AL : veq n alpha (fun i => av i / norm n av)) by (intros i Hi; unfold alpha, alpha_of; rewrite (EG i Hi), NG; unfold Rdiv; ring).
  assert (FA : form_alpha n r = Some alpha) by (unfold form_alpha; rewrite Eu; reflexivity).
  rewrite EN in EB. fold beta in EB.
  exists b, r, T, A, alpha, s1. split; [unfold sorm_new; rewrite Ha, ER; reflexivity|]. split; [exact R5|]. split; [exact R4|]. split; [exact ET|]. split; [exact HT|]. split; [exact HF|].
  split; [exact FA|]. split; [intros i Hi; rewrite (AL i Hi), EN; reflexivity|]. split; [exact EB|].
  cbv zeta. fold H. intros HL st print.
  assert (C1 : same_core s s1) by (repeat split).
  assert (EI : init_run_full fmin chol svd inv (fb_type a) s1 = (setModifiedCorrelation s1 (rows_of n Ro), Ok (T, A))).
  { unfold init_run_full, setModifiedCorrelationMatrix. change (sm_corr s1) with (sm_corr s). rewrite HM, HM1, (rows_square n M HM2).
    change (length (sm_marg s1)) with (length (sm_marg s)). rewrite EM. change (fun i => marg_of (marg_at s1 i)) with (fun i => marg_of (marg_at s i)). rewrite HRo.
    cbn [setModifiedCorrelation sm_Ro]. rewrite rows_length, ET. reflexivity. }
  set (s2 := setModifiedCorrelation s1 (rows_of n Ro)) in *. assert (C2 : same_core s s2) by (repeat split).
  assert (EM2 : length (sm_marg s2) = n) by exact EM.
  assert (HJ : forall i z x z' x', rv_jac (marg_at s i) z x = rv_jac (marg_at s i) z' x').
  { intros i z x z' x'. destruct (Nat.lt_ge_cases i n) as [Hi|Hi].
    - now rewrite !(proj2 (HMg i Hi)).
    - unfold marg_at. rewrite nth_overflow by (rewrite EM; exact Hi). reflexivity. }
  assert (CO : eval_cost n fo = 1%nat) by (unfold eval_cost; rewrite Hd; reflexivity).
  assert (HS : forall s' u', same_core s s' -> exists g,
     sev inv lf expr fo n T A s' (vlist n (u_to_x n A (marg_at s') u')) = (Ok (qval n av mean H u', g), addCallFunction s' (eval_cost n fo)) /\ veq n g (fun i => - av i + mvec n H u' i)).
  { intros s' u' HC. destruct (EA u') as (g & k & Ev & Eg). exists g. split; [|exact Eg]. unfold ev in Ev.
    rewrite (sev_form inv lf expr fo n T A s' s u' HC HJ) by eauto. rewrite Ev. cbn [fst snd]. f_equal. f_equal.
    rewrite (form_ev_cost lf s expr (fo_ls fo) n T A inv (marg_at s) u' _ k ltac:(lia) Ev). unfold eval_cost. reflexivity. }
  assert (BE : beta = mean / norm n av) by (rewrite EN; reflexivity).
  assert (UN := alpha_unit n av alpha AL NA).
  destruct (om_succeeds n alpha Hn2 UN HL) as (R1 & ER1).
  split.
  - intros Hb. destruct (curvefit_q inv eig sort lf expr fo n T A s av mean H HS Hff HHs HHa alpha (fr_grad r) beta R1 AL NG NA ER1 u s2 C2 Heig Hsort) as (kappa & EC & PK & LK).
    rewrite EN in PK.
    exists kappa. unfold sorm_run_on. rewrite EI. cbv zeta. rewrite EM2, R5, R4, Eu, FA, EB. cbn [String.eqb Ascii.eqb Bool.eqb]. rewrite EC.
    unfold sorm_run. cbn [si_init String.eqb Ascii.eqb Bool.eqb si_cf]. cbv zeta.
    eexists. eexists. eexists. split; [reflexivity|]. split; [exact PK|]. split; [exact LK|]. split; [reflexivity|].
    split; [cbn [addCallFunction sm_calls]; rewrite CO; change (sm_calls s2) with (sm_calls s1); lia|]. cbn [so_pf so_bg so_pfm so_bgm].
    unfold pf_breitung, pf_breitung_m. split.
    + intros HA. destruct (breit_values_cf beta beta kappa Hb HA) as (EMs & BV). split; [exact BV|].
      cbn [si_print]. destruct print; [|reflexivity]. unfold sorm_show, cf_attr. rewrite EMs. cbn. destruct (so_kpf st) as [[? ?]|]; reflexivity.
    + intros HA. exact (proj2 (breit_values_cf beta (psi beta) kappa (psi_pos beta) HA)).
  - intros Hb Hbig. rewrite <- EN in Hbig.
    destruct (pointfit_q inv lf expr fo evn n T A s av mean H HS HHs HHa alpha beta R1 AL NA ER1 BE Hbig s2 Hb C2) as (c3 & EP & LC). cbv zeta in EP.
    destruct (om_ok n alpha R1 UN ER1) as (_ & HO & _ & HLr & _).
    exists R1.
    assert (SC : step_coeff beta * beta * (step_coeff beta * beta) = Rmax 1 (Rmin (Rabs beta) 3) * Rmax 1 (Rmin (Rabs beta) 3)).
    { rewrite <- (proj1 (step_coeff_spec beta Hb)). exact (Rsqr_abs (step_coeff beta * beta)). }
    rewrite SC, EN in EP. set (s2q := Rmax 1 (Rmin (Rabs beta) 3) * Rmax 1 (Rmin (Rabs beta) 3)) in *.
    set (kappa := map (fun i => fitted n H (sqrt variance) s2q (R1 i)) (seq 0 (n - 1))) in *.
    assert (ZA : map (fun q => / 2 * (fst q + snd q)) (combine kappa kappa) = kappa).
    { generalize kappa. clear. intros l. induction l as [|x l IH]; [reflexivity|]. cbn. rewrite IH. f_equal. field. }
    unfold sorm_run_on. rewrite EI. cbv zeta. rewrite EM2, R5, R4, Eu, FA, EB. cbn [String.eqb Ascii.eqb Bool.eqb]. rewrite EP.
    unfold sorm_run. cbn [si_init String.eqb Ascii.eqb Bool.eqb si_pf si_sort]. cbv zeta. rewrite ZA.
    eexists. eexists. split; [refine (f_equal (fun o => (_, _, o)) _); destruct print; reflexivity|]. split; [exact ER1|].
    split.
    { intros i j Hi Hj. split; [apply HO; lia|]. rewrite (Base.dot_ext n (R1 i) alpha (R1 i) (R1 (n - 1)%nat)) by (first [intros k Hk; now rewrite (HLr k Hk)|intros k _; reflexivity]). rewrite HO by lia. apply delta_neq. lia. }
    split; [reflexivity|]. split; [reflexivity|]. split; [cbn [addCallFunction sm_calls]; rewrite CO in LC; change (sm_calls s2) with (sm_calls s1); lia|].
    cbn [so_pf so_bg so_pfm so_bgm]. unfold pf_breitung_pf, pf_breitung_m_pf. split; intros HA; now apply breit_values_pf.
Qed.
Print Assumptions C99_paraboloid.

(** *** g = 3 - S + R^2/5 with independent standard normal R, S: beta = 3, and both fits find the
    curvature 2/5 and Pf = Phi(-3) / sqrt(1 + 3 * 2/5). *)
Definition h_q : list smop := [OpAdd (ODist (Normal "R" 0 1)); OpAdd (ODist (Normal "S" 0 1))].
Definition g_q (kw : list (string * R)) : R := 3 - lk kw "S" + / 5 * (lk kw "R" * lk kw "R").
Definition gr_q (kw : list (string * R)) : list R := [2 / 5 * lk kw "R"; -1].
Definition expr_q : expression := fun kw =>
  let nc := match kw with [] => 0%nat | (_, v) :: _ => List.length v end in
  Ok (UTuple (Arr (map (fun c => g_q (map (fun kv => (fst kv, nth c (snd kv) 0)) kw)) (seq 0 nc))) (gr_q (map (fun kv => (fst kv, nth 0 (snd kv) 0)) kw))).
Lemma with_gradient_q : with_gradient expr_q g_q gr_q.
Proof.
  split.
  - intros kw nc Hne Hl. eexists. split; [reflexivity|]. destruct kw as [|[n v] kw]; [contradiction|]. cbn [value_of].
    rewrite (Hl n v) by (left; reflexivity). reflexivity.
  - intros kw Hne Hl. eexists. reflexivity.
Qed.
Definition Q_q : mat := fun i j => match i, j with O, O => 2 / 5 | _, _ => 0 end.
Definition fo_q : form_opts := mkfo 100 (1 / 1000) (1 / 1000) 0 (mkopts "ddm" 1 1000 1000).
Example C99_example : forall fmin, exists b s1,
  sorm_new fmin chol2 svd2 inv2 101 10 expr_q fo_q None None None (sm_run h_q) = (Ok ("cholesky"%string, b), s1) /\
  forall print, let run fit := sorm_run_on fmin chol2 svd2 inv2 eig1 Ss.sort 10 expr_q fo_q None fit print "cholesky"%string b sorm_init s1 in
  (exists st s', run "cf"%string = (st, s', Ok tt) /\ so_kappa st = Some [2 / 5] /\ so_pf st = SArr (Fin (Phi (- (3)) * (/ sqrt (1 + 3 * (2 / 5)) * 1)))) /\
  (exists st s', run "pf"%string = (st, s', Ok tt) /\ so_kpf st = Some ([2 / 5], [2 / 5]) /\ so_pf st = SArr (Fin (Phi (- (3)) * (/ sqrt (1 + 3 * (2 / 5)) * 1)))).
Proof.
  intros fmin.
  destruct (modified_ok fmin 2 (mat_of (eye_rows 2)) (fun i => marg_of (marg_at (sm_run h_q) i)) 2 (le_n 2)) as (Ro & E & D & S & L & _).
  match type of E with _ = Ok (_, ?x) => set (lg := x) in * end.
  assert (R10 : Ro 1%nat 0%nat = 0).
  { rewrite L by lia. unfold pair_value. unfold mat_of. cbn [nth]. cbn. now rewrite (proj2 (Reqb_spec 0 0) eq_refl). }
  assert (EI : forall i j, (i < 2)%nat -> (j < 2)%nat -> Ro i j = delta i j).
  { intros i j Hi Hj. two i Hi; two j Hj; cbn; rewrite ?D, ?R10; try reflexivity. rewrite (S 0%nat 1%nat), R10. reflexivity. }
  destruct (C99_paraboloid fmin chol2 svd2 inv2 eig1 Ss.sort ERuntime h_q expr_q g_q gr_q 10 (pick "R" "S")%string (fun _ => 0) (fun _ => 1) (pick 0 (-1)) 3 Q_q
     (eye_rows 2) Ro lg aF None fo_q None 101) as (b & r & T & A & alpha & s1 & EN & _ & _ & ET & HT & HF & FA & EA & EB & HR);
    change (ndists h_q) with 2%nat; try exact lapack2; try exact eig1_contract; try reflexivity; try exact with_gradient_q; try lia; try exact E.
  - exact sort_ok.
  - intros i Hi. two i Hi; reflexivity.
  - intros i Hi. lra.
  - exists 1%nat. split; [lia|]. cbn. lra.
  - intros q Hq. unfold args_at. change (dists_of (accepted h_q)) with [Normal "R" 0 1; Normal "S" 0 1]. change (consts_of (accepted h_q)) with (@nil (string * R)).
    destruct q as [|x [|y [|z q]]]; try discriminate. unfold g_q, gr_q, quad_value, quad_gradient, lk. cbn. split; [field|]. f_equal; [ring|f_equal; ring].
  - intros i j Hi Hj. two i Hi; two j Hj; reflexivity.
  - intros i Hi. cbn [fsum]. rewrite !EI by lia. two i Hi; cbn; ring.
  - unfold fo_q. repeat split; cbn; try lra; try lia. right. repeat split; try lra; lia.
  - cbn. lia.
  - intros q Hq. cbn in Hq. destruct Hq as [<-|[<-|[]]]; reflexivity.
  - now apply eye_posdef.
  - change (ndists h_q) with 2%nat in *. change (fb_type aF) with "cholesky"%string in *. change (2 - 1)%nat with 1%nat in *.
    set (v := fsum 2 (fun i => fsum 2 (fun j => pick 0 (-1) i * 1 * Ro i j * (pick 0 (-1) j * 1)))) in *.
    assert (EV : v = 1) by (unfold v; cbn [fsum pick]; rewrite !D, (S 0%nat 1%nat), R10; ring).
    assert (SV : sqrt v = 1) by (rewrite EV; apply sqrt_1).
    assert (BE : (3 + fsum 2 (fun i => pick 0 (-1) i * 0)) / sqrt v = 3) by (rewrite SV; cbn [fsum pick]; field).
    rewrite BE, SV in HR. rewrite BE in EB. rewrite SV in EA.
    assert (LF : lower_factor 2 A (mat_of (rows_of 2 Ro))).
    { unfold transf_compute in ET. cbn [String.eqb Ascii.eqb Bool.eqb] in ET. unfold computeCholesky, rbind in ET.
      destruct (chol2 2 (mat_of (rows_of 2 Ro))) as [LL|] eqn:EL; [|discriminate]. destruct (inv2 2 LL); [|discriminate]. injection ET as _ <-. now apply chol2_factor. }
    destruct LF as (K1 & K2 & _).
    assert (F00 := HF 0%nat 0%nat ltac:(lia) ltac:(lia)). assert (F10 := HF 1%nat 0%nat ltac:(lia) ltac:(lia)). assert (F11 := HF 1%nat 1%nat ltac:(lia) ltac:(lia)).
    rewrite !EI in F00, F10, F11 by lia. cbn in F00, F10, F11. rewrite (K1 0%nat 1%nat) in F00, F10 by lia. pose proof (K1 0%nat 1%nat ltac:(lia)) as A01.
    pose proof (K2 0%nat ltac:(lia)) as KP0. pose proof (K2 1%nat ltac:(lia)) as KP1.
    assert (A00 : A 0%nat 0%nat = 1) by nra. rewrite A00 in F10. assert (A10 : A 1%nat 0%nat = 0) by lra. rewrite A10 in F11. assert (A11 : A 1%nat 1%nat = 1) by nra.
    assert (AL0 : alpha 0%nat = 0) by (rewrite (EA 0%nat ltac:(lia)); cbn; rewrite A00, A10; field).
    assert (AL1 : alpha 1%nat = 1) by (rewrite (EA 1%nat ltac:(lia)); cbn; rewrite A01, A11; field).
    set (H := u_hessian 2 A (fun _ => 1) Q_q) in *.
    assert (HH : forall v i, (i < 2)%nat -> mvec 2 H v i = if Nat.eqb i 0 then 2 / 5 * v 0%nat else 0).
    { intros w i Hi. unfold mvec, H, u_hessian. cbn [fsum]. two i Hi; cbn; rewrite A00, A01, A10, A11; ring. }
    assert (PK : forall k w, dot 2 w w = 1 -> dot 2 alpha w = 0 -> veq 2 (mvec 2 H w) (fun c => k * 1 * w c) -> k = 2 / 5).
    { intros k w NW DW MW. unfold dot in DW. cbn [fsum] in DW. rewrite AL0, AL1 in DW. specialize (MW 0%nat ltac:(lia)). rewrite HH in MW by lia. cbn in MW.
      assert (w 0%nat <> 0). { intros Z. unfold dot in NW. cbn [fsum] in NW. rewrite Z in NW. assert (w 1%nat = 0) by lra. nra. }
      apply Rmult_eq_reg_r with (w 0%nat); [lra|assumption]. }
    assert (FT : forall r, dot 2 r r = 1 -> dot 2 r alpha = 0 -> fitted 2 H 1 (Rmax 1 (Rmin (Rabs 3) 3) * Rmax 1 (Rmin (Rabs 3) 3)) r = 2 / 5).
    { intros w D1 D2. unfold dot in D1, D2. cbn [fsum] in D1, D2. rewrite AL0, AL1 in D2. unfold fitted, normal_curv.
      assert (DQ : dot 2 w (mvec 2 H w) = 2 / 5). { unfold dot. cbn [fsum]. rewrite !HH by lia. cbn. assert (W1 : w 1%nat = 0) by lra. rewrite W1 in D1. lra. }
      rewrite DQ. rewrite (Rabs_right 3) by lra. rewrite Rmin_left, Rmax_right by lra.
      replace (Rltb (Rabs (/ 2 * (3 * 3) * (2 / 5))) (1 / 1000000)) with false; [field|]. symmetry. apply Rltb_false. rewrite Rabs_right by lra. lra. }
    exists b, s1. split; [exact EN|]. intros print run. destruct (HR ltac:(rewrite AL1, Rabs_R1; lra) sorm_init print) as (H1 & H2). cbn [seq map] in H2. split.
    + destruct (H1 ltac:(lra)) as (kappa & st & s' & out & ER & (LK & W & PKs) & _ & EK & _ & BV & _).
      destruct kappa as [|k [|k2 kappa]]; try discriminate. assert (k = 2 / 5) by (destruct (PKs 0%nat 0%nat ltac:(lia) ltac:(lia)) as (P1 & P2 & P3); rewrite delta_refl in P1; exact (PK k (W 0%nat) P1 P2 P3)). subst k.
      destruct (BV ltac:(intros k [<-|[]]; lra)) as ((BV1 & _) & ->). exists st, s'. split; [exact ER|]. split; [exact EK|exact BV1].
    + destruct (H2 ltac:(lra) ltac:(lra)) as (rows & st & s' & ER & _ & OR & EK & _ & _ & BV & _). destruct (OR 0%nat 0%nat ltac:(lia) ltac:(lia)) as (O1 & O2).
      rewrite (FT (rows 0%nat) O1 O2) in EK, BV. destruct (BV ltac:(intros k [<-|[]]; lra)) as (BV1 & _). exists st, s'. split; [exact ER|]. split; [exact EK|exact BV1].
Qed.
