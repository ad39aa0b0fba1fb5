(** Property theorems C98: SORM on linear functions of normal variables. *)
From Coquelicot Require Import Coquelicot.
From Verif Require Import Base Ext Dict Gauss GaussProofs StochModel StochModelSpec StochModelProofs LimitState LimitStateSpec LimitStateProofs LimitStateProps Transf TransfSpec TransfProofs Form FormProofs FormAffineProofs FormNormalProofs FormProps Nataf NatafProofs Dist RotSpec RotProofs RotProps ScaleFormProofs Pipe PipeSpec PipeProofs PipeProps SensSpec GramSchmidt GramSchmidtProofs Sorm SormProofs Valid SormRun SormRunSpec SormRunProofs.
From Verif Require Ss SsProofs.
From Coq Require Import ZArith Lra Lia Permutation.
Open Scope R_scope.

(** the FORM run on a linear function of normal variables, with everything it leaves behind *)
Lemma lin_run fmin chol svd inv e0 h expr f lf nm (mu sd cf : vec) c0 M Ro lg a opt fo evn fuel :
  let n := ndists h in let s := sm_run h in
  lapack n chol svd inv e0 -> form_init opt = Ok a -> (1 <= n)%nat ->
  (forall i, (i < n)%nat -> nth_error (dists_of (accepted h)) i = Some (Normal (nm i) (mu i) (sd i))) ->
  (forall i, (i < n)%nat -> sd i <> 0) -> (exists i, (i < n)%nat /\ cf i <> 0) ->
  pointwise expr f -> (forall q, length q = n -> f (args_at h q) = c0 + fsum n (fun i => cf i * nth i q 0)) ->
  exact_options fo -> (n + 7 < lf)%nat -> (Z.to_nat (fo_imax fo) < fuel)%nat ->
  sm_corr s = Some M -> length M = n -> (forall r, In r M -> length r = n) ->
  computeModifiedCorrelationMatrix fmin n n (mat_of M) (fun i => marg_of (marg_at s i)) = Ok (Ro, lg) -> pos_def n Ro ->
  let mean := c0 + fsum n (fun i => cf i * mu i) in
  let variance := fsum n (fun i => fsum n (fun j => (cf i * sd i) * Ro i j * (cf j * sd j))) in
  exists T A a' c r u, let av := fun j => - fsum n (fun i => cf i * sd i * A i j) in
    run_form fmin chol svd inv fuel lf expr fo evn a s = (a', addCallFunction (setModifiedCorrelation s (rows_of n Ro)) c, FDone r) /\
    fb_TA a' = Some (T, A) /\ fb_res a' = Some r /\ fr_u r = Some u /\ fr_G r = 0 /\
    veq n (fr_grad r) (fun i => - av i) /\ veq n (alpha_of n (fr_grad r)) (fun i => av i / sqrt variance) /\
    veq n u (fun i => mean / variance * av i) /\ form_beta n r = Fin (mean / sqrt variance) /\
    transf_compute chol svd inv (fb_type a) n (mat_of (rows_of n Ro)) = Ok (T, A) /\ inverse_pair n T A /\ factor_of n A Ro /\
    norm n av = sqrt variance /\ 0 < variance /\ length (sm_marg s) = n /\
    affine_ev n av mean (form_ev lf s expr default_ls n T A inv (marg_at s)).
Proof.
  intros n s Hlap Ha Hn HN Hsd Hcf Hp Hlin Hfo Hlf Hfu HM HM1 HM2 HRo HPD mean variance.
  destruct (ln_all fmin chol svd inv e0 h expr f lf nm mu sd cf c0 M Ro lg a opt Hlap Ha Hn HN Hsd Hp Hlin Hlf HRo HPD) as (T & A & ET & EN & EA & ETr).
  cbv zeta in EN, EA, ETr. fold n in EN, EA, ETr. fold s in EA, ETr.
  set (av := fun j => - fsum n (fun i => cf i * sd i * A i j)) in *.
  assert (VP : 0 < variance) by exact (ln_v_pos h sd cf Ro Hsd Hcf HPD).
  change (ln_v h sd cf Ro) with variance in EN. change (ln_b h mu cf c0) with mean in *.
  set (ev := form_ev lf s expr default_ls n T A inv (marg_at s)) in *. set (tr := form_trial lf s expr default_ls n A (marg_at s)) in *.
  assert (SV := sqrt_lt_R0 _ VP). assert (SQ := sqrt_sqrt variance ltac:(lra)).
  assert (NA : norm n av <> 0) by (rewrite EN; lra).
  assert (TT : affine_trial n av mean (total_trial n av mean tr)).
  { intros us. unfold total_trial. destruct (Nat.eqb_spec (length us) ntrial) as [El|]; [|eauto]. apply ETr. rewrite El. unfold ntrial. lia. }
  assert (U0 : veq n (computeStartingPoint n T (marg_at s)) (fun _ => 0)) by exact (PipeProps.ln_start h nm mu sd HN T).
  destruct (affine_exact n fo ev (total_trial n av mean tr) evn av mean NA EA TT Hfo fuel (computeStartingPoint n T (marg_at s)) Hfu U0) as (r & c & E & E0 & EB & (u & Eu & Hu) & _).
  assert (EM : length (sm_marg s) = n) by (destruct (registry h) as (_ & _ & X & _); unfold s; rewrite X; reflexivity).
  destruct (C92_run_composition fmin chol svd inv s M n Ro lg T A fuel lf expr fo evn a HM HM1 HM2 EM HRo ET) as (c' & a' & R1 & R2 & R3 & R4 & R5).
  assert (EF : form_from n fo evn fuel lf s expr T A inv (marg_at s) = (FDone r, c)).
  { unfold form_from. rewrite (proj1 Hfo). fold ev tr. rewrite <- E. unfold form_run. apply loop_trial_ext. intros us Hl. unfold total_trial. rewrite Hl, Nat.eqb_refl. reflexivity. }
  rewrite EF in R1. injection R1 as Er Ec. subst c'.
  destruct (run_form fmin chol svd inv fuel lf expr fo evn a s) as [[a1 s1] out1] eqn:ER. cbn [fst snd] in R2, R5, Er. subst out1. injection R2 as -> ->.
  assert (EG : veq n (fr_grad r) (fun i => - av i)).
  { unfold form_run in E. destruct (loop_spec n fo ev _ evn _ _ _ _ _ _ _ _ _ E) as (_ & _ & _ & _ & _ & G). destruct (G u Eu) as [G1 _].
    destruct (EA u) as (g & k & Ev & Eg). rewrite Ev in G1. cbn in G1. injection G1 as _ <-. exact Eg. }
  assert (AL : veq n (alpha_of n (fr_grad r)) (fun i => av i / sqrt variance)).
  { intros i Hi'. unfold alpha_of. rewrite (EG i Hi'), (norm_ext n _ _ EG).
    rewrite (norm_ext n (fun i => - av i) (fun i => (-1) * av i)) by (intros j _; ring). rewrite norm_scale_vec, EN.
    replace (Rabs (-1)) with 1 by (rewrite Rabs_left; lra). rewrite Rmult_1_l. unfold Rdiv. ring. }
  assert (FP : inverse_pair n T A /\ factor_of n A Ro).
  { destruct (ln_factor fmin chol svd inv e0 h M Ro lg a opt Hlap Ha HRo HPD) as (T1 & A1 & E1 & P1 & F1). fold n in E1, ET. rewrite ET in E1. injection E1 as <- <-. now split. }
  exists T, A, a', c, r, u. cbv zeta. fold av. rewrite EN in EB, Hu. rewrite SQ in Hu.
  repeat (split; [first [reflexivity|assumption|exact (proj1 FP)|exact (proj2 FP)]|]). exact EA.
Qed.

(** C98: a limit state linear in n >= 2 correlated normal variables.  Unless the last component of
    alpha is below the tolerance of the rotation, curve fitting finds zero curvatures and, for
    beta >= 0, both formulas return the FORM values; for beta < 0 the Breitung values are the integer 0
    (and printing them raises TypeError).  Point fitting returns the FORM values for every beta
    but 0, where it raises.  If the last component is 0 both raise ValueError. *)
Theorem C98_linear_normal :
  forall fmin chol svd inv eig sort e0 h expr f lf nm (mu sd cf : vec) c0 M Ro log a opt fo evn fuel,
  let n := ndists h in let s := sm_run h in
  lapack n chol svd inv e0 -> eig_contract (n - 1) eig -> sort_contract sort -> form_init opt = Ok a -> (2 <= n)%nat ->
  (forall i, (i < n)%nat -> nth_error (dists_of (accepted h)) i = Some (Normal (nm i) (mu i) (sd i))) ->
  (forall i, (i < n)%nat -> sd i <> 0) -> (exists i, (i < n)%nat /\ cf i <> 0) ->
  pointwise expr f -> (forall q, length q = n -> f (args_at h q) = c0 + fsum n (fun i => cf i * nth i q 0)) ->
  exact_options fo -> (n + 7 < lf)%nat -> (Z.to_nat (fo_imax fo) < fuel)%nat ->
  sm_corr s = Some M -> length M = n -> (forall r, In r M -> length r = n) ->
  computeModifiedCorrelationMatrix fmin n n (mat_of M) (fun i => marg_of (marg_at s i)) = Ok (Ro, log) -> pos_def n Ro ->
  let mean := c0 + fsum n (fun i => cf i * mu i) in
  let variance := fsum n (fun i => fsum n (fun j => (cf i * sd i) * Ro i j * (cf j * sd j))) in
  let beta := mean / sqrt variance in
  exists b r alpha s1, sorm_new fmin chol svd inv fuel lf expr fo evn opt None s = (Ok (fb_type a, b), s1) /\
    fb_res b = Some r /\ form_alpha n r = Some alpha /\ form_beta n r = Fin beta /\
    forall st print, let run fit := sorm_run_on fmin chol svd inv eig sort lf expr fo evn fit print (fb_type a) b st s1 in
    (1 / 100000000 < Rabs (alpha (n - 1)%nat) ->
       (0 <= beta -> exists st' s', run "cf"%string = (st', s', Ok tt) /\ agrees_with_form st' (n - 1) beta /\ sm_calls s' = (sm_calls s1 + (1 + n) * (1 + n))%nat) /\
       (beta < 0 -> exists st' s', run "cf"%string = (st', s', if print then Err EType else Ok tt) /\
          so_pf st' = SInt0 /\ so_bg st' = SInt0 /\ so_pfm st' = SArr (Fin (Phi (- beta))) /\ so_bgm st' = SArr (Fin beta)) /\
       (beta <> 0 -> exists st' s', run "pf"%string = (st', s', Ok tt) /\ agrees_with_form st' (n - 1) beta /\
          so_kpf st' = Some (repeat 0 (n - 1), repeat 0 (n - 1)) /\ sm_calls s' = (sm_calls s1 + 2 * (n - 1) * (1 + n))%nat) /\
       (beta = 0 -> evn = None -> exists st' s', run "pf"%string = (st', s', Err ERuntime))) /\
    (alpha (n - 1)%nat = 0 -> forall fit, fit = "cf"%string \/ fit = "pf"%string -> exists st' s', run fit = (st', s', Err EValue)) /\
    (fb_type a = "cholesky"%string -> (forall C L, chol n C = Ok L -> lower_factor n L C) ->
       exists L, lower_factor n L Ro /\ alpha (n - 1)%nat = - (cf (n - 1)%nat * sd (n - 1)%nat * L (n - 1)%nat (n - 1)%nat) / sqrt variance).
Proof.
  intros fmin chol svd inv eig sort e0 h expr f lf nm mu sd cf c0 M Ro lg a opt fo evn fuel n s Hlap Heig Hsort Ha Hn2 HN Hsd Hcf Hp Hlin Hfo Hlf Hfu HM HM1 HM2 HRo HPD mean variance beta.
  assert (Hn : (1 <= n)%nat) by lia.
  destruct (lin_run fmin chol svd inv e0 h expr f lf nm mu sd cf c0 M Ro lg a opt fo evn fuel Hlap Ha Hn HN Hsd Hcf Hp Hlin Hfo Hlf Hfu HM HM1 HM2 HRo HPD)
    as (T & A & b & c & r & u & H). cbv zeta in H. fold n s in H. fold mean variance in H. fold beta in H.
  set (av := fun j => - fsum n (fun i => cf i * sd i * A i j)) in *.
  destruct H as (ER & ETA & ERes & Eu & E0 & EG & AL & HU & EB & ET & HT & HF & EN & VP & EM & EA).
  assert (SV := sqrt_lt_R0 _ VP). assert (NA : norm n av <> 0) by (rewrite EN; lra).
  set (alpha := alpha_of n (fr_grad r)) in *. set (s1 := addCallFunction (setModifiedCorrelation s (rows_of n Ro)) c) in *.
  assert (FA : form_alpha n r = Some alpha) by (unfold form_alpha; rewrite Eu; reflexivity).
  exists b, r, alpha, s1. split; [unfold sorm_new; rewrite Ha, ER; reflexivity|]. split; [exact ERes|]. split; [exact FA|]. split; [exact EB|].
  assert (C1 : same_core s s1) by (repeat split).
  assert (EI : init_run_full fmin chol svd inv (fb_type a) s1 = (setModifiedCorrelation s1 (rows_of n Ro), Ok (T, A))).
  { unfold init_run_full, setModifiedCorrelationMatrix. change (sm_corr s1) with (sm_corr s). rewrite HM, HM1, (rows_square n M HM2).
    change (length (sm_marg s1)) with (length (sm_marg s)). rewrite EM. change (fun i => marg_of (marg_at s1 i)) with (fun i => marg_of (marg_at s i)). rewrite HRo.
    cbn [setModifiedCorrelation sm_Ro]. rewrite rows_length, ET. reflexivity. }
  set (s2 := setModifiedCorrelation s1 (rows_of n Ro)) in *. assert (C2 : same_core s s2) by (repeat split).
  assert (EM2 : length (sm_marg s2) = n) by exact EM.
  assert (Hls := proj1 Hfo).
  assert (HJ : forall i z x z' x', rv_jac (marg_at s i) z x = rv_jac (marg_at s i) z' x').
  { intros i z x z' x'. destruct (Nat.lt_ge_cases i n) as [Hi|Hi].
    - unfold s. rewrite (ln_marg h nm mu sd HN i Hi). reflexivity.
    - unfold marg_at. rewrite nth_overflow by (rewrite EM; exact Hi). reflexivity. }
  assert (HS : forall s' u', same_core s s' -> exists g,
     sev inv lf expr fo n T A s' (vlist n (u_to_x n A (marg_at s') u')) = (Ok (mean - dot n av u', g), addCallFunction s' (eval_cost n fo)) /\ veq n g (fun i => - av i)).
  { intros s' u' HC. destruct (EA u') as (g & k & Ev & Eg). exists g. split; [|exact Eg].
    rewrite (sev_form inv lf expr fo n T A s' s u' HC HJ) by (rewrite Hls; eauto). rewrite Hls, Ev. cbn [fst snd]. f_equal. f_equal.
    rewrite (form_ev_cost lf s expr default_ls n T A inv (marg_at s) u' _ k ltac:(cbn; lia) Ev). unfold eval_cost. rewrite Hls. reflexivity. }
  assert (CO : eval_cost n fo = (1 + n)%nat) by (unfold eval_cost; rewrite Hls; reflexivity).
  assert (AL' : veq n alpha (fun i => av i / norm n av)) by (rewrite EN; exact AL).
  assert (Hff : o_ffdpara (fo_ls fo) <> 0) by (rewrite Hls; cbn; apply Rgt_not_eq; lra).
  assert (BE : beta = mean / norm n av) by (rewrite EN; reflexivity).
  assert (UN := alpha_unit n av alpha AL' NA).
  assert (CF : forall st print, sorm_run_on fmin chol svd inv eig sort lf expr fo evn "cf"%string print (fb_type a) b st s1 =
     (let k := rbind (orthonormal_matrix n alpha) (fun _ => Ok (beta, repeat 0 (n - 1))) in
      let '(st', out) := sorm_run "cf" (mkSin (Ok tt) k (Err EValue) sort print) st in (st', addCallFunction s2 ((1 + n) * eval_cost n fo), out))).
  { intros st print. unfold sorm_run_on. rewrite EI. cbv zeta. rewrite EM2, ERes, ETA, Eu, FA, EB. cbn [String.eqb Ascii.eqb Bool.eqb].
    rewrite (curvefit_aff inv eig sort lf expr fo n T A s av mean HS Hff alpha (fr_grad r) beta u s2 C2 Heig Hsort). reflexivity. }
  assert (PF : forall st print, beta <> 0 -> sorm_run_on fmin chol svd inv eig sort lf expr fo evn "pf"%string print (fb_type a) b st s1 =
     (let '(k, s') := match orthonormal_matrix n alpha with Ok _ => (Ok (beta, repeat 0 (n - 1), repeat 0 (n - 1)), addCallFunction s2 (2 * (n - 1) * eval_cost n fo)) | Err e => (Err e, s2) end in
      let '(st', out) := sorm_run "pf" (mkSin (Ok tt) (Err EValue) k sort print) st in (st', s', out))).
  { intros st print Hb. unfold sorm_run_on. rewrite EI. cbv zeta. rewrite EM2, ERes, ETA, Eu, FA, EB. cbn [String.eqb Ascii.eqb Bool.eqb].
    rewrite (pointfit_aff inv lf expr fo evn n T A s av mean HS alpha beta AL' NA BE s2 Hb C2).
    destruct (orthonormal_matrix n alpha); reflexivity. }
  assert (ZA : map (fun q => / 2 * (fst q + snd q)) (combine (repeat 0 (n - 1)) (repeat 0 (n - 1))) = repeat 0 (n - 1)).
  { generalize (n - 1)%nat. clear. intros m. induction m as [|m IH]; [reflexivity|]. cbn. rewrite IH. f_equal. ring. }
  intros st print run. split; [|split].
  - intros HL. destruct (om_succeeds n alpha Hn2 UN HL) as (R1 & ER1). split; [|split; [|split]].
    + intros Hb. unfold run. rewrite CF, ER1. cbn [rbind]. unfold sorm_run. cbn [si_init String.eqb Ascii.eqb Bool.eqb si_cf]. cbv zeta.
      unfold pf_breitung, pf_breitung_m. rewrite (breit_zero beta beta) by now apply guard_zero_pos. rewrite (breit_zero beta (psi beta)) by (apply guard_zero_pos; pose proof (psi_pos beta); lra).
      cbn [sr_msg sr_pf sr_beta cf_attr si_print]. unfold cf_attr. cbn [sr_msg].
      eexists. eexists. split; [refine (f_equal (fun o => (_, _, o)) _); destruct print; [unfold sorm_show; cbn; destruct (so_kpf st) as [[? ?]|]; reflexivity|reflexivity]|].
      split; [unfold agrees_with_form; repeat split; reflexivity|]. rewrite CO. reflexivity.
    + intros Hb. unfold run. rewrite CF, ER1. cbn [rbind]. unfold sorm_run. cbn [si_init String.eqb Ascii.eqb Bool.eqb si_cf]. cbv zeta.
      unfold pf_breitung, pf_breitung_m. rewrite (breit_zero beta (psi beta)) by (apply guard_zero_pos; pose proof (psi_pos beta); lra).
      unfold breitung_cf. rewrite (guard_zero_neg beta (n - 1) Hb ltac:(lia)). cbn [negb sr_msg sr_pf sr_beta si_print]. unfold cf_attr. cbn [sr_msg sr_pf sr_beta].
      eexists. eexists. split; [refine (f_equal (fun o => (_, _, o)) _); destruct print; reflexivity|]. repeat split; reflexivity.
    + intros Hb. unfold run. rewrite (PF st print Hb), ER1. unfold sorm_run. cbn [si_init String.eqb Ascii.eqb Bool.eqb si_pf si_sort]. cbv zeta. rewrite ZA, (sort_zero sort _ Hsort).
      unfold pf_breitung_pf, pf_breitung_m_pf. rewrite !breit_pf_zero. cbn [sr_msg sr_pf sr_beta si_print]. unfold pf_attr.
      eexists. eexists. split; [refine (f_equal (fun o => (_, _, o)) _); destruct print; reflexivity|].
      split; [unfold agrees_with_form; repeat split; reflexivity|]. split; [reflexivity|]. rewrite CO. reflexivity.
    + intros Hb Hev. unfold run, sorm_run_on. rewrite EI. cbv zeta. rewrite EM2, ERes, ETA, Eu, FA, EB. cbn [String.eqb Ascii.eqb Bool.eqb].
      unfold pointfit. rewrite ER1, Hb, (proj2 (Reqb_spec 0 0) eq_refl), Hev. unfold sorm_run. cbn [si_init String.eqb Ascii.eqb Bool.eqb si_pf]. eauto.
  - intros HL fit [-> | ->]; unfold run.
    + rewrite CF, (om_raises n alpha UN HL). cbn. eauto.
    + unfold sorm_run_on. rewrite EI. cbv zeta. rewrite EM2, ERes, ETA, Eu, FA, EB. cbn [String.eqb Ascii.eqb Bool.eqb].
      unfold pointfit. rewrite (om_raises n alpha UN HL). cbn. eauto.
  - intros Hty Hch.
    assert (HC : lower_factor n A Ro).
    { assert (X := ET). unfold transf_compute in X. rewrite Hty in X. cbn [String.eqb Ascii.eqb Bool.eqb] in X. unfold computeCholesky, rbind in X.
      destruct (chol n (mat_of (rows_of n Ro))) as [L|] eqn:EL; [|discriminate]. destruct (inv n L); [|discriminate]. injection X as _ <-.
      destruct (Hch _ _ EL) as (K1 & K2 & _). split; [exact K1|split; [exact K2|exact HF]]. }
    exists A. split; [exact HC|]. destruct HC as (K1 & K2 & _).
    rewrite (AL (n - 1)%nat ltac:(lia)). unfold av. f_equal. f_equal.
    rewrite (fsum_ext n _ (fun i => delta (n - 1) i * (cf i * sd i * A i (n - 1)%nat))); [now rewrite fsum_delta by lia|].
    intros i Hi. unfold delta. destruct (Nat.eqb_spec (n - 1) i) as [<-|Hd]; [ring|]. rewrite K1 by lia. ring.
Qed.
Print Assumptions C98_linear_normal.

(** ... with the Cholesky transform that is the case whenever the limit state does not involve the
    variable registered last *)
Theorem C98_last_variable_irrelevant :
  forall fmin chol svd inv eig sort e0 h expr f lf nm (mu sd cf : vec) c0 M Ro log a opt fo evn fuel,
  let n := ndists h in let s := sm_run h in
  lapack n chol svd inv e0 -> (forall C L, chol n C = Ok L -> lower_factor n L C) ->
  eig_contract (n - 1) eig -> sort_contract sort -> form_init opt = Ok a -> fb_type a = "cholesky"%string -> (2 <= n)%nat ->
  (forall i, (i < n)%nat -> nth_error (dists_of (accepted h)) i = Some (Normal (nm i) (mu i) (sd i))) ->
  (forall i, (i < n)%nat -> sd i <> 0) -> (exists i, (i < n)%nat /\ cf i <> 0) -> cf (n - 1)%nat = 0 ->
  pointwise expr f -> (forall q, length q = n -> f (args_at h q) = c0 + fsum n (fun i => cf i * nth i q 0)) ->
  exact_options fo -> (n + 7 < lf)%nat -> (Z.to_nat (fo_imax fo) < fuel)%nat ->
  sm_corr s = Some M -> length M = n -> (forall r, In r M -> length r = n) ->
  computeModifiedCorrelationMatrix fmin n n (mat_of M) (fun i => marg_of (marg_at s i)) = Ok (Ro, log) -> pos_def n Ro ->
  exists b s1, sorm_new fmin chol svd inv fuel lf expr fo evn opt None s = (Ok (fb_type a, b), s1) /\
    forall st print fit, fit = "cf"%string \/ fit = "pf"%string ->
    exists st' s', sorm_run_on fmin chol svd inv eig sort lf expr fo evn fit print (fb_type a) b st s1 = (st', s', Err EValue).
Proof.
  intros fmin chol svd inv eig sort e0 h expr f lf nm mu sd cf c0 M Ro lg a opt fo evn fuel n s Hlap Hch Heig Hsort Ha Hty Hn2 HN Hsd Hcf Hl Hp Hlin Hfo Hlf Hfu HM HM1 HM2 HRo HPD.
  destruct (C98_linear_normal fmin chol svd inv eig sort e0 h expr f lf nm mu sd cf c0 M Ro lg a opt fo evn fuel Hlap Heig Hsort Ha Hn2 HN Hsd Hcf Hp Hlin Hfo Hlf Hfu HM HM1 HM2 HRo HPD)
    as (b & r & alpha & s1 & E1 & _ & _ & _ & HR). fold n s in E1, HR.
  exists b, s1. split; [exact E1|]. intros st print fit Hfit. destruct (HR st print) as (_ & H2 & H3).
  apply H2; [|exact Hfit]. destruct (H3 Hty Hch) as (L & _ & ->). fold n in Hl. rewrite Hl. unfold Rdiv. ring.
Qed.
Print Assumptions C98_last_variable_irrelevant.

(** *** R - 3 S with R ~ N(200, 20), S ~ N(40, 5): both fits give beta = 3.2; with R ~ N(100, 20) beta
    is -0.8, point fitting returns it and curve fitting stores 0. *)
Definition h_sorm (m : R) : list smop := [OpAdd (ODist (Normal "R" m 20)); OpAdd (OConst "k" 3); OpAdd (ODist (Normal "S" 40 5))].
Definition eig1 (m : nat) (A : mat) : result (list R) := Ok (map (fun i => A i i) (seq 0 m)).
Lemma eig1_contract : eig_contract 1 eig1.
Proof.
  intros A _. exists [A 0%nat 0%nat], (fun _ _ => 1). split; [reflexivity|]. split; [reflexivity|]. split.
  - intros i j Hi Hj. replace i with 0%nat by lia. replace j with 0%nat by lia. cbn. ring.
  - intros k i Hk Hi. replace i with 0%nat by lia. replace k with 0%nat by lia. unfold mvec. cbn. ring.
Qed.
Lemma sort_ok : sort_contract Ss.sort.
Proof. intros l. split; [apply SsProofs.sort_perm|]. intros i j Hij Hj. now apply SsProofs.sort_asc. Qed.
Lemma chol2_factor C L : chol2 2 C = Ok L -> lower_factor 2 L C.
Proof.
  intros H. pose proof (chol2_contract C L H) as F. unfold chol2 in H. destruct (spd2 C) eqn:E; [|discriminate]. apply spd2_spec in E. destruct E as (E & P & D). injection H as <-.
  split; [|split; [|exact F]].
  - intros i j Hij. destruct i as [|[|i]]; destruct j as [|[|j]]; try lia; reflexivity.
  - intros i Hi. two i Hi; cbn; [now apply sqrt_lt_R0|]. apply Rdiv_lt_0_compat; now apply sqrt_lt_R0.
Qed.
Example C98_example : forall fmin,
  let new m := sorm_new fmin chol2 svd2 inv2 101 10 expr_ex default_options None None None (sm_run (h_sorm m)) in
  let run := sorm_run_on fmin chol2 svd2 inv2 eig1 Ss.sort 10 expr_ex default_options None in
  (exists b s1, new 200 = (Ok ("cholesky"%string, b), s1) /\
     (exists st s', run "cf"%string true "cholesky"%string b sorm_init s1 = (st, s', Ok tt) /\ agrees_with_form st 1 (80 / 25)) /\
     (exists st s', run "pf"%string true "cholesky"%string b sorm_init s1 = (st, s', Ok tt) /\ agrees_with_form st 1 (80 / 25))) /\
  (exists b s1, new 100 = (Ok ("cholesky"%string, b), s1) /\
     (exists st s', run "cf"%string true "cholesky"%string b sorm_init s1 = (st, s', Err EType) /\ so_pf st = SInt0) /\
     (exists st s', run "pf"%string true "cholesky"%string b sorm_init s1 = (st, s', Ok tt) /\ agrees_with_form st 1 (- 20 / 25))).
Proof.
  intros fmin.
  assert (X : forall m, exists b s1 alpha, sorm_new fmin chol2 svd2 inv2 101 10 expr_ex default_options None None None (sm_run (h_sorm m)) = (Ok ("cholesky"%string, b), s1) /\
    Rabs (alpha 1%nat) = 15 / 25 /\
    forall st print, let run fit := sorm_run_on fmin chol2 svd2 inv2 eig1 Ss.sort 10 expr_ex default_options None fit print "cholesky"%string b st s1 in
    let beta := (m - 120) / 25 in
    (1 / 100000000 < Rabs (alpha 1%nat) ->
       (0 <= beta -> exists st' s', run "cf"%string = (st', s', Ok tt) /\ agrees_with_form st' 1 beta) /\
       (beta < 0 -> exists st' s', run "cf"%string = (st', s', if print then Err EType else Ok tt) /\ so_pf st' = SInt0) /\
       (beta <> 0 -> exists st' s', run "pf"%string = (st', s', Ok tt) /\ agrees_with_form st' 1 beta))).
  { intros m.
    destruct (modified_ok fmin 2 (mat_of (eye_rows 2)) (fun i => marg_of (marg_at (sm_run (h_sorm m)) i)) 2 (le_n 2)) as (Ro & E & D & S & L & _).
    match type of E with _ = Ok (_, ?x) => set (lg := x) in * end.
    assert (R10 : Ro 1%nat 0%nat = 0).
    { rewrite L by lia. unfold pair_value. unfold mat_of. cbn [nth]. cbn. now rewrite (proj2 (Reqb_spec 0 0) eq_refl). }
    assert (EI : forall i j, (i < 2)%nat -> (j < 2)%nat -> Ro i j = delta i j).
    { intros i j Hi Hj. two i Hi; two j Hj; cbn; rewrite ?D, ?R10; try reflexivity. rewrite (S 0%nat 1%nat), R10. reflexivity. }
    destruct (C98_linear_normal fmin chol2 svd2 inv2 eig1 Ss.sort ERuntime (h_sorm m) expr_ex g_ex 10 (pick "R" "S")%string (pick m 40) (pick 20 5) (pick 1 (-3)) 0
       (eye_rows 2) Ro lg aF None default_options None 101) as (b & r & alpha & s1 & EN & _ & _ & _ & HR);
      change (ndists (h_sorm m)) with 2%nat; try exact lapack2; try exact eig1_contract; try reflexivity; try exact pointwise_ex; try exact default_exact; try lra; try lia; try exact E.
    - exact sort_ok.
    - intros i Hi. two i Hi; reflexivity.
    - intros i Hi. two i Hi; cbn; lra.
    - exists 0%nat. split; [lia|]. cbn. lra.
    - intros q Hq. unfold args_at. change (dists_of (accepted (h_sorm m))) with [Normal "R" m 20; Normal "S" 40 5]. change (consts_of (accepted (h_sorm m))) with [("k"%string, 3)].
      destruct q as [|x [|y [|z q]]]; try discriminate. unfold g_ex, lk. cbn. ring.
    - cbn. lia.
    - intros q Hq. cbn in Hq. destruct Hq as [<-|[<-|[]]]; reflexivity.
    - now apply eye_posdef.
    - change (ndists (h_sorm m)) with 2%nat in *. change (fb_type aF) with "cholesky"%string in *.
      set (v := fsum 2 (fun i => fsum 2 (fun j => pick 1 (-3) i * pick 20 5 i * Ro i j * (pick 1 (-3) j * pick 20 5 j)))) in *.
      assert (EV : v = 625) by (unfold v; cbn [fsum pick]; rewrite !D, (S 0%nat 1%nat), R10; ring).
      assert (SV : sqrt v = 25) by (rewrite EV; replace 625 with (Rsqr 25) by (unfold Rsqr; ring); apply sqrt_Rsqr; lra).
      assert (EB : (0 + fsum 2 (fun i => pick 1 (-3) i * pick m 40 i)) / sqrt v = (m - 120) / 25) by (rewrite SV; cbn [fsum pick]; field).
      exists b, s1, alpha. split; [exact EN|]. split.
      + destruct (HR sorm_init true) as (_ & _ & H3). destruct (H3 eq_refl chol2_factor) as (LL & (K1 & K2 & K3) & EA). change (2 - 1)%nat with 1%nat in EA.
        assert (F00 := K3 0%nat 0%nat ltac:(lia) ltac:(lia)). assert (F10 := K3 1%nat 0%nat ltac:(lia) ltac:(lia)). assert (F11 := K3 1%nat 1%nat ltac:(lia) ltac:(lia)).
        rewrite !EI in F00, F10, F11 by lia. cbn in F00, F10, F11. rewrite (K1 0%nat 1%nat) in F00, F10 by lia.
        pose proof (K2 0%nat ltac:(lia)). pose proof (K2 1%nat ltac:(lia)).
        assert (L00 : LL 0%nat 0%nat = 1) by nra. rewrite L00 in F10. assert (L10 : LL 1%nat 0%nat = 0) by lra. rewrite L10 in F11. assert (L11 : LL 1%nat 1%nat = 1) by nra.
        rewrite EA, L11, SV. cbn [pick]. rewrite Rabs_right; lra.
      + intros st print run beta HA. destruct (HR st print) as (H1 & _). rewrite EB in H1. change (2 - 1)%nat with 1%nat in H1. destruct (H1 HA) as (Q1 & Q2 & Q3 & _). split; [|split].
        * intros Hb. destruct (Q1 Hb) as (st' & s' & A1 & A2 & _). eauto.
        * intros Hb. destruct (Q2 Hb) as (st' & s' & A1 & A2 & _). eauto.
        * intros Hb. destruct (Q3 Hb) as (st' & s' & A1 & A2 & _). eauto. }
  cbv zeta in *. split.
  - destruct (X 200) as (b & s1 & alpha & E & EA & HR). exists b, s1. split; [exact E|].
    destruct (HR sorm_init true ltac:(rewrite EA; lra)) as (Q1 & _ & Q3). replace ((200 - 120) / 25) with (80 / 25) in * by lra.
    split; [apply Q1; lra|apply Q3; lra].
  - destruct (X 100) as (b & s1 & alpha & E & EA & HR). exists b, s1. split; [exact E|].
    destruct (HR sorm_init true ltac:(rewrite EA; lra)) as (_ & Q2 & Q3). replace ((100 - 120) / 25) with (- 20 / 25) in * by lra.
    split; [apply Q2; lra|apply Q3; lra].
Qed.
