(** Property theorems C100: whole line sampling analyses. *)
From Coquelicot Require Import Coquelicot.
From Verif Require Import Base Ext Gauss GaussProofs StochModel StochModelSpec StochModelProofs LimitState LimitStateSpec LimitStateProofs LimitStateProps Transf TransfSpec TransfProofs Form FormProofs FormAffineProofs FormNormalProofs FormProps Nataf NatafProofs Dist RotSpec RotProps Pipe PipeSpec SensSpec PipeProofs PipeProps Sorm SormRun SormRunProofs SormRunProps Ls LsProofs LsProps LsRun LsRunSpec LsRunProofs.
From Coq Require Import ZArith Lra Lia.
Open Scope R_scope.

(** C100: a run whose preparation and FORM analysis succeed is the sampling of Ls.v, applied to the
    limit state of the registered variables; the model object is left as it was, except for the
    stored modified correlation and the counter; the Form object is kept. *)
Theorem C100_run_composition : forall fmin chol svd inv brentq fuel lf expr fo evn topt Ns randn a s s1 s2 T A M n b fr alpha beta,
  init_run_full fmin chol svd inv (lo_type a) s = (s1, Ok (T, A)) -> sm_Ro s1 = Some M -> length M = n ->
  length (sm_marg s) = n -> lo_nrv a = n ->
  (lo_form a = Some (n, b) /\ fb_res b = Some fr /\ s2 = s1) \/
  (lo_form a = None /\ exists b0, form_init topt = Ok b0 /\ run_form fmin chol svd inv fuel lf expr fo evn b0 s1 = (b, s2, FDone fr)) ->
  form_alpha n fr = Some alpha -> form_beta n fr = Fin beta ->
  (1 <= Ns)%Z -> (1 <= o_block_size (fo_ls fo))%Z -> (2 <= lf)%nat ->
  exists c, ls_run_on fmin chol svd inv brentq fuel lf expr fo evn topt Ns randn a s =
    (mkLo true (lo_type a) n (Some (n, b))
       (Some (LNum (ls_run n (Z.to_nat Ns) randn (line_value lf expr fo s n A) (fun g lo hi => fst (brentq g lo hi)) alpha beta))),
     addCallFunction s2 c, LDone) /\
    (forall v, (forall u, exists y, v u = Some y) -> (forall u, line_value lf expr fo s n A u = v u) ->
       c = length (flat_map (fun j => line_trace brentq v (foot n alpha (fun i => randn (i * Z.to_nat Ns + j)%nat)) alpha beta) (seq 0 (Z.to_nat Ns)))).
Proof.
  intros fmin chol svd inv brentq fuel lf expr fo evn topt Ns randn a s s1 s2 T A M n b fr alpha beta EI ERo EMl EM En HF Fa Fb HNs Hb Hlf.
  assert (HC1 : same_core s s1).
  { pose proof (f_equal fst EI) as E1. cbn [fst] in E1. rewrite <- E1. apply init_same. }
  assert (HC : same_core s s2).
  { destruct HF as [(_ & _ & ->)|(_ & b0 & _ & E)]; [exact HC1|]. apply (core_trans _ s1); [exact HC1|].
    destruct (run_core fmin chol svd inv fuel lf expr fo evn b0 b0 s1 s1 (core_refl s1) eq_refl) as (k & M' & H).
    rewrite E in H. apply H. }
  unfold ls_run_on. rewrite EI. cbv zeta. rewrite ERo, EMl, En.
  assert (EMs : length (sm_marg s2) = n) by exact (core_len s n EM s2 HC).
  assert (EF : ls_form fmin chol svd inv fuel lf expr fo evn topt a s1 = (inl (Ok (n, b)), s2)).
  { unfold ls_form. destruct HF as [(-> & _ & ->)|(-> & b0 & -> & ->)]; [reflexivity|]. now rewrite EMs. }
  assert (ER : fb_res b = Some fr).
  { destruct HF as [(_ & E & _)|(_ & b0 & _ & E)]; [exact E|]. unfold run_form in E. destruct (init_run_full _ _ _ _ _ s1) as [s3 [[T3 A3]|e]]; [|discriminate].
    destruct (Nat.eqb _ _); [|discriminate]. destruct (loop_st _ _ _ _ _ _ _ _ _ _ _ _ _ _ _) as [[r3|e3|] s4]; inversion E; subst; reflexivity. }
  rewrite EF, ER. destruct (Z.ltb_spec Ns 0); [lia|]. rewrite Nat.eqb_refl. cbn [negb].
  destruct (Nat.eqb_spec (Z.to_nat Ns) 0); [lia|]. rewrite Fa, Fb.
  set (N := Z.to_nat Ns) in *.
  assert (EV : ls_ev lf expr fo n n A s2 = line_value lf expr fo s n A).
  { apply FunctionalExtensionality.functional_extensionality. intros u. exact (ls_ev_core lf expr fo s n A EM s2 u HC). }
  rewrite EV. set (pts := flat_map _ (map _ (seq 0 N))).
  rewrite (ls_call_core lf expr fo s n A EM s2 _ HC).
  assert (NF := one_terminates lf s2 expr (fo_ls fo) n (vlist n (u_to_x n A (marg_at s) (nth 0 pts (fun _ : nat => 0)))) Hb Hlf).
  destruct (evaluate_lsf lf s2 expr (fo_ls fo) (Some "no"%string) n [vlist n (u_to_x n A (marg_at s) (nth 0 pts (fun _ : nat => 0)))]) as [q1 q2 q3 q4]. cbn [ev_out] in NF.
  destruct (fold_core lf expr fo s n A EM pts s2 HC) as (c & Ec). exists c. split.
  { rewrite Ec. destruct q4; try reflexivity. congruence. }
  intros v Hv Hvv. assert (EVV : line_value lf expr fo s n A = v) by (apply FunctionalExtensionality.functional_extensionality; exact Hvv).
  rewrite (fold_calls lf expr fo s n A EM pts) in Ec; [|intros u _; rewrite Hvv; apply Hv|exact HC].
  assert (EC : sm_calls (addCallFunction s2 (length pts)) = sm_calls (addCallFunction s2 c)) by now rewrite Ec.
  cbn in EC. assert (c = length pts) by lia. subst c. unfold pts. rewrite EVV.
  rewrite !flat_map_concat_map, map_map. reflexivity.
Qed.
Print Assumptions C100_run_composition.

(** C100: on a linear function of normal variables the whole analysis returns the exact index up to
    the root finder's tolerance, whatever the random numbers; a second run re-uses the Form analysis. *)
Theorem C100_linear_normal :
  forall fmin chol svd inv brentq e0 h expr f lf nm (mu sd cf : vec) c0 M Ro log a opt fo evn fuel eps m Ns randn,
  let n := ndists h in let s := sm_run h in
  lapack n chol svd inv e0 -> brentq_contract eps m brentq -> ls_new opt None s = Ok a -> (1 <= n)%nat -> (1 <= Ns)%Z ->
  (forall i, (i < n)%nat -> nth_error (dists_of (accepted h)) i = Some (Normal (nm i) (mu i) (sd i))) ->
  (forall i, (i < n)%nat -> sd i <> 0) -> (exists i, (i < n)%nat /\ cf i <> 0) ->
  pointwise expr f -> (forall q, length q = n -> f (args_at h q) = c0 + fsum n (fun i => cf i * nth i q 0)) ->
  exact_options fo -> (n + 7 < lf)%nat -> (Z.to_nat (fo_imax fo) < fuel)%nat ->
  sm_corr s = Some M -> length M = n -> (forall r, In r M -> length r = n) ->
  computeModifiedCorrelationMatrix fmin n n (mat_of M) (fun i => marg_of (marg_at s i)) = Ok (Ro, log) -> pos_def n Ro ->
  let mean := c0 + fsum n (fun i => cf i * mu i) in
  let variance := fsum n (fun i => fsum n (fun j => (cf i * sd i) * Ro i j * (cf j * sd j))) in
  let beta := mean / sqrt variance in
  0 < variance /\
  exists b sF fr a' s', run_form fmin chol svd inv fuel lf expr fo evn (mkFobj false (lo_type a) None None) s = (b, sF, FDone fr) /\
    ls_run_on fmin chol svd inv brentq fuel lf expr fo evn opt Ns randn a s = (a', s', LDone) /\
    estimates a' beta eps /\
    lo_type a' = lo_type a /\ lo_nrv a' = n /\ same_problem s s' /\ form_beta n fr = Fin beta /\ (exists b', lo_form a' = Some (n, b') /\ fb_res b' = Some fr) /\
    (sm_calls sF + 40 * Z.to_nat Ns <= sm_calls s' <= sm_calls sF + (40 + m) * Z.to_nat Ns)%nat /\
    forall Ns' randn', (1 <= Ns')%Z -> exists a'' s'',
      ls_run_on fmin chol svd inv brentq fuel lf expr fo evn opt Ns' randn' a' s' = (a'', s'', LDone) /\
      estimates a'' beta eps /\
      (sm_calls s' + 40 * Z.to_nat Ns' <= sm_calls s'' <= sm_calls s' + (40 + m) * Z.to_nat Ns')%nat.
Proof.
  intros fmin chol svd inv brentq e0 h expr f lf nm mu sd cf c0 M Ro lg a opt fo evn fuel eps m Ns randn n s Hlap HBr Hnew Hn HNs HN Hsd Hcf Hp Hlin Hfo Hlf Hfu HM HM1 HM2 HRo HPD mean variance beta.
  unfold ls_new in Hnew. destruct (form_init opt) as [a0|] eqn:Ha; [|discriminate]. cbn [rbind] in Hnew. injection Hnew as <-. cbn [lo_type].
  set (aF := mkFobj false (fb_type a0) None None).
  assert (EaF : a0 = aF). { unfold form_init in Ha. destruct (mkTransformation opt); [|discriminate]. cbn in Ha. injection Ha as <-. reflexivity. }
  destruct (lin_run fmin chol svd inv e0 h expr f lf nm mu sd cf c0 M Ro lg a0 opt fo evn fuel Hlap Ha Hn HN Hsd Hcf Hp Hlin Hfo Hlf Hfu HM HM1 HM2 HRo HPD)
    as (T & A & b & c & r & u & H). cbv zeta in H. fold n s in H. fold mean variance in H. fold beta in H.
  set (av := fun j => - fsum n (fun i => cf i * sd i * A i j)) in *.
  destruct H as (ER & ETA & ERes & Eu & E0 & EG & AL & HU & EB & ET & HT & HF & EN & VP & EM & EA).
  destruct (ln_all fmin chol svd inv e0 h expr f lf nm mu sd cf c0 M Ro lg a0 opt Hlap Ha Hn HN Hsd Hp Hlin Hlf HRo HPD) as (T' & A' & ET' & EN' & _ & ETr).
  cbv zeta in ETr. fold n in ETr, ET'. fold s in ETr. change (ln_b h mu cf c0) with mean in ETr. rewrite ET in ET'. injection ET' as <- <-. fold av in ETr.
  assert (SV := sqrt_lt_R0 _ VP). assert (SQ := sqrt_sqrt variance ltac:(lra)).
  split; [exact VP|].
  set (alpha := alpha_of n (fr_grad r)) in *.
  assert (FA : form_alpha n r = Some alpha) by (unfold form_alpha; rewrite Eu; reflexivity).
  set (sF := addCallFunction (setModifiedCorrelation s (rows_of n Ro)) c) in *.
  assert (EI : forall s', same_core s s' -> init_run_full fmin chol svd inv (fb_type a0) s' = (setModifiedCorrelation s' (rows_of n Ro), Ok (T, A))).
  { intros s' HC. unfold init_run_full, setModifiedCorrelationMatrix. rewrite (core_marg s s' HC).
    assert (E3 : length (sm_marg s') = n) by exact (core_len s n EM s' HC). rewrite E3. destruct HC as (_ & _ & _ & E4 & _). rewrite E4, HM, HM1, (rows_square n M HM2), HRo.
    cbn [setModifiedCorrelation sm_Ro]. rewrite rows_length, ET. reflexivity. }
  assert (EV : forall s', same_core s s' -> forall u', line_value lf expr fo s' n A u' = Some (sqrt variance * (beta - dot n alpha u'))).
  { intros s' HC u'. destruct (ETr [u'] ltac:(cbn; lia)) as (k & Ek). rewrite <- (proj1 Hfo) in Ek.
    rewrite <- (ls_ev_core lf expr fo s' n A (core_len s n EM s' HC) s' u' (core_refl s')), (ls_ev_core lf expr fo s n A EM s' u' HC).
    rewrite (trial_value lf expr fo s n A u' _ k Ek). cbn [map nth]. f_equal. rewrite (Base.dot_ext n alpha u' (fun i => / sqrt variance * av i) u').
    - rewrite dot_scal_l. unfold beta. field. lra.
    - intros i Hi. rewrite (AL i Hi). unfold Rdiv. ring.
    - intros i _. reflexivity. }
  assert (UN : dot n alpha alpha = 1).
  { assert (NA : norm n av <> 0) by (rewrite EN; lra). assert (N1 : norm n alpha = 1) by (apply (alpha_unit n av alpha); [rewrite EN; exact AL|exact NA]). rewrite <- norm_sqr, N1. ring. }
  assert (CORE : forall Ns randn aL s' s2 b', same_core s s' -> lo_type aL = fb_type a0 -> lo_nrv aL = n -> (1 <= Ns)%Z ->
     (lo_form aL = Some (n, b') /\ fb_res b' = Some r /\ s2 = setModifiedCorrelation s' (rows_of n Ro)) \/
     (lo_form aL = None /\ exists b0, form_init opt = Ok b0 /\ run_form fmin chol svd inv fuel lf expr fo evn b0 (setModifiedCorrelation s' (rows_of n Ro)) = (b', s2, FDone r)) ->
     exists a' c', ls_run_on fmin chol svd inv brentq fuel lf expr fo evn opt Ns randn aL s' = (a', addCallFunction s2 c', LDone) /\
       estimates a' beta eps /\ (40 * Z.to_nat Ns <= c' <= (40 + m) * Z.to_nat Ns)%nat /\ lo_type a' = fb_type a0 /\ lo_nrv a' = n /\ lo_form a' = Some (n, b') /\ fb_res b' = Some r).
  { intros Ns1 randn1 aL s' s2 b' HC ETy ENr HNs1 HForm.
    assert (EI1 := EI s' HC). rewrite <- ETy in EI1.
    destruct (C100_run_composition fmin chol svd inv brentq fuel lf expr fo evn opt Ns1 randn1 aL s' _ s2 T A (rows_of n Ro) n b' r alpha beta EI1 eq_refl (rows_length n Ro) (core_len s n EM s' HC) ENr) as (c' & E1 & E2).
    - exact HForm.
    - exact FA.
    - exact EB.
    - exact HNs1.
    - rewrite (proj1 Hfo). cbn. lia.
    - lia.
    - eexists _, c'. split; [exact E1|]. split.
      { destruct (C70_affine_exact n (Z.to_nat Ns1) randn1 (line_value lf expr fo s' n A) (fun g lo hi => fst (brentq g lo hi)) alpha beta (sqrt variance) eps) as (P1 & bb & P2 & P3).
        - lia.
        - exact UN.
        - exact SV.
        - exact (EV s' HC).
        - intros g hh lo hi L1 L2 L3 L4. exact (proj1 (HBr g hh lo hi L1 L2 L3 L4)).
        - eexists _, _, bb. split; [reflexivity|]. split; [reflexivity|]. split; [exact P2|]. split; [exact P1|exact P3]. }
      split.
      { rewrite (E2 (fun u' => Some (sqrt variance * (beta - dot n alpha u'))) ltac:(eauto) (EV s' HC)).
        pose proof (flat_len (fun j => line_trace brentq (fun u' : vec => Some (sqrt variance * (beta - dot n alpha u'))) (foot n alpha (fun i : nat => randn1 (i * Z.to_nat Ns1 + j)%nat)) alpha beta) (seq 0 (Z.to_nat Ns1)) 40 (40 + m)) as FL.
        rewrite seq_length in FL. apply FL. clear FL. intros j _. unfold line_trace. rewrite app_length, map_length, seq_length. unfold n_scan.
        set (v := foot n alpha _). set (g := fun j0 => _). destruct (bracket g) as [j0|] eqn:Ebr; [|cbn; lia]. rewrite map_length.
        assert (LP : forall c1, dot n alpha (line_pt v alpha c1) = c1).
        { intros c1. apply line_proj; [exact UN|]. apply foot_orth. exact UN. }
        assert (LE : c_scan beta j0 <= c_scan beta (S j0)) by (apply Rlt_le, c_scan_mono; lia).
        rewrite Rmin_left, Rmax_right by exact LE.
        destruct (HBr (fun c1 => Some (sqrt variance * (beta - dot n alpha (line_pt v alpha c1)))) (fun c1 => sqrt variance * (beta - c1)) (c_scan beta j0) (c_scan beta (S j0)) LE) as [_ L].
        - intros c1. now rewrite LP.
        - intros c1. reg.
        - pose proof (bracket_spec g) as BS. rewrite Ebr in BS. destruct BS as (_ & (g1 & g2 & G1 & G2 & G3) & _). unfold g in G1, G2. rewrite LP in G1, G2. injection G1 as <-. injection G2 as <-. exact G3.
        - lia. }
      cbn. rewrite ETy. repeat split. destruct HForm as [(_ & E3 & _)|(_ & b0 & _ & E3)]; [exact E3|].
      unfold run_form in E3. destruct (init_run_full _ _ _ _ _ _) as [s3 [[T3 A3]|e]]; [|discriminate].
      destruct (Nat.eqb _ _); [|discriminate]. destruct (loop_st _ _ _ _ _ _ _ _ _ _ _ _ _ _ _) as [[r3|e3|] s4]; injection E3; intros; subst b'; cbn; congruence. }
  destruct (run_core fmin chol svd inv fuel lf expr fo evn aF aF s (setModifiedCorrelation s (rows_of n Ro)) (core_Ro s _) eq_refl) as (k & M' & HR).
  rewrite EaF in ER. rewrite ER in HR.
  destruct (run_form fmin chol svd inv fuel lf expr fo evn aF (setModifiedCorrelation s (rows_of n Ro))) as [[b' s2] o2] eqn:ER2.
  destruct HR as (-> & _ & _ & _ & C2 & K1 & K2 & _).
  destruct (CORE Ns randn (mkLo false (fb_type a0) (length (sm_marg s)) None None) s s2 b' (core_refl s) eq_refl EM HNs (or_intror (conj eq_refl (ex_intro _ aF (conj (eq_trans Ha (f_equal Ok EaF)) ER2)))))
    as (a' & c' & Q1 & Q2 & Q3 & Q4 & Q5 & Q6 & Q7).
  exists b, sF, r, a', (addCallFunction s2 c'). split; [exact ER|]. split; [exact Q1|]. split; [exact Q2|].
  assert (C3 : same_core s (addCallFunction s2 c')) by (apply (core_trans _ s2); [exact (core_trans _ _ _ (core_Ro s _) C2)|apply core_add]).
  split; [exact Q4|]. split; [exact Q5|]. split; [exact C3|]. split; [exact EB|]. split; [exists b'; auto|]. split; [cbn in *; lia|].
  intros Ns' randn' HNs'.
  destruct (CORE Ns' randn' a' (addCallFunction s2 c') _ b' C3 Q4 Q5 HNs' (or_introl (conj Q6 (conj Q7 eq_refl)))) as (a'' & c'' & W1 & W2 & W3 & _).
  eexists a'', _. split; [exact W1|]. split; [exact W2|]. cbn. lia.
Qed.
Print Assumptions C100_linear_normal.

(** C100: the Form object is kept for later runs, also when the model has changed.  If variables were
    added in between, every point of every line has the wrong size; the exceptions are swallowed and
    the run reports the smallest probability it can. *)
Theorem C100_variable_added : forall fmin chol svd inv brentq fuel lf expr fo evn topt Ns randn a s s1 T A M b fr alpha beta,
  init_run_full fmin chol svd inv (lo_type a) s = (s1, Ok (T, A)) -> sm_Ro s1 = Some M -> length M <> lo_nrv a ->
  lo_form a = Some (lo_nrv a, b) -> fb_res b = Some fr -> form_alpha (lo_nrv a) fr = Some alpha -> form_beta (lo_nrv a) fr = Fin beta -> (1 <= Ns)%Z ->
  exists a' r, ls_run_on fmin chol svd inv brentq fuel lf expr fo evn topt Ns randn a s = (a', s1, LDone) /\
    lo_res a' = Some r /\ lres_Pf r = Fin (Phi (- Rmax (Rabs beta * 3 + 5) 15)).
Proof.
  intros fmin chol svd inv brentq fuel lf expr fo evn topt Ns randn a s s1 T A M b fr alpha beta EI ERo EMl EF EFr Fa Fb HNs.
  unfold ls_run_on. rewrite EI. cbv zeta. rewrite ERo. unfold ls_form. rewrite EF, EFr.
  destruct (Z.ltb_spec Ns 0); [lia|]. rewrite Nat.eqb_refl. cbn [negb]. destruct (Nat.eqb_spec (Z.to_nat Ns) 0); [lia|]. rewrite Fa, Fb.
  assert (NC : forall s' u, ls_call lf expr fo (length M) (lo_nrv a) A s' u = None).
  { intros s' u. unfold ls_call. destruct (Nat.eqb_spec (lo_nrv a) (length M)); [congruence|reflexivity]. }
  rewrite NC.
  assert (EV : ls_ev lf expr fo (length M) (lo_nrv a) A s1 = (fun _ => None)).
  { apply FunctionalExtensionality.functional_extensionality. intros u. unfold ls_ev. now rewrite NC. }
  rewrite EV.
  assert (FS : forall pts, fold_left (ls_state lf expr fo (length M) (lo_nrv a) A) pts s1 = s1).
  { induction pts as [|u pts IH]; [reflexivity|]. cbn [fold_left]. unfold ls_state at 2. now rewrite NC. }
  rewrite FS. eexists _, _. split; [reflexivity|]. split; [reflexivity|]. cbn [lres_Pf]. f_equal. apply C71_exceptions_swallowed. lia.
Qed.
Print Assumptions C100_variable_added.

(** ... whereas a first run (FORM not yet made) after the change raises. *)
Theorem C100_first_run_after_adding : forall fmin chol svd inv brentq fuel lf expr fo evn topt Ns randn a s s1 s2 T A b0 b fr,
  init_run_full fmin chol svd inv (lo_type a) s = (s1, Ok (T, A)) -> lo_form a = None -> form_init topt = Ok b0 ->
  run_form fmin chol svd inv fuel lf expr fo evn b0 s1 = (b, s2, FDone fr) ->
  length (sm_marg s2) <> lo_nrv a -> fb_res b = Some fr -> 
  exists a', ls_run_on fmin chol svd inv brentq fuel lf expr fo evn topt Ns randn a s = (a', s2, LRaised EValue) /\ lo_res a' = lo_res a.
Proof.
  intros fmin chol svd inv brentq fuel lf expr fo evn topt Ns randn a s s1 s2 T A b0 b fr EI EF E0 ER Hne EFr.
  unfold ls_run_on. rewrite EI. cbv zeta. unfold ls_form. rewrite EF, E0, ER, EFr.
  destruct (Z.ltb_spec Ns 0); [eexists; split; reflexivity|]. destruct (Nat.eqb_spec (length (sm_marg s2)) (lo_nrv a)); [contradiction|]. cbn [negb]. eexists. split; reflexivity.
Qed.
Print Assumptions C100_first_run_after_adding.

(** C100: a FORM analysis that ends in NaN (a zero gradient on the way) makes line sampling report
    Pf = NaN together with beta = -inf, whatever the limit state. *)
Theorem C100_nan_direction : forall fmin chol svd inv brentq fuel lf expr fo evn topt Ns randn a s s1 s2 T A b0 b fr,
  init_run_full fmin chol svd inv (lo_type a) s = (s1, Ok (T, A)) -> lo_form a = None -> form_init topt = Ok b0 ->
  run_form fmin chol svd inv fuel lf expr fo evn b0 s1 = (b, s2, FDone fr) ->
  length (sm_marg s2) = lo_nrv a -> fb_res b = Some fr -> fr_u fr = None -> (0 <= Ns)%Z ->
  exists a' s' r, ls_run_on fmin chol svd inv brentq fuel lf expr fo evn topt Ns randn a s = (a', s', LDone) /\
    lo_res a' = Some r /\ lres_Pf r = NaN /\ lres_beta r = NInf /\ lres_cov r = PInf.
Proof.
  intros fmin chol svd inv brentq fuel lf expr fo evn topt Ns randn a s s1 s2 T A b0 b fr EI EF E0 ER Hne EFr Eu HNs.
  unfold ls_run_on. rewrite EI. cbv zeta. unfold ls_form. rewrite EF, E0, ER, EFr.
  destruct (Z.ltb_spec Ns 0); [lia|]. rewrite Hne, Nat.eqb_refl. cbn [negb].
  destruct (Nat.eqb (Z.to_nat Ns) 0); [do 3 eexists; repeat split|].
  unfold form_alpha. rewrite Eu. do 3 eexists. repeat split.
Qed.
Print Assumptions C100_nan_direction.

(** C100: in particular for every constant limit state, safe or failing, of normal variables. *)
Theorem C100_constant_limit_state :
  forall fmin chol svd inv brentq e0 h expr f lf nm (mu sd : vec) c0 M Ro log a opt fo fuel Ns randn,
  let n := ndists h in let s := sm_run h in
  lapack n chol svd inv e0 -> ls_new opt None s = Ok a -> (1 <= n)%nat -> (1 <= Ns)%Z ->
  (forall i, (i < n)%nat -> nth_error (dists_of (accepted h)) i = Some (Normal (nm i) (mu i) (sd i))) ->
  (forall i, (i < n)%nat -> sd i <> 0) ->
  pointwise expr f -> (forall q, length q = n -> f (args_at h q) = c0) ->
  fo_ls fo = default_ls -> (1 <= fo_imax fo)%Z -> (n + 7 < lf)%nat -> (Z.to_nat (fo_imax fo) < fuel)%nat ->
  sm_corr s = Some M -> length M = n -> (forall r, In r M -> length r = n) ->
  computeModifiedCorrelationMatrix fmin n n (mat_of M) (fun i => marg_of (marg_at s i)) = Ok (Ro, log) -> pos_def n Ro ->
  exists a' s' r, ls_run_on fmin chol svd inv brentq fuel lf expr fo None opt Ns randn a s = (a', s', LDone) /\
    lo_res a' = Some r /\ lres_Pf r = NaN /\ lres_beta r = NInf /\ lres_cov r = PInf.
Proof.
  intros fmin chol svd inv brentq e0 h expr f lf nm mu sd c0 M Ro lg a opt fo fuel Ns randn n s Hlap Hnew Hn HNs HN Hsd Hp Hlin Hfo Him Hlf Hfu HM HM1 HM2 HRo HPD.
  unfold ls_new in Hnew. destruct (form_init opt) as [a0|] eqn:Ha; [|discriminate]. cbn [rbind] in Hnew. injection Hnew as <-.
  assert (EI0 : form_init opt = Ok (mkFobj false (fb_type a0) None None)) by (rewrite Ha; unfold form_init in Ha; destruct (mkTransformation opt); [|discriminate]; cbn in Ha; injection Ha as <-; reflexivity).
  assert (Hlin' : forall q, length q = n -> f (args_at h q) = c0 + fsum n (fun i => (fun _ => 0) i * nth i q 0)).
  { intros q Hq. rewrite (Hlin q Hq), fsum_zero; [ring|]. intros i _. ring. }
  destruct (ln_all fmin chol svd inv e0 h expr f lf nm mu sd (fun _ => 0) c0 M Ro lg a0 opt Hlap Ha Hn HN Hsd Hp Hlin' Hlf HRo HPD) as (T & A & ET & _ & EA & _).
  cbv zeta in EA. fold n in EA, ET. fold s in EA.
  assert (EM : length (sm_marg s) = n) by (destruct (registry h) as (_ & _ & X & _); unfold s; rewrite X; reflexivity).
  set (s1 := setModifiedCorrelation s (rows_of n Ro)).
  assert (EI : init_run_full fmin chol svd inv (fb_type a0) s = (s1, Ok (T, A))).
  { unfold init_run_full, setModifiedCorrelationMatrix. rewrite EM, HM, HM1, (rows_square n M HM2), HRo.
    cbn [setModifiedCorrelation sm_Ro]. rewrite rows_length, ET. reflexivity. }
  destruct (C92_run_composition fmin chol svd inv s1 M n Ro lg T A fuel lf expr fo None (mkFobj false (fb_type a0) None None) HM HM1 HM2 EM HRo ET) as (c' & b & R1 & R2 & R3 & R4 & R5).
  set (u0 := computeStartingPoint n T (marg_at s)).
  destruct (EA u0) as (g & k & Ev & Eg).
  assert (NG : norm n g = 0).
  { rewrite (norm_ext n g (fun _ => 0)). { unfold norm, dot. rewrite fsum_zero; [apply sqrt_0|intros; ring]. }
    intros i Hi. rewrite (Eg i Hi). rewrite fsum_zero; [ring|]. intros j _. ring. }
  assert (EvS : form_ev lf s1 expr (fo_ls fo) n T A inv (marg_at s1) u0 = (Ok (c0 + fsum n (fun i => 0 * mu i) - dot n (fun j => - fsum n (fun i => 0 * sd i * A i j)) u0, g), k)).
  { rewrite Hfo. refine (eq_trans _ Ev). unfold form_ev. cbv zeta. change (marg_at s1) with (marg_at s).
    destruct (inv n _) as [J|e]; [|reflexivity].
    match goal with |- context[evaluate_lsf lf s1 ?a1 ?a2 ?a3 ?a4 ?a5] => destruct (core_eval s s1 (core_Ro s _) lf a1 a2 a3 a4 a5) as (kk & E1 & E2 & E3) end.
    rewrite E3, E2, E1. cbn [addCallFunction sm_calls]. reflexivity. }
  destruct (loop_zero_gradient n fo _ (form_trial lf s1 expr (fo_ls fo) n A (marg_at s1)) fuel u0 _ g k EvS NG ltac:(now rewrite Hfo) Him Hfu) as (r & c & EL & Eu).
  unfold form_from in R1. change (computeStartingPoint n T (marg_at s1)) with u0 in R1. rewrite EL in R1. injection R1 as Er Ec.
  destruct (run_form fmin chol svd inv fuel lf expr fo None (mkFobj false (fb_type a0) None None) s1) as [[b1 s2] o1] eqn:ER. cbn [fst snd] in *. subst o1. injection R2 as -> ->.
  destruct (C100_nan_direction fmin chol svd inv brentq fuel lf expr fo None opt Ns randn (mkLo false (fb_type a0) (length (sm_marg s)) None None) s s1 _ T A (mkFobj false (fb_type a0) None None) b r EI eq_refl EI0 ER) as (a' & s' & rr & H); try assumption.
  - reflexivity.
  - lia.
  - exists a', s', rr. exact H.
Qed.
Print Assumptions C100_constant_limit_state.

(** *** R - 3 S with R ~ N(200, 20), S ~ N(40, 5), beta = 3.2.  A run, a third variable that the limit
    state does not use, and the same object again: now Pf = Phi(-15) is reported. *)
Definition chol3 (k : nat) (M : mat) : result mat := if Nat.eqb k 3 then Ok meye else chol2 k M.
Definition inv3 (k : nat) (M : mat) : result mat := if Nat.eqb k 3 then Ok meye else inv2 k M.
Theorem C100_grown_model_refuted : forall fmin brentq eps m randn randn', brentq_contract eps m brentq ->
  let run := ls_run_on fmin chol3 svd2 inv3 brentq 101 10 expr_ex default_options None None 100 in
  exists a a1 s1 s2 a2 s3 r, ls_new None None (sm_run (h_sorm 200)) = Ok a /\
    run randn a (sm_run (h_sorm 200)) = (a1, s1, LDone) /\ estimates a1 (80 / 25) eps /\
    addVariable s1 (ODist (Normal "Q" 0 1)) = Ok s2 /\
    run randn' a1 s2 = (a2, s3, LDone) /\ lo_res a2 = Some r /\ lres_Pf r = Fin (Phi (- 15)).
Proof.
  intros fmin brentq eps m randn randn' HB run.
  destruct (modified_ok fmin 2 (mat_of (eye_rows 2)) (fun i => marg_of (marg_at (sm_run (h_sorm 200)) i)) 2 (le_n 2)) as (Ro & E & D & S & L & _).
  match type of E with _ = Ok (_, ?x) => set (lg := x) in * end.
  assert (R10 : Ro 1%nat 0%nat = 0).
  { rewrite L by lia. unfold pair_value. unfold mat_of. cbn [nth]. cbn. now rewrite (proj2 (Reqb_spec 0 0) eq_refl). }
  assert (EI : forall i j, (i < 2)%nat -> (j < 2)%nat -> Ro i j = delta i j).
  { intros i j Hi Hj. two i Hi; two j Hj; cbn; rewrite ?D, ?R10; try reflexivity. rewrite (S 0%nat 1%nat), R10. reflexivity. }
  destruct (C100_linear_normal fmin chol3 svd2 inv3 brentq ERuntime (h_sorm 200) expr_ex g_ex 10 (pick "R" "S")%string (pick 200 40) (pick 20 5) (pick 1 (-3)) 0
     (eye_rows 2) Ro lg (mkLo false "cholesky" 2 None None) None default_options None 101 eps m 100 randn) as (_ & b & sF & fr & a1 & s1 & _ & ER & EE & ETy & ENr & HS & EBe & (b' & EF & EFr) & _);
    change (ndists (h_sorm 200)) with 2%nat; try exact lapack2; try exact HB; try reflexivity; try exact pointwise_ex; try exact default_exact; try lra; try lia; try exact E.
  - intros i Hi. two i Hi; reflexivity.
  - intros i Hi. two i Hi; cbn; lra.
  - exists 0%nat. split; [lia|]. cbn. lra.
  - intros q Hq. unfold args_at. change (dists_of (accepted (h_sorm 200))) with [Normal "R" 200 20; Normal "S" 40 5]. change (consts_of (accepted (h_sorm 200))) with [("k"%string, 3)].
    destruct q as [|x [|y [|z q]]]; try discriminate. unfold g_ex, lk. cbn. ring.
  - cbn. lia.
  - intros q Hq. cbn in Hq. destruct Hq as [<-|[<-|[]]]; reflexivity.
  - now apply eye_posdef.
  - change (ndists (h_sorm 200)) with 2%nat in *.
    set (v := fsum 2 (fun i => fsum 2 (fun j => pick 1 (-3) i * pick 20 5 i * Ro i j * (pick 1 (-3) j * pick 20 5 j)))) in *.
    assert (EV : v = 625) by (unfold v; cbn [fsum pick]; rewrite !D, (S 0%nat 1%nat), R10; ring).
    assert (SV : sqrt v = 25) by (rewrite EV; replace 625 with (Rsqr 25) by (unfold Rsqr; ring); apply sqrt_Rsqr; lra).
    assert (EB : (0 + fsum 2 (fun i => pick 1 (-3) i * pick 200 40 i)) / sqrt v = 80 / 25) by (rewrite SV; cbn [fsum pick]; lra).
    rewrite EB in *.
    destruct HS as (H1 & H2 & H3 & H4 & H5). change (sm_marg (sm_run (h_sorm 200))) with [Normal "R" 200 20; Normal "S" 40 5] in H3. change (sm_names (sm_run (h_sorm 200))) with ["R"%string; "k"%string; "S"%string] in H2.
    assert (EAdd : exists s2, addVariable s1 (ODist (Normal "Q" 0 1)) = Ok s2 /\ sm_marg s2 = [Normal "R" 200 20; Normal "S" 40 5; Normal "Q" 0 1] /\ sm_corr s2 = Some (eye_rows 3)).
    { unfold addVariable. rewrite H2. cbn [mem_str existsb rv_name Normal rv_of String.eqb Ascii.eqb Bool.eqb orb]. rewrite H3. eexists. repeat split. }
    destruct EAdd as (s2 & A1 & A2 & A3).
    destruct (modified_ok fmin 3 (mat_of (eye_rows 3)) (fun i => marg_of (marg_at s2 i)) 3 (le_n 3)) as (Ro3 & E3 & _).
    assert (EI3 : exists T A, init_run_full fmin chol3 svd2 inv3 (lo_type a1) s2 = (setModifiedCorrelation s2 (rows_of 3 Ro3), Ok (T, A))).
    { unfold init_run_full, setModifiedCorrelationMatrix. rewrite A3, A2, ETy. cbn [length eye_rows map seq]. rewrite (rows_square 3) by (intros q Hq; cbn in Hq; destruct Hq as [<-|[<-|[<-|[]]]]; reflexivity).
      unfold eye_rows in E3. cbn [map seq] in E3. cbn [map]. rewrite E3. do 2 eexists. reflexivity. }
    destruct EI3 as (T & A & EI3).
    destruct (fr_u fr) as [uu|] eqn:Euu; [|unfold form_beta in EBe; rewrite Euu in EBe; discriminate].
    rewrite <- ENr in EF, EBe.
    destruct (C100_variable_added fmin chol3 svd2 inv3 brentq 101 10 expr_ex default_options None None 100 randn' a1 s2 _ T A (rows_of 3 Ro3) b' fr (alpha_of (lo_nrv a1) (fr_grad fr)) (80 / 25) EI3 eq_refl) as (a2 & r & K1 & K2 & K3).
    + rewrite rows_length, ENr. lia.
    + exact EF.
    + exact EFr.
    + unfold form_alpha. now rewrite Euu.
    + exact EBe.
    + lia.
    + eexists _, a1, s1, s2, a2, _, r. split; [reflexivity|]. split; [exact ER|]. split; [exact EE|]. split; [exact A1|]. split; [exact K1|]. split; [exact K2|].
      rewrite K3. do 2 f_equal. rewrite Rabs_right, Rmax_right by lra. reflexivity.
Qed.
Print Assumptions C100_grown_model_refuted.

(** The contract on brentq can be met. *)
Example C100_root_finder : brentq_contract 0 0 (fun f lo hi => (exact_root f lo hi, [])).
Proof.
  intros f h lo hi L1 L2 L3 L4. split; [|cbn; lia]. cbn [fst]. exact (proj2 ls_example_root_finder f h lo hi L1 L2 L3 L4).
Qed.
