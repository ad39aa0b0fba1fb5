(** Property theorems C116 (what a Form object answers after its runs, completed or not). *)
From Coquelicot Require Import Coquelicot.
From Verif Require Import Base Ext Dict Gauss GaussProofs StochModel StochModelSpec StochModelProofs LimitState LimitStateSpec LimitStateProofs LimitStateProps Transf TransfSpec TransfProofs Form FormProofs FormProps Nataf Dist RotSpec RotProps Pipe PipeSpec PipeProofs PipeProps FormAttr FormAttrSpec FormAttrProofs.
From Coq Require Import ZArith Lra Lia.
Open Scope R_scope.

Lemma completed_run fmin chol svd inv fuel lf h : forall w, completed fmin chol svd inv fuel lf w h <> [] -> In FRun h.
Proof.
  induction h as [|c h IH]; intros w H; [now destruct H|]. cbn [completed] in H.
  destruct c as [op|e evn|fo|]; try (right; eapply IH; exact H). now left.
Qed.
Lemma last_none {X} (l : list X) : last_of l = None -> l = [].
Proof. destruct l as [|x l]; [auto|]. rewrite last_cons. destruct (last_of l); discriminate. Qed.

(** C116: whatever was done with the model, the limit state function, the options and the analysis:
    getBeta, getFailure and showResults report the last run that completed, however many runs have
    failed since, next to the current counter of the model; without one getFailure is None and getBeta
    raises TypeError, and showResults raises ValueError ("not yet run") only until a run has been tried. *)
Theorem C116_last_completed : forall fmin chol svd inv fuel lf opt a0 s0 e evn fo h,
  attr_init opt = Ok a0 ->
  let w0 := mkFW a0 s0 e evn fo in
  let w := fexec fmin chol svd inv fuel lf w0 h in
  match last_of (completed fmin chol svd inv fuel lf w0 h) with
  | Some (n, r) =>
      getBeta (fw_a w) = Ok (form_beta n r) /\ getFailure (fw_a w) = Some (form_Pf n r) /\
      showResults (fw_a w) (fw_s w) = Ok (Some (fr_i r), form_beta n r, form_Pf n r, sm_calls (fw_s w))
  | None =>
      getBeta (fw_a w) = Err EType /\ getFailure (fw_a w) = None /\
      (no_run h -> showResults (fw_a w) (fw_s w) = Err EValue) /\ (In FRun h -> showResults (fw_a w) (fw_s w) = Err EType)
  end.
Proof.
  intros fmin chol svd inv fuel lf opt a0 s0 e evn fo h HA w0 w.
  pose proof (exec_reads fmin chol svd inv fuel lf h w0) as R1. fold w in R1.
  assert (A0 : a0 = mkFA false (fa_type a0) None None None None None None).
  { revert HA. unfold attr_init, rbind. destruct (mkTransformation opt); [|discriminate]. intros X. injection X as <-. reflexivity. }
  destruct (last_of _) as [[n r]|] eqn:EL.
  - destruct R1 as (R1 & R2 & R3). unfold getBeta, getFailure, showResults. rewrite R1, R2, R3.
    assert (V : fa_valid (fw_a w) = true). { apply exec_valid, (completed_run fmin chol svd inv fuel lf h w0). intros X. rewrite X in EL. discriminate. }
    rewrite V. auto.
  - destruct R1 as (R1 & R2 & R3). unfold getBeta, getFailure, showResults. rewrite R2, R3. cbn [w0 fw_a]. rewrite A0. cbn. repeat split; auto.
    + intros N. unfold w. rewrite no_run_attr by exact N. cbn [w0 fw_a]. rewrite A0. reflexivity.
    + intros N. unfold w. rewrite (exec_valid fmin chol svd inv fuel lf h w0 N). reflexivity.
Qed.
Print Assumptions C116_last_completed.

Lemma combine_seq {X Y} (f : X -> Y) d l : combine (seq 0 (length l)) (map f l) = map (fun i => (i, f (nth i l d))) (seq 0 (length l)).
Proof.
  assert (G : forall k, combine (seq k (length l)) (map f l) = map (fun i => (i, f (nth (i - k) l d))) (seq k (length l))).
  { induction l as [|y l IH]; intros k; [reflexivity|]. cbn [length seq map combine]. rewrite Nat.sub_diag. f_equal. rewrite IH.
    apply map_ext_in. intros i Hi. apply in_seq in Hi. replace (i - k)%nat with (S (i - S k)) by lia. reflexivity. }
  rewrite G. apply map_ext. intros i. now rewrite Nat.sub_0_r.
Qed.

(** C116: as long as no further run is tried after a completed one, the answers belong together: with
    u the design point and alpha the unit vector of that run, beta = alpha . u and Pf = Phi(-beta); the
    physical design point is the image of u under that run's transformation and the registered
    variables, and row i of the detailed output is the i-th registered variable with its coordinates,
    the constants following separately.  Registering a constant or setting another correlation matrix
    changes none of this; as soon as a further variable is registered the physical design point and the
    detailed output raise IndexError.  A run that ended on a zero gradient reports NaN. *)
Theorem C116_after_completed_run : forall fmin chol svd inv fuel lf a0 h0 e evn fo h1 w1 r h2,
  let w0 := mkFW a0 (sm_run h0) e evn fo in
  let w := fexec fmin chol svd inv fuel lf w0 h1 in
  fstep fmin chol svd inv fuel lf w FRun = (w1, Some (FDone r)) -> no_run h2 ->
  let w2 := fexec fmin chol svd inv fuel lf w1 h2 in
  let n := length (sm_marg (fw_s w)) in
  let acc := accepted (h0 ++ model_ops (h1 ++ h2)) in
  let D := fun i => nth i (dists_of acc) rv0 in
  exists T A, snd (init_run_full fmin chol svd inv (fa_type (fw_a w)) (fw_s w)) = Ok (T, A) /\
  match fr_u r with
  | Some u =>
      let alpha := alpha_of n (fr_grad r) in
      let x := fun i => rv_u2x (D i) (fsum n (fun j => A i j * u j)) in
      norm n alpha = 1 /\
      getDesignPoint_u (fw_a w2) = Some (n, Some u) /\ getAlpha (fw_a w2) = Ok (n, Some alpha) /\
      getBeta (fw_a w2) = Ok (Fin (dot n alpha u)) /\ getFailure (fw_a w2) = Some (Fin (Phi (- dot n alpha u))) /\
      (length (dists_of acc) = n ->
        getDesignPoint_x (fw_a w2) (fw_s w2) = Ok (map (fun i => Fin (x i)) (seq 0 n)) /\
        showDetailedOutput (fw_a w2) (fw_s w2) =
          Ok (Fin (Phi (- dot n alpha u)), Fin (dot n alpha u), sm_calls (fw_s w2),
              map (fun i => (rv_name (D i), Fin (u i), Fin (x i), Fin (alpha i))) (seq 0 n), consts_of acc))
  | None =>
      getBeta (fw_a w2) = Ok NaN /\ getFailure (fw_a w2) = Some NaN /\ getAlpha (fw_a w2) = Ok (n, None)
  end /\
  ((n < length (dists_of acc))%nat ->
     getDesignPoint_x (fw_a w2) (fw_s w2) = Err EIndex /\ showDetailedOutput (fw_a w2) (fw_s w2) = Err EIndex).
Proof.
  intros fmin chol svd inv fuel lf a0 h0 e evn fo h1 w1 r h2 w0 w ES HN w2 n acc D.
  assert (CM : same_core (sm_run (h0 ++ model_ops (h1 ++ h2))) (fw_s w2)).
  { pose proof (exec_model fmin chol svd inv fuel lf (h1 ++ FRun :: h2) w0 (sm_run h0) (core_refl _)) as C.
    rewrite exec_app, exec_cons in C. fold w in C. rewrite ES in C. cbn [fst] in C. fold w2 in C.
    unfold model_ops in C. rewrite !flat_map_app in C. cbn [flat_map app] in C. unfold sm_run, model_ops. rewrite flat_map_app.
    unfold sm_run in C. rewrite <- fold_left_app in C. exact C. }
  destruct (registry (h0 ++ model_ops (h1 ++ h2))) as (RN & RD & RM & RV & RC & _). fold acc in RN, RM, RV, RC.
  destruct CM as (M1 & M2 & M3 & M4 & M5). rewrite RM in M3. rewrite RV in M1. rewrite RC in M5.
  pose proof (run_at_cases fmin chol svd inv fuel lf (fw_e w) (fw_o w) (fw_n w) (fw_a w) (fw_s w)) as C.
  cbn [fstep] in ES. destruct (run_at _ _ _ _ _ _ _ _ _ _ _) as [[a1 s1] o1]. injection ES as <- ->.
  destruct C as (CV & CT & CC & T & A & us & CI & CFT & Ci & CB & CP & CU & CL). cbv zeta in *. fold n in CFT, CB, CP, CU, CL.
  assert (EA : fw_a w2 = a1) by (unfold w2; now rewrite no_run_attr).
  exists T, A. split; [exact CI|]. rewrite EA. unfold getBeta, getFailure, getAlpha, getDesignPoint_u, getDesignPoint_x, showDetailedOutput. rewrite CB, CP, CU, CV. cbn [negb].
  unfold getDesignPoint_x. rewrite CFT, CU, M3, Nat.eqb_refl. cbn [negb]. split.
  - unfold left_over in CL. unfold form_Pf, form_beta. destruct (fr_u r) as [u|].
    + destruct CL as (-> & CA & NZ). rewrite CA. split.
      { unfold norm. rewrite alpha_unit by exact NZ. apply sqrt_1. }
      do 4 (split; [reflexivity|]). intros EL.
      set (x := fun i => rv_u2x (D i) (fsum n (fun j => A i j * u j))).
      assert (EX : (if Nat.ltb n (length (dists_of acc)) then Err EIndex
                    else Ok (map (fun i => Fin (u_to_x n A (marg_at (fw_s w2)) u i)) (seq 0 (length (dists_of acc))))) = Ok (map (fun i => Fin (x i)) (seq 0 n))).
      { rewrite EL, Nat.ltb_irrefl. f_equal. apply map_ext. intros i. unfold u_to_x, marg_at. rewrite M3. reflexivity. }
      rewrite EX. split; [reflexivity|]. cbn [rbind]. unfold getAlpha. rewrite CA. cbn [rbind]. unfold dict_keys. rewrite M1, M5, map_map. cbn [fst].
      rewrite (rows_ok u (alpha_of n (fr_grad r)) (map (fun i => Fin (x i)) (seq 0 n)) n).
      * cbn [rbind]. do 2 f_equal. f_equal. rewrite map_length, (combine_seq (fun x => rv_name x) rv0), map_map.
        rewrite EL. apply map_ext_in. intros i Hi. apply in_seq in Hi. cbn [fst snd]. rewrite (nth_indep _ NaN (Fin (x 0%nat))) by (rewrite map_length, seq_length; lia).
        rewrite (map_nth (fun i => Fin (x i)) (seq 0 n) 0%nat i), seq_nth by lia. reflexivity.
      * now rewrite map_length, seq_length.
      * rewrite map_length. lia.
    + rewrite CL. auto.
  - intros L. destruct (Nat.ltb_spec n (length (dists_of acc))); [|lia]. split; reflexivity.
Qed.
Print Assumptions C116_after_completed_run.

(** C116: such a run has the outcome, and the effect on the model, of the analysis of C92 and C93. *)
Theorem C116_same_analysis : forall fmin chol svd inv fuel lf expr fo evn a s b, fb_type b = fa_type a ->
  let '(a1, s1, o1) := run_at fmin chol svd inv fuel lf expr fo evn a s in
  let '(b1, s2, o2) := run_form fmin chol svd inv fuel lf expr fo evn b s in
  s1 = s2 /\ o1 = o2 /\ fa_type a1 = fa_type a.
Proof.
  intros. pose proof (run_at_form fmin chol svd inv fuel lf expr fo evn a s b H) as X.
  destruct (run_at _ _ _ _ _ _ _ _ _ a s) as [[a1 s1] o1]. destruct (run_form _ _ _ _ _ _ _ _ _ b s) as [[b1 s2] o2]. tauto.
Qed.
Print Assumptions C116_same_analysis.

(** C116: a run that raises while it prepares the transformation leaves every answer as it was; one that
    raises later leaves beta, the failure probability and the number of iterations.  Either way the
    results count as valid. *)
Theorem C116_failed_run : forall fmin chol svd inv fuel lf expr fo evn a s a1 s1 e,
  run_at fmin chol svd inv fuel lf expr fo evn a s = (a1, s1, FRaise e) ->
  fa_valid a1 = true /\ getBeta a1 = getBeta a /\ getFailure a1 = getFailure a /\ fa_i a1 = fa_i a /\
  (forall e0, snd (init_run_full fmin chol svd inv (fa_type a) s) = Err e0 ->
     e = e0 /\ getDesignPoint_u a1 = getDesignPoint_u a /\ getAlpha a1 = getAlpha a /\ getDesignPoint_x a1 s = getDesignPoint_x a s).
Proof.
  intros fmin chol svd inv fuel lf expr fo evn a s a1 s1 e E.
  pose proof (run_at_cases fmin chol svd inv fuel lf expr fo evn a s) as C. rewrite E in C. destruct C as (CV & CT & CC & C1 & C2 & C3).
  unfold getBeta, getFailure. rewrite C2, C3. repeat split; auto; revert E; unfold run_at; destruct (init_run_full _ _ _ _ _ _) as [s3 q]; cbn [snd] in *; subst q; intros E; injection E as <- _ Ee; auto.
Qed.
Print Assumptions C116_failed_run.

(** C116: after a completed run, replace the limit state function by one that raises and run again on
    the same model: the exception comes out, beta, Pf, the number of iterations and alpha are still
    those of the first run, but the design point is now the starting point of the second. *)
Theorem C116_failed_rerun : forall fmin chol svd inv fuel lf w w1 r u e evn,
  fstep fmin chol svd inv (S fuel) lf w FRun = (w1, Some (FDone r)) -> fr_u r = Some u ->
  let n := length (sm_marg (fw_s w)) in
  let alpha := alpha_of n (fr_grad r) in
  let w2 := fexec fmin chol svd inv (S fuel) lf w1 [FExpr (always_raises e) evn; FRun] in
  exists T A e', snd (init_run_full fmin chol svd inv (fa_type (fw_a w)) (fw_s w)) = Ok (T, A) /\
  snd (fstep fmin chol svd inv (S fuel) lf (fst (fstep fmin chol svd inv (S fuel) lf w1 (FExpr (always_raises e) evn))) FRun) = Some (FRaise e') /\
  getBeta (fw_a w2) = Ok (Fin (dot n alpha u)) /\ getFailure (fw_a w2) = Some (Fin (Phi (- dot n alpha u))) /\ getAlpha (fw_a w2) = Ok (n, Some alpha) /\
  showResults (fw_a w2) (fw_s w2) = Ok (Some (fr_i r), Fin (dot n alpha u), Fin (Phi (- dot n alpha u)), sm_calls (fw_s w2)) /\
  getDesignPoint_u (fw_a w2) = Some (n, Some (computeStartingPoint n T (marg_at (fw_s w)))).
Proof.
  intros fmin chol svd inv fuel lf w w1 r u e evn ES EU n alpha w2.
  pose proof (run_at_cases fmin chol svd inv (S fuel) lf (fw_e w) (fw_o w) (fw_n w) (fw_a w) (fw_s w)) as C.
  cbn [fstep] in ES. destruct (run_at _ _ _ _ _ _ _ _ _ _ _) as [[a1 s1] o1] eqn:E1. injection ES as <- ->.
  destruct C as (CV & CT & CC & T & A & us & CI & CFT & Ci & CB & CP & CU & CL). cbv zeta in *. fold n in CFT, CB, CP, CU, CL.
  unfold left_over in CL. rewrite EU in CL. destruct CL as (-> & CA & NZ).
  destruct (run_again fmin chol svd inv (S fuel) lf _ _ _ _ _ _ _ _ E1 e (fw_o w) evn fuel lf) as (T' & A' & a2 & s2 & e' & EI & E2 & D1 & D2 & D3 & D4 & D5 & D6 & D7 & D8).
  rewrite CI in EI. injection EI as <- <-. exists T, A, e'. split; [exact CI|].
  assert (EW : w2 = mkFW a2 s2 (always_raises e) evn (fw_o w)).
  { unfold w2, fexec. cbn [fold_left fstep fst fw_a fw_s fw_e fw_n fw_o]. rewrite E2. reflexivity. }
  split. { cbn [fstep fst fw_a fw_s fw_e fw_n fw_o]. rewrite E2. reflexivity. }
  rewrite EW. cbn [fw_a fw_s]. unfold getBeta, getFailure, getAlpha, getDesignPoint_u, showResults. rewrite D1, D2, D3, D4, D5, D7, CB, CP, CA, Ci.
  unfold form_Pf, form_beta. rewrite EU. cbn [negb]. repeat split; reflexivity.
Qed.
Print Assumptions C116_failed_rerun.

(** C116: so after a failed run the answers need not belong together.  R - 3 S of C92: the first run gives
    beta = 80/25; after the failed one beta is still reported as 80/25, alpha is a unit vector and the
    design point the origin, where alpha . u = 0. *)
Theorem C116_mixture_refuted : forall fmin e, exists a0 w r alpha u,
  attr_init None = Ok a0 /\
  let fo := mkfo 100 (1 / 1000) (1 / 1000) 1 default_ls in
  let w0 := mkFW a0 (sm_run h_pipe) expr_ex None fo in
  w = fexec fmin chol2 svd2 inv2 101 10 w0 [FRun; FExpr (always_raises e) None; FRun] /\
  completed fmin chol2 svd2 inv2 101 10 w0 [FRun; FExpr (always_raises e) None; FRun] = [(2%nat, r)] /\
  fa_valid (fw_a w) = true /\ getBeta (fw_a w) = Ok (Fin (80 / 25)) /\ getFailure (fw_a w) = Some (Fin (Phi (- (80 / 25)))) /\
  getAlpha (fw_a w) = Ok (2%nat, Some alpha) /\ norm 2 alpha = 1 /\
  getDesignPoint_u (fw_a w) = Some (2%nat, Some u) /\ dot 2 alpha u = 0.
Proof.
  intros fmin e. set (fo := mkfo 100 (1 / 1000) (1 / 1000) 1 default_ls).
  destruct (C92_example fmin) as (r & a' & s' & ER & EB & EP). fold fo in ER.
  set (a0 := mkFA false "cholesky" None None None None None None).
  pose proof (run_at_form fmin chol2 svd2 inv2 101 10 expr_ex fo None a0 (sm_run h_pipe) aF eq_refl) as HR. rewrite ER in HR.
  destruct (run_at fmin chol2 svd2 inv2 101 10 expr_ex fo None a0 (sm_run h_pipe)) as [[a1 s1] o1] eqn:E1. destruct HR as (-> & -> & _).
  set (w0 := mkFW a0 (sm_run h_pipe) expr_ex None fo). set (w1 := mkFW a1 s' expr_ex None fo).
  assert (ES : fstep fmin chol2 svd2 inv2 101 10 w0 FRun = (w1, Some (FDone r))).
  { unfold w0. cbn [fstep fw_a fw_s fw_e fw_n fw_o]. rewrite E1. reflexivity. }
  assert (EU : exists u, fr_u r = Some u). { unfold form_beta in EB. destruct (fr_u r); [eauto|discriminate]. }
  destruct EU as (u & EU).
  destruct (C116_failed_rerun fmin chol2 svd2 inv2 100 10 w0 w1 r u e None ES EU) as (T & A & e' & EI & EO & G1 & G2 & G3 & G4 & G5).
  change (length (sm_marg (fw_s w0))) with 2%nat in *. unfold form_Pf in EP. rewrite EB in EP. unfold form_beta in EB. rewrite EU in EB. injection EB as EB.
  set (w := fexec fmin chol2 svd2 inv2 101 10 w0 [FRun; FExpr (always_raises e) None; FRun]).
  assert (EW : w = fexec fmin chol2 svd2 inv2 101 10 w1 [FExpr (always_raises e) None; FRun]) by (unfold w; rewrite exec_cons, ES; reflexivity).
  exists a0, w, r, (alpha_of 2 (fr_grad r)), (computeStartingPoint 2 T (marg_at (sm_run h_pipe))).
  split; [reflexivity|]. cbv zeta. fold w0. split; [reflexivity|]. split.
  { set (w3 := fst (fstep fmin chol2 svd2 inv2 101 10 w1 (FExpr (always_raises e) None))) in EO.
    cbn [completed]. rewrite ES. cbv beta iota. change (fstep fmin chol2 svd2 inv2 101 10 w1 (FExpr (always_raises e) None)) with (w3, @None form_out). cbv beta iota.
    destruct (fstep fmin chol2 svd2 inv2 101 10 w3 FRun) as [w4 o4]. cbn [snd] in EO. rewrite EO. reflexivity. }
  split. { apply exec_valid. now left. }
  rewrite <- EB. rewrite EW. split; [exact G1|]. split; [exact G2|]. split; [exact G3|].
  split. { pose proof (run_at_cases fmin chol2 svd2 inv2 101 10 expr_ex fo None a0 (sm_run h_pipe)) as C. rewrite E1 in C.
    destruct C as (_ & _ & _ & T1 & A1 & us & _ & _ & _ & _ & _ & _ & CL). unfold left_over in CL. rewrite EU in CL. unfold norm. rewrite alpha_unit; [apply sqrt_1|apply CL]. }
  split; [exact G5|]. unfold dot. apply fsum_zero. intros i Hi. unfold computeStartingPoint, x_to_u. cbv zeta. unfold mvec.
  rewrite (fsum_zero 2 (fun j => T i j * _)); [ring|]. intros j Hj. two j Hj; cbn; unfold Rdiv, Rminus; rewrite Rplus_opp_r; ring.
Qed.
Print Assumptions C116_mixture_refuted.

(** C116: the report of a completed run on that model: rows R and S, the constant k apart; a variable
    registered afterwards makes it raise IndexError *)
Example C116_example : forall fmin, exists w u alpha,
  let a0 := mkFA false "cholesky" None None None None None None in
  let w0 := mkFW a0 (sm_run h_pipe) expr_ex None (mkfo 100 (1 / 1000) (1 / 1000) 1 default_ls) in
  w = fexec fmin chol2 svd2 inv2 101 10 w0 [FRun; FModel (OpSetCorr [[1; 1/2]; [1/2; 1]])] /\
  (exists x c, showDetailedOutput (fw_a w) (fw_s w) = Ok (Fin (Phi (- (80 / 25))), Fin (80 / 25), c,
     [("R"%string, Fin (u 0%nat), Fin (x 0%nat), Fin (alpha 0%nat)); ("S"%string, Fin (u 1%nat), Fin (x 1%nat), Fin (alpha 1%nat))], [("k"%string, 3)])) /\
  let w' := fexec fmin chol2 svd2 inv2 101 10 w [FModel (OpAdd (ODist (Normal "Z" 1 1)))] in
  getBeta (fw_a w') = Ok (Fin (80 / 25)) /\ showDetailedOutput (fw_a w') (fw_s w') = Err EIndex.
Proof.
  intros fmin. set (fo := mkfo 100 (1 / 1000) (1 / 1000) 1 default_ls). set (a0 := mkFA false "cholesky" None None None None None None).
  destruct (C92_example fmin) as (r & a' & s' & ER & EB & EP). fold fo in ER.
  pose proof (run_at_form fmin chol2 svd2 inv2 101 10 expr_ex fo None a0 (sm_run h_pipe) aF eq_refl) as HR. rewrite ER in HR.
  destruct (run_at fmin chol2 svd2 inv2 101 10 expr_ex fo None a0 (sm_run h_pipe)) as [[a1 s1] o1] eqn:E1. destruct HR as (-> & -> & _).
  set (w0 := mkFW a0 (sm_run h_pipe) expr_ex None fo). set (w1 := mkFW a1 s' expr_ex None fo).
  assert (ES : fstep fmin chol2 svd2 inv2 101 10 w0 FRun = (w1, Some (FDone r))).
  { unfold w0. cbn [fstep fw_a fw_s fw_e fw_n fw_o]. rewrite E1. reflexivity. }
  assert (EU : exists u, fr_u r = Some u). { unfold form_beta in EB. destruct (fr_u r); [eauto|discriminate]. }
  destruct EU as (u & EU). unfold form_beta in EB. rewrite EU in EB. injection EB as EB.
  exists (fexec fmin chol2 svd2 inv2 101 10 w0 [FRun; FModel (OpSetCorr [[1; 1/2]; [1/2; 1]])]), u, (alpha_of 2 (fr_grad r)).
  cbv zeta. split; [reflexivity|].
  assert (N1 : no_run [FModel (OpSetCorr [[1; 1/2]; [1/2; 1]])]) by (intros [X|[]]; discriminate).
  assert (N2 : no_run [FModel (OpSetCorr [[1; 1/2]; [1/2; 1]]); FModel (OpAdd (ODist (Normal "Z" 1 1)))]) by (intros [X|[X|[]]]; discriminate).
  destruct (C116_after_completed_run fmin chol2 svd2 inv2 101 10 a0 h_pipe expr_ex None fo [] w1 r _ ES N1) as (T & A & _ & X & _).
  destruct (C116_after_completed_run fmin chol2 svd2 inv2 101 10 a0 h_pipe expr_ex None fo [] w1 r _ ES N2) as (T2 & A2 & _ & Y & Z).
  rewrite EU in X, Y. change (fexec fmin chol2 svd2 inv2 101 10 (mkFW a0 (sm_run h_pipe) expr_ex None fo) []) with w0 in *.
  change (length (sm_marg (fw_s w0))) with 2%nat in *. cbv zeta in X, Y.
  destruct X as (_ & _ & _ & _ & _ & X). specialize (X eq_refl). destruct X as [_ X]. rewrite EB in X.
  rewrite exec_cons, ES. cbn [fst]. split.
  - exists (fun i => rv_u2x (nth i [Normal "R" 200 20; Normal "S" 40 5] rv0) (fsum 2 (fun j => A i j * u j))). eexists. rewrite X. reflexivity.
  - change (fexec fmin chol2 svd2 inv2 101 10 (fexec fmin chol2 svd2 inv2 101 10 w1 [FModel (OpSetCorr [[1; 1/2]; [1/2; 1]])]) [FModel (OpAdd (ODist (Normal "Z" 1 1)))])
      with (fexec fmin chol2 svd2 inv2 101 10 w1 [FModel (OpSetCorr [[1; 1/2]; [1/2; 1]]); FModel (OpAdd (ODist (Normal "Z" 1 1)))]).
    destruct Y as (_ & _ & _ & Y & _). rewrite EB in Y. split; [exact Y|]. apply Z. cbn. lia.
Qed.
