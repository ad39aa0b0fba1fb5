(** Property theorems C131 (what a Sorm object answers after its runs, completed or not). *)
From Coquelicot Require Import Coquelicot.
From Verif Require Import Base Ext Gauss GaussProofs StochModel LimitState Transf Form Nataf Dist Pipe Sorm SormProofs TailProofs Valid ValidProps SormRun FormAttr FormAttrSpec FormAttrProofs SormAttr SormAttrSpec SormAttrProofs.
From Coq Require Import ZArith Lra Lia.
Open Scope list_scope.
Open Scope R_scope.

(** C131: for every history of runs of one Sorm object, with whatever the initialisation and the fits
    of each run give: the fit_type attribute is that of the last run whose initialisation succeeded,
    completed or not; kappa_pf is that of the last completed point fit, whatever was fitted later; the
    probabilities, generalised indices and kappa are those of the last completed fit (which are the
    plain zeros for a curve fit with excessive curvature), and the zeros of the constructor before. *)
Theorem C131_attributes : forall h,
  let s := sorm_hist h in
  so_fit s = last_of (begun h) /\ so_kpf s = last_of (point_fits h) /\
  match last_of (fits h) with
  | None => so_kappa s = None /\ so_pf s = SInt0 /\ so_bg s = SInt0 /\ so_pfm s = SInt0 /\ so_bgm s = SInt0
  | Some f =>
      so_kappa s = Some (one_sided f) /\
      (~ excessive (fun b => b) f -> so_pf s = SArr (sr_pf (the_pf f)) /\ so_bg s = SArr (sr_beta (the_pf f))) /\
      (excessive (fun b => b) f -> so_pf s = SInt0 /\ so_bg s = SInt0) /\
      (~ excessive (fun b => phi b / Phi (- b)) f -> so_pfm s = SArr (sr_pf (the_pfm f)) /\ so_bgm s = SArr (sr_beta (the_pfm f))) /\
      (excessive (fun b => phi b / Phi (- b)) f -> so_pfm s = SInt0 /\ so_bgm s = SInt0)
  end.
Proof.
  intros h s. destruct (attrs h) as (H1 & H2 & H3 & H4 & H5). fold s in H1, H2, H3, H4, H5.
  split; [exact H1|]. split; [exact H2|]. destruct (last_of (fits h)) as [f|]; cbn [opt] in *.
  - split; [exact H3|]. destruct (idx1 f) as [A1 A2]. destruct (idxm f) as [B1 B2].
    assert (Z : forall a, idx0 a = Err EType -> a = SInt0) by (intros [|x]; [reflexivity|discriminate]).
    assert (E1 : so_pf s = fst (attr1 f) /\ so_bg s = snd (attr1 f)) by (rewrite <- H4; auto).
    assert (E2 : so_pfm s = fst (attrm f) /\ so_bgm s = snd (attrm f)) by (rewrite <- H5; auto).
    destruct E1 as [-> ->], E2 as [-> ->]. split; [intros X; rewrite (A2 X); auto|]. split; [intros X; split; now apply Z, A1|]. split; [intros X; rewrite (B2 X); auto|]. intros X; split; now apply Z, B1.
  - injection H4 as -> ->. injection H5 as -> ->. auto 6.
Qed.
Print Assumptions C131_attributes.

(** C131: what showResults prints.  Before any run ValueError, before the first completed fit
    TypeError; afterwards index and probability of the last completed fit (TypeError for a curve fit
    with excessive curvature), next to the two-sided curvatures of the last completed point fit if the
    last run begun asked for one, and to the curvatures of the last completed fit otherwise. *)
Theorem C131_show : forall h,
  match last_of (fits h) with
  | None => sorm_show (sorm_hist h) = Err EType /\ (exists f i, In (SRun f i) h) \/
            sorm_show (sorm_hist h) = Err EValue /\ (forall f i, ~ In (SRun f i) h)
  | Some f =>
      (excessive (fun b => b) f -> sorm_show (sorm_hist h) = Err EType) /\
      (~ excessive (fun b => b) f -> sorm_show (sorm_hist h) = Ok (sr_beta (the_pf f), sr_pf (the_pf f), shown h f))
  end.
Proof.
  intros h. pose proof (C131_attributes h) as (_ & _ & A). pose proof (C64_sorm_flag h) as V. rewrite show_lines. cbv zeta in A.
  destruct (last_of (fits h)) as [f|] eqn:L.
  - assert (E : so_valid (sorm_hist h) = true).
    { apply V, fits_run. intros N. rewrite N in L. discriminate. }
    rewrite E, (curv_shown h f L). destruct A as (_ & A1 & A2 & _). split; intros X.
    + destruct (A2 X) as [-> ->]. reflexivity.
    + destruct (A1 X) as [-> ->]. reflexivity.
  - destruct A as (_ & -> & -> & _). destruct (so_valid (sorm_hist h)) eqn:E.
    + left. split; [reflexivity|]. now apply V.
    + right. split; [reflexivity|]. intros f i I. assert (X : false = true) by (apply V; eauto). discriminate.
Qed.
Print Assumptions C131_show.

(** C131: an analysis does not depend on what the object did before: after every history a run ends as
    it would on a new object, and when its fit is completed, showResults shows what it would show there
    and the numbers and curvatures belong together. *)
Theorem C131_run_alone : forall h ft i,
  snd (sorm_run ft i (sorm_hist h)) = snd (sorm_run ft i sorm_init) /\
  forall f, fit_of (SRun ft i) = [f] ->
    sorm_show (fst (sorm_run ft i (sorm_hist h))) = sorm_show (fst (sorm_run ft i sorm_init)) /\
    (~ excessive (fun b => b) f -> sorm_show (fst (sorm_run ft i (sorm_hist h))) = Ok (sr_beta (the_pf f), sr_pf (the_pf f), its_curvatures f)).
Proof.
  intros h ft i. assert (S : forall f, fit_of (SRun ft i) = [f] -> forall h,
    (excessive (fun b => b) f -> sorm_show (fst (sorm_run ft i (sorm_hist h))) = Err EType) /\
    (~ excessive (fun b => b) f -> sorm_show (fst (sorm_run ft i (sorm_hist h))) = Ok (sr_beta (the_pf f), sr_pf (the_pf f), its_curvatures f))).
  { intros f F h'. pose proof (C131_show (h' ++ [SRun ft i])) as C. rewrite fits_snoc, F, last_app, hist_snoc in C. cbn [last_of sorm_step] in C.
    destruct C as [C1 C2]. split; [exact C1|]. intros N. rewrite (C2 N). do 2 f_equal.
    revert F. unfold shown. rewrite begun_snoc, point_snoc, !last_app. unfold begun, fit_of. cbn [flat_map].
    destruct (si_init i) as [[]|e]; [|discriminate]. cbn [app last_of].
    destruct (String.eqb ft "cf") eqn:C.
    - apply String.eqb_eq in C. subst ft. destruct (si_cf i) as [[b k]|e]; [|discriminate]. intros [= <-]. cbn. destruct (last_of (point_fits h')) as [[? ?]|]; reflexivity.
    - destruct (String.eqb ft "pf") eqn:P; [|discriminate]. destruct (si_pf i) as [[[b km] kp]|e]; [|discriminate]. intros [= <-]. cbn. rewrite ?P. reflexivity. }
  assert (F2 : forall f, fit_of (SRun ft i) = [f] ->
    sorm_show (fst (sorm_run ft i (sorm_hist h))) = sorm_show (fst (sorm_run ft i sorm_init))).
  { intros f F. destruct (S f F h) as [A1 A2], (S f F []) as [B1 B2]. change (sorm_hist []) with sorm_init in *.
    destruct f as [b k|b km kp a]; [|rewrite A2, B2 by (intros []); reflexivity].
    pose proof (msg_iff b b k) as M. destruct (sr_msg (breitung_cf b b k)).
    - assert (X : excessive (fun b => b) (CurveFit b k)) by (now apply M). now rewrite A1, B1.
    - assert (X : ~ excessive (fun b => b) (CurveFit b k)) by (intros X; apply M in X; discriminate). now rewrite A2, B2. }
  split; [|intros f F; split; [now apply (F2 f)|now apply S]].
  assert (F3 : forall s, snd (sorm_run ft i s) = match si_init i with Err e => Err e | Ok _ =>
     if String.eqb ft "cf" then match si_cf i with Err e => Err e | Ok _ => if si_print i then rbind (sorm_show (fst (sorm_run ft i s))) (fun _ => Ok tt) else Ok tt end
     else if String.eqb ft "pf" then match si_pf i with Err e => Err e | Ok _ => if si_print i then rbind (sorm_show (fst (sorm_run ft i s))) (fun _ => Ok tt) else Ok tt end
     else Err EValue end).
  { intros s. unfold sorm_run. destruct (si_init i) as [[]|e]; [|reflexivity]. destruct (String.eqb ft "cf"); [destruct (si_cf i) as [[? ?]|]; reflexivity|].
    destruct (String.eqb ft "pf"); [destruct (si_pf i) as [[[? ?] ?]|]; reflexivity|reflexivity]. }
  rewrite (F3 (sorm_hist h)), (F3 sorm_init). destruct (fit_of (SRun ft i)) as [|f [|g q]] eqn:F.
  - revert F. unfold fit_of. destruct (si_init i) as [[]|e]; [|reflexivity]. destruct (String.eqb ft "cf"); [destruct (si_cf i) as [[? ?]|]; [discriminate|reflexivity]|].
    destruct (String.eqb ft "pf"); [destruct (si_pf i) as [[[? ?] ?]|]; [discriminate|reflexivity]|reflexivity].
  - rewrite (F2 f eq_refl). reflexivity.
  - exfalso. revert F. unfold fit_of. destruct (si_init i) as [[]|e]; [|discriminate]. destruct (String.eqb ft "cf"); [destruct (si_cf i) as [[? ?]|]; discriminate|].
    destruct (String.eqb ft "pf"); [destruct (si_pf i) as [[[? ?] ?]|]; discriminate|discriminate].
Qed.
Print Assumptions C131_run_alone.

(** C131 refuted: the index, the probability and the curvatures printed need not come from one analysis.
    After a point fit, a curve fit, and a point fit that raises, showResults says "(Point-Fitting)" and
    prints the numbers of the curve fit with the curvatures of the first point fit. *)
Theorem C131_results_belong_together_refuted : ~ (forall h b p k,
  sorm_show (sorm_hist h) = Ok (b, p, k) ->
  exists f, In f (fits h) /\ b = sr_beta (the_pf f) /\ p = sr_pf (the_pf f) /\ (k = its_curvatures f \/ k = one_sided f)).
Proof.
  intros H. set (id := fun l : list R => l).
  set (h := [SRun "pf" (mkSin (Ok tt) (Err EValue) (Ok (1, [0], [3])) id false);
             SRun "cf" (mkSin (Ok tt) (Ok (1, [1])) (Err EValue) id false);
             SRun "pf" (mkSin (Ok tt) (Err EValue) (Err ERuntime) id false)]).
  assert (FF : fits h = [PointFit 1 [0] [3] [/ 2 * (0 + 3)]; CurveFit 1 [1]]) by reflexivity.
  assert (N : ~ excessive (fun b => b) (CurveFit 1 [1])) by (intros [_ (x & [<-|[]] & L)]; lra).
  pose proof (C131_show h) as C. rewrite FF in C. cbn [last_of] in C. destruct C as [_ C]. specialize (C N).
  destruct (H h _ _ _ C) as (f & I & _ & P & K). rewrite FF in I.
  change (shown h (CurveFit 1 [1])) with ([0; 3] : list R) in K.
  destruct I as [<-|[<-|[]]].
  - revert P. cbn [the_pf]. unfold pf_breitung, pf_breitung_pf, breitung_cf, breitung_pf, guard_cf.
    rewrite (proj2 (Reqb_false 1 0)) by lra. cbn [map existsb orb combine fst snd lprod].
    rewrite (proj2 (Rltb_false 1 (-1 / 1))) by lra. rewrite !(proj2 (Rleb_false _ _)) by lra. cbn [orb negb sr_pf xprod fold_right map].
    unfold pow_mhalf. rewrite (proj2 (Rltb_spec 0 (1 + 1 * 1))) by lra. cbn. intros [= P].
    pose proof (Phi_bound (- (1))) as PP.
    replace (1 + 1 * 3) with (2 * 2) in P by lra. replace (1 + 1 * 0) with 1 in P by lra. rewrite sqrt_square, sqrt_1 in P by lra.
    assert (Q : / sqrt (1 + 1 * 1) = 3 / 4) by (apply (Rmult_eq_reg_l (Phi (- (1)))); [rewrite Rmult_1_r in P; rewrite P; field|lra]).
    assert (S2 : sqrt (1 + 1 * 1) * sqrt (1 + 1 * 1) = 1 + 1 * 1) by (apply sqrt_sqrt; lra).
    assert (NZ : sqrt (1 + 1 * 1) <> 0) by (intros X; rewrite X in S2; lra).
    apply (f_equal (fun x => x * sqrt (1 + 1 * 1))) in Q. rewrite Rinv_l in Q by exact NZ. nra.
  - destruct K as [K|K]; discriminate K.
Qed.
Print Assumptions C131_results_belong_together_refuted.

(** C131 refuted: kappa_pf is documented as None for curve-fitting; a curve fit leaves the curvatures of
    an earlier point fit there, for every point fit and every curve fit. *)
Theorem C131_kappa_pf_after_curve_fit_refuted : ~ (forall h i,
  so_fit (sorm_hist (h ++ [SRun "cf" i])) = Some "cf"%string -> so_kpf (sorm_hist (h ++ [SRun "cf" i])) = None) /\
  forall h i, so_kpf (sorm_hist (h ++ [SRun "cf" i])) = so_kpf (sorm_hist h).
Proof.
  assert (G : forall h i, so_kpf (sorm_hist (h ++ [SRun "cf" i])) = so_kpf (sorm_hist h)).
  { intros h i. destruct (C131_attributes h) as (_ & -> & _). destruct (C131_attributes (h ++ [SRun "cf" i])) as (_ & -> & _).
    rewrite point_snoc, last_app. cbn [fit_of]. destruct (si_init i); [|reflexivity]. change (String.eqb "cf" "cf") with true. cbv iota.
    destruct (si_cf i) as [[? ?]|]; reflexivity. }
  split; [|exact G]. intros H.
  specialize (H [SRun "pf" (mkSin (Ok tt) (Err EValue) (Ok (1, [0], [3])) (fun l => l) false)] (mkSin (Ok tt) (Ok (1, [1])) (Err EValue) (fun l => l) false)).
  rewrite G in H. discriminate H. reflexivity.
Qed.
Print Assumptions C131_kappa_pf_after_curve_fit_refuted.

(** C131: showDetailedOutput.  Where the Form object would print its own detailed output, Sorm prints
    the same numbers and rows with the results of the last completed fit; it raises TypeError if there is none,
    or if that was a curve fit with excessive curvature for either formula. *)
Theorem C131_detailed_output : forall h fa m p b c rs cs,
  showDetailedOutput fa m = Ok (p, b, c, rs, cs) ->
  match last_of (fits h) with
  | None => sorm_detail fa m m (sorm_hist h) = Err (if so_valid (sorm_hist h) then EType else EValue)
  | Some f =>
      (excessive (fun b => b) f \/ excessive (fun b => phi b / Phi (- b)) f -> sorm_detail fa m m (sorm_hist h) = Err EType) /\
      (~ excessive (fun b => b) f -> ~ excessive (fun b => phi b / Phi (- b)) f ->
        sorm_detail fa m m (sorm_hist h) = Ok (mkDetail p (sr_pf (the_pf f)) (sr_pf (the_pfm f)) b (sr_beta (the_pf f)) (sr_beta (the_pfm f)) c (shown h f) rs cs))
  end.
Proof.
  intros h fa m p b c rs cs D. pose proof (C131_attributes h) as (_ & _ & A). cbv zeta in A. pose proof (C64_sorm_flag h) as V.
  revert D. unfold showDetailedOutput, sorm_detail. destruct (fa_valid fa); [|discriminate]. cbn [negb].
  destruct (getDesignPoint_x fa m) as [x|]; [|discriminate]. cbn [rbind]. destruct (getAlpha fa) as [al|]; [|discriminate]. cbn [rbind].
  destruct (fa_u fa) as [u|]; [|discriminate]. destruct (fa_beta fa) as [b'|]; [|discriminate]. destruct (fa_Pf fa) as [p'|]; [|discriminate].
  destruct (rows 0 _ u al x) as [rs'|]; [|discriminate]. cbn [rbind]. intros [= -> -> <- -> <-].
  destruct (last_of (fits h)) as [f|] eqn:L.
  - assert (E : so_valid (sorm_hist h) = true).
    { apply V, fits_run. intros N. rewrite N in L. discriminate. }
    rewrite E, (curv_shown h f L). cbn [negb]. destruct A as (_ & A1 & A2 & A3 & A4). split.
    + intros [X|X].
      * destruct (A2 X) as [-> ->]. reflexivity.
      * destruct (A4 X) as [-> ->]. destruct (so_pf (sorm_hist h)); reflexivity.
    + intros X Y. destruct (A1 X) as [-> ->], (A3 Y) as [-> ->]. reflexivity.
  - destruct A as (_ & -> & _). destruct (so_valid (sorm_hist h)); reflexivity.
Qed.
Print Assumptions C131_detailed_output.

Lemma rows_names ns : forall i u al x rs, rows i ns u al x = Ok rs -> map (fun q => fst (fst (fst q))) rs = ns.
Proof.
  induction ns as [|nm ns IH]; intros i u al x rs; cbn [rows]; [intros [= <-]; reflexivity|].
  destruct (comp u i); [|discriminate]. cbn [rbind]. destruct (nth_error x i); [|discriminate]. cbn [rbind]. destruct (comp al i); [|discriminate]. cbn [rbind].
  destruct (rows (S i) ns u al x) as [q|] eqn:E; [|discriminate]. cbn [rbind]. intros [= <-]. cbn. f_equal. eapply IH, E.
Qed.
(** C131: with a Form object of another model, counter, constants and variable names are those of
    Sorm's own model, index and probability those of the Form object. *)
Theorem C131_detail_own_model : forall h fa mf m d,
  sorm_detail fa mf m (sorm_hist h) = Ok d ->
  d_calls d = sm_calls m /\ d_consts d = sm_consts m /\ map (fun q => fst (fst (fst q))) (d_rows d) = dict_keys (sm_variables m) /\
  fa_Pf fa = Some (d_pf_form d) /\ fa_beta fa = Some (d_beta_form d) /\
  exists f, last_of (fits h) = Some f /\ d_pf d = sr_pf (the_pf f) /\ d_bg d = sr_beta (the_pf f) /\
    d_pfm d = sr_pf (the_pfm f) /\ d_bgm d = sr_beta (the_pfm f) /\ d_curv d = shown h f.
Proof.
  intros h fa mf m d. pose proof (attrs h) as (_ & _ & _ & H4 & H5). pose proof (curv_shown h) as CS.
  unfold sorm_detail. destruct (so_valid (sorm_hist h)); [|discriminate]. cbn [negb].
  destruct (getDesignPoint_x fa mf) as [x|]; [|discriminate]. cbn [rbind]. destruct (getAlpha fa) as [al|]; [|discriminate]. cbn [rbind].
  destruct (fa_beta fa) as [b|]; [|discriminate]. destruct (fa_Pf fa) as [p|]; [|discriminate]. destruct (fa_u fa) as [u|]; [|discriminate].
  destruct (last_of (fits h)) as [f|]; cbn [opt] in H4, H5; [|injection H4 as -> ->; discriminate].
  assert (E1 : so_pf (sorm_hist h) = fst (attr1 f) /\ so_bg (sorm_hist h) = snd (attr1 f)) by (rewrite <- H4; auto).
  assert (E2 : so_pfm (sorm_hist h) = fst (attrm f) /\ so_bgm (sorm_hist h) = snd (attrm f)) by (rewrite <- H5; auto).
  destruct E1 as [-> ->], E2 as [-> ->]. rewrite (CS f eq_refl).
  assert (A : forall y, idx0 (fst (attr1 f)) = Ok y -> attr1 f = (SArr (sr_pf (the_pf f)), SArr (sr_beta (the_pf f)))).
  { destruct f as [c k|c km kp a]; [|reflexivity]. cbn. unfold cf_attr. destruct (sr_msg (pf_breitung c k)); [discriminate|reflexivity]. }
  assert (B : forall y, idx0 (fst (attrm f)) = Ok y -> attrm f = (SArr (sr_pf (the_pfm f)), SArr (sr_beta (the_pfm f)))).
  { destruct f as [c k|c km kp a]; [|reflexivity]. cbn. unfold cf_attr. destruct (sr_msg (pf_breitung_m c k)); [discriminate|reflexivity]. }
  destruct (idx0 (fst (attr1 f))) as [y|] eqn:Y; [|discriminate]. specialize (A y eq_refl). rewrite A in *. cbn [fst snd idx0] in *. injection Y as <-.
  destruct (idx0 (fst (attrm f))) as [y|] eqn:Y; [|discriminate]. specialize (B y eq_refl). rewrite B in *. cbn [fst snd idx0] in *. injection Y as <-. cbn [rbind].
  destruct (rows 0 (dict_keys (sm_variables m)) u al x) as [rs|] eqn:RS; [|discriminate]. cbn [rbind]. intros [= <-]. cbn.
  repeat (split; [reflexivity|]). split; [eapply rows_names, RS|]. repeat (split; [reflexivity|]). exists f. repeat split; reflexivity.
Qed.
Print Assumptions C131_detail_own_model.

(** C131: the modified formula is the stricter one, so for every beta > 0 there are curvatures with which
    the run completes, also with printing on, showResults prints its numbers, and showDetailedOutput
    raises TypeError. *)
Theorem C131_summary_but_no_detail : forall h beta kappa i k,
  0 < beta -> si_init i = Ok tt -> si_cf i = Ok (beta, kappa) ->
  (forall x, In x kappa -> -1 / beta <= x) -> In k kappa -> k < -1 / (phi beta / Phi (- beta)) ->
  let s := fst (sorm_run "cf" i (sorm_hist h)) in
  snd (sorm_run "cf" i (sorm_hist h)) = Ok tt /\
  sorm_show s = Ok (sr_beta (pf_breitung beta kappa), sr_pf (pf_breitung beta kappa), kappa) /\
  (forall fa m p b c rs cs, showDetailedOutput fa m = Ok (p, b, c, rs, cs) -> sorm_detail fa m m s = Err EType).
Proof.
  intros h beta kappa i k Hb I1 I2 G Ik Lk s.
  assert (F : fit_of (SRun "cf" i) = [CurveFit beta kappa]). { unfold fit_of. rewrite I1. change (String.eqb "cf" "cf") with true. cbv iota. now rewrite I2. }
  pose proof (C78_curvefit_shows i (sorm_hist h) beta kappa I1 I2 (fun x Ix _ => G x Ix)) as C. fold s.
  destruct (sorm_run "cf" i (sorm_hist h)) as [s' r] eqn:E. cbn [fst snd] in *. destruct C as [-> C]. split; [reflexivity|]. split; [exact C|].
  intros fa m p b c rs cs D. pose proof (C131_detailed_output (h ++ [SRun "cf" i]) fa m p b c rs cs D) as X.
  rewrite fits_snoc, F, last_app, hist_snoc in X. cbn [last_of sorm_step] in X. rewrite E in X. cbn [fst] in X. apply X. right.
  split; [|exists k; auto]. pose proof (psi_pos beta). unfold psi in *. lra.
Qed.
Print Assumptions C131_summary_but_no_detail.
(** C131: there are such curvatures for every beta > 0 *)
Theorem C131_such_curvatures_exist : forall beta, 0 < beta -> exists k, -1 / beta < k /\ k < -1 / (phi beta / Phi (- beta)).
Proof.
  intros beta Hb. change (phi beta / Phi (- beta)) with (psi beta). pose proof (psi_gt beta) as P. pose proof (psi_pos beta) as PP.
  assert (L : / psi beta < / beta) by (apply Rinv_lt_contravar; [nra|exact P]).
  exists ((-1 / beta + -1 / psi beta) / 2). unfold Rdiv in *. lra.
Qed.
Print Assumptions C131_such_curvatures_exist.

(** C131: the runs of a session are such histories: whatever limit states, options, Form objects and
    models the runs of a Sorm object meet, the object is the one of a history with the same fit types
    and print options. *)
Theorem C131_sessions : forall fmin chol svd inv eig sort lf ty (l : list srun),
  exists h, Forall2 (fun r o => exists i, o = SRun (r_fit r) i /\ si_print i = r_print r /\ si_sort i = sort) l h /\
    fold_left (fun st r => fst (fst (sorm_run_on fmin chol svd inv eig sort lf (r_expr r) (r_fo r) (r_evn r) (r_fit r) (r_print r) ty (r_form r) st (r_model r)))) l sorm_init
    = sorm_hist h.
Proof.
  intros fmin chol svd inv eig sort lf ty l. unfold sorm_hist. generalize sorm_init.
  induction l as [|r l IH]; intros st; [exists []; split; [constructor|reflexivity]|]. cbn [fold_left].
  assert (X : exists i, si_print i = r_print r /\ si_sort i = sort /\
    fst (fst (sorm_run_on fmin chol svd inv eig sort lf (r_expr r) (r_fo r) (r_evn r) (r_fit r) (r_print r) ty (r_form r) st (r_model r))) = fst (sorm_run (r_fit r) i st)).
  { unfold sorm_run_on. destruct (init_run_full fmin chol svd inv ty (r_model r)) as [s0 q].
    match goal with |- context [let '(i, s) := ?E in _] => destruct E as [i s1] eqn:EI end.
    exists i. repeat split.
    3:{ destruct (sorm_run (r_fit r) i st). reflexivity. }
    all: revert EI; repeat match goal with |- context [match ?x with _ => _ end] => destruct x end; intros [= <- <-]; reflexivity. }
  destruct X as (i & P & S & ->). destruct (IH (fst (sorm_run (r_fit r) i st))) as (h & F & E).
  exists (SRun (r_fit r) i :: h). split; [constructor; [exists i; auto|exact F]|exact E].
Qed.
Print Assumptions C131_sessions.

(** the hypotheses are met: a point fit, a curve fit, an unknown fit type *)
Example C131_example :
  let h := [SRun "pf" (mkSin (Ok tt) (Err EValue) (Ok (1, [0], [3])) (fun l => l) false); SShow;
            SRun "cf" (mkSin (Ok tt) (Ok (1, [1])) (Err EValue) (fun l => l) true);
            SRun "xx" (mkSin (Ok tt) (Ok (1, [1])) (Err EValue) (fun l => l) false)] in
  fits h = [PointFit 1 [0] [3] [/ 2 * (0 + 3)]; CurveFit 1 [1]] /\ begun h = ["pf"; "cf"; "xx"]%string /\
  point_fits h = [([0], [3])] /\ ~ excessive (fun b => b) (CurveFit 1 [1]) /\
  sorm_show (sorm_hist h) = Ok (sr_beta (pf_breitung 1 [1]), sr_pf (pf_breitung 1 [1]), [1]) /\ so_fit (sorm_hist h) = Some "xx"%string.
Proof.
  intros h. assert (N : ~ excessive (fun b => b) (CurveFit 1 [1])) by (intros [_ (x & [<-|[]] & L)]; lra).
  repeat split; [exact N|]. pose proof (C131_show h) as C.
  destruct C as [_ C]. exact (C N).
Qed.
