(** Property theorems C105: LoadCombination.run_reliability_case as a whole analysis. *)
From Coquelicot Require Import Coquelicot.
From Verif Require Import Base Ext Dict Gauss StochModel StochModelSpec StochModelProofs LimitState LimitStateSpec LimitStateProofs LimitStateProps Transf TransfSpec Form FormProps Nataf NatafProofs Dist RotProps Pipe PipeSpec PipeProofs PipeProps LoadComb LoadCombSpec LoadCombProofs LoadCombProps LcRun LcRunSpec LcRunProofs.
From Coq Require Import ZArith Lra Lia.
Open Scope R_scope.

(** C105: the analysis of a case is the FORM analysis of the model built by hand from the case's
    objects, or an exception if two objects share a name. *)
Theorem C105_case_by_hand :
  forall fmin chol svd inv fuel lf expr evn comb resist other corr consts cases l opts n leading kwargs,
  lc_init comb resist other corr consts (Some cases) = Ok l ->
  NoDup (map fst comb) -> NoDup (map fst cases) -> NoDup (names_of resist ++ names_of (opt_list other) ++ map fst comb) -> NoDup (names_of (opt_list consts)) ->
  dict_get cases n = Some leading ->
  let objs := case_objects kwargs comb resist (opt_list other) (opt_list consts) leading in
  let run := run_reliability_case fmin chol svd inv fuel lf expr evn l opts (Some n) kwargs in
  (all_named objs -> NoDup (names_of objs) -> (forall f, corr = Some f -> frame_covers f (map rv_name (dists_of objs))) ->
     run = form_case fmin chol svd inv fuel lf expr evn opts (sm_run (by_hand corr objs))) /\
  (~ (all_named objs /\ NoDup (names_of objs)) -> run = LRaise EException).
Proof.
  intros fmin chol svd inv fuel lf expr evn comb resist other corr consts cases l opts n leading kw H Nc Ncs N Nk Hn objs run.
  assert (Ed := case_items comb resist other corr consts cases l H Nc Ncs N n leading Hn).
  assert (Ec := const_items comb resist other corr consts cases l H Nk).
  assert (EC : lc_corr l = corr) by (apply init_ok in H; destruct H as (? & _ & _ & X & _); exact X).
  unfold run, run_reliability_case. rewrite (assemble_eq l n kw _ Ed), EC, Ec.
  set (items := labelled (opt_list consts) ++ labelled resist ++ labelled (opt_list other) ++ comb_part comb leading).
  assert (Eo : objs = overridden kw items) by reflexivity.
  pose proof (add_items_spec kw items sm_init [] reg_init) as A. cbv zeta in A. cbn [app] in A. rewrite <- Eo in A.
  destruct (add_items items kw sm_init) as [sm|e] eqn:EA; cbn [rbind].
  - destruct A as ((RI & RN & RM & RV & RC) & AN). pose proof (add_items_run kw items sm_init sm EA) as ER. rewrite <- Eo in ER.
    split.
    + intros _ ND HF. unfold by_hand. destruct corr as [f|]; cbn [rbind].
      * assert (EK : dict_keys (sm_variables sm) = map rv_name (dists_of objs)) by (rewrite RV; apply vars_keys).
        rewrite EK, (reindex_rows f _ (HF f eq_refl)). cbn [rbind]. rewrite full_rows_some. unfold sm_run. rewrite fold_left_app, ER. reflexivity.
      * rewrite app_nil_r. unfold sm_run. rewrite ER. reflexivity.
    + intros X. exfalso. apply X. split; [exact AN|]. rewrite <- RI. exact RN.
  - destruct A as (-> & A). split; [intros X Y _; exfalso; apply A; split; assumption|reflexivity].
Qed.
Print Assumptions C105_case_by_hand.

Lemma full_row_none r : In None r -> full_row r = None.
Proof. induction r as [|x r IH]; intros H; [destruct H|]. cbn. destruct H as [->|H]; [reflexivity|]. unfold full_row in IH. rewrite (IH H). destruct x; reflexivity. Qed.
Lemma full_rows_none M : (exists r, In r M /\ In None r) -> full_rows M = None.
Proof.
  induction M as [|x M IH]; intros (r & H & Hn); [destruct H|]. cbn. destruct H as [->|H]; [rewrite (full_row_none r Hn); reflexivity|].
  unfold full_rows in IH. rewrite (IH (ex_intro _ r (conj H Hn))). destruct (full_row x); reflexivity.
Qed.
(** ** C105 A random variable of the case that the user's correlation frame does not mention makes the
    correlation matrix of the analysis contain NaN; it is not taken as uncorrelated *)
Theorem C105_missing_label : forall fmin chol svd inv fuel lf expr evn comb resist other fr consts cases l opts n leading kwargs v,
  lc_init comb resist other (Some fr) consts (Some cases) = Ok l ->
  NoDup (map fst comb) -> NoDup (map fst cases) -> NoDup (names_of resist ++ names_of (opt_list other) ++ map fst comb) -> NoDup (names_of (opt_list consts)) ->
  dict_get cases n = Some leading ->
  let objs := case_objects kwargs comb resist (opt_list other) (opt_list consts) leading in
  all_named objs -> NoDup (names_of objs) -> NoDup (fr_index fr) -> NoDup (fr_cols fr) ->
  In v (map rv_name (dists_of objs)) -> ~ (In v (fr_index fr) /\ In v (fr_cols fr)) ->
  run_reliability_case fmin chol svd inv fuel lf expr evn l opts (Some n) kwargs = LNaN.
Proof.
  intros fmin chol svd inv fuel lf expr evn comb resist other fr consts cases l opts n leading kw v H Nc Ncs N Nk Hn objs HA ND N1 N2 Hv NI.
  assert (Ed := case_items comb resist other (Some fr) consts cases l H Nc Ncs N n leading Hn).
  assert (Ec := const_items comb resist other (Some fr) consts cases l H Nk).
  assert (EC : lc_corr l = Some fr) by (apply init_ok in H; destruct H as (? & _ & _ & X & _); exact X).
  unfold run_reliability_case. rewrite (assemble_eq l n kw _ Ed), EC, Ec.
  set (items := labelled (opt_list consts) ++ labelled resist ++ labelled (opt_list other) ++ comb_part comb leading).
  assert (Eo : objs = overridden kw items) by reflexivity.
  pose proof (add_items_spec kw items sm_init [] reg_init) as A. cbv zeta in A. cbn [app] in A. rewrite <- Eo in A.
  destruct (add_items items kw sm_init) as [sm|e] eqn:EA; cbn [rbind].
  - destruct A as ((RI & RN & RM & RV & RC) & AN).
    assert (EK : dict_keys (sm_variables sm) = map rv_name (dists_of objs)) by (rewrite RV; apply vars_keys).
    rewrite EK. unfold reindex, axis_ok. rewrite (proj2 (no_dups_spec (fr_index fr)) N1), (proj2 (no_dups_spec (fr_cols fr)) N2). cbn [orb andb rbind].
    rewrite full_rows_none; [reflexivity|]. eexists. split; [apply in_map; exact Hv|]. apply in_map_iff. exists v. split; [|exact Hv].
    destruct (index_of v (fr_index fr)) as [i|] eqn:E1; [|reflexivity]. destruct (index_of v (fr_cols fr)) as [j|] eqn:E2; [|reflexivity]. exfalso. apply NI.
    split; [exact (nth_error_In _ _ (index_of_some _ _ _ E1))|exact (nth_error_In _ _ (index_of_some _ _ _ E2))].
  - exfalso. destruct A as (_ & A). apply A. split; assumption.
Qed.
Print Assumptions C105_missing_label.

(** C105: a keyword argument that is no label of the load combination is silently ignored. *)
Theorem C105_unknown_override_ignored :
  forall fmin chol svd inv fuel lf expr evn comb resist other corr consts cases l opts lcn kwargs kwargs',
  lc_init comb resist other corr consts (Some cases) = Ok l -> NoDup (map fst comb) -> NoDup (map fst cases) ->
  (forall k, In k (lc_label_all l) -> dict_get kwargs k = dict_get kwargs' k) ->
  run_reliability_case fmin chol svd inv fuel lf expr evn l opts lcn kwargs = run_reliability_case fmin chol svd inv fuel lf expr evn l opts lcn kwargs'.
Proof.
  intros fmin chol svd inv fuel lf expr evn comb resist other corr consts cases l opts lcn kw kw' H Nc Ncs HK.
  assert (AE : forall items, (forall k, In k (map fst items) -> dict_get kw k = dict_get kw' k) -> forall s, add_items items kw s = add_items items kw' s).
  { induction items as [|[k v] items IH]; intros HI s; [reflexivity|]. cbn [add_items]. rewrite (HI k) by (left; reflexivity).
    destruct (addVariable s _); cbn [rbind]; [|reflexivity]. apply IH. intros k' Hk'. apply HI. right. exact Hk'. }
  assert (AC : (match lc_const l with None => Ok sm_init | Some d => add_items d kw sm_init end) = (match lc_const l with None => Ok sm_init | Some d => add_items d kw' sm_init end)).
  { unfold lc_label_all in HK. destruct (lc_const l) as [d|]; [|reflexivity]. apply AE. intros k Hk. apply HK. apply in_or_app. right. exact Hk. }
  assert (AD : forall n d, dict_get (lc_dict l) n = Some d -> forall s, add_items d kw s = add_items d kw' s).
  { intros n d Hd. apply AE. intros k Hk. apply HK.
    pose proof (proj1 (proj1 (C54_construction comb resist other corr consts cases)) (ex_intro _ l H)) as (CC & AR & AO & _).
    apply init_ok in H. destruct H as (cs & Ecs & LC & _ & P1 & P2 & Rs & O & _ & A). injection Ecs as <-.
    destruct (pick_spec _ _ _ P1) as [K1 G1].
    pose proof (all_cases_spec _ _ _ _ _ _ _ A Ncs n) as S. destruct (dict_get cases n) as [leading|]; [|rewrite Hd in S; discriminate].
    destruct S as (d' & Ed & Cd). rewrite Hd in Ed. injection Ed as <-.
    assert (N1 : NoDup (map fst (lc_resist l))) by (apply (by_name_nodup resist [] _ (NoDup_nil _) Rs)).
    assert (N2 : NoDup (map fst (opt_dict (lc_other l)))) by (apply (by_name_nodup _ [] _ (NoDup_nil _) O)).
    assert (N3 : NoDup (map fst (lc_max l))) by (rewrite K1; exact Nc).
    destruct (case_dict_spec _ _ _ _ _ _ Cd N1 N2 N3) as (_ & D2 & _). destruct (dget_key_some d k Hk) as (v & Ev). rewrite D2 in Ev.
    unfold lc_label_all, lc_label_resist, lc_label_other, lc_label_comb, dict_keys. apply in_or_app. left.
    destruct (dict_get (lc_max l) k) as [v1|] eqn:E1.
    - apply in_or_app. right. apply in_or_app. right. exact (in_map fst _ _ (dget_in _ _ _ E1)).
    - destruct (dict_get (opt_dict (lc_other l)) k) as [v2|] eqn:E2.
      + apply in_or_app. right. apply in_or_app. left. destruct (lc_other l); [exact (in_map fst _ _ (dget_in _ _ _ E2))|discriminate].
      + apply in_or_app. left. exact (in_map fst _ _ (dget_in _ _ _ Ev)). }
  unfold run_reliability_case. assert (E : assemble_case l lcn kw = assemble_case l lcn kw'); [|now rewrite E].
  unfold assemble_case. destruct (match lcn with Some n => Ok n | None => _ end) as [n|e]; cbn [rbind]; [|reflexivity].
  rewrite AC. destruct (match lc_const l with None => Ok sm_init | Some d => add_items d kw' sm_init end) as [sm|e]; cbn [rbind]; [|reflexivity].
  destruct (dict_get (lc_dict l) n) as [d|] eqn:Ed; [|reflexivity]. rewrite (AD n d Ed sm). reflexivity.
Qed.
Print Assumptions C105_unknown_override_ignored.

Lemma lsum_app_ a b : lsum (a ++ b) = lsum a + lsum b.
Proof. induction a as [|x a IH]; cbn; [ring|rewrite IH; ring]. Qed.
Lemma lsum_nth (l : list R) : lsum l = fsum (length l) (fun i => nth i l 0).
Proof.
  induction l as [|x l IH] using rev_ind; [reflexivity|]. rewrite lsum_app_, app_length. cbn [length lsum]. rewrite Nat.add_1_r. cbn [fsum].
  rewrite app_nth2, Nat.sub_diag by lia. cbn [nth]. rewrite IH. rewrite Rplus_0_r. f_equal. apply fsum_ext. intros i Hi. now rewrite app_nth1.
Qed.
Lemma lsum_map_nth {A} (g : A -> R) l d : lsum (map g l) = fsum (length l) (fun i => g (nth i l d)).
Proof.
  rewrite lsum_nth, map_length. apply fsum_ext. intros i Hi. rewrite (nth_indep _ 0 (g d)) by (now rewrite map_length). apply map_nth.
Qed.
Lemma lsum_combine coef names : forall q : list R, length q = length names ->
  lsum (map (fun kv => coef (fst kv) * snd kv) (combine names q)) = fsum (length names) (fun i => coef (nth i names ""%string) * nth i q 0).
Proof.
  intros q Hq. rewrite (lsum_map_nth _ _ (""%string, 0)). rewrite combine_length, Hq, Nat.min_id. apply fsum_ext. intros i Hi.
  rewrite combine_nth by (symmetry; exact Hq). reflexivity.
Qed.

(** C105: for a limit state linear in its named arguments and normal variables every case has the
    exact index of the margin with that case's means and deviations. *)
Theorem C105_linear_normal_case :
  forall fmin chol svd inv e0 fuel lf expr f evn comb resist other corr consts cases l ty fo a n leading kwargs c0 coef (ns : list (string * (R * R))),
  lc_init comb resist other corr consts (Some cases) = Ok l ->
  NoDup (map fst comb) -> NoDup (map fst cases) -> NoDup (names_of resist ++ names_of (opt_list other) ++ map fst comb) -> NoDup (names_of (opt_list consts)) ->
  dict_get cases n = Some leading ->
  let objs := case_objects kwargs comb resist (opt_list other) (opt_list consts) leading in
  all_named objs -> NoDup (names_of objs) ->
  dists_of objs = map (fun t => Normal (fst t) (fst (snd t)) (snd (snd t))) ns ->
  (forall t, In t ns -> snd (snd t) <> 0) -> (exists t, In t ns /\ coef (fst t) <> 0) ->
  pointwise expr f -> linear_in_names f c0 coef ->
  let N := length ns in lapack N chol svd inv e0 -> form_init ty = Ok a -> exact_options fo -> (N + 7 < lf)%nat -> (Z.to_nat (fo_imax fo) < fuel)%nat ->
  let run := run_reliability_case fmin chol svd inv fuel lf expr evn l (Some (ty, fo)) (Some n) kwargs in
  let mean := c0 + lsum (map (fun c => coef (fst c) * snd c) (consts_of objs)) + lsum (map (fun t => coef (fst t) * fst (snd t)) ns) in
  let exact variance := exists a' s' r, run = LForm a' s' (FDone r) /\
    form_beta N r = Fin (mean / sqrt variance) /\ form_Pf N r = Fin (Phi (- (mean / sqrt variance))) in
  (corr = None -> exact (lsum (map (fun t => (coef (fst t) * snd (snd t)) ^ 2) ns))) /\
  (forall fr Ro log, corr = Some fr -> frame_covers fr (map fst ns) ->
     computeModifiedCorrelationMatrix fmin N N (mat_of (corr_rows fr (map fst ns))) (fun i => marg_of (nth i (dists_of objs) rv0)) = Ok (Ro, log) -> pos_def N Ro ->
     let d i := nth i ns (""%string, (0, 0)) in
     exact (fsum N (fun i => fsum N (fun j => (coef (fst (d i)) * snd (snd (d i))) * Ro i j * (coef (fst (d j)) * snd (snd (d j))))))).
Proof.
  intros fmin chol svd inv e0 fuel lf expr f evn comb resist other corr consts cases l ty fo a n leading kw c0 coef ns H Nc Ncs N0 Nk Hn objs AN ND HD Hsd Hcf Hp Hlin N Hlap Ha Hfo Hlf Hfu run mean exact.
  set (d := fun i => nth i ns (""%string, (0, 0))).
  assert (ENM : map rv_name (dists_of objs) = map fst ns) by (rewrite HD, map_map; reflexivity).
  set (h := by_hand corr objs). assert (EA : accepted h = objs) by (apply accepted_hand; assumption).
  assert (EN : ndists h = N) by (unfold ndists; rewrite EA, HD, map_length; reflexivity).
  assert (Hn1 : (1 <= N)%nat) by (destruct Hcf as (t & Ht & _); unfold N; destruct ns; [destruct Ht|cbn; lia]).
  assert (X : forall M Ro log, (forall fr, corr = Some fr -> frame_covers fr (map fst ns)) -> sm_corr (sm_run h) = Some M -> length M = N -> (forall r, In r M -> length r = N) ->
     computeModifiedCorrelationMatrix fmin N N (mat_of M) (fun i => marg_of (marg_at (sm_run h) i)) = Ok (Ro, log) -> pos_def N Ro ->
     exact (fsum N (fun i => fsum N (fun j => (coef (fst (d i)) * snd (snd (d i))) * Ro i j * (coef (fst (d j)) * snd (snd (d j))))))).
  { intros M Ro log HC HM HM1 HM2 HRo HPD.
    assert (HC' : forall fr, corr = Some fr -> frame_covers fr (map rv_name (dists_of objs))) by (intros fr Efr; rewrite ENM; exact (HC fr Efr)).
    destruct (C105_case_by_hand fmin chol svd inv fuel lf expr evn comb resist other corr consts cases l (Some (ty, fo)) n leading kw H Nc Ncs N0 Nk Hn) as (CH & _).
    fold objs in CH. specialize (CH AN ND HC'). fold h in CH. unfold exact, run. rewrite CH. unfold form_case. cbn [fst snd]. rewrite Ha.
    pose proof (C92_linear_normal_exact_options fmin chol svd inv e0 h expr f lf (fun i => fst (d i)) (fun i => fst (snd (d i))) (fun i => snd (snd (d i))) (fun i => coef (fst (d i)))
      (c0 + lsum (map (fun c => coef (fst c) * snd c) (consts_of objs))) M Ro log a ty fo evn fuel) as C. cbv zeta in C. rewrite EN in C.
    destruct C as (r & a' & s' & R1 & R2 & R3 & _); try assumption.
    - intros i Hi. rewrite EA, HD. rewrite nth_error_map. rewrite (nth_error_nth' ns (""%string, (0, 0)) Hi). reflexivity.
    - intros i Hi. apply Hsd. now apply nth_In.
    - destruct Hcf as (t & Ht & Hc). destruct (In_nth ns t (""%string, (0, 0)) Ht) as (i & Hi & Ei). exists i. split; [exact Hi|]. unfold d. now rewrite Ei.
    - intros q Hq. rewrite Hlin. unfold args_at. rewrite EA, ENM, map_app, lsum_app_, (lsum_combine coef (map fst ns) q) by (now rewrite map_length).
      rewrite map_length. fold N. rewrite (fsum_ext N (fun i => coef (nth i (map fst ns) ""%string) * nth i q 0) (fun i => coef (fst (d i)) * nth i q 0)); [ring|].
      intros i Hi. unfold d. change ""%string with (fst (""%string, (0, 0))) at 1. rewrite map_nth. reflexivity.
    - exists a', s', r. rewrite R1. split; [reflexivity|].
      assert (EM : c0 + lsum (map (fun c => coef (fst c) * snd c) (consts_of objs)) + fsum N (fun i => coef (fst (d i)) * fst (snd (d i))) = mean).
      { unfold mean. f_equal. unfold N. rewrite (lsum_map_nth (fun t => coef (fst t) * fst (snd t)) ns (""%string, (0, 0))). reflexivity. }
      rewrite EM in R2, R3. split; [exact R2|exact R3]. }
  split.
  - intros Ecorr.
    assert (HNO : no_setcorr h). { unfold h, by_hand. rewrite Ecorr, app_nil_r. intros M HI. apply in_map_iff in HI. destruct HI as (o & E & _). discriminate. }
    assert (HM : sm_corr (sm_run h) = Some (eye_rows N)) by (rewrite <- EN; apply (corr_reset [] h HNO); cbn [app]; rewrite EN; cbn; lia).
    destruct (eye_rows_identity N) as (L1 & L2 & L3).
    destruct (modified_ok fmin N (mat_of (eye_rows N)) (fun i => marg_of (marg_at (sm_run h) i)) N (le_n N)) as (Ro & E & D & S & L & _).
    assert (EI : forall i j, (i < N)%nat -> (j < N)%nat -> Ro i j = delta i j).
    { assert (EL : forall i j, (j < i)%nat -> (i < N)%nat -> Ro i j = 0).
      { intros i j Hj Hi'. rewrite L by assumption. unfold pair_value. unfold mat_of. rewrite L3 by lia.
        destruct (Nat.eqb_spec i j); [lia|]. now rewrite (proj2 (Reqb_spec 0 0) eq_refl). }
      intros i j Hi' Hj. destruct (lt_eq_lt_dec i j) as [[Y|Y]|Y].
      - rewrite S, EL, delta_neq by lia. reflexivity.
      - subst j. rewrite D, delta_refl. reflexivity.
      - rewrite EL, delta_neq by lia. reflexivity. }
    specialize (X (eye_rows N) Ro _ ltac:(intros fr Efr; rewrite Efr in Ecorr; discriminate) HM L1 L2 E (eye_posdef N Ro EI)).
    replace (lsum (map (fun t => (coef (fst t) * snd (snd t)) ^ 2) ns)) with (fsum N (fun i => fsum N (fun j => (coef (fst (d i)) * snd (snd (d i))) * Ro i j * (coef (fst (d j)) * snd (snd (d j)))))); [exact X|].
    rewrite (lsum_map_nth _ ns (""%string, (0, 0))). fold N. apply fsum_ext. intros i Hi. fold (d i).
    rewrite (fsum_ext N _ (fun j => delta i j * (coef (fst (d i)) * snd (snd (d i)) * (coef (fst (d j)) * snd (snd (d j)))))) by (intros j Hj; rewrite EI by assumption; ring).
    rewrite fsum_delta by exact Hi. ring.
  - intros fr Ro log Ecorr HC HRo HPD. cbv zeta.
    assert (HM : sm_corr (sm_run h) = Some (corr_rows fr (map fst ns))).
    { unfold h, by_hand. rewrite Ecorr, ENM. unfold sm_run. rewrite fold_left_app. reflexivity. }
    assert (EMg : forall i, marg_at (sm_run h) i = nth i (dists_of objs) rv0).
    { intros i. unfold marg_at. destruct (registry h) as (_ & _ & EM & _). rewrite EM, EA. reflexivity. }
    apply (X (corr_rows fr (map fst ns)) Ro log).
    + intros fr' Efr. rewrite Ecorr in Efr. injection Efr as <-. exact HC.
    + exact HM.
    + unfold corr_rows. now rewrite !map_length.
    + intros r Hr. unfold corr_rows in Hr. apply in_map_iff in Hr. destruct Hr as (a0 & <- & _). now rewrite !map_length.
    + rewrite <- HRo. f_equal. apply FunctionalExtensionality.functional_extensionality. intros i. now rewrite EMg.
    + exact HPD.
Qed.
Print Assumptions C105_linear_normal_case.

(** *** Non-vacuity: g = R - 3 Q + 5 k, with Q at its maximum or its point-in-time value; a case with an
    overridden resistance; two objects of one name *)
Definition lr_coef (n : string) : R := if string_dec n "R" then 1 else if string_dec n "Q" then -3 else if string_dec n "k" then 5 else 0.
Definition lr_g (kw : list (string * R)) : R := 0 + lsum (map (fun kv => lr_coef (fst kv) * snd kv) kw).
Definition lr_expr : expression := fun kw =>
  let nc := match kw with [] => 0%nat | (_, v) :: _ => List.length v end in
  Ok (UPlain (Arr (map (fun c => lr_g (map (fun kv => (fst kv, nth c (snd kv) 0)) kw)) (seq 0 nc)))).
Definition lr_comb : list (string * list (string * obj)) :=
  [("Q", [("max", ODist (Normal "Q" 40 5)); ("pit", ODist (Normal "Q" 20 5))])]%string.
Definition lr_cases : list (string * list string) := [("peak", ["Q"]); ("usual", [])]%string.
Definition lr_init := lc_init lr_comb [ODist (Normal "R" 200 20)] None None (Some [OConst "k" 4]) (Some lr_cases).
Example lr_pointwise : pointwise lr_expr lr_g.
Proof.
  intros kw nc Hne Hl. eexists. split; [reflexivity|]. destruct kw as [|[n v] kw]; [contradiction|]. cbn [value_of].
  rewrite (Hl n v) by (left; reflexivity). reflexivity.
Qed.
Example C105_example : forall fmin, exists l, lr_init = Ok l /\
  let run := run_reliability_case fmin chol2 svd2 inv2 101 10 lr_expr None l (Some (None, default_options)) in
  let beta_is c kw b := exists a s r, run (Some c) kw = LForm a s (FDone r) /\ form_beta 2 r = Fin b /\ form_Pf 2 r = Fin (Phi (- b)) in
  beta_is "peak"%string [] 4 /\ beta_is "usual"%string [] (160 / 25) /\ beta_is "usual"%string [("R"%string, ODist (Normal "R" 300 20))] (260 / 25) /\
  run (Some "usual"%string) [("R"%string, ODist (Normal "Q" 300 20))] = LRaise EException.
Proof.
  intros fmin. destruct lr_init as [l|] eqn:EL; [|discriminate]. unfold lr_init in EL. exists l. apply (conj eq_refl). intros run beta_is.
  assert (N1 : NoDup (map fst lr_comb)) by (cbn; repeat constructor; cbn; intuition discriminate).
  assert (N2 : NoDup (map fst lr_cases)) by (cbn; repeat constructor; cbn; intuition discriminate).
  assert (N3 : NoDup (names_of [ODist (Normal "R" 200 20)] ++ names_of (opt_list None) ++ map fst lr_comb)) by (cbn; repeat constructor; cbn; intuition discriminate).
  assert (N4 : NoDup (names_of (opt_list (Some [OConst "k" 4])))) by (cbn; repeat constructor; cbn; intuition discriminate).
  assert (X : forall c leading kw mR mQ, dict_get lr_cases c = Some leading ->
    case_objects kw lr_comb [ODist (Normal "R" 200 20)] [] [OConst "k" 4] leading = [OConst "k" 4; ODist (Normal "R" mR 20); ODist (Normal "Q" mQ 5)] ->
    beta_is c kw ((20 + mR - 3 * mQ) / 25)).
  { intros c leading kw mR mQ Hc Ho.
    destruct (C105_linear_normal_case fmin chol2 svd2 inv2 ERuntime 101 10 lr_expr lr_g None lr_comb [ODist (Normal "R" 200 20)] None None (Some [OConst "k" 4]) lr_cases l None default_options aF c leading kw
      0 lr_coef [("R"%string, (mR, 20)); ("Q"%string, (mQ, 5))] EL N1 N2 N3 N4 Hc) as (A & _); cbn [opt_list]; try rewrite Ho.
    - intros o [<-|[<-|[<-|[]]]]; discriminate.
    - cbn. repeat constructor; cbn; intuition discriminate.
    - reflexivity.
    - intros t [<-|[<-|[]]]; cbn; lra.
    - eexists. split; [left; reflexivity|]. cbn. lra.
    - exact lr_pointwise.
    - intros kw0. reflexivity.
    - exact lapack2.
    - reflexivity.
    - exact default_exact.
    - cbn. lia.
    - cbn. lia.
    - cbn [opt_list] in A. rewrite Ho in A. specialize (A eq_refl). unfold beta_is, run.
      replace (_ / 25) with ((0 + lsum (map (fun c0 => lr_coef (fst c0) * snd c0) (consts_of [OConst "k" 4; ODist (Normal "R" mR 20); ODist (Normal "Q" mQ 5)])) + lsum (map (fun t : string * (R * R) => lr_coef (fst t) * fst (snd t)) [("R"%string, (mR, 20)); ("Q"%string, (mQ, 5))])) /
        sqrt (lsum (map (fun t : string * (R * R) => (lr_coef (fst t) * snd (snd t)) ^ 2) [("R"%string, (mR, 20)); ("Q"%string, (mQ, 5))]))); [exact A|].
      cbn. f_equal; [ring|]. f_equal. replace (_ + _) with (Rsqr 25) by (unfold Rsqr; ring). apply sqrt_Rsqr. lra. }
  split; [|split; [|split]].
  - replace 4 with ((20 + 200 - 3 * 40) / 25) by lra. apply (X _ ["Q"%string] []); reflexivity.
  - replace (160 / 25) with ((20 + 200 - 3 * 20) / 25) by lra. apply (X _ [] []); reflexivity.
  - replace (260 / 25) with ((20 + 300 - 3 * 20) / 25) by lra. apply (X _ [] _); reflexivity.
  - refine (proj2 (C105_case_by_hand fmin chol2 svd2 inv2 101 10 lr_expr None lr_comb _ None None _ lr_cases l _ "usual"%string [] _ EL N1 N2 N3 N4 eq_refl) _).
    intros (_ & H). cbn in H. apply NoDup_cons_iff in H. destruct H as (_ & H). apply NoDup_cons_iff in H. apply (proj1 H). left. reflexivity.
Qed.
