(** C54, C55, C56: load combinations. *)
From Verif Require Import Base StochModel StochModelSpec StochModelProofs Dict LoadComb LoadCombSpec LoadCombProofs.
Open Scope list_scope.

Definition opt_list {A} (o : option (list A)) : list A := match o with None => [] | Some l => l end.

Lemma rbind_ok {A B} (r : result A) (f : A -> result B) b : rbind r f = Ok b -> exists a, r = Ok a /\ f a = Ok b.
Proof. destruct r as [a|e]; cbn; [eauto|discriminate]. Qed.

(** what a successful construction stores *)
Lemma init_ok comb resist other corr consts cases l : lc_init comb resist other corr consts cases = Ok l ->
  exists cs, cases = Some cs /\ lc_cases l = cs /\ lc_corr l = corr
  /\ pick "max" comb = Ok (lc_max l) /\ pick "pit" comb = Ok (lc_pit l)
  /\ by_name resist [] = Ok (lc_resist l) /\ by_name (opt_list other) [] = Ok (opt_dict (lc_other l))
  /\ (match consts with None => lc_const l = None | Some c => exists d, lc_const l = Some d /\ by_name c [] = Ok d end)
  /\ all_cases (lc_resist l) (lc_other l) (lc_max l) (lc_pit l) cs [] = Ok (lc_dict l).
Proof.
  unfold lc_init. intros H. apply rbind_ok in H. destruct H as (mx & E1 & H). apply rbind_ok in H. destruct H as (pit & E2 & H).
  apply rbind_ok in H. destruct H as (oth & E3 & H). apply rbind_ok in H. destruct H as (res & E4 & H). destruct cases as [cs|]; [|discriminate].
  destruct (negb (Nat.eqb (List.length mx) (List.length pit))); [discriminate|].
  apply rbind_ok in H. destruct H as (dd & E5 & H). apply rbind_ok in H. destruct H as (cd & E6 & H). injection H as <-. exists cs. cbn.
  repeat split; try assumption.
  - destruct other as [lo|]; [|injection E3 as <-; reflexivity]. apply rbind_ok in E3. destruct E3 as (d & E3 & K). injection K as <-. exact E3.
  - destruct consts as [c|]; [|injection E6 as <-; reflexivity]. apply rbind_ok in E6. destruct E6 as (d & E6 & K). injection K as <-. eauto.
Qed.

Lemma by_name_all_named l : forall d r, by_name l d = Ok r -> all_named l.
Proof.
  induction l as [|o' l IH]; intros d r H; [intros ? []|]. cbn [by_name] in H. rewrite obj_name_valid in H. destruct (valid_name o') eqn:E; [|discriminate].
  intros o [<-|Ho]; [rewrite E; discriminate|exact (IH _ _ H o Ho)].
Qed.

(** ** C54 Load-combination assembly *)
Theorem C54_construction : forall comb resist other corr consts cases,
  ((exists l, lc_init comb resist other corr consts (Some cases) = Ok l) <->
     comb_complete comb /\ all_named resist /\ all_named (opt_list other) /\ all_named (opt_list consts))
  /\ (exists e, lc_init comb resist other corr consts None = Err e)
  /\ (comb_complete comb -> all_named resist -> all_named (opt_list other) -> lc_init comb resist other corr consts None = Err EType).
Proof.
  intros comb resist other corr consts cases. split; [split|split].
  - intros [l H]. apply init_ok in H. destruct H as (cs & _ & _ & _ & P1 & P2 & Rs & O & C & _). split; [|split; [|split]].
    + intros k inner Hi. split; eapply pick_complete; eassumption.
    + exact (by_name_all_named _ _ _ Rs).
    + exact (by_name_all_named _ _ _ O).
    + destruct consts as [c|]; [|intros o []]. destruct C as (d & _ & Rc). exact (by_name_all_named _ _ _ Rc).
  - intros (CC & AR & AO & AC). unfold lc_init.
    destruct (pick_ok "max" comb) as [mx P1]; [intros; eapply CC; eassumption|]. destruct (pick_ok "pit" comb) as [pit P2]; [intros; eapply CC; eassumption|].
    rewrite P1, P2. cbn [rbind]. destruct (pick_spec _ _ _ P1) as [K1 _]. destruct (pick_spec _ _ _ P2) as [K2 _].
    assert (E3 : exists oth, (match other with None => Ok None | Some l => rbind (by_name l []) (fun d => Ok (Some d)) end) = Ok oth).
    { destruct other as [lo|]; [|eexists; reflexivity]. destruct (by_name_ok lo [] AO) as [d ->]. eexists. reflexivity. }
    destruct E3 as [oth ->]. destruct (by_name_ok resist [] AR) as [res ->]. cbn [rbind].
    replace (Nat.eqb (List.length mx) (List.length pit)) with true.
    2:{ symmetry. apply Nat.eqb_eq. rewrite <- (map_length fst mx), <- (map_length fst pit), K1, K2. reflexivity. }
    cbn [negb]. destruct (all_cases_ok res oth mx pit cases []) as [dd ->]; [intros k Hk; rewrite K2, <- K1; exact Hk|]. cbn [rbind].
    destruct consts as [c|]; [|eexists; reflexivity]. destruct (by_name_ok c [] AC) as [d ->]. eexists. reflexivity.
  - unfold lc_init. destruct (pick "max" comb); cbn [rbind]; [|eauto]. destruct (pick "pit" comb); cbn [rbind]; [|eauto].
    match goal with |- exists e, rbind ?r _ = _ => destruct r end; cbn [rbind]; [|eauto]. destruct (by_name resist []); cbn [rbind]; eauto.
  - intros CC AR AO. unfold lc_init.
    destruct (pick_ok "max" comb) as [mx ->]; [intros; eapply CC; eassumption|]. destruct (pick_ok "pit" comb) as [pit ->]; [intros; eapply CC; eassumption|]. cbn [rbind].
    assert (E3 : exists oth, (match other with None => Ok None | Some l => rbind (by_name l []) (fun d => Ok (Some d)) end) = Ok oth).
    { destruct other as [lo|]; [|eexists; reflexivity]. destruct (by_name_ok lo [] AO) as [d ->]. eexists. reflexivity. }
    destruct E3 as [oth ->]. destruct (by_name_ok resist [] AR) as [res ->]. reflexivity.
Qed.
Print Assumptions C54_construction.

(** the dictionary of every case; [comb] and [cases] are Python dicts, so their keys are
    distinct *)
Theorem C54_case_contents : forall comb resist other corr consts cases l,
  lc_init comb resist other corr consts (Some cases) = Ok l -> NoDup (map fst comb) -> NoDup (map fst cases) ->
  map fst (lc_dict l) = map fst cases /\ lc_num_comb l = List.length cases /\
  forall n leading, dict_get cases n = Some leading ->
  exists d, dict_get (lc_dict l) n = Some d /\ NoDup (map fst d)
    /\ (forall k, dict_get d k = case_entry comb resist (opt_list other) leading k)
    /\ (NoDup (names_of resist ++ names_of (opt_list other) ++ map fst comb) ->
        map fst d = names_of resist ++ names_of (opt_list other) ++ map fst comb).
Proof.
  intros comb resist other corr consts cases l H Nc Ncs. pose proof (proj1 (proj1 (C54_construction comb resist other corr consts cases)) (ex_intro _ l H)) as (CC & AR & AO & _).
  apply init_ok in H. destruct H as (cs & Ecs & LC & _ & P1 & P2 & Rs & O & _ & A). injection Ecs as <-.
  destruct (pick_spec _ _ _ P1) as [K1 G1]. destruct (pick_spec _ _ _ P2) as [K2 G2].
  split; [|split].
  - pose proof (all_cases_keys _ _ _ _ _ _ _ A) as E. apply E. exact Ncs.
  - unfold lc_num_comb. rewrite LC. reflexivity.
  - intros n leading Hn. pose proof (all_cases_spec _ _ _ _ _ _ _ A Ncs n) as S. rewrite Hn in S. destruct S as (d & Ed & Cd).
    exists d. split; [exact Ed|].
    assert (N1 : NoDup (map fst (lc_resist l))) by (apply (by_name_nodup resist [] _ (NoDup_nil _) Rs)).
    assert (N2 : NoDup (map fst (opt_dict (lc_other l)))) by (apply (by_name_nodup _ [] _ (NoDup_nil _) O)).
    assert (N3 : NoDup (map fst (lc_max l))) by (rewrite K1; exact Nc).
    destruct (case_dict_spec _ _ _ _ _ _ Cd N1 N2 N3) as (D1 & D2 & D3). split; [exact D1|split].
    + intros k. rewrite D2, G1, G2. unfold case_entry.
      assert (B : forall (X : Type) (a b : X), (if mem_str k leading then a else b) = if (if in_dec string_dec k leading then true else false) then a else b).
      { intros X a b. destruct (mem_str k leading) eqn:M; [apply mem_str_In in M|apply mem_str_nIn in M]; destruct (in_dec string_dec k leading); tauto || reflexivity. }
      destruct (dict_get comb k) as [inner|] eqn:E.
      * destruct (CC k inner (dget_in _ _ _ E)) as [[a Ha] [b Hb]]. rewrite Ha, Hb, B. unfold chosen. destruct (in_dec string_dec k leading); [rewrite Ha|rewrite Hb]; reflexivity.
      * rewrite (by_name_get _ _ _ k O), (by_name_get _ _ _ k Rs). reflexivity.
    + intros N.
      assert (ER : map fst (lc_resist l) = names_of resist).
      { rewrite (by_name_distinct resist [] AR) in Rs by (cbn [map app]; apply NoDup_app_l in N; exact N). injection Rs as <-. apply combine_keys, AR. }
      assert (EO : map fst (opt_dict (lc_other l)) = names_of (opt_list other)).
      { rewrite (by_name_distinct _ [] AO) in O.
        - injection O as <-. apply combine_keys, AO.
        - cbn [map app]. assert (N' : NoDup (names_of (opt_list other) ++ map fst comb)).
          { clear - N. induction (names_of resist) as [|x r IH]; [exact N|]. cbn in N. inversion N. apply IH. assumption. }
          apply NoDup_app_l in N'. exact N'. }
      rewrite <- ER, <- EO, <- K1. apply D3. rewrite ER, EO, K1. exact N.
Qed.
Print Assumptions C54_case_contents.

(** the labels, in order *)
Theorem C54_labels : forall comb resist other corr consts cases l,
  lc_init comb resist other corr consts (Some cases) = Ok l ->
  NoDup (names_of resist) -> NoDup (names_of (opt_list other)) -> NoDup (names_of (opt_list consts)) ->
  lc_label_all l = names_of resist ++ names_of (opt_list other) ++ map fst comb ++ names_of (opt_list consts)
  /\ lc_label_cases l = map fst cases.
Proof.
  intros comb resist other corr consts cases l H N1 N2 N3. pose proof (proj1 (proj1 (C54_construction comb resist other corr consts cases)) (ex_intro _ l H)) as (CC & AR & AO & AC).
  apply init_ok in H. destruct H as (cs & Ecs & LC & _ & P1 & P2 & Rs & O & C & _). injection Ecs as <-.
  destruct (pick_spec _ _ _ P1) as [K1 _].
  rewrite (by_name_distinct resist [] AR N1) in Rs. injection Rs as Rs. rewrite (by_name_distinct _ [] AO N2) in O. injection O as O.
  split; [|unfold lc_label_cases; rewrite LC; reflexivity].
  unfold lc_label_all, lc_label_resist, lc_label_other, lc_label_comb, dict_keys. rewrite <- !app_assoc, K1. cbn [app] in Rs, O.
  replace (match lc_other l with None => [] | Some d => map fst d end) with (map fst (opt_dict (lc_other l))) by (destruct (lc_other l); reflexivity).
  rewrite <- Rs, <- O, !combine_keys by assumption. do 3 f_equal.
  destruct consts as [c|]; [|rewrite C; reflexivity]. destruct C as (d & -> & E). cbn [opt_list] in *. rewrite (by_name_distinct c [] AC N3) in E. injection E as <-. apply combine_keys, AC.
Qed.
Print Assumptions C54_labels.

(** the model built for a case: the constants, then the case's entries, each replaced by
    the keyword argument of that label if there is one; it is built iff all these are
    variables or constants with different names *)
Theorem C54_case_model : forall l n kwargs d, lc_corr l = None -> dict_get (lc_dict l) n = Some d ->
  let objs := overridden kwargs (opt_dict (lc_const l)) ++ overridden kwargs d in
  (all_named objs /\ NoDup (names_of objs) ->
     exists sm, assemble_case l (Some n) kwargs = Ok (sm, None)
     /\ sm_names sm = names_of objs /\ sm_marg sm = dists_of objs /\ sm_consts sm = consts_of objs
     /\ sm_variables sm = map (fun v => (rv_name v, v)) (dists_of objs))
  /\ (~ (all_named objs /\ NoDup (names_of objs)) -> assemble_case l (Some n) kwargs = Err EException).
Proof.
  intros l n kwargs d Hc Hd objs. unfold assemble_case. cbn [rbind].
  pose proof (add_items_spec kwargs (opt_dict (lc_const l)) sm_init [] reg_init) as A. cbv zeta in A. cbn [app] in A.
  assert (E : (match lc_const l with None => Ok sm_init | Some d => add_items d kwargs sm_init end) = add_items (opt_dict (lc_const l)) kwargs sm_init) by (destruct (lc_const l); reflexivity).
  rewrite E. destruct (add_items (opt_dict (lc_const l)) kwargs sm_init) as [sm|e]; cbn [rbind].
  - destruct A as [A1 A2]. rewrite Hd. pose proof (add_items_spec kwargs d sm _ A1) as B. cbv zeta in B. destruct (add_items d kwargs sm) as [sm'|e]; cbn [rbind].
    + rewrite Hc. destruct B as [(B1 & B2 & B3 & B4 & B5) B6]. split.
      * intros _. exists sm'. repeat split; assumption.
      * intros N. exfalso. apply N. split; [|unfold objs; rewrite <- B1; exact B2]. intros o Ho. apply in_app_iff in Ho. destruct Ho; [apply A2|apply B6]; assumption.
    + destruct B as [-> B]. split; [|reflexivity]. intros [K1 K2]. exfalso. apply B. split; [|exact K2]. intros o Ho. apply K1, in_or_app. right. exact Ho.
  - destruct A as [-> A]. split; [|reflexivity]. intros [K1 K2]. exfalso. apply A. split; [intros o Ho; apply K1, in_or_app; left; exact Ho|].
    unfold objs in K2. unfold names_of in K2. rewrite flat_map_app in K2. apply NoDup_app_l in K2. exact K2.
Qed.
Print Assumptions C54_case_model.

(** unknown case; default case *)
Lemma no_override items : overridden [] items = map snd items.
Proof. apply map_ext. reflexivity. Qed.

Theorem C54_unknown_case : forall comb resist other corr consts cases l n,
  lc_init comb resist other corr consts (Some cases) = Ok l -> NoDup (map fst cases) -> ~ In n (map fst cases) ->
  (forall kwargs, exists e, assemble_case l (Some n) kwargs = Err e) /\ assemble_case l (Some n) [] = Err EKey.
Proof.
  intros comb resist other corr consts cases l n H N Hn. apply init_ok in H. destruct H as (cs & Ecs & LC & _ & _ & _ & _ & _ & C & A). injection Ecs as <-.
  assert (G : dict_get (lc_dict l) n = None). { pose proof (all_cases_spec _ _ _ _ _ _ _ A N n) as S. replace (dict_get cases n) with (@None (list string)) in S by (symmetry; apply dget_none, Hn). exact S. }
  split.
  - intros kw. unfold assemble_case. cbn [rbind].
    destruct (match lc_const l with None => Ok sm_init | Some d => add_items d kw sm_init end) as [sm|e]; cbn [rbind]; [rewrite G; eauto|eauto].
  - unfold assemble_case. cbn [rbind]. assert (E : exists sm, (match lc_const l with None => Ok sm_init | Some d => add_items d [] sm_init end) = Ok sm).
    { destruct consts as [c|]; [|rewrite C; eexists; reflexivity]. destruct C as (d & -> & E).
      pose proof (by_name_nodup c [] d (NoDup_nil _) E) as Nd. pose proof (by_name_named c [] d ltac:(intros ? ? []) E) as Vd.
      pose proof (add_items_spec [] d sm_init [] reg_init) as S. cbv zeta in S. cbn [app] in S. destruct (add_items d [] sm_init) as [sm|e]; [eexists; reflexivity|].
      destruct S as [_ S]. exfalso. apply S. rewrite no_override. split.
      - intros o Ho. apply in_map_iff in Ho. destruct Ho as ([k o'] & <- & Ho). cbn. rewrite (Vd _ _ Ho). discriminate.
      - replace (names_of (map snd d)) with (map fst d); [exact Nd|]. clear - Vd. induction d as [|[k o] d IH]; [reflexivity|]. cbn [map fst snd]. unfold names_of. cbn [flat_map].
        rewrite (Vd k o (or_introl eq_refl)). cbn [app]. f_equal. apply IH. intros k' o' Hi. apply Vd. right. exact Hi. }
    destruct E as [sm ->]. cbn [rbind]. rewrite G. reflexivity.
Qed.
Print Assumptions C54_unknown_case.

Theorem C54_default_case : forall comb resist other corr consts cases l kwargs,
  lc_init comb resist other corr consts (Some cases) = Ok l ->
  assemble_case l None kwargs = match cases with [] => Err EIndex | (n, _) :: _ => assemble_case l (Some n) kwargs end.
Proof.
  intros comb resist other corr consts cases l kw H. apply init_ok in H. destruct H as (cs & Ecs & LC & _). injection Ecs as <-.
  unfold assemble_case at 1. unfold lc_label_cases. rewrite LC. destruct cases as [|[n x] r]; reflexivity.
Qed.
Print Assumptions C54_default_case.

(** ** C55 Correlation re-indexing *)
Theorem C55_reindexed_correlation : forall l n kwargs sm M f, lc_corr l = Some f -> assemble_case l (Some n) kwargs = Ok (sm, Some M) ->
  NoDup (fr_index f) -> NoDup (fr_cols f) ->
  let names := map rv_name (sm_marg sm) in
  List.length M = List.length names
  /\ forall i j a b, nth_error names i = Some a -> nth_error names j = Some b ->
     exists row r, nth_error M i = Some row /\ List.length row = List.length names /\ nth_error row j = Some r
       /\ user_corr (fr_index f) (fr_cols f) (fr_val f) a b r
       /\ (forall p q, nth_error (fr_index f) p = Some a -> nth_error (fr_cols f) q = Some b -> r = Some (fr_val f p q)).
Proof.
  intros l n kw sm M f Hf H N1 N2 names. unfold assemble_case in H. cbn [rbind] in H.
  pose proof (add_items_spec kw (opt_dict (lc_const l)) sm_init [] reg_init) as A. cbv zeta in A. cbn [app] in A.
  assert (E : (match lc_const l with None => Ok sm_init | Some d => add_items d kw sm_init end) = add_items (opt_dict (lc_const l)) kw sm_init) by (destruct (lc_const l); reflexivity).
  rewrite E in H. destruct (add_items (opt_dict (lc_const l)) kw sm_init) as [sm1|e]; cbn [rbind] in H; [|discriminate].
  destruct (dict_get (lc_dict l) n) as [d|]; [|discriminate]. pose proof (add_items_spec kw d sm1 _ (proj1 A)) as B. cbv zeta in B.
  destruct (add_items d kw sm1) as [sm2|e]; cbn [rbind] in H; [|discriminate]. rewrite Hf in H. unfold reindex in H.
  replace (axis_ok (fr_index f) (dict_keys (sm_variables sm2))) with true in H by (symmetry; unfold axis_ok; rewrite (proj2 (no_dups_spec _) N1); reflexivity).
  replace (axis_ok (fr_cols f) (dict_keys (sm_variables sm2))) with true in H by (symmetry; unfold axis_ok; rewrite (proj2 (no_dups_spec _) N2); reflexivity).
  cbn [andb rbind] in H. injection H as <- <-.
  destruct B as [(_ & _ & B3 & B4 & _) _]. assert (K : dict_keys (sm_variables sm2) = names).
  { unfold names, dict_keys. rewrite B4, B3, map_map. reflexivity. }
  rewrite K. split; [apply map_length|]. intros i j a b Ha Hb.
  eexists. eexists. split; [apply map_nth_error; exact Ha|]. split; [apply map_length|]. split; [apply map_nth_error; exact Hb|]. split.
  - destruct (index_of a (fr_index f)) as [p|] eqn:Ep.
    + destruct (index_of b (fr_cols f)) as [q|] eqn:Eq.
      * cbn. exists p, q. split; [apply index_of_some, Ep|split; [apply index_of_some, Eq|reflexivity]].
      * cbn. right. apply index_of_none, Eq.
    + cbn. left. apply index_of_none, Ep.
  - intros p q Hp Hq. rewrite (index_of_nodup a _ p N1 Hp), (index_of_nodup b _ q N2 Hq). reflexivity.
Qed.
Print Assumptions C55_reindexed_correlation.

(** hence symmetry and unit diagonal are inherited from a frame with the same labels on
    both axes *)
Theorem C55_symmetry_and_diagonal : forall l n kwargs sm M f, lc_corr l = Some f -> assemble_case l (Some n) kwargs = Ok (sm, Some M) ->
  NoDup (fr_index f) -> fr_cols f = fr_index f ->
  let names := map rv_name (sm_marg sm) in
  let entry i j := match nth_error M i with Some row => nth_error row j | None => None end in
  ((forall p q, fr_val f p q = fr_val f q p) -> forall i j, (i < List.length names)%nat -> (j < List.length names)%nat -> entry i j = entry j i)
  /\ ((forall p, fr_val f p p = 1) -> forall i a, nth_error names i = Some a -> In a (fr_index f) -> entry i i = Some (Some 1)).
Proof.
  intros l n kw sm M f Hf H N1 Ec names entry. assert (N2 : NoDup (fr_cols f)) by (rewrite Ec; exact N1).
  destruct (C55_reindexed_correlation l n kw sm M f Hf H N1 N2) as [_ RR]. fold names in RR. split.
  - intros S i j Hi Hj. destruct (nth_error names i) as [a|] eqn:Ea; [|apply nth_error_None in Ea; lia]. destruct (nth_error names j) as [b|] eqn:Eb; [|apply nth_error_None in Eb; lia].
    destruct (RR i j a b Ea Eb) as (row & r & X1 & _ & X2 & X3 & X4). destruct (RR j i b a Eb Ea) as (row' & r' & Y1 & _ & Y2 & Y3 & Y4).
    unfold entry. rewrite X1, Y1, X2, Y2. f_equal. rewrite Ec in *.
    destruct r as [v|]; cbn in X3.
    + destruct X3 as (p & q & P & Q & V). rewrite (Y4 q p Q P), S, V. reflexivity.
    + destruct r' as [v|]; [|reflexivity]. cbn in Y3. destruct Y3 as (p & q & P & Q & V). exfalso. destruct X3 as [X|X]; apply X; eapply nth_error_In; eassumption.
  - intros D i a Ea Ia. destruct (RR i i a a Ea Ea) as (row & r & X1 & _ & X2 & _ & X4). unfold entry. rewrite X1, X2. f_equal.
    apply In_nth_error in Ia. destruct Ia as [p P]. rewrite (X4 p p P); [rewrite D; reflexivity|rewrite Ec; exact P].
Qed.
Print Assumptions C55_symmetry_and_diagonal.

Theorem C55_duplicate_labels_raise : forall f names, (~ NoDup (fr_index f) /\ fr_index f <> names) \/ (~ NoDup (fr_cols f) /\ fr_cols f <> names) -> reindex f names = Err EValue.
Proof.
  intros f names H. unfold reindex. assert (X : forall axis, ~ NoDup axis -> axis <> names -> axis_ok axis names = false).
  { intros axis N E. unfold axis_ok. destruct (no_dups axis) eqn:D; [apply no_dups_spec in D; contradiction|]. destruct (list_eq_dec string_dec axis names); [contradiction|reflexivity]. }
  destruct H as [[A B]|[A B]]; rewrite (X _ A B); [reflexivity|]. rewrite andb_false_r. reflexivity.
Qed.
Print Assumptions C55_duplicate_labels_raise.

(** ** C56 Keyword evaluation *)
Theorem C56_no_constants_raises : forall l A (lsf : list (string * R) -> result A) sv sc kw, lc_const l = None -> eval_lsf_kwargs l lsf sv sc kw = Err EAttr.
Proof. intros l A lsf sv sc kw H. unfold eval_lsf_kwargs, eval_kwargs. rewrite H. reflexivity. Qed.
Print Assumptions C56_no_constants_raises.

Theorem C56_arguments : forall l cd A (lsf : list (string * R) -> result A) set_value set_const kw,
  lc_const l = Some cd -> (forall k o, In (k, o) cd -> exists n v, o = OConst n v) ->
  exists args, eval_lsf_kwargs l lsf set_value set_const kw = lsf args
    /\ forall k, dict_get args k =
        match dict_get kw k with
        | Some v => Some v                                          (* given *)
        | None =>
          match dict_get cd k with
          | Some (OConst _ v) => Some (match set_const with Some c => c | None => v end)   (* a constant *)
          | Some _ => None
          | None => if in_dec string_dec k (lc_label_all l) then Some set_value else None    (* another label *)
          end
        end.
Proof.
  intros l cd A lsf sv sc kw Hc HC. unfold eval_lsf_kwargs, eval_kwargs. rewrite Hc.
  set (miss := filter (fun x => negb (mem_str x (dict_keys kw)) && negb (mem_str x (dict_keys cd))) (lc_label_all l)).
  set (kw1 := fold_left (fun d x => dict_set d x sv) miss kw).
  destruct (fill_ok cd sc kw1) as [args Ea]; [intros k o Hi _ _; exact (HC k o Hi)|]. rewrite Ea. exists args. split; [reflexivity|].
  intros k. rewrite (fill_spec _ _ _ _ Ea). unfold kw1. rewrite miss_get.
  assert (M : mem_str k miss = true <-> In k (lc_label_all l) /\ dict_get kw k = None /\ dict_get cd k = None).
  { rewrite mem_str_In. unfold miss. rewrite filter_In, andb_true_iff, !negb_true_iff, !mem_str_nIn. unfold dict_keys. rewrite <- !dget_none. tauto. }
  destruct (mem_str k miss) eqn:E.
  - destruct (proj1 M eq_refl) as (I & K1 & K2). rewrite K1, K2. destruct (in_dec string_dec k (lc_label_all l)); [reflexivity|contradiction].
  - destruct (dict_get kw k) as [v|] eqn:K1; [reflexivity|]. destruct (dict_get cd k) as [o|] eqn:K2.
    + destruct (HC k o (dget_in _ _ _ K2)) as (nm & v & ->). unfold const_val. destruct sc; reflexivity.
    + destruct (in_dec string_dec k (lc_label_all l)) as [I|I]; [|reflexivity]. destruct M as [_ M]. discriminate M. repeat split; assumption.
Qed.
Print Assumptions C56_arguments.

(** *** Non-vacuity: two combination loads, a resistance, another load and a constant *)
Definition lc_rv (n : string) : obj := ODist (mkrv n 1 1 1 (fun u => u) (fun x => x) (fun _ _ => 1)).
Definition lc_comb : list (string * list (string * obj)) :=
  [("Q1"%string, [("max"%string, lc_rv "Q1"); ("pit"%string, lc_rv "Q1")]); ("Q2"%string, [("max"%string, lc_rv "Q2"); ("pit"%string, lc_rv "Q2")])].
Definition lc_cs : list (string * list string) := [("A"%string, ["Q1"%string]); ("B"%string, ["Q2"%string])].
Definition lc_fr : frame := mkFrame ["R"; "G"; "Q1"; "Q2"]%string ["R"; "G"; "Q1"; "Q2"]%string (fun i j => if Nat.eqb i j then 1 else 0).
Definition lc_ex := lc_init lc_comb [lc_rv "R"] (Some [lc_rv "G"]) (Some lc_fr) (Some [OConst "z" 1]) (Some lc_cs).

Example C54_example : exists l sm M, lc_ex = Ok l /\ assemble_case l (Some "B"%string) [] = Ok (sm, Some M)
  /\ sm_names sm = ["z"; "R"; "G"; "Q1"; "Q2"]%string /\ lc_label_all l = ["R"; "G"; "Q1"; "Q2"; "z"]%string.
Proof.
  unfold lc_ex, lc_init. cbn. eexists. eexists. eexists. split; [reflexivity|]. split; [|split].
  - unfold assemble_case. cbn. reflexivity.
  - reflexivity.
  - reflexivity.
Qed.
Example C56_example : exists l, lc_ex = Ok l /\ exists cd, lc_const l = Some cd /\ forall k o, In (k, o) cd -> exists n v, o = OConst n v.
Proof.
  unfold lc_ex, lc_init. cbn. eexists. split; [reflexivity|]. cbn. eexists. split; [reflexivity|]. intros k o [H|[]]. injection H as <- <-. eauto.
Qed.
