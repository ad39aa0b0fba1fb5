(** Proofs for C105: a load case as the model a user would build by hand. *)
From Coquelicot Require Import Coquelicot.
From Verif Require Import Base Dict StochModel StochModelSpec StochModelProofs LimitState LimitStateSpec Form Pipe PipeSpec LoadComb LoadCombSpec LoadCombProofs LoadCombProps LcRun LcRunSpec.
From Coq Require Import ZArith Lra Lia.
Open Scope R_scope.

Lemma assoc_eq {V} (l1 : list (string * V)) : forall l2, NoDup (map fst l1) -> map fst l1 = map fst l2 -> (forall k, In k (map fst l1) -> dict_get l1 k = dict_get l2 k) -> l1 = l2.
Proof.
  induction l1 as [|[k v] l1 IH]; intros [|[k2 v2] l2] N E G; try discriminate; [reflexivity|]. cbn in E. injection E as <- E. inversion N as [|x l Hk N']. subst.
  pose proof (G k (or_introl eq_refl)) as G0. cbn in G0. rewrite String.eqb_refl in G0. injection G0 as <-. f_equal. apply IH; [exact N'|exact E|].
  intros k' Hk'. pose proof (G k' (or_intror Hk')) as G1. cbn in G1. destruct (String.eqb_spec k' k) as [->|]; [contradiction|exact G1].
Qed.
Lemma comb_part_keys comb leading : comb_complete comb -> map fst (comb_part comb leading) = map fst comb /\
  forall k, dict_get (comb_part comb leading) k = match dict_get comb k with Some inner => chosen inner (if in_dec string_dec k leading then true else false) | None => None end.
Proof.
  induction comb as [|[k0 inner] comb IH]; intros CC; [split; reflexivity|].
  destruct IH as (I1 & I2); [intros k i Hi; apply (CC k i); right; exact Hi|].
  destruct (CC k0 inner (or_introl eq_refl)) as ((a & Ha) & (b & Hb)).
  assert (E : exists o, chosen inner (if in_dec string_dec k0 leading then true else false) = Some o) by (unfold chosen; destruct (in_dec string_dec k0 leading); eauto).
  destruct E as (o & E). unfold comb_part in *. cbn [flat_map fst snd]. rewrite E. cbn [app map fst]. split; [now rewrite I1|].
  intros k. cbn [dict_get]. destruct (String.eqb_spec k k0) as [->|]; [now rewrite E|apply I2].
Qed.

(** the objects of a case *)
Lemma case_items comb resist other corr consts cases l : lc_init comb resist other corr consts (Some cases) = Ok l ->
  NoDup (map fst comb) -> NoDup (map fst cases) -> NoDup (names_of resist ++ names_of (opt_list other) ++ map fst comb) ->
  forall n leading, dict_get cases n = Some leading ->
  dict_get (lc_dict l) n = Some (labelled resist ++ labelled (opt_list other) ++ comb_part comb leading).
Proof.
  intros H Nc Ncs N n leading Hn. pose proof (proj1 (proj1 (C54_construction comb resist other corr consts cases)) (ex_intro _ l H)) as (CC & AR & AO & _).
  apply init_ok in H. destruct H as (cs & Ecs & LC & _ & P1 & P2 & Rs & O & _ & A). injection Ecs as <-.
  destruct (pick_spec _ _ _ P1) as [K1 G1]. destruct (pick_spec _ _ _ P2) as [K2 G2].
  pose proof (all_cases_spec _ _ _ _ _ _ _ A Ncs n) as S. rewrite Hn in S. destruct S as (d & Ed & Cd). rewrite Ed. f_equal.
  assert (NR : NoDup (names_of resist)) by (apply NoDup_app_l in N; exact N).
  assert (NO : NoDup (names_of (opt_list other) ++ map fst comb)).
  { clear - N. induction (names_of resist) as [|x r IH]; [exact N|]. cbn in N. inversion N. apply IH. assumption. }
  assert (ER : lc_resist l = labelled resist) by (rewrite (by_name_distinct resist [] AR NR) in Rs; injection Rs as <-; reflexivity).
  assert (EO : opt_dict (lc_other l) = labelled (opt_list other)).
  { rewrite (by_name_distinct _ [] AO) in O by (cbn [map app]; apply NoDup_app_l in NO; exact NO). injection O as <-. reflexivity. }
  unfold case_dict in Cd. destruct (comb_items (lc_max l) (lc_pit l) leading) as [t|] eqn:Et; cbn [rbind] in Cd; [|discriminate]. injection Cd as <-.
  destruct (comb_items_spec _ _ _ _ Et) as (T1 & T2). destruct (comb_part_keys comb leading CC) as (C1 & C2).
  assert (ET : t = comb_part comb leading).
  { apply assoc_eq; [rewrite T1, K1; exact Nc|rewrite T1, K1, C1; reflexivity|]. intros k _. rewrite T2, C2, G1, G2.
    assert (B : mem_str k leading = if in_dec string_dec k leading then true else false).
    { destruct (mem_str k leading) eqn:M; [apply mem_str_In in M|apply mem_str_nIn in M]; destruct (in_dec string_dec k leading); tauto || reflexivity. }
    rewrite B. destruct (dict_get comb k) as [inner|] eqn:E; [|destruct (in_dec string_dec k leading); reflexivity].
    destruct (CC k inner (dget_in _ _ _ E)) as [[a Ha] [b Hb]]. unfold chosen. destruct (in_dec string_dec k leading); [reflexivity|]. rewrite Ha. reflexivity. }
  subst t. cbv zeta. unfold dict_update. rewrite ER.
  rewrite (dset_fold_nodup (labelled resist) []) by (cbn [app]; unfold labelled; rewrite combine_keys by exact AR; exact NR). cbn [app].
  assert (NA : NoDup (map fst ((labelled resist ++ labelled (opt_list other)) ++ comb_part comb leading))).
  { rewrite !map_app. unfold labelled. rewrite !combine_keys by assumption. rewrite C1, <- app_assoc. exact N. }
  destruct (lc_other l) as [od|]; cbn [opt_dict] in EO.
  - rewrite EO. assert (NB := NA). rewrite map_app in NB. apply NoDup_app_l in NB. rewrite (dset_fold_nodup (labelled (opt_list other)) (labelled resist) NB). rewrite dset_fold_nodup by exact NA. now rewrite <- app_assoc.
  - rewrite <- EO in *. rewrite app_nil_r in NA. rewrite dset_fold_nodup by exact NA. reflexivity.
Qed.

(** adding a list of objects *)
Lemma add_items_run kw items : forall s s', add_items items kw s = Ok s' -> fold_left sm_step (map OpAdd (overridden kw items)) s = s'.
Proof.
  induction items as [|[k v] items IH]; intros s s' H; cbn [add_items] in H; [injection H as <-; reflexivity|].
  unfold overridden in *. cbn [map fst snd fold_left sm_step]. destruct (addVariable s _) as [s1|]; cbn [rbind] in H; [|discriminate]. exact (IH s1 s' H).
Qed.
Lemma add_items_app kw a b : forall s, add_items (a ++ b) kw s = rbind (add_items a kw s) (fun s' => add_items b kw s').
Proof. induction a as [|[k v] a IH]; intros s; [reflexivity|]. cbn [app add_items]. destruct (addVariable s _); cbn [rbind]; [apply IH|reflexivity]. Qed.
Lemma overridden_app kw a b : overridden kw (a ++ b) = overridden kw a ++ overridden kw b. Proof. unfold overridden. apply map_app. Qed.
Lemma assemble_eq l n kw d : dict_get (lc_dict l) n = Some d ->
  assemble_case l (Some n) kw = rbind (add_items (opt_dict (lc_const l) ++ d) kw sm_init) (fun sm =>
    match lc_corr l with None => Ok (sm, None) | Some f => rbind (reindex f (dict_keys (sm_variables sm))) (fun m => Ok (sm, Some m)) end).
Proof.
  intros Hd. unfold assemble_case. cbn [rbind]. rewrite Hd, add_items_app.
  assert (E : (match lc_const l with None => Ok sm_init | Some d => add_items d kw sm_init end) = add_items (opt_dict (lc_const l)) kw sm_init) by (destruct (lc_const l); reflexivity).
  rewrite E. destruct (add_items (opt_dict (lc_const l)) kw sm_init); reflexivity.
Qed.
Lemma const_items comb resist other corr consts cases l : lc_init comb resist other corr consts (Some cases) = Ok l -> NoDup (names_of (opt_list consts)) ->
  opt_dict (lc_const l) = labelled (opt_list consts).
Proof.
  intros H N. pose proof (proj1 (proj1 (C54_construction comb resist other corr consts cases)) (ex_intro _ l H)) as (_ & _ & _ & AC).
  apply init_ok in H. destruct H as (cs & _ & _ & _ & _ & _ & _ & _ & C & _). destruct consts as [c|]; [|rewrite C; reflexivity].
  destruct C as (d & -> & E). cbn [opt_list opt_dict] in *. rewrite (by_name_distinct c [] AC N) in E. injection E as <-. reflexivity.
Qed.

(** the correlation *)
Lemma full_row_some (r : list R) : full_row (map Some r) = Some r.
Proof. induction r as [|x r IH]; [reflexivity|]. cbn [map]. unfold full_row in *. cbn [fold_right]. now rewrite IH. Qed.
Lemma full_rows_some (M : list (list R)) : full_rows (map (map Some) M) = Some M.
Proof. induction M as [|r M IH]; [reflexivity|]. cbn [map]. unfold full_rows in *. cbn [fold_right]. now rewrite full_row_some, IH. Qed.
Lemma index_pos a l : In a l -> index_of a l = Some (pos a l).
Proof.
  induction l as [|y l IH]; intros H; [destruct H|]. cbn [index_of pos]. destruct (String.eqb_spec a y) as [->|Ne]; [destruct (string_dec y y); [reflexivity|contradiction]|].
  destruct (string_dec a y); [contradiction|]. destruct H as [->|H]; [contradiction|]. rewrite (IH H). reflexivity.
Qed.
Lemma reindex_rows f names : frame_covers f names -> reindex f names = Ok (map (map Some) (corr_rows f names)).
Proof.
  intros (N1 & N2 & HC). unfold reindex, axis_ok. rewrite (proj2 (no_dups_spec (fr_index f)) N1), (proj2 (no_dups_spec (fr_cols f)) N2). cbn [orb andb]. f_equal.
  unfold corr_rows. rewrite map_map. apply map_ext_in. intros a Ha. rewrite map_map. apply map_ext_in. intros b Hb.
  now rewrite (index_pos a _ (proj1 (HC a Ha))), (index_pos b _ (proj2 (HC b Hb))).
Qed.
(** all objects are accepted *)
Lemma first_named_all l : forall seen, all_named l -> NoDup (seen ++ names_of l) -> first_named seen l = l.
Proof.
  induction l as [|o l IH]; intros seen H N; [reflexivity|]. cbn [first_named]. destruct (valid_name o) as [n|] eqn:E; [|exfalso; exact (H o (or_introl eq_refl) E)].
  assert (En : names_of (o :: l) = n :: names_of l) by (unfold names_of; cbn [flat_map]; rewrite E; reflexivity). rewrite En in N.
  destruct (in_dec string_dec n seen) as [I|I].
  - exfalso. apply NoDup_remove_2 in N. apply N. apply in_or_app. left. exact I.
  - f_equal. apply IH; [intros o' Ho'; apply H; right; exact Ho'|]. cbn [app]. constructor; [apply NoDup_remove_2 in N; exact N|apply NoDup_remove_1 in N; exact N].
Qed.
Lemma offered_add l : offered (map OpAdd l) = l.
Proof. induction l as [|o l IH]; [reflexivity|]. unfold offered in *. cbn. now rewrite IH. Qed.
Lemma accepted_hand corr objs : all_named objs -> NoDup (names_of objs) -> accepted (by_hand corr objs) = objs.
Proof.
  intros A N. unfold accepted, by_hand. assert (E : offered (map OpAdd objs ++ match corr with None => [] | Some f => [OpSetCorr (corr_rows f (map rv_name (dists_of objs)))] end) = objs).
  { unfold offered. rewrite flat_map_app. fold (offered (map OpAdd objs)). rewrite offered_add. destruct corr; cbn; apply app_nil_r. }
  rewrite E. apply first_named_all; assumption.
Qed.
Lemma vars_keys (ds : list rv) : dict_keys (map (fun v => (rv_name v, v)) ds) = map rv_name ds.
Proof. unfold dict_keys. rewrite map_map. reflexivity. Qed.
