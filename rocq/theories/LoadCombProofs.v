From Verif Require Import Base StochModel StochModelSpec StochModelProofs Dict LoadComb LoadCombSpec.
Open Scope list_scope.

Lemma obj_name_valid o : obj_name o = match valid_name o with Some n => Ok n | None => Err EAttr end.
Proof. destruct o; reflexivity. Qed.

Lemma NoDup_app_l {A} (l r : list A) : NoDup (l ++ r) -> NoDup l.
Proof.
  induction l as [|x l IH]; intros H; [constructor|]. cbn in H. inversion H; subst. constructor; [|apply IH; assumption].
  intros I. apply H2, in_or_app. left. exact I.
Qed.

(** ** dictionaries from lists of named objects *)
Lemma by_name_ok l : forall d, all_named l -> exists d', by_name l d = Ok d'.
Proof.
  induction l as [|o l IH]; intros d H; [eexists; reflexivity|]. cbn [by_name]. rewrite obj_name_valid.
  destruct (valid_name o) as [n|] eqn:E; [|exfalso; exact (H o (or_introl eq_refl) E)]. cbn [rbind].
  apply IH. intros o' Ho'. apply H. right. exact Ho'.
Qed.
Lemma by_name_err l : forall d e, by_name l d = Err e -> e = EAttr /\ ~ all_named l.
Proof.
  induction l as [|o l IH]; intros d e H; [discriminate|]. cbn [by_name] in H. rewrite obj_name_valid in H.
  destruct (valid_name o) as [n|] eqn:E; cbn [rbind] in H.
  - destruct (IH _ _ H) as [A B]. split; [exact A|]. intros K. apply B. intros o' Ho'. apply K. right. exact Ho'.
  - injection H as <-. split; [reflexivity|]. intros K. exact (K o (or_introl eq_refl) E).
Qed.
Lemma by_name_get l : forall d d' k, by_name l d = Ok d' ->
  dict_get d' k = fold_left (fun acc o => match valid_name o with Some n => if String.eqb n k then Some o else acc | None => acc end) l (dict_get d k).
Proof.
  induction l as [|o l IH]; intros d d' k H; [injection H as <-; reflexivity|]. cbn [by_name] in H. rewrite obj_name_valid in H.
  destruct (valid_name o) as [n|] eqn:E; cbn [rbind] in H; [|discriminate]. rewrite (IH _ _ k H). cbn [fold_left]. rewrite E. f_equal.
  destruct (String.eqb_spec n k) as [->|N]; [apply dget_set_same|apply dget_set_other, N].
Qed.
Lemma by_name_nodup l : forall d d', NoDup (map fst d) -> by_name l d = Ok d' -> NoDup (map fst d').
Proof.
  induction l as [|o l IH]; intros d d' N H; [injection H as <-; exact N|]. cbn [by_name] in H.
  destruct (obj_name o) as [n|]; cbn [rbind] in H; [|discriminate]. apply (IH _ _ (dset_idem_keys_nodup d n o N) H).
Qed.
Lemma by_name_named l : forall d d', (forall k o, In (k, o) d -> valid_name o = Some k) -> by_name l d = Ok d' -> forall k o, In (k, o) d' -> valid_name o = Some k.
Proof.
  induction l as [|o l IH]; intros d d' Hd H; [injection H as <-; exact Hd|]. cbn [by_name] in H. rewrite obj_name_valid in H.
  destruct (valid_name o) as [n|] eqn:E; cbn [rbind] in H; [|discriminate]. apply (IH (dict_set d n o) d'); [|exact H].
  clear - Hd E. induction d as [|[k' v'] d IHd]; intros k o' Hi.
  - cbn in Hi. destruct Hi as [Hi|[]]. injection Hi as <- <-. exact E.
  - cbn [dict_set] in Hi. destruct (String.eqb_spec n k') as [->|N].
    + destruct Hi as [Hi|Hi]; [injection Hi as <- <-; exact E|apply Hd; right; exact Hi].
    + destruct Hi as [Hi|Hi]; [injection Hi as <- <-; apply Hd; left; reflexivity|].
      apply IHd; [|exact Hi]. intros k1 o0 H0. apply Hd. right. exact H0.
Qed.
Lemma by_name_distinct l : forall d, all_named l -> NoDup (map fst d ++ names_of l) ->
  by_name l d = Ok (d ++ combine (names_of l) l).
Proof.
  induction l as [|o l IH]; intros d H N; [cbn; rewrite app_nil_r; reflexivity|]. cbn [by_name]. rewrite obj_name_valid.
  destruct (valid_name o) as [n|] eqn:E; [|exfalso; exact (H o (or_introl eq_refl) E)]. cbn [rbind].
  assert (En : names_of (o :: l) = n :: names_of l) by (unfold names_of; cbn [flat_map]; rewrite E; reflexivity). rewrite En in *.
  rewrite dset_new.
  - rewrite IH.
    + rewrite <- app_assoc. reflexivity.
    + intros o' Ho'. apply H. right. exact Ho'.
    + rewrite map_app. cbn [map fst]. rewrite <- app_assoc. exact N.
  - apply NoDup_remove_2 in N. intros I. apply N, in_or_app. left. exact I.
Qed.
Lemma combine_keys l : all_named l -> map fst (combine (names_of l) l) = names_of l.
Proof.
  induction l as [|o l IH]; intros H; [reflexivity|]. destruct (valid_name o) as [n|] eqn:E; [|exfalso; exact (H o (or_introl eq_refl) E)].
  assert (En : names_of (o :: l) = n :: names_of l) by (unfold names_of; cbn [flat_map]; rewrite E; reflexivity). rewrite En. cbn [combine map fst].
  f_equal. apply IH. intros o' Ho'. apply H. right. exact Ho'.
Qed.

(** ** the combination dictionaries *)
Lemma pick_ok key comb : (forall k inner, In (k, inner) comb -> exists a, dict_get inner key = Some a) -> exists mx, pick key comb = Ok mx.
Proof.
  induction comb as [|[k inner] r IH]; intros H; [eexists; reflexivity|]. cbn [pick].
  destruct (H k inner (or_introl eq_refl)) as [a ->]. destruct IH as [mx ->]; [intros; eapply H; right; eassumption|]. eexists. reflexivity.
Qed.
Lemma pick_spec key comb : forall mx, pick key comb = Ok mx -> map fst mx = map fst comb
  /\ forall k, dict_get mx k = match dict_get comb k with Some inner => dict_get inner key | None => None end.
Proof.
  induction comb as [|[k0 inner] r IH]; intros mx H; [injection H as <-; split; reflexivity|]. cbn [pick] in H.
  destruct (dict_get inner key) as [o|] eqn:E; [|discriminate]. destruct (pick key r) as [t|]; cbn [rbind] in H; [|discriminate]. injection H as <-.
  destruct (IH t eq_refl) as [A B]. split; [cbn; rewrite A; reflexivity|]. intros k. cbn [dict_get]. destruct (String.eqb k k0); [symmetry; exact E|apply B].
Qed.
Lemma pick_complete key comb : forall mx, pick key comb = Ok mx -> forall k inner, In (k, inner) comb -> exists a, dict_get inner key = Some a.
Proof.
  induction comb as [|[k0 inner0] r IH]; intros mx H k inner Hi; [destruct Hi|]. cbn [pick] in H.
  destruct (dict_get inner0 key) as [o|] eqn:E; [|discriminate]. destruct (pick key r) as [t|]; cbn [rbind] in H; [|discriminate].
  destruct Hi as [Hi|Hi]; [injection Hi as <- <-; eauto|eapply IH; [reflexivity|exact Hi]].
Qed.
Lemma pick_err key comb e : pick key comb = Err e -> e = EKey.
Proof.
  revert e. induction comb as [|[k0 inner0] r IH]; intros e H; [discriminate|]. cbn [pick] in H.
  destruct (dict_get inner0 key); [|injection H as <-; reflexivity]. destruct (pick key r) as [t|e']; cbn [rbind] in H; [discriminate|]. injection H as <-. apply IH. reflexivity.
Qed.

Lemma comb_items_ok mx pit loadc : (forall k, In k (map fst mx) -> In k (map fst pit)) -> exists t, comb_items mx pit loadc = Ok t.
Proof.
  induction mx as [|[k v] r IH]; intros H; [eexists; reflexivity|]. cbn [comb_items].
  destruct IH as [t ->]; [intros; apply H; right; assumption|]. destruct (mem_str k loadc); [eexists; reflexivity|].
  destruct (dget_key_some pit k) as [w ->]; [apply H; left; reflexivity|]. eexists. reflexivity.
Qed.
Lemma comb_items_spec mx pit loadc : forall t, comb_items mx pit loadc = Ok t -> map fst t = map fst mx
  /\ forall k, dict_get t k = if mem_str k loadc then dict_get mx k else match dict_get mx k with Some _ => dict_get pit k | None => None end.
Proof.
  induction mx as [|[k0 v] r IH]; intros t H.
  - injection H as <-. split; [reflexivity|]. intros k. cbn. destruct (mem_str k loadc); reflexivity.
  - cbn [comb_items] in H. destruct (mem_str k0 loadc) eqn:M.
    + destruct (comb_items r pit loadc) as [t'|]; cbn [rbind] in H; [|discriminate]. injection H as <-. destruct (IH t' eq_refl) as [A B].
      split; [cbn; rewrite A; reflexivity|]. intros k. cbn [dict_get]. destruct (String.eqb_spec k k0) as [->|N]; [rewrite M; reflexivity|apply B].
    + destruct (dict_get pit k0) as [w|] eqn:E; [|discriminate]. destruct (comb_items r pit loadc) as [t'|]; cbn [rbind] in H; [|discriminate]. injection H as <-.
      destruct (IH t' eq_refl) as [A B]. split; [cbn; rewrite A; reflexivity|]. intros k. cbn [dict_get].
      destruct (String.eqb_spec k k0) as [->|N]; [rewrite M; symmetry; exact E|apply B].
Qed.

(** ** dict.update *)
Lemma update_get items : forall d k, NoDup (map fst items) ->
  dict_get (dict_update d items) k = match dict_get items k with Some v => Some v | None => dict_get d k end.
Proof.
  unfold dict_update. induction items as [|[k0 v0] r IH]; intros d k N; [reflexivity|]. cbn [map fst] in N. inversion N; subst. cbn [fold_left fst snd].
  rewrite IH by assumption. cbn [dict_get]. destruct (String.eqb_spec k k0) as [->|K].
  - apply dget_none in H1. rewrite H1. apply dget_set_same.
  - destruct (dict_get r k); [reflexivity|]. apply dget_set_other. congruence.
Qed.
Lemma update_nodup items : forall d, NoDup (map fst d) -> NoDup (map fst (dict_update d items)).
Proof.
  unfold dict_update. induction items as [|[k0 v0] r IH]; intros d N; [exact N|]. cbn [fold_left]. apply IH, dset_idem_keys_nodup, N.
Qed.
Lemma update_disjoint items d : NoDup (map fst (d ++ items)) -> dict_update d items = d ++ items.
Proof. intros N. apply (dset_fold_nodup items d N). Qed.

Definition opt_dict (o : option (list (string * obj))) : list (string * obj) := match o with None => [] | Some d => d end.

Lemma case_dict_spec resist other mx pit loadc d : case_dict resist other mx pit loadc = Ok d ->
  NoDup (map fst resist) -> NoDup (map fst (opt_dict other)) -> NoDup (map fst mx) ->
  NoDup (map fst d)
  /\ (forall k, dict_get d k = match dict_get mx k with
        | Some v => if mem_str k loadc then Some v else dict_get pit k
        | None => match dict_get (opt_dict other) k with Some v => Some v | None => dict_get resist k end end)
  /\ (NoDup (map fst resist ++ map fst (opt_dict other) ++ map fst mx) -> map fst d = map fst resist ++ map fst (opt_dict other) ++ map fst mx).
Proof.
  intros H N1 N2 N3. unfold case_dict in H. destruct (comb_items mx pit loadc) as [t|] eqn:E; cbn [rbind] in H; [|discriminate]. injection H as <-.
  destruct (comb_items_spec mx pit loadc t E) as [A B]. assert (Nt : NoDup (map fst t)) by (rewrite A; exact N3).
  assert (F : (match other with None => dict_update [] resist | Some o => dict_update (dict_update [] resist) o end) = dict_update (dict_update [] resist) (opt_dict other)) by (destruct other; reflexivity).
  rewrite F. split; [|split].
  - apply update_nodup, update_nodup, update_nodup. constructor.
  - intros k. rewrite update_get by exact Nt. rewrite update_get by exact N2. rewrite update_get by exact N1.
    destruct (dict_get mx k) as [v|] eqn:G.
    + assert (I : In k (map fst t)) by (rewrite A; eapply dget_some_key; exact G).
      destruct (dget_key_some t k I) as [w W]. rewrite W. rewrite B, G in W. destruct (mem_str k loadc); symmetry; exact W.
    + assert (K : dict_get t k = None) by (apply dget_none; rewrite A; apply dget_none, G). rewrite K. cbn [dict_get].
      destruct (dict_get (opt_dict other) k); [reflexivity|]. destruct (dict_get resist k); reflexivity.
  - intros N. rewrite (update_disjoint resist []) by exact N1. cbn [app].
    assert (N' : NoDup (map fst (resist ++ opt_dict other))). { rewrite map_app. rewrite app_assoc in N. apply NoDup_app_l in N. exact N. }
    rewrite (update_disjoint (opt_dict other) resist N'). rewrite update_disjoint.
    + rewrite !map_app, A, app_assoc. reflexivity.
    + rewrite !map_app, A, <- app_assoc. exact N.
Qed.

Lemma all_cases_spec resist other mx pit cases : forall acc dd, all_cases resist other mx pit cases acc = Ok dd -> NoDup (map fst cases) ->
  forall n, match dict_get cases n with
            | Some loadc => exists d, dict_get dd n = Some d /\ case_dict resist other mx pit loadc = Ok d
            | None => dict_get dd n = dict_get acc n
            end.
Proof.
  induction cases as [|[n0 lc0] r IH]; intros acc dd H N n; [injection H as <-; reflexivity|]. cbn [all_cases] in H.
  destruct (case_dict resist other mx pit lc0) as [d|] eqn:E; cbn [rbind] in H; [|discriminate]. cbn [map fst] in N. inversion N; subst.
  specialize (IH _ _ H H3 n). cbn [dict_get]. destruct (String.eqb_spec n n0) as [->|K].
  - apply dget_none in H2. rewrite H2 in IH. exists d. split; [rewrite IH; apply dget_set_same|exact E].
  - destruct (dict_get r n); [exact IH|]. rewrite IH. apply dget_set_other. congruence.
Qed.
Lemma all_cases_ok resist other mx pit cases : forall acc, (forall k, In k (map fst mx) -> In k (map fst pit)) -> exists dd, all_cases resist other mx pit cases acc = Ok dd.
Proof.
  induction cases as [|[n0 lc0] r IH]; intros acc H; [eexists; reflexivity|]. cbn [all_cases]. unfold case_dict.
  destruct (comb_items_ok mx pit lc0 H) as [t ->]. cbn [rbind]. apply IH, H.
Qed.
Lemma all_cases_keys resist other mx pit cases : forall acc dd, all_cases resist other mx pit cases acc = Ok dd -> NoDup (map fst acc ++ map fst cases) ->
  map fst dd = map fst acc ++ map fst cases.
Proof.
  induction cases as [|[n0 lc0] r IH]; intros acc dd H N; [injection H as <-; cbn; rewrite app_nil_r; reflexivity|]. cbn [all_cases] in H.
  destruct (case_dict resist other mx pit lc0) as [d|] eqn:E; cbn [rbind] in H; [|discriminate]. cbn [map fst] in *.
  assert (F : ~ In n0 (map fst acc)). { apply NoDup_remove_2 in N. intros I. apply N, in_or_app. left. exact I. }
  rewrite (IH _ _ H); rewrite dkeys_set_new by exact F; rewrite <- app_assoc; [reflexivity|exact N].
Qed.

(** ** adding items to the stochastic model *)
Lemma add_one s acc o : RegInv s acc ->
  match addVariable s o with
  | Ok s' => RegInv s' (acc ++ [o]) /\ exists n, valid_name o = Some n /\ ~ In n (names_of acc)
  | Err e => e = EException /\ (valid_name o = None \/ exists n, valid_name o = Some n /\ In n (names_of acc))
  end.
Proof.
  intros (Hn & Hnd & Hm & Hv & Hc). destruct o as [d|n v|]; cbn [addVariable valid_name].
  - destruct (mem_str (rv_name d) (sm_names s)) eqn:E.
    + apply mem_str_In in E. rewrite Hn in E. split; [reflexivity|]. right. eauto.
    + apply mem_str_nIn in E. rewrite Hn in E. split; [|eauto]. repeat split; cbn [sm_names sm_marg sm_variables sm_consts].
      * rewrite names_of_app, Hn. reflexivity.
      * apply NoDup_snoc; [exact Hnd|]. rewrite Hn. exact E.
      * rewrite dists_of_app, Hm. reflexivity.
      * rewrite dists_of_app, map_app, Hv. simpl. apply dict_set_fresh.
        rewrite map_map. simpl. intros Hin. apply in_map_iff in Hin. destruct Hin as [d' [Hd' Hin]].
        apply dist_name_in in Hin. rewrite Hd' in Hin. tauto.
      * rewrite consts_of_app, Hc. simpl. rewrite app_nil_r. reflexivity.
  - destruct (mem_str n (sm_names s)) eqn:E.
    + apply mem_str_In in E. rewrite Hn in E. split; [reflexivity|]. right. eauto.
    + apply mem_str_nIn in E. rewrite Hn in E. split; [|eauto]. repeat split; cbn [sm_names sm_marg sm_variables sm_consts].
      * rewrite names_of_app, Hn. reflexivity.
      * apply NoDup_snoc; [exact Hnd|]. rewrite Hn. exact E.
      * rewrite dists_of_app, Hm. simpl. rewrite app_nil_r. reflexivity.
      * rewrite dists_of_app, Hv. simpl. rewrite app_nil_r. reflexivity.
      * rewrite consts_of_app, Hc. simpl. apply dict_set_fresh.
        intros Hin. apply in_map_iff in Hin. destruct Hin as [[n' v'] [Hd' Hin]]. simpl in Hd'. subst.
        apply const_name_in in Hin. tauto.
  - split; [reflexivity|left; reflexivity].
Qed.

Lemma reg_init : RegInv sm_init [].
Proof. repeat split; try reflexivity. constructor. Qed.

Lemma add_items_spec kw items : forall s acc, RegInv s acc ->
  let objs := overridden kw items in
  match add_items items kw s with
  | Ok s' => RegInv s' (acc ++ objs) /\ all_named objs
  | Err e => e = EException /\ ~ (all_named objs /\ NoDup (names_of (acc ++ objs)))
  end.
Proof.
  induction items as [|[k v] r IH]; intros s acc H objs.
  - cbn. rewrite app_nil_r. split; [exact H|]. intros o [].
  - cbn [add_items]. set (o := match dict_get kw k with Some w => w | None => v end).
    assert (Eo : objs = o :: overridden kw r) by reflexivity. rewrite Eo.
    pose proof (add_one s acc o H) as A. destruct (addVariable s o) as [s'|e]; cbn [rbind].
    + destruct A as [A (n & En & Nn)]. specialize (IH s' (acc ++ [o]) A). cbv zeta in IH. destruct (add_items r kw s') as [s2|e].
      * rewrite <- app_assoc in IH. destruct IH as [I1 I2]. split; [exact I1|]. intros o' [<-|Ho']; [rewrite En; discriminate|apply I2, Ho'].
      * rewrite <- app_assoc in IH. destruct IH as [I1 I2]. split; [exact I1|]. intros [K1 K2]. apply I2. split; [intros o' Ho'; apply K1; right; exact Ho'|exact K2].
    + destruct A as [A1 A2]. split; [exact A1|]. intros [K1 K2]. destruct A2 as [A2|(n & En & In)].
      * exact (K1 o (or_introl eq_refl) A2).
      * rewrite names_of_app in K2. unfold names_of at 2 in K2. cbn [flat_map] in K2. rewrite En in K2. cbn [app] in K2. apply NoDup_remove_2 in K2.
        apply K2, in_or_app. left. exact In.
Qed.

(** ** reindexing *)
Lemma no_dups_spec l : no_dups l = true <-> NoDup l.
Proof.
  induction l as [|x l IH]; cbn [no_dups]; [split; [constructor|reflexivity]|]. rewrite andb_true_iff, negb_true_iff, mem_str_nIn, IH.
  split; [intros [A B]; constructor; assumption|]. intros H. inversion H. split; assumption.
Qed.
Lemma index_of_none x l : index_of x l = None <-> ~ In x l.
Proof.
  induction l as [|y l IH]; cbn [index_of]; [split; [intros _ []|reflexivity]|]. destruct (String.eqb_spec x y) as [->|N].
  - split; [discriminate|]. intros H. exfalso. apply H. left. reflexivity.
  - destruct (index_of x l) as [i|]; cbn [option_map].
    + split; [discriminate|]. intros H. destruct IH as [_ IH]. discriminate IH. intros I. apply H. right. exact I.
    + split; [|reflexivity]. intros _ [H|H]; [congruence|]. destruct IH as [IH _]. exact (IH eq_refl H).
Qed.
Lemma index_of_some x l i : index_of x l = Some i -> nth_error l i = Some x.
Proof.
  revert i. induction l as [|y l IH]; intros i H; [discriminate|]. cbn [index_of] in H. destruct (String.eqb_spec x y) as [->|N]; [injection H as <-; reflexivity|].
  destruct (index_of x l) as [j|]; [|discriminate]. cbn [option_map] in H. injection H as <-. cbn. apply IH. reflexivity.
Qed.
Lemma index_of_nodup x l i : NoDup l -> nth_error l i = Some x -> index_of x l = Some i.
Proof.
  revert i. induction l as [|y l IH]; intros i N H; [destruct i; discriminate|]. inversion N; subst. destruct i as [|i]; cbn in H.
  - injection H as ->. cbn [index_of]. rewrite String.eqb_refl. reflexivity.
  - cbn [index_of]. destruct (String.eqb_spec x y) as [->|K]; [exfalso; apply H2; eapply nth_error_In; exact H|]. rewrite (IH i) by assumption. reflexivity.
Qed.

(** ** keyword evaluation *)
Lemma miss_get set_value miss : forall (kw : list (string * R)) k,
  dict_get (fold_left (fun d x => dict_set d x set_value) miss kw) k = if mem_str k miss then Some set_value else dict_get kw k.
Proof.
  induction miss as [|x r IH]; intros kw k; [reflexivity|]. cbn [fold_left]. rewrite IH. unfold mem_str. cbn [existsb]. destruct (String.eqb_spec k x) as [->|N]; cbn [orb].
  - rewrite dget_set_same. destruct (existsb _ r); reflexivity.
  - rewrite dget_set_other by congruence. reflexivity.
Qed.

Definition const_val (sc : option R) (o : obj) : option R := match sc with Some v => Some v | None => match o with OConst _ v => Some v | _ => None end end.

Lemma fill_spec cs sc : forall kw kw', fill_consts cs sc kw = Ok kw' -> forall k,
  dict_get kw' k = match dict_get kw k with Some v => Some v | None => match dict_get cs k with Some o => const_val sc o | None => None end end.
Proof.
  induction cs as [|[k0 o] r IH]; intros kw kw' H k.
  - injection H as <-. cbn. destruct (dict_get kw k); reflexivity.
  - cbn [fill_consts] in H. destruct (mem_str k0 (dict_keys kw)) eqn:M.
    + rewrite (IH kw kw' H k). destruct (dict_get kw k) eqn:G; [reflexivity|]. cbn [dict_get]. destruct (String.eqb_spec k k0) as [->|N]; [|reflexivity].
      apply mem_str_In in M. apply dget_none in G. contradiction.
    + assert (X : exists v, const_val sc o = Some v /\ fill_consts r sc (dict_set kw k0 v) = Ok kw').
      { destruct sc as [v|]; [exists v; split; [reflexivity|exact H]|]. destruct o as [d|n v|]; cbn [get_value rbind] in H; try discriminate. exists v. split; [reflexivity|exact H]. }
      destruct X as (v & E & H'). rewrite (IH _ _ H' k). cbn [dict_get]. destruct (String.eqb_spec k k0) as [->|N].
      * rewrite dget_set_same. apply mem_str_nIn, dget_none in M. rewrite M. symmetry. exact E.
      * rewrite dget_set_other by congruence. reflexivity.
Qed.
Lemma fill_ok cs sc : forall kw, (forall k o, In (k, o) cs -> ~ In k (map fst kw) -> sc = None -> exists n v, o = OConst n v) -> exists kw', fill_consts cs sc kw = Ok kw'.
Proof.
  induction cs as [|[k0 o] r IH]; intros kw H; [eexists; reflexivity|]. cbn [fill_consts]. destruct (mem_str k0 (dict_keys kw)) eqn:M.
  - apply IH. intros k o' Hi. apply H. right. exact Hi.
  - assert (Mi : forall v k, ~ In k (map fst (dict_set kw k0 v)) -> ~ In k (map fst kw)).
    { intros v k Hk Hi. apply Hk. destruct (in_dec string_dec k0 (map fst kw)) as [I|I]; [rewrite dkeys_set_in by exact I; exact Hi|rewrite dkeys_set_new by exact I; apply in_or_app; left; exact Hi]. }
    destruct sc as [v|].
    + apply IH. intros k o' Hi Hk. discriminate.
    + apply mem_str_nIn in M. destruct (H k0 o (or_introl eq_refl) M eq_refl) as (n & v & ->). cbn [get_value rbind]. apply IH.
      intros k o' Hi Hk E. apply (H k o' (or_intror Hi)); [eapply Mi; exact Hk|exact E].
Qed.
