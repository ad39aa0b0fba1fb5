From Verif Require Import Base StochModel StochModelSpec StochModelProofs Dict LimitState LimitStateSpec LimitStateProofs LoadComb LoadCombSpec LoadCombProofs Calib CalibSpec CalibProofs Generic GenericSpec.
From Coq Require Import Permutation.
Open Scope list_scope.
Open Scope R_scope.

Lemma add_objs_spec os : forall s acc, RegInv s acc -> (forall o, In o os -> valid_name o <> None) -> NoDup (names_of (acc ++ os)) ->
  exists s', add_objs os s = Ok s' /\ RegInv s' (acc ++ os).
Proof.
  induction os as [|o os IH]; intros s acc H V N.
  - exists s. rewrite app_nil_r. split; [reflexivity|exact H].
  - cbn [add_objs]. pose proof (add_one s acc o H) as A. destruct (addVariable s o) as [s'|e]; cbn [rbind].
    + destruct A as [A _]. replace (acc ++ o :: os) with ((acc ++ [o]) ++ os) in * by (rewrite <- app_assoc; reflexivity). apply IH; [exact A| |exact N]. intros o' Ho. apply V. right. exact Ho.
    + exfalso. destruct A as [_ [A|(n & En & In_)]]; [exact (V o (or_introl eq_refl) A)|].
      rewrite names_of_app in N. unfold names_of at 2 in N. cbn [flat_map] in N. rewrite En in N. cbn [app] in N. apply NoDup_remove_2 in N. apply N, in_or_app. left. exact In_.
Qed.
Lemma add_objs_err os : forall s acc, RegInv s acc -> ~ ((forall o, In o os -> valid_name o <> None) /\ NoDup (names_of (acc ++ os))) -> add_objs os s = Err EException.
Proof.
  induction os as [|o os IH]; intros s acc H K.
  - exfalso. apply K. rewrite app_nil_r. split; [intros o []|]. destruct H as (Hn & Hnd & _). rewrite <- Hn. exact Hnd.
  - cbn [add_objs]. pose proof (add_one s acc o H) as A. destruct (addVariable s o) as [s'|e]; cbn [rbind].
    + destruct A as [A (n & En & Nn)]. apply (IH s' (acc ++ [o]) A). intros [K1 K2]. apply K. rewrite <- app_assoc in K2. cbn in K2. split; [|exact K2]. intros o' [<-|Ho]; [rewrite En; discriminate|apply K1, Ho].
    + destruct A as [-> _]. reflexivity.
Qed.

Lemma lsf_kwargs_reg s acc nrv cols : RegInv s acc -> (length (dists_of acc) <= nrv)%nat ->
  exists kw, lsf_kwargs s nrv cols = Ok kw /\ Permutation (dict_keys kw) (names_of acc) /\ NoDup (dict_keys kw)
    /\ (forall i d, nth_error (dists_of acc) i = Some d -> dict_get kw (rv_name d) = Some (map (fun p => nth i p 0) cols))
    /\ (forall n v, In (n, v) (consts_of acc) -> dict_get kw n = Some (repeat v (length cols))).
Proof.
  intros (En & Hnd & Hm & Hv & Hc) Hl.
  set (kw := kwlist 0 (sm_variables s) cols ++ map (fun cv => (fst cv, repeat (snd cv) (length cols))) (sm_consts s)).
  assert (KK : map fst kw = map fst (sm_variables s) ++ map fst (sm_consts s)) by (unfold kw; rewrite map_app, kwlist_keys, map_map; reflexivity).
  assert (KV : map fst (sm_variables s) = map rv_name (dists_of acc)) by (rewrite Hv, map_map; reflexivity).
  assert (KP : Permutation (map fst kw) (names_of acc)) by (rewrite KK, KV, Hc; apply names_perm).
  assert (ND : NoDup (map fst kw)) by (eapply Permutation_NoDup; [apply Permutation_sym; exact KP|rewrite <- En; exact Hnd]).
  exists kw. split; [|split; [exact KP|split; [exact ND|split]]].
  - unfold lsf_kwargs. rewrite bind_vars_ok.
    + cbn [app]. rewrite bind_consts_ok; [reflexivity|]. rewrite kwlist_keys. rewrite <- KK. exact ND.
    + cbn. rewrite KK in ND. apply (NoDup_app_l _ _ ND).
    + rewrite Hv, map_length. cbn. exact Hl.
  - intros i d Hd. apply dict_get_in; [exact ND|]. unfold kw. apply in_or_app. left. change i with (0 + i)%nat. apply kwlist_in with (d := d). rewrite Hv, nth_error_map, Hd. reflexivity.
  - intros n v Hin. apply dict_get_in; [exact ND|]. unfold kw. apply in_or_app. right. rewrite Hc. apply in_map_iff. exists (n, v). auto.
Qed.

Lemma pos_of_nth n l : In n l -> nth_error l (pos_of n l) = Some n.
Proof. induction l as [|x l IH]; intros H; [destruct H|]. cbn [pos_of]. destruct (string_dec n x) as [->|E]; [reflexivity|]. cbn. apply IH. destruct H; [congruence|exact H]. Qed.

Lemma map_seq_idx {A} (f : nat -> R) (cols : list A) (g : A -> R) : (forall i c, nth_error cols i = Some c -> f i = g c) -> map f (seq 0 (length cols)) = map g cols.
Proof.
  intros H. rewrite <- (map_id cols) at 2. revert f H. induction cols as [|c cols IH]; intros f H; [reflexivity|]. cbn [length seq map].
  rewrite (H 0%nat c eq_refl). f_equal. rewrite <- seq_shift, map_map. rewrite map_id in IH |- *. apply (IH (fun i => f (S i))). intros i d Hd. apply (H (S i) d Hd).
Qed.

(** *** the history *)
Lemma analyse_all_ok form Aq Ag store ms : forall ms', analyse_all form Aq Ag store ms = (ms', None) ->
  map fst ms' = map fst ms /\ forall id b, In (id, b) ms' -> exists beta, b = Some beta /\ get_reliabilities form Aq Ag (store id) = Ok beta.
Proof.
  induction ms as [|[id b] ms IH]; intros ms' H; cbn [analyse_all] in H.
  - injection H as <-. split; [reflexivity|]. intros ? ? [].
  - destruct (get_reliabilities form Aq Ag (store id)) as [beta|e] eqn:E; [|discriminate]. destruct (analyse_all form Aq Ag store ms) as [r' e'] eqn:E'. injection H as <- ->.
    destruct (IH r' eq_refl) as [I1 I2]. split; [cbn; f_equal; exact I1|]. intros i b' [K|K]; [injection K as <- <-; eauto|apply I2, K].
Qed.
Lemma analyse_all_ids form Aq Ag store ms : forall ms' e, analyse_all form Aq Ag store ms = (ms', e) -> map fst ms' = map fst ms.
Proof.
  induction ms as [|[id b] ms IH]; intros ms' e H; cbn [analyse_all] in H; [injection H as <- _; reflexivity|].
  destruct (get_reliabilities form Aq Ag (store id)) as [beta|x]; [|injection H as <- _; reflexivity]. destruct (analyse_all form Aq Ag store ms) as [r' e'] eqn:E'. injection H as <- <-. cbn. f_equal. apply (IH r' e' eq_refl).
Qed.
(** a failing pass replaces a result only by the current one *)
Lemma analyse_all_keep form Aq Ag store ms : forall ms' e, analyse_all form Aq Ag store ms = (ms', e) -> (forall id b, In (id, b) ms -> b <> None) -> forall id b, In (id, b) ms' -> b <> None.
Proof.
  induction ms as [|[id b] ms IH]; intros ms' e H K; cbn [analyse_all] in H; [injection H as <- _; intros ? ? []|].
  destruct (get_reliabilities form Aq Ag (store id)) as [beta|x]; [|injection H as <- _; exact K]. destruct (analyse_all form Aq Ag store ms) as [r' e'] eqn:E'. injection H as <- <-.
  intros i b' [Q|Q]; [injection Q as <- <-; discriminate|]. apply (IH r' e' eq_refl (fun i b H => K i b (or_intror H)) i b' Q).
Qed.
Lemma analyse_all_fail form Aq Ag store ms : (exists e ms', analyse_all form Aq Ag store ms = (ms', Some e)) <-> exists id b e, In (id, b) ms /\ get_reliabilities form Aq Ag (store id) = Err e.
Proof.
  induction ms as [|[id b] ms IH]; cbn [analyse_all].
  - split; [intros (e & ms' & H); discriminate|intros (id & b & e & [] & _)].
  - destruct (get_reliabilities form Aq Ag (store id)) as [beta|x] eqn:E.
    + destruct (analyse_all form Aq Ag store ms) as [r' e'] eqn:E'. split.
      * intros (e & ms' & H). injection H as <- ->. destruct IH as [IH _]. destruct IH as (i & b' & e2 & H1 & H2); [eauto|]. exists i, b', e2. split; [right; exact H1|exact H2].
      * intros (i & b' & e2 & [K|K] & H2); [injection K as <- <-; congruence|]. destruct IH as [_ IH]. destruct IH as (e & ms' & H); [eauto|]. injection H as <- ->. eauto.
    + split; [|eauto]. intros _. exists id, b, x. split; [left; reflexivity|exact E].
Qed.

Lemma mapM_none {A B} (f : A -> result B) l : (forall x, In x l -> exists y, f x = Ok y) -> exists ys, mapM f l = Ok ys.
Proof.
  induction l as [|x l IH]; intros H; [exists []; reflexivity|]. cbn [mapM]. destruct (H x (or_introl eq_refl)) as [y ->]. destruct IH as [ys ->]; [intros z Hz; apply H; right; exact Hz|]. cbn. eauto.
Qed.

Lemma fold_ext_max j bs : forall b0, let m := fold_left (fun acc row => Rmax acc (nth j row 0)) bs b0 in
  b0 <= m /\ (forall r, In r bs -> nth j r 0 <= m) /\ (m = b0 \/ exists r, In r bs /\ m = nth j r 0).
Proof.
  induction bs as [|b bs IH]; intros b0; cbn [fold_left]; [cbn; split; [lra|split; [intros ? []|left; reflexivity]]|].
  destruct (IH (Rmax b0 (nth j b 0))) as (H1 & H2 & H3). set (m := fold_left _ bs _) in *. pose proof (Rmax_l b0 (nth j b 0)). pose proof (Rmax_r b0 (nth j b 0)). cbn. split; [lra|]. split.
  - intros r [<-|Hr]; [lra|apply H2, Hr].
  - destruct H3 as [H3|(r & Hr & H3)]; [|right; exists r; split; [right; exact Hr|exact H3]]. unfold Rmax in H3. destruct (Rle_dec b0 (nth j b 0)); [right; exists b; split; [left; reflexivity|exact H3]|left; exact H3].
Qed.
Lemma fold_ext_min j bs : forall b0, let m := fold_left (fun acc row => Rmin acc (nth j row 0)) bs b0 in
  m <= b0 /\ (forall r, In r bs -> m <= nth j r 0) /\ (m = b0 \/ exists r, In r bs /\ m = nth j r 0).
Proof.
  induction bs as [|b bs IH]; intros b0; cbn [fold_left]; [cbn; split; [lra|split; [intros ? []|left; reflexivity]]|].
  destruct (IH (Rmin b0 (nth j b 0))) as (H1 & H2 & H3). set (m := fold_left _ bs _) in *. pose proof (Rmin_l b0 (nth j b 0)). pose proof (Rmin_r b0 (nth j b 0)). cbn. split; [lra|]. split.
  - intros r [<-|Hr]; [lra|apply H2, Hr].
  - destruct H3 as [H3|(r & Hr & H3)]; [|right; exists r; split; [right; exact Hr|exact H3]]. unfold Rmin in H3. destruct (Rle_dec b0 (nth j b 0)); [left; exact H3|right; exists b; split; [left; reflexivity|exact H3]].
Qed.
