From Coquelicot Require Import Coquelicot.
From Verif Require Import Base StochModel Dict Sens SensSpec.

Lemma set_map_snd {D} (l : list (string * D)) name d i : NoDup (map fst l) ->
  index_of name (map fst l) = Some i -> list_set (map snd l) i d = map snd (dict_set l name d).
Proof.
  revert i. induction l as [|[k v] l IH]; intros i HN H; simpl in *; [discriminate|].
  destruct (String.eqb name k); simpl.
  - injection H as <-. reflexivity.
  - destruct (index_of name (map fst l)) as [i'|] eqn:E; simpl in H; [|discriminate].
    injection H as <-. f_equal. inversion HN; subst. apply IH; auto.
Qed.

Lemma index_of_in k l : In k l -> exists i, index_of k l = Some i /\ (i < length l)%nat.
Proof.
  induction l as [|x l IH]; simpl; intros H; [tauto|].
  destruct (String.eqb_spec k x) as [->|E]; [exists O; split; [reflexivity|lia]|].
  destruct H as [H|H]; [congruence|]. destruct (IH H) as (i & E' & Hi). rewrite E'.
  exists (S i). split; [reflexivity|lia].
Qed.

Section P.
Context {D : Type} (sparams : D -> list (string * R)) (make_copy : D -> string -> R -> result D)
  (stdv : D -> R) (opts : Type).
Variable form_beta : option opts -> pmodel D -> result R.

Lemma replace_dist_spec (m : pmodel D) name d d' : NoDup (map fst (pm_vars D m)) ->
  pm_marg D m = map snd (pm_vars D m) -> dict_get (pm_vars D m) name = Some d ->
  exists m1, replace_dist D m name d' = Ok m1 /\ only_changed m m1 name d'.
Proof.
  intros HN HM HG. pose proof (dget_some_key _ _ _ HG) as HI.
  destruct (index_of_in name _ HI) as (i & Ei & Hi). rewrite map_length in Hi.
  unfold replace_dist. rewrite Ei, HM, map_length.
  replace (Nat.ltb i (length (pm_vars D m))) with true by (symmetry; apply Nat.ltb_lt; exact Hi).
  eexists. split; [reflexivity|]. unfold only_changed. cbn [pm_vars pm_marg pm_corr pm_consts].
  split; [apply dkeys_set_in, HI|]. split; [apply dget_set_same|].
  split; [intros k Hk; apply dget_set_other; auto|].
  split; [apply set_map_snd; assumption|]. split; reflexivity.
Qed.

Definition fd_value (delta beta0 : R) (m : pmodel D) name p val (v : R) : Prop :=
  exists d d' m1 v1 beta1, dict_get (pm_vars D m) name = Some d
  /\ make_copy d p (val + delta * stdv d) = Ok d'
  /\ dict_get (sparams d') p = Some v1
  /\ only_changed m m1 name d'
  /\ form_beta None m1 = Ok beta1
  /\ v = (beta1 - beta0) / (v1 - val).

Lemma fd_one_ok delta beta0 m name p val v : NoDup (map fst (pm_vars D m)) ->
  pm_marg D m = map snd (pm_vars D m) ->
  fd_one D sparams make_copy stdv opts form_beta delta beta0 m name p val = Ok v ->
  fd_value delta beta0 m name p val v.
Proof.
  intros HN HM. unfold fd_one. destruct (dict_get (pm_vars D m) name) as [d|] eqn:Eg; [|discriminate].
  destruct (make_copy d p (val + delta * stdv d)) as [d'|] eqn:Ec; [|discriminate]. cbn [rbind].
  destruct (replace_dist_spec m name d d' HN HM Eg) as (m1 & Em & Ho). rewrite Em. cbn [rbind].
  destruct (dict_get (sparams d') p) as [v1|] eqn:Ep; [|discriminate].
  destruct (form_beta None m1) as [b1|] eqn:Eb; [|discriminate]. cbn [rbind]. intros H. injection H as <-.
  exists d, d', m1, v1, b1. repeat split; auto; apply Ho.
Qed.

Definition get2 (s : sdict) name p : option R :=
  match dict_get s name with None => None | Some row => dict_get row p end.

(** rows keys of the result *)
Definition rowkeys (s : sdict) : list (string * list string) := map (fun nr => (fst nr, map fst (snd nr))) s.

Lemma rowkeys_get s name row : dict_get s name = Some row -> dict_get (rowkeys s) name = Some (map fst row).
Proof.
  intros H. unfold rowkeys. rewrite (dget_map (fun _ r => map fst r) s name), H. reflexivity.
Qed.

Lemma rowkeys_set s name row v p : dict_get s name = Some row -> In p (map fst row) ->
  rowkeys (dict_set s name (dict_set row p v)) = rowkeys s.
Proof.
  induction s as [|[k r] s IH]; simpl; intros H Hp; [discriminate|].
  destruct (String.eqb_spec name k) as [->|E].
  - injection H as ->. simpl. rewrite dkeys_set_in by exact Hp. reflexivity.
  - simpl. f_equal. apply IH; assumption.
Qed.

Lemma fd_loop_ok delta beta0 m : NoDup (map fst (pm_vars D m)) -> pm_marg D m = map snd (pm_vars D m) ->
  forall todo s res,
  NoDup (map (fun t => (fst t, fst (snd t))) todo) ->
  (forall name p val, In (name, (p, val)) todo -> exists ks, dict_get (rowkeys s) name = Some ks /\ In p ks) ->
  fd_loop D sparams make_copy stdv opts form_beta delta beta0 m todo s = Ok res ->
  rowkeys res = rowkeys s
  /\ (forall name p val, In (name, (p, val)) todo -> exists v, get2 res name p = Some v /\ fd_value delta beta0 m name p val v)
  /\ (forall name p, ~ In (name, p) (map (fun t => (fst t, fst (snd t))) todo) -> get2 res name p = get2 s name p).
Proof.
  intros HN HM. induction todo as [|[name [p val]] todo IH]; intros s res HD HK H.
  - cbn [fd_loop] in H. injection H as <-. split; [reflexivity|]. split; [intros ? ? ? []|]. reflexivity.
  - cbn [fd_loop] in H.
    destruct (fd_one D sparams make_copy stdv opts form_beta delta beta0 m name p val) as [v|] eqn:E1; [|discriminate].
    cbn [rbind] in H. unfold sset in H.
    destruct (HK name p val ltac:(left; reflexivity)) as (ks & Ek & Hp).
    destruct (dict_get s name) as [row|] eqn:Er; [|discriminate]. cbn [rbind] in H.
    pose proof (rowkeys_get _ _ _ Er) as Ek'. assert (ks = map fst row) as -> by congruence.
    set (s' := dict_set s name (dict_set row p v)) in *.
    assert (RK : rowkeys s' = rowkeys s) by (apply rowkeys_set; assumption).
    cbn [map fst snd] in HD. inversion HD as [|a l HnI HD']; subst.
    destruct (IH s' res HD') as (A & B & C); [|exact H|].
    { intros n0 p0 v0 HI. rewrite RK. apply (HK n0 p0 v0). right. exact HI. }
    assert (G : get2 s' name p = Some v).
    { unfold get2, s'. rewrite dget_set_same, dget_set_same. reflexivity. }
    assert (G' : forall n0 p0, (n0, p0) <> (name, p) -> get2 s' n0 p0 = get2 s n0 p0).
    { intros n0 p0 Hne. unfold get2, s'. destruct (string_dec name n0) as [->|E].
      - rewrite dget_set_same, Er. rewrite dget_set_other by congruence. reflexivity.
      - rewrite dget_set_other by exact E. reflexivity. }
    split; [congruence|]. split.
    + intros n0 p0 v0 [HI|HI]; [|apply B; exact HI]. injection HI as <- <- <-.
      exists v. split; [|apply fd_one_ok; assumption].
      rewrite (C name p HnI). exact G.
    + intros n0 p0 HI. cbn [map fst snd] in HI. rewrite C by (intros XX; apply HI; right; exact XX). apply G'. intros E. apply HI. left. congruence.
Qed.

Lemma rowkeys_init (m : pmodel D) :
  rowkeys (sens_init D sparams m) = map (fun nd => (fst nd, map fst (sparams (snd nd)))) (pm_vars D m).
Proof.
  unfold rowkeys, sens_init. rewrite map_map. apply map_ext. intros nd. cbn [fst snd].
  rewrite map_map. reflexivity.
Qed.

Lemma NoDup_app_intro {A} (l1 l2 : list A) : NoDup l1 -> NoDup l2 -> (forall x, In x l1 -> In x l2 -> False) -> NoDup (l1 ++ l2).
Proof.
  induction l1 as [|a l IH]; simpl; intros H1 H2 H; [exact H2|].
  inversion H1; subst. constructor.
  - intros I. apply in_app_or in I. destruct I as [I|I]; [tauto|]. apply (H a); auto.
  - apply IH; auto. intros x I J. apply (H x); auto.
Qed.

Lemma todo_nodup (m : pmodel D) : NoDup (map fst (pm_vars D m)) ->
  (forall name d, In (name, d) (pm_vars D m) -> NoDup (map fst (sparams d))) ->
  NoDup (map (fun t => (fst t, fst (snd t))) (sens_todo D sparams m)).
Proof.
  unfold sens_todo. generalize (pm_vars D m). intros l HN HS.
  induction l as [|[k d] l IH]; cbn [flat_map]; [constructor|].
  cbn [map fst] in HN. inversion HN; subst.
  rewrite map_app. apply NoDup_app_intro.
  - rewrite map_map. cbn [fst snd].
    assert (HD : NoDup (map fst (sparams d))) by (apply (HS k); left; reflexivity).
    revert HD. generalize (sparams d). intros q. induction q as [|a q IHq]; cbn [map]; intros HD; [constructor|].
    inversion HD; subst. constructor; [|apply IHq; assumption].
    intros I. apply in_map_iff in I. destruct I as (b & Eb & Hb). injection Eb as Eb.
    apply H3. apply in_map_iff. eauto.
  - apply IH; [assumption|]. intros name d0 HI. apply (HS name). right. exact HI.
  - intros [n0 p0] I J. apply in_map_iff in I. destruct I as ([n1 [p1 v1]] & E1 & I1). cbn [fst snd] in E1. injection E1 as <- <-.
    apply in_map_iff in I1. destruct I1 as (pv & E2 & _). injection E2 as <- _.
    apply in_map_iff in J. destruct J as ([n2 [p2 v2]] & E3 & J1). cbn [fst snd] in E3. injection E3 as E3 _.
    apply in_flat_map in J1. destruct J1 as ([n3 d3] & J3 & J4). apply in_map_iff in J4.
    destruct J4 as (pv4 & E4 & _). injection E4 as E4 _. cbn [fst] in *.
    match goal with K : ~ In _ (map fst l) |- _ => apply K end.
    apply in_map_iff. exists (n3, d3). split; [cbn [fst]; congruence|exact J3].
Qed.

Lemma todo_in (m : pmodel D) name d p val : In (name, d) (pm_vars D m) -> In (p, val) (sparams d) ->
  In (name, (p, val)) (sens_todo D sparams m).
Proof.
  intros H1 H2. unfold sens_todo. apply in_flat_map. exists (name, d). split; [exact H1|].
  apply in_map_iff. exists (p, val). auto.
Qed.

Lemma todo_inv (m : pmodel D) name p val : In (name, (p, val)) (sens_todo D sparams m) ->
  exists d, In (name, d) (pm_vars D m) /\ In (p, val) (sparams d).
Proof.
  unfold sens_todo. intros H. apply in_flat_map in H. destruct H as ([n d] & H1 & H2).
  apply in_map_iff in H2. destruct H2 as (pv & E & H2). cbn [fst snd] in *. injection E as -> ->. eauto.
Qed.

Lemma numerical_ok form_after (o : opts) delta m res m' :
  NoDup (map fst (pm_vars D m)) ->
  (forall name d, In (name, d) (pm_vars D m) -> NoDup (map fst (sparams d))) ->
  pm_marg D m = map snd (pm_vars D m) ->
  (forall oo mm, same_inputs mm (form_after oo mm)) ->
  numerical_sens D sparams make_copy stdv opts form_beta form_after o delta m = (Ok res, m') ->
  same_inputs m m' /\
  exists beta0, form_beta None m = Ok beta0
  /\ map fst res = map fst (pm_vars D m)
  /\ forall name d, In (name, d) (pm_vars D m) ->
     exists row, dict_get res name = Some row /\ map fst row = map fst (sparams d)
     /\ forall p val, In (p, val) (sparams d) ->
        exists d' m1 v1 beta1,
          make_copy d p (val + delta * stdv d) = Ok d' /\ dict_get (sparams d') p = Some v1
          /\ only_changed m' m1 name d' /\ form_beta None m1 = Ok beta1
          /\ dict_get row p = Some ((beta1 - beta0) / (v1 - val)).
Proof.
  intros HN HS HM HF H. unfold numerical_sens in H. injection H as H Em.
  destruct (form_beta None m) as [beta0|] eqn:E0; [|discriminate]. cbn [rbind] in H.
  pose proof (HF None m) as Hs. rewrite Em in H, Hs. split; [exact Hs|]. destruct Hs as (S1 & S2 & S3 & S4).
  exists beta0. split; [reflexivity|].
  assert (HN' : NoDup (map fst (pm_vars D m'))) by (rewrite S1; exact HN).
  assert (HM' : pm_marg D m' = map snd (pm_vars D m')) by (rewrite S1, S2; exact HM).
  destruct (fd_loop_ok delta beta0 m' HN' HM' _ _ _ (todo_nodup m HN HS)
    ltac:(intros name p val HI; apply todo_inv in HI; destruct HI as (d & I1 & I2);
      exists (map fst (sparams d)); split;
      [rewrite rowkeys_init; apply dget_nodup;
        [rewrite map_map; exact HN | apply in_map_iff; exists (name, d); auto]
      |apply in_map_iff; exists (p, val); auto]) H) as (A & B & _).
  rewrite rowkeys_init in A.
  assert (K : map fst res = map fst (pm_vars D m)).
  { transitivity (map fst (rowkeys res)); [unfold rowkeys; rewrite map_map; reflexivity|].
    rewrite A, map_map. reflexivity. }
  split; [exact K|]. intros name d HI.
  assert (HI' : In name (map fst res)) by (rewrite K; apply in_map_iff; exists (name, d); auto).
  destruct (dget_key_some _ _ HI') as (row & Er). exists row. split; [exact Er|].
  assert (RK : map fst row = map fst (sparams d)).
  { pose proof (rowkeys_get _ _ _ Er) as E1. rewrite A in E1.
    assert (E2 : dict_get (map (fun nd => (fst nd, map fst (sparams (snd nd)))) (pm_vars D m)) name = Some (map fst (sparams d))).
    { apply dget_nodup; [rewrite map_map; exact HN|]. apply in_map_iff. exists (name, d). auto. }
    congruence. }
  split; [exact RK|]. intros p val HP.
  destruct (B name p val (todo_in m name d p val HI HP)) as (v & G & d0 & d' & m1 & v1 & beta1 & X1 & X2 & X3 & X4 & X5 & X6).
  assert (d0 = d) as ->.
  { assert (X : dict_get (pm_vars D m') name = Some d) by (rewrite S1; apply dget_nodup; assumption). congruence. }
  exists d', m1, v1, beta1. repeat split; auto; try apply X4.
  unfold get2 in G. rewrite Er in G. congruence.
Qed.

(** it fails with an exception exactly when one of its ingredients does *)
Lemma options_irrelevant form_after (o1 o2 : opts) delta m :
  numerical_sens D sparams make_copy stdv opts form_beta form_after o1 delta m
  = numerical_sens D sparams make_copy stdv opts form_beta form_after o2 delta m.
Proof. reflexivity. Qed.
End P.
