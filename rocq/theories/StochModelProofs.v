From Verif Require Import Base StochModel StochModelSpec.

Lemma mem_str_In k l : mem_str k l = true <-> In k l.
Proof.
  unfold mem_str. rewrite existsb_exists. split.
  - intros [x [Hx E]]. apply String.eqb_eq in E. subst. exact Hx.
  - intros H. exists k. split; [exact H|apply String.eqb_refl].
Qed.

Lemma mem_str_nIn k l : mem_str k l = false <-> ~ In k l.
Proof. rewrite <- mem_str_In. destruct (mem_str k l); split; intros; easy. Qed.

Lemma dict_set_fresh {V} (d : list (string * V)) k v :
  ~ In k (map fst d) -> dict_set d k v = d ++ [(k, v)].
Proof.
  induction d as [|[k' v'] d IH]; simpl; intros H; [reflexivity|].
  destruct (String.eqb_spec k k') as [->|]; [tauto|]. rewrite IH by tauto. reflexivity.
Qed.

Lemma first_named_snoc l o : forall seen,
  first_named seen (l ++ [o]) =
  first_named seen l ++
  match valid_name o with
  | None => []
  | Some n => if in_dec string_dec n (seen ++ names_of (first_named seen l)) then [] else [o]
  end.
Proof.
  induction l as [|a l IH]; intros seen.
  - simpl. destruct (valid_name o) as [n|]; [|reflexivity].
    destruct (in_dec string_dec n seen) as [H|H];
      destruct (in_dec string_dec n (seen ++ [])) as [H'|H']; try reflexivity;
      rewrite app_nil_r in H'; tauto.
  - cbn [first_named app]. destruct (valid_name a) as [na|] eqn:Ea; [|apply IH].
    destruct (in_dec string_dec na seen) as [H|H]; [apply IH|].
    rewrite IH. cbn [app]. f_equal. f_equal.
    destruct (valid_name o) as [n|]; [|reflexivity].
    assert (En : names_of (a :: first_named (na :: seen) l) = na :: names_of (first_named (na :: seen) l))
      by (unfold names_of; cbn [flat_map]; rewrite Ea; reflexivity).
    rewrite En. cbn [app].
    destruct (in_dec string_dec n (na :: seen ++ names_of (first_named (na :: seen) l))) as [H1|H1];
      destruct (in_dec string_dec n (seen ++ na :: names_of (first_named (na :: seen) l))) as [H2|H2];
      try reflexivity; exfalso.
    + apply H2. simpl in H1. rewrite !in_app_iff in *. simpl. tauto.
    + apply H1. simpl. rewrite !in_app_iff in *. simpl in H2. tauto.
Qed.

Lemma offered_snoc h op :
  offered (h ++ [op]) = offered h ++ match op with OpAdd o => [o] | _ => [] end.
Proof. unfold offered. rewrite flat_map_app. simpl. rewrite app_nil_r. reflexivity. Qed.

Lemma accepted_snoc h op :
  accepted (h ++ [op]) = accepted h ++
  match op with
  | OpAdd o => match valid_name o with
               | None => []
               | Some n => if in_dec string_dec n (names_of (accepted h)) then [] else [o]
               end
  | _ => []
  end.
Proof.
  unfold accepted. rewrite offered_snoc. destruct op as [o| | |]; rewrite ?app_nil_r; try reflexivity.
  rewrite first_named_snoc. reflexivity.
Qed.

Lemma sm_run_snoc h op : sm_run (h ++ [op]) = sm_step (sm_run h) op.
Proof. unfold sm_run. rewrite fold_left_app. reflexivity. Qed.

Definition RegInv (s : smodel) (acc : list obj) : Prop :=
  sm_names s = names_of acc /\ NoDup (sm_names s) /\
  sm_marg s = dists_of acc /\
  sm_variables s = map (fun d => (rv_name d, d)) (dists_of acc) /\
  sm_consts s = consts_of acc.

Lemma names_of_app a b : names_of (a ++ b) = names_of a ++ names_of b.
Proof. apply flat_map_app. Qed.
Lemma dists_of_app a b : dists_of (a ++ b) = dists_of a ++ dists_of b.
Proof. apply flat_map_app. Qed.
Lemma consts_of_app a b : consts_of (a ++ b) = consts_of a ++ consts_of b.
Proof. apply flat_map_app. Qed.

Lemma dist_name_in acc d : In d (dists_of acc) -> In (rv_name d) (names_of acc).
Proof.
  unfold dists_of, names_of. rewrite !in_flat_map. intros [o [Ho Hd]].
  exists o. split; [exact Ho|]. destruct o; simpl in *; try tauto.
  destruct Hd as [->|[]]. simpl. auto.
Qed.
Lemma const_name_in acc n v : In (n, v) (consts_of acc) -> In n (names_of acc).
Proof.
  unfold consts_of, names_of. rewrite !in_flat_map. intros [o [Ho Hd]].
  exists o. split; [exact Ho|]. destruct o; simpl in *; try tauto.
  destruct Hd as [E|[]]. inversion E; subst. simpl. auto.
Qed.

Lemma NoDup_snoc {A} (l : list A) x : NoDup l -> ~ In x l -> NoDup (l ++ [x]).
Proof.
  intros H Hx. induction l as [|a l IH]; simpl; [constructor; [auto|constructor]|].
  inversion H; subst. constructor.
  - rewrite in_app_iff. simpl. intros [|[->|[]]]; [tauto|]. apply Hx. left. reflexivity.
  - apply IH; [assumption|]. intros Hi. apply Hx. right. exact Hi.
Qed.

Lemma reg_inv h : RegInv (sm_run h) (accepted h).
Proof.
  induction h as [|op h IH] using rev_ind.
  - repeat split; try reflexivity. constructor.
  - rewrite sm_run_snoc, accepted_snoc.
    destruct IH as (Hn & Hnd & Hm & Hv & Hc).
    destruct op as [o|M|M|n]; cbn [sm_step].
    2-4: rewrite app_nil_r; repeat split; assumption.
    destruct o as [d|n v|]; cbn [addVariable valid_name].
    + destruct (mem_str (rv_name d) (sm_names (sm_run h))) eqn:E.
      * apply mem_str_In in E. rewrite Hn in E.
        destruct (in_dec string_dec (rv_name d) (names_of (accepted h))); [|tauto].
        rewrite app_nil_r. repeat split; assumption.
      * apply mem_str_nIn in E.
        destruct (in_dec string_dec (rv_name d) (names_of (accepted h))) as [Hi|Hi]; [rewrite Hn in E; tauto|].
        repeat split; cbn [sm_names sm_marg sm_variables sm_consts].
        -- rewrite names_of_app, Hn. reflexivity.
        -- apply NoDup_snoc; assumption.
        -- rewrite dists_of_app, Hm. reflexivity.
        -- rewrite dists_of_app, map_app, Hv. simpl. apply dict_set_fresh.
           rewrite map_map. simpl. intros Hin. apply in_map_iff in Hin. destruct Hin as [d' [Hd' Hin]].
           apply dist_name_in in Hin. rewrite Hd' in Hin. tauto.
        -- rewrite consts_of_app, Hc. simpl. rewrite app_nil_r. reflexivity.
    + destruct (mem_str n (sm_names (sm_run h))) eqn:E.
      * apply mem_str_In in E. rewrite Hn in E.
        destruct (in_dec string_dec n (names_of (accepted h))); [|tauto].
        rewrite app_nil_r. repeat split; assumption.
      * apply mem_str_nIn in E.
        destruct (in_dec string_dec n (names_of (accepted h))) as [Hi|Hi]; [rewrite Hn in E; tauto|].
        repeat split; cbn [sm_names sm_marg sm_variables sm_consts].
        -- rewrite names_of_app, Hn. reflexivity.
        -- apply NoDup_snoc; assumption.
        -- rewrite dists_of_app, Hm. simpl. rewrite app_nil_r. reflexivity.
        -- rewrite dists_of_app, Hv. simpl. rewrite app_nil_r. reflexivity.
        -- rewrite consts_of_app, Hc. simpl. apply dict_set_fresh.
           intros Hin. apply in_map_iff in Hin. destruct Hin as [[n' v'] [Hd' Hin]]. simpl in Hd'. subst.
           apply const_name_in in Hin. tauto.
    + rewrite app_nil_r. repeat split; assumption.
Qed.

Lemma registry h :
  let s := sm_run h in let acc := accepted h in
  sm_names s = names_of acc /\ NoDup (sm_names s) /\
  sm_marg s = dists_of acc /\
  sm_variables s = map (fun d => (rv_name d, d)) (dists_of acc) /\
  sm_consts s = consts_of acc /\
  getLenMarginalDistributions s = length (dists_of acc).
Proof.
  destruct (reg_inv h) as (Hn & Hnd & Hm & Hv & Hc).
  repeat split; try assumption. unfold getLenMarginalDistributions. rewrite Hm. reflexivity.
Qed.

Lemma add_raises h o :
  (exists e, addVariable (sm_run h) o = Err e) <->
  (valid_name o = None \/ exists n, valid_name o = Some n /\ In n (names_of (accepted h))).
Proof.
  destruct (reg_inv h) as (Hn & _). rewrite <- Hn.
  destruct o as [d|n v|]; cbn [addVariable valid_name].
  - destruct (mem_str (rv_name d) (sm_names (sm_run h))) eqn:E.
    + apply mem_str_In in E. split; [|eexists; reflexivity]. intros _. right. eauto.
    + apply mem_str_nIn in E. split; [intros [e He]; discriminate|].
      intros [H|[n [H1 H2]]]; [discriminate|]. inversion H1; subst. tauto.
  - destruct (mem_str n (sm_names (sm_run h))) eqn:E.
    + apply mem_str_In in E. split; [|eexists; reflexivity]. intros _. right. eauto.
    + apply mem_str_nIn in E. split; [intros [e He]; discriminate|].
      intros [H|[n' [H1 H2]]]; [discriminate|]. inversion H1; subst. tauto.
  - split; [left; reflexivity|eexists; reflexivity].
Qed.

Lemma raise_unchanged h o e :
  addVariable (sm_run h) o = Err e -> sm_run (h ++ [OpAdd o]) = sm_run h /\ e = EException.
Proof.
  intros H. rewrite sm_run_snoc. cbn [sm_step]. rewrite H. split; [reflexivity|].
  destruct o; cbn [addVariable] in H; [| |inversion H; reflexivity];
    destruct (mem_str _ _); inversion H; reflexivity.
Qed.

(** *** correlation *)
Lemma eye_rows_nth n i : (i < n)%nat ->
  nth i (eye_rows n) [] = map (fun j => if Nat.eqb i j then 1 else 0) (seq 0 n).
Proof.
  intros Hi. unfold eye_rows.
  set (f := fun i0 => map (fun j => if Nat.eqb i0 j then 1 else 0) (seq 0 n)).
  rewrite (nth_indep _ [] (f 0%nat)) by (rewrite map_length, seq_length; exact Hi).
  rewrite map_nth, seq_nth by exact Hi. reflexivity.
Qed.

Lemma eye_rows_identity n : is_identity n (eye_rows n).
Proof.
  repeat split.
  - unfold eye_rows. rewrite map_length, seq_length. reflexivity.
  - intros r Hr. unfold eye_rows in Hr. apply in_map_iff in Hr. destruct Hr as [i [<- _]].
    rewrite map_length, seq_length. reflexivity.
  - intros i j Hi Hj. rewrite eye_rows_nth by exact Hi.
    set (f := fun j => if Nat.eqb i j then 1 else 0).
    rewrite (nth_indep _ 0 (f 0%nat)) by (rewrite map_length, seq_length; exact Hj).
    rewrite map_nth, seq_nth by exact Hj. reflexivity.
Qed.

Lemma ndists_snoc_le h op : (ndists h <= ndists (h ++ [op]))%nat.
Proof. unfold ndists. rewrite accepted_snoc, dists_of_app, app_length. lia. Qed.

Lemma ndists_app_le h t : (ndists h <= ndists (h ++ t))%nat.
Proof.
  induction t as [|op t IH] using rev_ind; [rewrite app_nil_r; lia|].
  rewrite app_assoc. pose proof (ndists_snoc_le (h ++ t) op). lia.
Qed.

(** effect of one operation on the correlation slot *)
Lemma corr_step h op :
  sm_corr (sm_run (h ++ [op])) =
  match op with
  | OpSetCorr M => Some M
  | _ => if Nat.eqb (ndists (h ++ [op])) (ndists h) then sm_corr (sm_run h)
         else Some (eye_rows (ndists (h ++ [op])))
  end /\ (ndists (h ++ [op]) <= S (ndists h))%nat.
Proof.
  destruct (reg_inv h) as (Hn & _ & Hm & _).
  rewrite sm_run_snoc. unfold ndists. rewrite accepted_snoc, dists_of_app, app_length.
  destruct op as [o|M|M|n]; cbn [sm_step setCorrelation setModifiedCorrelation addCallFunction sm_corr];
    try (cbn; rewrite Nat.add_0_r, ?Nat.eqb_refl; split; [reflexivity|lia]).
  destruct o as [d|n v|]; cbn [addVariable valid_name].
  - destruct (mem_str (rv_name d) (sm_names (sm_run h))) eqn:E.
    + apply mem_str_In in E. rewrite Hn in E.
      destruct (in_dec string_dec (rv_name d) (names_of (accepted h))); [|tauto].
      cbn. rewrite Nat.add_0_r, Nat.eqb_refl. split; [reflexivity|lia].
    + apply mem_str_nIn in E. rewrite Hn in E.
      destruct (in_dec string_dec (rv_name d) (names_of (accepted h))); [tauto|].
      cbn [sm_corr dists_of flat_map app length].
      rewrite app_length, Hm. simpl length. split; [|lia].
      destruct (Nat.eqb_spec (length (dists_of (accepted h)) + 1) (length (dists_of (accepted h)))); [lia|reflexivity].
  - destruct (mem_str n (sm_names (sm_run h))) eqn:E.
    + apply mem_str_In in E. rewrite Hn in E.
      destruct (in_dec string_dec n (names_of (accepted h))); [|tauto].
      cbn. rewrite Nat.add_0_r, Nat.eqb_refl. split; [reflexivity|lia].
    + apply mem_str_nIn in E. rewrite Hn in E.
      destruct (in_dec string_dec n (names_of (accepted h))); [tauto|].
      cbn [sm_corr dists_of flat_map app length]. rewrite Nat.add_0_r, Nat.eqb_refl. split; [reflexivity|lia].
  - cbn. rewrite Nat.add_0_r, Nat.eqb_refl. split; [reflexivity|lia].
Qed.

Lemma corr_kept h M t :
  no_setcorr t -> ndists (h ++ OpSetCorr M :: t) = ndists h ->
  sm_corr (sm_run (h ++ OpSetCorr M :: t)) = Some M.
Proof.
  induction t as [|op t IH] using rev_ind; intros Hs Hd.
  - apply (corr_step h (OpSetCorr M)).
  - assert (E : h ++ OpSetCorr M :: t ++ [op] = (h ++ OpSetCorr M :: t) ++ [op])
      by (rewrite <- app_assoc; reflexivity).
    rewrite E in *.
    pose proof (ndists_snoc_le (h ++ OpSetCorr M :: t) op) as L1.
    pose proof (ndists_app_le h (OpSetCorr M :: t)) as L2.
    destruct (corr_step (h ++ OpSetCorr M :: t) op) as [-> _].
    assert (IH' : sm_corr (sm_run (h ++ OpSetCorr M :: t)) = Some M).
    { apply IH; [|lia]. intros M' H'. apply (Hs M'). rewrite in_app_iff. auto. }
    assert (Hno : forall M', op <> OpSetCorr M').
    { intros M' ->. apply (Hs M'). rewrite in_app_iff. simpl. auto. }
    destruct op as [o|M'|M'|k]; [|exfalso; apply (Hno M'); reflexivity| |].
    all: match goal with |- context [Nat.eqb ?a ?b] => destruct (Nat.eqb_spec a b) end;
      [exact IH'|lia].
Qed.

Lemma corr_reset h t :
  no_setcorr t -> (ndists h < ndists (h ++ t))%nat ->
  sm_corr (sm_run (h ++ t)) = Some (eye_rows (ndists (h ++ t))).
Proof.
  induction t as [|op t IH] using rev_ind; intros Hs Hd.
  - rewrite app_nil_r in Hd. lia.
  - rewrite app_assoc in *.
    destruct (corr_step (h ++ t) op) as [-> _].
    assert (Hs' : no_setcorr t). { intros M' H'. apply (Hs M'). rewrite in_app_iff. auto. }
    assert (Hno : forall M, op <> OpSetCorr M).
    { intros M ->. apply (Hs M). rewrite in_app_iff. simpl. auto. }
    destruct op as [o|M|M|n]; try (exfalso; apply (Hno M); reflexivity).
    all: match goal with |- context [Nat.eqb ?a ?b] => destruct (Nat.eqb_spec a b) as [Eq|Ne] end; [|reflexivity];
      rewrite Eq; apply IH; [assumption|lia].
Qed.

Lemma corr_none t : no_setcorr t -> ndists t = 0%nat -> sm_corr (sm_run t) = None.
Proof.
  induction t as [|op t IH] using rev_ind; intros Hs Hd; [reflexivity|].
  pose proof (ndists_snoc_le t op) as L.
  destruct (corr_step t op) as [-> _].
  assert (Hs' : no_setcorr t). { intros M' H'. apply (Hs M'). rewrite in_app_iff. auto. }
  assert (Hno : forall M, op <> OpSetCorr M).
  { intros M ->. apply (Hs M). rewrite in_app_iff. simpl. auto. }
  destruct op as [o|M|M|n]; try (exfalso; apply (Hno M); reflexivity).
  all: match goal with |- context [Nat.eqb ?a ?b] => destruct (Nat.eqb_spec a b) end; [apply IH; [assumption|lia]|lia].
Qed.

Lemma const_corr s n v s' : addVariable s (OConst n v) = Ok s' -> sm_corr s' = sm_corr s.
Proof.
  cbn [addVariable]. destruct (mem_str n (sm_names s)); intros H; inversion H. reflexivity.
Qed.

Lemma corr_tracks :
  (forall h M t, no_setcorr t -> ndists (h ++ OpSetCorr M :: t) = ndists h ->
     sm_corr (sm_run (h ++ OpSetCorr M :: t)) = Some M) /\
  (forall h t, no_setcorr t -> (ndists h < ndists (h ++ t))%nat ->
     exists I, sm_corr (sm_run (h ++ t)) = Some I /\
               is_identity (getLenMarginalDistributions (sm_run (h ++ t))) I) /\
  (forall t, no_setcorr t -> ndists t = 0%nat -> sm_corr (sm_run t) = None) /\
  (forall h n v, sm_corr (sm_run (h ++ [OpAdd (OConst n v)])) = sm_corr (sm_run h)).
Proof.
  split; [exact corr_kept|]. split; [|split; [exact corr_none|]].
  - intros h t H1 H2. exists (eye_rows (ndists (h ++ t))). split; [apply corr_reset; assumption|].
    destruct (registry (h ++ t)) as (_ & _ & _ & _ & _ & E). rewrite E. apply eye_rows_identity.
  - intros h n v. rewrite sm_run_snoc. cbn [sm_step].
    destruct (addVariable (sm_run h) (OConst n v)) as [s'|e] eqn:E; [|reflexivity].
    apply const_corr in E. exact E.
Qed.
