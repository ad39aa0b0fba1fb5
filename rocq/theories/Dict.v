(** Lemmas about the association-list model of Python dicts ([dict_set],
    [dict_get], [dict_keys] of StochModel.v).  Nothing here models code. *)
From Verif Require Import Base StochModel.

Lemma dget_set_same {V} (d : list (string * V)) k v : dict_get (dict_set d k v) k = Some v.
Proof.
  induction d as [|[k' v'] d IH]; simpl.
  - rewrite String.eqb_refl. reflexivity.
  - destruct (String.eqb k k') eqn:E; simpl.
    + rewrite String.eqb_refl. reflexivity.
    + rewrite E. exact IH.
Qed.

Lemma dget_set_other {V} (d : list (string * V)) k k' v : k <> k' -> dict_get (dict_set d k v) k' = dict_get d k'.
Proof.
  intros H. induction d as [|[k0 v0] d IH]; simpl.
  - destruct (String.eqb_spec k' k); [congruence|reflexivity].
  - destruct (String.eqb_spec k k0) as [->|E]; simpl.
    + destruct (String.eqb_spec k' k0); [congruence|reflexivity].
    + destruct (String.eqb k' k0); [reflexivity|exact IH].
Qed.

Lemma dkeys_set_in {V} (d : list (string * V)) k v : In k (map fst d) -> map fst (dict_set d k v) = map fst d.
Proof.
  induction d as [|[k' v'] d IH]; simpl; intros H; [tauto|].
  destruct (String.eqb_spec k k') as [->|E]; simpl; [reflexivity|].
  f_equal. apply IH. destruct H; [congruence|assumption].
Qed.

Lemma dkeys_set_new {V} (d : list (string * V)) k v : ~ In k (map fst d) -> map fst (dict_set d k v) = map fst d ++ [k].
Proof.
  induction d as [|[k' v'] d IH]; simpl; intros H; [reflexivity|].
  destruct (String.eqb_spec k k') as [->|E]; simpl; [tauto|].
  f_equal. apply IH. tauto.
Qed.

Lemma dset_new {V} (d : list (string * V)) k v : ~ In k (map fst d) -> dict_set d k v = d ++ [(k, v)].
Proof.
  induction d as [|[k' v'] d IH]; simpl; intros H; [reflexivity|].
  destruct (String.eqb_spec k k') as [->|E]; simpl; [tauto|].
  f_equal. apply IH. tauto.
Qed.

Lemma dget_none {V} (d : list (string * V)) k : dict_get d k = None <-> ~ In k (map fst d).
Proof.
  induction d as [|[k' v'] d IH]; simpl; [tauto|].
  destruct (String.eqb_spec k k') as [->|E]; [split; [discriminate|tauto]|].
  rewrite IH. split; [intros H [A|A]; [congruence|tauto]|tauto].
Qed.

Lemma dget_some_key {V} (d : list (string * V)) k v : dict_get d k = Some v -> In k (map fst d).
Proof.
  intros H. destruct (in_dec string_dec k (map fst d)) as [I|I]; [exact I|].
  apply dget_none in I. congruence.
Qed.

Lemma dget_key_some {V} (d : list (string * V)) k : In k (map fst d) -> exists v, dict_get d k = Some v.
Proof.
  intros H. destruct (dict_get d k) as [v|] eqn:E; [eauto|]. apply dget_none in E. tauto.
Qed.

Lemma dget_in {V} (d : list (string * V)) k v : dict_get d k = Some v -> In (k, v) d.
Proof.
  induction d as [|[k' v'] d IH]; simpl; [discriminate|].
  destruct (String.eqb_spec k k') as [->|E]; [injection 1 as ->; auto|auto].
Qed.

Lemma dget_nodup {V} (d : list (string * V)) k v : NoDup (map fst d) -> In (k, v) d -> dict_get d k = Some v.
Proof.
  induction d as [|[k' v'] d IH]; simpl; intros HN H; [tauto|].
  inversion HN; subst. destruct H as [H|H].
  - injection H as -> ->. rewrite String.eqb_refl. reflexivity.
  - destruct (String.eqb_spec k k') as [->|E]; [|apply IH; assumption].
    exfalso. apply H2. apply in_map_iff. exists (k', v). auto.
Qed.

Lemma dget_app {V} (d1 d2 : list (string * V)) k :
  dict_get (d1 ++ d2) k = match dict_get d1 k with Some v => Some v | None => dict_get d2 k end.
Proof.
  induction d1 as [|[k' v'] d IH]; simpl; [reflexivity|].
  destruct (String.eqb k k'); [reflexivity|exact IH].
Qed.

Lemma dget_map {V W} (f : string -> V -> W) (d : list (string * V)) k :
  dict_get (map (fun kv => (fst kv, f (fst kv) (snd kv))) d) k = option_map (f k) (dict_get d k).
Proof.
  induction d as [|[k' v'] d IH]; simpl; [reflexivity|].
  destruct (String.eqb_spec k k') as [->|E]; [reflexivity|exact IH].
Qed.

Lemma dset_idem_keys_nodup {V} (d : list (string * V)) k v : NoDup (map fst d) -> NoDup (map fst (dict_set d k v)).
Proof.
  intros H. destruct (in_dec string_dec k (map fst d)) as [I|I].
  - rewrite dkeys_set_in by exact I. exact H.
  - rewrite dkeys_set_new by exact I. apply NoDup_app_comm || idtac.
    rewrite <- rev_involutive at 1. apply NoDup_rev. rewrite rev_app_distr. simpl.
    constructor; [rewrite <- in_rev; exact I|apply NoDup_rev; exact H].
Qed.

(** building a dict from a list of pairs with distinct keys keeps the list *)
Lemma dset_fold_nodup {V} (l : list (string * V)) : forall d, NoDup (map fst (d ++ l)) ->
  fold_left (fun d kv => dict_set d (fst kv) (snd kv)) l d = d ++ l.
Proof.
  induction l as [|[k v] l IH]; intros d H; simpl; [rewrite app_nil_r; reflexivity|].
  rewrite dset_new.
  - rewrite IH; rewrite <- app_assoc; [reflexivity|exact H].
  - rewrite map_app in H. simpl in H. apply NoDup_remove_2 in H. intros I. apply H. apply in_or_app. auto.
Qed.
