From Verif Require Import Base StochModel StochModelSpec StochModelProofs LimitState LimitStateSpec.
From Coq Require Import ZArith Permutation.

(** *** keyword binding *)
Definition kwlist (i : nat) (vars : list (string * rv)) (cols : list (list R)) : kwargs :=
  map (fun jv => (fst (snd jv), row (fst jv) cols)) (combine (seq i (length vars)) vars).

Lemma kwlist_keys i vars cols : map fst (kwlist i vars cols) = map fst vars.
Proof.
  unfold kwlist. revert i. induction vars as [|[n d] vars IH]; intros i; [reflexivity|].
  simpl. f_equal. apply IH.
Qed.

Lemma bind_vars_ok nrv cols vars : forall i d,
  NoDup (map fst d ++ map fst vars) -> (i + length vars <= nrv)%nat ->
  bind_vars nrv i vars cols d = Ok (d ++ kwlist i vars cols).
Proof.
  induction vars as [|[n r] vars IH]; intros i d Hnd Hi; simpl.
  - unfold kwlist. simpl. rewrite app_nil_r. reflexivity.
  - simpl in Hi. destruct (Nat.ltb_spec i nrv); [|lia].
    assert (Hn : ~ In n (map fst d)).
    { simpl in Hnd. apply NoDup_remove_2 in Hnd. rewrite in_app_iff in Hnd. tauto. }
    rewrite dict_set_fresh by exact Hn.
    rewrite IH; [|rewrite map_app; simpl; rewrite <- app_assoc; exact Hnd|lia].
    rewrite <- app_assoc. reflexivity.
Qed.

Lemma bind_consts_ok nc consts : forall d,
  NoDup (map fst d ++ map fst consts) ->
  bind_consts nc consts d = d ++ map (fun cv => (fst cv, repeat (snd cv) nc)) consts.
Proof.
  induction consts as [|[c v] consts IH]; intros d Hnd; simpl.
  - rewrite app_nil_r. reflexivity.
  - assert (Hn : ~ In c (map fst d)).
    { simpl in Hnd. apply NoDup_remove_2 in Hnd. rewrite in_app_iff in Hnd. tauto. }
    rewrite dict_set_fresh by exact Hn.
    rewrite IH; [|rewrite map_app; simpl; rewrite <- app_assoc; exact Hnd].
    rewrite <- app_assoc. reflexivity.
Qed.

Lemma names_perm acc :
  Permutation (map rv_name (dists_of acc) ++ map fst (consts_of acc)) (names_of acc).
Proof.
  induction acc as [|o acc IH]; [constructor|].
  destruct o as [d|n v|]; unfold dists_of, consts_of, names_of; simpl flat_map; simpl map; simpl app.
  - constructor. exact IH.
  - eapply Permutation_trans; [|apply perm_skip; exact IH].
    apply Permutation_sym, Permutation_middle.
  - exact IH.
Qed.

Lemma vars_keys h : map fst (sm_variables (sm_run h)) = map rv_name (dists_of (accepted h)).
Proof.
  destruct (reg_inv h) as (_ & _ & _ & -> & _). rewrite map_map. reflexivity.
Qed.

Lemma keys_nodup h :
  NoDup (map fst (sm_variables (sm_run h)) ++ map fst (sm_consts (sm_run h))).
Proof.
  rewrite vars_keys. destruct (reg_inv h) as (Hn & Hnd & _ & _ & ->).
  eapply Permutation_NoDup; [apply Permutation_sym, names_perm|]. rewrite <- Hn. exact Hnd.
Qed.

Lemma NoDup_app_l {A} (l1 l2 : list A) : NoDup (l1 ++ l2) -> NoDup l1.
Proof.
  induction l1 as [|a l1 IH]; intros H; [constructor|].
  simpl in H. inversion H; subst. constructor; [rewrite in_app_iff in *; tauto|apply IH; assumption].
Qed.

Definition kwfull (h : list smop) (cols : list (list R)) : kwargs :=
  kwlist 0 (sm_variables (sm_run h)) cols ++
  map (fun cv => (fst cv, repeat (snd cv) (length cols))) (sm_consts (sm_run h)).

Lemma vars_len h : length (sm_variables (sm_run h)) = ndists h.
Proof. destruct (reg_inv h) as (_ & _ & _ & -> & _). rewrite map_length. reflexivity. Qed.

Lemma lsf_kwargs_ok h nrv cols : (ndists h <= nrv)%nat ->
  lsf_kwargs (sm_run h) nrv cols = Ok (kwfull h cols).
Proof.
  intros Hn. unfold lsf_kwargs.
  pose proof (keys_nodup h) as Hnd.
  rewrite bind_vars_ok.
  - simpl app. rewrite bind_consts_ok; [reflexivity|]. rewrite kwlist_keys. exact Hnd.
  - simpl. eapply NoDup_app_l. exact Hnd.
  - rewrite vars_len. simpl. exact Hn.
Qed.

Lemma dict_get_in {V} (d : list (string * V)) k v :
  NoDup (map fst d) -> In (k, v) d -> dict_get d k = Some v.
Proof.
  induction d as [|[k' v'] d IH]; simpl; intros Hnd H; [tauto|].
  inversion Hnd; subst. destruct H as [E|H].
  - inversion E; subst. rewrite String.eqb_refl. reflexivity.
  - destruct (String.eqb_spec k k') as [->|]; [|apply IH; assumption].
    exfalso. apply H2. change k' with (fst (k', v)). apply in_map. exact H.
Qed.

Lemma kwlist_in vars cols : forall i j n d,
  nth_error vars j = Some (n, d) -> In (n, row (i + j) cols) (kwlist i vars cols).
Proof.
  induction vars as [|[n0 d0] vars IH]; intros i j n d H; [destruct j; discriminate|].
  destruct j as [|j].
  - inversion H; subst. rewrite Nat.add_0_r. left. reflexivity.
  - right. rewrite Nat.add_succ_r. apply (IH (S i) j n d). exact H.
Qed.

Lemma kwfull_keys h cols :
  map fst (kwfull h cols) = map fst (sm_variables (sm_run h)) ++ map fst (sm_consts (sm_run h)).
Proof.
  unfold kwfull. rewrite map_app, kwlist_keys, map_map. reflexivity.
Qed.

Lemma argument_binding h nrv cols : (ndists h <= nrv)%nat ->
  exists kw, lsf_kwargs (sm_run h) nrv cols = Ok kw /\
    Permutation (dict_keys kw) (sm_names (sm_run h)) /\ NoDup (dict_keys kw) /\
    (forall i d, nth_error (dists_of (accepted h)) i = Some d ->
       dict_get kw (rv_name d) = Some (map (fun p => nth i p 0) cols)) /\
    (forall n v, In (n, v) (consts_of (accepted h)) ->
       dict_get kw n = Some (repeat v (length cols))).
Proof.
  intros Hn. exists (kwfull h cols).
  split; [apply lsf_kwargs_ok; exact Hn|].
  destruct (reg_inv h) as (En & Hnd & Hm & Hv & Hc).
  assert (K : NoDup (map fst (kwfull h cols))) by (rewrite kwfull_keys; apply keys_nodup).
  split; [|split; [exact K|split]].
  - unfold dict_keys. rewrite kwfull_keys, vars_keys, Hc, En. apply names_perm.
  - intros i d Hd. apply dict_get_in; [exact K|]. unfold kwfull. apply in_or_app. left.
    change i with (0 + i)%nat. apply kwlist_in with (d := d). rewrite Hv.
    rewrite nth_error_map, Hd. reflexivity.
  - intros n v Hin. apply dict_get_in; [exact K|]. unfold kwfull. apply in_or_app. right.
    rewrite Hc. apply in_map_iff. exists (n, v). auto.
Qed.

(** a call passes exactly that dictionary and returns the value part *)
Lemma compute_lsf_ok h nrv cols expr out : (ndists h <= nrv)%nat ->
  expr (kwfull h cols) = Ok out ->
  compute_lsf (sm_run h) expr nrv cols false = Ok (value_of out, []).
Proof.
  intros Hn H. unfold compute_lsf. rewrite lsf_kwargs_ok by exact Hn. rewrite H.
  destruct out; reflexivity.
Qed.

Lemma row_nth j cols c : (c < length cols)%nat -> nth c (row j cols) 0 = nth j (nth c cols []) 0.
Proof.
  intros Hc. unfold row. rewrite (nth_indep _ 0 ((fun p => nth j p 0) [])).
  - rewrite (map_nth (fun p => nth j p 0)). reflexivity.
  - rewrite map_length. exact Hc.
Qed.

Lemma skipn_S_tl {A} (p : list A) : forall i, skipn (S i) p = tl (skipn i p).
Proof.
  induction p as [|a p IH]; intros i; [destruct i; reflexivity|].
  destruct i as [|i]; [reflexivity|]. apply IH.
Qed.

Lemma kwlist_at vars cols c (p : list R) : (c < length cols)%nat -> nth c cols [] = p ->
  forall i, (i + length vars = length p)%nat ->
  map (fun kv => (fst kv, nth c (snd kv) 0)) (kwlist i vars cols) =
  combine (map fst vars) (skipn i p).
Proof.
  intros Hc Hp. induction vars as [|[n d] vars IH]; intros i Hi; [reflexivity|].
  simpl in Hi. unfold kwlist. cbn [length seq combine map fst snd].
  rewrite row_nth by exact Hc. rewrite Hp.
  destruct (skipn i p) as [|a r] eqn:E.
  - exfalso. assert (length (skipn i p) = 0)%nat by (rewrite E; reflexivity).
    rewrite skipn_length in H. lia.
  - cbn [combine]. assert (Ea : nth i p 0 = a).
    { rewrite <- (firstn_skipn i p), E. rewrite app_nth2; rewrite firstn_length_le by lia; [|lia].
      replace (i - i)%nat with 0%nat by lia. reflexivity. }
    rewrite Ea. f_equal.
    assert (Er : skipn (S i) p = r).
    { rewrite skipn_S_tl, E. reflexivity. }
    rewrite <- Er. apply (IH (S i)). lia.
Qed.

Lemma repeat_nth v n c : (c < n)%nat -> nth c (repeat v n) 0 = v.
Proof.
  revert c; induction n as [|n IH]; intros c Hc; [lia|].
  destruct c; simpl; [reflexivity|apply IH; lia].
Qed.

Lemma kwfull_at h cols c : (c < length cols)%nat ->
  length (nth c cols []) = ndists h ->
  map (fun kv => (fst kv, nth c (snd kv) 0)) (kwfull h cols) = args_at h (nth c cols []).
Proof.
  intros Hc Hl. unfold kwfull, args_at. rewrite map_app. f_equal.
  - rewrite (kwlist_at _ _ _ (nth c cols []) Hc eq_refl 0); [|rewrite vars_len; lia].
    rewrite vars_keys. reflexivity.
  - destruct (reg_inv h) as (_ & _ & _ & _ & ->). rewrite map_map.
    rewrite <- map_id. apply map_ext_in. intros [n v] _. cbn [fst snd]. rewrite repeat_nth by exact Hc.
    reflexivity.
Qed.

Lemma map_seq_nth {A B} (f : A -> B) (l : list A) d :
  map (fun c => f (nth c l d)) (seq 0 (length l)) = map f l.
Proof.
  induction l as [|a l IH]; [reflexivity|].
  simpl. f_equal. rewrite <- seq_shift, map_map. exact IH.
Qed.

Lemma kwfull_lengths h cols k v : In (k, v) (kwfull h cols) -> length v = length cols.
Proof.
  unfold kwfull. rewrite in_app_iff. intros [H|H].
  - unfold kwlist in H. apply in_map_iff in H. destruct H as [[j [n d]] [E _]].
    inversion E; subst. unfold row. rewrite map_length. reflexivity.
  - apply in_map_iff in H. destruct H as [[n w] [E _]]. inversion E; subst. apply repeat_length.
Qed.

Lemma kwfull_nonnil h cols : (1 <= ndists h)%nat -> kwfull h cols <> [].
Proof.
  intros H E. pose proof (kwfull_keys h cols) as K. rewrite E in K.
  assert (L : length (map fst (sm_variables (sm_run h)) ++ map fst (sm_consts (sm_run h))) = 0%nat)
    by (rewrite <- K; reflexivity).
  rewrite app_length, map_length, vars_len in L. lia.
Qed.

Lemma compute_pointwise h expr f cols :
  pointwise expr f -> (1 <= ndists h)%nat -> points_ok (ndists h) cols ->
  compute_lsf (sm_run h) expr (ndists h) cols false = Ok (Arr (map (fun p => f (args_at h p)) cols), []).
Proof.
  intros Hp Hn Hc.
  destruct (Hp (kwfull h cols) (length cols)) as [out [Ho Hv]].
  - apply kwfull_nonnil. exact Hn.
  - apply kwfull_lengths.
  - rewrite (compute_lsf_ok h _ cols expr out) by (auto; lia). rewrite Hv. f_equal. f_equal. f_equal.
    rewrite <- (map_seq_nth (fun p => f (args_at h p)) cols []).
    apply map_ext_in. intros c Hin. apply in_seq in Hin. f_equal. apply kwfull_at; [lia|].
    apply Hc. apply nth_In. lia.
Qed.

(** *** block loop *)
Definition good_assign (assign : nat -> nparr -> result (list R)) : Prop :=
  forall l, assign (length l) (Arr l) = Ok l.

Lemma broadcast_arr l : broadcast (length l) (Arr l) = Ok l.
Proof.
  destruct l as [|a [|b l]]; simpl; try reflexivity. rewrite Nat.eqb_refl. reflexivity.
Qed.
Lemma good_plain : good_assign assign_plain.
Proof. intros l. apply broadcast_arr. Qed.
Lemma good_squeeze : good_assign assign_squeeze.
Proof. intros l. apply broadcast_arr. Qed.

Lemma write_at_app (done vals : list R) n :
  (length vals <= n)%nat ->
  write_at (length done) vals (done ++ repeat 0 n) = (done ++ vals) ++ repeat 0 (n - length vals).
Proof.
  intros Hn. unfold write_at. rewrite firstn_app, firstn_all, Nat.sub_diag. cbn [firstn].
  rewrite app_nil_r. rewrite <- app_assoc. f_equal. f_equal.
  rewrite skipn_app. rewrite (skipn_all2 done) by lia. cbn [app].
  replace (length done + length vals - length done)%nat with (length vals) by lia.
  clear. revert n; induction vals as [|v vals IH]; intros n; [rewrite Nat.sub_0_r; reflexivity|].
  destruct n as [|n]; [reflexivity|]. simpl. apply IH.
Qed.

Definition trace_ok (bs : Z) (tr : list (list (list R))) : Prop :=
  forall b, In b tr -> (1 <= length b)%nat /\ (Z.of_nat (length b) <= bs)%Z.

Lemma block_loop_spec h expr f assign x :
  pointwise expr f -> (1 <= ndists h)%nat -> points_ok (ndists h) x -> good_assign assign ->
  forall fuel kn bs0 bs tr, (kn <= length x)%nat -> (1 <= bs <= bs0)%Z ->
  concat tr = firstn kn x -> trace_ok bs0 tr ->
  (length x - kn < fuel)%nat ->
  exists tr', block_loop fuel (sm_run h) expr (ndists h) assign x bs (Z.of_nat kn)
     (map (fun p => f (args_at h p)) (firstn kn x) ++ repeat 0 (length x - kn)) tr =
     (LDone (map (fun p => f (args_at h p)) x), tr') /\ concat tr' = x /\ trace_ok bs0 tr'.
Proof.
  intros Hp Hn Hx Ha fuel.
  set (F := fun p => f (args_at h p)).
  induction fuel as [|fuel IH]; intros kn bs0 bs tr Hk Hbs Htr Htok Hf; [lia|].
  cbn [block_loop].
  destruct (Z.ltb_spec (Z.of_nat kn) (Z.of_nat (length x))) as [Hlt|Hge].
  - set (bs' := Z.min bs (Z.of_nat (length x) - Z.of_nat kn)).
    set (b := Z.to_nat bs').
    assert (Hb : (1 <= b)%nat /\ (kn + b <= length x)%nat /\ Z.of_nat b = bs') by lia.
    rewrite Nat2Z.id. set (blk := firstn b (skipn kn x)).
    assert (Hbl : length blk = b).
    { unfold blk. rewrite firstn_length_le; [reflexivity|]. rewrite skipn_length. lia. }
    rewrite (compute_pointwise h expr f blk Hp Hn).
    2:{ intros p Hin. apply Hx. unfold blk in Hin.
        assert (Hin' : In p (skipn kn x)) by (rewrite <- (firstn_skipn b (skipn kn x)); apply in_or_app; auto).
        rewrite <- (firstn_skipn kn x). apply in_or_app. auto. }
    change (map (fun p => f (args_at h p)) blk) with (map F blk).
    replace (length blk) with (length (map F blk)) by apply map_length.
    rewrite Ha.
    replace (Z.of_nat kn + bs')%Z with (Z.of_nat (kn + b)) by lia.
    assert (Hkb : firstn (kn + b) x = firstn kn x ++ blk).
    { unfold blk. rewrite <- (firstn_skipn kn x) at 1. rewrite firstn_app.
      rewrite firstn_length_le by lia. replace (kn + b - kn)%nat with b by lia.
      f_equal. rewrite firstn_firstn. f_equal. lia. }
    assert (Ew : write_at kn (map F blk) (map F (firstn kn x) ++ repeat 0 (length x - kn)) =
            map F (firstn (kn + b) x) ++ repeat 0 (length x - (kn + b))).
    { replace kn with (length (map F (firstn kn x))) at 1
        by (rewrite map_length, firstn_length_le; lia).
      rewrite write_at_app by (rewrite map_length; lia).
      rewrite Hkb, map_app, map_length, Hbl. f_equal. f_equal. lia. }
    rewrite Ew.
    apply (IH (kn + b)%nat bs0 bs').
    + lia.
    + lia.
    + rewrite concat_app. simpl. rewrite app_nil_r, Htr, Hkb. reflexivity.
    + intros b' Hin. apply in_app_or in Hin. destruct Hin as [Hin|[<-|[]]]; [apply Htok; exact Hin|].
      rewrite Hbl. lia.
    + lia.
  - assert (kn = length x) by lia. subst kn. rewrite firstn_all, Nat.sub_diag, app_nil_r.
    exists tr. split; [reflexivity|]. split; [|exact Htok]. rewrite Htr, firstn_all. reflexivity.
Qed.

Lemma block_loop_init h expr f assign x fuel bs :
  pointwise expr f -> (1 <= ndists h)%nat -> points_ok (ndists h) x -> good_assign assign ->
  (1 <= bs)%Z -> (length x < fuel)%nat ->
  exists tr', block_loop fuel (sm_run h) expr (ndists h) assign x bs 0 (repeat 0 (length x)) [] =
     (LDone (map (fun p => f (args_at h p)) x), tr') /\ concat tr' = x /\ trace_ok bs tr'.
Proof.
  intros Hp Hn Hx Ha Hbs Hf.
  destruct (block_loop_spec h expr f assign x Hp Hn Hx Ha fuel 0 bs bs []) as [tr [E H]];
    try lia; [reflexivity|intros b []|].
  exists tr. split; [|exact H]. rewrite <- E. simpl. rewrite Nat.sub_0_r. reflexivity.
Qed.

Lemma nogradient_spec h expr f x fuel bs :
  pointwise expr f -> (1 <= ndists h)%nat -> points_ok (ndists h) x -> (1 <= bs)%Z ->
  (length x < fuel)%nat ->
  let r := evaluate_nogradient fuel (sm_run h) expr bs (ndists h) x in
  ev_out r = ODone (map (fun p => f (args_at h p)) x) (repeat (repeat 0 (ndists h)) (length x)) /\
  ev_x r = x /\ concat (ev_trace r) = x /\
  (forall b, In b (ev_trace r) -> (1 <= length b)%nat /\ (Z.of_nat (length b) <= bs)%Z) /\
  sm_calls (ev_s r) = (sm_calls (sm_run h) + length x)%nat.
Proof.
  intros Hp Hn Hx Hbs Hf r. unfold r, evaluate_nogradient.
  destruct (block_loop_init h expr f assign_plain x fuel bs) as [tr [E [H1 H2]]]; auto using good_plain.
  rewrite E. cbn. auto.
Qed.

(** Block size 0 (or negative): for every fuel the loop is still running. *)
Lemma block_loop_zero s expr nrv assign x :
  (exists v, compute_lsf s expr nrv [] false = Ok (v, []) /\ exists vals, assign 0%nat v = Ok vals /\ vals = []) ->
  forall fuel bs k G tr, (bs <= 0)%Z -> (k < Z.of_nat (length x))%Z ->
  fst (block_loop fuel s expr nrv assign x bs k G tr) = LFuel.
Proof.
  intros [v [Hv [vals [Ha Hnil]]]].
  induction fuel as [|fuel IH]; intros bs k G tr Hbs Hk; [reflexivity|].
  cbn [block_loop]. destruct (Z.ltb_spec k (Z.of_nat (length x))); [|lia].
  replace (Z.to_nat (Z.min bs (Z.of_nat (length x) - k))) with 0%nat by lia.
  cbn [firstn]. rewrite Hv. cbn [length]. rewrite Ha. apply IH; lia.
Qed.

Lemma nogradient_diverges h expr f x bs :
  pointwise expr f -> (1 <= ndists h)%nat -> x <> [] -> (bs <= 0)%Z ->
  forall fuel, ev_out (evaluate_nogradient fuel (sm_run h) expr bs (ndists h) x) = OFuel.
Proof.
  intros Hp Hn Hx Hbs fuel. unfold evaluate_nogradient.
  assert (L : (0 < Z.of_nat (length x))%Z) by (destruct x; [congruence|simpl; lia]).
  pose proof (block_loop_zero (sm_run h) expr (ndists h) assign_plain x) as Z0.
  destruct (block_loop fuel _ _ _ _ _ _ _ _ _) as [o tr] eqn:E.
  assert (o = LFuel) as ->; [|reflexivity].
  rewrite <- (Z0) with (fuel := fuel) (bs := bs) (k := 0%Z) (G := repeat 0 (length x)) (tr := []); auto.
  - rewrite E. reflexivity.
  - exists (Arr []). split; [|exists []; split; reflexivity].
    apply (compute_pointwise h expr f []); auto. intros p [].
Qed.

(** *** forward differences at one point *)
Lemma upd_length i g p : length (upd i g p) = length p.
Proof.
  unfold upd. destruct (nth_error p i) eqn:E; [|reflexivity].
  assert (i < length p)%nat by (apply nth_error_Some; congruence).
  rewrite app_length, firstn_length_le by lia. cbn [length]. rewrite skipn_length. lia.
Qed.

Lemma upd_replace i g : forall p, upd i g p = replace_nth i (g (nth i p 0)) p.
Proof.
  induction i as [|i IH]; intros [|a p]; simpl; try reflexivity.
  unfold upd in *. simpl. specialize (IH p).
  destruct (nth_error p i) eqn:E.
  - simpl. f_equal. exact IH.
  - f_equal. exact IH.
Qed.

Lemma replace_nth_nth j v p i : nth i (replace_nth j v p) 0 =
  if Nat.eqb i j then (if Nat.ltb i (length p) then v else 0) else nth i p 0.
Proof.
  revert j i; induction p as [|a p IH]; intros j i; simpl.
  - destruct j; destruct i; simpl; try reflexivity; destruct (Nat.eqb _ _); reflexivity.
  - destruct j as [|j]; destruct i as [|i]; simpl; try reflexivity.
    rewrite IH. reflexivity.
Qed.

Lemma replace_nth_length j v p : length (replace_nth j v p) = length p.
Proof. revert j; induction p as [|a p IH]; intros [|j]; simpl; auto. Qed.

(** the columns of allx before step j: column 0 is p, column i+1 (i<j) has its
    own component shifted, the rest are still copies of p *)
Definition steps (marg : list rv) (ffdpara : R) : list R := map (fun d => rv_stdv d / ffdpara) marg.

Definition shifted (p hs : list R) (j : nat) : list R :=
  (* p with components < j incremented *)
  map (fun i => nth i p 0 + (if Nat.ltb i j then nth i hs 0 else 0)) (seq 0 (length p)).

Definition cols_at (p hs : list R) (j : nat) : list (list R) :=
  p :: map (fun i => if Nat.ltb i j then replace_nth i (nth i p 0 + nth i hs 0) p else p) (seq 0 (length p)).

Lemma list_eq_nth (l1 l2 : list R) :
  length l1 = length l2 -> (forall i, (i < length l1)%nat -> nth i l1 0 = nth i l2 0) -> l1 = l2.
Proof. intros H1 H2. apply (nth_ext _ _ 0 0); assumption. Qed.

Lemma nth_map_seq {B} (f : nat -> B) n i d : (i < n)%nat -> nth i (map f (seq 0 n)) d = f i.
Proof.
  intros Hi. rewrite (nth_indep _ d (f 0%nat)) by (rewrite map_length, seq_length; exact Hi).
  rewrite map_nth, seq_nth by exact Hi. reflexivity.
Qed.

Lemma shifted_0 p hs : shifted p hs 0 = p.
Proof.
  apply list_eq_nth; [unfold shifted; rewrite map_length, seq_length; reflexivity|].
  intros i Hi. unfold shifted in *. rewrite map_length, seq_length in Hi.
  rewrite nth_map_seq by exact Hi. simpl. lra.
Qed.

Lemma shifted_length p hs j : length (shifted p hs j) = length p.
Proof. unfold shifted. rewrite map_length, seq_length. reflexivity. Qed.

Lemma shifted_step p hs j : (j < length p)%nat ->
  upd j (fun v => v + nth j hs 0) (shifted p hs j) = shifted p hs (S j).
Proof.
  intros Hj. rewrite upd_replace. apply list_eq_nth.
  - rewrite replace_nth_length, !shifted_length. reflexivity.
  - intros i Hi. rewrite replace_nth_length, shifted_length in Hi.
    rewrite replace_nth_nth, shifted_length. unfold shifted.
    rewrite !nth_map_seq by assumption.
    destruct (Nat.eqb_spec i j) as [->|Hne].
    + destruct (Nat.ltb_spec j (length p)); [|lia].
      destruct (Nat.ltb_spec j j); [lia|]. destruct (Nat.ltb_spec j (S j)); [|lia]. lra.
    + destruct (Nat.ltb_spec i j), (Nat.ltb_spec i (S j)); try lia; reflexivity.
Qed.

Lemma map_seq_update {B} (f g : nat -> B) n j : (j < n)%nat ->
  (forall i, (i < n)%nat -> i <> j -> f i = g i) ->
  firstn j (map f (seq 0 n)) ++ g j :: skipn (S j) (map f (seq 0 n)) = map g (seq 0 n).
Proof.
  intros Hj H.
  assert (E : seq 0 n = seq 0 j ++ j :: seq (S j) (n - S j)).
  { replace n with (j + S (n - S j))%nat at 1 by lia. rewrite seq_app. reflexivity. }
  rewrite E, !map_app. cbn [map].
  assert (L : length (map f (seq 0 j)) = j) by (rewrite map_length, seq_length; reflexivity).
  rewrite firstn_app, L, Nat.sub_diag. cbn [firstn]. rewrite app_nil_r.
  rewrite (firstn_all2 (map f (seq 0 j))) by lia.
  rewrite skipn_app, L. rewrite (skipn_all2 (map f (seq 0 j))) by lia.
  replace (S j - j)%nat with 1%nat by lia. cbn [skipn app].
  f_equal; [|f_equal]; apply map_ext_in; intros i Hin; apply in_seq in Hin; apply H; lia.
Qed.

Lemma cols_step p hs j : (j < length p)%nat ->
  set_cell j (j + 1 + 0 * (1 + length p)) (nth j (shifted p hs (S j)) 0) (cols_at p hs j) = cols_at p hs (S j).
Proof.
  intros Hj. unfold set_cell, cols_at. replace (j + 1 + 0 * (1 + length p))%nat with (S j) by lia.
  cbn [nth_error].
  set (f := fun i => if Nat.ltb i j then replace_nth i (nth i p 0 + nth i hs 0) p else p).
  set (g := fun i => if Nat.ltb i (S j) then replace_nth i (nth i p 0 + nth i hs 0) p else p).
  assert (En : nth_error (map f (seq 0 (length p))) j = Some p).
  { rewrite (nth_error_nth' _ p) by (rewrite map_length, seq_length; exact Hj).
    rewrite nth_map_seq by exact Hj. unfold f. destruct (Nat.ltb_spec j j); [lia|reflexivity]. }
  rewrite En. cbn [firstn skipn app]. f_equal.
  rewrite <- (map_seq_update f g (length p) j Hj).
  - f_equal. f_equal. rewrite upd_replace. unfold g.
    destruct (Nat.ltb_spec j (S j)); [|lia]. f_equal.
    unfold shifted. rewrite nth_map_seq by exact Hj. destruct (Nat.ltb_spec j (S j)); [reflexivity|lia].
  - intros i Hi Hne. unfold f, g. destruct (Nat.ltb_spec i j), (Nat.ltb_spec i (S j)); try lia; reflexivity.
Qed.

Lemma steps_nth marg ffdpara j d : nth_error marg j = Some d ->
  nth j (steps marg ffdpara) 0 = rv_stdv d / ffdpara.
Proof.
  intros H. unfold steps. apply nth_error_nth. rewrite nth_error_map, H. reflexivity.
Qed.

Lemma ffd_perturb_spec marg ffdpara p : length marg = length p ->
  let hs := steps marg ffdpara in
  forall k j, (j + k = length p)%nat ->
  ffd_perturb k j marg ffdpara (length p) [shifted p hs j] (cols_at p hs j) (firstn j hs) =
  (Ok (cols_at p hs (length p), hs), [shifted p hs (length p)]).
Proof.
  intros Hm hs. assert (Hhs : length hs = length p) by (unfold hs, steps; rewrite map_length; exact Hm).
  induction k as [|k IH]; intros j Hj.
  - replace j with (length p) by lia. cbn [ffd_perturb].
    rewrite firstn_all2 by lia. reflexivity.
  - cbn [ffd_perturb]. destruct (nth_error marg j) as [d|] eqn:E.
    2:{ apply nth_error_None in E. lia. }
    assert (Hh : rv_stdv d / ffdpara = nth j hs 0) by (symmetry; apply steps_nth; exact E).
    rewrite Hh. cbn [map length seq fold_left nth].
    rewrite shifted_step by lia. rewrite cols_step by lia.
    assert (Ef : firstn j hs ++ [nth j hs 0] = firstn (S j) hs).
    { assert (Hjl : (j < length hs)%nat) by lia.
      clear - Hjl. revert j Hjl. induction hs as [|a hs IHh]; intros j Hj; [simpl in Hj; lia|].
      destruct j as [|j]; [reflexivity|]. simpl. f_equal. apply IHh. simpl in Hj. lia. }
    rewrite Ef. apply IH. lia.
Qed.

Lemma repeat_cols p hs : repeat p (1 * (1 + length p)) = cols_at p hs 0.
Proof.
  unfold cols_at. rewrite Nat.mul_1_l. simpl. f_equal.
  generalize (seq_length (length p) 0). generalize (seq 0 (length p)). generalize (length p).
  intros n l <-. induction l as [|a l IH]; simpl; [reflexivity|]. f_equal. exact IH.
Qed.

Lemma cols_points_ok p hs j : points_ok (length p) (cols_at p hs j).
Proof.
  intros q [<-|H]; [reflexivity|]. apply in_map_iff in H. destruct H as [i [<- _]].
  destruct (Nat.ltb i j); [apply replace_nth_length|reflexivity].
Qed.

Lemma cols_length p hs j : length (cols_at p hs j) = S (length p).
Proof. unfold cols_at. simpl. rewrite map_length, seq_length. reflexivity. Qed.

Lemma marg_len h : length (sm_marg (sm_run h)) = ndists h.
Proof. destruct (reg_inv h) as (_ & _ & -> & _). reflexivity. Qed.

Lemma ffd_one_point h expr f p bs ffdpara fuel :
  pointwise expr f -> (1 <= ndists h)%nat -> length p = ndists h -> (1 <= bs)%Z ->
  (S (length p) < fuel)%nat ->
  let r := evaluate_ffd fuel (sm_run h) expr bs ffdpara (ndists h) [p] in
  let F := fun q => f (args_at h q) in
  let st := fun j => nth j (map (fun d => rv_stdv d / ffdpara) (dists_of (accepted h))) 0 in
  ev_out r = ODone [F p]
     [map (fun j => (F (replace_nth j (nth j p 0 + st j) p) - F p) / st j) (seq 0 (ndists h))] /\
  ev_x r = [map (fun j => nth j p 0 + st j) (seq 0 (ndists h))] /\
  concat (ev_trace r) = p :: map (fun j => replace_nth j (nth j p 0 + st j) p) (seq 0 (ndists h)) /\
  sm_calls (ev_s r) = (sm_calls (sm_run h) + (1 + ndists h))%nat.
Proof.
  intros Hp Hn Hl Hbs Hf r F st. unfold r, evaluate_ffd. cbn [length].
  rewrite <- Hl.
  set (hs := steps (sm_marg (sm_run h)) ffdpara).
  rewrite (repeat_cols p hs).
  assert (Hm : length (sm_marg (sm_run h)) = length p) by (rewrite marg_len; auto).
  pose proof (ffd_perturb_spec (sm_marg (sm_run h)) ffdpara p Hm (length p) 0) as PP.
  cbv zeta in PP. fold hs in PP. rewrite shifted_0 in PP. cbn [firstn] in PP.
  rewrite PP by lia. clear PP.
  assert (Est : forall j, st j = nth j hs 0).
  { intros j. unfold st, hs, steps. destruct (reg_inv h) as (_ & _ & -> & _). reflexivity. }
  destruct (block_loop_init h expr f assign_squeeze (cols_at p hs (length p)) fuel bs) as [tr [E [H1 H2]]];
    auto using good_squeeze; try (rewrite <- Hl; apply cols_points_ok); try (rewrite cols_length; lia).
  rewrite <- Hl in E. replace (repeat 0 (1 * (1 + length p))) with (repeat 0 (length (cols_at p hs (length p))))
    by (rewrite cols_length; f_equal; lia).
  rewrite E. cbn [ev_out ev_x ev_trace ev_s].
  change (map (fun p0 => f (args_at h p0)) (cols_at p hs (length p))) with (map F (cols_at p hs (length p))).
  assert (Ecol : forall j, (j < length p)%nat ->
    nth (S j) (map F (cols_at p hs (length p))) 0 = F (replace_nth j (nth j p 0 + st j) p)).
  { intros j Hj. unfold cols_at. cbn [map nth]. rewrite map_map. rewrite nth_map_seq by exact Hj.
    destruct (Nat.ltb_spec j (length p)); [|lia]. rewrite Est. reflexivity. }
  repeat split.
  - cbn [seq map]. f_equal. f_equal. apply map_ext_in. intros j Hj. apply in_seq in Hj.
    replace (j + 1 + 0 * (1 + length p))%nat with (S j) by lia.
    rewrite Ecol by lia. rewrite Est. reflexivity.
  - f_equal. unfold shifted. apply map_ext_in. intros j Hj. apply in_seq in Hj.
    destruct (Nat.ltb_spec j (length p)); [|lia]. rewrite Est. reflexivity.
  - rewrite H1. unfold cols_at. f_equal. apply map_ext_in. intros j Hj. apply in_seq in Hj.
    destruct (Nat.ltb_spec j (length p)); [|lia]. rewrite Est. reflexivity.
  - cbn [addCallFunction sm_calls]. lia.
Qed.

Lemma ffd_many_points fuel s expr bs ffdpara nrv x :
  (1 <= nrv)%nat -> (2 <= length x)%nat ->
  let r := evaluate_ffd fuel s expr bs ffdpara nrv x in
  ev_out r = ORaise EValue /\ ev_trace r = [] /\ ev_x r = x /\ ev_s r = s.
Proof.
  intros Hn Hx. unfold evaluate_ffd. destruct x as [|p [|q x]]; simpl in Hx; try lia.
  destruct (Nat.eqb_spec (length (p :: q :: x)) (length (p :: q :: x) * (1 + nrv))) as [E|E].
  - exfalso. simpl length in E. nia.
  - repeat split.
Qed.

(** affine functions *)
Lemma replace_sum a v : forall n p j, (j < n)%nat -> length p = n ->
  fsum n (fun i => a i * nth i (replace_nth j v p) 0) =
  fsum n (fun i => a i * nth i p 0) + a j * (v - nth j p 0).
Proof.
  intros n p j Hj Hl.
  assert (E : fsum n (fun i => a i * nth i (replace_nth j v p) 0 - a i * nth i p 0) = a j * (v - nth j p 0)).
  { rewrite (fsum_single n j); [|exact Hj|].
    - rewrite replace_nth_nth, Nat.eqb_refl. destruct (Nat.ltb_spec j (length p)); [ring|lia].
    - intros i Hi Hne. rewrite replace_nth_nth. destruct (Nat.eqb_spec i j); [lia|]. ring. }
  rewrite fsum_minus in E. lra.
Qed.

Lemma ffd_affine h expr f p bs ffdpara fuel (c : R) (a : nat -> R) :
  pointwise expr f -> (1 <= ndists h)%nat -> length p = ndists h -> (1 <= bs)%Z ->
  (S (length p) < fuel)%nat ->
  (forall d, In d (dists_of (accepted h)) -> rv_stdv d <> 0) -> ffdpara <> 0 ->
  (forall q, length q = ndists h -> f (args_at h q) = c + fsum (ndists h) (fun i => a i * nth i q 0)) ->
  ev_out (evaluate_ffd fuel (sm_run h) expr bs ffdpara (ndists h) [p]) =
    ODone [f (args_at h p)] [map a (seq 0 (ndists h))].
Proof.
  intros Hp Hn Hl Hbs Hf Hs Hff Haff.
  destruct (ffd_one_point h expr f p bs ffdpara fuel Hp Hn Hl Hbs Hf) as [-> _].
  f_equal. f_equal. apply map_ext_in. intros j Hj. apply in_seq in Hj.
  assert (Hst : nth j (map (fun d => rv_stdv d / ffdpara) (dists_of (accepted h))) 0 <> 0).
  { destruct (nth_error (dists_of (accepted h)) j) as [d|] eqn:E.
    - rewrite (nth_error_nth _ _ _ (eq_trans (nth_error_map (fun d => rv_stdv d / ffdpara) j _)
                (f_equal (option_map (fun d => rv_stdv d / ffdpara)) E))).
      apply nth_error_In in E. apply Hs in E. unfold Rdiv.
      apply Rmult_integral_contrapositive. split; [exact E|apply Rinv_neq_0_compat; exact Hff].
    - apply nth_error_None in E. unfold ndists in Hj. lia. }
  rewrite !Haff; [|exact Hl|rewrite replace_nth_length; exact Hl].
  rewrite replace_sum; [|lia|exact Hl]. field. exact Hst.
Qed.

(** *** ddm *)
Lemma ddm_one_point h expr p G g :
  length p = ndists h -> length g = ndists h ->
  expr (kwfull h [p]) = Ok (UTuple (Arr [G]) g) ->
  let r := evaluate_ddm (sm_run h) expr (ndists h) [p] in
  ev_out r = ODone [G] [g] /\ ev_x r = [p] /\ ev_trace r = [[p]] /\
  sm_calls (ev_s r) = (sm_calls (sm_run h) + 1)%nat.
Proof.
  intros Hp Hg He. unfold evaluate_ddm. cbn [length ddm_loop].
  unfold compute_lsf. rewrite lsf_kwargs_ok by lia. rewrite He. cbn [broadcast repeat].
  assert (Eg : assign_col (ndists h) g = Ok g).
  { unfold assign_col. destruct g as [|a [|b g]]; rewrite <- Hg; simpl; try reflexivity.
    rewrite Nat.eqb_refl. reflexivity. }
  rewrite Eg. cbn. auto.
Qed.

Lemma ddm_many_points s expr nrv p q x :
  let r := evaluate_ddm s expr nrv (p :: q :: x) in
  (exists e, ev_out r = ORaise e) /\ ev_x r = p :: q :: x /\ ev_s r = s.
Proof.
  unfold evaluate_ddm. cbn [ddm_loop].
  destruct (compute_lsf s expr nrv [p] true) as [[v g]|e]; [|cbn; eauto].
  destruct (broadcast (length (p :: q :: x)) v) as [G'|e]; [|cbn; eauto].
  destruct (assign_col nrv g) as [gc|e]; [|cbn; eauto].
  destruct (compute_lsf s expr nrv [q] true) as [[v' g']|e]; cbn; eauto.
Qed.

(** *** call accounting *)
Definition npoints (tr : list (list (list R))) : nat := length (concat tr).

Lemma ddm_loop_trace s expr nrv nx todo : forall k G grad tr G' grad' tr',
  ddm_loop k s expr nrv nx todo G grad tr = (Ok (G', grad'), tr') ->
  npoints tr' = (npoints tr + length todo)%nat.
Proof.
  induction todo as [|p todo IH]; intros k G grad tr G' grad' tr' H; cbn [ddm_loop] in H.
  - inversion H; subst. simpl. lia.
  - destruct (compute_lsf s expr nrv [p] true) as [[v g]|e]; [|discriminate].
    destruct k; [|discriminate].
    destruct (broadcast nx v) as [G1|e]; [|discriminate].
    destruct (assign_col nrv g) as [gc|e]; [|discriminate].
    apply IH in H. rewrite H. unfold npoints. rewrite concat_app, app_length. simpl. lia.
Qed.

Lemma block_loop_trace s expr nrv assign x : forall fuel bs k G tr G' tr',
  (0 <= k)%Z -> (0 < bs)%Z -> (k <= Z.of_nat (length x))%Z ->
  block_loop fuel s expr nrv assign x bs k G tr = (LDone G', tr') ->
  npoints tr' = (npoints tr + (length x - Z.to_nat k))%nat.
Proof.
  induction fuel as [|fuel IH]; intros bs k G tr G' tr' Hk0 Hbs Hk H; cbn [block_loop] in H; [discriminate|].
  destruct (Z.ltb_spec k (Z.of_nat (length x))).
  - destruct (compute_lsf s expr nrv _ false) as [[v g]|e]; [|discriminate].
    destruct (assign _ v) as [vals|e]; [|discriminate].
    apply IH in H; [|lia|lia|lia]. rewrite H. unfold npoints.
    rewrite concat_app, app_length. simpl. rewrite app_nil_r, firstn_length, skipn_length. lia.
  - inversion H; subst. lia.
Qed.

Lemma cells_length j v : forall cols c, length (set_cell j c v cols) = length cols.
Proof.
  intros cols c. unfold set_cell. destruct (nth_error cols c) eqn:E; [|reflexivity].
  assert (c < length cols)%nat by (apply nth_error_Some; congruence).
  rewrite app_length, firstn_length_le by lia. cbn [length]. rewrite skipn_length. lia.
Qed.

Lemma ffd_perturb_length marg ffdpara nrv : forall k j x allx allh allx' allh' x',
  ffd_perturb k j marg ffdpara nrv x allx allh = (Ok (allx', allh'), x') -> length allx' = length allx.
Proof.
  induction k as [|k IH]; intros j x allx allh allx' allh' x' H; cbn [ffd_perturb] in H.
  - inversion H; subst. reflexivity.
  - destruct (nth_error marg j) as [d|]; [|discriminate].
    apply IH in H. rewrite H. clear H.
    set (g := fun a m => set_cell j (j + 1 + m * (1 + nrv)) _ a).
    generalize (seq 0 (length x)). intros l. revert allx.
    induction l as [|m l IHl]; intros allx; [reflexivity|]. cbn [fold_left]. rewrite IHl.
    unfold g. apply cells_length.
Qed.

Lemma accounting fuel s expr o dm nrv x :
  (0 < o_block_size o)%Z ->
  let r := evaluate_lsf fuel s expr o dm nrv x in
  match ev_out r with
  | ODone _ _ => sm_calls (ev_s r) = (sm_calls s + npoints (ev_trace r))%nat
  | _ => ev_s r = s
  end.
Proof.
  intros Hbs. cbv zeta. unfold evaluate_lsf.
  destruct (o_multi_proc o =? 0)%Z; [reflexivity|].
  destruct (String.eqb _ "no").
  - unfold evaluate_nogradient.
    destruct (block_loop _ _ _ _ _ _ _ _ _ _) as [[G|e|] tr] eqn:E; cbn [ev_out ev_s ev_trace addCallFunction sm_calls]; try reflexivity.
    apply block_loop_trace in E; [|lia|exact Hbs|lia]. rewrite E. unfold npoints; cbn [concat length]. lia.
  - destruct (String.eqb _ "ddm").
    + unfold evaluate_ddm.
      destruct (ddm_loop _ _ _ _ _ _ _ _ _) as [[[G grad]|e] tr] eqn:E; cbn [ev_out ev_s ev_trace addCallFunction sm_calls]; try reflexivity.
      apply ddm_loop_trace in E. rewrite E. unfold npoints; cbn [concat length]. lia.
    + unfold evaluate_ffd.
      set (allx0 := match x with [p] => _ | _ => _ end).
      destruct allx0 as [a0|] eqn:Ea; [|reflexivity].
      destruct (ffd_perturb _ _ _ _ _ _ _ _) as [[[allx allh]|e] x'] eqn:Ep; [|reflexivity].
      destruct (block_loop _ _ _ _ _ _ _ _ _ _) as [[G|e|] tr] eqn:E; cbn [ev_out ev_s ev_trace addCallFunction sm_calls]; try reflexivity.
      apply block_loop_trace in E; [|lia|exact Hbs|lia]. rewrite E.
      apply ffd_perturb_length in Ep. rewrite Ep.
      assert (La : length a0 = (length x * (1 + nrv))%nat).
      { unfold allx0 in Ea. destruct x as [|p [|q x]].
        - simpl in Ea. inversion Ea. reflexivity.
        - assert (Er : a0 = repeat p (length [p] * (1 + nrv))) by congruence. rewrite Er. apply repeat_length.
        - destruct (Nat.eqb_spec (length (p :: q :: x)) (length (p :: q :: x) * (1 + nrv))); [|discriminate].
          inversion Ea; subst. assumption. }
      rewrite La. unfold npoints. cbn [concat length]. lia.
Qed.

(** the number of points per mode *)
Lemma accounting_counts fuel s expr o dm nrv x G grad :
  (0 < o_block_size o)%Z ->
  let r := evaluate_lsf fuel s expr o dm nrv x in
  ev_out r = ODone G grad ->
  sm_calls (ev_s r) =
    (sm_calls s +
      match dm with
      | Some _ => length x
      | None => if String.eqb (o_diff_mode o) "no" then length x
                else if String.eqb (o_diff_mode o) "ddm" then length x
                else length x * (1 + nrv)
      end)%nat.
Proof.
  intros Hbs. cbv zeta. unfold evaluate_lsf.
  destruct (o_multi_proc o =? 0)%Z; [discriminate|].
  assert (N : forall G grad, ev_out (evaluate_nogradient fuel s expr (o_block_size o) nrv x) = ODone G grad ->
     sm_calls (ev_s (evaluate_nogradient fuel s expr (o_block_size o) nrv x)) = (sm_calls s + length x)%nat).
  { unfold evaluate_nogradient. intros G0 g0.
    destruct (block_loop _ _ _ _ _ _ _ _ _ _) as [[G1|e|] tr]; cbn; try discriminate. reflexivity. }
  destruct dm as [m|]; [apply N|].
  destruct (String.eqb _ "no"); [apply N|].
  destruct (String.eqb _ "ddm").
  - unfold evaluate_ddm.
    destruct (ddm_loop _ _ _ _ _ _ _ _ _) as [[[G1 g1]|e] tr]; cbn; try discriminate. reflexivity.
  - unfold evaluate_ffd. set (allx0 := match x with [p] => _ | _ => _ end).
    destruct allx0; [|discriminate].
    destruct (ffd_perturb _ _ _ _ _ _ _ _) as [[[allx allh]|e] x']; [|discriminate].
    destruct (block_loop _ _ _ _ _ _ _ _ _ _) as [[G1|e|] tr]; cbn; try discriminate. reflexivity.
Qed.

(** a history of evaluations on one model; failed ones are caught *)
Record evreq := mkreq { rq_o : lsopts; rq_dm : option string; rq_nrv : nat; rq_x : list (list R) }.

Fixpoint eval_history (fuel : nat) (s : smodel) (expr : expression) (rs : list evreq) : smodel * list evalout :=
  match rs with
  | [] => (s, [])
  | q :: r =>
      let e := evaluate_lsf fuel s expr (rq_o q) (rq_dm q) (rq_nrv q) (rq_x q) in
      let (s', l) := eval_history fuel (ev_s e) expr r in (s', e :: l)
  end.

Definition done_points (e : evalout) : nat :=
  match ev_out e with ODone _ _ => npoints (ev_trace e) | _ => 0%nat end.

Lemma accounting_history fuel expr : forall rs s,
  (forall q, In q rs -> (0 < o_block_size (rq_o q))%Z) ->
  let (s', l) := eval_history fuel s expr rs in
  sm_calls s' = (sm_calls s + list_sum (map done_points l))%nat.
Proof.
  induction rs as [|q rs IH]; intros s Hb; cbn [eval_history].
  - simpl. lia.
  - set (e := evaluate_lsf fuel s expr (rq_o q) (rq_dm q) (rq_nrv q) (rq_x q)).
    specialize (IH (ev_s e) (fun q' H => Hb q' (or_intror H))).
    destruct (eval_history fuel (ev_s e) expr rs) as [s' l]. cbn [map].
    change (list_sum (done_points e :: map done_points l)) with (done_points e + list_sum (map done_points l))%nat.
    rewrite IH.
    pose proof (accounting fuel s expr (rq_o q) (rq_dm q) (rq_nrv q) (rq_x q) (Hb q (or_introl eq_refl))) as A.
    cbv zeta in A. fold e in A. unfold done_points at 2. destruct (ev_out e); [lia|rewrite A; lia|rewrite A; lia].
Qed.

Lemma binding_received h nrv cols : (ndists h <= nrv)%nat ->
  exists kw,
    (forall expr, compute_lsf (sm_run h) expr nrv cols false =
       match expr kw with Ok out => Ok (value_of out, []) | Err e => Err e end) /\
    Permutation (map fst kw) (sm_names (sm_run h)) /\ NoDup (map fst kw) /\
    (forall i d, nth_error (dists_of (accepted h)) i = Some d ->
       dict_get kw (rv_name d) = Some (map (fun p => nth i p 0) cols)) /\
    (forall n v, In (n, v) (consts_of (accepted h)) ->
       dict_get kw n = Some (repeat v (length cols))).
Proof.
  intros Hn. destruct (argument_binding h nrv cols Hn) as [kw [E H]].
  exists kw. split; [|exact H]. intros expr. unfold compute_lsf. rewrite E.
  destruct (expr kw) as [[|]|]; reflexivity.
Qed.

Lemma dispatch_notimpl fuel s expr o dm nrv x : o_multi_proc o = 0%Z ->
  evaluate_lsf fuel s expr o dm nrv x = mkev s x [] (ORaise ENotImpl).
Proof. intros H. unfold evaluate_lsf. rewrite H. reflexivity. Qed.

Lemma dispatch_nogradient fuel h expr f o dm x :
  o_multi_proc o <> 0%Z -> (exists m, dm = Some m) \/ o_diff_mode o = "no"%string ->
  pointwise expr f -> (1 <= ndists h)%nat -> points_ok (ndists h) x -> (1 <= o_block_size o)%Z ->
  (length x < fuel)%nat ->
  ev_out (evaluate_lsf fuel (sm_run h) expr o dm (ndists h) x) =
    ODone (map (fun p => f (args_at h p)) x) (repeat (repeat 0 (ndists h)) (length x)).
Proof.
  intros Hm Hd Hp Hn Hx Hb Hf. unfold evaluate_lsf.
  destruct (Z.eqb_spec (o_multi_proc o) 0); [contradiction|].
  assert (E : match dm with None => o_diff_mode o | Some _ => "no"%string end = "no"%string).
  { destruct Hd as [[m ->]|E]; [reflexivity|]. destruct dm; [reflexivity|exact E]. }
  rewrite E. cbn [String.eqb Ascii.eqb Bool.eqb].
  apply (nogradient_spec h expr f x fuel (o_block_size o)); assumption.
Qed.

Lemma dispatch_ffd fuel h expr f o p :
  o_multi_proc o <> 0%Z -> o_diff_mode o <> "no"%string -> o_diff_mode o <> "ddm"%string ->
  pointwise expr f -> (1 <= ndists h)%nat -> length p = ndists h -> (1 <= o_block_size o)%Z ->
  (S (length p) < fuel)%nat ->
  let F := fun q => f (args_at h q) in
  let st := fun j => nth j (map (fun d => rv_stdv d / o_ffdpara o) (dists_of (accepted h))) 0 in
  ev_out (evaluate_lsf fuel (sm_run h) expr o None (ndists h) [p]) = ODone [F p]
     [map (fun j => (F (replace_nth j (nth j p 0 + st j) p) - F p) / st j) (seq 0 (ndists h))].
Proof.
  intros Hm H1 H2 Hp Hn Hl Hb Hf F st. unfold evaluate_lsf.
  destruct (Z.eqb_spec (o_multi_proc o) 0); [contradiction|].
  destruct (String.eqb_spec (o_diff_mode o) "no"); [contradiction|].
  destruct (String.eqb_spec (o_diff_mode o) "ddm"); [contradiction|].
  apply (ffd_one_point h expr f p (o_block_size o) (o_ffdpara o) fuel); assumption.
Qed.

Lemma dispatch_ddm fuel h expr o p G g :
  o_multi_proc o <> 0%Z -> o_diff_mode o = "ddm"%string ->
  length p = ndists h -> length g = ndists h ->
  (forall kw, Permutation (map fst kw) (sm_names (sm_run h)) ->
     (forall i d, nth_error (dists_of (accepted h)) i = Some d -> dict_get kw (rv_name d) = Some [nth i p 0]) ->
     (forall n v, In (n, v) (consts_of (accepted h)) -> dict_get kw n = Some [v]) ->
     expr kw = Ok (UTuple (Arr [G]) g)) ->
  ev_out (evaluate_lsf fuel (sm_run h) expr o None (ndists h) [p]) = ODone [G] [g].
Proof.
  intros Hm Hd Hp Hg He. unfold evaluate_lsf.
  destruct (Z.eqb_spec (o_multi_proc o) 0); [contradiction|]. rewrite Hd.
  cbn [String.eqb Ascii.eqb Bool.eqb].
  apply (ddm_one_point h expr p G g Hp Hg).
  destruct (argument_binding h (ndists h) [p] (le_n _)) as [kw [E [P [N [B1 B2]]]]].
  rewrite lsf_kwargs_ok in E by lia. inversion E; subst kw.
  apply He; assumption.
Qed.
Lemma dispatch_ddm_length fuel h expr o p G g :
  o_multi_proc o <> 0%Z -> o_diff_mode o = "ddm"%string ->
  length p = ndists h -> length g <> ndists h ->
  (forall kw, Permutation (map fst kw) (sm_names (sm_run h)) ->
     (forall i d, nth_error (dists_of (accepted h)) i = Some d -> dict_get kw (rv_name d) = Some [nth i p 0]) ->
     (forall n v, In (n, v) (consts_of (accepted h)) -> dict_get kw n = Some [v]) ->
     expr kw = Ok (UTuple (Arr [G]) g)) ->
  let r := evaluate_lsf fuel (sm_run h) expr o None (ndists h) [p] in
  (forall a, g = [a] -> ev_out r = ODone [G] [repeat a (ndists h)]) /\
  (length g <> 1%nat -> ev_out r = ORaise EValue /\ ev_s r = sm_run h /\ ev_trace r = [[p]]).
Proof.
  intros Hm Hd Hp Hg He. unfold evaluate_lsf.
  destruct (Z.eqb_spec (o_multi_proc o) 0); [contradiction|]. rewrite Hd.
  cbn [String.eqb Ascii.eqb Bool.eqb].
  assert (E : expr (kwfull h [p]) = Ok (UTuple (Arr [G]) g)).
  { destruct (argument_binding h (ndists h) [p] (le_n _)) as [kw [E [P [N [B1 B2]]]]].
    rewrite lsf_kwargs_ok in E by lia. inversion E; subst kw. apply He; assumption. }
  cbv zeta. unfold evaluate_ddm. cbn [length ddm_loop].
  unfold compute_lsf. rewrite lsf_kwargs_ok by lia. rewrite E. cbn [broadcast repeat]. split.
  - intros a ->. cbn. reflexivity.
  - intros H1. assert (EA : assign_col (ndists h) g = Err EValue).
    { unfold assign_col. destruct g as [|a [|b g]]; [|now destruct H1|];
        (replace (Nat.eqb _ (ndists h)) with false; [reflexivity|symmetry; apply Nat.eqb_neq; exact Hg]). }
    rewrite EA. cbn. auto.
Qed.

Lemma dispatch_many fuel s expr o nrv p q x :
  o_multi_proc o <> 0%Z -> o_diff_mode o <> "no"%string -> (1 <= nrv)%nat ->
  exists e, ev_out (evaluate_lsf fuel s expr o None nrv (p :: q :: x)) = ORaise e /\
            ev_s (evaluate_lsf fuel s expr o None nrv (p :: q :: x)) = s.
Proof.
  intros Hm Hd Hn. unfold evaluate_lsf.
  destruct (Z.eqb_spec (o_multi_proc o) 0); [contradiction|].
  destruct (String.eqb_spec (o_diff_mode o) "no"); [contradiction|].
  destruct (String.eqb_spec (o_diff_mode o) "ddm").
  - destruct (ddm_many_points s expr nrv p q x) as [[er E] [_ Es]]. exists er. auto.
  - destruct (ffd_many_points fuel s expr (o_block_size o) (o_ffdpara o) nrv (p :: q :: x)) as [E [_ [_ Es]]];
      [exact Hn|simpl; lia|]. exists EValue. auto.
Qed.

Lemma dispatch_explicit_irrelevant fuel s expr o m m' nrv x :
  evaluate_lsf fuel s expr o (Some m) nrv x = evaluate_lsf fuel s expr o (Some m') nrv x.
Proof. reflexivity. Qed.
