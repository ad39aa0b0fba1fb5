(** C110: distributions that are built on other distributions share them. *)
From Coquelicot Require Import Coquelicot.
From Verif Require Import Base Gauss GaussProofs Dist DistSpec DistProofs DistUpdProofs DistCompProofs DistHeap DistHeapSpec DistHeapProofs.
From Coq Require Import Lra Lia.
Open Scope R_scope.

Lemma run_wf fmin rand os : forall st, wf (h_cells st) -> wf (h_cells (hrun fmin rand os st)) /\ (length (h_cells st) <= length (h_cells (hrun fmin rand os st)))%nat.
Proof.
  induction os as [|o os IH]; intros [h pos] W; [cbn; auto|]. change (hrun fmin rand (o :: os) (mkH h pos)) with (hrun fmin rand os (hcall fmin rand o (mkH h pos))).
  destruct (call_ok fmin rand o h pos W) as (W1 & L1 & _). destruct (IH _ W1) as (W2 & L2). split; [exact W2|]. cbn [h_cells]. lia.
Qed.
Lemma reach_wf fmin rand os : wf (h_cells (hrun fmin rand os h_empty)).
Proof. apply run_wf. intros a c E. destruct a; discriminate. Qed.

(** C110: whatever calls were made, every object is built on exactly one plain
    distribution, and its cdf and pdf are those of its construction applied to that
    distribution as it is now. *)
Theorem C110_distribution_is_live : forall fmin rand os a,
  let h := h_cells (hrun fmin rand os h_empty) in
  (a < length h)%nat ->
  exists r ys l d, built h a r ys l /\ (forall r' ys' l', built h a r' ys' l' -> r' = r /\ ys' = ys /\ l' = l) /\
    view fmin h a = Some d /\
    (forall x, d_cdf d x = tower_cdf ys (d_cdf (leaf_dist l)) x) /\
    (forall x, d_pdf d x = tower_pdf ys (d_cdf (leaf_dist l)) (d_pdf (leaf_dist l)) x).
Proof.
  intros fmin rand os a h La. pose proof (reach_wf fmin rand os) as W. fold h in W.
  destruct (built_ex h W a La) as (r & ys & l & B). destruct (view_n_built fmin h W a r ys l B (S a) ltac:(lia)) as (d & V & C & P & _).
  exists r, ys, l, d. refine (conj B (conj _ (conj V (conj C P)))). intros r' ys' l' B'. destruct (built_fun _ _ _ _ _ B _ _ _ B') as (-> & -> & ->). auto.
Qed.
Print Assumptions C110_distribution_is_live.

Lemma set_call fmin rand k v a h pos : wf h -> exists h' pos',
  hcall fmin rand (HSet k v a) (mkH h pos) = mkH h' pos' /\ length h' = length h /\ (pos <= pos')%nat /\ wf h' /\
  (forall x, ~ inside h a x -> nth_error h' x = nth_error h x) /\
  (forall x c, inside h a x -> nth_error h x = Some c -> exists c', nth_error h' x = Some c' /\ updated fmin rand k v h' pos pos' c c') /\
  ((a < length h)%nat -> hstep fmin rand (HSet k v a) (mkH h pos) = Ok (mkH h' pos')).
Proof.
  intros W. unfold hcall. cbn [hstep]. unfold set_param. destruct (nth_error h a) as [c|] eqn:E.
  - destruct (built_ex h W a (nth_lt _ _ _ E)) as (r & ys & l & B). destruct (set_n_ok fmin rand k v (S a) h pos a r ys l W ltac:(lia) B) as (h' & pos' & S & L & P & W' & F & U). rewrite S. exists h', pos'. exact (conj eq_refl (conj L (conj P (conj W' (conj F (conj U (fun _ => eq_refl))))))).
  - exists h, pos. cbn [set_n h_cells]. rewrite E. refine (conj eq_refl (conj eq_refl (conj (le_n _) (conj W (conj (fun x _ => eq_refl) (conj _ _)))))).
    + intros x c I _. apply inside_lt in I. apply nth_error_None in E. lia.
    + intros L. apply nth_error_None in E. lia.
Qed.
Lemma built_set fmin rand k v a h pos h' pos' : wf h ->
  (forall x, ~ inside h a x -> nth_error h' x = nth_error h x) ->
  (forall x c, inside h a x -> nth_error h x = Some c -> exists c', nth_error h' x = Some c' /\ updated fmin rand k v h' pos pos' c c') ->
  forall x r ys l, built h x r ys l -> (inside h a r -> built h' x r ys (leaf_set k v l)) /\ (~ inside h a r -> built h' x r ys l).
Proof.
  intros W F U x r ys l B.
  assert (K : forall y o sp b, nth_error h y = Some (mkCell o sp) -> held o = Some b -> exists m s, nth_error h' y = Some (mkCell (with_moments m s o) sp)).
  { intros y o sp b E H. destruct (inside_dec h W a y) as [I|N].
    - destruct (U y _ I E) as ([o' sp'] & E' & Q1 & Q2). cbn in Q1. subst sp'. cbn [c_obj] in Q2. destruct o; cbn in H; try discriminate; destruct Q2 as (m1 & s1 & p0 & Q2 & _); exists m1, s1; rewrite E'; do 2 f_equal; exact Q2.
    - rewrite (F y N), E. destruct o as [| ? ? m0 s0| ? ? m0 s0| ? ? ? m0 s0]; cbn in H; try discriminate; exists m0, s0; reflexivity. }
  induction B as [x l sp E|x b N m s sp r ys l E B IH|x b N m s sp r ys l E B IH|x b p q m s sp r ys l E B IH].
  - split; intros I.
    + destruct (U x _ I E) as ([o' s'] & E' & _ & Q). cbn in Q. subst o'. econstructor. exact E'.
    + econstructor. rewrite F by exact I. exact E.
  - destruct (K _ _ _ b E eq_refl) as (m1 & s1 & E1). split; intros I; (eapply built_max; [exact E1|apply IH; exact I]).
  - destruct (K _ _ _ b E eq_refl) as (m1 & s1 & E1). split; intros I; (eapply built_par; [exact E1|apply IH; exact I]).
  - destruct (K _ _ _ b E eq_refl) as (m1 & s1 & E1). split; intros I; (eapply built_zero; [exact E1|apply IH; exact I]).
Qed.

(** C110: set_location/set_scale on an object never raises, and reaches the plain
    distribution at its bottom.  So the cdf of EVERY object built on that distribution
    changes, whichever of them the call was made on; objects built on others keep theirs.
    Reported moments are renewed only for the objects inside the one called - for the
    others they, like everything else stored, stay as they were.  Start points stay. *)
Theorem C110_update : forall fmin rand os k v a,
  let st := hrun fmin rand os h_empty in let h := h_cells st in
  (a < length h)%nat ->
  exists st', hstep fmin rand (HSet k v a) st = Ok st' /\ length (h_cells st') = length h /\
    (* the distributions *)
    (forall ra ya la x r ys l, built h a ra ya la -> built h x r ys l ->
       let l' := if Nat.eqb r ra then leaf_set k v l else l in
       built (h_cells st') x r ys l' /\
       exists d, view fmin (h_cells st') x = Some d /\ (forall t, d_cdf d t = tower_cdf ys (d_cdf (leaf_dist l')) t) /\
         (forall t, d_pdf d t = tower_pdf ys (d_cdf (leaf_dist l')) (d_pdf (leaf_dist l')) t)) /\
    (* what is stored *)
    (forall x, ~ inside h a x -> nth_error (h_cells st') x = nth_error h x) /\
    (forall x c, nth_error h x = Some c -> exists c', nth_error (h_cells st') x = Some c' /\ c_start c' = c_start c /\
       (inside h a x -> exists p0, (h_pos st <= p0 <= h_pos st')%nat /\ moments_current fmin rand (h_cells st') p0 (c_obj c'))).
Proof.
  intros fmin rand os k v a st h La. pose proof (reach_wf fmin rand os) as W. fold st h in W.
  destruct st as [h0 pos] eqn:Est. cbn [h_cells] in *. subst h. rename h0 into h.
  destruct (set_call fmin rand k v a h pos W) as (h' & pos' & _ & L & P & W' & F & U & S). exists (mkH h' pos'). cbn [h_cells h_pos].
  refine (conj (S La) (conj L (conj _ (conj F _)))).
  - intros ra ya la x r ys l Ba Bx. set (l' := if Nat.eqb r ra then leaf_set k v l else l). destruct (built_set fmin rand k v a h pos h' pos' W F U x r ys l Bx) as (Q1 & Q2).
    assert (B' : built h' x r ys l').
    { unfold l'. destruct (Nat.eqb_spec r ra) as [->|Ne].
      - apply Q1. exact (inside_root _ _ _ _ _ Ba).
      - apply Q2. intros I. apply Ne. destruct (built_root _ _ _ _ _ Bx) as (sp & Er). exact (inside_leaf _ _ _ I _ _ _ Ba _ _ Er). }
    split; [exact B'|]. destruct (view_n_built fmin h' W' x r ys l' B' (Datatypes.S x) ltac:(lia)) as (d & V & C & D & _). exists d. auto.
  - intros x c E. destruct (inside_dec h W a x) as [I|N].
    + destruct (U x c I E) as (c' & E' & Q1 & Q2). exists c'. refine (conj E' (conj Q1 _)). intros _.
      destruct (c_obj c) as [l| | |]; [exists pos; split; [lia|]; rewrite Q2; exact Coq.Init.Logic.I|..]; destruct Q2 as (m1 & s1 & p0 & Q2 & Q3 & Q4); exists p0; split; assumption.
    + exists c. rewrite (F x N). refine (conj E (conj eq_refl _)). intros I. contradiction.
Qed.
Print Assumptions C110_update.

(** C110: the plain distribution at the bottom is what the updates that reached it made of
    it, in order, whichever objects they were made on and whatever else happened *)
Theorem C110_shared_history : forall fmin rand os1 os2 r l sp us,
  let st := hrun fmin rand os1 h_empty in
  nth_error (h_cells st) r = Some (mkCell (OLeaf l) sp) ->
  received fmin rand r st os2 us ->
  exists sp', nth_error (h_cells (hrun fmin rand os2 st)) r = Some (mkCell (OLeaf (fold_left (fun l u => leaf_set (fst u) (snd u) l) us l)) sp').
Proof.
  intros fmin rand os1 os2 r l sp us st E R. pose proof (reach_wf fmin rand os1) as W. fold st in W. clearbody st. revert l sp E W.
  induction R as [st|st k v a os us I R IH|st o os us N R IH]; intros l sp E W.
  - exists sp. exact E.
  - destruct st as [h pos]. cbn [h_cells] in *. destruct (set_call fmin rand k v a h pos W) as (h' & pos' & S & _ & _ & W' & _ & U & _).
    change (hrun fmin rand (HSet k v a :: os) (mkH h pos)) with (hrun fmin rand os (hcall fmin rand (HSet k v a) (mkH h pos))). rewrite S in *. cbn [h_cells] in *.
    destruct (U r _ I E) as ([o' s'] & E' & _ & Q). cbn in Q. subst o'. exact (IH _ _ E' W').
  - destruct st as [h pos]. cbn [h_cells] in *. change (hrun fmin rand (o :: os) (mkH h pos)) with (hrun fmin rand os (hcall fmin rand o (mkH h pos))).
    destruct (call_ok fmin rand o h pos W) as (W' & _ & _ & EV). destruct (EV r _ E) as ([o' s'] & E' & Q).
    assert (Eo : o' = OLeaf l).
    { destruct Q as [Q|k v a Eo I Q|N0 b m0 s0 m s Eo (N1 & Q) _ _ _|p b p0 q0 m0 s0 m s Eo Q _ _ _|m s b Eo Q _ _ _|sp0 Eo Q].
      - injection Q as -> _. reflexivity.
      - exfalso. exact (N k v a Eo I).
      - discriminate.
      - discriminate.
      - discriminate.
      - exact Q. }
    subst o'. exact (IH _ _ E' W').
Qed.
Print Assumptions C110_shared_history.

Lemma received_ex fmin rand r os : forall st, wf (h_cells st) -> exists us, received fmin rand r st os us.
Proof.
  induction os as [|o os IH]; intros [h pos] W; [exists []; constructor|].
  destruct (call_ok fmin rand o h pos W) as (W' & _). destruct (IH _ W') as (us & R).
  assert (D : (exists k v a, o = HSet k v a /\ inside h a r) \/ (forall k v a, o = HSet k v a -> ~ inside h a r)).
  { destruct o as [| | | |k v a| | | |]; try (right; intros; discriminate). destruct (inside_dec h W a r) as [I|N]; [left; eauto|right; intros k0 v0 a0 Q; injection Q as <- <- <-; exact N]. }
  destruct D as [(k & v & a & -> & I)|N]; [exists ((k, v) :: us)|exists us]; constructor; assumption.
Qed.

(** C110: in particular a Normal below any number of constructions has, after any
    history, the location and scale last given to any object built on it; and so do any
    SciPy-backed distribution, a Uniform's cdf, and a Lognormal whose parameters belong to its
    moments (mean and standard deviation in its case). *)
Theorem C110_last_values : forall fmin rand os1 os2 r sp,
  let st := hrun fmin rand os1 h_empty in let h2 := h_cells (hrun fmin rand os2 st) in
  exists us, received fmin rand r st os2 us /\
  (forall s x ys l, nth_error (h_cells st) r = Some (mkCell (OLeaf (LfNormal s)) sp) -> built h2 x r ys l ->
     exists d, view fmin h2 x = Some d /\
       forall t, d_cdf d t = tower_cdf ys (fun t => Phi ((t - last_of ULoc (no_mean s) us) / last_of UScale (no_stdv s) us)) t) /\
  (forall s x ys l, nth_error (h_cells st) r = Some (mkCell (OLeaf (LfScipy s)) sp) -> built h2 x r ys l ->
     exists d, view fmin h2 x = Some d /\
       forall t, d_cdf d t = tower_cdf ys (fun t => sf_cdf (fz_fam (so_obj s)) ((t - last_of ULoc (fz_loc (so_obj s)) us) / last_of UScale (fz_scale (so_obj s)) us)) t) /\
  (forall s x ys l, nth_error (h_cells st) r = Some (mkCell (OLeaf (LfUniform s)) sp) -> built h2 x r ys l ->
     let o := so_obj (un_s s) in
     exists d, view fmin h2 x = Some d /\
       forall t, d_cdf d t = tower_cdf ys (fun t => sf_cdf (fz_fam o) ((t - last_of ULoc (fz_loc o) us) / last_of UScale (fz_scale o) us)) t) /\
  (forall s x ys l, nth_error (h_cells st) r = Some (mkCell (OLeaf (LfLognormal s)) sp) -> built h2 x r ys l ->
     (ln_lamb s, ln_zeta s) = ln_params (ln_mean s) (ln_stdv s) ->
     let lz := ln_params (last_of ULoc (ln_mean s) us) (last_of UScale (ln_stdv s) us) in
     exists d, view fmin h2 x = Some d /\
       forall t, d_cdf d t = tower_cdf ys (fun t => if Rltb 0 t then 1 / 2 + erf ((ln t - fst lz) / snd lz / sqrt 2) / 2 else 0) t).
Proof.
  intros fmin rand os1 os2 r sp st h2. pose proof (reach_wf fmin rand os1) as W. fold st in W. destruct (received_ex fmin rand r os2 st W) as (us & R). exists us. split; [exact R|].
  pose proof (proj1 (run_wf fmin rand os2 st W)) as W2. fold h2 in W2.
  assert (T : forall l0 x ys l, nth_error (h_cells st) r = Some (mkCell (OLeaf l0) sp) -> built h2 x r ys l -> l = fold_left (fun l u => leaf_set (fst u) (snd u) l) us l0).
  { intros l0 x ys l E B. destruct (C110_shared_history fmin rand os1 os2 r l0 sp us E R) as (sp' & E2). destruct (built_root _ _ _ _ _ B) as (x' & E3).
    assert (E4 : nth_error h2 r = Some (mkCell (OLeaf (fold_left (fun l u => leaf_set (fst u) (snd u) l) us l0)) sp')) by exact E2. congruence. }
  assert (TE : forall ys F G, (forall t, F t = G t) -> forall t, tower_cdf ys F t = tower_cdf ys G t).
  { induction ys as [|y ys IH]; intros F G H t; [apply H|]. cbn [tower_cdf]. destruct y; cbn [layer_cdf]; rewrite (IH F G H t); reflexivity. }
  refine (conj _ (conj _ (conj _ _))); intros s x ys l E B; [| | |intros HL]; cbv zeta; destruct (view_n_built fmin h2 W2 x r ys l B (S x) ltac:(lia)) as (d & V & C & _); exists d; (split; [exact V|]); intros t; rewrite C; rewrite (T _ _ _ _ E B); apply TE; clear - HL || clear.
  - revert s. induction us as [|[k v] us IH]; intros s t; [reflexivity|]. destruct k; [exact (IH (normal_set_location v s) t)|exact (IH (normal_set_scale v s) t)].
  - revert s. induction us as [|[k v] us IH]; intros s t; [reflexivity|]. destruct k; [exact (IH (base_set_location v s) t)|exact (IH (base_set_scale v s) t)].
  - revert s. induction us as [|[k v] us IH]; intros s t; [reflexivity|]. destruct k; [exact (IH (uniform_set_location v s) t)|exact (IH (uniform_set_scale v s) t)].
  - revert s HL. induction us as [|[k v] us IH]; intros s HL t.
    + unfold last_of. cbn [fold_left]. rewrite <- HL. reflexivity.
    + destruct k; [exact (IH (lognormal_set_location v s) (eq_sym (surjective_pairing _)) t)|exact (IH (lognormal_set_scale v s) (eq_sym (surjective_pairing _)) t)].
Qed.
Print Assumptions C110_last_values.

(** C110: the reported moments stay the present ones as long as no call changes something
    below the object without going through it. *)
Lemma current_ext fmin rand h h' pos a o : wf_obj a o -> (forall b, held o = Some b -> view fmin h' b = view fmin h b) -> moments_current fmin rand h pos o -> moments_current fmin rand h' pos o.
Proof. intros _ H M. destruct o; cbn [moments_current held] in *; try exact M; rewrite (H _ eq_refl); exact M. Qed.

Lemma inside_trans h a b x : inside h a b -> inside h b x -> inside h a x.
Proof. induction 1 as [|a c b' y E H I IH]; intros J; [exact J|]. eapply inside_held; [exact E|exact H|]. apply IH. exact J. Qed.

Lemma call_current fmin rand o h pos z c : wf h -> nth_error h z = Some c -> (exists p0, moments_current fmin rand h p0 (c_obj c)) -> ~ disturbs h z o ->
  let st' := hcall fmin rand o (mkH h pos) in
  exists c', nth_error (h_cells st') z = Some c' /\ exists p0, moments_current fmin rand (h_cells st') p0 (c_obj c').
Proof.
  intros W E (p0 & M) ND st'. destruct (call_ok fmin rand o h pos W) as (W' & L' & P' & EV). fold st' in W', L', P', EV.
  destruct (EV z c E) as (c' & E' & Q). exists c'. split; [exact E'|].
  assert (Keep : (forall x c1, inside h z x -> x <> z -> nth_error h x = Some c1 -> exists c2, nth_error (h_cells st') x = Some c2 /\ c_obj c2 = c_obj c1) -> forall b, held (c_obj c) = Some b -> view fmin (h_cells st') b = view fmin h b).
  { intros K b H. pose proof (wf_held _ _ _ _ W E H) as Hb. unfold view. symmetry. apply view_n_ext; [|eapply held_lt; eassumption|exact W]. intros x I. pose proof (inside_le _ _ _ W I) as Lx.
    destruct (nth_ex h x (inside_lt2 _ _ _ I)) as (c1 & E1). destruct (K x c1) as (c2 & E2 & Q2); [eapply inside_held; eassumption|lia|exact E1|]. rewrite E1, E2. cbn. congruence. }
  assert (HS : (exists k v a, o = HSet k v a) \/ (forall k v a, o <> HSet k v a)) by (destruct o; try (right; intros; discriminate); left; eauto).
  destruct HS as [(k & v & a & Eo)|NS].
  { subst o. destruct (set_call fmin rand k v a h pos W) as (h1 & pos1 & S & _ & _ & _ & F & U & _). unfold st' in *. rewrite S in *. cbn [h_cells h_pos] in *.
    destruct (inside_dec h W a z) as [I|N].
    - destruct (U z c I E) as (c2 & E2 & Q1 & Q2). rewrite E' in E2. injection E2 as <-.
      destruct (c_obj c); [exists pos; rewrite Q2; exact Coq.Init.Logic.I|..]; destruct Q2 as (m1 & s1 & p1 & _ & _ & Q4); exists p1; exact Q4.
    - rewrite (F z N), E in E'. injection E' as <-. exists p0. apply (current_ext fmin rand h _ p0 z); [exact (W _ _ E)| |exact M]. apply Keep. intros x c1 I Ne E1.
      exists c1. split; [|reflexivity]. rewrite F; [exact E1|]. intros J. apply ND. split; [exact N|]. exists x. split; assumption. }
  destruct Q as [Q|k v a Eo I Q|N0 b m0 s0 m s Eo _ _ _ Q|p b q0 r0 m0 s0 m s Eo _ _ _ Q|m s b Eo _ _ _ Q|sp0 Eo Q]; try (exists pos; exact Q).
  - subst c'. exists p0. apply (current_ext fmin rand h _ p0 z); [exact (W _ _ E)| |exact M]. apply Keep. intros x c1 I Ne E1. destruct (EV x c1 E1) as (c2 & E2 & Q2). exists c2. split; [exact E2|].
    destruct Q2 as [Q2|k v a Eo J Q2|N0 b m0 s0 m s Eo _ _ _ _|p b q0 r0 m0 s0 m s Eo _ _ _ _|m s b Eo _ _ _ _|sp0 Eo Q2]; try (subst o; exfalso; apply ND; split; assumption).
    + rewrite Q2. reflexivity.
    + exfalso. exact (NS _ _ _ Eo).
    + exact Q2.
  - exfalso. exact (NS _ _ _ Eo).
  - rewrite Q. exists p0. apply (current_ext fmin rand h _ p0 z); [exact (W _ _ E)| |exact M]. apply Keep. intros x c1 I Ne E1. destruct (EV x c1 E1) as (c2 & E2 & Q2). exists c2. split; [exact E2|].
    subst o. destruct Q2 as [Q2|k v a Eo J Q2|N0 b m0 s0 m s Eo _ _ _ _|p b q0 r0 m0 s0 m s Eo _ _ _ _|m s b Eo _ _ _ _|sp1 Eo Q2]; try discriminate; [rewrite Q2; reflexivity|exact Q2].
Qed.

(** a new object's moments are present ones *)
Lemma new_current fmin rand h pos o : wf h -> let st' := hcall fmin rand o (mkH h pos) in
  forall z c, nth_error h z = None -> nth_error (h_cells st') z = Some c -> exists p0, moments_current fmin rand (h_cells st') p0 (c_obj c).
Proof.
  intros W st' z c E E'.
  assert (VL : forall b d, view fmin h b = Some d -> (b < length h)%nat).
  { intros b d V. unfold view in V. cbn [view_n] in V. destruct (nth_error h b) eqn:Q; [eapply nth_lt; exact Q|discriminate]. }
  assert (VA : forall b d cn, view fmin h b = Some d -> view fmin (h ++ [cn]) b = Some d).
  { intros b d cn V. rewrite <- V. unfold view. symmetry. apply view_n_ext; [|exact (VL b d V)|exact W]. intros x I. rewrite nth_error_app1 by exact (inside_lt2 _ _ _ I). reflexivity. }
  assert (Z : forall cn, nth_error (h ++ [cn]) z = Some c -> c = cn).
  { intros cn Q. apply nth_error_None in E. pose proof (nth_lt _ _ _ Q) as L. rewrite app_length in L. cbn in L. rewrite nth_error_app2 in Q by lia. replace (z - length h)%nat with 0%nat in Q by lia. cbn in Q. congruence. }
  assert (Old : length (h_cells st') = length h -> exists p0, moments_current fmin rand (h_cells st') p0 (c_obj c)).
  { intros L. apply nth_lt in E'. apply nth_error_None in E. lia. }
  unfold st', hcall in *. destruct o as [l|b N sp|b N sp|b p sp|k v a|N a|p a|a|sp a]; cbn [hstep h_cells h_pos] in *.
  - apply Z in E'. subst c. exists 0%nat. exact I.
  - unfold new_max in *. cbn [h_cells h_pos] in *. destruct (view fmin h b) as [d|] eqn:V; [|apply Old; reflexivity]. destruct (Rltb N 1); [apply Old; reflexivity|]. cbn [h_cells] in *. apply Z in E'. subst c. exists pos. cbn [c_obj moments_current]. exists d. split; [apply VA; exact V|]. apply stats_ok. discriminate.
  - unfold new_parent in *. cbn [h_cells h_pos] in *. destruct (view fmin h b) as [d|] eqn:V; [|apply Old; reflexivity]. destruct (Rltb N 1); [apply Old; reflexivity|]. cbn [h_cells] in *. apply Z in E'. subst c. exists pos. cbn [c_obj moments_current]. exists d. split; [apply VA; exact V|]. apply stats_ok. discriminate.
  - unfold new_zero in *. cbn [h_cells h_pos] in *. destruct (view fmin h b) as [d|] eqn:V; [|apply Old; reflexivity]. destruct (zinf_init d p) as [w|e] eqn:Zi; [|apply Old; reflexivity]. cbn [h_cells] in *. apply Z in E'. subst c. exists pos. cbn [c_obj moments_current]. exists d. split; [apply VA; exact V|].
    unfold zinf_init in Zi. destruct (Rltb p 0); [discriminate|]. destruct (Rleb 1 p); [discriminate|]. injection Zi as <-. split; reflexivity.
  - apply Old. change (length (h_cells (hcall fmin rand (HSet k v a) (mkH h pos))) = length h). destruct (set_call fmin rand k v a h pos W) as (h' & pos' & S & L & _). rewrite S. exact L.
  - apply Old. unfold set_exponent. cbn [h_cells h_pos]. destruct (nth_error h a) as [[[] ?]|] eqn:Ea; try reflexivity. destruct (refresh _ _ _ _) as [[h1 p1]|] eqn:R; [|reflexivity]. cbn [h_cells].
    unfold refresh in R. cbn [h_cells h_pos] in R. rewrite set_cell_same in R by (eapply nth_lt; exact Ea). cbn [c_obj] in R. destruct (view _ _ _); [|discriminate]. injection R as <- _. rewrite !set_cell_length. reflexivity.
  - apply Old. unfold set_zero_probability. cbn [h_cells h_pos]. destruct (nth_error h a) as [[[] ?]|] eqn:Ea; try reflexivity. destruct (refresh _ _ _ _) as [[h1 p1]|] eqn:R; [|reflexivity]. cbn [h_cells].
    unfold refresh in R. cbn [h_cells h_pos] in R. rewrite set_cell_same in R by (eapply nth_lt; exact Ea). cbn [c_obj] in R. destruct (view _ _ _); [|discriminate]. injection R as <- _. rewrite !set_cell_length. reflexivity.
  - apply Old. destruct (refresh _ _ _ _) as [[h1 p1]|] eqn:R; [|reflexivity]. cbn [h_cells]. unfold refresh in R. cbn [h_cells h_pos] in R. destruct (nth_error h a) as [ca|]; [|discriminate].
    destruct (c_obj ca); try discriminate; (destruct (view _ _ _); [|discriminate]); injection R as <- _; apply set_cell_length.
  - apply Old. unfold set_start. cbn [h_cells h_pos]. destruct (nth_error h a); [apply set_cell_length|reflexivity].
Qed.

(** [undisturbed z os st]: from [st] on, no call of [os] disturbs object [z] *)
Fixpoint undisturbed fmin rand (z : nat) (os : list hop) (st : hstate) : Prop :=
  match os with
  | [] => True
  | o :: r => ~ disturbs (h_cells st) z o /\ undisturbed fmin rand z r (hcall fmin rand o st)
  end.

Theorem C110_moments : forall fmin rand os z c,
  undisturbed fmin rand z os h_empty ->
  nth_error (h_cells (hrun fmin rand os h_empty)) z = Some c ->
  exists p0, moments_current fmin rand (h_cells (hrun fmin rand os h_empty)) p0 (c_obj c).
Proof.
  intros fmin rand os z c.
  assert (G : forall os st, wf (h_cells st) -> (forall c, nth_error (h_cells st) z = Some c -> exists p0, moments_current fmin rand (h_cells st) p0 (c_obj c)) ->
    undisturbed fmin rand z os st -> forall c, nth_error (h_cells (hrun fmin rand os st)) z = Some c -> exists p0, moments_current fmin rand (h_cells (hrun fmin rand os st)) p0 (c_obj c)).
  { clear. induction os as [|o os IH]; intros [h pos] W M U c E; [exact (M c E)|]. destruct U as (U1 & U2).
    change (hrun fmin rand (o :: os) (mkH h pos)) with (hrun fmin rand os (hcall fmin rand o (mkH h pos))) in *.
    destruct (call_ok fmin rand o h pos W) as (W' & _). refine (IH _ W' _ U2 c E). intros c1 E1.
    destruct (nth_error h z) as [c0|] eqn:E0.
    - destruct (call_current fmin rand o h pos z c0 W E0 (M c0 E0) U1) as (c2 & E2 & Q). rewrite E1 in E2. injection E2 as <-. exact Q.
    - exact (new_current fmin rand h pos o W z c1 E0 E1). }
  intros U E. apply (G os h_empty); [intros a x Q; destruct a; discriminate|intros x Q; destruct z; discriminate|exact U|exact E].
Qed.
Print Assumptions C110_moments.

(** C110: start points are only ever changed by setStartPoint on the object itself *)
Theorem C110_start_points : forall fmin rand os1 os2 x c,
  let st := hrun fmin rand os1 h_empty in
  nth_error (h_cells st) x = Some c -> (forall sp, ~ In (HStart sp x) os2) ->
  exists c', nth_error (h_cells (hrun fmin rand os2 st)) x = Some c' /\ c_start c' = c_start c.
Proof.
  intros fmin rand os1 os2 x c st. pose proof (reach_wf fmin rand os1) as W. fold st in W. clearbody st. revert st W c.
  induction os2 as [|o os IH]; intros [h pos] W c E N; [exists c; split; [exact E|reflexivity]|].
  change (hrun fmin rand (o :: os) (mkH h pos)) with (hrun fmin rand os (hcall fmin rand o (mkH h pos))).
  destruct (call_ok fmin rand o h pos W) as (W' & _ & _ & EV). destruct (EV x c E) as (c1 & E1 & Q).
  destruct (IH _ W' c1 E1) as (c2 & E2 & Q2); [intros sp I; apply (N sp); right; exact I|]. exists c2. split; [exact E2|]. rewrite Q2.
  destruct Q as [Q|k v a Eo I Q|N0 b m0 s0 m s Eo _ _ Q _|p b q0 r0 m0 s0 m s Eo _ _ Q _|m s b Eo _ _ Q _|sp0 Eo Q]; try exact Q.
  - rewrite Q. reflexivity.
  - destruct Q as (Q & _). exact Q.
  - exfalso. apply (N sp0). left. congruence.
Qed.
Print Assumptions C110_start_points.

(** C110: what the constructors do.  They raise exactly for a missing base, N < 1, p < 0 or
    p >= 1; otherwise they add one object, touching no other, whose start point is the one
    given or else its mean. *)
Theorem C110_constructors : forall fmin rand os b N p sp,
  let st := hrun fmin rand os h_empty in let h := h_cells st in
  ((exists st', hstep fmin rand (HMax b N sp) st = Ok st') <-> (b < length h)%nat /\ 1 <= N) /\
  ((exists st', hstep fmin rand (HParent b N sp) st = Ok st') <-> (b < length h)%nat /\ 1 <= N) /\
  ((exists st', hstep fmin rand (HZero b p sp) st = Ok st') <-> (b < length h)%nat /\ 0 <= p < 1) /\
  (forall o st', In o [HMax b N sp; HParent b N sp; HZero b p sp] -> hstep fmin rand o st = Ok st' ->
     exists c, h_cells st' = (h ++ [c])%list /\ held (c_obj c) = Some b /\ c_start c = match sp with None => obj_mean (c_obj c) | Some x => x end /\
       match o, c_obj c with HMax _ _ _, OMax _ N' _ _ | HParent _ _ _, OParent _ N' _ _ => N' = N | HZero _ _ _, OZero _ p' _ _ _ => p' = p | _, _ => False end).
Proof.
  intros fmin rand os b N p sp st h. pose proof (reach_wf fmin rand os) as W. fold st h in W.
  assert (VL : forall d, view fmin h b = Some d -> (b < length h)%nat).
  { intros d V. unfold view in V. cbn [view_n] in V. destruct (nth_error h b) eqn:Q; [eapply nth_lt; exact Q|discriminate]. }
  refine (conj _ (conj _ (conj _ _))).
  - cbn [hstep]. unfold new_max. fold h. split.
    + intros (st' & E). destruct (view fmin h b) as [d|] eqn:V; [|discriminate]. destruct (Rltb N 1) eqn:D; [discriminate|]. apply Rltb_false in D. split; [exact (VL d eq_refl)|lra].
    + intros (L & D). destruct (view_ex fmin h b W L) as (d & V). rewrite V. replace (Rltb N 1) with false by (symmetry; apply Rltb_false; lra). eauto.
  - cbn [hstep]. unfold new_parent. fold h. split.
    + intros (st' & E). destruct (view fmin h b) as [d|] eqn:V; [|discriminate]. destruct (Rltb N 1) eqn:D; [discriminate|]. apply Rltb_false in D. split; [exact (VL d eq_refl)|lra].
    + intros (L & D). destruct (view_ex fmin h b W L) as (d & V). rewrite V. replace (Rltb N 1) with false by (symmetry; apply Rltb_false; lra). eauto.
  - cbn [hstep]. unfold new_zero. fold h. split.
    + intros (st' & E). destruct (view fmin h b) as [d|] eqn:V; [|discriminate]. split; [exact (VL d eq_refl)|]. unfold zinf_init in E. destruct (Rltb p 0) eqn:D1; [discriminate|]. destruct (Rleb 1 p) eqn:D2; [discriminate|]. apply Rltb_false in D1. apply Rleb_false in D2. lra.
    + intros (L & D). destruct (view_ex fmin h b W L) as (d & V). rewrite V. unfold zinf_init. replace (Rltb p 0) with false by (symmetry; apply Rltb_false; lra). replace (Rleb 1 p) with false by (symmetry; apply Rleb_false; lra). eauto.
  - intros o st' [<-|[<-|[<-|[]]]] E; cbn [hstep] in E.
    + unfold new_max in E. fold h in E. destruct (view fmin h b) as [d|]; [|discriminate]. destruct (Rltb N 1); [discriminate|]. injection E as <-. eexists. cbn [h_cells]. split; [reflexivity|]. split; [reflexivity|]. split; reflexivity.
    + unfold new_parent in E. fold h in E. destruct (view fmin h b) as [d|]; [|discriminate]. destruct (Rltb N 1); [discriminate|]. injection E as <-. eexists. cbn [h_cells]. split; [reflexivity|]. split; [reflexivity|]. split; reflexivity.
    + unfold new_zero in E. fold h in E. destruct (view fmin h b) as [d|]; [|discriminate]. unfold zinf_init in E. destruct (Rltb p 0); [discriminate|]. destruct (Rleb 1 p); [discriminate|]. injection E as <-. eexists. cbn [h_cells]. split; [reflexivity|]. split; [reflexivity|]. split; reflexivity.
Qed.
Print Assumptions C110_constructors.

(** C110: the other calls change the object they are made on and no other; set_exponent,
    set_zero_probability and update_stats renew its moments (no value is refused). *)
Theorem C110_other_calls : forall fmin rand os a b v sp N m s p q x c,
  let st := hrun fmin rand os h_empty in let h := h_cells st in
  let only st' c' := nth_error (h_cells st') a = Some c' /\ forall y, y <> a -> nth_error (h_cells st') y = nth_error h y in
  (nth_error h a = Some (mkCell (OParent b N m s) x) ->
     exists st' m' s', hstep fmin rand (HExponent v a) st = Ok st' /\ only st' (mkCell (OParent b v m' s') x) /\ moments_current fmin rand (h_cells st') (h_pos st) (OParent b v m' s')) /\
  (nth_error h a = Some (mkCell (OZero b p q m s) x) ->
     exists st' m' s', hstep fmin rand (HZeroP v a) st = Ok st' /\ only st' (mkCell (OZero b v (1 - v) m' s') x) /\ moments_current fmin rand (h_cells st') (h_pos st) (OZero b v (1 - v) m' s')) /\
  (nth_error h a = Some c -> held (c_obj c) = Some b ->
     exists st' m' s', hstep fmin rand (HStats a) st = Ok st' /\ only st' (mkCell (with_moments m' s' (c_obj c)) (c_start c)) /\ moments_current fmin rand (h_cells st') (h_pos st) (with_moments m' s' (c_obj c))) /\
  (nth_error h a = Some c ->
     exists st', hstep fmin rand (HStart sp a) st = Ok st' /\ only st' (mkCell (c_obj c) (match sp with None => obj_mean (c_obj c) | Some y => y end))).
Proof.
  intros fmin rand os a b v sp N m s p q x c st h only. pose proof (reach_wf fmin rand os) as W. fold st h in W. destruct st as [h0 pos] eqn:Est. cbn [h_cells h_pos] in *. subst h. rename h0 into h.
  assert (Ref : forall c1 b1, (a < length h)%nat -> wf_obj a (c_obj c1) -> held (c_obj c1) = Some b1 -> exists st' m' s', refresh fmin rand a (mkH (set_cell a c1 h) pos) = Ok st' /\
     only st' (mkCell (with_moments m' s' (c_obj c1)) (c_start c1)) /\ moments_current fmin rand (h_cells st') pos (with_moments m' s' (c_obj c1))).
  { intros c1 b1 La Wc H. assert (W1 : wf (set_cell a c1 h)) by (apply wf_set; assumption). pose proof (set_cell_same c1 h a La) as E1.
    destruct (refresh_ok fmin rand _ pos a c1 b1 W1 E1 H) as (m' & s' & pos' & R & _ & M). exists (mkH (set_cell a (mkCell (with_moments m' s' (c_obj c1)) (c_start c1)) (set_cell a c1 h)) pos'), m', s'.
    split; [exact R|]. unfold only. cbn [h_cells]. split; [split|].
    - apply set_cell_same. rewrite set_cell_length. exact La.
    - intros y Ny. rewrite !set_cell_other by exact Ny. reflexivity.
    - apply M. apply view_set; [exact W1|exact (wf_held _ _ _ _ W1 E1 H)|rewrite set_cell_length; exact La]. }
  refine (conj _ (conj _ (conj _ _))).
  - intros E. cbn [hstep]. unfold set_exponent. cbn [h_cells h_pos]. rewrite E. exact (Ref (mkCell (OParent b v m s) x) b (nth_lt _ _ _ E) (W _ _ E) eq_refl).
  - intros E. cbn [hstep]. unfold set_zero_probability. cbn [h_cells h_pos]. rewrite E. exact (Ref (mkCell (OZero b v (1 - v) m s) x) b (nth_lt _ _ _ E) (conj (proj1 (W _ _ E)) eq_refl) eq_refl).
  - intros E H. cbn [hstep]. destruct (refresh_ok fmin rand h pos a c b W E H) as (m' & s' & pos' & R & _ & M). exists (mkH (set_cell a (mkCell (with_moments m' s' (c_obj c)) (c_start c)) h) pos'), m', s'.
    split; [exact R|]. unfold only. cbn [h_cells]. split; [split|].
    + apply set_cell_same. exact (nth_lt _ _ _ E).
    + intros y Ny. apply set_cell_other. exact Ny.
    + apply M. apply view_set; [exact W|exact (wf_held _ _ _ _ W E H)|exact (nth_lt _ _ _ E)].
  - intros E. cbn [hstep]. unfold set_start. cbn [h_cells h_pos]. rewrite E. eexists. split; [reflexivity|]. unfold only. cbn [h_cells]. split; [apply set_cell_same; exact (nth_lt _ _ _ E)|]. intros y Ny. apply set_cell_other. exact Ny.
Qed.
Print Assumptions C110_other_calls.

(** C110 fails as "an object always reports its own moments": a variable updated directly,
    or through another object built on it, leaves the ones built on it with old moments
    and old start points, although their cdf has changed. *)
Definition stale_calls : list hop := [HLeaf (LfNormal (normal_init 10 2 None)); HZero 0 (1 / 2) None; HMax 0 2 None; HSet ULoc 20 2].
Theorem C110_moments_stale_refuted : forall fmin rand,
  let h := h_cells (hrun fmin rand stale_calls h_empty) in
  exists c d, nth_error h 1 = Some c /\ view fmin h 1 = Some d /\
    (* the cdf of object 1 is that of the location set through object 2 *)
    (forall t, d_cdf d t = (1 - 1 / 2) * Phi ((t - 20) / 2) + (if Rltb (- zero_tol) t then 1 / 2 else 0)) /\
    (* whose mean is 10; reported, and start point: 5 *)
    d_mean d = 5 /\ c_start c = 5 /\ forall p0, ~ moments_current fmin rand h p0 (c_obj c).
Proof.
  intros fmin rand h.
  set (M := max_stats fmin rand (normal_dist (normal_init 10 2 None)) 2 0).
  set (h3 := [mkCell (OLeaf (LfNormal (mkNormal 10 2 10))) 10; mkCell (OZero 0 (1 / 2) (1 - 1 / 2) ((1 - 1 / 2) * 10) (sqrt ((1 - 1 / 2) * (2 * 2) + 1 / 2 * (1 - 1 / 2) * (10 * 10)))) ((1 - 1 / 2) * 10);
     mkCell (OMax 0 2 (fst M) (snd M)) (fst M)]).
  assert (E3 : hrun fmin rand [HLeaf (LfNormal (normal_init 10 2 None)); HZero 0 (1 / 2) None; HMax 0 2 None] h_empty = mkH h3 100).
  { unfold hrun. cbn [fold_left]. unfold hcall at 3. cbn [hstep h_empty h_cells h_pos app leaf_start normal_init no_start].
    unfold hcall at 2. cbn [hstep]. unfold new_zero. cbn [h_cells h_pos view view_n nth_error c_obj leaf_dist]. unfold zinf_init.
    replace (Rltb (1 / 2) 0) with false by (symmetry; apply Rltb_false; lra). replace (Rleb 1 (1 / 2)) with false by (symmetry; apply Rleb_false; lra).
    unfold hcall. cbn [hstep]. unfold new_max. cbn [h_cells h_pos view view_n nth_error c_obj leaf_dist app].
    replace (Rltb 2 1) with false by (symmetry; apply Rltb_false; lra). reflexivity. }
  assert (W3 : wf h3). { pose proof (reach_wf fmin rand [HLeaf (LfNormal (normal_init 10 2 None)); HZero 0 (1 / 2) None; HMax 0 2 None]) as Q. rewrite E3 in Q. exact Q. }
  destruct (set_call fmin rand ULoc 20 2 h3 100 W3) as (h' & pos' & S & _ & _ & W' & F & U & _).
  assert (Eh : h = h'). { unfold h. change stale_calls with ([HLeaf (LfNormal (normal_init 10 2 None)); HZero 0 (1 / 2) None; HMax 0 2 None] ++ [HSet ULoc 20 2])%list. unfold hrun. rewrite fold_left_app. fold (hrun fmin rand [HLeaf (LfNormal (normal_init 10 2 None)); HZero 0 (1 / 2) None; HMax 0 2 None] h_empty). rewrite E3. cbn [fold_left]. rewrite S. reflexivity. }
  rewrite Eh. clear Eh h.
  assert (I0 : inside h3 2 0) by (eapply inside_held; [reflexivity|reflexivity|econstructor; reflexivity]).
  assert (N1 : ~ inside h3 2 1).
  { intros I. inversion I as [|y c b x E H J]; subst. cbn in E. injection E as <-. cbn in H. injection H as <-. inversion J as [|y c b x E H K]; subst. cbn in E. injection E as <-. discriminate. }
  destruct (U 0%nat _ I0 eq_refl) as ([o0 s0] & E0 & Q0 & Q1). cbn in Q0, Q1. subst s0 o0.
  pose proof (eq_trans (F 1%nat N1) (eq_refl : nth_error h3 1 = Some (mkCell (OZero 0 (1 / 2) (1 - 1 / 2) ((1 - 1 / 2) * 10) (sqrt ((1 - 1 / 2) * (2 * 2) + 1 / 2 * (1 - 1 / 2) * (10 * 10)))) ((1 - 1 / 2) * 10)))) as E1.
  assert (B : built h' 1 0 [LZero (1 / 2)] (leaf_set ULoc 20 (LfNormal (mkNormal 10 2 10)))) by (eapply built_zero; [exact E1|]; econstructor; exact E0).
  destruct (view_n_built fmin h' W' 1 0 _ _ B 2 ltac:(lia)) as (d & V & C & _ & (c & Ec & Dm & _)).
  exists c, d. rewrite E1 in Ec. injection Ec as <-. refine (conj E1 (conj V (conj C (conj _ (conj _ _))))).
  - rewrite Dm. cbn. lra.
  - cbn. lra.
  - intros p0 (d0 & V0 & Q & _). unfold view in V0. cbn [view_n] in V0. rewrite E0 in V0. injection V0 as <-. cbn in Q. lra.
Qed.
Print Assumptions C110_moments_stale_refuted.

(** an exact minimiser; the arguments of the refutation below *)
Definition exact_fmin (fmin : (R -> R) -> R -> R) : Prop :=
  forall F t x0, 0 < t < 1 -> (exists y, F y = t) -> F (fmin (fun x => Rabs (F x - t)) x0) = t.
Lemma lsum_const (c : R) {A} (l : list A) : lsum (map (fun _ => c) l) = INR (length l) * c.
Proof. induction l as [|a l IH]; [cbn; ring|]. cbn [map]. unfold lsum in *. cbn [fold_right length] in *. rewrite S_INR. try rewrite IH. cbn. lra. Qed.
Lemma ppow2_inj a b : 0 <= a -> 0 <= b -> ppow a 2 = ppow b 2 -> a = b.
Proof.
  intros Ha Hb E. apply (f_equal (fun t => ppow t (1 / 2))) in E. rewrite !ppow_mult in E by lra. replace (2 * (1 / 2)) with 1 in E by field. rewrite !ppow_1 in E by assumption. exact E.
Qed.
Lemma max2_mean fmin rand s pos z : exact_fmin fmin -> 0 < no_stdv s -> (forall i, (i < 100)%nat -> rand (pos + i)%nat = ppow (Phi z) 2) ->
  fst (max_stats fmin rand (normal_dist s) 2 pos) = no_mean s + no_stdv s * z.
Proof.
  intros HF Hs HR. unfold max_stats. cbn [fst].
  assert (X : forall i, (i < 100)%nat -> d_ppf (maximum_dist fmin (mkPow (normal_dist s) 2) 0 0) (rand (pos + i)%nat) = no_mean s + no_stdv s * z).
  { intros i Hi. rewrite (HR i Hi). cbn [maximum_dist d_ppf pw_base]. unfold pow_ppf.
    set (F := maximum_cdf (mkPow (normal_dist s) 2)). set (x := fmin _ _).
    assert (E : F x = ppow (Phi z) 2).
    { apply HF; [apply ppow_in_01; [lra|apply Phi_bound]|]. exists (no_mean s + no_stdv s * z). unfold F, maximum_cdf. cbn [pw_base pw_N normal_dist d_cdf]. f_equal. f_equal. field. lra. }
    unfold F, maximum_cdf in E. cbn [pw_base pw_N normal_dist d_cdf] in E. apply ppow2_inj in E; [|apply Rlt_le, Phi_bound|apply Rlt_le, Phi_bound]. apply Phi_inj in E. rewrite <- E. field. lra. }
  assert (EM : map (fun i => d_ppf (maximum_dist fmin (mkPow (normal_dist s) 2) 0 0) (rand (pos + i)%nat)) (seq 0 100) = map (fun _ => no_mean s + no_stdv s * z) (seq 0 100)).
  { apply map_ext_in. intros i Hi. apply X. apply in_seq in Hi. lia. }
  rewrite EM. unfold arr_mean. rewrite lsum_const, map_length, seq_length. field. apply not_0_INR. lia.
Qed.

(** C110: the moments reported by a Maximum are a new random sample's at every update:
    setting the location it already has changes them. *)
Theorem C110_update_not_idempotent_refuted : forall fmin, exact_fmin fmin ->
  exists rand : nat -> R, (forall i, 0 < rand i < 1) /\
    let before := h_cells (hrun fmin rand [HLeaf (LfNormal (normal_init 10 2 None)); HMax 0 2 None] h_empty) in
    let after := h_cells (hrun fmin rand [HLeaf (LfNormal (normal_init 10 2 None)); HMax 0 2 None; HSet ULoc 10 1] h_empty) in
    nth_error after 0 = nth_error before 0 /\
    exists c c', nth_error before 1 = Some c /\ nth_error after 1 = Some c' /\ obj_mean (c_obj c) = 10 /\ obj_mean (c_obj c') = 12.
Proof.
  intros fmin HF. exists (fun i => if Nat.ltb i 100 then ppow (Phi 0) 2 else ppow (Phi 1) 2). set (rand := fun i => _).
  split; [intros i; unfold rand; destruct (Nat.ltb i 100); apply ppow_in_01; try lra; apply Phi_bound|].
  set (s := mkNormal 10 2 10).
  assert (M1 : fst (max_stats fmin rand (normal_dist s) 2 0) = 10 + 2 * 0).
  { apply (max2_mean fmin rand s 0 0 HF); [cbn; lra|]. intros i Hi. unfold rand. destruct (Nat.ltb_spec (0 + i) 100); [reflexivity|lia]. }
  assert (M2 : fst (max_stats fmin rand (normal_dist s) 2 100) = 10 + 2 * 1).
  { apply (max2_mean fmin rand s 100 1 HF); [cbn; lra|]. intros i Hi. unfold rand. destruct (Nat.ltb_spec (100 + i) 100); [lia|reflexivity]. }
  set (m1 := fst (max_stats fmin rand (normal_dist s) 2 0)) in *. set (v1 := snd (max_stats fmin rand (normal_dist s) 2 0)).
  set (h2 := [mkCell (OLeaf (LfNormal s)) 10; mkCell (OMax 0 2 m1 v1) m1]).
  assert (E2 : hrun fmin rand [HLeaf (LfNormal (normal_init 10 2 None)); HMax 0 2 None] h_empty = mkH h2 100).
  { unfold hrun. cbn [fold_left]. unfold hcall at 2. cbn [hstep h_empty h_cells h_pos app leaf_start normal_init no_start].
    unfold hcall. cbn [hstep]. unfold new_max. cbn [h_cells h_pos view view_n nth_error c_obj leaf_dist app].
    replace (Rltb 2 1) with false by (symmetry; apply Rltb_false; lra). reflexivity. }
  assert (E3 : hrun fmin rand [HLeaf (LfNormal (normal_init 10 2 None)); HMax 0 2 None; HSet ULoc 10 1] h_empty =
    mkH [mkCell (OLeaf (LfNormal s)) 10; mkCell (OMax 0 2 (fst (max_stats fmin rand (normal_dist s) 2 100)) (snd (max_stats fmin rand (normal_dist s) 2 100))) m1] 200).
  { change [HLeaf (LfNormal (normal_init 10 2 None)); HMax 0 2 None; HSet ULoc 10 1] with ([HLeaf (LfNormal (normal_init 10 2 None)); HMax 0 2 None] ++ [HSet ULoc 10 1])%list.
    unfold hrun. rewrite fold_left_app. fold (hrun fmin rand [HLeaf (LfNormal (normal_init 10 2 None)); HMax 0 2 None] h_empty). rewrite E2. cbn [fold_left]. reflexivity. }
  cbv zeta. rewrite E2, E3. cbn [h_cells]. split; [reflexivity|]. eexists. eexists. split; [reflexivity|]. split; [reflexivity|]. cbn [c_obj obj_mean]. rewrite M1, M2. split; lra.
Qed.
Print Assumptions C110_update_not_idempotent_refuted.

(** the hypotheses are met: an object two constructions above a Normal that is updated
    through its topmost object *)
Example C110_example : forall fmin rand,
  let os := [HLeaf (LfNormal (normal_init 10 2 None)); HMax 0 2 None; HZero 1 (1 / 4) None; HSet UScale 3 2] in
  let h := h_cells (hrun fmin rand os h_empty) in
  undisturbed fmin rand 2 os h_empty /\ built h 2 0 [LZero (1 / 4); LMax 2] (LfNormal (mkNormal 10 3 10)).
Proof.
  intros fmin rand os h.
  set (s := mkNormal 10 2 10). set (M := max_stats fmin rand (normal_dist s) 2 0).
  set (h2 := [mkCell (OLeaf (LfNormal s)) 10; mkCell (OMax 0 2 (fst M) (snd M)) (fst M)]).
  set (st1 := hcall fmin rand (HLeaf (LfNormal (normal_init 10 2 None))) h_empty).
  set (st2 := hcall fmin rand (HMax 0 2 None) st1). set (st3 := hcall fmin rand (HZero 1 (1 / 4) None) st2).
  assert (E2 : st2 = mkH h2 100).
  { unfold st2, hcall. cbn [hstep]. unfold new_max, st1. cbn [hcall hstep h_empty h_cells h_pos app leaf_start normal_init no_start view view_n nth_error c_obj leaf_dist].
    replace (Rltb 2 1) with false by (symmetry; apply Rltb_false; lra). reflexivity. }
  assert (E3 : exists c3, st3 = mkH (h2 ++ [c3]) 100 /\ exists q m v x, c3 = mkCell (OZero 1 (1 / 4) q m v) x).
  { unfold st3, hcall. rewrite E2. cbn [hstep]. unfold new_zero. cbn [h_cells h_pos view view_n nth_error h2 c_obj leaf_dist]. unfold zinf_init.
    replace (Rltb (1 / 4) 0) with false by (symmetry; apply Rltb_false; lra). replace (Rleb 1 (1 / 4)) with false by (symmetry; apply Rleb_false; lra).
    eexists. split; [reflexivity|]. cbn [zi_p zi_q zi_mean zi_stdv]. do 4 eexists. reflexivity. }
  destruct E3 as (c3 & E3 & q & m & v & x & Ec).
  assert (W3 : wf (h2 ++ [c3])).
  { pose proof (reach_wf fmin rand [HLeaf (LfNormal (normal_init 10 2 None)); HMax 0 2 None; HZero 1 (1 / 4) None]) as Q. change (wf (h_cells st3)) in Q. rewrite E3 in Q. exact Q. }
  assert (I2 : inside (h2 ++ [c3]) 2 2) by (eapply inside_self; reflexivity).
  assert (I0 : inside (h2 ++ [c3]) 2 0).
  { eapply inside_held; [reflexivity|rewrite Ec; reflexivity|]. eapply inside_held; [reflexivity|reflexivity|]. eapply inside_self; reflexivity. }
  split.
  - unfold os. cbn [undisturbed]. fold st1. fold st2. fold st3. refine (conj (fun F => F) (conj (fun F => F) (conj (fun F => F) (conj _ I)))).
    rewrite E3. intros (N & _). exact (N I2).
  - destruct (set_call fmin rand UScale 3 2 (h2 ++ [c3]) 100 W3) as (h' & pos' & S & _ & _ & W' & F & U & _).
    assert (Eh : h = h'). { unfold h. change (h_cells (hcall fmin rand (HSet UScale 3 2) st3) = h'). rewrite E3, S. reflexivity. }
    rewrite Eh. assert (B : built (h2 ++ [c3]) 2 0 [LZero (1 / 4); LMax 2] (LfNormal s)).
    { eapply built_zero; [cbn; rewrite Ec; reflexivity|]. eapply built_max; [reflexivity|]. eapply built_leaf; reflexivity. }
    exact (proj1 (built_set fmin rand UScale 3 2 (h2 ++ [c3]) 100 h' pos' W3 F U 2 0 _ _ B) I0).
Qed.
