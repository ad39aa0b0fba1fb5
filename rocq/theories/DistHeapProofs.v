(** Proofs for C110. *)
From Coquelicot Require Import Coquelicot.
From Verif Require Import Base Gauss Dist DistHeap DistHeapSpec.
From Coq Require Import Lra Lia.
Open Scope R_scope.

Lemma lsum_map_nonneg (f : R -> R) : (forall x, 0 <= f x) -> forall l, 0 <= lsum (map f l).
Proof. intros H l. induction l as [|x l IH]; cbn; [lra|]. pose proof (H x). lra. Qed.
Lemma stats_ok xs : xs <> [] -> sample_moments xs (arr_mean xs) (arr_std xs).
Proof.
  intros N. assert (L : 0 < INR (length xs)) by (apply lt_0_INR; destruct xs; [contradiction|cbn; lia]).
  assert (P : 0 <= lsum (map (fun x => (x - arr_mean xs) ^ 2) xs)) by (apply lsum_map_nonneg; intros x; apply pow2_ge_0).
  split; [unfold arr_mean; field; lra|]. split; [apply sqrt_pos|]. unfold arr_std. rewrite sqrt_sqrt by (apply Rmult_le_pos; [exact P|apply Rlt_le, Rinv_0_lt_compat, L]).
  rewrite (map_ext (fun x => (x - arr_mean xs) * (x - arr_mean xs)) (fun x => (x - arr_mean xs) ^ 2)) by (intros x; ring). field. lra.
Qed.
Lemma set_cell_length a c : forall h, length (set_cell a c h) = length h.
Proof. revert a. intros a h. revert a. induction h as [|d h IH]; intros [|a]; cbn; try reflexivity. rewrite IH. reflexivity. Qed.
Lemma set_cell_same c : forall h a, (a < length h)%nat -> nth_error (set_cell a c h) a = Some c.
Proof. induction h as [|d h IH]; intros [|a] H; cbn in *; try lia; [reflexivity|]. apply IH. lia. Qed.
Lemma set_cell_other c : forall h a x, x <> a -> nth_error (set_cell a c h) x = nth_error h x.
Proof. induction h as [|d h IH]; intros [|a] [|x] H; cbn; try reflexivity; try congruence. apply IH. congruence. Qed.
Lemma nth_lt {A} (h : list A) a c : nth_error h a = Some c -> (a < length h)%nat.
Proof. intros E. apply nth_error_Some. congruence. Qed.
Lemma nth_ex {A} (h : list A) a : (a < length h)%nat -> exists c, nth_error h a = Some c.
Proof. intros L. destruct (nth_error h a) eqn:E; [eauto|]. apply nth_error_None in E. lia. Qed.

(** references point to older cells; q is 1 - p *)
Definition wf_obj (a : nat) (o : obj) : Prop :=
  match o with OLeaf _ => True | OMax b _ _ _ | OParent b _ _ _ => (b < a)%nat | OZero b p q _ _ => (b < a)%nat /\ q = 1 - p end.
Definition wf (h : list cell) : Prop := forall a c, nth_error h a = Some c -> wf_obj a (c_obj c).
Lemma wf_held h a c b : wf h -> nth_error h a = Some c -> held (c_obj c) = Some b -> (b < a)%nat.
Proof. intros W E H. pose proof (W a c E) as Q. destruct (c_obj c); cbn in *; try discriminate; injection H as <-; tauto. Qed.
Lemma held_lt h a c b : wf h -> nth_error h a = Some c -> held (c_obj c) = Some b -> (b < length h)%nat.
Proof. intros W E H. pose proof (wf_held _ _ _ _ W E H). apply nth_lt in E. lia. Qed.

Lemma built_ex h : wf h -> forall a, (a < length h)%nat -> exists r ys l, built h a r ys l.
Proof.
  intros W a. induction a as [a IH] using lt_wf_ind. intros L. destruct (nth_ex h a L) as ([o x] & E). pose proof (W a _ E) as Q. cbn in Q. destruct o as [l|b N m s|b N m s|b p q m s]; cbn in Q.
  - exists a, [], l. econstructor. exact E.
  - destruct (IH b Q ltac:(lia)) as (r & ys & l & B). exists r, (LMax N :: ys), l. econstructor; eassumption.
  - destruct (IH b Q ltac:(lia)) as (r & ys & l & B). exists r, (LPar N :: ys), l. econstructor; eassumption.
  - destruct (IH b (proj1 Q) ltac:(lia)) as (r & ys & l & B). exists r, (LZero p :: ys), l. econstructor; eassumption.
Qed.
Lemma built_fun h a r ys l : built h a r ys l -> forall r' ys' l', built h a r' ys' l' -> r = r' /\ ys = ys' /\ l = l'.
Proof.
  induction 1; intros r' ys' l' B'; inversion B'; subst; try congruence;
    match goal with E1 : nth_error h ?a = Some _, E2 : nth_error h ?a = Some _ |- _ => rewrite E1 in E2; injection E2; intros; subst end; try (repeat split; reflexivity);
    match goal with B : built h ?b _ _ _ , IH : forall r' ys' l', built h ?b r' ys' l' -> _ |- _ => destruct (IH _ _ _ B) as (-> & -> & ->); repeat split; reflexivity end.
Qed.
Lemma built_root h a r ys l : built h a r ys l -> exists x, nth_error h r = Some (mkCell (OLeaf l) x).
Proof. induction 1; eauto. Qed.
Lemma built_le h a r ys l : wf h -> built h a r ys l -> (r <= a)%nat /\ (a < length h)%nat.
Proof.
  intros W. induction 1 as [a l x E|a b N m s x r ys l E B IH|a b N m s x r ys l E B IH|a b p q m s x r ys l E B IH]; [split; [lia|eapply nth_lt; exact E]|..]; pose proof (W _ _ E) as Q; cbn in Q; pose proof (nth_lt _ _ _ E); lia.
Qed.

Lemma inside_le h a x : wf h -> inside h a x -> (x <= a)%nat.
Proof. intros W. induction 1 as [|a c b x E H I IH]; [lia|]. pose proof (wf_held _ _ _ _ W E H). lia. Qed.
Lemma inside_root h a r ys l : built h a r ys l -> inside h a r.
Proof. induction 1; [econstructor; eassumption|..]; (eapply inside_held; [eassumption|reflexivity|assumption]). Qed.
Lemma inside_built h a x : inside h a x -> forall r ys l, built h a r ys l -> exists ys', built h x r ys' l.
Proof.
  induction 1 as [|a c b x E H I IH]; intros r ys l B; [eauto|].
  inversion B; subst; rewrite E in *; match goal with Q : Some _ = Some _ |- _ => injection Q; intros; subst end; cbn in H; try discriminate; injection H as <-; eapply IH; eassumption.
Qed.
Lemma inside_leaf h a x : inside h a x -> forall r ys l, built h a r ys l -> forall l' s, nth_error h x = Some (mkCell (OLeaf l') s) -> x = r.
Proof.
  intros I r ys l B l' s E. destruct (inside_built _ _ _ I _ _ _ B) as (ys' & B'). inversion B'; subst; congruence.
Qed.

Section V.
  Variable fmin : (R -> R) -> R -> R.
  Lemma view_n_built h : wf h -> forall a r ys l, built h a r ys l -> forall f, (a < f)%nat ->
    exists d, view_n fmin f h a = Some d /\ (forall x, d_cdf d x = tower_cdf ys (d_cdf (leaf_dist l)) x) /\
      (forall x, d_pdf d x = tower_pdf ys (d_cdf (leaf_dist l)) (d_pdf (leaf_dist l)) x) /\
      exists c, nth_error h a = Some c /\ d_mean d = obj_mean (c_obj c) /\ d_stdv d = obj_stdv (c_obj c).
  Proof.
    intros W a r ys l B. induction B as [a l x E|a b N m s x r ys l E B IH|a b N m s x r ys l E B IH|a b p q m s x r ys l E B IH]; intros [|f] Hf; try lia; cbn [view_n]; rewrite E; cbn [c_obj].
    - exists (leaf_dist l). repeat split; try reflexivity. eexists. split; [reflexivity|]. split; reflexivity.
    - pose proof (W _ _ E) as Q. cbn in Q. destruct (IH f ltac:(lia)) as (d & V & C & P & _). rewrite V. eexists. split; [reflexivity|]. cbn [maximum_dist d_cdf d_pdf d_mean d_stdv tower_cdf tower_pdf layer_cdf layer_pdf].
      unfold maximum_cdf, maximum_pdf. cbn [pw_base pw_N]. refine (conj _ (conj _ _)).
      + intros t. rewrite C. reflexivity.
      + intros t. rewrite C, P. reflexivity.
      + eexists. split; [reflexivity|]. split; reflexivity.
    - pose proof (W _ _ E) as Q. cbn in Q. destruct (IH f ltac:(lia)) as (d & V & C & P & _). rewrite V. eexists. split; [reflexivity|]. cbn [maxparent_dist d_cdf d_pdf d_mean d_stdv tower_cdf tower_pdf layer_cdf layer_pdf].
      unfold maxparent_pdf, maxparent_cdf. cbn [pw_base pw_N]. refine (conj _ (conj _ _)).
      + intros t. rewrite C. reflexivity.
      + intros t. rewrite C, P. reflexivity.
      + eexists. split; [reflexivity|]. split; reflexivity.
    - pose proof (W _ _ E) as Q. cbn in Q. destruct Q as (Q & ->). destruct (IH f ltac:(lia)) as (d & V & C & P & _). rewrite V. eexists. split; [reflexivity|]. cbn [zinf_dist d_cdf d_pdf d_mean d_stdv tower_cdf tower_pdf layer_cdf layer_pdf zi_mean zi_stdv].
      unfold zinf_cdf, zinf_pdf. cbn [zi_base zi_p zi_q]. refine (conj _ (conj _ _)).
      + intros t. rewrite C. ring.
      + intros t. rewrite P. ring.
      + eexists. split; [reflexivity|]. split; reflexivity.
  Qed.
  Lemma view_n_ext h h' : forall f a, (forall x, inside h a x -> option_map c_obj (nth_error h x) = option_map c_obj (nth_error h' x)) -> (a < length h)%nat -> wf h ->
    view_n fmin f h a = view_n fmin f h' a.
  Proof.
    induction f as [|f IH]; intros a H L W; [reflexivity|]. cbn [view_n].
    destruct (nth_ex h a L) as (c & E). pose proof (H a (inside_self h a c E)) as Ha. rewrite E in *. cbn [option_map] in Ha.
    destruct (nth_error h' a) as [c'|]; [|discriminate]. cbn in Ha. injection Ha as <-.
    assert (K : forall b, held (c_obj c) = Some b -> view_n fmin f h b = view_n fmin f h' b).
    { intros b Hb. apply IH; [|eapply held_lt; eassumption|exact W]. intros x I. apply H. eapply inside_held; eassumption. }
    destruct (c_obj c); cbn [held] in K; try reflexivity; rewrite (K _ eq_refl); reflexivity.
  Qed.
  Lemma view_n_fuel h : wf h -> forall a f, (a < f)%nat -> view_n fmin f h a = view fmin h a.
  Proof.
    intros W a. induction a as [a IH] using lt_wf_ind. intros [|f] Hf; [lia|]. unfold view. cbn [view_n].
    destruct (nth_error h a) as [c|] eqn:E; [|reflexivity].
    assert (K : forall b, held (c_obj c) = Some b -> view_n fmin f h b = view_n fmin a h b).
    { intros b Hb. pose proof (wf_held _ _ _ _ W E Hb). rewrite (IH b) by lia. symmetry. apply IH; lia. }
    destruct (c_obj c); cbn [held] in K; try reflexivity; rewrite (K _ eq_refl); reflexivity.
  Qed.
End V.

Lemma held_with m s o : held (with_moments m s o) = held o.
Proof. destruct o; reflexivity. Qed.
Lemma wf_with a m s o : wf_obj a o -> wf_obj a (with_moments m s o).
Proof. destruct o; cbn; tauto. Qed.
Lemma wf_set h a c : wf h -> wf_obj a (c_obj c) -> wf (set_cell a c h).
Proof.
  intros W Q x cx E. destruct (Nat.eq_dec x a) as [->|Ne]; [|rewrite set_cell_other in E by exact Ne; exact (W x cx E)].
  pose proof (nth_lt _ _ _ E) as L. rewrite set_cell_length in L. rewrite set_cell_same in E by exact L. injection E as <-. exact Q.
Qed.
Lemma inside_set h a c : wf h -> forall b x, (b < a)%nat -> (inside (set_cell a c h) b x <-> inside h b x).
Proof.
  intros W b. induction b as [b IH] using lt_wf_ind. intros x Hb. split; intros I; inversion I as [y cy E|y cy b' x' E H I']; subst.
  - rewrite set_cell_other in E by lia. econstructor. exact E.
  - rewrite set_cell_other in E by lia. pose proof (wf_held _ _ _ _ W E H). eapply inside_held; [exact E|exact H|]. apply (IH b'); [lia|lia|exact I'].
  - econstructor. rewrite set_cell_other by lia. exact E.
  - pose proof (wf_held _ _ _ _ W E H). eapply inside_held; [rewrite set_cell_other by lia; exact E|exact H|]. apply (IH b'); [lia|lia|exact I'].
Qed.

Section S.
  Variable fmin : (R -> R) -> R -> R.
  Variable rand : nat -> R.
  Lemma view_ex h a : wf h -> (a < length h)%nat -> exists d, view fmin h a = Some d.
  Proof. intros W L. destruct (built_ex h W a L) as (r & ys & l & B). destruct (view_n_built fmin h W a r ys l B (S a) ltac:(lia)) as (d & V & _). exists d. exact V. Qed.
  Lemma view_set h a c b : wf h -> (b < a)%nat -> (a < length h)%nat -> view fmin (set_cell a c h) b = view fmin h b.
  Proof.
    intros W Hb La. unfold view. symmetry. apply view_n_ext; [|lia|exact W]. intros x I. pose proof (inside_le _ _ _ W I). rewrite set_cell_other by lia. reflexivity.
  Qed.

  Lemma refresh_ok h pos a c b : wf h -> nth_error h a = Some c -> held (c_obj c) = Some b ->
    exists m s pos', refresh fmin rand a (mkH h pos) = Ok (mkH (set_cell a (mkCell (with_moments m s (c_obj c)) (c_start c)) h) pos') /\
      (pos <= pos')%nat /\ forall h', view fmin h' b = view fmin h b -> moments_current fmin rand h' pos (with_moments m s (c_obj c)).
  Proof.
    intros W E H. pose proof (held_lt _ _ _ _ W E H) as Lb. destruct (view_ex h b W Lb) as (d & V). unfold refresh. cbn [h_cells h_pos]. rewrite E.
    pose proof (W _ _ E) as Q.
    destruct (c_obj c) as [l|b0 N m0 s0|b0 N m0 s0|b0 p q m0 s0]; cbn [held] in H; try discriminate; injection H as ->; rewrite V.
    - exists (fst (max_stats fmin rand d N pos)), (snd (max_stats fmin rand d N pos)), (pos + 100)%nat. split; [reflexivity|]. split; [lia|]. intros h' V'. cbn [with_moments moments_current]. exists d. rewrite V'. split; [reflexivity|]. apply stats_ok. discriminate.
    - exists (fst (parent_stats fmin rand d N pos)), (snd (parent_stats fmin rand d N pos)), (pos + 100)%nat. split; [reflexivity|]. split; [lia|]. intros h' V'. cbn [with_moments moments_current]. exists d. rewrite V'. split; [reflexivity|]. apply stats_ok. discriminate.
    - exists (fst (zi_stats d p q)), (snd (zi_stats d p q)), pos. split; [reflexivity|]. split; [lia|]. intros h' V'. cbn [with_moments moments_current]. exists d. rewrite V'. split; [reflexivity|]. cbn in Q. destruct Q as (_ & ->). split; reflexivity.
  Qed.

  (** what set_location / set_scale does to every object *)
  Definition updated (k : upd_kind) (v : R) (h' : list cell) (pos pos' : nat) (c c' : cell) : Prop :=
    c_start c' = c_start c /\
    match c_obj c with
    | OLeaf l => c_obj c' = OLeaf (leaf_set k v l)
    | o => exists m s p0, c_obj c' = with_moments m s o /\ (pos <= p0 <= pos')%nat /\ moments_current fmin rand h' p0 (c_obj c')
    end.
  Lemma set_n_ok k v : forall f h pos a r ys l, wf h -> (a < f)%nat -> built h a r ys l ->
    exists h' pos', set_n fmin rand f k v a (mkH h pos) = Ok (mkH h' pos') /\ length h' = length h /\ (pos <= pos')%nat /\ wf h' /\
      (forall x, ~ inside h a x -> nth_error h' x = nth_error h x) /\
      (forall x c, inside h a x -> nth_error h x = Some c -> exists c', nth_error h' x = Some c' /\ updated k v h' pos pos' c c').
  Proof.
    induction f as [|f IH]; intros h pos a r ys l W Hf B; [lia|].
    destruct (built_le _ _ _ _ _ W B) as (_ & La). destruct (nth_ex h a La) as (c & E). cbn [set_n h_cells h_pos]. rewrite E.
    destruct (held (c_obj c)) as [b|] eqn:H.
    2:{ destruct c as [o sp]. cbn [c_obj c_start] in *. destruct o as [l0| | |]; cbn in H; try discriminate. exists (set_cell a (mkCell (OLeaf (leaf_set k v l0)) sp) h), pos. refine (conj _ (conj (set_cell_length _ _ _) (conj (le_n _) (conj _ (conj _ _))))).
        - unfold leaf_set. destruct k; reflexivity.
        - apply wf_set; [exact W|exact I].
        - intros x Nx. apply set_cell_other. intros ->. apply Nx. econstructor. exact E.
        - intros x c Ix Ex. inversion Ix as [y cy Ey|y cy b x' Ey Hb Ib]; subst.
          + exists (mkCell (OLeaf (leaf_set k v l0)) sp). rewrite set_cell_same by exact La. split; [reflexivity|]. rewrite E in Ex. injection Ex as <-. split; reflexivity.
          + rewrite E in Ey. injection Ey as <-. discriminate. }
    pose proof (wf_held _ _ _ _ W E H) as Hb. assert (Lb : (b < length h)%nat) by lia. destruct (built_ex h W b Lb) as (r1 & ys1 & l1 & B1).
    destruct (IH h pos b r1 ys1 l1 W ltac:(lia) B1) as (h1 & pos1 & S1 & L1 & P1 & W1 & F1 & U1).
    assert (Na : ~ inside h b a) by (intros I; pose proof (inside_le _ _ _ W I); lia).
    assert (E1 : nth_error h1 a = Some c) by (rewrite F1 by exact Na; exact E).
    destruct (refresh_ok h1 pos1 a c b W1 E1 H) as (m & s & pos' & R & P2 & M).
    assert (St : set_n fmin rand f k v b (mkH h pos) = Ok (mkH h1 pos1)) by exact S1.
    exists (set_cell a (mkCell (with_moments m s (c_obj c)) (c_start c)) h1), pos'.
    refine (conj _ (conj _ (conj _ (conj _ (conj _ _))))).
    - destruct (c_obj c); cbn [held] in H; try discriminate; injection H as ->; rewrite St; exact R.
    - rewrite set_cell_length. exact L1.
    - lia.
    - apply wf_set; [exact W1|]. cbn [c_obj]. apply wf_with. exact (W _ _ E).
    - intros x Nx. rewrite set_cell_other by (intros ->; apply Nx; econstructor; exact E). apply F1. intros I. apply Nx. eapply inside_held; eassumption.
    - intros x cx Ix Ex. inversion Ix as [y cy Ey|y cy b' x' Ey Hb' Ib]; subst.
      + rewrite E in Ex. injection Ex as <-. eexists. rewrite set_cell_same by lia. split; [reflexivity|]. split; [reflexivity|]. cbn [c_obj].
        assert (MM : moments_current fmin rand (set_cell x (mkCell (with_moments m s (c_obj c)) (c_start c)) h1) pos1 (with_moments m s (c_obj c))) by (apply M, view_set; [exact W1|exact Hb|lia]).
        destruct (c_obj c); cbn [held] in H; try discriminate; exists m, s, pos1; (split; [reflexivity|]; split; [lia|exact MM]).
      + rewrite E in Ey. injection Ey as <-. rewrite H in Hb'. injection Hb' as <-. pose proof (inside_le _ _ _ W Ib) as Lx. destruct (U1 x cx Ib Ex) as (c' & E' & St' & Q). exists c'. rewrite set_cell_other by lia. split; [exact E'|]. split; [exact St'|].
        destruct (c_obj cx) as [l0|b0 N m0 s0|b0 N m0 s0|b0 p q m0 s0] eqn:Ecx; [exact Q|..]; destruct Q as (m1 & s1 & p0 & Q1 & Q2 & Q3); exists m1, s1, p0; (split; [exact Q1|]; split; [lia|]);
          pose proof (W _ _ Ex) as Wx; rewrite Ecx in Wx; cbn in Wx; rewrite Q1 in *; cbn [with_moments moments_current] in *; (rewrite view_set; [exact Q3|exact W1|lia|lia]).
  Qed.

  (** what any call does to an existing object *)
  Inductive evolves (o : hop) (h : list cell) (pos : nat) (h' : list cell) (pos' x : nat) (c c' : cell) : Prop :=
  | ev_same : c' = c -> evolves o h pos h' pos' x c c'
  | ev_set k v a : o = HSet k v a -> inside h a x -> updated k v h' pos pos' c c' -> evolves o h pos h' pos' x c c'
  | ev_exp N b m0 s0 m s : o = HExponent N x -> (exists N0, c_obj c = OParent b N0 m0 s0) -> c_obj c' = OParent b N m s -> c_start c' = c_start c ->
      moments_current fmin rand h' pos (c_obj c') -> evolves o h pos h' pos' x c c'
  | ev_zero p b p0 q0 m0 s0 m s : o = HZeroP p x -> c_obj c = OZero b p0 q0 m0 s0 -> c_obj c' = OZero b p (1 - p) m s -> c_start c' = c_start c ->
      moments_current fmin rand h' pos (c_obj c') -> evolves o h pos h' pos' x c c'
  | ev_stats m s b : o = HStats x -> held (c_obj c) = Some b -> c_obj c' = with_moments m s (c_obj c) -> c_start c' = c_start c ->
      moments_current fmin rand h' pos (c_obj c') -> evolves o h pos h' pos' x c c'
  | ev_start sp : o = HStart sp x -> c_obj c' = c_obj c -> evolves o h pos h' pos' x c c'.
End S.

Section T.
  Variable fmin : (R -> R) -> R -> R.
  Variable rand : nat -> R.

  Lemma inside_lt h a x : inside h a x -> (a < length h)%nat.
  Proof. intros I. inversion I; subst; eapply nth_lt; eassumption. Qed.
  Lemma inside_lt2 h a x : inside h a x -> (x < length h)%nat.
  Proof. induction 1 as [a c E|]; [eapply nth_lt; exact E|assumption]. Qed.
  Lemma held_root h x r ys l : built h x r ys l -> forall c b, nth_error h x = Some c -> held (c_obj c) = Some b -> exists ys', built h b r ys' l.
  Proof. intros B c b E H. inversion B; subst; rewrite E in *; match goal with Q : Some _ = Some _ |- _ => injection Q; intros; subst end; cbn in H; try discriminate; injection H as <-; eauto. Qed.
  (** being inside is decidable *)
  Lemma inside_dec h : wf h -> forall a x, inside h a x \/ ~ inside h a x.
  Proof.
    intros W a. induction a as [a IH] using lt_wf_ind. intros x.
    destruct (nth_error h a) as [c|] eqn:E; [|right; intros I; apply inside_lt in I; apply nth_error_None in E; lia].
    destruct (Nat.eq_dec x a) as [->|Ne]; [left; econstructor; exact E|].
    destruct (held (c_obj c)) as [b|] eqn:H.
    - destruct (IH b (wf_held _ _ _ _ W E H) x) as [I|N]; [left; eapply inside_held; eassumption|]. right. intros I. inversion I; subst; [congruence|]. rewrite E in *. match goal with Q : Some _ = Some _ |- _ => injection Q; intros; subst end. congruence.
    - right. intros I. inversion I; subst; [congruence|]. rewrite E in *. match goal with Q : Some _ = Some _ |- _ => injection Q; intros; subst end. congruence.
  Qed.

  Lemma wf_app h c : wf h -> wf_obj (length h) (c_obj c) -> wf (h ++ [c]).
  Proof.
    intros W Q x cx E. destruct (Nat.lt_ge_cases x (length h)) as [L|L].
    - rewrite nth_error_app1 in E by exact L. exact (W x cx E).
    - pose proof (nth_lt _ _ _ E) as L2. rewrite app_length in L2. cbn in L2. assert (x = length h) by lia. subst x.
      rewrite nth_error_app2, Nat.sub_diag in E by lia. cbn in E. injection E as <-. exact Q.
  Qed.

  Lemma call_ok o h pos : wf h -> let st' := hcall fmin rand o (mkH h pos) in
    wf (h_cells st') /\ (length h <= length (h_cells st'))%nat /\ (pos <= h_pos st')%nat /\
    forall x c, nth_error h x = Some c -> exists c', nth_error (h_cells st') x = Some c' /\ evolves fmin rand o h pos (h_cells st') (h_pos st') x c c'.
  Proof.
    intros W. cbv zeta.
    assert (Triv : forall st', st' = mkH h pos -> wf (h_cells st') /\ (length h <= length (h_cells st'))%nat /\ (pos <= h_pos st')%nat /\
      forall x c, nth_error h x = Some c -> exists c', nth_error (h_cells st') x = Some c' /\ evolves fmin rand o h pos (h_cells st') (h_pos st') x c c').
    { intros st' ->. cbn. refine (conj W (conj (le_n _) (conj (le_n _) _))). intros x c E. exists c. split; [exact E|apply ev_same; reflexivity]. }
    assert (App : forall cn p, wf_obj (length h) (c_obj cn) -> (pos <= p)%nat -> let st' := mkH (h ++ [cn]) p in wf (h_cells st') /\ (length h <= length (h_cells st'))%nat /\ (pos <= h_pos st')%nat /\
      forall x c, nth_error h x = Some c -> exists c', nth_error (h_cells st') x = Some c' /\ evolves fmin rand o h pos (h_cells st') (h_pos st') x c c').
    { intros cn p Q Hp st'. cbn. refine (conj (wf_app _ _ W Q) (conj _ (conj Hp _))); [rewrite app_length; lia|]. intros x c E. exists c. rewrite nth_error_app1 by (eapply nth_lt; exact E). split; [exact E|apply ev_same; reflexivity]. }
    assert (VL : forall b d, view fmin h b = Some d -> (b < length h)%nat).
    { intros b d V. unfold view in V. cbn [view_n] in V. destruct (nth_error h b) eqn:E; [eapply nth_lt; exact E|discriminate]. }
    assert (Ref : forall h1 a c b m0 s0, wf h1 -> length h1 = length h -> (forall x, x <> a -> nth_error h1 x = nth_error h x) -> nth_error h1 a = Some c -> held (c_obj c) = Some b ->
      (forall m s h' pos' c0, nth_error h a = Some c0 -> moments_current fmin rand h' pos (with_moments m s (c_obj c)) -> evolves fmin rand o h pos h' pos' a c0 (mkCell (with_moments m s (c_obj c)) (c_start c))) ->
      m0 = s0 :> R ->
      exists h' pos', refresh fmin rand a (mkH h1 pos) = Ok (mkH h' pos') /\ wf h' /\ (length h <= length h')%nat /\ (pos <= pos')%nat /\
        forall x c, nth_error h x = Some c -> exists c', nth_error h' x = Some c' /\ evolves fmin rand o h pos h' pos' x c c').
    { intros h1 a c b m0 s0 W1 L1 F1 E1 H Ev _. destruct (refresh_ok fmin rand h1 pos a c b W1 E1 H) as (m & s & pos' & R & P & M). pose proof (nth_lt _ _ _ E1) as La.
      exists (set_cell a (mkCell (with_moments m s (c_obj c)) (c_start c)) h1), pos'. refine (conj R (conj _ (conj _ (conj P _)))).
      - apply wf_set; [exact W1|]. apply wf_with. exact (W1 _ _ E1).
      - rewrite set_cell_length. lia.
      - intros x cx E. destruct (Nat.eq_dec x a) as [->|Ne].
        + eexists. rewrite set_cell_same by exact La. split; [reflexivity|]. apply Ev; [exact E|]. apply M, view_set; [exact W1|eapply wf_held; eassumption|exact La].
        + exists cx. rewrite set_cell_other, F1 by exact Ne. split; [exact E|apply ev_same; reflexivity]. }
    unfold hcall. destruct o as [l|b N sp|b N sp|b p sp|k v a|N a|p a|a|sp a]; cbn [hstep h_cells h_pos].
    - apply (App (mkCell (OLeaf l) (leaf_start l)) pos); [exact I|lia].
    - unfold new_max. cbn [h_cells h_pos]. destruct (view fmin h b) as [d|] eqn:V; [|apply Triv; reflexivity]. destruct (Rltb N 1); [apply Triv; reflexivity|].
      apply (App (mkCell (OMax b N (fst (max_stats fmin rand d N pos)) (snd (max_stats fmin rand d N pos))) (match sp with None => fst (max_stats fmin rand d N pos) | Some x => x end)) (pos + 100)%nat); [exact (VL b d V)|lia].
    - unfold new_parent. cbn [h_cells h_pos]. destruct (view fmin h b) as [d|] eqn:V; [|apply Triv; reflexivity]. destruct (Rltb N 1); [apply Triv; reflexivity|].
      apply (App (mkCell (OParent b N (fst (parent_stats fmin rand d N pos)) (snd (parent_stats fmin rand d N pos))) (match sp with None => fst (parent_stats fmin rand d N pos) | Some x => x end)) (pos + 100)%nat); [exact (VL b d V)|lia].
    - unfold new_zero. cbn [h_cells h_pos]. destruct (view fmin h b) as [d|] eqn:V; [|apply Triv; reflexivity]. destruct (zinf_init d p) as [z|e] eqn:Z; [|apply Triv; reflexivity].
      apply (App (mkCell (OZero b (zi_p z) (zi_q z) (zi_mean z) (zi_stdv z)) (match sp with None => zi_mean z | Some x => x end)) pos); [|lia].
      cbn. split; [exact (VL b d V)|]. unfold zinf_init in Z. destruct (Rltb p 0); [discriminate|]. destruct (Rleb 1 p); [discriminate|]. injection Z as <-. reflexivity.
    - unfold set_param. destruct (nth_error h a) as [c|] eqn:E; [|cbn [set_n h_cells]; rewrite E; apply Triv; reflexivity].
      destruct (built_ex h W a (nth_lt _ _ _ E)) as (r & ys & l & B). destruct (set_n_ok fmin rand k v (S a) h pos a r ys l W ltac:(lia) B) as (h' & pos' & S & L & P & W' & F & U). rewrite S. cbn [h_cells h_pos].
      refine (conj W' (conj _ (conj P _))); [lia|]. intros x cx Ex. destruct (inside_dec h W a x) as [I|N].
      + destruct (U x cx I Ex) as (c' & E' & Q). exists c'. split; [exact E'|]. eapply ev_set; [reflexivity|exact I|exact Q].
      + exists cx. rewrite F by exact N. split; [exact Ex|apply ev_same; reflexivity].
    - unfold set_exponent. cbn [h_cells h_pos]. destruct (nth_error h a) as [[o x]|] eqn:E; [|apply Triv; reflexivity]. destruct o as [l|b N0 m s|b N0 m s|b p q m s]; try (apply Triv; reflexivity).
      pose proof (nth_lt _ _ _ E) as La. pose proof (W _ _ E) as Q. cbn in Q.
      destruct (Ref (set_cell a (mkCell (OParent b N m s) x) h) a (mkCell (OParent b N m s) x) b 0 0) as (h' & pos' & R & W' & L' & P' & EV).
      + apply wf_set; [exact W|exact Q].
      + apply set_cell_length.
      + intros y Ny. apply set_cell_other. exact Ny.
      + apply set_cell_same. exact La.
      + reflexivity.
      + intros m1 s1 h' pos' c0 E0 M. rewrite E in E0. injection E0 as <-. eapply ev_exp; [reflexivity|exists N0; reflexivity|reflexivity|reflexivity|exact M].
      + reflexivity.
      + rewrite R. exact (conj W' (conj L' (conj P' EV))).
    - unfold set_zero_probability. cbn [h_cells h_pos]. destruct (nth_error h a) as [[o x]|] eqn:E; [|apply Triv; reflexivity]. destruct o as [l|b N0 m s|b N0 m s|b p0 q m s]; try (apply Triv; reflexivity).
      pose proof (nth_lt _ _ _ E) as La. pose proof (W _ _ E) as Q. cbn in Q.
      destruct (Ref (set_cell a (mkCell (OZero b p (1 - p) m s) x) h) a (mkCell (OZero b p (1 - p) m s) x) b 0 0) as (h' & pos' & R & W' & L' & P' & EV).
      + apply wf_set; [exact W|]. split; [tauto|reflexivity].
      + apply set_cell_length.
      + intros y Ny. apply set_cell_other. exact Ny.
      + apply set_cell_same. exact La.
      + reflexivity.
      + intros m1 s1 h' pos' c0 E0 M. rewrite E in E0. injection E0 as <-. eapply ev_zero; [reflexivity|reflexivity|reflexivity|reflexivity|exact M].
      + reflexivity.
      + rewrite R. exact (conj W' (conj L' (conj P' EV))).
    - destruct (nth_error h a) as [c|] eqn:E; [|unfold refresh; cbn [h_cells]; rewrite E; apply Triv; reflexivity].
      destruct (held (c_obj c)) as [b|] eqn:H.
      + destruct (Ref h a c b 0 0) as (h' & pos' & R & W' & L' & P' & EV); [exact W|reflexivity|reflexivity|exact E|exact H| |reflexivity|].
        * intros m1 s1 h' pos' c0 E0 M. rewrite E in E0. injection E0 as <-. eapply ev_stats; [reflexivity|exact H|reflexivity|reflexivity|exact M].
        * rewrite R. exact (conj W' (conj L' (conj P' EV))).
      + unfold refresh. cbn [h_cells]. rewrite E. destruct (c_obj c); cbn in H; try discriminate. apply Triv. reflexivity.
    - unfold set_start. cbn [h_cells h_pos]. destruct (nth_error h a) as [c|] eqn:E; [|apply Triv; reflexivity]. cbn [h_cells h_pos]. pose proof (nth_lt _ _ _ E) as La.
      refine (conj _ (conj _ (conj (le_n _) _))).
      + apply wf_set; [exact W|exact (W _ _ E)].
      + rewrite set_cell_length. lia.
      + intros x cx Ex. destruct (Nat.eq_dec x a) as [->|Ne].
        * eexists. rewrite set_cell_same by exact La. split; [reflexivity|]. rewrite E in Ex. injection Ex as <-. eapply ev_start; reflexivity.
        * exists cx. rewrite set_cell_other by exact Ne. split; [exact Ex|apply ev_same; reflexivity].
  Qed.
End T.
