(** Property theorems C121: who shares a correlation matrix. *)
From Verif Require Import Base CorrHeap.
From Coq Require Import Lra Lia.
Open Scope list_scope.
Open Scope R_scope.

Lemma set_nth_len {A} (l : list A) i x : length (set_nth l i x) = length l.
Proof. revert i. induction l as [|y l IH]; intros [|i]; cbn; auto. Qed.
Lemma set_nth_same {A} (l : list A) i x : (i < length l)%nat -> nth_error (set_nth l i x) i = Some x.
Proof. revert i. induction l as [|y l IH]; intros [|i] H; cbn in *; try lia; auto. apply IH. lia. Qed.
Lemma set_nth_other {A} (l : list A) i j x : i <> j -> nth_error (set_nth l i x) j = nth_error l j.
Proof. revert i j. induction l as [|y l IH]; intros [|i] [|j] H; cbn; auto; try congruence. Qed.
Lemma nth_err {A} (l : list (option A)) i : nth i l None = match nth_error l i with Some x => x | None => None end.
Proof. revert i. induction l as [|y l IH]; intros [|i]; cbn; auto. Qed.

(** names never dangle *)
Record wf (st : cworld) : Prop := mkwf { wf_w : forall w a, nth_error (cw_wrap st) w = Some (Some a) -> (a < length (cw_arr st))%nat; wf_m : forall m n a, nth_error (cw_mod st) m = Some (n, Some a) -> (a < length (cw_arr st))%nat }.
Lemma write_len st a i j v : length (cw_arr (write st a i j v)) = length (cw_arr st).
Proof. unfold write. destruct (nth_error (cw_arr st) a) as [[M|]|]; cbn; [apply set_nth_len|reflexivity|reflexivity]. Qed.
Lemma write_rest st a i j v : cw_wrap (write st a i j v) = cw_wrap st /\ cw_mod (write st a i j v) = cw_mod st.
Proof. unfold write. destruct (nth_error (cw_arr st) a) as [[M|]|]; cbn; auto. Qed.
Lemma nth_app_last {A} (l : list A) i x y : nth_error (l ++ [x]) i = Some y -> nth_error l i = Some y \/ (i = length l /\ x = y).
Proof. intros H. destruct (Nat.lt_ge_cases i (length l)) as [L|L]; [rewrite nth_error_app1 in H by exact L; left; exact H|]. rewrite nth_error_app2 in H by exact L. destruct (i - length l)%nat as [|k] eqn:E; cbn in H; [injection H as ->; right; split; [lia|reflexivity]|destruct k; discriminate]. Qed.
Lemma wf_step st o : wf st -> wf (cstep st o).
Proof.
  intros [W M]. assert (WR : forall a i j v, wf (write st a i j v)). { intros a i j v. destruct (write_rest st a i j v) as [E1 E2]. constructor; rewrite ?E1, ?E2, write_len; [exact W|exact M]. }
  destruct o as [A|[a|]| |m|a i j v|w i j v|m w|m a]; cbn [cstep].
  - constructor; cbn; rewrite app_length; cbn; intros; [pose proof (W _ _ H)|pose proof (M _ _ _ H)]; lia.
  - destruct (Nat.ltb_spec a (length (cw_arr st))); [|constructor; assumption]. constructor; cbn; [|exact M]. intros w b E. apply nth_app_last in E. destruct E as [E|[_ E]]; [exact (W _ _ E)|injection E as <-; exact H].
  - constructor; cbn; [|exact M]. intros w b E. apply nth_app_last in E. destruct E as [E|[_ E]]; [exact (W _ _ E)|discriminate].
  - constructor; cbn; [exact W|]. intros m n a E. apply nth_app_last in E. destruct E as [E|[_ E]]; [exact (M _ _ _ E)|discriminate].
  - destruct (nth_error (cw_mod st) m) as [[n b]|] eqn:EM; [|constructor; assumption]. constructor; cbn; rewrite app_length; cbn; [intros w a E; pose proof (W _ _ E); lia|]. intros m' n' a E. destruct (Nat.eq_dec m m') as [<-|N].
    + rewrite set_nth_same in E by (apply nth_error_Some; congruence). injection E as <- <-. lia.
    + rewrite set_nth_other in E by exact N. pose proof (M _ _ _ E). lia.
  - apply WR.
  - destruct (nth_error (cw_wrap st) w) as [[a|]|]; [apply WR|constructor; assumption|constructor; assumption].
  - destruct (nth_error (cw_mod st) m) as [[n b]|] eqn:EM; [|constructor; assumption]. destruct (nth_error (cw_wrap st) w) as [wa|] eqn:EW; [|constructor; assumption]. constructor; cbn; rewrite app_length; cbn; [intros w' a E; pose proof (W _ _ E); lia|]. intros m' n' a E. destruct (Nat.eq_dec m m') as [<-|N].
    + rewrite set_nth_same in E by (apply nth_error_Some; congruence). injection E as <- <-. lia.
    + rewrite set_nth_other in E by exact N. pose proof (M _ _ _ E). lia.
  - destruct (nth_error (cw_mod st) m) as [[n b]|] eqn:EM; [|constructor; assumption]. destruct (Nat.ltb_spec a (length (cw_arr st))); [|constructor; assumption]. constructor; cbn; [exact W|]. intros m' n' a' E. destruct (Nat.eq_dec m m') as [<-|N].
    + rewrite set_nth_same in E by (apply nth_error_Some; congruence). injection E as <- <-. exact H.
    + rewrite set_nth_other in E by exact N. exact (M _ _ _ E).
Qed.
Lemma wf_run ops : forall st, wf st -> wf (fold_left cstep ops st).
Proof. induction ops as [|o ops IH]; intros st H; [exact H|]. apply IH, wf_step, H. Qed.
Lemma wf_crun h : wf (crun h).
Proof. apply wf_run. constructor; cbn; intros [|?]; discriminate. Qed.

(** the step replaces the matrix of model m *)
Definition resets (m : nat) (o : cop) : Prop := match o with CAdd m' | CSetCorr m' _ | CAssign m' _ => m' = m | _ => False end.
(** the step writes to array a or makes a wrapper of it *)
Definition touches (a : nat) (o : cop) : Prop := match o with CWrite b _ _ _ => b = a | CWrap (Some b) => b = a | _ => False end.

(** C121: setCorrelation copies. As long as the model's matrix is not replaced, and the array that
    getCorrelation() returns is not itself written to or wrapped, the model keeps the numbers the
    CorrelationMatrix held at the call, whatever is done to that object, to the array it was made
    from, to other arrays and to other models. *)
Theorem C121_setCorrelation_copies : forall h m w ops M, (m < length (cw_mod (crun h)))%nat -> wrapped (crun h) w = Some M ->
  let st := crun (h ++ [CSetCorr m w]) in
  exists a, getCorrelation st m = Some a /\ (forall w', nth_error (cw_wrap st) w' <> Some (Some a)) /\ (forall m', m' <> m -> getCorrelation st m' <> Some a) /\
    ((forall o, In o ops -> ~ resets m o /\ ~ touches a o) -> corr_of (crun (h ++ CSetCorr m w :: ops)) m = Some M).
Proof.
  intros h m w ops M Hm HW st. set (s0 := crun h) in *. assert (W0 : wf s0) by apply wf_crun.
  assert (S1 : st = cstep s0 (CSetCorr m w)) by (unfold st, s0, crun; rewrite fold_left_app; reflexivity).
  destruct (nth_error (cw_mod s0) m) as [[n b]|] eqn:EM; [|apply nth_error_None in EM; lia].
  unfold wrapped in HW. destruct (nth_error (cw_wrap s0) w) as [[aw|]|] eqn:EW; try discriminate.
  set (a := length (cw_arr s0)). assert (SE : st = mkCw (cw_arr s0 ++ [Some M]) (cw_wrap s0) (set_nth (cw_mod s0) m (n, Some a))) by (rewrite S1; cbn [cstep]; rewrite EM, EW, HW; reflexivity).
  exists a. assert (G : nth_error (cw_mod st) m = Some (n, Some a)) by (rewrite SE; cbn; apply set_nth_same, Hm). assert (AA : nth_error (cw_arr st) a = Some (Some M)) by (rewrite SE; cbn; rewrite nth_error_app2, Nat.sub_diag by (unfold a; lia); reflexivity).
  assert (NW : forall w', nth_error (cw_wrap st) w' <> Some (Some a)) by (intros w' E; rewrite SE in E; cbn in E; pose proof (wf_w _ W0 _ _ E); unfold a in *; lia).
  split; [unfold getCorrelation; rewrite G; reflexivity|]. split; [exact NW|]. split.
  { intros m' N E. unfold getCorrelation in E. rewrite SE in E. cbn in E. rewrite set_nth_other in E by congruence. destruct (nth_error (cw_mod s0) m') as [[n' [a'|]]|] eqn:E'; try discriminate. injection E as E. pose proof (wf_m _ W0 _ _ _ E'). unfold a in *. lia. }
  intros HO. assert (GEN : forall ops s, wf s -> nth_error (cw_mod s) m = Some (n, Some a) -> nth_error (cw_arr s) a = Some (Some M) -> (forall w', nth_error (cw_wrap s) w' <> Some (Some a)) -> (forall o, In o ops -> ~ resets m o /\ ~ touches a o) -> corr_of (fold_left cstep ops s) m = Some M).
  2: { change (CSetCorr m w :: ops) with ([CSetCorr m w] ++ ops). rewrite app_assoc. unfold crun. rewrite fold_left_app. apply GEN; try assumption. apply wf_crun. }
  clear - a. induction ops as [|o ops IH]; intros s WF G AA NW HO.
  { cbn. unfold corr_of, getCorrelation. rewrite G, nth_err, AA. reflexivity. }
  destruct (HO o (or_introl eq_refl)) as [HR HT]. cbn [fold_left]. assert (HO' : forall o, In o ops -> ~ resets m o /\ ~ touches a o) by (intros o' I; apply HO; right; exact I).
  assert (LA : (a < length (cw_arr s))%nat) by (apply nth_error_Some; congruence).
  assert (K : nth_error (cw_mod (cstep s o)) m = Some (n, Some a) /\ nth_error (cw_arr (cstep s o)) a = Some (Some M) /\ (forall w', nth_error (cw_wrap (cstep s o)) w' <> Some (Some a))).
  2: { destruct K as (K1 & K2 & K3). apply IH; try assumption. apply wf_step, WF. }
  assert (WRI : forall b i j v, b <> a -> nth_error (cw_mod (write s b i j v)) m = Some (n, Some a) /\ nth_error (cw_arr (write s b i j v)) a = Some (Some M) /\ (forall w', nth_error (cw_wrap (write s b i j v)) w' <> Some (Some a))).
  { intros b i j v N. destruct (write_rest s b i j v) as [-> ->]. split; [exact G|]. split; [|exact NW]. unfold write. destruct (nth_error (cw_arr s) b) as [[B|]|]; [cbn; rewrite set_nth_other by exact N; exact AA|exact AA|exact AA]. }
  destruct o as [A|[b|]| |m'|b i j v|w' i j v|m' w'|m' b]; cbn [cstep resets touches] in *.
  - split; [exact G|]. split; [cbn; rewrite nth_error_app1 by exact LA; exact AA|exact NW].
  - destruct (Nat.ltb b (length (cw_arr s))); [|auto]. split; [exact G|]. split; [exact AA|]. cbn. intros w' E. apply nth_app_last in E. destruct E as [E|[_ E]]; [exact (NW _ E)|injection E as E; contradiction].
  - split; [exact G|]. split; [exact AA|]. cbn. intros w' E. apply nth_app_last in E. destruct E as [E|[_ E]]; [exact (NW _ E)|discriminate].
  - split; [cbn; rewrite nth_error_app1 by (apply nth_error_Some; congruence); exact G|]. split; [exact AA|exact NW].
  - destruct (nth_error (cw_mod s) m') as [[n' b']|]; [|auto]. split; [cbn; rewrite set_nth_other by congruence; exact G|]. split; [cbn; rewrite nth_error_app1 by exact LA; exact AA|exact NW].
  - apply WRI. exact HT.
  - destruct (nth_error (cw_wrap s) w') as [[b|]|] eqn:E; [|auto|auto]. apply WRI. intros ->. exact (NW _ E).
  - destruct (nth_error (cw_mod s) m') as [[n' b']|]; [|auto]. destruct (nth_error (cw_wrap s) w') as [wa|]; [|auto]. split; [cbn; rewrite set_nth_other by congruence; exact G|]. split; [cbn; rewrite nth_error_app1 by exact LA; exact AA|exact NW].
  - destruct (nth_error (cw_mod s) m') as [[n' b']|]; [|auto]. destruct (Nat.ltb b (length (cw_arr s))); [|auto]. split; [cbn; rewrite set_nth_other by congruence; exact G|]. split; [exact AA|exact NW].
Qed.
Print Assumptions C121_setCorrelation_copies.

(** C121: arrays are shared everywhere else. A write to the array A, directly or through a wrapper of it,
    is seen by every wrapper of A, and by every model whose getCorrelation() is A: after the assignment
    model.correlation = A, or because A came from getCorrelation(). All others keep their numbers. *)
Theorem C121_writes_are_shared : forall h a i j v M, nth_error (cw_arr (crun h)) a = Some (Some M) ->
  let st := crun h in let st' := crun (h ++ [CWrite a i j v]) in
  (exists M', M' i j = v /\ (forall k l, (k, l) <> (i, j) -> M' k l = M k l) /\
    (forall m, corr_of st' m = if match getCorrelation st m with Some b => Nat.eqb b a | None => false end then Some M' else corr_of st m) /\
    (forall w, wrapped st' w = if match nth_error (cw_wrap st) w with Some (Some b) => Nat.eqb b a | _ => false end then Some M' else wrapped st w)) /\
  (forall w, nth_error (cw_wrap st) w = Some (Some a) -> crun (h ++ [CSetItem w i j v]) = st').
Proof.
  intros h a i j v M E st st'. assert (S' : st' = write st a i j v) by (unfold st', st, crun; rewrite fold_left_app; reflexivity).
  assert (WE : write st a i j v = mkCw (set_nth (cw_arr st) a (Some (upd2 M i j v))) (cw_wrap st) (cw_mod st)) by (unfold write, st; rewrite E; reflexivity).
  assert (LA : (a < length (cw_arr st))%nat) by (unfold st; apply nth_error_Some; congruence).
  assert (RD : forall b, nth b (set_nth (cw_arr st) a (Some (upd2 M i j v))) None = if Nat.eqb b a then Some (upd2 M i j v) else nth b (cw_arr st) None).
  { intros b. rewrite !nth_err. destruct (Nat.eqb_spec b a) as [->|N]; [rewrite set_nth_same by exact LA; reflexivity|]. rewrite set_nth_other by congruence. reflexivity. }
  split; [exists (upd2 M i j v); split; [unfold upd2; rewrite !Nat.eqb_refl; reflexivity|split; [|split]]|].
  - intros k l N. unfold upd2. destruct (Nat.eqb_spec k i) as [->|]; destruct (Nat.eqb_spec l j) as [->|]; try reflexivity. exfalso. apply N. reflexivity.
  - intros m. unfold corr_of, getCorrelation. rewrite S', WE. cbn [cw_mod cw_arr]. destruct (nth_error (cw_mod st) m) as [[n [b|]]|]; [apply RD|reflexivity|reflexivity].
  - intros w. unfold wrapped. rewrite S', WE. cbn [cw_wrap cw_arr]. destruct (nth_error (cw_wrap st) w) as [[b|]|]; [apply RD|reflexivity|reflexivity].
  - intros w EW. unfold crun. rewrite fold_left_app. fold (crun h). cbn [fold_left cstep]. fold st in EW |- *. rewrite EW, S'. reflexivity.
Qed.
Print Assumptions C121_writes_are_shared.

(** C121: the property assigns without copying, adding a distribution puts a fresh identity matrix in the
    slot, and neither changes any array. *)
Theorem C121_assign_and_add : forall h m n b, nth_error (cw_mod (crun h)) m = Some (n, b) ->
  (forall a, (a < length (cw_arr (crun h)))%nat -> getCorrelation (crun (h ++ [CAssign m a])) m = Some a /\ cw_arr (crun (h ++ [CAssign m a])) = cw_arr (crun h)) /\
  (exists a, getCorrelation (crun (h ++ [CAdd m])) m = Some a /\ corr_of (crun (h ++ [CAdd m])) m = Some meye /\ (length (cw_arr (crun h)) <= a)%nat /\ forall a', (a' < length (cw_arr (crun h)))%nat -> nth_error (cw_arr (crun (h ++ [CAdd m]))) a' = nth_error (cw_arr (crun h)) a').
Proof.
  intros h m n b E. assert (Hm : (m < length (cw_mod (crun h)))%nat) by (apply nth_error_Some; congruence). split.
  - intros a L. unfold crun. rewrite fold_left_app. fold (crun h). cbn [fold_left cstep]. rewrite E. apply Nat.ltb_lt in L. rewrite L. cbn. split; [|reflexivity]. unfold getCorrelation. cbn. rewrite set_nth_same by exact Hm. reflexivity.
  - exists (length (cw_arr (crun h))). unfold crun. rewrite fold_left_app. fold (crun h). cbn [fold_left cstep]. rewrite E. unfold corr_of, getCorrelation. cbn [cw_mod cw_arr]. rewrite set_nth_same by exact Hm. split; [reflexivity|]. split; [rewrite nth_err, nth_error_app2, Nat.sub_diag by lia; reflexivity|]. split; [lia|]. intros a' L. apply nth_error_app1. exact L.
Qed.
Print Assumptions C121_assign_and_add.

(** C121 refuted: "an analysis is not affected by later writes to the arrays the script holds". With
    model.correlation = A it is. *)
Theorem C121_assigned_array_refuted : exists h a i j v, getCorrelation (crun h) 0 = Some a /\ option_map (fun M => M i j) (corr_of (crun h) 0) = Some 0 /\ option_map (fun M => M i j) (corr_of (crun (h ++ [CWrite a i j v])) 0) = Some (1 / 2).
Proof.
  exists [CModel; CAdd 0; CAdd 0; CNew meye; CAssign 0 2], 2%nat, 0%nat, 1%nat, (1 / 2). repeat split; cbn; unfold upd2, meye, delta; cbn; reflexivity.
Qed.
Print Assumptions C121_assigned_array_refuted.

(** the hypotheses of C121_setCorrelation_copies on a script that goes on writing *)
Example C121_example :
  let h := [CModel; CAdd 0; CAdd 0; CNew (upd2 (upd2 meye 0 1 (1 / 2)) 1 0 (1 / 2)); CWrap (Some 2%nat)] in
  let later := [CWrite 2 0 1 0; CSetItem 0 1 0 0; CModel; CSetCorr 1 0] in
  option_map (fun M => M 0%nat 1%nat) (corr_of (crun (h ++ CSetCorr 0 0 :: later)) 0) = Some (1 / 2) /\
  option_map (fun M => M 0%nat 1%nat) (corr_of (crun (h ++ CSetCorr 0 0 :: later)) 1) = Some 0.
Proof. split; cbn; unfold upd2; cbn; reflexivity. Qed.
