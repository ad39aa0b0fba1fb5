(** C114: a session of several analyses on shared objects *)
From Coquelicot Require Import Coquelicot.
From Verif Require Import Base Ext Gauss StochModel StochModelSpec LimitState LimitStateSpec LimitStateProps Transf Form Nataf Dist Pipe RotProps PipeSpec PipeProofs PipeProps Sorm Mc McRun Ss SsRun Ls LsRun DaRun Session SessionSpec SessionProofs.
From Coq Require Import ZArith Lra Lia.
Open Scope R_scope.

Section Props.
(** the numerical oracles, arbitrary: the root search, LAPACK, brentq; the bounds of the loops *)
Variables (fmin : (R -> R) -> R -> R) (chol : nat -> mat -> result mat) (svd : nat -> mat -> result (mat * vec)) (inv : nat -> mat -> result mat).
Variable brentq : (R -> option R) -> R -> R -> option R * list R.
Variables fuel lf fl : nat.
Notation step := (step fmin chol svd inv brentq fuel lf fl).
Notation exec := (exec fmin chol svd inv brentq fuel lf fl).
Notation run_obj := (run_obj fmin chol svd inv brentq fuel lf fl).

(** Running other analyses, on the same model, limit state and options, with any outcome, changes neither how
    a run of analysis [a] ends nor the analysis object it leaves behind, with all its results. *)
Theorem C114_no_interference p a randn unif :
  snd (step (exec p) (Run a randn unif)) = snd (step (exec (alone a p)) (Run a randn unif)) /\
  nth_error (w_ans (exec p)) a = nth_error (w_ans (exec (alone a p))) a /\
  nth_error (w_ans (fst (step (exec p) (Run a randn unif)))) a = nth_error (w_ans (fst (step (exec (alone a p)) (Run a randn unif)))) a.
Proof.
  pose proof (exec_sim fmin chol svd inv brentq fuel lf fl a p) as H.
  destruct (step_sim2 fmin chol svd inv brentq fuel lf fl a _ _ (Run a randn unif) H) as ((_ & _ & _ & _ & E) & ES).
  { intros b rn un HE. injection HE as -> _ _. reflexivity. }
  split; [exact ES|]. split; [apply H|exact E].
Qed.

Lemma new_opts p1 c o : length (w_opts (exec p1)) = o -> length (w_opts (exec (p1 ++ [c]))) = S o -> nth_error (w_opts (fst (step (exec p1) c))) o = Some ao_init.
Proof.
  intros H1 H2. rewrite exec_app in H2. cbn [fold_left] in H2. revert H1 H2. destruct (exec p1) as [ms ls os ans]. cbn [w_opts]. intros <-.
    destruct c as [|m op|e|l e| |o' v|k m l o'|i rn un]; cbn [Session.step]; try (intros HH; exfalso; cbn in HH; lia).
    - destruct (nth_error ms m); cbn; lia.
    - destruct (Nat.ltb _ _); cbn; lia.
    - intros _. cbn. rewrite nth_error_app2, Nat.sub_diag by lia. reflexivity.
    - destruct (nth_error os o'); cbn; rewrite ?upd_length; lia.
    - destruct (arg ms _ _) as [[ms1 m1]|]; [|cbn; lia]. destruct (arg ls _ _) as [[ls1 l1]|]; [|cbn; lia].
      destruct o' as [o'|]; cbn [arg].
      + destruct (Nat.ltb _ _); [|cbn; lia]. destruct (construct _ _ _ _ _ _ _ _ _ _). cbn. lia.
      + destruct (construct _ _ _ _ _ _ _ _ _ _). cbn. intros _. rewrite nth_error_app2, Nat.sub_diag by lia. reflexivity.
    - destruct (nth_error ans i) as [[a|]|]; [|cbn; lia..]. destruct (run_obj _ _ _ _ _ _) as [[b t] out]. cbn. rewrite upd_length. lia.
Qed.

(** An options object holds, for every option, the last value the script gave it after its creation, else the
    default; runs and other objects do not change it (the print flag aside, see the next theorem). *)
Theorem C114_options p1 c p2 o : length (w_opts (exec p1)) = o -> length (w_opts (exec (p1 ++ [c]))) = S o ->
  exists x, nth_error (w_opts (exec (p1 ++ c :: p2))) o = Some x /\ current o p2 x.
Proof.
  intros H1 H2. rewrite exec_app. cbn [fold_left].
  assert (HN := new_opts p1 c o H1 H2).
  destruct (fold_opt fmin chol svd inv brentq fuel lf fl o p2 _ _ HN) as (y & Hy & EY). exists y. split; [exact Hy|]. apply fold_current. exact EY.
Qed.

(** A model object: registered variables, constants and correlation are those its own calls gave it. *)
Theorem C114_models p1 c p2 m : length (w_models (exec p1)) = m -> length (w_models (exec (p1 ++ [c]))) = S m ->
  (forall l o k, c <> NewAnalysis k None l o) ->
  exists s, nth_error (w_models (exec (p1 ++ c :: p2))) m = Some s /\ same_problem (sm_run (calls_on m p2)) s.
Proof.
  intros H1 H2 HC. rewrite exec_app in H2. cbn [fold_left] in H2. rewrite exec_app. cbn [fold_left].
  assert (HN : nth_error (w_models (fst (step (exec p1) c))) m = Some sm_init).
  { revert H1 H2. destruct (exec p1) as [ms ls os ans]. cbn [w_models]. intros <-.
    destruct c as [|m' op|e|l e| |o' v|k m' l o'|i rn un]; cbn [Session.step]; try (intros HH; exfalso; cbn in HH; lia).
    - intros _. cbn. rewrite nth_error_app2, Nat.sub_diag by lia. reflexivity.
    - destruct (nth_error ms m'); cbn; rewrite ?upd_length; lia.
    - destruct (Nat.ltb _ _); cbn; lia.
    - destruct (nth_error os o'); cbn; lia.
    - destruct m' as [m'|]; [|destruct (HC l o' k eq_refl)]. cbn [arg]. destruct (Nat.ltb _ _); [|cbn; lia].
      destruct (arg ls _ _) as [[ls1 l1]|]; [|cbn; lia]. destruct (arg os _ _) as [[os1 o1]|]; [|cbn; lia].
      destruct (construct _ _ _ _ _ _ _ _ _ _). cbn. rewrite upd_length. lia.
    - destruct (nth_error ans i) as [[a|]|]; [|cbn; lia..]. destruct (run_obj _ _ _ _ _ _) as [[b t] out]. cbn. rewrite upd_length. lia. }
  destruct (fold_model fmin chol svd inv brentq fuel lf fl m p2 _ _ HN) as (y & Hy & EY). exists y. split; [exact Hy|].
  rewrite fold_calls in EY. exact EY.
Qed.

(** A limit state: the last expression it was given. *)
Theorem C114_limit_states p1 e p2 : let l := length (w_ls (exec p1)) in
  nth_error (w_ls (exec (p1 ++ NewLimitState e :: p2))) l = Some (last_expr l e p2).
Proof.
  intros l. rewrite exec_app. cbn [fold_left]. apply fold_ls. unfold l. destruct (exec p1) as [ms ls os ans]. cbn. rewrite nth_error_app2, Nat.sub_diag by lia. reflexivity.
Qed.

(** An analysis object: class, references and the type of its transformation are fixed when it is constructed, the
    latter from the value the transform option has then; a later setTransform on the shared options does not reach it. *)
Theorem C114_analysis p1 k m l o p2 a x : length (w_ans (exec p1)) = a ->
  nth_error (w_ans (exec (p1 ++ [NewAnalysis k m l o]))) a = Some (Some x) ->
  (forall i, m = Some i -> an_model x = i) /\ (forall i, l = Some i -> an_ls x = i) /\ (forall i, o = Some i -> an_opts x = i) /\
  (o = None -> an_opts x = length (w_opts (exec p1))) /\
  (exists opts f0, nth_error (w_opts (exec (p1 ++ [NewAnalysis k m l o]))) (an_opts x) = Some opts /\
     form_init (ao_transform_type opts) = Ok f0 /\ obj_type (an_obj x) = fb_type f0) /\
  exists y, nth_error (w_ans (exec (p1 ++ NewAnalysis k m l o :: p2))) a = Some (Some y) /\
    an_model y = an_model x /\ an_ls y = an_ls x /\ an_opts y = an_opts x /\ same_class (an_obj x) (an_obj y) /\ obj_type (an_obj y) = obj_type (an_obj x).
Proof.
  intros H1 H2. rewrite exec_app in H2. cbn [fold_left] in H2. rewrite !exec_app. cbn [fold_left].
  enough (HH : (forall i, m = Some i -> an_model x = i) /\ (forall i, l = Some i -> an_ls x = i) /\ (forall i, o = Some i -> an_opts x = i) /\
    (o = None -> an_opts x = length (w_opts (exec p1))) /\
    (exists opts f0, nth_error (w_opts (fst (step (exec p1) (NewAnalysis k m l o)))) (an_opts x) = Some opts /\ form_init (ao_transform_type opts) = Ok f0 /\ obj_type (an_obj x) = fb_type f0)).
  { destruct HH as (? & ? & ? & ? & ?). repeat (split; [assumption|]). exact (fold_an fmin chol svd inv brentq fuel lf fl a p2 _ x H2). }
  revert H1 H2. destruct (exec p1) as [ms ls os ans]. cbn [w_ans w_opts Session.step]. intros <-.
  assert (NO : nth_error ans (length ans) = Some (Some x) -> False) by (intros E; apply (f_equal (fun z => match z with Some _ => 1%nat | None => 0%nat end)) in E; rewrite (proj2 (nth_error_None ans (length ans))) in E by lia; discriminate).
  destruct (arg ms sm_init m) as [[ms1 m1]|] eqn:AM; [|intros E; destruct (NO E)]. destruct (arg ls ls_none l) as [[ls1 l1]|] eqn:AL; [|intros E; destruct (NO E)]. destruct (arg os ao_init o) as [[os1 o1]|] eqn:AO; [|intros E; destruct (NO E)].
  destruct (construct _ _ _ _ _ _ k _ _ _) as [[r|e] t] eqn:EC; cbn [fst w_ans w_opts]; (rewrite nth_error_app2, Nat.sub_diag by lia); cbn [nth_error]; intros E; [|discriminate]. injection E as <-. cbn [an_model an_ls an_opts an_obj].
  destruct (construct_type fmin chol svd inv fuel lf _ _ _ _ _ _ EC) as (f0 & E1 & E2).
  assert (LO : (o1 < length os1)%nat).
  { revert AO. destruct o as [i|]; cbn [arg]; [destruct (Nat.ltb_spec i (length os)); [|discriminate]|]; intros E; injection E as <- <-; [assumption|rewrite app_length; cbn; lia]. }
  repeat split.
  - intros i ->. revert AM. cbn [arg]. destruct (Nat.ltb _ _); [|discriminate]. intros E; injection E as <- <-. reflexivity.
  - intros i ->. revert AL. cbn [arg]. destruct (Nat.ltb _ _); [|discriminate]. intros E; injection E as <- <-. reflexivity.
  - intros i ->. revert AO. cbn [arg]. destruct (Nat.ltb _ _); [|discriminate]. intros E; injection E as <- <-. reflexivity.
  - intros ->. cbn [arg] in AO. injection AO as <- <-. reflexivity.
  - exists (nth o1 os1 ao_init), f0. split; [apply nth_error_nth'; exact LO|auto].
Qed.

(** A run anywhere in a session ends, and leaves the analysis object, exactly as it would on a model object on which
    nothing but the registering calls were made, with the expression and the option values current at the time. *)
Theorem C114_run p a randn unif x s e opts s0 :
  nth_error (w_ans (exec p)) a = Some (Some x) -> nth_error (w_models (exec p)) (an_model x) = Some s ->
  nth_error (w_ls (exec p)) (an_ls x) = Some e -> nth_error (w_opts (exec p)) (an_opts x) = Some opts -> same_problem s0 s ->
  let r := run_obj (an_obj x) e opts s0 randn unif in
  snd (step (exec p) (Run a randn unif)) = snd r /\
  nth_error (w_ans (fst (step (exec p) (Run a randn unif)))) a = Some (Some (mkAn (an_model x) (an_ls x) (an_opts x) (fst (fst r)))).
Proof.
  intros HA HM HL HO HS r. unfold r. clear r. destruct (exec p) as [ms ls os ans]. cbn [w_models w_ls w_opts w_ans Session.step] in *. rewrite HA.
  rewrite (nth_err _ _ _ _ HM), (nth_err _ _ _ _ HL), (nth_err _ _ _ _ HO).
  destruct (run_ins fmin chol svd inv brentq fuel lf fl (an_obj x) e opts randn unif s0 s HS) as (E1 & E2 & _).
  destruct (run_obj (an_obj x) e opts s randn unif) as [[b t] out]. cbn [fst snd] in *. subst. split; [reflexivity|]. cbn [w_ans]. rewrite upd_nth, Nat.eqb_refl, HA. reflexivity.
Qed.

(** FORM has no memory: whatever the object did before, a run ends as that of a new Form object whose options have the
    transform type the object was constructed with. *)
Theorem C114_form_run p a randn unif x f s e opts s0 t f0 :
  nth_error (w_ans (exec p)) a = Some (Some x) -> an_obj x = OForm f -> nth_error (w_models (exec p)) (an_model x) = Some s ->
  nth_error (w_ls (exec p)) (an_ls x) = Some e -> nth_error (w_opts (exec p)) (an_opts x) = Some opts -> same_problem s0 s ->
  form_init t = Ok f0 -> fb_type f0 = obj_type (an_obj x) ->
  snd (step (exec p) (Run a randn unif)) = SForm (snd (run_form fmin chol svd inv fuel lf (fst e) (form_settings opts) (snd e) f0 s0)).
Proof.
  intros HA HF HM HL HO HS HT HE. destruct (C114_run p a randn unif x s e opts s0 HA HM HL HO HS) as [-> _]. rewrite HF in *. cbn [Session.run_obj obj_type] in *.
  destruct (run_core fmin chol svd inv fuel lf (fst e) (fo_of opts) (snd e) f f0 s0 s0 (core_refl _) HE) as (k & M & HR).
  destruct (run_form _ _ _ _ _ _ _ _ _ f s0) as [[f1 s1] out1]. destruct (run_form _ _ _ _ _ _ _ _ _ f0 s0) as [[f2 s2] out2]. destruct HR as (-> & _). reflexivity.
Qed.

(** Crude Monte Carlo and importance sampling: the run of the object on its own with the settings now held. *)
Theorem C114_mc_run p a randn unif x m s e opts s0 :
  nth_error (w_ans (exec p)) a = Some (Some x) -> nth_error (w_models (exec p)) (an_model x) = Some s ->
  nth_error (w_ls (exec p)) (an_ls x) = Some e -> nth_error (w_opts (exec p)) (an_opts x) = Some opts -> same_problem s0 s ->
  (an_obj x = OCrude m -> snd (step (exec p) (Run a randn unif)) = SMc (snd (cmc_run_on fmin chol svd inv (fst e) (form_settings opts) (mc_settings opts) (snd e) randn fl m s0 0))) /\
  (an_obj x = OImportance m -> snd (step (exec p) (Run a randn unif)) = SMc (snd (is_run_on fmin chol svd inv (fst e) (form_settings opts) (mc_settings opts) (snd e) randn fl m s0 0))).
Proof.
  intros HA HM HL HO HS. destruct (C114_run p a randn unif x s e opts s0 HA HM HL HO HS) as [-> _]. change (form_settings opts) with (fo_of opts). change (mc_settings opts) with (mo_of opts).
  split; intros ->; cbn [Session.run_obj].
  - destruct (cmc_run_on _ _ _ _ _ _ _ _ _ _ m s0 0) as [[m1 s1] out1]. reflexivity.
  - destruct (is_run_on _ _ _ _ _ _ _ _ _ _ m s0 0) as [[m1 s1] out1]. reflexivity.
Qed.

(** The print flag: without importance sampling analyses also the last value set. *)
Lemma no_is p : no_importance p -> forall i x, nth_error (w_ans (exec p)) i = Some (Some x) -> forall m, an_obj x <> OImportance m.
Proof.
  induction p as [|c p IH] using rev_ind; intros HN i x H; [destruct i; discriminate|].
  rewrite exec_app in H. cbn [fold_left] in H.
  assert (HP : no_importance p) by (intros m l o HI; apply (HN m l o), in_or_app; auto). specialize (IH HP). revert IH H. destruct (exec p) as [ms ls os ans]. cbn [w_ans]. intros IH H m.
  destruct c as [|m' op|e'|l' e'| |o' v|k m' l' o'|j rn un]; cbn [Session.step] in H.
  - eauto.
  - destruct (nth_error ms m'); eauto.
  - eauto.
  - destruct (Nat.ltb _ _); eauto.
  - eauto.
  - destruct (nth_error os o'); eauto.
  - destruct (arg ms _ _) as [[ms1 m1]|]; [|eauto]. destruct (arg ls _ _) as [[ls1 l1]|] eqn:EL; [|eauto]. destruct (arg os _ _) as [[os1 o1]|]; [|eauto].
    destruct (construct _ _ _ _ _ _ k _ _ _) as [r t] eqn:EC. cbn [fst w_ans] in H.
    destruct (Nat.lt_ge_cases i (length ans)) as [L|L]; [rewrite nth_error_app1 in H by exact L; eauto|]. rewrite nth_error_app2 in H by exact L.
    destruct (i - length ans)%nat as [|q]; [|destruct q; discriminate]. cbn [nth_error] in H. destruct r as [r|]; [|discriminate]. injection H as <-. cbn [an_obj]. intros ->.
    destruct k as [|pt| |p0 sg| |]; cbn [construct] in EC.
    + destruct (form_init _); discriminate.
    + destruct (cmc_new _ _ _); discriminate.
    + apply (HN m' l' o'), in_or_app. right. left. reflexivity.
    + destruct (ss_new _ _ _); discriminate.
    + destruct (ls_new _ _ _); discriminate.
    + destruct (da_new _ _); discriminate.
  - destruct (nth_error ans j) as [[y|]|] eqn:EJ; [|eauto..].
    pose proof (run_type fmin chol svd inv brentq fuel lf fl (an_obj y) (nth (an_ls y) ls ls_none) (nth (an_opts y) os ao_init) (nth (an_model y) ms sm_init) rn un) as [RT _].
    destruct (run_obj _ _ _ _ _ _) as [[b t] out]. cbn [fst snd w_ans] in *. rewrite upd_nth in H. destruct (Nat.eqb_spec j i) as [->|]; [|eauto]. rewrite EJ in H. injection H as <-. cbn [an_obj]. intros ->.
    specialize (IH i y EJ). destruct (an_obj y) as [f|q|q|q|q|q]; try contradiction. exact (IH q eq_refl).
Qed.

Theorem C114_print p1 c p2 o : length (w_opts (exec p1)) = o -> length (w_opts (exec (p1 ++ [c]))) = S o -> no_importance (p1 ++ c :: p2) ->
  exists x, nth_error (w_opts (exec (p1 ++ c :: p2))) o = Some x /\ ao_print_output x = last_set is_print o false p2.
Proof.
  intros H1 H2. induction p2 as [|d p2 IH] using rev_ind; intros HN.
  - pose proof (new_opts p1 c o H1 H2) as E. rewrite exec_app. cbn [fold_left]. exists ao_init. split; [exact E|reflexivity].
  - assert (HP : no_importance (p1 ++ c :: p2)).
    { intros m l q HI. apply (HN m l q). rewrite app_comm_cons, app_assoc. apply in_or_app. left. exact HI. }
    destruct (IH HP) as (x & Hx & EX). rewrite app_comm_cons, app_assoc, exec_app. cbn [fold_left].
    pose proof (no_is (p1 ++ c :: p2) HP) as NI.
    assert (LS : forall q : list cmd, last_set is_print o false (q ++ [d]) = match d with Set_ o' v => if Nat.eqb o o' then match is_print v with Some z => z | None => last_set is_print o false q end else last_set is_print o false q | _ => last_set is_print o false q end).
    { generalize false. intros b q. revert b. induction q as [|y q IQ]; intros b; [destruct d; reflexivity|]. cbn [app last_set]. destruct y; apply IQ. }
    rewrite LS, <- EX. clear LS IH. revert Hx NI. destruct (exec (p1 ++ c :: p2)) as [ms ls os ans]. cbn [w_opts w_ans]. intros Hx NI.
    assert (SAME : exists y, nth_error os o = Some y /\ ao_print_output y = ao_print_output x) by eauto.
    destruct d as [|m op|e|l e| |o' v|k m l o'|i rn un]; cbn [Session.step].
    + exact SAME.
    + destruct (nth_error ms m); exact SAME.
    + exact SAME.
    + destruct (Nat.ltb _ _); exact SAME.
    + exists x. split; [apply app_nth, Hx|reflexivity].
    + destruct (Nat.eqb_spec o o') as [<-|NE].
      * rewrite Hx. cbn. rewrite upd_nth, Nat.eqb_refl, Hx. eexists. split; [reflexivity|]. destruct x, v; reflexivity.
      * destruct (nth_error os o'); [|exact SAME]. cbn. rewrite upd_nth. destruct (Nat.eqb_spec o' o); [congruence|exact SAME].
    + destruct (arg ms _ _) as [[ms1 m1]|]; [|exact SAME]. destruct (arg ls _ _) as [[ls1 l1]|]; [|exact SAME]. destruct (arg os _ _) as [[os1 o1]|] eqn:EO; [|exact SAME].
      destruct (construct _ _ _ _ _ _ _ _ _ _) as [r t]. cbn. exists x. split; [exact (arg_nth _ _ _ _ _ _ _ EO Hx)|reflexivity].
    + destruct (nth_error ans i) as [[a|]|] eqn:EA; [|exact SAME..]. destruct (run_obj _ _ _ _ _ _) as [[b t] out]. cbn. rewrite upd_nth.
      destruct (Nat.eqb_spec (an_opts a) o) as [<-|]; [|exact SAME]. rewrite Hx, (nth_err _ _ _ _ Hx). eexists. split; [reflexivity|].
      specialize (NI i a EA). destruct (an_obj a) as [q|q|q|q|q|q]; try reflexivity. destruct (NI q eq_refl).
Qed.

(** Importance sampling: a run that ends leaves the print option of the shared options object as it was; a run
    stopped by its initialisation too; one that raises later leaves it switched off, whatever it was. *)
Theorem C114_print_importance p i randn unif x m q s :
  nth_error (w_ans (exec p)) i = Some (Some x) -> an_obj x = OImportance m ->
  nth_error (w_opts (exec p)) (an_opts x) = Some q -> nth_error (w_models (exec p)) (an_model x) = Some s ->
  exists q' out, nth_error (w_opts (exec (p ++ [Run i randn unif]))) (an_opts x) = Some q' /\ snd (step (exec p) (Run i randn unif)) = SMc out /\
    (out = MEnd -> ao_print_output q' = ao_print_output q) /\
    (forall e, snd (init_run_full fmin chol svd inv (mb_type m) s) = Err e -> out = MRaised e /\ ao_print_output q' = ao_print_output q) /\
    (forall z, snd (init_run_full fmin chol svd inv (mb_type m) s) = Ok z -> out <> MEnd -> ao_print_output q' = false).
Proof.
  intros HA HO HQ HM. rewrite exec_app. cbn [fold_left]. revert HA HQ HM. destruct (exec p) as [ms ls os ans]. cbn [w_ans w_opts w_models]. intros HA HQ HM.
  cbn [Session.step]. rewrite HA, HO, (nth_err _ _ _ _ HM). cbn [run_obj]. 
  assert (II : forall e, snd (init_run_full fmin chol svd inv (mb_type m) s) = Err e -> snd (is_run_on fmin chol svd inv (fst (nth (an_ls x) ls ls_none)) (fo_of (nth (an_opts x) os ao_init)) (mo_of (nth (an_opts x) os ao_init)) (snd (nth (an_ls x) ls ls_none)) randn fl m s 0) = MRaised e).
  { intros e H. unfold is_run_on. destruct (init_run_full fmin chol svd inv (mb_type m) s) as [s1 [z|e']]; cbn in H; [discriminate|]. injection H as ->. reflexivity. }
  destruct (is_run_on _ _ _ _ _ _ _ _ _ _ _ _) as [[b t] out]. cbn [snd] in II. cbn [fst snd w_opts]. rewrite upd_nth, Nat.eqb_refl, HQ, (nth_err _ _ _ _ HQ). eexists. exists out. split; [reflexivity|]. split; [reflexivity|].
  unfold print_after. destruct (snd (init_run_full fmin chol svd inv (mb_type m) s)) as [z|e] eqn:EI.
  - destruct out; (split; [intros H; try discriminate; reflexivity|split; [discriminate|intros z' _ H; try contradiction; destruct q; reflexivity]]).
  - split; [reflexivity|]. split; [|discriminate]. intros e' H. injection H as <-. split; [apply II; reflexivity|]. destruct out; reflexivity.
Qed.
End Props.
Print Assumptions C114_no_interference.
Print Assumptions C114_options.
Print Assumptions C114_models.
Print Assumptions C114_limit_states.
Print Assumptions C114_analysis.
Print Assumptions C114_run.
Print Assumptions C114_form_run.
Print Assumptions C114_mc_run.
Print Assumptions C114_print.
Print Assumptions C114_print_importance.

(** A session: FORM, Monte Carlo and subset simulation on one model, one limit state and one options object; the others run
    first, with any numbers of the generators and any outcome, and the options are changed.  FORM gives what it gives alone. *)
Definition ex_setup : list cmd :=
  [NewModel; ModelCall 0 (OpAdd (ODist (Normal "R" 200 20))); ModelCall 0 (OpAdd (OConst "k" 3)); ModelCall 0 (OpAdd (ODist (Normal "S" 40 5)));
   ModelCall 0 (OpSetCorr [[1; 1/2]; [1/2; 1]]); NewLimitState (expr_ex, None); NewOptions].
Definition ex_rest (rn un : nat -> R) : list cmd :=
  [NewAnalysis (KCrude None) (Some 0%nat) (Some 0%nat) (Some 0%nat); NewAnalysis (KSubset (1 / 10) 1) (Some 0%nat) (Some 0%nat) (Some 0%nat); Set_ 0 (SetSamples 7); Set_ 0 (SetTransform (Some "svd"%string));
   Run 1 rn un; Run 2 rn un; Set_ 0 (SetPrintOutput true)].
Definition ex_script (rn un : nat -> R) : list cmd := ex_setup ++ NewAnalysis KForm (Some 0%nat) (Some 0%nat) (Some 0%nat) :: ex_rest rn un.

Example C114_example brentq fl rn un rn' un' : exists r x,
  snd (step (fun _ x => x) chol2 svd2 inv2 brentq 101 10 fl (exec (fun _ x => x) chol2 svd2 inv2 brentq 101 10 fl (ex_script rn un)) (Run 0 rn' un')) = SForm (FDone r) /\
  form_beta 2 r = Fin (80 / sqrt (20^2 + 15^2 - 20 * 15)) /\
  nth_error (w_opts (exec (fun _ x => x) chol2 svd2 inv2 brentq 101 10 fl (ex_script rn un))) 0 = Some x /\ ao_samples x = 7%Z /\ ao_print_output x = true /\
  alone 0 (ex_script rn un) <> ex_script rn un.
Proof.
  destruct (C114_models (fun _ x => x) chol2 svd2 inv2 brentq 101 10 fl [] NewModel (tl (ex_script rn un)) 0 eq_refl eq_refl) as (s & Hs & CS); [discriminate|].
  pose proof (C114_limit_states (fun _ x => x) chol2 svd2 inv2 brentq 101 10 fl (firstn 5 ex_setup) (expr_ex, None) (skipn 6 (ex_script rn un))) as HL.
  destruct (C114_options (fun _ x => x) chol2 svd2 inv2 brentq 101 10 fl (firstn 6 ex_setup) NewOptions (skipn 7 (ex_script rn un)) 0 eq_refl eq_refl) as (o & Ho & CO).
  destruct (C114_print (fun _ x => x) chol2 svd2 inv2 brentq 101 10 fl (firstn 6 ex_setup) NewOptions (skipn 7 (ex_script rn un)) 0 eq_refl eq_refl) as (o' & Ho' & CP).
  { intros m l q HI. cbn in HI. repeat (destruct HI as [HI|HI]; [discriminate|]). exact HI. }
  destruct (C114_analysis (fun _ x => x) chol2 svd2 inv2 brentq 101 10 fl ex_setup KForm (Some 0%nat) (Some 0%nat) (Some 0%nat) (ex_rest rn un) 0 (mkAn 0 0 0 (OForm aF)) eq_refl eq_refl) as (_ & _ & _ & _ & _ & y & Hy & Y1 & Y2 & Y3 & Y4 & Y5).
  cbn [an_model an_ls an_opts an_obj obj_type same_class] in *.
  change (firstn 6 ex_setup ++ NewOptions :: skipn 7 (ex_script rn un))%list with (ex_script rn un) in *. change (firstn 5 ex_setup ++ NewLimitState (expr_ex, None) :: skipn 6 (ex_script rn un))%list with (ex_script rn un) in HL.
  change ([] ++ NewModel :: tl (ex_script rn un))%list with (ex_script rn un) in Hs. change (ex_setup ++ NewAnalysis KForm (Some 0%nat) (Some 0%nat) (Some 0%nat) :: ex_rest rn un)%list with (ex_script rn un) in Hy.
  change (calls_on 0 (tl (ex_script rn un))) with h_pipe2 in CS. cbv zeta in HL. change (length (w_ls _)) with 0%nat in HL. cbn [last_expr skipn ex_script ex_setup app ex_rest] in HL.
  rewrite Ho in Ho'. injection Ho' as <-.
  destruct (an_obj y) as [f| | | | |] eqn:EY; try contradiction.
  destruct C92_default_example as (r & a' & s' & ER & EB). cbv zeta in ER, EB.
  exists r, o.
  rewrite (C114_form_run (fun _ x => x) chol2 svd2 inv2 brentq 101 10 fl (ex_script rn un) 0 rn' un' y f s (expr_ex, None) o (sm_run h_pipe2) None aF); try assumption.
  - split; [|split; [exact EB|split; [exact Ho|]]].
    + replace (form_settings o) with default_options; [cbn [fst snd]; rewrite ER; reflexivity|].
      destruct CO as (C1 & C2 & C3 & C4 & C5 & C6 & C7 & C8 & _). unfold form_settings. rewrite C1, C2, C3, C4, C5, C6, C7, C8. reflexivity.
    + split; [apply CO|]. split; [rewrite CP; reflexivity|]. intros X. apply (f_equal (@length cmd)) in X. discriminate.
  - rewrite Y1. exact Hs.
  - rewrite Y2. exact HL.
  - rewrite Y3. exact Ho.
  - reflexivity.
  - rewrite EY. symmetry. exact Y5.
Qed.
Print Assumptions C114_example.
