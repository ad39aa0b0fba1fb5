(** Lemmas for C116. *)
From Coquelicot Require Import Coquelicot.
From Verif Require Import Base Ext Dict Gauss StochModel StochModelSpec StochModelProofs LimitState Transf Form FormProofs Nataf Dist Pipe PipeProofs FormAttr FormAttrSpec.
From Coq Require Import ZArith Lra Lia.
Open Scope R_scope.

Section Loop.
Variables (inv : nat -> mat -> result mat) (lf : nat) (expr : expression) (fo : form_opts) (n : nat) (T A : mat) (evn : option exn).

(** the loop with attributes is the loop without *)
Lemma loop_at_st fuel : forall i Go us lG lg al s,
  fst (loop_at inv lf expr fo n T A evn fuel i Go us lG lg al s) = loop_st inv lf expr fo n T A evn fuel i Go us lG lg s.
Proof.
  induction fuel as [|f IH]; intros i Go us lG lg al s; [reflexivity|]. cbn [loop_at loop_st]. destruct us as [u|].
  - destruct (ev_st _ _ _ _ _ _ _ _ _) as [[[G g]|e] s']; [|reflexivity].
    destruct (Reqb (norm n g) 0).
    + destruct (i =? fo_imax fo)%Z; [reflexivity|]. destruct (nan_step fo evn); [apply IH|reflexivity].
    + cbv zeta. destruct (_ || _)%bool; [reflexivity|]. destruct (step_st _ _ _ _ _ _ _ _ _ _) as [[t|e] s2]; [apply IH|reflexivity].
  - destruct evn as [e|] eqn:Ee; [reflexivity|]. cbv zeta. destruct (i =? fo_imax fo)%Z; [reflexivity|]. destruct (nan_step fo None); [apply IH|reflexivity].
Qed.

(** what a completed loop leaves in u and alpha *)
Definition left_over (r : form_res) (us : option vec) (al : option (nat * option vec)) : Prop :=
  match fr_u r with
  | Some u => us = Some u /\ al = Some (n, Some (alpha_of n (fr_grad r))) /\ norm n (fr_grad r) <> 0
  | None => al = Some (n, None)
  end.
Lemma loop_at_done fuel : forall i Go us lG lg al s r s' us' al',
  loop_at inv lf expr fo n T A evn fuel i Go us lG lg al s = (FDone r, s', (us', al')) -> left_over r us' al'.
Proof.
  induction fuel as [|f IH]; intros i Go us lG lg al s r s' us' al' E; [discriminate|]. cbn [loop_at] in E. destruct us as [u|].
  - destruct (ev_st _ _ _ _ _ _ _ _ _) as [[[G g]|e] s1]; [|discriminate].
    destruct (Reqb (norm n g) 0) eqn:EN.
    + destruct (i =? fo_imax fo)%Z; [injection E as <- <- <- <-; reflexivity|]. destruct (nan_step fo evn); [|discriminate]. eapply IH, E.
    + cbv zeta in E. destruct (_ || _)%bool.
      * injection E as <- <- <- <-. unfold left_over. cbn [fr_u fr_grad]. repeat split. intros X. apply Reqb_spec in X. congruence.
      * destruct (step_st _ _ _ _ _ _ _ _ _ _) as [[t|e] s2]; [|discriminate]. eapply IH, E.
  - destruct evn as [e|] eqn:Ee; [discriminate|]. cbv zeta in E. destruct (i =? fo_imax fo)%Z; [injection E as <- <- <- <-; reflexivity|].
    destruct (nan_step fo None); [|discriminate]. eapply IH, E.
Qed.
End Loop.

Section Run.
Variables (fmin : (R -> R) -> R -> R) (chol : nat -> mat -> result mat) (svd : nat -> mat -> result (mat * vec)) (inv : nat -> mat -> result mat).

Lemma run_at_form fuel lf expr fo evn a s b : fb_type b = fa_type a ->
  let '(a1, s1, o1) := run_at fmin chol svd inv fuel lf expr fo evn a s in
  let '(b2, s2, o2) := run_form fmin chol svd inv fuel lf expr fo evn b s in
  s1 = s2 /\ o1 = o2 /\ fa_type a1 = fa_type a /\ fb_type b2 = fb_type b.
Proof.
  intros HT. unfold run_at, run_form. rewrite HT. destruct (init_run_full _ _ _ _ _ _) as [s1 [[T A]|e]]; [|cbn; auto]. cbv zeta.
  destruct (Nat.eqb _ _); [|cbn; auto].
  match goal with |- context [loop_at inv lf expr fo ?n T A evn fuel ?i ?Go ?us ?lG ?lg ?al s1] => pose proof (loop_at_st inv lf expr fo n T A evn fuel i Go us lG lg al s1) as X end.
  destruct (loop_at _ _ _ _ _ _ _ _ _ _ _ _ _ _ _ _) as [[out s2] [us al]]. cbn [fst] in X. rewrite <- X. destruct out; cbn; auto.
Qed.
Lemma run_at_core fuel lf expr fo evn a s : same_core s (snd (fst (run_at fmin chol svd inv fuel lf expr fo evn a s))).
Proof.
  set (b := mkFobj false (fa_type a) None None).
  pose proof (run_at_form fuel lf expr fo evn a s b eq_refl) as H.
  destruct (run_core fmin chol svd inv fuel lf expr fo evn b b s s (core_refl s) eq_refl) as (k & M & C).
  destruct (run_at _ _ _ _ _ _ _ _ _ a s) as [[a1 s1] o1]. destruct (run_form _ _ _ _ _ _ _ _ _ b s) as [[b2 s2] o2]. cbn [fst snd]. destruct H as (-> & _). apply C.
Qed.

(** a run by cases *)
Lemma run_at_cases fuel lf expr fo evn a s :
  let '(a1, s1, o1) := run_at fmin chol svd inv fuel lf expr fo evn a s in
  fa_valid a1 = true /\ fa_type a1 = fa_type a /\ same_core s s1 /\
  match o1 with
  | FDone r =>
      let n := length (sm_marg s) in
      exists T A us, snd (init_run_full fmin chol svd inv (fa_type a) s) = Ok (T, A) /\
        fa_T a1 = Some (n, T, A) /\ fa_i a1 = Some (fr_i r) /\ fa_beta a1 = Some (form_beta n r) /\ fa_Pf a1 = Some (form_Pf n r) /\
        fa_u a1 = Some (n, us) /\ left_over n r us (fa_alpha a1)
  | _ => fa_i a1 = fa_i a /\ fa_beta a1 = fa_beta a /\ fa_Pf a1 = fa_Pf a
  end.
Proof.
  pose proof (run_at_core fuel lf expr fo evn a s) as HC. pose proof (init_core fmin chol svd inv (fa_type a) s s (core_refl s)) as [_ HI].
  unfold run_at in *. destruct (init_run_full _ _ _ _ _ _) as [s1 [[T A]|e]] eqn:EI; cbn [fst snd] in *; [|solve [cbn; auto 10]].
  assert (EM : sm_marg s1 = sm_marg s) by (destruct HI as [(-> & _)|(M & -> & _)]; reflexivity).
  cbv zeta in *. destruct (Nat.eqb _ _) eqn:EQ; [|solve [cbn [fst snd] in *; cbn; auto 10]].
  apply Nat.eqb_eq in EQ.
  match goal with |- context [loop_at inv lf expr fo ?n T A evn fuel ?i ?Go ?us ?lG ?lg ?al s1] => pose proof (loop_at_done inv lf expr fo n T A evn fuel i Go us lG lg al s1) as X end.
  destruct (loop_at _ _ _ _ _ _ _ _ _ _ _ _ _ _ _ _) as [[out s2] [us al]]. destruct out as [r|e|]; cbn [fst snd] in HC; [|solve [cbn; auto 10]..].
  cbn.
  split; [reflexivity|]. split; [reflexivity|]. split; [exact HC|]. rewrite EQ, EM. exists T, A, us.
  specialize (X r s2 us al eq_refl). rewrite EM in X. repeat split; auto.
Qed.

End Run.

Section Hist.
Variables (fmin : (R -> R) -> R -> R) (chol : nat -> mat -> result mat) (svd : nat -> mat -> result (mat * vec)) (inv : nat -> mat -> result mat) (fuel lf : nat).
Notation step := (fstep fmin chol svd inv fuel lf).
Notation exec := (fexec fmin chol svd inv fuel lf).
Notation runs_of := (completed fmin chol svd inv fuel lf).

Lemma exec_app w h1 h2 : exec w (h1 ++ h2) = exec (exec w h1) h2.
Proof. apply fold_left_app. Qed.
Lemma exec_cons w c h : exec w (c :: h) = exec (fst (step w c)) h. Proof. reflexivity. Qed.

Lemma no_run_attr h : forall w, no_run h -> fw_a (exec w h) = fw_a w.
Proof.
  induction h as [|c h IH]; intros w H; [reflexivity|]. rewrite exec_cons, IH.
  - destruct c; try reflexivity. exfalso. apply H. now left.
  - intros X. apply H. now right.
Qed.
Lemma step_marg s op : (forall d, op <> OpAdd (ODist d)) -> sm_marg (sm_step s op) = sm_marg s /\ sm_variables (sm_step s op) = sm_variables s.
Proof.
  intros H. destruct op as [o|M|M|k]; cbn; auto. destruct o as [d|nm v|]; cbn; auto; [now destruct (H d)|].
  destruct (mem_str nm (sm_names s)); cbn; auto.
Qed.
Lemma no_new_marg h : forall w, no_new_variable h -> sm_marg (fw_s (exec w h)) = sm_marg (fw_s w) /\ sm_variables (fw_s (exec w h)) = sm_variables (fw_s w).
Proof.
  induction h as [|c h IH]; intros w H; [auto|]. rewrite exec_cons.
  destruct (IH (fst (step w c)) (fun d X => H d (or_intror X))) as [-> ->].
  destruct c as [op|e evn|fo|]; cbn; auto.
  - apply step_marg. intros d ->. apply (H d). now left.
  - pose proof (run_at_core fmin chol svd inv fuel lf (fw_e w) (fw_o w) (fw_n w) (fw_a w) (fw_s w)) as C.
    destruct (run_at _ _ _ _ _ _ _ _ _ _ _) as [[a1 s1] o1]. cbn in *. destruct C as (E1 & E2 & E3 & _). auto.
Qed.
Lemma step_len s op : (length (sm_marg s) <= length (sm_marg (sm_step s op)))%nat.
Proof.
  destruct op as [o|M|M|k]; cbn; auto. destruct o as [d|nm v|]; cbn; auto; destruct (mem_str _ _); cbn; auto. rewrite app_length. lia.
Qed.
Lemma exec_len h : forall w, (length (sm_marg (fw_s w)) <= length (sm_marg (fw_s (exec w h))))%nat.
Proof.
  induction h as [|c h IH]; intros w; [auto|]. rewrite exec_cons. eapply Nat.le_trans; [|apply IH].
  destruct c as [op|e evn|fo|]; cbn; auto; [apply step_len|].
  pose proof (run_at_core fmin chol svd inv fuel lf (fw_e w) (fw_o w) (fw_n w) (fw_a w) (fw_s w)) as C.
  destruct (run_at _ _ _ _ _ _ _ _ _ _ _) as [[a1 s1] o1]. cbn in *. destruct C as (E1 & E2 & E3 & _). rewrite E3. auto.
Qed.

Definition reads (a : fattr) (q : option (nat * form_res)) : Prop :=
  match q with
  | Some (n, r) => fa_i a = Some (fr_i r) /\ fa_beta a = Some (form_beta n r) /\ fa_Pf a = Some (form_Pf n r)
  | None => True
  end.
Lemma last_cons {X} (x : X) l : last_of (x :: l) = match last_of l with Some y => Some y | None => Some x end.
Proof.
  revert x. induction l as [|y l IH]; intros x; [reflexivity|]. change (last_of (x :: y :: l)) with (last_of (y :: l)). rewrite (IH y).
  destruct (last_of l); reflexivity.
Qed.
Lemma exec_reads h : forall w,
  match last_of (runs_of w h) with
  | Some (n, r) => fa_i (fw_a (exec w h)) = Some (fr_i r) /\ fa_beta (fw_a (exec w h)) = Some (form_beta n r) /\ fa_Pf (fw_a (exec w h)) = Some (form_Pf n r)
  | None => fa_i (fw_a (exec w h)) = fa_i (fw_a w) /\ fa_beta (fw_a (exec w h)) = fa_beta (fw_a w) /\ fa_Pf (fw_a (exec w h)) = fa_Pf (fw_a w)
  end.
Proof.
  induction h as [|c h IH]; intros w; [cbn; auto|]. rewrite exec_cons. specialize (IH (fst (step w c))). cbn [completed].
  destruct (step w c) as [w' out] eqn:ES. cbn [fst] in *.
  destruct c as [op|e evn|fo|]; cbn in ES; try (injection ES as <- <-; exact IH).
  pose proof (run_at_cases fmin chol svd inv fuel lf (fw_e w) (fw_o w) (fw_n w) (fw_a w) (fw_s w)) as C.
  destruct (run_at _ _ _ _ _ _ _ _ _ _ _) as [[a1 s1] o1]. injection ES as <- <-. cbn [fw_a] in IH. destruct C as (_ & _ & _ & C).
  destruct o1 as [r|e|].
  2,3: cbn [app]; destruct C as (C1 & C2 & C3); destruct (last_of _) as [[n r]|]; [exact IH|]; rewrite C1, C2, C3 in IH; exact IH.
  cbn [app]. rewrite last_cons. destruct C as (T & A & us & _ & _ & C1 & C2 & C3 & _).
  destruct (last_of _) as [[n q]|]; [exact IH|]. rewrite C1, C2, C3 in IH. exact IH.
Qed.
Lemma exec_valid h : forall w, In FRun h -> fa_valid (fw_a (exec w h)) = true.
Proof.
  assert (K : forall h w, fa_valid (fw_a w) = true -> fa_valid (fw_a (exec w h)) = true).
  { clear h. induction h as [|c h IH]; intros w H; [exact H|]. rewrite exec_cons. apply IH.
    destruct c as [op|e evn|fo|]; cbn; auto.
    pose proof (run_at_cases fmin chol svd inv fuel lf (fw_e w) (fw_o w) (fw_n w) (fw_a w) (fw_s w)) as C.
    destruct (run_at _ _ _ _ _ _ _ _ _ _ _) as [[a1 s1] o1]. apply C. }
  induction h as [|c h IH]; intros w H; [destruct H|]. rewrite exec_cons. destruct H as [->|H]; [|now apply IH].
  apply K. cbn. pose proof (run_at_cases fmin chol svd inv fuel lf (fw_e w) (fw_o w) (fw_n w) (fw_a w) (fw_s w)) as C.
  destruct (run_at _ _ _ _ _ _ _ _ _ _ _) as [[a1 s1] o1]. apply C.
Qed.
End Hist.

(** the model object of a history is, up to the counter and the stored modified correlation, the one
    built by its model operations alone *)
Lemma step_core s s' op : same_core s s' -> same_core (sm_step s op) (sm_step s' op).
Proof.
  intros (E1 & E2 & E3 & E4 & E5). destruct op as [o|M|M|k]; cbn; [|repeat split; assumption..].
  destruct o as [d|nm v|]; cbn; [| |repeat split; assumption].
  - rewrite E2. destruct (mem_str _ _); unfold same_core; cbn; [auto|]. rewrite E1, E3. auto.
  - rewrite E2. destruct (mem_str _ _); unfold same_core; cbn; [auto|]. rewrite E5. auto.
Qed.
Lemma exec_model fmin chol svd inv fuel lf h : forall w s, same_core s (fw_s w) ->
  same_core (fold_left sm_step (model_ops h) s) (fw_s (fexec fmin chol svd inv fuel lf w h)).
Proof.
  induction h as [|c h IH]; intros w s H; [exact H|]. rewrite exec_cons. destruct c as [op|e evn|fo|]; cbn [model_ops flat_map app fold_left].
  - apply IH. cbn. now apply step_core.
  - apply IH. exact H.
  - apply IH. exact H.
  - apply IH. cbn. pose proof (run_at_core fmin chol svd inv fuel lf (fw_e w) (fw_o w) (fw_n w) (fw_a w) (fw_s w)) as C.
    destruct (run_at _ _ _ _ _ _ _ _ _ _ _) as [[a1 s1] o1]. cbn in *. eapply core_trans; eassumption.
Qed.

(** rows of the report *)
Lemma rows_ok (u al : nat -> R) x n : length x = n -> forall names i, (i + length names <= n)%nat ->
  rows i names (n, Some u) (n, Some al) x = Ok (map (fun jn => (snd jn, Fin (u (fst jn)), nth (fst jn) x NaN, Fin (al (fst jn)))) (combine (seq i (length names)) names)).
Proof.
  intros HL. induction names as [|nm names IH]; intros i H; [reflexivity|]. cbn [rows length seq combine map] in *.
  unfold comp. cbn [fst snd]. destruct (Nat.ltb_spec i n) as [L|L]; [|lia]. cbn [rbind].
  destruct (nth_error x i) as [v|] eqn:E; [|apply nth_error_None in E; lia]. cbn [rbind].
  rewrite IH by lia. cbn [rbind fst snd]. do 2 f_equal. f_equal. now rewrite (nth_error_nth x i NaN E).
Qed.
Lemma rows_nan us x n : length x = n -> forall names i, (i + length names <= n)%nat ->
  exists l, rows i names (n, us) (n, None) x = Ok l /\ map (fun q => snd q) l = map (fun _ => NaN) names.
Proof.
  intros HL. induction names as [|nm names IH]; intros i H; [exists []; auto|]. cbn [rows length] in *.
  unfold comp. cbn [fst snd]. destruct (Nat.ltb_spec i n) as [L|L]; [|lia]. cbn [rbind].
  destruct (nth_error x i) as [v|] eqn:E; [|apply nth_error_None in E; lia]. cbn [rbind].
  destruct (IH (S i) ltac:(lia)) as (l & El & Em). rewrite El. cbn [rbind]. eexists. split; [reflexivity|]. cbn. now rewrite Em.
Qed.


(** an evaluation of a limit state function that always raises *)
Lemma block_raise lf s e nrv assign x bs G tr : (0 < length x)%nat ->
  (exists e' t, block_loop lf s (always_raises e) nrv assign x bs 0 G tr = (LRaise e', t)) \/ exists t, block_loop lf s (always_raises e) nrv assign x bs 0 G tr = (LFuel, t).
Proof.
  intros H. destruct lf as [|lf]; [right; eexists; reflexivity|]. left. cbn [block_loop]. destruct (Z.ltb_spec 0 (Z.of_nat (length x))) as [L|L]; [|lia]. cbv zeta.
  unfold compute_lsf. destruct (lsf_kwargs _ _ _) as [kw|e']; cbn [always_raises]; eauto.
Qed.
Lemma ev_raise inv lf e fo n T A s u : exists e' s', ev_st inv lf (always_raises e) fo n T A s u = (Err e', s') /\ same_core s s'.
Proof.
  unfold ev_st. cbv zeta. destruct (inv n _) as [J|e0]; [|eexists _, _; split; [reflexivity|apply core_refl]].
  assert (X : forall p, exists o', ev_out (evaluate_lsf lf s (always_raises e) (fo_ls fo) None n [p]) = o' /\ (forall G g, o' <> ODone G g) /\ ev_s (evaluate_lsf lf s (always_raises e) (fo_ls fo) None n [p]) = s).
  { intros p. unfold evaluate_lsf. destruct (_ =? 0)%Z; [eexists; split; [reflexivity|split; [intros; discriminate|reflexivity]]|]. cbv zeta.
    destruct (String.eqb _ "no").
    { unfold evaluate_nogradient. cbv zeta. destruct (block_raise lf s e n assign_plain [p] (o_block_size (fo_ls fo)) (repeat 0 (length [p])) [] ltac:(cbn; lia)) as [(e' & t & ->)|(t & ->)]; (eexists; split; [reflexivity|split; [intros; discriminate|reflexivity]]). }
    destruct (String.eqb _ "ddm").
    { unfold evaluate_ddm. cbn [ddm_loop]. unfold compute_lsf. destruct (lsf_kwargs _ _ _) as [kw|e']; cbn [always_raises]; (eexists; split; [reflexivity|split; [intros; discriminate|reflexivity]]). }
    unfold evaluate_ffd. cbv zeta. destruct (ffd_perturb _ _ _ _ _ _ _ _) as [[[allx allh]|e'] x'] eqn:EP; [|eexists; split; [reflexivity|split; [intros; discriminate|reflexivity]]].
    assert (LX : (0 < length allx)%nat).
    { assert (G : forall k j mg fp x ax ah r ah' x2, ffd_perturb k j mg fp n x ax ah = (Ok (r, ah'), x2) -> length r = length ax).
      { induction k as [|k IH]; intros j mg fp x ax ah r ah' x2; cbn [ffd_perturb]; [intros Y; injection Y as <- _ _; reflexivity|].
        destruct (nth_error mg j); [|discriminate]. cbv zeta. intros Y. apply IH in Y. rewrite Y. clear.
        generalize (seq 0 (length x)). intros l. revert ax. induction l as [|m l IH]; intros ax; [reflexivity|]. cbn [fold_left]. rewrite IH.
        unfold set_cell. destruct (nth_error ax _) eqn:EN; [|reflexivity]. assert (LL := proj1 (nth_error_Some ax (j + 1 + m * (1 + n))) ltac:(rewrite EN; discriminate)).
        rewrite app_length. cbn [length]. rewrite firstn_length, skipn_length. lia. }
      apply G in EP. rewrite EP, repeat_length. cbn. lia. }
    destruct (block_raise lf s e n assign_squeeze allx (o_block_size (fo_ls fo)) (repeat 0 (length [p] * (1 + n))) [] LX) as [(e' & t & ->)|(t & ->)]; (eexists; split; [reflexivity|split; [intros; discriminate|reflexivity]]). }
  destruct (X (vlist n (computeTransformation n A (marg_at s) u))) as (o' & EO & NO & ES). rewrite EO, ES.
  destruct o' as [G g|e'|]; [now destruct (NO G g)| |]; (eexists _, _; split; [reflexivity|apply core_refl]).
Qed.

Section Second.
Variables (fmin : (R -> R) -> R -> R) (chol : nat -> mat -> result mat) (svd : nat -> mat -> result (mat * vec)) (inv : nat -> mat -> result mat).
(** a run whose limit state function always raises, on the model a completed run has used *)
Lemma run_again fuel lf expr fo evn a s a1 s1 r : run_at fmin chol svd inv fuel lf expr fo evn a s = (a1, s1, FDone r) ->
  forall e fo' evn' fuel' lf', exists T A a2 s2 e', (let n := length (sm_marg s) in
  snd (init_run_full fmin chol svd inv (fa_type a) s) = Ok (T, A) /\
  run_at fmin chol svd inv (S fuel') lf' (always_raises e) fo' evn' a1 s1 = (a2, s2, FRaise e') /\
  fa_valid a2 = true /\ fa_i a2 = fa_i a1 /\ fa_beta a2 = fa_beta a1 /\ fa_Pf a2 = fa_Pf a1 /\ fa_alpha a2 = fa_alpha a1 /\ fa_T a2 = Some (n, T, A) /\
  fa_u a2 = Some (n, Some (computeStartingPoint n T (marg_at s))) /\ same_core s s2).
Proof.
  intros E e fo' evn' fuel' lf'.
  pose proof (run_at_cases fmin chol svd inv fuel lf expr fo evn a s) as C. rewrite E in C. destruct C as (_ & ET & HC & T & A & us & EI & EFT & _). cbv zeta in EFT.
  destruct (init_core fmin chol svd inv (fa_type a) s s1 HC) as [EI2 HM]. rewrite EI in EI2.
  assert (Eq1 : exists M, fst (init_run_full fmin chol svd inv (fa_type a) s1) = setModifiedCorrelation s1 M /\ length M = length (sm_marg s)).
  { unfold run_at in E. destruct (init_run_full fmin chol svd inv (fa_type a) s) as [p q]. cbn [fst snd] in *. subst q. destruct HM as [(_ & _ & e0 & X)|(M & -> & X)]; [discriminate|]. exists M. split; [exact X|].
    cbv zeta in E. cbn [setModifiedCorrelation sm_marg sm_Ro] in E. destruct (Nat.eqb_spec (length M) (length (sm_marg s))) as [Y|Y]; [exact Y|discriminate]. }
  destruct Eq1 as (M & F1 & LM). destruct (ev_raise inv lf' e fo' (length (sm_marg s)) T A (setModifiedCorrelation s1 M) (computeStartingPoint (length (sm_marg s)) T (marg_at s))) as (e' & s2 & EV & C2).
  exists T, A. eexists _, s2, e'. cbv zeta. split; [exact EI|]. split.
  - unfold run_at. rewrite ET. destruct (init_run_full fmin chol svd inv (fa_type a) s1) as [p q]. cbn [fst snd] in *. subst p q. cbv zeta.
    assert (EMG : sm_marg s1 = sm_marg s) by apply HC.
    assert (M3 : sm_marg (setModifiedCorrelation s1 M) = sm_marg s) by exact EMG.
    assert (R3 : sm_Ro (setModifiedCorrelation s1 M) = Some M) by reflexivity.
    assert (A3 : marg_at (setModifiedCorrelation s1 M) = marg_at s) by (unfold marg_at; now rewrite M3).
    set (s3 := setModifiedCorrelation s1 M) in *. rewrite R3, M3, A3, LM, Nat.eqb_refl. cbn [loop_at]. rewrite EV. reflexivity.
  - cbn. repeat split; auto; destruct C2 as (D1 & D2 & D3 & D4 & D5), HC as (G1 & G2 & G3 & G4 & G5); cbn in *; congruence.
Qed.
End Second.
