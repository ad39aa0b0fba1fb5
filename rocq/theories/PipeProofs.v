From Coquelicot Require Import Coquelicot.
From Verif Require Import Base Ext Dict Gauss GaussProofs StochModel StochModelSpec StochModelProofs LimitState LimitStateSpec LimitStateProofs Transf TransfSpec TransfProofs Form FormProofs Nataf NatafProofs Dist RotSpec RotProofs Pipe.
From Coq Require Import ZArith Lra Lia.
Open Scope R_scope.

(** a model object with the same registry, but another stored Ro and another counter *)
Definition same_core (s s' : smodel) : Prop :=
  sm_variables s' = sm_variables s /\ sm_names s' = sm_names s /\ sm_marg s' = sm_marg s /\ sm_corr s' = sm_corr s /\ sm_consts s' = sm_consts s.

Lemma core_refl s : same_core s s. Proof. repeat split. Qed.
Lemma core_add s k : same_core s (addCallFunction s k). Proof. repeat split. Qed.
Lemma core_Ro s M : same_core s (setModifiedCorrelation s M). Proof. repeat split. Qed.
Lemma core_trans a b c : same_core a b -> same_core b c -> same_core a c.
Proof. unfold same_core. intuition congruence. Qed.
Lemma core_sym a b : same_core a b -> same_core b a.
Proof. unfold same_core. intuition congruence. Qed.
Lemma add0 s : addCallFunction s 0 = s.
Proof. destruct s. unfold addCallFunction. cbn. now rewrite Nat.add_0_r. Qed.
Lemma add_add s a b : addCallFunction (addCallFunction s a) b = addCallFunction s (a + b).
Proof. destruct s. unfold addCallFunction. cbn. now rewrite Nat.add_assoc. Qed.

Section Core.
Variables s s' : smodel.
Hypothesis HC : same_core s s'.

Lemma core_compute expr nrv cols ddm : compute_lsf s' expr nrv cols ddm = compute_lsf s expr nrv cols ddm.
Proof. destruct HC as (E1 & E2 & E3 & E4 & E5). unfold compute_lsf, lsf_kwargs. now rewrite E1, E5. Qed.

Lemma core_block fuel expr nrv assign x : forall bs k G tr,
  block_loop fuel s' expr nrv assign x bs k G tr = block_loop fuel s expr nrv assign x bs k G tr.
Proof.
  induction fuel as [|f IH]; intros bs k G tr; [reflexivity|]. cbn [block_loop]. rewrite core_compute.
  destruct (k <? _)%Z; [|reflexivity]. destruct (compute_lsf _ _ _ _ _) as [[v g]|e]; [|reflexivity].
  destruct (assign _ v); [apply IH|reflexivity].
Qed.

Lemma core_ddm expr nrv nx todo : forall k G gr tr, ddm_loop k s' expr nrv nx todo G gr tr = ddm_loop k s expr nrv nx todo G gr tr.
Proof.
  induction todo as [|p todo IH]; intros k G gr tr; [reflexivity|]. cbn [ddm_loop]. rewrite core_compute.
  destruct (compute_lsf _ _ _ _ _) as [[v g]|e]; [|reflexivity]. destruct k; [|reflexivity].
  destruct (broadcast nx v); [|reflexivity]. destruct (assign_col nrv g); [apply IH|reflexivity].
Qed.

Lemma core_eval lf expr o dm nrv x : exists k,
  ev_s (evaluate_lsf lf s expr o dm nrv x) = addCallFunction s k /\
  ev_s (evaluate_lsf lf s' expr o dm nrv x) = addCallFunction s' k /\
  ev_out (evaluate_lsf lf s' expr o dm nrv x) = ev_out (evaluate_lsf lf s expr o dm nrv x).
Proof.
  unfold evaluate_lsf. destruct (o_multi_proc o =? 0)%Z; [exists 0%nat; cbn [ev_s ev_out]; rewrite !add0; auto|].
  destruct (String.eqb _ "no").
  - unfold evaluate_nogradient. rewrite core_block. destruct (block_loop _ _ _ _ _ _ _ _ _ _) as [[G|e|] tr]; cbn [ev_s ev_out]; eauto; exists 0%nat; rewrite !add0; auto.
  - destruct (String.eqb _ "ddm").
    + unfold evaluate_ddm. rewrite core_ddm. destruct (ddm_loop _ _ _ _ _ _ _ _ _) as [[[G gr]|e] tr]; cbn [ev_s ev_out]; eauto; exists 0%nat; rewrite !add0; auto.
    + unfold evaluate_ffd. destruct HC as (_ & _ & E3 & _). rewrite E3.
      destruct (match x with [p] => _ | _ => _ end); [|exists 0%nat; cbn [ev_s ev_out]; rewrite !add0; auto].
      destruct (ffd_perturb _ _ _ _ _ _ _ _) as [[[allx allh]|e] x']; [|exists 0%nat; cbn [ev_s ev_out]; rewrite !add0; auto].
      rewrite core_block. destruct (block_loop _ _ _ _ _ _ _ _ _ _) as [[G|e|] tr]; cbn [ev_s ev_out]; eauto; exists 0%nat; rewrite !add0; auto.
Qed.
End Core.

(** ** the threaded loop is the pure loop *)
Section Sim.
Variables (inv : nat -> mat -> result mat) (lf : nat) (expr : expression) (fo : form_opts) (n : nat) (T A : mat) (evn : option exn) (s0 : smodel).
Let m := marg_at s0.
Let EV := form_ev lf s0 expr (fo_ls fo) n T A inv m.
Let TR := form_trial lf s0 expr (fo_ls fo) n A m.

Lemma core_marg s : same_core s0 s -> marg_at s = m.
Proof. intros (_ & _ & E & _). unfold m, marg_at. now rewrite E. Qed.

Lemma sim_ev s u : same_core s0 s -> ev_st inv lf expr fo n T A s u = (fst (EV u), addCallFunction s (snd (EV u))).
Proof.
  intros HC. unfold ev_st, EV, form_ev. cbv zeta. rewrite (core_marg s HC).
  destruct (inv n _) as [J|e]; [|cbn [fst snd]; now rewrite add0].
  destruct (core_eval s0 s HC lf expr (fo_ls fo) None n [vlist n (computeTransformation n A m u)]) as (k & E1 & E2 & E3).
  rewrite E3, E2, E1. cbn [addCallFunction sm_calls]. replace (sm_calls s0 + k - sm_calls s0)%nat with k by lia.
  clear E1 E2 E3. destruct (ev_out _); reflexivity.
Qed.

Lemma sim_trial s us : same_core s0 s -> trial_st lf expr fo n A s us = (fst (TR us), addCallFunction s (snd (TR us))).
Proof.
  intros HC. unfold trial_st, TR, form_trial. cbv zeta. rewrite (core_marg s HC).
  destruct (core_eval s0 s HC lf expr (fo_ls fo) (Some "no"%string) n (map (fun u => vlist n (u_to_x n A m u)) us)) as (k & E1 & E2 & E3).
  rewrite E3, E2, E1. cbn [addCallFunction sm_calls]. replace (sm_calls s0 + k - sm_calls s0)%nat with k by lia.
  clear E1 E2 E3. destruct (ev_out _); reflexivity.
Qed.

Lemma sim_step s G g u d : same_core s0 s ->
  step_st lf expr fo n A s G g u d = (fst (getStepSize n fo TR G g u d), addCallFunction s (snd (getStepSize n fo TR G g u d))).
Proof.
  intros HC. unfold step_st, getStepSize, computeStepSize. destruct (Reqb (fo_step fo) 0); [|cbn [fst snd]; now rewrite add0].
  cbv zeta. destruct (o_multi_proc (fo_ls fo) =? 1)%Z; [|cbn [fst snd]; now rewrite add0].
  rewrite (sim_trial s _ HC). destruct (TR _) as [[Gs|e] k]; reflexivity.
Qed.

Lemma sim_loop fuel : forall i Go us lG lg s c, same_core s0 s ->
  let '(out, c') := form_loop n fo EV TR evn fuel i Go us lG lg c in
  (c <= c')%nat /\ loop_st inv lf expr fo n T A evn fuel i Go us lG lg s = (out, addCallFunction s (c' - c)).
Proof.
  induction fuel as [|f IH]; intros i Go us lG lg s c HC.
  { cbn. split; [lia|]. now rewrite Nat.sub_diag, add0. }
  assert (FIN : forall k, addCallFunction s (c + k - c) = addCallFunction s k) by (intros k; do 2 f_equal; lia).
  assert (REC : forall i Go us G g k,
    let '(out, c') := form_loop n fo EV TR evn f i Go us G g (c + k)%nat in
    (c <= c')%nat /\ loop_st inv lf expr fo n T A evn f i Go us G g (addCallFunction s k) = (out, addCallFunction s (c' - c))).
  { intros i' Go' us' G g k. specialize (IH i' Go' us' G g (addCallFunction s k) (c + k)%nat (core_trans _ _ _ HC (core_add s k))).
    destruct (form_loop _ _ _ _ _ _ _ _ _ _ _ _) as [out c']. destruct IH as [L E]. split; [lia|]. rewrite E, add_add. do 2 f_equal. lia. }
  cbn [form_loop loop_st]. destruct us as [u|].
  - rewrite (sim_ev s u HC). destruct (EV u) as [[[G g]|e] k]; cbn [fst snd].
    2:{ split; [lia|]. now rewrite FIN. }
    destruct (Reqb (norm n g) 0).
    + destruct (i =? fo_imax fo)%Z; [split; [lia|]; now rewrite FIN|].
      destruct (nan_step fo evn) as [k2|e]; [|split; [lia|]; now rewrite FIN].
      rewrite add_add. rewrite <- Nat.add_assoc. apply REC.
    + match goal with |- context[if ?b then _ else _] => destruct b end; [split; [lia|]; now rewrite FIN|].
      rewrite (sim_step _ G g u _ (core_trans _ _ _ HC (core_add s k))). destruct (getStepSize _ _ _ _ _ _ _) as [[t|e] k2]; cbn [fst snd]; rewrite ?add_add.
      2:{ rewrite <- Nat.add_assoc. split; [lia|]. now rewrite FIN. }
      rewrite <- Nat.add_assoc. apply REC.
  - destruct evn as [e|] eqn:Een; [split; [lia|]; now rewrite Nat.sub_diag, add0|]. rewrite <- Een in *.
    destruct (i =? fo_imax fo)%Z; [split; [lia|]; now rewrite FIN|].
    destruct (nan_step fo evn) as [k2|e]; [|split; [lia|]; now rewrite FIN].
    rewrite add_add. rewrite <- Nat.add_assoc. apply REC.
Qed.
End Sim.

(** ** preparation *)
Lemma mat_rows n A i j : (i < n)%nat -> (j < n)%nat -> mat_of (rows_of n A) i j = A i j.
Proof. intros Hi Hj. unfold mat_of, rows_of. rewrite nth_map_seq by exact Hi. now rewrite nth_map_seq. Qed.
Lemma rows_length n (A : mat) : length (rows_of n A) = n.
Proof. unfold rows_of. now rewrite map_length, seq_length. Qed.
Lemma rows_square n (M : list (list R)) : (forall r, In r M -> length r = n) -> forallb (fun r => Nat.eqb (length r) n) M = true.
Proof. intros H. apply forallb_forall. intros r Hr. apply Nat.eqb_eq, H, Hr. Qed.

Section Prep.
Variables (fmin : (R -> R) -> R -> R) (chol : nat -> mat -> result mat) (svd : nat -> mat -> result (mat * vec)) (inv : nat -> mat -> result mat).

(** the preparation does not read Ro or the counter *)
Lemma init_core ty s s' : same_core s s' ->
  snd (init_run_full fmin chol svd inv ty s') = snd (init_run_full fmin chol svd inv ty s) /\
  ((fst (init_run_full fmin chol svd inv ty s) = s /\ fst (init_run_full fmin chol svd inv ty s') = s' /\ exists e, snd (init_run_full fmin chol svd inv ty s) = Err e) \/
   exists M, fst (init_run_full fmin chol svd inv ty s) = setModifiedCorrelation s M /\ fst (init_run_full fmin chol svd inv ty s') = setModifiedCorrelation s' M).
Proof.
  intros (E1 & E2 & E3 & E4 & E5). unfold init_run_full, setModifiedCorrelationMatrix. rewrite E4.
  assert (EM : marg_at s' = marg_at s) by (unfold marg_at; now rewrite E3). rewrite EM, E3.
  destruct (sm_corr s) as [M|]; [|cbn; eauto 10].
  destruct (forallb _ M); [|cbn; eauto 10].
  destruct (computeModifiedCorrelationMatrix _ _ _ _ _) as [[Ro lg]|e]; [|cbn; eauto 10].
  cbn. split; [reflexivity|]. right. eauto.
Qed.

Lemma run_core fuel lf expr fo evn a a' s s' : same_core s s' -> fb_type a' = fb_type a ->
  exists k M,
  let '(a1, s1, out1) := run_form fmin chol svd inv fuel lf expr fo evn a s in
  let '(a2, s2, out2) := run_form fmin chol svd inv fuel lf expr fo evn a' s' in
  out2 = out1 /\ fb_type a1 = fb_type a /\ fb_type a2 = fb_type a /\ same_core s s1 /\ same_core s' s2 /\
  sm_calls s1 = (sm_calls s + k)%nat /\ sm_calls s2 = (sm_calls s' + k)%nat /\
  (sm_Ro s1 = Some M /\ sm_Ro s2 = Some M \/ sm_Ro s1 = sm_Ro s /\ sm_Ro s2 = sm_Ro s' /\ exists e, out1 = FRaise e).
Proof.
  intros HC HT. unfold run_form. rewrite HT. destruct (init_core (fb_type a) s s' HC) as [ER EI].
  destruct (init_run_full fmin chol svd inv (fb_type a) s) as [p r]. destruct (init_run_full fmin chol svd inv (fb_type a) s') as [p' r'].
  cbn [fst snd] in ER, EI. subst r'. destruct EI as [(-> & -> & e & ->)|(M & -> & ->)].
  { exists 0%nat, []. cbn. rewrite !Nat.add_0_r. repeat split; try reflexivity. right. eauto. }
  destruct r as [[T A]|e].
  2:{ exists 0%nat, M. cbn. rewrite !Nat.add_0_r. repeat split; try reflexivity. left; auto. }
  assert (E3 : sm_marg s' = sm_marg s) by apply HC. cbn [setModifiedCorrelation sm_marg sm_Ro]. rewrite E3.
  destruct (Nat.eqb (length M) (length (sm_marg s))).
  2:{ exists 0%nat, M. cbn. rewrite !Nat.add_0_r. repeat split; try reflexivity. left; auto. }
  assert (EM : marg_at (setModifiedCorrelation s' M) = marg_at (setModifiedCorrelation s M)) by (unfold marg_at; cbn; now rewrite E3).
  rewrite EM.
  set (u0 := computeStartingPoint _ _ _).
  pose proof (sim_loop inv lf expr fo (length (sm_marg s)) T A evn (setModifiedCorrelation s M) fuel 1 None (Some u0) 0 (fun _ => 0) (setModifiedCorrelation s M) 0 (core_refl _)) as S1.
  assert (HC2 : same_core (setModifiedCorrelation s M) (setModifiedCorrelation s' M)).
  { apply (core_trans _ s); [apply core_sym, core_Ro|]. apply (core_trans _ s'); [exact HC|apply core_Ro]. }
  pose proof (sim_loop inv lf expr fo (length (sm_marg s)) T A evn (setModifiedCorrelation s M) fuel 1 None (Some u0) 0 (fun _ => 0) (setModifiedCorrelation s' M) 0 HC2) as S2.
  destruct (form_loop _ _ _ _ _ _ _ _ _ _ _ _) as [out c]. destruct S1 as [_ ->]. destruct S2 as [_ ->].
  rewrite Nat.sub_0_r. exists c, M. destruct out; cbn; repeat split; try reflexivity; try (left; auto); auto.
Qed.
End Prep.

(** the norm of the pulled-back gradient of a linear function *)
Lemma quad_norm n (A Ro : mat) (w : vec) : factor_of n A Ro ->
  fsum n (fun k => fsum n (fun i => w i * A i k) * fsum n (fun i => w i * A i k)) = fsum n (fun i => fsum n (fun j => w i * Ro i j * w j)).
Proof.
  intros HF.
  rewrite (fsum_ext n _ (fun k => fsum n (fun i => fsum n (fun j => w i * A i k * (w j * A j k))))).
  2:{ intros k _. rewrite <- fsum_scal_r. apply fsum_ext. intros i _. rewrite <- fsum_scal. apply fsum_ext. intros; ring. }
  rewrite fsum_swap. apply fsum_ext. intros i Hi. rewrite fsum_swap. apply fsum_ext. intros j Hj.
  rewrite <- (HF i j Hi Hj). rewrite (fsum_ext n _ (fun k => w i * w j * (A i k * A j k))) by (intros; ring).
  rewrite fsum_scal. ring.
Qed.
