(** Property theorems C90 (FORM does not depend on the factorisation of the correlation matrix)
    and C91 (nor on the order in which variables were added). *)
From Coquelicot Require Import Coquelicot.
From Verif Require Import Base Ext Dict Gauss GaussProofs StochModel StochModelSpec StochModelProofs LimitState LimitStateSpec LimitStateProofs LimitStateProps Transf TransfSpec TransfProofs TransfProps Form FormProofs RotSpec RotProofs PermProofs.
From Coq Require Import ZArith Permutation Lra Lia.
Open Scope R_scope.

(** What run() does from the registered starting point. *)
Definition form_from (n : nat) (fo : form_opts) (evn : option exn) (fuel lf : nat) (s : smodel) (expr : expression)
    (T A : mat) (inv : nat -> mat -> result mat) (m : nat -> rv) : form_out * nat :=
  form_run n fo (form_ev lf s expr (fo_ls fo) n T A inv m) (form_trial lf s expr (fo_ls fo) n A m) evn fuel (computeStartingPoint n T m).

(** C90: the whole run, any transform types, limit state function, differentiation mode, step rule. *)
Theorem C90_form_independent_of_factorisation :
  forall chol svd inv e0 n Ro m ty1 ty2 T1 A1 T2 A2 s expr fo evn fuel lf,
  symmetric n Ro -> pos_def n Ro -> chol_contract n chol Ro -> svd_contract n svd Ro -> inv_total n inv e0 ->
  transf_compute chol svd inv ty1 n Ro = Ok (T1, A1) -> transf_compute chol svd inv ty2 n Ro = Ok (T2, A2) ->
  same_run n (fun i => i) A1 A2 m m (form_from n fo evn fuel lf s expr T1 A1 inv m) (form_from n fo evn fuel lf s expr T2 A2 inv m).
Proof.
  intros chol svd inv e0 n Ro m ty1 ty2 T1 A1 T2 A2 s expr fo evn fuel lf HS HD HC HV HI E1 E2.
  assert (HI' : inv_contract n inv) by (intros A B; apply HI).
  destruct (compute_factor _ _ _ _ _ _ _ _ HS HD HC HV HI' E1) as [P1 F1]. destruct (compute_factor _ _ _ _ _ _ _ _ HS HD HC HV HI' E2) as [P2 F2].
  set (Q := Qf n A1 T2).
  assert (ISO := Q_iso n T1 A1 T2 A2 Ro P1 P2 F1 F2). fold Q in ISO.
  assert (RO := run_rot n Q ISO fo _ _ _ _ evn (ev_factor n T1 A1 T2 A2 Ro P1 P2 F1 F2 inv e0 HI lf s expr (fo_ls fo) m)
      (fun us us' (_ : length us = ntrial) F => trial_factor n A1 T2 A2 P2 lf s expr (fo_ls fo) m us us' F) fuel _ _ (start_rot n T1 A1 T2 P1 m)).
  unfold form_from. unfold rot_out in RO. unfold same_run.
  destruct (form_run _ _ _ (form_trial _ _ _ _ _ A1 _) _ _ _) as [[r|e|] c]; destruct (form_run _ _ _ (form_trial _ _ _ _ _ A2 _) _ _ _) as [[r'|e'|] c']; try exact RO.
  destruct RO as [RR ->]. split; [reflexivity|]. destruct (res_rot n Q ISO r r' RR) as (B & P & AL). destruct RR as (H1 & H2 & H3 & H4 & _).
  do 5 (split; [assumption|]). unfold form_alpha in *. destruct (fr_u r) as [u|], (fr_u r') as [u'|]; try contradiction; [|exact I].
  cbn in H2, AL. split; [now apply (rot_norm n Q ISO)|]. split.
  - intros i Hi. now apply (x_rot n A1 T2 A2 P2).
  - intros i Hi. now apply (A_rot n A1 T2 A2 P2).
Qed.
Print Assumptions C90_form_independent_of_factorisation.

Lemma perm_posdef n s t Ro Ro' : perm_pair n s t -> (forall i j, (i < n)%nat -> (j < n)%nat -> Ro' i j = Ro (s i) (s j)) -> pos_def n Ro -> pos_def n Ro'.
Proof.
  intros HP E HD v (i & Hi & Hv).
  rewrite (fsum_ext n _ (fun i => (fun k => fsum n (fun l => v (t k) * Ro k l * v (t l))) (s i))).
  - rewrite (fsum_perm n s t HP (fun k => fsum n (fun l => v (t k) * Ro k l * v (t l)))). apply HD. exists (s i). split; [now apply (s_lt n s t HP)|]. now rewrite (ts n s t HP).
  - intros a Ha. cbn beta. rewrite <- (fsum_perm n s t HP (fun l => v (t (s a)) * Ro (s a) l * v (t l))). apply fsum_ext. intros b Hb.
    rewrite E by assumption. now rewrite !(ts n s t HP).
Qed.

(** C91: the variables in another order.  The limit state function acts point by point and reads
    its keyword arguments by name; gradients by forward differences or none (in ddm mode the
    user's function itself fixes the order of the gradient). *)
Theorem C91_form_independent_of_variable_order :
  forall chol svd inv e0 n sg tg h h' Ro Ro' ty ty' T A T' A' f expr fo evn fuel lf,
  perm_pair n sg tg -> reordered n sg h h' -> (1 <= n)%nat ->
  (forall i j, (i < n)%nat -> (j < n)%nat -> Ro' i j = Ro (sg i) (sg j)) ->
  symmetric n Ro -> pos_def n Ro -> inv_total n inv e0 ->
  chol_contract n chol Ro -> svd_contract n svd Ro -> chol_contract n chol Ro' -> svd_contract n svd Ro' ->
  transf_compute chol svd inv ty n Ro = Ok (T, A) -> transf_compute chol svd inv ty' n Ro' = Ok (T', A') ->
  pointwise expr f -> order_free f ->
  o_multi_proc (fo_ls fo) <> 0%Z -> (1 <= o_block_size (fo_ls fo))%Z -> o_diff_mode (fo_ls fo) <> "ddm"%string ->
  (S n < lf)%nat -> (ntrial < lf)%nat ->
  same_run n sg A A' (margs h) (margs h')
    (form_from n fo evn fuel lf (sm_run h) expr T A inv (margs h))
    (form_from n fo evn fuel lf (sm_run h') expr T' A' inv (margs h')).
Proof.
  intros chol svd inv e0 n sg tg h h' Ro Ro' ty ty' T A T' A' f expr fo evn fuel lf HP HR Hn ER HS HD HI HC HV HC' HV' E1 E2 Hpt HF Hmp Hbs Hdd Hlf Hlt.
  assert (HI' : inv_contract n inv) by (intros B C; apply HI).
  assert (HS' : symmetric n Ro') by (intros i j Hi Hj; rewrite !ER by assumption; apply HS; now apply (s_lt n sg tg HP)).
  assert (HD' := perm_posdef n sg tg Ro Ro' HP ER HD).
  destruct (compute_factor _ _ _ _ _ _ _ _ HS HD HC HV HI' E1) as [P1 F1]. destruct (compute_factor _ _ _ _ _ _ _ _ HS' HD' HC' HV' HI' E2) as [P2 F2].
  assert (PP := perm_pairs n sg tg HP T A P1). assert (PF := perm_factor n sg tg HP A Ro Ro' F1 ER).
  set (PT := pcol sg T) in *. set (PA := prow sg A) in *.
  assert (I0 : meq n (mmul n (mtrans meye) meye) meye).
  { intros i j Hi Hj. rewrite mmul_eye_r by exact Hj. unfold mtrans, meye. apply delta_sym. }
  assert (R1 := run_rot n meye I0 fo _ _ _ _ evn (ev_perm n sg tg h h' HP HR f HF expr lf (fo_ls fo) Hpt Hn Hmp Hbs Hdd Hlf T A inv e0 HI)
      (fun us us' (L : length us = ntrial) F => trial_perm n sg tg h h' HP HR f HF expr lf (fo_ls fo) Hpt Hn Hmp Hbs Hlf A us us' (eq_ind_r (fun k => (k < lf)%nat) Hlt L) F) fuel _ _ (start_perm n sg tg h h' HP HR T)).
  fold PT PA in R1. set (Q := Qf n PA T').
  assert (ISO := Q_iso n PT PA T' A' Ro' PP P2 PF F2). fold Q in ISO.
  assert (R2 := run_rot n Q ISO fo _ _ _ _ evn (ev_factor n PT PA T' A' Ro' PP P2 PF F2 inv e0 HI lf (sm_run h') expr (fo_ls fo) (margs h'))
      (fun us us' (_ : length us = ntrial) F => trial_factor n PA T' A' P2 lf (sm_run h') expr (fo_ls fo) (margs h') us us' F) fuel _ _ (start_rot n PT PA T' PP (margs h'))).
  unfold form_from. unfold rot_out in R1, R2. unfold same_run.
  destruct (form_run _ _ _ (form_trial _ _ _ _ _ A _) _ _ _) as [[r1|e1|] c1]; destruct (form_run _ _ _ (form_trial _ _ _ _ _ PA _) _ _ _) as [[r2|e2|] c2]; try contradiction;
    destruct (form_run _ _ _ (form_trial _ _ _ _ _ A' _) _ _ _) as [[r3|e3|] c3]; try contradiction.
  2:{ destruct R1, R2. split; congruence. }
  2:{ congruence. }
  destruct R1 as [RR1 C1]. destruct R2 as [RR2 C2]. split; [congruence|].
  destruct (res_rot n meye I0 r1 r2 RR1) as (B1 & Pf1 & AL1). destruct (res_rot n Q ISO r2 r3 RR2) as (B2 & Pf2 & AL2).
  destruct RR1 as (X1 & X2 & X3 & X4 & _). destruct RR2 as (Y1 & Y2 & Y3 & Y4 & _).
  do 5 (split; [congruence|]). unfold form_alpha in *.
  destruct (fr_u r1) as [u1|], (fr_u r2) as [u2|]; try contradiction; destruct (fr_u r3) as [u3|]; try contradiction; [|exact I].
  cbn in X2, Y2, AL1, AL2.
  assert (EY : forall v v', rot n meye v v' -> veq n v' v) by (intros v v' H i Hi; rewrite (H i Hi); apply mvec_eye; exact Hi).
  split; [rewrite (rot_norm n Q ISO _ _ Y2); apply (rot_norm n meye I0), X2|]. split.
  - intros i Hi. rewrite (x_rot n PA T' A' P2 (margs h') u2 u3 Y2 i Hi). apply (x_perm n sg tg h h' HP HR); [apply EY, X2|exact Hi].
  - intros i Hi. rewrite (A_rot n PA T' A' P2 _ _ i AL2 Hi). transitivity (mvec n A (alpha_of n (fr_grad r2)) (sg i)); [reflexivity|].
    apply mvec_ext, EY, AL1.
Qed.
Print Assumptions C91_form_independent_of_variable_order.

(** *** The hypotheses are met *)
(** an inverse routine for 2 x 2 matrices satisfying the contract *)
Definition det2 (A : mat) : R := A 0%nat 0%nat * A 1%nat 1%nat - A 0%nat 1%nat * A 1%nat 0%nat.
Definition adj2 (A : mat) : mat := fun i j =>
  match i, j with
  | O, O => A 1%nat 1%nat / det2 A | O, _ => - A 0%nat 1%nat / det2 A
  | _, O => - A 1%nat 0%nat / det2 A | _, _ => A 0%nat 0%nat / det2 A
  end.
Definition inv2 (k : nat) (A : mat) : result mat := if Reqb (det2 A) 0 then Err ERuntime else Ok (adj2 A).
Ltac two i H := destruct i as [|[|i]]; [| |exfalso; lia].
Example inv2_total : inv_total 2 inv2 ERuntime.
Proof.
  split; [|split].
  - intros A B H. unfold inv2 in H. destruct (Reqb (det2 A) 0) eqn:E; [discriminate|]. injection H as <-.
    assert (D : det2 A <> 0) by (intros D; apply Reqb_spec in D; congruence).
    split; intros i j Hi Hj; two i Hi; two j Hj; unfold mmul, adj2, meye, delta; cbn [fsum Nat.eqb]; unfold det2 in *; field; exact D.
  - intros A B [H _]. assert (D : det2 A <> 0).
    { intros D. pose proof (H 0%nat 0%nat ltac:(lia) ltac:(lia)) as H00. pose proof (H 0%nat 1%nat ltac:(lia) ltac:(lia)) as H01.
      pose proof (H 1%nat 0%nat ltac:(lia) ltac:(lia)) as H10. pose proof (H 1%nat 1%nat ltac:(lia) ltac:(lia)) as H11.
      unfold mmul, meye, delta in H00, H01, H10, H11. cbn [fsum Nat.eqb] in H00, H01, H10, H11.
      assert (X : det2 B * det2 A = (0 + B 0%nat 0%nat * A 0%nat 0%nat + B 0%nat 1%nat * A 1%nat 0%nat) * (0 + B 1%nat 0%nat * A 0%nat 1%nat + B 1%nat 1%nat * A 1%nat 1%nat)
         - (0 + B 0%nat 0%nat * A 0%nat 1%nat + B 0%nat 1%nat * A 1%nat 1%nat) * (0 + B 1%nat 0%nat * A 0%nat 0%nat + B 1%nat 1%nat * A 1%nat 0%nat)) by (unfold det2; ring).
      rewrite D, H00, H01, H10, H11 in X. lra. }
    unfold inv2. destruct (Reqb (det2 A) 0) eqn:E; [apply Reqb_spec in E; contradiction|]. eauto.
  - intros A e H. unfold inv2 in H. destruct (Reqb (det2 A) 0); [|discriminate]. congruence.
Qed.
(** swapping two variables around a constant *)
Definition h_ex' : list smop := [OpAdd (OConst "k" 3); OpAdd (ODist (rv_ex "S")); OpAdd (ODist (rv_ex "R"))].
Definition swap (i : nat) : nat := match i with O => 1%nat | _ => 0%nat end.
Example swap_pair : perm_pair 2 swap swap.
Proof. split; intros i Hi; two i Hi; cbn; split; (lia || reflexivity). Qed.
Example swap_reordered : reordered 2 swap h_ex h_ex'.
Proof.
  repeat split.
  - intros i Hi. two i Hi; reflexivity.
  - cbn. constructor. constructor.
Qed.
Lemma lk_perm kw kw' n : NoDup (map fst kw) -> Permutation kw kw' -> lk kw' n = lk kw n.
Proof.
  intros N P. unfold lk. assert (N' : NoDup (map fst kw')) by (eapply Permutation_NoDup; [apply Permutation_map, P|exact N]).
  destruct (dict_get kw n) as [v|] eqn:E.
  - apply dget_in in E. rewrite (dget_nodup kw' n v N'); [reflexivity|]. eapply Permutation_in; [exact P|exact E].
  - apply dget_none in E. replace (dict_get kw' n) with (@None R); [reflexivity|]. symmetry. apply dget_none. intros I. apply E.
    eapply Permutation_in; [apply Permutation_sym, Permutation_map, P|exact I].
Qed.
Example g_order_free : order_free g_ex.
Proof. intros kw kw' N P. unfold g_ex. now rewrite !(lk_perm kw kw') by assumption. Qed.
