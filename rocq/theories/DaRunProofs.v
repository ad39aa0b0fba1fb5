(** Proofs for C107. *)
From Coquelicot Require Import Coquelicot.
From Verif Require Import Base Ext Gauss StochModel StochModelSpec StochModelProofs LimitState LimitStateSpec Transf Form Nataf Dist Pipe PipeSpec PipeProofs Sorm Mc McProofs McRun McRunProofs McRunOnSpec McRunOnProofs DaRun DaRunSpec.
From Coq Require Import ZArith Lra Lia.
Open Scope R_scope.

Section Loop.
Variables (expr : expression) (fo : form_opts) (mo : mc_opts) (stream : nat -> R) (s0 : smodel) (n : nat) (A : mat) (g : vec -> R) (off : nat).
Hypothesis EM : length (sm_marg s0) = n.
Hypothesis HG : forall us, mc_limit_state s0 expr (fo_ls fo) n A (marg_at s0) us = Ok (map g us).
Hypothesis Hb : (0 < mo_block mo)%Z.
Hypothesis Hrg : mo_rg mo = 0%Z.
Let tox := u_to_x n A (marg_at s0).
Let b := Z.to_nat (mo_block mo).

Definition dlay (st : da_state) : Prop :=
  dinv mo tox g st /\ da_off st = (off + n * length (da_pts st))%nat /\
  (da_k st = mo_samples mo \/ exists m, length (da_pts st) = (b * m)%nat) /\
  forall q i, (q < length (da_pts st))%nat -> (i < n)%nat -> nth q (da_pts st) (fun _ => 0) i = nth_point n mo stream off q i.

Lemma da_loop_sim : forall fl st s, same_core s0 s -> dlay st -> (Z.to_nat (mo_samples mo - da_k st) < fl)%nat ->
  exists st', da_loop_on expr fo mo stream fl n n A st s = (st', addCallFunction s (Z.to_nat (mo_samples mo - da_k st)), MEnd) /\ dlay st' /\ da_k st' = mo_samples mo.
Proof.
  induction fl as [|f IH]; intros st s HC HI Hf; [lia|]. cbn [da_loop_on]. destruct HI as ((I1 & I2 & I3 & I4) & IO & IA & ID).
  destruct (Z.ltb_spec (da_k st) (mo_samples mo)) as [L|L].
  2: { exists st. replace (mo_samples mo - da_k st)%Z with 0%Z by lia. cbn [Z.to_nat]. rewrite add0. split; [reflexivity|]. split; [|lia]. split; [split; [exact I1|split; [exact I2|split; assumption]]|]. split; [exact IO|]. split; [left; lia|exact ID]. }
  set (B := Z.min (mo_block mo) (mo_samples mo - da_k st)). destruct (Z.ltb_spec B 0); [lia|]. rewrite Hrg. cbn [Z.eqb negb].
  set (us := map (draw n stream (da_off st) (Z.to_nat B) (fun _ => 0) (mo_stdv mo)) (seq 0 (Z.to_nat B))).
  assert (Lu : length us = Z.to_nat B) by (unfold us; rewrite map_length, seq_length; reflexivity).
  destruct (eval_sim expr fo s0 n A EM s us HC) as (E1 & c & E2 & E3). rewrite HG in E1, E3. specialize (E3 _ eq_refl).
  destruct (mc_eval expr fo n n A s us) as [G s']. cbn [fst snd] in E1, E2. subst G s' c. rewrite (core_marg s0 s HC). fold tox.
  assert (HC' : same_core s0 (addCallFunction s (length us))) by (destruct HC as (? & ? & ? & ? & ?); cbn; repeat split; assumption).
  destruct IA as [IA|(m & IA)]; [lia|].
  match goal with |- context[da_loop_on _ _ _ _ f n n A ?x _] => set (st1 := x) end.
  assert (D1 : dlay st1).
  { unfold dlay, st1. cbn [da_off da_k da_pts]. rewrite app_length, Lu. split; [|split; [|split]].
    - unfold dinv. cbn [da_k da_pts da_X da_G]. rewrite app_length, Lu, !map_app, I3, I4.
      replace (Z.to_nat (da_k st)) with (length (map tox (da_pts st))) at 1 by (rewrite map_length; lia).
      replace (Z.to_nat (da_k st)) with (length (map g (da_pts st))) at 1 by (rewrite map_length; lia).
      rewrite !write_block by (rewrite map_length, Lu; lia). rewrite !map_length, Lu.
      replace (Z.to_nat (mo_samples mo - da_k st) - Z.to_nat B)%nat with (Z.to_nat (mo_samples mo - (da_k st + B))) by lia.
      refine (conj _ (conj _ (conj eq_refl eq_refl))); lia.
    - rewrite IO. lia.
    - destruct (Z.min_spec (mo_block mo) (mo_samples mo - da_k st)) as [[? E]|[? E]]; fold B in E; [right; exists (S m); unfold b in *; lia|left; lia].
    - intros q i Hq Hi. destruct (lt_dec q (length (da_pts st))) as [Lq|Lq]; [rewrite app_nth1 by exact Lq; now apply ID|].
      rewrite app_nth2 by lia. set (j := (q - length (da_pts st))%nat). assert (Hj : (j < Z.to_nat B)%nat) by (unfold j; lia).
      unfold us. rewrite (nth_indep _ _ (draw n stream (da_off st) (Z.to_nat B) (fun _ => 0) (mo_stdv mo) 0%nat)) by (rewrite map_length, seq_length; exact Hj).
      rewrite map_nth, seq_nth by exact Hj. rewrite draw_entry by exact Hi. unfold nth_point. fold b.
      assert (Eq : q = (b * m + j)%nat) by (unfold j; lia). assert (Hjb : (j < b)%nat) by (unfold b, B in *; lia).
      assert (Q1 : (q / b = m)%nat) by (symmetry; apply (Nat.div_unique q b m j); [exact Hjb|exact Eq]).
      assert (Q2 : (q mod b = j)%nat) by (symmetry; apply (Nat.mod_unique q b m j); [exact Hjb|exact Eq]).
      cbv zeta. rewrite Q1, Q2, Rplus_0_l, IO, IA. replace (Nat.min b (Z.to_nat (mo_samples mo) - b * m)) with (Z.to_nat B); [f_equal; f_equal; lia|].
      unfold B, b. assert (Z.of_nat (b * m) = da_k st) by lia. unfold b in *. lia. }
  destruct (IH st1 _ HC' D1) as (st' & ES & D' & K'); [unfold st1; cbn [da_k]; lia|].
  exists st'. split; [|split; assumption]. rewrite ES, add_add. unfold st1. cbn [da_k]. rewrite Lu.
  replace (Z.to_nat B + Z.to_nat (mo_samples mo - (da_k st + B)))%nat with (Z.to_nat (mo_samples mo - da_k st)) by lia. reflexivity.
Qed.
End Loop.

Lemma dist_in_names l d : In d (dists_of l) -> In (rv_name d) (names_of l).
Proof.
  intros H. unfold dists_of in H. apply in_flat_map in H. destruct H as (o & I1 & I2). unfold names_of. apply in_flat_map. exists o. split; [exact I1|].
  destruct o; [|destruct I2|destruct I2]. destruct I2 as [->|[]]. cbn. left. reflexivity.
Qed.
Lemma cl_tail o l : (match o with OConst _ _ => dists_of l = [] | _ => True end) -> constants_last l -> constants_last (o :: l).
Proof.
  intros Ho H l1 nm v l2 d l3 E. destruct l1 as [|o1 l1]; cbn [app] in E; injection E as E1 E2.
  - subst o. rewrite E2 in Ho. unfold dists_of in Ho. rewrite flat_map_app in Ho. cbn in Ho. apply app_eq_nil in Ho. destruct Ho as [_ Ho]. discriminate.
  - exact (H _ _ _ _ _ _ E2).
Qed.
Lemma titles_iff l : NoDup (names_of l) ->
  ((forall i, (i < length (dists_of l))%nat -> nth i (names_of l) ""%string = rv_name (nth i (dists_of l) rv0)) <-> constants_last l).
Proof.
  induction l as [|o l IH]; intros ND.
  - split; [|intros _ i Hi; cbn in Hi; lia]. intros _ l1 nm v l2 d l3 E. destruct l1; discriminate.
  - destruct o as [d0|nm v|].
    + cbn in ND. inversion ND as [|? ? N1 N2]; subst. specialize (IH N2). split.
      * intros H. apply cl_tail; [exact I|]. apply IH. intros i Hi. apply (H (S i)). change (S i < S (length (dists_of l)))%nat. lia.
      * intros H i Hi. destruct i as [|i]; [reflexivity|]. cbn. apply IH; [|change (S i < S (length (dists_of l)))%nat in Hi; lia]. intros l1 nm v l2 d l3 E. apply (H (ODist d0 :: l1) nm v l2 d l3). rewrite E. reflexivity.
    + cbn in ND. inversion ND as [|? ? N1 N2]; subst. split.
      * intros H. assert (E : dists_of l = []).
        { destruct (dists_of l) as [|d r] eqn:E; [reflexivity|]. exfalso. apply N1. specialize (H 0%nat). change (dists_of (OConst nm v :: l)) with (dists_of l) in H. rewrite E in H. cbn in H.
          rewrite (H ltac:(lia)). apply (dist_in_names l d). rewrite E. left. reflexivity. }
        apply cl_tail; [exact E|]. apply (IH N2). intros i Hi. rewrite E in Hi. cbn in Hi. lia.
      * intros H i Hi. exfalso. change (dists_of (OConst nm v :: l)) with (dists_of l) in Hi.
        assert (HI : exists d, In (ODist d) l). { destruct (dists_of l) as [|d r] eqn:E; [cbn in Hi; lia|]. exists d. assert (X : In d (dists_of l)) by (rewrite E; left; reflexivity).
          unfold dists_of in X. apply in_flat_map in X. destruct X as (o & I1 & I2). destruct o; [|destruct I2|destruct I2]. destruct I2 as [->|[]]. exact I1. }
        destruct HI as (d & HI). apply in_split in HI. destruct HI as (l2 & l3 & ->). exact (H [] nm v l2 d l3 eq_refl).
    + specialize (IH ND). split.
      * intros H. apply cl_tail; [exact I|]. apply IH. exact H.
      * intros H i Hi. apply IH; [|exact Hi]. intros l1 nm v l2 d l3 E. apply (H (OOther :: l1) nm v l2 d l3). rewrite E. reflexivity.
Qed.

Lemma figures_spec (F : nat -> figure) (t : nat -> result figure) m : (forall i, (i < m)%nat -> t i = Ok (F i)) ->
  fold_right (fun i acc => rbind acc (fun l => rbind (t i) (fun x => Ok (x :: l)))) (Ok []) (seq 0 m) = Ok (map F (seq 0 m)).
Proof.
  intros H. assert (X : forall k a, (a + k <= m)%nat -> fold_right (fun i acc => rbind acc (fun l => rbind (t i) (fun x => Ok (x :: l)))) (Ok []) (seq a k) = Ok (map F (seq a k))).
  { induction k as [|k IH]; intros a Ha; [reflexivity|]. cbn [seq fold_right map]. rewrite IH by lia. cbn [rbind]. rewrite H by lia. reflexivity. }
  apply X. lia.
Qed.
