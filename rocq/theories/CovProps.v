(** Property theorems C80: the coefficients of variation reported by subset simulation and
    line sampling (/repo/src/pystra/ss.py 166-183, /repo/src/pystra/ls.py 125-136). *)
From Coquelicot Require Import Coquelicot.
From Verif Require Import Base Ext Gauss GaussProofs StochModel LimitState Transf Form FormProofs Sorm SormProofs Ls LsProofs LsProps Ss SsProofs SsProps Mc.
From Coq Require Import ZArith Lra Lia.

Lemma lsum_nonneg (l : list R) : (forall x, In x l -> 0 <= x) -> 0 <= lsum l.
Proof. induction l as [|x l IH]; intros H; cbn [lsum]; [lra|]. assert (0 <= x) by (apply H; now left). assert (0 <= lsum l) by (apply IH; intros; apply H; now right). lra. Qed.

(** C80, subset simulation: the square of the reported value is the sum over the levels of
    (1 - p)/(N p), p the level's conditional probability. *)
Theorem C80_subset_simulation : forall nrv N block p0 sigma randn unif Gof g fuel st,
  (forall us, Gof us = Ok (map g us)) -> (1 <= N)%nat -> 0 < p0 < 1 -> (1 <= block)%Z ->
  ss_run nrv N block p0 sigma randn unif Gof fuel = SDone st ->
  0 <= ss_cov N st /\
  ss_cov N st * ss_cov N st = lsum (map (fun p => (1 - p) / (INR N * p)) (ss_probs st)) /\
  (* a single level: the crude Monte Carlo formula *)
  (List.length (ss_levels st) = 1%nat -> ss_cov N st = sqrt ((1 - ss_Pf st) / (INR N * ss_Pf st))) /\
  (* it is zero only when every sample failed at every level *)
  (ss_cov N st = 0 <-> ss_Pf st = 1).
Proof.
  intros nrv N block p0 sigma randn unif Gof g fuel st HG HN Hp Hb E.
  pose proof (C35_never_zero nrv N block p0 sigma randn unif Gof g fuel st HG HN Hp Hb E) as K. cbv zeta in K.
  destruct K as (PM & F & _ & PF & _).
  pose proof (C34_level_invariants nrv N block p0 sigma randn unif Gof g fuel st HG HN Hp Hb E) as I. cbv zeta in I.
  destruct I as (_ & _ & LP & _ & _ & _ & _ & _ & _ & _ & I).
  assert (HPf : ss_Pf st = lprod (ss_probs st)) by (first [exact I | apply I]).
  set (pm := _ / _) in *. assert (N0 : 0 < INR N) by (apply (lt_INR 0); lia).
  assert (F' : forall p, In p (ss_probs st) -> 0 < p <= 1) by (intros p Ip; rewrite Forall_forall in F; specialize (F p Ip); lra).
  assert (FF : filter (fun p => Rltb 0 p) (ss_probs st) = ss_probs st).
  { clear - F'. induction (ss_probs st) as [|p l IH]; [reflexivity|]. cbn [filter]. assert (Rltb 0 p = true) as -> by (apply Rltb_spec; apply F'; now left).
    f_equal. apply IH. intros q Hq. apply F'. now right. }
  assert (TN : forall p, 0 < p <= 1 -> 0 <= (1 - p) / (INR N * p)).
  { intros p Hq. apply Rmult_le_pos; [lra|]. left. apply Rinv_0_lt_compat, Rmult_lt_0_compat; lra. }
  set (D := lsum (map (fun p => (1 - p) / (INR N * p)) (ss_probs st))).
  assert (D0 : 0 <= D). { apply lsum_nonneg. intros x Hx. apply in_map_iff in Hx. destruct Hx as (p & <- & Ip). apply TN, F', Ip. }
  assert (EC : ss_cov N st = sqrt D).
  { unfold ss_cov. rewrite FF. fold D. destruct (Rltb 0 D) eqn:Q; [reflexivity|]. apply Rltb_false in Q. replace D with 0 by lra. now rewrite sqrt_0. }
  rewrite EC. split; [apply sqrt_pos|]. split; [apply sqrt_sqrt, D0|]. split.
  - intros L1. rewrite <- LP in L1. unfold D. rewrite HPf. destruct (ss_probs st) as [|p [|q l]]; try discriminate. cbn [map lsum lprod]. f_equal.
    rewrite Rmult_1_r, Rplus_0_r. reflexivity.
  - assert (A : D = 0 <-> ss_Pf st = 1).
    { rewrite HPf. unfold D. clear - F' TN N0. induction (ss_probs st) as [|p l IH]; [cbn; tauto|]. cbn [map lsum lprod].
      assert (Hq : 0 < p <= 1) by (apply F'; now left).
      assert (F2 : forall q, In q l -> 0 < q <= 1) by (intros; apply F'; now right).
      specialize (IH F2). assert (T := TN p Hq).
      assert (T2 : 0 <= lsum (map (fun p => (1 - p) / (INR N * p)) l)).
      { apply lsum_nonneg. intros x Hx. apply in_map_iff in Hx. destruct Hx as (q & <- & Iq). apply TN, F2, Iq. }
      assert (LPb : 0 < lprod l <= 1).
      { clear - F2. induction l as [|q l IH]; cbn [lprod]; [lra|]. assert (0 < q <= 1) by (apply F2; now left).
        assert (0 < lprod l <= 1) by (apply IH; intros; apply F2; now right). split; [apply Rmult_lt_0_compat; lra|]. nra. }
      split; intros Q.
      - assert (Z : (1 - p) / (INR N * p) = 0) by lra. assert (Z2 : lprod l = 1) by (apply IH; lra).
        rewrite Z2. assert (1 - p = 0). { apply (Rmult_eq_reg_r (/ (INR N * p))); [|apply Rgt_not_eq, Rinv_0_lt_compat, Rmult_lt_0_compat; lra]. unfold Rdiv in Z. lra. } lra.
      - assert (p = 1) by nra. subst p. assert (lprod l = 1) by lra. rewrite (proj2 IH) by assumption. field. lra. }
    rewrite <- A. split; intros Q; [apply sqrt_eq_0; assumption|rewrite Q; apply sqrt_0].
Qed.
Print Assumptions C80_subset_simulation.

(** C80, line sampling: the reported value is (standard error of the mean) / mean of the
    line contributions. *)
Theorem C80_line_sampling : forall n N randn ev brentq alpha beta_form,
  (1 <= N)%nat -> (forall f lo hi c, lo <= hi -> brentq f lo hi = Some c -> lo <= c <= hi) ->
  let r := ls_run n N randn ev brentq alpha beta_form in
  ls_contribs r = map (fun c => Phi (- c)) (ls_c r) /\
  exists v, ls_cov r = Fin v /\ 0 <= v /\
  v * v = (lsum (map (fun c => (Phi (- c) - ls_Pf r) * (Phi (- c) - ls_Pf r)) (ls_c r)) / INR N) / (INR N * (ls_Pf r * ls_Pf r)) /\
  (v = 0 <-> forall c, In c (ls_c r) -> Phi (- c) = ls_Pf r).
Proof.
  intros n N randn ev brentq alpha beta_form HN HB r.
  destruct (C39_estimate n N randn ev brentq alpha beta_form HN HB) as (L & _ & EP & PB & _). fold r in L, EP, PB.
  assert (N0 : 0 < INR N) by (apply (lt_INR 0); lia).
  assert (EC : ls_contribs r = map (fun c => Phi (- c)) (ls_c r)).
  { unfold r, ls_run. cbv zeta. match goal with |- context [Rltb 0 ?p] => set (P := p) end. destruct (Rltb 0 P && Rltb P 1); [|destruct (Rleb P 0)]; reflexivity. }
  split; [exact EC|].
  exists (np_std (ls_contribs r) / (sqrt (INR N) * ls_Pf r)).
  assert (ECV : ls_cov r = Fin (np_std (ls_contribs r) / (sqrt (INR N) * ls_Pf r))).
  { revert PB. unfold r, ls_run. cbv zeta. match goal with |- context [Rltb 0 ?p] => set (P := p) end.
    destruct (Rltb 0 P && Rltb P 1) eqn:Q; [reflexivity|]. destruct (Rleb P 0) eqn:Q2; cbn [ls_Pf]; intros [P0 P1];
      apply Bool.andb_false_iff in Q; destruct Q as [Q|Q]; apply Rltb_false in Q; lra. }
  set (S2 := lsum (map (fun c => (Phi (- c) - ls_Pf r) * (Phi (- c) - ls_Pf r)) (ls_c r)) / INR N).
  assert (SS0 : forall l m, 0 <= lsum (map (fun c => (Phi (- c) - m) * (Phi (- c) - m)) l)).
  { intros l m. apply lsum_nonneg. intros x Hx. apply in_map_iff in Hx. destruct Hx as (c & <- & _). apply Rle_0_sqr. }
  assert (S0 : 0 <= S2) by (apply Rmult_le_pos; [apply SS0|left; now apply Rinv_0_lt_compat]).
  assert (ES : np_std (ls_contribs r) = sqrt S2).
  { unfold np_std. rewrite EC, map_length, L. rewrite <- EP. unfold S2. do 3 f_equal. rewrite map_map. apply map_ext. intros c. ring. }
  assert (SN : 0 < sqrt (INR N)) by (apply sqrt_lt_R0, N0).
  assert (DP : 0 < sqrt (INR N) * ls_Pf r) by (apply Rmult_lt_0_compat; lra).
  split; [exact ECV|]. rewrite ES. split; [apply Rmult_le_pos; [apply sqrt_pos|left; now apply Rinv_0_lt_compat]|]. split.
  - assert (SQ1 := sqrt_sqrt S2 S0). assert (SQ2 := sqrt_sqrt (INR N) (Rlt_le _ _ N0)).
    rewrite <- SQ1 at 3. rewrite <- SQ2 at 3. field. split; lra.
  - split.
    + intros Z c Ic. assert (Q : sqrt S2 = 0). { apply (Rmult_eq_reg_r (/ (sqrt (INR N) * ls_Pf r))); [|apply Rgt_not_eq; now apply Rinv_0_lt_compat]. unfold Rdiv in Z. lra. }
      apply sqrt_eq_0 in Q; [|exact S0].
      assert (Q2 : lsum (map (fun c => (Phi (- c) - ls_Pf r) * (Phi (- c) - ls_Pf r)) (ls_c r)) = 0).
      { apply (Rmult_eq_reg_r (/ INR N)); [|apply Rgt_not_eq; now apply Rinv_0_lt_compat]. fold (Rdiv (lsum (map (fun c => (Phi (- c) - ls_Pf r) * (Phi (- c) - ls_Pf r)) (ls_c r))) (INR N)). fold S2. lra. }
      clear - Q2 Ic SS0. generalize dependent (ls_Pf r). induction (ls_c r) as [|d l IH]; [destruct Ic|]. intros m. cbn [map lsum]. intros Q.
      assert (0 <= (Phi (- d) - m) * (Phi (- d) - m)) by apply Rle_0_sqr. assert (T := SS0 l m).
      destruct Ic as [->|Ic]; [|apply IH; [exact Ic|lra]]. assert (H0 : (Phi (- c) - m) * (Phi (- c) - m) = 0) by lra. apply Rmult_integral in H0. lra.
    + intros A. assert (S2 = 0) as ->; [|rewrite sqrt_0; field; lra]. unfold S2.
      assert (lsum (map (fun c => (Phi (- c) - ls_Pf r) * (Phi (- c) - ls_Pf r)) (ls_c r)) = 0) as ->; [|field; lra].
      clear - A. generalize dependent (ls_Pf r). intros m. induction (ls_c r) as [|d l IH]; intros A; [reflexivity|]. cbn [map lsum]. rewrite (A d) by now left.
      rewrite IH by (intros; apply A; now right). ring.
Qed.
Print Assumptions C80_line_sampling.

(** Non-vacuity: the two-level run of SsProps and the line-sampling run of LsProps. *)
Example cov_example_ss : exists fuel st,
  ss_run 1 2 10 (1 / 4) 2 (fun j => INR j + 1) (fun i => if Nat.even i then 0 else 1 / 2)
    (fun us => Ok (map (fun u : vec => u 0%nat) us)) fuel = SDone st /\ ss_nlevels st = 2%nat /\ 0 <= ss_cov 2 st.
Proof.
  destruct ss_example as (fuel & st & H1 & H2). exists fuel, st. split; [exact H1|]. split; [exact H2|].
  eapply (C80_subset_simulation _ _ _ _ _ _ _ _ (fun u : vec => u 0%nat)); cycle 4; [exact H1|reflexivity|lia|lra|lia].
Qed.
Example cov_example_ls : forall randn, exists v,
  ls_cov (ls_run 1 5 randn (fun u => Some (2 * (3 - dot 1 (fun _ => 1) u))) exact_root (fun _ => 1) 3) = Fin v /\ 0 <= v.
Proof.
  intros randn. destruct (C80_line_sampling 1 5 randn (fun u => Some (2 * (3 - dot 1 (fun _ => 1) u))) exact_root (fun _ => 1) 3) as (_ & v & K1 & K2 & _);
    [lia|apply ls_example_root_finder|]. exists v. auto.
Qed.
