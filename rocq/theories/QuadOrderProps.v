(** Property theorems C119: accuracy of the Gauss points and weights. *)
From Coquelicot Require Import Coquelicot.
From Verif Require Import Base Quad QuadSpec QuadProofs QuadProps QuadOrderProofs.
From Coq Require Import Lra Lia.
Open Scope R_scope.

(** C119: what is returned: with x1 and x2 the abscissas after the first and second pass, the base point
    is not -x2 but -(2 x2 - x1): the last correction is added twice. *)
Theorem C119_last_step_twice : forall n x0,
  let pass x := x + q_h (q_locals n x) in
  fst (q_point n x0) = - (2 * pass (pass x0) - pass x0).
Proof. intros n x0. cbv zeta. unfold q_point, q_iter. cbn [q_loop fst]. ring. Qed.
Print Assumptions C119_last_step_twice.

(** C119: one pass: near a root r of P_n the error t of the abscissa becomes -33/8 P''''/P' t^4, up to terms
    of fifth order. *)
Theorem C119_pass_order : forall n r, (1 <= n)%nat -> -1 < r < 1 -> legendre n r = 0 ->
  Derive (legendre n) r <> 0 /\
  exists C d, 0 < d /\ forall x, Rabs (x - r) < d ->
    Rabs (x + q_h (q_locals n x) - r - - (33 / 8) * Derive_n (legendre n) 4 r / Derive (legendre n) r * (x - r) ^ 4) <= C * Rabs (x - r) ^ 5.
Proof.
  intros [|n] r Hn Hr H0; [lia|]. destruct (legendre_Derive_n n r Hr) as (E1 & _ & _ & E4). rewrite E1, E4. split; [exact (P1_nz n r Hr H0)|].
  destruct (h_O n r Hr H0) as (C & d & _ & Hd & H). exists C, d. split; [exact Hd|]. intros x Hx. specialize (H (x - r) Hx). unfold hh in H. replace (r + (x - r)) with x in H by ring.
  replace (x + q_h (q_locals (S n) x) - r) with (x - r + q_h (q_locals (S n) x)) by ring. exact H.
Qed.
Print Assumptions C119_pass_order.

(** C119: the returned point and weight: of the same order as after ONE pass, for the point with the
    opposite sign; the weight is off through the factor 1 - x^2 alone. *)
Theorem C119_point_order : forall n r, (1 <= n)%nat -> -1 < r < 1 -> legendre n r = 0 ->
  let c := - (33 / 8) * Derive_n (legendre n) 4 r / Derive (legendre n) r in
  let w := 2 / ((1 - r * r) * Derive (legendre n) r ^ 2) in
  exists C d, 0 < d /\ forall x, Rabs (x - r) < d ->
    Rabs (fst (q_point n x) - (- r + c * (x - r) ^ 4)) <= C * Rabs (x - r) ^ 5 /\
    Rabs (snd (q_point n x) - w * (1 + 2 * r * c / (1 - r * r) * (x - r) ^ 4)) <= C * Rabs (x - r) ^ 5.
Proof.
  intros [|n] r Hn Hr H0; [lia|]. destruct (legendre_Derive_n n r Hr) as (E1 & _ & _ & E4). rewrite E1, E4. intros c w.
  destruct (bp_O n r Hr H0) as (C & d & HC & Hd & H). destruct (wf_O n r Hr H0) as (C' & d' & HC' & Hd' & H').
  exists (C + C'), (Rmin d d'). split; [apply Rmin_glb_lt; assumption|]. intros x Hx.
  assert (X1 : Rabs (x - r) < d) by (eapply Rlt_le_trans; [exact Hx|apply Rmin_l]). assert (X2 : Rabs (x - r) < d') by (eapply Rlt_le_trans; [exact Hx|apply Rmin_r]).
  specialize (H _ X1). specialize (H' _ X2). replace (r + (x - r)) with x in H, H' by ring. assert (P : 0 <= Rabs (x - r) ^ 5) by apply pow_le, Rabs_pos. split.
  - apply (Rle_trans _ _ _ H). apply Rmult_le_compat_r; [exact P|lra].
  - replace (w * (1 + 2 * r * c / (1 - r * r) * (x - r) ^ 4)) with (2 / ((1 - r * r) * Ldp n r ^ 2) + 4 * r * cc n r / ((1 - r * r) * Ldp n r) ^ 2 * (x - r) ^ 4).
    + apply (Rle_trans _ _ _ H'). apply Rmult_le_compat_r; [exact P|lra].
    + unfold w, c, cc. pose proof (den_pos r Hr). field. split; [exact (P1_nz n r Hr H0)|lra].
Qed.
Print Assumptions C119_point_order.

(** C119 refuted: "the second pass improves the returned point". For the four-point rule the point is off
    by a multiple of the fourth power of the starting error, not of its sixteenth (two passes of fourth
    order): no bound of fifth order holds. *)
Theorem C119_two_passes_refuted : exists r, 0 < r < 1 /\ legendre 4 r = 0 /\
  ~ exists C d, 0 < d /\ forall x, Rabs (x - r) < d -> Rabs (fst (q_point 4 x) + r) <= C * Rabs (x - r) ^ 5.
Proof.
  set (z := sqrt (6 / 5)). assert (Z2 : z * z = 6 / 5) by (apply sqrt_sqrt; lra). assert (Z0 : 0 <= z) by apply sqrt_pos. assert (ZB : 1 < z < 3 / 2) by nra.
  set (r := sqrt ((3 - 2 * z) / 7)). assert (Q : 0 < (3 - 2 * z) / 7 < 1 / 4) by lra.
  assert (R2 : r * r = (3 - 2 * z) / 7) by (apply sqrt_sqrt; lra). assert (R0 : 0 < r) by (apply sqrt_lt_R0; lra). assert (RB : r < 1) by nra.
  assert (L0 : legendre 4 r = 0).
  { assert (E : legendre 4 r = (35 * (r * r) ^ 2 - 30 * (r * r) + 3) / 8) by (unfold legendre; simpl; field). rewrite E, R2. assert (35 * ((3 - 2 * z) / 7) ^ 2 - 30 * ((3 - 2 * z) / 7) + 3 = (20 * (z * z) - 24) / 7) by field. rewrite H, Z2. lra. }
  exists r. split; [lra|]. split; [exact L0|]. intros (C & d & Hd & H).
  destruct (C119_point_order 4 r ltac:(lia) ltac:(lra) L0) as (C' & d' & Hd' & H'). destruct (C119_pass_order 4 r ltac:(lia) ltac:(lra) L0) as (NZ & _).
  set (c := - (33 / 8) * Derive_n (legendre 4) 4 r / Derive (legendre 4) r) in *.
  assert (D4 : Derive_n (legendre 4) 4 r = 105).
  { destruct (legendre_Derive_n 3 r ltac:(lra)) as (_ & _ & _ & E4). rewrite E4. pose proof (den_pos r ltac:(lra)). unfold Ld4, Ld3, Ld2, Ldp, Ld1, q_e1, legendre. simpl. field. lra. }
  assert (CP : 0 < Rabs c). { apply Rabs_pos_lt. unfold c, Rdiv. rewrite D4. apply Rmult_integral_contrapositive_currified; [lra|apply Rinv_neq_0_compat, NZ]. }
  assert (A : exists t, 0 < t < Rmin d d' /\ (Rabs C + Rabs C') * t < Rabs c).
  { set (K := Rabs C + Rabs C' + 1). assert (KP : 0 < K) by (unfold K; pose proof (Rabs_pos C); pose proof (Rabs_pos C'); lra).
    exists (Rmin (Rmin d d' / 2) (Rabs c / 2 / K)). assert (M : 0 < Rmin d d') by (apply Rmin_glb_lt; lra). assert (B : 0 < Rabs c / 2 / K) by (apply Rdiv_lt_0_compat; lra).
    split; [split; [apply Rmin_glb_lt; lra|eapply Rle_lt_trans; [apply Rmin_l|lra]]|].
    apply (Rle_lt_trans _ (K * (Rabs c / 2 / K))); [|replace (K * (Rabs c / 2 / K)) with (Rabs c / 2) by (field; lra); lra].
    apply Rmult_le_compat; [pose proof (Rabs_pos C); pose proof (Rabs_pos C'); lra|left; apply Rmin_glb_lt; lra|unfold K; lra|apply Rmin_r]. }
  destruct A as (t & (T0 & T1) & T2).
  assert (X : Rabs (r + t - r) = t) by (replace (r + t - r) with t by ring; apply Rabs_right; lra).
  specialize (H (r + t)). rewrite X in H. specialize (H ltac:(eapply Rlt_le_trans; [exact T1|apply Rmin_l])).
  specialize (H' (r + t)). rewrite X in H'. destruct (H' ltac:(eapply Rlt_le_trans; [exact T1|apply Rmin_r])) as [H1 _]. replace (r + t - r) with t in H1 by ring.
  pose proof (Rabs_triang_inv (c * t ^ 4) (fst (q_point 4 (r + t)) + r)) as TI. rewrite (Rabs_minus_sym (c * t ^ 4)) in TI.
  replace (fst (q_point 4 (r + t)) + r - c * t ^ 4) with (fst (q_point 4 (r + t)) - (- r + c * t ^ 4)) in TI by ring. rewrite Rabs_mult, (Rabs_right (t ^ 4)) in TI by (apply Rle_ge, pow_le; lra).
  assert (P4 : 0 < t ^ 4) by (apply pow_lt; exact T0). replace (t ^ 5) with (t * t ^ 4) in H, H1 by ring. pose proof (Rle_abs C). pose proof (Rle_abs C').
  assert (B1 : C * (t * t ^ 4) <= Rabs C * t * t ^ 4) by (rewrite <- Rmult_assoc; apply Rmult_le_compat_r; [lra|]; apply Rmult_le_compat_r; lra).
  assert (B2 : C' * (t * t ^ 4) <= Rabs C' * t * t ^ 4) by (rewrite <- Rmult_assoc; apply Rmult_le_compat_r; [lra|]; apply Rmult_le_compat_r; lra).
  assert (B3 : (Rabs C + Rabs C') * t * t ^ 4 < Rabs c * t ^ 4) by (apply Rmult_lt_compat_r; lra). lra.
Qed.
Print Assumptions C119_two_passes_refuted.
