(** Property theorems C132: FORM with a fixed step size on limit states affine in standard normal space. *)
From Coquelicot Require Import Coquelicot.
From Verif Require Import Base Ext Gauss GaussProofs StochModel StochModelSpec LimitState LimitStateSpec Transf TransfSpec Form FormProofs FormProps FixStepProofs.
From Coq Require Import ZArith Lra Lia.
Open Scope R_scope.

(** C132: G(u) = b - a.u, a fixed step size t <> 0, any start.  With q = 1 - t, u1 = b a/||a||^2 the design
    point, beta1 = b/||a||: iterate number k+1 is u1 + q^k (u0 - u1); the run ends at the first k with
    k+1 = i_max, or |q|^k < e1 and |q|^k times the distance of u0 from the axis below e2 (never in this way if
    it started on the limit state surface), and reports beta1 + q^k (a.u0/||a|| - beta1). *)
Theorem C132_iterates : forall n o ev trial evn a b fuel u0,
  norm n a <> 0 -> affine_ev n a b ev -> fo_step o <> 0 -> (1 <= fo_imax o)%Z -> (Z.to_nat (fo_imax o) <= fuel)%nat ->
  let q := 1 - fo_step o in
  let us := fun i => b / (norm n a * norm n a) * a i in
  let beta := b / norm n a in
  let axis_dist := norm n (fun i => u0 i - dot n a u0 / (norm n a * norm n a) * a i) in
  let ends k := Z.of_nat (S k) = fo_imax o \/
    (b - dot n a u0 <> 0 /\ Rabs q ^ k < fo_e1 o /\ Rabs q ^ k * axis_dist < fo_e2 o) in
  exists k r c u, form_run n o ev trial evn fuel u0 = (FDone r, c) /\ fr_i r = Z.of_nat (S k) /\
    ends k /\ (forall j, (j < k)%nat -> ~ ends j) /\
    fr_G r = q ^ k * (b - dot n a u0) /\ fr_u r = Some u /\ veq n u (fun i => us i + q ^ k * (u0 i - us i)) /\
    form_beta n r = Fin (beta + q ^ k * (dot n a u0 / norm n a - beta)).
Proof.
  intros n o ev trial evn a b fuel u0 Ha He Hs Hi Hf q us beta ad ends0.
  destruct (loop_fixed n o ev trial evn a b u0 Ha He Hs (Z.to_nat (fo_imax o) - 1) 0 fuel None u0 0 (fun _ => 0) 0%nat) as (K & r & c & u & E & _ & Ei & S & NS & EG & Eu & V & EB); [lia|lia|reflexivity|intros i _; unfold uk; cbn; ring|].
  exists K, r, c, u. split; [exact E|]. split; [exact Ei|]. split; [exact S|]. split; [intros j Hj; apply NS; lia|]. split; [exact EG|]. split; [exact Eu|]. split; [exact V|].
  rewrite EB, a_uk by assumption. f_equal. unfold beta, q. field. exact Ha.
Qed.
Print Assumptions C132_iterates.

Lemma axis0 n a (u0 : vec) : veq n u0 (fun _ => 0) -> norm n (fun i => u0 i - dot n a u0 / (norm n a * norm n a) * a i) = 0.
Proof.
  intros Z. assert (D : dot n a u0 = 0) by (rewrite (dot_ext n a u0 a (fun _ => 0) (fun i _ => eq_refl) Z); unfold dot; rewrite (fsum_ext n _ (fun _ => 0)) by (intros; ring); apply fsum_zero; reflexivity).
  rewrite D, (norm_ext n _ (fun _ => 0)) by (intros i Hi; rewrite (Z i Hi); unfold Rdiv; ring).
  unfold norm, dot. rewrite (fsum_zero n (fun _ => 0 * 0)) by (intros; ring). apply sqrt_0.
Qed.

(** C132: from the origin with a step size between 0 and 2 and enough iterations the run needs exactly k+1 of
    them, k the first with |1-t|^k < e1, whatever the limit state, and reports (1 - (1-t)^k) times the
    exact index; with a step size of at most 1 this is never beyond the exact index, so that the reported
    failure probability is at least the exact one if the origin is safe. *)
Theorem C132_from_origin : forall n o ev trial evn a b fuel u0 k,
  norm n a <> 0 -> affine_ev n a b ev -> 0 < fo_step o < 2 -> 0 < fo_e2 o -> b <> 0 -> veq n u0 (fun _ => 0) ->
  let q := 1 - fo_step o in let beta := b / norm n a in
  Rabs q ^ k < fo_e1 o -> (forall j, (j < k)%nat -> fo_e1 o <= Rabs q ^ j) ->
  (Z.of_nat (S k) <= fo_imax o)%Z -> (Z.to_nat (fo_imax o) <= fuel)%nat ->
  exists r c rep, form_run n o ev trial evn fuel u0 = (FDone r, c) /\ fr_i r = Z.of_nat (S k) /\
    form_beta n r = Fin rep /\ rep = (1 - q ^ k) * beta /\ Rabs (rep - beta) < fo_e1 o * Rabs beta /\
    form_Pf n r = Fin (Phi (- rep)) /\
    (fo_step o <= 1 -> Rabs rep <= Rabs beta /\ (0 < b -> Phi (- beta) <= Phi (- rep))).
Proof.
  intros n o ev trial evn a b fuel u0 k Ha He Ht H2 Hb Z q beta Hk Hj Hi Hf.
  destruct (C132_iterates n o ev trial evn a b fuel u0 Ha He ltac:(lra) ltac:(lia) Hf) as (K & r & c & u & E & Ei & S & NS & EG & Eu & V & EB).
  fold q beta in S, NS, EB. rewrite axis0 in S, NS by exact Z.
  assert (D : dot n a u0 = 0) by (rewrite (dot_ext n a u0 a (fun _ => 0) (fun i _ => eq_refl) Z); unfold dot; rewrite (fsum_ext n _ (fun _ => 0)) by (intros; ring); apply fsum_zero; reflexivity).
  rewrite D in S, NS, EB. setoid_rewrite Rmult_0_r in S. setoid_rewrite Rmult_0_r in NS.
  assert (KK : K = k).
  { destruct (lt_eq_lt_dec K k) as [[L|L]|L]; [|exact L|].
    - exfalso. destruct S as [S|(_ & S & _)]; [lia|]. pose proof (Hj K L). lra.
    - exfalso. apply (NS k L). right. split; [lra|]. split; [exact Hk|exact H2]. }
  subst K. assert (PN : 0 < norm n a) by (apply norm_pos; exact Ha).
  assert (Q : Rabs q < 1) by (apply Rabs_def1; unfold q; lra).
  assert (PB : 0 < Rabs beta) by (apply Rabs_pos_lt; unfold beta, Rdiv; apply Rmult_integral_contrapositive; split; [exact Hb|now apply Rinv_neq_0_compat]).
  exists r, c, ((1 - q ^ k) * beta). split; [exact E|]. split; [exact Ei|]. assert (B : form_beta n r = Fin ((1 - q ^ k) * beta)) by (rewrite EB; f_equal; unfold Rdiv; ring).
  split; [exact B|]. split; [reflexivity|]. split.
  - replace ((1 - q ^ k) * beta - beta) with (- (q ^ k * beta)) by ring. rewrite Rabs_Ropp, Rabs_mult, <- RPow_abs. now apply Rmult_lt_compat_r.
  - split; [unfold form_Pf; rewrite B; reflexivity|]. intros T1.
    assert (P0 : 0 <= q ^ k) by (apply pow_le; unfold q; lra).
    assert (P1 : q ^ k <= 1) by (rewrite <- (pow1 k); apply pow_incr; unfold q; lra).
    split; [rewrite Rabs_mult, (Rabs_right (1 - q ^ k)) by lra; nra|]. intros Hb0.
    assert (BP : 0 < beta) by (unfold beta; apply Rdiv_lt_0_compat; assumption).
    apply -> Phi_le. nra.
Qed.
Print Assumptions C132_from_origin.

(** C132: with any other fixed step size (negative, or 2 and above) the run never ends by its criteria
    (e1 <= 1): it reports (1 - (1-t)^(i_max - 1)) times the exact index after i_max iterations. *)
Theorem C132_other_steps : forall n o ev trial evn a b fuel u0,
  norm n a <> 0 -> affine_ev n a b ev -> fo_step o < 0 \/ 2 <= fo_step o -> fo_e1 o <= 1 -> veq n u0 (fun _ => 0) ->
  (1 <= fo_imax o)%Z -> (Z.to_nat (fo_imax o) <= fuel)%nat ->
  exists r c, form_run n o ev trial evn fuel u0 = (FDone r, c) /\ fr_i r = fo_imax o /\
    form_beta n r = Fin ((1 - (1 - fo_step o) ^ (Z.to_nat (fo_imax o) - 1)) * (b / norm n a)).
Proof.
  intros n o ev trial evn a b fuel u0 Ha He Ht H1 Z Hi Hf.
  destruct (C132_iterates n o ev trial evn a b fuel u0 Ha He ltac:(lra) Hi Hf) as (K & r & c & u & E & Ei & S & _ & _ & _ & _ & EB).
  assert (D : dot n a u0 = 0) by (rewrite (dot_ext n a u0 a (fun _ => 0) (fun i _ => eq_refl) Z); unfold dot; rewrite (fsum_ext n _ (fun _ => 0)) by (intros; ring); apply fsum_zero; reflexivity).
  rewrite D in EB. assert (Q : 1 <= Rabs (1 - fo_step o)) by (destruct Ht; [rewrite Rabs_right|rewrite Rabs_left]; lra).
  destruct S as [S|(_ & S & _)]; [|exfalso; pose proof (pow_R1_Rle _ K Q); lra].
  exists r, c. split; [exact E|]. split; [lia|]. rewrite EB. replace (Z.to_nat (fo_imax o) - 1)%nat with K by lia. f_equal. unfold Rdiv. ring.
Qed.
Print Assumptions C132_other_steps.

(** C132 refuted: "with a fixed step size of 2 and the default 100 iterations FORM finds the index of an affine
    limit state": for every affine limit state it reports exactly twice the index. *)
Theorem C132_step_two_refuted : forall n o ev trial evn a b fuel u0,
  norm n a <> 0 -> affine_ev n a b ev -> fo_step o = 2 -> fo_e1 o <= 1 -> fo_imax o = 100%Z -> veq n u0 (fun _ => 0) -> (100 <= fuel)%nat ->
  exists r c, form_run n o ev trial evn fuel u0 = (FDone r, c) /\ fr_i r = 100%Z /\
    form_beta n r = Fin (2 * (b / norm n a)) /\ form_Pf n r = Fin (Phi (- (2 * (b / norm n a)))).
Proof.
  intros n o ev trial evn a b fuel u0 Ha He Ht H1 Hi Z Hf.
  destruct (C132_other_steps n o ev trial evn a b fuel u0 Ha He ltac:(lra) H1 Z ltac:(lia) ltac:(rewrite Hi; exact Hf)) as (r & c & E & Ei & EB).
  assert (P : (1 - fo_step o) ^ (Z.to_nat (fo_imax o) - 1) = -1).
  { rewrite Ht, Hi. change (Z.to_nat 100 - 1)%nat with (S (2 * 49)). replace (1 - 2) with (-1) by ring. apply pow_1_odd. }
  rewrite P in EB. exists r, c. split; [exact E|]. split; [now rewrite Ei|].
  assert (B : form_beta n r = Fin (2 * (b / norm n a))) by (rewrite EB; f_equal; ring). split; [exact B|]. unfold form_Pf. now rewrite B.
Qed.
Print Assumptions C132_step_two_refuted.

(** C132, on models: any history, normal marginals, any correlation, a limit state linear in the
    variables with forward differences, started at the mean: the run with a fixed step size between 0
    and 2 takes k+1 iterations and reports (1 - (1-t)^k) times the second-moment index. *)
Theorem C132_linear_normal : forall h expr f o fuel T invT inv m c0 (cf mu sd : vec) fo trial evn u0 k,
  let n := ndists h in
  pointwise expr f -> (1 <= n)%nat -> (1 <= o_block_size o)%Z -> (n + 7 < fuel)%nat ->
  o_multi_proc o <> 0%Z -> o_diff_mode o <> "no"%string -> o_diff_mode o <> "ddm"%string -> o_ffdpara o <> 0 ->
  (forall d, In d (dists_of (accepted h)) -> rv_stdv d <> 0) ->
  inverse_pair n T invT -> inv_contract n inv -> (forall A B, inverse_pair n B A -> exists C, inv n A = Ok C) ->
  (forall q, length q = n -> f (args_at h q) = c0 + fsum n (fun i => cf i * nth i q 0)) ->
  (forall i, (i < n)%nat -> sd i <> 0) ->
  (forall i, (i < n)%nat -> (forall z, rv_u2x (m i) z = mu i + sd i * z) /\ forall z x, rv_jac (m i) z x = / sd i) ->
  let b := c0 + fsum n (fun i => cf i * mu i) in
  let a := fun j => - fsum n (fun i => cf i * sd i * invT i j) in
  let q := 1 - fo_step fo in
  norm n a <> 0 -> b <> 0 -> 0 < fo_step fo < 2 -> 0 < fo_e2 fo -> veq n u0 (fun _ => 0) ->
  Rabs q ^ k < fo_e1 fo -> (forall j, (j < k)%nat -> fo_e1 fo <= Rabs q ^ j) ->
  (Z.of_nat (S k) <= fo_imax fo)%Z -> (Z.to_nat (fo_imax fo) <= fuel)%nat ->
  exists r c, form_run n fo (form_ev fuel (sm_run h) expr o n T invT inv m) trial evn fuel u0 = (FDone r, c) /\
    fr_i r = Z.of_nat (S k) /\ form_beta n r = Fin ((1 - q ^ k) * (b / norm n a)).
Proof.
  intros h expr f o fuel T invT inv m c0 cf mu sd fo trial evn u0 k n Hp Hn Hb Hfu Hmp Hd1 Hd2 Hff Hs HT HI HIex Hlin Hsd Hm b a q Ha Hb0 Ht H2 Z Hk Hj Hi Hf.
  destruct (C24_linear_normal h expr f o fuel T invT inv m c0 cf mu sd Hp Hn Hb Hfu Hmp Hd1 Hd2 Hff Hs HT HI HIex Hlin Hsd Hm) as [A _].
  destruct (C132_from_origin n fo _ trial evn a b fuel u0 k Ha A Ht H2 Hb0 Z Hk Hj Hi Hf) as (r & c & rep & E & Ei & B & -> & _).
  exists r, c. auto.
Qed.
Print Assumptions C132_linear_normal.

(** hypotheses met: G(u) = 3 - u1 - u2 with step size 1/2 and e1 = 1/1000: k = 10, eleven iterations *)
Example C132_example :
  let a := fun i : nat => 1 in let ev := fun u : vec => (Ok (3 - dot 2 a u, fun _ : nat => -1), 3%nat) in
  norm 2 a <> 0 /\ affine_ev 2 a 3 ev /\ Rabs (1 - 1 / 2) ^ 10 < 1 / 1000 /\ (forall j, (j < 10)%nat -> 1 / 1000 <= Rabs (1 - 1 / 2) ^ j) /\
  forall o trial evn, fo_step o = 1 / 2 -> fo_e1 o = 1 / 1000 -> fo_e2 o = 1 / 1000 -> fo_imax o = 100%Z ->
    exists r c, form_run 2 o ev trial evn 100 (fun _ => 0) = (FDone r, c) /\ fr_i r = 11%Z /\ form_beta 2 r = Fin (1023 / 1024 * (3 / norm 2 a)).
Proof.
  intros a ev. assert (H1 : norm 2 a <> 0).
  { intros X. assert (Y : norm 2 a * norm 2 a = 2) by (unfold norm; rewrite sqrt_sqrt; unfold dot, a; cbn; lra). rewrite X in Y. lra. }
  assert (H2 : affine_ev 2 a 3 ev) by (intros u; exists (fun _ => -1), 3%nat; split; [reflexivity|intros i _; unfold a; ring]).
  assert (A : Rabs (1 - 1 / 2) = / 2) by (rewrite Rabs_right; lra).
  assert (H3 : Rabs (1 - 1 / 2) ^ 10 < 1 / 1000) by (rewrite A; cbn; lra).
  assert (H4 : forall j, (j < 10)%nat -> 1 / 1000 <= Rabs (1 - 1 / 2) ^ j) by (intros j Hj; rewrite A; do 10 (destruct j as [|j]; [cbn; lra|]); lia).
  split; [exact H1|]. split; [exact H2|]. split; [exact H3|]. split; [exact H4|].
  intros o trial evn O1 O2 O3 O4.
  destruct (C132_from_origin 2 o ev trial evn a 3 100 (fun _ => 0) 10 H1 H2) as (r & c & rep & E & Ei & B & -> & _); rewrite ?O1, ?O2, ?O3, ?O4; try lra; try lia; try assumption; [intros i _; reflexivity|].
  exists r, c. split; [exact E|]. split; [exact Ei|]. rewrite B, O1. f_equal. replace ((1 - 1 / 2) ^ 10) with (/ 1024) by (replace (1 - 1 / 2) with (/ 2) by lra; cbn; field). field. exact H1.
Qed.
