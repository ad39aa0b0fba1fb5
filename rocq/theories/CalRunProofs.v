(** Proofs for C108: Newton's method on the excess of a margin. *)
From Coquelicot Require Import Coquelicot.
From Verif Require Import Base.
From Coq Require Import Lra Lia.
Open Scope R_scope.

Section Newton.
Variables (m1 m2 q2 q1 q0 beta : R).
Let Q z := q2 * z ^ 2 - 2 * q1 * z + q0.
Let s z := sqrt (Q z).
Let F z := m1 * z - m2 - beta * s z.
Let D z := m1 - beta * ((q2 * z - q1) / s z).
Hypothesis HQ : forall z, 0 < Q z.
Hypothesis HC : q1 ^ 2 <= q2 * q0.
Hypothesis HB : 0 <= beta.

Lemma nw_s z : 0 < s z. Proof. apply sqrt_lt_R0, HQ. Qed.
Lemma nw_sq z : s z * s z = Q z. Proof. apply sqrt_sqrt. left. apply HQ. Qed.
Lemma nw_derive z : is_derive F z (D z).
Proof.
  pose proof (nw_s z) as S. pose proof (HQ z) as P. unfold s, Q in S. unfold Q in P.
  assert (E : q2 * (z * (z * 1)) + - (2 * q1 * z) + q0 = q2 * z ^ 2 - 2 * q1 * z + q0) by ring.
  unfold F, D, s, Q. auto_derive; [rewrite E; exact P|]. rewrite !E. field.
  apply Rgt_not_eq. exact S.
Qed.
(** Cauchy-Schwarz for the two weight vectors *)
Lemma nw_cs z z' : q2 * z * z' - q1 * (z + z') + q0 <= s z * s z'.
Proof.
  set (B := q2 * z * z' - q1 * (z + z') + q0). pose proof (nw_s z). pose proof (nw_s z').
  assert (E : B ^ 2 <= (s z * s z') ^ 2).
  { replace ((s z * s z') ^ 2) with ((s z * s z) * (s z' * s z')) by ring. rewrite !nw_sq.
    replace (Q z * Q z') with (B ^ 2 + (q2 * q0 - q1 ^ 2) * (z - z') ^ 2) by (unfold Q, B; ring).
    pose proof (pow2_ge_0 (z - z')). nra. }
  assert (P : 0 <= s z * s z') by (apply Rmult_le_pos; lra). apply Rle_trans with (Rabs B); [apply Rle_abs|].
  apply Rsqr_le_abs_0 in E || (assert (E' : Rsqr B <= Rsqr (s z * s z')) by (rewrite !Rsqr_pow2; exact E); apply Rsqr_le_abs_0 in E'; rewrite (Rabs_right (s z * s z')) in E' by lra; exact E').
Qed.
(** the tangent lies above *)
Lemma nw_tangent z z' : F z' <= F z + D z * (z' - z).
Proof.
  pose proof (nw_s z) as S. pose proof (nw_cs z z') as C. pose proof (nw_sq z) as E.
  assert (K : s z + (q2 * z - q1) / s z * (z' - z) <= s z').
  { apply (Rmult_le_reg_l (s z)); [exact S|]. replace (s z * (s z + (q2 * z - q1) / s z * (z' - z))) with (s z * s z + (q2 * z - q1) * (z' - z)) by (field; lra).
    rewrite E. unfold Q. lra. }
  unfold F, D. nra.
Qed.
Lemma nw_slope z z' : z <= z' -> D z' <= D z.
Proof.
  intros H. destruct (Req_dec z z') as [->|N]; [lra|]. pose proof (nw_tangent z z'). pose proof (nw_tangent z' z). 
  assert (D z' * (z' - z) <= D z * (z' - z)) by lra. nra.
Qed.

Definition nw_next (z : R) : R := z - F z / D z.
(** the same as load over resistance at the projected point *)
Lemma nw_ratio z : D z <> 0 -> (m2 + beta * ((q0 - q1 * z) / s z)) / D z = nw_next z.
Proof.
  intros H. unfold nw_next. pose proof (nw_s z) as S. pose proof (nw_sq z) as E.
  apply (Rmult_eq_reg_r (D z)); [|exact H].
  replace ((z - F z / D z) * D z) with (z * D z - F z) by (now field). unfold Rdiv at 1. rewrite Rmult_assoc, Rinv_l, Rmult_1_r by exact H.
  unfold F, D. replace (beta * s z) with (beta * ((s z * s z) / s z)) by (f_equal; field; lra). rewrite E. unfold Q. field. lra.
Qed.

Variable zs : R.
Hypothesis HF : F zs = 0.
Hypothesis HD : 0 < D zs.

Lemma nw_below z : 0 < D z -> nw_next z <= zs.
Proof.
  intros H. pose proof (nw_tangent z zs) as T. rewrite HF in T. unfold nw_next.
  assert (E : F z / D z * D z = F z) by (field; lra). nra.
Qed.
Lemma nw_neg z : z <= zs -> F z <= D zs * (z - zs).
Proof. intros H. pose proof (nw_tangent zs z) as T. rewrite HF in T. lra. Qed.
Lemma nw_dpos z : z <= zs -> 0 < D z.
Proof. intros H. pose proof (nw_slope z zs H). lra. Qed.
Lemma nw_up z : z <= zs -> z <= nw_next z.
Proof.
  intros H. pose proof (nw_neg z H). pose proof (nw_dpos z H) as P. unfold nw_next.
  assert (E : F z / D z * D z = F z) by (field; lra). assert (F z <= 0) by nra. nra.
Qed.
Lemma nw_rate z z1 : z1 <= z -> z <= zs -> zs - nw_next z <= (1 - D zs / D z1) * (zs - z).
Proof.
  intros H1 H. pose proof (nw_neg z H) as N. pose proof (nw_dpos z H) as P. pose proof (nw_dpos z1 ltac:(lra)) as P1. pose proof (nw_slope z1 z H1) as SL.
  unfold nw_next. assert (E : F z / D z = - ((- F z) / D z)) by (field; lra). rewrite E.
  assert (K : D zs / D z1 * (zs - z) <= (- F z) / D z).
  { apply Rle_trans with (D zs / D z * (zs - z)).
    - apply Rmult_le_compat_r; [lra|]. apply Rmult_le_compat_l; [lra|]. apply Rinv_le_contravar; lra.
    - unfold Rdiv. rewrite Rmult_assoc, (Rmult_comm (/ D z)), <- Rmult_assoc. apply Rmult_le_compat_r; [left; now apply Rinv_0_lt_compat|]. lra. }
  lra.
Qed.
(** the index: between the bound and the target *)
Lemma nw_beta z : z <= zs -> 0 <= beta - (m1 * z - m2) / s z <= D z * (zs - z) / s z.
Proof.
  intros H. pose proof (nw_neg z H) as N. pose proof (nw_s z) as S. pose proof (nw_tangent z zs) as T. rewrite HF in T.
  replace (beta - (m1 * z - m2) / s z) with (- F z / s z) by (unfold F; field; lra).
  assert (0 <= - F z <= D z * (zs - z)) by nra. split.
  - apply Rmult_le_pos; [lra|]. left. now apply Rinv_0_lt_compat.
  - apply Rmult_le_compat_r; [left; now apply Rinv_0_lt_compat|lra].
Qed.
Lemma nw_beta_lt z : z < zs -> (m1 * z - m2) / s z < beta.
Proof.
  intros H. pose proof (nw_neg z ltac:(lra)) as N. pose proof (nw_s z) as S.
  apply (Rmult_lt_reg_r (s z)); [exact S|]. unfold Rdiv. rewrite Rmult_assoc, Rinv_l, Rmult_1_r by lra. unfold F in N. nra.
Qed.
Lemma nw_smin : exists m, 0 < m /\ forall z, m <= s z.
Proof.
  destruct (Req_dec q2 0) as [E|N].
  - assert (E1 : q1 = 0) by (rewrite E, Rmult_0_l in HC; pose proof (pow2_ge_0 q1); assert (q1 ^ 2 = 0) by lra; nra).
    exists (s 0). split; [apply nw_s|]. intros z. right. unfold s, Q. rewrite E, E1. f_equal. ring.
  - exists (s (q1 / q2)). split; [apply nw_s|]. intros z. apply sqrt_le_1_alt. unfold Q.
    assert (P : 0 < q2).
    { destruct (Rlt_le_dec 0 q2) as [P|P]; [exact P|]. exfalso. assert (q2 < 0) by lra. pose proof (HQ (q1 / q2)) as A. unfold Q in A.
      replace (q2 * (q1 / q2) ^ 2 - 2 * q1 * (q1 / q2) + q0) with (q0 - q1 ^ 2 / q2) in A by (field; lra).
      assert (q1 ^ 2 / q2 * q2 = q1 ^ 2) by (field; lra). nra. }
    replace (q2 * z ^ 2 - 2 * q1 * z + q0) with (q2 * (q1 / q2) ^ 2 - 2 * q1 * (q1 / q2) + q0 + q2 * (z - q1 / q2) ^ 2) by (field; lra).
    pose proof (pow2_ge_0 (z - q1 / q2)). nra.
Qed.
(** the iterates: the absolute value of each Newton step *)
Definition nw_seq (k : nat) : R := Nat.iter k (fun z => Rabs (nw_next z)) 1.
Hypothesis H1 : Rabs (nw_next 1) <= zs.
Lemma nw_seq_ok k : 0 <= nw_seq (S k) <= zs /\ nw_seq (S (S k)) = nw_next (nw_seq (S k)) /\ nw_seq (S k) <= nw_seq (S (S k)).
Proof.
  assert (G : forall z, 0 <= z <= zs -> Rabs (nw_next z) = nw_next z /\ z <= nw_next z <= zs).
  { intros z Hz. pose proof (nw_up z (proj2 Hz)). pose proof (nw_below z (nw_dpos z (proj2 Hz))). split; [apply Rabs_right; lra|lra]. }
  assert (B : 0 <= nw_seq (S k) <= zs).
  { induction k as [|k IH]; [split; [apply Rabs_pos|exact H1]|]. change (nw_seq (S (S k))) with (Rabs (nw_next (nw_seq (S k)))). destruct (G _ IH) as (-> & A). lra. }
  split; [exact B|]. change (nw_seq (S (S k))) with (Rabs (nw_next (nw_seq (S k)))). destruct (G _ B) as (-> & A). lra.
Qed.
Lemma nw_seq_from_one k : nw_seq 1 <= nw_seq (S k).
Proof. induction k as [|k IH]; [lra|]. pose proof (nw_seq_ok k). lra. Qed.
Lemma nw_rho : 0 <= 1 - D zs / D (nw_seq 1) < 1.
Proof.
  pose proof (nw_seq_ok 0) as (B & _). pose proof (nw_dpos _ (proj2 B)) as P. pose proof (nw_slope _ _ (proj2 B)) as S.
  assert (E : D zs / D (nw_seq 1) * D (nw_seq 1) = D zs) by (field; lra). assert (0 < D zs / D (nw_seq 1)) by (apply Rdiv_lt_0_compat; lra). split; [nra|lra].
Qed.
Lemma nw_seq_rate k : zs - nw_seq (S k) <= (1 - D zs / D (nw_seq 1)) ^ k * (zs - nw_seq 1).
Proof.
  induction k as [|k IH]; [cbn [pow]; lra|]. pose proof (nw_seq_ok k) as (B & E & _). rewrite E.
  pose proof (nw_rate _ _ (nw_seq_from_one k) (proj2 B)) as Rt. pose proof nw_rho as Rh.
  apply Rle_trans with (1 := Rt). cbn [pow]. rewrite Rmult_assoc. apply Rmult_le_compat_l; [lra|exact IH].
Qed.
Lemma nw_seq_beta eps : 0 < eps -> exists K, forall k, (K <= k)%nat -> Rabs ((m1 * nw_seq (S k) - m2) / s (nw_seq (S k)) - beta) <= eps.
Proof.
  intros He. destruct nw_smin as (m & Hm & Hs). pose proof nw_rho as Rh. pose proof (nw_seq_ok 0) as (B1 & _). pose proof (nw_dpos _ (proj2 B1)) as P1.
  set (rho := 1 - D zs / D (nw_seq 1)) in *. set (c := D (nw_seq 1) / m * (zs - nw_seq 1)).
  assert (Hc : 0 <= c) by (unfold c; apply Rmult_le_pos; [left; apply Rdiv_lt_0_compat; lra|lra]).
  destruct (pow_lt_1_zero rho ltac:(rewrite Rabs_right; lra) (eps / (c + 1)) ltac:(apply Rdiv_lt_0_compat; lra)) as (K & HK).
  exists K. intros k Hk. specialize (HK k Hk). pose proof (nw_seq_ok k) as (B & _). pose proof (nw_beta _ (proj2 B)) as (A1 & A2). rewrite Rabs_minus_sym, Rabs_right by lra.
  apply Rle_trans with (1 := A2). pose proof (nw_seq_rate k) as Rt. fold rho in Rt. pose proof (pow_le rho k ltac:(lra)) as Pk. rewrite Rabs_right in HK by lra.
  pose proof (nw_slope _ _ (nw_seq_from_one k)) as SL. pose proof (nw_dpos _ (proj2 B)) as Pk'.
  apply Rle_trans with (D (nw_seq 1) * (rho ^ k * (zs - nw_seq 1)) / m).
  - unfold Rdiv. apply Rmult_le_compat.
    + apply Rmult_le_pos; lra.
    + left. apply Rinv_0_lt_compat, nw_s.
    + apply Rmult_le_compat; lra.
    + apply Rinv_le_contravar; [exact Hm|apply Hs].
  - replace (D (nw_seq 1) * (rho ^ k * (zs - nw_seq 1)) / m) with (rho ^ k * c) by (unfold c; field; lra).
    assert (E : eps / (c + 1) * (c + 1) = eps) by (field; lra). nra.
Qed.
End Newton.

(** ** Quadratic forms of the weights *)
Section Bil.
Variables (n : nat) (K : mat).
Definition bil (x y : vec) : R := fsum n (fun i => x i * fsum n (fun j => K i j * y j)).
Lemma bil_ext x y x' y' : veq n x x' -> veq n y y' -> bil x y = bil x' y'.
Proof. intros Hx Hy. apply fsum_ext. intros i Hi. rewrite (Hx i Hi). f_equal. apply fsum_ext. intros j Hj. now rewrite (Hy j Hj). Qed.
Lemma bil_l t x1 x2 y : bil (fun i => t * x1 i - x2 i) y = t * bil x1 y - bil x2 y.
Proof.
  unfold bil. rewrite <- fsum_scal. unfold Rminus. rewrite <- fsum_opp, <- fsum_plus. apply fsum_ext. intros i _. ring.
Qed.
Lemma bil_r t x y1 y2 : bil x (fun i => t * y1 i - y2 i) = t * bil x y1 - bil x y2.
Proof.
  unfold bil. rewrite <- fsum_scal. unfold Rminus. rewrite <- fsum_opp, <- fsum_plus. apply fsum_ext. intros i _.
  rewrite (fsum_ext n _ (fun j => t * (K i j * y1 j) + - (K i j * y2 j))) by (intros; ring). rewrite fsum_plus, fsum_opp, fsum_scal. ring.
Qed.
Lemma bil_sym x y : (forall i j, (i < n)%nat -> (j < n)%nat -> K i j = K j i) -> bil x y = bil y x.
Proof.
  intros S. unfold bil. rewrite (fsum_ext n _ (fun i => fsum n (fun j => x i * (K i j * y j)))) by (intros; now rewrite fsum_scal).
  rewrite (fsum_swap n n). apply fsum_ext. intros j Hj. rewrite <- fsum_scal. apply fsum_ext. intros i Hi. rewrite (S i j Hi Hj). ring.
Qed.
Lemma bil_square t p q : (forall i j, (i < n)%nat -> (j < n)%nat -> K i j = K j i) ->
  bil (fun i => t * p i - q i) (fun i => t * p i - q i) = bil p p * t ^ 2 - 2 * bil p q * t + bil q q.
Proof. intros S. rewrite bil_l, !bil_r, (bil_sym q p S). ring. Qed.
End Bil.
Lemma quad_disc q2 q1 q0 : 0 <= q2 -> (forall z, 0 < q2 * z ^ 2 - 2 * q1 * z + q0) -> q1 ^ 2 <= q2 * q0.
Proof.
  intros H2 H. destruct (Req_dec q2 0) as [E|N].
  - destruct (Req_dec q1 0) as [E1|N1]; [rewrite E1, E; lra|]. exfalso. pose proof (H (q0 / (2 * q1))) as X. rewrite E in X.
    replace (2 * q1 * (q0 / (2 * q1))) with q0 in X by (field; lra). lra.
  - pose proof (H (q1 / q2)) as X. replace (q2 * (q1 / q2) ^ 2 - 2 * q1 * (q1 / q2) + q0) with (q0 - q1 ^ 2 / q2) in X by (field; lra).
    assert (E : q1 ^ 2 / q2 * q2 = q1 ^ 2) by (field; lra). nra.
Qed.
