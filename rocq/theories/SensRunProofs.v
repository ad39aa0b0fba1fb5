From Coquelicot Require Import Coquelicot.
From Verif Require Import Base Ext Gauss GaussProofs StochModel LimitState Transf TransfSpec TransfProofs Form FormProofs FormProps Chol CholProofs Quad Nataf NatafProofs Dist Pipe Sens SensSpec SensCfProofs SensProps SensRun SensRunSpec.
From Coq Require Import ZArith Lra Lia.
Open Scope R_scope.

(** ** a constant correlation matrix has a constant Cholesky factor *)
Lemma cwd_const n Ro dR0 : symmetric n Ro -> pos_def n Ro -> (forall i j, (i < n)%nat -> (j < n)%nat -> dR0 i j = 0) ->
  forall i j, (i < n)%nat -> (j < n)%nat -> snd (cholesky_with_derivative n Ro dR0) i j = 0.
Proof.
  intros HS HP HZ i j Hi Hj.
  assert (D := cholesky_derivative n (fun _ => Ro) dR0 0 (fun _ => dR0) HS HP).
  specialize (D ltac:(intros p q Hp Hq; rewrite HZ by assumption; apply (is_derive_const (Ro p q) 0)) i j Hi Hj).
  apply is_derive_unique in D. rewrite Derive_const in D. symmetry. exact D.
Qed.

Section Lin.
Variable n : nat.
Variables (A T Ai Ro : mat) (w : vec) (v t : R) (alpha u : vec).
Hypothesis HT : inverse_pair n T A.
Hypothesis HAi : inverse_pair n Ai A.
Hypothesis HF : factor_of n A Ro.
Let a : vec := fun j => - fsum n (fun i => w i * A i j).
Hypothesis Hal : veq n alpha (fun i => a i / sqrt v).
Hypothesis Hu : veq n u (fun i => t * a i).

Lemma lin_z k : (k < n)%nat -> mvec n A u k = - t * fsum n (fun i => Ro k i * w i).
Proof.
  intros Hk. unfold mvec. rewrite (fsum_ext n _ (fun j => - t * fsum n (fun i => A k j * (w i * A i j)))).
  - rewrite fsum_scal. f_equal. rewrite (fsum_swap n n). apply fsum_ext. intros i Hi.
    rewrite <- (HF k i Hk Hi), <- fsum_scal_r. apply fsum_ext. intros; ring.
  - intros j Hj. rewrite (Hu j Hj). unfold a. rewrite fsum_scal. ring.
Qed.
(** alpha' T e_k *)
Lemma lin_row k : (k < n)%nat -> fsum n (fun i => alpha i * T i k) = - w k / sqrt v.
Proof.
  intros Hk. rewrite (fsum_ext n _ (fun i => (- / sqrt v) * fsum n (fun l => w l * (A l i * T i k)))).
  - rewrite fsum_scal, (fsum_swap n n), (fsum_ext n _ (fun l => delta k l * w l)).
    + rewrite fsum_delta by exact Hk. unfold Rdiv. ring.
    + intros l Hl. rewrite fsum_scal. assert (E := proj2 HT l k Hl Hk). unfold mmul, meye in E. rewrite E, delta_sym. ring.
  - intros i Hi. rewrite (Hal i Hi). unfold a, Rdiv. rewrite (fsum_ext n (fun l => w l * (A l i * T i k)) (fun l => w l * A l i * T i k)) by (intros; ring).
    rewrite fsum_scal_r. ring.
Qed.
Lemma lin_term1 k q : (k < n)%nat -> dot n alpha (mvec n T (fun i => if Nat.eqb i k then q else 0)) = - w k * q / sqrt v.
Proof.
  intros Hk. unfold dot. rewrite (fsum_ext n _ (fun i => alpha i * T i k * q)).
  - rewrite fsum_scal_r, lin_row by exact Hk. unfold Rdiv. ring.
  - intros i Hi. unfold mvec. rewrite (fsum_ext n _ (fun j => delta k j * (T i j * q))).
    + rewrite fsum_delta by exact Hk. ring.
    + intros j Hj. destruct (Nat.eqb_spec j k) as [->|N]; [rewrite delta_refl; ring|rewrite delta_neq by lia; ring].
Qed.

(** the entry for a change dR0 of the modified correlation, with the Cholesky factor *)
Lemma lin_corr dR0 : cholesky_factor n A Ro -> symmetric n dR0 ->
  dot n alpha (mvec n (dinvL0_dtheta n Ai (snd (cholesky_with_derivative n Ro dR0))) (mvec n A u))
  = - (t / 2) / sqrt v * fsum n (fun i => fsum n (fun j => w i * dR0 i j * w j)).
Proof.
  intros HC HD. assert (HI : inverse_pair n A Ai) by (destruct HAi; split; assumption).
  destruct (pos_def_of_factor n A Ai Ro HF HI) as [HS HP].
  destruct (cholesky_correct n Ro dR0 HS HP HD) as (_ & _ & _ & HdL).
  pose proof (factor_is_cwd n A Ai Ro dR0 HC HI HD) as EL.
  set (dL := snd (cholesky_with_derivative n Ro dR0)) in *. set (L := fst (cholesky_with_derivative n Ro dR0)) in *.
  (* alpha' Ai = - w' / sqrt v *)
  assert (ER : forall k, (k < n)%nat -> fsum n (fun i => alpha i * Ai i k) = - w k / sqrt v).
  { intros k Hk. rewrite <- (lin_row k Hk). apply fsum_ext. intros i Hi. f_equal. apply (inverse_unique n A); try assumption. destruct HT; split; assumption. }
  assert (EU : veq n (mvec n Ai (mvec n A u)) u).
  { intros i Hi. rewrite <- mvec_mmul. rewrite (mvec_meq n _ _ u i (proj1 HAi) Hi). now apply mvec_eye. }
  assert (E1 : dot n alpha (mvec n (dinvL0_dtheta n Ai dL) (mvec n A u)) = fsum n (fun k => w k / sqrt v * mvec n dL u k)).
  { unfold dinvL0_dtheta, dot.
    rewrite (fsum_ext n _ (fun i => alpha i * - fsum n (fun k => Ai i k * mvec n dL u k))).
    - rewrite (fsum_ext n _ (fun i => fsum n (fun k => - (alpha i * Ai i k * mvec n dL u k)))).
      + rewrite fsum_swap. apply fsum_ext. intros k Hk. rewrite fsum_opp, fsum_scal_r, ER by exact Hk. unfold Rdiv. ring.
      + intros i Hi. rewrite fsum_opp. rewrite <- Ropp_mult_distr_r. f_equal. rewrite <- fsum_scal. apply fsum_ext. intros; ring.
    - intros i Hi. f_equal. rewrite mvec_mmul, mvec_mmul. unfold mvec at 1.
      rewrite (fsum_ext n _ (fun k => - (Ai i k * mvec n dL u k))); [apply fsum_opp|].
      intros k Hk. rewrite (mvec_ext n dL _ u EU) by exact Hk. ring. }
  rewrite E1.
  (* dL u = - t dL A' w *)
  assert (E2 : forall k, (k < n)%nat -> mvec n dL u k = - t * fsum n (fun i => w i * fsum n (fun m => dL k m * A i m))).
  { intros k Hk. unfold mvec. rewrite (fsum_ext n _ (fun m => - t * fsum n (fun i => w i * (dL k m * A i m)))).
    - rewrite fsum_scal. f_equal. rewrite fsum_swap. apply fsum_ext. intros i Hi. now rewrite fsum_scal.
    - intros m Hm. rewrite (Hu m Hm). unfold a. rewrite (fsum_ext n (fun i => w i * (dL k m * A i m)) (fun i => dL k m * (w i * A i m))) by (intros; ring).
      rewrite fsum_scal. ring. }
  rewrite (fsum_ext n _ (fun k => (- t / sqrt v) * fsum n (fun i => w k * w i * fsum n (fun m => dL k m * A i m)))).
  2:{ intros k Hk. rewrite E2 by exact Hk. rewrite (fsum_ext n (fun i => w k * w i * _) (fun i => w k * (w i * fsum n (fun m => dL k m * A i m)))) by (intros; ring).
      rewrite fsum_scal. unfold Rdiv. ring. }
  rewrite fsum_scal.
  set (S := fsum n (fun k => fsum n (fun i => w k * w i * fsum n (fun m => dL k m * A i m)))).
  assert (E3 : fsum n (fun i => fsum n (fun j => w i * dR0 i j * w j)) = S + S).
  { assert (ES : S = fsum n (fun i => fsum n (fun k => w k * w i * fsum n (fun m => dL k m * A i m)))) by (unfold S; apply fsum_swap).
    rewrite ES at 2. unfold S. rewrite <- fsum_plus. apply fsum_ext. intros i Hi. rewrite <- fsum_plus. apply fsum_ext. intros j Hj.
    rewrite <- (HdL i j Hi Hj), fsum_plus.
    rewrite (fsum_ext n (fun m => dL i m * L j m) (fun m => dL i m * A j m)) by (intros m Hm; rewrite EL by assumption; reflexivity).
    rewrite (fsum_ext n (fun m => L i m * dL j m) (fun m => dL j m * A i m)) by (intros m Hm; rewrite EL by assumption; ring).
    ring. }
  rewrite E3. unfold Rdiv. lra.
Qed.
End Lin.

(** ** normal marginals: the modified correlation does not move with mean and std *)
Lemma phi_ge z : -6 <= z <= 6 -> / 10 ^ 10 <= phi z.
Proof.
  intros Hz. unfold phi.
  assert (A : exp (-18) <= exp (- (1 / 2) * (z * z))).
  { destruct (Req_dec (-18) (- (1 / 2) * (z * z))) as [->|N]; [lra|]. apply Rlt_le, exp_increasing.
    assert (z * z <= 36) by nra. lra. }
  assert (B : / 3 ^ 18 <= exp (-18)).
  { replace (-18) with (- (INR 18 * 1)) by (simpl; lra). rewrite exp_Ropp.
    apply Rinv_le_contravar; [apply exp_pos|].
    assert (P : forall n, exp (INR n * 1) <= 3 ^ n).
    { induction n as [|n IH]; [simpl; rewrite Rmult_0_l, exp_0; lra|].
      rewrite S_INR, Rmult_plus_distr_r, exp_plus. rewrite Rmult_1_l. cbn [pow]. rewrite (Rmult_comm 3).
      apply Rmult_le_compat; try (apply Rlt_le, exp_pos); [exact IH|exact exp_le_3]. }
    apply P. }
  assert (C : / 3 <= / sqrt (2 * PI)).
  { apply Rinv_le_contravar; [apply sqrt_lt_R0; pose proof PI_RGT_0; lra|].
    rewrite <- (sqrt_square 3) by lra. apply sqrt_le_1_alt. pose proof PI_4. lra. }
  apply Rle_trans with (/ 3 ^ 18 * / 3); [lra|].
  first [ apply Rmult_le_compat; try lra; apply Rlt_le, Rinv_0_lt_compat; lra
        | rewrite Rmult_comm; apply Rmult_le_compat; lra ].
Qed.
Lemma pdf_ge s z : 0 < s <= 10 ^ 290 -> -6 <= z <= 6 -> tiny <= phi z / s.
Proof.
  intros Hs Hz. apply Rle_trans with (/ 10 ^ 10 * / 10 ^ 290).
  - unfold tiny. rewrite <- Rinv_mult, <- pow_add. apply Rle_refl.
  - unfold Rdiv. apply Rmult_le_compat; try (apply Rlt_le, Rinv_0_lt_compat, pow_lt; lra).
    + now apply phi_ge.
    + apply Rinv_le_contravar; lra.
Qed.

Lemma normal_dh (m s : R) z p : 0 < s <= 10 ^ 290 -> -6 <= z <= 6 -> p = "mean"%string \/ p = "std"%string ->
  let d := normal_marg m s in let X := mg_u2x d z in
  (- mg_dF d p X / Rmax (mg_pdf d X) tiny - fst (mg_dmom d p)) / mg_stdv d - (X - mg_mean d) / mg_stdv d * snd (mg_dmom d p) / mg_stdv d = 0.
Proof.
  intros Hs Hz Hp d X.
  assert (EX : (X - m) / s = z) by (unfold X, d; cbn; field; lra).
  assert (PG := pdf_ge s z Hs Hz). assert (PP := phi_pos z).
  assert (EM : Rmax (mg_pdf d X) tiny = phi z / s).
  { unfold d. cbn [normal_marg mg_pdf normal_dist normal_init d_pdf no_mean no_stdv]. rewrite EX. apply Rmax_left. exact PG. }
  rewrite EM. unfold d. cbn [normal_marg mg_dF mg_dmom mg_stdv mg_mean normal_dist normal_init d_mean d_stdv no_mean no_stdv normal_dF fst snd].
  destruct Hp as [-> | ->]; cbn [String.eqb Ascii.eqb Bool.eqb fst snd]; rewrite !EX; field; lra.
Qed.

Lemma normal_drho0 m1 s1 m2 s2 r g vi p :
  0 < s1 <= 10 ^ 290 -> 0 < s2 <= 10 ^ 290 -> p = "mean"%string \/ p = "std"%string ->
  (forall q, (q < g)%nat -> -6 <= zx_z 6 g q <= 6) ->
  drho0_dtheta r (normal_marg m1 s1) (normal_marg m2 s2) (zi_and_xi (normal_marg m1 s1) (normal_marg m2 s2) 6 g) vi p = 0.
Proof.
  intros H1 H2 Hp Hq. unfold drho0_dtheta. cbv zeta.
  match goal with |- - ?N / _ = 0 => assert (E : N = 0) end.
  2:{ rewrite E, Ropp_0. unfold Rdiv. apply Rmult_0_l. }
  unfold sum2. cbn [zi_and_xi g_k g_X1 g_X2 g_Z1 g_Z2 g_W g_detJ]. apply fsum_zero. intros q1 Hq1. apply fsum_zero. intros q2 Hq2.
  destruct (Nat.eqb vi 0).
  - assert (D := normal_dh m1 s1 (zx_z 6 g q1) p H1 (Hq q1 Hq1) Hp). cbv zeta in D. rewrite D. ring.
  - assert (D := normal_dh m2 s2 (zx_z 6 g q2) p H2 (Hq q2 Hq2) Hp). cbv zeta in D. rewrite D. ring.
Qed.

Lemma normal_dR0 n mu sd Rp Ro k p :
  (forall i, (i < n)%nat -> 0 < sd i <= 10 ^ 290) -> p = "mean"%string \/ p = "std"%string ->
  (forall i j, (j < i)%nat -> (i < n)%nat -> k = i \/ k = j -> Rp i j <> 0 -> nodes_inside (Rp i j)) ->
  (forall i j, (j < i)%nat -> (i < n)%nat -> Rp i j = 0 -> Ro i j = 0) ->
  forall i j, (i < n)%nat -> (j < n)%nat ->
  compute_dR0_dtheta n (fun i => normal_marg (mu i) (sd i)) Rp Ro (cf_grid (fun i => normal_marg (mu i) (sd i)) Rp) k p i j = 0.
Proof.
  intros Hs Hp HQ HZ.
  assert (H : forall i j, (j < i)%nat -> (i < n)%nat -> fval (dR0_opt (fun i => normal_marg (mu i) (sd i)) Rp Ro (cf_grid (fun i => normal_marg (mu i) (sd i)) Rp) k p) i j = 0).
  { intros i j Hj Hi. unfold fval, dR0_opt.
    destruct (negb (Nat.eqb k i) && negb (Nat.eqb k j)) eqn:EK; [reflexivity|].
    assert (K : k = i \/ k = j).
    { destruct (Nat.eqb_spec k i); [now left|]. destruct (Nat.eqb_spec k j); [now right|]. discriminate. }
    destruct (Req_dec (Rp i j) 0) as [Z|Z].
    - rewrite Z, (HZ i j Hj Hi Z), Rminus_0_r, Rabs_R0. replace (Rltb 0 (/ 10 ^ 12)) with true; [reflexivity|].
      symmetry. apply Rltb_spec, Rinv_0_lt_compat, pow_lt. lra.
    - destruct (Rltb _ _ && Rltb _ _); [reflexivity|]. unfold cf_grid. apply normal_drho0; try assumption; try (apply Hs; lia).
      exact (HQ i j Hj Hi K Z). }
  intros i j Hi Hj. rewrite compute_dR0_eq. destruct (Nat.ltb i n && Nat.ltb j n); [|reflexivity].
  destruct (Nat.ltb_spec j i); [now apply H|]. destruct (Nat.ltb_spec i j); [now apply H|reflexivity].
Qed.

(** ** the two marginal sensitivities *)
Section Marg.
Variable n : nat.
Variables (A T Ai Ro Rp : mat) (cf mu sd : vec) (v t : R) (alpha u x : vec).
Hypothesis HT : inverse_pair n T A.
Hypothesis HAi : inverse_pair n Ai A.
Hypothesis HF : factor_of n A Ro.
Let w : vec := fun i => cf i * sd i.
Hypothesis Hal : veq n alpha (fun i => - fsum n (fun l => w l * A l i) / sqrt v).
Hypothesis Hu : veq n u (fun i => t * - fsum n (fun l => w l * A l i)).
Hypothesis Hx : forall i, (i < n)%nat -> x i = mvec n A u i * sd i + mu i.
Hypothesis Hsd : forall i, (i < n)%nat -> 0 < sd i <= 10 ^ 290.
Hypothesis HZ : forall i j, (j < i)%nat -> (i < n)%nat -> Rp i j = 0 -> Ro i j = 0.

Let mg i := normal_marg (mu i) (sd i).
Let S k := fsum n (fun j => Ro k j * w j).
Lemma marg_value k p : (k < n)%nat -> (forall i j, (j < i)%nat -> (i < n)%nat -> k = i \/ k = j -> Rp i j <> 0 -> nodes_inside (Rp i j)) ->
  tiny < phi (t * S k) -> p = "mean"%string \/ p = "std"%string ->
  cf_marginal n alpha u x mg Rp Ro A T (fun _ => Ai) k p
  = (if String.eqb p "mean" then cf k else - (t * cf k * S k)) / sqrt v.
Proof.
  intros Hk HQ Hphi Hp. unfold cf_marginal, marginal_sens, cf_dLinv.
  assert (HI : inverse_pair n A Ai) by (destruct HAi; split; assumption).
  destruct (pos_def_of_factor n A Ai Ro HF HI) as [HS HP].
  assert (EZ := lin_z n A Ro w t u HF Hu k Hk). fold (S k) in EZ.
  assert (D0 : forall i j, (i < n)%nat -> (j < n)%nat -> dinvL0_dtheta n Ai (snd (cholesky_with_derivative n Ro (compute_dR0_dtheta n mg Rp Ro (cf_grid mg Rp) k p))) i j = 0).
  { intros i j Hi Hj. unfold dinvL0_dtheta, mmul. apply fsum_zero. intros l Hl. rewrite fsum_zero; [ring|]. intros q Hq.
    rewrite cwd_const; try assumption; [ring|]. apply normal_dR0; assumption. }
  assert (T2 : dot n alpha (mvec n (dinvL0_dtheta n Ai (snd (cholesky_with_derivative n Ro (compute_dR0_dtheta n mg Rp Ro (cf_grid mg Rp) k p)))) (z_star n u A)) = 0).
  { unfold dot. apply fsum_zero. intros i Hi. unfold mvec at 1. rewrite fsum_zero; [ring|]. intros j Hj. rewrite D0 by assumption. ring. }
  rewrite T2, Rplus_0_r.
  assert (PE : phi (mvec n A u k) = phi (t * S k)) by (rewrite EZ; unfold phi; f_equal; f_equal; ring).
  assert (ED : forall i, dz_dtheta n u x mg A k p i = if Nat.eqb i k then mg_dF (mg k) p (x k) / phi (mvec n A u k) else 0).
  { intros i. unfold dz_dtheta. destruct (Nat.eqb i k); [|reflexivity]. unfold z_star. replace (Rltb tiny (phi (mvec n A u k))) with true; [reflexivity|].
    symmetry. apply Rltb_spec. rewrite PE. exact Hphi. }
  rewrite (dot_mvec_ext n alpha T T (dz_dtheta n u x mg A k p) (fun i => if Nat.eqb i k then mg_dF (mg k) p (x k) / phi (mvec n A u k) else 0)) by (try (intros ? ? ? ?; reflexivity); intros i Hi; apply ED).
  rewrite (lin_term1 n A T w v alpha HT Hal k _ Hk).
  assert (Hs := Hsd k Hk). assert (PP := phi_pos (mvec n A u k)).
  assert (EX : (x k - mu k) / sd k = mvec n A u k) by (rewrite (Hx k Hk); field; lra).
  unfold mg. cbn [normal_marg mg_dF normal_dF normal_init no_mean no_stdv fst snd].
  assert (QV : forall q q', q = q' -> q / sqrt v = q' / sqrt v) by (intros q q' ->; reflexivity).
  destruct Hp as [-> | ->]; cbn [String.eqb Ascii.eqb Bool.eqb fst snd]; rewrite !EX; apply QV; unfold w at 1.
  - field. lra.
  - rewrite EZ in *. field. split; lra.
Qed.
End Marg.

(** ** derivatives of the exact reliability index *)
Lemma quad_derive n (wt : R -> vec) (dw : vec) (Ct : R -> mat) (dC : mat) t0 :
  (forall i, (i < n)%nat -> is_derive (fun t => wt t i) t0 (dw i)) ->
  (forall i j, (i < n)%nat -> (j < n)%nat -> is_derive (fun t => Ct t i j) t0 (dC i j)) ->
  is_derive (fun t => fsum n (fun i => fsum n (fun j => wt t i * Ct t i j * wt t j))) t0
    (fsum n (fun i => fsum n (fun j => (dw i * Ct t0 i j + wt t0 i * dC i j) * wt t0 j + wt t0 i * Ct t0 i j * dw j))).
Proof.
  intros Hw HC.
  apply (is_derive_fsum n (fun i t => fsum n (fun j => wt t i * Ct t i j * wt t j)) (fun i => fsum n (fun j => (dw i * Ct t0 i j + wt t0 i * dC i j) * wt t0 j + wt t0 i * Ct t0 i j * dw j))).
  intros i Hi.
  apply (is_derive_fsum n (fun j t => wt t i * Ct t i j * wt t j) (fun j => (dw i * Ct t0 i j + wt t0 i * dC i j) * wt t0 j + wt t0 i * Ct t0 i j * dw j)).
  intros j Hj. apply (is_derive_mult (fun t => wt t i * Ct t i j) (fun t => wt t j)); [|now apply Hw|apply Rmult_comm].
  apply (is_derive_mult (fun t => wt t i) (fun t => Ct t i j)); [now apply Hw|now apply HC|apply Rmult_comm].
Qed.
Lemma div_sqrt_derive b (q : R -> R) t0 dq : is_derive q t0 dq -> 0 < q t0 ->
  is_derive (fun t => b / sqrt (q t)) t0 (- b * dq / (2 * q t0 * sqrt (q t0))).
Proof.
  intros Hq Hp. assert (S := sqrt_lt_R0 _ Hp).
  assert (D : is_derive (fun y => b / sqrt y) (q t0) (- b / (2 * q t0 * sqrt (q t0)))).
  { auto_derive; [split; [exact Hp|split; [lra|exact I]]|]. assert (X := sqrt_sqrt (q t0) ltac:(lra)). set (r := sqrt (q t0)) in *. rewrite <- X. field. lra. }
  replace (- b * dq / (2 * q t0 * sqrt (q t0))) with (scal dq (- b / (2 * q t0 * sqrt (q t0)))) by (unfold scal; cbn; unfold mult; cbn; field; lra).
  exact (is_derive_comp (fun y => b / sqrt y) q t0 _ _ D Hq).
Qed.

Section Beta.
Variable n : nat.
Variables (c0 : R) (cf mu sd : vec) (C : mat).
Let w : vec := fun i => cf i * sd i.
Let b := c0 + fsum n (fun i => cf i * mu i).
Let v := fsum n (fun i => fsum n (fun j => w i * C i j * w j)).
Hypothesis Hv : 0 < v.
Hypothesis HS : symmetric n C.

Lemma vset_same y k : forall i, vset y k (y k) i = y i.
Proof. intros i. unfold vset. destruct (Nat.eqb_spec i k) as [->|]; reflexivity. Qed.
Lemma vset_derive y k i : is_derive (fun m => vset y k m i) (y k) (delta k i).
Proof.
  unfold vset, delta. rewrite (Nat.eqb_sym k i). destruct (Nat.eqb i k); [apply (is_derive_id (y k))|apply (is_derive_const (y i) (y k))].
Qed.

Lemma beta_dmu k : (k < n)%nat -> is_derive (fun m => margin_beta n c0 cf (vset mu k m) sd C) (mu k) (cf k / sqrt v).
Proof.
  intros Hk. unfold margin_beta. fold v.
  assert (D : is_derive (fun m => fsum n (fun i => cf i * vset mu k m i)) (mu k) (cf k)).
  { replace (cf k) with (fsum n (fun i => cf i * delta k i)).
    - apply (is_derive_fsum n (fun i m => cf i * vset mu k m i) (fun i => cf i * delta k i)). intros i Hi.
      apply (is_derive_scal (fun m => vset mu k m i) (mu k) (cf i)), vset_derive.
    - rewrite (fsum_ext n _ (fun i => delta k i * cf i)) by (intros; ring). now apply fsum_delta. }
  assert (D2 : is_derive (fun m => c0 + fsum n (fun i => cf i * vset mu k m i)) (mu k) (cf k)).
  { replace (cf k) with (plus 0 (cf k)) by (unfold plus; cbn; ring). apply (is_derive_plus (fun _ => c0)); [apply (is_derive_const c0 (mu k))|exact D]. }
  unfold Rdiv. replace (cf k * / sqrt v) with (scal (/ sqrt v) (cf k)) by apply Rmult_comm.
  apply (is_derive_ext (fun m => scal (/ sqrt v) (c0 + fsum n (fun i => cf i * vset mu k m i)))); [intros m; apply Rmult_comm|].
  apply (is_derive_scal (fun m => c0 + fsum n (fun i => cf i * vset mu k m i))), D2.
Qed.

Lemma beta_dsd k : (k < n)%nat -> is_derive (fun m => margin_beta n c0 cf mu (vset sd k m) C) (sd k)
  (- (b / v * cf k * fsum n (fun j => C k j * w j)) / sqrt v).
Proof.
  intros Hk. unfold margin_beta. fold b.
  set (S := fsum n (fun j => C k j * w j)).
  assert (D := quad_derive n (fun m i => cf i * vset sd k m i) (fun i => cf i * delta k i) (fun _ => C) (fun _ _ => 0) (sd k)
    ltac:(intros i Hi; apply (is_derive_scal (fun m => vset sd k m i) (sd k) (cf i)), vset_derive) ltac:(intros i j Hi Hj; apply (is_derive_const (C i j) (sd k)))).
  cbv beta in D.
  assert (EQ : fsum n (fun i => fsum n (fun j => (cf i * delta k i * C i j + cf i * vset sd k (sd k) i * 0) * (cf j * vset sd k (sd k) j) + cf i * vset sd k (sd k) i * C i j * (cf j * delta k j))) = 2 * cf k * S).
  { transitivity (fsum n (fun i => delta k i * (cf i * fsum n (fun j => C i j * w j)) + w i * C k i * cf k)).
    - apply fsum_ext. intros i Hi. rewrite fsum_plus. f_equal.
      + rewrite <- !fsum_scal. apply fsum_ext. intros j Hj. rewrite !vset_same. unfold w. ring.
      + rewrite (fsum_ext n _ (fun j => delta k j * (w i * C i j * cf j))).
        2:{ intros j Hj. rewrite !vset_same. unfold w. ring. }
        rewrite fsum_delta by exact Hk. rewrite (HS k i) by assumption. reflexivity.
    - rewrite fsum_plus, fsum_delta by exact Hk. fold S. rewrite fsum_scal_r.
      rewrite (fsum_ext n (fun i => w i * C k i) (fun i => C k i * w i)) by (intros; ring). fold S. ring. }
  rewrite EQ in D.
  assert (E0 : fsum n (fun i => fsum n (fun j => cf i * vset sd k (sd k) i * C i j * (cf j * vset sd k (sd k) j))) = v).
  { apply fsum_ext. intros i Hi. apply fsum_ext. intros j Hj. rewrite !vset_same. reflexivity. }
  assert (D2 := div_sqrt_derive b _ (sd k) _ D). cbv beta in D2. rewrite E0 in D2. specialize (D2 Hv).
  assert (SV := sqrt_lt_R0 _ Hv).
  replace (- (b / v * cf k * S) / sqrt v) with (- b * (2 * cf k * S) / (2 * v * sqrt v)); [exact D2|field; lra].
Qed.

Lemma beta_drho i j : (j < i)%nat -> (i < n)%nat -> is_derive (fun q => margin_beta n c0 cf mu sd (set_sym C i j q)) (C i j) (- (b / v * w i * w j) / sqrt v).
Proof.
  intros Hj Hi. unfold margin_beta. fold b.
  set (dC := fun p q => delta i p * delta j q + delta j p * delta i q).
  assert (DC : forall p q, (p < n)%nat -> (q < n)%nat -> is_derive (fun r => set_sym C i j r p q) (C i j) (dC p q)).
  { intros p q Hp Hq. unfold set_sym, dC, delta. rewrite (Nat.eqb_sym i p), (Nat.eqb_sym j q), (Nat.eqb_sym j p), (Nat.eqb_sym i q).
    destruct (Nat.eqb_spec p i); destruct (Nat.eqb_spec q j); destruct (Nat.eqb_spec p j); destruct (Nat.eqb_spec q i); cbn [andb orb]; subst; try lia;
    rewrite ?Rmult_0_l, ?Rmult_0_r, ?Rmult_1_l, ?Rplus_0_l, ?Rplus_0_r; first [apply (is_derive_id (C i j))|apply (is_derive_id (C _ _))|apply (is_derive_const (C _ _))|idtac]. }
  assert (D := quad_derive n (fun _ => w) (fun _ => 0) (fun q => set_sym C i j q) dC (C i j) ltac:(intros p Hp; apply (is_derive_const (w p) (C i j))) DC).
  cbv beta in D.
  assert (EQ : fsum n (fun p => fsum n (fun q => (0 * set_sym C i j (C i j) p q + w p * dC p q) * w q + w p * set_sym C i j (C i j) p q * 0)) = 2 * w i * w j).
  { transitivity (fsum n (fun p => delta i p * (w p * w j) + delta j p * (w p * w i))).
    - apply fsum_ext. intros p Hp. unfold dC.
      rewrite (fsum_ext n _ (fun q => delta j q * (delta i p * w p * w q) + delta i q * (delta j p * w p * w q))) by (intros; ring).
      rewrite fsum_plus, !fsum_delta by lia. ring.
    - rewrite fsum_plus, !fsum_delta by lia. ring. }
  rewrite EQ in D.
  assert (E0 : fsum n (fun p => fsum n (fun q => w p * set_sym C i j (C i j) p q * w q)) = v).
  { apply fsum_ext. intros p Hp. apply fsum_ext. intros q Hq. f_equal. f_equal. unfold set_sym.
    destruct (Nat.eqb_spec p i); destruct (Nat.eqb_spec q j); destruct (Nat.eqb_spec p j); destruct (Nat.eqb_spec q i); cbn [andb orb]; subst; try reflexivity; try lia; apply HS; assumption. }
  assert (D2 := div_sqrt_derive b _ (C i j) _ D). cbv beta in D2. rewrite E0 in D2. specialize (D2 Hv).
  assert (SV := sqrt_lt_R0 _ Hv).
  replace (- (b / v * w i * w j) / sqrt v) with (- b * (2 * w i * w j) / (2 * v * sqrt v)); [exact D2|field; lra].
Qed.
End Beta.

(** ** the correlation entries *)
Section Corr.
Variable n : nat.
Variables (A T Ai Ro Rp : mat) (w : vec) (v t : R) (alpha u : vec) (mg : nat -> marg).
Hypothesis HT : inverse_pair n T A.
Hypothesis HAi : inverse_pair n Ai A.
Hypothesis HC : cholesky_factor n A Ro.
Hypothesis Hal : veq n alpha (fun i => - fsum n (fun l => w l * A l i) / sqrt v).
Hypothesis Hu : veq n u (fun i => t * - fsum n (fun l => w l * A l i)).
Lemma corr_value i j : (j < i)%nat -> (i < n)%nat ->
  cf_correlation n alpha u mg Rp Ro A (fun _ => Ai) i j = - (t * w i * w j) / sqrt v * drho0_drho mg Ro (cf_grid mg Rp) i j.
Proof.
  intros Hj Hi. unfold cf_correlation. rewrite corr_sens_eq.
  replace (Nat.ltb i n) with true by (symmetry; apply Nat.ltb_lt; lia).
  replace (Nat.ltb j n) with true by (symmetry; apply Nat.ltb_lt; lia).
  replace (Nat.ltb j i) with true by (symmetry; apply Nat.ltb_lt; lia). cbn [andb].
  unfold corr_entry, cf_dLinv, z_star.
  assert (HS : symmetric n (dR0_corr mg Ro (cf_grid mg Rp) i j)).
  { intros a b Ha Hb. rewrite !dR0_corr_eq by lia. rewrite (andb_comm (Nat.eqb b i)), (andb_comm (Nat.eqb b j)), orb_comm. reflexivity. }
  rewrite (lin_corr n A T Ai Ro w v t alpha u HT HAi (proj2 (proj2 HC)) Hal Hu _ HC HS).
  set (d := drho0_drho mg Ro (cf_grid mg Rp) i j).
  assert (E : fsum n (fun p => fsum n (fun q => w p * dR0_corr mg Ro (cf_grid mg Rp) i j p q * w q)) = 2 * w i * w j * d).
  { transitivity (fsum n (fun p => delta i p * (w p * w j * d) + delta j p * (w p * w i * d))).
    - apply fsum_ext. intros p Hp.
      rewrite (fsum_ext n _ (fun q => delta j q * (delta i p * w p * w q * d) + delta i q * (delta j p * w p * w q * d))).
      + rewrite fsum_plus, !fsum_delta by lia. ring.
      + intros q Hq. rewrite dR0_corr_eq by lia. fold d. unfold delta. rewrite (Nat.eqb_sym i p), (Nat.eqb_sym j q), (Nat.eqb_sym j p), (Nat.eqb_sym i q).
        destruct (Nat.eqb_spec p i); destruct (Nat.eqb_spec q j); destruct (Nat.eqb_spec p j); destruct (Nat.eqb_spec q i); cbn [andb orb]; subst; try lia; ring.
    - rewrite fsum_plus, !fsum_delta by lia. ring. }
  rewrite E. unfold Rdiv. set (rv := / sqrt v). lra.
Qed.
End Corr.

(** ** iterates of an affine limit state that start at the origin stay on the ray of the design point *)
Lemma loop_ray n o ev trial evn a b : norm n a <> 0 -> affine_ev n a b ev ->
  forall fuel i Go us lG lg calls r c, form_loop n o ev trial evn fuel i Go us lG lg calls = (FDone r, c) ->
  (forall u, us = Some u -> exists s, veq n u (fun j => s * a j)) ->
  forall u, fr_u r = Some u -> exists s, veq n u (fun j => s * a j).
Proof.
  intros Ha He. induction fuel as [|f IH]; intros i Go us lG lg calls r c H HU u Hr; [discriminate|]. cbn [form_loop] in H. destruct us as [v|].
  - destruct (He v) as (g & k & Ev & Eg). rewrite Ev in H. destruct (HU v eq_refl) as (s & Es).
    destruct (Reqb (norm n g) 0) eqn:N.
    + destruct (i =? fo_imax o)%Z; [inversion H; subst; discriminate|]. destruct (nan_step o evn); [|discriminate].
      refine (IH _ _ _ _ _ _ _ _ H _ u Hr). discriminate.
    + match type of H with context[if ?b then _ else _] => destruct b end.
      * inversion H; subst. cbn in Hr. injection Hr as <-. eauto.
      * destruct (getStepSize n o trial _ g v _) as [[t|e] k2]; [|discriminate].
        refine (IH _ _ _ _ _ _ _ _ H _ u Hr). intros u1 E1. injection E1 as <-.
        set (q := (b - dot n a v) * / norm n g + dot n (alpha_of n g) v).
        exists (s + t * (q * / norm n g - s)). intros j Hj. unfold search_dir. cbv zeta. fold q. unfold alpha_of. rewrite (Es j Hj), (Eg j Hj). ring.
  - destruct evn eqn:Een; [discriminate|]. rewrite <- Een in *. destruct (i =? fo_imax o)%Z; [inversion H; subst; discriminate|]. destruct (nan_step o evn); [|discriminate].
    refine (IH _ _ _ _ _ _ _ _ H _ u Hr). discriminate.
Qed.
