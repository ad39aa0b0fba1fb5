(** Proofs for C128: normal curvatures in an orthonormal frame against principal curvatures. *)
From Coquelicot Require Import Coquelicot.
From Verif Require Import Base Gauss GaussProofs GramSchmidt GramSchmidtProofs TransfSpec SormQuadSpec.
From Coq Require Import Lra Lia.
Open Scope R_scope.

Lemma ln_tangent x : 0 < x -> ln x <= x - 1.
Proof. intros H. pose proof (exp_ineq1_le (ln x)) as E. rewrite exp_ln in E by exact H. lra. Qed.

(** Jensen for the logarithm and a doubly stochastic matrix *)
Lemma ln_mix m (p : nat -> R) (t : nat -> R) : (forall k, (k < m)%nat -> 0 <= p k) -> (forall k, (k < m)%nat -> 0 < t k) -> fsum m p = 1 ->
  0 < fsum m (fun k => p k * t k) /\ fsum m (fun k => p k * ln (t k)) <= ln (fsum m (fun k => p k * t k)).
Proof.
  intros Hp Ht H1. set (s := fsum m (fun k => p k * t k)).
  assert (S0 : 0 < s).
  { assert (N : 0 <= s) by (apply fsum_nonneg; intros k Hk; apply Rmult_le_pos; [apply Hp, Hk|apply Rlt_le, Ht, Hk]).
    destruct N as [N|N]; [exact N|exfalso]. assert (Z : forall k, (k < m)%nat -> p k * t k = 0) by (apply fsum_pos_eq0; [intros k Hk; apply Rmult_le_pos; [apply Hp, Hk|apply Rlt_le, Ht, Hk]|symmetry; exact N]).
    assert (Z1 : fsum m p = 0) by (apply fsum_zero; intros k Hk; specialize (Z k Hk); specialize (Ht k Hk); apply Rmult_integral in Z as [Z|Z]; lra).
    lra. }
  split; [exact S0|].
  assert (E : fsum m (fun k => p k * ln (t k)) <= fsum m (fun k => p k * ln s + (p k * t k * / s - p k))).
  { apply fsum_le. intros k Hk. specialize (Hp k Hk). specialize (Ht k Hk). pose proof (ln_tangent (t k / s) ltac:(apply Rdiv_lt_0_compat; assumption)) as T. rewrite ln_div in T by assumption.
    assert (p k * (ln (t k) - ln s) <= p k * (t k / s - 1)) by (apply Rmult_le_compat_l; assumption). unfold Rdiv in H. lra. }
  rewrite fsum_plus in E. rewrite (fsum_ext m (fun k => p k * t k * / s - p k) (fun k => p k * t k * / s + - p k)) in E by (intros; ring). rewrite fsum_plus, fsum_opp, !fsum_scal_r in E. fold s in E. rewrite H1 in E.
  replace (1 * ln s + (s * / s + - (1))) with (ln s) in E by (field; lra). exact E.
Qed.

Section Frame.
  Variables (n : nat) (H : mat) (alpha : vec) (g : R) (W rows : nat -> vec) (kap : nat -> R).
  Hypothesis Hn : (2 <= n)%nat.
  Hypothesis Ua : dot n alpha alpha = 1.
  Hypothesis Hg : 0 < g.
  Hypothesis HW : forall i j, (i < n - 1)%nat -> (j < n - 1)%nat -> dot n (W i) (W j) = delta i j /\ dot n alpha (W i) = 0 /\ veq n (mvec n H (W i)) (fun c => kap i * g * W i c).
  Hypothesis HR : forall i j, (i < n - 1)%nat -> (j < n - 1)%nat -> dot n (rows i) (rows j) = delta i j /\ dot n (rows i) alpha = 0.
  Let m := (n - 1)%nat.
  Let q i k := dot n (rows i) (W k).

  (** an orthonormal frame of the tangent plane is complete *)
  Lemma complete (B : nat -> vec) : (forall i j, (i < m)%nat -> (j < m)%nat -> dot n (B i) (B j) = delta i j /\ dot n alpha (B i) = 0) ->
    forall v w, dot n alpha v = 0 -> fsum m (fun k => dot n v (B k) * dot n w (B k)) = dot n v w.
  Proof.
    intros HB v w Hv.
    set (Q := fun a k => if Nat.eqb k m then alpha a else B k a).
    assert (OQ : orthocols n n Q).
    { intros i j Hi Hj. unfold mcol, Q. destruct (Nat.eqb_spec i m) as [->|Ni]; destruct (Nat.eqb_spec j m) as [->|Nj].
      - rewrite delta_refl. exact Ua.
      - rewrite delta_neq by (intros X; apply Nj; symmetry; exact X). apply (HB j j); unfold m in *; lia.
      - rewrite delta_neq by exact Ni. rewrite dot_comm. apply (HB i i); unfold m in *; lia.
      - apply (HB i j); unfold m in *; lia. }
    pose proof (ortho_square n Q OQ) as OS.
    assert (T : fsum n (fun k => dot n v (fun a => Q a k) * dot n w (fun a => Q a k)) = dot n v w).
    { transitivity (fsum n (fun a => fsum n (fun b => v a * w b * fsum n (fun k => Q a k * Q b k)))).
      - unfold dot. rewrite (fsum_ext n _ (fun k => fsum n (fun a => fsum n (fun b => v a * w b * (Q a k * Q b k))))).
        + rewrite fsum_swap. apply fsum_ext. intros a _. rewrite fsum_swap. apply fsum_ext. intros b _. rewrite fsum_scal. reflexivity.
        + intros k _. rewrite <- fsum_scal_r. apply fsum_ext. intros a _. rewrite <- fsum_scal. apply fsum_ext. intros b _. ring.
      - unfold dot. apply fsum_ext. intros a Ha. rewrite (fsum_ext n _ (fun b => delta a b * (v a * w b))) by (intros b Hb; rewrite (OS a b Ha Hb); ring). rewrite fsum_delta by exact Ha. reflexivity. }
    assert (EN : n = S m) by (unfold m; lia). rewrite <- T.
    transitivity (fsum (S m) (fun k => dot n v (fun a => Q a k) * dot n w (fun a => Q a k))); [cbn [fsum]|rewrite <- EN; reflexivity].
    assert (Z : dot n v (fun a => Q a m) = 0).
    { transitivity (dot n v alpha); [|rewrite dot_comm; exact Hv]. unfold dot. apply fsum_ext. intros a _. unfold Q. rewrite Nat.eqb_refl. reflexivity. }
    rewrite Z, Rmult_0_l, Rplus_0_r. apply fsum_ext. intros k Hk. f_equal; (unfold dot; apply fsum_ext; intros a _; unfold Q; destruct (Nat.eqb_spec k m); [lia|reflexivity]).
  Qed.
  Lemma q_row i : (i < m)%nat -> fsum m (fun k => q i k * q i k) = 1.
  Proof. intros Hi. unfold q. rewrite (complete W). - destruct (HR i i Hi Hi) as (A & _). rewrite A. apply delta_refl. - intros a b Ha Hb. destruct (HW a b Ha Hb) as (A & B & _). split; assumption. - rewrite dot_comm. apply (HR i i Hi Hi). Qed.
  Lemma q_col k : (k < m)%nat -> fsum m (fun i => q i k * q i k) = 1.
  Proof.
    intros Hk. rewrite (fsum_ext m _ (fun i => dot n (W k) (rows i) * dot n (W k) (rows i))) by (intros i _; unfold q; rewrite (dot_comm n (rows i)); reflexivity).
    rewrite (complete rows). - destruct (HW k k Hk Hk) as (A & _). rewrite A. apply delta_refl. - intros a b Ha Hb. destruct (HR a b Ha Hb) as (A & B). split; [exact A|rewrite dot_comm; exact B]. - apply (HW k k Hk Hk).
  Qed.
  Hypothesis Hsym : symmetric n H.
  (** the normal curvature along a row is a mean of the principal curvatures *)
  Lemma curv_mix i : (i < m)%nat -> normal_curv n H g (rows i) = fsum m (fun k => q i k * q i k * kap k).
  Proof.
    intros Hi. unfold normal_curv.
    assert (E : fsum m (fun k => dot n (rows i) (W k) * dot n (mvec n H (rows i)) (W k)) = dot n (rows i) (mvec n H (rows i))).
    { apply (complete W); [intros a b Ha Hb; destruct (HW a b Ha Hb) as (A & B & _); split; assumption|]. rewrite dot_comm. apply (HR i i Hi Hi). }
    rewrite <- E. unfold Rdiv. rewrite <- fsum_scal_r. apply fsum_ext. intros k Hk.
    assert (M : dot n (mvec n H (rows i)) (W k) = kap k * g * q i k).
    { transitivity (dot n (rows i) (mvec n H (W k))).
      - unfold dot, mvec. rewrite (fsum_ext n _ (fun a => fsum n (fun b => H a b * rows i b * W k a))) by (intros a _; rewrite <- fsum_scal_r; reflexivity). rewrite fsum_swap.
        apply fsum_ext. intros b Hb. rewrite <- fsum_scal. apply fsum_ext. intros a Ha. rewrite (Hsym b a Hb Ha). ring.
      - destruct (HW k k Hk Hk) as (_ & _ & V). unfold q, dot. rewrite <- fsum_scal. apply fsum_ext. intros a Ha. rewrite (V a Ha). ring. }
    rewrite M. unfold q. field. lra.
  Qed.
  Lemma trace_eq : fsum m (fun i => normal_curv n H g (rows i)) = fsum m kap.
  Proof.
    rewrite (fsum_ext m _ (fun i => fsum m (fun k => q i k * q i k * kap k))) by (intros i Hi; apply curv_mix, Hi). rewrite fsum_swap. apply fsum_ext. intros k Hk. rewrite fsum_scal_r, (q_col k Hk). ring.
  Qed.
  Lemma mix_terms c : (forall k, (k < m)%nat -> 0 < 1 + c * kap k) ->
    (forall i, (i < m)%nat -> 0 < 1 + c * normal_curv n H g (rows i)) /\
    fsum m (fun k => ln (1 + c * kap k)) <= fsum m (fun i => ln (1 + c * normal_curv n H g (rows i))).
  Proof.
    intros Hc. assert (E : forall i, (i < m)%nat -> 1 + c * normal_curv n H g (rows i) = fsum m (fun k => q i k * q i k * (1 + c * kap k))).
    { intros i Hi. rewrite (curv_mix i Hi), (fsum_ext m (fun k => q i k * q i k * (1 + c * kap k)) (fun k => q i k * q i k + c * (q i k * q i k * kap k))) by (intros; ring). rewrite fsum_plus, fsum_scal, (q_row i Hi). reflexivity. }
    assert (J : forall i, (i < m)%nat -> 0 < fsum m (fun k => q i k * q i k * (1 + c * kap k)) /\ fsum m (fun k => q i k * q i k * ln (1 + c * kap k)) <= ln (fsum m (fun k => q i k * q i k * (1 + c * kap k)))).
    { intros i Hi. apply (ln_mix m (fun k => q i k * q i k) (fun k => 1 + c * kap k)); [intros; apply Rle_0_sqr|exact Hc|exact (q_row i Hi)]. }
    split; [intros i Hi; rewrite (E i Hi); apply (J i Hi)|].
    rewrite (fsum_ext m (fun i => ln (1 + c * normal_curv n H g (rows i))) (fun i => ln (fsum m (fun k => q i k * q i k * (1 + c * kap k))))) by (intros i Hi; rewrite (E i Hi); reflexivity).
    eapply Rle_trans; [|apply fsum_le; intros i Hi; apply (J i Hi)]. apply Req_le. rewrite fsum_swap. apply fsum_ext. intros k Hk. rewrite fsum_scal_r, (q_col k Hk). ring.
  Qed.
End Frame.

Lemma lprod_ln l c : (forall k, In k l -> 0 < 1 + c * k) -> lprod (map (fun k => / sqrt (1 + c * k)) l) = exp (- / 2 * fsum (length l) (fun i => ln (1 + c * nth i l 0))).
Proof.
  induction l as [|x l IH]; intros Hl; [cbn; rewrite Rmult_0_r, exp_0; reflexivity|].
  cbn [map lprod length]. rewrite IH by (intros k Hk; apply Hl; right; exact Hk). rewrite fsum_shift. cbn [nth].
  rewrite Rmult_plus_distr_l, exp_plus. f_equal. assert (P : 0 < 1 + c * x) by (apply Hl; left; reflexivity). pose proof (sqrt_lt_R0 _ P) as SP.
  assert (LS : ln (1 + c * x) = 2 * ln (sqrt (1 + c * x))). { rewrite <- (sqrt_sqrt (1 + c * x)) at 1 by lra. rewrite ln_mult by exact SP. ring. }
  rewrite LS. replace (- / 2 * (2 * ln (sqrt (1 + c * x)))) with (- ln (sqrt (1 + c * x))) by field. rewrite exp_Ropp, exp_ln by exact SP. reflexivity.
Qed.
