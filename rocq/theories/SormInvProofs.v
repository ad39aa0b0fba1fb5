(** Proofs for C129: principal curvatures do not depend on the coordinates. *)
From Coquelicot Require Import Coquelicot.
From Verif Require Import Base GramSchmidt GramSchmidtProofs TransfSpec RotSpec RotProofs PermProofs SormRunSpec SormQuadSpec FitCmpProofs.
From Coq Require Import Lra Lia.
Open Scope R_scope.

(** *** ascending lists with the same counting function are equal *)
Lemma count_eq m (a b : nat -> R) : (forall i j, (i <= j)%nat -> (j < m)%nat -> b i <= b j) -> (forall i j, (i <= j)%nat -> (j < m)%nat -> a i <= a j) ->
  (forall t, fsum m (fun i => if Rleb (a i) t then 1 else 0) = fsum m (fun i => if Rleb (b i) t then 1 else 0)) ->
  forall i, (i < m)%nat -> b i <= a i.
Proof.
  intros Hb Ha HC i Hi. apply Rnot_lt_le. intros L. specialize (HC (a i)).
  assert (X : fsum m (fun j => delta i j * 1) <= fsum m (fun j => (if Rleb (a j) (a i) then 1 else 0) - (if Rleb (b j) (a i) then 1 else 0))).
  { apply fsum_le. intros j Hj. unfold delta. destruct (Nat.eqb_spec i j) as [<-|N].
    - rewrite (proj2 (Rleb_spec (a i) (a i)) (Rle_refl _)), (proj2 (Rleb_false (b i) (a i)) L). lra.
    - destruct (Nat.lt_ge_cases j i) as [J|J].
      + rewrite (proj2 (Rleb_spec (a j) (a i)) (Ha j i ltac:(lia) Hi)). destruct (Rleb (b j) (a i)); lra.
      + assert (B : a i < b j) by (eapply Rlt_le_trans; [exact L|apply Hb; lia]). rewrite (proj2 (Rleb_false (b j) (a i)) B). destruct (Rleb (a j) (a i)); lra. }
  rewrite fsum_minus, (fsum_delta m i (fun _ => 1) Hi) in X. lra.
Qed.

Lemma principal_unique n H alpha g k1 k2 : (2 <= n)%nat -> dot n alpha alpha = 1 -> 0 < g -> symmetric n H ->
  principal_curvatures n H alpha g k1 -> principal_curvatures n H alpha g k2 -> ascending k1 -> ascending k2 -> k1 = k2.
Proof.
  intros Hn Ua Hg HS (L1 & W1 & P1) (L2 & W2 & P2) A1 A2.
  set (m := (n - 1)%nat) in *. set (q := fun i k => dot n (W1 i) (W2 k)).
  assert (P1r : forall i j, (i < m)%nat -> (j < m)%nat -> dot n (W1 i) (W1 j) = delta i j /\ dot n (W1 i) alpha = 0) by (intros i j Hi Hj; destruct (P1 i j Hi Hj) as (A & B & _); split; [exact A|rewrite dot_comm; exact B]).
  assert (ROW : forall i, (i < m)%nat -> fsum m (fun k => q i k * q i k) = 1) by (intros i Hi; exact (q_row n H alpha g W2 W1 (fun k => nth k k2 0) Hn Ua P2 P1r i Hi)).
  assert (COL : forall k, (k < m)%nat -> fsum m (fun i => q i k * q i k) = 1) by (intros k Hk; exact (q_col n H alpha g W2 W1 (fun k => nth k k2 0) Hn Ua P2 P1r k Hk)).
  assert (MIX : forall i k, (i < m)%nat -> (k < m)%nat -> q i k <> 0 -> nth i k1 0 = nth k k2 0).
  { intros i k Hi Hk Q. destruct (P1 i i Hi Hi) as (_ & _ & V1). destruct (P2 k k Hk Hk) as (_ & _ & V2).
    assert (E1 : dot n (mvec n H (W1 i)) (W2 k) = nth i k1 0 * g * q i k) by (unfold q, dot; rewrite <- fsum_scal; apply fsum_ext; intros a Ha; rewrite (V1 a Ha); ring).
    assert (E2 : dot n (W1 i) (mvec n H (W2 k)) = nth k k2 0 * g * q i k) by (unfold q, dot; rewrite <- fsum_scal; apply fsum_ext; intros a Ha; rewrite (V2 a Ha); ring).
    assert (E3 : dot n (mvec n H (W1 i)) (W2 k) = dot n (W1 i) (mvec n H (W2 k))).
    { rewrite dot_mvec. apply Base.dot_ext; [|intros ? ?; reflexivity]. intros a Ha. unfold mvec, mtrans. apply fsum_ext. intros b Hb. rewrite (HS a b Ha Hb). reflexivity. }
    rewrite E1, E2 in E3. apply Rmult_eq_reg_r with (g * q i k); [lra|]. apply Rmult_integral_contrapositive_currified; [lra|exact Q]. }
  assert (CNT : forall t, fsum m (fun i => if Rleb (nth i k1 0) t then 1 else 0) = fsum m (fun i => if Rleb (nth i k2 0) t then 1 else 0)).
  { intros t. transitivity (fsum m (fun i => fsum m (fun k => q i k * q i k * (if Rleb (nth i k1 0) t then 1 else 0)))).
    - apply fsum_ext. intros i Hi. rewrite fsum_scal_r, (ROW i Hi). ring.
    - transitivity (fsum m (fun i => fsum m (fun k => q i k * q i k * (if Rleb (nth k k2 0) t then 1 else 0)))).
      + apply fsum_ext. intros i Hi. apply fsum_ext. intros k Hk. destruct (Req_EM_T (q i k) 0) as [Z|Z]; [rewrite Z; ring|]. rewrite (MIX i k Hi Hk Z). reflexivity.
      + rewrite fsum_swap. apply fsum_ext. intros k Hk. rewrite fsum_scal_r, (COL k Hk). ring. }
  assert (B1 : forall i j, (i <= j)%nat -> (j < m)%nat -> nth i k1 0 <= nth j k1 0) by (intros i j Hij Hj; apply A1; [exact Hij|rewrite L1; exact Hj]).
  assert (B2 : forall i j, (i <= j)%nat -> (j < m)%nat -> nth i k2 0 <= nth j k2 0) by (intros i j Hij Hj; apply A2; [exact Hij|rewrite L2; exact Hj]).
  apply nth_ext with 0 0; [rewrite L1, L2; reflexivity|]. rewrite L1. intros i Hi. apply Rle_antisym.
  - apply (count_eq m (fun i => nth i k2 0) (fun i => nth i k1 0)); [exact B1|exact B2|intros t; symmetry; apply CNT|exact Hi].
  - apply (count_eq m (fun i => nth i k1 0) (fun i => nth i k2 0)); [exact B2|exact B1|exact CNT|exact Hi].
Qed.

(** *** the same surface in the coordinates of another factor *)
Lemma bil n A sd Q x y : dot n x (mvec n (u_hessian n A sd Q) y) = fsum n (fun i => fsum n (fun k => mvec n A x i * (sd i * Q i k * sd k) * mvec n A y k)).
Proof.
  transitivity (fsum n (fun j => fsum n (fun l => fsum n (fun i => fsum n (fun k => x j * ((A i j * sd i) * Q i k * (sd k * A k l)) * y l))))).
  { unfold dot, mvec, u_hessian. apply fsum_ext. intros j _. rewrite <- fsum_scal. apply fsum_ext. intros l _. rewrite <- fsum_scal_r, <- fsum_scal. apply fsum_ext. intros i _. rewrite <- fsum_scal_r, <- fsum_scal. apply fsum_ext. intros k _. ring. }
  rewrite (fsum_ext n _ (fun j => fsum n (fun i => fsum n (fun k => fsum n (fun l => x j * ((A i j * sd i) * Q i k * (sd k * A k l)) * y l))))).
  2:{ intros j _. rewrite fsum_swap. apply fsum_ext. intros i _. apply fsum_swap. }
  rewrite fsum_swap. apply fsum_ext. intros i _. rewrite fsum_swap. apply fsum_ext. intros k _. unfold mvec. rewrite <- !fsum_scal_r. apply fsum_ext. intros j _. rewrite <- fsum_scal. apply fsum_ext. intros l _. ring.
Qed.
Section Same.
  Variables (n : nat) (T A T' A' Ro : mat) (sd cf : vec) (Q : mat) (sv g : R).
  Hypothesis H1 : inverse_pair n T A.
  Hypothesis H2 : inverse_pair n T' A'.
  Hypothesis F1 : factor_of n A Ro.
  Hypothesis F2 : factor_of n A' Ro.
  Let O := Qf n A T'.
  Let nrm (B : mat) : vec := fun j => - fsum n (fun i => cf i * sd i * B i j) / sv.
  Lemma O_A x i : (i < n)%nat -> mvec n A' (mvec n O x) i = mvec n A x i.
  Proof. intros Hi. apply (A_rot n A T' A' H2 x (mvec n O x) i); [intros j _; reflexivity|exact Hi]. Qed.
  Lemma O_dot x y : dot n (mvec n O x) (mvec n O y) = dot n x y.
  Proof. apply (rot_dot n O (Q_iso n T A T' A' Ro H1 H2 F1 F2)); intros j _; reflexivity. Qed.
  Lemma nrm_dot B x : dot n (nrm B) x = - fsum n (fun i => cf i * sd i * mvec n B x i) / sv.
  Proof.
    unfold dot, nrm, mvec. rewrite (fsum_ext n (fun i => cf i * sd i * fsum n (fun j => B i j * x j)) (fun i => fsum n (fun j => cf i * sd i * B i j * x j))) by (intros i _; rewrite <- fsum_scal; apply fsum_ext; intros; ring).
    rewrite fsum_swap. unfold Rdiv. rewrite <- fsum_opp, <- fsum_scal_r. apply fsum_ext. intros j _. rewrite <- fsum_scal_r with (c := x j) at 1 || idtac. rewrite fsum_scal_r. ring.
  Qed.
  Lemma principal_same kappa : principal_curvatures n (u_hessian n A sd Q) (nrm A) g kappa -> principal_curvatures n (u_hessian n A' sd Q) (nrm A') g kappa.
  Proof.
    intros (L & W & P). split; [exact L|]. exists (fun k => mvec n O (W k)). intros i j Hi Hj. destruct (P i j Hi Hj) as (D & N & V).
    split; [rewrite O_dot; exact D|]. split.
    - rewrite nrm_dot. rewrite <- N, nrm_dot. do 2 f_equal. apply fsum_ext. intros a Ha. rewrite (O_A _ a Ha). reflexivity.
    - intros c Hc. set (ec := delta c). set (b := mvec n (Qb n T A') ec).
      assert (OB : veq n (mvec n O b) ec).
      { intros a Ha. unfold b, O. rewrite <- mvec_mmul. rewrite (mvec_meq n _ meye ec a (proj1 (Q_pair n T A T' A' H1 H2)) Ha). apply mvec_eye, Ha. }
      assert (EC : forall v, dot n ec v = v c) by (intros v; unfold dot, ec; rewrite fsum_delta by exact Hc; reflexivity).
      rewrite <- (EC (mvec n (u_hessian n A' sd Q) (mvec n O (W i)))). rewrite <- (EC (fun c0 => nth i kappa 0 * g * mvec n O (W i) c0)).
      rewrite <- (Base.dot_ext n (mvec n O b) (mvec n (u_hessian n A' sd Q) (mvec n O (W i))) ec (mvec n (u_hessian n A' sd Q) (mvec n O (W i))) OB ltac:(intros ? ?; reflexivity)).
      rewrite bil. rewrite (fsum_ext n _ (fun i0 => fsum n (fun k => mvec n A b i0 * (sd i0 * Q i0 k * sd k) * mvec n A (W i) k))) by (intros a Ha; apply fsum_ext; intros k Hk; rewrite !O_A by assumption; reflexivity). rewrite <- bil.
      rewrite (Base.dot_ext n b (mvec n (u_hessian n A sd Q) (W i)) b (fun c0 => nth i kappa 0 * g * W i c0) ltac:(intros ? ?; reflexivity) V).
      transitivity (nth i kappa 0 * g * dot n b (W i)); [unfold dot; rewrite <- fsum_scal; apply fsum_ext; intros; ring|]. rewrite <- (O_dot b (W i)).
      rewrite (Base.dot_ext n (mvec n O b) (mvec n O (W i)) ec (mvec n O (W i)) OB ltac:(intros ? ?; reflexivity)). unfold dot. rewrite <- fsum_scal. apply fsum_ext. intros; ring.
  Qed.
End Same.
Lemma principal_ext n H H' a a' g k : meq n H H' -> veq n a a' -> principal_curvatures n H a g k -> principal_curvatures n H' a' g k.
Proof.
  intros EH EA (L & W & P). split; [exact L|]. exists W. intros i j Hi Hj. destruct (P i j Hi Hj) as (D & N & V). split; [exact D|]. split.
  - rewrite <- N. apply Base.dot_ext; [intros c Hc; symmetry; apply EA, Hc|intros ? ?; reflexivity].
  - intros c Hc. rewrite <- (V c Hc). unfold mvec. apply fsum_ext. intros b Hb. rewrite (EH c b Hc Hb). reflexivity.
Qed.
