(** The contracts assumed of the linear-algebra routines can be met in every dimension: proofs.
    Nothing here models a line of /repo. *)
From Verif Require Import Base TransfSpec GramSchmidt GramSchmidtProofs RotSpec PipeSpec SormRunSpec.
From Coq Require Import ClassicalEpsilon.
Open Scope R_scope.

(** *** Bolzano-Weierstrass in n dimensions *)
Lemma bw1 (u : nat -> R) : (forall k, -1 <= u k <= 1) -> exists l (f : nat -> nat), (forall k, (k <= f k)%nat) /\ Un_cv (fun k => u (f k)) l.
Proof.
  intros Hu. destruct (Bolzano_Weierstrass u (fun c => -1 <= c <= 1) (compact_P3 (-1) 1) Hu) as (l & Hl).
  assert (E : forall k, exists p, (k <= p)%nat /\ Rabs (u p - l) < / INR (S k)).
  { intros k. assert (P : 0 < / INR (S k)) by (apply Rinv_0_lt_compat, lt_0_INR; lia).
    destruct (Hl (fun y => Rabs (y - l) < / INR (S k)) k) as (p & Hp & Hq); [|exists p; split; assumption].
    exists (mkposreal _ P). intros y Hy. exact Hy. }
  exists l, (fun k => proj1_sig (constructive_indefinite_description _ (E k))).
  assert (F : forall k, (k <= proj1_sig (constructive_indefinite_description _ (E k)))%nat /\ Rabs (u (proj1_sig (constructive_indefinite_description _ (E k))) - l) < / INR (S k)) by (intros k; exact (proj2_sig (constructive_indefinite_description _ (E k)))).
  split; [intros k; apply F|]. intros eps He. destruct (archimed_cor1 eps He) as (N & HN & N0). exists N. intros k Hk. unfold R_dist.
  eapply Rlt_trans; [apply F|]. eapply Rle_lt_trans; [|exact HN]. apply Rinv_le_contravar; [apply lt_0_INR; lia|apply le_INR; lia].
Qed.
Lemma cv_sub (u : nat -> R) l f : (forall k, (k <= f k)%nat) -> Un_cv u l -> Un_cv (fun k => u (f k)) l.
Proof. intros Hf H eps He. destruct (H eps He) as (N & HN). exists N. intros k Hk. apply HN. specialize (Hf k). lia. Qed.
Lemma bwn m (x : nat -> vec) : (forall k i, (i < m)%nat -> -1 <= x k i <= 1) ->
  exists (l : vec) f, (forall k, (k <= f k)%nat) /\ forall i, (i < m)%nat -> Un_cv (fun k => x (f k) i) (l i).
Proof.
  induction m as [|m IH]; intros Hx.
  - exists (fun _ => 0), (fun k => k). split; [intros k; lia|intros i Hi; lia].
  - destruct (IH ltac:(intros; apply Hx; lia)) as (l & f & Hf & Hc). destruct (bw1 (fun k => x (f k) m) ltac:(intros; apply Hx; lia)) as (lm & g & Hg & Hm).
    exists (fun i => if Nat.eqb i m then lm else l i), (fun k => f (g k)). split; [intros k; specialize (Hf (g k)); specialize (Hg k); lia|].
    intros i Hi. destruct (Nat.eqb_spec i m) as [->|N]; [exact Hm|]. apply (cv_sub (fun k => x (f k) i)); [exact Hg|apply Hc; lia].
Qed.
Lemma cv_const c : Un_cv (fun _ => c) c.
Proof. intros eps He. exists 0%nat. intros k _. unfold R_dist. rewrite Rminus_diag_eq, Rabs_R0 by reflexivity. exact He. Qed.
Lemma cv_eq (u : nat -> R) c : (forall k, u k = c) -> Un_cv u c.
Proof. intros H eps He. exists 0%nat. intros k _. unfold R_dist. rewrite H, Rminus_diag_eq, Rabs_R0 by reflexivity. exact He. Qed.
Lemma cv_fsum m (F : nat -> nat -> R) (l : nat -> R) : (forall i, (i < m)%nat -> Un_cv (fun k => F k i) (l i)) -> Un_cv (fun k => fsum m (F k)) (fsum m l).
Proof.
  induction m as [|m IH]; intros H; [exact (cv_const 0)|]. cbn [fsum]. apply (CV_plus (fun k => fsum m (F k)) (fun k => F k m)); [apply IH; intros i Hi; apply H; lia|apply H; lia].
Qed.
Lemma cv_dot n (x y : nat -> vec) a b : (forall i, (i < n)%nat -> Un_cv (fun k => x k i) (a i)) -> (forall i, (i < n)%nat -> Un_cv (fun k => y k i) (b i)) ->
  Un_cv (fun k => dot n (x k) (y k)) (dot n a b).
Proof. intros H1 H2. unfold dot. apply (cv_fsum n (fun k i => x k i * y k i)). intros i Hi. apply (CV_mult (fun k => x k i) (fun k => y k i)); [apply H1, Hi|apply H2, Hi]. Qed.
Lemma cv_mvec n A (x : nat -> vec) a : (forall i, (i < n)%nat -> Un_cv (fun k => x k i) (a i)) -> forall i, Un_cv (fun k => mvec n A (x k) i) (mvec n A a i).
Proof. intros H i. unfold mvec. apply (cv_fsum n (fun k j => A i j * x k j)). intros j Hj. apply (CV_mult (fun _ => A i j) (fun k => x k j)); [apply cv_const|apply H, Hj]. Qed.

(** *** linearity *)
Lemma dot_lin n u v w t : dot n u (fun a => v a + t * w a) = dot n u v + t * dot n u w.
Proof. unfold dot. rewrite <- fsum_scal, <- fsum_plus. apply fsum_ext. intros; ring. Qed.
Lemma dot_lin_l n u v w t : dot n (fun a => v a + t * w a) u = dot n v u + t * dot n w u.
Proof. rewrite dot_comm, dot_lin, (dot_comm n u v), (dot_comm n u w). reflexivity. Qed.
Lemma dot_sc n u v t : dot n u (fun a => t * v a) = t * dot n u v.
Proof. unfold dot. rewrite <- fsum_scal. apply fsum_ext. intros; ring. Qed.
Lemma mvec_lin n A v w t i : mvec n A (fun a => v a + t * w a) i = mvec n A v i + t * mvec n A w i.
Proof. unfold mvec. rewrite <- fsum_scal, <- fsum_plus. apply fsum_ext. intros; ring. Qed.
Lemma mvec_sc n A v t i : mvec n A (fun a => t * v a) i = t * mvec n A v i.
Proof. unfold mvec. rewrite <- fsum_scal. apply fsum_ext. intros; ring. Qed.
Lemma dot_sym_mat n A u v : symmetric n A -> dot n u (mvec n A v) = dot n v (mvec n A u).
Proof.
  intros HS. rewrite dot_mvec, dot_comm. apply Base.dot_ext; [intros i Hi; reflexivity|]. intros i Hi. unfold mvec, mtrans. apply fsum_ext. intros j Hj. rewrite (HS j i Hj Hi). reflexivity.
Qed.
Lemma unit_bound n v i : dot n v v = 1 -> (i < n)%nat -> -1 <= v i <= 1.
Proof.
  intros H Hi. assert (B : v i * v i <= 1).
  { rewrite <- H. unfold dot. rewrite <- (fsum_delta n i (fun a => v a * v a) Hi). apply fsum_le. intros a Ha. unfold delta. destruct (Nat.eqb i a); [lra|]. rewrite Rmult_0_l. apply Rle_0_sqr. }
  split; nra.
Qed.

(** *** the spectral theorem *)
Section Next.
  Variables (n k : nat) (A : mat) (V : nat -> vec) (lam : nat -> R).
  Hypothesis Hk : (k < n)%nat.
  Hypothesis HS : symmetric n A.
  Hypothesis HV : forall i j, (i < k)%nat -> (j < k)%nat -> dot n (V i) (V j) = delta i j.
  Hypothesis HE : forall i, (i < k)%nat -> veq n (mvec n A (V i)) (fun a => lam i * V i a).
  Let sub (x : vec) := forall i, (i < k)%nat -> dot n (V i) x = 0.

  Lemma room : exists x, sub x /\ dot n x x = 1.
  Proof.
    set (w := fun a => 1 - fsum k (fun i => V i a * V i a)).
    assert (T : fsum n w = INR n - INR k).
    { unfold w. rewrite fsum_minus, fsum_swap, fsum_const. rewrite (fsum_ext k _ (fun _ => 1)); [rewrite fsum_const; ring|]. intros i Hi. change (dot n (V i) (V i) = 1). rewrite HV, delta_refl by assumption. reflexivity. }
    assert (X : exists a, (a < n)%nat /\ w a <> 0).
    { apply NNPP. intros NX. assert (Z : fsum n w = 0). { apply fsum_zero. intros a Ha. apply NNPP. intros Q. apply NX. exists a. split; assumption. }
      rewrite T in Z. apply lt_INR in Hk. lra. }
    destruct X as (a & Ha & Wa). set (r := fun b => delta a b - fsum k (fun i => V i a * V i b)).
    assert (SR : sub r).
    { intros j Hj. unfold dot, r. rewrite (fsum_ext n _ (fun b => delta a b * V j b - V j b * fsum k (fun i => V i a * V i b))) by (intros; ring). rewrite fsum_minus, fsum_delta by exact Ha.
      rewrite (fsum_ext n _ (fun b => fsum k (fun i => V i a * (V j b * V i b)))) by (intros b _; rewrite <- fsum_scal; apply fsum_ext; intros; ring). rewrite fsum_swap.
      rewrite (fsum_ext k _ (fun i => delta j i * V i a)); [rewrite fsum_delta by exact Hj; ring|]. intros i Hi. rewrite fsum_scal. change (fsum n (fun i0 => V j i0 * V i i0)) with (dot n (V j) (V i)). rewrite HV by assumption. ring. }
    assert (RR : dot n r r = w a).
    { assert (E : dot n r r = dot n r (delta a)).
      { transitivity (dot n r (fun b => delta a b + (-1) * fsum k (fun i => V i a * V i b))); [apply Base.dot_ext; intros b _; [reflexivity|unfold r; ring]|].
        rewrite dot_lin. assert (Z : dot n r (fun b => fsum k (fun i => V i a * V i b)) = 0); [|rewrite Z; ring].
        unfold dot. rewrite (fsum_ext n _ (fun b => fsum k (fun i => V i a * (V i b * r b)))) by (intros b _; rewrite <- fsum_scal; apply fsum_ext; intros; ring). rewrite fsum_swap. apply fsum_zero. intros i Hi. rewrite fsum_scal. change (V i a * dot n (V i) r = 0). rewrite (SR i Hi). ring. }
      rewrite E, dot_comm. unfold dot. rewrite fsum_delta by exact Ha. unfold r, w. rewrite delta_refl. reflexivity. }
    assert (WP : 0 < w a) by (pose proof (dot_self_nonneg n r) as P; rewrite RR in P; lra).
    pose proof (sqrt_lt_R0 _ WP) as SP. exists (fun b => / sqrt (w a) * r b). split.
    - intros i Hi. rewrite dot_sc, (SR i Hi). ring.
    - rewrite dot_sc, dot_comm, dot_sc, RR. rewrite <- (sqrt_sqrt (w a)) at 3 by lra. field. lra.
  Qed.

  Lemma next : exists v l, sub v /\ dot n v v = 1 /\ veq n (mvec n A v) (fun a => l * v a).
  Proof.
    set (q := fun x => dot n x (mvec n A x)).
    set (E := fun y => exists x, sub x /\ dot n x x = 1 /\ q x = y).
    assert (BD : bound E).
    { exists (fsum n (fun i => fsum n (fun j => Rabs (A i j)))). intros y (x & _ & X1 & <-). unfold q, dot, mvec. apply fsum_le. intros i Hi. rewrite <- fsum_scal. apply fsum_le. intros j Hj.
      pose proof (unit_bound n x i X1 Hi) as Bi. pose proof (unit_bound n x j X1 Hj) as Bj. assert (P : Rabs (x i * x j) <= 1).
      { rewrite Rabs_mult. replace 1 with (1 * 1) by ring. apply Rmult_le_compat; try apply Rabs_pos; apply Rabs_le; lra. }
      apply Rle_trans with (Rabs (x i * (A i j * x j))); [apply Rle_abs|]. replace (x i * (A i j * x j)) with (A i j * (x i * x j)) by ring. rewrite Rabs_mult. rewrite <- (Rmult_1_r (Rabs (A i j))) at 2. apply Rmult_le_compat_l; [apply Rabs_pos|exact P]. }
    destruct room as (x0 & S0 & U0).
    destruct (completeness E BD) as (M & UB & LUB); [exists (q x0), x0; repeat split; assumption|].
    assert (EX : forall m, exists x, sub x /\ dot n x x = 1 /\ M - / INR (S m) < q x).
    { intros m. apply NNPP. intros NX. assert (P : 0 < / INR (S m)) by (apply Rinv_0_lt_compat, lt_0_INR; lia).
      assert (L : M <= M - / INR (S m)); [|lra]. apply LUB. intros y (x & X1 & X2 & <-). apply Rnot_lt_le. intros Q. apply NX. exists x. repeat split; assumption. }
    set (xs := fun m => proj1_sig (constructive_indefinite_description _ (EX m))).
    assert (XS : forall m, sub (xs m) /\ dot n (xs m) (xs m) = 1 /\ M - / INR (S m) < q (xs m)) by (intros m; exact (proj2_sig (constructive_indefinite_description _ (EX m)))).
    destruct (bwn n xs) as (v & f & Hf & Hc); [intros m i Hi; apply (unit_bound n); [apply XS|exact Hi]|].
    assert (SV : sub v).
    { intros i Hi. apply (UL_sequence (fun m => dot n (V i) (xs (f m)))); [|].
      - apply (cv_dot n (fun _ => V i) (fun m => xs (f m))); [intros; apply cv_const|exact Hc].
      - apply cv_eq. intros m. apply XS, Hi. }
    assert (UV : dot n v v = 1).
    { apply (UL_sequence (fun m => dot n (xs (f m)) (xs (f m)))); [apply (cv_dot n (fun m => xs (f m)) (fun m => xs (f m))); exact Hc|].
      apply cv_eq. intros m. apply XS. }
    assert (QV : q v = M).
    { apply (UL_sequence (fun m => q (xs (f m)))).
      - apply (cv_dot n (fun m => xs (f m)) (fun m => mvec n A (xs (f m)))); [exact Hc|]. intros i _. apply cv_mvec. exact Hc.
      - intros eps He. destruct (archimed_cor1 eps He) as (N & HN & N0). exists N. intros m Hm. unfold R_dist. destruct (XS (f m)) as (A1 & A2 & A3).
        assert (UBm : q (xs (f m)) <= M) by (apply UB; exists (xs (f m)); repeat split; assumption). rewrite Rabs_left1 by lra.
        assert (/ INR (S (f m)) <= / INR N) by (apply Rinv_le_contravar; [apply lt_0_INR; lia|apply le_INR; specialize (Hf m); lia]). lra. }
    assert (HOM : forall x, sub x -> q x <= M * dot n x x).
    { intros x Sx. destruct (Req_EM_T (dot n x x) 0) as [Z|NZ].
      - pose proof (dot_self_eq0 n x Z) as X0. rewrite Z, Rmult_0_r. unfold q, dot. rewrite fsum_zero; [lra|]. intros i Hi. rewrite (X0 i Hi). ring.
      - pose proof (dot_self_nonneg n x) as P. assert (P' : 0 < dot n x x) by lra. pose proof (sqrt_lt_R0 _ P') as SP. set (c := / sqrt (dot n x x)).
        assert (CC : c * c * dot n x x = 1) by (unfold c; rewrite <- (sqrt_sqrt (dot n x x)) at 3 by lra; field; lra).
        assert (Q1 : q (fun b => c * x b) <= M).
        { apply UB. exists (fun b => c * x b). split; [intros i Hi; rewrite dot_sc, (Sx i Hi); ring|]. split; [|reflexivity]. rewrite dot_sc, dot_comm, dot_sc. lra. }
        assert (Q2 : q (fun b => c * x b) = c * c * q x).
        { unfold q. rewrite (Base.dot_ext n (fun b => c * x b) (mvec n A (fun b => c * x b)) (fun b => c * x b) (fun b => c * mvec n A x b)) by (intros i Hi; try reflexivity; apply mvec_sc). rewrite dot_sc, dot_comm, dot_sc, (dot_comm n (mvec n A x)). ring. }
        rewrite Q2 in Q1. apply Rmult_le_reg_l with (c * c); [assert (0 < c) by (apply Rinv_0_lt_compat, SP); nra|]. replace (c * c * (M * dot n x x)) with (M * (c * c * dot n x x)) by ring. rewrite CC. lra. }
    set (w := fun a => mvec n A v a + (- M) * v a).
    assert (SW : sub w).
    { intros i Hi. unfold w. rewrite dot_lin, (SV i Hi), (dot_sym_mat n A (V i) v HS). rewrite (Base.dot_ext n v (mvec n A (V i)) v (fun a => lam i * V i a)) by (first [exact (HE i Hi)|intros ? ?; reflexivity]). rewrite dot_sc, dot_comm, (SV i Hi). ring. }
    assert (VW : dot n w (mvec n A v) - M * dot n w v = dot n w w) by (unfold w at 4; rewrite dot_lin; ring).
    set (B := dot n w w) in *. set (C := q w - M * B).
    assert (QD : forall t, 2 * t * B + t * t * C <= 0).
    { intros t. assert (ST : sub (fun a => v a + t * w a)) by (intros i Hi; rewrite dot_lin, (SV i Hi), (SW i Hi); ring).
      specialize (HOM _ ST). unfold q in HOM. rewrite (Base.dot_ext n _ (mvec n A (fun a => v a + t * w a)) (fun a => v a + t * w a) (fun a => mvec n A v a + t * mvec n A w a)) in HOM by (intros i Hi; try reflexivity; apply mvec_lin).
      rewrite !dot_lin, !dot_lin_l in HOM. rewrite (dot_sym_mat n A v w HS) in HOM. fold (q v) (q w) in HOM. rewrite QV, UV, (dot_comm n v w) in HOM. fold B in HOM. unfold C. nra. }
    assert (B0 : B = 0).
    { pose proof (dot_self_nonneg n w) as PB. fold B in PB. destruct PB as [PB|PB]; [exfalso|symmetry; exact PB]. set (d := Rabs C + 1). assert (DP : 0 < d) by (unfold d; pose proof (Rabs_pos C); lra).
      assert (CA : - C < d) by (unfold d; pose proof (Rle_abs (- C)) as Q; rewrite Rabs_Ropp in Q; lra).
      set (t := B / d). assert (TP : 0 < t) by (apply Rdiv_lt_0_compat; assumption). assert (TD : t * d = B) by (unfold t; field; lra).
      specialize (QD t). clearbody t d B C. clear - PB CA TP TD QD. assert (t * (- C) < t * d) by (apply Rmult_lt_compat_l; assumption). assert (0 < t * (2 * B + t * C)) by (apply Rmult_lt_0_compat; lra). lra. }
    exists v, M. split; [exact SV|]. split; [exact UV|]. intros i Hi. pose proof (dot_self_eq0 n w B0 i Hi) as Z. unfold w in Z. lra.
  Qed.
End Next.

Theorem spectral n A : symmetric n A -> exists (V : nat -> vec) (lam : nat -> R),
  (forall i j, (i < n)%nat -> (j < n)%nat -> dot n (V i) (V j) = delta i j) /\ (forall i, (i < n)%nat -> veq n (mvec n A (V i)) (fun a => lam i * V i a)).
Proof.
  intros HS. assert (G : forall k, (k <= n)%nat -> exists (V : nat -> vec) (lam : nat -> R),
    (forall i j, (i < k)%nat -> (j < k)%nat -> dot n (V i) (V j) = delta i j) /\ (forall i, (i < k)%nat -> veq n (mvec n A (V i)) (fun a => lam i * V i a))).
  { induction k as [|k IH]; intros Hk; [exists (fun _ _ => 0), (fun _ => 0); split; intros; lia|].
    destruct (IH ltac:(lia)) as (V & lam & HV & HE). destruct (next n k A V lam ltac:(lia) HS HV HE) as (v & l & SV & UV & EV).
    exists (fun i => if Nat.eqb i k then v else V i), (fun i => if Nat.eqb i k then l else lam i). split.
    - intros i j Hi Hj. destruct (Nat.eqb_spec i k) as [->|Ni]; destruct (Nat.eqb_spec j k) as [->|Nj].
      + rewrite delta_refl. exact UV.
      + rewrite delta_neq by lia. rewrite dot_comm. apply SV. lia.
      + rewrite delta_neq by lia. apply SV. lia.
      + apply HV; lia.
    - intros i Hi. destruct (Nat.eqb_spec i k) as [->|Ni]; [exact EV|apply HE; lia]. }
  exact (G n (le_n n)).
Qed.

(** *** a symmetric positive definite matrix *)
Section Pd.
  Variables (n : nat) (M : mat).
  Hypothesis HS : symmetric n M.
  Hypothesis HP : pos_def n M.
  Lemma decomposed : exists (U : mat) (D : vec), meq n (mmul n (mtrans U) U) meye /\ meq n (mmul n U (mtrans U)) meye /\ (forall k, (k < n)%nat -> 0 < D k) /\
    forall i j, (i < n)%nat -> (j < n)%nat -> fsum n (fun k => U i k * D k * U j k) = M i j.
  Proof.
    destruct (spectral n M HS) as (V & D & HV & HE). set (U := fun a k => V k a : R).
    assert (OC : orthocols n n U) by (intros i j Hi Hj; exact (HV i j Hi Hj)). assert (OS := ortho_square n U OC).
    exists U, D. split; [intros i j Hi Hj; exact (HV i j Hi Hj)|]. split; [intros i j Hi Hj; exact (OS i j Hi Hj)|]. split.
    - intros k Hk. assert (Q : dot n (V k) (mvec n M (V k)) = D k).
      { rewrite (Base.dot_ext n (V k) (mvec n M (V k)) (V k) (fun a => D k * V k a)) by (first [exact (HE k Hk)|intros ? ?; reflexivity]). rewrite dot_sc, HV, delta_refl by assumption. ring. }
      rewrite <- Q. unfold dot, mvec. rewrite (fsum_ext n _ (fun i => fsum n (fun j => V k i * M i j * V k j))) by (intros i _; rewrite <- fsum_scal; apply fsum_ext; intros; ring). apply HP.
      apply NNPP. intros NX. assert (Z : dot n (V k) (V k) = 0). { apply fsum_zero. intros i Hi. assert (V k i = 0) as -> by (apply NNPP; intros X; apply NX; exists i; split; assumption). ring. }
      rewrite HV, delta_refl in Z by assumption. lra.
    - intros i j Hi Hj. rewrite (fsum_ext n _ (fun k => fsum n (fun b => M i b * (U b k * U j k)))).
      + rewrite fsum_swap. rewrite (fsum_ext n _ (fun b => M i b * delta b j)) by (intros b Hb; rewrite fsum_scal, (OS b j Hb Hj); reflexivity). apply fsum_delta_r, Hj.
      + intros k Hk. pose proof (HE k Hk i Hi) as X. unfold mvec in X. unfold U. replace (V k i * D k * V k j) with ((D k * V k i) * V k j) by ring. rewrite <- X, <- fsum_scal_r. apply fsum_ext. intros; ring.
  Qed.
  Lemma scaled_inverse (U : mat) (D : vec) : meq n (mmul n (mtrans U) U) meye -> meq n (mmul n U (mtrans U)) meye -> (forall k, (k < n)%nat -> 0 < D k) ->
    exists T, inverse_pair n T (mmul n U (fun i j => sqrt (D j) * meye i j)).
  Proof.
    intros U1 U2 DP. assert (SD : forall k, (k < n)%nat -> 0 < sqrt (D k)) by (intros; apply sqrt_lt_R0, DP; assumption).
    assert (EX : forall i j, (j < n)%nat -> mmul n U (fun i j => sqrt (D j) * meye i j) i j = U i j * sqrt (D j)).
    { intros i j Hj. unfold mmul. rewrite (fsum_ext n _ (fun k => (U i k * sqrt (D j)) * delta k j)) by (intros k _; unfold meye; ring). rewrite fsum_delta_r by exact Hj. reflexivity. }
    exists (fun i j => / sqrt (D i) * U j i). split; intros i j Hi Hj; unfold mmul at 1.
    - rewrite (fsum_ext n _ (fun k => / sqrt (D i) * sqrt (D j) * (U k i * U k j))) by (intros k Hk; rewrite EX by exact Hj; ring). rewrite fsum_scal.
      change (fsum n (fun k => U k i * U k j)) with (mmul n (mtrans U) U i j). rewrite (U1 i j Hi Hj). unfold meye, delta. destruct (Nat.eqb_spec i j) as [->|]; [|ring]. specialize (SD j Hj). field. lra.
    - rewrite (fsum_ext n _ (fun k => U i k * U j k)); [exact (U2 i j Hi Hj)|]. intros k Hk. rewrite EX by exact Hk. specialize (SD k Hk). field. lra.
  Qed.
  (** solutions of M y = m *)
  Lemma solvable m : exists y, veq n (mvec n M y) m.
  Proof.
    destruct decomposed as (U & D & U1 & U2 & DP & EM).
    exists (fun j => fsum n (fun k => U j k * (/ D k * fsum n (fun b => U b k * m b)))). intros i Hi. unfold mvec.
    transitivity (fsum n (fun k => U i k * fsum n (fun b => U b k * m b))).
    - rewrite (fsum_ext n _ (fun j => fsum n (fun k => U i k * D k * U j k) * fsum n (fun k => U j k * (/ D k * fsum n (fun b => U b k * m b))))) by (intros j Hj; rewrite (EM i j Hi Hj); reflexivity).
      rewrite (fsum_ext n _ (fun j => fsum n (fun k => fsum n (fun l => U i k * D k * (/ D l * fsum n (fun b => U b l * m b)) * (U j k * U j l))))).
      2:{ intros j Hj. rewrite <- fsum_scal_r. apply fsum_ext. intros k _. rewrite <- fsum_scal. apply fsum_ext. intros l _. ring. }
      rewrite fsum_swap. apply fsum_ext. intros k Hk. rewrite fsum_swap.
      rewrite (fsum_ext n _ (fun l => delta k l * (U i k * D k * (/ D l * fsum n (fun b => U b l * m b))))).
      2:{ intros l Hl. rewrite fsum_scal. change (fsum n (fun j => U j k * U j l)) with (mmul n (mtrans U) U k l). rewrite (U1 k l Hk Hl). unfold meye. ring. }
      rewrite fsum_delta by exact Hk. specialize (DP k Hk). field. lra.
    - rewrite (fsum_ext n _ (fun k => fsum n (fun b => m b * (U i k * U b k)))) by (intros k _; rewrite <- fsum_scal; apply fsum_ext; intros; ring). rewrite fsum_swap.
      rewrite (fsum_ext n _ (fun b => delta i b * m b)); [apply fsum_delta, Hi|]. intros b Hb. rewrite fsum_scal. change (fsum n (fun k => U i k * U b k)) with (mmul n U (mtrans U) i b). rewrite (U2 i b Hi Hb). unfold meye. ring.
  Qed.
End Pd.

(** *** Cholesky *)
Lemma forward_subst n (L : mat) : (forall i j, (i < j < n)%nat -> L i j = 0) -> (forall i, (i < n)%nat -> 0 < L i i) -> forall b, exists l, forall j, (j < n)%nat -> fsum n (fun k => L j k * l k) = b j.
Proof.
  induction n as [|n IH]; intros HL HD b; [exists (fun _ => 0); intros; lia|].
  destruct (IH ltac:(intros; apply HL; lia) ltac:(intros; apply HD; lia) b) as (l & Hl).
  exists (fun k => if Nat.eqb k n then (b n - fsum n (fun k => L n k * l k)) / L n n else l k). intros j Hj. rewrite fsum_S. rewrite Nat.eqb_refl.
  assert (EF : fsum n (fun k => L j k * (if Nat.eqb k n then (b n - fsum n (fun k => L n k * l k)) / L n n else l k)) = fsum n (fun k => L j k * l k)) by (apply fsum_ext; intros k Hk; destruct (Nat.eqb_spec k n); [lia|reflexivity]).
  rewrite EF. specialize (HD n ltac:(lia)). destruct (Nat.eq_dec j n) as [->|Ne]; [field; lra|]. rewrite (HL j n) by lia. rewrite (Hl j) by lia. ring.
Qed.
Lemma lower_inj n (L : mat) z : (forall i j, (i < j < n)%nat -> L i j = 0) -> (forall i, (i < n)%nat -> 0 < L i i) -> (forall j, (j < n)%nat -> fsum n (fun k => L j k * z k) = 0) -> forall j, (j < n)%nat -> z j = 0.
Proof.
  induction n as [|n IH]; intros HL HD HZ j Hj; [lia|].
  assert (Z : forall i, (i < n)%nat -> z i = 0).
  { apply IH; [intros; apply HL; lia|intros; apply HD; lia|]. intros i Hi. specialize (HZ i ltac:(lia)). rewrite fsum_S, (HL i n) in HZ by lia. lra. }
  destruct (Nat.eq_dec j n) as [->|Ne]; [|apply Z; lia]. specialize (HZ n ltac:(lia)). rewrite fsum_S, fsum_zero in HZ by (intros i Hi; rewrite (Z i Hi); ring). specialize (HD n ltac:(lia)). rewrite Rplus_0_l in HZ. apply Rmult_integral in HZ as [HZ|HZ]; lra.
Qed.
Theorem cholesky_exists n M : symmetric n M -> pos_def n M -> exists L, lower_factor n L M.
Proof.
  induction n as [|n IH]; intros HS HP; [exists (fun _ _ => 0); split; [intros; lia|split; intros; lia]|].
  assert (HS' : symmetric n M) by (intros i j Hi Hj; apply HS; lia).
  assert (HP' : pos_def n M).
  { intros v (i & Hi & Hv). specialize (HP (fun i => if Nat.eqb i n then 0 else v i)). rewrite fsum_S, Nat.eqb_refl in HP.
    rewrite (fsum_zero (S n) (fun j => 0 * M n j * (if Nat.eqb j n then 0 else v j))) in HP by (intros; ring).
    rewrite (fsum_ext n _ (fun i => fsum n (fun j => v i * M i j * v j))) in HP; [rewrite Rplus_0_r in HP; apply HP; exists i; split; [lia|destruct (Nat.eqb_spec i n); [lia|exact Hv]]|].
    intros a Ha. rewrite fsum_S, Nat.eqb_refl, Rmult_0_r, Rplus_0_r. apply fsum_ext. intros b Hb. destruct (Nat.eqb_spec a n); [lia|]. destruct (Nat.eqb_spec b n); [lia|reflexivity]. }
  destruct (IH HS' HP') as (L & L1 & L2 & L3). set (m := fun j => M n j).
  destruct (forward_subst n L L1 L2 m) as (l & Hl). destruct (solvable n M HS' HP' m) as (y & Hy).
  assert (LY : forall k, (k < n)%nat -> fsum n (fun j => L j k * y j) = l k).
  { intros k Hk. apply Rminus_diag_uniq. apply (lower_inj n L (fun k => fsum n (fun j => L j k * y j) - l k) L1 L2); [|exact Hk]. intros i Hi.
    rewrite (fsum_ext n _ (fun k => L i k * fsum n (fun j => L j k * y j) - L i k * l k)) by (intros; ring). rewrite fsum_minus, (Hl i Hi). rewrite <- (Hy i Hi). unfold mvec.
    rewrite (fsum_ext n (fun k => L i k * fsum n (fun j => L j k * y j)) (fun k => fsum n (fun j => y j * (L i k * L j k)))) by (intros a _; rewrite <- fsum_scal; apply fsum_ext; intros; ring). rewrite fsum_swap.
    rewrite <- fsum_minus. apply fsum_zero. intros j Hj. rewrite fsum_scal, (L3 i j Hi Hj). ring. }
  assert (LL : fsum n (fun k => l k * l k) = fsum n (fun j => m j * y j)).
  { rewrite (fsum_ext n _ (fun k => fsum n (fun j => y j * (L j k * l k)))) by (intros k Hk; rewrite <- (LY k Hk) at 1; rewrite <- fsum_scal_r; apply fsum_ext; intros; ring). rewrite fsum_swap. apply fsum_ext. intros j Hj. rewrite fsum_scal, (Hl j Hj). ring. }
  assert (YM : fsum n (fun i => fsum n (fun j => y i * M i j * y j)) = fsum n (fun j => m j * y j)).
  { apply fsum_ext. intros i Hi. rewrite <- (Hy i Hi). unfold mvec. rewrite <- fsum_scal_r. apply fsum_ext. intros; ring. }
  assert (DPos : 0 < M n n - fsum n (fun k => l k * l k)).
  { specialize (HP (fun i => if Nat.eqb i n then 1 else - y i)). rewrite fsum_S, fsum_S, Nat.eqb_refl in HP.
    rewrite (fsum_ext n (fun j => 1 * M n j * (if Nat.eqb j n then 1 else - y j)) (fun j => - (m j * y j))) in HP by (intros j Hj; destruct (Nat.eqb_spec j n); [lia|unfold m; ring]).
    rewrite (fsum_ext n _ (fun i => fsum n (fun j => y i * M i j * y j) + - (m i * y i))) in HP.
    2:{ intros i Hi. rewrite fsum_S, Nat.eqb_refl. destruct (Nat.eqb_spec i n); [lia|]. f_equal; [apply fsum_ext; intros j Hj; destruct (Nat.eqb_spec j n); [lia|ring]|]. unfold m. rewrite (HS i n) by lia. ring. }
    rewrite fsum_plus, !fsum_opp, YM in HP. rewrite LL. assert (X : exists i, (i < S n)%nat /\ (if Nat.eqb i n then 1 else - y i) <> 0) by (exists n; split; [lia|rewrite Nat.eqb_refl; lra]). specialize (HP X). lra. }
  set (d := sqrt (M n n - fsum n (fun k => l k * l k))). assert (Dp : 0 < d) by (apply sqrt_lt_R0, DPos). assert (DD : d * d = M n n - fsum n (fun k => l k * l k)) by (apply sqrt_sqrt; lra).
  set (L' := fun i k => if Nat.eqb i n then (if Nat.eqb k n then d else l k) else if Nat.eqb k n then 0 else L i k).
  assert (Eij : forall i k, (i < n)%nat -> (k < n)%nat -> L' i k = L i k) by (intros i k Hi Hk; unfold L'; destruct (Nat.eqb_spec i n); [lia|]; destruct (Nat.eqb_spec k n); [lia|reflexivity]).
  assert (Ein : forall i, (i < n)%nat -> L' i n = 0) by (intros i Hi; unfold L'; destruct (Nat.eqb_spec i n); [lia|]; rewrite Nat.eqb_refl; reflexivity).
  assert (Enk : forall k, (k < n)%nat -> L' n k = l k) by (intros k Hk; unfold L'; rewrite Nat.eqb_refl; destruct (Nat.eqb_spec k n); [lia|reflexivity]).
  assert (Enn : L' n n = d) by (unfold L'; rewrite !Nat.eqb_refl; reflexivity).
  exists L'. split; [|split].
  - intros i j Hij. destruct (Nat.eq_dec j n) as [->|]; [apply Ein; lia|rewrite Eij by lia; apply L1; lia].
  - intros i Hi. destruct (Nat.eq_dec i n) as [->|]; [rewrite Enn; exact Dp|rewrite Eij by lia; apply L2; lia].
  - assert (RN : forall j, (j < n)%nat -> fsum (S n) (fun k => L' n k * L' j k) = M n j).
    { intros j Hj. rewrite fsum_S, (Ein j Hj), Rmult_0_r, Rplus_0_r. rewrite (fsum_ext n _ (fun k => L j k * l k)) by (intros k Hk; rewrite Enk, Eij by assumption; ring). exact (Hl j Hj). }
    intros i j Hi Hj. destruct (Nat.eq_dec i n) as [->|Ni]; destruct (Nat.eq_dec j n) as [->|Nj].
    + rewrite fsum_S, Enn. rewrite (fsum_ext n _ (fun k => l k * l k)) by (intros k Hk; rewrite Enk by exact Hk; reflexivity). lra.
    + apply RN. lia.
    + rewrite (HS i n) by lia. rewrite <- (RN i) by lia. apply fsum_ext. intros; ring.
    + rewrite fsum_S, (Ein i), Rmult_0_l, Rplus_0_r by lia. rewrite (fsum_ext n _ (fun k => L i k * L j k)) by (intros k Hk; rewrite !Eij by lia; reflexivity). apply L3; lia.
Qed.
Lemma lower_inverse n M L : symmetric n M -> pos_def n M -> lower_factor n L M -> exists T, inverse_pair n T L.
Proof.
  intros HS HP (L1 & L2 & L3).
  assert (EX : forall j, exists y, veq n (mvec n M y) (delta j)) by (intros j; apply solvable; assumption).
  set (Y := fun j => proj1_sig (constructive_indefinite_description _ (EX j))).
  assert (HY : forall j, veq n (mvec n M (Y j)) (delta j)) by (intros j; exact (proj2_sig (constructive_indefinite_description _ (EX j)))).
  set (T := fun i j => fsum n (fun a => L a i * Y j a)).
  assert (LT : meq n (mmul n L T) meye).
  { intros i j Hi Hj. unfold meye. rewrite delta_sym. rewrite <- (HY j i Hi). unfold mmul, T, mvec. rewrite (fsum_ext n _ (fun k => fsum n (fun a => Y j a * (L i k * L a k)))) by (intros k _; rewrite <- fsum_scal; apply fsum_ext; intros; ring).
    rewrite fsum_swap. apply fsum_ext. intros a Ha. rewrite fsum_scal, (L3 i a Hi Ha). ring. }
  exists T. split; [|exact LT]. intros i j Hi Hj. apply Rminus_diag_uniq.
  apply (lower_inj n L (fun i => mmul n T L i j - meye i j) L1 L2); [|exact Hi]. intros a Ha.
  rewrite (fsum_ext n _ (fun k => L a k * mmul n T L k j - L a k * delta k j)) by (intros k _; unfold meye; ring). rewrite fsum_minus, fsum_delta_r by exact Hj.
  change (fsum n (fun k => L a k * mmul n T L k j)) with (mmul n L (mmul n T L) a j). rewrite <- mmul_assoc. unfold mmul at 1.
  rewrite (fsum_ext n _ (fun k => delta a k * L k j)) by (intros k Hk; rewrite (LT a k Ha Hk); reflexivity). rewrite fsum_delta by exact Ha. ring.
Qed.
