From Coquelicot Require Import Coquelicot.
From Verif Require Import Base StochModel Transf TransfSpec.

(** *** C09 *)
Lemma mvec_inv n A B v i : meq n (mmul n A B) meye -> (i < n)%nat -> mvec n A (mvec n B v) i = v i.
Proof.
  intros H Hi. rewrite <- mvec_mmul. rewrite (mvec_meq n _ meye) by assumption. apply mvec_eye. exact Hi.
Qed.

Lemma round_trip_u n T invT m u :
  inverse_pair n T invT ->
  (forall i, (i < n)%nat -> forall z, rv_x2u (m i) (rv_u2x (m i) z) = z) ->
  veq n (x_to_u n T m (u_to_x n invT m u)) u.
Proof.
  intros [H1 H2] Hm i Hi. unfold x_to_u, u_to_x.
  rewrite (mvec_ext n T _ (mvec n invT u)).
  - apply mvec_inv; assumption.
  - intros j Hj. apply Hm. exact Hj.
Qed.

Lemma round_trip_x n T invT m x :
  inverse_pair n T invT ->
  (forall i, (i < n)%nat -> rv_u2x (m i) (rv_x2u (m i) (x i)) = x i) ->
  veq n (u_to_x n invT m (x_to_u n T m x)) x.
Proof.
  intros [H1 H2] Hm i Hi. unfold x_to_u, u_to_x.
  rewrite mvec_inv by assumption. apply Hm. exact Hi.
Qed.

(** *** C10 *)
Lemma inverse_pair_left n A B C D :
  inverse_pair n A B -> inverse_pair n C D -> meq n (mmul n (mmul n A C) (mmul n D B)) meye.
Proof.
  intros [HA _] [HC _] i j Hi Hj.
  rewrite mmul_assoc.
  rewrite (mmul_meq n A A (mmul n C (mmul n D B)) B); [apply HA; assumption|apply meq_refl| |exact Hi|exact Hj].
  intros a b Ha Hb. rewrite <- mmul_assoc.
  rewrite (mmul_meq n (mmul n C D) meye B B HC (meq_refl n B) a b Ha Hb). apply mmul_eye_l. exact Ha.
Qed.

(** for any square-root factor with inverse T, |T z|^2 is z' Ro^{-1} z *)
Lemma factor_trans_inv n T A : inverse_pair n T A -> inverse_pair n (mtrans T) (mtrans A).
Proof.
  intros [H1 H2]. split; intros i j Hi Hj.
  - rewrite <- mmul_trans. unfold mtrans. rewrite H2 by assumption. apply delta_sym.
  - rewrite <- mmul_trans. unfold mtrans. rewrite H1 by assumption. apply delta_sym.
Qed.

Lemma length_by_solution n T A Ro z w :
  inverse_pair n T A -> factor_of n A Ro ->
  (forall i, (i < n)%nat -> mvec n Ro w i = z i) ->
  dot n (mvec n T z) (mvec n T z) = dot n w z.
Proof.
  intros HI HF Hw.
  (* T z = A' w *)
  assert (E : veq n (mvec n T z) (mvec n (mtrans A) w)).
  { intros i Hi. rewrite (mvec_ext n T z (mvec n Ro w)) by (intros j Hj; symmetry; apply Hw; exact Hj).
    rewrite (mvec_ext n T (mvec n Ro w) (mvec n A (mvec n (mtrans A) w))).
    - apply mvec_inv; [apply HI|exact Hi].
    - intros j Hj. rewrite <- mvec_mmul. apply mvec_meq; [|exact Hj].
      intros a b Ha Hb. unfold mmul, mtrans. symmetry. apply HF; assumption. }
  rewrite (dot_ext n _ _ (mvec n (mtrans A) w) (mvec n T z) E) by (intros i Hi; reflexivity).
  rewrite <- dot_mvec. apply dot_ext; [intros i _; reflexivity|].
  intros i Hi. apply mvec_inv; [apply HI|exact Hi].
Qed.

Lemma solution_exists n T A Ro z :
  inverse_pair n T A -> factor_of n A Ro ->
  exists w, forall i, (i < n)%nat -> mvec n Ro w i = z i.
Proof.
  intros HI HF. exists (mvec n (mtrans T) (mvec n T z)). intros i Hi.
  assert (HT := factor_trans_inv n T A HI).
  rewrite (mvec_meq n Ro (mmul n A (mtrans A))); [|intros a b Ha Hb; symmetry; apply HF; assumption|exact Hi].
  rewrite mvec_mmul.
  rewrite (mvec_ext n A _ (mvec n T z)).
  - apply mvec_inv; [apply HI|exact Hi].
  - intros j Hj. apply mvec_inv; [apply HT|exact Hj].
Qed.

Lemma same_length n TA A TB B Ro m x :
  inverse_pair n TA A -> inverse_pair n TB B -> factor_of n A Ro -> factor_of n B Ro ->
  norm n (x_to_u n TA m x) = norm n (x_to_u n TB m x).
Proof.
  intros HA HB FA FB. unfold norm. f_equal. unfold x_to_u.
  set (z := fun i => rv_x2u (m i) (x i)).
  destruct (solution_exists n TA A Ro z HA FA) as [w Hw].
  rewrite (length_by_solution n TA A Ro z w HA FA Hw).
  rewrite (length_by_solution n TB B Ro z w HB FB Hw). reflexivity.
Qed.

(** sets of distances of limit-state points *)
Lemma same_distances n TA A TB B Ro m (S : vec -> Prop) d :
  inverse_pair n TA A -> inverse_pair n TB B -> factor_of n A Ro -> factor_of n B Ro ->
  (forall i, (i < n)%nat -> forall z, rv_x2u (m i) (rv_u2x (m i) z) = z) ->
  (forall x y, veq n x y -> S x -> S y) ->
  (exists u, S (u_to_x n A m u) /\ norm n u = d) ->
  (exists u, S (u_to_x n B m u) /\ norm n u = d).
Proof.
  intros HA HB FA FB Hm HS [u [Hu Hd]].
  set (x := u_to_x n A m u) in *.
  exists (x_to_u n TB m x).
  assert (Hx : veq n (u_to_x n B m (x_to_u n TB m x)) x).
  { apply round_trip_x; [exact HB|]. intros i Hi. unfold x, u_to_x. f_equal. apply Hm. exact Hi. }
  split; [apply (HS x); [intros i Hi; symmetry; apply Hx; exact Hi|exact Hu]|].
  rewrite <- (same_length n TA A TB B Ro m x HA HB FA FB).
  rewrite <- Hd. unfold norm. f_equal. apply dot_ext; apply round_trip_u; assumption.
Qed.

(** *** SVD gives a factor: uniqueness of the positive square root *)
Lemma mmul4 n A B C D i j : mmul n (mmul n A B) (mmul n C D) i j = mmul n (mmul n A (mmul n B C)) D i j.
Proof.
  rewrite mmul_assoc, mmul_assoc. unfold mmul at 1 3. apply fsum_ext. intros k Hk. f_equal.
  apply (eq_sym (mmul_assoc n B C D k j)).
Qed.

Definition qf (n : nat) (M : mat) (v : vec) : R := dot n v (mvec n M v).

Lemma qf_expand n M v : qf n M v = fsum n (fun i => fsum n (fun j => v i * M i j * v j)).
Proof.
  unfold qf, dot, mvec. apply fsum_ext. intros i _. rewrite <- fsum_scal. apply fsum_ext. intros; ring.
Qed.

Lemma pos_def_zero n M v : pos_def n M -> qf n M v <= 0 -> forall i, (i < n)%nat -> v i = 0.
Proof.
  intros HM Hq i Hi. destruct (Req_dec (v i) 0) as [|Hne]; [assumption|].
  exfalso. assert (0 < qf n M v) by (rewrite qf_expand; apply HM; eauto). lra.
Qed.

(** congruence by an invertible matrix preserves positive definiteness *)
Lemma pos_def_congr n M U : inverse_pair n U (mtrans U) -> pos_def n M ->
  pos_def n (mmul n (mmul n (mtrans U) M) U).
Proof.
  intros [HU1 HU2] HM v [i0 [Hi0 Hv]]. rewrite <- qf_expand. unfold qf.
  assert (E : dot n v (mvec n (mmul n (mmul n (mtrans U) M) U) v) = qf n M (mvec n U v)).
  { unfold qf. rewrite (dot_ext n v _ v (mvec n (mtrans U) (mvec n M (mvec n U v)))).
    - rewrite dot_mvec. apply dot_ext; intros i Hi; reflexivity.
    - intros i _; reflexivity.
    - intros i Hi. rewrite mvec_mmul, mvec_mmul. reflexivity. }
  rewrite E, qf_expand. apply HM.
  destruct (vec_zero_dec n (mvec n U v)) as [H|H]; [exact H|].
  exfalso. apply Hv. rewrite <- (mvec_inv n (mtrans U) U v i0 HU2 Hi0).
  unfold mvec at 1. apply fsum_zero. intros j Hj. rewrite (H j Hj). ring.
Qed.

Lemma svd_sqrt n U D V M :
  svd_of n U D V M -> symmetric n M -> pos_def n M ->
  let S := mmul n (mmul n (mtrans U) M) U in
  forall i j, (i < n)%nat -> (j < n)%nat -> S i j = D i * delta i j.
Proof.
  intros (HU & HV & HD & HM) Hsym Hpd S.
  set (W := mmul n (mtrans V) U).
  assert (HS : forall i j, (i < n)%nat -> (j < n)%nat -> S i j = D i * W i j).
  { intros i j Hi Hj. unfold S.
    assert (E1 : meq n (mmul n (mtrans U) M) (fun a b => D a * V b a)).
    { intros a b Ha Hb. unfold mmul, mtrans.
      rewrite (fsum_ext n _ (fun k => fsum n (fun l => (U k a * U k l) * (D l * V b l)))).
      2:{ intros k Hk. rewrite <- (HM k b Hk Hb). rewrite <- fsum_scal. apply fsum_ext. intros; ring. }
      rewrite fsum_swap.
      rewrite (fsum_ext n _ (fun l => delta a l * (D l * V b l))).
      2:{ intros l Hl. rewrite fsum_scal_r. f_equal.
          destruct HU as [_ HU2]. specialize (HU2 a l Ha Hl). unfold mmul, mtrans, meye in HU2. exact HU2. }
      apply (fsum_delta n a (fun l => D l * V b l)). exact Ha. }
    rewrite (mmul_meq n _ _ U U E1 (meq_refl n U) i j Hi Hj).
    unfold W, mmul, mtrans. rewrite <- fsum_scal. apply fsum_ext. intros; ring. }
  assert (Ssym : forall i j, (i < n)%nat -> (j < n)%nat -> S i j = S j i).
  { intros i j Hi Hj. unfold S, mmul, mtrans.
    rewrite (fsum_ext n (fun k => fsum n (fun k0 => U k0 i * M k0 k) * U k j)
               (fun k => fsum n (fun k0 => U k0 i * M k0 k * U k j))).
    2:{ intros; rewrite fsum_scal_r; reflexivity. }
    rewrite fsum_swap. apply fsum_ext. intros k Hk. rewrite <- fsum_scal_r. apply fsum_ext.
    intros l Hl. rewrite (Hsym k l Hk Hl). ring. }
  assert (WW : meq n (mmul n W (mtrans W)) meye).
  { assert (HVt : inverse_pair n (mtrans V) V) by (split; apply HV).
    intros i j Hi Hj.
    rewrite <- (inverse_pair_left n (mtrans V) V U (mtrans U) HVt HU i j Hi Hj).
    unfold W. apply mmul_meq; [apply meq_refl| |exact Hi|exact Hj].
    intros a b Ha Hb. rewrite mmul_trans. unfold mmul, mtrans. reflexivity. }
  assert (SS : forall i j, (i < n)%nat -> (j < n)%nat ->
              fsum n (fun k => S i k * S k j) = D i * D i * delta i j).
  { intros i j Hi Hj.
    rewrite (fsum_ext n _ (fun k => (D i * D j) * (W i k * mtrans W k j))).
    - rewrite fsum_scal. specialize (WW i j Hi Hj). unfold mmul, meye in WW. rewrite WW.
      destruct (Nat.eq_dec i j) as [->|Hne]; [reflexivity|]. rewrite delta_neq by exact Hne. ring.
    - intros k Hk. rewrite (Ssym k j Hk Hj), !HS by assumption. unfold mtrans. ring. }
  assert (SPD : pos_def n S) by (apply pos_def_congr; assumption).
  assert (Comm : forall i j, (i < n)%nat -> (j < n)%nat -> S i j * D j = D i * S i j).
  { intros i j Hi Hj.
    assert (E : S i j * (D j * D j) = D i * D i * S i j).
    { transitivity (mmul n S (mmul n S S) i j).
      - unfold mmul. rewrite (fsum_ext n _ (fun k => S i k * (D k * D k * delta k j))).
        2:{ intros k Hk. rewrite SS by assumption. reflexivity. }
        rewrite (fsum_ext n _ (fun k => (S i k * (D k * D k)) * delta k j)) by (intros; ring).
        rewrite (fsum_delta_r n j (fun k => S i k * (D k * D k)) Hj). reflexivity.
      - rewrite <- mmul_assoc. unfold mmul at 1.
        rewrite (fsum_ext n _ (fun k => D i * D i * (delta i k * S k j))).
        2:{ intros k Hk. unfold mmul. rewrite SS by assumption. ring. }
        rewrite fsum_scal, (fsum_delta n i (fun k => S k j) Hi). reflexivity. }
    pose proof (HD i Hi) as Di. pose proof (HD j Hj) as Dj.
    assert (E2 : (S i j * D j - D i * S i j) * (D i + D j) = 0) by (ring_simplify; ring_simplify in E; lra).
    apply Rmult_integral in E2. destruct E2 as [E2|E2]; [lra|].
    assert (D i = 0) by lra. assert (D j = 0) by lra. rewrite H, H0. ring. }
  (* y = (S - D) x vanishes for every x *)
  assert (Y : forall x i, (i < n)%nat -> mvec n S x i - D i * x i = 0).
  { intros x. set (y := fun i => mvec n S x i - D i * x i).
    assert (Z : forall i, (i < n)%nat -> mvec n S y i = - (D i * y i)).
    { intros i Hi. unfold y, mvec at 1.
      rewrite (fsum_ext n _ (fun j => S i j * mvec n S x j - D i * (S i j * x j))).
      2:{ intros j Hj. pose proof (Comm i j Hi Hj). rewrite Rmult_minus_distr_l. f_equal.
          rewrite <- !Rmult_assoc. rewrite H. reflexivity. }
      rewrite fsum_minus, fsum_scal.
      change (fsum n (fun j => S i j * mvec n S x j)) with (mvec n S (mvec n S x) i).
      rewrite <- mvec_mmul.
      assert (E3 : mvec n (mmul n S S) x i = D i * D i * x i).
      { unfold mvec. rewrite (fsum_ext n _ (fun k => D i * D i * (delta i k * x k))).
        - rewrite fsum_scal, (fsum_delta n i x Hi). reflexivity.
        - intros k Hk. unfold mmul. rewrite SS by assumption. ring. }
      rewrite E3. unfold mvec. ring. }
    apply (pos_def_zero n S y SPD).
    unfold qf, dot. rewrite (fsum_ext n _ (fun i => - (D i * (y i * y i)))).
    2:{ intros i Hi. rewrite Z by exact Hi. ring. }
    rewrite fsum_opp. assert (0 <= fsum n (fun i => D i * (y i * y i))); [|lra].
    apply fsum_nonneg. intros i Hi. apply Rmult_le_pos; [apply HD; exact Hi|apply Rle_0_sqr]. }
  intros i j Hi Hj. specialize (Y (fun k => delta k j) i Hi).
  unfold mvec in Y. rewrite (fsum_delta_r n j (fun k => S i k) Hj) in Y. lra.
Qed.

Lemma mmul_sqrtD n U D i k : (k < n)%nat ->
  mmul n U (fun a b => sqrt (D b) * meye a b) i k = U i k * sqrt (D k).
Proof.
  intros Hk. unfold mmul, meye.
  rewrite (fsum_ext n _ (fun a => (U i a * sqrt (D k)) * delta a k)) by (intros; ring).
  apply (fsum_delta_r n k (fun a => U i a * sqrt (D k))). exact Hk.
Qed.

Lemma svd_factor n U D V M :
  svd_of n U D V M -> symmetric n M -> pos_def n M ->
  factor_of n (mmul n U (fun a b => sqrt (D b) * meye a b)) M.
Proof.
  intros Hs Hsym Hpd i j Hi Hj.
  pose proof (svd_sqrt n U D V M Hs Hsym Hpd) as HS. cbv zeta in HS.
  destruct Hs as (HU & HV & HD & HM).
  rewrite (fsum_ext n _ (fun k => U i k * (D k * U j k))).
  2:{ intros k Hk. rewrite !mmul_sqrtD by exact Hk.
      replace (U i k * sqrt (D k) * (U j k * sqrt (D k))) with (U i k * U j k * (sqrt (D k) * sqrt (D k))) by ring.
      rewrite sqrt_sqrt by (apply HD; exact Hk). ring. }
  set (S := mmul n (mmul n (mtrans U) M) U) in *.
  assert (E : meq n (mmul n (mmul n U S) (mtrans U)) M).
  { intros a b Ha Hb. unfold S.
    assert (E1 : meq n (mmul n U (mmul n (mmul n (mtrans U) M) U)) (mmul n M U)).
    { intros c d Hc Hd.
      assert (E0 : meq n (mmul n (mmul n (mtrans U) M) U) (mmul n (mtrans U) (mmul n M U)))
        by (intros e f _ _; apply mmul_assoc).
      rewrite (mmul_meq n U U _ _ (meq_refl n U) E0 c d Hc Hd), <- mmul_assoc.
      destruct HU as [HU1 _].
      rewrite (mmul_meq n _ meye _ (mmul n M U) HU1 (meq_refl n _) c d Hc Hd). apply mmul_eye_l. exact Hc. }
    rewrite (mmul_meq n _ _ _ _ E1 (meq_refl n (mtrans U)) a b Ha Hb), mmul_assoc.
    destruct HU as [HU1 _].
    rewrite (mmul_meq n M M _ meye (meq_refl n M) HU1 a b Ha Hb). apply mmul_eye_r. exact Hb. }
  rewrite <- (E i j Hi Hj). unfold mmul at 1. apply fsum_ext. intros k Hk.
  assert (E2 : mmul n U S i k = U i k * D k).
  { unfold mmul at 1. rewrite (fsum_ext n _ (fun l => (U i l * D l) * delta l k)).
    - apply (fsum_delta_r n k (fun l => U i l * D l) Hk).
    - intros l Hl. rewrite HS by assumption. ring. }
  rewrite E2. unfold mtrans. ring.
Qed.

(** both computed factors are factors of Ro with inverse T *)
Lemma compute_factor chol svd inv n Ro ty T invT :
  symmetric n Ro -> pos_def n Ro ->
  chol_contract n chol Ro -> svd_contract n svd Ro -> inv_contract n inv ->
  transf_compute chol svd inv ty n Ro = Ok (T, invT) ->
  inverse_pair n T invT /\ factor_of n invT Ro.
Proof.
  intros Hsym Hpd Hc Hs Hi. unfold transf_compute.
  destruct (String.eqb ty "cholesky").
  - unfold computeCholesky, rbind. destruct (chol n Ro) as [L|] eqn:EL; [|discriminate].
    destruct (inv n L) as [T'|] eqn:ET; [|discriminate]. intros H; inversion H; subst.
    split; [apply Hi; exact ET|apply Hc; exact EL].
  - destruct (String.eqb ty "svd"); [|discriminate].
    unfold computeSVD, rbind. destruct (svd n Ro) as [[U D]|] eqn:EL; [|discriminate].
    cbn [fst snd]. destruct (inv n _) as [T'|] eqn:ET; [|discriminate]. intros H; inversion H; subst.
    split; [apply Hi; exact ET|]. destruct (Hs U D EL) as [V HV]. eapply svd_factor; eassumption.
Qed.

Lemma cholesky_svd_same chol svd inv n Ro m ty1 ty2 T1 A1 T2 A2 :
  symmetric n Ro -> pos_def n Ro ->
  chol_contract n chol Ro -> svd_contract n svd Ro -> inv_contract n inv ->
  transf_compute chol svd inv ty1 n Ro = Ok (T1, A1) ->
  transf_compute chol svd inv ty2 n Ro = Ok (T2, A2) ->
  (forall x, norm n (x_to_u n T1 m x) = norm n (x_to_u n T2 m x)) /\
  ((forall i, (i < n)%nat -> forall z, rv_x2u (m i) (rv_u2x (m i) z) = z) ->
   forall (S : vec -> Prop) d, (forall x y, veq n x y -> S x -> S y) ->
   ((exists u, S (u_to_x n A1 m u) /\ norm n u = d) <-> (exists u, S (u_to_x n A2 m u) /\ norm n u = d))).
Proof.
  intros Hsym Hpd Hc Hs Hi H1 H2.
  destruct (compute_factor _ _ _ _ _ _ _ _ Hsym Hpd Hc Hs Hi H1) as [I1 F1].
  destruct (compute_factor _ _ _ _ _ _ _ _ Hsym Hpd Hc Hs Hi H2) as [I2 F2].
  split.
  - intros x. eapply same_length; eassumption.
  - intros Hm S d HS. split; intros H.
    + apply (same_distances n T1 A1 T2 A2 Ro m S d); assumption.
    + apply (same_distances n T2 A2 T1 A1 Ro m S d); assumption.
Qed.

(** *** C11: derivatives *)
Lemma is_derive_fsum n (f : nat -> R -> R) (df : nat -> R) t0 :
  (forall i, (i < n)%nat -> is_derive (f i) t0 (df i)) ->
  is_derive (fun t => fsum n (fun i => f i t)) t0 (fsum n df).
Proof.
  induction n as [|n IH]; intros H; cbn [fsum].
  - apply (is_derive_const 0 t0).
  - apply (is_derive_plus (fun t => fsum n (fun i => f i t)) (f n)).
    + apply IH. intros; apply H; lia.
    + apply H. lia.
Qed.

Lemma jacobian_entry n T invT m u x i j : (j < n)%nat ->
  jacobian n T invT m u x i j = T i j * rv_jac (m j) (mvec n invT u j) (x j).
Proof.
  intros Hj. unfold jacobian, mmul, jac_diag.
  rewrite (fsum_single n j); [rewrite Nat.eqb_refl; reflexivity|exact Hj|].
  intros k _ Hk. destruct (Nat.eqb_spec k j); [lia|ring].
Qed.

Lemma jacobian_derivative n T invT m x :
  inverse_pair n T invT ->
  (forall j, (j < n)%nat ->
     is_derive (rv_x2u (m j)) (x j) (rv_jac (m j) (rv_x2u (m j) (x j)) (x j))) ->
  let u := x_to_u n T m x in
  forall i j, (i < n)%nat -> (j < n)%nat ->
  is_derive (fun t => x_to_u n T m (vset x j t) i) (x j) (jacobian n T invT m u x i j).
Proof.
  intros HI Hd u i j Hi Hj. rewrite jacobian_entry by exact Hj.
  unfold u, x_to_u. rewrite mvec_inv by (try apply HI; exact Hj).
  set (dj := rv_jac (m j) (rv_x2u (m j) (x j)) (x j)).
  unfold mvec.
  replace (T i j * dj) with (fsum n (fun k => delta j k * (T i k * dj)))
    by (apply (fsum_delta n j (fun k => T i k * dj)); exact Hj).
  apply is_derive_fsum. intros k Hk. unfold vset.
  destruct (Nat.eqb_spec k j) as [->|Hne].
  - rewrite delta_refl, Rmult_1_l. apply (is_derive_scal (rv_x2u (m j)) (x j) (T i j)). apply Hd. exact Hj.
  - rewrite delta_neq by auto. rewrite Rmult_0_l. apply (is_derive_const (T i k * rv_x2u (m k) (x k)) (x j)).
Qed.

(** Derivative of u -> x along any differentiable curve, expressed with any
    inverse J of the returned Jacobian. *)
Lemma inverse_unique n A B C : inverse_pair n A B -> inverse_pair n A C -> meq n B C.
Proof.
  intros [HB1 HB2] [HC1 HC2] i j Hi Hj.
  rewrite <- (mmul_eye_r n B i j Hj).
  rewrite (mmul_meq n B B meye (mmul n A C) (meq_refl n B) (meq_sym n _ _ HC1) i j Hi Hj).
  rewrite <- mmul_assoc.
  rewrite (mmul_meq n (mmul n B A) meye C C HB2 (meq_refl n C) i j Hi Hj).
  apply mmul_eye_l. exact Hi.
Qed.

Lemma jac_inverse n T invT m u x : inverse_pair n T invT ->
  (forall i, (i < n)%nat -> rv_jac (m i) (mvec n invT u i) (x i) <> 0) ->
  inverse_pair n (jacobian n T invT m u x)
    (fun i j => / rv_jac (m i) (mvec n invT u i) (x i) * invT i j).
Proof.
  intros [H1 H2] Hj. split; intros a b Ha Hb.
  - rewrite <- (H1 a b Ha Hb). apply fsum_ext. intros k Hk. rewrite jacobian_entry by exact Hk.
    field. apply Hj. exact Hk.
  - unfold mmul. rewrite (fsum_ext n _ (fun k => (/ rv_jac (m a) (mvec n invT u a) (x a) *
        rv_jac (m b) (mvec n invT u b) (x b)) * (invT a k * T k b))).
    2:{ intros k Hk. rewrite jacobian_entry by exact Hb. ring. }
    rewrite fsum_scal. specialize (H2 a b Ha Hb). unfold mmul in H2. rewrite H2. unfold meye.
    destruct (Nat.eq_dec a b) as [->|Hne]; [rewrite delta_refl; field; apply Hj; exact Hb|].
    rewrite delta_neq by exact Hne. ring.
Qed.

Lemma u_to_x_curve n T invT m J (c : R -> vec) t0 v :
  inverse_pair n T invT ->
  let u := c t0 in let x := u_to_x n invT m u in
  (forall i, (i < n)%nat -> rv_jac (m i) (mvec n invT u i) (x i) <> 0 /\
     is_derive (rv_u2x (m i)) (mvec n invT u i) (/ rv_jac (m i) (mvec n invT u i) (x i))) ->
  inverse_pair n (jacobian n T invT m u x) J ->
  (forall i, (i < n)%nat -> is_derive (fun t => c t i) t0 (v i)) ->
  forall i, (i < n)%nat -> is_derive (fun t => u_to_x n invT m (c t) i) t0 (mvec n J v i).
Proof.
  intros HI u x Hd HJ Hv i Hi.
  assert (EJ := inverse_unique n _ _ _ HJ (jac_inverse n T invT m u x HI (fun i Hi => proj1 (Hd i Hi)))).
  rewrite (mvec_meq n _ _ v i EJ Hi). unfold mvec at 1.
  rewrite (fsum_ext n _ (fun j => / rv_jac (m i) (mvec n invT u i) (x i) * (invT i j * v j))) by (intros; ring).
  rewrite fsum_scal.
  assert (Dz : is_derive (fun t => mvec n invT (c t) i) t0 (mvec n invT v i)).
  { unfold mvec. apply (is_derive_fsum n (fun j t => invT i j * c t j) (fun j => invT i j * v j)).
    intros j Hj. apply (is_derive_scal (fun t => c t j) t0 (invT i j)). apply Hv. exact Hj. }
  pose proof (is_derive_comp (rv_u2x (m i)) (fun t => mvec n invT (c t) i) t0 _ _ (proj2 (Hd i Hi)) Dz) as D.
  unfold u_to_x. eapply is_derive_ext; [|].
  2:{ match type of D with is_derive _ _ ?d => replace (/ rv_jac (m i) (mvec n invT u i) (x i) *
        fsum n (fun j => invT i j * v j)) with d; [exact D|] end.
      unfold scal; simpl. unfold mult; simpl. unfold mvec at 1. ring. }
  intros t. reflexivity.
Qed.

Lemma is_derive_vset (u : vec) j i :
  is_derive (fun t => vset u j t i) (u j) (delta j i).
Proof.
  unfold vset. destruct (Nat.eqb_spec i j) as [->|Hne].
  - rewrite delta_refl. apply (is_derive_id (u j)).
  - rewrite delta_neq by auto. apply (is_derive_const (u i) (u j)).
Qed.

Lemma vset_id u j i : vset u j (u j) i = u i.
Proof. unfold vset. destruct (Nat.eqb_spec i j) as [->|]; reflexivity. Qed.

Lemma mvec_vset n A u j i : mvec n A (vset u j (u j)) i = mvec n A u i.
Proof. apply mvec_ext. intros k _. apply vset_id. Qed.

(** the inverse of the returned matrix is the Jacobian of u -> x *)
Lemma inverse_jacobian_derivative n T invT m J u :
  inverse_pair n T invT ->
  let x := u_to_x n invT m u in
  (forall i, (i < n)%nat -> rv_jac (m i) (mvec n invT u i) (x i) <> 0 /\
     is_derive (rv_u2x (m i)) (mvec n invT u i) (/ rv_jac (m i) (mvec n invT u i) (x i))) ->
  inverse_pair n (jacobian n T invT m u x) J ->
  forall i j, (i < n)%nat -> (j < n)%nat ->
  is_derive (fun t => u_to_x n invT m (vset u j t) i) (u j) (J i j).
Proof.
  intros HI x Hd HJ i j Hi Hj.
  rewrite <- (fsum_delta_r n j (fun k => J i k) Hj).
  rewrite (fsum_ext n _ (fun k => J i k * delta j k)) by (intros; rewrite delta_sym; reflexivity).
  change (fsum n (fun k => J i k * delta j k)) with (mvec n J (delta j) i).
  assert (Ex : forall i, u_to_x n invT m (vset u j (u j)) i = x i).
  { intros k. unfold x, u_to_x. rewrite mvec_vset. reflexivity. }
  apply (u_to_x_curve n T invT m J (fun t => vset u j t) (u j) (delta j) HI); [| | |exact Hi].
  - intros k Hk. cbv beta. rewrite Ex, mvec_vset. apply Hd. exact Hk.
  - destruct HJ as [A1 A2]. split; intros a b Ha Hb.
    + rewrite <- (A1 a b Ha Hb). apply fsum_ext. intros k Hk. rewrite !jacobian_entry by exact Hk.
      rewrite Ex, mvec_vset. reflexivity.
    + rewrite <- (A2 a b Ha Hb). apply fsum_ext. intros k Hk. rewrite !jacobian_entry by exact Hb.
      rewrite Ex, mvec_vset. reflexivity.
  - intros k _. apply is_derive_vset.
Qed.

(** chain rule: the pulled-back gradient is the gradient in u-space *)
Lemma pulled_gradient n T invT m J u g grad :
  inverse_pair n T invT ->
  let x := u_to_x n invT m u in
  (forall i, (i < n)%nat -> rv_jac (m i) (mvec n invT u i) (x i) <> 0 /\
     is_derive (rv_u2x (m i)) (mvec n invT u i) (/ rv_jac (m i) (mvec n invT u i) (x i))) ->
  inverse_pair n (jacobian n T invT m u x) J ->
  has_gradient n g x grad ->
  forall j, (j < n)%nat ->
  is_derive (fun t => g (u_to_x n invT m (vset u j t))) (u j) (pull_gradient n grad J j).
Proof.
  intros HI x Hd HJ Hg j Hj. unfold pull_gradient.
  apply (Hg (fun t => u_to_x n invT m (vset u j t)) (u j) (fun i => J i j)).
  - intros i Hi. unfold x, u_to_x. rewrite mvec_vset. reflexivity.
  - intros i Hi. apply (inverse_jacobian_derivative n T invT m J u HI Hd HJ); assumption.
Qed.

(** *** C12 *)
Lemma transformation_types ty :
  mkTransformation ty =
    match ty with
    | None => Ok "cholesky"%string
    | Some s => if orb (String.eqb s "cholesky") (String.eqb s "svd") then Ok s else Err EValue
    end.
Proof. destruct ty as [s|]; [|reflexivity]. unfold mkTransformation. cbn. rewrite orb_false_r. reflexivity. Qed.

Lemma transformation_created_iff ty :
  (exists t, mkTransformation ty = Ok t) <->
  (ty = None \/ ty = Some "cholesky"%string \/ ty = Some "svd"%string).
Proof.
  rewrite transformation_types. destruct ty as [s|].
  - destruct (String.eqb_spec s "cholesky") as [->|H1]; [split; [auto|eexists; reflexivity]|].
    destruct (String.eqb_spec s "svd") as [->|H2]; [split; [auto|eexists; reflexivity]|].
    cbn. split; [intros [t H]; discriminate|]. intros [H|[H|H]]; inversion H; contradiction.
  - split; [auto|eexists; reflexivity].
Qed.

Lemma options_change_irrelevant chol svd inv opt a changes n Ro :
  analysis_init opt = Ok a ->
  init_run chol svd inv (fold_left set_transform_option changes a) n Ro =
  match opt with
  | Some t => if String.eqb t "svd" then computeSVD svd inv n Ro else computeCholesky chol inv n Ro
  | None => computeCholesky chol inv n Ro
  end.
Proof.
  intros H. assert (E : an_type (fold_left set_transform_option changes a) = an_type a).
  { clear H. revert a. induction changes as [|c cs IH]; intros a; [reflexivity|]. cbn [fold_left]. rewrite IH. reflexivity. }
  unfold init_run. rewrite E. clear E.
  unfold analysis_init in H. rewrite transformation_types in H.
  destruct opt as [t|]; cbn in H; [|inversion H; reflexivity].
  destruct (String.eqb_spec t "cholesky") as [->|H1]; [inversion H; reflexivity|].
  destruct (String.eqb_spec t "svd") as [->|H2]; cbn in H; [inversion H; reflexivity|discriminate].
Qed.

(** *** C65 *)
Lemma starting_point n T invT m :
  inverse_pair n T invT ->
  (forall i, (i < n)%nat -> rv_u2x (m i) (rv_x2u (m i) (rv_start (m i))) = rv_start (m i)) ->
  veq n (computeTransformation n invT m (computeStartingPoint n T m)) (fun i => rv_start (m i)).
Proof. intros HI Hm. unfold computeTransformation, computeStartingPoint. apply round_trip_x; assumption. Qed.
