From Coquelicot Require Import Coquelicot.
From Verif Require Import Base Chol StochModel TransfSpec TransfProofs.

Lemma mupd_same A i j v : mupd A i j v i j = v.
Proof. unfold mupd. rewrite !Nat.eqb_refl. reflexivity. Qed.
Lemma mupd_other A i j v a b : a <> i \/ b <> j -> mupd A i j v a b = A a b.
Proof.
  intros H. unfold mupd. destruct (Nat.eqb_spec a i), (Nat.eqb_spec b j); simpl; try reflexivity.
  destruct H; contradiction.
Qed.

Lemma in_range a n i : In i (range a n) <-> (a <= i < n)%nat.
Proof. unfold range. rewrite in_seq. lia. Qed.

(** A fold of updates over a list without repetition, each writing one cell
    that depends only on that cell and on cells the fold never writes. *)
Section FoldUpd.
  Variable idx : nat -> nat * nat.
  Hypothesis idx_inj : forall i j, idx i = idx j -> i = j.

  Lemma fold_upd (step : cstate -> nat -> cstate) (fA fdA : cstate -> nat -> R) :
    (forall s i, step s i = (mupd (fst s) (fst (idx i)) (snd (idx i)) (fA s i),
                             mupd (snd s) (fst (idx i)) (snd (idx i)) (fdA s i))) ->
    forall l s, NoDup l ->
    (forall i j s', In i l -> In j l -> i <> j ->
       fA (step s' j) i = fA s' i /\ fdA (step s' j) i = fdA s' i) ->
    (forall i, In i l -> fst (fold_left step l s) (fst (idx i)) (snd (idx i)) = fA s i /\
                         snd (fold_left step l s) (fst (idx i)) (snd (idx i)) = fdA s i) /\
    (forall a b, (forall i, In i l -> idx i <> (a, b)) ->
       fst (fold_left step l s) a b = fst s a b /\ snd (fold_left step l s) a b = snd s a b).
  Proof.
    intros Hst. induction l as [|i l IH]; intros s Hnd Hind; cbn [fold_left].
    - split; [intros i []|intros; split; reflexivity].
    - inversion Hnd; subst.
      destruct (IH (step s i) H2) as [IH1 IH2].
      { intros; apply Hind; [right; assumption|right; assumption|assumption]. }
      split.
      + intros k [->|Hk].
        * destruct (IH2 (fst (idx k)) (snd (idx k))) as [E1 E2].
          { intros j Hj E. assert (idx j = idx k) by (rewrite E; destruct (idx k); reflexivity).
            apply idx_inj in H. subst. contradiction. }
          rewrite E1, E2, Hst. cbn [fst snd]. rewrite !mupd_same. auto.
        * destruct (IH1 k Hk) as [E1 E2].
          destruct (Hind k i s) as [F1 F2]; [right; exact Hk|left; reflexivity|intros ->; contradiction|].
          rewrite E1, E2. auto.
      + intros a b Hab. destruct (IH2 a b) as [E1 E2]; [intros; apply Hab; right; assumption|].
        rewrite E1, E2, Hst. cbn [fst snd].
        assert (D : a <> fst (idx i) \/ b <> snd (idx i)).
        { destruct (Nat.eq_dec a (fst (idx i))), (Nat.eq_dec b (snd (idx i))); auto.
          exfalso. apply (Hab i); [left; reflexivity|]. subst. destruct (idx i); reflexivity. }
        rewrite !mupd_other by exact D. auto.
  Qed.
End FoldUpd.

Lemma NoDup_range a n : NoDup (range a n).
Proof. apply seq_NoDup. Qed.

(** column loop *)
Lemma col_loop n k s :
  let s' := fold_left (chol_col k) (range (k + 1) n) s in
  let A := fst s in let dA := snd s in
  (forall i, (k < i < n)%nat -> fst s' i k = A i k / A k k /\
     snd s' i k = (dA i k * A k k - A i k * dA k k) / (A k k * A k k)) /\
  (forall a b, ~ (b = k /\ (k < a < n)%nat) -> fst s' a b = A a b /\ snd s' a b = dA a b).
Proof.
  cbv zeta.
  destruct (fold_upd (fun i => (i, k)) (fun i j E => f_equal fst E) (chol_col k)
    (fun s i => fst s i k / fst s k k)
    (fun s i => (snd s i k * fst s k k - fst s i k * snd s k k) / (fst s k k * fst s k k))) with
    (l := range (k + 1) n) (s := s) as [H1 H2].
  - intros [A dA] i. reflexivity.
  - apply NoDup_range.
  - intros i j [A dA] Hi Hj Hne. apply in_range in Hi. apply in_range in Hj. unfold chol_col. cbn [fst snd].
    rewrite !mupd_other by (left; lia). split; reflexivity.
  - cbn [fst snd] in *. split.
    + intros i Hi. apply H1. apply in_range. lia.
    + intros a b Hab. apply H2. intros i Hi E. inversion E; subst. apply in_range in Hi. apply Hab. lia.
Qed.

(** one column j of the trailing update *)
Lemma trail_col n k j s : (k < j)%nat ->
  let s' := fold_left (chol_trail k j) (range j n) s in
  let A := fst s in let dA := snd s in
  (forall i, (j <= i < n)%nat -> fst s' i j = A i j - A i k * A j k /\
     snd s' i j = dA i j - dA i k * A j k - A i k * dA j k) /\
  (forall a b, ~ (b = j /\ (j <= a < n)%nat) -> fst s' a b = A a b /\ snd s' a b = dA a b).
Proof.
  intros Hkj. cbv zeta.
  destruct (fold_upd (fun i => (i, j)) (fun i i' E => f_equal fst E) (chol_trail k j)
    (fun s i => fst s i j - fst s i k * fst s j k)
    (fun s i => snd s i j - snd s i k * fst s j k - fst s i k * snd s j k)) with
    (l := range j n) (s := s) as [H1 H2].
  - intros [A dA] i. reflexivity.
  - apply NoDup_range.
  - intros i i' [A dA] Hi Hj Hne. unfold chol_trail. cbn [fst snd].
    rewrite !mupd_other by (first [left; lia | right; lia]). split; reflexivity.
  - cbn [fst snd] in *. split.
    + intros i Hi. apply H1. apply in_range. lia.
    + intros a b Hab. apply H2. intros i Hi E. inversion E; subst. apply in_range in Hi. apply Hab. lia.
Qed.

(** all columns of the trailing update *)
Lemma trail_loop n k : forall l s, NoDup l -> (forall j, In j l -> (k < j)%nat) ->
  let s' := fold_left (fun s j => fold_left (chol_trail k j) (range j n) s) l s in
  let A := fst s in let dA := snd s in
  (forall i j, In j l -> (j <= i < n)%nat -> fst s' i j = A i j - A i k * A j k /\
     snd s' i j = dA i j - dA i k * A j k - A i k * dA j k) /\
  (forall a b, ~ (In b l /\ (b <= a < n)%nat) -> fst s' a b = A a b /\ snd s' a b = dA a b).
Proof.
  induction l as [|j0 l IH]; intros s Hnd Hl; cbv zeta; cbn [fold_left].
  - split; [intros i j []|auto].
  - inversion Hnd; subst.
    destruct (trail_col n k j0 s (Hl j0 (or_introl eq_refl))) as [T1 T2]. cbv zeta in T1, T2.
    set (s1 := fold_left (chol_trail k j0) (range j0 n) s) in *.
    destruct (IH s1 H2 (fun j Hj => Hl j (or_intror Hj))) as [I1 I2]. cbv zeta in I1, I2.
    assert (Hk0 : (k < j0)%nat) by (apply Hl; left; reflexivity).
    split.
    + intros i j [->|Hj] Hi.
      * destruct (I2 i j) as [E1 E2]; [intros [Hin _]; contradiction|]. rewrite E1, E2. apply T1. exact Hi.
      * destruct (I1 i j Hj Hi) as [E1 E2]. rewrite E1, E2.
        assert (Hkj : (k < j)%nat) by (apply Hl; right; exact Hj).
        assert (Hne : j <> j0) by (intros ->; contradiction).
        destruct (T2 i j) as [F1 F2]; [intros [? _]; contradiction|].
        destruct (T2 i k) as [F3 F4]; [intros [? _]; lia|].
        destruct (T2 j k) as [F5 F6]; [intros [? _]; lia|].
        rewrite F1, F2, F3, F4, F5, F6. auto.
    + intros a b Hab. destruct (I2 a b) as [E1 E2]; [intros [Hin ?]; apply Hab; split; [right; exact Hin|assumption]|].
      rewrite E1, E2. apply T2. intros [-> ?]. apply Hab. split; [left; reflexivity|assumption].
Qed.

(** one full step *)
Lemma step_spec n s k : (k < n)%nat ->
  let s' := chol_step n s k in
  let A := fst s in let dA := snd s in
  let p := sqrt (A k k) in let dp := dA k k / (2 * p) in
  fst s' k k = p /\ snd s' k k = dp /\
  (forall i, (k < i < n)%nat -> fst s' i k = A i k / p /\
      snd s' i k = (dA i k * p - A i k * dp) / (p * p)) /\
  (forall i j, (k < j)%nat -> (j <= i < n)%nat ->
      fst s' i j = A i j - fst s' i k * fst s' j k /\
      snd s' i j = dA i j - snd s' i k * fst s' j k - fst s' i k * snd s' j k) /\
  (forall i j, (j < k)%nat -> fst s' i j = A i j /\ snd s' i j = dA i j).
Proof.
  intros Hk. cbv zeta. unfold chol_step.
  set (s1 := chol_pivot k s).
  assert (P1 : fst s1 k k = sqrt (fst s k k) /\ snd s1 k k = snd s k k / (2 * sqrt (fst s k k)) /\
     forall a b, a <> k \/ b <> k -> fst s1 a b = fst s a b /\ snd s1 a b = snd s a b).
  { unfold s1, chol_pivot. destruct s as [A dA]. cbn [fst snd]. rewrite !mupd_same.
    split; [reflexivity|split; [reflexivity|]]. intros a b Hab. rewrite !mupd_other by exact Hab. auto. }
  destruct P1 as [Pk [dPk Po]].
  destruct (col_loop n k s1) as [C1 C2]. cbv zeta in C1, C2.
  set (s2 := fold_left (chol_col k) (range (k + 1) n) s1) in *.
  destruct (trail_loop n k (range (k + 1) n) s2 (NoDup_range _ _)) as [T1 T2].
  { intros j Hj. apply in_range in Hj. lia. }
  cbv zeta in T1, T2.
  set (s3 := fold_left (fun s j => fold_left (chol_trail k j) (range j n) s) (range (k + 1) n) s2) in *.
  assert (K0 : forall i, fst s3 i k = fst s2 i k /\ snd s3 i k = snd s2 i k).
  { intros i. apply T2. intros [H _]. apply in_range in H. lia. }
  destruct (K0 k) as [K1 K2].
  destruct (C2 k k) as [K3 K4]; [lia|].
  split; [rewrite K1, K3; exact Pk|]. split; [rewrite K2, K4; exact dPk|].
  split; [|split].
  - intros i Hi. destruct (K0 i) as [-> ->]. destruct (C1 i Hi) as [-> ->]. rewrite Pk, dPk.
    destruct (Po i k) as [-> ->]; [left; lia|]. auto.
  - intros i j Hj Hi. destruct (T1 i j) as [-> ->]; [apply in_range; lia|exact Hi|].
    destruct (K0 i) as [-> ->]. destruct (K0 j) as [-> ->].
    destruct (C2 i j) as [-> ->]; [lia|]. destruct (Po i j) as [-> ->]; [right; lia|]. auto.
  - intros i j Hj. destruct (T2 i j) as [-> ->]; [intros [H _]; apply in_range in H; lia|].
    destruct (C2 i j) as [-> ->]; [lia|]. apply Po. right. lia.
Qed.

Definition chol_state (n : nat) (R0 dR0 : mat) (k : nat) : cstate :=
  fold_left (chol_step n) (seq 0 k) (R0, dR0).

Lemma chol_state_S n R0 dR0 k : chol_state n R0 dR0 (S k) = chol_step n (chol_state n R0 dR0 k) k.
Proof. unfold chol_state. rewrite seq_S, fold_left_app. reflexivity. Qed.

(** symmetrised lower triangle *)
Definition symm (A : mat) : mat := fun i j => A (Nat.max i j) (Nat.min i j).

Definition pd_from (n k : nat) (S : mat) : Prop :=
  forall v : vec, (forall i, (i < k)%nat -> v i = 0) -> (exists i, (i < n)%nat /\ v i <> 0) ->
    0 < fsum n (fun i => fsum n (fun j => v i * S i j * v j)).

Lemma symm_sym A i j : symm A i j = symm A j i.
Proof. unfold symm. rewrite Nat.max_comm, Nat.min_comm. reflexivity. Qed.

Lemma symm_low A i j : (j <= i)%nat -> symm A i j = A i j.
Proof. intros H. unfold symm. rewrite Nat.max_l, Nat.min_r by exact H. reflexivity. Qed.

(** positive pivot *)
Lemma pd_pivot n k S : (k < n)%nat -> pd_from n k S -> 0 < S k k.
Proof.
  intros Hk H. specialize (H (delta k)).
  assert (E : fsum n (fun i => fsum n (fun j => delta k i * S i j * delta k j)) = S k k).
  { rewrite (fsum_ext n _ (fun i => delta k i * S i k)).
    - apply (fsum_delta n k (fun i => S i k) Hk).
    - intros i _. rewrite (fsum_ext n _ (fun j => (delta k i * S i j) * delta j k)).
      + apply (fsum_delta_r n k (fun j => delta k i * S i j) Hk).
      + intros j _. rewrite (delta_sym k j). ring. }
  rewrite E in H. apply H.
  - intros i Hi. apply delta_neq. lia.
  - exists k. split; [exact Hk|]. rewrite delta_refl. lra.
Qed.

(** Schur complement step *)
Lemma pd_schur n k S S' : (k < n)%nat -> pd_from n k S ->
  (forall i j, S i j = S j i) ->
  (forall i j, (k < i < n)%nat -> (k < j < n)%nat -> S' i j = S i j - S i k * S j k / S k k) ->
  pd_from n (Datatypes.S k) S'.
Proof.
  intros Hk HS Hsym HS' v Hv0 [i0 [Hi0 Hv]].
  pose proof (pd_pivot n k S Hk HS) as Hp.
  set (b := fsum n (fun j => S k j * v j)).
  set (t := - b / S k k).
  set (w := fun i => v i + t * delta k i).
  assert (Q' : fsum n (fun i => fsum n (fun j => v i * S' i j * v j)) =
          fsum n (fun i => fsum n (fun j => v i * S i j * v j)) - b * b / S k k).
  { transitivity (fsum n (fun i => fsum n (fun j => v i * S i j * v j) - / S k k * (S k i * v i * b))).
    - apply fsum_ext. intros i Hi.
      unfold b. rewrite <- !fsum_scal. rewrite <- fsum_minus. apply fsum_ext. intros j Hj.
      destruct (le_lt_dec i k) as [Hik|Hik]; [rewrite (Hv0 i) by lia; ring|].
      destruct (le_lt_dec j k) as [Hjk|Hjk]; [rewrite (Hv0 j) by lia; ring|].
      rewrite HS' by lia. rewrite (Hsym k i), (Hsym k j). field. lra.
    - rewrite fsum_minus, fsum_scal. f_equal. rewrite fsum_scal_r. fold b. field. lra. }
  assert (Qw : fsum n (fun i => fsum n (fun j => w i * S i j * w j)) =
          fsum n (fun i => fsum n (fun j => v i * S i j * v j)) - b * b / S k k).
  { transitivity (fsum n (fun i => fsum n (fun j => v i * S i j * v j)
        + t * (v i * S i k) + t * delta k i * b + t * t * delta k i * S i k)).
    - apply fsum_ext. intros i Hi.
      transitivity (fsum n (fun j => (v i * S i j * v j + t * (v i * S i j * delta j k))
          + (t * delta k i * (S i j * v j) + t * t * delta k i * (S i j * delta j k)))).
      + apply fsum_ext. intros j Hj. unfold w. rewrite (delta_sym k j). ring.
      + rewrite !fsum_plus, !fsum_scal.
        rewrite (fsum_delta_r n k (fun j => v i * S i j) Hk), (fsum_delta_r n k (fun j => S i j) Hk).
        assert (E : delta k i * fsum n (fun j => S i j * v j) = delta k i * b).
        { destruct (Nat.eq_dec k i) as [->|Hne]; [reflexivity|]. rewrite delta_neq by exact Hne. ring. }
        rewrite (Rmult_assoc t (delta k i)), E. ring.
    - rewrite !fsum_plus.
      rewrite (fsum_scal n t). rewrite (fsum_ext n (fun i => v i * S i k) (fun j => S k j * v j))
        by (intros; rewrite (Hsym _ k); ring). fold b.
      rewrite (fsum_ext n (fun i => t * delta k i * b) (fun i => delta k i * (t * b))) by (intros; ring).
      rewrite (fsum_delta n k (fun _ => t * b) Hk).
      rewrite (fsum_ext n (fun i => t * t * delta k i * S i k) (fun i => delta k i * (t * t * S i k))) by (intros; ring).
      rewrite (fsum_delta n k (fun i => t * t * S i k) Hk). unfold t. field. lra. }
  rewrite Q', <- Qw. apply HS.
  - intros i Hi. unfold w. rewrite (Hv0 i) by lia. rewrite delta_neq by lia. ring.
  - exists i0. split; [exact Hi0|]. unfold w.
    destruct (Nat.eq_dec k i0) as [->|Hne]; [exfalso; apply Hv, Hv0; lia|].
    rewrite delta_neq by exact Hne. intros E. apply Hv. lra.
Qed.

(** loop invariant *)
Definition chol_inv (n : nat) (R0 dR0 : mat) (k : nat) : Prop :=
  let A := fst (chol_state n R0 dR0 k) in let dA := snd (chol_state n R0 dR0 k) in
  pd_from n k (symm A) /\
  (forall i j, (j <= i < n)%nat ->
     ((j < k)%nat -> fsum (S j) (fun m => A i m * A j m) = R0 i j /\
        fsum (S j) (fun m => dA i m * A j m + A i m * dA j m) = dR0 i j /\ 0 < A j j) /\
     ((k <= j)%nat -> A i j = R0 i j - fsum k (fun m => A i m * A j m) /\
        dA i j = dR0 i j - fsum k (fun m => dA i m * A j m + A i m * dA j m))).

Lemma chol_invariant n R0 dR0 : symmetric n R0 -> pos_def n R0 ->
  forall k, (k <= n)%nat -> chol_inv n R0 dR0 k.
Proof.
  intros Hsym Hpd. induction k as [|k IH]; intros Hk.
  - split.
    + intros v _ Hv. cbn [chol_state seq fold_left fst].
      rewrite (fsum_ext n _ (fun i => fsum n (fun j => v i * R0 i j * v j))).
      * apply Hpd. exact Hv.
      * intros i Hi. apply fsum_ext. intros j Hj. f_equal. f_equal. unfold symm.
        destruct (le_lt_dec j i) as [H|H].
        -- rewrite Nat.max_l, Nat.min_r by exact H. reflexivity.
        -- rewrite Nat.max_r, Nat.min_l by lia. apply Hsym; assumption.
    + intros i j Hij. split; [lia|]. intros _. cbn. split; ring.
  - assert (Hkn : (k < n)%nat) by lia.
    destruct (IH (Nat.lt_le_incl _ _ Hkn)) as [Ipd Ieq]. clear IH.
    unfold chol_inv. rewrite chol_state_S.
    set (s := chol_state n R0 dR0 k) in *.
    destruct (step_spec n s k Hkn) as (Skk & dSkk & Scol & Strail & Sold). cbv zeta in *.
    set (s' := chol_step n s k) in *.
    set (A := fst s) in *. set (dA := snd s) in *. set (A' := fst s') in *. set (dA' := snd s') in *.
    assert (Hp : 0 < A k k).
    { pose proof (pd_pivot n k (symm A) Hkn Ipd) as P. rewrite symm_low in P by lia. exact P. }
    set (p := sqrt (A k k)) in *. set (dp := dA k k / (2 * p)) in *.
    assert (Hp' : 0 < p) by (apply sqrt_lt_R0; exact Hp).
    assert (Hpp : p * p = A k k) by (apply sqrt_sqrt; lra).
    (* column k of the new state times pivot *)
    assert (Ck : forall i, (k <= i < n)%nat -> A' i k * p = A i k /\ dA' i k * p + A' i k * dp = dA i k).
    { intros i Hi. destruct (Nat.eq_dec i k) as [->|Hne].
      - rewrite Skk, dSkk. split; [exact Hpp|]. unfold dp. field. lra.
      - destruct (Scol i) as [-> ->]; [lia|]. split; field; lra. }
    split.
    + apply (pd_schur n k (symm A) (symm A') Hkn Ipd (symm_sym A)).
      assert (Low : forall i j, (k < j)%nat -> (j <= i < n)%nat ->
        symm A' i j = symm A i j - symm A i k * symm A j k / symm A k k).
      { intros i j Hj Hi. rewrite !symm_low by lia. destruct (Strail i j Hj Hi) as [-> _].
        destruct (Ck i) as [<- _]; [lia|]. destruct (Ck j) as [<- _]; [lia|]. rewrite <- Hpp. field. lra. }
      intros i j Hi Hj. destruct (le_lt_dec j i) as [H|H]; [apply Low; lia|].
      rewrite (symm_sym A' i j), (symm_sym A i j). rewrite Low by lia. field. rewrite symm_low; lra || lia.
    + intros i j Hij. destruct (Ieq i j Hij) as [I1 I2].
      assert (Old : forall (f : nat -> R) (g : nat -> R) m, (m <= k)%nat ->
        (forall q, (q < m)%nat -> f q = g q) -> fsum m f = fsum m g) by (intros; apply fsum_ext; auto).
      assert (OA : forall a q, (q < k)%nat -> A' a q = A a q) by (intros a q Hq; apply (Sold a q Hq)).
      assert (OdA : forall a q, (q < k)%nat -> dA' a q = dA a q) by (intros a q Hq; apply (Sold a q Hq)).
      split.
      * intros Hj. destruct (Nat.eq_dec j k) as [->|Hne].
        -- destruct I2 as [E1 E2]; [lia|]. cbn [fsum]. rewrite Skk, dSkk.
           rewrite (fsum_ext k (fun m => A' i m * A' k m) (fun m => A i m * A k m))
             by (intros q Hq; rewrite !OA by exact Hq; reflexivity).
           rewrite (fsum_ext k (fun m => dA' i m * A' k m + A' i m * dA' k m) (fun m => dA i m * A k m + A i m * dA k m))
             by (intros q Hq; rewrite !OA, !OdA by exact Hq; reflexivity).
           destruct (Ck i) as [F1 F2]; [lia|]. rewrite F1, F2, E1, E2. split; [ring|]. split; [ring|exact Hp'].
        -- destruct I1 as [E1 [E2 E3]]; [lia|].
           rewrite (fsum_ext (S j) (fun m => A' i m * A' j m) (fun m => A i m * A j m))
             by (intros q Hq; rewrite !OA by lia; reflexivity).
           rewrite (fsum_ext (S j) (fun m => dA' i m * A' j m + A' i m * dA' j m) (fun m => dA i m * A j m + A i m * dA j m))
             by (intros q Hq; rewrite !OA, !OdA by lia; reflexivity).
           rewrite OA by lia. auto.
      * intros Hj. destruct I2 as [E1 E2]; [lia|]. destruct (Strail i j) as [F1 F2]; [lia|lia|].
        rewrite F1, F2, E1, E2. cbn [fsum].
        rewrite (fsum_ext k (fun m => A' i m * A' j m) (fun m => A i m * A j m))
             by (intros q Hq; rewrite !OA by exact Hq; reflexivity).
        rewrite (fsum_ext k (fun m => dA' i m * A' j m + A' i m * dA' j m) (fun m => dA i m * A j m + A i m * dA j m))
             by (intros q Hq; rewrite !OA, !OdA by exact Hq; reflexivity).
        split; ring.
Qed.

Lemma cwd_state n R0 dR0 : cholesky_with_derivative n R0 dR0 =
  (tril (fst (chol_state n R0 dR0 n)), tril (snd (chol_state n R0 dR0 n))).
Proof.
  unfold cholesky_with_derivative, chol_state, range. rewrite Nat.sub_0_r.
  destruct (fold_left (chol_step n) (seq 0 n) (R0, dR0)) as [A dA]. reflexivity.
Qed.

Lemma fsum_tril n f i : (i < n)%nat -> (forall m, (i < m < n)%nat -> f m = 0) -> fsum n f = fsum (S i) f.
Proof.
  intros Hi H. replace n with (S i + (n - S i))%nat by lia. rewrite fsum_app.
  rewrite (fsum_zero (n - S i)); [ring|]. intros q Hq. apply H. lia.
Qed.

Lemma tril_low A i j : (j <= i)%nat -> tril A i j = A i j.
Proof. intros H. unfold tril. apply Nat.leb_le in H. rewrite H. reflexivity. Qed.
Lemma tril_up A i j : (i < j)%nat -> tril A i j = 0.
Proof. intros H. unfold tril. destruct (Nat.leb_spec j i); [lia|reflexivity]. Qed.

Lemma cholesky_correct n R0 dR0 :
  symmetric n R0 -> pos_def n R0 -> symmetric n dR0 ->
  let L := fst (cholesky_with_derivative n R0 dR0) in
  let dL := snd (cholesky_with_derivative n R0 dR0) in
  (forall i j, (i < j)%nat -> L i j = 0 /\ dL i j = 0) /\
  (forall i, (i < n)%nat -> 0 < L i i) /\
  (forall i j, (i < n)%nat -> (j < n)%nat -> fsum n (fun m => L i m * L j m) = R0 i j) /\
  (forall i j, (i < n)%nat -> (j < n)%nat -> fsum n (fun m => dL i m * L j m + L i m * dL j m) = dR0 i j).
Proof.
  intros Hsym Hpd Hds. rewrite cwd_state. cbn [fst snd]. cbv zeta.
  destruct (chol_invariant n R0 dR0 Hsym Hpd n (le_n n)) as [_ H]. cbv zeta in H.
  set (A := fst (chol_state n R0 dR0 n)) in *. set (dA := snd (chol_state n R0 dR0 n)) in *.
  split; [intros i j Hij; rewrite !tril_up by exact Hij; auto|].
  split; [intros i Hi; rewrite tril_low by lia; apply (proj1 (H i i (conj (le_n i) Hi)) Hi)|].
  assert (Low : forall i j, (j <= i < n)%nat ->
     fsum n (fun m => tril A i m * tril A j m) = R0 i j /\
     fsum n (fun m => tril dA i m * tril A j m + tril A i m * tril dA j m) = dR0 i j).
  { intros i j Hij. destruct (proj1 (H i j Hij)) as [E1 [E2 _]]; [lia|].
    rewrite (fsum_tril n _ j) by (try lia; intros m Hm; rewrite (tril_up A j m) by lia; ring).
    rewrite (fsum_tril n (fun m => tril dA i m * tril A j m + tril A i m * tril dA j m) j)
      by (try lia; intros m Hm; rewrite (tril_up A j m), (tril_up dA j m) by lia; ring).
    rewrite <- E1, <- E2. split; apply fsum_ext; intros m Hm; rewrite !tril_low by lia; reflexivity. }
  split; intros i j Hi Hj.
  - destruct (le_lt_dec j i) as [Hle|Hlt]; [apply Low; lia|].
    rewrite (Hsym i j Hi Hj). rewrite <- (proj1 (Low j i (conj (Nat.lt_le_incl _ _ Hlt) Hj))).
    apply fsum_ext. intros; ring.
  - destruct (le_lt_dec j i) as [Hle|Hlt]; [apply Low; lia|].
    rewrite (Hds i j Hi Hj). rewrite <- (proj2 (Low j i (conj (Nat.lt_le_incl _ _ Hlt) Hj))).
    apply fsum_ext. intros; ring.
Qed.

(** the A part does not depend on dA *)
Lemma chol_state_A n R0 dR0 dR1 k : forall i j, fst (chol_state n R0 dR0 k) i j = fst (chol_state n R0 dR1 k) i j.
Proof.
  enough (forall l s1 s2, fst s1 = fst s2 -> fst (fold_left (chol_step n) l s1) = fst (fold_left (chol_step n) l s2)).
  { intros i j. unfold chol_state. rewrite (H (seq 0 k) (R0, dR0) (R0, dR1) eq_refl). reflexivity. }
  assert (F : forall (st : cstate -> nat -> cstate),
     (forall s1 s2 i, fst s1 = fst s2 -> fst (st s1 i) = fst (st s2 i)) ->
     forall l s1 s2, fst s1 = fst s2 -> fst (fold_left st l s1) = fst (fold_left st l s2)).
  { intros st Hst. induction l as [|x l IH]; intros s1 s2 E; cbn [fold_left]; [exact E|]. apply IH, Hst, E. }
  apply F. intros s1 s2 k' E. unfold chol_step.
  apply F.
  - intros a b j Eab. apply F; [|exact Eab]. intros [a1 a2] [b1 b2] i Ei. cbn in *. subst. reflexivity.
  - apply F.
    + intros [a1 a2] [b1 b2] i Ei. cbn in *. subst. reflexivity.
    + destruct s1 as [a1 a2], s2 as [b1 b2]. cbn in *. subst. reflexivity.
Qed.

(** derivative of every stage *)
Lemma is_derive_sqrt_at f t0 df : is_derive f t0 df -> 0 < f t0 ->
  is_derive (fun t => sqrt (f t)) t0 (df / (2 * sqrt (f t0))).
Proof.
  intros H Hp.
  assert (Hs : 0 < sqrt (f t0)) by (apply sqrt_lt_R0; exact Hp).
  replace (df / (2 * sqrt (f t0))) with (df * / (2 * sqrt (f t0))) by reflexivity.
  apply (is_derive_comp sqrt f t0 (/ (2 * sqrt (f t0))) df); [|exact H].
  apply is_derive_Reals. apply derivable_pt_lim_sqrt. exact Hp.
Qed.

Lemma chol_state_derive n (Rt : R -> mat) (dR0 : mat) t0 :
  symmetric n (Rt t0) -> pos_def n (Rt t0) ->
  (forall i j, (i < n)%nat -> (j < n)%nat -> is_derive (fun t => Rt t i j) t0 (dR0 i j)) ->
  forall k, (k <= n)%nat -> forall i j, (j <= i < n)%nat ->
  is_derive (fun t => fst (chol_state n (Rt t) dR0 k) i j) t0 (snd (chol_state n (Rt t0) dR0 k) i j).
Proof.
  intros Hsym Hpd Hd. induction k as [|k IH]; intros Hk i j Hij.
  - cbn. apply Hd; lia.
  - assert (Hkn : (k < n)%nat) by lia. specialize (IH (Nat.lt_le_incl _ _ Hkn)).
    destruct (chol_invariant n (Rt t0) dR0 Hsym Hpd k (Nat.lt_le_incl _ _ Hkn)) as [Ipd _]. cbv zeta in Ipd.
    assert (Hp : 0 < fst (chol_state n (Rt t0) dR0 k) k k).
    { pose proof (pd_pivot n k _ Hkn Ipd) as P. rewrite symm_low in P by lia. exact P. }
    set (s := fun t => chol_state n (Rt t) dR0 k) in *.
    set (s' := fun t => chol_state n (Rt t) dR0 (S k)).
    assert (Sp := fun t => step_spec n (s t) k Hkn). cbv zeta in Sp.
    assert (Es : forall t, chol_step n (s t) k = s' t) by (intros t; unfold s', s; rewrite chol_state_S; reflexivity).
    change (is_derive (fun t => fst (s' t) i j) t0 (snd (s' t0) i j)).
    set (p := sqrt (fst (s t0) k k)).
    assert (Hp' : 0 < p) by (apply sqrt_lt_R0; exact Hp).
    (* diagonal *)
    assert (Dkk : is_derive (fun t => fst (s' t) k k) t0 (snd (s' t0) k k)).
    { destruct (Sp t0) as (_ & E & _). rewrite Es in E. rewrite E.
      apply (is_derive_ext (fun t => sqrt (fst (s t) k k))).
      - intros t. destruct (Sp t) as (E' & _). rewrite Es in E'. symmetry. exact E'.
      - apply is_derive_sqrt_at; [apply IH; lia|exact Hp]. }
    assert (Vkk : fst (s' t0) k k = p) by (destruct (Sp t0) as (E' & _); rewrite Es in E'; exact E').
    (* column *)
    assert (Dik : forall i, (k < i < n)%nat -> is_derive (fun t => fst (s' t) i k) t0 (snd (s' t0) i k)).
    { intros q Hq. destruct (Sp t0) as (_ & E0 & E & _). rewrite Es in E0, E. destruct (E q Hq) as [_ Ed]. rewrite Ed.
      fold p. fold p in E0. rewrite <- E0.
      apply (is_derive_ext (fun t => fst (s t) q k / fst (s' t) k k)).
      - intros t. destruct (Sp t) as (Ea & _ & Eb & _). rewrite Es in Ea, Eb. destruct (Eb q Hq) as [Ec _].
        rewrite Ec, Ea. reflexivity.
      - assert (Dq : is_derive (fun t => fst (s t) q k) t0 (snd (s t0) q k)) by (apply IH; lia).
        pose proof (is_derive_div (fun t => fst (s t) q k) (fun t => fst (s' t) k k) t0 _ _ Dq Dkk) as DD.
        cbv beta in DD. rewrite Vkk in DD.
        replace ((snd (s t0) q k * p - fst (s t0) q k * snd (s' t0) k k) / (p * p))
          with ((snd (s t0) q k * p - fst (s t0) q k * snd (s' t0) k k) / p ^ 2) by (simpl; rewrite Rmult_1_r; reflexivity).
        apply DD. lra. }
    assert (Dik' : forall i, (k <= i < n)%nat -> is_derive (fun t => fst (s' t) i k) t0 (snd (s' t0) i k)).
    { intros q Hq. destruct (Nat.eq_dec q k) as [->|]; [exact Dkk|apply Dik; lia]. }
    destruct (lt_eq_lt_dec j k) as [[Hlt|Heq]|Hgt].
    + destruct (Sp t0) as (_ & _ & _ & _ & E). rewrite Es in E. destruct (E i j Hlt) as [_ ->].
      apply (is_derive_ext (fun t => fst (s t) i j)); [|apply IH; lia].
      intros t. destruct (Sp t) as (_ & _ & _ & _ & E'). rewrite Es in E'. destruct (E' i j Hlt) as [-> _]. reflexivity.
    + subst j. apply Dik'. lia.
    + destruct (Sp t0) as (_ & _ & _ & E & _). rewrite Es in E. destruct (E i j Hgt Hij) as [_ ->].
      apply (is_derive_ext (fun t => fst (s t) i j - fst (s' t) i k * fst (s' t) j k)).
      * intros t. destruct (Sp t) as (_ & _ & _ & E' & _). rewrite Es in E'. destruct (E' i j Hgt Hij) as [-> _]. reflexivity.
      * replace (snd (s t0) i j - snd (s' t0) i k * fst (s' t0) j k - fst (s' t0) i k * snd (s' t0) j k)
          with (snd (s t0) i j - (snd (s' t0) i k * fst (s' t0) j k + fst (s' t0) i k * snd (s' t0) j k)) by ring.
        apply (is_derive_minus (fun t => fst (s t) i j) (fun t => fst (s' t) i k * fst (s' t) j k)).
        -- apply IH. exact Hij.
        -- apply (is_derive_mult (fun t => fst (s' t) i k) (fun t => fst (s' t) j k)); [| |apply Rmult_comm].
           ++ apply Dik'. lia.
           ++ apply Dik'. lia.
Qed.

Lemma cholesky_derivative n (Rt : R -> mat) (dR0 : mat) t0 (dRt : R -> mat) :
  symmetric n (Rt t0) -> pos_def n (Rt t0) ->
  (forall i j, (i < n)%nat -> (j < n)%nat -> is_derive (fun t => Rt t i j) t0 (dR0 i j)) ->
  forall i j, (i < n)%nat -> (j < n)%nat ->
  is_derive (fun t => fst (cholesky_with_derivative n (Rt t) (dRt t)) i j) t0
            (snd (cholesky_with_derivative n (Rt t0) dR0) i j).
Proof.
  intros Hsym Hpd Hd i j Hi Hj.
  rewrite cwd_state. cbn [snd].
  apply (is_derive_ext (fun t => tril (fst (chol_state n (Rt t) dR0 n)) i j)).
  { intros t. rewrite cwd_state. cbn [fst]. unfold tril. rewrite (chol_state_A n (Rt t) dR0 (dRt t)). reflexivity. }
  destruct (le_lt_dec j i) as [Hle|Hlt].
  - rewrite tril_low by exact Hle.
    apply (is_derive_ext (fun t => fst (chol_state n (Rt t) dR0 n) i j)); [intros t; rewrite tril_low by exact Hle; reflexivity|].
    apply chol_state_derive; auto with arith.
  - rewrite tril_up by exact Hlt.
    apply (is_derive_ext (fun _ => 0)); [intros t; rewrite tril_up by exact Hlt; reflexivity|].
    apply (is_derive_const 0 t0).
Qed.

(** *** C14 *)
Lemma dinv_entry n Li dL i j : dinvL0_dtheta n Li dL i j =
  - fsum n (fun b => fsum n (fun a => Li i a * dL a b) * Li b j).
Proof.
  unfold dinvL0_dtheta, mmul. rewrite <- fsum_opp. apply fsum_ext. intros b _.
  rewrite (fsum_ext n _ (fun a => - (Li i a * dL a b))) by (intros; ring). rewrite fsum_opp. ring.
Qed.

Lemma dinv_algebra n L Li dL : inverse_pair n L Li ->
  forall i j, (i < n)%nat -> (j < n)%nat ->
  mmul n L (dinvL0_dtheta n Li dL) i j + mmul n dL Li i j = 0.
Proof.
  intros [H1 _] i j Hi Hj.
  assert (E : mmul n L (dinvL0_dtheta n Li dL) i j = - mmul n dL Li i j).
  { transitivity (- mmul n (mmul n L (mmul n Li dL)) Li i j).
    - rewrite mmul_assoc. unfold mmul at 1 2. rewrite <- fsum_opp. apply fsum_ext. intros k _.
      rewrite dinv_entry. unfold mmul. ring.
    - f_equal. apply mmul_meq; [|apply meq_refl|exact Hi|exact Hj].
      intros a b Ha Hb. rewrite <- mmul_assoc.
      rewrite (mmul_meq n _ meye dL dL H1 (meq_refl n dL) a b Ha Hb). apply mmul_eye_l. exact Ha. }
  rewrite E. ring.
Qed.

(** sum-of-absolute-values norm *)
Definition anorm (n : nat) (A : mat) : R := fsum n (fun i => fsum n (fun j => Rabs (A i j))).

Lemma fsum_abs n f : Rabs (fsum n f) <= fsum n (fun i => Rabs (f i)).
Proof.
  induction n as [|n IH]; cbn [fsum]; [rewrite Rabs_R0; lra|].
  eapply Rle_trans; [apply Rabs_triang|]. lra.
Qed.

Lemma fsum_term_le n f i : (i < n)%nat -> (forall k, (k < n)%nat -> 0 <= f k) -> f i <= fsum n f.
Proof.
  induction n as [|n IH]; intros Hi H; [lia|]. cbn [fsum].
  assert (0 <= f n) by (apply H; lia).
  assert (0 <= fsum n f) by (apply fsum_nonneg; intros; apply H; lia).
  destruct (Nat.eq_dec i n) as [->|]; [lra|].
  assert (f i <= fsum n f) by (apply IH; [lia|intros; apply H; lia]). lra.
Qed.

Lemma anorm_nonneg n A : 0 <= anorm n A.
Proof. apply fsum_nonneg. intros. apply fsum_nonneg. intros. apply Rabs_pos. Qed.

Lemma anorm_entry n A i j : (i < n)%nat -> (j < n)%nat -> Rabs (A i j) <= anorm n A.
Proof.
  intros Hi Hj. unfold anorm.
  eapply Rle_trans; [|apply (fsum_term_le n (fun i => fsum n (fun j => Rabs (A i j))) i Hi)].
  - apply (fsum_term_le n (fun j => Rabs (A i j)) j Hj). intros; apply Rabs_pos.
  - intros; apply fsum_nonneg; intros; apply Rabs_pos.
Qed.

Lemma anorm_mul n A B : anorm n (mmul n A B) <= anorm n A * anorm n B.
Proof.
  unfold anorm at 1. unfold mmul.
  apply Rle_trans with (fsum n (fun i => fsum n (fun j => fsum n (fun k => Rabs (A i k) * Rabs (B k j))))).
  { apply fsum_le. intros i _. apply fsum_le. intros j _. eapply Rle_trans; [apply fsum_abs|].
    apply fsum_le. intros k _. rewrite Rabs_mult. lra. }
  assert (H : forall i, fsum n (fun j => fsum n (fun k => Rabs (A i k) * Rabs (B k j)))
            <= fsum n (fun k => Rabs (A i k)) * anorm n B).
  { intros i. rewrite fsum_swap.
    rewrite <- fsum_scal_r. apply fsum_le. intros k Hk. rewrite fsum_scal.
    apply Rmult_le_compat_l; [apply Rabs_pos|].
    unfold anorm. apply (fsum_term_le n (fun k => fsum n (fun j => Rabs (B k j))) k Hk).
    intros; apply fsum_nonneg; intros; apply Rabs_pos. }
  eapply Rle_trans; [apply fsum_le; intros i _; apply H|].
  rewrite fsum_scal_r. unfold anorm. apply Rle_refl.
Qed.

Lemma anorm_triang n A B C : (forall i j, (i < n)%nat -> (j < n)%nat -> A i j = B i j + C i j) ->
  anorm n A <= anorm n B + anorm n C.
Proof.
  intros H. unfold anorm. rewrite <- fsum_plus. apply fsum_le. intros i Hi. rewrite <- fsum_plus.
  apply fsum_le. intros j Hj. rewrite H by assumption. apply Rabs_triang.
Qed.

Lemma anorm_opp n A : anorm n (fun i j => - A i j) = anorm n A.
Proof. apply fsum_ext. intros; apply fsum_ext; intros. apply Rabs_Ropp. Qed.

(** resolvent identity *)
Lemma resolvent n L Li L0 Li0 : inverse_pair n L Li -> inverse_pair n L0 Li0 ->
  forall i j, (i < n)%nat -> (j < n)%nat ->
  Li i j = Li0 i j - mmul n (mmul n Li (fun a b => L a b - L0 a b)) Li0 i j.
Proof.
  intros [_ HL] [HL0 _] i j Hi Hj.
  assert (E : mmul n (mmul n Li (fun a b => L a b - L0 a b)) Li0 i j =
     mmul n (mmul n Li L) Li0 i j - mmul n (mmul n Li L0) Li0 i j).
  { unfold mmul. rewrite <- fsum_minus. apply fsum_ext. intros b _. rewrite <- Rmult_minus_distr_r. f_equal.
    rewrite <- fsum_minus. apply fsum_ext. intros; ring. }
  rewrite E.
  rewrite (mmul_meq n _ meye Li0 Li0 HL (meq_refl n Li0) i j Hi Hj).
  rewrite mmul_eye_l by exact Hi. rewrite mmul_assoc.
  rewrite (mmul_meq n Li Li _ meye (meq_refl n Li) HL0 i j Hi Hj).
  rewrite mmul_eye_r by exact Hj. ring.
Qed.

Lemma continuous_fsum_abs n (Lt : R -> mat) t0 :
  (forall i j, (i < n)%nat -> (j < n)%nat -> continuous (fun t => Lt t i j) t0) ->
  forall eps : posreal, locally t0 (fun t => anorm n (fun i j => Lt t i j - Lt t0 i j) < eps).
Proof.
  intros Hc eps.
  assert (C : continuous (fun t => anorm n (fun i j => Lt t i j - Lt t0 i j)) t0).
  { unfold anorm.
    assert (G : forall m (f : nat -> R -> R), (forall i, (i < m)%nat -> continuous (f i) t0) ->
       continuous (fun t => fsum m (fun i => f i t)) t0).
    { induction m as [|m IH]; intros f Hf; cbn [fsum].
      - apply (continuous_const 0).
      - apply (continuous_plus (fun t => fsum m (fun i => f i t)) (f m)); [apply IH; intros; apply Hf; lia|apply Hf; lia]. }
    apply (G n (fun i t => fsum n (fun j => Rabs (Lt t i j - Lt t0 i j)))). intros i Hi.
    apply (G n (fun j t => Rabs (Lt t i j - Lt t0 i j))). intros j Hj.
    apply (continuous_comp (fun t => Lt t i j - Lt t0 i j) Rabs).
    - apply (continuous_minus (fun t => Lt t i j) (fun _ => Lt t0 i j)); [apply Hc; assumption|apply continuous_const].
    - apply continuous_Rabs. }
  assert (Z : anorm n (fun i j => Lt t0 i j - Lt t0 i j) = 0).
  { unfold anorm. apply fsum_zero. intros; apply fsum_zero; intros. rewrite Rminus_diag_eq by reflexivity. apply Rabs_R0. }
  assert (Hb : locally (anorm n (fun i j => Lt t0 i j - Lt t0 i j)) (fun y => y < eps)).
  { rewrite Z. exists eps. intros y Hy. apply Rabs_def2 in Hy. unfold minus, plus, opp in Hy; simpl in Hy. lra. }
  exact (C _ Hb).
Qed.

Lemma inverse_continuous n (Lt Lit : R -> mat) t0 :
  locally t0 (fun t => inverse_pair n (Lt t) (Lit t)) ->
  (forall i j, (i < n)%nat -> (j < n)%nat -> continuous (fun t => Lt t i j) t0) ->
  forall i j, (i < n)%nat -> (j < n)%nat -> continuous (fun t => Lit t i j) t0.
Proof.
  intros HI Hc i j Hi Hj.
  pose proof (locally_singleton _ _ HI) as HI0.
  set (M0 := anorm n (Lit t0)).
  assert (HM0 : 0 <= M0) by apply anorm_nonneg.
  apply filterlim_locally. intros eps.
  set (e1 := Rmin (/ (2 * (M0 + 1))) (eps / (2 * (M0 + 1) * (M0 + 1)))).
  assert (He1 : 0 < e1).
  { unfold e1. apply Rmin_pos; [apply Rinv_0_lt_compat; lra|].
    apply Rdiv_lt_0_compat; [apply cond_pos|]. apply Rmult_lt_0_compat; lra. }
  pose proof (continuous_fsum_abs n Lt t0 Hc (mkposreal e1 He1)) as HD. cbn [pos] in HD.
  generalize (filter_and _ _ HI HD). apply filter_imp. intros t [HIt HDt].
  set (D := anorm n (fun a b => Lt t a b - Lt t0 a b)) in *.
  assert (HD0 : 0 <= D) by apply anorm_nonneg.
  set (M := anorm n (Lit t)).
  assert (HM : 0 <= M) by apply anorm_nonneg.
  assert (Res := resolvent n (Lt t) (Lit t) (Lt t0) (Lit t0) HIt HI0).
  assert (B : anorm n (mmul n (mmul n (Lit t) (fun a b => Lt t a b - Lt t0 a b)) (Lit t0)) <= M * D * M0).
  { eapply Rle_trans; [apply anorm_mul|]. apply Rmult_le_compat_r; [exact HM0|]. apply anorm_mul. }
  assert (HMb : M <= M0 + M * D * M0).
  { unfold M at 1. eapply Rle_trans.
    - apply (anorm_triang n (Lit t) (Lit t0) (fun a b => - mmul n (mmul n (Lit t) (fun a b => Lt t a b - Lt t0 a b)) (Lit t0) a b)).
      intros a b Ha Hb. rewrite (Res a b Ha Hb) at 1. ring.
    - rewrite anorm_opp. fold M0. lra. }
  assert (HDM : D * (M0 + 1) <= / 2).
  { assert (D < / (2 * (M0 + 1))) by (eapply Rlt_le_trans; [exact HDt|apply Rmin_l]).
    apply Rle_trans with (/ (2 * (M0 + 1)) * (M0 + 1)); [apply Rmult_le_compat_r; lra|].
    right. field. lra. }
  assert (HDe : 2 * (M0 + 1) * D * (M0 + 1) < eps).
  { assert (D < eps / (2 * (M0 + 1) * (M0 + 1))) by (eapply Rlt_le_trans; [exact HDt|apply Rmin_r]).
    replace (2 * (M0 + 1) * D * (M0 + 1)) with (D * (2 * (M0 + 1) * (M0 + 1))) by ring.
    replace (pos eps) with (eps / (2 * (M0 + 1) * (M0 + 1)) * (2 * (M0 + 1) * (M0 + 1))) by (field; lra).
    apply Rmult_lt_compat_r; [|exact H]. apply Rmult_lt_0_compat; lra. }
  assert (HDM0 : D * M0 <= / 2) by nra.
  assert (HM2 : M <= 2 * M0) by nra.
  change (Rabs (Lit t i j - Lit t0 i j) < eps).
  replace (Lit t i j - Lit t0 i j) with
    (- mmul n (mmul n (Lit t) (fun a b => Lt t a b - Lt t0 a b)) (Lit t0) i j)
    by (rewrite (Res i j Hi Hj) at 1; ring).
  rewrite Rabs_Ropp.
  eapply Rle_lt_trans; [apply (anorm_entry n (mmul n (mmul n (Lit t) (fun a b => Lt t a b - Lt t0 a b)) (Lit t0)) i j Hi Hj)|].
  eapply Rle_lt_trans; [exact B|]. eapply Rle_lt_trans; [|exact HDe].
  assert (M * D <= 2 * (M0 + 1) * D) by (apply Rmult_le_compat_r; lra).
  apply Rmult_le_compat; try lra. apply Rmult_le_pos; assumption.
Qed.

(** product of a continuous function and a differentiable one vanishing at t0 *)
Lemma derive_cont_mult f g t0 dg :
  continuous f t0 -> is_derive g t0 dg -> g t0 = 0 -> is_derive (fun t => f t * g t) t0 (f t0 * dg).
Proof.
  intros Hf Hg H0.
  apply is_derive_Reals. apply is_derive_Reals in Hg.
  unfold derivable_pt_lim in *. intros eps Heps.
  set (C := Rabs dg + 1).
  assert (HC : 0 < C) by (unfold C; pose proof (Rabs_pos dg); lra).
  set (e1 := Rmin 1 (eps / (2 * (Rabs (f t0) + 1)))).
  assert (He1 : 0 < e1).
  { apply Rmin_pos; [lra|]. apply Rdiv_lt_0_compat; [exact Heps|]. pose proof (Rabs_pos (f t0)). lra. }
  destruct (Hg e1 He1) as [d1 Hd1].
  assert (He2 : 0 < eps / (2 * C)) by (apply Rdiv_lt_0_compat; lra).
  destruct (proj1 (filterlim_locally f (f t0)) Hf (mkposreal _ He2)) as [d2 Hd2].
  assert (Hd : 0 < Rmin d1 d2) by (apply Rmin_pos; [apply cond_pos|apply cond_pos]).
  exists (mkposreal _ Hd). intros h Hh Hhd. cbn in Hhd.
  assert (H1 := Hd1 h Hh (Rlt_le_trans _ _ _ Hhd (Rmin_l _ _))). rewrite H0 in H1.
  assert (H2 : Rabs (f (t0 + h) - f t0) < eps / (2 * C)).
  { apply Hd2. change (Rabs (t0 + h - t0) < d2). replace (t0 + h - t0) with h by ring.
    eapply Rlt_le_trans; [exact Hhd|apply Rmin_r]. }
  rewrite H0. rewrite Rmult_0_r.
  set (q := (g (t0 + h) - 0) / h) in *.
  replace ((f (t0 + h) * g (t0 + h) - 0) / h - f t0 * dg) with
    ((f (t0 + h) - f t0) * q + f t0 * (q - dg)) by (unfold q; field; exact Hh).
  eapply Rle_lt_trans; [apply Rabs_triang|]. rewrite !Rabs_mult.
  assert (Hq : Rabs q < C).
  { assert (e1 <= 1) by apply Rmin_l.
    replace q with (dg + (q - dg)) by ring. eapply Rle_lt_trans; [apply Rabs_triang|]. unfold C. lra. }
  assert (He1' : e1 <= eps / (2 * (Rabs (f t0) + 1))) by apply Rmin_r.
  pose proof (Rabs_pos (f t0)) as F0.
  assert (P1 : Rabs (f (t0 + h) - f t0) * Rabs q < eps / 2).
  { apply Rle_lt_trans with (Rabs (f (t0 + h) - f t0) * C).
    - apply Rmult_le_compat_l; [apply Rabs_pos|lra].
    - replace (eps / 2) with (eps / (2 * C) * C) by (field; lra). apply Rmult_lt_compat_r; assumption. }
  assert (P2 : Rabs (f t0) * Rabs (q - dg) <= eps / 2).
  { apply Rle_trans with ((Rabs (f t0) + 1) * (eps / (2 * (Rabs (f t0) + 1)))).
    - apply Rmult_le_compat; [exact F0|apply Rabs_pos|lra|lra].
    - right. field. lra. }
  lra.
Qed.

Lemma inverse_derivative n (Lt Lit : R -> mat) (dL : mat) t0 :
  locally t0 (fun t => inverse_pair n (Lt t) (Lit t)) ->
  (forall i j, (i < n)%nat -> (j < n)%nat -> is_derive (fun t => Lt t i j) t0 (dL i j)) ->
  forall i j, (i < n)%nat -> (j < n)%nat ->
  is_derive (fun t => Lit t i j) t0 (dinvL0_dtheta n (Lit t0) dL i j).
Proof.
  intros HI Hd i j Hi Hj.
  assert (Hc : forall a b, (a < n)%nat -> (b < n)%nat -> continuous (fun t => Lt t a b) t0).
  { intros a b Ha Hb. apply (ex_derive_continuous (fun t => Lt t a b)). eexists. apply Hd; assumption. }
  pose proof (locally_singleton _ _ HI) as HI0.
  apply (is_derive_ext_loc (fun t => Lit t0 i j -
     fsum n (fun b => fsum n (fun a => Lit t i a * (Lt t a b - Lt t0 a b)) * Lit t0 b j))).
  - revert HI. apply filter_imp. intros t HIt.
    rewrite (resolvent n (Lt t) (Lit t) (Lt t0) (Lit t0) HIt HI0 i j Hi Hj). reflexivity.
  - rewrite dinv_entry.
    replace (- fsum n (fun b => fsum n (fun a => Lit t0 i a * dL a b) * Lit t0 b j)) with
      (0 - fsum n (fun b => fsum n (fun a => Lit t0 i a * dL a b) * Lit t0 b j)) by ring.
    apply (is_derive_minus (fun _ => Lit t0 i j)
      (fun t => fsum n (fun b => fsum n (fun a => Lit t i a * (Lt t a b - Lt t0 a b)) * Lit t0 b j))).
    + apply (is_derive_const (Lit t0 i j) t0).
    + apply (is_derive_fsum n (fun b t => fsum n (fun a => Lit t i a * (Lt t a b - Lt t0 a b)) * Lit t0 b j)
               (fun b => fsum n (fun a => Lit t0 i a * dL a b) * Lit t0 b j)).
      intros b Hb.
      apply (is_derive_ext (fun t => Lit t0 b j * fsum n (fun a => Lit t i a * (Lt t a b - Lt t0 a b))));
        [intros; apply Rmult_comm|].
      rewrite (Rmult_comm (fsum n _)).
      apply (is_derive_scal (fun t => fsum n (fun a => Lit t i a * (Lt t a b - Lt t0 a b))) t0 (Lit t0 b j)).
      apply (is_derive_fsum n (fun a t => Lit t i a * (Lt t a b - Lt t0 a b)) (fun a => Lit t0 i a * dL a b)).
      intros a Ha.
      apply (derive_cont_mult (fun t => Lit t i a) (fun t => Lt t a b - Lt t0 a b)).
      * apply (inverse_continuous n Lt Lit t0); assumption.
      * replace (dL a b) with (dL a b - 0) by ring.
        apply (is_derive_minus (fun t => Lt t a b) (fun _ => Lt t0 a b)); [apply Hd; assumption|].
        apply (is_derive_const (Lt t0 a b) t0).
      * change (Lt t0 a b - Lt t0 a b = 0); ring.
Qed.

(** *** uniqueness of the factor *)
Lemma cholesky_unique n (L M : mat) :
  (forall i j, (i < j)%nat -> L i j = 0 /\ M i j = 0) ->
  (forall i, (i < n)%nat -> 0 < L i i /\ 0 < M i i) ->
  (forall i j, (i < n)%nat -> (j < n)%nat -> fsum n (fun m => L i m * L j m) = fsum n (fun m => M i m * M j m)) ->
  forall i j, (i < n)%nat -> (j < n)%nat -> L i j = M i j.
Proof.
  intros HT HP HE.
  assert (Hcol : forall j, (j < n)%nat -> forall i, (i < n)%nat -> L i j = M i j).
  { induction j as [j IH] using (well_founded_induction lt_wf). intros Hj.
    assert (Hs : forall i, (i < n)%nat -> L i j * L j j = M i j * M j j).
    { intros i Hi. pose proof (HE i j Hi Hj) as E.
      rewrite (fsum_tril n (fun m => L i m * L j m) j Hj) in E.
      2:{ intros m Hm. destruct (HT j m ltac:(lia)) as [E1 _]. rewrite E1. ring. }
      rewrite (fsum_tril n (fun m => M i m * M j m) j Hj) in E.
      2:{ intros m Hm. destruct (HT j m ltac:(lia)) as [_ E1]. rewrite E1. ring. }
      simpl in E.
      assert (E2 : fsum j (fun m => L i m * L j m) = fsum j (fun m => M i m * M j m)).
      { apply fsum_ext. intros m Hm. rewrite (IH m Hm ltac:(lia) i Hi), (IH m Hm ltac:(lia) j Hj). reflexivity. }
      lra. }
    assert (Hjj : L j j = M j j).
    { pose proof (Hs j Hj) as E. destruct (HP j Hj) as [P1 P2]. nra. }
    intros i Hi. pose proof (Hs i Hi) as E. rewrite Hjj in E. destruct (HP j Hj) as [_ P2].
    apply Rmult_eq_reg_r with (M j j); [exact E|lra]. }
  intros i j Hi Hj. apply Hcol; assumption.
Qed.
