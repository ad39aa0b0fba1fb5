From Verif Require Import Base GramSchmidt.

Definition orthocols (n k : nat) (Q : mat) : Prop :=
  forall i j, (i < k)%nat -> (j < k)%nat -> dot n (mcol Q i) (mcol Q j) = delta i j.

Lemma dot_sym n u v : dot n u v = dot n v u.
Proof. unfold dot. apply fsum_ext. intros. ring. Qed.

Lemma dot_ext n u u' v v' : veq n u u' -> veq n v v' -> dot n u v = dot n u' v'.
Proof. intros H H'. unfold dot. apply fsum_ext. intros i Hi. rewrite H, H' by exact Hi. reflexivity. Qed.

Lemma dot_axpy n u v c w : dot n (fun a => u a - c * v a) w = dot n u w - c * dot n v w.
Proof. unfold dot. rewrite <- fsum_scal, <- fsum_minus. apply fsum_ext. intros. ring. Qed.

Lemma isclose0_false r : isclose0 r = false <-> 1 / 100000000 < Rabs r.
Proof.
  unfold isclose0. rewrite Rleb_false. rewrite Rabs_R0, Rmult_0_r, Rplus_0_r, Rminus_0_r. reflexivity.
Qed.

Lemma isclose0_true r : isclose0 r = true <-> Rabs r <= 1 / 100000000.
Proof.
  unfold isclose0. rewrite Rleb_spec. rewrite Rabs_R0, Rmult_0_r, Rplus_0_r, Rminus_0_r. reflexivity.
Qed.

(** residual after m of the j subtractions *)
Definition gs_part (n : nat) (A Q : mat) (j m : nat) : vec := fold_left (gs_sub n Q) (seq 0 m) (mcol A j).

Lemma gs_part_S n A Q j m : gs_part n A Q j (S m) = gs_sub n Q (gs_part n A Q j m) m.
Proof. unfold gs_part. rewrite seq_S, fold_left_app. reflexivity. Qed.

Lemma gs_part_orth n A Q j k m : orthocols n k Q -> (m <= k)%nat ->
  forall i, (i < m)%nat -> dot n (gs_part n A Q j m) (mcol Q i) = 0.
Proof.
  intros HQ. induction m as [|m IH]; intros Hm i Hi; [lia|].
  rewrite gs_part_S. unfold gs_sub. cbv zeta.
  change (fun a => gs_part n A Q j m a - dot n (gs_part n A Q j m) (mcol Q m) * Q a m)
    with (fun a => gs_part n A Q j m a - dot n (gs_part n A Q j m) (mcol Q m) * mcol Q m a).
  rewrite dot_axpy. rewrite (HQ m i) by lia. unfold delta.
  destruct (Nat.eqb_spec m i) as [->|Hne]; [ring|].
  rewrite IH by lia. ring.
Qed.

Lemma gs_part_comb n A Q j m :
  exists c : vec, forall a, gs_part n A Q j m a = A a j - fsum m (fun i => c i * Q a i).
Proof.
  induction m as [|m [c IH]].
  - exists (fun _ => 0). intros a. unfold gs_part, mcol. simpl. ring.
  - rewrite gs_part_S. unfold gs_sub. cbv zeta. set (r := dot n _ _).
    exists (fun i => if Nat.eqb i m then r else c i). intros a. rewrite IH. simpl.
    rewrite Nat.eqb_refl.
    rewrite (fsum_ext m (fun i => (if Nat.eqb i m then r else c i) * Q a i) (fun i => c i * Q a i)).
    + ring.
    + intros i Hi. destruct (Nat.eqb_spec i m); [lia|reflexivity].
Qed.

Definition gs_state (n : nat) (A : mat) (k : nat) : result mat :=
  fold_left (gs_step n A) (seq 0 k) (Ok (fun _ _ => 0)).

Lemma gs_state_S n A k : gs_state n A (S k) = gs_step n A (gs_state n A k) k.
Proof. unfold gs_state. rewrite seq_S, fold_left_app. reflexivity. Qed.

Lemma gs_state_S_ok n A k Q' : gs_state n A (S k) = Ok Q' ->
  exists Q, gs_state n A k = Ok Q /\ 1 / 100000000 < norm n (gs_resid n A Q k) /\
    Q' = (fun a b => if Nat.eqb b k then gs_resid n A Q k a / norm n (gs_resid n A Q k) else Q a b).
Proof.
  rewrite gs_state_S. unfold gs_step. destruct (gs_state n A k) as [Q|e]; [|intros H; discriminate].
  cbn [rbind]. destruct (isclose0 _) eqn:E; intros H; [discriminate|]. exists Q. split; [reflexivity|].
  apply isclose0_false in E. rewrite Rabs_right in E by (apply Rle_ge, norm_nonneg).
  split; [exact E|]. inversion H. reflexivity.
Qed.

Lemma norm_scaled n q r : r <> 0 -> norm n q = r -> dot n (fun a => q a / r) (fun a => q a / r) = 1.
Proof.
  intros Hr Hn. unfold dot.
  rewrite (fsum_ext n _ (fun i => / (r * r) * (q i * q i))) by (intros; field; exact Hr).
  rewrite fsum_scal. change (fsum n (fun i => q i * q i)) with (dot n q q).
  rewrite <- norm_sqr, Hn. field. exact Hr.
Qed.

Lemma gs_state_ortho n A k : forall Q, gs_state n A k = Ok Q -> orthocols n k Q.
Proof.
  induction k as [|k IH]; intros Q' HQ'; [intros i j Hi; lia|].
  destruct (gs_state_S_ok n A k Q' HQ') as (Q & HQ & Hn & ->). specialize (IH Q HQ).
  set (q := gs_resid n A Q k) in *. set (r := norm n q) in *.
  assert (Hr : r <> 0) by lra.
  set (Q' := fun a b => if Nat.eqb b k then q a / r else Q a b).
  assert (Ck : forall a, mcol Q' k a = q a / r) by (intros a; unfold mcol, Q'; rewrite Nat.eqb_refl; reflexivity).
  assert (Ci : forall i, (i < k)%nat -> forall a, mcol Q' i a = mcol Q i a).
  { intros i Hi a. unfold mcol, Q'. destruct (Nat.eqb_spec i k); [lia|reflexivity]. }
  assert (Ko : forall i, (i < k)%nat -> dot n (mcol Q' k) (mcol Q' i) = 0).
  { intros i Hi. rewrite (dot_ext n _ (fun a => q a / r) _ (mcol Q i)); [|intros a _; apply Ck|intros a _; apply Ci; exact Hi].
    assert (E := gs_part_orth n A Q k k k IH (Nat.le_refl k) i Hi). change (gs_part n A Q k k) with q in E.
    unfold dot in *. rewrite (fsum_ext n _ (fun a => / r * (q a * mcol Q i a))) by (intros; unfold Rdiv; ring).
    rewrite fsum_scal, E. ring. }
  intros i j Hi Hj.
  destruct (Nat.eq_dec i k) as [->|Ni]; destruct (Nat.eq_dec j k) as [->|Nj].
  - unfold delta. rewrite Nat.eqb_refl.
    rewrite (dot_ext n _ (fun a => q a / r) _ (fun a => q a / r)) by (intros a _; apply Ck).
    apply norm_scaled; [exact Hr|reflexivity].
  - rewrite Ko by lia. unfold delta. destruct (Nat.eqb_spec k j); [lia|reflexivity].
  - rewrite dot_sym, Ko by lia. unfold delta. destruct (Nat.eqb_spec i k); [lia|reflexivity].
  - rewrite (dot_ext n _ (mcol Q i) _ (mcol Q j)) by (intros a _; apply Ci; lia). apply IH; lia.
Qed.

(** QR: every processed column of A is a combination of the Q columns so far,
    with a positive coefficient on its own column *)
Lemma gs_state_qr n A k : forall Q, gs_state n A k = Ok Q ->
  forall j, (j < k)%nat -> exists (c : vec) (r : R), 0 < r /\
    forall a, A a j = r * Q a j + fsum j (fun i => c i * Q a i).
Proof.
  induction k as [|k IH]; intros Q' HQ' j Hj; [lia|].
  destruct (gs_state_S_ok n A k Q' HQ') as (Q & HQ & Hn & ->). specialize (IH Q HQ).
  set (q := gs_resid n A Q k) in *. set (r := norm n q) in *.
  destruct (Nat.eq_dec j k) as [->|Nj].
  - destruct (gs_part_comb n A Q k k) as [c Hc]. exists c, r. split; [lra|].
    intros a. rewrite Nat.eqb_refl.
    rewrite (fsum_ext k _ (fun i => c i * Q a i)).
    2:{ intros i Hi. destruct (Nat.eqb_spec i k); [lia|reflexivity]. }
    specialize (Hc a). change (gs_part n A Q k k) with q in Hc. 
    replace (r * (q a / r)) with (q a) by (field; lra). lra.
  - destruct (IH j ltac:(lia)) as (c & r' & Hr' & E). exists c, r'. split; [exact Hr'|].
    intros a. destruct (Nat.eqb_spec j k); [lia|]. rewrite E. f_equal.
    apply fsum_ext. intros i Hi. destruct (Nat.eqb_spec i k); [lia|reflexivity].
Qed.

(** a square matrix with orthonormal columns has orthonormal rows *)
Lemma fsum_sq_zero n m (P : mat) : fsum n (fun i => fsum m (fun j => P i j * P i j)) = 0 ->
  forall i j, (i < n)%nat -> (j < m)%nat -> P i j = 0.
Proof.
  intros H i j Hi Hj.
  assert (H1 := fsum_pos_eq0 n (fun i => fsum m (fun j => P i j * P i j))).
  assert (H2 : fsum m (fun j => P i j * P i j) = 0).
  { apply H1; [|exact H|exact Hi]. intros k _. apply fsum_nonneg. intros l _. pose proof (Rle_0_sqr (P k l)). exact H0. }
  assert (H3 := fsum_pos_eq0 m (fun j => P i j * P i j)).
  assert (H4 : P i j * P i j = 0).
  { apply (H3 (fun l _ => Rle_0_sqr (P i l)) H2 j Hj). }
  apply Rsqr_0_uniq. exact H4.
Qed.

Lemma ortho_square n Q : orthocols n n Q ->
  forall i j, (i < n)%nat -> (j < n)%nat -> fsum n (fun k => Q i k * Q j k) = delta i j.
Proof.
  intros HQ.
  set (G := fun i j => fsum n (fun k => Q i k * Q j k)).
  set (P := fun i j => delta i j - G i j).
  (* G G = G *)
  assert (GG : forall i j, (i < n)%nat -> (j < n)%nat -> fsum n (fun k => G i k * G k j) = G i j).
  { intros i j Hi Hj. unfold G.
    transitivity (fsum n (fun a => fsum n (fun b => Q i a * Q j b * fsum n (fun k => Q k a * Q k b)))).
    - rewrite (fsum_ext n _ (fun k => fsum n (fun a => fsum n (fun b => Q i a * Q j b * (Q k a * Q k b))))).
      + rewrite fsum_swap. apply fsum_ext. intros a _. rewrite fsum_swap. apply fsum_ext. intros b _.
        rewrite fsum_scal. reflexivity.
      + intros k _. rewrite <- fsum_scal_r. apply fsum_ext. intros a _. rewrite <- fsum_scal.
        apply fsum_ext. intros b _. ring.
    - apply fsum_ext. intros a Ha.
      rewrite (fsum_ext n _ (fun b => delta a b * (Q i a * Q j b))).
      + rewrite fsum_delta by exact Ha. reflexivity.
      + intros b Hb. assert (E := HQ a b Ha Hb). unfold dot, mcol in E. rewrite E. ring. }
  assert (Gs : forall i j, G i j = G j i) by (intros; unfold G; apply fsum_ext; intros; ring).
  (* sum of squares of P = trace P *)
  assert (PP : fsum n (fun i => fsum n (fun j => P i j * P i j)) = fsum n (fun i => P i i)).
  { apply fsum_ext. intros i Hi.
    rewrite (fsum_ext n _ (fun j => delta i j * delta i j - 2 * (delta i j * G i j) + G i j * G j i)).
    2:{ intros j _. unfold P. rewrite (Gs j i). ring. }
    rewrite fsum_plus, fsum_minus, fsum_scal, GG by exact Hi.
    rewrite !fsum_delta by exact Hi. unfold P, delta. rewrite Nat.eqb_refl. ring. }
  assert (TR : fsum n (fun i => P i i) = 0).
  { unfold P. rewrite fsum_minus. unfold G. rewrite fsum_swap.
    rewrite (fsum_ext n (fun j => fsum n _) (fun _ => 1)).
    - rewrite (fsum_ext n (fun i => delta i i) (fun _ => 1)); [ring|]. intros; unfold delta; rewrite Nat.eqb_refl; reflexivity.
    - intros k Hk. assert (E := HQ k k Hk Hk). unfold dot, mcol, delta in E. rewrite Nat.eqb_refl in E. exact E. }
  intros i j Hi Hj. rewrite TR in PP. assert (E := fsum_sq_zero n n P PP i j Hi Hj). unfold P, G in E. lra.
Qed.

(** *** the matrix assembled by orthonormal_matrix *)
Definition arot (n : nat) (alpha : vec) : mat :=
  rot270 n (fun i j => if Nat.eqb i (n - 1) then alpha j else meye i j).

Lemma om_unfold n alpha : n <> 1%nat -> orthonormal_matrix n alpha =
  rbind (gs_state n (arot n alpha) n) (fun Q => Ok (rot90 n Q)).
Proof. intros H. unfold orthonormal_matrix. destruct (Nat.eqb_spec n 1); [contradiction|reflexivity]. Qed.

Lemma arot_col0 n alpha a : (1 <= n)%nat -> arot n alpha a 0%nat = alpha a.
Proof. intros H. unfold arot, rot270. rewrite Nat.sub_0_r, Nat.eqb_refl. reflexivity. Qed.

Lemma arot_colS n alpha a j : (1 <= j < n)%nat -> arot n alpha a j = delta (n - 1 - j) a.
Proof. intros H. unfold arot, rot270. destruct (Nat.eqb_spec (n - 1 - j) (n - 1)); [lia|reflexivity]. Qed.

Lemma gs_col0 n A k Q : norm n (mcol A 0) = 1 -> (1 <= k)%nat -> gs_state n A k = Ok Q ->
  forall a, Q a 0%nat = A a 0%nat.
Proof.
  intros Hn. revert Q. induction k as [|k IH]; intros Q' Hk HQ' a; [lia|].
  destruct (gs_state_S_ok n A k Q' HQ') as (Q & HQ & Hr & ->).
  destruct k as [|k].
  - cbn [Nat.eqb]. unfold gs_resid in *. cbn [seq fold_left] in *. rewrite Hn. unfold mcol. field.
  - cbn [Nat.eqb]. apply (IH Q); [lia|exact HQ].
Qed.

Lemma fsum_rev n f : fsum n (fun k => f (n - 1 - k)%nat) = fsum n f.
Proof.
  induction n as [|n IH]; [reflexivity|].
  rewrite fsum_shift. rewrite fsum_S. rewrite <- IH.
  rewrite (fsum_ext n _ (fun k => f (n - 1 - k)%nat)).
  - replace (S n - 1 - 0)%nat with n by lia. ring.
  - intros k Hk. f_equal. lia.
Qed.

Lemma om_ok n alpha R1 : norm n alpha = 1 -> orthonormal_matrix n alpha = Ok R1 ->
  (2 <= n)%nat /\
  (forall i j, (i < n)%nat -> (j < n)%nat -> dot n (R1 i) (R1 j) = delta i j) /\
  (forall i j, (i < n)%nat -> (j < n)%nat -> dot n (mcol R1 i) (mcol R1 j) = delta i j) /\
  (forall a, (a < n)%nat -> R1 (n - 1)%nat a = alpha a) /\
  (forall beta i, (i < n)%nat -> mvec n R1 (fun a => beta * alpha a) i = if Nat.eqb i (n - 1) then beta else 0).
Proof.
  intros Hal HR.
  assert (Hn1 : n <> 1%nat). { intros ->. discriminate HR. }
  assert (Hn0 : n <> 0%nat).
  { intros ->. unfold norm, dot in Hal. simpl in Hal. rewrite sqrt_0 in Hal. lra. }
  rewrite om_unfold in HR by exact Hn1.
  destruct (gs_state n (arot n alpha) n) as [Q|e] eqn:HQ; [|discriminate]. cbn [rbind] in HR. inversion HR; subst R1; clear HR.
  assert (HO := gs_state_ortho n _ n Q HQ).
  assert (Hrow : forall i j, (i < n)%nat -> (j < n)%nat -> dot n (rot90 n Q i) (rot90 n Q j) = delta i j).
  { intros i j Hi Hj. unfold rot90. 
    change (dot n (mcol Q (n - 1 - i)) (mcol Q (n - 1 - j)) = delta i j). rewrite HO by lia.
    unfold delta. destruct (Nat.eqb_spec (n - 1 - i) (n - 1 - j)); destruct (Nat.eqb_spec i j); try reflexivity; lia. }
  assert (Hlast : forall a, (a < n)%nat -> rot90 n Q (n - 1)%nat a = alpha a).
  { intros a Ha. unfold rot90. rewrite Nat.sub_diag.
    rewrite (gs_col0 n (arot n alpha) n Q); [apply arot_col0; lia| |lia|exact HQ].
    rewrite <- Hal. unfold norm. f_equal. apply dot_ext; intros b _; apply arot_col0; lia. }
  split; [lia|]. split; [exact Hrow|]. split; [|split; [exact Hlast|]].
  - intros i j Hi Hj.
    assert (E := ortho_square n Q HO i j Hi Hj).
    unfold dot, mcol, rot90. rewrite <- E.
    (* reverse the summation order *)
    apply (fsum_rev n (fun k => Q i k * Q j k)).
  - intros beta i Hi. unfold mvec.
    rewrite (fsum_ext n _ (fun a => beta * (rot90 n Q i a * rot90 n Q (n - 1)%nat a))).
    2:{ intros a Ha. rewrite Hlast by exact Ha. ring. }
    rewrite fsum_scal. change (fsum n (fun a => rot90 n Q i a * rot90 n Q (n - 1)%nat a)) with (dot n (rot90 n Q i) (rot90 n Q (n - 1)%nat)).
    rewrite Hrow by lia. unfold delta. destruct (Nat.eqb i (n - 1)); ring.
Qed.

(** *** when does it raise *)
Definition W (n : nat) (al : vec) (j : nat) (v : vec) : Prop :=
  exists t, forall a, (a < n)%nat -> (a < n - 1 - j \/ a = n - 1)%nat -> v a = t * al a.

Lemma W_mono n al j j' v : (j <= j')%nat -> W n al j v -> W n al j' v.
Proof. intros H [t Ht]. exists t. intros a Ha C. apply Ht; [exact Ha|lia]. Qed.

Lemma W_axpy n al j u v c : W n al j u -> W n al j v -> W n al j (fun a => u a - c * v a).
Proof. intros [t Ht] [s Hs]. exists (t - c * s). intros a Ha C. rewrite Ht, Hs by assumption. ring. Qed.

Lemma W_scal n al j u c : W n al j u -> W n al j (fun a => u a / c).
Proof. intros [t Ht]. exists (t / c). intros a Ha C. rewrite Ht by assumption. unfold Rdiv. ring. Qed.

Lemma W_col n al j : (j < n)%nat -> W n al j (mcol (arot n al) j).
Proof.
  intros Hj. destruct j as [|j].
  - exists 1. intros a Ha _. unfold mcol. rewrite arot_col0 by lia. ring.
  - exists 0. intros a Ha C. unfold mcol. rewrite arot_colS by lia. unfold delta.
    destruct (Nat.eqb_spec (n - 1 - S j) a); [lia|]. ring.
Qed.

Lemma W_part n al Q j m : (forall i, (i < m)%nat -> W n al i (mcol Q i)) -> (m <= j)%nat -> (j < n)%nat ->
  W n al j (gs_part n (arot n al) Q j m).
Proof.
  intros HQ. induction m as [|m IH]; intros Hm Hj; [apply W_col; exact Hj|].
  rewrite gs_part_S. unfold gs_sub. cbv zeta.
  apply (W_axpy n al j (gs_part n (arot n al) Q j m) (mcol Q m)).
  - apply IH; [intros i Hi; apply HQ; lia|lia|exact Hj].
  - apply W_mono with m; [lia|]. apply HQ. lia.
Qed.

Lemma gs_state_W n al k : (k <= n)%nat -> forall Q, gs_state n (arot n al) k = Ok Q ->
  forall i, (i < k)%nat -> W n al i (mcol Q i).
Proof.
  induction k as [|k IH]; intros Hk Q' HQ' i Hi; [lia|].
  destruct (gs_state_S_ok n _ k Q' HQ') as (Q & HQ & Hn & ->). specialize (IH ltac:(lia) Q HQ).
  unfold mcol. destruct (Nat.eqb_spec i k) as [->|Ne].
  - apply (W_scal n al k (gs_resid n (arot n al) Q k)). apply (W_part n al Q k k IH); lia.
  - apply IH. lia.
Qed.

Lemma om_raises n alpha : norm n alpha = 1 -> alpha (n - 1)%nat = 0 -> orthonormal_matrix n alpha = Err EValue.
Proof.
  intros Hal H0.
  destruct n as [|[|n]].
  - unfold norm, dot in Hal. simpl in Hal. rewrite sqrt_0 in Hal. lra.
  - unfold norm, dot in Hal. simpl in *. rewrite H0 in Hal. replace (0 + 0 * 0) with 0 in Hal by ring. rewrite sqrt_0 in Hal. lra.
  - set (N := S (S n)) in *.
    rewrite om_unfold by (unfold N; lia).
    destruct (gs_state N (arot N alpha) N) as [Q|e] eqn:HQ.
    + exfalso. assert (HO := gs_state_ortho N _ N Q HQ).
      assert (E := ortho_square N Q HO (N - 1)%nat (N - 1)%nat ltac:(unfold N; lia) ltac:(unfold N; lia)).
      rewrite (fsum_ext N _ (fun _ => 0)) in E.
      * rewrite fsum_zero in E by reflexivity. unfold delta in E. rewrite Nat.eqb_refl in E. lra.
      * intros k Hk. destruct (gs_state_W N alpha N (Nat.le_refl N) Q HQ k Hk) as [t Ht].
        assert (Z : Q (N - 1)%nat k = 0).
        { change (mcol Q k (N - 1)%nat = 0). rewrite Ht by (unfold N; lia). rewrite H0. ring. }
        rewrite Z. ring.
    + cbn [rbind]. f_equal. clear -HQ. revert e HQ.
      assert (G : forall k e, gs_state N (arot N alpha) k = Err e -> e = EValue).
      { induction k as [|k IH]; intros e H; [discriminate|]. rewrite gs_state_S in H. unfold gs_step in H.
        destruct (gs_state N (arot N alpha) k) as [Q|e'] eqn:E.
        - cbn [rbind] in H. destruct (isclose0 _); inversion H. reflexivity.
        - cbn [rbind] in H. inversion H; subst. apply IH. reflexivity. }
      intros e HQ. apply (G N e HQ).
Qed.

Lemma norm1_dot n v : norm n v = 1 -> dot n v v = 1.
Proof. intros H. rewrite <- norm_sqr, H. ring. Qed.

Lemma fsum_two n f i j : (i < n)%nat -> (j < n)%nat -> i <> j -> (forall k, (k < n)%nat -> 0 <= f k) ->
  f i + f j <= fsum n f.
Proof.
  induction n as [|n IH]; intros Hi Hj Hne Hp; [lia|]. simpl.
  assert (Hp' : forall k, (k < n)%nat -> 0 <= f k) by (intros; apply Hp; lia).
  assert (S1 : forall k, (k < n)%nat -> f k <= fsum n f).
  { clear -Hp'. induction n as [|n IH]; intros k Hk; [lia|]. simpl.
    assert (0 <= fsum n f) by (apply fsum_nonneg; intros; apply Hp'; lia).
    destruct (Nat.eq_dec k n) as [->|N].
    - lra.
    - assert (f k <= fsum n f) by (apply IH; [intros; apply Hp'; lia|lia]). pose proof (Hp' n ltac:(lia)). lra. }
  destruct (Nat.eq_dec i n) as [->|Ni].
  - pose proof (S1 j ltac:(lia)). lra.
  - destruct (Nat.eq_dec j n) as [->|Nj].
    + pose proof (S1 i ltac:(lia)). lra.
    + pose proof (IH ltac:(lia) ltac:(lia) Hne Hp'). pose proof (Hp n ltac:(lia)). lra.
Qed.

(** the residual of every later column is at least |alpha_n| long *)
Lemma resid_lower n al Q j : norm n al = 1 -> (1 <= j < n)%nat ->
  (forall i, (i < j)%nat -> W n al i (mcol Q i)) ->
  Rabs (al (n - 1)%nat) <= norm n (gs_resid n (arot n al) Q j).
Proof.
  intros Hal Hj HW.
  set (q := gs_resid n (arot n al) Q j).
  (* q = e_k - w with w in W (j-1) *)
  assert (Hq : exists w, W n al (j - 1) w /\ forall a, q a = delta (n - 1 - j) a - w a).
  { destruct (gs_part_comb n (arot n al) Q j j) as [c Hc].
    exists (fun a => fsum j (fun i => c i * Q a i)). split.
    - assert (G : forall m, (m <= j)%nat -> W n al (j - 1) (fun a => fsum m (fun i => c i * Q a i))).
      { induction m as [|m IH]; intros Hm.
        - exists 0. intros. simpl. ring.
        - destruct (IH ltac:(lia)) as [t Ht]. destruct (HW m ltac:(lia)) as [s Hs]. exists (t + c m * s).
          intros a Ha C. simpl. rewrite Ht by assumption.
          assert (Es := Hs a Ha ltac:(lia)). unfold mcol in Es. rewrite Es. ring. }
      apply G. lia.
    - intros a. change q with (gs_part n (arot n al) Q j j). rewrite Hc, arot_colS by lia. reflexivity. }
  destruct Hq as (w & [t Ht] & Hq).
  set (k := (n - 1 - j)%nat) in *. set (l := (n - 1)%nat) in *.
  assert (Hk : (k < n)%nat) by (unfold k; lia). assert (Hl : (l < n)%nat) by (unfold l; lia).
  assert (Hkl : k <> l) by (unfold k, l; lia).
  assert (Ek : q k = 1 - t * al k).
  { rewrite Hq, Ht by (unfold k, l in *; lia). unfold delta. rewrite Nat.eqb_refl. reflexivity. }
  assert (El : q l = - (t * al l)).
  { rewrite Hq, Ht by (unfold k, l in *; lia). unfold delta. destruct (Nat.eqb_spec k l); [contradiction|]. ring. }
  assert (B1 : al k * al k + al l * al l <= 1).
  { rewrite <- (norm1_dot n al Hal). apply (fsum_two n (fun i => al i * al i)); auto. intros i _. apply Rle_0_sqr. }
  assert (B2 : q k * q k + q l * q l <= dot n q q).
  { apply (fsum_two n (fun i => q i * q i)); auto. intros i _. apply Rle_0_sqr. }
  assert (B3 : al l * al l <= dot n q q).
  { eapply Rle_trans; [|exact B2]. rewrite Ek, El.
    set (a := al k) in *. set (b := al l) in *.
    replace (b * b) with ((b * (1 - t * a) + a * (t * b)) * (b * (1 - t * a) + a * (t * b))) by ring.
    set (X := 1 - t * a). set (Y := t * b).
    replace (- Y * - Y) with (Y * Y) by ring.
    assert ((b * X + a * Y) * (b * X + a * Y) <= (b * b + a * a) * (X * X + Y * Y)).
    { assert (E : (b * b + a * a) * (X * X + Y * Y) - (b * X + a * Y) * (b * X + a * Y) = (b * Y - a * X) * (b * Y - a * X)) by ring.
      pose proof (Rle_0_sqr (b * Y - a * X)) as P. unfold Rsqr in P. lra. }
    pose proof (Rle_0_sqr X) as PX. pose proof (Rle_0_sqr Y) as PY. unfold Rsqr in *.
    assert ((b * b + a * a) * (X * X + Y * Y) <= 1 * (X * X + Y * Y)) by (apply Rmult_le_compat_r; lra). lra. }
  rewrite <- norm_sqr in B3.
  apply Rsqr_incr_0_var; [|apply norm_nonneg]. rewrite <- Rsqr_abs. exact B3.
Qed.

Lemma om_succeeds n alpha : (2 <= n)%nat -> norm n alpha = 1 -> 1 / 100000000 < Rabs (alpha (n - 1)%nat) ->
  exists R1, orthonormal_matrix n alpha = Ok R1.
Proof.
  intros Hn Hal Hlast. rewrite om_unfold by lia.
  assert (G : forall k, (k <= n)%nat -> exists Q, gs_state n (arot n alpha) k = Ok Q).
  { induction k as [|k IH]; intros Hk; [eexists; reflexivity|].
    destruct (IH ltac:(lia)) as [Q HQ]. rewrite gs_state_S, HQ. unfold gs_step. cbn [rbind].
    assert (B : 1 / 100000000 < norm n (gs_resid n (arot n alpha) Q k)).
    { destruct k as [|k].
      - unfold gs_resid. cbn [seq fold_left].
        replace (norm n (mcol (arot n alpha) 0)) with 1; [lra|]. rewrite <- Hal. unfold norm. f_equal.
        apply dot_ext; intros b _; symmetry; apply arot_col0; lia.
      - eapply Rlt_le_trans; [exact Hlast|]. apply resid_lower; [exact Hal|lia|].
        apply (gs_state_W n alpha (S k) ltac:(lia) Q HQ). }
    destruct (isclose0 _) eqn:E.
    - apply isclose0_true in E. rewrite Rabs_right in E by (apply Rle_ge, norm_nonneg). lra.
    - eexists. reflexivity. }
  destruct (G n (Nat.le_refl n)) as [Q HQ]. rewrite HQ. eexists. reflexivity.
Qed.
