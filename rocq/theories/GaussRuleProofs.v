From Coquelicot Require Import Coquelicot.
From Verif Require Import Base Quad QuadSpec QuadProofs.
From Coq Require Import Lra Lia.
Open Scope R_scope.

Notation P := legendre.
Ltac eqR := match goal with |- ?a = ?b => change (@eq R a b) end.
(** ** Derivatives on the whole line *)
Fixpoint D (n : nat) (x : R) : R := match n with O => 0 | S k => x * D k x + INR (S k) * P k x end.
Lemma bonnet n x : (INR n + 2) * P (S (S n)) x = (2 * INR n + 3) * x * P (S n) x - (INR n + 1) * P n x.
Proof. rewrite legendre_SS. pose proof (pos_INR n). field. lra. Qed.
Lemma D_S n x : D (S n) x = x * D n x + (INR n + 1) * P n x.
Proof. cbn [D]. rewrite S_INR. reflexivity. Qed.
Lemma D_rel n x : x * D (S n) x - D n x = (INR n + 1) * P (S n) x.
Proof.
  induction n as [|n IH]; [cbn; ring|]. rewrite (D_S (S n)), !S_INR. pose proof (D_S n x) as E. pose proof (bonnet n x) as B.
  replace (INR n + 1 + 1) with (INR n + 2) by ring. rewrite B.
  assert (K : (x * x - 1) * D (S n) x = (INR n + 1) * (x * P (S n) x - P n x)).
  { transitivity (x * (x * D (S n) x - D n x) - (D (S n) x - x * D n x)); [ring|]. rewrite IH, E. ring. }
  transitivity ((x * x - 1) * D (S n) x + (INR n + 2) * x * P (S n) x); [ring|]. rewrite K. ring.
Qed.
Lemma D_eq n x : (1 - x * x) * D (S n) x = (INR n + 1) * (P n x - x * P (S n) x).
Proof.
  pose proof (D_rel n x) as A. pose proof (D_S n x) as B. transitivity (- (x * (x * D (S n) x - D n x)) + (D (S n) x - x * D n x)); [ring|]. rewrite A, B. ring.
Qed.
Lemma P_derive n x : is_derive (P n) x (D n x).
Proof.
  assert (H : is_derive (P n) x (D n x) /\ is_derive (P (S n)) x (D (S n) x)); [|exact (proj1 H)].
  induction n as [|n [I1 I2]].
  - split; [apply (is_derive_ext (fun _ => 1)); [reflexivity|]; cbn; auto_derive; auto|]. apply (is_derive_ext (fun y => y)); [reflexivity|]. cbn. auto_derive; [auto|]. ring.
  - split; [exact I2|]. apply (is_derive_ext (fun y => ((2 * INR n + 3) * y * P (S n) y - (INR n + 1) * P n y) / (INR n + 2))); [intros y; symmetry; apply legendre_SS|].
    pose proof (pos_INR n). assert (ex_derive (P n) x) by (eexists; exact I1). assert (ex_derive (P (S n)) x) by (eexists; exact I2). auto_derive; [auto|].
    rewrite (is_derive_unique (fun y : R => P n y) x _ I1), (is_derive_unique (fun y : R => P (S n) y) x _ I2). rewrite (D_S (S n)), S_INR.
    assert (E : D n x = x * D (S n) x - (INR n + 1) * P (S n) x) by (rewrite <- D_rel; ring). rewrite E. field. lra.
Qed.
Lemma P_cont n x : continuous (P n) x.
Proof. apply @ex_derive_continuous. eexists. apply P_derive. Qed.
Lemma P_at_1 n : P n 1 = 1.
Proof. assert (H : P n 1 = 1 /\ P (S n) 1 = 1); [|exact (proj1 H)]. induction n as [|n [I1 I2]]; [split; reflexivity|]. split; [exact I2|]. rewrite legendre_SS, I1, I2. pose proof (pos_INR n). field. lra. Qed.
Lemma P_at_m1 n : P n (-1) = (-1) ^ n.
Proof. replace (-1) with (- (1)) at 1 by ring. destruct (legendre_parity n 1) as [-> _]. rewrite P_at_1. ring. Qed.

(** ** Christoffel-Darboux *)
Definition K (n : nat) (x y : R) : R := fsum n (fun k => (2 * INR k + 1) * (P k x * P k y)).
Lemma CD n x y : (x - y) * K (S n) x y = (INR n + 1) * (P (S n) x * P n y - P n x * P (S n) y).
Proof.
  induction n as [|n IH]; [unfold K; cbn; ring|]. unfold K in *. rewrite fsum_S, Rmult_plus_distr_l, IH, !S_INR.
  replace (INR n + 1 + 1) with (INR n + 2) by ring. pose proof (bonnet n x) as A. pose proof (bonnet n y) as B.
  transitivity (((INR n + 2) * P (S (S n)) x) * P (S n) y - P (S n) x * ((INR n + 2) * P (S (S n)) y)); [|ring]. rewrite A, B. ring.
Qed.
Lemma CD_diag n x : K (S n) x x = (INR n + 1) * (D (S n) x * P n x - D n x * P (S n) x).
Proof.
  induction n as [|n IH]; [unfold K; cbn; ring|]. unfold K in *. rewrite fsum_S, IH, (D_S (S n)), !S_INR. pose proof (bonnet n x) as A.
  assert (E : D n x = x * D (S n) x - (INR n + 1) * P (S n) x) by (rewrite <- D_rel; ring). rewrite E. replace (INR n + 1 + 1) with (INR n + 2) by ring.
  transitivity ((INR n + 2) * (x * D (S n) x + (INR n + 2) * P (S n) x) * P (S n) x - D (S n) x * ((INR n + 2) * P (S (S n)) x)); [|ring]. rewrite A. ring.
Qed.
Lemma K_pos n x : 0 < K (S n) x x.
Proof.
  unfold K. rewrite fsum_shift. rewrite legendre_0. change (INR 0) with 0. set (F := fsum n _). assert (0 <= F); [|lra].
  apply fsum_nonneg. intros i _. apply Rmult_le_pos; [pose proof (pos_INR (S i)); lra|]. apply Rle_0_sqr.
Qed.
Lemma K_root n x : P (S n) x = 0 -> K (S n) x x = (1 - x * x) * D (S n) x ^ 2.
Proof. intros H. rewrite CD_diag, H. pose proof (D_eq n x) as A. rewrite H in A. transitivity (((INR n + 1) * (P n x - x * 0)) * D (S n) x); [ring|]. rewrite <- A. ring. Qed.

(** ** Orthogonality on [-1, 1] *)
Lemma is_RInt_eq (f : R -> R) a b (l l' : R) : l = l' -> is_RInt f a b l -> is_RInt f a b l'.
Proof. intros ->. auto. Qed.
Definition W n m x := (1 - x * x) * (D n x * P m x - D m x * P n x).
Lemma D_P n x : is_derive (fun t => (1 - t * t) * D n t) x (- (INR n * (INR n + 1)) * P n x).
Proof.
  destruct n as [|n].
  - apply (is_derive_ext (fun _ => 0)); [intros t; cbn; symmetry; apply Rmult_0_r|]. cbn. replace (- (0 * (0 + 1)) * _) with 0 by ring. apply (is_derive_const (V := R_NormedModule)).
  - apply (is_derive_ext (fun t => (INR n + 1) * (P n t - t * P (S n) t))); [intros t; symmetry; apply D_eq|].
    pose proof (P_derive n x) as A. pose proof (P_derive (S n) x) as B. assert (ex_derive (P n) x) by (eexists; exact A). assert (ex_derive (P (S n)) x) by (eexists; exact B). auto_derive; [auto|].
    rewrite (is_derive_unique (fun y : R => P n y) x _ A), (is_derive_unique (fun y : R => P (S n) y) x _ B). assert (E : D n x = x * D (S n) x - (INR n + 1) * P (S n) x) by (rewrite <- D_rel; ring). rewrite E, S_INR. ring.
Qed.
Lemma W_derive n m x : is_derive (W n m) x ((INR m * (INR m + 1) - INR n * (INR n + 1)) * (P n x * P m x)).
Proof.
  apply (is_derive_ext (fun t => ((1 - t * t) * D n t) * P m t - ((1 - t * t) * D m t) * P n t)); [intros t; unfold W; eqR; ring|].
  pose proof (D_P n x) as A. pose proof (D_P m x) as B. pose proof (P_derive n x) as C. pose proof (P_derive m x) as E.
  evar (l : R). replace ((INR m * (INR m + 1) - INR n * (INR n + 1)) * (P n x * P m x)) with l; [apply (is_derive_minus (V := R_NormedModule)); [apply (is_derive_mult _ _ x _ _ A E); intros; apply Rmult_comm|apply (is_derive_mult _ _ x _ _ B C); intros; apply Rmult_comm]|].
  unfold l, minus, plus, opp, mult; cbn. ring.
Qed.
Lemma cont_PP n m x : continuous (fun t => P n t * P m t) x.
Proof. apply (continuous_mult (P n) (P m)); apply P_cont. Qed.
Lemma ex_PP n m : ex_RInt (fun t => P n t * P m t) (-1) 1.
Proof. apply (ex_RInt_continuous (V := R_CompleteNormedModule)). intros; apply cont_PP. Qed.
Lemma orth n m : n <> m -> is_RInt (fun t => P n t * P m t) (-1) 1 0.
Proof.
  intros N. set (c := INR m * (INR m + 1) - INR n * (INR n + 1)). assert (C0 : c <> 0).
  { unfold c. replace (INR m * (INR m + 1) - INR n * (INR n + 1)) with ((INR m - INR n) * (INR m + INR n + 1)) by ring. pose proof (pos_INR n). pose proof (pos_INR m). apply Rmult_integral_contrapositive_currified; [|lra]. intros Z. apply N, INR_eq. lra. }
  apply (is_RInt_ext (fun t => / c * (c * (P n t * P m t)))); [intros; eqR; field; exact C0|].
  apply (is_RInt_eq _ _ _ (/ c * (W n m 1 - W n m (-1)))); [eqR; unfold W; ring|]. apply (is_RInt_scal (V := R_NormedModule)). apply (is_RInt_derive (V := R_CompleteNormedModule)); intros x _; [apply W_derive|].
  apply (continuous_scal_r (V := R_NormedModule) c (fun t => P n t * P m t)). apply cont_PP.
Qed.
Lemma norm2 n : is_RInt (fun t => P n t * P n t) (-1) 1 (2 / (2 * INR n + 1)).
Proof.
  induction n as [|n IH].
  - cbn [INR]. apply (is_RInt_ext (fun _ => 1)); [intros; rewrite legendre_0; eqR; ring|]. apply (is_RInt_eq _ _ _ (scal (1 - -1) 1)); [eqR; unfold scal; cbn; unfold mult; cbn; field|]. apply (is_RInt_const (V := R_NormedModule)).
  - pose proof (pos_INR n) as Hn.
    (* from the recursions of P_{n+2} (times P_n) and P_{n+1} (times P_{n+1}) *)
    assert (M : is_RInt (fun t => t * (P (S n) t * P n t)) (-1) 1 ((INR n + 1) / (2 * INR n + 3) * (2 / (2 * INR n + 1)))).
    { apply (is_RInt_ext (fun t => (INR n + 2) / (2 * INR n + 3) * (P (S (S n)) t * P n t) + (INR n + 1) / (2 * INR n + 3) * (P n t * P n t))).
      { intros t _. eqR. pose proof (bonnet n t) as B. transitivity ((((INR n + 2) * P (S (S n)) t) + (INR n + 1) * P n t) * P n t / (2 * INR n + 3)); [field; lra|]. rewrite B. field; lra. }
      apply (is_RInt_eq _ _ _ ((INR n + 2) / (2 * INR n + 3) * 0 + (INR n + 1) / (2 * INR n + 3) * (2 / (2 * INR n + 1)))); [eqR; ring|].
      apply (is_RInt_plus (V := R_NormedModule)); apply (is_RInt_scal (V := R_NormedModule)); [apply orth; lia|exact IH]. }
    destruct n as [|n].
    + apply (is_RInt_ext (fun t => t * (P 1 t * P 0 t))); [intros; rewrite legendre_0, legendre_1; eqR; ring|]. refine (is_RInt_eq _ _ _ _ _ _ M). cbn. field.
    + apply (is_RInt_ext (fun t => (2 * INR n + 3) / (INR n + 2) * (t * (P (S (S n)) t * P (S n) t)) - (INR n + 1) / (INR n + 2) * (P n t * P (S (S n)) t))).
      { intros t _. eqR. pose proof (bonnet n t) as B. pose proof (pos_INR n). transitivity (((2 * INR n + 3) * t * P (S n) t - (INR n + 1) * P n t) * P (S (S n)) t / (INR n + 2)); [field; lra|]. rewrite <- B. field. lra. }
      rewrite !S_INR in *. pose proof (pos_INR n). eapply is_RInt_eq; [|apply (is_RInt_minus (V := R_NormedModule)); apply (is_RInt_scal (V := R_NormedModule)); [exact M|apply orth; lia]]. unfold minus, plus, opp, scal; cbn. unfold mult; cbn. field. lra.
Qed.

(** ** A A^T = 1 implies A^T A = 1 *)
Lemma orth_cols N (A : nat -> nat -> R) : (forall i j, (i < N)%nat -> (j < N)%nat -> fsum N (fun k => A i k * A j k) = delta i j) ->
  forall k l, (k < N)%nat -> (l < N)%nat -> fsum N (fun i => A i k * A i l) = delta k l.
Proof.
  intros H. set (B := fun k l => fsum N (fun i => A i k * A i l)).
  (* sum of (B - 1)^2 *)
  assert (S2 : fsum N (fun k => fsum N (fun l => B k l * B k l)) = INR N).
  { transitivity (fsum N (fun i => fsum N (fun j => fsum N (fun k => A i k * A j k) * fsum N (fun l => A i l * A j l)))).
    - unfold B. transitivity (fsum N (fun k => fsum N (fun l => fsum N (fun i => fsum N (fun j => (A i k * A i l) * (A j k * A j l)))))).
      + apply fsum_ext; intros k _. apply fsum_ext; intros l _. rewrite <- fsum_scal_r. apply fsum_ext; intros i _. rewrite <- fsum_scal. reflexivity.
      + transitivity (fsum N (fun k => fsum N (fun i => fsum N (fun j => fsum N (fun l => (A i k * A i l) * (A j k * A j l)))))).
        { apply fsum_ext; intros k _. rewrite fsum_swap. apply fsum_ext; intros i _. apply fsum_swap. }
        rewrite fsum_swap. apply fsum_ext; intros i _. rewrite fsum_swap. apply fsum_ext; intros j _. rewrite <- fsum_scal_r. apply fsum_ext; intros k _. rewrite <- fsum_scal. apply fsum_ext; intros l _. ring.
    - rewrite (fsum_ext N _ (fun _ => 1)); [rewrite fsum_const; ring|]. intros i Hi. rewrite (fsum_ext N _ (fun j => delta i j * delta i j)) by (intros j Hj; rewrite !H by assumption; reflexivity).
      rewrite (fsum_delta N i (fun j => delta i j) Hi). apply delta_refl. }
  assert (S1 : fsum N (fun k => B k k) = INR N).
  { unfold B. rewrite fsum_swap. rewrite (fsum_ext N _ (fun _ => 1)); [rewrite fsum_const; ring|]. intros i Hi. rewrite H by assumption. apply delta_refl. }
  assert (Z : fsum N (fun k => fsum N (fun l => (B k l - delta k l) * (B k l - delta k l))) = 0).
  { transitivity (fsum N (fun k => fsum N (fun l => B k l * B k l) - 2 * B k k + 1)).
    - apply fsum_ext; intros k Hk. rewrite (fsum_ext N _ (fun l => B k l * B k l - 2 * (delta k l * B k l) + delta k l * delta k l)) by (intros; ring).
      rewrite fsum_plus, fsum_minus, fsum_scal. rewrite (fsum_delta N k (fun l => B k l) Hk), (fsum_delta N k (fun l => delta k l) Hk), delta_refl. reflexivity.
    - rewrite fsum_plus, fsum_minus, fsum_scal, S2, S1, fsum_const. ring. }
  intros k l Hk Hl. fold (B k l).
  assert (Zk : fsum N (fun l => (B k l - delta k l) * (B k l - delta k l)) = 0).
  { apply (fsum_pos_eq0 N _ ) with (i := k) in Z; [exact Z| |exact Hk]. intros i _. apply fsum_nonneg. intros j _. apply Rle_0_sqr. }
  apply (fsum_pos_eq0 N _) with (i := l) in Zk; [|intros j _; apply Rle_0_sqr|exact Hl]. apply Rmult_integral in Zk. destruct Zk; lra.
Qed.

(** ** The rule at the roots of P_{n+1} *)
Section Rule.
  Variables (n : nat) (x : nat -> R).
  Notation N := (S n).
  Hypothesis Hroot : forall i, (i < N)%nat -> P N (x i) = 0.
  Hypothesis Hdist : forall i j, (i < N)%nat -> (j < N)%nat -> i <> j -> x i <> x j.
  Definition w i := 2 / K N (x i) (x i).
  Lemma K_off i j : (i < N)%nat -> (j < N)%nat -> i <> j -> K N (x i) (x j) = 0.
  Proof. intros Hi Hj Ne. pose proof (CD n (x i) (x j)) as C. rewrite (Hroot i Hi), (Hroot j Hj) in C. assert (Z : (x i - x j) * K N (x i) (x j) = 0) by (rewrite C; ring). apply Rmult_integral in Z. destruct Z as [Z|Z]; [|exact Z]. exfalso. apply (Hdist i j Hi Hj Ne). lra. Qed.
  Lemma disc_orth k l : (k < N)%nat -> (l < N)%nat -> fsum N (fun i => w i * (P k (x i) * P l (x i))) = if Nat.eqb k l then 2 / (2 * INR k + 1) else 0.
  Proof.
    intros Hk Hl. set (A := fun i k => sqrt ((2 * INR k + 1) / K N (x i) (x i)) * P k (x i)).
    assert (NN : forall k i, 0 <= (2 * INR k + 1) / K N (x i) (x i)) by (intros k' i; apply Rlt_le, Rdiv_lt_0_compat; [pose proof (pos_INR k'); lra|apply K_pos]).
    assert (H : forall i j, (i < N)%nat -> (j < N)%nat -> fsum N (fun k => A i k * A j k) = delta i j).
    { intros i j Hi Hj. unfold A. rewrite (fsum_ext N _ (fun k => / sqrt (K N (x i) (x i)) * / sqrt (K N (x j) (x j)) * ((2 * INR k + 1) * (P k (x i) * P k (x j))))).
      - rewrite fsum_scal. fold (K N (x i) (x j)). destruct (Nat.eq_dec i j) as [<-|Ne].
        + rewrite delta_refl. rewrite <- Rinv_mult. rewrite sqrt_sqrt by (apply Rlt_le, K_pos). field. apply Rgt_not_eq, K_pos.
        + rewrite (K_off i j) by assumption. unfold delta. destruct (Nat.eqb_spec i j); [contradiction|]. ring.
      - intros k' _. pose proof (pos_INR k'). rewrite !sqrt_div_alt by apply K_pos. transitivity (sqrt (2 * INR k' + 1) * sqrt (2 * INR k' + 1) * (/ sqrt (K N (x i) (x i)) * / sqrt (K N (x j) (x j)) * (P k' (x i) * P k' (x j)))); [unfold Rdiv; ring|]. rewrite sqrt_sqrt by lra. ring. }
    pose proof (orth_cols N A H k l Hk Hl) as E. unfold A in E.
    rewrite (fsum_ext N _ (fun i => sqrt (2 * INR k + 1) * sqrt (2 * INR l + 1) / 2 * (w i * (P k (x i) * P l (x i))))) in E.
    - rewrite fsum_scal in E. pose proof (pos_INR k) as Pk. pose proof (pos_INR l) as Pl. assert (0 < sqrt (2 * INR k + 1)) by (apply sqrt_lt_R0; lra). assert (0 < sqrt (2 * INR l + 1)) by (apply sqrt_lt_R0; lra).
      unfold delta in E. destruct (Nat.eqb_spec k l) as [<-|Ne].
      + rewrite sqrt_sqrt in E by lra. apply (Rmult_eq_reg_l ((2 * INR k + 1) / 2)); [|lra]. rewrite E. field. lra.
      + apply Rmult_integral in E. destruct E as [E|E]; [|exact E]. exfalso. assert (0 < sqrt (2 * INR k + 1) * sqrt (2 * INR l + 1)) by (apply Rmult_lt_0_compat; assumption). lra.
    - intros i _. pose proof (pos_INR k). pose proof (pos_INR l). pose proof (K_pos n (x i)) as KP. rewrite !sqrt_div_alt by exact KP. unfold w. pose proof (sqrt_sqrt _ (Rlt_le _ _ KP)) as SS. assert (0 < sqrt (K N (x i) (x i))) by (apply sqrt_lt_R0; exact KP).
      rewrite <- SS at 3. field. lra.
  Qed.
  Definition Q (f : R -> R) : R := fsum N (fun i => w i * f (x i)).
  Definition exact_for (f : R -> R) : Prop := is_RInt f (-1) 1 (Q f).
  Lemma exact_ext f g : (forall t, f t = g t) -> exact_for f -> exact_for g.
  Proof. intros E H. unfold exact_for, Q in *. rewrite (fsum_ext N _ (fun i => w i * f (x i))) by (intros; rewrite E; reflexivity). apply (is_RInt_ext f); [intros; apply E|exact H]. Qed.
  Lemma exact_lin a b f g : exact_for f -> exact_for g -> exact_for (fun t => a * f t + b * g t).
  Proof.
    intros F G. unfold exact_for, Q in *. rewrite (fsum_ext N _ (fun i => a * (w i * f (x i)) + b * (w i * g (x i)))) by (intros; ring). rewrite fsum_plus, !fsum_scal.
    apply (is_RInt_plus (V := R_NormedModule)); apply (is_RInt_scal (V := R_NormedModule)); assumption.
  Qed.
  Lemma exact_PP k l : (k < N)%nat -> (l <= N)%nat -> exact_for (fun t => P k t * P l t).
  Proof.
    intros Hk Hl. unfold exact_for, Q. destruct (Nat.eq_dec l N) as [->|NE].
    - rewrite fsum_zero by (intros i Hi; rewrite Hroot by exact Hi; ring). apply orth. lia.
    - rewrite disc_orth by lia. destruct (Nat.eqb_spec k l) as [<-|Ne]; [apply norm2|apply orth, Ne].
  Qed.
  Inductive span (a : nat) : (R -> R) -> Prop :=
  | sp_P k : (k <= a)%nat -> span a (P k)
  | sp_lin c d f g : span a f -> span a g -> span a (fun t => c * f t + d * g t)
  | sp_ext f g : (forall t, f t = g t) -> span a f -> span a g.
  Lemma span_x a f : span a f -> span (S a) (fun t => t * f t).
  Proof.
    induction 1 as [k Hk|c d f g _ I1 _ I2|f g E _ I].
    - destruct k as [|k].
      + apply (sp_ext _ (P 1)); [intros t; rewrite legendre_0, legendre_1; ring|]. apply sp_P. lia.
      + apply (sp_ext _ (fun t => (INR k + 2) / (2 * INR k + 3) * P (S (S k)) t + (INR k + 1) / (2 * INR k + 3) * P k t)).
        * intros t. pose proof (bonnet k t) as B. pose proof (pos_INR k). transitivity (((INR k + 2) * P (S (S k)) t + (INR k + 1) * P k t) / (2 * INR k + 3)); [field; lra|]. rewrite B. field. lra.
        * apply sp_lin; apply sp_P; lia.
    - apply (sp_ext _ (fun t => c * (t * f t) + d * (t * g t))); [intros; ring|]. apply sp_lin; assumption.
    - apply (sp_ext _ (fun t => t * f t)); [intros; rewrite E; reflexivity|exact I].
  Qed.
  Lemma span_pow a : span a (fun t => t ^ a).
  Proof. induction a as [|a IH]; [apply (sp_ext _ (P 0)); [reflexivity|apply sp_P; lia]|]. exact (span_x a _ IH). Qed.
  Lemma exact_span a b f g : (a < N)%nat -> (b <= N)%nat -> span a f -> span b g -> exact_for (fun t => f t * g t).
  Proof.
    intros Ha Hb F G. induction F as [k Hk|c d f1 f2 _ I1 _ I2|f f' E _ I].
    - induction G as [l Hl|c d g1 g2 _ I1 _ I2|g g' E _ I]; [apply exact_PP; lia| |apply (exact_ext _ _ (fun t => f_equal (Rmult (P k t)) (E t)) I)].
      apply (exact_ext (fun t => c * (P k t * g1 t) + d * (P k t * g2 t))); [intros; ring|]. apply exact_lin; assumption.
    - apply (exact_ext (fun t => c * (f1 t * g t) + d * (f2 t * g t))); [intros; ring|]. apply exact_lin; assumption.
    - apply (exact_ext (fun t => f t * g t)); [intros; rewrite E; reflexivity|exact I].
  Qed.
  Lemma exact_pow m : (m < 2 * N)%nat -> exact_for (fun t => t ^ m).
  Proof.
    intros Hm. apply (exact_ext (fun t => t ^ (Nat.min m n) * t ^ (m - Nat.min m n))); [intros t; rewrite <- pow_add; f_equal; lia|].
    apply (exact_span (Nat.min m n) (m - Nat.min m n)); [lia|lia|apply span_pow|apply span_pow].
  Qed.
  Lemma exact_poly m c : (m <= 2 * N)%nat -> exact_for (fun t => fsum m (fun k => c k * t ^ k)).
  Proof.
    induction m as [|m IH]; intros Hm.
    - apply (exact_ext (fun t => 0 * t ^ 0 + 0 * t ^ 0)); [intros; cbn; ring|]. apply exact_lin; apply exact_pow; lia.
    - apply (exact_ext (fun t => 1 * fsum m (fun k => c k * t ^ k) + c m * t ^ m)); [intros; rewrite fsum_S; ring|]. apply exact_lin; [apply IH; lia|apply exact_pow; lia].
  Qed.
End Rule.

(** ** Polynomials by coefficients *)
Definition poly (m : nat) (f : R -> R) : Prop := exists c : nat -> R, forall t, f t = fsum (S m) (fun k => c k * t ^ k).
Lemma poly_mono m k : (k <= m)%nat -> poly m (fun t => t ^ k).
Proof. intros H. exists (delta k). intros t. rewrite (fsum_delta (S m) k (fun i => t ^ i)) by lia. reflexivity. Qed.
Lemma poly_lin m a b f g : poly m f -> poly m g -> poly m (fun t => a * f t + b * g t).
Proof. intros [c Hc] [d Hd]. exists (fun k => a * c k + b * d k). intros t. rewrite Hc, Hd, <- !fsum_scal, <- fsum_plus. apply fsum_ext. intros; ring. Qed.
Lemma poly_ext m f g : (forall t, f t = g t) -> poly m f -> poly m g.
Proof. intros E [c Hc]. exists c. intros t. rewrite <- E. apply Hc. Qed.
Lemma poly_sum m n (F : nat -> R -> R) : (forall k, (k < n)%nat -> poly m (F k)) -> poly m (fun t => fsum n (fun k => F k t)).
Proof.
  induction n as [|n IH]; intros H.
  - apply (poly_ext _ (fun t => 0 * t ^ 0 + 0 * t ^ 0)); [intros; cbn; ring|]. apply poly_lin; apply poly_mono; lia.
  - apply (poly_ext _ (fun t => 1 * fsum n (fun k => F k t) + 1 * F n t)); [intros; rewrite fsum_S; ring|]. apply poly_lin; [apply IH; intros; apply H; lia|apply H; lia].
Qed.
Lemma poly_mul a b f g : poly a f -> poly b g -> poly (a + b) (fun t => f t * g t).
Proof.
  intros [c Hc] [d Hd]. apply (poly_ext _ (fun t => fsum (S a) (fun k => fsum (S b) (fun l => c k * d l * t ^ (k + l))))).
  - intros t. rewrite Hc, Hd, <- fsum_scal_r. apply fsum_ext; intros k _. rewrite <- fsum_scal. apply fsum_ext; intros l _. rewrite pow_add. ring.
  - apply poly_sum. intros k Hk. apply poly_sum. intros l Hl. apply (poly_ext _ (fun t => (c k * d l) * t ^ (k + l) + 0 * t ^ (k + l))); [intros; ring|]. apply poly_lin; apply poly_mono; lia.
Qed.
Lemma poly_up a b f : (a <= b)%nat -> poly a f -> poly b f.
Proof. intros L [c Hc]. apply (poly_ext b (fun t => fsum (S a) (fun k => c k * t ^ k))); [intros; symmetry; apply Hc|]. apply poly_sum. intros k Hk. apply (poly_ext _ (fun t => c k * t ^ k + 0 * t ^ k)); [intros; ring|]. apply poly_lin; apply poly_mono; lia. Qed.
Lemma poly_P n : poly n (P n).
Proof.
  assert (H : poly n (P n) /\ poly (S n) (P (S n))); [|exact (proj1 H)]. induction n as [|n [I1 I2]].
  - split; [apply (poly_ext _ (fun t => t ^ 0)); [reflexivity|apply poly_mono; lia]|]. apply (poly_ext _ (fun t => t ^ 1)); [intros; rewrite legendre_1; ring|apply poly_mono; lia].
  - split; [exact I2|]. apply (poly_ext _ (fun t => (2 * INR n + 3) / (INR n + 2) * (t ^ 1 * P (S n) t) + - (INR n + 1) / (INR n + 2) * P n t)).
    + intros t. rewrite legendre_SS. pose proof (pos_INR n). field. lra.
    + apply poly_lin; [apply (poly_mul 1 (S n)); [apply poly_mono; lia|exact I2]|apply (poly_up n); [lia|exact I1]].
Qed.

(** ** Existence of the roots *)
Lemma cross (f f' : R -> R) a b : (forall t, is_derive f t (f' t)) -> a < b -> f a < 0 -> 0 < f b -> exists y, a < y < b /\ f y = 0 /\ 0 <= f' y.
Proof.
  intros Df Hab Ha Hb. set (E := fun z => a <= z <= b /\ f z <= 0).
  destruct (completeness E) as [y [U L]]; [exists b; intros z [Hz _]; lra|exists a; split; lra|].
  assert (Ya : a <= y) by (apply U; split; lra). assert (Yb : y <= b) by (apply L; intros z [Hz _]; lra).
  assert (CT : forall e, 0 < e -> exists d, 0 < d /\ forall t, Rabs (t - y) < d -> Rabs (f t - f y) < e).
  { intros e He. assert (C : continuous f y) by (apply @ex_derive_continuous; eexists; apply Df). apply continuity_pt_filterlim in C. destruct (C e He) as (d & Hd & H). exists d. split; [exact Hd|]. intros t Ht. destruct (Req_dec t y) as [->|N]; [rewrite Rminus_diag_eq, Rabs_R0; [exact He|reflexivity]|]. apply H. split; [split; [exact I|congruence]|exact Ht]. }
  assert (F0 : f y = 0).
  { destruct (Rtotal_order (f y) 0) as [Hn|[Hz|Hp]]; [exfalso|exact Hz|exfalso].
    - destruct (CT (- f y) ltac:(lra)) as (d & Hd & H). assert (y < b) by (destruct (Req_dec y b) as [->|]; lra). set (t := Rmin (y + d / 2) b). assert (T1 : y < t) by (apply Rmin_glb_lt; lra). assert (T2 : t <= y + d / 2) by apply Rmin_l. assert (T3 : t <= b) by apply Rmin_r.
      assert (EY : E t). { split; [lra|]. specialize (H t). rewrite Rabs_right in H by lra. specialize (H ltac:(lra)). apply Rabs_def2 in H. lra. } pose proof (U t EY). lra.
    - destruct (CT (f y) ltac:(lra)) as (d & Hd & H). assert (B : is_upper_bound E (y - d / 2)). { intros z [Hz Fz]. destruct (Rle_dec z (y - d / 2)) as [|NL]; [assumption|exfalso]. assert (Z1 : z <= y) by (apply U; split; assumption). specialize (H z). rewrite Rabs_left1 in H by lra. specialize (H ltac:(lra)). apply Rabs_def2 in H. lra. } pose proof (L _ B). lra. }
  assert (a < y) by (destruct (Req_dec a y) as [->|]; lra). assert (y < b) by (destruct (Req_dec y b) as [->|]; lra).
  exists y. split; [lra|]. split; [exact F0|]. destruct (Rle_dec 0 (f' y)) as [|NL]; [assumption|exfalso].
  pose proof (proj1 (is_derive_Reals f y (f' y)) (Df y)) as Dl. destruct (Dl (- f' y) ltac:(lra)) as [d Hd]. set (h := Rmin (d / 2) (b - y)). assert (H1 : 0 < h) by (apply Rmin_glb_lt; [pose proof (cond_pos d); lra|lra]). assert (H2 : h <= d / 2) by apply Rmin_l. assert (H3 : h <= b - y) by apply Rmin_r. pose proof (cond_pos d).
  specialize (Hd h ltac:(lra)). rewrite Rabs_right in Hd by lra. specialize (Hd ltac:(lra)). rewrite F0, Rminus_0_r in Hd. apply Rabs_def2 in Hd.
  assert (f (y + h) < 0). { assert (f (y + h) / h < 0) by lra. replace (f (y + h)) with (f (y + h) / h * h) by (field; lra). nra. }
  assert (EY : E (y + h)) by (split; lra). pose proof (U _ EY). lra.
Qed.
Lemma fin_choice m (Q : nat -> R -> Prop) : (forall j, (j < m)%nat -> exists y, Q j y) -> exists x, forall j, (j < m)%nat -> Q j (x j).
Proof.
  induction m as [|m IH]; intros H; [exists (fun _ => 0); intros; lia|]. destruct IH as [x Hx]; [intros; apply H; lia|]. destruct (H m) as [y Hy]; [lia|].
  exists (fun j => if Nat.eqb j m then y else x j). intros j Hj. destruct (Nat.eqb_spec j m) as [->|N]; [exact Hy|apply Hx; lia].
Qed.
Definition sg (k : nat) : R := (-1) ^ k.
Lemma sg_S k : sg (S k) = - sg k.
Proof. unfold sg. cbn. ring. Qed.
Lemma sg_sq k : sg k * sg k = 1.
Proof. unfold sg. rewrite <- pow_add. replace (k + k)%nat with (2 * k)%nat by lia. rewrite pow_mult. replace ((-1) ^ 2) with 1 by ring. apply pow1. Qed.
Lemma roots n : exists x : nat -> R, (forall i, (i <= n)%nat -> -1 < x i < 1 /\ P (S n) (x i) = 0 /\ 0 < sg (n + i) * P n (x i)) /\ (forall i, (i < n)%nat -> x i < x (S i)).
Proof.
  induction n as [|n [x [H1 H2]]].
  - exists (fun _ => 0). split; [|intros; lia]. intros i Hi. replace i with O by lia. rewrite legendre_1, legendre_0. unfold sg. cbn. lra.
  - set (e := fun j => match j with O => -1 | S i => if Nat.leb i n then x i else 1 end).
    assert (EI : forall j, (j <= S n)%nat -> e j < e (S j)).
    { intros [|i] Hi; unfold e.
      - cbn [Nat.leb]. apply (H1 O). lia.
      - destruct (Nat.leb_spec i n); [|lia]. destruct (Nat.leb_spec (S i) n); [apply H2; lia|apply (H1 i); lia]. }
    assert (ES : forall j, (j <= S (S n))%nat -> 0 < sg (n + j) * P (S (S n)) (e j)).
    { intros [|i] Hi; unfold e.
      - rewrite P_at_m1, Nat.add_0_r. fold (sg (S (S n))). rewrite !sg_S. replace (sg n * - - sg n) with (sg n * sg n) by ring. rewrite sg_sq. lra.
      - destruct (Nat.leb_spec i n) as [L|L].
        + destruct (H1 i L) as (_ & R0 & S0). rewrite legendre_SS, R0, Nat.add_succ_r, sg_S. pose proof (pos_INR n).
          replace (- sg (n + i) * (((2 * INR n + 3) * x i * 0 - (INR n + 1) * P n (x i)) / (INR n + 2))) with ((INR n + 1) / (INR n + 2) * (sg (n + i) * P n (x i))) by (field; lra). apply Rmult_lt_0_compat; [apply Rdiv_lt_0_compat; lra|exact S0].
        + replace i with (S n) by lia. rewrite P_at_1, !Nat.add_succ_r, !sg_S. unfold sg. replace (n + n)%nat with (2 * n)%nat by lia. rewrite pow_mult. replace ((-1) ^ 2) with 1 by ring. rewrite pow1. lra. }
    destruct (fin_choice (S (S n)) (fun j y => e j < y < e (S j) /\ P (S (S n)) y = 0 /\ 0 < sg (S n + j) * P (S n) y)) as [y Hy].
    + intros j Hj. destruct (cross (fun t => sg (S n + j) * P (S (S n)) t) (fun t => sg (S n + j) * D (S (S n)) t) (e j) (e (S j))) as (y & Y1 & Y2 & Y3).
      * intros t. apply (is_derive_scal (P (S (S n)))), P_derive.
      * apply EI. lia.
      * cbn [Nat.add]. rewrite sg_S. pose proof (ES j ltac:(lia)). lra.
      * pose proof (ES (S j) ltac:(lia)) as X. rewrite Nat.add_succ_r in X. cbn [Nat.add]. exact X.
      * exists y. split; [exact Y1|]. assert (S0 : sg (S n + j) <> 0) by (intros Z; pose proof (sg_sq (S n + j)); rewrite Z in *; lra).
        assert (P0 : P (S (S n)) y = 0) by (apply Rmult_integral in Y2; destruct Y2; [contradiction|assumption]). split; [exact P0|].
        pose proof (CD_diag (S n) y) as C. rewrite P0 in C. pose proof (K_pos (S n) y) as KP. rewrite C in KP. pose proof (pos_INR (S n)).
        assert (DP : 0 < D (S (S n)) y * P (S n) y) by (clear - KP H; nra).
        pose proof (sg_sq (S n + j)) as SQ. set (s := sg (S n + j)) in *. set (dd := D (S (S n)) y) in *. set (p := P (S n) y) in *.
        assert (0 < (s * dd) * (s * p)) by (replace ((s * dd) * (s * p)) with ((s * s) * (dd * p)) by ring; rewrite SQ; lra). clear - H0 Y3. nra.
    + exists y. assert (EB : forall j, (j <= S (S n))%nat -> -1 <= e j <= 1).
      { intros [|i] Hi; unfold e; [lra|]. destruct (Nat.leb_spec i n) as [L|L]; [|lra]. destruct (H1 i L). lra. }
      split.
      * intros i Hi. destruct (Hy i ltac:(lia)) as (A & B & C). pose proof (EB i ltac:(lia)). pose proof (EB (S i) ltac:(lia)). split; [lra|]. split; [exact B|exact C].
      * intros i Hi. destruct (Hy i ltac:(lia)) as (A & _). destruct (Hy (S i) ltac:(lia)) as (B & _). lra.
Qed.
