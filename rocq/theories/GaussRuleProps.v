(** Property theorems C122: the Gauss-Legendre rule that quadratureRule aims at. *)
From Coquelicot Require Import Coquelicot.
From Verif Require Import Base Quad QuadSpec QuadProofs QuadProps QuadOrderProofs QuadOrderProps GaussRuleProofs.
From Coq Require Import Lra Lia.
Open Scope R_scope.

(** x 0, ..., x (n-1) are the roots of P_n, in increasing order *)
Definition root_list (n : nat) (x : nat -> R) : Prop :=
  (forall i, (i < n)%nat -> -1 < x i < 1 /\ legendre n (x i) = 0) /\ (forall i j, (i < j < n)%nat -> x i < x j).
(** polynomial of degree at most m *)
Definition polynomial (m : nat) (f : R -> R) : Prop := exists c : nat -> R, forall t, f t = fsum (S m) (fun k => c k * t ^ k).
(** the code's points and weights (quadrature.py 67-99) for starting abscissas s 0, ..., s (n-1), applied to f *)
Definition rule_from (n : nat) (s : nat -> R) (f : R -> R) : R := fsum n (fun i => snd (q_point n (s i)) * f (fst (q_point n (s i)))).

Lemma rl_dist n x : root_list n x -> forall i j, (i < n)%nat -> (j < n)%nat -> i <> j -> x i <> x j.
Proof. intros [_ H] i j Hi Hj N. destruct (Nat.lt_total i j) as [L|[L|L]]; [|contradiction|]; [pose proof (H i j ltac:(lia))|pose proof (H j i ltac:(lia))]; lra. Qed.
Lemma D_Derive n r : Derive (legendre n) r = D n r.
Proof. apply is_derive_unique, P_derive. Qed.
Lemma K_neg N r : K N (- r) (- r) = K N r r.
Proof. unfold K. apply fsum_ext. intros k _. destruct (legendre_parity k r) as [-> _]. pose proof (sg_sq k) as S. unfold sg in S. transitivity ((2 * INR k + 1) * (((-1) ^ k * (-1) ^ k) * (legendre k r * legendre k r))); [ring|]. rewrite S. ring. Qed.
Lemma point_at_root n r : -1 < r < 1 -> legendre (S n) r = 0 -> q_point (S n) r = (- r, 2 / K (S n) r r).
Proof. intros Hr H0. rewrite C72_root_fixed by (auto; lia). rewrite D_Derive, <- K_root by exact H0. reflexivity. Qed.

(** C122: every P_n has n different roots in (-1, 1) and no others (in particular they are simple). *)
Theorem C122_roots : forall n, exists x, root_list n x /\ forall r, legendre n r = 0 -> exists i, (i < n)%nat /\ r = x i.
Proof.
  intros [|n].
  - exists (fun _ => 0). split; [split; intros; lia|]. intros r H. rewrite legendre_0 in H. lra.
  - destruct (roots n) as (x & H1 & H2). exists x. assert (RL : root_list (S n) x).
    { split; [intros i Hi; destruct (H1 i ltac:(lia)) as (A & B & _); auto|]. intros i j [L Hj]. revert Hj. induction L as [|j L IH]; intros Hj; [apply H2; lia|]. apply (Rlt_trans _ (x j)); [apply IH; lia|apply H2; lia]. }
    split; [exact RL|]. intros r Hr.
    assert (RT : forall i, (i < S n)%nat -> legendre (S n) (x i) = 0) by (intros i Hi; apply RL, Hi).
    assert (AL : forall m, (m <= S n)%nat -> (forall i, (i < m)%nat -> r <> x i) \/ exists i, (i < m)%nat /\ r = x i).
    { induction m as [|m IH]; intros Hm; [left; intros; lia|]. destruct (IH ltac:(lia)) as [A|(i & Hi & E)]; [|right; exists i; split; [lia|exact E]]. destruct (Req_dec r (x m)) as [E|N]; [right; exists m; split; [lia|exact E]|]. left. intros i Hi. destruct (Nat.eq_dec i m) as [->|]; [exact N|apply A; lia]. }
    destruct (AL (S n) ltac:(lia)) as [A|E]; [exfalso|exact E].
    assert (Z : forall i, (i < S n)%nat -> K (S n) r (x i) = 0).
    { intros i Hi. pose proof (CD n r (x i)) as C. rewrite Hr, (RT i Hi) in C. assert (Z : (r - x i) * K (S n) r (x i) = 0) by (rewrite C; ring). apply Rmult_integral in Z. destruct Z as [Z|Z]; [|exact Z]. exfalso. apply (A i Hi). lra. }
    assert (S0 : fsum (S n) (fun i => w n x i * K (S n) r (x i)) = 0) by (apply fsum_zero; intros i Hi; rewrite Z by exact Hi; ring).
    assert (S2 : fsum (S n) (fun i => w n x i * K (S n) r (x i)) = 2).
    { transitivity (fsum (S n) (fun k => (2 * INR k + 1) * legendre k r * fsum (S n) (fun i => w n x i * (legendre 0 (x i) * legendre k (x i))))).
      - transitivity (fsum (S n) (fun i => fsum (S n) (fun k => (2 * INR k + 1) * legendre k r * (w n x i * (legendre 0 (x i) * legendre k (x i)))))).
        + apply fsum_ext. intros i _. unfold K. rewrite <- fsum_scal. apply fsum_ext. intros k _. rewrite legendre_0. ring.
        + rewrite fsum_swap. apply fsum_ext. intros k _. apply fsum_scal.
      - rewrite (fsum_single (S n) 0); [|lia|].
        + rewrite (disc_orth n x RT (rl_dist _ _ RL)) by lia. cbn [Nat.eqb]. rewrite legendre_0. change (INR 0) with 0. field.
        + intros k Hk N. rewrite (disc_orth n x RT (rl_dist _ _ RL)) by lia. destruct (Nat.eqb_spec 0 k); [congruence|]. ring. }
    lra.
Qed.
Print Assumptions C122_roots.

Lemma neg_roots n x : root_list (S n) x -> (forall i, (i < S n)%nat -> legendre (S n) (- x i) = 0) /\ (forall i j, (i < S n)%nat -> (j < S n)%nat -> i <> j -> - x i <> - x j).
Proof.
  intros H. split.
  - intros i Hi. destruct (legendre_parity (S n) (x i)) as [-> _]. rewrite (proj2 (proj1 H i Hi)). ring.
  - intros i j Hi Hj N E. apply (rl_dist _ _ H i j Hi Hj N). lra.
Qed.
Lemma rule_Q n x f : root_list (S n) x -> rule_from (S n) x f = Q n (fun i => - x i) f.
Proof. intros H. unfold rule_from, Q. apply fsum_ext. intros i Hi. destruct (proj1 H i Hi) as [A B]. rewrite point_at_root by assumption. cbn [fst snd]. unfold w. rewrite K_neg. reflexivity. Qed.

(** C122: with the roots as abscissas the code's rule is the Gauss-Legendre rule: it integrates every
    polynomial of degree at most 2 n - 1 over [-1, 1] exactly. *)
Theorem C122_exact : forall n x m f, (1 <= n)%nat -> root_list n x -> (m < 2 * n)%nat -> polynomial m f ->
  is_RInt f (-1) 1 (rule_from n x f).
Proof.
  intros [|n] x m f Hn H Hm [c Hc]; [lia|]. rewrite (rule_Q n x f H). destruct (neg_roots n x H) as [A B].
  apply (exact_ext n (fun i => - x i) (fun t => fsum (S m) (fun k => c k * t ^ k))); [intros; symmetry; apply Hc|]. apply (exact_poly n (fun i => - x i) A B). lia.
Qed.
Print Assumptions C122_exact.

(** C122: 2 n - 1 is the best possible degree: the square of P_n, of degree 2 n, has the integral
    2/(2 n + 1), and the rule gives 0. *)
Theorem C122_degree_sharp : forall n x, (1 <= n)%nat -> root_list n x ->
  polynomial (2 * n) (fun t => legendre n t * legendre n t) /\
  is_RInt (fun t => legendre n t * legendre n t) (-1) 1 (2 / (2 * INR n + 1)) /\
  rule_from n x (fun t => legendre n t * legendre n t) = 0.
Proof.
  intros [|n] x Hn H; [lia|]. split; [|split].
  - replace (2 * S n)%nat with (S n + S n)%nat by lia. apply (poly_mul (S n) (S n)); apply poly_P.
  - apply norm2.
  - rewrite (rule_Q n x _ H). unfold Q. apply fsum_zero. intros i Hi. rewrite (proj1 (neg_roots n x H) i Hi). ring.
Qed.
Print Assumptions C122_degree_sharp.

(** C122: the weights at the roots are positive and add up to 2, the length of the interval. *)
Theorem C122_weights : forall n x, (1 <= n)%nat -> root_list n x ->
  (forall i, (i < n)%nat -> 0 < snd (q_point n (x i))) /\ fsum n (fun i => snd (q_point n (x i))) = 2.
Proof.
  intros [|n] x Hn H; [lia|]. split.
  - intros i Hi. destruct (proj1 H i Hi) as [A B]. rewrite point_at_root by assumption. cbn [snd]. apply Rdiv_lt_0_compat; [lra|apply K_pos].
  - assert (P0 : polynomial 0 (fun _ => 1)) by (exists (fun _ => 1); intros t; cbn; ring). pose proof (C122_exact (S n) x 0 (fun _ => 1) Hn H ltac:(lia) P0) as E.
    assert (E2 : is_RInt (fun _ : R => 1) (-1) 1 2) by (apply (is_RInt_eq _ _ _ (scal (1 - -1) 1)); [eqR; unfold scal; cbn; unfold mult; cbn; ring|apply (is_RInt_const (V := R_NormedModule))]).
    apply (is_RInt_unique (V := R_CompleteNormedModule)) in E, E2. rewrite E in E2. unfold rule_from in E2. rewrite <- E2. apply fsum_ext. intros; ring.
Qed.
Print Assumptions C122_weights.

Lemma poly_deriv f m : polynomial m f -> forall t, ex_derive f t.
Proof.
  intros [c Hc] t. apply (ex_derive_ext (fun t => fsum (S m) (fun k => c k * t ^ k))); [intros; symmetry; apply Hc|]. generalize (S m). clear. induction n as [|n IH]; [cbn; auto_derive; auto|].
  apply (ex_derive_ext (fun t => fsum n (fun k => c k * t ^ k) + c n * t ^ n)); [intros; rewrite fsum_S; reflexivity|]. apply (ex_derive_plus (V := R_NormedModule)); [exact IH|auto_derive; auto].
Qed.
Lemma one_term n r f : (1 <= n)%nat -> -1 < r < 1 -> legendre n r = 0 -> ex_derive f (- r) ->
  O 4 (fun t => snd (q_point n (r + t)) * f (fst (q_point n (r + t))) - snd (q_point n r) * f (fst (q_point n r))).
Proof.
  intros Hn Hr H0 Df. destruct (C119_point_order n r Hn Hr H0) as (C & d & Hd & H). cbv zeta in H. rewrite (C72_root_fixed n r Hn Hr H0). cbn [fst snd].
  set (c := - (33 / 8) * Derive_n (legendre n) 4 r / Derive (legendre n) r) in *. set (w0 := 2 / ((1 - r * r) * Derive (legendre n) r ^ 2)) in *.
  assert (O5 : forall g, (forall x, Rabs (x - r) < d -> Rabs (g x) <= C * Rabs (x - r) ^ 5) -> O 5 (fun t => g (r + t))).
  { intros g Hg. exists (Rabs C), d. split; [apply Rabs_pos|]. split; [exact Hd|]. intros t Ht. replace t with (r + t - r) in Ht by ring. specialize (Hg _ Ht). replace (r + t - r) with t in Hg by ring. apply (Rle_trans _ _ _ Hg). apply Rmult_le_compat_r; [apply pow_le, Rabs_pos|apply Rle_abs]. }
  assert (B : O 4 (fun t => fst (q_point n (r + t)) - - r)).
  { apply (O_eq 4 (fun t => (fst (q_point n (r + t)) - (- r + c * (r + t - r) ^ 4)) + c * t ^ 4)); [intros t; replace (r + t - r) with t by ring; ring|].
    refine (O_plus 4 _ _ _ _); [apply (O_weak 4 5); [lia|]; refine (O5 (fun x => fst (q_point n x) - (- r + c * (x - r) ^ 4)) _); intros x Hx; apply (H x Hx)|apply O_scal, O_pow]. }
  assert (V : O 4 (fun t => snd (q_point n (r + t)) - w0)).
  { apply (O_eq 4 (fun t => (snd (q_point n (r + t)) - w0 * (1 + 2 * r * c / (1 - r * r) * (r + t - r) ^ 4)) + w0 * (2 * r * c / (1 - r * r)) * t ^ 4)); [intros t; replace (r + t - r) with t by ring; ring|].
    refine (O_plus 4 _ _ _ _); [apply (O_weak 4 5); [lia|]; refine (O5 (fun x => snd (q_point n x) - w0 * (1 + 2 * r * c / (1 - r * r) * (x - r) ^ 4)) _); intros x Hx; apply (H x Hx)|apply O_scal, O_pow]. }
  assert (F : O 4 (fun t => f (fst (q_point n (r + t))) - f (- r))).
  { apply (O_eq 4 (fun t => f (- r + (fst (q_point n (r + t)) - - r)) - f (- r))); [intros t; do 2 f_equal; ring|]. exact (O_comp 1 3 _ _ (O_diff f (- r) Df) B). }
  apply (O_eq 4 (fun t => (snd (q_point n (r + t)) - w0) * (f (fst (q_point n (r + t))) - f (- r)) + (f (- r) * (snd (q_point n (r + t)) - w0) + w0 * (f (fst (q_point n (r + t))) - f (- r))))); [intros; ring|].
  refine (O_plus 4 _ _ _ (O_plus 4 _ _ _ _)); [apply (O_weak 4 8); [lia|]; exact (O_mult 4 4 _ _ V F)|apply O_scal, V|apply O_scal, F].
Qed.

(** C122: what the code returns from starting abscissas near the roots: the quadrature error of a
    polynomial of degree at most 2 n - 1 is of fourth order in the starting errors. *)
Theorem C122_rule_error : forall n x m f, (1 <= n)%nat -> root_list n x -> (m < 2 * n)%nat -> polynomial m f ->
  exists C d, 0 < d /\ forall s, (forall i, (i < n)%nat -> Rabs (s i - x i) < d) ->
    Rabs (rule_from n s f - RInt f (-1) 1) <= C * fsum n (fun i => Rabs (s i - x i) ^ 4).
Proof.
  intros n x m f Hn H Hm Hf. rewrite (is_RInt_unique (V := R_CompleteNormedModule) _ _ _ _ (C122_exact n x m f Hn H Hm Hf)). unfold rule_from.
  assert (G : forall k, (k <= n)%nat -> exists C d, 0 <= C /\ 0 < d /\ forall s, (forall i, (i < k)%nat -> Rabs (s i - x i) < d) ->
    Rabs (fsum k (fun i => snd (q_point n (s i)) * f (fst (q_point n (s i)))) - fsum k (fun i => snd (q_point n (x i)) * f (fst (q_point n (x i))))) <= C * fsum k (fun i => Rabs (s i - x i) ^ 4)).
  { induction k as [|k IH]; intros Hk; [exists 0, 1; split; [lra|]; split; [lra|]; intros; cbn; rewrite Rminus_0_r, Rabs_R0; lra|].
    destruct IH as (C & d & HC & Hd & HI); [lia|]. destruct (proj1 H k ltac:(lia)) as [A B]. destruct (one_term n (x k) f Hn A B (poly_deriv f m Hf _)) as (C' & d' & HC' & Hd' & HK).
    exists (C + C'), (Rmin d d'). split; [lra|]. split; [apply Rmin_glb_lt; assumption|]. intros s Hs. rewrite !fsum_S.
    assert (H1 : forall i, (i < k)%nat -> Rabs (s i - x i) < d) by (intros i Hi; eapply Rlt_le_trans; [apply Hs; lia|apply Rmin_l]). specialize (HI s H1).
    assert (H2 : Rabs (s k - x k) < d') by (eapply Rlt_le_trans; [apply Hs; lia|apply Rmin_r]). specialize (HK _ H2). replace (x k + (s k - x k)) with (s k) in HK by ring.
    assert (F0 : 0 <= fsum k (fun i => Rabs (s i - x i) ^ 4)) by (apply fsum_nonneg; intros; apply pow_le, Rabs_pos). assert (P4 : 0 <= Rabs (s k - x k) ^ 4) by apply pow_le, Rabs_pos.
    match goal with |- Rabs (?a + ?b - (?c + ?e)) <= _ => replace (a + b - (c + e)) with ((a - c) + (b - e)) by ring end. eapply Rle_trans; [apply Rabs_triang|]. rewrite Rmult_plus_distr_l. apply Rplus_le_compat; eapply Rle_trans; [exact HI| |exact HK|]; apply Rmult_le_compat_r; lra. }
  destruct (G n (Nat.le_refl n)) as (C & d & _ & Hd & HG). exists C, d. split; [exact Hd|exact HG].
Qed.
Print Assumptions C122_rule_error.

(** the roots of P_2 and the two-point rule: exact for cubics *)
Example C122_example : root_list 2 (fun i => if Nat.eqb i 0 then - (/ sqrt 3) else / sqrt 3) /\
  is_RInt (fun t => 1 + 5 * t ^ 2 - 7 * t ^ 3) (-1) 1 (rule_from 2 (fun i => if Nat.eqb i 0 then - (/ sqrt 3) else / sqrt 3) (fun t => 1 + 5 * t ^ 2 - 7 * t ^ 3)).
Proof.
  assert (S3 : sqrt 3 * sqrt 3 = 3) by (apply sqrt_sqrt; lra). assert (0 < sqrt 3) by (apply sqrt_lt_R0; lra). assert (1 < sqrt 3) by nra.
  assert (I1 : / sqrt 3 < / 1) by (apply Rinv_lt_contravar; lra). rewrite Rinv_1 in I1. assert (I0 : 0 < / sqrt 3) by (apply Rinv_0_lt_compat; lra).
  assert (RL : root_list 2 (fun i => if Nat.eqb i 0 then - (/ sqrt 3) else / sqrt 3)).
  { assert (SQ : / sqrt 3 * / sqrt 3 = / 3) by (rewrite <- Rinv_mult, S3; reflexivity). set (z := / sqrt 3) in *. split.
    - intros [|[|i]] Hi; [| |lia]; cbn [Nat.eqb]; split; try lra; unfold legendre; cbn; [replace ((2 * 0 + 3) * - z * - z - (0 + 1) * 1) with (3 * (z * z) - 1) by ring|replace ((2 * 0 + 3) * z * z - (0 + 1) * 1) with (3 * (z * z) - 1) by ring]; rewrite SQ; field.
    - intros [|[|i]] [|[|j]] Hij; try lia. cbn. lra. }
  split; [exact RL|]. apply (C122_exact 2 _ 3); [lia|exact RL|lia|]. exists (fun k => if Nat.eqb k 0 then 1 else if Nat.eqb k 1 then 0 else if Nat.eqb k 2 then 5 else -7). intros t. cbn [fsum Nat.eqb]. ring.
Qed.
