From Coquelicot Require Import Coquelicot.
From Verif Require Import Base Quad QuadSpec.
Open Scope R_scope.

Lemma legendre2_snd n x : snd (legendre2 n x) = legendre (S n) x.
Proof. unfold legendre. simpl. destruct (legendre2 n x). reflexivity. Qed.

Lemma legendre_SS n x :
  legendre (S (S n)) x
  = ((2 * INR n + 3) * x * legendre (S n) x - (INR n + 1) * legendre n x) / (INR n + 2).
Proof.
  unfold legendre. simpl. destruct (legendre2 n x) as [a b] eqn:E. reflexivity.
Qed.

Lemma legendre_0 x : legendre 0 x = 1.
Proof. reflexivity. Qed.
Lemma legendre_1 x : legendre 1 x = x.
Proof. reflexivity. Qed.

Lemma INR_SS n : INR (S (S n)) = INR n + 2.
Proof. rewrite !S_INR. lra. Qed.

Lemma leg_pair_S x n :
  leg_pair x (S (S n)) =
  (snd (leg_pair x (S n)),
   x * snd (leg_pair x (S n)) - fst (leg_pair x (S n))
   - (x * snd (leg_pair x (S n)) - fst (leg_pair x (S n))) * / INR (S (S n))
   + x * snd (leg_pair x (S n))).
Proof.
  change (leg_pair x (S (S n))) with
    (let '(pkm1, pk) := leg_pair x (S n) in
     let t1 := x * pk in (pk, t1 - pkm1 - (t1 - pkm1) * / INR (S (S n)) + t1)).
  destruct (leg_pair x (S n)) as [a b]. reflexivity.
Qed.

Lemma leg_pair_legendre n x : leg_pair x (S n) = (legendre n x, legendre (S n) x).
Proof.
  induction n as [|n IH]; [reflexivity|].
  rewrite leg_pair_S, IH. cbn [fst snd]. f_equal.
  rewrite legendre_SS, INR_SS. pose proof (pos_INR n). field. lra.
Qed.

Lemma den_pos x : -1 < x < 1 -> 0 < 1 - x * x.
Proof. intros H. nra. Qed.

Lemma legendre_derives n x : -1 < x < 1 ->
  is_derive (legendre (S n)) x ((INR n + 1) * (legendre n x - x * legendre (S n) x) / (1 - x * x))
  /\ is_derive (legendre n) x ((INR n + 1) * (x * legendre n x - legendre (S n) x) / (1 - x * x)).
Proof.
  intros Hx. pose proof (den_pos x Hx) as Hd.
  induction n as [|n [IH1 IH2]].
  - split.
    + apply (is_derive_ext (fun y => y)); [reflexivity|].
      unfold legendre; simpl. auto_derive; [auto|]. field. lra.
    + apply (is_derive_ext (fun y => 1)); [reflexivity|].
      unfold legendre; simpl. auto_derive; [auto|]. field. lra.
  - pose proof (pos_INR n) as Hn. split.
    + apply (is_derive_ext (fun y => ((2 * INR n + 3) * y * legendre (S n) y - (INR n + 1) * legendre n y) / (INR n + 2))).
      { intros y. symmetry. apply legendre_SS. }
      assert (E1 : ex_derive (legendre (S n)) x) by (eexists; exact IH1).
      assert (E2 : ex_derive (legendre n) x) by (eexists; exact IH2).
      auto_derive; [auto|].
      rewrite (is_derive_unique (fun y : R => legendre n y) x _ IH2).
      rewrite (is_derive_unique (fun y : R => legendre (S n) y) x _ IH1).
      rewrite legendre_SS, S_INR. field. split; [|lra]. lra.
    + replace ((INR (S n) + 1) * (x * legendre (S n) x - legendre (S (S n)) x) / (1 - x * x))
        with ((INR n + 1) * (legendre n x - x * legendre (S n) x) / (1 - x * x)); [exact IH1|].
      rewrite legendre_SS, S_INR. field. split; lra.
Qed.

(** The code's derivative formulas, as functions of the abscissa. *)
Definition Ld1 n x := (INR n + 1) * (legendre n x - x * legendre (S n) x).
Definition Ldp n x := Ld1 n x * / (1 - x * x).
Definition Ld2 n x := (2 * x * Ldp n x - q_e1 (S n) * legendre (S n) x) * / (1 - x * x).
Definition Ld3 n x := (4 * x * Ld2 n x + (2 - q_e1 (S n)) * Ldp n x) * / (1 - x * x).
Definition Ld4 n x := (6 * x * Ld3 n x + (6 - q_e1 (S n)) * Ld2 n x) * / (1 - x * x).

Lemma q_locals_eq n x :
  q_locals (S n) x = mkQ (legendre (S n) x) (legendre n x) (Ld1 n x) (Ldp n x) (Ld2 n x) (Ld3 n x) (Ld4 n x).
Proof.
  unfold q_locals. rewrite leg_pair_legendre.
  unfold Ld4, Ld3, Ld2, Ldp, Ld1. rewrite S_INR. reflexivity.
Qed.

Section D.
Variable n : nat.
Variable x : R.
Hypothesis Hx : -1 < x < 1.

Lemma Ldp_derive : is_derive (legendre (S n)) x (Ldp n x).
Proof. unfold Ldp, Ld1. apply (legendre_derives n x Hx). Qed.

Lemma Ld1_derive : is_derive (Ld1 n) x (- q_e1 (S n) * legendre (S n) x).
Proof.
  destruct (legendre_derives n x Hx) as [D1 D2]. pose proof (den_pos x Hx).
  assert (ex_derive (legendre (S n)) x) by (eexists; exact D1).
  assert (ex_derive (legendre n) x) by (eexists; exact D2).
  unfold Ld1. auto_derive; [auto|].
  rewrite (is_derive_unique (fun y : R => legendre n y) x _ D2).
  rewrite (is_derive_unique (fun y : R => legendre (S n) y) x _ D1).
  unfold q_e1. rewrite S_INR. field. lra.
Qed.

Lemma Ld2_derive : is_derive (Ldp n) x (Ld2 n x).
Proof.
  pose proof (den_pos x Hx). assert (ex_derive (Ld1 n) x) by (eexists; exact Ld1_derive).
  unfold Ldp at 1. auto_derive; [split; [auto|split; [lra|auto]]|].
  rewrite (is_derive_unique (fun y : R => Ld1 n y) x _ Ld1_derive).
  unfold Ld2, Ldp. field. lra.
Qed.

Lemma Ld3_derive : is_derive (Ld2 n) x (Ld3 n x).
Proof.
  pose proof (den_pos x Hx). assert (ex_derive (Ldp n) x) by (eexists; exact Ld2_derive).
  assert (ex_derive (legendre (S n)) x) by (eexists; exact Ldp_derive).
  unfold Ld2 at 1. auto_derive; [repeat split; auto; lra|].
  rewrite (is_derive_unique (fun y : R => Ldp n y) x _ Ld2_derive).
  rewrite (is_derive_unique (fun y : R => legendre (S n) y) x _ Ldp_derive).
  unfold Ld3, Ld2. field. lra.
Qed.

Lemma Ld4_derive : is_derive (Ld3 n) x (Ld4 n x).
Proof.
  pose proof (den_pos x Hx). assert (ex_derive (Ldp n) x) by (eexists; exact Ld2_derive).
  assert (ex_derive (Ld2 n) x) by (eexists; exact Ld3_derive).
  unfold Ld3 at 1. auto_derive; [repeat split; auto; lra|].
  rewrite (is_derive_unique (fun y : R => Ldp n y) x _ Ld2_derive).
  rewrite (is_derive_unique (fun y : R => Ld2 n y) x _ Ld3_derive).
  unfold Ld4, Ld3. field. lra.
Qed.
End D.

Lemma locally_in x : -1 < x < 1 -> locally x (fun y => -1 < y < 1).
Proof. intros H. apply (open_and (fun y => -1 < y) (fun y => y < 1) (open_gt (-1)) (open_lt 1)). exact H. Qed.

Lemma Derive_chain (f g h : R -> R) x : -1 < x < 1 ->
  (forall y, -1 < y < 1 -> f y = g y) -> (forall y, -1 < y < 1 -> is_derive g y (h y)) -> Derive f x = h x.
Proof.
  intros Hx E D. rewrite (Derive_ext_loc f g).
  - apply is_derive_unique, D, Hx.
  - eapply filter_imp; [|apply (locally_in x Hx)]. auto.
Qed.

Lemma legendre_Derive_n n x : -1 < x < 1 ->
  Derive (legendre (S n)) x = Ldp n x /\ Derive_n (legendre (S n)) 2 x = Ld2 n x
  /\ Derive_n (legendre (S n)) 3 x = Ld3 n x /\ Derive_n (legendre (S n)) 4 x = Ld4 n x.
Proof.
  intros Hx.
  assert (A1 : forall y, -1 < y < 1 -> Derive (legendre (S n)) y = Ldp n y).
  { intros y Hy. apply is_derive_unique, Ldp_derive, Hy. }
  assert (A2 : forall y, -1 < y < 1 -> Derive_n (legendre (S n)) 2 y = Ld2 n y).
  { intros y Hy. simpl. apply (Derive_chain _ (Ldp n)); auto. intros; apply Ld2_derive; auto. }
  assert (A3 : forall y, -1 < y < 1 -> Derive_n (legendre (S n)) 3 y = Ld3 n y).
  { intros y Hy. change (Derive (Derive_n (legendre (S n)) 2) y = Ld3 n y).
    apply (Derive_chain _ (Ld2 n)); auto. intros; apply Ld3_derive; auto. }
  split; [auto|]. split; [auto|]. split; [auto|].
  change (Derive (Derive_n (legendre (S n)) 3) x = Ld4 n x).
  apply (Derive_chain _ (Ld3 n)); auto. intros; apply Ld4_derive; auto.
Qed.

(** ** Values at the centre and symmetry *)
Lemma legendre_0_pair k : legendre (2 * k) 0 <> 0 /\ legendre (S (2 * k)) 0 = 0.
Proof.
  induction k as [|k [IH1 IH2]]; [simpl; rewrite legendre_0, legendre_1; split; lra|].
  replace (2 * S k)%nat with (S (S (2 * k))) by lia.
  pose proof (pos_INR (2 * k)).
  assert (E : legendre (S (S (2 * k))) 0 = - (INR (2 * k) + 1) / (INR (2 * k) + 2) * legendre (2 * k) 0).
  { rewrite legendre_SS, IH2. field. lra. }
  split.
  - rewrite E. apply Rmult_integral_contrapositive_currified; [|exact IH1].
    unfold Rdiv. apply Rmult_integral_contrapositive_currified; [lra|apply Rinv_neq_0_compat; lra].
  - rewrite legendre_SS, IH2. rewrite S_INR. field. lra.
Qed.

Lemma legendre_parity n x : legendre n (- x) = (-1)^n * legendre n x /\ legendre (S n) (- x) = (-1)^(S n) * legendre (S n) x.
Proof.
  induction n as [|n [IH1 IH2]].
  - rewrite !legendre_0, !legendre_1. simpl. split; lra.
  - split; [exact IH2|]. rewrite !legendre_SS, IH1, IH2. simpl. pose proof (pos_INR n). field. lra.
Qed.

(** ** Exact roots are fixed points *)
Lemma q_h_root n r : -1 < r < 1 -> legendre (S n) r = 0 -> q_h (q_locals (S n) r) = 0.
Proof.
  intros Hr H0. rewrite q_locals_eq. unfold q_h, q_p, q_dp, q_h1. cbn [q_pk q_dpn q_d2 q_d3 q_d4].
  rewrite H0. rewrite !Rmult_0_l. ring.
Qed.

Lemma q_point_root n r : -1 < r < 1 -> legendre (S n) r = 0 ->
  q_point (S n) r = (- r, 2 / ((1 - r * r) * (Derive (legendre (S n)) r)^2)).
Proof.
  intros Hr H0. unfold q_point, q_iter. cbn [q_loop].
  rewrite (q_h_root n r Hr H0). rewrite !Rplus_0_r. rewrite (q_h_root n r Hr H0).
  rewrite !Rplus_0_r, Rminus_0_r. f_equal.
  unfold q_fx. rewrite q_locals_eq. cbn [q_pk q_dpn q_d2 q_d3 q_d4 q_d1].
  destruct (legendre_Derive_n n r Hr) as [E _]. rewrite E. unfold Ldp.
  pose proof (den_pos r Hr) as Hd.
  rewrite !Rmult_0_l, Rminus_0_r.
  destruct (Req_dec (Ld1 n r) 0) as [Z|Z].
  - rewrite Z. rewrite !Rmult_0_l. simpl. rewrite !Rmult_0_l, Rmult_0_r. unfold Rdiv. rewrite Rinv_0. ring.
  - field. split; [|exact Z]. nra.
Qed.

(** ** Shape *)
Lemma q_m_spec n : (2 * q_m n = n \/ 2 * q_m n = n + 1)%nat.
Proof.
  unfold q_m. pose proof (Nat.div_mod (n + 1) 2 ltac:(lia)).
  pose proof (Nat.mod_upper_bound (n + 1) 2 ltac:(lia)). lia.
Qed.

Lemma q_m2_spec n : (q_m n + q_m2 n = n)%nat \/ n = O.
Proof.
  unfold q_m2. destruct (q_m_spec n) as [E|E].
  - replace (Nat.eqb (q_m n + q_m n) n) with true by (symmetry; apply Nat.eqb_eq; lia). left. lia.
  - replace (Nat.eqb (q_m n + q_m n) n) with false by (symmetry; apply Nat.eqb_neq; lia). left. lia.
Qed.

Lemma q_centre_guard_false n : (1 <= n)%nat -> q_centre_guard n = false.
Proof. intros H. unfold q_centre_guard. apply Nat.ltb_ge. pose proof (q_m_spec n). lia. Qed.

Lemma q_rule_eq n : (1 <= n)%nat ->
  quadratureRule n =
  (q_bp_half n ++ map (fun j => - nth (q_m2 n - 1 - j) (q_bp_half n) 0) (seq 0 (q_m2 n)),
   q_wf_half n ++ map (fun j => nth (q_m2 n - 1 - j) (q_wf_half n) 0) (seq 0 (q_m2 n))).
Proof. intros H. unfold quadratureRule, q_centre. rewrite q_centre_guard_false by exact H. reflexivity. Qed.

Lemma q_bp_half_length n : length (q_bp_half n) = q_m n.
Proof. unfold q_bp_half. rewrite map_length, seq_length. reflexivity. Qed.
Lemma q_wf_half_length n : length (q_wf_half n) = q_m n.
Proof. unfold q_wf_half. rewrite map_length, seq_length. reflexivity. Qed.

Lemma q_rule_lengths n : (1 <= n)%nat ->
  length (fst (quadratureRule n)) = n /\ length (snd (quadratureRule n)) = n.
Proof.
  intros H. rewrite q_rule_eq by exact H. cbn [fst snd].
  rewrite !app_length, !map_length, !seq_length, q_bp_half_length, q_wf_half_length.
  destruct (q_m2_spec n) as [E|E]; lia.
Qed.

Lemma nth_map_seq0 (f : nat -> R) k i d : (i < k)%nat -> nth i (map f (seq 0 k)) d = f i.
Proof.
  intros Hi. rewrite (nth_indep _ d (f 0%nat)) by (rewrite map_length, seq_length; exact Hi).
  rewrite map_nth, seq_nth by exact Hi. reflexivity.
Qed.

(** second half *)
Lemma q_rule_mirror n i : (1 <= n)%nat -> (i < q_m2 n)%nat ->
  nth (n - 1 - i) (fst (quadratureRule n)) 0 = - nth i (fst (quadratureRule n)) 0
  /\ nth (n - 1 - i) (snd (quadratureRule n)) 0 = nth i (snd (quadratureRule n)) 0.
Proof.
  intros H Hi. rewrite q_rule_eq by exact H. cbn [fst snd].
  assert (Hm : (q_m2 n <= q_m n)%nat) by (unfold q_m2; destruct (Nat.eqb _ _); lia).
  destruct (q_m2_spec n) as [E|E]; [|lia].
  split.
  - rewrite app_nth2 by (rewrite q_bp_half_length; lia).
    rewrite q_bp_half_length, nth_map_seq0 by lia.
    rewrite app_nth1 by (rewrite q_bp_half_length; lia).
    do 2 f_equal. lia.
  - rewrite app_nth2 by (rewrite q_wf_half_length; lia).
    rewrite q_wf_half_length, nth_map_seq0 by lia.
    rewrite app_nth1 by (rewrite q_wf_half_length; lia).
    f_equal. lia.
Qed.

(** the centre of an odd rule *)
Lemma q_t_centre k : q_t (2 * k + 1) k = PI / 2.
Proof.
  unfold q_t. rewrite plus_INR, mult_INR. simpl. pose proof (pos_INR k). field. lra.
Qed.

Lemma q_x0_centre k : q_x0 (2 * k + 1) k = 0.
Proof. unfold q_x0. rewrite q_t_centre, cos_PI2. ring. Qed.

Lemma q_point_centre k :
  q_point (2 * k + 1) 0 = (0, 2 / (INR (2 * k + 1) * legendre (2 * k) 0)^2).
Proof.
  destruct (legendre_0_pair k) as [_ Z].
  replace (2 * k + 1)%nat with (S (2 * k)) by lia.
  rewrite q_point_root by (auto; lra).
  f_equal; [ring|].
  destruct (legendre_Derive_n (2 * k) 0 ltac:(lra)) as [E _]. rewrite E.
  unfold Ldp, Ld1. rewrite Rmult_0_l, !Rminus_0_r, Rinv_1, S_INR.
  f_equal. ring.
Qed.

Lemma odd_m k : q_m (2 * k + 1) = S k /\ q_m2 (2 * k + 1) = k.
Proof.
  assert (E : q_m (2 * k + 1) = S k) by (pose proof (q_m_spec (2 * k + 1)); lia).
  split; [exact E|]. unfold q_m2. rewrite E.
  replace (Nat.eqb (S k + S k) (2 * k + 1)) with false by (symmetry; apply Nat.eqb_neq; lia). lia.
Qed.

Lemma q_rule_centre k :
  nth k (fst (quadratureRule (2 * k + 1))) 0 = 0
  /\ nth k (snd (quadratureRule (2 * k + 1))) 0 = 2 / (INR (2 * k + 1) * legendre (2 * k) 0)^2.
Proof.
  rewrite q_rule_eq by lia. cbn [fst snd].
  destruct (odd_m k) as [E1 E2].
  rewrite !app_nth1 by (rewrite ?q_bp_half_length, ?q_wf_half_length; lia).
  unfold q_bp_half, q_wf_half. rewrite !nth_map_seq0 by lia.
  rewrite q_x0_centre, q_point_centre. split; reflexivity.
Qed.

Lemma q_rule_sym n i : (1 <= n)%nat -> (i < n)%nat ->
  nth (n - 1 - i) (fst (quadratureRule n)) 0 = - nth i (fst (quadratureRule n)) 0
  /\ nth (n - 1 - i) (snd (quadratureRule n)) 0 = nth i (snd (quadratureRule n)) 0.
Proof.
  intros Hn Hi. destruct (lt_dec i (q_m2 n)) as [H|H]; [apply q_rule_mirror; assumption|].
  destruct (lt_dec (n - 1 - i) (q_m2 n)) as [H'|H'].
  - destruct (q_rule_mirror n (n - 1 - i) Hn H') as [A B].
    replace (n - 1 - (n - 1 - i))%nat with i in * by lia. split; [lra|congruence].
  - destruct (q_m_spec n) as [E|E].
    + exfalso. revert H H'. unfold q_m2.
      replace (Nat.eqb (q_m n + q_m n) n) with true by (symmetry; apply Nat.eqb_eq; lia). lia.
    + assert (En : n = (2 * (q_m n - 1) + 1)%nat) by lia.
      destruct (odd_m (q_m n - 1)) as [_ E2]. rewrite <- En in E2. rewrite E2 in H, H'.
      assert (Ei : i = (q_m n - 1)%nat) by lia.
      destruct (q_rule_centre (q_m n - 1)) as [A B]. rewrite <- En in A, B.
      replace (n - 1 - i)%nat with i by lia. rewrite Ei. rewrite A, B. split; [lra|reflexivity].
Qed.

(** applying the rule *)
Lemma lsum_combine (f : R -> R) l1 l2 : length l1 = length l2 ->
  lsum (map (fun '(x, w) => w * f x) (combine l1 l2)) = fsum (length l1) (fun i => nth i l2 0 * f (nth i l1 0)).
Proof.
  revert l2. induction l1 as [|a l IH]; intros [|b l2] H; simpl in H; try lia; [reflexivity|].
  cbn [combine map lsum length]. rewrite fsum_shift. cbn [nth]. rewrite IH by lia. reflexivity.
Qed.

Lemma apply_rule_fsum n f : (1 <= n)%nat ->
  apply_rule (quadratureRule n) f
  = fsum n (fun i => nth i (snd (quadratureRule n)) 0 * f (nth i (fst (quadratureRule n)) 0)).
Proof.
  intros H. destruct (q_rule_lengths n H) as [A B].
  unfold apply_rule. rewrite lsum_combine by congruence. rewrite A. reflexivity.
Qed.

Lemma fsum_rev n f : fsum n f = fsum n (fun i => f (n - 1 - i)%nat).
Proof.
  induction n as [|n IH]; [reflexivity|].
  rewrite (fsum_shift n (fun i => f (S n - 1 - i)%nat)).
  rewrite fsum_S, IH. rewrite Rplus_comm. f_equal; [f_equal; lia|].
  apply fsum_ext. intros i Hi. f_equal. lia.
Qed.

Lemma rule_odd n f : (1 <= n)%nat -> (forall x, f (- x) = - f x) ->
  apply_rule (quadratureRule n) f = 0.
Proof.
  intros H Hf. rewrite apply_rule_fsum by exact H.
  set (g := fun i => _). assert (E : fsum n g = - fsum n g).
  { rewrite (fsum_rev n g) at 1. rewrite <- fsum_opp. apply fsum_ext. intros i Hi.
    unfold g. destruct (q_rule_sym n i H Hi) as [A B]. rewrite A, B, Hf. ring. }
  lra.
Qed.

(** ** The predictor polynomials *)
Lemma q_p_taylor n x h : -1 < x < 1 ->
  q_p (q_locals (S n) x) h = taylor4 (legendre (S n)) x h + 33 / 8 * h^4 * Derive_n (legendre (S n)) 4 x.
Proof.
  intros Hx. destruct (legendre_Derive_n n x Hx) as (E1 & E2 & E3 & E4).
  unfold taylor4. rewrite E1, E2, E3, E4, q_locals_eq. unfold q_p. cbn [q_pk q_dpn q_d2 q_d3 q_d4].
  field.
Qed.

Lemma q_dp_taylor n x h : -1 < x < 1 ->
  q_dp (q_locals (S n) x) h =
  Derive (legendre (S n)) x + h * Derive_n (legendre (S n)) 2 x
  + h^2 / 2 * Derive_n (legendre (S n)) 3 x + h^3 / 6 * Derive_n (legendre (S n)) 4 x.
Proof.
  intros Hx. destruct (legendre_Derive_n n x Hx) as (E1 & E2 & E3 & E4).
  rewrite E1, E2, E3, E4, q_locals_eq. unfold q_dp. cbn [q_pk q_dpn q_d2 q_d3 q_d4].
  field.
Qed.

(** fx is the fifth-order Taylor polynomial of (1-x^2) P_n'(x). *)
Lemma q_fx_taylor n x h : -1 < x < 1 ->
  let g := fun y => (1 - y * y) * Derive (legendre (S n)) y in
  q_fx (S n) (q_locals (S n) x) h =
  g x + h * Derive g x + h^2 / 2 * Derive_n g 2 x + h^3 / 6 * Derive_n g 3 x
  + h^4 / 24 * Derive_n g 4 x + h^5 / 120 * Derive_n g 5 x.
Proof.
  intros Hx g. set (e := q_e1 (S n)).
  assert (G0 : forall y, -1 < y < 1 -> g y = Ld1 n y).
  { intros y Hy. unfold g. destruct (legendre_Derive_n n y Hy) as [E _]. rewrite E.
    unfold Ldp. pose proof (den_pos y Hy). field. lra. }
  assert (sc : forall f l y, is_derive f y l -> is_derive (fun z => - e * f z) y (- e * l)).
  { intros f l y D. apply (is_derive_scal f y (- e) l D). }
  assert (G1 : forall y, -1 < y < 1 -> Derive g y = - e * legendre (S n) y).
  { intros y Hy. apply (Derive_chain g (Ld1 n) (fun y => - e * legendre (S n) y)); auto.
    intros; apply Ld1_derive; auto. }
  assert (G2 : forall y, -1 < y < 1 -> Derive_n g 2 y = - e * Ldp n y).
  { intros y Hy. simpl. apply (Derive_chain _ (fun y => - e * legendre (S n) y) (fun y => - e * Ldp n y)); auto.
    intros z Hz; apply sc, Ldp_derive, Hz. }
  assert (G3 : forall y, -1 < y < 1 -> Derive_n g 3 y = - e * Ld2 n y).
  { intros y Hy. change (Derive (Derive_n g 2) y = - e * Ld2 n y).
    apply (Derive_chain _ (fun y => - e * Ldp n y) (fun y => - e * Ld2 n y)); auto.
    intros z Hz; apply sc, Ld2_derive, Hz. }
  assert (G4 : forall y, -1 < y < 1 -> Derive_n g 4 y = - e * Ld3 n y).
  { intros y Hy. change (Derive (Derive_n g 3) y = - e * Ld3 n y).
    apply (Derive_chain _ (fun y => - e * Ld2 n y) (fun y => - e * Ld3 n y)); auto.
    intros z Hz; apply sc, Ld3_derive, Hz. }
  assert (G5 : Derive_n g 5 x = - e * Ld4 n x).
  { change (Derive (Derive_n g 4) x = - e * Ld4 n x).
    apply (Derive_chain _ (fun y => - e * Ld3 n y) (fun y => - e * Ld4 n y)); auto.
    intros z Hz; apply sc, Ld4_derive, Hz. }
  rewrite G0, G1, G2, G3, G4, G5 by exact Hx.
  rewrite q_locals_eq. unfold q_fx. cbn [q_pk q_dpn q_d2 q_d3 q_d4 q_d1]. fold e. field.
Qed.

(** starting points are inside (-1,1) *)
Lemma q_nn_bounds n : (1 <= n)%nat -> 0 < q_nn n <= 1.
Proof.
  intros H. assert (Hn : 1 <= INR n) by (apply (le_INR 1); exact H).
  unfold q_nn.
  assert (A : 0 <= 1 - / INR n < 1).
  { assert (/ INR n <= 1) by (rewrite <- Rinv_1; apply Rinv_le_contravar; lra).
    assert (0 < / INR n) by (apply Rinv_0_lt_compat; lra). lra. }
  assert (B : 0 < / (8 * INR n * INR n) <= 1/8).
  { assert (P : 8 <= 8 * INR n * INR n) by nra. split; [apply Rinv_0_lt_compat; lra|].
    replace (1/8) with (/ 8) by lra. apply Rinv_le_contravar; lra. }
  nra.
Qed.

Lemma q_t_bounds n j : (1 <= n)%nat -> (j < q_m n)%nat -> 0 < q_t n j <= PI / 2.
Proof.
  intros H Hj. pose proof PI_RGT_0 as HP. pose proof (pos_INR j) as Hj0.
  assert (Hn : 1 <= INR n) by (apply (le_INR 1); exact H).
  assert (Hjn : 2 * INR j + 1 <= INR n).
  { pose proof (q_m_spec n). replace (2 * INR j + 1) with (INR (2 * j + 1)) by (rewrite plus_INR, mult_INR; simpl; lra).
    apply le_INR. lia. }
  unfold q_t. assert (I : 0 < / (4 * INR n + 2)) by (apply Rinv_0_lt_compat; lra). split.
  - apply Rmult_lt_0_compat; [apply Rmult_lt_0_compat; lra|lra].
  - replace (PI / 2) with (PI * / (4 * INR n + 2) * (2 * INR n + 1)) by (field; lra).
    apply Rmult_le_compat_l; [|lra]. apply Rlt_le, Rmult_lt_0_compat; lra.
Qed.

Lemma q_x0_in n j : (1 <= n)%nat -> (j < q_m n)%nat -> -1 < q_x0 n j < 1 /\ 0 <= q_x0 n j.
Proof.
  intros H Hj. destruct (q_nn_bounds n H) as [A B]. destruct (q_t_bounds n j H Hj) as [C D].
  pose proof PI_RGT_0.
  assert (E : 0 <= cos (q_t n j)) by (apply cos_ge_0; lra).
  assert (F : cos (q_t n j) < 1).
  { rewrite <- cos_0. apply cos_decreasing_1; lra. }
  unfold q_x0. nra.
Qed.

Lemma q_x0_decr n i j : (1 <= n)%nat -> (i < j)%nat -> (j < q_m n)%nat -> q_x0 n j < q_x0 n i.
Proof.
  intros H Hij Hj. destruct (q_nn_bounds n H) as [A B].
  destruct (q_t_bounds n i H ltac:(lia)) as [C D]. destruct (q_t_bounds n j H Hj) as [C' D'].
  pose proof PI_RGT_0. pose proof (pos_INR n).
  unfold q_x0. apply Rmult_lt_compat_l; [exact A|].
  apply cos_decreasing_1; try lra. unfold q_t. apply Rmult_lt_compat_l.
  - apply Rmult_lt_0_compat; [lra|apply Rinv_0_lt_compat; lra].
  - assert (INR i < INR j) by (apply lt_INR; exact Hij). lra.
Qed.

Lemma rule_one : quadratureRule 1 = ([0], [2]).
Proof.
  rewrite q_rule_eq by lia. change (q_m2 1) with 0%nat. cbn [seq map]. rewrite !app_nil_r.
  unfold q_bp_half, q_wf_half. change (q_m 1) with 1%nat. cbn [seq map].
  pose proof (q_x0_centre 0) as E. cbn [Nat.mul Nat.add] in E. rewrite E.
  pose proof (q_point_centre 0) as P. cbn [Nat.mul Nat.add] in P. rewrite P. cbn [fst snd].
  rewrite legendre_0. f_equal. f_equal. simpl. field.
Qed.
