(** C44, C72: Gauss-Legendre quadrature. *)
From Coquelicot Require Import Coquelicot.
From Verif Require Import Base Quad QuadSpec QuadProofs.
Open Scope R_scope.

(** C44: n points and n weights. *)
Theorem C44_lengths : forall n, (1 <= n)%nat ->
  List.length (fst (quadratureRule n)) = n /\ List.length (snd (quadratureRule n)) = n.
Proof. exact q_rule_lengths. Qed.
Print Assumptions C44_lengths.

(** C44: antisymmetric points and symmetric weights, for every n (in particular
    the middle point of an odd rule is exactly 0). *)
Theorem C44_symmetric : forall n i, (1 <= n)%nat -> (i < n)%nat ->
  nth (n - 1 - i) (fst (quadratureRule n)) 0 = - nth i (fst (quadratureRule n)) 0
  /\ nth (n - 1 - i) (snd (quadratureRule n)) 0 = nth i (snd (quadratureRule n)) 0.
Proof. exact q_rule_sym. Qed.
Print Assumptions C44_symmetric.

Theorem C44_odd_integrand_zero : forall n f, (1 <= n)%nat -> (forall x, f (- x) = - f x) ->
  apply_rule (quadratureRule n) f = 0.
Proof. exact rule_odd. Qed.
Print Assumptions C44_odd_integrand_zero.

Theorem C44_centre_branch_unreachable : forall n, (1 <= n)%nat -> q_centre_guard n = false.
Proof. exact q_centre_guard_false. Qed.
Print Assumptions C44_centre_branch_unreachable.

Theorem C44_odd_rule_centre : forall k,
  nth k (fst (quadratureRule (2 * k + 1))) 0 = 0
  /\ nth k (snd (quadratureRule (2 * k + 1))) 0
     = 2 / ((1 - 0 * 0) * (Derive (legendre (2 * k + 1)) 0)^2)
  /\ Derive (legendre (2 * k + 1)) 0 <> 0.
Proof.
  intros k. destruct (q_rule_centre k) as [A B].
  destruct (legendre_Derive_n (2 * k) 0 ltac:(lra)) as [E _].
  replace (2 * k + 1)%nat with (S (2 * k)) in * by lia.
  assert (D : Derive (legendre (S (2 * k))) 0 = INR (S (2 * k)) * legendre (2 * k) 0).
  { rewrite E. unfold Ldp, Ld1. rewrite S_INR. field. }
  rewrite D. split; [exact A|]. split; [rewrite B; f_equal; ring|].
  apply Rmult_integral_contrapositive_currified; [apply not_0_INR; lia|].
  apply legendre_0_pair.
Qed.
Print Assumptions C44_odd_rule_centre.

(** C72: the inner recursion is Bonnet's: it evaluates the Legendre polynomials. *)
Theorem C72_recursion_is_legendre : forall n x, (1 <= n)%nat ->
  q_pk (q_locals n x) = legendre n x /\ q_pkm1 (q_locals n x) = legendre (n - 1) x.
Proof.
  intros [|n] x H; [lia|]. rewrite q_locals_eq. cbn [q_pk q_pkm1]. replace (S n - 1)%nat with n by lia. auto.
Qed.
Print Assumptions C72_recursion_is_legendre.

(** C72: the four derivative values are the exact derivatives. *)
Theorem C72_derivatives_exact : forall n x, (1 <= n)%nat -> -1 < x < 1 ->
  is_derive (legendre n) x (q_dpn (q_locals n x))
  /\ q_d2 (q_locals n x) = Derive_n (legendre n) 2 x
  /\ q_d3 (q_locals n x) = Derive_n (legendre n) 3 x
  /\ q_d4 (q_locals n x) = Derive_n (legendre n) 4 x.
Proof.
  intros [|n] x H Hx; [lia|]. destruct (legendre_Derive_n n x Hx) as (E1 & E2 & E3 & E4).
  rewrite q_locals_eq. cbn [q_dpn q_d2 q_d3 q_d4]. split; [apply Ldp_derive, Hx|]. repeat split; symmetry; assumption.
Qed.
Print Assumptions C72_derivatives_exact.

(** C72: starting abscissas are distinct, decreasing and in [0,1), so no division by 1-x^2 = 0 in the first pass. *)
Theorem C72_start_points : forall n, (1 <= n)%nat ->
  (forall j, (j < q_m n)%nat -> 0 <= q_x0 n j < 1)
  /\ (forall i j, (i < j)%nat -> (j < q_m n)%nat -> q_x0 n j < q_x0 n i).
Proof.
  intros n H. split.
  - intros j Hj. destruct (q_x0_in n j H Hj). lra.
  - intros; apply q_x0_decr; assumption.
Qed.
Print Assumptions C72_start_points.

(** C72: an exact root is a fixed point of the correction, with the exact
    Gauss-Legendre weight. *)
Theorem C72_root_fixed : forall n r, (1 <= n)%nat -> -1 < r < 1 -> legendre n r = 0 ->
  q_point n r = (- r, 2 / ((1 - r * r) * (Derive (legendre n) r)^2)).
Proof. intros [|n] r H; [lia|]. apply q_point_root. Qed.
Print Assumptions C72_root_fixed.

(** C72: fx is the fifth-order Taylor polynomial of (1-x^2) P_n'. *)
Theorem C72_weight_expansion : forall n x h, (1 <= n)%nat -> -1 < x < 1 ->
  let g := fun y => (1 - y * y) * Derive (legendre n) y in
  q_fx n (q_locals n x) h =
  g x + h * Derive g x + h^2 / 2 * Derive_n g 2 x + h^3 / 6 * Derive_n g 3 x
  + h^4 / 24 * Derive_n g 4 x + h^5 / 120 * Derive_n g 5 x.
Proof. intros [|n] x h H; [lia|]. apply q_fx_taylor. Qed.
Print Assumptions C72_weight_expansion.

(** C72: the derivative predictor is the third-order Taylor polynomial of P_n'. *)
Theorem C72_derivative_predictor : forall n x h, (1 <= n)%nat -> -1 < x < 1 ->
  q_dp (q_locals n x) h =
  Derive (legendre n) x + h * Derive_n (legendre n) 2 x
  + h^2 / 2 * Derive_n (legendre n) 3 x + h^3 / 6 * Derive_n (legendre n) 4 x.
Proof. intros [|n] x h H; [lia|]. apply q_dp_taylor. Qed.
Print Assumptions C72_derivative_predictor.

(** C72: the value predictor is NOT the fourth-order Taylor polynomial of P_n
    (Davis and Rabinowitz's formula has 0.25 where the code has 25): it is off by
    33/8 h^4 times the fourth derivative, hence right only when that product
    vanishes. *)
Theorem C72_value_predictor_refuted : forall n x h, (1 <= n)%nat -> -1 < x < 1 ->
  q_p (q_locals n x) h - taylor4 (legendre n) x h = 33 / 8 * h^4 * Derive_n (legendre n) 4 x
  /\ (q_p (q_locals n x) h = taylor4 (legendre n) x h <-> h = 0 \/ Derive_n (legendre n) 4 x = 0).
Proof.
  intros [|n] x h H Hx; [lia|]. rewrite (q_p_taylor n x h Hx). split; [ring|]. split.
  - intros E. assert (Z : h^4 * Derive_n (legendre (S n)) 4 x = 0) by lra.
    apply Rmult_integral in Z. destruct Z as [Z|Z]; [left|right; exact Z].
    destruct (Req_dec h 0) as [|Hh]; [assumption|]. exfalso. exact (pow_nonzero h 4 Hh Z).
  - intros [->| ->]; ring.
Qed.
Print Assumptions C72_value_predictor_refuted.

(** Witness: for n = 4 the fourth derivative is 105 everywhere, and the Taylor
    polynomial is P_4 itself; so the prediction is wrong for every h <> 0. *)
Theorem C72_value_predictor_witness : forall x h, -1 < x < 1 ->
  taylor4 (legendre 4) x h = legendre 4 (x + h)
  /\ q_p (q_locals 4 x) h = legendre 4 (x + h) + 33 / 8 * 105 * h^4.
Proof.
  intros x h Hx. pose proof (den_pos x Hx) as Hd.
  destruct (legendre_Derive_n 3 x Hx) as (E1 & E2 & E3 & E4).
  assert (T : taylor4 (legendre 4) x h = legendre 4 (x + h)).
  { unfold taylor4. rewrite E1, E2, E3, E4.
    unfold Ld4, Ld3, Ld2, Ldp, Ld1, q_e1, legendre. simpl. field. lra. }
  split; [exact T|]. rewrite (q_p_taylor 3 x h Hx), T, E4.
  unfold Ld4, Ld3, Ld2, Ldp, Ld1, q_e1, legendre. simpl. field. lra.
Qed.
Print Assumptions C72_value_predictor_witness.

(** C72: the one-point rule is the midpoint rule, exact for affine integrands. *)
Theorem C72_one_point_rule : quadratureRule 1 = ([0], [2])
  /\ forall a b, apply_rule (quadratureRule 1) (fun x => a + b * x) = RInt (fun x => a + b * x) (-1) 1.
Proof.
  split; [exact rule_one|]. intros a b. rewrite rule_one.
  unfold apply_rule. cbn [fst snd combine map lsum].
  symmetry. apply is_RInt_unique.
  replace (2 * (a + b * 0) + 0) with (minus ((fun x => a * x + b * x^2 / 2) 1) ((fun x => a * x + b * x^2 / 2) (-1)))
    by (unfold minus, plus, opp; simpl; field).
  apply (is_RInt_derive (fun x => a * x + b * x^2 / 2)).
  - intros y _. auto_derive; [auto|]. field.
  - intros y _. apply (ex_derive_continuous (fun x => a + b * x)). auto_derive. auto.
Qed.
Print Assumptions C72_one_point_rule.

(** Non-vacuity: n = 3 has the exact roots 0 and sqrt(3/5), and the fixed-point
    theorem gives the textbook weights 8/9 and 5/9. *)
Example C72_three_point : let r := sqrt (3/5) in
  legendre 3 r = 0 /\ q_point 3 r = (- r, 5/9) /\ q_point 3 0 = (-0, 8/9).
Proof.
  intros r. assert (R2 : r * r = 3/5) by (apply sqrt_sqrt; lra).
  assert (Hr : 0 <= r) by apply sqrt_pos.
  assert (Hb : -1 < r < 1) by nra.
  assert (Z : legendre 3 r = 0).
  { unfold legendre; simpl. replace ((1+1+1) ) with 3 by lra.
    match goal with |- ?l = 0 => replace l with (r * (5 * (r * r) - 3) / 2) by (field) end. rewrite R2. lra. }
  split; [exact Z|]. split.
  - rewrite C72_root_fixed by (auto; lia). f_equal.
    destruct (legendre_Derive_n 2 r Hb) as [E _]. rewrite E. unfold Ldp, Ld1.
    rewrite Z. unfold legendre; simpl.
    match goal with |- 2 / ?d = _ => replace d with ((3 * ((3 * (r * r) - 1) / 2))^2 / (1 - r * r)) end.
    + rewrite R2. field.
    + field. nra.
  - rewrite C72_root_fixed; [|lia|lra|unfold legendre; simpl; field]. f_equal.
    destruct (legendre_Derive_n 2 0 ltac:(lra)) as [E _]. rewrite E. unfold Ldp, Ld1.
    unfold legendre; simpl. field.
Qed.
