(** Lemmas for C118. *)
From Coquelicot Require Import Coquelicot.
From Flocq Require Import Core Relative.
From Verif Require Import Base Ext Gauss StochModel LimitState Transf Form Sorm Mc McProofs McFloat McFloatSpec.
From Coq Require Import ZArith Lra Lia.
Open Scope R_scope.

Notation fmt := (generic_format radix2 fexp64).
Global Instance fexp64_valid : Valid_exp fexp64.
Proof. apply FLT_exp_valid. unfold Prec_gt_0. lia. Qed.
Global Instance prec53 : Prec_gt_0 53. Proof. unfold Prec_gt_0. lia. Qed.

Lemma double_fmt x : double x <-> fmt x.
Proof.
  split.
  - intros (m & e & E & Hm & He). apply generic_format_FLT. exists (Float radix2 m e); [|exact Hm|exact He]. rewrite E. unfold F2R. cbn [Fnum Fexp]. rewrite bpow_powerRZ. reflexivity.
  - intros H. apply (FLT_format_generic radix2 (-1074) 53) in H. destruct H as [[m e] E Hm He]. exists m, e. cbn in Hm, He. split; [|split; [exact Hm|exact He]]. rewrite E. unfold F2R. cbn [Fnum Fexp]. rewrite bpow_powerRZ. reflexivity.
Qed.
Lemma faithful_round v y : faithful v y -> y = round radix2 fexp64 Zfloor v \/ y = round radix2 fexp64 Zceil v.
Proof.
  intros (D & [[L H]|[L H]]); apply double_fmt in D; [left|right].
  - apply (Rnd_DN_pt_unique fmt v); [|apply round_DN_pt; typeclasses eauto]. split; [exact D|split; [exact L|]]. intros g Fg. apply H, double_fmt, Fg.
  - apply (Rnd_UP_pt_unique fmt v); [|apply round_UP_pt; typeclasses eauto]. split; [exact D|split; [exact L|]]. intros g Fg. apply H, double_fmt, Fg.
Qed.
Lemma rnd_fmt x : fmt (rnd x). Proof. apply generic_format_round; typeclasses eauto. Qed.
Lemma rnd_le x y : x <= y -> rnd x <= rnd y. Proof. apply round_le; typeclasses eauto. Qed.
Lemma rnd_id x : fmt x -> rnd x = x. Proof. apply round_generic. typeclasses eauto. Qed.
Lemma rnd_0 : rnd 0 = 0. Proof. apply round_0. typeclasses eauto. Qed.
Lemma rnd_nonneg x : 0 <= x -> 0 <= rnd x. Proof. intros H. rewrite <- rnd_0. apply rnd_le, H. Qed.
Lemma rnd_nearest x : nearest x (rnd x).
Proof.
  split; [apply double_fmt, rnd_fmt|]. intros z Hz. apply double_fmt in Hz. destruct (round_N_pt radix2 fexp64 (fun x => negb (Z.even x)) x) as [_ H]. apply H, Hz.
Qed.
Lemma faithful_le v y z : faithful v y -> fmt z -> v <= z -> y <= z.
Proof. intros (_ & [[L H]|[L H]]) Fz Hz; [lra|]. apply H; [apply double_fmt, Fz|exact Hz]. Qed.
Lemma faithful_ge v y z : faithful v y -> fmt z -> z <= v -> z <= y.
Proof. intros (_ & [[L H]|[L H]]) Fz Hz; [apply H; [apply double_fmt, Fz|exact Hz]|lra]. Qed.
Lemma faithful_id v y : faithful v y -> fmt v -> y = v.
Proof. intros F Fv. apply Rle_antisym; [apply (faithful_le v y v F Fv)|apply (faithful_ge v y v F Fv)]; lra. Qed.
Lemma faithful_fmt v y : faithful v y -> fmt y. Proof. intros (D & _). apply double_fmt, D. Qed.
Lemma fmt_pow e : (-1074 <= e)%Z -> fmt (bpow radix2 e).
Proof. intros H. apply generic_format_bpow. unfold fexp64, FLT_exp. apply Z.max_lub; lia. Qed.
Lemma fmt_1 : fmt 1. Proof. apply (fmt_pow 0). lia. Qed.
Lemma fmt_0 : fmt 0. Proof. apply generic_format_0. Qed.

(** the relative errors *)
Definition u : R := bpow radix2 (-53).
Lemma u_eq : u = / 9007199254740992. Proof. unfold u. cbn. lra. Qed.
Definition near (c x y : R) : Prop := Rabs (y - x) <= c * u * Rabs x.
Definition big (x : R) : Prop := bpow radix2 (-1022) <= Rabs x.
Lemma rnd_near x : big x -> near 1 x (rnd x).
Proof.
  intros B. unfold near. pose proof (relative_error_N_FLT radix2 (-1074) 53 ltac:(unfold Prec_gt_0; lia) (fun x => negb (Z.even x)) x B) as H.
  assert (E : bpow radix2 (- (53) + 1) = 2 * u) by (unfold u; cbn; lra). rewrite E in H. unfold rnd. change fexp64 with (FLT_exp (-1074) 53). lra.
Qed.
Lemma faithful_near v y : big v -> faithful v y -> near 2 v y.
Proof.
  intros B F. unfold near. replace (2 * u) with (bpow radix2 (-53 + 1)) by (unfold u; cbn; lra).
  destruct (faithful_round v y F) as [-> | ->]; left; apply (relative_error_FLT radix2 (-1074) 53 ltac:(unfold Prec_gt_0; lia)); [typeclasses eauto|exact B|typeclasses eauto|exact B].
Qed.

(** error algebra: near c means a factor 1 + t with |t| <= c u *)
Lemma near_fac c x y : 0 <= c -> near c x y -> exists t, y = x * (1 + t) /\ Rabs t <= c * u.
Proof.
  intros Hc H. destruct (Req_dec x 0) as [->|Nx].
  - exists 0. unfold near in H. rewrite Rabs_R0, Rmult_0_r in H. assert (y - 0 = 0) by (pose proof (Rabs_pos (y - 0)); destruct (Req_dec (y - 0) 0) as [E|E]; [exact E|apply Rabs_pos_lt in E; lra]).
    split; [lra|]. rewrite Rabs_R0. apply Rmult_le_pos; [exact Hc|rewrite u_eq; lra].
  - exists ((y - x) / x). split; [field; exact Nx|]. unfold Rdiv. rewrite Rabs_mult, Rabs_inv. apply (Rmult_le_reg_r (Rabs x)); [apply Rabs_pos_lt, Nx|]. rewrite Rmult_assoc, Rinv_l, Rmult_1_r; [exact H|]. apply Rabs_no_R0, Nx.
Qed.
Lemma fac_mul a b s t : Rabs s <= a * u -> Rabs t <= b * u -> 0 <= a <= 32 -> 0 <= b <= 32 -> Rabs ((1 + s) * (1 + t) - 1) <= (a + b + / 1000) * u.
Proof.
  intros Hs Ht Ha Hb. replace ((1 + s) * (1 + t) - 1) with (s + t + s * t) by ring.
  pose proof (Rabs_triang (s + t) (s * t)). pose proof (Rabs_triang s t). rewrite Rabs_mult in H.
  assert (U : 0 < u < / 10000000) by (rewrite u_eq; lra).
  assert (X : Rabs s * Rabs t <= (32 * u) * (32 * u)) by (apply Rmult_le_compat; try apply Rabs_pos; nra).
  nra.
Qed.
Lemma u_pos : 0 < u < / 10000000. Proof. rewrite u_eq. lra. Qed.
Lemma fac_inv a t : Rabs t <= a * u -> 0 <= a <= 32 -> Rabs (/ (1 + t) - 1) <= (a + / 1000) * u.
Proof.
  intros Ht Ha. pose proof u_pos as U. apply Rabs_le_between in Ht. assert (T : Rabs t <= / 100000) by (apply Rabs_le; nra). apply Rabs_le_between in T.
  assert (D : 0 < 1 + t) by lra. replace (/ (1 + t) - 1) with (- t * / (1 + t)) by (field; lra).
  assert (I : 0 < / (1 + t) <= 1 + / 50000). { split; [apply Rinv_0_lt_compat, D|]. apply (Rmult_le_reg_r (1 + t)); [exact D|]. rewrite Rinv_l by lra. lra. }
  rewrite Rabs_mult, Rabs_Ropp, (Rabs_right (/ (1 + t))) by lra. assert (Rabs t <= a * u) by (apply Rabs_le; lra). pose proof (Rabs_pos t).
  assert (Rabs t * / (1 + t) <= (a * u) * (1 + / 50000)) by (apply Rmult_le_compat; lra). nra.
Qed.
Lemma fac_sqrt a t : Rabs t <= a * u -> 0 <= a <= 32 -> Rabs (sqrt (1 + t) - 1) <= a * u.
Proof.
  intros Ht Ha. pose proof u_pos as U. assert (T : Rabs t <= / 100000) by nra. apply Rabs_le_between in T.
  assert (S : 0 <= sqrt (1 + t)) by apply sqrt_pos. pose proof (sqrt_sqrt (1 + t) ltac:(lra)) as SS.
  assert (E : sqrt (1 + t) - 1 = t * / (sqrt (1 + t) + 1)). { apply (Rmult_eq_reg_r (sqrt (1 + t) + 1)); [|lra]. rewrite Rmult_assoc, Rinv_l by lra. replace ((sqrt (1 + t) - 1) * (sqrt (1 + t) + 1)) with (sqrt (1 + t) * sqrt (1 + t) - 1) by ring. rewrite SS. ring. }
  rewrite E, Rabs_mult. assert (I : 0 < / (sqrt (1 + t) + 1) <= 1). { split; [apply Rinv_0_lt_compat; lra|]. apply (Rmult_le_reg_r (sqrt (1 + t) + 1)); [lra|]. rewrite Rinv_l by lra. lra. }
  rewrite (Rabs_right (/ _)) by lra. pose proof (Rabs_pos t). nra.
Qed.
Lemma big_of x : u ^ 8 <= x -> big x.
Proof.
  intros H. unfold big. assert (P : 0 <= u ^ 8) by (apply pow_le; pose proof u_pos; lra). rewrite Rabs_right by lra.
  apply (Rle_trans _ (u ^ 8)); [|exact H]. unfold u. replace (bpow radix2 (-53) ^ 8) with (bpow radix2 (-424)); [apply bpow_le; lia|].
  change (-424)%Z with (-53 + (-53 + (-53 + (-53 + (-53 + (-53 + (-53 + -53)))))))%Z. rewrite !bpow_plus. cbn [pow]. ring.
Qed.
Lemma fac_rnd x : u ^ 8 <= x -> exists t, rnd x = x * (1 + t) /\ Rabs t <= 1 * u.
Proof. intros H. apply near_fac; [lra|]. apply rnd_near, big_of, H. Qed.
Lemma fac_faithful v y : u ^ 8 <= v -> faithful v y -> exists t, y = v * (1 + t) /\ Rabs t <= 2 * u.
Proof. intros H F. apply near_fac; [lra|]. apply faithful_near; [apply big_of, H|exact F]. Qed.

Lemma sc x t : 0 <= x -> Rabs t <= / 100 -> x * (99 / 100) <= x * (1 + t) <= x * (101 / 100).
Proof. intros Hx Ht. apply Rabs_le_between in Ht. nra. Qed.
Lemma cu c t : Rabs t <= c * u -> 0 <= c <= 32 -> Rabs t <= / 100.
Proof. intros H Hc. pose proof u_pos. nra. Qed.
Lemma mono_r a x y : 0 <= a -> x <= y -> a * x <= a * y. Proof. intros. nra. Qed.

Section Acc.
  Variables (recip : Z -> R) (sq inv : R -> R).
  Hypothesis Hrecip : forall k, (1 <= k <= 2 ^ 53)%Z -> faithful (/ IZR k) (recip k).
  Hypothesis Hsq : forall q, 0 < q <= 2 -> faithful (q * q) (sq q).
  Hypothesis Hinv : forall q, 0 < q <= 2 -> faithful (/ q) (inv q).

  Lemma accuracy (k s : Z) : (1 <= s)%Z -> (2 * s <= k)%Z -> (k <= 2 ^ 53)%Z ->
    let Q := IZR s / IZR k in let r := fl_update recip sq inv k (IZR s) in
    Rabs (fst r - Q) <= 4 * u * Q /\ exists c, snd r = Some c /\ Rabs (c - sqrt (Q * (1 - Q) / IZR k) / Q) <= 20 * u * (sqrt (Q * (1 - Q) / IZR k) / Q).
  Proof.
    intros Hs Hk Hk2 Q r. pose proof u_pos as U.
    assert (S1 : 1 <= IZR s) by (apply IZR_le; exact Hs). assert (K1 : 2 * IZR s <= IZR k) by (rewrite <- mult_IZR; apply IZR_le; exact Hk).
    assert (K2 : IZR k * u <= 1). { apply IZR_le in Hk2. rewrite u_eq. change (2 ^ 53)%Z with 9007199254740992%Z in Hk2. lra. }
    assert (KP : 0 < IZR k) by lra. set (i := / IZR k).
    assert (IP : 0 < i) by (apply Rinv_0_lt_compat, KP). assert (KI : IZR k * i = 1) by (unfold i; field; lra).
    assert (IU : u <= i) by nra. assert (I1 : i <= / 2) by nra.
    assert (QE : Q = i * IZR s) by (unfold Q, i; field; lra). assert (QU : u <= Q) by nra. assert (Q2 : Q <= / 2) by nra.
    assert (UU : forall n m, (m <= n)%nat -> u ^ n <= u ^ m).
    { intros n m L. replace n with (m + (n - m))%nat by lia. rewrite pow_add. pose proof (pow_lt u m (proj1 U)). assert (u ^ (n - m) <= 1 ^ (n - m)) by (apply pow_incr; lra). rewrite pow1 in H0. nra. }
    assert (u2 : u ^ 2 = u * u) by ring. assert (u3 : u ^ 3 = u * u * u) by ring. assert (P2 : 0 < u * u) by nra. assert (P3 : 0 < u * u * u) by nra.
    assert (W1 : u ^ 8 <= u) by (rewrite <- (pow_1 u) at 2; apply UU; lia). assert (W3 : u ^ 8 <= u * u * u) by (rewrite <- u3; apply UU; lia).
    assert (W5 : u ^ 8 <= u * u * u * u * u) by (replace (u * u * u * u * u) with (u ^ 5) by ring; apply UU; lia).
    assert (W2 : u ^ 8 <= u * / 10) by (clear - W3 U P2; nra).
    destruct (fac_faithful i (recip k)) as (e1 & A & E1); [lra|apply Hrecip; split; [apply le_IZR; lra|exact Hk2]|].
    set (a := recip k) in *.
    assert (AI : i * (99 / 100) <= a <= i * (101 / 100)) by (rewrite A; apply sc; [lra|exact (cu _ _ E1 ltac:(lra))]).
    assert (as_ : Q * (99 / 100) <= a * IZR s <= Q * (101 / 100)) by (rewrite QE; clear - AI S1; nra).
    destruct (fac_rnd (a * IZR s)) as (e2 & EQ & E2); [lra|].
    set (q := rnd (a * IZR s)) in *.
    set (t := (1 + e1) * (1 + e2) - 1). assert (T : Rabs t <= (2 + 1 + / 1000) * u) by (apply fac_mul; first [assumption|lra]).
    assert (q_Q : q = Q * (1 + t)) by (rewrite EQ, A, QE; unfold t; ring).
    assert (qb : Q * (99 / 100) <= q <= Q * (101 / 100)) by (rewrite q_Q; apply sc; [lra|exact (cu _ _ T ltac:(lra))]).
    assert (qq : u * u * u <= q * q). { assert (u * (99 / 100) <= q) by lra. assert (u * (99 / 100) * (u * (99 / 100)) <= q * q) by (apply Rmult_le_compat; lra). clear - H0 U P2. nra. }
    destruct (fac_faithful (q * q) (sq q)) as (e3 & ES & E3); [lra|apply Hsq; lra|].
    pose proof (fac_mul _ _ t e3 T E3 ltac:(lra) ltac:(lra)) as T3. set (t3 := (1 + t) * (1 + e3) - 1) in *.
    set (w := - Q * t3 / (1 - Q)).
    assert (QQ : 0 <= Q / (1 - Q) <= 1). { split; [apply Rle_div_r; lra|]. apply (Rmult_le_reg_r (1 - Q)); [lra|]. unfold Rdiv. rewrite Rmult_assoc, Rinv_l by lra. lra. }
    assert (Ww : Rabs w <= (2 + 1 + / 1000 + 2 + / 1000) * u).
    { unfold w. replace (- Q * t3 / (1 - Q)) with (- (Q / (1 - Q) * t3)) by (field; lra). rewrite Rabs_Ropp, Rabs_mult, (Rabs_right (Q / (1 - Q))) by lra. pose proof (Rabs_pos t3) as X0. clear - X0 QQ T3. nra. }
    assert (DE : q - sq q = q * (1 - Q) * (1 + w)).
    { rewrite ES. replace (q - q * q * (1 + e3)) with (q * (1 - q * (1 + e3))) by ring. rewrite Rmult_assoc. f_equal. unfold w. replace (q * (1 + e3)) with (Q * (1 + t3)) by (rewrite q_Q; unfold t3; ring). field. lra. }
    assert (qP : 0 < q) by lra.
    assert (qQ1 : q * / 2 <= q * (1 - Q) <= q) by (clear - qP Q2 QU U; nra).
    assert (DB : q * (1 / 3) <= q - sq q <= q * 2). { rewrite DE. pose proof (sc (q * (1 - Q)) w ltac:(lra) (cu _ _ Ww ltac:(lra))). lra. }
    destruct (fac_rnd (q - sq q)) as (e4 & ED & E4). { assert (u ^ 8 <= u * / 4); [|lra]. clear - W3 U P2. nra. }
    set (D := rnd (q - sq q)) in *.
    assert (DB2 : q * (1 / 4) <= D <= q * 3). { rewrite ED. pose proof (sc (q - sq q) e4 ltac:(lra) (cu _ _ E4 ltac:(lra))). lra. }
    assert (aD : u * u * (1 / 10) <= a * D). { assert (u * (1 / 5) <= D) by lra. assert (u * (99 / 100) <= a) by lra. assert (u * (99 / 100) * (u * (1 / 5)) <= a * D) by (apply Rmult_le_compat; lra). lra. }
    destruct (fac_rnd (a * D)) as (e5 & EV & E5). { assert (u ^ 8 <= u * u * (1 / 10)); [|lra]. clear - W3 U P2. nra. }
    set (var := rnd (a * D)) in *.
    set (V := Q * (1 - Q) / IZR k). assert (VE : V = i * Q * (1 - Q)) by (unfold V, i, Rdiv; ring).
    assert (iQ : u * u <= i * Q) by (apply Rmult_le_compat; lra).
    assert (iQ2 : i * Q * / 2 <= V) by (rewrite VE; apply Rmult_le_compat_l; lra).
    assert (VP : 0 < V) by lra.
    pose proof (fac_mul _ _ e1 t E1 T ltac:(lra) ltac:(lra)) as X1. set (x1 := (1 + e1) * (1 + t) - 1) in *.
    pose proof (fac_mul _ _ x1 w X1 Ww ltac:(lra) ltac:(lra)) as X2. set (x2 := (1 + x1) * (1 + w) - 1) in *.
    pose proof (fac_mul _ _ x2 e4 X2 E4 ltac:(lra) ltac:(lra)) as X3. set (x3 := (1 + x2) * (1 + e4) - 1) in *.
    pose proof (fac_mul _ _ x3 e5 X3 E5 ltac:(lra) ltac:(lra)) as X4. set (x4 := (1 + x3) * (1 + e5) - 1) in *.
    assert (varE : var = V * (1 + x4)).
    { rewrite EV, ED, DE, A, q_Q, VE. unfold x4, x3, x2, x1. ring. }
    assert (varP : 0 < var). { rewrite varE. pose proof (sc V x4 ltac:(lra) (cu _ _ X4 ltac:(lra))). lra. }
    assert (X4b := cu _ _ X4 ltac:(lra)). apply Rabs_le_between in X4b.
    assert (sqE : sqrt var = sqrt V * sqrt (1 + x4)) by (rewrite varE, sqrt_mult by lra; reflexivity).
    assert (V8 : u ^ 2 <= sqrt V).
    { rewrite <- (sqrt_pow2 (u ^ 2)) by (rewrite u2; lra). apply sqrt_le_1_alt. replace ((u ^ 2) ^ 2) with (u * u * (u * u)) by ring. assert (HU : u * u <= / 2) by (clear - U; nra). apply (Rle_trans _ (u * u * / 2)); [apply mono_r; lra|]. lra. }
    pose proof (fac_sqrt _ x4 X4 ltac:(lra)) as X5. set (x5 := sqrt (1 + x4) - 1) in *. assert (sqE2 : sqrt var = sqrt V * (1 + x5)) by (rewrite sqE; unfold x5; ring).
    assert (SV : 0 < sqrt V) by (apply sqrt_lt_R0, VP). rewrite u2 in V8.
    destruct (fac_rnd (sqrt var)) as (e6 & E6e & E6). { rewrite sqE2. pose proof (sc (sqrt V) x5 ltac:(lra) (cu _ _ X5 ltac:(lra))). assert (u ^ 8 <= u * u * (99 / 100)); [|lra]. clear - W3 U P2. nra. }
    assert (QI : 2 <= / Q) by (rewrite <- (Rinv_inv 2); apply Rinv_le_contravar; lra).
    assert (qI : 1 <= / q) by (rewrite <- Rinv_1; apply Rinv_le_contravar; lra).
    destruct (fac_faithful (/ q) (inv q)) as (e7 & EI & E7); [lra|apply Hinv; lra|].
    pose proof (fac_inv _ t T ltac:(lra)) as X6. set (x6 := / (1 + t) - 1) in *.
    assert (T1 : 0 < 1 + t) by (pose proof (cu _ _ T ltac:(lra)) as Z1; apply Rabs_le_between in Z1; lra).
    assert (qIE : inv q = / Q * ((1 + x6) * (1 + e7))). { rewrite EI, q_Q. unfold x6. field. split; lra. }
    pose proof (fac_mul _ _ x5 e6 X5 E6 ltac:(lra) ltac:(lra)) as X7. set (x7 := (1 + x5) * (1 + e6) - 1) in *.
    pose proof (fac_mul _ _ x7 x6 X7 X6 ltac:(lra) ltac:(lra)) as X8. set (x8 := (1 + x7) * (1 + x6) - 1) in *.
    pose proof (fac_mul _ _ x8 e7 X8 E7 ltac:(lra) ltac:(lra)) as X9. set (x9 := (1 + x8) * (1 + e7) - 1) in *.
    assert (prodE : rnd (sqrt var) * inv q = sqrt V * / Q * (1 + x9)) by (rewrite E6e, sqE2, qIE; unfold x9, x8, x7; ring).
    assert (C0 : u * u * 2 <= sqrt V * / Q) by (apply Rmult_le_compat; lra).
    destruct (fac_rnd (rnd (sqrt var) * inv q)) as (e8 & E8e & E8). { rewrite prodE. pose proof (sc (sqrt V * / Q) x9 ltac:(lra) (cu _ _ X9 ltac:(lra))). assert (u ^ 8 <= u * u); [|lra]. clear - W3 U P2. nra. }
    pose proof (fac_mul _ _ x9 e8 X9 E8 ltac:(lra) ltac:(lra)) as X10. set (x10 := (1 + x9) * (1 + e8) - 1) in *.
    set (C := sqrt V / Q). assert (CP : 0 < C) by (unfold C, Rdiv; lra).
    assert (covE : rnd (rnd (sqrt var) * inv q) = C * (1 + x10)) by (rewrite E8e, prodE; unfold x10, C, Rdiv; ring).
    assert (R0 : Rltb 0 (IZR s) = true) by (apply Rltb_spec; lra).
    unfold r, fl_update. rewrite R0. cbv zeta. fold a. fold q. fold D. fold var.
    assert (Rltb var 0 = false) as -> by (apply Rltb_false; lra). cbn [fst snd]. split.
    - rewrite q_Q. replace (Q * (1 + t) - Q) with (Q * t) by ring. rewrite Rabs_mult, (Rabs_right Q) by lra. assert (Z1 : Rabs t <= 4 * u) by lra. replace (4 * u * Q) with (Q * (4 * u)) by ring. apply mono_r; lra.
    - exists (rnd (rnd (sqrt var) * inv q)). split.
      + unfold Reqb. destruct (Req_EM_T _ 0) as [E|E]; [|reflexivity]. exfalso. rewrite covE in E. pose proof (sc C x10 ltac:(lra) (cu _ _ X10 ltac:(lra))). lra.
      + fold V. fold C. rewrite covE. replace (C * (1 + x10) - C) with (C * x10) by ring. rewrite Rabs_mult, (Rabs_right C) by lra. assert (Z1 : Rabs x10 <= 20 * u) by lra. replace (20 * u * C) with (C * (20 * u)) by ring. apply mono_r; lra.
  Qed.
End Acc.

(** ** around 1 *)
Lemma bp m : bpow radix2 m = powerRZ 2 m. Proof. apply bpow_powerRZ. Qed.
Lemma mag_is x e : bpow radix2 (e - 1) <= x < bpow radix2 e -> mag radix2 x = e :> Z.
Proof. intros H. apply mag_unique. rewrite Rabs_right; [exact H|]. pose proof (bpow_gt_0 radix2 (e - 1)). lra. Qed.
Lemma rnd_tie1 : rnd (1 + u) = 1.
Proof.
  unfold rnd, round, scaled_mantissa, cexp. assert (M : mag radix2 (1 + u) = 1%Z :> Z). { apply mag_is. pose proof u_pos. cbn. lra. }
  rewrite M. change (fexp64 1) with (-52)%Z. assert (E : (1 + u) * bpow radix2 (- (-52)) = IZR 4503599627370496 + / 2) by (rewrite u_eq; cbn; lra). rewrite E.
  assert (F : Zfloor (IZR 4503599627370496 + / 2) = 4503599627370496%Z) by (apply Zfloor_imp; change (4503599627370496 + 1)%Z with 4503599627370497%Z; lra).
  unfold Znearest. rewrite F. replace (IZR 4503599627370496 + / 2 - IZR 4503599627370496) with (/ 2) by ring. rewrite Rcompare_Eq by reflexivity. change (negb (Z.even 4503599627370496)) with false. cbv iota.
  unfold F2R. cbn [Fnum Fexp]. cbn. lra.
Qed.
Lemma rnd_le1 x : x <= 1 + u -> rnd x <= 1. Proof. intros H. rewrite <- rnd_tie1. apply rnd_le, H. Qed.
Lemma fmt_below n : (1 <= n < 2 ^ 53)%Z -> fmt (1 - IZR n * u).
Proof.
  intros H. apply double_fmt. exists (2 ^ 53 - n)%Z, (-53)%Z. split; [|split; [rewrite Z.abs_eq; lia|lia]]. rewrite minus_IZR, <- bp. fold u. change (2 ^ 53)%Z with 9007199254740992%Z. rewrite u_eq. field.
Qed.
Lemma fmt_1u : fmt (1 - u). Proof. pose proof (fmt_below 1 ltac:(lia)) as H. replace (1 - 1 * u) with (1 - u) in H by ring. exact H. Qed.
Lemma fmt_12u : fmt (1 - 2 * u). Proof. exact (fmt_below 2 ltac:(lia)). Qed.
Lemma two_values x : fmt x -> 1 - u <= x <= 1 -> x = 1 - u \/ x = 1.
Proof.
  intros F [L H]. destruct (Req_dec x 1) as [E|E]; [right; exact E|left]. pose proof u_pos as U.
  assert (M : mag radix2 x = 0%Z :> Z). { apply mag_is. cbn. lra. }
  rewrite F in L, H, E |- *. unfold cexp in *. rewrite M in *. change (fexp64 0) with (-53)%Z in *. set (n := Ztrunc _) in *. unfold F2R in *. cbn [Fnum Fexp] in *. fold u in *.
  rewrite u_eq in *. assert (N : (2 ^ 53 - 1 <= n)%Z). { apply le_IZR. change (2 ^ 53 - 1)%Z with 9007199254740991%Z. lra. }
  assert (N2 : (n < 2 ^ 53)%Z). { apply lt_IZR. change (2 ^ 53)%Z with 9007199254740992%Z. lra. }
  assert (n = 9007199254740991)%Z as -> by lia. lra.
Qed.

Section Range.
  Variables (recip : Z -> R) (sq inv : R -> R).
  Hypothesis Hrecip : forall k, (1 <= k <= 2 ^ 53)%Z -> double (recip k) /\ Rabs (recip k * IZR k - 1) <= u.
  Hypothesis Hsq : forall q, 0 < q <= 1 -> faithful (q * q) (sq q).
  Hypothesis Hinv : forall q, 0 < q <= 1 -> faithful (/ q) (inv q).

  Lemma recip_pos k : (1 <= k <= 2 ^ 53)%Z -> 0 < recip k.
  Proof.
    intros Hk. destruct (Hrecip k Hk) as [_ E]. apply Rabs_le_between in E. pose proof u_pos. destruct Hk as [Hk _]. apply IZR_le in Hk.
    destruct (Rle_or_lt (recip k) 0) as [L|L]; [|exact L]. nra.
  Qed.
  Lemma qbar_range k s : (1 <= k <= 2 ^ 53)%Z -> 1 <= s <= IZR k -> recip k <= rnd (recip k * s) <= 1.
  Proof.
    intros Hk Hs. pose proof (recip_pos k Hk) as P. destruct (Hrecip k Hk) as [D E]. apply double_fmt in D. apply Rabs_le_between in E. split.
    - rewrite <- (rnd_id (recip k) D) at 1. apply rnd_le. nra.
    - apply rnd_le1. assert (recip k * s <= recip k * IZR k) by (apply Rmult_le_compat_l; lra). lra.
  Qed.
  Lemma range k s : (1 <= k <= 2 ^ 53)%Z -> 1 <= s <= IZR k ->
    let r := fl_update recip sq inv k s in 0 < fst r <= 1 /\ exists c, snd r = Some c /\ 0 < c.
  Proof.
    intros Hk Hs. pose proof (recip_pos k Hk) as P. pose proof (qbar_range k s Hk Hs) as QR. cbv zeta. unfold fl_update. assert (Rltb 0 s = true) as -> by (apply Rltb_spec; lra).
    set (q := rnd (recip k * s)) in *. set (D := rnd (q - sq q)).
    assert (Sq : sq q <= q) by (apply (faithful_le (q * q)); [apply Hsq; lra|apply rnd_fmt|nra]).
    assert (D0 : 0 <= D) by (apply rnd_nonneg; lra).
    assert (V0 : 0 <= rnd (recip k * D)) by (apply rnd_nonneg, Rmult_le_pos; lra).
    assert (Rltb (rnd (recip k * D)) 0 = false) as -> by (apply Rltb_false; exact V0). cbn [fst snd]. split; [lra|].
    eexists. split; [reflexivity|]. unfold Reqb. destruct (Req_EM_T _ 0) as [E|E]; [lra|].
    assert (I1 : 1 <= inv q) by (apply (faithful_ge (/ q)); [apply Hinv; lra|apply fmt_1|rewrite <- Rinv_1; apply Rinv_le_contravar; lra]).
    assert (0 <= rnd (rnd (sqrt (rnd (recip k * D))) * inv q)); [|lra]. apply rnd_nonneg, Rmult_le_pos; [apply rnd_nonneg, sqrt_pos|lra].
  Qed.

  Lemma all_failed k : (1 <= k <= 2 ^ 53)%Z -> sq (1 - u) = 1 - 2 * u ->
    let r := fl_update recip sq inv k (IZR k) in
    (fst r = 1 /\ snd r = Some 1) \/ (fst r = 1 - u /\ exists c, snd r = Some c /\ 0 < c <= bpow radix2 (-25)).
  Proof.
    intros Hk HS. pose proof (recip_pos k Hk) as P. destruct (Hrecip k Hk) as [Da E]. apply double_fmt in Da. apply Rabs_le_between in E. pose proof u_pos as U.
    assert (K1 : 1 <= IZR k) by (apply IZR_le; lia). pose proof (qbar_range k (IZR k) Hk ltac:(lra)) as QR.
    assert (QL : 1 - u <= rnd (recip k * IZR k)) by (rewrite <- (rnd_id (1 - u) fmt_1u); apply rnd_le; lra).
    cbv zeta. unfold fl_update. assert (Rltb 0 (IZR k) = true) as -> by (apply Rltb_spec; lra). set (q := rnd (recip k * IZR k)) in *.
    destruct (two_values q (rnd_fmt _) ltac:(lra)) as [Q|Q]; [right|left].
    - rewrite Q, HS. replace (1 - u - (1 - 2 * u)) with u by ring.
      assert (fu : fmt u) by (apply fmt_pow; lia). rewrite (rnd_id u fu).
      assert (al : recip k <= 1 + u) by nra.
      assert (ag : bpow radix2 (-54) <= recip k). { pose proof (IZR_le _ _ (proj2 Hk)) as K2. change (2 ^ 53)%Z with 9007199254740992%Z in K2. replace (bpow radix2 (-54)) with (/ 18014398509481984) by (cbn; lra). nra. }
      assert (v1 : rnd (recip k * u) <= 2 * u). { rewrite <- (rnd_id (2 * u)); [apply rnd_le; nra|]. replace (2 * u) with (bpow radix2 (-52)) by (unfold u; cbn; lra). apply fmt_pow. lia. }
      assert (v0 : bpow radix2 (-107) <= rnd (recip k * u)). { rewrite <- (rnd_id (bpow radix2 (-107))) by (apply fmt_pow; lia). apply rnd_le. change (-107)%Z with (-54 + -53)%Z. rewrite bpow_plus. fold u. apply Rmult_le_compat_r; lra. }
      assert (B0 := bpow_gt_0 radix2 (-107)). set (var := rnd (recip k * u)) in *. assert (Rltb var 0 = false) as -> by (apply Rltb_false; lra).
      cbn [fst snd]. split; [reflexivity|]. eexists. split; [reflexivity|].
      assert (s1 : rnd (sqrt var) <= bpow radix2 (-26)). { rewrite <- (rnd_id (bpow radix2 (-26))) by (apply fmt_pow; lia). apply rnd_le. rewrite <- (sqrt_pow2 (bpow radix2 (-26))) by apply bpow_ge_0. apply sqrt_le_1_alt. replace (bpow radix2 (-26) ^ 2) with (2 * u); [exact v1|]. unfold u. cbn. lra. }
      assert (s0 : bpow radix2 (-54) <= rnd (sqrt var)). { rewrite <- (rnd_id (bpow radix2 (-54))) by (apply fmt_pow; lia). apply rnd_le. rewrite <- (sqrt_pow2 (bpow radix2 (-54))) by apply bpow_ge_0. apply sqrt_le_1_alt. apply (Rle_trans _ (bpow radix2 (-107))); [|exact v0]. replace (bpow radix2 (-54) ^ 2) with (bpow radix2 (-108)); [apply bpow_le; lia|]. change (-108)%Z with (-54 + -54)%Z. rewrite bpow_plus. ring. }
      assert (B1 := bpow_gt_0 radix2 (-54)).
      assert (F := Hinv (1 - u) ltac:(lra)).
      assert (I1 : 1 <= inv (1 - u)). { apply (faithful_ge (/ (1 - u))); [exact F|apply fmt_1|]. apply (Rmult_le_reg_r (1 - u)); [lra|]. rewrite Rinv_l; lra. }
      assert (I2 : inv (1 - u) <= 2). { apply (faithful_le (/ (1 - u))); [exact F|apply (fmt_pow 1); lia|]. apply (Rmult_le_reg_r (1 - u)); [lra|]. rewrite Rinv_l; lra. }
      assert (c1 : rnd (rnd (sqrt var) * inv (1 - u)) <= bpow radix2 (-25)). { rewrite <- (rnd_id (bpow radix2 (-25))) by (apply fmt_pow; lia). apply rnd_le. replace (bpow radix2 (-25)) with (bpow radix2 (-26) * 2) by (cbn; lra). apply Rmult_le_compat; lra. }
      assert (c0 : bpow radix2 (-54) <= rnd (rnd (sqrt var) * inv (1 - u))). { rewrite <- (rnd_id (bpow radix2 (-54))) by (apply fmt_pow; lia). apply rnd_le. nra. }
      unfold Reqb. destruct (Req_EM_T _ 0) as [Z|Z]; [lra|]. lra.
    - rewrite Q. assert (sq 1 = 1) as -> by (rewrite (faithful_id (1 * 1) (sq 1)); [ring|apply Hsq; lra|rewrite Rmult_1_r; apply fmt_1]).
      replace (1 - 1) with 0 by ring. rewrite rnd_0, Rmult_0_r, rnd_0. assert (Rltb 0 0 = false) as -> by (apply Rltb_false; lra). rewrite sqrt_0, rnd_0, Rmult_0_l, rnd_0. cbn [fst snd]. split; [reflexivity|]. unfold Reqb. destruct (Req_EM_T 0 0); [reflexivity|contradiction].
  Qed.
End Range.

(** ** correctly rounded powers *)
Definition n_recip (k : Z) : R := rnd (/ IZR k).
Definition n_sq (q : R) : R := rnd (q * q).
Definition n_inv (q : R) : R := rnd (/ q).
Lemma rnd_faithful v : faithful v (rnd v).
Proof.
  split; [apply double_fmt, rnd_fmt|]. destruct (round_DN_or_UP radix2 fexp64 ZnearestE v) as [E|E].
  - left. unfold rnd. rewrite E. destruct (round_DN_pt radix2 fexp64 v) as (_ & L & H). split; [exact L|]. intros z Dz. apply H, double_fmt, Dz.
  - right. unfold rnd. rewrite E. destruct (round_UP_pt radix2 fexp64 v) as (_ & L & H). split; [exact L|]. intros z Dz. apply H, double_fmt, Dz.
Qed.
Lemma n_recip_ok k : (1 <= k <= 2 ^ 53)%Z -> double (n_recip k) /\ Rabs (n_recip k * IZR k - 1) <= u.
Proof.
  intros Hk. pose proof u_pos as U. split; [apply double_fmt, rnd_fmt|]. assert (K1 : 1 <= IZR k) by (apply IZR_le; lia).
  assert (K2 : IZR k * u <= 1). { pose proof (IZR_le _ _ (proj2 Hk)) as K2. change (2 ^ 53)%Z with 9007199254740992%Z in K2. rewrite u_eq. lra. }
  assert (I : u <= / IZR k). { apply (Rmult_le_reg_r (IZR k)); [lra|]. rewrite Rinv_l by lra. lra. }
  destruct (fac_rnd (/ IZR k)) as (t & E & T).
  { apply (Rle_trans _ u); [|exact I]. rewrite <- (pow_1 u) at 2. replace (u ^ 8) with (u ^ 1 * u ^ 7) by (rewrite <- pow_add; reflexivity). assert (u ^ 7 <= 1 ^ 7) by (apply pow_incr; lra). rewrite pow1 in H. pose proof (pow_lt u 1 (proj1 U)). nra. }
  unfold n_recip. rewrite E. replace (/ IZR k * (1 + t) * IZR k - 1) with t by (field; lra). lra.
Qed.
Lemma nearest_1u y : double y -> (forall z, double z -> Rabs (y - (1 - u) * (1 - u)) <= Rabs (z - (1 - u) * (1 - u))) -> faithful ((1 - u) * (1 - u)) y -> y = 1 - 2 * u.
Proof.
  pose proof u_pos as U. intros Dy N F.
  assert (L : 1 - 2 * u <= y) by (apply (faithful_ge _ _ _ F fmt_12u); nra). assert (H : y <= 1 - u) by (apply (faithful_le _ _ _ F fmt_1u); nra).
  specialize (N (1 - 2 * u) ltac:(apply double_fmt, fmt_12u)). replace (1 - 2 * u - (1 - u) * (1 - u)) with (- (u * u)) in N by ring. rewrite Rabs_Ropp, (Rabs_right (u * u)) in N by nra.
  apply Rabs_le_between in N. assert (y = 1 - 2 * u \/ 1 - u <= y).
  { destruct (Req_dec y (1 - 2 * u)) as [E|E]; [left; exact E|right].
    assert (Fy : fmt y) by (apply double_fmt, Dy). assert (M : mag radix2 y = 0%Z :> Z). { apply mag_is. cbn. lra. }
    rewrite Fy in L, E |- *. unfold cexp in *. rewrite M in *. change (fexp64 0) with (-53)%Z in *. set (n := Ztrunc _) in *. unfold F2R in *. cbn [Fnum Fexp] in *. fold u in *.
    assert (X : (9007199254740990 <= n)%Z) by (apply le_IZR; rewrite u_eq in L; lra).
    assert (X2 : n <> 9007199254740990%Z) by (intros ->; apply E; rewrite u_eq; lra).
    assert (X3 : (9007199254740991 <= n)%Z) by lia. apply IZR_le in X3. rewrite u_eq. lra. }
  destruct H0 as [E|E]; [exact E|exfalso]. nra.
Qed.

Lemma n_sq_1u : n_sq (1 - u) = 1 - 2 * u.
Proof. destruct (rnd_nearest ((1 - u) * (1 - u))) as [D N]. apply nearest_1u; [exact D|exact N|apply rnd_faithful]. Qed.

(** ** reciprocals computed: m / 2^N is the double nearest to 1 / k *)
Definition chk (k m : Z) (N : Z) : bool :=
  ((0 <? N) && (N <=? 1000) && (k * 2 ^ 52 <=? 2 ^ N) && (2 ^ N <? k * 2 ^ 53) && (2 * Z.abs (2 ^ N - m * k) <? k) && (1 <=? k))%Z%bool.
Lemma pow_bp N : (0 <= N)%Z -> bpow radix2 N = IZR (2 ^ N). Proof. intros H. symmetry. apply (IZR_Zpower radix2 N H). Qed.
Lemma chk_recip k m N : chk k m N = true -> n_recip k = IZR m / IZR (2 ^ N).
Proof.
  unfold chk. rewrite !Bool.andb_true_iff, !Z.leb_le, !Z.ltb_lt. intros (((((N0 & N1) & A) & B) & C) & K).
  assert (KP : 0 < IZR k) by (apply IZR_lt; lia). assert (PN : 0 < IZR (2 ^ N)) by (apply IZR_lt; apply Z.pow_pos_nonneg; lia).
  apply IZR_le in A. apply IZR_lt in B. rewrite mult_IZR in A, B. rewrite <- !pow_bp in A, B by lia. rewrite <- pow_bp in PN |- * by lia.
  assert (I : / bpow radix2 N = bpow radix2 (- N)) by (rewrite bpow_opp; reflexivity).
  assert (M : mag radix2 (/ IZR k) = (53 - N)%Z :> Z).
  { apply mag_is. replace (53 - N - 1)%Z with (52 + - N)%Z by ring. replace (53 - N)%Z with (53 + - N)%Z by ring. rewrite !bpow_plus, <- I. split.
    - apply (Rmult_le_reg_r (IZR k)); [exact KP|]. rewrite Rinv_l by lra. apply (Rmult_le_reg_r (bpow radix2 N)); [exact PN|]. replace (bpow radix2 52 * / bpow radix2 N * IZR k * bpow radix2 N) with (IZR k * bpow radix2 52) by (field; lra). lra.
    - apply (Rmult_lt_reg_r (IZR k)); [exact KP|]. rewrite Rinv_l by lra. apply (Rmult_lt_reg_r (bpow radix2 N)); [exact PN|]. replace (bpow radix2 53 * / bpow radix2 N * IZR k * bpow radix2 N) with (IZR k * bpow radix2 53) by (field; lra). lra. }
  unfold n_recip, rnd, round, scaled_mantissa, cexp. rewrite M. assert (fexp64 (53 - N) = - N)%Z as -> by (unfold fexp64, FLT_exp; lia).
  rewrite Z.opp_involutive. rewrite (Znearest_imp _ _ m).
  - unfold F2R. cbn [Fnum Fexp]. rewrite <- I. reflexivity.
  - apply IZR_lt in C. rewrite mult_IZR, abs_IZR, minus_IZR, mult_IZR, <- pow_bp in C by lia.
    replace (/ IZR k * bpow radix2 N - IZR m) with ((bpow radix2 N - IZR m * IZR k) * / IZR k) by (field; lra). rewrite Rabs_mult, (Rabs_right (/ IZR k)) by (apply Rle_ge, Rlt_le, Rinv_0_lt_compat, KP).
    apply (Rmult_lt_reg_r (IZR k)); [exact KP|]. rewrite Rmult_assoc, Rinv_l, Rmult_1_r by lra. lra.
Qed.
Definition chk1 (k m N : Z) : bool := (2 ^ N * (2 ^ 54 - 1) <? m * k * 2 ^ 54)%Z.
Definition chk2 (k m N : Z) : bool := (m * k * 2 ^ 54 <? 2 ^ N * (2 ^ 54 - 1))%Z.
Lemma q_one k m N : (1 <= k <= 2 ^ 53)%Z -> chk k m N = true -> (chk1 k m N = true -> rnd (n_recip k * IZR k) = 1) /\ (chk2 k m N = true -> rnd (n_recip k * IZR k) = 1 - u).
Proof.
  intros Hk C. pose proof u_pos as U. destruct (n_recip_ok k Hk) as [_ E]. apply Rabs_le_between in E. pose proof (chk_recip k m N C) as EM.
  set (v := n_recip k * IZR k) in *. assert (H1 : rnd v <= 1) by (apply rnd_le1; lra). assert (H2 : 1 - u <= rnd v) by (rewrite <- (rnd_id (1 - u) fmt_1u); apply rnd_le; lra).
  destruct (rnd_nearest v) as [_ N1]. assert (NA := N1 1 ltac:(apply double_fmt, fmt_1)). assert (NB := N1 (1 - u) ltac:(apply double_fmt, fmt_1u)).
  assert (PN : 0 < IZR (2 ^ N)). { unfold chk in C. rewrite !Bool.andb_true_iff, !Z.leb_le, !Z.ltb_lt in C. apply IZR_lt, Z.pow_pos_nonneg; lia. }
  assert (V : v * IZR (2 ^ N) = IZR m * IZR k) by (unfold v; rewrite EM; field; lra).
  split; intros C1; apply Z.ltb_lt, IZR_lt in C1; rewrite !mult_IZR in C1; change (2 ^ 54 - 1)%Z with 18014398509481983%Z in C1; change (2 ^ 54)%Z with 18014398509481984%Z in C1; rewrite <- V in C1.
  - assert (L : 1 - u / 2 < v). { rewrite u_eq. apply (Rmult_lt_reg_r (IZR (2 ^ N))); [exact PN|]. lra. }
    destruct (two_values (rnd v) (rnd_fmt _) ltac:(lra)) as [Q|Q]; [exfalso|exact Q]. rewrite Q in NA. destruct (Rle_or_lt 1 v) as [G|G].
    + rewrite (Rabs_left1 (1 - u - v)), (Rabs_left1 (1 - v)) in NA by lra. lra.
    + rewrite (Rabs_left1 (1 - u - v)), (Rabs_right (1 - v)) in NA by lra. lra.
  - assert (L : v < 1 - u / 2). { rewrite u_eq. apply (Rmult_lt_reg_r (IZR (2 ^ N))); [exact PN|]. lra. }
    destruct (two_values (rnd v) (rnd_fmt _) ltac:(lra)) as [Q|Q]; [exact Q|exfalso]. rewrite Q in NB. rewrite (Rabs_right (1 - v)), (Rabs_left1 (1 - u - v)) in NB by lra. lra.
Qed.
