From Coquelicot Require Import Coquelicot.
From Verif Require Import Base StochModel Transf TransfSpec TransfProofs Chol CholProofs Gauss GaussProofs Quad QuadProofs Nataf NatafSpec NatafProofs Sens SensSpec SensCfProofs.
Open Scope R_scope.

(** 2 x 2 correlation matrix *)
Definition R2 (r : R) : mat := fun i j => if Nat.eqb i j then 1 else r.

Lemma R2_sym r : symmetric 2 (R2 r).
Proof. intros i j _ _. unfold R2. rewrite Nat.eqb_sym. reflexivity. Qed.

Lemma R2_pd r : -1 < r < 1 -> pos_def 2 (R2 r).
Proof.
  intros Hr v (i & Hi & Hv). cbn [fsum R2 Nat.eqb].
  set (a := v 0%nat). set (b := v 1%nat).
  assert (H : a <> 0 \/ b <> 0).
  { destruct i as [|[|i]]; [left; exact Hv|right; exact Hv|lia]. }
  assert (E : 0 + (0 + a * 1 * a + a * r * b) + (0 + b * r * a + b * 1 * b)
    = (a + r * b) * (a + r * b) + (1 - r * r) * (b * b)) by ring.
  unfold R2. cbn [Nat.eqb]. fold a b. rewrite E.
  assert (P : 0 < 1 - r * r) by nra.
  assert (Q1 : 0 <= (a + r * b) * (a + r * b)) by apply Rle_0_sqr.
  destruct (Req_dec b 0) as [Hb|Hb].
  - destruct H as [H|H]; [|contradiction]. rewrite Hb. replace ((a + r * 0) * (a + r * 0) + (1 - r * r) * (0 * 0)) with (a * a) by ring.
    apply Rsqr_pos_lt in H. exact H.
  - apply Rsqr_pos_lt in Hb. unfold Rsqr in Hb. pose proof (Rmult_lt_0_compat _ _ P Hb). lra.
Qed.

(** the entry in terms of the derivative of the Cholesky factor, for a limit
    state that depends on the second standardised variable only *)
Lemma entry_second_variable (mg : nat -> marg) L0 np_inv (gr : nat -> nat -> grid) beta r : -1 < r < 1 ->
  factor_of 2 L0 (R2 r) -> inverse_pair 2 L0 (np_inv L0) ->
  corr_entry 2 (fun k => L0 1%nat k) (fun k => beta * L0 1%nat k) mg (R2 r) L0 np_inv gr 1 0
  = - beta * drho0_drho mg (R2 r) gr 1 0 * (L0 1%nat 0%nat - r / sqrt (1 - r * r) * L0 1%nat 1%nat).
Proof.
  intros Hr HF HI. unfold corr_entry, cf_dLinv.
  set (d := drho0_drho mg (R2 r) gr 1 0).
  assert (HdS : symmetric 2 (dR0_corr mg (R2 r) gr 1 0)).
  { intros a b Ha Hb. rewrite !dR0_corr_eq by lia. rewrite (andb_comm (Nat.eqb b 1)), (andb_comm (Nat.eqb b 0)), orb_comm. reflexivity. }
  destruct (cholesky_correct 2 (R2 r) (dR0_corr mg (R2 r) gr 1 0) (R2_sym r) (R2_pd r Hr) HdS) as (TT & P & F & F'). cbv zeta in *.
  set (L := fst (cholesky_with_derivative 2 (R2 r) (dR0_corr mg (R2 r) gr 1 0))) in *.
  set (dL := snd (cholesky_with_derivative 2 (R2 r) (dR0_corr mg (R2 r) gr 1 0))) in *.
  assert (T : L 0%nat 1%nat = 0) by (apply TT; lia). assert (T' : dL 0%nat 1%nat = 0) by (apply TT; lia).
  pose proof (F 0%nat 0%nat ltac:(lia) ltac:(lia)) as F00. pose proof (F 1%nat 0%nat ltac:(lia) ltac:(lia)) as F10.
  pose proof (F 1%nat 1%nat ltac:(lia) ltac:(lia)) as F11.
  pose proof (F' 0%nat 0%nat ltac:(lia) ltac:(lia)) as G00. pose proof (F' 1%nat 0%nat ltac:(lia) ltac:(lia)) as G10.
  pose proof (F' 1%nat 1%nat ltac:(lia) ltac:(lia)) as G11.
  rewrite dR0_corr_eq in G00, G10, G11 by lia. fold d in G00, G10, G11.
  unfold R2 in F00, F10, F11. cbn [fsum Nat.eqb andb orb] in *.
  pose proof (P 0%nat ltac:(lia)) as P0. pose proof (P 1%nat ltac:(lia)) as P1.
  rewrite T, T' in *.
  assert (L00 : L 0%nat 0%nat = 1) by nra. rewrite L00 in *.
  assert (L10 : L 1%nat 0%nat = r) by lra. rewrite L10 in *.
  assert (L11 : L 1%nat 1%nat = sqrt (1 - r * r)).
  { rewrite <- (sqrt_square (L 1%nat 1%nat)) by lra. f_equal. lra. }
  assert (dL00 : dL 0%nat 0%nat = 0) by lra. rewrite dL00 in *.
  assert (dL10 : dL 1%nat 0%nat = d) by lra. rewrite dL10 in *.
  assert (dL11 : dL 1%nat 1%nat = - (d * r / sqrt (1 - r * r))).
  { rewrite <- L11. field_simplify_eq; [|lra]. lra. }
  (* z = L0 u*; L0^{-1} z = u* *)
  set (Li := np_inv L0) in *. destruct HI as [HI1 HI2].
  assert (Hz : forall k, (k < 2)%nat -> mvec 2 Li (z_star 2 (fun k => beta * L0 1%nat k) L0) k = beta * L0 1%nat k).
  { intros k Hk. unfold z_star. rewrite <- mvec_mmul. rewrite (mvec_meq 2 _ _ _ k HI2 Hk). apply mvec_eye. exact Hk. }
  set (z := z_star _ _ _) in *.
  assert (E1 : forall i, (i < 2)%nat -> mvec 2 (dinvL0_dtheta 2 Li dL) z i = mvec 2 Li (fun i => - mvec 2 dL (fun k => beta * L0 1%nat k) i) i).
  { intros i Hi. unfold dinvL0_dtheta. rewrite mvec_mmul. rewrite (mvec_ext 2 _ _ (fun k => beta * L0 1%nat k)) by exact Hz.
    rewrite mvec_mmul. unfold mvec. apply fsum_ext. intros k Hk. ring. }
  transitivity (dot 2 (fun k => L0 1%nat k) (mvec 2 Li (fun i => - mvec 2 dL (fun k => beta * L0 1%nat k) i))).
  { apply dot_ext; [intros ? ?; reflexivity|exact E1]. }
  change (mvec 2 L0 (mvec 2 Li (fun i => - mvec 2 dL (fun k => beta * L0 1%nat k) i)) 1%nat = - beta * d * (L0 1%nat 0%nat - r / sqrt (1 - r * r) * L0 1%nat 1%nat)).
  rewrite <- mvec_mmul, (mvec_meq 2 _ _ _ 1%nat HI1 ltac:(lia)), mvec_eye by lia.
  unfold mvec. cbn [fsum]. rewrite dL10, dL11. assert (Hs : 0 < sqrt (1 - r * r)) by (rewrite <- L11; exact P1). field. lra.
Qed.

Lemma svd_columns U D V M : svd_of 2 U D V M ->
  let A := mmul 2 U (fun a b => sqrt (D b) * meye a b) in
  A 0%nat 0%nat * A 0%nat 1%nat + A 1%nat 0%nat * A 1%nat 1%nat = 0.
Proof.
  intros ((_ & HU) & _) A. pose proof (HU 0%nat 1%nat ltac:(lia) ltac:(lia)) as E.
  unfold A, mmul, mtrans, meye, delta in *. cbn [fsum Nat.eqb] in *.
  transitivity ((0 + U 0%nat 0%nat * U 0%nat 1%nat + U 1%nat 0%nat * U 1%nat 1%nat) * (sqrt (D 0%nat) * sqrt (D 1%nat))); [ring|].
  rewrite E. ring.
Qed.

Lemma svd_entry_wrong mg gr U D V np_inv beta :
  svd_of 2 U D V (R2 (3/5)) ->
  let A := mmul 2 U (fun a b => sqrt (D b) * meye a b) in
  inverse_pair 2 A (np_inv A) -> beta <> 0 -> drho0_drho mg (R2 (3/5)) gr 1 0 <> 0 ->
  corr_entry 2 (fun k => A 1%nat k) (fun k => beta * A 1%nat k) mg (R2 (3/5)) A np_inv gr 1 0 <> 0.
Proof.
  intros HS A HI Hb Hd.
  assert (HF : factor_of 2 A (R2 (3/5))) by (apply (svd_factor 2 U D V); [exact HS|apply R2_sym|apply R2_pd; lra]).
  rewrite entry_second_variable by (try assumption; lra).
  assert (S : sqrt (1 - 3/5 * (3/5)) = 4/5).
  { replace (1 - 3/5 * (3/5)) with (4/5 * (4/5)) by field. apply sqrt_square. lra. }
  rewrite S. pose proof (svd_columns U D V _ HS) as O. cbv zeta in O. fold A in O.
  pose proof (HF 0%nat 0%nat ltac:(lia) ltac:(lia)) as F00. pose proof (HF 1%nat 0%nat ltac:(lia) ltac:(lia)) as F10.
  pose proof (HF 1%nat 1%nat ltac:(lia) ltac:(lia)) as F11.
  unfold R2 in F00, F10, F11. cbn [fsum Nat.eqb] in *.
  set (x := A 0%nat 0%nat) in *. set (y := A 0%nat 1%nat) in *. set (p := A 1%nat 0%nat) in *. set (q := A 1%nat 1%nat) in *.
  apply Rmult_integral_contrapositive_currified; [apply Rmult_integral_contrapositive_currified; [lra|exact Hd]|].
  intros Z. assert (Hp : p = 3/4 * q) by lra. rewrite Hp in *.
  assert (Q : q * q = 16/25) by lra.
  (* x*3/4 q + y q = 3/5 ; x y + 3/4 q q = 0 *)
  assert (XY : x * y = - (12/25)) by lra.
  assert (W : (x * (3/4) + y) * q = 3/5) by lra.
  assert (W2 : (x * (3/4) + y) * (x * (3/4) + y) * (q * q) = 9/25) by (transitivity (((x * (3/4) + y) * q) * ((x * (3/4) + y) * q)); [ring|rewrite W; field]).
  rewrite Q in W2.
  assert (E : 9/16 * (x * x) + y * y = 9/16 + 18/25) by lra.
  pose proof (Rle_0_sqr x). unfold Rsqr in *. lra.
Qed.

(** the true answer: the distance from the origin to {u : (L u)_1 = beta} is |beta| for every factor *)
Lemma plane_distance n L M beta k : (k < n)%nat -> factor_of n L M -> M k k = 1 ->
  mvec n L (fun j => beta * L k j) k = beta /\ norm n (fun j => beta * L k j) = Rabs beta
  /\ forall u, mvec n L u k = beta -> Rabs beta <= norm n u.
Proof.
  intros Hk HF E. pose proof (HF k k Hk Hk) as N. rewrite E in N.
  assert (A : mvec n L (fun j => beta * L k j) k = beta).
  { unfold mvec. rewrite (fsum_ext n _ (fun j => beta * (L k j * L k j))) by (intros; ring). rewrite fsum_scal, N. ring. }
  assert (B : dot n (fun j => beta * L k j) (fun j => beta * L k j) = beta * beta).
  { unfold dot. rewrite (fsum_ext n _ (fun j => (beta * beta) * (L k j * L k j))) by (intros; ring). rewrite fsum_scal, N. ring. }
  split; [exact A|]. split.
  - unfold norm. rewrite B. change (sqrt (Rsqr beta) = Rabs beta). apply sqrt_Rsqr_abs.
  - intros u Hu. unfold norm. rewrite <- sqrt_Rsqr_abs. apply sqrt_le_1_alt. unfold Rsqr.
    assert (P : 0 <= dot n (fun j => u j - beta * L k j) (fun j => u j - beta * L k j)) by apply dot_self_nonneg.
    assert (Q : dot n (fun j => u j - beta * L k j) (fun j => u j - beta * L k j) = dot n u u - 2 * beta * mvec n L u k + dot n (fun j => beta * L k j) (fun j => beta * L k j)).
    { unfold dot, mvec. rewrite <- fsum_scal, <- fsum_minus, <- fsum_plus. apply fsum_ext. intros; ring. }
    rewrite Q, Hu, B in P. lra.
Qed.
