(** Property theorems C13, C14. *)
From Coquelicot Require Import Coquelicot.
From Verif Require Import Base StochModel Transf TransfSpec TransfProofs Chol CholProofs.

(** C13: for every size, both factorisations are correct. *)
Theorem C13_cholesky_correct : forall n R0 dR0,
  symmetric n R0 -> pos_def n R0 -> symmetric n dR0 ->
  let L := fst (cholesky_with_derivative n R0 dR0) in
  let dL := snd (cholesky_with_derivative n R0 dR0) in
  (forall i j, (i < j)%nat -> L i j = 0 /\ dL i j = 0) /\
  (forall i, (i < n)%nat -> 0 < L i i) /\
  (forall i j, (i < n)%nat -> (j < n)%nat -> fsum n (fun m => L i m * L j m) = R0 i j) /\
  (forall i j, (i < n)%nat -> (j < n)%nat -> fsum n (fun m => dL i m * L j m + L i m * dL j m) = dR0 i j).
Proof. exact cholesky_correct. Qed.
Print Assumptions C13_cholesky_correct.

(** C13: dL0 is the derivative of the factor along any family R(t) with
    R(t0) = R0 and R'(t0) = dR0 (whatever derivative matrices are passed along
    when the factor itself is computed). *)
Theorem C13_cholesky_derivative : forall n (Rt : R -> mat) (dR0 : mat) t0 (dRt : R -> mat),
  symmetric n (Rt t0) -> pos_def n (Rt t0) ->
  (forall i j, (i < n)%nat -> (j < n)%nat -> is_derive (fun t => Rt t i j) t0 (dR0 i j)) ->
  forall i j, (i < n)%nat -> (j < n)%nat ->
  is_derive (fun t => fst (cholesky_with_derivative n (Rt t) (dRt t)) i j) t0
            (snd (cholesky_with_derivative n (Rt t0) dR0) i j).
Proof. exact cholesky_derivative. Qed.
Print Assumptions C13_cholesky_derivative.

(** C13: the factor is the only lower-triangular one with positive diagonal,
    so it is the one np.linalg.cholesky computes for the transformation. *)
Theorem C13_cholesky_unique : forall n R0 dR0 M,
  symmetric n R0 -> pos_def n R0 -> symmetric n dR0 ->
  (forall i j, (i < j)%nat -> M i j = 0) ->
  (forall i, (i < n)%nat -> 0 < M i i) ->
  factor_of n M R0 ->
  forall i j, (i < n)%nat -> (j < n)%nat -> fst (cholesky_with_derivative n R0 dR0) i j = M i j.
Proof.
  intros n R0 dR0 M Hs Hp Hd HT HM HF.
  destruct (cholesky_correct n R0 dR0 Hs Hp Hd) as (T & P & F & _).
  apply cholesky_unique.
  - intros i j Hij. split; [apply T; exact Hij|apply HT; exact Hij].
  - intros i Hi. split; [apply P; exact Hi|apply HM; exact Hi].
  - intros i j Hi Hj. rewrite F, HF by assumption. reflexivity.
Qed.
Print Assumptions C13_cholesky_unique.

(** C14 *)
Theorem C14_dinv_algebra : forall n L Li dL, inverse_pair n L Li ->
  forall i j, (i < n)%nat -> (j < n)%nat ->
  mmul n L (dinvL0_dtheta n Li dL) i j + mmul n dL Li i j = 0.
Proof. exact dinv_algebra. Qed.
Print Assumptions C14_dinv_algebra.

Theorem C14_dinv_is_derivative : forall n (Lt Lit : R -> mat) (dL : mat) t0,
  locally t0 (fun t => inverse_pair n (Lt t) (Lit t)) ->
  (forall i j, (i < n)%nat -> (j < n)%nat -> is_derive (fun t => Lt t i j) t0 (dL i j)) ->
  forall i j, (i < n)%nat -> (j < n)%nat ->
  is_derive (fun t => Lit t i j) t0 (dinvL0_dtheta n (Lit t0) dL i j).
Proof. exact inverse_derivative. Qed.
Print Assumptions C14_dinv_is_derivative.

(** *** Concrete instances of the hypotheses *)
Ltac two i Hi := destruct i as [|[|i]]; [| |exfalso; clear -Hi; lia].

(** the correlation matrix [[1, t], [t, 1]] at t = 3/5, direction [[0,1],[1,0]] *)
Definition Rt_ex (t : R) : mat := fun i j => if Nat.eqb i j then 1 else t.
Definition dR_ex : mat := fun i j => if Nat.eqb i j then 0 else 1.

Lemma Rt_ex_sym t : symmetric 2 (Rt_ex t).
Proof. intros i j Hi Hj. two i Hi; two j Hj; reflexivity. Qed.
Lemma dR_ex_sym : symmetric 2 dR_ex.
Proof. intros i j Hi Hj. two i Hi; two j Hj; reflexivity. Qed.
Lemma Rt_ex_pd : pos_def 2 (Rt_ex (3/5)).
Proof.
  intros v [i [Hi Hv]]. unfold Rt_ex. simpl.
  set (a := v 0%nat) in *. set (b := v 1%nat) in *.
  replace (0 + (0 + a * 1 * a + a * (3/5) * b) + (0 + b * (3/5) * a + b * 1 * b))
    with ((a + 3/5 * b) * (a + 3/5 * b) + (16/25) * (b * b)) by field.
  destruct (Req_dec b 0) as [Eb|Nb].
  - assert (Ha : a <> 0) by (two i Hi; [exact Hv|exfalso; apply Hv; exact Eb]).
    rewrite Eb. pose proof (Rlt_0_sqr a Ha). unfold Rsqr in H. nra.
  - pose proof (Rlt_0_sqr b Nb) as P. unfold Rsqr in P. pose proof (Rle_0_sqr (a + 3/5*b)) as Q. unfold Rsqr in Q. lra.
Qed.

Example C13_example_derivative : is_derive (fun t => fst (cholesky_with_derivative 2 (Rt_ex t) dR_ex) 1%nat 1%nat) (3/5) (-(3/4)).
Proof.
  assert (H := C13_cholesky_derivative 2 Rt_ex dR_ex (3/5) (fun _ => dR_ex) (Rt_ex_sym _) Rt_ex_pd).
  assert (Hd : forall i j, (i < 2)%nat -> (j < 2)%nat -> is_derive (fun t => Rt_ex t i j) (3/5) (dR_ex i j)).
  { intros i j Hi Hj. unfold Rt_ex, dR_ex. destruct (Nat.eqb i j); [apply (is_derive_const 1 (3/5))|apply (is_derive_id (3/5))]. }
  specialize (H Hd 1%nat 1%nat ltac:(lia) ltac:(lia)).
  replace (-(3/4)) with (snd (cholesky_with_derivative 2 (Rt_ex (3/5)) dR_ex) 1%nat 1%nat); [exact H|].
  assert (S1 : sqrt 1 = 1) by apply sqrt_1.
  assert (S2 : sqrt (16/25) = 4/5) by (replace (16/25) with ((4/5)*(4/5)) by field; apply sqrt_square; lra).
  cbn. unfold mupd. cbn. rewrite !S1.
  replace (1 - 3 / 5 / 1 * (3 / 5 / 1)) with (16/25) by field. rewrite S2. field.
Qed.

Example C14_example : forall i j, (i < 2)%nat -> (j < 2)%nat ->
  is_derive (fun t => (fun a b => if Nat.eqb a b then 1 else if Nat.eqb a 1 then - t else 0) i j) 0
    (dinvL0_dtheta 2 meye (fun a b => if Nat.eqb a 1 then if Nat.eqb b 0 then 1 else 0 else 0) i j).
Proof.
  intros i j Hi Hj.
  apply (is_derive_ext (fun t : R => (fun a b => if Nat.eqb a b then 1 else if Nat.eqb a 1 then - t else 0) i j)); [reflexivity|].
  set (Lit := fun (t : R) (a b : nat) => if Nat.eqb a b then 1 else if Nat.eqb a 1 then - t else 0).
  set (Lt := fun (t : R) (a b : nat) => if Nat.eqb a b then 1 else if Nat.eqb a 1 then t else 0).
  set (dL := fun a b : nat => if Nat.eqb a 1 then if Nat.eqb b 0 then 1 else 0 else 0).
  assert (H := C14_dinv_is_derivative 2 Lt Lit dL 0).
  assert (E : dinvL0_dtheta 2 meye dL i j = dinvL0_dtheta 2 (Lit 0) dL i j).
  { unfold dinvL0_dtheta, mmul, Lit, meye, delta, dL. two i Hi; two j Hj; cbn; ring. }
  rewrite E. apply H; try assumption.
  - exists (mkposreal 1 Rlt_0_1). intros t _. split; intros a b Ha Hb; two a Ha; two b Hb;
      unfold mmul, Lt, Lit, meye, delta; cbn; ring.
  - intros a b Ha Hb. two a Ha; two b Hb; unfold Lt, dL; cbn; first [apply (is_derive_const 1 0)|apply (is_derive_const 0 0)|apply (is_derive_id 0)].
Qed.
