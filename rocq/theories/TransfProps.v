(** Property theorems C09 - C12, C65. *)
From Coquelicot Require Import Coquelicot.
From Verif Require Import Base StochModel Transf TransfSpec TransfProofs.
Open Scope string_scope.

(** C09 *)
Theorem C09_round_trip_from_u : forall n T invT m u,
  inverse_pair n T invT ->
  (forall i, (i < n)%nat -> forall z, rv_x2u (m i) (rv_u2x (m i) z) = z) ->
  veq n (x_to_u n T m (u_to_x n invT m u)) u.
Proof. exact round_trip_u. Qed.
Print Assumptions C09_round_trip_from_u.

(** the hypothesis on x says each component is in the support of its marginal *)
Theorem C09_round_trip_from_x : forall n T invT m x,
  inverse_pair n T invT ->
  (forall i, (i < n)%nat -> rv_u2x (m i) (rv_x2u (m i) (x i)) = x i) ->
  veq n (u_to_x n invT m (x_to_u n T m x)) x.
Proof. exact round_trip_x. Qed.
Print Assumptions C09_round_trip_from_x.

(** C10: whatever the two transformation types, physical points have images of
    equal length, and the distances of the points of any region S of the
    physical space (e.g. the limit-state surface) coincide. *)
Theorem C10_reliability_independent_of_factorisation :
  forall chol svd inv n Ro m ty1 ty2 T1 A1 T2 A2,
  symmetric n Ro -> pos_def n Ro ->
  chol_contract n chol Ro -> svd_contract n svd Ro -> inv_contract n inv ->
  transf_compute chol svd inv ty1 n Ro = Ok (T1, A1) ->
  transf_compute chol svd inv ty2 n Ro = Ok (T2, A2) ->
  (forall x, norm n (x_to_u n T1 m x) = norm n (x_to_u n T2 m x)) /\
  ((forall i, (i < n)%nat -> forall z, rv_x2u (m i) (rv_u2x (m i) z) = z) ->
   forall (S : vec -> Prop) d, (forall x y, veq n x y -> S x -> S y) ->
   ((exists u, S (u_to_x n A1 m u) /\ norm n u = d) <-> (exists u, S (u_to_x n A2 m u) /\ norm n u = d))).
Proof. exact cholesky_svd_same. Qed.
Print Assumptions C10_reliability_independent_of_factorisation.

(** C10: what compute leaves in (T, inv_T) *)
Theorem C10_computed_factor : forall chol svd inv n Ro ty T invT,
  symmetric n Ro -> pos_def n Ro ->
  chol_contract n chol Ro -> svd_contract n svd Ro -> inv_contract n inv ->
  transf_compute chol svd inv ty n Ro = Ok (T, invT) ->
  inverse_pair n T invT /\ factor_of n invT Ro.
Proof. exact compute_factor. Qed.
Print Assumptions C10_computed_factor.

(** C11 *)
Theorem C11_jacobian_is_derivative : forall n T invT m x,
  inverse_pair n T invT ->
  (forall j, (j < n)%nat ->
     is_derive (rv_x2u (m j)) (x j) (rv_jac (m j) (rv_x2u (m j) (x j)) (x j))) ->
  let u := x_to_u n T m x in
  forall i j, (i < n)%nat -> (j < n)%nat ->
  is_derive (fun t => x_to_u n T m (vset x j t) i) (x j) (jacobian n T invT m u x i j).
Proof. exact jacobian_derivative. Qed.
Print Assumptions C11_jacobian_is_derivative.

Theorem C11_inverse_jacobian_is_derivative : forall n T invT m J u,
  inverse_pair n T invT ->
  let x := u_to_x n invT m u in
  (forall i, (i < n)%nat -> rv_jac (m i) (mvec n invT u i) (x i) <> 0 /\
     is_derive (rv_u2x (m i)) (mvec n invT u i) (/ rv_jac (m i) (mvec n invT u i) (x i))) ->
  inverse_pair n (jacobian n T invT m u x) J ->
  forall i j, (i < n)%nat -> (j < n)%nat ->
  is_derive (fun t => u_to_x n invT m (vset u j t) i) (u j) (J i j).
Proof. exact inverse_jacobian_derivative. Qed.
Print Assumptions C11_inverse_jacobian_is_derivative.

Theorem C11_pulled_back_gradient : forall n T invT m J u g grad,
  inverse_pair n T invT ->
  let x := u_to_x n invT m u in
  (forall i, (i < n)%nat -> rv_jac (m i) (mvec n invT u i) (x i) <> 0 /\
     is_derive (rv_u2x (m i)) (mvec n invT u i) (/ rv_jac (m i) (mvec n invT u i) (x i))) ->
  inverse_pair n (jacobian n T invT m u x) J ->
  has_gradient n g x grad ->
  forall j, (j < n)%nat ->
  is_derive (fun t => g (u_to_x n invT m (vset u j t))) (u j) (pull_gradient n grad J j).
Proof. exact pulled_gradient. Qed.
Print Assumptions C11_pulled_back_gradient.

(** C12 *)
Theorem C12_created_iff : forall ty,
  (exists t, mkTransformation ty = Ok t) <-> (ty = None \/ ty = Some "cholesky" \/ ty = Some "svd").
Proof. exact transformation_created_iff. Qed.
Print Assumptions C12_created_iff.

Theorem C12_type_stored_or_ValueError : forall ty,
  mkTransformation ty =
    match ty with
    | None => Ok "cholesky"
    | Some s => if orb (String.eqb s "cholesky") (String.eqb s "svd") then Ok s else Err EValue
    end.
Proof. exact transformation_types. Qed.
Print Assumptions C12_type_stored_or_ValueError.

Theorem C12_options_change_after_construction_has_no_effect :
  forall chol svd inv opt a changes n Ro,
  analysis_init opt = Ok a ->
  init_run chol svd inv (fold_left set_transform_option changes a) n Ro =
  match opt with
  | Some t => if String.eqb t "svd" then computeSVD svd inv n Ro else computeCholesky chol inv n Ro
  | None => computeCholesky chol inv n Ro
  end.
Proof. exact options_change_irrelevant. Qed.
Print Assumptions C12_options_change_after_construction_has_no_effect.

(** C65 *)
Theorem C65_starting_point : forall n T invT m,
  inverse_pair n T invT ->
  (forall i, (i < n)%nat -> rv_u2x (m i) (rv_x2u (m i) (rv_start (m i))) = rv_start (m i)) ->
  veq n (computeTransformation n invT m (computeStartingPoint n T m)) (fun i => rv_start (m i)).
Proof. exact starting_point. Qed.
Print Assumptions C65_starting_point.

(** *** Non-vacuity: two normal marginals, correlation 3/5 *)
Definition nrv_ex (mu s : R) : rv := mkrv "X" mu s mu (fun u => mu + s * u) (fun x => (x - mu) / s) (fun _ _ => / s).
Definition m_ex : nat -> rv := fun i => match i with O => nrv_ex 10 2 | _ => nrv_ex 5 1 end.
Definition L_ex : mat := fun i j => match i, j with
  | 0%nat, 0%nat => 1 | 1%nat, 0%nat => 3/5 | 1%nat, 1%nat => 4/5 | _, _ => 0 end.
Definition T_ex : mat := fun i j => match i, j with
  | 0%nat, 0%nat => 1 | 1%nat, 0%nat => -3/4 | 1%nat, 1%nat => 5/4 | _, _ => 0 end.

Ltac two i Hi := destruct i as [|[|i]]; [| |exfalso; lia]; clear Hi.

Example T_ex_inverse : inverse_pair 2 T_ex L_ex.
Proof.
  split; intros i j Hi Hj; two i Hi; two j Hj; unfold mmul, meye, delta, T_ex, L_ex; simpl; field.
Qed.

Example m_ex_inverse : forall i, (i < 2)%nat -> forall z, rv_x2u (m_ex i) (rv_u2x (m_ex i) z) = z.
Proof. intros i Hi z. two i Hi; simpl; field. Qed.

Example m_ex_derivatives : forall j x, (j < 2)%nat ->
  is_derive (rv_x2u (m_ex j)) x (rv_jac (m_ex j) (rv_x2u (m_ex j) x) x).
Proof. intros j x Hj. two j Hj; simpl; auto_derive; auto; lra. Qed.

Example Ro_ex_pos_def : symmetric 2 (fun i j => if Nat.eqb i j then 1 else 3/5) /\
  pos_def 2 (fun i j => if Nat.eqb i j then 1 else 3/5) /\
  factor_of 2 L_ex (fun i j => if Nat.eqb i j then 1 else 3/5).
Proof.
  repeat split.
  - intros i j Hi Hj. rewrite Nat.eqb_sym. reflexivity.
  - intros v [i [Hi Hv]].
    assert (E : fsum 2 (fun i => fsum 2 (fun j => v i * (if Nat.eqb i j then 1 else 3 / 5) * v j)) =
      (v 0%nat + 3/5 * v 1%nat)*(v 0%nat + 3/5 * v 1%nat) + 16/25 * (v 1%nat * v 1%nat)) by (simpl; field).
    rewrite E. pose proof (Rle_0_sqr (v 0%nat + 3/5 * v 1%nat)) as Q1. pose proof (Rle_0_sqr (v 1%nat)) as Q2.
    unfold Rsqr in Q1, Q2. two i Hi.
    + destruct (Req_dec (v 1%nat) 0) as [E1|E1].
      * rewrite E1. replace ((v 0%nat + 3/5*0)*(v 0%nat + 3/5*0) + 16/25*(0*0)) with (Rsqr (v 0%nat)) by (unfold Rsqr; field).
        apply Rlt_0_sqr. exact Hv.
      * pose proof (Rlt_0_sqr _ E1). unfold Rsqr in H. lra.
    + pose proof (Rlt_0_sqr _ Hv). unfold Rsqr in H. lra.
  - intros i j Hi Hj. two i Hi; two j Hj; unfold L_ex; simpl; field.
Qed.

(** C10, the docstring's stronger reading ("the final physical-space
    coordinates x are invariant", for one and the same u) is false: for
    Ro = identity, LAPACK may return any orthogonal U. *)
Definition perm : mat := fun i j => if Nat.eqb (i + j) 1 then 1 else 0.
Definition id_rv : rv := mkrv "X" 0 1 0 (fun u => u) (fun x => x) (fun _ _ => 1).

Theorem C10_same_u_same_x_refuted :
  exists chol svd inv T1 A1 T2 A2 (u : vec),
    chol_contract 2 chol meye /\ svd_contract 2 svd meye /\ inv_contract 2 inv /\
    transf_compute chol svd inv "cholesky" 2 meye = Ok (T1, A1) /\
    transf_compute chol svd inv "svd" 2 meye = Ok (T2, A2) /\
    u_to_x 2 A1 (fun _ => id_rv) u 0%nat <> u_to_x 2 A2 (fun _ => id_rv) u 0%nat.
Proof.
  set (sq := fun a b : nat => sqrt 1 * meye a b).
  set (R2 := mmul 2 perm sq).
  assert (ER : forall i j, (i < 2)%nat -> (j < 2)%nat -> R2 i j = perm i j).
  { intros i j Hi Hj. unfold R2, sq. rewrite (mmul_sqrtD 2 perm (fun _ => 1) i j Hj). rewrite sqrt_1. ring. }
  assert (PP : inverse_pair 2 perm (mtrans perm)).
  { split; intros i j Hi Hj; two i Hi; two j Hj; unfold mmul, mtrans, perm, meye, delta; simpl; ring. }
  (* an inverse routine knowing the two matrices needed here *)
  destruct (Req_EM_T 0 0) as [_|]; [|contradiction].
  set (inv := fun (k : nat) (A : mat) =>
     if Nat.eqb k 2 then
       if Req_EM_T (A 0%nat 0%nat) 1 then
         if Req_EM_T (A 0%nat 1%nat) 0 then
           if Req_EM_T (A 1%nat 0%nat) 0 then
             if Req_EM_T (A 1%nat 1%nat) 1 then Ok meye else Err EValue else Err EValue else Err EValue
       else if Req_EM_T (A 0%nat 0%nat) 0 then
         if Req_EM_T (A 0%nat 1%nat) 1 then
           if Req_EM_T (A 1%nat 0%nat) 1 then
             if Req_EM_T (A 1%nat 1%nat) 0 then Ok perm else Err EValue else Err EValue else Err EValue
         else Err EValue
     else Err EValue).
  assert (CI : inv_contract 2 inv).
  { intros A B HB. unfold inv in HB. cbn [Nat.eqb] in HB.
    repeat match type of HB with context [Req_EM_T ?a ?b] => destruct (Req_EM_T a b) end; try discriminate;
      inversion HB; subst B; split; intros i j Hi Hj; two i Hi; two j Hj;
      unfold mmul, perm, meye, delta; simpl;
      repeat match goal with H : A _ _ = _ |- _ => rewrite H; clear H end; ring. }
  assert (I1 : inv 2%nat meye = Ok meye).
  { unfold inv, meye, delta. cbn [Nat.eqb].
    repeat match goal with |- context [Req_EM_T ?a ?b] => destruct (Req_EM_T a b); try lra end. reflexivity. }
  assert (I2 : inv 2%nat R2 = Ok perm).
  { assert (E00 : R2 0%nat 0%nat = 0) by (rewrite ER by lia; reflexivity).
    assert (E01 : R2 0%nat 1%nat = 1) by (rewrite ER by lia; reflexivity).
    assert (E10 : R2 1%nat 0%nat = 1) by (rewrite ER by lia; reflexivity).
    assert (E11 : R2 1%nat 1%nat = 0) by (rewrite ER by lia; reflexivity).
    unfold inv. cbn [Nat.eqb]. rewrite E00, E01, E10, E11.
    repeat match goal with |- context [Req_EM_T ?a ?b] => destruct (Req_EM_T a b); try lra end. reflexivity. }
  exists (fun _ M => Ok meye), (fun _ M => Ok (perm, fun _ => 1)), inv.
  exists meye, meye, perm, R2, (fun i => match i with O => 1 | _ => 0 end).
  split; [|split; [|split; [exact CI|split; [|split]]]].
  - intros L HL. inversion HL; subst. intros i j Hi Hj. two i Hi; two j Hj; unfold meye, delta; simpl; ring.
  - intros U D HU. inversion HU; subst. exists perm. split; [exact PP|]. split; [exact PP|].
    split; [intros; lra|]. intros i j Hi Hj. two i Hi; two j Hj; unfold perm, meye, delta; simpl; ring.
  - unfold transf_compute, computeCholesky, rbind. cbn [String.eqb Ascii.eqb Bool.eqb]. rewrite I1. reflexivity.
  - unfold transf_compute, computeSVD, rbind. cbn [String.eqb Ascii.eqb Bool.eqb fst snd].
    fold sq. fold R2. rewrite I2. reflexivity.
  - unfold u_to_x, mvec. simpl. rewrite !ER by lia. unfold perm, meye, delta. simpl. lra.
Qed.
Print Assumptions C10_same_u_same_x_refuted.

Example C12_example : mkTransformation (Some "eigen") = Err EValue /\ mkTransformation None = Ok "cholesky" /\
  analysis_init (Some "svd") = Ok (mkan (Some "svd") "svd").
Proof. repeat split. Qed.

Example C11_example_gradient :
  has_gradient 2 (fun x => 3 * x 0%nat - x 1%nat) (fun _ => 1) (fun i => match i with O => 3 | _ => -1 end).
Proof.
  intros c t0 v Hc Hv. simpl.
  replace (0 + 3 * v 0%nat + -1 * v 1%nat) with (3 * v 0%nat - v 1%nat) by ring.
  apply (is_derive_minus (fun t => 3 * c t 0%nat) (fun t => c t 1%nat)).
  - apply (is_derive_scal (fun t => c t 0%nat) t0 3). apply Hv. lia.
  - apply Hv. lia.
Qed.

Example C65_example : veq 2 (computeTransformation 2 L_ex m_ex (computeStartingPoint 2 T_ex m_ex))
   (fun i => rv_start (m_ex i)).
Proof.
  apply C65_starting_point; [exact T_ex_inverse|]. intros i Hi. two i Hi; simpl; field.
Qed.
