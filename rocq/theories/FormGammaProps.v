(** Property theorems C125: the attribute gamma of Form. *)
From Coquelicot Require Import Coquelicot.
From Verif Require Import Base StochModel Transf TransfSpec TransfProofs Dist Pipe FormGamma.
From Coq Require Import Lra Lia.
Open Scope R_scope.

(** C125: at the last point, with z = inv_T u and jac_i = dz_i/dx_i the derivatives of the marginal maps:
    J J^T is the matrix Ro_ij (dx_i/dz_i)(dx_j/dz_j), and gamma the diagonal matrix of |dx_i/dz_i|, the
    standard deviations of the equivalent normal variables, for both factorisations. *)
Theorem C125_gamma : forall n T A Ro m u x J,
  inverse_pair n T A -> factor_of n A Ro -> (forall i, (i < n)%nat -> Ro i i = 1) ->
  inverse_pair n (jacobian n T A m u x) J ->
  let jac i := rv_jac (m i) (mvec n A u i) (x i) in
  (forall i, (i < n)%nat -> jac i <> 0) ->
  forall i j, (i < n)%nat -> (j < n)%nat ->
    mmul n J (mtrans J) i j = Ro i j / (jac i * jac j) /\
    computeGamma n J i j = if Nat.eqb i j then / Rabs (jac i) else 0.
Proof.
  intros n T A Ro m u x J HI HF HR HJ jac Hj.
  set (C := fun i j => A i j / jac i).
  assert (HC : inverse_pair n (jacobian n T A m u x) C).
  { assert (EJ : forall i k, (k < n)%nat -> jacobian n T A m u x i k = T i k * jac k).
    { intros i k Hk. unfold jacobian, mmul, jac_diag. rewrite (fsum_single n k); [rewrite Nat.eqb_refl; reflexivity|exact Hk|]. intros l _ N. destruct (Nat.eqb_spec l k); [contradiction|ring]. }
    destruct HI as [H1 H2]. split; intros i j Hi Hj'.
    - rewrite <- (H1 i j Hi Hj'). unfold mmul. apply fsum_ext. intros k Hk. rewrite EJ by exact Hk. unfold C. field. apply Hj, Hk.
    - unfold mmul. rewrite (fsum_ext n _ (fun k => / jac i * jac j * (A i k * T k j))) by (intros k Hk; rewrite EJ by exact Hj'; unfold C; field; apply Hj; assumption). rewrite fsum_scal. fold (mmul n A T i j). rewrite (H2 i j Hi Hj'). unfold meye. destruct (Nat.eq_dec i j) as [<-|N]; [rewrite delta_refl; field; apply Hj, Hi|rewrite delta_neq by exact N; ring]. }
  pose proof (inverse_unique n _ J C HJ HC) as E.
  assert (JJ : forall i j, (i < n)%nat -> (j < n)%nat -> mmul n J (mtrans J) i j = Ro i j / (jac i * jac j)).
  { intros i j Hi Hj'. rewrite <- (HF i j Hi Hj'). unfold mmul, mtrans. unfold Rdiv. rewrite <- fsum_scal_r. apply fsum_ext. intros k Hk. rewrite (E i k Hi Hk), (E j k Hj' Hk). unfold C. field. split; apply Hj; assumption. }
  intros i j Hi Hj'. split; [apply JJ; assumption|]. unfold computeGamma. destruct (Nat.eqb_spec i j) as [<-|N]; [|reflexivity].
  rewrite JJ, HR by assumption. replace (1 / (jac i * jac i)) with (Rsqr (/ jac i)) by (unfold Rsqr; field; apply Hj, Hi). rewrite sqrt_Rsqr_abs. apply Rabs_inv.
Qed.
Print Assumptions C125_gamma.

(** C125: normal variables: gamma is the diagonal matrix of the standard deviations, at every point and for
    every correlation. *)
Theorem C125_gamma_normal : forall n T A Ro m u x J nm (mu sd : vec),
  inverse_pair n T A -> factor_of n A Ro -> (forall i, (i < n)%nat -> Ro i i = 1) ->
  (forall i, (i < n)%nat -> 0 < sd i /\ m i = Normal (nm i) (mu i) (sd i)) ->
  inverse_pair n (jacobian n T A m u x) J ->
  forall i j, (i < n)%nat -> (j < n)%nat -> computeGamma n J i j = if Nat.eqb i j then sd i else 0.
Proof.
  intros n T A Ro m u x J nm mu sd HI HF HR HS HJ i j Hi Hj.
  assert (JN : forall k, (k < n)%nat -> forall z y, rv_jac (m k) z y = / sd k) by (intros k Hk z y; destruct (HS k Hk) as [P ->]; cbn; lra).
  destruct (C125_gamma n T A Ro m u x J HI HF HR HJ) with (i := i) (j := j) as [_ E]; [|exact Hi|exact Hj|].
  - intros k Hk. rewrite JN by exact Hk. apply Rinv_neq_0_compat. destruct (HS k Hk). lra.
  - rewrite E, JN by exact Hi. destruct (HS i Hi) as [P _]. rewrite Rabs_inv, Rabs_right, Rinv_inv by lra. reflexivity.
Qed.
Print Assumptions C125_gamma_normal.

(** two normal variables with standard deviations 2 and 5 and correlation 3/5, Cholesky factor *)
Example C125_example :
  let A := fun i j : nat => match i, j with O, O => 1 | S O, O => 3 / 5 | S O, S O => 4 / 5 | _, _ => 0 end in
  let T := fun i j : nat => match i, j with O, O => 1 | S O, O => - (3 / 4) | S O, S O => 5 / 4 | _, _ => 0 end in
  let m := fun i : nat => Normal "X" 1 (match i with O => 2 | _ => 5 end) in
  let J := fun i j : nat => match i, j with O, O => 2 | S O, O => 3 | S O, S O => 4 | _, _ => 0 end in
  inverse_pair 2 T A /\ (forall u x, inverse_pair 2 (jacobian 2 T A m u x) J) /\ computeGamma 2 J 1%nat 1%nat = 5.
Proof.
  intros A T m J. assert (HI : inverse_pair 2 T A) by (split; intros [|[|i]] [|[|j]] Hi Hj; try lia; unfold mmul, A, T, meye, delta; cbn; field). split; [exact HI|].
  assert (HJ : forall u x, inverse_pair 2 (jacobian 2 T A m u x) J) by (intros u x; split; intros [|[|i]] [|[|j]] Hi Hj; try lia; unfold mmul, J, jacobian, jac_diag, mmul, A, T, m, meye, delta; cbn; field). split; [exact HJ|].
  apply (C125_gamma_normal 2%nat T A (fun i j => if Nat.eqb i j then 1 else 3 / 5) m (fun _ => 0%R) (fun _ => 0%R) J (fun _ => "X"%string) (fun _ => 1%R) (fun i => match i with O => 2%R | _ => 5%R end) HI) with (i := 1%nat) (j := 1%nat); try lia; [|intros i _; rewrite Nat.eqb_refl; reflexivity| |apply HJ].
  - intros [|[|i]] [|[|j]] Hi Hj; try lia; unfold A; cbn; field.
  - intros [|i] _; (split; [lra|reflexivity]).
Qed.
