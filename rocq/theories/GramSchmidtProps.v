(** Property theorems C15. *)
From Verif Require Import Base GramSchmidt GramSchmidtProofs.

(** C15: whenever orthonormal_matrix returns, the result is orthonormal (rows
    and columns), its last row is alpha, and it turns the design point
    beta*alpha into (0, ..., 0, beta). *)
Theorem C15_rotation_matrix : forall n alpha R1,
  norm n alpha = 1 -> orthonormal_matrix n alpha = Ok R1 ->
  (2 <= n)%nat /\
  (forall i j, (i < n)%nat -> (j < n)%nat -> dot n (fun a => R1 i a) (fun a => R1 j a) = delta i j) /\
  (forall i j, (i < n)%nat -> (j < n)%nat -> dot n (fun a => R1 a i) (fun a => R1 a j) = delta i j) /\
  (forall a, (a < n)%nat -> R1 (n - 1)%nat a = alpha a) /\
  (forall beta i, (i < n)%nat -> mvec n R1 (fun a => beta * alpha a) i = if Nat.eqb i (n - 1) then beta else 0).
Proof. exact om_ok. Qed.
Print Assumptions C15_rotation_matrix.

(** C15: it succeeds whenever there are at least two variables and the last
    component of alpha exceeds the isclose tolerance ... *)
Theorem C15_succeeds_if_last_relevant : forall n alpha,
  (2 <= n)%nat -> norm n alpha = 1 -> 1 / 100000000 < Rabs (alpha (n - 1)%nat) ->
  exists R1, orthonormal_matrix n alpha = Ok R1.
Proof. exact om_succeeds. Qed.
Print Assumptions C15_succeeds_if_last_relevant.

(** ... raises ValueError whenever the last variable is irrelevant ... *)
Theorem C15_raises_if_last_irrelevant : forall n alpha,
  norm n alpha = 1 -> (2 <= n)%nat -> alpha (n - 1)%nat = 0 -> orthonormal_matrix n alpha = Err EValue.
Proof. intros n alpha H _ H0. exact (om_raises n alpha H H0). Qed.
Print Assumptions C15_raises_if_last_irrelevant.

(** ... and raises TypeError for one variable. *)
Theorem C15_one_variable_raises : forall alpha, orthonormal_matrix 1 alpha = Err EType.
Proof. reflexivity. Qed.
Print Assumptions C15_one_variable_raises.

(** C15, gram_schmidt on any square matrix: orthonormal columns spanning the
    same flags, A = Q R with R upper triangular and positive on the diagonal. *)
Theorem C15_gram_schmidt_qr : forall n A Q, gram_schmidt n A = Ok Q ->
  (forall i j, (i < n)%nat -> (j < n)%nat -> dot n (fun a => Q a i) (fun a => Q a j) = delta i j) /\
  (forall j, (j < n)%nat -> exists (c : vec) (r : R), 0 < r /\
     forall a, A a j = r * Q a j + fsum j (fun i => c i * Q a i)).
Proof.
  intros n A Q H. split; [exact (gs_state_ortho n A n Q H)|exact (gs_state_qr n A n Q H)].
Qed.
Print Assumptions C15_gram_schmidt_qr.

(** non-vacuity: alpha = (3/5, 4/5) succeeds, (1, 0) raises *)
Lemma norm_35_45 : norm 2 (fun i => match i with O => 3/5 | _ => 4/5 end) = 1.
Proof. unfold norm, dot. simpl. replace (0 + 3 / 5 * (3 / 5) + 4 / 5 * (4 / 5)) with 1 by field. apply sqrt_1. Qed.

Example C15_example_ok : exists R1, orthonormal_matrix 2 (fun i => match i with O => 3/5 | _ => 4/5 end) = Ok R1 /\
  R1 1%nat 0%nat = 3/5.
Proof.
  destruct (C15_succeeds_if_last_relevant 2 _ (le_n 2) norm_35_45) as [R1 H].
  - simpl. rewrite Rabs_right by lra. lra.
  - exists R1. split; [exact H|].
    destruct (C15_rotation_matrix 2 _ R1 norm_35_45 H) as (_ & _ & _ & L & _). exact (L 0%nat ltac:(lia)).
Qed.

Example C15_example_raises : orthonormal_matrix 2 (fun i => match i with O => 1 | _ => 0 end) = Err EValue.
Proof.
  apply C15_raises_if_last_irrelevant; [|lia|reflexivity].
  unfold norm, dot. simpl. replace (0 + 1 * 1 + 0 * 0) with 1 by ring. apply sqrt_1.
Qed.
