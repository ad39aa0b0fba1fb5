(** Model of Sorm.gram_schmidt and Sorm.orthonormal_matrix,
    /repo/src/pystra/sorm.py lines 580-624.  Definitions only. *)
From Verif Require Import Base.

(** [M[:, j]] *)
Definition mcol (M : mat) (j : nat) : vec := fun a => M a j.

(** numpy's isclose(r, 0.0) with its default tolerances: |r - 0| <= atol + rtol |0| *)
Definition isclose0 (r : R) : bool := Rleb (Rabs (r - 0)) (1 / 100000000 + 1 / 100000 * Rabs 0).

(** lines 616-617: [rij = dot(q, Q[:, i]); q = q - rij * Q[:, i]] *)
Definition gs_sub (n : nat) (Q : mat) (q : vec) (i : nat) : vec :=
  let rij := dot n q (mcol Q i) in fun a => q a - rij * Q a i.

(** lines 614-617: [q = A[:, j]; for i in range(j): ...] *)
Definition gs_resid (n : nat) (A Q : mat) (j : nat) : vec :=
  fold_left (gs_sub n Q) (seq 0 j) (mcol A j).

(** lines 613-623, body of the loop over j *)
Definition gs_step (n : nat) (A : mat) (r : result mat) (j : nat) : result mat :=
  rbind r (fun Q =>
    let q := gs_resid n A Q j in
    let rjj := norm n q in
    if isclose0 rjj then Err EValue
    else Ok (fun a b => if Nat.eqb b j then q a / rjj else Q a b)).

(** lines 601-624, gram_schmidt *)
Definition gram_schmidt (n : nat) (A : mat) : result mat :=
  fold_left (gs_step n A) (seq 0 n) (Ok (fun _ _ => 0)).

(** np.rot90(m, k=3): flip(transpose(m), axis=1) *)
Definition rot270 (n : nat) (M : mat) : mat := fun i j => M (n - 1 - j)%nat i.
(** np.rot90(m): transpose(flip(m, axis=1)) *)
Definition rot90 (n : nat) (M : mat) : mat := fun i j => M j (n - 1 - i)%nat.

(** lines 580-599, orthonormal_matrix.  [self.form.alpha] has shape (1, nrv);
    for nrv = 1 squeeze() yields a 0-d array and len() raises TypeError. *)
Definition orthonormal_matrix (n : nat) (alpha : vec) : result mat :=
  if Nat.eqb n 1 then Err EType
  else
    let A : mat := fun i j => if Nat.eqb i (n - 1) then alpha j else meye i j in
    rbind (gram_schmidt n (rot270 n A)) (fun Q => Ok (rot90 n Q)).
