(** Model of /repo/src/pystra/cholesky_sensitivity.py.  Definitions only.

    The two work arrays are matrices updated in place, entry by entry, in the
    order of the loops in the code. *)
From Verif Require Import Base.

(** [A[i, j] = v] *)
Definition mupd (A : mat) (i j : nat) (v : R) : mat :=
  fun a b => if Nat.eqb a i && Nat.eqb b j then v else A a b.

Definition cstate := (mat * mat)%type.   (* (A, dA) *)

(** lines 49-50 *)
Definition chol_pivot (k : nat) (s : cstate) : cstate :=
  let (A, dA) := s in
  let dA1 := mupd dA k k (dA k k / (2 * sqrt (A k k))) in
  let A1 := mupd A k k (sqrt (A k k)) in
  (A1, dA1).

(** lines 53-55, body of the loop over i *)
Definition chol_col (k : nat) (s : cstate) (i : nat) : cstate :=
  let (A, dA) := s in
  let dA1 := mupd dA i k ((dA i k * A k k - A i k * dA k k) / (A k k * A k k)) in
  let A1 := mupd A i k (A i k / A k k) in
  (A1, dA1).

(** lines 60-61, body of the loops over j and i *)
Definition chol_trail (k j : nat) (s : cstate) (i : nat) : cstate :=
  let (A, dA) := s in
  let dA1 := mupd dA i j (dA i j - dA i k * A j k - A i k * dA j k) in
  let A1 := mupd A i j (A i j - A i k * A j k) in
  (A1, dA1).

(** [range(a, n)] *)
Definition range (a n : nat) : list nat := seq a (n - a).

(** body of the loop over k, lines 47-61 *)
Definition chol_step (n : nat) (s : cstate) (k : nat) : cstate :=
  let s1 := chol_pivot k s in
  let s2 := fold_left (chol_col k) (range (k + 1) n) s1 in
  fold_left (fun s j => fold_left (chol_trail k j) (range j n) s) (range (k + 1) n) s2.

(** [np.tril] *)
Definition tril (A : mat) : mat := fun i j => if Nat.leb j i then A i j else 0.

(** lines 41-67; R0 and dR0 are copied first (44-45), so they are unchanged. *)
Definition cholesky_with_derivative (n : nat) (R0 dR0 : mat) : mat * mat :=
  let (A, dA) := fold_left (chol_step n) (range 0 n) (R0, dR0) in
  (tril A, tril dA).

(** lines 91-92; [L0_inv] is the result of np.linalg.inv(L0). *)
Definition dinvL0_dtheta (n : nat) (L0_inv dL0 : mat) : mat :=
  mmul n (mmul n (fun i j => - L0_inv i j) dL0) L0_inv.
