(** Model of Form.computeGamma, /repo/src/pystra/form.py 177-182.  Definitions only. *)
From Verif Require Import Base.
Open Scope R_scope.
(** 179: np.diag(np.sqrt(np.diag(J J^T))), J the inverse Jacobian dx/du of the last iteration *)
Definition computeGamma (n : nat) (J : mat) : mat := fun i j => if Nat.eqb i j then sqrt (mmul n J (mtrans J) i i) else 0.
