(** Specification vocabulary for code calibration; no pystra code here. *)
From Verif Require Import Base StochModel.
Open Scope list_scope.
Open Scope R_scope.

(** a limit state function  z * (sum a_r x_r) - sum b_s x_s  of named arguments *)
Definition linear_lsf (lsf : list (string * R) -> result R) (zname : string) (Rl Sl : list string) (a b : string -> R) : Prop :=
  forall args z x, dict_get args zname = Some z -> (forall v, In v (Rl ++ Sl) -> dict_get args v = Some (x v)) ->
    lsf args = Ok (z * lsum (map (fun r => a r * x r) Rl) - lsum (map (fun s => b s * x s) Sl)).

(** the first load case that lists v as leading *)
Fixpoint first_lead (v : string) (cases : list (string * list string)) : option string :=
  match cases with
  | [] => None
  | (n, vrs) :: r => if in_dec string_dec v vrs then Some n else first_lead v r
  end.

(** m is the least / greatest of the values f over the rows *)
Definition least (rows : list string) (f : string -> R) (m : R) : Prop := (exists r, In r rows /\ f r = m) /\ forall r, In r rows -> m <= f r.
Definition greatest (rows : list string) (f : string -> R) (m : R) : Prop := (exists r, In r rows /\ f r = m) /\ forall r, In r rows -> f r <= m.

(** scipy/numpy contract: [solve n M b] returns a solution of M x = b *)
Definition solves (solve : nat -> mat -> list R -> result (list R)) : Prop :=
  forall n M b x, solve n M b = Ok x -> List.length x = n /\ forall i, (i < n)%nat -> mvec n M (vof x) i = nth i b 0.
