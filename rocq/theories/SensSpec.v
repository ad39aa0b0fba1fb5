(** Specification vocabulary for the sensitivity analysis. *)
From Coquelicot Require Import Coquelicot.
From Verif Require Import Base StochModel Sens.

(** [m1] is [m] with the distribution of variable [name] replaced by [d] and
    nothing else changed: same variables in the same order, same correlation and
    constants, and the list of marginals in step with the variables. *)
Definition only_changed {D} (m m1 : pmodel D) (name : string) (d : D) : Prop :=
  map fst (pm_vars D m1) = map fst (pm_vars D m)
  /\ dict_get (pm_vars D m1) name = Some d
  /\ (forall k, k <> name -> dict_get (pm_vars D m1) k = dict_get (pm_vars D m) k)
  /\ pm_marg D m1 = map snd (pm_vars D m1)
  /\ pm_corr D m1 = pm_corr D m
  /\ pm_consts D m1 = pm_consts D m.

(** same variables, marginals, correlation and constants *)
Definition same_inputs {D} (m m1 : pmodel D) : Prop :=
  pm_vars D m1 = pm_vars D m /\ pm_marg D m1 = pm_marg D m
  /\ pm_corr D m1 = pm_corr D m /\ pm_consts D m1 = pm_consts D m.

From Verif Require Import TransfSpec.
(** L is the Cholesky factor of M: lower triangular, positive diagonal, L L' = M. *)
Definition cholesky_factor (n : nat) (L M : mat) : Prop :=
  (forall i j, (i < j)%nat -> L i j = 0) /\ (forall i, (i < n)%nat -> 0 < L i i) /\ factor_of n L M.

(** M with the entries (i,j) and (j,i) set to r *)
Definition set_sym (M : mat) (i j : nat) (r : R) : mat :=
  fun a b => if (Nat.eqb a i && Nat.eqb b j) || (Nat.eqb a j && Nat.eqb b i) then r else M a b.
