(** Vocabulary for C81-C83. *)
From Coquelicot Require Import Coquelicot.
From Verif Require Import Base StochModel Gauss Dist Copy.
From Coq Require Import String List.
Import ListNotations.
Open Scope string_scope.
Open Scope R_scope.

(** The copy made without overrides is the same distribution (same cdf, same reported
    moments, same sensitivity parameters and constructor keywords); its start point is its mean, whatever the original's was. *)
Definition reconstructs (c : cls) (o : inst) : Prop :=
  exists o', make_copy c o [] = Ok o' /\ (forall x, in_cdf o' x = in_cdf o x)
    /\ in_mean o' = in_mean o /\ in_stdv o' = in_stdv o /\ in_start o' = in_mean o'
    /\ in_sens o' = in_sens o /\ in_kw o' = in_kw o.
(** dF_dtheta returns a value at every point. *)
Definition supports_dF (c : cls) (o : inst) : Prop := forall x, exists r, base_dF c o x = Ok r.

(** Stored extra constructor keywords: distinct and none called mean or std (as in every class). *)
Definition kw_plain (kw : list (string * R)) : Prop := ~ In "mean" (map fst kw) /\ ~ In "std" (map fst kw) /\ NoDup (map fst kw).

(** Shapes for which a GEV has finite variance, and the code's zero test is exact. *)
Definition gev_regular (Gam : R -> R) (sh : R) : Prop :=
  sh < 1 / 2 /\ (sh = 0 \/ (/ 10 ^ 8 < Rabs sh /\ 0 < Gam (1 - 2 * sh) - Gam (1 - sh) * Gam (1 - sh))).
