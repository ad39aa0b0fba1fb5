(** Specification vocabulary for C92 and C93: whole Form analyses. *)
From Coquelicot Require Import Coquelicot.
From Verif Require Import Base Ext StochModel StochModelSpec LimitState Transf TransfSpec Form RotSpec.
From Coq Require Import ZArith.

(** The NumPy linear algebra calls: what they return is correct, symmetric positive definite
    matrices are factorised and invertible ones inverted. *)
Definition lapack (n : nat) (chol : nat -> mat -> result mat) (svd : nat -> mat -> result (mat * vec)) (inv : nat -> mat -> result mat) (e0 : exn) : Prop :=
  (forall Ro, chol_contract n chol Ro) /\ (forall Ro, svd_contract n svd Ro) /\ inv_total n inv e0 /\
  (forall Ro, symmetric n Ro -> pos_def n Ro ->
     (exists L T, chol n Ro = Ok L /\ inv n L = Ok T) /\
     (exists U D T, svd n Ro = Ok (U, D) /\ inv n (mmul n U (fun i j => sqrt (D j) * meye i j)) = Ok T)).

(** AnalysisOptions() as constructed (analysis.py 109-244) *)
Definition default_ls : lsopts := mkopts "ffd" 1 1000 1000.
Definition default_options : form_opts := mkfo 100 (1 / 1000) (1 / 1000) 0 default_ls.

(** Options under which a run from the means is exact on limit states that are affine in
    u-space: full steps, or automatic steps with a criterion of at most 1/3 and more than 15
    allowed iterations (the defaults). *)
Definition exact_options (fo : form_opts) : Prop :=
  fo_ls fo = default_ls /\ 0 < fo_e2 fo /\
  ((fo_step fo = 1 /\ 0 < fo_e1 fo <= 1 /\ (2 <= fo_imax fo)%Z) \/
   (fo_step fo = 0 /\ 0 < fo_e1 fo <= 1 / 3 /\ (15 < fo_imax fo)%Z)).

(** two model objects with the same registered variables, constants and correlation *)
Definition same_problem (s s' : smodel) : Prop :=
  sm_variables s' = sm_variables s /\ sm_names s' = sm_names s /\ sm_marg s' = sm_marg s /\ sm_corr s' = sm_corr s /\ sm_consts s' = sm_consts s.
