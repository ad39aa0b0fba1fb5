(** Property theorems C01, C02. *)
From Verif Require Import Base StochModel StochModelSpec StochModelProofs.
Open Scope string_scope.

(** C01: after any history, the observables are those of the accepted objects. *)
Theorem C01_registry_integrity : forall h : list smop,
  let s := sm_run h in let acc := accepted h in
  sm_names s = names_of acc /\ NoDup (sm_names s) /\
  sm_marg s = dists_of acc /\
  sm_variables s = map (fun d => (rv_name d, d)) (dists_of acc) /\
  sm_consts s = consts_of acc /\
  getLenMarginalDistributions s = List.length (dists_of acc).
Proof. exact registry. Qed.
Print Assumptions C01_registry_integrity.

(** C01: a call raises exactly for a foreign object or a taken name ... *)
Theorem C01_raises_iff : forall (h : list smop) (o : obj),
  (exists e, addVariable (sm_run h) o = Err e) <->
  (valid_name o = None \/ exists n, valid_name o = Some n /\ In n (names_of (accepted h))).
Proof. exact add_raises. Qed.
Print Assumptions C01_raises_iff.

(** ... and leaves everything unchanged. *)
Theorem C01_raise_leaves_unchanged : forall h o e,
  addVariable (sm_run h) o = Err e -> sm_run (h ++ [OpAdd o]) = sm_run h /\ e = EException.
Proof. exact raise_unchanged. Qed.
Print Assumptions C01_raise_leaves_unchanged.

(** C02: correlation slot. *)
Theorem C02_correlation_tracks_variables :
  (forall h M t, no_setcorr t -> ndists (h ++ OpSetCorr M :: t) = ndists h ->
     sm_corr (sm_run (h ++ OpSetCorr M :: t)) = Some M) /\
  (forall h t, no_setcorr t -> (ndists h < ndists (h ++ t))%nat ->
     exists I, sm_corr (sm_run (h ++ t)) = Some I /\
               is_identity (getLenMarginalDistributions (sm_run (h ++ t))) I) /\
  (forall t, no_setcorr t -> ndists t = 0%nat -> sm_corr (sm_run t) = None) /\
  (forall h n v, sm_corr (sm_run (h ++ [OpAdd (OConst n v)])) = sm_corr (sm_run h)).
Proof. exact corr_tracks. Qed.
Print Assumptions C02_correlation_tracks_variables.

(** A concrete history: two distributions, a constant, a foreign object, a
    duplicate, a setCorrelation and a later distribution. *)
Definition ex_rv (n : string) : rv := mkrv n 0 1 0 (fun u => u) (fun x => x) (fun _ _ => 1).
Definition ex_h : list smop :=
  [OpAdd (ODist (ex_rv "R")); OpAdd (OConst "k" 2); OpAdd OOther; OpAdd (ODist (ex_rv "R"));
   OpAdd (ODist (ex_rv "S")); OpSetCorr [[1; 1/2]; [1/2; 1]]; OpAdd (OConst "S" 3)].

Example C01_example :
  accepted ex_h = [ODist (ex_rv "R"); OConst "k" 2; ODist (ex_rv "S")] /\
  addVariable (sm_run ex_h) (OConst "k" 7) = Err EException /\
  is_ok (addVariable (sm_run ex_h) (OConst "m" 7)) = true.
Proof. repeat split. Qed.

Example C02_example :
  sm_corr (sm_run ex_h) = Some [[1; 1/2]; [1/2; 1]] /\
  no_setcorr [OpAdd (OConst "S" 3)] /\
  sm_corr (sm_run (ex_h ++ [OpAdd (ODist (ex_rv "T"))])) = Some [[1;0;0];[0;1;0];[0;0;1]] /\
  (ndists ex_h < ndists (ex_h ++ [OpAdd (ODist (ex_rv "T"))]))%nat.
Proof.
  repeat split.
  - intros M [H|[]]; discriminate.
  - vm_compute. lia.
Qed.
