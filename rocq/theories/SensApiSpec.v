(** Specification vocabulary for C106. *)
From Coquelicot Require Import Coquelicot.
From Verif Require Import Base StochModel Sens SensApi.

(** the (variable, parameter) pairs of a model: variables in the order of the model, each with its
    sensitivity parameters in their order *)
Definition pairs_of {D} (sparams : D -> list (string * R)) (m : pmodel D) : list (string * string) :=
  flat_map (fun nd => map (fun pv => (fst nd, fst pv)) (sparams (snd nd))) (pm_vars D m).
(** result[name][param] for a dictionary of dictionaries of numbers *)
Definition entry (d : pyv) (name param : string) : option R :=
  match d with
  | PDict r => match dict_get r name with Some (PDict q) => match dict_get q param with Some (PNum v) => Some v | _ => None end | _ => None end
  | _ => None
  end.
(** the part of a result holding the marginal sensitivities: result["marginal"] for the closed form,
    the result itself for finite differences *)
Definition marginals (numerical : bool) (d : pyv) : pyv :=
  if numerical then d else match d with PDict r => match dict_get r "marginal" with Some v => v | None => d end | _ => d end.
(** a table lists the pairs ps, each with the entry of d *)
Definition tabulates (rows : list (string * string * pyv)) (ps : list (string * string)) (d : pyv) : Prop :=
  map fst rows = ps /\ forall name param v, In (name, param, v) rows -> exists x, v = PNum x /\ entry d name param = Some x.
