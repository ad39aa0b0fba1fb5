(** Model of SensitivityAnalysis.run, run_form and summary (sensitivity.py 57-136): the dispatch to the
    two methods (NumRun.v, SensRun.v), the Python dictionaries they return, and the table made of them.
    Definitions only. *)
From Coquelicot Require Import Coquelicot.
From Verif Require Import Base Ext StochModel LimitState Form Nataf Dist Pipe Sens SensRun NumRun.

(** The Python objects in a result: floats, the correlation array, dictionaries in insertion order *)
Inductive pyv := PNum (v : R) | PArr (M : mat) | PDict (d : list (string * pyv)).
(** the outcome of run(): the dictionary; a dictionary of NaNs; an exception; out of fuel *)
Inductive sa_out := SaDict (d : pyv) | SaNaN | SaRaise (e : exn) | SaFuel.

Definition nested (s : list (string * list (string * R))) : pyv :=
  PDict (map (fun row => (fst row, PDict (map (fun pv => (fst pv, PNum (snd pv))) (snd row)))) s).

Section Api.
Variable D : Type.
Variable rvo : D -> rv.
Variable sparams : D -> list (string * R).
Variable mkcopy : D -> string -> R -> result D.
Variable mgo : D -> marg.
Variable d0 : D.
Variable fmin : (R -> R) -> R -> R.
Variable chol : nat -> mat -> result mat.
Variable svd : nat -> mat -> result (mat * vec).
Variable inv : nat -> mat -> result mat.
Variables fuel lf : nat.
Variable expr : expression.
Variable evn : option exn.

(** sensitivity.py 232-308: marginal_sens has a row per variable with the keys of sensitivity_params;
    308 returns it with the correlation array *)
Definition cf_dict (m : pmodel D) (r : cfres) : pyv :=
  PDict [("marginal"%string, nested (map (fun k => let nd := nth k (pm_vars D m) (""%string, d0) in
            (fst nd, map (fun pv => (fst pv, cf_marg r k (fst pv))) (sparams (snd nd)))) (seq 0 (length (pm_vars D m)))));
         ("correlation"%string, PArr (cf_corr r))].

(** 57-65 and 67-103; [ty], [fo]: self.options (the given ones or AnalysisOptions()), the
    transformation type and the rest *)
Definition sa_run (ty : option string) (fo : form_opts) (numerical : bool) (delta : R) (names : list string) (m : pmodel D) : sa_out :=
  if numerical then
    match fst (numerical_run D rvo sparams mkcopy fmin chol svd inv fuel lf expr evn names fo delta m) with
    | Ok s => SaDict (nested s)
    | Err e => SaRaise e
    end
  else
    match form_init ty with
    | Err e => SaRaise e
    | Ok a =>
        match snd (cf_sens fmin chol svd inv fuel lf expr fo evn a (fun k => mgo (nth k (pm_marg D m) d0)) (to_sm D rvo names m)) with
        | CfDone r => SaDict (cf_dict m r)
        | CfNaN => SaNaN
        | CfRaise e => SaRaise e
        | CfFuel => SaFuel
        end
    end.
(** 101-103 *)
Definition sa_run_form := sa_run.
End Api.

(** 105-136: result.get("marginal", result), then two nested .items() loops.  A value that is no
    dictionary has no attribute "items"; iterating floats likewise.  The rows of the DataFrame: a
    value is whatever is stored. *)
Definition rows_of_var (name : string) (params : pyv) : result (list (string * string * pyv)) :=
  match params with PDict d => Ok (map (fun pv => (name, fst pv, snd pv)) d) | _ => Err EAttr end.
Definition summary (res : pyv) : result (list (string * string * pyv)) :=
  match res with
  | PDict d =>
      match (match dict_get d "marginal" with Some v => v | None => res end) with
      | PDict rows => fold_right (fun nv acc => rbind (rows_of_var (fst nv) (snd nv)) (fun a => rbind acc (fun b => Ok (a ++ b)))) (Ok []) rows
      | _ => Err EAttr
      end
  | _ => Err EAttr
  end.
