(** Model of the arguments of Calibration and Calibration.run, /repo/src/pystra/calibration.py.  Definitions only. *)
From Verif Require Import Base StochModel Dict LoadComb Calib.
Open Scope R_scope.

(** 97-98: the constructor keeps the two names as they are; defaults of 63-64 *)
Record cal_obj := mkCal { co_calib : string; co_est : string }.
Definition cal_init (calib est : option string) : cal_obj :=
  mkCal (match calib with Some s => s | None => "optimize" end) (match est with Some s => s | None => "matrix" end).
(** the comparisons of 570, 578 *)
Definition cmethod_of (s : string) : cmethod := if String.eqb s "optimize" then MOptimize else if String.eqb s "alpha" then MAlpha else MUnknown.
(** the comparisons of 469, 473 *)
Definition emethod_of (s : string) : emethod := if String.eqb s "coeff" then ECoeff else if String.eqb s "matrix" then EMatrix else EUnknown.
(** run(est_method, set_max), 451-476: 467 the override *)
Definition calibration_run (lc : loadcomb) (lsf : list (string * R) -> result R) (beta_t : R) (nom : list (string * (string -> R))) (cvar : string)
    (rel : string -> R -> result formres) (fsolve : (R -> result R) -> R -> result R) (solve : nat -> mat -> list R -> result (list R))
    (c : cal_obj) (est : option string) (set_max : bool) : result (option (tbl * tbl * tbl)) :=
  cal_run lc lsf beta_t nom cvar rel fsolve solve (cmethod_of (co_calib c)) (emethod_of (match est with Some s => s | None => co_est c end)) set_max.
