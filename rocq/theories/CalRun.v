(** Model of the reliability analyses run by a Calibration (calibration.py 260-286, 328-373, 421-449 and
    565-592 with loadcomb.py 266-308): the oracle [rel] of Calib.v is instantiated by
    LoadCombination.run_reliability_case (LcRun.v) with the calibration variable replaced by a Constant.
    Definitions only. *)
From Coquelicot Require Import Coquelicot.
From Verif Require Import Base Ext StochModel LimitState Transf Form Nataf Dist Pipe LoadComb LcRun Calib.
From Coq Require Import ZArith.

(** what the calibration reads off a finished Form: getBeta() (form.py 330-336), getAlpha() (357-368),
    model.getNames(), model.getConstants(), transform.u_to_x with the model's marginals
    (calibration.py 349-351) and getDesignPoint(uspace=False) (form.py 346-356).  A Form whose result is
    NaN is reported as [ERuntime] (the NaN would go through the loop until max_iter). *)
Definition formres_of (a : fobj) (s : smodel) (r : form_res) : result formres :=
  let n := length (sm_marg s) in
  match form_beta n r, form_alpha n r, fr_u r, fb_TA a with
  | Fin b, Some al, Some u, Some (_, A) =>
      Ok (mkForm b (vlist n al) (sm_names s) (map fst (sm_consts s))
            (fun us => vlist n (u_to_x n A (marg_at s) (vof us))) (vlist n (u_to_x n A (marg_at s) u)))
  | _, _, _, _ => Err ERuntime
  end.

Section Run.
Variable fmin : (R -> R) -> R -> R.
Variable chol : nat -> mat -> result mat.
Variable svd : nat -> mat -> result (mat * vec).
Variable inv : nat -> mat -> result mat.
Variables fuel lf : nat.
Variable expr : expression.
Variable evn : option exn.
Variable l : loadcomb.
Variable opts : option (option string * form_opts).
Variable cvar : string.

(** rel_func( ** {cvar: Constant(cvar, z), "lcn": lcn}), 262-266 and 330-333 *)
Definition rel_case (lcn : string) (z : R) : result formres :=
  match run_reliability_case fmin chol svd inv fuel lf expr evn l opts (Some lcn) [(cvar, OConst cvar z)] with
  | LRaise e => Err e
  | LNaN => Err ERuntime
  | LForm a s (FDone r) => formres_of a s r
  | LForm _ _ (FRaise e) => Err e
  | LForm _ _ FFuel => Err ERuntime
  end.
(** calc_beta_design_param(design_z), 921-931: the index of every load case at one design parameter *)
Definition calc_beta_design_param (z : R) : result (list R) :=
  mapM (fun lcn => rbind (rel_case lcn z) (fun fr => Ok (fm_beta fr))) (c_cases l).
End Run.
