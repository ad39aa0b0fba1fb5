(** Model of SensitivityAnalysis._cf_sens as a whole (sensitivity.py 193-308): the FORM run of
    Pipe.v on the model object followed by the closed-form post-processing of Sens.v.
    Definitions only. *)
From Coquelicot Require Import Coquelicot.
From Verif Require Import Base Ext Gauss StochModel LimitState Transf Form Chol Quad Nataf Dist Pipe Sens.

(** What the Nataf and sensitivity code reads off Normal(name, mean, stdv): normal.py 35-104, and
    [_dmoments_dtheta] (distribution.py 447-450).  Any other parameter name is a KeyError in the
    code and never asked for: [sensitivity_params] is {"mean", "std"} (distribution.py 388). *)
Definition normal_marg (mean stdv : R) : marg :=
  let s := normal_init mean stdv None in
  let d := normal_dist s in
  mkMarg (d_mean d) (d_stdv d) (d_u2x d) (d_pdf d)
    (fun p x => if String.eqb p "mean" then fst (normal_dF s x) else if String.eqb p "std" then snd (normal_dF s x) else 0)
    (fun p => if String.eqb p "mean" then (1, 0) else if String.eqb p "std" then (0, 1) else (0, 0)).

(** {"marginal": ..., "correlation": ...}; the variables by position *)
Record cfres := mkcf { cf_marg : nat -> string -> R; cf_corr : mat }.
(** The outcome: a result, a result of NaNs (the design point is NaN), an exception, out of fuel. *)
Inductive cf_out := CfDone (r : cfres) | CfNaN | CfRaise (e : exn) | CfFuel.

Section Run.
Variable fmin : (R -> R) -> R -> R.
Variable chol : nat -> mat -> result mat.
Variable svd : nat -> mat -> result (mat * vec).
Variable inv : nat -> mat -> result mat.

(** 193-308.  [a] is the Form object constructed with the analysis options (209-213), [mg] what is
    read off the marginals; np.linalg.inv(L0) inside dinvL0_dtheta is one and the same call for
    every parameter. *)
Definition cf_sens (fuel lf : nat) (expr : expression) (fo : form_opts) (evn : option exn) (a : fobj) (mg : nat -> marg) (s : smodel)
  : smodel * cf_out :=
  let '(a, s, out) := run_form fmin chol svd inv fuel lf expr fo evn a s in
  (s, match out with
      | FRaise e => CfRaise e
      | FFuel => CfFuel
      | FDone r =>
          let n := length (sm_marg s) in
          match fb_TA a, sm_corr s, sm_Ro s, fr_u r, form_alpha n r with
          | Some (T, A), Some M, Some Ro, Some u, Some alpha =>
              match inv n A with
              | Err e => CfRaise e
              | Ok Ai =>
                  let x := u_to_x n A (marg_at s) u in
                  CfDone (mkcf (fun k p => cf_marginal n alpha u x mg (mat_of M) (mat_of Ro) A T (fun _ => Ai) k p)
                               (cf_correlation n alpha u mg (mat_of M) (mat_of Ro) A (fun _ => Ai)))
              end
          | _, _, _, _, _ => CfNaN
          end
      end).
End Run.
