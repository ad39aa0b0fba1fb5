(** Model of LoadCombination.run_reliability_case (loadcomb.py 266-308) as a whole: the assembly of
    LoadComb.v followed by the FORM analysis of Pipe.v on the assembled model.  Definitions only. *)
From Coquelicot Require Import Coquelicot.
From Verif Require Import Base Ext StochModel LimitState Form Pipe PipeSpec LoadComb.
From Coq Require Import ZArith.

(** an exception before or in Form(...); a correlation matrix with NaN entries (labels missing in the
    user's frame: the analysis of such a matrix is not modelled); the Form object, the model and the
    outcome of form.run() *)
Inductive lc_out := LRaise (e : exn) | LNaN | LForm (a : fobj) (s : smodel) (o : form_out).

Definition full_row (r : list (option R)) : option (list R) :=
  fold_right (fun x acc => match x, acc with Some v, Some l => Some (v :: l) | _, _ => None end) (Some []) r.
Definition full_rows (M : list (list (option R))) : option (list (list R)) :=
  fold_right (fun r acc => match full_row r, acc with Some v, Some l => Some (v :: l) | _, _ => None end) (Some []) M.

Section Run.
Variable fmin : (R -> R) -> R -> R.
Variable chol : nat -> mat -> result mat.
Variable svd : nat -> mat -> result (mat * vec).
Variable inv : nat -> mat -> result mat.
Variables fuel lf : nat.
Variable expr : expression.
Variable evn : option exn.

(** 305-306: Form(sm, ls) or Form(sm, ls, options), and run.  Options: the transformation type given
    (or not) and the rest; AnalysisOptions() without options (analysis.py 109-244). *)
Definition form_case (opts : option (option string * form_opts)) (s : smodel) : lc_out :=
  match form_init (match opts with None => None | Some o => fst o end) with
  | Err e => LRaise e
  | Ok a => let '(a, s, o) := run_form fmin chol svd inv fuel lf expr (match opts with None => default_options | Some o => snd o end) evn a s in LForm a s o
  end.

(** 266-308 *)
Definition run_reliability_case (l : loadcomb) (opts : option (option string * form_opts)) (lcn : option string) (kwargs : list (string * obj)) : lc_out :=
  match assemble_case l lcn kwargs with
  | Err e => LRaise e
  | Ok (sm, None) => form_case opts sm
  | Ok (sm, Some M) => match full_rows M with None => LNaN | Some M => form_case opts (setCorrelation sm M) end
  end.
End Run.
