(** Model of SensitivityAnalysis._numerical_sens on a model object (sensitivity.py 141-188): the
    finite-difference loop of Sens.v with every [Form(stochastic_model=..., limit_state=...).run()]
    being the whole analysis of Pipe.v.  Definitions only. *)
From Coquelicot Require Import Coquelicot.
From Verif Require Import Base Ext Gauss StochModel LimitState Transf Form Nataf Dist Pipe Copy Sens.
From Coq Require Import ZArith.

(** AnalysisOptions() (analysis.py 109-244): 161 and 175 build Form without options. *)
Definition no_options : form_opts := mkfo 100 (1 / 1000) (1 / 1000) 0 (mkopts "ffd" 1 1000 1000).

Section Run.
(** A Distribution object: what the model and the algorithms read off it ([rvo]), and
    [sensitivity_params] and [_make_copy] (distribution.py 365-422). *)
Variable D : Type.
Variable rvo : D -> rv.
Variable sparams : D -> list (string * R).
Variable mkcopy : D -> string -> R -> result D.
Variable fmin : (R -> R) -> R -> R.
Variable chol : nat -> mat -> result mat.
Variable svd : nat -> mat -> result (mat * vec).
Variable inv : nat -> mat -> result mat.
Variables fuel lf : nat.
Variable expr : expression.
Variable evn : option exn.

(** the model object as the FORM code reads it; [names] is model.names, which neither the deep copy
    nor the replacement changes (sensitivity.py 166-177) *)
Definition to_sm (names : list string) (m : pmodel D) : smodel :=
  mksm (map (fun kd => (fst kd, rvo (snd kd))) (pm_vars D m)) names (map rvo (pm_marg D m)) (pm_corr D m) (pm_Ro D m) (pm_calls D m) (pm_consts D m).

(** Form(stochastic_model=..., limit_state=...) with the options [o] (None: none given) *)
Definition form_on (o : option form_opts) (s : smodel) : smodel * result R :=
  match form_init None with
  | Err e => (s, Err e)
  | Ok a =>
      let '(_, s', out) := run_form fmin chol svd inv fuel lf expr (match o with None => no_options | Some fo => fo end) evn a s in
      (s', match out with
           | FDone r => match form_beta (length (sm_marg s')) r with Fin b => Ok b | _ => Err ERuntime (* a NaN beta; not distinguished *) end
           | FRaise e => Err e
           | FFuel => Err ERuntime
           end)
  end.
Definition form_beta_of (names : list string) (o : option form_opts) (m : pmodel D) : result R := snd (form_on o (to_sm names m)).
(** a run stores the modified correlation matrix and counts calls *)
Definition form_after_of (names : list string) (o : option form_opts) (m : pmodel D) : pmodel D :=
  let s' := fst (form_on o (to_sm names m)) in
  mkpm D (pm_vars D m) (pm_marg D m) (pm_corr D m) (sm_Ro s') (sm_calls s') (pm_consts D m).

(** 141-188 *)
Definition numerical_run (names : list string) (o : form_opts) (delta : R) (m : pmodel D) : result sdict * pmodel D :=
  numerical_sens D sparams mkcopy (fun d => rv_stdv (rvo d)) form_opts (form_beta_of names) (form_after_of names) o delta m.
End Run.

(** Normal objects with the default starting point, and their copies through Copy.v
    (distribution.py 390-422 with normal.py 23-33). *)
Record nrm := mkNrm { nr_name : string; nr_mean : R; nr_stdv : R }.
Definition nrm_rv (d : nrm) : rv := Normal (nr_name d) (nr_mean d) (nr_stdv d).
Definition nrm_inst (d : nrm) : inst := normal_inst (normal_init (nr_mean d) (nr_stdv d) None).
Definition nrm_sens (d : nrm) : list (string * R) := in_sens (nrm_inst d).
Definition nrm_copy (d : nrm) (p : string) (v : R) : result nrm :=
  rbind (make_copy normal_cls (nrm_inst d) [(p, v)]) (fun i => Ok (mkNrm (nr_name d) (in_mean i) (in_stdv i))).
