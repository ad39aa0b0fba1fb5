(** Specification vocabulary for C97. *)
From Coquelicot Require Import Coquelicot.
From Verif Require Import Base StochModel Form Dist Pipe Sens NumRun.

(** The model object m (with name list [names]) is what the history h builds: the same objects are
    stored under their names and in the list of marginals (model.py 50-64). *)
Definition built {D} (rvo : D -> rv) (h : list smop) (names : list string) (m : pmodel D) : Prop :=
  to_sm D rvo names m = sm_run h /\ pm_marg D m = map snd (pm_vars D m).
(** The history in which the distribution of variable [name] is another one. *)
Definition rebuilt (name : string) (d : rv) (h : list smop) : list smop :=
  map (fun op => match op with OpAdd (ODist d0) => if String.eqb (rv_name d0) name then OpAdd (ODist d) else op | _ => op end) h.
