(** Vocabulary for C116. *)
From Coquelicot Require Import Coquelicot.
From Verif Require Import Base Ext Gauss StochModel LimitState Transf Form Nataf Dist Pipe FormAttr.

(** the completed runs of a history, in order: how many variables the model had, and the result *)
Fixpoint completed fmin chol svd inv fuel lf (w : fworld) (h : list fop) : list (nat * form_res) :=
  match h with
  | [] => []
  | c :: h' =>
      let '(w', out) := fstep fmin chol svd inv fuel lf w c in
      match out with Some (FDone r) => [(length (sm_marg (fw_s w)), r)] | _ => [] end ++ completed fmin chol svd inv fuel lf w' h'
  end.
Fixpoint last_of {A} (l : list A) : option A :=
  match l with [] => None | [x] => Some x | _ :: r => last_of r end.

(** the history does not run the analysis / registers no further random variable *)
Definition no_run (h : list fop) : Prop := ~ In FRun h.
Definition no_new_variable (h : list fop) : Prop := forall d, ~ In (FModel (OpAdd (ODist d))) h.

(** a limit state function that raises whatever it is called with *)
Definition always_raises (e : exn) : expression := fun _ => Err e.

(** what a history does to the model *)
Definition model_ops (h : list fop) : list smop := flat_map (fun c => match c with FModel op => [op] | _ => [] end) h.
