(** Specification vocabulary for C105: the model a user would build by hand for one load case. *)
From Coquelicot Require Import Coquelicot.
From Verif Require Import Base StochModel StochModelSpec LoadComb LoadCombSpec.

Definition labelled (l : list obj) : list (string * obj) := combine (names_of l) l.
(** the combination variables: "max" for the leading ones, "pit" for the others *)
Definition comb_part (comb : list (string * list (string * obj))) (leading : list string) : list (string * obj) :=
  flat_map (fun kv => match chosen (snd kv) (if in_dec string_dec (fst kv) leading then true else false) with Some o => [(fst kv, o)] | None => [] end) comb.
(** the objects of a case in the order they are added: constants, resistances, others, combination
    variables; an object is replaced if its label is a keyword argument *)
Definition case_objects (kwargs : list (string * obj)) (comb : list (string * list (string * obj))) (resist other consts : list obj) (leading : list string) : list obj :=
  overridden kwargs (labelled consts ++ labelled resist ++ labelled other ++ comb_part comb leading).

(** position of a label; the correlation rows for a list of names *)
Fixpoint pos (x : string) (l : list string) : nat :=
  match l with [] => 0%nat | y :: r => if string_dec x y then 0%nat else S (pos x r) end.
Definition corr_rows (f : frame) (names : list string) : list (list R) :=
  map (fun a => map (fun b => fr_val f (pos a (fr_index f)) (pos b (fr_cols f))) names) names.
(** the operations that build the case by hand *)
Definition by_hand (corr : option frame) (objs : list obj) : list smop :=
  map OpAdd objs ++ match corr with None => [] | Some f => [OpSetCorr (corr_rows f (map rv_name (dists_of objs)))] end.
Definition frame_covers (f : frame) (names : list string) : Prop :=
  NoDup (fr_index f) /\ NoDup (fr_cols f) /\ forall a, In a names -> In a (fr_index f) /\ In a (fr_cols f).

(** a limit state function linear in its named arguments *)
Definition linear_in_names (f : list (string * R) -> R) (c0 : R) (coef : string -> R) : Prop :=
  forall kw, f kw = c0 + lsum (map (fun kv => coef (fst kv) * snd kv) kw).
