(** Specification vocabulary for load combinations; no pystra code here. *)
From Verif Require Import Base StochModel StochModelSpec.
Open Scope list_scope.

(** the last object of a list carrying a given name *)
Definition last_named (k : string) (l : list obj) : option obj :=
  fold_left (fun acc o => match valid_name o with Some n => if String.eqb n k then Some o else acc | None => acc end) l None.

(** the distribution a combination entry {"max": a, "pit": b} contributes to a case *)
Definition chosen (inner : list (string * obj)) (leading : bool) : option obj :=
  dict_get inner (if leading then "max"%string else "pit"%string).

(** what a case should hold under label k, by priority: combination, other, resistance *)
Definition case_entry (comb : list (string * list (string * obj))) (resist other : list obj) (leading : list string) (k : string) : option obj :=
  match dict_get comb k with
  | Some inner => chosen inner (if in_dec string_dec k leading then true else false)
  | None => match last_named k other with Some o => Some o | None => last_named k resist end
  end.

(** every combination entry has both distributions *)
Definition comb_complete (comb : list (string * list (string * obj))) : Prop :=
  forall k inner, In (k, inner) comb -> (exists a, dict_get inner "max"%string = Some a) /\ (exists b, dict_get inner "pit"%string = Some b).
Definition all_named (l : list obj) : Prop := forall o, In o l -> valid_name o <> None.

(** an item list with keyword overrides *)
Definition overridden (kwargs : list (string * obj)) (items : list (string * obj)) : list obj :=
  map (fun kv => match dict_get kwargs (fst kv) with Some w => w | None => snd kv end) items.

(** the user's correlation between two names *)
Definition user_corr (index cols : list string) (val : nat -> nat -> R) (a b : string) (r : option R) : Prop :=
  match r with
  | Some v => exists i j, nth_error index i = Some a /\ nth_error cols j = Some b /\ val i j = v
  | None => ~ In a index \/ ~ In b cols
  end.
