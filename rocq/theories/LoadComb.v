(** Model of /repo/src/pystra/loadcomb.py (class LoadCombination).  Definitions only.

    Simplifications: distributions and constants are the [obj] of StochModel.v;
    the FORM analysis started by run_reliability_case (loadcomb.py 305-306) is not
    repeated here, the model stops at the StochasticModel handed to it. *)
From Verif Require Import Base StochModel.
Open Scope list_scope.

(** [xx.name]: distribution.py 100-192 and 71-97; other objects have no name *)
Definition obj_name (o : obj) : result string :=
  match o with ODist d => Ok (rv_name d) | OConst n _ => Ok n | OOther => Err EAttr end.

(** [{xx: d[xx][key] for xx in d}], lines 87-92 *)
Fixpoint pick (key : string) (d : list (string * list (string * obj))) : result (list (string * obj)) :=
  match d with
  | [] => Ok []
  | (x, inner) :: r =>
      match dict_get inner key with
      | None => Err EKey
      | Some o => rbind (pick key r) (fun t => Ok ((x, o) :: t))
      end
  end.

(** [{xx.name: xx for xx in l}], lines 93-98, 114: later objects of the same name win *)
Fixpoint by_name (l : list obj) (d : list (string * obj)) : result (list (string * obj)) :=
  match l with
  | [] => Ok d
  | o :: r => rbind (obj_name o) (fun n => by_name r (dict_set d n o))
  end.

(** a user-supplied pandas frame *)
Record frame := mkFrame { fr_index : list string; fr_cols : list string; fr_val : nat -> nat -> R }.

Record loadcomb := mkLC {
  lc_max : list (string * obj);
  lc_pit : list (string * obj);
  lc_other : option (list (string * obj));
  lc_resist : list (string * obj);
  lc_cases : list (string * list string);
  lc_dict : list (string * list (string * obj));
  lc_corr : option frame;
  lc_const : option (list (string * obj))
}.

(** d.update({k: v}) for each item *)
Definition dict_update (d items : list (string * obj)) : list (string * obj) :=
  fold_left (fun d kv => dict_set d (fst kv) (snd kv)) items d.

(** the combination part of one load case, lines 233-237; [distributions_pit[key]] has the
    same keys as distributions_max *)
Fixpoint comb_items (mx pit : list (string * obj)) (loadc : list string) : result (list (string * obj)) :=
  match mx with
  | [] => Ok []
  | (k, v) :: r =>
      if mem_str k loadc then rbind (comb_items r pit loadc) (fun t => Ok ((k, v) :: t))
      else match dict_get pit k with
           | None => Err EKey
           | Some w => rbind (comb_items r pit loadc) (fun t => Ok ((k, w) :: t))
           end
  end.

(** _create_dict_dist_comb, lines 214-239, for one case *)
Definition case_dict (resist : list (string * obj)) (other : option (list (string * obj))) (mx pit : list (string * obj)) (loadc : list string)
  : result (list (string * obj)) :=
  rbind (comb_items mx pit loadc) (fun items =>
    let d := dict_update [] resist in
    let d := match other with None => d | Some o => dict_update d o end in
    Ok (dict_update d items)).

Fixpoint all_cases resist other mx pit (cases : list (string * list string)) (acc : list (string * list (string * obj)))
  : result (list (string * list (string * obj))) :=
  match cases with
  | [] => Ok acc
  | (n, loadc) :: r => rbind (case_dict resist other mx pit loadc) (fun d => all_cases resist other mx pit r (dict_set acc n d))
  end.

(** __init__, lines 85-119.  The check of lines 145-151 compares two dictionaries with the
    same keys; dict_comb_cases = None is iterated at line 100. *)
Definition lc_init (comb : list (string * list (string * obj))) (resist : list obj) (other : option (list obj))
    (corr : option frame) (consts : option (list obj)) (cases : option (list (string * list string))) : result loadcomb :=
  rbind (pick "max" comb) (fun mx =>
  rbind (pick "pit" comb) (fun pit =>
  rbind (match other with None => Ok None | Some l => rbind (by_name l []) (fun d => Ok (Some d)) end) (fun oth =>
  rbind (by_name resist []) (fun res =>
  match cases with
  | None => Err EType
  | Some cs =>
      if negb (Nat.eqb (List.length mx) (List.length pit)) then Err EException
      else rbind (all_cases res oth mx pit cs []) (fun dd =>
           rbind (match consts with None => Ok None | Some l => rbind (by_name l []) (fun d => Ok (Some d)) end) (fun cd =>
           Ok (mkLC mx pit oth res cs dd corr cd)))
  end)))).

(** lines 106-119: the labels *)
Definition lc_label_resist (l : loadcomb) : list string := dict_keys (lc_resist l).
Definition lc_label_other (l : loadcomb) : list string := match lc_other l with None => [] | Some d => dict_keys d end.
Definition lc_label_comb (l : loadcomb) : list string := dict_keys (lc_max l).
Definition lc_label_const (l : loadcomb) : option (list string) := option_map dict_keys (lc_const l).
Definition lc_label_all (l : loadcomb) : list string :=
  (lc_label_resist l ++ lc_label_other l ++ lc_label_comb l) ++ match lc_const l with None => [] | Some d => dict_keys d end.
Definition lc_label_cases (l : loadcomb) : list string := dict_keys (lc_cases l).
(** 187-188 *)
Definition lc_num_comb (l : loadcomb) : nat := List.length (lc_cases l).

(** the loops of lines 290-301: add [kwargs[key]] or the stored object *)
Fixpoint add_items (items kwargs : list (string * obj)) (sm : smodel) : result smodel :=
  match items with
  | [] => Ok sm
  | (k, v) :: r => rbind (addVariable sm (match dict_get kwargs k with Some w => w | None => v end)) (fun sm' => add_items r kwargs sm')
  end.

Fixpoint index_of (x : string) (l : list string) : option nat :=
  match l with
  | [] => None
  | y :: r => if String.eqb x y then Some 0%nat else option_map S (index_of x r)
  end.

(** DataFrame.reindex(columns=names, index=names).values, lines 261-263: missing labels give
    NaN ([None]); duplicate labels in the frame raise ValueError (unless the axis is already
    identical to the request) *)
Fixpoint no_dups (l : list string) : bool :=
  match l with [] => true | x :: r => negb (mem_str x r) && no_dups r end.
Definition axis_ok (axis names : list string) : bool :=
  no_dups axis || (if list_eq_dec string_dec axis names then true else false).
Definition reindex (f : frame) (names : list string) : result (list (list (option R))) :=
  if axis_ok (fr_index f) names && axis_ok (fr_cols f) names then
    Ok (map (fun a => map (fun b =>
          match index_of a (fr_index f), index_of b (fr_cols f) with Some i, Some j => Some (fr_val f i j) | _, _ => None end) names) names)
  else Err EValue.

(** run_reliability_case, lines 287-304, up to the call of Form *)
Definition assemble_case (l : loadcomb) (lcn : option string) (kwargs : list (string * obj)) : result (smodel * option (list (list (option R)))) :=
  rbind (match lcn with
         | Some n => Ok n
         | None => match lc_label_cases l with [] => Err EIndex | n :: _ => Ok n end
         end) (fun n =>
  rbind (match lc_const l with None => Ok sm_init | Some d => add_items d kwargs sm_init end) (fun sm =>
  match dict_get (lc_dict l) n with
  | None => Err EKey
  | Some d =>
      rbind (add_items d kwargs sm) (fun sm =>
      match lc_corr l with
      | None => Ok (sm, None)
      | Some f => rbind (reindex f (dict_keys (sm_variables sm))) (fun m => Ok (sm, Some m))
      end)
  end)).

(** Constant.getValue, distribution.py 92-97; a Distribution has no getValue *)
Definition get_value (o : obj) : result R := match o with OConst _ v => Ok v | _ => Err EAttr end.

(** the loop over self.constant, lines 340-344 *)
Fixpoint fill_consts (cs : list (string * obj)) (set_const : option R) (kw : list (string * R)) : result (list (string * R)) :=
  match cs with
  | [] => Ok kw
  | (k, o) :: r =>
      if mem_str k (dict_keys kw) then fill_consts r set_const kw
      else match set_const with
           | None => rbind (get_value o) (fun v => fill_consts r set_const (dict_set kw k v))
           | Some v => fill_consts r set_const (dict_set kw k v)
           end
  end.

(** eval_lsf_kwargs, lines 332-345.  The missing labels form a Python set; the model takes
    them in label order, which only affects the order of keyword arguments. *)
Definition eval_kwargs (l : loadcomb) (set_value : R) (set_const : option R) (kw : list (string * R)) : result (list (string * R)) :=
  let cnames := match lc_const l with None => [] | Some d => dict_keys d end in
  let miss := filter (fun x => negb (mem_str x (dict_keys kw)) && negb (mem_str x cnames)) (lc_label_all l) in
  let kw1 := fold_left (fun d x => dict_set d x set_value) miss kw in
  match lc_const l with
  | None => Err EAttr
  | Some d => fill_consts d set_const kw1
  end.
Definition eval_lsf_kwargs {A} (l : loadcomb) (lsf : list (string * R) -> result A) (set_value : R) (set_const : option R) (kw : list (string * R)) : result A :=
  rbind (eval_kwargs l set_value set_const kw) lsf.
