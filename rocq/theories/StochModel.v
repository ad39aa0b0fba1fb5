(** Model of [StochasticModel] (/repo/src/pystra/model.py, lines 8-154).
    Definitions only. *)
From Verif Require Import Base.

Open Scope list_scope.

(** A [Distribution] object as the stochastic model and the algorithms see it
    (distributions/distribution.py 100-192): its name, moments, start point
    and the three marginal maps.  Two Distribution objects are identified when
    all of these agree. *)
Record rv := mkrv {
  rv_name : string;
  rv_mean : R;
  rv_stdv : R;
  rv_start : R;
  rv_u2x : R -> R;
  rv_x2u : R -> R;
  rv_jac : R -> R -> R     (* jacobian(u, x), distribution.py 286-308 *)
}.

(** What can be passed to addVariable: model.py 47-64.  [OOther] is any object
    that is neither a Distribution nor a Constant. *)
Inductive obj :=
| ODist (d : rv)
| OConst (name : string) (value : R)   (* distribution.py 71-97 *)
| OOther.

(** Python (ordered) dict as association list in insertion order;
    [dict_set] is [d[k] = v] (replaces in place, else appends). *)
Fixpoint dict_set {V} (d : list (string * V)) (k : string) (v : V) : list (string * V) :=
  match d with
  | [] => [(k, v)]
  | (k', v') :: r => if String.eqb k k' then (k, v) :: r else (k', v') :: dict_set r k v
  end.

Fixpoint dict_get {V} (d : list (string * V)) (k : string) : option V :=
  match d with
  | [] => None
  | (k', v') :: r => if String.eqb k k' then Some v' else dict_get r k
  end.

Definition dict_keys {V} (d : list (string * V)) : list string := map fst d.

(** [x in list_of_str], used at model.py 50. *)
Definition mem_str (k : string) (l : list string) : bool := existsb (String.eqb k) l.

(** [np.eye(n)], model.py 62. *)
Definition eye_rows (n : nat) : list (list R) :=
  map (fun i => map (fun j => if Nat.eqb i j then 1 else 0) (seq 0 n)) (seq 0 n).

(** The attributes set by __init__, model.py 17-28. *)
Record smodel := mksm {
  sm_variables : list (string * rv);
  sm_names : list string;
  sm_marg : list rv;
  sm_corr : option (list (list R));
  sm_Ro : option (list (list R));
  sm_calls : nat;
  sm_consts : list (string * R)
}.

(** model.py 17-28 *)
Definition sm_init : smodel := mksm [] [] [] None None 0 [].

(** model.py 47-64, branch by branch; an exception returns no new state. *)
Definition addVariable (s : smodel) (o : obj) : result smodel :=
  match o with
  | OOther => Err EException                                  (* 47-48 *)
  | ODist d =>
      if mem_str (rv_name d) (sm_names s) then Err EException  (* 50-51 *)
      else
        let names := sm_names s ++ [rv_name d] in              (* 54 *)
        let marg := sm_marg s ++ [d] in                        (* 58 *)
        Ok (mksm (dict_set (sm_variables s) (rv_name d) d)     (* 60 *)
                 names marg
                 (Some (eye_rows (length marg)))               (* 62 *)
                 (sm_Ro s) (sm_calls s) (sm_consts s))
  | OConst n v =>
      if mem_str n (sm_names s) then Err EException            (* 50-51 *)
      else
        Ok (mksm (sm_variables s) (sm_names s ++ [n]) (sm_marg s) (sm_corr s)
                 (sm_Ro s) (sm_calls s) (dict_set (sm_consts s) n v))  (* 63-64 *)
  end.

(** model.py 138-139 (the matrix is copied, so later changes of the caller's
    object are not seen) *)
Definition setCorrelation (s : smodel) (M : list (list R)) : smodel :=
  mksm (sm_variables s) (sm_names s) (sm_marg s) (Some M) (sm_Ro s) (sm_calls s) (sm_consts s).

(** model.py 144-145 *)
Definition setModifiedCorrelation (s : smodel) (M : list (list R)) : smodel :=
  mksm (sm_variables s) (sm_names s) (sm_marg s) (sm_corr s) (Some M) (sm_calls s) (sm_consts s).

(** model.py 150-151 *)
Definition addCallFunction (s : smodel) (n : nat) : smodel :=
  mksm (sm_variables s) (sm_names s) (sm_marg s) (sm_corr s) (sm_Ro s) (sm_calls s + n) (sm_consts s).

(** model.py 135-136 *)
Definition setMarginalDistributions (s : smodel) (m : list rv) : smodel :=
  mksm (sm_variables s) (sm_names s) m (sm_corr s) (sm_Ro s) (sm_calls s) (sm_consts s).

(** model.py 128-129 *)
Definition getLenMarginalDistributions (s : smodel) : nat := length (sm_marg s).

(** A user's history on one model object.  A raising addVariable is caught by
    the caller, who goes on with the same object. *)
Inductive smop :=
| OpAdd (o : obj)
| OpSetCorr (M : list (list R))
| OpSetRo (M : list (list R))
| OpAddCall (n : nat).

Definition sm_step (s : smodel) (op : smop) : smodel :=
  match op with
  | OpAdd o => match addVariable s o with Ok s' => s' | Err _ => s end
  | OpSetCorr M => setCorrelation s M
  | OpSetRo M => setModifiedCorrelation s M
  | OpAddCall n => addCallFunction s n
  end.

Definition sm_run (h : list smop) : smodel := fold_left sm_step h sm_init.
