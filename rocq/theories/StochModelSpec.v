(** Specification vocabulary for the registry (C01, C02), independent of the
    registry's state: which objects of a history are accepted. *)
From Verif Require Import Base StochModel.

Definition valid_name (o : obj) : option string :=
  match o with ODist d => Some (rv_name d) | OConst n _ => Some n | OOther => None end.

(** The objects the user tried to add, in order. *)
Definition offered (h : list smop) : list obj :=
  flat_map (fun op => match op with OpAdd o => [o] | _ => [] end) h.

(** Keep every Distribution/Constant whose name was not carried by an earlier
    Distribution/Constant. *)
Fixpoint first_named (seen : list string) (l : list obj) : list obj :=
  match l with
  | [] => []
  | o :: r =>
      match valid_name o with
      | None => first_named seen r
      | Some n => if in_dec string_dec n seen then first_named seen r
                  else o :: first_named (n :: seen) r
      end
  end.
Definition accepted (h : list smop) : list obj := first_named [] (offered h).

Definition dists_of (l : list obj) : list rv :=
  flat_map (fun o => match o with ODist d => [d] | _ => [] end) l.
Definition consts_of (l : list obj) : list (string * R) :=
  flat_map (fun o => match o with OConst n v => [(n, v)] | _ => [] end) l.
Definition names_of (l : list obj) : list string :=
  flat_map (fun o => match valid_name o with Some n => [n] | None => [] end) l.

(** number of random variables accepted in a history *)
Definition ndists (h : list smop) : nat := length (dists_of (accepted h)).
Definition no_setcorr (h : list smop) : Prop := forall M, ~ In (OpSetCorr M) h.

(** n x n identity, as rows *)
Definition is_identity (n : nat) (M : list (list R)) : Prop :=
  length M = n /\ (forall r, In r M -> length r = n) /\
  forall i j, (i < n)%nat -> (j < n)%nat -> nth j (nth i M []) 0 = if Nat.eqb i j then 1 else 0.
