(** Specification vocabulary for limit state evaluation (C03-C08). *)
From Verif Require Import Base StochModel StochModelSpec LimitState.

(** The value part of what the user's function returned. *)
Definition value_of (o : uout) : nparr := match o with UPlain v => v | UTuple v _ => v end.

(** The function acts point by point: called with arrays of length nc for its
    arguments, it returns (possibly with a gradient) the array of the nc values
    f(arguments at point c). *)
Definition pointwise (expr : expression) (f : list (string * R) -> R) : Prop :=
  forall (kw : kwargs) (nc : nat),
    kw <> [] -> (forall k v, In (k, v) kw -> length v = nc) ->
    exists out, expr kw = Ok out /\
      value_of out = Arr (map (fun c => f (map (fun kv => (fst kv, nth c (snd kv) 0)) kw)) (seq 0 nc)).

(** The arguments a point p binds: the i-th random variable of the history gets
    p_i, the constants get their values. *)
Definition args_at (h : list smop) (p : list R) : list (string * R) :=
  combine (map rv_name (dists_of (accepted h))) p ++ consts_of (accepted h).

(** p with component j replaced by v *)
Fixpoint replace_nth (j : nat) (v : R) (p : list R) : list R :=
  match p, j with
  | [], _ => []
  | _ :: r, O => v :: r
  | a :: r, S j' => a :: replace_nth j' v r
  end.

Definition points_ok (n : nat) (x : list (list R)) : Prop := forall p, In p x -> length p = n.
