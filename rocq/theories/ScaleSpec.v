(** Vocabulary for C84-C88: the limit state function in other units. *)
From Verif Require Import Base StochModel LimitState.
Open Scope R_scope.

Definition scale_val (l : R) (v : nparr) : nparr := match v with Scal r => Scal (l * r) | Arr a => Arr (map (Rmult l) a) end.
(** value and, if the user supplies one, gradient multiplied by l *)
Definition scale_out (l : R) (o : uout) : uout :=
  match o with UPlain v => UPlain (scale_val l v) | UTuple v g => UTuple (scale_val l v) (map (Rmult l) g) end.
(** [expr'] is l times [expr]; it raises exactly when [expr] does. *)
Definition times (l : R) (expr expr' : expression) : Prop :=
  forall kw, expr' kw = match expr kw with Ok o => Ok (scale_out l o) | Err e => Err e end.

(** What an evaluation returns, multiplied by l. *)
Definition scale_outcome (l : R) (o : outcome) : outcome :=
  match o with ODone G gr => ODone (map (Rmult l) G) (map (map (Rmult l)) gr) | ORaise e => ORaise e | OFuel => OFuel end.
Definition scale_res {A B} (f : A -> B) (r : result A) : result B := match r with Ok a => Ok (f a) | Err e => Err e end.
