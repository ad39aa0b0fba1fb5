(** Model of who shares a correlation matrix: class CorrelationMatrix, /repo/src/pystra/correlation.py 36-62,
    and the correlation slot of StochasticModel, model.py 25, 62, 88-95, 138-142.  Definitions only.

    Arrays, CorrelationMatrix objects and models are numbered in the order in which a script creates
    them.  An array is a square matrix; [None] is the object array that np.array(None) returns.  Indices
    are within the matrix; an operation on a name that does not exist yet leaves the state alone. *)
From Verif Require Import Base.
Open Scope list_scope.
Open Scope R_scope.

Record cworld := mkCw {
  cw_arr : list (option mat);         (* arrays *)
  cw_wrap : list (option nat);        (* self.matrix of each wrapper: an array or None *)
  cw_mod : list (nat * option nat)    (* models: number of distributions, array in _correlation *)
}.
Definition cw_init : cworld := mkCw [] [] [].
Fixpoint set_nth {A} (l : list A) (i : nat) (x : A) : list A :=
  match l, i with [], _ => [] | _ :: r, O => x :: r | y :: r, S i => y :: set_nth r i x end.
Definition upd2 (M : mat) (i j : nat) (v : R) : mat := fun a b => if Nat.eqb a i && Nat.eqb b j then v else M a b.

Inductive cop :=
| CNew (M : mat)                      (* A = np.array(...) *)
| CWrap (a : option nat)              (* C = CorrelationMatrix(A), CorrelationMatrix(): 36-37 *)
| CModel                              (* StochasticModel(): 25 *)
| CAdd (m : nat)                      (* addVariable of a new distribution: 62 *)
| CWrite (a i j : nat) (v : R)        (* A[i, j] = v *)
| CSetItem (w i j : nat) (v : R)      (* C[i, j] = v: 51-52 *)
| CSetCorr (m w : nat)                (* setCorrelation(C): 138-139 *)
| CAssign (m a : nat).                (* model.correlation = A: 93-95 *)

Definition write (st : cworld) (a i j : nat) (v : R) : cworld :=
  match nth_error (cw_arr st) a with
  | Some (Some M) => mkCw (set_nth (cw_arr st) a (Some (upd2 M i j v))) (cw_wrap st) (cw_mod st)
  | _ => st                           (* an exception *)
  end.
Definition cstep (st : cworld) (o : cop) : cworld :=
  match o with
  | CNew M => mkCw (cw_arr st ++ [Some M]) (cw_wrap st) (cw_mod st)
  | CWrap None => mkCw (cw_arr st) (cw_wrap st ++ [None]) (cw_mod st)
  | CWrap (Some a) => if Nat.ltb a (length (cw_arr st)) then mkCw (cw_arr st) (cw_wrap st ++ [Some a]) (cw_mod st) else st
  | CModel => mkCw (cw_arr st) (cw_wrap st) (cw_mod st ++ [(O, None)])
  | CAdd m =>
      match nth_error (cw_mod st) m with
      | Some (n, _) => mkCw (cw_arr st ++ [Some meye]) (cw_wrap st) (set_nth (cw_mod st) m (S n, Some (length (cw_arr st))))
      | None => st
      end
  | CWrite a i j v => write st a i j v
  | CSetItem w i j v => match nth_error (cw_wrap st) w with Some (Some a) => write st a i j v | _ => st end
  | CSetCorr m w =>
      match nth_error (cw_mod st) m, nth_error (cw_wrap st) w with
      | Some (n, _), Some wa =>
          mkCw (cw_arr st ++ [match wa with Some a => nth a (cw_arr st) None | None => None end]) (cw_wrap st)
               (set_nth (cw_mod st) m (n, Some (length (cw_arr st))))
      | _, _ => st
      end
  | CAssign m a =>
      match nth_error (cw_mod st) m with
      | Some (n, _) => if Nat.ltb a (length (cw_arr st)) then mkCw (cw_arr st) (cw_wrap st) (set_nth (cw_mod st) m (n, Some a)) else st
      | None => st
      end
  end.
Definition crun (h : list cop) : cworld := fold_left cstep h cw_init.

(** getCorrelation(), 141-142, and the property: the array itself *)
Definition getCorrelation (st : cworld) (m : nat) : option nat := match nth_error (cw_mod st) m with Some (_, a) => a | None => None end.
(** the numbers in it, which the next analysis reads (correlation.py 90, 102) *)
Definition corr_of (st : cworld) (m : nat) : option mat := match getCorrelation st m with Some a => nth a (cw_arr st) None | None => None end.
(** getMatrix() of a wrapper and its numbers, 48-49, 54-62 *)
Definition wrapped (st : cworld) (w : nat) : option mat := match nth_error (cw_wrap st) w with Some (Some a) => nth a (cw_arr st) None | _ => None end.
