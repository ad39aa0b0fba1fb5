(** IEEE-754 style extended numbers, used where the special values decide the
    control flow or the reported result.  Finite values are exact reals; the
    sign of zero is not modelled.  Nothing here models a particular line of
    /repo. *)
From Verif Require Import Base.

Inductive xnum := Fin (r : R) | PInf | NInf | NaN.

Definition xneg (x : xnum) : xnum :=
  match x with Fin r => Fin (- r) | PInf => NInf | NInf => PInf | NaN => NaN end.

Definition xabs (x : xnum) : xnum :=
  match x with Fin r => Fin (Rabs r) | PInf => PInf | NInf => PInf | NaN => NaN end.

(** sign of a finite number times an infinity *)
Definition inf_scale (r : R) (pos : bool) : xnum :=
  if Rltb 0 r then (if pos then PInf else NInf)
  else if Rltb r 0 then (if pos then NInf else PInf) else NaN.

Definition xmul (a b : xnum) : xnum :=
  match a, b with
  | NaN, _ => NaN
  | _, NaN => NaN
  | Fin x, Fin y => Fin (x * y)
  | Fin x, PInf => inf_scale x true
  | Fin x, NInf => inf_scale x false
  | PInf, Fin y => inf_scale y true
  | NInf, Fin y => inf_scale y false
  | PInf, PInf => PInf
  | NInf, NInf => PInf
  | _, _ => NInf
  end.

(** Python's [a < b]; every comparison with NaN is False *)
Definition xltb (a b : xnum) : bool :=
  match a, b with
  | NaN, _ => false
  | _, NaN => false
  | Fin x, Fin y => Rltb x y
  | Fin _, PInf => true
  | Fin _, NInf => false
  | NInf, NInf => false
  | NInf, _ => true
  | PInf, _ => false
  end.

(** numpy's reciprocal [x ** -1] of a (positive) zero is +inf *)
Definition xinv (x : R) : xnum := if Reqb x 0 then PInf else Fin (/ x).

Definition finite (x : xnum) : Prop := exists r, x = Fin r.

Definition xprod (l : list xnum) : xnum := fold_right xmul (Fin 1) l.
