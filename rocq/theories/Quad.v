(** Model of /repo/src/pystra/quadrature.py (lines 12-108): the Gauss-Legendre
    base points and weights used by the Nataf correlation integral.

    Simplifications: arithmetic is exact real arithmetic (the code uses IEEE
    doubles and NumPy arrays; every array operation of the routine acts entry by
    entry, so the model computes one entry at a time).  Division by zero is Coq's
    total [/]; the theorems that depend on a quotient show the divisor is
    non-zero.  Only [wfun = 1] (the default, and the only one implemented: any
    other selector makes the function fall through and return None) is modelled;
    [alpha] and [beta] are accepted and unused by the code. *)
From Coquelicot Require Import Coquelicot.
From Verif Require Import Base.
Open Scope R_scope.

(** quadrature.py:60  m = fix((n+1)/2) *)
Definition q_m (n : nat) : nat := ((n + 1) / 2)%nat.

(** quadrature.py:61  e1 = n (n+1) *)
Definition q_e1 (n : nat) : R := INR n * (INR n + 1).

(** quadrature.py:62-64  entry j of  t = pi/(4n+2) * (3, 7, ..., 4m-1) *)
Definition q_t (n j : nat) : R := (PI * / (4 * INR n + 2)) * (4 * INR j + 3).

(** quadrature.py:65  nn = 1 - (1 - 1/n)/(8 n^2) *)
Definition q_nn (n : nat) : R := 1 - (1 - / INR n) * / (8 * INR n * INR n).

(** quadrature.py:66  starting abscissa *)
Definition q_x0 (n j : nat) : R := q_nn n * cos (q_t n j).

(** quadrature.py:68-74  the inner recursion: state (pkm1, pk) after k has run up
    to [n]; [(1, x)] before the loop (and for n = 1), i.e. the loop variable k
    ranges over 2..n. *)
Fixpoint leg_pair (x : R) (n : nat) : R * R :=
  match n with
  | O => (1, x)       (* n = 0: range(2,1) is empty; not used by the theorems *)
  | S O => (1, x)
  | S (S _ as n') =>
      let '(pkm1, pk) := leg_pair x n' in
      let t1 := x * pk in
      (pk, t1 - pkm1 - (t1 - pkm1) * / INR n + t1)
  end.

(** The locals of one pass of the correction loop (quadrature.py:75-80). *)
Record qloc := mkQ { q_pk : R; q_pkm1 : R; q_d1 : R; q_dpn : R; q_d2 : R; q_d3 : R; q_d4 : R }.

(** quadrature.py:68-80 *)
Definition q_locals (n : nat) (xo : R) : qloc :=
  let '(pkm1, pk) := leg_pair xo n in
  let e1 := q_e1 n in
  let den := 1 - xo * xo in
  let d1 := INR n * (pkm1 - xo * pk) in
  let dpn := d1 * / den in
  let d2pn := (2 * xo * dpn - e1 * pk) * / den in
  let d3pn := (4 * xo * d2pn + (2 - e1) * dpn) * / den in
  let d4pn := (6 * xo * d3pn + (6 - e1) * d2pn) * / den in
  mkQ pk pkm1 d1 dpn d2pn d3pn d4pn.

(** quadrature.py:81-83  first correction h *)
Definition q_h1 (q : qloc) : R :=
  let u := q_pk q * / q_dpn q in
  let v := q_d2 q * / q_dpn q in
  - u * (1 + (1/2 * u) * (v + u * (v * v - u * q_d3 q * / (3 * q_dpn q)))).

(** quadrature.py:84-86  the polynomial value predicted at xo + h (note the
    literal 25 in the code). *)
Definition q_p (q : qloc) (h : R) : R :=
  q_pk q + h * (q_dpn q + (1/2 * h) * (q_d2 q + (h * / 3) * (q_d3 q + 25 * h * q_d4 q))).

(** quadrature.py:87  the predicted derivative *)
Definition q_dp (q : qloc) (h : R) : R :=
  q_dpn q + h * (q_d2 q + (1/2 * h) * (q_d3 q + h * q_d4 q * / 3)).

(** quadrature.py:88  h = h - p/dp *)
Definition q_h (q : qloc) : R :=
  let h := q_h1 q in h - q_p q h * / q_dp q h.

(** quadrature.py:67-89  [it] passes of the loop.  The state carries xo, the last
    h and the locals of the last pass (they are read after the loop). *)
Fixpoint q_loop (n it : nat) (xo h : R) (q : qloc) : R * R * qloc :=
  match it with
  | O => (xo, h, q)
  | S it' =>
      let q' := q_locals n xo in
      let h' := q_h q' in
      q_loop n it' (xo + h') h' q'
  end.

(** quadrature.py:91-98  fx, from the locals and h of the last pass *)
Definition q_fx (n : nat) (q : qloc) (h : R) : R :=
  q_d1 q - h * q_e1 n *
    (q_pk q + (h * (1/2)) *
       (q_dpn q + (h * / 3) * (q_d2 q + (h * / 4) * (q_d3 q + (2/10 * h) * q_d4 q)))).

(** quadrature.py:58  iter = 2 *)
Definition q_iter : nat := 2.

(** quadrature.py:67-99 for a starting abscissa: base point and weight.  Note
    [bp = -xo - h]: xo already contains the last h. *)
Definition q_point (n : nat) (x0 : R) : R * R :=
  let '(xo, h, q) := q_loop n q_iter x0 0 (q_locals n x0) in
  let bp := - xo - h in
  let fx := q_fx n q h in
  (bp, 2 * (1 - bp * bp) * / (fx * fx)).

(** quadrature.py:57,66-99  the first halves of bp and wf *)
Definition q_bp_half (n : nat) : list R := map (fun j => fst (q_point n (q_x0 n j))) (seq 0 (q_m n)).
Definition q_wf_half (n : nat) : list R := map (fun j => snd (q_point n (q_x0 n j))) (seq 0 (q_m n)).

(** quadrature.py:100-101  the guard of the "centre := 0" branch *)
Definition q_centre_guard (n : nat) : bool := Nat.ltb (n - 1) ((q_m n - 1) + (q_m n - 1)).

(** [bp[m-1] = 0] when the guard holds *)
Definition q_centre (n : nat) (bp : list R) : list R :=
  if q_centre_guard n then firstn (q_m n - 1) bp ++ 0 :: skipn (q_m n) bp else bp.

(** quadrature.py:102-103 *)
Definition q_m2 (n : nat) : nat := if Nat.eqb (q_m n + q_m n) n then q_m n else (q_m n - 1)%nat.

(** quadrature.py:104-109 *)
Definition quadratureRule (n : nat) : list R * list R :=
  let bp := q_centre n (q_bp_half n) in
  let wf := q_wf_half n in
  let m := q_m2 n in
  (bp ++ map (fun j => - nth (m - 1 - j) bp 0) (seq 0 m),
   wf ++ map (fun j => nth (m - 1 - j) wf 0) (seq 0 m)).
