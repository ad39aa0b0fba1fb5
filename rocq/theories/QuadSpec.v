(** Independent specification for quadrature: the Legendre polynomials and
    "exact integration rule on [-1,1]". *)
From Coquelicot Require Import Coquelicot.
From Verif Require Import Base.
Open Scope R_scope.

(** Bonnet's recursion  (k+2) P_{k+2} = (2k+3) x P_{k+1} - (k+1) P_k,
    P_0 = 1, P_1 = x, as the pair (P_n, P_{n+1}). *)
Fixpoint legendre2 (n : nat) (x : R) : R * R :=
  match n with
  | O => (1, x)
  | S k => let '(a, b) := legendre2 k x in
           (b, ((2 * INR k + 3) * x * b - (INR k + 1) * a) / (INR k + 2))
  end.
Definition legendre (n : nat) (x : R) : R := fst (legendre2 n x).

(** The rule (points, weights) applied to f. *)
Definition apply_rule (r : list R * list R) (f : R -> R) : R :=
  lsum (map (fun '(x, w) => w * f x) (combine (fst r) (snd r))).

(** Fourth-order Taylor polynomial of f at x. *)
Definition taylor4 (f : R -> R) (x h : R) : R :=
  f x + h * Derive f x + h^2 / 2 * Derive_n f 2 x + h^3 / 6 * Derive_n f 3 x
  + h^4 / 24 * Derive_n f 4 x.
