(** Independent specification for the Nataf integral. *)
From Coquelicot Require Import Coquelicot.
From Verif Require Import Base.
Open Scope R_scope.

(** The bivariate standard normal density with correlation r (textbook form). *)
Definition bivariate_normal (z1 z2 r : R) : R :=
  exp (- (z1 * z1 - 2 * r * z1 * z2 + z2 * z2) / (2 * (1 - r * r))) / (2 * PI * sqrt (1 - r * r)).

(** A marginal parameter family at grid level: the value X(theta) of the quantile
    at one grid point keeps F(theta, X) constant; F has partial derivatives dF
    (in theta) and f (in x) at (theta0, X(theta0)) in the sense of total
    differentiability. *)
Definition quantile_path (F : R -> R -> R) (X : R -> R) (t0 dF f : R) : Prop :=
  (exists p, locally t0 (fun t => F t (X t) = p))
  /\ ex_derive X t0
  /\ differentiable_pt_lim F t0 (X t0) dF f.


(** A quadrature rule with [k] nodes [x] and weights [w] for [-1,1], carried over to the
    interval [lo,hi]. *)
Definition rule_on (k : nat) (x w : nat -> R) (lo hi : R) (f : R -> R) : R :=
  (hi - lo) / 2 * fsum k (fun a => w a * f ((lo + hi) / 2 + (hi - lo) / 2 * x a)).
