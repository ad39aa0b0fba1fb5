(** Specification vocabulary for C133: the binomial distribution. No pystra code here. *)
From Coq Require Import Reals.
Open Scope R_scope.

(** expected value of phi(K), K the number of successes in N independent trials that
    each succeed with probability q *)
Definition binomial_mean (N : nat) (q : R) (phi : nat -> R) : R :=
  sum_f_R0 (fun k => C N k * q ^ k * (1 - q) ^ (N - k) * phi k) N.
