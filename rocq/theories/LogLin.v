(** Lognormal variables given by their moments, as the stochastic model stores them.  Definitions only. *)
From Coquelicot Require Import Coquelicot.
From Verif Require Import Base StochModel Dist Pipe.

(** Lognormal(name, mean, stdv): lognormal.py 25-53, no input_type and no start point *)
Definition Lognormal (name : string) (mean stdv : R) : rv :=
  let s := lognormal_init mean stdv true None in rv_of name (lognormal_dist s) (ln_start s).
