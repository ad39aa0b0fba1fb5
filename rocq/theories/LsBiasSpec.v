(** Specification vocabulary for C117. No pystra code here. *)
From Coquelicot Require Import Coquelicot.
From Verif Require Import Base Gauss MomSpec McBiasSpec.
Open Scope R_scope.

(** A random point built from n + 1 independent standard normal numbers: the part of the first n
    orthogonal to the direction alpha, and the last one along alpha. *)
Definition split_point (n : nat) (alpha : vec) (s : nat -> R) : vec :=
  fun i => s i - dot n alpha s * alpha i + s n * alpha i.
(** p is the probability that g is negative at such a point *)
Definition split_failure (n : nat) (g : vec -> R) (alpha : vec) (p : R) : Prop :=
  is_mean (S n) (fun s => if Rltb (g (split_point n alpha s)) 0 then 1 else 0) p.

(** along a line: safe up to some parameter and failed beyond it, or safe everywhere, or failed
    everywhere *)
Definition crosses_once (h : R -> R) : Prop :=
  (exists c, (forall t, t < c -> 0 < h t) /\ (forall t, c < t -> h t < 0)) \/ (forall t, 0 < h t) \/ (forall t, h t < 0).

(** the probability of failure on the line through v in direction alpha *)
Definition line_probability (g : vec -> R) (alpha v : vec) (q : R) : Prop :=
  expectN (fun t => if Rltb (g (fun i => v i + t * alpha i)) 0 then 1 else 0) q.
