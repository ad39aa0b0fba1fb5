(** Specification vocabulary for C107. *)
From Coquelicot Require Import Coquelicot.
From Verif Require Import Base StochModel StochModelSpec Mc DaRun.
From Coq Require Import ZArith.
Open Scope R_scope.

(** Coordinate i of the q-th simulated point, in terms of the random numbers: the points come in blocks of
    b (the last one of what is left); a block takes the next numbers row by row; each number is multiplied
    by the simulation standard deviation. *)
Definition nth_point (n : nat) (mo : mc_opts) (stream : nat -> R) (off q i : nat) : R :=
  let b := Z.to_nat (mo_block mo) in
  let past := (b * (q / b))%nat in
  let size := Nat.min b (Z.to_nat (mo_samples mo) - past) in
  mo_stdv mo * stream (off + n * past + i * size + q mod b)%nat.

(** no constant was added to the model before a random variable *)
Definition constants_last (l : list obj) : Prop :=
  forall l1 name value l2 d l3, l <> l1 ++ OConst name value :: l2 ++ ODist d :: l3.
