(** Specification vocabulary for C118. No pystra code here. *)
From Coquelicot Require Import Coquelicot.
From Flocq Require Import Core.
From Verif Require Import Base McFloat.
Open Scope R_scope.

(** a double *)
Definition double (x : R) : Prop := exists m e : Z, x = IZR m * powerRZ 2 e /\ (Z.abs m < 2 ^ 53)%Z /\ (-1074 <= e)%Z.
(** y is one of the two doubles enclosing v (v itself if it is a double): what a good pow returns *)
Definition faithful (v y : R) : Prop :=
  double y /\ ((y <= v /\ forall z, double z -> z <= v -> z <= y) \/ (v <= y /\ forall z, double z -> v <= z -> y <= z)).
(** y is a double nearest to v *)
Definition nearest (v y : R) : Prop := double y /\ forall z, double z -> Rabs (y - v) <= Rabs (z - v).
(** the number of failures among the first k samples *)
Definition failures (fails : nat -> bool) (k : Z) : Z := Z.of_nat (length (filter fails (seq 0 (Z.to_nat k)))).
(** the coefficient of variation of the mean of k zeros and ones of which s are ones *)
Definition exact_cov (k s : Z) : R := let Q := IZR s / IZR k in sqrt (Q * (1 - Q) / IZR k) / Q.
