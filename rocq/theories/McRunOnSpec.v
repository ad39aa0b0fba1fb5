(** Specification vocabulary for C101. *)
From Coquelicot Require Import Coquelicot.
From Verif Require Import Base Ext Gauss Sorm Mc McRun.
From Coq Require Import ZArith.
Open Scope R_scope.

(** the sampling centre of an object: the origin if none was given *)
Definition point_of (a : mobj) : nat * option vec := match mb_point a with Some q => q | None => (mb_nrv a, Some (fun _ => 0)) end.

(** the index reported with a probability: the normal quantile (NaN above 1, -inf at 1), and 0 when
    nothing failed *)
Definition reported_beta (Pf : R) : xnum := if Rltb 0 Pf then xneg (xppf (Fin Pf)) else Fin 0.

(** The points of the blocks, in terms of the random numbers: block by block, a block of b points takes
    the next n b numbers, row by row; the points are p + sigma z.  Every block has the block size, the
    last one what is left. *)
Definition drawn (n : nat) (mo : mc_opts) (stream : nat -> R) (p : vec) (off : nat) (blocks : list (list vec)) : Prop :=
  forall m, (m < length blocks)%nat ->
    let past := length (concat (firstn m blocks)) in
    let b := Z.to_nat (Z.min (mo_block mo) (mo_samples mo - Z.of_nat past)) in
    length (nth m blocks []) = b /\
    forall j i, (j < b)%nat -> (i < n)%nat -> nth j (nth m blocks []) (fun _ => 0) i = p i + mo_stdv mo * stream (off + n * past + i * b + j)%nat.
