(** Specification vocabulary for the Monte Carlo properties (C28-C33). *)
From Verif Require Import Base Gauss.

(** joint density of n independent standard normals *)
Definition joint_density (n : nat) (u : vec) : R := lprod (map (fun i => phi (u i)) (seq 0 n)).

(** joint density of n independent normals with means p_i and deviation s *)
Definition sampling_density (n : nat) (p : vec) (s : R) (u : vec) : R :=
  lprod (map (fun i => phi ((u i - p i) / s) / s) (seq 0 n)).

(** number of points whose limit-state value is strictly negative *)
Fixpoint nfail (g : vec -> R) (pts : list vec) : nat :=
  match pts with
  | [] => 0
  | u :: r => if Rltb (g u) 0 then S (nfail g r) else nfail g r
  end.

(** coefficient of variation of the crude estimate of nf failures in k draws *)
Definition crude_cov (k nf : R) : R :=
  if Rltb 0 nf then if Rltb nf k then sqrt ((1 - nf / k) / (k * (nf / k))) else 1 else 1.

(** a matrix (list of columns) read row by row *)
Definition by_rows (n : nat) (cols : list vec) : list R :=
  flat_map (fun i => map (fun c : vec => c i) cols) (seq 0 n).
