(** Specification vocabulary for C102. *)
From Coquelicot Require Import Coquelicot.
From Verif Require Import Base Ext Gauss Sorm Ss.
Open Scope R_scope.

(** What a finished subset simulation has gone through: [levels] are the samples of each level with their
    limit-state values.  Level 0 is drawn from the prior (column j of randn(n, N)); every level has N
    samples; the thresholds are the p0-quantiles of the levels, positive and non-increasing, except the
    last, which is 0 where the quantile is no longer positive; from level 1 on the samples lie below the
    threshold before; each conditional probability is the observed fraction below the threshold. *)
Definition subset_levels (g : vec -> R) (N : nat) (p0 : R) (randn : nat -> R) (thr probs : list R) (levels : list (list (vec * R))) : Prop :=
  let L := length levels in
  (1 <= L)%nat /\ length thr = L /\ length probs = L /\
  nth 0 levels [] = map (fun j => let u : vec := fun i => randn (i * N + j)%nat in (u, g u)) (seq 0 N) /\
  (forall l, In l levels -> length l = N) /\
  (forall l ug, In l levels -> In ug l -> snd ug = g (fst ug)) /\
  (forall j, (S j < L)%nat -> nth j thr 0 = percentile (map snd (nth j levels [])) p0 /\ 0 < nth j thr 0) /\
  last thr 1 = 0 /\ percentile (map snd (last levels [])) p0 <= 0 /\
  (forall i j, (i <= j < L)%nat -> nth j thr 0 <= nth i thr 0) /\
  (forall j ug, (S j < L)%nat -> In ug (nth (S j) levels []) -> g (fst ug) <= nth j thr 0) /\
  (forall j, (j < L)%nat -> nth j probs 0 = INR (length (filter (fun ug : vec * R => Rleb (g (fst ug)) (nth j thr 0)) (nth j levels []))) / INR N).

(** the reported index: the normal quantile, -inf for a probability of 1 *)
Definition subset_beta (Pf : R) : xnum := if Rltb Pf 1 then xneg (xppf (Fin Pf)) else NInf.
