(** Specification vocabulary for C104: limit states that are linear in the logarithms of the lognormal
    variables and in the normal variables themselves, with the user's gradient. *)
From Coquelicot Require Import Coquelicot.
From Verif Require Import Base StochModel LimitState LimitStateSpec Form Pipe LogLin.
From Coq Require Import ZArith.

(** variable i is Lognormal(mu i, sd i) if [lg i], else Normal(mu i, sd i) *)
Definition variable (lg : nat -> bool) (nm : nat -> string) (mu sd : vec) (i : nat) : rv :=
  if lg i then Lognormal (nm i) (mu i) (sd i) else Normal (nm i) (mu i) (sd i).
(** acceptable moments, and points where the logarithms exist *)
Definition moments_ok (lg : nat -> bool) (mu sd : vec) (i : nat) : Prop :=
  if lg i then 0 < mu i /\ 0 < sd i else sd i <> 0.
Definition in_domain (n : nat) (lg : nat -> bool) (q : list R) : Prop :=
  length q = n /\ forall i, (i < n)%nat -> lg i = true -> 0 < nth i q 0.

(** c0 + sum of cf_i ln x_i over the lognormal and cf_i x_i over the normal variables; its gradient *)
Definition loglin_value (n : nat) (lg : nat -> bool) (c0 : R) (cf : vec) (q : list R) : R :=
  c0 + fsum n (fun i => cf i * (if lg i then ln (nth i q 0) else nth i q 0)).
Definition loglin_gradient (n : nat) (lg : nat -> bool) (cf : vec) (q : list R) : list R :=
  map (fun i => if lg i then cf i / nth i q 0 else cf i) (seq 0 n).

(** mean and standard deviation of ln X (X lognormal with mean m and standard deviation s) or of X *)
Definition log_sd (m s : R) : R := sqrt (ln (1 + (s / m) ^ 2)).
Definition log_mean (m s : R) : R := ln m - (log_sd m s) ^ 2 / 2.
Definition term_mean (lg : nat -> bool) (mu sd : vec) (i : nat) : R := if lg i then log_mean (mu i) (sd i) else mu i.
Definition term_sd (lg : nat -> bool) (mu sd : vec) (i : nat) : R := if lg i then log_sd (mu i) (sd i) else sd i.

(** options: user gradient, serial *)
Definition ddm_base (fo : form_opts) : Prop :=
  o_diff_mode (fo_ls fo) = "ddm"%string /\ o_multi_proc (fo_ls fo) = 1%Z /\ (1 <= o_block_size (fo_ls fo))%Z /\
  0 < fo_e1 fo /\ 0 < fo_e2 fo.
