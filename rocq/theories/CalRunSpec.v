(** Specification vocabulary for C108: load cases of normal variables, the margin of a design, and its
    target. *)
From Coquelicot Require Import Coquelicot.
From Verif Require Import Base StochModel StochModelSpec LimitState LimitStateSpec Transf TransfSpec Form Nataf Dist Pipe PipeSpec LoadComb LoadCombSpec LcRun LcRunSpec CalibSpec.
From Coq Require Import ZArith.

(** The margin  z * sum_r a_r X_r - sum_s b_s X_s  of normal variables X_v with means mu v and standard
    deviations sd v; the correlation coefficient of the i-th and j-th label of Rl ++ Sl is Ro i j. *)
Section Margin.
Variables (Rl Sl : list string) (a b mu sd : string -> R) (Ro : mat).
Definition label (i : nat) : string := nth i (Rl ++ Sl) ""%string.
Definition weight (z : R) (v : string) : R := if in_dec string_dec v Rl then z * a v else - b v.
Definition margin_mean (z : R) : R := z * lsum (map (fun r => a r * mu r) Rl) - lsum (map (fun s => b s * mu s) Sl).
Definition margin_var (z : R) : R :=
  fsum (length (Rl ++ Sl)) (fun i => fsum (length (Rl ++ Sl)) (fun j =>
    weight z (label i) * sd (label i) * Ro i j * (weight z (label j) * sd (label j)))).
(** the covariance of the i-th variable with the margin *)
Definition margin_cov (z : R) (i : nat) : R := sd (label i) * fsum (length (Rl ++ Sl)) (fun j => Ro i j * (weight z (label j) * sd (label j))).
(** the reliability index of the design z, and its distance from the target in units of the margin *)
Definition margin_beta (z : R) : R := margin_mean z / sqrt (margin_var z).
Definition excess (beta_t z : R) : R := margin_mean z - beta_t * sqrt (margin_var z).
End Margin.

(** a normal variable under its own name, with the means and standard deviations of a case *)
Definition normals (mu sd : string -> R) (vs : list string) : list obj := map (fun v => ODist (Normal v (mu v) (sd v))) vs.
Definition constants (kc : list (string * R)) : list obj := map (fun kv => OConst (fst kv) (snd kv)) kc.
(** One load case: normal resistances Rl, other loads Ol and combination loads Cl (each with the
    distribution the case chooses), distinct names, constants kc. *)
Definition normal_case (comb : list (string * list (string * obj))) (resist other : list obj) (kc : list (string * R))
    (leading Rl Ol Cl : list string) (mu sd : string -> R) : Prop :=
  resist = normals mu sd Rl /\ other = normals mu sd Ol /\
  comb_part comb leading = map (fun v => (v, ODist (Normal v (mu v) (sd v)))) Cl /\
  NoDup (map fst kc ++ Rl ++ Ol ++ Cl) /\ (forall v, In v (Rl ++ Ol ++ Cl) -> sd v <> 0).
(** the correlation of the variables vs used by an analysis: none given means independence; otherwise the
    modified matrix computed from the user's frame, assumed positive definite *)
Definition case_correlation (fmin : (R -> R) -> R -> R) (corr : option frame) (vs : list string) (mu sd : string -> R) (Ro : mat) : Prop :=
  let n := length vs in
  match corr with
  | None => forall i j, (i < n)%nat -> (j < n)%nat -> Ro i j = if Nat.eq_dec i j then 1 else 0
  | Some fr => frame_covers fr vs /\ pos_def n Ro /\
      exists log, computeModifiedCorrelationMatrix fmin n n (mat_of (corr_rows fr vs)) (fun i => marg_of (nth i (map (fun v => Normal v (mu v) (sd v)) vs) rv0)) = Ok (Ro, log)
  end.

(** the transform and the options of the analyses: the user's, or the defaults *)
Definition case_type (opts : option (option string * form_opts)) : option string := match opts with None => None | Some o => fst o end.
Definition case_options (opts : option (option string * form_opts)) : form_opts := match opts with None => default_options | Some o => snd o end.
(** The calibration problem of C108: a load combination [l] was constructed with distinct case, combination
    and variable names; case [n] consists of normal variables whose loads matter; the limit state is
    cvar * sum_r a_r r - sum_s b_s s at every argument, cvar being a declared constant with value 1; the
    linear algebra meets its contract and the FORM options are such that a FORM run can end by convergence. *)
Definition linear_calibration (fmin : (R -> R) -> R -> R) (chol : nat -> mat -> result mat) (svd : nat -> mat -> result (mat * vec)) (inv : nat -> mat -> result mat)
    (fuel lf : nat) (expr : expression) (f : list (string * R) -> R)
    (comb : list (string * list (string * obj))) (resist : list obj) (other : option (list obj)) (corr : option frame) (kc : list (string * R)) (cases : list (string * list string))
    (l : loadcomb) (opts : option (option string * form_opts)) (n : string) (leading Rl Ol Cl : list string) (a b mu sd : string -> R) (Ro : mat) (cvar : string) : Prop :=
  let N := length (Rl ++ Ol ++ Cl) in
  lc_init comb resist other corr (Some (constants kc)) (Some cases) = Ok l /\
  NoDup (map fst cases) /\ NoDup (map fst comb) /\ dict_get cases n = Some leading /\
  normal_case comb resist (match other with None => [] | Some o => o end) kc leading Rl Ol Cl mu sd /\
  (forall m vrs v, In (m, vrs) cases -> In v vrs -> In v (map fst comb)) /\
  case_correlation fmin corr (Rl ++ Ol ++ Cl) mu sd Ro /\ (exists s, In s (Ol ++ Cl) /\ b s <> 0) /\
  pointwise expr f /\ linear_lsf (fun kw => Ok (f kw)) cvar Rl (Ol ++ Cl) a b /\ In (cvar, 1) kc /\
  (exists e0, lapack N chol svd inv e0) /\ (exists a0, form_init (case_type opts) = Ok a0) /\
  exact_options (case_options opts) /\ (N + 7 < lf)%nat /\ (Z.to_nat (fo_imax (case_options opts)) < fuel)%nat.
