(** Specification vocabulary for C129: a problem of the kind C99 treats. *)
From Coquelicot Require Import Coquelicot.
From Verif Require Import Base StochModel StochModelSpec LimitState LimitStateSpec Transf TransfSpec Form Nataf Dist RotSpec Pipe PipeSpec Sorm SormRun SormRunSpec SormQuadSpec.
From Coq Require Import ZArith.
Open Scope R_scope.

(** The stochastic model built by the calls h has the n normal variables N(mu_i, sd_i) with equivalent
    correlations Ro; the limit state function expr is c0 + cf . x + 1/2 (x - mu)^T Q (x - mu) with its gradient,
    its quadratic part lying in the tangent plane at the design point; the linear algebra routines meet their contracts. *)
Record quad_problem (n : nat) fmin chol svd inv eig sort e0 h expr lf (mu sd cf : vec) (c0 : R) (Q Ro : mat) a opt fo fuel : Prop := {
  qp_n : ndists h = n;
  qp_lapack : lapack n chol svd inv e0;
  qp_eig : eig_contract (n - 1) eig;
  qp_sort : sort_contract sort;
  qp_init : form_init opt = Ok a;
  qp_two : (2 <= n)%nat;
  qp_normal : exists nm, forall i, (i < n)%nat -> nth_error (dists_of (accepted h)) i = Some (Normal (nm i) (mu i) (sd i));
  qp_sd : forall i, (i < n)%nat -> sd i <> 0;
  qp_cf : exists i, (i < n)%nat /\ cf i <> 0;
  qp_expr : exists f gr, with_gradient expr f gr /\
    forall q, length q = n -> f (args_at h q) = quad_value n c0 cf mu Q q /\ gr (args_at h q) = quad_gradient n cf mu Q q;
  qp_sym : symmetric n Q;
  qp_tangent : forall i, (i < n)%nat -> fsum n (fun j => Q i j * (sd j * fsum n (fun k => Ro j k * (sd k * cf k)))) = 0;
  qp_options : ddm_options fo;
  qp_lf : (6 < lf)%nat;
  qp_fuel : (Z.to_nat (fo_imax fo) < fuel)%nat;
  qp_corr : exists M log, sm_corr (sm_run h) = Some M /\ length M = n /\ (forall r, In r M -> length r = n) /\
    computeModifiedCorrelationMatrix fmin n n (mat_of M) (fun i => marg_of (marg_at (sm_run h) i)) = Ok (Ro, log);
  qp_posdef : pos_def n Ro
}.
