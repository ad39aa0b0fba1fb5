(** Property theorems C104: FORM on limit states linear in ln X of lognormal and in X of normal variables. *)
From Coquelicot Require Import Coquelicot.
From Verif Require Import Base Ext Dict Gauss GaussProofs StochModel StochModelSpec StochModelProofs LimitState LimitStateSpec LimitStateProofs LimitStateProps Transf TransfSpec TransfProofs Form FormProofs FormAffineProofs FormNormalProofs FormProps Nataf NatafProofs Dist DistProps RotProps Pipe PipeSpec PipeProofs PipeProps SormQuadSpec LogLin LogLinSpec LogLinProofs.
From Coq Require Import ZArith Lra Lia.
Open Scope R_scope.

Lemma start_mean lg nm mu sd i : moments_ok lg mu sd i -> let d := variable lg nm mu sd i in
  (if lg i then ln (mu i) else mu i) = term_mean lg mu sd i + term_sd lg mu sd i * rv_x2u d (rv_start d).
Proof.
  unfold moments_ok, variable, term_mean, term_sd. cbv zeta. destruct (lg i).
  - intros (Hm & Hs). destruct (lognormal_by_moments (mu i) (sd i) None Hm Hs) as (A & _ & _ & _).
    pose proof (log_sd_pos _ _ Hm Hs) as P.
    assert (S : Dist.ln_start (lognormal_init (mu i) (sd i) true None) = mu i) by exact A.
    unfold Lognormal, rv_of. cbn [rv_x2u rv_start lognormal_dist d_x2u]. rewrite S. unfold lognormal_init. cbn [ln_lamb ln_zeta]. rewrite params_spec. cbn [fst snd]. field. lra.
  - intros Hs. unfold Normal, rv_of. cbn. field. exact Hs.
Qed.

Section L.
Variables (fmin : (R -> R) -> R -> R) (chol : nat -> mat -> result mat) (svd : nat -> mat -> result (mat * vec)) (inv : nat -> mat -> result mat) (e0 : exn).
Variables (h : list smop) (expr : expression) (f : list (string * R) -> R) (gr : list (string * R) -> list R) (lf : nat) (lg : nat -> bool) (nm : nat -> string) (mu sd cf : vec) (c0 : R).
Variables (M : list (list R)) (Ro : mat) (log : list (nat * nat)) (a : fobj) (opt : option string) (fo : form_opts) (evn : option exn).
Let n := ndists h.
Let s := sm_run h.
Hypothesis Hlap : lapack n chol svd inv e0.
Hypothesis Ha : form_init opt = Ok a.
Hypothesis Hn : (1 <= n)%nat.
Hypothesis HN : forall i, (i < n)%nat -> nth_error (dists_of (accepted h)) i = Some (variable lg nm mu sd i).
Hypothesis Hok : forall i, (i < n)%nat -> moments_ok lg mu sd i.
Hypothesis Hcf : exists i, (i < n)%nat /\ cf i <> 0.
Hypothesis Hg : with_gradient expr f gr.
Hypothesis Hlin : forall q, in_domain n lg q -> f (args_at h q) = loglin_value n lg c0 cf q /\ gr (args_at h q) = loglin_gradient n lg cf q.
Hypothesis Hfo : ddm_base fo.
Hypothesis Hlf : (6 < lf)%nat.
Hypothesis HRo : computeModifiedCorrelationMatrix fmin n n (mat_of M) (fun i => marg_of (marg_at s i)) = Ok (Ro, log).
Hypothesis HPD : pos_def n Ro.

Lemma lo_marg i : (i < n)%nat -> marg_at s i = variable lg nm mu sd i.
Proof. intros Hi. unfold marg_at. destruct (registry h) as (_ & _ & EM & _). unfold s. rewrite EM. apply nth_error_nth, HN, Hi. Qed.

Let b := c0 + fsum n (fun i => cf i * term_mean lg mu sd i).
Let v := fsum n (fun i => fsum n (fun j => (cf i * term_sd lg mu sd i) * Ro i j * (cf j * term_sd lg mu sd j))).
Lemma lo_all : 0 < v /\ exists T A,
  transf_compute chol svd inv (fb_type a) n (mat_of (rows_of n Ro)) = Ok (T, A) /\ inverse_pair n T A /\ factor_of n A Ro /\
  let av := fun j => - fsum n (fun i => cf i * term_sd lg mu sd i * A i j) in
  norm n av = sqrt v /\
  affine_ev n av b (form_ev lf s expr (fo_ls fo) n T A inv (marg_at s)) /\
  affine_trial n av b (total_trial n av b (form_trial lf s expr (fo_ls fo) n A (marg_at s))) /\
  b - dot n av (computeStartingPoint n T (marg_at s)) = loglin_value n lg c0 cf (map mu (seq 0 n)).
Proof.
  assert (VP : 0 < v).
  { apply HPD. destruct Hcf as (i & Hi & Hc). exists i. split; [exact Hi|]. apply Rmult_integral_contrapositive_currified; [exact Hc|]. now apply term_sd_nz, Hok. }
  split; [exact VP|].
  destruct (ln_factor fmin chol svd inv e0 h M Ro log a opt Hlap Ha HRo HPD) as (T & A & ET & HT & HF). fold n in ET, HT, HF.
  exists T, A. split; [exact ET|]. split; [exact HT|]. split; [exact HF|]. intros av.
  destruct Hfo as (Hd & Hmp & Hbs & He1 & He2). destruct Hlap as (_ & _ & (I1 & I2 & I3) & _).
  set (ph := fun i x => if lg i then ln x else x). set (dph := fun (i : nat) (x : R) => if lg i then / x else 1).
  assert (HQ : forall q, length q = n -> (forall i, (i < n)%nat -> lg i = true -> 0 < nth i q 0) ->
    f (args_at h q) = c0 + fsum n (fun i => cf i * ph i (nth i q 0)) /\ gr (args_at h q) = map (fun i => cf i * dph i (nth i q 0)) (seq 0 n)).
  { intros q L K. destruct (Hlin q (conj L K)) as (E1 & E2). split; [exact E1|]. rewrite E2. unfold loglin_gradient. apply map_ext. intros i. unfold dph. destruct (lg i); unfold Rdiv; ring. }
  assert (HMg : forall i z, (i < n)%nat -> let x := rv_u2x (marg_at s i) z in
    (lg i = true -> 0 < x) /\ ph i x = term_mean lg mu sd i + term_sd lg mu sd i * z /\ rv_jac (marg_at s i) z x <> 0 /\ dph i x * / rv_jac (marg_at s i) z x = term_sd lg mu sd i).
  { intros i z Hi. rewrite (lo_marg i Hi). exact (term_ok lg nm mu sd i z (Hok i Hi)). }
  split; [|split; [|split]].
  - unfold norm, dot, v. f_equal. rewrite <- (quad_norm n A Ro _ HF). apply fsum_ext. intros k _. unfold av. ring.
  - apply (l_ev h expr f gr (fo_ls fo) lf T A inv (marg_at s) c0 cf (term_mean lg mu sd) (term_sd lg mu sd) (fun i x => lg i = true -> 0 < x) ph dph); assumption.
  - intros us. unfold total_trial. destruct (Nat.eqb_spec (length us) ntrial) as [El|]; [|eauto].
    apply (l_trial h expr f gr (fo_ls fo) lf A (marg_at s) c0 cf (term_mean lg mu sd) (term_sd lg mu sd) (fun i x => lg i = true -> 0 < x) ph dph); assumption.
  - set (u0 := computeStartingPoint n T (marg_at s)).
    assert (Z : forall i, (i < n)%nat -> mvec n A u0 i = rv_x2u (marg_at s i) (rv_start (marg_at s i))).
    { intros i Hi. unfold u0, computeStartingPoint, x_to_u. cbv zeta. rewrite <- mvec_mmul. destruct HT as (_ & HT2).
      rewrite (mvec_meq n _ _ _ i HT2 Hi). now rewrite mvec_eye by exact Hi. }
    unfold loglin_value, b. rewrite (fsum_ext n (fun i => cf i * (if lg i then ln (nth i (map mu (seq 0 n)) 0) else nth i (map mu (seq 0 n)) 0)) (fun i => cf i * term_mean lg mu sd i + fsum n (fun j => cf i * term_sd lg mu sd i * A i j * u0 j))).
    + rewrite fsum_plus. unfold av, dot. rewrite fsum_swap.
      rewrite (fsum_ext n (fun j => - fsum n (fun i => cf i * term_sd lg mu sd i * A i j) * u0 j) (fun j => - fsum n (fun i => cf i * term_sd lg mu sd i * A i j * u0 j))).
      * rewrite fsum_opp. ring.
      * intros j _. rewrite fsum_scal_r. ring.
    + intros i Hi. rewrite nth_map_seq by exact Hi. pose proof (start_mean lg nm mu sd i (Hok i Hi)) as SM. cbv zeta in SM. rewrite <- (lo_marg i Hi), <- (Z i Hi) in SM. rewrite SM.
      rewrite Rmult_plus_distr_l. f_equal. unfold mvec. rewrite <- !fsum_scal. apply fsum_ext. intros; ring.
Qed.
End L.

(** C104: with full steps FORM finds the exact index, the exact failure probability of the log-linear
    margin and the exact design point, in two limit state calls. *)
Theorem C104_loglinear_exact :
  forall fmin chol svd inv e0 h expr f gr lf lg nm (mu sd cf : vec) c0 M Ro log a opt fo evn fuel,
  let n := ndists h in let s := sm_run h in
  lapack n chol svd inv e0 -> form_init opt = Ok a -> (1 <= n)%nat ->
  (forall i, (i < n)%nat -> nth_error (dists_of (accepted h)) i = Some (variable lg nm mu sd i)) ->
  (forall i, (i < n)%nat -> moments_ok lg mu sd i) -> (exists i, (i < n)%nat /\ cf i <> 0) ->
  with_gradient expr f gr ->
  (forall q, in_domain n lg q -> f (args_at h q) = loglin_value n lg c0 cf q /\ gr (args_at h q) = loglin_gradient n lg cf q) ->
  ddm_base fo -> fo_step fo = 1 -> fo_e1 fo <= 1 -> (2 <= fo_imax fo)%Z ->
  (6 < lf)%nat -> (Z.to_nat (fo_imax fo) < fuel)%nat ->
  sm_corr s = Some M -> length M = n -> (forall r, In r M -> length r = n) ->
  computeModifiedCorrelationMatrix fmin n n (mat_of M) (fun i => marg_of (marg_at s i)) = Ok (Ro, log) -> pos_def n Ro ->
  let tm := term_mean lg mu sd in let ts := term_sd lg mu sd in
  let mean := c0 + fsum n (fun i => cf i * tm i) in
  let variance := fsum n (fun i => fsum n (fun j => (cf i * ts i) * Ro i j * (cf j * ts j))) in
  let beta := mean / sqrt variance in
  exists r a' s' A u, run_form fmin chol svd inv fuel lf expr fo evn a s = (a', s', FDone r) /\
    fb_res a' = Some r /\ 0 < variance /\
    form_beta n r = Fin beta /\ form_Pf n r = Fin (Phi (- beta)) /\ fr_G r = 0 /\ fr_u r = Some u /\ option_map snd (fb_TA a') = Some A /\
    (forall i, (i < n)%nat -> u_to_x n A (marg_at s) u i =
       let y := tm i - ts i * (beta * fsum n (fun k => Ro i k * (cf k * ts k)) / sqrt variance) in if lg i then exp y else y) /\
    (loglin_value n lg c0 cf (map mu (seq 0 n)) <> 0 -> fr_i r = 2%Z /\ sm_calls s' = (sm_calls s + 2)%nat).
Proof.
  intros fmin chol svd inv e0 h expr f gr lf lg nm mu sd cf c0 M Ro log a opt fo evn fuel n s Hlap Ha Hn HN Hok Hcf Hg Hlin Hfo HS H1 Hi Hlf Hfu HM HM1 HM2 HRo HPD tm ts mean variance beta.
  destruct (lo_all fmin chol svd inv e0 h expr f gr lf lg nm mu sd cf c0 M Ro log a opt fo Hlap Ha Hn HN Hok Hcf Hg Hlin Hfo Hlf HRo HPD) as (VP & T & A & ET & HT & HF & EN & EA & TT & E0).
  cbv zeta in EN, EA, TT, E0. fold n s in EN, EA, TT, E0, VP, ET, HT, HF. fold tm ts in EN, EA, TT, E0, VP. fold mean in EA, TT, E0. fold variance in EN, VP.
  set (av := fun j => - fsum n (fun i => cf i * ts i * A i j)) in *.
  set (ev := form_ev lf s expr (fo_ls fo) n T A inv (marg_at s)) in *. set (tr := form_trial lf s expr (fo_ls fo) n A (marg_at s)) in *.
  assert (SV := sqrt_lt_R0 _ VP). assert (NA : norm n av <> 0) by (rewrite EN; lra).
  pose proof Hfo as (Hd & Hmp & Hbs & He1 & He2).
  destruct (C24_full_step_exact n fo ev (total_trial n av mean tr) evn av mean NA EA TT HS (conj He1 H1) He2 Hi fuel (computeStartingPoint n T (marg_at s)) Hfu) as (r & c & E & EG & EB & (u & Eu & Hu) & EI).
  assert (EM : length (sm_marg s) = n) by (destruct (registry h) as (_ & _ & X & _); unfold s; rewrite X; reflexivity).
  destruct (C92_run_composition fmin chol svd inv s M n Ro log T A fuel lf expr fo evn a HM HM1 HM2 EM HRo ET) as (c' & a' & R1 & R2 & R3 & R4 & R5).
  assert (EF : form_from n fo evn fuel lf s expr T A inv (marg_at s) = (FDone r, c)).
  { unfold form_from. fold ev tr. rewrite <- E. unfold form_run. apply loop_trial_ext. intros us Hl. unfold total_trial. rewrite Hl, Nat.eqb_refl. reflexivity. }
  rewrite EF in R1. injection R1 as Er Ec. subst c'.
  destruct (run_form fmin chol svd inv fuel lf expr fo evn a s) as [[a1 s1] out1] eqn:ER. cbn [fst snd] in R2, R5, Er. subst out1. injection R2 as -> ->.
  rewrite EN in EB, Hu. fold beta in EB. exists r, a', (addCallFunction (setModifiedCorrelation s (rows_of n Ro)) c), A, u.
  split; [reflexivity|]. split; [exact R5|]. split; [exact VP|]. split; [exact EB|]. split; [unfold form_Pf; rewrite EB; reflexivity|]. split; [exact EG|]. split; [exact Eu|].
  split; [rewrite R4; reflexivity|]. split.
  - intros i Hi'. set (z := mvec n A u i).
    assert (EZ : z = - (beta * fsum n (fun k => Ro i k * (cf k * ts k)) / sqrt variance)).
    { unfold z. rewrite (mvec_ext n A u (fun i => mean / (sqrt variance * sqrt variance) * av i) Hu i).
      unfold mvec. rewrite (fsum_ext n _ (fun j => mean / (sqrt variance * sqrt variance) * (- fsum n (fun k => A i j * A k j * (cf k * ts k))))).
      - rewrite fsum_scal, fsum_opp, fsum_swap. rewrite (fsum_ext n (fun k => fsum n (fun j => A i j * A k j * (cf k * ts k))) (fun k => Ro i k * (cf k * ts k))).
        + unfold beta. field. lra.
        + intros k Hk. rewrite fsum_scal_r. f_equal. rewrite <- (HF i k Hi' Hk). reflexivity.
      - intros j _. unfold av. rewrite <- !fsum_opp, <- !fsum_scal. apply fsum_ext. intros; ring. }
    unfold u_to_x. cbv zeta. fold z. rewrite (lo_marg h lg nm mu sd HN i Hi' : marg_at s i = _).
    destruct (term_ok lg nm mu sd i z (Hok i Hi')) as (P & Q & _ & _). fold tm ts in Q.
    replace (tm i - ts i * (beta * fsum n (fun k => Ro i k * (cf k * ts k)) / sqrt variance)) with (tm i + ts i * z) by (rewrite EZ; ring).
    destruct (lg i); [|exact Q]. rewrite <- Q, exp_ln by (apply P; reflexivity). reflexivity.
  - intros HG. assert (I2 : fr_i r = 2%Z) by (apply EI; fold n s in E0; rewrite E0; exact HG). split; [exact I2|].
    unfold form_from in EF.
    assert (CC := C68_form_function_calls fuel s expr n T A inv (marg_at s) fo evn lf _ r c ltac:(lia) EF). cbv zeta in CC.
    rewrite Hd, HS, I2 in CC. cbn [String.eqb Ascii.eqb Bool.eqb] in CC. replace (Reqb 1 0) with false in CC by (symmetry; apply Reqb_false; lra).
    cbn [addCallFunction setModifiedCorrelation sm_calls]. lia.
Qed.
Print Assumptions C104_loglinear_exact.

(** C104: with any other step rule a run that stops before the iteration limit is accurate to the
    criterion e1 relative to the limit state value at the means, and with automatic steps it does
    stop, given enough iterations. *)
Theorem C104_loglinear_tolerance :
  forall fmin chol svd inv e0 h expr f gr lf lg nm (mu sd cf : vec) c0 M Ro log a opt evn,
  let n := ndists h in let s := sm_run h in
  lapack n chol svd inv e0 -> form_init opt = Ok a -> (1 <= n)%nat ->
  (forall i, (i < n)%nat -> nth_error (dists_of (accepted h)) i = Some (variable lg nm mu sd i)) ->
  (forall i, (i < n)%nat -> moments_ok lg mu sd i) -> (exists i, (i < n)%nat /\ cf i <> 0) ->
  with_gradient expr f gr ->
  (forall q, in_domain n lg q -> f (args_at h q) = loglin_value n lg c0 cf q /\ gr (args_at h q) = loglin_gradient n lg cf q) ->
  (6 < lf)%nat ->
  sm_corr s = Some M -> length M = n -> (forall r, In r M -> length r = n) ->
  computeModifiedCorrelationMatrix fmin n n (mat_of M) (fun i => marg_of (marg_at s i)) = Ok (Ro, log) -> pos_def n Ro ->
  let tm := term_mean lg mu sd in let ts := term_sd lg mu sd in
  let mean := c0 + fsum n (fun i => cf i * tm i) in
  let variance := fsum n (fun i => fsum n (fun j => (cf i * ts i) * Ro i j * (cf j * ts j))) in
  let g0 := loglin_value n lg c0 cf (map mu (seq 0 n)) in
  let accurate fo r := exists beta, form_beta n r = Fin beta /\ form_Pf n r = Fin (Phi (- beta)) /\
    Rabs (beta - mean / sqrt variance) < fo_e1 fo * Rabs g0 / sqrt variance in
  (forall fo fuel a' s' r, ddm_base fo -> run_form fmin chol svd inv fuel lf expr fo evn a s = (a', s', FDone r) ->
     fr_i r <> fo_imax fo -> accurate fo r) /\
  (g0 <> 0 -> exists N, forall fo fuel, ddm_base fo -> fo_step fo = 0 -> (Z.of_nat N < fo_imax fo)%Z -> (N < fuel)%nat ->
     exists r a' s', run_form fmin chol svd inv fuel lf expr fo evn a s = (a', s', FDone r) /\ accurate fo r).
Proof.
  intros fmin chol svd inv e0 h expr f gr lf lg nm mu sd cf c0 M Ro log a opt evn n s Hlap Ha Hn HN Hok Hcf Hg Hlin Hlf HM HM1 HM2 HRo HPD tm ts mean variance g0 accurate.
  assert (EM : length (sm_marg s) = n) by (destruct (registry h) as (_ & _ & X & _); unfold s; rewrite X; reflexivity).
  assert (K : exists T A, transf_compute chol svd inv (fb_type a) n (mat_of (rows_of n Ro)) = Ok (T, A) /\
    let av := fun j => - fsum n (fun i => cf i * ts i * A i j) in norm n av = sqrt variance /\ 0 < variance /\
    mean - dot n av (computeStartingPoint n T (marg_at s)) = g0 /\
    forall fo, ddm_base fo -> affine_ev n av mean (form_ev lf s expr (fo_ls fo) n T A inv (marg_at s)) /\
      affine_trial n av mean (total_trial n av mean (form_trial lf s expr (fo_ls fo) n A (marg_at s)))).
  { set (fo0 := mkfo 0 1 1 0 (mkopts "ddm" 1 1 1)).
    assert (D0 : ddm_base fo0) by (unfold fo0; repeat split; cbn; try lra; lia).
    destruct (lo_all fmin chol svd inv e0 h expr f gr lf lg nm mu sd cf c0 M Ro log a opt fo0 Hlap Ha Hn HN Hok Hcf Hg Hlin D0 Hlf HRo HPD) as (VP & T & A & ET & _ & _ & EN & _ & _ & E0).
    exists T, A. split; [exact ET|]. split; [exact EN|]. split; [exact VP|]. split; [exact E0|].
    intros fo Dfo. destruct (lo_all fmin chol svd inv e0 h expr f gr lf lg nm mu sd cf c0 M Ro log a opt fo Hlap Ha Hn HN Hok Hcf Hg Hlin Dfo Hlf HRo HPD) as (_ & T' & A' & ET' & _ & _ & _ & EA & TT & _).
    assert (EE := eq_trans (eq_sym ET) ET'). injection EE as <- <-. split; [exact EA|exact TT]. }
  destruct K as (T & A & ET & EN & VP & E0 & HA). cbv zeta in EN, E0, HA. set (av := fun j => - fsum n (fun i => cf i * ts i * A i j)) in *.
  assert (SV := sqrt_lt_R0 _ VP). assert (NA : norm n av <> 0) by (rewrite EN; lra).
  assert (AC : forall fo r beta, form_beta n r = Fin beta -> Rabs (beta - mean / norm n av) < fo_e1 fo * Rabs (mean - dot n av (computeStartingPoint n T (marg_at s))) / norm n av -> accurate fo r).
  { intros fo r beta EB HE. exists beta. split; [exact EB|]. split; [unfold form_Pf; rewrite EB; reflexivity|]. rewrite EN, E0 in HE. exact HE. }
  split.
  - intros fo fuel a' s' r Dfo ER Hi. destruct (HA fo Dfo) as (EA & TT).
    destruct (C92_run_composition fmin chol svd inv s M n Ro log T A fuel lf expr fo evn a HM HM1 HM2 EM HRo ET) as (c' & a2 & R1 & _).
    rewrite ER in R1. cbn [snd] in R1. unfold form_from in R1.
    destruct (C24_converged_accuracy n fo _ _ evn av mean NA EA fuel _ r c' R1 Hi) as (beta & EB & HE). exact (AC fo r beta EB HE).
  - intros HG. destruct (C24_iterations_exist n av mean (computeStartingPoint n T (marg_at s)) NA) as (K & HK). exists (K + 2)%nat.
    intros fo fuel Dfo HS Hi Hf. destruct (HA fo Dfo) as (EA & TT). pose proof Dfo as (_ & Hmp & _ & He1 & He2).
    destruct (C24_automatic_converges n fo _ _ evn av mean NA EA TT HS Hmp He1 He2 K fuel _ HK ltac:(rewrite E0; exact HG) ltac:(lia) ltac:(lia)) as (r & c & beta & E & _ & EB & HE).
    destruct (C92_run_composition fmin chol svd inv s M n Ro log T A fuel lf expr fo evn a HM HM1 HM2 EM HRo ET) as (c' & a2 & R1 & R2 & _).
    assert (EF : form_from n fo evn fuel lf s expr T A inv (marg_at s) = (FDone r, c)).
    { unfold form_from. rewrite <- E. unfold form_run. apply loop_trial_ext. intros us Hl. unfold total_trial. rewrite Hl, Nat.eqb_refl. reflexivity. }
    rewrite EF in R1. injection R1 as Er Ec. destruct (run_form fmin chol svd inv fuel lf expr fo evn a s) as [[a1 s1] out1] eqn:ER. cbn [snd] in Er. subst out1.
    exists r, a1, s1. split; [reflexivity|]. exact (AC fo r beta EB HE).
Qed.
Print Assumptions C104_loglinear_tolerance.

(** C104: the textbook case: independent lognormal resistance and load, g = ln R - ln S *)
Theorem C104_lognormal_pair :
  forall fmin chol svd inv e0 h expr f gr lf nR nS mR sR mS sS a opt fo evn fuel,
  lapack 2 chol svd inv e0 -> form_init opt = Ok a -> no_setcorr h ->
  dists_of (accepted h) = [Lognormal nR mR sR; Lognormal nS mS sS] -> 0 < mR -> 0 < sR -> 0 < mS -> 0 < sS ->
  with_gradient expr f gr ->
  (forall r s, 0 < r -> 0 < s -> f (args_at h [r; s]) = ln r - ln s /\ gr (args_at h [r; s]) = [/ r; - / s]) ->
  ddm_base fo -> fo_step fo = 1 -> fo_e1 fo <= 1 -> (2 <= fo_imax fo)%Z -> (6 < lf)%nat -> (Z.to_nat (fo_imax fo) < fuel)%nat ->
  let VR := sR / mR in let VS := sS / mS in
  let beta := ln (mR / mS * sqrt ((1 + VS ^ 2) / (1 + VR ^ 2))) / sqrt (ln ((1 + VR ^ 2) * (1 + VS ^ 2))) in
  exists r a' s', run_form fmin chol svd inv fuel lf expr fo evn a (sm_run h) = (a', s', FDone r) /\
    form_beta 2 r = Fin beta /\ form_Pf 2 r = Fin (Phi (- beta)) /\
    (mR <> mS -> sm_calls s' = (sm_calls (sm_run h) + 2)%nat).
Proof.
  intros fmin chol svd inv e0 h expr f gr lf nR nS mR sR mS sS a opt fo evn fuel Hlap Ha Hno HD HmR HsR HmS HsS Hg Hlin Hfo HS H1 Hi Hlf Hfu VR VS beta.
  assert (EN : ndists h = 2%nat) by (unfold ndists; rewrite HD; reflexivity).
  assert (HM : sm_corr (sm_run h) = Some (eye_rows 2)) by (rewrite <- EN; apply (corr_reset [] h Hno); cbn [app]; rewrite EN; cbn; lia).
  destruct (eye_rows_identity 2) as (L1 & L2 & L3).
  destruct (modified_ok fmin 2 (mat_of (eye_rows 2)) (fun i => marg_of (marg_at (sm_run h) i)) 2 (le_n 2)) as (Ro & E & D & S & L & _).
  match type of E with _ = Ok (_, ?x) => set (lg := x) in * end.
  assert (R10 : Ro 1%nat 0%nat = 0).
  { rewrite L by lia. unfold pair_value. unfold mat_of. cbn [nth]. cbn. now rewrite (proj2 (Reqb_spec 0 0) eq_refl). }
  assert (EI : forall i j, (i < 2)%nat -> (j < 2)%nat -> Ro i j = delta i j).
  { intros i j Hi' Hj. two i Hi'; two j Hj; cbn; rewrite ?D, ?R10; try reflexivity. rewrite (S 0%nat 1%nat), R10. reflexivity. }
  pose proof (C104_loglinear_exact fmin chol svd inv e0 h expr f gr lf (fun _ => true) (pick nR nS) (pick mR mS) (pick sR sS) (pick 1 (-1)) 0 (eye_rows 2) Ro lg a opt fo evn fuel) as X.
  cbv zeta in X. rewrite EN in X.
  destruct X as (r & a' & s' & A & u & R1 & _ & _ & R2 & R3 & _ & _ & _ & _ & R4);
    [exact Hlap|exact Ha|lia| | | |exact Hg| |exact Hfo|exact HS|exact H1|exact Hi|exact Hlf|exact Hfu|exact HM|exact L1|exact L2|exact E|now apply eye_posdef|].
  - intros i Hi'. rewrite HD. two i Hi'; reflexivity.
  - intros i Hi'. two i Hi'; cbn; lra.
  - exists 0%nat. split; [lia|]. cbn. lra.
  - intros q (Lq & Kq). destruct q as [|x [|y [|z q]]]; try discriminate. pose proof (Kq 0%nat ltac:(lia) eq_refl) as P0. pose proof (Kq 1%nat ltac:(lia) eq_refl) as P1. cbn in P0, P1.
    destruct (Hlin x y P0 P1) as (E1 & E2). rewrite E1, E2. unfold loglin_value, loglin_gradient. cbn. split; [ring|]. f_equal; [unfold Rdiv; ring|f_equal; unfold Rdiv; ring].
  - assert (PR := log_pos mR sR HmR HsR). assert (PS := log_pos mS sS HmS HsS). fold VR in PR. fold VS in PS.
    assert (QR := log_sd_sq mR sR HmR HsR). assert (QS := log_sd_sq mS sS HmS HsS). fold VR in QR. fold VS in QS.
    assert (GR : 0 < 1 + VR ^ 2) by (assert (0 <= VR ^ 2) by apply pow2_ge_0; lra). assert (GS : 0 < 1 + VS ^ 2) by (assert (0 <= VS ^ 2) by apply pow2_ge_0; lra).
    assert (BE : (0 + fsum 2 (fun i => pick 1 (-1) i * term_mean (fun _ => true) (pick mR mS) (pick sR sS) i)) /
       sqrt (fsum 2 (fun i => fsum 2 (fun j => (pick 1 (-1) i * term_sd (fun _ => true) (pick mR mS) (pick sR sS) i) * Ro i j * (pick 1 (-1) j * term_sd (fun _ => true) (pick mR mS) (pick sR sS) j)))) = beta).
    { unfold beta. f_equal.
      - cbn [fsum pick]. unfold term_mean. cbn [pick]. unfold log_mean. rewrite QR, QS.
        rewrite ln_mult; [|now apply Rdiv_lt_0_compat|apply sqrt_lt_R0; now apply Rdiv_lt_0_compat].
        assert (HQ : ln (sqrt ((1 + VS ^ 2) / (1 + VR ^ 2))) = (ln (1 + VS ^ 2) - ln (1 + VR ^ 2)) / 2).
        { assert (PQ : 0 < (1 + VS ^ 2) / (1 + VR ^ 2)) by now apply Rdiv_lt_0_compat. pose proof (sqrt_lt_R0 _ PQ) as SQ.
          rewrite <- (ln_div _ _ GS GR). rewrite <- (sqrt_sqrt _ (Rlt_le _ _ PQ)) at 2. rewrite ln_mult by exact SQ. field. }
        rewrite HQ, ln_div by assumption. field.
      - f_equal. rewrite (ln_mult _ _ GR GS), <- QR, <- QS. cbn [fsum pick]. rewrite !EI by lia. unfold delta, term_sd. cbn [Nat.eqb pick pow]. ring. }
    rewrite BE in R2, R3. exists r, a', s'. split; [exact R1|]. split; [exact R2|]. split; [exact R3|].
    intros Hne. apply R4. unfold loglin_value. cbn. intros Z. apply Hne. apply ln_inv; [assumption|assumption|]. lra.
Qed.
Print Assumptions C104_lognormal_pair.

(** *** R ~ LN(3, 1), S ~ LN(1, 1): beta = ln(3 sqrt(9/5)) / sqrt(ln(20/9)) *)
Definition h_ln : list smop := [OpAdd (ODist (Lognormal "R" 3 1)); OpAdd (ODist (Lognormal "S" 1 1))].
Definition g_ln (kw : list (string * R)) : R := ln (lk kw "R") - ln (lk kw "S").
Definition gr_ln (kw : list (string * R)) : list R := [/ lk kw "R"; - / lk kw "S"].
Definition expr_ln : expression := fun kw =>
  let nc := match kw with [] => 0%nat | (_, v) :: _ => List.length v end in
  Ok (UTuple (Arr (map (fun c => g_ln (map (fun kv => (fst kv, nth c (snd kv) 0)) kw)) (seq 0 nc))) (gr_ln (map (fun kv => (fst kv, nth 0 (snd kv) 0)) kw))).
Lemma with_gradient_ln : with_gradient expr_ln g_ln gr_ln.
Proof.
  split.
  - intros kw nc Hne Hl. eexists. split; [reflexivity|]. destruct kw as [|[n v] kw]; [contradiction|]. cbn [value_of].
    rewrite (Hl n v) by (left; reflexivity). reflexivity.
  - intros kw Hne Hl. eexists. reflexivity.
Qed.
Example C104_example : forall fmin, exists r a' s',
  run_form fmin chol2 svd2 inv2 101 10 expr_ln (mkfo 100 (1 / 1000) (1 / 1000) 1 (mkopts "ddm" 1 1000 1000)) None aF (sm_run h_ln) = (a', s', FDone r) /\
  form_beta 2 r = Fin (ln (3 * sqrt (9 / 5)) / sqrt (ln (20 / 9))) /\ sm_calls s' = 2%nat.
Proof.
  intros fmin.
  destruct (C104_lognormal_pair fmin chol2 svd2 inv2 ERuntime h_ln expr_ln g_ln gr_ln 10 "R"%string "S"%string 3 1 1 1 aF None (mkfo 100 (1 / 1000) (1 / 1000) 1 (mkopts "ddm" 1 1000 1000)) None 101) as (r & a' & s' & R1 & R2 & _ & R4);
    try exact lapack2; try reflexivity; try exact with_gradient_ln; cbn [fo_step fo_e1 fo_imax]; try lra; try lia.
  - intros M [H|[H|[]]]; discriminate.
  - intros r s Hr Hs. unfold args_at. change (dists_of (accepted h_ln)) with [Lognormal "R" 3 1; Lognormal "S" 1 1]. change (consts_of (accepted h_ln)) with (@nil (string * R)).
    unfold g_ln, gr_ln, lk. split; reflexivity.
  - repeat split; cbn; try lra; lia.
  - exists r, a', s'. split; [exact R1|]. split; [|exact (R4 ltac:(lra))]. rewrite R2. f_equal. f_equal; [f_equal; f_equal; [field|f_equal; field]|f_equal; f_equal; field].
Qed.
