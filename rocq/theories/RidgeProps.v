(** Property theorems C127: FORM with full steps on functions of one (log-)linear combination, from the means. *)
From Coquelicot Require Import Coquelicot.
From Verif Require Import Base Ext Dict Gauss GaussProofs StochModel StochModelSpec StochModelProofs LimitState LimitStateSpec LimitStateProofs LimitStateProps Transf TransfSpec TransfProofs Form FormProofs FormAffineProofs FormNormalProofs FormProps FormNewtonProofs FormNewtonProps Nataf NatafProofs Dist DistProps RotProps Pipe PipeSpec PipeProofs PipeProps SormQuadSpec LogLin LogLinSpec LogLinProofs LogLinProps RidgeProofs.
From Coq Require Import ZArith Lra Lia.
Open Scope R_scope.

(** C127: C124 from any starting point u0: Newton's iteration from t_0 = a.u0. *)
Theorem C127_newton_any_start : forall n o ev trial evn a phi dphi fuel u0,
  dot n a a = 1 -> ridge_ev n a phi dphi ev -> fo_step o = 1 -> 0 < fo_e2 o -> fo_e1 o <= 1 -> (2 <= fo_imax o)%Z ->
  let t := newton_from phi dphi (dot n a u0) in
  phi (t 0%nat) <> 0 -> (forall k, (Z.of_nat (S k) <= fo_imax o)%Z -> dphi (t k) <> 0) ->
  (Z.to_nat (fo_imax o) <= fuel)%nat ->
  let ends k := Z.of_nat (S k) = fo_imax o \/ Rabs (phi (t k)) < fo_e1 o * Rabs (phi (t 0%nat)) in
  exists k r c u, form_run n o ev trial evn fuel u0 = (FDone r, c) /\ fr_i r = Z.of_nat (S k) /\ (1 <= k)%nat /\
    ends k /\ (forall j, (j < k)%nat -> ~ ends j) /\
    fr_G r = phi (t k) /\ fr_u r = Some u /\ veq n u (fun i => t k * a i) /\
    form_beta n r = Fin (if Rltb (dphi (t k)) 0 then t k else - t k).
Proof.
  intros n o ev trial evn a phi dphi fuel u0 Ua Hev Hs He2 He1 Hi t H0 Hd Hf ends.
  assert (D0 : dphi (t 0%nat) <> 0) by (apply Hd; lia). assert (N0 : ~ ends 0%nat).
  { intros [E|E]; [cbn in E; lia|]. assert (0 < Rabs (phi (t 0%nat))) by (apply Rabs_pos_lt, H0). nra. }
  set (t0 := dot n a u0) in *. change (t 0%nat) with t0 in *.
  destruct fuel as [|fuel]; [lia|]. destruct (Hev u0) as (g & kc & E & Eg). fold t0 in E, Eg.
  set (u1 := fun j => u0 j + fo_step o * search_dir n (phi t0) g u0 j).
  assert (U1 : veq n u1 (fun i => t 1%nat * a i)) by exact (step_any n o a phi Ua Hs (dphi t0) g u0 D0 Eg).
  destruct (loop_newton n o ev trial evn a phi dphi t0 Ua Hev Hs He2 H0 Hd (Z.to_nat (fo_imax o) - 2) 1 fuel (Some (phi t0)) u1 (phi t0) g (0 + kc + 0)%nat) as (K & r & c & u & L & LK & Ei & S & NS & EG & _ & Eu & V & Vg); [lia|lia|reflexivity|exact U1|].
  assert (EL : form_run n o ev trial evn (Datatypes.S fuel) u0 = form_loop n o ev trial evn fuel (Z.of_nat 2) (Some (phi t0)) (Some u1) (phi t0) g (0 + kc + 0)).
  { unfold form_run. cbn [form_loop]. rewrite E. cbn match.
    assert (Nz : Reqb (norm n g) 0 = false) by (rewrite (norm_ca n a Ua _ g Eg); destruct (Reqb (Rabs (dphi t0)) 0) eqn:Z; [apply Reqb_spec in Z; exfalso; exact (Rabs_no_R0 _ D0 Z)|reflexivity]). rewrite Nz.
    assert (C1 : xltb (e1_of (phi t0) (phi t0)) (Fin (fo_e1 o)) = false).
    { destruct (xltb (e1_of (phi t0) (phi t0)) (Fin (fo_e1 o))) eqn:C; [|reflexivity]. apply (e1_stop o phi t0 H0) in C. exfalso. apply N0. right. exact C. }
    rewrite C1. cbn [andb orb]. replace (1 =? fo_imax o)%Z with false by (symmetry; apply Z.eqb_neq; lia).
    assert (GS : getStepSize n o trial (phi t0) g u0 (search_dir n (phi t0) g u0) = (Ok (fo_step o), O)) by (unfold getStepSize; rewrite Hs; destruct (Reqb 1 0) eqn:Z; [apply Reqb_spec in Z; lra|reflexivity]).
    rewrite GS. reflexivity. }
  rewrite (L : _ = (FDone r, c)) in EL || (assert (EL' := eq_trans EL L); clear EL; rename EL' into EL). exists K, r, c, u. split; [exact EL|]. split; [exact Ei|]. split; [exact LK|]. split; [exact S|].
  split; [intros j Hj; destruct j as [|j]; [exact N0|apply NS; lia]|]. split; [exact EG|]. split; [exact Eu|]. split; [exact V|].
  fold t in V, Vg |- *. assert (Dk : dphi (t K) <> 0). { apply Hd. destruct (Z.eq_dec (fr_i r) (fo_imax o)); [lia|].  destruct (C21_converged_or_at_limit n o ev trial evn (Datatypes.S fuel) u0 r c EL) as [C _]. specialize (C ltac:(lia)). lia. }
  unfold form_beta. rewrite Eu. f_equal. rewrite (dot_alpha n a Ua (dphi (t K)) _ (t K) u Dk Vg V). destruct (Rltb (dphi (t K)) 0) eqn:LT.
  - apply Rltb_spec in LT. rewrite Rabs_left by exact LT. field. exact Dk.
  - assert (0 < dphi (t K)) by (destruct (Rtotal_order (dphi (t K)) 0) as [X|[X|X]]; [apply Rltb_spec in X; congruence|contradiction|exact X]). rewrite Rabs_right by lra. field. lra.
Qed.
Print Assumptions C127_newton_any_start.

Section RL.
Variables (fmin : (R -> R) -> R -> R) (chol : nat -> mat -> result mat) (svd : nat -> mat -> result (mat * vec)) (inv : nat -> mat -> result mat) (e0 : exn).
Variables (h : list smop) (expr : expression) (f : list (string * R) -> R) (gr : list (string * R) -> list R) (lf : nat) (lg : nat -> bool) (nm : nat -> string) (mu sd cf : vec) (c0 : R) (psi dpsi : R -> R).
Variables (M : list (list R)) (Ro : mat) (log : list (nat * nat)) (a : fobj) (opt : option string) (fo : form_opts).
Let n := ndists h.
Let s := sm_run h.
Hypothesis Hlap : lapack n chol svd inv e0.
Hypothesis Ha : form_init opt = Ok a.
Hypothesis Hn : (1 <= n)%nat.
Hypothesis HN : forall i, (i < n)%nat -> nth_error (dists_of (accepted h)) i = Some (variable lg nm mu sd i).
Hypothesis Hok : forall i, (i < n)%nat -> moments_ok lg mu sd i.
Hypothesis Hcf : exists i, (i < n)%nat /\ cf i <> 0.
Hypothesis Hg : with_gradient expr f gr.
Hypothesis Hrd : forall q, in_domain n lg q -> let l := loglin_value n lg c0 cf q in f (args_at h q) = psi l /\ gr (args_at h q) = map (Rmult (dpsi l)) (loglin_gradient n lg cf q).
Hypothesis Hfo : ddm_base fo.
Hypothesis Hlf : (6 < lf)%nat.
Hypothesis HRo : computeModifiedCorrelationMatrix fmin n n (mat_of M) (fun i => marg_of (marg_at s i)) = Ok (Ro, log).
Hypothesis HPD : pos_def n Ro.
Let b := c0 + fsum n (fun i => cf i * term_mean lg mu sd i).
Let v := fsum n (fun i => fsum n (fun j => (cf i * term_sd lg mu sd i) * Ro i j * (cf j * term_sd lg mu sd j))).
Lemma ri_all : 0 < v /\ exists T A,
  transf_compute chol svd inv (fb_type a) n (mat_of (rows_of n Ro)) = Ok (T, A) /\ inverse_pair n T A /\ factor_of n A Ro /\
  let av := fun j => - fsum n (fun i => cf i * term_sd lg mu sd i * A i j) in
  norm n av = sqrt v /\
  ridge_of n av b psi dpsi (form_ev lf s expr (fo_ls fo) n T A inv (marg_at s)) /\
  b - dot n av (computeStartingPoint n T (marg_at s)) = loglin_value n lg c0 cf (map mu (seq 0 n)).
Proof.
  assert (VP : 0 < v).
  { apply HPD. destruct Hcf as (i & Hi & Hc). exists i. split; [exact Hi|]. apply Rmult_integral_contrapositive_currified; [exact Hc|]. now apply term_sd_nz, Hok. }
  split; [exact VP|].
  destruct (ln_factor fmin chol svd inv e0 h M Ro log a opt Hlap Ha HRo HPD) as (T & A & ET & HT & HF). fold n in ET, HT, HF.
  exists T, A. split; [exact ET|]. split; [exact HT|]. split; [exact HF|]. intros av.
  destruct Hfo as (Hd & Hmp & Hbs & He1 & He2). destruct Hlap as (_ & _ & (I1 & I2 & I3) & _).
  assert (LM : forall i, (i < n)%nat -> marg_at s i = variable lg nm mu sd i) by exact (lo_marg h lg nm mu sd HN).
  set (ph := fun i x => if lg i then ln x else x). set (dph := fun (i : nat) (x : R) => if lg i then / x else 1).
  assert (HQ : forall q, length q = n -> (forall i, (i < n)%nat -> lg i = true -> 0 < nth i q 0) ->
    let l := c0 + fsum n (fun i => cf i * ph i (nth i q 0)) in
    f (args_at h q) = psi l /\ gr (args_at h q) = map (fun i => dpsi l * (cf i * dph i (nth i q 0))) (seq 0 n)).
  { intros q L K. destruct (Hrd q (conj L K)) as (E1 & E2). cbv zeta. split; [exact E1|]. rewrite E2. unfold loglin_gradient. rewrite map_map. apply map_ext. intros i. fold (loglin_value n lg c0 cf q). unfold ph, dph, loglin_value. destruct (lg i); unfold Rdiv; ring. }
  assert (HMg : forall i z, (i < n)%nat -> let x := rv_u2x (marg_at s i) z in
    (lg i = true -> 0 < x) /\ ph i x = term_mean lg mu sd i + term_sd lg mu sd i * z /\ rv_jac (marg_at s i) z x <> 0 /\ dph i x * / rv_jac (marg_at s i) z x = term_sd lg mu sd i).
  { intros i z Hi. rewrite (LM i Hi). exact (term_ok lg nm mu sd i z (Hok i Hi)). }
  split; [|split].
  - unfold norm, dot, v. f_equal. rewrite <- (quad_norm n A Ro _ HF). apply fsum_ext. intros k _. unfold av. ring.
  - apply (RidgeProofs.l_ev h expr f gr (fo_ls fo) lf T A inv (marg_at s) c0 cf (term_mean lg mu sd) (term_sd lg mu sd) (fun i x => lg i = true -> 0 < x) ph dph); try assumption. 
  - set (u0 := computeStartingPoint n T (marg_at s)).
    assert (Z : forall i, (i < n)%nat -> mvec n A u0 i = rv_x2u (marg_at s i) (rv_start (marg_at s i))).
    { intros i Hi. unfold u0, computeStartingPoint, x_to_u. cbv zeta. rewrite <- mvec_mmul. destruct HT as (_ & HT2).
      rewrite (mvec_meq n _ _ _ i HT2 Hi). now rewrite mvec_eye by exact Hi. }
    unfold loglin_value, b. rewrite (fsum_ext n (fun i => cf i * (if lg i then ln (nth i (map mu (seq 0 n)) 0) else nth i (map mu (seq 0 n)) 0)) (fun i => cf i * term_mean lg mu sd i + fsum n (fun j => cf i * term_sd lg mu sd i * A i j * u0 j))).
    + rewrite fsum_plus. unfold av, dot. rewrite fsum_swap.
      rewrite (fsum_ext n (fun j => - fsum n (fun i => cf i * term_sd lg mu sd i * A i j) * u0 j) (fun j => - fsum n (fun i => cf i * term_sd lg mu sd i * A i j * u0 j))).
      * rewrite fsum_opp. ring.
      * intros j _. rewrite fsum_scal_r. ring.
    + intros i Hi. rewrite nth_map_seq by exact Hi. pose proof (start_mean lg nm mu sd i (Hok i Hi)) as SM. cbv zeta in SM. rewrite <- (LM i Hi), <- (Z i Hi) in SM. rewrite SM.
      rewrite Rmult_plus_distr_l. f_equal. unfold mvec. rewrite <- !fsum_scal. apply fsum_ext. intros; ring.
Qed.
End RL.

(** C127: a limit state psi(L) of one combination L that is linear in ln X of the lognormal and in X
    of the normal variables: with full steps FORM is Newton's method for psi(y) = 0 started at the
    value y_0 of L at the means, and reports (E L - y_k) / sd L (with the sign of psi'). *)
Theorem C127_function_of_loglinear :
  forall fmin chol svd inv e0 h expr f gr lf lg nm (mu sd cf : vec) c0 psi dpsi M Ro log a opt fo evn fuel,
  let n := ndists h in let s := sm_run h in
  lapack n chol svd inv e0 -> form_init opt = Ok a -> (1 <= n)%nat ->
  (forall i, (i < n)%nat -> nth_error (dists_of (accepted h)) i = Some (variable lg nm mu sd i)) ->
  (forall i, (i < n)%nat -> moments_ok lg mu sd i) -> (exists i, (i < n)%nat /\ cf i <> 0) ->
  with_gradient expr f gr ->
  (forall q, in_domain n lg q -> let l := loglin_value n lg c0 cf q in
     f (args_at h q) = psi l /\ gr (args_at h q) = map (Rmult (dpsi l)) (loglin_gradient n lg cf q)) ->
  ddm_base fo -> fo_step fo = 1 -> fo_e1 fo <= 1 -> (2 <= fo_imax fo)%Z ->
  (6 < lf)%nat -> (Z.to_nat (fo_imax fo) <= fuel)%nat ->
  sm_corr s = Some M -> length M = n -> (forall r, In r M -> length r = n) ->
  computeModifiedCorrelationMatrix fmin n n (mat_of M) (fun i => marg_of (marg_at s i)) = Ok (Ro, log) -> pos_def n Ro ->
  let tm := term_mean lg mu sd in let ts := term_sd lg mu sd in
  let mean := c0 + fsum n (fun i => cf i * tm i) in
  let variance := fsum n (fun i => fsum n (fun j => (cf i * ts i) * Ro i j * (cf j * ts j))) in
  let y := newton_from psi dpsi (loglin_value n lg c0 cf (map mu (seq 0 n))) in
  psi (y 0%nat) <> 0 -> (forall k, (Z.of_nat (S k) <= fo_imax fo)%Z -> dpsi (y k) <> 0) ->
  let ends k := Z.of_nat (S k) = fo_imax fo \/ Rabs (psi (y k)) < fo_e1 fo * Rabs (psi (y 0%nat)) in
  0 < variance /\
  exists k r a' s', run_form fmin chol svd inv fuel lf expr fo evn a s = (a', s', FDone r) /\
    fb_res a' = Some r /\ (1 <= k)%nat /\ fr_i r = Z.of_nat (S k) /\ sm_calls s' = (sm_calls s + S k)%nat /\
    ends k /\ (forall j, (j < k)%nat -> ~ ends j) /\ fr_G r = psi (y k) /\
    let beta := (if Rltb 0 (dpsi (y k)) then 1 else -1) * (mean - y k) / sqrt variance in
    form_beta n r = Fin beta /\ form_Pf n r = Fin (Phi (- beta)).
Proof.
  intros fmin chol svd inv e0 h expr f gr lf lg nm mu sd cf c0 psi dpsi M Ro log a opt fo evn fuel n s Hlap Ha Hn HN Hok Hcf Hg Hrd Hfo HS H1 Hi Hlf Hfu HM HM1 HM2 HRo HPD tm ts mean variance y Hp0 Hdy ends.
  destruct (ri_all fmin chol svd inv e0 h expr f gr lf lg nm mu sd cf c0 psi dpsi M Ro log a opt fo Hlap Ha Hn HN Hok Hcf Hg Hrd Hfo Hlf HRo HPD) as (VP & T & A & ET & HT & HF & EN & EA & E0).
  cbv zeta in EN, EA, E0. fold n s in EN, EA, E0, VP, ET, HT, HF. fold tm ts in EN, EA, E0, VP. fold mean in EA, E0. fold variance in EN, VP.
  set (av := fun j => - fsum n (fun i => cf i * ts i * A i j)) in *. split; [exact VP|].
  assert (SV := sqrt_lt_R0 _ VP). assert (EM : length (sm_marg s) = n) by (destruct (registry h) as (_ & _ & X & _); unfold s; rewrite X; reflexivity).
  set (q := sqrt variance) in *. set (aa := fun i => av i / q). set (u0 := computeStartingPoint n T (marg_at s)) in *.
  set (phi := fun t => psi (mean - q * t)). set (dphi := fun t => - q * dpsi (mean - q * t)).
  assert (AV : dot n av av = q * q). { rewrite <- EN. unfold norm. rewrite sqrt_sqrt; [reflexivity|apply dot_self_nonneg]. }
  assert (DA : forall w, dot n aa w = dot n av w / q). { intros w. unfold aa, dot. unfold Rdiv. rewrite <- fsum_scal_r. apply fsum_ext. intros; ring. }
  assert (UA : dot n aa aa = 1). { rewrite DA. unfold aa, dot. rewrite (fsum_ext n _ (fun i => av i * av i * / q)) by (intros; unfold Rdiv; ring). rewrite fsum_scal_r. fold (dot n av av). rewrite AV. field. lra. }
  assert (RE : ridge_ev n aa phi dphi (form_ev lf s expr (fo_ls fo) n T A inv (marg_at s))).
  { intros u. destruct (EA u) as (g & kc & E & Eg). assert (Q : mean - q * dot n aa u = mean - dot n av u) by (rewrite DA; field; lra). exists g, kc. unfold phi, dphi. rewrite Q. split; [exact E|].
    intros i Hi'. rewrite (Eg i Hi'). unfold aa. field. lra. }
  assert (NT : forall k, mean - q * newton_from phi dphi (dot n aa u0) k = y k).
  { induction k; [cbn; rewrite DA; fold (loglin_value n lg c0 cf (map mu (seq 0 n))); rewrite <- E0; field; lra|].
    set (tk := newton_from phi dphi (dot n aa u0) k) in *.
    assert (S1 : newton_from phi dphi (dot n aa u0) (S k) = tk - phi tk / dphi tk) by reflexivity.
    assert (S2 : y (S k) = y k - psi (y k) / dpsi (y k)) by reflexivity.
    rewrite S1, S2. assert (P1 : phi tk = psi (y k)) by (unfold phi at 1; rewrite IHk; reflexivity). assert (P2 : dphi tk = - q * dpsi (y k)) by (unfold dphi at 1; rewrite IHk; reflexivity). rewrite P1, P2, <- IHk. rewrite IHk. 
    destruct (Req_dec (dpsi (y k)) 0) as [Z|Z]; [rewrite Z; replace (- q * 0) with 0 by ring; unfold Rdiv; rewrite !Rinv_0, !Rmult_0_r, !Rminus_0_r; exact IHk|].
    set (P := psi (y k)). set (D := dpsi (y k)) in *. replace (mean - q * (tk - P / (- q * D))) with (mean - q * tk - P / D) by (field; split; [exact Z|lra]). rewrite IHk. reflexivity. }
  assert (PT : forall k, phi (newton_from phi dphi (dot n aa u0) k) = psi (y k)) by (intros k; unfold phi at 1; rewrite NT; reflexivity).
  assert (DT : forall k, dphi (newton_from phi dphi (dot n aa u0) k) = - q * dpsi (y k)) by (intros k; unfold dphi at 1; rewrite NT; reflexivity).
  destruct (C127_newton_any_start n fo _ (form_trial lf s expr (fo_ls fo) n A (marg_at s)) evn aa phi dphi fuel u0 UA RE HS (proj2 (proj2 (proj2 (proj2 Hfo)))) H1 Hi) as (k & r & c & u & E & Ei & K1 & En & Ne & EG & Eu & V & EB).
  { rewrite PT. exact Hp0. }
  { intros k Hk. rewrite DT. specialize (Hdy k Hk). intros Z. apply Rmult_integral in Z. lra. }
  { exact Hfu. }
  rewrite !PT in En. rewrite PT in EG.
  assert (Ne' : forall j, (j < k)%nat -> ~ ends j) by (intros j Hj; specialize (Ne j Hj); rewrite !PT in Ne; exact Ne). clear Ne.
  destruct (C92_run_composition fmin chol svd inv s M n Ro log T A fuel lf expr fo evn a HM HM1 HM2 EM HRo ET) as (c' & a' & R1 & R2 & R3 & R4 & R5).
  assert (EF : form_from n fo evn fuel lf s expr T A inv (marg_at s) = (FDone r, c)) by exact E.
  rewrite EF in R1. injection R1 as Er Ec. subst c'.
  destruct (run_form fmin chol svd inv fuel lf expr fo evn a s) as [[a1 s1] out1] eqn:ER. cbn [fst snd] in R2, R5, Er. subst out1. injection R2 as -> ->.
  exists k, r, a', (addCallFunction (setModifiedCorrelation s (rows_of n Ro)) c). split; [reflexivity|]. split; [exact R5|]. split; [exact K1|]. split; [exact Ei|]. split.
  { destruct Hfo as (Hd & Hmp & Hbs & _). unfold form_from in EF. assert (CC := C68_form_function_calls fuel s expr n T A inv (marg_at s) fo evn lf _ r c ltac:(lia) EF). cbv zeta in CC.
    rewrite Hd, HS, Ei in CC. cbn [String.eqb Ascii.eqb Bool.eqb] in CC. replace (Reqb 1 0) with false in CC by (symmetry; apply Reqb_false; lra).
    cbn [addCallFunction setModifiedCorrelation sm_calls]. lia. }
  split; [exact En|]. split; [exact Ne'|]. split; [exact EG|].
  assert (Dk : dpsi (y k) <> 0). { apply Hdy. destruct (Z.eq_dec (fr_i r) (fo_imax fo)); [lia|]. destruct (C21_converged_or_at_limit n fo _ _ evn fuel u0 r c E) as [C _]. specialize (C ltac:(lia)). lia. }
  assert (EB' : form_beta n r = Fin ((if Rltb 0 (dpsi (y k)) then 1 else -1) * (mean - y k) / q)).
  { rewrite EB. f_equal. rewrite DT. specialize (NT k). set (tk := newton_from phi dphi (dot n aa u0) k) in *.
    assert (TK : tk = (mean - y k) / q) by (rewrite <- NT; field; lra).
    destruct (Rltb 0 (dpsi (y k))) eqn:L1; destruct (Rltb (- q * dpsi (y k)) 0) eqn:L2; try (rewrite TK; field; lra); exfalso.
    - apply Rltb_spec in L1. apply Bool.not_true_iff_false in L2. apply L2, Rltb_spec. clear - L1 SV. nra.
    - apply Rltb_spec in L2. apply Bool.not_true_iff_false in L1. apply L1, Rltb_spec. destruct (Rtotal_order (dpsi (y k)) 0) as [X|[X|X]]; [|contradiction|exact X]. exfalso. clear - L2 SV X. nra. }
  cbv zeta. split; [exact EB'|]. unfold form_Pf. rewrite EB'. reflexivity.
Qed.
Print Assumptions C127_function_of_loglinear.

(** *** Newton's method for kappa (e^y - 1) = 0 *)
Definition prod_psi (kappa y : R) : R := kappa * (exp y - 1).
Definition prod_dpsi (kappa y : R) : R := kappa * exp y.

Section PN.
  Variables (kappa y0 : R).
  Hypothesis Hk : kappa <> 0.
  Hypothesis Hy : y0 <> 0.
  Let y := newton_from (prod_psi kappa) (prod_dpsi kappa) y0.
  Lemma pn_step k : y (S k) = y k - 1 + exp (- y k).
  Proof.
    change (y (S k)) with (y k - prod_psi kappa (y k) / prod_dpsi kappa (y k)). unfold prod_psi, prod_dpsi.
    pose proof (exp_pos (y k)) as P. rewrite exp_Ropp. field. split; lra.
  Qed.
  Lemma exp_gt1 x : x <> 0 -> 1 + x < exp x.
  Proof. exact (exp_ineq1 x). Qed.
  Lemma pn_pos k : y k <> 0 -> 0 < y (S k).
  Proof. intros H. rewrite pn_step. pose proof (exp_gt1 (- y k) ltac:(lra)). lra. Qed.
  Lemma pn_pos' k : (1 <= k)%nat -> 0 < y k.
  Proof. induction k as [|k IH]; [lia|intros _]. apply pn_pos. destruct k; [exact Hy|specialize (IH ltac:(lia)); lra]. Qed.
  Lemma pn_lower k : y 1%nat - INR k <= y (S k).
  Proof. induction k as [|k IH]; [cbn; lra|]. rewrite (pn_step (S k)), S_INR. pose proof (exp_pos (- y (S k))). lra. Qed.
  Lemma exp_quad t : 0 <= t -> exp (- t) <= 1 - t + t * t / 2.
  Proof.
    intros Ht. destruct (Req_dec t 0) as [->|N]; [rewrite Ropp_0, exp_0; lra|].
    set (f := fun x => 1 - x + x * x / 2 - exp (- x)).
    assert (D : forall x, is_derive f x (- 1 + x + exp (- x))) by (intros x; unfold f; auto_derive; [trivial|field]).
    destruct (MVT_cor4 f (fun x => - 1 + x + exp (- x)) 0 (mkposreal (t + 1) ltac:(lra))) with (b := t) as (c & E & B).
    - intros c _. apply D.
    - cbn. rewrite Rminus_0_r, Rabs_pos_eq; lra.
    - unfold f in E. rewrite !Rminus_0_r, Ropp_0, exp_0 in E. pose proof (exp_ineq1_le (- c)). nra.
  Qed.
  Lemma pn_quad k : 0 <= y k -> y (S k) <= y k * y k / 2.
  Proof. intros H. rewrite pn_step. pose proof (exp_quad (y k) H). lra. Qed.
  Lemma pn_mono k : 0 < y k -> y (S k) < y k.
  Proof. intros H. rewrite pn_step. assert (exp (- y k) < exp 0) by (apply exp_increasing; lra). rewrite exp_0 in H0. lra. Qed.
  Lemma exp_half x : 1 <= x -> exp (- x) <= 1 / 2.
  Proof.
    intros H. assert (E : exp (- x) * exp x = 1) by (rewrite <- exp_plus; replace (- x + x) with 0 by ring; apply exp_0).
    pose proof (exp_ineq1_le x). pose proof (exp_pos (- x)). nra.
  Qed.
  Lemma pn_linear : 0 < y0 -> forall k, 0 < y k /\ y k <= Rmax 1 (y0 - INR k / 2) /\ y k <= y0.
  Proof.
    intros P. induction k as [|k (A & B & C)].
    - change (y 0%nat) with y0. split; [exact P|]. cbn [INR]. split; [|lra]. eapply Rle_trans; [|apply Rmax_r]. lra.
    - assert (P1 : 0 < y (S k)) by (apply pn_pos; lra). assert (M := pn_mono k A). split; [exact P1|]. split; [|lra].
      destruct (Rle_lt_dec (y k) 1) as [L|L]; [eapply Rle_trans; [|apply Rmax_l]; lra|].
      rewrite pn_step, S_INR. pose proof (exp_half (y k) ltac:(lra)).
      destruct (Rle_lt_dec 1 (y0 - INR k / 2)) as [Q|Q]; [rewrite Rmax_right in B by exact Q|rewrite Rmax_left in B by lra; lra].
      eapply Rle_trans; [|apply Rmax_r]. lra.
  Qed.
  (** within 2 y_0 + 4 steps the residual is below 10^-3 of the first *)
  Lemma pn_fast : 0 < y0 -> exists k, INR k <= Rmax 0 (2 * y0 - 1) + 4 /\ exp (y k) - 1 < / 1000 * (exp y0 - 1).
  Proof.
    intros P. set (N := Z.to_nat (up (2 * (y0 - 1)))).
    destruct (archimed (2 * (y0 - 1))) as (U1 & U2).
    assert (BN : INR N <= Rmax 0 (2 * y0 - 1) /\ y N <= 1).
    { destruct (Z_lt_le_dec (up (2 * (y0 - 1))) 0) as [L|L].
      - assert (N = 0)%nat by (unfold N; lia). assert (IZR (up (2 * (y0 - 1))) <= IZR (-1)) by (apply IZR_le; lia). rewrite H. cbn [INR]. split; [apply Rmax_l|]. change (y 0%nat) with y0. lra.
      - assert (EN : INR N = IZR (up (2 * (y0 - 1)))) by (rewrite INR_IZR_INZ; unfold N; rewrite Z2Nat.id by lia; reflexivity).
        rewrite EN. split; [eapply Rle_trans; [|apply Rmax_r]; lra|]. destruct (pn_linear P N) as (_ & B & _). rewrite EN in B. rewrite Rmax_left in B by lra. exact B. }
    destruct BN as (BN & Y1). exists (N + 4)%nat. split; [rewrite plus_INR; cbn [INR]; lra|].
    destruct (pn_linear P N) as (A & _ & C).
    assert (R4 : y (N + 4)%nat <= y N / 2000).
    { replace (N + 4)%nat with (S (S (S (S N)))) by lia.
      assert (P1 := proj1 (pn_linear P (S N))). assert (P2 := proj1 (pn_linear P (S (S N)))). assert (P3 := proj1 (pn_linear P (S (S (S N))))).
      assert (Q1 := pn_quad N ltac:(lra)). assert (Q2 := pn_quad (S N) ltac:(lra)). assert (Q3 := pn_quad (S (S N)) ltac:(lra)). assert (Q4 := pn_quad (S (S (S N))) ltac:(lra)).
      set (a1 := y (S N)) in *. set (a2 := y (S (S N))) in *. set (a3 := y (S (S (S N)))) in *. set (a4 := y (S (S (S (S N))))) in *. set (a0 := y N) in *.
      clearbody a0 a1 a2 a3 a4. clear - A Y1 P1 P2 P3 Q1 Q2 Q3 Q4.
      assert (B1 : a1 <= 1 / 2) by nra. assert (B1' : a1 <= a0 / 2) by nra. assert (B2 : a2 <= a0 / 8) by nra. assert (B2' : a2 <= 1 / 8) by nra.
      assert (B3 : a3 <= a0 / 128) by nra. assert (B3' : a3 <= 1 / 128) by nra. nra. }
    destruct (pn_linear P (N + 4)) as (A4 & _ & C4). set (z := y (N + 4)%nat) in *.
    assert (Z0 : z <= y0 / 2000) by lra.
    (* e^z - 1 <= 2 z for z <= 1/2, and y0 <= e^y0 - 1 *)
    pose proof (exp_ineq1_le y0) as I0. assert (z <= 1 / 2000) by (assert (y N / 2000 <= 1 / 2000) by lra; lra).
    assert (EZ : exp z - 1 < 2 * z).
    { pose proof (exp_ineq1_le (- z)) as I1. assert (E : exp (- z) * exp z = 1) by (rewrite <- exp_plus; replace (- z + z) with 0 by ring; apply exp_0). pose proof (exp_pos z). 
      assert (exp z * (1 - z) <= 1) by nra. assert (1 < (1 + 2 * z) * (1 - z)) by (clear - A4 H; nra). destruct (Rle_lt_dec (1 + 2 * z) (exp z)); [exfalso; clear - r H1 H2 H; nra|lra]. }
    lra.
  Qed.
End PN.

(** exp(L) is the product of powers exp(c0) * x_1^{q_1} * ... when all variables are lognormal *)
Lemma exp_loglin n c0 cf q : (forall i, (i < n)%nat -> 0 < nth i q 0) ->
  exp (loglin_value n (fun _ => true) c0 cf q) = exp c0 * fold_right Rmult 1 (map (fun i => Rpower (nth i q 0) (cf i)) (seq 0 n)).
Proof.
  intros _. unfold loglin_value. rewrite exp_plus. f_equal. assert (G : forall m l, exp (fsum m (fun i => cf i * ln (nth i q 0))) * fold_right Rmult 1 l = fold_right Rmult 1 (map (fun i => Rpower (nth i q 0) (cf i)) (seq 0 m) ++ l)).
  { induction m as [|m IH]; intros l; [cbn; rewrite exp_0; ring|]. rewrite seq_S, map_app, <- app_assoc. cbn [map app Nat.add]. rewrite <- IH. cbn [fold_right]. change (fsum (S m) (fun i => cf i * ln (nth i q 0))) with (fsum m (fun i => cf i * ln (nth i q 0)) + cf m * ln (nth m q 0)). rewrite exp_plus. unfold Rpower. ring. }
  specialize (G n []). cbn [fold_right] in G. rewrite app_nil_r in G. rewrite <- G. ring.
Qed.

(** C127: G = kappa (e^L - 1), e.g. a product of powers of lognormal variables against a limit.  With
    full steps the error of the reported index has one sign, whichever side the means are on: it is
    below the exact index of the margin if kappa > 0 and above it if kappa < 0.  If the means are on
    the side L > 0 a run with the default e1 = 10^-3 stops within 2 y_0 + 5 iterations with the error
    below e1 (e^{y_0} - 1) / sd; if they are on the side L < 0 the first step overshoots to
    e^{-y_0} + y_0 - 1 and later steps come back by less than 1 each. *)
Theorem C127_product :
  forall fmin chol svd inv e0 h expr f gr lf lg nm (mu sd cf : vec) c0 kappa M Ro log a opt fo evn fuel,
  let n := ndists h in let s := sm_run h in
  lapack n chol svd inv e0 -> form_init opt = Ok a -> (1 <= n)%nat ->
  (forall i, (i < n)%nat -> nth_error (dists_of (accepted h)) i = Some (variable lg nm mu sd i)) ->
  (forall i, (i < n)%nat -> moments_ok lg mu sd i) -> (exists i, (i < n)%nat /\ cf i <> 0) ->
  with_gradient expr f gr ->
  (forall q, in_domain n lg q -> let l := loglin_value n lg c0 cf q in
     f (args_at h q) = kappa * (exp l - 1) /\ gr (args_at h q) = map (Rmult (kappa * exp l)) (loglin_gradient n lg cf q)) ->
  ddm_base fo -> fo_step fo = 1 -> fo_e1 fo <= 1 -> (2 <= fo_imax fo)%Z ->
  (6 < lf)%nat -> (Z.to_nat (fo_imax fo) <= fuel)%nat ->
  sm_corr s = Some M -> length M = n -> (forall r, In r M -> length r = n) ->
  computeModifiedCorrelationMatrix fmin n n (mat_of M) (fun i => marg_of (marg_at s i)) = Ok (Ro, log) -> pos_def n Ro ->
  let tm := term_mean lg mu sd in let ts := term_sd lg mu sd in
  let mean := c0 + fsum n (fun i => cf i * tm i) in
  let variance := fsum n (fun i => fsum n (fun j => (cf i * ts i) * Ro i j * (cf j * ts j))) in
  let y0 := loglin_value n lg c0 cf (map mu (seq 0 n)) in
  kappa <> 0 -> y0 <> 0 ->
  let side := if Rltb 0 kappa then 1 else -1 in
  let exact := side * mean / sqrt variance in
  0 < variance /\
  exists y r a' s', run_form fmin chol svd inv fuel lf expr fo evn a s = (a', s', FDone r) /\
    fb_res a' = Some r /\ fr_G r = kappa * (exp y - 1) /\ 0 < y /\
    form_beta n r = Fin (exact - side * (y / sqrt variance)) /\
    form_Pf n r = Fin (Phi (- (exact - side * (y / sqrt variance)))) /\
    (fr_i r <> fo_imax fo -> exp y - 1 < fo_e1 fo * Rabs (exp y0 - 1)) /\
    (0 < y0 -> fo_e1 fo = / 1000 -> 2 * y0 + 5 < IZR (fo_imax fo) -> IZR (fr_i r) <= Rmax 0 (2 * y0 - 1) + 5 /\ fr_i r <> fo_imax fo) /\
    (y0 < 0 -> exp (- y0) + y0 + 1 - IZR (fo_imax fo) <= y).
Proof.
  intros fmin chol svd inv e0 h expr f gr lf lg nm mu sd cf c0 kappa M Ro log a opt fo evn fuel n s Hlap Ha Hn HN Hok Hcf Hg Hrd Hfo HS H1 Hi Hlf Hfu HM HM1 HM2 HRo HPD tm ts mean variance y0 Hk Hy side exact.
  assert (EN0 : forall y, y <> 0 -> prod_psi kappa y <> 0).
  { intros y Ny Z. unfold prod_psi in Z. apply Rmult_integral in Z as [Z|Z]; [contradiction|]. apply Ny. apply exp_inv. rewrite exp_0. lra. }
  assert (DN : forall y, prod_dpsi kappa y <> 0) by (intros y; unfold prod_dpsi; apply Rmult_integral_contrapositive_currified; [exact Hk|pose proof (exp_pos y); lra]).
  destruct (C127_function_of_loglinear fmin chol svd inv e0 h expr f gr lf lg nm mu sd cf c0 (prod_psi kappa) (prod_dpsi kappa) M Ro log a opt fo evn fuel Hlap Ha Hn HN Hok Hcf Hg Hrd Hfo HS H1 Hi Hlf Hfu HM HM1 HM2 HRo HPD (EN0 _ Hy) (fun k _ => DN _)) as (VP & k & r & a' & s' & R1 & R2 & K1 & Ei & _ & En & Ne & EG & EB & EP).
  fold n s tm ts in VP, En, Ne, EG, EB, EP. fold mean variance in VP, EB, EP. fold y0 in En, Ne, EG, EB, EP. split; [exact VP|].
  set (y := newton_from (prod_psi kappa) (prod_dpsi kappa) y0) in *. change (y 0%nat) with y0 in *.
  assert (SV := sqrt_lt_R0 _ VP).
  assert (YP : 0 < y k) by exact (pn_pos' kappa y0 Hk Hy k K1).
  assert (AB : forall z, Rabs (prod_psi kappa z) = Rabs kappa * Rabs (exp z - 1)) by (intros z; unfold prod_psi; apply Rabs_mult).
  assert (AP : forall z, 0 < z -> Rabs (exp z - 1) = exp z - 1) by (intros z Hz; apply Rabs_pos_eq; assert (exp 0 < exp z) by (apply exp_increasing, Hz); rewrite exp_0 in H; lra).
  assert (KP : 0 < Rabs kappa) by (apply Rabs_pos_lt, Hk).
  assert (SD : (if Rltb 0 (prod_dpsi kappa (y k)) then 1 else -1) = side).
  { unfold side, prod_dpsi. pose proof (exp_pos (y k)) as PE. destruct (Rltb 0 kappa) eqn:L1; destruct (Rltb 0 (kappa * exp (y k))) eqn:L2; try reflexivity; exfalso.
    - apply Rltb_spec in L1. apply Bool.not_true_iff_false in L2. apply L2, Rltb_spec. apply Rmult_lt_0_compat; assumption.
    - apply Rltb_spec in L2. apply Bool.not_true_iff_false in L1. apply L1, Rltb_spec. clear - L2 PE. destruct (Rlt_le_dec 0 kappa); [assumption|exfalso; nra]. }
  cbv zeta in EB, EP. rewrite SD in EB, EP.
  assert (EX : side * (mean - y k) / sqrt variance = exact - side * (y k / sqrt variance)) by (unfold exact; field; lra). rewrite EX in EB, EP.
  exists (y k), r, a', s'. split; [exact R1|]. split; [exact R2|]. split; [exact EG|]. split; [exact YP|]. split; [exact EB|]. split; [exact EP|].
  split; [|split].
  - intros Hne. destruct En as [En|En]; [exfalso; apply Hne; lia|]. rewrite !AB, (AP _ YP) in En. clear - En KP. set (K := Rabs kappa) in *. clearbody K. set (X := exp (y k) - 1) in *. set (Y := Rabs (exp y0 - 1)) in *. 
    destruct (Rlt_le_dec X (fo_e1 fo * Y)) as [Q|Q]; [exact Q|exfalso; nra].
  - intros P0 Ee Hi'. destruct (pn_fast kappa y0 Hk Hy P0) as (m & M1 & M2). fold y in M2.
    assert (E1 : Rabs (prod_psi kappa (y m)) < fo_e1 fo * Rabs (prod_psi kappa y0)).
    { destruct (pn_linear kappa y0 Hk Hy P0 m) as (Pm & _). fold y in Pm. rewrite !AB, (AP _ Pm), (AP _ P0), Ee. clear - KP M2. set (K := Rabs kappa) in *. nra. }
    assert (KM : (k <= m)%nat). { destruct (Nat.le_gt_cases k m) as [Q|Q]; [exact Q|]. exfalso. apply (Ne m Q). right. exact E1. }
    assert (B : IZR (fr_i r) <= Rmax 0 (2 * y0 - 1) + 5). { rewrite Ei, <- INR_IZR_INZ, S_INR. apply le_INR in KM. lra. }
    split; [exact B|]. intros Q. rewrite Q in B. assert (Rmax 0 (2 * y0 - 1) <= 2 * y0) by (apply Rmax_lub; lra). lra.
  - intros Ng. destruct k as [|k]; [lia|]. pose proof (pn_lower kappa y0 Hk k) as L. fold y in L. assert (Y1 : y 1%nat = y0 - 1 + exp (- y0)) by exact (pn_step kappa y0 Hk 0). rewrite Y1 in L.
    assert (INR k <= IZR (fo_imax fo) - 2).
    { assert (Zk : (Z.of_nat (S (S k)) <= fo_imax fo)%Z).
      { assert (Cg : fr_i r = fo_imax fo \/ fr_i r <> fo_imax fo) by lia. rewrite <- Ei. destruct (Z_lt_le_dec (fo_imax fo) (fr_i r)) as [Q|Q]; [|exact Q]. exfalso.
        set (j := (Z.to_nat (fo_imax fo) - 1)%nat). apply (Ne j); [unfold j; lia|]. left. unfold j. lia. }
      apply IZR_le in Zk. rewrite <- INR_IZR_INZ, !S_INR in Zk. lra. }
    lra.
Qed.
Print Assumptions C127_product.

(** *** G = 1 - X Y e^-6 with independent X, Y ~ LN(1, 1): with the default options and full steps
    the run is reported with an index more than 140 above the exact (6 + ln 2) / sqrt(2 ln 2) = 5.68 *)
Definition h_pr : list smop := [OpAdd (ODist (Lognormal "R" 1 1)); OpAdd (ODist (Lognormal "S" 1 1))].
Definition g_pr (kw : list (string * R)) : R := 1 - lk kw "R" * lk kw "S" * exp (-6).
Definition gr_pr (kw : list (string * R)) : list R := [- (lk kw "S" * exp (-6)); - (lk kw "R" * exp (-6))].
Definition expr_pr : expression := fun kw =>
  let nc := match kw with [] => 0%nat | (_, v) :: _ => List.length v end in
  Ok (UTuple (Arr (map (fun c => g_pr (map (fun kv => (fst kv, nth c (snd kv) 0)) kw)) (seq 0 nc))) (gr_pr (map (fun kv => (fst kv, nth 0 (snd kv) 0)) kw))).
Lemma with_gradient_pr : with_gradient expr_pr g_pr gr_pr.
Proof.
  split.
  - intros kw nc Hne Hl. eexists. split; [reflexivity|]. destruct kw as [|[n v] kw]; [contradiction|]. cbn [value_of].
    rewrite (Hl n v) by (left; reflexivity). reflexivity.
  - intros kw Hne Hl. eexists. reflexivity.
Qed.
Lemma exp6 : 280 <= exp 6.
Proof.
  pose proof (exp_quad (1/2) ltac:(lra)) as Q. assert (E : exp (- (1/2)) * exp (1/2) = 1) by (rewrite <- exp_plus; replace (- (1/2) + 1/2) with 0 by ring; apply exp_0).
  pose proof (exp_pos (1/2)). assert (A : 8/5 <= exp (1/2)) by nra.
  assert (E6 : exp 6 = (exp (1/2)) ^ 12). { rewrite <- Rpower_pow by apply exp_pos. unfold Rpower. rewrite ln_exp. f_equal. change (INR 12) with (INR 12). rewrite INR_IZR_INZ. cbn. lra. }
  rewrite E6. assert (P : (8/5) ^ 12 <= (exp (1/2)) ^ 12) by (apply pow_incr; lra). lra.
Qed.
Theorem C127_overshoot_refuted : forall fmin, exists beta r a' s',
  run_form fmin chol2 svd2 inv2 101 10 expr_pr (mkfo 100 (/ 1000) (/ 1000) 1 (mkopts "ddm" 1 1000 1000)) None aF (sm_run h_pr) = (a', s', FDone r) /\
  form_beta 2 r = Fin beta /\ form_Pf 2 r = Fin (Phi (- beta)) /\
  (6 + ln 2) / sqrt (2 * ln 2) + 140 < beta.
Proof.
  intros fmin.
  destruct (eye_rows_identity 2) as (L1 & L2 & L3).
  destruct (modified_ok fmin 2 (mat_of (eye_rows 2)) (fun i => marg_of (marg_at (sm_run h_pr) i)) 2 (le_n 2)) as (Ro & E & D & Sy & L & _).
  match type of E with _ = Ok (_, ?x) => set (lgg := x) in * end.
  assert (R10 : Ro 1%nat 0%nat = 0).
  { rewrite L by lia. unfold pair_value. unfold mat_of. cbn [nth]. cbn. now rewrite (proj2 (Reqb_spec 0 0) eq_refl). }
  assert (EI : forall i j, (i < 2)%nat -> (j < 2)%nat -> Ro i j = delta i j).
  { intros i j Hi' Hj. two i Hi'; two j Hj; cbn; rewrite ?D, ?R10; try reflexivity. rewrite (Sy 0%nat 1%nat), R10. reflexivity. }
  pose proof (C127_product fmin chol2 svd2 inv2 ERuntime h_pr expr_pr g_pr gr_pr 10 (fun _ => true) (pick "R"%string "S"%string) (pick 1 1) (pick 1 1) (pick 1 1) (-6) (-1) (eye_rows 2) Ro lgg aF None (mkfo 100 (/ 1000) (/ 1000) 1 (mkopts "ddm" 1 1000 1000)) None 101) as X.
  cbv zeta in X. change (ndists h_pr) with 2%nat in X.
  assert (Y0 : loglin_value 2 (fun _ => true) (-6) (pick 1 1) (map (pick 1 1) (seq 0 2)) = -6) by (unfold loglin_value; cbn; rewrite ln_1; ring).
  rewrite Y0 in X.
  destruct X as (VP & y & r & a' & s' & X1 & _ & _ & YP & XB & XP & _ & _ & XL).
  - exact lapack2.
  - reflexivity.
  - lia.
  - intros i Hi'. two i Hi'; reflexivity.
  - intros i Hi'. two i Hi'; cbn; lra.
  - exists 0%nat. split; [lia|]. cbn. lra.
  - exact with_gradient_pr.
  - intros q (Lq & Kq). destruct q as [|x [|z [|w q]]]; try discriminate. pose proof (Kq 0%nat ltac:(lia) eq_refl) as P0. pose proof (Kq 1%nat ltac:(lia) eq_refl) as P1. cbn in P0, P1.
    assert (EL : exp (loglin_value 2 (fun _ => true) (-6) (pick 1 1) [x; z]) = x * z * exp (-6)).
    { unfold loglin_value. cbn. rewrite !Rmult_1_l, Rplus_0_l, !exp_plus, !exp_ln by assumption. ring. }
    rewrite EL. unfold args_at. change (dists_of (accepted h_pr)) with [Lognormal "R" 1 1; Lognormal "S" 1 1]. change (consts_of (accepted h_pr)) with (@nil (string * R)).
    unfold g_pr, gr_pr, lk, loglin_gradient. cbn. split; [ring|]. f_equal; [field; lra|f_equal; field; lra].
  - repeat split; cbn; try lra; lia.
  - reflexivity.
  - cbn. lra.
  - cbn. lia.
  - lia.
  - cbn. lia.
  - reflexivity.
  - exact L1.
  - exact L2.
  - exact E.
  - now apply eye_posdef.
  - lra.
  - lra.
  - specialize (XL ltac:(lra)). cbn [fo_imax] in XL. replace (- -6) with 6 in XL by lra. pose proof exp6 as E6.
    set (V := fsum 2 (fun i => fsum 2 (fun j => pick 1 1 i * term_sd (fun _ => true) (pick 1 1) (pick 1 1) i * Ro i j * (pick 1 1 j * term_sd (fun _ => true) (pick 1 1) (pick 1 1) j)))) in *.
    set (m := -6 + fsum 2 (fun i => pick 1 1 i * term_mean (fun _ => true) (pick 1 1) (pick 1 1) i)) in *.
    assert (Q := log_sd_sq 1 1 ltac:(lra) ltac:(lra)).
    assert (N2 : 1 + (1 / 1) ^ 2 = 2) by field. rewrite N2 in Q.
    assert (EV : V = 2 * ln 2). { unfold V. cbn [fsum pick]. rewrite !EI by lia. unfold delta, term_sd. cbn [Nat.eqb pick]. rewrite <- Q. ring. }
    assert (Em : m = -6 - ln 2). { unfold m. cbn [fsum pick]. unfold term_mean, log_mean. cbn [pick]. rewrite Q, ln_1. field. }
    rewrite EV, Em in *.
    assert (K : Rltb 0 (-1) = false) by (apply Bool.not_true_iff_false; rewrite Rltb_spec; lra). rewrite K in XB, XP.
    assert (SV := sqrt_lt_R0 _ VP). assert (SB : sqrt (2 * ln 2) < 12 / 10).
    { assert (LN : ln 2 < 7 / 10). { apply Rlt_le_trans with (ln (exp (7/10))); [|rewrite ln_exp; lra]. apply ln_increasing; [lra|]. pose proof (exp_ineq1 (7/40) ltac:(lra)) as I. assert (E4 : exp (7/10) = (exp (7/40)) ^ 4) by (rewrite <- Rpower_pow by apply exp_pos; unfold Rpower; rewrite ln_exp; f_equal; rewrite INR_IZR_INZ; cbn; lra). rewrite E4. pose proof (exp_quad (7/40) ltac:(lra)) as I2. assert (E5 : exp (- (7/40)) * exp (7/40) = 1) by (rewrite <- exp_plus; replace (- (7/40) + 7/40) with 0 by ring; apply exp_0). assert (A : 119/100 < exp (7/40)) by nra. assert (P : (119/100) ^ 4 < exp (7/40) ^ 4) by (set (w := exp (7/40)) in *; assert (119/100 * (119/100) < w * w) by nra; cbn [pow]; rewrite !Rmult_1_r; nra). lra. }
      apply Rsqr_incrst_0; [|lra|lra]. rewrite Rsqr_sqrt by lra. unfold Rsqr. lra. }
    eexists. exists r, a', s'. split; [exact X1|]. split; [exact XB|]. split; [exact XP|]. set (q := sqrt (2 * ln 2)) in *. clearbody q. clear - XL E6 SV SB.
    assert (GY : 140 < y / q). { apply Rmult_lt_reg_r with q; [exact SV|]. replace (y / q * q) with y by (field; lra). lra. }
    replace (-1 * (-6 - ln 2) / q - -1 * (y / q)) with ((6 + ln 2) / q + y / q) by (field; lra). lra.
Qed.
Print Assumptions C127_overshoot_refuted.
