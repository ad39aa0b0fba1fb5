(** Property theorems C112: FORM's probability and the probability of failure. *)
From Coquelicot Require Import Coquelicot.
From Verif Require Import Base Ext Gauss GaussProofs StochModel StochModelSpec StochModelProofs LimitState LimitStateSpec LimitStateProofs LimitStateProps Transf TransfSpec TransfProofs Form FormProofs FormAffineProofs FormNormalProofs FormProps Nataf NatafProofs Dist RotSpec RotProps Pipe PipeSpec SensSpec PipeProofs PipeProps Sorm SormRunProofs SormRunProps Mc McSpec McRun LsRunProofs LsRunProps McRunOnSpec McRunOnProofs McRunOnProps MomSpec MomProofs McBiasSpec McBiasProofs McBiasProps McBiasLinProofs McBiasLinProps FormBoundSpec FormBoundProofs.
From Coq Require Import ZArith Lra Lia Permutation FunctionalExtensionality.
Open Scope R_scope.

(** C112: where the evaluation returns the value and the gradient of the function gu at the reported
    point, the tangent plane there gives a bound of the probability of failure: an upper one for convex
    gu, a lower one for concave gu.  It is FORM's Pf up to the shift fr_G / |gradient|, which the
    convergence test makes small. *)
Theorem C112_tangent_bound : forall n o ev trial evn fuel u0 r c u gu,
  form_run n o ev trial evn fuel u0 = (FDone r, c) -> fr_u r = Some u ->
  (forall G g, fst (ev u) = Ok (G, g) -> G = gu u /\ slopes n gu u g) ->
  exists beta, form_beta n r = Fin beta /\ form_Pf n r = Fin (Phi (- beta)) /\
    let shift := gu u / norm n (fr_grad r) in
    (fr_i r <> fo_imax o -> exists Go g0, fst (ev u0) = Ok (Go, g0) /\ Rabs shift < fo_e1 o * Rabs Go / norm n (fr_grad r)) /\
    forall v, failure_probability n gu v ->
      (convex gu -> v <= Phi (- (beta + shift))) /\ (concave gu -> Phi (- (beta + shift)) <= v).
Proof.
  intros n o ev trial evn fuel u0 r c u gu H Hu He.
  destruct (C22_result_consistency n o ev trial evn fuel u0 r c u H Hu) as (E1 & E2 & _ & EA & _ & EB & EP & _). cbv zeta in *.
  set (g := fr_grad r) in *. set (al := fun i => - g i / norm n g) in *. destruct (He _ _ E1) as [EG S].
  assert (NP := cut_norm n g E2). assert (NA : norm n al = 1) by (unfold norm; rewrite EA; apply sqrt_1).
  exists (dot n al u). split; [exact EB|]. split; [exact EP|]. split.
  - intros Hi. destruct (C21_converged_or_at_limit n o ev trial evn fuel u0 r c H) as (_ & [X|X]); [contradiction|]. destruct X as (u' & Go & g0 & Q1 & Q2 & Q3 & _ & Q4 & _). fold g in Q4.
    exists Go, g0. split; [exact Q2|]. rewrite <- EG. unfold Rdiv. rewrite Rabs_mult, (Rabs_right (/ norm n g)) by (apply Rle_ge, Rlt_le, Rinv_0_lt_compat, NP).
    apply Rmult_lt_compat_r; [apply Rinv_0_lt_compat, NP|]. unfold Rdiv in Q4. rewrite Rabs_mult, Rabs_inv in Q4. assert (GP : 0 < Rabs Go) by (apply Rabs_pos_lt, Q3).
    apply (Rmult_lt_compat_r (Rabs Go)) in Q4; [|exact GP]. rewrite Rmult_assoc, Rinv_l, Rmult_1_r in Q4 by lra. exact Q4.
  - intros v HF. split.
    + intros C. apply (fp_inside n gu v al); [exact NA| |exact HF]. intros w Hw. apply Rlt_le. apply (proj1 (cut_below n g u (gu u) E2 w)). pose proof (tangent n gu u g w C S). lra.
    + intros C. apply (fp_outside n gu v al); [exact NA| |exact HF]. intros w Hw. apply (proj2 (cut_below n g u (gu u) E2 w)) in Hw. pose proof (tangent_concave n gu u g w C S). lra.
Qed.
Print Assumptions C112_tangent_bound.

(** C112: where the limit state is exactly 0 at the reported point, only the shape of the failure or safe
    domain matters. *)
Theorem C112_convex_domain : forall n o ev trial evn fuel u0 r c u gu v,
  form_run n o ev trial evn fuel u0 = (FDone r, c) -> fr_u r = Some u ->
  (forall G g, fst (ev u) = Ok (G, g) -> G = gu u /\ slopes n gu u g) ->
  failure_probability n gu v -> gu u = 0 ->
  exists Pf, form_Pf n r = Fin Pf /\
    (convex_set (fun w => gu w < 0) -> v <= Pf) /\ (convex_set (fun w => 0 <= gu w) -> Pf <= v).
Proof.
  intros n o ev trial evn fuel u0 r c u gu v H Hu He HF HZ.
  destruct (C22_result_consistency n o ev trial evn fuel u0 r c u H Hu) as (E1 & E2 & _ & EA & _ & EB & EP & _). cbv zeta in *.
  set (g := fr_grad r) in *. set (al := fun i => - g i / norm n g) in *. destruct (He _ _ E1) as [EG S].
  assert (NP := cut_norm n g E2). assert (NA : norm n al = 1) by (unfold norm; rewrite EA; apply sqrt_1).
  exists (Phi (- dot n al u)). split; [exact EP|]. split; intros C.
  - apply (fp_inside n gu v al); [exact NA| |exact HF]. intros w Hw. destruct (Rle_or_lt (dot n al u) (dot n al w)) as [L|L]; [exact L|exfalso].
    assert (D : 0 < dot n g (fun i => w i - u i)) by (rewrite (cut_dot n g u E2 w); fold al; nra).
    assert (D' : is_derive (fun t => - gu (mix t u w)) 0 (- dot n g (fun i => w i - u i))) by (apply (is_derive_opp (fun t => gu (mix t u w))), S).
    destruct (slope_neg _ _ D' ltac:(lra)) as (s & Hs & _ & K). rewrite mix_0 in K.
    pose proof (C (mix (- s) u w) w (s / (1 + s))) as Q. assert (T : 0 <= s / (1 + s) <= 1).
    { split; [apply Rmult_le_pos; [lra|apply Rlt_le, Rinv_0_lt_compat; lra]|]. apply (Rmult_le_reg_r (1 + s)); [lra|]. unfold Rdiv. rewrite Rmult_assoc, Rinv_l; lra. }
    specialize (Q T ltac:(lra) Hw). assert (X : mix (s / (1 + s)) (mix (- s) u w) w = u) by (apply functional_extensionality; intros i; unfold mix; field; lra). rewrite X in Q. lra.
  - apply (fp_outside n gu v al); [exact NA| |exact HF]. intros w Hw. destruct (Rlt_or_le (gu w) 0) as [L|L]; [exact L|exfalso].
    assert (D : dot n g (fun i => w i - u i) < 0) by (rewrite (cut_dot n g u E2 w); fold al; nra).
    destruct (slope_neg _ _ (S w) D) as (s & Hs & K & _). rewrite mix_0, HZ in K. pose proof (C u w s ltac:(lra) ltac:(lra) L) as Q. cbn beta in Q. lra.
Qed.
Print Assumptions C112_convex_domain.

(** ** whole analyses with direct differentiation *)
(** the user's function returns, for the arguments that belong to the point q, the value f q and the
    gradient grad q *)
Definition supplies (h : list smop) (expr : expression) (f : list R -> R) (grad : list R -> list R) : Prop :=
  forall q kw, length q = ndists h -> Permutation (map fst kw) (sm_names (sm_run h)) ->
    (forall i d, nth_error (dists_of (accepted h)) i = Some d -> dict_get kw (rv_name d) = Some [nth i q 0]) ->
    (forall m v, In (m, v) (consts_of (accepted h)) -> dict_get kw m = Some [v]) ->
    expr kw = Ok (UTuple (Arr [f q]) (grad q)).

Lemma ddm_ev h expr f grad o lf T A inv m u : let n := ndists h in let gu := fun w => f (vlist n (u_to_x n A m w)) in
  inverse_pair n T A -> inv_contract n inv -> supplies h expr f grad -> (forall q, length q = n -> length (grad q) = n) ->
  o_multi_proc o <> 0%Z -> o_diff_mode o = "ddm"%string ->
  has_gradient n (fun x => f (vlist n x)) (u_to_x n A m u) (vof (grad (vlist n (u_to_x n A m u)))) ->
  (forall i, (i < n)%nat -> let z := mvec n A u i in rv_jac (m i) z (rv_u2x (m i) z) <> 0 /\ is_derive (rv_u2x (m i)) z (/ rv_jac (m i) z (rv_u2x (m i) z))) ->
  forall G g, fst (form_ev lf (sm_run h) expr o n T A inv m u) = Ok (G, g) -> G = gu u /\ slopes n gu u g.
Proof.
  intros n gu HT HI HS HL Hm Hd HG Hj G g E. unfold form_ev in E. cbv zeta in E. unfold computeTransformation in E.
  destruct (inv n _) as [J|] eqn:EJ; [|discriminate]. pose proof (HI _ _ EJ) as HJ. assert (HJ' : inverse_pair n (jacobian n T A m u (u_to_x n A m u)) J) by (destruct HJ; split; assumption).
  assert (DD := dispatch_ddm lf h expr o (vlist n (u_to_x n A m u)) (f (vlist n (u_to_x n A m u))) (grad (vlist n (u_to_x n A m u))) Hm Hd (vlist_length _ _) (HL _ (vlist_length _ _)) (fun kw K1 K2 K3 => HS _ kw (vlist_length _ _) K1 K2 K3)).
  fold n in DD. rewrite DD in E.
  cbn [fst nth] in E. injection E as <- <-. split; [reflexivity|]. intros w. set (v := fun i => w i - u i).
  assert (EV : dot n (pull_gradient n (vof (grad (vlist n (u_to_x n A m u)))) J) v = fsum n (fun i => vof (grad (vlist n (u_to_x n A m u))) i * mvec n J v i)).
  { unfold dot, pull_gradient, mvec. rewrite (fsum_ext n (fun i => vof _ i * fsum n _) (fun i => fsum n (fun j => vof (grad (vlist n (u_to_x n A m u))) i * (J i j * v j)))) by (intros; rewrite fsum_scal; reflexivity).
    rewrite fsum_swap. apply fsum_ext. intros j _. rewrite <- fsum_scal_r. apply fsum_ext. intros i _. ring. }
  rewrite EV. apply (HG (fun t => u_to_x n A m (mix t u w)) 0 (mvec n J v)).
  - intros i _. rewrite mix_0. reflexivity.
  - intros i Hi. apply (u_to_x_curve n T A m J (fun t => mix t u w) 0 v HT); [| | |exact Hi].
    + rewrite mix_0. exact Hj.
    + rewrite mix_0. exact HJ'.
    + intros k _. unfold mix, v. auto_derive; [exact I|ring].
Qed.

(** C112 on an analysis of (correlated) normal variables with a differentiable limit state function
    whose gradient the user supplies ("ddm"): if the function is convex (concave) in the physical
    variables, FORM bounds the probability of failure from above (below), up to the shift that the
    tolerance e1 controls. *)
Theorem C112_form_normal :
  forall fmin chol svd inv e0 h expr f grad nm (mu sd : vec) M Ro log a opt fo evn fuel lf b s' r u,
  let n := ndists h in
  lapack n chol svd inv e0 -> form_init opt = Ok a -> (1 <= n)%nat ->
  (forall i, (i < n)%nat -> nth_error (dists_of (accepted h)) i = Some (Normal (nm i) (mu i) (sd i))) ->
  (forall i, (i < n)%nat -> sd i <> 0) ->
  supplies h expr f grad -> (forall q, length q = n -> length (grad q) = n) ->
  (forall x, has_gradient n (fun x => f (vlist n x)) x (vof (grad (vlist n x)))) ->
  o_multi_proc (fo_ls fo) <> 0%Z -> o_diff_mode (fo_ls fo) = "ddm"%string ->
  sm_corr (sm_run h) = Some M -> length M = n -> (forall r, In r M -> length r = n) ->
  computeModifiedCorrelationMatrix fmin n n (mat_of M) (fun i => marg_of (marg_at (sm_run h) i)) = Ok (Ro, log) -> pos_def n Ro ->
  run_form fmin chol svd inv fuel lf expr fo evn a (sm_run h) = (b, s', FDone r) -> fr_u r = Some u ->
  exists T A beta, fb_TA b = Some (T, A) /\ factor_of n A Ro /\ form_beta n r = Fin beta /\ form_Pf n r = Fin (Phi (- beta)) /\
    let x := fun w => u_to_x n A (marg_at (sm_run h)) w in
    (* the physical values of the normal variables *)
    (forall w i, (i < n)%nat -> x w i = mu i + sd i * mvec n A w i) /\
    let shift := f (vlist n (x u)) / norm n (fr_grad r) in
    (fr_i r <> fo_imax fo -> Rabs shift < fo_e1 fo * Rabs (f (vlist n mu)) / norm n (fr_grad r)) /\
    forall v, failure_probability n (fun w => f (vlist n (x w))) v ->
      (convex (fun y => f (vlist n y)) -> v <= Phi (- (beta + shift))) /\
      (concave (fun y => f (vlist n y)) -> Phi (- (beta + shift)) <= v).
Proof.
  intros fmin chol svd inv e0 h expr f grad nm mu sd M Ro lg a opt fo evn fuel lf b s' r u n Hlap Ha Hn HN Hsd HS HL HG Hm Hd HM HM1 HM2 HRo HPD HR Hu.
  destruct (ln_factor fmin chol svd inv e0 h M Ro lg a opt Hlap Ha HRo HPD) as (T & A & ET & HT & HF).
  assert (EM : length (sm_marg (sm_run h)) = n) by (destruct (registry h) as (_ & _ & X & _); rewrite X; reflexivity).
  destruct (C92_run_composition fmin chol svd inv (sm_run h) M n Ro lg T A fuel lf expr fo evn a HM HM1 HM2 EM HRo ET) as (c & a' & E1 & E2 & _ & E4 & _).
  rewrite HR in E1, E2. cbn [snd fst] in E1, E2. injection E2 as <- _. unfold form_from in E1.
  assert (MG : forall i, (i < n)%nat -> marg_at (sm_run h) i = Normal (nm i) (mu i) (sd i)).
  { intros i Hi. unfold marg_at. destruct (registry h) as (_ & _ & X & _). rewrite X. apply nth_error_nth, HN, Hi. }
  assert (HX : forall w i, (i < n)%nat -> u_to_x n A (marg_at (sm_run h)) w i = mu i + sd i * mvec n A w i) by (intros w i Hi; unfold u_to_x; cbv zeta; rewrite (MG i Hi); cbn; ring).
  set (gu := fun w => f (vlist n (u_to_x n A (marg_at (sm_run h)) w))).
  destruct Hlap as (_ & _ & (I1 & _) & _). assert (CI : inv_contract n inv) by (intros X Y; apply I1).
  assert (EV : forall w G g, fst (form_ev lf (sm_run h) expr (fo_ls fo) n T A inv (marg_at (sm_run h)) w) = Ok (G, g) -> G = gu w /\ slopes n gu w g).
  { intros w G g. apply (ddm_ev h expr f grad (fo_ls fo) lf T A inv (marg_at (sm_run h)) w HT CI HS HL Hm Hd (HG _)).
    intros i Hi. cbv zeta. fold n in Hi. rewrite (MG i Hi). cbn. pose proof (Hsd i Hi) as S0. split.
    - unfold Rdiv. rewrite Rmult_1_l. apply Rinv_neq_0_compat, S0.
    - auto_derive; [exact I|]. field. exact S0. }
  destruct (C112_tangent_bound _ _ _ _ _ _ _ _ _ _ gu E1 Hu (EV u)) as (beta & B1 & B2 & B3 & B4).
  assert (MIX : forall t w y, f (vlist n (mix t (u_to_x n A (marg_at (sm_run h)) w) (u_to_x n A (marg_at (sm_run h)) y))) = gu (mix t w y)).
  { intros t w y. unfold gu. f_equal. unfold vlist. apply map_ext_in. intros i Hi. apply in_seq in Hi. rewrite (HX (mix t w y) i) by lia. unfold mix at 1. rewrite (HX w i), (HX y i) by lia.
    assert (Q : mvec n A (mix t w y) i = mvec n A w i + t * (mvec n A y i - mvec n A w i)).
    { unfold mvec. rewrite <- fsum_minus, <- fsum_scal, <- fsum_plus. apply fsum_ext. intros j _. unfold mix. ring. }
    rewrite Q. ring. }
  exists T, A, beta. split; [exact E4|]. split; [exact HF|]. split; [exact B1|]. split; [exact B2|]. cbv zeta. split; [exact HX|]. split.
  - intros Hi. destruct (B3 Hi) as (Go & g0 & Q1 & Q2). destruct (EV _ _ _ Q1) as [Q3 _].
    replace (f (vlist n mu)) with Go; [exact Q2|]. rewrite Q3. unfold gu. f_equal. unfold vlist. apply map_ext_in. intros i Hi'. apply in_seq in Hi'. rewrite HX by lia.
    unfold mvec. rewrite fsum_zero; [ring|]. intros j Hj. pose proof (ln_start h nm mu sd HN T j Hj) as Q. cbn beta in Q. fold n in Q. rewrite Q. ring.
  - intros v HV. destruct (B4 v HV) as [V1 V2]. split; intros C.
    + apply V1. intros w y t Ht. rewrite <- MIX. apply (C _ _ t Ht).
    + apply V2. intros w y t Ht. rewrite <- MIX. apply (C _ _ t Ht).
Qed.
Print Assumptions C112_form_normal.

(** C112: on a linear function of (correlated) normal variables (finite differences, any step rule of
    [exact_options]) FORM's Pf is the probability of failure. *)
Theorem C112_linear_exact :
  forall fmin chol svd inv e0 h expr f lf nm (mu sd cf : vec) c0 M Ro log a opt fo evn fuel,
  let n := ndists h in
  lapack n chol svd inv e0 -> form_init opt = Ok a -> (1 <= n)%nat ->
  (forall i, (i < n)%nat -> nth_error (dists_of (accepted h)) i = Some (Normal (nm i) (mu i) (sd i))) ->
  (forall i, (i < n)%nat -> sd i <> 0) -> (exists i, (i < n)%nat /\ cf i <> 0) ->
  pointwise expr f -> (forall q, length q = n -> f (args_at h q) = c0 + fsum n (fun i => cf i * nth i q 0)) ->
  exact_options fo -> (n + 7 < lf)%nat -> (Z.to_nat (fo_imax fo) < fuel)%nat ->
  sm_corr (sm_run h) = Some M -> length M = n -> (forall r, In r M -> length r = n) ->
  computeModifiedCorrelationMatrix fmin n n (mat_of M) (fun i => marg_of (marg_at (sm_run h) i)) = Ok (Ro, log) -> pos_def n Ro ->
  exists b sF r T A Pf, run_form fmin chol svd inv fuel lf expr fo evn a (sm_run h) = (b, sF, FDone r) /\
    fb_TA b = Some (T, A) /\ factor_of n A Ro /\ form_Pf n r = Fin Pf /\
    failure_probability n (fun w => c0 + fsum n (fun i => cf i * (mu i + sd i * mvec n A w i))) Pf.
Proof.
  intros fmin chol svd inv e0 h expr f lf nm mu sd cf c0 M Ro lg a opt fo evn fuel n Hlap Ha Hn HN Hsd Hcf Hp Hlin Hfo Hlf Hfu HM HM1 HM2 HRo HPD.
  destruct (lin_run fmin chol svd inv e0 h expr f lf nm mu sd cf c0 M Ro lg a opt fo evn fuel Hlap Ha Hn HN Hsd Hcf Hp Hlin Hfo Hlf Hfu HM HM1 HM2 HRo HPD)
    as (T & A & b & c & r & u & H). cbv zeta in H. fold n in H.
  set (mean := c0 + fsum n (fun i => cf i * mu i)) in *. set (variance := fsum n (fun i => fsum n _)) in *. set (beta := mean / sqrt variance) in *.
  set (av := fun j => - fsum n (fun i => cf i * sd i * A i j)) in *.
  destruct H as (ER & ETA & ERes & Eu & E0 & EG & AL & HU & EB & ET & HT & HF & EN & VP & EM & EA).
  assert (SV := sqrt_lt_R0 _ VP).
  set (alpha := alpha_of n (fr_grad r)) in *.
  assert (NA : norm n alpha = 1). { apply (alpha_unit n av alpha); [rewrite EN; exact AL|rewrite EN; lra]. }
  exists b, (addCallFunction (setModifiedCorrelation (sm_run h) (rows_of n Ro)) c), r, T, A, (Phi (- beta)).
  split; [exact ER|]. split; [exact ETA|]. split; [exact HF|]. split; [unfold form_Pf; rewrite EB; reflexivity|].
  refine (int_ext n _ _ _ _ (half_integral n alpha beta NA)). intros w. cbn beta.
  assert (E1 : c0 + fsum n (fun i => cf i * (mu i + sd i * mvec n A w i)) = sqrt variance * (beta - dot n alpha w)).
  { rewrite (Base.dot_ext n alpha w (fun i => / sqrt variance * av i) w).
    - rewrite dot_scal_l. replace (sqrt variance * (beta - / sqrt variance * dot n av w)) with (mean - dot n av w) by (unfold beta; field; lra).
      unfold mean, av, dot, mvec. rewrite (fsum_ext n (fun i => cf i * (mu i + sd i * fsum n _)) (fun i => cf i * mu i + fsum n (fun j => cf i * sd i * A i j * w j))).
      2:{ intros i _. rewrite Rmult_plus_distr_l. f_equal. rewrite <- Rmult_assoc, <- fsum_scal. apply fsum_ext. intros; ring. }
      rewrite fsum_plus. unfold Rminus. rewrite Rplus_assoc. f_equal. f_equal. rewrite fsum_swap, <- fsum_opp. apply fsum_ext. intros j _. rewrite fsum_scal_r. ring.
    - intros i Hi. rewrite (AL i Hi). unfold Rdiv. ring.
    - intros i _. reflexivity. }
  rewrite E1. destruct (Rltb beta (dot n alpha w)) eqn:EC.
  - apply Rltb_spec in EC. rewrite (proj2 (Rltb_spec _ _)); [reflexivity|nra].
  - apply Rltb_false in EC. rewrite (proj2 (Rltb_false _ _)); [reflexivity|nra].
Qed.
Print Assumptions C112_linear_exact.

(** The hypotheses of C112_tangent_bound on a curved function: one variable, gu = exp(-u) - exp(-c),
    failing beyond c, two iterations with full steps. *)
Section Exa.
  Variable c : R.
  Let gu (u : vec) : R := exp (- u 0%nat) - exp (- c).
  Let ev (u : vec) : result (R * vec) * nat := (Ok (gu u, fun _ => - exp (- u 0%nat)), 1%nat).

  Lemma exa_convex : convex gu.
  Proof.
    intros u w t Ht. unfold gu, mix. set (x := - u 0%nat). set (y := - w 0%nat). replace (- (u 0%nat + t * (w 0%nat - u 0%nat))) with ((1 - t) * x + t * y) by (unfold x, y; ring).
    set (m := (1 - t) * x + t * y).
    (* exp z >= exp m (1 + (z - m)) *)
    assert (T : forall z, exp m * (1 + (z - m)) <= exp z) by (intros z; replace (exp z) with (exp m * exp (z - m)) by (rewrite <- exp_plus; f_equal; ring); apply Rmult_le_compat_l; [apply Rlt_le, exp_pos|apply exp_ineq1_le]).
    pose proof (T x) as Tx. pose proof (T y) as Ty. apply (Rmult_le_compat_l (1 - t)) in Tx; [|lra]. apply (Rmult_le_compat_l t) in Ty; [|lra].
    assert (Q : (1 - t) * (exp m * (1 + (x - m))) + t * (exp m * (1 + (y - m))) = exp m) by (unfold m; ring). lra.
  Qed.

  Theorem C112_example : exists r b, let gu := fun u : vec => exp (- u 0%nat) - exp (- c) in
    form_run 1 (mkfo 2 (1 / 1000) (1 / 1000) 1 default_ls) ev (fun _ => (Err EValue, 0%nat)) None 3 (fun _ => 0) = (FDone r, b) /\
    (exists u, fr_u r = Some u /\ forall G g, fst (ev u) = Ok (G, g) -> G = gu u /\ slopes 1 gu u g) /\
    convex gu /\ failure_probability 1 gu (Phi (- c)).
  Proof.
    assert (SL : forall u, slopes 1 gu u (fun _ => - exp (- u 0%nat))).
    { intros u w. unfold gu, mix, dot. cbn [fsum]. auto_derive; [exact I|]. rewrite Rmult_0_l, Rplus_0_r. ring. }
    assert (NG : forall x, Reqb (norm 1 (fun _ => - exp x)) 0 = false).
    { intros x. pose proof (exp_pos x) as P. unfold norm, dot. cbn [fsum]. destruct (Reqb _ 0) eqn:E; [|reflexivity]. apply Reqb_spec in E. apply sqrt_eq_0 in E; nra. }
    cbv zeta.
    assert (RUN : exists r b, form_run 1 (mkfo 2 (1 / 1000) (1 / 1000) 1 default_ls) ev (fun _ => (Err EValue, 0%nat)) None 3 (fun _ => 0) = (FDone r, b) /\ exists u, fr_u r = Some u).
    { unfold form_run. cbn [form_loop]. unfold ev at 1. rewrite NG. cbn [fo_imax fo_e1 fo_e2]. change (1 =? 2)%Z with false. rewrite orb_false_r.
      destruct (xltb _ _ && Rltb _ _); [eexists; eexists; split; [reflexivity|eexists; reflexivity]|].
      unfold getStepSize. cbn [fo_step]. assert (R10 : Reqb 1 0 = false) by (destruct (Reqb 1 0) eqn:Q; [apply Reqb_spec in Q; lra|reflexivity]). rewrite R10.
      unfold ev at 1. rewrite NG. change (1 + 1 =? 2)%Z with true. rewrite orb_true_r. eexists; eexists; split; [reflexivity|eexists; reflexivity]. }
    destruct RUN as (r & b & E & u & Eu). exists r, b. split; [exact E|]. split; [|split; [exact exa_convex|]].
    - exists u. split; [exact Eu|]. intros G g Q. injection Q as <- <-. split; [reflexivity|apply SL].
    - unfold failure_probability. assert (NA : norm 1 (fun _ : nat => 1) = 1) by (unfold norm, dot; cbn; rewrite Rplus_0_l, Rmult_1_l; apply sqrt_1).
      refine (int_ext 1 _ _ _ _ (half_integral 1 (fun _ => 1) c NA)). intros w. unfold dot. cbn [fsum]. rewrite Rplus_0_l, Rmult_1_l.
      destruct (Rltb c (w 0%nat)) eqn:E1, (Rltb (exp (- w 0%nat) - exp (- c)) 0) eqn:E2; try reflexivity; exfalso.
      + apply Rltb_spec in E1. apply Rltb_false in E2. pose proof (exp_increasing (- w 0%nat) (- c) ltac:(lra)). lra.
      + apply Rltb_false in E1. apply Rltb_spec in E2. assert (X : exp (- w 0%nat) < exp (- c)) by lra. apply exp_lt_inv in X. lra.
  Qed.
End Exa.
Print Assumptions C112_example.

(** The hypotheses of C112_form_normal on a curved function with a supplied gradient: R^2 - 3 S with
    R ~ N(m, 20), S ~ N(40, 5). *)
Definition lk1 (kw : list (string * list R)) (k : string) : R := match dict_get kw k with Some (x :: _) => x | _ => 0 end.
Definition expr_sq : expression := fun kw => Ok (UTuple (Arr [lk1 kw "R" ^ 2 - 3 * lk1 kw "S"]) [2 * lk1 kw "R"; -3]).
Definition f_sq (q : list R) : R := nth 0 q 0 ^ 2 - 3 * nth 1 q 0.
Definition g_sq (q : list R) : list R := [2 * nth 0 q 0; -3].
Definition fo_ddm : form_opts := mkfo 1 (1 / 1000) (1 / 1000) 0 (mkopts "ddm" 1 1000 1000).

Theorem C112_form_example : forall fmin m, let h := h_sorm m in
  supplies h expr_sq f_sq g_sq /\ (forall x, has_gradient 2 (fun x => f_sq (vlist 2 x)) x (vof (g_sq (vlist 2 x)))) /\
  convex (fun y => f_sq (vlist 2 y)) /\
  exists a M Ro lg b s' r u, form_init None = Ok a /\ sm_corr (sm_run h) = Some M /\
    computeModifiedCorrelationMatrix fmin 2 2 (mat_of M) (fun i => marg_of (marg_at (sm_run h) i)) = Ok (Ro, lg) /\ pos_def 2 Ro /\
    run_form fmin chol2 svd2 inv2 2 10 expr_sq fo_ddm None a (sm_run h) = (b, s', FDone r) /\ fr_u r = Some u.
Proof.
  intros fmin m h.
  assert (SU : supplies h expr_sq f_sq g_sq).
  { intros q kw Hq P D C. pose proof (D 0%nat (Normal "R" m 20) eq_refl) as D0. pose proof (D 1%nat (Normal "S" 40 5) eq_refl) as D1. change (dict_get kw "R" = Some [nth 0 q 0]) in D0. change (dict_get kw "S" = Some [nth 1 q 0]) in D1.
    unfold expr_sq, f_sq, g_sq, lk1. rewrite D0, D1. reflexivity. }
  assert (HG : forall x, has_gradient 2 (fun x => f_sq (vlist 2 x)) x (vof (g_sq (vlist 2 x)))).
  { intros x c t0 v H1 H2. unfold f_sq, g_sq, vof. cbn [vlist seq map nth fsum]. pose proof (H2 0%nat ltac:(lia)) as D0. pose proof (H2 1%nat ltac:(lia)) as D1. cbn [vlist seq map nth].
    evar_last. { apply (is_derive_minus (fun t => c t 0%nat ^ 2) (fun t => 3 * c t 1%nat)); [apply (is_derive_pow (fun t => c t 0%nat) 2 t0 _ D0)|apply (is_derive_scal (fun t => c t 1%nat) t0 3 _ D1)]. }
    rewrite (H1 0%nat) by lia. unfold minus, plus, opp, scal, mult; cbn. ring. }
  assert (CV : convex (fun y => f_sq (vlist 2 y))).
  { intros u w t Ht. unfold f_sq, vlist, mix. cbn [seq map nth]. set (x := u 0%nat). set (y := w 0%nat). assert (Q : 0 <= t * (1 - t) * (x - y) ^ 2) by (apply Rmult_le_pos; [nra|apply pow2_ge_0]). nra. }
  split; [exact SU|]. split; [exact HG|]. split; [exact CV|].
  destruct (ex_matrix m fmin) as (Ro & lg & E & PD & D0 & D1 & R01 & R10).
  set (a := mkFobj false "cholesky" None None).
  assert (Ha : form_init None = Ok a) by reflexivity.
  destruct (ln_factor fmin chol2 svd2 inv2 ERuntime h (eye_rows 2) Ro lg a None lapack2 Ha E PD) as (T & A & ET & HT & HF).
  change (ndists h) with 2%nat in *.
  assert (HM2 : forall r, In r (eye_rows 2) -> length r = 2%nat) by (intros q Hq; cbn in Hq; destruct Hq as [<-|[<-|[]]]; reflexivity).
  destruct (C92_run_composition fmin chol2 svd2 inv2 (sm_run h) (eye_rows 2) 2 Ro lg T A 2 10 expr_sq fo_ddm None a eq_refl eq_refl HM2 eq_refl E ET) as (c & a' & E1 & E2 & _).
  destruct (run_form fmin chol2 svd2 inv2 2 10 expr_sq fo_ddm None a (sm_run h)) as [[b s'] out] eqn:ER. cbn [fst snd] in E1, E2.
  (* the first evaluation *)
  set (u0 := computeStartingPoint 2 T (marg_at (sm_run h))) in *.
  assert (MJ : forall i, (i < 2)%nat -> let z := mvec 2 A u0 i in rv_jac (marg_at (sm_run h) i) z (rv_u2x (marg_at (sm_run h) i) z) <> 0 /\
     is_derive (rv_u2x (marg_at (sm_run h) i)) z (/ rv_jac (marg_at (sm_run h) i) z (rv_u2x (marg_at (sm_run h) i) z))).
  { intros i Hi. assert (X : exists s q k, s <> 0 /\ marg_at (sm_run h) i = Normal k q s) by (two i Hi; [exists 20, m, "R"%string|exists 5, 40, "S"%string]; (split; [lra|reflexivity])).
    destruct X as (s & q & k & S0 & ->). cbn. split; [unfold Rdiv; rewrite Rmult_1_l; apply Rinv_neq_0_compat, S0|]. auto_derive; [exact I|]. field. exact S0. }
  destruct lapack2 as (_ & _ & (I1 & I2 & _) & _). assert (CI : inv_contract 2 inv2) by (intros X Y; apply I1).
  assert (EV : exists G g k, form_ev 10 (sm_run h) expr_sq (fo_ls fo_ddm) 2 T A inv2 (marg_at (sm_run h)) u0 = (Ok (G, g), k)).
  { unfold form_ev. cbv zeta. unfold computeTransformation. assert (JI := jac_inverse 2 T A (marg_at (sm_run h)) u0 (u_to_x 2 A (marg_at (sm_run h)) u0) HT (fun i Hi => proj1 (MJ i Hi))).
    destruct (I2 _ _ (conj (proj2 JI) (proj1 JI))) as [J EJ]. rewrite EJ.
    set (x := u_to_x 2 A (marg_at (sm_run h)) u0).
    assert (DD := dispatch_ddm 10 h expr_sq (fo_ls fo_ddm) (vlist 2 x) (f_sq (vlist 2 x)) (g_sq (vlist 2 x)) ltac:(discriminate) eq_refl eq_refl eq_refl (fun kw K1 K2 K3 => SU (vlist 2 x) kw eq_refl K1 K2 K3)).
    change (ndists h) with 2%nat in DD. rewrite DD. eauto. }
  destruct EV as (G & g & k & EV).
  destruct (ddm_ev h expr_sq f_sq g_sq (fo_ls fo_ddm) 10 T A inv2 (marg_at (sm_run h)) u0 HT CI SU (fun q _ => eq_refl) ltac:(discriminate) eq_refl (HG _) MJ G g) as [_ SL]; [change (ndists h) with 2%nat; rewrite EV; reflexivity|]. change (ndists h) with 2%nat in SL.
  (* the gradient does not vanish: along the direction of S the function decreases *)
  assert (NG : Reqb (norm 2 g) 0 = false).
  { destruct (Reqb (norm 2 g) 0) eqn:Z; [exfalso|reflexivity]. apply Reqb_spec in Z. pose proof (proj1 (norm_eq0 2 g) Z) as G0.
    set (w := fun i => u0 i + (fun j => T j 1%nat) i). specialize (SL w). assert (DZ : dot 2 g (fun i => w i - u0 i) = 0) by (unfold dot; apply fsum_zero; intros i Hi; rewrite (G0 i Hi); ring). rewrite DZ in SL.
    assert (XX : forall t, f_sq (vlist 2 (u_to_x 2 A (marg_at (sm_run h)) (mix t u0 w))) = f_sq (vlist 2 (u_to_x 2 A (marg_at (sm_run h)) u0)) - 15 * t).
    { intros t. unfold f_sq, vlist. cbn [seq map nth]. unfold u_to_x. cbv zeta.
      assert (MV : forall i, (i < 2)%nat -> mvec 2 A (mix t u0 w) i = mvec 2 A u0 i + t * delta i 1).
      { intros i Hi. pose proof (proj2 HT i 1%nat Hi ltac:(lia)) as Q. unfold mmul, meye in Q. unfold mvec. rewrite <- Q, <- fsum_scal, <- fsum_plus. apply fsum_ext. intros j _. unfold mix, w. ring. }
      rewrite !MV by lia. change (marg_at (sm_run h) 0%nat) with (Normal "R" m 20). change (marg_at (sm_run h) 1%nat) with (Normal "S" 40 5). cbn [rv_u2x Normal]. cbn [delta Nat.eqb]. unfold delta. cbn. ring. }
    assert (D : is_derive (fun t => f_sq (vlist 2 (u_to_x 2 A (marg_at (sm_run h)) u0)) - 15 * t) 0 (-15)) by (auto_derive; [exact I|ring]).
    pose proof (is_derive_ext _ _ _ _ XX SL) as SL'. pose proof (eq_trans (eq_sym (is_derive_unique _ _ _ SL')) (is_derive_unique _ _ _ D)). lra. }
  unfold form_from, form_run in E1. cbn [form_loop] in E1. fold u0 in E1. rewrite EV in E1. rewrite NG in E1. change (1 =? fo_imax fo_ddm)%Z with true in E1. rewrite orb_true_r in E1.
  injection E1 as <- _. eexists a, (eye_rows 2), Ro, lg, b, s', _, u0. split; [exact Ha|]. split; [reflexivity|]. split; [exact E|]. split; [exact PD|]. split; [exact ER|reflexivity].
Qed.
Print Assumptions C112_form_example.
