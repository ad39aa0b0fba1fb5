(** Property theorems C16 - C20, C67. *)
From Coquelicot Require Import Coquelicot.
From Verif Require Import Base Ext Gauss GaussProofs StochModel StochModelSpec LimitState LimitStateSpec LimitStateProofs
  Transf TransfSpec TransfProofs GramSchmidt GramSchmidtProofs Sorm SormProofs SormHessProofs.
From Coq Require Import ZArith Permutation.

(** C16: Breitung's formula for beta > 0 and admissible curvatures. *)
Theorem C16_breitung_value : forall beta kappa,
  0 < beta -> Forall (fun k => -1 / beta < k) kappa ->
  let p := Phi (- beta) * lprod (map (fun k => / sqrt (1 + beta * k)) kappa) in
  0 < p /\ sr_pf (pf_breitung beta kappa) = Fin p /\ sr_msg (pf_breitung beta kappa) = false /\
  (p < 1 -> exists b, sr_beta (pf_breitung beta kappa) = Fin b /\ Phi (- b) = p) /\
  (1 < p -> sr_beta (pf_breitung beta kappa) = NaN).
Proof.
  intros beta kappa Hb HF p.
  assert (HF' : Forall (fun k => 0 < 1 + beta * k) kappa)
    by (eapply Forall_impl; [|exact HF]; intros k Hk; apply adm_iff; assumption).
  assert (Hp : 0 < p) by (apply Rmult_lt_0_compat; [apply Phi_bound|apply (bprod_pos beta kappa HF')]).
  unfold pf_breitung. rewrite breit_ok by assumption. cbv zeta. cbn [sr_pf sr_beta sr_msg].
  change (Phi (- beta) * bprod beta kappa) with p.
  split; [exact Hp|]. split; [reflexivity|]. split; [reflexivity|]. split.
  - intros H1. exists (- ppf p). rewrite xppf_in by lra. split; [reflexivity|]. rewrite Ropp_involutive. apply Phi_ppf. lra.
  - intros H1. rewrite xppf_gt1 by exact H1. reflexivity.
Qed.
Print Assumptions C16_breitung_value.

(** C16: zero curvatures give the FORM result. *)
Theorem C16_zero_curvature_is_form : forall beta n, 0 < beta ->
  pf_breitung beta (repeat 0 n) = mksr (Fin (Phi (- beta))) (Fin beta) false.
Proof.
  intros beta n Hb. unfold pf_breitung. rewrite breit_ok; [|exact Hb|].
  - cbv zeta. rewrite bprod_zero, Rmult_1_r. rewrite xppf_in by apply Phi_bound. rewrite ppf_Phi. cbn [xneg].
    rewrite Ropp_involutive. reflexivity.
  - apply Forall_forall. intros k Hk. apply repeat_spec in Hk. subst k.
    assert (0 < / beta) by (apply Rinv_0_lt_compat; exact Hb). unfold Rdiv. lra.
Qed.
Print Assumptions C16_zero_curvature_is_form.

(** C16: larger curvatures give smaller probabilities. *)
Theorem C16_antitone_in_curvature : forall beta k1 k2 p1 p2,
  0 < beta -> Forall (fun k => -1 / beta < k) k1 -> Forall2 Rle k1 k2 ->
  sr_pf (pf_breitung beta k1) = Fin p1 -> sr_pf (pf_breitung beta k2) = Fin p2 -> p2 <= p1.
Proof.
  intros beta k1 k2 p1 p2 Hb H1 H12 E1 E2.
  assert (H2 : Forall (fun k => -1 / beta < k) k2).
  { clear -H1 H12. induction H12; constructor; inversion H1; subst; [lra|auto]. }
  unfold pf_breitung in *. rewrite breit_ok in E1, E2 by assumption. cbv zeta in *. cbn [sr_pf] in *.
  inversion E1; inversion E2; subst. apply Rmult_le_compat_l; [left; apply Phi_bound|].
  apply bprod_antitone; [exact Hb| |exact H12].
  eapply Forall_impl; [|exact H1]. intros k Hk. apply adm_iff; assumption.
Qed.
Print Assumptions C16_antitone_in_curvature.

Theorem C16_positive_curvature_reduces : forall beta kappa,
  0 < beta -> Forall (fun k => 0 <= k) kappa -> Exists (fun k => 0 < k) kappa ->
  exists p b, pf_breitung beta kappa = mksr (Fin p) (Fin b) false /\ 0 < p < Phi (- beta) /\ beta < b.
Proof.
  intros beta kappa Hb HF HE.
  assert (HA : Forall (fun k => -1 / beta < k) kappa).
  { eapply Forall_impl; [|exact HF]. intros k Hk. simpl in Hk. assert (0 < / beta) by (apply Rinv_0_lt_compat; exact Hb). unfold Rdiv. lra. }
  unfold pf_breitung. rewrite breit_ok by assumption. cbv zeta.
  pose proof (bprod_strict beta kappa Hb HF HE) as S.
  assert (P : 0 < bprod beta kappa) by (apply bprod_pos; eapply Forall_impl; [|exact HA]; intros k Hk; apply adm_iff; assumption).
  pose proof (Phi_bound (- beta)) as B.
  set (p := Phi (- beta) * bprod beta kappa).
  assert (Hp : 0 < p < Phi (- beta)) by (unfold p; split; nra).
  exists p, (- ppf p). rewrite xppf_in by lra. split; [reflexivity|]. split; [exact Hp|].
  assert (ppf p < - beta); [|lra]. rewrite <- (ppf_Phi (- beta)). apply ppf_incr; lra.
Qed.
Print Assumptions C16_positive_curvature_reduces.

(** C16: excessive curvature is rejected with the message (coefficient beta > 0). *)
Theorem C16_excessive_curvature_rejected : forall beta kappa,
  0 < beta -> Exists (fun k => k < -1 / beta) kappa ->
  pf_breitung beta kappa = mksr (Fin 0) (Fin 0) true.
Proof. intros beta kappa Hb H. apply breit_reject; [lra|exact H]. Qed.
Print Assumptions C16_excessive_curvature_rejected.

(** C16: the boundary -1/beta is accepted and gives pf = inf. *)
Theorem C16_boundary_not_rejected : forall beta, 0 < beta ->
  pf_breitung beta [-1 / beta] = mksr PInf NaN false.
Proof. intros beta Hb. apply breit_boundary. exact Hb. Qed.
Print Assumptions C16_boundary_not_rejected.

(** C16: "the reported pf2 is a probability" fails for admissible curvatures
    near the boundary, for every beta > 0. *)
Theorem C16_pf_at_most_one_refuted : forall beta, 0 < beta ->
  exists kappa p, Forall (fun k => -1 / beta < k) kappa /\
    pf_breitung beta kappa = mksr (Fin p) NaN false /\ 1 < p.
Proof.
  intros beta Hb. pose proof (Phi_bound (- beta)) as B. set (c := Phi (- beta)) in *.
  set (e := c * c / 4).
  assert (He : 0 < e) by (unfold e; nra).
  exists [(-1 + e) / beta], 2.
  assert (HA : Forall (fun k => -1 / beta < k) [(-1 + e) / beta]).
  { constructor; [|constructor]. unfold Rdiv. apply Rmult_lt_compat_r; [apply Rinv_0_lt_compat; exact Hb|lra]. }
  split; [exact HA|]. split; [|lra].
  unfold pf_breitung. rewrite breit_ok by assumption. cbv zeta.
  assert (E : Phi (- beta) * bprod beta [(-1 + e) / beta] = 2).
  { unfold bprod. cbn [map lprod fold_right]. replace (1 + beta * ((-1 + e) / beta)) with ((c / 2) * (c / 2)) by (unfold e; field; lra).
    rewrite sqrt_square by lra. fold c. field. lra. }
  rewrite E. rewrite xppf_gt1 by lra. reflexivity.
Qed.
Print Assumptions C16_pf_at_most_one_refuted.

(** C16: Hohenbichler-Rackwitz variant, every beta (also <= 0). *)
Theorem C16_hr_value : forall beta kappa,
  let psi := phi beta / Phi (- beta) in
  0 < psi /\
  (Forall (fun k => -1 / psi < k) kappa ->
     let p := Phi (- beta) * lprod (map (fun k => / sqrt (1 + psi * k)) kappa) in
     0 < p /\ sr_pf (pf_breitung_m beta kappa) = Fin p /\ sr_msg (pf_breitung_m beta kappa) = false /\
     (p < 1 -> exists b, sr_beta (pf_breitung_m beta kappa) = Fin b /\ Phi (- b) = p)) /\
  (Exists (fun k => k < -1 / psi) kappa -> pf_breitung_m beta kappa = mksr (Fin 0) (Fin 0) true).
Proof.
  intros beta kappa ps. change ps with (psi beta). pose proof (psi_pos beta) as P. split; [exact P|]. split.
  - intros HF p.
    assert (HF' : Forall (fun k => 0 < 1 + psi beta * k) kappa)
      by (eapply Forall_impl; [|exact HF]; intros k Hk; apply adm_iff; assumption).
    assert (Hp : 0 < p) by (apply Rmult_lt_0_compat; [apply Phi_bound|apply (bprod_pos (psi beta) kappa HF')]).
    unfold pf_breitung_m. rewrite breit_ok by assumption. cbv zeta. cbn [sr_pf sr_beta sr_msg].
    change (Phi (- beta) * bprod (psi beta) kappa) with p.
    split; [exact Hp|]. split; [reflexivity|]. split; [reflexivity|].
    intros H1. exists (- ppf p). rewrite xppf_in by lra. split; [reflexivity|]. rewrite Ropp_involutive. apply Phi_ppf. lra.
  - intros H. apply breit_reject; [lra|exact H].
Qed.
Print Assumptions C16_hr_value.

(** C16: for negative beta Breitung's result is never usable: any admissible
    curvature (1 + beta*kappa > 0) triggers the rejection, and when nothing is
    rejected the value is infinite or NaN. *)
Theorem C16_negative_beta_admissible_rejected : forall beta kappa,
  beta < 0 -> Exists (fun k => 0 < 1 + beta * k) kappa ->
  pf_breitung beta kappa = mksr (Fin 0) (Fin 0) true.
Proof.
  intros beta kappa Hb H. apply breit_reject; [lra|]. eapply Exists_impl; [|exact H]. intros k Hk. simpl in Hk.
  assert (E : 1 + beta * k = beta * (k - -1 / beta)) by (field; lra). rewrite E in Hk.
  destruct (Rlt_le_dec k (-1 / beta)) as [L|L]; [exact L|]. nra.
Qed.
Print Assumptions C16_negative_beta_admissible_rejected.

Theorem C16_negative_beta_never_finite : forall beta kappa,
  beta < 0 -> kappa <> [] ->
  pf_breitung beta kappa = mksr (Fin 0) (Fin 0) true \/
  sr_pf (pf_breitung beta kappa) = PInf \/ sr_pf (pf_breitung beta kappa) = NaN.
Proof. intros beta kappa Hb Hk. exact (breit_negative beta beta kappa Hb Hk). Qed.
Print Assumptions C16_negative_beta_never_finite.

(** C17 *)
Theorem C17_symmetric_agreement : forall beta kappa,
  (0 < beta -> Forall (fun k => 0 < 1 + beta * k) kappa ->
     pf_breitung_pf beta kappa kappa = pf_breitung beta kappa) /\
  (Forall (fun k => 0 < 1 + phi beta / Phi (- beta) * k) kappa ->
     pf_breitung_m_pf beta kappa kappa = pf_breitung_m beta kappa).
Proof.
  intros beta kappa. split.
  - intros Hb HF. apply pf_cf_agree; [exact Hb|]. eapply Forall_impl; [|exact HF]. intros k Hk. apply adm_iff; assumption.
  - intros HF. apply pf_cf_agree; [apply psi_pos|]. eapply Forall_impl; [|exact HF]. intros k Hk. apply adm_iff; [apply psi_pos|exact Hk].
Qed.
Print Assumptions C17_symmetric_agreement.

Theorem C17_pointfit_positive : forall beta km kp,
  Forall (fun k => 0 < 1 + beta * k) km -> Forall (fun k => 0 < 1 + beta * k) kp ->
  exists p, sr_pf (pf_breitung_pf beta km kp) = Fin p /\ 0 < p /\ sr_msg (pf_breitung_pf beta km kp) = false /\
   p = Phi (- beta) * lprod (map (fun ab => (/ sqrt (1 + beta * fst ab) + / sqrt (1 + beta * snd ab)) / 2) (combine km kp)).
Proof.
  intros beta km kp H1 H2. unfold pf_breitung_pf. rewrite breit_pf_ok by assumption. cbv zeta. cbn [sr_pf sr_msg].
  eexists. split; [reflexivity|]. split; [apply Rmult_lt_0_compat; [apply Phi_bound|apply pfprod_pos; assumption]|].
  split; [reflexivity|]. unfold pfprod. f_equal. f_equal. apply map_ext. intros [a b]. simpl. unfold Rdiv. ring.
Qed.
Print Assumptions C17_pointfit_positive.

Theorem C17_sides_interchangeable : forall beta km kp,
  pf_breitung_pf beta km kp = pf_breitung_pf beta kp km /\
  pf_breitung_m_pf beta km kp = pf_breitung_m_pf beta kp km.
Proof. intros. split; apply pf_swap. Qed.
Print Assumptions C17_sides_interchangeable.

(** C17: rejection is exact for the point-fit formulas. *)
Theorem C17_pointfit_rejects_iff : forall beta km kp,
  sr_msg (pf_breitung_pf beta km kp) = true <-> Exists (fun k => 1 + beta * k <= 0) (kp ++ km).
Proof.
  intros beta km kp. unfold pf_breitung_pf, breitung_pf.
  rewrite Exists_app.
  assert (E : forall l, existsb (fun t => Rleb t 0) (map (fun k => 1 + beta * k) l) = true <-> Exists (fun k => 1 + beta * k <= 0) l).
  { intros l. rewrite existsb_exists, Exists_exists. split.
    - intros (t & Ht & Hl). apply in_map_iff in Ht. destruct Ht as (k & <- & Hk). exists k. split; [exact Hk|apply Rleb_spec; exact Hl].
    - intros (k & Hk & Hl). exists (1 + beta * k). split; [apply in_map_iff; exists k; auto|apply Rleb_spec; exact Hl]. }
  rewrite <- !E, <- orb_true_iff.
  destruct (existsb _ _ || existsb _ _); cbn; split; intros; congruence.
Qed.
Print Assumptions C17_pointfit_rejects_iff.

(** C18 *)
Theorem C18_newton_contract : forall n R1 ev axis sign beta k max_iter tol r tr,
  (axis < n - 1)%nat ->
  find_fitting_point n R1 ev axis sign beta k max_iter tol = (r, tr) ->
  (length tr <= max_iter)%nat /\
  match r with
  | Ok kap => exists up G g,
      (forall a, a <> axis -> a <> (n - 1)%nat -> up a = 0) /\ up axis = sign * k * beta /\
      ev (mvec n (mtrans R1) up) = Ok (G, g) /\ Rabs G < tol /\
      (1 / 1000000000000 <= Rabs (sign * k * beta) ->
         kap = 2 * (up (n - 1)%nat - beta) / (sign * k * beta * (sign * k * beta))) /\
      (Rabs (sign * k * beta) < 1 / 1000000000000 -> kap = 0)
  | Err e => e = ERuntime \/ exists u, In u tr /\ ev u = Err e
  end.
Proof. exact ffp_contract. Qed.
Print Assumptions C18_newton_contract.

Theorem C18_linear_direction_exact : forall n R1 ev axis sign beta k max_iter tol (c : R -> R) (a : R),
  (axis < n - 1)%nat -> 0 < tol -> (2 <= max_iter)%nat ->
  1 / 1000000000000 <= Rabs a -> 1 / 1000000000000 <= Rabs (sign * k * beta) ->
  (forall up, (forall b, b <> axis -> b <> (n - 1)%nat -> up b = 0) ->
     exists g, ev (mvec n (mtrans R1) up) = Ok (c (up axis) - a * up (n - 1)%nat, g) /\ mvec n R1 g (n - 1)%nat = - a) ->
  let ui := sign * k * beta in
  exists tr, (length tr <= 2)%nat /\
  (tol <= Rabs (c ui - a * beta) ->
     find_fitting_point n R1 ev axis sign beta k max_iter tol = (Ok (2 * (c ui / a - beta) / (ui * ui)), tr)) /\
  (Rabs (c ui - a * beta) < tol ->
     find_fitting_point n R1 ev axis sign beta k max_iter tol = (Ok 0, tr)).
Proof. exact ffp_linear. Qed.
Print Assumptions C18_linear_direction_exact.

(** C18: the trial points lie at distance max(1, min(|beta|, 3)) along the axis. *)
Theorem C18_trial_distance : forall beta, beta <> 0 ->
  Rabs (step_coeff beta * beta) = Rmax 1 (Rmin (Rabs beta) 3) /\ 0 < step_coeff beta.
Proof. exact step_coeff_spec. Qed.
Print Assumptions C18_trial_distance.

(** C19: with user gradients the Jacobian is taken at the evaluated point ... *)
Theorem C19_ddm_pulls_back_at_the_point : forall fuel h expr o p G g T invT inv m,
  o_multi_proc o <> 0%Z -> o_diff_mode o = "ddm"%string ->
  length p = ndists h -> length g = ndists h ->
  (forall kw, Permutation (map fst kw) (sm_names (sm_run h)) ->
     (forall i d, nth_error (dists_of (accepted h)) i = Some d -> dict_get kw (rv_name d) = Some [nth i p 0]) ->
     (forall n v, In (n, v) (consts_of (accepted h)) -> dict_get kw n = Some [v]) ->
     expr kw = Ok (UTuple (Arr [G]) g)) ->
  let n := ndists h in
  sorm_evaluateLSF fuel (sm_run h) expr o n T invT inv m p =
    rbind (inv n (jacobian n T invT m (x_to_u n T m (vof p)) (vof p))) (fun J =>
      Ok (G, pull_gradient n (vof g) J)).
Proof. exact eval_ddm. Qed.
Print Assumptions C19_ddm_pulls_back_at_the_point.

(** ... with forward differences at x + h instead (xh below). *)
Theorem C19_ffd_pulls_back_at_shifted_point : forall fuel h expr f o p T invT inv m,
  o_multi_proc o <> 0%Z -> o_diff_mode o <> "no"%string -> o_diff_mode o <> "ddm"%string ->
  pointwise expr f -> (1 <= ndists h)%nat -> length p = ndists h -> (1 <= o_block_size o)%Z ->
  (S (length p) < fuel)%nat ->
  let n := ndists h in
  let F := fun q => f (args_at h q) in
  let st := fun j => nth j (map (fun d => rv_stdv d / o_ffdpara o) (dists_of (accepted h))) 0 in
  let xh := vof (map (fun j => nth j p 0 + st j) (seq 0 n)) in
  let fd := vof (map (fun j => (F (replace_nth j (nth j p 0 + st j) p) - F p) / st j) (seq 0 n)) in
  sorm_evaluateLSF fuel (sm_run h) expr o n T invT inv m p =
    rbind (inv n (jacobian n T invT m (x_to_u n T m xh) xh)) (fun J => Ok (F p, pull_gradient n fd J)).
Proof. exact eval_ffd. Qed.
Print Assumptions C19_ffd_pulls_back_at_shifted_point.

(** C19: harmless when the marginal Jacobians are constant ... *)
Theorem C19_harmless_for_constant_jacobians : forall n T invT inv m (c : vec) x x' g J J',
  inverse_pair n T invT -> inv_contract n inv ->
  (forall j, (j < n)%nat -> forall y, rv_jac (m j) (rv_x2u (m j) y) y = c j) ->
  inv n (jacobian n T invT m (x_to_u n T m x') x') = Ok J' ->
  inv n (jacobian n T invT m (x_to_u n T m x) x) = Ok J ->
  veq n (pull_gradient n g J') (pull_gradient n g J).
Proof. exact const_jac_agree. Qed.
Print Assumptions C19_harmless_for_constant_jacobians.

(** ... and wrong for uncorrelated lognormal variables: component j is
    g_j zeta_j (x_j + h_j) where g_j zeta_j x_j is due. *)
Theorem C19_correct_point_refuted : forall fuel h expr f o p inv m (zeta : vec) G gr J,
  let n := ndists h in
  let F := fun q => f (args_at h q) in
  let st := fun j => nth j (map (fun d => rv_stdv d / o_ffdpara o) (dists_of (accepted h))) 0 in
  let fd := fun j => (F (replace_nth j (nth j p 0 + st j) p) - F p) / st j in
  o_multi_proc o <> 0%Z -> o_diff_mode o <> "no"%string -> o_diff_mode o <> "ddm"%string ->
  pointwise expr f -> (1 <= n)%nat -> length p = n -> (1 <= o_block_size o)%Z -> (S (length p) < fuel)%nat ->
  inv_contract n inv ->
  (forall j, (j < n)%nat -> zeta j <> 0 /\ 0 < nth j p 0 /\ 0 < st j) ->
  (forall j x, (j < n)%nat -> 0 < x -> rv_jac (m j) (rv_x2u (m j) x) x = / (zeta j * x)) ->
  sorm_evaluateLSF fuel (sm_run h) expr o n meye meye inv m p = Ok (G, gr) ->
  inv n (jacobian n meye meye m (x_to_u n meye m (vof p)) (vof p)) = Ok J ->
  forall j, (j < n)%nat ->
    gr j = fd j * (zeta j * (nth j p 0 + st j)) /\
    pull_gradient n fd J j = fd j * (zeta j * nth j p 0) /\
    (fd j <> 0 -> gr j <> pull_gradient n fd J j).
Proof.
  intros fuel h expr f o p inv m zeta G gr J n F st fd Hm H1 H2 Hp Hn Hl Hb Hf HI Hz Hj HE HJ j Hjn.
  unfold n in HE. rewrite (eval_ffd fuel h expr f o p meye meye inv m Hm H1 H2 Hp Hn Hl Hb Hf) in HE.
  set (xh := vof (map (fun j => nth j p 0 + st j) (seq 0 n))).
  change (rbind (inv n (jacobian n meye meye m (x_to_u n meye m xh) xh))
    (fun J => Ok (F p, pull_gradient n (vof (map fd (seq 0 n))) J)) = Ok (G, gr)) in HE.
  assert (Exh : forall i, (i < n)%nat -> xh i = nth i p 0 + st i) by (intros i Hi; unfold xh, vof; rewrite nth_map_seq by exact Hi; reflexivity).
  destruct (inv n (jacobian n meye meye m (x_to_u n meye m xh) xh)) as [J'|e] eqn:EJ; [|cbn [rbind] in HE; discriminate HE].
  cbn [rbind] in HE. injection HE as _ HE'. subst gr.
  assert (A : pull_gradient n fd J j = fd j * (zeta j * nth j p 0)).
  { rewrite (lognormal_pull n inv m zeta (vof p) fd J HI); [reflexivity| | |exact HJ|exact Hjn].
    - intros i Hi. destruct (Hz i Hi) as (Z1 & Z2 & _). split; [exact Z1|]. unfold vof. lra.
    - intros i Hi. destruct (Hz i Hi) as (Z1 & Z2 & _). apply Hj; [exact Hi|exact Z2]. }
  match goal with |- ?g j = _ /\ _ => assert (B : g j = fd j * (zeta j * (nth j p 0 + st j))) end.
  { rewrite (lognormal_pull n inv m zeta xh _ J' HI); [|  | |exact EJ|exact Hjn].
    - rewrite Exh by exact Hjn. unfold vof. fold n. rewrite nth_map_seq by exact Hjn. reflexivity.
    - intros i Hi. destruct (Hz i Hi) as (Z1 & Z2 & Z3). split; [exact Z1|]. rewrite Exh by exact Hi. lra.
    - intros i Hi. destruct (Hz i Hi) as (Z1 & Z2 & Z3). apply Hj; [exact Hi|]. rewrite Exh by exact Hi. lra. }
  split; [exact B|]. split; [exact A|]. intros Hg E. rewrite A, B in E.
  destruct (Hz j Hjn) as (Z1 & Z2 & Z3).
  assert (fd j * zeta j * st j = 0) by lra.
  apply Rmult_integral in H. destruct H as [H|H]; [|lra]. apply Rmult_integral in H. destruct H; contradiction.
Qed.
Print Assumptions C19_correct_point_refuted.

(** C20 *)
Theorem C20_mixed_hessian_raises : forall fuel s expr o n h u0 tox G,
  o_multi_proc o <> 0%Z -> o_diff_mode o <> "no"%string -> (1 <= n)%nat ->
  exists e, hess_mixed fuel s expr o n h u0 tox G = Err e.
Proof. exact hess_mixed_raises. Qed.
Print Assumptions C20_mixed_hessian_raises.

(** C20: only with the 'no' mode does the branch work; it then returns the
    symmetric second-difference matrix (each pair read from its own column). *)
Theorem C20_mixed_hessian_without_gradient : forall fuel h expr f o hh u0 tox,
  o_multi_proc o <> 0%Z -> o_diff_mode o = "no"%string -> pointwise expr f -> (1 <= ndists h)%nat ->
  (forall u, length (tox u) = ndists h) -> (1 <= o_block_size o)%Z ->
  (2 * ndists h + ndists h * (ndists h - 1) / 2 < fuel)%nat ->
  let n := ndists h in
  let F := fun u => f (args_at h (tox u)) in
  forall G, exists H, hess_mixed fuel (sm_run h) expr o n hh u0 tox G = Ok H /\
    (forall i, (i < n)%nat -> H i i = (F (u_plus hh u0 i) - 2 * G + F (u_minus hh u0 i)) / (hh * hh)) /\
    (forall i j, (j < i)%nat -> (i < n)%nat ->
       H i j = (F (u_plus hh (u_plus hh u0 i) j) - F (u_plus hh u0 j) - F (u_plus hh u0 i) + G) / (hh * hh) /\ H j i = H i j).
Proof. exact hess_mixed_no_mode. Qed.
Print Assumptions C20_mixed_hessian_without_gradient.

(** C67: gradient-based curve fitting. *)
Theorem C67_hessian_exact_on_quadratics : forall n eg h u0 (b : vec) (Q : mat), h <> 0 ->
  (forall u a, (a < n)%nat -> eg u a = b a + fsum n (fun c => Q a c * u c)) ->
  forall a i, (a < n)%nat -> (i < n)%nat -> hess_grad n eg h u0 a i = Q a i.
Proof. exact hess_grad_affine. Qed.
Print Assumptions C67_hessian_exact_on_quadratics.

(** For the paraboloid G(u) = beta - v_n + 1/2 sum kappa_i v_i^2, v = R1 u
    (eg is its gradient), the matrix whose eigenvalues are taken is exactly
    diag(kappa). *)
Theorem C67_paraboloid_curvatures : forall n R1 (kappa : vec) eg h beta u0,
  (1 <= n)%nat -> h <> 0 ->
  (forall i j, (i < n)%nat -> (j < n)%nat -> dot n (fun a => R1 i a) (fun a => R1 j a) = delta i j) ->
  (forall u a, (a < n)%nat ->
     eg u a = - R1 (n - 1)%nat a + fsum (n - 1) (fun k => kappa k * mvec n R1 u k * R1 k a)) ->
  let ustar : vec := fun a => beta * R1 (n - 1)%nat a in
  forall i j, (i < n - 1)%nat -> (j < n - 1)%nat ->
  curvature_matrix n R1 (hess_grad n eg h u0) (eg ustar) i j = if Nat.eqb i j then kappa i else 0.
Proof. exact paraboloid_curvatures. Qed.
Print Assumptions C67_paraboloid_curvatures.

(** *** concrete instances *)
Example C16_example : exists p b, pf_breitung 3 [1/10; 0] = mksr (Fin p) (Fin b) false /\ 0 < p < Phi (-3) /\ 3 < b.
Proof.
  apply C16_positive_curvature_reduces; [lra| |].
  - repeat constructor; lra.
  - left. lra.
Qed.

Example C16_negative_example : pf_breitung (-1) [1/10] = mksr (Fin 0) (Fin 0) true.
Proof. apply C16_negative_beta_admissible_rejected; [lra|]. left. lra. Qed.

Example C17_example : pf_breitung_pf 2 [1/10; -1/10] [1/10; -1/10] = pf_breitung 2 [1/10; -1/10].
Proof. apply C17_symmetric_agreement; [lra|]. repeat constructor; lra. Qed.

(** a two-dimensional limit state G = 4 + u0^2/4 - u1 on the identity rotation *)
Example C18_example :
  let ev := fun u : vec => Ok (4 + u 0%nat * u 0%nat / 4 - u 1%nat, fun i => match i with O => u 0%nat / 2 | _ => -1 end) in
  exists tr, find_fitting_point 2 meye ev 0 1 4 (3/4) 50 (1/1000000) = (Ok (1/2), tr).
Proof.
  intros ev.
  destruct (C18_linear_direction_exact 2 meye ev 0 1 4 (3/4) 50 (1/1000000) (fun x => 4 + x * x / 4) 1) as (tr & _ & H1 & _).
  - lia.
  - lra.
  - lia.
  - rewrite Rabs_R1. lra.
  - rewrite Rabs_right; lra.
  - intros up Hup. exists (fun i => match i with O => up 0%nat / 2 | _ => -1 end). unfold ev.
    assert (E : forall i, (i < 2)%nat -> mvec 2 (mtrans meye) up i = up i).
    { intros i Hi. unfold mvec, mtrans, meye, delta. destruct i as [|[|i]]; [| |lia]; simpl; ring. }
    rewrite !E by lia. split.
    + f_equal. f_equal. change (2 - 1)%nat with 1%nat. ring.
    + unfold mvec, meye, delta. simpl. ring.
  - exists tr. cbv zeta in H1. rewrite H1.
    + f_equal. f_equal. field.
    + rewrite Rabs_right; lra.
Qed.
