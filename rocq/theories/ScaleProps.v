(** C84-C88: the limit state function expressed in other units (all its values,
    and its gradient if it supplies one, multiplied by one constant l). *)
From Coquelicot Require Import Coquelicot.
From Verif Require Import Base Ext Gauss GaussProofs StochModel LimitState Transf Form FormProofs Sorm Mc Ss Ls ScaleSpec ScaleProofs ScaleFormProofs ScaleSimProofs.
From Coq Require Import ZArith Lra Lia FunctionalExtensionality.
Open Scope R_scope.

(** * C84: FORM *)

(** The evaluation itself: whatever the mode (no gradient, finite differences,
    user gradient), the points passed to the user's function, the state of the
    model and the exceptions are the same, values and gradients are multiplied
    by l. *)
Theorem C84_evaluation : forall l expr expr' fuel s o dm nrv x, times l expr expr' ->
  let r := evaluate_lsf fuel s expr o dm nrv x in
  let r' := evaluate_lsf fuel s expr' o dm nrv x in
  ev_s r' = ev_s r /\ ev_x r' = ev_x r /\ ev_trace r' = ev_trace r /\ ev_out r' = scale_outcome l (ev_out r).
Proof. intros l expr expr' fuel s o dm nrv x H r r'. subst r r'. rewrite (lsf_scale l expr expr' H). repeat split. Qed.

(** With a fixed step size: same iterates, same number of iterations and calls,
    same design point, whatever the sign of l; beta and Pf are those of the
    original for l > 0, and -beta and 1 - Pf for l < 0. *)
Theorem C84_form_fixed_step : forall l expr expr' fuel s o n T invT inv m fo evn lf u0,
  l <> 0 -> fo_step fo <> 0 -> times l expr expr' ->
  let run e := form_run n fo (form_ev fuel s e o n T invT inv m) (form_trial fuel s e o n invT m) evn lf u0 in
  match run expr with
  | (FDone r, c) => exists r', run expr' = (FDone r', c) /\
      fr_i r' = fr_i r /\ fr_u r' = fr_u r /\ fr_G r' = l * fr_G r /\ fr_Go r' = l * fr_Go r /\
      (forall i, fr_grad r' i = l * fr_grad r i) /\
      (0 < l -> form_alpha n r' = form_alpha n r /\ form_beta n r' = form_beta n r /\ form_Pf n r' = form_Pf n r) /\
      (l < 0 -> forall a b p, form_alpha n r = Some a -> form_beta n r = Fin b -> form_Pf n r = Fin p ->
         exists a', form_alpha n r' = Some a' /\ (forall i, a' i = - a i) /\
         form_beta n r' = Fin (- b) /\ form_Pf n r' = Fin (1 - p))
  | (FRaise e, c) => run expr' = (FRaise e, c)
  | (FFuel, c) => run expr' = (FFuel, c)
  end.
Proof.
  intros l expr expr' fuel s o n T invT inv m fo evn lf u0 Hl Hs Ht run.
  assert (E : run expr' = (scale_fo l (fst (run expr)), snd (run expr))).
  { apply form_run_scale; [exact Hl|exact Hs|]. intros u. apply form_ev_scale, Ht. }
  destruct (run expr) as [[r|e|] c] eqn:Er; [|exact E|exact E]. cbn [fst snd scale_fo] in E.
  exists (scale_fr l r). split; [exact E|]. do 5 (split; [reflexivity|]).
  assert (K : forall u, fr_u r = Some u -> norm n (fr_grad r) <> 0).
  { intros u Hu. unfold run, form_run in Er. eapply loop_grad; [exact Er|exact Hu]. }
  assert (B : forall u, fr_u r = Some u -> alpha_of n (fun i => l * fr_grad r i) = fun i => (l / Rabs l) * alpha_of n (fr_grad r) i).
  { intros u Hu. apply (alpha_scale l Hl), (K u Hu). }
  split.
  - intros Lp. assert (S1 : l / Rabs l = 1) by (rewrite Rabs_pos_eq by lra; field; exact Hl).
    unfold form_Pf, form_beta, form_alpha, scale_fr. cbn [fr_u fr_grad]. destruct (fr_u r) as [u|] eqn:Hu; [|repeat split].
    rewrite (B u eq_refl), S1. assert (Q : (fun i => 1 * alpha_of n (fr_grad r) i) = alpha_of n (fr_grad r)) by (apply functional_extensionality; intros; ring).
    rewrite Q. repeat split.
  - intros Ln a b p. assert (S1 : l / Rabs l = -1) by (rewrite Rabs_left by lra; field; exact Hl).
    unfold form_Pf, form_beta, form_alpha, scale_fr. cbn [fr_u fr_grad]. destruct (fr_u r) as [u|] eqn:Hu; [|discriminate].
    intros H1 H2 H3. injection H1 as <-. injection H2 as <-. injection H3 as <-.
    exists (fun i => (-1) * alpha_of n (fr_grad r) i). rewrite (B u eq_refl), S1. rewrite dot_scal_l.
    split; [reflexivity|]. split; [intros; ring|]. split; [f_equal; ring|]. f_equal.
    replace (- (-1 * dot n (alpha_of n (fr_grad r)) u)) with (- - dot n (alpha_of n (fr_grad r)) u) by ring. rewrite Phi_opp. ring.
Qed.

(** The automatic step size (the default) is not invariant: its merit function
    adds the constant 10 to the penalty factor 2 |u| / |grad|, and only the
    latter is inversely proportional to the units.  One variable, the concave
    limit state 1 - u - 0.99 u^2 from the origin, at most two iterations: with
    the original values the first step is halved and the run ends at u = 1/2,
    with the values multiplied by 100 the full step is taken, u = 1. *)
Definition wG (u : R) : R := 1 - u - 99 / 100 * u * u.
Definition wev (l : R) (u : vec) : result (R * vec) * nat := (Ok (l * wG (u 0%nat), fun _ => l * (-1 - 198 / 100 * u 0%nat)), 1%nat).
Definition wtrial (l : R) (us : list vec) : result (list R) * nat := (Ok (map (fun u : vec => l * wG (u 0%nat)) us), length us).
Definition wopts : form_opts := mkfo 2 (1 / 1000) (1 / 1000) 0 (mkopts "ffd"%string 1 100 1000).

Lemma norm1 (g : vec) : norm 1 g = Rabs (g 0%nat).
Proof. unfold norm, dot. cbn [fsum]. rewrite Rplus_0_l. apply sqrt_Rsqr_abs. Qed.


Lemma wstep l : 1 <= l ->
  exists t, computeStepSize 1 wopts (wtrial l) (l * wG 0) (fun _ => l * (-1 - 198 / 100 * 0)) (fun _ => 0) (fun _ => 1) = (Ok t, 6%nat) /\
  (l * 10 < 1 / 2 + 10 * (l * (99 / 100)) -> t = 1 / 2) /\ (1 / 2 + 10 * (l * (99 / 100)) <= l * 10 -> t = 1).
Proof.
  intros Hl. eexists. split; [reflexivity|]. 
  cbn [fo_ls wopts o_multi_proc Z.eqb Pos.eqb wtrial trial_steps ntrial map seq combine length fst snd nth pow].
  unfold penalty, merit_of. rewrite !norm1. unfold wG. cbn [step_while ntrial nth pow].
  assert (C : Rabs 0 * / Rabs (l * (-1 - 198 / 100 * 0)) * 2 + 10 = 10) by (rewrite Rabs_R0; ring). rewrite !C.
  assert (M0 : 1 / 2 * (Rabs 0 * (Rabs 0 * 1)) + 10 * Rabs (l * (1 - 0 - 99 / 100 * 0 * 0)) = 10 * l).
  { rewrite Rabs_R0. replace (l * (1 - 0 - 99 / 100 * 0 * 0)) with l by ring. rewrite (Rabs_pos_eq l) by lra. ring. }
  rewrite !M0.
  assert (M1 : 1 / 2 * (Rabs (0 + 1 * 1) * (Rabs (0 + 1 * 1) * 1)) + 10 * Rabs (l * (1 - (0 + 1 * 1) - 99 / 100 * (0 + 1 * 1) * (0 + 1 * 1))) = 1 / 2 + 10 * (l * (99 / 100))).
  { replace (0 + 1 * 1) with 1 by ring. rewrite Rabs_R1. rewrite (Rabs_left (l * _)) by nra. field. }
  assert (M2 : 1 / 2 * (Rabs (0 + 1 * (1 / 2 * 1)) * (Rabs (0 + 1 * (1 / 2 * 1)) * 1)) + 10 * Rabs (l * (1 - (0 + 1 * (1 / 2 * 1)) - 99 / 100 * (0 + 1 * (1 / 2 * 1)) * (0 + 1 * (1 / 2 * 1)))) = 1 / 8 + 10 * (l * (101 / 400))).
  { replace (0 + 1 * (1 / 2 * 1)) with (1 / 2) by field. rewrite (Rabs_pos_eq (1 / 2)) by lra. rewrite (Rabs_pos_eq (l * _)) by nra. field. }
  rewrite !M1, !M2. split; intros K.
  - rewrite (proj2 (Rltb_spec (10 * l) (1 / 2 + _))) by lra. rewrite (proj2 (Rltb_false (10 * l) (1 / 8 + _))) by lra. field.
  - rewrite (proj2 (Rltb_false (10 * l) (1 / 2 + _))) by lra. reflexivity.
Qed.

Lemma wrun l : 1 <= l ->
  exists t r c, form_run 1 wopts (wev l) (wtrial l) None 3 (fun _ => 0) = (FDone r, c) /\ fr_u r = Some (fun _ => 0 + t * 1) /\
  fr_grad r = (fun _ => l * (-1 - 198 / 100 * (0 + t * 1))) /\
  (l * 10 < 1 / 2 + 10 * (l * (99 / 100)) -> t = 1 / 2) /\ (1 / 2 + 10 * (l * (99 / 100)) <= l * 10 -> t = 1).
Proof.
  intros Hl. destruct (wstep l Hl) as (t & Ht & T1 & T2). exists t.
  assert (W0 : wG 0 = 1) by (unfold wG; ring).
  assert (D : search_dir 1 (l * wG 0) (fun _ => l * (-1 - 198 / 100 * 0)) (fun _ => 0) = fun _ => 1).
  { apply functional_extensionality. intros i. unfold search_dir, alpha_of, dot. cbn [fsum]. rewrite norm1, W0. rewrite Rabs_left by nra. field. nra. }
  unfold form_run. change 3%nat with (S (S 1)). cbn [form_loop wev]. 
  rewrite (norm1 (fun _ => l * (-1 - 198 / 100 * 0))), (Rabs_left (l * (-1 - 198 / 100 * 0))) by nra.
  replace (Reqb (- (l * (-1 - 198 / 100 * 0))) 0) with false by (symmetry; destruct (Reqb _ 0) eqn:Q; [apply Reqb_spec in Q; nra|reflexivity]).
  assert (E1 : xltb (e1_of (l * wG 0) (l * wG 0)) (Fin (fo_e1 wopts)) = false).
  { rewrite W0. unfold e1_of, xinv. replace (Reqb (l * 1) 0) with false by (symmetry; destruct (Reqb _ 0) eqn:Q; [apply Reqb_spec in Q; nra|reflexivity]).
    cbn. apply Rltb_false. rewrite Rinv_r by nra. rewrite Rabs_R1. lra. }
  rewrite E1. cbn [andb orb fo_imax wopts Z.eqb Pos.eqb]. unfold getStepSize. cbn [fo_step wopts]. rewrite (proj2 (Reqb_spec 0 0)) by reflexivity.
  rewrite D, Ht. cbn [form_loop].
  assert (T : t = 1 / 2 \/ t = 1) by (destruct (Rlt_or_le (l * 10) (1 / 2 + 10 * (l * (99 / 100)))) as [Q|Q]; [left; auto|right; auto]).
  match goal with |- context[Reqb (norm 1 ?g) 0] => replace (Reqb (norm 1 g) 0) with false end.
  2:{ symmetry. rewrite norm1. destruct (Reqb _ 0) eqn:Q; [|reflexivity]. apply Reqb_spec in Q. exfalso. revert Q. apply Rabs_no_R0. destruct T; subst t; nra. }
  change ((1 + 1 =? fo_imax wopts)%Z) with true. rewrite Bool.orb_true_r. do 2 eexists. do 3 (split; [reflexivity|]). split; assumption.
Qed.

Theorem C84_automatic_step_refuted :
  exists r c r' c' u u',
    form_run 1 wopts (wev 1) (wtrial 1) None 3 (fun _ => 0) = (FDone r, c) /\ fr_u r = Some u /\ u 0%nat = 1 / 2 /\
    form_run 1 wopts (wev 100) (wtrial 100) None 3 (fun _ => 0) = (FDone r', c') /\ fr_u r' = Some u' /\ u' 0%nat = 1 /\
    form_beta 1 r = Fin (1 / 2) /\ form_beta 1 r' = Fin 1.
Proof.
  destruct (wrun 1 ltac:(lra)) as (t & r & c & H & U & Gr & T & _). destruct (wrun 100 ltac:(lra)) as (t' & r' & c' & H' & U' & Gr' & _ & T').
  assert (t = 1 / 2) by (apply T; lra). assert (t' = 1) by (apply T'; lra). subst t t'.
  exists r, c, r', c', (fun _ => 0 + 1 / 2 * 1), (fun _ => 0 + 1 * 1). do 2 (split; [assumption|]). split; [lra|]. do 2 (split; [assumption|]). split; [lra|].
  unfold form_beta. rewrite U, U', Gr, Gr'. unfold alpha_of, dot. rewrite !norm1. cbn [fsum]. split; f_equal; rewrite Rabs_left by lra; field.
Qed.

(** * C85: Monte Carlo and importance sampling *)

(** The estimate, its coefficient of variation, the stopping point, the points
    drawn and every record except the limit state values themselves depend on
    the limit state only through the signs: two evaluation functions which are
    negative at the same points (and raise alike) give the same run, from any
    earlier state of the object, for every sampling density. *)
Theorem C85_only_signs_matter : forall nrv o stream p tox Gof Gof' fuel prev off,
  (forall us, match Gof us, Gof' us with
              | Ok G, Ok G' => Forall2 (fun a b => a < 0 <-> b < 0) G G'
              | Err e, Err e' => e = e'
              | _, _ => False
              end) ->
  match mc_run nrv o stream p tox Gof fuel prev off, mc_run nrv o stream p tox Gof' fuel prev off with
  | MDone st, MDone st' =>
      mc_Pf st' = mc_Pf st /\ mc_beta st' = mc_beta st /\ ms_cov st' = ms_cov st /\ ms_k st' = ms_k st /\
      ms_pts st' = ms_pts st /\ ms_uall st' = ms_uall st /\ ms_xall st' = ms_xall st /\ ms_hist st' = ms_hist st
  | MRaise e, MRaise e' => e = e'
  | MFuel, MFuel => True
  | _, _ => False
  end.
Proof.
  intros nrv o stream p tox Gof Gof' fuel prev off H.
  pose proof (run_sign nrv o stream p tox Gof Gof' fuel prev prev off H ltac:(repeat split)) as R.
  destruct (mc_run nrv o stream p tox Gof fuel prev off), (mc_run nrv o stream p tox Gof' fuel prev off); try exact R.
  destruct R as (E1&E2&E3&E4&E5&E6&E7&E8&E9&E10&E11). unfold mc_beta, mc_Pf, ms_pts. rewrite E1, E3, E5, E6, E7, E8, E10, E11. repeat split.
Qed.

(** In particular a limit state function in other units, l > 0. *)
Theorem C85_units : forall l s expr expr' lo n invT m o stream p tox fuel prev off, 0 < l -> times l expr expr' ->
  match mc_run n o stream p tox (mc_limit_state s expr lo n invT m) fuel prev off,
        mc_run n o stream p tox (mc_limit_state s expr' lo n invT m) fuel prev off with
  | MDone st, MDone st' =>
      mc_Pf st' = mc_Pf st /\ mc_beta st' = mc_beta st /\ ms_cov st' = ms_cov st /\ ms_k st' = ms_k st /\
      ms_pts st' = ms_pts st /\ ms_uall st' = ms_uall st /\ ms_xall st' = ms_xall st /\ ms_hist st' = ms_hist st
  | MRaise e, MRaise e' => e = e'
  | MFuel, MFuel => True
  | _, _ => False
  end.
Proof. intros. apply C85_only_signs_matter. apply (mc_ls_sign l); assumption. Qed.

(** * C86: subset simulation *)

(** l > 0: same points on every level, same conditional probabilities, same Pf,
    number of levels and calls; thresholds (and recorded limit state values)
    multiplied by l. *)
Theorem C86_units : forall l s expr expr' lo n invT m N block p0 sigma randn unif fuel, 0 < l -> times l expr expr' ->
  let run e := ss_run n N block p0 sigma randn unif (mc_limit_state s e lo n invT m) fuel in
  match run expr with
  | SDone st => exists st', run expr' = SDone st' /\
      ss_Pf st' = ss_Pf st /\ ss_beta st' = ss_beta st /\ ss_cov N st' = ss_cov N st /\
      ss_probs st' = ss_probs st /\ ss_nlevels st' = ss_nlevels st /\ ss_calls st' = ss_calls st /\
      ss_thresholds st' = map (Rmult l) (ss_thresholds st) /\
      map (map fst) (ss_levels st') = map (map fst) (ss_levels st) /\
      map (map snd) (ss_levels st') = map (map (Rmult l)) (map (map snd) (ss_levels st))
  | SRaise e => run expr' = SRaise e
  | SFuel => run expr' = SFuel
  end.
Proof.
  intros l s expr expr' lo n invT m N block p0 sigma randn unif fuel Hl Ht run.
  assert (E : run expr' = sc_so l (run expr)).
  { apply ss_run_scale; [exact Hl|]. intros us. unfold mc_limit_state. rewrite (form_trial_scale l expr expr' _ _ _ _ _ _ _ Ht). reflexivity. }
  destruct (run expr) as [st|e|]; [|exact E|exact E]. exists (sc_ss l st). split; [exact E|]. do 7 (split; [reflexivity|]).
  unfold sc_ss. cbn [ss_levels]. split; rewrite !map_map; apply map_ext; intros a; rewrite !map_map; apply map_ext; reflexivity.
Qed.

(** Not so for a change that only keeps the sign: the intermediate thresholds
    use the values themselves, which is as intended.  For a run that ends on its
    first level the signs are enough (C69 covers the value 0). *)

(** * C87: SORM *)

(** Curve fitting: the Hessian is multiplied by l, and the curvature matrix,
    divided by the gradient norm, is the same for l > 0 and opposite for l < 0
    (then alpha and beta change sign too). *)
Theorem C87_curve_fit : forall l expr expr' fuel s o n T invT inv m (tox : vec -> list R) h u0 R1 grad,
  l <> 0 -> times l expr expr' -> norm n grad <> 0 ->
  (forall u, exists G g, sorm_evaluateLSF fuel s expr o n T invT inv m (tox u) = Ok (G, g)) ->
  let eg e u := match sorm_evaluateLSF fuel s e o n T invT inv m (tox u) with Ok Gg => snd Gg | Err _ => fun _ => 0 end in
  (forall i j, hess_grad n (eg expr') h u0 i j = l * hess_grad n (eg expr) h u0 i j) /\
  (forall i j, curvature_matrix n R1 (hess_grad n (eg expr') h u0) (fun k => l * grad k) i j =
     (if Rltb 0 l then 1 else -1) * curvature_matrix n R1 (hess_grad n (eg expr) h u0) grad i j).
Proof.
  intros l expr expr' fuel s o n T invT inv m tox h u0 R1 grad Hl Ht Hg Hok eg.
  assert (E : forall u k, eg expr' u k = l * eg expr u k).
  { intros u k. unfold eg, sorm_evaluateLSF. destruct (Hok u) as (G & g & Q). revert Q. unfold sorm_evaluateLSF. cbv zeta.
    rewrite (lsf_scale l expr expr' Ht). unfold scale_ev. cbn [ev_out ev_x].
    destruct (ev_out (evaluate_lsf fuel s expr o None n [tox u])) as [Gs gr|e|]; [|discriminate|discriminate]. cbn [scale_outcome].
    destruct (inv n _) as [J|e]; [|discriminate]. cbn [rbind snd]. intros _. unfold pull_gradient. rewrite <- fsum_scal. apply fsum_ext. intros i _.
    assert (K : vof (nth 0 (map (map (Rmult l)) gr) []) i = l * vof (nth 0 gr []) i) by (destruct gr as [|g0 gr]; [unfold vof; destruct i; cbn; ring|apply nth_scale]).
    rewrite K. ring. }
  assert (Hh : forall i j, hess_grad n (eg expr') h u0 i j = l * hess_grad n (eg expr) h u0 i j).
  { intros i j. unfold hess_grad. rewrite !E. unfold Rdiv. ring. }
  split; [exact Hh|]. intros i j. unfold curvature_matrix. rewrite norm_scale_vec.
  assert (M : mmul n (mmul n R1 (hess_grad n (eg expr') h u0)) (mtrans R1) i j = l * mmul n (mmul n R1 (hess_grad n (eg expr) h u0)) (mtrans R1) i j).
  { unfold mmul. rewrite <- fsum_scal. apply fsum_ext. intros a _. rewrite <- Rmult_assoc. f_equal. rewrite <- fsum_scal. apply fsum_ext. intros b _. rewrite Hh. ring. }
  rewrite M. destruct (Rltb 0 l) eqn:L.
  - apply Rltb_spec in L. rewrite Rabs_pos_eq by lra. field. split; assumption.
  - apply Rltb_false in L. rewrite Rabs_left by lra. field. split; assumption.
Qed.

(** Point fitting compares |G| with an absolute tolerance (10^-6 in the code),
    before the first Newton step.  Whatever the limit state, if the units make
    its value at the trial point smaller than the tolerance, the trial point,
    which lies on the tangent plane, is taken for a point of the surface and the
    fitted curvature is 0. *)
Theorem C87_point_fit_small_units : forall n R1 ev axis sign beta k max_iter tol l G g,
  (axis < n - 1)%nat -> (1 <= max_iter)%nat ->
  let start := mvec n (mtrans R1) (fun a => if Nat.eqb a (n - 1) then beta else if Nat.eqb a axis then sign * k * beta else 0) in
  ev start = Ok (G, g) -> Rabs (l * G) < tol ->
  fst (find_fitting_point n R1 (fun u => scale_res (scale_Gg l) (ev u)) axis sign beta k max_iter tol) = Ok 0.
Proof.
  intros n R1 ev axis sign beta k max_iter tol l G g Ha Hm start He Hsm. unfold find_fitting_point. destruct max_iter as [|mi]; [lia|].
  cbn [fit_loop]. fold start. rewrite He. cbn [scale_res scale_Gg fst snd]. rewrite (proj2 (Rltb_spec _ tol) Hsm).
  destruct (Rltb _ (1 / 1000000000000)) eqn:Q; [reflexivity|]. cbn [fst]. apply Rltb_false in Q. f_equal.
  rewrite Nat.eqb_refl. unfold Rdiv. ring.
Qed.

(** Hence the curvatures, and SORM's correction, depend on the units. *)
Theorem C87_point_fit_invariance_refuted :
  exists n R1 ev axis beta l c, 0 < l /\
    fst (find_fitting_point n R1 ev axis 1 beta 1 50 (1 / 1000000)) = Ok c /\ c <> 0 /\
    fst (find_fitting_point n R1 (fun u => scale_res (scale_Gg l) (ev u)) axis 1 beta 1 50 (1 / 1000000)) = Ok 0.
Proof.
  (* the parabola u1 = 2 + u0^2 / 2, i.e. G = 2 + u0^2/2 - u1, beta = 2, trial point (2, 2) *)
  exists 2%nat, meye, (fun u => Ok (2 + u 0%nat ^ 2 / 2 - u 1%nat, (fun i => if Nat.eqb i 0 then u 0%nat else -1) : vec)), 0%nat, 2, (1 / 10000000), 1.
  split; [lra|].
  assert (I : forall u : vec, mvec 2 (mtrans meye) u 0%nat = u 0%nat /\ mvec 2 (mtrans meye) u 1%nat = u 1%nat).
  { intros u. unfold mvec, mtrans, meye, delta. cbn. split; ring. }
  assert (J : forall u : vec, mvec 2 meye u 1%nat = u 1%nat) by (intros u; unfold mvec, meye, delta; cbn; ring).
  split; [|split; [lra|]].
  - unfold find_fitting_point. assert (F50 : exists q, 50%nat = S (S q)) by (exists 48%nat; reflexivity). destruct F50 as [q ->]. cbn [fit_loop Nat.sub].
    rewrite !(proj1 (I _)), !(proj2 (I _)). cbn [Nat.eqb]. rewrite (proj2 (Rltb_false _ (1 / 1000000))).
    2:{ replace (2 + (1 * 1 * 2) ^ 2 / 2 - 2) with 2 by field. rewrite Rabs_pos_eq by lra. lra. }
    rewrite J. cbn [Nat.eqb]. rewrite (proj2 (Rltb_false _ (1 / 1000000000000))).
    2:{ rewrite Rabs_left by lra. lra. }
    rewrite (proj2 (Rltb_spec _ (1 / 1000000))).
    2:{ replace (2 + (1 * 1 * 2) ^ 2 / 2 - (2 - (2 + (1 * 1 * 2) ^ 2 / 2 - 2) / -1)) with 0 by field. rewrite Rabs_R0. lra. }
    cbn [Nat.eqb]. rewrite (proj2 (Rltb_false _ (1 / 1000000000000))). 2:{ rewrite Rabs_pos_eq by lra. lra. }
    cbn [fst]. f_equal. field.
  - eapply C87_point_fit_small_units; [cbn; lia|lia|reflexivity|]. cbv zeta. rewrite (proj1 (I _)), (proj2 (I _)). cbn [Nat.eqb Nat.sub].
    replace (1 / 10000000 * (2 + (1 * 1 * 2) ^ 2 / 2 - 2)) with (2 / 10000000) by field. rewrite Rabs_pos_eq by lra. lra.
Qed.

(** If the tolerance is expressed in the same units the result is the same, as
    long as the absolute bound 10^-12 on the slope is not met: l >= 1. *)
Theorem C87_point_fit_scaled_tolerance : forall n R1 ev axis sign beta k max_iter tol l c,
  1 <= l ->
  fst (find_fitting_point n R1 ev axis sign beta k max_iter tol) = Ok c ->
  fst (find_fitting_point n R1 (fun u => scale_res (scale_Gg l) (ev u)) axis sign beta k max_iter (l * tol)) = Ok c.
Proof.
  intros n R1 ev axis sign beta k max_iter tol l c Hl. unfold find_fitting_point. set (up0 := fun a : nat => _).
  assert (F : forall kq up tr, fst (fit_loop kq n R1 ev tol up tr) <> Err ERuntime -> 
     match fit_loop kq n R1 ev tol up tr with
     | (Ok v, t) => fit_loop kq n R1 (fun u => scale_res (scale_Gg l) (ev u)) (l * tol) up tr = (Ok v, t)
     | _ => True end).
  { clear up0. induction kq as [|kk IH]; intros up tr; cbn [fit_loop]; [intros Q; exact I|].
    set (u := mvec n (mtrans R1) up). destruct (ev u) as [[G g]|e]; [|intros _; exact I]. cbn [scale_res scale_Gg fst snd].
    assert (T : Rltb (Rabs (l * G)) (l * tol) = Rltb (Rabs G) tol).
    { rewrite Rabs_mult, (Rabs_pos_eq l) by lra. destruct (Rltb (Rabs G) tol) eqn:Q; [apply Rltb_spec in Q; apply Rltb_spec; nra|apply Rltb_false in Q; apply Rltb_false; nra]. }
    rewrite T. destruct (Rltb (Rabs G) tol); [intros _; reflexivity|].
    assert (S : mvec n R1 (fun i => l * g i) (n - 1)%nat = l * mvec n R1 g (n - 1)%nat).
    { unfold mvec. rewrite <- fsum_scal. apply fsum_ext. intros i _. ring. }
    rewrite S. set (gn := mvec n R1 g (n - 1)%nat). destruct (Rltb (Rabs gn) (1 / 1000000000000)) eqn:Q; [intros W; exfalso; apply W; reflexivity|].
    apply Rltb_false in Q. rewrite (proj2 (Rltb_false (Rabs (l * gn)) _)).
    2:{ rewrite Rabs_mult, (Rabs_pos_eq l) by lra. pose proof (Rabs_pos gn). nra. }
    assert (gn <> 0). { intros Z. rewrite Z, Rabs_R0 in Q. lra. }
    assert (U : (fun a => if Nat.eqb a (n - 1) then up a - l * G / (l * gn) else up a) = (fun a => if Nat.eqb a (n - 1) then up a - G / gn else up a)).
    { apply functional_extensionality. intros a. destruct (Nat.eqb a (n - 1)); [|reflexivity]. field. lra. }
    rewrite U. apply IH. }
  intros H. specialize (F max_iter up0 []). destruct (fit_loop max_iter n R1 ev tol up0 []) as [[v|e] t]; [|discriminate].
  rewrite (F ltac:(discriminate)). destruct (Rltb (Rabs (v axis)) (1 / 1000000000000)); exact H.
Qed.

(** * C88: line sampling *)

(** With the same direction and starting reliability index (C84) the bracket on
    every line depends only on the signs of the limit state; if the root finder
    returns the same root for both functions, the result is the same. *)
Theorem C88_line_sampling : forall n N randn ev ev' brentq alpha beta_form,
  (forall u, match ev u, ev' u with
             | Some x, Some y => (x < 0 <-> y < 0) /\ (0 < x <-> 0 < y)
             | None, None => True
             | _, _ => False
             end) ->
  (forall v lo hi, brentq (fun c => ev' (line_pt v alpha c)) lo hi = brentq (fun c => ev (line_pt v alpha c)) lo hi) ->
  ls_run n N randn ev' brentq alpha beta_form = ls_run n N randn ev brentq alpha beta_form.
Proof.
  intros n N randn ev ev' brentq alpha beta_form H Hb. unfold ls_run.
  assert (E : forall v, find_line_intersection ev' brentq v alpha beta_form = find_line_intersection ev brentq v alpha beta_form).
  { intros v. apply line_sign; [exact H|]. intros lo hi. apply Hb. }
  rewrite (map_ext _ _ (fun j => E (foot n alpha (fun i => randn (i * N + j)%nat)))). reflexivity.
Qed.

Theorem C88_units : forall n N randn ev brentq alpha beta_form l, 0 < l ->
  (forall f lo hi, brentq (fun c => option_map (Rmult l) (f c)) lo hi = brentq f lo hi) ->
  ls_run n N randn (fun u => option_map (Rmult l) (ev u)) brentq alpha beta_form = ls_run n N randn ev brentq alpha beta_form.
Proof.
  intros n N randn ev brentq alpha beta_form l Hl Hb. apply C88_line_sampling.
  - intros u. destruct (ev u); cbn; [split; nra|exact I].
  - intros v lo hi. apply (Hb (fun c => ev (line_pt v alpha c))).
Qed.

(** * The hypotheses are met *)

(** every limit state function has a rescaled version, with the same exceptions;
    completed FORM runs of it are produced by C24_linear_normal_beta *)
Example C84_example : forall l expr, times l expr (fun kw => match expr kw with Ok o => Ok (scale_out l o) | Err e => Err e end).
Proof. intros l expr kw. reflexivity. Qed.
Example C84_example_values : scale_out 2 (UTuple (Arr [1; -3]) [5]) = UTuple (Arr [2 * 1; 2 * -3]) [2 * 5].
Proof. reflexivity. Qed.

(** a sign-preserving change that is no change of units: the cube *)
Example C85_example : forall (g : vec -> R) us,
  Forall2 (fun a b => a < 0 <-> b < 0) (map g us) (map (fun u => g u * (g u * g u)) us).
Proof.
  intros g us. induction us as [|u us IH]; constructor; [|exact IH]. split; intros H.
  - assert (0 < g u * g u) by nra. nra.
  - destruct (Rlt_or_le (g u) 0) as [L|L]; [exact L|]. assert (0 <= g u * (g u * g u)) by (apply Rmult_le_pos; [exact L|nra]). lra.
Qed.

(** a bisection step satisfies the contract of C88 *)
Example C88_example : forall l, 0 < l ->
  let step (f : R -> option R) lo hi := match f ((lo + hi) / 2) with
    | Some g => Some (if Rltb 0 g then ((lo + hi) / 2 + hi) / 2 else (lo + (lo + hi) / 2) / 2) | None => None end in
  forall f lo hi, step (fun c => option_map (Rmult l) (f c)) lo hi = step f lo hi.
Proof.
  intros l Hl step f lo hi. unfold step. destruct (f ((lo + hi) / 2)) as [g|]; [|reflexivity]. cbn [option_map].
  destruct (Rltb 0 g) eqn:E; [apply Rltb_spec in E; rewrite (proj2 (Rltb_spec 0 (l * g))) by nra|apply Rltb_false in E; rewrite (proj2 (Rltb_false 0 (l * g))) by nra]; reflexivity.
Qed.

Print Assumptions C84_evaluation.
Print Assumptions C84_form_fixed_step.
Print Assumptions C84_automatic_step_refuted.
Print Assumptions C85_only_signs_matter.
Print Assumptions C85_units.
Print Assumptions C86_units.
Print Assumptions C87_curve_fit.
Print Assumptions C87_point_fit_small_units.
Print Assumptions C87_point_fit_invariance_refuted.
Print Assumptions C87_point_fit_scaled_tolerance.
Print Assumptions C88_line_sampling.
Print Assumptions C88_units.
