(** Property theorems C95: the units of the random variables. *)
From Coquelicot Require Import Coquelicot.
From Verif Require Import Base Ext Gauss GaussProofs StochModel StochModelSpec StochModelProofs LimitState LimitStateSpec LimitStateProofs LimitStateProps Transf TransfSpec TransfProofs Form FormProofs Nataf NatafProofs Dist DistProofs DistMomProofs RotSpec RotProofs RotProps PermProofs Mc Ss Pipe PipeSpec PipeProofs PipeProps UnitsSpec UnitsProofs.
From Coq Require Import ZArith Lra Lia FunctionalExtensionality.
Open Scope R_scope.

(** C95: a whole Form analysis (modified correlation, factorisation, iteration; any transform type,
    correlation, options except ddm gradients) of the same problem with every variable in other
    units: the same transformation matrices, iterations, beta, Pf, alpha, number of calls, the same
    exception if there is one, and the converted design point. *)
Theorem C95_form_units : forall fmin chol svd inv e0 n a b h h' f f' expr expr' fo evn fuel lf ob,
  converted n a b h h' -> converted_lsf n a b h h' f f' -> pointwise expr f -> pointwise expr' f' ->
  (1 <= n)%nat -> inv_total n inv e0 ->
  o_multi_proc (fo_ls fo) <> 0%Z -> (1 <= o_block_size (fo_ls fo))%Z -> o_diff_mode (fo_ls fo) <> "ddm"%string ->
  o_ffdpara (fo_ls fo) <> 0 -> (S n < lf)%nat -> (ntrial < lf)%nat ->
  let r := run_form fmin chol svd inv fuel lf expr fo evn ob (sm_run h) in
  let r' := run_form fmin chol svd inv fuel lf expr' fo evn ob (sm_run h') in
  fb_TA (fst (fst r')) = fb_TA (fst (fst r)) /\
  (sm_calls (snd (fst r')) - sm_calls (sm_run h') = sm_calls (snd (fst r)) - sm_calls (sm_run h))%nat /\
  match snd r, snd r' with
  | FDone x, FDone x' => exists T A, fb_TA (fst (fst r)) = Some (T, A) /\
      same_report n a b A (marg_at (sm_run h)) (marg_at (sm_run h')) x x'
  | FRaise e, FRaise e' => e' = e
  | FFuel, FFuel => True
  | _, _ => False
  end.
Proof.
  intros fmin chol svd inv e0 n a b h h' f f' expr expr' fo evn fuel lf ob HU HF Hp Hp' Hn HI Hmp Hbs Hdd Hff Hlf Hlt r r'.
  pose proof (un_n _ _ _ _ _ HU) as N. pose proof (un_n' _ _ _ _ _ HU) as N'.
  assert (L : length (sm_marg (sm_run h)) = n) by (rewrite un_len; exact N). assert (L' : length (sm_marg (sm_run h')) = n) by (rewrite un_len; exact N').
  assert (EC : sm_corr (sm_run h') = sm_corr (sm_run h)) by apply HU.
  unfold r, r'. unfold run_form, init_run_full, setModifiedCorrelationMatrix. rewrite EC. clear r r'.
  destruct (sm_corr (sm_run h)) as [M|]; [|cbn; repeat split; lia].
  destruct (forallb _ M); [|cbn; repeat split; lia].
  rewrite L, L', (un_modified n a b h h' HU fmin (length M) (mat_of M)).
  destruct (computeModifiedCorrelationMatrix _ _ _ _ _) as [[Ro lg]|e]; [|cbn; repeat split; lia].
  cbn [setModifiedCorrelation sm_Ro sm_marg]. rewrite rows_length.
  destruct (transf_compute chol svd inv (fb_type ob) (length M) _) as [[T A]|e]; [|cbn; repeat split; lia].
  rewrite L, L'. destruct (Nat.eqb (length M) n) eqn:EL; [|cbn; repeat split; lia].
  set (s1 := setModifiedCorrelation (sm_run h) (rows_of (length M) Ro)). set (s2 := setModifiedCorrelation (sm_run h') (rows_of (length M) Ro)).
  change (mksm (sm_variables (sm_run h)) (sm_names (sm_run h)) (sm_marg (sm_run h)) (sm_corr (sm_run h)) (Some (rows_of (length M) Ro)) (sm_calls (sm_run h)) (sm_consts (sm_run h))) with s1.
  change (mksm (sm_variables (sm_run h')) (sm_names (sm_run h')) (sm_marg (sm_run h')) (sm_corr (sm_run h')) (Some (rows_of (length M) Ro)) (sm_calls (sm_run h')) (sm_consts (sm_run h'))) with s2.
  assert (I0 : meq n (mmul n (mtrans meye) meye) meye).
  { intros i j Hi Hj. rewrite mmul_eye_r by exact Hj. unfold mtrans, meye. apply delta_sym. }
  assert (R1 := run_rot n meye I0 fo _ _ _ _ evn (ev_units n a b h h' HU expr expr' f f' lf (fo_ls fo) HF Hp Hp' Hn Hmp Hbs Hdd Hff Hlf T A inv e0 HI)
      (fun us us' (E : length us = ntrial) F => trial_units n a b h h' HU expr expr' f f' lf (fo_ls fo) HF Hp Hp' Hn Hmp Hbs A us us' (eq_ind_r (fun k => (k < lf)%nat) Hlt E) F) fuel _ _ (start_units n a b h h' HU T)).
  pose proof (sim_loop inv lf expr fo n T A evn (sm_run h) fuel 1 None (Some (computeStartingPoint n T (marg_at s1))) 0 (fun _ => 0) s1 0 (core_Ro (sm_run h) _)) as S1.
  pose proof (sim_loop inv lf expr' fo n T A evn (sm_run h') fuel 1 None (Some (computeStartingPoint n T (marg_at s2))) 0 (fun _ => 0) s2 0 (core_Ro (sm_run h') _)) as S2.
  change (marg_at s1) with (marg_at (sm_run h)) in *. change (marg_at s2) with (marg_at (sm_run h')) in *.
  unfold form_run in R1. cbv zeta. unfold rot_out in R1.
  destruct (form_loop n fo (form_ev lf (sm_run h) _ _ _ _ _ _ _) _ _ _ _ _ _ _ _ _) as [out1 c1].
  destruct (form_loop n fo (form_ev lf (sm_run h') _ _ _ _ _ _ _) _ _ _ _ _ _ _ _ _) as [out2 c2].
  destruct S1 as [_ ->]. destruct S2 as [_ ->]. rewrite !Nat.sub_0_r.
  assert (EY : forall v v', rot n meye v v' -> veq n v' v) by (intros v v' H i Hi; rewrite (H i Hi); apply mvec_eye; exact Hi).
  destruct out1 as [x|e|], out2 as [x'|e'|]; try contradiction; cbn.
  - destruct R1 as [RR ->]. split; [reflexivity|]. split; [lia|]. exists T, A. split; [reflexivity|].
    destruct (res_rot n meye I0 x x' RR) as (B & P & AL). destruct RR as (H1 & H2 & H3 & H4 & _).
    do 5 (split; [assumption|]). unfold form_alpha in *. destruct (fr_u x) as [u|], (fr_u x') as [u'|]; try contradiction; [|exact I].
    cbn in H2, AL. split; [apply EY, H2|]. split; [apply EY, AL|]. intros i Hi. apply (x_units n a b h h' HU); [apply EY, H2|exact Hi].
  - destruct R1 as [-> ->]. split; [reflexivity|]. split; [lia|reflexivity].
  - rewrite R1. split; [reflexivity|]. split; [lia|exact I].
Qed.
Print Assumptions C95_form_units.

(** The physical records do not influence a simulation. *)
Definition but_x (s t : mc_state) : Prop :=
  ms_k t = ms_k s /\ ms_off t = ms_off s /\ ms_sum_q t = ms_sum_q s /\ ms_sum_q2 t = ms_sum_q2 s /\ ms_qbar t = ms_qbar s /\
  ms_cov t = ms_cov s /\ ms_allG t = ms_allG s /\ ms_uall t = ms_uall s /\ ms_approx t = ms_approx s /\ ms_blocks t = ms_blocks s /\ ms_hist t = ms_hist s.
Lemma loop_tox nrv o stream p tox tox' Gof fuel : forall st st', but_x st st' ->
  match mc_loop nrv o stream p tox Gof fuel st, mc_loop nrv o stream p tox' Gof fuel st' with
  | MDone s, MDone s' => but_x s s' | MRaise e, MRaise e' => e = e' | MFuel, MFuel => True | _, _ => False end.
Proof.
  induction fuel as [|k IH]; intros st st' B; [exact I|]. cbn [mc_loop]. destruct B as (E1&E2&E3&E4&E5&E6&E7&E8&E9&E10&E11). rewrite E1.
  destruct (ms_k st <? mo_samples o)%Z; [|repeat split; assumption].
  unfold mc_block. destruct (_ <? 0)%Z; [reflexivity|]. destruct (negb _); [reflexivity|]. cbv zeta. rewrite E2.
  destruct (Gof _) as [G|e]; [|reflexivity]. cbn [ms_cov]. rewrite E1, E3, E4. destruct (Rleb _ (mo_target o)).
  - unfold but_x. cbn. rewrite ?E7, ?E8, ?E9, ?E10, ?E11. repeat split.
  - apply IH. unfold but_x. cbn. rewrite ?E7, ?E8, ?E9, ?E10, ?E11. repeat split.
Qed.

(** C95: the simulation methods see the same limit state values at the same standard normal points
    (same random numbers), so crude Monte Carlo and importance sampling about the same point, and
    subset simulation, give the same run. *)
Theorem C95_simulation_units : forall n a b h h' f f' expr expr' lo A,
  converted n a b h h' -> converted_lsf n a b h h' f f' -> pointwise expr f -> pointwise expr' f' ->
  (1 <= n)%nat -> o_multi_proc lo <> 0%Z -> (1 <= o_block_size lo)%Z ->
  let m := marg_at (sm_run h) in let m' := marg_at (sm_run h') in
  let Gof := mc_limit_state (sm_run h) expr lo n A m in let Gof' := mc_limit_state (sm_run h') expr' lo n A m' in
  (forall us, Gof' us = Gof us) /\
  (forall o stream p fuel off,
    match mc_run n o stream p (u_to_x n A m) Gof fuel mc_fresh off, mc_run n o stream p (u_to_x n A m') Gof' fuel mc_fresh off with
    | MDone st, MDone st' =>
        mc_Pf st' = mc_Pf st /\ mc_beta st' = mc_beta st /\ ms_cov st' = ms_cov st /\ ms_k st' = ms_k st /\
        ms_allG st' = ms_allG st /\ ms_pts st' = ms_pts st /\ ms_hist st' = ms_hist st
    | MRaise e, MRaise e' => e = e'
    | MFuel, MFuel => True
    | _, _ => False
    end) /\
  (forall N block p0 sigma randn unif fuel,
    ss_run n N block p0 sigma randn unif Gof' fuel = ss_run n N block p0 sigma randn unif Gof fuel).
Proof.
  intros n a b h h' f f' expr expr' lo A HU HF Hp Hp' Hn Hmp Hbs m m' Gof Gof'.
  assert (E : forall us, Gof' us = Gof us).
  { intros us. unfold Gof, Gof', mc_limit_state. f_equal. apply (trial_units n a b h h' HU expr expr' f f' (S (length us)) lo HF Hp Hp' Hn Hmp Hbs A); [lia|].
    clear - us. induction us as [|u us IH]; constructor; [|exact IH]. intros i Hi. symmetry. now apply mvec_eye. }
  assert (EE : Gof' = Gof) by (apply functional_extensionality; exact E).
  split; [exact E|]. rewrite EE. split; [|reflexivity].
  intros o stream p fuel off. unfold mc_run. destruct (mo_samples o <? 0)%Z; [reflexivity|]. destruct (mo_samples o =? 0)%Z; [reflexivity|].
  pose proof (loop_tox n o stream p (u_to_x n A m) (u_to_x n A m') Gof fuel (mkms 0 off 0 0 0 1 None None None None [] []) _ ltac:(repeat split)) as X.
  cbn [mc_fresh ms_allG ms_uall ms_xall ms_approx]. destruct (mc_loop _ _ _ _ (u_to_x n A m) _ _ _); destruct (mc_loop _ _ _ _ (u_to_x n A m') _ _ _); try exact X.
  destruct X as (E1&E2&E3&E4&E5&E6&E7&E8&E9&E10&E11). unfold mc_beta, mc_Pf, ms_pts. rewrite E1, E3, E5, E6, E7, E10, E11. repeat split.
Qed.
Print Assumptions C95_simulation_units.

(** C95: which classes follow the conversion of their moments.  [scaled d d'] is in_units for the
    default starting point (the mean). *)
Definition std_rv (name : string) (o : frozen) : rv := let s := base_init o None in rv_of name (base_dist s) (so_start s).
Lemma frozen_units name a b fam loc sc : 0 < a -> sc <> 0 ->
  in_units a b (std_rv name (mkFrozen fam loc sc)) (std_rv name (mkFrozen fam (a * loc + b) (a * sc))).
Proof.
  intros Ha Hs. unfold std_rv, in_units, rv_of, base_dist, base_init, fz_mean, fz_std, fz_ppf, fz_cdf, fz_pdf. cbn.
  assert (X : forall t, (a * loc + b + a * sc * t - (a * loc + b)) / (a * sc) = (loc + sc * t - loc) / sc) by (intros t; field; lra).
  split; [reflexivity|]. split; [ring|]. split; [ring|]. split; [ring|]. split; [intros; ring|]. split; [now rewrite X|].
  intros u. rewrite X. field. assert (phi u <> 0) by (pose proof (phi_pos u); lra). repeat split; try assumption; lra.
Qed.

(** Normal, Uniform, shifted exponential and Rayleigh, Gumbel (type I largest), type I smallest and
    GEVmax: any change of units. *)
Theorem C95_location_scale_classes : forall name a b mean stdv, 0 < a -> 0 < stdv ->
  in_units a b (Normal name mean stdv) (Normal name (a * mean + b) (a * stdv)) /\
  (let u := fun m s => let d := uniform_init m s true None in rv_of name (uniform_dist d) (so_start (un_s d)) in
   in_units a b (u mean stdv) (u (a * mean + b) (a * stdv))) /\
  in_units a b (std_rv name (shiftedexp_obj mean stdv true)) (std_rv name (shiftedexp_obj (a * mean + b) (a * stdv) true)) /\
  in_units a b (std_rv name (shiftedrayleigh_obj mean stdv true)) (std_rv name (shiftedrayleigh_obj (a * mean + b) (a * stdv) true)) /\
  (forall eg, in_units a b (std_rv name (gumbel_obj eg mean stdv true)) (std_rv name (gumbel_obj eg (a * mean + b) (a * stdv) true))) /\
  (forall eg, in_units a b (std_rv name (typeismallest_obj eg mean stdv true)) (std_rv name (typeismallest_obj eg (a * mean + b) (a * stdv) true))).
Proof.
  intros name a b mean stdv Ha Hs. pose proof PI_RGT_0 as HPI. assert (S6 : sqrt 6 <> 0) by (apply Rgt_not_eq, sqrt_lt_R0; lra).
  assert (S3 : 0 < sqrt 3) by (apply sqrt_lt_R0; lra).
  split; [|split; [|split; [|split; [|split]]]].
  - unfold in_units, Normal, rv_of, normal_init, normal_dist. cbn. repeat split; intros; try ring.
    + unfold Rminus. rewrite !Rplus_opp_r. unfold Rdiv. ring.
    + field. lra.
  - cbn zeta. unfold in_units, rv_of, uniform_dist, uniform_init, base_dist, base_init, fz_mean, fz_std, fz_cdf, fz_pdf. cbn.
    set (w := mean + sqrt 3 * stdv - (mean - sqrt 3 * stdv)).
    assert (W : a * mean + b + sqrt 3 * (a * stdv) - (a * mean + b - sqrt 3 * (a * stdv)) = a * w) by (unfold w; ring).
    assert (W0 : w <> 0) by (unfold w; nra). rewrite W.
    assert (L0 : a * mean + b - sqrt 3 * (a * stdv) = a * (mean - sqrt 3 * stdv) + b) by ring. rewrite L0. set (l := mean - sqrt 3 * stdv).
    assert (X : forall t, (a * l + b + a * w * t - (a * l + b)) / (a * w) = (l + w * t - l) / w) by (intros t; field; lra).
    split; [reflexivity|]. split; [ring|]. split; [ring|]. split; [ring|]. split; [intros; ring|]. split; [now rewrite !X|].
    intros u. rewrite !X. field. assert (phi u <> 0) by (pose proof (phi_pos u); lra). repeat split; try assumption; lra.
  - unfold shiftedexp_obj. replace (a * mean + b - a * stdv) with (a * (mean - stdv) + b) by ring.
    replace (1 / (1 / (a * stdv))) with (a * (1 / (1 / stdv))) by (field; lra). apply frozen_units; [exact Ha|].
    replace (1 / (1 / stdv)) with stdv by (field; lra). lra.
  - unfold shiftedrayleigh_obj. replace (a * mean + b - a * stdv * sqrt (PI / (4 - PI))) with (a * (mean - stdv * sqrt (PI / (4 - PI))) + b) by ring.
    assert (Q : sqrt (2 - PI * (1 / 2)) <> 0) by (apply Rgt_not_eq, sqrt_lt_R0; pose proof PI_lt_4; lra).
    replace (a * stdv / sqrt (2 - PI * (1 / 2))) with (a * (stdv / sqrt (2 - PI * (1 / 2)))) by (field; exact Q). apply frozen_units; [exact Ha|].
    apply Rmult_integral_contrapositive_currified; [lra|]. now apply Rinv_neq_0_compat.
  - intros eg. unfold gumbel_obj. replace (a * mean + b - eg_literal * (a * stdv) * sqrt 6 / PI) with (a * (mean - eg_literal * stdv * sqrt 6 / PI) + b) by (field; lra).
    replace (a * stdv * sqrt 6 / PI) with (a * (stdv * sqrt 6 / PI)) by (field; lra). apply frozen_units; [exact Ha|].
    apply Rmult_integral_contrapositive_currified; [apply Rmult_integral_contrapositive_currified; lra|]. apply Rinv_neq_0_compat. lra.
  - intros eg. unfold typeismallest_obj. replace (a * mean + b + eg_literal * (a * stdv) * sqrt 6 / PI) with (a * (mean + eg_literal * stdv * sqrt 6 / PI) + b) by (field; lra).
    replace (1 / (PI / (a * stdv * sqrt 6))) with (a * (1 / (PI / (stdv * sqrt 6)))) by (field; lra). apply frozen_units; [exact Ha|].
    replace (1 / (PI / (stdv * sqrt 6))) with (stdv * sqrt 6 / PI) by (field; lra).
    apply Rmult_integral_contrapositive_currified; [apply Rmult_integral_contrapositive_currified; lra|]. apply Rinv_neq_0_compat. lra.
Qed.
Print Assumptions C95_location_scale_classes.

Lemma prod_neq x y : x <> 0 -> y <> 0 -> x * y <> 0.
Proof. intros. now apply Rmult_integral_contrapositive_currified. Qed.
Lemma zeta_pos mean stdv : 0 < mean -> 0 < stdv -> 0 < sqrt (ln (1 + stdv / mean * (stdv / mean))).
Proof.
  intros Hm Hs. apply sqrt_lt_R0. rewrite <- ln_1. apply ln_increasing; [lra|].
  assert (0 < stdv / mean) by (apply Rdiv_lt_0_compat; assumption). nra.
Qed.
(** shifted lognormal with its lower bound converted; Lognormal is the case without bound *)
Lemma slog_units name a b mean stdv lower d d' : 0 < a -> 0 < stdv -> lower < mean ->
  slognormal_init mean stdv lower true None = Ok d ->
  slognormal_init (a * mean + b) (a * stdv) (a * lower + b) true None = Ok d' ->
  in_units a b (rv_of name (slognormal_dist d) (Dist.ln_start (sl_ln d))) (rv_of name (slognormal_dist d') (Dist.ln_start (sl_ln d'))).
Proof.
  intros Ha Hs Hm H H'. injection H as <-. injection H' as <-.
  assert (Hm0 : 0 < mean - lower) by lra.
  replace (a * mean + b - (a * lower + b)) with (a * (mean - lower)) by ring. set (m := mean - lower) in *.
  unfold ln_params. cbv zeta. cbn [fst snd].
  replace (a * stdv / (a * m)) with (stdv / m) by (field; lra).
  pose proof (zeta_pos m stdv Hm0 Hs) as Hz. set (z := sqrt (ln (1 + stdv / m * (stdv / m)))) in *. rewrite ln_mult by lra.
  set (l := ln m - 1 / 2 * (z * z)). replace (ln a + ln m - 1 / 2 * (z * z)) with (l + ln a) by (unfold l; ring).
  assert (EX : exp (l + ln a) = a * exp l) by (rewrite exp_plus, exp_ln by lra; ring).
  unfold in_units, rv_of, slognormal_dist, lognormal_dist, base_init, fz_mean, fz_std, ln_pdf. cbn.
  rewrite EX. pose proof (exp_pos l) as Pl. pose proof (exp_pos (z * z / 2)) as Pz.
  assert (Hsc : forall x, 0 < x -> (ln (a * x) - (l + ln a)) / z = (ln x - l) / z) by (intros x Hx; rewrite ln_mult by lra; f_equal; ring).
  split; [reflexivity|]. split; [ring|]. split; [ring|]. split; [ring|]. split.
  { intros u. replace (u * z + (l + ln a)) with (u * z + l + ln a) by ring. rewrite exp_plus, exp_ln by lra. ring. }
  split.
  { replace (a * lower + b + a * exp l * exp (z * z / 2) - (a * lower + b)) with (a * (exp l * exp (z * z / 2))) by ring.
    replace (lower + exp l * exp (z * z / 2) - lower) with (exp l * exp (z * z / 2)) by ring. apply Hsc. nra. }
  intros u. replace (u * z + (l + ln a)) with (u * z + l + ln a) by ring. rewrite exp_plus, exp_ln by lra.
  set (x := exp (u * z + l)). assert (Hx : 0 < x) by apply exp_pos.
  replace (x * a + (a * lower + b) - (a * lower + b)) with (a * x) by ring. replace (x + lower - lower) with x by ring. rewrite (Hsc x Hx).
  assert (P2 : sqrt (2 * PI) <> 0) by (apply Rgt_not_eq, sqrt_lt_R0; pose proof PI_RGT_0; lra).
  assert (phi u <> 0) by (pose proof (phi_pos u); lra). field. repeat split; try assumption; lra.
Qed.

(** C95: classes tied to a bound follow a change of units that also converts the bound (without a
    bound parameter: a change of scale, b = 0): Lognormal, ShiftedLognormal, Gamma, Weibull
    (= type III smallest), type II largest; GEVmax follows any change. *)
Theorem C95_bounded_classes : forall name a b mean stdv, 0 < a -> 0 < stdv ->
  (0 < mean -> let L := fun m s => let d := lognormal_init m s true None in rv_of name (lognormal_dist d) (Dist.ln_start d) in
     in_units a 0 (L mean stdv) (L (a * mean) (a * stdv))) /\
  (forall lower d d', lower < mean -> slognormal_init mean stdv lower true None = Ok d ->
     slognormal_init (a * mean + b) (a * stdv) (a * lower + b) true None = Ok d' ->
     in_units a b (rv_of name (slognormal_dist d) (Dist.ln_start (sl_ln d))) (rv_of name (slognormal_dist d') (Dist.ln_start (sl_ln d')))) /\
  (forall gam, 0 < mean -> in_units a 0 (std_rv name (gamma_obj gam mean stdv true)) (std_rv name (gamma_obj gam (a * mean) (a * stdv) true))) /\
  (forall Gam fsolve eps, eps < mean -> let W := weibull_obj Gam fsolve mean stdv eps true in fz_scale W <> 0 ->
     in_units a b (std_rv name W) (std_rv name (weibull_obj Gam fsolve (a * mean + b) (a * stdv) (a * eps + b) true))) /\
  (forall Gam fsolve, 0 < mean -> let F := typeII_obj Gam fsolve mean stdv true in fz_scale F <> 0 ->
     in_units a 0 (std_rv name F) (std_rv name (typeII_obj Gam fsolve (a * mean) (a * stdv) true))) /\
  (forall Gam eg shape o, gevmax_obj Gam eg mean stdv shape true = Ok o -> fz_scale o <> 0 ->
     exists o', gevmax_obj Gam eg (a * mean + b) (a * stdv) shape true = Ok o' /\ in_units a b (std_rv name o) (std_rv name o')).
Proof.
  intros name a b mean stdv Ha Hs. split; [|split; [|split; [|split; [|split]]]].
  - intros Hm. cbv zeta.
    pose proof (slog_units name a 0 mean stdv 0 _ _ Ha Hs Hm eq_refl eq_refl) as H.
    revert H. unfold in_units, rv_of, slognormal_dist, lognormal_init, lognormal_dist, base_init, fz_mean, fz_std. cbn.
    replace (a * mean + 0 - (a * 0 + 0)) with (a * mean) by ring. replace (mean - 0) with mean by ring.
    replace (a * 0 + 0) with 0 by ring. intros (H1 & H2 & H3 & H4 & H5 & H6 & H7).
    repeat split; try assumption.
    + intros u. specialize (H5 u). rewrite !Rplus_0_r in *. exact H5.
    + rewrite !Rminus_0_r in H6. exact H6.
    + intros u. specialize (H7 u). rewrite !Rplus_0_r, !Rminus_0_r in H7. exact H7.
  - intros lower d d' Hm H H'. exact (slog_units name a b mean stdv lower d d' Ha Hs Hm H H').
  - intros gam Hm. unfold gamma_obj. replace (a * mean * (a * mean) / (a * stdv * (a * stdv))) with (mean * mean / (stdv * stdv)) by (field; lra).
    replace (1 / (a * mean / (a * stdv * (a * stdv)))) with (a * (1 / (mean / (stdv * stdv)))) by (field; lra).
    replace 0 with (a * 0 + 0) at 3 by ring. apply frozen_units; [exact Ha|].
    replace (1 / (mean / (stdv * stdv))) with (stdv * stdv / mean) by (field; lra).
    apply prod_neq; [apply prod_neq; lra|]. apply Rinv_neq_0_compat. lra.
  - intros Gam fsolve eps He W HW. unfold W, weibull_obj in *. cbv zeta in *.
    assert (EF : (fun x => weibull_parameter Gam x (a * mean + b - (a * eps + b)) (a * stdv)) = (fun x => weibull_parameter Gam x (mean - eps) stdv)).
    { apply functional_extensionality. intros x. unfold weibull_parameter. replace (a * stdv / (a * mean + b - (a * eps + b))) with (stdv / (mean - eps)) by (field; split; nra). reflexivity. }
    rewrite EF. set (k := fsolve _ _) in *. set (g := Gam (1 + 1 / k)) in *.
    replace ((a * mean + b - (a * eps + b)) / g + (a * eps + b) - (a * eps + b)) with (a * ((mean - eps) / g + eps - eps)) by (unfold Rdiv; ring).
    apply frozen_units; [exact Ha|exact HW].
  - intros Gam fsolve Hm F HF. unfold F, typeII_obj in *. cbv zeta in *.
    assert (EF : (fun x => typeII_parameter Gam x (a * mean) (a * stdv)) = (fun x => typeII_parameter Gam x mean stdv)).
    { apply functional_extensionality. intros x. unfold typeII_parameter. replace (a * stdv / (a * mean)) with (stdv / mean) by (field; lra). reflexivity. }
    rewrite EF. set (k := fsolve _ _) in *. set (g := Gam (1 - 1 / k)) in *.
    replace (a * mean / g) with (a * (mean / g)) by (unfold Rdiv; ring). 
    pose proof (frozen_units name a 0 (frechet_fam Gam k) 0 (mean / g) Ha HF) as H. replace (a * 0 + 0) with 0 in H by ring. exact H.
  - intros Gam eg shape o H Ho. unfold gevmax_obj in *. destruct (Rleb (1 / 2) shape); [discriminate|]. injection H as <-.
    eexists. split; [reflexivity|]. unfold gev_loc_scale in *. destruct (close0 shape); cbn [fst snd fz_scale] in *.
    + replace (a * stdv * sqrt 6 / PI) with (a * (stdv * sqrt 6 / PI)) by (unfold Rdiv; ring).
      replace (a * mean + b - a * (stdv * sqrt 6 / PI) * eg) with (a * (mean - stdv * sqrt 6 / PI * eg) + b) by ring. now apply frozen_units.
    + set (q := sqrt _) in *. replace (a * stdv * Rabs shape / q) with (a * (stdv * Rabs shape / q)) by (unfold Rdiv; ring).
      set (w := stdv * Rabs shape / q) in *.
      replace (a * mean + b - a * w / shape * (Gam (1 - shape) - 1)) with (a * (mean - w / shape * (Gam (1 - shape) - 1)) + b) by (unfold Rdiv; ring).
      now apply frozen_units.
Qed.
Print Assumptions C95_bounded_classes.

(** C95: two classes do not follow.  ChiSquare: converted moments give the unconverted law (only
    the ratio of the moments is used).  ZeroInflated: the zero value is recognised with the
    absolute tolerance 1e-6, so a variable with small values changes its law with the units. *)
Theorem C95_units_refuted :
  (forall chi2 a mean stdv, a <> 0 -> stdv <> 0 -> chisquare_obj chi2 (a * mean) (a * stdv) true = chisquare_obj chi2 mean stdv true) /\
  (exists z z' : zinf, exists a, 0 < a /\
     (forall x, d_pdf (zi_base z') (a * x) = d_pdf (zi_base z) x / a) /\ zi_p z' = zi_p z /\ zi_q z' = zi_q z /\
     zinf_init (zi_base z) (zi_p z) = Ok z /\ zinf_init (zi_base z') (zi_p z') = Ok z' /\
     exists x, zinf_pdf z' (a * x) <> zinf_pdf z x / a).
Proof.
  split.
  - intros chi2 a mean stdv Ha Hs. unfold chisquare_obj. replace (2 * (a * mean * (a * mean)) / (a * stdv * (a * stdv))) with (2 * (mean * mean) / (stdv * stdv)) by (field; split; assumption). reflexivity.
  - set (B := fun a => normal_dist (normal_init 0 (a * 1) None)).
    set (zz := fun a => mkZi (B a) (1 / 2) (1 - 1 / 2) (fst (zi_stats (B a) (1 / 2) (1 - 1 / 2))) (snd (zi_stats (B a) (1 / 2) (1 - 1 / 2)))).
    assert (I0 : forall a, zinf_init (B a) (1 / 2) = Ok (zz a)).
    { intros a. unfold zinf_init. rewrite (proj2 (Rltb_false _ _)) by lra. rewrite (proj2 (Rleb_false _ _)) by lra. reflexivity. }
    exists (zz 1), (zz 100), 100. split; [lra|]. split; [|split; [reflexivity|split; [reflexivity|split; [apply I0|split; [apply I0|]]]]].
    + intros x. cbn. rewrite !Rminus_0_r. replace (100 * x / (100 * 1)) with (x / (1 * 1)) by field. field.
    + exists (/ 10 ^ 7). unfold zinf_pdf, zz. cbn [zi_base zi_p zi_q].
      assert (T1 : Rltb (- zero_tol) (100 * / 10 ^ 7) && Rltb (100 * / 10 ^ 7) zero_tol = false).
      { apply Bool.andb_false_iff. right. apply Rltb_false. unfold zero_tol. lra. }
      assert (T2 : Rltb (- zero_tol) (/ 10 ^ 7) && Rltb (/ 10 ^ 7) zero_tol = true).
      { apply Bool.andb_true_iff. split; apply Rltb_spec; unfold zero_tol; lra. }
      rewrite T1, T2. unfold B. cbn -[pow]. set (y := / 10 ^ 7). rewrite !Rminus_0_r.
      replace (100 * y / (100 * 1)) with (y / (1 * 1)) by field. set (p := phi (y / (1 * 1))). intros H. lra.
Qed.
Print Assumptions C95_units_refuted.

(** *** The hypotheses are met: the correlated model of C92 with R in units 2x + 10, S in units
    3x - 1 and the constant k per thousand; its converted run completes with the same beta. *)
Definition h_units : list smop :=
  [OpAdd (ODist (Normal "R" (2 * 200 + 10) (2 * 20))); OpAdd (OConst "k" 3000); OpAdd (ODist (Normal "S" (3 * 40 + -1) (3 * 5))); OpSetCorr [[1; 1/2]; [1/2; 1]]].
Definition g_units (kw : list (string * R)) : R := (lk kw "R" - 10) / 2 - lk kw "k" / 1000 * ((lk kw "S" + 1) / 3).
Definition expr_units : expression := fun kw =>
  let nc := match kw with [] => 0%nat | (_, v) :: _ => List.length v end in
  Ok (UPlain (Arr (map (fun c => g_units (map (fun kv => (fst kv, nth c (snd kv) 0)) kw)) (seq 0 nc)))).
Lemma units_pointwise : pointwise expr_units g_units.
Proof.
  intros kw nc Hne Hl. eexists. split; [reflexivity|].
  destruct kw as [|[n v] kw]; [contradiction|]. cbn [value_of]. rewrite (Hl n v) by (left; reflexivity). reflexivity.
Qed.
Lemma units_converted : converted 2 (pick 2 3) (pick 10 (-1)) h_pipe2 h_units.
Proof.
  split; [reflexivity|]. split; [reflexivity|]. split; [|reflexivity].
  intros i Hi. two i Hi; (split; [cbn; lra|]); eexists; eexists; (split; [reflexivity|]); (split; [reflexivity|]); (split; [intros X; cbn in X; lra|]); apply C95_location_scale_classes; cbn; lra.
Qed.
Lemma units_lsf : converted_lsf 2 (pick 2 3) (pick 10 (-1)) h_pipe2 h_units g_ex g_units.
Proof.
  intros q q' Hq Hq' H. pose proof (H 0%nat ltac:(lia)) as H0. pose proof (H 1%nat ltac:(lia)) as H1.
  destruct q as [|x [|y [|z q]]]; try discriminate. destruct q' as [|x' [|y' [|z' q']]]; try discriminate. cbn in H0, H1. subst x' y'.
  unfold g_units, g_ex, lk, args_at. cbn. field.
Qed.
Example C95_example : exists r r' a' s', let v := 20^2 + 15^2 - 20 * 15 in
  run_form (fun _ x => x) chol2 svd2 inv2 101 10 expr_units default_options None aF (sm_run h_units) = (a', s', FDone r') /\
  same_report 2 (pick 2 3) (pick 10 (-1)) (match fb_TA a' with Some (_, A) => A | None => meye end) (marg_at (sm_run h_pipe2)) (marg_at (sm_run h_units)) r r' /\
  form_beta 2 r' = Fin (80 / sqrt v).
Proof.
  destruct C92_default_example as (r & a1 & s1 & E & B).
  pose proof (C95_form_units (fun _ x => x) chol2 svd2 inv2 ERuntime 2 (pick 2 3) (pick 10 (-1)) h_pipe2 h_units g_ex g_units expr_ex expr_units default_options None 101 10 aF
    units_converted units_lsf pointwise_ex units_pointwise ltac:(lia) inv2_total ltac:(discriminate) ltac:(cbn; lia) ltac:(discriminate) ltac:(cbn; lra) ltac:(lia) ltac:(unfold ntrial; lia)) as H.
  cbv zeta in H. rewrite E in H. destruct (run_form _ _ _ _ _ _ expr_units _ _ _ _) as [[a' s'] o']. cbn [fst snd] in H.
  destruct H as (HT & _ & H). destruct o' as [r'|e|]; try contradiction. destruct H as (T & A & HTA & H).
  exists r, r', a', s'. cbv zeta. split; [reflexivity|]. split; [rewrite HT, HTA; exact H|]. destruct H as (_ & _ & _ & HB & _). congruence.
Qed.
