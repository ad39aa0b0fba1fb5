(** Property theorem C89: derivatives of the moments with respect to a named parameter
    (Distribution._dmoments_dtheta, used by integration.drho0_dtheta). *)
From Coquelicot Require Import Coquelicot.
From Verif Require Import Base StochModel Dict Gauss GaussProofs Dist DistSpec DistProofs DistMomProofs DistUpdProofs DistProps MomSpec MomProofs MomFamProofs GammaProofs MomGamProofs Copy CopySpec CopyProofs CopyClsProofs.
From Coq Require Import String Lra Lia.
From Coq Require Import List.
Import ListNotations.
Open Scope string_scope.
Open Scope R_scope.

(** the step used for a parameter of value [v] *)
Definition mom_step (v : R) : R := Rmax (Rabs v / 10 ^ 6) (1 / 10 ^ 10).
Lemma mom_step_pos v : 0 < mom_step v.
Proof. eapply Rlt_le_trans; [|apply Rmax_r]. apply Rdiv_lt_0_compat; [lra|apply pow_lt; lra]. Qed.
Lemma mom_step_eq v : Rmax (Rabs v * / 10 ^ 6) (/ 10 ^ 10) = mom_step v.
Proof. unfold mom_step. f_equal. unfold Rdiv. now rewrite Rmult_1_l. Qed.

(** For every class and object: exact for mean and std; KeyError for a name the object does not
    list; the exception of a failing constructor is passed on; otherwise the moments of the two
    copies differ from the derivatives by at most M h^2 / 6. *)
Theorem C89_moment_derivatives : forall (c : cls) (o : inst),
  dmoments_dtheta c o "mean" = Ok (1, 0) /\ dmoments_dtheta c o "std" = Ok (0, 1) /\
  (forall p, p <> "mean" -> p <> "std" -> ~ In p (map fst (in_sens o)) -> dmoments_dtheta c o p = Err EKey) /\
  (forall p v, p <> "mean" -> p <> "std" -> dict_get (in_sens o) p = Some v ->
     let h := mom_step v in
     (forall e, make_copy c o [(p, v + h)] = Err e -> dmoments_dtheta c o p = Err e) /\
     (forall dp e, make_copy c o [(p, v + h)] = Ok dp -> make_copy c o [(p, v - h)] = Err e -> dmoments_dtheta c o p = Err e) /\
     (forall dp dm, make_copy c o [(p, v + h)] = Ok dp -> make_copy c o [(p, v - h)] = Ok dm ->
        exists dmu dsig, dmoments_dtheta c o p = Ok (dmu, dsig) /\
          dmu * (2 * h) = in_mean dp - in_mean dm /\ dsig * (2 * h) = in_stdv dp - in_stdv dm /\
          (forall (mu mu1 mu2 mu3 : R -> R) M, mu (v + h) = in_mean dp -> mu (v - h) = in_mean dm ->
             (forall t, v - h <= t <= v + h -> is_derive mu t (mu1 t) /\ is_derive mu1 t (mu2 t) /\ is_derive mu2 t (mu3 t) /\ Rabs (mu3 t) <= M) ->
             Rabs (dmu - mu1 v) <= M * (h * h) / 6) /\
          (forall (sg sg1 sg2 sg3 : R -> R) M, sg (v + h) = in_stdv dp -> sg (v - h) = in_stdv dm ->
             (forall t, v - h <= t <= v + h -> is_derive sg t (sg1 t) /\ is_derive sg1 t (sg2 t) /\ is_derive sg2 t (sg3 t) /\ Rabs (sg3 t) <= M) ->
             Rabs (dsig - sg1 v) <= M * (h * h) / 6))).
Proof.
  intros c o. split; [reflexivity|]. split; [reflexivity|]. split.
  - intros p N1 N2 NI. unfold dmoments_dtheta. rewrite (proj2 (String.eqb_neq p "mean") N1), (proj2 (String.eqb_neq p "std") N2).
    now rewrite (proj2 (dget_none (in_sens o) p) NI).
  - intros p v N1 N2 G h. assert (Hh : 0 < h) by apply mom_step_pos.
    unfold dmoments_dtheta. rewrite (proj2 (String.eqb_neq p "mean") N1), (proj2 (String.eqb_neq p "std") N2), G, mom_step_eq. fold h. cbv zeta.
    split; [intros e E; now rewrite E|]. split; [intros dp e E1 E2; now rewrite E1, E2|].
    intros dp dm E1 E2. rewrite E1, E2. cbn [rbind]. eexists. eexists. split; [reflexivity|]. split; [field; lra|]. split; [field; lra|]. split.
    + intros mu mu1 mu2 mu3 M A B H. rewrite <- A, <- B. now apply (central_difference mu mu1 mu2 mu3).
    + intros mu mu1 mu2 mu3 M A B H. rewrite <- A, <- B. now apply (central_difference mu mu1 mu2 mu3).
Qed.
Print Assumptions C89_moment_derivatives.

(** GEVmin keeps the given mean and std for every shape: zero derivatives.  GEVmax does so away
    from the Gumbel case.  Both raise ValueError exactly when the forward step reaches 1/2. *)
Theorem C89_gev_shape : forall Gam eg d start sh,
  let o := inst_shape d start sh in let h := mom_step sh in
  (sh + h < 1 / 2 -> dmoments_dtheta (gevmin_cls Gam eg) o "shape" = Ok (0, 0)) /\
  (gev_regular Gam (sh + h) -> gev_regular Gam (sh - h) -> dmoments_dtheta (gevmax_cls Gam eg) o "shape" = Ok (0, 0)) /\
  (1 / 2 <= sh + h -> dmoments_dtheta (gevmin_cls Gam eg) o "shape" = Err EValue /\ dmoments_dtheta (gevmax_cls Gam eg) o "shape" = Err EValue).
Proof.
  intros Gam eg d start sh o h. assert (Hh : 0 < h) by apply mom_step_pos.
  assert (P : kw_plain (in_kw o)) by (apply plain_one; discriminate).
  assert (I : In "shape" (map fst (in_kw o))) by (now left).
  assert (U : forall c, dmoments_dtheta c o "shape" = rbind (c (in_mean o) (in_stdv o) [("shape", sh + h)]) (fun dp => rbind (c (in_mean o) (in_stdv o) [("shape", sh - h)]) (fun dm =>
     Ok ((in_mean dp - in_mean dm) / (2 * h), (in_stdv dp - in_stdv dm) / (2 * h))))).
  { intros c. unfold dmoments_dtheta. cbn [String.eqb Ascii.eqb Bool.eqb]. change (dict_get (in_sens o) "shape") with (Some sh). cbv beta iota zeta. rewrite mom_step_eq. fold h.
    rewrite !(copy_extra c o "shape") by assumption. reflexivity. }
  rewrite !U. split; [|split].
  - intros H. unfold gevmin_cls, gevmin_init. cbn [one_kw String.eqb Ascii.eqb Bool.eqb].
    rewrite (proj2 (Rleb_false (1 / 2) (sh + h))) by lra. rewrite (proj2 (Rleb_false (1 / 2) (sh - h))) by lra.
    cbn [rbind inst_shape in_mean in_stdv gevmin_dist d_mean d_stdv gm_mean gm_stdv]. f_equal. f_equal; field; lra.
  - intros R1 R2.
    assert (K : forall y, gev_regular Gam y -> exists w, gevmax_cls Gam eg (in_mean o) (in_stdv o) [("shape", y)] = Ok w /\ in_mean w = in_mean o /\ in_stdv w = in_stdv o).
    { intros y R. assert (Hy : y < 1 / 2) by apply R. unfold gevmax_cls, gevmax_obj. cbn [one_kw String.eqb Ascii.eqb Bool.eqb].
      rewrite (proj2 (Rleb_false (1 / 2) y)) by lra. cbn [rbind]. eexists. split; [reflexivity|].
      cbn [inst_shape in_mean in_stdv base_dist d_mean d_stdv base_init so_mean so_stdv]. unfold fz_mean, fz_std. cbn [fz_loc fz_scale fz_fam].
      pose proof PI_RGT_0. assert (S6 : 0 < sqrt 6) by (apply sqrt_lt_R0; lra). unfold gev_loc_scale.
      destruct (gev_split Gam y R) as [(E & C)|(N & C & G)]; rewrite C; cbn [fst snd].
      - subst y. unfold gev_fam, Reqb. destruct (Req_EM_T (- 0) 0) as [e|e]; [|exfalso; lra]. cbn [gumbel_fam sf_mean sf_std]. split; field; lra.
      - unfold gev_fam, Reqb. destruct (Req_EM_T (- y) 0) as [e|e]; [exfalso; lra|]. cbn [sf_mean sf_std].
        replace (1 + - y) with (1 - y) by ring. replace (1 + 2 * - y) with (1 - 2 * y) by ring. rewrite Rabs_Ropp.
        assert (A : Rabs y <> 0) by (apply Rabs_no_R0, N). assert (Q := sqrt_lt_R0 _ G).
        set (g1 := Gam (1 - y)) in *. set (D := sqrt (Gam (1 - 2 * y) - g1 * g1)) in *. split; field; repeat split; lra. }
    destruct (K _ R1) as (w1 & -> & M1 & S1). destruct (K _ R2) as (w2 & -> & M2 & S2). cbn [rbind]. rewrite M1, M2, S1, S2. f_equal. f_equal; field; lra.
  - intros H. unfold gevmin_cls, gevmin_init, gevmax_cls, gevmax_obj. cbn [one_kw String.eqb Ascii.eqb Bool.eqb].
    rewrite (proj2 (Rleb_spec (1 / 2) (sh + h))) by exact H. split; reflexivity.
Qed.
Print Assumptions C89_gev_shape.

(** ** the Gumbel case of GEVmax *)
Lemma int0_lower g m a b : int0 g m -> (forall t, 0 < t -> 0 <= g t) -> (forall t, 0 < t -> continuous g t) -> 0 < a -> a < b -> RInt g a b <= m.
Proof.
  intros K H Hc Ha Hab. apply Rnot_lt_le. intros N. assert (Hm : 0 < RInt g a b - m) by lra.
  assert (Hb : locally m (fun v => v < RInt g a b)).
  { exists (mkposreal _ Hm). intros y By. apply Rabs_lt_between' in By. cbn [pos] in By. lra. }
  specialize (K _ Hb). destruct K as [Q1 Q2 K1 K2 K].
  assert (E1 : exists x, Q1 x /\ 0 < x < a).
  { apply (filter_ex (F := at_right 0)). apply filter_and; [exact K1|]. exists (mkposreal a Ha). intros y By Hy. apply Rabs_lt_between' in By. cbn [pos] in By. lra. }
  assert (E2 : exists x, Q2 x /\ b < x).
  { apply (filter_ex (F := Rbar_locally p_infty)). apply filter_and; [exact K2|]. exists b. auto. }
  destruct E1 as (x & Qx & Hx). destruct E2 as (y & Qy & Hy). destruct (K x y Qx Qy) as (v & Hv & Hn). cbn [fst snd] in Hv.
  assert (EI : forall p q, 0 < p -> 0 < q -> ex_RInt g p q).
  { intros p q Hp Hq. apply (ex_RInt_continuous (V := R_CompleteNormedModule)). intros z Hz. apply Hc. eapply Rlt_le_trans; [|apply Hz]. apply Rmin_glb_lt; assumption. }
  rewrite <- (is_RInt_unique _ _ _ _ Hv) in Hn.
  rewrite <- (RInt_Chasles g x a y) in Hn by (apply EI; lra). rewrite <- (RInt_Chasles g a b y) in Hn by (apply EI; lra).
  change (RInt g x a + (RInt g a b + RInt g b y) < RInt g a b) in Hn.
  assert (0 <= RInt g x a) by (apply RInt_ge_0; [lra|apply EI; lra|intros; apply H; lra]).
  assert (0 <= RInt g b y) by (apply RInt_ge_0; [lra|apply EI; lra|intros; apply H; lra]). lra.
Qed.

(** the genuine gamma function gives a positive variance for every shape below 1/2 *)
Lemma gamma_var_pos Gam e : is_gamma Gam -> - (1 / 2) < e -> e <> 0 -> 0 < Gam (1 + 2 * e) - Gam (1 + e) * Gam (1 + e).
Proof.
  intros HG He N. set (m := Gam (1 + e)).
  assert (I1 := gamma_pow Gam e HG ltac:(lra)). assert (I2 := gamma_pow2 Gam e HG ltac:(lra)). fold m in I1.
  assert (J := int0_lin _ _ 1 1 _ _ (int0_lin _ _ 1 (- 2 * m) _ _ I2 I1) (int0_lin _ _ (m * m) 0 _ _ int_e int_e)). cbn beta in J.
  set (g := fun t => (Rpower t e - m) * (Rpower t e - m) * exp (- t)).
  assert (J2 : int0 g (Gam (1 + 2 * e) - m * m)).
  { replace (Gam (1 + 2 * e) - m * m) with (1 * (1 * Gam (1 + 2 * e) + -2 * m * m) + 1 * (m * m * 1 + 0 * 1)) by ring.
    refine (int0_ext _ _ _ _ J). intros t _. unfold g. ring. }
  assert (GC : forall t, 0 < t -> continuous g t).
  { intros t Ht. apply (ex_derive_continuous (V := R_NormedModule)). unfold g, Rpower. auto_derive. repeat split; exact Ht. }
  assert (G0 : forall t, 0 <= g t) by (intros t; apply Rmult_le_pos; [apply Rle_0_sqr|left; apply exp_pos]).
  assert (EX : exists t0, 1 <= t0 /\ 0 < g t0).
  { assert (GP : forall t, Rpower t e <> m -> 0 < g t) by (intros t D; apply Rmult_lt_0_compat; [|apply exp_pos]; apply Rsqr_pos_lt; lra).
    destruct (Req_dec m 1) as [E|D].
    - exists 2. split; [lra|]. apply GP. intros E2. rewrite E in E2. unfold Rpower in E2. rewrite <- exp_0 in E2. apply exp_inv in E2.
      apply Rmult_integral in E2. destruct E2 as [E2|E2]; [lra|]. pose proof ln_lt_2. lra.
    - exists 1. split; [lra|]. apply GP. unfold Rpower. rewrite ln_1, Rmult_0_r, exp_0. lra. }
  destruct EX as (t0 & H1 & P0).
  assert (HL : locally t0 (fun t => 0 < g t)).
  { apply (GC t0 ltac:(lra) (fun v => 0 < v)). exists (mkposreal _ P0). intros y By. apply Rabs_lt_between' in By. cbn [pos] in By. lra. }
  destruct HL as [d Hd]. pose proof (cond_pos d) as Dp.
  assert (0 < RInt g t0 (t0 + d / 2)).
  { apply RInt_gt_0; [lra| |].
    - intros x Hx. apply Hd. apply Rabs_lt_between'. lra.
    - intros x Hx. apply GC. lra. }
  eapply Rlt_le_trans; [eassumption|]. apply (int0_lower g); [exact J2|intros; apply G0|exact GC|lra|lra].
Qed.
Lemma gamma_regular Gam sh : is_gamma Gam -> sh < 1 / 2 -> (sh = 0 \/ / 10 ^ 8 < Rabs sh) -> gev_regular Gam sh.
Proof.
  intros HG H [->|A]; (split; [lra|]); [now left|right]. split; [exact A|].
  assert (N : sh <> 0). { intros ->. rewrite Rabs_R0 in A. assert (0 < / 10 ^ 8) by (apply Rinv_0_lt_compat, pow_lt; lra). lra. }
  assert (V := gamma_var_pos Gam (- sh) HG ltac:(lra) ltac:(lra)).
  replace (1 - 2 * sh) with (1 + 2 * - sh) by ring. exact V.
Qed.

Lemma cosh_low x : x * x <= exp x + exp (- x) - 2.
Proof.
  assert (K : forall y, 0 <= y -> y <= exp y - exp (- y)).
  { intros y Hy. pose proof (exp_ineq1_le y). assert (exp (- y) <= 1); [|lra]. rewrite <- exp_0. destruct Hy as [Hy|<-]; [left; apply exp_increasing; lra|right; f_equal; ring]. }
  assert (P : forall y, 0 <= y -> y * y <= exp y + exp (- y) - 2).
  { intros y Hy. destruct (Req_dec y 0) as [->|N]; [rewrite Ropp_0, exp_0; lra|].
    (* (e^{y/2} - e^{-y/2})^2 *)
    pose proof (K (y / 2) ltac:(lra)) as K2.
    assert (E : exp y + exp (- y) - 2 = (exp (y / 2) - exp (- (y / 2))) * (exp (y / 2) - exp (- (y / 2)))).
    { replace (exp y) with (exp (y / 2) * exp (y / 2)) by (rewrite <- exp_plus; f_equal; field).
      replace (exp (- y)) with (exp (- (y / 2)) * exp (- (y / 2))) by (rewrite <- exp_plus; f_equal; field).
      assert (exp (y / 2) * exp (- (y / 2)) = 1) by (rewrite <- exp_plus, Rplus_opp_r, exp_0; reflexivity). nra. }
    rewrite E. assert (K3 : y <= exp (y / 2) - exp (- (y / 2))).
    { destruct (MVT_gen (fun z => exp z - exp (- z) - 2 * z) 0 (y / 2) (fun z => exp z + exp (- z) - 2)) as (c & Hc & EE).
      - intros z _. auto_derive; [exact I|ring].
      - intros z _. apply continuity_pt_filterlim. apply (ex_derive_continuous (fun z => exp z - exp (- z) - 2 * z) z). auto_derive. exact I.
      - cbn beta in EE. rewrite Ropp_0, exp_0 in EE.
        assert (0 <= exp c + exp (- c) - 2).
        { replace (exp c) with (exp (c / 2) * exp (c / 2)) by (rewrite <- exp_plus; f_equal; field).
          replace (exp (- c)) with (exp (- (c / 2)) * exp (- (c / 2))) by (rewrite <- exp_plus; f_equal; field).
          assert (exp (c / 2) * exp (- (c / 2)) = 1) by (rewrite <- exp_plus, Rplus_opp_r, exp_0; reflexivity).
          pose proof (Rle_0_sqr (exp (c / 2) - exp (- (c / 2)))) as Q. unfold Rsqr in Q. lra. }
        assert (0 <= (exp c + exp (- c) - 2) * (y / 2 - 0)) by (apply Rmult_le_pos; lra). lra. }
    apply Rmult_le_compat; lra. }
  destruct (Rle_dec 0 x) as [H|H]; [apply P, H|]. specialize (P (- x) ltac:(lra)). rewrite Ropp_involutive in P. lra.
Qed.

(** convexity of the gamma function at 1, with a quantitative bound *)
Lemma gamma_convex Gam h : is_gamma Gam -> 0 < h < 1 -> h * h * (exp (-3) / 2) <= Gam (1 + h) + Gam (1 - h) - 2.
Proof.
  intros HG Hh. assert (I1 := gamma_pow Gam h HG ltac:(lra)). assert (I2 := gamma_pow Gam (- h) HG ltac:(lra)).
  assert (J := int0_lin _ _ 1 (-2) _ _ (int0_lin _ _ 1 1 _ _ I1 I2) int_e). cbn beta in J.
  replace (1 * (1 * Gam (1 + h) + 1 * Gam (1 + - h)) + -2 * 1) with (Gam (1 + h) + Gam (1 - h) - 2) in J by (replace (1 + - h) with (1 - h) by ring; ring).
  set (g := fun t => 1 * (1 * (Rpower t h * exp (- t)) + 1 * (Rpower t (- h) * exp (- t))) + -2 * exp (- t)) in J.
  assert (GE : forall t, 0 < t -> h * ln t * (h * ln t) * exp (- t) <= g t).
  { intros t Ht. unfold g. replace (1 * (1 * (Rpower t h * exp (- t)) + 1 * (Rpower t (- h) * exp (- t))) + -2 * exp (- t)) with ((Rpower t h + Rpower t (- h) - 2) * exp (- t)) by ring.
    apply Rmult_le_compat_r; [left; apply exp_pos|]. unfold Rpower. replace (- h * ln t) with (- (h * ln t)) by ring. apply cosh_low. }
  assert (GC : forall t, 0 < t -> continuous g t).
  { intros t Ht. apply (ex_derive_continuous (V := R_NormedModule)). unfold g, Rpower. auto_derive. repeat split; exact Ht. }
  assert (L := int0_lower g _ 3 4 J). eapply Rle_trans; [|apply L; [|exact GC|lra|lra]].
  2:{ intros t Ht. eapply Rle_trans; [|apply GE, Ht]. apply Rmult_le_pos; [apply Rle_0_sqr|left; apply exp_pos]. }
  assert (IE : is_RInt (fun t => h * h * exp (- t)) 3 4 (- (h * h * exp (- (4))) - - (h * h * exp (- (3))))).
  { apply (is_RInt_derive (V := R_CompleteNormedModule) (fun t => - (h * h * exp (- t)))).
    - intros t _. auto_derive; [exact I|ring].
    - intros t _. apply (ex_derive_continuous (V := R_NormedModule)). auto_derive. exact I. }
  apply Rle_trans with (RInt (fun t => h * h * exp (- t)) 3 4).
  - rewrite (is_RInt_unique _ _ _ _ IE). replace (- (4)) with (-3 + -1) by ring. rewrite exp_plus. replace (- (3)) with (-3) by ring.
    assert (E1 : exp (-1) <= 1 / 2). { replace (-1) with (Ropp 1) by ring. rewrite exp_Ropp. pose proof (exp_ineq1_le 1). apply (Rle_trans _ (/ 2)); [apply Rinv_le_contravar; lra|lra]. }
    pose proof (exp_pos (-3)) as X. assert (0 <= h * h) by (apply Rle_0_sqr).
    replace (- (h * h * (exp (-3) * exp (-1))) - - (h * h * exp (-3))) with (h * h * (exp (-3) * (1 - exp (-1)))) by ring.
    apply Rmult_le_compat_l; [assumption|]. unfold Rdiv. apply Rmult_le_compat_l; lra.
  - apply RInt_le; [lra|eexists; exact IE| |].
    + apply (ex_RInt_continuous (V := R_CompleteNormedModule)). intros z Hz. apply GC. rewrite Rmin_left in Hz by lra. lra.
    + intros t Ht. eapply Rle_trans; [|apply GE; lra]. apply Rmult_le_compat_r; [left; apply exp_pos|].
      assert (L1 : 1 <= ln t). { rewrite <- (ln_exp 1). left. apply ln_increasing; [apply exp_pos|]. pose proof exp_le_3. lra. }
      replace (h * ln t * (h * ln t)) with (h * h * (ln t * ln t)) by ring. rewrite <- (Rmult_1_r (h * h)) at 1.
      apply Rmult_le_compat_l; [apply Rle_0_sqr|]. rewrite <- (Rmult_1_l 1) at 1. apply Rmult_le_compat; lra.
Qed.

(** GEVmax with the genuine gamma function: zero derivatives for every shape at least 2/10^8
    away from zero whose forward step stays below 1/2. *)
Theorem C89_gevmax_shape : forall Gam eg d start sh, is_gamma Gam -> 2 / 10 ^ 8 <= Rabs sh -> sh + mom_step sh < 1 / 2 ->
  dmoments_dtheta (gevmax_cls Gam eg) (inst_shape d start sh) "shape" = Ok (0, 0).
Proof.
  intros Gam eg d start sh HG A H.
  assert (E8 : 2 / 10 ^ 8 = 2 * / 10 ^ 8) by reflexivity. assert (P8 : 0 < / 10 ^ 8) by (apply Rinv_0_lt_compat, pow_lt; lra).
  assert (S : mom_step sh <= Rabs sh / 10).
  { unfold mom_step. apply Rmax_lub; [unfold Rdiv; apply Rmult_le_compat_l; [lra|]; cbn; lra|]. apply (Rle_trans _ (2 / 10 ^ 8 / 10)); [cbn; lra|]. unfold Rdiv at 1 3. apply Rmult_le_compat_r; lra. }
  pose proof (mom_step_pos sh) as Pp.
  apply C89_gev_shape; apply gamma_regular; try assumption; try lra; right.
  - pose proof (Rabs_triang_inv sh (- mom_step sh)) as T. rewrite Rabs_Ropp, (Rabs_right (mom_step sh)) in T by lra. replace (sh - - mom_step sh) with (sh + mom_step sh) in T by ring. lra.
  - pose proof (Rabs_triang_inv sh (mom_step sh)) as T. rewrite (Rabs_right (mom_step sh)) in T by lra. lra.
Qed.
Print Assumptions C89_gevmax_shape.

(** At shape 0 the copies fall inside the code's Gumbel tolerance and keep Gumbel location and
    scale: the reported derivative of the mean, which copying holds fixed, is bounded away from
    zero (while GEVmin reports zero). *)
Theorem C89_gevmax_gumbel_refuted : forall Gam eg d start, is_gamma Gam -> 0 < d_stdv d ->
  exists dmu dsig, dmoments_dtheta (gevmax_cls Gam eg) (inst_shape d start 0) "shape" = Ok (dmu, dsig) /\
    d_stdv d * sqrt 6 / PI * (exp (-3) / 4) <= dmu /\ 0 < dmu /\
    dmoments_dtheta (gevmin_cls Gam eg) (inst_shape d start 0) "shape" = Ok (0, 0).
Proof.
  intros Gam eg d start HG Hs. pose proof PI_RGT_0. assert (S6 : 0 < sqrt 6) by (apply sqrt_lt_R0; lra). set (sc := d_stdv d * sqrt 6 / PI).
  assert (SC : 0 < sc) by (apply Rdiv_lt_0_compat; [apply Rmult_lt_0_compat|]; assumption).
  assert (EH : mom_step 0 = 1 / 10 ^ 10). { unfold mom_step. rewrite Rabs_R0. apply Rmax_right. unfold Rdiv. rewrite Rmult_0_l. apply Rmult_le_pos; [lra|]. left. apply Rinv_0_lt_compat, pow_lt. lra. }
  assert (H10 : 0 < 1 / 10 ^ 10) by (apply Rdiv_lt_0_compat; [lra|apply pow_lt; lra]).
  assert (T10 : 1 / 10 ^ 10 < / 10 ^ 8) by (cbn; lra). assert (T8 : / 10 ^ 8 < 1 / 2) by (cbn; lra).
  destruct (C89_gev_shape Gam eg d start 0) as (GM & _ & _). cbv zeta in GM. rewrite EH in GM.
  set (o := inst_shape d start 0) in *.
  assert (P : kw_plain (in_kw o)) by (apply plain_one; discriminate).
  assert (I : In "shape" (map fst (in_kw o))) by (now left).
  set (h := 1 / 10 ^ 10) in *.
  unfold dmoments_dtheta at 1. cbn [String.eqb Ascii.eqb Bool.eqb]. change (dict_get (in_sens o) "shape") with (Some 0). cbv beta iota zeta. rewrite mom_step_eq, EH. fold h.
  rewrite !(copy_extra (gevmax_cls Gam eg) o "shape") by assumption. change (in_mean o) with (d_mean d). change (in_stdv o) with (d_stdv d).
  change (dict_set (in_kw o) "shape" (0 + h)) with [("shape", 0 + h)]. change (dict_set (in_kw o) "shape" (0 - h)) with [("shape", 0 - h)].
  assert (K : forall y, y <> 0 -> Rabs y <= / 10 ^ 8 -> exists w, gevmax_cls Gam eg (d_mean d) (d_stdv d) [("shape", y)] = Ok w /\ in_mean w = d_mean d - sc * eg + sc * ((Gam (1 - y) - 1) / y)).
  { intros y N A. assert (Hy : y < 1 / 2) by (apply Rabs_le_between in A; lra). unfold gevmax_cls, gevmax_obj. cbn [one_kw String.eqb Ascii.eqb Bool.eqb].
    rewrite (proj2 (Rleb_false (1 / 2) y)) by lra. cbn [rbind]. eexists. split; [reflexivity|].
    cbn [inst_shape in_mean base_dist d_mean base_init so_mean]. unfold fz_mean. cbn [fz_loc fz_scale fz_fam]. unfold gev_loc_scale, close0.
    rewrite (proj2 (Rleb_spec (Rabs y) (/ 10 ^ 8)) A). cbn [fst snd]. fold sc.
    unfold gev_fam, Reqb. destruct (Req_EM_T (- y) 0) as [e|e]; [exfalso; lra|]. cbn [sf_mean]. replace (1 + - y) with (1 - y) by ring. field. exact N. }
  destruct (K (0 + h)) as (w1 & -> & M1); [lra|rewrite Rabs_right; lra|]. destruct (K (0 - h)) as (w2 & -> & M2); [lra|rewrite Rabs_left; lra|]. cbn [rbind].
  eexists. eexists. split; [reflexivity|].
  assert (Q := gamma_convex Gam h HG ltac:(lra)).
  assert (E : (in_mean w1 - in_mean w2) / (2 * h) = sc * ((Gam (1 + h) + Gam (1 - h) - 2) / (2 * (h * h)))).
  { rewrite M1, M2. replace (1 - (0 + h)) with (1 - h) by ring. replace (1 - (0 - h)) with (1 + h) by ring. field. lra. }
  rewrite E. assert (B : exp (-3) / 4 <= (Gam (1 + h) + Gam (1 - h) - 2) / (2 * (h * h))).
  { apply (Rmult_le_reg_r (2 * (h * h))); [apply Rmult_lt_0_compat; [lra|apply Rmult_lt_0_compat; exact H10]|].
    replace ((Gam (1 + h) + Gam (1 - h) - 2) / (2 * (h * h)) * (2 * (h * h))) with (Gam (1 + h) + Gam (1 - h) - 2) by (field; lra).
    replace (exp (-3) / 4 * (2 * (h * h))) with (h * h * (exp (-3) / 2)) by field. exact Q. }
  pose proof (exp_pos (-3)).
  assert (X : sc * (exp (-3) / 4) <= sc * ((Gam (1 + h) + Gam (1 - h) - 2) / (2 * (h * h)))) by (apply Rmult_le_compat_l; lra).
  split; [exact X|]. split; [|apply GM; lra].
  eapply Rlt_le_trans; [|exact X]. apply Rmult_lt_0_compat; lra.
Qed.
Print Assumptions C89_gevmax_gumbel_refuted.

(** the hypotheses are met: the gamma function exists; a GEVmax of shape 1/10 is regular around its shape *)
Example gamma_meets : is_gamma GammaF.
Proof. exact GammaF_is_gamma. Qed.
Example not_listed : ~ In "epsilon" (map fst (in_sens (inst_s (base_init (mkFrozen uniform_fam 0 1) None) [("epsilon", 0)]))).
Proof. cbn. intros [H|[H|[]]]; discriminate. Qed.
Example forward_ok : - (1 / 10) + mom_step (- (1 / 10)) < 1 / 2.
Proof. unfold mom_step. rewrite Rabs_left by lra. rewrite Rmax_left; cbn; lra. Qed.
Example backward_ok : 2 / 10 ^ 8 <= Rabs (- (1 / 10)).
Proof. rewrite Rabs_left by lra. cbn. lra. Qed.
