(** Property theorems C81 (base-class CDF sensitivities and reconstruction), C82 (ChiSquare),
    C83 (composite distributions). *)
From Coquelicot Require Import Coquelicot.
From Verif Require Import Base StochModel Dict Gauss GaussProofs Dist DistSpec DistProofs DistMomProofs DistUpdProofs DistProps Copy CopySpec CopyProofs CopyClsProofs Sens SensSpec.
From Coq Require Import String Lra Lia.
From Coq Require Import List.
Import ListNotations.
Open Scope string_scope.
Open Scope R_scope.

(** C81: one central difference quotient per sensitivity parameter, in the same order, over
    copies of the object that differ in that parameter only. *)
Theorem C81_values : forall c o x r, base_dF c o x = Ok r ->
  List.length r = List.length (in_sens o) /\
  forall k p v, nth_error (in_sens o) k = Some (p, v) ->
    let h := Rmax (Rabs v / 10 ^ 6) (in_stdv o / 10 ^ 8) in
    (0 < in_stdv o -> 0 < h) /\
    exists dp dm, make_copy c o [(p, v + h)] = Ok dp /\ make_copy c o [(p, v - h)] = Ok dm /\
      nth_error r k = Some (p, (in_cdf dp x - in_cdf dm x) / (2 * h)).
Proof.
  intros c o x r H. unfold base_dF in H. destruct (make_copy c o []) as [t|e]; [|discriminate].
  destruct (Rltb _ _); [discriminate|]. destruct (fd_params_ok c o x _ _ H) as [L K]. split; [exact L|].
  intros k p v E h. split; [intros Hs; exact (fd_step_pos o v Hs)|]. exact (K k p v E).
Qed.
Print Assumptions C81_values.

(** C81: when it raises, and with what. *)
Theorem C81_raises : forall c o x,
  let xt := in_mean o + in_stdv o / 2 in
  let h v := Rmax (Rabs v / 10 ^ 6) (in_stdv o / 10 ^ 8) in
  ((exists e, make_copy c o [] = Err e) -> base_dF c o x = Err EValue) /\
  (forall t, make_copy c o [] = Ok t -> (1 + Rabs (in_cdf o xt)) / 10 ^ 6 < Rabs (in_cdf t xt - in_cdf o xt) -> base_dF c o x = Err EValue) /\
  (forall t, make_copy c o [] = Ok t -> Rabs (in_cdf t xt - in_cdf o xt) <= (1 + Rabs (in_cdf o xt)) / 10 ^ 6 ->
     (forall e, base_dF c o x = Err e -> exists p v sg, In (p, v) (in_sens o) /\ (sg = 1 \/ sg = -1) /\ make_copy c o [(p, v + sg * h v)] = Err e) /\
     ((exists p v sg e, In (p, v) (in_sens o) /\ (sg = 1 \/ sg = -1) /\ make_copy c o [(p, v + sg * h v)] = Err e) -> exists e, base_dF c o x = Err e)).
Proof.
  intros c o x xt h.
  assert (EX : in_mean o + 1 / 2 * in_stdv o = xt) by (unfold xt; field).
  split; [intros (e & E); unfold base_dF; rewrite E; reflexivity|]. split.
  - intros t E H. unfold base_dF. rewrite E, EX. replace (Rltb _ _) with true; [reflexivity|]. symmetry. apply Rltb_spec. unfold Rdiv in H. lra.
  - intros t E H. assert (B : forall y, y = Rltb (/ 10 ^ 6 * (1 + Rabs (in_cdf o xt))) (Rabs (in_cdf t xt - in_cdf o xt)) -> y = false).
    { intros y ->. apply Rltb_false. unfold Rdiv in H. lra. }
    unfold base_dF. rewrite E, EX. rewrite (B _ eq_refl). split.
    + intros e F. apply fd_params_err in F. exact F.
    + intros (p & v & sg & e & I & S & K). destruct (fd_params c o x (in_sens o)) as [r|e'] eqn:F; [|eauto]. exfalso.
      apply fd_params_ok in F. destruct F as [_ F]. apply In_nth_error in I. destruct I as (k & I). destruct (F k p v I) as (dp & dm & A1 & A2 & _).
      change (h v) with (fd_step o v) in K. destruct S as [->| ->]; [rewrite Rmult_1_l in K; congruence|].
      replace (v + -1 * fd_step o v) with (v - fd_step o v) in K by ring. congruence.
Qed.
Print Assumptions C81_raises.

(** C81: what _make_copy passes to the constructor: the current moments and the stored extra
    keywords, with the named parameter replaced. *)
Theorem C81_copy_arguments : forall c o v, kw_plain (in_kw o) ->
  make_copy c o [] = c (in_mean o) (in_stdv o) (in_kw o) /\
  make_copy c o [("mean", v)] = c v (in_stdv o) (in_kw o) /\
  make_copy c o [("std", v)] = c (in_mean o) v (in_kw o) /\
  (forall k, In k (map fst (in_kw o)) -> make_copy c o [(k, v)] = c (in_mean o) (in_stdv o) (dict_set (in_kw o) k v)).
Proof. intros c o v H. split; [now apply copy_none|]. split; [now apply copy_mean|]. split; [now apply copy_std|]. intros k. now apply copy_extra. Qed.
Print Assumptions C81_copy_arguments.

(** C81: accuracy: second order in the step, for every family smooth in the parameter. *)
Theorem C81_accuracy : forall c o x r k p v (F F1 F2 F3 : R -> R) M,
  base_dF c o x = Ok r -> nth_error (in_sens o) k = Some (p, v) -> 0 < in_stdv o ->
  let h := Rmax (Rabs v / 10 ^ 6) (in_stdv o / 10 ^ 8) in
  (forall t o', v - h <= t <= v + h -> make_copy c o [(p, t)] = Ok o' -> in_cdf o' x = F t) ->
  (forall t, v - h <= t <= v + h -> is_derive F t (F1 t) /\ is_derive F1 t (F2 t) /\ is_derive F2 t (F3 t) /\ Rabs (F3 t) <= M) ->
  exists q, nth_error r k = Some (p, q) /\ Rabs (q - F1 v) <= M * (h * h) / 6.
Proof.
  intros c o x r k p v F F1 F2 F3 M H Hk Hs h HF HD.
  destruct (C81_values c o x r H) as [_ K]. destruct (K k p v Hk) as (Hh & dp & dm & A & B & E). fold h in Hh, A, B, E. specialize (Hh Hs).
  eexists. split; [exact E|]. rewrite (HF (v + h) dp); [|lra|exact A]. rewrite (HF (v - h) dm); [|lra|exact B].
  apply (central_difference F F1 F2 F3 v h M Hh HD).
Qed.
Print Assumptions C81_accuracy.

(** C81: the classes.  Built from moments or parameters, and after any set_location/set_scale,
    the following copy themselves exactly (the start point excepted, which reverts to the mean)
    and support dF_dtheta. *)
Theorem C81_location_scale_classes : forall a b bm sp us,
  let t0 o := apply_updates base_set_location base_set_scale us (base_init o sp) in
  let ok c t := reconstructs c (inst_s t []) /\ supports_dF c (inst_s t []) in
  (fz_scale (so_obj (t0 (shiftedexp_obj a b bm))) <> 0 -> ok shiftedexp_cls (t0 (shiftedexp_obj a b bm))) /\
  ok shiftedrayleigh_cls (t0 (shiftedrayleigh_obj a b bm)) /\
  (let u := apply_updates uniform_set_location uniform_set_scale us (uniform_init a b bm sp) in
   reconstructs uniform_cls (uniform_inst u) /\ supports_dF uniform_cls (uniform_inst u)).
Proof.
  intros a b bm sp us t0 ok.
  assert (U : forall o, fz_fam (so_obj (t0 o)) = fz_fam o /\ so_mean (t0 o) = fz_mean (so_obj (t0 o)) /\ so_stdv (t0 o) = fz_std (so_obj (t0 o))).
  { intros o. destruct (base_updates us (base_init o sp)) as (F & _ & _ & _ & M). destruct (M eq_refl eq_refl) as [M1 M2]. repeat split; assumption. }
  split; [|split].
  - intros N. destruct (U (shiftedexp_obj a b bm)) as (F & M & S). apply frozen_both; [exact M|exact S|].
    destruct (so_obj (t0 (shiftedexp_obj a b bm))) as [ff l sc]. cbn in F, N. subst ff. apply exp_back, N.
  - destruct (U (shiftedrayleigh_obj a b bm)) as (F & M & S). apply frozen_both; [exact M|exact S|].
    destruct (so_obj (t0 (shiftedrayleigh_obj a b bm))) as [ff l sc]. cbn in F. subst ff. apply ray_back.
  - intros u. destruct (uniform_updates us (uniform_init a b bm sp)) as (_ & _ & F & _ & _ & M). destruct (M eq_refl eq_refl) as [M1 M2].
    apply uniform_reconstructs; [exact F|exact M1|exact M2].
Qed.
Print Assumptions C81_location_scale_classes.

(** Normal after any updates; Lognormal and ShiftedLognormal built from moments after updates. *)
Theorem C81_normal_lognormal : forall mean stdv lower sp us,
  let upd {S} l s := @apply_updates S l s us in
  reconstructs normal_cls (normal_inst (upd normal_set_location normal_set_scale (normal_init mean stdv sp))) /\
  (0 < mean -> 0 < stdv -> all_locations (fun v => 0 < v) us -> all_scales (fun v => 0 < v) us ->
   reconstructs lognormal_cls (lognormal_inst (upd lognormal_set_location lognormal_set_scale (lognormal_init mean stdv true sp)))) /\
  (lower < mean -> 0 < stdv -> exists t, slognormal_init mean stdv lower true sp = Ok t /\ reconstructs slognormal_cls (slognormal_inst t)).
Proof.
  intros m s lower sp us upd. split; [apply normal_reconstructs|]. split.
  - intros Hm Hs HL HS. destruct (lognormal_by_moments m s sp Hm Hs) as (A & B & C & _).
    set (t0 := lognormal_init m s true sp) in *. assert (C0 : (ln_lamb t0, ln_zeta t0) = ln_params (ln_mean t0) (ln_stdv t0)) by (rewrite A, B; exact C).
    destruct (lognormal_updates us t0 C0) as (M & S & E & _). unfold upd. apply lognormal_reconstructs; [rewrite M, A|rewrite S, B|exact E].
    + apply last_location_P; assumption.
    + apply last_scale_P; assumption.
  - intros Hl Hs. eexists. split; [reflexivity|]. destruct (ln_moments (m - lower) s ltac:(lra) Hs) as [Q1 Q2].
    assert (MM : lower + exp (fst (ln_params (m - lower) s)) * exp (snd (ln_params (m - lower) s) * snd (ln_params (m - lower) s) / 2) = m) by (rewrite Q1; ring).
    apply slognormal_reconstructs; cbn [sl_ln sl_lower sl_ctor_lower ln_mean ln_stdv ln_lamb ln_zeta base_init so_mean so_stdv]; unfold fz_mean, fz_std; cbn [fz_loc fz_scale fz_fam lognorm_fam sf_mean sf_std]; rewrite ?MM, ?Q2; try lra.
    symmetry. apply surjective_pairing.
Qed.
Print Assumptions C81_normal_lognormal.

(** Gamma and ChiSquare while their location (and, for ChiSquare, scale) is the original one;
    Weibull, TypeIIlargest and Beta when the solver recovers the shape of the object. *)
Theorem C81_shape_classes : forall gam chi2 Gam bet fsolve fmin k eps u q r a b sc sp,
  let ok c o := reconstructs c o /\ supports_dF c o in
  let at_ o := base_init o sp in
  (forall al, 0 < al -> sf_mean (gam al) = al /\ sf_std (gam al) = sqrt al) ->
  (forall nu, 0 < nu -> sf_mean (chi2 nu) = nu /\ sf_std (chi2 nu) = sqrt (2 * nu)) ->
  (forall q r, 0 < q -> 0 < r -> sf_mean (bet q r) = q / (q + r)) ->
  (0 < k -> 0 < sc -> ok (gamma_cls gam) (inst_s (at_ (mkFrozen (gam k) 0 sc)) [])) /\
  (0 < k -> ok (chisquare_cls chi2) (inst_s (at_ (mkFrozen (chi2 k) 0 1)) [])) /\
  (let w := mkFrozen (weibull_fam Gam k) eps sc in
   Gam (1 + 1 / k) <> 0 -> fsolve (fun x => weibull_parameter Gam x (fz_mean w - eps) (fz_std w)) (1 / 10) = k ->
   ok (weibull_cls Gam fsolve) (inst_s (at_ w) [("epsilon", eps)])) /\
  (let w := mkFrozen (frechet_fam Gam k) 0 u in
   u <> 0 -> Gam (1 - 1 / k) <> 0 -> fsolve (fun x => typeII_parameter Gam x (fz_mean w) (fz_std w)) (2000001 / 1000000) = k ->
   ok (typeII_cls Gam fsolve) (inst_s (at_ w) [])) /\
  (let w := mkFrozen (bet q r) a (b - a) in
   0 < q -> 0 < r -> a < b -> fmin (beta_parameter a b (fz_mean w) (fz_std w)) 1 = q ->
   ok (beta_cls bet fmin) (inst_s (at_ w) [("a", a); ("b", b)])).
Proof.
  intros gam chi2 Gam bet fsolve fmin k eps u q r a b sc sp ok at_ HG HC HB. split; [|split; [|split; [|split]]].
  - intros Hk Hs. destruct (HG k Hk) as [M S]. apply frozen_both; [reflexivity|reflexivity|]. now apply gam_back.
  - intros Hk. destruct (HC k Hk) as [M S]. apply frozen_both; [reflexivity|reflexivity|]. now apply chi_back.
  - intros w HG1 E. now apply (weibull_both Gam fsolve k eps (at_ w)).
  - intros w Hu HG1 E. apply frozen_both; [reflexivity|reflexivity|]. now apply typeII_back.
  - intros w Hq Hr Hab E. apply (beta_both bet fmin q r a b (at_ w)); try assumption; try reflexivity. now apply HB.
Qed.
Print Assumptions C81_shape_classes.

(** the shape arguments the constructors assume when they are left out: Beta on [0, 1], Weibull with
    lower limit 0; a single limit of Beta leaves the other at its default *)
Theorem C81_constructor_defaults : forall bet fmin Gam fsolve m s a b,
  beta_cls bet fmin m s [] = beta_cls bet fmin m s [("a", 0); ("b", 1)] /\
  beta_cls bet fmin m s [("a", a)] = beta_cls bet fmin m s [("a", a); ("b", 1)] /\
  beta_cls bet fmin m s [("b", b)] = beta_cls bet fmin m s [("a", 0); ("b", b)] /\
  weibull_cls Gam fsolve m s [] = weibull_cls Gam fsolve m s [("epsilon", 0)] /\
  (exists w, beta_cls bet fmin m s [("a", a); ("b", b)] = Ok w /\ in_kw w = [("a", a); ("b", b)]) /\
  beta_cls bet fmin m s [("epsilon", a)] = Err EType.
Proof. intros. repeat split; try reflexivity. eexists. split; reflexivity. Qed.
Print Assumptions C81_constructor_defaults.

(** GEVmax (also after updates) and GEVmin copy themselves; dF_dtheta raises ValueError exactly
    for shapes whose forward step reaches 1/2. *)
Theorem C81_gev : forall Gam eg a b sh bm sp us, gev_regular Gam sh ->
  (forall o, gevmax_obj Gam eg a b sh bm = Ok o ->
     let t := apply_updates base_set_location base_set_scale us (base_init o sp) in
     let w := inst_shape (base_dist t) (so_start t) sh in
     reconstructs (gevmax_cls Gam eg) w /\
     (forall x, sh + Rmax (Rabs sh / 10 ^ 6) (so_stdv t / 10 ^ 8) < 1 / 2 -> 0 < so_stdv t -> exists r, base_dF (gevmax_cls Gam eg) w x = Ok r) /\
     (forall x, 1 / 2 <= sh + Rmax (Rabs sh / 10 ^ 6) (so_stdv t / 10 ^ 8) -> base_dF (gevmax_cls Gam eg) w x = Err EValue)) /\
  ((bm = false -> 0 <= b) -> forall t, gevmin_init Gam eg a b sh bm sp = Ok t -> reconstructs (gevmin_cls Gam eg) (inst_shape (gevmin_dist t) (gm_start t) sh)).
Proof.
  intros Gam eg a b sh bm sp us HR. assert (H2 : sh < 1 / 2) by apply HR. split.
  2:{ intros HB t Ht. now apply (gevmin_reconstructs Gam eg a b sh bm sp t). }
  intros o Ho t w.
  assert (F : fz_fam o = gev_fam Gam eg (- sh)) by (unfold gevmax_obj in Ho; destruct (Rleb (1 / 2) sh); [discriminate|]; injection Ho as <-; reflexivity).
  destruct (base_updates us (base_init o sp)) as (F2 & _ & _ & _ & M). destruct (M eq_refl eq_refl) as [M1 M2]. fold t in F2, M1, M2.
  assert (RC : reconstructs (gevmax_cls Gam eg) w) by (apply gevmax_reconstructs; [exact HR|rewrite F2; exact F|exact M1|exact M2]).
  split; [exact RC|].
  assert (P : kw_plain (in_kw w)) by (apply plain_one; discriminate).
  assert (CP : forall p v y, In (p, v) (in_sens w) -> (p = "shape" -> y < 1 / 2) -> exists o', make_copy (gevmax_cls Gam eg) w [(p, y)] = Ok o').
  { intros p v y I Hy. cbn [w inst_shape in_sens] in I. destruct I as [I|[I|[I|[]]]]; injection I as <- _.
    - rewrite copy_mean by exact P. unfold gevmax_cls, gevmax_obj. cbn [w inst_shape in_kw one_kw String.eqb Ascii.eqb Bool.eqb]. rewrite (proj2 (Rleb_false (1 / 2) sh)) by lra. cbn [rbind]. eauto.
    - rewrite copy_std by exact P. unfold gevmax_cls, gevmax_obj. cbn [w inst_shape in_kw one_kw String.eqb Ascii.eqb Bool.eqb]. rewrite (proj2 (Rleb_false (1 / 2) sh)) by lra. cbn [rbind]. eauto.
    - rewrite copy_extra by (first [exact P | now left]). unfold gevmax_cls, gevmax_obj. cbn [w inst_shape in_kw dict_set one_kw String.eqb Ascii.eqb Bool.eqb].
      rewrite (proj2 (Rleb_false (1 / 2) y)) by (apply Hy; reflexivity). cbn [rbind]. eauto. }
  destruct RC as (w' & EW & CW & _).
  assert (P6 : 0 < / 10 ^ 6) by (apply Rinv_0_lt_compat, pow_lt; lra).
  assert (SK : forall x, base_dF (gevmax_cls Gam eg) w x = fd_params (gevmax_cls Gam eg) w x (in_sens w)).
  { intros x. unfold base_dF. rewrite EW, CW, Rminus_diag_eq, Rabs_R0 by reflexivity.
    replace (Rltb _ 0) with false by (symmetry; apply Rltb_false; apply Rmult_le_pos; [lra|]; pose proof (Rabs_pos (in_cdf w (in_mean w + 1 / 2 * in_stdv w))); lra). reflexivity. }
  split.
  - intros x HS Hs. rewrite SK. destruct (fd_params (gevmax_cls Gam eg) w x (in_sens w)) as [r|e] eqn:FP; [eauto|]. exfalso.
    apply fd_params_err in FP. destruct FP as (p & v & sg & I & Sg & K).
    destruct (CP p v (v + sg * fd_step w v) I) as (o' & K'); [|congruence].
    intros ->. cbn [w inst_shape in_sens] in I. destruct I as [I|[I|[I|[]]]]; try discriminate. injection I as <-.
    assert (ST : fd_step w sh = Rmax (Rabs sh / 10 ^ 6) (so_stdv t / 10 ^ 8)) by reflexivity.
    assert (0 < fd_step w sh) by (apply fd_step_pos; exact Hs). rewrite <- ST in HS. destruct Sg as [->| ->]; lra.
  - intros x HS. rewrite SK.
    assert (ST : fd_step w sh = Rmax (Rabs sh / 10 ^ 6) (so_stdv t / 10 ^ 8)) by reflexivity. rewrite <- ST in HS.
    assert (ST0 : 0 <= fd_step w sh) by (rewrite ST; eapply Rle_trans; [|apply Rmax_l]; apply Rmult_le_pos; [apply Rabs_pos|lra]).
    assert (KE : make_copy (gevmax_cls Gam eg) w [("shape", sh + fd_step w sh)] = Err EValue).
    { rewrite copy_extra by (first [exact P | now left]). unfold gevmax_cls, gevmax_obj. generalize dependent (fd_step w sh). intros hh HS _ _. cbn [w inst_shape in_kw dict_set one_kw String.eqb Ascii.eqb Bool.eqb].
      rewrite (proj2 (Rleb_spec (1 / 2) (sh + hh))) by exact HS. reflexivity. }
    destruct (fd_params (gevmax_cls Gam eg) w x (in_sens w)) as [r|e] eqn:FP.
    + exfalso. destruct (fd_params_ok _ _ _ _ _ FP) as [_ K]. destruct (K 2%nat "shape" sh eq_refl) as (dp & _ & K1 & _). congruence.
    + apply fd_params_err in FP. destruct FP as (p & v & sg & I & Sg & K).
      assert (NO : (p = "shape" -> v + sg * fd_step w v < 1 / 2) -> False) by (intros Q; destruct (CP p v _ I Q) as (o' & Q'); congruence).
      change (in_sens w) with [("mean", so_mean t); ("std", so_stdv t); ("shape", sh)] in I. destruct I as [I|[I|[I|[]]]]; injection I as <- <-; try (exfalso; apply NO; discriminate).
      destruct Sg as [->| ->]; [rewrite Rmult_1_l, KE in K; congruence|]. exfalso. apply NO. intros _. lra.
Qed.
Print Assumptions C81_gev.

(** Gumbel/TypeIlargestValue and TypeIsmallestValue: the constructor uses a ten-digit constant for
    Euler's [eg], so the copy is shifted by (eg - constant) * scale; its cdf differs by at most
    that difference and dF_dtheta accepts it. *)
Theorem C81_gumbel : forall eg loc sc sp, sc <> 0 -> Rabs (eg - 5772156649 / 10000000000) <= / 10 ^ 6 ->
  (let o := inst_s (base_init (mkFrozen (gumbel_fam eg) loc sc) sp) [] in
   (exists o', make_copy (gumbel_cls eg) o [] = Ok o' /\ forall x,
      in_cdf o' x = in_cdf o (x - (eg - 5772156649 / 10000000000) * sc) /\ Rabs (in_cdf o' x - in_cdf o x) <= Rabs (eg - 5772156649 / 10000000000)) /\
   supports_dF (gumbel_cls eg) o) /\
  (let o := inst_s (base_init (mkFrozen (gumbel_l_fam eg) loc sc) sp) [] in
   (exists o', make_copy (typeismallest_cls eg) o [] = Ok o' /\ forall x,
      in_cdf o' x = in_cdf o (x + (eg - 5772156649 / 10000000000) * sc) /\ Rabs (in_cdf o' x - in_cdf o x) <= Rabs (eg - 5772156649 / 10000000000)) /\
   supports_dF (typeismallest_cls eg) o).
Proof.
  change (5772156649 / 10000000000) with eg_literal.
  intros eg loc sc sp Hs HE.
  assert (S6 : sqrt 6 <> 0) by (apply Rgt_not_eq, sqrt_lt_R0; lra). assert (HP : PI <> 0) by (apply PI_neq0).
  assert (SUP : forall f o o', make_copy (frozen_cls f) (inst_s o []) [] = Ok o' ->
    (forall x, Rabs (in_cdf o' x - in_cdf (inst_s o []) x) <= Rabs (eg - eg_literal)) -> supports_dF (frozen_cls f) (inst_s o [])).
  { intros f o o' E K x. unfold base_dF. rewrite E. set (xt := in_mean _ + _).
    assert (P6 : 0 < / 10 ^ 6) by (apply Rinv_0_lt_compat, pow_lt; lra).
    replace (Rltb _ _) with false.
    2:{ symmetry. apply Rltb_false. specialize (K xt). pose proof (Rabs_pos (in_cdf (inst_s o []) xt)).
        apply Rle_trans with (1 := K), Rle_trans with (1 := HE). rewrite <- (Rmult_1_r (/ 10 ^ 6)) at 1. apply Rmult_le_compat_l; lra. }
    destruct (fd_params (frozen_cls f) (inst_s o []) x (in_sens (inst_s o []))) as [r|e] eqn:FP; [eauto|]. exfalso.
    apply fd_params_err in FP. destruct FP as (p & v & sg & I & _ & Q).
    cbn [inst_s inst_of in_sens] in I. destruct I as [I|[I|[]]]; injection I as <- _.
    - rewrite copy_mean in Q by apply plain_nil. discriminate.
    - rewrite copy_std in Q by apply plain_nil. discriminate. }
  split; intros o.
  - assert (E : exists o', make_copy (gumbel_cls eg) o [] = Ok o' /\ forall x,
      in_cdf o' x = in_cdf o (x - (eg - eg_literal) * sc) /\ Rabs (in_cdf o' x - in_cdf o x) <= Rabs (eg - eg_literal)).
    { eexists. split; [unfold gumbel_cls, frozen_cls; rewrite copy_none by apply plain_nil; reflexivity|]. intros x.
      cbn -[eg_literal]. unfold fz_cdf, gumbel_obj, fz_mean, fz_std. cbn -[eg_literal].
      match goal with |- exp (- exp (- ?z)) = _ /\ _ => replace z with ((x - loc) / sc + - (eg - eg_literal)) by (field; repeat split; lra) end.
      split; [do 4 f_equal; field; lra|]. eapply Rle_trans; [apply gum_lip|]. rewrite Rabs_Ropp. lra. }
    split; [exact E|]. destruct E as (o' & E & K). apply (SUP _ (base_init (mkFrozen (gumbel_fam eg) loc sc) sp) o' E). intros x. apply (K x).
  - assert (E : exists o', make_copy (typeismallest_cls eg) o [] = Ok o' /\ forall x,
      in_cdf o' x = in_cdf o (x + (eg - eg_literal) * sc) /\ Rabs (in_cdf o' x - in_cdf o x) <= Rabs (eg - eg_literal)).
    { eexists. split; [unfold typeismallest_cls, frozen_cls; rewrite copy_none by apply plain_nil; reflexivity|]. intros x.
      cbn -[eg_literal]. unfold fz_cdf, typeismallest_obj, fz_mean, fz_std. cbn -[eg_literal].
      match goal with |- 1 - exp (- exp ?z) = _ /\ _ => replace z with (- (- ((x - loc) / sc) + - (eg - eg_literal))) by (field; repeat split; lra) end.
      split; [do 4 f_equal; field; lra|].
      match goal with |- Rabs (1 - ?a - (1 - ?b)) <= _ => replace (1 - a - (1 - b)) with (- (a - b)) by ring end. rewrite Rabs_Ropp.
      replace ((x - loc) / sc) with (- - ((x - loc) / sc)) at 2 by ring.
      eapply Rle_trans; [apply gum_lip|]. rewrite Rabs_Ropp. lra. }
    split; [exact E|]. destruct E as (o' & E & K). apply (SUP _ (base_init (mkFrozen (gumbel_l_fam eg) loc sc) sp) o' E). intros x. apply (K x).
Qed.
Print Assumptions C81_gumbel.

(** C81 fails for classes whose copy forgets an update: Weibull and Gamma after set_location (the
    copy is located at epsilon, at 0), ShiftedLognormal after set_lower (the copy uses the bound
    given to the constructor). *)
Theorem C81_updates_lost_refuted :
  (forall Gam fsolve k eps sc l sp, eps < l -> 0 < sc -> (forall t, 0 < t -> 0 < Gam t) ->
     0 < k -> (forall f x, 0 < fsolve f x) ->
     let t := base_set_location l (base_init (mkFrozen (weibull_fam Gam k) eps sc) sp) in
     ~ reconstructs (weibull_cls Gam fsolve) (inst_s t [("epsilon", eps)])) /\
  (forall gam a sc l sp, 0 < l -> 0 < sc ->
     (forall al x, 0 < al -> sf_cdf (gam al) x = 0 <-> x <= 0) ->
     (forall al, 0 < al -> sf_mean (gam al) = al /\ sf_std (gam al) = sqrt al) -> 0 < a ->
     let t := base_set_location l (base_init (mkFrozen (gam a) 0 sc) sp) in
     ~ reconstructs (gamma_cls gam) (inst_s t [])) /\
  (forall m s l1 l2 sp t, l1 < l2 < m -> 0 < s -> slognormal_init m s l1 true sp = Ok t ->
     ~ reconstructs slognormal_cls (slognormal_inst (slognormal_set_lower l2 t))).
Proof.
  split; [|split].
  - intros Gam fsolve k eps sc l sp Hl Hs HG Hk HF t (o' & E & C & _).
    rewrite copy_none in E by (apply plain_one; discriminate). cbn in E. injection E as <-.
    specialize (C ((eps + l) / 2)). cbn in C. unfold fz_cdf, weibull_obj in C. cbn [fz_loc fz_scale fz_fam weibull_fam sf_cdf] in C.
    rewrite (proj2 (Rleb_spec (((eps + l) / 2 - l) / sc) 0)) in C.
    2:{ apply Rmult_le_reg_r with sc; [lra|]. field_simplify; lra. }
    assert (IV : forall y, 0 < y -> 0 < 1 + 1 / y) by (intros y Hy; assert (0 < 1 / y) by (apply Rdiv_lt_0_compat; lra); lra).
    unfold fz_mean in C. cbn [fz_loc fz_scale fz_fam weibull_fam sf_mean so_obj] in C.
    set (k' := fsolve _ _) in C. assert (Hk' : 0 < k') by apply HF.
    pose proof (HG _ (IV k Hk)) as G1. pose proof (HG _ (IV k' Hk')) as G2.
    match type of C with context[Rleb ?z 0] => assert (0 < z) as Z end.
    { apply Rdiv_lt_0_compat; [lra|]. match goal with |- 0 < ?A / ?B + eps - eps => assert (0 < A / B) end; [|lra].
      apply Rdiv_lt_0_compat; [|exact G2]. pose proof (Rmult_lt_0_compat _ _ Hs G1). lra. }
    rewrite (proj2 (Rleb_false _ 0) Z) in C. match type of C with 1 - exp (- ?p) = 0 => assert (0 < p) by (unfold Rpower; apply exp_pos); assert (exp (- p) < exp 0) by (apply exp_increasing; lra) end.
    rewrite exp_0 in *. lra.
  - intros gam a sc l sp Hl Hs HC HM Ha t (o' & E & C & _).
    rewrite copy_none in E by (apply plain_nil). cbn in E. injection E as <-.
    specialize (C (l / 2)). cbn in C. unfold fz_cdf, gamma_obj in C. cbn [fz_loc fz_scale fz_fam so_obj] in C.
    unfold fz_mean, fz_std in C. cbn [fz_loc fz_scale fz_fam so_obj] in C. destruct (HM a Ha) as [M S]. rewrite M, S in C.
    assert (SA : 0 < sqrt a) by (apply sqrt_lt_R0; exact Ha). assert (MA : 0 < l + sc * a) by (pose proof (Rmult_lt_0_compat _ _ Hs Ha); lra).
    assert (QA : 0 < sc * sqrt a * (sc * sqrt a)) by (pose proof (Rmult_lt_0_compat _ _ Hs SA); nra).
    rewrite (proj2 (HC a ((l / 2 - l) / sc) Ha)) in C.
    2:{ apply Rmult_le_reg_r with sc; [lra|]. field_simplify; lra. }
    apply HC in C.
    + apply (Rle_not_lt _ _ C). apply Rdiv_lt_0_compat; [lra|]. apply Rdiv_lt_0_compat; [lra|]. apply Rdiv_lt_0_compat; lra.
    + apply Rdiv_lt_0_compat; [|exact QA]. nra.
  - intros m s l1 l2 sp t Hl Hs E.
    assert (K : ln_mean (sl_ln t) = m /\ ln_stdv (sl_ln t) = s /\ sl_ctor_lower t = l1).
    { unfold slognormal_init in E. cbn [negb] in E. injection E as <-. destruct (ln_moments (m - l1) s ltac:(lra) Hs) as [Q1 Q2].
      split; [|split; [exact Q2|reflexivity]].
      transitivity (l1 + exp (fst (ln_params (m - l1) s)) * exp (snd (ln_params (m - l1) s) * snd (ln_params (m - l1) s) / 2)); [reflexivity|rewrite Q1; ring]. }
    clear E. destruct t as [[lm zt ob mm ss st] lo cl]. cbn in K. destruct K as (-> & -> & ->). intros (o' & E' & C & _).
    rewrite copy_none in E' by (apply plain_one; discriminate).
    unfold slognormal_cls in E'. cbn -[ln_params] in E'. injection E' as <-.
    pose proof (zeta_pos (m - l1) s ltac:(lra) Hs) as P1. pose proof (zeta_pos (m - l2) s ltac:(lra) Hs) as P2.
    set (w := (ln (l2 - l1) - fst (ln_params (m - l1) s)) / snd (ln_params (m - l1) s)).
    set (y := exp (fst (ln_params (m - l2) s) + snd (ln_params (m - l2) s) * (w - 1))). assert (Hy : 0 < y) by apply exp_pos.
    specialize (C (l2 + y)). cbn -[ln_params] in C. rewrite !ln_cdf_Phi in C by lra.
    replace (l2 + y - l2) with y in C by ring. unfold y in C at 2. rewrite ln_exp in C.
    replace ((fst (ln_params (m - l2) s) + snd (ln_params (m - l2) s) * (w - 1) - fst (ln_params (m - l2) s)) / snd (ln_params (m - l2) s)) with (w - 1) in C by (field; lra).
    assert (L : ln (l2 - l1) < ln (l2 + y - l1)) by (apply ln_increasing; lra).
    assert (W : w < (ln (l2 + y - l1) - fst (ln_params (m - l1) s)) / snd (ln_params (m - l1) s)).
    { unfold w. apply Rmult_lt_compat_r; [now apply Rinv_0_lt_compat|lra]. }
    pose proof (Phi_incr (w - 1) _ ltac:(apply Rlt_trans with w; [lra|exact W])) as LT. rewrite <- C in LT. exact (Rlt_irrefl _ LT).
Qed.
Print Assumptions C81_updates_lost_refuted.

(** C82: ChiSquare(nu), whose mean is nu and standard deviation s = sqrt(2 nu).  The values
    dF_dtheta reports are difference quotients of m |-> F(m^2/nu) and t |-> F(2 nu^2/t^2), whose
    slopes at the current moments are 2F' and -sF', although moving the mean or the standard
    deviation of a chi-square by itself changes F at the rates F' and sF'. *)
Theorem C82_reported_cdf_sensitivities : forall chi2 nu sp x,
  (forall v, 0 < v -> sf_mean (chi2 v) = v /\ sf_std (chi2 v) = sqrt (2 * v)) -> 0 < nu ->
  let o := inst_s (base_init (mkFrozen (chi2 nu) 0 1) sp) [] in
  let F v := sf_cdf (chi2 v) x in
  let s := sqrt (2 * nu) in
  let h p := Rmax (Rabs p / 10 ^ 6) (s / 10 ^ 8) in
  base_dF (chisquare_cls chi2) o x = Ok
    [("mean", (F ((nu + h nu) ^ 2 / nu) - F ((nu - h nu) ^ 2 / nu)) / (2 * h nu));
     ("std", (F (2 * nu ^ 2 / (s + h s) ^ 2) - F (2 * nu ^ 2 / (s - h s) ^ 2)) / (2 * h s))] /\
  forall F', is_derive F nu F' ->
    is_derive (fun m => F (m ^ 2 / nu)) nu (2 * F') /\
    is_derive (fun t => F (2 * nu ^ 2 / t ^ 2)) s (- s * F') /\
    (* the same parameter moved along the family *)
    is_derive (fun t => F (t ^ 2 / 2)) s (s * F').
Proof.
  intros chi2 nu sp x HC Hn o F s h. destruct (HC nu Hn) as [M S].
  assert (Hs : 0 < s) by (apply sqrt_lt_R0; lra). assert (S2 : s * s = 2 * nu) by (apply sqrt_sqrt; lra).
  assert (MO : in_mean o = nu) by (cbn; unfold fz_mean; cbn; rewrite M; ring).
  assert (SO : in_stdv o = s) by (cbn; unfold fz_std; cbn; rewrite S; unfold s; ring).
  assert (CP : forall m t, chisquare_cls chi2 m t [] = Ok (inst_s (base_init (mkFrozen (chi2 (2 * (m * m) / (t * t))) 0 1) None) [])) by reflexivity.
  assert (CD : forall v b y, in_cdf (inst_s (base_init (mkFrozen (chi2 v) 0 1) b) []) y = sf_cdf (chi2 v) y).
  { intros v b y. cbn. unfold fz_cdf. cbn. f_equal. field. }
  assert (EN : 2 * (nu * nu) / (s * s) = nu) by (rewrite S2; field; lra).
  assert (IS : in_sens o = [("mean", nu); ("std", s)]) by (rewrite <- MO, <- SO; reflexivity).
  split.
  - unfold base_dF. rewrite copy_none by apply plain_nil. change (in_kw o) with (@nil (string * R)). rewrite CP, MO, SO, EN.
    unfold o at 2. rewrite !CD. unfold o at 1. rewrite CD. rewrite Rminus_diag_eq, Rabs_R0 by reflexivity.
    replace (Rltb _ 0) with false.
    2:{ symmetry; apply Rltb_false; apply Rmult_le_pos; [|pose proof (Rabs_pos (sf_cdf (chi2 nu) (nu + 1 / 2 * s))); lra]. left. apply Rinv_0_lt_compat, pow_lt; lra. }
    rewrite IS. cbn [fd_params]. unfold fd_step. rewrite SO. change (Rmax (Rabs nu * / 10 ^ 6) (s * / 10 ^ 8)) with (h nu). change (Rmax (Rabs s * / 10 ^ 6) (s * / 10 ^ 8)) with (h s).
    rewrite !copy_mean, !copy_std by apply plain_nil. change (in_kw o) with (@nil (string * R)). rewrite MO, SO, !CP. cbn [rbind]. rewrite !CD.
    do 3 f_equal; [f_equal; f_equal; f_equal; unfold F; f_equal; f_equal; rewrite S2; field; lra|].
    f_equal; f_equal; f_equal; f_equal; unfold F; f_equal; f_equal; simpl pow; rewrite !Rmult_1_r; reflexivity.
  - intros F' HF.
    assert (CH : forall (g : R -> R) a g', is_derive g a g' -> g a = nu -> is_derive (fun t => F (g t)) a (g' * F')).
    { intros g a g' Hg E. apply (is_derive_comp F g a F' g'); [rewrite E; exact HF|exact Hg]. }
    split; [|split].
    + apply CH; [auto_derive; [trivial|field; lra]|field; lra].
    + replace (- s * F') with ((- 4 * nu ^ 2 / (s * s * s)) * F').
      * apply (CH (fun t => 2 * nu ^ 2 / t ^ 2)); [auto_derive; [intros Q; ring_simplify in Q; apply (Rmult_integral_contrapositive_currified s s); [lra|lra|simpl in Q; lra]|field; lra]|].
        replace (s ^ 2) with (2 * nu) by (simpl; lra). field. lra.
      * rewrite S2. replace nu with (s * s / 2) by lra. field. lra.
    + apply (CH (fun t => t ^ 2 / 2)); [auto_derive; [trivial|field]|]. simpl. lra.
Qed.
Print Assumptions C82_reported_cdf_sensitivities.

(** C82: the copies themselves: asking for mean nu+h gives ChiSquare((nu+h)^2/nu), asking for
    standard deviation s+h gives one of standard deviation s^2/(s+h). *)
Theorem C82_copies : forall chi2 nu sp h,
  (forall v, 0 < v -> sf_mean (chi2 v) = v /\ sf_std (chi2 v) = sqrt (2 * v)) -> 0 < nu ->
  let o := inst_s (base_init (mkFrozen (chi2 nu) 0 1) sp) [] in
  let s := sqrt (2 * nu) in
  (0 < nu + h -> exists o', make_copy (chisquare_cls chi2) o [("mean", nu + h)] = Ok o' /\
     in_mean o' = (nu + h) ^ 2 / nu /\ (h <> 0 -> in_mean o' <> nu + h)) /\
  (0 < s + h -> exists o', make_copy (chisquare_cls chi2) o [("std", s + h)] = Ok o' /\
     in_stdv o' = s ^ 2 / (s + h) /\ (0 < h -> in_stdv o' < s) /\ (h < 0 -> s < in_stdv o')).
Proof.
  intros chi2 nu sp h HC Hn o s. destruct (HC nu Hn) as [M S].
  assert (Hs : 0 < s) by (apply sqrt_lt_R0; lra). assert (S2 : s * s = 2 * nu) by (apply sqrt_sqrt; lra).
  assert (MO : in_mean o = nu) by (cbn; unfold fz_mean; cbn; rewrite M; ring).
  assert (SO : in_stdv o = s) by (cbn; unfold fz_std; cbn; rewrite S; unfold s; ring).
  split; intros Hh.
  - eexists. split; [rewrite copy_mean by apply plain_nil; reflexivity|]. cbn [inst_s inst_of base_dist base_init d_mean in_mean so_mean]. rewrite SO. unfold chisquare_obj, fz_mean. cbn [fz_loc fz_scale fz_fam].
    assert (P : 0 < 2 * ((nu + h) * (nu + h)) / (s * s)) by (apply Rdiv_lt_0_compat; nra).
    rewrite (proj1 (HC _ P)), S2. assert (E : 0 + 1 * (2 * ((nu + h) * (nu + h)) / (2 * nu)) = (nu + h) ^ 2 / nu) by (field; lra). rewrite E. split; [reflexivity|].
    intros H0 Q. apply (f_equal (fun z => z * nu)) in Q. replace ((nu + h) ^ 2 / nu * nu) with ((nu + h) * (nu + h)) in Q by (field; lra).
    assert (nu + h = nu) by (apply Rmult_eq_reg_l with (nu + h); lra). lra.
  - eexists. split; [rewrite copy_std by apply plain_nil; reflexivity|]. cbn [inst_s inst_of base_dist base_init d_stdv in_stdv so_stdv]. rewrite MO. unfold chisquare_obj, fz_std. cbn [fz_loc fz_scale fz_fam].
    assert (P : 0 < 2 * (nu * nu) / ((s + h) * (s + h))) by (apply Rdiv_lt_0_compat; nra).
    rewrite (proj2 (HC _ P)). assert (E : 1 * sqrt (2 * (2 * (nu * nu) / ((s + h) * (s + h)))) = s ^ 2 / (s + h)).
    { rewrite Rmult_1_l. replace (s ^ 2) with (2 * nu) by (simpl; lra). replace (2 * (2 * (nu * nu) / ((s + h) * (s + h)))) with ((2 * nu / (s + h)) * (2 * nu / (s + h))) by (field; lra).
      apply sqrt_square. left. apply Rdiv_lt_0_compat; lra. }
    rewrite E. split; [reflexivity|]. split; intros H0.
    + apply Rmult_lt_reg_r with (s + h); [lra|]. replace (s ^ 2 / (s + h) * (s + h)) with (s * s) by (field; lra). nra.
    + apply Rmult_lt_reg_r with (s + h); [lra|]. replace (s ^ 2 / (s + h) * (s + h)) with (s * s) by (field; lra). nra.
Qed.
Print Assumptions C82_copies.

Lemma slope_lim f l : is_derive f 0 l -> is_lim (fun h => (f h - f 0) / h) 0 l.
Proof.
  intros H. apply is_derive_Reals in H. apply is_lim_spec. intros eps. destruct (H (pos eps) (cond_pos eps)) as (d & Hd).
  exists d. intros h Hb Hn. change (Rabs (h - 0) < d) in Hb. rewrite Rminus_0_r in Hb. specialize (Hd h Hn Hb). rewrite Rplus_0_l in Hd. exact Hd.
Qed.
Lemma quot_lim f g lf lg (d : posreal) : is_derive f 0 lf -> is_derive g 0 lg -> lg <> 0 ->
  (forall h, Rabs h < d -> h <> 0 -> g h - g 0 <> 0) -> is_lim (fun h => (f h - f 0) / (g h - g 0)) 0 (lf / lg).
Proof.
  intros Hf Hg Hl Hn.
  apply (is_lim_ext_loc (fun h => (f h - f 0) / h / ((g h - g 0) / h))).
  - exists d. intros h Hb H0. change (Rabs (h - 0) < d) in Hb. rewrite Rminus_0_r in Hb. field. split; [apply Hn|]; assumption.
  - apply (is_lim_div _ _ 0 lf lg); [now apply slope_lim|now apply slope_lim| |reflexivity]. intros Q. injection Q as Q. exact (Hl Q).
Qed.
Lemma index_found {V} name : forall (l : list (string * V)) v, dict_get l name = Some v -> exists i, index_of name (map fst l) = Some i /\ (i < List.length l)%nat.
Proof.
  induction l as [|[k w] l IH]; intros v H; [discriminate|]. cbn in H |- *. destruct (String.eqb name k).
  - exists O. split; [reflexivity|lia].
  - destruct (IH v H) as (i & E & L). rewrite E. exists (S i). split; [reflexivity|lia].
Qed.

(** C82: numerical sensitivities divide by the change the copy really made, so for an index B(nu)
    they tend to B' and s B' -- the closed-form values above are off by 2 and by -1. *)
Theorem C82_numerical_branch_right : forall (opts : Type) chi2 nu sp delta beta0 m name
    (form_beta : option opts -> pmodel inst -> result R) (B : R -> R) B',
  (forall v, 0 < v -> sf_mean (chi2 v) = v /\ sf_std (chi2 v) = sqrt (2 * v)) -> 0 < nu -> 0 < delta ->
  let o := inst_s (base_init (mkFrozen (chi2 nu) 0 1) sp) [] in
  let s := sqrt (2 * nu) in
  let one := fd_one inst in_sens (fun d p v => make_copy (chisquare_cls chi2) d [(p, v)]) in_stdv opts form_beta delta beta0 m name in
  dict_get (pm_vars inst m) name = Some o -> (List.length (pm_vars inst m) <= List.length (pm_marg inst m))%nat ->
  (* beta depends on this variable through nu only *)
  (forall v sp' m1, replace_dist inst m name (inst_s (base_init (mkFrozen (chi2 v) 0 1) sp') []) = Ok m1 -> form_beta None m1 = Ok (B v)) ->
  let h := delta * s in
  one "mean" nu = Ok ((B ((nu + h) ^ 2 / nu) - beta0) / ((nu + h) ^ 2 / nu - nu)) /\
  one "std" s = Ok ((B (2 * nu ^ 2 / (s + h) ^ 2) - beta0) / (s ^ 2 / (s + h) - s)) /\
  (is_derive B nu B' ->
   is_lim (fun h => (B ((nu + h) ^ 2 / nu) - B nu) / ((nu + h) ^ 2 / nu - nu)) 0 B' /\
   is_lim (fun h => (B (2 * nu ^ 2 / (s + h) ^ 2) - B nu) / (s ^ 2 / (s + h) - s)) 0 (s * B')).
Proof.
  intros opts chi2 nu sp delta beta0 m name form_beta B B' HC Hn Hd o s one Hget Hlen HB h. destruct (HC nu Hn) as [M S].
  assert (Hs : 0 < s) by (apply sqrt_lt_R0; lra). assert (S2 : s * s = 2 * nu) by (apply sqrt_sqrt; lra).
  assert (Hh : 0 < h) by (apply Rmult_lt_0_compat; assumption).
  assert (SO : in_stdv o = s) by (cbn; unfold fz_std; cbn; rewrite S; unfold s; ring).
  assert (MO : in_mean o = nu) by (cbn; unfold fz_mean; cbn; rewrite M; ring).
  destruct (C82_copies chi2 nu sp h HC Hn) as [C1 C2]. fold o s in C1, C2.
  assert (RD : forall v b, exists m1, replace_dist inst m name (inst_s (base_init (mkFrozen (chi2 v) 0 1) b) []) = Ok m1).
  { intros v b. unfold replace_dist. destruct (index_found name _ _ Hget) as (i & E & L). rewrite E.
    replace (Nat.ltb i _) with true by (symmetry; apply Nat.ltb_lt; lia). eauto. }
  split; [|split].
  - destruct (C1 ltac:(lra)) as (o' & E & Mo & _). unfold one, fd_one. rewrite Hget, SO. fold h. rewrite E. cbn [rbind].
    rewrite copy_mean in E by apply plain_nil. rewrite SO in E. change (in_kw o) with (@nil (string * R)) in E. unfold chisquare_cls, frozen_cls, no_kw, chisquare_obj in E. injection E as <-.
    match type of Mo with in_mean (inst_s (base_init (mkFrozen (chi2 ?v) 0 1) None) []) = _ => destruct (RD v None) as (m1 & R1); rewrite R1; cbn [rbind];
      change (dict_get (in_sens (inst_s (base_init (mkFrozen (chi2 v) 0 1) None) [])) "mean") with (Some (in_mean (inst_s (base_init (mkFrozen (chi2 v) 0 1) None) []))) end.
    rewrite Mo, (HB _ _ _ R1). cbn [rbind]. do 4 f_equal. rewrite S2. field. lra.
  - destruct (C2 ltac:(lra)) as (o' & E & So & _). unfold one, fd_one. rewrite Hget, SO. fold h. rewrite E. cbn [rbind].
    rewrite copy_std in E by apply plain_nil. rewrite MO in E. change (in_kw o) with (@nil (string * R)) in E. unfold chisquare_cls, frozen_cls, no_kw, chisquare_obj in E. injection E as <-.
    match type of So with in_stdv (inst_s (base_init (mkFrozen (chi2 ?v) 0 1) None) []) = _ => destruct (RD v None) as (m1 & R1); rewrite R1; cbn [rbind];
      change (dict_get (in_sens (inst_s (base_init (mkFrozen (chi2 v) 0 1) None) [])) "std") with (Some (in_stdv (inst_s (base_init (mkFrozen (chi2 v) 0 1) None) []))) end.
    rewrite So, (HB _ _ _ R1). cbn [rbind]. do 4 f_equal. simpl pow. rewrite !Rmult_1_r. reflexivity.
  - intros HF.
    assert (CH : forall (g : R -> R) g', is_derive g 0 g' -> g 0 = nu -> is_derive (fun t => B (g t)) 0 (g' * B')).
    { intros g g' Hg E. apply (is_derive_comp B g 0 B' g'); [rewrite E; exact HF|exact Hg]. }
    split.
    + assert (Q := quot_lim (fun h => B ((nu + h) ^ 2 / nu)) (fun h => (nu + h) ^ 2 / nu) (2 * B') 2 (mkposreal nu Hn)). cbv beta in Q.
      replace ((nu + 0) ^ 2 / nu) with nu in Q by (field; lra). assert (E2 : 2 * B' / 2 = B') by lra. rewrite E2 in Q. apply Q.
      * apply CH; [auto_derive; [trivial|field; lra]|field; lra].
      * auto_derive; [trivial|field; lra].
      * lra.
      * intros t Ht H0 E. cbn in Ht. apply Rabs_lt_between in Ht. assert (E3 : (nu + t) * (nu + t) = nu * nu) by (replace nu with ((nu + t) ^ 2 / nu) at 3 by lra; field; lra). nra.
    + assert (Q := quot_lim (fun h => B (2 * nu ^ 2 / (s + h) ^ 2)) (fun h => s ^ 2 / (s + h)) (- s * B') (- 1) (mkposreal s Hs)). cbv beta in Q.
      assert (E0 : 2 * nu ^ 2 / (s + 0) ^ 2 = nu) by (rewrite Rplus_0_r; replace (s ^ 2) with (2 * nu) by (simpl; lra); field; lra).
      rewrite E0 in Q. replace (s ^ 2 / (s + 0)) with s in Q by (field; lra). assert (E2 : - s * B' / -1 = s * B') by lra. rewrite E2 in Q. apply Q.
      * replace (- s * B') with ((- 4 * nu ^ 2 / (s * s * s)) * B') by (rewrite S2; replace nu with (s * s / 2) by lra; field; lra).
        apply (CH (fun h => 2 * nu ^ 2 / (s + h) ^ 2)); [auto_derive; [intros Z; rewrite Rplus_0_r in Z; nra|field; lra]|exact E0].
      * auto_derive; [lra|field; lra].
      * lra.
      * intros t Ht H0 E. cbn in Ht. apply Rabs_lt_between in Ht. assert (E3 : s * s = s * (s + t)) by (replace s with (s ^ 2 / (s + t)) at 3 by lra; field; lra). nra.
Qed.
Print Assumptions C82_numerical_branch_right.

(** C83: Maximum, MaxParent, ZeroInflated and ScipyDist objects (no stored keywords) cannot be
    copied: no cdf sensitivities, and numerical sensitivities of any model containing one raise. *)
Theorem C83_composites_unsupported : forall o x p v, in_kw o = [] -> p = "mean" \/ p = "std" ->
  make_copy composite_cls o [] = Err EException /\ make_copy composite_cls o [(p, v)] = Err EException /\
  base_dF composite_cls o x = Err EValue.
Proof.
  intros o x p v K Hp. assert (P : kw_plain (in_kw o)) by (rewrite K; apply plain_nil).
  assert (A : make_copy composite_cls o [] = Err EException) by (rewrite copy_none, K by exact P; reflexivity).
  split; [exact A|]. split; [destruct Hp as [->| ->]; [rewrite copy_mean by exact P|rewrite copy_std by exact P]; rewrite K; reflexivity|].
  unfold base_dF. rewrite A. reflexivity.
Qed.
Print Assumptions C83_composites_unsupported.

Theorem C83_numerical_sensitivities_raise : forall (opts : Type) (classof : inst -> cls) stdv
    (form_beta : option opts -> pmodel inst -> result R) form_after opt delta m name d,
  NoDup (map fst (pm_vars inst m)) -> (forall oo mm, same_inputs mm (form_after oo mm)) ->
  In (name, d) (pm_vars inst m) -> classof d = composite_cls -> in_kw d = [] ->
  in_sens d = [("mean", in_mean d); ("std", in_stdv d)] ->
  exists e, fst (numerical_sens inst in_sens (fun d p v => make_copy (classof d) d [(p, v)]) stdv opts form_beta form_after opt delta m) = Err e.
Proof.
  intros opts classof stdv form_beta form_after opt delta m name d ND SI I CO KW SE. unfold numerical_sens. cbn [fst].
  destruct (form_beta None m) as [b0|e]; [|cbn; eauto]. cbn [rbind].
  assert (T : In (name, ("mean", in_mean d)) (sens_todo inst in_sens m)).
  { unfold sens_todo. apply in_flat_map. exists (name, d). split; [exact I|]. cbn [fst snd]. rewrite SE. left. reflexivity. }
  assert (F1 : forall b, fd_one inst in_sens (fun d p v => make_copy (classof d) d [(p, v)]) stdv opts form_beta delta b (form_after None m) name "mean" (in_mean d) = Err EException).
  { intros b. unfold fd_one. destruct (SI None m) as (V & _). rewrite V, (dget_nodup _ _ _ ND I). rewrite CO.
    rewrite (proj1 (proj2 (C83_composites_unsupported d 0 "mean" (in_mean d + delta * stdv d) KW (or_introl eq_refl)))). reflexivity. }
  generalize dependent (sens_init inst in_sens m). generalize dependent (sens_todo inst in_sens m). intros todo.
  induction todo as [|[nm [p v]] todo IH]; intros T s; [destruct T|]. cbn [fd_loop].
  destruct T as [T|T].
  - injection T as -> -> ->. rewrite F1. cbn. eauto.
  - match goal with |- exists e, rbind ?A _ = _ => destruct A as [q|e]; [|cbn; eauto] end. cbn [rbind].
    match goal with |- exists e, rbind ?A _ = _ => destruct A as [q'|e]; [|cbn; eauto] end. cbn [rbind]. apply IH. exact T.
Qed.
Print Assumptions C83_numerical_sensitivities_raise.

(** ** The hypotheses are satisfiable. *)
Example C81_uniform_mean_slope : exists r, base_dF uniform_cls (uniform_inst (uniform_init 0 1 true None)) 0 = Ok r /\
  nth_error r 0 = Some ("mean", - (1 / (2 * sqrt 3))).
Proof.
  destruct (C81_location_scale_classes 0 1 true None []) as (_ & _ & U). cbn [apply_updates fold_left] in U. destruct U as [_ U].
  destruct (U 0) as (r & Hr). exists r. split; [exact Hr|].
  assert (S3 : 0 < sqrt 3) by (apply sqrt_lt_R0; lra). assert (S3' : sqrt 3 * sqrt 3 = 3) by (apply sqrt_sqrt; lra).
  set (o := uniform_inst (uniform_init 0 1 true None)) in *.
  assert (MO : in_mean o = 0) by (cbn; unfold fz_mean; cbn; field).
  assert (S12 : sqrt (1 / 12) = 1 / (2 * sqrt 3)).
  { replace (1 / 12) with ((1 / (2 * sqrt 3)) * (1 / (2 * sqrt 3))).
    - apply sqrt_square. left. apply Rdiv_lt_0_compat; lra.
    - replace (1 / (2 * sqrt 3) * (1 / (2 * sqrt 3))) with (1 / (4 * (sqrt 3 * sqrt 3))) by (field; lra). rewrite S3'. field. }
  assert (SO : in_stdv o = 1) by (cbn; unfold fz_std; cbn; rewrite S12; field; lra).
  assert (H8 : 0 < / 10 ^ 8 < 1 / 2).
  { split; [apply Rinv_0_lt_compat, pow_lt; lra|]. lra. }
  destruct (C81_accuracy uniform_cls o 0 r 0 "mean" (in_mean o) (fun t => (0 - (t - sqrt 3)) / (2 * sqrt 3)) (fun _ => - (1 / (2 * sqrt 3))) (fun _ => 0) (fun _ => 0) 0 Hr eq_refl) as (q & Q & A).
  - rewrite SO. lra.
  - cbv zeta. rewrite MO, SO. rewrite Rabs_R0. replace (Rmax (0 / 10 ^ 6) (1 / 10 ^ 8)) with (/ 10 ^ 8) by (rewrite Rmax_right; lra).
    intros t o' Ht E. rewrite copy_mean, SO in E by apply plain_nil. cbn in E. injection E as <-. cbn. unfold fz_cdf. cbn.
    rewrite (proj2 (Rltb_false _ 0)), (proj2 (Rltb_false 1 _)).
    + field. lra.
    + apply Rmult_le_reg_r with (t + sqrt 3 * 1 - (t - sqrt 3 * 1)); [lra|]. assert (1 < sqrt 3) by (rewrite <- sqrt_1 at 1; apply sqrt_lt_1; lra). field_simplify; lra.
    + apply Rmult_le_reg_r with (t + sqrt 3 * 1 - (t - sqrt 3 * 1)); [lra|]. assert (1 < sqrt 3) by (rewrite <- sqrt_1 at 1; apply sqrt_lt_1; lra). field_simplify; lra.
  - intros t _. split; [auto_derive; [trivial|field; lra]|]. split; [auto_derive; [trivial|reflexivity]|]. split; [auto_derive; [trivial|reflexivity]|]. rewrite Rabs_R0. lra.
  - rewrite Q. do 2 f_equal. pose proof (Rabs_pos (q - - (1 / (2 * sqrt 3)))). unfold Rdiv at 2 in A. rewrite !Rmult_0_l in A. destruct (Req_dec (q - - (1 / (2 * sqrt 3))) 0); [lra|]. apply Rabs_pos_lt in H0. lra.
Qed.

(** families with the stated moments, a solver returning the shape, a Gamma-like function *)
Example C81_shape_hypotheses : exists (gam : R -> sfam) (chi2 : R -> sfam) (bet : R -> R -> sfam) (Gam : R -> R) fsolve,
  (forall al, 0 < al -> sf_mean (gam al) = al /\ sf_std (gam al) = sqrt al) /\
  (forall al x, 0 < al -> sf_cdf (gam al) x = 0 <-> x <= 0) /\
  (forall nu, 0 < nu -> sf_mean (chi2 nu) = nu /\ sf_std (chi2 nu) = sqrt (2 * nu)) /\
  (forall q r, 0 < q -> 0 < r -> sf_mean (bet q r) = q / (q + r)) /\
  (forall t, 0 < t -> 0 < Gam t) /\ (forall f x, 0 < fsolve f x) /\ gev_regular Gam (1 / 4) /\
  (let w := mkFrozen (weibull_fam Gam 1) 2 3 in
   Gam (1 + 1 / 1) <> 0 /\ weibull_parameter Gam 1 (fz_mean w - 2) (fz_std w) = 0 /\
   fsolve (fun x => weibull_parameter Gam x (fz_mean w - 2) (fz_std w)) (1 / 10) = 1).
Proof.
  set (cdf := fun x => if Rleb x 0 then 0 else 1 - exp (- x)).
  exists (fun a => mkFam cdf (fun _ => 0) (fun _ => 0) a (sqrt a)), (fun a => mkFam cdf (fun _ => 0) (fun _ => 0) a (sqrt (2 * a))),
    (fun q r => mkFam cdf (fun _ => 0) (fun _ => 0) (q / (q + r)) 1), (fun t => if Rltb t (6 / 10) then 5 else if Rltb t 1 then 1 else if Rltb t (5 / 2) then 1 else 2), (fun _ _ => 1).
  cbn. split; [auto|]. split.
  { intros al x _. unfold cdf. destruct (Rleb x 0) eqn:E.
    - apply Rleb_spec in E. tauto.
    - apply Rleb_false in E. split; [|lra]. intros Q. assert (exp (- x) < exp 0) by (apply exp_increasing; lra). rewrite exp_0 in *. lra. }
  split; [auto|]. split; [auto|]. split.
  { intros t _. destruct (Rltb t _); [lra|]. destruct (Rltb t 1); [lra|]. destruct (Rltb t _); lra. }
  split; [intros; lra|]. split.
  { unfold gev_regular. repeat split; try lra. right. split; [|].
    - rewrite Rabs_pos_eq; lra.
    - rewrite (proj2 (Rltb_spec (1 - 2 * (1 / 4)) (6 / 10))) by lra. rewrite (proj2 (Rltb_false (1 - 1 / 4) (6 / 10))) by lra. rewrite (proj2 (Rltb_spec (1 - 1 / 4) 1)) by lra. lra. }
  unfold weibull_parameter, fz_mean, fz_std. cbn.
  assert (N : forall a b, b <= a -> Rltb a b = false) by (intros; now apply Rltb_false). assert (T : forall a b, a < b -> Rltb a b = true) by (intros; now apply Rltb_spec).
  rewrite !(N (1 + 1 / 1) (6 / 10)), !(N (1 + 1 / 1) 1), !(T (1 + 1 / 1) (5 / 2)), !(N (1 + 2 / 1) (6 / 10)), !(N (1 + 2 / 1) 1), !(N (1 + 2 / 1) (5 / 2)) by lra.
  split; [lra|]. split; [|reflexivity]. replace (2 - 1 * 1) with 1 by ring. rewrite sqrt_1. field.
Qed.

(** twelve digits of Euler's constant *)
Example C81_gumbel_hypothesis : Rabs (577215664901 / 10 ^ 12 - 5772156649 / 10000000000) <= / 10 ^ 6.
Proof. replace (577215664901 / 10 ^ 12 - 5772156649 / 10000000000) with (1 / 10 ^ 12) by lra. rewrite Rabs_right; lra. Qed.
