From Coquelicot Require Import Coquelicot.
From Verif Require Import Base StochModel Dict Gauss GaussProofs Dist DistSpec DistProofs DistMomProofs DistUpdProofs DistProps Copy CopySpec CopyProofs.
From Coq Require Import String Lra Lia.
From Coq Require Import List.
Import ListNotations.
Open Scope string_scope.
Open Scope R_scope.

Lemma plain_nil : kw_plain [].
Proof. split; [intros []|split; [intros []|constructor]]. Qed.
Lemma plain_one k v : k <> "mean" -> k <> "std" -> kw_plain [(k, v)].
Proof. intros A B. split; [intros [E|[]]; cbn in E; congruence|]. split; [intros [E|[]]; cbn in E; congruence|]. cbn. constructor; [intros []|constructor]. Qed.

(** a faithful copy and constructors that do not raise: dF_dtheta works *)
Lemma supports_of c o : reconstructs c o ->
  (forall p v w, In (p, v) (in_sens o) -> exists o', make_copy c o [(p, w)] = Ok o') -> supports_dF c o.
Proof.
  intros (o' & E & C & _) H x. unfold base_dF. rewrite E, C, Rminus_diag_eq, Rabs_R0 by reflexivity.
  assert (P6 : 0 < / 10 ^ 6) by (apply Rinv_0_lt_compat, pow_lt; lra).
  replace (Rltb _ 0) with false by (symmetry; apply Rltb_false; apply Rmult_le_pos; [lra|]; pose proof (Rabs_pos (in_cdf o (in_mean o + 1 / 2 * in_stdv o))); lra).
  destruct (fd_params c o x (in_sens o)) as [r|e] eqn:F; [eauto|]. apply fd_params_err in F. destruct F as (p & v & sg & I & _ & K).
  destruct (H p v (v + sg * fd_step o v) I) as (o2 & K2). congruence.
Qed.

(** ** classes whose constructor takes no extra keyword *)
Lemma frozen_reconstructs obj s : so_mean s = fz_mean (so_obj s) -> so_stdv s = fz_std (so_obj s) ->
  obj (fz_mean (so_obj s)) (fz_std (so_obj s)) = so_obj s -> reconstructs (frozen_cls obj) (inst_s s []).
Proof.
  intros M S E. exists (inst_s (base_init (obj (fz_mean (so_obj s)) (fz_std (so_obj s))) None) []).
  rewrite copy_none by apply plain_nil. cbn [inst_s inst_of in_mean in_stdv in_kw in_cdf in_start in_sens base_dist d_mean d_stdv d_cdf]. rewrite M, S. unfold frozen_cls. cbn [no_kw].
  split; [reflexivity|]. rewrite E. cbn [base_init so_obj so_mean so_stdv so_start]. repeat split.
Qed.
Lemma frozen_supports obj s : reconstructs (frozen_cls obj) (inst_s s []) -> supports_dF (frozen_cls obj) (inst_s s []).
Proof.
  intros H. apply supports_of; [exact H|]. intros p v w I. cbn [inst_s inst_of in_sens] in I.
  destruct I as [I|[I|[]]]; injection I as <- _; [rewrite copy_mean by apply plain_nil|rewrite copy_std by apply plain_nil]; unfold frozen_cls; cbn [inst_s inst_of in_kw no_kw]; eauto.
Qed.
(** both at once *)
Lemma frozen_both obj s : so_mean s = fz_mean (so_obj s) -> so_stdv s = fz_std (so_obj s) ->
  obj (fz_mean (so_obj s)) (fz_std (so_obj s)) = so_obj s ->
  reconstructs (frozen_cls obj) (inst_s s []) /\ supports_dF (frozen_cls obj) (inst_s s []).
Proof. intros M S E. assert (R := frozen_reconstructs obj s M S E). split; [exact R|now apply frozen_supports]. Qed.

Lemma exp_back l sc : sc <> 0 -> shiftedexp_obj (fz_mean (mkFrozen expon_fam l sc)) (fz_std (mkFrozen expon_fam l sc)) true = mkFrozen expon_fam l sc.
Proof. intros H. unfold shiftedexp_obj, fz_mean, fz_std. cbn [fz_loc fz_scale fz_fam expon_fam sf_mean sf_std]. f_equal; field; auto. Qed.
Lemma pi_lt_4 : PI < 4.
Proof. destruct PI_4 as [H|H]; [exact H|]. pose proof PI_ineq 1 as [_ K]. cbn in K. unfold tg_alt, PI_tg in K. cbn in K. lra. Qed.
Lemma ray_back l sc : shiftedrayleigh_obj (fz_mean (mkFrozen rayleigh_fam l sc)) (fz_std (mkFrozen rayleigh_fam l sc)) true = mkFrozen rayleigh_fam l sc.
Proof.
  unfold shiftedrayleigh_obj, fz_mean, fz_std. cbn [fz_loc fz_scale fz_fam rayleigh_fam sf_mean sf_std].
  pose proof PI_RGT_0 as P0. pose proof pi_lt_4 as P4.
  assert (S0 : 0 < sqrt (2 - PI / 2)) by (apply sqrt_lt_R0; lra).
  assert (E : sqrt (2 - PI / 2) * sqrt (PI / (4 - PI)) = sqrt (PI / 2)).
  { rewrite <- sqrt_mult; [f_equal; field; lra|lra|]. apply Rmult_le_pos; [lra|]. left. apply Rinv_0_lt_compat. lra. }
  replace (2 - PI * (1 / 2)) with (2 - PI / 2) by field. f_equal.
  - rewrite Rmult_assoc, E. ring.
  - field. lra.
Qed.
Lemma uni_back l sc : let m := fz_mean (mkFrozen uniform_fam l sc) in let s := fz_std (mkFrozen uniform_fam l sc) in
  so_obj (un_s (uniform_init m s true None)) = mkFrozen uniform_fam l sc.
Proof.
  intros m s. unfold uniform_init. cbn [un_s base_init so_obj].
  assert (E : sqrt 3 * sqrt (1 / 12) = 1 / 2).
  { rewrite <- sqrt_mult by lra. replace (3 * (1 / 12)) with (1 / 2 * (1 / 2)) by field. apply sqrt_square. lra. }
  assert (Es : sqrt 3 * s = sc / 2). { unfold s, fz_std. cbn [fz_scale fz_fam uniform_fam sf_std]. replace (sqrt 3 * (sc * sqrt (1 / 12))) with (sc * (sqrt 3 * sqrt (1 / 12))) by ring. rewrite E. field. }
  assert (Em : m = l + sc / 2) by (unfold m, fz_mean; cbn [fz_loc fz_scale fz_fam uniform_fam sf_mean]; field).
  rewrite Es, Em. f_equal; field.
Qed.
Lemma gam_back gam a sc : 0 < a -> 0 < sc -> sf_mean (gam a) = a -> sf_std (gam a) = sqrt a ->
  gamma_obj gam (fz_mean (mkFrozen (gam a) 0 sc)) (fz_std (mkFrozen (gam a) 0 sc)) true = mkFrozen (gam a) 0 sc.
Proof.
  intros Ha Hs M S. unfold gamma_obj, fz_mean, fz_std. cbn [fz_loc fz_scale fz_fam]. rewrite M, S.
  assert (Q : sc * sqrt a * (sc * sqrt a) = sc * sc * a). { replace (sc * sqrt a * (sc * sqrt a)) with (sc * sc * (sqrt a * sqrt a)) by ring. rewrite sqrt_sqrt by lra. reflexivity. }
  rewrite Q. f_equal.
  - f_equal. field. split; lra.
  - field. split; lra.
Qed.
Lemma chi_back chi2 nu : 0 < nu -> sf_mean (chi2 nu) = nu -> sf_std (chi2 nu) = sqrt (2 * nu) ->
  chisquare_obj chi2 (fz_mean (mkFrozen (chi2 nu) 0 1)) (fz_std (mkFrozen (chi2 nu) 0 1)) true = mkFrozen (chi2 nu) 0 1.
Proof.
  intros Hn M S. unfold chisquare_obj, fz_mean, fz_std. cbn [fz_loc fz_scale fz_fam]. rewrite M, S.
  f_equal. f_equal. rewrite !Rmult_1_l, sqrt_sqrt by lra. field. lra.
Qed.
Lemma typeII_back Gam fsolve k u : u <> 0 -> Gam (1 - 1 / k) <> 0 ->
  let o := mkFrozen (frechet_fam Gam k) 0 u in
  fsolve (fun x => typeII_parameter Gam x (fz_mean o) (fz_std o)) (2000001 / 1000000) = k ->
  typeII_obj Gam fsolve (fz_mean o) (fz_std o) true = o.
Proof.
  intros Hu HG o E. unfold typeII_obj. rewrite E. unfold o. f_equal. unfold fz_mean. cbn [fz_loc fz_scale fz_fam frechet_fam sf_mean]. field. exact HG.
Qed.

(** Weibull: the lower bound travels in _ctor_kwargs *)
Lemma weibull_back Gam fsolve k eps sc : Gam (1 + 1 / k) <> 0 ->
  let o := mkFrozen (weibull_fam Gam k) eps sc in
  fsolve (fun x => weibull_parameter Gam x (fz_mean o - eps) (fz_std o)) (1 / 10) = k ->
  weibull_obj Gam fsolve (fz_mean o) (fz_std o) eps true = o.
Proof.
  intros HG o E. unfold weibull_obj. rewrite E. unfold o. f_equal. unfold fz_mean. cbn [fz_loc fz_scale fz_fam weibull_fam sf_mean]. field. exact HG.
Qed.
Lemma weibull_both Gam fsolve k eps s : so_obj s = mkFrozen (weibull_fam Gam k) eps (fz_scale (so_obj s)) ->
  so_mean s = fz_mean (so_obj s) -> so_stdv s = fz_std (so_obj s) -> Gam (1 + 1 / k) <> 0 ->
  fsolve (fun x => weibull_parameter Gam x (so_mean s - eps) (so_stdv s)) (1 / 10) = k ->
  let o := inst_s s [("epsilon", eps)] in
  reconstructs (weibull_cls Gam fsolve) o /\ supports_dF (weibull_cls Gam fsolve) o.
Proof.
  intros O M S HG E o.
  assert (P : kw_plain (in_kw o)) by (apply plain_one; discriminate).
  assert (R : reconstructs (weibull_cls Gam fsolve) o).
  { exists (inst_s (base_init (weibull_obj Gam fsolve (so_mean s) (so_stdv s) eps true) None) [("epsilon", eps)]).
    rewrite copy_none by exact P. cbn [o inst_s inst_of in_mean in_stdv in_kw in_cdf in_start in_sens base_dist d_mean d_stdv d_cdf]. split; [reflexivity|].
    assert (B : weibull_obj Gam fsolve (so_mean s) (so_stdv s) eps true = so_obj s).
    { rewrite M, S in *. rewrite O in E |- *. apply weibull_back; [exact HG|exact E]. }
    rewrite B. cbn [base_init so_obj so_mean so_stdv so_start]. now rewrite M, S. }
  split; [exact R|]. apply supports_of; [exact R|]. intros p v w I. cbn [o inst_s inst_of in_sens] in I.
  destruct I as [I|[I|[]]]; injection I as <- _; [rewrite copy_mean by exact P|rewrite copy_std by exact P]; cbn [o inst_s inst_of in_kw weibull_cls opt_kw String.eqb Ascii.eqb Bool.eqb]; eauto.
Qed.

(** Beta *)
Lemma beta_both bet fmin q r a b s : 0 < q -> 0 < r -> a < b ->
  so_obj s = mkFrozen (bet q r) a (b - a) -> so_mean s = fz_mean (so_obj s) -> so_stdv s = fz_std (so_obj s) ->
  sf_mean (bet q r) = q / (q + r) -> fmin (beta_parameter a b (so_mean s) (so_stdv s)) 1 = q ->
  let o := inst_s s [("a", a); ("b", b)] in
  reconstructs (beta_cls bet fmin) o /\ supports_dF (beta_cls bet fmin) o.
Proof.
  intros Hq Hr Hab O M S SM E o.
  assert (P : kw_plain (in_kw o)).
  { split; [intros [X|[X|[]]]; discriminate|]. split; [intros [X|[X|[]]]; discriminate|]. cbn. constructor; [intros [X|[]]; discriminate|]. constructor; [intros []|constructor]. }
  assert (R : reconstructs (beta_cls bet fmin) o).
  { exists (inst_s (base_init (beta_obj bet fmin (so_mean s) (so_stdv s) a b true) None) [("a", a); ("b", b)]).
    rewrite copy_none by exact P. cbn [o inst_s inst_of in_mean in_stdv in_kw in_cdf in_start in_sens base_dist d_mean d_stdv d_cdf]. split; [reflexivity|].
    assert (B : beta_obj bet fmin (so_mean s) (so_stdv s) a b true = so_obj s).
    { unfold beta_obj. rewrite E, O. f_equal. f_equal. rewrite M, O. unfold fz_mean. cbn [fz_loc fz_scale fz_fam]. rewrite SM. field. repeat split; try lra.
      replace (a * (q + r) + (b - a) * q - a * (q + r)) with ((b - a) * q) by ring. apply Rmult_integral_contrapositive. split; lra. }
    rewrite B. cbn [base_init so_obj so_mean so_stdv so_start]. now rewrite M, S. }
  split; [exact R|]. apply supports_of; [exact R|]. intros p v w I. cbn [o inst_s inst_of in_sens] in I.
  destruct I as [I|[I|[]]]; injection I as <- _; [rewrite copy_mean by exact P|rewrite copy_std by exact P]; cbn [o inst_s inst_of in_kw beta_cls String.eqb Ascii.eqb Bool.eqb andb]; eauto.
Qed.

Lemma gev_split Gam sh : gev_regular Gam sh -> (sh = 0 /\ close0 sh = true) \/ (sh <> 0 /\ close0 sh = false /\ 0 < Gam (1 - 2 * sh) - Gam (1 - sh) * Gam (1 - sh)).
Proof.
  assert (P8 : 0 < / 10 ^ 8) by (apply Rinv_0_lt_compat, pow_lt; lra).
  intros (_ & [->|[H1 H2]]); [left; split; [reflexivity|]; unfold close0; apply Rleb_spec; rewrite Rabs_R0; lra|].
  right. split; [intros ->; rewrite Rabs_R0 in H1; lra|]. split; [unfold close0; apply Rleb_false, H1|exact H2].
Qed.
Lemma gev_back Gam eg loc sc sh : gev_regular Gam sh ->
  let f := mkFrozen (gev_fam Gam eg (- sh)) loc sc in
  gev_loc_scale Gam eg sh (fz_mean f) (fz_std f) true = (loc, sc).
Proof.
  intros HR f. pose proof PI_RGT_0. assert (S6 : 0 < sqrt 6) by (apply sqrt_lt_R0; lra).
  unfold gev_loc_scale, f, fz_mean, fz_std. cbn [fz_loc fz_scale fz_fam].
  destruct (gev_split Gam sh HR) as [(E & C)|(N & C & G)]; rewrite C.
  - subst sh. unfold gev_fam, Reqb. destruct (Req_EM_T (- 0) 0) as [e|e]; [|exfalso; lra]. cbn [gumbel_fam sf_mean sf_std]. f_equal; field; lra.
  - unfold gev_fam, Reqb. destruct (Req_EM_T (- sh) 0) as [e|e]; [exfalso; lra|]. cbn [sf_mean sf_std].
    replace (1 + - sh) with (1 - sh) by ring. replace (1 + 2 * - sh) with (1 - 2 * sh) by ring. rewrite Rabs_Ropp.
    assert (A : Rabs sh <> 0) by (apply Rabs_no_R0, N). assert (Q := sqrt_lt_R0 _ G).
    set (g1 := Gam (1 - sh)) in *. set (D := sqrt (Gam (1 - 2 * sh) - g1 * g1)) in *.
    assert (SC : sc * (D / Rabs sh) * Rabs sh / D = sc) by (field; split; lra).
    rewrite SC. f_equal. field. exact N.
Qed.
Lemma gevmax_reconstructs Gam eg s sh : gev_regular Gam sh -> fz_fam (so_obj s) = gev_fam Gam eg (- sh) ->
  so_mean s = fz_mean (so_obj s) -> so_stdv s = fz_std (so_obj s) ->
  reconstructs (gevmax_cls Gam eg) (inst_shape (base_dist s) (so_start s) sh).
Proof.
  intros HR F M S. assert (HR' := HR). destruct HR' as [H2 _].
  assert (B : gev_loc_scale Gam eg sh (so_mean s) (so_stdv s) true = (fz_loc (so_obj s), fz_scale (so_obj s))).
  { rewrite M, S. assert (X := gev_back Gam eg (fz_loc (so_obj s)) (fz_scale (so_obj s)) sh HR). cbv zeta in X. rewrite <- F in X.
    destruct (so_obj s) as [ff ll ss]. exact X. }
  exists (inst_shape (base_dist (base_init (so_obj s) None)) (so_mean (base_init (so_obj s) None)) sh).
  rewrite copy_none by (apply plain_one; discriminate). cbn [inst_shape in_mean in_stdv in_kw in_cdf in_start in_sens base_dist d_mean d_stdv d_cdf gevmax_cls one_kw String.eqb Ascii.eqb Bool.eqb].
  split.
  - unfold gevmax_cls. cbn [one_kw String.eqb Ascii.eqb Bool.eqb]. unfold gevmax_obj. replace (Rleb (1 / 2) sh) with false by (symmetry; apply Rleb_false; lra).
    rewrite B. cbn [rbind fst snd]. rewrite <- F. destruct (so_obj s); reflexivity.
  - cbn [base_init so_obj so_mean so_stdv]. rewrite M, S. repeat split.
Qed.
Lemma gevmin_reconstructs Gam eg a b sh bm sp t : gev_regular Gam sh -> (bm = false -> 0 <= b) -> gevmin_init Gam eg a b sh bm sp = Ok t ->
  reconstructs (gevmin_cls Gam eg) (inst_shape (gevmin_dist t) (gm_start t) sh).
Proof.
  intros HR HB Ht. assert (HR' := HR). destruct HR' as [H2 _]. assert (R2 : Rleb (1 / 2) sh = false) by (apply Rleb_false; lra).
  assert (B : gev_loc_scale Gam eg sh (gm_mean t) (gm_stdv t) true = (- fz_loc (gm_obj t), fz_scale (gm_obj t)) /\ fz_fam (gm_obj t) = gev_fam Gam eg (- sh)).
  { unfold gevmin_init in Ht. rewrite R2 in Ht. injection Ht as <-. cbn [gm_mean gm_stdv gm_obj fz_loc fz_scale fz_fam]. split; [|reflexivity]. destruct bm.
    - rewrite Ropp_involutive. apply surjective_pairing.
    - specialize (HB eq_refl). cbn [gev_loc_scale fst snd]. pose proof PI_RGT_0. assert (S6 : 0 < sqrt 6) by (apply sqrt_lt_R0; lra).
      unfold gev_loc_scale. destruct (gev_split Gam sh HR) as [(E & C)|(N & C & G)]; rewrite C; [f_equal; field; lra|].
      assert (Q := sqrt_lt_R0 _ G). assert (A : Rabs sh <> 0) by (apply Rabs_no_R0, N).
      rewrite sqrt_mult by (try apply Rle_0_sqr; lra). assert (X : sqrt (b / sh * (b / sh)) = b / Rabs sh).
      { change (b / sh * (b / sh)) with (Rsqr (b / sh)). rewrite sqrt_Rsqr_abs. unfold Rdiv. rewrite Rabs_mult, Rabs_inv, (Rabs_right b) by lra. reflexivity. }
      rewrite X. set (g1 := Gam (1 - sh)) in *. set (D := sqrt (Gam (1 - 2 * sh) - g1 * g1)) in *.
      assert (SC : D * (b / Rabs sh) * Rabs sh / D = b) by (field; split; lra). rewrite SC. f_equal. field. exact N. }
  destruct B as [B F].
  eexists. rewrite copy_none by (apply plain_one; discriminate). unfold gevmin_cls at 1. cbn [inst_shape in_mean in_stdv in_kw one_kw String.eqb Ascii.eqb Bool.eqb gevmin_dist d_mean d_stdv].
  unfold gevmin_init at 1. rewrite R2. cbn [rbind]. split; [reflexivity|].
  rewrite B. cbn [fst snd]. rewrite Ropp_involutive, <- F. cbn [inst_shape in_cdf in_mean in_stdv in_start in_sens in_kw gevmin_dist d_cdf d_mean d_stdv gm_obj gm_mean gm_stdv gm_start].
  destruct (gm_obj t); repeat split.
Qed.

(** Normal, Lognormal, ShiftedLognormal, Uniform *)
Lemma normal_reconstructs t : reconstructs normal_cls (normal_inst t).
Proof.
  exists (normal_inst (normal_init (no_mean t) (no_stdv t) None)). rewrite copy_none by apply plain_nil. repeat split.
Qed.
Lemma lognormal_reconstructs t : 0 < ln_mean t -> 0 < ln_stdv t -> (ln_lamb t, ln_zeta t) = ln_params (ln_mean t) (ln_stdv t) ->
  reconstructs lognormal_cls (lognormal_inst t).
Proof.
  intros Hm Hs E. destruct (lognormal_by_moments (ln_mean t) (ln_stdv t) None Hm Hs) as (A & B & C & _).
  assert (D : ln_start (lognormal_init (ln_mean t) (ln_stdv t) true None) = ln_mean (lognormal_init (ln_mean t) (ln_stdv t) true None)) by reflexivity.
  exists (lognormal_inst (lognormal_init (ln_mean t) (ln_stdv t) true None)). rewrite copy_none by apply plain_nil. split; [reflexivity|].
  cbn [lognormal_inst inst_of in_cdf in_mean in_stdv in_start in_sens in_kw lognormal_dist d_cdf d_mean d_stdv]. rewrite <- E in C.
  set (u := lognormal_init (ln_mean t) (ln_stdv t) true None) in *. clearbody u. injection C as C1 C2.
  split; [intros x; now rewrite C1, C2|]. split; [exact A|]. split; [exact B|]. split; [exact D|]. rewrite A, B. split; reflexivity.
Qed.
Lemma slognormal_reconstructs t : sl_lower t < ln_mean (sl_ln t) -> 0 < ln_stdv (sl_ln t) -> sl_ctor_lower t = sl_lower t ->
  (ln_lamb (sl_ln t), ln_zeta (sl_ln t)) = ln_params (ln_mean (sl_ln t) - sl_lower t) (ln_stdv (sl_ln t)) ->
  reconstructs slognormal_cls (slognormal_inst t).
Proof.
  intros Hm Hs L E. set (m := ln_mean (sl_ln t)) in *. set (s := ln_stdv (sl_ln t)) in *. set (lo := sl_lower t) in *.
  destruct (ln_moments (m - lo) s ltac:(lra) Hs) as [A B].
  eexists. rewrite copy_none by (apply plain_one; discriminate). unfold slognormal_cls. cbn [slognormal_inst inst_of in_kw in_mean in_stdv one_kw String.eqb Ascii.eqb Bool.eqb]. rewrite L.
  unfold slognormal_init. cbn [negb rbind]. split; [reflexivity|].
  cbn [slognormal_inst inst_of in_cdf in_mean in_stdv in_start in_sens in_kw slognormal_dist lognormal_dist d_mean d_stdv d_cdf sl_ln sl_lower ln_mean ln_stdv ln_lamb ln_zeta ln_start base_init so_mean so_stdv so_start].
  fold m s lo. unfold fz_mean, fz_std. cbn [fz_loc fz_scale fz_fam lognorm_fam sf_mean sf_std]. rewrite A, B.
  split; [|split; [ring|split; [reflexivity|split; [reflexivity|]]]]; [|replace (lo + (m - lo)) with m by ring; repeat split|..].
  intros x.
  assert (E1 : fst (ln_params (m - lo) s) = ln_lamb (sl_ln t)) by (rewrite <- E; reflexivity).
  assert (E2 : snd (ln_params (m - lo) s) = ln_zeta (sl_ln t)) by (rewrite <- E; reflexivity). rewrite E1, E2. reflexivity.
Qed.
Lemma uniform_reconstructs t : fz_fam (so_obj (un_s t)) = uniform_fam -> so_mean (un_s t) = fz_mean (so_obj (un_s t)) -> so_stdv (un_s t) = fz_std (so_obj (un_s t)) ->
  reconstructs uniform_cls (uniform_inst t) /\ supports_dF uniform_cls (uniform_inst t).
Proof.
  intros F M S.
  assert (B : so_obj (un_s (uniform_init (so_mean (un_s t)) (so_stdv (un_s t)) true None)) = so_obj (un_s t)).
  { rewrite M, S. destruct (so_obj (un_s t)) as [ff l sc]. cbn [fz_fam] in F. subst ff. apply uni_back. }
  assert (R : reconstructs uniform_cls (uniform_inst t)).
  { exists (uniform_inst (uniform_init (so_mean (un_s t)) (so_stdv (un_s t)) true None)). rewrite copy_none by apply plain_nil. split; [reflexivity|].
    set (u := uniform_init _ _ _ _) in *. cbn [uniform_inst inst_of in_cdf in_mean in_stdv in_start in_sens in_kw uniform_dist base_dist d_cdf d_mean d_stdv]. rewrite B.
    assert (E : so_mean (un_s u) = fz_mean (so_obj (un_s u)) /\ so_stdv (un_s u) = fz_std (so_obj (un_s u)) /\ so_start (un_s u) = so_mean (un_s u)) by (unfold u; repeat split).
    destruct E as (E1 & E2 & E3). rewrite E3, E1, E2, B, M, S. repeat split. }
  split; [exact R|]. apply supports_of; [exact R|]. intros p v w I. cbn [uniform_inst inst_of in_sens] in I.
  destruct I as [I|[I|[]]]; injection I as <- _; [rewrite copy_mean by apply plain_nil|rewrite copy_std by apply plain_nil]; unfold uniform_cls; cbn [uniform_inst inst_of in_kw no_kw]; eauto.
Qed.

(** ** Gumbel: the copy is shifted by the error of the ten-digit constant *)
Lemma gum_lip z d : Rabs (exp (- exp (- (z + d))) - exp (- exp (- z))) <= Rabs d.
Proof.
  destruct (MVT_gen (fun z => exp (- exp (- z))) z (z + d) (fun z => exp (- (z + exp (- z))))) as (c & _ & E).
  - intros t _. auto_derive; [exact I|]. replace (- (t + exp (- t))) with (- t + - exp (- t)) by ring. rewrite exp_plus. ring.
  - intros t _. apply continuity_pt_filterlim. apply (ex_derive_continuous (fun z => exp (- exp (- z))) t). auto_derive. exact I.
  - cbn beta in E. rewrite E. replace (z + d - z) with d by ring. rewrite Rabs_mult. rewrite (Rabs_right (exp _)) by (left; apply exp_pos).
    rewrite <- (Rmult_1_l (Rabs d)) at 2. apply Rmult_le_compat_r; [apply Rabs_pos|]. rewrite <- exp_0.
    assert (Q : 1 - c <= exp (- c)) by (pose proof (exp_ineq1_le (- c)); lra).
    destruct (Rle_lt_or_eq_dec (- (c + exp (- c))) 0) as [L|L]; [lra|left; apply exp_increasing, L|rewrite L; lra].
Qed.
