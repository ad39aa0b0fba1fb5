(** Lemmas for C115. *)
From Coquelicot Require Import Coquelicot.
From Verif Require Import Base Gauss GaussProofs McSpec MomSpec MomProofs McBiasSpec McBiasProofs McBiasLinProofs McBiasLinProps FormBoundSpec FormBoundProofs Sorm SormProofs TailProofs SormBoundSpec.
From Coq Require Import Lra Lia FunctionalExtensionality.
Open Scope R_scope.

(** ** Gaussian integrals *)
(** decay of polynomials times the density *)
Lemma phi_x4 x : x ^ 4 * phi x <= 16.
Proof.
  apply Rle_trans with (x ^ 4 * ee x); [apply Rmult_le_compat_l; [replace (x ^ 4) with ((x * x) * (x * x)) by ring; nra|apply phi_ee]|].
  unfold ee. replace (- (x * x / 2)) with (- (x * x / 4) + - (x * x / 4)) by field. rewrite exp_plus. set (t := x * x / 4). replace (x ^ 4) with (16 * (t * t)) by (unfold t; field).
  assert (E : t * exp (- t) <= 1). { rewrite exp_Ropp. pose proof (exp_ineq1_le t). pose proof (exp_pos t) as P. apply (Rmult_le_reg_r (exp t)); [exact P|]. rewrite Rmult_assoc, Rinv_l by lra. lra. }
  assert (T : 0 <= t) by (unfold t; nra). pose proof (exp_pos (- t)). assert (0 <= t * exp (- t)) by nra. replace (16 * (t * t) * (exp (- t) * exp (- t))) with (16 * ((t * exp (- t)) * (t * exp (- t)))) by ring. nra.
Qed.
Lemma decay_lim (f : R -> R) C : (forall x, 1 <= Rabs x -> Rabs (f x) <= C / Rabs x) -> filterlim f MI (locally 0) /\ filterlim f PI_ (locally 0).
Proof.
  intros B. assert (C0 : 0 <= C). { pose proof (B 1 ltac:(rewrite Rabs_R1; lra)) as Q1. pose proof (Rabs_pos (f 1)). rewrite Rabs_R1 in Q1. unfold Rdiv in Q1. rewrite Rinv_1, Rmult_1_r in Q1. lra. }
  assert (K : forall eps x : R, 0 < eps -> Rmax 1 ((C + 1) / eps) < Rabs x -> Rabs (f x - 0) < eps).
  { intros eps x He Hx. rewrite Rminus_0_r. pose proof (Rmax_l 1 ((C + 1) / eps)). pose proof (Rmax_r 1 ((C + 1) / eps)) as M. specialize (B x ltac:(lra)).
    assert (M2 : (C + 1) / eps < Rabs x) by lra. apply (Rmult_lt_compat_r eps) in M2; [|exact He]. replace ((C + 1) / eps * eps) with (C + 1) in M2 by (field; lra).
    assert (C / Rabs x < eps); [|lra]. apply (Rmult_lt_reg_r (Rabs x)); [lra|]. replace (C / Rabs x * Rabs x) with C by (field; lra). lra. }
  split; apply filterlim_locally; intros [eps He]; cbn [pos].
  - exists (- Rmax 1 ((C + 1) / eps)). intros y Hy. apply K; [exact He|]. rewrite Rabs_left; pose proof (Rmax_l 1 ((C + 1) / eps)); lra.
  - exists (Rmax 1 ((C + 1) / eps)). intros y Hy. apply K; [exact He|]. rewrite Rabs_right; pose proof (Rmax_l 1 ((C + 1) / eps)); lra.
Qed.
Lemma decay_x x : 1 <= Rabs x -> Rabs (x * phi x) <= 16 / Rabs x /\ Rabs (x ^ 3 * phi x) <= 16 / Rabs x.
Proof.
  intros H. pose proof (phi_x4 x) as P. pose proof (phi_pos x) as P0.
  assert (E4 : x ^ 4 = Rabs x ^ 4) by (replace (x ^ 4) with ((x ^ 2) ^ 2) by ring; rewrite <- (pow2_abs x); ring). rewrite E4 in P.
  rewrite !Rabs_mult, <- RPow_abs, (Rabs_right (phi x)) by lra. set (a := Rabs x) in *.
  assert (G : a * a <= a ^ 4). { replace (a ^ 4) with ((a * a) * (a * a)) by ring. assert (1 <= a * a) by nra. nra. }
  split; apply (Rmult_le_reg_r a); try lra; replace (16 / a * a) with 16 by (field; lra); nra.
Qed.
Lemma eN_x2 : expectN (fun x => x ^ 2) 1.
Proof.
  destruct lims_Phi as [M P]. destruct (decay_lim (fun x => - (x * phi x)) 16) as [DM DP]. { intros x Hx. rewrite Rabs_Ropp. apply decay_x, Hx. }
  apply (eN_F (fun x => Phi x + - (x * phi x)) (fun x => x ^ 2) (0 + 0) (1 + 0)); [| | | |ring].
  - intros u. assert (A : is_derive (fun x => x * phi x) u (1 * phi u + u * (- u * phi u))) by (apply (is_derive_mult (fun x => x) phi u _ _ (is_derive_id u) (phi_derive u)); intros; apply Rmult_comm).
    pose proof (is_derive_plus _ _ _ _ _ (Phi_derive u) (is_derive_opp _ _ _ A)) as E. refine (eq_ind _ (fun d => is_derive _ u d) E _ _). unfold plus, opp; cbn. ring.
  - intros u. apply (ex_derive_continuous (fun x => x ^ 2)). auto_derive. exact I.
  - eapply filterlim_comp_2; [exact M|exact DM|apply (filterlim_plus (K:=R_AbsRing) (V:=R_NormedModule))].
  - eapply filterlim_comp_2; [exact P|exact DP|apply (filterlim_plus (K:=R_AbsRing) (V:=R_NormedModule))].
Qed.
Lemma eN_x4 : expectN (fun x => x ^ 4) 3.
Proof.
  destruct lims_Phi as [M P].
  assert (B : forall x, 1 <= Rabs x -> Rabs (- (x ^ 3 * phi x)) <= 16 / Rabs x) by (intros x Hx; rewrite Rabs_Ropp; apply decay_x, Hx). destruct (decay_lim _ 16 B) as [DM DP].
  replace 3 with (0 + 3 * 1) by ring. apply (eN_ext (fun x => (x ^ 4 - 3 * x ^ 2) + 3 * x ^ 2)); [intros; ring|]. apply (eN_plus (fun x => x ^ 4 - 3 * x ^ 2) (fun x => 3 * x ^ 2)); [|apply (eN_scal (fun x => x ^ 2)), eN_x2].
  apply (eN_F (fun x => - (x ^ 3 * phi x)) _ 0 0); [| |exact DM|exact DP|ring].
  - intros u. assert (C : is_derive (fun x => x ^ 3) u (3 * u ^ 2)) by (auto_derive; [exact I|ring]).
    assert (A : is_derive (fun x => x ^ 3 * phi x) u (3 * u ^ 2 * phi u + u ^ 3 * (- u * phi u))) by (apply (is_derive_mult _ phi u _ _ C (phi_derive u)); intros; apply Rmult_comm).
    pose proof (is_derive_opp _ _ _ A) as E. refine (eq_ind _ (fun d => is_derive _ u d) E _ _). unfold opp; cbn. ring.
  - intros u. apply (ex_derive_continuous (fun x => x ^ 4 - 3 * x ^ 2)). auto_derive. exact I.
Qed.

Definition bell (c x : R) : R := exp (- (c * x ^ 2 / 2)).
Lemma bell_phi c x : 0 < 1 + c -> bell c x * phi x = phi (sqrt (1 + c) * x).
Proof.
  intros H. unfold bell, phi, Rdiv. rewrite <- Rmult_assoc, <- exp_plus. f_equal. f_equal.
  replace (sqrt (1 + c) * x * (sqrt (1 + c) * x)) with (sqrt (1 + c) * sqrt (1 + c) * (x * x)) by ring. rewrite sqrt_sqrt by lra. field.
Qed.
(** the moment of x^k against the narrowed bell *)
Lemma eN_bell k v c : 0 < 1 + c -> expectN (fun x => x ^ k) v -> expectN (fun x => x ^ k * bell c x) (v * / sqrt (1 + c) ^ S k).
Proof.
  intros H E. set (s := sqrt (1 + c)). assert (S0 : 0 < s) by (apply sqrt_lt_R0, H).
  pose proof (gen_affine _ 0 s v S0 E) as G. apply (is_RInt_gen_scal _ (/ s ^ S k)) in G.
  assert (K : s ^ k <> 0) by (apply pow_nonzero; lra).
  refine (eq_ind _ (fun w => expectN (fun x => x ^ k * bell c x) w) _ _ (Rmult_comm _ _)).
  refine (is_RInt_gen_ext _ _ _ _ G). apply filter_forall. intros ab x _. cbn beta. rewrite Rmult_assoc, bell_phi by exact H. fold s. rewrite !Rplus_0_l. unfold scal; cbn -[pow]; unfold mult; cbn -[pow].
  rewrite Rpow_mult_distr. cbn [pow]. field. split; [exact K|lra].
Qed.
Lemma bell_cont c x : continuous (bell c) x.
Proof. apply (ex_derive_continuous (bell c)). unfold bell. auto_derive. exact I. Qed.

(** different on the two half lines *)
Lemma eN_glue (f F G df dg : R -> R) la lb : (forall x, is_derive F x (df x * phi x)) -> (forall x, continuous df x) -> (forall x, is_derive G x (dg x * phi x)) -> (forall x, continuous dg x) ->
  (forall x, x < 0 -> f x = df x) -> (forall x, 0 < x -> f x = dg x) -> filterlim F MI (locally la) -> filterlim G PI_ (locally lb) ->
  expectN f ((F 0 - la) + (lb - G 0)).
Proof.
  intros DF CF DG CG EF EG LA LB.
  apply (filterlimi_lim_ext_loc (fun ab => (F 0 - F (fst ab)) + (G (snd ab) - G 0))).
  - apply (Filter_prod _ _ _ (fun a => a < 0) (fun b => 0 < b)); [exists 0; auto|exists 0; auto|]. intros a b Ha Hb. cbn [fst snd].
    apply (is_RInt_Chasles (V := R_NormedModule) _ a 0 b).
    + apply (is_RInt_ext (V := R_NormedModule) (fun x => df x * phi x)).
      * rewrite Rmin_left, Rmax_right by lra. intros x Hx. change (df x * phi x = f x * phi x). rewrite EF by lra. reflexivity.
      * apply (is_RInt_derive F (fun x => df x * phi x) a 0); intros x _; [apply DF|apply (continuous_mult df phi); [apply CF|apply phi_continuous]].
    + apply (is_RInt_ext (V := R_NormedModule) (fun x => dg x * phi x)).
      * rewrite Rmin_left, Rmax_right by lra. intros x Hx. change (dg x * phi x = f x * phi x). rewrite EG by lra. reflexivity.
      * apply (is_RInt_derive G (fun x => dg x * phi x) 0 b); intros x _; [apply DG|apply (continuous_mult dg phi); [apply CG|apply phi_continuous]].
  - assert (SUB : forall u v : R, filterlim (fun z : R * R => fst z - snd z) (filter_prod (locally u) (locally v)) (locally (u - v))).
    { intros u v. eapply (filterlim_comp_2 (fun x : R * R => fst x) (fun x => - snd x) Rplus); [apply filterlim_fst| |apply (filterlim_plus (K:=R_AbsRing) (V:=R_NormedModule))].
      eapply filterlim_comp; [apply filterlim_snd|apply (filterlim_opp (K:=R_AbsRing) (V:=R_NormedModule))]. }
    apply (filterlim_comp_2 (F := filter_prod MI PI_) (G := locally (F 0 - la)) (H := locally (lb - G 0)) (fun ab => F 0 - F (fst ab)) (fun ab => G (snd ab) - G 0) Rplus).
    + apply (filterlim_comp_2 (F := filter_prod MI PI_) (G := locally (F 0)) (H := locally la) (fun _ => F 0) (fun ab => F (fst ab)) Rminus); [apply filterlim_const|eapply filterlim_comp; [apply filterlim_fst|exact LA]|apply SUB].
    + apply (filterlim_comp_2 (F := filter_prod MI PI_) (G := locally lb) (H := locally (G 0)) (fun ab => G (snd ab)) (fun _ => G 0) Rminus); [eapply filterlim_comp; [apply filterlim_snd|exact LB]|apply filterlim_const|apply SUB].
    + apply (filterlim_plus (K:=R_AbsRing) (V:=R_NormedModule)).
Qed.
Lemma Phis_lim s : 0 < s -> filterlim (fun x => / s * Phi (s * x)) MI (locally (/ s * 0)) /\ filterlim (fun x => / s * Phi (s * x)) PI_ (locally (/ s * 1)).
Proof.
  intros S0. destruct lims_Phi as [M P]. split.
  - apply (filterlim_comp _ _ _ (fun x => Phi (s * x)) (fun y => / s * y) MI (locally 0)); [|apply (filterlim_scal_r (K := R_AbsRing) (V := R_NormedModule) (/ s) 0)].
    apply (filterlim_comp _ _ _ (fun x => s * x) Phi MI MI); [|exact M]. intros X (m & HX). exists (m / s). intros y Hy. apply HX. apply (Rmult_lt_compat_l s) in Hy; [|exact S0]. replace (s * (m / s)) with m in Hy by (field; lra). exact Hy.
  - apply (filterlim_comp _ _ _ (fun x => Phi (s * x)) (fun y => / s * y) PI_ (locally 1)); [|apply (filterlim_scal_r (K := R_AbsRing) (V := R_NormedModule) (/ s) 1)].
    apply (filterlim_comp _ _ _ (fun x => s * x) Phi PI_ PI_); [|exact P]. intros X (m & HX). exists (m / s). intros y Hy. apply HX. apply (Rmult_lt_compat_l s) in Hy; [|exact S0]. replace (s * (m / s)) with m in Hy by (field; lra). exact Hy.
Qed.
Lemma Phis_derive c x : 0 < 1 + c -> is_derive (fun x => / sqrt (1 + c) * Phi (sqrt (1 + c) * x)) x (bell c x * phi x).
Proof.
  intros H. rewrite bell_phi by exact H. set (s := sqrt (1 + c)). assert (S0 : 0 < s) by (apply sqrt_lt_R0, H).
  assert (A : is_derive (fun x => s * x) x s) by (auto_derive; [exact I|ring]).
  pose proof (is_derive_scal _ _ (/ s) _ (is_derive_comp Phi (fun x => s * x) x _ _ (Phi_derive (s * x)) A)) as E.
  refine (eq_ind _ (fun d => is_derive _ x d) E _ _). unfold scal; cbn; unfold mult; cbn. field. lra.
Qed.
Lemma eN_bells a b : 0 < 1 + a -> 0 < 1 + b -> expectN (fun x => if Rltb x 0 then bell a x else bell b x) (/ 2 * (/ sqrt (1 + a) + / sqrt (1 + b))).
Proof.
  intros A B. destruct (Phis_lim (sqrt (1 + a)) (sqrt_lt_R0 _ A)) as [LA _]. destruct (Phis_lim (sqrt (1 + b)) (sqrt_lt_R0 _ B)) as [_ LB].
  pose proof (eN_glue (fun x => if Rltb x 0 then bell a x else bell b x) _ _ (bell a) (bell b) (/ sqrt (1 + a) * 0) (/ sqrt (1 + b) * 1) (fun x => Phis_derive a x A) (bell_cont a) (fun x => Phis_derive b x B) (bell_cont b)) as G. cbn beta in G.
  refine (eq_ind _ (fun w => expectN _ w) (G _ _ LA LB) _ _).
  - intros x Hx. destruct (Rltb x 0) eqn:E; [reflexivity|apply Rltb_false in E; lra].
  - intros x Hx. destruct (Rltb x 0) eqn:E; [apply Rltb_spec in E; lra|reflexivity].
  - rewrite !Rmult_0_r, Phi_0. field. split; apply Rgt_not_eq, sqrt_lt_R0; assumption.
Qed.

(** ** existence *)
Lemma eN_exists (f : R -> R) B : (forall x, continuous f x) -> (forall x, Rabs (f x) <= B) -> exists v, expectN f v.
Proof.
  intros C Bd. assert (B0 : 0 <= B) by (pose proof (Bd 0); pose proof (Rabs_pos (f 0)); lra).
  assert (CI : forall x, continuous (fun u => f u * phi u) x) by (intros x; apply (continuous_mult f phi); [apply C|apply phi_continuous]).
  assert (EX : forall a b, ex_RInt (fun u => f u * phi u) a b) by (intros a b; apply (ex_RInt_continuous (V := R_CompleteNormedModule)); intros; apply CI).
  assert (LE : forall a b, Rabs (RInt (fun u => f u * phi u) a b) <= B * Rabs (Phi b - Phi a)).
  { assert (W : forall a b, a <= b -> Rabs (RInt (fun u => f u * phi u) a b) <= B * (Phi b - Phi a)).
    { intros a b L. eapply Rle_trans; [apply abs_RInt_le; [exact L|apply EX]|].
      assert (I1 : is_RInt (fun u => B * phi u) a b (B * (Phi b - Phi a))) by (apply (is_RInt_scal (V := R_NormedModule) phi), (is_RInt_derive Phi phi); intros; [apply Phi_derive|apply phi_continuous]).
      rewrite <- (is_RInt_unique _ _ _ _ I1). apply RInt_le; [exact L| |eexists; exact I1|].
      - apply (ex_RInt_continuous (V := R_CompleteNormedModule)). intros z _. apply (continuous_comp (fun u => f u * phi u) Rabs); [apply CI|apply continuous_Rabs].
      - intros x _. rewrite Rabs_mult, (Rabs_right (phi x)) by (apply Rle_ge, Rlt_le, phi_pos). apply Rmult_le_compat_r; [apply Rlt_le, phi_pos|apply Bd]. }
    intros a b. destruct (Rle_or_lt a b) as [L|L].
    - pose proof (proj1 (Phi_le a b) L). rewrite (Rabs_right (Phi b - Phi a)) by lra. apply W, L.
    - pose proof (proj1 (Phi_lt b a) L). rewrite (Rabs_left (Phi b - Phi a)) by lra. pose proof (opp_RInt_swap _ _ _ (EX b a)) as SW. assert (SW' : RInt (fun u => f u * phi u) a b = - RInt (fun u => f u * phi u) b a) by (symmetry; exact SW). rewrite SW', Rabs_Ropp. replace (- (Phi b - Phi a)) with (Phi a - Phi b) by ring. apply W. lra. }
  assert (CH : forall a b a' b', RInt (fun u => f u * phi u) a' b' - RInt (fun u => f u * phi u) a b = RInt (fun u => f u * phi u) a' a + RInt (fun u => f u * phi u) b b').
  { intros a b a' b'. pose proof (RInt_Chasles (V := R_CompleteNormedModule) (fun u => f u * phi u) a' a b (EX _ _) (EX _ _)) as E1. pose proof (RInt_Chasles (V := R_CompleteNormedModule) (fun u => f u * phi u) a' b b' (EX _ _) (EX _ _)) as E2.
    change (RInt (fun u => f u * phi u) a' a + RInt (fun u => f u * phi u) a b = RInt (fun u => f u * phi u) a' b) in E1. change (RInt (fun u => f u * phi u) a' b + RInt (fun u => f u * phi u) b b' = RInt (fun u => f u * phi u) a' b') in E2. lra. }
  assert (Y : exists v : R_CompleteNormedModule, filterlim (fun ab : R * R => RInt (fun u => f u * phi u) (fst ab) (snd ab)) (filter_prod MI PI_) (locally v)).
  { apply (filterlim_locally_cauchy (U := R_CompleteNormedModule) (F := filter_prod MI PI_)). intros [eps He]. set (d := eps / (4 * (B + 1))). assert (D : 0 < d) by (apply Rdiv_lt_0_compat; lra).
    destruct (Phi_below d D) as (l & Hl). destruct (Phi_exceeds (1 - d) ltac:(lra)) as (m & Hm).
    exists (fun ab => fst ab < l /\ m < snd ab). split.
    - apply (Filter_prod _ _ _ (fun a => a < l) (fun b => m < b)); [exists l; auto|exists m; auto|]. cbn. auto.
    - intros [a b] [a' b'] [H1 H2] [H3 H4]. cbn [fst snd] in *. change (Rabs (RInt (fun u => f u * phi u) a' b' - RInt (fun u => f u * phi u) a b) < eps). rewrite CH.
      pose proof (LE a' a) as L1. pose proof (LE b b') as L2. pose proof (Phi_bound a). pose proof (Phi_bound a'). pose proof (Phi_bound b). pose proof (Phi_bound b').
      pose proof (Phi_incr a l H1). pose proof (Phi_incr a' l H3). pose proof (Phi_incr m b H2). pose proof (Phi_incr m b' H4).
      assert (A1 : Rabs (Phi a - Phi a') <= d) by (apply Rabs_le; lra). assert (A2 : Rabs (Phi b' - Phi b) <= d) by (apply Rabs_le; lra).
      assert (X1 : B * Rabs (Phi a - Phi a') <= B * d) by (apply Rmult_le_compat_l; assumption). assert (X2 : B * Rabs (Phi b' - Phi b) <= B * d) by (apply Rmult_le_compat_l; assumption).
      eapply Rle_lt_trans; [apply Rabs_triang|]. assert (BD : 4 * (B * d + d) = eps) by (unfold d; field; lra). lra. }
  destruct Y as (v & Hv). exists v. apply (filterlimi_lim_ext_loc (fun ab => RInt (fun u => f u * phi u) (fst ab) (snd ab))); [|exact Hv].
  apply filter_forall. intros [a b]. apply (RInt_correct (V := R_CompleteNormedModule)), EX.
Qed.

(** ** one coordinate at a time *)
Definition kside (a b x : R) : R := if Rltb x 0 then a else b.
Definition bump (a b x : R) : R := / 2 * (kside a b x * x ^ 2).
Lemma para_cons beta a b km kp x u : paraboloid beta (a :: km) (b :: kp) (scons x u) = paraboloid (beta + bump a b x) km kp u.
Proof. unfold paraboloid. cbn [length]. rewrite fsum_shift. unfold bent at 1. cbn [nth scons]. unfold bump, kside. replace (fsum (length kp) (fun i => bent (a :: km) (b :: kp) (scons x u) (S i))) with (fsum (length kp) (bent km kp u)) by (apply fsum_ext; intros i _; reflexivity). ring. Qed.
Lemma bump_cont a b x : continuous (bump a b) x.
Proof.
  destruct (Rtotal_order x 0) as [L|[E|L]].
  - apply (continuous_ext_loc (bump a b) (fun y => / 2 * (a * y ^ 2)) x).
    + exists (mkposreal (- x) ltac:(lra)). intros y Hy. change (Rabs (y - x) < - x) in Hy. apply Rabs_def2 in Hy. unfold bump, kside. destruct (Rltb y 0) eqn:E; [reflexivity|apply Rltb_false in E; lra].
    + apply (ex_derive_continuous (fun y => / 2 * (a * y ^ 2))). auto_derive. exact I.
  - subst x. apply filterlim_locally. intros eps. assert (E0 : bump a b 0 = 0) by (unfold bump, kside; ring). rewrite E0.
    assert (CA : continuous (fun y => / 2 * (a * y ^ 2)) 0) by (apply (ex_derive_continuous (fun y => / 2 * (a * y ^ 2))); auto_derive; exact I).
    assert (CB : continuous (fun y => / 2 * (b * y ^ 2)) 0) by (apply (ex_derive_continuous (fun y => / 2 * (b * y ^ 2))); auto_derive; exact I).
    pose proof (proj1 (filterlim_locally _ _) CA eps) as XA. pose proof (proj1 (filterlim_locally _ _) CB eps) as XB. cbn beta in XA, XB.
    replace (/ 2 * (a * 0 ^ 2)) with 0 in XA by ring. replace (/ 2 * (b * 0 ^ 2)) with 0 in XB by ring.
    pose proof (filter_and _ _ XA XB) as X. refine (filter_imp _ _ _ X). intros y [Y1 Y2]. unfold bump, kside. destruct (Rltb y 0); assumption.
  - apply (continuous_ext_loc (bump a b) (fun y => / 2 * (b * y ^ 2)) x).
    + exists (mkposreal x ltac:(lra)). intros y Hy. change (Rabs (y - x) < x) in Hy. apply Rabs_def2 in Hy. unfold bump, kside. destruct (Rltb y 0) eqn:E; [apply Rltb_spec in E; lra|reflexivity].
    + apply (ex_derive_continuous (fun y => / 2 * (b * y ^ 2))). auto_derive. exact I.
Qed.

Lemma eN_abs f v B : (forall x, Rabs (f x) <= B) -> expectN f v -> Rabs v <= B.
Proof.
  intros H E. apply Rabs_le. split.
  - apply (eN_le (fun _ => - B) f); [|apply eN_const|exact E]. intros x. specialize (H x). apply Rabs_le_between in H. lra.
  - apply (eN_le f (fun _ => B)); [|exact E|apply eN_const]. intros x. specialize (H x). apply Rabs_le_between in H. lra.
Qed.
Lemma Q_lip x y : Rabs (Q x - Q y) <= Rabs (x - y).
Proof.
  assert (W : forall x y, x <= y -> 0 <= Q x - Q y <= y - x).
  { intros a b L. split.
    - pose proof (mono_dec Q (fun z => - phi z) a b Q_derive ltac:(intros z _; pose proof (phi_pos z); lra) L). lra.
    - pose proof (mono_dec (fun z => - Q z - z) (fun z => - - phi z - 1) a b) as M. cbn beta in M.
      assert (- Q b - b <= - Q a - a); [|lra]. apply M; [|intros z _; pose proof (phi_ee z); pose proof (exp_le (- (z * z / 2)) 0 ltac:(nra)) as E; rewrite exp_0 in E; unfold ee in *; lra|exact L].
      intros z. apply (is_derive_minus (fun z => - Q z) (fun z => z)); [apply (is_derive_opp Q), Q_derive|apply (is_derive_id z)]. }
  destruct (Rle_or_lt x y) as [L|L].
  - pose proof (W x y L). rewrite (Rabs_right (Q x - Q y)), (Rabs_left1 (x - y)); lra.
  - pose proof (W y x ltac:(lra)). rewrite (Rabs_left1 (Q x - Q y)), (Rabs_right (x - y)); lra.
Qed.
Lemma lip_cont (P : R -> R) : (forall x y, Rabs (P x - P y) <= Rabs (x - y)) -> forall x, continuous P x.
Proof. intros L x. apply filterlim_locally. intros eps. exists eps. intros y Hy. change (Rabs (P y - P x) < eps). change (Rabs (y - x) < eps) in Hy. pose proof (L y x). lra. Qed.

(** the last coordinate alone *)
Lemma last_one beta : is_integral 1 (fun u => if Rltb (paraboloid beta [] [] u) 0 then joint_density 1 u else 0) (Q beta).
Proof.
  assert (N1 : norm 1 (fun _ => 1) = 1) by (unfold norm, dot; cbn; rewrite Rplus_0_l, Rmult_1_l; apply sqrt_1).
  refine (int_ext 1 _ _ _ _ (half_integral 1 (fun _ => 1) beta N1)). intros u. unfold paraboloid, dot. cbn [length fsum].
  destruct (Rltb beta (0 + 1 * u 0%nat)) eqn:E1, (Rltb (beta + 0 - u 0%nat) 0) eqn:E2; try reflexivity.
  - apply Rltb_spec in E1. apply Rltb_false in E2. lra.
  - apply Rltb_spec in E2. apply Rltb_false in E1. lra.
Qed.

Lemma beyond_fun : forall km kp, length km = length kp -> exists P : R -> R, (forall beta, beyond beta km kp (P beta)) /\ (forall x, Rabs (P x) <= 1) /\ (forall x y, Rabs (P x - P y) <= Rabs (x - y)).
Proof.
  induction km as [|a km IH]; intros [|b kp] L; try discriminate.
  - exists Q. split; [exact last_one|]. split; [|exact Q_lip]. intros x. apply Rabs_le. pose proof (Phi_bound (- x)). unfold Q. lra.
  - destruct (IH kp ltac:(cbn in L; lia)) as (P & P1 & P2 & P3).
    assert (EX : forall beta, exists v, expectN (fun x => P (beta + bump a b x)) v).
    { intros beta. apply (eN_exists _ 1); [|intros; apply P2]. intros x. apply (continuous_comp (fun x => beta + bump a b x) P); [|apply lip_cont, P3].
      apply (continuous_plus (V := R_NormedModule) (fun _ => beta) (bump a b)); [apply continuous_const|apply bump_cont]. }
    exists (fun beta => RInt_gen (fun x => P (beta + bump a b x) * phi x) MI PI_).
    assert (OK : forall beta, expectN (fun x => P (beta + bump a b x)) (RInt_gen (fun x => P (beta + bump a b x) * phi x) MI PI_)).
    { intros beta. destruct (EX beta) as (v & Hv). apply (RInt_gen_correct (V := R_CompleteNormedModule) (Fa := MI) (Fb := PI_)). exists v. exact Hv. }
    split; [|split].
    + intros beta. unfold beyond, failure_probability. cbn [length]. exists (fun x => P (beta + bump a b x) * phi x). split; [|exact (OK beta)].
      intros x. pose proof (P1 (beta + bump a b x)) as I1. unfold beyond, failure_probability in I1. apply (int_scal _ (phi x)) in I1. rewrite Rmult_comm.
      refine (int_ext (S (length kp)) _ _ _ _ I1). intros u. cbn beta. rewrite para_cons, joint_cons. destruct (Rltb _ 0); ring.
    + intros x. apply (eN_abs _ _ 1 (fun y => P2 _) (OK x)).
    + intros x y. pose proof (eN_plus _ _ _ _ (OK x) (eN_scal _ (-1) _ (OK y))) as D.
      replace (RInt_gen (fun z => P (x + bump a b z) * phi z) MI PI_ - RInt_gen (fun z => P (y + bump a b z) * phi z) MI PI_) with (RInt_gen (fun z => P (x + bump a b z) * phi z) MI PI_ + -1 * RInt_gen (fun z => P (y + bump a b z) * phi z) MI PI_) by ring.
      refine (eN_abs _ _ _ _ D). intros z. cbn beta. replace (P (x + bump a b z) + -1 * P (y + bump a b z)) with (P (x + bump a b z) - P (y + bump a b z)) by ring.
      eapply Rle_trans; [apply P3|]. apply Req_le. f_equal. ring.
Qed.

(** ** upper bound *)
Definition ind (beta : R) (km kp : list R) (u : vec) : R := if Rltb (paraboloid beta km kp u) 0 then 1 else 0.
Lemma beyond_mean beta km kp p : beyond beta km kp p -> is_mean (S (length kp)) (ind beta km kp) p.
Proof. intros H. apply (fp_mean _ _ _ H). Qed.
Lemma beyond_unique beta km kp p q : beyond beta km kp p -> beyond beta km kp q -> p = q.
Proof. intros H1 H2. exact (mean_unique _ _ _ _ (beyond_mean _ _ _ _ H1) (beyond_mean _ _ _ _ H2)). Qed.
Lemma ind_base beta h v : is_mean 1 (ind (beta + h) [] []) v -> v = Q (beta + h).
Proof. intros H. exact (mean_unique _ _ _ _ H (beyond_mean _ [] [] _ (last_one (beta + h)))). Qed.

Lemma upper beta : forall km kp, length km = length kp -> Forall (fun k => 0 < 1 + psi beta * k) km -> Forall (fun k => 0 < 1 + psi beta * k) kp ->
  forall h v, is_mean (S (length kp)) (ind (beta + h) km kp) v -> v <= Q beta * exp (- psi beta * h) * pfprod (psi beta) km kp.
Proof.
  induction km as [|a km IH]; intros [|b kp] L HM HP h v; try discriminate; intros HV.
  - rewrite (ind_base _ _ _ HV). pose proof (tail_upper beta h). unfold pfprod. cbn [combine map lprod]. lra.
  - apply Forall_cons_iff in HM, HP. destruct HM as [Ha HM], HP as [Hb HP]. cbn [length] in HV. destruct HV as (F & F1 & F2).
    set (C := Q beta * exp (- psi beta * h) * pfprod (psi beta) km kp).
    assert (EP : pfprod (psi beta) (a :: km) (b :: kp) = / 2 * (/ sqrt (1 + psi beta * a) + / sqrt (1 + psi beta * b)) * pfprod (psi beta) km kp) by (unfold pfprod; cbn [combine map lprod fst snd]; field; split; apply Rgt_not_eq, sqrt_lt_R0; assumption).
    rewrite EP. replace (Q beta * exp (- psi beta * h) * (/ 2 * (/ sqrt (1 + psi beta * a) + / sqrt (1 + psi beta * b)) * pfprod (psi beta) km kp)) with (C * (/ 2 * (/ sqrt (1 + psi beta * a) + / sqrt (1 + psi beta * b)))) by (unfold C; ring).
    refine (eN_le F _ _ _ _ F2 (eN_scal _ C _ (eN_bells _ _ Ha Hb))). intros x. cbn beta.
    assert (M : is_mean (S (length kp)) (ind (beta + (h + bump a b x)) km kp) (F x)).
    { refine (mean_ext _ _ _ _ _ (F1 x)). intros u. unfold ind. rewrite para_cons, Rplus_assoc. reflexivity. }
    pose proof (IH kp ltac:(cbn in L; lia) HM HP _ _ M) as U. eapply Rle_trans; [exact U|]. apply Req_le.
    replace (exp (- psi beta * (h + bump a b x))) with (exp (- psi beta * h) * (if Rltb x 0 then bell (psi beta * a) x else bell (psi beta * b) x)); [unfold C; ring|].
    unfold bump, kside, bell. destruct (Rltb x 0); rewrite <- exp_plus; f_equal; field.
Qed.

(** ** lower bound, curve fit *)
Definition ratio (c k : R) : R := k / (1 + c * k).
Fixpoint mo1 (c : R) (l : list R) : R := match l with [] => 0 | k :: l => mo1 c l + / 2 * ratio c k end.
Fixpoint mo2 (c : R) (l : list R) : R := match l with [] => 0 | k :: l => mo2 c l + mo1 c l * ratio c k + 3 / 4 * ratio c k ^ 2 end.
Lemma mo_closed c l : mo1 c l = / 2 * lsum (map (ratio c) l) /\ mo2 c l = / 4 * (lsum (map (ratio c) l) ^ 2 + 2 * lsum (map (fun k => ratio c k ^ 2) l)).
Proof. induction l as [|k l [IH1 IH2]]; cbn [mo1 mo2 map lsum]; [split; field|]. rewrite IH2, IH1. split; field. Qed.

Lemma lower beta : forall ks, Forall (fun k => 0 < 1 + psi beta * k) ks ->
  forall h v, is_mean (S (length ks)) (ind (beta + h) ks ks) v ->
  Q beta * exp (- psi beta * h) * bprod (psi beta) ks * (1 - / 2 * (h ^ 2 + 2 * h * mo1 (psi beta) ks + mo2 (psi beta) ks)) <= v.
Proof.
  induction ks as [|k ks IH]; intros HK h v HV.
  - rewrite (ind_base _ _ _ HV). pose proof (tail_lower beta h) as T. unfold bprod. cbn [map lprod mo1 mo2].
    replace (Q beta * exp (- psi beta * h) * 1 * (1 - / 2 * (h ^ 2 + 2 * h * 0 + 0))) with (Q beta * exp (- psi beta * h) * (1 - h * h / 2)) by field. exact T.
  - apply Forall_cons_iff in HK. destruct HK as [Hk HK]. cbn [length] in HV. destruct HV as (F & F1 & F2).
    set (C := Q beta * exp (- psi beta * h) * bprod (psi beta) ks). set (m1 := mo1 (psi beta) ks). set (m2 := mo2 (psi beta) ks). set (s := sqrt (1 + psi beta * k)).
    assert (S0 : 0 < s) by (apply sqrt_lt_R0, Hk). assert (SS : s * s = 1 + psi beta * k) by (apply sqrt_sqrt; lra).
    pose proof (eN_bell 0 1 _ Hk (eN_ext _ _ _ ltac:(intros; cbn [pow]; reflexivity) (eN_const 1))) as B0. pose proof (eN_bell 2 1 _ Hk eN_x2) as B2. pose proof (eN_bell 4 3 _ Hk eN_x4) as B4. fold s in B0, B2, B4.
    set (c0 := C * (1 - / 2 * (h ^ 2 + 2 * h * m1 + m2))). set (c2 := C * - (/ 2 * (h * k + k * m1))). set (c4 := C * - (/ 8 * k ^ 2)).
    pose proof (eN_plus _ _ _ _ (eN_scal _ c0 _ B0) (eN_plus _ _ _ _ (eN_scal _ c2 _ B2) (eN_scal _ c4 _ B4))) as T.
    apply Rle_trans with (c0 * (1 * / s ^ 1) + (c2 * (1 * / s ^ 3) + c4 * (3 * / s ^ 5))).
    + apply Req_le. assert (EB : bprod (psi beta) (k :: ks) = / s * bprod (psi beta) ks) by reflexivity. rewrite EB. cbn [mo1 mo2]. fold m1 m2. assert (ER : ratio (psi beta) k = k / (s * s)) by (rewrite SS; reflexivity). rewrite ER.
      unfold c0, c2, c4, C. field. lra.
    + refine (eN_le _ F _ _ _ T F2). intros x. cbn beta.
      assert (M : is_mean (S (length ks)) (ind (beta + (h + bump k k x)) ks ks) (F x)).
      { refine (mean_ext _ _ _ _ _ (F1 x)). intros u. unfold ind. rewrite para_cons, Rplus_assoc. reflexivity. }
      pose proof (IH HK _ _ M) as U. eapply Rle_trans; [|exact U]. apply Req_le.
      assert (EX : exp (- psi beta * (h + bump k k x)) = exp (- psi beta * h) * bell (psi beta * k) x) by (unfold bump, kside, bell; rewrite <- exp_plus; f_equal; destruct (Rltb x 0); field).
      rewrite EX. assert (BU : bump k k x = / 2 * (k * x ^ 2)) by (unfold bump, kside; destruct (Rltb x 0); reflexivity). rewrite BU. fold m1 m2. unfold c0, c2, c4, C. field.
Qed.
