From Coquelicot Require Import Coquelicot.
From Verif Require Import Base Quad QuadSpec QuadProofs Chol CholProofs Nataf NatafSpec.
Open Scope R_scope.

Lemma c_pos r : -1 < r < 1 -> 0 < 1 - r^2.
Proof. intros. nra. Qed.

Lemma phi2_ri z1 z2 r : ri_PHI2 r z1 z2 = phi2 z1 z2 r.
Proof.
  unfold ri_PHI2, phi2. rewrite Rmult_1_l. f_equal. f_equal.
  unfold Rdiv. ring.
Qed.

Lemma phi2_bivariate z1 z2 r : phi2 z1 z2 r = bivariate_normal z1 z2 r.
Proof.
  unfold phi2, bivariate_normal. replace (1 - r^2) with (1 - r * r) by ring.
  unfold Rdiv at 2. rewrite Rmult_comm. f_equal. f_equal. f_equal. ring.
Qed.

Lemma inv_sqrt_derive r : -1 < r < 1 ->
  is_derive (fun r => / (2 * PI * sqrt (1 - r^2))) r (/ (2 * PI * sqrt (1 - r^2)) * r / (1 - r^2)).
Proof.
  intros Hr. pose proof (c_pos r Hr) as Hc. pose proof PI_RGT_0 as HP.
  assert (Hs : 0 < sqrt (1 - r^2)) by (apply sqrt_lt_R0; exact Hc).
  assert (Hn : 2 * PI * sqrt (1 - r^2) <> 0).
  { apply Rmult_integral_contrapositive_currified; lra. }
  auto_derive.
  - replace (1 - r * (r * 1)) with (1 - r^2) by ring. repeat split; auto.
  - replace (1 + - (r * (r * 1))) with (1 - r^2) by ring. set (s := sqrt (1 - r^2)) in *.
    assert (Es : 1 - r^2 = s * s) by (unfold s; rewrite sqrt_sqrt; lra).
    rewrite Es. field. lra.
Qed.

Lemma expo_derive z1 z2 r : -1 < r < 1 ->
  is_derive (fun r => exp (- (z1^2 - 2 * r * z1 * z2 + z2^2) / (2 * (1 - r^2)))) r
    (exp (- (z1^2 - 2 * r * z1 * z2 + z2^2) / (2 * (1 - r^2)))
     * ((z1 * z2 * (1 - r^2) - (z1^2 - 2 * r * z1 * z2 + z2^2) * r) / (1 - r^2)^2)).
Proof.
  intros Hr. pose proof (c_pos r Hr) as Hc. rewrite Rmult_comm.
  apply (is_derive_comp exp (fun r => - (z1^2 - 2 * r * z1 * z2 + z2^2) / (2 * (1 - r^2)))).
  - match goal with |- is_derive exp ?x _ => apply (is_derive_Reals exp x (exp x)); apply derivable_pt_lim_exp end.
  - auto_derive; [nra|]. field. nra.
Qed.

Lemma phi2_derive z1 z2 r : -1 < r < 1 ->
  is_derive (fun r => phi2 z1 z2 r) r (dphi2_drho0 z1 z2 r (phi2 z1 z2 r)).
Proof.
  intros Hr. pose proof (c_pos r Hr) as Hc.
  pose proof (inv_sqrt_derive r Hr) as D1. pose proof (expo_derive z1 z2 r Hr) as D2.
  pose proof (is_derive_mult _ _ _ _ _ D1 D2 Rmult_comm) as D.
  unfold phi2. refine (is_derive_ext _ _ _ _ _ (eq_ind _ (fun l => is_derive _ r l) D _ _)).
  - intros t. reflexivity.
  - unfold dphi2_drho0, plus, mult; simpl plus. cbv [Hierarchy.plus Hierarchy.mult]. simpl.
    set (I := / (2 * PI * _)). set (E := exp _).
    field. nra.
Qed.

From Verif Require Import TransfProofs.

Lemma is_derive_sum2 k (f : nat -> nat -> R -> R) (df : nat -> nat -> R) t0 :
  (forall a b, (a < k)%nat -> (b < k)%nat -> is_derive (f a b) t0 (df a b)) ->
  is_derive (fun t => sum2 k (fun a b => f a b t)) t0 (sum2 k df).
Proof.
  intros H. unfold sum2.
  apply (is_derive_fsum k (fun a t => fsum k (fun b => f a b t)) (fun a => fsum k (df a))).
  intros a Ha. apply (is_derive_fsum k (fun b t => f a b t) (df a)). intros b Hb. apply H; assumption.
Qed.

Lemma sum2_ext k f g : (forall a b, (a < k)%nat -> (b < k)%nat -> f a b = g a b) -> sum2 k f = sum2 k g.
Proof. intros H. apply fsum_ext; intros a Ha. apply fsum_ext; intros b Hb. auto. Qed.

Lemma sum2_plus k f g : sum2 k (fun a b => f a b + g a b) = sum2 k f + sum2 k g.
Proof.
  unfold sum2. rewrite <- fsum_plus. apply fsum_ext; intros a Ha. apply fsum_plus.
Qed.

Lemma sum2_scal k c f : sum2 k (fun a b => c * f a b) = c * sum2 k f.
Proof. unfold sum2. rewrite <- fsum_scal. apply fsum_ext; intros a Ha. apply fsum_scal. Qed.

Lemma sum2_swap k f : sum2 k f = sum2 k (fun a b => f b a).
Proof. unfold sum2. apply (fsum_swap k k f). Qed.

Lemma rho_integral_phi2 r mi mj g :
  rho_integral r mi mj g =
  sum2 (g_k g) (fun a b =>
    ((g_X1 g a b - mg_mean mi) / mg_stdv mi) * ((g_X2 g a b - mg_mean mj) / mg_stdv mj)
    * phi2 (g_Z1 g a b) (g_Z2 g a b) r * g_detJ g * g_W g a b).
Proof. apply sum2_ext. intros a b _ _. rewrite phi2_ri. reflexivity. Qed.

Lemma rho_integral_derive r mi mj g : -1 < r < 1 ->
  is_derive (fun r => rho_integral r mi mj g) r (drho_drho0 r mi mj g).
Proof.
  intros Hr.
  apply (is_derive_ext (fun r => sum2 (g_k g) (fun a b =>
    ((g_X1 g a b - mg_mean mi) / mg_stdv mi) * ((g_X2 g a b - mg_mean mj) / mg_stdv mj)
    * phi2 (g_Z1 g a b) (g_Z2 g a b) r * g_detJ g * g_W g a b))).
  { intros t. symmetry. apply rho_integral_phi2. }
  unfold drho_drho0.
  apply (is_derive_sum2 (g_k g) (fun a b r => ((g_X1 g a b - mg_mean mi) / mg_stdv mi) * ((g_X2 g a b - mg_mean mj) / mg_stdv mj)
    * phi2 (g_Z1 g a b) (g_Z2 g a b) r * g_detJ g * g_W g a b)).
  intros a b _ _. cbv zeta.
  pose proof (phi2_derive (g_Z1 g a b) (g_Z2 g a b) r Hr) as D.
  assert (ex_derive (fun r => phi2 (g_Z1 g a b) (g_Z2 g a b) r) r) by (eexists; exact D).
  auto_derive; [auto|].
  rewrite (is_derive_unique (fun r : R => phi2 (g_Z1 g a b) (g_Z2 g a b) r) r _ D).
  unfold Rdiv. ring.
Qed.

(** ** C43 *)
Lemma quantile_path_derive F X t0 dF f : quantile_path F X t0 dF f -> f <> 0 -> is_derive X t0 (- dF / f).
Proof.
  intros ((p & Hp) & HX & HF) Hf.
  assert (HX' := Derive_correct X t0 HX).
  set (X' := Derive X t0) in *.
  assert (D : is_derive (fun t => F t (X t)) t0 (dF * 1 + f * X')).
  { apply is_derive_Reals. apply derivable_pt_lim_comp_2d with (f1 := F) (f2 := fun t => t) (f3 := X); [exact HF| |].
    - apply derivable_pt_lim_id.
    - apply is_derive_Reals. exact HX'. }
  assert (D0 : is_derive (fun t => F t (X t)) t0 0).
  { apply (is_derive_ext_loc (fun _ => p)); [|apply (is_derive_const p t0)].
    eapply filter_imp; [|exact Hp]. intros t E. symmetry. exact E. }
  pose proof (is_derive_unique _ _ _ D) as U1. pose proof (is_derive_unique _ _ _ D0) as U2.
  assert (E : dF * 1 + f * X' = 0) by congruence.
  replace (- dF / f) with X'; [exact HX'|].
  field_simplify_eq; [|exact Hf]. lra.
Qed.

Lemma tiny_pos : 0 < tiny.
Proof. unfold tiny. apply Rinv_0_lt_compat, pow_lt. lra. Qed.

Lemma term_derive (X m s r : R -> R) t0 X' m' s' r' c z1 z2 d w :
  -1 < r t0 < 1 -> s t0 <> 0 ->
  is_derive X t0 X' -> is_derive m t0 m' -> is_derive s t0 s' -> is_derive r t0 r' ->
  is_derive (fun t => ((X t - m t) / s t) * c * phi2 z1 z2 (r t) * d * w) t0
    (((X' - m') / s t0 - ((X t0 - m t0) / s t0) * s' / s t0) * c * phi2 z1 z2 (r t0) * d * w
     + r' * (((X t0 - m t0) / s t0) * c * dphi2_drho0 z1 z2 (r t0) (phi2 z1 z2 (r t0)) * d * w)).
Proof.
  intros Hr Hs DX Dm Ds Dr.
  pose proof (phi2_derive z1 z2 (r t0) Hr) as DP.
  assert (EX : ex_derive X t0) by (eexists; exact DX).
  assert (Em : ex_derive m t0) by (eexists; exact Dm).
  assert (Es : ex_derive s t0) by (eexists; exact Ds).
  assert (EP : ex_derive (fun x : R => phi2 z1 z2 x) (r t0)) by (eexists; exact DP).
  assert (Er : ex_derive r t0) by (eexists; exact Dr).
  auto_derive; [repeat split; auto|].
  rewrite (is_derive_unique (fun t : R => X t) t0 _ DX), (is_derive_unique (fun t : R => m t) t0 _ Dm),
    (is_derive_unique (fun t : R => s t) t0 _ Ds), (is_derive_unique (fun t : R => r t) t0 _ Dr),
    (is_derive_unique (fun x : R => phi2 z1 z2 x) (r t0) _ DP).
  set (P := phi2 z1 z2 (r t0)). set (Q := dphi2_drho0 z1 z2 (r t0) P). field. exact Hs.
Qed.

Lemma max_tiny p : tiny <= p -> Rmax p tiny = p.
Proof. intros H. apply Rmax_left. exact H. Qed.

(** the implicit-derivative argument, once the derivative of the sum is known *)
Lemma implicit_solve k (num den : nat -> nat -> R) r' (S : R -> R) t0 :
  is_derive S t0 (sum2 k (fun a b => num a b + r' * den a b)) ->
  (exists c, locally t0 (fun t => S t = c)) ->
  sum2 k den <> 0 -> - sum2 k num / sum2 k den = r'.
Proof.
  intros D (c & Hc) Hd.
  assert (D0 : is_derive S t0 0).
  { apply (is_derive_ext_loc (fun _ => c)); [|apply (is_derive_const c t0)].
    eapply filter_imp; [|exact Hc]. intros t E. symmetry. exact E. }
  pose proof (is_derive_unique _ _ _ D) as U1. pose proof (is_derive_unique _ _ _ D0) as U2.
  rewrite sum2_plus, sum2_scal in U1.
  field_simplify_eq; [|exact Hd]. lra.
Qed.

Lemma drho0_dtheta_correct0 (mi : R -> marg) (mj : marg) (X : R -> mat) (g : grid) (rho0 : R -> R) t0 param F r' :
  -1 < rho0 t0 < 1 -> mg_stdv (mi t0) <> 0 ->
  (forall a b, (a < g_k g)%nat -> (b < g_k g)%nat ->
     g_X1 g a b = X t0 a b /\ tiny <= mg_pdf (mi t0) (X t0 a b)
     /\ quantile_path F (fun t => X t a b) t0 (mg_dF (mi t0) param (X t0 a b)) (mg_pdf (mi t0) (X t0 a b))) ->
  is_derive (fun t => mg_mean (mi t)) t0 (fst (mg_dmom (mi t0) param)) ->
  is_derive (fun t => mg_stdv (mi t)) t0 (snd (mg_dmom (mi t0) param)) ->
  is_derive rho0 t0 r' ->
  (exists rho, locally t0 (fun t => rho_integral (rho0 t) (mi t) mj (with_X1 g (X t)) = rho)) ->
  drho_drho0 (rho0 t0) (mi t0) mj g <> 0 ->
  drho0_dtheta (rho0 t0) (mi t0) mj g 0 param = r'.
Proof.
  intros Hr Hs HX Dm Ds Dr Hc Hd. unfold drho0_dtheta. cbn [Nat.eqb].
  pose proof tiny_pos as Ht.
  apply (implicit_solve (g_k g) _ _ r' (fun t => rho_integral (rho0 t) (mi t) mj (with_X1 g (X t))) t0); [|exact Hc|].
  2:{ unfold drho_drho0 in Hd. cbv zeta in Hd. exact Hd. }
  eapply is_derive_ext; [intros t; symmetry; apply rho_integral_phi2|].
  cbn [with_X1 g_k g_Z1 g_Z2 g_X1 g_X2 g_W g_detJ].
  apply (is_derive_sum2 (g_k g) (fun a b t =>
     (X t a b - mg_mean (mi t)) / mg_stdv (mi t) * ((g_X2 g a b - mg_mean mj) / mg_stdv mj)
      * phi2 (g_Z1 g a b) (g_Z2 g a b) (rho0 t) * g_detJ g * g_W g a b)).
  intros a b Ha Hb. destruct (HX a b Ha Hb) as (EX & Hf & HQ).
  rewrite EX, max_tiny by exact Hf.
  pose proof (quantile_path_derive _ _ _ _ _ HQ ltac:(lra)) as DX.
  apply (term_derive (fun t => X t a b) (fun t => mg_mean (mi t)) (fun t => mg_stdv (mi t)) rho0); assumption.
Qed.

Lemma drho0_dtheta_correct1 (mi : marg) (mj : R -> marg) (X : R -> mat) (g : grid) (rho0 : R -> R) t0 param F r' :
  -1 < rho0 t0 < 1 -> mg_stdv (mj t0) <> 0 ->
  (forall a b, (a < g_k g)%nat -> (b < g_k g)%nat ->
     g_X2 g a b = X t0 a b /\ tiny <= mg_pdf (mj t0) (X t0 a b)
     /\ quantile_path F (fun t => X t a b) t0 (mg_dF (mj t0) param (X t0 a b)) (mg_pdf (mj t0) (X t0 a b))) ->
  is_derive (fun t => mg_mean (mj t)) t0 (fst (mg_dmom (mj t0) param)) ->
  is_derive (fun t => mg_stdv (mj t)) t0 (snd (mg_dmom (mj t0) param)) ->
  is_derive rho0 t0 r' ->
  (exists rho, locally t0 (fun t => rho_integral (rho0 t) mi (mj t) (with_X2 g (X t)) = rho)) ->
  drho_drho0 (rho0 t0) mi (mj t0) g <> 0 ->
  drho0_dtheta (rho0 t0) mi (mj t0) g 1 param = r'.
Proof.
  intros Hr Hs HX Dm Ds Dr Hc Hd. unfold drho0_dtheta. cbn [Nat.eqb].
  pose proof tiny_pos as Ht.
  apply (implicit_solve (g_k g) _ _ r' (fun t => rho_integral (rho0 t) mi (mj t) (with_X2 g (X t))) t0); [|exact Hc|].
  2:{ unfold drho_drho0 in Hd. cbv zeta in Hd. exact Hd. }
  eapply is_derive_ext; [intros t; symmetry; apply rho_integral_phi2|].
  cbn [with_X2 g_k g_Z1 g_Z2 g_X1 g_X2 g_W g_detJ].
  apply (is_derive_sum2 (g_k g) (fun a b t =>
     ((g_X1 g a b - mg_mean mi) / mg_stdv mi) * ((X t a b - mg_mean (mj t)) / mg_stdv (mj t))
      * phi2 (g_Z1 g a b) (g_Z2 g a b) (rho0 t) * g_detJ g * g_W g a b)).
  intros a b Ha Hb. destruct (HX a b Ha Hb) as (EX & Hf & HQ).
  rewrite EX, max_tiny by exact Hf.
  pose proof (quantile_path_derive _ _ _ _ _ HQ ltac:(lra)) as DX.
  set (c := (g_X1 g a b - mg_mean mi) / mg_stdv mi).
  apply (is_derive_ext (fun t => (X t a b - mg_mean (mj t)) / mg_stdv (mj t) * c
      * phi2 (g_Z1 g a b) (g_Z2 g a b) (rho0 t) * g_detJ g * g_W g a b)).
  { intros t. rewrite (Rmult_comm c). reflexivity. }
  rewrite (Rmult_comm c ((X t0 a b - mg_mean (mj t0)) / mg_stdv (mj t0))).
  apply (term_derive (fun t => X t a b) (fun t => mg_mean (mj t)) (fun t => mg_stdv (mj t)) rho0); assumption.
Qed.

(** ** exchanging the two variables *)
Definition swap_grid (g : grid) : grid :=
  mkGrid (g_k g) (fun a b => g_Z2 g b a) (fun a b => g_Z1 g b a) (fun a b => g_X2 g b a) (fun a b => g_X1 g b a)
         (fun a b => g_W g b a) (g_detJ g).

Lemma rho_integral_swap r mi mj g : rho_integral r mj mi (swap_grid g) = rho_integral r mi mj g.
Proof.
  unfold rho_integral. rewrite sum2_swap. cbn [swap_grid g_k g_Z1 g_Z2 g_X1 g_X2 g_W g_detJ].
  apply sum2_ext. intros a b _ _.
  replace (ri_PHI2 r (g_Z2 g a b) (g_Z1 g a b)) with (ri_PHI2 r (g_Z1 g a b) (g_Z2 g a b)); [ring|].
  unfold ri_PHI2. f_equal. f_equal. ring.
Qed.

Lemma zi_and_xi_swap mi mj zmax k r :
  rho_integral r mj mi (zi_and_xi mj mi zmax k) = rho_integral r mi mj (zi_and_xi mi mj zmax k).
Proof.
  rewrite <- (rho_integral_swap r mi mj). apply sum2_ext. intros a b _ _.
  cbn [zi_and_xi swap_grid g_k g_Z1 g_Z2 g_X1 g_X2 g_W g_detJ]. ring.
Qed.

(** ** structure of the integral: affine invariance, behaviour in rho0 *)
Lemma rho_integral_affine r mi mj g mi' (X1' : mat) c d :
  d <> 0 -> mg_stdv mi <> 0 ->
  (forall a b, (a < g_k g)%nat -> (b < g_k g)%nat -> X1' a b = c + d * g_X1 g a b) ->
  mg_mean mi' = c + d * mg_mean mi -> mg_stdv mi' = d * mg_stdv mi ->
  rho_integral r mi' mj (with_X1 g X1') = rho_integral r mi mj g.
Proof.
  intros Hd Hs HX Em Es. apply sum2_ext. cbn [with_X1 g_k g_Z1 g_Z2 g_X1 g_X2 g_W g_detJ].
  intros a b Ha Hb. rewrite HX, Em, Es by assumption. do 4 f_equal. field. split; assumption.
Qed.

Lemma zx_z_sym zmax k a : (1 <= k)%nat -> (a < k)%nat -> zx_z zmax k (k - 1 - a) = - zx_z zmax k a.
Proof.
  intros Hk Ha. unfold zx_z. destruct (q_rule_sym k a Hk Ha) as [A _]. rewrite A. lra.
Qed.

Lemma rho_integral_odd r mi mj zmax k : (1 <= k)%nat ->
  (forall z, mg_u2x mj (- z) - mg_mean mj = - (mg_u2x mj z - mg_mean mj)) ->
  rho_integral (- r) mi mj (zi_and_xi mi mj zmax k) = - rho_integral r mi mj (zi_and_xi mi mj zmax k).
Proof.
  intros Hk Hsym. rewrite !rho_integral_phi2.
  cbn [zi_and_xi g_k g_Z1 g_Z2 g_X1 g_X2 g_W g_detJ].
  unfold sum2. rewrite <- fsum_opp. apply fsum_ext. intros a Ha.
  rewrite fsum_rev. rewrite <- fsum_opp. apply fsum_ext. intros b Hb.
  rewrite zx_z_sym by assumption.
  destruct (q_rule_sym k b Hk Hb) as [_ B]. rewrite B.
  rewrite Hsym.
  replace (phi2 (zx_z zmax k a) (- zx_z zmax k b) (- r)) with (phi2 (zx_z zmax k a) (zx_z zmax k b) r).
  - unfold Rdiv. ring.
  - unfold phi2. replace ((- r)^2) with (r^2) by ring. f_equal. f_equal. f_equal. ring.
Qed.

Lemma rho_integral_zero mi mj zmax k : (1 <= k)%nat ->
  (forall z, mg_u2x mj (- z) - mg_mean mj = - (mg_u2x mj z - mg_mean mj)) ->
  rho_integral 0 mi mj (zi_and_xi mi mj zmax k) = 0.
Proof.
  intros Hk Hsym. pose proof (rho_integral_odd 0 mi mj zmax k Hk Hsym) as H.
  rewrite Ropp_0 in H. lra.
Qed.

(** ** the modified correlation matrix *)
Section M.
Variable fmin : (R -> R) -> R -> R.
Variables (n : nat) (R0 : mat) (mg : nat -> marg).

Definition pair_value (i j : nat) : R :=
  if Reqb (R0 i j) 0 then 0
  else fmin (fun r => absoluteIntegralValue r (R0 i j) (mg i) (mg j)
                        (zi_and_xi (mg i) (mg j) 6 (nIP_correlation (R0 i j)))) (R0 i j).
Definition pair_log (i j : nat) : list (nat * nat) := if Reqb (R0 i j) 0 then [] else [(i, j)].

Lemma mod_pair_ok i j Ro log : (i < n)%nat -> (j < n)%nat ->
  mod_pair fmin n R0 mg i j (Ok (Ro, log)) = Ok (mupd Ro i j (pair_value i j), log ++ pair_log i j).
Proof.
  intros Hi Hj. unfold mod_pair. apply Nat.ltb_lt in Hi, Hj. rewrite Hi, Hj. cbn [andb].
  unfold pair_value, pair_log. destruct (Reqb (R0 i j) 0); [rewrite app_nil_r|]; reflexivity.
Qed.

Lemma mod_pair_err i j Ro log : (n <= i)%nat -> mod_pair fmin n R0 mg i j (Ok (Ro, log)) = Err EIndex.
Proof. intros Hi. unfold mod_pair. apply Nat.ltb_ge in Hi. rewrite Hi. reflexivity. Qed.

Lemma inner_ok i m Ro log : (i < n)%nat -> (m <= i)%nat ->
  exists Ro', fold_left (fun s j => mod_pair fmin n R0 mg i j s) (seq 0 m) (Ok (Ro, log))
     = Ok (Ro', log ++ concat (map (pair_log i) (seq 0 m)))
  /\ forall a b, Ro' a b = if Nat.eqb a i && Nat.ltb b m then pair_value i b else Ro a b.
Proof.
  intros Hi. induction m as [|m IH]; intros Hm.
  - exists Ro. split; [simpl; rewrite app_nil_r; reflexivity|]. intros a b. rewrite andb_comm. reflexivity.
  - destruct IH as (Ro' & E & HR); [lia|]. exists (mupd Ro' i m (pair_value i m)).
    rewrite seq_S, fold_left_app, E. cbn [fold_left Nat.add]. rewrite mod_pair_ok by lia. split.
    + rewrite map_app, concat_app. cbn [map concat]. rewrite app_nil_r, app_assoc. reflexivity.
    + intros a b. unfold mupd. rewrite HR.
      destruct (Nat.eqb_spec a i) as [Ea|Ea]; [|reflexivity]. cbn [andb].
      destruct (Nat.eqb_spec b m) as [Eb|Eb].
      * subst b. replace (Nat.ltb m (S m)) with true by (symmetry; apply Nat.ltb_lt; lia). reflexivity.
      * destruct (Nat.ltb_spec b m); destruct (Nat.ltb_spec b (S m)); try lia; reflexivity.
Qed.

Lemma outer_ok nvr : (nvr <= n)%nat ->
  exists Ro', fold_left (fun s i => fold_left (fun s j => mod_pair fmin n R0 mg i j s) (seq 0 i) s) (seq 0 nvr) (Ok (meye, []))
     = Ok (Ro', concat (map (fun i => concat (map (pair_log i) (seq 0 i))) (seq 0 nvr)))
  /\ forall a b, Ro' a b = if Nat.ltb a nvr && Nat.ltb b a then pair_value a b else meye a b.
Proof.
  induction nvr as [|m IH]; intros Hm.
  - exists meye. split; [reflexivity|]. intros a b. reflexivity.
  - destruct IH as (Ro' & E & HR); [lia|].
    destruct (inner_ok m m Ro' (concat (map (fun i => concat (map (pair_log i) (seq 0 i))) (seq 0 m))) ltac:(lia) ltac:(lia))
      as (Ro2 & E2 & HR2).
    exists Ro2. rewrite seq_S, fold_left_app, E. cbn [fold_left Nat.add]. rewrite E2. split.
    + rewrite map_app, concat_app. cbn [map concat]. rewrite app_nil_r. reflexivity.
    + intros a b. rewrite HR2, HR.
      destruct (Nat.eqb_spec a m) as [->|Ea]; cbn [andb].
      * replace (Nat.ltb m (S m)) with true by (symmetry; apply Nat.ltb_lt; lia).
        replace (Nat.ltb m m) with false by (symmetry; apply Nat.ltb_ge; lia). cbn [andb].
        destruct (Nat.ltb b m); reflexivity.
      * destruct (Nat.ltb_spec a m); destruct (Nat.ltb_spec a (S m)); try lia; reflexivity.
Qed.

Lemma modified_ok nvr : (nvr <= n)%nat ->
  exists M, computeModifiedCorrelationMatrix fmin nvr n R0 mg
     = Ok (M, concat (map (fun i => concat (map (pair_log i) (seq 0 i))) (seq 0 nvr)))
  /\ (forall i, M i i = 1)
  /\ (forall i j, M i j = M j i)
  /\ (forall i j, (j < i)%nat -> (i < nvr)%nat -> M i j = pair_value i j)
  /\ (forall i j, (j < i)%nat -> (nvr <= i)%nat -> M i j = 0).
Proof.
  intros H. destruct (outer_ok nvr H) as (Ro & E & HR).
  unfold computeModifiedCorrelationMatrix. rewrite E. eexists. split; [reflexivity|].
  assert (L : forall i j, (j < i)%nat -> Ro i j + tril_strict Ro j i = Ro i j).
  { intros i j Hij. unfold tril_strict. replace (Nat.ltb i j) with false by (symmetry; apply Nat.ltb_ge; lia). ring. }
  assert (U : forall i j, (i < j)%nat -> Ro i j + tril_strict Ro j i = Ro j i).
  { intros i j Hij. unfold tril_strict. replace (Nat.ltb i j) with true by (symmetry; apply Nat.ltb_lt; lia).
    rewrite (HR i j). replace (Nat.ltb j i) with false by (symmetry; apply Nat.ltb_ge; lia).
    rewrite andb_false_r. unfold meye. rewrite delta_neq by lia. ring. }
  split; [|split; [|split]].
  - intros i. unfold tril_strict. rewrite Nat.ltb_irrefl, HR, Nat.ltb_irrefl, andb_false_r.
    unfold meye. rewrite delta_refl. ring.
  - intros i j. destruct (lt_eq_lt_dec i j) as [[A|A]|A].
    + rewrite U, L by assumption. reflexivity.
    + subst. reflexivity.
    + rewrite L, U by assumption. reflexivity.
  - intros i j A B. rewrite L by exact A. rewrite HR.
    apply Nat.ltb_lt in A, B. rewrite A, B. reflexivity.
  - intros i j A B. rewrite L by exact A. rewrite HR. apply Nat.ltb_ge in B. rewrite B. cbn [andb].
    unfold meye. rewrite delta_neq by lia. reflexivity.
Qed.

Lemma fold_err l e : fold_left (fun s j => mod_pair fmin n R0 mg (fst j) (snd j) s) l (Err e) = Err e.
Proof. induction l; simpl; auto. Qed.

Lemma inner_err i l e : fold_left (fun s j => mod_pair fmin n R0 mg i j s) l (Err e) = Err e.
Proof. induction l; simpl; auto. Qed.
Lemma outer_err l e :
  fold_left (fun s i => fold_left (fun s j => mod_pair fmin n R0 mg i j s) (seq 0 i) s) l (Err e) = Err e.
Proof. induction l as [|a l IH]; simpl; auto. rewrite inner_err. exact IH. Qed.

Lemma modified_err nvr : (n < nvr)%nat -> (2 <= nvr)%nat ->
  computeModifiedCorrelationMatrix fmin nvr n R0 mg = Err EIndex.
Proof.
  intros H H2. unfold computeModifiedCorrelationMatrix.
  set (k := max n 1).
  replace (seq 0 nvr) with (seq 0 k ++ k :: seq (S k) (nvr - S k)).
  2:{ change (k :: seq (S k) (nvr - S k)) with (seq k (S (nvr - S k))).
      rewrite <- seq_app. f_equal. unfold k. lia. }
  rewrite fold_left_app. cbn [fold_left].
  assert (P : exists Ro log, fold_left (fun s i => fold_left (fun s j => mod_pair fmin n R0 mg i j s) (seq 0 i) s) (seq 0 k) (Ok (meye, [])) = Ok (Ro, log)).
  { destruct (Nat.eq_dec n 0) as [En|En].
    - assert (Ek : k = 1%nat) by (unfold k; lia). rewrite Ek. exists meye, []. reflexivity.
    - destruct (outer_ok k) as (Ro & E & _); [unfold k; lia|]. eauto. }
  destruct P as (Ro & log & ->).
  assert (K : fold_left (fun s j => mod_pair fmin n R0 mg k j s) (seq 0 k) (Ok (Ro, log)) = Err EIndex).
  { destruct k as [|k'] eqn:Ek; [unfold k in Ek; lia|]. cbn [seq fold_left].
    rewrite mod_pair_err by (unfold k in Ek; lia). apply inner_err. }
  rewrite K, outer_err. reflexivity.
Qed.

Lemma modified_one : computeModifiedCorrelationMatrix fmin 1 n R0 mg = computeModifiedCorrelationMatrix fmin 0 n R0 mg.
Proof. reflexivity. Qed.
End M.

Lemma in_pair_log R0 nvr i j :
  In (i, j) (concat (map (fun i => concat (map (pair_log R0 i) (seq 0 i))) (seq 0 nvr)))
  <-> (j < i)%nat /\ (i < nvr)%nat /\ R0 i j <> 0.
Proof.
  rewrite in_concat. split.
  - intros (l & Hl & H). apply in_map_iff in Hl. destruct Hl as (i' & <- & Hi'). apply in_seq in Hi'.
    apply in_concat in H. destruct H as (l' & Hl' & H). apply in_map_iff in Hl'. destruct Hl' as (j' & <- & Hj').
    apply in_seq in Hj'. unfold pair_log in H. destruct (Reqb (R0 i' j') 0) eqn:E; [destruct H|].
    destruct H as [H|[]]. injection H as <- <-. apply Reqb_false in E. repeat split; [lia|lia|exact E].
  - intros (A & B & C). exists (concat (map (pair_log R0 i) (seq 0 i))). split.
    + apply in_map_iff. exists i. split; [reflexivity|]. apply in_seq. lia.
    + apply in_concat. exists (pair_log R0 i j). split.
      * apply in_map_iff. exists j. split; [reflexivity|]. apply in_seq. lia.
      * unfold pair_log. apply Reqb_false in C. rewrite C. left. reflexivity.
Qed.

Lemma rho_integral_product_rule r mi mj zmax k :
  let x a := nth a (fst (quadratureRule k)) 0 in
  let w a := nth a (snd (quadratureRule k)) 0 in
  rho_integral r mi mj (zi_and_xi mi mj zmax k)
  = rule_on k x w (- zmax) zmax (fun z1 => rule_on k x w (- zmax) zmax (fun z2 =>
      ((mg_u2x mi z1 - mg_mean mi) / mg_stdv mi) * ((mg_u2x mj z2 - mg_mean mj) / mg_stdv mj)
      * bivariate_normal z1 z2 r)).
Proof.
  intros x w. unfold rule_on. rewrite <- fsum_scal.
  unfold rho_integral, sum2. cbn [zi_and_xi g_k g_Z1 g_Z2 g_X1 g_X2 g_W g_detJ].
  apply fsum_ext. intros a _. rewrite <- !fsum_scal. apply fsum_ext. intros b _.
  rewrite phi2_ri, phi2_bivariate.
  assert (E : forall a, zx_z zmax k a = (- zmax + zmax) / 2 + (zmax - - zmax) / 2 * x a) by (intros; unfold zx_z, x; field).
  rewrite !E. fold (w a) (w b).
  generalize ((mg_u2x mi ((- zmax + zmax) / 2 + (zmax - - zmax) / 2 * x a) - mg_mean mi) / mg_stdv mi).
  generalize ((mg_u2x mj ((- zmax + zmax) / 2 + (zmax - - zmax) / 2 * x b) - mg_mean mj) / mg_stdv mj).
  generalize (bivariate_normal ((- zmax + zmax) / 2 + (zmax - - zmax) / 2 * x a) ((- zmax + zmax) / 2 + (zmax - - zmax) / 2 * x b) r).
  intros. field.
Qed.
