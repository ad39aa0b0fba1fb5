(** C41, C42, C43, C73: Nataf correlation integral and modified correlation. *)
From Coquelicot Require Import Coquelicot.
From Verif Require Import Base Quad QuadSpec QuadProofs Chol Nataf NatafSpec NatafProofs.
Open Scope R_scope.

(** C41: shape of the modified correlation matrix, for any solver, marginals and
    any n x n matrix with at least as many rows as marginals. *)
Theorem C41_structure : forall fmin nvr n R mg, (nvr <= n)%nat ->
  exists M log, computeModifiedCorrelationMatrix fmin nvr n R mg = Ok (M, log)
  /\ (forall i, M i i = 1)
  /\ (forall i j, M i j = M j i)
  /\ (forall i j, (j < i)%nat -> R i j = 0 -> M i j = 0)
  /\ (forall i j, In (i, j) log <-> (j < i)%nat /\ (i < nvr)%nat /\ R i j <> 0)
  /\ (forall i j, (j < i)%nat -> (i < nvr)%nat -> R i j <> 0 ->
        M i j = fmin (fun r => Rabs (R i j - rho_integral r (mg i) (mg j)
                                      (zi_and_xi (mg i) (mg j) 6 (nIP_correlation (R i j))))) (R i j)).
Proof.
  intros fmin nvr n R mg H. destruct (modified_ok fmin n R mg nvr H) as (M & E & D & S & L & Z).
  eexists M, _. split; [exact E|]. split; [exact D|]. split; [exact S|]. split; [|split].
  - intros i j Hij H0. destruct (le_lt_dec nvr i) as [Hi|Hi]; [apply Z; assumption|].
    rewrite L by assumption. unfold pair_value. apply Reqb_spec in H0. rewrite H0. reflexivity.
  - intros i j. apply in_pair_log.
  - intros i j Hij Hi H0. rewrite L by assumption. unfold pair_value. apply Reqb_false in H0. rewrite H0. reflexivity.
Qed.
Print Assumptions C41_structure.

(** C41: uncorrelated variables give the identity and no solver call. *)
Theorem C41_uncorrelated_identity : forall fmin nvr n R mg, (nvr <= n)%nat ->
  (forall i j, (j < i)%nat -> (i < nvr)%nat -> R i j = 0) ->
  exists M, computeModifiedCorrelationMatrix fmin nvr n R mg = Ok (M, [])
  /\ forall i j, M i j = if Nat.eqb i j then 1 else 0.
Proof.
  intros fmin nvr n R mg H H0. destruct (modified_ok fmin n R mg nvr H) as (M & E & D & S & L & Z).
  exists M. split.
  - rewrite E. do 2 f_equal.
    destruct (concat _) as [|[i j] l] eqn:El; [reflexivity|]. exfalso.
    assert (I : In (i, j) ((i, j) :: l)) by (left; reflexivity). rewrite <- El in I.
    apply in_pair_log in I. destruct I as (A & B & C). apply C, H0; assumption.
  - assert (LL : forall i j, (j < i)%nat -> M i j = 0).
    { intros i j Hij. destruct (le_lt_dec nvr i) as [Hi|Hi]; [apply Z; assumption|].
      rewrite L by assumption. unfold pair_value. rewrite H0 by assumption.
      replace (Reqb 0 0) with true by (symmetry; apply Reqb_spec; reflexivity). reflexivity. }
    intros i j. destruct (Nat.eqb_spec i j) as [->|Hne]; [apply D|].
    destruct (lt_dec j i); [apply LL; assumption|]. rewrite S. apply LL. lia.
Qed.
Print Assumptions C41_uncorrelated_identity.

(** C41: only the strict lower triangle of R matters. *)
Theorem C41_lower_triangle_only : forall fmin nvr n R R' mg, (nvr <= n)%nat ->
  (forall i j, (j < i)%nat -> (i < nvr)%nat -> R i j = R' i j) ->
  exists M M' log, computeModifiedCorrelationMatrix fmin nvr n R mg = Ok (M, log)
  /\ computeModifiedCorrelationMatrix fmin nvr n R' mg = Ok (M', log)
  /\ forall i j, M i j = M' i j.
Proof.
  intros fmin nvr n R R' mg H HR.
  destruct (modified_ok fmin n R mg nvr H) as (M & E & D & S & L & Z).
  destruct (modified_ok fmin n R' mg nvr H) as (M' & E' & D' & S' & L' & Z').
  exists M, M'. eexists. split; [exact E|]. split.
  - rewrite E'. do 3 f_equal. apply map_ext_in. intros i Hi. apply in_seq in Hi. f_equal.
    apply map_ext_in. intros j Hj. apply in_seq in Hj. unfold pair_log. rewrite HR by lia. reflexivity.
  - assert (LL : forall i j, (j < i)%nat -> M i j = M' i j).
    { intros i j Hij. destruct (le_lt_dec nvr i) as [Hi|Hi]; [rewrite Z, Z' by assumption; reflexivity|].
      rewrite L, L' by assumption. unfold pair_value. rewrite HR by assumption. reflexivity. }
    intros i j. destruct (lt_eq_lt_dec i j) as [[A|A]|A].
    + rewrite S, S'. apply LL, A.
    + subst. rewrite D, D'. reflexivity.
    + apply LL, A.
Qed.
Print Assumptions C41_lower_triangle_only.

(** C41: with more marginals than rows it raises IndexError (and only then). *)
Theorem C41_raises_iff : forall fmin nvr n R mg e,
  computeModifiedCorrelationMatrix fmin nvr n R mg = Err e <-> e = EIndex /\ (n < nvr)%nat /\ (2 <= nvr)%nat.
Proof.
  intros fmin nvr n R mg e. split.
  - intros E. destruct (le_lt_dec nvr n) as [H|H].
    { destruct (modified_ok fmin n R mg nvr H) as (M & E' & _). congruence. }
    destruct (le_lt_dec 2 nvr) as [H2|H2].
    + rewrite (modified_err fmin n R mg nvr H H2) in E. injection E as <-. auto.
    + exfalso. assert (nvr = 1)%nat as -> by lia. rewrite modified_one in E.
      destruct (modified_ok fmin n R mg 0 ltac:(lia)) as (M & E' & _). congruence.
  - intros (-> & H & H2). apply modified_err; assumption.
Qed.
Print Assumptions C41_raises_iff.

(** C41: when the minimiser does find a zero of the objective in (-1,1) whenever
    there is one, the modified correlation reproduces the physical one through
    the discretised integral. *)
Theorem C41_reproduces_correlation : forall fmin nvr n R mg M log,
  (forall f x0, (exists r, -1 < r < 1 /\ f r = 0) -> -1 < fmin f x0 < 1 /\ f (fmin f x0) = 0) ->
  computeModifiedCorrelationMatrix fmin nvr n R mg = Ok (M, log) ->
  forall i j, (j < i)%nat -> (i < nvr)%nat -> R i j <> 0 ->
  let g := zi_and_xi (mg i) (mg j) 6 (nIP_correlation (R i j)) in
  (exists r, -1 < r < 1 /\ rho_integral r (mg i) (mg j) g = R i j) ->
  -1 < M i j < 1 /\ rho_integral (M i j) (mg i) (mg j) g = R i j.
Proof.
  intros fmin nvr n R mg M log HF E i j Hij Hi H0 g (r & Hr & Er).
  assert (Hn : (nvr <= n)%nat).
  { destruct (le_lt_dec nvr n) as [H|H]; [exact H|]. exfalso.
    rewrite (modified_err fmin n R mg nvr H ltac:(lia)) in E. discriminate. }
  destruct (modified_ok fmin n R mg nvr Hn) as (M' & E' & _ & _ & L & _).
  assert (M' = M) as -> by congruence.
  rewrite L by assumption. unfold pair_value. apply Reqb_false in H0. rewrite H0. fold g.
  destruct (HF (fun r => absoluteIntegralValue r (R i j) (mg i) (mg j) g) (R i j)) as [A B].
  { exists r. split; [exact Hr|]. unfold absoluteIntegralValue. rewrite Er, Rminus_diag_eq by reflexivity. apply Rabs_R0. }
  split; [exact A|]. unfold absoluteIntegralValue in B.
  destruct (Req_dec (R i j - rho_integral (fmin (fun r0 => Rabs (R i j - rho_integral r0 (mg i) (mg j) g)) (R i j)) (mg i) (mg j) g) 0) as [Z|Z].
  - unfold absoluteIntegralValue. lra.
  - exfalso. exact (Rabs_no_R0 _ Z B).
Qed.
Print Assumptions C41_reproduces_correlation.

Theorem C41_tables_agree : forall rho, nIP_correlation rho = nIP_sensitivity rho.
Proof. reflexivity. Qed.
Print Assumptions C41_tables_agree.

(** C41: the table is even in rho, non-decreasing in |rho|, and always one of the six sizes. *)
Theorem C41_table_monotone : forall r1 r2, Rabs r1 <= Rabs r2 ->
  (nIP_correlation r1 <= nIP_correlation r2)%nat /\ (32 <= nIP_correlation r1 <= 1024)%nat.
Proof.
  intros r1 r2 H. unfold nIP_correlation, Rltb.
  split; repeat match goal with |- context [Rlt_dec ?a ?b] => destruct (Rlt_dec a b) end;
    first [exfalso; lra | apply Nat.leb_le; reflexivity | split; apply Nat.leb_le; reflexivity].
Qed.
Print Assumptions C41_table_monotone.

(** C42: the density, and its derivative in the correlation. *)
Theorem C42_density : forall z1 z2 r,
  phi2 z1 z2 r = bivariate_normal z1 z2 r /\ ri_PHI2 r z1 z2 = bivariate_normal z1 z2 r.
Proof. intros. rewrite phi2_ri, phi2_bivariate. auto. Qed.
Print Assumptions C42_density.

Theorem C42_density_derivative : forall z1 z2 r, -1 < r < 1 ->
  is_derive (fun r => bivariate_normal z1 z2 r) r (dphi2_drho0 z1 z2 r (phi2 z1 z2 r)).
Proof.
  intros z1 z2 r Hr. apply (is_derive_ext (fun r => phi2 z1 z2 r)).
  - intros t. apply phi2_bivariate.
  - apply phi2_derive, Hr.
Qed.
Print Assumptions C42_density_derivative.

Theorem C42_integral_derivative : forall r mi mj g, -1 < r < 1 ->
  is_derive (fun r => rho_integral r mi mj g) r (drho_drho0 r mi mj g).
Proof. exact rho_integral_derive. Qed.
Print Assumptions C42_integral_derivative.

Theorem C42_exchange_symmetric : forall r mi mj zmax k,
  rho_integral r mj mi (zi_and_xi mj mi zmax k) = rho_integral r mi mj (zi_and_xi mi mj zmax k).
Proof. intros. apply zi_and_xi_swap. Qed.
Print Assumptions C42_exchange_symmetric.

(** C42: what is minimised against the target is the product quadrature rule on the square
    [-zmax,zmax]^2 for the standardised product times the bivariate normal density; the
    nodes and weights are those of quadratureRule, the Jacobian is that of the interval. *)
Theorem C42_is_product_rule : forall r mi mj zmax k,
  let x a := nth a (fst (quadratureRule k)) 0 in
  let w a := nth a (snd (quadratureRule k)) 0 in
  rho_integral r mi mj (zi_and_xi mi mj zmax k)
  = rule_on k x w (- zmax) zmax (fun z1 => rule_on k x w (- zmax) zmax (fun z2 =>
      ((mg_u2x mi z1 - mg_mean mi) / mg_stdv mi) * ((mg_u2x mj z2 - mg_mean mj) / mg_stdv mj)
      * bivariate_normal z1 z2 r)).
Proof. intros. apply rho_integral_product_rule. Qed.
Print Assumptions C42_is_product_rule.

(** C43: parameter of the first variable *)
Theorem C43_implicit_derivative_first :
  forall (mi : R -> marg) (mj : marg) (X : R -> mat) (g : grid) (rho0 : R -> R) t0 param F r',
  -1 < rho0 t0 < 1 -> mg_stdv (mi t0) <> 0 ->
  (forall a b, (a < g_k g)%nat -> (b < g_k g)%nat ->
     g_X1 g a b = X t0 a b /\ tiny <= mg_pdf (mi t0) (X t0 a b)
     /\ quantile_path F (fun t => X t a b) t0 (mg_dF (mi t0) param (X t0 a b)) (mg_pdf (mi t0) (X t0 a b))) ->
  is_derive (fun t => mg_mean (mi t)) t0 (fst (mg_dmom (mi t0) param)) ->
  is_derive (fun t => mg_stdv (mi t)) t0 (snd (mg_dmom (mi t0) param)) ->
  is_derive rho0 t0 r' ->
  (exists rho, locally t0 (fun t => rho_integral (rho0 t) (mi t) mj (with_X1 g (X t)) = rho)) ->
  drho_drho0 (rho0 t0) (mi t0) mj g <> 0 ->
  drho0_dtheta (rho0 t0) (mi t0) mj g 0 param = r'.
Proof. exact drho0_dtheta_correct0. Qed.
Print Assumptions C43_implicit_derivative_first.

(** C43: parameter of the second variable *)
Theorem C43_implicit_derivative_second :
  forall (mi : marg) (mj : R -> marg) (X : R -> mat) (g : grid) (rho0 : R -> R) t0 param F r',
  -1 < rho0 t0 < 1 -> mg_stdv (mj t0) <> 0 ->
  (forall a b, (a < g_k g)%nat -> (b < g_k g)%nat ->
     g_X2 g a b = X t0 a b /\ tiny <= mg_pdf (mj t0) (X t0 a b)
     /\ quantile_path F (fun t => X t a b) t0 (mg_dF (mj t0) param (X t0 a b)) (mg_pdf (mj t0) (X t0 a b))) ->
  is_derive (fun t => mg_mean (mj t)) t0 (fst (mg_dmom (mj t0) param)) ->
  is_derive (fun t => mg_stdv (mj t)) t0 (snd (mg_dmom (mj t0) param)) ->
  is_derive rho0 t0 r' ->
  (exists rho, locally t0 (fun t => rho_integral (rho0 t) mi (mj t) (with_X2 g (X t)) = rho)) ->
  drho_drho0 (rho0 t0) mi (mj t0) g <> 0 ->
  drho0_dtheta (rho0 t0) mi (mj t0) g 1 param = r'.
Proof. exact drho0_dtheta_correct1. Qed.
Print Assumptions C43_implicit_derivative_second.

(** C73: the integral only sees the standardised marginal: an affine change of
    the first variable (new location c, positive or negative factor d absorbed
    into the standard deviation) leaves it unchanged. *)
Theorem C73_affine_invariant : forall r mi mj mi' zmax k c d,
  d <> 0 -> mg_stdv mi <> 0 ->
  (forall z, mg_u2x mi' z = c + d * mg_u2x mi z) ->
  mg_mean mi' = c + d * mg_mean mi -> mg_stdv mi' = d * mg_stdv mi ->
  rho_integral r mi' mj (zi_and_xi mi' mj zmax k) = rho_integral r mi mj (zi_and_xi mi mj zmax k).
Proof.
  intros r mi mj mi' zmax k c d Hd Hs HX Em Es.
  apply (rho_integral_affine r mi mj (zi_and_xi mi mj zmax k) mi' (fun a _ => mg_u2x mi' (zx_z zmax k a)) c d); auto.
  intros a b _ _. apply HX.
Qed.
Print Assumptions C73_affine_invariant.

(** C73: so for a pair of normal variables it is a universal function of rho0:
    it does not depend on their means and standard deviations. *)
Theorem C73_normal_pair_universal : forall r mi mj ni nj zmax k,
  mg_stdv mi <> 0 -> mg_stdv mj <> 0 -> mg_stdv ni <> 0 -> mg_stdv nj <> 0 ->
  (forall m, In m [mi; mj; ni; nj] -> forall z, mg_u2x m z = mg_mean m + mg_stdv m * z) ->
  rho_integral r mi mj (zi_and_xi mi mj zmax k) = rho_integral r ni nj (zi_and_xi ni nj zmax k).
Proof.
  intros r mi mj ni nj zmax k H1 H2 H3 H4 H. apply sum2_ext. intros a b _ _.
  cbn [zi_and_xi g_k g_Z1 g_Z2 g_X1 g_X2 g_W g_detJ].
  rewrite !(H mi), !(H mj), !(H ni), !(H nj) by (simpl; auto).
  do 3 f_equal. field. auto.
Qed.
Print Assumptions C73_normal_pair_universal.

(** C73: if the second marginal is symmetric about its mean the integral is odd
    in rho0, in particular exactly 0 at rho0 = 0. *)
Theorem C73_odd_for_symmetric_marginal : forall r mi mj zmax k, (1 <= k)%nat ->
  (forall z, mg_u2x mj (- z) - mg_mean mj = - (mg_u2x mj z - mg_mean mj)) ->
  rho_integral (- r) mi mj (zi_and_xi mi mj zmax k) = - rho_integral r mi mj (zi_and_xi mi mj zmax k)
  /\ rho_integral 0 mi mj (zi_and_xi mi mj zmax k) = 0.
Proof. intros. split; [apply rho_integral_odd|apply rho_integral_zero]; assumption. Qed.
Print Assumptions C73_odd_for_symmetric_marginal.

(** *** Concrete instances *)
Definition mgN : marg := mkMarg 5 2 (fun z => 5 + 2 * z) (fun _ => 0) (fun _ _ => 0) (fun _ => (0, 0)).
Example C73_symmetric_instance : forall z, mg_u2x mgN (- z) - mg_mean mgN = - (mg_u2x mgN z - mg_mean mgN).
Proof. intros z. simpl. lra. Qed.

Example C41_instance : exists M, computeModifiedCorrelationMatrix (fun _ r => r / 2) 2 2 (fun i j => if Nat.eqb i j then 1 else 1/2) (fun _ => mgN) = Ok (M, [(1, 0)%nat]) /\ M 1%nat 0%nat = 1/4 /\ M 0%nat 1%nat = 1/4.
Proof.
  destruct (modified_ok (fun _ r => r / 2) 2 (fun i j => if Nat.eqb i j then 1 else 1/2) (fun _ => mgN) 2 ltac:(lia)) as (M & E & D & S & L & Z).
  assert (B : Reqb (1/2) 0 = false) by (apply Reqb_false; lra).
  exists M. split; [|split].
  - rewrite E. do 2 f_equal. cbn. unfold pair_log. cbn. rewrite B. reflexivity.
  - rewrite L by lia. unfold pair_value. cbn [Nat.eqb]. rewrite B. field.
  - rewrite S, L by lia. unfold pair_value. cbn [Nat.eqb]. rewrite B. field.
Qed.

(** A one-point grid where the quantile is arranged so that rho0(t) = t. *)
Definition ex_X (t : R) : mat := fun _ _ => / phi2 1 1 t.
Definition ex_g : grid := mkGrid 1 (fun _ _ => 1) (fun _ _ => 1) (ex_X 0) (fun _ _ => 1) (fun _ _ => 1) 1.
Definition ex_mi : marg := mkMarg 0 1 (fun z => z) (fun _ => phi2 1 1 0)
   (fun _ x => x * dphi2_drho0 1 1 0 (phi2 1 1 0)) (fun _ => (0, 0)).
Definition ex_mj : marg := mkMarg 0 1 (fun z => z) (fun _ => 1) (fun _ _ => 0) (fun _ => (0, 0)).

Lemma phi2_pos z1 z2 r : -1 < r < 1 -> 0 < phi2 z1 z2 r.
Proof.
  intros Hr. pose proof (c_pos r Hr). pose proof PI_RGT_0. unfold phi2.
  apply Rmult_lt_0_compat; [|apply exp_pos]. apply Rinv_0_lt_compat.
  apply Rmult_lt_0_compat; [lra|]. apply sqrt_lt_R0. lra.
Qed.

Lemma phi2_110_ge : tiny <= phi2 1 1 0.
Proof.
  assert (E : phi2 1 1 0 = / (2 * PI) * exp (-1)).
  { unfold phi2. replace (1 - 0^2) with 1 by ring. rewrite sqrt_1, Rmult_1_r. do 2 f_equal. field. }
  rewrite E. replace (-1) with (- (1)) by lra. rewrite exp_Ropp. pose proof PI_RGT_0. pose proof PI_4. pose proof exp_le_3. pose proof (exp_pos 1).
  apply Rle_trans with (/ 8 * / 3).
  - unfold tiny. rewrite <- Rinv_mult. apply Rinv_le_contravar; [lra|].
    apply Rle_trans with (10 ^ 2); [lra|]. apply Rle_pow; [lra|lia].
  - apply Rmult_le_compat; try (apply Rlt_le, Rinv_0_lt_compat; lra); apply Rinv_le_contravar; lra.
Qed.

Example C43_instance : drho0_dtheta 0 ex_mi ex_mj ex_g 0 "shape" = 1.
Proof.
  assert (Hloc : locally 0 (fun t : R => -1 < t < 1)) by (apply locally_in; lra).
  assert (HP : phi2 1 1 0 <> 0) by (pose proof (phi2_pos 1 1 0 ltac:(lra)); lra).
  pose proof (phi2_derive 1 1 0 ltac:(lra)) as DP.
  apply (C43_implicit_derivative_first (fun _ => ex_mi) ex_mj ex_X ex_g (fun t => t) 0 "shape"
           (fun t x => x * phi2 1 1 t) 1).
  - lra.
  - simpl. lra.
  - intros a b _ _. cbn [ex_g g_X1 ex_mi mg_pdf mg_dF]. split; [reflexivity|]. split; [apply phi2_110_ge|].
    split; [|split].
    + exists 1. eapply filter_imp; [|exact Hloc]. intros t Ht. unfold ex_X. cbv beta.
      apply Rinv_l. pose proof (phi2_pos 1 1 t Ht). lra.
    + unfold ex_X.
      exists (- dphi2_drho0 1 1 0 (phi2 1 1 0) / (phi2 1 1 0)^2).
      apply (is_derive_inv (fun t => phi2 1 1 t)); [exact DP|exact HP].
    + apply filterdiff_differentiable_pt_lim.
      assert (DP' : filterdiff (fun t : R => phi2 1 1 t) (locally 0) (fun y => scal y (dphi2_drho0 1 1 0 (phi2 1 1 0)))) by exact DP.
      set (x0 := ex_X 0 a b).
      assert (F1 : filterdiff (fun u : R * R => phi2 1 1 (fst u)) (locally (0, x0)) (fun u => scal (fst u) (dphi2_drho0 1 1 0 (phi2 1 1 0)))).
      { apply (filterdiff_comp' (fun u : R * R => fst u) (fun t : R => phi2 1 1 t) (0, x0) (fun u => fst u) (fun y => scal y (dphi2_drho0 1 1 0 (phi2 1 1 0)))).
        - apply filterdiff_linear, is_linear_fst.
        - exact DP'. }
      assert (F2 : filterdiff (fun u : R * R => snd u) (locally (0, x0)) (fun u => snd u)).
      { apply filterdiff_linear, is_linear_snd. }
      pose proof (filterdiff_mult_fct (fun u : R * R => snd u) (fun u : R * R => phi2 1 1 (fst u)) (0, x0) _ _ Rmult_comm F2 F1) as FM.
      eapply filterdiff_ext_lin; [exact FM|]. intros [y1 y2]. unfold plus, mult, scal; simpl. unfold mult; simpl. ring.
  - apply (is_derive_const 0 0).
  - apply (is_derive_const 1 0).
  - apply (is_derive_id 0).
  - exists 1. eapply filter_imp; [|exact Hloc]. intros t Ht.
    rewrite rho_integral_phi2. unfold sum2. simpl. unfold ex_X.
    pose proof (phi2_pos 1 1 t Ht). field. lra.
  - assert (E : drho_drho0 0 ex_mi ex_mj ex_g = 1); [|rewrite E; lra].
    unfold drho_drho0, sum2. cbn [fsum ex_g ex_mi ex_mj g_k g_X1 g_X2 g_Z1 g_Z2 g_W g_detJ mg_mean mg_stdv].
    unfold ex_X, dphi2_drho0. set (P := phi2 1 1 0) in *. field. exact HP.
Qed.

(** The solver contract of [C41_reproduces_correlation] is satisfiable. *)
From Coq Require Import ClassicalEpsilon.
Definition ideal_fmin (f : R -> R) (x0 : R) : R :=
  match excluded_middle_informative (exists r, -1 < r < 1 /\ f r = 0) with
  | left H => proj1_sig (constructive_indefinite_description _ H)
  | right _ => x0
  end.
Example C41_solver_exists : forall f x0, (exists r, -1 < r < 1 /\ f r = 0) ->
  -1 < ideal_fmin f x0 < 1 /\ f (ideal_fmin f x0) = 0.
Proof.
  intros f x0 H. unfold ideal_fmin. destruct (excluded_middle_informative _) as [E|E]; [|contradiction].
  exact (proj2_sig (constructive_indefinite_description _ E)).
Qed.
