(** Properties C45, C46 and C74: SensitivityAnalysis. *)
From Coquelicot Require Import Coquelicot.
From Verif Require Import Base StochModel Transf TransfSpec TransfProofs Chol CholProofs Gauss GaussProofs Quad QuadProofs Nataf NatafSpec NatafProofs Sens SensSpec SensNumProofs SensCfProofs SensSvdProofs.
Open Scope R_scope.

(** C45: run(numerical=True).  [form_beta None]: FORM with default options;
    [form_after]: a FORM run leaves variables, marginals, correlation and constants
    alone.  Every reported number is a difference quotient between the base run
    and a run on a model that differs in one distribution only. *)
Theorem C45_bookkeeping : forall (D opts : Type) (sparams : D -> list (string * R))
    (make_copy : D -> string -> R -> result D) (stdv : D -> R)
    (form_beta : option opts -> pmodel D -> result R) (form_after : option opts -> pmodel D -> pmodel D)
    (o : opts) delta m res m',
  NoDup (map fst (pm_vars D m)) ->
  (forall name d, In (name, d) (pm_vars D m) -> NoDup (map fst (sparams d))) ->
  pm_marg D m = map snd (pm_vars D m) ->
  (forall oo mm, same_inputs mm (form_after oo mm)) ->
  numerical_sens D sparams make_copy stdv opts form_beta form_after o delta m = (Ok res, m') ->
  same_inputs m m' /\
  exists beta0, form_beta None m = Ok beta0
  /\ map fst res = map fst (pm_vars D m)
  /\ forall name d, In (name, d) (pm_vars D m) ->
     exists row, dict_get res name = Some row /\ map fst row = map fst (sparams d)
     /\ forall p val, In (p, val) (sparams d) ->
        exists d' m1 v1 beta1,
          make_copy d p (val + delta * stdv d) = Ok d' /\ dict_get (sparams d') p = Some v1
          /\ only_changed m' m1 name d' /\ form_beta None m1 = Ok beta1
          /\ dict_get row p = Some ((beta1 - beta0) / (v1 - val)).
Proof. intros D opts sparams make_copy stdv form_beta form_after. apply numerical_ok. Qed.
Print Assumptions C45_bookkeeping.

(** C45: the options given to the constructor have no influence. *)
Theorem C45_options_never_used : forall (D opts : Type) (sparams : D -> list (string * R))
    (make_copy : D -> string -> R -> result D) (stdv : D -> R)
    (form_beta : option opts -> pmodel D -> result R) (form_after : option opts -> pmodel D -> pmodel D)
    (o1 o2 : opts) delta m,
  numerical_sens D sparams make_copy stdv opts form_beta form_after o1 delta m
  = numerical_sens D sparams make_copy stdv opts form_beta form_after o2 delta m.
Proof. intros. apply options_irrelevant. Qed.
Print Assumptions C45_options_never_used.

(** C46: shape of the correlation sensitivity matrix. *)
Theorem C46_symmetric_zero_diagonal : forall n alpha u_star mg Rphys Ro L0 np_inv i j,
  let S := cf_correlation n alpha u_star mg Rphys Ro L0 np_inv in S i j = S j i /\ S i i = 0.
Proof.
  intros n alpha u_star mg Rphys Ro L0 np_inv i j S. unfold S, cf_correlation. rewrite !corr_sens_eq.
  rewrite (andb_comm (Nat.ltb j n)), Nat.ltb_irrefl. split.
  - destruct (Nat.ltb i n && Nat.ltb j n); [|reflexivity].
    destruct (Nat.ltb_spec j i); destruct (Nat.ltb_spec i j); try lia; reflexivity.
  - destruct (Nat.ltb i n && Nat.ltb i n); reflexivity.
Qed.
Print Assumptions C46_symmetric_zero_diagonal.

(** C46: each off-diagonal entry is the derivative, with respect to that physical
    correlation, of beta = alpha' L0(rho)^{-1} z at fixed z, when the modified
    correlation rho0 solves the discretised Nataf equation and L0 is the Cholesky
    factor.  [gr i j] is the quadrature grid of the pair (the code's is
    [cf_grid mg Rphys i j]). *)
Theorem C46_correlation_derivative :
  forall n alpha u_star mg (Rphys Ro L0 : mat) (np_inv : mat -> mat) (gr : nat -> nat -> grid)
         i j (rho0 : R -> R) (Lt Lit : R -> mat),
  (j < i)%nat -> (i < n)%nat ->
  cholesky_factor n L0 Ro -> inverse_pair n L0 (np_inv L0) ->
  -1 < Ro i j < 1 ->
  locally (Rphys i j) (fun t => rho_integral (rho0 t) (mg i) (mg j) (gr i j) = t) ->
  rho0 (Rphys i j) = Ro i j -> ex_derive rho0 (Rphys i j) ->
  tiny < Rabs (drho_drho0 (Ro i j) (mg i) (mg j) (gr i j)) ->
  locally (Rphys i j) (fun t => cholesky_factor n (Lt t) (set_sym Ro i j (rho0 t)) /\ inverse_pair n (Lt t) (Lit t)) ->
  is_derive (fun t => dot n alpha (mvec n (Lit t) (mvec n L0 u_star))) (Rphys i j)
    (corr_sens n alpha u_star mg Ro L0 np_inv gr i j).
Proof. intros. apply corr_derivative with (rho0 := rho0) (Lt := Lt); assumption. Qed.
Print Assumptions C46_correlation_derivative.

(** C46 (refuted for transform "svd"): _cf_sens combines the derivative of the
    CHOLESKY factor with whatever factor the transformation uses.  With the SVD
    factor A of [[1,3/5],[3/5,1]] and the limit state beta - z2, whose reliability
    index is |beta| for every correlation and every factor, it reports a non-zero
    sensitivity; with the Cholesky factor it reports 0. *)
Theorem C46_svd_refuted : forall mg gr U D V np_inv beta,
  svd_of 2 U D V (R2 (3/5)) ->
  let A := mmul 2 U (fun a b => sqrt (D b) * meye a b) in
  inverse_pair 2 A (np_inv A) -> beta <> 0 -> drho0_drho mg (R2 (3/5)) gr 1 0 <> 0 ->
  corr_sens 2 (fun k => A 1%nat k) (fun k => beta * A 1%nat k) mg (R2 (3/5)) A np_inv gr 1%nat 0%nat <> 0
  /\ (forall L r, factor_of 2 L (R2 r) ->
        mvec 2 L (fun j => beta * L 1%nat j) 1%nat = beta /\ norm 2 (fun j => beta * L 1%nat j) = Rabs beta
        /\ forall u, mvec 2 L u 1%nat = beta -> Rabs beta <= norm 2 u)
  /\ (forall L, cholesky_factor 2 L (R2 (3/5)) -> inverse_pair 2 L (np_inv L) ->
        corr_sens 2 (fun k => L 1%nat k) (fun k => beta * L 1%nat k) mg (R2 (3/5)) L np_inv gr 1%nat 0%nat = 0).
Proof.
  intros mg gr U D V np_inv beta HS A HI Hb Hd. split; [|split].
  - rewrite corr_sens_eq. cbn [Nat.ltb Nat.leb andb]. apply (svd_entry_wrong mg gr U D V np_inv beta); assumption.
  - intros L r HF. apply (plane_distance 2 L (R2 r)); [lia|exact HF|reflexivity].
  - intros L (HT & HP & HF) HL. rewrite corr_sens_eq. cbn [Nat.ltb Nat.leb andb].
    rewrite entry_second_variable by (try assumption; lra).
    pose proof (HF 0%nat 0%nat ltac:(lia) ltac:(lia)) as F00. pose proof (HF 1%nat 0%nat ltac:(lia) ltac:(lia)) as F10.
    pose proof (HF 1%nat 1%nat ltac:(lia) ltac:(lia)) as F11. unfold R2 in F00, F10, F11. cbn [fsum Nat.eqb] in *.
    rewrite (HT 0%nat 1%nat) in * by lia. pose proof (HP 0%nat ltac:(lia)) as P0. pose proof (HP 1%nat ltac:(lia)) as P1.
    assert (L00 : L 0%nat 0%nat = 1) by nra. rewrite L00 in *.
    assert (L10 : L 1%nat 0%nat = 3/5) by lra. rewrite L10 in *.
    assert (S : sqrt (1 - 3/5 * (3/5)) = L 1%nat 1%nat).
    { rewrite <- (sqrt_square (L 1%nat 1%nat)) by lra. f_equal. lra. }
    rewrite S. field. lra.
Qed.
Print Assumptions C46_svd_refuted.

(** C74: the marginal sensitivity is the derivative, with respect to the
    parameter of variable k, of beta(t) = alpha' L(t)^{-1} z(t) at fixed x*: z_k(t) =
    Phi^{-1}(F(t, x*_k)), L(t) the Cholesky factor of the modified correlation R0(t),
    whose entries follow the parameter through the discretised Nataf equation (the
    physical correlation is held fixed). *)
Theorem C74_marginal_derivative :
  forall n alpha u_star x_star mg Rphys Ro L0 L0_inv np_inv k param
    (mt : R -> marg) (F : R -> R -> R) (Rt Lt Lit : R -> mat) t0,
  let mgt t i := if Nat.eqb i k then mt t else mg i in
  let z_star := mvec n L0 u_star in
  (k < n)%nat -> mt t0 = mg k -> mg_stdv (mg k) <> 0 ->
  cholesky_factor n L0 Ro -> inverse_pair n L0 L0_inv -> inverse_pair n L0 (np_inv L0) ->
  F t0 (x_star k) = Phi (z_star k) ->
  is_derive (fun t => F t (x_star k)) t0 (mg_dF (mg k) param (x_star k)) ->
  tiny < phi (z_star k) ->
  is_derive (fun t => mg_mean (mt t)) t0 (fst (mg_dmom (mg k) param)) ->
  is_derive (fun t => mg_stdv (mt t)) t0 (snd (mg_dmom (mg k) param)) ->
  (forall z, -6 < z < 6 -> tiny <= mg_pdf (mg k) (mg_u2x (mg k) z)
     /\ quantile_path F (fun t => mg_u2x (mt t) z) t0 (mg_dF (mg k) param (mg_u2x (mg k) z)) (mg_pdf (mg k) (mg_u2x (mg k) z))) ->
  Rt t0 = Ro ->
  (forall t i, (i < n)%nat -> Rt t i i = 1) ->
  (forall t i j, (j < i)%nat -> (i < n)%nat -> Rt t j i = Rt t i j) ->
  (forall i j, (j < i)%nat -> (i < n)%nat -> k <> i -> k <> j -> forall t, Rt t i j = Ro i j) ->
  (forall i j, (j < i)%nat -> (i < n)%nat -> k = i \/ k = j ->
     (Rphys i j = 0 /\ forall t, Rt t i j = 0)
     \/ (/ 10 ^ 12 <= Rabs (Rphys i j) /\ -1 < Ro i j < 1
         /\ ex_derive (fun t => Rt t i j) t0
         /\ drho_drho0 (Ro i j) (mg i) (mg j) (cf_grid mg Rphys i j) <> 0
         /\ (forall a, (a < nIP_sensitivity (Rphys i j))%nat -> -6 < zx_z 6 (nIP_sensitivity (Rphys i j)) a < 6)
         /\ locally t0 (fun t => rho_integral (Rt t i j) (mgt t i) (mgt t j)
                (zi_and_xi (mgt t i) (mgt t j) 6 (nIP_sensitivity (Rphys i j))) = Rphys i j))) ->
  locally t0 (fun t => cholesky_factor n (Lt t) (Rt t) /\ inverse_pair n (Lt t) (Lit t)) ->
  is_derive (fun t => dot n alpha (mvec n (Lit t) (fun i => if Nat.eqb i k then ppf (F t (x_star k)) else z_star i))) t0
    (cf_marginal n alpha u_star x_star mg Rphys Ro L0 L0_inv np_inv k param).
Proof. intros. eapply marginal_derivative_full; eassumption. Qed.
Print Assumptions C74_marginal_derivative.

(** *** Concrete instances *)

(** Two variables given by (mean, std); "FORM" returns the sum of the means. *)
Definition exD : Type := R * R.
Definition ex_sparams (d : exD) : list (string * R) := [("mean"%string, fst d); ("std"%string, snd d)].
Definition ex_copy (d : exD) (p : string) (v : R) : result exD :=
  if String.eqb p "mean" then Ok (v, snd d) else Ok (fst d, v).
Definition ex_model : pmodel exD :=
  mkpm exD [("X"%string, (1, 2)); ("Y"%string, (3, 4))] [(1, 2); (3, 4)] None None 0 [].
Definition ex_beta (o : option unit) (m : pmodel exD) : result R := Ok (lsum (map fst (pm_marg exD m))).

Example C45_instance : exists res, numerical_sens exD ex_sparams ex_copy snd unit ex_beta (fun _ m => m) tt (1/10) ex_model = (Ok res, ex_model)
  /\ exists row, dict_get res "X" = Some row /\ dict_get row "mean" = Some 1 /\ dict_get row "std" = Some 0.
Proof.
  eexists. split; [reflexivity|]. eexists. split; [reflexivity|]. cbn. split; f_equal; field.
Qed.

(** C46: a one-point grid on which rho = (2/5)/sqrt(1 - rho0^2) *)
Definition exC_g (i j : nat) : grid := mkGrid 1 (fun _ _ => 0) (fun _ _ => 0) (fun _ _ => 2 * PI * (2/5)) (fun _ _ => 1) (fun _ _ => 1) 1.
Definition exC_m (i : nat) : marg := mkMarg 0 1 (fun z => z) (fun _ => 1) (fun _ _ => 0) (fun _ => (0, 0)).
Definition exC_rho0 (t : R) : R := sqrt (1 - (2/5/t) * (2/5/t)).
Definition exC_L (r : R) : mat := fun i j =>
  match i, j with 0%nat, 0%nat => 1 | 1%nat, 0%nat => r | 1%nat, 1%nat => sqrt (1 - r * r) | _, _ => 0 end.
Definition exC_Li (r : R) : mat := fun i j =>
  match i, j with 0%nat, 0%nat => 1 | 1%nat, 0%nat => - r / sqrt (1 - r * r) | 1%nat, 1%nat => / sqrt (1 - r * r) | _, _ => 0 end.

Lemma exC_chol r M : -1 < r < 1 -> (forall i j, (i < 2)%nat -> (j < 2)%nat -> M i j = R2 r i j) ->
  cholesky_factor 2 (exC_L r) M /\ inverse_pair 2 (exC_L r) (exC_Li r).
Proof.
  intros Hr HM. assert (P : 0 < 1 - r * r) by nra. pose proof (sqrt_lt_R0 _ P) as Q. pose proof (sqrt_sqrt (1 - r * r) ltac:(lra)) as S.
  split; [split; [|split]|split].
  - intros [|[|i]] [|[|j]] H; try lia; reflexivity.
  - intros [|[|i]] H; [simpl; lra|simpl; exact Q|lia].
  - intros i j Hi Hj. rewrite HM by assumption. destruct i as [|[|i]]; [| |lia]; (destruct j as [|[|j]]; [| |lia]); cbn; try lra.
  - intros i j Hi Hj. destruct i as [|[|i]]; [| |lia]; (destruct j as [|[|j]]; [| |lia]); cbn; try lra; field_simplify_eq; lra.
  - intros i j Hi Hj. destruct i as [|[|i]]; [| |lia]; (destruct j as [|[|j]]; [| |lia]); cbn; try lra; field_simplify_eq; lra.
Qed.

Lemma exC_range t : 9/20 < t -> 0 < 1 - (2/5/t) * (2/5/t) < 1.
Proof.
  intros H. assert (A : 0 < 2/5/t) by (apply Rdiv_lt_0_compat; lra).
  assert (B : 2/5/t < 9/10) by (apply Rmult_lt_reg_r with t; [lra|]; replace (2/5/t*t) with (2/5) by (field; lra); lra).
  split; nra.
Qed.

Lemma exC_rho_range t : 9/20 < t -> -1 < exC_rho0 t < 1 /\ 1 - exC_rho0 t * exC_rho0 t = (2/5/t) * (2/5/t).
Proof.
  intros H. pose proof (exC_range t H) as [A B]. unfold exC_rho0. pose proof (sqrt_lt_R0 _ A). pose proof (sqrt_sqrt _ (Rlt_le _ _ A)).
  split; [|lra]. split; [lra|]. apply Rlt_le_trans with (sqrt 1); [apply sqrt_lt_1_alt; lra|rewrite sqrt_1; lra].
Qed.

Lemma exC_integral r i j : -1 < r < 1 -> rho_integral r (exC_m i) (exC_m j) (exC_g i j) = 2/5 / sqrt (1 - r * r).
Proof.
  intros Hr. assert (P : 0 < 1 - r * r) by nra. pose proof (sqrt_lt_R0 _ P). pose proof PI_RGT_0.
  unfold rho_integral, sum2. cbn [exC_g exC_m g_k g_X1 g_X2 g_Z1 g_Z2 g_W g_detJ mg_mean mg_stdv fsum]. unfold ri_PHI2.
  replace (1 - r^2) with (1 - r * r) by ring.
  replace (-1 * / (2 * (1 - r * r)) * (0 ^ 2 - 2 * r * 0 * 0 + 0 ^ 2)) with 0 by ring. rewrite exp_0. field. lra.
Qed.

Example C46_instance : exists Lt Lit : R -> mat,
  let Ro := R2 (3/5) in let Rphys := R2 (1/2) in
  cholesky_factor 2 (exC_L (3/5)) Ro /\ inverse_pair 2 (exC_L (3/5)) (exC_Li (3/5)) /\ -1 < Ro 1%nat 0%nat < 1
  /\ locally (Rphys 1%nat 0%nat) (fun t => rho_integral (exC_rho0 t) (exC_m 1) (exC_m 0) (exC_g 1 0) = t)
  /\ exC_rho0 (Rphys 1%nat 0%nat) = Ro 1%nat 0%nat /\ ex_derive exC_rho0 (Rphys 1%nat 0%nat)
  /\ tiny < Rabs (drho_drho0 (Ro 1%nat 0%nat) (exC_m 1) (exC_m 0) (exC_g 1 0))
  /\ locally (Rphys 1%nat 0%nat) (fun t => cholesky_factor 2 (Lt t) (set_sym Ro 1 0 (exC_rho0 t)) /\ inverse_pair 2 (Lt t) (Lit t)).
Proof.
  exists (fun t => exC_L (exC_rho0 t)), (fun t => exC_Li (exC_rho0 t)). cbv zeta.
  change (R2 (1/2) 1%nat 0%nat) with (1/2). change (R2 (3/5) 1%nat 0%nat) with (3/5).
  assert (HL : locally (1/2) (fun t => 9/20 < t)).
  { exists (mkposreal (1/20) ltac:(lra)). intros y Hy. apply Rabs_def2 in Hy. cbn in Hy. unfold minus, plus, opp in Hy. cbn in Hy. lra. }
  destruct (exC_chol (3/5) (R2 (3/5)) ltac:(lra) ltac:(reflexivity)) as [C1 C2].
  split; [exact C1|]. split; [exact C2|]. split; [lra|]. split; [|split; [|split; [|split]]].
  - eapply filter_imp; [|exact HL]. intros t Ht. destruct (exC_rho_range t Ht) as [A B].
    rewrite exC_integral by exact A. rewrite B. rewrite sqrt_square; [field; lra|]. apply Rlt_le, Rdiv_lt_0_compat; lra.
  - unfold exC_rho0. replace (1 - 2/5/(1/2) * (2/5/(1/2))) with (3/5 * (3/5)) by field. apply sqrt_square. lra.
  - unfold exC_rho0. auto_derive. split; [lra|]. split; [lra|]. split; [|exact I].
    replace (1 + - (2/5 * / (1/2) * (2/5 * / (1/2)))) with (9/25) by field. lra.
  - assert (E : drho_drho0 (3/5) (exC_m 1) (exC_m 0) (exC_g 1 0) = 15/32).
    { pose proof PI_RGT_0. unfold drho_drho0, sum2. cbn [exC_g exC_m g_k g_X1 g_X2 g_Z1 g_Z2 g_W g_detJ mg_mean mg_stdv fsum].
      unfold dphi2_drho0, phi2.
      replace (sqrt (1 - (3/5)^2)) with (4/5).
      2:{ symmetry. replace (1 - (3/5)^2) with (4/5 * (4/5)) by field. apply sqrt_square. lra. }
      replace (- (0 ^ 2 - 2 * (3/5) * 0 * 0 + 0 ^ 2) / (2 * (1 - (3/5)^2))) with 0 by field. rewrite exp_0. field. lra. }
    rewrite E, Rabs_right by lra. apply Rle_lt_trans with (/ 10); [|lra].
    unfold tiny. apply Rinv_le_contravar; [lra|]. rewrite <- (pow_1 10) at 1. apply Rle_pow; [lra|lia].
  - eapply filter_imp; [|exact HL]. intros t Ht. destruct (exC_rho_range t Ht) as [A B].
    apply exC_chol; [exact A|]. intros [|[|i]] [|[|j]] Hi Hj; try lia; reflexivity.
Qed.

(** an SVD of [[1,3/5],[3/5,1]]: eigenvectors (1,1)/sqrt 2 and (1,-1)/sqrt 2, values 8/5 and 2/5 *)
Definition exS_U : mat := fun i j => if Nat.eqb i 1 && Nat.eqb j 1 then - / sqrt 2 else / sqrt 2.
Definition exS_D : vec := fun i => if Nat.eqb i 0 then 8/5 else 2/5.
Example C46_svd_instance : svd_of 2 exS_U exS_D exS_U (R2 (3/5))
  /\ drho0_drho exC_m (R2 (3/5)) exC_g 1 0 <> 0
  /\ exists A', inverse_pair 2 (mmul 2 exS_U (fun a b => sqrt (exS_D b) * meye a b)) A'.
Proof.
  assert (P : 0 < sqrt 2) by (apply sqrt_lt_R0; lra). pose proof (sqrt_sqrt 2 ltac:(lra)) as S.
  assert (I : / sqrt 2 * / sqrt 2 = 1/2) by (rewrite <- Rinv_mult, S; field).
  assert (O : inverse_pair 2 exS_U (mtrans exS_U)).
  { split; intros i j Hi Hj; (destruct i as [|[|i]]; [| |lia]); (destruct j as [|[|j]]; [| |lia]);
    unfold mmul, mtrans, exS_U, meye, delta; cbn [fsum Nat.eqb andb]; lra. }
  split; [|split].
  - split; [exact O|]. split; [exact O|]. split.
    + intros i _. unfold exS_D. destruct (Nat.eqb i 0); lra.
    + intros i j Hi Hj. (destruct i as [|[|i]]; [| |lia]); (destruct j as [|[|j]]; [| |lia]);
      unfold exS_U, exS_D, R2; cbn [fsum Nat.eqb andb]; lra.
  - destruct C46_instance as (Lt & Lit & H). cbv zeta in H. destruct H as (_ & _ & _ & _ & _ & _ & H & _).
    unfold drho0_drho. change (R2 (3/5) 1%nat 0%nat) with (3/5) in *.
    set (d := drho_drho0 _ _ _ _) in *. replace (Rltb tiny (Rabs d)) with true by (symmetry; apply Rltb_spec; exact H).
    assert (d <> 0). { intros Z. rewrite Z, Rabs_R0 in H. pose proof tiny_pos. lra. }
    unfold Rdiv. rewrite Rmult_1_l. apply Rinv_neq_0_compat. assumption.
  - assert (Q1 : 0 < sqrt (8/5)) by (apply sqrt_lt_R0; lra). assert (Q2 : 0 < sqrt (2/5)) by (apply sqrt_lt_R0; lra).
    exists (fun i j => / sqrt (exS_D i) * exS_U j i).
    split; intros i j Hi Hj; (destruct i as [|[|i]]; [| |lia]); (destruct j as [|[|j]]; [| |lia]);
    unfold mmul, mtrans, exS_U, exS_D, meye, delta; cbn [fsum Nat.eqb andb]; field_simplify_eq; try lra; try (repeat split; lra).
Qed.

(** C74: two independent normals; the parameter is the mean of the first one. *)
Definition exM (mu : R) : marg :=
  mkMarg mu 2 (fun z => mu + 2 * z) (fun x => phi ((x - mu) / 2) / 2) (fun _ x => - phi ((x - mu) / 2) / 2) (fun _ => (1, 0)).

Lemma phi_ge_tiny z : -6 <= z <= 6 -> 2 * tiny < phi z.
Proof.
  intros Hz. unfold phi.
  assert (A : exp (-18) <= exp (- (1 / 2) * (z * z))).
  { destruct (Req_dec (-18) (- (1 / 2) * (z * z))) as [->|N]; [lra|]. apply Rlt_le, exp_increasing.
    assert (z * z <= 36) by nra. lra. }
  assert (B : / 3 ^ 18 <= exp (-18)).
  { replace (-18) with (- (INR 18 * 1)) by (simpl; lra). rewrite exp_Ropp.
    apply Rinv_le_contravar; [apply exp_pos|].
    assert (P : forall n, exp (INR n * 1) <= 3 ^ n).
    { induction n as [|n IH]; [simpl; rewrite Rmult_0_l, exp_0; lra|].
      rewrite S_INR, Rmult_plus_distr_r, exp_plus. rewrite Rmult_1_l. cbn [pow]. rewrite (Rmult_comm 3).
      apply Rmult_le_compat; try (apply Rlt_le, exp_pos); [exact IH|exact exp_le_3]. }
    apply P. }
  assert (C : / 3 <= / sqrt (2 * PI)).
  { apply Rinv_le_contravar; [apply sqrt_lt_R0; pose proof PI_RGT_0; lra|].
    rewrite <- (sqrt_square 3) by lra. apply sqrt_le_1_alt. pose proof PI_4. lra. }
  apply Rlt_le_trans with (/ 3 ^ 18 * / 3).
  - assert (T : tiny <= / 10 ^ 30).
    { unfold tiny. apply Rinv_le_contravar; [apply pow_lt; lra|]. apply Rle_pow; [lra|lia]. }
    apply Rle_lt_trans with (2 * / 10 ^ 30); [lra|]. lra.
  - first [ apply Rmult_le_compat; try lra; apply Rlt_le, Rinv_0_lt_compat; lra
          | rewrite Rmult_comm; apply Rmult_le_compat; lra ].
Qed.

Lemma normal_path t0 z : quantile_path (fun t x => Phi ((x - t) / 2)) (fun t => t + 2 * z) t0 (- phi z / 2) (phi z / 2).
Proof.
  split; [|split].
  - exists (Phi z). apply filter_forall. intros t. f_equal. field.
  - auto_derive. exact I.
  - assert (L : differentiable_pt_lim (fun t x => (x - t) / 2) t0 (t0 + 2 * z) (- / 2) (/ 2)).
    { intros eps. exists (mkposreal 1 Rlt_0_1). intros u v _ _.
      replace ((v - u) / 2 - (t0 + 2 * z - t0) / 2 - (- / 2 * (u - t0) + / 2 * (v - (t0 + 2 * z)))) with 0 by field.
      rewrite Rabs_R0. apply Rmult_le_pos; [apply Rlt_le, eps|]. eapply Rle_trans; [apply Rabs_pos|apply Rmax_l]. }
    pose proof (differentiable_pt_lim_comp (fun a _ => Phi a) (fun t x => (x - t) / 2) (fun t x => (x - t) / 2) t0 (t0 + 2 * z)
       (phi z) 0 (- / 2) (/ 2) (- / 2) (/ 2)) as C.
    replace (- phi z / 2) with (phi z * - / 2 + 0 * - / 2) by field.
    replace (phi z / 2) with (phi z * / 2 + 0 * / 2) by field.
    apply C; [|exact L|exact L].
    apply differentiable_pt_lim_proj1_0. apply is_derive_Reals.
    replace ((t0 + 2 * z - t0) / 2) with z by field. apply Phi_derive.
Qed.

Example C74_instance : forall alpha : vec,
  let u_star : vec := fun i => if Nat.eqb i 0 then 1 else 2 in
  let x_star : vec := fun i => 5 + 2 * u_star i in
  is_derive (fun t => dot 2 alpha (mvec 2 meye (fun i => if Nat.eqb i 0 then ppf (Phi ((x_star 0%nat - t) / 2)) else mvec 2 meye u_star i))) 5
    (cf_marginal 2 alpha u_star x_star (fun _ => exM 5) meye meye meye meye (fun _ => meye) 0 "mean").
Proof.
  intros alpha u_star x_star.
  assert (EZ : mvec 2 meye u_star 0%nat = 1) by (rewrite mvec_eye by lia; reflexivity).
  assert (EI : inverse_pair 2 meye meye).
  { split; intros i j Hi Hj; apply mmul_eye_l; exact Hi. }
  assert (EC : cholesky_factor 2 meye meye).
  { split; [|split].
    - intros i j Hij. apply delta_neq. lia.
    - intros i _. unfold meye. rewrite delta_refl. lra.
    - intros i j Hi Hj. unfold meye.
      rewrite fsum_delta by exact Hi. apply delta_sym. }
  apply (C74_marginal_derivative 2 alpha u_star x_star (fun _ => exM 5) meye meye meye meye (fun _ => meye) 0 "mean" exM
           (fun t x => Phi ((x - t) / 2)) (fun _ => meye) (fun _ => meye) (fun _ => meye) 5); auto; cbv zeta.
  - cbn. lra.
  - rewrite EZ. f_equal. unfold x_star, u_star. cbn [Nat.eqb]. field.
  - cbn [exM mg_dF]. replace (- phi ((x_star 0%nat - 5) / 2) / 2) with (scal (- / 2) (phi ((x_star 0%nat - 5) / 2))) by (unfold scal; simpl; unfold mult; simpl; field).
    apply (is_derive_comp Phi (fun t => (x_star 0%nat - t) / 2)); [apply Phi_derive|]. auto_derive; [exact I|field].
  - rewrite EZ. pose proof (phi_ge_tiny 1 ltac:(lra)). pose proof tiny_pos. lra.
  - apply (is_derive_id 5).
  - apply (is_derive_const 2 5).
  - intros z Hz. cbn [exM mg_pdf mg_dF mg_u2x]. replace ((5 + 2 * z - 5) / 2) with z by field.
    split; [pose proof (phi_ge_tiny z ltac:(lra)); lra|]. apply normal_path.
  - intros t i _. apply delta_refl.
  - intros t i j _ _. apply delta_sym.
  - intros i j Hij Hi _. left. split; [|intros t]; apply delta_neq; lia.
  - apply filter_forall. intros t. split; assumption.
Qed.
