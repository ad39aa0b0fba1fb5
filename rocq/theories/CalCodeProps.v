(** C109: the code calibrated on a set of load cases meets the target in every one of them. *)
From Coquelicot Require Import Coquelicot.
From Verif Require Import Base Ext Gauss GaussProofs StochModel StochModelSpec StochModelProofs LimitState LimitStateSpec LimitStateProofs Transf TransfSpec TransfProofs Form FormProofs FormNormalProofs FormProps
  Nataf NatafProofs Dist RotSpec RotProofs RotProps Pipe PipeSpec PipeProofs PipeProps SensRunProofs SormRun SormRunProofs SormRunProps Dict LoadComb LoadCombSpec LoadCombProofs LoadCombProps
  LcRun LcRunSpec LcRunProofs LcRunProps Calib CalibSpec CalibProofs CalibProps CalibMatProofs CalibMatProps CalibLoopProps CalRun CalRunSpec CalRunProofs CalRunProps.
From Coq Require Import ZArith Lra Lia.
Open Scope list_scope.
Open Scope R_scope.

(** the index (m1 z - m2) / sqrt(q2 z^2 - 2 q1 z + q0) increases with z when load and resistance are not
    positively correlated (q1 <= 0) *)
Lemma index_mono m1 m2 q2 q1 q0 z1 z2 : 0 <= m1 -> 0 <= m2 -> q1 <= 0 -> 0 <= q2 -> 0 <= q0 -> (forall z, 0 < q2 * z ^ 2 - 2 * q1 * z + q0) -> 0 <= z1 <= z2 ->
  (m1 * z1 - m2) / sqrt (q2 * z1 ^ 2 - 2 * q1 * z1 + q0) <= (m1 * z2 - m2) / sqrt (q2 * z2 ^ 2 - 2 * q1 * z2 + q0).
Proof.
  intros M1 M2 Q1 Q2 Q0 HQ (Z1 & Z2). set (s1 := sqrt (q2 * z1 ^ 2 - 2 * q1 * z1 + q0)). set (s2 := sqrt (q2 * z2 ^ 2 - 2 * q1 * z2 + q0)).
  assert (S1 : 0 < s1) by apply sqrt_lt_R0, HQ. assert (S2 : 0 < s2) by apply sqrt_lt_R0, HQ.
  assert (E1 : s1 * s1 = q2 * z1 ^ 2 - 2 * q1 * z1 + q0) by (apply sqrt_sqrt; left; apply HQ). assert (E2 : s2 * s2 = q2 * z2 ^ 2 - 2 * q1 * z2 + q0) by (apply sqrt_sqrt; left; apply HQ).
  assert (L : s1 <= s2).
  { apply sqrt_le_1_alt. assert (z1 ^ 2 <= z2 ^ 2) by (apply pow_incr; lra). nra. }
  assert (K : z1 * s2 <= z2 * s1).
  { apply Rsqr_incr_0; [|apply Rmult_le_pos; lra|apply Rmult_le_pos; lra]. unfold Rsqr. replace (z1 * s2 * (z1 * s2)) with (z1 ^ 2 * (s2 * s2)) by ring. replace (z2 * s1 * (z2 * s1)) with (z2 ^ 2 * (s1 * s1)) by ring. rewrite E1, E2.
    assert (A : 0 <= z2 * z1 * (z2 - z1) * (- q1)) by (repeat apply Rmult_le_pos; lra). assert (z1 ^ 2 <= z2 ^ 2) by (apply pow_incr; lra). nra. }
  apply (Rmult_le_reg_r (s1 * s2)); [apply Rmult_lt_0_compat; lra|].
  replace ((m1 * z1 - m2) / s1 * (s1 * s2)) with (m1 * (z1 * s2) - m2 * s2) by (field; lra). replace ((m1 * z2 - m2) / s2 * (s1 * s2)) with (m1 * (z2 * s1) - m2 * s1) by (field; lra).
  assert (m1 * (z1 * s2) <= m1 * (z2 * s1)) by (apply Rmult_le_compat_l; lra). assert (m2 * s1 <= m2 * s2) by (apply Rmult_le_compat_l; lra). lra.
Qed.
Lemma lsum_nonneg {A} (g : A -> R) l : (forall v, In v l -> 0 <= g v) -> 0 <= lsum (map g l).
Proof. induction l as [|v l IH]; intros H; [right; reflexivity|]. cbn. apply Rplus_le_le_0_compat; [apply H; left; reflexivity|apply IH; intros w Hw; apply H; right; exact Hw]. Qed.
Lemma lsum_pos_ex {A} (g : A -> R) l : (forall v, In v l -> 0 <= g v) -> (exists v, In v l /\ 0 < g v) -> 0 < lsum (map g l).
Proof.
  induction l as [|v l IH]; intros H (w & Hw & P); [destruct Hw|]. cbn. pose proof (lsum_nonneg g l ltac:(intros u Hu; apply H; right; exact Hu)). pose proof (H v (or_introl eq_refl)).
  destruct Hw as [->|Hw]; [lra|]. pose proof (IH ltac:(intros u Hu; apply H; right; exact Hu) (ex_intro _ w (conj Hw P))). lra.
Qed.
Lemma fsum_nonpos n g : (forall i, (i < n)%nat -> g i <= 0) -> fsum n g <= 0.
Proof. induction n as [|n IH]; intros H; [right; reflexivity|]. cbn. pose proof (IH ltac:(intros i Hi; apply H; lia)). pose proof (H n ltac:(lia)). lra. Qed.

(** The variables of a case: positive standard deviations, means that are not negative, no resistance
    positively correlated with a load *)
Definition unfavourable (Rl Sl : list string) (mu sd : string -> R) (Ro : mat) : Prop :=
  (forall v, In v (Rl ++ Sl) -> 0 <= mu v /\ 0 < sd v) /\
  forall i j, (i < length Rl)%nat -> (length Rl <= j < length (Rl ++ Sl))%nat -> Ro i j <= 0.

Lemma margin_beta_mono fmin comb resist other corr kc leading Rl Ol Cl a b mu sd Ro z1 z2 :
  normal_case comb resist (opt_list other) kc leading Rl Ol Cl mu sd -> case_correlation fmin corr (Rl ++ Ol ++ Cl) mu sd Ro -> (exists s, In s (Ol ++ Cl) /\ b s <> 0) ->
  (forall v, In v Rl -> 0 <= a v) -> (forall v, In v (Ol ++ Cl) -> 0 <= b v) -> unfavourable Rl (Ol ++ Cl) mu sd Ro -> 0 <= z1 <= z2 ->
  margin_beta Rl (Ol ++ Cl) a b mu sd Ro z1 <= margin_beta Rl (Ol ++ Cl) a b mu sd Ro z2.
Proof.
  intros Hcase Hcorr Hb HA HB (HM & HR) Hz.
  pose proof (cs_Q fmin comb resist other corr kc leading Rl Ol Cl a b mu sd Ro Hcase Hcorr Hb) as HQ.
  pose proof (cs_V fmin comb resist other corr kc leading Rl Ol Cl a b mu sd Ro Hcase Hcorr Hb) as HV.
  unfold margin_beta, margin_mean. rewrite !HV. rewrite !(Rmult_comm _ (lsum (map (fun r => a r * mu r) Rl))).
  pose proof (cs_disc fmin comb resist other corr kc leading Rl Ol Cl a b mu sd Ro Hcase Hcorr Hb) as HD.
  set (q2 := bil _ _ (wP Rl (Ol ++ Cl) a) (wP Rl (Ol ++ Cl) a)) in *. set (q1 := bil _ _ (wP Rl (Ol ++ Cl) a) (wQ Rl (Ol ++ Cl) b)) in *. set (q0 := bil _ _ (wQ Rl (Ol ++ Cl) b) (wQ Rl (Ol ++ Cl) b)) in *.
  assert (Q0 : 0 < q0) by (pose proof (HQ 0) as H; cbn [pow] in H; lra).
  apply index_mono; try assumption.
  - apply lsum_nonneg. intros v Hv. apply Rmult_le_pos; [apply HA, Hv|apply HM, in_or_app; left; exact Hv].
  - apply lsum_nonneg. intros v Hv. apply Rmult_le_pos; [apply HB, Hv|apply HM, in_or_app; right; exact Hv].
  - unfold q1, bil. apply fsum_nonpos. intros i Hi. rewrite <- fsum_scal. apply fsum_nonpos. intros j Hj.
    assert (Li : In (label Rl (Ol ++ Cl) i) (Rl ++ Ol ++ Cl)) by (apply nth_In; exact Hi). assert (Lj : In (label Rl (Ol ++ Cl) j) (Rl ++ Ol ++ Cl)) by (apply nth_In; exact Hj).
    unfold wP, wQ, wK. destruct (in_dec string_dec (label Rl (Ol ++ Cl) i) Rl) as [Ii|Ii]; [|lra]. destruct (in_dec string_dec (label Rl (Ol ++ Cl) j) Rl) as [Ij|Ij]; [lra|].
    assert (Hi' : (i < length Rl)%nat).
    { destruct (lt_dec i (length Rl)) as [H|H]; [exact H|]. exfalso. unfold label in Ii. rewrite app_nth2 in Ii by lia. rewrite app_length in Hi.
      refine (nodup_app_disj Rl (Ol ++ Cl) _ _ Ii (nth_In _ _ _)); [destruct Hcase as (_ & _ & _ & H' & _); exact (nodup_app_r _ _ H')|lia]. }
    assert (Hj' : (length Rl <= j)%nat).
    { destruct (le_dec (length Rl) j) as [H|H]; [exact H|]. exfalso. apply Ij. unfold label. rewrite app_nth1 by lia. apply nth_In. lia. }
    pose proof (HR i j Hi' (conj Hj' Hj)) as Rn. pose proof (HA _ Ii) as Ai. pose proof (HB _ (or_ind (fun I => False_ind _ (Ij I)) (fun I => I) (in_app_or _ _ _ Lj))) as Bj.
    pose proof (proj2 (HM _ Li)) as Si. pose proof (proj2 (HM _ Lj)) as Sj.
    set (r := Ro i j) in *. set (si := sd (label Rl (Ol ++ Cl) i)) in *. set (sj := sd (label Rl (Ol ++ Cl) j)) in *. set (ai := a (label Rl (Ol ++ Cl) i)) in *. set (bj := b (label Rl (Ol ++ Cl) j)) in *.
    assert (0 <= ai * si * (sj * bj) * (- r)) by (apply Rmult_le_pos; [apply Rmult_le_pos; apply Rmult_le_pos; lra|lra]).
    replace (ai * (si * r * sj * bj)) with (- (ai * si * (sj * bj) * (- r))) by ring. lra.
  - assert (0 <= q2 * q0) by (pose proof (pow2_ge_0 q1); lra). nra.
  - lra.
Qed.

(** ** C109 The indices reported for a design are the exact indices of the margins of the cases *)
Theorem C109_indices_exact : forall fmin chol svd inv fuel lf expr f evn comb resist other corr kc cases l opts leading Rl Ol Cl a b mu sd Ro cvar,
  (forall n, In n (map fst cases) -> linear_calibration fmin chol svd inv fuel lf expr f comb resist other corr kc cases l opts n (leading n) Rl Ol Cl a b (mu n) (sd n) (Ro n) cvar) -> cases <> [] ->
  forall z, exists betas, calc_beta_design_param fmin chol svd inv fuel lf expr evn l opts cvar z = Ok betas /\ length betas = length cases /\
  forall i n, nth_error (map fst cases) i = Some n -> nth_error betas i = Some (margin_beta Rl (Ol ++ Cl) a b (mu n) (sd n) (Ro n) z).
Proof.
  intros fmin chol svd inv fuel lf expr f evn comb resist other corr kc cases l opts leading Rl Ol Cl a b mu sd Ro cvar HS Hne z.
  assert (EC : c_cases l = map fst cases).
  { destruct cases as [|[n0 v0] cs]; [contradiction|]. destruct (HS n0 (or_introl eq_refl)) as (Hl & _). apply init_ok in Hl. destruct Hl as (cs' & Ecs & EL & _). injection Ecs as <-.
    unfold c_cases, lc_label_cases, dict_keys. rewrite EL. reflexivity. }
  exists (map (fun n => margin_beta Rl (Ol ++ Cl) a b (mu n) (sd n) (Ro n) z) (map fst cases)). split; [|split].
  - unfold calc_beta_design_param. rewrite EC. apply mapM_ok. intros n Hn.
    destruct (C108_projection_is_newton _ _ _ _ _ _ _ _ evn _ _ _ _ _ _ _ _ _ _ _ _ _ _ _ _ _ _ _ (HS n Hn) z) as (fr & E & _ & EB & _). rewrite E. cbn [rbind]. rewrite EB. reflexivity.
  - rewrite !map_length. reflexivity.
  - intros i n Hi. rewrite nth_error_map, Hi. reflexivity.
Qed.
Print Assumptions C109_indices_exact.

(** ** C109 The index of a case does not fall when the design parameter grows *)
Theorem C109_index_increases : forall fmin chol svd inv fuel lf expr f evn comb resist other corr kc cases l opts leading Rl Ol Cl a b mu sd Ro cvar,
  (forall n, In n (map fst cases) -> linear_calibration fmin chol svd inv fuel lf expr f comb resist other corr kc cases l opts n (leading n) Rl Ol Cl a b (mu n) (sd n) (Ro n) cvar) -> cases <> [] ->
  (forall v, In v Rl -> 0 <= a v) -> (forall v, In v (Ol ++ Cl) -> 0 <= b v) ->
  (forall n, In n (map fst cases) -> unfavourable Rl (Ol ++ Cl) (mu n) (sd n) (Ro n)) ->
  forall z z', 0 <= z <= z' -> exists betas betas', calc_beta_design_param fmin chol svd inv fuel lf expr evn l opts cvar z = Ok betas /\
    calc_beta_design_param fmin chol svd inv fuel lf expr evn l opts cvar z' = Ok betas' /\ length betas = length cases /\ length betas' = length cases /\
    forall i be be', nth_error betas i = Some be -> nth_error betas' i = Some be' -> be <= be'.
Proof.
  intros fmin chol svd inv fuel lf expr f evn comb resist other corr kc cases l opts leading Rl Ol Cl a b mu sd Ro cvar HS Hne HA HB HU z z' Hz.
  destruct (C109_indices_exact _ _ _ _ _ _ _ _ evn _ _ _ _ _ _ _ _ _ _ _ _ _ _ _ _ _ _ HS Hne z) as (betas & E & L & V).
  destruct (C109_indices_exact _ _ _ _ _ _ _ _ evn _ _ _ _ _ _ _ _ _ _ _ _ _ _ _ _ _ _ HS Hne z') as (betas' & E' & L' & V').
  exists betas, betas'. split; [exact E|]. split; [exact E'|]. split; [exact L|]. split; [exact L'|]. intros i be be' H1 H2.
  destruct (nth_error (map fst cases) i) as [n|] eqn:En.
  - rewrite (V i n En) in H1. rewrite (V' i n En) in H2. injection H1 as <-. injection H2 as <-. apply nth_error_In in En. destruct (HS n En) as (_ & _ & _ & _ & Hcase & _ & Hcorr & Hb & _).
    exact (margin_beta_mono fmin comb resist other corr kc (leading n) Rl Ol Cl a b (mu n) (sd n) (Ro n) z z' Hcase Hcorr Hb HA HB (HU n En) Hz).
  - exfalso. apply nth_error_None in En. rewrite map_length, <- L in En. apply nth_error_None in En. congruence.
Qed.
Print Assumptions C109_index_increases.

(** the row of a case in the design-point table comes from one call of the calibration method *)
Lemma table_case lc lsf beta_t cvar rel fsolve m X : run_calibration lc lsf beta_t cvar rel fsolve m = Ok X -> NoDup (c_cases lc) ->
  exists (n0 : string) (f0 : formres) (z0 : R), In n0 (c_cases lc) /\ rel n0 z0 = Ok f0 /\
  forall n, In n (c_cases lc) -> exists sz z f, calibrate_case lc lsf beta_t rel fsolve m sz n = Ok (z, f) /\ t_val X n "z" = Some (zv z)
    /\ (NoDup (xstar_labels f0) -> forall k v, nth_error (xstar_labels f0) k = Some v -> v <> "z"%string -> t_val X n v = nth_error (fm_x f) k).
Proof.
  intros E NC. unfold run_calibration in E. destruct (calibrate_design_param lc lsf beta_t cvar rel fsolve m) as [l|] eqn:EC; cbn [rbind] in E; [|discriminate].
  assert (ST : forall i n, nth_error (c_cases lc) i = Some n -> exists sz z f, nth_error l i = Some (zv z, f) /\ calibrate_case lc lsf beta_t rel fsolve m sz n = Ok (z, f)).
  { pose proof EC as E'. unfold calibrate_design_param in E'. destruct (lc_const lc) as [cd|]; [|discriminate]. destruct (dict_get cd cvar) as [o|]; [|discriminate].
    destruct (get_value o) as [sz|]; cbn [rbind] in E'; [|discriminate]. destruct (mapM (calibrate_case lc lsf beta_t rel fsolve m sz) (c_cases lc)) as [l'|] eqn:EM; cbn [rbind] in E'; [|discriminate].
    destruct (mapM_inv _ _ _ EM) as [L N]. destruct l' as [|p l']; [discriminate|]. destruct (forallb _ (p :: l')); [|discriminate]. injection E' as E'.
    assert (E2 : l = map (fun q : zval * formres => (zv (fst q), snd q)) (p :: l')) by (symmetry; exact E'). clear E'. subst l.
    intros i n Hn. destruct (N i n Hn) as ([z f] & E1 & E3). exists sz, z, f. split; [rewrite (map_nth_error _ _ _ E1); reflexivity|exact E3]. }
  destruct (C60_stored_designs _ _ _ _ _ _ _ _ EC) as (L & Hne & _). unfold xstar_table in E. destruct l as [|[z0 f0] l]; [discriminate|].
  match type of E with (if ?g then _ else _) = _ => destruct g end; [|discriminate]. injection E as <-.
  destruct (c_cases lc) as [|n0 ns] eqn:ENS; [contradiction|]. exists n0, f0, z0. split; [left; reflexivity|]. split.
  { destruct (ST 0%nat n0 eq_refl) as (sz & z & f & E1 & E2). cbn in E1. injection E1 as Ez Ef. rewrite Ez, Ef. exact (calibrate_case_ok _ _ _ _ _ _ _ _ _ _ E2). }
  intros n Hn. apply In_nth_error in Hn. destruct Hn as [i Hi]. destruct (ST i n Hi) as (sz & z & f & E1 & E2). exists sz, z, f. split; [exact E2|]. cbn [t_val].
  rewrite (index_of_nodup n _ i NC Hi), E1. split; [reflexivity|]. intros ND k v Hk Nv. destruct (String.eqb_spec v "z"); [contradiction|]. rewrite (index_of_nodup v _ k ND Hk). reflexivity.
Qed.

(** ** C109 The calibrated code meets the target: with the envelope factors of the coefficient method (lowest
    resistance factor, greatest combination factor) the design of every case, computed from factors and
    nominal values only, has in EVERY case at least the index to which that case was calibrated -- the target
    itself with the root-finding method *)
Theorem C109_code_meets_target : forall fmin chol svd inv fuel lf expr f evn comb resist other corr kc cases l opts leading Rl Ol Cl a b mu sd Ro cvar beta_t fsolve m nom nv X x phi gamma psi,
  (forall n, In n (map fst cases) -> linear_calibration fmin chol svd inv fuel lf expr f comb resist other corr kc cases l opts n (leading n) Rl Ol Cl a b (mu n) (sd n) (Ro n) cvar) ->
  let Sl := Ol ++ Cl in
  let rel := rel_case fmin chol svd inv fuel lf expr evn l opts cvar in
  let g := fun kw => Ok (f kw) in
  (forall v, In v Rl -> 0 <= a v) -> (exists v, In v Rl /\ 0 < a v) -> (forall v, In v Sl -> 0 <= b v) ->
  (forall n, In n (map fst cases) -> unfavourable Rl Sl (mu n) (sd n) (Ro n)) -> ~ In "z"%string (Rl ++ Sl) ->
  cases <> [] -> map snd cases = map (fun v => [v]) Cl -> nominals nom (map fst cases) (Rl ++ Sl) nv ->
  run_calibration l g beta_t cvar rel fsolve m = Ok X -> table_of X (map fst cases) (Rl ++ Sl) x ->
  (forall n v, In n (map fst cases) -> In v (Rl ++ Sl) -> 0 < x n v /\ 0 < nv n v) ->
  calc_pg_coeff l nom X = Ok (phi, gamma, psi) ->
  exists zs calibrated, get_design_param_factor l g nom phi gamma psi true true = Ok zs /\ length zs = length cases /\ length calibrated = length cases /\
  (forall i n, nth_error (map fst cases) i = Some n -> exists z fr, t_val X n "z" = Some z /\ rel n z = Ok fr /\ nth_error calibrated i = Some (fm_beta fr) /\
     (m = MOptimize -> (forall h x0 y, fsolve h x0 = Ok y -> h y = Ok 0) -> fm_beta fr = beta_t)) /\
  forall z, (forall y, In y zs -> y <= z) -> exists betas, calc_beta_design_param fmin chol svd inv fuel lf expr evn l opts cvar z = Ok betas /\ length betas = length cases /\
    forall i be bc, nth_error betas i = Some be -> nth_error calibrated i = Some bc -> bc <= be.
Proof.
  intros fmin chol svd inv fuel lf expr f evn comb resist other corr kc cases l opts leading Rl Ol Cl a b mu sd Ro cvar beta_t fsolve m nom nv X x phi gamma psi HS Sl rel g HA HA0 HB HU Nz Hne HAl HN HX HT HP HF.
  assert (H0 : exists n0, In n0 (map fst cases)) by (destruct cases as [|[n0 v0] cs]; [contradiction|exists n0; left; reflexivity]). destruct H0 as (n0 & Hn0).
  destruct (HS n0 Hn0) as (Hl & Hcs & Hcomb & Hn & Hcase & Hlead & Hcorr & Hb & Hp & Hlin & Hcv & _).
  pose proof (cs_labels comb resist other corr kc cases l (leading n0) Rl Ol Cl (mu n0) (sd n0) Hl Hcase) as (LR & LO & LC).
  pose proof (cs_S comb resist other corr kc cases l (leading n0) Rl Ol Cl (mu n0) (sd n0) Hl Hcase) as LS. fold Sl in LS.
  pose proof (cs_wf comb resist other corr kc cases l (leading n0) Rl Ol Cl (mu n0) (sd n0) Hl Hcase Hlead) as W.
  pose proof (cs_consts_ok comb resist other corr kc cases l (leading n0) Rl Ol Cl (mu n0) (sd n0) cvar Hl Hcase Hcv) as CO.
  pose proof (cs_nd comb resist other kc (leading n0) Rl Ol Cl (mu n0) (sd n0) Hcase) as ND. fold Sl in ND.
  assert (ELC : lc_cases l = cases) by (apply init_ok in Hl; destruct Hl as (cs' & Ecs & EL & _); injection Ecs as <-; exact EL).
  assert (EC : c_cases l = map fst cases) by (unfold c_cases, lc_label_cases, dict_keys; rewrite ELC; reflexivity).
  destruct (table_case _ _ _ _ _ _ _ _ HX ltac:(rewrite EC; exact Hcs)) as (m0 & f0 & y0 & Hm0 & Em0 & TB). rewrite EC in TB, Hm0.
  assert (EL0 : xstar_labels f0 = Rl ++ Sl).
  { destruct (C108_projection_is_newton _ _ _ _ _ _ _ _ evn _ _ _ _ _ _ _ _ _ _ _ _ _ _ _ _ _ _ _ (HS m0 Hm0) y0) as (fr & E & _ & _ & _ & EL & _). unfold rel in Em0. rewrite Em0 in E. injection E as <-. exact EL. }
  rewrite EL0 in TB.
  assert (CZ : forall n, In n (map fst cases) -> exists z fr, t_val X n "z" = Some z /\ rel n z = Ok fr /\ fm_beta fr = margin_beta Rl Sl a b (mu n) (sd n) (Ro n) z /\
     z * lsum (map (fun r => a r * x n r) Rl) - lsum (map (fun s => b s * x n s) Sl) = 0 /\
     (m = MOptimize -> (forall h x0 y, fsolve h x0 = Ok y -> h y = Ok 0) -> fm_beta fr = beta_t)).
  { intros n Hin. destruct (TB n Hin) as (sz & z & fr & E1 & E2 & E3). pose proof (calibrate_case_ok _ _ _ _ _ _ _ _ _ _ E1) as ER. exists (zv z), fr. split; [exact E2|]. split; [exact ER|].
    destruct (C108_projection_is_newton _ _ _ _ _ _ _ _ evn _ _ _ _ _ _ _ _ _ _ _ _ _ _ _ _ _ _ _ (HS n Hin) (zv z)) as (fr' & E & _ & EB & (y & Ey & HL & _) & _).
    unfold rel in ER. rewrite ER in E. injection E as <-. split; [exact EB|]. split.
    - assert (EXY : forall v, In v (Rl ++ Sl) -> x n v = y v).
      { intros v Hv. destruct (In_nth_error _ _ Hv) as (k & Hk). pose proof (E3 ND k v Hk ltac:(intros ->; contradiction)) as T1. fold Sl in Ey. rewrite Ey, (map_nth_error _ _ _ Hk) in T1.
        destruct HT as (_ & HT). destruct (HT v Hv) as (_ & T2). rewrite (T2 n Hin) in T1. injection T1 as T1. exact T1. }
      rewrite <- HL. fold Sl. apply f_equal2; [apply f_equal|]; apply lsum_ext2; intros v Hv; f_equal; apply EXY, in_or_app; tauto.
    - intros -> HFS. cbn [calibrate_case] in E1. unfold calibration_optimize in E1. destruct (fsolve _ sz) as [zz|] eqn:EZ; cbn [rbind] in E1; [|discriminate]. pose proof (HFS _ _ _ EZ) as H. cbv beta in H.
      destruct (rel n zz) as [gg|]; cbn [rbind] in E1, H; [|discriminate]. injection E1 as _ <-. injection H as H. lra. }
  assert (LL : linear_lsf g cvar (c_R l) (c_S l) a b) by (rewrite LS, LR; exact Hlin).
  destruct (C76_envelope_design_conservative l g cvar 1 a b nom X x nv phi gamma psi W CO R1_neq_R0 LL) as (zs & EZ & LZ & CZS).
  - rewrite EC, LR, LS. exact HT.
  - rewrite EC, LR, LS. exact HN.
  - rewrite EC. exact Hcs.
  - unfold aligned. rewrite ELC, LC. exact HAl.
  - rewrite LR. exact HA.
  - rewrite LR. exact HA0.
  - rewrite LS. exact HB.
  - rewrite EC, LR, LS. exact HP.
  - exact HF.
  - rewrite EC, map_length in LZ. rewrite EC, LS, LR, Rabs_R1 in CZS.
    exists zs, (map (fun n => match t_val X n "z" with Some z => margin_beta Rl Sl a b (mu n) (sd n) (Ro n) z | None => 0 end) (map fst cases)).
    split; [exact EZ|]. split; [exact LZ|]. split; [rewrite !map_length; reflexivity|]. split.
    + intros i n Hi. destruct (CZ n (nth_error_In _ _ Hi)) as (z & fr & T & ER & EB & _ & HO). exists z, fr. split; [exact T|]. split; [exact ER|]. split; [|exact HO]. rewrite (map_nth_error _ _ _ Hi), T, EB. reflexivity.
    + intros z Hz. destruct (C109_indices_exact _ _ _ _ _ _ _ _ evn _ _ _ _ _ _ _ _ _ _ _ _ _ _ _ _ _ _ HS Hne z) as (betas & EBs & LB & VB).
      exists betas. split; [exact EBs|]. split; [exact LB|]. intros i be bc H1 H2. rewrite nth_error_map in H2. destruct (nth_error (map fst cases) i) as [n|] eqn:Ei; [|discriminate]. pose proof (nth_error_In _ _ Ei) as Hin.
      rewrite (VB i n Ei) in H1. injection H1 as <-. destruct (CZ n Hin) as (zc & fr & T & _ & _ & HLs & _). cbn [option_map] in H2. rewrite T in H2. injection H2 as <-.
      destruct (HS n Hin) as (_ & _ & _ & _ & Hcase' & _ & Hcorr' & Hb' & _).
      destruct (CZS i n Ei) as (zi & Ezi & Hzi). pose proof (Hz zi (nth_error_In _ _ Ezi)) as Hle.
      assert (PR : 0 < lsum (map (fun r => a r * x n r) Rl)).
      { apply lsum_pos_ex; [intros v Hv; apply Rmult_le_pos; [apply HA, Hv|left; apply HP; [exact Hin|apply in_or_app; left; exact Hv]]|]. destruct HA0 as (v & Hv & Pv). exists v. split; [exact Hv|]. apply Rmult_lt_0_compat; [exact Pv|]. apply HP; [exact Hin|apply in_or_app; left; exact Hv]. }
      assert (PS : 0 <= lsum (map (fun s => b s * x n s) Sl)) by (apply lsum_nonneg; intros v Hv; apply Rmult_le_pos; [apply HB, Hv|left; apply HP; [exact Hin|apply in_or_app; right; exact Hv]]).
      rewrite Rmult_1_l in Hzi. set (rr := lsum (map (fun r => a r * x n r) Rl)) in *. set (ss := lsum (map (fun s => b s * x n s) Sl)) in *.
      assert (Ezc : zc = ss / rr) by (apply (Rmult_eq_reg_r rr); [unfold Rdiv; rewrite Rmult_assoc, Rinv_l, Rmult_1_r by lra; lra|lra]).
      assert (P0 : 0 <= zc) by (rewrite Ezc; apply Rmult_le_pos; [exact PS|left; now apply Rinv_0_lt_compat]).
      refine (margin_beta_mono fmin comb resist other corr kc (leading n) Rl Ol Cl a b (mu n) (sd n) (Ro n) zc z Hcase' Hcorr' Hb' HA HB (HU n Hin) (conj P0 _)). rewrite Ezc. lra.
Qed.
Print Assumptions C109_code_meets_target.

(** with a positive correlation of load and resistance a larger design parameter can lower the index:
    R ~ N(10, 1), Q ~ N(4, 1), correlation 1/2, designs 8 and 16 *)
Definition cp_comb : list (string * list (string * obj)) := [("Q", [("max", ODist (Normal "Q" 4 1)); ("pit", ODist (Normal "Q" 4 1))])]%string.
Definition cp_mu (v : string) : R := if string_dec v "R" then 10 else 4.
Definition cp_Ro : mat := fun i j => if Nat.eq_dec i j then 1 else / 2.
Definition cp_frame : frame := mkFrame ["R"; "Q"]%string ["R"; "Q"]%string cp_Ro.
Theorem C109_positive_correlation_refuted : exists fmin fuel lf expr f comb resist other corr kc cases l opts leading Rl Ol Cl a b mu sd Ro cvar z z' be be',
  linear_calibration fmin chol2 svd2 inv2 fuel lf expr f comb resist other corr kc cases l opts "peak" leading Rl Ol Cl a b mu sd Ro cvar /\ map fst cases = ["peak"%string] /\
  (forall v, In v Rl -> 0 < a v) /\ (forall v, In v (Ol ++ Cl) -> 0 < b v) /\ (forall v, In v (Rl ++ Ol ++ Cl) -> 0 < mu v /\ 0 < sd v) /\
  0 < z < z' /\ calc_beta_design_param fmin chol2 svd2 inv2 fuel lf expr None l opts cvar z = Ok [be] /\ calc_beta_design_param fmin chol2 svd2 inv2 fuel lf expr None l opts cvar z' = Ok [be'] /\ be' < be.
Proof.
  set (fmin := fun (_ : R -> R) (x0 : R) => x0).
  destruct (lc_init cp_comb [ODist (Normal "R" 10 1)] None (Some cp_frame) (Some (constants [("z"%string, 1)])) (Some cr_cases)) as [l|] eqn:EL; [|discriminate].
  destruct (modified_ok fmin 2 (mat_of (corr_rows cp_frame ["R"; "Q"]%string)) (fun i => marg_of (nth i (map (fun v => Normal v (cp_mu v) 1) ["R"; "Q"]%string) rv0)) 2 (le_n 2)) as (Ro' & EM & D & S & L & _).
  assert (R10 : Ro' 1%nat 0%nat = / 2).
  { rewrite L by lia. unfold pair_value. replace (mat_of (corr_rows cp_frame ["R"; "Q"]%string) 1%nat 0%nat) with (/ 2) by reflexivity.
    replace (Reqb (/ 2) 0) with false by (symmetry; apply Reqb_false; lra). reflexivity. }
  assert (R01 : Ro' 0%nat 1%nat = / 2) by (rewrite S; exact R10).
  assert (R00 : Ro' 0%nat 0%nat = 1) by apply D. assert (R11 : Ro' 1%nat 1%nat = 1) by apply D.
  assert (HS : linear_calibration fmin chol2 svd2 inv2 101 10 cr_expr cr_g cp_comb [ODist (Normal "R" 10 1)] None (Some cp_frame) [("z"%string, 1)] cr_cases l
    (Some (None, default_options)) "peak" ["Q"%string] ["R"%string] [] ["Q"%string] (fun _ => 1) (fun _ => 1) cp_mu (fun _ => 1) Ro' "z").
  { split; [exact EL|]. split; [cbn; repeat constructor; cbn; intuition discriminate|]. split; [cbn; repeat constructor; cbn; intuition discriminate|]. split; [reflexivity|]. split.
    { split; [reflexivity|]. split; [reflexivity|]. split; [reflexivity|]. split; [cbn; repeat constructor; cbn; intuition discriminate|]. intros v _. lra. }
    split; [intros m vrs v [E|[]] Hv; injection E as <- <-; exact Hv|]. split.
    { split; [split; [cbn; repeat constructor; cbn; intuition discriminate|split; [cbn; repeat constructor; cbn; intuition discriminate|cbn; tauto]]|]. split.
      - intros v (i & Hi & Nv). cbn. rewrite R10, R01, R00, R11. cbn in Hi.
        assert (v 0%nat <> 0 \/ v 1%nat <> 0) by (destruct i as [|[|i]]; [left; exact Nv|right; exact Nv|lia]).
        assert (P : 0 < (v 0%nat + v 1%nat / 2) ^ 2 + 3 / 4 * v 1%nat ^ 2).
        { pose proof (pow2_ge_0 (v 0%nat + v 1%nat / 2)). pose proof (pow2_ge_0 (v 1%nat)). destruct (Req_dec (v 1%nat) 0) as [E|E].
          - rewrite E in *. destruct H as [H|H]; [|contradiction]. pose proof (pow2_gt_0 _ H). nra.
          - pose proof (pow2_gt_0 _ E). lra. }
        match goal with |- _ < ?q => replace q with ((v 0%nat + v 1%nat / 2) ^ 2 + 3 / 4 * v 1%nat ^ 2) by field end. exact P.
      - eexists. exact EM. }
    split; [exists "Q"%string; split; [left; reflexivity|lra]|]. split; [exact cr_pointwise|]. split.
    { intros args z x Hz Hx. unfold cr_g, cr_get. rewrite Hz, (Hx "R"%string), (Hx "Q"%string) by (cbn; tauto). cbn. f_equal. ring. }
    split; [left; reflexivity|]. split; [exists ERuntime; exact lapack2|]. split; [exists aF; reflexivity|]. split; [exact default_exact|]. split; [cbn; lia|cbn; lia]. }
  assert (BV : forall z, margin_beta ["R"%string] ([] ++ ["Q"%string]) (fun _ => 1) (fun _ => 1) cp_mu (fun _ => 1) Ro' z = (10 * z - 4) / sqrt (z ^ 2 - z + 1)).
  { intros z. unfold margin_beta, margin_mean, margin_var, weight, label. cbn -[sqrt pow]. rewrite R10, R01, R00, R11. unfold cp_mu. cbn -[sqrt pow]. f_equal; [ring|]. f_equal. field. }
  assert (HS' : forall n, In n (map fst cr_cases) -> linear_calibration fmin chol2 svd2 inv2 101 10 cr_expr cr_g cp_comb [ODist (Normal "R" 10 1)] None (Some cp_frame) [("z"%string, 1)] cr_cases l
    (Some (None, default_options)) n ["Q"%string] ["R"%string] [] ["Q"%string] (fun _ => 1) (fun _ => 1) cp_mu (fun _ => 1) Ro' "z") by (intros n [<-|[]]; exact HS).
  assert (G : forall z, calc_beta_design_param fmin chol2 svd2 inv2 101 10 cr_expr None l (Some (None, default_options)) "z" z = Ok [(10 * z - 4) / sqrt (z ^ 2 - z + 1)]).
  { intros z. destruct (C109_indices_exact fmin chol2 svd2 inv2 101%nat 10%nat cr_expr cr_g None cp_comb _ None (Some cp_frame) _ cr_cases l _ (fun _ => ["Q"%string]) _ _ _ _ _ (fun _ => cp_mu) (fun _ _ => 1) (fun _ => Ro') _ HS' ltac:(discriminate) z) as (bs & Eb & Lb & Vb).
    rewrite Eb. specialize (Vb 0%nat "peak"%string eq_refl). rewrite BV in Vb. destruct bs as [|b0 [|? ?]]; try discriminate. cbn in Vb. injection Vb as ->. reflexivity. }
  exists fmin, 101%nat, 10%nat, cr_expr, cr_g, cp_comb, [ODist (Normal "R" 10 1)], None, (Some cp_frame), [("z"%string, 1)], cr_cases, l, (Some (None, default_options)), ["Q"%string], ["R"%string], [], ["Q"%string], (fun _ => 1), (fun _ => 1), cp_mu, (fun _ => 1), Ro', "z"%string, 8, 16.
  eexists. eexists. split; [exact HS|]. split; [reflexivity|]. split; [intros; lra|]. split; [intros; lra|]. split; [intros v _; split; [unfold cp_mu; destruct (string_dec v "R"); lra|lra]|]. split; [lra|].
  split; [apply G|]. split; [apply G|]. clear.
  replace (8 ^ 2 - 8 + 1) with 57 by ring. replace (16 ^ 2 - 16 + 1) with 241 by ring.
  assert (S1 : 0 < sqrt 57) by (apply sqrt_lt_R0; lra). assert (S2 : 0 < sqrt 241) by (apply sqrt_lt_R0; lra).
  assert (E1 : sqrt 57 * sqrt 57 = 57) by (apply sqrt_sqrt; lra). assert (E2 : sqrt 241 * sqrt 241 = 241) by (apply sqrt_sqrt; lra).
  apply (Rmult_lt_reg_r (sqrt 57 * sqrt 241)); [apply Rmult_lt_0_compat; assumption|].
  replace ((10 * 16 - 4) / sqrt 241 * (sqrt 57 * sqrt 241)) with (156 * sqrt 57) by (field; lra). replace ((10 * 8 - 4) / sqrt 57 * (sqrt 57 * sqrt 241)) with (76 * sqrt 241) by (field; lra).
  apply Rsqr_incrst_0; [|lra|lra]. unfold Rsqr. nra.
Qed.
Print Assumptions C109_positive_correlation_refuted.

(** *** Non-vacuity: the problem of C108_example, calibrated by a root finder to the target 2: the code
    designs with 2 and every larger design has at least the index 2 *)
Definition ce_solve (h : R -> result R) (_ : R) : result R := match h 2 with Ok v => if Req_EM_T v 0 then Ok 2 else Err ERuntime | Err e => Err e end.
Definition ce_nom : list (string * (string -> R)) := [("R", fun _ => 8); ("Q", fun _ => 12)]%string.
Example C109_example : forall fmin, exists l X phi gamma psi zs, cr_init = Ok l /\
  run_calibration l (fun kw => Ok (cr_g kw)) 2 "z" (rel_case fmin chol2 svd2 inv2 101 10 cr_expr None l (Some (None, default_options)) "z") ce_solve MOptimize = Ok X /\
  calc_pg_coeff l ce_nom X = Ok (phi, gamma, psi) /\ get_design_param_factor l (fun kw => Ok (cr_g kw)) ce_nom phi gamma psi true true = Ok zs /\
  forall z, (forall y, In y zs -> y <= z) -> exists be, calc_beta_design_param fmin chol2 svd2 inv2 101 10 cr_expr None l (Some (None, default_options)) "z" z = Ok [be] /\ 2 <= be.
Proof.
  intros fmin. destruct (cr_setup fmin) as (l & EL & HS & LR & LS).
  set (rel := rel_case fmin chol2 svd2 inv2 101 10 cr_expr None l (Some (None, default_options)) "z").
  destruct (C108_projection_is_newton _ _ _ _ _ _ _ _ None _ _ _ _ _ _ _ _ _ _ _ _ _ _ _ _ _ _ _ HS 2) as (fr & E & PV & EB & (x & EX & _ & HX) & EXL & _).
  assert (V2 : margin_var ["R"%string] ["Q"%string] (fun _ => 1) (fun _ => 1) cr_sd (fun i j => if Nat.eq_dec i j then 1 else 0) 2 = 25).
  { unfold margin_var, weight, label, cr_sd. cbn. ring. }
  assert (EB2 : fm_beta fr = 2).
  { rewrite EB. unfold margin_beta. cbn [app]. rewrite V2. replace (sqrt 25) with 5 by (symmetry; replace 25 with (Rsqr 5) by (unfold Rsqr; ring); apply sqrt_Rsqr; lra). unfold margin_mean. cbn. field. }
  assert (XR : x "R"%string = 6.8).
  { pose proof (HX 0%nat ltac:(cbn; lia)) as H. cbn [app] in H. rewrite V2 in H. unfold margin_mean, margin_cov, weight, label, cr_sd in H. cbn in H. lra. }
  assert (XQ : x "Q"%string = 13.6).
  { pose proof (HX 1%nat ltac:(cbn; lia)) as H. cbn [app] in H. rewrite V2 in H. unfold margin_mean, margin_cov, weight, label, cr_sd in H. cbn in H. lra. }
  cbn [app map] in EX, EXL. fold rel in E.
  assert (FS : forall h x0 y, ce_solve h x0 = Ok y -> h y = Ok 0).
  { intros h x0 y H. unfold ce_solve in H. destruct (h 2) as [v|] eqn:Eh; [|discriminate]. destruct (Req_EM_T v 0) as [->|]; [|discriminate]. injection H as <-. exact Eh. }
  assert (SV : forall z0, ce_solve (fun z => rbind (rel "peak"%string z) (fun f => Ok (2 - fm_beta f))) z0 = Ok 2).
  { intros z0. unfold ce_solve. rewrite E. cbn [rbind]. rewrite EB2. destruct (Req_EM_T (2 - 2) 0) as [|H]; [reflexivity|exfalso; apply H; ring]. }
  assert (EC : c_cases l = ["peak"%string] /\ exists cd, lc_const l = Some cd /\ dict_get cd "z" = Some (OConst "z" 1)).
  { cbn in EL. injection EL as <-. split; [reflexivity|]. eexists. split; reflexivity. }
  destruct EC as (EC & cd & Ecd & Ez).
  assert (RC : exists X, run_calibration l (fun kw => Ok (cr_g kw)) 2 "z" rel ce_solve MOptimize = Ok X /\ t_rows X = ["peak"%string] /\ t_cols X = ["R"; "Q"; "z"]%string /\
    t_val X "peak"%string "R"%string = Some 6.8 /\ t_val X "peak"%string "Q"%string = Some 13.6).
  { unfold run_calibration, calibrate_design_param. rewrite Ecd, Ez, EC. cbn [get_value rbind mapM calibrate_case]. unfold calibration_optimize. rewrite SV. cbn [rbind]. rewrite E. cbn [rbind forallb is_arr fst snd map zv andb].
    unfold xstar_table. rewrite EXL, EC. cbn [snd forallb]. rewrite EX. cbn [length Nat.eqb andb]. eexists. split; [reflexivity|]. split; [reflexivity|]. split; [reflexivity|]. cbn. rewrite EX. cbn. rewrite XR, XQ. split; reflexivity. }
  destruct RC as (X & RC & TR & TC & T1 & T2).
  set (xv := fun (_ v : string) => if string_dec v "R" then 6.8 else 13.6). set (nv := fun (_ v : string) => if string_dec v "R" then 8 else 12).
  assert (HT : table_of X ["peak"%string] (["R"%string] ++ [] ++ ["Q"%string]) xv).
  { split; [exact TR|]. intros v [<-|[<-|[]]]; (split; [rewrite TC; cbn; tauto|]); intros n [<-|[]]; assumption. }
  assert (HN : nominals ce_nom ["peak"%string] (["R"%string] ++ [] ++ ["Q"%string]) nv).
  { intros v [<-|[<-|[]]]; eexists; (split; [reflexivity|]); intros n _; (split; [reflexivity|cbn; lra]). }
  assert (HT' : table_of X (c_cases l) (c_R l ++ c_S l) xv) by (rewrite EC, LR, LS; exact HT).
  assert (HN' : nominals ce_nom (c_cases l) (c_R l ++ c_S l) nv) by (rewrite EC, LR, LS; exact HN).
  pose proof HS as (Hl & Hcs & Hcomb & Hn & Hcase & Hlead & _).
  destruct (C57_coefficient_factors l ce_nom X xv nv (cs_wf _ _ _ _ _ _ _ _ _ _ _ _ _ Hl Hcase Hlead) HT' HN') as (phi & gamma & psi & EP & _).
  destruct (C109_code_meets_target fmin chol2 svd2 inv2 101%nat 10%nat cr_expr cr_g None cr_comb [ODist (Normal "R" 10 2)] None None [("z"%string, 1)] cr_cases l (Some (None, default_options)) (fun _ => ["Q"%string]) ["R"%string] [] ["Q"%string] (fun _ => 1) (fun _ => 1) (fun _ _ => 10) (fun _ => cr_sd) (fun _ i j => if Nat.eq_dec i j then 1 else 0) "z"%string 2 ce_solve MOptimize ce_nom nv X xv phi gamma psi)
    as (zs & cal & EG & _ & LC & HC & HB).
  - intros n [<-|[]]. exact HS.
  - intros; lra.
  - exists "R"%string. split; [left; reflexivity|lra].
  - intros; lra.
  - intros n _. split; [intros v _; split; [lra|unfold cr_sd; destruct (string_dec v "R"); lra]|]. intros i j Hi Hj. cbn in Hi, Hj. destruct (Nat.eq_dec i j); [lia|lra].
  - cbn. intuition discriminate.
  - discriminate.
  - reflexivity.
  - exact HN.
  - exact RC.
  - exact HT.
  - intros n v _ _. unfold xv, nv. destruct (string_dec v "R"); lra.
  - exact EP.
  - exists l, X, phi, gamma, psi, zs. split; [exact EL|]. split; [exact RC|]. split; [exact EP|]. split; [exact EG|]. intros z Hz. destruct (HB z Hz) as (bs & Eb & Lb & Hb).
    destruct bs as [|b0 [|? ?]]; try discriminate. exists b0. split; [exact Eb|]. destruct (HC 0%nat "peak"%string eq_refl) as (zc & fc & _ & _ & Ec & HO). rewrite <- (HO eq_refl FS). exact (Hb 0%nat b0 (fm_beta fc) eq_refl Ec).
Qed.
