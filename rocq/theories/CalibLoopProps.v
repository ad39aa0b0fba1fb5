(** C60: the calibration loops.  C76: envelope designs are conservative. *)
From Verif Require Import Base StochModel StochModelSpec StochModelProofs Dict LoadComb LoadCombSpec LoadCombProofs LoadCombProps Calib CalibSpec CalibProofs CalibProps CalibMatProofs CalibMatProps.
Open Scope list_scope.
Open Scope R_scope.

(** converged, in the sense of numpy.isclose *)
Definition close_to (beta_t abstol : R) (f : formres) : Prop := Rabs (fm_beta f - beta_t) <= abstol + 1e-5 * Rabs beta_t.

(** k projections lead from the start (z0, f0) to (z, f): while not converged, the next
    design parameter is the projection of the current analysis and the next analysis is the
    one at that parameter *)
Inductive projected (rel : R -> result formres) (proj : formres -> result R) (conv : formres -> Prop) (z0 : R) (f0 : formres) : nat -> R -> formres -> Prop :=
| pr_start : projected rel proj conv z0 f0 0 z0 f0
| pr_step k z f z' f' : projected rel proj conv z0 f0 k z f -> ~ conv f -> proj f = Ok z' -> rel z' = Ok f' -> projected rel proj conv z0 f0 (S k) z' f'.

Lemma isclose_spec b bt tol : isclose b bt tol = true <-> Rabs (b - bt) <= tol + 1e-5 * Rabs bt.
Proof. unfold isclose. rewrite Rleb_spec. replace (1e-5) with (/ 100000) by lra. reflexivity. Qed.

Lemma alpha_loop_spec lc lsf beta_t rel max_iter abstol cols lcn z0 f0 : forall fuel k z f,
  projected (rel lcn) (project lc lsf beta_t cols) (close_to beta_t abstol) z0 f0 k (zv z) f -> (k = 0%nat -> z = ZScalar z0) -> (k <> 0%nat -> is_arr z = true) ->
  (max_iter <= k + fuel)%nat -> (k < max_iter)%nat ->
  match alpha_loop lc lsf beta_t rel fuel k max_iter abstol cols lcn z f with
  | Err e => exists k' z' f', (k' < max_iter)%nat /\ projected (rel lcn) (project lc lsf beta_t cols) (close_to beta_t abstol) z0 f0 k' z' f' /\ ~ close_to beta_t abstol f'
             /\ (project lc lsf beta_t cols f' = Err e \/ exists z'', project lc lsf beta_t cols f' = Ok z'' /\ rel lcn z'' = Err e)
  | Ok None => False
  | Ok (Some (k', z', f')) =>
      projected (rel lcn) (project lc lsf beta_t cols) (close_to beta_t abstol) z0 f0 k' (zv z') f' /\ (k' <= max_iter)%nat
      /\ (close_to beta_t abstol f' \/ k' = max_iter) /\ (k' = 0%nat -> z' = ZScalar z0) /\ (k' <> 0%nat -> is_arr z' = true)
  end.
Proof.
  induction fuel as [|fuel IH]; intros k z f P Hz Hz' HF HK; cbn [alpha_loop]; destruct (isclose (fm_beta f) beta_t abstol) eqn:E.
  1,3: apply isclose_spec in E; repeat split; try assumption; [lia|left; exact E].
  - lia.
  - assert (NC : ~ close_to beta_t abstol f). { intros H. apply isclose_spec in H. congruence. }
    destruct (project lc lsf beta_t cols f) as [z1|e] eqn:EP; cbn [rbind].
    + destruct (rel lcn z1) as [f1|e] eqn:ER; cbn [rbind].
      * pose proof (pr_step _ _ _ _ _ k (zv z) f z1 f1 P NC EP ER) as P'. destruct (Nat.eqb_spec (S k) max_iter) as [EM|NM].
        -- repeat split; [exact P'|lia|right; exact EM|discriminate].
        -- apply IH; [exact P'|discriminate|reflexivity|lia|lia].
      * exists k, (zv z), f. repeat split; try assumption. right. exists z1. split; assumption.
    + exists k, (zv z), f. repeat split; try assumption. left. exact EP.
Qed.

(** ** C60 The alpha-projection loop terminates, and returns the analysis belonging to the
    returned design parameter *)
Theorem C60_alpha_loop : forall lc lsf beta_t rel z0 abstol max_iter lcn f0 fuel, (1 <= max_iter)%nat -> (max_iter <= fuel)%nat ->
  rel lcn z0 = Ok f0 ->
  let proj := project lc lsf beta_t (xstar_labels f0) in
  match calibration_alpha lc lsf beta_t rel fuel z0 abstol max_iter lcn with
  | Ok (Some (k, z, f)) =>
      (k <= max_iter)%nat /\ projected (rel lcn) proj (close_to beta_t abstol) z0 f0 k (zv z) f /\ rel lcn (zv z) = Ok f
      /\ (close_to beta_t abstol f \/ k = max_iter) /\ (k = 0%nat -> z = ZScalar z0) /\ (k <> 0%nat -> is_arr z = true)
  | Ok None => False
  | Err e => exists k z f, (k < max_iter)%nat /\ projected (rel lcn) proj (close_to beta_t abstol) z0 f0 k z f /\ ~ close_to beta_t abstol f
             /\ (proj f = Err e \/ exists z', proj f = Ok z' /\ rel lcn z' = Err e)
  end.
Proof.
  intros lc lsf beta_t rel z0 abstol max_iter lcn f0 fuel H1 H2 H0 proj. unfold calibration_alpha. rewrite H0. cbn [rbind].
  pose proof (alpha_loop_spec lc lsf beta_t rel max_iter abstol (xstar_labels f0) lcn z0 f0 fuel 0 (ZScalar z0) f0 (pr_start _ _ _ _ _) (fun _ => eq_refl) (fun N => False_ind _ (N eq_refl)) ltac:(lia) ltac:(lia)) as S.
  destruct (alpha_loop lc lsf beta_t rel fuel 0 max_iter abstol (xstar_labels f0) lcn (ZScalar z0) f0) as [[[[k z] f]|]|e]; [|exact S|exact S].
  destruct S as (P & L & D & Z1 & Z2). split; [exact L|]. split; [exact P|]. split; [|repeat split; assumption]. clear - P H0. revert P. generalize (zv z). intros y P. inversion P; subst; assumption.
Qed.
Print Assumptions C60_alpha_loop.

(** the bound is disabled by max_iter = 0: a never-converging loop does not end *)
Theorem C60_zero_max_iter_diverges : forall lc lsf beta_t rel z0 abstol lcn f0, rel lcn z0 = Ok f0 ->
  (forall z f, rel lcn z = Ok f -> ~ close_to beta_t abstol f) -> (forall z f, rel lcn z = Ok f -> exists z', project lc lsf beta_t (xstar_labels f0) f = Ok z') ->
  (forall z, exists f, rel lcn z = Ok f) ->
  forall fuel, calibration_alpha lc lsf beta_t rel fuel z0 abstol 0 lcn = Ok None.
Proof.
  intros lc lsf beta_t rel z0 abstol lcn f0 H0 HN HP HR fuel. unfold calibration_alpha. rewrite H0. cbn [rbind]. 
  assert (G : forall fuel f zz, rel lcn zz = Ok f -> forall k z, alpha_loop lc lsf beta_t rel fuel k 0 abstol (xstar_labels f0) lcn z f = Ok None).
  { clear fuel. induction fuel as [|fuel IH]; intros f zz Hf k z; cbn [alpha_loop]; (destruct (isclose (fm_beta f) beta_t abstol) eqn:E; [exfalso; apply isclose_spec in E; exact (HN zz f Hf E)|]); [reflexivity|].
    destruct (HP zz f Hf) as [z' ->]. cbn [rbind]. destruct (HR z') as [f' E']. rewrite E'. cbn [rbind Nat.eqb]. apply (IH f' z' E'). }
  apply (G fuel f0 z0 H0).
Qed.
Print Assumptions C60_zero_max_iter_diverges.

(** whatever the method, the stored analysis of every case is the one at the stored value *)
Lemma calibrate_case_ok lc lsf beta_t rel fsolve m sz n z f : calibrate_case lc lsf beta_t rel fsolve m sz n = Ok (z, f) -> rel n (zv z) = Ok f.
Proof.
  unfold calibrate_case. destruct m.
  - unfold calibration_optimize. destruct (fsolve _ sz) as [zz|]; cbn [rbind]; [|discriminate]. destruct (rel n zz) as [g|] eqn:E; cbn [rbind]; [|discriminate]. injection 1 as <- <-. exact E.
  - destruct (rel n sz) as [f0|] eqn:E0.
    + pose proof (C60_alpha_loop lc lsf beta_t rel sz (/ 10000) 100 n f0 100 ltac:(lia) ltac:(lia) E0) as A. cbv zeta in A.
      destruct (calibration_alpha lc lsf beta_t rel 100 sz (/ 10000) 100 n) as [[[[k z1] f1]|]|]; cbn [rbind]; try discriminate. injection 1 as <- <-. tauto.
    + unfold calibration_alpha. rewrite E0. discriminate.
  - discriminate.
Qed.

Theorem C60_stored_designs : forall lc lsf beta_t cvar rel fsolve m l, calibrate_design_param lc lsf beta_t cvar rel fsolve m = Ok l ->
  List.length l = List.length (c_cases lc) /\ c_cases lc <> []
  /\ forall i n, nth_error (c_cases lc) i = Some n -> exists z f, nth_error l i = Some (z, f) /\ rel n z = Ok f.
Proof.
  intros lc lsf beta_t cvar rel fsolve m l E. unfold calibrate_design_param in E. destruct (lc_const lc) as [cd|]; [|discriminate]. destruct (dict_get cd cvar) as [o|]; [|discriminate].
  destruct (get_value o) as [sz|]; cbn [rbind] in E; [|discriminate]. destruct (mapM (calibrate_case lc lsf beta_t rel fsolve m sz) (c_cases lc)) as [l'|] eqn:EM; cbn [rbind] in E; [|discriminate].
  destruct (mapM_inv _ _ _ EM) as [L N]. destruct l' as [|p l']; [discriminate|]. destruct (forallb _ (p :: l')); [|discriminate]. injection E as E.
  assert (E' : l = map (fun q : zval * formres => (zv (fst q), snd q)) (p :: l')) by (symmetry; exact E). clear E. subst l. split; [rewrite map_length; exact L|]. split; [intros K; rewrite K in L; discriminate|].
  intros i n Hn. destruct (N i n Hn) as ([z f] & E1 & E2). exists (zv z), f. split; [rewrite (map_nth_error _ _ _ E1); reflexivity|]. exact (calibrate_case_ok _ _ _ _ _ _ _ _ _ _ E2).
Qed.
Print Assumptions C60_stored_designs.

(** the design-point table of run(): row n holds the design point at the calibrated value *)
Theorem C60_design_point_table : forall lc lsf beta_t cvar rel fsolve m X, run_calibration lc lsf beta_t cvar rel fsolve m = Ok X -> NoDup (c_cases lc) ->
  exists labels, (forall v, In v (t_cols X) <-> In v labels \/ v = "z"%string) /\ t_rows X = c_cases lc /\
  forall n, In n (c_cases lc) -> exists z f, rel n z = Ok f /\ t_val X n "z" = Some z
    /\ (NoDup labels -> forall k v, nth_error labels k = Some v -> v <> "z"%string -> t_val X n v = nth_error (fm_x f) k).
Proof.
  intros lc lsf beta_t cvar rel fsolve m X E NC. unfold run_calibration in E. destruct (calibrate_design_param lc lsf beta_t cvar rel fsolve m) as [l|] eqn:EC; cbn [rbind] in E; [|discriminate].
  destruct (C60_stored_designs _ _ _ _ _ _ _ _ EC) as (L & _ & ST). unfold xstar_table in E. destruct l as [|[z0 f0] l]; [discriminate|].
  match type of E with (if ?g then _ else _) = _ => destruct g end; [|discriminate]. injection E as <-. exists (xstar_labels f0). cbn [t_cols t_rows t_val]. split; [|split; [reflexivity|]].
  - intros v. destruct (mem_str "z" (xstar_labels f0)) eqn:M; [apply mem_str_In in M; split; [tauto|intros [I| ->]; assumption]|]. rewrite in_app_iff. cbn. intuition.
  - intros n Hn. apply In_nth_error in Hn. destruct Hn as [i Hi]. destruct (ST i n Hi) as (z & f & E1 & E2). exists z, f. split; [exact E2|].
    rewrite (index_of_nodup n _ i NC Hi), E1. split; [reflexivity|]. intros ND k v Hk Nv. destruct (String.eqb_spec v "z"); [contradiction|]. rewrite (index_of_nodup v _ k ND Hk). reflexivity.
Qed.
Print Assumptions C60_design_point_table.

(** with the alpha method run() raises if some case already meets the target at the start *)
Theorem C60_converged_start_raises : forall lc lsf beta_t cvar rel fsolve cd nm z0 n f0, lc_const lc = Some cd -> dict_get cd cvar = Some (OConst nm z0) ->
  In n (c_cases lc) -> rel n z0 = Ok f0 -> close_to beta_t (/ 10000) f0 ->
  exists e, calibrate_design_param lc lsf beta_t cvar rel fsolve MAlpha = Err e.
Proof.
  intros lc lsf beta_t cvar rel fsolve cd nm z0 n f0 Hc Hz Hn HR HC. unfold calibrate_design_param. rewrite Hc, Hz. cbn [get_value rbind].
  destruct (mapM (calibrate_case lc lsf beta_t rel fsolve MAlpha z0) (c_cases lc)) as [l|e] eqn:EM; cbn [rbind]; [|eauto]. destruct (mapM_inv _ _ _ EM) as [L N].
  apply In_nth_error in Hn. destruct Hn as [i Hi]. destruct (N i n Hi) as (p & E1 & E2).
  assert (Ep : p = (ZScalar z0, f0)).
  { unfold calibrate_case, calibration_alpha in E2. rewrite HR in E2. cbn [rbind alpha_loop] in E2. apply isclose_spec in HC. rewrite HC in E2. injection E2 as <-. reflexivity. }
  destruct l as [|q l]; [eauto|]. destruct (forallb (fun p0 : zval * formres => is_arr (fst p0)) (q :: l)) eqn:F; [|eauto]. rewrite forallb_forall in F.
  specialize (F p (nth_error_In _ _ E1)). rewrite Ep in F. discriminate.
Qed.
Print Assumptions C60_converged_start_raises.

(** *** Non-vacuity: beta(z) = z, projection always to the target *)
Definition cl_rel (lcn : string) (z : R) : result formres := Ok (mkForm z [] ["R"; "G"; "Q1"; "Q2"; "z"]%string ["z"%string] (fun _ => [1; 1; 1; 1]) [1; 1; 1; 1]).
Definition cl_lc := cx_lc [("A"%string, ["Q1"%string])].
Example C60_example : exists f, calibration_alpha cl_lc (fun args => match dict_get args "z", dict_get args "R", dict_get args "G", dict_get args "Q1", dict_get args "Q2" with
  | Some z, Some r, Some g, Some q1, Some q2 => Ok (z * r - (g + (q1 + q2))) | _, _, _, _, _ => Err EType end) 3 cl_rel 100 1 (/ 10000) 100 "A" = Ok (Some (1%nat, ZArr 3, f)).
Proof.
  eexists. unfold calibration_alpha. cbn [cl_rel rbind]. change 100%nat with (S 99) at 1. cbn [alpha_loop fm_beta].
  replace (isclose 1 3 (/ 10000)) with false.
  2:{ symmetry. destruct (isclose 1 3 (/ 10000)) eqn:E; [|reflexivity]. apply isclose_spec in E. rewrite (Rabs_left (1 - 3)), Rabs_right in E by lra. lra. }
  match goal with |- context [project ?a ?b ?c ?d ?e] => assert (P : project a b c d e = Ok 3) end.
  { unfold project, one_row. cbn. unfold calc_design_param_Xst. cbn. match goal with |- context [Reqb ?x 0] => replace (Reqb x 0) with false by (symmetry; apply Reqb_false; lra) end.
    cbn. f_equal. rewrite Rabs_left by lra. lra. }
  rewrite P. cbn [rbind cl_rel]. change (Nat.eqb 1 100) with false. cbv iota. change 99%nat with (S 98). cbn [alpha_loop fm_beta].
  replace (isclose 3 3 (/ 10000)) with true; [reflexivity|]. symmetry. apply isclose_spec. replace (3 - 3) with 0 by ring. rewrite Rabs_R0, Rabs_right by lra. lra.
Qed.

(** ** C76 The envelope factors give a conservative design in every case *)
Theorem C76_envelope_design_conservative : forall lc lsf cvar z0 a b nom X x nv phi gamma psi,
  cal_wf lc -> consts_ok lc cvar z0 -> z0 <> 0 -> linear_lsf lsf cvar (c_R lc) (c_S lc) a b ->
  table_of X (c_cases lc) (c_R lc ++ c_S lc) x -> nominals nom (c_cases lc) (c_R lc ++ c_S lc) nv ->
  NoDup (c_cases lc) -> aligned lc ->
  (forall v, In v (c_R lc) -> 0 <= a v) -> (exists v, In v (c_R lc) /\ 0 < a v) -> (forall v, In v (c_S lc) -> 0 <= b v) ->
  (forall n v, In n (c_cases lc) -> In v (c_R lc ++ c_S lc) -> 0 < x n v /\ 0 < nv n v) ->
  calc_pg_coeff lc nom X = Ok (phi, gamma, psi) ->
  exists zs, get_design_param_factor lc lsf nom phi gamma psi true true = Ok zs /\ List.length zs = List.length (c_cases lc)
  /\ forall i n, nth_error (c_cases lc) i = Some n -> exists z, nth_error zs i = Some z
     /\ lsum (map (fun s => b s * x n s) (c_S lc)) / (Rabs z0 * lsum (map (fun r => a r * x n r) (c_R lc))) <= z.
Proof.
  intros lc lsf cvar z0 a b nom X x nv phi gamma psi W C Nz L T NM NC AL HA (v0 & V0 & A0) HB HP E.
  destruct (C57_coefficient_factors lc nom X x nv W T NM) as (phi' & gamma' & psi' & E' & R1 & R2 & R3 & C1 & C2 & C3 & F). rewrite E in E'. injection E' as <- <- <-.
  pose proof (comb_nodup lc W) as NCM. pose proof (S_nodup lc W) as NS.
  destruct (c_cases lc) as [|n0 ns] eqn:EC.
  { exists []. assert (K : exists t, calc_df_pgRS lc nom phi gamma psi true true = Ok t \/ exists e, calc_df_pgRS lc nom phi gamma psi true true = Err e).
    { destruct (calc_df_pgRS lc nom phi gamma psi true true); eexists; eauto. Unshelve. exact X. }
    clear K. unfold get_design_param_factor, calc_df_pgRS.
    assert (Q : exists t, get_psi_max lc psi = Ok t).
    { unfold get_psi_max. rewrite select_ok by (intros c Hc; rewrite C3; apply comb_in_S, Hc). cbn [rbind]. destruct (c_other lc) as [|o os] eqn:EO; [eauto|]. rewrite <- EO. rewrite select_ok by (intros c Hc; rewrite C3; apply other_in_S, Hc). cbn. eauto. }
    destruct Q as [t ->]. cbn [rbind].
    assert (SEL : forall l, (forall c, In c l -> In c (c_R lc ++ c_S lc)) -> select (df_nom lc nom) l = Ok (mkTbl (t_rows (df_nom lc nom)) l (t_val (df_nom lc nom)))).
    { intros l Hl. apply select_ok. intros c Hc. destruct (NM c (Hl c Hc)) as (f & Ef & _). cbn. eapply dget_some_key. exact Ef. }
    rewrite (SEL (c_S lc)) by (intros c Hc; apply in_or_app; right; exact Hc). cbn [rbind]. rewrite (SEL (c_R lc)) by (intros c Hc; apply in_or_app; left; exact Hc). cbn [rbind]. rewrite EC.
    split; [reflexivity|]. split; [reflexivity|]. intros [|i] n Hn; discriminate. }
  rewrite <- EC in *. assert (NE : c_cases lc <> []) by (rewrite EC; discriminate). clear EC.
  (* real values of the tables *)
  set (ph := fun n r => x n r / nv n r). set (gm := fun n s => x (factor_case lc s n) s / nv (factor_case lc s n) s). set (pv := fun n s => x n s / (nv n s * gm n s)).
  assert (XP : forall n v, In n (c_cases lc) -> In v (c_R lc ++ c_S lc) -> 0 < x n v) by (intros n v Hn Hv; apply (HP n v Hn Hv)).
  assert (NP : forall n v, In n (c_cases lc) -> In v (c_R lc ++ c_S lc) -> 0 < nv n v) by (intros n v Hn Hv; apply (HP n v Hn Hv)).
  assert (IR : forall v, In v (c_R lc) -> In v (c_R lc ++ c_S lc)) by (intros v Hv; apply in_or_app; left; exact Hv).
  assert (IS : forall v, In v (c_S lc) -> In v (c_R lc ++ c_S lc)) by (intros v Hv; apply in_or_app; right; exact Hv).
  assert (Vphi : forall n r, In n (c_cases lc) -> In r (c_R lc) -> t_val phi n r = Some (ph n r)).
  { intros n r Hn Hr. destruct (F n Hn) as [F1 _]. destruct (F1 r Hr) as (p & Ep & Hp). rewrite cell_in in Ep by (rewrite C1; exact Hr). rewrite Ep. f_equal. unfold ph. pose proof (NP n r Hn (IR r Hr)). rewrite <- Hp. field. lra. }
  assert (GP : forall n s, In n (c_cases lc) -> In s (c_S lc) -> 0 < gm n s). { intros n s Hn Hs. unfold gm. pose proof (factor_case_in lc s n Hn) as Hm. apply Rdiv_lt_0_compat; [apply XP|apply NP]; auto. }
  assert (Vg : forall n s, In n (c_cases lc) -> In s (c_S lc) -> t_val gamma n s = Some (gm n s) /\ t_val psi n s = Some (pv n s) /\ nv n s * gm n s * pv n s = x n s /\ (factor_case lc s n = n -> pv n s = 1)).
  { intros n s Hn Hs. destruct (F n Hn) as [_ F2]. destruct (F2 s Hs) as (g & p & Eg & Ep & Hg & Hp). rewrite cell_in in Eg by (rewrite C2; exact Hs). rewrite cell_in in Ep by (rewrite C3; exact Hs).
    destruct Hp as [Hp1 Hp2]; [pose proof (XP (factor_case lc s n) s (factor_case_in lc s n Hn) (IS s Hs)); lra|]. fold (gm n s) in Hg. subst g.
    pose proof (NP n s Hn (IS s Hs)) as Pn. pose proof (GP n s Hn Hs) as Pg. assert (Epv : p = pv n s) by (unfold pv; rewrite <- Hp1; field; split; lra). subst p. repeat split; assumption. }
  (* gamma column maxima *)
  assert (GM : forall s, In s (c_S lc) -> exists gx, col_ext Rmax gamma s = Some gx /\ forall n, In n (c_cases lc) -> gm n s <= gx).
  { intros s Hs. destruct (col_ext_max gamma s (fun n => gm n s)) as (gx & Eg & _ & G); [rewrite R2; intros n Hn; apply (Vg n s Hn Hs)|rewrite R2; exact NE|]. exists gx. split; [exact Eg|]. intros n Hn. apply G. rewrite R2. exact Hn. }
  (* psi maxima *)
  assert (FCi : forall i n c, nth_error (c_cases lc) i = Some n -> nth_error (c_comb lc) i = Some c -> factor_case lc c n = n).
  { intros i n c Hn Hc. unfold factor_case. rewrite (aligned_lead_gen (lc_cases lc) (c_comb lc) i n c NC NCM AL Hn Hc). reflexivity. }
  destruct (C59_psi_max_dominates lc psi pv) as (pm & Epm & DOM).
  { rewrite R3. exact NC. } { exact NS. } { intros s Hs. rewrite C3. exact Hs. } { rewrite R3. exact NE. }
  { rewrite R3. intros n s Hn Hs. apply (Vg n s Hn Hs). }
  { rewrite R3. intros i n c Hn Hc. assert (In n (c_cases lc)) by (eapply nth_error_In; exact Hn). assert (In c (c_S lc)) by (apply comb_in_S; eapply nth_error_In; exact Hc).
    destruct (Vg n c H H0) as (_ & _ & _ & P1). rewrite P1 by (exact (FCi i n c Hn Hc)). lra. }
  rewrite R3 in DOM.
  (* phi minima *)
  destruct (C59_phi_min phi ph) as (PR & PC & PM); [rewrite R1; exact NE|rewrite R1, C1; exact Vphi|]. rewrite R1, C1 in PM.
  (* the factored table *)
  set (sel_y := fun n v => if mem_str v (c_R lc) then match omul (Some (nv n v)) (cell (get_phi_min phi) n v) with Some q => q | None => 0 end
                           else match omul (omul (Some (nv n v)) (if mem_str v (t_cols gamma) then col_ext Rmax gamma v else None)) (cell pm n v) with Some q => q | None => 0 end).
  assert (TAB : exists t, calc_df_pgRS lc nom phi gamma psi true true = Ok t /\ forall n v, In n (c_cases lc) -> In v (c_R lc ++ c_S lc) -> In v (t_cols t) /\ t_val t n v = Some (sel_y n v)
     /\ (In v (c_R lc) -> 0 < sel_y n v <= x n v) /\ (In v (c_S lc) -> x n v <= sel_y n v)).
  { unfold calc_df_pgRS. rewrite Epm. cbn [rbind].
    assert (SEL : forall l, (forall c, In c l -> In c (c_R lc ++ c_S lc)) -> select (df_nom lc nom) l = Ok (mkTbl (t_rows (df_nom lc nom)) l (t_val (df_nom lc nom)))).
    { intros l Hl. apply select_ok. intros c Hc. destruct (NM c (Hl c Hc)) as (f & Ef & _). cbn. eapply dget_some_key. exact Ef. }
    rewrite (SEL (c_S lc)) by exact IS. cbn [rbind]. rewrite (SEL (c_R lc)) by exact IR. cbn [rbind].
    eexists. split; [reflexivity|]. intros n v Hn Hv. destruct (NM v Hv) as (f & Ef & Hf). destruct (Hf n Hn) as [Fn NZ]. cbn [t_cols t_val].
    split; [cbn; eapply dget_some_key; exact Ef|]. assert (DV : t_val (df_nom lc nom) n v = Some (nv n v)) by (cbn; rewrite Ef; cbn; rewrite Fn; reflexivity). unfold sel_y.
    rewrite DV. destruct (mem_str v (c_R lc)) eqn:MR.
    - apply mem_str_In in MR. destruct (PM v MR) as (mn & [(q & Iq & Fq) G] & VV). rewrite cell_in by (cbn; rewrite C1; exact MR). rewrite (VV n Hn). cbn [omul].
      split; [reflexivity|]. split; [|intros K; exfalso; exact (wf_R_not_S lc v W MR K)]. intros _. pose proof (NP n v Hn Hv) as P1. pose proof (G n Hn) as P2. pose proof (XP q v Iq Hv) as P3. pose proof (NP q v Iq Hv) as P4.
      assert (0 < mn) by (rewrite <- Fq; unfold ph; apply Rdiv_lt_0_compat; assumption). split; [apply Rmult_lt_0_compat; assumption|].
      apply (Rmult_le_compat_l (nv n v)) in P2; [|lra]. unfold ph in P2. replace (nv n v * (x n v / nv n v)) with (x n v) in P2 by (field; exact NZ). exact P2.
    - assert (HS : In v (c_S lc)). { apply in_app_iff in Hv. destruct Hv as [Hv|Hv]; [apply (mem_true _ _) in Hv; congruence|exact Hv]. }
      rewrite (mem_true _ _ HS). rewrite C2, (mem_true _ _ HS). destruct (GM v HS) as (gx & Egx & GG). rewrite Egx. destruct (DOM n v Hn HS) as (mx & Emx & MM). rewrite Emx. cbn [omul].
      split; [reflexivity|]. split; [intros K; apply mem_true in K; congruence|]. intros _. destruct (Vg n v Hn HS) as (_ & _ & EQ & _). rewrite <- EQ. pose proof (NP n v Hn Hv). pose proof (GP n v Hn HS). pose proof (GG n Hn).
      assert (0 < pv n v). { pose proof (XP n v Hn Hv). unfold pv. apply Rdiv_lt_0_compat; [assumption|apply Rmult_lt_0_compat; assumption]. }
      apply Rmult_le_compat; [apply Rmult_le_pos; lra|lra| |exact MM]. apply Rmult_le_compat_l; lra. }
  destruct TAB as (t & Et & TV). unfold get_design_param_factor. rewrite Et. cbn [rbind].
  set (zf := fun n => Rabs (lsum (map (fun v => b v * sel_y n v) (c_S lc))) / (Rabs z0 * Rabs (lsum (map (fun v => a v * sel_y n v) (c_R lc))))).
  assert (RP : forall n, In n (c_cases lc) -> 0 < lsum (map (fun v => a v * sel_y n v) (c_R lc))).
  { intros n Hn. assert (Q : forall l, (forall v, In v l -> In v (c_R lc)) -> 0 <= lsum (map (fun v => a v * sel_y n v) l) /\ (In v0 l -> 0 < lsum (map (fun v => a v * sel_y n v) l))).
    { induction l as [|v l IH]; intros Hl; [split; [cbn; lra|intros []]|]. cbn [map lsum]. destruct IH as [IH1 IH2]; [intros w Hw; apply Hl; right; exact Hw|].
      pose proof (Hl v (or_introl eq_refl)) as Iv. destruct (TV n v Hn (IR v Iv)) as (_ & _ & K & _). specialize (K Iv). pose proof (HA v Iv). assert (0 <= a v * sel_y n v) by (apply Rmult_le_pos; lra).
      split; [lra|]. intros [->|I]; [|specialize (IH2 I); lra]. assert (0 < a v0 * sel_y n v0) by (apply Rmult_lt_0_compat; lra). lra. }
    apply (Q (c_R lc)); [tauto|exact V0]. }
  exists (map zf (c_cases lc)). split; [|split; [apply map_length|]].
  - apply mapM_ok. intros n Hn. unfold zf. apply (C61_design_parameter lc lsf cvar z0 a b t n (sel_y n) W C L).
    + intros v Hv. destruct (TV n v Hn Hv) as (K1 & K2 & _). split; assumption.
    + apply Rmult_integral_contrapositive_currified; [exact Nz|]. pose proof (RP n Hn). lra.
  - intros i n Hi. assert (Hn : In n (c_cases lc)) by (eapply nth_error_In; exact Hi). exists (zf n). split; [apply map_nth_error, Hi|]. unfold zf. pose proof (RP n Hn) as P1.
    assert (Q1 : lsum (map (fun v => a v * sel_y n v) (c_R lc)) <= lsum (map (fun r => a r * x n r) (c_R lc))).
    { apply lsum_map_le. intros v Hv. destruct (TV n v Hn (IR v Hv)) as (_ & _ & K & _). specialize (K Hv). pose proof (HA v Hv). apply Rmult_le_compat_l; lra. }
    assert (Q2 : lsum (map (fun s => b s * x n s) (c_S lc)) <= lsum (map (fun v => b v * sel_y n v) (c_S lc))).
    { apply lsum_map_le. intros v Hv. destruct (TV n v Hn (IS v Hv)) as (_ & _ & _ & K). specialize (K Hv). pose proof (HB v Hv). apply Rmult_le_compat_l; lra. }
    assert (Q0 : 0 <= lsum (map (fun s => b s * x n s) (c_S lc))).
    { replace 0 with (lsum (map (fun _ : string => 0) (c_S lc))) by (apply lsum_zero; reflexivity). apply lsum_map_le. intros v Hv. pose proof (HB v Hv). pose proof (XP n v Hn (IS v Hv)). apply Rmult_le_pos; lra. }
    rewrite (Rabs_right (lsum (map (fun v => b v * sel_y n v) (c_S lc)))), (Rabs_right (lsum (map (fun v => a v * sel_y n v) (c_R lc)))) by lra.
    pose proof (Rabs_pos_lt z0 Nz). unfold Rdiv. apply Rmult_le_compat; [exact Q0| |exact Q2|].
    + left. apply Rinv_0_lt_compat, Rmult_lt_0_compat; lra.
    + apply Rinv_le_contravar; [apply Rmult_lt_0_compat; lra|apply Rmult_le_compat_l; lra].
Qed.
Print Assumptions C76_envelope_design_conservative.

(** *** Non-vacuity of C57, C59, C61, C76: two load cases, one resistance, one static and two
    combination loads, declared constant 1, limit state z R - (G + Q1 + Q2) *)
Example C76_example : let lc := cx_lc cx_aligned in
  cal_wf lc /\ consts_ok lc "z" 1 /\ linear_lsf cx_lsf "z" (c_R lc) (c_S lc) (fun _ => 1) (fun _ => 1)
  /\ table_of (cx_X cx_val2) (c_cases lc) (c_R lc ++ c_S lc) cx_val2 /\ nominals cx_nom (c_cases lc) (c_R lc ++ c_S lc) (fun _ _ => 1)
  /\ NoDup (c_cases lc) /\ aligned lc /\ (forall n v, In n (c_cases lc) -> In v (c_R lc ++ c_S lc) -> 0 < cx_val2 n v)
  /\ calc_design_param_Xst lc cx_lsf (cx_X cx_val2) "A" = Ok 6
  /\ exists phi gamma psi, calc_pg_coeff lc cx_nom (cx_X cx_val2) = Ok (phi, gamma, psi)
     /\ cell gamma "B" "Q1" = Some 4 /\ cell psi "B" "Q1" = Some (/ 4) /\ cell psi "A" "Q1" = Some 1.
Proof.
  intros lc.
  assert (W : cal_wf lc) by (apply cx_wf; unfold cx_aligned; cbn; intros n vrs v [K|[K|[]]] Hv; injection K as <- <-; cbn in Hv; intuition).
  assert (T : table_of (cx_X cx_val2) (c_cases lc) (c_R lc ++ c_S lc) cx_val2) by (split; [reflexivity|]; intros v Hv; split; [cbn in *; tauto|reflexivity]).
  split; [exact W|]. split; [apply cx_consts|]. split; [apply cx_linear|]. split; [exact T|]. split; [apply cx_nominals|].
  split; [repeat constructor; cbn; intuition discriminate|]. split; [reflexivity|].
  split; [intros n v Hn Hv; cbn in Hn, Hv; intuition subst; unfold cx_val2; cbn; lra|]. split.
  - rewrite (C61_design_parameter lc cx_lsf "z" 1 (fun _ => 1) (fun _ => 1) (cx_X cx_val2) "A" (cx_val2 "A") W (cx_consts _) (cx_linear _)).
    + f_equal. unfold cx_val2. cbn. rewrite !Rabs_right by lra. lra.
    + intros v Hv. cbn in Hv. split; [cbn; tauto|reflexivity].
    + unfold cx_val2. cbn. lra.
  - eexists. eexists. eexists. split; [reflexivity|]. cbn. unfold cx_val2. cbn. repeat split; f_equal; lra.
Qed.
