(** Property theorems C126: Calibration.run, the two estimation methods and the envelope option. *)
From Verif Require Import Base StochModel StochModelSpec StochModelProofs Dict LoadComb LoadCombSpec LoadCombProofs LoadCombProps Calib CalibSpec CalibProofs CalibProps CalibMatProofs CalibRun.
Open Scope list_scope.
Open Scope R_scope.

(** the table t has the given rows and columns and holds v r c in row r, column c *)
Definition holds (t : tbl) (rows cols : list string) (v : string -> string -> R) : Prop :=
  t_rows t = rows /\ (forall c, In c (t_cols t) <-> In c cols) /\ forall r c, In r rows -> In c cols -> cell t r c = Some (v r c).

(** the envelope of resistance factors: each column its least entry *)
Definition phi_env (rows : list string) (p p' : string -> string -> R) (cols : list string) : Prop :=
  forall r c, In r rows -> In c cols -> least rows (fun n => p n c) (p' r c).
(** the envelope of combination factors f: the columns of permanent loads are kept; in the column of the j-th
    combination load the j-th case has 1, the others the greatest of the entries of the other cases, and of 0
    if the column has a j-th case *)
Definition psi_env (rows other comb : list string) (f f' : string -> string -> R) : Prop :=
  (forall r o, In r rows -> In o other -> f' r o = f r o) /\
  forall i j r c, nth_error rows i = Some r -> nth_error comb j = Some c ->
    (i = j -> f' r c = 1) /\
    (i <> j -> (forall k q, nth_error rows k = Some q -> k <> j -> f q c <= f' r c) /\
       ((j < List.length rows)%nat -> 0 <= f' r c) /\
       (((j < List.length rows)%nat /\ f' r c = 0) \/ exists k q, nth_error rows k = Some q /\ k <> j /\ f q c = f' r c)).

Lemma psi_cell lc rows ps r c : In r rows -> In c (c_S lc) -> exists q, t_val (psi_table lc rows ps) r c = Some q.
Proof.
  intros Hr Hc. unfold psi_table. cbn [t_val].
  assert (I : forall l v, In v l -> exists i, index_of v l = Some i).
  { induction l as [|a l IH]; intros v Hv; [destruct Hv|]. cbn. destruct (String.eqb v a) eqn:E; [eauto|]. destruct Hv as [->|Hv]; [rewrite String.eqb_refl in E; discriminate|]. destruct (IH v Hv) as [i ->]. cbn. eauto. }
  destruct (I _ _ Hr) as [i ->]. destruct (I _ _ Hc) as [k ->]. destruct (Nat.ltb _ _); [eauto|]. destruct (Nat.eqb _ _); eauto.
Qed.

Lemma tables_full lc lsf nom cvar solve e X x nv phi gamma psi : cal_wf lc -> table_of X (c_cases lc) (c_R lc ++ c_S lc) x -> nominals nom (c_cases lc) (c_R lc ++ c_S lc) nv ->
  match e with ECoeff => calc_pg_coeff lc nom X | EMatrix => calc_pg_matrix lc lsf nom cvar solve X | EUnknown => Err EValue end = Ok (phi, gamma, psi) ->
  t_rows phi = c_cases lc /\ t_cols phi = c_R lc /\ t_rows psi = c_cases lc /\ t_cols psi = c_S lc /\
  (exists p, forall r c, In r (c_cases lc) -> In c (c_R lc) -> t_val phi r c = Some (p r c)) /\
  (exists f, forall r c, In r (c_cases lc) -> In c (c_S lc) -> t_val psi r c = Some (f r c)).
Proof.
  intros W T N E.
  assert (G : t_rows phi = c_cases lc /\ t_cols phi = c_R lc /\ t_rows psi = c_cases lc /\ t_cols psi = c_S lc /\
    (forall r c, In r (c_cases lc) -> In c (c_R lc) -> exists p, t_val phi r c = Some p) /\ (forall r c, In r (c_cases lc) -> In c (c_S lc) -> exists f, t_val psi r c = Some f)).
  { destruct e; [| |discriminate].
    - destruct (C57_coefficient_factors lc nom X x nv W T N) as (phi' & gamma' & psi' & E' & R1 & _ & R3 & K1 & _ & K3 & F). rewrite E in E'. injection E' as <- <- <-.
      refine (conj R1 (conj K1 (conj R3 (conj K3 (conj _ _))))).
      + intros r c Hr Hc. destruct (F r Hr) as [A _]. destruct (A c Hc) as (p & Ep & _). rewrite cell_in in Ep by (rewrite K1; exact Hc). eauto.
      + intros r c Hr Hc. destruct (F r Hr) as [_ A]. destruct (A c Hc) as (g & p & _ & Ep & _). rewrite cell_in in Ep by (rewrite K3; exact Hc). eauto.
    - destruct (Xst_nom_values lc nom X x nv W T N) as (xn & Ex & R1 & R2 & V). destruct T as [TR TV]. unfold calc_pg_matrix in E. rewrite Ex in E. cbn [rbind] in E. unfold calc_phi, calc_gamma in E.
      assert (CC : forall v, In v (c_R lc ++ c_S lc) -> In v (t_cols xn)) by (intros v Hv; rewrite R2; apply TV, Hv).
      rewrite (select_ok xn (c_R lc)) in E by (intros c Hc; apply CC, in_or_app; left; exact Hc). cbn [rbind] in E.
      rewrite (select_ok xn (c_other lc)) in E by (intros c Hc; apply CC, in_or_app; right; apply other_in_S, Hc). cbn [rbind] in E.
      rewrite (select_ok xn (c_comb lc)) in E by (intros c Hc; apply CC, in_or_app; right; apply comb_in_S, Hc). cbn [rbind t_cols t_rows] in E.
      destruct (calc_phiRz_egS_vect lc lsf cvar X) as [b|]; cbn [rbind] in E; [|discriminate]. destruct (calc_epgS_mat _ _ _) as [M|]; cbn [rbind] in E; [|discriminate].
      destruct (Nat.eqb _ _); [|discriminate]. destruct (solve _ M b) as [ps|]; cbn [rbind] in E; [|discriminate]. injection E as <- _ <-.
      refine (conj R1 (conj eq_refl (conj R1 (conj eq_refl (conj _ _))))).
      + intros r c Hr Hc. cbn [t_val]. rewrite (V r c Hr) by (apply in_or_app; left; exact Hc). eauto.
      + intros r c Hr Hc. apply psi_cell; [rewrite R1; exact Hr|exact Hc]. }
  destruct G as (R1 & K1 & R3 & K3 & F1 & F3). refine (conj R1 (conj K1 (conj R3 (conj K3 (conj _ _))))).
  - exists (fun r c => match t_val phi r c with Some q => q | None => 0 end). intros r c Hr Hc. destruct (F1 r c Hr Hc) as [q ->]. reflexivity.
  - exists (fun r c => match t_val psi r c with Some q => q | None => 0 end). intros r c Hr Hc. destruct (F3 r c Hr Hc) as [q ->]. reflexivity.
Qed.

(** the name in force: that of the call, otherwise that of the constructor *)
Definition method_name (c : cal_obj) (est : option string) : string := match est with Some s => s | None => co_est c end.

Lemma nodup_app_r {A} (a b : list A) : NoDup (a ++ b) -> NoDup b.
Proof. induction a as [|x a IH]; intros H; [exact H|]. inversion H. apply IH. assumption. Qed.

(** C126: set_max replaces phi and psi by their envelopes and nothing else, for both methods; it raises
    exactly when the run without it does. *)
Theorem C126_set_max : forall lc lsf beta_t nom cvar rel fsolve solve ca est X x nv,
  cal_wf lc -> NoDup (c_cases lc) -> c_cases lc <> [] -> (method_name ca est = "coeff" \/ method_name ca est = "matrix")%string ->
  run_calibration lc lsf beta_t cvar rel fsolve (cmethod_of (co_calib ca)) = Ok X ->
  table_of X (c_cases lc) (c_R lc ++ c_S lc) x -> nominals nom (c_cases lc) (c_R lc ++ c_S lc) nv ->
  let run := calibration_run lc lsf beta_t nom cvar rel fsolve solve ca est in
  (forall phi gamma psi, run false = Ok (Some (phi, gamma, psi)) ->
     exists phi' psi' p p' f f',
       run true = Ok (Some (phi', gamma, psi')) /\
       holds phi (c_cases lc) (c_R lc) p /\ holds psi (c_cases lc) (c_S lc) f /\
       holds phi' (c_cases lc) (c_R lc) p' /\ holds psi' (c_cases lc) (c_S lc) f' /\
       phi_env (c_cases lc) p p' (c_R lc) /\ psi_env (c_cases lc) (c_other lc) (c_comb lc) f f') /\
  (forall x', run false = Err x' <-> run true = Err x').
Proof.
  intros lc lsf beta_t nom cvar rel fsolve solve ca est X x nv W NC NE Ne' RC T N run.
  set (m := cmethod_of (co_calib ca)) in *. set (e := emethod_of (method_name ca est)). assert (Ne : e <> EUnknown) by (unfold e; destruct Ne' as [-> | ->]; discriminate).
  set (calc := match e with ECoeff => calc_pg_coeff lc nom X | EMatrix => calc_pg_matrix lc lsf nom cvar solve X | EUnknown => Err EValue end).
  assert (ER : forall b, run b = rbind calc (fun f => rbind (env_factors lc b f) (fun f => Ok (Some f)))).
  { intros b. unfold run, calibration_run, cal_run, calc. fold m. rewrite RC. fold (method_name ca est). fold e. cbn [rbind]. destruct e; [reflexivity|reflexivity|contradiction]. }
  destruct calc as [[[phi gamma] psi]|er] eqn:EC; unfold calc in EC.
  2:{ split; [intros phi gamma psi H; rewrite ER in H; discriminate|]. intros x'. rewrite !ER. cbn [rbind]. tauto. }
  destruct (tables_full lc lsf nom cvar solve e X x nv phi gamma psi W T N EC) as (R1 & K1 & R3 & K3 & (p & F1) & (f & F3)).
  assert (NS : NoDup (c_S lc)) by (destruct W as [Q _]; exact (nodup_app_r _ _ Q)).
  destruct (C59_phi_min phi p) as (P1 & P2 & P3); [rewrite R1; exact NE|rewrite R1, K1; exact F1|]. rewrite R1, K1 in *.
  destruct (C59_psi_max lc psi f) as (psi' & Q1 & Q2 & Q3 & Q4 & Q5); [rewrite R3; exact NC|exact NS|rewrite K3; tauto|rewrite R3; exact NE|rewrite R3; exact F3|]. rewrite R3 in *.
  assert (E1 : run true = Ok (Some (get_phi_min phi, gamma, psi'))) by (rewrite ER; cbn [rbind]; unfold env_factors; rewrite Q1; reflexivity).
  assert (E0 : run false = Ok (Some (phi, gamma, psi))) by (rewrite ER; reflexivity).
  split; [|intros x'; rewrite E0, E1; split; discriminate].
  intros phi0 gamma0 psi0 H. rewrite E0 in H. injection H as <- <- <-.
  set (val := fun (t : tbl) r c => match cell t r c with Some q => q | None => 0 end).
  assert (CP : forall r c, In r (c_cases lc) -> In c (c_R lc) -> exists k, least (c_cases lc) (fun n => p n c) k /\ cell (get_phi_min phi) r c = Some k).
  { intros r c Hr Hc. destruct (P3 c Hc) as (k & L & Hk). exists k. split; [exact L|]. rewrite cell_in by (rewrite P2; exact Hc). apply Hk, Hr. }
  exists (get_phi_min phi), psi', p, (val (get_phi_min phi)), f, (val psi'). split; [exact E1|].
  split; [|split; [|split; [|split; [|split]]]].
  - split; [exact R1|]. split; [intros c; rewrite K1; tauto|]. intros r c Hr Hc. rewrite cell_in by (rewrite K1; exact Hc). apply F1; assumption.
  - split; [exact R3|]. split; [intros c; rewrite K3; tauto|]. intros r c Hr Hc. rewrite cell_in by (rewrite K3; exact Hc). apply F3; assumption.
  - split; [exact P1|]. split; [intros c; rewrite P2; tauto|]. intros r c Hr Hc. destruct (CP r c Hr Hc) as (k & _ & E). unfold val. rewrite E. reflexivity.
  - split; [exact Q2|]. split; [exact Q3|]. intros r c Hr Hc. unfold val. unfold c_S in Hc. apply in_app_iff in Hc. destruct Hc as [Hc|Hc]; [rewrite (Q4 r c Hr Hc); reflexivity|].
    apply In_nth_error in Hr. destruct Hr as [i Hi]. apply In_nth_error in Hc. destruct Hc as [j Hj]. destruct (Q5 i j r c Hi Hj) as [A B].
    destruct (Nat.eq_dec i j) as [E|E]; [rewrite (A E); reflexivity|]. destruct (B E) as (k & -> & _). reflexivity.
  - intros r c Hr Hc. destruct (CP r c Hr Hc) as (k & L & E). unfold val. rewrite E. exact L.
  - split; [intros r o Hr Ho; unfold val; rewrite (Q4 r o Hr Ho); reflexivity|]. intros i j r c Hi Hj. destruct (Q5 i j r c Hi Hj) as [A B]. split.
    + intros E. unfold val. rewrite (A E). reflexivity.
    + intros E. destruct (B E) as (k & Ek & B1 & B2 & B3). unfold val. rewrite Ek. split; [exact B1|]. split; [exact B2|exact B3].
Qed.
Print Assumptions C126_set_max.

(** C126: the flags of get_design_param_factor act on one table each, and the default (both) designs from
    the tables of a plain run as the run with set_max would design without flags. *)
Theorem C126_design_flags : forall lc lsf beta_t nom cvar rel fsolve solve ca est phi gamma psi phi' gamma' psi',
  let run := calibration_run lc lsf beta_t nom cvar rel fsolve solve ca est in
  let z p f mn mx := get_design_param_factor lc lsf nom p gamma f mn mx in
  run false = Ok (Some (phi, gamma, psi)) -> run true = Ok (Some (phi', gamma', psi')) ->
  gamma' = gamma /\
  z phi psi true true = z phi' psi' false false /\ z phi psi true false = z phi' psi false false /\ z phi psi false true = z phi psi' false false.
Proof.
  intros lc lsf beta_t nom cvar rel fsolve solve ca est phi gamma psi phi' gamma' psi' run z E1 E2. unfold run, calibration_run, cal_run in E1, E2.
  destruct (run_calibration lc lsf beta_t cvar rel fsolve (cmethod_of (co_calib ca))) as [X|]; cbn [rbind] in E1, E2; [|discriminate].
  assert (K : exists f, env_factors lc false f = Ok (phi, gamma, psi) /\ env_factors lc true f = Ok (phi', gamma', psi')).
  { destruct (emethod_of _).
    - destruct (calc_pg_coeff lc nom X) as [f|]; cbn [rbind] in E1, E2; [|discriminate]. exists f. destruct (env_factors lc false f); [|discriminate]. destruct (env_factors lc true f); [|discriminate]. injection E1 as <-. injection E2 as <-. split; reflexivity.
    - destruct (calc_pg_matrix lc lsf nom cvar solve X) as [f|]; cbn [rbind] in E1, E2; [|discriminate]. exists f. destruct (env_factors lc false f); [|discriminate]. destruct (env_factors lc true f); [|discriminate]. injection E1 as <-. injection E2 as <-. split; reflexivity.
    - discriminate. }
  destruct K as ([[p0 g0] f0] & K1 & K2). unfold env_factors in K1, K2. injection K1 as -> -> ->.
  destruct (get_psi_max lc psi) as [q|] eqn:EQ; cbn [rbind] in K2; [|discriminate]. injection K2 as <- <- <-. unfold z, get_design_param_factor, calc_df_pgRS. rewrite EQ. cbn [rbind]. repeat split.
Qed.
Print Assumptions C126_design_flags.

(** C126: the coefficient method end to end: the tables set by run(est_method="coeff"). *)
Theorem C126_coefficient_run : forall lc lsf beta_t nom cvar rel fsolve solve ca est X x nv,
  cal_wf lc -> method_name ca est = "coeff"%string -> run_calibration lc lsf beta_t cvar rel fsolve (cmethod_of (co_calib ca)) = Ok X ->
  table_of X (c_cases lc) (c_R lc ++ c_S lc) x -> nominals nom (c_cases lc) (c_R lc ++ c_S lc) nv ->
  (forall n s, In n (c_cases lc) -> In s (c_S lc) -> x n s <> 0) ->
  exists phi gamma psi p g f, calibration_run lc lsf beta_t nom cvar rel fsolve solve ca est false = Ok (Some (phi, gamma, psi)) /\
    holds phi (c_cases lc) (c_R lc) p /\ holds gamma (c_cases lc) (c_S lc) g /\ holds psi (c_cases lc) (c_S lc) f /\
    (* factor times nominal value is the design value *)
    forall n, In n (c_cases lc) ->
      (forall r, In r (c_R lc) -> p n r * nv n r = x n r) /\
      (forall s, In s (c_S lc) -> f n s * g n s * nv n s = x n s) /\
      (* gamma is that of the case led by s, where psi is 1; without such a case psi is 1 throughout *)
      (forall s, In s (c_S lc) -> match first_lead s (lc_cases lc) with
                                  | Some k => g n s * nv k s = x k s /\ (k = n -> f n s = 1)
                                  | None => f n s = 1
                                  end).
Proof.
  intros lc lsf beta_t nom cvar rel fsolve solve ca est X x nv W Me RC T N NZ.
  destruct (C57_coefficient_factors lc nom X x nv W T N) as (phi & gamma & psi & E & R1 & R2 & R3 & K1 & K2 & K3 & F).
  set (val := fun (t : tbl) r c => match cell t r c with Some q => q | None => 0 end).
  exists phi, gamma, psi, (val phi), (val gamma), (val psi).
  split; [unfold calibration_run, cal_run; rewrite RC; cbn [rbind]; fold (method_name ca est); rewrite Me; cbn [emethod_of String.eqb Ascii.eqb Bool.eqb]; rewrite E; reflexivity|].
  assert (H : forall t cols, t_rows t = c_cases lc -> t_cols t = cols -> (forall r c, In r (c_cases lc) -> In c cols -> exists q, cell t r c = Some q) -> holds t (c_cases lc) cols (val t)).
  { intros t cols A B C. split; [exact A|]. split; [intros c; rewrite B; tauto|]. intros r c Hr Hc. unfold val. destruct (C r c Hr Hc) as [q ->]. reflexivity. }
  split; [apply H; [exact R1|exact K1|]; intros r c Hr Hc; destruct (proj1 (F r Hr) c Hc) as (q & -> & _); eauto|].
  split; [apply H; [exact R2|exact K2|]; intros r c Hr Hc; destruct (proj2 (F r Hr) c Hc) as (g & q & -> & _); eauto|].
  split; [apply H; [exact R3|exact K3|]; intros r c Hr Hc; destruct (proj2 (F r Hr) c Hc) as (g & q & _ & -> & _); eauto|].
  intros n Hn. destruct (F n Hn) as [A B]. split; [|split].
  - intros r Hr. destruct (A r Hr) as (q & Eq & V). unfold val. rewrite Eq. lra.
  - intros s Hs. destruct (B s Hs) as (g & q & Eg & Eq & _ & V). unfold val. rewrite Eg, Eq. destruct V as [V _]; [apply NZ; [apply factor_case_in, Hn|exact Hs]|]. lra.
  - intros s Hs. destruct (B s Hs) as (g & q & Eg & Eq & G & V). unfold val. rewrite Eg, Eq. specialize (V (NZ _ s (factor_case_in lc s n Hn) Hs)). pose proof (factor_case_in lc s n Hn) as FI. unfold factor_case in *.
    destruct (first_lead s (lc_cases lc)) as [k|]; [|apply V; reflexivity]. split; [|apply V].
    destruct (N s ltac:(apply in_or_app; right; exact Hs)) as (h & _ & Hh). rewrite G. field. apply (Hh k FI).
Qed.
Print Assumptions C126_coefficient_run.

(** C126: without a name in the call the constructor's method is used, "matrix" by default; another name than the
    two runs the calibration and leaves the factor tables unset, with no error. *)
Theorem C126_methods : forall lc lsf beta_t nom cvar rel fsolve solve c est b,
  let run := calibration_run lc lsf beta_t nom cvar rel fsolve solve in
  run c None b = run c (Some (co_est c)) b /\
  run (cal_init None None) None b = run (mkCal "optimize" "matrix") (Some "matrix"%string) b /\
  (forall X, run_calibration lc lsf beta_t cvar rel fsolve (cmethod_of (co_calib c)) = Ok X ->
     method_name c est <> "coeff"%string -> method_name c est <> "matrix"%string -> run c est b = Ok None) /\
  (forall e, let exactly := cal_run lc lsf beta_t nom cvar rel fsolve solve in
     run (mkCal "optimize" e) (Some "coeff"%string) b = exactly MOptimize ECoeff b /\ run (mkCal "alpha" e) (Some "coeff"%string) b = exactly MAlpha ECoeff b /\
     run (mkCal "optimize" e) (Some "matrix"%string) b = exactly MOptimize EMatrix b /\ run (mkCal "alpha" e) (Some "matrix"%string) b = exactly MAlpha EMatrix b) /\
  (co_calib c <> "optimize"%string -> co_calib c <> "alpha"%string -> exists x, run c est b = Err x).
Proof.
  intros lc lsf beta_t nom cvar rel fsolve solve c est b run. split; [reflexivity|]. split; [reflexivity|]. split; [|split].
  2: { intros e. repeat split; reflexivity. }
  2: { intros N1 N2. unfold run, calibration_run, cal_run, run_calibration, calibrate_design_param, cmethod_of. rewrite (proj2 (String.eqb_neq _ _) N1), (proj2 (String.eqb_neq _ _) N2).
    destruct (lc_const lc) as [cd|]; [|eexists; reflexivity]. destruct (dict_get cd cvar) as [o|]; [|eexists; reflexivity]. destruct (get_value o) as [z|e]; [|eexists; reflexivity]. cbn [rbind].
    destruct (c_cases lc) as [|n ns]; cbn; eexists; reflexivity. }
  intros X RC N1 N2. unfold run, calibration_run, cal_run. rewrite RC. cbn [rbind]. fold (method_name c est). unfold emethod_of.
  rewrite (proj2 (String.eqb_neq _ _) N1), (proj2 (String.eqb_neq _ _) N2). reflexivity.
Qed.
Print Assumptions C126_methods.

(** two cases, each led by one of two loads: phi = 3/4 in both rows, psi = 1/6 and 1/2 beside the diagonal *)
Definition cc_x (n v : string) : R :=
  if String.eqb n "A" then (if String.eqb v "Q1" then 2 else if String.eqb v "Q2" then 1 / 2 else 1)
  else (if String.eqb v "R" then 3 / 4 else if String.eqb v "Q2" then 3 else 1).
Definition cc_lc : loadcomb := cx_lc [("A"%string, ["Q1"%string]); ("B"%string, ["Q2"%string])].
Definition cc_rel (n : string) (z : R) : result formres :=
  Ok (mkForm 2 [] ["R"; "G"; "Q1"; "Q2"]%string [] (fun u => u) (map (cc_x n) ["R"; "G"; "Q1"; "Q2"]%string)).
Example C126_example : exists X phi gamma psi, 
  run_calibration cc_lc (fun _ => Ok 0) 2 "z" cc_rel (fun _ x => Ok x) MOptimize = Ok X /\
  table_of X (c_cases cc_lc) (c_R cc_lc ++ c_S cc_lc) cc_x /\
  calibration_run cc_lc (fun _ => Ok 0) 2 cx_nom "z" cc_rel (fun _ x => Ok x) (fun _ _ _ => Err EValue) (cal_init None (Some "coeff"%string)) None true = Ok (Some (phi, gamma, psi)) /\
  cell phi "A" "R" = Some (3 / 4) /\ cell psi "A" "Q2" = Some (1 / 6) /\ cell psi "B" "Q1" = Some (1 / 2) /\ cell psi "B" "Q2" = Some 1 /\ cell gamma "A" "Q2" = Some 3.
Proof.
  eexists. eexists. eexists. eexists. split; [reflexivity|]. split.
  { split; [reflexivity|]. intros v Hv. cbn in Hv. split; [cbn; tauto|]. intros n Hn. cbn in Hn. destruct Hn as [<-|[<-|[]]]; destruct Hv as [<-|[<-|[<-|[<-|[]]]]]; reflexivity. }
  split; [reflexivity|]. cbn. unfold cc_x, Rmin, Rmax; cbn. repeat split; repeat (destruct (Rle_dec _ _)); cbn; try (f_equal; lra); exfalso; lra.
Qed.
