(** C57-C61, C76: code calibration. *)
From Verif Require Import Base StochModel StochModelSpec StochModelProofs Dict LoadComb LoadCombSpec LoadCombProofs LoadCombProps Calib CalibSpec CalibProofs.
Open Scope list_scope.
Open Scope R_scope.

(** the table X has the given rows and holds the number x n v for every row n and variable v *)
Definition table_of (X : tbl) (rows vars : list string) (x : string -> string -> R) : Prop :=
  t_rows X = rows /\ forall v, In v vars -> In v (t_cols X) /\ forall n, In n rows -> t_val X n v = Some (x n v).
(** every variable has non-zero nominal values *)
Definition nominals (nom : list (string * (string -> R))) (rows vars : list string) (nv : string -> string -> R) : Prop :=
  forall v, In v vars -> exists f, dict_get nom v = Some f /\ forall n, In n rows -> f n = nv n v /\ nv n v <> 0.
(** labels are distinct and only combination variables are listed as leading *)
Definition cal_wf (lc : loadcomb) : Prop :=
  NoDup (c_R lc ++ c_S lc) /\ forall n vrs v, In (n, vrs) (lc_cases lc) -> In v vrs -> In v (c_comb lc).
(** the case that determines the load factor of s *)
Definition factor_case (lc : loadcomb) (s n : string) : string := match first_lead s (lc_cases lc) with Some m => m | None => n end.

Lemma wf_R_not_S lc v : cal_wf lc -> In v (c_R lc) -> ~ In v (c_S lc).
Proof.
  intros [N _] H I. revert N H I. generalize (c_S lc). induction (c_R lc) as [|r l IH]; intros s N H I; [destruct H|]. cbn in N. inversion N; subst.
  destruct H as [->|H]; [apply H2, in_or_app; right; exact I|exact (IH s H3 H I)].
Qed.
Lemma factor_case_in lc s n : In n (c_cases lc) -> In (factor_case lc s n) (c_cases lc).
Proof.
  intros H. unfold factor_case. destruct (first_lead s (lc_cases lc)) as [m|] eqn:E; [|exact H]. destruct (first_lead_in _ _ _ E) as (vrs & Hi & _).
  apply (in_map fst) in Hi. exact Hi.
Qed.
Lemma lead_R_none lc v : cal_wf lc -> ~ In v (c_comb lc) -> first_lead v (lc_cases lc) = None.
Proof.
  intros [_ W] H. destruct (first_lead v (lc_cases lc)) as [m|] eqn:E; [|reflexivity]. destruct (first_lead_in _ _ _ E) as (vrs & Hi & Hv). exfalso. apply H, (W m vrs v Hi Hv).
Qed.
Lemma comb_in_S lc v : In v (c_comb lc) -> In v (c_S lc).
Proof. intros H. unfold c_S. apply in_or_app. right. exact H. Qed.
Lemma other_in_S lc v : In v (c_other lc) -> In v (c_S lc).
Proof. intros H. unfold c_S. apply in_or_app. left. exact H. Qed.

(** the common part of both methods: design point over nominal, spread *)
Lemma Xst_nom_values lc nom X x nv : cal_wf lc -> table_of X (c_cases lc) (c_R lc ++ c_S lc) x -> nominals nom (c_cases lc) (c_R lc ++ c_S lc) nv ->
  exists xn, calc_Xst_nom lc nom X = Ok xn /\ t_rows xn = c_cases lc /\ t_cols xn = t_cols X
    /\ forall n v, In n (c_cases lc) -> In v (c_R lc ++ c_S lc) ->
       t_val xn n v = Some (x (factor_case lc v n) v / nv (factor_case lc v n) v).
Proof.
  intros W [TR TV] N. destruct (calc_Xst_nom_spec lc nom X) as (xn & E & R1 & R2 & V).
  - intros n vrs v Hi Hv. apply TV, in_or_app. right. apply comb_in_S. destruct W as [_ W]. exact (W n vrs v Hi Hv).
  - exists xn. split; [exact E|]. split; [rewrite R1; exact TR|]. split; [exact R2|]. intros n v Hn Hv. destruct (TV v Hv) as [Hc Hx]. rewrite (V n v Hn Hc). cbv zeta.
    destruct (N v Hv) as (f & Ef & Hf). rewrite Ef. pose proof (factor_case_in lc v n Hn) as Hm. unfold factor_case in *.
    destruct (first_lead v (lc_cases lc)) as [m|]; rewrite (Hx _ Hm), (proj1 (Hf _ Hm)); reflexivity.
Qed.

(** ** C57 The coefficient method *)
Theorem C57_coefficient_factors : forall lc nom X x nv,
  cal_wf lc -> table_of X (c_cases lc) (c_R lc ++ c_S lc) x -> nominals nom (c_cases lc) (c_R lc ++ c_S lc) nv ->
  exists phi gamma psi, calc_pg_coeff lc nom X = Ok (phi, gamma, psi)
  /\ t_rows phi = c_cases lc /\ t_rows gamma = c_cases lc /\ t_rows psi = c_cases lc
  /\ t_cols phi = c_R lc /\ t_cols gamma = c_S lc /\ t_cols psi = c_S lc
  /\ forall n, In n (c_cases lc) ->
     (forall r, In r (c_R lc) -> exists p, cell phi n r = Some p /\ nv n r * p = x n r)
     /\ (forall s, In s (c_S lc) -> exists g p, cell gamma n s = Some g /\ cell psi n s = Some p
          /\ g = x (factor_case lc s n) s / nv (factor_case lc s n) s
          /\ (x (factor_case lc s n) s <> 0 -> nv n s * g * p = x n s /\ (factor_case lc s n = n -> p = 1))).
Proof.
  intros lc nom X x nv W T N. destruct (Xst_nom_values lc nom X x nv W T N) as (xn & E & R1 & R2 & V). destruct T as [TR TV].
  unfold calc_pg_coeff. rewrite E. cbn [rbind]. unfold calc_phi, calc_gamma.
  assert (C : forall v, In v (c_R lc ++ c_S lc) -> In v (t_cols xn)) by (intros v Hv; rewrite R2; apply TV, Hv).
  rewrite (select_ok xn (c_R lc)) by (intros c Hc; apply C, in_or_app; left; exact Hc). cbn [rbind].
  rewrite (select_ok xn (c_other lc)) by (intros c Hc; apply C, in_or_app; right; apply other_in_S, Hc). cbn [rbind].
  rewrite (select_ok xn (c_comb lc)) by (intros c Hc; apply C, in_or_app; right; apply comb_in_S, Hc). cbn [rbind t_cols].
  fold (c_S lc). set (gamma := mkTbl (t_rows xn) (c_S lc) (t_val xn)).
  rewrite select_ok by (intros c Hc; cbn [tbin t_cols]; apply in_or_app; left; apply in_or_app; left; apply TV, in_or_app; right; exact Hc). cbn [rbind].
  eexists. eexists. eexists. split; [reflexivity|]. do 6 (split; [first [reflexivity|exact TR|exact R1]|]). intros n Hn. split.
  - intros r Hr. exists (x n r / nv n r). assert (Hi : In r (c_R lc ++ c_S lc)) by (apply in_or_app; left; exact Hr). split.
    + rewrite cell_in by exact Hr. cbn [t_val]. rewrite V by assumption. unfold factor_case. rewrite (lead_R_none lc r W); [reflexivity|].
      intros I. apply (wf_R_not_S lc r W Hr), comb_in_S, I.
    + destruct (N r Hi) as (f & _ & Hf). destruct (Hf n Hn) as [_ NZ]. field. exact NZ.
  - intros s Hs. assert (Hi : In s (c_R lc ++ c_S lc)) by (apply in_or_app; right; exact Hs). set (m := factor_case lc s n).
    destruct (N s Hi) as (f & Ef & Hf). destruct (Hf n Hn) as [Fn Nn]. destruct (Hf m (factor_case_in lc s n Hn)) as [_ Nm]. destruct (TV s Hi) as [Hc Hx].
    exists (x m s / nv m s), (x n s / (x m s / nv m s) / nv n s). split; [|split; [|split]].
    + rewrite cell_in by exact Hs. unfold gamma. cbn [t_val]. apply V; assumption.
    + rewrite cell_in by exact Hs. cbn [t_val]. unfold tbin at 1. cbn [t_val]. rewrite (cell_in (tbin odiv X gamma) n s) by (cbn; apply in_or_app; left; exact Hc). cbn [tbin t_val].
      rewrite (cell_in X n s Hc), (cell_in gamma n s Hs), (Hx n Hn). unfold gamma. cbn [t_val]. rewrite (V n s Hn Hi). fold m. cbn [odiv].
      unfold cell. cbn [df_nom t_cols t_val]. rewrite mem_true by (eapply dget_some_key; exact Ef). rewrite Ef. cbn [option_map odiv]. rewrite Fn. reflexivity.
    + reflexivity.
    + intros NZ. split; [field; repeat split; assumption|]. intros Em. rewrite Em in *. field. repeat split; assumption.
Qed.
Print Assumptions C57_coefficient_factors.

(** in words: the factor of a variable is the same in all cases once it leads in one; it is
    its own ratio in the first such case, where psi is 1 *)
Theorem C57_gamma_constant : forall lc nom X phi gamma psi x nv,
  cal_wf lc -> table_of X (c_cases lc) (c_R lc ++ c_S lc) x -> nominals nom (c_cases lc) (c_R lc ++ c_S lc) nv ->
  calc_pg_coeff lc nom X = Ok (phi, gamma, psi) ->
  forall m vrs s, In (m, vrs) (lc_cases lc) -> In s vrs ->
  (exists g, forall n, In n (c_cases lc) -> cell gamma n s = Some g)
  /\ (first_lead s (lc_cases lc) = Some m -> x m s <> 0 -> cell psi m s = Some 1)
  /\ (forall o, In o (c_other lc) -> ~ In o (c_comb lc) -> forall n, In n (c_cases lc) -> x n o <> 0 -> cell psi n o = Some 1).
Proof.
  intros lc nom X phi gamma psi x nv W T N E m vrs s Hm Hs. destruct (C57_coefficient_factors lc nom X x nv W T N) as (phi' & gamma' & psi' & E' & _ & _ & _ & _ & _ & _ & F).
  rewrite E in E'. injection E' as <- <- <-. assert (Sin : In s (c_S lc)) by (apply comb_in_S; destruct W as [_ W]; exact (W m vrs s Hm Hs)).
  assert (FL : exists k, first_lead s (lc_cases lc) = Some k).
  { destruct (first_lead s (lc_cases lc)) as [k|] eqn:K; [eauto|]. exfalso. exact (first_lead_none _ _ K m vrs Hm Hs). }
  destruct FL as [k K]. split; [|split].
  - exists (x k s / nv k s). intros n Hn. destruct (F n Hn) as [_ G]. destruct (G s Sin) as (g & p & Eg & _ & -> & _). unfold factor_case in Eg. rewrite K in Eg. exact Eg.
  - intros K' NZ. assert (k = m) by congruence. subst k. assert (Hn : In m (c_cases lc)) by (apply (in_map fst) in Hm; exact Hm).
    destruct (F m Hn) as [_ G]. destruct (G s Sin) as (g & p & _ & Ep & _ & H). unfold factor_case in H. rewrite K in H. rewrite Ep. f_equal. apply (proj2 (H NZ)). reflexivity.
  - intros o Ho No n Hn NZ. destruct (F n Hn) as [_ G]. destruct (G o (other_in_S lc o Ho)) as (g & p & _ & Ep & _ & H). unfold factor_case in H.
    rewrite (lead_R_none lc o W No) in H. rewrite Ep. f_equal. apply (proj2 (H NZ)). reflexivity.
Qed.
Print Assumptions C57_gamma_constant.

(** "psi = 1 for the variables that are maximal in that case" fails when two cases share a
    leading variable: only the first one counts *)
Definition cx_rv (n : string) : obj := ODist (mkrv n 1 1 1 (fun u => u) (fun x => x) (fun _ _ => 1)).
Definition cx_lc (cases : list (string * list string)) : loadcomb :=
  mkLC [("Q1"%string, cx_rv "Q1"); ("Q2"%string, cx_rv "Q2")] [("Q1"%string, cx_rv "Q1"); ("Q2"%string, cx_rv "Q2")]
       (Some [("G"%string, cx_rv "G")]) [("R"%string, cx_rv "R")] cases [] None (Some [("z"%string, OConst "z" 1)]).
Definition cx_X (x : string -> string -> R) : tbl := mkTbl ["A"; "B"]%string ["R"; "G"; "Q1"; "Q2"; "z"]%string (fun n v => Some (x n v)).
Definition cx_nom : list (string * (string -> R)) := map (fun v => (v, fun _ : string => 1)) ["R"; "G"; "Q1"; "Q2"]%string.

Lemma cx_wf cases : (forall n vrs v, In (n, vrs) cases -> In v vrs -> v = "Q1"%string \/ v = "Q2"%string) -> cal_wf (cx_lc cases).
Proof.
  intros H. split.
  - cbn. repeat constructor; cbn; intuition discriminate.
  - intros n vrs v A B. cbn. destruct (H n vrs v A B) as [->| ->]; tauto.
Qed.
Lemma cx_nominals rows : nominals cx_nom rows ["R"; "G"; "Q1"; "Q2"]%string (fun _ _ => 1).
Proof. intros v Hv. exists (fun _ => 1). split; [|intros; split; [reflexivity|lra]]. cbn in Hv. intuition (subst; reflexivity). Qed.

Theorem C57_shared_leading_variable_refuted : exists lc nom X x nv phi gamma psi,
  cal_wf lc /\ table_of X (c_cases lc) (c_R lc ++ c_S lc) x /\ nominals nom (c_cases lc) (c_R lc ++ c_S lc) nv
  /\ calc_pg_coeff lc nom X = Ok (phi, gamma, psi)
  /\ exists n vrs s, In (n, vrs) (lc_cases lc) /\ In s vrs /\ x n s <> 0 /\ cell psi n s <> Some 1.
Proof.
  set (cases := [("A"%string, ["Q1"%string]); ("B"%string, ["Q1"%string; "Q2"%string])]).
  set (x := fun n v : string => if String.eqb n "B" then 2 else 1).
  assert (W : cal_wf (cx_lc cases)) by (apply cx_wf; unfold cases; cbn; intros n vrs v [E|[E|[]]] Hv; injection E as <- <-; cbn in Hv; intuition).
  assert (T : table_of (cx_X x) (c_cases (cx_lc cases)) (c_R (cx_lc cases) ++ c_S (cx_lc cases)) x).
  { split; [reflexivity|]. intros v Hv. split; [cbn in *; tauto|reflexivity]. }
  destruct (C57_coefficient_factors _ cx_nom _ _ _ W T (cx_nominals _)) as (phi & gamma & psi & E & _ & _ & _ & _ & _ & _ & F).
  exists (cx_lc cases), cx_nom, (cx_X x), x, (fun _ _ => 1), phi, gamma, psi. split; [exact W|]. split; [exact T|]. split; [apply cx_nominals|]. split; [exact E|].
  exists "B"%string, ["Q1"%string; "Q2"%string], "Q1"%string. split; [right; left; reflexivity|]. split; [left; reflexivity|]. split; [unfold x; cbn; lra|].
  destruct (F "B"%string) as [_ G]; [right; left; reflexivity|]. destruct (G "Q1"%string) as (g & p & _ & Ep & -> & H); [right; left; reflexivity|].
  rewrite Ep. intros K. injection K as ->. unfold factor_case in H. cbn in H. unfold x in H. cbn in H. destruct H as [H _]; [lra|]. lra.
Qed.
Print Assumptions C57_shared_leading_variable_refuted.

(** ** C59 Envelope factors *)
Lemma index_of_nth l : forall i, NoDup l -> (i < List.length l)%nat -> index_of (nth i l ""%string) l = Some i.
Proof. intros i N H. apply index_of_nodup; [exact N|]. apply nth_error_nth'. exact H. Qed.

Theorem C59_phi_min : forall phi v, t_rows phi <> [] -> (forall r c, In r (t_rows phi) -> In c (t_cols phi) -> t_val phi r c = Some (v r c)) ->
  t_rows (get_phi_min phi) = t_rows phi /\ t_cols (get_phi_min phi) = t_cols phi
  /\ forall c, In c (t_cols phi) -> exists m, least (t_rows phi) (fun r => v r c) m /\ forall r, In r (t_rows phi) -> t_val (get_phi_min phi) r c = Some m.
Proof.
  intros phi v NE H. split; [reflexivity|]. split; [reflexivity|]. intros c Hc.
  destruct (col_ext_min phi c (fun r => v r c)) as (m & E & L); [intros r Hr; apply H; assumption|exact NE|]. exists m. split; [exact L|].
  intros r Hr. cbn. rewrite (H r c Hr Hc), E. f_equal. apply Rmin_right. apply L, Hr.
Qed.
Print Assumptions C59_phi_min.

(** column j of the combination part: 1 on the diagonal, elsewhere the greatest of the
    off-diagonal entries (and of 0, if the column meets the diagonal) *)
Theorem C59_psi_max : forall lc psi v, NoDup (t_rows psi) -> NoDup (c_S lc) -> (forall s, In s (c_S lc) -> In s (t_cols psi)) -> t_rows psi <> [] ->
  (forall r c, In r (t_rows psi) -> In c (c_S lc) -> t_val psi r c = Some (v r c)) ->
  exists t, get_psi_max lc psi = Ok t /\ t_rows t = t_rows psi /\ (forall c, In c (t_cols t) <-> In c (c_S lc))
  /\ (forall r o, In r (t_rows psi) -> In o (c_other lc) -> cell t r o = Some (v r o))
  /\ (forall i j r c, nth_error (t_rows psi) i = Some r -> nth_error (c_comb lc) j = Some c ->
       (i = j -> cell t r c = Some 1)
       /\ (i <> j -> exists m, cell t r c = Some m
            /\ (forall k q, nth_error (t_rows psi) k = Some q -> k <> j -> v q c <= m)
            /\ ((j < List.length (t_rows psi))%nat -> 0 <= m)
            /\ (((j < List.length (t_rows psi))%nat /\ m = 0) \/ exists k q, nth_error (t_rows psi) k = Some q /\ k <> j /\ v q c = m))).
Proof.
  intros lc psi v NR NS HS NE H. unfold get_psi_max. rewrite (select_ok psi (c_comb lc)) by (intros c Hc; apply HS, comb_in_S, Hc). cbn [rbind].
  set (t0 := mkTbl (t_rows psi) (c_comb lc) (t_val psi)). set (t1 := set_diag 0 t0). set (t2 := set_diag 1 (clip_ext Rmax t1)).
  assert (NC : NoDup (c_comb lc)). { unfold c_S in NS. clear - NS. induction (c_other lc) as [|x l IH]; [exact NS|]. cbn in NS. inversion NS. apply IH. assumption. }
  assert (Disj : forall c, In c (c_comb lc) -> ~ In c (c_other lc)).
  { intros c Hc Ho. unfold c_S in NS. revert Ho. clear - NS Hc. induction (c_other lc) as [|x l IH]; intros Ho; [exact Ho|]. cbn in NS. inversion NS; subst. destruct Ho as [->|Ho]; [apply H1, in_or_app; right; exact Hc|exact (IH H2 Ho)]. }
  assert (D : forall i j r c, nth_error (t_rows psi) i = Some r -> nth_error (c_comb lc) j = Some c -> on_diag (t_rows psi) (c_comb lc) r c = Nat.eqb i j).
  { intros i j r c Hi Hj. unfold on_diag. rewrite (index_of_nodup r _ i NR Hi), (index_of_nodup c _ j NC Hj). reflexivity. }
  assert (B2 : forall i j r c, nth_error (t_rows psi) i = Some r -> nth_error (c_comb lc) j = Some c ->
       (i = j -> t_val t2 r c = Some 1)
       /\ (i <> j -> exists m, t_val t2 r c = Some m
            /\ (forall k q, nth_error (t_rows psi) k = Some q -> k <> j -> v q c <= m)
            /\ ((j < List.length (t_rows psi))%nat -> 0 <= m)
            /\ (((j < List.length (t_rows psi))%nat /\ m = 0) \/ exists k q, nth_error (t_rows psi) k = Some q /\ k <> j /\ v q c = m))).
  { intros i j r c Hi Hj. assert (Hc : In c (c_comb lc)) by (eapply nth_error_In; exact Hj). assert (Hr : In r (t_rows psi)) by (eapply nth_error_In; exact Hi). split.
    - intros ->. unfold t2, set_diag at 1. cbn [t_val t_rows t_cols clip_ext t1 set_diag t0]. rewrite (D j j r c Hi Hj), Nat.eqb_refl. reflexivity.
    - intros Nij. set (w := fun q => if on_diag (t_rows psi) (c_comb lc) q c then 0 else v q c).
      destruct (col_ext_max t1 c w) as (m & Em & (q0 & Iq & Fq) & G).
      + intros q Hq. unfold t1, set_diag, w. cbn [t_val t_rows t_cols t0]. destruct (on_diag (t_rows psi) (c_comb lc) q c); [reflexivity|]. apply H; [exact Hq|apply comb_in_S, Hc].
      + exact NE.
      + exists m. cbn [t1 set_diag t_rows t0] in Iq, G. split; [|split; [|split]].
        * unfold t2, set_diag at 1. cbn [t_val t_rows t_cols clip_ext t1 set_diag t0]. rewrite (D i j r c Hi Hj). replace (Nat.eqb i j) with false by (symmetry; apply Nat.eqb_neq; exact Nij).
          fold t0. fold (set_diag 0 t0). fold t1. rewrite Em. rewrite (H r c Hr (comb_in_S lc c Hc)). f_equal. apply Rmax_right.
          pose proof (G r Hr) as K. unfold w in K. rewrite (D i j r c Hi Hj) in K. replace (Nat.eqb i j) with false in K by (symmetry; apply Nat.eqb_neq; exact Nij). exact K.
        * intros k q Hk Nk. pose proof (G q ltac:(eapply nth_error_In; exact Hk)) as K. unfold w in K. rewrite (D k j q c Hk Hj) in K. replace (Nat.eqb k j) with false in K by (symmetry; apply Nat.eqb_neq; exact Nk). exact K.
        * intros Hlt. destruct (nth_error (t_rows psi) j) as [q|] eqn:Eq; [|apply nth_error_None in Eq; lia].
          pose proof (G q ltac:(eapply nth_error_In; exact Eq)) as K. unfold w in K. rewrite (D j j q c Eq Hj), Nat.eqb_refl in K. exact K.
        * apply In_nth_error in Iq. destruct Iq as [k Hk]. unfold w in Fq. rewrite (D k j q0 c Hk Hj) in Fq. destruct (Nat.eqb_spec k j) as [->|Nk].
          -- left. split; [apply nth_error_Some; rewrite Hk; discriminate|symmetry; exact Fq].
          -- right. exists k, q0. repeat split; assumption. }
  destruct (c_other lc) as [|o os] eqn:Eo.
  - exists t2. split; [reflexivity|]. split; [reflexivity|]. split; [intros c; unfold c_S; rewrite Eo; reflexivity|]. split; [intros r o _ []|].
    intros i j r c Hi Hj. rewrite cell_in by (eapply nth_error_In; exact Hj). apply B2; assumption.
  - rewrite <- Eo in *. rewrite (select_ok psi (c_other lc)) by (intros c Hc; apply HS, other_in_S, Hc). cbn [rbind]. eexists. split; [reflexivity|]. split; [reflexivity|].
    cbn [t_cols t2 set_diag clip_ext t1 t0]. split; [intros c; unfold c_S; rewrite !in_app_iff; tauto|]. split.
    + intros r p Hr Hp. rewrite cell_in by (cbn; apply in_or_app; right; exact Hp). cbn [t_val]. rewrite (mem_true _ _ Hp). apply H; [exact Hr|apply other_in_S, Hp].
    + intros i j r c Hi Hj. assert (Hc : In c (c_comb lc)) by (eapply nth_error_In; exact Hj). rewrite cell_in by (cbn; apply in_or_app; left; exact Hc). cbn [t_val].
      rewrite (mem_false _ _ (Disj c Hc)). apply B2; assumption.
Qed.
Print Assumptions C59_psi_max.

(** never below the individual psi *)
Theorem C59_psi_max_dominates : forall lc psi v, NoDup (t_rows psi) -> NoDup (c_S lc) -> (forall s, In s (c_S lc) -> In s (t_cols psi)) -> t_rows psi <> [] ->
  (forall r c, In r (t_rows psi) -> In c (c_S lc) -> t_val psi r c = Some (v r c)) ->
  (forall i r c, nth_error (t_rows psi) i = Some r -> nth_error (c_comb lc) i = Some c -> v r c <= 1) ->
  exists t, get_psi_max lc psi = Ok t /\ forall r s, In r (t_rows psi) -> In s (c_S lc) -> exists m, cell t r s = Some m /\ v r s <= m.
Proof.
  intros lc psi v NR NS HS NE H HD. destruct (C59_psi_max lc psi v NR NS HS NE H) as (t & E & _ & _ & O & C). exists t. split; [exact E|].
  intros r s Hr Hs. unfold c_S in Hs. apply in_app_iff in Hs. destruct Hs as [Hs|Hs].
  - exists (v r s). split; [apply O; assumption|lra].
  - apply In_nth_error in Hr. destruct Hr as [i Hi]. apply In_nth_error in Hs. destruct Hs as [j Hj]. destruct (C i j r s Hi Hj) as [C1 C2].
    destruct (Nat.eq_dec i j) as [->|N].
    + exists 1. split; [apply C1; reflexivity|apply (HD j); assumption].
    + destruct (C2 N) as (m & Em & G & _). exists m. split; [exact Em|]. apply (G i r Hi N).
Qed.
Print Assumptions C59_psi_max_dominates.

(** ** C61 Design parameter from a design point *)
(** constants are Constant objects, the calibration variable is one of them with value z0,
    and no load or resistance shares its label with a constant *)
Definition consts_ok (lc : loadcomb) (cvar : string) (z0 : R) : Prop :=
  exists cd, lc_const lc = Some cd /\ (forall k o, In (k, o) cd -> exists n v, o = OConst n v) /\ (exists nm, dict_get cd cvar = Some (OConst nm z0))
  /\ forall v, In v (c_R lc ++ c_S lc) -> ~ In v (map fst cd).

Lemma evalk_lin lc lsf cvar z0 a b kw : consts_ok lc cvar z0 -> linear_lsf lsf cvar (c_R lc) (c_S lc) a b ->
  let x v := match dict_get kw v with Some y => y | None => 0 end in
  evalk lc lsf kw = Ok ((match dict_get kw cvar with Some z => z | None => z0 end) * lsum (map (fun r => a r * x r) (c_R lc)) - lsum (map (fun s => b s * x s) (c_S lc))).
Proof. intros (cd & H1 & H2 & (nm & H3) & H4) HL. exact (evalk_linear lc lsf cd cvar nm z0 a b kw H1 H2 H3 H4 HL). Qed.
Lemma cvar_not_label lc cvar z0 : consts_ok lc cvar z0 -> ~ In cvar (c_R lc ++ c_S lc).
Proof. intros (cd & _ & _ & (nm & H3) & H4) I. exact (H4 cvar I (dget_some_key _ _ _ H3)). Qed.

Theorem C61_design_parameter : forall lc lsf cvar z0 a b t r x, cal_wf lc -> consts_ok lc cvar z0 -> linear_lsf lsf cvar (c_R lc) (c_S lc) a b ->
  (forall v, In v (c_R lc ++ c_S lc) -> In v (t_cols t) /\ t_val t r v = Some (x v)) ->
  let resist := lsum (map (fun v => a v * x v) (c_R lc)) in
  let load := lsum (map (fun v => b v * x v) (c_S lc)) in
  z0 * resist <> 0 ->
  calc_design_param_Xst lc lsf t r = Ok (Rabs load / (Rabs z0 * Rabs resist)).
Proof.
  intros lc lsf cvar z0 a b t r x W C L H resist load NZ. pose proof (cvar_not_label lc cvar z0 C) as NL. unfold calc_design_param_Xst.
  rewrite (row_dict_ok t r (c_S lc) x) by (intros v Hv; apply H, in_or_app; right; exact Hv). cbn [rbind]. rewrite (evalk_lin lc lsf cvar z0 a b _ C L). cbn [rbind].
  rewrite (row_dict_ok t r (c_R lc) x) by (intros v Hv; apply H, in_or_app; left; exact Hv). cbn [rbind]. rewrite (evalk_lin lc lsf cvar z0 a b _ C L). cbn [rbind].
  assert (E1 : forall l, (forall v, In v l -> In v (c_R lc ++ c_S lc)) -> (match dict_get (map (fun c => (c, x c)) l) cvar with Some z => z | None => z0 end) = z0).
  { intros l Hl. rewrite dget_map_self. destruct (in_dec string_dec cvar l) as [I|I]; [exfalso; exact (NL (Hl _ I))|reflexivity]. }
  rewrite !E1 by (intros v Hv; apply in_or_app; tauto).
  assert (E2 : forall f l l', (forall v, In v l -> ~ In v l') -> lsum (map (fun v => f v * match dict_get (map (fun c => (c, x c)) l') v with Some y => y | None => 0 end) l) = 0).
  { intros f l l' D. apply lsum_zero. intros v Hv. rewrite dget_map_self. destruct (in_dec string_dec v l') as [I|I]; [exfalso; exact (D v Hv I)|lra]. }
  assert (E3 : forall f l, lsum (map (fun v => f v * match dict_get (map (fun c => (c, x c)) l) v with Some y => y | None => 0 end) l) = lsum (map (fun v => f v * x v) l)).
  { intros f l. apply lsum_ext2. intros v Hv. rewrite dget_map_self. destruct (in_dec string_dec v l) as [I|I]; [reflexivity|contradiction]. }
  assert (DD : forall v, In v (c_R lc) -> ~ In v (c_S lc)) by (intros v; apply wf_R_not_S, W).
  rewrite (E2 a (c_R lc) (c_S lc) DD), (E3 b (c_S lc)), (E3 a (c_R lc)), (E2 b (c_S lc) (c_R lc)) by (intros v Hv I; exact (DD v I Hv)). fold resist load.
  replace (Reqb (z0 * resist - 0) 0) with false by (symmetry; apply Reqb_false; lra). f_equal.
  rewrite <- Rabs_mult. unfold Rdiv. rewrite <- Rabs_inv, <- Rabs_mult, Rminus_0_r. replace (z0 * 0 - load) with (- load) by ring. rewrite <- Ropp_mult_distr_l, Rabs_Ropp. reflexivity.
Qed.
Print Assumptions C61_design_parameter.

(** so, for a point with positive resistance and load sums, the returned value solves
    z * resistance = load iff the declared constant has magnitude one *)
Theorem C61_unit_constant_needed : forall lc lsf cvar z0 a b t r x z, cal_wf lc -> consts_ok lc cvar z0 -> linear_lsf lsf cvar (c_R lc) (c_S lc) a b ->
  (forall v, In v (c_R lc ++ c_S lc) -> In v (t_cols t) /\ t_val t r v = Some (x v)) ->
  let resist := lsum (map (fun v => a v * x v) (c_R lc)) in
  let load := lsum (map (fun v => b v * x v) (c_S lc)) in
  z0 <> 0 -> 0 < resist -> 0 < load ->
  calc_design_param_Xst lc lsf t r = Ok z -> (z * resist = load <-> Rabs z0 = 1).
Proof.
  intros lc lsf cvar z0 a b t r x z W C L H resist load Nz Pr Pl E.
  rewrite (C61_design_parameter lc lsf cvar z0 a b t r x W C L H) in E by (fold resist; apply Rmult_integral_contrapositive_currified; lra).
  fold resist load in E. injection E as <-. rewrite (Rabs_right load), (Rabs_right resist) by lra. pose proof (Rabs_pos_lt z0 Nz).
  replace (load / (Rabs z0 * resist) * resist) with (load / Rabs z0) by (field; lra). split.
  - intros E. apply (Rmult_eq_compat_r (Rabs z0)) in E. unfold Rdiv in E. rewrite Rmult_assoc, Rinv_l in E by lra. nra.
  - intros ->. field.
Qed.
Print Assumptions C61_unit_constant_needed.
