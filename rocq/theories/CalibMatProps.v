(** C58: the matrix method. *)
From Verif Require Import Base StochModel StochModelSpec StochModelProofs Dict LoadComb LoadCombSpec LoadCombProofs LoadCombProps Calib CalibSpec CalibProofs CalibProps CalibMatProofs.
Open Scope list_scope.
Open Scope R_scope.

(** ** C58 The factors of the matrix method close the design equation of every case *)
Theorem C58_design_equations : forall lc lsf cvar z0 a b nom X x nv zc solve phi gamma psi,
  cal_wf lc -> consts_ok lc cvar z0 -> linear_lsf lsf cvar (c_R lc) (c_S lc) a b ->
  table_of X (c_cases lc) (c_R lc ++ c_S lc) x -> (In cvar (t_cols X) /\ forall n, In n (c_cases lc) -> t_val X n cvar = Some (zc n)) ->
  nominals nom (c_cases lc) (c_R lc ++ c_S lc) nv -> (forall v n m, In v (c_comb lc) -> In n (c_cases lc) -> In m (c_cases lc) -> nv n v = nv m v) ->
  NoDup (c_cases lc) -> aligned lc -> solves solve ->
  calc_pg_matrix lc lsf nom cvar solve X = Ok (phi, gamma, psi) ->
  forall n, In n (c_cases lc) ->
  exists p g f,
    (forall r, In r (c_R lc) -> cell phi n r = Some (p r))
    /\ (forall s, In s (c_S lc) -> cell gamma n s = Some (g s) /\ cell psi n s = Some (f s))
    /\ (forall o, In o (c_other lc) -> f o = 1)
    /\ (forall s, first_lead s (lc_cases lc) = Some n -> f s = 1)
    /\ zc n * lsum (map (fun r => a r * (nv n r * p r)) (c_R lc)) - lsum (map (fun s => b s * (nv n s * g s * f s)) (c_S lc)) = 0.
Proof.
  intros lc lsf cvar z0 a b nom X x nv zc solve phi gamma psi W C L T Tz NM NV NC AL SV E n Hn.
  destruct (Xst_nom_values lc nom X x nv W T NM) as (xn & Ex & R1 & R2 & V). pose proof T as [TR TV].
  unfold calc_pg_matrix in E. rewrite Ex in E. cbn [rbind] in E. unfold calc_phi, calc_gamma in E.
  assert (CC : forall v, In v (c_R lc ++ c_S lc) -> In v (t_cols xn)) by (intros v Hv; rewrite R2; apply TV, Hv).
  rewrite (select_ok xn (c_R lc)) in E by (intros c Hc; apply CC, in_or_app; left; exact Hc). cbn [rbind] in E.
  rewrite (select_ok xn (c_other lc)) in E by (intros c Hc; apply CC, in_or_app; right; apply other_in_S, Hc). cbn [rbind] in E.
  rewrite (select_ok xn (c_comb lc)) in E by (intros c Hc; apply CC, in_or_app; right; apply comb_in_S, Hc). cbn [rbind t_cols t_rows] in E.
  fold (c_S lc) in E. destruct (calc_phiRz_egS_vect lc lsf cvar X) as [rhs|] eqn:Eb; cbn [rbind] in E; [|discriminate].
  set (gn := tbin omul (mkTbl (t_rows xn) (c_R lc ++ c_S lc) (t_val xn)) (df_nom lc nom)) in E.
  unfold calc_epgS_mat in E. destruct (mapM (epgS_col lc lsf gn) (t_rows gn)) as [cols|] eqn:Ec; cbn [rbind] in E; [|discriminate].
  assert (LR : t_rows gn = c_cases lc) by exact R1. rewrite LR in E, Ec.
  destruct (mapM_inv _ _ _ Ec) as [Lc Nc]. rewrite Lc in E. rewrite (aligned_len lc AL), Nat.ltb_irrefl in E. cbn [rbind] in E. rewrite Nat.eqb_refl in E.
  set (M := (fun i j : nat => if Nat.eqb i j then 0 else nth j cols 0 * -1) : mat) in E. set (k := List.length (c_comb lc)) in *.
  destruct (solve k M rhs) as [ps|] eqn:Es; cbn [rbind] in E; [|discriminate]. injection E as <- <- <-. destruct (SV _ _ _ _ Es) as [Lp Sol].
  set (y := fun m v => x (factor_case lc v m) v / nv (factor_case lc v m) v * nv m v).
  assert (HG : forall v, In v (c_S lc) -> In v (t_cols gn) /\ forall m, In m (c_cases lc) -> t_val gn m v = Some (y m v)).
  { intros v Hv. assert (I : In v (c_R lc ++ c_S lc)) by (apply in_or_app; right; exact Hv). split; [unfold gn; cbn; apply in_or_app; left; exact I|].
    intros m Hm. unfold gn, tbin. cbn [t_val]. rewrite cell_in by exact I. cbn [t_val]. rewrite (V m v Hm I). destruct (NM v I) as (f & Ef & Hf).
    unfold cell. cbn [df_nom t_cols t_val]. rewrite mem_true by (eapply dget_some_key; exact Ef). rewrite Ef. cbn [option_map omul]. rewrite (proj1 (Hf m Hm)). reflexivity. }
  pose proof (comb_nodup lc W) as NCM.
  assert (LEAD : forall j m c, nth_error (c_cases lc) j = Some m -> nth_error (c_comb lc) j = Some c -> first_lead c (lc_cases lc) = Some m).
  { intros j m c Hm Hc. exact (aligned_lead_gen (lc_cases lc) (c_comb lc) j m c NC NCM AL Hm Hc). }
  apply In_nth_error in Hn. destruct Hn as [i Hi]. assert (Li : (i < k)%nat). { unfold k. rewrite <- (aligned_len lc AL). apply nth_error_Some. rewrite Hi. discriminate. }
  assert (Hn : In n (c_cases lc)) by (eapply nth_error_In; exact Hi).
  set (cj := fun j => nth j (c_comb lc) ""%string). set (mj := fun j => nth j (c_cases lc) ""%string).
  assert (Hcj : forall j, (j < k)%nat -> nth_error (c_comb lc) j = Some (cj j)) by (intros j Hj; apply nth_error_nth'; exact Hj).
  assert (Hmj : forall j, (j < k)%nat -> nth_error (c_cases lc) j = Some (mj j)) by (intros j Hj; apply nth_error_nth'; rewrite (aligned_len lc AL); exact Hj).
  assert (Emi : mj i = n) by (pose proof (Hmj i Li); congruence).
  assert (FC : forall j m, (j < k)%nat -> factor_case lc (cj j) m = mj j) by (intros j m Hj; unfold factor_case; rewrite (LEAD j _ _ (Hmj j Hj) (Hcj j Hj)); reflexivity).
  assert (FO : forall v m, ~ In v (c_comb lc) -> factor_case lc v m = m) by (intros v m Hv; unfold factor_case; rewrite (lead_R_none lc v W Hv); reflexivity).
  set (pt := psi_table lc (t_rows xn) ps).
  assert (PO : forall o, In o (c_other lc) -> cell pt n o = Some 1).
  { intros o Ho. rewrite cell_in by (apply other_in_S, Ho). unfold pt, psi_table. cbn [t_val]. rewrite R1, (index_of_nodup n _ i NC Hi).
    destruct (index_of_app_l o (c_other lc) (c_comb lc) Ho) as (q & Eq & Lq). fold (c_S lc) in Eq. rewrite Eq. apply Nat.ltb_lt in Lq. rewrite Lq. reflexivity. }
  assert (PC : forall j, (j < k)%nat -> cell pt n (cj j) = Some (if Nat.eqb i j then 1 else nth j ps 0)).
  { intros j Hj. assert (Ij : In (cj j) (c_comb lc)) by (eapply nth_error_In; apply Hcj, Hj). rewrite cell_in by (apply comb_in_S, Ij). unfold pt, psi_table. cbn [t_val].
    rewrite R1, (index_of_nodup n _ i NC Hi). unfold c_S. rewrite index_of_app_r by (intros I; exact (other_not_comb lc _ W I Ij)).
    rewrite (index_of_nodup (cj j) _ j NCM (Hcj j Hj)). cbn [option_map]. replace (Nat.ltb (List.length (c_other lc) + j) (List.length (c_other lc))) with false by (symmetry; apply Nat.ltb_ge; lia).
    replace (List.length (c_other lc) + j - List.length (c_other lc))%nat with j by lia. destruct (Nat.eqb i j); reflexivity. }
  exists (fun r => x n r / nv n r), (fun s => x (factor_case lc s n) s / nv (factor_case lc s n) s), (fun s => match cell pt n s with Some q => q | None => 0 end).
  split; [|split; [|split; [|split]]].
  - intros r Hr. rewrite cell_in by exact Hr. cbn [t_val]. rewrite V by (try assumption; apply in_or_app; left; exact Hr). rewrite FO; [reflexivity|]. intros I. apply (wf_R_not_S lc r W Hr), comb_in_S, I.
  - intros s Hs. split.
    + rewrite cell_in by exact Hs. cbn [t_val]. apply V; [exact Hn|apply in_or_app; right; exact Hs].
    + unfold c_S in Hs. apply in_app_iff in Hs. destruct Hs as [Hs|Hs].
      * fold pt. rewrite (PO s Hs). reflexivity.
      * apply In_nth_error in Hs. destruct Hs as [j Hj]. assert (Lj : (j < k)%nat) by (apply nth_error_Some; rewrite Hj; discriminate).
        assert (s = cj j) by (pose proof (Hcj j Lj); congruence). subst s. fold pt. rewrite (PC j Lj). reflexivity.
  - intros o Ho. rewrite (PO o Ho). reflexivity.
  - intros s Hs. destruct (first_lead_in _ _ _ Hs) as (vrs & I1 & I2). destruct W as [W1 W2]. pose proof (W2 _ _ _ I1 I2) as Hs'.
    apply In_nth_error in Hs'. destruct Hs' as [j Hj]. assert (Lj : (j < k)%nat) by (apply nth_error_Some; rewrite Hj; discriminate).
    assert (Es' : s = cj j) by (pose proof (Hcj j Lj); congruence). subst s. rewrite (PC j Lj).
    pose proof (LEAD j _ _ (Hmj j Lj) (Hcj j Lj)) as K. rewrite K in Hs. injection Hs as Hs. rewrite <- Emi in Hs.
    assert (i = j). { apply (proj1 (NoDup_nth (c_cases lc) ""%string) NC); [rewrite (aligned_len lc AL); exact Li|rewrite (aligned_len lc AL); exact Lj|symmetry; exact Hs]. }
    subst j. rewrite Nat.eqb_refl. reflexivity.
  - (* the equation *)
    rewrite (lsum_ext2 _ (fun r => a r * x n r) (c_R lc)).
    2:{ intros r Hr. destruct (NM r ltac:(apply in_or_app; left; exact Hr)) as (f & _ & Hf). destruct (Hf n Hn) as [_ NZ]. field. exact NZ. }
    unfold c_S at 1. rewrite lsum_map_app.
    rewrite (lsum_ext2 _ (fun s => b s * x n s) (c_other lc)).
    2:{ intros o Ho. destruct (NM o ltac:(apply in_or_app; right; apply other_in_S, Ho)) as (f & _ & Hf). destruct (Hf n Hn) as [_ NZ]. rewrite (PO o Ho), (FO o n) by (exact (other_not_comb lc o W Ho)). field. exact NZ. }
    rewrite (lsum_fsum _ (c_comb lc)). fold k.
    rewrite (fsum_ext k _ (fun j => b (cj j) * x (mj j) (cj j) * (if Nat.eqb i j then 1 else nth j ps 0))).
    2:{ intros j Hj. cbv beta. change (nth j (c_comb lc) ""%string) with (cj j). rewrite (PC j Hj), (FC j n Hj).
        assert (Ij : In (cj j) (c_comb lc)) by (eapply nth_error_In; apply Hcj, Hj). assert (Im : In (mj j) (c_cases lc)) by (eapply nth_error_In; apply Hmj, Hj).
        rewrite (NV (cj j) n (mj j) Ij Hn Im). destruct (NM (cj j) ltac:(apply in_or_app; right; apply comb_in_S, Ij)) as (f & _ & Hf). destruct (Hf (mj j) Im) as [_ NZ]. field. exact NZ. }
    pose proof (Sol i Li) as Q. unfold mvec in Q.
    (* entries of M and the right-hand side *)
    assert (CE : forall j, (j < k)%nat -> nth j cols 0 = - (b (cj j) * x (mj j) (cj j))).
    { intros j Hj. destruct (Nc j (mj j) (Hmj j Hj)) as (v & Ev & Fv).
      rewrite (lhs_col lc lsf cvar z0 a b X x zc W C L Tz NC AL gn y j (mj j) (cj j) HG (Hmj j Hj) (Hcj j Hj)) in Fv. injection Fv as Fv. rewrite (nth_error_nth _ _ _ Ev), <- Fv.
      unfold y. rewrite (FC j _ Hj). assert (Ij : In (cj j) (c_comb lc)) by (eapply nth_error_In; apply Hcj, Hj). assert (Im : In (mj j) (c_cases lc)) by (eapply nth_error_In; apply Hmj, Hj).
      destruct (NM (cj j) ltac:(apply in_or_app; right; apply comb_in_S, Ij)) as (f & _ & Hf). destruct (Hf (mj j) Im) as [_ NZ]. field. exact NZ. }
    assert (RE : nth i rhs 0 = zc n * lsum (map (fun r => a r * x n r) (c_R lc)) - lsum (map (fun s => b s * x n s) (c_other lc)) - b (cj i) * x n (cj i)).
    { unfold calc_phiRz_egS_vect in Eb. rewrite TR in Eb. destruct (mapM_inv _ _ _ Eb) as [_ Nb]. destruct (Nb i n Hi) as (v & Ev & Fv).
      rewrite (rhs_entry lc lsf cvar z0 a b X x zc W C L T Tz NC AL i n (cj i) Hi (Hcj i Li)) in Fv. injection Fv as Fv. rewrite (nth_error_nth _ _ _ Ev), <- Fv. reflexivity. }
    rewrite RE in Q.
    assert (SP : fsum k (fun j => b (cj j) * x (mj j) (cj j) * (if Nat.eqb i j then 1 else nth j ps 0)) = b (cj i) * x n (cj i) + fsum k (fun j => M i j * vof ps j)).
    { rewrite <- (fsum_delta k i (fun j => b (cj j) * x n (cj j))) by exact Li. rewrite <- fsum_plus. apply fsum_ext. intros j Hj. unfold M, vof, delta. rewrite (CE j Hj).
      destruct (Nat.eqb_spec i j) as [->|Nij]; [rewrite Emi|]; ring. }
    rewrite SP, Q. ring.
Qed.
Print Assumptions C58_design_equations.

(** *** a concrete limit state  z R - G - Q1 - Q2  and a solver for anti-diagonal systems *)
Definition cx_lsf (args : list (string * R)) : result R :=
  match dict_get args "z", dict_get args "R", dict_get args "G", dict_get args "Q1", dict_get args "Q2" with
  | Some z, Some r, Some g, Some q1, Some q2 => Ok (z * r - (g + (q1 + q2)))
  | _, _, _, _, _ => Err EType
  end.
Lemma cx_linear cases : linear_lsf cx_lsf "z" (c_R (cx_lc cases)) (c_S (cx_lc cases)) (fun _ => 1) (fun _ => 1).
Proof.
  intros args z x Hz H. unfold cx_lsf. rewrite Hz. cbn in H. rewrite (H "R"%string), (H "G"%string), (H "Q1"%string), (H "Q2"%string) by tauto. cbn. f_equal. ring.
Qed.
Lemma cx_consts cases : consts_ok (cx_lc cases) "z" 1.
Proof.
  exists [("z"%string, OConst "z" 1)]. split; [reflexivity|]. split; [|split].
  - intros k o [E|[]]. injection E as <- <-. eauto.
  - exists "z"%string. reflexivity.
  - cbn. intros v Hv [<-|[]]. intuition discriminate.
Qed.
Definition cx_solve (n : nat) (M : mat) (b : list R) : result (list R) :=
  if Nat.eqb n 2 && Reqb (M 0%nat 0%nat) 0 && Reqb (M 1%nat 1%nat) 0 && negb (Reqb (M 0%nat 1%nat) 0) && negb (Reqb (M 1%nat 0%nat) 0)
  then Ok [nth 1 b 0 / M 1%nat 0%nat; nth 0 b 0 / M 0%nat 1%nat] else Err EException.
Lemma cx_solves : solves cx_solve.
Proof.
  intros n M b x H. unfold cx_solve in H. destruct (Nat.eqb_spec n 2) as [->|]; [|discriminate]. cbn [andb] in H.
  destruct (Reqb (M 0%nat 0%nat) 0) eqn:E1; [|discriminate]. destruct (Reqb (M 1%nat 1%nat) 0) eqn:E2; [|discriminate]. cbn [andb] in H.
  destruct (Reqb (M 0%nat 1%nat) 0) eqn:E3; [discriminate|]. destruct (Reqb (M 1%nat 0%nat) 0) eqn:E4; [discriminate|]. cbn [andb negb] in H. injection H as <-.
  apply Reqb_spec in E1, E2. apply Reqb_false in E3, E4. split; [reflexivity|]. intros i Hi. unfold mvec, vof. cbn [fsum nth].
  destruct i as [|[|i]]; [| |lia]; [rewrite E1|rewrite E2]; field; tauto.
Qed.
Definition cx_val (n v : string) : R :=
  if String.eqb n "A" then
    (if String.eqb v "z" then 6 else if String.eqb v "Q2" then 4 else 1)
  else (if String.eqb v "z" then 5 else if String.eqb v "Q1" then 3 else 1).
Definition cx_swapped : list (string * list string) := [("A"%string, ["Q2"%string]); ("B"%string, ["Q1"%string])].

Lemma cx_table_of cases : map fst cases = ["A"; "B"]%string -> table_of (cx_X cx_val) (c_cases (cx_lc cases)) (c_R (cx_lc cases) ++ c_S (cx_lc cases)) cx_val.
Proof. intros E. split; [unfold c_cases, lc_label_cases, dict_keys; cbn; rewrite E; reflexivity|]. intros v Hv. split; [cbn in *; tauto|reflexivity]. Qed.

(** every leading variable has its own case, but the cases are listed in another order than
    the combination variables: the psi land in the wrong columns and the design equation of
    case A is violated *)
Theorem C58_case_order_refuted : exists lc lsf cvar z0 a b nom X x nv zc solve phi gamma psi,
  cal_wf lc /\ consts_ok lc cvar z0 /\ linear_lsf lsf cvar (c_R lc) (c_S lc) a b
  /\ table_of X (c_cases lc) (c_R lc ++ c_S lc) x /\ (In cvar (t_cols X) /\ forall n, In n (c_cases lc) -> t_val X n cvar = Some (zc n))
  /\ nominals nom (c_cases lc) (c_R lc ++ c_S lc) nv /\ (forall v n m, In v (c_comb lc) -> In n (c_cases lc) -> In m (c_cases lc) -> nv n v = nv m v)
  /\ NoDup (c_cases lc) /\ solves solve
  /\ (forall n, In n (c_cases lc) -> zc n * lsum (map (fun r => a r * x n r) (c_R lc)) = lsum (map (fun s => b s * x n s) (c_S lc)))
  /\ calc_pg_matrix lc lsf nom cvar solve X = Ok (phi, gamma, psi)
  /\ exists n p g f, In n (c_cases lc) /\ (forall r, In r (c_R lc) -> cell phi n r = Some (p r))
     /\ (forall s, In s (c_S lc) -> cell gamma n s = Some (g s) /\ cell psi n s = Some (f s))
     /\ zc n * lsum (map (fun r => a r * (nv n r * p r)) (c_R lc)) - lsum (map (fun s => b s * (nv n s * g s * f s)) (c_S lc)) <> 0.
Proof.
  exists (cx_lc cx_swapped), cx_lsf, "z"%string, 1, (fun _ => 1), (fun _ => 1), cx_nom, (cx_X cx_val), cx_val, (fun _ _ => 1), (fun n => cx_val n "z"), cx_solve.
  destruct (calc_pg_matrix (cx_lc cx_swapped) cx_lsf cx_nom "z" cx_solve (cx_X cx_val)) as [[[phi gamma] psi]|e] eqn:E.
  2:{ exfalso. revert E. unfold calc_pg_matrix. cbn. unfold cx_solve. cbn.
      repeat match goal with |- context [Reqb ?x ?y] => let H := fresh in destruct (Reqb x y) eqn:H; [apply Reqb_spec in H|apply Reqb_false in H]; cbn in *; try lra; try (exfalso; unfold cx_val in *; cbn in *; lra) end.
      all: discriminate. }
  exists phi, gamma, psi.
  split; [apply cx_wf; unfold cx_swapped; cbn; intros n vrs v [K|[K|[]]] Hv; injection K as <- <-; cbn in Hv; intuition|].
  split; [apply cx_consts|]. split; [apply cx_linear|]. split; [apply cx_table_of; reflexivity|]. split; [split; [cbn; tauto|reflexivity]|].
  split; [apply cx_nominals|]. split; [reflexivity|]. split; [repeat constructor; cbn; intuition discriminate|]. split; [apply cx_solves|].
  split; [cbn; intros n [<-|[<-|[]]]; unfold cx_val; cbn; lra|]. split; [reflexivity|].
  exists "A"%string, (fun _ => 1), (fun s => if String.eqb s "Q1" then 3 else if String.eqb s "Q2" then 4 else 1), (fun s => if String.eqb s "Q2" then / 3 else 1).
  split; [left; reflexivity|]. revert E. unfold calc_pg_matrix. cbn. unfold cx_solve. cbn.
  repeat match goal with |- context [Reqb ?x ?y] => let H := fresh in destruct (Reqb x y) eqn:H; [apply Reqb_spec in H|apply Reqb_false in H]; cbn in *; try lra; try (exfalso; unfold cx_val in *; cbn in *; lra) end.
  all: intros E; try discriminate. injection E as <- <- <-. split; [|split].
  - intros r [<-|[]]. cbn. f_equal. unfold cx_val. cbn. lra.
  - intros s [<-|[<-|[<-|[]]]]; cbn; split; f_equal; unfold cx_val; cbn; lra.
  - lra.
Qed.
Print Assumptions C58_case_order_refuted.

(** the matrix system must be square: as many cases as combination variables *)
Theorem C58_square_system_needed : forall lc lsf nom cvar solve X, List.length (t_rows X) <> List.length (c_comb lc) ->
  exists e, calc_pg_matrix lc lsf nom cvar solve X = Err e.
Proof.
  intros lc lsf nom cvar solve X H. unfold calc_pg_matrix. destruct (calc_Xst_nom lc nom X) as [xn|] eqn:E; cbn [rbind]; [|eauto].
  assert (R1 : t_rows xn = t_rows X).
  { unfold calc_Xst_nom in E. destruct (spread_all lc (lc_cases lc) (tbin odiv X (df_nom lc nom))) as [t|] eqn:S; cbn [rbind] in E; [|discriminate]. unfold select in E.
    destruct (forallb _ (t_cols X)); [|discriminate]. injection E as <-. cbn. assert (K : forall cs t0 t1, spread_all lc cs t0 = Ok t1 -> t_rows t1 = t_rows t0).
    { clear. induction cs as [|[n w] cs IH]; intros t0 t1 K; cbn [spread_all] in K; [injection K as <-; reflexivity|]. unfold spread in K. destruct (forallb _ w); cbn [rbind] in K; [|discriminate]. apply IH in K. exact K. }
    apply K in S. exact S. }
  unfold calc_phi, calc_gamma, select. destruct (forallb _ (c_R lc)); cbn [rbind]; [|eauto]. destruct (forallb _ (c_other lc)); cbn [rbind]; [|eauto]. destruct (forallb _ (c_comb lc)); cbn [rbind]; [|eauto].
  destruct (calc_phiRz_egS_vect lc lsf cvar X); cbn [rbind]; [|eauto]. match goal with |- context [calc_epgS_mat lc lsf ?g] => destruct (calc_epgS_mat lc lsf g) end; cbn [rbind]; [|eauto].
  cbn [tbin t_rows]. rewrite R1. destruct (Nat.eqb_spec (List.length (t_rows X)) (List.length (c_comb lc))); [contradiction|eauto].
Qed.
Print Assumptions C58_square_system_needed.

(** the design-point table stores the calibrated parameter under the fixed name "z", so the
    matrix method fails for a calibration variable with any other name *)
Theorem C58_calibration_variable_must_be_z : forall lc lsf beta_t nom cvar rel fsolve solve m set_max,
  cvar <> "z"%string -> ~ In cvar (c_comb lc) -> (forall lcn z f, rel lcn z = Ok f -> In cvar (fm_consts f)) ->
  exists e, cal_run lc lsf beta_t nom cvar rel fsolve solve m EMatrix set_max = Err e.
Proof.
  intros lc lsf beta_t nom cvar rel fsolve solve m set_max Nz Nc HR. unfold cal_run, run_calibration.
  destruct (calibrate_design_param lc lsf beta_t cvar rel fsolve m) as [l|] eqn:E; cbn [rbind]; [|eauto]. unfold xstar_table. destruct l as [|[z1 f0] l]; cbn [rbind]; [eauto|].
  match goal with |- context [if ?g then _ else _] => destruct g end; cbn [rbind]; [|eauto]. set (X := mkTbl _ _ _).
  assert (Hf : exists lcn z, rel lcn z = Ok f0).
  { unfold calibrate_design_param in E. destruct (lc_const lc) as [cd|]; [|discriminate]. destruct (dict_get cd cvar) as [o|]; [|discriminate]. destruct (get_value o) as [sz|]; cbn [rbind] in E; [|discriminate].
    destruct (mapM (calibrate_case lc lsf beta_t rel fsolve m sz) (c_cases lc)) as [l'|] eqn:EM; cbn [rbind] in E; [|discriminate]. destruct l' as [|[z2 f2] l']; [discriminate|].
    destruct (forallb _ _); [|discriminate]. injection E as Ez Ef _. subst f2. destruct (mapM_inv _ _ _ EM) as [L N]. destruct (c_cases lc) as [|n ns]; [discriminate L|].
    destruct (N 0%nat n eq_refl) as ([z3 f3] & E3 & F3). cbn in E3. injection E3 as <- <-. clear - F3. unfold calibrate_case in F3. destruct m.
    - unfold calibration_optimize in F3. destruct (fsolve _ sz) as [zz|]; cbn [rbind] in F3; [|discriminate]. destruct (rel n zz) as [ff|] eqn:Er; cbn [rbind] in F3; [|discriminate]. injection F3 as _ <-. eauto.
    - unfold calibration_alpha in F3. destruct (rel n sz) as [g0|] eqn:E0; cbn [rbind] in F3; [|discriminate].
      assert (K : forall fuel k cols z g, (exists lcn zz, rel lcn zz = Ok g) -> forall k' z' g', alpha_loop lc lsf beta_t rel fuel k 100 (/ 10000) cols n z g = Ok (Some (k', z', g')) -> exists lcn zz, rel lcn zz = Ok g').
      { clear. induction fuel as [|fuel IH]; intros k cols z g Hg k' z' g' H; cbn [alpha_loop] in H; destruct (isclose _ _ _); try (injection H as _ _ <-; exact Hg); [discriminate|].
        destruct (project lc lsf beta_t cols g) as [z1|]; cbn [rbind] in H; [|discriminate]. destruct (rel n z1) as [g1|] eqn:E1; cbn [rbind] in H; [|discriminate].
        destruct (Nat.eqb (S k) 100); [injection H as _ _ <-; eauto|]. eapply IH; [|exact H]. eauto. }
      destruct (alpha_loop lc lsf beta_t rel 100 0 100 (/ 10000) (xstar_labels g0) n (ZScalar sz) g0) as [[[[k' z'] g']|]|] eqn:EL; cbn [rbind] in F3; try discriminate. injection F3 as _ <-.
      eapply K; [|exact EL]. eauto.
    - discriminate. }
  destruct Hf as (lcn & zz & Hf). pose proof (HR _ _ _ Hf) as Hcv.
  assert (NX : ~ In cvar (t_cols X)).
  { unfold X. cbn [t_cols]. assert (NL : ~ In cvar (xstar_labels f0)) by (unfold xstar_labels; rewrite filter_In, negb_true_iff, mem_str_nIn; tauto).
    destruct (mem_str "z" (xstar_labels f0)); [exact NL|]. rewrite in_app_iff. intros [I|[I|[]]]; [exact (NL I)|apply Nz; symmetry; exact I]. }
  assert (EX : exists e, calc_pg_matrix lc lsf nom cvar solve X = Err e).
  { unfold calc_pg_matrix. destruct (calc_Xst_nom lc nom X) as [t|]; cbn [rbind]; [|eauto]. destruct (calc_phi lc t); cbn [rbind]; [|eauto]. destruct (calc_gamma lc t); cbn [rbind]; [|eauto].
    assert (K : forall n, exists e, phiRz_entry lc lsf cvar X n = Err e).
    { intros n. unfold phiRz_entry. destruct (dict_get (lc_cases lc) n) as [lead|]; [|eauto]. assert (I : In cvar (rhs_labels lc cvar lead)).
      { unfold rhs_labels. rewrite filter_In, nodup_In, !in_app_iff. split; [cbn; tauto|]. rewrite (mem_false _ _ Nc). reflexivity. }
      revert I. generalize (rhs_labels lc cvar lead). clear - NX. intros ls I. assert (K : exists e, row_dict X n ls = Err e).
      { induction ls as [|c cs IH]; [destruct I|]. cbn [row_dict]. destruct (mem_str c (t_cols X)) eqn:Ec; [|eauto]. destruct (t_val X n c); [|eauto]. destruct I as [->|I]; [apply mem_str_In in Ec; contradiction|].
        destruct (IH I) as [e ->]. cbn. eauto. }
      destruct K as [e ->]. cbn. eauto. }
    unfold calc_phiRz_egS_vect. destruct (t_rows X) as [|n ns] eqn:ER; [|destruct (K n) as [e Ke]; destruct (mapM_err _ (n :: ns) n e (or_introl eq_refl) Ke) as [e' ->]; cbn; eauto].
    exfalso. unfold X in ER. cbn in ER. unfold calibrate_design_param in E. destruct (lc_const lc); [|discriminate]. destruct (dict_get l0 cvar); [|discriminate]. destruct (get_value o); cbn [rbind] in E; [|discriminate].
    rewrite ER in E. cbn in E. discriminate. }
  destruct EX as [e ->]. cbn. eauto.
Qed.
Print Assumptions C58_calibration_variable_must_be_z.

(** *** Non-vacuity of C58_design_equations *)
Definition cx_aligned : list (string * list string) := [("A"%string, ["Q1"%string]); ("B"%string, ["Q2"%string])].
Definition cx_val2 (n v : string) : R :=
  if String.eqb n "A" then (if String.eqb v "z" then 6 else if String.eqb v "Q1" then 4 else 1)
  else (if String.eqb v "z" then 5 else if String.eqb v "Q2" then 3 else 1).
Example C58_example : exists phi gamma psi, calc_pg_matrix (cx_lc cx_aligned) cx_lsf cx_nom "z" cx_solve (cx_X cx_val2) = Ok (phi, gamma, psi)
  /\ cal_wf (cx_lc cx_aligned) /\ consts_ok (cx_lc cx_aligned) "z" 1 /\ aligned (cx_lc cx_aligned) /\ NoDup (c_cases (cx_lc cx_aligned))
  /\ table_of (cx_X cx_val2) (c_cases (cx_lc cx_aligned)) (c_R (cx_lc cx_aligned) ++ c_S (cx_lc cx_aligned)) cx_val2
  /\ cell psi "A" "Q2" = Some (/ 3).
Proof.
  destruct (calc_pg_matrix (cx_lc cx_aligned) cx_lsf cx_nom "z" cx_solve (cx_X cx_val2)) as [[[phi gamma] psi]|e] eqn:E.
  2:{ exfalso. revert E. unfold calc_pg_matrix. cbn. unfold cx_solve. cbn.
      repeat match goal with |- context [Reqb ?x ?y] => let H := fresh in destruct (Reqb x y) eqn:H; [apply Reqb_spec in H|apply Reqb_false in H]; cbn in *; try lra; try (exfalso; unfold cx_val2 in *; cbn in *; lra) end.
      all: discriminate. }
  exists phi, gamma, psi. split; [reflexivity|]. split; [apply cx_wf; unfold cx_aligned; cbn; intros n vrs v [K|[K|[]]] Hv; injection K as <- <-; cbn in Hv; intuition|].
  split; [apply cx_consts|]. split; [reflexivity|]. split; [repeat constructor; cbn; intuition discriminate|].
  split; [split; [reflexivity|]; intros v Hv; split; [cbn in *; tauto|reflexivity]|].
  revert E. unfold calc_pg_matrix. cbn. unfold cx_solve. cbn.
  repeat match goal with |- context [Reqb ?x ?y] => let H := fresh in destruct (Reqb x y) eqn:H; [apply Reqb_spec in H|apply Reqb_false in H]; cbn in *; try lra; try (exfalso; unfold cx_val2 in *; cbn in *; lra) end.
  all: intros E; try discriminate. injection E as <- <- <-. cbn. f_equal. unfold cx_val2. cbn. lra.
Qed.
