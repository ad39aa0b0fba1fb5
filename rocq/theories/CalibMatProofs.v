(** The matrix method of Calib.v. *)
From Verif Require Import Base StochModel StochModelSpec StochModelProofs Dict LoadComb LoadCombSpec LoadCombProofs LoadCombProps Calib CalibSpec CalibProofs CalibProps.
Open Scope list_scope.
Open Scope R_scope.

Lemma pick_sum (b x : string -> R) (l : list string) (y : string -> R) :
  (forall v, In v l -> y v = x v) -> lsum (map (fun v => b v * y v) l) = lsum (map (fun v => b v * x v) l).
Proof. intros H. apply lsum_ext2. intros v Hv. rewrite (H v Hv). reflexivity. Qed.

Lemma sum_one (b x y : string -> R) l c : NoDup l -> In c l -> y c = x c -> (forall v, In v l -> v <> c -> y v = 0) -> lsum (map (fun v => b v * y v) l) = b c * x c.
Proof.
  induction l as [|v l IH]; intros N I E Z; [destruct I|]. inversion N; subst. cbn [map lsum]. destruct I as [->|I].
  - rewrite E, (lsum_zero _ l); [lra|]. intros w Hw. rewrite Z; [lra|right; exact Hw|]. intros ->. contradiction.
  - rewrite (Z v (or_introl eq_refl)) by (intros ->; contradiction). rewrite IH; [lra|assumption|assumption|assumption|]. intros w Hw. apply Z. right. exact Hw.
Qed.

(** the i-th case leads with exactly the i-th combination variable *)
Definition aligned (lc : loadcomb) : Prop := map snd (lc_cases lc) = map (fun v => [v]) (c_comb lc).

Lemma aligned_len lc : aligned lc -> List.length (c_cases lc) = List.length (c_comb lc).
Proof. intros A. unfold c_cases, lc_label_cases, dict_keys. rewrite map_length, <- (map_length snd), A, map_length. reflexivity. Qed.
Lemma aligned_get lc i n c : NoDup (c_cases lc) -> aligned lc -> nth_error (c_cases lc) i = Some n -> nth_error (c_comb lc) i = Some c -> dict_get (lc_cases lc) n = Some [c].
Proof.
  intros N A Hn Hc. apply dget_nodup; [exact N|]. unfold aligned, c_cases, lc_label_cases, dict_keys in *.
  destruct (nth_error (lc_cases lc) i) as [[m w]|] eqn:E.
  - rewrite (map_nth_error _ _ _ E) in Hn. injection Hn as <-. assert (K : nth_error (map snd (lc_cases lc)) i = Some w) by (rewrite (map_nth_error _ _ _ E); reflexivity).
    rewrite A, (map_nth_error _ _ _ Hc) in K. injection K as <-. apply nth_error_In in E. exact E.
  - apply nth_error_None in E. assert (i < List.length (map fst (lc_cases lc)))%nat by (apply nth_error_Some; rewrite Hn; discriminate). rewrite map_length in H. lia.
Qed.
Lemma aligned_lead_gen cs cl : forall i n c, NoDup (map fst cs) -> NoDup cl -> map snd cs = map (fun v => [v]) cl -> nth_error (map fst cs) i = Some n -> nth_error cl i = Some c -> first_lead c cs = Some n.
Proof.
  revert cl. induction cs as [|[m w] cs IH]; intros [|v cl] i n c N1 N2 A Hn Hc; cbn in A; try discriminate; [destruct i; discriminate|].
  injection A as Ew A. inversion N1; subst. inversion N2; subst. cbn [first_lead]. destruct i as [|i]; cbn in Hn, Hc.
  - injection Hn as <-. injection Hc as <-. destruct (in_dec string_dec v [v]) as [|X]; [reflexivity|exfalso; apply X; left; reflexivity].
  - destruct (in_dec string_dec c [v]) as [[->|[]]|_]; [exfalso; apply nth_error_In in Hc; contradiction|]. eapply IH; eassumption.
Qed.
Lemma comb_nodup lc : cal_wf lc -> NoDup (c_comb lc).
Proof.
  intros [N _]. unfold c_S in N. rewrite app_assoc in N. clear - N. induction (c_R lc ++ c_other lc) as [|x l IH]; [exact N|]. cbn in N. inversion N. apply IH. assumption.
Qed.
Lemma S_nodup lc : cal_wf lc -> NoDup (c_S lc).
Proof. intros [N _]. clear - N. induction (c_R lc) as [|x l IH]; [exact N|]. cbn in N. inversion N. apply IH. assumption. Qed.
Lemma other_not_comb lc v : cal_wf lc -> In v (c_other lc) -> ~ In v (c_comb lc).
Proof.
  intros W Ho Hc. pose proof (S_nodup lc W) as N. unfold c_S in N. revert N Ho. clear - Hc. induction (c_other lc) as [|x l IH]; intros N Ho; [exact Ho|]. cbn in N. inversion N; subst.
  destruct Ho as [->|Ho]; [apply H1, in_or_app; right; exact Hc|exact (IH H2 Ho)].
Qed.
Lemma index_of_app_r x l1 l2 : ~ In x l1 -> index_of x (l1 ++ l2) = option_map (fun k => (List.length l1 + k)%nat) (index_of x l2).
Proof.
  induction l1 as [|y l1 IH]; intros N; [cbn; destruct (index_of x l2); reflexivity|]. cbn [app index_of]. destruct (String.eqb_spec x y) as [->|E]; [exfalso; apply N; left; reflexivity|].
  rewrite IH by (intros I; apply N; right; exact I). destruct (index_of x l2); reflexivity.
Qed.
Lemma index_of_app_l x l1 l2 : In x l1 -> exists k, index_of x (l1 ++ l2) = Some k /\ (k < List.length l1)%nat.
Proof.
  induction l1 as [|y l1 IH]; intros N; [destruct N|]. cbn [app index_of]. destruct (String.eqb_spec x y) as [->|E]; [exists 0%nat; split; [reflexivity|cbn; lia]|].
  destruct N as [->|N]; [congruence|]. destruct (IH N) as (k & -> & L). exists (S k). split; [reflexivity|cbn; lia].
Qed.

Section Matrix.
Variables (lc : loadcomb) (lsf : list (string * R) -> result R) (cvar : string) (z0 : R) (a b : string -> R).
Variables (nom : list (string * (string -> R))) (X : tbl) (x nv : string -> string -> R) (zc : string -> R).
Hypothesis W : cal_wf lc.
Hypothesis C : consts_ok lc cvar z0.
Hypothesis L : linear_lsf lsf cvar (c_R lc) (c_S lc) a b.
Hypothesis T : table_of X (c_cases lc) (c_R lc ++ c_S lc) x.
Hypothesis Tz : In cvar (t_cols X) /\ forall n, In n (c_cases lc) -> t_val X n cvar = Some (zc n).
Hypothesis N : nominals nom (c_cases lc) (c_R lc ++ c_S lc) nv.
Hypothesis NC : NoDup (c_cases lc).
Hypothesis A : aligned lc.

Let resist n := lsum (map (fun r => a r * x n r) (c_R lc)).
Let stat n := lsum (map (fun s => b s * x n s) (c_other lc)).

Lemma rhs_entry i n c : nth_error (c_cases lc) i = Some n -> nth_error (c_comb lc) i = Some c ->
  phiRz_entry lc lsf cvar X n = Ok (zc n * resist n - stat n - b c * x n c).
Proof.
  intros Hn Hc. unfold phiRz_entry. rewrite (aligned_get lc i n c NC A Hn Hc). assert (In_n : In n (c_cases lc)) by (eapply nth_error_In; exact Hn).
  assert (Hcc : In c (c_comb lc)) by (eapply nth_error_In; exact Hc).
  destruct T as [TR TV]. destruct Tz as [Tc Tzv]. pose proof (cvar_not_label lc cvar z0 C) as NL.
  set (y := fun v => if String.eqb v cvar then zc n else x n v).
  assert (IL : forall v, In v (rhs_labels lc cvar [c]) <-> In v (c_R lc) \/ In v (c_other lc) \/ v = c \/ v = cvar).
  { intros v. unfold rhs_labels. rewrite filter_In, nodup_In, !in_app_iff, negb_true_iff, andb_false_iff, negb_false_iff.
    pose proof (other_not_comb lc v W) as O1. pose proof (wf_R_not_S lc v W) as O2. unfold c_S in O2. rewrite in_app_iff in O2.
    assert (K : mem_str v (c_comb lc) = false <-> ~ In v (c_comb lc)) by apply mem_str_nIn. rewrite K, mem_str_In. cbn [In].
    split; [intros [H1 H2]; intuition (subst; tauto)|]. intros H. destruct H as [H|[H|[-> | ->]]]; [intuition|intuition| |].
    - split; [tauto|right; left; reflexivity].
    - split; [tauto|left; intros I; apply NL, in_or_app; right; apply comb_in_S, I]. }
  rewrite (row_dict_ok X n _ y).
  2:{ intros v Hv. apply IL in Hv. unfold y. destruct (String.eqb_spec v cvar) as [->|Nv]; [split; [exact Tc|apply Tzv, In_n]|].
      assert (I : In v (c_R lc ++ c_S lc)). { unfold c_S. rewrite !in_app_iff. destruct Hv as [H|[H|[->|H]]]; [tauto|tauto|tauto|contradiction]. }
      destruct (TV v I) as [K1 K2]. split; [exact K1|apply K2, In_n]. }
  cbn [rbind]. rewrite (evalk_lin lc lsf cvar z0 a b _ C L). rewrite dget_map_self. destruct (in_dec string_dec cvar (rhs_labels lc cvar [c])) as [_|K]; [|exfalso; apply K, IL; tauto].
  unfold y at 1. rewrite String.eqb_refl. f_equal. unfold c_S at 1. rewrite lsum_map_app.
  assert (Yv : forall v, In v (c_R lc ++ c_S lc) -> y v = x n v). { intros v Hv. unfold y. destruct (String.eqb_spec v cvar) as [->|]; [contradiction|reflexivity]. }
  assert (G : forall v, (match dict_get (map (fun c0 => (c0, y c0)) (rhs_labels lc cvar [c])) v with Some q => q | None => 0 end) = if in_dec string_dec v (rhs_labels lc cvar [c]) then y v else 0).
  { intros v. rewrite dget_map_self. destruct (in_dec string_dec v (rhs_labels lc cvar [c])); reflexivity. }
  rewrite (lsum_ext2 (fun r => a r * match dict_get (map (fun c0 => (c0, y c0)) (rhs_labels lc cvar [c])) r with Some q => q | None => 0 end) (fun r => a r * x n r) (c_R lc)).
  2:{ intros v Hv. rewrite G. destruct (in_dec string_dec v (rhs_labels lc cvar [c])) as [_|K]; [rewrite Yv by (apply in_or_app; left; exact Hv); reflexivity|exfalso; apply K, IL; tauto]. }
  rewrite (lsum_ext2 (fun r => b r * match dict_get (map (fun c0 => (c0, y c0)) (rhs_labels lc cvar [c])) r with Some q => q | None => 0 end) (fun r => b r * x n r) (c_other lc)).
  2:{ intros v Hv. rewrite G. destruct (in_dec string_dec v (rhs_labels lc cvar [c])) as [_|K]; [rewrite Yv by (apply in_or_app; right; apply other_in_S, Hv); reflexivity|exfalso; apply K, IL; tauto]. }
  rewrite (sum_one b (x n) _ (c_comb lc) c).
  - fold (resist n) (stat n). ring.
  - apply comb_nodup, W.
  - exact Hcc.
  - rewrite G. destruct (in_dec string_dec c (rhs_labels lc cvar [c])) as [_|K]; [apply Yv, in_or_app; right; apply comb_in_S, Hcc|exfalso; apply K, IL; tauto].
  - intros v Hv Nv. rewrite G. destruct (in_dec string_dec v (rhs_labels lc cvar [c])) as [I|I]; [|reflexivity]. exfalso. apply IL in I. destruct I as [I|[I|[I|I]]].
    + apply (wf_R_not_S lc v W I), comb_in_S, Hv.
    + exact (other_not_comb lc v W I Hv).
    + contradiction.
    + subst v. apply NL, in_or_app. right. apply comb_in_S, Hv.
Qed.

(** a column of the left-hand side, for a table holding gamma * nominal *)
Lemma lhs_col gn (y : string -> string -> R) i n c : (forall v, In v (c_S lc) -> In v (t_cols gn) /\ forall m, In m (c_cases lc) -> t_val gn m v = Some (y m v)) ->
  nth_error (c_cases lc) i = Some n -> nth_error (c_comb lc) i = Some c -> epgS_col lc lsf gn n = Ok (- (b c * y n c)).
Proof.
  intros HG Hn Hc. unfold epgS_col. rewrite (aligned_get lc i n c NC A Hn Hc). assert (In_n : In n (c_cases lc)) by (eapply nth_error_In; exact Hn).
  assert (Hcc : In c (c_comb lc)) by (eapply nth_error_In; exact Hc). pose proof (cvar_not_label lc cvar z0 C) as NL.
  assert (IL : forall v, In v (nodup string_dec (c_other lc ++ [c])) <-> In v (c_other lc) \/ v = c).
  { intros v. rewrite nodup_In, in_app_iff. cbn. intuition. }
  rewrite (row_dict_ok gn n _ (y n)). 2:{ intros v Hv. apply IL in Hv. assert (I : In v (c_S lc)) by (destruct Hv as [Hv| ->]; [apply other_in_S, Hv|apply comb_in_S, Hcc]). destruct (HG v I) as [K1 K2]. split; [exact K1|apply K2, In_n]. }
  cbn [rbind].
  assert (E2 : (match c_other lc with [] => Ok [] | _ => row_dict gn n (c_other lc) end) = Ok (map (fun v => (v, y n v)) (c_other lc))).
  { assert (E2 : row_dict gn n (c_other lc) = Ok (map (fun v => (v, y n v)) (c_other lc))).
    { apply row_dict_ok. intros v Hv. destruct (HG v (other_in_S lc v Hv)) as [K1 K2]. split; [exact K1|apply K2, In_n]. }
    destruct (c_other lc); [reflexivity|exact E2]. }
  rewrite E2. cbn [rbind]. rewrite !(evalk_lin lc lsf cvar z0 a b _ C L). cbn [rbind]. f_equal.
  assert (ZR : forall l, (forall v, In v l -> In v (c_S lc)) -> lsum (map (fun r => a r * match dict_get (map (fun v => (v, y n v)) l) r with Some q => q | None => 0 end) (c_R lc)) = 0).
  { intros l Hl. apply lsum_zero. intros v Hv. rewrite dget_map_self. destruct (in_dec string_dec v l) as [I|I]; [exfalso; exact (wf_R_not_S lc v W Hv (Hl v I))|lra]. }
  rewrite !ZR.
  2:{ intros v Hv. apply other_in_S, Hv. }
  2:{ intros v Hv. apply IL in Hv. destruct Hv as [Hv| ->]; [apply other_in_S, Hv|apply comb_in_S, Hcc]. }
  unfold c_S. rewrite !lsum_map_app.
  assert (ZO : lsum (map (fun s => b s * match dict_get (map (fun v => (v, y n v)) (c_other lc)) s with Some q => q | None => 0 end) (c_comb lc)) = 0).
  { apply lsum_zero. intros v Hv. rewrite dget_map_self. destruct (in_dec string_dec v (c_other lc)) as [I|I]; [exfalso; exact (other_not_comb lc v W I Hv)|lra]. }
  rewrite ZO.
  assert (EO : forall l, (forall v, In v (c_other lc) -> In v l) -> lsum (map (fun s => b s * match dict_get (map (fun v => (v, y n v)) l) s with Some q => q | None => 0 end) (c_other lc)) = lsum (map (fun s => b s * y n s) (c_other lc))).
  { intros l Hl. apply lsum_ext2. intros v Hv. rewrite dget_map_self. destruct (in_dec string_dec v l) as [I|I]; [reflexivity|exfalso; apply I, Hl, Hv]. }
  rewrite !EO by (intros v Hv; first [exact Hv|apply IL; left; exact Hv]).
  rewrite (sum_one b (y n) _ (c_comb lc) c); [ring|apply comb_nodup, W|exact Hcc| |].
  - rewrite dget_map_self. destruct (in_dec string_dec c (nodup string_dec (c_other lc ++ [c]))) as [|K]; [reflexivity|exfalso; apply K, IL; tauto].
  - intros v Hv Nv. rewrite dget_map_self. destruct (in_dec string_dec v (nodup string_dec (c_other lc ++ [c]))) as [I|I]; [|reflexivity]. exfalso. apply IL in I.
    destruct I as [I|I]; [exact (other_not_comb lc v W I Hv)|contradiction].
Qed.
End Matrix.
