(** C108: calibration of the design parameter, with its FORM analyses. *)
From Coquelicot Require Import Coquelicot.
From Verif Require Import Base Ext Gauss GaussProofs StochModel StochModelSpec StochModelProofs LimitState LimitStateSpec LimitStateProofs Transf TransfSpec TransfProofs Form FormProofs FormNormalProofs FormProps
  Nataf NatafProofs Dist RotSpec RotProofs RotProps Pipe PipeSpec PipeProofs PipeProps SensRunProofs SormRun SormRunProofs SormRunProps Dict LoadComb LoadCombSpec LoadCombProofs LoadCombProps
  LcRun LcRunSpec LcRunProofs LcRunProps Calib CalibSpec CalibProofs CalibProps CalibMatProofs CalibMatProps CalibLoopProps CalRun CalRunSpec CalRunProofs.
From Coq Require Import ZArith Lra Lia.
Open Scope list_scope.
Open Scope R_scope.

Lemma names_app a b : names_of (a ++ b) = names_of a ++ names_of b. Proof. unfold names_of. apply flat_map_app. Qed.
Lemma dists_app a b : dists_of (a ++ b) = dists_of a ++ dists_of b. Proof. unfold dists_of. apply flat_map_app. Qed.
Lemma consts_app a b : consts_of (a ++ b) = consts_of a ++ consts_of b. Proof. unfold consts_of. apply flat_map_app. Qed.
Lemma normals_names mu sd vs : names_of (normals mu sd vs) = vs.
Proof. induction vs as [|v vs IH]; [reflexivity|]. unfold normals, names_of in *. cbn. now rewrite IH. Qed.
Lemma normals_dists mu sd vs : dists_of (normals mu sd vs) = map (fun v => Normal v (mu v) (sd v)) vs.
Proof. induction vs as [|v vs IH]; [reflexivity|]. unfold normals, dists_of in *. cbn [map flat_map app]. now rewrite IH. Qed.
Lemma normals_consts mu sd vs : consts_of (normals mu sd vs) = [].
Proof. induction vs as [|v vs IH]; [reflexivity|]. exact IH. Qed.
Lemma constants_names kc : names_of (constants kc) = map fst kc.
Proof. induction kc as [|[k v] kc IH]; [reflexivity|]. unfold constants, names_of in *. cbn. now rewrite IH. Qed.
Lemma constants_dists kc : dists_of (constants kc) = [].
Proof. induction kc as [|[k v] kc IH]; [reflexivity|]. exact IH. Qed.
Lemma constants_consts kc : consts_of (constants kc) = kc.
Proof. induction kc as [|[k v] kc IH]; [reflexivity|]. unfold constants, consts_of in *. cbn. now rewrite IH. Qed.
Lemma normals_labelled mu sd vs : labelled (normals mu sd vs) = map (fun v => (v, ODist (Normal v (mu v) (sd v)))) vs.
Proof. unfold labelled. rewrite normals_names. induction vs as [|v vs IH]; [reflexivity|]. cbn. f_equal. exact IH. Qed.
Lemma constants_labelled kc : labelled (constants kc) = map (fun kv => (fst kv, OConst (fst kv) (snd kv))) kc.
Proof. unfold labelled. rewrite constants_names. induction kc as [|[k v] kc IH]; [reflexivity|]. cbn. f_equal. exact IH. Qed.

(** the constants of a case with the calibration variable replaced *)
Definition with_z (cvar : string) (z : R) (kc : list (string * R)) : list (string * R) :=
  map (fun kv => (fst kv, if String.eqb (fst kv) cvar then z else snd kv)) kc.
Lemma with_z_names cvar z kc : map fst (with_z cvar z kc) = map fst kc.
Proof. unfold with_z. rewrite map_map. reflexivity. Qed.
Lemma case_objects_z comb resist other kc leading Rl Ol Cl mu sd cvar z :
  normal_case comb resist other kc leading Rl Ol Cl mu sd -> In cvar (map fst kc) ->
  case_objects [(cvar, OConst cvar z)] comb resist other (constants kc) leading = constants (with_z cvar z kc) ++ normals mu sd (Rl ++ Ol ++ Cl).
Proof.
  intros (ER & EO & EC & ND & _) Hc. unfold case_objects. rewrite ER, EO, EC, constants_labelled, !normals_labelled, <- !map_app. unfold overridden.
  rewrite map_app, !map_map. f_equal.
  - unfold constants, with_z. rewrite map_map. apply map_ext. intros [k v]. cbn [fst snd dict_get]. destruct (String.eqb_spec k cvar) as [->|]; reflexivity.
  - unfold normals. apply map_ext_in. intros v Hv. cbn [fst snd dict_get]. destruct (String.eqb_spec v cvar) as [->|]; [|reflexivity].
    exfalso. clear - ND Hc Hv. induction (map fst kc) as [|k l IH]; [destruct Hc|]. cbn in ND. inversion ND as [|x y H1 H2]; subst.
    destruct Hc as [->|Hc]; [apply H1, in_or_app; right; exact Hv|exact (IH H2 Hc)].
Qed.
Lemma dget_with_z cvar z kc : In cvar (map fst kc) -> dict_get (with_z cvar z kc) cvar = Some z.
Proof.
  induction kc as [|[k v] kc IH]; intros H; [destruct H|]. cbn. destruct (String.eqb_spec cvar k) as [->|N]; [now rewrite String.eqb_refl|].
  destruct H as [H|H]; [exfalso; apply N; symmetry; exact H|exact (IH H)].
Qed.
Lemma dget_combine names : forall q v i, NoDup names -> length q = length names -> nth_error names i = Some v -> dict_get (combine names q) v = Some (nth i q 0).
Proof.
  induction names as [|x names IH]; intros q v i ND Hl Hi; [destruct i; discriminate|]. destruct q as [|y q]; [discriminate|]. inversion ND as [|x' y' H1 H2]; subst. cbn [combine dict_get].
  destruct i as [|i]; cbn in Hi.
  - injection Hi as ->. now rewrite String.eqb_refl.
  - destruct (String.eqb_spec v x) as [->|]; [exfalso; apply H1, (nth_error_In _ _ Hi)|]. cbn [nth]. apply IH; [exact H2|now injection Hl|exact Hi].
Qed.
Lemma dget_app_l {V} (d1 d2 : list (string * V)) k v : dict_get d1 k = Some v -> dict_get (d1 ++ d2) k = Some v.
Proof. induction d1 as [|[x y] d1 IH]; [discriminate|]. cbn. destruct (String.eqb k x); [trivial|exact IH]. Qed.
Lemma dget_app_r {V} (d1 d2 : list (string * V)) k : ~ In k (map fst d1) -> dict_get (d1 ++ d2) k = dict_get d2 k.
Proof.
  induction d1 as [|[x y] d1 IH]; intros H; [reflexivity|]. cbn. destruct (String.eqb_spec k x) as [->|]; [exfalso; apply H; left; reflexivity|].
  apply IH. intros I. apply H. right. exact I.
Qed.
Lemma nodup_app_disj {A} (l1 l2 : list A) x : NoDup (l1 ++ l2) -> In x l1 -> ~ In x l2.
Proof.
  induction l1 as [|y l1 IH]; intros N H; [destruct H|]. cbn in N. inversion N; subst. destruct H as [->|H]; [|exact (IH H3 H)].
  intros I. apply H2, in_or_app. right. exact I.
Qed.
Lemma nodup_app_r {A} (l1 l2 : list A) : NoDup (l1 ++ l2) -> NoDup l2.
Proof. induction l1 as [|y l1 IH]; intros N; [exact N|]. cbn in N. inversion N; subst. exact (IH H2). Qed.
Lemma nodup_app_l {A} (l1 l2 : list A) : NoDup (l1 ++ l2) -> NoDup l1.
Proof. induction l1 as [|y l1 IH]; intros N; [constructor|]. cbn in N. inversion N; subst. constructor; [|exact (IH H2)]. intros I. apply H1, in_or_app. left. exact I. Qed.
Lemma pos_nth l : forall i, NoDup l -> (i < length l)%nat -> pos (nth i l ""%string) l = i.
Proof.
  induction l as [|y l IH]; intros i ND Hi; [cbn in Hi; lia|]. inversion ND as [|x y' H1 H2]; subst. destruct i as [|i]; cbn [nth pos].
  - destruct (string_dec y y); [reflexivity|contradiction].
  - cbn [length] in Hi. destruct (string_dec (nth i l ""%string) y) as [E|]; [exfalso; apply H1; rewrite <- E; apply nth_In; lia|]. rewrite IH by (assumption || lia). reflexivity.
Qed.
Lemma pos_in v l : In v l -> (pos v l < length l)%nat /\ nth (pos v l) l ""%string = v.
Proof.
  induction l as [|y l IH]; intros H; [destruct H|]. cbn [pos length]. destruct (string_dec v y) as [->|N]; [cbn [nth]; split; [lia|reflexivity]|].
  destruct H as [->|H]; [contradiction|]. destruct (IH H) as (A & B). cbn [nth]. split; [lia|exact B].
Qed.

Lemma map_fst_combine {A B} (l : list A) : forall q : list B, length q = length l -> map fst (combine l q) = l.
Proof. induction l as [|x l IH]; intros [|y q] H; try discriminate; [reflexivity|]. cbn. f_equal. apply IH. now injection H. Qed.
Lemma filter_none {A} f (l : list A) : (forall x, In x l -> f x = false) -> filter f l = [].
Proof. induction l as [|x l IH]; intros H; [reflexivity|]. cbn. rewrite (H x (or_introl eq_refl)). apply IH. intros y Hy. apply H. right. exact Hy. Qed.
Lemma filter_all {A} f (l : list A) : (forall x, In x l -> f x = true) -> filter f l = l.
Proof. induction l as [|x l IH]; intros H; [reflexivity|]. cbn. rewrite (H x (or_introl eq_refl)). f_equal. apply IH. intros y Hy. apply H. right. exact Hy. Qed.
Lemma map_nth_seq {A} (l : list A) d : map (fun i => nth i l d) (seq 0 (length l)) = l.
Proof. induction l as [|x l IH]; [reflexivity|]. cbn [length seq map nth]. f_equal. rewrite <- seq_shift, map_map. exact IH. Qed.

Lemma classic_zero n (v : vec) : (forall i, (i < n)%nat -> v i = 0) \/ (exists i, (i < n)%nat /\ v i <> 0).
Proof.
  induction n as [|n IH]; [left; intros i Hi; lia|]. destruct IH as [H|(i & Hi & H)]; [|right; exists i; split; [lia|exact H]].
  destruct (Req_dec (v n) 0) as [E|E]; [left; intros i Hi; destruct (Nat.eq_dec i n) as [->|]; [exact E|apply H; lia]|right; exists n; split; [lia|exact E]].
Qed.
Section Weights.
Variables (Rl Sl : list string) (a b mu sd : string -> R) (Ro : mat).
Hypothesis ND : NoDup (Rl ++ Sl).
Let N := length (Rl ++ Sl).
Let lab := label Rl Sl.
Definition wP (i : nat) : R := if in_dec string_dec (lab i) Rl then a (lab i) else 0.
Definition wQ (i : nat) : R := if in_dec string_dec (lab i) Rl then 0 else b (lab i).
Definition wK (i j : nat) : R := sd (lab i) * Ro i j * sd (lab j).
Lemma w_weight z i : weight Rl a b z (lab i) = z * wP i - wQ i.
Proof. unfold weight, wP, wQ. destruct (in_dec string_dec (lab i) Rl); ring. Qed.
Lemma w_var z : margin_var Rl Sl a b sd Ro z = bil N wK (fun i => z * wP i - wQ i) (fun i => z * wP i - wQ i).
Proof.
  unfold margin_var, bil. apply fsum_ext. intros i Hi. rewrite <- fsum_scal. apply fsum_ext. intros j Hj. fold lab. rewrite !w_weight. unfold wK. ring.
Qed.
Lemma lab_in i : (i < N)%nat -> In (lab i) (Rl ++ Sl). Proof. intros H. apply nth_In. exact H. Qed.
Lemma sumP x : fsum N (fun i => wP i * x (lab i)) = lsum (map (fun r => a r * x r) Rl).
Proof.
  rewrite <- (Rplus_0_r (lsum _)).
  assert (E : fsum N (fun i => wP i * x (lab i)) = lsum (map (fun v => (if in_dec string_dec v Rl then a v else 0) * x v) (Rl ++ Sl))) by (rewrite (lsum_map_nth _ _ ""%string); reflexivity).
  rewrite E, map_app, lsum_app_. f_equal.
  - apply f_equal, map_ext_in. intros v Hv. destruct (in_dec string_dec v Rl); [reflexivity|contradiction].
  - assert (G : forall v, In v Sl -> ~ In v Rl) by (intros v Hv I; exact (nodup_app_disj _ _ v ND I Hv)). clear - G.
    induction Sl as [|v l IH]; [reflexivity|]. cbn. destruct (in_dec string_dec v Rl) as [I|_]; [exfalso; exact (G v (or_introl eq_refl) I)|].
    rewrite IH by (intros u Hu; apply G; right; exact Hu). ring.
Qed.
Lemma sumQ x : fsum N (fun i => wQ i * x (lab i)) = lsum (map (fun s => b s * x s) Sl).
Proof.
  rewrite <- (Rplus_0_l (lsum _)).
  assert (E : fsum N (fun i => wQ i * x (lab i)) = lsum (map (fun v => (if in_dec string_dec v Rl then 0 else b v) * x v) (Rl ++ Sl))) by (rewrite (lsum_map_nth _ _ ""%string); reflexivity).
  rewrite E, map_app, lsum_app_. f_equal.
  - apply lsum_zero. intros v Hv. destruct (in_dec string_dec v Rl) as [_|I]; [ring|contradiction].
  - apply f_equal, map_ext_in. intros v Hv. destruct (in_dec string_dec v Rl) as [I|]; [exfalso; exact (nodup_app_disj _ _ v ND I Hv)|reflexivity].
Qed.
Lemma sumW x z : fsum N (fun i => weight Rl a b z (lab i) * x (lab i)) = z * lsum (map (fun r => a r * x r) Rl) - lsum (map (fun s => b s * x s) Sl).
Proof.
  rewrite <- sumP, <- sumQ, <- fsum_scal, <- fsum_minus. apply fsum_ext. intros i _. rewrite w_weight. ring.
Qed.
Hypothesis HS : forall i j, (i < N)%nat -> (j < N)%nat -> Ro i j = Ro j i.
Hypothesis HP : pos_def N Ro.
Hypothesis Hsd : forall v, In v (Rl ++ Sl) -> sd v <> 0.
Hypothesis Hb : exists s, In s Sl /\ b s <> 0.
Let K_sym i j : (i < N)%nat -> (j < N)%nat -> wK i j = wK j i.
Proof. intros Hi Hj. unfold wK. rewrite (HS i j Hi Hj). ring. Qed.
Lemma w_quad z : margin_var Rl Sl a b sd Ro z = bil N wK wP wP * z ^ 2 - 2 * bil N wK wP wQ * z + bil N wK wQ wQ.
Proof. rewrite w_var. apply bil_square. exact K_sym. Qed.
Lemma w_pos z : 0 < margin_var Rl Sl a b sd Ro z.
Proof.
  unfold margin_var. fold N. apply (HP (fun i => weight Rl a b z (label Rl Sl i) * sd (label Rl Sl i))).
  destruct Hb as (s & Hs & Nb). destruct (pos_in s (Rl ++ Sl) ltac:(apply in_or_app; right; exact Hs)) as (A & B). exists (pos s (Rl ++ Sl)). split; [exact A|].
  unfold label. rewrite B. unfold weight. destruct (in_dec string_dec s Rl) as [I|_]; [exfalso; exact (nodup_app_disj _ _ s ND I Hs)|].
  apply Rmult_integral_contrapositive_currified; [lra|]. apply Hsd, in_or_app. right. exact Hs.
Qed.
Lemma w_disc : bil N wK wP wQ ^ 2 <= bil N wK wP wP * bil N wK wQ wQ.
Proof.
  apply quad_disc; [|intros z; rewrite <- w_quad; apply w_pos].
  assert (E : bil N wK wP wP = fsum N (fun i => fsum N (fun j => (wP i * sd (lab i)) * Ro i j * (wP j * sd (lab j))))).
  { unfold bil. apply fsum_ext. intros i _. rewrite <- fsum_scal. apply fsum_ext. intros j _. unfold wK. ring. }
  rewrite E. destruct (classic_zero N (fun i => wP i * sd (lab i))) as [Z|Z].
  - right. symmetry. apply fsum_zero. intros i Hi. apply fsum_zero. intros j Hj. rewrite (Z i Hi). ring.
  - left. apply HP. exact Z.
Qed.
End Weights.

Lemma case_corr_use fmin corr vs mu sd Ro : case_correlation fmin corr vs mu sd Ro -> vs <> [] ->
  forall h objs, h = by_hand corr objs -> accepted h = objs -> dists_of objs = map (fun v => Normal v (mu v) (sd v)) vs ->
  let n := length vs in
  exists M Ro' log, sm_corr (sm_run h) = Some M /\ length M = n /\ (forall r, In r M -> length r = n) /\
    computeModifiedCorrelationMatrix fmin n n (mat_of M) (fun i => marg_of (marg_at (sm_run h) i)) = Ok (Ro', log) /\ pos_def n Ro' /\ pos_def n Ro /\
    (forall i j, (i < n)%nat -> (j < n)%nat -> Ro' i j = Ro i j) /\ (forall i j, (i < n)%nat -> (j < n)%nat -> Ro i j = Ro j i).
Proof.
  intros HC Hv h objs Eh EA HD n. unfold case_correlation in HC. fold n in HC.
  assert (EMg : forall i, marg_at (sm_run h) i = nth i (dists_of objs) rv0).
  { intros i. unfold marg_at. destruct (registry h) as (_ & _ & EM & _). rewrite EM, EA. reflexivity. }
  assert (EN : ndists h = n) by (unfold ndists; rewrite EA, HD, map_length; reflexivity).
  assert (Hn1 : (1 <= n)%nat) by (unfold n; destruct vs; [contradiction|cbn; lia]).
  destruct corr as [fr|].
  - destruct HC as (HF & HPD & lg & HRo).
    assert (E : computeModifiedCorrelationMatrix fmin n n (mat_of (corr_rows fr vs)) (fun i => marg_of (marg_at (sm_run h) i)) = Ok (Ro, lg)).
    { rewrite <- HRo. f_equal. apply FunctionalExtensionality.functional_extensionality. intros i. now rewrite EMg, HD. }
    exists (corr_rows fr vs), Ro, lg. split.
    { rewrite Eh. unfold by_hand. rewrite HD, map_map. cbn [rv_name Normal rv_of]. rewrite map_id. unfold sm_run. rewrite fold_left_app. reflexivity. }
    split; [unfold corr_rows; now rewrite map_length|]. split; [intros r Hr; unfold corr_rows in Hr; apply in_map_iff in Hr; destruct Hr as (q & <- & _); now rewrite map_length|].
    split; [exact E|]. split; [exact HPD|]. split; [exact HPD|]. split; [reflexivity|].
    destruct (modified_ok fmin n (mat_of (corr_rows fr vs)) (fun i => marg_of (marg_at (sm_run h) i)) n (le_n n)) as (Ro' & E' & _ & S & _).
    rewrite E in E'. injection E' as <- _. intros i j _ _. apply S.
  - assert (HNO : no_setcorr h). { rewrite Eh. unfold by_hand. rewrite app_nil_r. intros M HI. apply in_map_iff in HI. destruct HI as (o & E & _). discriminate. }
    assert (HM : sm_corr (sm_run h) = Some (eye_rows n)) by (rewrite <- EN; apply (corr_reset [] h HNO); cbn [app]; rewrite EN; cbn; lia).
    destruct (eye_rows_identity n) as (L1 & L2 & L3).
    destruct (modified_ok fmin n (mat_of (eye_rows n)) (fun i => marg_of (marg_at (sm_run h) i)) n (le_n n)) as (Ro' & E & D & S & L & _).
    assert (EI : forall i j, (i < n)%nat -> (j < n)%nat -> Ro' i j = delta i j).
    { assert (EL : forall i j, (j < i)%nat -> (i < n)%nat -> Ro' i j = 0).
      { intros i j Hj Hi'. rewrite L by assumption. unfold pair_value. unfold mat_of. rewrite L3 by lia.
        destruct (Nat.eqb_spec i j); [lia|]. now rewrite (proj2 (Reqb_spec 0 0) eq_refl). }
      intros i j Hi' Hj. destruct (lt_eq_lt_dec i j) as [[Y|Y]|Y].
      - rewrite S, EL, delta_neq by lia. reflexivity.
      - subst j. rewrite D, delta_refl. reflexivity.
      - rewrite EL, delta_neq by lia. reflexivity. }
    assert (ED : forall i j, (i < n)%nat -> (j < n)%nat -> Ro i j = delta i j).
    { intros i j Hi Hj. rewrite (HC i j Hi Hj). destruct (Nat.eq_dec i j) as [->|]; [now rewrite delta_refl|now rewrite delta_neq]. }
    exists (eye_rows n), Ro'. eexists. split; [exact HM|]. split; [exact L1|]. split; [exact L2|]. split; [exact E|]. split; [exact (eye_posdef n Ro' EI)|]. split; [exact (eye_posdef n Ro ED)|].
    split; [intros i j Hi Hj; rewrite EI, ED by assumption; reflexivity|]. intros i j Hi Hj. rewrite !ED by assumption. apply delta_sym.
Qed.


Lemma design_param_zero lc lsf cvar a b t r x : cal_wf lc -> consts_ok lc cvar 1 -> linear_lsf lsf cvar (c_R lc) (c_S lc) a b ->
  (forall v, In v (c_R lc ++ c_S lc) -> In v (t_cols t) /\ t_val t r v = Some (x v)) ->
  lsum (map (fun v => a v * x v) (c_R lc)) = 0 -> calc_design_param_Xst lc lsf t r = Err EZeroDiv.
Proof.
  intros W C L H HZ. pose proof (cvar_not_label lc cvar 1 C) as NL. unfold calc_design_param_Xst.
  rewrite (row_dict_ok t r (c_S lc) x) by (intros v Hv; apply H, in_or_app; right; exact Hv). cbn [rbind]. rewrite (evalk_lin lc lsf cvar 1 a b _ C L). cbn [rbind].
  rewrite (row_dict_ok t r (c_R lc) x) by (intros v Hv; apply H, in_or_app; left; exact Hv). cbn [rbind]. rewrite (evalk_lin lc lsf cvar 1 a b _ C L). cbn [rbind].
  match goal with |- (if Reqb ?q 0 then _ else _) = _ => assert (Z : q = 0) end.
  { rewrite (lsum_ext2 (fun v => a v * match dict_get (map (fun c => (c, x c)) (c_R lc)) v with Some y => y | None => 0 end) (fun v => a v * x v)).
    2:{ intros v Hv. rewrite dget_map_self. destruct (in_dec string_dec v (c_R lc)) as [I|I]; [reflexivity|contradiction]. }
    rewrite HZ. match goal with |- _ - lsum (map ?g _) = _ => rewrite (lsum_zero g (c_S lc)); [ring|] end. intros v Hv. rewrite dget_map_self. destruct (in_dec string_dec v (c_R lc)) as [I|I]; [exfalso; exact (wf_R_not_S lc v W I Hv)|ring]. }
  rewrite Z. replace (Reqb 0 0) with true by (symmetry; apply Reqb_spec; reflexivity). reflexivity.
Qed.

Section Case.
Variable fmin : (R -> R) -> R -> R.
Variable chol : nat -> mat -> result mat.
Variable svd : nat -> mat -> result (mat * vec).
Variable inv : nat -> mat -> result mat.
Variable e0 : exn.
Variables fuel lf : nat.
Variable expr : expression.
Variable f : list (string * R) -> R.
Variable evn : option exn.
Variable comb : list (string * list (string * obj)).
Variable resist : list obj.
Variable other : option (list obj).
Variable corr : option frame.
Variable kc : list (string * R).
Variable cases : list (string * list string).
Variable l : loadcomb.
Variable opts : option (option string * form_opts).
Variable a0 : fobj.
Variable n : string.
Variables leading Rl Ol Cl : list string.
Variables a b mu sd : string -> R.
Variable Ro : mat.
Variable cvar : string.
Hypothesis Hl : lc_init comb resist other corr (Some (constants kc)) (Some cases) = Ok l.
Hypothesis Hcs : NoDup (map fst cases).
Hypothesis Hcomb : NoDup (map fst comb).
Hypothesis Hn : dict_get cases n = Some leading.
Hypothesis Hcase : normal_case comb resist (opt_list other) kc leading Rl Ol Cl mu sd.
Hypothesis Hlead : forall m vrs v, In (m, vrs) cases -> In v vrs -> In v (map fst comb).
Hypothesis Hcorr : case_correlation fmin corr (Rl ++ Ol ++ Cl) mu sd Ro.
Hypothesis Hb : exists s, In s (Ol ++ Cl) /\ b s <> 0.
Hypothesis Hp : pointwise expr f.
Hypothesis Hlin : linear_lsf (fun kw => Ok (f kw)) cvar Rl (Ol ++ Cl) a b.
Hypothesis Hcv : In (cvar, 1) kc.
Let N := length (Rl ++ Ol ++ Cl).
Hypothesis Hlap : lapack N chol svd inv e0.
Hypothesis Ha : form_init (case_type opts) = Ok a0.
Hypothesis Hfo : exact_options (case_options opts).
Hypothesis Hlf : (N + 7 < lf)%nat.
Hypothesis Hfu : (Z.to_nat (fo_imax (case_options opts)) < fuel)%nat.

Let rel := rel_case fmin chol svd inv fuel lf expr evn l opts cvar n.

Lemma cs_nd : NoDup (Rl ++ Ol ++ Cl). Proof. destruct Hcase as (_ & _ & _ & H & _). exact (nodup_app_r _ _ H). Qed.
Lemma cs_cv : In cvar (map fst kc). Proof. exact (in_map fst _ _ Hcv). Qed.
Lemma cs_complete : comb_complete comb.
Proof. apply (proj1 (proj1 (C54_construction comb resist other corr (Some (constants kc)) cases)) (ex_intro _ l Hl)). Qed.
Lemma cs_keys : map fst comb = Cl.
Proof.
  destruct (comb_part_keys comb leading cs_complete) as (E & _). rewrite <- E. destruct Hcase as (_ & _ & -> & _). rewrite map_map. apply map_id.
Qed.
Lemma cs_nc : NoDup (names_of resist ++ names_of (opt_list other) ++ map fst comb).
Proof. rewrite cs_keys. destruct Hcase as (E1 & E2 & _). rewrite E1, E2, !normals_names. exact cs_nd. Qed.
Lemma cs_objs z : case_objects [(cvar, OConst cvar z)] comb resist (opt_list other) (constants kc) leading = constants (with_z cvar z kc) ++ normals mu sd (Rl ++ Ol ++ Cl).
Proof. exact (case_objects_z comb resist (opt_list other) kc leading Rl Ol Cl mu sd cvar z Hcase cs_cv). Qed.
Lemma cs_dists z : dists_of (constants (with_z cvar z kc) ++ normals mu sd (Rl ++ Ol ++ Cl)) = map (fun v => Normal v (mu v) (sd v)) (Rl ++ Ol ++ Cl).
Proof. rewrite dists_app, constants_dists, normals_dists. reflexivity. Qed.
Lemma cs_labels : c_R l = Rl /\ c_other l = Ol /\ c_comb l = Cl.
Proof.
  pose proof Hl as H. apply init_ok in H. destruct H as (cs & _ & _ & _ & P1 & _ & Rs & O & _ & _).
  unfold c_R, c_other, c_comb, lc_label_resist, lc_label_other, lc_label_comb, dict_keys.
  pose proof (by_name_all_named _ _ _ Rs) as A1. pose proof (by_name_all_named _ _ _ O) as A2.
  destruct Hcase as (ER & EO & _). 
  rewrite (by_name_distinct resist [] A1) in Rs by (cbn; rewrite ER, normals_names; exact (nodup_app_l _ _ cs_nd)).
  rewrite (by_name_distinct (opt_list other) [] A2) in O by (cbn; rewrite EO, normals_names; exact (nodup_app_l _ _ (nodup_app_r _ _ cs_nd))).
  injection Rs as Rs. injection O as O. cbn [app] in *. split; [|split].
  - rewrite <- Rs. fold (labelled resist). rewrite ER, normals_labelled, map_map. apply map_id.
  - transitivity (map fst (opt_dict (lc_other l))); [destruct (lc_other l); reflexivity|]. rewrite <- O. fold (labelled (opt_list other)). rewrite EO, normals_labelled, map_map. apply map_id.
  - destruct (pick_spec _ _ _ P1) as (K & _). rewrite K. exact cs_keys.
Qed.
Lemma cs_S : c_S l = Ol ++ Cl. Proof. unfold c_S. destruct cs_labels as (_ & -> & ->). reflexivity. Qed.
Lemma cs_wf : cal_wf l.
Proof.
  pose proof Hl as H. apply init_ok in H. destruct H as (cs & Ecs & EL & _). injection Ecs as <-. split.
  - rewrite cs_S. destruct cs_labels as (-> & _). exact cs_nd.
  - intros m vrs v H1 H2. destruct cs_labels as (_ & _ & ->). rewrite <- cs_keys. rewrite EL in H1. exact (Hlead m vrs v H1 H2).
Qed.
Lemma cs_const : lc_const l = Some (map (fun kv => (fst kv, OConst (fst kv) (snd kv))) kc).
Proof.
  pose proof Hl as H. apply init_ok in H. destruct H as (cs & _ & _ & _ & _ & _ & _ & _ & (d & Ed & Bd) & _).
  rewrite (by_name_distinct (constants kc) [] (by_name_all_named _ _ _ Bd)) in Bd.
  - injection Bd as <-. rewrite Ed. f_equal. exact (constants_labelled kc).
  - cbn. rewrite constants_names. destruct Hcase as (_ & _ & _ & H & _). exact (nodup_app_l _ _ H).
Qed.
Lemma cs_consts_ok : consts_ok l cvar 1.
Proof.
  exists (map (fun kv => (fst kv, OConst (fst kv) (snd kv))) kc). split; [exact cs_const|]. split; [|split].
  - intros k o Hi. apply in_map_iff in Hi. destruct Hi as (kv & E & _). injection E as <- <-. eauto.
  - exists cvar. assert (ND : NoDup (map fst kc)) by (destruct Hcase as (_ & _ & _ & H & _); exact (nodup_app_l _ _ H)).
    clear - Hcv ND. induction kc as [|[k v] r IH]; [destruct Hcv|]. cbn. inversion ND as [|x y H1 H2]; subst. destruct (String.eqb_spec cvar k) as [E|Ne].
    + destruct Hcv as [Hc|Hc]; [injection Hc as -> ->; reflexivity|]. exfalso. apply H1. rewrite <- E. exact (in_map fst _ _ Hc).
    + destruct Hcv as [Hc|Hc]; [injection Hc as -> ->; contradiction|]. exact (IH Hc H2).
  - rewrite cs_S. destruct cs_labels as (-> & _). rewrite map_map. cbn [fst]. intros v Hv I. destruct Hcase as (_ & _ & _ & H & _). exact (nodup_app_disj _ _ v H I Hv).
Qed.

Let Sl := Ol ++ Cl.
Let lab := label Rl Sl.
Let B := margin_beta Rl Sl a b mu sd Ro.
Let V := margin_var Rl Sl a b sd Ro.
(** the entry of the covariance of the variables with the margin *)
Definition cs_cov (z : R) (i : nat) : R := sd (lab i) * fsum N (fun j => Ro i j * (weight Rl a b z (lab j) * sd (lab j))).

Lemma cs_facts : pos_def N Ro /\ (forall i j, (i < N)%nat -> (j < N)%nat -> Ro i j = Ro j i).
Proof.
  destruct (case_corr_use fmin corr (Rl ++ Ol ++ Cl) mu sd Ro Hcorr) with (h := by_hand corr (normals mu sd (Rl ++ Ol ++ Cl))) (objs := normals mu sd (Rl ++ Ol ++ Cl)) as (M & Ro' & lg & _ & _ & _ & _ & _ & H & _ & S).
  - destruct Hb as (s & Hs & _). intros E. assert (I : In s (Rl ++ Ol ++ Cl)) by (apply in_or_app; right; exact Hs). rewrite E in I. destruct I.
  - reflexivity.
  - apply accepted_hand; [intros o Ho; unfold normals in Ho; apply in_map_iff in Ho; destruct Ho as (v & <- & _); discriminate|rewrite normals_names; exact cs_nd].
  - apply normals_dists.
  - split; [exact H|exact S].
Qed.

Lemma cs_run z : exists fr, rel z = Ok fr /\ fm_beta fr = B z /\ xstar_labels fr = Rl ++ Ol ++ Cl /\
  (exists x, fm_x fr = map x (Rl ++ Ol ++ Cl) /\ z * lsum (map (fun r => a r * x r) Rl) - lsum (map (fun s => b s * x s) (Ol ++ Cl)) = 0 /\
     forall i, (i < N)%nat -> x (lab i) = mu (lab i) - margin_mean Rl Sl a b mu z / V z * cs_cov z i) /\
  forall bt, fm_u2x fr (map (fun al => al * bt) (fm_alpha fr)) = vlist N (fun i => mu (lab i) - bt / sqrt (V z) * cs_cov z i).
Proof.
  set (objs := constants (with_z cvar z kc) ++ normals mu sd (Rl ++ Ol ++ Cl)).
  set (h := by_hand corr objs).
  assert (Hne : Rl ++ Ol ++ Cl <> []).
  { destruct Hb as (s & Hs & _). intros E. assert (I : In s (Rl ++ Ol ++ Cl)) by (apply in_or_app; right; exact Hs). rewrite E in I. destruct I. }
  assert (AN : all_named objs).
  { intros o Ho. apply in_app_or in Ho. destruct Ho as [Ho|Ho]; apply in_map_iff in Ho; destruct Ho as (v & <- & _); discriminate. }
  assert (NN : names_of objs = map fst kc ++ Rl ++ Ol ++ Cl) by (unfold objs; rewrite names_app, constants_names, normals_names, with_z_names; reflexivity).
  assert (NDo : NoDup (names_of objs)) by (rewrite NN; destruct Hcase as (_ & _ & _ & H & _); exact H).
  assert (EA : accepted h = objs) by (apply accepted_hand; assumption).
  assert (ED : dists_of objs = map (fun v => Normal v (mu v) (sd v)) (Rl ++ Ol ++ Cl)) by (apply cs_dists).
  assert (ENm : map rv_name (dists_of objs) = Rl ++ Ol ++ Cl) by (rewrite ED, map_map; cbn [rv_name Normal rv_of]; apply map_id).
  assert (EC : consts_of objs = with_z cvar z kc) by (unfold objs; rewrite consts_app, constants_consts, normals_consts; apply app_nil_r).
  assert (EN : ndists h = N) by (unfold ndists; rewrite EA, ED, map_length; reflexivity).
  destruct (case_corr_use fmin corr (Rl ++ Ol ++ Cl) mu sd Ro Hcorr Hne h objs eq_refl EA ED) as (M & Ro' & lg & HM & HM1 & HM2 & HRo & HPD' & HPD & ERo & HS). fold N in HM1, HM2, HRo, HPD', HPD, ERo, HS.
  assert (Hn1 : (1 <= N)%nat) by (unfold N; destruct (Rl ++ Ol ++ Cl); [contradiction|cbn; lia]).
  assert (Hsd' : forall v, In v (Rl ++ Ol ++ Cl) -> sd v <> 0) by (destruct Hcase as (_ & _ & _ & _ & H); exact H).
  assert (Hlab : forall i, (i < N)%nat -> In (lab i) (Rl ++ Ol ++ Cl)) by (intros i Hi; apply nth_In; exact Hi).
  set (cf := fun i => weight Rl a b z (lab i)).
  assert (EV : forall R', (forall i j, (i < N)%nat -> (j < N)%nat -> R' i j = Ro i j) -> fsum N (fun i => fsum N (fun j => (cf i * sd (lab i)) * R' i j * (cf j * sd (lab j)))) = V z).
  { intros R' HR'. unfold V, margin_var. fold N. apply fsum_ext. intros i Hi. apply fsum_ext. intros j Hj. rewrite HR' by assumption. reflexivity. }
  assert (EMn : 0 + fsum N (fun i => cf i * mu (lab i)) = margin_mean Rl Sl a b mu z) by (rewrite Rplus_0_l; exact (sumW Rl Sl a b cs_nd mu z)).
  pose proof (lin_run fmin chol svd inv e0 h expr f lf (fun i => lab i) (fun i => mu (lab i)) (fun i => sd (lab i)) cf 0 M Ro' lg a0 (case_type opts) (case_options opts) evn fuel) as LR.
  cbv zeta in LR. rewrite EN in LR. rewrite (EV Ro' ERo) in LR. rewrite EMn in LR.
  destruct LR as (T & A & a' & c & r & u & ER & ETA & ERes & Eu & E0 & EG & AL & HU & EB & ET & HT & HF & ENo & VP & EM & EAf); try assumption.
  - intros i Hi. rewrite EA, ED, nth_error_map, (nth_error_nth' (Rl ++ Ol ++ Cl) ""%string Hi). reflexivity.
  - intros i Hi. apply Hsd', Hlab, Hi.
  - destruct Hb as (s & Hs & Nb). destruct (pos_in s (Rl ++ Ol ++ Cl) ltac:(apply in_or_app; right; exact Hs)) as (P1 & P2). exists (pos s (Rl ++ Ol ++ Cl)). split; [exact P1|].
    unfold cf, lab, label. change (Rl ++ Sl) with (Rl ++ Ol ++ Cl). rewrite P2. unfold weight. destruct (in_dec string_dec s Rl) as [I|_]; [exfalso; exact (nodup_app_disj _ _ s cs_nd I Hs)|lra].
  - intros q Hq. unfold args_at. rewrite EA, ENm, EC.
    assert (NL : ~ In cvar (Rl ++ Ol ++ Cl)) by (destruct Hcase as (_ & _ & _ & H & _); exact (nodup_app_disj _ _ cvar H cs_cv)).
    assert (KC : map fst (combine (Rl ++ Ol ++ Cl) q) = Rl ++ Ol ++ Cl) by (apply map_fst_combine; exact Hq).
    assert (X := Hlin (combine (Rl ++ Ol ++ Cl) q ++ with_z cvar z kc) z (fun v => nth (pos v (Rl ++ Ol ++ Cl)) q 0)).
    rewrite dget_app_r in X by (rewrite KC; exact NL). specialize (X (dget_with_z cvar z kc cs_cv)).
    assert (X' := X ltac:(intros v Hv; apply dget_app_l; destruct (pos_in v _ Hv) as (P1 & P2); apply dget_combine; [exact cs_nd|exact Hq|]; rewrite (nth_error_nth' _ ""%string P1), P2; reflexivity)).
    injection X' as X'. rewrite X', Rplus_0_l. refine (eq_trans (eq_sym (sumW Rl Sl a b cs_nd (fun v => nth (pos v (Rl ++ Ol ++ Cl)) q 0) z)) _). apply fsum_ext. intros i Hi. unfold cf, lab. do 2 f_equal. exact (pos_nth _ i cs_nd Hi).
  - assert (HU' : forall t v, veq N v (fun i => t * - fsum N (fun k => cf k * sd (lab k) * A k i)) -> forall k, (k < N)%nat ->
      u_to_x N A (marg_at (sm_run h)) v k = mu (lab k) - t * cs_cov z k).
    { intros t v Hv k Hk. unfold u_to_x. cbv zeta. rewrite (lin_z N A Ro' (fun i => cf i * sd (lab i)) t v HF Hv k Hk).
      assert (EMk : marg_at (sm_run h) k = Normal (lab k) (mu (lab k)) (sd (lab k))).
      { unfold marg_at. destruct (registry h) as (_ & _ & Em & _). rewrite Em, EA, ED.
        rewrite (nth_indep _ rv0 (Normal ""%string (mu ""%string) (sd ""%string))) by (rewrite map_length; exact Hk).
        exact (map_nth (fun v => Normal v (mu v) (sd v)) (Rl ++ Ol ++ Cl) ""%string k). }
      rewrite EMk. cbn. unfold cs_cov. rewrite (fsum_ext N (fun i => Ro' k i * (cf i * sd (lab i))) (fun j => Ro k j * (weight Rl a b z (lab j) * sd (lab j)))) by (intros j Hj; rewrite ERo by assumption; reflexivity). ring. }
    set (s' := addCallFunction (setModifiedCorrelation (sm_run h) (rows_of N Ro')) c) in *.
    assert (EL : length (sm_marg s') = N) by exact EM.
    assert (EF : rel z = Ok (mkForm (margin_mean Rl Sl a b mu z / sqrt (V z)) (vlist N (alpha_of N (fr_grad r))) (sm_names s') (map fst (sm_consts s')) (fun us => vlist N (u_to_x N A (marg_at s') (vof us))) (vlist N (u_to_x N A (marg_at s') u)))).
    { unfold rel, rel_case.
      destruct (C105_case_by_hand fmin chol svd inv fuel lf expr evn comb resist other corr (Some (constants kc)) cases l opts n leading [(cvar, OConst cvar z)] Hl Hcomb Hcs cs_nc) as (CH & _); [|exact Hn|].
      { cbn [opt_list]. rewrite constants_names. destruct Hcase as (_ & _ & _ & H & _). exact (nodup_app_l _ _ H). }
      cbv zeta in CH. cbn [opt_list] in CH. rewrite cs_objs in CH. fold objs in CH. rewrite CH.
      - fold h. unfold form_case. fold (case_type opts). fold (case_options opts). rewrite Ha, ER. unfold formres_of. rewrite EL, EB. unfold form_alpha. rewrite Eu, ETA. reflexivity.
      - exact AN.
      - exact NDo.
      - intros fr Efr. rewrite ENm. pose proof Hcorr as HC. unfold case_correlation in HC. rewrite Efr in HC. apply HC. }
    eexists. split; [exact EF|]. cbn [fm_beta fm_x fm_u2x fm_alpha]. split; [reflexivity|]. split; [|split].
    + unfold xstar_labels. cbn [fm_names fm_consts]. change (sm_names s') with (sm_names (sm_run h)). change (sm_consts s') with (sm_consts (sm_run h)).
      destruct (registry h) as (E1 & _ & _ & _ & E2 & _). rewrite E1, E2, EA, NN, EC, with_z_names, filter_app.
      assert (F1 : filter (fun x => negb (mem_str x (map fst kc))) (map fst kc) = []).
      { apply filter_none. intros x Hx. rewrite (proj2 (mem_str_In _ _) Hx). reflexivity. }
      rewrite F1. cbn [app]. apply filter_all. intros x Hx. rewrite (mem_false x (map fst kc)); [reflexivity|]. intros I. destruct Hcase as (_ & _ & _ & H & _). exact (nodup_app_disj _ _ x H I Hx).
    + set (xs := fun v => nth (pos v (Rl ++ Ol ++ Cl)) (vlist N (u_to_x N A (marg_at s') u)) 0).
      assert (EX : forall i, (i < N)%nat -> xs (lab i) = u_to_x N A (marg_at (sm_run h)) u i).
      { intros i Hi. unfold xs, lab, label. change (Rl ++ Sl) with (Rl ++ Ol ++ Cl). rewrite (pos_nth _ i cs_nd Hi). now apply vlist_nth. }
      exists xs. split; [|split; [|intros i Hi; rewrite (EX i Hi); exact (HU' (margin_mean Rl Sl a b mu z / V z) u HU i Hi)]].
      * unfold vlist. refine (eq_trans _ (f_equal (map xs) (map_nth_seq (Rl ++ Ol ++ Cl) ""%string))). rewrite map_map. apply map_ext_in. intros i Hi. apply in_seq in Hi. symmetry. apply EX. unfold N. lia.
      * change (Ol ++ Cl) with Sl. rewrite <- (sumW Rl Sl a b cs_nd xs z).
        rewrite (fsum_ext _ _ (fun i => cf i * mu (lab i) - margin_mean Rl Sl a b mu z / V z * (cf i * cs_cov z i))).
        2:{ intros i Hi. fold lab. rewrite (EX i Hi), (HU' (margin_mean Rl Sl a b mu z / V z) u HU i Hi). unfold cf. ring. }
        rewrite fsum_minus, fsum_scal. change (length (Rl ++ Sl)) with N. rewrite <- (Rplus_0_l (fsum N (fun i => cf i * mu (lab i)))), EMn.
        replace (fsum N (fun i => cf i * cs_cov z i)) with (V z); [field; lra|]. rewrite <- (EV Ro ltac:(reflexivity)). apply fsum_ext. intros i Hi. unfold cs_cov. rewrite <- !fsum_scal. apply fsum_ext. intros j Hj. unfold cf. ring.
    + intros bt. unfold vlist. apply map_ext_in. intros i Hi. apply in_seq in Hi. cbn in Hi.
      apply (HU' (bt / sqrt (V z)) (vof (map (fun al => al * bt) (map (alpha_of N (fr_grad r)) (seq 0 N))))); [|lia].
      intros k Hk. unfold vof. rewrite map_map. rewrite (nth_indep _ 0 (alpha_of N (fr_grad r) 0%nat * bt)) by (rewrite map_length, seq_length; exact Hk).
      rewrite (map_nth (fun x => alpha_of N (fr_grad r) x * bt)), seq_nth by exact Hk. cbn [Nat.add]. rewrite (AL k Hk). unfold Rdiv. ring.
Qed.

Let m1 := lsum (map (fun r => a r * mu r) Rl).
Let m2 := lsum (map (fun s => b s * mu s) Sl).
Let q2 := bil N (wK Rl Sl sd Ro) (wP Rl Sl a) (wP Rl Sl a).
Let q1 := bil N (wK Rl Sl sd Ro) (wP Rl Sl a) (wQ Rl Sl b).
Let q0 := bil N (wK Rl Sl sd Ro) (wQ Rl Sl b) (wQ Rl Sl b).
Let F bt := excess Rl Sl a b mu sd Ro bt.
Definition cs_D (bt z : R) : R := m1 - bt * ((q2 * z - q1) / sqrt (q2 * z ^ 2 - 2 * q1 * z + q0)).
Lemma cs_sd : forall v, In v (Rl ++ Sl) -> sd v <> 0. Proof. destruct Hcase as (_ & _ & _ & _ & H). exact H. Qed.
Lemma cs_V z : V z = q2 * z ^ 2 - 2 * q1 * z + q0.
Proof. apply (w_quad Rl Sl a b sd Ro). exact (proj2 cs_facts). Qed.
Lemma cs_Q z : 0 < q2 * z ^ 2 - 2 * q1 * z + q0.
Proof. rewrite <- cs_V. apply (w_pos Rl Sl a b sd Ro cs_nd (proj1 cs_facts) cs_sd Hb). Qed.
Lemma cs_disc : q1 ^ 2 <= q2 * q0.
Proof. exact (w_disc Rl Sl a b sd Ro cs_nd (proj2 cs_facts) (proj1 cs_facts) cs_sd Hb). Qed.
Lemma cs_F bt z : F bt z = m1 * z - m2 - bt * sqrt (q2 * z ^ 2 - 2 * q1 * z + q0).
Proof. unfold F, excess, margin_mean. fold m1 m2. change (margin_var Rl Sl a b sd Ro z) with (V z). rewrite cs_V. ring. Qed.
Lemma cs_derive bt z : is_derive (F bt) z (cs_D bt z).
Proof. apply (is_derive_ext (fun z => m1 * z - m2 - bt * sqrt (q2 * z ^ 2 - 2 * q1 * z + q0))); [intros t; symmetry; apply cs_F|]. exact (nw_derive m1 m2 q2 q1 q0 bt cs_Q z). Qed.
Lemma cs_covP z : fsum N (fun i => wP Rl Sl a i * cs_cov z i) = q2 * z - q1.
Proof.
  transitivity (bil N (wK Rl Sl sd Ro) (wP Rl Sl a) (fun i => z * wP Rl Sl a i - wQ Rl Sl b i)); [|rewrite bil_r; fold q2 q1; ring].
  unfold bil. apply fsum_ext. intros i _. f_equal. unfold cs_cov. rewrite <- fsum_scal. apply fsum_ext. intros j _. unfold lab. rewrite (w_weight Rl Sl a b z j). unfold wK. ring.
Qed.
Lemma cs_covQ z : fsum N (fun i => wQ Rl Sl b i * cs_cov z i) = q1 * z - q0.
Proof.
  assert (S : forall i j, (i < N)%nat -> (j < N)%nat -> wK Rl Sl sd Ro i j = wK Rl Sl sd Ro j i).
  { intros i j Hi Hj. unfold wK. rewrite (proj2 cs_facts i j Hi Hj). ring. }
  transitivity (bil N (wK Rl Sl sd Ro) (wQ Rl Sl b) (fun i => z * wP Rl Sl a i - wQ Rl Sl b i)).
  - unfold bil. apply fsum_ext. intros i _. f_equal. unfold cs_cov. rewrite <- fsum_scal. apply fsum_ext. intros j _. unfold lab. rewrite (w_weight Rl Sl a b z j). unfold wK. ring.
  - rewrite bil_r, (bil_sym N _ (wQ Rl Sl b) (wP Rl Sl a) S). fold q1 q0. ring.
Qed.
Lemma cs_project bt z fr : rel z = Ok fr ->
  project l (fun kw => Ok (f kw)) bt (Rl ++ Ol ++ Cl) fr = if Req_EM_T (cs_D bt z) 0 then Err EZeroDiv else Ok (Rabs (z - F bt z / cs_D bt z)).
Proof.
  intros Hr. destruct (cs_run z) as (fr' & E & _ & _ & _ & HU). rewrite Hr in E. injection E as <-. specialize (HU bt).
  set (xi := fun i => mu (lab i) - bt / sqrt (V z) * cs_cov z i) in *.
  unfold project, one_row. rewrite HU, vlist_length. fold N. rewrite Nat.eqb_refl. cbn [rbind].
  set (t := mkTbl _ _ _). set (x := fun v => xi (pos v (Rl ++ Sl))).
  assert (HT : forall v, In v (c_R l ++ c_S l) -> In v (t_cols t) /\ t_val t "0"%string v = Some (x v)).
  { intros v Hv. rewrite cs_S in Hv. destruct cs_labels as (EL & _). rewrite EL in Hv. split; [exact Hv|]. unfold t. cbn [t_val].
    rewrite (index_pos v _ Hv). destruct (pos_in v _ Hv) as (P1 & _). fold N in P1. rewrite (nth_error_nth' _ 0) by (rewrite vlist_length; exact P1). rewrite vlist_nth by exact P1. reflexivity. }
  assert (EX : forall i, (i < N)%nat -> x (lab i) = xi i).
  { intros i Hi. unfold x, lab, label. rewrite (pos_nth (Rl ++ Sl) i cs_nd Hi). reflexivity. }
  assert (ER : lsum (map (fun v => a v * x v) (c_R l)) = cs_D bt z).
  { destruct cs_labels as (-> & _). rewrite <- (sumP Rl Sl a cs_nd x). fold lab. change (length (Rl ++ Sl)) with N.
    rewrite (fsum_ext N _ (fun i => wP Rl Sl a i * mu (lab i) - bt / sqrt (V z) * (wP Rl Sl a i * cs_cov z i))) by (intros i Hi; rewrite (EX i Hi); unfold xi; ring).
    rewrite fsum_minus, fsum_scal, cs_covP. pose proof (sumP Rl Sl a cs_nd mu) as SP. fold lab in SP. change (length (Rl ++ Sl)) with N in SP. rewrite SP. fold m1. unfold cs_D. rewrite <- cs_V. unfold Rdiv. ring. }
  assert (ES : lsum (map (fun v => b v * x v) (c_S l)) = m2 + bt * ((q0 - q1 * z) / sqrt (V z))).
  { rewrite cs_S. change (Ol ++ Cl) with Sl. rewrite <- (sumQ Rl Sl b cs_nd x). fold lab. change (length (Rl ++ Sl)) with N.
    rewrite (fsum_ext N _ (fun i => wQ Rl Sl b i * mu (lab i) - bt / sqrt (V z) * (wQ Rl Sl b i * cs_cov z i))) by (intros i Hi; rewrite (EX i Hi); unfold xi; ring).
    rewrite fsum_minus, fsum_scal, cs_covQ. pose proof (sumQ Rl Sl b cs_nd mu) as SP. fold lab in SP. change (length (Rl ++ Sl)) with N in SP. rewrite SP. fold m2. unfold Rdiv. ring. }
  assert (LL : linear_lsf (fun kw => Ok (f kw)) cvar (c_R l) (c_S l) a b) by (rewrite cs_S; destruct cs_labels as (-> & _); exact Hlin).
  destruct (Req_EM_T (cs_D bt z) 0) as [E0|E0].
  - exact (design_param_zero l _ cvar a b t "0"%string x cs_wf cs_consts_ok LL HT (eq_trans ER E0)).
  - rewrite (C61_design_parameter l _ cvar 1 a b t "0"%string x cs_wf cs_consts_ok LL HT) by (rewrite ER; lra). rewrite ER, ES, Rabs_R1, Rmult_1_l.
    rewrite cs_V, <- Rabs_div by exact E0. unfold cs_D. rewrite (nw_ratio m1 m2 q2 q1 q0 bt cs_Q z E0). unfold nw_next. rewrite <- cs_F. reflexivity.
Qed.
End Case.

(** ** C108 One step of the alpha projection, with the FORM analyses it runs: on a linear margin of normal
    variables the analysis at a design z has the exact index and a design point on the limit state, and the
    next design is the absolute value of Newton's step for "margin mean minus target times margin standard
    deviation" (a ZeroDivisionError where the slope vanishes) *)
Theorem C108_projection_is_newton : forall fmin chol svd inv fuel lf expr f evn comb resist other corr kc cases l opts n leading Rl Ol Cl a b mu sd Ro cvar,
  linear_calibration fmin chol svd inv fuel lf expr f comb resist other corr kc cases l opts n leading Rl Ol Cl a b mu sd Ro cvar ->
  let Sl := Ol ++ Cl in
  forall z, exists fr, rel_case fmin chol svd inv fuel lf expr evn l opts cvar n z = Ok fr /\
    0 < margin_var Rl Sl a b sd Ro z /\ fm_beta fr = margin_beta Rl Sl a b mu sd Ro z /\
    (exists x, fm_x fr = map x (Rl ++ Sl) /\ z * lsum (map (fun r => a r * x r) Rl) - lsum (map (fun s => b s * x s) Sl) = 0 /\
       forall i, (i < length (Rl ++ Sl))%nat -> x (label Rl Sl i) = mu (label Rl Sl i) - margin_mean Rl Sl a b mu z / margin_var Rl Sl a b sd Ro z * margin_cov Rl Sl a b sd Ro z i) /\
    xstar_labels fr = Rl ++ Sl /\
    forall beta_t, exists d, is_derive (excess Rl Sl a b mu sd Ro beta_t) z d /\
      project l (fun kw => Ok (f kw)) beta_t (Rl ++ Sl) fr = if Req_EM_T d 0 then Err EZeroDiv else Ok (Rabs (z - excess Rl Sl a b mu sd Ro beta_t z / d)).
Proof.
  intros fmin chol svd inv fuel lf expr f evn comb resist other corr kc cases l opts n leading Rl Ol Cl a b mu sd Ro cvar (Hl & Hcs & Hcomb & Hn & Hcase & Hlead & Hcorr & Hb & Hp & Hlin & Hcv & (e0 & Hlap) & (a0 & Ha) & Hfo & Hlf & Hfu) Sl z.
  destruct (cs_run fmin chol svd inv e0 fuel lf expr f evn comb resist other corr kc cases l opts a0 n leading Rl Ol Cl a b mu sd Ro cvar Hl Hcs Hcomb Hn Hcase Hcorr Hb Hp Hlin Hcv Hlap Ha Hfo Hlf Hfu z) as (fr & E & EB & EL & EX & EU).
  exists fr. split; [exact E|]. split.
  { unfold Sl. rewrite (cs_V fmin comb resist other corr kc leading Rl Ol Cl a b mu sd Ro Hcase Hcorr Hb). apply (cs_Q fmin comb resist other corr kc leading Rl Ol Cl a b mu sd Ro Hcase Hcorr Hb). }
  split; [exact EB|]. split; [exact EX|]. split; [exact EL|]. intros bt.
  exists (cs_D Rl Ol Cl a b mu sd Ro bt z). split; [apply (cs_derive fmin comb resist other corr kc leading Rl Ol Cl a b mu sd Ro Hcase Hcorr Hb)|].
  exact (cs_project fmin chol svd inv e0 fuel lf expr f evn comb resist other corr kc cases l opts a0 n leading Rl Ol Cl a b mu sd Ro cvar Hl Hcs Hcomb Hn Hcase Hlead Hcorr Hb Hp Hlin Hcv Hlap Ha Hfo Hlf Hfu bt z fr E).
Qed.
Print Assumptions C108_projection_is_newton.

(** ** C108 Convergence of the calibration with the alpha projection.  If some design [zs] meets the target
    exactly with the index still increasing there, and the first projected design does not exceed it (so in
    particular when the declared constant 1 does not), then the designs after the first are nondecreasing,
    stay at or below [zs] -- so every one of them has an index at or below the target -- and approach it at
    least geometrically; with enough iterations the calibration ends with an analysis within the tolerance. *)
Theorem C108_alpha_converges : forall fmin chol svd inv fuel lf expr f evn comb resist other corr kc cases l opts n leading Rl Ol Cl a b mu sd Ro cvar beta_t zs ds d1,
  linear_calibration fmin chol svd inv fuel lf expr f comb resist other corr kc cases l opts n leading Rl Ol Cl a b mu sd Ro cvar ->
  let Sl := Ol ++ Cl in let F := excess Rl Sl a b mu sd Ro beta_t in let index := margin_beta Rl Sl a b mu sd Ro in
  let rel := rel_case fmin chol svd inv fuel lf expr evn l opts cvar in
  0 <= beta_t -> F zs = 0 -> is_derive F zs ds -> 0 < ds ->
  is_derive F 1 d1 -> (1 <= zs \/ d1 <> 0 /\ Rabs (1 - F 1 / d1) <= zs) ->
  exists Z : nat -> R, Z 0%nat = 1 /\
    (forall k, exists d, is_derive F (Z k) d /\ d <> 0 /\ Z (S k) = Rabs (Z k - F (Z k) / d)) /\
    (forall k, (1 <= k)%nat -> Z k <= Z (S k) <= zs /\ index (Z k) <= beta_t) /\
    (exists rho, 0 <= rho < 1 /\ forall k, zs - Z (S k) <= rho ^ k * (zs - Z 1%nat)) /\
    forall abstol, 0 < abstol + 1e-5 * Rabs beta_t -> exists K, forall max_iter steps, (1 <= max_iter)%nat -> (K <= max_iter)%nat -> (max_iter <= steps)%nat ->
      exists k z fr, calibration_alpha l (fun kw => Ok (f kw)) beta_t rel steps 1 abstol max_iter n = Ok (Some (k, z, fr)) /\
        (k <= K)%nat /\ zv z = Z k /\ rel n (zv z) = Ok fr /\ fm_beta fr = index (Z k) /\ close_to beta_t abstol fr /\
        ((1 <= k)%nat -> zv z <= zs /\ fm_beta fr <= beta_t).
Proof.
  intros fmin chol svd inv fuel lf expr f evn comb resist other corr kc cases l opts n leading Rl Ol Cl a b mu sd Ro cvar beta_t zs ds d1 HS Sl F index rel HB HF Hds Pds Hd1 Hst.
  pose proof HS as (Hl & Hcs & Hcomb & Hn & Hcase & Hlead & Hcorr & Hb & _).
  set (N := length (Rl ++ Sl)).
  set (m1 := lsum (map (fun r => a r * mu r) Rl)). set (m2 := lsum (map (fun s => b s * mu s) Sl)).
  set (q2 := bil N (wK Rl Sl sd Ro) (wP Rl Sl a) (wP Rl Sl a)). set (q1 := bil N (wK Rl Sl sd Ro) (wP Rl Sl a) (wQ Rl Sl b)). set (q0 := bil N (wK Rl Sl sd Ro) (wQ Rl Sl b) (wQ Rl Sl b)).
  assert (HQ : forall z, 0 < q2 * z ^ 2 - 2 * q1 * z + q0) by exact (cs_Q fmin comb resist other corr kc leading Rl Ol Cl a b mu sd Ro Hcase Hcorr Hb).
  assert (HC : q1 ^ 2 <= q2 * q0) by exact (cs_disc fmin comb resist other corr kc leading Rl Ol Cl a b mu sd Ro Hcase Hcorr Hb).
  assert (EF : forall z, F z = m1 * z - m2 - beta_t * sqrt (q2 * z ^ 2 - 2 * q1 * z + q0)) by exact (cs_F fmin comb resist other corr kc leading Rl Ol Cl a b mu sd Ro Hcase Hcorr Hb beta_t).
  assert (EV : forall z, margin_var Rl Sl a b sd Ro z = q2 * z ^ 2 - 2 * q1 * z + q0) by exact (cs_V fmin comb resist other corr kc leading Rl Ol Cl a b mu sd Ro Hcase Hcorr Hb).
  set (D := fun z => m1 - beta_t * ((q2 * z - q1) / sqrt (q2 * z ^ 2 - 2 * q1 * z + q0))).
  assert (HD : forall z, is_derive F z (D z)) by exact (cs_derive fmin comb resist other corr kc leading Rl Ol Cl a b mu sd Ro Hcase Hcorr Hb beta_t).
  assert (UD : forall z d, is_derive F z d -> d = D z) by (intros z d H; rewrite <- (is_derive_unique _ _ _ H); exact (is_derive_unique _ _ _ (HD z))).
  assert (HF' : m1 * zs - m2 - beta_t * sqrt (q2 * zs ^ 2 - 2 * q1 * zs + q0) = 0) by (rewrite <- EF; exact HF).
  assert (HDs : 0 < D zs) by (rewrite <- (UD zs ds Hds); exact Pds).
  set (nx := nw_next m1 m2 q2 q1 q0 beta_t).
  assert (Enx : forall z, nx z = z - F z / D z) by (intros z; unfold nx, nw_next; rewrite <- EF; reflexivity).
  assert (H1 : D 1 <> 0 /\ Rabs (nx 1) <= zs).
  { rewrite (UD 1 d1 Hd1) in Hst. destruct Hst as [H|(H & H')]; [|rewrite Enx; split; assumption].
    pose proof (nw_dpos m1 m2 q2 q1 q0 beta_t HQ HC HB zs HDs 1 H) as P. pose proof (nw_up m1 m2 q2 q1 q0 beta_t HQ HC HB zs HF' HDs 1 H) as U1. pose proof (nw_below m1 m2 q2 q1 q0 beta_t HQ HC HB zs HF' 1 P) as U2.
    split; [apply Rgt_not_eq; exact P|]. fold nx in U1, U2. rewrite Rabs_right; lra. }
  destruct H1 as (ND1 & H1).
  set (Z := nw_seq m1 m2 q2 q1 q0 beta_t).
  assert (ZK : forall k, 0 <= Z (S k) <= zs /\ Z (S (S k)) = nx (Z (S k)) /\ Z (S k) <= Z (S (S k))) by exact (nw_seq_ok m1 m2 q2 q1 q0 beta_t HQ HC HB zs HF' HDs H1).
  assert (DZ : forall k, D (Z k) <> 0).
  { intros [|k]; [exact ND1|]. apply Rgt_not_eq. exact (nw_dpos m1 m2 q2 q1 q0 beta_t HQ HC HB zs HDs _ (proj2 (proj1 (ZK k)))). }
  assert (Eix : forall z, index z = (m1 * z - m2) / sqrt (q2 * z ^ 2 - 2 * q1 * z + q0)).
  { intros z. unfold index, margin_beta, margin_mean. rewrite EV. fold m1 m2. f_equal. ring. }
  assert (Bix : forall k, (1 <= k)%nat -> index (Z k) <= beta_t).
  { intros [|k] Hk; [lia|]. rewrite Eix. pose proof (nw_beta m1 m2 q2 q1 q0 beta_t HQ HC HB zs HF' HDs _ (proj2 (proj1 (ZK k)))) as (A & _). unfold Z. fold Z. lra. }
  assert (R0 : forall z, exists fr, rel n z = Ok fr /\ fm_beta fr = index z /\ xstar_labels fr = Rl ++ Sl).
  { intros z. destruct (C108_projection_is_newton _ _ _ _ _ _ _ _ evn _ _ _ _ _ _ _ _ _ _ _ _ _ _ _ _ _ _ _ HS z) as (fr & E & _ & EB & _ & EL & _). exists fr. repeat split; assumption. }
  assert (PR : forall z fr, rel n z = Ok fr -> D z <> 0 -> project l (fun kw => Ok (f kw)) beta_t (Rl ++ Sl) fr = Ok (Rabs (nx z))).
  { intros z fr E Nz. destruct (C108_projection_is_newton _ _ _ _ _ _ _ _ evn _ _ _ _ _ _ _ _ _ _ _ _ _ _ _ _ _ _ _ HS z) as (fr' & E' & _ & _ & _ & _ & HP).
    unfold rel in E. rewrite E in E'. injection E' as <-. destruct (HP beta_t) as (d & Hd & EP). refine (eq_trans EP _). rewrite (UD z d Hd). destruct (Req_EM_T (D z) 0) as [E0|_]; [contradiction|]. rewrite Enx. reflexivity. }
  exists Z. split; [reflexivity|]. split; [|split; [|split]].
  - intros k. exists (D (Z k)). split; [apply HD|]. split; [apply DZ|]. rewrite <- Enx. reflexivity.
  - intros [|k] Hk; [lia|]. pose proof (ZK k) as (A1 & A2 & A3). pose proof (ZK (S k)) as (A4 & _). repeat split; try lra. apply Bix. lia.
  - eexists. split; [exact (nw_rho m1 m2 q2 q1 q0 beta_t HQ HC HB zs HF' HDs H1)|]. exact (nw_seq_rate m1 m2 q2 q1 q0 beta_t HQ HC HB zs HF' HDs H1).
  - intros abstol Ht.
    destruct (nw_seq_beta m1 m2 q2 q1 q0 beta_t HQ HC HB zs HF' HDs H1 _ Ht) as (K & HK). exists (S K). intros max_iter steps M1 MK MS.
    destruct (R0 1) as (f0 & E0 & _ & EL0).
    assert (CL : forall k fr, (S K <= k)%nat -> fm_beta fr = index (Z k) -> close_to beta_t abstol fr).
    { intros [|k] fr Hk Ef; [lia|]. unfold close_to. rewrite Ef, Eix. apply HK. lia. }
    assert (PJ : forall k z fr, projected (rel n) (project l (fun kw => Ok (f kw)) beta_t (Rl ++ Sl)) (close_to beta_t abstol) 1 f0 k z fr ->
      z = Z k /\ rel n z = Ok fr /\ (k <= S K)%nat /\ fm_beta fr = index (Z k)).
    { intros k z fr P. induction P as [|k z fr z' fr' P IH NC EP ER].
      - split; [reflexivity|]. split; [exact E0|]. split; [lia|]. destruct (R0 1) as (fr' & E' & EB' & _). rewrite E0 in E'. injection E' as <-. exact EB'.
      - destruct IH as (-> & Er & Hk & Eb). rewrite (PR _ _ Er (DZ k)) in EP. injection EP as <-. split; [reflexivity|]. split; [exact ER|]. split.
        + destruct (Nat.eq_dec k (S K)) as [->|]; [exfalso; apply NC, (CL (S K)); [lia|exact Eb]|lia].
        + destruct (R0 (Rabs (nx (Z k)))) as (fr'' & E' & EB' & _). rewrite ER in E'. injection E' as <-. exact EB'. }
    pose proof (C60_alpha_loop l (fun kw => Ok (f kw)) beta_t rel 1 abstol max_iter n f0 steps M1 MS E0) as AL. cbv zeta in AL. rewrite EL0 in AL.
    destruct (calibration_alpha l (fun kw => Ok (f kw)) beta_t rel steps 1 abstol max_iter n) as [[[[k z] fr]|]|e].
    + destruct AL as (Hk & P & ER & Hc & _). destruct (PJ k (zv z) fr P) as (Ez & _ & Hk' & Eb). exists k, z, fr. split; [reflexivity|]. split; [exact Hk'|]. split; [exact Ez|]. split; [exact ER|]. split; [exact Eb|]. split.
      * destruct Hc as [Hc| ->]; [exact Hc|]. apply (CL max_iter); [lia|exact Eb].
      * intros Hk1. rewrite Ez, Eb. split; [|apply Bix, Hk1]. destruct k as [|k]; [lia|]. apply (proj2 (proj1 (ZK k))).
    + destruct AL.
    + exfalso. destruct AL as (k & z & fr & _ & P & _ & Hc). destruct (PJ k z fr P) as (-> & Er & _). rewrite (PR _ _ Er (DZ k)) in Hc.
      destruct Hc as [Hc|(z' & _ & Hc)]; [discriminate|]. destruct (R0 z') as (fr' & E' & _). rewrite Hc in E'. discriminate.
Qed.
Print Assumptions C108_alpha_converges.

(** Two designs that meet the target where the index still increases are the same design *)
Lemma excess_root_unique : forall fmin chol svd inv fuel lf expr f comb resist other corr kc cases l opts n leading Rl Ol Cl a b mu sd Ro cvar beta_t z zs d ds,
  linear_calibration fmin chol svd inv fuel lf expr f comb resist other corr kc cases l opts n leading Rl Ol Cl a b mu sd Ro cvar ->
  let F := excess Rl (Ol ++ Cl) a b mu sd Ro beta_t in
  0 <= beta_t -> F z = 0 -> is_derive F z d -> 0 < d -> F zs = 0 -> is_derive F zs ds -> 0 < ds -> z = zs.
Proof.
  intros fmin chol svd inv fuel lf expr f comb resist other corr kc cases l opts n leading Rl Ol Cl a b mu sd Ro cvar beta_t z zs d ds HS F HB E Hd Pd Es Hds Pds.
  pose proof HS as (Hl & Hcs & Hcomb & Hn & Hcase & Hlead & Hcorr & Hb & _).
  pose proof (cs_Q fmin comb resist other corr kc leading Rl Ol Cl a b mu sd Ro Hcase Hcorr Hb) as HQ.
  pose proof (cs_disc fmin comb resist other corr kc leading Rl Ol Cl a b mu sd Ro Hcase Hcorr Hb) as HC.
  pose proof (cs_F fmin comb resist other corr kc leading Rl Ol Cl a b mu sd Ro Hcase Hcorr Hb beta_t) as EF.
  pose proof (cs_derive fmin comb resist other corr kc leading Rl Ol Cl a b mu sd Ro Hcase Hcorr Hb beta_t) as HD. fold F in HD, EF.
  assert (UD : forall y e, is_derive F y e -> e = cs_D Rl Ol Cl a b mu sd Ro beta_t y) by (intros y e H; rewrite <- (is_derive_unique _ _ _ H); exact (is_derive_unique _ _ _ (HD y))).
  rewrite (UD _ _ Hd) in Pd. rewrite (UD _ _ Hds) in Pds.
  pose proof (nw_tangent (lsum (map (fun r => a r * mu r) Rl)) (lsum (map (fun s => b s * mu s) (Ol ++ Cl))) _ _ _ beta_t HQ HC HB z zs) as T1. pose proof (nw_tangent (lsum (map (fun r => a r * mu r) Rl)) (lsum (map (fun s => b s * mu s) (Ol ++ Cl))) _ _ _ beta_t HQ HC HB zs z) as T2.
  cbv beta zeta in T1, T2. 
  assert (T1' : F zs <= F z + cs_D Rl Ol Cl a b mu sd Ro beta_t z * (zs - z)) by (rewrite !EF; exact T1).
  assert (T2' : F z <= F zs + cs_D Rl Ol Cl a b mu sd Ro beta_t zs * (z - zs)) by (rewrite !EF; exact T2).
  rewrite E, Es in T1', T2'. nra.
Qed.

(** ** C108 The root-finding method: if the solver returns a root of what it was given, the calibrated case
    has exactly the target index, and it is the design the alpha projection converges to whenever the index
    still increases there *)
Theorem C108_optimize_exact : forall fmin chol svd inv fuel lf expr f evn comb resist other corr kc cases l opts n leading Rl Ol Cl a b mu sd Ro cvar beta_t fsolve z0 z,
  linear_calibration fmin chol svd inv fuel lf expr f comb resist other corr kc cases l opts n leading Rl Ol Cl a b mu sd Ro cvar ->
  let F := excess Rl (Ol ++ Cl) a b mu sd Ro beta_t in
  let rel := rel_case fmin chol svd inv fuel lf expr evn l opts cvar in
  (forall g x0 x, fsolve g x0 = Ok x -> g x = Ok 0) ->
  fsolve (fun y => rbind (rel n y) (fun fr => Ok (beta_t - fm_beta fr))) z0 = Ok z ->
  (exists fr, calibration_optimize beta_t rel fsolve z0 n = Ok (ZArr z, fr) /\ rel n z = Ok fr /\ fm_beta fr = beta_t) /\ F z = 0 /\
  forall d zs ds, 0 <= beta_t -> is_derive F z d -> 0 < d -> F zs = 0 -> is_derive F zs ds -> 0 < ds -> z = zs.
Proof.
  intros fmin chol svd inv fuel lf expr f evn comb resist other corr kc cases l opts n leading Rl Ol Cl a b mu sd Ro cvar beta_t fsolve z0 z HS F rel Hf Hz.
  destruct (C108_projection_is_newton _ _ _ _ _ _ _ _ evn _ _ _ _ _ _ _ _ _ _ _ _ _ _ _ _ _ _ _ HS z) as (fr & E & PV & EB & _).
  pose proof (Hf _ _ _ Hz) as R0. cbv beta in R0. unfold rel in R0. rewrite E in R0. cbn [rbind] in R0. injection R0 as R0.
  assert (EB' : fm_beta fr = beta_t) by lra.
  assert (EF : F z = 0).
  { unfold F, excess. rewrite <- EB', EB. unfold margin_beta. unfold Rdiv. rewrite Rmult_assoc, Rinv_l, Rmult_1_r; [ring|]. apply Rgt_not_eq, sqrt_lt_R0, PV. }
  split; [|split].
  - exists fr. split; [|split; [exact E|exact EB']]. unfold calibration_optimize. rewrite Hz. cbn [rbind]. unfold rel. rewrite E. reflexivity.
  - exact EF.
  - intros d zs ds HB Hd Pd Es Hds Pds. exact (excess_root_unique _ _ _ _ _ _ _ _ _ _ _ _ _ _ _ _ _ _ _ _ _ _ _ _ _ _ _ beta_t z zs d ds HS HB EF Hd Pd Es Hds Pds).
Qed.
Print Assumptions C108_optimize_exact.

(** ** C108 The partial factors of the coefficient method, computed from the design points of the analyses,
    close the design equation of every case at its calibrated design parameter *)
Theorem C108_factors_close_design_equation : forall fmin chol svd inv fuel lf expr f evn comb resist other corr kc cases l opts n leading Rl Ol Cl a b mu sd Ro cvar z fr nom X x nv,
  linear_calibration fmin chol svd inv fuel lf expr f comb resist other corr kc cases l opts n leading Rl Ol Cl a b mu sd Ro cvar ->
  let Sl := Ol ++ Cl in
  rel_case fmin chol svd inv fuel lf expr evn l opts cvar n z = Ok fr -> fm_x fr = map (x n) (Rl ++ Sl) ->
  table_of X (c_cases l) (Rl ++ Sl) x -> nominals nom (c_cases l) (Rl ++ Sl) nv ->
  (forall s, In s Sl -> x (factor_case l s n) s <> 0) ->
  exists phi gamma psi ph ga ps, calc_pg_coeff l nom X = Ok (phi, gamma, psi) /\
    (forall r, In r Rl -> cell phi n r = Some (ph r)) /\ (forall s, In s Sl -> cell gamma n s = Some (ga s) /\ cell psi n s = Some (ps s)) /\
    z * lsum (map (fun r => a r * (ph r * nv n r)) Rl) - lsum (map (fun s => b s * (ga s * ps s * nv n s)) Sl) = 0.
Proof.
  intros fmin chol svd inv fuel lf expr f evn comb resist other corr kc cases l opts n leading Rl Ol Cl a b mu sd Ro cvar z fr nom X x nv HS Sl E EX HT HN HX.
  destruct (C108_projection_is_newton _ _ _ _ _ _ _ _ evn _ _ _ _ _ _ _ _ _ _ _ _ _ _ _ _ _ _ _ HS z) as (fr' & E' & _ & _ & (y & Ey & HL & _) & _). rewrite E in E'. injection E' as <-.
  pose proof HS as (Hl & Hcs & Hcomb & Hn & Hcase & Hlead & Hcorr & Hb & Hp & Hlin & Hcv & _).
  pose proof (cs_labels comb resist other corr kc cases l leading Rl Ol Cl mu sd Hl Hcase) as (LR & LO & LC).
  pose proof (cs_S comb resist other corr kc cases l leading Rl Ol Cl mu sd Hl Hcase) as LS.
  pose proof (cs_wf comb resist other corr kc cases l leading Rl Ol Cl mu sd Hl Hcase Hlead) as W.
  assert (EXY : forall v, In v (Rl ++ Sl) -> x n v = y v).
  { rewrite Ey in EX. clear - EX. fold Sl in EX. induction (Rl ++ Sl) as [|w r IH]; intros v Hv; [destruct Hv|]. cbn in EX. injection EX as E1 E2. destruct Hv as [<-|Hv]; [now symmetry|exact (IH E2 v Hv)]. }
  assert (In_n : In n (c_cases l)).
  { apply init_ok in Hl. destruct Hl as (cs & Ecs & EL & _). injection Ecs as <-. unfold c_cases, lc_label_cases, dict_keys. rewrite EL. exact (dget_some_key _ _ _ Hn). }
  assert (HT' : table_of X (c_cases l) (c_R l ++ c_S l) x) by (rewrite LR, LS; exact HT).
  assert (HN' : nominals nom (c_cases l) (c_R l ++ c_S l) nv) by (rewrite LR, LS; exact HN).
  destruct (C57_coefficient_factors l nom X x nv W HT' HN') as (phi & gamma & psi & EP & _ & _ & _ & _ & _ & _ & C). destruct (C n In_n) as (CR & CS). rewrite LR in CR. rewrite LS in CS.
  exists phi, gamma, psi, (fun r => match cell phi n r with Some p => p | None => 0 end), (fun s => match cell gamma n s with Some p => p | None => 0 end), (fun s => match cell psi n s with Some p => p | None => 0 end).
  split; [exact EP|]. split; [|split].
  - intros r Hr. destruct (CR r Hr) as (p & -> & _). reflexivity.
  - intros s Hs. destruct (CS s Hs) as (g & p & -> & -> & _). split; reflexivity.
  - rewrite <- HL. apply f_equal2; [apply f_equal|].
    + apply lsum_ext2. intros r Hr. destruct (CR r Hr) as (p & -> & Ep). f_equal. rewrite Rmult_comm, Ep. apply EXY, in_or_app. left. exact Hr.
    + apply lsum_ext2. intros s Hs. destruct (CS s Hs) as (g & p & -> & -> & _ & Ep). destruct (Ep (HX s Hs)) as (Ep' & _). f_equal. rewrite <- (EXY s) by (apply in_or_app; right; exact Hs). rewrite <- Ep'. ring.
Qed.
Print Assumptions C108_factors_close_design_equation.

(** *** Non-vacuity: z * R - Q with R ~ N(10, 2) and Q ~ N(10, 3), target 2: the exact design is 2 *)
Definition cr_get (kw : list (string * R)) (k : string) : R := match dict_get kw k with Some v => v | None => 0 end.
Definition cr_g (kw : list (string * R)) : R := cr_get kw "z" * cr_get kw "R" - cr_get kw "Q".
Definition cr_expr : expression := fun kw =>
  let nc := match kw with [] => 0%nat | (_, v) :: _ => List.length v end in
  Ok (UPlain (Arr (map (fun c => cr_g (map (fun kv => (fst kv, nth c (snd kv) 0)) kw)) (seq 0 nc)))).
Definition cr_comb : list (string * list (string * obj)) := [("Q", [("max", ODist (Normal "Q" 10 3)); ("pit", ODist (Normal "Q" 4 1))])]%string.
Definition cr_cases : list (string * list string) := [("peak", ["Q"])]%string.
Definition cr_init := lc_init cr_comb [ODist (Normal "R" 10 2)] None None (Some (constants [("z"%string, 1)])) (Some cr_cases).
Definition cr_sd (v : string) : R := if string_dec v "R" then 2 else 3.
Example cr_pointwise : pointwise cr_expr cr_g.
Proof.
  intros kw nc Hne Hl. eexists. split; [reflexivity|]. destruct kw as [|[n v] kw]; [contradiction|]. cbn [value_of].
  rewrite (Hl n v) by (left; reflexivity). reflexivity.
Qed.
Example cr_setup : forall fmin, exists l, cr_init = Ok l /\
  linear_calibration fmin chol2 svd2 inv2 101 10 cr_expr cr_g cr_comb [ODist (Normal "R" 10 2)] None None [("z"%string, 1)] cr_cases l
    (Some (None, default_options)) "peak" ["Q"%string] ["R"%string] [] ["Q"%string] (fun _ => 1) (fun _ => 1) (fun _ => 10) cr_sd (fun i j => if Nat.eq_dec i j then 1 else 0) "z"
  /\ c_R l = ["R"%string] /\ c_S l = ["Q"%string].
Proof.
  intros fmin. destruct cr_init as [l|] eqn:EL; [|discriminate]. unfold cr_init in EL. exists l. split; [reflexivity|]. split.
  2:{ cbn in EL. injection EL as <-. split; reflexivity. }
  split; [exact EL|]. split; [cbn; repeat constructor; cbn; intuition discriminate|]. split; [cbn; repeat constructor; cbn; intuition discriminate|]. split; [reflexivity|]. split.
  { split; [reflexivity|]. split; [reflexivity|]. split; [reflexivity|]. split; [cbn; repeat constructor; cbn; intuition discriminate|].
    intros v _. unfold cr_sd. destruct (string_dec v "R"); lra. }
  split; [intros m vrs v [E|[]] Hv; injection E as <- <-; exact Hv|]. split; [intros i j _ _; reflexivity|]. split; [exists "Q"%string; split; [left; reflexivity|lra]|].
  split; [exact cr_pointwise|]. split.
  { intros args z x Hz Hx. unfold cr_g, cr_get. rewrite Hz, (Hx "R"%string), (Hx "Q"%string) by (cbn; tauto). cbn. f_equal. ring. }
  split; [left; reflexivity|]. split; [exists ERuntime; exact lapack2|]. split; [exists aF; reflexivity|]. split; [exact default_exact|]. split; [cbn; lia|cbn; lia].
Qed.
Lemma cr_F bt z : excess ["R"%string] (["Q"%string]) (fun _ => 1) (fun _ => 1) (fun _ => 10) cr_sd (fun i j => if Nat.eq_dec i j then 1 else 0) bt z = 10 * z - 10 - bt * sqrt (4 * z ^ 2 + 9).
Proof.
  unfold excess, margin_mean, margin_var. cbn -[sqrt pow]. unfold weight, cr_sd. cbn -[sqrt pow]. f_equal; [ring|]. f_equal. f_equal. ring.
Qed.
Lemma cr_d z : is_derive (excess ["R"%string] (["Q"%string]) (fun _ => 1) (fun _ => 1) (fun _ => 10) cr_sd (fun i j => if Nat.eq_dec i j then 1 else 0) 2) z (10 - 8 * z / sqrt (4 * z ^ 2 + 9)).
Proof.
  apply (is_derive_ext (fun z => 10 * z - 10 - 2 * sqrt (4 * z ^ 2 + 9))); [intros t; symmetry; apply cr_F|].
  assert (P : 0 < 4 * z ^ 2 + 9) by (pose proof (pow2_ge_0 z); lra). pose proof (sqrt_lt_R0 _ P) as S.
  assert (E : 4 * (z * (z * 1)) + 9 = 4 * z ^ 2 + 9) by ring. auto_derive; [rewrite E; exact P|]. rewrite !E. field. apply Rgt_not_eq. exact S.
Qed.
Example C108_example : forall fmin, exists l, cr_init = Ok l /\
  exists K, forall max_iter, (K <= max_iter)%nat -> (1 <= max_iter)%nat ->
    exists k z fr, calibration_alpha l (fun kw => Ok (cr_g kw)) 2 (rel_case fmin chol2 svd2 inv2 101 10 cr_expr None l (Some (None, default_options)) "z") max_iter 1 (/ 10000) max_iter "peak" = Ok (Some (k, z, fr))
      /\ (1 <= k)%nat /\ zv z <= 2 /\ 2 - 0.00012 <= fm_beta fr <= 2.
Proof.
  intros fmin. destruct (cr_setup fmin) as (l & EL & HS & _). exists l. split; [exact EL|].
  assert (S2 : sqrt (4 * 2 ^ 2 + 9) = 5) by (replace (4 * 2 ^ 2 + 9) with (Rsqr 5) by (unfold Rsqr; ring); apply sqrt_Rsqr; lra).
  destruct (C108_alpha_converges _ _ _ _ _ _ _ _ None _ _ _ _ _ _ _ _ _ _ _ _ _ _ _ _ _ _ _ 2 2 _ _ HS ltac:(lra) ltac:(cbn [app]; rewrite cr_F, S2; ring) (cr_d 2) ltac:(rewrite S2; lra) (cr_d 1) ltac:(left; lra))
    as (Z & Z0 & _ & _ & _ & HC).
  destruct (HC (/ 10000) ltac:(rewrite Rabs_right by lra; lra)) as (K & HK). exists K. intros mi H1 H2. destruct (HK mi mi H2 H1 (Nat.le_refl _)) as (k & z & fr & E & _ & Ez & ER & EB & CL & U).
  assert (k1 : (1 <= k)%nat).
  { destruct k; [|lia]. exfalso. unfold close_to in CL. rewrite EB, Z0 in CL. 
    assert (B1 : margin_beta ["R"%string] (([] : list string) ++ ["Q"%string]) (fun _ => 1) (fun _ => 1) (fun _ => 10) cr_sd (fun i j => if Nat.eq_dec i j then 1 else 0) 1 = 0).
    { unfold margin_beta, margin_mean. cbn -[sqrt pow margin_var]. unfold Rdiv. replace (1 * (1 * 10 + 0) - (1 * 10 + 0)) with 0 by ring. ring. }
    rewrite B1 in CL. rewrite Rabs_minus_sym, Rminus_0_r, Rabs_right in CL by lra. lra. }
  destruct (U k1) as (U1 & U2). exists k, z, fr. split; [exact E|]. split; [exact k1|]. split; [exact U1|]. split; [|exact U2].
  unfold close_to in CL. rewrite Rabs_minus_sym in CL. pose proof (Rle_abs (2 - fm_beta fr)). rewrite (Rabs_right 2) in CL by lra. lra.
Qed.
