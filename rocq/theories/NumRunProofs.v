From Coquelicot Require Import Coquelicot.
From Verif Require Import Base Ext Dict Gauss StochModel StochModelSpec StochModelProofs LimitState LimitStateSpec LimitStateProofs Transf Form Nataf NatafProofs Dist Pipe PipeSpec PipeProofs Copy Sens SensSpec SensNumProofs NumRun NumRunSpec.
From Coq Require Import ZArith Lra Lia FunctionalExtensionality.

(** ** replacing a distribution commutes with building *)
Section R.
Variables (name : string) (d1 : rv).
Hypothesis Hn : rv_name d1 = name.
Definition rep (d : rv) : rv := if String.eqb (rv_name d) name then d1 else d.
Lemma rep_name d : rv_name (rep d) = rv_name d.
Proof. unfold rep. destruct (String.eqb_spec (rv_name d) name); congruence. Qed.
Definition rep_sm (s : smodel) : smodel :=
  mksm (map (fun kd => (fst kd, rep (snd kd))) (sm_variables s)) (sm_names s) (map rep (sm_marg s)) (sm_corr s) (sm_Ro s) (sm_calls s) (sm_consts s).
Definition rep_op (op : smop) : smop :=
  match op with OpAdd (ODist d0) => if String.eqb (rv_name d0) name then OpAdd (ODist d1) else op | _ => op end.
Lemma set_map (l : list (string * rv)) k d :
  dict_set (map (fun kd => (fst kd, rep (snd kd))) l) k (rep d) = map (fun kd => (fst kd, rep (snd kd))) (dict_set l k d).
Proof. induction l as [|[k' d'] l IH]; cbn; [reflexivity|]. destruct (String.eqb k k'); cbn; [reflexivity|]. now rewrite IH. Qed.
Lemma rep_step s op : sm_step (rep_sm s) (rep_op op) = rep_sm (sm_step s op).
Proof.
  destruct op as [[d|k v|]|M|M|k]; try reflexivity.
  - assert (E : rep_op (OpAdd (ODist d)) = OpAdd (ODist (rep d))) by (unfold rep_op, rep; destruct (String.eqb (rv_name d) name); reflexivity).
    rewrite E. cbn [sm_step addVariable]. rewrite rep_name. cbn [rep_sm sm_names].
    destruct (mem_str (rv_name d) (sm_names s)); [reflexivity|].
    unfold rep_sm. cbn [sm_variables sm_names sm_marg sm_corr sm_Ro sm_calls sm_consts].
    rewrite set_map, map_app. cbn [map]. rewrite !app_length, map_length. reflexivity.
  - cbn [rep_op sm_step addVariable]. cbn [rep_sm sm_names]. destruct (mem_str k (sm_names s)); reflexivity.
Qed.
Lemma rep_run h : sm_run (rebuilt name d1 h) = rep_sm (sm_run h).
Proof.
  unfold sm_run, rebuilt. change sm_init with (rep_sm sm_init) at 1. generalize sm_init as s.
  induction h as [|op h IH]; intros s; [reflexivity|]. cbn [map fold_left].
  change (match op with OpAdd (ODist d0) => if String.eqb (rv_name d0) name then OpAdd (ODist d1) else op | _ => op end) with (rep_op op).
  rewrite rep_step. apply IH.
Qed.
End R.

(** ** association lists *)
Lemma nodup_app_l {A} (l1 l2 : list A) : NoDup (l1 ++ l2) -> NoDup l1.
Proof. induction l1 as [|a l IH]; cbn; intros H; [constructor|]. apply NoDup_cons_iff in H. destruct H as [H1 H2]. constructor; [intros I; apply H1, in_or_app; now left|now apply IH]. Qed.
Lemma alist_ext {V} (l l' : list (string * V)) : NoDup (map fst l) -> map fst l' = map fst l ->
  (forall k, dict_get l' k = dict_get l k) -> l' = l.
Proof.
  revert l'. induction l as [|[k v] l IH]; intros l' HN HK HG; destruct l' as [|[k' v'] l']; try discriminate; [reflexivity|].
  cbn in HK. injection HK as -> HK. cbn in HN. apply NoDup_cons_iff in HN. destruct HN as [Hk HN].
  assert (E : v' = v). { specialize (HG k). cbn in HG. rewrite String.eqb_refl in HG. now injection HG. }
  subst v'. f_equal. apply IH; [exact HN|exact HK|]. intros q. specialize (HG q). cbn in HG.
  destruct (String.eqb_spec q k) as [Eq|N]; [subst q|exact HG].
  rewrite (proj2 (dget_none l k) Hk). apply dget_none. rewrite HK. exact Hk.
Qed.
Lemma alist_map {V} (g : string -> V -> V) (l l' : list (string * V)) : NoDup (map fst l) -> map fst l' = map fst l ->
  (forall k, dict_get l' k = option_map (g k) (dict_get l k)) -> l' = map (fun kv => (fst kv, g (fst kv) (snd kv))) l.
Proof.
  intros HN HK HG. apply alist_ext; [rewrite map_map; exact HN|rewrite map_map; exact HK|].
  intros k. rewrite HG, (dget_map g l k). destruct (dict_get l k); reflexivity.
Qed.

Section P.
Context {D : Type} (rvo : D -> rv).
Lemma built_facts h names m : built rvo h names m ->
  NoDup (map fst (pm_vars D m)) /\ (forall name d, In (name, d) (pm_vars D m) -> rv_name (rvo d) = name) /\
  names = sm_names (sm_run h) /\ pm_corr D m = sm_corr (sm_run h) /\ pm_consts D m = sm_consts (sm_run h).
Proof.
  intros [E HM]. pose proof (f_equal sm_variables E) as EV. cbn [to_sm sm_variables] in EV.
  destruct (registry h) as (_ & _ & _ & RV & _). split; [|split].
  - pose proof (keys_nodup h) as K. rewrite <- EV, map_map in K. cbn [fst] in K. exact (nodup_app_l _ _ K).
  - intros name d HI. rewrite RV in EV.
    assert (I : In (name, rvo d) (map (fun kd => (fst kd, rvo (snd kd))) (pm_vars D m))) by (apply in_map_iff; exists (name, d); auto).
    rewrite EV in I. apply in_map_iff in I. destruct I as (d0 & Ed & _). injection Ed as <- <-. reflexivity.
  - pose proof (f_equal sm_names E). pose proof (f_equal sm_corr E). pose proof (f_equal sm_consts E). cbn in *. auto.
Qed.

(** the model with one distribution replaced is the model rebuilt with the new distribution *)
Lemma changed_same h names m m' m1 name d d' : built rvo h names m -> same_inputs m m' -> In (name, d) (pm_vars D m) ->
  rv_name (rvo d') = rv_name (rvo d) -> only_changed m' m1 name d' ->
  same_problem (sm_run (rebuilt name (rvo d') h)) (to_sm D rvo names m1).
Proof.
  intros HB (S1 & S2 & S3 & S4) HI Hnm (C1 & C2 & C3 & C4 & C5 & C6).
  destruct (built_facts h names m HB) as (HN & HK & E1 & E2 & E3). pose proof (HK _ _ HI) as Hname.
  rewrite (rep_run name (rvo d') ltac:(congruence)). rewrite S1 in C1, C3.
  destruct HB as [EB HM].
  assert (EV : pm_vars D m1 = map (fun kv => (fst kv, if String.eqb (fst kv) name then d' else snd kv)) (pm_vars D m)).
  { apply (alist_map (fun k v => if String.eqb k name then d' else v)); [exact HN|exact C1|].
    intros k. destruct (String.eqb_spec k name) as [->|N].
    - rewrite C2. rewrite (dget_nodup _ _ _ HN HI). reflexivity.
    - rewrite (C3 k N). destruct (dict_get (pm_vars D m) k); reflexivity. }
  assert (EP : forall kv, In kv (pm_vars D m) -> rvo (if String.eqb (fst kv) name then d' else snd kv) = rep name (rvo d') (rvo (snd kv))).
  { intros [k v] Iv. cbn [fst snd]. unfold rep. rewrite (HK _ _ Iv). destruct (String.eqb k name); reflexivity. }
  rewrite <- EB. unfold same_problem, to_sm, rep_sm. cbn [sm_variables sm_names sm_marg sm_corr sm_consts].
  split; [|split; [reflexivity|split; [|split; congruence]]].
  - rewrite EV, !map_map. apply map_ext_in. intros kv Iv. cbn [fst snd]. now rewrite (EP kv Iv).
  - rewrite C4, EV, HM, !map_map. apply map_ext_in. intros kv Iv. cbn [fst snd]. exact (EP kv Iv).
Qed.
End P.

(** ** the run completes if every ingredient does *)
Section T.
Context {D : Type} (sparams : D -> list (string * R)) (make_copy : D -> string -> R -> result D)
  (stdv : D -> R) (opts : Type).
Variable form_beta : option opts -> pmodel D -> result R.
Lemma fd_loop_total delta beta0 m : NoDup (map fst (pm_vars D m)) -> pm_marg D m = map snd (pm_vars D m) ->
  (forall name d p val, In (name, d) (pm_vars D m) -> In (p, val) (sparams d) ->
     exists d' v1, make_copy d p (val + delta * stdv d) = Ok d' /\ dict_get (sparams d') p = Some v1 /\
       forall m1, only_changed m m1 name d' -> exists b, form_beta None m1 = Ok b) ->
  forall todo s, (forall name p val, In (name, (p, val)) todo -> (exists d, In (name, d) (pm_vars D m) /\ In (p, val) (sparams d)) /\ In name (map fst s)) ->
  exists res, fd_loop D sparams make_copy stdv opts form_beta delta beta0 m todo s = Ok res.
Proof.
  intros HN HM HC. induction todo as [|[name [p val]] todo IH]; intros s HT; [eexists; reflexivity|].
  destruct (HT name p val (or_introl eq_refl)) as [(d & I1 & I2) I3].
  destruct (HC name d p val I1 I2) as (d' & v1 & E1 & E2 & E3). cbn [fd_loop]. unfold fd_one.
  rewrite (dget_nodup _ _ _ HN I1). cbv zeta. rewrite E1. cbn [rbind].
  destruct (replace_dist_spec m name d d' HN HM (dget_nodup _ _ _ HN I1)) as (m1 & Em & Ho). rewrite Em. cbn [rbind]. rewrite E2.
  destruct (E3 m1 Ho) as (b & Eb). rewrite Eb. cbn [rbind]. unfold sset.
  destruct (dget_key_some _ _ I3) as (row & Er). rewrite Er. cbn [rbind]. apply IH.
  intros name0 p0 val0 HI. destruct (HT name0 p0 val0 (or_intror HI)) as [A B]. split; [exact A|]. rewrite dkeys_set_in by exact I3. exact B.
Qed.
Lemma numerical_total form_after (o : opts) delta m beta0 :
  NoDup (map fst (pm_vars D m)) -> pm_marg D m = map snd (pm_vars D m) -> (forall oo mm, same_inputs mm (form_after oo mm)) ->
  form_beta None m = Ok beta0 ->
  (forall name d p val, In (name, d) (pm_vars D m) -> In (p, val) (sparams d) ->
     exists d' v1, make_copy d p (val + delta * stdv d) = Ok d' /\ dict_get (sparams d') p = Some v1 /\
       forall m1, only_changed (form_after None m) m1 name d' -> exists b, form_beta None m1 = Ok b) ->
  exists res, numerical_sens D sparams make_copy stdv opts form_beta form_after o delta m = (Ok res, form_after None m).
Proof.
  intros HN HM HF H0 HC. unfold numerical_sens. rewrite H0. cbn [rbind]. destruct (HF None m) as (S1 & S2 & _).
  destruct (fd_loop_total delta beta0 (form_after None m) ltac:(now rewrite S1) ltac:(now rewrite S1, S2) ltac:(rewrite S1; exact HC)
     (sens_todo D sparams m) (sens_init D sparams m)) as (res & E).
  - intros name p val HI. apply todo_inv in HI. destruct HI as (d & I1 & I2). split; [exists d; rewrite S1; auto|].
    unfold sens_init. rewrite map_map. apply in_map_iff. exists (name, d). auto.
  - exists res. now rewrite E.
Qed.
End T.

(** ** Normal marginals: the modified correlation does not depend on means and deviations *)
Lemma normal_objective nm nm' mu sd nm1 nm1' mu1 sd1 rho k r :
  sd <> 0 -> sd1 <> 0 -> forall mu' sd' mu1' sd1', sd' <> 0 -> sd1' <> 0 ->
  absoluteIntegralValue r rho (marg_of (Normal nm mu sd)) (marg_of (Normal nm1 mu1 sd1)) (zi_and_xi (marg_of (Normal nm mu sd)) (marg_of (Normal nm1 mu1 sd1)) 6 k) =
  absoluteIntegralValue r rho (marg_of (Normal nm' mu' sd')) (marg_of (Normal nm1' mu1' sd1')) (zi_and_xi (marg_of (Normal nm' mu' sd')) (marg_of (Normal nm1' mu1' sd1')) 6 k).
Proof.
  intros H1 H2 mu' sd' mu1' sd1' H3 H4. unfold absoluteIntegralValue. f_equal. f_equal. unfold rho_integral, sum2. cbn [zi_and_xi g_k g_X1 g_X2 g_Z1 g_Z2 g_detJ g_W].
  apply fsum_ext. intros a _. apply fsum_ext. intros b _. cbn. field. repeat split; assumption.
Qed.
Lemma normal_modified fmin n M (m m' : nat -> rv) (nm nm' : nat -> string) (mu sd mu' sd' : vec) Ro log :
  (forall i, (i < n)%nat -> m i = Normal (nm i) (mu i) (sd i) /\ sd i <> 0 /\ m' i = Normal (nm' i) (mu' i) (sd' i) /\ sd' i <> 0) ->
  computeModifiedCorrelationMatrix fmin n n M (fun i => marg_of (m i)) = Ok (Ro, log) ->
  exists Ro' log', computeModifiedCorrelationMatrix fmin n n M (fun i => marg_of (m' i)) = Ok (Ro', log') /\
    forall i j, (i < n)%nat -> (j < n)%nat -> Ro' i j = Ro i j.
Proof.
  intros H E. destruct (modified_ok fmin n M (fun i => marg_of (m i)) n (le_n n)) as (Q & E1 & D1 & S1 & L1 & _).
  rewrite E in E1. injection E1 as <- _.
  destruct (modified_ok fmin n M (fun i => marg_of (m' i)) n (le_n n)) as (Q' & E2 & D2 & S2 & L2 & _).
  exists Q'. eexists. split; [exact E2|].
  assert (L : forall i j, (j < i)%nat -> (i < n)%nat -> Q' i j = Ro i j).
  { intros i j Hj Hi. rewrite L1, L2 by assumption. unfold pair_value. destruct (Reqb (M i j) 0); [reflexivity|]. f_equal.
    apply functional_extensionality. intros r. destruct (H i Hi) as (-> & A1 & -> & A2). destruct (H j ltac:(lia)) as (-> & B1 & -> & B2).
    apply normal_objective; assumption. }
  intros i j Hi Hj. destruct (lt_eq_lt_dec i j) as [[X|X]|X].
  - rewrite S2, S1. now apply L.
  - subst j. now rewrite D1, D2.
  - now apply L.
Qed.
