(** Property theorems C106: the result of SensitivityAnalysis.run and its table. *)
From Coquelicot Require Import Coquelicot.
From Verif Require Import Base Ext Dict Gauss GaussProofs StochModel StochModelSpec StochModelProofs LimitState LimitStateSpec LimitStateProofs LimitStateProps Transf TransfSpec Form FormProps Quad Nataf NatafProofs Dist RotProps Pipe PipeSpec PipeProofs PipeProps Copy Sens SensSpec SensNumProofs SensProps SensRun SensRunSpec SensRunProofs SensRunProps NumRun NumRunSpec NumRunProofs NumRunProps SensApi SensApiSpec SensApiProofs.
From Coq Require Import ZArith Lra Lia.
Open Scope R_scope.

(** a model object whose names and parameter names are distinct, the marginals listed in the order of
    the variables *)
Definition orderly {D} (sparams : D -> list (string * R)) (m : pmodel D) : Prop :=
  NoDup (map fst (pm_vars D m)) /\ (forall name d, In (name, d) (pm_vars D m) -> NoDup (map fst (sparams d))) /\ pm_marg D m = map snd (pm_vars D m).

(** C106: the table of a result lists every parameter of every variable once, in the order of the
    model, with the number stored for it - for finite differences unless a variable is named
    "marginal". *)
Theorem C106_table :
  forall (D : Type) rvo sparams mkcopy mgo d0 fmin chol svd inv fuel lf expr evn ty fo numerical delta names (m : pmodel D) d,
  orderly sparams m ->
  sa_run D rvo sparams mkcopy mgo d0 fmin chol svd inv fuel lf expr evn ty fo numerical delta names m = SaDict d ->
  (numerical = true -> ~ In "marginal"%string (map fst (pm_vars D m))) ->
  exists rows, summary d = Ok rows /\ tabulates rows (pairs_of sparams m) (marginals numerical d).
Proof.
  intros D rvo sparams mkcopy mgo d0 fmin chol svd inv fuel lf expr evn ty fo numerical delta names m d (HN & HS & HM) HR Hm.
  unfold sa_run in HR. destruct numerical.
  - destruct (numerical_run _ _ _ _ _ _ _ _ _ _ _ _ _ _ _ _) as [[s|e] m'] eqn:E; cbn [fst] in HR; [|discriminate]. injection HR as <-.
    destruct (numerical_ok sparams mkcopy (fun d => rv_stdv (rvo d)) form_opts _ _ fo delta m s m' HN HS HM ltac:(intros oo mm; apply after_same) E) as (_ & b0 & _ & K & HRow).
    assert (KR : map (fun r => (fst r, map fst (snd r))) s = map (fun r => (fst r, map fst (sparams (snd r)))) (pm_vars D m)).
    { apply (rows_match (map fst) (fun d => map fst (sparams d))); [exact K|exact HN|]. intros name d HI. destruct (HRow name d HI) as (row & R1 & R2 & _). eauto. }
    exists (flat s). cbn [marginals]. split.
    + unfold summary, nested. rewrite nested_get, (proj2 (dget_none s "marginal")); [|rewrite K; now apply Hm]. cbn [option_map]. apply summary_rows.
    + rewrite <- flat_pairs, <- KR. apply flat_tabulates; [rewrite K; exact HN|]. intros name row HI.
      assert (In (name, map fst row) (map (fun r => (fst r, map fst (sparams (snd r)))) (pm_vars D m))) as HJ by (rewrite <- KR; exact (in_map (fun r => (fst r, map fst (snd r))) _ _ HI)).
      apply in_map_iff in HJ. destruct HJ as ([n2 d2] & E2 & HJ). cbn [fst snd] in E2. injection E2 as -> <-. exact (HS _ _ HJ).
  - destruct (form_init ty) as [a|]; [|discriminate].
    destruct (snd (cf_sens _ _ _ _ _ _ _ _ _ _ _ _)) as [r| | |]; try discriminate. injection HR as <-.
    set (s := map (fun k => let nd := nth k (pm_vars D m) (""%string, d0) in (fst nd, map (fun pv => (fst pv, cf_marg r k (fst pv))) (sparams (snd nd)))) (seq 0 (length (pm_vars D m)))).
    exists (flat s). unfold cf_dict. cbn [marginals dict_get String.eqb Ascii.eqb Bool.eqb]. fold s.
    assert (KR : map (fun row => (fst row, map fst (snd row))) s = map (fun nd => (fst nd, map fst (sparams (snd nd)))) (pm_vars D m)).
    { unfold s. rewrite map_map. rewrite <- (map_seq_nth (fun nd => (fst nd, map fst (sparams (snd nd)))) (pm_vars D m) (""%string, d0)).
      apply map_ext. intros k. cbn [fst snd]. rewrite map_map. reflexivity. }
    split.
    + unfold summary, nested. cbn [dict_get String.eqb Ascii.eqb Bool.eqb]. apply summary_rows.
    + rewrite <- flat_pairs, <- KR. apply flat_tabulates.
      * replace (map fst s) with (map fst (pm_vars D m)); [exact HN|]. apply (f_equal (map fst)) in KR. rewrite !map_map in KR. symmetry. exact KR.
      * intros name row HI.
        assert (In (name, map fst row) (map (fun r => (fst r, map fst (sparams (snd r)))) (pm_vars D m))) as HJ by (rewrite <- KR; exact (in_map (fun r => (fst r, map fst (snd r))) _ _ HI)).
        apply in_map_iff in HJ. destruct HJ as ([n2 d2] & E2 & HJ). cbn [fst snd] in E2. injection E2 as -> <-. exact (HS _ _ HJ).
Qed.
Print Assumptions C106_table.

(** C106: with a variable named "marginal" the table of a finite-difference result is that variable's
    row taken for the whole result: an AttributeError, or an empty table. *)
Theorem C106_variable_named_marginal_refuted :
  forall (D : Type) rvo sparams mkcopy mgo d0 fmin chol svd inv fuel lf expr evn ty fo delta names (m : pmodel D) d dm,
  orderly sparams m -> In ("marginal"%string, dm) (pm_vars D m) ->
  sa_run D rvo sparams mkcopy mgo d0 fmin chol svd inv fuel lf expr evn ty fo true delta names m = SaDict d ->
  summary d = match sparams dm with [] => Ok [] | _ => Err EAttr end.
Proof.
  intros D rvo sparams mkcopy mgo d0 fmin chol svd inv fuel lf expr evn ty fo delta names m d dm (HN & HS & HM) HI HR.
  unfold sa_run in HR. destruct (numerical_run _ _ _ _ _ _ _ _ _ _ _ _ _ _ _ _) as [[s|e] m'] eqn:E; cbn [fst] in HR; [|discriminate]. injection HR as <-.
  destruct (numerical_ok sparams mkcopy (fun d => rv_stdv (rvo d)) form_opts _ _ fo delta m s m' HN HS HM ltac:(intros oo mm; apply after_same) E) as (_ & b0 & _ & K & HRow).
  destruct (HRow _ _ HI) as (row & R1 & R2 & _). unfold summary, nested. rewrite nested_get, R1. cbn [option_map].
  destruct row as [|[p v] row]; destruct (sparams dm) as [|q l]; try discriminate; reflexivity.
Qed.
Print Assumptions C106_variable_named_marginal_refuted.

Lemma common_bound (n : nat) (P : nat -> R -> Prop) : (forall k d, P k d -> 0 < d) ->
  (forall k d d', P k d -> 0 < d' -> d' <= d -> P k d') -> (forall k, (k < n)%nat -> exists d, P k d) ->
  exists d, 0 < d /\ forall k, (k < n)%nat -> P k d.
Proof.
  intros H0 HM. induction n as [|n IH]; intros H; [exists 1; split; [lra|intros k Hk; lia]|].
  destruct IH as (d1 & P1 & Q1); [intros k Hk; apply H; lia|]. destruct (H n ltac:(lia)) as (d2 & Q2). assert (P2 := H0 _ _ Q2).
  assert (PM : 0 < Rmin d1 d2) by (apply Rmin_pos; assumption).
  exists (Rmin d1 d2). split; [exact PM|]. intros k Hk. destruct (Nat.eq_dec k n) as [->|].
  - apply (HM n d2); [exact Q2|exact PM|apply Rmin_r].
  - apply (HM k d1); [apply Q1; lia|exact PM|apply Rmin_l].
Qed.

(** C106: on a limit state linear in normal variables the two methods agree: the mean entries are
    equal for every delta, the std entries tend to each other. *)
Theorem C106_methods_agree :
  forall fmin chol svd inv e0 h names m expr f lf evn fuel ty a fo d0 (cf : vec) c0 M Ro log,
  let n := ndists h in let s := sm_run h in
  let var i := nth i (pm_vars nrm m) (""%string, d0) in let sd i := nr_stdv (snd (var i)) in
  let mean := c0 + fsum n (fun i => cf i * nr_mean (snd (var i))) in
  let variance := fsum n (fun i => fsum n (fun j => (cf i * sd i) * Ro i j * (cf j * sd j))) in
  lapack n chol svd inv e0 -> (1 <= n)%nat -> built nrm_rv h names m ->
  (forall name d, In (name, d) (pm_vars nrm m) -> nr_name d = name /\ 0 < nr_stdv d <= 10 ^ 290) -> (exists i, (i < n)%nat /\ cf i <> 0) ->
  pointwise expr f -> (forall q, length q = n -> f (args_at h q) = c0 + fsum n (fun i => cf i * nth i q 0)) ->
  form_init ty = Ok a -> exact_options fo -> (n + 7 < lf)%nat -> (Z.to_nat (fo_imax fo) < fuel)%nat -> (100 < fuel)%nat ->
  sm_corr s = Some M -> length M = n -> (forall r, In r M -> length r = n) ->
  computeModifiedCorrelationMatrix fmin n n (mat_of M) (fun i => marg_of (marg_at s i)) = Ok (Ro, log) -> pos_def n Ro ->
  (forall i j, (j < i)%nat -> (i < n)%nat -> mat_of M i j <> 0 -> nodes_inside (mat_of M i j)) ->
  (forall k, (k < n)%nat -> tiny < phi (mean / variance * fsum n (fun j => Ro k j * (cf j * sd j)))) ->
  let run := sa_run nrm nrm_rv nrm_sens nrm_copy (fun d => normal_marg (nr_mean d) (nr_stdv d)) d0 fmin chol svd inv fuel lf expr evn ty fo in
  exists dc, (forall delta, run false delta names m = SaDict dc) /\
  forall eps, 0 < eps -> exists h0, 0 < h0 /\ forall delta, delta <> 0 -> Rabs delta < h0 ->
  exists dn, run true delta names m = SaDict dn /\
  forall name d, In (name, d) (pm_vars nrm m) ->
    (exists x, entry (marginals true dn) name "mean" = Some x /\ entry (marginals false dc) name "mean" = Some x) /\
    (exists x y, entry (marginals true dn) name "std" = Some x /\ entry (marginals false dc) name "std" = Some y /\ Rabs (x - y) < eps).
Proof.
  intros fmin chol svd inv e0 h names m expr f lf evn fuel ty a fo d0 cf c0 M Ro lg n s var sd mean variance Hlap Hn HB Hv Hcf Hp Hlin Ha Hfo Hlf Hfu Hfu1 HM HM1 HM2 HRo HPD Hnd Hphi run.
  set (mu := fun i => nr_mean (snd (var i))).
  destruct (built_facts nrm_rv h names m HB) as (HNd & HKn & _). destruct (registry h) as (_ & _ & RM & RV & _).
  assert (LEN : length (pm_vars nrm m) = n).
  { pose proof (f_equal sm_marg (proj1 HB)) as E. cbn [to_sm sm_marg] in E. rewrite RM, (proj2 HB) in E. apply (f_equal (@length rv)) in E. rewrite !map_length in E. exact E. }
  assert (HV : forall i, (i < n)%nat -> nth_error (pm_vars nrm m) i = Some (fst (var i), mkNrm (fst (var i)) (mu i) (sd i))).
  { intros i Hi. rewrite (nth_error_nth' _ (""%string, d0)) by (rewrite LEN; exact Hi). fold (var i). f_equal.
    assert (HI : In (var i) (pm_vars nrm m)) by (apply nth_In; rewrite LEN; exact Hi). unfold mu, sd. destruct (var i) as [nm [q x y]]. cbn [fst snd].
    destruct (Hv _ _ HI) as (E & _). cbn in E. subst q. reflexivity. }
  assert (HN : forall i, (i < n)%nat -> nth_error (dists_of (accepted h)) i = Some (Normal (fst (var i)) (mu i) (sd i))).
  { intros i Hi. rewrite <- RM. rewrite <- (proj1 HB). cbn [to_sm sm_marg]. rewrite (proj2 HB), map_map.
    rewrite (map_nth_error (fun x => nrm_rv (snd x)) _ _ (HV i Hi)). reflexivity. }
  assert (Hsd : forall i, (i < n)%nat -> 0 < sd i <= 10 ^ 290).
  { intros i Hi. assert (HI : In (var i) (pm_vars nrm m)) by (apply nth_In; rewrite LEN; exact Hi). unfold sd. destruct (var i) as [nm d]. exact (proj2 (Hv _ _ HI)). }
  assert (Hsd0 : forall i, (i < n)%nat -> sd i <> 0) by (intros i Hi; specialize (Hsd i Hi); lra).
  destruct (C96_closed_form_exact fmin chol svd inv e0 h expr f lf (fun i => fst (var i)) mu sd cf c0 M Ro lg a ty fo evn fuel Hlap Ha Hn HN Hsd Hcf Hp Hlin Hfo Hlf Hfu HM HM1 HM2 HRo HPD) as (r & s' & EC & HC & _).
  assert (EMG : (fun k => normal_marg (nr_mean (nth k (pm_marg nrm m) d0)) (nr_stdv (nth k (pm_marg nrm m) d0))) = (fun i => normal_marg (mu i) (sd i))).
  { apply FunctionalExtensionality.functional_extensionality. intros k. rewrite (proj2 HB). unfold mu, sd, var.
    assert (X : nth k (map snd (pm_vars nrm m)) d0 = snd (nth k (pm_vars nrm m) (""%string, d0))) by exact (map_nth snd (pm_vars nrm m) (""%string, d0) k). now rewrite X. }
  assert (ER : forall delta, run false delta names m = SaDict (cf_dict nrm nrm_sens d0 m r)).
  { intros delta. unfold run, sa_run. rewrite Ha. cbv beta. rewrite EMG, (proj1 HB). fold n in EC |- *. rewrite EC. reflexivity. }
  exists (cf_dict nrm nrm_sens d0 m r). split; [exact ER|]. clear ER. intros eps He.
  assert (HDC : forall k, (k < n)%nat -> is_derive (fun q => margin_beta n c0 cf (vset mu k q) sd Ro) (mu k) (cf_marg r k "mean") /\ is_derive (fun q => margin_beta n c0 cf mu (vset sd k q) Ro) (sd k) (cf_marg r k "std")).
  { intros k Hk. apply HC; [exact Hk|intros i j Hj Hi _ Hz; now apply Hnd|exact (Hphi k Hk)]. }
  assert (EN : forall k, (k < n)%nat -> forall p, In p ["mean"; "std"]%string -> entry (marginals false (cf_dict nrm nrm_sens d0 m r)) (fst (var k)) p = Some (cf_marg r k p)).
  { intros k Hk p Hpp. unfold cf_dict. cbn [marginals dict_get String.eqb Ascii.eqb Bool.eqb]. rewrite nested_entry.
    rewrite (dget_nodup _ (fst (var k)) (map (fun pv => (fst pv, cf_marg r k (fst pv))) (nrm_sens (snd (var k))))).
    - destruct (Hpp) as [<-|[<-|[]]]; reflexivity.
    - rewrite map_map. cbn [fst]. rewrite <- (map_seq_nth fst (pm_vars nrm m) (""%string, d0)) in HNd. exact HNd.
    - apply in_map_iff. exists k. split; [reflexivity|]. apply in_seq. rewrite LEN. lia. }
  destruct (common_bound n (fun k h0 => 0 < h0 /\ forall delta, delta <> 0 -> Rabs delta < h0 ->
     exists res m' row v, numerical_run nrm nrm_rv nrm_sens nrm_copy fmin chol svd inv fuel lf expr evn names fo delta m = (Ok res, m') /\
       dict_get res (fst (var k)) = Some row /\ dict_get row "std" = Some v /\ Rabs (v - cf_marg r k "std") < eps)) as (h1 & P1 & Q1).
  { tauto. }
  { intros k d d' (_ & H) H1 H2. split; [exact H1|]. intros delta D1 D2. apply H; [exact D1|lra]. }
  { intros k Hk. destruct (C97_converges fmin chol svd inv e0 h names m expr f lf (fun i => fst (var i)) mu sd cf c0 M Ro lg evn fuel fo Hlap Hn HB HV Hsd0 Hcf Hp Hlin Hlf Hfu1 HM HM1 HM2 HRo HPD k Hk) as (Dk & HD & HE).
    destruct (HE eps He) as (h0 & P0 & Q0). exists h0. split; [exact P0|]. intros delta D1 D2. destruct (Q0 delta D1 D2) as (res & m' & row & v & A1 & A2 & A3 & A4).
    exists res, m', row, v. repeat split; try assumption. assert (X : cf_marg r k "std" = Dk) by (destruct (HDC k Hk) as (_ & H2); exact (eq_trans (eq_sym (is_derive_unique _ _ _ H2)) (is_derive_unique _ _ _ HD))).
    rewrite X. exact A4. }
  exists (Rmin h1 (1 / 2)). split; [apply Rmin_pos; lra|]. intros delta D1 D2.
  assert (B1 := Rlt_le_trans _ _ _ D2 (Rmin_l _ _)). assert (B2 := Rlt_le_trans _ _ _ D2 (Rmin_r _ _)).
  assert (Hd1 : 1 + delta <> 0) by (apply Rabs_def2 in B2; lra).
  destruct (C97_linear_normal fmin chol svd inv e0 h names m expr f lf (fun i => fst (var i)) mu sd cf c0 M Ro lg evn fuel fo delta Hlap Hn HB HV Hsd0 Hcf Hp Hlin Hlf Hfu1 HM HM1 HM2 HRo HPD D1 Hd1)
    as (res & m' & E & _ & HR).
  exists (nested res). split; [unfold run, sa_run; rewrite E; reflexivity|]. intros name d HI.
  destruct (In_nth _ _ (""%string, d0) HI) as (k & Hk & Ek). rewrite LEN in Hk. fold (var k) in Ek.
  assert (En : fst (var k) = name) by (rewrite Ek; reflexivity). rewrite <- En.
  destruct (HR k Hk) as (row & R1 & _ & R2 & R3 & _). destruct (HDC k Hk) as (H1 & _).
  rewrite !EN by (cbn; tauto). cbn [marginals]. rewrite !nested_entry, R1. split.
  - eexists. split; [exact R2|]. f_equal. exact (eq_trans (eq_sym (is_derive_unique _ _ _ H1)) (is_derive_unique _ _ _ R3)).
  - destruct (proj2 (Q1 k Hk) delta D1 B1) as (res' & m'' & row' & v & A1 & A2 & A3 & A4). rewrite E in A1. injection A1 as <- <-. rewrite R1 in A2. injection A2 as <-.
    exists v. eexists. split; [exact A3|]. split; [reflexivity|exact A4].
Qed.
Print Assumptions C106_methods_agree.

(** *** Non-vacuity: R - 3 S for R ~ N(200, 20), S ~ N(40, 5); the two methods, their agreement and
    their tables *)
Definition sa_ex (fmin : (R -> R) -> R -> R) := sa_run nrm nrm_rv nrm_sens nrm_copy (fun d => normal_marg (nr_mean d) (nr_stdv d)) (mkNrm "" 0 1) fmin chol2 svd2 inv2 101 10 expr_ex None None default_options.
Example C106_example : forall fmin, exists dc, (forall delta, sa_ex fmin false delta (sm_names (sm_run h_pipe)) m_num = SaDict dc) /\
  (exists h0, 0 < h0 /\ forall delta, delta <> 0 -> Rabs delta < h0 ->
    exists dn rn rc, sa_ex fmin true delta (sm_names (sm_run h_pipe)) m_num = SaDict dn /\ summary dn = Ok rn /\ summary dc = Ok rc /\
      map fst rn = [("R", "mean"); ("R", "std"); ("S", "mean"); ("S", "std")]%string /\ map fst rc = map fst rn /\
      exists x y, entry dn "S" "std" = Some x /\ entry (marginals false dc) "S" "std" = Some y /\ Rabs (x - y) < 1 / 1000).
Proof.
  intros fmin.
  destruct (modified_ok fmin 2 (mat_of (eye_rows 2)) (fun i => marg_of (marg_at (sm_run h_pipe) i)) 2 (le_n 2)) as (Ro & E & D & S & L & _).
  match type of E with _ = Ok (_, ?x) => set (lg := x) in * end.
  assert (R10 : Ro 1%nat 0%nat = 0).
  { rewrite L by lia. unfold pair_value. unfold mat_of. cbn [nth]. cbn. now rewrite (proj2 (Reqb_spec 0 0) eq_refl). }
  assert (EI : forall i j, (i < 2)%nat -> (j < 2)%nat -> Ro i j = delta i j).
  { intros i j Hi Hj. two i Hi; two j Hj; cbn; rewrite ?D, ?R10; try reflexivity. rewrite (S 0%nat 1%nat), R10. reflexivity. }
  assert (OR : orderly nrm_sens m_num).
  { split; [cbn; repeat constructor; cbn; intuition discriminate|]. split; [|reflexivity]. intros nm d [X|[X|[]]]; injection X as <- <-; cbn; repeat constructor; cbn; intuition discriminate. }
  destruct (C106_methods_agree fmin chol2 svd2 inv2 ERuntime h_pipe (sm_names (sm_run h_pipe)) m_num expr_ex g_ex 10 None 101 None aF default_options (mkNrm "" 0 1) (pick 1 (-3)) 0 (eye_rows 2) Ro lg) as (dc & EC & HA);
    change (ndists h_pipe) with 2%nat; try exact lapack2; try reflexivity; try exact pointwise_ex; try exact default_exact; try lia; try exact E.
  - split; reflexivity.
  - intros nm d [X|[X|[]]]; injection X as <- <-; (split; [reflexivity|]); cbn [nr_stdv]; (split; [lra|]); apply Rle_trans with (10 ^ 2); try (apply Rle_pow; [lra|lia]); lra.
  - exists 0%nat. split; [lia|]. cbn. lra.
  - intros q Hq. now apply h_pipe_lin.
  - cbn. lia.
  - intros q Hq. cbn in Hq. destruct Hq as [<-|[<-|[]]]; reflexivity.
  - now apply eye_posdef.
  - intros i j Hj Hi Hz. exfalso. apply Hz. assert (i = 1%nat) as -> by lia. assert (j = 0%nat) as -> by lia. reflexivity.
  - intros k Hk. cbn [fsum nth m_num pm_vars snd nr_mean nr_stdv pick]. rewrite !D, (S 0%nat 1%nat), R10.
    pose proof tiny_pos. two k Hk; rewrite ?D, ?(S 0%nat 1%nat), ?R10; match goal with |- _ < phi ?x => pose proof (SensProps.phi_ge_tiny x ltac:(lra)) end; lra.
  - exists dc. split; [exact EC|]. destruct (HA (1 / 1000) ltac:(lra)) as (h0 & P0 & Q0). exists h0. split; [exact P0|]. intros delta D1 D2.
    destruct (Q0 delta D1 D2) as (dn & EN & Hx). exists dn.
    destruct (C106_table nrm nrm_rv nrm_sens nrm_copy _ _ fmin chol2 svd2 inv2 101 10 expr_ex None None default_options true delta _ m_num dn OR EN) as (rn & Sn & (Tn & _)).
    { intros _. cbn. intuition discriminate. }
    destruct (C106_table nrm nrm_rv nrm_sens nrm_copy _ _ fmin chol2 svd2 inv2 101 10 expr_ex None None default_options false delta _ m_num dc OR (EC delta)) as (rc & Sc & (Tc & _)).
    { discriminate. }
    exists rn, rc. split; [exact EN|]. split; [exact Sn|]. split; [exact Sc|]. rewrite Tn, Tc. split; [reflexivity|]. split; [reflexivity|].
    destruct (Hx "S"%string (mkNrm "S" 40 5)) as (_ & x & y & X1 & X2 & X3); [right; left; reflexivity|]. exists x, y. split; [exact X1|]. split; [exact X2|exact X3].
Qed.

(** a resistance called "marginal": the finite-difference table cannot be made *)
Definition h_marg : list smop := [OpAdd (ODist (Normal "marginal" 200 20)); OpAdd (ODist (Normal "S" 40 5))].
Definition m_marg : pmodel nrm :=
  mkpm nrm [("marginal", mkNrm "marginal" 200 20); ("S", mkNrm "S" 40 5)]%string [mkNrm "marginal" 200 20; mkNrm "S" 40 5] (Some (eye_rows 2)) None 0 [].
Definition g_marg (kw : list (string * R)) : R := lk kw "marginal" - 3 * lk kw "S".
Definition expr_marg : expression := fun kw =>
  let nc := match kw with [] => 0%nat | (_, v) :: _ => List.length v end in
  Ok (UPlain (Arr (map (fun c => g_marg (map (fun kv => (fst kv, nth c (snd kv) 0)) kw)) (seq 0 nc)))).
Example C106_marginal_example : forall fmin, exists dn,
  sa_run nrm nrm_rv nrm_sens nrm_copy (fun d => normal_marg (nr_mean d) (nr_stdv d)) (mkNrm "" 0 1) fmin chol2 svd2 inv2 101 10 expr_marg None None default_options true (1 / 100) (sm_names (sm_run h_marg)) m_marg = SaDict dn /\
  entry dn "marginal" "mean" = Some (1 / 25) /\ summary dn = Err EAttr.
Proof.
  intros fmin.
  destruct (modified_ok fmin 2 (mat_of (eye_rows 2)) (fun i => marg_of (marg_at (sm_run h_marg) i)) 2 (le_n 2)) as (Ro & E & D & S & L & _).
  match type of E with _ = Ok (_, ?x) => set (lg := x) in * end.
  assert (R10 : Ro 1%nat 0%nat = 0).
  { rewrite L by lia. unfold pair_value. unfold mat_of. cbn [nth]. cbn. now rewrite (proj2 (Reqb_spec 0 0) eq_refl). }
  assert (EI : forall i j, (i < 2)%nat -> (j < 2)%nat -> Ro i j = delta i j).
  { intros i j Hi Hj. two i Hi; two j Hj; cbn; rewrite ?D, ?R10; try reflexivity. rewrite (S 0%nat 1%nat), R10. reflexivity. }
  destruct (C97_linear_normal fmin chol2 svd2 inv2 ERuntime h_marg (sm_names (sm_run h_marg)) m_marg expr_marg g_marg 10 (pick "marginal" "S")%string (pick 200 40) (pick 20 5) (pick 1 (-3)) 0
     (eye_rows 2) Ro lg None 101 default_options (1 / 100)) as (res & m' & ER & EK & HR);
    change (ndists h_marg) with 2%nat; try exact lapack2; try reflexivity; try lra; try lia; try exact E.
  - split; reflexivity.
  - intros i Hi. two i Hi; reflexivity.
  - intros i Hi. two i Hi; cbn; lra.
  - exists 0%nat. split; [lia|]. cbn. lra.
  - intros kw nc Hne Hl. eexists. split; [reflexivity|]. destruct kw as [|[nm v] kw]; [contradiction|]. cbn [value_of]. rewrite (Hl nm v) by (left; reflexivity). reflexivity.
  - intros q Hq. destruct q as [|x [|y [|z q]]]; try discriminate. unfold g_marg, lk, args_at. cbn. ring.
  - intros q Hq. cbn in Hq. destruct Hq as [<-|[<-|[]]]; reflexivity.
  - now apply eye_posdef.
  - assert (RUN : sa_run nrm nrm_rv nrm_sens nrm_copy (fun d => normal_marg (nr_mean d) (nr_stdv d)) (mkNrm "" 0 1) fmin chol2 svd2 inv2 101 10 expr_marg None None default_options true (1 / 100) (sm_names (sm_run h_marg)) m_marg = SaDict (nested res)) by (unfold sa_run; rewrite ER; reflexivity).
    exists (nested res). split; [exact RUN|]. split.
    + change (ndists h_marg) with 2%nat in *. destruct (HR 0%nat ltac:(lia)) as (row & A1 & _ & A2 & _). cbn [pick] in A1. rewrite nested_entry, A1, A2. f_equal. cbn [fsum pick].
      rewrite !D, (S 0%nat 1%nat), R10. f_equal. match goal with |- sqrt ?x = _ => replace x with (Rsqr 25) by (unfold Rsqr; ring) end. apply sqrt_Rsqr. lra.
    + refine (C106_variable_named_marginal_refuted nrm nrm_rv nrm_sens nrm_copy _ _ fmin chol2 svd2 inv2 101 10 expr_marg None None default_options (1 / 100) _ m_marg _ (mkNrm "marginal" 200 20) _ _ RUN); [|left; reflexivity].
      split; [cbn; repeat constructor; cbn; intuition discriminate|]. split; [|reflexivity]. intros nm d [X|[X|[]]]; injection X as <- <-; cbn; repeat constructor; cbn; intuition discriminate.
Qed.
