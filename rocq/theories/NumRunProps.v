(** Property theorems C97: finite-difference sensitivities, end to end. *)
From Coquelicot Require Import Coquelicot.
From Verif Require Import Base Ext Dict Gauss GaussProofs StochModel StochModelSpec StochModelProofs LimitState LimitStateSpec LimitStateProofs LimitStateProps Transf TransfSpec TransfProofs Form FormProofs FormAffineProofs FormNormalProofs FormProps Chol Quad Nataf NatafProofs Dist RotSpec RotProofs RotProps Pipe PipeSpec PipeProofs PipeProps Copy Sens SensSpec SensNumProofs SensProps SensRunSpec SensRunProofs NumRun NumRunSpec NumRunProofs.
From Coq Require Import ZArith Lra Lia.
Open Scope R_scope.

Lemma same_form fmin chol svd inv fuel lf expr evn o s s' : same_problem s s' ->
  snd (form_on fmin chol svd inv fuel lf expr evn o s') = snd (form_on fmin chol svd inv fuel lf expr evn o s).
Proof.
  intros H. unfold form_on. destruct (form_init None) as [a|e]; [|reflexivity].
  set (fo := match o with None => no_options | Some fo => fo end).
  pose proof (C93_history_independent fmin chol svd inv fuel lf expr fo evn a a s s' H eq_refl) as (E & P1 & P2 & _).
  destruct (run_form _ _ _ _ _ _ _ _ _ a s) as [[a1 s1] o1]. destruct (run_form _ _ _ _ _ _ _ _ _ a s') as [[a2 s2] o2]. cbn [fst snd] in *.
  subst o2. assert (EM : sm_marg s2 = sm_marg s1).
  { destruct H as (_ & _ & H & _). destruct P1 as (_ & _ & P1 & _). destruct P2 as (_ & _ & P2 & _). congruence. }
  rewrite EM. reflexivity.
Qed.
Lemma after_same {D} (rvo : D -> rv) fmin chol svd inv fuel lf expr evn names oo mm :
  same_inputs mm (form_after_of D rvo fmin chol svd inv fuel lf expr evn names oo mm).
Proof. repeat split. Qed.

(** C97: every reported number is the difference quotient of the beta values of two FORM analyses
    with default options, each on a model built from scratch: the history as it was, and the
    history in which the one distribution was constructed with the changed parameter. *)
Theorem C97_fresh_analyses : forall (D : Type) (rvo : D -> rv) sparams mkcopy fmin chol svd inv fuel lf expr evn h names m o delta res m',
  built rvo h names m ->
  (forall name d, In (name, d) (pm_vars D m) -> NoDup (map fst (sparams d))) ->
  (forall d p v d', mkcopy d p v = Ok d' -> rv_name (rvo d') = rv_name (rvo d)) ->
  numerical_run D rvo sparams mkcopy fmin chol svd inv fuel lf expr evn names o delta m = (Ok res, m') ->
  let fresh h := snd (form_on fmin chol svd inv fuel lf expr evn None (sm_run h)) in
  same_problem (sm_run h) (to_sm D rvo names m') /\
  exists beta0, fresh h = Ok beta0 /\ map fst res = map fst (pm_vars D m) /\
  forall name d, In (name, d) (pm_vars D m) ->
    exists row, dict_get res name = Some row /\ map fst row = map fst (sparams d) /\
    forall p val, In (p, val) (sparams d) ->
      exists d' v1 beta1, mkcopy d p (val + delta * rv_stdv (rvo d)) = Ok d' /\ dict_get (sparams d') p = Some v1 /\
        fresh (rebuilt name (rvo d') h) = Ok beta1 /\ dict_get row p = Some ((beta1 - beta0) / (v1 - val)).
Proof.
  intros D rvo sparams mkcopy fmin chol svd inv fuel lf expr evn h names m o delta res m' HB HS HC H fresh.
  destruct (built_facts rvo h names m HB) as (HN & HK & _).
  destruct (C45_bookkeeping D form_opts sparams mkcopy (fun d => rv_stdv (rvo d)) _ _ o delta m res m' HN HS (proj2 HB) (after_same rvo fmin chol svd inv fuel lf expr evn names) H) as (HI & beta0 & E0 & EK & HR).
  split.
  { destruct HI as (I1 & I2 & I3 & I4). destruct HB as [EB _]. rewrite <- EB. unfold same_problem, to_sm. cbn. rewrite I1, I2, I3, I4. repeat split. }
  exists beta0. split; [|split; [exact EK|]].
  { unfold form_beta_of in E0. destruct HB as [EB _]. rewrite EB in E0. exact E0. }
  intros name d Hd. destruct (HR name d Hd) as (row & R1 & R2 & R3). exists row. split; [exact R1|]. split; [exact R2|].
  intros p val Hp. destruct (R3 p val Hp) as (d' & m1 & v1 & beta1 & Q1 & Q2 & Q3 & Q4 & Q5).
  exists d', v1, beta1. split; [exact Q1|]. split; [exact Q2|]. split; [|exact Q5].
  rewrite <- Q4. unfold form_beta_of, fresh. symmetry. apply same_form.
  exact (changed_same rvo h names m m' m1 name d d' HB HI Hd (HC _ _ _ _ Q1) Q3).
Qed.
Print Assumptions C97_fresh_analyses.

(** ** linear functions of normal variables *)
Lemma fresh_linear fmin chol svd inv e0 h expr f lf nm (mu sd cf : vec) c0 M Ro log evn fuel :
  let n := ndists h in let s := sm_run h in
  lapack n chol svd inv e0 -> (1 <= n)%nat ->
  (forall i, (i < n)%nat -> nth_error (dists_of (accepted h)) i = Some (Normal (nm i) (mu i) (sd i))) ->
  (forall i, (i < n)%nat -> sd i <> 0) -> (exists i, (i < n)%nat /\ cf i <> 0) ->
  pointwise expr f -> (forall q, length q = n -> f (args_at h q) = c0 + fsum n (fun i => cf i * nth i q 0)) ->
  (n + 7 < lf)%nat -> (100 < fuel)%nat ->
  sm_corr s = Some M -> length M = n -> (forall r, In r M -> length r = n) ->
  computeModifiedCorrelationMatrix fmin n n (mat_of M) (fun i => marg_of (marg_at s i)) = Ok (Ro, log) -> pos_def n Ro ->
  snd (form_on fmin chol svd inv fuel lf expr evn None s) = Ok (margin_beta n c0 cf mu sd Ro).
Proof.
  intros n s Hlap Hn HN Hsd Hcf Hp Hlin Hlf Hfu HM HM1 HM2 HRo HPD.
  destruct (form_init None) as [a|] eqn:Ea; [|discriminate].
  destruct (C92_linear_normal_default_options fmin chol svd inv e0 h expr f lf nm mu sd cf c0 M Ro log a None evn fuel Hlap Ea Hn HN Hsd Hcf Hp Hlin Hlf Hfu HM HM1 HM2 HRo HPD)
    as (r & a' & s' & ER & EB & _). fold s in ER. fold n in EB.
  unfold form_on. rewrite Ea. change no_options with default_options. rewrite ER. cbn [snd].
  pose proof (C93_history_independent fmin chol svd inv fuel lf expr default_options evn a a s s (ltac:(repeat split)) eq_refl) as (_ & P & _).
  rewrite ER in P. cbn [fst snd] in P. destruct P as (_ & _ & P & _).
  assert (EM : length (sm_marg s') = n) by (rewrite P; destruct (registry h) as (_ & _ & X & _); unfold s; rewrite X; reflexivity).
  rewrite EM, EB. reflexivity.
Qed.

Lemma margin_Ro n c0 cf mu sd (C C' : mat) : (forall i j, (i < n)%nat -> (j < n)%nat -> C' i j = C i j) ->
  margin_beta n c0 cf mu sd C' = margin_beta n c0 cf mu sd C.
Proof.
  intros H. unfold margin_beta. do 2 f_equal. apply fsum_ext. intros i Hi. apply fsum_ext. intros j Hj. rewrite H by assumption. reflexivity.
Qed.

Lemma fresh_rebuilt fmin chol svd inv e0 h expr f lf nm (mu sd cf : vec) c0 M Ro log evn fuel k m1 s1 :
  let n := ndists h in let s := sm_run h in
  lapack n chol svd inv e0 -> (1 <= n)%nat ->
  (forall i, (i < n)%nat -> nth_error (dists_of (accepted h)) i = Some (Normal (nm i) (mu i) (sd i))) ->
  (forall i, (i < n)%nat -> sd i <> 0) -> (exists i, (i < n)%nat /\ cf i <> 0) ->
  pointwise expr f -> (forall q, length q = n -> f (args_at h q) = c0 + fsum n (fun i => cf i * nth i q 0)) ->
  (n + 7 < lf)%nat -> (100 < fuel)%nat ->
  sm_corr s = Some M -> length M = n -> (forall r, In r M -> length r = n) ->
  computeModifiedCorrelationMatrix fmin n n (mat_of M) (fun i => marg_of (marg_at s i)) = Ok (Ro, log) -> pos_def n Ro ->
  (k < n)%nat -> s1 <> 0 ->
  snd (form_on fmin chol svd inv fuel lf expr evn None (sm_run (rebuilt (nm k) (Normal (nm k) m1 s1) h))) =
    Ok (margin_beta n c0 cf (vset mu k m1) (vset sd k s1) Ro).
Proof.
  intros n s Hlap Hn HN Hsd Hcf Hp Hlin Hlf Hfu HM HM1 HM2 HRo HPD Hk Hs1.
  set (h1 := rebuilt (nm k) (Normal (nm k) m1 s1) h).
  assert (ES : sm_run h1 = rep_sm (nm k) (Normal (nm k) m1 s1) s) by (apply rep_run; reflexivity).
  destruct (registry h) as (_ & _ & RM & RV & RC & _). destruct (registry h1) as (_ & _ & RM1 & RV1 & RC1 & _).
  assert (ED : dists_of (accepted h1) = map (rep (nm k) (Normal (nm k) m1 s1)) (dists_of (accepted h))).
  { rewrite <- RM1, ES. cbn [rep_sm sm_marg]. unfold s. rewrite RM. reflexivity. }
  assert (EC : consts_of (accepted h1) = consts_of (accepted h)) by (rewrite <- RC1, ES; cbn [rep_sm sm_consts]; unfold s; rewrite RC; reflexivity).
  assert (EN : ndists h1 = n) by (unfold ndists; rewrite ED, map_length; reflexivity).
  assert (ND : NoDup (map rv_name (dists_of (accepted h)))).
  { pose proof (keys_nodup h) as K. apply nodup_app_l in K. rewrite RV, map_map in K. exact K. }
  assert (HN1 : forall i, (i < n)%nat -> nth_error (dists_of (accepted h1)) i = Some (Normal (nm i) (vset mu k m1 i) (vset sd k s1 i))).
  { intros i Hi. rewrite ED. rewrite (map_nth_error _ _ _ (HN i Hi)). f_equal. unfold rep. cbn [rv_name Normal rv_of]. unfold vset.
    destruct (Nat.eqb_spec i k) as [->|Ne]; [now rewrite String.eqb_refl|].
    destruct (String.eqb_spec (nm i) (nm k)) as [E|_]; [exfalso|reflexivity]. apply Ne.
    apply (proj1 (NoDup_nth_error _) ND i k); [rewrite map_length; exact Hi|].
    rewrite (map_nth_error rv_name _ _ (HN i Hi)), (map_nth_error rv_name _ _ (HN k Hk)). cbn. now rewrite E. }
  assert (HM1' : sm_corr (sm_run h1) = Some M) by (rewrite ES; exact HM).
  assert (MA : forall i, (i < n)%nat -> marg_at s i = Normal (nm i) (mu i) (sd i)) by (intros i Hi; unfold marg_at, s; rewrite RM; apply nth_error_nth, HN, Hi).
  assert (MA1 : forall i, (i < n)%nat -> marg_at (sm_run h1) i = Normal (nm i) (vset mu k m1 i) (vset sd k s1 i)) by (intros i Hi; unfold marg_at; rewrite RM1; apply nth_error_nth, HN1, Hi).
  assert (Hsd1 : forall i, (i < n)%nat -> vset sd k s1 i <> 0) by (intros i Hi; unfold vset; destruct (Nat.eqb i k); [exact Hs1|now apply Hsd]).
  destruct (normal_modified fmin n (mat_of M) (marg_at s) (marg_at (sm_run h1)) nm nm mu sd (vset mu k m1) (vset sd k s1) Ro log) as (Ro1 & log1 & E1 & Eq).
  { intros i Hi. rewrite (MA i Hi), (MA1 i Hi). auto. }
  { exact HRo. }
  rewrite <- (margin_Ro n c0 cf (vset mu k m1) (vset sd k s1) Ro Ro1 Eq).
  assert (X := fresh_linear fmin chol svd inv e0 h1 expr f lf nm (vset mu k m1) (vset sd k s1) cf c0 M Ro1 log1 evn fuel). cbv zeta in X. rewrite EN in X.
  apply X; try assumption.
  - intros q Hq. rewrite <- (Hlin q Hq). f_equal. unfold args_at. rewrite ED, EC, map_map. f_equal. f_equal. apply map_ext. intros d. apply rep_name. reflexivity.
  - intros v Hv. specialize (HPD v Hv). rewrite (fsum_ext n _ (fun i => fsum n (fun j => v i * Ro i j * v j))); [exact HPD|].
    intros i Hi. apply fsum_ext. intros j Hj. rewrite Eq by assumption. reflexivity.
Qed.

(** C97: with any step delta (other than 0 and -1) the reported 'mean' sensitivities are exactly
    the derivatives c_k / sqrt(variance), and the 'std' entries are exactly the forward difference
    quotients of the closed-form beta with the increment delta * stdv.  The options given to the
    constructor do not matter. *)
Theorem C97_linear_normal :
  forall fmin chol svd inv e0 h names m expr f lf nm (mu sd cf : vec) c0 M Ro log evn fuel o delta,
  let n := ndists h in let s := sm_run h in
  lapack n chol svd inv e0 -> (1 <= n)%nat -> built nrm_rv h names m ->
  (forall i, (i < n)%nat -> nth_error (pm_vars nrm m) i = Some (nm i, mkNrm (nm i) (mu i) (sd i))) ->
  (forall i, (i < n)%nat -> sd i <> 0) -> (exists i, (i < n)%nat /\ cf i <> 0) ->
  pointwise expr f -> (forall q, length q = n -> f (args_at h q) = c0 + fsum n (fun i => cf i * nth i q 0)) ->
  (n + 7 < lf)%nat -> (100 < fuel)%nat ->
  sm_corr s = Some M -> length M = n -> (forall r, In r M -> length r = n) ->
  computeModifiedCorrelationMatrix fmin n n (mat_of M) (fun i => marg_of (marg_at s i)) = Ok (Ro, log) -> pos_def n Ro ->
  delta <> 0 -> 1 + delta <> 0 ->
  let beta := fun mu sd => margin_beta n c0 cf mu sd Ro in
  let variance := fsum n (fun i => fsum n (fun j => (cf i * sd i) * Ro i j * (cf j * sd j))) in
  exists res m', numerical_run nrm nrm_rv nrm_sens nrm_copy fmin chol svd inv fuel lf expr evn names o delta m = (Ok res, m') /\
    map fst res = map nm (seq 0 n) /\
    forall k, (k < n)%nat -> exists row, dict_get res (nm k) = Some row /\ map fst row = ["mean"; "std"]%string /\
      dict_get row "mean" = Some (cf k / sqrt variance) /\
      is_derive (fun q => beta (vset mu k q) sd) (mu k) (cf k / sqrt variance) /\
      dict_get row "std" = Some ((beta mu (vset sd k (sd k + delta * sd k)) - beta mu sd) / (delta * sd k)).
Proof.
  intros fmin chol svd inv e0 h names m expr f lf nm mu sd cf c0 M Ro lg evn fuel o delta n s Hlap Hn HB HV Hsd Hcf Hp Hlin Hlf Hfu HM HM1 HM2 HRo HPD Hd Hd1 beta variance.
  destruct (built_facts nrm_rv h names m HB) as (HNd & HKn & _).
  destruct (registry h) as (_ & _ & RM & RV & _).
  assert (LEN : length (pm_vars nrm m) = n).
  { pose proof (f_equal sm_marg (proj1 HB)) as E. cbn [to_sm sm_marg] in E. rewrite RM, (proj2 HB) in E. apply (f_equal (@length rv)) in E. rewrite !map_length in E. exact E. }
  assert (HN : forall i, (i < n)%nat -> nth_error (dists_of (accepted h)) i = Some (Normal (nm i) (mu i) (sd i))).
  { intros i Hi. rewrite <- RM. rewrite <- (proj1 HB). cbn [to_sm sm_marg]. rewrite (proj2 HB), map_map.
    rewrite (map_nth_error (fun x => nrm_rv (snd x)) _ _ (HV i Hi)). reflexivity. }
  assert (IN : forall name d, In (name, d) (pm_vars nrm m) -> exists k, (k < n)%nat /\ name = nm k /\ d = mkNrm (nm k) (mu k) (sd k)).
  { intros name d HI. apply In_nth_error in HI. destruct HI as (k & Ek). assert (Hk : (k < n)%nat) by (rewrite <- LEN; apply nth_error_Some; rewrite Ek; discriminate).
    rewrite (HV k Hk) in Ek. injection Ek as <- <-. eauto. }
  assert (NI : forall k, (k < n)%nat -> In (nm k, mkNrm (nm k) (mu k) (sd k)) (pm_vars nrm m)) by (intros k Hk; eapply nth_error_In, HV, Hk).
  assert (FB : form_beta_of nrm nrm_rv fmin chol svd inv fuel lf expr evn names None m = Ok (beta mu sd)).
  { unfold form_beta_of. rewrite (proj1 HB). exact (fresh_linear fmin chol svd inv e0 h expr f lf nm mu sd cf c0 M Ro lg evn fuel Hlap Hn HN Hsd Hcf Hp Hlin Hlf Hfu HM HM1 HM2 HRo HPD). }
  assert (CP : forall k p v, (k < n)%nat -> p = "mean"%string \/ p = "std"%string ->
     nrm_copy (mkNrm (nm k) (mu k) (sd k)) p v = Ok (if String.eqb p "mean" then mkNrm (nm k) v (sd k) else mkNrm (nm k) (mu k) v)).
  { intros k p v _ [-> | ->]; reflexivity. }
  assert (FR : forall k m1 s1, (k < n)%nat -> s1 <> 0 ->
     snd (form_on fmin chol svd inv fuel lf expr evn None (sm_run (rebuilt (nm k) (Normal (nm k) m1 s1) h))) = Ok (beta (vset mu k m1) (vset sd k s1))).
  { intros k m1 s1 Hk Hs1. exact (fresh_rebuilt fmin chol svd inv e0 h expr f lf nm mu sd cf c0 M Ro lg evn fuel k m1 s1 Hlap Hn HN Hsd Hcf Hp Hlin Hlf Hfu HM HM1 HM2 HRo HPD Hk Hs1). }
  assert (SD1 : forall k, (k < n)%nat -> sd k + delta * sd k <> 0).
  { intros k Hk. replace (sd k + delta * sd k) with ((1 + delta) * sd k) by ring. apply Rmult_integral_contrapositive_currified; [exact Hd1|now apply Hsd]. }
  destruct (numerical_total nrm_sens nrm_copy (fun d => rv_stdv (nrm_rv d)) form_opts
     (form_beta_of nrm nrm_rv fmin chol svd inv fuel lf expr evn names) (form_after_of nrm nrm_rv fmin chol svd inv fuel lf expr evn names) o delta m (beta mu sd) HNd (proj2 HB)
     (after_same nrm_rv fmin chol svd inv fuel lf expr evn names) FB) as (res & ER).
  { intros name d p val HI Hpv. destruct (IN name d HI) as (k & Hk & -> & ->).
    assert (PV : (p = "mean"%string /\ val = mu k) \/ (p = "std"%string /\ val = sd k)).
    { cbn in Hpv. destruct Hpv as [X|[X|[]]]; injection X as <- <-; auto. }
    rewrite (CP k p _ Hk) by tauto. eexists. cbn [rv_stdv nrm_rv Normal rv_of d_stdv normal_dist].
    exists (val + delta * sd k). split; [reflexivity|]. split; [destruct PV as [[-> _]|[-> _]]; reflexivity|].
    intros m1 HO. destruct PV as [[-> ->]|[-> ->]]; cbn [String.eqb Ascii.eqb Bool.eqb] in HO |- *.
    - exists (beta (vset mu k (mu k + delta * sd k)) (vset sd k (sd k))). rewrite <- (FR k (mu k + delta * sd k) (sd k) Hk (Hsd k Hk)). unfold form_beta_of.
      apply same_form. refine (changed_same nrm_rv h names m _ m1 (nm k) _ _ HB (after_same nrm_rv fmin chol svd inv fuel lf expr evn names None m) HI _ HO). reflexivity.
    - exists (beta (vset mu k (mu k)) (vset sd k (sd k + delta * sd k))). rewrite <- (FR k (mu k) (sd k + delta * sd k) Hk (SD1 k Hk)). unfold form_beta_of.
      apply same_form. refine (changed_same nrm_rv h names m _ m1 (nm k) _ _ HB (after_same nrm_rv fmin chol svd inv fuel lf expr evn names None m) HI _ HO). reflexivity. }
  fold (numerical_run nrm nrm_rv nrm_sens nrm_copy fmin chol svd inv fuel lf expr evn names o delta m) in ER.
  destruct (C97_fresh_analyses nrm nrm_rv nrm_sens nrm_copy fmin chol svd inv fuel lf expr evn h names m o delta res
     (form_after_of nrm nrm_rv fmin chol svd inv fuel lf expr evn names None m) HB) as (_ & b0 & E0 & EK & HR); [| |exact ER|].
  { intros name d _. cbn. constructor; [intros [X|[]]; discriminate|]. constructor; [intros []|constructor]. }
  { intros d p v d' X. unfold nrm_copy, rbind in X. destruct (make_copy _ _ _); [|discriminate]. injection X as <-. reflexivity. }
  assert (b0 = beta mu sd) as ->.
  { unfold form_beta_of in FB. rewrite (proj1 HB), E0 in FB. now injection FB. }
  exists res. eexists. split; [exact ER|]. split.
  { rewrite EK. apply (nth_ext _ _ ""%string (nm 0%nat)); [rewrite !map_length, seq_length; exact LEN|].
    intros i Hi. rewrite map_length, LEN in Hi. rewrite (nth_error_nth _ _ _ (map_nth_error fst _ _ (HV i Hi))).
    rewrite map_nth, seq_nth by exact Hi. reflexivity. }
  intros k Hk. destruct (HR (nm k) _ (NI k Hk)) as (row & R1 & R2 & R3). exists row. split; [exact R1|]. split; [exact R2|].
  assert (VS : forall v : vec, veq n (vset v k (v k)) v) by (intros v i _; unfold vset; destruct (Nat.eqb_spec i k) as [->|]; reflexivity).
  assert (BE : forall m1 m2 s1 s2, veq n m1 m2 -> veq n s1 s2 -> beta m1 s1 = beta m2 s2).
  { intros m1 m2 s1 s2 Q1 Q2. unfold beta, margin_beta. f_equal.
    - f_equal. apply fsum_ext. intros i Hi. now rewrite (Q1 i Hi).
    - f_equal. apply fsum_ext. intros i Hi. apply fsum_ext. intros j Hj. now rewrite (Q2 i Hi), (Q2 j Hj). }
  assert (VP : 0 < variance) by exact (ln_v_pos h sd cf Ro Hsd Hcf HPD).
  assert (SV := sqrt_lt_R0 _ VP).
  split; [|split; [exact (beta_dmu n c0 cf mu sd Ro k Hk)|]].
  - destruct (R3 "mean"%string (mu k) ltac:(left; reflexivity)) as (d' & v1 & b1 & Q1 & Q2 & Q3 & Q4).
    cbn [rv_stdv nrm_rv Normal rv_of d_stdv normal_dist] in Q1. rewrite (CP k _ _ Hk) in Q1 by tauto. cbn [String.eqb Ascii.eqb Bool.eqb] in Q1. injection Q1 as <-.
    cbn in Q2. injection Q2 as <-.
    assert (X : Ok b1 = Ok (beta (vset mu k (mu k + delta * sd k)) (vset sd k (sd k)))) by (rewrite <- Q3; exact (FR k _ _ Hk (Hsd k Hk))).
    injection X as ->. rewrite Q4. f_equal.
    rewrite (BE _ (vset mu k (mu k + delta * sd k)) _ sd) by (first [exact (VS sd)|intros i _; reflexivity]).
    unfold beta, margin_beta. fold variance.
    rewrite (fsum_ext n (fun i => cf i * vset mu k (mu k + delta * sd k) i) (fun i => cf i * mu i + Base.delta k i * (cf i * (delta * sd k)))).
    2: { intros i Hi. unfold vset, Base.delta. rewrite (Nat.eqb_sym k i). destruct (Nat.eqb_spec i k) as [->|]; ring. }
    rewrite fsum_plus. rewrite (fsum_delta n k (fun i => cf i * (delta * sd k)) Hk). replace (mu k + delta * sd k - mu k) with (delta * sd k) by ring. field. pose proof (Hsd k Hk). repeat split; try assumption; lra.
  - destruct (R3 "std"%string (sd k) ltac:(right; left; reflexivity)) as (d' & v1 & b1 & Q1 & Q2 & Q3 & Q4).
    cbn [rv_stdv nrm_rv Normal rv_of d_stdv normal_dist] in Q1. rewrite (CP k _ _ Hk) in Q1 by tauto. cbn [String.eqb Ascii.eqb Bool.eqb] in Q1. injection Q1 as <-.
    cbn in Q2. injection Q2 as <-.
    assert (X : Ok b1 = Ok (beta (vset mu k (mu k)) (vset sd k (sd k + delta * sd k)))) by (rewrite <- Q3; exact (FR k _ _ Hk (SD1 k Hk))).
    injection X as ->. rewrite Q4. f_equal.
    rewrite (BE _ mu _ (vset sd k (sd k + delta * sd k))) by (first [exact (VS mu)|intros i _; reflexivity]).
    f_equal. ring.
Qed.
Print Assumptions C97_linear_normal.

(** C97: as delta tends to 0 the reported 'std' entries tend to the derivative. *)
Theorem C97_converges :
  forall fmin chol svd inv e0 h names m expr f lf nm (mu sd cf : vec) c0 M Ro log evn fuel o,
  let n := ndists h in let s := sm_run h in
  lapack n chol svd inv e0 -> (1 <= n)%nat -> built nrm_rv h names m ->
  (forall i, (i < n)%nat -> nth_error (pm_vars nrm m) i = Some (nm i, mkNrm (nm i) (mu i) (sd i))) ->
  (forall i, (i < n)%nat -> sd i <> 0) -> (exists i, (i < n)%nat /\ cf i <> 0) ->
  pointwise expr f -> (forall q, length q = n -> f (args_at h q) = c0 + fsum n (fun i => cf i * nth i q 0)) ->
  (n + 7 < lf)%nat -> (100 < fuel)%nat ->
  sm_corr s = Some M -> length M = n -> (forall r, In r M -> length r = n) ->
  computeModifiedCorrelationMatrix fmin n n (mat_of M) (fun i => marg_of (marg_at s i)) = Ok (Ro, log) -> pos_def n Ro ->
  forall k, (k < n)%nat ->
  exists D, is_derive (fun q => margin_beta n c0 cf mu (vset sd k q) Ro) (sd k) D /\
  forall eps, 0 < eps -> exists d0, 0 < d0 /\ forall delta, delta <> 0 -> Rabs delta < d0 ->
  exists res m' row v, numerical_run nrm nrm_rv nrm_sens nrm_copy fmin chol svd inv fuel lf expr evn names o delta m = (Ok res, m') /\
    dict_get res (nm k) = Some row /\ dict_get row "std" = Some v /\ Rabs (v - D) < eps.
Proof.
  intros fmin chol svd inv e0 h names m expr f lf nm mu sd cf c0 M Ro lg evn fuel o n s Hlap Hn HB HV Hsd Hcf Hp Hlin Hlf Hfu HM HM1 HM2 HRo HPD k Hk.
  set (variance := fsum n (fun i => fsum n (fun j => (cf i * sd i) * Ro i j * (cf j * sd j)))).
  assert (VP : 0 < variance) by exact (ln_v_pos h sd cf Ro Hsd Hcf HPD).
  assert (SY : symmetric n Ro).
  { intros i j _ _. destruct (modified_ok fmin n (mat_of M) (fun i => marg_of (marg_at s i)) n (le_n n)) as (Q & E & _ & S & _).
    rewrite HRo in E. injection E as <- _. apply S. }
  assert (DD := beta_dsd n c0 cf mu sd Ro VP SY k Hk).
  eexists. split; [exact DD|]. intros eps He. apply is_derive_Reals in DD. destruct (DD eps He) as (al & Hal).
  assert (AS : 0 < Rabs (sd k)) by (apply Rabs_pos_lt, Hsd, Hk). pose proof (cond_pos al) as AP.
  exists (Rmin (1 / 2) (al / Rabs (sd k))). split.
  { apply Rmin_pos; [lra|]. now apply Rdiv_lt_0_compat. }
  intros delta Hd Hdb. assert (B1 := Rlt_le_trans _ _ _ Hdb (Rmin_l _ _)). assert (B2 := Rlt_le_trans _ _ _ Hdb (Rmin_r _ _)).
  assert (Hd1 : 1 + delta <> 0) by (apply Rabs_def2 in B1; lra).
  destruct (C97_linear_normal fmin chol svd inv e0 h names m expr f lf nm mu sd cf c0 M Ro lg evn fuel o delta Hlap Hn HB HV Hsd Hcf Hp Hlin Hlf Hfu HM HM1 HM2 HRo HPD Hd Hd1)
    as (res & m' & ER & _ & HR). destruct (HR k Hk) as (row & R1 & _ & _ & _ & R2).
  exists res, m', row. eexists. split; [exact ER|]. split; [exact R1|]. split; [exact R2|].
  assert (HH : delta * sd k <> 0) by (apply Rmult_integral_contrapositive_currified; [exact Hd|now apply Hsd]).
  assert (HA : Rabs (delta * sd k) < al).
  { rewrite Rabs_mult. apply (Rmult_lt_compat_r (Rabs (sd k))) in B2; [|exact AS]. unfold Rdiv in B2. rewrite Rmult_assoc, Rinv_l in B2 by lra. lra. }
  specialize (Hal (delta * sd k) HH HA).
  assert (EQ : margin_beta n c0 cf mu (vset sd k (sd k)) Ro = margin_beta n c0 cf mu sd Ro).
  { unfold margin_beta. do 2 f_equal. apply fsum_ext. intros i _. apply fsum_ext. intros j _.
    assert (V : forall q, vset sd k (sd k) q = sd q) by (intros q; unfold vset; destruct (Nat.eqb_spec q k) as [->|]; reflexivity). now rewrite !V. }
  cbv beta in Hal. rewrite EQ in Hal. exact Hal.
Qed.
Print Assumptions C97_converges.

(** *** R - 3 S for R ~ N(200, 20), S ~ N(40, 5), the default delta = 0.01 and either example of
    options: the mean entries are 1/25 and -3/25, the std entry of R is the quotient with the
    increment 0.2. *)
Definition m_num : pmodel nrm :=
  mkpm nrm [("R", mkNrm "R" 200 20); ("S", mkNrm "S" 40 5)]%string [mkNrm "R" 200 20; mkNrm "S" 40 5] (Some (eye_rows 2)) None 0 [("k", 3)]%string.
Example C97_example : forall fmin o, exists res m' rR rS,
  numerical_run nrm nrm_rv nrm_sens nrm_copy fmin chol2 svd2 inv2 101 10 expr_ex None (sm_names (sm_run h_pipe)) o (1 / 100) m_num = (Ok res, m') /\
  res = [("R", rR); ("S", rS)]%string /\ dict_get rR "mean" = Some (1 / 25) /\ dict_get rS "mean" = Some (- 3 / 25) /\
  dict_get rR "std" = Some ((80 / sqrt (633 + 4 / 100) - 80 / 25) / (1 / 5)).
Proof.
  intros fmin o.
  destruct (modified_ok fmin 2 (mat_of (eye_rows 2)) (fun i => marg_of (marg_at (sm_run h_pipe) i)) 2 (le_n 2)) as (Ro & E & D & S & L & _).
  match type of E with _ = Ok (_, ?x) => set (lg := x) in * end.
  assert (R10 : Ro 1%nat 0%nat = 0).
  { rewrite L by lia. unfold pair_value. unfold mat_of. cbn [nth]. cbn. now rewrite (proj2 (Reqb_spec 0 0) eq_refl). }
  assert (EI : forall i j, (i < 2)%nat -> (j < 2)%nat -> Ro i j = delta i j).
  { intros i j Hi Hj. two i Hi; two j Hj; cbn; rewrite ?D, ?R10; try reflexivity. rewrite (S 0%nat 1%nat), R10. reflexivity. }
  destruct (C97_linear_normal fmin chol2 svd2 inv2 ERuntime h_pipe (sm_names (sm_run h_pipe)) m_num expr_ex g_ex 10 (pick "R" "S")%string (pick 200 40) (pick 20 5) (pick 1 (-3)) 0
     (eye_rows 2) Ro lg None 101 o (1 / 100)) as (res & m' & ER & EK & HR);
    change (ndists h_pipe) with 2%nat; try exact lapack2; try reflexivity; try exact pointwise_ex; try lra; try lia; try exact E.
  - split; reflexivity.
  - intros i Hi. two i Hi; reflexivity.
  - intros i Hi. two i Hi; cbn; lra.
  - exists 0%nat. split; [lia|]. cbn. lra.
  - intros q Hq. now apply h_pipe_lin.
  - intros q Hq. cbn in Hq. destruct Hq as [<-|[<-|[]]]; reflexivity.
  - now apply eye_posdef.
  - change (ndists h_pipe) with 2%nat in *. destruct (HR 0%nat ltac:(lia)) as (rR & A1 & _ & A2 & _ & A3). destruct (HR 1%nat ltac:(lia)) as (rS & B1 & _ & B2 & _).
    cbn [pick] in A1, B1.
    set (v := fsum 2 (fun i => fsum 2 (fun j => pick 1 (-3) i * pick 20 5 i * Ro i j * (pick 1 (-3) j * pick 20 5 j)))) in *.
    assert (EV : v = 625) by (unfold v; cbn [fsum pick]; rewrite !D, (S 0%nat 1%nat), R10; ring).
    assert (SV : sqrt v = 25) by (rewrite EV; replace 625 with (Rsqr 25) by (unfold Rsqr; ring); apply sqrt_Rsqr; lra).
    exists res, m', rR, rS. split; [exact ER|]. split.
    { cbn in EK. destruct res as [|[a ra] [|[b rb] [|x res]]]; try discriminate. injection EK as -> ->. cbn in A1, B1. injection A1 as ->. injection B1 as ->. reflexivity. }
    rewrite SV in A2, B2. cbn [pick] in A2, B2. split; [exact A2|]. split; [rewrite B2; f_equal; field|].
    rewrite A3. f_equal. unfold margin_beta. fold v. rewrite SV. cbn [fsum vset pick Nat.eqb]. rewrite !D, (S 0%nat 1%nat), R10.
    f_equal; [|field]. f_equal; [|f_equal; ring]. f_equal; [ring|]. f_equal. field.
Qed.
