(** Property theorems C92 (a whole FORM analysis of a linear function of normal variables) and
    C93 (repeating analyses on one model). *)
From Coquelicot Require Import Coquelicot.
From Verif Require Import Base Ext Dict Gauss GaussProofs StochModel StochModelSpec StochModelProofs LimitState LimitStateSpec LimitStateProofs LimitStateProps Transf TransfSpec TransfProofs Form FormProofs FormAffineProofs FormExactProofs FormNormalProofs FormProps Nataf NatafProofs Dist RotSpec RotProofs RotProps ScaleFormProofs Pipe PipeSpec PipeProofs.
From Coq Require Import ZArith Lra Lia.
Open Scope R_scope.

(** C92: a run is the preparation (modified correlation, factorisation) followed by the FORM
    iteration of C21-C27 from the registered starting points; afterwards the model object differs
    only in its stored modified correlation and its counter, raised by the calls made. *)
Theorem C92_run_composition : forall fmin chol svd inv s M n Ro log T A fuel lf expr fo evn a,
  sm_corr s = Some M -> length M = n -> (forall r, In r M -> length r = n) -> length (sm_marg s) = n ->
  computeModifiedCorrelationMatrix fmin n n (mat_of M) (fun i => marg_of (marg_at s i)) = Ok (Ro, log) ->
  transf_compute chol svd inv (fb_type a) n (mat_of (rows_of n Ro)) = Ok (T, A) ->
  exists c a', form_from n fo evn fuel lf s expr T A inv (marg_at s) =
    (snd (run_form fmin chol svd inv fuel lf expr fo evn a s), c) /\
  fst (run_form fmin chol svd inv fuel lf expr fo evn a s) =
    (a', addCallFunction (setModifiedCorrelation s (rows_of n Ro)) c) /\
  fb_valid a' = true /\ fb_TA a' = Some (T, A) /\
  fb_res a' = match snd (run_form fmin chol svd inv fuel lf expr fo evn a s) with FDone r => Some r | _ => fb_res a end.
Proof.
  intros fmin chol svd inv s M n Ro lg T A fuel lf expr fo evn a EC EL ES EM ER ET.
  unfold run_form, init_run_full, setModifiedCorrelationMatrix. rewrite EC, EL, (rows_square n M ES), EM, ER.
  cbn [setModifiedCorrelation sm_Ro sm_marg]. rewrite rows_length, ET, EM, Nat.eqb_refl.
  set (s1 := setModifiedCorrelation s (rows_of n Ro)).
  pose proof (sim_loop inv lf expr fo n T A evn s fuel 1 None (Some (computeStartingPoint n T (marg_at s1))) 0 (fun _ => 0) s1 0 (core_Ro s _)) as S1.
  change (marg_at s1) with (marg_at s) in *. unfold form_from, form_run.
  destruct (form_loop _ _ _ _ _ _ _ _ _ _ _ _) as [out c]. destruct S1 as [_ E].
  change (mksm (sm_variables s) (sm_names s) (sm_marg s) (sm_corr s) (Some (rows_of n Ro)) (sm_calls s) (sm_consts s)) with s1.
  rewrite E, Nat.sub_0_r. exists c. destruct out; cbn; eexists; repeat split.
Qed.
Print Assumptions C92_run_composition.

Lemma fold_posdef n Ro : pos_def n Ro -> pos_def n (mat_of (rows_of n Ro)).
Proof.
  intros H v Hv. rewrite (fsum_ext n _ (fun i => fsum n (fun j => v i * Ro i j * v j))); [apply H, Hv|].
  intros i Hi. apply fsum_ext. intros j Hj. now rewrite mat_rows.
Qed.

(** ** linear limit state functions of normal variables *)
Section LN.
Variables (fmin : (R -> R) -> R -> R) (chol : nat -> mat -> result mat) (svd : nat -> mat -> result (mat * vec)) (inv : nat -> mat -> result mat) (e0 : exn).
Variables (h : list smop) (expr : expression) (f : list (string * R) -> R) (lf : nat) (nm : nat -> string) (mu sd cf : vec) (c0 : R).
Variables (M : list (list R)) (Ro : mat) (log : list (nat * nat)) (a : fobj) (opt : option string) (fo : form_opts) (evn : option exn) (fuel : nat).
Let n := ndists h.
Hypothesis Hlap : lapack n chol svd inv e0.
Hypothesis Ha : form_init opt = Ok a.
Hypothesis Hn : (1 <= n)%nat.
Hypothesis HN : forall i, (i < n)%nat -> nth_error (dists_of (accepted h)) i = Some (Normal (nm i) (mu i) (sd i)).
Hypothesis Hsd : forall i, (i < n)%nat -> sd i <> 0.
Hypothesis Hcf : exists i, (i < n)%nat /\ cf i <> 0.
Hypothesis Hp : pointwise expr f.
Hypothesis Hlin : forall q, length q = n -> f (args_at h q) = c0 + fsum n (fun i => cf i * nth i q 0).
Hypothesis Hls : fo_ls fo = default_ls.
Hypothesis Hlf : (n + 7 < lf)%nat.
Hypothesis HM : sm_corr (sm_run h) = Some M.
Hypothesis HM1 : length M = n.
Hypothesis HM2 : forall r, In r M -> length r = n.
Hypothesis HRo : computeModifiedCorrelationMatrix fmin n n (mat_of M) (fun i => marg_of (marg_at (sm_run h) i)) = Ok (Ro, log).
Hypothesis HPD : pos_def n Ro.

Lemma ln_len : length (dists_of (accepted h)) = n. Proof. reflexivity. Qed.
Lemma ln_marg i : (i < n)%nat -> marg_at (sm_run h) i = Normal (nm i) (mu i) (sd i).
Proof.
  intros Hi. unfold marg_at. destruct (registry h) as (_ & _ & EM & _). rewrite EM. apply nth_error_nth, HN, Hi.
Qed.
Lemma ln_sym : symmetric n (mat_of (rows_of n Ro)).
Proof.
  intros i j Hi Hj. rewrite !mat_rows by assumption. destruct (modified_ok fmin n (mat_of M) (fun i => marg_of (marg_at (sm_run h) i)) n (le_n n)) as (Q & E & _ & S & _).
  rewrite HRo in E. injection E as <- _. apply S.
Qed.
Lemma ln_type : fb_type a = "cholesky"%string \/ fb_type a = "svd"%string.
Proof.
  revert Ha. unfold form_init, mkTransformation, rbind. destruct opt as [t|]; cbn.
  - destruct (String.eqb t "cholesky") eqn:E1; cbn.
    + intros X. injection X as <-. left. cbn. now apply String.eqb_eq.
    + destruct (String.eqb t "svd") eqn:E2; cbn; [|discriminate]. intros X. injection X as <-. right. cbn. now apply String.eqb_eq.
  - intros X. injection X as <-. now left.
Qed.
Lemma ln_factor : exists T A, transf_compute chol svd inv (fb_type a) n (mat_of (rows_of n Ro)) = Ok (T, A) /\ inverse_pair n T A /\ factor_of n A Ro.
Proof.
  destruct Hlap as (C1 & C2 & C3 & C4). destruct (C4 _ ln_sym (fold_posdef n Ro HPD)) as ((L & T1 & E1 & E2) & (U & D & T2 & E3 & E4)).
  assert (X : exists T A, transf_compute chol svd inv (fb_type a) n (mat_of (rows_of n Ro)) = Ok (T, A)).
  { unfold transf_compute. destruct ln_type as [-> | ->]; cbn [String.eqb Ascii.eqb Bool.eqb].
    - unfold computeCholesky, rbind. rewrite E1, E2. eauto.
    - unfold computeSVD, rbind. rewrite E3. cbn [fst snd]. rewrite E4. eauto. }
  destruct X as (T & A & E). exists T, A. split; [exact E|].
  assert (CI : inv_contract n inv) by (intros X Y; apply C3).
  destruct (compute_factor chol svd inv n _ _ _ _ ln_sym (fold_posdef n Ro HPD) (C1 _) (C2 _) CI E) as [P F].
  split; [exact P|]. intros i j Hi Hj. rewrite (F i j Hi Hj). now apply mat_rows.
Qed.
Lemma ln_start T : veq n (computeStartingPoint n T (marg_at (sm_run h))) (fun _ => 0).
Proof.
  intros i Hi. unfold computeStartingPoint, x_to_u. cbv zeta. unfold mvec. apply fsum_zero. intros j Hj.
  rewrite ln_marg by exact Hj. cbn. unfold Rdiv, Rminus. rewrite Rplus_opp_r. ring.
Qed.

(** the mean and the standard deviation of the margin *)
Definition ln_b : R := c0 + fsum n (fun i => cf i * mu i).
Definition ln_v : R := fsum n (fun i => fsum n (fun j => (cf i * sd i) * Ro i j * (cf j * sd j))).
Lemma ln_v_pos : 0 < ln_v.
Proof. apply HPD. destruct Hcf as (i & Hi & Hc). exists i. split; [exact Hi|]. apply Rmult_integral_contrapositive_currified; [exact Hc|now apply Hsd]. Qed.

Lemma ln_all : exists T A, 
  transf_compute chol svd inv (fb_type a) n (mat_of (rows_of n Ro)) = Ok (T, A) /\
  let av := fun j => - fsum n (fun i => cf i * sd i * A i j) in
  norm n av = sqrt ln_v /\
  affine_ev n av ln_b (form_ev lf (sm_run h) expr default_ls n T A inv (marg_at (sm_run h))) /\
  (forall us, (length us < lf)%nat -> exists k, form_trial lf (sm_run h) expr default_ls n A (marg_at (sm_run h)) us = (Ok (map (fun u => ln_b - dot n av u) us), k)).
Proof.
  destruct ln_factor as (T & A & E & P & F). exists T, A. split; [exact E|]. cbv zeta. split.
  - unfold norm, dot, ln_v. f_equal. rewrite <- (quad_norm n A Ro _ F). apply fsum_ext. intros k _. ring.
  - destruct Hlap as (_ & _ & (I1 & I2 & I3) & _).
    apply (C24_linear_normal h expr f default_ls lf T A inv (marg_at (sm_run h)) c0 cf mu sd); try assumption; try discriminate.
    + cbn. apply Rgt_not_eq. lra.
    + intros d Hd. apply In_nth_error in Hd. destruct Hd as (i & Hi).
      assert (L : (i < n)%nat) by (apply nth_error_Some; rewrite Hi; discriminate).
      rewrite (HN i L) in Hi. injection Hi as <-. cbn. now apply Hsd.
    + intros i Hi. rewrite ln_marg by exact Hi. cbn. split; [intros; ring|]. intros. unfold Rdiv. ring.
Qed.
End LN.

(** C92: full steps (setStepSize(1)), any correlation whose modified matrix is positive definite,
    either transform type: the run completes and beta is the mean of the margin over its standard
    deviation, exactly. *)
Theorem C92_linear_normal_full_step :
  forall fmin chol svd inv e0 h expr f lf nm (mu sd cf : vec) c0 M Ro log a opt fo evn fuel,
  let n := ndists h in let s := sm_run h in
  lapack n chol svd inv e0 -> form_init opt = Ok a -> (1 <= n)%nat ->
  (forall i, (i < n)%nat -> nth_error (dists_of (accepted h)) i = Some (Normal (nm i) (mu i) (sd i))) ->
  (forall i, (i < n)%nat -> sd i <> 0) -> (exists i, (i < n)%nat /\ cf i <> 0) ->
  pointwise expr f -> (forall q, length q = n -> f (args_at h q) = c0 + fsum n (fun i => cf i * nth i q 0)) ->
  fo_ls fo = default_ls -> fo_step fo = 1 -> 0 < fo_e1 fo <= 1 -> 0 < fo_e2 fo -> (2 <= fo_imax fo)%Z ->
  (n + 7 < lf)%nat -> (Z.to_nat (fo_imax fo) < fuel)%nat ->
  sm_corr s = Some M -> length M = n -> (forall r, In r M -> length r = n) ->
  computeModifiedCorrelationMatrix fmin n n (mat_of M) (fun i => marg_of (marg_at s i)) = Ok (Ro, log) -> pos_def n Ro ->
  let mean := c0 + fsum n (fun i => cf i * mu i) in
  let variance := fsum n (fun i => fsum n (fun j => (cf i * sd i) * Ro i j * (cf j * sd j))) in
  exists r a' s', run_form fmin chol svd inv fuel lf expr fo evn a s = (a', s', FDone r) /\
    fb_valid a' = true /\ fb_res a' = Some r /\ 0 < variance /\
    form_beta n r = Fin (mean / sqrt variance) /\ form_Pf n r = Fin (Phi (- (mean / sqrt variance))) /\
    (mean <> 0 -> fr_i r = 2%Z /\ sm_calls s' = (sm_calls s + 2 * (1 + n))%nat).
Proof.
  intros fmin chol svd inv e0 h expr f lf nm mu sd cf c0 M Ro lg a opt fo evn fuel n s Hlap Ha Hn HN Hsd Hcf Hp Hlin Hls HS H1 H2 Hi Hlf Hfu HM HM1 HM2 HRo HPD mean variance.
  destruct (ln_all fmin chol svd inv e0 h expr f lf nm mu sd cf c0 M Ro lg a opt Hlap Ha Hn HN Hsd Hp Hlin Hlf HRo HPD) as (T & A & ET & EN & EA & ETr).
  cbv zeta in EN, EA, ETr. fold n in EN, EA, ETr. fold s in EA, ETr.
  set (av := fun j => - fsum n (fun i => cf i * sd i * A i j)) in *.
  assert (VP : 0 < variance) by exact (ln_v_pos h sd cf Ro Hsd Hcf HPD).
  change (ln_v h sd cf Ro) with variance in EN. change (ln_b h mu cf c0) with mean in *.
  set (ev := form_ev lf s expr default_ls n T A inv (marg_at s)) in *. set (tr := form_trial lf s expr default_ls n A (marg_at s)) in *.
  assert (NA : norm n av <> 0) by (rewrite EN; intros Z0; apply sqrt_lt_R0 in VP; lra).
  assert (TT : affine_trial n av mean (total_trial n av mean tr)).
  { intros us. unfold total_trial. destruct (Nat.eqb_spec (length us) ntrial) as [El|]; [|eauto]. apply ETr. rewrite El. unfold ntrial. lia. }
  destruct (C24_full_step_exact n fo ev (total_trial n av mean tr) evn av mean NA EA TT HS H1 H2 Hi fuel (computeStartingPoint n T (marg_at s)) Hfu) as (r & c & E & _ & EB & _ & EI).
  assert (EM : length (sm_marg s) = n) by (destruct (registry h) as (_ & _ & X & _); unfold s; rewrite X; reflexivity).
  destruct (C92_run_composition fmin chol svd inv s M n Ro lg T A fuel lf expr fo evn a HM HM1 HM2 EM HRo ET) as (c' & a' & R1 & R2 & R3 & R4 & R5).
  assert (EF : form_from n fo evn fuel lf s expr T A inv (marg_at s) = (FDone r, c)).
  { unfold form_from. rewrite Hls. fold ev tr. rewrite <- E. unfold form_run. apply loop_trial_ext. intros us Hl. unfold total_trial. rewrite Hl, Nat.eqb_refl. reflexivity. }
  rewrite EF in R1. injection R1 as Er Ec. subst c'.
  destruct (run_form fmin chol svd inv fuel lf expr fo evn a s) as [[a1 s1] out1] eqn:ER. cbn [fst snd] in R2, R5, Er. subst out1. injection R2 as -> ->.
  rewrite EN in EB. exists r, a', (addCallFunction (setModifiedCorrelation s (rows_of n Ro)) c).
  split; [reflexivity|]. split; [exact R3|]. split; [exact R5|]. split; [exact VP|]. split; [exact EB|]. split; [unfold form_Pf; rewrite EB; reflexivity|].
  intros Hm. assert (D0 : dot n av (computeStartingPoint n T (marg_at s)) = 0).
  { assert (U0 : veq n (computeStartingPoint n T (marg_at s)) (fun _ => 0)) by exact (ln_start h nm mu sd HN T).
    unfold dot. apply fsum_zero. intros i Hi'. rewrite (U0 i Hi'). ring. }
  assert (I2 : fr_i r = 2%Z) by (apply EI; rewrite D0; lra). split; [exact I2|].
  unfold form_from in EF. rewrite Hls in EF. rewrite <- Hls in EF.
  assert (CC := C68_form_function_calls fuel s expr n T A inv (marg_at s) fo evn lf _ r c ltac:(rewrite Hls; cbn; lia) EF). cbv zeta in CC.
  rewrite Hls, HS, I2 in CC. cbn [default_ls o_diff_mode String.eqb Ascii.eqb Bool.eqb] in CC. replace (Reqb 1 0) with false in CC by (symmetry; apply Reqb_false; lra).
  cbn [addCallFunction setModifiedCorrelation sm_calls]. lia.
Qed.
Print Assumptions C92_linear_normal_full_step.

(** C92: automatic steps (in particular all options at their defaults) as well as full steps give
    beta exactly, for every mean of the margin, zero included; unless that mean is zero the run
    takes at most 15 iterations. *)
Lemma affine_exact n fo ev trial evn (av : vec) b : norm n av <> 0 -> affine_ev n av b ev -> affine_trial n av b trial -> exact_options fo ->
  forall fuel u0, (Z.to_nat (fo_imax fo) < fuel)%nat -> veq n u0 (fun _ => 0) ->
  exists r c, form_run n fo ev trial evn fuel u0 = (FDone r, c) /\ fr_G r = 0 /\ form_beta n r = Fin (b / norm n av) /\
    (exists u', fr_u r = Some u' /\ veq n u' (fun i => b / (norm n av * norm n av) * av i)) /\ (b <> 0 -> (fr_i r <= 15)%Z).
Proof.
  intros Ha He Ht (Hls & H2 & [(HS & H1 & Hi)|(HS & H1 & Hi)]) fuel u0 Hf Hu.
  - destruct (C24_full_step_exact n fo ev trial evn av b Ha He Ht HS H1 H2 Hi fuel u0 Hf) as (r & c & E & EG & EB & Eu & EI).
    exists r, c. split; [exact E|]. split; [exact EG|]. split; [exact EB|]. split; [exact Eu|].
    intros Hb. rewrite EI; [lia|]. unfold dot. rewrite fsum_zero by (intros i Hi'; rewrite (Hu i Hi'); ring). lra.
  - apply (auto_exact n fo ev trial evn av b Ha He Ht HS); try assumption. rewrite Hls. reflexivity.
Qed.
Theorem C92_linear_normal_exact_options :
  forall fmin chol svd inv e0 h expr f lf nm (mu sd cf : vec) c0 M Ro log a opt fo evn fuel,
  let n := ndists h in let s := sm_run h in
  lapack n chol svd inv e0 -> form_init opt = Ok a -> (1 <= n)%nat ->
  (forall i, (i < n)%nat -> nth_error (dists_of (accepted h)) i = Some (Normal (nm i) (mu i) (sd i))) ->
  (forall i, (i < n)%nat -> sd i <> 0) -> (exists i, (i < n)%nat /\ cf i <> 0) ->
  pointwise expr f -> (forall q, length q = n -> f (args_at h q) = c0 + fsum n (fun i => cf i * nth i q 0)) ->
  exact_options fo -> (n + 7 < lf)%nat -> (Z.to_nat (fo_imax fo) < fuel)%nat ->
  sm_corr s = Some M -> length M = n -> (forall r, In r M -> length r = n) ->
  computeModifiedCorrelationMatrix fmin n n (mat_of M) (fun i => marg_of (marg_at s i)) = Ok (Ro, log) -> pos_def n Ro ->
  let mean := c0 + fsum n (fun i => cf i * mu i) in
  let variance := fsum n (fun i => fsum n (fun j => (cf i * sd i) * Ro i j * (cf j * sd j))) in
  exists r a' s', run_form fmin chol svd inv fuel lf expr fo evn a s = (a', s', FDone r) /\
    form_beta n r = Fin (mean / sqrt variance) /\ form_Pf n r = Fin (Phi (- (mean / sqrt variance))) /\ 0 < variance /\
    (mean <> 0 -> (fr_i r <= 15)%Z).
Proof.
  intros fmin chol svd inv e0 h expr f lf nm mu sd cf c0 M Ro lg a opt fo evn fuel n s Hlap Ha Hn HN Hsd Hcf Hp Hlin Hfo Hlf Hfu HM HM1 HM2 HRo HPD mean variance.
  destruct (ln_all fmin chol svd inv e0 h expr f lf nm mu sd cf c0 M Ro lg a opt Hlap Ha Hn HN Hsd Hp Hlin Hlf HRo HPD) as (T & A & ET & EN & EA & ETr).
  cbv zeta in EN, EA, ETr. fold n in EN, EA, ETr. fold s in EA, ETr.
  set (av := fun j => - fsum n (fun i => cf i * sd i * A i j)) in *.
  assert (VP : 0 < variance) by exact (ln_v_pos h sd cf Ro Hsd Hcf HPD).
  change (ln_v h sd cf Ro) with variance in EN. change (ln_b h mu cf c0) with mean in *.
  set (ev := form_ev lf s expr default_ls n T A inv (marg_at s)) in *. set (tr := form_trial lf s expr default_ls n A (marg_at s)) in *.
  assert (SP := sqrt_lt_R0 _ VP).
  assert (NA : norm n av <> 0) by (rewrite EN; lra).
  assert (TT : affine_trial n av mean (total_trial n av mean tr)).
  { intros us. unfold total_trial. destruct (Nat.eqb_spec (length us) ntrial) as [El|]; [|eauto]. apply ETr. rewrite El. unfold ntrial. lia. }
  set (u0 := computeStartingPoint n T (marg_at s)).
  assert (U0 : veq n u0 (fun _ => 0)) by exact (ln_start h nm mu sd HN T).
  destruct (affine_exact n fo ev (total_trial n av mean tr) evn av mean NA EA TT Hfo fuel u0 Hfu U0) as (r & c & E & _ & EB & _ & EI).
  assert (EM : length (sm_marg s) = n) by (destruct (registry h) as (_ & _ & X & _); unfold s; rewrite X; reflexivity).
  destruct (C92_run_composition fmin chol svd inv s M n Ro lg T A fuel lf expr fo evn a HM HM1 HM2 EM HRo ET) as (c' & a' & R1 & R2 & R3 & R4 & R5).
  assert (EF : form_from n fo evn fuel lf s expr T A inv (marg_at s) = (FDone r, c)).
  { unfold form_from. rewrite (proj1 Hfo). fold ev tr u0. rewrite <- E. unfold form_run. apply loop_trial_ext. intros us Hl. unfold total_trial. rewrite Hl, Nat.eqb_refl. reflexivity. }
  rewrite EF in R1. injection R1 as Er Ec. subst c'.
  destruct (run_form fmin chol svd inv fuel lf expr fo evn a s) as [[a1 s1] out1] eqn:ER. cbn [fst snd] in R2, R5, Er. subst out1. injection R2 as -> ->.
  rewrite EN in EB. exists r, a', (addCallFunction (setModifiedCorrelation s (rows_of n Ro)) c).
  split; [reflexivity|]. split; [exact EB|]. split; [unfold form_Pf; rewrite EB; reflexivity|]. split; [exact VP|exact EI].
Qed.
Print Assumptions C92_linear_normal_exact_options.
Lemma default_exact : exact_options default_options.
Proof. split; [reflexivity|]. split; [cbn; lra|]. right. cbn. repeat split; try lra; lia. Qed.
(** ... the defaults are such options *)
Theorem C92_linear_normal_default_options :
  forall fmin chol svd inv e0 h expr f lf nm (mu sd cf : vec) c0 M Ro log a opt evn fuel,
  let n := ndists h in let s := sm_run h in
  lapack n chol svd inv e0 -> form_init opt = Ok a -> (1 <= n)%nat ->
  (forall i, (i < n)%nat -> nth_error (dists_of (accepted h)) i = Some (Normal (nm i) (mu i) (sd i))) ->
  (forall i, (i < n)%nat -> sd i <> 0) -> (exists i, (i < n)%nat /\ cf i <> 0) ->
  pointwise expr f -> (forall q, length q = n -> f (args_at h q) = c0 + fsum n (fun i => cf i * nth i q 0)) ->
  (n + 7 < lf)%nat -> (100 < fuel)%nat ->
  sm_corr s = Some M -> length M = n -> (forall r, In r M -> length r = n) ->
  computeModifiedCorrelationMatrix fmin n n (mat_of M) (fun i => marg_of (marg_at s i)) = Ok (Ro, log) -> pos_def n Ro ->
  let mean := c0 + fsum n (fun i => cf i * mu i) in
  let variance := fsum n (fun i => fsum n (fun j => (cf i * sd i) * Ro i j * (cf j * sd j))) in
  exists r a' s', run_form fmin chol svd inv fuel lf expr default_options evn a s = (a', s', FDone r) /\
    form_beta n r = Fin (mean / sqrt variance) /\ form_Pf n r = Fin (Phi (- (mean / sqrt variance))) /\ 0 < variance /\
    (mean <> 0 -> (fr_i r <= 15)%Z).
Proof. intros. eapply C92_linear_normal_exact_options; try eassumption. exact default_exact. Qed.
Print Assumptions C92_linear_normal_default_options.

Lemma eye_posdef n (Ro : mat) : (forall i j, (i < n)%nat -> (j < n)%nat -> Ro i j = delta i j) -> pos_def n Ro.
Proof.
  intros E v (i & Hi & Hv).
  rewrite (fsum_ext n _ (fun i => v i * v i)).
  - change (0 < dot n v v). assert (N : norm n v <> 0) by (intros Q; apply Hv, (proj1 (norm_eq0 n v) Q i Hi)).
    pose proof (norm_pos n v N) as P. rewrite <- norm_sqr. nra.
  - intros k Hk. rewrite (fsum_ext n _ (fun j => delta k j * (v k * v j))) by (intros j Hj; rewrite E by assumption; ring).
    rewrite fsum_delta by exact Hk. reflexivity.
Qed.

(** C92: independent variables (no correlation was ever set). *)
Theorem C92_independent_normals :
  forall fmin chol svd inv e0 h expr f lf nm (mu sd cf : vec) c0 a opt fo evn fuel,
  let n := ndists h in let s := sm_run h in
  lapack n chol svd inv e0 -> form_init opt = Ok a -> (1 <= n)%nat -> no_setcorr h ->
  (forall i, (i < n)%nat -> nth_error (dists_of (accepted h)) i = Some (Normal (nm i) (mu i) (sd i))) ->
  (forall i, (i < n)%nat -> sd i <> 0) -> (exists i, (i < n)%nat /\ cf i <> 0) ->
  pointwise expr f -> (forall q, length q = n -> f (args_at h q) = c0 + fsum n (fun i => cf i * nth i q 0)) ->
  fo_ls fo = default_ls -> fo_step fo = 1 -> 0 < fo_e1 fo <= 1 -> 0 < fo_e2 fo -> (2 <= fo_imax fo)%Z ->
  (n + 7 < lf)%nat -> (Z.to_nat (fo_imax fo) < fuel)%nat ->
  let beta := (c0 + fsum n (fun i => cf i * mu i)) / sqrt (fsum n (fun i => (cf i * sd i) ^ 2)) in
  exists r a' s', run_form fmin chol svd inv fuel lf expr fo evn a s = (a', s', FDone r) /\
    form_beta n r = Fin beta /\ form_Pf n r = Fin (Phi (- beta)).
Proof.
  intros fmin chol svd inv e0 h expr f lf nm mu sd cf c0 a opt fo evn fuel n s Hlap Ha Hn Hno HN Hsd Hcf Hp Hlin Hls HS H1 H2 Hi Hlf Hfu beta.
  assert (HM : sm_corr s = Some (eye_rows n)) by (apply (corr_reset [] h Hno); exact Hn).
  destruct (eye_rows_identity n) as (L1 & L2 & L3).
  destruct (modified_ok fmin n (mat_of (eye_rows n)) (fun i => marg_of (marg_at s i)) n (le_n n)) as (Ro & E & D & S & L & _).
  assert (EI : forall i j, (i < n)%nat -> (j < n)%nat -> Ro i j = delta i j).
  { assert (EL : forall i j, (j < i)%nat -> (i < n)%nat -> Ro i j = 0).
    { intros i j Hj Hi'. rewrite L by assumption. unfold pair_value. unfold mat_of. rewrite L3 by lia.
      destruct (Nat.eqb_spec i j); [lia|]. now rewrite (proj2 (Reqb_spec 0 0) eq_refl). }
    intros i j Hi' Hj. destruct (lt_eq_lt_dec i j) as [[X|X]|X].
    - rewrite S, EL, delta_neq by lia. reflexivity.
    - subst j. rewrite D, delta_refl. reflexivity.
    - rewrite EL, delta_neq by lia. reflexivity. }
  destruct (C92_linear_normal_full_step fmin chol svd inv e0 h expr f lf nm mu sd cf c0 (eye_rows n) Ro _ a opt fo evn fuel
    Hlap Ha Hn HN Hsd Hcf Hp Hlin Hls HS H1 H2 Hi Hlf Hfu HM L1 L2 E (eye_posdef n Ro EI)) as (r & a' & s' & E1 & _ & _ & _ & EB & EP & _).
  assert (EV : fsum n (fun i => fsum n (fun j => (cf i * sd i) * Ro i j * (cf j * sd j))) = fsum n (fun i => (cf i * sd i) ^ 2)).
  { apply fsum_ext. intros i Hi'. rewrite (fsum_ext n _ (fun j => delta i j * (cf i * sd i * (cf j * sd j)))) by (intros j Hj; rewrite EI by assumption; ring).
    rewrite fsum_delta by exact Hi'. ring. }
  fold n in EB, EP. rewrite EV in EB, EP. exists r, a', s'. split; [exact E1|]. split; [exact EB|exact EP].
Qed.
Print Assumptions C92_independent_normals.

(** C92: a run that cannot be prepared raises, makes no limit state call, keeps the previous
    results (as if they belonged to this run) and still marks the results as valid: without any
    random variable (ValueError), when the modified correlation matrix cannot be factorised (the
    exception of NumPy), and when the correlation matrix does not fit the number of variables. *)
Theorem C92_preparation_failures : forall fmin chol svd inv fuel lf expr fo evn a s,
  let r := run_form fmin chol svd inv fuel lf expr fo evn a s in
  let failed := fun e => snd r = FRaise e /\ sm_calls (snd (fst r)) = sm_calls s /\ fb_res (fst (fst r)) = fb_res a /\ fb_valid (fst (fst r)) = true in
  (sm_corr s = None -> failed EValue) /\
  (forall M Ro log e, sm_corr s = Some M -> (forall row, In row M -> length row = length M) ->
     computeModifiedCorrelationMatrix fmin (length (sm_marg s)) (length M) (mat_of M) (fun i => marg_of (marg_at s i)) = Ok (Ro, log) ->
     transf_compute chol svd inv (fb_type a) (length M) (mat_of (rows_of (length M) Ro)) = Err e -> failed e) /\
  (forall M TA, sm_corr s = Some M -> (length (sm_marg s) < length M)%nat -> (forall row, In row M -> length row = length M) ->
     (forall Ro, transf_compute chol svd inv (fb_type a) (length M) Ro = Ok TA) -> failed EValue) /\
  (forall M, sm_corr s = Some M -> (length M < length (sm_marg s))%nat -> (2 <= length (sm_marg s))%nat ->
     (forall row, In row M -> length row = length M) -> failed EIndex).
Proof.
  intros fmin chol svd inv fuel lf expr fo evn a s r failed. unfold failed, r. clear failed r.
  unfold run_form, init_run_full, setModifiedCorrelationMatrix. split; [|split; [|split]].
  - intros ->. cbn. auto.
  - intros M Ro lg e -> ES -> ET. rewrite (rows_square _ M ES). cbn [setModifiedCorrelation sm_Ro]. rewrite rows_length, ET. cbn. auto.
  - intros M [T A] -> HL ES ET. rewrite (rows_square _ M ES).
    destruct (modified_ok fmin (length M) (mat_of M) (fun i => marg_of (marg_at s i)) (length (sm_marg s)) ltac:(lia)) as (Ro & E & _). rewrite E.
    cbn [setModifiedCorrelation sm_Ro]. rewrite rows_length, ET. cbn [sm_marg sm_Ro]. rewrite ?rows_length.
    assert (EQ : Nat.eqb (length M) (length (sm_marg s)) = false) by (apply Nat.eqb_neq; lia).
    cbn [snd fst sm_marg sm_Ro setModifiedCorrelation]. rewrite ?rows_length. cbn [snd fst sm_marg sm_Ro setModifiedCorrelation]. match goal with |- context[if ?b then _ else _] => replace b with false end. cbn. auto.
  - intros Mx EC HLx HL2x ESx. rewrite EC, (rows_square _ Mx ESx).
    rewrite (modified_err fmin (length Mx) (mat_of Mx) (fun i => marg_of (marg_at s i)) (length (sm_marg s)) HLx HL2x). cbn. auto.
Qed.
Print Assumptions C92_preparation_failures.

(** *** C93 *)
(** C93: the outcome of a run depends only on the registered variables, constants and correlation
    (and the limit state, options, transform type): not on the counter, on a stored modified
    correlation, or on what the Form object did before; and neither do the calls it adds. *)
Theorem C93_history_independent : forall fmin chol svd inv fuel lf expr fo evn a a' s s',
  same_problem s s' -> fb_type a' = fb_type a ->
  let r := run_form fmin chol svd inv fuel lf expr fo evn a s in
  let r' := run_form fmin chol svd inv fuel lf expr fo evn a' s' in
  snd r' = snd r /\ same_problem s (snd (fst r)) /\ same_problem s' (snd (fst r')) /\
  (getNoFunctionCalls (snd (fst r)) - getNoFunctionCalls s = getNoFunctionCalls (snd (fst r')) - getNoFunctionCalls s')%nat.
Proof.
  intros fmin chol svd inv fuel lf expr fo evn a a' s s' HC HT r r'. unfold r, r'.
  destruct (run_core fmin chol svd inv fuel lf expr fo evn a a' s s' HC HT) as (k & M & H).
  destruct (run_form _ _ _ _ _ _ _ _ _ a s) as [[a1 s1] o1]. destruct (run_form _ _ _ _ _ _ _ _ _ a' s') as [[a2 s2] o2].
  destruct H as (E & _ & _ & C1 & C2 & K1 & K2 & _). cbn. unfold getNoFunctionCalls. repeat split; try apply C1; try apply C2; [exact E|lia].
Qed.
Print Assumptions C93_history_independent.

(** k runs in a row of one Form object *)
Fixpoint runs (fmin : (R -> R) -> R -> R) chol svd inv (fuel lf : nat) (expr : expression) (fo : form_opts) (evn : option exn) (k : nat) (a : fobj) (s : smodel)
  : list form_out * fobj * smodel :=
  match k with
  | O => ([], a, s)
  | S k => let '(a1, s1, o) := run_form fmin chol svd inv fuel lf expr fo evn a s in
           let '(l, a2, s2) := runs fmin chol svd inv fuel lf expr fo evn k a1 s1 in (o :: l, a2, s2)
  end.
(** C93: repeating a run gives the same outcome every time, and the reported number of function
    calls is the total over all runs so far. *)
Theorem C93_repeated_runs : forall fmin chol svd inv fuel lf expr fo evn a s,
  let '(a1, s1, o) := run_form fmin chol svd inv fuel lf expr fo evn a s in
  forall k, let '(l, a', s') := runs fmin chol svd inv fuel lf expr fo evn k a s in
  l = repeat o k /\ getNoFunctionCalls s' = (getNoFunctionCalls s + k * (getNoFunctionCalls s1 - getNoFunctionCalls s))%nat.
Proof.
  intros fmin chol svd inv fuel lf expr fo evn a s.
  assert (G : forall k a' s', fb_type a' = fb_type a -> same_core s s' ->
    let '(a1, s1, o) := run_form fmin chol svd inv fuel lf expr fo evn a s in
    let '(l, a2, s2) := runs fmin chol svd inv fuel lf expr fo evn k a' s' in
    l = repeat o k /\ getNoFunctionCalls s2 = (getNoFunctionCalls s' + k * (getNoFunctionCalls s1 - getNoFunctionCalls s))%nat).
  { induction k as [|k IH]; intros a' s' HT HC; cbn [runs].
    - destruct (run_form _ _ _ _ _ _ _ _ _ a s) as [[a1 s1] o]. cbn. split; [reflexivity|lia].
    - destruct (run_core fmin chol svd inv fuel lf expr fo evn a a' s s' HC HT) as (c & M & H).
      destruct (run_form _ _ _ _ _ _ _ _ _ a' s') as [[a2 s2] o2] eqn:E2.
      destruct (run_form _ _ _ _ _ _ _ _ _ a s) as [[a1 s1] o1] eqn:E1.
      destruct H as (EO & T1 & T2 & C1 & C2 & K1 & K2 & _).
      specialize (IH a2 s2 T2 (core_trans _ _ _ HC C2)).
      destruct (runs _ _ _ _ _ _ _ _ _ k a2 s2) as [[l a3] s3]. destruct IH as [-> EC]. subst o2. unfold getNoFunctionCalls in *.
      split; [reflexivity|]. rewrite EC, K1, K2. lia. }
  specialize (fun k => G k a s eq_refl (core_refl s)). destruct (run_form _ _ _ _ _ _ _ _ _ a s) as [[a1 s1] o]. exact G.
Qed.
Print Assumptions C93_repeated_runs.

(** *** The hypotheses are met: NumPy's routines for 2 x 2 matrices *)
Definition spd2 (M : mat) : bool :=
  Reqb (M 0%nat 1%nat) (M 1%nat 0%nat) && Rltb 0 (M 0%nat 0%nat) && Rltb 0 (det2 M).
Definition chol2 (k : nat) (M : mat) : result mat :=
  if spd2 M then
    let a := sqrt (M 0%nat 0%nat) in
    Ok (fun i j => match i, j with O, O => a | O, _ => 0 | _, O => M 0%nat 1%nat / a | _, _ => sqrt (det2 M) / a end)
  else Err ERuntime.
(** eigenvalues and normalised eigenvectors *)
Definition svd2 (k : nat) (M : mat) : result (mat * vec) :=
  let a := M 0%nat 0%nat in let b := M 0%nat 1%nat in let d := M 1%nat 1%nat in
  if spd2 M then
    if Reqb b 0 then Ok (meye, fun i => match i with O => a | _ => d end)
    else
      let r := sqrt (((a - d) / 2) ^ 2 + b ^ 2) in
      let l1 := (a + d) / 2 + r in let l2 := (a + d) / 2 - r in
      let n1 := sqrt (b ^ 2 + (l1 - a) ^ 2) in let n2 := sqrt (b ^ 2 + (l2 - a) ^ 2) in
      Ok ((fun i j => match i, j with O, O => b / n1 | O, _ => b / n2 | _, O => (l1 - a) / n1 | _, _ => (l2 - a) / n2 end),
          fun i => match i with O => l1 | _ => l2 end)
  else Err ERuntime.

Lemma spd2_spec M : spd2 M = true <-> M 0%nat 1%nat = M 1%nat 0%nat /\ 0 < M 0%nat 0%nat /\ 0 < det2 M.
Proof. unfold spd2. rewrite !andb_true_iff, Reqb_spec, !Rltb_spec. tauto. Qed.
Lemma pos2 M : symmetric 2 M -> pos_def 2 M -> spd2 M = true.
Proof.
  intros HS HD. apply spd2_spec. assert (E := HS 0%nat 1%nat ltac:(lia) ltac:(lia)). split; [exact E|].
  assert (A : 0 < M 0%nat 0%nat).
  { pose proof (HD (fun i => match i with O => 1 | _ => 0 end)) as H. cbn [fsum] in H.
    assert (X : exists i, (i < 2)%nat /\ (match i with O => 1 | _ => 0 end) <> 0) by (exists 0%nat; split; [lia|lra]). specialize (H X). lra. }
  split; [exact A|]. pose proof (HD (fun i => match i with O => - M 0%nat 1%nat | _ => M 0%nat 0%nat end)) as H. cbn [fsum] in H.
  assert (X : exists i, (i < 2)%nat /\ (match i with O => - M 0%nat 1%nat | _ => M 0%nat 0%nat end) <> 0) by (exists 1%nat; split; [lia|lra]).
  specialize (H X). unfold det2. rewrite <- E in *. nra.
Qed.
Lemma orth2 (U : mat) : meq 2 (mmul 2 U (mtrans U)) meye -> meq 2 (mmul 2 (mtrans U) U) meye -> inverse_pair 2 U (mtrans U).
Proof. intros; split; assumption. Qed.

Example svd2_contract M : svd_contract 2 svd2 M.
Proof.
  intros U D H. unfold svd2 in H. destruct (spd2 M) eqn:E; [|discriminate]. apply spd2_spec in E. destruct E as (E & A & DT). unfold det2 in DT.
  set (a := M 0%nat 0%nat) in *. set (b := M 0%nat 1%nat) in *. set (d := M 1%nat 1%nat) in *.
  assert (Dp : 0 < d) by (rewrite <- E in DT; nra).
  destruct (Reqb b 0) eqn:B.
  - apply Reqb_spec in B. injection H as <- <-. exists meye. split; [|split; [|split]].
    1,2: split; intros i j Hi Hj; two i Hi; two j Hj; unfold mmul, mtrans, meye, delta; cbn; ring.
    + intros i Hi. two i Hi; lra.
    + intros i j Hi Hj. two i Hi; two j Hj; unfold meye, delta; cbn; fold a b d; rewrite <- ?E; fold b; rewrite ?B; ring.
  - assert (B' : b <> 0) by (intros X; apply Reqb_spec in X; congruence).
    set (r := sqrt (((a - d) / 2) ^ 2 + b ^ 2)) in *.
    assert (R2 : r * r = ((a - d) / 2) ^ 2 + b ^ 2) by (apply sqrt_sqrt; pose proof (pow2_ge_0 ((a - d) / 2)); pose proof (pow2_ge_0 b); lra). assert (R0 : 0 <= r) by apply sqrt_pos.
    injection H as <- <-. set (l1 := (a + d) / 2 + r). set (l2 := (a + d) / 2 - r).
    assert (L2 : 0 < l2).
    { assert (r < (a + d) / 2); [|unfold l2; lra]. apply Rsqr_incrst_0; [|exact R0|lra]. unfold Rsqr. rewrite R2. fold b in DT. rewrite <- E in DT. nra. }
    assert (L1 : 0 < l1) by (unfold l1, l2 in *; lra).
    set (n1 := sqrt (b ^ 2 + (l1 - a) ^ 2)). set (n2 := sqrt (b ^ 2 + (l2 - a) ^ 2)).
    assert (BB : 0 < b * b) by (destruct (Rtotal_order b 0) as [|[|]]; [nra|contradiction|nra]).
    assert (N1 : n1 * n1 = b ^ 2 + (l1 - a) ^ 2) by (apply sqrt_sqrt; pose proof (pow2_ge_0 (l1 - a)); lra). assert (N2 : n2 * n2 = b ^ 2 + (l2 - a) ^ 2) by (apply sqrt_sqrt; pose proof (pow2_ge_0 (l2 - a)); lra).
    assert (P1 : 0 < n1) by (apply sqrt_lt_R0; pose proof (pow2_ge_0 (l1 - a)); lra). assert (P2 : 0 < n2) by (apply sqrt_lt_R0; pose proof (pow2_ge_0 (l2 - a)); lra).
    assert (OR : b ^ 2 + (l1 - a) * (l2 - a) = 0) by (unfold l1, l2; nra).
    assert (LA : (l1 - a) * (l1 - d) = b ^ 2) by (unfold l1; nra). assert (LB : (l2 - a) * (l2 - d) = b ^ 2) by (unfold l2; nra).
    assert (SUM : (l1 - a) + (l2 - a) = d - a) by (unfold l1, l2; lra).
    (* 1/n1^2 + 1/n2^2 = 1/b^2 and the companions *)
    set (p := l1 - a) in *. set (q := l2 - a) in *.
    assert (Q0 : q = - b ^ 2 / p). { assert (p <> 0) by (intros X; rewrite X in OR; nra). unfold Rdiv. apply (Rmult_eq_reg_l p); [|exact H]. field_simplify; [|exact H]. nra. }
    assert (Pz : p <> 0) by (intros X; rewrite X in OR; nra).
    assert (I1 : b * b / (n1 * n1) + b * b / (n2 * n2) = 1) by (rewrite N1, N2, Q0; field; repeat split; try exact Pz; nra).
    assert (I2 : b * p / (n1 * n1) + b * q / (n2 * n2) = 0) by (rewrite N1, N2, Q0; field; repeat split; try exact Pz; nra).
    assert (I3 : p * p / (n1 * n1) + q * q / (n2 * n2) = 1) by (rewrite N1, N2, Q0; field; repeat split; try exact Pz; nra).
    assert (K1 : (b * b + p * p) / (n1 * n1) = 1) by (rewrite N1; field; nra).
    assert (K2 : (b * b + q * q) / (n2 * n2) = 1) by (rewrite N2; field; nra).
    set (U := fun i j : nat => match i, j with O, O => b / n1 | O, _ => b / n2 | _, O => p / n1 | _, _ => q / n2 end).
    assert (OU : inverse_pair 2 U (mtrans U)).
    { split; intros i j Hi Hj; two i Hi; two j Hj; unfold mmul, mtrans, meye, delta, U; cbn [fsum Nat.eqb].
      - etransitivity; [|exact I1]. field. lra.
      - etransitivity; [|exact I2]. field. lra.
      - etransitivity; [|exact I2]. field. lra.
      - etransitivity; [|exact I3]. field. lra.
      - etransitivity; [|exact K1]. field. lra.
      - apply (Rmult_eq_reg_l (n1 * n2)); [|nra]. field_simplify; [nra|lra].
      - apply (Rmult_eq_reg_l (n1 * n2)); [|nra]. field_simplify; [nra|lra].
      - etransitivity; [|exact K2]. field. lra. }
    exists U. split; [exact OU|]. split; [exact OU|]. split; [intros i Hi; two i Hi; lra|].
    intros i j Hi Hj. two i Hi; two j Hj; unfold U; cbn [fsum]; rewrite <- ?E; fold a b d;
      change (sqrt (b * (b * 1) + p * (p * 1))) with n1; change (sqrt (b * (b * 1) + q * (q * 1))) with n2.
    + replace (0 + b / n1 * l1 * (b / n1) + b / n2 * l2 * (b / n2)) with (a * (b * b / (n1 * n1) + b * b / (n2 * n2)) + b * (b * p / (n1 * n1) + b * q / (n2 * n2))); [rewrite I1, I2; ring|].
      unfold p, q. field. lra.
    + replace (0 + b / n1 * l1 * (p / n1) + b / n2 * l2 * (q / n2)) with (a * (b * p / (n1 * n1) + b * q / (n2 * n2)) + b * (p * p / (n1 * n1) + q * q / (n2 * n2))); [rewrite I2, I3; ring|].
      unfold p, q. field. lra.
    + replace (0 + p / n1 * l1 * (b / n1) + q / n2 * l2 * (b / n2)) with (a * (b * p / (n1 * n1) + b * q / (n2 * n2)) + b * (p * p / (n1 * n1) + q * q / (n2 * n2))); [rewrite I2, I3; ring|].
      unfold p, q. field. lra.
    + replace (0 + p / n1 * l1 * (p / n1) + q / n2 * l2 * (q / n2)) with ((b * (b * p / (n1 * n1) + b * q / (n2 * n2)) + d * (p * p / (n1 * n1) + q * q / (n2 * n2)))); [rewrite I2, I3; ring|].
      assert (X1 : p * l1 = b ^ 2 + d * p) by (unfold p in *; nra). assert (X2 : q * l2 = b ^ 2 + d * q) by (unfold q in *; nra).
      replace (p / n1 * l1 * (p / n1)) with (p * (p * l1) / (n1 * n1)) by (field; lra). replace (q / n2 * l2 * (q / n2)) with (q * (q * l2) / (n2 * n2)) by (field; lra).
      rewrite X1, X2. field. lra.
Qed.
Example chol2_contract M : chol_contract 2 chol2 M.
Proof.
  intros L H. unfold chol2 in H. destruct (spd2 M) eqn:E; [|discriminate]. apply spd2_spec in E. destruct E as (E & A & DT).
  injection H as <-. assert (SA := sqrt_lt_R0 _ A). assert (SS := sqrt_sqrt _ (Rlt_le _ _ A)). assert (SD := sqrt_sqrt _ (Rlt_le _ _ DT)).
  set (x := sqrt (M 0%nat 0%nat)) in *. set (y := sqrt (det2 M)) in *. unfold det2 in SD.
  intros i j Hi Hj. two i Hi; two j Hj; unfold mmul, mtrans; cbn [fsum]; rewrite <- ?E.
  - rewrite <- SS. ring.
  - field. lra.
  - field. lra.
  - replace (0 + M 0%nat 1%nat / x * (M 0%nat 1%nat / x) + y / x * (y / x)) with ((M 0%nat 1%nat * M 0%nat 1%nat + y * y) / (x * x)) by (field; lra).
    rewrite SD, SS, <- E. field. lra.
Qed.
Lemma inv2_det X : det2 X <> 0 -> exists T, inv2 2 X = Ok T.
Proof. intros H. unfold inv2. destruct (Reqb (det2 X) 0) eqn:E; [apply Reqb_spec in E; contradiction|eauto]. Qed.
Example lapack2 : lapack 2 chol2 svd2 inv2 ERuntime.
Proof.
  split; [exact chol2_contract|]. split; [exact svd2_contract|]. split; [exact inv2_total|].
  intros M HS HD. pose proof (pos2 M HS HD) as E. split.
  - unfold chol2. rewrite E. apply spd2_spec in E. destruct E as (E & A & DT).
    assert (SA := sqrt_lt_R0 _ A). assert (SD := sqrt_lt_R0 _ DT).
    edestruct inv2_det as (T & ET); [|exists (fun i j => match i, j with O, O => sqrt (M 0%nat 0%nat) | O, _ => 0 | _, O => M 0%nat 1%nat / sqrt (M 0%nat 0%nat) | _, _ => sqrt (det2 M) / sqrt (M 0%nat 0%nat) end), T; split; [reflexivity|exact ET]].
    unfold det2 at 1. replace (_ - _) with (sqrt (det2 M)) by (field; lra). lra.
  - pose proof (svd2_contract M) as SC. unfold svd_contract in SC. unfold svd2 in *. cbv zeta in SC |- *. rewrite E in SC |- *. apply spd2_spec in E. destruct E as (E & A & DT).
    set (F := if Reqb (M 0%nat 1%nat) 0 then _ else _) in *.
    assert (X : exists U D, F = Ok (U, D)) by (unfold F; destruct (Reqb (M 0%nat 1%nat) 0); eauto).
    destruct X as (U & D & EF). rewrite EF in SC. destruct (SC U D eq_refl) as (V & IU & _ & DP & EM).
    rewrite EF. exists U, D. edestruct inv2_det as (T & ET); [|exists T; split; [reflexivity|exact ET]].
    destruct inv2_total as (T1 & T2 & _). destruct (T2 U (mtrans U)) as (C & EC); [destruct IU; split; assumption|].
    assert (DU : det2 U <> 0) by (intros Q; unfold inv2 in EC; rewrite Q, (proj2 (Reqb_spec 0 0) eq_refl) in EC; discriminate).
    assert (DD : det2 M = det2 U * (D 0%nat * D 1%nat) * det2 V).
    { unfold det2. rewrite <- !EM by lia. cbn [fsum]. ring. }
    assert (DN : D 0%nat * D 1%nat <> 0) by (intros Q; rewrite Q in DD; lra).
    assert (P0 : 0 < D 0%nat) by (destruct (DP 0%nat ltac:(lia)) as [X|X]; [exact X|rewrite <- X in DN; lra]).
    assert (P1 : 0 < D 1%nat) by (destruct (DP 1%nat ltac:(lia)) as [X|X]; [exact X|rewrite <- X in DN; lra]).
    assert (D0 := sqrt_lt_R0 _ P0). assert (D1 := sqrt_lt_R0 _ P1).
    match goal with |- det2 ?X <> 0 => replace (det2 X) with (det2 U * (sqrt (D 0%nat) * sqrt (D 1%nat))) end.
    + apply Rmult_integral_contrapositive_currified; [exact DU|nra].
    + unfold det2, mmul, meye, delta. cbn [fsum Nat.eqb]. ring.
Qed.

(** g = R - 3 S for R ~ N(200, 20), S ~ N(40, 5): independent, beta = 80 / 25 *)
Definition h_pipe : list smop := [OpAdd (ODist (Normal "R" 200 20)); OpAdd (OConst "k" 3); OpAdd (ODist (Normal "S" 40 5))].
Definition pick {A} (x y : A) (i : nat) : A := match i with O => x | _ => y end.
Lemma h_pipe_lin h q : dists_of (accepted h) = [Normal "R" 200 20; Normal "S" 40 5] -> consts_of (accepted h) = [("k"%string, 3)] ->
  length q = 2%nat -> g_ex (args_at h q) = 0 + fsum 2 (fun i => pick 1 (-3) i * nth i q 0).
Proof.
  intros E1 E2 H. unfold args_at. rewrite E1, E2. destruct q as [|x [|y [|z q]]]; try discriminate.
  unfold g_ex, lk. cbn. ring.
Qed.
Lemma h_pipe_norm h i : dists_of (accepted h) = [Normal "R" 200 20; Normal "S" 40 5] -> (i < 2)%nat ->
  nth_error (dists_of (accepted h)) i = Some (Normal (pick "R" "S" i)%string (pick 200 40 i) (pick 20 5 i)).
Proof. intros E1 H. rewrite E1. two i H; reflexivity. Qed.
Definition aF : fobj := mkFobj false "cholesky" None None.
Example C92_example : forall fmin, exists r a' s',
  run_form fmin chol2 svd2 inv2 101 10 expr_ex (mkfo 100 (1 / 1000) (1 / 1000) 1 default_ls) None aF (sm_run h_pipe) = (a', s', FDone r) /\
  form_beta 2 r = Fin (80 / 25) /\ form_Pf 2 r = Fin (Phi (- (80 / 25))).
Proof.
  intros fmin.
  assert (EB : (0 + fsum 2 (fun i => pick 1 (-3) i * pick 200 40 i)) / sqrt (fsum 2 (fun i => (pick 1 (-3) i * pick 20 5 i) ^ 2)) = 80 / 25).
  { cbn. f_equal; [ring|]. f_equal. replace (0 + _ + _) with (Rsqr 25) by (unfold Rsqr; ring). apply sqrt_Rsqr. lra. }
  rewrite <- EB.
  apply (C92_independent_normals fmin chol2 svd2 inv2 ERuntime h_pipe expr_ex g_ex 10 (pick "R" "S")%string (pick 200 40) (pick 20 5) (pick 1 (-3)) 0 aF None);
    change (ndists h_pipe) with 2%nat; try exact lapack2; try reflexivity; try exact pointwise_ex; cbn [fo_ls fo_step fo_e1 fo_e2 fo_imax]; try lra; try lia.
  - intros M [H|[H|[H|[]]]]; discriminate.
  - intros i Hi. now apply h_pipe_norm.
  - intros i Hi. two i Hi; cbn; lra.
  - exists 0%nat. split; [lia|]. cbn. lra.
  - intros q Hq. now apply h_pipe_lin.
Qed.

(** the same with correlation 1/2 and the default options; fmin returning its starting value *)
Definition h_pipe2 : list smop := h_pipe ++ [OpSetCorr [[1; 1/2]; [1/2; 1]]].
Example C92_default_example : exists r a' s', let v := 20^2 + 15^2 - 20 * 15 in
  run_form (fun _ x => x) chol2 svd2 inv2 101 10 expr_ex default_options None aF (sm_run h_pipe2) = (a', s', FDone r) /\
  form_beta 2 r = Fin (80 / sqrt v).
Proof.
  destruct (modified_ok (fun _ x => x) 2 (mat_of [[1; 1/2]; [1/2; 1]]) (fun i => marg_of (marg_at (sm_run h_pipe2) i)) 2 (le_n 2)) as (Ro & E & D & S & L & _).
  match type of E with _ = Ok (_, ?x) => set (lg := x) in * end.
  assert (R10 : Ro 1%nat 0%nat = 1 / 2).
  { rewrite L by lia. unfold pair_value. unfold mat_of. cbn [nth]. replace (Reqb (1/2) 0) with false by (symmetry; apply Reqb_false; lra). reflexivity. }
  assert (PD : pos_def 2 Ro).
  { intros v (i & Hi & Hv). cbn [fsum]. rewrite !D, (S 0%nat 1%nat), R10.
    assert (v 0%nat <> 0 \/ v 1%nat <> 0) as [X|X] by (two i Hi; [left|right]; exact Hv).
    - pose proof (Rsqr_pos_lt _ X). unfold Rsqr in *. nra.
    - pose proof (Rsqr_pos_lt _ X). unfold Rsqr in *. nra. }
  destruct (C92_linear_normal_default_options (fun _ x => x) chol2 svd2 inv2 ERuntime h_pipe2 expr_ex g_ex 10 (pick "R" "S")%string (pick 200 40) (pick 20 5) (pick 1 (-3)) 0
     [[1; 1/2]; [1/2; 1]] Ro lg aF None None 101) as (r & a' & s' & ER & EB & _);
    change (ndists h_pipe2) with 2%nat; try exact lapack2; try reflexivity; try exact pointwise_ex; try lia; try exact E; try exact PD.
  - intros i Hi. now apply h_pipe_norm.
  - intros i Hi. two i Hi; cbn; lra.
  - exists 0%nat. split; [lia|]. cbn. lra.
  - intros q Hq. now apply h_pipe_lin.
  - intros q [<-|[<-|[]]]; reflexivity.
  - exists r, a', s'. cbv zeta. split; [exact ER|].
    change (ndists h_pipe2) with 2%nat in EB. cbn [fsum pick] in EB. rewrite !D, (S 0%nat 1%nat), R10 in EB.
    replace (20 ^ 2 + 15 ^ 2 - 20 * 15) with (0 + (0 + 1 * 20 * 1 * (1 * 20) + 1 * 20 * (1 / 2) * (-3 * 5)) + (0 + -3 * 5 * (1 / 2) * (1 * 20) + -3 * 5 * 1 * (-3 * 5))) by (unfold pow; field).
    replace (0 + (0 + 1 * 200 + -3 * 40)) with 80 in EB by ring. exact EB.
Qed.

(** C93: "no. of function calls" of a second analysis is not its own number of calls: two
    identical analyses on one model report 6 and 12 *)
Theorem C93_reported_calls_refuted : forall fmin, exists a1 s1 o a2 s2,
  let run := run_form fmin chol2 svd2 inv2 101 10 expr_ex (mkfo 100 (1 / 1000) (1 / 1000) 1 default_ls) None in
  run aF (sm_run h_pipe) = (a1, s1, o) /\ run aF s1 = (a2, s2, o) /\ getNoFunctionCalls s1 = 6%nat /\ getNoFunctionCalls s2 = 12%nat.
Proof.
  intros fmin. set (fo := mkfo 100 (1 / 1000) (1 / 1000) 1 default_ls).
  destruct (modified_ok fmin 2 (mat_of (eye_rows 2)) (fun i => marg_of (marg_at (sm_run h_pipe) i)) 2 (le_n 2)) as (Ro & E & D & S & L & _).
  match type of E with _ = Ok (_, ?x) => set (lg := x) in * end.
  assert (R10 : Ro 1%nat 0%nat = 0).
  { rewrite L by lia. unfold pair_value, mat_of. cbn. now rewrite (proj2 (Reqb_spec 0 0) eq_refl). }
  assert (PD : pos_def 2 Ro).
  { apply eye_posdef. intros i j Hi Hj. two i Hi; two j Hj; rewrite ?D, ?(S 0%nat 1%nat), ?R10; reflexivity. }
  destruct (C92_linear_normal_full_step fmin chol2 svd2 inv2 ERuntime h_pipe expr_ex g_ex 10 (pick "R" "S")%string (pick 200 40) (pick 20 5) (pick 1 (-3)) 0
     (eye_rows 2) Ro lg aF None fo None 101) as (r & a1 & s1 & ER & _ & _ & _ & _ & _ & EC);
    change (ndists h_pipe) with 2%nat; try exact lapack2; try reflexivity; try exact pointwise_ex; cbn [fo fo_ls fo_step fo_e1 fo_e2 fo_imax]; try lia; try lra; try exact E; try exact PD.
  - intros i Hi. now apply h_pipe_norm.
  - intros i Hi. two i Hi; cbn; lra.
  - exists 0%nat. split; [lia|]. cbn. lra.
  - intros q Hq. now apply h_pipe_lin.
  - intros q [<-|[<-|[]]]; reflexivity.
  - assert (C1 : sm_calls s1 = 6%nat). { destruct EC as [_ X]; [cbn; lra|]. rewrite X. reflexivity. }
    destruct (C93_history_independent fmin chol2 svd2 inv2 101 10 expr_ex fo None aF aF (sm_run h_pipe) s1) as (EO & _ & _ & K).
    + pose proof (C93_history_independent fmin chol2 svd2 inv2 101 10 expr_ex fo None aF aF (sm_run h_pipe) (sm_run h_pipe)) as H.
      cbv zeta in H. rewrite ER in H. apply H; [repeat split|reflexivity].
    + reflexivity.
    + rewrite ER in EO, K. cbn [fst snd] in EO, K. destruct (run_form _ _ _ _ _ _ _ _ _ aF s1) as [[a2 s2] o2] eqn:E2. cbn [fst snd] in EO, K. subst o2.
      exists a1, s1, (FDone r), a2, s2. cbv zeta. split; [exact ER|]. split; [exact E2|]. unfold getNoFunctionCalls in *. split; [exact C1|].
      rewrite C1 in K. change (sm_calls (sm_run h_pipe)) with 0%nat in K. lia.
Qed.
Print Assumptions C93_reported_calls_refuted.
