From Coquelicot Require Import Coquelicot.
From Verif Require Import Base Ext Gauss GaussProofs StochModel StochModelSpec StochModelProofs LimitState LimitStateSpec LimitStateProofs Transf TransfSpec Form FormProofs Nataf Dist Pipe PipeSpec PipeProofs PipeProps Sorm Mc McSpec McProofs McRunProofs McRun LsRunProofs RotProps.
From Coq Require Import ZArith Lra Lia.
Open Scope R_scope.

Lemma nograd_calls lf s expr o n x G gr : ev_out (evaluate_lsf lf s expr o (Some "no"%string) n x) = ODone G gr ->
  ev_s (evaluate_lsf lf s expr o (Some "no"%string) n x) = addCallFunction s (length x).
Proof.
  unfold evaluate_lsf. destruct (o_multi_proc o =? 0)%Z; [discriminate|]. cbn [String.eqb Ascii.eqb Bool.eqb].
  unfold evaluate_nogradient. destruct (block_loop _ _ _ _ _ _ _ _ _ _) as [[Gs|e|] tr]; [reflexivity|discriminate|discriminate].
Qed.

Section Sim.
Variables (expr : expression) (fo : form_opts) (mo : mc_opts) (stream : nat -> R) (s0 : smodel) (n : nat) (A : mat) (p : vec).
Hypothesis EM : length (sm_marg s0) = n.
Let tox := u_to_x n A (marg_at s0).
Let Gof := mc_limit_state s0 expr (fo_ls fo) n A (marg_at s0).

Lemma eval_sim s us : same_core s0 s ->
  fst (mc_eval expr fo n n A s us) = Gof us /\
  exists c, snd (mc_eval expr fo n n A s us) = addCallFunction s c /\ (forall G, Gof us = Ok G -> c = length us).
Proof.
  intros HC. unfold mc_eval. rewrite Nat.eqb_refl, (core_len s0 n EM s HC), Nat.eqb_refl, (core_marg s0 s HC).
  replace (match us with [] => None | _ => None end) with (@None exn) by (destruct us; reflexivity). cbv zeta. cbn [fst snd].
  unfold Gof, mc_limit_state, form_trial. cbv zeta.
  set (x := map (fun u => vlist n (u_to_x n A (marg_at s0) u)) us).
  destruct (core_eval s0 s HC (S (length us)) expr (fo_ls fo) (Some "no"%string) n x) as (k & E1 & E2 & E3).
  split.
  { Show. rewrite E3. clear. destruct (ev_out (evaluate_lsf (S (length us)) s0 expr (fo_ls fo) (Some "no"%string) n x)); reflexivity. }
  exists k. split; [exact E2|]. intros G HG.
  destruct (ev_out (evaluate_lsf (S (length us)) s0 expr (fo_ls fo) (Some "no"%string) n x)) as [G' gr|e|] eqn:EO; try discriminate.
  pose proof (nograd_calls _ _ _ _ _ _ _ _ EO) as E4. rewrite E4 in E1. apply (f_equal sm_calls) in E1. cbn in E1. unfold x in E1. rewrite map_length in E1. lia.
Qed.

Lemma block_ext G1 st b us : us = map (draw n stream (ms_off st) (Z.to_nat b) p (mo_stdv mo)) (seq 0 (Z.to_nat b)) -> G1 = Gof us ->
  mc_block n mo stream p tox (fun _ => G1) st b = mc_block n mo stream p tox Gof st b.
Proof. intros -> ->. reflexivity. Qed.

Lemma loop_sim fl : forall st s, same_core s0 s ->
  match mc_loop n mo stream p tox Gof fl st with
  | MDone st' => exists c, mc_loop_on expr fo mo stream fl n n A p st s = (st', addCallFunction s c, MEnd) /\ Z.of_nat c = (ms_k st' - ms_k st)%Z
  | MRaise e => exists st' c, mc_loop_on expr fo mo stream fl n n A p st s = (st', addCallFunction s c, MRaised e)
  | MFuel => exists st' c, mc_loop_on expr fo mo stream fl n n A p st s = (st', addCallFunction s c, MRunning)
  end.
Proof.
  induction fl as [|f IH]; intros st s HC; cbn [mc_loop mc_loop_on].
  { exists st, 0%nat. now rewrite add0. }
  destruct (Z.ltb_spec (ms_k st) (mo_samples mo)) as [L|L].
  2: { exists 0%nat. rewrite add0. split; [reflexivity|lia]. }
  set (b := Z.min (mo_block mo) (mo_samples mo - ms_k st)).
  destruct (Z.ltb_spec b 0) as [Hb|Hb].
  { unfold mc_block at 1. destruct (Z.ltb_spec b 0); [|lia]. exists st, 0%nat. now rewrite add0. }
  destruct (negb (mo_rg mo =? 0)%Z) eqn:Hr.
  { unfold mc_block at 1. destruct (Z.ltb_spec b 0); [lia|]. rewrite Hr. exists st, 0%nat. now rewrite add0. }
  set (us := map (draw n stream (ms_off st) (Z.to_nat b) p (mo_stdv mo)) (seq 0 (Z.to_nat b))).
  destruct (eval_sim s us HC) as (E1 & c & E2 & E3).
  destruct (mc_eval expr fo n n A s us) as [G s'] eqn:EE. cbn [fst snd] in E1, E2. subst s'.
  rewrite (core_marg s0 s HC). fold tox. rewrite (block_ext G st b us eq_refl E1).
  destruct (mc_block n mo stream p tox Gof st b) as [st'|e] eqn:EB.
  2: { do 2 eexists. reflexivity. }
  assert (GO : exists G', Gof us = Ok G').
  { unfold mc_block in EB. destruct (Z.ltb_spec b 0); [lia|]. rewrite Hr in EB. fold us in EB. destruct (Gof us); [eauto|discriminate]. }
  destruct GO as (G' & GO). specialize (E3 G' GO). unfold us in E3. rewrite map_length, seq_length in E3. subst c.
  assert (KS : ms_k st' = (ms_k st + b)%Z).
  { unfold mc_block in EB. destruct (Z.ltb_spec b 0); [lia|]. rewrite Hr in EB. fold us in EB. rewrite GO in EB. injection EB as <-. reflexivity. }
  destruct (Rleb (ms_cov st') (mo_target mo)).
  { eexists. split; [reflexivity|]. rewrite KS, Z2Nat.id by exact Hb. lia. }
  specialize (IH st' (addCallFunction s (Z.to_nat b)) (core_trans _ _ _ HC (core_add s _))).
  destruct (mc_loop n mo stream p tox Gof f st') as [st''|e|].
  - destruct IH as (c & E & Ec). rewrite E. exists (Z.to_nat b + c)%nat. rewrite add_add. split; [reflexivity|]. rewrite Nat2Z.inj_add, Z2Nat.id by exact Hb. lia.
  - destruct IH as (st'' & c & E). rewrite E. do 2 eexists. rewrite add_add. reflexivity.
  - destruct IH as (st'' & c & E). rewrite E. do 2 eexists. rewrite add_add. reflexivity.
Qed.
End Sim.

(** the preparation of linear problems in normal variables *)
Lemma init_ok fmin chol svd inv ty s M n Ro lg T A : sm_corr s = Some M -> length M = n -> (forall r, In r M -> length r = n) -> length (sm_marg s) = n ->
  computeModifiedCorrelationMatrix fmin n n (mat_of M) (fun i => marg_of (marg_at s i)) = Ok (Ro, lg) ->
  transf_compute chol svd inv ty n (mat_of (rows_of n Ro)) = Ok (T, A) ->
  forall s', same_core s s' -> init_run_full fmin chol svd inv ty s' = (setModifiedCorrelation s' (rows_of n Ro), Ok (T, A)).
Proof.
  intros HM HM1 HM2 EM HRo ET s' HC. unfold init_run_full, setModifiedCorrelationMatrix. rewrite (core_marg s s' HC).
  assert (E3 : length (sm_marg s') = n) by exact (core_len s n EM s' HC). rewrite E3. destruct HC as (_ & _ & _ & E4 & _). rewrite E4, HM, HM1, (rows_square n M HM2), HRo.
  cbn [setModifiedCorrelation sm_Ro]. rewrite rows_length, ET. reflexivity.
Qed.

(** FORM on a constant limit state ends in NaN *)
Lemma const_run fmin chol svd inv e0 h expr f lf nm (mu sd : vec) c0 M Ro lg a opt fo fuel :
  let n := ndists h in let s := sm_run h in
  lapack n chol svd inv e0 -> form_init opt = Ok a -> (1 <= n)%nat ->
  (forall i, (i < n)%nat -> nth_error (dists_of (accepted h)) i = Some (Normal (nm i) (mu i) (sd i))) ->
  (forall i, (i < n)%nat -> sd i <> 0) ->
  pointwise expr f -> (forall q, length q = n -> f (args_at h q) = c0) ->
  fo_ls fo = default_ls -> (1 <= fo_imax fo)%Z -> (n + 7 < lf)%nat -> (Z.to_nat (fo_imax fo) < fuel)%nat ->
  sm_corr s = Some M -> length M = n -> (forall r, In r M -> length r = n) ->
  computeModifiedCorrelationMatrix fmin n n (mat_of M) (fun i => marg_of (marg_at s i)) = Ok (Ro, lg) -> pos_def n Ro ->
  exists T A b c r, transf_compute chol svd inv (fb_type a) n (mat_of (rows_of n Ro)) = Ok (T, A) /\
    run_form fmin chol svd inv fuel lf expr fo None a s = (b, addCallFunction (setModifiedCorrelation s (rows_of n Ro)) c, FDone r) /\ fr_u r = None.
Proof.
  intros n s Hlap Ha Hn HN Hsd Hp Hlin Hfo Him Hlf Hfu HM HM1 HM2 HRo HPD.
  assert (Hlin' : forall q, length q = n -> f (args_at h q) = c0 + fsum n (fun i => (fun _ => 0) i * nth i q 0)).
  { intros q Hq. rewrite (Hlin q Hq), fsum_zero; [ring|]. intros i _. ring. }
  destruct (ln_all fmin chol svd inv e0 h expr f lf nm mu sd (fun _ => 0) c0 M Ro lg a opt Hlap Ha Hn HN Hsd Hp Hlin' Hlf HRo HPD) as (T & A & ET & _ & EA & _).
  cbv zeta in EA. fold n in EA, ET. fold s in EA.
  assert (EM : length (sm_marg s) = n) by (destruct (registry h) as (_ & _ & X & _); unfold s; rewrite X; reflexivity).
  destruct (C92_run_composition fmin chol svd inv s M n Ro lg T A fuel lf expr fo None a HM HM1 HM2 EM HRo ET) as (c' & b & R1 & R2 & R3 & R4 & R5).
  set (u0 := computeStartingPoint n T (marg_at s)).
  destruct (EA u0) as (g & k & Ev & Eg).
  assert (NG : norm n g = 0).
  { rewrite (norm_ext n g (fun _ => 0)). { unfold norm, dot. rewrite fsum_zero; [apply sqrt_0|intros; ring]. }
    intros i Hi. rewrite (Eg i Hi). rewrite fsum_zero; [ring|]. intros j _. ring. }
  rewrite <- Hfo in Ev.
  destruct (loop_zero_gradient n fo _ (form_trial lf s expr (fo_ls fo) n A (marg_at s)) fuel u0 _ g k Ev NG ltac:(now rewrite Hfo) Him Hfu) as (r & c & EL & Eu).
  unfold form_from in R1. fold u0 in R1. rewrite EL in R1. injection R1 as Er Ec.
  destruct (run_form fmin chol svd inv fuel lf expr fo None a s) as [[b1 s2] o1] eqn:ER. cbn [fst snd] in *. subst o1. injection R2 as -> ->.
  exists T, A, b, c', r. split; [exact ET|]. split; [reflexivity|exact Eu].
Qed.

(** the weight of a point of unit-deviation sampling around p *)
Lemma weight_unit n p u I : weight n p 1 u I = I * exp (/ 2 * dot n p p - dot n p u).
Proof.
  unfold weight. rewrite pow1, Rmult_1_r. f_equal. f_equal.
  rewrite (Base.dot_ext n (fun i => u i - p i) (mvec n (inv_cov 1) (fun i => u i - p i)) (fun i => u i - p i) (fun i => u i - p i)) by
    (first [intros i _; reflexivity|intros i Hi; rewrite inv_cov_mvec by exact Hi; field]).
  rewrite dot_sub_r, !dot_sub_l. assert (dot n u p = dot n p u) by (unfold dot; apply fsum_ext; intros; ring). lra.
Qed.
