(** Property theorems C113: line sampling with a Form analysis made in another standard normal space. *)
From Coquelicot Require Import Coquelicot.
From Verif Require Import Base Ext Gauss GaussProofs StochModel StochModelSpec StochModelProofs LimitState LimitStateSpec LimitStateProofs LimitStateProps Transf TransfSpec TransfProofs Form FormProofs FormAffineProofs FormNormalProofs FormProps Nataf NatafProofs Dist RotSpec RotProps Pipe PipeSpec SensSpec PipeProofs PipeProps Sorm SormRun SormRunProofs SormRunProps Ls LsProofs LsProps LsRun LsRunSpec LsRunProofs LsRunProps LsForeignProofs.
From Coq Require Import ZArith Lra Lia.
Open Scope R_scope.

(** C113: on a limit state linear in u, s (beta - a.u) with unit normal a, sampled along any unit direction
    al: where the line meets the surface inside the scanned range, the reported parameter is the
    intersection (up to eps); the line fails beyond it if a.al > 0, and BEFORE it if a.al < 0. *)
Theorem C113_any_direction : forall n N randn ev brentq a al beta bF s eps,
  (1 <= N)%nat -> 0 < s -> dot n a al <> 0 -> (forall u, ev u = Some (s * (beta - dot n a u))) ->
  (forall f h lo hi, lo <= hi -> (forall c, f c = Some (h c)) -> (forall c, continuity_pt h c) -> h lo * h hi <= 0 ->
     exists c r, brentq f lo hi = Some c /\ lo <= r <= hi /\ h r = 0 /\ Rabs (c - r) <= eps) ->
  let r := ls_run n N randn ev brentq al bF in
  let v j := foot n al (fun i => randn (i * N + j)%nat) in
  let root j := (beta - dot n a (v j)) / dot n a al in
  ls_Pf r = lsum (map (fun c => Phi (- c)) (ls_c r)) / INR N /\ length (ls_c r) = N /\
  forall j, (j < N)%nat -> - Rmax (Rabs bF * 3 + 5) 15 < root j <= Rmax (Rabs bF * 3 + 5) 15 ->
    Rabs (nth j (ls_c r) 0 - root j) <= eps /\
    (forall c g, ev (line_pt (v j) al c) = Some g -> (g < 0 <-> if Rltb 0 (dot n a al) then root j < c else c < root j)).
Proof.
  intros n N randn ev brentq a al beta bF s eps HN Hs Hk Hev HB r v root.
  split; [unfold r; apply ls_run_Pf|]. split; [apply ls_contribs_len|]. intros j Hj HR. split.
  - unfold r. rewrite ls_run_c. rewrite (nth_indep _ 0 (find_line_intersection ev brentq (v 0%nat) al bF)) by (rewrite map_length, seq_length; exact Hj).
    rewrite (map_nth (fun j => find_line_intersection ev brentq (v j) al bF)), seq_nth by exact Hj. cbn [Nat.add].
    exact (fli_slanted n a al ev brentq beta bF s eps (v j) Hs Hk Hev HB HR).
  - intros c g E. rewrite Hev, dot_line in E. injection E as <-. unfold root. set (k := dot n a al) in *. set (b := beta - dot n a (v j)).
    assert (EQ : s * (beta - (dot n a (v j) + c * k)) = s * (k * (b / k - c))) by (unfold b; field; exact Hk). rewrite EQ. destruct (Rltb 0 k) eqn:K.
    + apply Rltb_spec in K. pose proof (Rmult_lt_0_compat _ _ Hs K) as P. split; intros H; nra.
    + apply Rltb_false in K. assert (K' : 0 < - k) by lra. pose proof (Rmult_lt_0_compat _ _ Hs K') as P. split; intros H; nra.
Qed.
Print Assumptions C113_any_direction.

(** C113: the whole analysis.  The transformation of the lines is the one of the option at construction
    ([opt]), the Form analysis has that of the option when run is called ([topt]).  With A and B the two
    factors of the correlation matrix, the direction is FORM's alpha in the space of B, while the limit
    state's normal in the space of the lines is computed with A. *)
Theorem C113_transform_changed :
  forall fmin chol svd inv brentq e0 h expr f lf nm (mu sd cf : vec) c0 M Ro log a b0 opt topt fo evn fuel eps m Ns randn,
  let n := ndists h in let s := sm_run h in
  lapack n chol svd inv e0 -> brentq_contract eps m brentq -> ls_new opt None s = Ok a -> form_init topt = Ok b0 -> (1 <= n)%nat -> (1 <= Ns)%Z ->
  (forall i, (i < n)%nat -> nth_error (dists_of (accepted h)) i = Some (Normal (nm i) (mu i) (sd i))) ->
  (forall i, (i < n)%nat -> sd i <> 0) -> (exists i, (i < n)%nat /\ cf i <> 0) ->
  pointwise expr f -> (forall q, length q = n -> f (args_at h q) = c0 + fsum n (fun i => cf i * nth i q 0)) ->
  exact_options fo -> (n + 7 < lf)%nat -> (Z.to_nat (fo_imax fo) < fuel)%nat ->
  sm_corr s = Some M -> length M = n -> (forall r, In r M -> length r = n) ->
  computeModifiedCorrelationMatrix fmin n n (mat_of M) (fun i => marg_of (marg_at s i)) = Ok (Ro, log) -> pos_def n Ro ->
  let variance := fsum n (fun i => fsum n (fun j => (cf i * sd i) * Ro i j * (cf j * sd j))) in
  let beta := (c0 + fsum n (fun i => cf i * mu i)) / sqrt variance in
  let normal A := fun j => - fsum n (fun i => cf i * sd i * A i j) / sqrt variance in
  exists TA A TB B a' s' r al,
    transf_compute chol svd inv (lo_type a) n (mat_of (rows_of n Ro)) = Ok (TA, A) /\ factor_of n A Ro /\
    transf_compute chol svd inv (fb_type b0) n (mat_of (rows_of n Ro)) = Ok (TB, B) /\ factor_of n B Ro /\
    ls_run_on fmin chol svd inv brentq fuel lf expr fo evn topt Ns randn a s = (a', s', LDone) /\ same_problem s s' /\
    lo_res a' = Some (LNum r) /\ veq n al (normal B) /\
    (let v j := foot n al (fun i => randn (i * Z.to_nat Ns + j)%nat) in
     let kappa := dot n (normal A) al in
     let root j := (beta - dot n (normal A) (v j)) / kappa in
     kappa <> 0 ->
     ls_Pf r = lsum (map (fun c => Phi (- c)) (ls_c r)) / INR (Z.to_nat Ns) /\ length (ls_c r) = Z.to_nat Ns /\
     forall j, (j < Z.to_nat Ns)%nat -> - Rmax (Rabs beta * 3 + 5) 15 < root j <= Rmax (Rabs beta * 3 + 5) 15 ->
       Rabs (nth j (ls_c r) 0 - root j) <= eps /\
       (forall c g, line_value lf expr fo s n A (line_pt (v j) al c) = Some g -> (g < 0 <-> if Rltb 0 kappa then root j < c else c < root j))).
Proof.
  intros fmin chol svd inv brentq e0 h expr f lf nm mu sd cf c0 M Ro lg a b0 opt topt fo evn fuel eps m Ns randn n s Hlap HBr Hnew Hb0 Hn HNs HN Hsd Hcf Hp Hlin Hfo Hlf Hfu HM HM1 HM2 HRo HPD variance beta normal.
  unfold ls_new in Hnew. destruct (form_init opt) as [a0|] eqn:Ha; [|discriminate]. cbn [rbind] in Hnew. injection Hnew as <-. cbn [lo_type].
  destruct (lin_run fmin chol svd inv e0 h expr f lf nm mu sd cf c0 M Ro lg b0 topt fo evn fuel Hlap Hb0 Hn HN Hsd Hcf Hp Hlin Hfo Hlf Hfu HM HM1 HM2 HRo HPD)
    as (TB & B & b & c & r & u & H). cbv zeta in H. fold n s in H. fold variance in H. fold beta in H.
  destruct H as (ER & ETA & ERes & Eu & E0 & EG & AL & HU & EB & ET & HT & HF & EN & VP & EM & _).
  destruct (ln_factor fmin chol svd inv e0 h M Ro lg a0 opt Hlap Ha HRo HPD) as (TA & A & EA & HTA & HFA). fold n in EA.
  destruct (ln_all fmin chol svd inv e0 h expr f lf nm mu sd cf c0 M Ro lg a0 opt Hlap Ha Hn HN Hsd Hp Hlin Hlf HRo HPD) as (T' & A' & ET' & _ & _ & ETr).
  cbv zeta in ETr. fold n in ETr, ET'. fold s in ETr. rewrite EA in ET'. injection ET' as <- <-. set (mean := c0 + fsum n (fun i => cf i * mu i)) in *.
  change (ln_b h mu cf c0) with mean in ETr.
  assert (SV := sqrt_lt_R0 _ VP). set (alB := alpha_of n (fr_grad r)) in *.
  assert (FA : form_alpha n r = Some alB) by (unfold form_alpha; rewrite Eu; reflexivity).
  assert (EI : init_run_full fmin chol svd inv (fb_type a0) s = (setModifiedCorrelation s (rows_of n Ro), Ok (TA, A))).
  { unfold init_run_full, setModifiedCorrelationMatrix. rewrite EM, HM, HM1, (rows_square n M HM2), HRo. cbn [setModifiedCorrelation sm_Ro]. rewrite rows_length, EA. reflexivity. }
  assert (EV : forall u', line_value lf expr fo s n A u' = Some (sqrt variance * (beta - dot n (normal A) u'))).
  { intros u'. destruct (ETr [u'] ltac:(cbn; lia)) as (k & Ek). rewrite <- (proj1 Hfo) in Ek.
    rewrite (trial_value lf expr fo s n A u' _ k Ek). cbn [map nth]. f_equal.
    rewrite (Base.dot_ext n (normal A) u' (fun i => / sqrt variance * - fsum n (fun k => cf k * sd k * A k i)) u').
    - rewrite dot_scal_l. unfold beta. field. lra.
    - intros i Hi. unfold normal, Rdiv. ring.
    - intros i _. reflexivity. }
  set (s1 := setModifiedCorrelation s (rows_of n Ro)) in *.
  destruct (run_core fmin chol svd inv fuel lf expr fo evn b0 b0 s s1 (core_Ro s _) eq_refl) as (k & M' & HR).
  rewrite ER in HR. destruct (run_form fmin chol svd inv fuel lf expr fo evn b0 s1) as [[b' s2] o2] eqn:ER2.
  destruct HR as (-> & _ & _ & _ & C2 & _).
  destruct (C100_run_composition fmin chol svd inv brentq fuel lf expr fo evn topt Ns randn (mkLo false (fb_type a0) (length (sm_marg s)) None None) s s1 s2 TA A (rows_of n Ro) n b' r alB beta EI eq_refl (rows_length n Ro) EM EM) as (c' & E1 & _).
  - right. split; [reflexivity|]. exists b0. split; [exact Hb0|exact ER2].
  - exact FA.
  - exact EB.
  - exact HNs.
  - rewrite (proj1 Hfo). cbn. lia.
  - lia.
  - eexists TA, A, TB, B, _, _, _, alB. split; [exact EA|]. split; [exact HFA|]. split; [exact ET|]. split; [exact HF|]. split; [exact E1|].
    split; [apply (core_trans _ s2); [exact (core_trans _ _ _ (core_Ro s _) C2)|apply core_add]|]. split; [reflexivity|].
    split; [intros i Hi; rewrite (AL i Hi); unfold normal; reflexivity|].
    cbv zeta. intros Hk.
    exact (C113_any_direction n (Z.to_nat Ns) randn (line_value lf expr fo s n A) (fun g lo hi => fst (brentq g lo hi)) (normal A) alB beta beta (sqrt variance) eps ltac:(lia) SV Hk EV (fun ff hh lo hi L1 L2 L3 L4 => proj1 (HBr ff hh lo hi L1 L2 L3 L4))).
Qed.
Print Assumptions C113_transform_changed.

(** *** Non-vacuity, and the refutation of "the option can be changed at any time".  The limit state is R with
    R ~ N(100, 20), beta = 5, S is correlated with R (-1/2).  Constructed with 'svd', run after the option
    has been set back: with random numbers of ordinary size Pf is at least Phi(1) = 0.84, not Phi(-5) = 3e-7. *)
Definition h_slant : list smop := [OpAdd (ODist (Normal "R" 100 20)); OpAdd (OConst "k" 0); OpAdd (ODist (Normal "S" 40 5)); OpSetCorr [[1; -1/2]; [-1/2; 1]]].

Theorem C113_wrong_side_refuted : forall brentq eps m Ns randn, brentq_contract eps m brentq -> eps <= 1 -> (1 <= Ns)%Z -> (forall k, Rabs (randn k) <= 5) ->
  let run topt := ls_run_on (fun _ x => x) chol2 svd2 inv2 brentq 101 10 expr_ex default_options None topt Ns randn in
  exists a a1 s1 a2 s2 r Pf, ls_new (Some "svd"%string) None (sm_run h_slant) = Ok a /\
    run (Some "svd"%string) a (sm_run h_slant) = (a1, s1, LDone) /\ estimates a1 5 eps /\
    run None a (sm_run h_slant) = (a2, s2, LDone) /\ lo_res a2 = Some r /\ lres_Pf r = Fin Pf /\ Phi 1 <= Pf.
Proof.
  intros brentq eps m Ns randn HBr Heps HNs HZ run.
  destruct (modified_ok (fun _ x => x) 2 (mat_of [[1; -1/2]; [-1/2; 1]]) (fun i => marg_of (marg_at (sm_run h_slant) i)) 2 (le_n 2)) as (Ro & E & D & S & L & _).
  match type of E with _ = Ok (_, ?x) => set (lg := x) in * end.
  assert (R10 : Ro 1%nat 0%nat = -1/2).
  { rewrite L by lia. unfold pair_value. unfold mat_of. cbn [nth]. replace (Reqb (-1/2) 0) with false by (symmetry; apply Reqb_false; lra). reflexivity. }
  assert (R01 : Ro 0%nat 1%nat = -1/2) by (rewrite S; exact R10).
  assert (PD : pos_def 2 Ro).
  { intros v (i & Hi & Hv). cbn [fsum]. rewrite !D, R01, R10.
    assert (v 0%nat <> 0 \/ v 1%nat <> 0) as [X|X] by (two i Hi; [left|right]; exact Hv); pose proof (Rsqr_pos_lt _ X); unfold Rsqr in *; nra. }
  set (aL := mkLo false "svd" 2 None None). assert (EN : ls_new (Some "svd"%string) None (sm_run h_slant) = Ok aL) by reflexivity.
  assert (HN : forall i, (i < 2)%nat -> nth_error (dists_of (accepted h_slant)) i = Some (Normal (pick "R" "S" i)%string (pick 100 40 i) (pick 20 5 i))) by (intros i Hi; two i Hi; reflexivity).
  assert (HS : forall i, (i < 2)%nat -> pick 20 5 i <> 0) by (intros i Hi; two i Hi; cbn; lra).
  assert (HC : exists i, (i < 2)%nat /\ pick 1 0 i <> 0) by (exists 0%nat; split; [lia|cbn; lra]).
  assert (HL : forall q, length q = 2%nat -> g_ex (args_at h_slant q) = 0 + fsum 2 (fun i => pick 1 0 i * nth i q 0)).
  { intros q Hq. unfold args_at. change (dists_of (accepted h_slant)) with [Normal "R" 100 20; Normal "S" 40 5]. change (consts_of (accepted h_slant)) with [("k"%string, 0)].
    destruct q as [|x [|y [|z q]]]; try discriminate. unfold g_ex, lk. cbn. ring. }
  assert (HM2 : forall r, In r [[1; -1/2]; [-1/2; 1]] -> length r = 2%nat) by (intros q [<-|[<-|[]]]; reflexivity).
  set (vv := fsum 2 (fun i => fsum 2 (fun j => pick 1 0 i * pick 20 5 i * Ro i j * (pick 1 0 j * pick 20 5 j)))).
  assert (EVv : vv = 400) by (unfold vv; cbn [fsum pick]; rewrite !D, R01, R10; field).
  assert (SV : sqrt vv = 20) by (rewrite EVv; replace 400 with (Rsqr 20) by (unfold Rsqr; ring); apply sqrt_Rsqr; lra).
  assert (EBe : (0 + fsum 2 (fun i => pick 1 0 i * pick 100 40 i)) / sqrt vv = 5) by (rewrite SV; cbn [fsum pick]; lra).
  destruct (C100_linear_normal (fun _ x => x) chol2 svd2 inv2 brentq ERuntime h_slant expr_ex g_ex 10 (pick "R" "S")%string (pick 100 40) (pick 20 5) (pick 1 0) 0
     [[1; -1/2]; [-1/2; 1]] Ro lg aL (Some "svd"%string) default_options None 101 eps m Ns randn lapack2 HBr EN ltac:(cbn; lia) HNs HN HS HC pointwise_ex HL default_exact ltac:(cbn; lia) ltac:(cbn; lia) eq_refl eq_refl HM2 E PD)
     as (_ & b & sF & fr & a1 & s1 & _ & RUN1 & EST & _).
  change (ndists h_slant) with 2%nat in EST. fold vv in EST. rewrite EBe in EST.
  destruct (C113_transform_changed (fun _ x => x) chol2 svd2 inv2 brentq ERuntime h_slant expr_ex g_ex 10 (pick "R" "S")%string (pick 100 40) (pick 20 5) (pick 1 0) 0
     [[1; -1/2]; [-1/2; 1]] Ro lg aL (mkFobj false "cholesky" None None) (Some "svd"%string) None default_options None 101 eps m Ns randn lapack2 HBr EN eq_refl ltac:(cbn; lia) HNs HN HS HC pointwise_ex HL default_exact ltac:(cbn; lia) ltac:(cbn; lia) eq_refl eq_refl HM2 E PD)
     as (TA & A & TB & B & a2 & s2 & r & al & ETA & _ & ETB & _ & RUN2 & _ & ER & EAL & H).
  change (ndists h_slant) with 2%nat in *. fold vv in H, EAL. rewrite EBe in H. rewrite SV in H, EAL.
  (* the two factors *)
  assert (SP : spd2 (mat_of (rows_of 2 Ro)) = true).
  { apply spd2_spec. unfold mat_of, rows_of, det2. cbn [map seq nth]. rewrite !D, R01, R10. repeat split; lra. }
  assert (EB : B 0%nat 0%nat = 1 /\ B 0%nat 1%nat = 0).
  { change (computeCholesky chol2 inv2 2 (mat_of (rows_of 2 Ro)) = Ok (TB, B)) in ETB. unfold computeCholesky, chol2 in ETB. rewrite SP in ETB. cbn [rbind] in ETB.
    destruct (inv2 2 _) as [X|]; [|discriminate]. cbn [rbind] in ETB. injection ETB as _ <-. split; [|reflexivity]. unfold mat_of, rows_of. cbn [map seq nth]. rewrite D. apply sqrt_1. }
  assert (EA : A 0%nat 0%nat = - (sqrt 3 / 2) /\ A 0%nat 1%nat = -1 / 2).
  { change (computeSVD svd2 inv2 2 (mat_of (rows_of 2 Ro)) = Ok (TA, A)) in ETA. unfold computeSVD, svd2 in ETA. rewrite SP in ETA.
    set (MM := mat_of (rows_of 2 Ro)) in ETA. assert (M00 : MM 0%nat 0%nat = 1) by (unfold MM, mat_of, rows_of; cbn [map seq nth]; apply D).
    assert (M11 : MM 1%nat 1%nat = 1) by (unfold MM, mat_of, rows_of; cbn [map seq nth]; apply D). assert (M01 : MM 0%nat 1%nat = -1/2) by (unfold MM, mat_of, rows_of; cbn [map seq nth]; exact R01).
    cbv zeta in ETA. rewrite M00, M11, M01 in ETA. replace (Reqb (-1/2) 0) with false in ETA by (symmetry; apply Reqb_false; lra). cbn [rbind] in ETA.
    destruct (inv2 2 _) as [X|]; [|discriminate]. cbn [rbind] in ETA. injection ETA as _ <-. unfold mmul, meye, delta. cbn [fst snd fsum Nat.eqb]. rewrite ?M00, ?M11, ?M01.
    assert (Q1 : sqrt ((1 - 1) / 2 * ((1 - 1) / 2 * 1) + -1 / 2 * (-1 / 2 * 1)) = 1 / 2) by (replace ((1 - 1) / 2 * ((1 - 1) / 2 * 1) + -1 / 2 * (-1 / 2 * 1)) with ((1 / 2) ^ 2) by field; apply sqrt_pow2; lra). rewrite Q1.
    replace ((1 + 1) / 2 + 1 / 2) with (3 / 2) by field. replace ((1 + 1) / 2 - 1 / 2) with (1 / 2) by field.
    replace (-1 / 2 * (-1 / 2 * 1) + (3 / 2 - 1) * ((3 / 2 - 1) * 1)) with (1 / 2) by field. replace (-1 / 2 * (-1 / 2 * 1) + (1 / 2 - 1) * ((1 / 2 - 1) * 1)) with (1 / 2) by field.
    assert (P : 0 < sqrt (1 / 2)) by (apply sqrt_lt_R0; lra). assert (Q3 : sqrt (3 / 2) = sqrt 3 * sqrt (1 / 2)) by (rewrite <- sqrt_mult by lra; f_equal; field). rewrite Q3.
    split; field; lra. }
  destruct EB as [B00 B01]. destruct EA as [A00 A01].
  assert (S3 : 17 / 10 < sqrt 3 < 18 / 10).
  { split; [rewrite <- (sqrt_Rsqr (17 / 10)) by lra|rewrite <- (sqrt_Rsqr (18 / 10)) by lra]; apply sqrt_lt_1; unfold Rsqr; lra. }
  assert (AL0 : al 0%nat = -1) by (rewrite (EAL 0%nat ltac:(lia)); cbn [fsum pick]; rewrite B00; field).
  assert (AL1 : al 1%nat = 0) by (rewrite (EAL 1%nat ltac:(lia)); cbn [fsum pick]; rewrite B01; field).
  set (nA := fun j => - fsum 2 (fun i => pick 1 0 i * pick 20 5 i * A i j) / 20) in H.
  assert (N0 : nA 0%nat = sqrt 3 / 2) by (unfold nA; cbn [fsum pick]; rewrite A00; field).
  assert (N1 : nA 1%nat = 1 / 2) by (unfold nA; cbn [fsum pick]; rewrite A01; field).
  assert (KA : dot 2 nA al = - (sqrt 3 / 2)) by (unfold dot; cbn [fsum]; rewrite AL0, AL1, N0, N1; field).
  destruct (H ltac:(rewrite KA; lra)) as (HP & HLen & HJ). rewrite KA in HJ.
  assert (CJ : forall j, (j < Z.to_nat Ns)%nat -> nth j (ls_c r) 0 <= -1).
  { intros j Hj. set (z := fun i => randn (i * Z.to_nat Ns + j)%nat) in *.
    assert (DV : dot 2 nA (foot 2 al z) = z 1%nat / 2) by (unfold foot, dot; cbn [fsum]; rewrite AL0, AL1, N0, N1; field).
    specialize (HJ j Hj). fold z in HJ. rewrite DV in HJ. pose proof (HZ (1 * Z.to_nat Ns + j)%nat) as Z1. change (randn (1 * Z.to_nat Ns + j)%nat) with (z 1%nat) in Z1. apply Rabs_le_between in Z1.
    set (root := (5 - z 1%nat / 2) / - (sqrt 3 / 2)) in HJ.
    assert (RT : root * (sqrt 3 / 2) = - (5 - z 1%nat / 2)) by (unfold root; field; lra).
    assert (RB : -10 < root <= -2) by (split; nra).
    assert (RM : Rmax (Rabs 5 * 3 + 5) 15 = 20) by (rewrite Rabs_right, Rmax_left by lra; lra). rewrite RM in HJ.
    destruct (HJ ltac:(lra)) as [HX _]. apply Rabs_le_between in HX. lra. }
  assert (NP : 0 < INR (Z.to_nat Ns)) by (apply lt_0_INR; lia).
  exists aL, a1, s1, a2, s2, (LNum r), (ls_Pf r). split; [exact EN|]. split; [exact RUN1|]. split; [exact EST|]. split; [exact RUN2|]. split; [exact ER|]. split; [reflexivity|].
  rewrite HP. apply Rmult_le_reg_r with (INR (Z.to_nat Ns)); [exact NP|]. unfold Rdiv. rewrite Rmult_assoc, Rinv_l, Rmult_1_r by lra.
  rewrite <- HLen. clear - CJ HLen. rewrite <- HLen in CJ. clear HLen. induction (ls_c r) as [|c l IH]; [cbn; lra|]. cbn [length map lsum]. rewrite S_INR.
  assert (X : Phi 1 <= Phi (- c)) by (apply (proj1 (Phi_le _ _)); pose proof (CJ 0%nat ltac:(cbn; lia)) as Q; cbn in Q; lra).
  specialize (IH (fun j Hj => CJ (Datatypes.S j) (proj1 (Nat.succ_lt_mono _ _) Hj))). lra.
Qed.
Print Assumptions C113_wrong_side_refuted.
