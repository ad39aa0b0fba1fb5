(** C130: a limit state function with a double principal curvature 1/5 for which curve fitting's matrix has no real eigenvalue; and an instance of the two-variable bound. *)
From Coquelicot Require Import Coquelicot.
From Verif Require Import Base Ext Dict Gauss GaussProofs StochModel StochModelSpec StochModelProofs LimitState LimitStateSpec LimitStateProofs LimitStateProps Transf TransfSpec TransfProofs Form FormProofs FormAffineProofs FormNormalProofs FormProps Nataf NatafProofs Dist RotSpec RotProofs RotProps ScaleFormProofs Pipe PipeSpec PipeProofs PipeProps GramSchmidt GramSchmidtProofs Sorm SormProofs Valid SormRun SormRunSpec SormRunProofs SormRunProps SormQuadSpec SormQuadProofs SormQuadProps FitCmpProofs FitCmpProps FitCmpExProps HessSpec HessProofs HessProps HessExProps.
From Verif Require Ss SsProofs LapackProps.
From Coq Require Import ZArith Lra Lia Permutation.
Open Scope R_scope.

(** G = 3 - T + (R^2 + S^2)/10 + R S (R - S) with independent standard normal R, S, T, and its gradient *)
Definition g_x (kw : list (string * R)) : R := 3 - lk kw "T" + (lk kw "R" * lk kw "R" + lk kw "S" * lk kw "S") / 10 + lk kw "R" * lk kw "S" * (lk kw "R" - lk kw "S").
Definition gr_x (kw : list (string * R)) : list R :=
  [lk kw "R" / 5 + 2 * lk kw "R" * lk kw "S" - lk kw "S" * lk kw "S"; lk kw "S" / 5 + lk kw "R" * lk kw "R" - 2 * lk kw "R" * lk kw "S"; -1].
Definition lift_expr (g : list (string * R) -> R) (gr : list (string * R) -> list R) : expression := fun kw =>
  let nc := match kw with [] => 0%nat | (_, v) :: _ => List.length v end in
  Ok (UTuple (Arr (map (fun c => g (map (fun kv => (fst kv, nth c (snd kv) 0)) kw)) (seq 0 nc))) (gr (map (fun kv => (fst kv, nth 0 (snd kv) 0)) kw))).
Lemma with_gradient_lift g gr : with_gradient (lift_expr g gr) g gr.
Proof.
  split.
  - intros kw nc Hne Hl. eexists. split; [reflexivity|]. destruct kw as [|[n v] kw]; [contradiction|]. cbn [value_of].
    rewrite (Hl n v) by (left; reflexivity). reflexivity.
  - intros kw Hne Hl. eexists. reflexivity.
Qed.

(** For every Cholesky routine that maps the identity to the identity: after FORM (beta = 3, alpha along T,
    design point (0, 0, 3)), the matrix B of which curve fitting takes the eigenvalues is
    ((1/5, e/1000), (-e/1000, 1/5)) with e = 1 or -1, up to rows and columns without influence, and has no
    real eigenvalue: with every routine that returns real eigenvalues only, curve fitting fails. *)
Theorem C130_complex_curvatures_refuted : forall fmin chol svd inv e0,
  lapack 3 chol svd inv e0 -> (forall C L, meq 3 C meye -> chol 3%nat C = Ok L -> meq 3 L meye) ->
  exists b r s1, sorm_new fmin chol svd inv 101 10 (lift_expr g_x gr_x) fo_q None None None (sm_run h_m) = (Ok ("cholesky"%string, b), s1) /\
  fb_res b = Some r /\ form_beta 3 r = Fin 3 /\
  exists B, B 0%nat 0%nat = 1 / 5 /\ B 1%nat 1%nat = 1 / 5 /\ B 1%nat 0%nat = - B 0%nat 1%nat /\ (B 0%nat 1%nat = 1 / 1000 \/ B 0%nat 1%nat = - (1 / 1000)) /\
  (forall l, ~ real_eigenvalues 2 B l) /\
  forall eig sort st print, (forall l, eig 2%nat B = Ok l -> real_eigenvalues 2 B l) ->
  exists st' s' e, sorm_run_on fmin chol svd inv eig sort 10 (lift_expr g_x gr_x) fo_q None "cf" print "cholesky"%string b st s1 = (st', s', Err e).
Proof.
  intros fmin chol svd inv e0 Hlap Hch.
  destruct (modified_ok fmin 3 (mat_of (eye_rows 3)) (fun i => marg_of (marg_at (sm_run h_m) i)) 3 (le_n 3)) as (Ro & E & D & SY & L & _).
  match type of E with _ = Ok (_, ?x) => set (lg := x) in * end.
  assert (LOW : forall i j, (j < i)%nat -> (i < 3)%nat -> Ro i j = 0).
  { intros i j Hj Hi. rewrite L by lia. unfold pair_value, mat_of. three i Hi; three j Hj; try (exfalso; lia); cbn [nth]; cbn; now rewrite (proj2 (Reqb_spec 0 0) eq_refl). }
  assert (EI : forall i j, (i < 3)%nat -> (j < 3)%nat -> Ro i j = delta i j).
  { intros i j Hi Hj. destruct (Nat.lt_trichotomy i j) as [X|[->|X]]; [rewrite SY, LOW by lia; rewrite delta_neq by lia; reflexivity|rewrite D, delta_refl; reflexivity|rewrite LOW, delta_neq by lia; reflexivity]. }
  set (v := fsum 3 (fun i => fsum 3 (fun j => cf_m i * 1 * Ro i j * (cf_m j * 1)))).
  assert (EV : v = 1) by (unfold v; cbn [fsum cf_m]; rewrite !EI by lia; cbn; ring).
  assert (SV : sqrt v = 1) by (rewrite EV; apply sqrt_1).
  assert (Hff : o_ffdpara (fo_ls fo_q) = 1000) by reflexivity.
  pose proof (C130_curve_fit_matrix fmin chol svd inv e0 h_m (lift_expr g_x gr_x) g_x gr_x 10 nm_m (fun _ => 0) (fun _ => 1) cf_m 3
     (eye_rows 3) Ro lg aF None fo_q None 101) as K. cbv zeta in K. change (ndists h_m) with 3%nat in K. fold v in K. rewrite Hff in K.
  assert (ARG : forall x y z, args_at h_m [x; y; z] = [("R"%string, x); ("S"%string, y); ("T"%string, z)]) by reflexivity.
  destruct K as (b & r & T & A & alpha & u & s1 & EN & ER & _ & ET & HT & HF & FA & EA & EB & _ & EU & H & s2 & _ & _ & EH & _ & _ & RUN);
    try exact Hlap; try reflexivity; try exact (with_gradient_lift _ _); try lia; try lra; try exact E.
  - intros i Hi. three i Hi; reflexivity.
  - intros i Hi. lra.
  - exists 2%nat. split; [lia|]. cbn. lra.
  - unfold fo_q. repeat split; cbn; try lra; try lia. right. repeat split; try lra; lia.
  - cbn. lia.
  - intros q Hq. cbn in Hq. destruct Hq as [<-|[<-|[<-|[]]]]; reflexivity.
  - now apply eye_posdef.
  - intros q p Hq Hp. destruct q as [|x [|y [|z [|w q]]]]; try discriminate.
    pose proof (Hp 0%nat ltac:(lia)) as P0. pose proof (Hp 1%nat ltac:(lia)) as P1. pose proof (Hp 2%nat ltac:(lia)) as P2. clear Hp. cbn [fsum nth cf_m] in P0, P1, P2. rewrite !EI in P0, P1, P2 by lia. cbn in P0, P1, P2.
    assert (X0 : x = 0) by lra. assert (Y0 : y = 0) by lra. assert (Z0 : z = p) by lra. clear P0 P1 P2. subst x y z. rewrite ARG. change (fsum 3 (fun i => fsum 3 (fun j => cf_m i * 1 * Ro i j * (cf_m j * 1)))) with v. rewrite EV. unfold g_x, gr_x, lk. cbn. split; [field|].
    intros i Hi. three i Hi; cbn; lra.
  - change (fb_type aF) with "cholesky"%string in *. change (3 - 1)%nat with 2%nat in *.
    change (fsum 3 (fun i => fsum 3 (fun j => cf_m i * 1 * Ro i j * (cf_m j * 1)))) with v in EA, EB, EU, RUN.
    rewrite SV in EA, EB, EU.
    assert (AI : meq 3 A meye).
    { unfold transf_compute in ET. cbn [String.eqb Ascii.eqb Bool.eqb] in ET. unfold computeCholesky, rbind in ET.
      destruct (chol 3%nat (mat_of (rows_of 3 Ro))) as [LL|] eqn:EL; [|discriminate]. destruct (inv 3%nat LL); [|discriminate]. injection ET as _ <-.
      apply (Hch _ _) in EL; [exact EL|]. intros i j Hi Hj. rewrite mat_rows by assumption. rewrite EI by assumption. reflexivity. }
    assert (AIJ : forall i j, (i < 3)%nat -> (j < 3)%nat -> A i j = delta i j) by exact AI.
    assert (AL0 : alpha 0%nat = 0) by (rewrite (EA 0%nat ltac:(lia)); cbn; rewrite !AIJ by lia; cbn; field).
    assert (AL1 : alpha 1%nat = 0) by (rewrite (EA 1%nat ltac:(lia)); cbn; rewrite !AIJ by lia; cbn; field).
    assert (AL2 : alpha 2%nat = 1) by (rewrite (EA 2%nat ltac:(lia)); cbn; rewrite !AIJ by lia; cbn; field).
    assert (NA : norm 3 alpha = 1). { unfold norm, dot. cbn [fsum]. rewrite AL0, AL1, AL2. replace (0 + 0 * 0 + 0 * 0 + 1 * 1) with 1 by ring. apply sqrt_1. }
    assert (U0 : u 0%nat = 0) by (rewrite (EU 0%nat ltac:(lia)), AL0; ring). assert (U1 : u 1%nat = 0) by (rewrite (EU 1%nat ltac:(lia)), AL1; ring).
    destruct (om_succeeds 3 alpha ltac:(lia) NA ltac:(cbn [Nat.sub]; rewrite AL2, Rabs_R1; lra)) as (rows & OM).
    destruct (rows_m alpha rows OM NA AL0 AL1 AL2) as (R01 & R10).
    destruct (om_ok 3 alpha rows NA OM) as (_ & HO & _ & HL & _).
    assert (R02 : rows 0%nat 2%nat = 0 /\ rows 1%nat 2%nat = 0).
    { pose proof (HO 0%nat 2%nat ltac:(lia) ltac:(lia)) as O02. pose proof (HO 1%nat 2%nat ltac:(lia) ltac:(lia)) as O12.
      pose proof (HL 0%nat ltac:(lia)) as L0. pose proof (HL 1%nat ltac:(lia)) as L1. pose proof (HL 2%nat ltac:(lia)) as L2. cbn [Nat.sub] in L0, L1, L2. rewrite AL0 in L0. rewrite AL1 in L1. rewrite AL2 in L2.
      unfold dot, delta in O02, O12. cbn [fsum Nat.eqb] in O02, O12. rewrite L0, L1, L2 in O02, O12. lra. }
    destruct R02 as (R02 & R12).
    assert (RR : rows 0%nat 0%nat * rows 0%nat 0%nat = 1 /\ rows 1%nat 1%nat * rows 1%nat 1%nat = 1).
    { pose proof (HO 0%nat 0%nat ltac:(lia) ltac:(lia)) as O00. pose proof (HO 1%nat 1%nat ltac:(lia) ltac:(lia)) as O11. unfold dot, delta in O00, O11. cbn [fsum Nat.eqb] in O00, O11. rewrite R01, R02 in O00. rewrite R10, R12 in O11. lra. }
    set (x := rows 0%nat 0%nat) in *. set (y := rows 1%nat 1%nat) in *. destruct RR as (XX & YY).
    assert (PP : forall w, phys_point 3 (fun _ => 0) (fun _ => 1) A w = [w 0%nat; w 1%nat; w 2%nat]).
    { intros w. unfold phys_point. cbn [seq map fsum]. rewrite !AIJ by lia. cbn. f_equal; [ring|f_equal; [ring|f_equal; ring]]. }
    assert (GG : forall w c, (c < 3)%nat -> u_gradient 3 h_m gr_x (fun _ => 0) (fun _ => 1) A w c = nth c (gr_x (args_at h_m [w 0%nat; w 1%nat; w 2%nat])) 0).
    { intros w c Hc. unfold u_gradient. rewrite PP. cbn [fsum]. rewrite !AIJ by lia. three c Hc; cbn; ring. }
    assert (HIJ : H 0%nat 0%nat = 1 / 5 /\ H 1%nat 1%nat = 1 / 5 /\ H 0%nat 1%nat = - (1 / 1000) /\ H 1%nat 0%nat = 1 / 1000).
    { rewrite !EH by lia. rewrite !GG by lia. unfold along. cbn [Nat.eqb]. rewrite !ARG, U0, U1. unfold gr_x, lk. cbn. repeat split; field. }
    destruct HIJ as (H00 & H11 & H01 & H10).
    exists b, r, s1. split; [exact EN|]. split; [exact ER|]. split; [rewrite EB; f_equal; field|].
    destruct (RUN rows OM) as (B & EBm & R). exists B.
    assert (B00 : B 0%nat 0%nat = 1 / 5 * (x * x)) by (rewrite EBm by lia; rewrite SV; cbn [fsum]; rewrite R01, R02, H00; fold x; field).
    assert (B11 : B 1%nat 1%nat = 1 / 5 * (y * y)) by (rewrite EBm by lia; rewrite SV; cbn [fsum]; rewrite R10, R12, H11; fold y; field).
    assert (B01 : B 0%nat 1%nat = - (1 / 1000) * (x * y)) by (rewrite EBm by lia; rewrite SV; cbn [fsum]; rewrite R01, R02, R10, R12, H01; fold x; fold y; field).
    assert (B10 : B 1%nat 0%nat = 1 / 1000 * (x * y)) by (rewrite EBm by lia; rewrite SV; cbn [fsum]; rewrite R01, R02, R10, R12, H10; fold x; fold y; field).
    rewrite XX in B00. rewrite YY in B11.
    assert (XY : x * y = 1 \/ x * y = -1).
    { assert (Z : (x * y - 1) * (x * y + 1) = 0) by (replace ((x * y - 1) * (x * y + 1)) with ((x * x) * (y * y) - 1) by ring; rewrite XX, YY; ring). apply Rmult_integral in Z as [Z|Z]; lra. }
    split; [lra|]. split; [lra|]. split; [lra|]. split; [rewrite B01; destruct XY as [-> | ->]; lra|].
    assert (NR : forall l, ~ real_eigenvalues 2 B l).
    { intros l (Ll & HE). destruct l as [|k l]; [discriminate|]. destruct (HE k (or_introl eq_refl)) as (w & (i & Hi & Nw) & W).
      pose proof (W 0%nat ltac:(lia)) as W0. pose proof (W 1%nat ltac:(lia)) as W1. cbn [fsum] in W0, W1. rewrite B00, B01 in W0. rewrite B10, B11 in W1.
      set (a := w 0%nat) in *. set (c := w 1%nat) in *. set (t := x * y) in *. set (m := k - 1 / 5).
      assert (Y0 : m * a = - (1 / 1000) * t * c) by (unfold m; lra). assert (Y1 : m * c = 1 / 1000 * t * a) by (unfold m; lra).
      assert (Z0 : (m * m + 1 / 1000000) * a = 0).
      { replace ((m * m + 1 / 1000000) * a) with (m * (m * a) + 1 / 1000000 * a) by ring. rewrite Y0. replace (m * (- (1 / 1000) * t * c)) with (- (1 / 1000) * t * (m * c)) by ring. rewrite Y1. destruct XY as [-> | ->]; lra. }
      assert (Z1 : (m * m + 1 / 1000000) * c = 0).
      { replace ((m * m + 1 / 1000000) * c) with (m * (m * c) + 1 / 1000000 * c) by ring. rewrite Y1. replace (m * (1 / 1000 * t * a)) with (1 / 1000 * t * (m * a)) by ring. rewrite Y0. destruct XY as [-> | ->]; lra. }
      pose proof (Rle_0_sqr m) as MM. unfold Rsqr in MM. apply Rmult_integral in Z0 as [Z0|Z0]; [lra|]. apply Rmult_integral in Z1 as [Z1|Z1]; [lra|].
      two i Hi; [exact (Nw Z0)|exact (Nw Z1)]. }
    split; [exact NR|]. intros eig sort st print HR. specialize (R eig sort st print). cbv zeta in R. destruct (eig 2%nat B) as [l|e] eqn:EE.
    + exfalso. exact (NR l (HR l eq_refl)).
    + destruct R as (st' & s' & R). exists st', s', e. unfold sorm_run_on in R |- *. exact R.
Qed.
Print Assumptions C130_complex_curvatures_refuted.

(** Two variables: G = 3 - S + R^2/5 + R^3/6.  The curvature at the design point (0, 3) is 2/5; the reported one
    is within 1/1000 of it. *)
Definition g_y (kw : list (string * R)) : R := 3 - lk kw "S" + lk kw "R" * lk kw "R" / 5 + lk kw "R" * lk kw "R" * lk kw "R" / 6.
Definition gr_y (kw : list (string * R)) : list R := [2 / 5 * lk kw "R" + lk kw "R" * lk kw "R" / 2; -1].
Example C130_example : forall fmin, exists b s1,
  sorm_new fmin chol2 svd2 inv2 101 10 (lift_expr g_y gr_y) fo_q None None None (sm_run h_q) = (Ok ("cholesky"%string, b), s1) /\
  forall st print, exists kappa st' s' out, sorm_run_on fmin chol2 svd2 inv2 eig1 Ss.sort 10 (lift_expr g_y gr_y) fo_q None "cf" print "cholesky"%string b st s1 = (st', s', out) /\
    so_kappa st' = Some [kappa] /\ Rabs (kappa - 2 / 5) <= 1 / 1000.
Proof.
  intros fmin.
  destruct (modified_ok fmin 2 (mat_of (eye_rows 2)) (fun i => marg_of (marg_at (sm_run h_q) i)) 2 (le_n 2)) as (Ro & E & D & S & L & _).
  match type of E with _ = Ok (_, ?x) => set (lg := x) in * end.
  assert (R10 : Ro 1%nat 0%nat = 0).
  { rewrite L by lia. unfold pair_value. unfold mat_of. cbn [nth]. cbn. now rewrite (proj2 (Reqb_spec 0 0) eq_refl). }
  assert (EI : forall i j, (i < 2)%nat -> (j < 2)%nat -> Ro i j = delta i j).
  { intros i j Hi Hj. two i Hi; two j Hj; cbn; rewrite ?D, ?R10; try reflexivity. rewrite (S 0%nat 1%nat), R10. reflexivity. }
  assert (ARG : forall x y, args_at h_q [x; y] = [("R"%string, x); ("S"%string, y)]) by reflexivity.
  set (v := fsum 2 (fun i => fsum 2 (fun j => pick 0 (-1) i * 1 * Ro i j * (pick 0 (-1) j * 1)))).
  assert (EV : v = 1) by (unfold v; cbn [fsum pick]; rewrite !EI by lia; cbn; ring).
  assert (SV : sqrt v = 1) by (rewrite EV; apply sqrt_1).
  pose proof (C130_two_variables_error fmin chol2 svd2 inv2 eig1 Ss.sort ERuntime h_q (lift_expr g_y gr_y) g_y gr_y 10 (pick "R" "S")%string (fun _ => 0) (fun _ => 1) (pick 0 (-1)) 3
     (eye_rows 2) Ro lg aF None fo_q None 101) as K. cbv zeta in K. fold v in K. change (o_ffdpara (fo_ls fo_q)) with 1000 in K.
  destruct K as (b & T & A & alpha & u & s1 & EN & ET & HF & EA & _ & EU & RUN);
    try exact lapack2; try exact eig1_contract; try exact sort_ok; try reflexivity; try exact (with_gradient_lift _ _); try lia; try lra; try exact E.
  - intros i Hi. two i Hi; reflexivity.
  - intros i Hi. lra.
  - exists 1%nat. split; [lia|]. cbn. lra.
  - unfold fo_q. repeat split; cbn; try lra; try lia. right. repeat split; try lra; lia.
  - cbn. lia.
  - intros q Hq. cbn in Hq. destruct Hq as [<-|[<-|[]]]; reflexivity.
  - now apply eye_posdef.
  - intros q p Hq Hp. destruct q as [|x [|y [|w q]]]; try discriminate.
    pose proof (Hp 0%nat ltac:(lia)) as P0. pose proof (Hp 1%nat ltac:(lia)) as P1. clear Hp. cbn [fsum nth pick] in P0, P1. rewrite !EI in P0, P1 by lia. cbn in P0, P1.
    assert (X0 : x = 0) by lra. assert (Y0 : y = p) by lra. clear P0 P1. subst x y. rewrite ARG.
    change (fsum 2 (fun i => fsum 2 (fun j => pick 0 (-1) i * 1 * Ro i j * (pick 0 (-1) j * 1)))) with v. rewrite EV. unfold g_y, gr_y, lk. cbn. split; [field|].
    intros i Hi. two i Hi; cbn; field.
  - change (fb_type aF) with "cholesky"%string in *.
    change (fsum 2 (fun i => fsum 2 (fun j => pick 0 (-1) i * 1 * Ro i j * (pick 0 (-1) j * 1)))) with v in EA, EU, RUN. rewrite SV in EA, EU, RUN.
    assert (LF : lower_factor 2 A (mat_of (rows_of 2 Ro))).
    { unfold transf_compute in ET. cbn [String.eqb Ascii.eqb Bool.eqb] in ET. unfold computeCholesky, rbind in ET.
      destruct (chol2 2 (mat_of (rows_of 2 Ro))) as [LL|] eqn:EL; [|discriminate]. destruct (inv2 2 LL); [|discriminate]. injection ET as _ <-. now apply chol2_factor. }
    destruct LF as (K1 & K2 & _).
    assert (F00 := HF 0%nat 0%nat ltac:(lia) ltac:(lia)). assert (F10 := HF 1%nat 0%nat ltac:(lia) ltac:(lia)). assert (F11 := HF 1%nat 1%nat ltac:(lia) ltac:(lia)).
    rewrite !EI in F00, F10, F11 by lia. cbn in F00, F10, F11. rewrite (K1 0%nat 1%nat) in F00, F10 by lia. pose proof (K1 0%nat 1%nat ltac:(lia)) as A01.
    pose proof (K2 0%nat ltac:(lia)) as KP0. pose proof (K2 1%nat ltac:(lia)) as KP1.
    assert (A00 : A 0%nat 0%nat = 1) by nra. rewrite A00 in F10. assert (A10 : A 1%nat 0%nat = 0) by lra. rewrite A10 in F11. assert (A11 : A 1%nat 1%nat = 1) by nra.
    assert (AL0 : alpha 0%nat = 0) by (rewrite (EA 0%nat ltac:(lia)); cbn; rewrite A00, A10; field).
    assert (AL1 : alpha 1%nat = 1) by (rewrite (EA 1%nat ltac:(lia)); cbn; rewrite A01, A11; field).
    assert (U0 : u 0%nat = 0) by (rewrite (EU 0%nat ltac:(lia)), AL0; ring).
    exists b, s1. split; [exact EN|]. intros st print. destruct (RUN ltac:(rewrite AL1, Rabs_R1; lra) st print) as (kappa & st' & s' & out & ER & EK & BND).
    exists kappa, st', s', out. split; [exact ER|]. split; [exact EK|].
    set (D2 := fun c i => match c, i with O, O => fun t => 2 / 5 + t | _, _ => fun _ : R => 0 end).
    set (F2 := fun c i => match c, i with O, O => fun _ : R => 1 | _, _ => fun _ : R => 0 end).
    specialize (BND D2 F2 1). cbv zeta in BND. rewrite AL0, AL1 in BND. cbn [D2] in BND. 
    replace (2 / 5) with (((2 / 5 + 0) * (1 * 1) - (0 + 0) * (0 * 1) + 0 * (0 * 0)) / 1) by field. replace (1 / 1000) with (1 * (1 / 1000) / 1) by field. apply BND. clear BND.
    assert (PP : forall w, phys_point 2 (fun _ => 0) (fun _ => 1) A w = [w 0%nat; w 1%nat]).
    { intros w. unfold phys_point. cbn [seq map fsum]. rewrite A00, A01, A10, A11. f_equal; [ring|f_equal; ring]. }
    assert (GG : forall w c, (c < 2)%nat -> u_gradient 2 h_q gr_y (fun _ => 0) (fun _ => 1) A w c = match c with O => 2 / 5 * w 0%nat + w 0%nat * w 0%nat / 2 | _ => -1 end).
    { intros w c Hc. unfold u_gradient. rewrite PP, ARG. cbn [fsum]. unfold gr_y, lk. two c Hc; cbn; rewrite ?A00, ?A01, ?A10, ?A11; field. }
    intros c i Hc Hi t Ht. split; [|split].
    + apply (is_derive_ext (fun t => match c with O => 2 / 5 * along u i t 0%nat + along u i t 0%nat * along u i t 0%nat / 2 | _ => -1 end)); [intros z; symmetry; exact (GG (along u i z) c Hc)|].
      two c Hc; [|apply (is_derive_const (K := R_AbsRing) (V := R_NormedModule))]. unfold along, D2. two i Hi; cbn [Nat.eqb]; rewrite U0; [auto_derive; [exact Logic.I|field]|apply (is_derive_const (K := R_AbsRing) (V := R_NormedModule))].
    + unfold D2, F2. two c Hc; two i Hi; try apply (is_derive_const (K := R_AbsRing) (V := R_NormedModule)). auto_derive; [exact Logic.I|ring].
    + unfold F2. two c Hc; two i Hi; rewrite ?Rabs_R0, ?Rabs_R1; lra.
Qed.
(** routines meeting the hypotheses of C130_complex_curvatures_refuted exist *)
Example C130_hypotheses_met : exists chol svd inv, lapack 3 chol svd inv ERuntime /\ (forall C L, meq 3 C meye -> chol 3%nat C = Ok L -> meq 3 L meye).
Proof.
  destruct (LapackProps.numpy_contracts_satisfiable ERuntime) as (chol & svd & inv & eig & H). exists chol, svd, inv.
  destruct (H 3%nat) as (H1 & _ & _ & H4). split; assumption.
Qed.
