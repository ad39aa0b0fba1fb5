(** C128, an instance: point fitting does not see a mixed curvature. *)
From Coquelicot Require Import Coquelicot.
From Verif Require Import Base Ext Dict Gauss GaussProofs StochModel StochModelSpec StochModelProofs LimitState LimitStateSpec LimitStateProofs LimitStateProps Transf TransfSpec TransfProofs Form FormProofs FormAffineProofs FormNormalProofs FormProps Nataf NatafProofs Dist RotSpec RotProofs RotProps ScaleFormProofs Pipe PipeSpec PipeProofs PipeProps GramSchmidt GramSchmidtProofs Sorm SormProofs Valid SormRun SormRunSpec SormRunProofs SormRunProps SormQuadSpec SormQuadProofs SormQuadProps FitCmpProofs FitCmpProps.
From Coq Require Import ZArith Lra Lia Permutation.
Open Scope R_scope.

(** G = 3 - T + R S / 5 with independent standard normal R, S, T, and its gradient *)
Definition h_m : list smop := [OpAdd (ODist (Normal "R" 0 1)); OpAdd (ODist (Normal "S" 0 1)); OpAdd (ODist (Normal "T" 0 1))].
Definition g_m (kw : list (string * R)) : R := 3 - lk kw "T" + / 5 * (lk kw "R" * lk kw "S").
Definition gr_m (kw : list (string * R)) : list R := [/ 5 * lk kw "S"; / 5 * lk kw "R"; -1].
Definition expr_m : expression := fun kw =>
  let nc := match kw with [] => 0%nat | (_, v) :: _ => List.length v end in
  Ok (UTuple (Arr (map (fun c => g_m (map (fun kv => (fst kv, nth c (snd kv) 0)) kw)) (seq 0 nc))) (gr_m (map (fun kv => (fst kv, nth 0 (snd kv) 0)) kw))).
Lemma with_gradient_m : with_gradient expr_m g_m gr_m.
Proof.
  split.
  - intros kw nc Hne Hl. eexists. split; [reflexivity|]. destruct kw as [|[n v] kw]; [contradiction|]. cbn [value_of].
    rewrite (Hl n v) by (left; reflexivity). reflexivity.
  - intros kw Hne Hl. eexists. reflexivity.
Qed.
Definition Q_m : mat := fun i j => match i, j with O, S O => / 5 | S O, O => / 5 | _, _ => 0 end.
Definition cf_m : vec := fun i => match i with 2%nat => -1 | _ => 0 end.
Definition nm_m (i : nat) : string := match i with O => "R" | S O => "S" | _ => "T" end.
Ltac three i Hi := destruct i as [|[|[|i]]]; [| | |exfalso; clear - Hi; lia].

(** the Gram-Schmidt rows for alpha = e_2 are e_0 and e_1 up to sign *)
Lemma rows_m alpha rows : orthonormal_matrix 3 alpha = Ok rows -> norm 3 alpha = 1 -> alpha 0%nat = 0 -> alpha 1%nat = 0 -> alpha 2%nat = 1 ->
  rows 0%nat 1%nat = 0 /\ rows 1%nat 0%nat = 0.
Proof.
  intros OM NA A0 A1 A2. destruct (om_ok 3 alpha rows NA OM) as (_ & HO & _ & HL & _).
  rewrite om_unfold in OM by lia. destruct (gs_state 3 (arot 3 alpha) 3) as [Q|] eqn:EQ; [|discriminate]. cbn [rbind] in OM. injection OM as <-.
  assert (HW := gs_state_W 3 alpha 3 (le_n 3) Q EQ). destruct (HW 1%nat ltac:(lia)) as (t & W1). 
  assert (R10 : rot90 3 Q 1%nat 0%nat = 0). { unfold rot90. cbn [Nat.sub]. specialize (W1 0%nat ltac:(lia) ltac:(lia)). unfold mcol in W1. rewrite W1, A0. ring. }
  split; [|exact R10].
  assert (O12 := HO 1%nat 2%nat ltac:(lia) ltac:(lia)). assert (O01 := HO 0%nat 1%nat ltac:(lia) ltac:(lia)). assert (O11 := HO 1%nat 1%nat ltac:(lia) ltac:(lia)). assert (O02 := HO 0%nat 2%nat ltac:(lia) ltac:(lia)).
  pose proof (HL 0%nat ltac:(lia)) as L0. pose proof (HL 1%nat ltac:(lia)) as L1. pose proof (HL 2%nat ltac:(lia)) as L2. cbn [Nat.sub] in L0, L1, L2. rewrite A0 in L0. rewrite A1 in L1. rewrite A2 in L2.
  set (P := rot90 3 Q) in *. clearbody P. unfold dot, delta in *. cbn [fsum Nat.eqb] in *. rewrite R10, L0, L1, L2 in *.
  assert (P12 : P 1%nat 2%nat = 0) by lra. rewrite P12 in *. assert (P02 : P 0%nat 2%nat = 0) by lra. rewrite P02 in *.
  assert (X : P 0%nat 1%nat * P 1%nat 1%nat = 0) by lra. assert (Y : P 1%nat 1%nat * P 1%nat 1%nat = 1) by lra.
  apply Rmult_integral in X as [X|X]; [exact X|]. rewrite X in Y. lra.
Qed.

(** For every Cholesky routine that maps the identity to the identity, and every routine for the rest that
    meets its contract: point fitting finds two curvatures 0 and reports Phi(-3), FORM's value, while
    curve fitting finds -1/5 and 1/5 and reports 5/4 of it. *)
Theorem C128_mixed_curvature_refuted : forall fmin chol svd inv eig sort e0,
  lapack 3 chol svd inv e0 -> eig_contract 2 eig -> sort_contract sort ->
  (forall C L, meq 3 C meye -> chol 3%nat C = Ok L -> meq 3 L meye) ->
  exists b s1, sorm_new fmin chol svd inv 101 10 expr_m fo_q None None None (sm_run h_m) = (Ok ("cholesky"%string, b), s1) /\
  forall print, let run fit := sorm_run_on fmin chol svd inv eig sort 10 expr_m fo_q None fit print "cholesky"%string b sorm_init s1 in
  exists stp sp stc sc, run "pf"%string = (stp, sp, Ok tt) /\ run "cf"%string = (stc, sc, Ok tt) /\
    so_kpf stp = Some ([0; 0], [0; 0]) /\ so_pf stp = SArr (Fin (Phi (- (3)))) /\ so_pfm stp = SArr (Fin (Phi (- (3)))) /\
    so_kappa stc = Some [- (1 / 5); 1 / 5] /\ so_pf stc = SArr (Fin (5 / 4 * Phi (- (3)))).
Proof.
  intros fmin chol svd inv eig sort e0 Hlap Heig Hsort Hch.
  destruct (modified_ok fmin 3 (mat_of (eye_rows 3)) (fun i => marg_of (marg_at (sm_run h_m) i)) 3 (le_n 3)) as (Ro & E & D & SY & L & _).
  match type of E with _ = Ok (_, ?x) => set (lg := x) in * end.
  assert (LOW : forall i j, (j < i)%nat -> (i < 3)%nat -> Ro i j = 0).
  { intros i j Hj Hi. rewrite L by lia. unfold pair_value, mat_of. three i Hi; three j Hj; try (exfalso; lia); cbn [nth]; cbn; now rewrite (proj2 (Reqb_spec 0 0) eq_refl). }
  assert (EI : forall i j, (i < 3)%nat -> (j < 3)%nat -> Ro i j = delta i j).
  { intros i j Hi Hj. destruct (Nat.lt_trichotomy i j) as [X|[->|X]]; [rewrite SY, LOW by lia; rewrite delta_neq by lia; reflexivity|rewrite D, delta_refl; reflexivity|rewrite LOW, delta_neq by lia; reflexivity]. }
  destruct (C99_paraboloid fmin chol svd inv eig sort e0 h_m expr_m g_m gr_m 10 nm_m (fun _ => 0) (fun _ => 1) cf_m 3 Q_m
     (eye_rows 3) Ro lg aF None fo_q None 101) as (b & r & T & A & alpha & s1 & EN & _ & _ & ET & HT & HF & FA & EA & EB & HR);
    change (ndists h_m) with 3%nat; try exact Hlap; try exact Heig; try exact Hsort; try reflexivity; try exact with_gradient_m; try lia; try exact E.
  - intros i Hi. three i Hi; reflexivity.
  - intros i Hi. lra.
  - exists 2%nat. split; [lia|]. cbn. lra.
  - intros q Hq. unfold args_at. change (dists_of (accepted h_m)) with [Normal "R" 0 1; Normal "S" 0 1; Normal "T" 0 1]. change (consts_of (accepted h_m)) with (@nil (string * R)).
    destruct q as [|x [|y [|z [|w q]]]]; try discriminate. unfold g_m, gr_m, quad_value, quad_gradient, lk. cbn. split; [field|]. f_equal; [ring|f_equal; [ring|f_equal; ring]].
  - intros i j Hi Hj. three i Hi; three j Hj; reflexivity.
  - intros i Hi. cbn [fsum]. rewrite !EI by lia. three i Hi; cbn; ring.
  - unfold fo_q. repeat split; cbn; try lra; try lia. right. repeat split; try lra; lia.
  - cbn. lia.
  - intros q Hq. cbn in Hq. destruct Hq as [<-|[<-|[<-|[]]]]; reflexivity.
  - now apply eye_posdef.
  - change (ndists h_m) with 3%nat in *. change (fb_type aF) with "cholesky"%string in *. change (3 - 1)%nat with 2%nat in *.
    set (v := fsum 3 (fun i => fsum 3 (fun j => cf_m i * 1 * Ro i j * (cf_m j * 1)))) in *.
    assert (EV : v = 1) by (unfold v; cbn [fsum cf_m]; rewrite !EI by lia; cbn; ring).
    assert (SV : sqrt v = 1) by (rewrite EV; apply sqrt_1).
    assert (BE : (3 + fsum 3 (fun i => cf_m i * 0)) / sqrt v = 3) by (rewrite SV; cbn [fsum cf_m]; field).
    rewrite BE, SV in HR. rewrite BE in EB. rewrite SV in EA.
    assert (AI : meq 3 A meye).
    { unfold transf_compute in ET. cbn [String.eqb Ascii.eqb Bool.eqb] in ET. unfold computeCholesky, rbind in ET.
      destruct (chol 3%nat (mat_of (rows_of 3 Ro))) as [LL|] eqn:EL; [|discriminate]. destruct (inv 3%nat LL); [|discriminate]. injection ET as _ <-.
      apply (Hch _ _) in EL; [exact EL|]. intros i j Hi Hj. rewrite mat_rows by assumption. rewrite EI by assumption. reflexivity. }
    assert (AIJ : forall i j, (i < 3)%nat -> (j < 3)%nat -> A i j = delta i j) by exact AI.
    assert (AL0 : alpha 0%nat = 0) by (rewrite (EA 0%nat ltac:(lia)); cbn; rewrite !AIJ by lia; cbn; field).
    assert (AL1 : alpha 1%nat = 0) by (rewrite (EA 1%nat ltac:(lia)); cbn; rewrite !AIJ by lia; cbn; field).
    assert (AL2 : alpha 2%nat = 1) by (rewrite (EA 2%nat ltac:(lia)); cbn; rewrite !AIJ by lia; cbn; field).
    assert (NA : norm 3 alpha = 1). { unfold norm, dot. cbn [fsum]. rewrite AL0, AL1, AL2. replace (0 + 0 * 0 + 0 * 0 + 1 * 1) with 1 by ring. apply sqrt_1. }
    set (H := u_hessian 3 A (fun _ => 1) Q_m) in *.
    assert (HIJ : forall i j, (i < 3)%nat -> (j < 3)%nat -> H i j = Q_m i j).
    { intros i j Hi Hj. unfold H, u_hessian. cbn [fsum]. rewrite !AIJ by lia. three i Hi; three j Hj; cbn; ring. }
    exists b, s1. split; [exact EN|]. intros print run. destruct (HR ltac:(rewrite AL2, Rabs_R1; lra) sorm_init print) as (H1 & H2).
    destruct (H2 ltac:(lra) ltac:(lra)) as (rows & stp & sp & RP & OM & OR & EK & _ & _ & BP & BPM).
    destruct (H1 ltac:(lra)) as (kc & stc & sc & out & RC & (LC & W & PC) & AS & EC & _ & BC & _). clear H1 H2.
    destruct (rows_m alpha rows OM NA AL0 AL1 AL2) as (R01 & R10).
    assert (FT : forall i, (i < 2)%nat -> fitted 3 H 1 (Rmax 1 (Rmin (Rabs 3) 3) * Rmax 1 (Rmin (Rabs 3) 3)) (rows i) = 0).
    { intros i Hi. unfold fitted, normal_curv. assert (DZ : dot 3 (rows i) (mvec 3 H (rows i)) = 0).
      { unfold dot, mvec. cbn [fsum]. rewrite !HIJ by lia. cbn [Q_m]. destruct i as [|[|i]]; [rewrite R01; ring|rewrite R10; ring|exfalso; lia]. }
      rewrite DZ, Rmult_0_r, Rabs_R0. replace (Rltb 0 (1 / 1000000)) with true by (symmetry; apply Rltb_spec; lra). reflexivity. }
    cbn [seq map] in EK, BP, BPM. rewrite !FT in EK, BP, BPM by lia.
    destruct (BP ltac:(intros k [<-|[<-|[]]]; lra)) as (BP1 & _). destruct (BPM ltac:(intros k [<-|[<-|[]]]; lra)) as (BPM1 & _).
    assert (KC : kc = [- (1 / 5); 1 / 5]).
    { destruct kc as [|k0 [|k1 [|k2 kc]]]; try discriminate. pose proof (AS 0%nat 1%nat ltac:(lia) ltac:(cbn; lia)) as AS1. cbn [nth] in AS1.
      destruct (PC 0%nat 0%nat ltac:(lia) ltac:(lia)) as (P00 & P0 & V0). destruct (PC 1%nat 1%nat ltac:(lia) ltac:(lia)) as (P11 & P1 & V1). destruct (PC 0%nat 1%nat ltac:(lia) ltac:(lia)) as (P01 & _).
      pose proof (V0 0%nat ltac:(lia)) as V00. pose proof (V0 1%nat ltac:(lia)) as V01. pose proof (V1 0%nat ltac:(lia)) as V10. pose proof (V1 1%nat ltac:(lia)) as V11.
      unfold mvec, dot, delta in *. cbn [fsum Nat.eqb] in *. rewrite !HIJ in V00, V01, V10, V11 by lia. cbn [Q_m nth] in V00, V01, V10, V11. rewrite AL0, AL1, AL2 in P0, P1.
      set (a := W 0%nat 0%nat) in *. set (b0 := W 0%nat 1%nat) in *. set (c := W 1%nat 0%nat) in *. set (d := W 1%nat 1%nat) in *.
      assert (Z0 : W 0%nat 2%nat = 0) by lra. assert (Z1 : W 1%nat 2%nat = 0) by lra. rewrite Z0, Z1 in *.
      assert (Q1 : b0 = 5 * k0 * a) by lra. assert (Q2 : a = 5 * k0 * b0) by lra. assert (Q3 : d = 5 * k1 * c) by lra. assert (Q4 : c = 5 * k1 * d) by lra.
      assert (N0 : a * a + b0 * b0 = 1) by lra. assert (N1 : c * c + d * d = 1) by lra. assert (NN : a * c + b0 * d = 0) by lra.
      clear - Q1 Q2 Q3 Q4 N0 N1 NN AS1.
      assert (SQ : forall k x y, y = 5 * k * x -> x = 5 * k * y -> x * x + y * y = 1 -> k = 1 / 5 \/ k = - (1 / 5)).
      { intros k x y E1 E2 N. assert (X0 : x <> 0) by (intros ->; rewrite Rmult_0_r in E1; subst y; lra).
        assert (P : (25 * k * k - 1) * x = 0) by (rewrite E1 in E2; lra). apply Rmult_integral in P as [P|P]; [|contradiction].
        assert (P2 : (k - 1 / 5) * (k + 1 / 5) = 0) by lra. apply Rmult_integral in P2 as [P2|P2]; [left|right]; lra. }
      pose proof (SQ k0 a b0 Q1 Q2 N0) as [->| ->]; pose proof (SQ k1 c d Q3 Q4 N1) as [->| ->]; [exfalso|exfalso; lra|reflexivity|exfalso].
      - replace b0 with a in * by lra. replace d with c in * by lra. assert (2 * (a * c) = 0) by lra. assert (X : (a * a) * (c * c) = (a * c) * (a * c)) by ring. replace (a * c) with 0 in X by lra. replace (a * a) with (1 / 2) in X by lra. replace (c * c) with (1 / 2) in X by lra. lra.
      - replace b0 with (- a) in * by lra. replace d with (- c) in * by lra. assert (2 * (a * c) = 0) by lra. assert (X : (a * a) * (c * c) = (a * c) * (a * c)) by ring. replace (a * c) with 0 in X by lra. replace (a * a) with (1 / 2) in X by lra. replace (c * c) with (1 / 2) in X by lra. lra. }
    subst kc. destruct (BC ltac:(intros k [<-|[<-|[]]]; lra)) as ((BC1 & _) & ->).
    exists stp, sp, stc, sc. split; [exact RP|]. split; [exact RC|]. split; [exact EK|].
    assert (ONE : forall c, Phi (- (3)) * lprod (map (fun k => / sqrt (1 + c * k)) [0; 0]) = Phi (- (3))).
    { intros c. cbn [map lprod]. rewrite Rmult_0_r, Rplus_0_r, sqrt_1. field. }
    split; [rewrite BP1, ONE; reflexivity|]. split; [rewrite BPM1, ONE; reflexivity|]. split; [exact EC|].
    rewrite BC1. do 2 f_equal. cbn [map lprod].
    assert (X : / sqrt (1 + 3 * - (1 / 5)) * (/ sqrt (1 + 3 * (1 / 5)) * 1) = 5 / 4); [|rewrite X; ring].
    rewrite Rmult_1_r, <- Rinv_mult, <- sqrt_mult_alt by lra. replace ((1 + 3 * - (1 / 5)) * (1 + 3 * (1 / 5))) with ((4 / 5) * (4 / 5)) by field. rewrite sqrt_square by lra. field.
Qed.
Print Assumptions C128_mixed_curvature_refuted.

(** routines meeting the hypotheses exist *)
From Verif Require LapackProps.
From Verif Require Ss.
Example C128_hypotheses_met : exists chol svd inv eig, lapack 3 chol svd inv ERuntime /\ eig_contract 2 eig /\ sort_contract Ss.sort /\
  (forall C L, meq 3 C meye -> chol 3%nat C = Ok L -> meq 3 L meye).
Proof.
  destruct (LapackProps.numpy_contracts_satisfiable ERuntime) as (chol & svd & inv & eig & H). exists chol, svd, inv, eig.
  destruct (H 3%nat) as (H1 & _ & _ & H4). destruct (H 2%nat) as (_ & H2 & _). split; [exact H1|]. split; [exact H2|]. split; [exact sort_ok|exact H4].
Qed.
