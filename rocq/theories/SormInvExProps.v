(** C129, an instance: point fitting depends on the decomposition chosen for the transformation. *)
From Coquelicot Require Import Coquelicot.
From Verif Require Import Base Ext Dict Gauss GaussProofs StochModel StochModelSpec StochModelProofs LimitState LimitStateSpec LimitStateProofs LimitStateProps Transf TransfSpec TransfProofs Form FormProofs FormAffineProofs FormNormalProofs FormProps Nataf NatafProofs Dist RotSpec RotProofs RotProps ScaleFormProofs Pipe PipeSpec PipeProofs PipeProps GramSchmidt GramSchmidtProofs Sorm SormProofs Valid SormRun SormRunSpec SormRunProofs SormRunProps SormQuadSpec SormQuadProofs SormQuadProps FitCmpProofs FitCmpProps FitCmpExProps LapackProofs.
From Coq Require Import ZArith Lra Lia Permutation.
From Verif Require LapackProps.
From Coq Require Import ClassicalEpsilon.
Open Scope R_scope.

(** the rotation by 45 degrees of the first two axes: with it, U diag(1, 1, 1) U^T is a singular value
    decomposition of the identity *)
Definition U45 : mat := fun i j => match i, j with
  | O, O => sqrt (1 / 2) | O, S O => - sqrt (1 / 2) | S O, O => sqrt (1 / 2) | S O, S O => sqrt (1 / 2) | 2%nat, 2%nat => 1 | _, _ => 0 end.

(** The limit state of C128. For routines meeting their contracts, where the Cholesky routine maps the identity to
    itself and the SVD of the identity is taken with these singular vectors: with transform = "cholesky" point
    fitting reports Phi(-3), with transform = "svd" 5/4 Phi(-3). *)
Theorem C129_point_fit_depends_refuted : forall fmin chol svd inv eig sort e0,
  lapack 3 chol svd inv e0 -> eig_contract 2 eig -> sort_contract sort ->
  (forall C L, meq 3 C meye -> chol 3%nat C = Ok L -> meq 3 L meye) ->
  (forall C, meq 3 C meye -> exists U D, svd 3%nat C = Ok (U, D) /\ meq 3 U U45 /\ veq 3 D (fun _ => 1)) ->
  (exists b s1, sorm_new fmin chol svd inv 101 10 expr_m fo_q None (Some "cholesky"%string) None (sm_run h_m) = (Ok ("cholesky"%string, b), s1) /\
    forall print, exists st s', sorm_run_on fmin chol svd inv eig sort 10 expr_m fo_q None "pf" print "cholesky"%string b sorm_init s1 = (st, s', Ok tt) /\
      so_kpf st = Some ([0; 0], [0; 0]) /\ so_pf st = SArr (Fin (Phi (- (3))))) /\
  (exists b s1, sorm_new fmin chol svd inv 101 10 expr_m fo_q None (Some "svd"%string) None (sm_run h_m) = (Ok ("svd"%string, b), s1) /\
    forall print, exists st s', sorm_run_on fmin chol svd inv eig sort 10 expr_m fo_q None "pf" print "svd"%string b sorm_init s1 = (st, s', Ok tt) /\
      so_kpf st = Some ([1 / 5; - (1 / 5)], [1 / 5; - (1 / 5)]) /\ so_pf st = SArr (Fin (5 / 4 * Phi (- (3))))).
Proof.
  intros fmin chol svd inv eig sort e0 Hlap Heig Hsort Hch Hsv. split.
  {
  destruct (modified_ok fmin 3 (mat_of (eye_rows 3)) (fun i => marg_of (marg_at (sm_run h_m) i)) 3 (le_n 3)) as (Ro & E & D & SY & L & _).
  match type of E with _ = Ok (_, ?x) => set (lg := x) in * end.
  assert (LOW : forall i j, (j < i)%nat -> (i < 3)%nat -> Ro i j = 0).
  { intros i j Hj Hi. rewrite L by lia. unfold pair_value, mat_of. three i Hi; three j Hj; try (exfalso; lia); cbn [nth]; cbn; now rewrite (proj2 (Reqb_spec 0 0) eq_refl). }
  assert (EI : forall i j, (i < 3)%nat -> (j < 3)%nat -> Ro i j = delta i j).
  { intros i j Hi Hj. destruct (Nat.lt_trichotomy i j) as [X|[->|X]]; [rewrite SY, LOW by lia; rewrite delta_neq by lia; reflexivity|rewrite D, delta_refl; reflexivity|rewrite LOW, delta_neq by lia; reflexivity]. }
  destruct (C99_paraboloid fmin chol svd inv eig sort e0 h_m expr_m g_m gr_m 10 nm_m (fun _ => 0) (fun _ => 1) cf_m 3 Q_m
     (eye_rows 3) Ro lg aF (Some "cholesky"%string) fo_q None 101) as (b & r & T & A & alpha & s1 & EN & _ & _ & ET & HT & HF & FA & EA & EB & HR);
    change (ndists h_m) with 3%nat; try exact Hlap; try exact Heig; try exact Hsort; try reflexivity; try exact with_gradient_m; try lia; try exact E.
  - intros i Hi. three i Hi; reflexivity.
  - intros i Hi. lra.
  - exists 2%nat. split; [lia|]. cbn. lra.
  - intros q Hq. unfold args_at. change (dists_of (accepted h_m)) with [Normal "R" 0 1; Normal "S" 0 1; Normal "T" 0 1]. change (consts_of (accepted h_m)) with (@nil (string * R)).
    destruct q as [|x [|y [|z [|w q]]]]; try discriminate. unfold g_m, gr_m, quad_value, quad_gradient, lk. cbn. split; [field|]. f_equal; [ring|f_equal; [ring|f_equal; ring]].
  - intros i j Hi Hj. three i Hi; three j Hj; reflexivity.
  - intros i Hi. cbn [fsum]. rewrite !EI by lia. three i Hi; cbn; ring.
  - unfold fo_q. repeat split; cbn; try lra; try lia. right. repeat split; try lra; lia.
  - cbn. lia.
  - intros q Hq. cbn in Hq. destruct Hq as [<-|[<-|[<-|[]]]]; reflexivity.
  - now apply eye_posdef.
  - change (ndists h_m) with 3%nat in *. change (fb_type aF) with "cholesky"%string in *. change (3 - 1)%nat with 2%nat in *.
    set (v := fsum 3 (fun i => fsum 3 (fun j => cf_m i * 1 * Ro i j * (cf_m j * 1)))) in *.
    assert (EV : v = 1) by (unfold v; cbn [fsum cf_m]; rewrite !EI by lia; cbn; ring).
    assert (SV : sqrt v = 1) by (rewrite EV; apply sqrt_1).
    assert (BE : (3 + fsum 3 (fun i => cf_m i * 0)) / sqrt v = 3) by (rewrite SV; cbn [fsum cf_m]; field).
    rewrite BE, SV in HR. rewrite BE in EB. rewrite SV in EA.
    assert (AI : meq 3 A meye).
    { unfold transf_compute in ET. cbn [String.eqb Ascii.eqb Bool.eqb] in ET. unfold computeCholesky, rbind in ET.
      destruct (chol 3%nat (mat_of (rows_of 3 Ro))) as [LL|] eqn:EL; [|discriminate]. destruct (inv 3%nat LL); [|discriminate]. injection ET as _ <-.
      apply (Hch _ _) in EL; [exact EL|]. intros i j Hi Hj. rewrite mat_rows by assumption. rewrite EI by assumption. reflexivity. }
    assert (AIJ : forall i j, (i < 3)%nat -> (j < 3)%nat -> A i j = delta i j) by exact AI.
    assert (AL0 : alpha 0%nat = 0) by (rewrite (EA 0%nat ltac:(lia)); cbn; rewrite !AIJ by lia; cbn; field).
    assert (AL1 : alpha 1%nat = 0) by (rewrite (EA 1%nat ltac:(lia)); cbn; rewrite !AIJ by lia; cbn; field).
    assert (AL2 : alpha 2%nat = 1) by (rewrite (EA 2%nat ltac:(lia)); cbn; rewrite !AIJ by lia; cbn; field).
    assert (NA : norm 3 alpha = 1). { unfold norm, dot. cbn [fsum]. rewrite AL0, AL1, AL2. replace (0 + 0 * 0 + 0 * 0 + 1 * 1) with 1 by ring. apply sqrt_1. }
    set (H := u_hessian 3 A (fun _ => 1) Q_m) in *.
    assert (HIJ : forall i j, (i < 3)%nat -> (j < 3)%nat -> H i j = Q_m i j).
    { intros i j Hi Hj. unfold H, u_hessian. cbn [fsum]. rewrite !AIJ by lia. three i Hi; three j Hj; cbn; ring. }
    exists b, s1. split; [exact EN|]. intros print. destruct (HR ltac:(rewrite AL2, Rabs_R1; lra) sorm_init print) as (H1 & H2).
    destruct (H2 ltac:(lra) ltac:(lra)) as (rows & stp & sp & RP & OM & OR & EK & _ & _ & BP & BPM).
    destruct (rows_m alpha rows OM NA AL0 AL1 AL2) as (R01 & R10).
    assert (FT : forall i, (i < 2)%nat -> fitted 3 H 1 (Rmax 1 (Rmin (Rabs 3) 3) * Rmax 1 (Rmin (Rabs 3) 3)) (rows i) = 0).
    { intros i Hi. unfold fitted, normal_curv. assert (DZ : dot 3 (rows i) (mvec 3 H (rows i)) = 0).
      { unfold dot, mvec. cbn [fsum]. rewrite !HIJ by lia. cbn [Q_m]. destruct i as [|[|i]]; [rewrite R01; ring|rewrite R10; ring|exfalso; lia]. }
      rewrite DZ, Rmult_0_r, Rabs_R0. replace (Rltb 0 (1 / 1000000)) with true by (symmetry; apply Rltb_spec; lra). reflexivity. }
    cbn [seq map] in EK, BP, BPM. rewrite !FT in EK, BP, BPM by lia.
    destruct (BP ltac:(intros k [<-|[<-|[]]]; lra)) as (BP1 & _).
    exists stp, sp. split; [exact RP|]. split; [exact EK|].
    rewrite BP1. do 2 f_equal. cbn [map lprod]. rewrite Rmult_0_r, Rplus_0_r, sqrt_1. field.
  }
  {
  destruct (modified_ok fmin 3 (mat_of (eye_rows 3)) (fun i => marg_of (marg_at (sm_run h_m) i)) 3 (le_n 3)) as (Ro & E & D & SY & L & _).
  match type of E with _ = Ok (_, ?x) => set (lg := x) in * end.
  assert (LOW : forall i j, (j < i)%nat -> (i < 3)%nat -> Ro i j = 0).
  { intros i j Hj Hi. rewrite L by lia. unfold pair_value, mat_of. three i Hi; three j Hj; try (exfalso; lia); cbn [nth]; cbn; now rewrite (proj2 (Reqb_spec 0 0) eq_refl). }
  assert (EI : forall i j, (i < 3)%nat -> (j < 3)%nat -> Ro i j = delta i j).
  { intros i j Hi Hj. destruct (Nat.lt_trichotomy i j) as [X|[->|X]]; [rewrite SY, LOW by lia; rewrite delta_neq by lia; reflexivity|rewrite D, delta_refl; reflexivity|rewrite LOW, delta_neq by lia; reflexivity]. }
  destruct (C99_paraboloid fmin chol svd inv eig sort e0 h_m expr_m g_m gr_m 10 nm_m (fun _ => 0) (fun _ => 1) cf_m 3 Q_m
     (eye_rows 3) Ro lg (mkFobj false "svd" None None) (Some "svd"%string) fo_q None 101) as (b & r & T & A & alpha & s1 & EN & _ & _ & ET & HT & HF & FA & EA & EB & HR);
    change (ndists h_m) with 3%nat; try exact Hlap; try exact Heig; try exact Hsort; try reflexivity; try exact with_gradient_m; try lia; try exact E.
  - intros i Hi. three i Hi; reflexivity.
  - intros i Hi. lra.
  - exists 2%nat. split; [lia|]. cbn. lra.
  - intros q Hq. unfold args_at. change (dists_of (accepted h_m)) with [Normal "R" 0 1; Normal "S" 0 1; Normal "T" 0 1]. change (consts_of (accepted h_m)) with (@nil (string * R)).
    destruct q as [|x [|y [|z [|w q]]]]; try discriminate. unfold g_m, gr_m, quad_value, quad_gradient, lk. cbn. split; [field|]. f_equal; [ring|f_equal; [ring|f_equal; ring]].
  - intros i j Hi Hj. three i Hi; three j Hj; reflexivity.
  - intros i Hi. cbn [fsum]. rewrite !EI by lia. three i Hi; cbn; ring.
  - unfold fo_q. repeat split; cbn; try lra; try lia. right. repeat split; try lra; lia.
  - cbn. lia.
  - intros q Hq. cbn in Hq. destruct Hq as [<-|[<-|[<-|[]]]]; reflexivity.
  - now apply eye_posdef.
  - change (ndists h_m) with 3%nat in *. change (fb_type (mkFobj false "svd" None None)) with "svd"%string in *. change (3 - 1)%nat with 2%nat in *.
    set (v := fsum 3 (fun i => fsum 3 (fun j => cf_m i * 1 * Ro i j * (cf_m j * 1)))) in *.
    assert (EV : v = 1) by (unfold v; cbn [fsum cf_m]; rewrite !EI by lia; cbn; ring).
    assert (SV : sqrt v = 1) by (rewrite EV; apply sqrt_1).
    assert (BE : (3 + fsum 3 (fun i => cf_m i * 0)) / sqrt v = 3) by (rewrite SV; cbn [fsum cf_m]; field).
    rewrite BE, SV in HR. rewrite BE in EB. rewrite SV in EA.
    assert (C2 : sqrt (1 / 2) * sqrt (1 / 2) = 1 / 2) by (apply sqrt_sqrt; lra).
    assert (AIJ : forall i j, (i < 3)%nat -> (j < 3)%nat -> A i j = U45 i j).
    { intros i j Hi Hj. unfold transf_compute in ET. cbn [String.eqb Ascii.eqb Bool.eqb] in ET. unfold computeSVD, rbind in ET.
      destruct (Hsv (mat_of (rows_of 3 Ro))) as (U & D0 & ES & EU & ED); [intros a c Ha Hc; rewrite mat_rows by assumption; rewrite EI by assumption; reflexivity|].
      rewrite ES in ET. cbn [fst snd] in ET. destruct (inv 3%nat _) in ET; [|discriminate]. injection ET as _ <-.
      unfold mmul, meye. rewrite (fsum_ext 3 _ (fun k => U45 i k * delta k j)); [apply fsum_delta_r, Hj|]. intros k Hk. rewrite (EU i k Hi Hk), (ED j Hj), sqrt_1. ring. }
    assert (AL0 : alpha 0%nat = 0) by (rewrite (EA 0%nat ltac:(lia)); cbn [fsum cf_m]; rewrite !AIJ by lia; cbn [U45]; field).
    assert (AL1 : alpha 1%nat = 0) by (rewrite (EA 1%nat ltac:(lia)); cbn [fsum cf_m]; rewrite !AIJ by lia; cbn [U45]; field).
    assert (AL2 : alpha 2%nat = 1) by (rewrite (EA 2%nat ltac:(lia)); cbn [fsum cf_m]; rewrite !AIJ by lia; cbn [U45]; field).
    assert (NA : norm 3 alpha = 1). { unfold norm, dot. cbn [fsum]. rewrite AL0, AL1, AL2. replace (0 + 0 * 0 + 0 * 0 + 1 * 1) with 1 by ring. apply sqrt_1. }
    set (H := u_hessian 3 A (fun _ => 1) Q_m) in *.
    assert (HIJ : forall i j, (i < 3)%nat -> (j < 3)%nat -> H i j = match i, j with O, O => 1 / 5 | S O, S O => - (1 / 5) | _, _ => 0 end).
    { intros i j Hi Hj. unfold H, u_hessian. cbn [fsum]. rewrite !AIJ by lia. three i Hi; three j Hj; cbn [U45 Q_m]; generalize dependent (sqrt (1 / 2)); intros; nra. }
    exists b, s1. split; [exact EN|]. intros print. destruct (HR ltac:(rewrite AL2, Rabs_R1; lra) sorm_init print) as (H1 & H2).
    destruct (H2 ltac:(lra) ltac:(lra)) as (rows & stp & sp & RP & OM & OR & EK & _ & _ & BP & BPM).
    destruct (rows_m alpha rows OM NA AL0 AL1 AL2) as (R01 & R10).
    assert (FT : forall i, (i < 2)%nat -> fitted 3 H 1 (Rmax 1 (Rmin (Rabs 3) 3) * Rmax 1 (Rmin (Rabs 3) 3)) (rows i) = match i with O => 1 / 5 | _ => - (1 / 5) end).
    { intros i Hi. assert (DZ : dot 3 (rows i) (mvec 3 H (rows i)) = match i with O => 1 / 5 | _ => - (1 / 5) end).
      { destruct (OR i i Hi Hi) as (O1 & O2). rewrite delta_refl in O1. unfold dot in O1, O2. cbn [fsum] in O1, O2. rewrite AL0, AL1, AL2 in O2. assert (Z2 : rows i 2%nat = 0) by lra. rewrite Z2 in O1.
        unfold dot, mvec. cbn [fsum]. rewrite !HIJ by lia. rewrite Z2. destruct i as [|[|i]]; [rewrite R01 in O1 |- *|rewrite R10 in O1 |- *|exfalso; lia]; lra. }
      unfold fitted, normal_curv. rewrite DZ. rewrite (Rabs_right 3) by lra. rewrite Rmin_left, Rmax_right by lra.
      replace (Rltb _ (1 / 1000000)) with false; [destruct i; field|]. symmetry. apply Rltb_false. destruct i; [rewrite Rabs_right by lra|rewrite Rabs_left by lra]; lra. }
    cbn [seq map] in EK, BP. rewrite !FT in EK, BP by lia.
    destruct (BP ltac:(intros k [<-|[<-|[]]]; lra)) as (BP1 & _).
    exists stp, sp. split; [exact RP|]. split; [exact EK|].
    rewrite BP1. do 2 f_equal. cbn [map lprod].
    assert (X : / sqrt (1 + 3 * (1 / 5)) * (/ sqrt (1 + 3 * - (1 / 5)) * 1) = 5 / 4); [|rewrite X; ring].
    rewrite Rmult_1_r, <- Rinv_mult, <- sqrt_mult_alt by lra. replace ((1 + 3 * (1 / 5)) * (1 + 3 * - (1 / 5))) with ((4 / 5) * (4 / 5)) by field. rewrite sqrt_square by lra. field.
  }
Qed.
Print Assumptions C129_point_fit_depends_refuted.

(** routines meeting the hypotheses exist *)
Lemma U45_orth : meq 3 (mmul 3 U45 (mtrans U45)) meye /\ meq 3 (mmul 3 (mtrans U45) U45) meye.
Proof.
  assert (C2 : sqrt (1 / 2) * sqrt (1 / 2) = 1 / 2) by (apply sqrt_sqrt; lra).
  split; intros i j Hi Hj; unfold mmul, mtrans, meye, delta; cbn [fsum]; three i Hi; three j Hj; cbn [U45 Nat.eqb]; generalize dependent (sqrt (1 / 2)); intros; nra.
Qed.
Example C129_hypotheses_met : exists chol svd inv eig, lapack 3 chol svd inv ERuntime /\ eig_contract 2 eig /\ sort_contract Ss.sort /\
  (forall C L, meq 3 C meye -> chol 3%nat C = Ok L -> meq 3 L meye) /\
  (forall C, meq 3 C meye -> exists U D, svd 3%nat C = Ok (U, D) /\ meq 3 U U45 /\ veq 3 D (fun _ => 1)).
Proof.
  destruct (LapackProps.numpy_contracts_satisfiable ERuntime) as (chol & svd & inv & eig & H).
  destruct (H 3%nat) as ((L1 & L2 & L3 & L4) & _ & _ & H4). destruct (H 2%nat) as (_ & H2 & _). clear H.
  set (svd' := fun n C => if excluded_middle_informative (n = 3%nat /\ meq 3 C meye) then Ok (U45, fun _ : nat => 1) else svd n C).
  destruct U45_orth as (O1 & O2). assert (IU : inverse_pair 3 U45 (mtrans U45)) by (split; assumption).
  exists chol, svd', inv, eig. split; [|split; [exact H2|split; [exact sort_ok|split; [exact H4|]]]].
  - split; [exact L1|]. split; [|split; [exact L3|]].
    + intros C U D E. unfold svd' in E. destruct (excluded_middle_informative _) as [(_ & HC)|N]; [|exact (L2 C U D E)]. injection E as <- <-. exists U45.
      split; [exact IU|]. split; [exact IU|]. split; [intros; lra|]. intros i j Hi Hj. rewrite (HC i j Hi Hj), <- (O1 i j Hi Hj). apply fsum_ext. intros k _. unfold mtrans. ring.
    + intros C HS HD. destruct (L4 C HS HD) as (A1 & A2). split; [exact A1|]. unfold svd'. destruct (excluded_middle_informative _) as [(_ & HC)|N]; [|exact A2].
      destruct (scaled_inverse 3 U45 (fun _ => 1) O2 O1 ltac:(intros; lra)) as (T & HT). destruct L3 as (_ & IV & _). destruct (IV _ T HT) as (X & EX). exists U45, (fun _ => 1), X. split; [reflexivity|exact EX].
  - intros C HC. exists U45, (fun _ => 1). unfold svd'. destruct (excluded_middle_informative _) as [_|N]; [|exfalso; apply N; split; [reflexivity|exact HC]]. split; [reflexivity|]. split; [apply meq_refl|intros i Hi; reflexivity].
Qed.
