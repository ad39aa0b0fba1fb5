(** C130: two variables, and a limit state function with no real computed curvatures. *)
From Coquelicot Require Import Coquelicot.
From Verif Require Import Base Ext Dict Gauss GaussProofs StochModel StochModelSpec StochModelProofs LimitState LimitStateSpec LimitStateProofs LimitStateProps Transf TransfSpec TransfProofs Form FormProofs FormAffineProofs FormNormalProofs FormProps Nataf NatafProofs Dist RotSpec RotProofs RotProps ScaleFormProofs Pipe PipeSpec PipeProofs PipeProps GramSchmidt GramSchmidtProofs Sorm SormProofs Valid SormRun SormRunSpec SormRunProofs SormRunProps SormQuadSpec SormQuadProofs SormQuadProps FitCmpProofs FitCmpProps FitCmpExProps HessSpec HessProofs HessProps.
From Coq Require Import ZArith Lra Lia Permutation.
Open Scope R_scope.

(** With two variables curve fitting reports one curvature, within M/(ffdpara |grad G|) of the curvature
    of the limit state surface at the design point, D being the matrix of the second derivatives there. *)
Theorem C130_two_variables_error :
  forall fmin chol svd inv eig sort e0 h expr f gr lf nm (mu sd cf : vec) mean M Ro log a opt fo evn fuel,
  let n := 2%nat in let s := sm_run h in ndists h = n ->
  lapack n chol svd inv e0 -> eig_contract 1 eig -> sort_contract sort -> form_init opt = Ok a ->
  (forall i, (i < n)%nat -> nth_error (dists_of (accepted h)) i = Some (Normal (nm i) (mu i) (sd i))) ->
  (forall i, (i < n)%nat -> sd i <> 0) -> (exists i, (i < n)%nat /\ cf i <> 0) ->
  with_gradient expr f gr -> (forall q, length q = n -> length (gr (args_at h q)) = n) ->
  ddm_options fo -> 0 < o_ffdpara (fo_ls fo) -> (6 < lf)%nat -> (Z.to_nat (fo_imax fo) < fuel)%nat ->
  sm_corr s = Some M -> length M = n -> (forall r, In r M -> length r = n) ->
  computeModifiedCorrelationMatrix fmin n n (mat_of M) (fun i => marg_of (marg_at s i)) = Ok (Ro, log) -> pos_def n Ro ->
  let variance := fsum n (fun i => fsum n (fun j => (cf i * sd i) * Ro i j * (cf j * sd j))) in
  (forall q p, length q = n -> (forall i, (i < n)%nat -> nth i q 0 = mu i - p * (sd i * fsum n (fun j => Ro i j * (cf j * sd j)))) ->
     f (args_at h q) = mean - p * variance /\ forall i, (i < n)%nat -> nth i (gr (args_at h q)) 0 = cf i) ->
  exists b T A alpha u s1, sorm_new fmin chol svd inv fuel lf expr fo evn opt None s = (Ok (fb_type a, b), s1) /\
    transf_compute chol svd inv (fb_type a) n (mat_of (rows_of n Ro)) = Ok (T, A) /\ factor_of n A Ro /\
    veq n alpha (fun j => - fsum n (fun i => cf i * sd i * A i j) / sqrt variance) /\ dot 2 alpha alpha = 1 /\ veq n u (fun j => mean / sqrt variance * alpha j) /\
    (1 / 100000000 < Rabs (alpha 1%nat) -> forall st print, exists kappa st' s' out,
       sorm_run_on fmin chol svd inv eig sort lf expr fo evn "cf" print (fb_type a) b st s1 = (st', s', out) /\ so_kappa st' = Some [kappa] /\
       let g := u_gradient n h gr mu sd A in let d := 1 / o_ffdpara (fo_ls fo) in
       forall D F2 Mx, (forall c i, (c < n)%nat -> (i < n)%nat -> twice_differentiable (fun t => g (along u i t) c) (D c i) (F2 c i) d Mx) ->
       let exact := (D 0%nat 0%nat 0 * (alpha 1%nat * alpha 1%nat) - (D 0%nat 1%nat 0 + D 1%nat 0%nat 0) * (alpha 0%nat * alpha 1%nat) + D 1%nat 1%nat 0 * (alpha 0%nat * alpha 0%nat)) / sqrt variance in
       Rabs (kappa - exact) <= Mx * d / sqrt variance).
Proof.
  intros fmin chol svd inv eig sort e0 h expr f gr lf nm mu sd cf mean M Ro lg a opt fo evn fuel n s Hn Hlap Heig Hsort Ha HN Hsd Hcf Hg Hgl Hfo Hffp Hlf Hfu HM HM1 HM2 HRo HPD variance Hray.
  pose proof (C130_curve_fit_matrix fmin chol svd inv e0 h expr f gr lf nm mu sd cf mean M Ro lg a opt fo evn fuel) as K. cbv zeta in K. rewrite Hn in K.
  destruct (K Hlap Ha (le_n 2) HN Hsd Hcf Hg Hgl Hfo Hffp Hlf Hfu HM HM1 HM2 HRo HPD Hray) as (b & r & T & A & alpha & u & s1 & EN & _ & _ & ETC & _ & HF & FA & EA & EB & _ & EU & H & s2 & _ & _ & _ & ERR & _ & RUN). clear K.
  change (fsum n (fun i => fsum n (fun j => cf i * sd i * Ro i j * (cf j * sd j)))) with variance in EA, EB, EU, RUN. unfold n in EA, EB, EU, RUN, ERR.
  assert (VP : 0 < variance). { pose proof (ln_v_pos h sd cf Ro) as X. unfold ln_v in X. rewrite Hn in X. exact (X Hsd Hcf HPD). }
  assert (SV := sqrt_lt_R0 _ VP).
  exists b, T, A, alpha, u, s1. split; [exact EN|]. split; [exact ETC|]. split; [exact HF|]. split; [exact EA|].
  assert (Un : dot 2 alpha alpha = 1).
  { set (av := fun j => - fsum 2 (fun i => cf i * sd i * A i j)).
    assert (EV : dot 2 av av = variance).
    { unfold dot, variance. rewrite <- (quad_norm 2 A Ro _ HF). apply fsum_ext. intros k _. unfold av. ring. }
    unfold dot. rewrite (fsum_ext 2 _ (fun i => av i * av i * / variance)).
    - rewrite fsum_scal_r. change (fsum 2 (fun i => av i * av i)) with (dot 2 av av). rewrite EV. field. lra.
    - intros i Hi. rewrite (EA i Hi). fold (av i). rewrite <- (sqrt_sqrt variance) at 3 by lra. field. lra. }
  split; [exact Un|]. split; [exact EU|].
  intros HL st print.
  assert (NA : norm 2 alpha = 1) by (unfold norm; rewrite Un; apply sqrt_1).
  destruct (om_succeeds 2 alpha (le_n 2) NA HL) as (rows & OM).
  destruct (om_ok 2 alpha rows NA OM) as (_ & HO & _ & HLr & _).
  destruct (RUN rows OM) as (B & EBm & RUNB). clear RUN.
  destruct (Heig B) as (l & V & El & Ll & HVO & HV).
  { intros i j Hi Hj. replace i with 0%nat by lia. replace j with 0%nat by lia. reflexivity. }
  specialize (RUNB eig sort st print). cbv zeta in RUNB. change (2 - 1)%nat with 1%nat in RUNB. rewrite El in RUNB.
  destruct RUNB as (st' & s' & out & RU & EK & _). destruct l as [|k [|k2 l]]; try discriminate.
  assert (SK : sort [k] = [k]). { destruct (Hsort [k]) as (P & _). apply Permutation_sym, Permutation_length_1_inv in P. exact P. }
  rewrite SK in EK. exists k, st', s', out. split; [exact RU|]. split; [exact EK|]. cbv zeta. intros D F2 Mx TD.
  assert (KB : k = B 0%nat 0%nat).
  { pose proof (HVO 0%nat 0%nat ltac:(lia) ltac:(lia)) as V1. pose proof (HV 0%nat 0%nat ltac:(lia) ltac:(lia)) as V2. unfold dot, mvec, delta in *. cbn [fsum nth Nat.eqb] in *.
    assert (V0 : V 0%nat 0%nat <> 0) by (intros Z; rewrite Z in V1; lra). apply Rmult_eq_reg_r with (V 0%nat 0%nat); [lra|exact V0]. }
  rewrite KB, (EBm 0%nat 0%nat) by lia. clear KB EK RU El.
  pose proof (HO 0%nat 0%nat ltac:(lia) ltac:(lia)) as O00. pose proof (HO 0%nat 1%nat ltac:(lia) ltac:(lia)) as O01.
  pose proof (HLr 0%nat ltac:(lia)) as L0. pose proof (HLr 1%nat ltac:(lia)) as L1. cbn [Nat.sub] in L0, L1.
  pose proof (ERR 0%nat 0%nat _ _ Mx ltac:(lia) ltac:(lia) (TD 0%nat 0%nat ltac:(lia) ltac:(lia))) as E00. pose proof (ERR 0%nat 1%nat _ _ Mx ltac:(lia) ltac:(lia) (TD 0%nat 1%nat ltac:(lia) ltac:(lia))) as E01.
  pose proof (ERR 1%nat 0%nat _ _ Mx ltac:(lia) ltac:(lia) (TD 1%nat 0%nat ltac:(lia) ltac:(lia))) as E10. pose proof (ERR 1%nat 1%nat _ _ Mx ltac:(lia) ltac:(lia) (TD 1%nat 1%nat ltac:(lia) ltac:(lia))) as E11.
  unfold dot, delta in O00, O01, Un. cbn [fsum Nat.eqb] in O00, O01, Un. rewrite L0, L1 in O01.
  set (x := rows 0%nat 0%nat) in *. set (y := rows 0%nat 1%nat) in *. set (p := alpha 0%nat) in *. set (q := alpha 1%nat) in *.
  assert (X2 : x * x = q * q) by (clear - O00 O01 Un; assert (x * p = - (y * q)) by lra; assert (Z : (x * p) * (x * p) = (y * q) * (y * q)) by (rewrite H; ring); assert (p * p = 1 - q * q) by lra; assert (y * y = 1 - x * x) by lra; replace (x * p * (x * p)) with ((x * x) * (p * p)) in Z by ring; replace (y * q * (y * q)) with ((y * y) * (q * q)) in Z by ring; rewrite H0, H1 in Z; lra).
  assert (Y2 : y * y = p * p) by lra.
  assert (XY : x * y = - (p * q)).
  { clear - O00 O01 Un X2 Y2. assert (E1 : x * p + y * q = 0) by lra.
    destruct (Req_dec q 0) as [Q0|Q0].
    - rewrite Q0 in *. assert (X0 : x = 0) by (apply Rsqr_0_uniq; unfold Rsqr; lra). rewrite X0. ring.
    - apply Rmult_eq_reg_r with q; [|exact Q0]. replace (x * y * q) with (x * (y * q)) by ring. replace (y * q) with (- (x * p)) by lra.
      replace (x * - (x * p)) with (- ((x * x) * p)) by ring. rewrite X2. ring. }
  cbn [fsum]. change (rows 0%nat 0%nat) with x. change (rows 0%nat 1%nat) with y. change (alpha 0%nat) with p. change (alpha 1%nat) with q.
  set (e00 := H 0%nat 0%nat - D 0%nat 0%nat 0) in *. set (e01 := H 0%nat 1%nat - D 0%nat 1%nat 0) in *. set (e10 := H 1%nat 0%nat - D 1%nat 0%nat 0) in *. set (e11 := H 1%nat 1%nat - D 1%nat 1%nat 0) in *.
  set (m := Mx * (1 / o_ffdpara (fo_ls fo)) / 2) in *.
  match goal with |- Rabs ?t <= _ => replace t with ((q * q * e00 - p * q * (e01 + e10) + p * p * e11) / sqrt variance) end.
  2: { unfold e00, e01, e10, e11. rewrite <- X2, <- Y2. replace (p * q) with (- (x * y)) by lra. field. lra. }
  unfold Rdiv. rewrite Rabs_mult, (Rabs_right (/ sqrt variance)) by (apply Rle_ge, Rlt_le, Rinv_0_lt_compat; lra).
  apply Rmult_le_compat_r; [apply Rlt_le, Rinv_0_lt_compat; lra|].
  replace (Mx * (1 * / o_ffdpara (fo_ls fo))) with (2 * m) by (unfold m; field; lra).
  assert (M0 : 0 <= m) by (eapply Rle_trans; [apply Rabs_pos|exact E00]).
  assert (PQ : 2 * Rabs (p * q) <= 1).
  { clear - Un. destruct (Rle_or_lt 0 (p * q)); [rewrite Rabs_right by lra|rewrite Rabs_left by lra]; [pose proof (Rle_0_sqr (p - q)) as Z|pose proof (Rle_0_sqr (p + q)) as Z]; unfold Rsqr in Z; lra. }
  assert (T1 : Rabs (q * q * e00) <= q * q * m) by (rewrite Rabs_mult, (Rabs_right (q * q)) by (apply Rle_ge, Rle_0_sqr); apply Rmult_le_compat_l; [apply Rle_0_sqr|exact E00]).
  assert (T2 : Rabs (p * p * e11) <= p * p * m) by (rewrite Rabs_mult, (Rabs_right (p * p)) by (apply Rle_ge, Rle_0_sqr); apply Rmult_le_compat_l; [apply Rle_0_sqr|exact E11]).
  assert (T3 : Rabs (p * q * (e01 + e10)) <= m).
  { rewrite Rabs_mult. apply Rle_trans with (Rabs (p * q) * (2 * m)).
    - apply Rmult_le_compat_l; [apply Rabs_pos|]. eapply Rle_trans; [apply Rabs_triang|lra].
    - apply Rle_trans with (1 * m); [|lra]. replace (Rabs (p * q) * (2 * m)) with (2 * Rabs (p * q) * m) by ring. apply Rmult_le_compat_r; lra. }
  eapply Rle_trans; [apply Rabs_triang|]. eapply Rle_trans; [apply Rplus_le_compat_r, Rabs_triang|]. rewrite Rabs_Ropp.
  assert (q * q * m + p * p * m = m) by (rewrite <- Rmult_plus_distr_r; replace (q * q + p * p) with 1 by lra; ring). lra.
Qed.
Print Assumptions C130_two_variables_error.
