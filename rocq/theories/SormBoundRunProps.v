(** C115, end to end: SORM run on  g = b - S + k/2 R^2  with independent standard normal R, S. *)
From Coquelicot Require Import Coquelicot.
From Verif Require Import Base Ext Dict Gauss GaussProofs StochModel StochModelSpec StochModelProofs LimitState LimitStateSpec LimitStateProofs LimitStateProps Transf TransfSpec TransfProofs Form FormProofs FormAffineProofs FormNormalProofs FormProps Nataf NatafProofs Dist RotSpec RotProofs RotProps ScaleFormProofs Pipe PipeSpec PipeProofs PipeProps GramSchmidt GramSchmidtProofs Sorm SormProofs Valid SormRun SormRunSpec SormRunProofs SormRunProps SormQuadSpec SormQuadProofs SormQuadProps.
From Verif Require Import McSpec McBiasSpec McBiasProofs FormBoundSpec TailProofs SormBoundSpec SormBoundProps.
From Verif Require Ss SsProofs.
From Coq Require Import ZArith Lra Lia Permutation.
Open Scope R_scope.

Definition g_b (b k : R) (kw : list (string * R)) : R := b - lk kw "S" + k / 2 * (lk kw "R" * lk kw "R").
Definition gr_b (k : R) (kw : list (string * R)) : list R := [k * lk kw "R"; -1].
Definition expr_b (b k : R) : expression := fun kw =>
  let nc := match kw with [] => 0%nat | (_, v) :: _ => List.length v end in
  Ok (UTuple (Arr (map (fun c => g_b b k (map (fun kv => (fst kv, nth c (snd kv) 0)) kw)) (seq 0 nc))) (gr_b k (map (fun kv => (fst kv, nth 0 (snd kv) 0)) kw))).
Lemma with_gradient_b b k : with_gradient (expr_b b k) (g_b b k) (gr_b k).
Proof.
  split.
  - intros kw nc Hne Hl. eexists. split; [reflexivity|]. destruct kw as [|[n v] kw]; [contradiction|]. cbn [value_of].
    rewrite (Hl n v) by (left; reflexivity). reflexivity.
  - intros kw Hne Hl. eexists. reflexivity.
Qed.
Definition Q_b (k : R) : mat := fun i j => match i, j with O, O => k | _, _ => 0 end.

Lemma beyond_b b k p : failure_probability 2 (fun u => g_b b k [("R"%string, u 0%nat); ("S"%string, u 1%nat)]) p -> beyond b [k] [k] p.
Proof.
  intros H. unfold beyond, failure_probability in *. cbn [length]. refine (int_ext 2 _ _ _ _ H). intros u. cbn beta.
  replace (g_b b k [("R"%string, u 0%nat); ("S"%string, u 1%nat)]) with (paraboloid b [k] [k] u); [reflexivity|].
  unfold paraboloid, bent, g_b, lk. cbn. destruct (Rltb (u 0%nat) 0); field.
Qed.

Theorem C115_run : forall fmin b k print, 0 < b -> -1 / (phi b / Phi (- b)) < k ->
  exists bs s1 st s' q qm p,
  sorm_new fmin chol2 svd2 inv2 101 10 (expr_b b k) fo_q None None None (sm_run h_q) = (Ok ("cholesky"%string, bs), s1) /\
  sorm_run_on fmin chol2 svd2 inv2 eig1 Ss.sort 10 (expr_b b k) fo_q None "cf"%string print "cholesky"%string bs sorm_init s1 = (st, s', Ok tt) /\
  so_kappa st = Some [k] /\ so_pf st = SArr (Fin q) /\ so_pfm st = SArr (Fin qm) /\
  failure_probability 2 (fun u => g_b b k [("R"%string, u 0%nat); ("S"%string, u 1%nat)]) p /\
  qm * (1 - 3 / 8 * (k / (1 + phi b / Phi (- b) * k)) ^ 2) <= p <= qm /\ (0 <= k -> qm <= q).
Proof.
  intros fmin bb kk print Hb Hk. change (phi bb / Phi (- bb)) with (psi bb) in *.
  assert (KP : 0 < 1 + psi bb * kk) by (apply adm_iff; [apply psi_pos|exact Hk]).
  assert (KB : 0 < 1 + bb * kk). { pose proof (psi_gt bb). destruct (Rle_or_lt 0 kk); nra. }
  destruct (modified_ok fmin 2 (mat_of (eye_rows 2)) (fun i => marg_of (marg_at (sm_run h_q) i)) 2 (le_n 2)) as (Ro & E & D & S & L & _).
  match type of E with _ = Ok (_, ?x) => set (lg := x) in * end.
  assert (R10 : Ro 1%nat 0%nat = 0).
  { rewrite L by lia. unfold pair_value. unfold mat_of. cbn [nth]. cbn. now rewrite (proj2 (Reqb_spec 0 0) eq_refl). }
  assert (EI : forall i j, (i < 2)%nat -> (j < 2)%nat -> Ro i j = delta i j).
  { intros i j Hi Hj. two i Hi; two j Hj; cbn; rewrite ?D, ?R10; try reflexivity. rewrite (S 0%nat 1%nat), R10. reflexivity. }
  destruct (C99_paraboloid fmin chol2 svd2 inv2 eig1 Ss.sort ERuntime h_q (expr_b bb kk) (g_b bb kk) (gr_b kk) 10 (pick "R" "S")%string (fun _ => 0) (fun _ => 1) (pick 0 (-1)) bb (Q_b kk)
     (eye_rows 2) Ro lg aF None fo_q None 101) as (b & r & T & A & alpha & s1 & EN & _ & _ & ET & HT & HF & FA & EA & EB & HR);
    change (ndists h_q) with 2%nat; try exact lapack2; try exact eig1_contract; try reflexivity; try apply with_gradient_b; try lia; try exact E.
  - exact sort_ok.
  - intros i Hi. two i Hi; reflexivity.
  - intros i Hi. lra.
  - exists 1%nat. split; [lia|]. cbn. lra.
  - intros q Hq. unfold args_at. change (dists_of (accepted h_q)) with [Normal "R" 0 1; Normal "S" 0 1]. change (consts_of (accepted h_q)) with (@nil (string * R)).
    destruct q as [|x [|y [|z q]]]; try discriminate. unfold g_b, gr_b, quad_value, quad_gradient, lk. cbn. split; [field|]. f_equal; [ring|f_equal; ring].
  - intros i j Hi Hj. two i Hi; two j Hj; reflexivity.
  - intros i Hi. cbn [fsum]. rewrite !EI by lia. two i Hi; cbn; ring.
  - unfold fo_q. repeat split; cbn; try lra; try lia. right. repeat split; try lra; lia.
  - cbn. lia.
  - intros q Hq. cbn in Hq. destruct Hq as [<-|[<-|[]]]; reflexivity.
  - now apply eye_posdef.
  - change (ndists h_q) with 2%nat in *. change (fb_type aF) with "cholesky"%string in *. change (2 - 1)%nat with 1%nat in *.
    set (v := fsum 2 (fun i => fsum 2 (fun j => pick 0 (-1) i * 1 * Ro i j * (pick 0 (-1) j * 1)))) in *.
    assert (EV : v = 1) by (unfold v; cbn [fsum pick]; rewrite !D, (S 0%nat 1%nat), R10; ring).
    assert (SV : sqrt v = 1) by (rewrite EV; apply sqrt_1).
    assert (BE : (bb + fsum 2 (fun i => pick 0 (-1) i * 0)) / sqrt v = bb) by (rewrite SV; cbn [fsum pick]; field).
    rewrite BE, SV in HR. rewrite BE in EB. rewrite SV in EA.
    assert (LF : lower_factor 2 A (mat_of (rows_of 2 Ro))).
    { unfold transf_compute in ET. cbn [String.eqb Ascii.eqb Bool.eqb] in ET. unfold computeCholesky, rbind in ET.
      destruct (chol2 2 (mat_of (rows_of 2 Ro))) as [LL|] eqn:EL; [|discriminate]. destruct (inv2 2 LL); [|discriminate]. injection ET as _ <-. now apply chol2_factor. }
    destruct LF as (K1 & K2 & _).
    assert (F00 := HF 0%nat 0%nat ltac:(lia) ltac:(lia)). assert (F10 := HF 1%nat 0%nat ltac:(lia) ltac:(lia)). assert (F11 := HF 1%nat 1%nat ltac:(lia) ltac:(lia)).
    rewrite !EI in F00, F10, F11 by lia. cbn in F00, F10, F11. rewrite (K1 0%nat 1%nat) in F00, F10 by lia. pose proof (K1 0%nat 1%nat ltac:(lia)) as A01.
    pose proof (K2 0%nat ltac:(lia)) as KP0. pose proof (K2 1%nat ltac:(lia)) as KP1.
    assert (A00 : A 0%nat 0%nat = 1) by nra. rewrite A00 in F10. assert (A10 : A 1%nat 0%nat = 0) by lra. rewrite A10 in F11. assert (A11 : A 1%nat 1%nat = 1) by nra.
    assert (AL0 : alpha 0%nat = 0) by (rewrite (EA 0%nat ltac:(lia)); cbn; rewrite A00, A10; field).
    assert (AL1 : alpha 1%nat = 1) by (rewrite (EA 1%nat ltac:(lia)); cbn; rewrite A01, A11; field).
    set (H := u_hessian 2 A (fun _ => 1) (Q_b kk)) in *.
    assert (HH : forall v i, (i < 2)%nat -> mvec 2 H v i = if Nat.eqb i 0 then kk * v 0%nat else 0).
    { intros w i Hi. unfold mvec, H, u_hessian. cbn [fsum]. two i Hi; cbn; rewrite A00, A01, A10, A11; ring. }
    assert (PK : forall k w, dot 2 w w = 1 -> dot 2 alpha w = 0 -> veq 2 (mvec 2 H w) (fun c => k * 1 * w c) -> k = kk).
    { intros k w NW DW MW. unfold dot in DW. cbn [fsum] in DW. rewrite AL0, AL1 in DW. specialize (MW 0%nat ltac:(lia)). rewrite HH in MW by lia. cbn in MW.
      assert (w 0%nat <> 0). { intros Z. unfold dot in NW. cbn [fsum] in NW. rewrite Z in NW. assert (w 1%nat = 0) by lra. nra. }
      apply Rmult_eq_reg_r with (w 0%nat); [lra|assumption]. }
    destruct (HR ltac:(rewrite AL1, Rabs_R1; lra) sorm_init print) as (H1 & _).
    destruct (H1 Hb) as (kappa & st & s' & out & ER & (LK & W & PKs) & _ & EK & _ & BV & BM).
    destruct kappa as [|k [|k2 kappa]]; try discriminate. assert (k = kk) by (destruct (PKs 0%nat 0%nat ltac:(lia) ltac:(lia)) as (P1 & P2 & P3); rewrite delta_refl in P1; exact (PK k (W 0%nat) P1 P2 P3)). subst k.
    destruct (BV ltac:(intros k [<-|[]]; exact KB)) as ((BV1 & _) & ->). destruct (BM ltac:(intros k [<-|[]]; exact KP)) as (BM1 & _).
    destruct (C115_probability bb [kk] [kk] eq_refl) as (p & Hp & _).
    assert (HF1 : Forall (fun k => -1 / psi bb < k) [kk]) by (constructor; [exact Hk|constructor]).
    destruct (C115_curve_fit bb [kk] p HF1 Hp) as (qm & EQ & _ & LO & UP).
    assert (EQ2 : qm = Phi (- bb) * lprod (map (fun k => / sqrt (1 + psi bb * k)) [kk])) by (unfold pf_breitung_m in EQ; rewrite breit_ok in EQ by (try exact HF1; apply psi_pos); cbv zeta in EQ; cbn [sr_pf] in EQ; unfold bprod in EQ; congruence).
    exists b, s1, st, s', (Phi (- bb) * lprod (map (fun k => / sqrt (1 + bb * k)) [kk])), qm, p.
    split; [exact EN|]. split.
    { exact ER. }
    split; [exact EK|]. split; [exact BV1|]. split; [rewrite EQ2; exact BM1|].
    split. { unfold beyond, failure_probability in *. cbn [length] in Hp. refine (int_ext 2 _ _ _ _ Hp). intros u. cbn beta.
      replace (paraboloid bb [kk] [kk] u) with (g_b bb kk [("R"%string, u 0%nat); ("S"%string, u 1%nat)]); [reflexivity|]. unfold paraboloid, bent, g_b, lk. cbn. destruct (Rltb (u 0%nat) 0); field. }
    split; [split; [|exact UP]|].
    + cbn [map lsum] in LO. change (phi bb / Phi (- bb)) with (psi bb) in LO. eapply Rle_trans; [|exact LO]. apply Req_le. set (t := kk / (1 + psi bb * kk)). field.
    + intros K0. rewrite EQ2. apply Rmult_le_compat_l; [apply Rlt_le, Phi_bound|]. cbn [map lprod]. rewrite !Rmult_1_r. pose proof (psi_gt bb). apply Rinv_le_contravar; [apply sqrt_lt_R0; lra|apply sqrt_le_1_alt; nra].
Qed.
Print Assumptions C115_run.
