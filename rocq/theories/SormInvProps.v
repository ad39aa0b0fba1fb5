(** Property theorems C129: what SORM's curve fit does not depend on. *)
From Coquelicot Require Import Coquelicot.
From Verif Require Import Base Ext Dict Gauss GaussProofs StochModel StochModelSpec StochModelProofs LimitState LimitStateSpec LimitStateProofs LimitStateProps Transf TransfSpec TransfProofs Form FormProofs FormAffineProofs FormNormalProofs FormProps Nataf NatafProofs Dist RotSpec RotProofs RotProps ScaleFormProofs PermProofs Pipe PipeSpec PipeProofs PipeProps GramSchmidt GramSchmidtProofs Sorm SormProofs Valid SormRun SormRunSpec SormRunProofs SormRunProps SormQuadSpec SormQuadProofs SormQuadProps FitCmpProofs SormInvSpec SormInvProofs.
From Coq Require Import ZArith Lra Lia Permutation.
Open Scope R_scope.

(** The same problem set up twice: in another order of the variables (variable i of the second model is variable
    sg i of the first), with any decomposition each time, any step rule and any routines meeting their contracts.
    Where both runs can build their rotation, curve fitting reports the same curvatures, hence the same
    probabilities and indices. *)
Theorem C129_curve_fit_invariant :
  forall n sg tg fmin chol svd inv eig sort e0 h expr lf mu sd cf c0 Q Ro a opt fo fuel evn fmin' chol' svd' inv' eig' sort' e0' h' expr' lf' mu' sd' cf' Q' Ro' a' opt' fo' fuel' evn',
  quad_problem n fmin chol svd inv eig sort e0 h expr lf mu sd cf c0 Q Ro a opt fo fuel ->
  quad_problem n fmin' chol' svd' inv' eig' sort' e0' h' expr' lf' mu' sd' cf' c0 Q' Ro' a' opt' fo' fuel' ->
  perm_pair n sg tg ->
  (forall i, (i < n)%nat -> mu' i = mu (sg i) /\ sd' i = sd (sg i) /\ cf' i = cf (sg i)) ->
  (forall i j, (i < n)%nat -> (j < n)%nat -> Q' i j = Q (sg i) (sg j) /\ Ro' i j = Ro (sg i) (sg j)) ->
  exists b r alpha s1 b' r' alpha' s1' beta,
    sorm_new fmin chol svd inv fuel lf expr fo evn opt None (sm_run h) = (Ok (fb_type a, b), s1) /\
    sorm_new fmin' chol' svd' inv' fuel' lf' expr' fo' evn' opt' None (sm_run h') = (Ok (fb_type a', b'), s1') /\
    fb_res b = Some r /\ fb_res b' = Some r' /\ form_alpha n r = Some alpha /\ form_alpha n r' = Some alpha' /\
    form_beta n r = Fin beta /\ form_beta n r' = Fin beta /\
    (0 < beta -> 1 / 100000000 < Rabs (alpha (n - 1)%nat) -> 1 / 100000000 < Rabs (alpha' (n - 1)%nat) -> forall st print st' print',
     exists kappa stc sc out stc' sc' out',
       sorm_run_on fmin chol svd inv eig sort lf expr fo evn "cf" print (fb_type a) b st s1 = (stc, sc, out) /\
       sorm_run_on fmin' chol' svd' inv' eig' sort' lf' expr' fo' evn' "cf" print' (fb_type a') b' st' s1' = (stc', sc', out') /\
       so_kappa stc = Some kappa /\ so_kappa stc' = Some kappa /\
       ((forall k, In k kappa -> 0 < 1 + beta * k) -> so_pf stc' = so_pf stc /\
          breitung_values beta beta kappa (so_pf stc) (so_bg stc) /\ breitung_values beta beta kappa (so_pf stc') (so_bg stc')) /\
       ((forall k, In k kappa -> 0 < 1 + psi beta * k) -> so_pfm stc' = so_pfm stc /\
          breitung_values beta (psi beta) kappa (so_pfm stc) (so_bgm stc) /\ breitung_values beta (psi beta) kappa (so_pfm stc') (so_bgm stc'))).
Proof.
  intros n sg tg fmin chol svd inv eig sort e0 h expr lf mu sd cf c0 Q Ro a opt fo fuel evn fmin' chol' svd' inv' eig' sort' e0' h' expr' lf' mu' sd' cf' Q' Ro' a' opt' fo' fuel' evn'
    [N1 LP1 EG1 SO1 IN1 TW (nm & NO1) SD1 CF1 (f & gr & WG1 & QV1) SY1 TA1 OP1 LF1 FU1 (M & lg & MC1 & ML1 & MR1 & RO1) PD1]
    [N2 LP2 EG2 SO2 IN2 _ (nm' & NO2) SD2 CF2 (f' & gr' & WG2 & QV2) SY2 TA2 OP2 LF2 FU2 (M' & lg' & MC2 & ML2 & MR2 & RO2) PD2] HP HV HM.
  subst n.
  destruct (C99_paraboloid fmin chol svd inv eig sort e0 h expr f gr lf nm mu sd cf c0 Q M Ro lg a opt fo evn fuel LP1 EG1 SO1 IN1 TW NO1 SD1 CF1 WG1 QV1 SY1 TA1 OP1 LF1 FU1 MC1 ML1 MR1 RO1 PD1)
    as (b & r & T & A & alpha & s1 & EN & ER & _ & _ & HT & HF & FA & EA & EB & HR).
  rewrite <- N2 in LP2, EG2, TW, NO2, SD2, CF2, QV2, SY2, TA2, ML2, MR2, RO2, PD2.
  destruct (C99_paraboloid fmin' chol' svd' inv' eig' sort' e0' h' expr' f' gr' lf' nm' mu' sd' cf' c0 Q' M' Ro' lg' a' opt' fo' evn' fuel' LP2 EG2 SO2 IN2 TW NO2 SD2 CF2 WG2 QV2 SY2 TA2 OP2 LF2 FU2 MC2 ML2 MR2 RO2 PD2)
    as (b' & r' & T' & A' & alpha' & s1' & EN' & ER' & _ & _ & HT' & HF' & FA' & EA' & EB' & HR').
  rewrite N2 in *. set (n := ndists h) in *.
  set (v := fsum n (fun i => fsum n (fun j => cf i * sd i * Ro i j * (cf j * sd j)))) in *.
  set (v' := fsum n (fun i => fsum n (fun j => cf' i * sd' i * Ro' i j * (cf' j * sd' j)))) in *.
  assert (EV : v' = v).
  { unfold v', v. rewrite (fsum_ext n _ (fun i => fsum n (fun j => cf (sg i) * sd (sg i) * Ro (sg i) j * (cf j * sd j)))).
    - apply (fsum_perm n sg tg HP (fun i => fsum n (fun j => cf i * sd i * Ro i j * (cf j * sd j)))).
    - intros i Hi. rewrite <- (fsum_perm n sg tg HP (fun j => cf (sg i) * sd (sg i) * Ro (sg i) j * (cf j * sd j))). apply fsum_ext. intros j Hj.
      destruct (HV i Hi) as (_ & -> & ->). destruct (HV j Hj) as (_ & -> & ->). destruct (HM i j Hi Hj) as (_ & ->). reflexivity. }
  assert (EMn : fsum n (fun i => cf' i * mu' i) = fsum n (fun i => cf i * mu i)).
  { rewrite <- (fsum_perm n sg tg HP (fun i => cf i * mu i)). apply fsum_ext. intros i Hi. destruct (HV i Hi) as (-> & _ & ->). reflexivity. }
  rewrite EV, EMn in EB', HR'. rewrite EV in EA'.
  assert (VP : 0 < v) by exact (ln_v_pos h sd cf Ro SD1 CF1 PD1). assert (SV := sqrt_lt_R0 _ VP).
  set (beta := (c0 + fsum n (fun i => cf i * mu i)) / sqrt v) in *.
  exists b, r, alpha, s1, b', r', alpha', s1', beta. split; [exact EN|]. split; [exact EN'|]. split; [exact ER|]. split; [exact ER'|]. split; [exact FA|]. split; [exact FA'|]. split; [exact EB|]. split; [exact EB'|].
  intros Hb HL HL' st print st' print'. cbv zeta in HR, HR'.
  destruct (proj1 (HR HL st print) Hb) as (k1 & stc & sc & out & RC & P1 & A1 & K1 & _ & B1 & BM1).
  destruct (proj1 (HR' HL' st' print') Hb) as (k2 & stc' & sc' & out' & RC' & P2 & A2 & K2 & _ & B2 & BM2). clear HR HR'.
  (* the first run's curvatures, in the coordinates of the second *)
  assert (SAME : principal_curvatures n (u_hessian n A' sd' Q') alpha' (sqrt v) k1).
  { set (PA := prow sg A). set (PT := pcol sg T).
    assert (PP := perm_pairs n sg tg HP T A HT : inverse_pair n PT PA).
    assert (PF : factor_of n PA Ro') by (apply (perm_factor n sg tg HP A Ro Ro' HF); intros i j Hi Hj; apply (HM i j Hi Hj)).
    assert (EH : meq n (u_hessian n A sd Q) (u_hessian n PA sd' Q')).
    { intros j l Hj Hl. unfold u_hessian, PA, prow. rewrite <- (fsum_perm n sg tg HP (fun i => fsum n (fun k => A i j * sd i * Q i k * (sd k * A k l)))). apply fsum_ext. intros i Hi.
      rewrite <- (fsum_perm n sg tg HP (fun k => A (sg i) j * sd (sg i) * Q (sg i) k * (sd k * A k l))). apply fsum_ext. intros k Hk.
      destruct (HV i Hi) as (_ & -> & _). destruct (HV k Hk) as (_ & -> & _). destruct (HM i k Hi Hk) as (-> & _). reflexivity. }
    assert (EAl : veq n alpha (fun j => - fsum n (fun i => cf' i * sd' i * PA i j) / sqrt v)).
    { intros j Hj. rewrite (EA j Hj). do 2 f_equal. unfold PA, prow. rewrite <- (fsum_perm n sg tg HP (fun i => cf i * sd i * A i j)). apply fsum_ext. intros i Hi. destruct (HV i Hi) as (_ & -> & ->). reflexivity. }
    apply (principal_ext n (u_hessian n A' sd' Q') _ (fun j => - fsum n (fun i => cf' i * sd' i * A' i j) / sqrt v)); [apply meq_refl|intros j Hj; symmetry; apply EA', Hj|].
    apply (principal_same n PT PA T' A' Ro' sd' cf' Q' (sqrt v) (sqrt v) PP HT' PF HF'). exact (principal_ext n _ _ _ _ _ _ EH EAl P1). }
  assert (Un : dot n alpha' alpha' = 1).
  { set (av := fun j => - fsum n (fun i => cf' i * sd' i * A' i j)).
    assert (EVV : dot n av av = v). { rewrite <- EV. unfold dot, v'. rewrite <- (quad_norm n A' Ro' _ HF'). apply fsum_ext. intros k _. unfold av. ring. }
    unfold dot. rewrite (fsum_ext n _ (fun i => av i * av i * / v)).
    - rewrite fsum_scal_r. change (fsum n (fun i => av i * av i)) with (dot n av av). rewrite EVV. field. lra.
    - intros i Hi. rewrite (EA' i Hi). fold (av i). rewrite <- (sqrt_sqrt v) at 3 by lra. field. lra. }
  assert (KK : k1 = k2) by exact (principal_unique n _ _ _ k1 k2 TW Un SV (hessian_sym n A' sd' Q' SY2) SAME P2 A1 A2). subst k2.
  exists k1, stc, sc, out, stc', sc', out'. split; [exact RC|]. split; [exact RC'|]. split; [exact K1|]. split; [exact K2|]. split; intros HA.
  - destruct (B1 HA) as (X1 & _). destruct (B2 HA) as (X2 & _). split; [|split; assumption]. rewrite (proj1 X1), (proj1 X2). reflexivity.
  - pose proof (BM1 HA) as X1. pose proof (BM2 HA) as X2. split; [|split; assumption]. rewrite (proj1 X1), (proj1 X2). reflexivity.
Qed.
Print Assumptions C129_curve_fit_invariant.
