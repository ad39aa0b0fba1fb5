(** Property theorems C130: the Hessian of curve fitting is a forward difference of the gradient. *)
From Coquelicot Require Import Coquelicot.
From Verif Require Import Base Ext Dict Gauss GaussProofs StochModel StochModelSpec StochModelProofs LimitState LimitStateSpec LimitStateProofs LimitStateProps Transf TransfSpec TransfProofs Form FormProofs FormAffineProofs FormNormalProofs FormProps Nataf NatafProofs Dist RotSpec RotProofs RotProps ScaleFormProofs Pipe PipeSpec PipeProofs PipeProps GramSchmidt GramSchmidtProofs Sorm SormProofs Valid SormRun SormRunSpec SormRunProofs SormRunProps SormQuadSpec SormQuadProofs SormQuadProps HessSpec HessProofs.
From Coq Require Import ZArith Lra Lia Permutation.
Open Scope R_scope.

(** A limit state function of n normal variables, with its gradient, that is affine on the straight line
    through the mean in the direction -(Cov cf), with the constant gradient cf there.  FORM finds its
    design point.  Curve fitting hands np.linalg.eig the matrix B of the rotated, scaled Hessian H of
    forward differences with step 1/ffdpara; each entry of H is within M/(2 ffdpara) of the derivative of
    the gradient, if M bounds the second derivative on the way; H differs from its transpose by M/ffdpara at most. *)
Theorem C130_curve_fit_matrix :
  forall fmin chol svd inv e0 h expr f gr lf nm (mu sd cf : vec) mean M Ro log a opt fo evn fuel,
  let n := ndists h in let s := sm_run h in
  lapack n chol svd inv e0 -> form_init opt = Ok a -> (2 <= n)%nat ->
  (forall i, (i < n)%nat -> nth_error (dists_of (accepted h)) i = Some (Normal (nm i) (mu i) (sd i))) ->
  (forall i, (i < n)%nat -> sd i <> 0) -> (exists i, (i < n)%nat /\ cf i <> 0) ->
  with_gradient expr f gr -> (forall q, length q = n -> length (gr (args_at h q)) = n) ->
  ddm_options fo -> 0 < o_ffdpara (fo_ls fo) -> (6 < lf)%nat -> (Z.to_nat (fo_imax fo) < fuel)%nat ->
  sm_corr s = Some M -> length M = n -> (forall r, In r M -> length r = n) ->
  computeModifiedCorrelationMatrix fmin n n (mat_of M) (fun i => marg_of (marg_at s i)) = Ok (Ro, log) -> pos_def n Ro ->
  let variance := fsum n (fun i => fsum n (fun j => (cf i * sd i) * Ro i j * (cf j * sd j))) in
  (forall q p, length q = n -> (forall i, (i < n)%nat -> nth i q 0 = mu i - p * (sd i * fsum n (fun j => Ro i j * (cf j * sd j)))) ->
     f (args_at h q) = mean - p * variance /\ forall i, (i < n)%nat -> nth i (gr (args_at h q)) 0 = cf i) ->
  let beta := mean / sqrt variance in
  exists b r T A alpha u s1, sorm_new fmin chol svd inv fuel lf expr fo evn opt None s = (Ok (fb_type a, b), s1) /\
    fb_res b = Some r /\ fb_TA b = Some (T, A) /\ transf_compute chol svd inv (fb_type a) n (mat_of (rows_of n Ro)) = Ok (T, A) /\ inverse_pair n T A /\ factor_of n A Ro /\
    form_alpha n r = Some alpha /\ veq n alpha (fun j => - fsum n (fun i => cf i * sd i * A i j) / sqrt variance) /\ form_beta n r = Fin beta /\
    fr_u r = Some u /\ veq n u (fun j => beta * alpha j) /\
    let g := u_gradient n h gr mu sd A in let d := 1 / o_ffdpara (fo_ls fo) in
    exists H s2, computeHessian inv lf expr fo n T A A u s1 = (Ok H, s2) /\ sm_calls s2 = (sm_calls s1 + (1 + n))%nat /\
    (forall c i, (c < n)%nat -> (i < n)%nat -> H c i = (g (along u i d) c - g u c) / d) /\
    (forall c i F1 F2 Mx, (c < n)%nat -> (i < n)%nat -> twice_differentiable (fun t => g (along u i t) c) F1 F2 d Mx ->
       Rabs (H c i - F1 0) <= Mx * d / 2) /\
    (forall c i F1 F2 F1' F2' Mx, (c < n)%nat -> (i < n)%nat -> twice_differentiable (fun t => g (along u i t) c) F1 F2 d Mx ->
       twice_differentiable (fun t => g (along u c t) i) F1' F2' d Mx -> F1 0 = F1' 0 -> Rabs (H c i - H i c) <= Mx * d) /\
    (forall rows, orthonormal_matrix n alpha = Ok rows -> exists B,
       (forall i j, (i < n)%nat -> (j < n)%nat -> B i j = fsum n (fun c => rows i c * fsum n (fun k => H c k * rows j k)) / sqrt variance) /\
       forall eig sort st print, let run := sorm_run_on fmin chol svd inv eig sort lf expr fo evn "cf" print (fb_type a) b st s1 in
       match eig (n - 1)%nat B with
       | Err e => exists st' s', run = (st', s', Err e)
       | Ok l => exists st' s' out, run = (st', s', out) /\ so_kappa st' = Some (sort l) /\ sm_calls s' = (sm_calls s1 + (1 + n))%nat
       end).
Proof.
  intros fmin chol svd inv e0 h expr f gr lf nm mu sd cf mean M Ro lg a opt fo evn fuel n s Hlap Ha Hn2 HN Hsd Hcf Hg Hgl Hfo Hffp Hlf Hfu HM HM1 HM2 HRo HPD variance Hray beta.
  assert (Hn : (1 <= n)%nat) by lia.
  destruct (ln_factor fmin chol svd inv e0 h M Ro lg a opt Hlap Ha HRo HPD) as (T & A & ET & HT & HF). fold n in ET, HT, HF.
  set (av := fun j => - fsum n (fun i => cf i * sd i * A i j)).
  assert (VP : 0 < variance) by exact (ln_v_pos h sd cf Ro Hsd Hcf HPD).
  assert (SV := sqrt_lt_R0 _ VP). assert (SQ := sqrt_sqrt variance ltac:(lra)).
  assert (EN : norm n av = sqrt variance).
  { unfold norm, dot, variance. f_equal. rewrite <- (quad_norm n A Ro _ HF). apply fsum_ext. intros k _. unfold av. ring. }
  assert (NA : norm n av <> 0) by (rewrite EN; lra).
  destruct Hfo as (Hd & Hmp & Hbs & Hff & He2 & Hst). destruct Hlap as (_ & _ & (I1 & I2 & I3) & _).
  assert (HMg : forall i, (i < n)%nat -> (forall z, rv_u2x (marg_at s i) z = mu i + sd i * z) /\ forall z x, rv_jac (marg_at s i) z x = / sd i).
  { intros i Hi. unfold s. rewrite (ln_marg h nm mu sd HN i Hi). split; [intros z; cbn; ring|intros z x; cbn; unfold Rdiv; ring]. }
  assert (HIex : forall X Y, inverse_pair n Y X -> exists C, inv n X = Ok C) by assumption.
  set (ev := form_ev lf s expr (fo_ls fo) n T A inv (marg_at s)). set (tr := form_trial lf s expr (fo_ls fo) n A (marg_at s)).
  assert (EA : forall u, exists g k, ev u = (Ok (f (args_at h (phys_point n mu sd A u)), g), k) /\ veq n g (u_gradient n h gr mu sd A u)).
  { intros u. apply (g_ev h expr f gr (fo_ls fo) lf T A inv (marg_at s) mu sd); assumption. }
  assert (ETr : forall us, length us = ntrial -> exists k, tr us = (Ok (map (fun u => f (args_at h (phys_point n mu sd A u))) us), k)).
  { intros us Hus. apply (g_trial h expr f gr (fo_ls fo) lf A (marg_at s) mu sd Hg); assumption. }
  assert (RAY : forall u, on_ray n av u -> f (args_at h (phys_point n mu sd A u)) = mean - dot n av u /\ veq n (u_gradient n h gr mu sd A u) (fun i => - av i)).
  { intros u (p & Hp).
    assert (DA : dot n av u = p * variance).
    { rewrite (Base.dot_ext n av u av (fun j => p * av j) ltac:(intros j _; reflexivity) Hp), dot_scal_r, <- norm_sqr, EN. unfold dot. rewrite SQ. ring. }
    destruct (Hray (phys_point n mu sd A u) p) as (E1 & E2).
    - unfold phys_point. now rewrite map_length, seq_length.
    - intros i Hi. unfold phys_point. rewrite nth_map_seq by exact Hi. unfold Rminus. f_equal.
      rewrite (fsum_ext n (fun k => A i k * u k) (fun k => fsum n (fun j => (- p) * (A i k * A j k * (cf j * sd j))))).
      2: { intros k Hk. rewrite (Hp k Hk). unfold av. rewrite fsum_scal. rewrite (fsum_ext n (fun j => A i k * A j k * (cf j * sd j)) (fun j => A i k * (cf j * sd j * A j k))) by (intros; ring). rewrite fsum_scal. ring. }
      rewrite fsum_swap. rewrite (fsum_ext n _ (fun j => (- p) * (Ro i j * (cf j * sd j)))).
      2: { intros j Hj. rewrite fsum_scal, fsum_scal_r, (HF i j Hi Hj). reflexivity. }
      rewrite fsum_scal. ring.
    - rewrite DA. split; [exact E1|]. intros j Hj. unfold u_gradient, av. rewrite Ropp_involutive. apply fsum_ext. intros i Hi. rewrite (E2 i Hi). ring. }
  assert (U0 : veq n (computeStartingPoint n T (marg_at s)) (fun _ => 0)) by exact (PipeProps.ln_start h nm mu sd HN T).
  destruct (ray_exact n fo ev tr evn av mean NA) with (fuel := fuel) (u0 := computeStartingPoint n T (marg_at s)) as (r & c & u & E & E0 & EB & Eu & Hu & EG); try assumption.
  { intros u P. destruct (EA u) as (g & k & Ev & Eg). destruct (RAY u P) as (R1 & R2). exists g, k. rewrite Ev, R1. split; [reflexivity|]. intros i Hi. rewrite (Eg i Hi). now apply R2. }
  { intros us P Hus. destruct (ETr us Hus) as (k & Et). exists k. rewrite Et. do 2 f_equal. apply map_ext_in. intros u Hin. rewrite Forall_forall in P. apply RAY. now apply P. }
  assert (EM : length (sm_marg s) = n) by (destruct (registry h) as (_ & _ & X & _); unfold s; rewrite X; reflexivity).
  destruct (C92_run_composition fmin chol svd inv s M n Ro lg T A fuel lf expr fo evn a HM HM1 HM2 EM HRo ET) as (c' & b & R1 & R2 & R3 & R4 & R5).
  assert (EF : form_from n fo evn fuel lf s expr T A inv (marg_at s) = (FDone r, c)) by exact E.
  rewrite EF in R1. injection R1 as Er Ec. subst c'.
  destruct (run_form fmin chol svd inv fuel lf expr fo evn a s) as [[b1 s1'] out1] eqn:ER. cbn [fst snd] in R2, R5, Er. subst out1. injection R2 as -> ->.
  set (alpha := alpha_of n (fr_grad r)). set (s1 := addCallFunction (setModifiedCorrelation s (rows_of n Ro)) c) in *.
  assert (NG : norm n (fr_grad r) = norm n av).
  { rewrite (norm_ext n _ _ EG). rewrite (norm_ext n (fun i => - av i) (fun i => (-1) * av i)) by (intros j _; ring). rewrite norm_scale_vec.
    replace (Rabs (-1)) with 1 by (rewrite Rabs_left; lra). ring. }
  assert (AL : veq n alpha (fun i => av i / norm n av)) by (intros i Hi; unfold alpha, alpha_of; rewrite (EG i Hi), NG; unfold Rdiv; ring).
  assert (FA : form_alpha n r = Some alpha) by (unfold form_alpha; rewrite Eu; reflexivity).
  rewrite EN in EB. fold beta in EB.
  exists b, r, T, A, alpha, u, s1. split; [unfold sorm_new; rewrite Ha, ER; reflexivity|]. split; [exact R5|]. split; [exact R4|]. split; [exact ET|]. split; [exact HT|]. split; [exact HF|].
  split; [exact FA|]. split; [intros i Hi; rewrite (AL i Hi), EN; reflexivity|]. split; [exact EB|]. split; [exact Eu|].
  split; [intros j Hj; rewrite (Hu j Hj), (AL j Hj), EN; unfold beta; field; lra|].
  cbv zeta. set (g := u_gradient n h gr mu sd A). set (d := 1 / o_ffdpara (fo_ls fo)).
  assert (C1 : same_core s s1) by (repeat split).
  assert (EI : init_run_full fmin chol svd inv (fb_type a) s1 = (setModifiedCorrelation s1 (rows_of n Ro), Ok (T, A))).
  { unfold init_run_full, setModifiedCorrelationMatrix. change (sm_corr s1) with (sm_corr s). rewrite HM, HM1, (rows_square n M HM2).
    change (length (sm_marg s1)) with (length (sm_marg s)). rewrite EM. change (fun i => marg_of (marg_at s1 i)) with (fun i => marg_of (marg_at s i)). rewrite HRo.
    cbn [setModifiedCorrelation sm_Ro]. rewrite rows_length, ET. reflexivity. }
  set (s2 := setModifiedCorrelation s1 (rows_of n Ro)) in *. assert (C2 : same_core s s2) by (repeat split).
  assert (EM2 : length (sm_marg s2) = n) by exact EM.
  assert (HJ : forall i z x z' x', rv_jac (marg_at s i) z x = rv_jac (marg_at s i) z' x').
  { intros i z x z' x'. destruct (Nat.lt_ge_cases i n) as [Hi|Hi].
    - now rewrite !(proj2 (HMg i Hi)).
    - unfold marg_at. rewrite nth_overflow by (rewrite EM; exact Hi). reflexivity. }
  assert (CO : eval_cost n fo = 1%nat) by (unfold eval_cost; rewrite Hd; reflexivity).
  assert (HS : forall s' u', same_core s s' -> exists V g',
     sev inv lf expr fo n T A s' (vlist n (u_to_x n A (marg_at s') u')) = (Ok (V, g'), addCallFunction s' (eval_cost n fo)) /\ veq n g' (g u')).
  { intros s' u' HC. destruct (EA u') as (g' & k & Ev & Eg). eexists. exists g'. split; [|exact Eg]. unfold ev in Ev.
    rewrite (sev_form inv lf expr fo n T A s' s u' HC HJ) by eauto. rewrite Ev. cbn [fst snd]. f_equal. f_equal.
    rewrite (form_ev_cost lf s expr (fo_ls fo) n T A inv (marg_at s) u' _ k ltac:(lia) Ev). unfold eval_cost. reflexivity. }
  assert (Hd0 : 0 < d) by (unfold d; apply Rdiv_lt_0_compat; lra).
  assert (PL : forall i, u_plus d u i = along u i d) by reflexivity.
  assert (A0 : forall i, along u i 0 = u).
  { intros i. unfold along. apply FunctionalExtensionality.functional_extensionality. intros k. destruct (Nat.eqb k i); [ring|reflexivity]. }
  destruct (hessian_g inv lf expr fo n T A s g HS Hff u s1 C1) as (H & EH & HH). fold d in HH.
  destruct (hessian_g inv lf expr fo n T A s g HS Hff u s2 C2) as (H' & EH' & HH'). fold d in HH'.
  assert (ERR : forall c i F1 F2 Mx, (c < n)%nat -> (i < n)%nat -> twice_differentiable (fun t => g (along u i t) c) F1 F2 d Mx -> Rabs (H c i - F1 0) <= Mx * d / 2).
  { intros k i F1 F2 Mx Hk Hi TD. rewrite (HH k i Hk Hi), PL. rewrite <- (A0 i) at 2.
    apply (fd_bound (fun t => g (along u i t) k) F1 F2 d Mx Hd0); intros t Ht; destruct (TD t Ht) as (X1 & X2 & X3); assumption. }
  exists H. eexists. split; [exact EH|]. split; [cbn [addCallFunction sm_calls]; rewrite CO; lia|].
  split; [intros k i Hk Hi; rewrite (HH k i Hk Hi), PL; reflexivity|]. split; [exact ERR|]. split.
  { intros k i F1 F2 F1' F2' Mx Hk Hi T1 T2 EQ. pose proof (ERR k i F1 F2 Mx Hk Hi T1) as B1. pose proof (ERR i k F1' F2' Mx Hi Hk T2) as B2.
    rewrite EQ in B1. apply Rabs_le_between in B1. apply Rabs_le_between in B2. apply Rabs_le. lra. }
  intros rows OM. exists (curvature_matrix n rows H' (fr_grad r)). split.
  { intros i j Hi Hj. rewrite (curv_entry n av H (fr_grad r) rows NG H' i j); [|intros k l Hk Hl; rewrite (HH' k l Hk Hl); symmetry; now apply HH|exact Hi|exact Hj].
    rewrite EN. reflexivity. }
  intros eig sort st print. unfold sorm_run_on. rewrite EI. cbv zeta. rewrite EM2, R5, R4, Eu, FA, EB. cbn [String.eqb Ascii.eqb Bool.eqb].
  unfold curvefit. rewrite EH', OM. cbn [rbind].
  destruct (eig (n - 1)%nat (curvature_matrix n rows H' (fr_grad r))) as [l|e]; cbn [rbind]; unfold sorm_run; cbn [si_init String.eqb Ascii.eqb Bool.eqb si_cf]; cbv zeta.
  - eexists. eexists. eexists. split; [reflexivity|]. split; [reflexivity|]. cbn [addCallFunction sm_calls]; rewrite CO; change (sm_calls s2) with (sm_calls s1); lia.
  - eexists. eexists. reflexivity.
Qed.
Print Assumptions C130_curve_fit_matrix.
