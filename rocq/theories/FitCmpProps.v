(** Property theorems C128: point fitting against curve fitting. *)
From Coquelicot Require Import Coquelicot.
From Verif Require Import Base Ext Dict Gauss GaussProofs StochModel StochModelSpec StochModelProofs LimitState LimitStateSpec LimitStateProofs LimitStateProps Transf TransfSpec TransfProofs Form FormProofs FormAffineProofs FormNormalProofs FormProps Nataf NatafProofs Dist RotSpec RotProofs RotProps ScaleFormProofs Pipe PipeSpec PipeProofs PipeProps GramSchmidt GramSchmidtProofs Sorm SormProofs Valid SormRun SormRunSpec SormRunProofs SormRunProps SormQuadSpec SormQuadProofs SormQuadProps FitCmpProofs.
From Verif Require Import DistProofs.
From Coq Require Import ZArith Lra Lia Permutation.
Open Scope R_scope.

(** [less_or_equal a b]: the two reported probabilities are positive numbers, the first not above the second *)
Definition pf_le (a b : sattr) : Prop := exists p q, a = SArr (Fin p) /\ b = SArr (Fin q) /\ 0 < p <= q.

Lemma lsum_nth l : lsum l = fsum (length l) (fun i => nth i l 0).
Proof. induction l as [|x l IH]; [reflexivity|]. cbn [lsum length]. rewrite fsum_shift, IH. reflexivity. Qed.

Lemma nth_map_seq0 m (F : nat -> R) i : (i < m)%nat -> nth i (map F (seq 0 m)) 0 = F i.
Proof. intros Hi. rewrite (nth_indep _ 0 (F 0%nat)) by (rewrite map_length, seq_length; exact Hi). rewrite map_nth, seq_nth by exact Hi. reflexivity. Qed.

(** The quadratic limit states of C99, fitted both ways from the same FORM result. If point fitting
    reports no zero curvature, the two lists of curvatures have the same sum, and where curve fitting's
    formula applies point fitting's does too and reports a probability that is not larger: Breitung's
    formula and Hohenbichler-Rackwitz's alike. *)
Theorem C128_point_fit_not_above :
  forall fmin chol svd inv eig sort e0 h expr f gr lf nm (mu sd cf : vec) c0 (Q : mat) M Ro log a opt fo evn fuel,
  let n := ndists h in let s := sm_run h in
  lapack n chol svd inv e0 -> eig_contract (n - 1) eig -> sort_contract sort -> form_init opt = Ok a -> (2 <= n)%nat ->
  (forall i, (i < n)%nat -> nth_error (dists_of (accepted h)) i = Some (Normal (nm i) (mu i) (sd i))) ->
  (forall i, (i < n)%nat -> sd i <> 0) -> (exists i, (i < n)%nat /\ cf i <> 0) ->
  with_gradient expr f gr ->
  (forall q, length q = n -> f (args_at h q) = quad_value n c0 cf mu Q q /\ gr (args_at h q) = quad_gradient n cf mu Q q) ->
  symmetric n Q ->
  (forall i, (i < n)%nat -> fsum n (fun j => Q i j * (sd j * fsum n (fun k => Ro j k * (sd k * cf k)))) = 0) ->
  ddm_options fo -> (6 < lf)%nat -> (Z.to_nat (fo_imax fo) < fuel)%nat ->
  sm_corr s = Some M -> length M = n -> (forall r, In r M -> length r = n) ->
  computeModifiedCorrelationMatrix fmin n n (mat_of M) (fun i => marg_of (marg_at s i)) = Ok (Ro, log) -> pos_def n Ro ->
  let mean := c0 + fsum n (fun i => cf i * mu i) in
  let variance := fsum n (fun i => fsum n (fun j => (cf i * sd i) * Ro i j * (cf j * sd j))) in
  let beta := mean / sqrt variance in
  0 < beta -> 1 / 1000000000000 <= sqrt variance ->
  exists b r alpha s1, sorm_new fmin chol svd inv fuel lf expr fo evn opt None s = (Ok (fb_type a, b), s1) /\
    fb_res b = Some r /\ form_alpha n r = Some alpha /\
    (1 / 100000000 < Rabs (alpha (n - 1)%nat) -> forall st print,
       let run fit := sorm_run_on fmin chol svd inv eig sort lf expr fo evn fit print (fb_type a) b st s1 in
       exists stc sc outc stp sp kc kp, run "cf"%string = (stc, sc, outc) /\ run "pf"%string = (stp, sp, Ok tt) /\
         so_kappa stc = Some kc /\ so_kpf stp = Some (kp, kp) /\ length kc = (n - 1)%nat /\ length kp = (n - 1)%nat /\
         ((forall k, In k kp -> k <> 0) ->
            lsum kp = lsum kc /\
            ((forall k, In k kc -> 0 < 1 + beta * k) -> pf_le (so_pf stp) (so_pf stc)) /\
            ((forall k, In k kc -> 0 < 1 + psi beta * k) -> pf_le (so_pfm stp) (so_pfm stc)))).
Proof.
  intros fmin chol svd inv eig sort e0 h expr f gr lf nm mu sd cf c0 Q M Ro lg a opt fo evn fuel n s Hlap Heig Hsort Ha Hn2 HN Hsd Hcf Hg Hq HQ HK Hfo Hlf Hfu HM HM1 HM2 HRo HPD mean variance beta Hb Hbig.
  assert (VP : 0 < variance) by exact (ln_v_pos h sd cf Ro Hsd Hcf HPD). assert (SV := sqrt_lt_R0 _ VP).
  destruct (C99_paraboloid fmin chol svd inv eig sort e0 h expr f gr lf nm mu sd cf c0 Q M Ro lg a opt fo evn fuel Hlap Heig Hsort Ha Hn2 HN Hsd Hcf Hg Hq HQ HK Hfo Hlf Hfu HM HM1 HM2 HRo HPD)
    as (b & r & T & A & alpha & s1 & EN & ER & _ & _ & _ & HF & FA & EA & EB & HR).
  fold n s mean variance in HR. fold beta in HR. fold n variance in EA.
  exists b, r, alpha, s1. split; [exact EN|]. split; [exact ER|]. split; [exact FA|].
  intros HL st print. cbv zeta in HR. destruct (HR HL st print) as (H1 & H2).
  destruct (H1 Hb) as (kc & stc & sc & outc & RC & (LC & W & PC) & _ & EC & _ & BC & BCM).
  destruct (H2 ltac:(lra) Hbig) as (rows & stp & sp & RP & OM & OR & EP & _ & _ & BP & BPM). clear H1 H2 HR.
  set (s2 := Rmax 1 (Rmin (Rabs beta) 3) * Rmax 1 (Rmin (Rabs beta) 3)) in *.
  set (H := u_hessian n A sd Q) in *. set (kp := map (fun i => fitted n H (sqrt variance) s2 (rows i)) (seq 0 (n - 1))) in *.
  assert (LP : length kp = (n - 1)%nat) by (unfold kp; rewrite map_length, seq_length; reflexivity).
  cbv zeta. exists stc, sc, outc, stp, sp, kc, kp. split; [exact RC|]. split; [exact RP|]. split; [exact EC|]. split; [exact EP|]. split; [exact LC|]. split; [exact LP|].
  intros NZ.
  set (av := fun j => - fsum n (fun i => cf i * sd i * A i j)).
  assert (EV : dot n av av = variance).
  { unfold dot, variance. rewrite <- (quad_norm n A Ro _ HF). apply fsum_ext. intros k _. unfold av. ring. }
  assert (Un : dot n alpha alpha = 1).
  { unfold dot. rewrite (fsum_ext n _ (fun i => av i * av i * / variance)).
    - rewrite fsum_scal_r. change (fsum n (fun i => av i * av i)) with (dot n av av). rewrite EV. field. lra.
    - intros i Hi. rewrite (EA i Hi). fold (av i). rewrite <- (sqrt_sqrt variance) at 3 by lra. field. lra. }
  assert (HHs : symmetric n H) by exact (hessian_sym n A sd Q HQ).
  assert (EQn : forall i, (i < n - 1)%nat -> nth i kp 0 = normal_curv n H (sqrt variance) (rows i)).
  { intros i Hi. assert (NI : nth i kp 0 <> 0) by (apply NZ, nth_In; rewrite LP; exact Hi).
    assert (EF : nth i kp 0 = fitted n H (sqrt variance) s2 (rows i)).
    { unfold kp. apply nth_map_seq0, Hi. }
    rewrite EF in NI |- *. unfold fitted in NI |- *. destruct (Rltb _ _); [contradiction|reflexivity]. }
  assert (PC' : forall i j, (i < n - 1)%nat -> (j < n - 1)%nat -> dot n (W i) (W j) = delta i j /\ dot n alpha (W i) = 0 /\ veq n (mvec n H (W i)) (fun c => (fun k => nth k kc 0) i * sqrt variance * W i c)) by exact PC.
  assert (MIX : forall c, (forall k, In k kc -> 0 < 1 + c * k) ->
     (forall k, In k kp -> 0 < 1 + c * k) /\ lprod (map (fun k => / sqrt (1 + c * k)) kp) <= lprod (map (fun k => / sqrt (1 + c * k)) kc)).
  { intros c Hc. destruct (mix_terms n H alpha (sqrt variance) W rows (fun k => nth k kc 0) Hn2 Un SV PC' OR HHs c) as (M1 & M2).
    { intros k Hk. apply Hc, nth_In. rewrite LC. exact Hk. }
    assert (PP : forall k, In k kp -> 0 < 1 + c * k).
    { intros k Hk. apply (In_nth _ _ 0) in Hk. destruct Hk as (i & Hi & <-). rewrite LP in Hi. rewrite (EQn i Hi). apply M1, Hi. }
    split; [exact PP|]. rewrite (lprod_ln kp c PP), (lprod_ln kc c Hc), LP, LC. apply exp_le_compat.
    rewrite (fsum_ext (n - 1) (fun i => ln (1 + c * nth i kp 0)) (fun i => ln (1 + c * normal_curv n H (sqrt variance) (rows i)))) by (intros i Hi; rewrite (EQn i Hi); reflexivity). lra. }
  assert (POS : forall c, (forall k, In k kp -> 0 < 1 + c * k) -> 0 < Phi (- beta) * lprod (map (fun k => / sqrt (1 + c * k)) kp)).
  { intros c Hc. rewrite (lprod_ln kp c Hc). apply Rmult_lt_0_compat; [apply Phi_bound|apply exp_pos]. }
  assert (PB : 0 <= Phi (- beta)) by (apply Rlt_le, Phi_bound).
  split.
  { rewrite !lsum_nth, LP, LC. rewrite (fsum_ext (n - 1) _ (fun i => normal_curv n H (sqrt variance) (rows i))) by exact EQn.
    exact (trace_eq n H alpha (sqrt variance) W rows (fun k => nth k kc 0) Hn2 Un SV PC' OR HHs). }
  split; intros Hc; destruct (MIX _ Hc) as (PP & LE).
  - destruct (BP PP) as (E1 & _). destruct (BC Hc) as ((E2 & _) & _). eexists. eexists. split; [exact E1|]. split; [exact E2|]. split; [exact (POS _ PP)|apply Rmult_le_compat_l; assumption].
  - destruct (BPM PP) as (E1 & _). destruct (BCM Hc) as (E2 & _). eexists. eexists. split; [exact E1|]. split; [exact E2|]. split; [exact (POS _ PP)|apply Rmult_le_compat_l; assumption].
Qed.
Print Assumptions C128_point_fit_not_above.
