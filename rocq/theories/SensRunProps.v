(** Property theorems C96: closed-form sensitivities of a linear function of normal variables. *)
From Coquelicot Require Import Coquelicot.
From Verif Require Import Base Ext Dict Gauss GaussProofs StochModel StochModelSpec StochModelProofs LimitState LimitStateSpec LimitStateProofs LimitStateProps Transf TransfSpec TransfProofs Form FormProofs FormAffineProofs FormNormalProofs FormProps Chol Quad Nataf NatafProofs Dist RotSpec RotProofs RotProps ScaleFormProofs Pipe PipeSpec PipeProofs PipeProps Sens SensSpec SensCfProofs SensRun SensRunSpec SensRunProofs.
From Coq Require Import ZArith Lra Lia.
Open Scope R_scope.

Section Core.
Variables (fmin : (R -> R) -> R -> R) (chol : nat -> mat -> result mat) (svd : nat -> mat -> result (mat * vec)) (inv : nat -> mat -> result mat) (e0 : exn).
Variables (h : list smop) (expr : expression) (lf : nat) (nm : nat -> string) (mu sd cf : vec).
Variables (M : list (list R)) (Ro : mat) (log : list (nat * nat)) (a : fobj) (fo : form_opts) (evn : option exn) (fuel : nat).
Let n := ndists h.
Let s := sm_run h.
Let w : vec := fun i => cf i * sd i.
Let v := fsum n (fun i => fsum n (fun j => w i * Ro i j * w j)).
Let mg i := normal_marg (mu i) (sd i).
Let Sk k := fsum n (fun j => Ro k j * w j).
Hypothesis Hlap : lapack n chol svd inv e0.
Hypothesis HN : forall i, (i < n)%nat -> nth_error (dists_of (accepted h)) i = Some (Normal (nm i) (mu i) (sd i)).
Hypothesis Hsd : forall i, (i < n)%nat -> 0 < sd i <= 10 ^ 290.
Hypothesis HRo : computeModifiedCorrelationMatrix fmin n n (mat_of M) (fun i => marg_of (marg_at s i)) = Ok (Ro, log).

Lemma core_zero i j : (j < i)%nat -> (i < n)%nat -> mat_of M i j = 0 -> Ro i j = 0.
Proof.
  intros Hj Hi Hz. destruct (modified_ok fmin n (mat_of M) (fun i => marg_of (marg_at s i)) n (le_n n)) as (Q & E & _ & _ & L & _).
  rewrite HRo in E. injection E as <- _. rewrite L by assumption. unfold pair_value. rewrite Hz. now rewrite (proj2 (Reqb_spec 0 0) eq_refl).
Qed.
Lemma core_sym : symmetric n Ro.
Proof.
  intros i j Hi Hj. destruct (modified_ok fmin n (mat_of M) (fun i => marg_of (marg_at s i)) n (le_n n)) as (Q & E & _ & S & _).
  rewrite HRo in E. injection E as <- _. apply S.
Qed.

Lemma cf_core T A a' s' r u t :
  inverse_pair n T A -> factor_of n A Ro ->
  run_form fmin chol svd inv fuel lf expr fo evn a s = (a', s', FDone r) -> fb_TA a' = Some (T, A) ->
  sm_corr s' = Some M -> sm_Ro s' = Some (rows_of n Ro) -> sm_marg s' = sm_marg s ->
  fr_u r = Some u -> veq n u (fun i => t * - fsum n (fun l => w l * A l i)) ->
  veq n (alpha_of n (fr_grad r)) (fun i => - fsum n (fun l => w l * A l i) / sqrt v) ->
  exists res, cf_sens fmin chol svd inv fuel lf expr fo evn a mg s = (s', CfDone res) /\
  (forall k, (k < n)%nat -> (forall i j, (j < i)%nat -> (i < n)%nat -> k = i \/ k = j -> mat_of M i j <> 0 -> nodes_inside (mat_of M i j)) ->
     tiny < phi (t * Sk k) -> cf_marg res k "mean" = cf k / sqrt v /\ cf_marg res k "std" = - (t * cf k * Sk k) / sqrt v) /\
  (cholesky_factor n A Ro -> forall i j, (j < i)%nat -> (i < n)%nat ->
     cf_corr res i j = - (t * w i * w j) / sqrt v * drho0_drho mg Ro (cf_grid mg (mat_of M)) i j) /\
  (forall i j, cf_corr res i j = cf_corr res j i).
Proof.
  intros HT HF ER ETA EC EO EM Eu Hu Hal.
  destruct Hlap as (_ & _ & (I1 & I2 & I3) & _). destruct (I2 A T HT) as (Ai & EI). assert (HAi := I1 A Ai EI).
  assert (Ln : length (sm_marg s') = n) by (rewrite EM; destruct (registry h) as (_ & _ & X & _); unfold s; rewrite X; reflexivity).
  set (Ro' := mat_of (rows_of n Ro)).
  assert (EQ : forall i j, (i < n)%nat -> (j < n)%nat -> Ro' i j = Ro i j) by (intros; apply mat_rows; assumption).
  assert (HF' : factor_of n A Ro') by (intros i j Hi Hj; rewrite EQ by assumption; now apply HF).
  unfold cf_sens. rewrite ER. cbv zeta. rewrite Ln, ETA, EC, EO, Eu. unfold form_alpha. rewrite Eu, EI. fold Ro'.
  eexists. split; [reflexivity|]. cbn [cf_marg cf_corr]. split; [|split].
  - intros k Hk HQ Hphi.
    assert (ES : fsum n (fun j => Ro' k j * (cf j * sd j)) = Sk k) by (apply fsum_ext; intros j Hj; rewrite EQ by assumption; reflexivity).
    assert (HX : forall i, (i < n)%nat -> u_to_x n A (marg_at s') u i = mvec n A u i * sd i + mu i).
    { intros i Hi. unfold u_to_x. cbv zeta. unfold marg_at. rewrite EM. fold (marg_at s i).
      unfold marg_at. destruct (registry h) as (_ & _ & EMM & _). unfold s. rewrite EMM, (nth_error_nth _ _ _ (HN i Hi)). cbn. reflexivity. }
    assert (Hphi' : tiny < phi (t * fsum n (fun j => Ro' k j * (cf j * sd j)))) by (rewrite ES; exact Hphi).
    assert (MV := fun p => marg_value n A T Ai Ro' (mat_of M) cf mu sd v t (alpha_of n (fr_grad r)) u (u_to_x n A (marg_at s') u) HT HAi HF' Hal Hu HX Hsd
      ltac:(intros i j Hj Hi Hz; rewrite EQ by lia; now apply core_zero) k p Hk HQ Hphi').
    split; [exact (MV "mean"%string ltac:(now left))|rewrite <- ES; exact (MV "std"%string ltac:(now right))].
  - intros HC i j Hj Hi.
    assert (HC' : cholesky_factor n A Ro') by (destruct HC as (C1 & C2 & _); split; [exact C1|split; [exact C2|exact HF']]).
    rewrite (corr_value n A T Ai Ro' (mat_of M) w v t (alpha_of n (fr_grad r)) u mg HT HAi HC' Hal Hu i j Hj Hi).
    unfold drho0_drho. rewrite EQ by lia. reflexivity.
  - intros i j. unfold cf_correlation. rewrite !corr_sens_eq. rewrite (andb_comm (Nat.ltb j n)).
    destruct (Nat.ltb i n && Nat.ltb j n); [|reflexivity]. destruct (Nat.ltb_spec j i); destruct (Nat.ltb_spec i j); try lia; reflexivity.
Qed.
End Core.

(** C96: full or automatic steps (the defaults included), either transform type: the reported marginal sensitivities are the exact
    derivatives of beta = mean/standard deviation of the margin in the means and in the standard
    deviations, as long as the code's underflow threshold 1e-300 is not reached at the design
    point and the quadrature nodes of the correlated pairs lie in their range; with the Cholesky
    transform the correlation entries are the exact derivatives in the modified correlations
    divided by the discretised d rho / d rho0. *)
Theorem C96_closed_form_exact :
  forall fmin chol svd inv e0 h expr f lf nm (mu sd cf : vec) c0 M Ro log a opt fo evn fuel,
  let n := ndists h in let s := sm_run h in
  lapack n chol svd inv e0 -> form_init opt = Ok a -> (1 <= n)%nat ->
  (forall i, (i < n)%nat -> nth_error (dists_of (accepted h)) i = Some (Normal (nm i) (mu i) (sd i))) ->
  (forall i, (i < n)%nat -> 0 < sd i <= 10 ^ 290) -> (exists i, (i < n)%nat /\ cf i <> 0) ->
  pointwise expr f -> (forall q, length q = n -> f (args_at h q) = c0 + fsum n (fun i => cf i * nth i q 0)) ->
  exact_options fo -> (n + 7 < lf)%nat -> (Z.to_nat (fo_imax fo) < fuel)%nat ->
  sm_corr s = Some M -> length M = n -> (forall r, In r M -> length r = n) ->
  computeModifiedCorrelationMatrix fmin n n (mat_of M) (fun i => marg_of (marg_at s i)) = Ok (Ro, log) -> pos_def n Ro ->
  let mean := c0 + fsum n (fun i => cf i * mu i) in
  let variance := fsum n (fun i => fsum n (fun j => (cf i * sd i) * Ro i j * (cf j * sd j))) in
  let mg i := normal_marg (mu i) (sd i) in
  exists r s', cf_sens fmin chol svd inv fuel lf expr fo evn a mg s = (s', CfDone r) /\
    (forall k, (k < n)%nat ->
       (forall i j, (j < i)%nat -> (i < n)%nat -> k = i \/ k = j -> mat_of M i j <> 0 -> nodes_inside (mat_of M i j)) ->
       tiny < phi (mean / variance * fsum n (fun j => Ro k j * (cf j * sd j))) ->
       is_derive (fun m => margin_beta n c0 cf (vset mu k m) sd Ro) (mu k) (cf_marg r k "mean") /\
       is_derive (fun m => margin_beta n c0 cf mu (vset sd k m) Ro) (sd k) (cf_marg r k "std")) /\
    (fb_type a = "cholesky"%string -> (forall C L, chol n C = Ok L -> cholesky_factor n L C) ->
     forall i j, (j < i)%nat -> (i < n)%nat ->
       let d := drho_drho0 (Ro i j) (mg i) (mg j) (cf_grid mg (mat_of M) i j) in tiny < Rabs d ->
       is_derive (fun q => margin_beta n c0 cf mu sd (set_sym Ro i j q)) (Ro i j) (d * cf_corr r i j) /\
       cf_corr r j i = cf_corr r i j).
Proof.
  intros fmin chol svd inv e0 h expr f lf nm mu sd cf c0 M Ro lg a opt fo evn fuel n s Hlap Ha Hn HN Hsd Hcf Hp Hlin Hfo Hlf Hfu HM HM1 HM2 HRo HPD mean variance mg.
  assert (Hsd0 : forall i, (i < n)%nat -> sd i <> 0) by (intros i Hi'; specialize (Hsd i Hi'); lra).
  destruct (ln_all fmin chol svd inv e0 h expr f lf nm mu sd cf c0 M Ro lg a opt Hlap Ha Hn HN Hsd0 Hp Hlin Hlf HRo HPD) as (T & A & ET & EN & EA & ETr).
  cbv zeta in EN, EA, ETr. fold n in EN, EA, ETr. fold s in EA, ETr.
  set (av := fun j => - fsum n (fun i => cf i * sd i * A i j)) in *.
  assert (VP : 0 < variance) by exact (ln_v_pos h sd cf Ro Hsd0 Hcf HPD).
  change (ln_v h sd cf Ro) with variance in EN. change (ln_b h mu cf c0) with mean in *.
  set (ev := form_ev lf s expr default_ls n T A inv (marg_at s)) in *. set (tr := form_trial lf s expr default_ls n A (marg_at s)) in *.
  assert (SV := sqrt_lt_R0 _ VP). assert (SQ := sqrt_sqrt variance ltac:(lra)).
  assert (NA : norm n av <> 0) by (rewrite EN; lra).
  assert (TT : affine_trial n av mean (total_trial n av mean tr)).
  { intros us. unfold total_trial. destruct (Nat.eqb_spec (length us) ntrial) as [El|]; [|eauto]. apply ETr. rewrite El. unfold ntrial. lia. }
  assert (U0 : veq n (computeStartingPoint n T (marg_at s)) (fun _ => 0)) by exact (PipeProps.ln_start h nm mu sd HN T).
  destruct (affine_exact n fo ev (total_trial n av mean tr) evn av mean NA EA TT Hfo fuel (computeStartingPoint n T (marg_at s)) Hfu U0) as (r & c & E & _ & EB & (u & Eu & Hu) & _).
  assert (EM : length (sm_marg s) = n) by (destruct (registry h) as (_ & _ & X & _); unfold s; rewrite X; reflexivity).
  destruct (C92_run_composition fmin chol svd inv s M n Ro lg T A fuel lf expr fo evn a HM HM1 HM2 EM HRo ET) as (c' & a' & R1 & R2 & R3 & R4 & R5).
  assert (EF : form_from n fo evn fuel lf s expr T A inv (marg_at s) = (FDone r, c)).
  { unfold form_from. rewrite (proj1 Hfo). fold ev tr. rewrite <- E. unfold form_run. apply loop_trial_ext. intros us Hl. unfold total_trial. rewrite Hl, Nat.eqb_refl. reflexivity. }
  rewrite EF in R1. injection R1 as Er Ec. subst c'.
  destruct (run_form fmin chol svd inv fuel lf expr fo evn a s) as [[a1 s1] out1] eqn:ER. cbn [fst snd] in R2, R5, Er. subst out1. injection R2 as -> ->.
  assert (EG : veq n (fr_grad r) (fun i => - av i)).
  { unfold form_run in E. destruct (loop_spec n fo ev _ evn _ _ _ _ _ _ _ _ _ E) as (_ & _ & _ & _ & _ & G). destruct (G u Eu) as [G1 _].
    destruct (EA u) as (g & k & Ev & Eg). rewrite Ev in G1. cbn in G1. injection G1 as _ <-. exact Eg. }
  assert (AL : veq n (alpha_of n (fr_grad r)) (fun i => av i / sqrt variance)).
  { intros i Hi'. unfold alpha_of. rewrite (EG i Hi'), (norm_ext n _ _ EG).
    rewrite (norm_ext n (fun i => - av i) (fun i => (-1) * av i)) by (intros j _; ring). rewrite norm_scale_vec, EN.
    replace (Rabs (-1)) with 1 by (rewrite Rabs_left; lra). rewrite Rmult_1_l. unfold Rdiv. ring. }
  assert (FP : inverse_pair n T A /\ factor_of n A Ro).
  { destruct (ln_factor fmin chol svd inv e0 h M Ro lg a opt Hlap Ha HRo HPD) as (T1 & A1 & E1 & P1 & F1). fold n in E1, ET. rewrite ET in E1. injection E1 as <- <-. now split. }
  destruct FP as [HT HF].
  destruct (cf_core fmin chol svd inv e0 h expr lf nm mu sd cf M Ro lg a fo evn fuel Hlap HN Hsd HRo T A a'
     (addCallFunction (setModifiedCorrelation s (rows_of n Ro)) c) r u (mean / variance) HT HF ER R4 HM eq_refl eq_refl Eu) as (res & Er & Hm & Hc & Hsy).
  { intros i Hi'. rewrite (Hu i Hi'), EN, SQ. reflexivity. }
  { exact AL. }
  fold n s in Er, Hm, Hc, Hsy. fold variance in Hm, Hc.
  assert (SY := core_sym fmin h M Ro lg HRo).
  exists res, (addCallFunction (setModifiedCorrelation s (rows_of n Ro)) c). split; [exact Er|]. split.
  - intros k Hk HQ Hphi. destruct (Hm k Hk HQ Hphi) as [-> ->]. split.
    + exact (beta_dmu n c0 cf mu sd Ro k Hk).
    + exact (beta_dsd n c0 cf mu sd Ro VP SY k Hk).
  - intros Hty Hch i j Hj Hi' d Hd. split; [|apply Hsy].
    assert (HC : cholesky_factor n A Ro).
    { assert (X := ET). fold n in X. unfold transf_compute in X. rewrite Hty in X. cbn [String.eqb Ascii.eqb Bool.eqb] in X. unfold computeCholesky, rbind in X.
      destruct (chol n (mat_of (rows_of n Ro))) as [L|] eqn:EL; [|discriminate]. destruct (inv n L); [|discriminate]. injection X as _ <-.
      destruct (Hch _ _ EL) as (C1 & C2 & _). split; [exact C1|split; [exact C2|exact HF]]. }
    assert (D0 : d <> 0) by (intros Z; rewrite Z, Rabs_R0 in Hd; pose proof tiny_pos; lra).
    assert (ED : drho0_drho mg Ro (cf_grid mg (mat_of M)) i j = 1 / d).
    { unfold drho0_drho. change (drho_drho0 (Ro i j) (mg i) (mg j) (cf_grid mg (mat_of M) i j)) with d. cbv zeta. now rewrite (proj2 (Rltb_spec tiny (Rabs d)) Hd). }
    assert (EC : d * cf_corr res i j = - (mean / variance * (cf i * sd i) * (cf j * sd j)) / sqrt variance).
    { assert (HX : cf_corr res i j = - (mean / variance * (cf i * sd i) * (cf j * sd j)) / sqrt variance * drho0_drho mg Ro (cf_grid mg (mat_of M)) i j) by exact (Hc HC i j Hj Hi').
      rewrite HX, ED. field. repeat split; lra. }
    rewrite EC.
    exact (beta_drho n c0 cf mu sd Ro VP SY i j Hj Hi').
Qed.
Print Assumptions C96_closed_form_exact.

(** ... in particular with all options at their defaults *)
Theorem C96_default_options :
  forall fmin chol svd inv e0 h expr f lf nm (mu sd cf : vec) c0 M Ro log a opt evn fuel,
  let n := ndists h in let s := sm_run h in
  lapack n chol svd inv e0 -> form_init opt = Ok a -> (1 <= n)%nat ->
  (forall i, (i < n)%nat -> nth_error (dists_of (accepted h)) i = Some (Normal (nm i) (mu i) (sd i))) ->
  (forall i, (i < n)%nat -> 0 < sd i <= 10 ^ 290) -> (exists i, (i < n)%nat /\ cf i <> 0) ->
  pointwise expr f -> (forall q, length q = n -> f (args_at h q) = c0 + fsum n (fun i => cf i * nth i q 0)) ->
  (n + 7 < lf)%nat -> (100 < fuel)%nat ->
  sm_corr s = Some M -> length M = n -> (forall r, In r M -> length r = n) ->
  computeModifiedCorrelationMatrix fmin n n (mat_of M) (fun i => marg_of (marg_at s i)) = Ok (Ro, log) -> pos_def n Ro ->
  let mean := c0 + fsum n (fun i => cf i * mu i) in
  let variance := fsum n (fun i => fsum n (fun j => (cf i * sd i) * Ro i j * (cf j * sd j))) in
  let mg i := normal_marg (mu i) (sd i) in
  exists r s', cf_sens fmin chol svd inv fuel lf expr default_options evn a mg s = (s', CfDone r) /\
    (forall k, (k < n)%nat ->
       (forall i j, (j < i)%nat -> (i < n)%nat -> k = i \/ k = j -> mat_of M i j <> 0 -> nodes_inside (mat_of M i j)) ->
       tiny < phi (mean / variance * fsum n (fun j => Ro k j * (cf j * sd j))) ->
       is_derive (fun m => margin_beta n c0 cf (vset mu k m) sd Ro) (mu k) (cf_marg r k "mean") /\
       is_derive (fun m => margin_beta n c0 cf mu (vset sd k m) Ro) (sd k) (cf_marg r k "std")) /\
    (fb_type a = "cholesky"%string -> (forall C L, chol n C = Ok L -> cholesky_factor n L C) ->
     forall i j, (j < i)%nat -> (i < n)%nat ->
       let d := drho_drho0 (Ro i j) (mg i) (mg j) (cf_grid mg (mat_of M) i j) in tiny < Rabs d ->
       is_derive (fun q => margin_beta n c0 cf mu sd (set_sym Ro i j q)) (Ro i j) (d * cf_corr r i j) /\
       cf_corr r j i = cf_corr r i j).
Proof. intros. eapply C96_closed_form_exact; try eassumption. exact default_exact. Qed.
Print Assumptions C96_default_options.

(** C96: R - 3 S for R ~ N(200, 20), S ~ N(40, 5), independent: beta = 80/25; the four reported
    sensitivities are 1/25, -80*20/25^3, -3/25 and -80*45/25^3. *)
Example C96_example : forall fmin, exists r s',
  cf_sens fmin chol2 svd2 inv2 101 10 expr_ex (mkfo 100 (1 / 1000) (1 / 1000) 1 default_ls) None aF (fun i => normal_marg (pick 200 40 i) (pick 20 5 i)) (sm_run h_pipe) = (s', CfDone r) /\
  cf_marg r 0 "mean" = 1 / 25 /\ cf_marg r 0 "std" = - (80 * 20) / 25 ^ 3 /\
  cf_marg r 1 "mean" = - 3 / 25 /\ cf_marg r 1 "std" = - (80 * 45) / 25 ^ 3.
Proof.
  intros fmin.
  destruct (modified_ok fmin 2 (mat_of (eye_rows 2)) (fun i => marg_of (marg_at (sm_run h_pipe) i)) 2 (le_n 2)) as (Ro & E & D & S & L & _).
  match type of E with _ = Ok (_, ?x) => set (lg := x) in * end.
  assert (R10 : Ro 1%nat 0%nat = 0).
  { rewrite L by lia. unfold pair_value. unfold mat_of. cbn [nth]. cbn. now rewrite (proj2 (Reqb_spec 0 0) eq_refl). }
  assert (EI : forall i j, (i < 2)%nat -> (j < 2)%nat -> Ro i j = delta i j).
  { intros i j Hi Hj. two i Hi; two j Hj; cbn; rewrite ?D, ?R10; try reflexivity. rewrite (S 0%nat 1%nat), R10. reflexivity. }
  destruct (C96_closed_form_exact fmin chol2 svd2 inv2 ERuntime h_pipe expr_ex g_ex 10 (pick "R" "S")%string (pick 200 40) (pick 20 5) (pick 1 (-3)) 0
     (eye_rows 2) Ro lg aF None (mkfo 100 (1 / 1000) (1 / 1000) 1 default_ls) None 101) as (r & s' & ER & EM & _);
    change (ndists h_pipe) with 2%nat; try exact lapack2; try reflexivity; try exact pointwise_ex; cbn [fo_ls fo_step fo_e1 fo_e2 fo_imax]; try lra; try lia; try exact E.
  - intros i Hi. now apply h_pipe_norm.
  - intros i Hi. two i Hi; cbn [pick]; (split; [lra|]); apply Rle_trans with (10 ^ 2); try (apply Rle_pow; [lra|lia]); lra.
  - exists 0%nat. split; [lia|]. cbn. lra.
  - intros q Hq. now apply h_pipe_lin.
  - split; [reflexivity|]. split; [cbn; lra|]. left. cbn. repeat split; try lra; lia.
  - intros q Hq. cbn in Hq. destruct Hq as [<-|[<-|[]]]; reflexivity.
  - now apply eye_posdef.
  - change (ndists h_pipe) with 2%nat in EM.
    set (v := fsum 2 (fun i => fsum 2 (fun j => pick 1 (-3) i * pick 20 5 i * Ro i j * (pick 1 (-3) j * pick 20 5 j)))) in *.
    assert (EV : v = 625) by (unfold v; cbn [fsum pick]; rewrite !D, (S 0%nat 1%nat), R10; ring).
    assert (VP : 0 < v) by lra.
    assert (SV : sqrt v = 25) by (rewrite EV; replace 625 with (Rsqr 25) by (unfold Rsqr; ring); apply sqrt_Rsqr; lra).
    assert (SY : symmetric 2 Ro) by (intros i j _ _; apply S).
    assert (ND : forall k, (forall i j, (j < i)%nat -> (i < 2)%nat -> k = i \/ k = j -> mat_of (eye_rows 2) i j <> 0 -> nodes_inside (mat_of (eye_rows 2) i j))).
    { intros k i j Hj Hi _ Hz. exfalso. apply Hz. assert (i = 1%nat) as -> by lia. assert (j = 0%nat) as -> by lia. reflexivity. }
    assert (V0 := EM 0%nat ltac:(lia) (ND 0%nat)). assert (V1 := EM 1%nat ltac:(lia) (ND 1%nat)).
    assert (B1 : forall k, (k < 2)%nat -> Derive (fun m => margin_beta 2 0 (pick 1 (-3)) (vset (pick 200 40) k m) (pick 20 5) Ro) (pick 200 40 k) = pick 1 (-3) k / sqrt v).
    { intros k Hk. apply is_derive_unique. exact (beta_dmu 2 0 (pick 1 (-3)) (pick 200 40) (pick 20 5) Ro k Hk). }
    assert (B2 : forall k, (k < 2)%nat -> Derive (fun m => margin_beta 2 0 (pick 1 (-3)) (pick 200 40) (vset (pick 20 5) k m) Ro) (pick 20 5 k)
       = - ((0 + fsum 2 (fun i => pick 1 (-3) i * pick 200 40 i)) / v * pick 1 (-3) k * fsum 2 (fun j => Ro k j * (pick 1 (-3) j * pick 20 5 j))) / sqrt v).
    { intros k Hk. apply is_derive_unique. exact (beta_dsd 2 0 (pick 1 (-3)) (pick 200 40) (pick 20 5) Ro VP SY k Hk). }
    rewrite SV in B1, B2. rewrite EV in *.
    cbn [fsum] in V0, V1, B2. 
    assert (P0 : tiny < phi ((0 + (0 + pick 1 (-3) 0 * pick 200 40 0 + pick 1 (-3) 1 * pick 200 40 1)) / 625 * (0 + Ro 0%nat 0%nat * (pick 1 (-3) 0 * pick 20 5 0) + Ro 0%nat 1%nat * (pick 1 (-3) 1 * pick 20 5 1)))).
    { rewrite D, (S 0%nat 1%nat), R10. cbn [pick]. pose proof tiny_pos. match goal with |- _ < phi ?x => pose proof (SensProps.phi_ge_tiny x ltac:(lra)) end. lra. }
    assert (P1 : tiny < phi ((0 + (0 + pick 1 (-3) 0 * pick 200 40 0 + pick 1 (-3) 1 * pick 200 40 1)) / 625 * (0 + Ro 1%nat 0%nat * (pick 1 (-3) 0 * pick 20 5 0) + Ro 1%nat 1%nat * (pick 1 (-3) 1 * pick 20 5 1)))).
    { rewrite D, R10. cbn [pick]. pose proof tiny_pos. match goal with |- _ < phi ?x => pose proof (SensProps.phi_ge_tiny x ltac:(lra)) end. lra. }
    destruct (V0 P0) as [A0 A1]. destruct (V1 P1) as [A2 A3].
    apply is_derive_unique in A0, A1, A2, A3. 
    assert (C0 := eq_trans (eq_sym (B1 0%nat ltac:(lia))) A0). assert (C2 := eq_trans (eq_sym (B1 1%nat ltac:(lia))) A2).
    assert (C1 := eq_trans (eq_sym (B2 0%nat ltac:(lia))) A1). assert (C3 := eq_trans (eq_sym (B2 1%nat ltac:(lia))) A3).
    exists r, s'. split; [exact ER|]. rewrite <- C0, <- C1, <- C2, <- C3. cbn [fsum]. rewrite !D, (S 0%nat 1%nat), R10. cbn [pick]. repeat split; field.
Qed.
