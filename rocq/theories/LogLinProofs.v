(** Proofs for C104: limit states linear in a function of each variable that is affine in u. *)
From Coquelicot Require Import Coquelicot.
From Verif Require Import Base Ext Dict Gauss GaussProofs StochModel StochModelSpec StochModelProofs LimitState LimitStateSpec LimitStateProofs LimitStateProps Transf TransfSpec TransfProofs Form FormProofs FormAffineProofs FormNormalProofs FormProps Dist DistMomProofs Pipe SormQuadSpec LogLin LogLinSpec.
From Coq Require Import ZArith Lra Lia.
Open Scope R_scope.

Section N.
  Variables (h : list smop) (expr : expression) (f : list (string * R) -> R) (gr : list (string * R) -> list R) (o : lsopts) (fuel : nat).
  Variables (T A : mat) (inv : nat -> mat -> result mat) (m : nat -> rv).
  Let n := ndists h.
  Variables (c0 : R) (cf loc sc : vec) (ok : nat -> R -> Prop) (ph dph : nat -> R -> R).
  Hypothesis Hp : with_gradient expr f gr.
  Hypothesis Hn : (1 <= n)%nat.
  Hypothesis Hb : (1 <= o_block_size o)%Z.
  Hypothesis Hfu : (ntrial < fuel)%nat.
  Hypothesis Hmp : o_multi_proc o = 1%Z.
  Hypothesis Hd : o_diff_mode o = "ddm"%string.
  Hypothesis HT : inverse_pair n T A.
  Hypothesis HI : inv_contract n inv.
  Hypothesis HIex : forall X Y, inverse_pair n Y X -> exists C, inv n X = Ok C.
  Hypothesis Hq : forall q, length q = n -> (forall i, (i < n)%nat -> ok i (nth i q 0)) ->
    f (args_at h q) = c0 + fsum n (fun i => cf i * ph i (nth i q 0)) /\ gr (args_at h q) = map (fun i => cf i * dph i (nth i q 0)) (seq 0 n).
  Hypothesis Hm : forall i z, (i < n)%nat -> let x := rv_u2x (m i) z in
    ok i x /\ ph i x = loc i + sc i * z /\ rv_jac (m i) z x <> 0 /\ dph i x * / rv_jac (m i) z x = sc i.

  Let b := c0 + fsum n (fun i => cf i * loc i).
  Let av : vec := fun j => - fsum n (fun i => cf i * sc i * A i j).

  Lemma l_ok u : length (vlist n (u_to_x n A m u)) = n /\ forall i, (i < n)%nat -> ok i (nth i (vlist n (u_to_x n A m u)) 0).
  Proof. split; [apply vlist_length|]. intros i Hi. rewrite vlist_nth by exact Hi. apply (Hm i _ Hi). Qed.
  Lemma l_value u : f (args_at h (vlist n (u_to_x n A m u))) = b - dot n av u.
  Proof.
    destruct (l_ok u) as (L & K). rewrite (proj1 (Hq _ L K)).
    rewrite (fsum_ext n _ (fun i => cf i * loc i + fsum n (fun j => cf i * sc i * A i j * u j))).
    - rewrite fsum_plus. unfold b, av, dot. rewrite fsum_swap.
      rewrite (fsum_ext n (fun j => - fsum n (fun i => cf i * sc i * A i j) * u j) (fun j => - fsum n (fun i => cf i * sc i * A i j * u j))).
      + rewrite fsum_opp. ring.
      + intros j _. rewrite fsum_scal_r. ring.
    - intros i Hi. rewrite vlist_nth by exact Hi. unfold u_to_x. cbv zeta. rewrite (proj1 (proj2 (Hm i _ Hi))).
      rewrite Rmult_plus_distr_l. f_equal. unfold mvec. rewrite <- !fsum_scal. apply fsum_ext. intros; ring.
  Qed.
  Lemma l_ev : affine_ev n av b (form_ev fuel (sm_run h) expr o n T A inv m).
  Proof.
    intros u. unfold form_ev. cbv zeta. unfold computeTransformation. set (x := u_to_x n A m u).
    assert (JI : inverse_pair n (jacobian n T A m u x) (fun i j => / rv_jac (m i) (mvec n A u i) (x i) * A i j)).
    { apply jac_inverse; [exact HT|]. intros i Hi. apply (Hm i (mvec n A u i) Hi). }
    assert (JI' : inverse_pair n (fun i j => / rv_jac (m i) (mvec n A u i) (x i) * A i j) (jacobian n T A m u x)) by (destruct JI; split; assumption).
    destruct (HIex _ _ JI') as [J EJ]. rewrite EJ. pose proof (HI _ _ EJ) as HJ.
    assert (EJJ : meq n J (fun i j => / rv_jac (m i) (mvec n A u i) (x i) * A i j)).
    { assert (HJ' : inverse_pair n (jacobian n T A m u x) J) by (destruct HJ; split; assumption). exact (inverse_unique n _ _ _ HJ' JI). }
    destruct (l_ok u) as (LX & KX). fold x in LX, KX.
    destruct Hp as (Hpw & Hgr).
    assert (KN : kwfull h [vlist n x] <> []) by (apply kwfull_nonnil; exact Hn).
    assert (KA : map (fun kv => (fst kv, nth 0 (snd kv) 0)) (kwfull h [vlist n x]) = args_at h (vlist n x)) by (apply (kwfull_at h [vlist n x] 0); [cbn; lia|exact LX]).
    destruct (Hgr (kwfull h [vlist n x]) KN ltac:(intros k v Hkv; apply kwfull_lengths in Hkv; exact Hkv)) as (G & EG). rewrite KA in EG.
    destruct (Hpw (kwfull h [vlist n x]) 1%nat KN ltac:(intros k v Hkv; apply kwfull_lengths in Hkv; exact Hkv)) as (out & EO & EV).
    rewrite EG in EO. injection EO as <-. cbn [value_of seq map] in EV. rewrite KA in EV. subst G.
    rewrite (proj2 (Hq _ LX KX)) in EG. set (gl := map (fun i => cf i * dph i (nth i (vlist n x) 0)) (seq 0 n)) in *.
    assert (ED : ev_out (evaluate_lsf fuel (sm_run h) expr o None n [vlist n x]) = ODone [f (args_at h (vlist n x))] [gl]).
    { unfold evaluate_lsf. rewrite Hmp, Hd. cbn [Z.eqb Pos.eqb String.eqb Ascii.eqb Bool.eqb].
      apply (ddm_one_point h expr (vlist n x) _ gl LX); [unfold gl; now rewrite map_length, seq_length|exact EG]. }
    rewrite ED. eexists. eexists. split; [cbn [nth]; unfold x; rewrite l_value; reflexivity|].
    intros j Hj. cbn [nth]. unfold pull_gradient, av. rewrite Ropp_involutive. apply fsum_ext. intros i Hi.
    rewrite (EJJ i j Hi Hj). unfold vof, gl. rewrite nth_map_seq by exact Hi. rewrite vlist_nth by exact Hi. unfold x, u_to_x. cbv zeta.
    destruct (Hm i (mvec n A u i) Hi) as (_ & _ & _ & ES). rewrite <- ES. ring.
  Qed.
  Lemma l_trial us : length us = ntrial -> exists k, form_trial fuel (sm_run h) expr o n A m us = (Ok (map (fun u => b - dot n av u) us), k).
  Proof.
    intros Hus. unfold form_trial. cbv zeta. unfold n.
    rewrite (dispatch_nogradient fuel h expr f o (Some "no"%string) _ ltac:(rewrite Hmp; discriminate) (or_introl (ex_intro _ _ eq_refl)) (proj1 Hp) Hn).
    - eexists. rewrite map_map. f_equal. f_equal. apply map_ext. intros u. apply l_value.
    - intros p Hin. apply in_map_iff in Hin. destruct Hin as (u & <- & _). apply vlist_length.
    - exact Hb.
    - rewrite map_length, Hus. exact Hfu.
  Qed.
End N.

(** the two classes *)
Lemma log_pos m s : 0 < m -> 0 < s -> 0 < ln (1 + (s / m) ^ 2).
Proof.
  intros Hm Hs. rewrite <- ln_1. apply ln_increasing; [lra|]. assert (0 < (s / m) ^ 2) by (apply pow_lt, Rdiv_lt_0_compat; assumption). lra.
Qed.
Lemma log_sd_pos m s : 0 < m -> 0 < s -> 0 < log_sd m s.
Proof. intros Hm Hs. apply sqrt_lt_R0, log_pos; assumption. Qed.
Lemma log_sd_sq m s : 0 < m -> 0 < s -> (log_sd m s) ^ 2 = ln (1 + (s / m) ^ 2).
Proof. intros Hm Hs. unfold log_sd. pose proof (sqrt_sqrt _ (Rlt_le _ _ (log_pos m s Hm Hs))). cbn [pow] in *. rewrite !Rmult_1_r in *. assumption. Qed.
Lemma params_spec m s : ln_params m s = (log_mean m s, log_sd m s).
Proof.
  unfold ln_params, log_mean, log_sd. cbv zeta. replace (s / m * (s / m)) with ((s / m) ^ 2) by ring. f_equal. set (q := sqrt _). field.
Qed.
Lemma term_ok lg nm mu sd i z : moments_ok lg mu sd i -> let d := variable lg nm mu sd i in let x := rv_u2x d z in
  (lg i = true -> 0 < x) /\ (if lg i then ln x else x) = term_mean lg mu sd i + term_sd lg mu sd i * z /\
  rv_jac d z x <> 0 /\ (if lg i then / x else 1) * / rv_jac d z x = term_sd lg mu sd i.
Proof.
  unfold moments_ok, variable, term_mean, term_sd. cbv zeta. destruct (lg i).
  - intros (Hm & Hs). pose proof (log_sd_pos _ _ Hm Hs) as P. unfold Lognormal, rv_of, lognormal_init.
    cbn [rv_u2x rv_jac lognormal_dist d_u2x d_jac ln_lamb ln_zeta]. rewrite params_spec. cbn [fst snd].
    set (l := log_mean (mu i) (sd i)). set (ze := log_sd (mu i) (sd i)) in *. pose proof (exp_pos (z * ze + l)) as PX.
    rewrite (ln_pdf_phi l ze _ P PX), ln_exp. replace ((z * ze + l - l) / ze) with z by (field; lra). pose proof (phi_pos z) as PP.
    set (x := exp (z * ze + l)) in *.
    assert (EJ : phi z / (ze * x) / phi z = / (ze * x)) by (field; repeat split; lra). rewrite EJ.
    split; [intros _; exact PX|]. split; [ring|]. split; [apply Rinv_neq_0_compat; intros E; apply Rmult_integral in E; lra|]. field. lra.
  - intros Hs. unfold Normal, rv_of. cbn. split; [discriminate|]. split; [ring|].
    split; [unfold Rdiv; rewrite Rmult_1_l; now apply Rinv_neq_0_compat|]. unfold Rdiv. rewrite !Rmult_1_l. now apply Rinv_involutive.
Qed.
Lemma term_sd_nz lg mu sd i : moments_ok lg mu sd i -> term_sd lg mu sd i <> 0.
Proof. unfold moments_ok, term_sd. destruct (lg i); [intros (A & B); pose proof (log_sd_pos _ _ A B); lra|auto]. Qed.
