(** Proofs for C127: limit states that are a function of one linear (or log-linear) combination. *)
From Coquelicot Require Import Coquelicot.
From Verif Require Import Base Ext Dict Gauss GaussProofs StochModel StochModelSpec StochModelProofs LimitState LimitStateSpec LimitStateProofs LimitStateProps Transf TransfSpec TransfProofs Form FormProofs FormAffineProofs FormNormalProofs FormProps Dist DistMomProofs Pipe SormQuadSpec LogLin LogLinSpec LogLinProofs.
From Coq Require Import ZArith Lra Lia.
Open Scope R_scope.

(** the evaluation of psi(b - a.u) *)
Definition ridge_of (n : nat) (a : vec) (b : R) (psi dpsi : R -> R) (ev : vec -> result (R * vec) * nat) : Prop :=
  forall u, exists g k, ev u = (Ok (psi (b - dot n a u), g), k) /\ veq n g (fun i => - dpsi (b - dot n a u) * a i).

Section Ridge.
  Variables (h : list smop) (expr : expression) (f : list (string * R) -> R) (gr : list (string * R) -> list R) (o : lsopts) (fuel : nat).
  Variables (T A : mat) (inv : nat -> mat -> result mat) (m : nat -> rv).
  Let n := ndists h.
  Variables (c0 : R) (cf loc sc : vec) (ok : nat -> R -> Prop) (ph dph : nat -> R -> R) (psi dpsi : R -> R).
  Hypothesis Hp : with_gradient expr f gr.
  Hypothesis Hn : (1 <= n)%nat.
  Hypothesis Hb : (1 <= o_block_size o)%Z.
  Hypothesis Hfu : (ntrial < fuel)%nat.
  Hypothesis Hmp : o_multi_proc o = 1%Z.
  Hypothesis Hd : o_diff_mode o = "ddm"%string.
  Hypothesis HT : inverse_pair n T A.
  Hypothesis HI : inv_contract n inv.
  Hypothesis HIex : forall X Y, inverse_pair n Y X -> exists C, inv n X = Ok C.
  Hypothesis Hq : forall q, length q = n -> (forall i, (i < n)%nat -> ok i (nth i q 0)) ->
    let l := c0 + fsum n (fun i => cf i * ph i (nth i q 0)) in
    f (args_at h q) = psi l /\ gr (args_at h q) = map (fun i => dpsi l * (cf i * dph i (nth i q 0))) (seq 0 n).
  Hypothesis Hm : forall i z, (i < n)%nat -> let x := rv_u2x (m i) z in
    ok i x /\ ph i x = loc i + sc i * z /\ rv_jac (m i) z x <> 0 /\ dph i x * / rv_jac (m i) z x = sc i.

  Let b := c0 + fsum n (fun i => cf i * loc i).
  Let av : vec := fun j => - fsum n (fun i => cf i * sc i * A i j).

  Lemma l_ok u : length (vlist n (u_to_x n A m u)) = n /\ forall i, (i < n)%nat -> ok i (nth i (vlist n (u_to_x n A m u)) 0).
  Proof. split; [apply vlist_length|]. intros i Hi. rewrite vlist_nth by exact Hi. apply (Hm i _ Hi). Qed.
  Lemma l_lin u : c0 + fsum n (fun i => cf i * ph i (nth i (vlist n (u_to_x n A m u)) 0)) = b - dot n av u.
  Proof.
    rewrite (fsum_ext n _ (fun i => cf i * loc i + fsum n (fun j => cf i * sc i * A i j * u j))).
    - rewrite fsum_plus. unfold b, av, dot. rewrite fsum_swap.
      rewrite (fsum_ext n (fun j => - fsum n (fun i => cf i * sc i * A i j) * u j) (fun j => - fsum n (fun i => cf i * sc i * A i j * u j))).
      + rewrite fsum_opp. ring.
      + intros j _. rewrite fsum_scal_r. ring.
    - intros i Hi. rewrite vlist_nth by exact Hi. unfold u_to_x. cbv zeta. rewrite (proj1 (proj2 (Hm i _ Hi))).
      rewrite Rmult_plus_distr_l. f_equal. unfold mvec. rewrite <- !fsum_scal. apply fsum_ext. intros; ring.
  Qed.
  Lemma l_value u : f (args_at h (vlist n (u_to_x n A m u))) = psi (b - dot n av u).
  Proof. destruct (l_ok u) as (L & K). pose proof (proj1 (Hq _ L K)) as Q. cbv zeta in Q. rewrite Q, l_lin. reflexivity. Qed.
  Lemma l_ev : ridge_of n av b psi dpsi (form_ev fuel (sm_run h) expr o n T A inv m).
  Proof.
    intros u. unfold form_ev. cbv zeta. unfold computeTransformation. set (x := u_to_x n A m u).
    assert (JI : inverse_pair n (jacobian n T A m u x) (fun i j => / rv_jac (m i) (mvec n A u i) (x i) * A i j)).
    { apply jac_inverse; [exact HT|]. intros i Hi. apply (Hm i (mvec n A u i) Hi). }
    assert (JI' : inverse_pair n (fun i j => / rv_jac (m i) (mvec n A u i) (x i) * A i j) (jacobian n T A m u x)) by (destruct JI; split; assumption).
    destruct (HIex _ _ JI') as [J EJ]. rewrite EJ. pose proof (HI _ _ EJ) as HJ.
    assert (EJJ : meq n J (fun i j => / rv_jac (m i) (mvec n A u i) (x i) * A i j)).
    { assert (HJ' : inverse_pair n (jacobian n T A m u x) J) by (destruct HJ; split; assumption). exact (inverse_unique n _ _ _ HJ' JI). }
    destruct (l_ok u) as (LX & KX). fold x in LX, KX.
    destruct Hp as (Hpw & Hgr).
    assert (KN : kwfull h [vlist n x] <> []) by (apply kwfull_nonnil; exact Hn).
    assert (KA : map (fun kv => (fst kv, nth 0 (snd kv) 0)) (kwfull h [vlist n x]) = args_at h (vlist n x)) by (apply (kwfull_at h [vlist n x] 0); [cbn; lia|exact LX]).
    destruct (Hgr (kwfull h [vlist n x]) KN ltac:(intros k v Hkv; apply kwfull_lengths in Hkv; exact Hkv)) as (G & EG). rewrite KA in EG.
    destruct (Hpw (kwfull h [vlist n x]) 1%nat KN ltac:(intros k v Hkv; apply kwfull_lengths in Hkv; exact Hkv)) as (out & EO & EV).
    rewrite EG in EO. injection EO as <-. cbn [value_of seq map] in EV. rewrite KA in EV. subst G.
    pose proof (proj2 (Hq _ LX KX)) as Q2. cbv zeta in Q2. unfold x in Q2. rewrite l_lin in Q2. fold x in Q2. rewrite Q2 in EG. set (d := dpsi (b - dot n av u)) in *. set (gl := map (fun i => d * (cf i * dph i (nth i (vlist n x) 0))) (seq 0 n)) in *.
    assert (ED : ev_out (evaluate_lsf fuel (sm_run h) expr o None n [vlist n x]) = ODone [f (args_at h (vlist n x))] [gl]).
    { unfold evaluate_lsf. rewrite Hmp, Hd. cbn [Z.eqb Pos.eqb String.eqb Ascii.eqb Bool.eqb].
      apply (ddm_one_point h expr (vlist n x) _ gl LX); [unfold gl; now rewrite map_length, seq_length|exact EG]. }
    rewrite ED. eexists. eexists. split; [cbn [nth]; unfold x; rewrite l_value; reflexivity|].
    intros j Hj. cbn [nth]. unfold pull_gradient. fold d. transitivity (fsum n (fun i => d * (cf i * sc i * A i j))); [|unfold av; rewrite fsum_scal; ring]. apply fsum_ext. intros i Hi.
    rewrite (EJJ i j Hi Hj). unfold vof, gl. rewrite nth_map_seq by exact Hi. rewrite vlist_nth by exact Hi. unfold x, u_to_x. cbv zeta.
    destruct (Hm i (mvec n A u i) Hi) as (_ & _ & _ & ES). rewrite <- ES. ring.
  Qed.
End Ridge.
