From Coquelicot Require Import Coquelicot.
From Verif Require Import ScaleFormProofs Base Ext Dict Gauss GaussProofs StochModel StochModelSpec StochModelProofs LimitState LimitStateSpec LimitStateProofs Transf TransfSpec TransfProofs Form FormProofs Nataf NatafProofs Dist RotSpec RotProofs Pipe PipeProofs PipeSpec GramSchmidt GramSchmidtProofs Sorm SormProofs Valid SormRun SormRunSpec.
From Coq Require Import ZArith Lra Lia Permutation Classical.
Open Scope R_scope.

(** ** Breitung with zero curvatures *)
Lemma xprod_ones c m : xprod (map (fun k => pow_mhalf (1 + c * k)) (repeat 0 m)) = Fin 1.
Proof.
  rewrite (map_ext_in _ (fun _ => Fin 1)).
  2: { intros k Hk. apply repeat_spec in Hk. subst k. rewrite Rmult_0_r, Rplus_0_r. unfold pow_mhalf. rewrite (proj2 (Rltb_spec 0 1)) by lra. now rewrite sqrt_1, Rinv_1. }
  rewrite <- (map_map (fun _ => 1) Fin). rewrite xprod_fin. f_equal. induction m as [|m IH]; [reflexivity|]. cbn [repeat map lprod fold_right] in *. unfold lprod in *. cbn. rewrite IH. ring.
Qed.
Lemma breit_zero beta c m : guard_cf c (repeat 0 m) = false -> breitung_cf beta c (repeat 0 m) = mksr (Fin (Phi (- beta))) (Fin beta) false.
Proof.
  intros H. unfold breitung_cf. rewrite H. cbn [negb]. cbv zeta. rewrite xprod_ones. cbn [xmul]. rewrite Rmult_1_r.
  rewrite xppf_in by apply Phi_bound. rewrite ppf_Phi. cbn [xneg]. now rewrite Ropp_involutive.
Qed.
Lemma guard_zero_pos c m : 0 <= c -> guard_cf c (repeat 0 m) = false.
Proof.
  intros H. unfold guard_cf. destruct (Reqb c 0) eqn:E; [reflexivity|]. apply Reqb_false in E.
  apply existsb_false_Forall, Forall_forall. intros k Hk. apply repeat_spec in Hk. subst k. apply Rltb_false.
  assert (0 < / c) by (apply Rinv_0_lt_compat; lra). unfold Rdiv. lra.
Qed.
Lemma guard_zero_neg c m : c < 0 -> (1 <= m)%nat -> guard_cf c (repeat 0 m) = true.
Proof.
  intros H Hm. unfold guard_cf. replace (Reqb c 0) with false by (symmetry; apply Reqb_false; lra).
  destruct m as [|m]; [lia|]. cbn. apply orb_true_intro. left. apply Rltb_spec.
  assert (/ c < 0) by (apply Rinv_lt_0_compat; lra). unfold Rdiv. lra.
Qed.
Lemma breit_pf_zero beta c m : breitung_pf beta c (repeat 0 m) (repeat 0 m) = mksr (Fin (Phi (- beta))) (Fin beta) false.
Proof.
  rewrite breit_pf_ok. 2,3: (apply Forall_forall; intros k Hk; apply repeat_spec in Hk; subst k; lra).
  cbv zeta. rewrite pfprod_same, bprod_zero, Rmult_1_r. rewrite xppf_in by apply Phi_bound. rewrite ppf_Phi. cbn [xneg]. now rewrite Ropp_involutive.
Qed.

(** ** the zero matrix has the eigenvalue 0 only *)
Lemma eig_each m eig A : eig_contract m eig -> symmetric m A -> exists l, eig m A = Ok l /\ length l = m /\
  forall x, In x l -> exists v : vec, (exists i, (i < m)%nat /\ v i <> 0) /\ forall i, (i < m)%nat -> mvec m A v i = x * v i.
Proof.
  intros HE HA. destruct (HE A HA) as (l & V & E & L & HO & HV). exists l. split; [exact E|]. split; [exact L|].
  intros x Hx. destruct (In_nth l x 0 Hx) as (k & Hk & <-). rewrite L in Hk. exists (V k). split; [|intros i Hi; now apply HV].
  destruct (classic (exists i, (i < m)%nat /\ V k i <> 0)) as [Y|N]; [exact Y|]. exfalso.
  assert (Z : dot m (V k) (V k) = 0).
  { unfold dot. apply fsum_zero. intros i Hi. destruct (Req_dec (V k i) 0) as [->|X]; [ring|]. exfalso. apply N. now exists i. }
  rewrite HO, delta_refl in Z by lia. lra.
Qed.
Lemma eig_zero m eig A : eig_contract m eig -> (forall i j, (i < m)%nat -> (j < m)%nat -> A i j = 0) -> eig m A = Ok (repeat 0 m).
Proof.
  intros HE HA. destruct (eig_each m eig A HE) as (l & E & L & H).
  { intros i j Hi Hj. now rewrite !HA. }
  rewrite E. f_equal. rewrite <- L. assert (Z : forall x, In x l -> x = 0).
  { intros x Hx. destruct (H x Hx) as (v & (i & Hi & Hv) & Hm). specialize (Hm i Hi).
    unfold mvec in Hm. rewrite fsum_zero in Hm by (intros j Hj; rewrite HA by assumption; ring).
    symmetry in Hm. apply Rmult_integral in Hm. now destruct Hm. }
  clear -Z. induction l as [|x l IH]; [reflexivity|]. cbn. rewrite (Z x) by now left. f_equal. apply IH. intros y Hy. apply Z. now right.
Qed.
Lemma sort_zero sort m : sort_contract sort -> sort (repeat 0 m) = repeat 0 m.
Proof.
  intros H. specialize (H (repeat 0 m)). destruct H as (H & _). assert (L := Permutation_length H). rewrite repeat_length in L.
  assert (Z : forall x, In x (sort (repeat 0 m)) -> x = 0) by (intros x Hx; apply (Permutation_in _ H), repeat_spec in Hx; exact Hx).
  revert L Z. generalize (sort (repeat 0 m)). intros l. clear H. revert m. induction l as [|x l IH]; intros [|m] L Z; cbn in *; try lia; [reflexivity|].
  rewrite (Z x) by now left. f_equal. apply IH; [lia|]. intros y Hy. apply Z. now right.
Qed.

Lemma alpha_unit n (av alpha : vec) : veq n alpha (fun i => av i / norm n av) -> norm n av <> 0 -> norm n alpha = 1.
Proof.
  intros Hal Hna. rewrite (norm_ext n _ _ Hal).
  rewrite (norm_ext n _ (fun i => / norm n av * av i)) by (intros i _; unfold Rdiv; ring). rewrite ScaleFormProofs.norm_scale_vec.
  assert (0 <= norm n av) by apply sqrt_pos. assert (0 < / norm n av) by (apply Rinv_0_lt_compat; lra).
  rewrite Rabs_right by lra. now apply Rinv_l.
Qed.

Section Aff.
Variables (inv : nat -> mat -> result mat) (eig : nat -> mat -> result (list R)) (sort : list R -> list R) (lf : nat) (expr : expression) (fo : form_opts) (evn : option exn).
Variables (n : nat) (T A : mat) (s0 : smodel) (av : vec) (b : R).
Let cost := eval_cost n fo.
Hypothesis HS : forall s u, same_core s0 s -> exists g,
  sev inv lf expr fo n T A s (vlist n (u_to_x n A (marg_at s) u)) = (Ok (b - dot n av u, g), addCallFunction s cost) /\ veq n g (fun i => - av i).

Lemma sev_list_aff us : forall s, same_core s0 s -> exists vs,
  sev_list inv lf expr fo n T A s (map (fun u => vlist n (u_to_x n A (marg_at s0) u)) us) = (Ok vs, addCallFunction s (length us * cost)) /\
  length vs = length us /\ forall k, (k < length us)%nat -> veq n (snd (nth k vs (0, fun _ => 0))) (fun i => - av i).
Proof.
  induction us as [|u us IH]; intros s HC.
  - exists []. cbn. rewrite add0. split; [reflexivity|]. split; [reflexivity|]. intros k Hk. lia.
  - cbn [map sev_list]. destruct (HS s u HC) as (g & E & Eg).
    assert (EM : marg_at s = marg_at s0) by (destruct HC as (_ & _ & X & _); unfold marg_at; now rewrite X).
    rewrite EM in E. rewrite E.
    destruct (IH (addCallFunction s cost) (core_trans _ _ _ HC (core_add s cost))) as (vs & E2 & L & G). rewrite E2.
    eexists. split; [rewrite add_add; reflexivity|]. split; [cbn; now rewrite L|].
    intros [|k] Hk; [exact Eg|]. cbn [nth]. apply G. cbn in Hk. lia.
Qed.

Hypothesis Hff : o_ffdpara (fo_ls fo) <> 0.
Lemma hessian_aff u0 s : same_core s0 s -> exists H,
  computeHessian inv lf expr fo n T A A u0 s = (Ok H, addCallFunction s ((1 + n) * cost)) /\ forall a i, (a < n)%nat -> (i < n)%nat -> H a i = 0.
Proof.
  intros HC. unfold computeHessian. cbv zeta. rewrite (proj2 (Reqb_false _ _) Hff).
  assert (EM : marg_at s = marg_at s0) by (destruct HC as (_ & _ & X & _); unfold marg_at; now rewrite X). rewrite EM.
  set (h := 1 / o_ffdpara (fo_ls fo)).
  destruct (sev_list_aff (u0 :: map (u_plus h u0) (seq 0 n)) s HC) as (vs & E & L & G).
  cbn [map] in E. rewrite map_map in E. rewrite E. eexists. split.
  - cbn [length]. rewrite map_length, seq_length. reflexivity.
  - intros a i Ha Hi. cbn [length] in G. rewrite map_length, seq_length in G.
    cbv beta. rewrite (G (S i) ltac:(lia) a Ha), (G 0%nat ltac:(lia) a Ha). unfold Rdiv. ring.
Qed.

Variables (alpha grad : vec) (beta : R).
Lemma curvefit_aff u0 s : same_core s0 s -> eig_contract (n - 1) eig -> sort_contract sort ->
  curvefit inv eig sort lf expr fo n T A A u0 alpha grad beta s =
  (rbind (orthonormal_matrix n alpha) (fun _ => Ok (beta, repeat 0 (n - 1))), addCallFunction s ((1 + n) * cost)).
Proof.
  intros HC HE HSo. unfold curvefit. destruct (hessian_aff u0 s HC) as (H & E & Z). rewrite E. f_equal.
  destruct (orthonormal_matrix n alpha) as [R1|]; [|reflexivity]. cbn [rbind].
  rewrite (eig_zero (n - 1) eig _ HE); [cbn [rbind]; now rewrite (sort_zero _ _ HSo)|].
  intros i j Hi Hj. unfold curvature_matrix, mmul. rewrite fsum_zero; [unfold Rdiv; ring|].
  intros k Hk. rewrite fsum_zero; [ring|]. intros l Hl. rewrite Z by assumption. ring.
Qed.

Hypothesis Hal : veq n alpha (fun i => av i / norm n av).
Hypothesis Hna : norm n av <> 0.
Hypothesis Hb : beta = b / norm n av.
Lemma fit_on_surface R1 up : orthonormal_matrix n alpha = Ok R1 -> up (n - 1)%nat = beta -> b - dot n av (mvec n (mtrans R1) up) = 0.
Proof.
  intros HR Hup. destruct (om_ok n alpha R1 (alpha_unit n av alpha Hal Hna) HR) as (N2 & _ & _ & _ & HB).
  assert (E : dot n av (mvec n (mtrans R1) up) = norm n av * up (n - 1)%nat).
  { unfold dot, mvec, mtrans.
    rewrite (fsum_ext n _ (fun i => fsum n (fun j => norm n av * up j * (R1 j i * (1 * alpha i))))).
    2: { intros i Hi. rewrite (Hal i Hi), <- fsum_scal. apply fsum_ext. intros j _. field. exact Hna. }
    rewrite fsum_swap. rewrite (fsum_ext n _ (fun j => delta (n - 1) j * (norm n av * up j))).
    - now rewrite fsum_delta by lia.
    - intros j Hj. rewrite fsum_scal. change (fsum n (fun i => R1 j i * (1 * alpha i))) with (mvec n R1 (fun a => 1 * alpha a) j).
      rewrite (HB 1 j Hj). unfold delta. rewrite (Nat.eqb_sym (n - 1) j). destruct (Nat.eqb j (n - 1)); ring. }
  rewrite E, Hup, Hb. field. exact Hna.
Qed.
Lemma fit_first m R1 (ev : vec -> result (R * vec)) tol up tr G g : ev (mvec n (mtrans R1) up) = Ok (G, g) -> Rabs G < tol ->
  fit_loop (S m) n R1 ev tol up tr = (Ok up, tr ++ [mvec n (mtrans R1) up]).
Proof. intros E H. cbn [fit_loop]. rewrite E, (proj2 (Rltb_spec _ _) H). reflexivity. Qed.
Lemma fit_one_aff R1 k s axis sign : orthonormal_matrix n alpha = Ok R1 -> same_core s0 s -> (axis < n - 1)%nat ->
  fit_one inv lf expr fo n T A R1 beta k s axis sign = (Ok 0, addCallFunction s cost).
Proof.
  intros HR HC Hax. unfold fit_one, find_fitting_point. cbv zeta.
  set (up := fun a : nat => if Nat.eqb a (n - 1) then beta else if Nat.eqb a axis then sign * k * beta else 0).
  destruct (HS s (mvec n (mtrans R1) up) HC) as (g & E & _).
  assert (U : up (n - 1)%nat = beta) by (unfold up; now rewrite Nat.eqb_refl).
  rewrite (fit_first 49 R1 _ _ up [] 0 g); [|rewrite E; cbn [fst]; now rewrite (fit_on_surface R1 up HR U)|rewrite Rabs_R0; lra].
  cbn [app]. rewrite U.
  destruct (Rltb (Rabs (up axis)) _); cbn [fold_left]; rewrite E; cbn [snd]; [reflexivity|]. do 2 f_equal. unfold Rdiv. ring.
Qed.
Lemma fit_axes_aff R1 k axes : orthonormal_matrix n alpha = Ok R1 -> (forall i, In i axes -> (i < n - 1)%nat) -> forall s, same_core s0 s ->
  fit_axes inv lf expr fo n T A R1 beta k s axes = (Ok (repeat 0 (length axes), repeat 0 (length axes)), addCallFunction s (2 * length axes * cost)).
Proof.
  intros HR. induction axes as [|i axes IH]; intros HI s HC; [cbn; now rewrite add0|].
  cbn [fit_axes]. rewrite (fit_one_aff R1 k s i (-1) HR HC) by (apply HI; now left).
  assert (C1 := core_trans _ _ _ HC (core_add s cost)). rewrite (fit_one_aff R1 k _ i 1 HR C1) by (apply HI; now left).
  rewrite IH; [|intros j Hj; apply HI; now right|exact (core_trans _ _ _ C1 (core_add _ cost))].
  rewrite !add_add. cbn [length repeat]. do 2 f_equal. lia.
Qed.
Lemma pointfit_aff s : beta <> 0 -> same_core s0 s ->
  pointfit inv lf expr fo evn n T A alpha beta s =
  match orthonormal_matrix n alpha with Ok _ => (Ok (beta, repeat 0 (n - 1), repeat 0 (n - 1)), addCallFunction s (2 * (n - 1) * cost)) | Err e => (Err e, s) end.
Proof.
  intros H0 HC. unfold pointfit. destruct (orthonormal_matrix n alpha) as [R1|e] eqn:E; [|reflexivity].
  rewrite (proj2 (Reqb_false _ _) H0). rewrite (fit_axes_aff R1 _ (seq 0 (n - 1)) E); [now rewrite seq_length|intros i Hi; apply in_seq in Hi; lia|exact HC].
Qed.
End Aff.

(** ** evaluateLSF is the FORM evaluation when the Jacobians are constant *)
Lemma sev_form inv lf expr fo n T A s s0 u : same_core s0 s -> (forall i z x z' x', rv_jac (marg_at s0 i) z x = rv_jac (marg_at s0 i) z' x') ->
  (exists v k, form_ev lf s0 expr (fo_ls fo) n T A inv (marg_at s0) u = (Ok v, k)) ->
  sev inv lf expr fo n T A s (vlist n (u_to_x n A (marg_at s) u)) =
  (fst (form_ev lf s0 expr (fo_ls fo) n T A inv (marg_at s0) u), addCallFunction s (snd (form_ev lf s0 expr (fo_ls fo) n T A inv (marg_at s0) u))).
Proof.
  intros HC HJ (v & k0 & HV). unfold sev, sorm_evaluateLSF. cbv zeta.
  assert (EM : marg_at s = marg_at s0) by (destruct HC as (_ & _ & X & _); unfold marg_at; now rewrite X). rewrite EM.
  destruct (core_eval s0 s HC lf expr (fo_ls fo) None n [vlist n (u_to_x n A (marg_at s0) u)]) as (k & E1 & E2 & E3).
  rewrite E2, E3. unfold form_ev in *. cbv zeta in *. unfold computeTransformation in *.
  assert (J : forall u' x', jacobian n T A (marg_at s0) u' x' = jacobian n T A (marg_at s0) u (u_to_x n A (marg_at s0) u)).
  { intros u' x'. unfold jacobian. f_equal. unfold jac_diag. cbv zeta. apply FunctionalExtensionality.functional_extensionality. intros i.
    apply FunctionalExtensionality.functional_extensionality. intros j. destruct (Nat.eqb i j); [apply HJ|reflexivity]. }
  destruct (inv n (jacobian n T A (marg_at s0) u (u_to_x n A (marg_at s0) u))) as [JJ|e] eqn:EJ; [|discriminate HV].
  rewrite E1. cbn [addCallFunction sm_calls]. replace (sm_calls s0 + k - sm_calls s0)%nat with k by lia.
  destruct (ev_out (evaluate_lsf lf s0 expr (fo_ls fo) None n [vlist n (u_to_x n A (marg_at s0) u)])) as [G g|e|]; try discriminate HV.
  rewrite J, EJ. reflexivity.
Qed.
