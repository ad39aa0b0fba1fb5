From Coquelicot Require Import Coquelicot.
From Verif Require Import Base Ext Dict Gauss GaussProofs StochModel StochModelSpec StochModelProofs LimitState LimitStateSpec LimitStateProofs LimitStateProps Transf TransfSpec TransfProofs Form FormProofs FormAffineProofs FormNormalProofs FormExactProofs FormProps Nataf NatafProofs Dist RotSpec RotProofs ScaleFormProofs Pipe PipeSpec PipeProofs GramSchmidt GramSchmidtProofs Sorm SormProofs Valid SormRun SormRunSpec SormRunProofs SormQuadSpec SormQuadProofs HessSpec.
From Coq Require Import ZArith Lra Lia Permutation.
Open Scope R_scope.

(** ** forward difference error *)
Lemma fd_bound (F F1 F2 : R -> R) h M : 0 < h ->
  (forall t, 0 <= t <= h -> is_derive F t (F1 t)) -> (forall t, 0 <= t <= h -> is_derive F1 t (F2 t)) ->
  (forall t, 0 <= t <= h -> Rabs (F2 t) <= M) ->
  Rabs ((F h - F 0) / h - F1 0) <= M * h / 2.
Proof.
  intros Hh D1 D2 B.
  assert (B1 : forall t, 0 <= t <= h -> Rabs (F1 t - F1 0) <= M * t).
  { intros t Ht. destruct (Req_dec t 0) as [->|Nt]; [rewrite Rminus_diag_eq, Rabs_R0 by reflexivity; lra|].
    destruct (MVT_gen F1 0 t F2) as (c & Hc & E).
    - intros x Hx. rewrite Rmin_left, Rmax_right in Hx by lra. apply D2. lra.
    - intros x Hx. rewrite Rmin_left, Rmax_right in Hx by lra. apply continuity_pt_filterlim, (ex_derive_continuous F1). exists (F2 x). apply D2. lra.
    - rewrite Rmin_left, Rmax_right in Hc by lra. rewrite E, Rminus_0_r, Rabs_mult, (Rabs_right t) by lra. apply Rmult_le_compat_r; [lra|]. apply B. lra. }
  assert (UP : forall e, (e = 1 \/ e = -1) -> e * (F h - F 0 - F1 0 * h) <= M * h * h / 2).
  { intros e He. set (P := fun t => M * t * t / 2 - e * (F t - F 0 - F1 0 * t)).
    assert (DP : forall t, 0 <= t <= h -> is_derive P t (M * t - e * (F1 t - F1 0))).
    { intros t Ht. unfold P. evar_last.
      - apply (is_derive_minus (K := R_AbsRing) (V := R_NormedModule)).
        + instantiate (1 := M * t). auto_derive; [exact Logic.I|field].
        + apply is_derive_scal. apply (is_derive_minus (K := R_AbsRing) (V := R_NormedModule)).
          * apply (is_derive_minus (K := R_AbsRing) (V := R_NormedModule)); [apply D1; exact Ht|apply (is_derive_const (K := R_AbsRing) (V := R_NormedModule))].
          * apply is_derive_scal, (is_derive_id (K := R_AbsRing)).
      - unfold minus, plus, opp, zero, one, scal. cbn. unfold mult. cbn. ring. }
    destruct (MVT_gen P 0 h (fun t => M * t - e * (F1 t - F1 0))) as (c & Hc & E).
    - intros x Hx. rewrite Rmin_left, Rmax_right in Hx by lra. apply DP. lra.
    - intros x Hx. rewrite Rmin_left, Rmax_right in Hx by lra. apply continuity_pt_filterlim, (ex_derive_continuous P). eexists. apply DP. lra.
    - rewrite Rmin_left, Rmax_right in Hc by lra. specialize (B1 c Hc). apply Rabs_le_between in B1.
      assert (0 <= (M * c - e * (F1 c - F1 0)) * (h - 0)). { apply Rmult_le_pos; [|lra]. destruct He as [-> | ->]; lra. }
      assert (P0 : P 0 = 0) by (unfold P; field). rewrite P0 in E. unfold P in E. lra. }
  replace ((F h - F 0) / h - F1 0) with ((F h - F 0 - F1 0 * h) / h) by (field; lra).
  unfold Rdiv at 1. rewrite Rabs_mult, (Rabs_right (/ h)) by (apply Rle_ge, Rlt_le, Rinv_0_lt_compat; lra).
  apply Rmult_le_reg_r with h; [exact Hh|]. rewrite Rmult_assoc, Rinv_l, Rmult_1_r by lra.
  pose proof (UP 1 (or_introl eq_refl)). pose proof (UP (-1) (or_intror eq_refl)). apply Rabs_le. lra.
Qed.

(** ** FORM when the limit state function is affine on the ray it follows *)
Section Ray.
  Variables (n : nat) (o : form_opts) (ev : vec -> result (R * vec) * nat)
            (trial : list vec -> result (list R) * nat) (evn : option exn).
  Variables (a : vec) (b : R).
  Hypothesis Ha : norm n a <> 0.
  Hypothesis Hev : forall u, on_ray n a u -> exists g k, ev u = (Ok (b - dot n a u, g), k) /\ veq n g (fun i => - a i).
  Hypothesis Htrial : forall us, Forall (on_ray n a) us -> length us = ntrial -> exists k, trial us = (Ok (map (fun u => b - dot n a u) us), k).
  Let Z : mat := fun _ _ => 0.
  Let ev2 u := if rayb n a u then ev u else (Ok (b - dot n a u, fun i => - a i), 0%nat).
  Let trial2 (us : list vec) := if forallb (rayb n a) us && Nat.eqb (length us) ntrial then trial us else (Ok (map (fun u => b - dot n a u) us), 0%nat).
  Lemma Z_q u : qval n a b Z u = b - dot n a u.
  Proof. unfold qval. unfold dot at 2. rewrite fsum_zero; [ring|]. intros i _. unfold mvec, Z. rewrite fsum_zero; [ring|]. intros; ring. Qed.
  Lemma Z_m u i : mvec n Z u i = 0.
  Proof. unfold mvec, Z. apply fsum_zero. intros; ring. Qed.

  Lemma ray_exact fuel u0 : o_multi_proc (fo_ls o) = 1%Z -> 0 < fo_e2 o ->
    ((fo_step o = 1 /\ 0 < fo_e1 o <= 1 /\ (2 <= fo_imax o)%Z) \/ (fo_step o = 0 /\ 0 < fo_e1 o <= 1 / 3 /\ (15 < fo_imax o)%Z)) ->
    (Z.to_nat (fo_imax o) < fuel)%nat -> veq n u0 (fun _ => 0) ->
    exists r c u, form_run n o ev trial evn fuel u0 = (FDone r, c) /\ fr_G r = 0 /\ form_beta n r = Fin (b / norm n a) /\
      fr_u r = Some u /\ veq n u (fun i => b / (norm n a * norm n a) * a i) /\ veq n (fr_grad r) (fun i => - a i).
  Proof.
    intros HM H2 HS Hf Hu.
    assert (RB : forall u, rayb n a u = true <-> on_ray n a u) by (intros u; apply rayb_spec; exact Ha).
    assert (E2 : forall u, exists g k, ev2 u = (Ok (b - dot n a u, g), k) /\ veq n g (fun i => - a i)).
    { intros u. unfold ev2. destruct (rayb n a u) eqn:ER; [apply Hev, RB, ER|]. eexists. eexists. split; [reflexivity|]. intros i _. reflexivity. }
    assert (EQ : form_run n o ev trial evn fuel u0 = form_run n o ev2 trial2 evn fuel u0).
    { unfold form_run. apply (loop_inv_ext n o ev ev2 trial trial2 evn (on_ray n a)).
      - intros u P. unfold ev2. now rewrite (proj2 (RB u) P).
      - intros us P L. unfold trial2. rewrite L, Nat.eqb_refl. replace (forallb (rayb n a) us) with true; [reflexivity|].
        symmetry. apply forallb_forall. intros u Hin. apply RB. rewrite Forall_forall in P. now apply P.
      - intros u G g k t P E _. destruct (E2 u) as (g' & k' & E' & Eg). unfold ev2 in E'. rewrite (proj2 (RB u) P), E in E'.
        injection E' as -> -> ->. destruct P as (p & Hp). exists (p + t * (b / (norm n a * norm n a) - p)). intros j Hj.
        rewrite (dir_aff n a b Ha g' u j Eg Hj), (Hp j Hj). unfold ustar. ring.
      - intros u Eu. injection Eu as <-. exists 0. intros j Hj. rewrite (Hu j Hj). ring. }
    rewrite EQ.
    apply (quad_exact n o ev2 trial2 evn a b Z Ha); try assumption.
    - intros i _. apply Z_m.
    - intros u. destruct (E2 u) as (g & k & E & Eg). exists g, k. rewrite Z_q. split; [exact E|]. intros i Hi. rewrite Z_m, (Eg i Hi). ring.
    - intros us Hus. unfold trial2. destruct (forallb (rayb n a) us && Nat.eqb (length us) ntrial) eqn:E.
      + apply andb_true_iff in E. destruct E as [ER _]. destruct (Htrial us) as (k & Ek); [|exact Hus|].
        * apply Forall_forall. intros u Hin. apply RB. rewrite forallb_forall in ER. now apply ER.
        * exists k. rewrite Ek. do 2 f_equal. apply map_ext. intros u. now rewrite Z_q.
      + eexists. do 2 f_equal. apply map_ext. intros u. now rewrite Z_q.
  Qed.
End Ray.

(** ** the Hessian for an arbitrary gradient *)
Section G.
Variables (inv : nat -> mat -> result mat) (lf : nat) (expr : expression) (fo : form_opts).
Variables (n : nat) (T A : mat) (s0 : smodel) (Gv : vec -> vec).
Let cost := eval_cost n fo.
Hypothesis HS : forall s u, same_core s0 s -> exists V g,
  sev inv lf expr fo n T A s (vlist n (u_to_x n A (marg_at s) u)) = (Ok (V, g), addCallFunction s cost) /\ veq n g (Gv u).
Hypothesis Hff : o_ffdpara (fo_ls fo) <> 0.

Lemma sev_list_g us : forall s, same_core s0 s -> exists vs,
  sev_list inv lf expr fo n T A s (map (fun u => vlist n (u_to_x n A (marg_at s0) u)) us) = (Ok vs, addCallFunction s (length us * cost)) /\
  forall k, (k < length us)%nat -> veq n (snd (nth k vs (0, fun _ => 0))) (Gv (nth k us (fun _ => 0))).
Proof.
  induction us as [|u us IH]; intros s HC.
  - exists []. cbn. rewrite add0. split; [reflexivity|]. intros k Hk. lia.
  - cbn [map sev_list]. destruct (HS s u HC) as (V & g & E & Eg).
    assert (EM : marg_at s = marg_at s0) by (destruct HC as (_ & _ & X & _); unfold marg_at; now rewrite X).
    rewrite EM in E. rewrite E.
    destruct (IH (addCallFunction s cost) (core_trans _ _ _ HC (core_add s cost))) as (vs & E2 & G). rewrite E2.
    eexists. split; [rewrite add_add; reflexivity|].
    intros [|k] Hk; [exact Eg|]. cbn [nth]. apply G. cbn in Hk. lia.
Qed.
Lemma hessian_g u0 s : same_core s0 s -> exists H',
  computeHessian inv lf expr fo n T A A u0 s = (Ok H', addCallFunction s ((1 + n) * cost)) /\
  forall a i, (a < n)%nat -> (i < n)%nat -> H' a i = (Gv (u_plus (1 / o_ffdpara (fo_ls fo)) u0 i) a - Gv u0 a) / (1 / o_ffdpara (fo_ls fo)).
Proof.
  intros HC. unfold computeHessian. cbv zeta. rewrite (proj2 (Reqb_false _ _) Hff).
  assert (EM : marg_at s = marg_at s0) by (destruct HC as (_ & _ & X & _); unfold marg_at; now rewrite X). rewrite EM.
  set (h := 1 / o_ffdpara (fo_ls fo)).
  destruct (sev_list_g (u0 :: map (u_plus h u0) (seq 0 n)) s HC) as (vs & E & G).
  cbn [map] in E. rewrite map_map in E. rewrite E. eexists. split.
  - cbn [length]. rewrite map_length, seq_length. reflexivity.
  - intros a i Ha Hi. cbn [length] in G. rewrite map_length, seq_length in G.
    cbv beta. rewrite (G (S i) ltac:(lia) a Ha), (G 0%nat ltac:(lia) a Ha). cbn [nth].
    rewrite (nth_indep _ _ (u_plus h u0 0%nat)) by (rewrite map_length, seq_length; exact Hi).
    rewrite map_nth, seq_nth by exact Hi. rewrite Nat.add_0_l. reflexivity.
Qed.
End G.

(** ** evaluations of a limit state function with a gradient, in normal variables *)
Section N.
  Variables (h : list smop) (expr : expression) (f : list (string * R) -> R) (gr : list (string * R) -> list R) (o : lsopts) (fuel : nat).
  Variables (T A : mat) (inv : nat -> mat -> result mat) (m : nat -> rv).
  Let n := ndists h.
  Variables (mu sd : vec).
  Hypothesis Hp : with_gradient expr f gr.
  Hypothesis Hn : (1 <= n)%nat.
  Hypothesis Hb : (1 <= o_block_size o)%Z.
  Hypothesis Hfu : (ntrial < fuel)%nat.
  Hypothesis Hmp : o_multi_proc o = 1%Z.
  Hypothesis Hd : o_diff_mode o = "ddm"%string.
  Hypothesis HT : inverse_pair n T A.
  Hypothesis HI : inv_contract n inv.
  Hypothesis HIex : forall X Y, inverse_pair n Y X -> exists C, inv n X = Ok C.
  Hypothesis Hgl : forall q, length q = n -> length (gr (args_at h q)) = n.
  Hypothesis Hsd : forall i, (i < n)%nat -> sd i <> 0.
  Hypothesis Hm : forall i, (i < n)%nat -> (forall z, rv_u2x (m i) z = mu i + sd i * z) /\ forall z x, rv_jac (m i) z x = / sd i.


  Lemma xpt_eq u : vlist n (u_to_x n A m u) = phys_point n mu sd A u.
  Proof.
    unfold vlist, phys_point. apply map_ext_in. intros i Hi. apply in_seq in Hi. unfold u_to_x. cbv zeta. apply (proj1 (Hm i ltac:(lia))).
  Qed.

  Lemma g_ev u : exists g k, form_ev fuel (sm_run h) expr o n T A inv m u = (Ok (f (args_at h (phys_point n mu sd A u)), g), k) /\ veq n g (u_gradient n h gr mu sd A u).
  Proof.
    unfold form_ev. cbv zeta. unfold computeTransformation. set (x := u_to_x n A m u).
    assert (JI : inverse_pair n (jacobian n T A m u x) (fun i j => / rv_jac (m i) (mvec n A u i) (x i) * A i j)).
    { apply jac_inverse; [exact HT|]. intros i Hi. rewrite (proj2 (Hm i Hi)). apply Rinv_neq_0_compat. apply Hsd. exact Hi. }
    assert (JI' : inverse_pair n (fun i j => / rv_jac (m i) (mvec n A u i) (x i) * A i j) (jacobian n T A m u x)).
    { destruct JI as [J1 J2]. split; assumption. }
    destruct (HIex _ _ JI') as [J EJ]. rewrite EJ. pose proof (HI _ _ EJ) as HJ.
    assert (EJJ : meq n J (fun i j => sd i * A i j)).
    { assert (HJ' : inverse_pair n (jacobian n T A m u x) J) by (destruct HJ; split; assumption).
      intros i j Hi Hj. rewrite (inverse_unique n _ _ _ HJ' JI i j Hi Hj), (proj2 (Hm i Hi)). rewrite Rinv_involutive by (apply Hsd; exact Hi). reflexivity. }
    destruct Hp as (Hpw & Hgr).
    assert (LX : length (vlist n x) = ndists h) by apply vlist_length.
    assert (KN : kwfull h [vlist n x] <> []) by (apply kwfull_nonnil; exact Hn).
    assert (KA : map (fun kv => (fst kv, nth 0 (snd kv) 0)) (kwfull h [vlist n x]) = args_at h (vlist n x)) by (apply (kwfull_at h [vlist n x] 0); [cbn; lia|exact LX]).
    destruct (Hgr (kwfull h [vlist n x]) KN ltac:(intros k v Hkv; apply kwfull_lengths in Hkv; exact Hkv)) as (G & EG). rewrite KA in EG.
    destruct (Hpw (kwfull h [vlist n x]) 1%nat KN ltac:(intros k v Hkv; apply kwfull_lengths in Hkv; exact Hkv)) as (out & EO & EV).
    rewrite EG in EO. injection EO as <-. cbn [value_of seq map] in EV. rewrite KA in EV. subst G.
    assert (ED : ev_out (evaluate_lsf fuel (sm_run h) expr o None n [vlist n x]) = ODone [f (args_at h (vlist n x))] [gr (args_at h (vlist n x))]).
    { unfold evaluate_lsf. rewrite Hmp, Hd. cbn [Z.eqb Pos.eqb String.eqb Ascii.eqb Bool.eqb].
      apply (ddm_one_point h expr (vlist n x) _ (gr (args_at h (vlist n x))) LX); [now apply Hgl|exact EG]. }
    rewrite ED. eexists. eexists. split; [cbn [nth]; unfold x; rewrite xpt_eq; reflexivity|].
    intros j Hj. cbn [nth]. unfold pull_gradient, u_gradient. rewrite <- xpt_eq. apply fsum_ext. intros i Hi.
    rewrite (EJJ i j Hi Hj). unfold vof. reflexivity.
  Qed.
  Lemma g_trial us : length us = ntrial -> exists k, form_trial fuel (sm_run h) expr o n A m us = (Ok (map (fun u => f (args_at h (phys_point n mu sd A u))) us), k).
  Proof.
    intros Hus. unfold form_trial. cbv zeta. unfold n.
    rewrite (dispatch_nogradient fuel h expr f o (Some "no"%string) _ ltac:(rewrite Hmp; discriminate) (or_introl (ex_intro _ _ eq_refl)) (proj1 Hp) Hn).
    - eexists. rewrite map_map. f_equal. f_equal. apply map_ext. intros u. now rewrite <- xpt_eq.
    - intros p Hin. apply in_map_iff in Hin. destruct Hin as (u & <- & _). apply vlist_length.
    - exact Hb.
    - rewrite map_length, Hus. exact Hfu.
  Qed.
End N.
