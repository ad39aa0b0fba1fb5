(** FORM: C21-C27, C68. *)
From Coquelicot Require Import Coquelicot.
From Verif Require Import Base Ext Gauss GaussProofs StochModel StochModelSpec StochModelProofs LimitState LimitStateSpec LimitStateProofs Transf TransfSpec TransfProofs Form FormProofs FormAffineProofs FormNormalProofs.
From Coq Require Import ZArith Lra Lia.

(** C21: with a positive limit the run always ends (it returns or an evaluation
    raised), whatever the limit state function does ... *)
Theorem C21_terminates : forall n o ev trial evn fuel u0,
  (1 <= fo_imax o)%Z -> (Z.to_nat (fo_imax o) <= fuel)%nat ->
  fst (form_run n o ev trial evn fuel u0) <> FFuel.
Proof. intros n o ev trial evn fuel u0 H1 H2. apply loop_terminates; lia. Qed.
Print Assumptions C21_terminates.

(** ... after at most i_max iterations, and either the iteration number is i_max
    or both criteria hold at the reported point (G and gradient being those of
    the reported point, Go the value at the starting point). *)
Theorem C21_converged_or_at_limit : forall n o ev trial evn fuel u0 r c,
  form_run n o ev trial evn fuel u0 = (FDone r, c) ->
  ((1 <= fo_imax o)%Z -> (1 <= fr_i r <= fo_imax o)%Z) /\
  (fr_i r = fo_imax o \/
   exists u Go g0, fr_u r = Some u /\ fst (ev u0) = Ok (Go, g0) /\ Go <> 0 /\
     fst (ev u) = Ok (fr_G r, fr_grad r) /\ Rabs (fr_G r / Go) < fo_e1 o /\
     let al := fun i => - fr_grad r i / norm n (fr_grad r) in
     norm n (fun i => u i - dot n al u * al i) < fo_e2 o).
Proof. exact form_stop. Qed.
Print Assumptions C21_converged_or_at_limit.

(** C21: with i_max <= 0 the limit never stops the run. *)
Theorem C21_nonpositive_limit_diverges : forall n o ev trial evn Go g0 u0,
  (fo_imax o <= 0)%Z -> evn = None -> (forall u, exists Gg k, ev u = (Ok Gg, k)) ->
  (fo_step o <> 0 \/ (o_multi_proc (fo_ls o) = 1%Z /\ forall us, exists Gs k, trial us = (Ok Gs, k))) ->
  fst (ev u0) = Ok (Go, g0) ->
  (forall u G g, fst (ev u) = Ok (G, g) -> norm n g <> 0 -> Go <> 0 -> Rabs (G / Go) < fo_e1 o ->
     let al := fun i => - g i / norm n g in
     fo_e2 o <= norm n (fun i => u i - dot n al u * al i)) ->
  forall fuel, fst (form_run n o ev trial evn fuel u0) = FFuel.
Proof.
  intros n o ev trial evn Go g0 u0 Hi Hn Hev Hs H0 HC fuel.
  apply (loop_diverges n o ev trial evn (conj Hn (conj Hev Hs)) Go).
  - intros u G g E Hg H1. apply e1_lt in H1. apply (HC u G g E Hg); tauto.
  - lia.
  - right. split; [reflexivity|]. exists u0, g0. split; [reflexivity|exact H0].
Qed.
Print Assumptions C21_nonpositive_limit_diverges.

(** C22 *)
Theorem C22_result_consistency : forall n o ev trial evn fuel u0 r c u,
  form_run n o ev trial evn fuel u0 = (FDone r, c) -> fr_u r = Some u ->
  let g := fr_grad r in let al := fun i => - g i / norm n g in let beta := dot n al u in
  fst (ev u) = Ok (fr_G r, g) /\ norm n g <> 0 /\
  form_alpha n r = Some al /\ dot n al al = 1 /\ (forall i, g i = - norm n g * al i) /\
  form_beta n r = Fin beta /\ form_Pf n r = Fin (Phi (- beta)) /\
  0 < Phi (- beta) < 1 /\ (Phi (- beta) < 1 / 2 <-> 0 < beta).
Proof.
  intros n o ev trial evn fuel u0 r c u H Hu g al beta. unfold form_run in H. apply loop_spec in H.
  destruct H as (_ & _ & _ & _ & _ & H). destruct (H u Hu) as [H1 H2].
  split; [exact H1|]. split; [exact H2|].
  split. { unfold form_alpha. rewrite Hu. reflexivity. }
  split. { exact (alpha_unit n g H2). }
  split. { intros i. unfold al. field. exact H2. }
  assert (EB : form_beta n r = Fin beta) by (unfold form_beta; rewrite Hu; reflexivity).
  split; [exact EB|]. split. { unfold form_Pf. rewrite EB. reflexivity. }
  split; [apply Phi_bound|]. rewrite <- Phi_0. split; intros L.
  - apply (proj2 (Phi_lt _ _)) in L. lra.
  - apply Phi_incr. lra.
Qed.
Print Assumptions C22_result_consistency.

(** C22: undefined (NaN) results arise only through a vanishing gradient. *)
Theorem C22_defined_unless_gradient_vanishes : forall n o ev trial evn fuel u0 r c,
  (forall u G g, fst (ev u) = Ok (G, g) -> exists i, (i < n)%nat /\ g i <> 0) ->
  form_run n o ev trial evn fuel u0 = (FDone r, c) -> exists b, form_beta n r = Fin b.
Proof.
  intros n o ev trial evn fuel u0 r c HG H.
  destruct (loop_finite n o ev trial evn) with (2 := H) as [u' E].
  - intros u G g E C. destruct (HG u G g E) as (i & Hi & Hn). apply Hn. apply (proj1 (norm_eq0 n g) C i Hi).
  - unfold form_beta. rewrite E. eauto.
Qed.
Print Assumptions C22_defined_unless_gradient_vanishes.

(** C23: the automatic step.  merits: the merit of u + 2^-j d. *)
Theorem C23_automatic_step : forall n o trial G g u d Gs k,
  fo_step o = 0 -> o_multi_proc (fo_ls o) = 1%Z ->
  trial (map (fun t => fun i => u i + d i * t) (map (fun k => (1 / 2) ^ k) (seq 0 6))) = (Ok Gs, k) ->
  length Gs = 6%nat ->
  let c := 2 * (norm n u / norm n g) + 10 in
  let merit := fun (v : vec) (G : R) => 1 / 2 * dot n v v + c * Rabs G in
  let mj := fun j => merit (fun i => u i + d i * (1 / 2) ^ j) (nth j Gs 0) in
  exists t, getStepSize n o trial G g u d = (Ok t, k) /\
    (forall j, (j < 6)%nat -> mj j <= merit u G -> (forall k, (k < j)%nat -> merit u G < mj k) -> t = (1 / 2) ^ j) /\
    ((forall j, (j < 6)%nat -> merit u G < mj j) -> t = (1 / 2) ^ 5).
Proof.
  intros n o trial G g u d Gs k HS HM HT HL c merit mj.
  unfold getStepSize, computeStepSize. rewrite (proj2 (Reqb_spec _ _) HS), HM. cbn [Z.eqb Pos.eqb].
  unfold trial_steps, ntrial in *. rewrite HT. eexists. split; [reflexivity|].
  set (M := map _ (combine _ Gs)).
  change (let t := step_choice (merit_of n (penalty n g u) u G) M in
    (forall j, (j < 6)%nat -> mj j <= merit u G -> (forall k, (k < j)%nat -> merit u G < mj k) -> t = (1 / 2) ^ j) /\
    ((forall j, (j < 6)%nat -> merit u G < mj j) -> t = (1 / 2) ^ 5)).
  assert (E0 : forall v G, merit_of n (penalty n g u) v G = merit v G).
  { intros v G'. unfold merit_of, merit, penalty, c, Rdiv. rewrite norm_pow2. ring. }
  assert (EM : forall j, (j < 6)%nat -> nth j M 0 = mj j).
  { intros j Hj. unfold M, mj.
    do 6 (destruct Gs as [|? Gs]; [discriminate|]). destruct Gs; [|discriminate].
    do 6 (destruct j as [|j]; [cbn [seq map combine nth fst snd]; apply E0|]). lia. }
  cbv zeta. rewrite E0. split.
  - intros j Hj H1 H2. apply choice_first; [exact Hj|]. split; [rewrite EM by exact Hj; exact H1|].
    intros i Hi. rewrite EM by lia. apply H2. exact Hi.
  - intros H. apply choice_none. intros j Hj. rewrite EM by exact Hj. apply H. exact Hj.
Qed.
Print Assumptions C23_automatic_step.

Theorem C23_fixed_step : forall n o trial G g u d, fo_step o <> 0 ->
  getStepSize n o trial G g u d = (Ok (fo_step o), 0%nat).
Proof. intros n o trial G g u d H. unfold getStepSize. rewrite (proj2 (Reqb_false _ _) H). reflexivity. Qed.
Print Assumptions C23_fixed_step.

(** C23: the penalty exceeds ||u||/||grad|| and the direction is a descent
    direction of the merit function at every point where it does not vanish. *)
Theorem C23_penalty_bound : forall n g u, norm n g <> 0 -> norm n u / norm n g < penalty n g u.
Proof.
  intros n g u H. unfold penalty, Rdiv. pose proof (norm_nonneg n u). pose proof (norm_pos n g H).
  assert (0 <= norm n u * / norm n g); [|lra]. apply Rmult_le_pos; [lra|]. left. apply Rinv_0_lt_compat. lra.
Qed.
Print Assumptions C23_penalty_bound.

Theorem C23_descent : forall n (Gf : vec -> R) g u,
  let d := search_dir n (Gf u) g u in let c := penalty n g u in
  let line := fun t => (fun i => u i + t * d i) : vec in
  let merit := fun t => 1 / 2 * norm n (line t) ^ 2 + c * Rabs (Gf (line t)) in
  (forall v, veq n v u -> Gf v = Gf u) ->
  is_derive (fun t => Gf (line t)) 0 (dot n g d) ->
  norm n g <> 0 -> (exists i, (i < n)%nat /\ d i <> 0) ->
  exists l eps, is_derive merit 0 l /\ l < 0 /\ 0 < eps /\ forall t, 0 < t < eps -> merit t < merit 0.
Proof.
  intros n Gf g u d c line merit He HD Hg Hd.
  pose proof (merit_derive n Gf g u Hg He HD) as D.
  pose proof (descent_slope n (Gf u) g u Hg Hd) as L.
  destruct (derive_neg_decreases _ _ D L) as (eps & E1 & E2).
  exists (dot n u (search_dir n (Gf u) g u) - penalty n g u * Rabs (Gf u)), eps.
  split; [exact D|]. split; [exact L|]. split; [exact E1|exact E2].
Qed.
Print Assumptions C23_descent.

(** C24: affine limit state G(u) = b - a.u in standard space. *)
Definition affine_ev (n : nat) (a : vec) (b : R) (ev : vec -> result (R * vec) * nat) : Prop :=
  forall u, exists g k, ev u = (Ok (b - dot n a u, g), k) /\ veq n g (fun i => - a i).
Definition affine_trial (n : nat) (a : vec) (b : R) (trial : list vec -> result (list R) * nat) : Prop :=
  forall us, exists k, trial us = (Ok (map (fun u => b - dot n a u) us), k).

Theorem C24_full_step_exact : forall n o ev trial evn a b,
  norm n a <> 0 -> affine_ev n a b ev -> affine_trial n a b trial ->
  fo_step o = 1 -> 0 < fo_e1 o <= 1 -> 0 < fo_e2 o -> (2 <= fo_imax o)%Z ->
  forall fuel u0, (Z.to_nat (fo_imax o) < fuel)%nat ->
  exists r c, form_run n o ev trial evn fuel u0 = (FDone r, c) /\ fr_G r = 0 /\
    form_beta n r = Fin (b / norm n a) /\
    (exists u', fr_u r = Some u' /\ veq n u' (fun i => b / (norm n a * norm n a) * a i)) /\
    (b - dot n a u0 <> 0 -> fr_i r = 2%Z).
Proof.
  intros n o ev trial evn a b Ha He Ht. exact (full_step_run n o ev trial evn a b Ha He Ht).
Qed.
Print Assumptions C24_full_step_exact.

(** C24: a converged run on an affine limit state is accurate to the tolerance,
    for every step rule ... *)
Theorem C24_converged_accuracy : forall n o ev trial evn a b,
  norm n a <> 0 -> affine_ev n a b ev ->
  forall fuel u0 r c,
  form_run n o ev trial evn fuel u0 = (FDone r, c) -> fr_i r <> fo_imax o ->
  exists beta, form_beta n r = Fin beta /\
    Rabs (beta - b / norm n a) < fo_e1 o * Rabs (b - dot n a u0) / norm n a.
Proof. intros n o ev trial evn a b Ha He. exact (converged_accuracy n o ev trial evn a b Ha He). Qed.
Print Assumptions C24_converged_accuracy.

(** ... and with automatic steps it does converge from every starting point off
    the surface, in K + 2 iterations for any K with
    (31/32)^K ||u0 - u*|| <= 2/3 |b|/||a||  (K = 0 if b = 0). *)
Theorem C24_automatic_converges : forall n o ev trial evn a b,
  norm n a <> 0 -> affine_ev n a b ev -> affine_trial n a b trial ->
  fo_step o = 0 -> o_multi_proc (fo_ls o) = 1%Z -> 0 < fo_e1 o -> 0 < fo_e2 o ->
  forall K fuel u0,
  (b = 0 \/ (31 / 32) ^ K * norm n (fun i => u0 i - b / (norm n a * norm n a) * a i) <= 2 / 3 * (Rabs b / norm n a)) ->
  b - dot n a u0 <> 0 -> (Z.of_nat K + 2 < fo_imax o)%Z -> (K + 1 < fuel)%nat ->
  exists r c beta, form_run n o ev trial evn fuel u0 = (FDone r, c) /\ (fr_i r <= Z.of_nat K + 2)%Z /\
    form_beta n r = Fin beta /\ Rabs (beta - b / norm n a) < fo_e1 o * Rabs (b - dot n a u0) / norm n a.
Proof.
  intros n o ev trial evn a b Ha He Ht HS HM H1 H2 K fuel u0 HK HG Hi Hf.
  destruct (auto_converges n o ev trial evn a b Ha He Ht HS HM H1 H2 K fuel 1%Z None u0 0 (fun _ => 0) 0%nat) as (r & c & E & Ei).
  - exact HK.
  - exact HG.
  - lia.
  - lia.
  - destruct (C24_converged_accuracy n o ev trial evn a b Ha He fuel u0 r c E) as (beta & E1 & E2); [lia|].
    exists r, c, beta. split; [exact E|]. split; [lia|]. split; assumption.
Qed.
Print Assumptions C24_automatic_converges.

(** ... such a K always exists, so FORM converges on every affine limit state
    given enough iterations. *)
Theorem C24_iterations_exist : forall n a b (u0 : vec), norm n a <> 0 ->
  exists K, b = 0 \/ (31 / 32) ^ K * norm n (fun i => u0 i - b / (norm n a * norm n a) * a i) <= 2 / 3 * (Rabs b / norm n a).
Proof.
  intros n a b u0 Ha. destruct (Req_dec b 0) as [->|Hb]; [exists 0%nat; left; reflexivity|].
  set (D := norm n (fun i => u0 i - b / (norm n a * norm n a) * a i)).
  pose proof (norm_nonneg n (fun i => u0 i - b / (norm n a * norm n a) * a i)) as PD. fold D in PD.
  assert (PB : 0 < 2 / 3 * (Rabs b / norm n a)).
  { apply Rmult_lt_0_compat; [lra|]. apply Rdiv_lt_0_compat; [apply Rabs_pos_lt; exact Hb|apply norm_pos; exact Ha]. }
  set (B := 2 / 3 * (Rabs b / norm n a)) in *.
  destruct (pow_lt_1_zero (31 / 32)) with (y := B / (D + 1)) as [K HK].
  - rewrite Rabs_right; lra.
  - apply Rdiv_lt_0_compat; lra.
  - exists K. right. specialize (HK K (le_n K)). rewrite Rabs_right in HK by (apply Rle_ge, pow_le; lra).
    assert (0 <= (31 / 32) ^ K) by (apply pow_le; lra).
    assert ((31 / 32) ^ K * (D + 1) < B).
    { apply (Rmult_lt_compat_r (D + 1)) in HK; [|lra]. unfold Rdiv in HK. rewrite Rmult_assoc, Rinv_l in HK by lra. lra. }
    nra.
Qed.
Print Assumptions C24_iterations_exist.

(** C24, end to end: a model built by any history, all marginals normal
    (u_to_x(z) = mu + sigma z, jacobian 1/sigma), any correlation (T, invT
    inverse to each other), a limit state linear in the variables, forward
    differences: run() is FORM on the affine function b - a.u below. *)
Theorem C24_linear_normal : forall h expr f o fuel T invT inv m c0 (cf mu sd : vec),
  let n := ndists h in
  pointwise expr f -> (1 <= n)%nat -> (1 <= o_block_size o)%Z -> (n + 7 < fuel)%nat ->
  o_multi_proc o <> 0%Z -> o_diff_mode o <> "no"%string -> o_diff_mode o <> "ddm"%string -> o_ffdpara o <> 0 ->
  (forall d, In d (dists_of (accepted h)) -> rv_stdv d <> 0) ->
  inverse_pair n T invT -> inv_contract n inv -> (forall A B, inverse_pair n B A -> exists C, inv n A = Ok C) ->
  (forall q, length q = n -> f (args_at h q) = c0 + fsum n (fun i => cf i * nth i q 0)) ->
  (forall i, (i < n)%nat -> sd i <> 0) ->
  (forall i, (i < n)%nat -> (forall z, rv_u2x (m i) z = mu i + sd i * z) /\ forall z x, rv_jac (m i) z x = / sd i) ->
  let b := c0 + fsum n (fun i => cf i * mu i) in
  let a := fun j => - fsum n (fun i => cf i * sd i * invT i j) in
  affine_ev n a b (form_ev fuel (sm_run h) expr o n T invT inv m) /\
  (forall us, (length us < fuel)%nat ->
     exists k, form_trial fuel (sm_run h) expr o n invT m us = (Ok (map (fun u => b - dot n a u) us), k)).
Proof.
  intros h expr f o fuel T invT inv m c0 cf mu sd n Hp Hn Hb Hfu Hmp Hd1 Hd2 Hff Hs HT HI HIex Hlin Hsd Hm b a. split.
  - intros u. apply (lin_ev h expr f o fuel T invT inv m c0 cf mu sd Hp Hn Hb); try assumption. unfold ntrial. fold n. lia.
  - intros us Hus. apply (lin_trial h expr f o fuel invT m c0 cf mu sd Hp Hn Hb); assumption.
Qed.
Print Assumptions C24_linear_normal.

(** C24, end to end: with the full step, beta is exactly the second-moment
    index (c0 + sum c_i mu_i) / || a ||; for uncorrelated variables
    || a ||^2 = sum (c_i sigma_i)^2. *)
Theorem C24_linear_normal_beta : forall h expr f o fuel T invT inv m c0 (cf mu sd : vec) fo evn u0,
  let n := ndists h in
  pointwise expr f -> (1 <= n)%nat -> (1 <= o_block_size o)%Z -> (n + 7 < fuel)%nat ->
  o_multi_proc o <> 0%Z -> o_diff_mode o <> "no"%string -> o_diff_mode o <> "ddm"%string -> o_ffdpara o <> 0 ->
  (forall d, In d (dists_of (accepted h)) -> rv_stdv d <> 0) ->
  inverse_pair n T invT -> inv_contract n inv -> (forall A B, inverse_pair n B A -> exists C, inv n A = Ok C) ->
  (forall q, length q = n -> f (args_at h q) = c0 + fsum n (fun i => cf i * nth i q 0)) ->
  (forall i, (i < n)%nat -> sd i <> 0) ->
  (forall i, (i < n)%nat -> (forall z, rv_u2x (m i) z = mu i + sd i * z) /\ forall z x, rv_jac (m i) z x = / sd i) ->
  let b := c0 + fsum n (fun i => cf i * mu i) in
  let a := fun j => - fsum n (fun i => cf i * sd i * invT i j) in
  norm n a <> 0 -> fo_ls fo = o -> fo_step fo = 1 -> 0 < fo_e1 fo <= 1 -> 0 < fo_e2 fo -> (2 <= fo_imax fo)%Z ->
  (Z.to_nat (fo_imax fo) < fuel)%nat ->
  exists r c, form_run n fo (form_ev fuel (sm_run h) expr o n T invT inv m)
                            (form_trial fuel (sm_run h) expr o n invT m) evn fuel u0 = (FDone r, c) /\
    form_beta n r = Fin (b / norm n a) /\
    (meq n invT meye -> norm n a = sqrt (fsum n (fun i => (cf i * sd i) ^ 2))).
Proof.
  intros h expr f o fuel T invT inv m c0 cf mu sd fo evn u0 n Hp Hn Hb Hfu Hmp Hd1 Hd2 Hff Hs HT HI HIex Hlin Hsd Hm b a Ha Eo HS H1 H2 Hi Hf2.
  destruct (C24_linear_normal h expr f o fuel T invT inv m c0 cf mu sd Hp Hn Hb Hfu Hmp Hd1 Hd2 Hff Hs HT HI HIex Hlin Hsd Hm) as [A B].
  fold n in A, B. fold b a in A, B.
  set (tr := form_trial fuel (sm_run h) expr o n invT m) in *.
  set (ev := form_ev fuel (sm_run h) expr o n T invT inv m) in *.
  assert (TT : affine_trial n a b (total_trial n a b tr)).
  { intros us. unfold total_trial. destruct (Nat.eqb_spec (length us) ntrial) as [El|]; [|eauto].
    apply B. rewrite El. unfold ntrial. lia. }
  destruct (C24_full_step_exact n fo ev (total_trial n a b tr) evn a b Ha A TT HS H1 H2 Hi fuel u0 Hf2) as (r & c & E & _ & EB & _).
  exists r, c. split; [|split; [exact EB|]].
  - unfold form_run in *. rewrite (loop_trial_ext n fo ev tr (total_trial n a b tr)); [exact E|].
    intros us Hl. unfold total_trial. rewrite Hl, Nat.eqb_refl. reflexivity.
  - intros HE. unfold norm, dot. f_equal. apply fsum_ext. intros j Hj. unfold a.
    rewrite (fsum_ext n (fun i => cf i * sd i * invT i j) (fun i => cf i * sd i * delta i j)) by (intros i Hi'; rewrite HE by assumption; reflexivity).
    rewrite fsum_delta_r by exact Hj. ring.
Qed.
Print Assumptions C24_linear_normal_beta.

(** C25 *)
Theorem C25_direction_vanishes_iff_stationary : forall n G g u, norm n g <> 0 ->
  let al := fun i => - g i / norm n g in
  (veq n (search_dir n G g u) (fun _ => 0) <-> G = 0 /\ veq n u (fun i => dot n al u * al i)).
Proof. exact direction_zero. Qed.
Print Assumptions C25_direction_vanishes_iff_stationary.

(** C26: the labels are right (for pairwise different alphas) iff all constants
    were added after all random variables. *)
Theorem C26_labels_right_iff_constants_last : forall h alphas,
  length alphas = length (dists_of (accepted h)) -> NoDup alphas ->
  let dict := getAlpha_dict (sm_run h) alphas in
  ((forall i d, nth_error (dists_of (accepted h)) i = Some d -> dict_get dict (rv_name d) = Some (nth i alphas 0)) <->
   (exists ds cs, accepted h = map ODist ds ++ map (fun c => OConst (fst c) (snd c)) cs)).
Proof. exact alpha_labels_iff. Qed.
Print Assumptions C26_labels_right_iff_constants_last.

(** C26: a variable added after a constant as the last object has no entry ... *)
Theorem C26_last_variable_missing : forall h alphas l d,
  length alphas = ndists h -> accepted h = l ++ [ODist d] -> consts_of l <> [] ->
  dict_get (getAlpha_dict (sm_run h) alphas) (rv_name d) = None.
Proof. exact alpha_last_missing. Qed.
Print Assumptions C26_last_variable_missing.

(** ... and a constant added first receives the first variable's alpha. *)
Theorem C26_constant_gets_alpha : forall h alphas c v r,
  alphas <> [] -> accepted h = OConst c v :: r ->
  dict_get (getAlpha_dict (sm_run h) alphas) c = Some (nth 0 alphas 0).
Proof. exact alpha_first_const. Qed.
Print Assumptions C26_constant_gets_alpha.

(** C27 *)
Theorem C27_start_on_surface_never_converges : forall n o ev trial evn fuel u0 r c g0,
  fst (ev u0) = Ok (0, g0) ->
  form_run n o ev trial evn fuel u0 = (FDone r, c) -> fr_i r = fo_imax o.
Proof.
  intros n o ev trial evn fuel u0 r c g0 H0 H. apply form_stop in H. destruct H as [_ [H|H]]; [exact H|].
  destruct H as (u & Go & g1 & _ & E & HG & _). rewrite H0 in E. inversion E; subst. exfalso. apply HG. reflexivity.
Qed.
Print Assumptions C27_start_on_surface_never_converges.

(** C68: the number of limit state calls of a completed run, also one that meets a vanishing
    gradient and ends with undefined (NaN) results. *)
Theorem C68_form_function_calls : forall fuel s expr n T invT inv m fo evn lf u0 r c,
  let o := fo_ls fo in
  (0 < o_block_size o)%Z ->
  form_run n fo (form_ev lf s expr o n T invT inv m) (form_trial lf s expr o n invT m) evn fuel u0 = (FDone r, c) ->
  let per_iteration := (if String.eqb (o_diff_mode o) "no" then 1 else if String.eqb (o_diff_mode o) "ddm" then 1
                        else 1 + Z.of_nat n)%Z in
  Z.of_nat c = (per_iteration * fr_i r + (if Reqb (fo_step fo) 0 then 6 else 0) * (fr_i r - 1))%Z.
Proof.
  intros fuel s expr n T invT inv m fo evn lf u0 r c o Hb H per.
  set (tr := form_trial lf s expr o n invT m) in *.
  set (tr' := fun us => if Nat.eqb (length us) ntrial then tr us else (Err EValue, 0%nat)).
  unfold form_run in H. rewrite (loop_trial_ext n fo _ tr tr') in H.
  2:{ intros us Hl. unfold tr'. rewrite Hl, Nat.eqb_refl. reflexivity. }
  pose proof (loop_calls n fo _ tr' evn ntrial
    (fun v Gg k E => form_ev_cost lf s expr o n T invT inv m v Gg k Hb E)) as L.
  assert (TK : forall us Gs k, tr' us = (Ok Gs, k) -> k = ntrial).
  { intros us Gs k E. unfold tr' in E. destruct (Nat.eqb_spec (length us) ntrial) as [El|]; [|discriminate].
    unfold tr in E. apply form_trial_cost in E; [|exact Hb]. rewrite E, El. reflexivity. }
  specialize (L TK eq_refl fuel 1%Z None _ 0 (fun _ => 0) 0%nat r c H).
  rewrite L. unfold per, eval_cost. fold o. change (Z.of_nat ntrial) with 6%Z. destruct (String.eqb (o_diff_mode o) "no"); [destruct (Reqb (fo_step fo) 0); lia|].
  destruct (String.eqb (o_diff_mode o) "ddm"); destruct (Reqb (fo_step fo) 0); lia.
Qed.
Print Assumptions C68_form_function_calls.

(** *** concrete instances *)
(** G(u) = 3 - (3 u0 + 4 u1)/5: beta = 3 (n = 2) *)
Definition exA : vec := fun i => match i with O => 3 / 5 | _ => 4 / 5 end.
Definition exEv : vec -> result (R * vec) * nat := fun u => (Ok (3 - dot 2 exA u, fun i => - exA i), 3%nat).
Definition exTrial : list vec -> result (list R) * nat := fun us => (Ok (map (fun u => 3 - dot 2 exA u) us), length us).
Definition exOpt (imax : Z) (step : R) : form_opts := mkfo imax (1 / 1000) (1 / 1000) step (mkopts "ffd" 1 1000 1000).

Lemma exA_norm : norm 2 exA = 1.
Proof. unfold norm, dot. cbn [fsum exA]. replace (_ + _) with 1 by field. apply sqrt_1. Qed.
Lemma exEv_affine : affine_ev 2 exA 3 exEv.
Proof. intros u. exists (fun i => - exA i), 3%nat. split; [reflexivity|]. intros i _. reflexivity. Qed.
Lemma exTrial_affine : affine_trial 2 exA 3 exTrial.
Proof. intros us. exists (length us). reflexivity. Qed.

Example C24_example : exists r c, form_run 2 (exOpt 100 1) exEv exTrial None 101 (fun _ => 0) = (FDone r, c) /\
  form_beta 2 r = Fin 3 /\ fr_i r = 2%Z.
Proof.
  destruct (C24_full_step_exact 2 (exOpt 100 1) exEv exTrial None exA 3) with (fuel := 101%nat) (u0 := fun _ : nat => 0) as (r & c & E & _ & EB & _ & EI).
  - rewrite exA_norm. lra.
  - exact exEv_affine.
  - exact exTrial_affine.
  - reflexivity.
  - simpl; lra.
  - simpl; lra.
  - simpl; lia.
  - simpl; lia.
  - exists r, c. split; [exact E|]. split; [rewrite EB, exA_norm; f_equal; field|]. apply EI.
    unfold dot. cbn [fsum]. lra.
Qed.

(** automatic steps, u0 = 0: K = 13 *)
Example C24_auto_example : exists r c beta, form_run 2 (exOpt 100 0) exEv exTrial None 100 (fun _ => 0) = (FDone r, c) /\
  (fr_i r <= 40)%Z /\ form_beta 2 r = Fin beta /\ Rabs (beta - 3) < 3 / 1000.
Proof.
  destruct (C24_automatic_converges 2 (exOpt 100 0) exEv exTrial None exA 3) with (K := 13%nat) (fuel := 100%nat) (u0 := fun _ : nat => 0) as (r & c & beta & E & EI & EB & EA).
  - rewrite exA_norm. lra.
  - exact exEv_affine.
  - exact exTrial_affine.
  - reflexivity.
  - reflexivity.
  - simpl; lra.
  - simpl; lra.
  - right. rewrite exA_norm, Rabs_right by lra.
    assert (E : norm 2 (fun i => 0 - 3 / (1 * 1) * exA i) = 3).
    { unfold norm, dot. cbn [fsum exA]. replace (_ + _) with (3 * 3) by field. apply sqrt_square. lra. }
    rewrite E. simpl pow. lra.
  - unfold dot. cbn [fsum]. lra.
  - simpl; lia.
  - lia.
  - exists r, c, beta. split; [exact E|]. split; [lia|]. split; [exact EB|].
    rewrite exA_norm in EA. replace (3 / 1) with 3 in EA by field. simpl fo_e1 in EA.
    assert (D0 : dot 2 exA (fun _ : nat => 0) = 0) by (unfold dot; cbn [fsum]; ring). rewrite D0, (Rabs_right (3 - 0)) in EA by lra. lra.
Qed.

(** i_max = 0 on the constant limit state G = 1 *)
Example C21_example : forall fuel, fst (form_run 1 (exOpt 0 0) (fun _ => (Ok (1, fun _ => 0), 2%nat))
   (fun us => (Ok (map (fun _ => 1) us), length us)) None fuel (fun _ => 0)) = FFuel.
Proof.
  apply (C21_nonpositive_limit_diverges 1 (exOpt 0 0) _ _ None 1 (fun _ => 0)).
  - simpl; lia.
  - reflexivity.
  - intros u. eauto.
  - right. split; [reflexivity|]. intros us. eauto.
  - reflexivity.
  - intros u G g E _ _ H. cbn in E. inversion E; subst. simpl in H.
    replace (1 / 1) with 1 in H by field. rewrite Rabs_R1 in H. lra.
Qed.

(** started at the design point of exEv: 100 iterations *)
Example C27_example : exists r c, form_run 2 (exOpt 100 1) exEv exTrial None 101 (fun i => 3 * exA i) = (FDone r, c) /\ fr_i r = 100%Z.
Proof.
  destruct (C24_full_step_exact 2 (exOpt 100 1) exEv exTrial None exA 3) with (fuel := 101%nat) (u0 := fun i => 3 * exA i) as (r & c & E & _).
  - rewrite exA_norm. lra.
  - exact exEv_affine.
  - exact exTrial_affine.
  - reflexivity.
  - simpl; lra.
  - simpl; lra.
  - simpl; lia.
  - simpl; lia.
  - exists r, c. split; [exact E|].
    apply (C27_start_on_surface_never_converges 2 (exOpt 100 1) exEv exTrial None 101 (fun i => 3 * exA i) r c (fun i => - exA i)); [|exact E].
    cbn. f_equal. f_equal. field.
Qed.

(** a constant between two variables *)
Example C26_example :
  let x := mkrv "x" 0 1 0 (fun u => u) (fun x => x) (fun _ _ => 1) in
  let y := mkrv "y" 0 1 0 (fun u => u) (fun x => x) (fun _ _ => 1) in
  let h := [OpAdd (OConst "k" 5); OpAdd (ODist x); OpAdd (ODist y)] in
  getAlpha_dict (sm_run h) [3 / 5; 4 / 5] = [("k", 3 / 5); ("x", 4 / 5)]%string.
Proof. reflexivity. Qed.

(** a non-affine limit state for C23: G(u) = 2 - u0^2 at u0 = 1 *)
Example C23_example : exists l, is_derive (fun t => 1 / 2 * norm 1 (fun i => 1 + t * search_dir 1 1 (fun _ => -2) (fun _ => 1) i) ^ 2 +
    penalty 1 (fun _ => -2) (fun _ => 1) * Rabs (2 - (1 + t * search_dir 1 1 (fun _ => -2) (fun _ => 1) 0%nat) ^ 2)) 0 l /\ l < 0.
Proof.
  pose proof (C23_descent 1 (fun u => 2 - u 0%nat ^ 2) (fun _ => -2) (fun _ => 1)) as H. cbv zeta in H. cbv beta in H.
  assert (E : norm 1 (fun _ => -2) = 2).
  { unfold norm, dot. cbn [fsum]. replace (0 + -2 * -2) with (2 * 2) by ring. apply sqrt_square. lra. }
  replace (2 - 1 ^ 2) with 1 in H by ring.
  destruct H as (l & eps & H1 & H2 & _).
  - intros v Hv. rewrite (Hv 0%nat) by lia. ring.
  - unfold dot. cbn [fsum]. set (d := search_dir 1 1 (fun _ => -2) (fun _ => 1) 0%nat).
    auto_derive; [exact I|]. ring.
  - rewrite E. lra.
  - exists 0%nat. split; [lia|]. unfold search_dir, alpha_of, dot. cbn [fsum]. rewrite E. lra.
  - exists l. split; assumption.
Qed.
