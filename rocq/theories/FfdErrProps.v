(** Property theorems C123: accuracy of the forward-difference gradient (model.py evaluate_ffd). *)
From Coquelicot Require Import Coquelicot.
From Verif Require Import Base StochModel StochModelSpec LimitState LimitStateSpec LimitStateProofs LimitStateProps.
From Coq Require Import ZArith Lra Lia.
Open Scope string_scope.
Open Scope R_scope.

Lemma fd_error (g g1 g2 : R -> R) s M : 0 < s ->
  (forall t, 0 <= t <= s -> is_derive g t (g1 t) /\ is_derive g1 t (g2 t) /\ Rabs (g2 t) <= M) ->
  Rabs ((g s - g 0) / s - g1 0) <= M / 2 * s.
Proof.
  intros Hs H.
  (* q t = (g t - g 0 - g1 0 t) -+ M t^2 / 2 is monotone: its derivative is g1 t - g1 0 -+ M t *)
  assert (B1 : forall t, 0 <= t <= s -> Rabs (g1 t - g1 0) <= M * t).
  { intros t Ht. destruct (Req_dec t 0) as [->|N]; [rewrite Rminus_diag_eq, Rabs_R0 by reflexivity; lra|].
    destruct (MVT_gen g1 0 t g2) as (c & [Hc1 Hc2] & E).
    - intros y Hy. rewrite Rmin_left, Rmax_right in Hy by lra. apply H. lra.
    - intros y Hy. rewrite Rmin_left, Rmax_right in Hy by lra. apply continuity_pt_filterlim. apply (ex_derive_continuous (V := R_NormedModule)). exists (g2 y). apply H. lra.
    - rewrite Rmin_left in Hc1 by lra. rewrite Rmax_right in Hc2 by lra. rewrite E, Rminus_0_r, Rabs_mult, (Rabs_right t) by lra. apply Rmult_le_compat_r; [lra|]. apply H. lra. }
  assert (B2 : forall e, e = 1 \/ e = -1 -> e * (g s - g 0 - g1 0 * s) <= M / 2 * s ^ 2).
  { intros e He. destruct (MVT_gen (fun t => e * (g t - g 0 - g1 0 * t) - M / 2 * t ^ 2) 0 s (fun t => e * (g1 t - g1 0) - M * t)) as (c & [Hc1 Hc2] & E).
    - intros y Hy. rewrite Rmin_left, Rmax_right in Hy by lra. destruct (H y ltac:(lra)) as [Dg _]. assert (ex_derive g y) by (eexists; exact Dg). auto_derive; [auto|]. rewrite (is_derive_unique (fun x : R => g x) y _ Dg). field.
    - intros y Hy. rewrite Rmin_left, Rmax_right in Hy by lra. destruct (H y ltac:(lra)) as [Dg _]. assert (ex_derive g y) by (eexists; exact Dg). apply continuity_pt_filterlim. apply (ex_derive_continuous (V := R_NormedModule) (fun t => e * (g t - g 0 - g1 0 * t) - M / 2 * t ^ 2)). auto_derive; auto.
    - rewrite Rmin_left in Hc1 by lra. rewrite Rmax_right in Hc2 by lra. specialize (B1 c ltac:(lra)). apply Rabs_le_between in B1.
      assert (X : e * (g1 c - g1 0) - M * c <= 0) by (destruct He as [-> | ->]; lra). assert (X2 : (e * (g1 c - g1 0) - M * c) * (s - 0) <= 0) by (clear - X Hs; nra). rewrite <- E in X2. cbn beta in X2. replace (e * (g 0 - g 0 - g1 0 * 0) - M / 2 * 0 ^ 2) with 0 in X2 by ring. lra. }
  pose proof (B2 1 (or_introl eq_refl)) as U. pose proof (B2 (-1) (or_intror eq_refl)) as L.
  replace ((g s - g 0) / s - g1 0) with ((g s - g 0 - g1 0 * s) * / s) by (field; lra). rewrite Rabs_mult, (Rabs_right (/ s)) by (apply Rle_ge, Rlt_le, Rinv_0_lt_compat, Hs).
  apply (Rmult_le_reg_r s); [exact Hs|]. rewrite Rmult_assoc, Rinv_l, Rmult_1_r by lra. apply Rabs_le_between. replace (M / 2 * s * s) with (M / 2 * s ^ 2) by ring. lra.
Qed.

Lemma replace_self : forall p j, (j < List.length p)%nat -> replace_nth j (nth j p 0) p = p.
Proof. induction p as [|x p IH]; intros [|j] H; cbn in *; try lia; [reflexivity|]. rewrite IH by lia. reflexivity. Qed.

(** C123: the reported derivative with respect to variable j differs from the true one by at most
    M/2 times the step stdv_j / ffdpara, M a bound on the second derivative in that variable over
    the step: the error is of first order. *)
Theorem C123_gradient_error : forall h expr f p bs ffdpara fuel j d (g1 g2 : R -> R) M,
  pointwise expr f -> (1 <= ndists h)%nat -> List.length p = ndists h -> (1 <= bs)%Z ->
  (S (List.length p) < fuel)%nat ->
  nth_error (dists_of (accepted h)) j = Some d -> 0 < rv_stdv d -> 0 < ffdpara ->
  let along t := f (args_at h (replace_nth j (nth j p 0 + t) p)) in
  let step := rv_stdv d / ffdpara in
  (forall t, 0 <= t <= step -> is_derive along t (g1 t) /\ is_derive g1 t (g2 t) /\ Rabs (g2 t) <= M) ->
  exists value grad gj, ev_out (evaluate_ffd fuel (sm_run h) expr bs ffdpara (ndists h) [p]) = ODone [value] [grad] /\
    nth_error grad j = Some gj /\ Rabs (gj - g1 0) <= M / 2 * step.
Proof.
  intros h expr f p bs ffdpara fuel j d g1 g2 M Hp Hn HL Hb Hf Hj Hd Ha along step H. destruct (C06_forward_difference h expr f p bs ffdpara fuel Hp Hn HL Hb Hf) as [E _]. cbv zeta in E. rewrite E. do 3 eexists. split; [reflexivity|].
  assert (J : (j < ndists h)%nat) by (unfold ndists; apply nth_error_Some; congruence).
  split; [rewrite nth_error_map; rewrite (nth_error_nth' (seq 0 (ndists h)) O) by (rewrite seq_length; exact J); rewrite seq_nth by exact J; reflexivity|]. cbn [Nat.add]. cbv beta.
  assert (S : nth j (map (fun d => rv_stdv d / ffdpara) (dists_of (accepted h))) 0 = step) by (apply nth_error_nth; rewrite nth_error_map, Hj; reflexivity). rewrite S.
  assert (P0 : f (args_at h p) = along 0) by (unfold along; rewrite Rplus_0_r, replace_self by lia; reflexivity). rewrite P0. apply (fd_error along g1 g2); [apply Rdiv_lt_0_compat; assumption|exact H].
Qed.
Print Assumptions C123_gradient_error.

(** C123: the bound is attained: on a limit state a + b t + c t^2 along variable j (t from the point) the
    reported derivative is b + c times the step, for every sign of stdv and ffdpara. *)
Theorem C123_quadratic : forall h expr f p bs ffdpara fuel j dj (a b c : R),
  pointwise expr f -> (1 <= ndists h)%nat -> List.length p = ndists h -> (1 <= bs)%Z ->
  (S (List.length p) < fuel)%nat ->
  nth_error (dists_of (accepted h)) j = Some dj -> rv_stdv dj <> 0 -> ffdpara <> 0 ->
  (forall t, f (args_at h (replace_nth j (nth j p 0 + t) p)) = a + b * t + c * t ^ 2) ->
  exists value grad, ev_out (evaluate_ffd fuel (sm_run h) expr bs ffdpara (ndists h) [p]) = ODone [value] [grad] /\
    nth_error grad j = Some (b + c * (rv_stdv dj / ffdpara)).
Proof.
  intros h expr f p bs ffdpara fuel j d a b c Hp Hn HL Hb Hf Hj Hd Ha H. destruct (C06_forward_difference h expr f p bs ffdpara fuel Hp Hn HL Hb Hf) as [E _]. cbv zeta in E. rewrite E. do 2 eexists. split; [reflexivity|].
  assert (J : (j < ndists h)%nat) by (unfold ndists; apply nth_error_Some; congruence).
  rewrite nth_error_map; rewrite (nth_error_nth' (seq 0 (ndists h)) O) by (rewrite seq_length; exact J); rewrite seq_nth by exact J. cbn [option_map Nat.add]. f_equal.
  assert (S : nth j (map (fun d => rv_stdv d / ffdpara) (dists_of (accepted h))) 0 = rv_stdv d / ffdpara) by (apply nth_error_nth; rewrite nth_error_map, Hj; reflexivity). rewrite S.
  assert (P0 : f (args_at h p) = a) by (pose proof (H 0) as H0; rewrite Rplus_0_r, replace_self in H0 by lia; rewrite H0; ring). rewrite P0, H. field. split; assumption.
Qed.
Print Assumptions C123_quadratic.

(** R^2 - k S at (10, 1), stdv 2, ffdpara 1000: the derivative with respect to R is 20, reported 20.002;
    both theorems apply (second derivative 2). *)
Definition g_sq (kw : list (string * R)) : R := lk kw "R" ^ 2 - lk kw "k" * lk kw "S".
Definition expr_sq : expression := fun kw =>
  let nc := match kw with [] => 0%nat | (_, v) :: _ => List.length v end in
  Ok (UPlain (Arr (map (fun c => g_sq (map (fun kv => (fst kv, nth c (snd kv) 0)) kw)) (seq 0 nc)))).
Example C123_example : forall fuel, (3 < fuel)%nat ->
  (exists value grad, ev_out (evaluate_ffd fuel (sm_run h_ex) expr_sq 1000 1000 2 [[10; 1]]) = ODone [value] [grad] /\ nth_error grad 0 = Some (20 + 1 * (2 / 1000))) /\
  (exists value grad gj, ev_out (evaluate_ffd fuel (sm_run h_ex) expr_sq 1000 1000 2 [[10; 1]]) = ODone [value] [grad] /\ nth_error grad 0 = Some gj /\ Rabs (gj - 20) <= 2 / 2 * (2 / 1000)).
Proof.
  intros fuel Hf. assert (PW : pointwise expr_sq g_sq).
  { intros kw nc Hne Hl. eexists. split; [reflexivity|]. destruct kw as [|[n v] kw]; [contradiction|]. cbn [value_of]. rewrite (Hl n v) by (left; reflexivity). reflexivity. }
  assert (AL : forall t, g_sq (args_at h_ex (replace_nth 0 (nth 0 [10; 1] 0 + t) [10; 1])) = 97 + 20 * t + 1 * t ^ 2) by (intros t; unfold g_sq, lk, args_at; cbn; ring).
  split.
  - apply (C123_quadratic h_ex expr_sq g_sq [10; 1] 1000 1000 fuel 0 (rv_ex "R") 97 20 1 PW); try reflexivity; try (vm_compute; lia); try lia; try (cbn; lra); try (cbn; lia). exact AL.
  - destruct (C123_gradient_error h_ex expr_sq g_sq [10; 1] 1000 1000 fuel 0 (rv_ex "R") (fun t => 20 + 2 * t) (fun _ => 2) 2 PW) as (v & g & gj & E1 & E2 & E3); try reflexivity; try (vm_compute; lia); try lia; try (cbn; lra); try (cbn; lia).
    + intros t _. split; [apply (is_derive_ext (fun t => 97 + 20 * t + 1 * t ^ 2)); [intros; symmetry; apply AL|auto_derive; [auto|ring]]|]. split; [auto_derive; [auto|ring]|rewrite Rabs_right; lra].
    + exists v, g, gj. split; [exact E1|]. split; [exact E2|]. cbn beta in E3. replace (20 + 2 * 0) with 20 in E3 by ring. exact E3.
Qed.
