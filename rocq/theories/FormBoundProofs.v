(** Lemmas for C112. *)
From Coquelicot Require Import Coquelicot.
From Verif Require Import Base Gauss GaussProofs McSpec MomSpec MomProofs McBiasSpec McBiasProofs McBiasProps McBiasLinProofs McBiasLinProps FormBoundSpec.
From Coq Require Import Lra Lia FunctionalExtensionality.
Open Scope R_scope.

Lemma mix_0 u w : mix 0 u w = u.
Proof. apply functional_extensionality. intros i. unfold mix. ring. Qed.
Lemma mix_1 u w : mix 1 u w = w.
Proof. apply functional_extensionality. intros i. unfold mix. ring. Qed.

(** a negative slope: the function decreases just after, and was larger just before *)
Lemma slope_neg (f : R -> R) d : is_derive f 0 d -> d < 0 -> exists s, 0 < s <= 1 /\ f s < f 0 /\ f 0 < f (- s).
Proof.
  intros D Hd. apply is_derive_Reals in D. destruct (D (- d / 2) ltac:(lra)) as (dl & H). pose proof (cond_pos dl) as P.
  set (s := Rmin 1 (dl / 2)). assert (S1 : 0 < s) by (apply Rmin_glb_lt; lra). assert (S2 : s <= 1) by apply Rmin_l. assert (S3 : s < dl) by (pose proof (Rmin_r 1 (dl / 2)); unfold s; lra).
  exists s. split; [lra|]. split.
  - pose proof (H s ltac:(lra) ltac:(rewrite Rabs_right; lra)) as Q. rewrite Rplus_0_l in Q. apply Rabs_def2 in Q. destruct Q as [Q _].
    assert (X : (f s - f 0) / s < 0) by lra. apply (Rmult_lt_compat_r s) in X; [|exact S1]. unfold Rdiv in X. rewrite Rmult_assoc, Rinv_l in X by lra. lra.
  - pose proof (H (- s) ltac:(lra) ltac:(rewrite Rabs_Ropp, Rabs_right; lra)) as Q. rewrite Rplus_0_l in Q. apply Rabs_def2 in Q. destruct Q as [Q _].
    assert (X : (f (- s) - f 0) / - s < 0) by lra. apply (Rmult_lt_compat_r s) in X; [|exact S1]. replace ((f (- s) - f 0) / - s * s) with (f 0 - f (- s)) in X by (field; lra). lra.
Qed.

(** a convex function lies above its tangent plane *)
Lemma tangent n gu u g w : convex gu -> slopes n gu u g -> gu u + dot n g (fun i => w i - u i) <= gu w.
Proof.
  intros C S. specialize (S w). set (d := dot n g (fun i => w i - u i)) in *. destruct (Rle_or_lt (gu u + d) (gu w)) as [L|L]; [exact L|exfalso].
  (* the function minus the chord has a positive slope at 0 but is <= 0 *)
  set (k := fun t => - (gu (mix t u w) - ((1 - t) * gu u + t * gu w))).
  assert (D : is_derive k 0 (- (d - (gu w - gu u)))).
  { unfold k. apply (is_derive_opp (fun t => gu (mix t u w) - ((1 - t) * gu u + t * gu w))). apply (is_derive_minus (fun t => gu (mix t u w)) (fun t => (1 - t) * gu u + t * gu w)); [exact S|]. auto_derive; [exact I|ring]. }
  destruct (slope_neg k _ D ltac:(lra)) as (s & Hs & K & _). unfold k in K. rewrite mix_0 in K. pose proof (C u w s ltac:(lra)). lra.
Qed.
Lemma tangent_concave n gu u g w : concave gu -> slopes n gu u g -> gu w <= gu u + dot n g (fun i => w i - u i).
Proof.
  intros C S. assert (S' : slopes n (fun v => - gu v) u (fun i => - g i)).
  { intros v. pose proof (is_derive_opp _ _ _ (S v)) as Q. refine (eq_ind _ (fun d => is_derive (fun t => - gu (mix t u v)) 0 d) Q _ _). change (- dot n g (fun i => v i - u i) = dot n (fun i => - g i) (fun i => v i - u i)). unfold dot. rewrite <- fsum_opp. apply fsum_ext. intros; ring. }
  pose proof (tangent n _ u _ w C S') as Q. cbn beta in Q. assert (E : dot n (fun i => - g i) (fun i => w i - u i) = - dot n g (fun i => w i - u i)) by (unfold dot; rewrite <- fsum_opp; apply fsum_ext; intros; ring). rewrite E in Q. lra.
Qed.

(** ** comparison with half spaces *)
Lemma fp_mean n gu v : failure_probability n gu v -> is_mean n (fun u => if Rltb (gu u) 0 then 1 else 0) v.
Proof. intros H. apply int_mean. refine (int_ext n _ _ _ _ H). intros u. cbn beta. destruct (Rltb (gu u) 0); ring. Qed.
Lemma half_open n alpha beta : norm n alpha = 1 -> is_mean n (fun u => if Rltb beta (dot n alpha u) then 1 else 0) (Phi (- beta)).
Proof. intros N. pose proof (half_space n alpha beta ltac:(lra)) as H. rewrite N in H. replace (beta / 1) with beta in H by field. exact H. Qed.
Lemma half_closed n alpha beta : norm n alpha = 1 -> is_mean n (fun u => if Rleb beta (dot n alpha u) then 1 else 0) (Phi (- beta)).
Proof.
  intros N. assert (N' : norm n (fun i => - alpha i) = 1) by (rewrite <- N; unfold norm, dot; f_equal; apply fsum_ext; intros; ring).
  pose proof (half_open n _ (- beta) N') as H. rewrite Ropp_involutive in H. rewrite Phi_opp.
  pose proof (mean_plus n _ _ _ _ (mean_const n 1) (mean_scal n (-1) _ _ H)) as Q. replace (1 - Phi beta) with (1 + -1 * Phi beta) by ring.
  refine (mean_ext n _ _ _ _ Q). intros u. cbn beta. assert (E : dot n (fun i => - alpha i) u = - dot n alpha u) by (unfold dot; rewrite <- fsum_opp; apply fsum_ext; intros; ring). rewrite E.
  destruct (Rltb (- beta) (- dot n alpha u)) eqn:E1, (Rleb beta (dot n alpha u)) eqn:E2; try ring; exfalso.
  - apply Rltb_spec in E1. apply Rleb_spec in E2. lra.
  - apply Rltb_false in E1. apply Rleb_false in E2. lra.
Qed.
Lemma fp_inside n gu v alpha beta : norm n alpha = 1 -> (forall w, gu w < 0 -> beta <= dot n alpha w) -> failure_probability n gu v -> v <= Phi (- beta).
Proof.
  intros N H F. apply (mean_le n (fun u => if Rltb (gu u) 0 then 1 else 0) (fun u => if Rleb beta (dot n alpha u) then 1 else 0)); [|exact (fp_mean n gu v F)|exact (half_closed n alpha beta N)].
  intros w. destruct (Rltb (gu w) 0) eqn:E1, (Rleb beta (dot n alpha w)) eqn:E2; try lra. apply Rltb_spec in E1. apply Rleb_false in E2. specialize (H w E1). lra.
Qed.
Lemma fp_outside n gu v alpha beta : norm n alpha = 1 -> (forall w, beta < dot n alpha w -> gu w < 0) -> failure_probability n gu v -> Phi (- beta) <= v.
Proof.
  intros N H F. apply (mean_le n (fun u => if Rltb beta (dot n alpha u) then 1 else 0) (fun u => if Rltb (gu u) 0 then 1 else 0)); [|exact (half_open n alpha beta N)|exact (fp_mean n gu v F)].
  intros w. destruct (Rltb (gu w) 0) eqn:E1, (Rltb beta (dot n alpha w)) eqn:E2; try lra. apply Rltb_spec in E2. apply Rltb_false in E1. specialize (H w E2). lra.
Qed.

(** a function bounded below (above) by an affine one with gradient g *)
Section Cut.
  Variables (n : nat) (g u : vec) (G : R).
  Hypothesis Hg : norm n g <> 0.
  Let al : vec := fun i => - g i / norm n g.
  Lemma cut_norm : 0 < norm n g.
  Proof. pose proof (sqrt_pos (dot n g g)). unfold norm in *. lra. Qed.
  Lemma cut_dot w : dot n g (fun i => w i - u i) = - norm n g * (dot n al w - dot n al u).
  Proof.
    pose proof cut_norm as P. replace (- norm n g * (dot n al w - dot n al u)) with (- norm n g * dot n al w + norm n g * dot n al u) by ring.
    unfold dot. rewrite <- !fsum_scal, <- fsum_plus. apply fsum_ext. intros i _. unfold al. field. lra.
  Qed.
  Lemma cut_below w : G + dot n g (fun i => w i - u i) < 0 <-> dot n al u + G / norm n g < dot n al w.
  Proof.
    pose proof cut_norm as P. rewrite cut_dot. split; intros H.
    - apply (Rmult_lt_reg_l (norm n g)); [exact P|]. replace (norm n g * (dot n al u + G / norm n g)) with (norm n g * dot n al u + G) by (field; lra). nra.
    - apply (Rmult_lt_compat_l (norm n g)) in H; [|exact P]. replace (norm n g * (dot n al u + G / norm n g)) with (norm n g * dot n al u + G) in H by (field; lra). nra.
  Qed.
End Cut.
