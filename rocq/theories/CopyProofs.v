From Coquelicot Require Import Coquelicot.
From Verif Require Import Base StochModel Dict Gauss GaussProofs Dist DistSpec DistProofs DistMomProofs DistUpdProofs DistProps Copy CopySpec.
From Coq Require Import String Lra Lia.
From Coq Require Import List.
Import ListNotations.
Open Scope string_scope.
Open Scope R_scope.

(** ** Generic machinery *)

Lemma dict_del_notin d k : ~ In k (map fst d) -> dict_del d k = d.
Proof.
  induction d as [|[a v] d IH]; [reflexivity|]. cbn. intros H. destruct (String.eqb_spec k a) as [->|N]; [exfalso; tauto|]. cbn. f_equal. apply IH. tauto.
Qed.
Lemma dict_del_cons d k' v k : dict_del ((k', v) :: d) k = if String.eqb k k' then dict_del d k else (k', v) :: dict_del d k.
Proof. unfold dict_del. cbn [filter fst]. destruct (String.eqb k k'); reflexivity. Qed.
Lemma del_both m s0 kw : ~ In "mean" (map fst kw) -> ~ In "std" (map fst kw) ->
  dict_del (dict_del (("mean", m) :: ("std", s0) :: kw) "mean") "std" = kw.
Proof.
  intros A B. rewrite dict_del_cons. cbn [String.eqb Ascii.eqb Bool.eqb]. rewrite dict_del_cons. cbn [String.eqb Ascii.eqb Bool.eqb].
  rewrite dict_del_cons. cbn [String.eqb Ascii.eqb Bool.eqb]. now rewrite (dict_del_notin _ _ A), (dict_del_notin _ _ B).
Qed.
Lemma dict_update_new : forall e d, (forall k, In k (map fst e) -> ~ In k (map fst d)) -> NoDup (map fst e) -> dict_update d e = (d ++ e)%list.
Proof.
  induction e as [|[k v] e IH]; intros d H N; [cbn; now rewrite app_nil_r|]. cbn in N. inversion N as [|? ? N1 N2]; subst. unfold dict_update in *. cbn [fold_left fst snd].
  rewrite (dset_new d k v) by (apply H; now left). rewrite IH; [now rewrite <- app_assoc| |exact N2].
  intros k' I' J. rewrite map_app in J. apply in_app_iff in J. destruct J as [J|[J|[]]]; [apply (H k'); [now right|exact J]|cbn in J; subst k'; contradiction].
Qed.

Lemma copy_none c o : kw_plain (in_kw o) -> make_copy c o [] = c (in_mean o) (in_stdv o) (in_kw o).
Proof.
  intros (A & B & N). unfold make_copy. rewrite (dict_update_new (in_kw o)); [|intros k I J; cbn in J; intuition (subst; contradiction)|exact N].
  change (dict_update ?d []) with d. cbn [app]. rewrite del_both by assumption. reflexivity.
Qed.
Lemma copy_mean c o v : kw_plain (in_kw o) -> make_copy c o [("mean", v)] = c v (in_stdv o) (in_kw o).
Proof.
  intros (A & B & N). unfold make_copy. rewrite (dict_update_new (in_kw o)); [|intros k I J; cbn in J; intuition (subst; contradiction)|exact N].
  change (dict_update ([("mean", in_mean o); ("std", in_stdv o)] ++ in_kw o) [("mean", v)]) with (("mean", v) :: ("std", in_stdv o) :: in_kw o).
  rewrite del_both by assumption. reflexivity.
Qed.
Lemma copy_std c o v : kw_plain (in_kw o) -> make_copy c o [("std", v)] = c (in_mean o) v (in_kw o).
Proof.
  intros (A & B & N). unfold make_copy. rewrite (dict_update_new (in_kw o)); [|intros k I J; cbn in J; intuition (subst; contradiction)|exact N].
  change (dict_update ([("mean", in_mean o); ("std", in_stdv o)] ++ in_kw o) [("std", v)]) with (("mean", in_mean o) :: ("std", v) :: in_kw o).
  rewrite del_both by assumption. reflexivity.
Qed.
Lemma copy_extra c o k v : kw_plain (in_kw o) -> In k (map fst (in_kw o)) -> make_copy c o [(k, v)] = c (in_mean o) (in_stdv o) (dict_set (in_kw o) k v).
Proof.
  intros (A & B & N) I. unfold make_copy. rewrite (dict_update_new (in_kw o)); [|intros k' I' J; cbn in J; intuition (subst; contradiction)|exact N].
  assert (K1 : k <> "mean") by (intros ->; contradiction). assert (K2 : k <> "std") by (intros ->; contradiction).
  assert (E : dict_update ([("mean", in_mean o); ("std", in_stdv o)] ++ in_kw o) [(k, v)] = ("mean", in_mean o) :: ("std", in_stdv o) :: dict_set (in_kw o) k v).
  { unfold dict_update. cbn [fold_left app fst snd dict_set]. rewrite (proj2 (String.eqb_neq k "mean") K1), (proj2 (String.eqb_neq k "std") K2). reflexivity. }
  rewrite E. assert (MF : map fst (dict_set (in_kw o) k v) = map fst (in_kw o)) by now apply dkeys_set_in.
  rewrite del_both by (rewrite MF; assumption). reflexivity.
Qed.

Lemma fd_step_pos o v : 0 < in_stdv o -> 0 < fd_step o v.
Proof. intros H. unfold fd_step. eapply Rlt_le_trans; [|apply Rmax_r]. apply Rmult_lt_0_compat; [exact H|]. apply Rinv_0_lt_compat, pow_lt. lra. Qed.

Lemma fd_params_ok c o x : forall ps r, fd_params c o x ps = Ok r ->
  List.length r = List.length ps /\
  forall k p v, nth_error ps k = Some (p, v) -> exists dp dm,
    make_copy c o [(p, v + fd_step o v)] = Ok dp /\ make_copy c o [(p, v - fd_step o v)] = Ok dm /\
    nth_error r k = Some (p, (in_cdf dp x - in_cdf dm x) / (2 * fd_step o v)).
Proof.
  induction ps as [|[p v] ps IH]; intros r H; cbn [fd_params] in H.
  - injection H as <-. split; [reflexivity|]. intros [|k] p v K; discriminate.
  - destruct (make_copy c o [(p, v + fd_step o v)]) as [dp|e] eqn:Ep; [|discriminate]. cbn [rbind] in H.
    destruct (make_copy c o [(p, v - fd_step o v)]) as [dm|e] eqn:Em; [|discriminate]. cbn [rbind] in H.
    destruct (fd_params c o x ps) as [rest|e] eqn:Er; [|discriminate]. cbn [rbind] in H. injection H as <-.
    destruct (IH rest eq_refl) as [L K]. split; [cbn; now rewrite L|].
    intros [|k] p' v' Hk; cbn [nth_error] in *; [|now apply K]. injection Hk as <- <-. exists dp, dm. auto.
Qed.
Lemma fd_params_err c o x : forall ps e, fd_params c o x ps = Err e ->
  exists p v sg, In (p, v) ps /\ (sg = 1 \/ sg = -1) /\ make_copy c o [(p, v + sg * fd_step o v)] = Err e.
Proof.
  induction ps as [|[p v] ps IH]; intros e H; cbn [fd_params] in H; [discriminate|].
  destruct (make_copy c o [(p, v + fd_step o v)]) as [dp|e1] eqn:Ep.
  2:{ cbn [rbind] in H. injection H as ->. exists p, v, 1. split; [now left|]. split; [now left|]. now rewrite Rmult_1_l. }
  cbn [rbind] in H. destruct (make_copy c o [(p, v - fd_step o v)]) as [dm|e1] eqn:Em.
  2:{ cbn [rbind] in H. injection H as ->. exists p, v, (-1). split; [now left|]. split; [now right|]. replace (v + -1 * fd_step o v) with (v - fd_step o v) by ring. exact Em. }
  cbn [rbind] in H. destruct (fd_params c o x ps) as [rest|e1] eqn:Er; [discriminate|]. cbn [rbind] in H. injection H as ->.
  destruct (IH e eq_refl) as (p' & v' & sg & I & S & K). exists p', v', sg. split; [now right|]. auto.
Qed.

(** ** Central differences *)
Lemma dom_by_derivative (g g' b b' : R -> R) h : 0 <= h ->
  (forall t, 0 <= t <= h -> is_derive g t (g' t)) -> (forall t, 0 <= t <= h -> is_derive b t (b' t)) ->
  g 0 = 0 -> b 0 = 0 -> (forall t, 0 <= t <= h -> Rabs (g' t) <= b' t) -> Rabs (g h) <= b h.
Proof.
  intros Hh Dg Db G0 B0 HB.
  assert (K : forall s, s = 1 \/ s = -1 -> s * g h <= b h).
  { intros s Hs. destruct Hh as [Hh|E]; [|subst h; rewrite G0, B0; lra].
    destruct (MVT_gen (fun t => b t - s * g t) 0 h (fun t => b' t - s * g' t)) as (c & Hc & E).
    - intros t Ht. rewrite Rmin_left, Rmax_right in Ht by lra.
      apply (is_derive_minus (V := R_NormedModule) b (fun t => s * g t)); [apply Db; lra|]. apply (is_derive_scal g); apply Dg; lra.
    - intros t Ht. rewrite Rmin_left, Rmax_right in Ht by lra. apply continuity_pt_filterlim. apply (ex_derive_continuous (fun t => b t - s * g t) t). exists (b' t - s * g' t).
      apply (is_derive_minus (V := R_NormedModule) b (fun t => s * g t)); [apply Db; lra|]. apply (is_derive_scal g); apply Dg; lra.
    - rewrite Rmin_left, Rmax_right in Hc by lra. rewrite G0, B0 in E. specialize (HB c Hc). apply Rabs_le_between in HB.
      assert (0 <= b' c - s * g' c) by (destruct Hs as [->| ->]; lra).
      assert (0 <= (b' c - s * g' c) * (h - 0)) by (apply Rmult_le_pos; lra). lra. }
  apply Rabs_le. pose proof (K 1 (or_introl eq_refl)). pose proof (K (-1) (or_intror eq_refl)). lra.
Qed.

Lemma central_difference (f f1 f2 f3 : R -> R) a h M : 0 < h ->
  (forall t, a - h <= t <= a + h -> is_derive f t (f1 t) /\ is_derive f1 t (f2 t) /\ is_derive f2 t (f3 t) /\ Rabs (f3 t) <= M) ->
  Rabs ((f (a + h) - f (a - h)) / (2 * h) - f1 a) <= M * (h * h) / 6.
Proof.
  intros Hh H.
  assert (R1 : forall t, 0 <= t <= h -> a - h <= a + t <= a + h) by (intros; lra).
  assert (R2 : forall t, 0 <= t <= h -> a - h <= a - t <= a + h) by (intros; lra).
  assert (DP : forall (F F' : R -> R) t, is_derive F (a + t) (F' (a + t)) -> is_derive (fun t => F (a + t)) t (F' (a + t))).
  { intros F F' t D. assert (X := is_derive_comp F (fun t => a + t) t (F' (a + t)) 1 D). rewrite <- (Rmult_1_l (F' (a + t))). apply X. auto_derive; [exact I|ring]. }
  assert (DM : forall (F F' : R -> R) t, is_derive F (a - t) (F' (a - t)) -> is_derive (fun t => F (a - t)) t (- F' (a - t))).
  { intros F F' t D. assert (X := is_derive_comp F (fun t => a - t) t (F' (a - t)) (-1) D).
    replace (- F' (a - t)) with (-1 * F' (a - t)) by ring. apply X. auto_derive; [exact I|ring]. }
  (* second derivative of the odd part *)
  assert (B2 : forall t, 0 <= t <= h -> Rabs (f2 (a + t) - f2 (a - t)) <= 2 * M * t).
  { intros t Ht. refine (dom_by_derivative (fun t => f2 (a + t) - f2 (a - t)) (fun t => f3 (a + t) - - f3 (a - t)) (fun t => 2 * M * t) (fun _ => 2 * M) t (proj1 Ht) _ _ _ _ _).
    - intros s Hs. assert (Hs' : 0 <= s <= h) by lra. apply (is_derive_minus (V := R_NormedModule) (fun t => f2 (a + t)) (fun t => f2 (a - t))).
      + apply DP. apply H. apply R1, Hs'.
      + apply DM. apply H. apply R2, Hs'.
    - intros s _. auto_derive; [exact I|ring].
    - rewrite Rplus_0_r, Rminus_0_r. ring.
    - ring.
    - intros s Hs. assert (Hs' : 0 <= s <= h) by lra. destruct (H (a + s) (R1 s Hs')) as (_ & _ & _ & X1). destruct (H (a - s) (R2 s Hs')) as (_ & _ & _ & X2).
      apply Rabs_le_between in X1. apply Rabs_le_between in X2. apply Rabs_le. lra. }
  assert (B1 : forall t, 0 <= t <= h -> Rabs (f1 (a + t) + f1 (a - t) - 2 * f1 a) <= M * (t * t)).
  { intros t Ht. refine (dom_by_derivative (fun t => f1 (a + t) + f1 (a - t) - 2 * f1 a) (fun t => f2 (a + t) - f2 (a - t)) (fun t => M * (t * t)) (fun t => 2 * M * t) t (proj1 Ht) _ _ _ _ _).
    - intros s Hs. assert (Hs' : 0 <= s <= h) by lra.
      replace (f2 (a + s) - f2 (a - s)) with (f2 (a + s) + - f2 (a - s) - 0) by ring.
      apply (is_derive_minus (V := R_NormedModule) (fun t => f1 (a + t) + f1 (a - t)) (fun _ => 2 * f1 a)); [|apply @is_derive_const].
      apply (is_derive_plus (V := R_NormedModule) (fun t => f1 (a + t)) (fun t => f1 (a - t))); [apply DP|apply DM]; apply H; [apply R1|apply R2]; exact Hs'.
    - intros s _. auto_derive; [exact I|ring].
    - rewrite Rplus_0_r, Rminus_0_r. ring.
    - ring.
    - intros s Hs. apply B2. lra. }
  assert (B0 : Rabs (f (a + h) - f (a - h) - 2 * h * f1 a) <= M * (h * h * h) / 3).
  { refine (dom_by_derivative (fun t => f (a + t) - f (a - t) - 2 * t * f1 a) (fun t => f1 (a + t) + f1 (a - t) - 2 * f1 a) (fun t => M * (t * t * t) / 3) (fun t => M * (t * t)) h (Rlt_le _ _ Hh) _ _ _ _ _).
    - intros s Hs. replace (f1 (a + s) + f1 (a - s) - 2 * f1 a) with (f1 (a + s) - - f1 (a - s) - 2 * f1 a) by ring.
      apply (is_derive_minus (V := R_NormedModule) (fun t => f (a + t) - f (a - t)) (fun t => 2 * t * f1 a)); [|auto_derive; [exact I|ring]].
      apply (is_derive_minus (V := R_NormedModule) (fun t => f (a + t)) (fun t => f (a - t))); [apply DP|apply DM]; apply H; [apply R1|apply R2]; exact Hs.
    - intros s _. auto_derive; [exact I|field].
    - rewrite Rplus_0_r, Rminus_0_r. ring.
    - field.
    - intros s Hs. apply B1. exact Hs. }
  replace ((f (a + h) - f (a - h)) / (2 * h) - f1 a) with ((f (a + h) - f (a - h) - 2 * h * f1 a) * / (2 * h)) by (field; lra).
  rewrite Rabs_mult, (Rabs_right (/ (2 * h))) by (apply Rle_ge, Rlt_le, Rinv_0_lt_compat; lra).
  replace (M * (h * h) / 6) with (M * (h * h * h) / 3 * / (2 * h)) by (field; lra).
  apply Rmult_le_compat_r; [apply Rlt_le, Rinv_0_lt_compat; lra|exact B0].
Qed.
