(** Lemmas for C119: orders of magnitude near a root, and the correction of quadrature.py. *)
From Coquelicot Require Import Coquelicot.
From Verif Require Import Base Quad QuadSpec QuadProofs.
From Coq Require Import Lra Lia.
Open Scope R_scope.

(** f is of order t^k near 0 *)
Definition O (k : nat) (f : R -> R) : Prop := exists C d, 0 <= C /\ 0 < d /\ forall t, Rabs t < d -> Rabs (f t) <= C * Rabs t ^ k.
Definition ev (P : R -> Prop) : Prop := exists d, 0 < d /\ forall t, Rabs t < d -> P t.
Lemma ev_and P Q : ev P -> ev Q -> ev (fun t => P t /\ Q t).
Proof. intros (d & D & H) (e & E & K). exists (Rmin d e). split; [apply Rmin_glb_lt; assumption|]. intros t T. split; [apply H|apply K]; eapply Rlt_le_trans; try exact T; [apply Rmin_l|apply Rmin_r]. Qed.
Lemma ev_imp (P Q : R -> Prop) : (forall t, P t -> Q t) -> ev P -> ev Q.
Proof. intros I (d & D & H). exists d. split; [exact D|]. intros t T. apply I, H, T. Qed.
Lemma O_ext k f g : ev (fun t => g t = f t) -> O k f -> O k g.
Proof.
  intros (d & D & E) (C & e & HC & He & H). exists C, (Rmin d e). split; [exact HC|]. split; [apply Rmin_glb_lt; assumption|]. intros t T. rewrite E by (eapply Rlt_le_trans; [exact T|apply Rmin_l]). apply H. eapply Rlt_le_trans; [exact T|apply Rmin_r].
Qed.
Lemma O_eq k f g : (forall t, g t = f t) -> O k f -> O k g.
Proof. intros E. apply O_ext. exists 1. split; [lra|]. intros t _. apply E. Qed.
Lemma O_plus k f g : O k f -> O k g -> O k (fun t => f t + g t).
Proof.
  intros (C & d & HC & Hd & H) (B & e & HB & He & K). exists (C + B), (Rmin d e). split; [lra|]. split; [apply Rmin_glb_lt; assumption|]. intros t T.
  eapply Rle_trans; [apply Rabs_triang|]. rewrite Rmult_plus_distr_r. apply Rplus_le_compat; [apply H|apply K]; eapply Rlt_le_trans; try exact T; [apply Rmin_l|apply Rmin_r].
Qed.
Lemma O_mult i j f g : O i f -> O j g -> O (i + j) (fun t => f t * g t).
Proof.
  intros (C & d & HC & Hd & H) (B & e & HB & He & K). exists (C * B), (Rmin d e). split; [apply Rmult_le_pos; assumption|]. split; [apply Rmin_glb_lt; assumption|]. intros t T.
  rewrite Rabs_mult, pow_add. replace (C * B * (Rabs t ^ i * Rabs t ^ j)) with (C * Rabs t ^ i * (B * Rabs t ^ j)) by ring.
  apply Rmult_le_compat; try apply Rabs_pos; [apply H|apply K]; eapply Rlt_le_trans; try exact T; [apply Rmin_l|apply Rmin_r].
Qed.
Lemma O_const c : O 0 (fun _ => c).
Proof. exists (Rabs c), 1. split; [apply Rabs_pos|]. split; [lra|]. intros t _. cbn. lra. Qed.
Lemma O_pow k : O k (fun t => t ^ k).
Proof. exists 1, 1. split; [lra|]. split; [lra|]. intros t _. rewrite <- RPow_abs. lra. Qed.
Lemma O_id : O 1 (fun t => t).
Proof. apply (O_eq 1 (fun t => t ^ 1)); [intros; ring|apply O_pow]. Qed.
Lemma O_weak j k f : (j <= k)%nat -> O k f -> O j f.
Proof.
  intros L (C & d & HC & Hd & H). exists C, (Rmin d 1). split; [exact HC|]. split; [apply Rmin_glb_lt; lra|]. intros t T.
  eapply Rle_trans; [apply H; eapply Rlt_le_trans; [exact T|apply Rmin_l]|]. apply Rmult_le_compat_l; [exact HC|]. replace k with (j + (k - j))%nat by lia. rewrite pow_add.
  assert (T1 : Rabs t <= 1) by (left; eapply Rlt_le_trans; [exact T|apply Rmin_r]). pose proof (Rabs_pos t) as P. pose proof (pow_le (Rabs t) j P) as Q.
  assert (X : Rabs t ^ (k - j) <= 1 ^ (k - j)) by (apply pow_incr; lra). rewrite pow1 in X. pose proof (pow_le (Rabs t) (k - j) P). nra.
Qed.
Lemma O_scal k c f : O k f -> O k (fun t => c * f t).
Proof. intros H. apply (O_mult 0 k (fun _ => c) f (O_const c) H). Qed.
Lemma O_opp k f : O k f -> O k (fun t => - f t).
Proof. intros H. apply (O_eq k (fun t => -1 * f t)); [intros; ring|]. apply O_scal, H. Qed.
Lemma O_minus k f g : O k f -> O k g -> O k (fun t => f t - g t).
Proof. intros H K. apply (O_plus k f (fun t => - g t)); [exact H|apply O_opp, K]. Qed.
Lemma O_scr k c f : O k f -> O k (fun t => f t * c).
Proof. intros H. apply (O_eq k (fun t => c * f t)); [intros; ring|]. apply O_scal, H. Qed.
(** sqrt-free division: a function that tends to b <> 0 *)
Lemma O_inv b B : b <> 0 -> O 1 (fun t => B t - b) -> O 0 (fun t => / B t) /\ ev (fun t => B t <> 0).
Proof.
  intros N (C & d & HC & Hd & H). pose proof (Rabs_pos_lt b N) as P.
  assert (exists e, 0 < e <= d /\ C * e <= Rabs b / 2) as (e & He & Ce).
  { exists (Rmin d (Rabs b / 2 / (C + 1))). assert (Q : 0 < Rabs b / 2 / (C + 1)) by (apply Rdiv_lt_0_compat; lra). split; [split; [apply Rmin_glb_lt; lra|apply Rmin_l]|].
    apply (Rle_trans _ (C * (Rabs b / 2 / (C + 1)))); [apply Rmult_le_compat_l; [lra|apply Rmin_r]|]. apply (Rmult_le_reg_r (C + 1)); [lra|]. replace (C * (Rabs b / 2 / (C + 1)) * (C + 1)) with (C * (Rabs b / 2)) by (field; lra). nra. }
  assert (L : forall t, Rabs t < e -> Rabs b / 2 <= Rabs (B t)).
  { intros t T. specialize (H t ltac:(lra)). rewrite pow_1 in H. assert (C * Rabs t <= C * e) by (apply Rmult_le_compat_l; lra). pose proof (Rabs_triang_inv b (b - B t)). replace (b - (b - B t)) with (B t) in H1 by ring. rewrite (Rabs_minus_sym b (B t)) in H1. lra. }
  split.
  - exists (/ (Rabs b / 2)), e. split; [left; apply Rinv_0_lt_compat; lra|]. split; [lra|]. intros t T. rewrite Rabs_inv. cbn [pow]. rewrite Rmult_1_r. apply Rinv_le_contravar; [lra|apply L, T].
  - exists e. split; [lra|]. intros t T Z. specialize (L t T). rewrite Z, Rabs_R0 in L. lra.
Qed.
Lemma O_comp k j f e : O k f -> O (S j) e -> O (k * S j) (fun t => f (e t)).
Proof.
  intros (C & d & HC & Hd & H) E. assert (E1 := O_weak 1 (S j) e ltac:(lia) E). destruct E as (B & b & HB & Hb & K). destruct E1 as (B1 & b1 & HB1 & Hb1 & K1).
  exists (C * B ^ k), (Rmin b (Rmin b1 (d / (B1 + 1)))). split; [apply Rmult_le_pos; [exact HC|apply pow_le, HB]|].
  assert (Q : 0 < d / (B1 + 1)) by (apply Rdiv_lt_0_compat; lra). split; [repeat apply Rmin_glb_lt; assumption|]. intros t T.
  assert (T1 : Rabs t < b) by (eapply Rlt_le_trans; [exact T|apply Rmin_l]). assert (T23 : Rabs t < Rmin b1 (d / (B1 + 1))) by (eapply Rlt_le_trans; [exact T|apply Rmin_r]).
  assert (T2 : Rabs t < b1) by (eapply Rlt_le_trans; [exact T23|apply Rmin_l]). assert (T3 : Rabs t < d / (B1 + 1)) by (eapply Rlt_le_trans; [exact T23|apply Rmin_r]).
  specialize (K t T1). specialize (K1 t T2). rewrite pow_1 in K1.
  assert (ED : Rabs (e t) < d). { pose proof (Rabs_pos t). apply (Rle_lt_trans _ _ _ K1). apply (Rmult_lt_compat_r (B1 + 1)) in T3; [|lra]. unfold Rdiv in T3. rewrite Rmult_assoc, Rinv_l, Rmult_1_r in T3 by lra. nra. }
  specialize (H _ ED). eapply Rle_trans; [exact H|]. rewrite Rmult_assoc. apply Rmult_le_compat_l; [exact HC|]. rewrite Nat.mul_comm, pow_mult, <- Rpow_mult_distr. apply pow_incr. split; [apply Rabs_pos|exact K].
Qed.
(** integration of an order *)
Lemma O_int k (G g : R -> R) : G 0 = 0 -> ev (fun t => is_derive G t (g t)) -> O k g -> O (S k) G.
Proof.
  intros G0 (d & Hd & D) (C & e & HC & He & H). exists C, (Rmin d e). split; [exact HC|]. split; [apply Rmin_glb_lt; assumption|]. intros t T.
  assert (T1 : Rabs t < d) by (eapply Rlt_le_trans; [exact T|apply Rmin_l]). assert (T2 : Rabs t < e) by (eapply Rlt_le_trans; [exact T|apply Rmin_r]).
  assert (IN : forall x, Rmin 0 t <= x <= Rmax 0 t -> Rabs x <= Rabs t).
  { intros x. unfold Rmin, Rmax. destruct (Rle_dec 0 t); unfold Rabs; repeat destruct Rcase_abs; lra. }
  destruct (MVT_gen G 0 t g) as (c & Hc & E).
  - intros x Hx. apply D. eapply Rle_lt_trans; [apply IN; lra|exact T1].
  - intros x Hx. apply continuity_pt_filterlim, (ex_derive_continuous (K := R_AbsRing) (V := R_NormedModule)). exists (g x). apply D. eapply Rle_lt_trans; [apply IN; lra|exact T1].
  - rewrite G0, !Rminus_0_r in E. rewrite E, Rabs_mult. pose proof (IN c Hc) as Ic. specialize (H c ltac:(lra)). cbn [pow]. rewrite <- Rmult_assoc, (Rmult_comm (C * Rabs t)), <- Rmult_assoc, (Rmult_comm _ C). apply Rmult_le_compat_r; [apply Rabs_pos|].
    eapply Rle_trans; [exact H|]. apply Rmult_le_compat_l; [exact HC|]. apply pow_incr. split; [apply Rabs_pos|exact Ic].
Qed.
Lemma O_diff (F : R -> R) r : ex_derive F r -> O 1 (fun t => F (r + t) - F r).
Proof.
  intros [l D]. apply is_derive_Reals in D. destruct (D 1 ltac:(lra)) as [[d Hd] H]. cbn in H. exists (Rabs l + 1), d. split; [pose proof (Rabs_pos l); lra|]. split; [exact Hd|]. intros t T. rewrite pow_1.
  destruct (Req_dec t 0) as [->|N]; [rewrite Rplus_0_r; replace (F r - F r) with 0 by ring; rewrite Rabs_R0, Rmult_0_r; lra|].
  specialize (H t N T). pose proof (Rabs_triang ((F (r + t) - F r) / t - l) l) as TR. replace ((F (r + t) - F r) / t - l + l) with ((F (r + t) - F r) / t) in TR by ring.
  replace (F (r + t) - F r) with ((F (r + t) - F r) / t * t) by (field; exact N). rewrite Rabs_mult. apply Rmult_le_compat_r; [apply Rabs_pos|]. lra.
Qed.

(** consecutive Legendre polynomials have no common zero *)
Lemma no_common n x : legendre n x = 0 -> legendre (S n) x = 0 -> False.
Proof.
  induction n as [|n IH]; intros A B; [rewrite legendre_0 in A; lra|]. apply IH; [|exact A]. rewrite legendre_SS, A in B. pose proof (pos_INR n). 
  assert (E : (INR n + 1) * legendre n x = 0). { apply (f_equal (fun z => - z * (INR n + 2))) in B. match type of B with ?l = _ => replace l with ((INR n + 1) * legendre n x) in B by (field; lra) end. lra. }
  apply Rmult_integral in E. destruct E; [lra|assumption].
Qed.

Section Root.
  Variables (n : nat) (r : R).
  Hypothesis Hr : -1 < r < 1.
  Hypothesis H0 : legendre (S n) r = 0.
  Notation P1 := (Ldp n r). Notation P2 := (Ld2 n r). Notation P3 := (Ld3 n r). Notation P4 := (Ld4 n r).

  Lemma P1_nz : P1 <> 0.
  Proof.
    unfold Ldp, Ld1. rewrite H0, Rmult_0_r, Rminus_0_r. pose proof (den_pos r Hr). pose proof (pos_INR n). repeat apply Rmult_integral_contrapositive_currified; [lra| |apply Rinv_neq_0_compat; lra].
    intros Z. exact (no_common n r Z H0).
  Qed.
  Lemma near_r : ev (fun t => -1 < r + t < 1).
  Proof. exists (Rmin (1 - r) (1 + r)). split; [apply Rmin_glb_lt; lra|]. intros t T. assert (Rabs t < 1 - r) by (eapply Rlt_le_trans; [exact T|apply Rmin_l]). assert (Rabs t < 1 + r) by (eapply Rlt_le_trans; [exact T|apply Rmin_r]). apply Rabs_def2 in H, H1. lra. Qed.
  Lemma shift (F : R -> R) l t : is_derive F (r + t) l -> is_derive (fun t => F (r + t)) t l.
  Proof. intros D. replace l with (1 * l) by ring. apply (is_derive_comp F (fun t => r + t) t l 1 D). auto_derive; [auto|ring]. Qed.
  Definition c4 t := Ld4 n (r + t) - P4.
  Definition c3 t := Ld3 n (r + t) - (P3 + P4 * t).
  Definition c2 t := Ld2 n (r + t) - (P2 + P3 * t + P4 * t ^ 2 / 2).
  Definition c1 t := Ldp n (r + t) - (P1 + P2 * t + P3 * t ^ 2 / 2 + P4 * t ^ 3 / 6).
  Definition c0 t := legendre (S n) (r + t) - (P1 * t + P2 * t ^ 2 / 2 + P3 * t ^ 3 / 6 + P4 * t ^ 4 / 24).
  Lemma c4_O : O 1 c4.
  Proof.
    apply O_diff. pose proof (den_pos r Hr). assert (ex_derive (Ld3 n) r) by (eexists; apply Ld4_derive, Hr). assert (ex_derive (Ld2 n) r) by (eexists; apply Ld3_derive, Hr). unfold Ld4. auto_derive. repeat split; auto; lra.
  Qed.
  Lemma c3_O : O 2 c3.
  Proof.
    apply (O_int 1 c3 c4); [unfold c3; rewrite Rplus_0_r; ring| |apply c4_O]. apply (ev_imp _ _ (fun t => fun Ht => is_derive_minus (V := R_NormedModule) (fun t => Ld3 n (r + t)) (fun t => P3 + P4 * t) t (Ld4 n (r + t)) P4 (shift _ _ t (Ld4_derive n (r + t) Ht)) ltac:(auto_derive; [auto|ring]))). apply near_r.
  Qed.
  Lemma c2_O : O 3 c2.
  Proof.
    apply (O_int 2 c2 c3); [unfold c2; rewrite Rplus_0_r; field| |apply c3_O]. apply (ev_imp _ _ (fun t => fun Ht => is_derive_minus (V := R_NormedModule) (fun t => Ld2 n (r + t)) (fun t => P2 + P3 * t + P4 * t ^ 2 / 2) t (Ld3 n (r + t)) (P3 + P4 * t) (shift _ _ t (Ld3_derive n (r + t) Ht)) ltac:(auto_derive; [auto|field]))). apply near_r.
  Qed.
  Lemma c1_O : O 4 c1.
  Proof.
    apply (O_int 3 c1 c2); [unfold c1; rewrite Rplus_0_r; field| |apply c2_O]. apply (ev_imp _ _ (fun t => fun Ht => is_derive_minus (V := R_NormedModule) (fun t => Ldp n (r + t)) (fun t => P1 + P2 * t + P3 * t ^ 2 / 2 + P4 * t ^ 3 / 6) t (Ld2 n (r + t)) (P2 + P3 * t + P4 * t ^ 2 / 2) (shift _ _ t (Ld2_derive n (r + t) Ht)) ltac:(auto_derive; [auto|field]))). apply near_r.
  Qed.
  Lemma c0_O : O 5 c0.
  Proof.
    apply (O_int 4 c0 c1); [unfold c0; rewrite Rplus_0_r, H0; field| |apply c1_O]. apply (ev_imp _ _ (fun t => fun Ht => is_derive_minus (V := R_NormedModule) (fun t => legendre (S n) (r + t)) (fun t => P1 * t + P2 * t ^ 2 / 2 + P3 * t ^ 3 / 6 + P4 * t ^ 4 / 24) t (Ldp n (r + t)) (P1 + P2 * t + P3 * t ^ 2 / 2 + P4 * t ^ 3 / 6) (shift _ _ t (Ldp_derive n (r + t) Ht)) ltac:(auto_derive; [auto|field]))). apply near_r.
  Qed.

  Notation L t := (legendre (S n) (r + t)). Notation D1 t := (Ldp n (r + t)). Notation D2 t := (Ld2 n (r + t)). Notation D3 t := (Ld3 n (r + t)). Notation D4 t := (Ld4 n (r + t)).
  Definition hh1 t := q_h1 (q_locals (S n) (r + t)).
  Definition hh t := q_h (q_locals (S n) (r + t)).
  Lemma O0_D3 : O 0 (fun t => D3 t).
  Proof. apply (O_eq 0 (fun t => c3 t + (P3 + P4 * t))); [intros; unfold c3; ring|]. apply O_plus; [apply (O_weak 0 2); [lia|apply c3_O]|]. apply O_plus; [apply O_const|]. apply O_scal, (O_weak 0 1), O_id. lia. Qed.
  Lemma D1_1 : O 1 (fun t => D1 t - P1).
  Proof. apply (O_eq 1 (fun t => c1 t + t * (P2 + t * (P3 / 2 + t * (P4 / 6))))); [intros; unfold c1; field|]. apply O_plus; [apply (O_weak 1 4); [lia|apply c1_O]|]. apply (O_mult 1 0); [apply O_id|]. apply O_plus; [apply O_const|]. apply (O_weak 0 1); [lia|]. apply (O_mult 1 0); [apply O_id|]. apply O_plus; [apply O_const|]. apply (O_weak 0 1); [lia|]. apply O_scr, O_id. Qed.
  Definition a := P2 / (2 * P1).
  Definition uu t := L t * / D1 t.
  Lemma uu_O : O 3 (fun t => uu t - (t - a * t ^ 2)).
  Proof.
    destruct (O_inv P1 (fun t => D1 t) P1_nz D1_1) as [I N].
    apply (O_ext 3 (fun t => (c0 t + t ^ 3 * (P3 / 6 + P4 / 24 * t) - (t * c1 t + t ^ 3 * (P3 / 2 + t * (P4 / 6)) - a * t ^ 2 * c1 t - a * (t ^ 3 * (P2 + t * (P3 / 2 + t * (P4 / 6)))))) * / D1 t)).
    - refine (ev_imp _ _ _ N). intros t Ht. unfold uu. apply (Rmult_eq_reg_r (D1 t)); [|exact Ht]. rewrite Rmult_minus_distr_r, !Rmult_assoc, Rinv_l, !Rmult_1_r by exact Ht. unfold c0, c1, a. field. exact P1_nz.
    - assert (C0 := O_weak 3 5 _ ltac:(lia) c0_O). assert (C1 := O_weak 3 4 _ ltac:(lia) c1_O). assert (Q : forall x y, O 0 (fun t => x + t * y)) by (intros; apply O_plus; [apply O_const|apply (O_weak 0 1); [lia|apply O_scr, O_id]]).
      apply (O_mult 3 0); [|exact I]. apply O_minus; [apply O_plus; [exact C0|]|].
      + apply (O_mult 3 0); [apply O_pow|]. apply O_plus; [apply O_const|]. apply O_scal, (O_weak 0 1), O_id. lia.
      + apply O_minus; [apply O_minus; [apply O_plus|]|].
        * apply (O_weak 3 4); [lia|]. apply (O_mult 1 3); [apply O_id|exact C1].
        * apply (O_mult 3 0); [apply O_pow|apply Q].
        * apply (O_weak 3 5); [lia|]. apply (O_mult 2 3); [apply O_scal, O_pow|exact C1].
        * apply O_scal. apply (O_mult 3 0); [apply O_pow|]. apply O_plus; [apply O_const|]. apply (O_weak 0 1); [lia|]. apply (O_mult 1 0); [apply O_id|apply Q].
  Qed.
  Lemma uu_1 : O 1 uu.
  Proof. apply (O_eq 1 (fun t => (uu t - (t - a * t ^ 2)) + (t - a * t ^ 2))); [intros; ring|]. apply O_plus; [apply (O_weak 1 3); [lia|apply uu_O]|]. apply O_minus; [apply O_id|]. apply O_scal, (O_weak 1 2), O_pow. lia. Qed.
  Definition vv t := D2 t * / D1 t.
  Lemma vv_O : O 1 (fun t => vv t - 2 * a).
  Proof.
    destruct (O_inv P1 (fun t => D1 t) P1_nz D1_1) as [I N].
    apply (O_ext 1 (fun t => (c2 t + t * (P3 + t * (P4 / 2)) - 2 * a * (D1 t - P1)) * / D1 t)).
    - refine (ev_imp _ _ _ N). intros t Ht. unfold vv. apply (Rmult_eq_reg_r (D1 t)); [|exact Ht]. rewrite Rmult_minus_distr_r, !Rmult_assoc, Rinv_l, !Rmult_1_r by exact Ht. unfold c2, a. field. exact P1_nz.
    - apply (O_mult 1 0); [|exact I]. apply O_minus; [apply O_plus; [apply (O_weak 1 3); [lia|apply c2_O]|]|apply O_scal, D1_1].
      apply (O_mult 1 0); [apply O_id|]. apply O_plus; [apply O_const|]. apply (O_weak 0 1); [lia|]. apply O_scr, O_id.
  Qed.
  Lemma hh1_eq t : hh1 t = - uu t * (1 + (1/2 * uu t) * (vv t + uu t * (vv t * vv t - uu t * D3 t * / (3 * D1 t)))).
  Proof. unfold hh1, q_h1. rewrite q_locals_eq. cbn [q_pk q_dpn q_d2 q_d3]. reflexivity. Qed.
  (** the first correction is of third order *)
  Lemma h1_O : O 3 (fun t => t + hh1 t).
  Proof.
    destruct (O_inv P1 (fun t => D1 t) P1_nz D1_1) as [I N].
    set (w := fun t => uu t - (t - a * t ^ 2)).
    assert (V0 : O 0 vv) by (apply (O_eq 0 (fun t => (vv t - 2 * a) + 2 * a)); [intros; ring|]; apply O_plus; [apply (O_weak 0 1); [lia|apply vv_O]|apply O_const]).
    assert (U2 : O 2 (fun t => uu t * uu t)) by (apply (O_mult 1 1); apply uu_1).
    assert (U3 : O 3 (fun t => uu t * uu t * uu t)) by (apply (O_mult 2 1); [exact U2|apply uu_1]).
    apply (O_eq 3 (fun t => - w t - 1/2 * ((uu t * uu t) * (vv t - 2 * a)) - a * (w t * (uu t + (t - a * t ^ 2)) + t ^ 3 * (- 2 * a + a ^ 2 * t)) - (uu t * uu t * uu t) * (1/2 * (vv t * vv t - uu t * D3 t * (/ 3 * / D1 t))))).
    { intros t. rewrite hh1_eq, Rinv_mult. unfold w. generalize (/ Ldp n (r + t)). intros i. field. }
    assert (W : O 3 w) by apply uu_O.
    apply O_minus; [apply O_minus; [apply O_minus|]|].
    - apply O_opp, W.
    - apply O_scal. apply (O_mult 2 1); [exact U2|apply vv_O].
    - apply O_scal. apply O_plus; [|apply (O_mult 3 0); [apply O_pow|apply O_plus; [apply O_const|apply O_scal, (O_weak 0 1), O_id; lia]]].
      apply (O_mult 3 0); [exact W|]. apply O_plus; [apply (O_weak 0 1); [lia|apply uu_1]|]. apply O_minus; [apply (O_weak 0 1), O_id; lia|]. apply O_scal, (O_weak 0 2), O_pow. lia.
    - apply (O_mult 3 0); [exact U3|]. apply O_scal. apply O_minus; [apply (O_mult 0 0); exact V0|]. apply (O_mult 0 0); [apply (O_mult 0 0); [apply (O_weak 0 1), uu_1; lia|apply O0_D3]|]. apply O_scal, I.
  Qed.

  (** the second one, with the wrong value predictor, of fourth *)
  Definition cc := - (33 / 8) * P4 / P1.
  Lemma hh1_1 : O 1 hh1.
  Proof. apply (O_eq 1 (fun t => (t + hh1 t) - t)); [intros; ring|]. apply O_minus; [apply (O_weak 1 3); [lia|apply h1_O]|apply O_id]. Qed.
  Definition pp t := q_p (q_locals (S n) (r + t)) (hh1 t).
  Definition dd t := q_dp (q_locals (S n) (r + t)) (hh1 t).
  Lemma dd_O : O 3 (fun t => dd t - P1).
  Proof.
    set (h := hh1). set (s := fun t => t + h t). assert (S3 : O 3 s) by apply h1_O. assert (H1 : O 1 h) by apply hh1_1.
    apply (O_eq 3 (fun t => s t * (P2 + P3 / 2 * s t + P4 / 6 * (s t * s t)) + c1 t + h t * c2 t + 1/2 * (h t * h t) * c3 t + / 6 * (h t * h t * h t) * c4 t)).
    { intros t. unfold dd, q_dp. fold h. rewrite q_locals_eq. cbn [q_dpn q_d2 q_d3 q_d4]. unfold s, c1, c2, c3, c4. field. }
    assert (H2 : O 2 (fun t => h t * h t)) by (apply (O_mult 1 1); assumption). assert (H3 : O 3 (fun t => h t * h t * h t)) by (apply (O_mult 2 1); assumption).
    assert (S0 : O 0 s) by (apply (O_weak 0 3); [lia|exact S3]).
    refine (O_plus 3 _ _ (O_plus 3 _ _ (O_plus 3 _ _ (O_plus 3 _ _ _ _) _) _) _).
    - apply (O_mult 3 0); [exact S3|]. repeat apply O_plus; [apply O_const|apply O_scal, S0|apply O_scal, (O_mult 0 0); exact S0].
    - apply (O_weak 3 4); [lia|apply c1_O].
    - apply (O_weak 3 4); [lia|]. apply (O_mult 1 3); [exact H1|apply c2_O].
    - apply (O_weak 3 4); [lia|]. apply (O_mult 2 2); [apply O_scal, H2|apply c3_O].
    - apply (O_weak 3 4); [lia|]. apply (O_mult 3 1); [apply O_scal, H3|apply c4_O].
  Qed.
  Lemma pp_O : O 5 (fun t => pp t - (P1 * (t + hh1 t) + 33 / 8 * P4 * t ^ 4)).
  Proof.
    set (h := hh1). set (s := fun t => t + h t). assert (S3 : O 3 s) by apply h1_O. assert (H1 : O 1 h) by apply hh1_1.
    assert (H2 : O 2 (fun t => h t * h t)) by (apply (O_mult 1 1); assumption). assert (H3 : O 3 (fun t => h t * h t * h t)) by (apply (O_mult 2 1); assumption). assert (H4 : O 4 (fun t => h t * h t * h t * h t)) by (apply (O_mult 3 1); assumption).
    assert (S0 : O 0 s) by (apply (O_weak 0 3); [lia|exact S3]). assert (S6 : O 6 (fun t => s t * s t)) by (apply (O_mult 3 3); exact S3).
    apply (O_eq 5 (fun t => (s t * s t) * (P2 / 2 + P3 / 6 * s t + P4 / 24 * (s t * s t)) + c0 t + h t * c1 t + 1/2 * (h t * h t) * c2 t + / 6 * (h t * h t * h t) * c3 t + (25 / 6) * (h t * h t * h t * h t) * c4 t
       + 33 / 8 * P4 * (s t * ((h t - t) * (h t * h t + t * t))))).
    { intros t. unfold pp, q_p. fold h. rewrite q_locals_eq. cbn [q_pk q_dpn q_d2 q_d3 q_d4]. unfold s, c0, c1, c2, c3, c4. field. }
    refine (O_plus 5 _ _ (O_plus 5 _ _ (O_plus 5 _ _ (O_plus 5 _ _ (O_plus 5 _ _ (O_plus 5 _ _ _ _) _) _) _) _) _).
    - apply (O_weak 5 6); [lia|]. apply (O_mult 6 0); [exact S6|]. repeat apply O_plus; [apply O_const|apply O_scal, S0|apply O_scal, (O_mult 0 0); exact S0].
    - apply c0_O.
    - apply (O_mult 1 4); [exact H1|apply c1_O].
    - apply (O_mult 2 3); [apply O_scal, H2|apply c2_O].
    - apply (O_mult 3 2); [apply O_scal, H3|apply c3_O].
    - apply (O_mult 4 1); [apply O_scal, H4|apply c4_O].
    - apply O_scal. apply (O_weak 5 6); [lia|]. apply (O_mult 3 3); [exact S3|]. apply (O_mult 1 2); [apply O_minus; [exact H1|apply O_id]|]. apply O_plus; [exact H2|]. apply (O_mult 1 1); apply O_id.
  Qed.
  Lemma h_O : O 5 (fun t => t + hh t - cc * t ^ 4).
  Proof.
    destruct (O_inv P1 dd P1_nz (O_weak 1 3 _ ltac:(lia) dd_O)) as [I N].
    apply (O_ext 5 (fun t => ((t + hh1 t) * (dd t - P1) - (pp t - (P1 * (t + hh1 t) + 33 / 8 * P4 * t ^ 4)) - cc * t ^ 4 * (dd t - P1)) * / dd t)).
    - refine (ev_imp _ _ _ N). intros t Ht. unfold hh, q_h. fold (hh1 t). fold (pp t) (dd t). unfold cc. field. split; [exact Ht|exact P1_nz].
    - apply (O_mult 5 0); [|exact I]. apply O_minus; [apply O_minus|].
      + apply (O_weak 5 6); [lia|]. apply (O_mult 3 3); [apply h1_O|apply dd_O].
      + apply pp_O.
      + apply (O_weak 5 7); [lia|]. apply (O_mult 4 3); [apply O_scal, O_pow|apply dd_O].
  Qed.

  (** base point and weight *)
  Definition e1 t := t + hh t.
  Definition e2 t := e1 (e1 t).
  Lemma e1_4 : O 4 e1.
  Proof. apply (O_eq 4 (fun t => (t + hh t - cc * t ^ 4) + cc * t ^ 4)); [intros; unfold e1; ring|]. apply O_plus; [apply (O_weak 4 5), h_O; lia|apply O_scal, O_pow]. Qed.
  Lemma e2_16 : O 16 e2. Proof. exact (O_comp 4 3 e1 e1 e1_4 e1_4). Qed.
  Lemma step_eq t : (r + t) + q_h (q_locals (S n) (r + t)) = r + e1 t.
  Proof. unfold e1, hh. ring. Qed.
  Lemma h_e t : q_h (q_locals (S n) (r + t)) = e1 t - t.
  Proof. unfold e1, hh. ring. Qed.
  Lemma point_eq t : q_point (S n) (r + t) =
    let bp := - r + (e1 t - 2 * e2 t) in let fx := q_fx (S n) (q_locals (S n) (r + e1 t)) (e2 t - e1 t) in (bp, 2 * (1 - bp * bp) * / (fx * fx)).
  Proof.
    unfold q_point, q_iter. cbn [q_loop]. rewrite step_eq, step_eq. change (e1 (e1 t)) with (e2 t). rewrite (h_e (e1 t)). change (e1 (e1 t)) with (e2 t). cbv zeta.
    replace (- (r + e2 t) - (e2 t - e1 t)) with (- r + (e1 t - 2 * e2 t)) by ring. reflexivity.
  Qed.
  Lemma bp_O : O 5 (fun t => fst (q_point (S n) (r + t)) - (- r + cc * t ^ 4)).
  Proof.
    apply (O_eq 5 (fun t => (t + hh t - cc * t ^ 4) - 2 * e2 t)); [intros t; rewrite point_eq; cbn [fst]; unfold e1; ring|].
    apply O_minus; [apply h_O|]. apply O_scal, (O_weak 5 16), e2_16. lia.
  Qed.
  Notation g := (Ld1 n r).
  Lemma g_eq : g = (1 - r * r) * P1. Proof. unfold Ldp. pose proof (den_pos r Hr). field. lra. Qed.
  Lemma g_nz : g <> 0. Proof. rewrite g_eq. pose proof (den_pos r Hr). apply Rmult_integral_contrapositive_currified; [lra|exact P1_nz]. Qed.
  Lemma L_1 : O 1 (fun t => L t).
  Proof. apply (O_eq 1 (fun t => L t - legendre (S n) r)); [intros; rewrite H0; ring|]. apply O_diff. eexists. apply Ldp_derive, Hr. Qed.
  Lemma g_2 : O 2 (fun t => Ld1 n (r + t) - g).
  Proof.
    apply (O_int 1 _ (fun t => - q_e1 (S n) * L t)); [rewrite Rplus_0_r; ring| |apply O_scal, L_1].
    refine (ev_imp _ _ _ near_r). intros t Ht. replace (- q_e1 (S n) * L t) with (minus (- q_e1 (S n) * L t) 0) by (unfold minus, plus, opp; cbn; ring).
    apply (is_derive_minus (V := R_NormedModule) (fun t => Ld1 n (r + t)) (fun _ => g)); [apply shift, Ld1_derive, Ht|]. apply (is_derive_const (V := R_NormedModule)).
  Qed.
  Definition fx t := q_fx (S n) (q_locals (S n) (r + e1 t)) (e2 t - e1 t).
  Lemma O0c (F : R -> R) : O 0 (fun t => F (r + t)) -> O 0 (fun t => F (r + e1 t)).
  Proof. intros H. exact (O_comp 0 3 (fun t => F (r + t)) e1 H e1_4). Qed.
  Lemma fx_8 : O 8 (fun t => fx t - g).
  Proof.
    assert (G8 : O 8 (fun t => Ld1 n (r + e1 t) - g)) by exact (O_comp 2 3 (fun t => Ld1 n (r + t) - g) e1 g_2 e1_4).
    assert (L4 : O 4 (fun t => L (e1 t))) by exact (O_comp 1 3 (fun t => L t) e1 L_1 e1_4).
    assert (H4 : O 4 (fun t => e2 t - e1 t)) by (apply O_minus; [apply (O_weak 4 16), e2_16; lia|apply e1_4]).
    assert (H00 : O 0 (fun t => e2 t - e1 t)) by (apply (O_weak 0 4); [lia|exact H4]).
    assert (B1 : O 0 (fun t => D1 (e1 t))). { apply O0c. apply (O_eq 0 (fun t => (D1 t - P1) + P1)); [intros; ring|]. apply O_plus; [apply (O_weak 0 1), D1_1; lia|apply O_const]. }
    assert (B2 : O 0 (fun t => D2 (e1 t))). { apply O0c. apply (O_eq 0 (fun t => (D2 t - P2) + P2)); [intros; ring|]. apply O_plus; [apply (O_weak 0 1); [lia|]; apply O_diff; eexists; apply Ld3_derive, Hr|apply O_const]. }
    assert (B3 : O 0 (fun t => D3 (e1 t))) by (apply O0c, O0_D3).
    assert (B4 : O 0 (fun t => D4 (e1 t))). { apply O0c. apply (O_eq 0 (fun t => c4 t + P4)); [intros; unfold c4; ring|]. apply O_plus; [apply (O_weak 0 1), c4_O; lia|apply O_const]. }
    apply (O_eq 8 (fun t => (Ld1 n (r + e1 t) - g) - q_e1 (S n) * ((e2 t - e1 t) * (L (e1 t) + (e2 t - e1 t) * (1/2 * (D1 (e1 t) + (e2 t - e1 t) * (/ 3 * (D2 (e1 t) + (e2 t - e1 t) * (/ 4 * (D3 (e1 t) + (e2 t - e1 t) * (2/10 * D4 (e1 t)))))))))))).
    { intros t. unfold fx, q_fx. rewrite q_locals_eq. cbn [q_pk q_dpn q_d2 q_d3 q_d4 q_d1]. field. }
    apply O_minus; [exact G8|]. apply O_scal. apply (O_mult 4 4); [exact H4|]. apply O_plus; [exact L4|]. apply (O_mult 4 0); [exact H4|]. apply O_scal. apply O_plus; [exact B1|]. apply (O_mult 0 0); [exact H00|]. apply O_scal. apply O_plus; [exact B2|]. apply (O_mult 0 0); [exact H00|]. apply O_scal. apply O_plus; [exact B3|]. apply (O_mult 0 0); [exact H00|]. apply O_scal, B4.
  Qed.
  Lemma wf_O : O 5 (fun t => snd (q_point (S n) (r + t)) - (2 / ((1 - r * r) * P1 ^ 2) + 4 * r * cc / ((1 - r * r) * P1) ^ 2 * t ^ 4)).
  Proof.
    destruct (O_inv g fx g_nz (O_weak 1 8 _ ltac:(lia) fx_8)) as [I N]. pose proof g_nz as G. pose proof g_eq as GE. pose proof (den_pos r Hr) as DP. pose proof P1_nz as PN.
    set (d := fun t => e1 t - 2 * e2 t).
    assert (D4' : O 4 d) by (apply O_minus; [apply e1_4|apply O_scal, (O_weak 4 16), e2_16; lia]).
    assert (DC : O 5 (fun t => d t - cc * t ^ 4)). { apply (O_eq 5 (fun t => (t + hh t - cc * t ^ 4) - 2 * e2 t)); [intros; unfold d, e1; ring|]. apply O_minus; [apply h_O|]. apply O_scal, (O_weak 5 16), e2_16. lia. }
    assert (FS : O 0 (fun t => fx t + g)). { apply (O_eq 0 (fun t => (fx t - g) + (g + g))); [intros; ring|]. apply O_plus; [apply (O_weak 0 8), fx_8; lia|apply O_const]. }
    assert (X : O 8 (fun t => / fx t * / fx t - / (g * g))).
    { apply (O_ext 8 (fun t => - ((fx t - g) * (fx t + g) * / (g * g)) * (/ fx t * / fx t))).
      - refine (ev_imp _ _ _ N). intros t Ht. field. split; assumption.
      - apply (O_mult 8 0); [|apply (O_mult 0 0); exact I]. apply O_opp, O_scr. apply (O_mult 8 0); [apply fx_8|exact FS]. }
    apply (O_eq 5 (fun t => 2 * ((1 - r * r) + d t * (2 * r - d t)) * (/ fx t * / fx t - / (g * g)) + (4 * r * (d t - cc * t ^ 4) - 2 * (d t * d t)) * / (g * g))).
    { intros t. rewrite point_eq. cbn [snd]. cbv zeta. fold (d t). fold (fx t). rewrite Rinv_mult. rewrite <- GE. replace (2 / ((1 - r * r) * P1 ^ 2)) with (2 * (1 - r * r) * / (g * g)) by (rewrite GE; field; split; [exact PN|lra]).
      generalize (/ fx t). intros i. field. exact G. }
    apply O_plus.
    - apply (O_weak 5 8); [lia|]. apply (O_mult 0 8); [|exact X]. apply O_scal. apply O_plus; [apply O_const|]. apply (O_weak 0 4); [lia|]. apply (O_mult 4 0); [exact D4'|]. apply O_minus; [apply O_const|apply (O_weak 0 4); [lia|exact D4']].
    - apply O_scr. apply O_minus; [apply O_scal, DC|]. apply O_scal. apply (O_weak 5 8); [lia|]. apply (O_mult 4 4); exact D4'.
  Qed.
End Root.
