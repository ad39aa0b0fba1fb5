(** Proofs for C38: exchange of the order of integration, and the antisymmetric kernel. *)
From Coquelicot Require Import Coquelicot.
From Verif Require Import Base.
From Coq Require Import Lra Lia.
Open Scope R_scope.

Definition cont2 (f : R -> R -> R) : Prop := forall x y, continuity_2d_pt f x y.
Lemma cont2_1 f y : cont2 f -> forall x, continuous (fun u => f u y) x.
Proof.
  intros H x. apply (continuous_comp_2 (fun u : R => u) (fun _ : R => y) f); [apply continuous_id|apply continuous_const|]. apply continuity_2d_pt_filterlim, H.
Qed.
Lemma cont2_2 f x : cont2 f -> forall y, continuous (fun v => f x v) y.
Proof.
  intros H y. apply (continuous_comp_2 (fun _ : R => x) (fun v : R => v) f); [apply continuous_const|apply continuous_id|]. apply continuity_2d_pt_filterlim, H.
Qed.
Lemma cont2_int1 f y a b : cont2 f -> ex_RInt (fun u => f u y) a b.
Proof. intros H. apply (ex_RInt_continuous (V := R_CompleteNormedModule)). intros z _. apply (cont2_1 f y H). Qed.
Lemma cont2_int2 f x a b : cont2 f -> ex_RInt (fun v => f x v) a b.
Proof. intros H. apply (ex_RInt_continuous (V := R_CompleteNormedModule)). intros z _. apply (cont2_2 f x H). Qed.

(** the integral over one variable is continuous in the other *)
Lemma cont_RInt_param f c d : c <= d -> cont2 f -> forall x, continuous (fun u => RInt (fun v => f u v) c d) x.
Proof.
  intros Hcd H x. apply filterlim_locally. intros eps.
  assert (He : 0 < eps / (d - c + 1)) by (apply Rdiv_lt_0_compat; [apply cond_pos|lra]).
  destruct (uniform_continuity_2d f (x - 1) (x + 1) c d (fun u v _ _ => H u v) (mkposreal _ He)) as (del & Hd).
  assert (Hm : 0 < Rmin del 1) by (apply Rmin_pos; [apply cond_pos|lra]). exists (mkposreal _ Hm). intros y Hy. unfold ball in Hy; cbn in Hy. unfold AbsRing_ball, abs, minus, plus, opp in Hy; cbn in Hy.
  assert (H1 : Rabs (y - x) < del) by (eapply Rlt_le_trans; [exact Hy|apply Rmin_l]). assert (H2 : Rabs (y - x) < 1) by (eapply Rlt_le_trans; [exact Hy|apply Rmin_r]). apply Rabs_def2 in H2.
  change (Rabs (RInt (fun v => f y v) c d + - RInt (fun v => f x v) c d) < eps).
  assert (E : RInt (fun v => f y v) c d + - RInt (fun v => f x v) c d = RInt (fun v => f y v - f x v) c d).
  { symmetry. exact (RInt_minus (fun v => f y v) (fun v => f x v) c d (cont2_int2 f y c d H) (cont2_int2 f x c d H)). }
  rewrite E. apply Rle_lt_trans with ((d - c) * (eps / (d - c + 1))).
  - apply abs_RInt_le_const; [exact Hcd|apply (ex_RInt_minus (fun v => f y v) (fun v => f x v)); apply cont2_int2; exact H|]. intros t Ht. left. apply (Hd x t y t); try lra. rewrite Rminus_eq_0, Rabs_R0. apply cond_pos.
  - pose proof (cond_pos eps) as Pe. apply (Rmult_lt_reg_r (d - c + 1)); [lra|]. replace ((d - c) * (eps / (d - c + 1)) * (d - c + 1)) with ((d - c) * eps) by (field; lra). nra.
Qed.

Lemma cont2_swap f : cont2 f -> cont2 (fun v u => f u v).
Proof. intros H p q eps. destruct (H q p eps) as (e & He). exists e. intros u v Hu Hv. exact (He v u Hv Hu). Qed.
(** exchange of the order of integration *)
Lemma fubini f a b c d : c <= d -> cont2 f -> RInt (fun u => RInt (fun v => f u v) c d) a b = RInt (fun v => RInt (fun u => f u v) a b) c d.
Proof.
  intros Hcd H. set (G := fun x => RInt (fun v => RInt (fun u => f u v) a x) c d).
  assert (DI : forall x v, is_derive (fun x => RInt (fun u => f u v) a x) x (f x v)).
  { intros x v. apply (is_derive_RInt (fun u => f u v) (fun x => RInt (fun u => f u v) a x) a x); [exists (mkposreal 1 Rlt_0_1); intros y _; apply (RInt_correct (V := R_CompleteNormedModule) (fun u => f u v)), cont2_int1, H|apply cont2_1, H]. }
  assert (DG : forall x, is_derive G x (RInt (fun v => f x v) c d)).
  { intros x. rewrite (RInt_ext (fun v => f x v) (fun v => Derive (fun x => RInt (fun u => f u v) a x) x)) by (intros v _; symmetry; apply is_derive_unique, DI).
    apply (is_derive_RInt_param (fun x v => RInt (fun u => f u v) a x) c d x).
    - exists (mkposreal 1 Rlt_0_1). intros y _ t _. eexists. apply DI.
    - intros t _. apply (continuity_2d_pt_ext f); [|apply H]. intros u v. symmetry. apply is_derive_unique, DI.
    - exists (mkposreal 1 Rlt_0_1). intros y _.
      destruct (Rle_dec a y) as [L|L].
      + apply (ex_RInt_continuous (V := R_CompleteNormedModule)). intros z _. exact (cont_RInt_param (fun v u => f u v) a y L (cont2_swap f H) z).
      + apply (ex_RInt_continuous (V := R_CompleteNormedModule)). intros z _.
        apply (continuous_ext (fun v => opp (RInt (fun u => f u v) y a))); [intros v; exact (opp_RInt_swap (fun u => f u v) y a (cont2_int1 f v y a H))|].
        apply (continuous_opp (fun v => RInt (fun u => f u v) y a)). exact (cont_RInt_param (fun v u => f u v) y a ltac:(lra) (cont2_swap f H) z). }
  assert (E : is_RInt (fun u => RInt (fun v => f u v) c d) a b (minus (G b) (G a))).
  { apply (is_RInt_derive G); [intros x _; apply DG|intros x _; apply cont_RInt_param; assumption]. }
  rewrite (is_RInt_unique _ _ _ _ E). unfold G. rewrite (RInt_ext (fun v => RInt (fun u => f u v) a a) (fun _ => 0)) by (intros v _; rewrite RInt_point; reflexivity).
  rewrite RInt_const. unfold minus, plus, opp, scal, mult; cbn. unfold mult; cbn. ring.
Qed.

(** ** The antisymmetric kernel *)
From Verif Require Import Ext Gauss GaussProofs Ss SsProofs.

Lemma phi_cont x : continuous phi x.
Proof. unfold phi. apply (ex_derive_continuous (K := R_AbsRing) (V := R_NormedModule)). auto_derive. exact I. Qed.
Lemma Rmin_abs a b : Rmin a b = / 2 * (a + b - Rabs (a - b)).
Proof. unfold Rmin, Rabs. destruct (Rle_dec a b); destruct (Rcase_abs (a - b)); lra. Qed.
Lemma cont2_comp1 (f : R -> R) (g : R -> R -> R) : (forall x, continuous f x) -> cont2 g -> cont2 (fun u r => f (g u r)).
Proof. intros Hf Hg x y. apply continuity_1d_2d_pt_comp; [apply continuity_pt_filterlim, Hf|apply Hg]. Qed.

Definition kern (h : R -> R) (u v : R) : R := Rmin (phi u) (phi v) * (h v - h u).
Lemma kern_anti h u v : kern h v u = - kern h u v.
Proof. unfold kern. rewrite (Rmin_comm (phi v)). ring. Qed.
Lemma kern_cont2 h sigma : (forall x, continuous h x) -> cont2 (fun u r => kern h u (u + sigma * (2 * r - 1))).
Proof.
  intros Hh. set (q := fun u r : R => u + sigma * (2 * r - 1)).
  assert (Cu : cont2 (fun u _ => u)) by (intros x y; apply continuity_2d_pt_id1).
  assert (Cr : cont2 (fun _ r => r)) by (intros x y; apply continuity_2d_pt_id2).
  assert (Cq : cont2 q).
  { intros x y. unfold q. apply continuity_2d_pt_plus; [apply Cu|]. apply continuity_2d_pt_mult; [apply continuity_2d_pt_const|].
    apply continuity_2d_pt_minus; [|apply continuity_2d_pt_const]. apply continuity_2d_pt_mult; [apply continuity_2d_pt_const|apply Cr]. }
  assert (P1 : cont2 (fun u r => phi u)) by (apply (cont2_comp1 phi (fun u _ => u)); [exact phi_cont|exact Cu]).
  assert (P2 : cont2 (fun u r => phi (q u r))) by (apply (cont2_comp1 phi q); [exact phi_cont|exact Cq]).
  intros x y. apply (continuity_2d_pt_ext (fun u r => (/ 2 * (phi u + phi (q u r) - Rabs (phi u - phi (q u r)))) * (h (q u r) - h u))); [intros u r; unfold kern, q; rewrite Rmin_abs; reflexivity|].
  apply continuity_2d_pt_mult.
  - apply continuity_2d_pt_mult; [apply continuity_2d_pt_const|]. apply continuity_2d_pt_minus; [apply continuity_2d_pt_plus; [apply P1|apply P2]|].
    apply (cont2_comp1 Rabs (fun u r => phi u - phi (q u r))); [intros z; apply continuity_pt_filterlim, Rcontinuity_abs|].
    intros a b. apply continuity_2d_pt_minus; [apply P1|apply P2].
  - apply continuity_2d_pt_minus; [apply (cont2_comp1 h q); assumption|apply (cont2_comp1 h (fun u _ => u)); assumption].
Qed.

Lemma RInt_shift (f : R -> R) s a b : (forall x, continuous f x) -> RInt (fun x => f (x + s)) a b = RInt f (a + s) (b + s).
Proof.
  intros Hf.
  assert (X : ex_RInt f (1 * a + s) (1 * b + s)) by (apply (ex_RInt_continuous (V := R_CompleteNormedModule)); intros z _; apply Hf).
  pose proof (RInt_comp_lin f 1 s a b X) as E. rewrite !Rmult_1_l in E. rewrite <- E.
  apply RInt_ext. intros x _. unfold scal; cbn. unfold mult; cbn. rewrite Rmult_1_l. f_equal. ring.
Qed.
Lemma RInt_mirror (f : R -> R) : (forall x, continuous f x) -> RInt (fun x => f (1 - x)) 0 1 = RInt f 0 1.
Proof.
  intros Hf.
  assert (E : RInt (fun y => scal (-1) (f (-1 * y + 1))) 0 1 = RInt f (-1 * 0 + 1) (-1 * 1 + 1)).
  { apply (RInt_comp_lin f (-1) 1 0 1). apply (ex_RInt_continuous (V := R_CompleteNormedModule)). intros z _. apply Hf. }
  replace (-1 * 0 + 1) with 1 in E by ring. replace (-1 * 1 + 1) with 0 in E by ring.
  assert (X : ex_RInt f 0 1) by (apply (ex_RInt_continuous (V := R_CompleteNormedModule)); intros z _; apply Hf).
  rewrite <- (opp_RInt_swap f 0 1 X) in E.
  assert (X2 : ex_RInt (fun x => f (1 - x)) 0 1).
  { apply (ex_RInt_continuous (V := R_CompleteNormedModule)). intros z _. apply (continuous_comp (fun x => 1 - x) f); [|apply Hf]. apply (ex_derive_continuous (K := R_AbsRing) (V := R_NormedModule)). auto_derive. exact I. }
  assert (E2 : RInt (fun y => scal (-1) (f (-1 * y + 1))) 0 1 = - RInt (fun x => f (1 - x)) 0 1).
  { etransitivity; [|exact (RInt_opp (fun x => f (1 - x)) 0 1 X2)]. apply RInt_ext. intros x _. unfold scal, opp; cbn. unfold mult; cbn.
    replace (-1 * x + 1) with (1 - x) by ring. ring. }
  assert (E3 : - RInt (fun x => f (1 - x)) 0 1 = - RInt f 0 1) by exact (eq_trans (eq_sym E2) E). lra.
Qed.
Lemma RInt_null (f : R -> R) a b : (forall x, Rmin a b < x < Rmax a b -> f x = 0) -> RInt f a b = 0.
Proof. intros H. rewrite (RInt_ext f (fun _ => 0)) by exact H. rewrite RInt_const. unfold scal; cbn. unfold mult; cbn. ring. Qed.

Lemma kern_total h sigma A B : 0 < sigma -> 0 <= A -> A + sigma <= B -> (forall x, continuous h x) -> (forall x, A <= Rabs x -> h x = 0) ->
  RInt (fun u => RInt (fun r => kern h u (u + sigma * (2 * r - 1))) 0 1) (- B) B = 0.
Proof.
  intros Hs HA HB Hc Hz. pose proof (kern_cont2 h sigma Hc) as C2. rewrite (fubini _ (- B) B 0 1 ltac:(lra) C2).
  set (I := fun r => RInt (fun u => kern h u (u + sigma * (2 * r - 1))) (- B) B).
  assert (CI : forall r, continuous I r) by (intros r; exact (cont_RInt_param (fun r u => kern h u (u + sigma * (2 * r - 1))) (- B) B ltac:(lra) (cont2_swap _ C2) r)).
  assert (EI : forall r, 0 < r < 1 -> I (1 - r) = - I r).
  { intros r Hr. unfold I. set (s := sigma * (2 * r - 1)). assert (Bs : - sigma < s < sigma) by (unfold s; nra).
    set (K := fun w => kern h w (w + s)).
    assert (CK : forall w, continuous K w) by (intros w; apply (cont2_1 _ r C2)).
    assert (XK : forall a b, ex_RInt K a b) by (intros a b; apply (ex_RInt_continuous (V := R_CompleteNormedModule)); intros z _; apply CK).
    transitivity (RInt (fun u => opp (K (u + - s))) (- B) B).
    { apply RInt_ext. intros u _. unfold K, s, opp; cbn. rewrite kern_anti. do 2 f_equal; unfold s; ring. }
    assert (XS : ex_RInt (fun u => K (u + - s)) (- B) B).
    { apply (ex_RInt_continuous (V := R_CompleteNormedModule)). intros z _. apply (continuous_comp (fun x => x + - s) K); [|apply CK]. apply (ex_derive_continuous (K := R_AbsRing) (V := R_NormedModule)). auto_derive. exact Coq.Init.Logic.I. }
    refine (eq_trans (RInt_opp (fun u => K (u + - s)) (- B) B XS) _). change (- RInt (fun u => K (u + - s)) (- B) B = - RInt K (- B) B). f_equal.
    rewrite (RInt_shift K (- s) (- B) B CK).
    assert (Z : forall w, A <= Rabs w -> A <= Rabs (w + s) -> K w = 0).
    { intros w H1 H2. unfold K, kern. rewrite (Hz _ H1), (Hz _ H2). ring. }
    pose proof (RInt_Chasles K (- B + - s) (- B) (B + - s) (XK _ _) (XK _ _)) as C1. pose proof (RInt_Chasles K (- B) B (B + - s) (XK _ _) (XK _ _)) as C3.
    assert (N1 : RInt K (- B + - s) (- B) = 0).
    { apply RInt_null. intros x Hx. destruct (Rle_dec 0 s) as [L|L]; [rewrite Rmin_left, Rmax_right in Hx by lra|rewrite Rmin_right, Rmax_left in Hx by lra]; apply Z; rewrite Rabs_left1; lra. }
    assert (N2 : RInt K B (B + - s) = 0).
    { apply RInt_null. intros x Hx. destruct (Rle_dec 0 s) as [L|L]; [rewrite Rmin_right, Rmax_left in Hx by lra|rewrite Rmin_left, Rmax_right in Hx by lra]; apply Z; rewrite Rabs_pos_eq; lra. }
    assert (C1' : RInt K (- B + - s) (- B) + RInt K (- B) (B + - s) = RInt K (- B + - s) (B + - s)) by exact C1.
    assert (C3' : RInt K (- B) B + RInt K B (B + - s) = RInt K (- B) (B + - s)) by exact C3.
    lra. }
  assert (E1 : RInt (fun r => I (1 - r)) 0 1 = - RInt I 0 1).
  { assert (XI : ex_RInt I 0 1) by (apply (ex_RInt_continuous (V := R_CompleteNormedModule)); intros z _; apply CI).
    rewrite (RInt_ext (fun r => I (1 - r)) (fun r => opp (I r))); [exact (RInt_opp I 0 1 XI)|]. intros r Hr. rewrite Rmin_left, Rmax_right in Hr by lra. apply EI. exact Hr. }
  rewrite (RInt_mirror I CI) in E1. change (RInt I 0 1 = 0). lra.
Qed.
