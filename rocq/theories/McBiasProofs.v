From Coquelicot Require Import Coquelicot.
From Verif Require Import Base Gauss GaussProofs MomSpec MomProofs McSpec Mc McProofs McRunProofs McBiasSpec.
From Coq Require Import Lra Lia ZArith FunctionalExtensionality.
Open Scope R_scope.

Notation MI := (Rbar_locally m_infty).
Notation PI_ := (Rbar_locally p_infty).

(** ** One number *)
Lemma lims_Phi : filterlim Phi MI (locally 0) /\ filterlim Phi PI_ (locally 1).
Proof.
  assert (P : filterlim Phi PI_ (locally 1)).
  { apply filterlim_locally. intros eps. destruct (Phi_exceeds (1 - eps) ltac:(destruct eps; cbn; lra)) as (x & Hx). exists x. intros y Hy.
    pose proof (Phi_incr x y Hy). pose proof (Phi_bound y). apply Rabs_def1; unfold minus, plus, opp; cbn; lra. }
  assert (M : filterlim Phi MI (locally 0)).
  { apply filterlim_locally. intros eps. destruct (Phi_below eps ltac:(destruct eps; assumption)) as (x & Hx). exists x. intros y Hy.
    pose proof (Phi_incr y x Hy). pose proof (Phi_bound y). apply Rabs_def1; unfold minus, plus, opp; cbn; lra. }
  split; assumption.
Qed.

Lemma eN_const c : expectN (fun _ => c) c.
Proof.
  destruct lims_Phi as [M P]. assert (I : is_RInt_gen phi MI PI_ (1 - 0)).
  { apply (gen_F Phi phi); [apply _|apply _| |exact M|exact P]. apply filter_forall. intros ab x _. split; [apply Phi_derive|apply phi_continuous]. }
  rewrite Rminus_0_r in I. apply (is_RInt_gen_scal _ c) in I. refine (eq_ind _ (fun v => is_RInt_gen (fun u => c * phi u) MI PI_ v) I _ _). unfold scal; cbn; unfold mult; cbn. ring.
Qed.

Lemma eN_scal h c v : expectN h v -> expectN (fun x => c * h x) (c * v).
Proof.
  intros H. apply (is_RInt_gen_scal _ c) in H. refine (is_RInt_gen_ext _ _ _ _ H). apply filter_forall. intros ab x _. unfold scal; cbn; unfold mult; cbn. ring.
Qed.
Lemma eN_plus h k v w : expectN h v -> expectN k w -> expectN (fun x => h x + k x) (v + w).
Proof.
  intros H K. pose proof (is_RInt_gen_plus _ _ _ _ H K) as P. refine (is_RInt_gen_ext _ _ _ _ P). apply filter_forall. intros ab x _. unfold plus; cbn. ring.
Qed.
Lemma eN_unique h v w : expectN h v -> expectN h w -> v = w.
Proof. intros H K. rewrite <- (is_RInt_gen_unique _ _ H). apply (is_RInt_gen_unique _ _ K). Qed.

(** the mean of a step: the probability of x < c *)
Lemma eN_below c : expectN (fun x => if Rltb x c then 1 else 0) (Phi c).
Proof.
  replace (Phi c) with (Phi c - 0) by ring. destruct lims_Phi as [M _].
  apply (filterlimi_lim_ext_loc (fun ab => Phi c - Phi (fst ab))).
  - apply (Filter_prod _ _ _ (fun a => a < c) (fun b => c < b)); [exists c; auto|exists c; auto|].
    intros a b Ha Hb. cbn [fst snd]. replace (Phi c - Phi a) with (plus (minus (Phi c) (Phi a)) (scal (b - c) 0)) by (unfold minus, plus, opp, scal; cbn; unfold mult; cbn; ring).
    apply (is_RInt_Chasles (V := R_NormedModule) _ a c b).
    + apply (is_RInt_ext (V := R_NormedModule) phi).
      * rewrite Rmin_left, Rmax_right by lra. intros x Hx. destruct (Rltb x c) eqn:E; [|apply Rltb_false in E; lra]. change (phi x = 1 * phi x). ring.
      * apply (is_RInt_derive Phi phi a c); intros x _; [apply Phi_derive|apply phi_continuous].
    + apply (is_RInt_ext (V := R_NormedModule) (fun _ => 0)).
      * rewrite Rmin_left, Rmax_right by lra. intros x Hx. destruct (Rltb x c) eqn:E; [apply Rltb_spec in E; lra|]. change (0 = 0 * phi x). ring.
      * apply (is_RInt_const (V := R_NormedModule) c b 0).
  - apply (filterlim_comp_2 (F := filter_prod MI PI_) (G := locally (Phi c)) (H := locally 0) (fun _ => Phi c) (fun ab => Phi (fst ab)) Rminus).
    + apply filterlim_const.
    + eapply filterlim_comp; [apply filterlim_fst|exact M].
    + eapply (filterlim_comp_2 (fun x : R * R => fst x) (fun x => - snd x) Rplus).
      * apply filterlim_fst.
      * eapply filterlim_comp; [apply filterlim_snd|apply (filterlim_opp (K:=R_AbsRing) (V:=R_NormedModule))].
      * apply (filterlim_plus (K:=R_AbsRing) (V:=R_NormedModule)).
Qed.

(** substitution of an affine map, without continuity *)
Lemma gen_affine F p s v : 0 < s -> is_RInt_gen F MI PI_ v -> is_RInt_gen (fun x => s * F (p + s * x)) MI PI_ v.
Proof.
  intros Hs HI P HP. specialize (HI P HP). unfold filtermapi in *. destruct HI as [Q1 Q2 K1 K2 K].
  apply (Filter_prod _ _ _ (fun x => Q1 (s * x + p)) (fun x => Q2 (s * x + p))).
  - destruct K1 as [M K1]. exists ((M - p) / s). intros x Hx. apply K1. apply (Rmult_lt_compat_l s) in Hx; [|exact Hs]. replace (s * ((M - p) / s)) with (M - p) in Hx by (field; lra). lra.
  - destruct K2 as [M K2]. exists ((M - p) / s). intros x Hx. apply K2. apply (Rmult_lt_compat_l s) in Hx; [|exact Hs]. replace (s * ((M - p) / s)) with (M - p) in Hx by (field; lra). lra.
  - intros x y A B. destruct (K _ _ A B) as (w & V1 & V2). exists w. split; [|exact V2]. cbn [fst snd] in *.
    apply (is_RInt_comp_lin F s p x y) in V1. refine (is_RInt_ext _ _ _ _ _ _ V1). intros z _. unfold scal; cbn; unfold mult; cbn. do 2 f_equal. ring.
Qed.

(** ** Streams *)
Lemma mean_ext m : forall f g v, (forall s, f s = g s) -> is_mean m f v -> is_mean m g v.
Proof. intros f g v H. replace g with f by (apply functional_extensionality; exact H). auto. Qed.
Lemma mean_const m c : is_mean m (fun _ => c) c.
Proof. induction m as [|m IH]; cbn [is_mean]; [auto|]. exists (fun _ => c). split; [intros x; exact IH|apply eN_const]. Qed.
Lemma mean_scal m : forall c f v, is_mean m f v -> is_mean m (fun s => c * f s) (c * v).
Proof.
  induction m as [|m IH]; intros c f v H; cbn [is_mean] in *; [intros s; rewrite H; reflexivity|]. destruct H as (F & H & E). exists (fun x => c * F x). split; [intros x; exact (IH c _ _ (H x))|apply eN_scal, E].
Qed.
Lemma mean_plus m : forall f g v w, is_mean m f v -> is_mean m g w -> is_mean m (fun s => f s + g s) (v + w).
Proof.
  induction m as [|m IH]; intros f g v w H K; cbn [is_mean] in *; [intros s; rewrite H, K; reflexivity|].
  destruct H as (F & H & E), K as (G & K & D). exists (fun x => F x + G x). split; [intros x; exact (IH _ _ _ _ (H x) (K x))|apply eN_plus; assumption].
Qed.
Lemma mean_unique m : forall f v w, is_mean m f v -> is_mean m f w -> v = w.
Proof.
  induction m as [|m IH]; intros f v w H K; cbn [is_mean] in *; [rewrite <- (H (fun _ => 0)); apply K|].
  destruct H as (F & H & E), K as (G & K & D). apply (eN_unique F); [exact E|]. apply (eN_ext G); [|exact D]. intros x. exact (IH _ _ _ (K x) (H x)).
Qed.
Lemma mean_sum m {A} (f : A -> (nat -> R) -> R) (v : A -> R) l : (forall a, In a l -> is_mean m (f a) (v a)) -> is_mean m (fun s => lsum (map (fun a => f a s) l)) (lsum (map v l)).
Proof.
  induction l as [|a l IH]; intros H; cbn [map lsum fold_right]; [apply mean_const|].
  apply (mean_plus m (f a) (fun s => lsum (map (fun a0 => f a0 s) l))); [apply H; left; reflexivity|apply IH; intros b Hb; apply H; right; exact Hb].
Qed.

(** numbers read in increasing order have the joint law of the first ones *)
Lemma mean_select m : forall n h v idx, is_mean n h v -> (forall i, (idx i < idx (S i))%nat) -> (forall i, (i < n)%nat -> (idx i < m)%nat) -> is_mean m (fun s => h (fun i => s (idx i))) v.
Proof.
  induction m as [|m IH]; intros n h v idx H Hi Hm.
  - destruct n as [|n]; [cbn [is_mean] in *; intros s; apply H|]. specialize (Hm 0%nat ltac:(lia)). lia.
  - destruct n as [|n].
    + cbn [is_mean] in H. refine (mean_ext _ (fun _ => v) _ _ _ (mean_const _ v)). intros s. symmetry. apply H.
    + assert (Pos : forall i, (0 < idx (S i))%nat) by (intros i; specialize (Hi i); lia).
      destruct (Nat.eq_dec (idx 0%nat) 0) as [E0|E0].
      * destruct H as (F & H & E). exists F. split; [|exact E]. intros x.
        refine (mean_ext _ (fun s => h (scons x (fun i => s (idx (S i) - 1)%nat))) _ _ _ (IH n (fun u => h (scons x u)) (F x) (fun i => (idx (S i) - 1)%nat) (H x) _ _)).
        -- intros s. f_equal. apply functional_extensionality. intros [|i]; cbn [scons]; [rewrite E0; reflexivity|]. specialize (Pos i). destruct (idx (S i)); [lia|]. cbn. f_equal. lia.
        -- intros i. pose proof (Pos i). pose proof (Hi (S i)). lia.
        -- intros i Hin. specialize (Hm (S i) ltac:(lia)). specialize (Pos i). lia.
      * exists (fun _ => v). split; [|apply eN_const]. intros x.
        assert (P2 : forall i, (0 < idx i)%nat) by (intros [|i]; [lia|apply Pos]).
        refine (mean_ext _ (fun s => h (fun i => s (idx i - 1)%nat)) _ _ _ (IH (S n) h v (fun i => (idx i - 1)%nat) H _ _)).
        -- intros s. f_equal. apply functional_extensionality. intros i. specialize (P2 i). destruct (idx i); [lia|]. cbn [scons]. f_equal. lia.
        -- intros i. pose proof (P2 i). pose proof (Hi i). lia.
        -- intros i Hin. specialize (Hm i Hin). specialize (P2 i). lia.
Qed.

(** functions of different numbers are independent *)
Definition dep (A : nat -> bool) (f : (nat -> R) -> R) : Prop := forall s s', (forall i, A i = true -> s i = s' i) -> f s = f s'.
Lemma dep_cons A f x : dep A f -> dep (fun i => A (S i)) (fun s => f (scons x s)).
Proof. intros D s s' H. apply D. intros [|i] Hi; cbn [scons]; [reflexivity|apply H; exact Hi]. Qed.
Lemma mean_nodep m A f v F : dep A f -> A 0%nat = false -> (forall x, is_mean m (fun s => f (scons x s)) (F x)) -> expectN F v -> forall x, F x = v.
Proof.
  intros D H0 H E. assert (C : forall x, F x = F 0).
  { intros x. apply (mean_unique m (fun s => f (scons x s))); [apply H|]. refine (mean_ext _ _ _ _ _ (H 0)). intros s. apply D. intros [|i] Hi; cbn; [congruence|reflexivity]. }
  intros x. rewrite C. apply (eN_unique F); [|exact E]. apply (eN_ext (fun _ => F 0)); [intros u; symmetry; apply C|apply eN_const].
Qed.
Lemma mean_indep m : forall f g v w A B, dep A f -> dep B g -> (forall i, A i = true -> B i = false) -> is_mean m f v -> is_mean m g w -> is_mean m (fun s => f s * g s) (v * w).
Proof.
  induction m as [|m IH]; intros f g v w A B Df Dg Dis H K.
  - cbn [is_mean] in *. intros s. rewrite H, K. reflexivity.
  - destruct H as (F & H & E), K as (G & K & D). exists (fun x => F x * G x). split.
    + intros x. apply (IH _ _ _ _ (fun i => A (S i)) (fun i => B (S i))); [apply dep_cons, Df|apply dep_cons, Dg|intros i; apply Dis|apply H|apply K].
    + destruct (A 0%nat) eqn:A0.
      * pose proof (mean_nodep m B g w G Dg (Dis _ A0) K D) as C. apply (eN_ext (fun x => w * F x)); [intros u; rewrite C; ring|]. rewrite (Rmult_comm v). apply eN_scal, E.
      * pose proof (mean_nodep m A f v F Df A0 H E) as C. apply (eN_ext (fun x => v * G x)); [intros u; rewrite C; ring|]. apply eN_scal, D.
Qed.

(** variance of a sum of independent terms *)
Lemma mean_sq_sum m {I} (f : I -> (nat -> R) -> R) (A : I -> nat -> bool) v2 l :
  NoDup l -> (forall a, In a l -> is_mean m (f a) 0 /\ is_mean m (fun s => f a s ^ 2) v2 /\ dep (A a) (f a)) ->
  (forall a b, In a l -> In b l -> a <> b -> forall i, A a i = true -> A b i = false) ->
  is_mean m (fun s => lsum (map (fun a => f a s) l) ^ 2) (INR (length l) * v2).
Proof.
  induction l as [|a l IH]; intros ND H Dis.
  - cbn [length map lsum fold_right]. refine (mean_ext _ (fun _ => INR 0 * v2) _ _ _ (mean_const _ _)). intros s. cbn. ring.
  - inversion ND as [|? ? NI ND']; subst. destruct (H a (or_introl eq_refl)) as (M1 & M2 & D1).
    assert (IH' := IH ND' (fun b Hb => H b (or_intror Hb)) (fun b c Hb Hc => Dis b c (or_intror Hb) (or_intror Hc))).
    assert (X : is_mean m (fun s => lsum (map (fun b => f a s * f b s) l)) (lsum (map (fun _ => 0) l))).
    { apply (mean_sum m (fun b s => f a s * f b s) (fun _ => 0)). intros b Hb. destruct (H b (or_intror Hb)) as (N1 & _ & D2). replace 0 with (0 * 0) by ring.
      apply (mean_indep m _ _ _ _ (A a) (A b) D1 D2); [|exact M1|exact N1]. apply Dis; [left; reflexivity|right; exact Hb|intros ->; contradiction]. }
    assert (Z : lsum (map (fun _ : I => 0) l) = 0) by (clear; induction l as [|b l IHl]; cbn [map lsum fold_right]; [reflexivity|]; change (0 + lsum (map (fun _ : I => 0) l) = 0); rewrite IHl; ring).
    rewrite Z in X.
    assert (SX : forall s, lsum (map (fun b => f a s * f b s) l) = f a s * lsum (map (fun b => f b s) l)).
    { intros s. clear. induction l as [|b l IHl]; cbn [map lsum fold_right]; [ring|]. change (f a s * f b s + lsum (map (fun b0 => f a s * f b0 s) l) = f a s * (f b s + lsum (map (fun b0 => f b0 s) l))). rewrite IHl. ring. }
    cbn [length]. rewrite S_INR. replace ((INR (length l) + 1) * v2) with (v2 + (2 * 0 + INR (length l) * v2)) by ring.
    refine (mean_ext _ _ _ _ _ (mean_plus m _ _ _ _ M2 (mean_plus m _ _ _ _ (mean_scal m 2 _ _ X) IH'))).
    intros s. rewrite SX. cbn [map lsum fold_right]. change (fold_right Rplus 0 (map (fun a0 => f a0 s) l)) with (lsum (map (fun b => f b s) l)). ring.
Qed.

(** ** Integrals over R^n *)
Lemma int_ext n : forall f g v, (forall u, f u = g u) -> is_integral n f v -> is_integral n g v.
Proof. intros f g v H. replace g with f by (apply functional_extensionality; exact H). auto. Qed.
Lemma int_scal n : forall c f v, is_integral n f v -> is_integral n (fun u => c * f u) (c * v).
Proof.
  induction n as [|n IH]; intros c f v H; cbn [is_integral] in *; [intros s; rewrite H; reflexivity|]. destruct H as (F & H & E). exists (fun x => c * F x). split; [intros x; exact (IH c _ _ (H x))|].
  apply (is_RInt_gen_scal _ c) in E. exact E.
Qed.
Lemma int_affine s : 0 < s -> forall n p f v, is_integral n f v -> is_integral n (fun z => s ^ n * f (fun i => p i + s * z i)) v.
Proof.
  intros Hs. induction n as [|n IH]; intros p f v H; cbn [is_integral] in *; [intros z; rewrite H; cbn; ring|].
  destruct H as (F & H & E). exists (fun x => s * F (p 0%nat + s * x)). split; [|apply gen_affine; assumption].
  intros x. pose proof (int_scal n s _ _ (IH (fun i => p (S i)) _ _ (H (p 0%nat + s * x)))) as K.
  refine (int_ext n _ _ _ _ K). intros z. cbn beta. rewrite <- Rmult_assoc. change (s * s ^ n) with (s ^ S n). do 2 f_equal.
  apply functional_extensionality. intros [|i]; reflexivity.
Qed.
Lemma joint_cons n x u : joint_density (S n) (scons x u) = phi x * joint_density n u.
Proof. unfold joint_density. cbn [seq map lprod fold_right]. rewrite <- seq_shift, map_map. reflexivity. Qed.
Lemma int_mean n : forall h v, is_integral n (fun z => h z * joint_density n z) v -> is_mean n h v.
Proof.
  induction n as [|n IH]; intros h v H; cbn [is_integral is_mean] in *.
  - intros s. rewrite <- (H s). unfold joint_density. cbn. ring.
  - destruct H as (F & H & E). exists (fun x => / phi x * F x). split.
    + intros x. apply IH. refine (int_ext n _ _ _ _ (int_scal n (/ phi x) _ _ (H x))). intros u. cbn beta. rewrite joint_cons. pose proof (phi_pos x). field. lra.
    + unfold expectN. refine (is_RInt_gen_ext _ _ _ _ E). apply filter_forall. intros ab x _. pose proof (phi_pos x). change (F x = / phi x * F x * phi x). field. lra.
Qed.
