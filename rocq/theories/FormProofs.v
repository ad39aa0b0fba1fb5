From Coquelicot Require Import Coquelicot.
From Verif Require Import Base Ext Gauss GaussProofs StochModel StochModelSpec StochModelProofs LimitState LimitStateSpec LimitStateProofs Transf TransfSpec TransfProofs Form.
From Coq Require Import ZArith Lra Lia.

(** ** Loop control *)
Section L.
  Variables (n : nat) (o : form_opts) (ev : vec -> result (R * vec) * nat)
            (trial : list vec -> result (list R) * nat) (evn : option exn).
  Notation loop := (form_loop n o ev trial evn).

  Definition stops (r : form_res) : Prop :=
    exists u, fr_u r = Some u /\ xltb (e1_of (fr_G r) (fr_Go r)) (Fin (fo_e1 o)) = true /\
              e2_of n (alpha_of n (fr_grad r)) u < fo_e2 o.

  Lemma loop_spec fuel : forall i Go us lG lg calls r c,
    loop fuel i Go us lG lg calls = (FDone r, c) ->
    (i <= fr_i r)%Z /\ (fr_i r = fo_imax o \/ stops r) /\
    ((i <= fo_imax o)%Z -> (fr_i r <= fo_imax o)%Z) /\
    (forall q, Go = Some q -> fr_Go r = q) /\
    (Go = None -> forall u, us = Some u -> exists g, fst (ev u) = Ok (fr_Go r, g)) /\
    (forall u, fr_u r = Some u -> fst (ev u) = Ok (fr_G r, fr_grad r) /\ norm n (fr_grad r) <> 0).
  Proof.
    induction fuel as [|f IH]; intros i Go us lG lg calls r c H; [discriminate|].
    cbn [form_loop] in H. destruct us as [u|].
    - destruct (ev u) as [[[G g]|e] k] eqn:Eev; [|discriminate].
      destruct (Reqb (norm n g) 0) eqn:En.
      + destruct (i =? fo_imax o)%Z eqn:Ei.
        * inversion H; subst; cbn [fr_i fr_u fr_G fr_Go fr_grad]. apply Z.eqb_eq in Ei.
          refine (conj _ (conj _ (conj _ (conj _ (conj _ _))))).
          -- lia.
          -- left; exact Ei.
          -- lia.
          -- intros q E. rewrite E. reflexivity.
          -- intros E u' Eu. inversion Eu; subst. exists g. rewrite Eev. reflexivity.
          -- discriminate.
        * destruct (nan_step o evn) as [kn|]; [|discriminate]. apply IH in H. destruct H as (H1 & H2 & H3 & H4 & H5 & H6). apply Z.eqb_neq in Ei.
          specialize (H4 _ eq_refl).
          refine (conj _ (conj H2 (conj _ (conj _ (conj _ H6))))).
          -- lia.
          -- intros. apply H3. lia.
          -- intros q E. rewrite E in H4. exact H4.
          -- intros E u' Eu. inversion Eu; subst. exists g. rewrite Eev, H4. reflexivity.
      + match type of H with context [if ?b then _ else _] => destruct b eqn:Ec end.
        * inversion H; subst; cbn [fr_i fr_u fr_G fr_Go fr_grad].
          apply Reqb_false in En.
          assert (ST : fr_i (mkfr i (Some u) G (match Go with None => G | Some q => q end) g) = fo_imax o \/
                       stops (mkfr i (Some u) G (match Go with None => G | Some q => q end) g)).
          { apply orb_true_iff in Ec. destruct Ec as [Ec|Ec]; [right|left; apply Z.eqb_eq; exact Ec].
            apply andb_true_iff in Ec. destruct Ec as [E1 E2]. apply Rltb_spec in E2.
            exists u. cbn [fr_i fr_u fr_G fr_Go fr_grad]. repeat split; assumption. }
          refine (conj _ (conj ST (conj _ (conj _ (conj _ _))))).
          -- lia.
          -- lia.
          -- intros q E. rewrite E. reflexivity.
          -- intros E u' Eu. inversion Eu; subst. exists g. rewrite Eev. reflexivity.
          -- intros u' Eu. inversion Eu; subst. rewrite Eev. split; [reflexivity|exact En].
        * destruct (getStepSize n o trial G g u (search_dir n G g u)) as [[t|e] k2]; [|discriminate].
          apply IH in H. destruct H as (H1 & H2 & H3 & H4 & H5 & H6).
          apply orb_false_iff in Ec. destruct Ec as [_ Ec]. apply Z.eqb_neq in Ec.
          specialize (H4 _ eq_refl).
          refine (conj _ (conj H2 (conj _ (conj _ (conj _ H6))))).
          -- lia.
          -- intros. apply H3. lia.
          -- intros q E. rewrite E in H4. exact H4.
          -- intros E u' Eu. inversion Eu; subst. exists g. rewrite Eev, H4. reflexivity.
    - destruct evn as [e|] eqn:Een; [discriminate|]. rewrite <- Een in *.
      destruct (i =? fo_imax o)%Z eqn:Ei.
      + inversion H; subst; cbn [fr_i fr_u fr_G fr_Go fr_grad]. apply Z.eqb_eq in Ei.
        refine (conj _ (conj _ (conj _ (conj _ (conj _ _))))); try discriminate.
        * lia.
        * left; exact Ei.
        * lia.
        * intros q E. rewrite E. reflexivity.
      + destruct (nan_step o evn) as [kn|]; [|discriminate]. apply IH in H. destruct H as (H1 & H2 & H3 & H4 & H5 & H6). apply Z.eqb_neq in Ei.
        refine (conj _ (conj H2 (conj _ (conj H4 (conj _ H6))))); try discriminate.
        * lia.
        * intros. apply H3. lia.
  Qed.

  Lemma loop_terminates fuel : forall i Go us lG lg calls,
    (i <= fo_imax o)%Z -> (Z.to_nat (fo_imax o - i) < fuel)%nat ->
    fst (loop fuel i Go us lG lg calls) <> FFuel.
  Proof.
    induction fuel as [|f IH]; intros i Go us lG lg calls Hi Hf; [lia|].
    cbn [form_loop]. destruct us as [u|].
    - destruct (ev u) as [[[G g]|e] k] eqn:Eev; [|discriminate].
      destruct (Reqb (norm n g) 0).
      + destruct (Z.eqb_spec i (fo_imax o)); [discriminate|]. destruct (nan_step o evn); [|discriminate]. apply IH; lia.
      + match goal with |- context [if ?b then _ else _] => destruct b eqn:Ec end; [discriminate|].
        apply orb_false_iff in Ec. destruct Ec as [_ Ec]. apply Z.eqb_neq in Ec.
        destruct (getStepSize n o trial G g u (search_dir n G g u)) as [[t|e] k2]; [|discriminate].
        apply IH; lia.
    - destruct evn as [e|] eqn:Een; [discriminate|]. rewrite <- Een in *.
      destruct (Z.eqb_spec i (fo_imax o)); [discriminate|]. destruct (nan_step o evn); [|discriminate]. apply IH; lia.
  Qed.

  (** raising-free evaluations *)
  Definition never_raises : Prop :=
    evn = None /\ (forall u, exists Gg k, ev u = (Ok Gg, k)) /\
    (fo_step o <> 0 \/ (o_multi_proc (fo_ls o) = 1%Z /\ forall us, exists Gs k, trial us = (Ok Gs, k))).

  Lemma step_ok : never_raises -> forall G g u d, exists t k, getStepSize n o trial G g u d = (Ok t, k).
  Proof.
    intros (_ & _ & H) G g u d. unfold getStepSize, computeStepSize.
    destruct (Reqb (fo_step o) 0) eqn:E.
    - apply Reqb_spec in E. destruct H as [H|[H1 H2]]; [contradiction|].
      rewrite H1. simpl Z.eqb. cbv iota.
      destruct (H2 (map (fun t => fun i => u i + d i * t) trial_steps)) as (Gs & k & E2). rewrite E2. eauto.
    - eauto.
  Qed.

  Lemma nan_ok : never_raises -> exists k, nan_step o evn = Ok k.
  Proof.
    intros (Hn & _ & H). unfold nan_step. destruct (Reqb (fo_step o) 0) eqn:E; [|eauto].
    apply Reqb_spec in E. destruct H as [H|[H1 H2]]; [contradiction|]. rewrite H1, Hn. exists ntrial. reflexivity.
  Qed.

  Lemma loop_diverges : never_raises -> forall q,
    (forall u G g, fst (ev u) = Ok (G, g) -> norm n g <> 0 ->
       xltb (e1_of G q) (Fin (fo_e1 o)) = true -> fo_e2 o <= e2_of n (alpha_of n g) u) ->
    forall fuel i Go us lG lg calls,
    (fo_imax o < i)%Z ->
    (Go = Some q \/ (Go = None /\ exists u g, us = Some u /\ fst (ev u) = Ok (q, g))) ->
    fst (loop fuel i Go us lG lg calls) = FFuel.
  Proof.
    intros NR q HC. induction fuel as [|f IH]; intros i Go us lG lg calls Hi HG; [reflexivity|].
    pose proof NR as (Hn & Hev & _).
    cbn [form_loop]. destruct (nan_ok NR) as [kn Ekn]. rewrite Ekn. rewrite Hn. destruct us as [u|].
    - destruct (Hev u) as ([G g] & k & E). rewrite E.
      assert (EG : (match Go with None => G | Some q => q end) = q).
      { destruct HG as [->|(-> & u' & g' & E1 & E2)]; [reflexivity|]. inversion E1; subst. rewrite E in E2. cbn in E2. congruence. }
      rewrite EG.
      destruct (Reqb (norm n g) 0) eqn:En.
      + destruct (Z.eqb_spec i (fo_imax o)); [lia|]. rewrite <- Hn. apply IH; [lia|left; reflexivity].
      + apply Reqb_false in En.
        assert (EC : (xltb (e1_of G q) (Fin (fo_e1 o)) && Rltb (e2_of n (alpha_of n g) u) (fo_e2 o)) = false).
        { destruct (xltb (e1_of G q) (Fin (fo_e1 o))) eqn:E1; [|reflexivity]. simpl.
          apply Rltb_false. apply (HC u G g); [rewrite E; reflexivity|exact En|exact E1]. }
        rewrite EC. simpl orb. destruct (Z.eqb_spec i (fo_imax o)); [lia|].
        destruct (step_ok NR G g u (search_dir n G g u)) as (t & k2 & E2). rewrite E2.
        rewrite <- Hn. apply IH; [lia|left; reflexivity].
    - destruct (Z.eqb_spec i (fo_imax o)); [lia|]. rewrite <- Hn. apply IH; [lia|].
      destruct HG as [->|(-> & u' & g' & E1 & E2)]; [left; reflexivity|discriminate].
  Qed.

  (** NaN states come only from vanishing gradients *)
  Lemma loop_finite : (forall u G g, fst (ev u) = Ok (G, g) -> norm n g <> 0) ->
    forall fuel i Go u lG lg calls r c,
    loop fuel i Go (Some u) lG lg calls = (FDone r, c) -> exists u', fr_u r = Some u'.
  Proof.
    intros HN. induction fuel as [|f IH]; intros i Go u lG lg calls r c H; [discriminate|].
    cbn [form_loop] in H. destruct (ev u) as [[[G g]|e] k] eqn:Eev; [|discriminate].
    specialize (HN u G g). rewrite Eev in HN. specialize (HN eq_refl).
    assert (EN : Reqb (norm n g) 0 = false) by (apply Reqb_false; exact HN). rewrite EN in H.
    match type of H with context [if ?b then _ else _] => destruct b eqn:Ec end.
    - inversion H; subst. simpl. eauto.
    - destruct (getStepSize n o trial G g u (search_dir n G g u)) as [[t|e] k2]; [|discriminate].
      eapply IH. exact H.
  Qed.
End L.

Lemma e1_lt G Go e : xltb (e1_of G Go) (Fin e) = true <-> Go <> 0 /\ Rabs (G / Go) < e.
Proof.
  unfold e1_of, xinv. destruct (Reqb Go 0) eqn:E.
  - apply Reqb_spec in E. split; [|intros [H _]; contradiction].
    cbn [xmul]. unfold inf_scale. destruct (Rltb 0 G); [simpl; discriminate|]. destruct (Rltb G 0); simpl; discriminate.
  - apply Reqb_false in E. cbn [xmul xabs xltb]. rewrite Rltb_spec. unfold Rdiv. tauto.
Qed.

Lemma form_stop n o ev trial evn fuel u0 r c :
  form_run n o ev trial evn fuel u0 = (FDone r, c) ->
  ((1 <= fo_imax o)%Z -> (1 <= fr_i r <= fo_imax o)%Z) /\
  (fr_i r = fo_imax o \/
   exists u Go g0, fr_u r = Some u /\ fst (ev u0) = Ok (Go, g0) /\ Go <> 0 /\
     fst (ev u) = Ok (fr_G r, fr_grad r) /\ Rabs (fr_G r / Go) < fo_e1 o /\
     e2_of n (alpha_of n (fr_grad r)) u < fo_e2 o).
Proof.
  intros H. unfold form_run in H. apply loop_spec in H. destruct H as (H1 & H2 & H3 & H4 & H5 & H6).
  split; [intros; split; [lia|apply H3; lia]|].
  destruct H2 as [H2|(u & Eu & E1 & E2)]; [left; exact H2|right].
  destruct (H5 eq_refl u0 eq_refl) as [g0 E0]. destruct (H6 u Eu) as [E3 _].
  apply e1_lt in E1. destruct E1 as [E1 E1'].
  exists u, (fr_Go r), g0. repeat split; assumption.
Qed.

(** ** Algebra of one iterate *)
Lemma norm_ext n u v : veq n u v -> norm n u = norm n v.
Proof. intros H. unfold norm. rewrite (dot_ext n u u v v H H). reflexivity. Qed.

Lemma dot_scal_l n c u v : dot n (fun i => c * u i) v = c * dot n u v.
Proof. unfold dot. rewrite <- fsum_scal. apply fsum_ext. intros; ring. Qed.
Lemma dot_scal_r n c u v : dot n u (fun i => c * v i) = c * dot n u v.
Proof. unfold dot. rewrite <- fsum_scal. apply fsum_ext. intros; ring. Qed.
Lemma dot_sub_r n u v w : dot n u (fun i => v i - w i) = dot n u v - dot n u w.
Proof. unfold dot. rewrite <- fsum_minus. apply fsum_ext. intros; ring. Qed.
Lemma dot_sub_l n u v w : dot n (fun i => v i - w i) u = dot n v u - dot n w u.
Proof. unfold dot. rewrite <- fsum_minus. apply fsum_ext. intros; ring. Qed.
Lemma dot_add_r n u v w : dot n u (fun i => v i + w i) = dot n u v + dot n u w.
Proof. unfold dot. rewrite <- fsum_plus. apply fsum_ext. intros; ring. Qed.
Lemma dot_opp_l n u v : dot n (fun i => - u i) v = - dot n u v.
Proof. unfold dot. rewrite <- fsum_opp. apply fsum_ext. intros; ring. Qed.

Lemma alpha_unit n g : norm n g <> 0 -> dot n (alpha_of n g) (alpha_of n g) = 1.
Proof.
  intros H. unfold dot, alpha_of.
  rewrite (fsum_ext n _ (fun i => (/ norm n g * / norm n g) * (g i * g i))) by (intros; ring).
  rewrite fsum_scal. change (fsum n (fun i => g i * g i)) with (dot n g g). rewrite <- norm_sqr. field. exact H.
Qed.

Lemma grad_alpha n g v : norm n g <> 0 -> dot n g v = - norm n g * dot n (alpha_of n g) v.
Proof.
  intros H. unfold dot, alpha_of.
  rewrite (fsum_ext n (fun i => - g i * / norm n g * v i) (fun i => (- / norm n g) * (g i * v i))) by (intros; ring).
  rewrite fsum_scal. field. exact H.
Qed.

Lemma perp_sq n a u : dot n a a = 1 ->
  dot n (fun i => u i - dot n a u * a i) (fun i => u i - dot n a u * a i) = dot n u u - (dot n a u) ^ 2.
Proof.
  intros H. rewrite dot_sub_r, !dot_sub_l.
  rewrite !dot_scal_r, !dot_scal_l. rewrite (dot_comm n u a), H. ring.
Qed.

Lemma unit_cs n a u : dot n a a = 1 -> (dot n a u) ^ 2 <= dot n u u.
Proof. intros H. pose proof (perp_sq n a u H). pose proof (dot_self_nonneg n (fun i => u i - dot n a u * a i)). lra. Qed.

Lemma unit_cs_abs n a u : dot n a a = 1 -> Rabs (dot n a u) <= norm n u.
Proof.
  intros H. apply Rsqr_incr_0; [|apply Rabs_pos|apply norm_nonneg].
  rewrite <- Rsqr_abs. unfold Rsqr. rewrite norm_sqr. pose proof (unit_cs n a u H). lra.
Qed.

(** C25 *)
Lemma direction_zero n G g u : norm n g <> 0 ->
  (veq n (search_dir n G g u) (fun _ => 0) <->
   G = 0 /\ veq n u (fun i => dot n (alpha_of n g) u * alpha_of n g i)).
Proof.
  intros H. set (a := alpha_of n g). pose proof (alpha_unit n g H) as Ha. fold a in Ha. split.
  - intros Hd.
    assert (E : dot n a (search_dir n G g u) = 0).
    { unfold dot. apply fsum_zero. intros i Hi. rewrite Hd by exact Hi. ring. }
    unfold search_dir in E. cbv zeta in E. fold a in E. rewrite dot_sub_r, dot_scal_r, Ha in E.
    assert (HG : G = 0).
    { assert (G * / norm n g = 0) by lra. apply Rmult_integral in H0. destruct H0; [exact H0|].
      exfalso. revert H0. apply Rinv_neq_0_compat. exact H. }
    split; [exact HG|]. intros i Hi. specialize (Hd i Hi). unfold search_dir in Hd. cbv zeta in Hd. fold a in Hd.
    rewrite HG in Hd. lra.
  - intros [HG Hu] i Hi. unfold search_dir. cbv zeta. fold a. rewrite HG. specialize (Hu i Hi). lra.
Qed.

(** gradient along the search direction is -G *)
Lemma grad_dot_dir n G g u : norm n g <> 0 -> dot n g (search_dir n G g u) = - G.
Proof.
  intros H. rewrite grad_alpha by exact H. unfold search_dir. cbv zeta.
  rewrite dot_sub_r, dot_scal_r, alpha_unit by exact H. field. exact H.
Qed.

Lemma u_dot_dir n G g u : norm n g <> 0 ->
  dot n u (search_dir n G g u) =
    G * / norm n g * dot n (alpha_of n g) u - (dot n u u - (dot n (alpha_of n g) u) ^ 2).
Proof.
  intros H. unfold search_dir. cbv zeta. rewrite dot_sub_r, dot_scal_r, (dot_comm n u (alpha_of n g)). ring.
Qed.

Lemma descent_slope n G g u : norm n g <> 0 ->
  (exists i, (i < n)%nat /\ search_dir n G g u i <> 0) ->
  dot n u (search_dir n G g u) - penalty n g u * Rabs G < 0.
Proof.
  intros H [i [Hi Hd]]. rewrite u_dot_dir by exact H.
  set (a := alpha_of n g). pose proof (alpha_unit n g H) as Ha. fold a in Ha.
  pose proof (unit_cs_abs n a u Ha) as C1. pose proof (norm_pos n g H) as Pg.
  pose proof (Rinv_0_lt_compat _ Pg) as Ig. pose proof (norm_nonneg n u) as Pu.
  assert (B : G * / norm n g * dot n a u <= Rabs G * / norm n g * norm n u).
  { apply Rle_trans with (Rabs (G * / norm n g * dot n a u)); [apply Rle_abs|].
    rewrite !Rabs_mult. rewrite (Rabs_right (/ norm n g)) by lra.
    apply Rmult_le_compat_l; [|exact C1]. apply Rmult_le_pos; [apply Rabs_pos|lra]. }
  unfold penalty.
  pose proof (unit_cs n a u Ha) as C2.
  destruct (Req_dec G 0) as [->|HG].
  - rewrite Rabs_R0. rewrite Rabs_R0 in B.
    assert (P : 0 < dot n u u - dot n a u ^ 2); [|lra].
    rewrite <- (perp_sq n a u Ha).
    destruct (Rle_lt_or_eq_dec _ _ (dot_self_nonneg n (fun i => u i - dot n a u * a i))) as [L|E]; [exact L|].
    exfalso. symmetry in E. pose proof (dot_self_eq0 n _ E i Hi) as E2. simpl in E2.
    apply Hd. unfold search_dir. cbv zeta. fold a. lra.
  - pose proof (Rabs_pos_lt G HG) as PG.
    assert (0 <= norm n u * / norm n g) by (apply Rmult_le_pos; lra).
    nra.
Qed.

Lemma is_derive_abs_flat (f : R -> R) : f 0 = 0 -> is_derive f 0 0 -> is_derive (fun t => Rabs (f t)) 0 0.
Proof.
  intros F0 [_ D]. split; [apply is_linear_scal_l|].
  intros y Hy. specialize (D y Hy). intros eps. specialize (D eps).
  revert D. apply filter_imp. intros x Hx.
  assert (Ey : y = 0). { symmetry. apply (is_filter_lim_locally_unique 0 y Hy). }
  subst y.
  change (Rabs ((Rabs (f x) - Rabs (f 0)) - (x - 0) * 0) <= eps * Hierarchy.norm (minus x 0)).
  change (Rabs ((f x - f 0) - (x - 0) * 0) <= eps * Hierarchy.norm (minus x 0)) in Hx.
  rewrite F0, Rabs_R0 in *. rewrite Rmult_0_r, !Rminus_0_r in *. rewrite Rabs_Rabsolu. exact Hx.
Qed.

(** directional derivative of the merit function along the search direction *)
Definition move (u d : vec) (t : R) : vec := fun i => u i + t * d i.

Lemma norm_pow2 n u : norm n u ^ 2 = dot n u u.
Proof. rewrite <- norm_sqr. ring. Qed.

Lemma quad_derive n u d : is_derive (fun t => dot n (move u d t) (move u d t)) 0 (2 * dot n u d).
Proof.
  assert (E : forall t, dot n (move u d t) (move u d t) = dot n u u + t * (2 * dot n u d) + t * t * dot n d d).
  { intros t. unfold move. unfold dot.
    rewrite (fsum_ext n _ (fun i => u i * u i + t * (2 * (u i * d i)) + t * t * (d i * d i))) by (intros; ring).
    rewrite !fsum_plus, !fsum_scal. ring. }
  apply (is_derive_ext (fun t => dot n u u + t * (2 * dot n u d) + t * t * dot n d d)); [intros; symmetry; apply E|].
  auto_derive; [exact I|]. ring.
Qed.

Lemma abs_derive (f : R -> R) l : is_derive f 0 l -> l = - f 0 -> is_derive (fun t => Rabs (f t)) 0 (- Rabs (f 0)).
Proof.
  intros D E. destruct (Rtotal_order (f 0) 0) as [L|[Z|L]].
  - rewrite Rabs_left by exact L.
    replace (- - f 0) with (sign (f 0) * l) by (rewrite sign_eq_m1 by exact L; lra).
    apply is_derive_Rabs; [exact D|lra].
  - rewrite Z, Rabs_R0, Ropp_0. apply is_derive_abs_flat; [exact Z|]. rewrite Z, Ropp_0 in E. rewrite E in D. exact D.
  - rewrite Rabs_right by lra.
    replace (- f 0) with (sign (f 0) * l) by (rewrite sign_eq_1 by exact L; lra).
    apply is_derive_Rabs; [exact D|lra].
Qed.

Lemma merit_derive n (Gf : vec -> R) g u :
  let G := Gf u in let d := search_dir n G g u in let c := penalty n g u in
  norm n g <> 0 -> (forall v, veq n v u -> Gf v = Gf u) ->
  is_derive (fun t => Gf (move u d t)) 0 (dot n g d) ->
  is_derive (fun t => merit_of n c (move u d t) (Gf (move u d t))) 0 (dot n u d - c * Rabs G).
Proof.
  intros G d c Hg He HD. unfold merit_of.
  assert (E0 : Gf (move u d 0) = G). { apply He. intros i _. unfold move. ring. }
  assert (D2 : is_derive (fun t => Rabs (Gf (move u d t))) 0 (- Rabs (Gf (move u d 0)))).
  { apply (abs_derive (fun t => Gf (move u d t)) (dot n g d) HD). rewrite E0. apply grad_dot_dir. exact Hg. }
  rewrite E0 in D2.
  apply (is_derive_ext (fun t => 1 / 2 * dot n (move u d t) (move u d t) + c * Rabs (Gf (move u d t)))).
  { intros t. rewrite norm_pow2. reflexivity. }
  replace (dot n u d - c * Rabs G) with (plus (1 / 2 * (2 * dot n u d)) (c * - Rabs G)) by (unfold plus; simpl; field).
  apply (is_derive_plus (fun t => 1 / 2 * dot n (move u d t) (move u d t))).
  - apply (is_derive_scal (fun t => dot n (move u d t) (move u d t))). apply quad_derive.
  - apply (is_derive_scal (fun t => Rabs (Gf (move u d t)))). exact D2.
Qed.

Lemma derive_neg_decreases (f : R -> R) l : is_derive f 0 l -> l < 0 ->
  exists eps, 0 < eps /\ forall t, 0 < t < eps -> f t < f 0.
Proof.
  intros D Hl. apply is_derive_Reals in D.
  destruct (D (- l / 2)) as [del Hd]; [lra|].
  exists del. split; [apply cond_pos|]. intros t [H1 H2].
  specialize (Hd t). rewrite Rplus_0_l in Hd.
  assert (A : Rabs ((f t - f 0) / t - l) < - l / 2) by (apply Hd; [lra|rewrite Rabs_right; lra]).
  apply Rabs_def2 in A. destruct A as [A _].
  assert (B : (f t - f 0) / t < 0) by lra.
  assert (C : (f t - f 0) = (f t - f 0) / t * t) by (field; lra). nra.
Qed.

(** ** The step-size search *)
Definition first_ok (merit : R) (M : list R) (j : nat) : Prop :=
  nth j M 0 <= merit /\ forall k, (k < j)%nat -> merit < nth k M 0.

Lemma step_while_acc T M merit : forall k j step mnew, mnew <= merit ->
  step_while k j merit T M step mnew = step.
Proof. intros [|k] j step mnew H; [reflexivity|]. simpl. rewrite (proj2 (Rltb_false merit mnew)) by exact H. reflexivity. Qed.

Lemma step_while_first T M merit j0 : first_ok merit M j0 -> forall k j step mnew,
  (j <= j0 < j + k)%nat -> merit < mnew ->
  step_while k j merit T M step mnew = nth j0 T 0.
Proof.
  intros [H1 H2]. induction k as [|k IH]; intros j step mnew Hj Hm; [lia|].
  simpl. rewrite (proj2 (Rltb_spec merit mnew)) by exact Hm.
  destruct (Nat.eq_dec j j0) as [->|Hne].
  - apply step_while_acc. exact H1.
  - apply IH; [lia|]. apply H2. lia.
Qed.

Lemma step_while_none T M merit : forall k j step mnew,
  (forall i, (i < j + k)%nat -> merit < nth i M 0) -> merit < mnew ->
  step_while k j merit T M step mnew = match k with O => step | S k' => nth (j + k') T 0 end.
Proof.
  induction k as [|k IH]; intros j step mnew H Hm; [reflexivity|].
  cbn [step_while]. rewrite (proj2 (Rltb_spec merit mnew)) by exact Hm.
  rewrite IH; [|intros; apply H; lia|apply H; lia].
  destruct k as [|k]; [f_equal; lia|f_equal; lia].
Qed.

Lemma trial_steps_nth j : (j < 6)%nat -> nth j trial_steps 0 = (1 / 2) ^ j.
Proof. intros H. unfold trial_steps, ntrial. apply nth_map_seq. exact H. Qed.

Definition step_choice (merit : R) (M : list R) : R :=
  step_while ntrial 0 merit trial_steps M (nth 0 trial_steps 0) (nth 0 M 0).

Lemma choice_first merit M j : (j < 6)%nat -> first_ok merit M j -> step_choice merit M = (1 / 2) ^ j.
Proof.
  intros Hj H. unfold step_choice. destruct (Rle_lt_dec (nth 0 M 0) merit) as [L|L].
  - rewrite step_while_acc by exact L. destruct j as [|j]; [apply trial_steps_nth; lia|].
    destruct H as [_ H]. specialize (H 0%nat (Nat.lt_0_succ _)). lra.
  - rewrite (step_while_first trial_steps M merit j H) by (unfold ntrial; lia || exact L).
    apply trial_steps_nth. exact Hj.
Qed.

Lemma choice_none merit M : (forall j, (j < 6)%nat -> merit < nth j M 0) -> step_choice merit M = (1 / 2) ^ 5.
Proof.
  intros H. unfold step_choice. rewrite step_while_none; [|intros i Hi; apply H; unfold ntrial in Hi; lia|apply H; lia].
  unfold ntrial. apply (trial_steps_nth 5). lia.
Qed.

Lemma first_dec merit M : forall k, (exists j, (j < k)%nat /\ first_ok merit M j) \/ (forall j, (j < k)%nat -> merit < nth j M 0).
Proof.
  induction k as [|k [IH|IH]]; [right; intros; lia| |].
  - left. destruct IH as [j [Hj H]]. exists j. split; [lia|exact H].
  - destruct (Rle_lt_dec (nth k M 0) merit) as [L|L].
    + left. exists k. split; [lia|]. split; [exact L|exact IH].
    + right. intros j Hj. destruct (Nat.eq_dec j k) as [->|]; [exact L|apply IH; lia].
Qed.

Lemma half_pow_bounds : forall j, (j < 6)%nat -> 1 / 32 <= (1 / 2) ^ j <= 1.
Proof. intros j H. do 6 (destruct j as [|j]; [simpl; lra|]). lia. Qed.

Lemma choice_bounds merit M : 1 / 32 <= step_choice merit M <= 1.
Proof.
  destruct (first_dec merit M 6) as [[j [Hj H]]|H].
  - rewrite (choice_first merit M j Hj H). apply half_pow_bounds. exact Hj.
  - rewrite (choice_none merit M H). apply half_pow_bounds. lia.
Qed.
