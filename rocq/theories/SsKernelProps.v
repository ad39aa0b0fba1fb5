(** C38, continued: the component step leaves the standard-normal density invariant,
    and every step of the conditional chain is reversible. *)
From Coquelicot Require Import Coquelicot.
From Verif Require Import Base Ext Gauss GaussProofs StochModel LimitState Transf Form Sorm Ss SsProofs SsKernelProofs.
From Coq Require Import ZArith Lra Lia FunctionalExtensionality.
Open Scope R_scope.

(** [f] with its value at [i] replaced *)
Definition put (f : nat -> R) (i : nat) (x : R) : nat -> R := fun k => if Nat.eqb k i then x else f k.

Lemma prop_val nrv sigma unif u pos d : (d < nrv)%nat -> 0 <= unif (pos + 2 * d + 1)%nat < 1 ->
  mmh_prop nrv sigma unif u pos d =
    let xi := propose sigma (u d) (unif (pos + 2 * d)%nat) in if Rltb (unif (pos + 2 * d + 1)%nat) (acc_prob (u d) xi) then xi else u d.
Proof.
  intros Hd Hr. unfold mmh_prop. cbv zeta. destruct (Nat.ltb_spec d nrv); [|lia]. cbn [andb].
  set (xi := propose _ _ _). destruct (accept_comp (u d) xi _) eqn:A.
  - apply accept_iff in A; [|exact Hr]. apply Rltb_spec in A. rewrite A. reflexivity.
  - destruct (Rltb _ (acc_prob (u d) xi)) eqn:B; [|reflexivity]. apply Rltb_spec in B. apply (accept_iff (u d) xi _ Hr) in B. congruence.
Qed.
Lemma acc_range u xi : 0 < acc_prob u xi <= 1.
Proof. unfold acc_prob. split; [apply Rmin_glb_lt; [lra|apply Rdiv_lt_0_compat; apply phi_pos]|apply Rmin_l]. Qed.

(** one coordinate of the proposal, as a function of the current value and of the two uniform numbers it uses *)
Definition component nrv sigma unif (u : vec) pos d (x r1 r2 : R) : R :=
  mmh_prop nrv sigma (put (put unif (pos + 2 * d) r1) (pos + 2 * d + 1) r2) (put u d x) pos d.

Lemma component_val nrv sigma unif u pos d x r1 r2 : (d < nrv)%nat -> 0 <= r2 < 1 ->
  component nrv sigma unif u pos d x r1 r2 = let xi := x + sigma * (2 * r1 - 1) in if Rltb r2 (acc_prob x xi) then xi else x.
Proof.
  intros Hd Hr. unfold component. rewrite prop_val; [|exact Hd|unfold put; rewrite Nat.eqb_refl; exact Hr].
  unfold put. rewrite !Nat.eqb_refl. replace (Nat.eqb (pos + 2 * d) (pos + 2 * d + 1)) with false by (symmetry; apply Nat.eqb_neq; lia).
  unfold propose. replace (-1 + 2 * r1) with (2 * r1 - 1) by ring. reflexivity.
Qed.

Section Inv.
  Variables (nrv : nat) (sigma : R) (unif : nat -> R) (u : vec) (pos d : nat) (h : R -> R).
  Hypothesis Hd : (d < nrv)%nat.
  Hypothesis Hc : forall x, continuous h x.
  Let step := component nrv sigma unif u pos d.
  Let xi x r := x + sigma * (2 * r - 1).
  Let mean x r := acc_prob x (xi x r) * h (xi x r) + (1 - acc_prob x (xi x r)) * h x.

  Lemma inner x r1 : is_RInt (fun r2 => h (step x r1 r2)) 0 1 (mean x r1).
  Proof.
    set (a := acc_prob x (xi x r1)). assert (Ra : 0 < a <= 1) by apply acc_range.
    assert (I1 : is_RInt (fun r2 => h (step x r1 r2)) 0 a (a * h (xi x r1))).
    { apply (is_RInt_ext (fun _ => h (xi x r1))).
      - intros r Hr. rewrite Rmin_left, Rmax_right in Hr by lra. unfold step. rewrite component_val by (try exact Hd; lra). cbv zeta. fold (xi x r1) a.
        replace (Rltb r a) with true by (symmetry; apply Rltb_spec; lra). reflexivity.
      - pose proof (is_RInt_const 0 a (h (xi x r1))) as C. unfold scal in C; cbn in C. unfold mult in C; cbn in C. replace (a - 0) with a in C by ring. exact C. }
    assert (I2 : is_RInt (fun r2 => h (step x r1 r2)) a 1 ((1 - a) * h x)).
    { apply (is_RInt_ext (fun _ => h x)).
      - intros r Hr. rewrite Rmin_left, Rmax_right in Hr by lra. unfold step. rewrite component_val by (try exact Hd; lra). cbv zeta. fold (xi x r1) a.
        replace (Rltb r a) with false by (symmetry; apply Rltb_false; lra). reflexivity.
      - pose proof (is_RInt_const a 1 (h x)) as C. exact C. }
    exact (is_RInt_Chasles _ 0 a 1 _ _ I1 I2).
  Qed.
  Lemma inner_ex x r1 : ex_RInt (fun r2 => h (step x r1 r2)) 0 1.
  Proof. eexists. apply inner. Qed.
  Lemma mean_kern x r : phi x * mean x r = phi x * h x + kern h x (xi x r).
  Proof.
    unfold mean, kern. assert (E : phi x * acc_prob x (xi x r) = Rmin (phi x) (phi (xi x r))).
    { unfold acc_prob. pose proof (phi_pos x) as P. rewrite Rmult_min_distr_l by lra. f_equal; field; lra. }
    rewrite <- E. ring.
  Qed.

  Lemma xi_cont x r : continuous (fun r => kern h x (xi x r)) r.
  Proof. exact (cont2_2 _ x (kern_cont2 h sigma Hc) r). Qed.
  Lemma middle x : is_RInt (fun r1 => RInt (fun r2 => h (step x r1 r2)) 0 1) 0 1 (h x + RInt (fun r => kern h x (xi x r)) 0 1 / phi x).
  Proof.
    pose proof (phi_pos x) as P.
    apply (is_RInt_ext (fun r => plus (h x) (scal (/ phi x) (kern h x (xi x r))))).
    - intros r _. rewrite (is_RInt_unique _ _ _ _ (inner x r)). unfold plus, scal; cbn. unfold mult; cbn.
      apply (Rmult_eq_reg_l (phi x)); [|lra]. rewrite mean_kern. field. lra.
    - assert (X : is_RInt (fun r => kern h x (xi x r)) 0 1 (RInt (fun r => kern h x (xi x r)) 0 1)).
      { apply (RInt_correct (V := R_CompleteNormedModule)), (ex_RInt_continuous (V := R_CompleteNormedModule)). intros z _. apply xi_cont. }
      pose proof (is_RInt_plus _ _ 0 1 _ _ (is_RInt_const 0 1 (h x)) (is_RInt_scal _ 0 1 (/ phi x) _ X)) as S.
      replace (h x + _) with (plus (scal (1 - 0) (h x)) (scal (/ phi x) (RInt (fun r => kern h x (xi x r)) 0 1))); [exact S|].
      unfold plus, scal; cbn. unfold mult; cbn. unfold Rdiv. ring.
  Qed.
  Lemma outer A B : 0 < sigma -> 0 <= A -> A + sigma <= B -> (forall x, A <= Rabs x -> h x = 0) ->
    is_RInt (fun x => phi x * RInt (fun r1 => RInt (fun r2 => h (step x r1 r2)) 0 1) 0 1) (- B) B (RInt (fun x => phi x * h x) (- B) B).
  Proof.
    intros Hs HA HB Hz.
    apply (is_RInt_ext (fun x => plus (phi x * h x) (RInt (fun r => kern h x (xi x r)) 0 1))).
    - intros x _. rewrite (is_RInt_unique _ _ _ _ (middle x)). unfold plus; cbn. pose proof (phi_pos x). field. lra.
    - assert (I1 : is_RInt (fun x => phi x * h x) (- B) B (RInt (fun x => phi x * h x) (- B) B)).
      { apply (RInt_correct (V := R_CompleteNormedModule)), (ex_RInt_continuous (V := R_CompleteNormedModule)). intros z _. apply (continuous_mult (K := R_AbsRing)); [apply phi_cont|apply Hc]. }
      assert (I2 : is_RInt (fun x => RInt (fun r => kern h x (xi x r)) 0 1) (- B) B 0).
      { assert (X : is_RInt (fun x => RInt (fun r => kern h x (x + sigma * (2 * r - 1))) 0 1) (- B) B (RInt (fun x => RInt (fun r => kern h x (x + sigma * (2 * r - 1))) 0 1) (- B) B)).
        { apply (RInt_correct (V := R_CompleteNormedModule)), (ex_RInt_continuous (V := R_CompleteNormedModule)). intros z _.
          exact (cont_RInt_param _ 0 1 ltac:(lra) (kern_cont2 h sigma Hc) z). }
        rewrite (kern_total h sigma A B Hs HA HB Hc Hz) in X. exact X. }
      pose proof (is_RInt_plus _ _ _ _ _ _ I1 I2) as S.
      replace (RInt (fun x => phi x * h x) (- B) B) with (plus (RInt (fun x => phi x * h x) (- B) B) 0) by (unfold plus; cbn; ring). exact S.
  Qed.
End Inv.

(** C38: the standard-normal density is invariant under the component step.  Whatever
    the other coordinates and draws are: start coordinate d from the standard normal,
    draw the proposal and the acceptance number uniformly on (0,1), and every continuous
    test function with bounded support has the same mean after the step as before. *)
Theorem C38_component_invariance : forall nrv sigma unif (u : vec) pos d (h : R -> R) A B,
  (d < nrv)%nat -> 0 < sigma -> (forall x, continuous h x) -> 0 <= A -> (forall x, A <= Rabs x -> h x = 0) -> A + sigma <= B ->
  let step := fun x r1 r2 => mmh_prop nrv sigma (put (put unif (pos + 2 * d) r1) (pos + 2 * d + 1) r2) (put u d x) pos d in
  let after := fun x => RInt (fun r1 => RInt (fun r2 => h (step x r1 r2)) 0 1) 0 1 in
  (* the integrals exist *)
  (forall x r1, ex_RInt (fun r2 => h (step x r1 r2)) 0 1) /\
  (forall x, ex_RInt (fun r1 => RInt (fun r2 => h (step x r1 r2)) 0 1) 0 1) /\
  (* and the mean is the same *)
  is_RInt (fun x => phi x * after x) (- B) B (RInt (fun x => phi x * h x) (- B) B) /\
  ex_RInt (fun x => phi x * h x) (- B) B.
Proof.
  intros nrv sigma unif u pos d h A B Hd Hs Hc HA Hz HB step after.
  refine (conj _ (conj _ (conj _ _))).
  - intros x r1. exact (inner_ex nrv sigma unif u pos d h Hd x r1).
  - intros x. eexists. exact (middle nrv sigma unif u pos d h Hd Hc x).
  - exact (outer nrv sigma unif u pos d h Hd Hc A B Hs HA HB Hz).
  - apply (ex_RInt_continuous (V := R_CompleteNormedModule)). intros z _. apply (continuous_mult (K := R_AbsRing)); [apply phi_cont|apply Hc].
Qed.
Print Assumptions C38_component_invariance.

(** C38: every step of the conditional chain can be undone.  If the chain moves from u
    to u' (u inside the conditional region, uniform numbers in (0,1)) there are uniform
    numbers with which it moves from u' back to u; coordinate by coordinate they are the
    old ones, or the coordinate moved by sigma (2 r - 1) and the proposal number is the
    mirrored 1 - r; and the product of the acceptance number with the density of the
    current value is unchanged.  In the coordinates (value, proposal number, acceptance
    number times density) the way back is the way forth, an involution with unit Jacobian. *)
Theorem C38_reversible_step : forall nrv sigma unif Gof (gf : vec -> R) thr (u u' : vec) g' pos calls,
  (forall us, Gof us = Ok (map gf us)) -> gf u <= thr ->
  (forall d, (d < nrv)%nat -> 0 < unif (pos + 2 * d)%nat < 1 /\ 0 < unif (pos + 2 * d + 1)%nat < 1) ->
  mmh_chain nrv sigma unif Gof 1 thr u (gf u) pos calls [] = LvDone [(u', g')] (pos + 2 * nrv) (S calls) ->
  g' = gf u' /\ gf u' <= thr /\
  exists unif' : nat -> R,
    (forall d, (d < nrv)%nat -> 0 < unif' (pos + 2 * d)%nat < 1 /\ 0 < unif' (pos + 2 * d + 1)%nat < 1) /\
    mmh_chain nrv sigma unif' Gof 1 thr u' g' pos calls [] = LvDone [(u, gf u)] (pos + 2 * nrv) (S calls) /\
    forall d,
      (u' d = u d /\ unif' (pos + 2 * d)%nat = unif (pos + 2 * d)%nat \/
       (d < nrv)%nat /\ u' d = u d + sigma * (2 * unif (pos + 2 * d)%nat - 1) /\ unif' (pos + 2 * d)%nat = 1 - unif (pos + 2 * d)%nat) /\
      unif' (pos + 2 * d + 1)%nat * phi (u' d) = unif (pos + 2 * d + 1)%nat * phi (u d).
Proof.
  intros nrv sigma unif Gof gf thr u u' g' pos calls HG Hu HU E. cbn [mmh_chain] in E. rewrite HG in E. cbn [map nth] in E.
  set (up := mmh_prop nrv sigma unif u pos) in *.
  destruct (Rleb (gf up) thr) eqn:D; cbn [fst snd app] in E; injection E as E1 E2; subst u' g'.
  2:{ refine (conj eq_refl (conj Hu _)). exists unif. refine (conj HU (conj _ _)).
      - cbn [mmh_chain]. rewrite HG. cbn [map nth]. fold up. rewrite D. reflexivity.
      - intros d. split; [left; split; reflexivity|reflexivity]. }
  pose proof D as D'. apply Rleb_spec in D'. refine (conj eq_refl (conj D' _)).
  set (acc := fun d => andb (Nat.ltb d nrv) (accept_comp (u d) (propose sigma (u d) (unif (pos + 2 * d)%nat)) (unif (pos + 2 * d + 1)%nat))).
  assert (Eup : forall d, up d = if acc d then propose sigma (u d) (unif (pos + 2 * d)%nat) else u d) by reflexivity.
  set (unif' := fun k => let d := Nat.div2 (k - pos) in
     if andb (Nat.leb pos k) (acc d) then (if Nat.even (k - pos) then 1 - unif k else unif k * phi (u d) / phi (up d)) else unif k).
  assert (U1 : forall d, unif' (pos + 2 * d)%nat = if acc d then 1 - unif (pos + 2 * d)%nat else unif (pos + 2 * d)%nat).
  { intros d. unfold unif'. cbv zeta. replace (pos + 2 * d - pos)%nat with (2 * d)%nat by lia. rewrite Nat.div2_double, Nat.even_mul. cbn [Nat.even orb].
    replace (Nat.leb pos (pos + 2 * d)) with true by (symmetry; apply Nat.leb_le; lia). cbn [andb]. reflexivity. }
  assert (U2 : forall d, unif' (pos + 2 * d + 1)%nat = if acc d then unif (pos + 2 * d + 1)%nat * phi (u d) / phi (up d) else unif (pos + 2 * d + 1)%nat).
  { intros d. unfold unif'. cbv zeta. replace (pos + 2 * d + 1 - pos)%nat with (S (2 * d))%nat by lia. rewrite Nat.div2_succ_double, Nat.even_succ, <- Nat.negb_even, Nat.even_mul. cbn [Nat.even orb negb].
    replace (Nat.leb pos (pos + 2 * d + 1)) with true by (symmetry; apply Nat.leb_le; lia). cbn [andb]. reflexivity. }
  assert (Hacc : forall d, acc d = true -> (d < nrv)%nat /\ unif (pos + 2 * d + 1)%nat < 1 /\ unif (pos + 2 * d + 1)%nat * phi (u d) < phi (up d) /\ 0 < unif (pos + 2 * d + 1)%nat).
  { intros d A. pose proof (Eup d) as Ed. rewrite A in Ed. rewrite Ed. apply andb_true_iff in A. destruct A as (A1 & A2). apply Nat.ltb_lt in A1. destruct (HU d A1) as (_ & B1 & B2).
    apply accept_iff in A2; [|lra]. unfold acc_prob in A2. refine (conj A1 (conj B2 (conj _ B1))).
    pose proof (Rlt_le_trans _ _ _ A2 (Rmin_r _ _)) as A3. pose proof (phi_pos (u d)) as P. apply (Rmult_lt_compat_r (phi (u d))) in A3; [|exact P].
    replace (phi (propose sigma (u d) (unif (pos + 2 * d)%nat)) / phi (u d) * phi (u d)) with (phi (propose sigma (u d) (unif (pos + 2 * d)%nat))) in A3 by (field; lra). exact A3. }
  assert (HU' : forall d, (d < nrv)%nat -> 0 < unif' (pos + 2 * d)%nat < 1 /\ 0 < unif' (pos + 2 * d + 1)%nat < 1).
  { intros d Hd. rewrite U1, U2. destruct (HU d Hd) as (B1 & B2). destruct (acc d) eqn:A; [|tauto]. destruct (Hacc d A) as (_ & C1 & C2 & C3).
    pose proof (phi_pos (u d)) as P. pose proof (phi_pos (up d)) as Q. split; [lra|]. split; [apply Rdiv_lt_0_compat; nra|]. apply (Rmult_lt_reg_r (phi (up d))); [exact Q|].
    replace (unif (pos + 2 * d + 1)%nat * phi (u d) / phi (up d) * phi (up d)) with (unif (pos + 2 * d + 1)%nat * phi (u d)) by (field; lra). lra. }
  assert (Back : mmh_prop nrv sigma unif' up pos = u).
  { apply functional_extensionality. intros d. destruct (Nat.ltb_spec d nrv) as [Hd|Hd].
    - destruct (HU' d Hd) as (B1 & B2). rewrite prop_val by (try exact Hd; lra). cbv zeta. rewrite U1, U2. destruct (acc d) eqn:A.
      + destruct (Hacc d A) as (_ & C1 & C2 & C3). pose proof (Eup d) as Ed. rewrite A in Ed.
        replace (propose sigma (up d) (1 - unif (pos + 2 * d)%nat)) with (u d) by (rewrite Ed; unfold propose; ring).
        pose proof (phi_pos (u d)) as P. pose proof (phi_pos (up d)) as Q.
        replace (Rltb _ (acc_prob (up d) (u d))) with true; [reflexivity|]. symmetry. apply Rltb_spec. unfold acc_prob. rewrite U2, A in B2. apply Rmin_glb_lt; [lra|].
        unfold Rdiv. apply Rmult_lt_compat_r; [apply Rinv_0_lt_compat; exact Q|]. nra.
      + pose proof (Eup d) as Ed. rewrite A in Ed. rewrite Ed.
        destruct (Rltb _ (acc_prob (u d) _)) eqn:F; [|reflexivity]. apply Rltb_spec in F. exfalso.
        assert (R2 : 0 <= unif (pos + 2 * d + 1)%nat < 1) by (destruct (HU d Hd); lra). apply (accept_iff _ _ _ R2) in F. unfold acc in A. rewrite F in A. destruct (Nat.ltb_spec d nrv); [discriminate|lia].
    - unfold mmh_prop. cbv zeta. destruct (Nat.ltb_spec d nrv); [lia|]. cbn [andb]. rewrite Eup. unfold acc. destruct (Nat.ltb_spec d nrv); [lia|]. reflexivity. }
  exists unif'. refine (conj HU' (conj _ _)).
  - cbn [mmh_chain]. rewrite HG. cbn [map nth]. rewrite Back. replace (Rleb (gf u) thr) with true by (symmetry; apply Rleb_spec; exact Hu). reflexivity.
  - intros d. rewrite U1, U2. pose proof (phi_pos (up d)) as Q. pose proof (Eup d) as Ed. destruct (acc d) eqn:A.
    + destruct (Hacc d A) as (C0 & _). split; [right|field; lra]. refine (conj C0 (conj _ eq_refl)). rewrite Ed. unfold propose. ring.
    + rewrite Ed. split; [left; split; reflexivity|reflexivity].
Qed.
Print Assumptions C38_reversible_step.

(** the hypotheses are met: a tent function, and a step that really moves *)
Example C38_invariance_example :
  let h := fun x => Rmax 0 (1 - Rabs x) in
  (forall x, continuous h x) /\ (forall x, 1 <= Rabs x -> h x = 0) /\ h 0 = 1.
Proof.
  cbv zeta. refine (conj _ (conj _ _)).
  - intros x. apply (continuous_ext (fun x => / 2 * ((1 - Rabs x) + Rabs (1 - Rabs x)))).
    + intros y. assert (K : forall z, / 2 * (z + Rabs z) = Rmax 0 z) by (intros z; unfold Rmax; destruct (Rle_dec 0 z); [rewrite Rabs_pos_eq by lra|rewrite Rabs_left by lra]; lra). apply K.
    + assert (C : forall y, continuous Rabs y) by (intros y; apply continuity_pt_filterlim, Rcontinuity_abs).
      assert (C1 : continuous (fun y => 1 - Rabs y) x) by (apply (continuous_minus (fun _ : R => 1) Rabs); [apply continuous_const|apply C]).
      apply (continuous_mult (K := R_AbsRing) (fun _ => / 2)); [apply continuous_const|].
      apply (continuous_plus (fun y => 1 - Rabs y)); [exact C1|]. apply (continuous_comp (fun y => 1 - Rabs y) Rabs); [exact C1|apply C].
  - intros x Hx. apply Rmax_left. lra.
  - rewrite Rabs_R0, Rmax_right; lra.
Qed.

Example C38_reversible_example :
  let unif := fun k : nat => match k with O => 3 / 4 | _ => 1 / 2 end in
  let gf := fun u : vec => u O in let Gof := fun us => Ok (map gf us) in let u := fun _ : nat => 0 in
  (forall us, Gof us = Ok (map gf us)) /\ gf u <= 1 /\
  (forall d, (d < 1)%nat -> 0 < unif (0 + 2 * d)%nat < 1 /\ 0 < unif (0 + 2 * d + 1)%nat < 1) /\
  exists u', mmh_chain 1 1 unif Gof 1 1 u (gf u) 0 0 [] = LvDone [(u', 1 / 2)] (0 + 2 * 1) 1 /\ u' O = 1 / 2.
Proof.
  cbv zeta. refine (conj (fun _ => eq_refl) (conj _ (conj _ _))).
  - lra.
  - intros d Hd. replace d with 0%nat by lia. cbn. lra.
  - set (unif := fun k : nat => match k with O => 3 / 4 | _ => 1 / 2 end). set (u := fun _ : nat => 0).
    assert (V : mmh_prop 1 1 unif u 0 O = 1 / 2).
    { rewrite prop_val by (cbn; try lia; lra). cbv zeta. change (unif (0 + 2 * 0)%nat) with (3 / 4). change (unif (0 + 2 * 0 + 1)%nat) with (1 / 2). change (u O) with 0.
      replace (propose 1 0 (3 / 4)) with (1 / 2) by (unfold propose; field).
      replace (Rltb (1 / 2) (acc_prob 0 (1 / 2))) with true; [reflexivity|]. symmetry. apply Rltb_spec. unfold acc_prob. apply Rmin_glb_lt; [lra|]. rewrite phi_ratio.
      assert (N : - (1 / 2) * ((1 / 2) ^ 2 - 0 ^ 2) <> 0) by lra.
      pose proof (exp_ineq1 _ N) as X. lra. }
    exists (mmh_prop 1 1 unif u 0). split; [|exact V]. cbn [mmh_chain map nth]. rewrite V.
    replace (Rleb (1 / 2) 1) with true by (symmetry; apply Rleb_spec; lra). cbn [fst snd app mmh_chain]. reflexivity.
Qed.
