From Coquelicot Require Import Coquelicot.
From Verif Require Import Base Gauss GaussProofs Dist DistSpec DistProofs DistMomProofs DistCompProofs MomSpec MomProofs MomFamProofs MomGamProofs.
From Coq Require Import Lra Lia.
Open Scope R_scope.

(** The quantile-side integrand of a zero-inflated variable. *)
Definition zi_int (H : R -> R) (p0 P : R) (x : R) : R :=
  if Rlt_dec x ((1 - P) * p0) then H (x / (1 - P))
  else if Rlt_dec x ((1 - P) * p0 + P) then 0 else H ((x - P) / (1 - P)).

Lemma is_RInt_lin (f : R -> R) u v a b l : is_RInt f (u * a + v) (u * b + v) l -> u <> 0 -> is_RInt (fun y => f (u * y + v)) a b (/ u * l).
Proof.
  intros H Hu. apply is_RInt_comp_lin in H. apply (is_RInt_scal _ _ _ (/ u)) in H.
  refine (is_RInt_ext _ _ _ _ _ _ H). intros x _. unfold scal; cbn; unfold mult; cbn. field. exact Hu.
Qed.
(** proper pieces: below, at and above the atom *)
Lemma zi_low H p0 P a I1 : 0 <= P < 1 -> a <= (1 - P) * p0 -> is_RInt H (a / (1 - P)) p0 I1 -> is_RInt (zi_int H p0 P) a ((1 - P) * p0) ((1 - P) * I1).
Proof.
  intros HP Ha HI.
  assert (K : is_RInt (fun y => H (/ (1 - P) * y + 0)) a ((1 - P) * p0) (/ / (1 - P) * I1)).
  { apply is_RInt_lin; [|apply Rinv_neq_0_compat; lra].
    replace (/ (1 - P) * a + 0) with (a / (1 - P)) by (field; lra). now replace (/ (1 - P) * ((1 - P) * p0) + 0) with p0 by (field; lra). }
  rewrite Rinv_inv in K. refine (is_RInt_ext _ _ _ _ _ _ K).
  rewrite Rmin_left, Rmax_right by lra. intros x Hx. unfold zi_int. destruct (Rlt_dec x _); [|lra]. f_equal. field. lra.
Qed.
Lemma zi_mid H p0 P a b : 0 <= P < 1 -> (1 - P) * p0 <= a -> a <= b -> b <= (1 - P) * p0 + P -> is_RInt (zi_int H p0 P) a b 0.
Proof.
  intros HP H1 H2 H3. replace 0 with (scal (b - a) 0) by (unfold scal; cbn; unfold mult; cbn; ring).
  refine (is_RInt_ext _ _ _ _ _ _ (is_RInt_const a b 0)). rewrite Rmin_left, Rmax_right by lra. intros x Hx.
  unfold zi_int. destruct (Rlt_dec x _); [lra|]. destruct (Rlt_dec x _); [reflexivity|lra].
Qed.
Lemma zi_high H p0 P b I2 : 0 <= P < 1 -> (1 - P) * p0 + P <= b -> is_RInt H p0 ((b - P) / (1 - P)) I2 -> is_RInt (zi_int H p0 P) ((1 - P) * p0 + P) b ((1 - P) * I2).
Proof.
  intros HP Hb HI.
  assert (K : is_RInt (fun y => H (/ (1 - P) * y + - P / (1 - P))) ((1 - P) * p0 + P) b (/ / (1 - P) * I2)).
  { apply is_RInt_lin; [|apply Rinv_neq_0_compat; lra].
    replace (/ (1 - P) * b + - P / (1 - P)) with ((b - P) / (1 - P)) by (field; lra). now replace (/ (1 - P) * ((1 - P) * p0 + P) + - P / (1 - P)) with p0 by (field; lra). }
  rewrite Rinv_inv in K. refine (is_RInt_ext _ _ _ _ _ _ K).
  rewrite Rmin_left, Rmax_right by lra. intros x Hx. unfold zi_int. destruct (Rlt_dec x _); [lra|]. destruct (Rlt_dec x _); [lra|]. f_equal. field. lra.
Qed.
Lemma div_right q : 0 < q -> filterlim (fun a => a / q) (at_right 0) (at_right 0).
Proof.
  intros Hq T [e He]. assert (D : 0 < e * q) by (apply Rmult_lt_0_compat; [apply cond_pos|lra]).
  refine (filter_imp (F := at_right 0) _ (fun a => T (a / q)) _ (filter_and _ _ at_right_01 (at_right_lt _ D))). intros a [Ha Hl].
  assert (0 < a / q) by (apply Rdiv_lt_0_compat; lra). apply He; [|assumption].
  assert (a / q < e) by (apply (Rmult_lt_reg_r q); [lra|]; replace (a / q * q) with a by (field; lra); lra).
  apply Rabs_lt_between'. lra.
Qed.
Lemma div_left P : 0 <= P < 1 -> filterlim (fun b => (b - P) / (1 - P)) (at_left 1) (at_left 1).
Proof.
  intros HP T [e He]. assert (D : 1 - e * (1 - P) < 1) by (assert (0 < e * (1 - P)) by (apply Rmult_lt_0_compat; [apply cond_pos|lra]); lra).
  refine (filter_imp (F := at_left 1) _ (fun b => T ((b - P) / (1 - P))) _ (filter_and _ _ at_left_01 (at_left_gt _ D))). intros b [Hb Hl].
  assert (E : (b - P) / (1 - P) = 1 - (1 - b) / (1 - P)) by (field; lra).
  assert (0 < (1 - b) / (1 - P)) by (apply Rdiv_lt_0_compat; lra).
  assert ((1 - b) / (1 - P) < e) by (apply (Rmult_lt_reg_r (1 - P)); [lra|]; replace ((1 - b) / (1 - P) * (1 - P)) with (1 - b) by (field; lra); lra).
  apply He; [|lra]. apply Rabs_lt_between'. lra.
Qed.

(** The atom strictly inside. *)
Lemma zi_inside H p0 P M : 0 <= P < 1 -> 0 < p0 < 1 -> expect01 H M -> expect01 (zi_int H p0 P) ((1 - P) * M).
Proof.
  intros HP H0 HM T HT.
  assert (HT' : locally M (fun v => T ((1 - P) * v))) by (apply (continuous_scal_r (V := R_NormedModule) (1 - P) (fun v => v) M (continuous_id M)), HT).
  specialize (HM _ HT'). destruct HM as [Q1 Q2 K1 K2 K].
  assert (Dl : 0 < (1 - P) * p0) by nra. assert (Dh : (1 - P) * p0 + P < 1) by nra.
  apply (Filter_prod _ _ _ (fun a => Q1 (a / (1 - P)) /\ 0 < a < (1 - P) * p0) (fun b => Q2 ((b - P) / (1 - P)) /\ (1 - P) * p0 + P < b < 1)).
  - apply filter_and; [apply (div_right (1 - P)); [lra|exact K1]|].
    refine (filter_imp (F := at_right 0) _ _ _ (filter_and _ _ at_right_01 (at_right_lt _ Dl))). intros x Hx; lra.
  - apply filter_and; [apply (div_left P); [lra|exact K2]|].
    refine (filter_imp (F := at_left 1) _ _ _ (filter_and _ _ at_left_01 (at_left_gt _ Dh))). intros x Hx; lra.
  - intros a b [Qa Ha] [Qb Hb]. destruct (K _ _ Qa Qb) as (v & Hv & Tv). cbn [fst snd] in Hv.
    exists ((1 - P) * v). split; [|exact Tv]. cbn [fst snd].
    assert (La : a / (1 - P) <= p0) by (apply (Rmult_le_reg_r (1 - P)); [lra|]; replace (a / (1 - P) * (1 - P)) with a by (field; lra); lra).
    assert (Lb : p0 <= (b - P) / (1 - P)) by (apply (Rmult_le_reg_r (1 - P)); [lra|]; replace ((b - P) / (1 - P) * (1 - P)) with (b - P) by (field; lra); lra).
    assert (E1 : ex_RInt H (a / (1 - P)) p0) by (apply (ex_RInt_Chasles_1 (V := R_CompleteNormedModule) H _ p0 ((b - P) / (1 - P))); [lra|eexists; exact Hv]).
    assert (E2 : ex_RInt H p0 ((b - P) / (1 - P))) by (apply (ex_RInt_Chasles_2 (V := R_CompleteNormedModule) H (a / (1 - P)) p0 _); [lra|eexists; exact Hv]).
    destruct E1 as [I1 E1]. destruct E2 as [I2 E2].
    assert (Ev : v = I1 + I2).
    { rewrite <- (is_RInt_unique _ _ _ _ Hv). apply is_RInt_unique. apply (is_RInt_Chasles H _ p0 _ I1 I2); assumption. }
    rewrite Ev. replace ((1 - P) * (I1 + I2)) with (((1 - P) * I1 + 0) + (1 - P) * I2) by ring.
    apply (is_RInt_Chasles (zi_int H p0 P) a ((1 - P) * p0 + P) b (((1 - P) * I1 + 0)) ((1 - P) * I2)).
    + apply (is_RInt_Chasles (zi_int H p0 P) a ((1 - P) * p0) ((1 - P) * p0 + P) ((1 - P) * I1) 0).
      * apply zi_low; [lra|lra|exact E1].
      * apply zi_mid; lra.
    + apply zi_high; [lra|lra|exact E2].
Qed.

(** A positive, non-decreasing, continuous integrand can be integrated from 0. *)
Lemma right_limit (H : R -> R) : (forall p, 0 < p < 1 -> 0 <= H p) -> (forall p q, 0 < p -> p <= q -> q < 1 -> H p <= H q) ->
  exists L, filterlim H (at_right 0) (locally L).
Proof.
  intros Hp Hm.
  set (S := fun v => exists p, 0 < p < 1 /\ v = H p).
  destruct (Glb_Rbar_correct S) as [Hlb Hglb].
  assert (HS : S (H (1 / 2))) by (exists (1 / 2); split; lra).
  assert (HB : Rbar_le 0 (Glb_Rbar S)) by (apply Hglb; intros v (p & P1 & ->); apply Hp, P1).
  generalize (Hlb _ HS). destruct (Glb_Rbar S) as [L| |] eqn:EL; [|intros []|intros; contradiction]. intros _. exists L.
  intros T [e He].
  assert (Hex : exists p, 0 < p < 1 /\ H p < L + e).
  { apply Classical_Prop.NNPP. intros N.
    assert (K : Rbar_le (L + e) L). { apply Hglb. intros v (p & P1 & ->). apply Rnot_lt_le. intros Hc. apply N. exists p. auto. }
    cbn in K. generalize (cond_pos e). lra. }
  destruct Hex as (p1 & P1 & Hl).
  refine (filter_imp (F := at_right 0) _ (fun a => T (H a)) _ (filter_and _ _ at_right_01 (at_right_lt p1 (proj1 P1)))). intros a [Ha Hl'].
  apply He. assert (L <= H a) by (apply (Hlb (H a)); exists a; auto). assert (H a <= H p1) by (apply Hm; lra).
  apply Rabs_lt_between'. generalize (cond_pos e). intros. lra.
Qed.
Lemma int_from_0 (H : R -> R) b : 0 < b < 1 -> (forall p, 0 < p < 1 -> continuous H p) -> (exists L, filterlim H (at_right 0) (locally L)) ->
  exists I0, is_RInt H 0 b I0 /\ filterlim (fun a => RInt H a b) (at_right 0) (locally I0).
Proof.
  intros Hb Hc [L HL].
  set (G := fun x => if Rlt_dec 0 x then H x else L).
  assert (GC : forall x, x <= b -> continuous G x).
  { intros x Hx. destruct (Rlt_dec 0 x) as [Px|Nx].
    - apply (cont_ext_pos H G x); [exact Px| |apply Hc; lra]. intros q Hq. unfold G. destruct (Rlt_dec 0 q); [reflexivity|lra].
    - unfold continuous. assert (EG : G x = L) by (unfold G; destruct (Rlt_dec 0 x); [lra|reflexivity]). rewrite EG.
      intros T HT. specialize (HL T HT). destruct HL as [e He]. unfold filtermap.
      destruct (Req_dec x 0) as [->|Hx0].
      + exists e. intros y By. unfold G. destruct (Rlt_dec 0 y) as [Hy|Hy]; [apply He; [exact By|exact Hy]|]. apply locally_singleton, HT.
      + assert (D : 0 < - x) by lra. exists (mkposreal _ D). intros y By. apply Rabs_lt_between' in By. cbn [pos] in By.
        unfold G. destruct (Rlt_dec 0 y); [lra|]. apply locally_singleton, HT. }
  assert (GI : forall a c, a <= b -> c <= b -> ex_RInt G a c).
  { intros a c Ha Hc'. apply (ex_RInt_continuous (V := R_CompleteNormedModule)). intros z [_ Hz]. apply GC. eapply Rle_trans; [exact Hz|]. now apply Rmax_lub. }
  assert (EH : forall a, 0 <= a <= b -> is_RInt H a b (RInt G a b)).
  { intros a Ha. refine (is_RInt_ext G H _ _ _ _ (RInt_correct (V := R_CompleteNormedModule) G a b (GI a b ltac:(lra) ltac:(lra)))).
    rewrite Rmin_left, Rmax_right by lra. intros x Hx. unfold G. destruct (Rlt_dec 0 x); [reflexivity|lra]. }
  exists (RInt G 0 b). split; [apply EH; lra|].
  assert (D : continuous (fun a => RInt G a b) 0).
  { apply (ex_derive_continuous (V := R_NormedModule)). eexists. apply (is_derive_RInt' (V := R_CompleteNormedModule) G (fun a => RInt G a b) 0 b).
    - exists (mkposreal b (proj1 Hb)). intros y By. apply Rabs_lt_between' in By. cbn [pos] in By. apply (RInt_correct (V := R_CompleteNormedModule)). apply GI; lra.
    - apply GC. lra. }
  apply lim_right in D.
  intros T HT. specialize (D T HT). unfold filtermap in *.
  refine (filter_imp (F := at_right 0) _ _ _ (filter_and _ _ D (filter_and _ _ at_right_01 (at_right_lt b (proj1 Hb))))).
  intros a (Da & A1 & A2). cbn beta in *. rewrite (is_RInt_unique _ _ _ _ (EH a ltac:(lra))). exact Da.
Qed.
Lemma zi_at_0 H P M : 0 <= P < 1 -> (forall p, 0 < p < 1 -> continuous H p) -> (exists L, filterlim H (at_right 0) (locally L)) ->
  expect01 H M -> expect01 (zi_int H 0 P) ((1 - P) * M).
Proof.
  intros HP Hc HL HM.
  destruct (Req_dec P 0) as [->|HP0].
  { rewrite Rminus_0_r, Rmult_1_l. refine (e01_ext _ _ _ _ HM). intros p Hp. unfold zi_int.
    destruct (Rlt_dec p _); [lra|]. destruct (Rlt_dec p _); [lra|]. f_equal. field. }
  intros T HT.
  assert (HT' : locally M (fun v => T ((1 - P) * v))) by (apply (continuous_scal_r (V := R_NormedModule) (1 - P) (fun v => v) M (continuous_id M)), HT).
  destruct HT' as [e He].
  assert (He2 : 0 < e / 2) by (generalize (cond_pos e); lra).
  specialize (HM (fun v => Rabs (v - M) < e / 2)).
  assert (HB : locally M (fun v : R => Rabs (v - M) < e / 2)) by (exists (mkposreal _ He2); intros y By; exact By).
  specialize (HM HB). destruct HM as [Q1 Q2 K1 K2 K].
  apply (Filter_prod _ _ _ (fun a => 0 < a < P) (fun b => Q2 ((b - P) / (1 - P)) /\ P < b < 1)).
  - refine (filter_imp (F := at_right 0) _ _ _ (filter_and _ _ at_right_01 (at_right_lt P ltac:(lra)))). intros x Hx; lra.
  - apply filter_and; [apply (div_left P); [lra|exact K2]|].
    refine (filter_imp (F := at_left 1) _ _ _ (filter_and _ _ at_left_01 (at_left_gt P ltac:(lra)))). intros x Hx; lra.
  - intros a b Ha [Qb Hb]. cbn [fst snd].
    set (b' := (b - P) / (1 - P)) in *.
    assert (Hb' : 0 < b' < 1).
    { unfold b'. split; [apply Rdiv_lt_0_compat; lra|]. apply (Rmult_lt_reg_r (1 - P)); [lra|]. replace ((b - P) / (1 - P) * (1 - P)) with (b - P) by (field; lra). lra. }
    destruct (int_from_0 H b' Hb' Hc HL) as (I0 & HI & HLim).
    exists ((1 - P) * I0). split.
    + replace ((1 - P) * I0) with (0 + (1 - P) * I0) by ring.
      apply (is_RInt_Chasles (zi_int H 0 P) a ((1 - P) * 0 + P) b 0 ((1 - P) * I0)).
      * apply zi_mid; lra.
      * apply zi_high; [lra|lra|exact HI].
    + apply He. assert (Rabs (I0 - M) <= e / 2); [|apply Rle_lt_trans with (e / 2); [exact H0|generalize (cond_pos e); lra]].
      apply Rnot_lt_le. intros N. assert (N' : 0 < Rabs (I0 - M) - e / 2) by lra.
      assert (HN : locally I0 (fun v : R => Rabs (v - I0) < Rabs (I0 - M) - e / 2)) by (exists (mkposreal _ N'); intros y By; exact By).
      specialize (HLim _ HN).
      assert (X : exists a', Q1 a' /\ Rabs (RInt H a' b' - I0) < Rabs (I0 - M) - e / 2) by (apply (filter_ex (F := at_right 0)); apply filter_and; [exact K1|exact HLim]).
      destruct X as (a' & Qa' & Ha'). destruct (K a' b' Qa' Qb) as (v & Hv & Bv). cbn [fst snd] in Hv. rewrite (is_RInt_unique _ _ _ _ Hv) in Ha'.
      assert (Rabs (I0 - M) <= Rabs (v - I0) + Rabs (v - M)).
      { replace (I0 - M) with (- (v - I0) + (v - M)) by ring. eapply Rle_trans; [apply Rabs_triang|]. rewrite Rabs_Ropp. lra. }
      lra.
Qed.

Lemma refl01 g m : expect01 g m -> expect01 (fun p => g (1 - p)) m.
Proof.
  intros H T HT. specialize (H T HT). destruct H as [Q1 Q2 K1 K2 K].
  apply (Filter_prod _ _ _ (fun a => Q2 (1 - a)) (fun b => Q1 (1 - b))).
  - apply (refl_r _ K2).
  - apply (refl_l _ K1).
  - intros a b Ha Hb. destruct (K _ _ Hb Ha) as (v & Hv & Tv). exists v. split; [|exact Tv]. cbn [fst snd] in *.
    apply is_RInt_swap in Hv.
    assert (X : is_RInt (fun y => g (-1 * y + 1)) a b (/ -1 * opp v)).
    { apply is_RInt_lin; [|lra]. replace (-1 * a + 1) with (1 - a) by ring. now replace (-1 * b + 1) with (1 - b) by ring. }
    assert (EV : / -1 * opp v = v) by (change (opp v) with (- v); field). rewrite EV in X.
    refine (is_RInt_ext _ _ _ _ _ _ X). intros x _. f_equal. ring.
Qed.
Lemma zi_at_1 H P M : 0 <= P < 1 -> (forall p, 0 < p < 1 -> continuous H p) -> (exists L, filterlim (fun p => H (1 - p)) (at_right 0) (locally L)) ->
  expect01 H M -> expect01 (zi_int H 1 P) ((1 - P) * M).
Proof.
  intros HP Hc [L HL] HM.
  set (H' := fun y => if Rlt_dec 0 y then H (1 - y) else 0).
  assert (Hc' : forall p, 0 < p < 1 -> continuous H' p).
  { intros p Hp. apply (cont_ext_pos (fun y => H (1 - y)) H' p); [lra| |].
    - intros q Hq. unfold H'. destruct (Rlt_dec 0 q); [reflexivity|lra].
    - apply (continuous_comp (fun y => 1 - y) H); [|apply Hc; lra]. apply (ex_derive_continuous (V := R_NormedModule)). auto_derive. exact I. }
  assert (HL' : exists L, filterlim H' (at_right 0) (locally L)).
  { exists L. intros T HT. specialize (HL T HT). unfold filtermap in *. refine (filter_imp (F := at_right 0) (fun x => 0 < x < 1 /\ T (H (1 - x))) _ _ (filter_and _ _ at_right_01 HL)).
    intros x [B A]. unfold H'. destruct (Rlt_dec 0 x); [exact A|lra]. }
  assert (HM' : expect01 H' M).
  { refine (e01_ext _ _ _ _ (refl01 _ _ HM)). intros p Hp. unfold H'. destruct (Rlt_dec 0 p); [reflexivity|lra]. }
  assert (K := refl01 _ _ (zi_at_0 H' P M HP Hc' HL' HM')).
  refine (e01_ext _ _ _ _ K). intros p Hp. cbn beta. unfold zi_int, H'.
  replace ((1 - P) * 0) with 0 by ring. replace ((1 - P) * 1) with (1 - P) by ring.
  destruct (Rlt_dec (1 - p) 0); [lra|].
  destruct (Rlt_dec p (1 - P)).
  - destruct (Rlt_dec (1 - p) (0 + P)); [lra|].
    destruct (Rlt_dec 0 ((1 - p - P) / (1 - P))) as [A|A]; [f_equal; field; lra|].
    exfalso. apply A. apply Rdiv_lt_0_compat; lra.
  - destruct (Rlt_dec p (1 - P + P)); [|lra].
    destruct (Rlt_dec (1 - p) (0 + P)); [reflexivity|].
    destruct (Rlt_dec 0 ((1 - p - P) / (1 - P))) as [A|A]; [|reflexivity].
    exfalso. replace (1 - p - P) with 0 in A by lra. unfold Rdiv in A. lra.
Qed.

(** putting it together for a quantile function *)
Lemma zi_all (F Q : R -> R) P M1 M2 : quantile_pair F Q -> (forall p, 0 < p < 1 -> continuous Q p) -> 0 <= P < 1 ->
  expect01 Q M1 -> expect01 (fun p => Q p * Q p) M2 ->
  expect01 (zi_int Q (F 0) P) ((1 - P) * M1) /\ expect01 (zi_int (fun p => Q p * Q p) (F 0) P) ((1 - P) * M2).
Proof.
  intros HQ Hc HP H1 H2. assert (HQ' := HQ). destruct HQ' as (Hb & Hm & Hpq & _).
  assert (Hc2 : forall p, 0 < p < 1 -> continuous (fun p => Q p * Q p) p) by (intros p Hp; apply (continuous_mult Q Q); auto).
  assert (Hinc : forall p q, 0 < p -> p <= q -> q < 1 -> Q p <= Q q).
  { intros p q A B C. destruct B as [B| ->]; [left; now apply (quantile_incr F Q HQ)|right; reflexivity]. }
  destruct (Req_dec (F 0) 0) as [E0|N0]; [|destruct (Req_dec (F 0) 1) as [E1|N1]].
  - rewrite E0. assert (Hpos : forall p, 0 < p < 1 -> 0 < Q p).
    { intros p Hp. apply Rnot_le_lt. intros N. assert (F (Q p) <= F 0) by now apply Hm. rewrite Hpq in * by assumption. lra. }
    split; apply zi_at_0; try assumption.
    + apply right_limit; [intros p Hp; left; auto|auto].
    + apply right_limit; [intros p Hp; assert (0 < Q p) by auto; nra|]. intros p q A B C. assert (Q p <= Q q) by auto. assert (0 < Q p) by (apply Hpos; lra). nra.
  - rewrite E1. assert (Hneg : forall p, 0 < p < 1 -> Q p < 0).
    { intros p Hp. apply Rnot_le_lt. intros N. assert (F 0 <= F (Q p)) by now apply Hm. rewrite Hpq in * by assumption. lra. }
    split; apply zi_at_1; try assumption.
    + destruct (right_limit (fun p => - Q (1 - p))) as [L HL].
      * intros p Hp. assert (Q (1 - p) < 0) by (apply Hneg; lra). lra.
      * intros p q A B C. assert (Q (1 - q) <= Q (1 - p)) by (apply Hinc; lra). lra.
      * exists (- L). apply (filterlim_ext (fun p => - - Q (1 - p))); [intros; ring|].
        eapply filterlim_comp; [exact HL|apply (filterlim_opp (K:=R_AbsRing) (V:=R_NormedModule))].
    + apply (right_limit (fun p => Q (1 - p) * Q (1 - p))).
      * intros p Hp. apply Rle_0_sqr.
      * intros p q A B C. assert (Q (1 - q) <= Q (1 - p)) by (apply Hinc; lra). assert (Q (1 - p) < 0) by (apply Hneg; lra). nra.
  - generalize (Hb 0). intros. split; apply zi_inside; try assumption; lra.
Qed.
