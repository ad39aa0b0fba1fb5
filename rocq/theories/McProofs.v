From Coquelicot Require Import Coquelicot.
From Verif Require Import Base Ext Gauss GaussProofs StochModel LimitState Transf Form FormProofs Sorm Mc.
From Coq Require Import ZArith Lra Lia.

Lemma lsum_nonneg l : (forall x, In x l -> 0 <= x) -> 0 <= lsum l.
Proof. induction l as [|a l IH]; simpl; intros H; [lra|]. assert (0 <= a) by (apply H; auto). assert (0 <= lsum l) by (apply IH; intros; apply H; auto). lra. Qed.

Lemma lsum_ext {A} (f g : A -> R) l : (forall x, In x l -> f x = g x) -> lsum (map f l) = lsum (map g l).
Proof. intros H. f_equal. apply map_ext_in. exact H. Qed.

(** Cauchy-Schwarz for lists: (sum x)^2 <= k sum x^2 *)
Lemma lsum_cs l : lsum l ^ 2 <= INR (length l) * lsum (map (fun w => w ^ 2) l).
Proof.
  assert (G : forall t, lsum (map (fun w => w ^ 2) l) - 2 * t * lsum l + INR (length l) * t ^ 2 >= 0).
  { intros t. induction l as [|a l IH]; [simpl; lra|]. cbn [map lsum length]. rewrite S_INR.
    assert (0 <= (a - t) ^ 2) by (apply pow2_ge_0). nra. }
  destruct l as [|a l]; [simpl; lra|]. set (L := a :: l) in *.
  assert (PN : 0 < INR (length L)) by (apply lt_0_INR; simpl; lia).
  specialize (G (lsum L / INR (length L))).
  set (N := INR (length L)) in *. set (S2 := lsum (map (fun w => w ^ 2) L)) in *. set (S1 := lsum L) in *.
  assert (E : S2 - 2 * (S1 / N) * S1 + N * (S1 / N) ^ 2 = (N * S2 - S1 ^ 2) / N) by (field; lra).
  rewrite E in G. apply Rge_le in G.
  assert (0 <= (N * S2 - S1 ^ 2) / N * N) by (apply Rmult_le_pos; lra).
  replace ((N * S2 - S1 ^ 2) / N * N) with (N * S2 - S1 ^ 2) in H by (field; lra). lra.
Qed.

(** ** weights *)
Lemma inv_cov_mvec nrv s d i : (i < nrv)%nat -> mvec nrv (inv_cov s) d i = / s ^ 2 * d i.
Proof.
  intros Hi. unfold mvec, inv_cov, meye. rewrite (fsum_ext nrv _ (fun j => / s ^ 2 * (delta i j * d j))) by (intros; ring).
  rewrite fsum_scal, fsum_delta by exact Hi. reflexivity.
Qed.

Lemma draw_entry nrv stream off b p s j i : (i < nrv)%nat -> draw nrv stream off b p s j i = p i + s * stream (off + i * b + j)%nat.
Proof.
  intros Hi. unfold draw, mvec, chol_cov, meye.
  rewrite (fsum_ext nrv _ (fun k => s * (delta i k * stream (off + k * b + j)%nat))) by (intros; ring).
  rewrite fsum_scal. rewrite (fsum_delta nrv i (fun k => stream (off + k * b + j)%nat)) by exact Hi. reflexivity.
Qed.

Lemma weight_form nrv p s u I :
  weight nrv p s u I = I * s ^ nrv * exp (- (1 / 2) * dot nrv u u + 1 / 2 * (/ s ^ 2 * dot nrv (fun i => u i - p i) (fun i => u i - p i))).
Proof.
  unfold weight. cbv zeta. do 4 f_equal.
  unfold dot. rewrite <- fsum_scal. apply fsum_ext. intros i Hi. rewrite inv_cov_mvec by exact Hi. ring.
Qed.

Lemma weight_crude nrv u I : weight nrv (fun _ => 0) 1 u I = I.
Proof.
  rewrite weight_form. rewrite pow1.
  assert (E : dot nrv (fun i => u i - 0) (fun i => u i - 0) = dot nrv u u) by (apply fsum_ext; intros; ring).
  rewrite E. replace (- (1 / 2) * dot nrv u u + 1 / 2 * (/ 1 ^ 2 * dot nrv u u)) with 0 by (rewrite pow1, Rinv_1; ring).
  rewrite exp_0. ring.
Qed.

Lemma weight_pos nrv p s u : 0 < s -> 0 < weight nrv p s u 1.
Proof. intros Hs. rewrite weight_form. apply Rmult_lt_0_compat; [|apply exp_pos]. rewrite Rmult_1_l. apply pow_lt. exact Hs. Qed.

Lemma weight_zero nrv p s u : weight nrv p s u 0 = 0.
Proof. unfold weight. cbv zeta. ring. Qed.

(** ** run invariant *)
Section Inv.
  Variables (nrv : nat) (o : mc_opts) (stream : nat -> R) (p : vec) (tox : vec -> vec)
            (Gof : list vec -> result (list R)) (g : vec -> R).
  Hypothesis HG : forall us, Gof us = Ok (map g us).
  Variables (prev : mc_state) (off0 : nat).

  Definition w (u : vec) : R := weight nrv p (mo_stdv o) u (indicator (g u)).

  Fixpoint rec_u (acc : option arr) (bl : list (list vec)) : option arr :=
    match bl with [] => acc | b :: r => rec_u (opt_app np_append acc (A2 nrv b)) r end.
  Fixpoint rec_x (acc : option arr) (bl : list (list vec)) : option arr :=
    match bl with
    | [] => acc
    | b :: r => rec_x (match acc with None => Some (A2 nrv (map tox b)) | Some x => Some (np_append x (A2 nrv b)) end) r
    end.

  Lemma rec_u_snoc bl b : forall acc, rec_u acc (bl ++ [b]) = opt_app np_append (rec_u acc bl) (A2 nrv b).
  Proof. induction bl as [|x bl IH]; intros acc; [reflexivity|]. cbn. apply IH. Qed.
  Lemma rec_x_snoc bl b : forall acc, rec_x acc (bl ++ [b]) =
     match rec_x acc bl with None => Some (A2 nrv (map tox b)) | Some x => Some (np_append x (A2 nrv b)) end.
  Proof. induction bl as [|x bl IH]; intros acc; [reflexivity|]. cbn. apply IH. Qed.

  Definition hist_ok (h : list (Z * R * R)) : Prop := forall e, In e h -> mo_target o < snd e.

  Record inv (st : mc_state) : Prop := mkinv {
    inv_k : ms_k st = Z.of_nat (length (ms_pts st));
    inv_le : (ms_k st <= mo_samples o)%Z;
    inv_off : ms_off st = (off0 + nrv * length (ms_pts st))%nat;
    inv_q : ms_sum_q st = lsum (map w (ms_pts st));
    inv_q2 : ms_sum_q2 st = lsum (map (fun v => w v ^ 2) (ms_pts st));
    inv_qc : ms_blocks st <> [] -> (ms_qbar st, ms_cov st) = cov_update (IZR (ms_k st)) (ms_sum_q st) (ms_sum_q2 st);
    inv_u : ms_uall st = rec_u (ms_uall prev) (ms_blocks st);
    inv_x : ms_xall st = rec_x (ms_xall prev) (ms_blocks st)
  }.

  Lemma combine_map (us : list vec) : combine us (map g us) = map (fun u => (u, g u)) us.
  Proof. induction us as [|u us IH]; [reflexivity|]. cbn. f_equal. exact IH. Qed.

  Lemma block_inv st b st' : inv st -> (0 <= b)%Z -> (ms_k st + b <= mo_samples o)%Z ->
    mc_block nrv o stream p tox Gof st b = Ok st' ->
    inv st' /\ ms_k st' = (ms_k st + b)%Z /\
    ms_hist st' = ms_hist st ++ [(ms_k st', ms_qbar st', ms_cov st')] /\
    ms_blocks st' = ms_blocks st ++ [map (draw nrv stream (ms_off st) (Z.to_nat b) p (mo_stdv o)) (seq 0 (Z.to_nat b))].
  Proof.
    intros HI Hb Hle E. unfold mc_block in E.
    destruct (Z.ltb_spec b 0); [lia|]. destruct (negb (mo_rg o =? 0)%Z); [discriminate|].
    set (us := map (draw nrv stream (ms_off st) (Z.to_nat b) p (mo_stdv o)) (seq 0 (Z.to_nat b))) in *.
    rewrite HG, combine_map, map_map in E. cbv zeta in E. cbn [fst snd] in E.
    assert (Lus : length us = Z.to_nat b) by (unfold us; rewrite map_length, seq_length; reflexivity).
    inversion E as [E']. clear E E'. cbn [ms_k ms_off ms_sum_q ms_sum_q2 ms_qbar ms_cov ms_uall ms_xall ms_blocks ms_hist].
    destruct HI as [I1 I2 I3 I4 I5 I6 I7 I8].
    split; [|split; [reflexivity|split; reflexivity]].
    constructor; unfold ms_pts in *; cbn [ms_k ms_off ms_sum_q ms_sum_q2 ms_qbar ms_cov ms_uall ms_xall ms_blocks] in *;
      rewrite ?concat_app; cbn [concat]; rewrite ?app_nil_r, ?app_length, ?map_app, ?lsum_app.
    - rewrite Lus. lia.
    - exact Hle.
    - rewrite I3, Lus. lia.
    - rewrite I4. reflexivity.
    - rewrite I5. f_equal. rewrite map_map. reflexivity.
    - intros _. rewrite <- surjective_pairing. reflexivity.
    - rewrite rec_u_snoc, <- I7. reflexivity.
    - rewrite rec_x_snoc, <- I8. reflexivity.
  Qed.

  Lemma loop_inv fuel : forall st st', inv st -> hist_ok (ms_hist st) -> (0 <= mo_block o)%Z ->
    mc_loop nrv o stream p tox Gof fuel st = MDone st' ->
    inv st' /\ (ms_k st' = mo_samples o /\ hist_ok (ms_hist st') \/
      (exists h, ms_hist st' = h ++ [(ms_k st', ms_qbar st', ms_cov st')] /\ hist_ok h) /\
      (ms_cov st' <= mo_target o \/ ms_k st' = mo_samples o)).
  Proof.
    induction fuel as [|f IH]; intros st st' HI HH Hb E; [discriminate|].
    cbn [mc_loop] in E. destruct (Z.ltb_spec (ms_k st) (mo_samples o)) as [L|L].
    - destruct (mc_block nrv o stream p tox Gof st _) as [st1|e] eqn:EB; [|discriminate].
      apply block_inv in EB; [|exact HI|lia|lia]. destruct EB as (HI1 & Ek & Eh & _).
      destruct (Rleb (ms_cov st1) (mo_target o)) eqn:EC.
      + inversion E; subst st'. split; [exact HI1|]. right. apply Rleb_spec in EC. split; [|left; exact EC].
        exists (ms_hist st). split; assumption.
      + apply IH in E; [exact E|exact HI1| |exact Hb]. apply Rleb_false in EC.
        intros e He. rewrite Eh in He. apply in_app_or in He. destruct He as [He|[<-|[]]]; [apply HH; exact He|exact EC].
    - inversion E; subst st'. split; [exact HI|]. left. destruct HI as [I1 I2 _ _ _ _ _ _]. split; [lia|exact HH].
  Qed.

  Lemma init_inv : (0 < mo_samples o)%Z ->
    inv (mkms 0 off0 0 0 0 1 (ms_allG prev) (ms_uall prev) (ms_xall prev) (ms_approx prev) [] []).
  Proof.
    intros Hs. constructor; unfold ms_pts; cbn [ms_k ms_off ms_sum_q ms_sum_q2 ms_qbar ms_cov ms_uall ms_xall ms_blocks concat length map lsum rec_u rec_x]; try reflexivity; try lia.
    intros C. exfalso. apply C. reflexivity.
  Qed.

  (** a run that returns has drawn at least one point *)
  Lemma loop_nonempty fuel : forall st st', (0 < mo_block o)%Z -> inv st -> (ms_k st < mo_samples o)%Z ->
    mc_loop nrv o stream p tox Gof fuel st = MDone st' -> ms_blocks st' <> [] /\ (0 < ms_k st')%Z.
  Proof.
    induction fuel as [|f IH]; intros st st' Hb HI L E; [discriminate|].
    cbn [mc_loop] in E. destruct (Z.ltb_spec (ms_k st) (mo_samples o)) as [L'|L']; [|lia].
    destruct (mc_block nrv o stream p tox Gof st _) as [st1|e] eqn:EB; [|discriminate].
    apply block_inv in EB; [|exact HI|lia|lia]. destruct EB as (HI1 & Ek & _ & Ebl).
    assert (A : ms_blocks st1 <> [] /\ (0 < ms_k st1)%Z).
    { rewrite Ebl. split; [intros C; symmetry in C; apply app_cons_not_nil in C; exact C|]. rewrite Ek. destruct HI as [I1 _ _ _ _ _ _ _]. lia. }
    destruct (Rleb (ms_cov st1) (mo_target o)); [inversion E; subst; exact A|].
    destruct (Z_lt_dec (ms_k st1) (mo_samples o)) as [L2|L2]; [apply (IH st1 st' Hb HI1 L2 E)|].
    destruct f as [|f]; [discriminate|]. cbn [mc_loop] in E.
    destruct (Z.ltb_spec (ms_k st1) (mo_samples o)); [lia|]. inversion E; subst; exact A.
  Qed.

  Lemma loop_term fuel : forall st, (0 < mo_block o)%Z -> inv st ->
    (Z.to_nat (mo_samples o - ms_k st) < fuel)%nat -> mo_rg o = 0%Z ->
    exists st', mc_loop nrv o stream p tox Gof fuel st = MDone st'.
  Proof.
    induction fuel as [|f IH]; intros st Hb HI Hf Hr; [lia|].
    cbn [mc_loop]. destruct (Z.ltb_spec (ms_k st) (mo_samples o)) as [L|L]; [|eauto].
    destruct (mc_block nrv o stream p tox Gof st (Z.min (mo_block o) (mo_samples o - ms_k st))) as [st1|e] eqn:EB.
    - apply block_inv in EB; [|exact HI|lia|lia]. destruct EB as (HI1 & Ek & _).
      destruct (Rleb (ms_cov st1) (mo_target o)); [eauto|]. apply IH; [exact Hb|exact HI1| |exact Hr]. rewrite Ek. lia.
    - exfalso. unfold mc_block in EB. destruct (Z.ltb_spec (Z.min (mo_block o) (mo_samples o - ms_k st)) 0); [lia|].
      rewrite Hr in EB. cbn [Z.eqb negb] in EB. rewrite HG in EB. discriminate.
  Qed.

  Lemma run_inv fuel st : (0 < mo_block o)%Z -> mc_run nrv o stream p tox Gof fuel prev off0 = MDone st ->
    inv st /\ (0 < ms_k st)%Z /\ ms_blocks st <> [] /\
    (ms_cov st <= mo_target o \/ ms_k st = mo_samples o) /\
    exists h, hist_ok h /\ (ms_hist st = h \/ ms_hist st = h ++ [(ms_k st, ms_qbar st, ms_cov st)]).
  Proof.
    intros Hb E. unfold mc_run in E. destruct (Z.ltb_spec (mo_samples o) 0); [discriminate|].
    destruct (Z.eqb_spec (mo_samples o) 0); [discriminate|].
    pose proof (init_inv ltac:(lia)) as HI.
    assert (HH : hist_ok (@nil (Z * R * R))) by (intros e []).
    destruct (loop_nonempty fuel _ st Hb HI ltac:(cbn; lia) E) as [N1 N2].
    apply loop_inv in E; [|exact HI|exact HH|lia]. destruct E as [HI' [[K H1]|[(h & K1 & K2) K3]]].
    - split; [exact HI'|]. split; [exact N2|]. split; [exact N1|]. split; [right; exact K|]. exists (ms_hist st). split; [exact H1|left; reflexivity].
    - split; [exact HI'|]. split; [exact N2|]. split; [exact N1|]. split; [exact K3|]. exists h. split; [exact K2|right; exact K1].
  Qed.

  (** the estimate is the mean weight *)
  Lemma run_Pf fuel st : (0 < mo_block o)%Z -> 0 < mo_stdv o -> mc_run nrv o stream p tox Gof fuel prev off0 = MDone st ->
    mc_Pf st = lsum (map w (ms_pts st)) / IZR (ms_k st) /\ 0 <= mc_Pf st.
  Proof.
    intros Hb Hs E. destruct (run_inv fuel st Hb E) as (HI & Kp & Nb & _).
    destruct HI as [I1 I2 I3 I4 I5 I6 I7 I8]. specialize (I6 Nb).
    assert (P : 0 <= lsum (map w (ms_pts st))).
    { apply lsum_nonneg. intros x Hx. apply in_map_iff in Hx. destruct Hx as (u & <- & _). unfold w, indicator.
      destruct (Rltb (g u) 0); [left; apply weight_pos; exact Hs|rewrite weight_zero; lra]. }
    assert (KR : 0 < IZR (ms_k st)) by (apply (IZR_lt 0); exact Kp).
    assert (E2 : mc_Pf st = lsum (map w (ms_pts st)) / IZR (ms_k st)).
    { unfold mc_Pf. unfold cov_update in I6. rewrite <- I4. destruct (Rltb 0 (ms_sum_q st)) eqn:C.
      - injection I6 as Q _. rewrite Q. unfold Rdiv. ring.
      - apply Rltb_false in C. rewrite I4 in *. assert (Z0 : lsum (map w (ms_pts st)) = 0) by lra. rewrite Z0. unfold Rdiv. ring. }
    split; [exact E2|]. rewrite E2. unfold Rdiv. apply Rmult_le_pos; [exact P|]. left. apply Rinv_0_lt_compat. exact KR.
  Qed.
End Inv.
