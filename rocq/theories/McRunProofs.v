From Coquelicot Require Import Coquelicot.
From Verif Require Import Base Ext Gauss GaussProofs StochModel LimitState Transf Form FormProofs Sorm SormProofs StochModelSpec LimitStateSpec LimitStateProofs Mc McSpec McProofs.
From Coq Require Import ZArith Lra Lia.

(** ** counting *)
Lemma lsum_indicator (g : vec -> R) l :
  lsum (map (fun u => indicator (g u)) l) = INR (nfail g l).
Proof.
  induction l as [|a l IH]; [reflexivity|]. cbn [map lsum nfail]. unfold indicator at 1.
  destruct (Rltb (g a) 0); rewrite ?S_INR, IH; lra.
Qed.

Lemma nfail_le (g : vec -> R) l : (nfail g l <= length l)%nat.
Proof. induction l as [|a l IH]; [simpl; lia|]. cbn [nfail length]. destruct (Rltb (g a) 0); lia. Qed.

Lemma nfail_zero (g : vec -> R) l : (forall u, In u l -> 0 <= g u) -> nfail g l = 0%nat.
Proof.
  induction l as [|a l IH]; intros H; [reflexivity|]. cbn [nfail]. destruct (Rltb (g a) 0) eqn:E.
  - apply Rltb_spec in E. specialize (H a (or_introl eq_refl)). lra.
  - apply IH. intros u Hu. apply H. right. exact Hu.
Qed.

Lemma nfail_all (g : vec -> R) l : (forall u, In u l -> g u < 0) -> nfail g l = length l.
Proof.
  induction l as [|a l IH]; intros H; [reflexivity|]. cbn [nfail length]. destruct (Rltb (g a) 0) eqn:E.
  - f_equal. apply IH. intros u Hu. apply H. right. exact Hu.
  - apply Rltb_false in E. specialize (H a (or_introl eq_refl)). lra.
Qed.

(** ** likelihood ratio *)
Lemma exp_fsum n f : exp (fsum n f) = lprod (map (fun i => exp (f i)) (seq 0 n)).
Proof.
  induction n as [|n IH]; [cbn; apply exp_0|].
  rewrite seq_S, map_app. cbn [fsum]. rewrite exp_plus, IH.
  assert (LA : forall a b, lprod (a ++ b) = lprod a * lprod b).
  { induction a as [|x a IHa]; intros b; cbn; [ring|]. rewrite IHa. ring. }
  rewrite LA. cbn. ring.
Qed.

Lemma lprod_pow_map n c (f : nat -> R) :
  lprod (map (fun i => c * f i) (seq 0 n)) = c ^ n * lprod (map f (seq 0 n)).
Proof.
  generalize 0%nat as s. induction n as [|n IH]; intros s; cbn [seq map lprod fold_right pow]; [cbn; ring|].
  unfold lprod in *. cbn [fold_right]. rewrite IH. ring.
Qed.

Lemma lprod_mult n (f h : nat -> R) :
  lprod (map (fun i => f i * h i) (seq 0 n)) = lprod (map f (seq 0 n)) * lprod (map h (seq 0 n)).
Proof.
  generalize 0%nat as s. induction n as [|n IH]; intros s; cbn; [ring|]. unfold lprod in *. cbn [fold_right]. rewrite IH. ring.
Qed.

Lemma lprod_map_pos n (f : nat -> R) : (forall i, 0 < f i) -> 0 < lprod (map f (seq 0 n)).
Proof. intros H. generalize 0%nat as s. induction n as [|n IH]; intros s; cbn; [lra|]. apply Rmult_lt_0_compat; [apply H|apply IH]. Qed.

Lemma sampling_density_pos nrv p s u : 0 < s -> 0 < sampling_density nrv p s u.
Proof.
  intros Hs. apply lprod_map_pos. intros i. apply Rdiv_lt_0_compat; [apply phi_pos|exact Hs].
Qed.

Lemma weight_ratio nrv p s u I : 0 < s ->
  weight nrv p s u I = I * (joint_density nrv u / sampling_density nrv p s u).
Proof.
  intros Hs. pose proof (sampling_density_pos nrv p s u Hs) as SP.
  assert (E : weight nrv p s u 1 * sampling_density nrv p s u = joint_density nrv u).
  { rewrite weight_form. unfold sampling_density, joint_density, phi.
    rewrite (map_ext (fun i => exp (- (1 / 2) * ((u i - p i) / s * ((u i - p i) / s))) / sqrt (2 * PI) / s)
                     (fun i => / s * (/ sqrt (2 * PI) * exp (- (1 / 2) * ((u i - p i) / s * ((u i - p i) / s)))))) by (intros; unfold Rdiv; ring).
    rewrite (map_ext (fun i => exp (- (1 / 2) * (u i * u i)) / sqrt (2 * PI))
                     (fun i => / sqrt (2 * PI) * exp (- (1 / 2) * (u i * u i)))) by (intros; unfold Rdiv; ring).
    rewrite !lprod_pow_map. rewrite <- !exp_fsum.
    rewrite <- Rmult_assoc.
    transitivity ((s ^ nrv * (/ s) ^ nrv) * (/ sqrt (2 * PI)) ^ nrv *
       (exp (- (1 / 2) * dot nrv u u + 1 / 2 * (/ s ^ 2 * dot nrv (fun i => u i - p i) (fun i => u i - p i))) *
        exp (fsum nrv (fun i => - (1 / 2) * ((u i - p i) / s * ((u i - p i) / s)))))); [ring|].
    rewrite <- Rpow_mult_distr, Rinv_r, pow1, Rmult_1_l by lra. f_equal.
    rewrite <- exp_plus. f_equal. unfold dot.
    rewrite <- !fsum_scal. rewrite <- !fsum_plus. apply fsum_ext. intros i _. field. lra. }
  assert (W : weight nrv p s u I = I * weight nrv p s u 1) by (unfold weight; cbv zeta; ring).
  rewrite W. f_equal. rewrite <- E. field. lra.
Qed.

(** ** the coefficient of variation in the crude case *)
Lemma cov_crude k nf : 0 < k -> 0 <= nf <= k ->
  cov_update k nf nf = (nf / k, crude_cov k nf).
Proof.
  intros Hk [H0 H1]. unfold cov_update, crude_cov. destruct (Rltb 0 nf) eqn:E0.
  - apply Rltb_spec in E0. cbv zeta.
    assert (Q : / k * nf = nf / k) by (unfold Rdiv; ring). rewrite Q.
    set (pf := nf / k). assert (Pp : 0 < pf) by (apply Rdiv_lt_0_compat; assumption).
    assert (P1 : pf <= 1) by (unfold pf; apply (Rmult_le_reg_r k); [exact Hk|]; unfold Rdiv; rewrite Rmult_assoc, Rinv_l by lra; lra).
    assert (V : sqrt (/ k * (pf - pf ^ 2)) * / pf = sqrt ((1 - pf) / (k * pf))).
    { rewrite <- (sqrt_pow2 (/ pf)) at 1 by (left; apply Rinv_0_lt_compat; exact Pp).
      rewrite <- sqrt_mult.
      - f_equal. field. lra.
      - apply Rmult_le_pos; [left; apply Rinv_0_lt_compat; exact Hk|]. nra.
      - apply pow2_ge_0. }
    rewrite V. f_equal. destruct (Rltb nf k) eqn:E1.
    + apply Rltb_spec in E1. assert (pf < 1) by (unfold pf; apply (Rmult_lt_reg_r k); [exact Hk|]; unfold Rdiv; rewrite Rmult_assoc, Rinv_l by lra; lra).
      assert (SP : 0 < sqrt ((1 - pf) / (k * pf))) by (apply sqrt_lt_R0, Rdiv_lt_0_compat; [lra|apply Rmult_lt_0_compat; lra]).
      destruct (Reqb (sqrt ((1 - pf) / (k * pf))) 0) eqn:E2; [apply Reqb_spec in E2; lra|reflexivity].
    + apply Rltb_false in E1. assert (pf = 1) by (unfold pf; replace nf with k by lra; field; lra).
      rewrite H. replace ((1 - 1) / (k * 1)) with 0 by (field; lra). rewrite sqrt_0.
      destruct (Reqb 0 0) eqn:E2; [reflexivity|]. apply Reqb_false in E2. lra.
  - apply Rltb_false in E0. assert (nf = 0) by lra. subst nf. f_equal. unfold Rdiv. ring.
Qed.

Lemma lsum_pow2_indicator (g : vec -> R) l :
  lsum (map (fun u => indicator (g u) ^ 2) l) = lsum (map (fun u => indicator (g u)) l).
Proof. apply lsum_ext. intros u _. unfold indicator. destruct (Rltb (g u) 0); ring. Qed.

(** ** further loop invariants *)
Section Loop.
  Variables (nrv : nat) (o : mc_opts) (stream : nat -> R) (p : vec) (tox : vec -> vec)
            (Gof : list vec -> result (list R)) (g : vec -> R).
  Hypothesis HG : forall us, Gof us = Ok (map g us).
  Variables (prev : mc_state) (off0 : nat).
  Notation INV := (inv nrv o p tox g prev off0).

  Lemma loop_ind (P : mc_state -> Prop) :
    (forall st st', INV st -> P st -> (ms_k st < mo_samples o)%Z ->
       mc_block nrv o stream p tox Gof st (Z.min (mo_block o) (mo_samples o - ms_k st)) = Ok st' -> P st') ->
    (0 <= mo_block o)%Z ->
    forall fuel st st', INV st -> P st -> mc_loop nrv o stream p tox Gof fuel st = MDone st' -> P st'.
  Proof.
    intros HS Hb. induction fuel as [|f IH]; intros st st' HI HP E; [discriminate|].
    cbn [mc_loop] in E. destruct (Z.ltb_spec (ms_k st) (mo_samples o)) as [L|L].
    - destruct (mc_block nrv o stream p tox Gof st _) as [st1|e] eqn:EB; [|discriminate].
      pose proof (HS st st1 HI HP L EB) as HP1.
      apply (block_inv nrv o stream p tox Gof g HG prev off0) in EB; [|exact HI|lia|lia]. destruct EB as (HI1 & _).
      destruct (Rleb (ms_cov st1) (mo_target o)); [inversion E; subst; exact HP1|].
      exact (IH st1 st' HI1 HP1 E).
    - inversion E; subst; exact HP.
  Qed.

  Lemma run_ind (P : mc_state -> Prop) :
    (forall st st', INV st -> P st -> (ms_k st < mo_samples o)%Z ->
       mc_block nrv o stream p tox Gof st (Z.min (mo_block o) (mo_samples o - ms_k st)) = Ok st' -> P st') ->
    P (mkms 0 off0 0 0 0 1 (ms_allG prev) (ms_uall prev) (ms_xall prev) (ms_approx prev) [] []) ->
    (0 <= mo_block o)%Z ->
    forall fuel st, mc_run nrv o stream p tox Gof fuel prev off0 = MDone st -> P st.
  Proof.
    intros HS H0 Hb fuel st E. unfold mc_run in E. destruct (Z.ltb_spec (mo_samples o) 0); [discriminate|].
    destruct (Z.eqb_spec (mo_samples o) 0); [discriminate|].
    refine (loop_ind P HS Hb fuel _ st _ H0 E). apply init_inv. lia.
  Qed.

  (** block ends *)
  Definition end_rec (pts : list vec) : Z * R * R :=
    let k := Z.of_nat (length pts) in
    (k, fst (cov_update (IZR k) (lsum (map (w nrv o p g) pts)) (lsum (map (fun v => w nrv o p g v ^ 2) pts))),
        snd (cov_update (IZR k) (lsum (map (w nrv o p g) pts)) (lsum (map (fun v => w nrv o p g v ^ 2) pts)))).

  Lemma run_hist fuel st : (0 <= mo_block o)%Z -> mc_run nrv o stream p tox Gof fuel prev off0 = MDone st ->
    ms_hist st = map (fun m => end_rec (concat (firstn m (ms_blocks st)))) (seq 1 (length (ms_blocks st))).
  Proof.
    intros Hb. apply (run_ind (fun st => ms_hist st = map (fun m => end_rec (concat (firstn m (ms_blocks st)))) (seq 1 (length (ms_blocks st)))));
      [|reflexivity|exact Hb].
    clear st fuel. intros st st' HI HP L EB.
    apply (block_inv nrv o stream p tox Gof g HG prev off0) in EB; [|exact HI|lia|lia]. destruct EB as (HI1 & Ek & Eh & Ebl).
    rewrite Eh, HP, Ebl, app_length. cbn [length]. rewrite Nat.add_1_r, seq_S, map_app. f_equal.
    - apply map_ext_in. intros m Hm. apply in_seq in Hm. f_equal. f_equal. rewrite firstn_app.
      replace (m - length (ms_blocks st))%nat with 0%nat by lia. cbn [firstn]. rewrite app_nil_r. reflexivity.
    - cbn [map]. f_equal. rewrite firstn_all2 by (rewrite app_length; cbn; lia). rewrite <- Ebl.
      change (concat (ms_blocks st')) with (ms_pts st'). unfold end_rec. cbv zeta.
      destruct HI1 as [I1 I2 I3 I4 I5 I6 I7 I8].
      assert (NB : ms_blocks st' <> []) by (rewrite Ebl; intros C; symmetry in C; apply app_cons_not_nil in C; exact C).
      specialize (I6 NB). rewrite <- I1, <- I4, <- I5, <- I6. reflexivity.
  Qed.

  (** records of limit-state values *)
  Definition olist {A} (x : option (list A)) : list A := match x with None => [] | Some l => l end.

  Lemma run_allG fuel st : (0 <= mo_block o)%Z -> (ms_uall prev = None <-> ms_allG prev = None) ->
    mc_run nrv o stream p tox Gof fuel prev off0 = MDone st ->
    olist (ms_allG st) = olist (ms_allG prev) ++ map g (ms_pts st).
  Proof.
    intros Hb HC E.
    apply (run_ind (fun st => (ms_uall st = None <-> ms_allG st = None) /\
        olist (ms_allG st) = olist (ms_allG prev) ++ map g (ms_pts st))) in E; [apply E| | |exact Hb].
    - clear st E fuel. intros st st' HI [HP1 HP2] L EB. unfold mc_block in EB.
      destruct (Z.ltb_spec (Z.min (mo_block o) (mo_samples o - ms_k st)) 0); [discriminate|].
      destruct (negb (mo_rg o =? 0)%Z); [discriminate|].
      rewrite HG in EB. cbv zeta in EB. inversion EB as [EB']. clear EB EB'.
      unfold ms_pts in *. cbn [ms_allG ms_uall ms_blocks]. rewrite concat_app. cbn [concat]. rewrite app_nil_r, map_app, app_assoc, <- HP2.
      destruct (ms_uall st) as [a|] eqn:EU, (ms_allG st) as [l|] eqn:EL; cbn [opt_app olist app].
      + split; [split; discriminate|reflexivity].
      + destruct HP1 as [_ HP1]. specialize (HP1 eq_refl). discriminate.
      + destruct HP1 as [HP1 _]. specialize (HP1 eq_refl). discriminate.
      + split; [split; discriminate|reflexivity].
    - split; [exact HC|]. cbn. rewrite app_nil_r. reflexivity.
  Qed.

  Lemma run_approx fuel st : (0 <= mo_block o)%Z ->
    mc_run nrv o stream p tox Gof fuel prev off0 = MDone st ->
    olist (ms_approx st) = olist (ms_approx prev) ++ map (fun u => sqrt (dot nrv u u)) (ms_pts st).
  Proof.
    intros Hb E.
    apply (run_ind (fun st => 
        olist (ms_approx st) = olist (ms_approx prev) ++ map (fun u => sqrt (dot nrv u u)) (ms_pts st))) in E; [exact E| | |exact Hb].
    - clear st E fuel. intros st st' HI HP2 L EB. unfold mc_block in EB.
      destruct (Z.ltb_spec (Z.min (mo_block o) (mo_samples o - ms_k st)) 0); [discriminate|].
      destruct (negb (mo_rg o =? 0)%Z); [discriminate|].
      rewrite HG in EB. cbv zeta in EB. inversion EB as [EB']. clear EB EB'.
      unfold ms_pts in *. cbn [ms_approx ms_blocks]. rewrite concat_app. cbn [concat]. rewrite app_nil_r, map_app, app_assoc, <- HP2.
      destruct (ms_approx st); reflexivity.
    - cbn. rewrite app_nil_r. reflexivity.
  Qed.

  (** the points of every block in terms of the random stream *)
  Lemma run_layout fuel st : (0 <= mo_block o)%Z -> mc_run nrv o stream p tox Gof fuel prev off0 = MDone st ->
    forall m, (m < length (ms_blocks st))%nat ->
      let done := length (concat (firstn m (ms_blocks st))) in
      let b := Z.to_nat (Z.min (mo_block o) (mo_samples o - Z.of_nat done)) in
      let blk := nth m (ms_blocks st) [] in
      length blk = b /\
      forall j, (j < b)%nat -> forall i, (i < nrv)%nat ->
        nth j blk (fun _ => 0) i = p i + mo_stdv o * stream (off0 + nrv * done + i * b + j)%nat.
  Proof.
    intros Hb E.
    refine (run_ind (fun st => forall m, (m < length (ms_blocks st))%nat ->
      let done := length (concat (firstn m (ms_blocks st))) in
      let b := Z.to_nat (Z.min (mo_block o) (mo_samples o - Z.of_nat done)) in
      let blk := nth m (ms_blocks st) [] in
      length blk = b /\
      forall j, (j < b)%nat -> forall i, (i < nrv)%nat ->
        nth j blk (fun _ => 0) i = p i + mo_stdv o * stream (off0 + nrv * done + i * b + j)%nat) _ _ Hb fuel st E).
    - clear st E fuel. intros st st' HI HP L EB.
      pose proof EB as EB0.
      apply (block_inv nrv o stream p tox Gof g HG prev off0) in EB; [|exact HI|lia|lia]. destruct EB as (HI1 & Ek & Eh & Ebl).
      rewrite Ebl. intros m Hm. rewrite app_length in Hm. cbn [length] in Hm. cbv zeta.
      destruct (Nat.eq_dec m (length (ms_blocks st))) as [->|N].
      + rewrite firstn_app, Nat.sub_diag, firstn_all. cbn [firstn]. rewrite app_nil_r, nth_middle.
        change (concat (ms_blocks st)) with (ms_pts st). destruct HI as [I1 _ I3 _ _ _ _ _]. rewrite <- I1, <- I3.
        rewrite map_length, seq_length. split; [reflexivity|]. intros j Hj i Hi.
        rewrite (nth_indep _ _ (draw nrv stream (ms_off st) (Z.to_nat (Z.min (mo_block o) (mo_samples o - ms_k st))) p (mo_stdv o) 0%nat))
          by (rewrite map_length, seq_length; exact Hj).
        rewrite map_nth, seq_nth by exact Hj. rewrite draw_entry by exact Hi. reflexivity.
      + rewrite app_nth1 by lia. rewrite firstn_app.
        replace (m - length (ms_blocks st))%nat with 0%nat by lia. cbn [firstn]. rewrite app_nil_r. apply HP. lia.
    - cbn. intros m Hm. lia.
  Qed.

  (** block size 0 never finishes *)
  Lemma loop_zero_diverges : mo_block o = 0%Z -> (0 < mo_samples o)%Z -> mo_rg o = 0%Z -> mo_target o < 1 ->
    forall fuel st, ms_k st = 0%Z -> ms_sum_q st = 0 -> ms_sum_q2 st = 0 ->
      mc_loop nrv o stream p tox Gof fuel st = MFuel.
  Proof.
    intros Hb Hs Hr Ht. induction fuel as [|f IH]; intros st Hk H1 H2; [reflexivity|].
    cbn [mc_loop]. rewrite Hk. destruct (Z.ltb_spec 0 (mo_samples o)); [|lia].
    rewrite Hb, Z.min_l by lia. unfold mc_block. cbn [Z.ltb]. rewrite Hr. cbn [Z.compare Z.eqb negb Z.to_nat seq map]. rewrite HG.
    cbn [map combine lsum]. cbv zeta. rewrite Hk, H1, H2, !Rplus_0_r. unfold cov_update. destruct (Rltb 0 0) eqn:Z0; [apply Rltb_spec in Z0; lra|]. cbn [fst snd].
    destruct (Z.ltb_spec 0 0) as [C|_]; [lia|]. cbn [ms_cov].
    destruct (Rleb 1 (mo_target o)) eqn:Z1; [apply Rleb_spec in Z1; lra|]. apply IH; reflexivity.
  Qed.
End Loop.

(** ** one random variable: block size does not matter *)
Lemma nth_concat_firstn {A} (d : A) : forall (bl : list (list A)) j, (j < length (concat bl))%nat ->
  exists m, (m < length bl)%nat /\ (length (concat (firstn m bl)) <= j)%nat /\
    (j - length (concat (firstn m bl)) < length (nth m bl []))%nat /\
    nth j (concat bl) d = nth (j - length (concat (firstn m bl))) (nth m bl []) d.
Proof.
  induction bl as [|b bl IH]; intros j Hj; [cbn in Hj; lia|].
  cbn [concat] in *. rewrite app_length in Hj. destruct (Nat.lt_ge_cases j (length b)) as [L|L].
  - exists 0%nat. cbn. rewrite Nat.sub_0_r, app_nth1 by exact L. repeat split; lia.
  - destruct (IH (j - length b)%nat ltac:(lia)) as (m & H1 & H2 & H3 & H4).
    exists (S m). cbn [firstn concat nth length]. rewrite app_length. rewrite app_nth2 by exact L. rewrite H4.
    replace (j - (length b + length (concat (firstn m bl))))%nat with (j - length b - length (concat (firstn m bl)))%nat by lia.
    repeat split; try lia; exact H3.
Qed.

Lemma pts_nrv1 o stream p tox Gof g prev off0 fuel st :
  (forall us, Gof us = Ok (map g us)) -> (0 <= mo_block o)%Z ->
  mc_run 1 o stream p tox Gof fuel prev off0 = MDone st ->
  forall j, (j < length (ms_pts st))%nat -> nth j (ms_pts st) (fun _ => 0) 0%nat = p 0%nat + mo_stdv o * stream (off0 + j)%nat.
Proof.
  intros HG Hb E j Hj.
  destruct (nth_concat_firstn (A:=vec) (fun _ : nat => 0) (ms_blocks st) j Hj) as (m & H1 & H2 & H3 & H4).
  unfold ms_pts. rewrite H4. destruct (run_layout 1 o stream p tox Gof g HG prev off0 fuel st Hb E m H1) as [L K]. cbv zeta in *.
  rewrite L in H3. rewrite K by lia. do 3 f_equal. lia.
Qed.

Lemma map_by_nth {A B} (d : A) (f h : A -> B) : forall l1 l2, length l1 = length l2 ->
  (forall j, (j < length l1)%nat -> f (nth j l1 d) = h (nth j l2 d)) -> map f l1 = map h l2.
Proof.
  induction l1 as [|a l1 IH]; intros [|b l2] L H; try discriminate; [reflexivity|].
  cbn. f_equal; [apply (H 0%nat); cbn; lia|]. apply IH; [cbn in L; lia|]. intros j Hj. apply (H (S j)). cbn. lia.
Qed.

(** ** DistributionAnalysis *)
Section DA.
  Variables (nrv : nat) (o : mc_opts) (stream : nat -> R) (tox : vec -> vec)
            (Gof : list vec -> result (list R)) (g : vec -> R).
  Hypothesis HG : forall us, Gof us = Ok (map g us).

  Lemma write_block {A} (x : A) (done vals : list A) m : (length vals <= m)%nat ->
    write_cols (length done) vals (done ++ repeat x m) = (done ++ vals) ++ repeat x (m - length vals).
  Proof.
    intros L. unfold write_cols. rewrite firstn_app, firstn_all, Nat.sub_diag. cbn [firstn]. rewrite app_nil_r.
    rewrite skipn_app, skipn_all2 by lia. replace (length done + length vals - length done)%nat with (length vals) by lia.
    cbn [app]. rewrite <- app_assoc. do 2 f_equal. 
    replace m with (length vals + (m - length vals))%nat at 1 by lia. rewrite repeat_app, skipn_app, repeat_length.
    rewrite skipn_all2 by (rewrite repeat_length; lia). rewrite Nat.sub_diag. reflexivity.
  Qed.

  Definition dinv (st : da_state) : Prop :=
    da_k st = Z.of_nat (length (da_pts st)) /\ (da_k st <= mo_samples o)%Z /\
    da_X st = map tox (da_pts st) ++ repeat (fun _ => 0) (Z.to_nat (mo_samples o - da_k st)) /\
    da_G st = map g (da_pts st) ++ repeat 0 (Z.to_nat (mo_samples o - da_k st)).

  Lemma da_loop_inv : (0 <= mo_block o)%Z -> forall fuel st st', dinv st ->
    da_loop nrv o stream tox Gof fuel st = DDone st' -> dinv st' /\ da_k st' = mo_samples o.
  Proof.
    intros Hb. induction fuel as [|f IH]; intros st st' HI E; [discriminate|].
    cbn [da_loop] in E. destruct HI as (I1 & I2 & I3 & I4).
    destruct (Z.ltb_spec (da_k st) (mo_samples o)) as [L|L].
    - destruct (Z.ltb_spec (Z.min (mo_block o) (mo_samples o - da_k st)) 0); [discriminate|].
      destruct (negb (mo_rg o =? 0)%Z); [discriminate|]. rewrite HG in E.
      set (b := Z.min (mo_block o) (mo_samples o - da_k st)) in *.
      set (us := map (draw nrv stream (da_off st) (Z.to_nat b) (fun _ => 0) (mo_stdv o)) (seq 0 (Z.to_nat b))) in *.
      assert (Lu : length us = Z.to_nat b) by (unfold us; rewrite map_length, seq_length; reflexivity).
      apply IH in E; [exact E|]. unfold dinv. cbn [da_k da_pts da_X da_G].
      rewrite app_length, Lu, !map_app, I3, I4.
      replace (Z.to_nat (da_k st)) with (length (map tox (da_pts st))) at 1 by (rewrite map_length; lia).
      replace (Z.to_nat (da_k st)) with (length (map g (da_pts st))) at 1 by (rewrite map_length; lia).
      rewrite !write_block by (rewrite map_length, Lu; lia). rewrite !map_length, Lu.
      replace (Z.to_nat (mo_samples o - da_k st) - Z.to_nat b)%nat with (Z.to_nat (mo_samples o - (da_k st + b))) by lia.
      refine (conj _ (conj _ (conj eq_refl eq_refl))); lia.
    - inversion E; subst. split; [|lia]. unfold dinv. auto.
  Qed.

  Lemma da_run_records fuel off st : (0 <= mo_block o)%Z -> da_run nrv o stream tox Gof fuel off = DDone st ->
    da_k st = mo_samples o /\ length (da_pts st) = Z.to_nat (mo_samples o) /\
    da_X st = map tox (da_pts st) /\ da_G st = map g (da_pts st).
  Proof.
    intros Hb E. unfold da_run in E. destruct (Z.ltb_spec (mo_samples o) 0); [discriminate|].
    apply da_loop_inv in E; [|exact Hb|].
    - destruct E as [(I1 & I2 & I3 & I4) K]. rewrite K, Z.sub_diag in I3, I4. cbn [Z.to_nat repeat] in I3, I4. rewrite app_nil_r in I3, I4.
      refine (conj K (conj _ (conj I3 I4))). lia.
    - unfold dinv. cbn [da_k da_pts da_X da_G length map app]. rewrite Z.sub_0_r. refine (conj eq_refl (conj _ (conj eq_refl eq_refl))). lia.
  Qed.
End DA.

(** ** the limit-state step of a run *)
Lemma mc_limit_state_ok h expr f o invT m :
  o_multi_proc o <> 0%Z -> pointwise expr f -> (1 <= ndists h)%nat -> (1 <= o_block_size o)%Z ->
  forall us, mc_limit_state (sm_run h) expr o (ndists h) invT m us =
    Ok (map (fun u => f (args_at h (vlist (ndists h) (u_to_x (ndists h) invT m u)))) us).
Proof.
  intros Hmp Hp Hn Hb us. unfold mc_limit_state, form_trial. cbv zeta.
  rewrite (dispatch_nogradient (S (length us)) h expr f o (Some "no"%string) _ Hmp (or_introl (ex_intro _ _ eq_refl)) Hp Hn).
  - cbn [fst]. rewrite map_map. reflexivity.
  - intros p Hin. apply in_map_iff in Hin. destruct Hin as (u & <- & _). apply vlist_length.
  - exact Hb.
  - rewrite map_length. lia.
Qed.

(** ** crude runs *)
Lemma w_crude nrv o g u : mo_stdv o = 1 -> w nrv o (fun _ => 0) g u = indicator (g u).
Proof. intros H. unfold w. rewrite H. apply weight_crude. Qed.

Lemma end_rec_crude nrv o g pts : mo_stdv o = 1 -> pts <> [] ->
  end_rec nrv o (fun _ => 0) g pts =
    (Z.of_nat (length pts), INR (nfail g pts) / INR (length pts), crude_cov (INR (length pts)) (INR (nfail g pts))).
Proof.
  intros Hs Hne. unfold end_rec. cbv zeta.
  rewrite (lsum_ext _ (fun u => indicator (g u))) by (intros; apply w_crude; exact Hs).
  rewrite (lsum_ext (fun v => w nrv o (fun _ => 0) g v ^ 2) (fun u => indicator (g u) ^ 2)) by (intros; rewrite w_crude by exact Hs; reflexivity).
  rewrite lsum_pow2_indicator, lsum_indicator. rewrite <- INR_IZR_INZ.
  assert (0 < length pts)%nat by (destruct pts; [contradiction|cbn; lia]).
  rewrite cov_crude; [reflexivity|apply (lt_INR 0); lia|].
  split; [apply pos_INR|apply le_INR, nfail_le].
Qed.
