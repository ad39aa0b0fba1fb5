From Coquelicot Require Import Coquelicot.
From Verif Require Import Base Ext Gauss GaussProofs StochModel StochModelSpec LimitState LimitStateSpec LimitStateProofs
  Transf TransfSpec TransfProofs GramSchmidt GramSchmidtProofs Sorm.
From Coq Require Import ZArith Permutation.

Lemma psi_pos beta : 0 < psi beta.
Proof. unfold psi. apply Rdiv_lt_0_compat; [apply phi_pos|apply Phi_bound]. Qed.

Lemma adm_iff c k : 0 < c -> (-1 / c < k <-> 0 < 1 + c * k).
Proof.
  intros Hc. assert (E : 1 + c * k = c * (k - -1 / c)) by (field; lra). rewrite E. split; intros H.
  - apply Rmult_lt_0_compat; lra.
  - assert (0 < k - -1 / c); [|lra]. apply Rmult_lt_reg_l with c; lra.
Qed.

Lemma adm_le_iff c k : 0 < c -> (-1 / c <= k <-> 0 <= 1 + c * k).
Proof.
  intros Hc. assert (E : 1 + c * k = c * (k - -1 / c)) by (field; lra). rewrite E. split; intros H.
  - apply Rmult_le_pos; lra.
  - assert (0 <= k - -1 / c); [|lra]. apply Rmult_le_reg_l with c; lra.
Qed.

Lemma guard_false c kappa : c <> 0 -> (guard_cf c kappa = false <-> Forall (fun k => -1 / c <= k) kappa).
Proof.
  intros Hc. unfold guard_cf. destruct (Reqb c 0) eqn:E; [apply Reqb_spec in E; contradiction|]. clear E.
  induction kappa as [|k r IH]; simpl; [split; auto|].
  rewrite orb_false_iff, Rltb_false, IH. split; [intros []; constructor; auto|intros H; inversion H; auto].
Qed.

Lemma guard_true c kappa : c <> 0 -> (guard_cf c kappa = true <-> Exists (fun k => k < -1 / c) kappa).
Proof.
  intros Hc. unfold guard_cf. destruct (Reqb c 0) eqn:E; [apply Reqb_spec in E; contradiction|]. clear E.
  rewrite existsb_exists, Exists_exists. split; intros (k & H1 & H2); exists k; (split; [exact H1|]); apply Rltb_spec; exact H2.
Qed.

Lemma xprod_fin l : xprod (map Fin l) = Fin (lprod l).
Proof. induction l as [|a l IH]; [reflexivity|]. simpl. change (fold_right xmul (Fin 1) (map Fin l)) with (xprod (map Fin l)). rewrite IH. reflexivity. Qed.

Lemma pow_pos t : 0 < t -> pow_mhalf t = Fin (/ sqrt t).
Proof. intros H. unfold pow_mhalf. apply Rltb_spec in H. rewrite H. reflexivity. Qed.

Definition bprod (c : R) (kappa : list R) : R := lprod (map (fun k => / sqrt (1 + c * k)) kappa).

Lemma isq_pos t : 0 < t -> 0 < / sqrt t.
Proof. intros H. apply Rinv_0_lt_compat. apply sqrt_lt_R0. exact H. Qed.

Lemma isq_le1 t : 1 <= t -> / sqrt t <= 1.
Proof.
  intros H. rewrite <- Rinv_1. apply Rinv_le_contravar; [lra|]. rewrite <- sqrt_1. apply sqrt_le_1_alt. exact H.
Qed.
Lemma isq_lt1 t : 1 < t -> / sqrt t < 1.
Proof.
  intros H. assert (1 < sqrt t) by (rewrite <- sqrt_1; apply sqrt_lt_1_alt; lra).
  rewrite <- Rinv_1. apply Rinv_lt_contravar; lra.
Qed.

Lemma bprod_pos c kappa : Forall (fun k => 0 < 1 + c * k) kappa -> 0 < bprod c kappa.
Proof.
  unfold bprod. induction 1; simpl; [lra|]. apply Rmult_lt_0_compat; [apply isq_pos; assumption|assumption].
Qed.

Lemma breit_ok beta c kappa : 0 < c -> Forall (fun k => -1 / c < k) kappa ->
  breitung_cf beta c kappa =
    let p := Phi (- beta) * bprod c kappa in mksr (Fin p) (xneg (xppf (Fin p))) false.
Proof.
  intros Hc HF. unfold breitung_cf.
  assert (G : guard_cf c kappa = false).
  { apply guard_false; [lra|]. eapply Forall_impl; [|exact HF]. intros k Hk. simpl in Hk. lra. }
  rewrite G. cbn [negb].
  assert (E : map (fun k => pow_mhalf (1 + c * k)) kappa = map Fin (map (fun k => / sqrt (1 + c * k)) kappa)).
  { rewrite map_map. apply map_ext_in. intros k Hk. rewrite Forall_forall in HF. apply pow_pos. apply adm_iff; auto. }
  rewrite E, xprod_fin. reflexivity.
Qed.

Lemma xppf_in p : 0 < p < 1 -> xppf (Fin p) = Fin (ppf p).
Proof.
  intros H. unfold xppf. destruct (Rltb p 0) eqn:E1; [apply Rltb_spec in E1; lra|].
  destruct (Rltb 1 p) eqn:E2; [apply Rltb_spec in E2; lra|]. rewrite Phi_inv_finite by exact H. reflexivity.
Qed.

Lemma xppf_1 : xppf (Fin 1) = PInf.
Proof.
  unfold xppf. destruct (Rltb 1 0) eqn:E1; [apply Rltb_spec in E1; lra|].
  destruct (Rltb 1 1) eqn:E2; [apply Rltb_spec in E2; lra|]. rewrite Phi_inv_ge1 by lra. reflexivity.
Qed.

Lemma xppf_0 : xppf (Fin 0) = NInf.
Proof.
  unfold xppf. destruct (Rltb 0 0) eqn:E1; [apply Rltb_spec in E1; lra|].
  destruct (Rltb 1 0) eqn:E2; [apply Rltb_spec in E2; lra|]. rewrite Phi_inv_le0 by lra. reflexivity.
Qed.

Lemma xppf_gt1 p : 1 < p -> xppf (Fin p) = NaN.
Proof.
  intros H. unfold xppf. destruct (Rltb p 0) eqn:E1; [reflexivity|].
  apply Rltb_spec in H. rewrite H. reflexivity.
Qed.

Lemma breit_reject beta c kappa : c <> 0 -> Exists (fun k => k < -1 / c) kappa ->
  breitung_cf beta c kappa = mksr (Fin 0) (Fin 0) true.
Proof. intros Hc H. unfold breitung_cf. apply guard_true in H; [|exact Hc]. rewrite H. reflexivity. Qed.

Lemma bprod_antitone c k1 k2 : 0 < c -> Forall (fun k => 0 < 1 + c * k) k1 -> Forall2 Rle k1 k2 ->
  bprod c k2 <= bprod c k1.
Proof.
  intros Hc H1 H. revert H1. unfold bprod. induction H as [|a b l1 l2 Hab H IH]; intros H1; simpl; [lra|].
  inversion H1; subst.
  assert (0 < 1 + c * b) by nra.
  apply Rmult_le_compat; [left; apply isq_pos; assumption| |apply Rinv_le_contravar; [apply sqrt_lt_R0; assumption|apply sqrt_le_1_alt; nra]|apply IH; assumption].
  left. apply (bprod_pos c l2). clear -Hc H H4. revert H4. induction H as [|a b l1 l2 Hab H IH]; intros F; constructor.
  - inversion F; subst. nra.
  - apply IH. inversion F; subst. assumption.
Qed.

Lemma bprod_zero c n : bprod c (repeat 0 n) = 1.
Proof.
  unfold bprod. induction n as [|n IH]; simpl; [reflexivity|].
  rewrite IH. replace (1 + c * 0) with 1 by ring. rewrite sqrt_1. field.
Qed.

Lemma bprod_strict c kappa : 0 < c -> Forall (fun k => 0 <= k) kappa -> Exists (fun k => 0 < k) kappa ->
  bprod c kappa < 1.
Proof.
  intros Hc HF HE.
  assert (L : forall k, 0 <= k -> 0 < / sqrt (1 + c * k) <= 1).
  { intros k Hk. assert (0 < 1 + c * k) by nra. split; [apply isq_pos; assumption|].
    apply isq_le1. nra. }
  assert (A : forall l, Forall (fun k => 0 <= k) l -> 0 < bprod c l <= 1).
  { unfold bprod. induction 1; simpl; [lra|]. destruct (L x H). nra. }
  unfold bprod. induction HE as [k l Hk|k l HE IH]; inversion HF; subst; simpl.
  - assert (S : / sqrt (1 + c * k) < 1).
    { apply isq_lt1. nra. }
    destruct (A l H2). destruct (L k (Rlt_le _ _ Hk)). unfold bprod in *. nra.
  - specialize (IH H2). destruct (L k H1). destruct (A l H2). unfold bprod in *. nra.
Qed.

(** boundary: a curvature equal to -1/c is accepted and gives an infinite result *)
Lemma breit_boundary beta c : 0 < c ->
  breitung_cf beta c [-1 / c] = mksr PInf NaN false.
Proof.
  intros Hc. unfold breitung_cf.
  assert (G : guard_cf c [-1 / c] = false) by (apply guard_false; [lra|]; repeat constructor; lra).
  rewrite G. cbn [negb map]. replace (1 + c * (-1 / c)) with 0 by (field; lra).
  assert (E : pow_mhalf 0 = PInf).
  { unfold pow_mhalf. destruct (Rltb 0 0) eqn:E; [apply Rltb_spec in E; lra|].
    destruct (Reqb 0 0) eqn:E2; [reflexivity|]. apply Reqb_false in E2. lra. }
  rewrite E. cbn [xprod fold_right]. unfold xmul, inf_scale.
  destruct (Rltb 0 1) eqn:E1; [|apply Rltb_false in E1; lra].
  destruct (Rltb 0 (Phi (- beta))) eqn:E2; [|apply Rltb_false in E2; pose proof (Phi_bound (- beta)); lra].
  reflexivity.
Qed.

(** negative coefficient: never a finite probability *)
Lemma xprod_bad l : l <> [] -> Forall (fun x => x = PInf \/ x = NaN) l -> xprod l = PInf \/ xprod l = NaN.
Proof.
  intros Hl HF. induction HF as [|x r Hx HF IH]; [contradiction|].
  assert (Hr : xprod r = PInf \/ xprod r = NaN \/ xprod r = Fin 1).
  { destruct r as [|y r]; [right; right; reflexivity|]. destruct IH as [E|E]; [discriminate|left; exact E|right; left; exact E]. }
  simpl. change (fold_right xmul (Fin 1) r) with (xprod r).
  assert (I1 : inf_scale 1 true = PInf) by (unfold inf_scale; destruct (Rltb 0 1) eqn:E; [reflexivity|apply Rltb_false in E; lra]).
  destruct Hx as [->| ->]; [|right; destruct (xprod r); reflexivity].
  destruct Hr as [->|[->| ->]]; cbn [xmul]; auto.
Qed.

Lemma breit_negative beta c kappa : c < 0 -> kappa <> [] ->
  (breitung_cf beta c kappa = mksr (Fin 0) (Fin 0) true) \/
  (sr_pf (breitung_cf beta c kappa) = PInf \/ sr_pf (breitung_cf beta c kappa) = NaN).
Proof.
  intros Hc Hk. unfold breitung_cf. destruct (guard_cf c kappa) eqn:G; cbn [negb]; [left; reflexivity|right].
  apply guard_false in G; [|lra]. cbn [sr_pf].
  destruct (xprod_bad (map (fun k => pow_mhalf (1 + c * k)) kappa)) as [E|E].
  - destruct kappa; [contradiction|discriminate].
  - rewrite Forall_forall in *. intros x Hx. apply in_map_iff in Hx. destruct Hx as (k & <- & Hin).
    specialize (G k Hin). simpl in G.
    assert (N : 1 + c * k <= 0).
    { assert (E : 1 + c * k = c * (k - -1 / c)) by (field; lra). rewrite E. nra. }
    unfold pow_mhalf. destruct (Rltb 0 (1 + c * k)) eqn:E1; [apply Rltb_spec in E1; lra|].
    destruct (Reqb (1 + c * k) 0); auto.
  - rewrite E. left. unfold xmul, inf_scale. destruct (Rltb 0 (Phi (- beta))) eqn:E2; [reflexivity|].
    apply Rltb_false in E2; pose proof (Phi_bound (- beta)); lra.
  - rewrite E. right. reflexivity.
Qed.

(** *** point fit *)
Lemma existsb_false_Forall {A} (f : A -> bool) l : existsb f l = false <-> Forall (fun x => f x = false) l.
Proof.
  induction l as [|a l IH]; simpl; [split; auto|]. rewrite orb_false_iff, IH.
  split; [intros []; constructor; auto|intros H; inversion H; auto].
Qed.

Lemma pf_valid c km kp : Forall (fun k => 0 < 1 + c * k) km -> Forall (fun k => 0 < 1 + c * k) kp ->
  existsb (fun t => Rleb t 0) (map (fun k => 1 + c * k) kp) || existsb (fun t => Rleb t 0) (map (fun k => 1 + c * k) km) = false.
Proof.
  intros H1 H2. apply orb_false_iff. split; apply existsb_false_Forall; apply Forall_map.
  - eapply Forall_impl; [|exact H2]. intros k Hk. simpl in Hk. apply Rleb_false. exact Hk.
  - eapply Forall_impl; [|exact H1]. intros k Hk. simpl in Hk. apply Rleb_false. exact Hk.
Qed.

Definition pfprod (c : R) (km kp : list R) : R :=
  lprod (map (fun ab => 1 / 2 * (/ sqrt (1 + c * snd ab) + / sqrt (1 + c * fst ab))) (combine km kp)).

Lemma pfprod_eq c km kp :
  lprod (map (fun t => 1 / 2 * (/ sqrt (fst t) + / sqrt (snd t))) (combine (map (fun k => 1 + c * k) kp) (map (fun k => 1 + c * k) km)))
  = pfprod c km kp.
Proof.
  unfold pfprod. revert kp. induction km as [|a km IH]; intros [|b kp]; simpl; try reflexivity. rewrite IH. reflexivity.
Qed.

Lemma breit_pf_ok beta c km kp : Forall (fun k => 0 < 1 + c * k) km -> Forall (fun k => 0 < 1 + c * k) kp ->
  breitung_pf beta c km kp = let p := Phi (- beta) * pfprod c km kp in mksr (Fin p) (xneg (xppf (Fin p))) false.
Proof. intros H1 H2. unfold breitung_pf. rewrite pf_valid by assumption. cbn [negb]. rewrite pfprod_eq. reflexivity. Qed.

Lemma pfprod_same c kappa : pfprod c kappa kappa = bprod c kappa.
Proof.
  unfold pfprod, bprod. induction kappa as [|k r IH]; simpl; [reflexivity|]. rewrite IH.
  set (t := / sqrt (1 + c * k)). lra.
Qed.

Lemma pfprod_swap c km kp : pfprod c km kp = pfprod c kp km.
Proof.
  unfold pfprod. revert kp. induction km as [|a km IH]; intros [|b kp]; simpl; try reflexivity.
  rewrite IH. f_equal. ring.
Qed.

Lemma pfprod_pos c km kp : Forall (fun k => 0 < 1 + c * k) km -> Forall (fun k => 0 < 1 + c * k) kp -> 0 < pfprod c km kp.
Proof.
  intros H1. revert kp. unfold pfprod. induction H1 as [|a km Ha H1 IH]; intros kp H2; simpl; [lra|].
  destruct H2 as [|b kp Hb H2]; simpl; [lra|]. apply Rmult_lt_0_compat; [|apply IH; exact H2].
  pose proof (isq_pos _ Ha). pose proof (isq_pos _ Hb). lra.
Qed.

Lemma pf_cf_agree beta c kappa : 0 < c -> Forall (fun k => -1 / c < k) kappa ->
  breitung_pf beta c kappa kappa = breitung_cf beta c kappa.
Proof.
  intros Hc HF. rewrite breit_ok by assumption.
  assert (H : Forall (fun k => 0 < 1 + c * k) kappa) by (eapply Forall_impl; [|exact HF]; intros k Hk; apply adm_iff; assumption).
  rewrite breit_pf_ok by assumption. rewrite pfprod_same. reflexivity.
Qed.

Lemma pf_swap beta c km kp : breitung_pf beta c km kp = breitung_pf beta c kp km.
Proof.
  unfold breitung_pf. rewrite orb_comm.
  rewrite !pfprod_eq, pfprod_swap. reflexivity.
Qed.

(** *** Newton search *)
Lemma fit_loop_inv max_iter n R1 ev tol : forall up tr r tr',
  fit_loop max_iter n R1 ev tol up tr = (r, tr') ->
  (length tr' <= length tr + max_iter)%nat /\
  match r with
  | Ok up' => (forall a, a <> (n - 1)%nat -> up' a = up a) /\
              exists G g, ev (mvec n (mtrans R1) up') = Ok (G, g) /\ Rabs G < tol /\ last tr' (fun _ => 0) = mvec n (mtrans R1) up'
  | Err e => e = ERuntime \/ exists u, In u tr' /\ ev u = Err e
  end.
Proof.
  induction max_iter as [|m IH]; intros up tr r tr' H; simpl in H.
  - inversion H; subst. split; [lia|]. left. reflexivity.
  - destruct (ev (mvec n (mtrans R1) up)) as [[G g]|e] eqn:E.
    + destruct (Rltb (Rabs G) tol) eqn:Et.
      * inversion H; subst. split; [rewrite app_length; simpl; lia|]. split; [reflexivity|].
        exists G, g. split; [exact E|]. split; [apply Rltb_spec; exact Et|]. rewrite last_last. reflexivity.
      * destruct (Rltb (Rabs (mvec n R1 g (n - 1)%nat)) (1 / 1000000000000)) eqn:Eg.
        -- inversion H; subst. split; [rewrite app_length; simpl; lia|]. left. reflexivity.
        -- apply IH in H. destruct H as [Hl H]. rewrite app_length in Hl. simpl in Hl. split; [lia|].
           destruct r as [up'|e]; [|exact H]. destruct H as [H1 H2]. split; [|exact H2].
           intros a Ha. rewrite H1 by exact Ha. destruct (Nat.eqb_spec a (n - 1)); [contradiction|reflexivity].
    + inversion H; subst. split; [rewrite app_length; simpl; lia|]. right. exists (mvec n (mtrans R1) up).
      split; [apply in_or_app; right; left; reflexivity|exact E].
Qed.

Lemma ffp_contract n R1 ev axis sign beta k max_iter tol r tr : (axis < n - 1)%nat ->
  find_fitting_point n R1 ev axis sign beta k max_iter tol = (r, tr) ->
  (length tr <= max_iter)%nat /\
  match r with
  | Ok kap => exists up G g,
      (forall a, a <> axis -> a <> (n - 1)%nat -> up a = 0) /\ up axis = sign * k * beta /\
      ev (mvec n (mtrans R1) up) = Ok (G, g) /\ Rabs G < tol /\
      (1 / 1000000000000 <= Rabs (sign * k * beta) ->
         kap = 2 * (up (n - 1)%nat - beta) / (sign * k * beta * (sign * k * beta))) /\
      (Rabs (sign * k * beta) < 1 / 1000000000000 -> kap = 0)
  | Err e => e = ERuntime \/ exists u, In u tr /\ ev u = Err e
  end.
Proof.
  intros Hax H. unfold find_fitting_point in H.
  set (up0 := fun a => _) in H.
  destruct (fit_loop max_iter n R1 ev tol up0 []) as [r0 tr0] eqn:E.
  apply fit_loop_inv in E. destruct E as [Hl E]. simpl in Hl.
  destruct r0 as [up|e].
  - destruct E as [E1 (G & g & E2 & E3 & _)].
    assert (Ea : up axis = sign * k * beta).
    { rewrite E1 by lia. unfold up0. destruct (Nat.eqb_spec axis (n - 1)); [lia|]. rewrite Nat.eqb_refl. reflexivity. }
    rewrite Ea in H. destruct (Rltb (Rabs (sign * k * beta)) (1 / 1000000000000)) eqn:Et; inversion H; subst; (split; [exact Hl|]); exists up, G, g.
    + apply Rltb_spec in Et. split; [|split; [exact Ea|split; [exact E2|split; [exact E3|split; [intros; lra|reflexivity]]]]].
      intros a Ha1 Ha2. rewrite E1 by exact Ha2. unfold up0.
      destruct (Nat.eqb_spec a (n - 1)); [contradiction|]. destruct (Nat.eqb_spec a axis); [contradiction|reflexivity].
    + apply Rltb_false in Et. split; [|split; [exact Ea|split; [exact E2|split; [exact E3|split; [reflexivity|intros; lra]]]]].
      intros a Ha1 Ha2. rewrite E1 by exact Ha2. unfold up0.
      destruct (Nat.eqb_spec a (n - 1)); [contradiction|]. destruct (Nat.eqb_spec a axis); [contradiction|reflexivity].
  - inversion H; subst. split; [exact Hl|exact E].
Qed.

(** linear in the search direction *)
Lemma ffp_linear n R1 ev axis sign beta k max_iter tol (c : R -> R) (a : R) :
  (axis < n - 1)%nat -> 0 < tol -> (2 <= max_iter)%nat ->
  1 / 1000000000000 <= Rabs a -> 1 / 1000000000000 <= Rabs (sign * k * beta) ->
  (forall up, (forall b, b <> axis -> b <> (n - 1)%nat -> up b = 0) ->
     exists g, ev (mvec n (mtrans R1) up) = Ok (c (up axis) - a * up (n - 1)%nat, g) /\ mvec n R1 g (n - 1)%nat = - a) ->
  let ui := sign * k * beta in
  exists tr, (length tr <= 2)%nat /\
  (tol <= Rabs (c ui - a * beta) ->
     find_fitting_point n R1 ev axis sign beta k max_iter tol = (Ok (2 * (c ui / a - beta) / (ui * ui)), tr)) /\
  (Rabs (c ui - a * beta) < tol ->
     find_fitting_point n R1 ev axis sign beta k max_iter tol = (Ok 0, tr)).
Proof.
  intros Hax Htol Hmi Ha Hui Hev ui.
  assert (Ha0 : a <> 0). { intros ->. rewrite Rabs_R0 in Ha. lra. }
  assert (Hui0 : ui <> 0). { intros E. fold ui in Hui. rewrite E, Rabs_R0 in Hui. lra. }
  unfold find_fitting_point.
  set (up0 := fun b : nat => if Nat.eqb b (n - 1) then beta else if Nat.eqb b axis then sign * k * beta else 0).
  assert (Z0 : forall b, b <> axis -> b <> (n - 1)%nat -> up0 b = 0).
  { intros b H1 H2. unfold up0. destruct (Nat.eqb_spec b (n - 1)); [contradiction|]. destruct (Nat.eqb_spec b axis); [contradiction|reflexivity]. }
  assert (A0 : up0 axis = ui).
  { unfold up0. destruct (Nat.eqb_spec axis (n - 1)); [lia|]. rewrite Nat.eqb_refl. reflexivity. }
  assert (N0 : up0 (n - 1)%nat = beta) by (unfold up0; rewrite Nat.eqb_refl; reflexivity).
  destruct (Hev up0 Z0) as (g0 & E0 & G0). rewrite A0, N0 in E0.
  destruct max_iter as [|[|m]]; try lia.
  assert (Eui : Rltb (Rabs ui) (1 / 1000000000000) = false) by (apply Rltb_false; exact Hui).
  cbn [fit_loop]. rewrite E0.
  destruct (Rltb (Rabs (c ui - a * beta)) tol) eqn:Et.
  - apply Rltb_spec in Et. eexists. split; [|split].
    2:{ intros H. exfalso. lra. }
    2:{ intros _. cbv zeta. rewrite A0, N0, Eui. f_equal. f_equal. replace (beta - beta) with 0 by ring. unfold Rdiv. ring. }
    simpl. lia.
  - apply Rltb_false in Et.
    assert (Eg : Rltb (Rabs (mvec n R1 g0 (n - 1)%nat)) (1 / 1000000000000) = false).
    { rewrite G0, Rabs_Ropp. apply Rltb_false. exact Ha. }
    rewrite Eg. rewrite G0.
    set (up1 := fun b : nat => if Nat.eqb b (n - 1) then up0 b - (c ui - a * beta) / - a else up0 b).
    assert (Z1 : forall b, b <> axis -> b <> (n - 1)%nat -> up1 b = 0).
    { intros b H1 H2. unfold up1. destruct (Nat.eqb_spec b (n - 1)); [contradiction|]. apply Z0; assumption. }
    assert (A1 : up1 axis = ui) by (unfold up1; destruct (Nat.eqb_spec axis (n - 1)); [lia|exact A0]).
    assert (N1 : up1 (n - 1)%nat = c ui / a).
    { unfold up1. rewrite Nat.eqb_refl, N0. field. exact Ha0. }
    destruct (Hev up1 Z1) as (g1 & E1 & _). rewrite A1, N1 in E1. rewrite E1.
    replace (c ui - a * (c ui / a)) with 0 by (field; exact Ha0). rewrite Rabs_R0.
    assert (Et1 : Rltb 0 tol = true) by (apply Rltb_spec; exact Htol). rewrite Et1.
    eexists. split; [|split].
    2:{ intros _. cbv zeta. rewrite A1, N1, Eui. reflexivity. }
    2:{ intros H. exfalso. lra. }
    simpl. lia.
Qed.

Lemma step_coeff_spec beta : beta <> 0 ->
  Rabs (step_coeff beta * beta) = Rmax 1 (Rmin (Rabs beta) 3) /\ 0 < step_coeff beta.
Proof.
  intros Hb. assert (P : 0 < Rabs beta) by (apply Rabs_pos_lt; exact Hb).
  unfold step_coeff. rewrite Rabs_mult.
  destruct (Rltb (Rabs beta) 1) eqn:E1.
  - apply Rltb_spec in E1. rewrite Rmin_left, Rmax_left by lra. rewrite Rabs_right.
    + split; [field; lra|apply Rdiv_lt_0_compat; lra].
    + apply Rle_ge. left. apply Rdiv_lt_0_compat; lra.
  - apply Rltb_false in E1. destruct (Rleb (Rabs beta) 3) eqn:E2.
    + apply Rleb_spec in E2. rewrite Rmin_left, Rmax_right by lra. rewrite Rabs_R1. split; lra.
    + apply Rleb_false in E2. rewrite Rmin_right, Rmax_right by lra. rewrite Rabs_right.
      * split; [field; lra|apply Rdiv_lt_0_compat; lra].
      * apply Rle_ge. left. apply Rdiv_lt_0_compat; lra.
Qed.
