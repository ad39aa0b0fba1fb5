(** C64: the results_valid flag.  C78: SORM results after excessive curvatures. *)
From Coquelicot Require Import Coquelicot.
From Verif Require Import Base Ext Gauss GaussProofs Sorm Valid.
Open Scope list_scope.
Open Scope R_scope.

(** ** C64 *)
(** for every analysis class and every history of runs with any outcome: showResults says
    "not yet run" (ValueError) iff no run was started *)
Theorem C64_flag_iff_started : forall (S I O : Type) (body : I -> S -> S * option exn) (render : S -> result O) s0 h,
  (a_valid (ana_hist body s0 h) = true <-> exists i, In (ARun i) h)
  /\ ((~ exists i, In (ARun i) h) -> ana_show render (ana_hist body s0 h) = Err EValue)
  /\ ((exists i, In (ARun i) h) -> ana_show render (ana_hist body s0 h) = render (a_attr (ana_hist body s0 h))).
Proof.
  intros S I O body render s0 h.
  assert (F : a_valid (ana_hist body s0 h) = true <-> exists i, In (ARun i) h).
  { induction h as [|o h IH] using rev_ind; [split; [discriminate|intros [i []]]|]. unfold ana_hist in *. rewrite fold_left_app. cbn [fold_left]. destruct o as [i|]; cbn [ana_step].
    - unfold ana_run. cbn [a_attr a_valid]. destruct (body i _) as [s e]. cbn. split; [|reflexivity]. intros _. exists i. apply in_or_app. right. left. reflexivity.
    - rewrite IH. split; intros [i H]; exists i; [apply in_or_app; left; exact H|]. apply in_app_iff in H. destruct H as [H|[H|[]]]; [exact H|discriminate]. }
  split; [exact F|]. unfold ana_show. split; intros H.
  - destruct (a_valid (ana_hist body s0 h)); [exfalso; apply H, F; reflexivity|reflexivity].
  - rewrite (proj2 F H). reflexivity.
Qed.
Print Assumptions C64_flag_iff_started.

(** so a run that raises leaves the flag claiming valid results *)
Theorem C64_failed_run_claims_valid_refuted : forall (S I : Type) (body : I -> S -> S * option exn) i a e s',
  body i (a_attr a) = (s', Some e) -> ana_run body i a = (mkAna true s', Some e).
Proof. intros S I body i a e s' H. unfold ana_run. cbn [a_attr a_valid]. rewrite H. reflexivity. Qed.
Print Assumptions C64_failed_run_claims_valid_refuted.

(** FORM: after any history, showResults prints the result of the last run that completed,
    also when later runs raised; if none completed but one was started, a TypeError *)
Fixpoint last_completed (h : list (aop (result (R * R)))) : option (R * R) :=
  match h with
  | [] => None
  | o :: r => match last_completed r, o with Some v, _ => Some v | None, ARun (Ok v) => Some v | None, _ => None end
  end.
Theorem C64_form_shows_last_completed : forall h,
  ana_show form_render (ana_hist form_body None h) =
  match last_completed h with
  | Some v => Ok v
  | None => if existsb (fun o => match o with ARun _ => true | AShow => false end) h then Err EType else Err EValue
  end.
Proof.
  intros h.
  assert (LC : forall h o, last_completed (h ++ [o]) = match o with ARun (Ok v) => Some v | _ => last_completed h end).
  { clear h. induction h as [|x h IH]; intros o; cbn [app last_completed]; [destruct o as [[v|e]|]; reflexivity|]. rewrite IH. destruct o as [[v|e]|]; reflexivity. }
  assert (A : a_attr (ana_hist form_body None h) = last_completed h).
  { induction h as [|o h IH] using rev_ind; [reflexivity|]. rewrite LC. unfold ana_hist in *. rewrite fold_left_app. cbn [fold_left]. destruct o as [[v|e]|]; [reflexivity| |exact IH]. cbn. exact IH. }
  assert (F : a_valid (ana_hist form_body None h) = existsb (fun o => match o with ARun _ => true | AShow => false end) h).
  { destruct (existsb _ h) eqn:E.
    - apply existsb_exists in E. destruct E as ([i|] & Hi & E); [|discriminate]. apply (proj1 (C64_flag_iff_started _ _ _ form_body form_render None h)). eauto.
    - destruct (a_valid (ana_hist form_body None h)) eqn:V; [|reflexivity]. apply (proj1 (C64_flag_iff_started _ _ _ form_body form_render None h)) in V. destruct V as [i Hi].
      assert (X : existsb (fun o : aop (result (R * R)) => match o with ARun _ => true | AShow => false end) h = true) by (apply existsb_exists; exists (ARun i); split; [exact Hi|reflexivity]). congruence. }
  unfold ana_show. rewrite F, A. destruct (last_completed h) as [v|] eqn:EL; cbn [form_render]; [|reflexivity].
  destruct (existsb _ h) eqn:E; [reflexivity|]. exfalso. assert (X : forall h, last_completed h = Some v -> existsb (fun o : aop (result (R * R)) => match o with ARun _ => true | AShow => false end) h = true).
  { clear. induction h as [|o h IH]; cbn; [discriminate|]. intros H. destruct (last_completed h) as [w|] eqn:E; [rewrite (IH H); apply orb_true_r|]. destruct o as [[w|e]|]; [reflexivity|discriminate|discriminate]. }
  rewrite (X h EL) in E. discriminate.
Qed.
Print Assumptions C64_form_shows_last_completed.

(** SORM: same flag; an unknown fit type raises ValueError with the flag set *)
Theorem C64_sorm_flag : forall h, so_valid (sorm_hist h) = true <-> exists f i, In (SRun f i) h.
Proof.
  induction h as [|o h IH] using rev_ind; [split; [discriminate|intros (f & i & [])]|]. unfold sorm_hist in *. rewrite fold_left_app. cbn [fold_left]. destruct o as [f i|]; cbn [sorm_step].
  - split; [intros _; exists f, i; apply in_or_app; right; left; reflexivity|]. intros _. unfold sorm_run. destruct (si_init i); [|reflexivity].
    destruct (String.eqb f "cf"); [destruct (si_cf i) as [[b k]|]; reflexivity|]. destruct (String.eqb f "pf"); [destruct (si_pf i) as [[[b km] kp]|]; reflexivity|reflexivity].
  - rewrite IH. split; intros (f & i & H); exists f, i; [apply in_or_app; left; exact H|]. apply in_app_iff in H. destruct H as [H|[H|[]]]; [exact H|discriminate].
Qed.
Print Assumptions C64_sorm_flag.
Theorem C64_sorm_unknown_fit : forall f i s, si_init i = Ok tt -> f <> "cf"%string -> f <> "pf"%string ->
  let '(s', r) := sorm_run f i s in
  r = Err EValue /\ so_valid s' = true /\ so_kappa s' = so_kappa s /\ so_pf s' = so_pf s /\ so_bg s' = so_bg s
  /\ (so_bg s = SInt0 -> sorm_show s' = Err EType).
Proof.
  intros f i s E N1 N2. unfold sorm_run. rewrite E. rewrite (proj2 (String.eqb_neq f "cf") N1), (proj2 (String.eqb_neq f "pf") N2). cbn. repeat split. intros ->. reflexivity.
Qed.
Print Assumptions C64_sorm_unknown_fit.

(** ** C78 SORM with excessive curvature: the curve-fitting results are plain zeros that
    showResults cannot print, so run() itself raises when printing is on; point fitting
    reports zeros that can be shown *)
Theorem C78_curvefit_excessive_curvature : forall i s beta kappa k, si_init i = Ok tt -> si_cf i = Ok (beta, kappa) -> beta <> 0 -> In k kappa -> k < - 1 / beta ->
  let '(s', r) := sorm_run "cf" i s in
  sorm_show s' = Err EType /\ r = (if si_print i then Err EType else Ok tt).
Proof.
  intros i s beta kappa k E1 E2 NZ Hk Lt. unfold sorm_run. rewrite E1. cbn [String.eqb]. change (String.eqb "cf" "cf") with true. cbv iota. rewrite E2.
  assert (M : sr_msg (pf_breitung beta kappa) = true).
  { unfold pf_breitung, breitung_cf, guard_cf. rewrite (proj2 (Reqb_false beta 0) NZ). replace (existsb (fun k0 : R => Rltb k0 (-1 / beta)) kappa) with true; [reflexivity|]. symmetry. apply existsb_exists. exists k. split; [exact Hk|]. apply Rltb_spec. exact Lt. }
  cbv zeta. unfold cf_attr. rewrite M. cbn [so_fit so_kpf]. split; [reflexivity|]. destruct (si_print i); reflexivity.
Qed.
Print Assumptions C78_curvefit_excessive_curvature.
(** otherwise the run succeeds and shows what it computed *)
Theorem C78_curvefit_shows : forall i s beta kappa, si_init i = Ok tt -> si_cf i = Ok (beta, kappa) -> (forall k, In k kappa -> beta <> 0 -> - 1 / beta <= k) ->
  let '(s', r) := sorm_run "cf" i s in
  r = Ok tt /\ sorm_show s' = Ok (sr_beta (pf_breitung beta kappa), sr_pf (pf_breitung beta kappa), kappa).
Proof.
  intros i s beta kappa E1 E2 G. unfold sorm_run. rewrite E1. change (String.eqb "cf" "cf") with true. cbv iota. rewrite E2.
  assert (M : sr_msg (pf_breitung beta kappa) = false).
  { unfold pf_breitung, breitung_cf, guard_cf. destruct (Reqb beta 0) eqn:Z; [reflexivity|]. apply Reqb_false in Z. replace (existsb (fun k0 : R => Rltb k0 (-1 / beta)) kappa) with false; [reflexivity|]. symmetry.
    destruct (existsb (fun k0 : R => Rltb k0 (-1 / beta)) kappa) eqn:X; [|reflexivity]. apply existsb_exists in X. destruct X as (k & Hk & X). apply Rltb_spec in X. pose proof (G k Hk Z). lra. }
  cbv zeta. unfold cf_attr. rewrite M.
  assert (SH : forall s', so_valid s' = true -> so_fit s' = Some "cf"%string -> so_kappa s' = Some kappa -> so_bg s' = SArr (sr_beta (pf_breitung beta kappa)) -> so_pf s' = SArr (sr_pf (pf_breitung beta kappa)) ->
     sorm_show s' = Ok (sr_beta (pf_breitung beta kappa), sr_pf (pf_breitung beta kappa), kappa)).
  { intros s' V F K B P. unfold sorm_show. rewrite V, B, P. cbn [idx0 rbind]. rewrite F, K. destruct (so_kpf s') as [[km kp]|]; reflexivity. }
  rewrite SH by reflexivity. split; [destruct (si_print i); reflexivity|]. reflexivity.
Qed.
Print Assumptions C78_curvefit_shows.
(** point fitting never fails to show, excessive or not *)
Theorem C78_pointfit_shows : forall i s beta km kp, si_init i = Ok tt -> si_pf i = Ok (beta, km, kp) ->
  let '(s', r) := sorm_run "pf" i s in
  r = Ok tt /\ sorm_show s' = Ok (sr_beta (pf_breitung_pf beta km kp), sr_pf (pf_breitung_pf beta km kp), km ++ kp)
  /\ ((exists k, In k (km ++ kp) /\ 1 + beta * k <= 0) -> List.length km = List.length kp -> sorm_show s' = Ok (Fin 0, Fin 0, km ++ kp)).
Proof.
  intros i s beta km kp E1 E2. unfold sorm_run. rewrite E1. change (String.eqb "pf" "cf") with false. change (String.eqb "pf" "pf") with true. cbv iota. rewrite E2. cbv zeta.
  unfold sorm_show, pf_attr. cbn [so_valid so_bg so_pf so_fit so_kpf idx0 rbind]. change (String.eqb "pf" "pf") with true. cbv iota. split; [destruct (si_print i); reflexivity|]. split; [reflexivity|].
  intros (k & Hk & Lt) _. unfold pf_breitung_pf, breitung_pf.
  replace (existsb _ (map (fun k0 => 1 + beta * k0) kp) || existsb _ (map (fun k0 => 1 + beta * k0) km)) with true; [reflexivity|]. symmetry. apply orb_true_iff.
  apply in_app_iff in Hk. destruct Hk as [Hk|Hk]; [right|left]; apply existsb_exists; exists (1 + beta * k); (split; [apply in_map_iff; exists k; split; [reflexivity|exact Hk]|apply Rleb_spec; exact Lt]).
Qed.
Print Assumptions C78_pointfit_shows.

(** *** Non-vacuity *)
Example C78_example : let i := mkSin (Ok tt) (Ok (2, [-1; 0])) (Ok (2, [-1], [0])) (fun l => l) true in
  snd (sorm_run "cf" i sorm_init) = Err EType /\ snd (sorm_run "pf" i sorm_init) = Ok tt /\ snd (sorm_run "quadratic" i sorm_init) = Err EValue.
Proof.
  intros i. split; [|split].
  - pose proof (C78_curvefit_excessive_curvature i sorm_init 2 [-1; 0] (-1) eq_refl eq_refl) as H. destruct (sorm_run "cf" i sorm_init) as [s' r]. destruct H as [_ ->]; [lra|left; reflexivity|lra|reflexivity].
  - pose proof (C78_pointfit_shows i sorm_init 2 [-1] [0] eq_refl eq_refl) as H. destruct (sorm_run "pf" i sorm_init) as [s' r]. destruct H as [-> _]. reflexivity.
  - pose proof (C64_sorm_unknown_fit "quadratic" i sorm_init eq_refl) as H. destruct (sorm_run "quadratic" i sorm_init) as [s' r]. destruct H as [-> _]; [discriminate|discriminate|reflexivity].
Qed.
Example C64_example : ana_show form_render (ana_hist form_body None [ARun (Ok (2, 1)); AShow; ARun (Err EZeroDiv)]) = Ok (2, 1)
  /\ ana_show form_render (ana_hist form_body None [ARun (Err EZeroDiv)]) = Err EType /\ ana_show form_render (ana_hist form_body None [AShow]) = Err EValue.
Proof. repeat split. Qed.
