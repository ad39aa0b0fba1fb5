(** Lemmas for C131. *)
From Coquelicot Require Import Coquelicot.
From Verif Require Import Base Ext Gauss GaussProofs StochModel LimitState Transf Form Nataf Dist Pipe Sorm Valid SormRun FormAttr FormAttrSpec FormAttrProofs SormAttr SormAttrSpec.
From Coq Require Import ZArith Lra Lia.
Open Scope list_scope.
Open Scope R_scope.

Lemma last_app {X} (l m : list X) : last_of (l ++ m) = match last_of m with Some y => Some y | None => last_of l end.
Proof.
  induction l as [|x l IH]; [cbn; destruct (last_of m); reflexivity|]. cbn [app]. rewrite !last_cons, IH. destruct (last_of m); reflexivity.
Qed.
Lemma fits_snoc h o : fits (h ++ [o]) = fits h ++ fit_of o.
Proof. unfold fits. rewrite flat_map_app. cbn. now rewrite app_nil_r. Qed.
Lemma point_snoc h o : point_fits (h ++ [o]) = point_fits h ++ flat_map (fun f => match f with PointFit _ km kp _ => [(km, kp)] | CurveFit _ _ => [] end) (fit_of o).
Proof. unfold point_fits. rewrite fits_snoc, flat_map_app. reflexivity. Qed.
Lemma begun_snoc h o : begun (h ++ [o]) = begun h ++ begun [o].
Proof. unfold begun. now rewrite flat_map_app. Qed.
Lemma hist_snoc h o : sorm_hist (h ++ [o]) = sorm_step (sorm_hist h) o.
Proof. unfold sorm_hist. now rewrite fold_left_app. Qed.

(** the message of the curve-fitting formulas *)
Lemma msg_iff b c k : sr_msg (breitung_cf b c k) = true <-> c <> 0 /\ exists x, In x k /\ x < -1 / c.
Proof.
  unfold breitung_cf, guard_cf. destruct (Reqb c 0) eqn:Z.
  - cbn. split; [discriminate|]. intros [N _]. now apply Reqb_spec in Z.
  - apply Reqb_false in Z. destruct (existsb _ k) eqn:X; cbn.
    + split; [intros _|reflexivity]. split; [exact Z|]. apply existsb_exists in X. destruct X as (x & I & L). exists x. split; [exact I|now apply Rltb_spec].
    + split; [discriminate|]. intros [_ (x & I & L)]. rewrite <- X. apply existsb_exists. exists x. split; [exact I|now apply Rltb_spec].
Qed.

(** what the attributes are after a history *)
Definition attr1 (f : fit) : sattr * sattr :=
  match f with CurveFit b k => (cf_attr (pf_breitung b k) (sr_pf (pf_breitung b k)), cf_attr (pf_breitung b k) (sr_beta (pf_breitung b k)))
  | PointFit b km kp _ => (SArr (sr_pf (pf_breitung_pf b km kp)), SArr (sr_beta (pf_breitung_pf b km kp))) end.
Definition attrm (f : fit) : sattr * sattr :=
  match f with CurveFit b k => (cf_attr (pf_breitung_m b k) (sr_pf (pf_breitung_m b k)), cf_attr (pf_breitung_m b k) (sr_beta (pf_breitung_m b k)))
  | PointFit b km kp _ => (SArr (sr_pf (pf_breitung_m_pf b km kp)), SArr (sr_beta (pf_breitung_m_pf b km kp))) end.
Definition opt {X Y} (d : Y) (g : X -> Y) (o : option X) : Y := match o with Some x => g x | None => d end.

Lemma attrs h : let s := sorm_hist h in let f := last_of (fits h) in
  so_fit s = last_of (begun h) /\ so_kpf s = last_of (point_fits h) /\ so_kappa s = opt None (fun f => Some (one_sided f)) f /\
  (so_pf s, so_bg s) = opt (SInt0, SInt0) attr1 f /\ (so_pfm s, so_bgm s) = opt (SInt0, SInt0) attrm f.
Proof.
  induction h as [|o h IH] using rev_ind; [cbn; auto 6|].
  cbv zeta in *. rewrite hist_snoc, fits_snoc, point_snoc, begun_snoc, !last_app.
  destruct o as [ft i|]; [|cbn; exact IH].
  destruct IH as (H1 & H2 & H3 & H4 & H5). cbn [sorm_step]. unfold sorm_run, begun, fit_of. cbn [flat_map].
  destruct (si_init i) as [[]|e]; [|cbn; auto 6].
  destruct (String.eqb ft "cf") eqn:C.
  - destruct (si_cf i) as [[b k]|e]; cbn; auto 6.
  - destruct (String.eqb ft "pf") eqn:P; [|cbn; auto 6]. destruct (si_pf i) as [[[b km] kp]|e]; cbn; auto 6.
Qed.

Lemma idx1 f :
  (excessive (fun b => b) f -> idx0 (fst (attr1 f)) = Err EType /\ idx0 (snd (attr1 f)) = Err EType) /\
  (~ excessive (fun b => b) f -> attr1 f = (SArr (sr_pf (the_pf f)), SArr (sr_beta (the_pf f)))).
Proof.
  destruct f as [b k|b km kp a]; cbn [excessive attr1 the_pf fst snd]; [|split; [intros []|reflexivity]].
  unfold cf_attr. pose proof (msg_iff b b k) as M. fold (pf_breitung b k) in M. destruct (sr_msg (pf_breitung b k)).
  - split; [intros _; split; reflexivity|]. intros N. exfalso. apply N. now apply M.
  - split; [|reflexivity]. intros E. apply M in E. discriminate.
Qed.
Lemma idxm f :
  (excessive psi f -> idx0 (fst (attrm f)) = Err EType /\ idx0 (snd (attrm f)) = Err EType) /\
  (~ excessive psi f -> attrm f = (SArr (sr_pf (the_pfm f)), SArr (sr_beta (the_pfm f)))).
Proof.
  destruct f as [b k|b km kp a]; cbn [excessive attrm the_pfm fst snd]; [|split; [intros []|reflexivity]].
  unfold cf_attr. pose proof (msg_iff b (psi b) k) as M. fold (pf_breitung_m b k) in M. destruct (sr_msg (pf_breitung_m b k)).
  - split; [intros _; split; reflexivity|]. intros N. exfalso. apply N. now apply M.
  - split; [|reflexivity]. intros E. apply M in E. discriminate.
Qed.

Lemma curv_shown h f : last_of (fits h) = Some f -> curvature_lines (sorm_hist h) = Ok (shown h f).
Proof.
  intros L. destruct (attrs h) as (H1 & H2 & H3 & _). unfold curvature_lines, shown. rewrite H1, H2, H3, L. cbn [opt].
  destruct (last_of (begun h)) as [t|]; [|reflexivity]. destruct (last_of (point_fits h)) as [[km kp]|]; [|reflexivity]. destruct (String.eqb t "pf"); reflexivity.
Qed.
Lemma show_lines s : sorm_show s = if so_valid s then rbind (idx0 (so_bg s)) (fun b => rbind (idx0 (so_pf s)) (fun p => rbind (curvature_lines s) (fun k => Ok (b, p, k)))) else Err EValue.
Proof.
  unfold sorm_show, curvature_lines. destruct (so_valid s); [|reflexivity]. destruct (idx0 (so_bg s)); [|reflexivity]. destruct (idx0 (so_pf s)); [|reflexivity]. cbn [rbind].
  destruct (so_fit s) as [t|], (so_kpf s) as [[km kp]|]; try (destruct (so_kappa s); reflexivity). destruct (String.eqb t "pf"); [reflexivity|destruct (so_kappa s); reflexivity].
Qed.

Lemma fits_run h : fits h <> [] -> exists f i, In (SRun f i) h.
Proof.
  unfold fits. induction h as [|o h IH]; [intros N; now elim N|]. cbn [flat_map]. destruct o as [f i|].
  - intros _. exists f, i. now left.
  - cbn. intros N. destruct (IH N) as (f & i & I). exists f, i. now right.
Qed.
