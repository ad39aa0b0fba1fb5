(** C62, C63, C77: generic code calibration. *)
From Verif Require Import Base StochModel StochModelSpec StochModelProofs Dict LimitState LimitStateSpec LimitStateProofs LoadComb LoadCombSpec LoadCombProofs Calib CalibSpec CalibProofs Generic GenericSpec GenericProofs.
From Coq Require Import Permutation.
Open Scope list_scope.
Open Scope R_scope.

(** ** C62 *)
(** *** the design solves the code equation, and only it *)
Theorem C62_design_equation : forall z aq ag phi gg gp gq rk gk pk qk, phi * rk <> 0 ->
  (z = design aq ag phi gg gp gq rk gk pk qk <-> code_equation z aq ag phi gg gp gq rk gk pk qk)
  /\ (code_equation z aq ag phi gg gp gq rk gk pk qk <-> gen_g z aq ag 1 (phi * rk) 1 (gg * gk) (gp * pk) (gq * qk) = 0).
Proof.
  intros z aq ag phi gg gp gq rk gk pk qk NZ. unfold code_equation, design, gen_g. assert (phi <> 0 /\ rk <> 0) as [N1 N2] by (split; intros ->; apply NZ; ring). split; split.
  - intros ->. field. tauto.
  - intros H. apply (Rmult_eq_reg_r (phi * rk)); [|exact NZ]. rewrite H. field. tauto.
  - intros H. rewrite Rmult_1_r, H. ring.
  - intros H. rewrite Rmult_1_r in H. lra.
Qed.
Print Assumptions C62_design_equation.

(** *** more demanding factors never give a smaller design *)
Theorem C62_design_monotone : forall aq ag phi gg gp gq gg' gp' gq' rk gk pk qk,
  0 <= aq <= 1 -> 0 <= ag <= 1 -> 0 < phi * rk -> 0 <= gk -> 0 <= pk -> 0 <= qk -> gg <= gg' -> gp <= gp' -> gq <= gq' ->
  design aq ag phi gg gp gq rk gk pk qk <= design aq ag phi gg' gp' gq' rk gk pk qk.
Proof.
  intros aq ag phi gg gp gq gg' gp' gq' rk gk pk qk Ha Hg Hp G1 G2 G3 L1 L2 L3. unfold design. apply Rmult_le_compat_l; [left; apply Rdiv_lt_0_compat; lra|].
  assert (ag * gg * gk <= ag * gg' * gk) by (apply Rmult_le_compat_r; [lra|apply Rmult_le_compat_l; lra]).
  assert ((1 - ag) * gp * pk <= (1 - ag) * gp' * pk) by (apply Rmult_le_compat_r; [lra|apply Rmult_le_compat_l; lra]).
  assert (aq * gq * qk <= aq * gq' * qk) by (apply Rmult_le_compat_r; [lra|apply Rmult_le_compat_l; lra]).
  assert ((1 - aq) * (ag * gg * gk + (1 - ag) * gp * pk) <= (1 - aq) * (ag * gg' * gk + (1 - ag) * gp' * pk)) by (apply Rmult_le_compat_l; lra). lra.
Qed.
Print Assumptions C62_design_monotone.
Theorem C62_design_inverse_phi : forall k aq ag phi gg gp gq rk gk pk qk, k <> 0 -> phi * rk <> 0 ->
  design aq ag (k * phi) gg gp gq rk gk pk qk = design aq ag phi gg gp gq rk gk pk qk / k.
Proof. intros k aq ag phi gg gp gq rk gk pk qk Nk NZ. assert (phi <> 0 /\ rk <> 0) as [N1 N2] by (split; intros ->; apply NZ; ring). unfold design. field. tauto. Qed.
Print Assumptions C62_design_inverse_phi.

(** *** setters: the last value given to a role is the one get() returns, in its place *)
Lemma latest_snoc {V} (f : gset -> role -> option V) l s k : latest f (l ++ [s]) k = match f s k with Some v => Some v | None => latest f l k end.
Proof. induction l as [|x l IH]; cbn [latest app]; [destruct (f s k); reflexivity|]. rewrite IH. destruct (f s k); reflexivity. Qed.
Theorem C62_setters : forall l, gm_get (fold_left gm_set l gm_init) =
  (map (latest number_for l) [Phi_; GammaG; GammaP; GammaQ], map (latest object_for l) [WR; WS; Res; Dead; Perm; Live], map (latest number_for l) [ResK; DeadK; PermK; LiveK]).
Proof.
  induction l as [|s l IH] using rev_ind; [reflexivity|]. rewrite fold_left_app. cbn [fold_left]. cbn [map]. rewrite !latest_snoc.
  destruct (fold_left gm_set l gm_init) as [phi gg gp gq wR wS r g p q rk gk pk qk]. unfold gm_get in *. cbn in IH. injection IH as -> -> -> -> -> -> -> -> -> -> -> -> -> ->.
  destruct s; reflexivity.
Qed.
Print Assumptions C62_setters.

(** *** what FORM is given: names decide the role of a distribution, not its slot *)
Definition named_ok (ds : list rv) : Prop := NoDup (map rv_name ds) /\ forall n, In n ["z"; "aq"; "ag"]%string -> ~ In n (map rv_name ds).
Theorem C62_limit_state : forall z aq ag d1 d2 d3 d4 d5 d6, let ds := [d1; d2; d3; d4; d5; d6] in named_ok ds ->
  exists sm, gen_submit z aq ag (ODist d1) (ODist d2) (ODist d3) (ODist d4) (ODist d5) (ODist d6) = Ok sm
  /\ sm_marg sm = ds /\ sm_consts sm = [("z", z); ("aq", aq); ("ag", ag)]%string
  /\ (incl six_roles (map rv_name ds) -> forall cols, compute_lsf sm gen_lsf 6 cols false =
        Ok (Arr (map (fun p => let v n := nth (pos_of n (map rv_name ds)) p 0 in
             z * v "wR"%string * v "R"%string - v "wS"%string * ((1 - aq) * (ag * v "G"%string + (1 - ag) * v "P"%string) + aq * v "Q"%string)) cols), []))
  /\ (~ incl six_roles (map rv_name ds) -> forall cols, compute_lsf sm gen_lsf 6 cols false = Err EType).
Proof.
  intros z aq ag d1 d2 d3 d4 d5 d6 ds [N D].
  set (os := [ODist d1; ODist d2; ODist d3; ODist d4; ODist d5; ODist d6; OConst "z" z; OConst "aq" aq; OConst "ag" ag]).
  assert (NM : names_of os = map rv_name ds ++ ["z"; "aq"; "ag"]%string) by reflexivity.
  destruct (add_objs_spec os sm_init [] reg_init) as (sm & E & RI).
  { intros o Ho. cbn in Ho. intuition (subst; discriminate). }
  { cbn [app]. rewrite NM. clear -N D. induction (map rv_name ds) as [|x l IH]; cbn [app]; [repeat constructor; cbn; intuition discriminate|]. inversion N; subst. constructor.
    - rewrite in_app_iff. intros [K|K]; [contradiction|]. apply (D x K). left. reflexivity.
    - apply IH; [assumption|]. intros n Hn K. apply (D n Hn). right. exact K. }
  exists sm. split; [exact E|]. cbn [app] in RI. pose proof RI as (_ & _ & Hm & _ & Hc). split; [exact Hm|]. split; [exact Hc|].
  assert (KW : forall cols, exists kw, lsf_kwargs sm 6 cols = Ok kw /\ Permutation (dict_keys kw) (map rv_name ds ++ ["z"; "aq"; "ag"]%string)
     /\ (forall i d, nth_error ds i = Some d -> dict_get kw (rv_name d) = Some (map (fun p => nth i p 0) cols))
     /\ dict_get kw "z" = Some (repeat z (length cols)) /\ dict_get kw "aq" = Some (repeat aq (length cols)) /\ dict_get kw "ag" = Some (repeat ag (length cols))).
  { intros cols. destruct (lsf_kwargs_reg sm os 6 cols RI) as (kw & K1 & K2 & _ & K3 & K4); [cbn; lia|]. exists kw. split; [exact K1|]. split; [rewrite <- NM; exact K2|]. split; [exact K3|].
    repeat split; apply K4; cbn; tauto. }
  split.
  - intros I cols. destruct (KW cols) as (kw & K1 & K2 & K3 & K4 & K5 & K6). unfold compute_lsf. rewrite K1. unfold gen_lsf.
    assert (F : forallb (fun k => mem_str k gen_args) (dict_keys kw) = true).
    { apply forallb_forall. intros k Hk. apply mem_str_In. apply (Permutation_in k K2) in Hk. apply in_app_iff in Hk. destruct Hk as [Hk|Hk]; [|cbn in Hk |- *; tauto].
      assert (In k six_roles); [|cbn in H |- *; tauto]. revert k Hk. change (incl (map rv_name ds) six_roles). apply NoDup_length_incl; [repeat constructor; cbn; intuition discriminate|cbn; lia|exact I]. }
    rewrite F. rewrite K4, K5, K6.
    assert (G : forall n, In n six_roles -> dict_get kw n = Some (map (fun p => nth (pos_of n (map rv_name ds)) p 0) cols)).
    { intros n Hn. pose proof (pos_of_nth n (map rv_name ds) (I n Hn)) as P. rewrite nth_error_map in P. destruct (nth_error ds (pos_of n (map rv_name ds))) as [d|] eqn:Ed; [|discriminate]. cbn in P. injection P as P. rewrite <- P at 1. apply K3. exact Ed. }
    rewrite (G "wR"%string), (G "R"%string), (G "wS"%string), (G "G"%string), (G "P"%string), (G "Q"%string) by (cbn; tauto). f_equal. f_equal. f_equal. rewrite repeat_length.
    apply map_seq_idx. intros i c Hc'. assert (Hi : (i < length cols)%nat) by (apply nth_error_Some; rewrite Hc'; discriminate).
    assert (NR : forall v, nth i (repeat v (length cols)) 0 = v) by (intros v; apply repeat_nth, Hi). rewrite !NR.
    assert (NN : forall f : list R -> R, nth i (map f cols) 0 = f c) by (intros f; apply nth_error_nth, map_nth_error, Hc'). rewrite !NN. reflexivity.
  - intros NI cols. destruct (KW cols) as (kw & K1 & K2 & _). unfold compute_lsf. rewrite K1. unfold gen_lsf.
    destruct (forallb (fun k => mem_str k gen_args) (dict_keys kw)); [|reflexivity].
    assert (Q : exists n, In n six_roles /\ dict_get kw n = None).
    { assert (X : exists n, In n six_roles /\ ~ In n (map rv_name ds)).
      { clear -NI. unfold incl in NI. induction six_roles as [|a l IH]; [exfalso; apply NI; intros ? []|]. destruct (in_dec string_dec a (map rv_name ds)) as [Y|Y]; [|exists a; split; [left; reflexivity|exact Y]].
        destruct IH as (n & Hn & Hd); [intros K; apply NI; intros b [<-|Hb]; [exact Y|apply K, Hb]|]. exists n. split; [right; exact Hn|exact Hd]. }
      destruct X as (n & Hn & Hd). exists n. split; [exact Hn|]. apply dget_none. intros K. apply (Permutation_in n K2) in K. apply in_app_iff in K. destruct K as [K|K]; [contradiction|]. cbn in Hn, K. intuition (subst; discriminate). }
    destruct Q as (n & Hn & Q). destruct (dict_get kw "z"), (dict_get kw "aq"), (dict_get kw "ag"); try reflexivity.
    cbn in Hn. destruct Hn as [<-|[<-|[<-|[<-|[<-|[<-|[]]]]]]]; rewrite Q; repeat match goal with |- context [match dict_get kw ?x with _ => _ end] => destruct (dict_get kw x) end; reflexivity.
Qed.
Print Assumptions C62_limit_state.

(** any other choice of objects is refused before FORM is started *)
Theorem C62_submit_raises : forall z aq ag o1 o2 o3 o4 o5 o6 form,
  ~ ((forall o, In o [o1; o2; o3; o4; o5; o6] -> valid_name o <> None) /\ NoDup (names_of [o1; o2; o3; o4; o5; o6] ++ ["z"; "aq"; "ag"]%string)) ->
  analyse_design form z aq ag o1 o2 o3 o4 o5 o6 = Err EException.
Proof.
  intros z aq ag o1 o2 o3 o4 o5 o6 form K. unfold analyse_design, gen_submit.
  assert (SP : [o1; o2; o3; o4; o5; o6; OConst "z" z; OConst "aq" aq; OConst "ag" ag] = [o1; o2; o3; o4; o5; o6] ++ [OConst "z" z; OConst "aq" aq; OConst "ag" ag]) by reflexivity.
  rewrite (add_objs_err _ sm_init [] reg_init); [reflexivity|]. cbn [app]. rewrite SP. intros [K1 K2]. apply K. split; [intros o Ho; apply K1, in_or_app; left; exact Ho|].
  rewrite names_of_app in K2. exact K2.
Qed.
Print Assumptions C62_submit_raises.

(** *** the grid *)
Theorem C62_grid : forall form Aq Ag m phi gg gp gq rk gk pk qk wR r wS g p q betas,
  gm_get m = ([Some phi; Some gg; Some gp; Some gq], [Some wR; Some wS; Some r; Some g; Some p; Some q], [Some rk; Some gk; Some pk; Some qk]) ->
  get_reliabilities form Aq Ag m = Ok betas ->
  length betas = length Ag
  /\ forall i ag, nth_error Ag i = Some ag -> exists row, nth_error betas i = Some row /\ length row = length Aq
     /\ forall j aq, nth_error Aq j = Some aq -> exists z b, nth_error row j = Some b
        /\ code_equation z aq ag phi gg gp gq rk gk pk qk /\ analyse_design form z aq ag wR r wS g p q = Ok b.
Proof.
  intros form Aq Ag m phi gg gp gq rk gk pk qk wR r wS g p q betas EG E. destruct (mapM_inv _ _ _ E) as [L H]. split; [exact L|]. intros i ag Hi.
  destruct (H i ag Hi) as (row & Er & Em). exists row. split; [exact Er|]. destruct (mapM_inv _ _ _ Em) as [L2 H2]. split; [exact L2|]. intros j aq Hj. destruct (H2 j aq Hj) as (b & Eb & Ep).
  destruct m as [a1 a2 a3 a4 a5 a6 a7 a8 a9 a10 a11 a12 a13 a14]. unfold gm_get in EG. cbn in EG. injection EG as -> -> -> -> -> -> -> -> -> -> -> -> -> ->.
  unfold gen_point in Ep. cbn in Ep. destruct (Reqb (phi * rk) 0) eqn:Ez; [discriminate|]. apply Reqb_false in Ez.
  exists (design aq ag phi gg gp gq rk gk pk qk), b. split; [exact Eb|]. split; [|exact Ep]. apply (proj1 (C62_design_equation (design aq ag phi gg gp gq rk gk pk qk) aq ag phi gg gp gq rk gk pk qk Ez)). reflexivity.
Qed.
Print Assumptions C62_grid.

(** ** C63 the protocol *)
Section Protocol.
Variable form : smodel -> expression -> result R.
Variables Aq Ag : list R.
Notation state h := (ghist form Aq Ag h).
(** an analyse call that did not raise, with no add_model after it *)
Definition analysed_since (h : list gop) : Prop :=
  exists h1 h2, h = h1 ++ GAnalyse :: h2 /\ snd (analyse form Aq Ag (fst (state h1)) (snd (state h1))) = Ok tt /\ forall id, ~ In (GAdd id) h2.
Lemma ghist_snoc h o : state (h ++ [o]) = gstep form Aq Ag (state h) o.
Proof. unfold ghist. rewrite fold_left_app. reflexivity. Qed.

(** for every history: the flag, and that a set flag means that every model has results *)
Lemma protocol_inv h : (gc_analysed (snd (state h)) = true <-> analysed_since h)
  /\ (gc_analysed (snd (state h)) = true -> forall id b, In (id, b) (gc_models (snd (state h))) -> b <> None)
  /\ map fst (gc_models (snd (state h))) = flat_map (fun o => match o with GAdd id => [id] | _ => [] end) h.
Proof.
  induction h as [|o h IH] using rev_ind.
  - cbn. split; [|split; [discriminate|reflexivity]]. split; [discriminate|]. intros (h1 & h2 & H & _). destruct h1; discriminate.
  - rewrite ghist_snoc. destruct IH as (I1 & I2 & I3). set (st := state h) in *. rewrite flat_map_app. cbn [flat_map].
    assert (SN : forall o', (forall id, o' <> GAdd id) -> o' <> GAnalyse -> (analysed_since (h ++ [o']) <-> analysed_since h)).
    { intros o' A B. split.
      - intros (h1 & h2 & H & S & N). destruct h2 as [|x h2] using rev_ind; [apply app_inj_tail in H; destruct H as [_ H]; congruence|]. clear IHh2.
        rewrite app_comm_cons, app_assoc in H. apply app_inj_tail in H. destruct H as [-> _]. exists h1, h2. split; [reflexivity|]. split; [exact S|]. intros id K. apply (N id), in_or_app. left. exact K.
      - intros (h1 & h2 & H & S & N). exists h1, (h2 ++ [o']). split; [rewrite H, <- app_assoc; reflexivity|]. split; [exact S|]. intros id K. apply in_app_iff in K. destruct K as [K|[K|[]]]; [exact (N id K)|exact (A id K)]. }
    destruct o as [id s|id| |].
    + assert (K : snd (gstep form Aq Ag st (GSet id s)) = snd st) by (destruct st; reflexivity). rewrite K, app_nil_r. split; [|split; [exact I2|exact I3]]. rewrite SN by discriminate. exact I1.
    + assert (K : snd (gstep form Aq Ag st (GAdd id)) = add_model (snd st) id) by (destruct st; reflexivity). rewrite K. cbn [add_model gc_analysed gc_models]. split; [|split; [discriminate|rewrite map_app, I3; reflexivity]].
      split; [discriminate|]. intros (h1 & h2 & H & S & N). destruct h2 as [|x h2] using rev_ind; [apply app_inj_tail in H; destruct H as [_ H]; discriminate|]. clear IHh2.
      rewrite app_comm_cons, app_assoc in H. apply app_inj_tail in H. destruct H as [_ <-]. exfalso. apply (N id), in_or_app. right. left. reflexivity.
    + assert (K : snd (gstep form Aq Ag st GAnalyse) = fst (analyse form Aq Ag (fst st) (snd st))) by (destruct st; reflexivity). rewrite K, app_nil_r.
      assert (AS : forall b, gc_analysed (fst (analyse form Aq Ag (fst st) (snd st))) = b -> (snd (analyse form Aq Ag (fst st) (snd st)) = Ok tt /\ b = true) \/ ((forall u, snd (analyse form Aq Ag (fst st) (snd st)) <> Ok u) /\ b = gc_analysed (snd st))).
      { intros b <-. unfold analyse. destruct (gc_models (snd st)) as [|x l] eqn:EM; [right; split; [discriminate|reflexivity]|]. destruct (analyse_all form Aq Ag (fst st) (x :: l)) as [ms [e|]]; cbn; [right; split; [discriminate|reflexivity]|left; split; reflexivity]. }
      split; [|split].
      * destruct (AS _ eq_refl) as [[S ->]|[S ->]].
        -- split; [|reflexivity]. intros _. exists h, []. split; [reflexivity|]. split; [exact S|]. intros id [].
        -- rewrite I1. split.
           ++ intros (h1 & h2 & H & S' & N). exists h1, (h2 ++ [GAnalyse]). split; [rewrite H, <- app_assoc; reflexivity|]. split; [exact S'|]. intros id Q. apply in_app_iff in Q. destruct Q as [Q|[Q|[]]]; [exact (N id Q)|discriminate].
           ++ intros (h1 & h2 & H & S' & N). destruct h2 as [|x h2] using rev_ind.
              ** apply app_inj_tail in H. destruct H as [-> _]. exfalso. exact (S tt S').
              ** clear IHh2. rewrite app_comm_cons, app_assoc in H. apply app_inj_tail in H. destruct H as [-> _]. exists h1, h2. split; [reflexivity|]. split; [exact S'|]. intros id Q. apply (N id), in_or_app. left. exact Q.
      * intros F. destruct (AS _ eq_refl) as [[S _]|[S F']].
        -- revert S. unfold analyse. destruct (gc_models (snd st)) as [|x l] eqn:EM; [discriminate|]. destruct (analyse_all form Aq Ag (fst st) (x :: l)) as [ms [e|]] eqn:EA; cbn; [discriminate|].
           intros _ id b Hb. destruct (analyse_all_ok _ _ _ _ _ _ EA) as [_ Q]. destruct (Q id b Hb) as (beta & -> & _). discriminate.
        -- rewrite F in F'. symmetry in F'. specialize (I2 F'). unfold analyse. destruct (gc_models (snd st)) as [|x l] eqn:EM; [cbn; rewrite EM; intros ? ? []|].
           destruct (analyse_all form Aq Ag (fst st) (x :: l)) as [ms [e|]] eqn:EA; cbn [fst gc_models]; exact (analyse_all_keep _ _ _ _ _ _ _ EA I2).
      * rewrite <- I3. unfold analyse. destruct (gc_models (snd st)) as [|x l] eqn:EM; [cbn; rewrite EM; reflexivity|].
        destruct (analyse_all form Aq Ag (fst st) (x :: l)) as [ms [e|]] eqn:EA; cbn [fst gc_models]; exact (analyse_all_ids _ _ _ _ _ _ _ EA).
    + assert (K : snd (gstep form Aq Ag st GPlot) = snd st) by (destruct st; reflexivity). rewrite K, app_nil_r. split; [|split; [exact I2|exact I3]]. rewrite SN by discriminate. exact I1.
Qed.
End Protocol.

(** plot succeeds exactly after a successful analyse that no add_model followed *)
Theorem C63_plot_iff : forall form Aq Ag h, Ag <> [] ->
  ((exists p, plot (length Aq) (snd (ghist form Aq Ag h)) = Ok p) <-> analysed_since form Aq Ag h)
  /\ (~ analysed_since form Aq Ag h -> plot (length Aq) (snd (ghist form Aq Ag h)) = Err EValue).
Proof.
  intros form Aq Ag h NE.
  assert (ROWS : forall h id beta, In (id, Some beta) (gc_models (snd (ghist form Aq Ag h))) -> beta <> []).
  { clear h. induction h as [|o h IH] using rev_ind; [intros ? ? []|]. intros id beta. rewrite ghist_snoc. destruct (ghist form Aq Ag h) as [store c] eqn:EH. cbn [snd] in IH. destruct o as [id0 s|id0| |]; cbn [gstep snd fst].
    - apply IH.
    - cbn [add_model gc_models]. rewrite in_app_iff. intros [K|[K|[]]]; [exact (IH _ _ K)|discriminate].
    - unfold analyse. destruct (gc_models c) as [|x l] eqn:EM; [cbn; rewrite EM; intros []|].
      assert (Q : forall ms ms' e, analyse_all form Aq Ag store ms = (ms', e) -> (forall id b, In (id, Some b) ms -> b <> []) -> forall id b, In (id, Some b) ms' -> b <> []).
      { clear -NE. induction ms as [|[i b] ms IHm]; intros ms' e H K; cbn [analyse_all] in H; [injection H as <- _; intros ? ? []|].
        destruct (get_reliabilities form Aq Ag (store i)) as [bb|x] eqn:EB; [|injection H as <- _; exact K]. destruct (analyse_all form Aq Ag store ms) as [r' e'] eqn:E'. injection H as <- <-.
        intros i' b' [Q|Q]; [injection Q as <- <-|exact (IHm r' e' eq_refl (fun i b H => K i b (or_intror H)) i' b' Q)].
        destruct (mapM_inv _ _ _ EB) as [L _]. intros ->. destruct Ag; [contradiction|discriminate L]. }
      destruct (analyse_all form Aq Ag store (x :: l)) as [ms [e|]] eqn:EA; cbn [fst gc_models]; apply (Q _ _ _ EA IH).
    - apply IH. }
  destruct (protocol_inv form Aq Ag h) as (I1 & I2 & _). unfold plot. split.
  - rewrite <- I1. split.
    + intros [p H]. destruct (gc_analysed (snd (ghist form Aq Ag h))); [reflexivity|discriminate].
    + intros F. rewrite F. apply mapM_none. intros [id b] Hb. destruct b as [beta|]; [|exfalso; exact (I2 F id None Hb eq_refl)]. cbn [snd plot_region]. destruct beta as [|b0 bs]; [exfalso; exact (ROWS h id [] Hb eq_refl)|]. eauto.
  - intros N. destruct (gc_analysed (snd (ghist form Aq Ag h))) eqn:F; [exfalso; apply N, I1; reflexivity|reflexivity].
Qed.
Print Assumptions C63_plot_iff.

(** analyse raises iff there are no models (ValueError) or the evaluation of some model
    raises; after a call that does not raise every model, in order of addition, has the
    reliabilities of its current parameters *)
Theorem C63_analyse : forall form Aq Ag h, let store := fst (ghist form Aq Ag h) in let c := snd (ghist form Aq Ag h) in
  let ids := flat_map (fun o => match o with GAdd id => [id] | _ => [] end) h in
  map fst (gc_models c) = ids
  /\ (ids = [] -> analyse form Aq Ag store c = (c, Err EValue))
  /\ (ids <> [] -> ((exists e, snd (analyse form Aq Ag store c) = Err e) <-> exists id e, In id ids /\ get_reliabilities form Aq Ag (store id) = Err e))
  /\ (snd (analyse form Aq Ag store c) = Ok tt -> let c' := fst (analyse form Aq Ag store c) in
        gc_analysed c' = true /\ map fst (gc_models c') = ids /\ forall id b, In (id, b) (gc_models c') -> exists beta, b = Some beta /\ get_reliabilities form Aq Ag (store id) = Ok beta).
Proof.
  intros form Aq Ag h store c ids. destruct (protocol_inv form Aq Ag h) as (_ & _ & I3). fold c ids in I3. split; [exact I3|]. split; [|split].
  - intros E. rewrite E in I3. unfold analyse. destruct (gc_models c); [reflexivity|discriminate].
  - intros NE. unfold analyse. destruct (gc_models c) as [|x l] eqn:EM; [exfalso; apply NE; rewrite <- I3; reflexivity|]. pose proof (analyse_all_fail form Aq Ag store (x :: l)) as F.
    assert (EQ : (exists id e, In id ids /\ get_reliabilities form Aq Ag (store id) = Err e) <-> exists id b e, In (id, b) (x :: l) /\ get_reliabilities form Aq Ag (store id) = Err e).
    { rewrite <- I3. split.
      - intros (id & e & Hi & He). apply in_map_iff in Hi. destruct Hi as ([id' b] & Hid & Hi). cbn in Hid. subst id'. eauto.
      - intros (id & b & e & Hi & He). exists id, e. split; [apply (in_map fst) in Hi; exact Hi|exact He]. }
    rewrite EQ, <- F. destruct (analyse_all form Aq Ag store (x :: l)) as [ms [e|]]; cbn; split; eauto; intros (e' & H); [discriminate|destruct H as (ms' & H); discriminate].
  - intros S. rewrite <- I3. unfold analyse in *. destruct (gc_models c) as [|x l] eqn:EM; [discriminate|]. destruct (analyse_all form Aq Ag store (x :: l)) as [ms [e|]] eqn:EA; [discriminate|]. cbn [fst gc_analysed gc_models].
    split; [reflexivity|]. apply (analyse_all_ok _ _ _ _ _ _ EA).
Qed.
Print Assumptions C63_analyse.

(** plot does not look at the parameters: setters called after the analysis go unnoticed,
    and so does an analyse call that raised *)
Theorem C63_plot_stale : forall form Aq Ag h, analysed_since form Aq Ag h ->
  (forall id s, plot (length Aq) (snd (ghist form Aq Ag (h ++ [GSet id s]))) = plot (length Aq) (snd (ghist form Aq Ag h)))
  /\ (forall e, Ag <> [] -> snd (analyse form Aq Ag (fst (ghist form Aq Ag h)) (snd (ghist form Aq Ag h))) = Err e -> exists p, plot (length Aq) (snd (ghist form Aq Ag (h ++ [GAnalyse]))) = Ok p).
Proof.
  intros form Aq Ag h A. split.
  - intros id s. rewrite ghist_snoc. destruct (ghist form Aq Ag h). reflexivity.
  - intros e NE E. apply (proj1 (C63_plot_iff form Aq Ag (h ++ [GAnalyse]) NE)). destruct A as (h1 & h2 & -> & S & N). exists h1, (h2 ++ [GAnalyse]). split; [rewrite <- app_assoc; reflexivity|]. split; [exact S|].
    intros id K. apply in_app_iff in K. destruct K as [K|[K|[]]]; [exact (N id K)|discriminate].
Qed.
Print Assumptions C63_plot_stale.

(** ** C77 what a plotted region is *)
Theorem C77_region : forall nq betas lo hi line, plot_region nq (Some betas) = Ok (lo, hi, line) ->
  length lo = nq /\ length hi = nq /\ nth_error betas (length betas - 1) = Some line
  /\ forall j, (j < nq)%nat ->
     (exists r, In r betas /\ nth j lo 0 = nth j r 0) /\ (exists r, In r betas /\ nth j hi 0 = nth j r 0)
     /\ forall r, In r betas -> nth j lo 0 <= nth j r 0 <= nth j hi 0.
Proof.
  intros nq betas lo hi line H. destruct betas as [|b0 bs]; cbn [plot_region] in H; [discriminate|]. injection H as <- <- <-. rewrite !map_length, !seq_length.
  split; [reflexivity|]. split; [reflexivity|]. split.
  - cbn [length]. replace (S (length bs) - 1)%nat with (length bs) by lia. clear. revert b0. induction bs as [|b bs IH]; intros b0; [reflexivity|]. cbn [length nth_error]. rewrite (IH b).
    f_equal. destruct bs as [|x bs]; [reflexivity|]. clear. change (last (b :: x :: bs) b0) with (last (x :: bs) b0). revert x. induction bs as [|y bs IH]; intros x; [reflexivity|].
    change (last (x :: y :: bs) b) with (last (y :: bs) b). change (last (x :: y :: bs) b0) with (last (y :: bs) b0). apply IH.
  - intros j Hj. assert (Q : forall f : nat -> R, nth j (map f (seq 0 nq)) 0 = f j).
    { intros f. apply nth_error_nth. apply map_nth_error. rewrite (nth_error_nth' _ 0%nat) by (rewrite seq_length; exact Hj). f_equal. apply seq_nth, Hj. }
    rewrite !Q. unfold colext. destruct (fold_ext_min j bs (nth j b0 0)) as (A1 & A2 & A3). destruct (fold_ext_max j bs (nth j b0 0)) as (B1 & B2 & B3). split; [|split].
    + destruct A3 as [A3|(r & Hr & A3)]; [exists b0; split; [left; reflexivity|exact A3]|exists r; split; [right; exact Hr|exact A3]].
    + destruct B3 as [B3|(r & Hr & B3)]; [exists b0; split; [left; reflexivity|exact B3]|exists r; split; [right; exact Hr|exact B3]].
    + intros r [<-|Hr]; [split; assumption|split; [apply A2|apply B2]; exact Hr].
Qed.
Print Assumptions C77_region.

(** the dotted line belongs to the LAST dead load ratio of the grid *)
Theorem C77_line_is_last_ratio : forall form nq Aq Ag m betas lo hi line,
  get_reliabilities form Aq Ag m = Ok betas -> plot_region nq (Some betas) = Ok (lo, hi, line) ->
  exists ag, nth_error Ag (length Ag - 1) = Some ag /\ mapM (gen_point form m ag) Aq = Ok line.
Proof.
  intros form nq Aq Ag m betas lo hi line E P. destruct (C77_region nq betas lo hi line P) as (_ & _ & L & _). destruct (mapM_inv _ _ _ E) as [LE H].
  destruct (nth_error Ag (length Ag - 1)) as [ag|] eqn:Ea.
  - exists ag. split; [reflexivity|]. destruct (H _ ag Ea) as (row & Er & Em). rewrite LE in L. rewrite L in Er. injection Er as ->. exact Em.
  - exfalso. apply nth_error_None in Ea. assert (length Ag <> 0)%nat; [|lia]. rewrite <- LE. destruct betas; [discriminate P|discriminate].
Qed.
Print Assumptions C77_line_is_last_ratio.

(** "a line for the smallest dead load ratio" fails for an increasing grid *)
Theorem C77_smallest_ratio_refuted : exists form Aq Ag m betas lo hi line ag0 row0,
  get_reliabilities form Aq Ag m = Ok betas /\ plot_region (length Aq) (Some betas) = Ok (lo, hi, line)
  /\ In ag0 Ag /\ (forall ag, In ag Ag -> ag0 <= ag) /\ mapM (gen_point form m ag0) Aq = Ok row0 /\ line <> row0.
Proof.
  set (d := fun n => ODist (mkrv n 1 1 1 (fun u => u) (fun x => x) (fun _ _ => 1))).
  set (form := fun (s : smodel) (_ : expression) => match dict_get (sm_consts s) "ag" with Some v => Ok v | None => Err EKey end).
  set (m := fold_left gm_set [SFactors 1 1 1 1; SDists (d "wR"%string) (d "wS"%string) (d "R"%string) (d "G"%string) (d "P"%string) (d "Q"%string); SNominals 1 1 1 1] gm_init).
  assert (V : forall ag aq, gen_point form m ag aq = Ok ag).
  { intros ag aq. unfold gen_point, m. cbn [fold_left gm_set gm_init gm_phi gm_gg gm_gp gm_gq gm_Rk gm_Gk gm_Pk gm_Qk gm_wR gm_wS gm_R gm_G gm_P gm_Q as_obj]. rewrite (proj2 (Reqb_false (1 * 1) 0)) by lra. generalize (design aq ag 1 1 1 1 1 1 1 1). intros z. reflexivity. }
  clearbody m form. clear d.
  exists form, [/ 2], [/ 4; 1], m, [[/ 4]; [1]], [/ 4], [1], [1], (/ 4), [/ 4]. split; [cbn [get_reliabilities mapM]; rewrite !V; reflexivity|].
  split; [|split; [left; reflexivity|split; [intros ag [<-|[<-|[]]]; lra|split; [cbn [mapM]; rewrite V; reflexivity|intros K; injection K as K; lra]]]].
  cbn. unfold colext. cbn. rewrite Rmin_left, Rmax_right by lra. reflexivity.
Qed.
Print Assumptions C77_smallest_ratio_refuted.

(** *** Non-vacuity *)
Example C62_example : exists Aq Ag m form betas d1 d2 d3 d4 d5 d6,
  get_reliabilities form Aq Ag m = Ok betas /\ (exists b, nth_error betas 1 = Some b /\ length b = 2%nat)
  /\ named_ok [d1; d2; d3; d4; d5; d6] /\ incl six_roles (map rv_name [d1; d2; d3; d4; d5; d6])
  /\ gm_get m = ([Some (9/10); Some (5/4); Some (6/5); Some (3/2)], [Some (ODist d1); Some (ODist d3); Some (ODist d2); Some (ODist d4); Some (ODist d5); Some (ODist d6)], [Some 1; Some 1; Some 1; Some 1])
  /\ design (/ 2) (/ 2) (9/10) (5/4) (6/5) (3/2) 1 1 1 1 = 109 / 72.
Proof.
  set (d := fun n => mkrv n 1 1 1 (fun u => u) (fun x => x) (fun _ _ => 1)).
  set (m := fold_left gm_set [SFactors (9/10) (5/4) (6/5) (3/2); SDists (ODist (d "wR"%string)) (ODist (d "wS"%string)) (ODist (d "R"%string)) (ODist (d "G"%string)) (ODist (d "P"%string)) (ODist (d "Q"%string)); SNominals 1 1 1 1] gm_init).
  assert (V : forall ag aq, gen_point (fun _ _ => Ok 0) m ag aq = Ok 0).
  { intros ag aq. unfold gen_point, m. cbn [fold_left gm_set gm_init gm_phi gm_gg gm_gp gm_gq gm_Rk gm_Gk gm_Pk gm_Qk gm_wR gm_wS gm_R gm_G gm_P gm_Q as_obj]. rewrite (proj2 (Reqb_false (9 / 10 * 1) 0)) by lra. generalize (design aq ag (9/10) (5/4) (6/5) (3/2) 1 1 1 1). intros z. reflexivity. }
  exists [0; / 2], [/ 4; 1], m, (fun _ _ => Ok 0), [[0; 0]; [0; 0]], (d "wR"%string), (d "R"%string), (d "wS"%string), (d "G"%string), (d "P"%string), (d "Q"%string).
  split; [cbn [get_reliabilities mapM]; rewrite !V; reflexivity|]. split; [eexists; split; reflexivity|]. clear V. split; [split; [repeat constructor; cbn; intuition discriminate|intros n Hn; cbn in Hn |- *; intuition (subst; discriminate)]|].
  split; [intros x Hx; exact Hx|]. split; [reflexivity|unfold design; lra].
Qed.
Example C63_example : exists form Aq Ag h, analysed_since form Aq Ag h /\ Ag <> [] /\ In (GAdd 0) h /\ ~ analysed_since form Aq Ag (h ++ [GAdd 1]).
Proof.
  set (d := fun n => ODist (mkrv n 1 1 1 (fun u => u) (fun x => x) (fun _ _ => 1))).
  exists (fun _ _ => Ok 0), [/ 2], [/ 2], [GAdd 0; GSet 0 (SFactors 1 1 1 1); GSet 0 (SDists (d "wR"%string) (d "wS"%string) (d "R"%string) (d "G"%string) (d "P"%string) (d "Q"%string)); GSet 0 (SNominals 1 1 1 1); GAnalyse].
  split; [|split; [discriminate|split; [left; reflexivity|]]].
  - exists [GAdd 0; GSet 0 (SFactors 1 1 1 1); GSet 0 (SDists (d "wR"%string) (d "wS"%string) (d "R"%string) (d "G"%string) (d "P"%string) (d "Q"%string)); GSet 0 (SNominals 1 1 1 1)], []. split; [reflexivity|]. split; [|intros id []]. unfold ghist, analyse, analyse_all, get_reliabilities, mapM, gen_point. cbn [fold_left gstep fst snd add_model gc_init gc_models gc_analysed app Nat.eqb gm_set gm_init gm_phi gm_gg gm_gp gm_gq gm_Rk gm_Gk gm_Pk gm_Qk gm_wR gm_wS gm_R gm_G gm_P gm_Q as_obj]. rewrite (proj2 (Reqb_false (1 * 1) 0)) by lra. generalize (design (/ 2) (/ 2) 1 1 1 1 1 1 1 1). intros z. reflexivity.
  - intros K. apply (protocol_inv (fun _ _ => Ok 0) [/ 2] [/ 2]) in K. rewrite ghist_snoc in K.
    match type of K with context [ghist ?a ?b ?c ?d] => destruct (ghist a b c d) end. cbn in K. discriminate.
Qed.
