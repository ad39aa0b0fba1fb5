From Coquelicot Require Import Coquelicot.
From Verif Require Import Base Ext Gauss GaussProofs StochModel LimitState Transf Form FormProofs Sorm Mc Ss Ls ScaleSpec ScaleProofs ScaleFormProofs.
From Coq Require Import ZArith Lra Lia FunctionalExtensionality.
Open Scope R_scope.

(** * Monte Carlo: only the signs matter *)
Definition same_but_G (a b : mc_state) : Prop :=
  ms_k a = ms_k b /\ ms_off a = ms_off b /\ ms_sum_q a = ms_sum_q b /\ ms_sum_q2 a = ms_sum_q2 b /\
  ms_qbar a = ms_qbar b /\ ms_cov a = ms_cov b /\ ms_uall a = ms_uall b /\ ms_xall a = ms_xall b /\
  ms_approx a = ms_approx b /\ ms_blocks a = ms_blocks b /\ ms_hist a = ms_hist b.

Lemma weights_sign nrv p s us : forall G G', Forall2 (fun a b => a < 0 <-> b < 0) G G' ->
  map (fun ug => weight nrv p s (fst ug) (indicator (snd ug))) (combine us G) =
  map (fun ug => weight nrv p s (fst ug) (indicator (snd ug))) (combine us G').
Proof.
  induction us as [|u us IH]; intros G G' H; [reflexivity|]. inversion H as [|a b G0 G0' Hab H']; subst; [reflexivity|].
  cbn [combine map fst snd]. rewrite (IH _ _ H'). f_equal. f_equal. unfold indicator.
  destruct (Rltb a 0) eqn:E.
  - apply Rltb_spec in E. rewrite (proj2 (Rltb_spec b 0)) by tauto. reflexivity.
  - apply Rltb_false in E. rewrite (proj2 (Rltb_false b 0)); [reflexivity|]. destruct (Rlt_or_le b 0) as [L|L]; [|exact L]. apply Hab in L. lra.
Qed.

Definition sign_eq (Gof Gof' : list vec -> result (list R)) : Prop := forall us,
  match Gof us, Gof' us with
  | Ok G, Ok G' => Forall2 (fun a b => a < 0 <-> b < 0) G G'
  | Err e, Err e' => e = e'
  | _, _ => False
  end.

Lemma block_sign nrv o stream p tox Gof Gof' a b k : sign_eq Gof Gof' -> same_but_G a b ->
  match mc_block nrv o stream p tox Gof a k, mc_block nrv o stream p tox Gof' b k with
  | Ok a', Ok b' => same_but_G a' b'
  | Err e, Err e' => e = e'
  | _, _ => False
  end.
Proof.
  intros H (E1&E2&E3&E4&E5&E6&E7&E8&E9&E10&E11). unfold mc_block. destruct (k <? 0)%Z; [reflexivity|]. destruct (negb (mo_rg o =? 0)%Z); [reflexivity|].
  rewrite E2. set (us := map _ _). specialize (H us). destruct (Gof us) as [G|e], (Gof' us) as [G'|e']; try contradiction; [|exact H].
  rewrite (weights_sign nrv p (mo_stdv o) us G G' H). unfold same_but_G. cbn. rewrite E1, E3, E4, E7, E8, E9, E10, E11. repeat split.
Qed.

Definition out_sign (a b : mc_out) : Prop := match a, b with MDone s, MDone t => same_but_G s t | MRaise e, MRaise f => e = f | MFuel, MFuel => True | _, _ => False end.

Lemma loop_sign nrv o stream p tox Gof Gof' : sign_eq Gof Gof' -> forall fuel a b, same_but_G a b ->
  out_sign (mc_loop nrv o stream p tox Gof fuel a) (mc_loop nrv o stream p tox Gof' fuel b).
Proof.
  intros H. induction fuel as [|f IH]; intros a b S; [exact I|]. cbn [mc_loop]. pose proof S as (E1&_). rewrite E1.
  destruct (ms_k b <? mo_samples o)%Z; [|exact S]. pose proof (block_sign nrv o stream p tox Gof Gof' a b (Z.min (mo_block o) (mo_samples o - ms_k b)) H S) as B.
  destruct (mc_block nrv o stream p tox Gof a _) as [a'|e], (mc_block nrv o stream p tox Gof' b _) as [b'|e']; try contradiction; [|exact B].
  pose proof B as (_&_&_&_&_&E6&_). rewrite E6. destruct (Rleb (ms_cov b') (mo_target o)); [exact B|apply IH, B].
Qed.

Lemma run_sign nrv o stream p tox Gof Gof' fuel prev prev' off : sign_eq Gof Gof' -> same_but_G prev prev' ->
  out_sign (mc_run nrv o stream p tox Gof fuel prev off) (mc_run nrv o stream p tox Gof' fuel prev' off).
Proof.
  intros H S. unfold mc_run. destruct (mo_samples o <? 0)%Z; [reflexivity|]. destruct (mo_samples o =? 0)%Z; [reflexivity|].
  apply loop_sign; [exact H|]. destruct S as (_&_&_&_&_&_&E7&E8&E9&_&_). unfold same_but_G. cbn. rewrite E7, E8, E9. repeat split.
Qed.

Lemma mc_ls_sign l s expr expr' o n invT m : 0 < l -> times l expr expr' ->
  sign_eq (mc_limit_state s expr o n invT m) (mc_limit_state s expr' o n invT m).
Proof.
  intros Hl Ht us. unfold mc_limit_state. rewrite (form_trial_scale l expr expr' _ _ _ _ _ _ _ Ht). cbn [fst].
  destruct (fst (form_trial _ s expr o n invT m us)) as [G|e]; [|reflexivity]. cbn [scale_res].
  induction G as [|g G IH]; constructor; [nra|exact IH].
Qed.

(** * Subset simulation: thresholds scale *)
Section S.
Variable l : R.
Hypothesis Hl : 0 < l.

Lemma Rleb_scale a b : Rleb (l * a) (l * b) = Rleb a b.
Proof. destruct (Rleb a b) eqn:E; [apply Rleb_spec in E; apply Rleb_spec; nra|apply Rleb_false in E; apply Rleb_false; nra]. Qed.

Lemma insert_scale x : forall s, insert (l * x) (map (Rmult l) s) = map (Rmult l) (insert x s).
Proof. induction s as [|y s IH]; [reflexivity|]. cbn [insert map]. rewrite Rleb_scale. destruct (Rleb x y); [reflexivity|]. cbn [map]. rewrite IH. reflexivity. Qed.
Lemma sort_scale : forall s, sort (map (Rmult l) s) = map (Rmult l) (sort s).
Proof. induction s as [|y s IH]; [reflexivity|]. cbn [sort map]. rewrite IH. apply insert_scale. Qed.
Lemma percentile_scale G q : percentile (map (Rmult l) G) q = l * percentile G q.
Proof. unfold percentile. rewrite sort_scale, map_length, !nth_scale. ring. Qed.
Lemma count_scale G y : count_le (map (Rmult l) G) (l * y) = count_le G y.
Proof. unfold count_le. induction G as [|g G IH]; [reflexivity|]. cbn [map filter]. rewrite Rleb_scale. destruct (Rleb g y); cbn [length]; rewrite IH; reflexivity. Qed.

Definition sc2 (ug : vec * R) : vec * R := (fst ug, l * snd ug).
Lemma seeds_scale smp y : seeds_of (map sc2 smp) (l * y) = map sc2 (seeds_of smp y).
Proof. unfold seeds_of. induction smp as [|[u g] smp IH]; [reflexivity|]. cbn [map filter sc2 fst snd]. rewrite Rleb_scale. destruct (Rleb g y); cbn [map]; rewrite IH; reflexivity. Qed.
Lemma snd_sc2 smp : map snd (map sc2 smp) = map (Rmult l) (map snd smp).
Proof. rewrite !map_map. reflexivity. Qed.
Lemma combine_sc2 us : forall G, combine us (map (Rmult l) G) = map sc2 (combine us G).
Proof. induction us as [|u us IH]; intros [|g G]; [reflexivity..|]. cbn. rewrite IH. reflexivity. Qed.

Variables (nrv N : nat) (block : Z) (p0 sigma : R) (randn unif : nat -> R) (Gof Gof' : list vec -> result (list R)).
Hypothesis HG : forall us, Gof' us = scale_res (map (Rmult l)) (Gof us).

Lemma blocks_scale : forall f us, eval_blocks block Gof' f us = scale_res (map (Rmult l)) (eval_blocks block Gof f us).
Proof.
  induction f as [|f IH]; intros us; [reflexivity|]. cbn [eval_blocks]. destruct us as [|u us]; [reflexivity|]. rewrite HG.
  destruct (Gof _) as [G|e]; [|reflexivity]. cbn [scale_res]. rewrite IH. destruct (eval_blocks block Gof f _) as [G2|e]; [|reflexivity].
  cbn [scale_res]. rewrite map_app. reflexivity.
Qed.

Definition sc_lv (o : ss_level_out) : ss_level_out := match o with LvDone s p c => LvDone (map sc2 s) p c | LvRaise e => LvRaise e end.

Lemma chain_scale thr : forall k u g pos calls acc,
  mmh_chain nrv sigma unif Gof' k (l * thr) u (l * g) pos calls (map sc2 acc) = sc_lv (mmh_chain nrv sigma unif Gof k thr u g pos calls acc).
Proof.
  induction k as [|k IH]; intros u g pos calls acc; [reflexivity|]. cbn [mmh_chain]. rewrite HG. destruct (Gof _) as [G|e]; [|reflexivity].
  cbn [scale_res]. rewrite nth_scale, Rleb_scale. destruct (Rleb (nth 0 G 0) thr); cbn [fst snd]; rewrite <- IH, map_app; reflexivity.
Qed.

Lemma chains_scale thr Ns : forall seeds s pos calls acc,
  mmh_chains nrv N sigma unif Gof' Ns s (map sc2 seeds) (l * thr) pos calls (map sc2 acc) = sc_lv (mmh_chains nrv N sigma unif Gof Ns s seeds thr pos calls acc).
Proof.
  induction seeds as [|[u g] seeds IH]; intros s pos calls acc; [reflexivity|]. cbn [mmh_chains map sc2 fst snd]. rewrite chain_scale.
  destruct (mmh_chain _ _ _ _ _ _ _ _ _ _ _) as [acc' pos' c'|e]; [|reflexivity]. cbn [sc_lv]. apply IH.
Qed.

Lemma step_scale seeds thr pos calls : mmh_step nrv N sigma unif Gof' (map sc2 seeds) (l * thr) pos calls = sc_lv (mmh_step nrv N sigma unif Gof seeds thr pos calls).
Proof. destruct seeds as [|s0 seeds]; [reflexivity|]. unfold mmh_step. rewrite <- (chains_scale thr _ (s0 :: seeds) 0%nat pos calls []), map_length. reflexivity. Qed.

Definition sc_ss (st : ss_state) : ss_state := mkss (map (Rmult l) (ss_thresholds st)) (ss_probs st) (ss_Pf st) (ss_nlevels st) (map (map sc2) (ss_levels st)) (ss_calls st).
Definition sc_so (o : ss_out) : ss_out := match o with SDone st => SDone (sc_ss st) | SRaise e => SRaise e | SFuel => SFuel end.

Lemma Rleb0 a : Rleb (l * a) 0 = Rleb a 0.
Proof. rewrite <- (Rleb_scale a 0), Rmult_0_r. reflexivity. Qed.
Lemma count0 G : count_le (map (Rmult l) G) 0 = count_le G 0.
Proof. rewrite <- (count_scale G 0), Rmult_0_r. reflexivity. Qed.

Lemma ss_loop_scale : forall f st seeds y pos level,
  ss_loop nrv N p0 sigma unif Gof' f (sc_ss st) (map sc2 seeds) (l * y) pos level = sc_so (ss_loop nrv N p0 sigma unif Gof f st seeds y pos level).
Proof.
  induction f as [|f IH]; intros st seeds y pos level; [reflexivity|]. cbn [ss_loop].
  assert (E0 : ss_calls (sc_ss st) = ss_calls st) by reflexivity. rewrite E0, step_scale.
  destruct (mmh_step _ _ _ _ _ _ _ _ _) as [smp pos' c'|e]; [|reflexivity]. cbn [sc_lv]. cbv zeta.
  rewrite snd_sc2, percentile_scale, Rleb0. destruct (Rleb _ 0).
  - unfold sc_ss; cbn [sc_so ss_thresholds ss_probs ss_Pf ss_nlevels ss_levels ss_calls]. unfold sc_ss. cbn. rewrite count0, !map_app. cbn. rewrite Rmult_0_r. reflexivity.
  - rewrite count_scale, seeds_scale, <- IH. unfold sc_ss. cbn. rewrite !map_app. reflexivity.
Qed.

Lemma ss_run_scale fuel : ss_run nrv N block p0 sigma randn unif Gof' fuel = sc_so (ss_run nrv N block p0 sigma randn unif Gof fuel).
Proof.
  unfold ss_run. cbv zeta. unfold eval_g_batch. destruct (block <=? 0)%Z; [reflexivity|]. rewrite blocks_scale.
  destruct (eval_blocks _ _ _ _) as [G|e]; [|reflexivity]. cbn [scale_res]. rewrite percentile_scale, Rleb0, combine_sc2.
  destruct (Rleb _ 0).
  - rewrite count0. cbn. unfold sc_ss. cbn. rewrite Rmult_0_r. reflexivity.
  - rewrite count_scale, seeds_scale, <- ss_loop_scale. unfold sc_ss. cbn. reflexivity.
Qed.
End S.

(** * Line sampling: signs decide the bracket *)
Definition sgn_rel (a b : option R) : Prop := match a, b with Some x, Some y => (x < 0 <-> y < 0) /\ (0 < x <-> 0 < y) | None, None => True | _, _ => False end.

Lemma prod_sign a b a' b' : (a < 0 <-> a' < 0) /\ (0 < a <-> 0 < a') -> (b < 0 <-> b' < 0) /\ (0 < b <-> 0 < b') ->
  Rleb (a * b) 0 = Rleb (a' * b') 0.
Proof.
  intros [A1 A2] [B1 B2]. destruct (Rtotal_order a 0) as [X|[X|X]]; destruct (Rtotal_order b 0) as [Y|[Y|Y]];
  destruct (Rtotal_order a' 0) as [X'|[X'|X']]; destruct (Rtotal_order b' 0) as [Y'|[Y'|Y']];
  try (exfalso; first [ assert (Q1 := proj1 A1 X) | assert (Q1 := proj1 A2 X) | assert (Q1 := proj2 A1 X') | assert (Q1 := proj2 A2 X') ]; lra);
  try (exfalso; first [ assert (Q1 := proj1 B1 Y) | assert (Q1 := proj1 B2 Y) | assert (Q1 := proj2 B1 Y') | assert (Q1 := proj2 B2 Y') ]; lra);
  try (subst; first [ rewrite !(proj2 (Rleb_spec _ 0)) by nra; reflexivity | rewrite !(proj2 (Rleb_false _ 0)) by nra; reflexivity ]).
Qed.

Lemma find_sign g g' : (forall j, sgn_rel (g j) (g' j)) -> forall k j found, find_bracket k j g' found = find_bracket k j g found.
Proof.
  intros H. induction k as [|k IH]; intros j found; [reflexivity|]. cbn [find_bracket]. pose proof (H j) as A. pose proof (H (S j)) as B.
  unfold sgn_rel in A, B. destruct (g j) as [a|], (g' j) as [a'|]; try contradiction; [|apply IH].
  destruct (g (S j)) as [b|], (g' (S j)) as [b'|]; try contradiction; [|apply IH].
  rewrite <- (prod_sign a b a' b' A B). destruct (Rleb (a * b) 0); [|apply IH].
  replace (Rltb 0 a') with (Rltb 0 a).
  2:{ destruct (Rltb 0 a) eqn:E; symmetry; [apply Rltb_spec in E; apply Rltb_spec; tauto|apply Rltb_false in E; apply Rltb_false]. destruct (Rlt_or_le 0 a') as [Q|Q]; [apply A in Q; lra|exact Q]. }
  replace (Rleb b' 0) with (Rleb b 0).
  2:{ destruct (Rleb b 0) eqn:E; symmetry; [apply Rleb_spec in E; apply Rleb_spec|apply Rleb_false in E; apply Rleb_false; tauto]. destruct (Rlt_or_le 0 b') as [Q|Q]; [apply B in Q; lra|exact Q]. }
  rewrite !IH. reflexivity.
Qed.

Lemma first_sign g g' : (forall j, sgn_rel (g j) (g' j)) -> forall k j, sgn_rel (first_valid k j g) (first_valid k j g').
Proof.
  intros H. induction k as [|k IH]; intros j; [exact I|]. cbn [first_valid]. pose proof (H j) as A. destruct (g j), (g' j); try contradiction; [exact A|apply IH].
Qed.

Lemma line_sign ev ev' brentq v alpha c : (forall u, sgn_rel (ev u) (ev' u)) ->
  (forall lo hi, brentq (fun c => ev' (line_pt v alpha c)) lo hi = brentq (fun c => ev (line_pt v alpha c)) lo hi) ->
  find_line_intersection ev' brentq v alpha c = find_line_intersection ev brentq v alpha c.
Proof.
  intros H Hb. unfold find_line_intersection, bracket. rewrite (find_sign (fun j => ev (line_pt v alpha (c_scan c j))) (fun j => ev' (line_pt v alpha (c_scan c j)))) by (intros; apply H).
  destruct (find_bracket _ _ _ _); [rewrite Hb; reflexivity|].
  pose proof (first_sign (fun j => ev (line_pt v alpha (c_scan c j))) (fun j => ev' (line_pt v alpha (c_scan c j))) (fun j => H _) n_scan 0%nat) as F.
  destruct (first_valid _ _ _) as [a|], (first_valid _ _ _) as [b|]; try contradiction; [|reflexivity]. cbn in F.
  destruct (Rltb a 0) eqn:E; [apply Rltb_spec in E; rewrite (proj2 (Rltb_spec b 0)) by tauto; reflexivity|].
  apply Rltb_false in E. rewrite (proj2 (Rltb_false b 0)); [reflexivity|]. destruct (Rlt_or_le b 0) as [Q|Q]; [apply F in Q; lra|exact Q].
Qed.
