From Coquelicot Require Import Coquelicot.
From Verif Require Import Base Ext Gauss GaussProofs StochModel LimitState Transf Form FormProofs Sorm SormProofs Ls.
From Coq Require Import ZArith Lra Lia.

(** ** geometry *)
Lemma foot_orth n a u : dot n a a = 1 -> dot n a (foot n a u) = 0.
Proof.
  intros H. change (dot n a (foot n a u)) with (fsum n (fun i => a i * (u i - a i * dot n a u))).
  rewrite (fsum_ext n (fun i => a i * (u i - a i * dot n a u)) (fun i => a i * u i - dot n a u * (a i * a i))) by (intros; ring).
  rewrite fsum_minus, fsum_scal. fold (dot n a u) (dot n a a). rewrite H. ring.
Qed.
Lemma line_proj n a v c : dot n a a = 1 -> dot n a v = 0 -> dot n a (line_pt v a c) = c.
Proof.
  intros H0 H1. change (dot n a (line_pt v a c)) with (fsum n (fun i => a i * (v i + c * a i))).
  rewrite (fsum_ext n (fun i => a i * (v i + c * a i)) (fun i => a i * v i + c * (a i * a i))) by (intros; ring).
  rewrite fsum_plus, fsum_scal. fold (dot n a v) (dot n a a). rewrite H0, H1. ring.
Qed.
Lemma line_norm n a v c : dot n a a = 1 -> dot n a v = 0 -> dot n (line_pt v a c) (line_pt v a c) = dot n v v + c ^ 2.
Proof.
  intros H0 H1. change (dot n (line_pt v a c) (line_pt v a c)) with (fsum n (fun i => (v i + c * a i) * (v i + c * a i))).
  rewrite (fsum_ext n (fun i => (v i + c * a i) * (v i + c * a i)) (fun i => v i * v i + (2 * c * (a i * v i) + c ^ 2 * (a i * a i)))) by (intros; ring).
  rewrite !fsum_plus, !fsum_scal. fold (dot n a v) (dot n a a) (dot n v v). rewrite H0, H1. ring.
Qed.
(** a sample lies on its own line, at the parameter alpha . u *)
Lemma foot_line n a u i : line_pt (foot n a u) a (dot n a u) i = u i.
Proof. unfold line_pt, foot. ring. Qed.

(** ** grid *)
Lemma c_max_ge ci : 15 <= c_max ci /\ Rabs ci * 3 + 5 <= c_max ci.
Proof. unfold c_max. split; [apply Rmax_r|apply Rmax_l]. Qed.
Lemma c_scan_0 ci : c_scan ci 0 = - c_max ci.
Proof. unfold c_scan. cbn. ring. Qed.
Lemma c_scan_last ci : c_scan ci 39 = c_max ci.
Proof. unfold c_scan, n_scan. replace (INR 39) with 39 by (cbn; lra). cbn [Nat.sub INR]. replace (INR (40 - 1)) with 39 by (cbn; lra). field. Qed.
Lemma c_scan_mono ci i j : (i < j)%nat -> c_scan ci i < c_scan ci j.
Proof.
  intros H. unfold c_scan. pose proof (c_max_ge ci) as [A _]. apply lt_INR in H.
  assert (P : 0 < 2 * c_max ci / INR (n_scan - 1)).
  { apply Rdiv_lt_0_compat; [lra|]. apply (lt_INR 0). cbn. lia. }
  nra.
Qed.
Lemma c_scan_range ci j : (j <= 39)%nat -> - c_max ci <= c_scan ci j <= c_max ci.
Proof.
  intros H. pose proof (c_scan_0 ci) as E0. pose proof (c_scan_last ci) as E1. split.
  - destruct j as [|j]; [lra|]. pose proof (c_scan_mono ci 0 (S j) ltac:(lia)). lra.
  - destruct (Nat.eq_dec j 39) as [->|N]; [lra|]. pose proof (c_scan_mono ci j 39 ltac:(lia)). lra.
Qed.

(** ** bracket selection *)
Definition crossing (g : nat -> option R) (j : nat) : Prop := exists g1 g2, g j = Some g1 /\ g (S j) = Some g2 /\ g1 * g2 <= 0.
Definition safe_to_fail (g : nat -> option R) (j : nat) : Prop := exists g1 g2, g j = Some g1 /\ g (S j) = Some g2 /\ 0 < g1 /\ g2 <= 0.

Lemma stf_crossing g j : safe_to_fail g j -> crossing g j.
Proof. intros (g1 & g2 & A & B & C & D). exists g1, g2. refine (conj A (conj B _)). nra. Qed.

Lemma find_spec g : forall k j found r, find_bracket k j g found = r ->
  (exists i, (j <= i < j + k)%nat /\ safe_to_fail g i /\ (forall m, (j <= m < i)%nat -> ~ safe_to_fail g m) /\ r = Some i) \/
  ((forall m, (j <= m < j + k)%nat -> ~ safe_to_fail g m) /\
   match found with
   | Some f => r = Some f
   | None => (exists i, (j <= i < j + k)%nat /\ crossing g i /\ (forall m, (j <= m < i)%nat -> ~ crossing g m) /\ r = Some i) \/
             ((forall m, (j <= m < j + k)%nat -> ~ crossing g m) /\ r = None)
   end).
Proof.
  induction k as [|k IH]; intros j found r E; cbn [find_bracket] in E.
  - right. split; [intros; lia|]. subst r. destruct found; [reflexivity|]. right. split; [intros; lia|reflexivity].
  - assert (STEP : forall found', find_bracket k (S j) g found' = r -> ~ safe_to_fail g j ->
       (found' = found /\ ~ crossing g j) \/ (found' = match found with None => Some j | Some f => Some f end /\ crossing g j) ->
       (exists i, (j <= i < j + S k)%nat /\ safe_to_fail g i /\ (forall m, (j <= m < i)%nat -> ~ safe_to_fail g m) /\ r = Some i) \/
       ((forall m, (j <= m < j + S k)%nat -> ~ safe_to_fail g m) /\
        match found with
        | Some f => r = Some f
        | None => (exists i, (j <= i < j + S k)%nat /\ crossing g i /\ (forall m, (j <= m < i)%nat -> ~ crossing g m) /\ r = Some i) \/
                  ((forall m, (j <= m < j + S k)%nat -> ~ crossing g m) /\ r = None)
        end)).
    { intros found' E' NS HF. apply IH in E'. destruct E' as [(i & Hi & S1 & S2 & S3)|[NA HR]].
      - left. exists i. refine (conj _ (conj S1 (conj _ S3))); [lia|]. intros m Hm. destruct (Nat.eq_dec m j) as [->|Q]; [exact NS|]. apply S2. lia.
      - right. split; [intros m Hm; destruct (Nat.eq_dec m j) as [->|Q]; [exact NS|apply NA; lia]|].
        destruct HF as [[-> NC]|[-> CR]].
        + destruct found; [exact HR|]. destruct HR as [(i & Hi & C1 & C2 & C3)|[NC' C3]].
          * left. exists i. refine (conj _ (conj C1 (conj _ C3))); [lia|]. intros m Hm. destruct (Nat.eq_dec m j) as [->|Q]; [exact NC|apply C2; lia].
          * right. split; [|exact C3]. intros m Hm. destruct (Nat.eq_dec m j) as [->|Q]; [exact NC|apply NC'; lia].
        + destruct found; [exact HR|]. left. exists j. refine (conj _ (conj CR (conj _ HR))); [lia|]. intros; lia. }
    destruct (g j) as [g1|] eqn:E1; [destruct (g (S j)) as [g2|] eqn:E2|].
    + destruct (Rleb (g1 * g2) 0) eqn:C.
      * apply Rleb_spec in C. destruct (Rltb 0 g1 && Rleb g2 0) eqn:D.
        -- apply andb_prop in D. destruct D as [D1 D2]. apply Rltb_spec in D1. apply Rleb_spec in D2. left. exists j. subst r.
           refine (conj _ (conj _ (conj _ eq_refl))); [lia|exists g1, g2; auto|intros; lia].
        -- apply (STEP _ E).
           ++ intros (a & b & Q1 & Q2 & Q3 & Q4). rewrite E1 in Q1. rewrite E2 in Q2. inversion Q1; inversion Q2; subst.
              apply Rltb_spec in Q3. apply Rleb_spec in Q4. rewrite Q3, Q4 in D. discriminate.
           ++ right. split; [reflexivity|]. exists g1, g2. auto.
      * apply Rleb_false in C. apply (STEP _ E).
        -- intros Q. apply stf_crossing in Q. destruct Q as (a & b & Q1 & Q2 & Q3). rewrite E1 in Q1. rewrite E2 in Q2. inversion Q1; inversion Q2; subst. lra.
        -- left. split; [reflexivity|]. intros (a & b & Q1 & Q2 & Q3). rewrite E1 in Q1. rewrite E2 in Q2. inversion Q1; inversion Q2; subst. lra.
    + apply (STEP _ E).
      * intros (a & b & Q1 & Q2 & _). congruence.
      * left. split; [reflexivity|]. intros (a & b & Q1 & Q2 & _). congruence.
    + apply (STEP _ E).
      * intros (a & b & Q1 & Q2 & _). congruence.
      * left. split; [reflexivity|]. intros (a & b & Q1 & Q2 & _). congruence.
Qed.

Lemma bracket_spec g :
  match bracket g with
  | Some i => (i < 39)%nat /\ crossing g i /\
      ((safe_to_fail g i /\ forall m, (m < i)%nat -> ~ safe_to_fail g m) \/
       ((forall m, (m < 39)%nat -> ~ safe_to_fail g m) /\ forall m, (m < i)%nat -> ~ crossing g m))
  | None => forall m, (m < 39)%nat -> ~ crossing g m
  end.
Proof.
  unfold bracket. destruct (find_spec g 39 0 None _ eq_refl) as [(i & Hi & S1 & S2 & S3)|[NA [(i & Hi & C1 & C2 & C3)|[NC C3]]]];
    change (n_scan - 1)%nat with 39%nat; rewrite ?S3, ?C3.
  - refine (conj _ (conj _ (or_introl (conj S1 _)))); [lia|apply stf_crossing; exact S1|]. intros m Hm. apply S2. lia.
  - refine (conj _ (conj C1 (or_intror (conj _ _)))); [lia| |]; intros m Hm; [apply NA|apply C2]; lia.
  - intros m Hm. apply NC. lia.
Qed.

Lemma first_valid_spec g : forall k j,
  match first_valid k j g with
  | Some v => exists i, (j <= i < j + k)%nat /\ g i = Some v /\ forall m, (j <= m < i)%nat -> g m = None
  | None => forall m, (j <= m < j + k)%nat -> g m = None
  end.
Proof.
  induction k as [|k IH]; intros j; cbn [first_valid]; [intros; lia|].
  destruct (g j) as [v|] eqn:E.
  - exists j. refine (conj _ (conj E _)); [lia|intros; lia].
  - specialize (IH (S j)). destruct (first_valid k (S j) g) as [v|].
    + destruct IH as (i & H1 & H2 & H3). exists i. refine (conj _ (conj H2 _)); [lia|]. intros m Hm. destruct (Nat.eq_dec m j) as [->|Q]; [exact E|apply H3; lia].
    + intros m Hm. destruct (Nat.eq_dec m j) as [->|Q]; [exact E|apply IH; lia].
Qed.

(** ** range of the result *)
Definition brent_in_range (brentq : (R -> option R) -> R -> R -> option R) : Prop :=
  forall f lo hi c, lo <= hi -> brentq f lo hi = Some c -> lo <= c <= hi.

Lemma fli_range ev brentq v a ci : brent_in_range brentq ->
  - c_max ci <= find_line_intersection ev brentq v a ci <= c_max ci.
Proof.
  intros HB. unfold find_line_intersection. cbv zeta. pose proof (c_max_ge ci) as [CM _].
  pose proof (bracket_spec (fun j => ev (line_pt v a (c_scan ci j)))) as BS.
  destruct (bracket _) as [j|].
  - destruct BS as [Hj _]. pose proof (c_scan_range ci j ltac:(lia)) as R1. pose proof (c_scan_range ci (S j) ltac:(lia)) as R2.
    pose proof (c_scan_mono ci j (S j) ltac:(lia)) as M. rewrite Rmin_left, Rmax_right by lra.
    destruct (brentq _ _ _) as [c|] eqn:EB; [|lra]. apply HB in EB; lra.
  - change (n_scan - 1)%nat with 39%nat. rewrite c_scan_0, c_scan_last.
    destruct (first_valid _ _ _) as [g0|]; [destruct (Rltb g0 0)|]; lra.
Qed.

Lemma lsum_map_bounds {A} (f : A -> R) l lo hi : (forall x, In x l -> lo <= f x <= hi) ->
  INR (length l) * lo <= lsum (map f l) <= INR (length l) * hi.
Proof.
  induction l as [|x l IH]; intros H; cbn [map lsum length]; [cbn; lra|]. rewrite S_INR.
  specialize (IH (fun y Hy => H y (or_intror Hy))). pose proof (H x (or_introl eq_refl)). lra.
Qed.

Lemma mean_bounds {A} (f : A -> R) l lo hi : l <> [] -> (forall x, In x l -> lo <= f x <= hi) ->
  lo <= lsum (map f l) / INR (length l) <= hi.
Proof.
  intros Hne H. assert (P : 0 < INR (length l)) by (apply (lt_INR 0); destruct l; [contradiction|cbn; lia]).
  pose proof (lsum_map_bounds f l lo hi H) as [B1 B2].
  split; apply (Rmult_le_reg_r (INR (length l))); try exact P; unfold Rdiv; rewrite Rmult_assoc, Rinv_l by lra; lra.
Qed.

Lemma ls_contribs_len n N randn ev brentq a b : length (ls_c (ls_run n N randn ev brentq a b)) = N.
Proof. unfold ls_run. cbv zeta. destruct (_ && _); [|destruct (Rleb _ 0)]; cbn [ls_c]; rewrite map_length, seq_length; reflexivity. Qed.

Lemma ls_run_c n N randn ev brentq a b : ls_c (ls_run n N randn ev brentq a b) =
  map (fun j => find_line_intersection ev brentq (foot n a (fun i => randn (i * N + j)%nat)) a b) (seq 0 N).
Proof. unfold ls_run. cbv zeta. destruct (_ && _); [|destruct (Rleb _ 0)]; reflexivity. Qed.
Lemma ls_run_Pf n N randn ev brentq a b : ls_Pf (ls_run n N randn ev brentq a b) =
  lsum (map (fun c => Phi (- c)) (ls_c (ls_run n N randn ev brentq a b))) / INR N.
Proof. unfold ls_run. cbv zeta. destruct (_ && _); [|destruct (Rleb _ 0)]; reflexivity. Qed.

Lemma ls_interval n N randn ev brentq a b lo hi : (1 <= N)%nat ->
  (forall c, In c (ls_c (ls_run n N randn ev brentq a b)) -> lo <= c <= hi) ->
  let r := ls_run n N randn ev brentq a b in
  Phi (- hi) <= ls_Pf r <= Phi (- lo) /\ exists be, ls_beta r = Fin be /\ Phi (- be) = ls_Pf r /\ lo <= be <= hi.
Proof.
  intros HN HC r.
  assert (PB : Phi (- hi) <= ls_Pf r <= Phi (- lo)).
  { unfold r. rewrite ls_run_Pf.
    assert (M : Phi (- hi) <= lsum (map (fun c => Phi (- c)) (ls_c (ls_run n N randn ev brentq a b))) / INR (length (ls_c (ls_run n N randn ev brentq a b))) <= Phi (- lo)).
    { apply mean_bounds.
      - intros C. apply (f_equal (@length R)) in C. rewrite ls_contribs_len in C. cbn in C. lia.
      - intros c Hc. specialize (HC c Hc). split; apply (proj1 (Phi_le _ _)); lra. }
    rewrite ls_contribs_len in M. exact M. }
  split; [exact PB|].
  assert (P1 : 0 < ls_Pf r < 1) by (pose proof (Phi_bound (- hi)); pose proof (Phi_bound (- lo)); lra).
  assert (EB : ls_beta r = Fin (- ppf (ls_Pf r))).
  { rewrite <- (Ropp_involutive (ppf _)). unfold r in *. revert P1. unfold ls_run. cbv zeta.
    match goal with |- context [Rltb 0 ?p] => set (P := p) end.
    destruct (Rltb 0 P) eqn:A; destruct (Rltb P 1) eqn:B; cbn [andb].
    - cbn [ls_Pf ls_beta]. intros Q. rewrite xppf_in by exact Q. cbn [xneg]. rewrite Ropp_involutive. reflexivity.
    - apply Rltb_false in B. destruct (Rleb P 0); cbn [ls_Pf]; lra.
    - apply Rltb_false in A. destruct (Rleb P 0); cbn [ls_Pf]; lra.
    - apply Rltb_false in A. destruct (Rleb P 0); cbn [ls_Pf]; lra. }
  exists (- ppf (ls_Pf r)). refine (conj EB (conj _ _)).
  - rewrite Ropp_involutive. apply Phi_ppf. exact P1.
  - assert (Q : Phi (ppf (ls_Pf r)) = ls_Pf r) by (apply Phi_ppf; exact P1). split.
    + assert (ppf (ls_Pf r) <= - lo); [|lra]. apply Rnot_lt_le. intros C. apply Phi_lt in C. lra.
    + assert (- hi <= ppf (ls_Pf r)); [|lra]. apply Rnot_lt_le. intros C. apply Phi_lt in C. lra.
Qed.

(** ** affine limit states *)
Lemma grid_step ci b : - c_max ci < b <= c_max ci -> exists j, (j < 39)%nat /\ c_scan ci j < b <= c_scan ci (S j).
Proof.
  intros [H1 H2]. rewrite <- c_scan_0 in H1. rewrite <- c_scan_last in H2.
  assert (G : forall k, (0 < k)%nat -> b <= c_scan ci k -> exists j, (j < k)%nat /\ c_scan ci j < b <= c_scan ci (S j)).
  { induction k as [|k IH]; intros Hk Hb; [lia|]. destruct (Rlt_le_dec (c_scan ci k) b) as [L|L].
    - exists k. split; [lia|lra].
    - destruct k as [|k]; [lra|]. destruct (IH ltac:(lia) L) as (j & Hj & Q). exists j. split; [lia|exact Q]. }
  apply G; [lia|exact H2].
Qed.

Definition brent_accurate (eps : R) (brentq : (R -> option R) -> R -> R -> option R) : Prop :=
  forall f h lo hi, lo <= hi -> (forall c, f c = Some (h c)) -> (forall c, continuity_pt h c) -> h lo * h hi <= 0 ->
    exists c r, brentq f lo hi = Some c /\ lo <= r <= hi /\ h r = 0 /\ Rabs (c - r) <= eps.

Lemma fli_affine n a ev brentq beta s eps u :
  dot n a a = 1 -> 0 < s -> (forall u, ev u = Some (s * (beta - dot n a u))) -> brent_accurate eps brentq ->
  Rabs (find_line_intersection ev brentq (foot n a u) a beta - beta) <= eps.
Proof.
  intros Ha Hs Hev HB. set (v := foot n a u).
  assert (HL : forall c, ev (line_pt v a c) = Some (s * (beta - c))).
  { intros c. rewrite Hev. rewrite line_proj; [reflexivity|exact Ha|]. apply foot_orth. exact Ha. }
  pose proof (c_max_ge beta) as [_ CM]. 
  assert (BR : - c_max beta < beta <= c_max beta).
  { pose proof (Rle_abs beta). pose proof (Rle_abs (- beta)). rewrite Rabs_Ropp in *. pose proof (Rabs_pos beta). lra. }
  destruct (grid_step beta beta BR) as (j & Hj & J1 & J2).
  unfold find_line_intersection. cbv zeta. set (g := fun j => ev (line_pt v a (c_scan beta j))).
  pose proof (bracket_spec g) as BS.
  assert (SJ : safe_to_fail g j).
  { exists (s * (beta - c_scan beta j)), (s * (beta - c_scan beta (S j))). unfold g. rewrite !HL. refine (conj eq_refl (conj eq_refl (conj _ _))).
    - apply Rmult_lt_0_compat; lra.
    - assert (0 <= s * (c_scan beta (S j) - beta)) by (apply Rmult_le_pos; lra). lra. }
  destruct (bracket g) as [i|].
  - destruct BS as (Hi & CR & _). pose proof (c_scan_mono beta i (S i) ltac:(lia)) as M. rewrite Rmin_left, Rmax_right by lra.
    destruct CR as (g1 & g2 & G1 & G2 & G12). unfold g in G1, G2. rewrite HL in G1, G2. inversion G1; inversion G2; subst g1 g2.
    destruct (HB (fun c => ev (line_pt v a c)) (fun c => s * (beta - c)) (c_scan beta i) (c_scan beta (S i)) ltac:(lra) HL) as (c & r & EB & Hr & Er & Hc).
    + intros c. apply derivable_continuous_pt. apply derivable_pt_mult; [apply derivable_pt_const|].
      apply derivable_pt_minus; [apply derivable_pt_const|apply derivable_pt_id].
    + exact G12.
    + rewrite EB. apply Rmult_integral in Er. destruct Er as [Er|Er]; [lra|].
      assert (R0 : r = beta) by lra. rewrite R0 in Hc. exact Hc.
  - exfalso. apply (BS j Hj). apply stf_crossing. exact SJ.
Qed.
