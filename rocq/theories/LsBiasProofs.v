(** Lemmas for C117. *)
From Coquelicot Require Import Coquelicot.
From Verif Require Import Base Ext Gauss GaussProofs StochModel LimitState Transf TransfProofs Form FormProofs Sorm Ls LsProofs MomSpec MomProofs McSpec McBiasSpec McBiasProofs McBiasLinProofs McBiasLinProps FormBoundSpec FormBoundProofs SormBoundProofs TailProofs LsBiasSpec.
From Coq Require Import FunctionalExtensionality Lra Lia.
Open Scope R_scope.

(** ** means with the last number innermost *)
Definition snoc (n : nat) (u : nat -> R) (t : R) : nat -> R := fun i => if Nat.ltb i n then u i else t.
Lemma snoc_cons n x u t : snoc (S n) (scons x u) t = scons x (snoc n u t).
Proof. apply functional_extensionality. intros [|i]; reflexivity. Qed.

Definition inner (n : nat) (f : (nat -> R) -> R) (u : nat -> R) : R :=
  RInt_gen (V := R_CompleteNormedModule) (fun t => f (snoc n u t) * phi t) (Rbar_locally m_infty) (Rbar_locally p_infty).
Lemma inner_eq n f u v : expectN (fun t => f (snoc n u t)) v -> inner n f u = v.
Proof. intros H. apply (is_RInt_gen_unique (V := R_CompleteNormedModule)). exact H. Qed.
Lemma mean_inner n : forall f p, is_mean (S n) f p -> is_mean n (inner n f) p.
Proof.
  induction n as [|n IH]; intros f p (F & H & E).
  - intros s. apply inner_eq. refine (eN_ext _ _ _ _ E). intros t. symmetry.
    change (is_mean 0 (fun s => f (scons t s)) (F t)) in H || idtac. specialize (H t). cbn [is_mean] in H. rewrite <- (H (fun _ => t)). f_equal. apply functional_extensionality. intros [|i]; reflexivity.
  - exists F. split; [|exact E]. intros x. refine (mean_ext n _ _ _ _ (IH _ _ (H x))). intros u. unfold inner. f_equal. apply functional_extensionality. intros t. now rewrite snoc_cons.
Qed.
Lemma inner_mean n : forall f h p, (forall u, expectN (fun t => f (snoc n u t)) (h u)) -> (forall s, f s = f (snoc n s (s n))) -> is_mean n h p -> is_mean (S n) f p.
Proof.
  induction n as [|n IH]; intros f h p Hh Hf M.
  - exists (fun x => f (fun _ => x)). split.
    + intros x s. rewrite Hf. f_equal.
    + specialize (Hh (fun _ => 0)). cbn [is_mean] in M. rewrite M in Hh. refine (eN_ext _ _ _ _ Hh). intros t. f_equal.
  - destruct M as (F & M & E). exists F. split; [|exact E]. intros x. apply (IH (fun s => f (scons x s)) (fun u => h (scons x u))).
    + intros u. refine (eN_ext _ _ _ _ (Hh (scons x u))). intros t. now rewrite snoc_cons.
    + intros s. rewrite Hf. now rewrite snoc_cons.
    + apply M.
Qed.
Lemma mean_near m f g e p B : (forall s, Rabs (f s - g s) <= B) -> is_mean m f e -> is_mean m g p -> Rabs (e - p) <= B.
Proof.
  intros H Mf Mg. pose proof (mean_plus m _ _ _ _ Mf (mean_scal m (-1) _ _ Mg)) as D. cbn beta in D.
  assert (U : e + -1 * p <= B) by (apply (mean_le m (fun s => f s + -1 * g s) (fun _ => B)); [intros s; specialize (H s); apply Rabs_le_between in H; lra|exact D|apply mean_const]).
  assert (L : - B <= e + -1 * p) by (apply (mean_le m (fun _ => - B) (fun s => f s + -1 * g s)); [intros s; specialize (H s); apply Rabs_le_between in H; lra|apply mean_const|exact D]).
  apply Rabs_le. lra.
Qed.

(** ** one line *)
Lemma cross_zero h c : (forall t, continuity_pt h t) -> (forall t, t < c -> 0 < h t) -> (forall t, c < t -> h t < 0) -> h c = 0.
Proof.
  intros HC Ha Hb. destruct (Rtotal_order (h c) 0) as [L|[L|L]]; [exfalso|exact L|exfalso].
  - destruct (HC c (- h c) ltac:(lra)) as (d & Hd & D). specialize (D (c - d / 2)). cbn in D. unfold R_dist in D.
    assert (X : Rabs (h (c - d / 2) - h c) < - h c). { apply D. split; [split; [exact I|lra]|]. replace (c - d / 2 - c) with (- (d / 2)) by ring. rewrite Rabs_Ropp, Rabs_right; lra. }
    specialize (Ha (c - d / 2) ltac:(lra)). apply Rabs_def2 in X. lra.
  - destruct (HC c (h c) ltac:(lra)) as (d & Hd & D). specialize (D (c + d / 2)). cbn in D. unfold R_dist in D.
    assert (X : Rabs (h (c + d / 2) - h c) < h c). { apply D. split; [split; [exact I|lra]|]. replace (c + d / 2 - c) with (d / 2) by ring. rewrite Rabs_right; lra. }
    specialize (Hb (c + d / 2) ltac:(lra)). apply Rabs_def2 in X. lra.
Qed.
Lemma cross_prob h c : (forall t, continuity_pt h t) -> (forall t, t < c -> 0 < h t) -> (forall t, c < t -> h t < 0) ->
  expectN (fun t => if Rltb (h t) 0 then 1 else 0) (Phi (- c)).
Proof.
  intros HC Ha Hb. rewrite Phi_opp. replace (1 - Phi c) with (0 * Phi c + 1 * (1 - Phi c)) by ring. apply eN_step; intros t Ht.
  - specialize (Ha t Ht). destruct (Rltb (h t) 0) eqn:E; [apply Rltb_spec in E; lra|reflexivity].
  - specialize (Hb t Ht). destruct (Rltb (h t) 0) eqn:E; [reflexivity|apply Rltb_false in E; lra].
Qed.
Lemma all_prob (h : R -> R) : (forall t, 0 < h t) -> expectN (fun t => if Rltb (h t) 0 then 1 else 0) 0.
Proof. intros H. apply (eN_ext (fun _ => 0)); [|apply eN_const]. intros t. specialize (H t). destruct (Rltb (h t) 0) eqn:E; [apply Rltb_spec in E; lra|reflexivity]. Qed.
Lemma none_prob (h : R -> R) : (forall t, h t < 0) -> expectN (fun t => if Rltb (h t) 0 then 1 else 0) 1.
Proof. intros H. apply (eN_ext (fun _ => 1)); [|apply eN_const]. intros t. specialize (H t). destruct (Rltb (h t) 0) eqn:E; [reflexivity|apply Rltb_false in E; lra]. Qed.

Section Line.
Variables (ev : vec -> option R) (brentq : (R -> option R) -> R -> R -> option R) (v alpha : vec) (ci eps : R) (h : R -> R).
Hypothesis Hev : forall c, ev (line_pt v alpha c) = Some (h c).
Hypothesis Hc : forall c, continuity_pt h c.
Hypothesis HB : brent_accurate eps brentq.
Let g := fun j => ev (line_pt v alpha (c_scan ci j)).
Let res := find_line_intersection ev brentq v alpha ci.

Lemma line_some i : bracket g = Some i -> exists r, c_scan ci i <= r <= c_scan ci (S i) /\ h r = 0 /\ Rabs (res - r) <= eps.
Proof.
  intros EB. pose proof (bracket_spec g) as BS. rewrite EB in BS. destruct BS as (Hi & (g1 & g2 & G1 & G2 & G12) & _).
  unfold g in G1, G2. rewrite Hev in G1, G2. injection G1 as <-. injection G2 as <-.
  pose proof (c_scan_mono ci i (S i) ltac:(lia)) as M.
  destruct (HB (fun c => ev (line_pt v alpha c)) h (c_scan ci i) (c_scan ci (S i)) ltac:(lra) Hev Hc G12) as (c & r & E & Hr & Er & Hcr).
  exists r. split; [exact Hr|]. split; [exact Er|]. unfold res, find_line_intersection. cbv zeta. fold g. rewrite EB, Rmin_left, Rmax_right, E by lra. exact Hcr.
Qed.
Lemma line_none : bracket g = None -> (h (- c_max ci) < 0 -> res = - c_max ci) /\ (0 <= h (- c_max ci) -> res = c_max ci).
Proof.
  intros EB. unfold res, find_line_intersection. cbv zeta. fold g. rewrite EB. unfold n_scan. cbn [first_valid].
  assert (G0 : g 0%nat = Some (h (- c_max ci))) by (unfold g; rewrite Hev, c_scan_0; reflexivity). rewrite G0.
  change (40 - 1)%nat with 39%nat. rewrite c_scan_0, c_scan_last. split; intros H; destruct (Rltb (h (- c_max ci)) 0) eqn:E; try reflexivity.
  - apply Rltb_false in E. lra.
  - apply Rltb_spec in E. lra.
Qed.
Lemma none_no j : (j < 39)%nat -> bracket g = None -> h (c_scan ci j) * h (c_scan ci (S j)) <= 0 -> False.
Proof.
  intros Hj EB P. pose proof (bracket_spec g) as BS. rewrite EB in BS. apply (BS j Hj). exists (h (c_scan ci j)), (h (c_scan ci (S j))). unfold g. rewrite !Hev. auto.
Qed.

Lemma cross_res c : (forall t, t < c -> 0 < h t) -> (forall t, c < t -> h t < 0) ->
  Rabs (res - c) <= eps \/ (c_max ci < c /\ res = c_max ci) \/ (c < - c_max ci /\ res = - c_max ci).
Proof.
  intros Ha Hb. assert (Z := cross_zero h c Hc Ha Hb). assert (CM := proj1 (c_max_ge ci)).
  destruct (bracket g) as [i|] eqn:EB.
  - left. destruct (line_some i EB) as (r & _ & Hr & E). assert (r = c); [|subst r; exact E].
    destruct (Rtotal_order r c) as [L|[L|L]]; [specialize (Ha r L); lra|exact L|specialize (Hb r L); lra].
  - right. destruct (line_none EB) as [L1 L2]. destruct (Rlt_or_le (c_max ci) c) as [B|B].
    + left. split; [exact B|]. apply L2. left. apply Ha. lra.
    + right. destruct (Rlt_or_le c (- c_max ci)) as [B2|B2]; [split; [exact B2|]; apply L1, Hb; lra|exfalso].
      destruct (Req_dec c (- c_max ci)) as [Ec|Ec].
      * apply (none_no 0 ltac:(lia) EB). rewrite c_scan_0, <- Ec, Z. lra.
      * destruct (grid_step ci c ltac:(lra)) as (j & Hj & J1 & J2). apply (none_no j Hj EB). specialize (Ha _ J1).
        assert (h (c_scan ci (S j)) <= 0) by (destruct (Req_dec c (c_scan ci (S j))) as [<-|N]; [lra|left; apply Hb; lra]). nra.
Qed.
Lemma safe_res : (forall t, 0 < h t) -> res = c_max ci.
Proof.
  intros H. destruct (bracket g) as [i|] eqn:EB.
  - destruct (line_some i EB) as (r & _ & Hr & _). specialize (H r). lra.
  - apply (proj2 (line_none EB)). left. apply H.
Qed.
Lemma fail_res : (forall t, h t < 0) -> res = - c_max ci.
Proof.
  intros H. destruct (bracket g) as [i|] eqn:EB.
  - destruct (line_some i EB) as (r & _ & Hr & _). specialize (H r). lra.
  - apply (proj1 (line_none EB)). apply H.
Qed.
End Line.


(** ** the normal distribution function is Lipschitz *)
Lemma phi_zero : phi 0 = / sqrt (2 * PI).
Proof. unfold phi. rewrite Rmult_0_l, Rmult_0_r, exp_0. unfold Rdiv. ring. Qed.
Lemma phi_max x : phi x <= phi 0.
Proof.
  unfold phi, Rdiv. apply Rmult_le_compat_r; [left; apply Rinv_0_lt_compat, sqrt_lt_R0; pose proof PI_RGT_0; lra|]. apply exp_le. nra.
Qed.
Lemma Q_lip0 x y : Rabs (Q x - Q y) <= phi 0 * Rabs (x - y).
Proof.
  assert (W : forall x y, x <= y -> 0 <= Q x - Q y <= phi 0 * (y - x)).
  { intros a b L. split.
    - pose proof (mono_dec Q (fun z => - phi z) a b Q_derive ltac:(intros z _; pose proof (phi_pos z); lra) L). lra.
    - pose proof (mono_dec (fun z => - Q z - phi 0 * z) (fun z => - - phi z - phi 0) a b) as M. cbn beta in M.
      assert (- Q b - phi 0 * b <= - Q a - phi 0 * a); [|lra]. apply M; [|intros z _; pose proof (phi_max z); lra|exact L].
      intros z. apply (is_derive_minus (fun z => - Q z) (fun z => phi 0 * z)); [apply (is_derive_opp Q), Q_derive|]. auto_derive; [exact I|ring]. }
  destruct (Rle_or_lt x y) as [L|L].
  - specialize (W x y L). rewrite Rabs_right, Rabs_left1 by lra. lra.
  - specialize (W y x ltac:(lra)). rewrite Rabs_left1, Rabs_right by lra. lra.
Qed.
Lemma Phi_lip0 x y : Rabs (Phi (- x) - Phi (- y)) <= phi 0 * Rabs (x - y).
Proof. exact (Q_lip0 x y). Qed.

(** ** one line: what the code computes against the probability of failure on the line *)
Lemma line_close ev brentq v alpha ci eps h q : 0 <= eps ->
  (forall c, ev (line_pt v alpha c) = Some (h c)) -> (forall c, continuity_pt h c) -> brent_accurate eps brentq -> crosses_once h ->
  expectN (fun t => if Rltb (h t) 0 then 1 else 0) q ->
  Rabs (Phi (- find_line_intersection ev brentq v alpha ci) - q) <= eps * phi 0 + Phi (- 15).
Proof.
  intros He Hev Hc HB HX Hq. pose proof (phi_pos 0) as P0. pose proof (Phi_bound (- 15)) as R15. pose proof (proj1 (c_max_ge ci)) as CM.
  assert (T : Phi (- c_max ci) <= Phi (- 15)) by (apply -> Phi_le; lra). assert (EP : 0 <= eps * phi 0) by (apply Rmult_le_pos; lra).
  destruct HX as [(c & Ha & Hb)|[H|H]].
  - rewrite (eN_unique _ _ _ Hq (cross_prob h c Hc Ha Hb)).
    destruct (cross_res ev brentq v alpha ci eps h Hev Hc HB c Ha Hb) as [E|[[L E]|[L E]]].
    + pose proof (Phi_lip0 (find_line_intersection ev brentq v alpha ci) c) as PL.
      pose proof (Rmult_le_compat_l _ _ _ (Rlt_le _ _ P0) E). lra.
    + rewrite E. pose proof (Phi_bound (- c)). assert (Phi (- c) <= Phi (- c_max ci)) by (apply -> Phi_le; lra). rewrite Rabs_right; lra.
    + rewrite E. rewrite Ropp_involutive. pose proof (Phi_bound (- c)). assert (Phi (c_max ci) <= Phi (- c)) by (apply -> Phi_le; lra). pose proof (Phi_opp (c_max ci)). rewrite Rabs_left1; lra.
  - rewrite (eN_unique _ _ _ Hq (all_prob h H)). rewrite (safe_res ev brentq v alpha ci eps h Hev Hc HB H). pose proof (Phi_bound (- c_max ci)). rewrite Rabs_right; lra.
  - rewrite (eN_unique _ _ _ Hq (none_prob h H)). rewrite (fail_res ev brentq v alpha ci eps h Hev Hc HB H). rewrite Ropp_involutive. pose proof (Phi_opp (c_max ci)). pose proof (Phi_bound (c_max ci)). rewrite Rabs_left1; lra.
Qed.

(** ** the point of C117 on a line *)
Lemma dot_ext n a b a' b' : (forall i, (i < n)%nat -> a i = a' i) -> (forall i, (i < n)%nat -> b i = b' i) -> dot n a b = dot n a' b'.
Proof. intros A B. unfold dot. apply fsum_ext. intros i Hi. rewrite A, B by exact Hi. reflexivity. Qed.
Lemma split_line n alpha u t i : (i < n)%nat -> split_point n alpha (snoc n u t) i = line_pt (foot n alpha u) alpha t i.
Proof.
  intros Hi. unfold split_point, line_pt, foot. assert (snoc n u t n = t) as -> by (unfold snoc; rewrite Nat.ltb_irrefl; reflexivity).
  assert (S : forall j, (j < n)%nat -> snoc n u t j = u j) by (intros j Hj; unfold snoc; apply Nat.ltb_lt in Hj; rewrite Hj; reflexivity).
  rewrite (S i Hi), (dot_ext n alpha (snoc n u t) alpha u) by auto. ring.
Qed.

(** ** the estimate as a mean *)
Definition col (N j : nat) (z : nat -> R) : vec := fun i => z (i * N + j)%nat.
Lemma col_mean n N h v j : (j < N)%nat -> is_mean n h v -> is_mean (n * N) (fun z => h (col N j z)) v.
Proof.
  intros Hj H. apply (mean_select (n * N) n h v (fun i => (i * N + j)%nat) H); [intros i; lia|]. intros i Hi. nia.
Qed.
Lemma avg_mean n N h v : (1 <= N)%nat -> is_mean n h v -> is_mean (n * N) (fun z => lsum (map (fun j => h (col N j z)) (seq 0 N)) / INR N) v.
Proof.
  intros HN H. assert (PN : 0 < INR N) by (apply lt_0_INR; lia).
  pose proof (mean_sum (n * N) (fun j z => h (col N j z)) (fun _ => v) (seq 0 N)) as S. specialize (S ltac:(intros j Hj; apply in_seq in Hj; apply col_mean; [lia|exact H])).
  assert (C : lsum (map (fun _ => v) (seq 0 N)) = INR N * v).
  { clear. generalize 0%nat. induction N as [|N IH]; intros k; [cbn; ring|]. cbn [seq map]. change (v + lsum (map (fun _ => v) (seq (S k) N)) = INR (S N) * v). rewrite IH, S_INR. ring. }
  rewrite C in S. pose proof (mean_scal _ (/ INR N) _ _ S) as M. replace (/ INR N * (INR N * v)) with v in M by (field; lra).
  refine (mean_ext _ _ _ _ _ M). intros z. cbn beta. unfold Rdiv. ring.
Qed.
Lemma avg_near (l : list nat) (f g : nat -> R) B N : N = length l -> (1 <= N)%nat -> (forall j, Rabs (f j - g j) <= B) -> Rabs (lsum (map f l) / INR N - lsum (map g l) / INR N) <= B.
Proof.
  intros -> HN H. assert (PN : 0 < INR (length l)) by (apply lt_0_INR; lia).
  assert (S : Rabs (lsum (map f l) - lsum (map g l)) <= INR (length l) * B).
  { clear - H. induction l as [|j l IH]; [cbn; replace (0 - 0) with 0 by ring; rewrite Rabs_R0; lra|]. cbn [map length]. change (lsum (f j :: map f l)) with (f j + lsum (map f l)). change (lsum (g j :: map g l)) with (g j + lsum (map g l)).
    rewrite S_INR. specialize (H j). replace (f j + lsum (map f l) - (g j + lsum (map g l))) with ((f j - g j) + (lsum (map f l) - lsum (map g l))) by ring.
    eapply Rle_trans; [apply Rabs_triang|]. lra. }
  replace (lsum (map f l) / INR (length l) - lsum (map g l) / INR (length l)) with ((lsum (map f l) - lsum (map g l)) * / INR (length l)) by (field; lra).
  rewrite Rabs_mult, (Rabs_right (/ INR (length l))) by (apply Rle_ge, Rlt_le, Rinv_0_lt_compat, PN).
  apply (Rmult_le_reg_r (INR (length l))); [exact PN|]. rewrite Rmult_assoc, Rinv_l, Rmult_1_r by lra. lra.
Qed.
Lemma ls_Pf_avg n N z ev brentq alpha beta : ls_Pf (ls_run n N z ev brentq alpha beta) =
  lsum (map (fun j => Phi (- find_line_intersection ev brentq (foot n alpha (col N j z)) alpha beta)) (seq 0 N)) / INR N.
Proof. rewrite ls_run_Pf, ls_run_c, map_map. reflexivity. Qed.
