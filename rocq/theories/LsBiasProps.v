(** Property theorems C117: what line sampling estimates. *)
From Coquelicot Require Import Coquelicot.
From Verif Require Import Base Ext Gauss GaussProofs StochModel StochModelSpec LimitState Transf TransfProofs Form FormProofs Pipe Sorm Ls LsProofs LsRun LsRunSpec LsRunProps MomSpec MomProofs McSpec McBiasSpec McBiasProofs McBiasLinProofs McBiasLinProps FormBoundSpec FormBoundProofs SormBoundProofs LsBiasSpec LsBiasProofs.
From Coq Require Import FunctionalExtensionality ZArith Lra Lia.
Open Scope R_scope.

(** C117: the points of [split_point] are standard normal: for a unit direction every linear
    combination of the n coordinates has the normal distribution with mean 0 and standard deviation
    |a|, as it has for n independent standard normal numbers (first and second part). *)
Theorem C117_sampled_points : forall n (alpha a : vec) b, dot n alpha alpha = 1 -> 0 < norm n a ->
  is_mean (S n) (fun s => if Rltb b (dot n a (split_point n alpha s)) then 1 else 0) (Phi (- (b / norm n a))) /\
  is_mean n (fun u => if Rltb b (dot n a u) then 1 else 0) (Phi (- (b / norm n a))).
Proof.
  intros n alpha a b U Na. split; [|apply half_space; exact Na].
  set (k := dot n a alpha). set (a' := fun i => if Nat.ltb i n then a i - k * alpha i else k).
  assert (A1 : forall i, (i < n)%nat -> a' i = a i - k * alpha i) by (intros i Hi; unfold a'; apply Nat.ltb_lt in Hi; rewrite Hi; reflexivity).
  assert (A2 : a' n = k) by (unfold a'; rewrite Nat.ltb_irrefl; reflexivity).
  assert (D : forall s, dot (S n) a' s = dot n a (split_point n alpha s)).
  { intros s. unfold dot at 1. rewrite fsum_S, A2. rewrite (fsum_ext n _ (fun i => a i * s i - k * (alpha i * s i))) by (intros i Hi; rewrite A1 by exact Hi; ring).
    rewrite fsum_minus, fsum_scal. unfold dot at 1, split_point. rewrite (fsum_ext n (fun i => a i * (s i - dot n alpha s * alpha i + s n * alpha i)) (fun i => a i * s i - (dot n alpha s * (a i * alpha i) - s n * (a i * alpha i)))) by (intros; ring).
    rewrite fsum_minus, fsum_minus, !fsum_scal. fold (dot n a alpha). fold k. fold (dot n alpha s). ring. }
  assert (N : norm (S n) a' = norm n a).
  { unfold norm. f_equal. unfold dot at 1. rewrite fsum_S, A2. rewrite (fsum_ext n _ (fun i => a i * a i - (2 * k * (a i * alpha i) - k * k * (alpha i * alpha i)))) by (intros i Hi; rewrite A1 by exact Hi; ring).
    rewrite fsum_minus, fsum_minus, !fsum_scal. fold (dot n a a). fold (dot n a alpha). fold (dot n alpha alpha). fold k. rewrite U. ring. }
  rewrite <- N in *. refine (mean_ext _ _ _ _ _ (half_space (S n) a' b Na)). intros s. rewrite D. reflexivity.
Qed.
Print Assumptions C117_sampled_points.

(** C117: if along every line in the direction of FORM's design point the limit state is continuous
    and crosses from safe to failed at most once, the expected value of the reported probability
    differs from the probability of failure by at most eps / sqrt(2 pi) + Phi(-15), eps the
    tolerance of the root finder. *)
Theorem C117_bias : forall n N (g : vec -> R) ev brentq alpha beta eps p e,
  (1 <= N)%nat -> 0 <= eps -> dot n alpha alpha = 1 -> (forall u, ev u = Some (g u)) -> reads n g ->
  (forall v, dot n alpha v = 0 -> (forall t, continuity_pt (fun t => g (line_pt v alpha t)) t) /\ crosses_once (fun t => g (line_pt v alpha t))) ->
  brent_accurate eps brentq -> split_failure n g alpha p ->
  is_mean (n * N) (fun z => ls_Pf (ls_run n N z ev brentq alpha beta)) e ->
  Rabs (e - p) <= eps / sqrt (2 * PI) + Phi (- 15).
Proof.
  intros n N g ev brentq alpha beta eps p e HN He U Hev Hg HL HB Hp Me.
  set (f := fun s => if Rltb (g (split_point n alpha s)) 0 then 1 else 0 : R). unfold split_failure in Hp. fold f in Hp.
  pose proof (avg_mean n N _ _ HN (mean_inner n f p Hp)) as MP.
  refine (mean_near (n * N) _ _ e p _ _ Me MP). intros z. rewrite ls_Pf_avg.
  apply (avg_near (seq 0 N) (fun j => Phi (- find_line_intersection ev brentq (foot n alpha (col N j z)) alpha beta)) (fun j => inner n f (col N j z)) _ N); [rewrite seq_length; reflexivity|exact HN|].
  intros j. set (u := col N j z). set (v := foot n alpha u). destruct (HL v (foot_orth n alpha u U)) as [HC HX].
  set (h := fun t => g (line_pt v alpha t)) in *.
  assert (Q : exists q, expectN (fun t => if Rltb (h t) 0 then 1 else 0) q).
  { destruct HX as [(c & Ha & Hb)|[H|H]]; [exists (Phi (- c)); apply cross_prob; assumption|exists 0; apply all_prob, H|exists 1; apply none_prob, H]. }
  destruct Q as (q & Q).
  assert (EI : inner n f u = q).
  { apply inner_eq. refine (eN_ext _ _ _ _ Q). intros t. unfold f, h. rewrite (Hg (split_point n alpha (snoc n u t)) (line_pt v alpha t)); [reflexivity|]. intros i Hi. apply split_line. exact Hi. }
  rewrite EI. replace (eps / sqrt (2 * PI)) with (eps * phi 0) by (rewrite phi_zero; reflexivity).
  apply (line_close ev brentq v alpha beta eps h q He); auto. intros c. apply Hev.
Qed.
Print Assumptions C117_bias.

(** C117: the lines of one run: its expected value is that of a run with one line, its variance is the
    variance for one line divided by N, and the variance for one line is at most e (1 - e). *)
Theorem C117_lines : forall n N ev brentq alpha beta e v,
  (1 <= N)%nat ->
  is_mean n (fun z => ls_Pf (ls_run n 1 z ev brentq alpha beta)) e ->
  is_mean (n * N) (fun z => ls_Pf (ls_run n N z ev brentq alpha beta)) e /\
  (is_mean n (fun z => (ls_Pf (ls_run n 1 z ev brentq alpha beta) - e) ^ 2) v ->
   is_mean (n * N) (fun z => (ls_Pf (ls_run n N z ev brentq alpha beta) - e) ^ 2) (v / INR N) /\ v <= e * (1 - e)).
Proof.
  intros n N ev brentq alpha beta e v HN H1. assert (PN : 0 < INR N) by (apply lt_0_INR; lia).
  set (X := fun u => Phi (- find_line_intersection ev brentq (foot n alpha u) alpha beta)).
  assert (E1 : forall z, ls_Pf (ls_run n 1 z ev brentq alpha beta) = X z).
  { intros z. rewrite ls_Pf_avg. cbn [seq map]. assert (col 1 0 z = z) as -> by (apply functional_extensionality; intros i; unfold col; f_equal; lia). unfold X. cbn. field. }
  assert (H1' : is_mean n X e) by (refine (mean_ext _ _ _ _ _ H1); intros z; apply E1).
  assert (EN : forall z, ls_Pf (ls_run n N z ev brentq alpha beta) = lsum (map (fun j => X (col N j z)) (seq 0 N)) / INR N) by (intros z; apply ls_Pf_avg).
  split. { refine (mean_ext _ _ _ _ _ (avg_mean n N X e HN H1')). intros z. now rewrite EN. }
  intros H2. assert (H2' : is_mean n (fun u => (X u - e) ^ 2) v) by (refine (mean_ext _ _ _ _ _ H2); intros z; cbn beta; now rewrite E1).
  split.
  - assert (S : is_mean (n * N) (fun z => lsum (map (fun j => X (col N j z) - e) (seq 0 N)) ^ 2) (INR (length (seq 0 N)) * v)).
    { apply (mean_sq_sum (n * N) (fun j z => X (col N j z) - e) (fun j i => Nat.eqb (i mod N) j) v (seq 0 N) (seq_NoDup N 0)).
      - intros j Hj. apply in_seq in Hj. split; [|split].
        + pose proof (col_mean n N X e j ltac:(lia) H1') as M. pose proof (mean_plus _ _ _ _ _ M (mean_const _ (- e))) as M2. replace (e + - e) with 0 in M2 by ring. exact M2.
        + apply (col_mean n N (fun u => (X u - e) ^ 2) v j ltac:(lia) H2').
        + intros s s' H. do 2 f_equal. apply functional_extensionality. intros i. unfold col. apply H. apply Nat.eqb_eq. rewrite Nat.add_comm, Nat.mod_add by lia. apply Nat.mod_small. lia.
      - intros a b _ _ Hab i Hi. apply Nat.eqb_eq in Hi. apply Nat.eqb_neq. congruence. }
    rewrite seq_length in S. pose proof (mean_scal _ (/ INR N * / INR N) _ _ S) as M. replace (/ INR N * / INR N * (INR N * v)) with (v / INR N) in M by (field; lra).
    refine (mean_ext _ _ _ _ _ M). intros z. cbn beta. rewrite EN.
    assert (L : lsum (map (fun j => X (col N j z) - e) (seq 0 N)) = lsum (map (fun j => X (col N j z)) (seq 0 N)) - INR N * e).
    { assert (G : forall (Y : nat -> R) K k, lsum (map (fun j => Y j - e) (seq k K)) = lsum (map Y (seq k K)) - INR K * e).
      { clear. intros Y. induction K as [|K IH]; intros k; [cbn; ring|]. cbn [seq map].
        change (Y k - e + lsum (map (fun j => Y j - e) (seq (S k) K)) = Y k + lsum (map Y (seq (S k) K)) - INR (S K) * e). rewrite IH, S_INR. ring. }
      apply (G (fun j => X (col N j z))). }
    rewrite L. field. lra.
  - assert (M : is_mean n (fun u => (1 - 2 * e) * X u + e ^ 2) ((1 - 2 * e) * e + e ^ 2)) by (apply (mean_plus n (fun u => (1 - 2 * e) * X u) (fun _ => e ^ 2)); [apply mean_scal, H1'|apply mean_const]).
    replace (e * (1 - e)) with ((1 - 2 * e) * e + e ^ 2) by ring. apply (mean_le n (fun u => (X u - e) ^ 2) (fun u => (1 - 2 * e) * X u + e ^ 2)); [|exact H2'|exact M].
    intros u. pose proof (Phi_bound (- find_line_intersection ev brentq (foot n alpha u) alpha beta)) as B. fold (X u) in B. nra.
Qed.
Print Assumptions C117_lines.

(** C117: with an exact root finder and crossings inside the scanned range the estimator is unbiased. *)
Theorem C117_unbiased : forall n N (g : vec -> R) ev brentq alpha beta p,
  (1 <= N)%nat -> dot n alpha alpha = 1 -> (forall u, ev u = Some (g u)) -> reads n g ->
  (forall v, dot n alpha v = 0 -> (forall t, continuity_pt (fun t => g (line_pt v alpha t)) t) /\
     exists c, Rabs c <= Rmax (Rabs beta * 3 + 5) 15 /\ (forall t, t < c -> 0 < g (line_pt v alpha t)) /\ (forall t, c < t -> g (line_pt v alpha t) < 0)) ->
  brent_accurate 0 brentq -> split_failure n g alpha p ->
  is_mean (n * N) (fun z => ls_Pf (ls_run n N z ev brentq alpha beta)) p.
Proof.
  intros n N g ev brentq alpha beta p HN U Hev Hg HL HB Hp.
  set (f := fun s => if Rltb (g (split_point n alpha s)) 0 then 1 else 0 : R). unfold split_failure in Hp. fold f in Hp.
  refine (mean_ext _ _ _ _ _ (avg_mean n N _ _ HN (mean_inner n f p Hp))). intros z. rewrite ls_Pf_avg. do 2 f_equal. apply map_ext. intros j.
  set (u := col N j z). set (v := foot n alpha u). destruct (HL v (foot_orth n alpha u U)) as (HC & c & Bc & Ha & Hb). fold (c_max beta) in Bc. apply Rabs_le_between in Bc.
  set (h := fun t => g (line_pt v alpha t)) in *.
  assert (R : find_line_intersection ev brentq v alpha beta = c).
  { destruct (cross_res ev brentq v alpha beta 0 h ltac:(intros t; apply Hev) HC HB c Ha Hb) as [E|[[L _]|[L _]]]; [|lra|lra].
    pose proof (Rabs_pos (find_line_intersection ev brentq v alpha beta - c)). destruct (Req_dec (find_line_intersection ev brentq v alpha beta - c) 0) as [E0|E0]; [lra|]. apply Rabs_pos_lt in E0. lra. }
  rewrite R. apply inner_eq. refine (eN_ext _ _ _ _ (cross_prob h c HC Ha Hb)). intros t. unfold f, h.
  rewrite (Hg (split_point n alpha (snoc n u t)) (line_pt v alpha t)); [reflexivity|]. intros i Hi. apply split_line. exact Hi.
Qed.
Print Assumptions C117_unbiased.

(** C117: for a direction along the last coordinate axis the probability of [split_failure] is the
    probability of failure at n independent standard normal numbers (C111, C112). *)
Theorem C117_last_axis : forall m g sg p, sg = 1 \/ sg = -1 -> reads (S m) g ->
  is_mean (S m) (fun u => if Rltb (g (fun i => if Nat.eqb i m then sg * u i else u i)) 0 then 1 else 0) p ->
  split_failure (S m) g (fun i => if Nat.eqb i m then sg else 0) p.
Proof.
  intros m g sg p Hs Hg M. unfold split_failure.
  pose proof (mean_select (S (S m)) (S m) _ p (fun i => if Nat.ltb i m then i else S i) M) as S.
  refine (mean_ext _ _ _ _ _ (S _ _)).
  - intros s. cbn beta. erewrite Hg; [reflexivity|]. intros i Hi. cbn beta. unfold split_point.
    assert (D : dot (Datatypes.S m) (fun i => if Nat.eqb i m then sg else 0) s = sg * s m).
    { unfold dot. rewrite fsum_S, Nat.eqb_refl. rewrite fsum_zero; [ring|]. intros k Hk. destruct (Nat.eqb_spec k m); [lia|]. ring. }
    rewrite D. destruct (Nat.eqb_spec i m) as [->|Ne].
    + rewrite Nat.ltb_irrefl. destruct Hs as [-> | ->]; ring.
    + destruct (Nat.ltb_spec i m); [ring|lia].
  - intros i. destruct (Nat.ltb_spec i m), (Nat.ltb_spec (Datatypes.S i) m); lia.
  - intros i Hi. destruct (Nat.ltb_spec i m); lia.
Qed.
Print Assumptions C117_last_axis.

(** C117: not so when the lines cross twice: for g = 4 - u^2 in one variable, with FORM's direction
    and index 2, every run reports Phi(-2) up to the root finder's tolerance; the probability of
    failure is twice that. *)
Theorem C117_two_sided_refuted : forall brentq eps N z, 0 <= eps -> brent_accurate eps brentq -> (1 <= N)%nat ->
  let g := fun u : vec => 4 - u 0%nat ^ 2 in let alpha := fun i => if Nat.eqb i 0 then 1 else 0 : R in
  Rabs (ls_Pf (ls_run 1 N z (fun u => Some (g u)) brentq alpha 2) - Phi (- 2)) <= eps / sqrt (2 * PI) /\
  is_mean 1 (fun u => if Rltb (g u) 0 then 1 else 0) (2 * Phi (- 2)) /\ split_failure 1 g alpha (2 * Phi (- 2)) /\ 0 < Phi (- 2).
Proof.
  intros brentq eps N z He HB HN g alpha.
  assert (PR : is_mean 1 (fun u => if Rltb (g u) 0 then 1 else 0) (2 * Phi (- 2))).
  { exists (fun x => if Rltb (4 - x ^ 2) 0 then 1 else 0). split; [intros x s; reflexivity|].
    pose proof (eN_plus _ _ _ _ (eN_below (- 2)) (cross_prob (fun t => 2 - t) 2 ltac:(intros t; reg) ltac:(intros; lra) ltac:(intros; lra))) as E. replace (2 * Phi (- 2)) with (Phi (- 2) + Phi (- 2)) by ring.
    refine (eN_ext _ _ _ _ E). intros x. cbn beta.
    destruct (Rltb x (- 2)) eqn:A; destruct (Rltb (2 - x) 0) eqn:B; destruct (Rltb (4 - x ^ 2) 0) eqn:C;
      rewrite ?Rltb_spec, ?Rltb_false in *; try lra; exfalso; try nra. }
  refine (conj _ (conj PR (conj _ (proj1 (Phi_bound (- 2)))))).
  2: { apply (C117_last_axis 0 g 1); [left; reflexivity|intros u v H; unfold g; rewrite H by lia; reflexivity|]. refine (mean_ext _ _ _ _ _ PR). intros u. unfold g. cbn [Nat.eqb]. now rewrite Rmult_1_l. }
  rewrite ls_Pf_avg. set (F := fun j => Phi (- find_line_intersection (fun u => Some (g u)) brentq (foot 1 alpha (col N j z)) alpha 2)).
  pose proof (avg_near (seq 0 N) F (fun _ => Phi (- 2)) (eps / sqrt (2 * PI)) N ltac:(now rewrite seq_length) HN) as AN.
  assert (CN : lsum (map (fun _ => Phi (- 2)) (seq 0 N)) / INR N = Phi (- 2)).
  { assert (PN : 0 < INR N) by (apply lt_0_INR; lia). assert (C : forall k, lsum (map (fun _ => Phi (- 2)) (seq k N)) = INR N * Phi (- 2)).
    { clear. induction N as [|N IH]; intros k; [cbn; ring|]. cbn [seq map]. change (Phi (- 2) + lsum (map (fun _ => Phi (- 2)) (seq (S k) N)) = INR (S N) * Phi (- 2)). rewrite IH, S_INR. ring. }
    rewrite C. field. lra. }
  rewrite CN in AN. apply AN. intros j. unfold F. set (v := foot 1 alpha (col N j z)).
  assert (V0 : v 0%nat = 0) by (unfold v, foot, dot, alpha; cbn; ring).
  set (h := fun t : R => 4 - t ^ 2).
  assert (Hev : forall c, (fun u => Some (g u)) (line_pt v alpha c) = Some (h c)) by (intros c; unfold g, h, line_pt; rewrite V0; unfold alpha; cbn [Nat.eqb]; do 3 f_equal; ring).
  assert (HC : forall c, continuity_pt h c) by (intros c; unfold h; reg).
  assert (CM : c_max 2 = 15) by (unfold c_max; rewrite Rabs_right by lra; rewrite Rmax_right; lra).
  destruct (grid_step 2 2 ltac:(rewrite CM; lra)) as (k & Hk & K1 & K2).
  assert (K0 : c_scan 2 (S k) - c_scan 2 k = 30 / 39) by (unfold c_scan, n_scan; rewrite CM, S_INR; replace (INR (40 - 1)) with 39 by (cbn; lra); field).
  set (gg := fun i => (fun u => Some (g u)) (line_pt v alpha (c_scan 2 i))).
  assert (SF : safe_to_fail gg k). { exists (h (c_scan 2 k)), (h (c_scan 2 (S k))). unfold gg. rewrite !Hev. repeat split; unfold h; nra. }
  pose proof (bracket_spec gg) as BS. destruct (bracket gg) as [i|] eqn:EB; [|exfalso; apply (BS k Hk), stf_crossing, SF].
  destruct BS as (Hi & _ & [[SI _]|[NS _]]); [|exfalso; exact (NS k Hk SF)].
  destruct SI as (g1 & g2 & G1 & G2 & P1 & P2). unfold gg in G1, G2. rewrite Hev in G1, G2. injection G1 as <-. injection G2 as <-.
  destruct (line_some (fun u => Some (g u)) brentq v alpha 2 eps h Hev HC HB i EB) as (r & Hr & R0 & RE).
  assert (r = 2). { unfold h in *. assert (X : (r - 2) * (r + 2) = 0) by nra. apply Rmult_integral in X. destruct X as [X|X]; [lra|]. exfalso. nra. }
  subst r. pose proof (Phi_lip0 (find_line_intersection (fun u => Some (g u)) brentq v alpha 2) 2) as PL. rewrite phi_zero in PL. unfold Rdiv. 
  eapply Rle_trans; [exact PL|]. rewrite Rmult_comm. apply Rmult_le_compat_r; [left; apply Rinv_0_lt_compat, sqrt_lt_R0; pose proof PI_RGT_0; lra|exact RE].
Qed.
Print Assumptions C117_two_sided_refuted.

(** C117: the whole analysis. When the preparation and the FORM analysis succeed (C100), every run
    completes, and the expected value of the reported probability over the random numbers is within
    the bound of C117_bias of the probability of failure. *)
Theorem C117_run : forall fmin chol svd inv brentq fuel lf expr fo evn topt Ns a s s1 s2 T A M n b fr alpha beta (g : vec -> R) eps p,
  init_run_full fmin chol svd inv (lo_type a) s = (s1, Ok (T, A)) -> sm_Ro s1 = Some M -> length M = n ->
  length (sm_marg s) = n -> lo_nrv a = n ->
  (lo_form a = Some (n, b) /\ fb_res b = Some fr /\ s2 = s1) \/
  (lo_form a = None /\ exists b0, form_init topt = Ok b0 /\ run_form fmin chol svd inv fuel lf expr fo evn b0 s1 = (b, s2, FDone fr)) ->
  form_alpha n fr = Some alpha -> form_beta n fr = Fin beta -> dot n alpha alpha = 1 ->
  (1 <= Ns)%Z -> (1 <= o_block_size (fo_ls fo))%Z -> (2 <= lf)%nat ->
  (forall u, line_value lf expr fo s n A u = Some (g u)) -> reads n g ->
  (forall v, dot n alpha v = 0 -> (forall t, continuity_pt (fun t => g (line_pt v alpha t)) t) /\ crosses_once (fun t => g (line_pt v alpha t))) ->
  0 <= eps -> brent_accurate eps (fun g lo hi => fst (brentq g lo hi)) -> split_failure n g alpha p ->
  exists Pf : (nat -> R) -> R,
    (forall randn, exists b' r s', ls_run_on fmin chol svd inv brentq fuel lf expr fo evn topt Ns randn a s =
       (mkLo true (lo_type a) n b' (Some (LNum r)), s', LDone) /\ ls_Pf r = Pf randn) /\
    forall e, is_mean (n * Z.to_nat Ns) Pf e -> Rabs (e - p) <= eps / sqrt (2 * PI) + Phi (- 15).
Proof.
  intros fmin chol svd inv brentq fuel lf expr fo evn topt Ns a s s1 s2 T A M n b fr alpha beta g eps p EI ERo EMl EM En HF Fa Fb U HNs Hb Hlf Hg Rg HL He HB Hp.
  exists (fun z => ls_Pf (ls_run n (Z.to_nat Ns) z (line_value lf expr fo s n A) (fun g lo hi => fst (brentq g lo hi)) alpha beta)). split.
  - intros randn. destruct (C100_run_composition fmin chol svd inv brentq fuel lf expr fo evn topt Ns randn a s s1 s2 T A M n b fr alpha beta EI ERo EMl EM En HF Fa Fb HNs Hb Hlf) as (c & E & _).
    do 3 eexists. split; [exact E|reflexivity].
  - intros e Me. apply (C117_bias n (Z.to_nat Ns) g (line_value lf expr fo s n A) (fun g lo hi => fst (brentq g lo hi)) alpha beta eps p e); auto. lia.
Qed.
Print Assumptions C117_run.

(** C117, concrete: g = 2 + 1/(1 + x^2) - y in two variables, direction (0, 1): a curved limit state
    whose probability of failure is a number p between Phi(-3) and Phi(-2); one line or many, the
    expected value of the estimate is p, and its variance at most p (1 - p) / N. *)
Example C117_example : let g := fun u : vec => 2 + / (1 + u 0%nat ^ 2) - u 1%nat in let alpha := fun i => if Nat.eqb i 1 then 1 else 0 : R in
  exists p, Phi (- 3) <= p <= Phi (- 2) /\ split_failure 2 g alpha p /\ is_mean 2 (fun u => if Rltb (g u) 0 then 1 else 0) p /\
    forall brentq N beta, brent_accurate 0 brentq -> (1 <= N)%nat ->
      is_mean (2 * N) (fun z => ls_Pf (ls_run 2 N z (fun u => Some (g u)) brentq alpha beta)) p /\
      exists v, v <= p * (1 - p) / INR N /\ is_mean (2 * N) (fun z => (ls_Pf (ls_run 2 N z (fun u => Some (g u)) brentq alpha beta) - p) ^ 2) v.
Proof.
  intros g alpha. set (q := fun x => Phi (- (2 + / (1 + x ^ 2)))).
  assert (P1 : forall x : R, 1 <= 1 + x ^ 2) by (intros x; pose proof (pow2_ge_0 x); lra).
  assert (I1 : forall x : R, 0 < / (1 + x ^ 2) <= 1). { intros x. specialize (P1 x). split; [apply Rinv_0_lt_compat; lra|]. rewrite <- Rinv_1. apply Rinv_le_contravar; lra. }
  assert (QB : forall x, Phi (- 3) <= q x <= Phi (- 2)) by (intros x; specialize (I1 x); split; apply -> Phi_le; lra).
  assert (QC : forall x, continuous q x).
  { intros x. apply (continuous_comp (fun x => - (2 + / (1 + x ^ 2))) Phi); [apply (ex_derive_continuous (fun x => - (2 + / (1 + x ^ 2)))); auto_derive; specialize (P1 x); cbn in P1; lra|].
    apply (ex_derive_continuous Phi). eexists. apply Phi_derive. }
  assert (B01 : forall x, 0 < q x < 1) by (intros x; apply Phi_bound).
  destruct (eN_exists q 1 QC) as (p & Ep); [intros x; specialize (B01 x); rewrite Rabs_right; lra|].
  assert (Gc : forall v t, continuity_pt (fun t => g (line_pt v alpha t)) t).
  { intros v t. apply (continuity_pt_ext (fun t => 2 + / (1 + v 0%nat ^ 2) - (v 1%nat + t))); [|reg]. intros x. unfold g, line_pt, alpha. cbn [Nat.eqb]. rewrite Rmult_0_r, Rplus_0_r, Rmult_1_r. reflexivity. }
  assert (PM : is_mean 2 (fun u => if Rltb (g u) 0 then 1 else 0) p).
  { exists q. split; [|exact Ep]. intros x. exists (fun y => if Rltb (2 + / (1 + x ^ 2) - y) 0 then 1 else 0). split; [intros y s; reflexivity|].
    apply cross_prob; [intros t; reg|intros; lra|intros; lra]. }
  assert (Rg : reads 2 g) by (intros u v H; unfold g; rewrite (H 0%nat), (H 1%nat) by lia; reflexivity).
  assert (SF : split_failure 2 g alpha p).
  { apply (C117_last_axis 1 g 1 p); [left; reflexivity|exact Rg|]. refine (mean_ext _ _ _ _ _ PM). intros u. unfold g. cbn [Nat.eqb]. now rewrite Rmult_1_l. }
  exists p. split; [split|].
  - apply (eN_le (fun _ => Phi (- 3)) q); [intros x; apply QB|apply eN_const|exact Ep].
  - apply (eN_le q (fun _ => Phi (- 2))); [intros x; apply QB|exact Ep|apply eN_const].
  - split; [exact SF|]. split; [exact PM|]. intros brentq N beta HB HN.
    assert (U : dot 2 alpha alpha = 1) by (unfold dot, alpha; cbn; ring).
    assert (HLn : forall v, exists c, Rabs c <= Rmax (Rabs beta * 3 + 5) 15 /\ (forall t, t < c -> 0 < g (line_pt v alpha t)) /\ (forall t, c < t -> g (line_pt v alpha t) < 0) \/ v 1%nat <> 0).
    { intros v. destruct (Req_dec (v 1%nat) 0) as [V|V]; [|exists 0; right; exact V]. exists (2 + / (1 + v 0%nat ^ 2)). left.
      assert (L : forall t, g (line_pt v alpha t) = 2 + / (1 + v 0%nat ^ 2) - t) by (intros t; unfold g, line_pt, alpha; cbn [Nat.eqb]; rewrite Rmult_0_r, Rplus_0_r, V; ring).
      specialize (I1 (v 0%nat)). split; [rewrite Rabs_right by lra; pose proof (Rmax_r (Rabs beta * 3 + 5) 15); lra|]. split; intros t Ht; rewrite L; lra. }
    assert (HL : forall v, dot 2 alpha v = 0 -> (forall t, continuity_pt (fun t => g (line_pt v alpha t)) t) /\
       exists c, Rabs c <= Rmax (Rabs beta * 3 + 5) 15 /\ (forall t, t < c -> 0 < g (line_pt v alpha t)) /\ (forall t, c < t -> g (line_pt v alpha t) < 0)).
    { intros v D. split; [apply Gc|]. assert (V : v 1%nat = 0) by (unfold dot, alpha in D; cbn in D; lra). destruct (HLn v) as (c & [H|H]); [exists c; exact H|contradiction]. }
    pose proof (fun K HK => C117_unbiased 2 K g (fun u => Some (g u)) brentq alpha beta p HK U (fun u => eq_refl) Rg HL HB SF) as UB.
    split; [apply UB; exact HN|]. pose proof (UB 1%nat ltac:(lia)) as U1. rewrite Nat.mul_1_r in U1.
    assert (V1 : exists v, is_mean 2 (fun z => (ls_Pf (ls_run 2 1 z (fun u => Some (g u)) brentq alpha beta) - p) ^ 2) v).
    { destruct (eN_exists (fun x => (q x - p) ^ 2) ((1 + Rabs p) ^ 2)) as (v & Ev).
      - intros x. apply (continuous_comp (fun x => q x - p) (fun y => y ^ 2)); [apply (continuous_minus q (fun _ => p)); [apply QC|apply continuous_const]|]. apply (ex_derive_continuous (fun y => y ^ 2)). auto_derive. exact I.
      - intros x. specialize (B01 x). pose proof (Rle_abs p). pose proof (Rle_abs (- p)). rewrite Rabs_Ropp in *. rewrite Rabs_right by (apply Rle_ge, pow2_ge_0). nra.
      - exists v. exists (fun x => (q x - p) ^ 2). split; [|exact Ev]. intros x. exists (fun _ => (q x - p) ^ 2). split; [|apply eN_const]. intros y s. f_equal. f_equal.
        rewrite ls_Pf_avg. cbn [seq map]. set (z := scons x (scons y s)). set (u := col 1 0 z). set (w := foot 2 alpha u).
        assert (W0 : w 0%nat = x) by (unfold w, foot, alpha; cbn [Nat.eqb]; unfold u, col, z; cbn; ring). 
        destruct (HL w (foot_orth 2 alpha u U)) as (_ & c & Bc & Ha & Hb). fold (c_max beta) in Bc. apply Rabs_le_between in Bc.
        assert (E1 : find_line_intersection (fun u => Some (g u)) brentq w alpha beta = c).
        { destruct (cross_res (fun u => Some (g u)) brentq w alpha beta 0 (fun t => g (line_pt w alpha t)) (fun t => eq_refl) (Gc w) HB c Ha Hb) as [E|[[L _]|[L _]]]; [|lra|lra].
          pose proof (Rabs_pos (find_line_intersection (fun u => Some (g u)) brentq w alpha beta - c)). destruct (Req_dec (find_line_intersection (fun u => Some (g u)) brentq w alpha beta - c) 0) as [E0|E0]; [lra|]. apply Rabs_pos_lt in E0. lra. }
        assert (Z := cross_zero _ c (Gc w) Ha Hb). cbn beta in Z.
        assert (W1 : w 1%nat = 0) by (pose proof (foot_orth 2 alpha u U) as O; unfold dot, alpha in O; cbn in O; fold alpha in O; fold w in O; lra).
        unfold g, line_pt, alpha in Z. cbn [Nat.eqb] in Z. rewrite W1, W0, Rmult_0_r, Rplus_0_r in Z.
        assert (Cq : c = 2 + / (1 + x ^ 2)) by lra. change (lsum [Phi (- find_line_intersection (fun u => Some (g u)) brentq w alpha beta)] / INR 1 = q x). rewrite E1, Cq. unfold q. cbn [lsum fold_right INR]. field. }
    destruct V1 as (v & V1). exists (v / INR N). destruct (proj2 (C117_lines 2 N (fun u => Some (g u)) brentq alpha beta p v HN U1) V1) as [H1 H2]. split; [|exact H1].
    assert (PN : 0 < INR N) by (apply lt_0_INR; lia). unfold Rdiv. apply Rmult_le_compat_r; [left; apply Rinv_0_lt_compat; exact PN|exact H2].
Qed.
Print Assumptions C117_example.
