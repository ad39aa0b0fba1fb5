(** C111: expected value and variance of the Monte Carlo estimates. *)
From Coquelicot Require Import Coquelicot.
From Verif Require Import Base Gauss GaussProofs MomSpec MomProofs McSpec Mc McProofs McRunProofs McProps McBiasSpec McBiasProofs.
From Coq Require Import Lra Lia ZArith FunctionalExtensionality.
Open Scope R_scope.

(** numbers [pre] taken before the run, then the random ones *)
Definition from (off : nat) (pre s : nat -> R) : nat -> R := fun i => if (i <? off)%nat then pre i else s (i - off)%nat.

(** ** which numbers each point is made of *)
Definition bstart (B j : nat) : nat := (B * (j / B))%nat.
Definition bsize (N B j : nat) : nat := Nat.min B (N - bstart B j).
Definition pos (n N B j i : nat) : nat := (n * bstart B j + i * bsize N B j + (j - bstart B j))%nat.

Lemma bstart_le B j : (0 < B)%nat -> (bstart B j <= j < bstart B j + B)%nat.
Proof. intros H. unfold bstart. pose proof (Nat.div_mod j B ltac:(lia)). pose proof (Nat.mod_upper_bound j B ltac:(lia)). lia. Qed.
Lemma bstart_next B j j' : (0 < B)%nat -> (bstart B j < bstart B j')%nat -> (bstart B j + B <= bstart B j')%nat.
Proof. intros H. unfold bstart. intros L. apply Nat.mul_lt_mono_pos_l in L; [|exact H]. nia. Qed.
Lemma bsize_pos N B j : (0 < B)%nat -> (j < N)%nat -> (j - bstart B j < bsize N B j)%nat.
Proof. intros H L. pose proof (bstart_le B j H). unfold bsize. lia. Qed.

Lemma pos_lt n N B j i : (0 < B)%nat -> (j < N)%nat -> (i < n)%nat -> (pos n N B j i < n * N)%nat.
Proof.
  intros HB Hj Hi. unfold pos. pose proof (bsize_pos N B j HB Hj) as H1. pose proof (bstart_le B j HB) as H2. set (d := bstart B j) in *. set (b := bsize N B j) in *.
  assert (H3 : (d + b <= N)%nat) by (unfold b, bsize; fold d; lia). clearbody d b.
  assert ((i + 1) * b <= n * b)%nat by (apply Nat.mul_le_mono_r; lia). assert (n * (d + b) <= n * N)%nat by (apply Nat.mul_le_mono_l; lia). lia.
Qed.
Lemma pos_incr n N B j i : (0 < B)%nat -> (j < N)%nat -> (pos n N B j i < pos n N B j (S i))%nat.
Proof. intros HB Hj. unfold pos. pose proof (bsize_pos N B j HB Hj). nia. Qed.
Lemma pos_disj n N B j j' i i' : (0 < B)%nat -> (j < N)%nat -> (j' < N)%nat -> (i < n)%nat -> (i' < n)%nat -> pos n N B j i = pos n N B j' i' -> j = j'.
Proof.
  intros HB Hj Hj' Hi Hi' E.
  assert (Hlt : forall a b k k', (a < N)%nat -> (b < N)%nat -> (k < n)%nat -> (bstart B a < bstart B b)%nat -> (pos n N B a k < pos n N B b k')%nat).
  { intros a b k k' Ha Hb Hk L. pose proof (bstart_next B a b HB L) as H1. pose proof (bsize_pos N B a HB Ha) as H2. unfold pos.
    assert (H3 : (bsize N B a <= B)%nat) by (unfold bsize; lia). set (d := bstart B a) in *. set (d' := bstart B b) in *. set (c := bsize N B a) in *.
    assert ((k + 1) * c <= n * c)%nat by (apply Nat.mul_le_mono_r; lia). assert (n * (d + c) <= n * d')%nat by (apply Nat.mul_le_mono_l; lia). lia. }
  destruct (Nat.lt_trichotomy (bstart B j) (bstart B j')) as [L|[L|L]].
  - pose proof (Hlt j j' i i' Hj Hj' Hi L). lia.
  - unfold pos in E. pose proof (bsize_pos N B j HB Hj) as H1. pose proof (bsize_pos N B j' HB Hj') as H2. pose proof (bstart_le B j HB). pose proof (bstart_le B j' HB).
    unfold bsize in *. rewrite L in *. set (d := bstart B j') in *. set (b := Nat.min B (N - d)) in *.
    assert (E' : (j - d + i * b = j' - d + i' * b)%nat) by lia. assert (Q : ((j - d) mod b = (j' - d) mod b)%nat). { rewrite <- (Nat.mod_add (j - d) i b), E', Nat.mod_add by lia. reflexivity. }
    rewrite !Nat.mod_small in Q by lia. lia.
  - pose proof (Hlt j' j i' i Hj' Hj Hi' L). lia.
Qed.

Section Est.
  Variables (n : nat) (o : mc_opts) (p : vec) (tox : vec -> vec) (Gof : list vec -> result (list R)) (g : vec -> R) (prev : mc_state) (off : nat) (pre : nat -> R).
  Hypothesis HG : forall us, Gof us = Ok (map g us).
  Hypothesis Hg : reads n g.
  Hypothesis Hs : 0 < mo_stdv o.
  Hypothesis Hb : (0 < mo_block o)%Z.
  Hypothesis HN : (0 < mo_samples o)%Z.
  Hypothesis Hr : mo_rg o = 0%Z.
  Hypothesis Hx : mo_target o <= 0 \/ (mo_samples o <= mo_block o)%Z.

  Let N := Z.to_nat (mo_samples o).
  Let B := Z.to_nat (mo_block o).
  Let s := mo_stdv o.
  Let run (z : nat -> R) fuel := mc_run n o (from off pre z) p tox Gof fuel prev off.

  Lemma all_used z fuel st : run z fuel = MDone st -> ms_k st = mo_samples o.
  Proof.
    intros E. destruct (run_inv n o (from off pre z) p tox Gof g HG prev off fuel st Hb E) as (HI & Kp & NB & Stop & _). destruct Stop as [C|C]; [|exact C].
    destruct HI as [I1 I2 _ _ _ I6 _ _]. destruct Hx as [T|T].
    - exfalso. specialize (I6 NB). unfold cov_update in I6. assert (0 < IZR (ms_k st)) by (apply (IZR_lt 0); exact Kp).
      destruct (Rltb 0 (ms_sum_q st)) eqn:Z0; [|injection I6 as _ Q; lra]. apply Rltb_spec in Z0. injection I6 as _ Q.
      set (v := / IZR (ms_k st) * _) in Q. set (c := sqrt v * / (/ IZR (ms_k st) * ms_sum_q st)) in Q.
      assert (P : 0 <= c). { unfold c. apply Rmult_le_pos; [apply sqrt_pos|]. left. apply Rinv_0_lt_compat, Rmult_lt_0_compat; [apply Rinv_0_lt_compat; assumption|exact Z0]. }
      unfold Reqb in Q. destruct (Req_EM_T c 0); lra.
    - destruct (run_layout n o (from off pre z) p tox Gof g HG prev off fuel st ltac:(lia) E 0%nat) as [L _]; [destruct (ms_blocks st); [contradiction|cbn; lia]|].
      cbn [firstn concat List.length Z.of_nat] in L. rewrite Z.sub_0_r, Z.min_r in L by exact T.
      unfold ms_pts in I1. destruct (ms_blocks st) as [|b0 bl]; [contradiction|]. cbn [nth concat] in *. rewrite app_length in I1. lia.
  Qed.

  Lemma done_is z fuel st : run z fuel = MDone st -> forall m, (m <= length (ms_blocks st))%nat -> length (concat (firstn m (ms_blocks st))) = Nat.min (m * B) N.
  Proof.
    intros E. induction m as [|m IH]; intros Hm; [reflexivity|].
    destruct (run_layout n o (from off pre z) p tox Gof g HG prev off fuel st ltac:(lia) E m ltac:(lia)) as [L _]. rewrite (IH ltac:(lia)) in L. specialize (IH ltac:(lia)).
    assert (Q : firstn (S m) (ms_blocks st) = (firstn m (ms_blocks st) ++ [nth m (ms_blocks st) []])%list).
    { clear - Hm. revert m Hm. induction (ms_blocks st) as [|b bl IHb]; intros m Hm; [cbn in Hm; lia|]. destruct m as [|m]; [reflexivity|]. cbn [firstn nth app]. f_equal. apply IHb. cbn in Hm. lia. }
    rewrite Q, concat_app, app_length. cbn [concat]. rewrite app_nil_r, IH, L. unfold N, B in *. cbn [Nat.mul]. lia.
  Qed.

  Lemma layout z fuel st : run z fuel = MDone st -> length (ms_pts st) = N /\
    forall j i, (j < N)%nat -> (i < n)%nat -> nth j (ms_pts st) (fun _ => 0) i = p i + s * z (pos n N B j i).
  Proof.
    intros E. pose proof (all_used z fuel st E) as K. destruct (run_inv n o (from off pre z) p tox Gof g HG prev off fuel st Hb E) as (HI & _). destruct HI as [I1 _ _ _ _ _ _ _].
    assert (L : length (ms_pts st) = N) by (unfold N; lia). split; [exact L|]. intros j i Hj Hi.
    destruct (nth_concat_firstn (A:=vec) (fun _ : nat => 0) (ms_blocks st) j ltac:(unfold ms_pts in L; lia)) as (m & H1 & H2 & H3 & H4).
    unfold ms_pts. rewrite H4. destruct (run_layout n o (from off pre z) p tox Gof g HG prev off fuel st ltac:(lia) E m H1) as [LL KK]. cbv zeta in *.
    rewrite LL in H3. rewrite KK by (assumption || lia). clear KK LL. pose proof (done_is z fuel st E m ltac:(lia)) as DI. rewrite DI in H2, H3. rewrite !DI. fold s. f_equal. f_equal.
    assert (D : Nat.min (m * B) N = bstart B j).
    { assert (HB : (0 < B)%nat) by (unfold B; lia). assert (m * B <= N)%nat by lia. rewrite Nat.min_l in * by lia. unfold bstart. assert (Q : (j / B = m)%nat); [|rewrite Q; lia].
      symmetry. apply (Nat.div_unique j B m (j - m * B)); [|lia]. unfold B in *. lia. }
    rewrite D in *. unfold from. destruct (Nat.ltb_spec (off + n * bstart B j + i * Z.to_nat (Z.min (mo_block o) (mo_samples o - Z.of_nat (bstart B j))) + (j - bstart B j)) off) as [C|C]; [lia|].
    f_equal. unfold pos, bsize. replace (Z.to_nat (Z.min (mo_block o) (mo_samples o - Z.of_nat (bstart B j)))) with (Nat.min B (N - bstart B j)) by (unfold B, N; lia). lia.
  Qed.

  (** weight of the point made of the standard normal numbers z *)
  Definition wt (z : vec) : R := w n o p g (fun i => p i + s * z i).

  Lemma w_reads : forall u v, (forall i, (i < n)%nat -> u i = v i) -> w n o p g u = w n o p g v.
  Proof.
    intros u v H. unfold w. rewrite (Hg u v H). rewrite !weight_form. unfold dot.
    assert (Q : forall m (f h : nat -> R), (forall i, (i < m)%nat -> f i = h i) -> fsum m f = fsum m h).
    { induction m as [|m IH]; intros f h E; [reflexivity|]. cbn [fsum]. rewrite (E m) by lia. f_equal. apply IH. intros i Hi. apply E. lia. }
    repeat (f_equal; try (apply Q; intros i Hi; rewrite ?(H i Hi); reflexivity)).
  Qed.

  Lemma est_is z : exists st, run z (S N) = MDone st /\
    mc_Pf st = / INR N * lsum (map (fun j => wt (fun i => z (pos n N B j i))) (seq 0 N)).
  Proof.
    destruct (C28_terminates n o (from off pre z) p tox Gof g prev off (S N) HG Hb HN Hr ltac:(unfold N; lia)) as (st & E). exists st. split; [exact E|].
    destruct (run_Pf n o (from off pre z) p tox Gof g HG prev off _ st Hb Hs E) as [P _]. destruct (layout z _ st E) as [L K]. rewrite P, (all_used z _ st E). unfold Rdiv. rewrite Rmult_comm. f_equal.
    - f_equal. unfold N. rewrite INR_IZR_INZ, Z2Nat.id by lia. reflexivity.
    - f_equal. apply (nth_ext _ _ 0 0); [rewrite !map_length, seq_length; exact L|]. rewrite map_length, L. intros j Hj.
      rewrite (nth_indep _ 0 (w n o p g (fun _ => 0))) by (rewrite map_length; lia). rewrite (map_nth (w n o p g) (ms_pts st) (fun _ => 0) j).
      rewrite (nth_indep _ 0 (wt (fun i => z (pos n N B 0 i)))) by (rewrite map_length, seq_length; lia). rewrite (map_nth (fun j0 => wt (fun i => z (pos n N B j0 i))) (seq 0 N) 0%nat j), seq_nth by exact Hj. cbn [Nat.add].
      unfold wt. apply w_reads. intros i Hi. apply K; assumption.
  Qed.
  Definition est (z : nat -> R) : R := / INR N * lsum (map (fun j => wt (fun i => z (pos n N B j i))) (seq 0 N)).

  Lemma term_mean j h v : (j < N)%nat -> is_mean n h v -> is_mean (n * N) (fun z => h (fun i => z (pos n N B j i))) v.
  Proof.
    intros Hj H. apply (mean_select (n * N) n h v (pos n N B j) H); intros i; [apply pos_incr|intros Hi; apply pos_lt]; try assumption; unfold B; lia.
  Qed.
  Lemma INR_N : 0 < INR N. Proof. apply (lt_INR 0). unfold N. lia. Qed.

  Lemma est_mean v : is_mean n wt v -> is_mean (n * N) est v.
  Proof.
    intros H. replace v with (/ INR N * lsum (map (fun _ => v) (seq 0 N))).
    - apply mean_scal. apply (mean_sum (n * N) (fun j z => wt (fun i => z (pos n N B j i))) (fun _ => v)). intros j Hj. apply in_seq in Hj. apply term_mean; [lia|exact H].
    - assert (Q : forall l : list nat, lsum (map (fun _ => v) l) = INR (length l) * v).
      { induction l as [|a l IH]; [cbn; ring|]. cbn [map lsum fold_right length]. rewrite S_INR. change (v + lsum (map (fun _ : nat => v) l) = (INR (length l) + 1) * v). rewrite IH. ring. }
      rewrite Q, seq_length. pose proof INR_N. field. lra.
  Qed.

  Definition reader (j k : nat) : bool := existsb (fun i => (pos n N B j i =? k)%nat) (seq 0 n).
  Lemma est_var v m2 : is_mean n wt v -> is_mean n (fun z => wt z ^ 2) m2 -> is_mean (n * N) (fun z => (est z - v) ^ 2) ((m2 - v ^ 2) / INR N).
  Proof.
    intros H1 H2. pose proof INR_N as NP.
    assert (M1 : is_mean n (fun z => wt z - v) 0). { replace 0 with (v + - v) by ring. apply (mean_plus n wt (fun _ => - v) v (- v)); [exact H1|apply mean_const]. }
    assert (M2 : is_mean n (fun z => (wt z - v) ^ 2) (m2 - v ^ 2)).
    { replace (m2 - v ^ 2) with (m2 + (- (2 * v) * v + v ^ 2)) by ring.
      refine (mean_ext _ _ _ _ _ (mean_plus n _ _ _ _ H2 (mean_plus n _ _ _ _ (mean_scal n (- (2 * v)) _ _ H1) (mean_const n (v ^ 2))))). intros z. cbn beta. ring. }
    pose proof (mean_sq_sum (n * N) (fun j z => wt (fun i => z (pos n N B j i)) - v) reader (m2 - v ^ 2) (seq 0 N) (seq_NoDup N 0)) as Q.
    assert (HB : (0 < B)%nat) by (unfold B; lia).
    assert (Q1 : is_mean (n * N) (fun z => lsum (map (fun j => wt (fun i => z (pos n N B j i)) - v) (seq 0 N)) ^ 2) (INR (length (seq 0 N)) * (m2 - v ^ 2))).
    { apply Q.
      - intros j Hj. apply in_seq in Hj. split; [|split].
        + apply (term_mean j (fun z => wt z - v)); [lia|exact M1].
        + apply (term_mean j (fun z => (wt z - v) ^ 2)); [lia|exact M2].
        + intros z z' E. f_equal. apply w_reads. intros i Hi. do 2 f_equal. apply E. unfold reader. apply existsb_exists. exists i. split; [apply in_seq; lia|apply Nat.eqb_refl].
      - intros a b Ha Hb' Ne k E. apply in_seq in Ha, Hb'. unfold reader in *. apply existsb_exists in E. destruct E as (i & Hi & E). apply in_seq in Hi. apply Nat.eqb_eq in E.
        destruct (existsb _ (seq 0 n)) eqn:X; [|reflexivity]. apply existsb_exists in X. destruct X as (i' & Hi' & X). apply in_seq in Hi'. apply Nat.eqb_eq in X. exfalso. apply Ne.
        apply (pos_disj n N B a b i i'); try assumption; try lia. }
    rewrite seq_length in Q1. replace ((m2 - v ^ 2) / INR N) with (/ INR N ^ 2 * (INR N * (m2 - v ^ 2))) by (field; lra).
    refine (mean_ext _ _ _ _ _ (mean_scal _ (/ INR N ^ 2) _ _ Q1)). intros z. cbn beta. unfold est.
    assert (SQ : forall l : list nat, lsum (map (fun j => wt (fun i => z (pos n N B j i)) - v) l) = lsum (map (fun j => wt (fun i => z (pos n N B j i))) l) - INR (length l) * v).
    { induction l as [|a l IH]; [cbn; ring|]. cbn [map lsum fold_right length]. rewrite S_INR, IH. ring. }
    rewrite SQ, seq_length. field. lra.
  Qed.

  Lemma samp_affine z : sampling_density n p s (fun i => p i + s * z i) * s ^ n = joint_density n z.
  Proof.
    assert (S0 : 0 < s) by exact Hs. unfold sampling_density, joint_density. rewrite <- (seq_length n 0) at 2. induction (seq 0 n) as [|a l IH]; [cbn; ring|]. cbn [map lprod fold_right length pow].
    replace ((p a + s * z a - p a) / s) with (z a) by (field; lra). rewrite <- IH. field. lra.
  Qed.

  (** from integrals over the failure domain to means over the random numbers *)
  Lemma wt_mean v : is_integral n (fun u => if Rltb (g u) 0 then joint_density n u else 0) v -> is_mean n wt v.
  Proof.
    intros H. apply int_mean. refine (int_ext n _ _ _ _ (int_affine s Hs n p _ _ H)). intros z. cbn beta. unfold wt, w. rewrite weight_ratio by exact Hs. fold s. rewrite <- (samp_affine z). unfold indicator.
    pose proof (sampling_density_pos n p s (fun i => p i + s * z i) Hs). destruct (Rltb _ 0); [field; lra|ring].
  Qed.
  Lemma wt_mean2 m2 : is_integral n (fun u => if Rltb (g u) 0 then joint_density n u ^ 2 / sampling_density n p s u else 0) m2 -> is_mean n (fun z => wt z ^ 2) m2.
  Proof.
    intros H. apply int_mean. refine (int_ext n _ _ _ _ (int_affine s Hs n p _ _ H)). intros z. cbn beta. unfold wt, w. rewrite weight_ratio by exact Hs. fold s. rewrite <- (samp_affine z). unfold indicator.
    pose proof (sampling_density_pos n p s (fun i => p i + s * z i) Hs). destruct (Rltb _ 0); [field; lra|ring].
  Qed.
End Est.

(** C111: if the run cannot stop early (target cov 0, or all samples in one block), the
    estimate of Monte Carlo simulation, crude or importance sampling, has the failure
    probability as its expected value, whatever the centre and deviation; its variance is
    that of one weight divided by the number of samples. *)
Theorem C111_unbiased : forall n o p tox Gof g prev off pre v,
  (forall us, Gof us = Ok (map g us)) -> reads n g ->
  0 < mo_stdv o -> (0 < mo_block o)%Z -> (0 < mo_samples o)%Z -> mo_rg o = 0%Z ->
  mo_target o <= 0 \/ (mo_samples o <= mo_block o)%Z ->
  is_integral n (fun u => if Rltb (g u) 0 then joint_density n u else 0) v ->
  let N := Z.to_nat (mo_samples o) in
  exists Pf : (nat -> R) -> R,
    (forall z, exists st, mc_run n o (from off pre z) p tox Gof (S N) prev off = MDone st /\ mc_Pf st = Pf z) /\
    is_mean (n * N) Pf v /\
    (forall m2, is_integral n (fun u => if Rltb (g u) 0 then joint_density n u ^ 2 / sampling_density n p (mo_stdv o) u else 0) m2 ->
       is_mean (n * N) (fun z => (Pf z - v) ^ 2) ((m2 - v ^ 2) / INR N)).
Proof.
  intros n o p tox Gof g prev off pre v HG Hg Hs Hb HN Hr Hx HI N. exists (est n o p g). split; [|split].
  - intros z. exact (est_is n o p tox Gof g prev off pre HG Hg Hs Hb HN Hr Hx z).
  - apply est_mean; try assumption. apply wt_mean; assumption.
  - intros m2 H2. apply est_var; try assumption; [apply wt_mean; assumption|apply wt_mean2; assumption].
Qed.
Print Assumptions C111_unbiased.

(** C111: for crude Monte Carlo the variance is p(1-p)/N, so the coefficient of variation
    of the estimate is sqrt((1-p)/(N p)): the quantity C30 reports with the estimate in
    place of p. *)
Theorem C111_crude_variance : forall n o tox Gof g prev off pre v,
  (forall us, Gof us = Ok (map g us)) -> reads n g ->
  mo_stdv o = 1 -> (0 < mo_block o)%Z -> (0 < mo_samples o)%Z -> mo_rg o = 0%Z ->
  mo_target o <= 0 \/ (mo_samples o <= mo_block o)%Z ->
  is_integral n (fun u => if Rltb (g u) 0 then joint_density n u else 0) v ->
  let N := Z.to_nat (mo_samples o) in
  exists Pf : (nat -> R) -> R,
    (forall z, exists st, mc_run n o (from off pre z) (setPoint None) tox Gof (S N) prev off = MDone st /\ mc_Pf st = Pf z) /\
    is_mean (n * N) Pf v /\ is_mean (n * N) (fun z => (Pf z - v) ^ 2) (v * (1 - v) / INR N) /\
    (0 < v <= 1 -> sqrt (v * (1 - v) / INR N) / v = sqrt ((1 - v) / (INR N * v))).
Proof.
  intros n o tox Gof g prev off pre v HG Hg Hs Hb HN Hr Hx HI N.
  destruct (C111_unbiased n o (setPoint None) tox Gof g prev off pre v HG Hg ltac:(lra) Hb HN Hr Hx HI) as (Pf & E & M & V). exists Pf. refine (conj E (conj M (conj _ _))).
  - replace (v * (1 - v)) with (v - v ^ 2) by ring. apply V. refine (int_ext n _ _ _ _ HI). intros u. rewrite Hs. destruct (Rltb (g u) 0); [|reflexivity].
    assert (Q : sampling_density n (setPoint None) 1 u = joint_density n u).
    { unfold sampling_density, joint_density. cbn [setPoint]. f_equal. apply map_ext. intros i. replace ((u i - 0) / 1) with (u i) by field. field. }
    rewrite Q. pose proof (sampling_density_pos n (setPoint None) 1 u ltac:(lra)) as P. rewrite Q in P. field. lra.
  - intros V0. assert (NP : 0 < INR N) by (apply (lt_INR 0); unfold N; lia).
    replace (v * (1 - v) / INR N) with (v ^ 2 * ((1 - v) / (INR N * v))) by (field; lra).
    rewrite sqrt_mult_alt by (apply pow2_ge_0). rewrite sqrt_pow2 by lra. field. lra.
Qed.
Print Assumptions C111_crude_variance.

(** the means of a function and the integral of its product with the joint density *)
Lemma mean_int n : forall h v, is_mean n h v -> is_integral n (fun z => h z * joint_density n z) v.
Proof.
  induction n as [|n IH]; intros h v H; cbn [is_integral is_mean] in *.
  - intros s. rewrite H. unfold joint_density. cbn. ring.
  - destruct H as (F & H & E). exists (fun x => phi x * F x). split.
    + intros x. refine (int_ext n _ _ _ _ (int_scal n (phi x) _ _ (IH _ _ (H x)))). intros u. cbn beta. rewrite joint_cons. ring.
    + refine (is_RInt_gen_ext _ _ _ _ E). apply filter_forall. intros ab x _. change (F x * phi x = phi x * F x). ring.
Qed.

(** the hypotheses of C111 hold: in n+1 variables, failure when the first one is below c *)
Example C111_example n c : let g := fun u : vec => u 0%nat - c in
  reads (S n) g /\ is_integral (S n) (fun u => if Rltb (g u) 0 then joint_density (S n) u else 0) (Phi c).
Proof.
  intros g. split; [intros u v H; unfold g; rewrite (H 0%nat) by lia; reflexivity|].
  refine (int_ext _ (fun u => (if Rltb (u 0%nat) c then 1 else 0) * joint_density (S n) u) _ _ _ _).
  - intros u. unfold g. destruct (Rltb (u 0%nat) c) eqn:E1, (Rltb (u 0%nat - c) 0) eqn:E2; try ring; exfalso.
    + apply Rltb_spec in E1. apply Rltb_false in E2. lra.
    + apply Rltb_spec in E2. apply Rltb_false in E1. lra.
  - apply mean_int. exists (fun x => if Rltb x c then 1 else 0). split; [intros x; exact (mean_const n (if Rltb x c then 1 else 0))|apply eN_below].
Qed.

(** C111 fails for the stopping rule (the default: target cov 0.05, blocks of 1000 in
    100000 samples): where the run may stop early the estimate is biased.  One variable,
    failure when it is below c, blocks of one point, at most three points, target 3/4. *)
Definition bias_o : mc_opts := mkmo 3 1 (3 / 4) 1 0.

Lemma crude_block z tox c st : ms_off st = Z.to_nat (ms_k st) -> (0 <= ms_k st)%Z ->
  exists st', mc_block 1 bias_o z (setPoint None) tox (fun us => Ok (map (fun u => u 0%nat - c) us)) st 1 = Ok st' /\
    ms_k st' = (ms_k st + 1)%Z /\ ms_off st' = Z.to_nat (ms_k st') /\
    let I := if Rltb (z (ms_off st)) c then 1 else 0 in
    ms_sum_q st' = ms_sum_q st + I /\ ms_sum_q2 st' = ms_sum_q2 st + I /\
    ms_qbar st' = fst (cov_update (IZR (ms_k st + 1)) (ms_sum_q st') (ms_sum_q2 st')) /\
    ms_cov st' = snd (cov_update (IZR (ms_k st + 1)) (ms_sum_q st') (ms_sum_q2 st')).
Proof.
  intros Ho Hk. unfold mc_block. cbn [Z.ltb Z.compare mo_rg bias_o Z.eqb negb mo_stdv]. cbv zeta. change (Z.to_nat 1) with 1%nat. cbn [seq map combine fst snd lsum]. cbn [setPoint]. rewrite weight_crude.
  rewrite (draw_entry 1 z (ms_off st) 1 (fun _ => 0) 1 0 0) by lia. eexists. split; [reflexivity|]. cbn [ms_k ms_off ms_sum_q ms_sum_q2 ms_qbar ms_cov].
  assert (Q : indicator (0 + 1 * z (ms_off st + 0 * 1 + 0)%nat - c) = if Rltb (z (ms_off st)) c then 1 else 0).
  { replace (ms_off st + 0 * 1 + 0)%nat with (ms_off st) by lia. unfold indicator. destruct (Rltb (z (ms_off st)) c) eqn:E1, (Rltb (0 + 1 * z (ms_off st) - c) 0) eqn:E2; try reflexivity; exfalso.
    - apply Rltb_spec in E1. apply Rltb_false in E2. lra.
    - apply Rltb_spec in E2. apply Rltb_false in E1. lra. }
  rewrite Q. repeat split; try lia; destruct (Rltb (z (ms_off st)) c); ring.
Qed.

Theorem C111_early_stop_refuted : forall tox c prev, let p := Phi c in let g := fun u : vec => u 0%nat - c in
  exists Pf : (nat -> R) -> R,
    (forall z, exists st, mc_run 1 bias_o z (setPoint None) tox (fun us => Ok (map g us)) 4 prev 0 = MDone st /\ mc_Pf st = Pf z) /\
    is_mean 3 Pf (p + p * (1 - p) * (1 - 2 * p) / 3) /\
    (* the probability of failure is p *)
    is_integral 1 (fun u => if Rltb (g u) 0 then joint_density 1 u else 0) p.
Proof.
  intros tox c prev p g. set (I := fun (z : nat -> R) j => if Rltb (z j) c then 1 else 0 : R).
  exists (fun z => 1 / 2 * (I z 0%nat * (1 - I z 1%nat)) + 1 / 2 * ((1 - I z 0%nat) * I z 1%nat) + 1 / 3 * (I z 0%nat * I z 1%nat * (2 + I z 2%nat)) + 1 / 3 * ((1 - I z 0%nat) * (1 - I z 1%nat) * I z 2%nat)).
  split; [|split; [|exact (proj2 (C111_example 0 c))]].
  - intros z. unfold mc_run. cbn [mo_samples bias_o Z.ltb Z.compare Z.eqb].
    match goal with |- context [mc_loop _ _ _ _ _ _ 4 ?s] => set (st0 := s) end.
    assert (Step : forall f st, (0 <= ms_k st < 3)%Z -> ms_off st = Z.to_nat (ms_k st) -> exists st', ms_k st' = (ms_k st + 1)%Z /\ ms_off st' = Z.to_nat (ms_k st') /\
       ms_sum_q st' = ms_sum_q st + I z (ms_off st) /\ ms_sum_q2 st' = ms_sum_q2 st + I z (ms_off st) /\
       ms_qbar st' = fst (cov_update (IZR (ms_k st + 1)) (ms_sum_q st') (ms_sum_q2 st')) /\ ms_cov st' = snd (cov_update (IZR (ms_k st + 1)) (ms_sum_q st') (ms_sum_q2 st')) /\
       mc_loop 1 bias_o z (setPoint None) tox (fun us => Ok (map g us)) (S f) st = if Rleb (ms_cov st') (3 / 4) then MDone st' else mc_loop 1 bias_o z (setPoint None) tox (fun us => Ok (map g us)) f st').
    { intros f st Hk Ho. destruct (crude_block z tox c st Ho ltac:(lia)) as (st' & E & A1 & A2 & A3 & A4 & A5 & A6). exists st'. repeat (split; [assumption|]). 
      set (R := mc_loop 1 bias_o z (setPoint None) tox (fun us => Ok (map g us)) f). change (mc_loop 1 bias_o z (setPoint None) tox (fun us => Ok (map g us)) (S f) st) with
        (if (ms_k st <? 3)%Z then match mc_block 1 bias_o z (setPoint None) tox (fun us => Ok (map g us)) st (Z.min 1 (3 - ms_k st)) with Err e => MRaise e | Ok st' => if Rleb (ms_cov st') (3 / 4) then MDone st' else R st' end else MDone st).
      destruct (Z.ltb_spec (ms_k st) 3); [|lia]. rewrite Z.min_l by lia. assert (E' : mc_block 1 bias_o z (setPoint None) tox (fun us => Ok (map g us)) st 1 = Ok st') by exact E. rewrite E'. reflexivity. }
    assert (CV : forall k a, 0 < k -> a = 0 \/ a = k -> snd (cov_update k a a) = 1).
    { intros k a Hk Ha. unfold cov_update. destruct (Rltb 0 a) eqn:Z0; [|reflexivity]. apply Rltb_spec in Z0. destruct Ha as [Ha|Ha]; [lra|]. subst a. cbn [snd]. replace (/ k * k) with 1 by (field; lra). replace (/ k * (1 - 1 ^ 2)) with 0 by ring. rewrite sqrt_0, Rmult_0_l. unfold Reqb. destruct (Req_EM_T 0 0); [reflexivity|contradiction]. }
    assert (CV1 : snd (cov_update 2 1 1) <= 3 / 4).
    { unfold cov_update. destruct (Rltb 0 1) eqn:Z0; [|apply Rltb_false in Z0; lra]. cbn [snd]. replace (/ 2 * (/ 2 * 1 - (/ 2 * 1) ^ 2)) with (/ 8) by field.
      assert (P : 0 < sqrt (/ 8)) by (apply sqrt_lt_R0; lra). unfold Reqb. destruct (Req_EM_T _ 0) as [Q|Q]; [replace (/ (/ 2 * 1)) with 2 in Q by field; lra|]. replace (/ (/ 2 * 1)) with 2 by field.
      assert (sqrt (/ 8) <= sqrt ((3 / 8) ^ 2)) by (apply sqrt_le_1_alt; lra). rewrite sqrt_pow2 in H by lra. lra. }
    assert (PF : forall st k a, ms_sum_q st = a -> ms_qbar st = fst (cov_update k a (ms_sum_q2 st)) -> 0 <= a -> mc_Pf st = / k * a).
    { intros st k a E1 E2 A. unfold mc_Pf. rewrite E1, E2. unfold cov_update. destruct (Rltb 0 a) eqn:Z0; [reflexivity|]. apply Rltb_false in Z0. replace a with 0 by lra. ring. }
    assert (Iz : forall j, I z j = 0 \/ I z j = 1) by (intros j; unfold I; destruct (Rltb (z j) c); auto).
    assert (L1 : Rleb 1 (3 / 4) = false) by (apply Rleb_false; lra).
    destruct (Step 3%nat st0 ltac:(cbn; lia) eq_refl) as (s1 & K1 & O1 & Q1 & R1 & _ & C1 & E1). rewrite E1. clear E1. cbn [st0 ms_k ms_off ms_sum_q ms_sum_q2] in *. rewrite Z.add_0_l in *. rewrite Rplus_0_l in *.
    assert (C1' : ms_cov s1 = 1). { rewrite C1, Q1, R1. apply CV; [lra|]. destruct (Iz 0%nat) as [Q|Q]; rewrite Q; auto. } rewrite C1', L1.
    destruct (Step 2%nat s1 ltac:(lia) O1) as (s2 & K2 & O2 & Q2 & R2 & P2 & C2 & E2). rewrite E2. clear E2. rewrite O1, K1 in *. change (Z.to_nat 1) with 1%nat in *. change (1 + 1)%Z with 2%Z in *. rewrite Q1 in Q2. rewrite R1 in R2.
    assert (D : (I z 0%nat + I z 1%nat = 1) \/ (I z 0%nat = I z 1%nat)) by (destruct (Iz 0%nat) as [->| ->], (Iz 1%nat) as [->| ->]; lra).
    destruct D as [D|D].
    + rewrite Q2, R2, D in C2. replace (Rleb (ms_cov s2) (3 / 4)) with true by (symmetry; apply Rleb_spec; rewrite C2; exact CV1). exists s2. split; [reflexivity|].
      rewrite (PF s2 2 1); [|rewrite Q2; exact D|rewrite P2, Q2, D; reflexivity|lra].
      destruct (Iz 0%nat) as [Z0|Z0]; rewrite Z0 in *; [replace (I z 1%nat) with 1 by lra|replace (I z 1%nat) with 0 by lra]; field.
    + assert (C2' : ms_cov s2 = 1). { rewrite C2, Q2, R2, <- D. apply CV; [lra|]. destruct (Iz 0%nat) as [Q|Q]; rewrite Q; lra. } rewrite C2', L1.
      destruct (Step 1%nat s2 ltac:(lia) O2) as (s3 & K3 & O3 & Q3 & R3 & P3 & C3 & E3). rewrite E3. clear E3. rewrite O2, K2 in *. change (Z.to_nat 2) with 2%nat in *. change (2 + 1)%Z with 3%Z in *.
      exists s3. split. { destruct (Rleb (ms_cov s3) (3 / 4)); [reflexivity|]. cbn [mc_loop mo_samples bias_o]. rewrite K3. reflexivity. }
      rewrite (PF s3 3 (ms_sum_q s3) eq_refl P3).
      * rewrite Q3, Q2, <- D. destruct (Iz 0%nat) as [->| ->]; field.
      * rewrite Q3, Q2. destruct (Iz 0%nat) as [->| ->], (Iz 1%nat) as [->| ->], (Iz 2%nat) as [->| ->]; lra.
  - assert (M : forall j, (j < 3)%nat -> is_mean 3 (fun z => I z j) p).
    { intros j Hj. apply (mean_select 3 1 (fun u => if Rltb (u 0%nat) c then 1 else 0) p (fun i => (i + j)%nat)); [|intros i; lia|intros i Hi; lia].
      exists (fun x => if Rltb x c then 1 else 0). split; [intros x s; reflexivity|apply eN_below]. }
    assert (M' : forall j, (j < 3)%nat -> is_mean 3 (fun z => 1 - I z j) (1 - p)).
    { intros j Hj. replace (1 - p) with (1 + -1 * p) by ring. refine (mean_ext _ _ _ _ _ (mean_plus 3 _ _ _ _ (mean_const 3 1) (mean_scal 3 (-1) _ _ (M j Hj)))). intros z. cbn beta. ring. }
    assert (D : forall j, dep (Nat.eqb j) (fun z => I z j)) by (intros j z z' H; unfold I; rewrite (H j (Nat.eqb_refl j)); reflexivity).
    assert (D' : forall j, dep (Nat.eqb j) (fun z => 1 - I z j)) by (intros j z z' H; rewrite (D j z z' H); reflexivity).
    assert (D2 : forall f h, dep (Nat.eqb 0) f -> dep (Nat.eqb 1) h -> dep (fun i => Nat.ltb i 2) (fun z => f z * h z)).
    { intros f h Df Dh z z' H. rewrite (Df z z'), (Dh z z'); [reflexivity| |]; intros i Hi; apply Nat.eqb_eq in Hi; subst i; apply H; reflexivity. }
    assert (X01 : forall i, Nat.eqb 0 i = true -> Nat.eqb 1 i = false) by (intros i Hi; apply Nat.eqb_eq in Hi; subst i; reflexivity).
    assert (X2 : forall i, Nat.ltb i 2 = true -> Nat.eqb 2 i = false) by (intros i Hi; apply Nat.ltb_lt in Hi; apply Nat.eqb_neq; lia).
    pose proof (mean_indep 3 _ _ _ _ _ _ (D 0%nat) (D' 1%nat) X01 (M 0%nat ltac:(lia)) (M' 1%nat ltac:(lia))) as A1.
    pose proof (mean_indep 3 _ _ _ _ _ _ (D' 0%nat) (D 1%nat) X01 (M' 0%nat ltac:(lia)) (M 1%nat ltac:(lia))) as A2.
    pose proof (mean_indep 3 _ _ _ _ _ _ (D 0%nat) (D 1%nat) X01 (M 0%nat ltac:(lia)) (M 1%nat ltac:(lia))) as A3.
    pose proof (mean_indep 3 _ _ _ _ _ _ (D' 0%nat) (D' 1%nat) X01 (M' 0%nat ltac:(lia)) (M' 1%nat ltac:(lia))) as A4.
    assert (M2 : is_mean 3 (fun z => 2 + I z 2%nat) (2 + p)) by (apply (mean_plus 3 (fun _ => 2) (fun z => I z 2%nat)); [apply mean_const|apply M; lia]).
    assert (DM2 : dep (Nat.eqb 2) (fun z => 2 + I z 2%nat)) by (intros z z' H; rewrite (D 2%nat z z' H); reflexivity).
    pose proof (mean_indep 3 _ _ _ _ _ _ (D2 _ _ (D 0%nat) (D 1%nat)) DM2 X2 A3 M2) as A5.
    pose proof (mean_indep 3 _ _ _ _ _ _ (D2 _ _ (D' 0%nat) (D' 1%nat)) (D 2%nat) X2 A4 (M 2%nat ltac:(lia))) as A6.
    replace (p + p * (1 - p) * (1 - 2 * p) / 3) with (1 / 2 * (p * (1 - p)) + 1 / 2 * ((1 - p) * p) + 1 / 3 * (p * p * (2 + p)) + 1 / 3 * ((1 - p) * (1 - p) * p)) by field.
    repeat apply mean_plus; apply mean_scal; assumption.
Qed.
Print Assumptions C111_early_stop_refuted.
