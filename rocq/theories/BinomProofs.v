(** Proofs for C133: counts of independent events, and which points a run draws. *)
From Coquelicot Require Import Coquelicot.
From Verif Require Import Base Gauss GaussProofs MomSpec MomProofs McSpec Mc McProofs McRunProofs McProps McBiasSpec McBiasProofs McBiasProps McBiasLinProps BinomSpec.
From Coq Require Import Lra Lia ZArith.
Open Scope R_scope.

(** ** binomial sums *)
Fixpoint Bm (q : R) (N : nat) (f : nat -> R) : R :=
  match N with O => f 0%nat | S M => q * Bm q M (fun k => f (S k)) + (1 - q) * Bm q M f end.

Lemma C_n_0 n : C n 0 = 1.
Proof. unfold C. rewrite Nat.sub_0_r. cbn [fact INR]. field. apply INR_fact_neq_0. Qed.
Lemma C_n_n n : C n n = 1.
Proof. unfold C. rewrite Nat.sub_diag. cbn [fact INR]. field. apply INR_fact_neq_0. Qed.

Lemma sum_plus f g n : sum_f_R0 (fun k => f k + g k) n = sum_f_R0 f n + sum_f_R0 g n.
Proof. induction n as [|n IH]; cbn; [reflexivity|]. rewrite IH. ring. Qed.
Lemma sum_scal c f n : sum_f_R0 (fun k => c * f k) n = c * sum_f_R0 f n.
Proof. induction n as [|n IH]; cbn; [reflexivity|]. rewrite IH. ring. Qed.

Lemma Bm_sum q : forall N f, Bm q N f = binomial_mean N q f.
Proof.
  unfold binomial_mean. induction N as [|N IH]; intros f; cbn [Bm].
  - cbn. rewrite C_n_0. ring.
  - rewrite !IH. rewrite <- !sum_scal. destruct N as [|N].
    + cbn. rewrite !C_n_0, C_n_n. ring.
    + set (a := fun k => q * (C (S N) k * q ^ k * (1 - q) ^ (S N - k) * f (S k))). set (b := fun k => (1 - q) * (C (S N) k * q ^ k * (1 - q) ^ (S N - k) * f k)).
      set (c := fun k => C (S (S N)) k * q ^ k * (1 - q) ^ (S (S N) - k) * f k).
      rewrite (tech5 a N), (decomp_sum b (S N)), (decomp_sum c (S (S N))) by lia. cbn [pred]. rewrite (tech5 (fun i => c (S i)) N). unfold a, b, c. rewrite !C_n_0, !C_n_n, !Nat.sub_diag.
      assert (Q : sum_f_R0 (fun k => C (S (S N)) (S k) * q ^ S k * (1 - q) ^ (S (S N) - S k) * f (S k)) N =
        sum_f_R0 (fun k => q * (C (S N) k * q ^ k * (1 - q) ^ (S N - k) * f (S k))) N + sum_f_R0 (fun k => (1 - q) * (C (S N) (S k) * q ^ S k * (1 - q) ^ (S N - S k) * f (S k))) N).
      { rewrite <- sum_plus. apply sum_eq. intros i Hi. rewrite <- (pascal (S N) i) by lia. replace (S (S N) - S i)%nat with (S (N - i)) by lia. replace (S N - i)%nat with (S (N - i)) by lia. replace (S N - S i)%nat with (N - i)%nat by lia. cbn [pow]. ring. }
      rewrite Q. rewrite !Nat.sub_0_r. cbn [pow]. ring.
Qed.

Lemma Bm_zero q : forall N, Bm q N (fun k => match k with O => 1 | S _ => 0 end) = (1 - q) ^ N.
Proof.
  assert (Z : forall N, Bm q N (fun _ => 0) = 0). { induction N as [|N IH]; cbn [Bm]; [reflexivity|]. rewrite IH. ring. }
  induction N as [|N IH]; cbn [Bm pow]; [reflexivity|]. rewrite Z, IH. ring.
Qed.
Lemma Bm_le q f h : 0 <= q <= 1 -> forall N, (forall k, f k <= h k) -> Bm q N f <= Bm q N h.
Proof. intros Hq N. revert f h. induction N as [|N IH]; intros f h H; cbn [Bm]; [apply H|]. apply Rplus_le_compat; apply Rmult_le_compat_l; try lra; apply IH; intros k; apply H. Qed.
Lemma Bm_scal q c : forall N f, Bm q N (fun k => c * f k) = c * Bm q N f.
Proof. induction N as [|N IH]; intros f; cbn [Bm]; [reflexivity|]. rewrite (IH (fun k => f (S k))), IH. ring. Qed.

(** ** counting independent events *)
Fixpoint cnt {I} (E : I -> (nat -> R) -> bool) (l : list I) (z : nat -> R) : nat :=
  match l with [] => 0%nat | a :: r => if E a z then S (cnt E r z) else cnt E r z end.

Lemma cnt_mean m {I} (E : I -> (nat -> R) -> bool) (A : I -> nat -> bool) q l :
  NoDup l -> (forall a, In a l -> is_mean m (fun z => if E a z then 1 else 0) q /\ (forall z z', (forall i, A a i = true -> z i = z' i) -> E a z = E a z')) ->
  (forall a b, In a l -> In b l -> a <> b -> forall i, A a i = true -> A b i = false) ->
  forall f, is_mean m (fun z => f (cnt E l z)) (Bm q (length l) f).
Proof.
  induction l as [|a l IH]; intros ND H Dis f; cbn [length Bm cnt]; [apply mean_const|]. inversion ND as [|? ? N1 N2]; subst.
  assert (IH' := IH N2 (fun b Hb => H b (or_intror Hb)) (fun b c Hb Hc => Dis b c (or_intror Hb) (or_intror Hc))). clear IH.
  destruct (H a (or_introl eq_refl)) as [M D].
  assert (DU : forall h : nat -> R, dep (fun i => existsb (fun b => A b i) l) (fun z => h (cnt E l z))).
  { intros h z z' Q. f_equal. clear - H Q. induction l as [|b l IHl]; [reflexivity|]. cbn [cnt].
    rewrite (proj2 (H b (or_intror (or_introl eq_refl))) z z') by (intros i Hi; apply Q; cbn [existsb]; rewrite Hi; reflexivity).
    rewrite IHl; [reflexivity| |].
    - intros c [Hc|Hc]; apply H; [left; exact Hc|right; right; exact Hc].
    - intros i Hi. apply Q. cbn [existsb]. rewrite Hi. apply Bool.orb_true_r. }
  assert (DA : dep (A a) (fun z => if E a z then 1 else 0)) by (intros z z' Q; rewrite (D z z' Q); reflexivity).
  assert (DA' : dep (A a) (fun z => 1 - (if E a z then 1 else 0))) by (intros z z' Q; rewrite (D z z' Q); reflexivity).
  assert (X : forall i, A a i = true -> existsb (fun b => A b i) l = false).
  { intros i Hi. destruct (existsb _ l) eqn:Y; [|reflexivity]. apply existsb_exists in Y. destruct Y as (b & Hb & Y). rewrite (Dis a b (or_introl eq_refl) (or_intror Hb)) in Y; [discriminate| |exact Hi]. intros ->. contradiction. }
  assert (M' : is_mean m (fun z => 1 - (if E a z then 1 else 0)) (1 - q)).
  { replace (1 - q) with (1 + -1 * q) by ring. refine (mean_ext _ _ _ _ _ (mean_plus m _ _ _ _ (mean_const m 1) (mean_scal m (-1) _ _ M))). intros z. cbn beta. ring. }
  refine (mean_ext _ _ _ _ _ (mean_plus m _ _ _ _ (mean_indep m _ _ _ _ _ _ DA (DU (fun k => f (S k))) X M (IH' (fun k => f (S k)))) (mean_indep m _ _ _ _ _ _ DA' (DU f) X M' (IH' f)))).
  intros z. cbn beta. destruct (E a z); ring.
Qed.

Lemma lsum_zero_all {A} (f : A -> R) l : (forall x, In x l -> 0 <= f x) -> lsum (map f l) = 0 -> forall x, In x l -> f x = 0.
Proof.
  induction l as [|a l IH]; intros P E x Hx; [destruct Hx|]. cbn [map] in E. change (f a + lsum (map f l) = 0) in E. pose proof (P a (or_introl eq_refl)) as Pa.
  assert (Pl : 0 <= lsum (map f l)) by (apply lsum_nonneg; intros y Hy; apply in_map_iff in Hy; destruct Hy as (u & <- & Hu); apply P; right; exact Hu).
  destruct Hx as [<-|Hx]; [lra|]. apply IH; [intros y Hy; apply P; right; exact Hy|lra|exact Hx].
Qed.

(** ** the points of a run that may stop early *)
Section Run.
  Variables (n : nat) (o : mc_opts) (p : vec) (tox : vec -> vec) (Gof : list vec -> result (list R)) (g : vec -> R) (prev : mc_state) (off : nat) (pre : nat -> R).
  Hypothesis HG : forall us, Gof us = Ok (map g us).
  Hypothesis Hg : reads n g.
  Hypothesis Hs : 0 < mo_stdv o.
  Hypothesis Hb : (0 < mo_block o)%Z.
  Hypothesis HN : (0 < mo_samples o)%Z.

  Let N := Z.to_nat (mo_samples o).
  Let B := Z.to_nat (mo_block o).
  Let s := mo_stdv o.
  Let run (z : nat -> R) fuel := mc_run n o (from off pre z) p tox Gof fuel prev off.

  (** the j-th point made of the numbers z, and whether it fails *)
  Definition cand (z : nat -> R) (j : nat) : vec := fun i => p i + s * z (pos n N B j i).
  Definition fails (j : nat) (z : nat -> R) : bool := Rltb (g (cand z j)) 0.
  Definition K (z : nat -> R) : nat := cnt fails (seq 0 N) z.

  Lemma layout_part z fuel st : run z fuel = MDone st -> (length (ms_pts st) <= N)%nat /\
    forall j i, (j < length (ms_pts st))%nat -> (i < n)%nat -> nth j (ms_pts st) (fun _ => 0) i = cand z j i.
  Proof.
    intros E. destruct (run_inv n o (from off pre z) p tox Gof g HG prev off fuel st Hb E) as (HI & _). destruct HI as [I1 I2 _ _ _ _ _ _].
    split; [unfold N; lia|]. intros j i Hj Hi. unfold cand.
    destruct (nth_concat_firstn (A:=vec) (fun _ : nat => 0) (ms_blocks st) j ltac:(unfold ms_pts in Hj; lia)) as (m & H1 & H2 & H3 & H4).
    unfold ms_pts. rewrite H4. destruct (run_layout n o (from off pre z) p tox Gof g HG prev off fuel st ltac:(lia) E m H1) as [LL KK]. cbv zeta in *.
    rewrite LL in H3. rewrite KK by (assumption || lia). clear KK LL. pose proof (done_is n o p tox Gof g prev off pre HG Hb HN z fuel st E m ltac:(lia)) as DI. fold B N in DI. rewrite DI in H2, H3. rewrite !DI. fold s. f_equal. f_equal.
    assert (JN : (j < N)%nat) by (unfold N in *; lia).
    assert (D : Nat.min (m * B) N = bstart B j).
    { assert (HB : (0 < B)%nat) by (unfold B; lia). assert (m * B <= N)%nat by lia. rewrite Nat.min_l in * by lia. unfold bstart. assert (Q : (j / B = m)%nat); [|rewrite Q; lia].
      symmetry. apply (Nat.div_unique j B m (j - m * B)); [|lia]. unfold B in *. lia. }
    rewrite D in *. unfold from. destruct (Nat.ltb_spec (off + n * bstart B j + i * Z.to_nat (Z.min (mo_block o) (mo_samples o - Z.of_nat (bstart B j))) + (j - bstart B j)) off) as [C|C]; [lia|].
    f_equal. unfold pos, bsize. replace (Z.to_nat (Z.min (mo_block o) (mo_samples o - Z.of_nat (bstart B j)))) with (Nat.min B (N - bstart B j)) by (unfold B, N; lia). lia.
  Qed.

  Lemma pts_g z fuel st : run z fuel = MDone st -> forall j, (j < length (ms_pts st))%nat -> g (nth j (ms_pts st) (fun _ => 0)) = g (cand z j).
  Proof. intros E j Hj. apply Hg. intros i Hi. apply (proj2 (layout_part z fuel st E)); assumption. Qed.

  Lemma cnt_zero {I} (E : I -> (nat -> R) -> bool) l z : cnt E l z = 0%nat <-> forall a, In a l -> E a z = false.
  Proof.
    induction l as [|a l IH]; cbn [cnt]; [split; [intros _ b []|reflexivity]|]. destruct (E a z) eqn:Ea; split.
    - discriminate.
    - intros H. rewrite (H a (or_introl eq_refl)) in Ea. discriminate.
    - intros H b [<-|Hb']; [exact Ea|apply IH; assumption].
    - intros H. apply IH. intros b Hb'. apply H. right. exact Hb'.
  Qed.

  (** nothing is found exactly when none of the first N points fails *)
  Lemma nothing_found z fuel st : mo_target o < 1 -> run z fuel = MDone st -> (mc_Pf st = 0 <-> K z = 0%nat).
  Proof.
    intros Ht E. destruct (run_inv n o (from off pre z) p tox Gof g HG prev off fuel st Hb E) as (HI & Kp & NB & Stop & _).
    destruct (run_Pf n o (from off pre z) p tox Gof g HG prev off fuel st Hb Hs E) as [P _]. destruct HI as [I1 _ _ I4 _ I6 _ _].
    assert (KR : 0 < IZR (ms_k st)) by (apply (IZR_lt 0); exact Kp).
    assert (W0 : forall u, 0 <= w n o p g u). { intros u. unfold w, indicator. destruct (Rltb (g u) 0); [left; apply weight_pos; exact Hs|rewrite weight_zero; lra]. }
    assert (WF : forall u, w n o p g u = 0 -> Rltb (g u) 0 = false). { intros u. unfold w, indicator. destruct (Rltb (g u) 0); [|reflexivity]. pose proof (weight_pos n p (mo_stdv o) u Hs). lra. }
    assert (WZ : forall u, Rltb (g u) 0 = false -> w n o p g u = 0). { intros u Hu. unfold w, indicator. rewrite Hu. apply weight_zero. }
    unfold K. rewrite cnt_zero. split.
    - intros Z0. rewrite Z0 in P. assert (S0 : lsum (map (w n o p g) (ms_pts st)) = 0).
      { apply (Rmult_eq_reg_r (/ IZR (ms_k st))); [rewrite Rmult_0_l; unfold Rdiv in P; lra|]. apply Rinv_neq_0_compat. lra. }
      specialize (I6 NB). rewrite I4, S0 in I6. unfold cov_update in I6. replace (Rltb 0 0) with false in I6 by (symmetry; apply Rltb_false; lra).
      injection I6 as _ CV. destruct Stop as [C|C]; [lra|]. intros j Hj. apply in_seq in Hj.
      assert (JL : (j < length (ms_pts st))%nat) by (unfold N in Hj; lia).
      unfold fails. rewrite <- (pts_g z fuel st E j JL). apply WF. apply (lsum_zero_all (w n o p g) (ms_pts st) (fun x _ => W0 x) S0). apply nth_In. exact JL.
    - intros F. rewrite P. rewrite (map_ext_in (w n o p g) (fun _ => 0)).
      + assert (Z : lsum (map (fun _ : vec => 0) (ms_pts st)) = 0) by (clear; induction (ms_pts st) as [|a l IH]; [reflexivity|]; cbn [map]; change (0 + lsum (map (fun _ : vec => 0) l) = 0); rewrite IH; ring).
        rewrite Z. unfold Rdiv. ring.
      + intros u Hu. apply WZ. apply (In_nth _ _ (fun _ : nat => 0)) in Hu. destruct Hu as (j & Hj & <-). pose proof (proj1 (layout_part z fuel st E)) as LE.
        pose proof (F j (proj2 (in_seq N 0 j) (conj (Nat.le_0_l j) (Nat.lt_le_trans _ _ _ Hj LE)))) as Fj. unfold fails in Fj. rewrite <- (pts_g z fuel st E j Hj) in Fj. exact Fj.
  Qed.

  (** all points used: the number of failures is the number of failing candidates *)
  Lemma nfail_cnt z fuel st : run z fuel = MDone st -> ms_k st = mo_samples o -> nfail g (ms_pts st) = K z.
  Proof.
    intros E KN. destruct (run_inv n o (from off pre z) p tox Gof g HG prev off fuel st Hb E) as (HI & _). destruct HI as [I1 _ _ _ _ _ _ _].
    assert (L : length (ms_pts st) = N) by (unfold N; lia). pose proof (pts_g z fuel st E) as G. rewrite L in G.
    unfold K. rewrite <- L in *. clear - G. revert G. generalize (ms_pts st) as l.
    assert (Q : forall l k, (forall j, (j < length l)%nat -> g (nth j l (fun _ => 0)) = g (cand z (k + j))) -> nfail g l = cnt fails (seq k (length l)) z).
    { induction l as [|a l IH]; intros k H; [reflexivity|]. cbn [nfail length seq cnt]. unfold fails at 1. specialize (IH (S k)).
      pose proof (H 0%nat ltac:(cbn; lia)) as H0. cbn [nth] in H0. rewrite Nat.add_0_r in H0. rewrite H0. rewrite IH; [reflexivity|].
      intros j Hj. specialize (H (S j) ltac:(cbn; lia)). cbn [nth] in H. rewrite H. do 2 f_equal. lia. }
    intros l G. apply Q. exact G.
  Qed.

  Lemma K_le z : (K z <= N)%nat.
  Proof. unfold K. rewrite <- (seq_length N 0) at 2. generalize (seq 0 N). induction l as [|a l IH]; cbn [cnt length]; [lia|]. destruct (fails a z); lia. Qed.

  (** the number of failures is binomial *)
  Lemma K_mean q f : is_mean n (fun z => if Rltb (g (fun i => p i + s * z i)) 0 then 1 else 0) q -> is_mean (n * N) (fun z => f (K z)) (binomial_mean N q f).
  Proof.
    intros H. rewrite <- Bm_sum. replace (Bm q N f) with (Bm q (length (seq 0 N)) f) by (rewrite seq_length; reflexivity). assert (HB : (0 < B)%nat) by (unfold B; lia).
    apply (cnt_mean (n * N) fails (reader n o)); [apply seq_NoDup| |].
    - intros j Hj. apply in_seq in Hj. split.
      + apply (term_mean n o Hb HN j (fun z => if Rltb (g (fun i => p i + s * z i)) 0 then 1 else 0)); [fold N; lia|exact H].
      + intros z z' E. unfold fails. f_equal. apply Hg. intros i Hi. unfold cand. do 2 f_equal. apply E. unfold reader. apply existsb_exists. exists i. split; [apply in_seq; lia|apply Nat.eqb_refl].
    - intros a b Ha Hb' Ne k E. apply in_seq in Ha, Hb'. unfold reader in *. apply existsb_exists in E. destruct E as (i & Hi & E). apply in_seq in Hi. apply Nat.eqb_eq in E.
      destruct (existsb _ (seq 0 n)) eqn:X; [|reflexivity]. apply existsb_exists in X. destruct X as (i' & Hi' & X). apply in_seq in Hi'. apply Nat.eqb_eq in X. exfalso. apply Ne.
      apply (pos_disj n N B a b i i'); try assumption; try lia. unfold N, B. congruence.
  Qed.
End Run.
