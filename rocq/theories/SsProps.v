(** Property theorems C34 - C38, C69 (subset simulation).

    The contract [forall us, Gof us = Ok (map g us)] says the limit state is
    evaluated point by point without raising, with finite values; g is the limit
    state seen from standard-normal space (C28_limit_state_contract). *)
From Coquelicot Require Import Coquelicot.
From Verif Require Import Base Ext Gauss GaussProofs StochModel LimitState Transf Form FormProofs Sorm SormProofs
  Mc McSpec McProofs McRunProofs McProps Ss SsProofs.
From Coq Require Import ZArith Lra Lia.

(** C34: invariants of every terminating run. *)
Theorem C34_level_invariants : forall nrv N block p0 sigma randn unif Gof g fuel st,
  (forall us, Gof us = Ok (map g us)) -> (1 <= N)%nat -> 0 < p0 < 1 -> (1 <= block)%Z ->
  ss_run nrv N block p0 sigma randn unif Gof fuel = SDone st ->
  let L := List.length (ss_levels st) in
  (* as many thresholds as conditional probabilities, n_levels of them, at least one *)
  (1 <= L)%nat /\ List.length (ss_thresholds st) = L /\ List.length (ss_probs st) = L /\ ss_nlevels st = L /\
  (* thresholds: positive except the last, which is 0; non-increasing *)
  (forall j, (S j < L)%nat -> 0 < nth j (ss_thresholds st) 0) /\ last (ss_thresholds st) 1 = 0 /\
  (forall i j, (i <= j < L)%nat -> nth j (ss_thresholds st) 0 <= nth i (ss_thresholds st) 0) /\
  (* every sample carries its own g value, and from level 1 on lies below the previous threshold *)
  (forall j ug, (j < L)%nat -> In ug (nth j (ss_levels st) []) -> snd ug = g (fst ug)) /\
  (forall j ug, (S j < L)%nat -> In ug (nth (S j) (ss_levels st) []) -> g (fst ug) <= nth j (ss_thresholds st) 0) /\
  (* each conditional probability is the observed fraction, Pf their product *)
  (forall j, (j < L)%nat -> nth j (ss_probs st) 0 =
     INR (List.length (filter (fun ug : vec * R => Rleb (g (fst ug)) (nth j (ss_thresholds st) 0)) (nth j (ss_levels st) []))) / INR N) /\
  ss_Pf st = lprod (ss_probs st).
Proof.
  intros nrv N block p0 sigma randn unif Gof g fuel st HG HN Hp Hb E L.
  destruct (run_spec nrv N block p0 sigma randn unif Gof g HG HN Hp Hb fuel st E) as ([A1 A2 A3 A4 A5 A6 A7 A8 A9 A10 A11] & NL & ts & ET & PT).
  assert (LT : List.length (ss_thresholds st) = L) by (unfold L; lia).
  assert (LT2 : List.length (ss_thresholds st) = S (List.length ts)) by (rewrite ET, app_length; cbn; lia).
  assert (SG : forall j ug, (j < L)%nat -> In ug (nth j (ss_levels st) []) -> snd ug = g (fst ug)).
  { intros j ug Hj Hu. apply (A7 (nth j (ss_levels st) [])); [apply nth_In; exact Hj|exact Hu]. }
  refine (conj _ (conj LT (conj _ (conj NL (conj _ (conj _ (conj _ (conj SG (conj _ (conj _ A4)))))))))).
  - lia.
  - unfold L. lia.
  - intros j Hj. rewrite ET, app_nth1 by lia. unfold posthr in PT. rewrite Forall_forall in PT. apply PT, nth_In. lia.
  - rewrite ET. apply last_last.
  - intros i j Hij. apply A3; lia.
  - intros j ug Hj Hu. rewrite <- (SG (S j) ug Hj Hu). apply A8; assumption.
  - intros j Hj. rewrite (A9 j Hj). do 3 f_equal. apply filter_ext_in. intros ug Hu. rewrite (SG j ug Hj Hu). reflexivity.
Qed.
Print Assumptions C34_level_invariants.

(** C34: a run raises nothing of its own. *)
Theorem C34_never_raises : forall nrv N block p0 sigma randn unif Gof g fuel e,
  (forall us, Gof us = Ok (map g us)) -> (1 <= N)%nat -> 0 < p0 < 1 -> (1 <= block)%Z ->
  ss_run nrv N block p0 sigma randn unif Gof fuel <> SRaise e.
Proof. intros nrv N block p0 sigma randn unif Gof g fuel e HG HN Hp Hb. apply (run_noraise nrv N block p0 sigma randn unif Gof g HG HN Hp Hb). Qed.
Print Assumptions C34_never_raises.

(** C35: p0 outside (0,1) is rejected at construction. *)
Theorem C35_p0_checked : forall p0, (ss_init p0 = Ok tt <-> 0 < p0 < 1) /\ (~ 0 < p0 < 1 -> ss_init p0 = Err EValue).
Proof.
  intros p0. unfold ss_init.
  destruct (Rltb 0 p0) eqn:A; destruct (Rltb p0 1) eqn:B; cbn [andb];
    rewrite ?Rltb_spec, ?Rltb_false in *; (split; [split; intros; first [discriminate | reflexivity | lra]|intros; first [reflexivity | exfalso; lra]]).
Qed.
Print Assumptions C35_p0_checked.

(** C35: bounds on the conditional probabilities, Pf and beta. *)
Theorem C35_never_zero : forall nrv N block p0 sigma randn unif Gof g fuel st,
  (forall us, Gof us = Ok (map g us)) -> (1 <= N)%nat -> 0 < p0 < 1 -> (1 <= block)%Z ->
  ss_run nrv N block p0 sigma randn unif Gof fuel = SDone st ->
  let pmin := (IZR (Int_part (p0 * INR (N - 1))) + 1) / INR N in
  0 < pmin /\ Forall (fun p => pmin <= p <= 1) (ss_probs st) /\
  pmin ^ List.length (ss_levels st) <= ss_Pf st <= 1 /\ 0 < ss_Pf st /\
  ss_beta st <> PInf /\
  (ss_Pf st < 1 -> exists b, ss_beta st = Fin b /\ Phi (- b) = ss_Pf st) /\
  (ss_Pf st = 1 -> ss_beta st = NInf).
Proof.
  intros nrv N block p0 sigma randn unif Gof g fuel st HG HN Hp Hb E pm.
  destruct (run_spec nrv N block p0 sigma randn unif Gof g HG HN Hp Hb fuel st E) as ([A1 A2 A3 A4 A5 A6 A7 A8 A9 A10 A11] & NL & ts & ET & PT).
  destruct (pos_bounds p0 N Hp HN) as (PB & _). cbv zeta in PB.
  assert (IP : (0 <= Int_part (p0 * INR (N - 1)))%Z).
  { assert (0 <= INR (N - 1)) by apply pos_INR. assert (H0 : 0 <= p0 * INR (N - 1)) by (apply Rmult_le_pos; lra).
    destruct (base_Int_part (p0 * INR (N - 1))) as [B1 B2]. assert (Q : -1 < IZR (Int_part (p0 * INR (N - 1)))) by lra.
    apply (lt_IZR (-1)) in Q. lia. }
  assert (EP : pm = pmin N p0).
  { unfold pm, pmin. rewrite S_INR, (INR_IZR_INZ (Z.to_nat _)), Z2Nat.id by exact IP. reflexivity. }
  assert (NP : 0 < INR N) by (apply (lt_INR 0); lia).
  assert (PP : 0 < pm). { unfold pm. apply Rdiv_lt_0_compat; [|exact NP]. apply IZR_le in IP. lra. }
  rewrite <- EP in A5.
  assert (PF : pm ^ List.length (ss_probs st) <= ss_Pf st <= 1).
  { rewrite A4. clear -A5 PP. unfold lprod. induction A5 as [|p l H F IH]; cbn [fold_right List.length pow]; [lra|].
    assert (0 < pm ^ List.length l) by (apply pow_lt; exact PP). split; [apply Rmult_le_compat; lra|].
    apply Rle_trans with (1 * 1); [apply Rmult_le_compat; lra|lra]. }
  assert (P0 : 0 < ss_Pf st) by (assert (0 < pm ^ List.length (ss_probs st)) by (apply pow_lt; exact PP); lra).
  refine (conj PP (conj A5 (conj _ (conj P0 _)))); [rewrite A2; exact PF|].
  unfold ss_beta. destruct (Rltb 0 (ss_Pf st)) eqn:C0; [|apply Rltb_false in C0; lra]. cbn [andb].
  destruct (Rltb (ss_Pf st) 1) eqn:C1.
  - apply Rltb_spec in C1. rewrite xppf_in by lra. cbn [xneg]. refine (conj _ (conj _ _)); [discriminate| |intros; lra].
    intros _. eexists. split; [reflexivity|]. rewrite Ropp_involutive. apply Phi_ppf. lra.
  - apply Rltb_false in C1. destruct (Rleb (ss_Pf st) 0) eqn:C2; [apply Rleb_spec in C2; lra|].
    refine (conj _ (conj _ _)); [discriminate|intros; lra|reflexivity].
Qed.
Print Assumptions C35_never_zero.

(** C35: there is always a seed, and the step that divides by their number does not raise. *)
Theorem C35_always_a_seed : forall N p0 (smp : list (vec * R)) y,
  0 < p0 < 1 -> (1 <= N)%nat -> List.length smp = N -> y = percentile (map snd smp) p0 -> seeds_of smp y <> [].
Proof. intros N p0 smp y Hp HN HL ->. apply (seeds_nonempty N p0 HN Hp); [exact HL|lra]. Qed.
Print Assumptions C35_always_a_seed.

(** C35: what np.percentile's linear interpolation is, independently of sorting:
    at least floor(p0 (N-1)) + 1 values are at or below it, and it never leaves the range. *)
Theorem C35_percentile : forall G p0, 0 < p0 < 1 -> G <> [] ->
  (Z.to_nat (Int_part (p0 * INR (List.length G - 1))) + 1 <= count_le G (percentile G p0))%nat /\
  (forall lo, (forall x, In x G -> lo <= x) -> lo <= percentile G p0) /\
  (forall hi, (forall x, In x G -> x <= hi) -> percentile G p0 <= hi).
Proof.
  intros G p0 Hp HG. assert (1 <= List.length G)%nat by (destruct G; [contradiction|cbn; lia]).
  refine (conj _ (conj _ _)).
  - rewrite Nat.add_1_r. apply percentile_count; [exact Hp|assumption|lra].
  - intros lo Hlo. apply percentile_ge_min; assumption.
  - intros hi Hhi. apply percentile_le_max; assumption.
Qed.
Print Assumptions C35_percentile.

(** C36: a conditional level: exactly N samples from its seeds, one evaluation each. *)
Theorem C36_level : forall nrv N sigma unif Gof g seeds thr pos calls,
  (forall us, Gof us = Ok (map g us)) -> seeds <> [] ->
  (forall ug, In ug seeds -> snd ug = g (fst ug) /\ snd ug <= thr) ->
  exists out pos', mmh_step nrv N sigma unif Gof seeds thr pos calls = LvDone out pos' (calls + N) /\
    List.length out = N /\ (forall ug, In ug out -> snd ug = g (fst ug) /\ g (fst ug) <= thr).
Proof.
  intros nrv N sigma unif Gof g seeds thr pos calls HG Hne Hs.
  destruct (step_spec nrv N sigma unif Gof g HG seeds thr pos calls Hne) as (out & pos' & E & L & F).
  - apply Forall_forall. exact Hs.
  - exists out, pos'. refine (conj E (conj L _)). intros ug Hu. rewrite Forall_forall in F. destruct (F ug Hu) as [Q1 Q2].
    split; [exact Q1|]. rewrite <- Q1. exact Q2.
Qed.
Print Assumptions C36_level.

(** C36: chain lengths differ by at most one and add up to N. *)
Theorem C36_chain_lengths : forall N Ns, (1 <= Ns)%nat ->
  (forall s t, (chain_len N Ns s <= chain_len N Ns t + 1)%nat) /\
  fold_right Nat.add 0%nat (map (chain_len N Ns) (seq 0 Ns)) = N.
Proof.
  intros N Ns HN. split.
  - intros s t. unfold chain_len. cbv zeta. destruct (Nat.ltb s _), (Nat.ltb t _); lia.
  - rewrite <- (total_is_N N Ns HN) at 2. generalize 0%nat at 2 3 as s. generalize Ns at 2 4 as m.
    induction m as [|m IH]; intros s; [reflexivity|]. cbn [seq map fold_right total_len]. rewrite IH. reflexivity.
Qed.
Print Assumptions C36_chain_lengths.

(** C36: total number of evaluations and of samples of a run. *)
Theorem C36_total_evaluations : forall nrv N block p0 sigma randn unif Gof g fuel st,
  (forall us, Gof us = Ok (map g us)) -> (1 <= N)%nat -> 0 < p0 < 1 -> (1 <= block)%Z ->
  ss_run nrv N block p0 sigma randn unif Gof fuel = SDone st ->
  ss_calls st = (N * ss_nlevels st)%nat /\ Forall (fun smp => List.length smp = N) (ss_levels st).
Proof.
  intros nrv N block p0 sigma randn unif Gof g fuel st HG HN Hp Hb E.
  destruct (run_spec nrv N block p0 sigma randn unif Gof g HG HN Hp Hb fuel st E) as ([A1 A2 A3 A4 A5 A6 A7 A8 A9 A10 A11] & NL & _).
  rewrite NL. auto.
Qed.
Print Assumptions C36_total_evaluations.

(** C37 *)
Theorem C37_diverges_without_failures : forall nrv N block p0 sigma randn unif Gof g,
  (forall us, Gof us = Ok (map g us)) -> (1 <= N)%nat -> 0 < p0 < 1 -> (1 <= block)%Z ->
  (forall u, 0 < g u) -> forall fuel, ss_run nrv N block p0 sigma randn unif Gof fuel = SFuel.
Proof. intros nrv N block p0 sigma randn unif Gof g HG HN Hp Hb. apply (run_diverges nrv N block p0 sigma randn unif Gof g HG HN Hp Hb). Qed.
Print Assumptions C37_diverges_without_failures.

(** C38: the component rule accepts exactly the uniform numbers below
    min(1, phi(xi)/phi(u)), an interval whose length is that probability. *)
Theorem C38_acceptance_probability : forall u xi r, 0 <= r < 1 ->
  (accept_comp u xi r = true <-> r < Rmin 1 (phi xi / phi u)).
Proof. exact accept_iff. Qed.
Print Assumptions C38_acceptance_probability.

Theorem C38_detailed_balance : forall n (u xi : nat -> R),
  let a x y := Rmin 1 (phi y / phi x) in
  lprod (map (fun d => phi (u d) * a (u d) (xi d)) (seq 0 n)) =
  lprod (map (fun d => phi (xi d) * a (xi d) (u d)) (seq 0 n)).
Proof. intros n u xi a. f_equal. apply map_ext. intros d. apply detailed_balance. Qed.
Print Assumptions C38_detailed_balance.

(** the proposal is symmetric: the step back uses the mirrored uniform number *)
Theorem C38_proposal_symmetric : forall sigma u r,
  propose sigma (propose sigma u r) (1 - r) = u /\ (0 < sigma -> 0 <= r < 1 -> - sigma <= propose sigma u r - u < sigma).
Proof. intros sigma u r. unfold propose. split; [ring|]. intros Hs [H0 H1]. split; nra. Qed.
Print Assumptions C38_proposal_symmetric.

(** every coordinate of a joint proposal is either kept or moved by an accepted component *)
Theorem C38_joint_proposal : forall nrv sigma unif u pos d,
  let r1 := unif (pos + 2 * d)%nat in let r2 := unif (pos + 2 * d + 1)%nat in
  let xi := propose sigma (u d) r1 in
  ((d < nrv)%nat -> 0 <= r2 < 1 ->
     mmh_prop nrv sigma unif u pos d = if Rltb r2 (Rmin 1 (phi xi / phi (u d))) then xi else u d) /\
  ((nrv <= d)%nat -> mmh_prop nrv sigma unif u pos d = u d).
Proof.
  intros nrv sigma unif u pos d r1 r2 xi. unfold mmh_prop. cbv zeta. fold r1 r2 xi. split; intros Hd.
  - intros Hr. destruct (Nat.ltb_spec d nrv); [|lia]. cbn [andb].
    destruct (accept_comp (u d) xi r2) eqn:A.
    + apply accept_iff in A; [|exact Hr]. unfold acc_prob in A. apply Rltb_spec in A. rewrite A. reflexivity.
    + destruct (Rltb r2 (Rmin 1 (phi xi / phi (u d)))) eqn:B; [|reflexivity].
      apply Rltb_spec in B. apply (accept_iff (u d) xi r2 Hr) in B. congruence.
  - destruct (Nat.ltb_spec d nrv); [lia|]. reflexivity.
Qed.
Print Assumptions C38_joint_proposal.

(** C69: on the surface G = 0 the two simulation methods disagree. *)
Theorem C69_zero_is_failure_for_subset_only : forall nrv N block p0 sigma randn unif fuel o stream tox mfuel st,
  (1 <= N)%nat -> 0 < p0 < 1 -> (1 <= block)%Z -> mo_stdv o = 1 -> (0 < mo_block o)%Z ->
  let zero := fun us : list vec => Ok (map (fun _ => 0) us) in
  mc_run nrv o stream (setPoint None) tox zero mfuel mc_fresh 0 = MDone st ->
  mc_Pf st = 0 /\ exists s, ss_run nrv N block p0 sigma randn unif zero fuel = SDone s /\ ss_Pf s = 1.
Proof.
  intros nrv N block p0 sigma randn unif fuel o stream tox mfuel st HN Hp Hb Hs Hmb zero E.
  assert (HG : forall us, zero us = Ok (map (fun _ : vec => 0) us)) by reflexivity.
  split.
  - apply (C31_no_failure nrv o stream (setPoint None) tox zero (fun _ => 0) mc_fresh 0 mfuel st HG Hmb E). intros; lra.
  - rewrite (ss_run_unfold nrv N block p0 sigma randn unif zero (fun _ => 0) HG Hb fuel). cbv zeta.
    assert (L0 : forall x, In x (map (fun _ : vec => 0) (u0s N randn)) -> x = 0) by (intros x Hx; apply in_map_iff in Hx; destruct Hx as (? & <- & _); reflexivity).
    assert (LL : List.length (map (fun _ : vec => 0) (u0s N randn)) = N) by (rewrite map_length; apply u0s_len).
    assert (Y : percentile (map (fun _ : vec => 0) (u0s N randn)) p0 <= 0).
    { apply percentile_le_max; [exact Hp|rewrite LL; exact HN|]. intros x Hx. rewrite (L0 x Hx). lra. }
    destruct (Rleb _ 0) eqn:C; [|apply Rleb_false in C; lra]. eexists. split; [reflexivity|]. cbn [ss_Pf].
    assert (CL : count_le (map (fun _ : vec => 0) (u0s N randn)) 0 = N).
    { rewrite <- LL at 2. unfold count_le. clear -L0. induction (map (fun _ : vec => 0) (u0s N randn)) as [|x l IH]; [reflexivity|].
      cbn [filter]. rewrite (L0 x (or_introl eq_refl)). destruct (Rleb 0 0) eqn:C; [|apply Rleb_false in C; lra]. cbn [List.length]. f_equal.
      apply IH. intros y Hy. apply L0. right. exact Hy. }
    rewrite CL. apply (lt_INR 0) in HN. cbn in HN. field. lra.
Qed.
Print Assumptions C69_zero_is_failure_for_subset_only.

(** Non-vacuity: a run that needs a conditional level.  One variable, N = 2, g(u) = u 0:
    the prior samples are 1 and 2, the single proposal from 1 moves to -1. *)
Example ss_example : exists fuel st,
  ss_run 1 2 10 (1 / 4) 2 (fun j => INR j + 1) (fun i => if Nat.even i then 0 else 1 / 2)
    (fun us => Ok (map (fun u : vec => u 0%nat) us)) fuel = SDone st /\ ss_nlevels st = 2%nat.
Proof.
  exists 1%nat. set (g := fun u : vec => u 0%nat). set (un := fun i => if Nat.even i then 0 else 1 / 2).
  assert (HG : forall us : list vec, Ok (map g us) = Ok (map g us)) by reflexivity.
  rewrite (ss_run_unfold 1 2 10 (1 / 4) 2 (fun j => INR j + 1) un _ g HG ltac:(lia) 1). cbv zeta.
  assert (IP : forall h, 0 <= h < 1 -> Int_part h = 0%Z).
  { intros h Hh. destruct (base_Int_part h) as [B1 B2]. assert (A1 : -1 < IZR (Int_part h)) by lra. assert (A2 : IZR (Int_part h) < 1) by lra.
    apply (lt_IZR (-1)) in A1. apply (lt_IZR _ 1) in A2. lia. }
  assert (Y : percentile (map g (u0s 2 (fun j => INR j + 1))) (1 / 4) = 5 / 4).
  { unfold percentile, u0s. cbv zeta. cbn [map seq sort insert g List.length]. unfold g. cbn [INR Nat.mul Nat.add].
    destruct (Rleb (0 + 1) (1 + 1)) eqn:C; [|apply Rleb_false in C; lra].
    cbn [Nat.sub INR]. rewrite IP by lra. cbn. lra. }
  rewrite Y. destruct (Rleb (5 / 4) 0) eqn:C; [apply Rleb_spec in C; lra|].
  assert (S1 : seeds_of (lev0 2 (fun j => INR j + 1) g) (5 / 4) = [((fun i => INR (i * 2 + 0) + 1) : vec, 0 + 1)]).
  { unfold seeds_of, lev0, u0s. cbn [map seq filter snd]. unfold g. cbn [Nat.mul Nat.add INR].
    destruct (Rleb (0 + 1) (5 / 4)) eqn:C1; [|apply Rleb_false in C1; lra].
    destruct (Rleb (1 + 1) (5 / 4)) eqn:C2; [apply Rleb_spec in C2; lra|]. reflexivity. }
  rewrite S1. cbn [ss_loop mmh_step List.length mmh_chains]. change (chain_len 2 1 0) with 2%nat.
  cbn [mmh_chain map nth].
  set (u1 := mmh_prop 1 2 un (fun i => INR (i * 2 + 0) + 1) 0).
  assert (G1 : g u1 = -1).
  { unfold g, u1, mmh_prop. cbn [Nat.mul Nat.add Nat.ltb Nat.leb andb INR]. unfold propose, un. cbn [Nat.even].
    unfold accept_comp, log_lt. destruct (Rltb 0 (1 / 2)) eqn:D; [|apply Rltb_false in D; lra].
    destruct (Rltb (ln (1 / 2)) _) eqn:D2; [lra|]. apply Rltb_false in D2.
    assert (ln (1 / 2) < 0) by (rewrite <- ln_1; apply ln_increasing; lra). lra. }
  rewrite G1. destruct (Rleb (-1) (5 / 4)) eqn:D; [|apply Rleb_false in D; lra]. cbn [fst snd app].
  set (u2 := mmh_prop 1 2 un u1 _). 
  set (ug := if Rleb (g u2) (5 / 4) then (u2, g u2) else (u1, -1)).
  cbn [map snd fst].
  assert (PL : percentile [-1; snd ug] (1 / 4) <= 0).
  { assert (SU : snd ug <= 5 / 4).
    { unfold ug. destruct (Rleb (g u2) (5 / 4)) eqn:K; cbn [snd]; [apply Rleb_spec in K; exact K|lra]. }
    unfold percentile. cbv zeta. cbn [sort insert List.length Nat.sub INR]. rewrite IP by lra.
    destruct (Rleb (-1) (snd ug)) eqn:K; cbn; [lra|]. apply Rleb_false in K. lra. }
  destruct (Rleb (percentile [-1; snd ug] (1 / 4)) 0) eqn:K; [|apply Rleb_false in K; lra].
  eexists. split; reflexivity.
Qed.
