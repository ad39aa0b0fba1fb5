(** Property theorems C39, C40, C70, C71 (line sampling). *)
From Coquelicot Require Import Coquelicot.
From Verif Require Import Base Ext Gauss GaussProofs StochModel LimitState Transf Form FormProofs Sorm SormProofs Ls LsProofs Ss Mc.
From Coq Require Import ZArith Lra Lia ClassicalEpsilon.

(** C39: geometry of a line for a unit direction. *)
Theorem C39_geometry : forall n alpha u, dot n alpha alpha = 1 ->
  let v := foot n alpha u in
  dot n alpha v = 0 /\
  (forall c, dot n alpha (line_pt v alpha c) = c) /\
  (forall c, dot n (line_pt v alpha c) (line_pt v alpha c) = dot n v v + c ^ 2) /\
  (forall i, line_pt v alpha (dot n alpha u) i = u i).
Proof.
  intros n alpha u H v. pose proof (foot_orth n alpha u H) as O. refine (conj O (conj _ (conj _ _))); intros.
  - apply line_proj; assumption.
  - apply line_norm; assumption.
  - apply foot_line.
Qed.
Print Assumptions C39_geometry.

(** C39: every reported line parameter lies in the scanned range, provided the root
    finder stays in its bracket. *)
Theorem C39_parameter_range : forall ev brentq v alpha c_init,
  (forall f lo hi c, lo <= hi -> brentq f lo hi = Some c -> lo <= c <= hi) ->
  let cm := Rmax (Rabs c_init * 3 + 5) 15 in
  15 <= cm /\ - cm <= find_line_intersection ev brentq v alpha c_init <= cm.
Proof. intros ev brentq v alpha c_init HB cm. split; [apply Rmax_r|]. apply fli_range. exact HB. Qed.
Print Assumptions C39_parameter_range.

(** C39: the estimate: the mean of Phi(-c); it is strictly between 0 and 1 and its index
    never exceeds the scan range max(3 |beta_FORM| + 5, 15). *)
Theorem C39_estimate : forall n N randn ev brentq alpha beta_form,
  (1 <= N)%nat -> (forall f lo hi c, lo <= hi -> brentq f lo hi = Some c -> lo <= c <= hi) ->
  let r := ls_run n N randn ev brentq alpha beta_form in
  let cm := Rmax (Rabs beta_form * 3 + 5) 15 in
  List.length (ls_c r) = N /\
  (forall j, (j < N)%nat -> nth j (ls_c r) 0 =
     find_line_intersection ev brentq (foot n alpha (fun i => randn (i * N + j)%nat)) alpha beta_form) /\
  ls_Pf r = lsum (map (fun c => Phi (- c)) (ls_c r)) / INR N /\ 0 < ls_Pf r < 1 /\
  Phi (- cm) <= ls_Pf r <= Phi cm /\
  exists b, ls_beta r = Fin b /\ Phi (- b) = ls_Pf r /\ - cm <= b <= cm.
Proof.
  intros n N randn ev brentq alpha beta_form HN HB r cm.
  pose proof (ls_contribs_len n N randn ev brentq alpha beta_form) as L. fold r in L.
  assert (HC : forall c, In c (ls_c r) -> - cm <= c <= cm).
  { intros c Hc. unfold r in Hc. rewrite ls_run_c in Hc. apply in_map_iff in Hc. destruct Hc as (j & <- & _). apply fli_range. exact HB. }
  destruct (ls_interval n N randn ev brentq alpha beta_form (- cm) cm HN HC) as (PB & be & B1 & B2 & B3). fold r in PB, B1, B2.
  rewrite Ropp_involutive in PB.
  refine (conj L (conj _ (conj (ls_run_Pf n N randn ev brentq alpha beta_form) (conj _ (conj PB _))))).
  - intros j Hj. unfold r. rewrite ls_run_c.
    set (F := fun j => find_line_intersection ev brentq (foot n alpha (fun i => randn (i * N + j)%nat)) alpha beta_form).
    rewrite (nth_indep _ _ (F 0%nat)) by (rewrite map_length, seq_length; exact Hj). rewrite map_nth, seq_nth by exact Hj. reflexivity.
  - pose proof (Phi_bound cm). pose proof (Phi_bound (- cm)). lra.
  - exists be. auto.
Qed.
Print Assumptions C39_estimate.

(** C31 (line and subset sampling part): a zero estimate is mapped to +infinity. *)
Theorem C31_other_methods : 
  (forall st, ss_Pf st = 0 -> ss_beta st = PInf) /\
  (forall n N randn ev brentq alpha b, ls_Pf (ls_run n N randn ev brentq alpha b) = 0 -> ls_beta (ls_run n N randn ev brentq alpha b) = PInf).
Proof.
  assert (Z1 : Rltb 0 0 = false) by (apply Rltb_false; lra). assert (Z2 : Rleb 0 0 = true) by (apply Rleb_spec; lra).
  split.
  - intros st H. unfold ss_beta. rewrite H, Z1, Z2. reflexivity.
  - intros n N randn ev brentq alpha b. unfold ls_run. cbv zeta.
    match goal with |- context [Rltb 0 ?p] => set (P := p) end. intros H.
    assert (HP : P = 0). { revert H. destruct (Rltb 0 P && Rltb P 1); [|destruct (Rleb P 0)]; cbn [ls_Pf]; auto. }
    rewrite HP, Z1, Z2. reflexivity.
Qed.
Print Assumptions C31_other_methods.

(** C40: the interval handed to the root finder. *)
Theorem C40_bracket : forall (g : nat -> option R),
  let crosses j := exists g1 g2, g j = Some g1 /\ g (S j) = Some g2 /\ g1 * g2 <= 0 in
  let safe_to_failure j := exists g1 g2, g j = Some g1 /\ g (S j) = Some g2 /\ 0 < g1 /\ g2 <= 0 in
  match bracket g with
  | Some i => (i < 39)%nat /\ crosses i /\
      ((safe_to_failure i /\ forall m, (m < i)%nat -> ~ safe_to_failure m) \/
       ((forall m, (m < 39)%nat -> ~ safe_to_failure m) /\ forall m, (m < i)%nat -> ~ crosses m))
  | None => forall m, (m < 39)%nat -> ~ crosses m
  end.
Proof. exact bracket_spec. Qed.
Print Assumptions C40_bracket.

(** C40: for a continuous limit state the bracket contains a root. *)
Theorem C40_bracket_contains_root : forall (g : R -> R) v alpha c_init ev i,
  (forall c, ev (line_pt v alpha c) = Some (g c)) -> (forall c, continuity_pt g c) ->
  bracket (fun j => ev (line_pt v alpha (c_scan c_init j))) = Some i ->
  c_scan c_init i < c_scan c_init (S i) /\ exists c, c_scan c_init i <= c <= c_scan c_init (S i) /\ g c = 0.
Proof.
  intros g v alpha c_init ev i Hev Hc E.
  pose proof (bracket_spec (fun j => ev (line_pt v alpha (c_scan c_init j)))) as BS. rewrite E in BS.
  destruct BS as (Hi & (g1 & g2 & G1 & G2 & G12) & _). rewrite Hev in G1, G2. inversion G1; inversion G2; subst.
  pose proof (c_scan_mono c_init i (S i) ltac:(lia)) as M. split; [exact M|].
  destruct (IVT_cor g (c_scan c_init i) (c_scan c_init (S i)) (fun c => Hc c) ltac:(lra) G12) as (c & Hr & H0).
  exists c. auto.
Qed.
Print Assumptions C40_bracket_contains_root.

(** C40: no sign change anywhere: the first non-NaN value decides. *)
Theorem C40_no_crossing : forall ev brentq v alpha c_init,
  let g j := ev (line_pt v alpha (c_scan c_init j)) in
  let cm := Rmax (Rabs c_init * 3 + 5) 15 in
  (forall m, (m < 39)%nat -> ~ exists g1 g2, g m = Some g1 /\ g (S m) = Some g2 /\ g1 * g2 <= 0) ->
  ((exists i v0, (i < 40)%nat /\ g i = Some v0 /\ v0 < 0 /\ forall m, (m < i)%nat -> g m = None) ->
     find_line_intersection ev brentq v alpha c_init = - cm) /\
  ((forall i v0, (i < 40)%nat -> g i = Some v0 -> (forall m, (m < i)%nat -> g m = None) -> 0 <= v0) ->
     find_line_intersection ev brentq v alpha c_init = cm).
Proof.
  intros ev brentq v alpha c_init g cm HN.
  assert (EB : bracket g = None).
  { pose proof (bracket_spec g) as BS. destruct (bracket g) as [i|]; [|reflexivity]. exfalso. destruct BS as (Hi & C & _). exact (HN i Hi C). }
  pose proof (first_valid_spec g 40 0) as FV.
  unfold find_line_intersection. cbv zeta. fold g. rewrite EB. change (n_scan - 1)%nat with 39%nat. change n_scan with 40%nat.
  rewrite c_scan_0, c_scan_last. change (c_max c_init) with cm. split.
  - intros (i & v0 & Hi & Gi & Hv & Hm). destruct (first_valid 40 0 g) as [w0|].
    + destruct FV as (k & Hk & Gk & Hkm). assert (k = i).
      { destruct (Nat.lt_trichotomy k i) as [L|[L|L]]; [|exact L|].
        - rewrite (Hm k L) in Gk. discriminate.
        - rewrite (Hkm i ltac:(lia)) in Gi. discriminate. }
      subst k. rewrite Gi in Gk. inversion Gk; subst. destruct (Rltb w0 0) eqn:C; [reflexivity|apply Rltb_false in C; lra].
    + rewrite FV in Gi by lia. discriminate.
  - intros H. destruct (first_valid 40 0 g) as [w0|]; [|reflexivity].
    destruct FV as (k & Hk & Gk & Hkm). specialize (H k w0 ltac:(lia) Gk ltac:(intros; apply Hkm; lia)).
    destruct (Rltb w0 0) eqn:C; [apply Rltb_spec in C; lra|reflexivity].
Qed.
Print Assumptions C40_no_crossing.

(** C40: a NaN gap hides a crossing: safe below 0, NaN around 0, failed above -
    yet the whole line counts as safe. *)
Definition gap_ev (u : vec) : option R :=
  if Rltb (u 0%nat) (-1) then Some 1 else if Rltb 1 (u 0%nat) then Some (-1) else None.

Theorem C40_nan_gap_refuted : forall brentq,
  find_line_intersection gap_ev brentq (fun _ => 0) (fun _ => 1) 0 = 15 /\
  (forall c, 1 < c -> gap_ev (line_pt (fun _ => 0) (fun _ => 1) c) = Some (-1)).
Proof.
  intros brentq. split.
  2:{ intros c Hc. unfold gap_ev, line_pt. destruct (Rltb (0 + c * 1) (-1)) eqn:A; [apply Rltb_spec in A; lra|].
      destruct (Rltb 1 (0 + c * 1)) eqn:B; [reflexivity|apply Rltb_false in B; lra]. }
  assert (CM : Rmax (Rabs 0 * 3 + 5) 15 = 15) by (rewrite Rabs_R0; apply Rmax_right; lra).
  assert (CS : forall j, c_scan 0 j = -15 + INR j * (30 / 39)).
  { intros j. unfold c_scan, c_max. rewrite CM. unfold n_scan. replace (INR (40 - 1)) with 39 by (cbn; lra). lra. }
  assert (G : forall j, gap_ev (line_pt (fun _ => 0) (fun _ => 1) (c_scan 0 j)) =
             if Nat.leb j 18 then Some 1 else if Nat.leb j 20 then None else Some (-1)).
  { intros j. unfold gap_ev, line_pt. rewrite CS.
    destruct (Nat.leb_spec j 18) as [L|L].
    - apply le_INR in L. replace (INR 18) with 18 in L by (cbn; lra).
      destruct (Rltb _ (-1)) eqn:A; [reflexivity|apply Rltb_false in A; lra].
    - assert (L' : (19 <= j)%nat) by lia. apply le_INR in L'. replace (INR 19) with 19 in L' by (cbn; lra).
      destruct (Rltb (0 + (-15 + INR j * (30 / 39)) * 1) (-1)) eqn:A; [apply Rltb_spec in A; lra|].
      destruct (Nat.leb_spec j 20) as [M|M].
      + apply le_INR in M. replace (INR 20) with 20 in M by (cbn; lra).
        destruct (Rltb 1 _) eqn:B; [apply Rltb_spec in B; lra|reflexivity].
      + assert (M' : (21 <= j)%nat) by lia. apply le_INR in M'. replace (INR 21) with 21 in M' by (cbn; lra).
        destruct (Rltb 1 _) eqn:B; [reflexivity|apply Rltb_false in B; lra]. }
  destruct (C40_no_crossing gap_ev brentq (fun _ => 0) (fun _ => 1) 0) as [_ K].
  - intros m Hm (g1 & g2 & G1 & G2 & G12). rewrite G in G1, G2.
    destruct (Nat.leb_spec m 18) as [A|A]; destruct (Nat.leb_spec (S m) 18) as [B|B]; try lia.
    + inversion G1; inversion G2; subst. lra.
    + assert (m = 18)%nat by lia. subst m. cbn in G2. discriminate.
    + destruct (Nat.leb_spec m 20); [discriminate|]. destruct (Nat.leb_spec (S m) 20); [discriminate|]. inversion G1; inversion G2; subst. lra.
  - rewrite K, CM; [reflexivity|]. intros i v0 Hi Gi Hn. destruct i as [|i].
    + rewrite G in Gi. cbn in Gi. inversion Gi. lra.
    + specialize (Hn 0%nat ltac:(lia)). rewrite G in Hn. cbn in Hn. discriminate.
Qed.
Print Assumptions C40_nan_gap_refuted.

(** C70: line sampling is exact (up to the root finder's tolerance) for limit states that are
    affine in standard-normal space, when FORM supplied the right direction and index. *)
Theorem C70_affine_exact : forall n N randn ev brentq alpha beta s eps,
  (1 <= N)%nat -> dot n alpha alpha = 1 -> 0 < s ->
  (forall u, ev u = Some (s * (beta - dot n alpha u))) ->
  (* the root finder, given a continuous function with a sign change over the bracket,
     returns a number within eps of a root in it *)
  (forall f h lo hi, lo <= hi -> (forall c, f c = Some (h c)) -> (forall c, continuity_pt h c) -> h lo * h hi <= 0 ->
     exists c r, brentq f lo hi = Some c /\ lo <= r <= hi /\ h r = 0 /\ Rabs (c - r) <= eps) ->
  let r := ls_run n N randn ev brentq alpha beta in
  Phi (- beta - eps) <= ls_Pf r <= Phi (- beta + eps) /\
  exists b, ls_beta r = Fin b /\ Rabs (b - beta) <= eps.
Proof.
  intros n N randn ev brentq alpha beta s eps HN Ha Hs Hev HB r.
  assert (HC : forall c, In c (ls_c r) -> beta - eps <= c <= beta + eps).
  { intros c Hc. unfold r in Hc. rewrite ls_run_c in Hc. apply in_map_iff in Hc. destruct Hc as (j & <- & _).
    pose proof (fli_affine n alpha ev brentq beta s eps (fun i => randn (i * N + j)%nat) Ha Hs Hev HB) as Q.
    apply Rabs_le_between in Q. lra. }
  destruct (ls_interval n N randn ev brentq alpha beta (beta - eps) (beta + eps) HN HC) as (PB & b & B1 & B2 & B3). fold r in PB, B1, B2.
  replace (- (beta + eps)) with (- beta - eps) in PB by ring. replace (- (beta - eps)) with (- beta + eps) in PB by ring.
  split; [exact PB|]. exists b. split; [exact B1|]. apply Rabs_le_between. lra.
Qed.
Print Assumptions C70_affine_exact.

(** C71: a limit state that raises (or is NaN) everywhere is not reported: every line
    counts as safe and Pf = Phi(-max(3|beta_FORM|+5, 15)). *)
Theorem C71_exceptions_swallowed : forall n N randn brentq alpha beta_form, (1 <= N)%nat ->
  ls_Pf (ls_run n N randn (fun _ => None) brentq alpha beta_form) = Phi (- Rmax (Rabs beta_form * 3 + 5) 15).
Proof.
  intros n N randn brentq alpha beta_form HN. rewrite ls_run_Pf, ls_run_c, map_map.
  assert (K : forall j, find_line_intersection (fun _ => None) brentq (foot n alpha (fun i => randn (i * N + j)%nat)) alpha beta_form =
      Rmax (Rabs beta_form * 3 + 5) 15).
  { intros j. apply (C40_no_crossing (fun _ => None)).
    - intros m _ (g1 & g2 & C & _). discriminate.
    - intros i v0 _ C. discriminate. }
  set (P := Phi (- Rmax (Rabs beta_form * 3 + 5) 15)).
  rewrite (map_ext _ (fun _ => P)) by (intros j; rewrite K; reflexivity).
  assert (S : forall l : list nat, lsum (map (fun _ => P) l) = INR (List.length l) * P).
  { induction l as [|x l IH]; [cbn; ring|]. cbn [map lsum List.length]. rewrite S_INR, IH. ring. }
  rewrite S, seq_length. apply (lt_INR 0) in HN. cbn in HN. field. lra.
Qed.
Print Assumptions C71_exceptions_swallowed.

(** Non-vacuity of C70 and C39: a root finder meeting both contracts exists. *)
Definition exact_root (f : R -> option R) (lo hi : R) : option R :=
  match excluded_middle_informative (exists c, lo <= c <= hi /\ f c = Some 0) with
  | left H => Some (proj1_sig (constructive_indefinite_description _ H))
  | right _ => None
  end.

Example ls_example_root_finder :
  (forall f lo hi c, lo <= hi -> exact_root f lo hi = Some c -> lo <= c <= hi) /\
  (forall f h lo hi, lo <= hi -> (forall c, f c = Some (h c)) -> (forall c, continuity_pt h c) -> h lo * h hi <= 0 ->
     exists c r, exact_root f lo hi = Some c /\ lo <= r <= hi /\ h r = 0 /\ Rabs (c - r) <= 0).
Proof.
  split.
  - intros f lo hi c _. unfold exact_root. destruct (excluded_middle_informative _) as [H|H]; [|discriminate].
    destruct (constructive_indefinite_description _ H) as [x [Hx Hf]]. cbn [proj1_sig]. intros E. inversion E; subst. exact Hx.
  - intros f h lo hi L Hf Hc Hs. unfold exact_root. destruct (excluded_middle_informative _) as [H|H].
    + destruct (constructive_indefinite_description _ H) as [x [Hx Hfx]]. cbn [proj1_sig]. exists x, x. rewrite Hf in Hfx. inversion Hfx as [E0]. rewrite E0.
      refine (conj eq_refl (conj Hx (conj eq_refl _))). rewrite Rminus_diag_eq, Rabs_R0 by reflexivity. lra.
    + exfalso. apply H. destruct (IVT_cor h lo hi Hc L Hs) as (z & Hz & H0). exists z. split; [exact Hz|]. rewrite Hf, H0. reflexivity.
Qed.

(** ... and an affine limit state: C70 applies to it. *)
Example ls_example_affine : forall randn, exists b,
  ls_beta (ls_run 1 5 randn (fun u => Some (2 * (3 - dot 1 (fun _ => 1) u))) exact_root (fun _ => 1) 3) = Fin b /\ Rabs (b - 3) <= 0.
Proof.
  intros randn. destruct (C70_affine_exact 1 5 randn (fun u => Some (2 * (3 - dot 1 (fun _ => 1) u))) exact_root (fun _ => 1) 3 2 0) as [_ K].
  - lia.
  - unfold dot. cbn. ring.
  - lra.
  - reflexivity.
  - apply ls_example_root_finder.
  - exact K.
Qed.
