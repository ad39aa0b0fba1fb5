From Coquelicot Require Import Coquelicot.
From Verif Require Import Base Ext Gauss GaussProofs StochModel StochModelSpec StochModelProofs LimitState LimitStateSpec LimitStateProofs Transf TransfSpec TransfProofs Form FormProofs RotSpec RotProofs.
From Coq Require Import ZArith Permutation Lra Lia.
Open Scope R_scope.

Lemma nodup_map_in {B C} (f : B -> C) (l : list B) : (forall x y, In x l -> In y l -> f x = f y -> x = y) -> NoDup l -> NoDup (map f l).
Proof.
  induction l as [|a l IH]; intros H N; cbn; [constructor|]. inversion N as [|? ? N1 N2]; subst. constructor.
  - rewrite in_map_iff. intros (y & E & Hy). apply N1. rewrite (H a y); [exact Hy|now left|now right|now symmetry].
  - apply IH; [|exact N2]. intros x y Hx Hy. apply H; now right.
Qed.

Section Perm.
Variables (n : nat) (s t : nat -> nat).
Hypothesis HP : perm_pair n s t.

Lemma s_lt i : (i < n)%nat -> (s i < n)%nat.
Proof. intros H. now apply HP. Qed.
Lemma t_lt i : (i < n)%nat -> (t i < n)%nat.
Proof. intros H. now apply HP. Qed.
Lemma ts i : (i < n)%nat -> t (s i) = i.
Proof. intros H. now apply HP. Qed.
Lemma st i : (i < n)%nat -> s (t i) = i.
Proof. intros H. now apply HP. Qed.
Lemma delta_perm i j : (i < n)%nat -> (j < n)%nat -> delta (s i) j = delta i (t j).
Proof.
  intros Hi Hj. unfold delta. destruct (Nat.eqb_spec (s i) j) as [E|E]; destruct (Nat.eqb_spec i (t j)) as [F|F]; try reflexivity; exfalso.
  - apply F. rewrite <- E. symmetry. now apply ts.
  - apply E. rewrite F. now apply st.
Qed.
Lemma delta_ss i j : (i < n)%nat -> (j < n)%nat -> delta (s i) (s j) = delta i j.
Proof. intros Hi Hj. rewrite delta_perm by (auto using s_lt). now rewrite ts. Qed.

Lemma fsum_perm g : fsum n (fun i => g (s i)) = fsum n g.
Proof.
  rewrite (fsum_ext n (fun i => g (s i)) (fun i => fsum n (fun j => delta (s i) j * g j))).
  - rewrite fsum_swap. apply fsum_ext. intros j Hj.
    rewrite (fsum_ext n _ (fun i => g j * delta i (t j))) by (intros i Hi; rewrite delta_perm by assumption; ring).
    rewrite fsum_scal. rewrite (fsum_ext n (fun i => delta i (t j)) (fun i => delta (t j) i * 1)) by (intros i _; rewrite delta_sym; ring).
    rewrite fsum_delta by (now apply t_lt). ring.
  - intros i Hi. rewrite fsum_delta by (now apply s_lt). reflexivity.
Qed.

(** permuted factors *)
Definition pcol (T : mat) : mat := fun k i => T k (s i).
Definition prow (A : mat) : mat := fun i k => A (s i) k.

Lemma perm_pairs T A : inverse_pair n T A -> inverse_pair n (pcol T) (prow A).
Proof.
  intros [H1 H2]. split; intros i j Hi Hj.
  - unfold mmul, pcol, prow. rewrite (fsum_perm (fun k => T i k * A k j)). exact (H1 i j Hi Hj).
  - change (mmul n A T (s i) (s j) = meye i j). rewrite (H2 (s i) (s j)) by (now apply s_lt). unfold meye. now apply delta_ss.
Qed.
Lemma perm_factor A Ro Ro' : factor_of n A Ro -> (forall i j, (i < n)%nat -> (j < n)%nat -> Ro' i j = Ro (s i) (s j)) -> factor_of n (prow A) Ro'.
Proof. intros H E i j Hi Hj. unfold prow. rewrite E by assumption. apply H; now apply s_lt. Qed.

Lemma perm_seq : Permutation (map s (seq 0 n)) (seq 0 n).
Proof.
  apply NoDup_Permutation.
  - apply nodup_map_in; [|apply seq_NoDup]. intros i j Hi Hj E. apply in_seq in Hi, Hj. rewrite <- (ts i), <- (ts j) by lia. now rewrite E.
  - apply seq_NoDup.
  - intros x. rewrite in_map_iff. split.
    + intros (y & <- & Hy). apply in_seq in Hy. apply in_seq. pose proof (s_lt y). lia.
    + intros Hx. apply in_seq in Hx. exists (t x). split; [apply st; lia|]. apply in_seq. pose proof (t_lt x). lia.
Qed.
End Perm.

(** a list read through a permutation *)
Lemma map_nth_self {B} (l : list B) d n : length l = n -> map (fun i => nth i l d) (seq 0 n) = l.
Proof.
  intros <-. induction l as [|a l IH]; [reflexivity|]. cbn [length seq map nth]. f_equal. rewrite <- seq_shift, map_map. exact IH.
Qed.
Lemma combine_map {B C D} (f : D -> B) (g : D -> C) (l : list D) : combine (map f l) (map g l) = map (fun x => (f x, g x)) l.
Proof. induction l as [|a l IH]; [reflexivity|]. cbn. now rewrite IH. Qed.
Lemma nth_replace : forall p j v i, (j < length p)%nat -> nth i (replace_nth j v p) 0 = if Nat.eqb i j then v else nth i p 0.
Proof.
  induction p as [|a p IH]; intros j v i Hj; [cbn in Hj; lia|]. destruct j as [|j]; destruct i as [|i]; cbn [replace_nth nth Nat.eqb]; try reflexivity. apply IH. cbn in Hj. lia.
Qed.
Lemma length_replace : forall p j v, length (replace_nth j v p) = length p.
Proof. induction p as [|a p IH]; intros [|j] v; cbn; try reflexivity. now rewrite IH. Qed.

Section Order.
Variables (n : nat) (s t : nat -> nat) (h h' : list smop).
Hypothesis HP : perm_pair n s t.
Hypothesis HR : reordered n s h h'.
Variable f : list (string * R) -> R.
Hypothesis HF : order_free f.

Lemma len_h : length (dists_of (accepted h)) = n.
Proof. apply HR. Qed.
Lemma len_h' : length (dists_of (accepted h')) = n.
Proof. apply HR. Qed.
Lemma margs_perm i : (i < n)%nat -> margs h' i = margs h (s i).
Proof.
  intros Hi. destruct HR as (_ & _ & H & _). specialize (H i Hi). unfold margs.
  set (d0 := mkrv _ _ _ _ _ _ _).
  pose proof (nth_error_nth' (dists_of (accepted h')) d0 (n := i)) as E1. rewrite len_h' in E1. specialize (E1 Hi).
  pose proof (nth_error_nth' (dists_of (accepted h)) d0 (n := s i)) as E2. rewrite len_h in E2. specialize (E2 (s_lt n s t HP i Hi)).
  congruence.
Qed.

Lemma args_form (g : list smop) p : ndists g = n -> length p = n -> args_at g p = map (fun i => (rv_name (margs g i), nth i p 0)) (seq 0 n) ++ consts_of (accepted g).
Proof.
  intros Hg Hp. unfold args_at. f_equal.
  rewrite <- (map_nth_self (dists_of (accepted g)) (mkrv "" 0 0 0 (fun u => u) (fun x => x) (fun _ _ => 1)) n Hg).
  rewrite <- (map_nth_self p 0 n Hp) at 1. rewrite map_map. apply combine_map.
Qed.
Lemma args_perm p p' : length p = n -> length p' = n -> (forall i, (i < n)%nat -> nth i p' 0 = nth (s i) p 0) -> Permutation (args_at h p) (args_at h' p').
Proof.
  intros Hp Hp' E. destruct HR as (N & N' & _ & C). rewrite (args_form h p N Hp), (args_form h' p' N' Hp'). apply Permutation_app; [|exact C].
  rewrite (map_ext_in (fun i => (rv_name (margs h' i), nth i p' 0)) (fun i => (fun k => (rv_name (margs h k), nth k p 0)) (s i))).
  - rewrite <- (map_map s (fun k => (rv_name (margs h k), nth k p 0))). apply Permutation_map, Permutation_sym, (perm_seq n s t HP).
  - intros i Hi. apply in_seq in Hi. rewrite margs_perm, E by lia. reflexivity.
Qed.
Lemma args_nodup (g : list smop) p : ndists g = n -> length p = n -> NoDup (map fst (args_at g p)).
Proof.
  intros Hg Hp. destruct (registry g) as (_ & _ & _ & V & C & _). pose proof (keys_nodup g) as K. rewrite V, C, map_map in K. cbn [fst] in K.
  unfold args_at. rewrite map_app.
  assert (E : map fst (combine (map rv_name (dists_of (accepted g))) p) = map rv_name (dists_of (accepted g))).
  { assert (L : length (map rv_name (dists_of (accepted g))) = length p) by (rewrite map_length; unfold ndists in Hg; lia). revert L.
    generalize (map rv_name (dists_of (accepted g))) p. induction l as [|a l IH]; intros [|b q] L; cbn in *; try reflexivity; try discriminate. f_equal. apply IH. lia. }
  rewrite E. exact K.
Qed.
Lemma value_perm p p' : length p = n -> length p' = n -> (forall i, (i < n)%nat -> nth i p' 0 = nth (s i) p 0) -> f (args_at h' p') = f (args_at h p).
Proof. intros Hp Hp' E. apply HF; [apply args_nodup; [apply HR|exact Hp]|now apply args_perm]. Qed.

Lemma len_vlist x : length (vlist n x) = n.
Proof. unfold vlist. now rewrite map_length, seq_length. Qed.
Lemma nth_vlist x i : (i < n)%nat -> nth i (vlist n x) 0 = x i.
Proof. intros Hi. unfold vlist. now rewrite nth_map_seq. Qed.

Variables (expr : expression) (lf : nat) (o : lsopts).
Hypothesis Hpt : pointwise expr f.
Hypothesis Hn : (1 <= n)%nat.
Hypothesis Hmp : o_multi_proc o <> 0%Z.
Hypothesis Hbs : (1 <= o_block_size o)%Z.
Hypothesis Hddm : o_diff_mode o <> "ddm"%string.
Hypothesis Hlf : (S n < lf)%nat.

(** the evaluation with gradient: values equal, gradients permuted, calls equal *)
Lemma lsf_perm x x' : (forall i, (i < n)%nat -> x' i = x (s i)) ->
  exists G gr gr', ev_out (evaluate_lsf lf (sm_run h) expr o None n [vlist n x]) = ODone [G] [gr] /\
    ev_out (evaluate_lsf lf (sm_run h') expr o None n [vlist n x']) = ODone [G] [gr'] /\
    (forall i, (i < n)%nat -> nth i gr' 0 = nth (s i) gr 0) /\
    (sm_calls (ev_s (evaluate_lsf lf (sm_run h') expr o None n [vlist n x'])) - sm_calls (sm_run h'))%nat =
    (sm_calls (ev_s (evaluate_lsf lf (sm_run h) expr o None n [vlist n x])) - sm_calls (sm_run h))%nat.
Proof.
  intros E. destruct HR as (N & N' & _ & _).
  assert (V : f (args_at h' (vlist n x')) = f (args_at h (vlist n x))).
  { apply value_perm; try apply len_vlist. intros i Hi. rewrite !nth_vlist by (try apply (s_lt n s t HP); exact Hi). now apply E. }
  assert (CT : forall g G gr y, ev_out (evaluate_lsf lf (sm_run g) expr o None n [vlist n y]) = ODone G gr ->
     (sm_calls (ev_s (evaluate_lsf lf (sm_run g) expr o None n [vlist n y])) - sm_calls (sm_run g))%nat = (if String.eqb (o_diff_mode o) "no" then 1 else 1 * (1 + n))%nat).
  { intros g G gr y Eo. assert (C := accounting_counts lf (sm_run g) expr o None n [vlist n y] G gr ltac:(lia) Eo). rewrite C.
    apply String.eqb_neq in Hddm. rewrite Hddm. cbn [length]. destruct (String.eqb (o_diff_mode o) "no"); lia. }
  destruct (string_dec (o_diff_mode o) "no") as [Em|Em].
  - assert (D : forall g y, ndists g = n -> ev_out (evaluate_lsf lf (sm_run g) expr o None n [vlist n y]) = ODone [f (args_at g (vlist n y))] [repeat 0 n]).
    { intros g y Hg. pose proof (dispatch_nogradient lf g expr f o None [vlist n y] Hmp (or_intror Em) Hpt) as D. rewrite Hg in D.
      apply D; [exact Hn| |exact Hbs|cbn; lia]. intros q [<-|[]]. apply len_vlist. }
    exists (f (args_at h (vlist n x))), (repeat 0 n), (repeat 0 n). rewrite <- V at 2.
    pose proof (D h x N) as D1. pose proof (D h' x' N') as D2. split; [exact D1|]. split; [exact D2|]. split.
    + intros i Hi. now rewrite !nth_repeat.
    + now rewrite (CT h _ _ _ D1), (CT h' _ _ _ D2).
  - assert (D : forall g y, ndists g = n -> exists gr, ev_out (evaluate_lsf lf (sm_run g) expr o None n [vlist n y]) = ODone [f (args_at g (vlist n y))] [gr] /\
       forall j, (j < n)%nat -> nth j gr 0 = (f (args_at g (replace_nth j (y j + rv_stdv (margs g j) / o_ffdpara o) (vlist n y))) - f (args_at g (vlist n y))) / (rv_stdv (margs g j) / o_ffdpara o)).
    { intros g y Hg. pose proof (dispatch_ffd lf g expr f o (vlist n y) Hmp Em Hddm Hpt) as D. rewrite Hg, len_vlist in D. cbv zeta in D.
      specialize (D Hn eq_refl Hbs Hlf). eexists. split; [exact D|]. intros j Hj. rewrite nth_map_seq by exact Hj. rewrite nth_vlist by exact Hj.
      assert (S0 : nth j (map (fun d => rv_stdv d / o_ffdpara o) (dists_of (accepted g))) 0 = rv_stdv (margs g j) / o_ffdpara o).
      { unfold margs. set (d0 := mkrv _ _ _ _ _ _ _). rewrite (nth_indep _ 0 (rv_stdv d0 / o_ffdpara o)) by (rewrite map_length; unfold ndists in Hg; lia).
        now rewrite (map_nth (fun d => rv_stdv d / o_ffdpara o)). }
      rewrite S0. reflexivity. }
    destruct (D h x N) as (gr & D1 & G1). destruct (D h' x' N') as (gr' & D2 & G2). rewrite V in D2.
    exists (f (args_at h (vlist n x))), gr, gr'. split; [exact D1|]. split; [exact D2|]. split.
    + intros i Hi. rewrite G2 by exact Hi. rewrite G1 by (now apply (s_lt n s t HP)). rewrite V, margs_perm by exact Hi. f_equal. f_equal.
      apply value_perm; rewrite ?length_replace; try apply len_vlist. intros k Hk.
      rewrite !nth_replace by (rewrite len_vlist; try apply (s_lt n s t HP); exact Hi).
      destruct (Nat.eqb_spec k i) as [->|Nk].
      * rewrite Nat.eqb_refl. now rewrite E.
      * destruct (Nat.eqb_spec (s k) (s i)) as [Es|Es]; [exfalso; apply Nk; rewrite <- (ts n s t HP k Hk), <- (ts n s t HP i Hi), Es; reflexivity|].
        rewrite !nth_vlist by (try apply (s_lt n s t HP); exact Hk). now apply E.
    + now rewrite (CT h _ _ _ D1), (CT h' _ _ _ D2).
Qed.

Variables (T A : mat) (inv : nat -> mat -> result mat) (e0 : exn).
Hypothesis HTA : inverse_pair n T A.
Hypothesis HI : inv_total n inv e0.
Notation PT := (pcol s T).
Notation PA := (prow s A).

Lemma x_perm u u' i : veq n u' u -> (i < n)%nat -> u_to_x n PA (margs h') u' i = u_to_x n A (margs h) u (s i).
Proof. intros Hu Hi. unfold u_to_x. cbv zeta. rewrite margs_perm by exact Hi. f_equal. transitivity (mvec n A u' (s i)); [reflexivity|apply mvec_ext; exact Hu]. Qed.

Lemma jac_perm u u' : veq n u' u ->
  meq n (jacobian n PT PA (margs h') u' (u_to_x n PA (margs h') u')) (pcol s (jacobian n T A (margs h) u (u_to_x n A (margs h) u))).
Proof.
  intros Hu k i Hk Hi. unfold jacobian, pcol, mmul.
  set (D := jac_diag n A (margs h) u (u_to_x n A (margs h) u)).
  rewrite (fsum_ext n _ (fun l => (fun q => T k q * D q (s i)) (s l))).
  - exact (fsum_perm n s t HP (fun q => T k q * D q (s i))).
  - intros l Hl. cbn beta. f_equal. unfold D, jac_diag. cbv zeta.
    destruct (Nat.eqb_spec l i) as [->|N].
    + rewrite Nat.eqb_refl, margs_perm, (x_perm u u') by assumption. f_equal. transitivity (mvec n A u' (s i)); [reflexivity|apply mvec_ext; exact Hu].
    + destruct (Nat.eqb_spec (s l) (s i)) as [Es|Es]; [|reflexivity]. exfalso. apply N. rewrite <- (ts n s t HP l Hl), <- (ts n s t HP i Hi), Es. reflexivity.
Qed.

Lemma ev_perm : ev_rot n meye (form_ev lf (sm_run h) expr o n T A inv (margs h)) (form_ev lf (sm_run h') expr o n PT PA inv (margs h')).
Proof.
  intros u u' H. assert (Hu : veq n u' u) by (intros i Hi; rewrite (H i Hi); apply mvec_eye; exact Hi).
  unfold form_ev. cbv zeta. unfold computeTransformation.
  set (x := u_to_x n A (margs h) u). set (x' := u_to_x n PA (margs h') u').
  assert (EJ := jac_perm u u' Hu). fold x x' in EJ. set (Ja := jacobian n T A (margs h) u x) in *. set (Ja' := jacobian n PT PA (margs h') u' x') in *.
  destruct HI as (I1 & I2 & I3).
  destruct (lsf_perm x x') as (G & gr & gr' & L1 & L2 & LG & LC); [intros i Hi; now apply x_perm|]. rewrite L1, L2, LC.
  destruct (inv n Ja) as [J|e] eqn:E1; destruct (inv n Ja') as [J'|e'] eqn:E2.
  - split; [reflexivity|]. split; [|reflexivity]. cbn [nth].
    assert (PJ : inverse_pair n J Ja) by (apply I1; exact E1). assert (PJ' : inverse_pair n J' Ja') by (apply I1; exact E2).
    assert (U : meq n J' (prow s J)).
    { apply (inverse_unique n Ja'); [apply inverse_sym; exact PJ'|]. apply (fun P => inverse_sym n _ _ (inverse_meq n _ _ _ (meq_sym _ _ _ EJ) P)).
      apply inverse_sym. apply (perm_pairs n s t HP). apply inverse_sym. exact PJ. }
    intros j Hj. rewrite mvec_eye by exact Hj. unfold pull_gradient. rewrite <- (fsum_perm n s t HP (fun i => vof gr i * J i j)).
    apply fsum_ext. intros i Hi. rewrite (U i j Hi Hj). unfold prow. f_equal. apply LG. exact Hi.
  - exfalso. assert (PJ : inverse_pair n J Ja) by (apply I1; exact E1).
    destruct (I2 Ja' (prow s J)) as [C HC]; [|congruence].
    apply (inverse_meq n _ _ _ (meq_sym _ _ _ EJ)). apply inverse_sym, (perm_pairs n s t HP), inverse_sym, PJ.
  - exfalso. assert (PJ : inverse_pair n J' Ja') by (apply I1; exact E2).
    assert (PJ2 : inverse_pair n J' (pcol s Ja)) by (apply (inverse_meq n _ _ _ EJ PJ)).
    assert (HP' : perm_pair n t s) by (destruct HP; split; assumption).
    destruct (I2 Ja (fun i k => J' (t i) k)) as [C HC]; [|congruence].
    pose proof (perm_pairs n t s HP' _ _ (inverse_sym n _ _ PJ2)) as Q.
    apply (inverse_meq n _ (pcol t (pcol s Ja))); [|apply inverse_sym; exact Q].
    intros a b Ha Hb. unfold pcol. now rewrite (st n s t HP).
  - split; [|reflexivity]. rewrite (I3 _ _ E1), (I3 _ _ E2). reflexivity.
Qed.

Lemma trial_perm us us' : (length us < lf)%nat -> Forall2 (rot n meye) us us' -> form_trial lf (sm_run h') expr o n PA (margs h') us' = form_trial lf (sm_run h) expr o n A (margs h) us.
Proof.
  intros HL F. destruct HR as (N & N' & _ & _). unfold form_trial. cbv zeta.
  assert (LL : length us' = length us) by (clear - F; induction F; cbn; congruence).
  set (X := map (fun u => vlist n (u_to_x n A (margs h) u)) us). set (X' := map (fun u => vlist n (u_to_x n PA (margs h') u)) us').
  assert (D : forall g Y, ndists g = n -> points_ok n Y -> (length Y < lf)%nat -> ev_out (evaluate_lsf lf (sm_run g) expr o (Some "no"%string) n Y) = ODone (map (fun p => f (args_at g p)) Y) (repeat (repeat 0 n) (length Y))).
  { intros g Y Hg HY HYl. pose proof (dispatch_nogradient lf g expr f o (Some "no"%string) Y Hmp (or_introl (ex_intro _ _ eq_refl)) Hpt) as D. rewrite Hg in D. now apply D. }
  assert (O1 : points_ok n X) by (intros q Hq; apply in_map_iff in Hq; destruct Hq as (z & <- & _); apply len_vlist).
  assert (O2 : points_ok n X') by (intros q Hq; apply in_map_iff in Hq; destruct Hq as (z & <- & _); apply len_vlist).
  assert (LX : length X = length us) by (unfold X; apply map_length). assert (LX' : length X' = length us) by (unfold X'; rewrite map_length; exact LL).
  assert (D1 := D h X N O1 ltac:(lia)). assert (D2 := D h' X' N' O2 ltac:(lia)). rewrite D1, D2.
  assert (C1 := accounting_counts lf (sm_run h) expr o (Some "no"%string) n X _ _ ltac:(lia) D1). assert (C2 := accounting_counts lf (sm_run h') expr o (Some "no"%string) n X' _ _ ltac:(lia) D2).
  cbv zeta in C1, C2. rewrite C1, C2, LX, LX'. f_equal; [|lia]. f_equal. unfold X, X'. rewrite !map_map.
  clear - F HR HF HP. induction F as [|u u' us us' H F IH]; [reflexivity|]. cbn [map]. rewrite IH. f_equal.
  apply value_perm; try apply len_vlist. intros i Hi. rewrite !nth_vlist by (try apply (s_lt n s t HP); exact Hi).
  apply x_perm; [|exact Hi]. intros j Hj. rewrite (H j Hj). apply mvec_eye. exact Hj.
Qed.

Lemma start_perm : rot n meye (computeStartingPoint n T (margs h)) (computeStartingPoint n PT (margs h')).
Proof.
  intros k Hk. rewrite mvec_eye by exact Hk. unfold computeStartingPoint, x_to_u, mvec, pcol. cbv zeta.
  rewrite <- (fsum_perm n s t HP (fun i => T k i * rv_x2u (margs h i) (rv_start (margs h i)))). apply fsum_ext. intros i Hi. now rewrite margs_perm.
Qed.
End Order.
