From Coquelicot Require Import Coquelicot.
From Verif Require Import Base Ext Gauss GaussProofs StochModel StochModelSpec StochModelProofs LimitState LimitStateSpec LimitStateProofs Transf TransfSpec TransfProofs Form FormProofs Nataf NatafProofs Dist RotSpec RotProofs PermProofs Pipe PipeProofs UnitsSpec.
From Coq Require Import ZArith Lra Lia FunctionalExtensionality.
Open Scope R_scope.

Lemma fold_ext_in {B C} (f g : B -> C -> B) l : (forall x b, In x l -> f b x = g b x) -> forall b, fold_left f l b = fold_left g l b.
Proof.
  induction l as [|c l IH]; intros H b; [reflexivity|]. cbn. rewrite (H c b) by now left. apply IH. intros x b' Hx. apply H. now right.
Qed.

Section Units.
Variables (n : nat) (a b : vec) (h h' : list smop).
Hypothesis HU : converted n a b h h'.
Notation m := (marg_at (sm_run h)).
Notation m' := (marg_at (sm_run h')).

Lemma un_n : ndists h = n. Proof. apply HU. Qed.
Lemma un_n' : ndists h' = n. Proof. apply HU. Qed.
Lemma marg_margs (g : list smop) : marg_at (sm_run g) = margs g.
Proof. destruct (registry g) as (_ & _ & E & _). unfold marg_at, margs. now rewrite E. Qed.
Lemma un_len (g : list smop) : length (sm_marg (sm_run g)) = ndists g.
Proof. destruct (registry g) as (_ & _ & E & _). now rewrite E. Qed.
Lemma un_at i : (i < n)%nat -> 0 < a i /\ rv_stdv (m i) <> 0 /\ in_units (a i) (b i) (m i) (m' i).
Proof.
  intros Hi. destruct HU as (_ & _ & H & _). destruct (H i Hi) as (A & d & d' & E & E' & S & U).
  rewrite !marg_margs. unfold margs. rewrite (nth_error_nth _ _ _ E), (nth_error_nth _ _ _ E'). auto.
Qed.
Lemma un_a i : (i < n)%nat -> a i <> 0.
Proof. intros Hi. destruct (un_at i Hi). lra. Qed.

(** the Nataf preparation *)
Lemma un_std i u : (i < n)%nat -> (mg_u2x (marg_of (m' i)) u - mg_mean (marg_of (m' i))) / mg_stdv (marg_of (m' i)) =
  (mg_u2x (marg_of (m i)) u - mg_mean (marg_of (m i))) / mg_stdv (marg_of (m i)).
Proof.
  intros Hi. destruct (un_at i Hi) as (A & S & _ & E1 & E2 & _ & E3 & _). cbn. rewrite E1, E2, E3. field. split; [exact S|lra].
Qed.
Lemma un_obj i j rho nIP r : (i < n)%nat -> (j < n)%nat ->
  absoluteIntegralValue r rho (marg_of (m' i)) (marg_of (m' j)) (zi_and_xi (marg_of (m' i)) (marg_of (m' j)) 6 nIP) =
  absoluteIntegralValue r rho (marg_of (m i)) (marg_of (m j)) (zi_and_xi (marg_of (m i)) (marg_of (m j)) 6 nIP).
Proof.
  intros Hi Hj. unfold absoluteIntegralValue, rho_integral, sum2. do 2 f_equal.
  apply fsum_ext. intros c _. apply fsum_ext. intros d _. do 3 f_equal.
  unfold zi_and_xi. cbn [g_X1 g_X2 g_Z1 g_Z2]. rewrite !un_std by assumption. reflexivity.
Qed.
Lemma un_modified fmin k R : computeModifiedCorrelationMatrix fmin n k R (fun i => marg_of (m' i)) = computeModifiedCorrelationMatrix fmin n k R (fun i => marg_of (m i)).
Proof.
  unfold computeModifiedCorrelationMatrix.
  match goal with |- match ?x with _ => _ end = match ?y with _ => _ end => assert (E : x = y); [|rewrite E; reflexivity] end.
  apply fold_ext_in. intros i s Hi. apply fold_ext_in. intros j s' Hj. apply in_seq in Hi, Hj.
  unfold mod_pair. destruct s' as [[Ro lg]|e]; [|reflexivity]. destruct (Nat.ltb i k && Nat.ltb j k); [|reflexivity].
  cbv zeta. destruct (Reqb (R i j) 0); [reflexivity|]. do 4 f_equal.
  apply functional_extensionality. intros r. apply un_obj; lia.
Qed.

Variables (expr expr' : expression) (f f' : list (string * R) -> R) (lf : nat) (o : lsopts).
Hypothesis HF : converted_lsf n a b h h' f f'.
Hypothesis Hpt : pointwise expr f.
Hypothesis Hpt' : pointwise expr' f'.
Hypothesis Hn : (1 <= n)%nat.
Hypothesis Hmp : o_multi_proc o <> 0%Z.
Hypothesis Hbs : (1 <= o_block_size o)%Z.
Hypothesis Hddm : o_diff_mode o <> "ddm"%string.
Hypothesis Hff : o_ffdpara o <> 0.
Hypothesis Hlf : (S n < lf)%nat.

Lemma lsf_units x x' : (forall i, (i < n)%nat -> x' i = a i * x i + b i) ->
  exists G gr gr', ev_out (evaluate_lsf lf (sm_run h) expr o None n [vlist n x]) = ODone [G] [gr] /\
    ev_out (evaluate_lsf lf (sm_run h') expr' o None n [vlist n x']) = ODone [G] [gr'] /\
    (forall i, (i < n)%nat -> nth i gr' 0 = nth i gr 0 / a i) /\
    (sm_calls (ev_s (evaluate_lsf lf (sm_run h') expr' o None n [vlist n x'])) - sm_calls (sm_run h'))%nat =
    (sm_calls (ev_s (evaluate_lsf lf (sm_run h) expr o None n [vlist n x])) - sm_calls (sm_run h))%nat.
Proof.
  intros E. pose proof un_n as N. pose proof un_n' as N'.
  assert (V : f' (args_at h' (vlist n x')) = f (args_at h (vlist n x))).
  { apply HF; try apply len_vlist. intros i Hi. rewrite !nth_vlist by exact Hi. now apply E. }
  assert (CT : forall g ex G gr y, ev_out (evaluate_lsf lf (sm_run g) ex o None n [vlist n y]) = ODone G gr ->
     (sm_calls (ev_s (evaluate_lsf lf (sm_run g) ex o None n [vlist n y])) - sm_calls (sm_run g))%nat = (if String.eqb (o_diff_mode o) "no" then 1 else 1 * (1 + n))%nat).
  { intros g ex G gr y Eo. assert (C := accounting_counts lf (sm_run g) ex o None n [vlist n y] G gr ltac:(lia) Eo). rewrite C.
    apply String.eqb_neq in Hddm. rewrite Hddm. cbn [length]. destruct (String.eqb (o_diff_mode o) "no"); lia. }
  destruct (string_dec (o_diff_mode o) "no") as [Em|Em].
  - assert (D : forall g ex fu y, pointwise ex fu -> ndists g = n -> ev_out (evaluate_lsf lf (sm_run g) ex o None n [vlist n y]) = ODone [fu (args_at g (vlist n y))] [repeat 0 n]).
    { intros g ex fu y Hp Hg. pose proof (dispatch_nogradient lf g ex fu o None [vlist n y] Hmp (or_intror Em) Hp) as D. rewrite Hg in D.
      apply D; [exact Hn| |exact Hbs|cbn; lia]. intros q [<-|[]]. apply len_vlist. }
    exists (f (args_at h (vlist n x))), (repeat 0 n), (repeat 0 n). rewrite <- V at 2.
    pose proof (D h expr f x Hpt N) as D1. pose proof (D h' expr' f' x' Hpt' N') as D2. split; [exact D1|]. split; [exact D2|]. split.
    + intros i Hi. rewrite !nth_repeat. unfold Rdiv. ring.
    + now rewrite (CT h _ _ _ _ D1), (CT h' _ _ _ _ D2).
  - assert (D : forall g ex fu y, pointwise ex fu -> ndists g = n -> exists gr, ev_out (evaluate_lsf lf (sm_run g) ex o None n [vlist n y]) = ODone [fu (args_at g (vlist n y))] [gr] /\
       forall j, (j < n)%nat -> nth j gr 0 = (fu (args_at g (replace_nth j (y j + rv_stdv (margs g j) / o_ffdpara o) (vlist n y))) - fu (args_at g (vlist n y))) / (rv_stdv (margs g j) / o_ffdpara o)).
    { intros g ex fu y Hp Hg. pose proof (dispatch_ffd lf g ex fu o (vlist n y) Hmp Em Hddm Hp) as D. rewrite Hg, len_vlist in D. cbv zeta in D.
      specialize (D Hn eq_refl Hbs Hlf). eexists. split; [exact D|]. intros j Hj. rewrite nth_map_seq by exact Hj. rewrite nth_vlist by exact Hj.
      assert (S0 : nth j (map (fun d => rv_stdv d / o_ffdpara o) (dists_of (accepted g))) 0 = rv_stdv (margs g j) / o_ffdpara o).
      { unfold margs. set (d0 := mkrv _ _ _ _ _ _ _). rewrite (nth_indep _ 0 (rv_stdv d0 / o_ffdpara o)) by (rewrite map_length; unfold ndists in Hg; lia).
        now rewrite (map_nth (fun d => rv_stdv d / o_ffdpara o)). }
      rewrite S0. reflexivity. }
    destruct (D h expr f x Hpt N) as (gr & D1 & G1). destruct (D h' expr' f' x' Hpt' N') as (gr' & D2 & G2). rewrite V in D2.
    exists (f (args_at h (vlist n x))), gr, gr'. split; [exact D1|]. split; [exact D2|]. split.
    + intros i Hi. rewrite G2, G1 by exact Hi. rewrite V. destruct (un_at i Hi) as (A & S & _ & _ & E2 & _). rewrite !marg_margs in *. rewrite E2.
      assert (W : f' (args_at h' (replace_nth i (x' i + a i * rv_stdv (margs h i) / o_ffdpara o) (vlist n x'))) =
                  f (args_at h (replace_nth i (x i + rv_stdv (margs h i) / o_ffdpara o) (vlist n x)))).
      { apply HF; rewrite ?length_replace; try apply len_vlist. intros k Hk. rewrite !nth_replace by (rewrite len_vlist; exact Hi).
        destruct (Nat.eqb_spec k i) as [->|Nk]; [rewrite E by exact Hi; unfold Rdiv; ring|]. rewrite !nth_vlist by exact Hk. now apply E. }
      rewrite W. field. assert (a i <> 0) by lra. repeat split; assumption.
    + now rewrite (CT h _ _ _ _ D1), (CT h' _ _ _ _ D2).
Qed.

Variables (T A : mat) (inv : nat -> mat -> result mat) (e0 : exn).
Hypothesis HI : inv_total n inv e0.

Lemma x_units u u' i : veq n u' u -> (i < n)%nat -> u_to_x n A m' u' i = a i * u_to_x n A m u i + b i.
Proof.
  intros Hu Hi. unfold u_to_x. cbv zeta. destruct (un_at i Hi) as (_ & _ & _ & _ & _ & _ & E & _). rewrite E.
  rewrite (mvec_ext n A u' u Hu i). reflexivity.
Qed.

Definition dcol (J : mat) : mat := fun k i => J k i / a i.
Definition drow (J : mat) : mat := fun i k => a i * J i k.
Lemma drow_inv J K : inverse_pair n J K -> inverse_pair n (drow J) (dcol K).
Proof.
  intros [H1 H2]. split; intros i j Hi Hj.
  - unfold mmul, drow, dcol. rewrite (fsum_ext n _ (fun k => (a i / a j) * (J i k * K k j))) by (intros k _; field; now apply un_a).
    rewrite fsum_scal. specialize (H1 i j Hi Hj). unfold mmul in H1. rewrite H1. unfold meye, delta. destruct (Nat.eqb_spec i j) as [->|_]; [field; now apply un_a|ring].
  - unfold mmul, drow, dcol. rewrite (fsum_ext n _ (fun k => K i k * J k j)) by (intros k Hk; field; now apply un_a). exact (H2 i j Hi Hj).
Qed.
Lemma dcol_inv J K : inverse_pair n J (dcol K) -> inverse_pair n (fun i k => J i k / a i) K.
Proof.
  intros [H1 H2]. split; intros i j Hi Hj.
  - unfold mmul. rewrite (fsum_ext n _ (fun k => (a j / a i) * (J i k * dcol K k j))) by (intros k _; unfold dcol; field; split; now apply un_a).
    rewrite fsum_scal. specialize (H1 i j Hi Hj). unfold mmul in H1. rewrite H1. unfold meye, delta. destruct (Nat.eqb_spec i j) as [->|_]; [field; now apply un_a|ring].
  - unfold mmul. rewrite (fsum_ext n _ (fun k => dcol K i k * J k j)) by (intros k Hk; unfold dcol; field; now apply un_a). exact (H2 i j Hi Hj).
Qed.

Lemma jac_units u u' : veq n u' u -> meq n (jacobian n T A m' u' (u_to_x n A m' u')) (dcol (jacobian n T A m u (u_to_x n A m u))).
Proof.
  intros Hu k i Hk Hi. unfold jacobian, dcol, mmul. unfold Rdiv. rewrite <- fsum_scal_r. apply fsum_ext. intros l Hl.
  unfold jac_diag. cbv zeta. rewrite (mvec_ext n A u' u Hu l). destruct (Nat.eqb_spec l i) as [->|N]; [|ring].
  destruct (un_at i Hi) as (_ & _ & _ & _ & _ & _ & _ & _ & E).
  assert (X : u_to_x n A m' u' i = rv_u2x (m' i) (mvec n A u i)) by (unfold u_to_x; cbv zeta; now rewrite (mvec_ext n A u' u Hu i)).
  rewrite X, E. unfold u_to_x. cbv zeta. unfold Rdiv. ring.
Qed.

Lemma ev_units : ev_rot n meye (form_ev lf (sm_run h) expr o n T A inv m) (form_ev lf (sm_run h') expr' o n T A inv m').
Proof.
  intros u u' H. assert (Hu : veq n u' u) by (intros i Hi; rewrite (H i Hi); apply mvec_eye; exact Hi).
  unfold form_ev. cbv zeta. unfold computeTransformation.
  set (x := u_to_x n A m u). set (x' := u_to_x n A m' u').
  assert (EJ := jac_units u u' Hu). fold x x' in EJ. set (Ja := jacobian n T A m u x) in *. set (Ja' := jacobian n T A m' u' x') in *.
  destruct HI as (I1 & I2 & I3).
  destruct (lsf_units x x') as (G & gr & gr' & L1 & L2 & LG & LC); [intros i Hi; now apply x_units|]. rewrite L1, L2, LC.
  destruct (inv n Ja) as [J|e] eqn:E1; destruct (inv n Ja') as [J'|e'] eqn:E2.
  - split; [reflexivity|]. split; [|reflexivity]. cbn [nth].
    assert (PJ : inverse_pair n J Ja) by (apply I1; exact E1). assert (PJ' : inverse_pair n J' Ja') by (apply I1; exact E2).
    assert (U : meq n J' (drow J)).
    { apply (inverse_unique n Ja'); [apply inverse_sym; exact PJ'|]. apply (fun P => inverse_sym n _ _ (inverse_meq n _ _ _ (meq_sym _ _ _ EJ) P)).
      apply drow_inv. exact PJ. }
    intros j Hj. rewrite mvec_eye by exact Hj. unfold pull_gradient. 
    apply fsum_ext. intros i Hi. rewrite (U i j Hi Hj). unfold drow, vof. rewrite (LG i Hi). field. now apply un_a.
  - exfalso. assert (PJ : inverse_pair n J Ja) by (apply I1; exact E1).
    destruct (I2 Ja' (drow J)) as [C HC]; [|congruence].
    apply (inverse_meq n _ _ _ (meq_sym _ _ _ EJ)). apply drow_inv, PJ.
  - exfalso. assert (PJ : inverse_pair n J' Ja') by (apply I1; exact E2).
    assert (PJ2 : inverse_pair n J' (dcol Ja)) by (apply (inverse_meq n _ _ _ EJ PJ)).
    destruct (I2 Ja _ (dcol_inv _ _ PJ2)) as [C HC]. congruence.
  - split; [|reflexivity]. rewrite (I3 _ _ E1), (I3 _ _ E2). reflexivity.
Qed.

Lemma trial_units us us' : (length us < lf)%nat -> Forall2 (rot n meye) us us' -> form_trial lf (sm_run h') expr' o n A m' us' = form_trial lf (sm_run h) expr o n A m us.
Proof.
  clear Hddm Hff Hlf.
  intros HL F. pose proof un_n as N. pose proof un_n' as N'. unfold form_trial. cbv zeta.
  assert (LL : length us' = length us) by (clear - F; induction F; cbn; congruence).
  set (X := map (fun u => vlist n (u_to_x n A m u)) us). set (X' := map (fun u => vlist n (u_to_x n A m' u)) us').
  assert (D : forall g ex fu Y, pointwise ex fu -> ndists g = n -> points_ok n Y -> (length Y < lf)%nat -> ev_out (evaluate_lsf lf (sm_run g) ex o (Some "no"%string) n Y) = ODone (map (fun p => fu (args_at g p)) Y) (repeat (repeat 0 n) (length Y))).
  { intros g ex fu Y Hp Hg HY HYl. pose proof (dispatch_nogradient lf g ex fu o (Some "no"%string) Y Hmp (or_introl (ex_intro _ _ eq_refl)) Hp) as D. rewrite Hg in D. now apply D. }
  assert (O1 : points_ok n X) by (intros q Hq; apply in_map_iff in Hq; destruct Hq as (z & <- & _); apply len_vlist).
  assert (O2 : points_ok n X') by (intros q Hq; apply in_map_iff in Hq; destruct Hq as (z & <- & _); apply len_vlist).
  assert (LX : length X = length us) by (unfold X; apply map_length). assert (LX' : length X' = length us) by (unfold X'; rewrite map_length; exact LL).
  assert (D1 := D h expr f X Hpt N O1 ltac:(lia)). assert (D2 := D h' expr' f' X' Hpt' N' O2 ltac:(lia)). rewrite D1, D2.
  assert (C1 := accounting_counts lf (sm_run h) expr o (Some "no"%string) n X _ _ ltac:(lia) D1). assert (C2 := accounting_counts lf (sm_run h') expr' o (Some "no"%string) n X' _ _ ltac:(lia) D2).
  cbv zeta in C1, C2. rewrite C1, C2, LX, LX'. f_equal; [|lia]. f_equal. unfold X, X'. rewrite !map_map.
  assert (Z : Forall2 (fun u u' => veq n u' u) us us').
  { clear - F. induction F as [|u u' us us' H F IH]; constructor; [|exact IH]. intros i Hi. rewrite (H i Hi). now apply mvec_eye. }
  clear - Z HU HF. induction Z as [|u u' us us' H F IH]; [reflexivity|]. cbn [map]. rewrite IH. f_equal.
  apply HF; try apply len_vlist. intros i Hi. rewrite !nth_vlist by exact Hi. now apply x_units.
Qed.

Lemma start_units : rot n meye (computeStartingPoint n T m) (computeStartingPoint n T m').
Proof.
  intros k Hk. rewrite mvec_eye by exact Hk. unfold computeStartingPoint, x_to_u, mvec. cbv zeta.
  apply fsum_ext. intros i Hi. destruct (un_at i Hi) as (_ & _ & _ & _ & _ & _ & _ & E & _). now rewrite E.
Qed.
End Units.
