From Coquelicot Require Import Coquelicot.
From Verif Require Import Base Ext Gauss GaussProofs StochModel StochModelSpec LimitState LimitStateSpec LimitStateProofs
  Transf TransfSpec TransfProofs GramSchmidt GramSchmidtProofs Sorm.
From Coq Require Import ZArith Permutation.

(** *** C19 *)
Lemma ddm_keeps_x s expr n x : ev_x (evaluate_ddm s expr n x) = x.
Proof. unfold evaluate_ddm. destruct (ddm_loop _ _ _ _ _ _ _ _ _) as [[[G g]|e] tr]; reflexivity. Qed.

Lemma eval_ddm fuel h expr o p G g T invT inv m :
  o_multi_proc o <> 0%Z -> o_diff_mode o = "ddm"%string ->
  length p = ndists h -> length g = ndists h ->
  (forall kw, Permutation (map fst kw) (sm_names (sm_run h)) ->
     (forall i d, nth_error (dists_of (accepted h)) i = Some d -> dict_get kw (rv_name d) = Some [nth i p 0]) ->
     (forall n v, In (n, v) (consts_of (accepted h)) -> dict_get kw n = Some [v]) ->
     expr kw = Ok (UTuple (Arr [G]) g)) ->
  let n := ndists h in
  sorm_evaluateLSF fuel (sm_run h) expr o n T invT inv m p =
    rbind (inv n (jacobian n T invT m (x_to_u n T m (vof p)) (vof p))) (fun J =>
      Ok (G, pull_gradient n (vof g) J)).
Proof.
  intros Hm Hd Hp Hg He n. unfold sorm_evaluateLSF, n.
  rewrite (dispatch_ddm fuel h expr o p G g Hm Hd Hp Hg He).
  assert (Ex : ev_x (evaluate_lsf fuel (sm_run h) expr o None (ndists h) [p]) = [p]).
  { unfold evaluate_lsf. destruct (Z.eqb_spec (o_multi_proc o) 0); [contradiction|]. rewrite Hd.
    cbn [String.eqb Ascii.eqb Bool.eqb]. apply ddm_keeps_x. }
  rewrite Ex. reflexivity.
Qed.

Lemma eval_ffd fuel h expr f o p T invT inv m :
  o_multi_proc o <> 0%Z -> o_diff_mode o <> "no"%string -> o_diff_mode o <> "ddm"%string ->
  pointwise expr f -> (1 <= ndists h)%nat -> length p = ndists h -> (1 <= o_block_size o)%Z ->
  (S (length p) < fuel)%nat ->
  let n := ndists h in
  let F := fun q => f (args_at h q) in
  let st := fun j => nth j (map (fun d => rv_stdv d / o_ffdpara o) (dists_of (accepted h))) 0 in
  let xh := vof (map (fun j => nth j p 0 + st j) (seq 0 n)) in
  let fd := vof (map (fun j => (F (replace_nth j (nth j p 0 + st j) p) - F p) / st j) (seq 0 n)) in
  sorm_evaluateLSF fuel (sm_run h) expr o n T invT inv m p =
    rbind (inv n (jacobian n T invT m (x_to_u n T m xh) xh)) (fun J => Ok (F p, pull_gradient n fd J)).
Proof.
  intros Hm H1 H2 Hp Hn Hl Hb Hf n F st xh fd. unfold sorm_evaluateLSF.
  unfold n in *. rewrite (dispatch_ffd fuel h expr f o p Hm H1 H2 Hp Hn Hl Hb Hf).
  assert (Ex : ev_x (evaluate_lsf fuel (sm_run h) expr o None (ndists h) [p]) =
     [map (fun j => nth j p 0 + st j) (seq 0 (ndists h))]).
  { unfold evaluate_lsf. destruct (Z.eqb_spec (o_multi_proc o) 0); [contradiction|].
    destruct (String.eqb_spec (o_diff_mode o) "no"); [contradiction|].
    destruct (String.eqb_spec (o_diff_mode o) "ddm"); [contradiction|].
    apply (ffd_one_point h expr f p (o_block_size o) (o_ffdpara o) fuel); assumption. }
  rewrite Ex. reflexivity.
Qed.

Lemma jac_at_consistent n T invT m x i j : inverse_pair n T invT -> (j < n)%nat ->
  jacobian n T invT m (x_to_u n T m x) x i j = T i j * rv_jac (m j) (rv_x2u (m j) (x j)) (x j).
Proof.
  intros [_ H] Hj. rewrite jacobian_entry by exact Hj.
  unfold x_to_u. rewrite (mvec_inv n invT T (fun k => rv_x2u (m k) (x k)) j H Hj). reflexivity.
Qed.

Lemma pull_ext n g g' J J' : (forall i, (i < n)%nat -> g i = g' i) -> meq n J J' -> veq n (pull_gradient n g J) (pull_gradient n g' J').
Proof.
  intros Hg HJ j Hj. unfold pull_gradient. apply fsum_ext. intros i Hi. rewrite Hg, HJ by assumption. reflexivity.
Qed.

Lemma meq_inverse n A A' B B' : meq n A A' -> inverse_pair n B A -> inverse_pair n B' A' -> meq n B B'.
Proof.
  intros HA [H1 H1'] [H2 H2'].
  assert (HB : inverse_pair n A B) by (split; assumption).
  apply (inverse_unique n A B B' HB). split.
  - intros i j Hi Hj. rewrite <- (H2' i j Hi Hj). unfold mmul. apply fsum_ext. intros k Hk. rewrite HA by assumption. reflexivity.
  - intros i j Hi Hj. rewrite <- (H2 i j Hi Hj). unfold mmul. apply fsum_ext. intros k Hk. rewrite HA by assumption. reflexivity.
Qed.

(** constant marginal Jacobians (all-normal models): the shift is harmless *)
Lemma const_jac_agree n T invT inv m (c : vec) x x' g J J' :
  inverse_pair n T invT -> inv_contract n inv ->
  (forall j, (j < n)%nat -> forall y, rv_jac (m j) (rv_x2u (m j) y) y = c j) ->
  inv n (jacobian n T invT m (x_to_u n T m x') x') = Ok J' ->
  inv n (jacobian n T invT m (x_to_u n T m x) x) = Ok J ->
  veq n (pull_gradient n g J') (pull_gradient n g J).
Proof.
  intros HT HI Hc E' E. apply pull_ext; [reflexivity|].
  apply (meq_inverse n (jacobian n T invT m (x_to_u n T m x') x') (jacobian n T invT m (x_to_u n T m x) x)).
  - intros i j Hi Hj. rewrite !jac_at_consistent by assumption. rewrite !Hc by exact Hj. reflexivity.
  - apply HI. exact E'.
  - apply HI. exact E.
Qed.

(** uncorrelated lognormals *)
Lemma lognormal_pull n inv m (zeta : vec) x g J :
  inv_contract n inv ->
  (forall j, (j < n)%nat -> zeta j <> 0 /\ x j <> 0) ->
  (forall j, (j < n)%nat -> rv_jac (m j) (rv_x2u (m j) (x j)) (x j) = / (zeta j * x j)) ->
  inv n (jacobian n meye meye m (x_to_u n meye m x) x) = Ok J ->
  veq n (pull_gradient n g J) (fun j => g j * (zeta j * x j)).
Proof.
  intros HI Hz Hj E.
  assert (HE : inverse_pair n meye meye) by (split; intros a b Ha Hb; apply mmul_eye_l; assumption).
  apply HI in E.
  assert (HJ : meq n J (fun a b => delta a b * (zeta b * x b))).
  { apply (meq_inverse n (jacobian n meye meye m (x_to_u n meye m x) x) (fun a b => delta a b * / (zeta b * x b))).
    - intros a b Ha Hb. rewrite jac_at_consistent by assumption. rewrite Hj by exact Hb. reflexivity.
    - exact E.
    - split; intros a b Ha Hb; unfold mmul.
      + rewrite (fsum_ext n _ (fun k => delta a k * (zeta k * x k * (delta k b * / (zeta b * x b))))) by (intros; ring).
        rewrite fsum_delta by exact Ha. unfold meye, delta. destruct (Nat.eqb_spec a b) as [->|]; [|ring].
        destruct (Hz b Hb). field. split; assumption.
      + rewrite (fsum_ext n _ (fun k => delta a k * (/ (zeta k * x k) * (delta k b * (zeta b * x b))))) by (intros; ring).
        rewrite fsum_delta by exact Ha. unfold meye, delta. destruct (Nat.eqb_spec a b) as [->|]; [|ring].
        destruct (Hz b Hb). field. split; assumption. }
  intros j Hjn. unfold pull_gradient.
  rewrite (fsum_ext n _ (fun i => (g i * (zeta j * x j)) * delta i j)).
  - rewrite fsum_delta_r by exact Hjn. reflexivity.
  - intros i Hi. rewrite HJ by assumption. ring.
Qed.

(** *** C20 *)
Lemma hess_mixed_raises fuel s expr o n h u0 tox G :
  o_multi_proc o <> 0%Z -> o_diff_mode o <> "no"%string -> (1 <= n)%nat ->
  exists e, hess_mixed fuel s expr o n h u0 tox G = Err e.
Proof.
  intros Hm Hd Hn. unfold hess_mixed, mixed_points.
  destruct n as [|n]; [lia|]. cbn [seq map].
  set (b := both_cols _ _ _ _). cbn [app].
  set (p := tox _). set (r := map _ (seq 1 n)).
  destruct r as [|q r'] eqn:Er.
  - cbn [app]. destruct (dispatch_many fuel s expr o (S n) p (tox (u_minus h u0 0)) (map (fun i => tox (u_minus h u0 i)) (seq 1 n) ++ b) Hm Hd ltac:(lia)) as (e & E & _).
    rewrite E. exists e. reflexivity.
  - cbn [app]. destruct (dispatch_many fuel s expr o (S n) p q (r' ++ tox (u_minus h u0 0) :: map (fun i => tox (u_minus h u0 i)) (seq 1 n) ++ b) Hm Hd ltac:(lia)) as (e & E & _).
    rewrite E. exists e. reflexivity.
Qed.

Definition pairs (n : nat) : list (nat * nat) := flat_map (fun i => map (fun j => (i, j)) (seq 0 i)) (seq 0 n).

Lemma pairs_S n : pairs (S n) = pairs n ++ map (fun j => (n, j)) (seq 0 n).
Proof. unfold pairs. rewrite seq_S, flat_map_app. cbn [flat_map]. rewrite app_nil_r. reflexivity. Qed.

Definition tri (n : nat) : nat := (n * (n - 1) / 2)%nat.

Lemma tri_S n : tri (S n) = (tri n + n)%nat.
Proof.
  unfold tri. destruct n as [|n]; [reflexivity|].
  replace (S (S n) * (S (S n) - 1))%nat with (S n * (S n - 1) + S n * 2)%nat by (simpl; lia).
  rewrite Nat.div_add by lia. reflexivity.
Qed.

Lemma pairs_length n : length (pairs n) = tri n.
Proof. induction n as [|n IH]; [reflexivity|]. rewrite pairs_S, app_length, map_length, seq_length, IH, tri_S. reflexivity. Qed.

Lemma both_idx_tri i j : both_idx i j = (tri i + j)%nat.
Proof. unfold both_idx, tri. f_equal. f_equal. lia. Qed.

Lemma skipn_skipn {A} (l : list A) : forall a b, skipn a (skipn b l) = skipn (a + b) l.
Proof.
  induction l as [|x l IH]; intros a b; [rewrite !skipn_nil; reflexivity|].
  destruct b as [|b]; [rewrite Nat.add_0_r; reflexivity|].
  rewrite Nat.add_succ_r. cbn [skipn]. apply IH.
Qed.

Section Both.
  Variable A : Type.
  Variable v : nat * nat -> A.
  Let put := fun (cols : list A) (ij : nat * nat) => firstn (both_idx (fst ij) (snd ij)) cols ++ v ij :: skipn (S (both_idx (fst ij) (snd ij))) cols.

  Lemma put_row n B C m : length B = tri n -> (m <= n)%nat -> (m <= length C)%nat ->
    fold_left put (map (fun j => (n, j)) (seq 0 m)) (B ++ C) = B ++ map v (map (fun j => (n, j)) (seq 0 m)) ++ skipn m C.
  Proof.
    intros HB. induction m as [|m IH]; intros Hm HC; [reflexivity|].
    rewrite seq_S, !map_app, fold_left_app, IH by lia. cbn [map fold_left]. unfold put. cbn [fst snd].
    rewrite both_idx_tri. rewrite Nat.add_0_l.
    set (V := map v (map (fun j => (n, j)) (seq 0 m))).
    assert (HV : length V = m) by (unfold V; rewrite !map_length, seq_length; reflexivity).
    rewrite app_assoc.
    replace (tri n + m)%nat with (length (B ++ V)) by (rewrite app_length; lia).
    rewrite firstn_app, firstn_all, Nat.sub_diag, firstn_O, app_nil_r.
    replace (S (length (B ++ V))) with (length (B ++ V) + 1)%nat by lia.
    rewrite skipn_app. rewrite skipn_all2 by lia.
    replace (length (B ++ V) + 1 - length (B ++ V))%nat with 1%nat by lia.
    cbn [app]. rewrite <- !app_assoc. f_equal. f_equal. cbn [app]. f_equal.
    rewrite skipn_skipn. f_equal. 
  Qed.

  Lemma put_all n C : (tri n <= length C)%nat ->
    fold_left put (pairs n) C = map v (pairs n) ++ skipn (tri n) C.
  Proof.
    induction n as [|n IH]; intros H; [reflexivity|].
    rewrite tri_S in *. rewrite pairs_S, fold_left_app, IH by lia.
    rewrite (put_row n (map v (pairs n)) (skipn (tri n) C) n).
    - rewrite map_app, <- app_assoc. f_equal. f_equal. rewrite skipn_skipn. f_equal. lia.
    - rewrite map_length. apply pairs_length.
    - lia.
    - rewrite skipn_length. lia.
  Qed.
End Both.

Lemma both_cols_eq n h u0 tox : both_cols n h u0 tox =
  map (fun ij => tox (u_plus h (u_plus h u0 (fst ij)) (snd ij))) (pairs n).
Proof.
  unfold both_cols. fold (pairs n). fold (tri n).
  assert (E : forall (cols : list (list R)) (ij : nat * nat), (let '(i, j) := ij in
      firstn (both_idx i j) cols ++ tox (u_plus h (u_plus h u0 i) j) :: skipn (S (both_idx i j)) cols) =
     firstn (both_idx (fst ij) (snd ij)) cols ++ tox (u_plus h (u_plus h u0 (fst ij)) (snd ij)) :: skipn (S (both_idx (fst ij) (snd ij))) cols).
  { intros cols [i j]. reflexivity. }
  transitivity (fold_left (fun cols ij => firstn (both_idx (fst ij) (snd ij)) cols ++ tox (u_plus h (u_plus h u0 (fst ij)) (snd ij)) :: skipn (S (both_idx (fst ij) (snd ij))) cols) (pairs n) (repeat (repeat 0 n) (tri n))).
  - assert (G : forall l c, fold_left (fun cols ij => let '(i, j) := ij in
      firstn (both_idx i j) cols ++ tox (u_plus h (u_plus h u0 i) j) :: skipn (S (both_idx i j)) cols) l c =
      fold_left (fun cols ij => firstn (both_idx (fst ij) (snd ij)) cols ++ tox (u_plus h (u_plus h u0 (fst ij)) (snd ij)) :: skipn (S (both_idx (fst ij) (snd ij))) cols) l c).
    { induction l as [|a l IH]; intros c; [reflexivity|]. cbn [fold_left]. rewrite E. apply IH. }
    apply G.
  - rewrite (put_all (list R) (fun ij => tox (u_plus h (u_plus h u0 (fst ij)) (snd ij)))).
    + rewrite skipn_all2; [apply app_nil_r|]. rewrite repeat_length. lia.
    + rewrite repeat_length. lia.
Qed.

Lemma pairs_nth n i j d : (j < i)%nat -> (i < n)%nat -> nth (both_idx i j) (pairs n) d = (i, j).
Proof.
  intros Hj Hi. induction n as [|n IH]; [lia|]. rewrite pairs_S, both_idx_tri.
  destruct (Nat.eq_dec i n) as [->|Ni].
  - rewrite app_nth2; rewrite pairs_length; [|lia]. replace (tri n + j - tri n)%nat with j by lia.
    rewrite (nth_indep _ d (n, n)) by (rewrite map_length, seq_length; lia).
    change (n, n) with ((fun j => (n, j)) n). rewrite map_nth, seq_nth by lia. reflexivity.
  - rewrite app_nth1.
    + rewrite <- both_idx_tri. apply IH. lia.
    + rewrite pairs_length. assert (tri (S i) <= tri n)%nat; [|rewrite tri_S in H; lia].
      assert (Hm : forall a b, (a <= b)%nat -> (tri a <= tri b)%nat).
      { intros a b Hab. induction Hab; [lia|]. rewrite tri_S. lia. }
      apply Hm. lia.
Qed.

Lemma both_idx_lt n i j : (j < i)%nat -> (i < n)%nat -> (both_idx i j < tri n)%nat.
Proof.
  intros Hj Hi. rewrite both_idx_tri. assert (tri (S i) <= tri n)%nat; [|rewrite tri_S in H; lia].
  assert (Hm : forall a b, (a <= b)%nat -> (tri a <= tri b)%nat).
  { intros a b Hab. induction Hab; [lia|]. rewrite tri_S. lia. }
  apply Hm. lia.
Qed.

Lemma hess_mixed_no_mode fuel h expr f o hh u0 tox :
  o_multi_proc o <> 0%Z -> o_diff_mode o = "no"%string -> pointwise expr f -> (1 <= ndists h)%nat ->
  (forall u, length (tox u) = ndists h) -> (1 <= o_block_size o)%Z ->
  (2 * ndists h + ndists h * (ndists h - 1) / 2 < fuel)%nat ->
  let n := ndists h in
  let F := fun u => f (args_at h (tox u)) in
  forall G, exists H, hess_mixed fuel (sm_run h) expr o n hh u0 tox G = Ok H /\
    (forall i, (i < n)%nat -> H i i = (F (u_plus hh u0 i) - 2 * G + F (u_minus hh u0 i)) / (hh * hh)) /\
    (forall i j, (j < i)%nat -> (i < n)%nat ->
       H i j = (F (u_plus hh (u_plus hh u0 i) j) - F (u_plus hh u0 j) - F (u_plus hh u0 i) + G) / (hh * hh) /\ H j i = H i j).
Proof.
  intros Hm Hd Hp Hn Ht Hb Hf n F G. unfold hess_mixed.
  set (pts := mixed_points n hh u0 tox).
  assert (Hlen : length pts = (2 * n + tri n)%nat).
  { unfold pts, mixed_points. rewrite both_cols_eq, !app_length, !map_length, seq_length, pairs_length. lia. }
  assert (Hpts : points_ok (ndists h) pts).
  { intros p Hin. unfold pts, mixed_points in Hin. rewrite both_cols_eq in Hin.
    rewrite !in_app_iff, !in_map_iff in Hin. destruct Hin as [(i & <- & _)|[(i & <- & _)|(i & <- & _)]]; apply Ht. }
  unfold n in *. rewrite (dispatch_nogradient fuel h expr f o None pts Hm (or_intror Hd) Hp Hn Hpts Hb) by (rewrite Hlen; exact Hf).
  set (n' := ndists h) in *.
  eexists. split; [reflexivity|].
  assert (P1 : forall i, (i < n')%nat -> nth i (map (fun p => f (args_at h p)) pts) 0 = F (u_plus hh u0 i)).
  { intros i Hi. rewrite (nth_indep _ 0 (f (args_at h (tox u0)))) by (rewrite map_length, Hlen; lia).
    rewrite (map_nth (fun p => f (args_at h p))). unfold pts, mixed_points. rewrite app_nth1 by (rewrite map_length, seq_length; exact Hi).
    unfold F. f_equal. f_equal. rewrite (nth_indep _ _ (tox (u_plus hh u0 0))) by (rewrite map_length, seq_length; exact Hi).
    rewrite (map_nth (fun i => tox (u_plus hh u0 i))), seq_nth by exact Hi. reflexivity. }
  assert (P2 : forall i, (i < n')%nat -> nth (n' + i) (map (fun p => f (args_at h p)) pts) 0 = F (u_minus hh u0 i)).
  { intros i Hi. rewrite (nth_indep _ 0 (f (args_at h (tox u0)))) by (rewrite map_length, Hlen; lia).
    rewrite (map_nth (fun p => f (args_at h p))). unfold pts, mixed_points. rewrite app_nth2 by (rewrite map_length, seq_length; lia).
    rewrite map_length, seq_length. replace (n' + i - n')%nat with i by lia.
    rewrite app_nth1 by (rewrite map_length, seq_length; exact Hi).
    unfold F. f_equal. f_equal. rewrite (nth_indep _ _ (tox (u_minus hh u0 0))) by (rewrite map_length, seq_length; exact Hi).
    rewrite (map_nth (fun i => tox (u_minus hh u0 i))), seq_nth by exact Hi. reflexivity. }
  assert (P3 : forall i j, (j < i)%nat -> (i < n')%nat -> nth (2 * n' + both_idx i j) (map (fun p => f (args_at h p)) pts) 0
     = F (u_plus hh (u_plus hh u0 i) j)).
  { intros i j Hj Hi. pose proof (both_idx_lt n' i j Hj Hi) as Hlt.
    rewrite (nth_indep _ 0 (f (args_at h (tox u0)))) by (rewrite map_length, Hlen; lia).
    rewrite (map_nth (fun p => f (args_at h p))). unfold pts, mixed_points. rewrite app_nth2 by (rewrite map_length, seq_length; lia).
    rewrite map_length, seq_length. rewrite app_nth2 by (rewrite map_length, seq_length; lia).
    rewrite map_length, seq_length. replace (2 * n' + both_idx i j - n' - n')%nat with (both_idx i j) by lia.
    rewrite both_cols_eq. unfold F. f_equal. f_equal.
    set (fv := fun ij : nat * nat => tox (u_plus hh (u_plus hh u0 (fst ij)) (snd ij))).
    rewrite (nth_indep _ _ (fv (0%nat, 0%nat))) by (rewrite map_length, pairs_length; exact Hlt).
    rewrite (map_nth fv), pairs_nth by assumption. reflexivity. }
  split.
  - intros i Hi. cbv beta zeta. rewrite Nat.eqb_refl, P1, P2 by exact Hi. reflexivity.
  - intros i j Hj Hi. cbv beta zeta.
    destruct (Nat.eqb_spec i j); [lia|]. destruct (Nat.eqb_spec j i); [lia|].
    destruct (Nat.ltb_spec j i); [|lia]. destruct (Nat.ltb_spec i j); [lia|].
    rewrite P3, !P1 by lia. split; reflexivity.
Qed.

(** *** gradient-based Hessian *)
Lemma hess_grad_affine n eg h u0 (b : vec) (Q : mat) : h <> 0 ->
  (forall u a, (a < n)%nat -> eg u a = b a + fsum n (fun c => Q a c * u c)) ->
  forall a i, (a < n)%nat -> (i < n)%nat -> hess_grad n eg h u0 a i = Q a i.
Proof.
  intros Hh Heg a i Ha Hi. unfold hess_grad. cbv zeta. rewrite !Heg by exact Ha.
  assert (E : fsum n (fun c => Q a c * (if Nat.eqb c i then u0 c + h else u0 c)) = fsum n (fun c => Q a c * u0 c) + Q a i * h).
  { rewrite (fsum_ext n _ (fun c => Q a c * u0 c + delta i c * (Q a c * h))).
    - rewrite fsum_plus, fsum_delta by exact Hi. reflexivity.
    - intros c Hc. unfold delta. rewrite (Nat.eqb_sym i c). destruct (Nat.eqb_spec c i); ring. }
  rewrite E. field. exact Hh.
Qed.

Lemma mmul3 n R1 Q i j : mmul n (mmul n R1 Q) (mtrans R1) i j = fsum n (fun b => fsum n (fun a => R1 i a * Q a b) * R1 j b).
Proof. reflexivity. Qed.

Lemma paraboloid_curvatures n R1 (kappa : vec) eg h beta u0 :
  (1 <= n)%nat -> h <> 0 ->
  (forall i j, (i < n)%nat -> (j < n)%nat -> dot n (fun a => R1 i a) (fun a => R1 j a) = delta i j) ->
  (forall u a, (a < n)%nat ->
     eg u a = - R1 (n - 1)%nat a + fsum (n - 1) (fun k => kappa k * mvec n R1 u k * R1 k a)) ->
  let ustar : vec := fun a => beta * R1 (n - 1)%nat a in
  forall i j, (i < n - 1)%nat -> (j < n - 1)%nat ->
  curvature_matrix n R1 (hess_grad n eg h u0) (eg ustar) i j = if Nat.eqb i j then kappa i else 0.
Proof.
  intros Hn Hh HR Heg ustar i j Hi Hj.
  set (Q := fun a c => fsum (n - 1) (fun k => kappa k * R1 k a * R1 k c)).
  assert (HQ : forall a c, (a < n)%nat -> (c < n)%nat -> hess_grad n eg h u0 a c = Q a c).
  { apply (hess_grad_affine n eg h u0 (fun a => - R1 (n - 1)%nat a) Q Hh).
    intros u a Ha. rewrite Heg by exact Ha. f_equal. unfold Q, mvec.
    rewrite (fsum_ext n _ (fun c => fsum (n - 1) (fun k => kappa k * R1 k a * R1 k c * u c))).
    2:{ intros c _. rewrite <- fsum_scal_r. reflexivity. }
    rewrite fsum_swap. apply fsum_ext. intros k _.
    rewrite (fsum_ext n (fun c => kappa k * R1 k a * R1 k c * u c) (fun c => (kappa k * R1 k a) * (R1 k c * u c))) by (intros; ring).
    rewrite fsum_scal. ring. }
  assert (Nrm : norm n (eg ustar) = 1).
  { unfold norm. replace (dot n (eg ustar) (eg ustar)) with 1; [apply sqrt_1|].
    transitivity (dot n (fun a => R1 (n - 1)%nat a) (fun a => R1 (n - 1)%nat a)).
    - rewrite HR by lia. unfold delta. rewrite Nat.eqb_refl. reflexivity.
    - unfold dot. apply fsum_ext. intros a Ha. rewrite Heg by exact Ha.
      rewrite (fsum_zero (n - 1)); [ring|]. intros k Hk.
      assert (E : mvec n R1 ustar k = 0).
      { unfold mvec, ustar. rewrite (fsum_ext n _ (fun c => beta * (R1 k c * R1 (n - 1)%nat c))) by (intros; ring).
        rewrite fsum_scal. assert (D := HR k (n - 1)%nat ltac:(lia) ltac:(lia)). unfold dot in D. rewrite D.
        unfold delta. destruct (Nat.eqb_spec k (n - 1)); [lia|]. ring. }
      rewrite E. ring. }
  unfold curvature_matrix. rewrite Nrm, mmul3.
  rewrite (fsum_ext n _ (fun b => fsum (n - 1) (fun k => delta i k * (kappa k * (R1 k b * R1 j b))))).
  - rewrite fsum_swap.
    rewrite (fsum_ext (n - 1) _ (fun k => delta i k * (kappa k * delta k j))).
    + rewrite fsum_delta by exact Hi. unfold delta. destruct (Nat.eqb i j); field.
    + intros k Hk. rewrite fsum_scal, fsum_scal. assert (D := HR k j ltac:(lia) ltac:(lia)). unfold dot in D. rewrite D. reflexivity.
  - intros b Hb. rewrite (fsum_ext n _ (fun a => fsum (n - 1) (fun k => R1 i a * R1 k a * (kappa k * R1 k b)))).
    + rewrite fsum_swap. rewrite <- fsum_scal_r. apply fsum_ext. intros k Hk.
      rewrite (fsum_scal_r n (kappa k * R1 k b) (fun a => R1 i a * R1 k a)).
      assert (D := HR i k ltac:(lia) ltac:(lia)). unfold dot in D. rewrite D. ring.
    + intros a Ha. rewrite HQ by assumption. unfold Q. rewrite <- fsum_scal. apply fsum_ext. intros k _. ring.
Qed.
