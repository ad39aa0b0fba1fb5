(** Property theorems C03 - C08. *)
From Verif Require Import Base StochModel StochModelSpec LimitState LimitStateSpec LimitStateProofs.
From Coq Require Import ZArith Permutation.
Open Scope string_scope.

(** C03: whatever the history h of the model object, a call passes one
    dictionary kw, the same for every user function. *)
Theorem C03_argument_binding : forall (h : list smop) (nrv : nat) (cols : list (list R)),
  (ndists h <= nrv)%nat ->
  exists kw,
    (forall expr, compute_lsf (sm_run h) expr nrv cols false =
       match expr kw with Ok out => Ok (value_of out, []) | Err e => Err e end) /\
    Permutation (map fst kw) (sm_names (sm_run h)) /\ NoDup (map fst kw) /\
    (forall i d, nth_error (dists_of (accepted h)) i = Some d ->
       dict_get kw (rv_name d) = Some (map (fun p => nth i p 0) cols)) /\
    (forall n v, In (n, v) (consts_of (accepted h)) ->
       dict_get kw n = Some (repeat v (List.length cols))).
Proof. exact binding_received. Qed.
Print Assumptions C03_argument_binding.

(** C04 *)
Theorem C04_block_size_irrelevant : forall h expr f x fuel bs,
  pointwise expr f -> (1 <= ndists h)%nat -> points_ok (ndists h) x -> (1 <= bs)%Z ->
  (List.length x < fuel)%nat ->
  let r := evaluate_nogradient fuel (sm_run h) expr bs (ndists h) x in
  ev_out r = ODone (map (fun p => f (args_at h p)) x) (repeat (repeat 0 (ndists h)) (List.length x)) /\
  ev_x r = x /\ concat (ev_trace r) = x /\
  (forall b, In b (ev_trace r) -> (1 <= List.length b)%nat /\ (Z.of_nat (List.length b) <= bs)%Z) /\
  sm_calls (ev_s r) = (sm_calls (sm_run h) + List.length x)%nat.
Proof. exact nogradient_spec. Qed.
Print Assumptions C04_block_size_irrelevant.

Theorem C04_block_size_zero_diverges : forall h expr f x bs,
  pointwise expr f -> (1 <= ndists h)%nat -> x <> [] -> (bs <= 0)%Z ->
  forall fuel, ev_out (evaluate_nogradient fuel (sm_run h) expr bs (ndists h) x) = OFuel.
Proof. exact nogradient_diverges. Qed.
Print Assumptions C04_block_size_zero_diverges.

(** C05: [List.length (concat trace)] is the number of points the user's
    function was evaluated at. *)
Theorem C05_call_accounting : forall fuel s expr o dm nrv x,
  (0 < o_block_size o)%Z ->
  let r := evaluate_lsf fuel s expr o dm nrv x in
  match ev_out r with
  | ODone _ _ => sm_calls (ev_s r) = (sm_calls s + List.length (concat (ev_trace r)))%nat
  | _ => ev_s r = s
  end.
Proof. exact accounting. Qed.
Print Assumptions C05_call_accounting.

Theorem C05_counts_per_mode : forall fuel s expr o dm nrv x G grad,
  (0 < o_block_size o)%Z ->
  let r := evaluate_lsf fuel s expr o dm nrv x in
  ev_out r = ODone G grad ->
  sm_calls (ev_s r) =
    (sm_calls s +
      match dm with
      | Some _ => List.length x
      | None => if String.eqb (o_diff_mode o) "no" then List.length x
                else if String.eqb (o_diff_mode o) "ddm" then List.length x
                else List.length x * (1 + nrv)
      end)%nat.
Proof. exact accounting_counts. Qed.
Print Assumptions C05_counts_per_mode.

Theorem C05_accounting_over_history : forall fuel expr rs s,
  (forall q, In q rs -> (0 < o_block_size (rq_o q))%Z) ->
  let (s', l) := eval_history fuel s expr rs in
  sm_calls s' = (sm_calls s + list_sum (map (fun e =>
     match ev_out e with ODone _ _ => List.length (concat (ev_trace e)) | _ => 0%nat end) l))%nat.
Proof. exact accounting_history. Qed.
Print Assumptions C05_accounting_over_history.

(** C06, C07: one point.  st j is stdv_j / ffdpara. *)
Theorem C06_forward_difference : forall h expr f p bs ffdpara fuel,
  pointwise expr f -> (1 <= ndists h)%nat -> List.length p = ndists h -> (1 <= bs)%Z ->
  (S (List.length p) < fuel)%nat ->
  let r := evaluate_ffd fuel (sm_run h) expr bs ffdpara (ndists h) [p] in
  let F := fun q => f (args_at h q) in
  let st := fun j => nth j (map (fun d => rv_stdv d / ffdpara) (dists_of (accepted h))) 0 in
  ev_out r = ODone [F p]
     [map (fun j => (F (replace_nth j (nth j p 0 + st j) p) - F p) / st j) (seq 0 (ndists h))] /\
  ev_x r = [map (fun j => nth j p 0 + st j) (seq 0 (ndists h))] /\
  concat (ev_trace r) = p :: map (fun j => replace_nth j (nth j p 0 + st j) p) (seq 0 (ndists h)) /\
  sm_calls (ev_s r) = (sm_calls (sm_run h) + (1 + ndists h))%nat.
Proof. exact ffd_one_point. Qed.
Print Assumptions C06_forward_difference.

Theorem C06_exact_on_affine : forall h expr f p bs ffdpara fuel (c : R) (a : nat -> R),
  pointwise expr f -> (1 <= ndists h)%nat -> List.length p = ndists h -> (1 <= bs)%Z ->
  (S (List.length p) < fuel)%nat ->
  (forall d, In d (dists_of (accepted h)) -> rv_stdv d <> 0) -> ffdpara <> 0 ->
  (forall q, List.length q = ndists h -> f (args_at h q) = c + fsum (ndists h) (fun i => a i * nth i q 0)) ->
  ev_out (evaluate_ffd fuel (sm_run h) expr bs ffdpara (ndists h) [p]) =
    ODone [f (args_at h p)] [map a (seq 0 (ndists h))].
Proof. exact ffd_affine. Qed.
Print Assumptions C06_exact_on_affine.

Theorem C07_two_points_raise : forall fuel s expr bs ffdpara nrv x,
  (1 <= nrv)%nat -> (2 <= List.length x)%nat ->
  let r := evaluate_ffd fuel s expr bs ffdpara nrv x in
  ev_out r = ORaise EValue /\ ev_trace r = [] /\ ev_x r = x /\ ev_s r = s.
Proof. exact ffd_many_points. Qed.
Print Assumptions C07_two_points_raise.

(** The caller's array is not the point that was evaluated: "ffd leaves its
    input unchanged" is refuted for every model with a non-zero step. *)
Theorem C07_input_unchanged_refuted : forall h expr f p bs ffdpara fuel j,
  pointwise expr f -> (1 <= ndists h)%nat -> List.length p = ndists h -> (1 <= bs)%Z ->
  (S (List.length p) < fuel)%nat -> (j < ndists h)%nat ->
  nth j (map (fun d => rv_stdv d / ffdpara) (dists_of (accepted h))) 0 <> 0 ->
  ev_x (evaluate_ffd fuel (sm_run h) expr bs ffdpara (ndists h) [p]) <> [p].
Proof.
  intros h expr f p bs ffdpara fuel j Hp Hn Hl Hb Hf Hj Hst E.
  destruct (ffd_one_point h expr f p bs ffdpara fuel Hp Hn Hl Hb Hf) as [_ [E' _]].
  rewrite E in E'. injection E' as E'.
  assert (A : nth j p 0 = nth j p 0 + nth j (map (fun d => rv_stdv d / ffdpara) (dists_of (accepted h))) 0).
  { rewrite E' at 1. rewrite nth_map_seq by exact Hj. reflexivity. }
  lra.
Qed.
Print Assumptions C07_input_unchanged_refuted.

(** C08 *)
Theorem C08_multiproc_zero_raises : forall fuel s expr o dm nrv x, o_multi_proc o = 0%Z ->
  evaluate_lsf fuel s expr o dm nrv x = mkev s x [] (ORaise ENotImpl).
Proof. exact dispatch_notimpl. Qed.
Print Assumptions C08_multiproc_zero_raises.

Theorem C08_explicit_mode_suppresses_gradient : forall fuel h expr f o dm x,
  o_multi_proc o <> 0%Z -> (exists m, dm = Some m) \/ o_diff_mode o = "no" ->
  pointwise expr f -> (1 <= ndists h)%nat -> points_ok (ndists h) x -> (1 <= o_block_size o)%Z ->
  (List.length x < fuel)%nat ->
  ev_out (evaluate_lsf fuel (sm_run h) expr o dm (ndists h) x) =
    ODone (map (fun p => f (args_at h p)) x) (repeat (repeat 0 (ndists h)) (List.length x)).
Proof. exact dispatch_nogradient. Qed.
Print Assumptions C08_explicit_mode_suppresses_gradient.

Theorem C08_ddm_returns_users_pair : forall fuel h expr o p G g,
  o_multi_proc o <> 0%Z -> o_diff_mode o = "ddm" ->
  List.length p = ndists h -> List.length g = ndists h ->
  (forall kw, Permutation (map fst kw) (sm_names (sm_run h)) ->
     (forall i d, nth_error (dists_of (accepted h)) i = Some d -> dict_get kw (rv_name d) = Some [nth i p 0]) ->
     (forall n v, In (n, v) (consts_of (accepted h)) -> dict_get kw n = Some [v]) ->
     expr kw = Ok (UTuple (Arr [G]) g)) ->
  ev_out (evaluate_lsf fuel (sm_run h) expr o None (ndists h) [p]) = ODone [G] [g].
Proof. exact dispatch_ddm. Qed.
Print Assumptions C08_ddm_returns_users_pair.

(** A gradient column of another length: one entry is used for every variable; anything else raises
    ValueError, and the call that was made is not counted. *)
Theorem C08_ddm_gradient_length : forall fuel h expr o p G g,
  o_multi_proc o <> 0%Z -> o_diff_mode o = "ddm" ->
  List.length p = ndists h -> List.length g <> ndists h ->
  (forall kw, Permutation (map fst kw) (sm_names (sm_run h)) ->
     (forall i d, nth_error (dists_of (accepted h)) i = Some d -> dict_get kw (rv_name d) = Some [nth i p 0]) ->
     (forall n v, In (n, v) (consts_of (accepted h)) -> dict_get kw n = Some [v]) ->
     expr kw = Ok (UTuple (Arr [G]) g)) ->
  let r := evaluate_lsf fuel (sm_run h) expr o None (ndists h) [p] in
  (forall a, g = [a] -> ev_out r = ODone [G] [repeat a (ndists h)]) /\
  (List.length g <> 1%nat -> ev_out r = ORaise EValue /\ ev_s r = sm_run h /\ ev_trace r = [[p]]).
Proof. exact dispatch_ddm_length. Qed.
Print Assumptions C08_ddm_gradient_length.

Theorem C08_other_modes_forward_difference : forall fuel h expr f o p,
  o_multi_proc o <> 0%Z -> o_diff_mode o <> "no" -> o_diff_mode o <> "ddm" ->
  pointwise expr f -> (1 <= ndists h)%nat -> List.length p = ndists h -> (1 <= o_block_size o)%Z ->
  (S (List.length p) < fuel)%nat ->
  let F := fun q => f (args_at h q) in
  let st := fun j => nth j (map (fun d => rv_stdv d / o_ffdpara o) (dists_of (accepted h))) 0 in
  ev_out (evaluate_lsf fuel (sm_run h) expr o None (ndists h) [p]) = ODone [F p]
     [map (fun j => (F (replace_nth j (nth j p 0 + st j) p) - F p) / st j) (seq 0 (ndists h))].
Proof. exact dispatch_ffd. Qed.
Print Assumptions C08_other_modes_forward_difference.

Theorem C08_gradient_modes_reject_two_points : forall fuel s expr o nrv p q x,
  o_multi_proc o <> 0%Z -> o_diff_mode o <> "no" -> (1 <= nrv)%nat ->
  exists e, ev_out (evaluate_lsf fuel s expr o None nrv (p :: q :: x)) = ORaise e /\
            ev_s (evaluate_lsf fuel s expr o None nrv (p :: q :: x)) = s.
Proof. exact dispatch_many. Qed.
Print Assumptions C08_gradient_modes_reject_two_points.

(** *** The hypotheses are met: g = R - k*S on a model with a constant between
    the two random variables. *)
Definition lk (kw : list (string * R)) (n : string) : R :=
  match dict_get kw n with Some v => v | None => 0 end.
Definition g_ex (kw : list (string * R)) : R := lk kw "R" - lk kw "k" * lk kw "S".
Definition expr_ex : expression := fun kw =>
  let nc := match kw with [] => 0%nat | (_, v) :: _ => List.length v end in
  Ok (UPlain (Arr (map (fun c => g_ex (map (fun kv => (fst kv, nth c (snd kv) 0)) kw)) (seq 0 nc)))).
Definition rv_ex (n : string) : rv := mkrv n 0 2 0 (fun u => u) (fun x => x) (fun _ _ => 1).
Definition h_ex : list smop := [OpAdd (ODist (rv_ex "R")); OpAdd (OConst "k" 3); OpAdd (ODist (rv_ex "S"))].

Example pointwise_ex : pointwise expr_ex g_ex.
Proof.
  intros kw nc Hne Hl. eexists. split; [reflexivity|].
  destruct kw as [|[n v] kw]; [contradiction|]. cbn [value_of].
  rewrite (Hl n v) by (left; reflexivity). reflexivity.
Qed.

Example ndists_ex : ndists h_ex = 2%nat.
Proof. reflexivity. Qed.

Example C04_example : forall fuel, (3 < fuel)%nat ->
  ev_out (evaluate_nogradient fuel (sm_run h_ex) expr_ex 2 2 [[10; 1]; [20; 2]; [30; 3]]) =
  ODone [10 - 3 * 1; 20 - 3 * 2; 30 - 3 * 3] [[0;0];[0;0];[0;0]].
Proof.
  intros fuel Hf.
  assert (Hx : points_ok (ndists h_ex) [[10; 1]; [20; 2]; [30; 3]]).
  { intros p [<-|[<-|[<-|[]]]]; reflexivity. }
  apply (C04_block_size_irrelevant h_ex expr_ex g_ex _ fuel 2 pointwise_ex (le_S _ _ (le_n _)) Hx); [lia|exact Hf].
Qed.

Example C06_example : forall fuel, (3 < fuel)%nat ->
  ev_out (evaluate_ffd fuel (sm_run h_ex) expr_ex 1000 1000 2 [[10; 1]]) = ODone [10 - 3 * 1] [[1; -3]].
Proof.
  intros fuel Hf.
  apply (C06_exact_on_affine h_ex expr_ex g_ex [10; 1] 1000 1000 fuel 0
           (fun i => match i with O => 1 | _ => -3 end) pointwise_ex); try (simpl; lia); try lra.
  - vm_compute. lia.
  - reflexivity.
  - simpl. intros d [<-|[<-|[]]]; simpl; lra.
  - intros q Hq. change (ndists h_ex) with 2%nat in *. destruct q as [|a [|b [|c q]]]; try discriminate.
    unfold g_ex, lk, args_at. cbn. lra.
Qed.

Example C08_ddm_example :
  ev_out (evaluate_lsf 0 (sm_run h_ex) (fun kw => Ok (UTuple (Arr [7]) [1; -3]))
     (mkopts "ddm" 1 1000 1000) None 2 [[10; 1]]) = ODone [7] [[1; -3]].
Proof.
  apply (C08_ddm_returns_users_pair 0 h_ex); try reflexivity. discriminate.
Qed.

(** one number for two variables is used twice; three numbers raise *)
Example C08_ddm_length_example : let ev g := evaluate_lsf 0 (sm_run h_ex) (fun kw => Ok (UTuple (Arr [7]) g)) (mkopts "ddm" 1 1000 1000) None 2 [[10; 1]] in
  ev_out (ev [1]) = ODone [7] [[1; 1]] /\ ev_out (ev [1; 2; 3]) = ORaise EValue.
Proof.
  split.
  - apply (C08_ddm_gradient_length 0 h_ex (fun kw => Ok (UTuple (Arr [7]) [1]))) with (G := 7) (g := [1]); try reflexivity; try discriminate; cbn; lia.
  - apply (C08_ddm_gradient_length 0 h_ex (fun kw => Ok (UTuple (Arr [7]) [1; 2; 3]))) with (G := 7) (g := [1; 2; 3]); try reflexivity; try discriminate; cbn; lia.
Qed.
