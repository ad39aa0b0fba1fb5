From Verif Require Import Base StochModel LimitState ScaleSpec.
From Coq Require Import ZArith Lra Lia FunctionalExtensionality.
Open Scope R_scope.

Section S.
Variable l : R.
Variables expr expr' : expression.
Hypothesis H : times l expr expr'.

Lemma nth_scale k a : nth k (map (Rmult l) a) 0 = l * nth k a 0.
Proof. replace 0 with (l * 0) at 1 by ring. apply map_nth. Qed.
Lemma repeat_scale0 n : map (Rmult l) (repeat 0 n) = repeat 0 n.
Proof. induction n as [|n IH]; [reflexivity|]. cbn. rewrite IH, Rmult_0_r. reflexivity. Qed.
Lemma repeat_scale r n : map (Rmult l) (repeat r n) = repeat (l * r) n.
Proof. induction n as [|n IH]; [reflexivity|]. cbn. rewrite IH. reflexivity. Qed.

Lemma compute_scale s nrv cols ddm : compute_lsf s expr' nrv cols ddm =
  scale_res (fun vg => (scale_val l (fst vg), map (Rmult l) (snd vg))) (compute_lsf s expr nrv cols ddm).
Proof.
  unfold compute_lsf. destruct (lsf_kwargs s nrv cols) as [kw|e]; [|reflexivity]. rewrite (H kw).
  destruct (expr kw) as [out|e]; [|reflexivity]. destruct ddm, out as [[|]|[|]]; reflexivity.
Qed.

Lemma broadcast_scale b v : broadcast b (scale_val l v) = scale_res (map (Rmult l)) (broadcast b v).
Proof.
  destruct v as [r|a]; cbn; [rewrite repeat_scale; reflexivity|]. destruct a as [|x [|y a]]; cbn.
  - destruct b; reflexivity.
  - rewrite repeat_scale. reflexivity.
  - rewrite map_length. destruct b as [|[|b]]; [reflexivity|reflexivity|]. destruct (Nat.eqb (length a) b); reflexivity.
Qed.
Lemma squeeze_scale b v : assign_squeeze b (scale_val l v) = scale_res (map (Rmult l)) (assign_squeeze b v).
Proof. destruct v as [r|a]; [reflexivity|]. exact (broadcast_scale b (Arr a)). Qed.

Lemma write_scale k vals G : write_at k (map (Rmult l) vals) (map (Rmult l) G) = map (Rmult l) (write_at k vals G).
Proof. unfold write_at. rewrite !map_app, map_length, firstn_map, skipn_map. reflexivity. Qed.

Definition scale_lo (o : loopout) : loopout := match o with LDone G => LDone (map (Rmult l) G) | LRaise e => LRaise e | LFuel => LFuel end.

Lemma loop_scale assign : (forall b v, assign b (scale_val l v) = scale_res (map (Rmult l)) (assign b v)) ->
  forall fuel s nrv x bs k G tr,
  block_loop fuel s expr' nrv assign x bs k (map (Rmult l) G) tr =
  (scale_lo (fst (block_loop fuel s expr nrv assign x bs k G tr)), snd (block_loop fuel s expr nrv assign x bs k G tr)).
Proof.
  intros HA. induction fuel as [|f IH]; intros s nrv x bs k G tr; [reflexivity|]. cbn [block_loop]. cbv zeta.
  destruct (k <? Z.of_nat (length x))%Z; [|reflexivity]. rewrite compute_scale.
  destruct (compute_lsf s expr nrv _ false) as [[v g]|e]; [|reflexivity]. cbn [scale_res fst snd]. rewrite HA.
  destruct (assign _ v) as [vals|e]; [|reflexivity]. cbn [scale_res]. rewrite write_scale. apply IH.
Qed.

Definition scale_ev (r : evalout) : evalout := mkev (ev_s r) (ev_x r) (ev_trace r) (scale_outcome l (ev_out r)).

Lemma nograd_scale fuel s bs nrv x : evaluate_nogradient fuel s expr' bs nrv x = scale_ev (evaluate_nogradient fuel s expr bs nrv x).
Proof.
  unfold evaluate_nogradient. cbv zeta. rewrite <- (repeat_scale0 (length x)), (loop_scale assign_plain broadcast_scale), repeat_scale0.
  destruct (block_loop fuel s expr nrv assign_plain x bs 0 (repeat 0 (length x)) []) as [[G|e|] tr]; cbn [fst snd scale_lo]; [|reflexivity|reflexivity].
  unfold scale_ev. cbn. f_equal. f_equal. induction (length x) as [|q IH]; [reflexivity|]. cbn. rewrite repeat_scale0, <- IH. reflexivity.
Qed.

Lemma ffd_scale fuel s bs ffdpara nrv x : evaluate_ffd fuel s expr' bs ffdpara nrv x = scale_ev (evaluate_ffd fuel s expr bs ffdpara nrv x).
Proof.
  unfold evaluate_ffd. cbv zeta. match goal with |- match ?A with _ => _ end = _ => destruct A as [allx0|]; [|reflexivity] end.
  destruct (ffd_perturb nrv 0 (sm_marg s) ffdpara nrv x allx0 []) as [[[allx allh]|e] x']; [|reflexivity].
  rewrite <- (repeat_scale0 (length x * (1 + nrv))), (loop_scale assign_squeeze squeeze_scale), repeat_scale0.
  destruct (block_loop fuel s expr nrv assign_squeeze allx bs 0 (repeat 0 (length x * (1 + nrv))) []) as [[G|e|] tr]; cbn [fst snd scale_lo]; [|reflexivity|reflexivity].
  unfold scale_ev. cbn [ev_s ev_x ev_trace ev_out scale_outcome]. f_equal. f_equal.
  - rewrite map_map. apply map_ext. intros m. apply nth_scale.
  - rewrite map_map. apply map_ext. intros m. rewrite map_map. apply map_ext. intros j. rewrite nth_scale.
    replace (nth m (map (fun m0 => nth (m0 * (1 + nrv)) (map (Rmult l) G) 0) (seq 0 (length x))) 0) with (l * nth m (map (fun m0 => nth (m0 * (1 + nrv)) G 0) (seq 0 (length x))) 0).
    + unfold Rdiv. ring.
    + rewrite <- nth_scale, map_map. f_equal. apply map_ext. intros q. symmetry. apply nth_scale.
Qed.

Lemma col_scale nrv g : assign_col nrv (map (Rmult l) g) = scale_res (map (Rmult l)) (assign_col nrv g).
Proof.
  destruct g as [|x [|y g]]; cbn.
  - destruct nrv; reflexivity.
  - rewrite repeat_scale. reflexivity.
  - rewrite map_length. destruct nrv as [|[|b]]; [reflexivity|reflexivity|]. destruct (Nat.eqb (length g) b); reflexivity.
Qed.

Lemma ddm_loop_scale nrv nx s : forall todo k G gr tr,
  ddm_loop k s expr' nrv nx todo (map (Rmult l) G) (map (map (Rmult l)) gr) tr =
  (scale_res (fun p => (map (Rmult l) (fst p), map (map (Rmult l)) (snd p))) (fst (ddm_loop k s expr nrv nx todo G gr tr)), snd (ddm_loop k s expr nrv nx todo G gr tr)).
Proof.
  induction todo as [|p r IH]; intros k G gr tr; [reflexivity|]. cbn [ddm_loop]. rewrite compute_scale.
  destruct (compute_lsf s expr nrv [p] true) as [[v g]|e]; [|reflexivity]. cbn [scale_res fst snd]. destruct k; [|reflexivity].
  rewrite broadcast_scale. destruct (broadcast nx v) as [G'|e]; [|reflexivity]. cbn [scale_res]. rewrite col_scale.
  destruct (assign_col nrv g) as [gc|e]; [|reflexivity]. cbn [scale_res]. rewrite <- IH. f_equal.
  cbn [firstn app]. destruct gr; reflexivity.
Qed.

Lemma ddm_scale s nrv x : evaluate_ddm s expr' nrv x = scale_ev (evaluate_ddm s expr nrv x).
Proof.
  unfold evaluate_ddm. cbv zeta.
  assert (E : ddm_loop 0 s expr' nrv (length x) x (repeat 0 (length x)) (repeat (repeat 0 nrv) (length x)) [] =
    ddm_loop 0 s expr' nrv (length x) x (map (Rmult l) (repeat 0 (length x))) (map (map (Rmult l)) (repeat (repeat 0 nrv) (length x))) []).
  { f_equal; [symmetry; apply repeat_scale0|]. induction (length x) as [|q IH]; [reflexivity|]. cbn. rewrite repeat_scale0, <- IH. reflexivity. }
  rewrite E, ddm_loop_scale. destruct (ddm_loop 0 s expr nrv (length x) x (repeat 0 (length x)) (repeat (repeat 0 nrv) (length x)) []) as [[[G gr]|e] tr]; reflexivity.
Qed.

Lemma lsf_scale fuel s o dm nrv x : evaluate_lsf fuel s expr' o dm nrv x = scale_ev (evaluate_lsf fuel s expr o dm nrv x).
Proof.
  unfold evaluate_lsf. cbv zeta. destruct (o_multi_proc o =? 0)%Z; [reflexivity|].
  destruct (String.eqb _ "no"); [apply nograd_scale|]. destruct (String.eqb _ "ddm"); [apply ddm_scale|apply ffd_scale].
Qed.
End S.
