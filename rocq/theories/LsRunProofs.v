From Coquelicot Require Import Coquelicot.
From Verif Require Import Base Ext Gauss GaussProofs StochModel StochModelSpec StochModelProofs LimitState LimitStateSpec LimitStateProofs Transf TransfSpec Form FormProofs Nataf Dist Pipe PipeProofs Sorm Ls LsProofs LsRun LsRunSpec.
From Coq Require Import ZArith Lra Lia.
Open Scope R_scope.

Section Ev.
Variables (lf : nat) (expr : expression) (fo : form_opts) (s0 : smodel) (n : nat) (A : mat).
Hypothesis EM : length (sm_marg s0) = n.

Lemma core_len s : same_core s0 s -> length (sm_marg s) = n.
Proof. intros (_ & _ & E & _). now rewrite E. Qed.

Lemma ls_call_core s u : same_core s0 s ->
  ls_call lf expr fo n n A s u = Some (evaluate_lsf lf s expr (fo_ls fo) (Some "no"%string) n [vlist n (u_to_x n A (marg_at s0) u)]).
Proof. intros HC. unfold ls_call. rewrite (core_len s HC), Nat.eqb_refl, (core_marg s0 s HC). reflexivity. Qed.

Lemma ls_ev_core s u : same_core s0 s -> ls_ev lf expr fo n n A s u = line_value lf expr fo s0 n A u.
Proof.
  intros HC. unfold ls_ev, line_value. rewrite (ls_call_core s u HC).
  destruct (core_eval s0 s HC lf expr (fo_ls fo) (Some "no"%string) n [vlist n (u_to_x n A (marg_at s0) u)]) as (k & _ & _ & E3). rewrite E3. reflexivity.
Qed.

Lemma eval_one s u v : same_core s0 s -> line_value lf expr fo s0 n A u = Some v -> ls_state lf expr fo n n A s u = addCallFunction s 1.
Proof.
  intros HC E. rewrite <- (ls_ev_core s u HC) in E. unfold ls_state, ls_ev in *. rewrite (ls_call_core s u HC) in *.
  unfold evaluate_lsf in *. destruct (o_multi_proc (fo_ls fo) =? 0)%Z; [discriminate|]. cbn [String.eqb Ascii.eqb Bool.eqb] in *.
  unfold evaluate_nogradient in *. destruct (block_loop _ _ _ _ _ _ _ _ _ _) as [[G|e|] tr]; [reflexivity|discriminate|discriminate].
Qed.

Lemma fold_calls pts : (forall u, In u pts -> exists v, line_value lf expr fo s0 n A u = Some v) -> forall s, same_core s0 s ->
  fold_left (ls_state lf expr fo n n A) pts s = addCallFunction s (length pts).
Proof.
  induction pts as [|u pts IH]; intros H s HC; cbn [fold_left length]; [now rewrite add0|].
  destruct (H u (or_introl eq_refl)) as (v & Hv). rewrite (eval_one s u v HC Hv), IH; [|intros w Hw; apply H; now right|].
  - now rewrite add_add.
  - exact (core_trans _ _ _ HC (core_add s 1)).
Qed.

(** in general the counter grows, and nothing else changes *)
Lemma fold_core pts : forall s, same_core s0 s -> exists c, fold_left (ls_state lf expr fo n n A) pts s = addCallFunction s c.
Proof.
  induction pts as [|u pts IH]; intros s HC; cbn [fold_left]; [exists 0%nat; now rewrite add0|].
  assert (K : exists k, ls_state lf expr fo n n A s u = addCallFunction s k).
  { unfold ls_state. rewrite (ls_call_core s u HC). destruct (core_eval s0 s HC lf expr (fo_ls fo) (Some "no"%string) n [vlist n (u_to_x n A (marg_at s0) u)]) as (k & _ & E & _). exists k. exact E. }
  destruct K as (k & ->). destruct (IH (addCallFunction s k) (core_trans _ _ _ HC (core_add s k))) as (c & ->). exists (k + c)%nat. now rewrite add_add.
Qed.
End Ev.

Lemma fli_ext ev ev' brentq v alpha c : (forall u, ev u = ev' u) -> find_line_intersection ev brentq v alpha c = find_line_intersection ev' brentq v alpha c.
Proof. intros H. f_equal. apply FunctionalExtensionality.functional_extensionality. exact H. Qed.

Lemma flat_len {X Y} (f : X -> list Y) l lo hi : (forall x, In x l -> (lo <= length (f x) <= hi)%nat) ->
  (lo * length l <= length (flat_map f l) <= hi * length l)%nat.
Proof.
  induction l as [|x l IH]; intros H; cbn [flat_map length]; [lia|]. rewrite app_length.
  pose proof (H x (or_introl eq_refl)). specialize (IH (fun y Hy => H y (or_intror Hy))). nia.
Qed.

Lemma trial_value lf expr fo s n A u G k : form_trial lf s expr (fo_ls fo) n A (marg_at s) [u] = (Ok G, k) ->
  line_value lf expr fo s n A u = Some (nth 0 G 0).
Proof. unfold form_trial, line_value. cbv zeta. cbn [map]. destruct (ev_out _); intros H; inversion H; reflexivity. Qed.

(** one point, positive block size: the evaluation ends *)
Lemma one_terminates lf s expr o n x : (1 <= o_block_size o)%Z -> (2 <= lf)%nat -> ev_out (evaluate_lsf lf s expr o (Some "no"%string) n [x]) <> OFuel.
Proof.
  intros Hb Hl. unfold evaluate_lsf. destruct (o_multi_proc o =? 0)%Z; [discriminate|]. cbn [String.eqb Ascii.eqb Bool.eqb].
  unfold evaluate_nogradient. destruct lf as [|[|lf]]; [lia|lia|]. cbn [block_loop length repeat].
  destruct (0 <? Z.of_nat 1)%Z eqn:E0; [|discriminate].
  destruct (compute_lsf _ _ _ _ _) as [[v g]|e]; [|discriminate]. destruct (assign_plain _ v) as [w|e]; [|discriminate].
  match goal with |- context[if ?b then _ else _] => assert (F : b = false) by (apply Z.ltb_ge; try lia) end.
  rewrite F. discriminate.
Qed.

Lemma init_same fmin chol svd inv ty s : same_core s (fst (init_run_full fmin chol svd inv ty s)).
Proof.
  unfold init_run_full, setModifiedCorrelationMatrix. destruct (sm_corr s) as [M|]; [|apply core_refl].
  destruct (forallb _ M); [|apply core_refl]. destruct (computeModifiedCorrelationMatrix _ _ _ _ _) as [[Ro l]|e]; [|apply core_refl].
  cbn [setModifiedCorrelation sm_Ro fst]. apply core_Ro.
Qed.

(** once the point is NaN the FORM loop runs to i_max *)
Lemma loop_nan n o ev trial k : nan_step o None = Ok k -> forall fuel i Go lG lg calls, (i <= fo_imax o)%Z -> (Z.to_nat (fo_imax o - i) < fuel)%nat ->
  exists r c, form_loop n o ev trial None fuel i Go None lG lg calls = (FDone r, c) /\ fr_u r = None.
Proof.
  intros Hk. induction fuel as [|f IH]; intros i Go lG lg calls Hi Hf; [lia|]. cbn [form_loop].
  destruct (Z.eqb_spec i (fo_imax o)); [do 2 eexists; split; reflexivity|]. rewrite Hk. apply IH; lia.
Qed.
Lemma loop_zero_gradient n o ev trial fuel u0 G g k0 : ev u0 = (Ok (G, g), k0) -> norm n g = 0 -> (o_multi_proc (fo_ls o) = 1)%Z ->
  (1 <= fo_imax o)%Z -> (Z.to_nat (fo_imax o) < fuel)%nat ->
  exists r c, form_run n o ev trial None fuel u0 = (FDone r, c) /\ fr_u r = None.
Proof.
  intros E Hg Hm Hi Hf. destruct fuel as [|f]; [lia|]. unfold form_run. cbn [form_loop]. rewrite E, (proj2 (Reqb_spec _ _) Hg).
  destruct (Z.eqb_spec 1 (fo_imax o)); [do 2 eexists; split; reflexivity|].
  assert (N : exists k, nan_step o None = Ok k) by (unfold nan_step; rewrite Hm; destruct (Reqb _ _); cbn; eauto).
  destruct N as (k & Hk). rewrite Hk. apply (loop_nan n o ev trial k Hk); lia.
Qed.
