From Coquelicot Require Import Coquelicot.
From Verif Require Import Base Ext Gauss GaussProofs StochModel LimitState Transf Form FormProofs Sorm Mc Ss Ls ScaleSpec ScaleProofs.
From Coq Require Import ZArith Lra Lia FunctionalExtensionality.
Open Scope R_scope.

Lemma norm_scale_vec l n g : norm n (fun i => l * g i) = Rabs l * norm n g.
Proof.
  unfold norm, dot. rewrite (fsum_ext n _ (fun i => (l * l) * (g i * g i))) by (intros; ring). rewrite fsum_scal, sqrt_mult_alt by nra.
  f_equal. apply sqrt_Rsqr_abs.
Qed.

Section F.
Variable l : R.
Hypothesis Hl : l <> 0.

Lemma sgn_sq : (l / Rabs l) * (l / Rabs l) = 1.
Proof. assert (Rabs l <> 0) by (apply Rabs_no_R0; exact Hl). assert (E : Rabs l * Rabs l = l * l) by (rewrite <- Rabs_mult; apply Rabs_pos_eq; nra). replace (l / Rabs l * (l / Rabs l)) with (l * l / (Rabs l * Rabs l)) by (field; exact H). rewrite E. field. exact Hl. Qed.

Lemma alpha_scale n g : norm n g <> 0 -> alpha_of n (fun i => l * g i) = fun i => (l / Rabs l) * alpha_of n g i.
Proof.
  intros E. apply functional_extensionality. intros i. unfold alpha_of. rewrite norm_scale_vec.
  assert (Rabs l <> 0) by (apply Rabs_no_R0; exact Hl). field. split; assumption.
Qed.

Lemma dir_scale n G g u : norm n g <> 0 -> search_dir n (l * G) (fun i => l * g i) u = search_dir n G g u.
Proof.
  intros E. apply functional_extensionality. intros i. unfold search_dir. rewrite (alpha_scale n g E), dot_scal_l, norm_scale_vec.
  assert (Rabs l <> 0) by (apply Rabs_no_R0; exact Hl). pose proof sgn_sq as Q.
  replace (l * G * / (Rabs l * norm n g)) with ((l / Rabs l) * (G * / norm n g)) by (field; split; assumption).
  set (s := l / Rabs l) in *. replace ((s * (G * / norm n g) + s * dot n (alpha_of n g) u) * (s * alpha_of n g i)) with ((s * s) * ((G * / norm n g + dot n (alpha_of n g) u) * alpha_of n g i)) by ring.
  rewrite Q. ring.
Qed.

Lemma e2_scale n g u : norm n g <> 0 -> e2_of n (alpha_of n (fun i => l * g i)) u = e2_of n (alpha_of n g) u.
Proof.
  intros E. unfold e2_of. rewrite (alpha_scale n g E). f_equal. apply functional_extensionality. intros i. rewrite dot_scal_l.
  pose proof sgn_sq as Q. set (s := l / Rabs l) in *. replace (s * dot n (alpha_of n g) u * (s * alpha_of n g i)) with ((s * s) * (dot n (alpha_of n g) u * alpha_of n g i)) by ring. rewrite Q. ring.
Qed.

Lemma e1_scale G Go : e1_of (l * G) (l * Go) = e1_of G Go.
Proof.
  unfold e1_of, xinv. destruct (Reqb Go 0) eqn:E.
  - apply Reqb_spec in E. subst Go. rewrite Rmult_0_r, (proj2 (Reqb_spec 0 0)) by reflexivity. cbn [xmul]. unfold inf_scale.
    destruct (Rtotal_order 0 l) as [L|[L|L]]; [|congruence|]; destruct (Rtotal_order 0 G) as [K|[K|K]]; try (rewrite <- K);
    repeat match goal with |- context[Rltb ?a ?b] => first [rewrite (proj2 (Rltb_spec a b)) by nra | rewrite (proj2 (Rltb_false a b)) by nra] end; reflexivity.
  - assert (N : Go <> 0) by (intros ->; rewrite (proj2 (Reqb_spec 0 0)) in E by reflexivity; discriminate).
    replace (Reqb (l * Go) 0) with false.
    + cbn [xmul xabs]. do 2 f_equal. field. split; assumption.
    + symmetry. destruct (Reqb (l * Go) 0) eqn:E'; [|reflexivity]. apply Reqb_spec in E'. apply Rmult_integral in E'. tauto.
Qed.

Definition scale_fr (r : form_res) : form_res := mkfr (fr_i r) (fr_u r) (l * fr_G r) (l * fr_Go r) (fun i => l * fr_grad r i).
Definition scale_fo (f : form_out) : form_out := match f with FDone r => FDone (scale_fr r) | FRaise e => FRaise e | FFuel => FFuel end.
Definition scale_Gg (Gg : R * vec) : R * vec := (l * fst Gg, fun i => l * snd Gg i).

Lemma form_loop_scale n o ev ev' trial trial' evn : fo_step o <> 0 ->
  (forall u, ev' u = (scale_res scale_Gg (fst (ev u)), snd (ev u))) ->
  forall fuel i Go us lG lg calls,
  form_loop n o ev' trial' evn fuel i (option_map (Rmult l) Go) us (l * lG) (fun i => l * lg i) calls =
  (scale_fo (fst (form_loop n o ev trial evn fuel i Go us lG lg calls)), snd (form_loop n o ev trial evn fuel i Go us lG lg calls)).
Proof.
  intros Hs He. induction fuel as [|f IH]; intros i Go us lG lg calls; [reflexivity|]. cbn [form_loop].
  destruct us as [u|].
  - rewrite He. destruct (ev u) as [[[G g]|e] k]; [|reflexivity]. cbn [fst snd scale_res scale_Gg].
    assert (EG : match option_map (Rmult l) Go with Some q => q | None => l * G end = l * match Go with Some q => q | None => G end) by (destruct Go; reflexivity).
    rewrite EG. rewrite norm_scale_vec.
    assert (RL : Rabs l <> 0) by (apply Rabs_no_R0; exact Hl).
    destruct (Reqb (norm n g) 0) eqn:N.
    + apply Reqb_spec in N. rewrite N, Rmult_0_r, (proj2 (Reqb_spec 0 0)) by reflexivity.
      destruct (i =? fo_imax o)%Z; [reflexivity|]. destruct (nan_step o evn); [|reflexivity]. rewrite <- IH. reflexivity.
    + assert (N' : norm n g <> 0) by (intros Q; rewrite Q, (proj2 (Reqb_spec 0 0)) in N by reflexivity; discriminate).
      replace (Reqb (Rabs l * norm n g) 0) with false.
      2:{ symmetry. destruct (Reqb (Rabs l * norm n g) 0) eqn:Q; [|reflexivity]. apply Reqb_spec, Rmult_integral in Q. tauto. }
      rewrite e1_scale, (e2_scale n g u N'). match goal with |- context[if ?b then _ else _] => destruct b end; [reflexivity|].
      rewrite (dir_scale n G g u N'). unfold getStepSize.
      replace (Reqb (fo_step o) 0) with false by (symmetry; destruct (Reqb (fo_step o) 0) eqn:Q; [apply Reqb_spec in Q; contradiction|reflexivity]).
      exact (IH _ (Some _) _ _ _ _).
  - destruct evn eqn:Een; [reflexivity|]. rewrite <- Een in *. destruct (i =? fo_imax o)%Z.
    + cbn. unfold scale_fr. cbn. destruct Go; reflexivity.
    + destruct (nan_step o evn); [|reflexivity]. apply IH.
Qed.

Lemma form_run_scale n o ev ev' trial trial' evn fuel u0 : fo_step o <> 0 ->
  (forall u, ev' u = (scale_res scale_Gg (fst (ev u)), snd (ev u))) ->
  form_run n o ev' trial' evn fuel u0 = (scale_fo (fst (form_run n o ev trial evn fuel u0)), snd (form_run n o ev trial evn fuel u0)).
Proof.
  intros Hs He. unfold form_run. rewrite <- (form_loop_scale n o ev ev' trial trial' evn Hs He). cbn [option_map]. f_equal; [ring|].
  apply functional_extensionality. intros. ring.
Qed.

Lemma form_ev_scale expr expr' fuel s o n T invT inv m u : times l expr expr' ->
  form_ev fuel s expr' o n T invT inv m u = (scale_res scale_Gg (fst (form_ev fuel s expr o n T invT inv m u)), snd (form_ev fuel s expr o n T invT inv m u)).
Proof.
  intros Ht. unfold form_ev. cbv zeta. destruct (inv n _) as [J|e]; [|reflexivity]. rewrite (lsf_scale l expr expr' Ht).
  unfold scale_ev. cbn [ev_s ev_out]. destruct (ev_out (evaluate_lsf fuel s expr o None n _)) as [G gr|e|]; [|reflexivity|reflexivity].
  cbn [scale_outcome fst snd scale_res]. unfold scale_Gg. cbn [fst snd]. rewrite nth_scale. do 3 f_equal. apply functional_extensionality. intros j.
  unfold pull_gradient. rewrite <- fsum_scal. apply fsum_ext. intros i _.
  assert (E : vof (nth 0 (map (map (Rmult l)) gr) []) i = l * vof (nth 0 gr []) i) by (destruct gr as [|g0 gr]; [unfold vof; destruct i; cbn; ring|apply nth_scale]).
  rewrite E. ring.
Qed.

Lemma form_trial_scale expr expr' fuel s o n invT m us : times l expr expr' ->
  form_trial fuel s expr' o n invT m us = (scale_res (map (Rmult l)) (fst (form_trial fuel s expr o n invT m us)), snd (form_trial fuel s expr o n invT m us)).
Proof.
  intros Ht. unfold form_trial. cbv zeta. rewrite (lsf_scale l expr expr' Ht). unfold scale_ev. cbn [ev_s ev_out].
  destruct (ev_out (evaluate_lsf fuel s expr o _ n _)) as [G gr|e|]; reflexivity.
Qed.

(** alpha, beta and Pf of a completed run whose last gradient does not vanish *)
Lemma loop_grad n o ev trial evn fuel : forall i Go us lG lg calls r c u,
  form_loop n o ev trial evn fuel i Go us lG lg calls = (FDone r, c) -> fr_u r = Some u -> norm n (fr_grad r) <> 0.
Proof.
  induction fuel as [|f IH]; intros i Go us lG lg calls r c u H Hu; [discriminate|]. cbn [form_loop] in H. destruct us as [v|].
  - destruct (ev v) as [[[G g]|e] k]; [|discriminate]. destruct (Reqb (norm n g) 0) eqn:N.
    + destruct (i =? fo_imax o)%Z; [inversion H; subst; discriminate|]. destruct (nan_step o evn); [|discriminate]. eapply IH; eassumption.
    + match type of H with context[if ?b then _ else _] => destruct b end.
      * inversion H; subst. cbn. intros Q. rewrite Q, (proj2 (Reqb_spec 0 0)) in N by reflexivity. discriminate.
      * destruct (getStepSize n o trial G g v (search_dir n G g v)) as [[t|e] k2]; [|discriminate]. eapply IH; eassumption.
  - destruct evn eqn:Een; [discriminate|]. rewrite <- Een in *. destruct (i =? fo_imax o)%Z; [inversion H; subst; discriminate|]. destruct (nan_step o evn); [|discriminate]. eapply IH; eassumption.
Qed.
End F.
