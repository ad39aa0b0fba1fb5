From Coquelicot Require Import Coquelicot.
From Verif Require Import Base Ext Gauss GaussProofs StochModel LimitState Transf TransfSpec TransfProofs Form FormProofs RotSpec.
From Coq Require Import ZArith Lra Lia.
Open Scope R_scope.

(** * The FORM iteration under an isometry of the standard space *)
Section Loop.
Variable n : nat.
Variable Q : mat.
Hypothesis HQ : meq n (mmul n (mtrans Q) Q) meye.

Definition rot (u u' : vec) : Prop := veq n u' (mvec n Q u).

Lemma rot_dot u u' v v' : rot u u' -> rot v v' -> dot n u' v' = dot n u v.
Proof.
  intros H K. rewrite (dot_ext n u' v' (mvec n Q u) (mvec n Q v) H K). rewrite dot_mvec.
  apply dot_ext; [|intros i _; reflexivity]. intros i Hi. rewrite <- mvec_mmul. rewrite (mvec_meq n _ meye u i HQ Hi). apply mvec_eye. exact Hi.
Qed.
Lemma rot_norm u u' : rot u u' -> norm n u' = norm n u.
Proof. intros H. unfold norm. f_equal. apply rot_dot; exact H. Qed.
Lemma rot_lin a b u u' v v' : rot u u' -> rot v v' -> rot (fun i => a * u i + b * v i) (fun i => a * u' i + b * v' i).
Proof.
  intros H K i Hi. rewrite (H i Hi), (K i Hi). unfold mvec. rewrite <- !fsum_scal, <- fsum_plus. apply fsum_ext. intros j _. ring.
Qed.
Lemma rot_eq u v u' v' : (forall i, u i = v i) -> (forall i, u' i = v' i) -> rot u u' -> rot v v'.
Proof. intros H K P i Hi. rewrite <- K, (P i Hi). apply mvec_ext. intros j _. apply H. Qed.
Lemma rot_scal a u u' : rot u u' -> rot (fun i => a * u i) (fun i => a * u' i).
Proof. intros H. eapply rot_eq; [| |apply (rot_lin a 0 u u' u u' H H)]; intros i; cbn; ring. Qed.
Lemma rot_sub u u' v v' : rot u u' -> rot v v' -> rot (fun i => u i - v i) (fun i => u' i - v' i).
Proof. intros H K. eapply rot_eq; [| |apply (rot_lin 1 (-1) u u' v v' H K)]; intros i; cbn; ring. Qed.

Lemma rot_alpha g g' : rot g g' -> rot (alpha_of n g) (alpha_of n g').
Proof.
  intros H. unfold alpha_of. rewrite (rot_norm g g' H). eapply rot_eq; [| |apply (rot_scal (- / norm n g) g g' H)]; intros i; cbn; ring.
Qed.
Lemma rot_dir G g g' u u' : rot g g' -> rot u u' -> rot (search_dir n G g u) (search_dir n G g' u').
Proof.
  intros H K. unfold search_dir. cbv zeta. rewrite (rot_norm g g' H), (rot_dot _ _ _ _ (rot_alpha g g' H) K).
  apply rot_sub; [|exact K]. apply (rot_scal (G * / norm n g + dot n (alpha_of n g) u)), rot_alpha, H.
Qed.
Lemma rot_e2 g g' u u' : rot g g' -> rot u u' -> e2_of n (alpha_of n g') u' = e2_of n (alpha_of n g) u.
Proof.
  intros H K. unfold e2_of. rewrite (rot_dot _ _ _ _ (rot_alpha g g' H) K). apply rot_norm, rot_sub; [exact K|].
  apply (rot_scal (dot n (alpha_of n g) u)), rot_alpha, H.
Qed.
Lemma rot_move u u' d d' t : rot u u' -> rot d d' -> rot (fun j => u j + t * d j) (fun j => u' j + t * d' j).
Proof. intros H K. eapply rot_eq; [| |apply (rot_lin 1 t u u' d d' H K)]; intros i; cbn; ring. Qed.
Lemma rot_move' u u' d d' t : rot u u' -> rot d d' -> rot (fun j => u j + d j * t) (fun j => u' j + d' j * t).
Proof. intros H K. eapply rot_eq; [| |apply (rot_lin 1 t u u' d d' H K)]; intros i; cbn; ring. Qed.
Lemma rot_zero : rot (fun _ => 0) (fun _ => 0).
Proof. intros i _. unfold mvec. rewrite fsum_zero; [reflexivity|]. intros; ring. Qed.

Variables (o : form_opts) (ev ev' : vec -> result (R * vec) * nat) (trial trial' : list vec -> result (list R) * nat) (evn : option exn).
Definition ev_rot : Prop := forall u u', rot u u' ->
  match ev u, ev' u' with
  | (Ok (G, g), k), (Ok (G', g'), k') => G' = G /\ rot g g' /\ k' = k
  | (Err e, k), (Err e', k') => e' = e /\ k' = k
  | _, _ => False
  end.
Hypothesis Hev : ev_rot.
Hypothesis Htr : forall us us', length us = ntrial -> Forall2 rot us us' -> trial' us' = trial us.

Lemma merits_rot c us us' : Forall2 rot us us' -> forall Gs,
  map (fun uG => merit_of n c (fst uG) (snd uG)) (combine us' Gs) = map (fun uG => merit_of n c (fst uG) (snd uG)) (combine us Gs).
Proof.
  induction 1 as [|u u' us us' H F IH]; intros Gs; [reflexivity|]. destruct Gs as [|G Gs]; [reflexivity|]. cbn. rewrite IH. f_equal.
  unfold merit_of. rewrite (rot_norm u u' H). reflexivity.
Qed.

Lemma step_rot G g g' u u' d d' : rot g g' -> rot u u' -> rot d d' -> getStepSize n o trial' G g' u' d' = getStepSize n o trial G g u d.
Proof.
  intros Hg Hu Hd. unfold getStepSize. destruct (Reqb (fo_step o) 0); [|reflexivity]. unfold computeStepSize. cbv zeta.
  assert (C : penalty n g' u' = penalty n g u) by (unfold penalty; rewrite (rot_norm _ _ Hg), (rot_norm _ _ Hu); reflexivity).
  assert (F : Forall2 rot (map (fun t i => u i + d i * t) trial_steps) (map (fun t i => u' i + d' i * t) trial_steps)).
  { induction trial_steps as [|t ts IH]; constructor; [|exact IH]. apply rot_move'; assumption. }
  rewrite C. destruct (o_multi_proc (fo_ls o) =? 1)%Z; [|reflexivity]. assert (TL : length (map (fun t i => u i + d i * t) trial_steps) = ntrial) by (rewrite map_length; reflexivity). rewrite (Htr _ _ TL F).
  destruct (trial _) as [[Gs|e] k]; [|reflexivity]. rewrite (merits_rot _ _ _ F Gs).
  assert (M : merit_of n (penalty n g u) u' G = merit_of n (penalty n g u) u G) by (unfold merit_of; rewrite (rot_norm _ _ Hu); reflexivity).
  rewrite M. reflexivity.
Qed.

Definition rot_opt (u u' : option vec) : Prop := match u, u' with Some u, Some u' => rot u u' | None, None => True | _, _ => False end.
Definition rot_res (r r' : form_res) : Prop :=
  fr_i r' = fr_i r /\ rot_opt (fr_u r) (fr_u r') /\ fr_G r' = fr_G r /\ fr_Go r' = fr_Go r /\ rot (fr_grad r) (fr_grad r').
Definition rot_out (a b : form_out * nat) : Prop :=
  match a, b with
  | (FDone r, c), (FDone r', c') => rot_res r r' /\ c' = c
  | (FRaise e, c), (FRaise e', c') => e' = e /\ c' = c
  | (FFuel, c), (FFuel, c') => c' = c
  | _, _ => False
  end.

Lemma loop_rot : forall fuel i Go us us' lG lg lg' calls, rot_opt us us' -> rot lg lg' ->
  rot_out (form_loop n o ev trial evn fuel i Go us lG lg calls) (form_loop n o ev' trial' evn fuel i Go us' lG lg' calls).
Proof.
  induction fuel as [|f IH]; intros i Go us us' lG lg lg' calls Hu Hg; [reflexivity|]. cbn [form_loop].
  destruct us as [u|], us' as [u'|]; try contradiction.
  - pose proof (Hev u u' Hu) as E. destruct (ev u) as [[[G g]|e] k], (ev' u') as [[[G' g']|e'] k']; try contradiction.
    2:{ destruct E as [-> ->]. split; reflexivity. }
    destruct E as (-> & Eg & ->). rewrite (rot_norm g g' Eg). destruct (Reqb (norm n g) 0).
    + destruct (i =? fo_imax o)%Z; [|destruct (nan_step o evn); [apply IH; [exact I|exact Eg]|split; reflexivity]]. cbn. split; [|reflexivity]. repeat split; cbn; exact Eg.
    + rewrite (rot_e2 g g' u u' Eg Hu). match goal with |- context[if ?b then _ else _] => destruct b end.
      * cbn. split; [|reflexivity]. split; [reflexivity|]. split; [exact Hu|]. split; [reflexivity|]. split; [reflexivity|exact Eg].
      * rewrite (step_rot G g g' u u' _ _ Eg Hu (rot_dir G g g' u u' Eg Hu)).
        destruct (getStepSize n o trial G g u (search_dir n G g u)) as [[t|e] k2]; [|split; reflexivity].
        apply IH; [|exact Eg]. apply rot_move; [exact Hu|apply rot_dir; assumption].
  - destruct evn eqn:Een; [split; reflexivity|]. rewrite <- Een in *. destruct (i =? fo_imax o)%Z; [|destruct (nan_step o evn); [apply IH; assumption|split; reflexivity]]. cbn. split; [|reflexivity]. repeat split; exact Hg.
Qed.

Lemma run_rot fuel u0 u0' : rot u0 u0' ->
  rot_out (form_run n o ev trial evn fuel u0) (form_run n o ev' trial' evn fuel u0').
Proof. intros H. apply loop_rot; [exact H|apply rot_zero]. Qed.

Lemma res_rot r r' : rot_res r r' ->
  form_beta n r' = form_beta n r /\ form_Pf n r' = form_Pf n r /\ rot_opt (form_alpha n r) (form_alpha n r').
Proof.
  intros (E1 & E2 & E3 & E4 & E5). assert (B : form_beta n r' = form_beta n r).
  { unfold form_beta. destruct (fr_u r) as [u|], (fr_u r') as [u'|]; try contradiction; [|reflexivity]. cbn in E2.
    rewrite (rot_dot _ _ _ _ (rot_alpha _ _ E5) E2). reflexivity. }
  split; [exact B|]. split; [unfold form_Pf; rewrite B; reflexivity|]. unfold form_alpha.
  destruct (fr_u r), (fr_u r'); try contradiction; [|exact I]. apply rot_alpha, E5.
Qed.
End Loop.

(** * Two factors of the same correlation matrix *)
Section Factor.
Variables (n : nat) (T A T' A' Ro : mat).
Hypothesis H1 : inverse_pair n T A.
Hypothesis H2 : inverse_pair n T' A'.
Hypothesis F1 : factor_of n A Ro.
Hypothesis F2 : factor_of n A' Ro.
Definition Qf : mat := mmul n T' A.
Definition Qb : mat := mmul n T A'.

Ltac assoc := repeat rewrite mmul_assoc.

Lemma cancel_mid (B C D E : mat) : meq n (mmul n C D) meye -> meq n (mmul n (mmul n B C) (mmul n D E)) (mmul n B E).
Proof.
  intros H i j Hi Hj. rewrite mmul_assoc. apply fsum_ext. intros k Hk. f_equal. rewrite <- mmul_assoc.
  transitivity (mmul n meye E k j); [|apply mmul_eye_l; exact Hk]. apply fsum_ext. intros l Hl. f_equal. apply H; assumption.
Qed.

Lemma Q_pair : inverse_pair n Qf Qb.
Proof.
  destruct H1 as [TA AT]. destruct H2 as [TA' AT']. split; unfold Qf, Qb.
  - eapply meq_trans; [apply cancel_mid; exact AT|exact TA'].
  - eapply meq_trans; [apply cancel_mid; exact AT'|exact TA].
Qed.

Lemma Q_rows : meq n (mmul n Qf (mtrans Qf)) meye.
Proof.
  intros i j Hi Hj. destruct H2 as [TA' AT']. unfold Qf.
  assert (E : forall B, mmul n (mmul n T' B) (mtrans (mmul n T' B)) i j = fsum n (fun l => fsum n (fun r => T' i l * T' j r * fsum n (fun k => B l k * B r k)))).
  { intros B. unfold mmul at 1, mtrans. unfold mmul.
    rewrite (fsum_ext n _ (fun k => fsum n (fun l => fsum n (fun r => (T' i l * T' j r) * (B l k * B r k))))).
    2:{ intros k _. rewrite <- fsum_scal_r. apply fsum_ext. intros l _. rewrite <- fsum_scal. apply fsum_ext. intros r _. ring. }
    rewrite fsum_swap. apply fsum_ext. intros l _. rewrite fsum_swap. apply fsum_ext. intros r _. rewrite fsum_scal. reflexivity. }
  rewrite E. transitivity (mmul n (mmul n T' A') (mtrans (mmul n T' A')) i j).
  - rewrite E. apply fsum_ext. intros l Hl. apply fsum_ext. intros r Hr. f_equal. rewrite (F1 l r Hl Hr), (F2 l r Hl Hr). reflexivity.
  - transitivity (mmul n meye (mtrans meye) i j).
    + apply fsum_ext. intros k Hk. unfold mtrans. rewrite (TA' i k Hi Hk), (TA' j k Hj Hk). reflexivity.
    + rewrite mmul_eye_l by exact Hi. unfold mtrans, meye. apply delta_sym.
Qed.

Lemma Q_trans : meq n (mtrans Qf) Qb.
Proof.
  destruct Q_pair as [P1 P2]. intros i j Hi Hj.
  transitivity (mmul n Qb (mmul n Qf (mtrans Qf)) i j).
  - rewrite <- mmul_assoc. rewrite <- (mmul_eye_l n (mtrans Qf) i j Hi) at 1. apply fsum_ext. intros k Hk. f_equal. symmetry. apply P2; assumption.
  - rewrite <- (mmul_eye_r n Qb i j Hj). apply fsum_ext. intros k Hk. f_equal. apply Q_rows; assumption.
Qed.

Lemma Q_iso : meq n (mmul n (mtrans Qf) Qf) meye.
Proof.
  intros i j Hi Hj. rewrite <- (proj2 Q_pair i j Hi Hj). apply fsum_ext. intros k Hk. f_equal. apply Q_trans; assumption.
Qed.

Lemma A_rot u u' i : rot n Qf u u' -> (i < n)%nat -> mvec n A' u' i = mvec n A u i.
Proof.
  intros H Hi. rewrite (mvec_ext n A' u' (mvec n Qf u) H). unfold Qf.
  rewrite (mvec_ext n A' (mvec n (mmul n T' A) u) (mvec n T' (mvec n A u))) by (intros k _; apply mvec_mmul).
  apply mvec_inv; [apply H2|exact Hi].
Qed.

Lemma start_rot m : rot n Qf (computeStartingPoint n T m) (computeStartingPoint n T' m).
Proof.
  intros i Hi. unfold computeStartingPoint, x_to_u. cbv zeta. set (w := fun i => rv_x2u (m i) (rv_start (m i))).
  unfold Qf. rewrite mvec_mmul. apply mvec_ext. intros k Hk. symmetry. apply mvec_inv; [apply H1|exact Hk].
Qed.

Lemma x_rot m u u' : rot n Qf u u' -> veq n (u_to_x n A' m u') (u_to_x n A m u).
Proof. intros H i Hi. unfold u_to_x. cbv zeta. rewrite (A_rot u u' i H Hi). reflexivity. Qed.
End Factor.

Lemma vlist_veq n x y : veq n x y -> vlist n x = vlist n y.
Proof. intros H. unfold vlist. apply map_ext_in. intros i Hi. apply in_seq in Hi. apply H. lia. Qed.

Section Ev.
Variables (n : nat) (T A T' A' Ro : mat).
Hypothesis H1 : inverse_pair n T A.
Hypothesis H2 : inverse_pair n T' A'.
Hypothesis F1 : factor_of n A Ro.
Hypothesis F2 : factor_of n A' Ro.
Variables (inv : nat -> mat -> result mat) (e0 : exn).
Hypothesis HI : inv_total n inv e0.
Variables (fuel : nat) (s : smodel) (expr : expression) (o : lsopts) (m : nat -> rv).
Notation Q := (Qf n A T').
Notation Qi := (Qb n T A').

(** jacobian' = Q jacobian *)
Lemma jac_rot u u' : rot n Q u u' ->
  meq n (jacobian n T' A' m u' (u_to_x n A' m u')) (mmul n Q (jacobian n T A m u (u_to_x n A m u))).
Proof.
  intros H i j Hi Hj. unfold jacobian. rewrite <- mmul_assoc.
  assert (QT : meq n (mmul n Q T) T').
  { intros a b Ha Hb. unfold Qf. rewrite mmul_assoc. rewrite <- (mmul_eye_r n T' a b Hb). apply fsum_ext. intros k Hk. f_equal. apply H1; assumption. }
  apply fsum_ext. intros k Hk. rewrite (QT i k Hi Hk). f_equal. unfold jac_diag. cbv zeta. destruct (Nat.eqb k j) eqn:E; [|reflexivity].
  rewrite (A_rot n A T' A' H2 u u' k H Hk), (x_rot n A T' A' H2 m u u' H k Hk). reflexivity.
Qed.

Lemma inverse_meq B C D : meq n C D -> inverse_pair n B C -> inverse_pair n B D.
Proof.
  intros H [P1 P2]. split; intros i j Hi Hj.
  - rewrite <- (P1 i j Hi Hj). apply fsum_ext. intros k Hk. f_equal. symmetry. apply H; assumption.
  - rewrite <- (P2 i j Hi Hj). apply fsum_ext. intros k Hk. f_equal. symmetry. apply H; assumption.
Qed.
Lemma inverse_mul B C B' C' : inverse_pair n B C -> inverse_pair n B' C' -> inverse_pair n (mmul n B B') (mmul n C' C).
Proof.
  intros [P1 P2] [R1 R2]. split.
  - eapply meq_trans; [apply (cancel_mid n B B' C' C R1)|exact P1].
  - eapply meq_trans; [apply (cancel_mid n C' C B B' P2)|exact R2].
Qed.
Lemma inverse_sym B C : inverse_pair n B C -> inverse_pair n C B.
Proof. intros [P1 P2]. split; assumption. Qed.

Lemma pull_rot grad J J' : meq n J' (mmul n J Qi) -> rot n Q (pull_gradient n grad J) (pull_gradient n grad J').
Proof.
  intros H j Hj. unfold pull_gradient, mvec.
  rewrite (fsum_ext n (fun i => grad i * J' i j) (fun i => fsum n (fun k => Q j k * (grad i * J i k)))).
  - rewrite fsum_swap. apply fsum_ext. intros k _. apply fsum_scal.
  - intros i Hi. rewrite (H i j Hi Hj). unfold mmul at 1. rewrite <- fsum_scal. apply fsum_ext. intros k Hk.
    rewrite <- (Q_trans n T A T' A' Ro H1 H2 F1 F2 k j Hk Hj). unfold mtrans. ring.
Qed.

Lemma ev_factor : ev_rot n Q (form_ev fuel s expr o n T A inv m) (form_ev fuel s expr o n T' A' inv m).
Proof.
  intros u u' H. unfold form_ev. cbv zeta. unfold computeTransformation.
  set (x := u_to_x n A m u). set (x' := u_to_x n A' m u').
  assert (EJ := jac_rot u u' H). fold x x' in EJ.
  destruct HI as (I1 & I2 & I3).
  rewrite (vlist_veq n x' x (x_rot n A T' A' H2 m u u' H)).
  pose proof (Q_pair n T A T' A' H1 H2) as QP.
  destruct (inv n (jacobian n T A m u x)) as [J|e] eqn:E1; destruct (inv n (jacobian n T' A' m u' x')) as [J'|e'] eqn:E2.
  - assert (PJ : inverse_pair n J (jacobian n T A m u x)) by (apply I1; exact E1).
    assert (PJ' : inverse_pair n J' (jacobian n T' A' m u' x')) by (apply I1; exact E2).
    assert (U : meq n J' (mmul n J Qi)).
    { apply (inverse_unique n (jacobian n T' A' m u' x')); [apply inverse_sym; exact PJ'|].
      apply inverse_sym. apply (inverse_meq _ (mmul n Q (jacobian n T A m u x))); [apply meq_sym; exact EJ|].
      apply inverse_mul; [exact PJ|apply inverse_sym, QP]. }
    destruct (ev_out (evaluate_lsf fuel s expr o None n [vlist n x])) as [G gr|e|]; [|split; reflexivity|split; reflexivity].
    split; [reflexivity|]. split; [|reflexivity]. apply pull_rot, U.
  - exfalso. assert (PJ : inverse_pair n J (jacobian n T A m u x)) by (apply I1; exact E1).
    destruct (I2 (jacobian n T' A' m u' x') (mmul n J Qi)) as [C HC]; [|congruence].
    apply (inverse_meq _ (mmul n Q (jacobian n T A m u x))); [apply meq_sym; exact EJ|]. apply inverse_mul; [exact PJ|apply inverse_sym, QP].
  - exfalso. assert (PJ : inverse_pair n J' (jacobian n T' A' m u' x')) by (apply I1; exact E2).
    assert (PJ2 : inverse_pair n J' (mmul n Q (jacobian n T A m u x))) by (apply (inverse_meq _ _ _ EJ PJ)).
    destruct (I2 (jacobian n T A m u x) (mmul n J' Q)) as [C HC]; [|congruence].
    apply (inverse_meq _ (mmul n Qi (mmul n Q (jacobian n T A m u x)))).
    + intros i j Hi Hj. rewrite <- mmul_assoc. rewrite <- (mmul_eye_l n (jacobian n T A m u x) i j Hi).
      apply fsum_ext. intros k Hk. f_equal. apply QP; assumption.
    + apply inverse_mul; [exact PJ2|exact QP].
  - split; [|reflexivity]. rewrite (I3 _ _ E1), (I3 _ _ E2). reflexivity.
Qed.

Lemma trial_factor us us' : Forall2 (rot n Q) us us' -> form_trial fuel s expr o n A' m us' = form_trial fuel s expr o n A m us.
Proof.
  intros F. unfold form_trial. cbv zeta.
  assert (E : map (fun u => vlist n (u_to_x n A' m u)) us' = map (fun u => vlist n (u_to_x n A m u)) us).
  { induction F as [|u u' us us' H F IH]; [reflexivity|]. cbn. rewrite IH. f_equal. apply vlist_veq, (x_rot n A T' A' H2), H. }
  rewrite E. reflexivity.
Qed.
End Ev.
