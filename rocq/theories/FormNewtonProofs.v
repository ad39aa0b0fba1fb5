From Coquelicot Require Import Coquelicot.
From Verif Require Import Base Ext Gauss StochModel LimitState Transf Form FormProofs FormProps.
From Coq Require Import ZArith Lra Lia.
Open Scope R_scope.

(** Newton's iteration for phi from t0, and from 0 *)
Definition newton_from (phi dphi : R -> R) (t0 : R) (k : nat) : R := Nat.iter k (fun t => t - phi t / dphi t) t0.
Definition newton (phi dphi : R -> R) (k : nat) : R := newton_from phi dphi 0 k.

Section N1.
  Variables (n : nat) (o : form_opts) (ev : vec -> result (R * vec) * nat) (trial : list vec -> result (list R) * nat) (evn : option exn).
  Variables (a : vec) (phi dphi : R -> R) (t0 : R).
  Hypothesis Ua : dot n a a = 1.
  Hypothesis Hev : forall u, exists g k, ev u = (Ok (phi (dot n a u), g), k) /\ veq n g (fun i => dphi (dot n a u) * a i).
  Hypothesis Hstep : fo_step o = 1.
  Hypothesis He2 : 0 < fo_e2 o.
  Hypothesis H0 : phi t0 <> 0.
  Notation tau := (newton_from phi dphi t0).
  Hypothesis Hd : forall k, (Z.of_nat (S k) <= fo_imax o)%Z -> dphi (tau k) <> 0.

  Lemma norm_ca c g : veq n g (fun i => c * a i) -> norm n g = Rabs c.
  Proof. intros E. rewrite (norm_ext n _ _ E). unfold norm. rewrite dot_scal_l, dot_scal_r, Ua. replace (c * (c * 1)) with (Rsqr c) by (unfold Rsqr; ring). apply sqrt_Rsqr_abs. Qed.
  Lemma dot_ta t u : veq n u (fun i => t * a i) -> dot n a u = t.
  Proof. intros E. rewrite (dot_ext n a u a (fun i => t * a i)); [rewrite dot_scal_r, Ua; ring|intros i _; reflexivity|exact E]. Qed.
  Lemma alpha_ca c g : c <> 0 -> veq n g (fun i => c * a i) -> veq n (alpha_of n g) (fun i => - (c / Rabs c) * a i).
  Proof. intros Hc E i Hi. unfold alpha_of. rewrite (norm_ca c g E), (E i Hi). field. apply Rabs_no_R0, Hc. Qed.
  Lemma dot_alpha c g t u : c <> 0 -> veq n g (fun i => c * a i) -> veq n u (fun i => t * a i) -> dot n (alpha_of n g) u = - (c / Rabs c) * t.
  Proof. intros Hc Eg Eu. rewrite (dot_ext n _ _ _ _ (alpha_ca c g Hc Eg) Eu), dot_scal_l, dot_scal_r, Ua. ring. Qed.
  Lemma sign_sq c : c <> 0 -> (c / Rabs c) * (c / Rabs c) = 1.
  Proof. intros Hc. assert (Rabs c <> 0) by apply Rabs_no_R0, Hc. assert (S : Rabs c * Rabs c = c * c) by (rewrite <- Rabs_mult, Rabs_right; [reflexivity|apply Rle_ge, Rle_0_sqr]). transitivity (c * c / (Rabs c * Rabs c)); [field; assumption|]. rewrite S. field. exact Hc. Qed.
  Lemma step_u c g t u : c <> 0 -> veq n g (fun i => c * a i) -> veq n u (fun i => t * a i) ->
    veq n (fun j => u j + fo_step o * search_dir n (phi t) g u j) (fun i => (t - phi t / c) * a i).
  Proof.
    intros Hc Eg Eu i Hi. cbn beta. rewrite Hstep. unfold search_dir. rewrite (dot_alpha c g t u Hc Eg Eu), (norm_ca c g Eg), (alpha_ca c g Hc Eg i Hi), (Eu i Hi). pose proof (sign_sq c Hc) as S. assert (Ra : Rabs c <> 0) by apply Rabs_no_R0, Hc.
    assert (I : / Rabs c * (c / Rabs c) = / c). { apply (Rmult_eq_reg_l c); [|exact Hc]. rewrite Rinv_r by exact Hc. rewrite <- S. unfold Rdiv. ring. }
    transitivity (t * a i * ((c / Rabs c) * (c / Rabs c)) - phi t * (/ Rabs c * (c / Rabs c)) * a i); [ring|]. rewrite S, I. unfold Rdiv. ring.
  Qed.
  (** the first step from a point off the line *)
  Lemma step_any c g u : c <> 0 -> veq n g (fun i => c * a i) ->
    veq n (fun j => u j + fo_step o * search_dir n (phi (dot n a u)) g u j) (fun i => (dot n a u - phi (dot n a u) / c) * a i).
  Proof.
    intros Hc Eg i Hi. cbn beta. rewrite Hstep. unfold search_dir.
    assert (DA : dot n (alpha_of n g) u = - (c / Rabs c) * dot n a u) by (rewrite (dot_ext n _ u (fun i => - (c / Rabs c) * a i) u (alpha_ca c g Hc Eg)) by (intros k _; reflexivity); apply dot_scal_l).
    rewrite DA, (norm_ca c g Eg), (alpha_ca c g Hc Eg i Hi). set (t := dot n a u). pose proof (sign_sq c Hc) as S. assert (Ra : Rabs c <> 0) by apply Rabs_no_R0, Hc.
    assert (I : / Rabs c * (c / Rabs c) = / c). { apply (Rmult_eq_reg_l c); [|exact Hc]. rewrite Rinv_r by exact Hc. rewrite <- S. unfold Rdiv. ring. }
    transitivity (t * a i * ((c / Rabs c) * (c / Rabs c)) - phi t * (/ Rabs c * (c / Rabs c)) * a i); [ring|]. rewrite S, I. unfold Rdiv. ring.
  Qed.
  Lemma e2_zero c g t u : c <> 0 -> veq n g (fun i => c * a i) -> veq n u (fun i => t * a i) -> e2_of n (alpha_of n g) u = 0.
  Proof.
    intros Hc Eg Eu. unfold e2_of. apply norm_eq0. intros i Hi. rewrite (dot_alpha c g t u Hc Eg Eu), (alpha_ca c g Hc Eg i Hi), (Eu i Hi). pose proof (sign_sq c Hc) as S. transitivity (t * a i * (1 - (c / Rabs c) * (c / Rabs c))); [ring|]. rewrite S. ring.
  Qed.

  Definition stops (k : nat) : Prop := Z.of_nat (S k) = fo_imax o \/ Rabs (phi (tau k)) < fo_e1 o * Rabs (phi t0).
  Lemma e1_stop G : xltb (e1_of G (phi t0)) (Fin (fo_e1 o)) = true <-> Rabs G < fo_e1 o * Rabs (phi t0).
  Proof.
    rewrite e1_lt. assert (P : 0 < Rabs (phi t0)) by (apply Rabs_pos_lt, H0). unfold Rdiv. rewrite Rabs_mult, Rabs_inv. split.
    - intros [_ L]. apply (Rmult_lt_compat_r (Rabs (phi t0))) in L; [|exact P]. rewrite Rmult_assoc, Rinv_l, Rmult_1_r in L by lra. exact L.
    - intros L. split; [exact H0|]. apply (Rmult_lt_reg_r (Rabs (phi t0))); [exact P|]. rewrite Rmult_assoc, Rinv_l, Rmult_1_r by lra. exact L.
  Qed.
  Lemma loop_newton : forall m k fuel Go u lG lg calls, (Z.of_nat (S k) + Z.of_nat m = fo_imax o)%Z -> (m < fuel)%nat ->
    (match Go with Some q => q = phi t0 | None => k = O end) -> veq n u (fun i => tau k * a i) ->
    exists K r c u', form_loop n o ev trial evn fuel (Z.of_nat (S k)) Go (Some u) lG lg calls = (FDone r, c) /\ (k <= K)%nat /\
      fr_i r = Z.of_nat (S K) /\ stops K /\ (forall j, (k <= j < K)%nat -> ~ stops j) /\ fr_G r = phi (tau K) /\ fr_Go r = phi t0 /\ fr_u r = Some u' /\ veq n u' (fun i => tau K * a i) /\ veq n (fr_grad r) (fun i => dphi (tau K) * a i).
  Proof.
    induction m as [|m IH]; intros k fuel Go u lG lg calls Hm Hf HG Hu; (destruct fuel as [|fuel]; [lia|]).
    all: cbn [form_loop]; destruct (Hev u) as (g & kc & E & Eg); rewrite E; cbn match; rewrite (dot_ta _ u Hu) in *.
    all: assert (Dk : dphi (tau k) <> 0) by (apply Hd; lia).
    all: assert (Nz : Reqb (norm n g) 0 = false) by (rewrite (norm_ca _ g Eg); destruct (Reqb (Rabs (dphi (tau k))) 0) eqn:Z; [apply Reqb_spec in Z; exfalso; exact (Rabs_no_R0 _ Dk Z)|reflexivity]); rewrite Nz.
    all: assert (EGo : match Go with Some q => q | None => phi (tau k) end = phi t0) by (destruct Go; [exact HG|subst k; reflexivity]); rewrite EGo.
    all: rewrite (e2_zero _ g _ u Dk Eg Hu); assert (C2 : Rltb 0 (fo_e2 o) = true) by (apply Rltb_spec, He2); rewrite C2, Bool.andb_true_r.
    - assert (C3 : (Z.of_nat (S k) =? fo_imax o)%Z = true) by (apply Z.eqb_eq; lia). rewrite C3, Bool.orb_true_r. exists k. do 3 eexists. split; [reflexivity|]. split; [lia|]. split; [reflexivity|]. split; [left; lia|]. split; [intros; lia|]. split; [reflexivity|]. split; [reflexivity|]. split; [reflexivity|]. split; [exact Hu|exact Eg].
    - assert (C3 : (Z.of_nat (S k) =? fo_imax o)%Z = false) by (apply Z.eqb_neq; lia). rewrite C3, Bool.orb_false_r. destruct (xltb (e1_of (phi (tau k)) (phi t0)) (Fin (fo_e1 o))) eqn:C1.
      + exists k. do 3 eexists. split; [reflexivity|]. split; [lia|]. split; [reflexivity|]. split; [right; apply e1_stop, C1|]. split; [intros; lia|]. split; [reflexivity|]. split; [reflexivity|]. split; [reflexivity|]. split; [exact Hu|exact Eg].
      + assert (GS : getStepSize n o trial (phi (tau k)) g u (search_dir n (phi (tau k)) g u) = (Ok (fo_step o), O)) by (unfold getStepSize; rewrite Hstep; destruct (Reqb 1 0) eqn:Z; [apply Reqb_spec in Z; lra|reflexivity]).
        rewrite GS. replace (Z.of_nat (S k) + 1)%Z with (Z.of_nat (S (S k))) by lia.
        destruct (IH (S k) fuel (Some (phi t0)) (fun j => u j + fo_step o * search_dir n (phi (tau k)) g u j) (phi (tau k)) g (calls + kc + 0)%nat) as (K & r & c & u' & R1 & R2 & R3 & R4 & R5 & R6); [lia|lia|reflexivity|exact (step_u _ g _ u Dk Eg Hu)|].
        exists K, r, c, u'. split; [exact R1|]. split; [lia|]. split; [exact R3|]. split; [exact R4|]. split; [|exact R6]. intros j Hj. destruct (Nat.eq_dec j k) as [->|]; [|apply R5; lia]. intros [S|S]; [lia|]. apply e1_stop in S. congruence.
  Qed.
End N1.
