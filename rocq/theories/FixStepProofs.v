(** Lemmas for C132: FORM with a fixed step size on an affine limit state. *)
From Coquelicot Require Import Coquelicot.
From Verif Require Import Base Ext Gauss StochModel LimitState Transf Form FormProofs FormProps.
From Coq Require Import ZArith Lra Lia.
Open Scope R_scope.

Section F.
  Variables (n : nat) (o : form_opts) (ev : vec -> result (R * vec) * nat) (trial : list vec -> result (list R) * nat) (evn : option exn).
  Variables (a : vec) (b : R) (u0 : vec).
  Hypothesis Ha : norm n a <> 0.
  Hypothesis Hev : affine_ev n a b ev.
  Hypothesis Hs : fo_step o <> 0.
  Notation N := (norm n a).
  Notation q := (1 - fo_step o).
  Definition ustar : vec := fun i => b / (N * N) * a i.
  Definition uk (k : nat) : vec := fun i => ustar i + q ^ k * (u0 i - ustar i).
  Definition off : R := norm n (fun i => u0 i - dot n a u0 / (N * N) * a i).

  Lemma aa : dot n a a = N * N.
  Proof. unfold norm. rewrite sqrt_sqrt; [reflexivity|]. apply fsum_nonneg. intros i _. nra. Qed.
  Lemma a_star : dot n a ustar = b.
  Proof. unfold ustar. rewrite dot_scal_r, aa. field. exact Ha. Qed.
  Lemma a_uk k : dot n a (uk k) = b + q ^ k * (dot n a u0 - b).
  Proof.
    unfold uk. rewrite (dot_add_r n a ustar (fun i => q ^ k * (u0 i - ustar i))), dot_scal_r, (dot_sub_r n a u0 ustar), a_star. reflexivity.
  Qed.
  Section G.
  Variable g : vec.
  Hypothesis Eg : veq n g (fun i => - a i).
  Lemma ng : norm n g = N.
  Proof. rewrite (norm_ext n _ _ Eg). unfold norm. f_equal. unfold dot. apply fsum_ext. intros i _. ring. Qed.
  Lemma al : veq n (alpha_of n g) (fun i => / N * a i).
  Proof. intros i Hi. unfold alpha_of. rewrite ng, (Eg i Hi). field. exact Ha. Qed.
  Lemma al_dot u v : veq n u v -> dot n (alpha_of n g) u = dot n a v / N.
  Proof. intros E. rewrite (dot_ext n _ _ _ _ al E), dot_scal_l. field. exact Ha. Qed.
  Lemma next k u : veq n u (uk k) -> veq n (fun j => u j + fo_step o * search_dir n (b - dot n a u) g u j) (uk (S k)).
  Proof.
    intros E i Hi. unfold search_dir. rewrite (al_dot u u (fun i _ => eq_refl)), ng, (al i Hi), (E i Hi). unfold uk. cbn [pow].
    replace ((b - dot n a u) * / N + dot n a u / N) with (b / N) by (field; exact Ha).
    unfold ustar. field. exact Ha.
  Qed.
  Lemma e2_k k u : veq n u (uk k) -> e2_of n (alpha_of n g) u = Rabs (q ^ k) * off.
  Proof.
    intros E. unfold e2_of, off. rewrite (al_dot u (uk k) E), a_uk.
    transitivity (norm n (fun i => q ^ k * (u0 i - dot n a u0 / (N * N) * a i))).
    - apply norm_ext. intros i Hi. rewrite (E i Hi), (al i Hi). unfold uk, ustar. field. exact Ha.
    - set (v := fun i => u0 i - dot n a u0 / (N * N) * a i). change (norm n (fun i => q ^ k * v i) = Rabs (q ^ k) * norm n v). unfold norm. rewrite (dot_scal_l n (q ^ k) v (fun i => q ^ k * v i)), (dot_scal_r n (q ^ k) v v).
      replace (q ^ k * (q ^ k * dot n v v)) with (Rsqr (q ^ k) * dot n v v) by (unfold Rsqr; ring).
      rewrite sqrt_mult_alt by apply Rle_0_sqr. now rewrite sqrt_Rsqr_abs.
  Qed.
  End G.

  Definition Gk (k : nat) : R := q ^ k * (b - dot n a u0).
  Definition ends (k : nat) : Prop :=
    Z.of_nat (S k) = fo_imax o \/ (b - dot n a u0 <> 0 /\ Rabs q ^ k < fo_e1 o /\ Rabs q ^ k * off < fo_e2 o).
  Lemma test k g u G : veq n g (fun i => - a i) -> veq n u (uk k) -> G = Gk k ->
    (xltb (e1_of G (b - dot n a u0)) (Fin (fo_e1 o)) && Rltb (e2_of n (alpha_of n g) u) (fo_e2 o) = true <->
     b - dot n a u0 <> 0 /\ Rabs q ^ k < fo_e1 o /\ Rabs q ^ k * off < fo_e2 o).
  Proof.
    intros Eg Eu ->. rewrite Bool.andb_true_iff, e1_lt, Rltb_spec, (e2_k g Eg k u Eu), !RPow_abs. unfold Gk.
    split; intros H.
    - destruct H as [[X Y] Z]. split; [exact X|]. split; [|exact Z]. replace (q ^ k * (b - dot n a u0) / (b - dot n a u0)) with (q ^ k) in Y by (field; exact X). exact Y.
    - destruct H as [X [Y Z]]. split; [|exact Z]. split; [exact X|]. replace (q ^ k * (b - dot n a u0) / (b - dot n a u0)) with (q ^ k) by (field; exact X). exact Y.
  Qed.
  Lemma loop_fixed : forall m k fuel Go u lG lg calls, (Z.of_nat (S k) + Z.of_nat m = fo_imax o)%Z -> (m < fuel)%nat ->
    (match Go with Some q => q = b - dot n a u0 | None => k = O end) -> veq n u (uk k) ->
    exists K r c u', form_loop n o ev trial evn fuel (Z.of_nat (S k)) Go (Some u) lG lg calls = (FDone r, c) /\ (k <= K)%nat /\
      fr_i r = Z.of_nat (S K) /\ ends K /\ (forall j, (k <= j < K)%nat -> ~ ends j) /\ fr_G r = Gk K /\ fr_u r = Some u' /\
      veq n u' (uk K) /\ form_beta n r = Fin (dot n a (uk K) / N).
  Proof.
    induction m as [|m IH]; intros k fuel Go u lG lg calls Hm Hf HG Hu; (destruct fuel as [|fuel]; [lia|]).
    all: cbn [form_loop]; destruct (Hev u) as (g & kc & E & Eg); rewrite E; cbn match.
    all: assert (Nz : Reqb (norm n g) 0 = false) by (rewrite (ng g Eg); now apply Reqb_false); rewrite Nz.
    all: assert (EG : b - dot n a u = Gk k) by (rewrite (dot_ext n a u a (uk k) (fun i _ => eq_refl) Hu), a_uk; unfold Gk; ring).
    all: assert (EGo : match Go with Some q => q | None => b - dot n a u end = b - dot n a u0) by (destruct Go; [exact HG|subst k; rewrite EG; unfold Gk; cbn; ring]); rewrite EGo.
    all: pose proof (test k g u (b - dot n a u) Eg Hu EG) as T.
    all: assert (B : forall i G Go gg, veq n gg (fun i => - a i) -> form_beta n (mkfr i (Some u) G Go gg) = Fin (dot n a (uk k) / N)) by (intros i0 G0 Go0 gg Egg; unfold form_beta; cbn [fr_u fr_grad]; f_equal; now apply al_dot).
    - assert (C3 : (Z.of_nat (S k) =? fo_imax o)%Z = true) by (apply Z.eqb_eq; lia). rewrite C3, Bool.orb_true_r. exists k. do 3 eexists. split; [reflexivity|]. split; [lia|]. split; [reflexivity|]. split; [left; lia|]. split; [intros; lia|]. split; [exact EG|]. split; [reflexivity|]. split; [exact Hu|]. now apply B.
    - assert (C3 : (Z.of_nat (S k) =? fo_imax o)%Z = false) by (apply Z.eqb_neq; lia). rewrite C3, Bool.orb_false_r.
      match type of T with ?x = true <-> _ => destruct x eqn:C1 end.
      + exists k. do 3 eexists. split; [reflexivity|]. split; [lia|]. split; [reflexivity|]. split; [right; now apply T|]. split; [intros; lia|]. split; [exact EG|]. split; [reflexivity|]. split; [exact Hu|]. now apply B.
      + assert (GS : forall d, getStepSize n o trial (b - dot n a u) g u d = (Ok (fo_step o), O)) by (intros d; unfold getStepSize; rewrite (proj2 (Reqb_false _ _) Hs); reflexivity).
        rewrite GS. replace (Z.of_nat (S k) + 1)%Z with (Z.of_nat (S (S k))) by lia.
        destruct (IH (S k) fuel (Some (b - dot n a u0)) (fun j => u j + fo_step o * search_dir n (b - dot n a u) g u j) (b - dot n a u) g (calls + kc + 0)%nat) as (K & r & c & u' & R1 & R2 & R3 & R4 & R5 & R6); [lia|lia|reflexivity|exact (next g Eg k u Hu)|].
        exists K, r, c, u'. split; [exact R1|]. split; [lia|]. split; [exact R3|]. split; [exact R4|]. split; [|exact R6].
        intros j Hj. destruct (Nat.eq_dec j k) as [->|]; [|apply R5; lia]. intros [S|S]; [lia|]. apply T in S. discriminate.
  Qed.
End F.
