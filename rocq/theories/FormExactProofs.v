(** Automatic steps on an affine limit state from the origin: no iterate passes the stopping test
    before a full step is accepted, so the result is exact. *)
From Coquelicot Require Import Coquelicot.
From Verif Require Import Base Ext Gauss GaussProofs StochModel LimitState Transf TransfSpec TransfProofs Form FormProofs FormAffineProofs.
From Coq Require Import ZArith Lra Lia.

Section A.
  Variables (n : nat) (o : form_opts) (ev : vec -> result (R * vec) * nat)
            (trial : list vec -> result (list R) * nat) (evn : option exn).
  Variables (a : vec) (b : R).
  Hypothesis Ha : norm n a <> 0.
  Hypothesis Hev : forall u, exists g k, ev u = (Ok (b - dot n a u, g), k) /\ veq n g (fun i => - a i).
  Hypothesis Htrial : forall us, exists k, trial us = (Ok (map (fun u => b - dot n a u) us), k).
  Notation loop := (form_loop n o ev trial evn).
  Notation na := (norm n a).
  Notation us := (ustar n a b).

  Lemma step_auto_half u g : fo_step o = 0 -> o_multi_proc (fo_ls o) = 1%Z -> veq n g (fun i => - a i) ->
    exists t k, getStepSize n o trial (b - dot n a u) g u (search_dir n (b - dot n a u) g u) = (Ok t, k) /\
      1 / 32 <= t <= 1 /\ (t = 1 \/ t <= 1 / 2) /\
      (merit_of n (penalty n g u) us 0 <= merit_of n (penalty n g u) u (b - dot n a u) -> t = 1).
  Proof.
    intros HS HM Hg.
    destruct (step_auto n o trial a b Ha Htrial u g HS HM Hg) as (t & k & E & B & F).
    exists t, k. split; [exact E|]. split; [exact B|]. split; [|exact F].
    unfold getStepSize, computeStepSize in E. rewrite (proj2 (Reqb_spec _ _) HS), HM in E. cbn [Z.eqb Pos.eqb] in E.
    destruct (Htrial (map (fun t => fun i => u i + search_dir n (b - dot n a u) g u i * t) trial_steps)) as (k1 & Et). rewrite Et in E.
    injection E as E _. clear - E. subst t. repeat match goal with |- context [Rltb ?x ?y] => destruct (Rltb x y) end; first [left; lra|right; lra].
  Qed.

  Lemma ray_dot u p : veq n u (fun j => (1 - p) * us j) -> dot n a u = (1 - p) * b.
  Proof.
    intros H. rewrite (dot_ext n a u a (fun j => (1 - p) * us j) ltac:(intros j _; reflexivity) H), dot_scal_r, (a_ustar n a b Ha). reflexivity.
  Qed.
  Lemma ray_dist u p : 0 <= p -> veq n u (fun j => (1 - p) * us j) -> dist n a b u = p * (Rabs b / na).
  Proof.
    intros Hp H. unfold dist. rewrite (norm_ext n _ (fun j => (- p) * us j)) by (intros j Hj; rewrite (H j Hj); ring).
    unfold norm at 1. rewrite dot_scal_l, dot_scal_r. replace (- p * (- p * dot n us us)) with (Rsqr p * dot n us us) by (unfold Rsqr; ring).
    rewrite sqrt_mult by (first [apply Rle_0_sqr|apply dot_self_nonneg]). rewrite sqrt_Rsqr by lra.
    fold (norm n us). rewrite (ustar_norm n a b Ha). reflexivity.
  Qed.

  Lemma auto_exact_loop : fo_step o = 0 -> o_multi_proc (fo_ls o) = 1%Z -> 0 < fo_e1 o <= 1 / 3 -> 0 < fo_e2 o -> b <> 0 ->
    forall K fuel i Go u p lG lg calls,
    1 / 3 <= p <= 1 -> veq n u (fun j => (1 - p) * us j) -> (Go = Some b \/ (Go = None /\ p = 1)) ->
    (31 / 32) ^ K * p <= 2 / 3 -> (i + Z.of_nat K + 1 < fo_imax o)%Z -> (K + 1 < fuel)%nat ->
    exists r c, loop fuel i Go (Some u) lG lg calls = (FDone r, c) /\ fr_G r = 0 /\ form_beta n r = Fin (b / na) /\
      (exists u', fr_u r = Some u' /\ veq n u' us) /\ (fr_i r <= i + Z.of_nat K + 1)%Z.
  Proof.
    intros HS HM [H1 H1'] H2 Hb. pose proof (norm_pos n a Ha) as P.
    assert (PB : 0 < Rabs b / na) by (apply Rdiv_lt_0_compat; [now apply Rabs_pos_lt|exact P]).
    induction K as [|K IH]; intros fuel i Go u p lG lg calls Hp Hu HG HK Hi Hf.
    all: destruct fuel as [|f]; [lia|]; cbn [form_loop]; destruct (Hev u) as (g & k & E & Hg); rewrite E.
    all: assert (En : Reqb (norm n g) 0 = false) by (apply Reqb_false; rewrite (grad_norm n a g Hg); lra); rewrite En.
    all: assert (EGo : (match Go with Some q => q | None => b - dot n a u end) = b)
           by (destruct HG as [->|[-> ->]]; [reflexivity|]; rewrite (ray_dot u 1 Hu); ring).
    all: replace (match Go with None => b - dot n a u | Some q => q end) with b by (symmetry; exact EGo).
    all: assert (EC : xltb (e1_of (b - dot n a u) b) (Fin (fo_e1 o)) = false).
    1,3: apply not_true_is_false; intros C; apply e1_lt in C; destruct C as [_ C]; rewrite (ray_dot u p Hu) in C;
         replace ((b - (1 - p) * b) / b) with p in C by (field; exact Hb); rewrite Rabs_right in C by lra; lra.
    all: rewrite EC; cbn [andb orb]; assert (EI : (i =? fo_imax o)%Z = false) by (apply Z.eqb_neq; lia); rewrite EI.
    all: destruct (step_auto_half u g HS HM Hg) as (t & k2 & ES & Ht & Hh & Ht1); rewrite ES.
    - assert (t = 1).
      { apply Ht1. apply (full_accept n a b Ha); [exact Hg|]. right. rewrite (ray_dist u p ltac:(lra) Hu). apply Rmult_le_compat_r; [lra|]. simpl in HK. lra. }
      subst t.
      destruct (stay_at_star n o ev trial evn a b Ha Hev Htrial H1 H2 (or_intror HM) f (i + 1)%Z b
          (fun j => u j + 1 * search_dir n (b - dot n a u) g u j) (b - dot n a u) g (calls + k + k2)%nat) as (r & c & E3 & E4 & E5 & E6 & E7).
      + intros j Hj. rewrite (dir_aff n a b Ha g u j Hg Hj). ring.
      + lia.
      + lia.
      + intros C. contradiction.
      + exists r, c. split; [exact E3|]. split; [exact E4|]. split; [exact E5|]. split; [exact E6|]. rewrite (E7 Hb). lia.
    - destruct (Rle_lt_dec p (2 / 3)) as [L|L]; [assert (t1 : t = 1)|destruct Hh as [t1|th]].
      { apply Ht1. apply (full_accept n a b Ha); [exact Hg|]. right. rewrite (ray_dist u p ltac:(lra) Hu). apply Rmult_le_compat_r; lra. }
      1,2: subst t;
      destruct (stay_at_star n o ev trial evn a b Ha Hev Htrial H1 H2 (or_intror HM) f (i + 1)%Z b
          (fun j => u j + 1 * search_dir n (b - dot n a u) g u j) (b - dot n a u) g (calls + k + k2)%nat) as (r & c & E3 & E4 & E5 & E6 & E7);
      [intros j Hj; rewrite (dir_aff n a b Ha g u j Hg Hj); ring|lia|lia|intros C; contradiction|
       exists r, c; split; [exact E3|]; split; [exact E4|]; split; [exact E5|]; split; [exact E6|]; rewrite (E7 Hb); lia].
      destruct (IH f (i + 1)%Z (Some b) (fun j => u j + t * search_dir n (b - dot n a u) g u j) ((1 - t) * p) (b - dot n a u) g (calls + k + k2)%nat) as (r & c & E3 & E4 & E5 & E6 & E7).
      + split; nra.
      + intros j Hj. rewrite (dir_aff n a b Ha g u j Hg Hj), (Hu j Hj). ring.
      + left. reflexivity.
      + apply Rle_trans with (2 := HK). simpl pow. assert (0 <= (31 / 32) ^ K) by (apply pow_le; lra).
        assert ((1 - t) * p <= 31 / 32 * p) by nra. assert (0 <= (31 / 32) ^ K) by assumption. nra.
      + lia.
      + lia.
      + exists r, c. split; [exact E3|]. split; [exact E4|]. split; [exact E5|]. split; [exact E6|]. lia.
  Qed.
End A.

Lemma auto_exact n o ev trial evn (a : vec) b : norm n a <> 0 ->
  (forall u, exists g k, ev u = (Ok (b - dot n a u, g), k) /\ veq n g (fun i => - a i)) ->
  (forall us, exists k, trial us = (Ok (map (fun u => b - dot n a u) us), k)) ->
  fo_step o = 0 -> o_multi_proc (fo_ls o) = 1%Z -> 0 < fo_e1 o <= 1 / 3 -> 0 < fo_e2 o -> (15 < fo_imax o)%Z ->
  forall fuel u0, (Z.to_nat (fo_imax o) < fuel)%nat -> veq n u0 (fun _ => 0) ->
  exists r c, form_run n o ev trial evn fuel u0 = (FDone r, c) /\ fr_G r = 0 /\ form_beta n r = Fin (b / norm n a) /\
    (exists u', fr_u r = Some u' /\ veq n u' (fun i => b / (norm n a * norm n a) * a i)) /\ (b <> 0 -> (fr_i r <= 15)%Z).
Proof.
  intros Ha Hev Ht HS HM H1 H2 Hi fuel u0 Hf Hu. unfold form_run. destruct (Req_dec b 0) as [Hb|Hb].
  - assert (Hs : veq n u0 (ustar n a b)) by (intros j Hj; rewrite (Hu j Hj); unfold ustar; rewrite Hb; unfold Rdiv; ring).
    assert (P := norm_pos n a Ha). destruct fuel as [|f]; [lia|]. cbn [form_loop]. destruct (Hev u0) as (g & k & E & Hg). rewrite E.
    assert (En : Reqb (norm n g) 0 = false) by (apply Reqb_false; rewrite (grad_norm n a g Hg); lra). rewrite En.
    assert (EG : b - dot n a u0 = 0) by (rewrite (dot_ext n a u0 a (ustar n a b) ltac:(intros j _; reflexivity) Hs), (a_ustar n a b Ha); ring).
    assert (EC : xltb (e1_of (b - dot n a u0) (b - dot n a u0)) (Fin (fo_e1 o)) = false).
    { apply not_true_is_false. intros C. apply e1_lt in C. destruct C as [C _]. apply C, EG. }
    rewrite EC. assert (EI : (1 =? fo_imax o)%Z = false) by (apply Z.eqb_neq; lia). rewrite EI. cbn [andb orb].
    destruct (step_auto n o trial a b Ha Ht u0 g HS HM Hg) as (t & k2 & ES & Bt & Ht1). rewrite ES.
    assert (t = 1) by (apply Ht1; apply (full_accept n a b Ha); [exact Hg|left; exact Hb]). subst t.
    destruct (stay_at_star n o ev trial evn a b Ha Hev Ht ltac:(lra) H2 (or_intror HM) f (1 + 1)%Z (b - dot n a u0)
       (fun j => u0 j + 1 * search_dir n (b - dot n a u0) g u0 j) (b - dot n a u0) g (0 + k + k2)%nat) as (r & c & E3 & E4 & E5 & E6 & E7).
    + intros j Hj. rewrite (dir_aff n a b Ha g u0 j Hg Hj). ring.
    + lia.
    + lia.
    + intros _. lia.
    + exists r, c. split; [exact E3|]. split; [exact E4|]. split; [exact E5|]. split; [exact E6|]. intros C. contradiction.
  - destruct (auto_exact_loop n o ev trial evn a b Ha Hev Ht HS HM H1 H2 Hb 13%nat fuel 1%Z None u0 1 0 (fun _ => 0) 0%nat) as (r & c & E3 & E4 & E5 & E6 & E7).
    + lra.
    + intros j Hj. rewrite (Hu j Hj). ring.
    + right. split; reflexivity.
    + simpl. lra.
    + lia.
    + lia.
    + exists r, c. split; [exact E3|]. split; [exact E4|]. split; [exact E5|]. split; [exact E6|]. intros _. lia.
Qed.
