From Coquelicot Require Import Coquelicot.
From Verif Require Import Base Ext Gauss GaussProofs StochModel StochModelSpec StochModelProofs LimitState LimitStateSpec LimitStateProofs Transf TransfSpec TransfProofs Form FormProofs.
From Coq Require Import ZArith Lra Lia.

Section A.
  Variables (n : nat) (o : form_opts) (ev : vec -> result (R * vec) * nat)
            (trial : list vec -> result (list R) * nat) (evn : option exn).
  Variables (a : vec) (b : R).
  Hypothesis Ha : norm n a <> 0.
  Hypothesis Hev : forall u, exists g k, ev u = (Ok (b - dot n a u, g), k) /\ veq n g (fun i => - a i).
  Hypothesis Htrial : forall us, exists k, trial us = (Ok (map (fun u => b - dot n a u) us), k).
  Notation loop := (form_loop n o ev trial evn).

  Let na := norm n a.
  Definition ustar : vec := fun i => b / (norm n a * norm n a) * a i.

  Lemma na_pos : 0 < na. Proof. apply norm_pos. exact Ha. Qed.

  Lemma grad_norm g : veq n g (fun i => - a i) -> norm n g = na.
  Proof.
    intros H. rewrite (norm_ext n g (fun i => - a i) H). unfold norm, dot, na, norm, dot. f_equal.
    apply fsum_ext. intros; ring.
  Qed.

  Lemma alpha_aff g i : veq n g (fun i => - a i) -> (i < n)%nat -> alpha_of n g i = a i / na.
  Proof. intros H Hi. unfold alpha_of. rewrite (grad_norm g H), H by exact Hi. field. apply Rgt_not_eq, na_pos. Qed.

  Lemma alpha_dot g v : veq n g (fun i => - a i) -> dot n (alpha_of n g) v = dot n a v / na.
  Proof.
    intros H. pose proof na_pos as P. rewrite (dot_ext n _ _ (fun i => / na * a i) v).
    - rewrite dot_scal_l. field. lra.
    - intros i Hi. rewrite (alpha_aff g i H Hi). field. lra.
    - intros i _. reflexivity.
  Qed.

  (** the search direction points exactly to the design point *)
  Lemma dir_aff g u i : veq n g (fun i => - a i) -> (i < n)%nat ->
    search_dir n (b - dot n a u) g u i = ustar i - u i.
  Proof.
    intros H Hi. unfold search_dir. cbv zeta. rewrite (alpha_dot g u H), (alpha_aff g i H Hi), (grad_norm g H).
    unfold ustar. fold na. field. apply Rgt_not_eq, na_pos.
  Qed.

  Lemma a_ustar : dot n a ustar = b.
  Proof.
    unfold ustar. rewrite dot_scal_r. rewrite <- norm_sqr. field. exact Ha.
  Qed.

  Lemma ustar_norm : norm n ustar = Rabs b / na.
  Proof.
    pose proof na_pos as P. unfold norm at 1. unfold ustar. rewrite dot_scal_l, dot_scal_r, <- norm_sqr. fold na.
    replace (b / (na * na) * (b / (na * na) * (na * na))) with ((b / na) * (b / na)) by (field; lra).
    change (sqrt (Rsqr (b / na)) = Rabs b / na). rewrite sqrt_Rsqr_abs.
    unfold Rdiv. rewrite Rabs_mult, (Rabs_right (/ na)); [reflexivity|]. left. apply Rinv_0_lt_compat. exact P.
  Qed.

  (** a point that equals ustar on the first n components satisfies both criteria *)
  Lemma at_star u g q : veq n u ustar -> veq n g (fun i => - a i) -> q <> 0 -> 0 < fo_e1 o -> 0 < fo_e2 o ->
    b - dot n a u = 0 /\
    xltb (e1_of (b - dot n a u) q) (Fin (fo_e1 o)) = true /\ e2_of n (alpha_of n g) u < fo_e2 o.
  Proof.
    intros Hu Hg Hq H1 H2. pose proof na_pos as P.
    assert (E : dot n a u = b). { rewrite (dot_ext n a u a ustar); [apply a_ustar|intros i _; reflexivity|exact Hu]. }
    split; [lra|]. split.
    - apply e1_lt. split; [exact Hq|]. rewrite E. replace ((b - b) / q) with 0 by (field; exact Hq). rewrite Rabs_R0. exact H1.
    - unfold e2_of. rewrite (proj2 (norm_eq0 n _)); [exact H2|]. intros i Hi.
      rewrite (alpha_dot g u Hg), (alpha_aff g i Hg Hi), E, (Hu i Hi). unfold ustar. fold na. field. lra.
  Qed.

  Lemma beta_of u g : veq n g (fun i => - a i) -> dot n (alpha_of n g) u = b / na - (b - dot n a u) / na.
  Proof. intros Hg. rewrite (alpha_dot g u Hg). field. apply Rgt_not_eq, na_pos. Qed.

  (** a converged result is accurate to the tolerance, whatever the steps were *)
  Lemma converged_accuracy fuel u0 r c :
    form_run n o ev trial evn fuel u0 = (FDone r, c) -> fr_i r <> fo_imax o ->
    exists beta, form_beta n r = Fin beta /\
      Rabs (beta - b / na) < fo_e1 o * Rabs (b - dot n a u0) / na.
  Proof.
    intros H Hi. pose proof na_pos as P. apply form_stop in H. destruct H as [_ [H|H]]; [contradiction|].
    destruct H as (u & Go & g0 & Eu & E0 & HGo & E & E1 & _).
    destruct (Hev u0) as (g0' & k0 & Ev0 & _). rewrite Ev0 in E0. cbn [fst] in E0. inversion E0; subst Go g0'. clear E0.
    destruct (Hev u) as (g & k & Ev & Hg). rewrite Ev in E. cbn [fst] in E. injection E as EG Eg.
    unfold form_beta. rewrite Eu. eexists. split; [reflexivity|].
    rewrite <- Eg, (beta_of u g Hg).
    replace (b / na - (b - dot n a u) / na - b / na) with (- ((b - dot n a u) / na)) by ring.
    rewrite Rabs_Ropp. rewrite <- EG in E1. unfold Rdiv in *. rewrite Rabs_mult in *.
    rewrite (Rabs_right (/ na)) by (left; apply Rinv_0_lt_compat; exact P).
    apply Rmult_lt_compat_r; [apply Rinv_0_lt_compat; exact P|].
    rewrite (Rabs_Rinv _ HGo) in E1. pose proof (Rabs_pos_lt _ HGo) as PG.
    apply (Rmult_lt_compat_r _ _ _ PG) in E1. rewrite Rmult_assoc, Rinv_l in E1 by lra. lra.
  Qed.

  (** with a full-step option the second iterate is the design point; the run
      then stays there *)
  Lemma stay_at_star : 0 < fo_e1 o -> 0 < fo_e2 o -> (fo_step o <> 0 \/ o_multi_proc (fo_ls o) = 1%Z) ->
    forall fuel i q u lG lg calls,
    veq n u ustar -> (i <= fo_imax o)%Z -> (1 <= fuel)%nat -> (q = 0 -> (Z.to_nat (fo_imax o - i) < fuel)%nat) ->
    exists r c, loop fuel i (Some q) (Some u) lG lg calls = (FDone r, c) /\ fr_G r = 0 /\
      form_beta n r = Fin (b / na) /\ (exists u', fr_u r = Some u' /\ veq n u' ustar) /\
      (q <> 0 -> fr_i r = i).
  Proof.
    intros H1 H2 HS. pose proof na_pos as P.
    induction fuel as [|f IH]; intros i q u lG lg calls Hu Hi Hf1 Hf; [lia|].
    cbn [form_loop]. destruct (Hev u) as (g & k & E & Hg). rewrite E.
    assert (En : Reqb (norm n g) 0 = false) by (apply Reqb_false; rewrite (grad_norm g Hg); lra). rewrite En.
    assert (EG : b - dot n a u = 0).
    { rewrite (dot_ext n a u a ustar); [rewrite a_ustar; ring|intros j _; reflexivity|exact Hu]. }
    match goal with |- context [if ?c then _ else _] => destruct c eqn:Ec end.
    - eexists. eexists. split; [reflexivity|]. cbn [fr_i fr_u fr_G fr_Go fr_grad].
      split; [exact EG|]. split; [|split; [exists u; split; [reflexivity|exact Hu]|reflexivity]].
      unfold form_beta. cbn [fr_i fr_u fr_G fr_Go fr_grad]. rewrite (beta_of u g Hg), EG. f_equal. field. lra.
    - apply orb_false_iff in Ec. destruct Ec as [Ec1 Ec2]. apply Z.eqb_neq in Ec2.
      assert (Hq : q = 0).
      { destruct (Req_dec q 0) as [Hq|Hq]; [exact Hq|exfalso].
        destruct (at_star u g q Hu Hg Hq H1 H2) as (_ & A1 & A2).
        rewrite A1 in Ec1. rewrite (proj2 (Rltb_spec _ _) A2) in Ec1. discriminate. }
      assert (Hd : forall j, (j < n)%nat -> search_dir n (b - dot n a u) g u j = 0).
      { intros j Hj. rewrite (dir_aff g u j Hg Hj), (Hu j Hj). ring. }
      assert (ES : exists t k2, getStepSize n o trial (b - dot n a u) g u (search_dir n (b - dot n a u) g u) = (Ok t, k2)).
      { unfold getStepSize, computeStepSize. destruct (Reqb (fo_step o) 0) eqn:E0; [|eauto].
        apply Reqb_spec in E0. destruct HS as [HS|HS]; [contradiction|]. rewrite HS. cbn [Z.eqb Pos.eqb].
        destruct (Htrial (map (fun t => fun i => u i + search_dir n (b - dot n a u) g u i * t) trial_steps)) as (k2 & Et).
        rewrite Et. eauto. }
      destruct ES as (t & k2 & ES). rewrite ES.
      destruct (IH (i + 1)%Z q (fun j => u j + t * search_dir n (b - dot n a u) g u j) (b - dot n a u) g (calls + k + k2)%nat) as (r & c & E3 & E4 & E5 & E6 & E7).
      + intros j Hj. rewrite (Hd j Hj), (Hu j Hj). ring.
      + lia.
      + specialize (Hf Hq). lia.
      + intros _. specialize (Hf Hq). lia.
      + exists r, c. split; [exact E3|]. split; [exact E4|]. split; [exact E5|]. split; [exact E6|]. intros Hq'. contradiction.
  Qed.

  Lemma full_step_run : fo_step o = 1 -> 0 < fo_e1 o <= 1 -> 0 < fo_e2 o -> (2 <= fo_imax o)%Z ->
    forall fuel u0, (Z.to_nat (fo_imax o) < fuel)%nat ->
    exists r c, form_run n o ev trial evn fuel u0 = (FDone r, c) /\ fr_G r = 0 /\
      form_beta n r = Fin (b / na) /\ (exists u', fr_u r = Some u' /\ veq n u' ustar) /\
      (b - dot n a u0 <> 0 -> fr_i r = 2%Z).
  Proof.
    intros HS [H1 H1'] H2 Hi fuel u0 Hf. pose proof na_pos as P. unfold form_run.
    destruct fuel as [|f]; [lia|]. cbn [form_loop].
    destruct (Hev u0) as (g & k & E & Hg). rewrite E.
    assert (En : Reqb (norm n g) 0 = false) by (apply Reqb_false; rewrite (grad_norm g Hg); lra). rewrite En.
    assert (EC : xltb (e1_of (b - dot n a u0) (b - dot n a u0)) (Fin (fo_e1 o)) = false).
    { apply not_true_is_false. intros C. apply e1_lt in C. destruct C as [C1 C2].
      replace ((b - dot n a u0) / (b - dot n a u0)) with 1 in C2 by (field; exact C1). rewrite Rabs_R1 in C2. lra. }
    rewrite EC. assert (EI : (1 =? fo_imax o)%Z = false) by (apply Z.eqb_neq; lia). rewrite EI.
    cbn [andb orb].
    assert (HSn : fo_step o <> 0) by (rewrite HS; lra).
    unfold getStepSize. rewrite (proj2 (Reqb_false (fo_step o) 0)) by exact HSn.
    destruct (stay_at_star H1 H2 (or_introl HSn) f (1 + 1)%Z (b - dot n a u0)
       (fun j => u0 j + fo_step o * search_dir n (b - dot n a u0) g u0 j) (b - dot n a u0) g (0 + k + 0)%nat) as (r & c & E3 & E4 & E5 & E6 & E7).
    - intros j Hj. rewrite (dir_aff g u0 j Hg Hj), HS. ring.
    - lia.
    - lia.
    - intros _. lia.
    - exists r, c. split; [exact E3|]. split; [exact E4|]. split; [exact E5|]. split; [exact E6|]. exact E7.
  Qed.

  (** ** automatic steps *)
  Definition dist (u : vec) : R := norm n (fun i => u i - ustar i).

  Lemma dist_contract u u' t : 0 <= t <= 1 -> (forall i, (i < n)%nat -> u' i = u i + t * (ustar i - u i)) ->
    dist u' = (1 - t) * dist u.
  Proof.
    intros Ht H. unfold dist.
    rewrite (norm_ext n (fun i => u' i - ustar i) (fun i => (1 - t) * (u i - ustar i))) by (intros i Hi; rewrite H by exact Hi; ring).
    unfold norm. rewrite dot_scal_l, dot_scal_r.
    replace ((1 - t) * ((1 - t) * dot n (fun i => u i - ustar i) (fun i => u i - ustar i)))
      with (Rsqr (1 - t) * dot n (fun i => u i - ustar i) (fun i => u i - ustar i)) by (unfold Rsqr; ring).
    rewrite sqrt_mult by (first [apply Rle_0_sqr|apply dot_self_nonneg]). rewrite sqrt_Rsqr by lra. reflexivity.
  Qed.

  Lemma step_auto u g : fo_step o = 0 -> o_multi_proc (fo_ls o) = 1%Z -> veq n g (fun i => - a i) ->
    exists t k, getStepSize n o trial (b - dot n a u) g u (search_dir n (b - dot n a u) g u) = (Ok t, k) /\
      1 / 32 <= t <= 1 /\
      (merit_of n (penalty n g u) ustar 0 <= merit_of n (penalty n g u) u (b - dot n a u) -> t = 1).
  Proof.
    intros HS HM Hg. unfold getStepSize, computeStepSize. rewrite (proj2 (Reqb_spec _ _) HS), HM. cbn [Z.eqb Pos.eqb].
    set (d := search_dir n (b - dot n a u) g u). set (TU := map (fun t => fun i => u i + d i * t) trial_steps).
    destruct (Htrial TU) as (k & Et). rewrite Et.
    eexists. eexists. split; [reflexivity|]. split; [apply choice_bounds|].
    intros Hm. set (M := map _ _).
    assert (E0 : nth 0 M 0 = merit_of n (penalty n g u) ustar 0).
    { unfold M, TU, trial_steps, ntrial. cbn [seq map combine nth fst snd pow].
      assert (V : veq n (fun i => u i + d i * 1) ustar).
      { intros i Hi. unfold d. rewrite (dir_aff g u i Hg Hi). ring. }
      unfold merit_of. rewrite (norm_ext n _ ustar V).
      replace (b - dot n a (fun i => u i + d i * 1)) with 0; [reflexivity|].
      rewrite (dot_ext n a _ a ustar); [rewrite a_ustar; ring|intros i _; reflexivity|exact V]. }
    fold (step_choice (merit_of n (penalty n g u) u (b - dot n a u)) M).
    rewrite (choice_first _ M 0%nat); [simpl; ring|lia|]. split; [rewrite E0; exact Hm|intros; lia].
  Qed.

  Lemma full_accept u g : veq n g (fun i => - a i) -> (b = 0 \/ dist u <= 2 / 3 * (Rabs b / na)) ->
    merit_of n (penalty n g u) ustar 0 <= merit_of n (penalty n g u) u (b - dot n a u).
  Proof.
    intros Hg Hd. pose proof na_pos as P. unfold merit_of, penalty. rewrite (grad_norm g Hg), ustar_norm, Rabs_R0.
    set (al := fun i => a i / na).
    assert (Hal : dot n al al = 1).
    { unfold al. rewrite (dot_ext n (fun i => a i / na) (fun i => a i / na) (fun i => / na * a i) (fun i => / na * a i)) by (intros i _; field; lra).
      rewrite dot_scal_l, dot_scal_r, <- norm_sqr. fold na. field. lra. }
    set (s := dot n al u).
    assert (Es : dot n a u = na * s).
    { unfold s, al. rewrite (dot_ext n (fun i => a i / na) u (fun i => / na * a i) u) by (intros i _; try reflexivity; field; lra).
      rewrite dot_scal_l. field. lra. }
    pose proof (unit_cs_abs n al u Hal) as C1. fold s in C1.
    set (q := b / na). assert (Eq : b = na * q) by (unfold q; field; lra).
    assert (EqA : Rabs b / na = Rabs q).
    { rewrite Eq, Rabs_mult, (Rabs_right na) by lra. field. lra. }
    rewrite EqA in *. rewrite Es, Eq. replace (na * q - na * s) with (na * (q - s)) by ring.
    rewrite Rabs_mult, (Rabs_right na) by lra.
    set (de := Rabs (q - s)). pose proof (Rabs_pos (q - s)) as Pd. fold de in Pd.
    pose proof (norm_nonneg n u) as Pu.
    assert (EE : (norm n u * / na * 2 + 10) * (na * de) = 2 * norm n u * de + 10 * na * de) by (field; lra).
    rewrite EE. rewrite Rmult_0_r, Rplus_0_r.
    assert (P10 : 0 <= 10 * na * de) by (apply Rmult_le_pos; lra).
    destruct Hd as [Hb|Hd].
    - assert (q = 0) by (unfold q; rewrite Hb; field; lra). rewrite H, Rabs_R0.
      assert (0 <= 2 * norm n u * de) by (apply Rmult_le_pos; lra). nra.
    - assert (D : de <= dist u).
      { unfold dist, de. rewrite <- Rabs_Ropp. replace (- (q - s)) with (dot n al (fun i => u i - ustar i)).
        - apply unit_cs_abs. exact Hal.
        - rewrite dot_sub_r. fold s. replace (dot n al ustar) with q; [ring|].
          unfold al. rewrite (dot_ext n (fun i => a i / na) ustar (fun i => / na * a i) ustar) by (intros i _; try reflexivity; field; lra).
          rewrite dot_scal_l, a_ustar. unfold q. field. lra. }
      assert (S1 : Rabs q <= Rabs s + de).
      { unfold de. replace q with (s + (q - s)) at 1 by ring. apply Rabs_triang. }
      pose proof (Rabs_pos s) as Ps. pose proof (Rabs_pos q) as Pq.
      assert (Rabs q ^ 2 <= (Rabs s + de) ^ 2) by (apply pow_incr; lra).
      assert (Rabs s ^ 2 <= norm n u ^ 2) by (apply pow_incr; lra).
      assert (Rabs s * de <= norm n u * de) by (apply Rmult_le_compat_r; lra).
      assert (de <= 2 * Rabs s) by lra.
      assert (de * de <= 2 * Rabs s * de) by (apply Rmult_le_compat_r; lra). nra.
  Qed.

  Lemma auto_converges : fo_step o = 0 -> o_multi_proc (fo_ls o) = 1%Z -> 0 < fo_e1 o -> 0 < fo_e2 o ->
    forall K fuel i Go u lG lg calls,
    (b = 0 \/ (31 / 32) ^ K * dist u <= 2 / 3 * (Rabs b / na)) ->
    (match Go with Some q => q | None => b - dot n a u end) <> 0 ->
    (i + Z.of_nat K + 1 < fo_imax o)%Z -> (K + 1 < fuel)%nat ->
    exists r c, loop fuel i Go (Some u) lG lg calls = (FDone r, c) /\ (fr_i r <= i + Z.of_nat K + 1)%Z.
  Proof.
    intros HS HM H1 H2. pose proof na_pos as P.
    induction K as [|K IH]; intros fuel i Go u lG lg calls HK HG Hi Hf.
    - destruct fuel as [|f]; [lia|]. cbn [form_loop]. destruct (Hev u) as (g & k & E & Hg). rewrite E.
      assert (En : Reqb (norm n g) 0 = false) by (apply Reqb_false; rewrite (grad_norm g Hg); lra). rewrite En.
      match goal with |- context [if ?c then _ else _] => destruct c eqn:Ec end.
      + eexists. eexists. split; [reflexivity|]. cbn [fr_i]. lia.
      + destruct (step_auto u g HS HM Hg) as (t & k2 & ES & Ht & Ht1). rewrite ES.
        assert (t = 1).
        { apply Ht1. apply full_accept; [exact Hg|]. destruct HK as [HK|HK]; [left; exact HK|right; simpl in HK; lra]. }
        subst t.
        destruct (stay_at_star H1 H2 (or_intror HM) f (i + 1)%Z (match Go with Some q => q | None => b - dot n a u end)
          (fun j => u j + 1 * search_dir n (b - dot n a u) g u j) (b - dot n a u) g (calls + k + k2)%nat) as (r & c & E3 & E4 & E5 & E6 & E7).
        * intros j Hj. rewrite (dir_aff g u j Hg Hj). ring.
        * lia.
        * lia.
        * intros C. contradiction.
        * exists r, c. split; [destruct Go; exact E3|]. rewrite (E7 HG). lia.
    - destruct fuel as [|f]; [lia|]. cbn [form_loop]. destruct (Hev u) as (g & k & E & Hg). rewrite E.
      assert (En : Reqb (norm n g) 0 = false) by (apply Reqb_false; rewrite (grad_norm g Hg); lra). rewrite En.
      match goal with |- context [if ?c then _ else _] => destruct c eqn:Ec end.
      + eexists. eexists. split; [reflexivity|]. cbn [fr_i]. lia.
      + destruct (step_auto u g HS HM Hg) as (t & k2 & ES & Ht & _). rewrite ES.
        destruct (IH f (i + 1)%Z (Some (match Go with Some q => q | None => b - dot n a u end))
          (fun j => u j + t * search_dir n (b - dot n a u) g u j) (b - dot n a u) g (calls + k + k2)%nat) as (r & c & E3 & E4).
        * destruct HK as [HK|HK]; [left; exact HK|right].
          rewrite (dist_contract u _ t); [|lra|intros j Hj; rewrite (dir_aff g u j Hg Hj); reflexivity].
          apply Rle_trans with (2 := HK). simpl pow.
          assert (0 <= (31 / 32) ^ K) by (apply pow_le; lra). assert (0 <= dist u) by apply norm_nonneg.
          assert (0 <= (31 / 32) ^ K * dist u) by (apply Rmult_le_pos; assumption). nra.
        * exact HG.
        * lia.
        * lia.
        * exists r, c. split; [destruct Go; exact E3|lia].
  Qed.
End A.
