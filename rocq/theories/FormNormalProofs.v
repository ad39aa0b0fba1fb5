From Coquelicot Require Import Coquelicot.
From Verif Require Import Base Ext Gauss GaussProofs StochModel StochModelSpec StochModelProofs LimitState LimitStateSpec LimitStateProofs Transf TransfSpec TransfProofs Form FormProofs FormAffineProofs.
From Coq Require Import ZArith Lra Lia.

(** ** call accounting *)
Lemma loop_none n o ev trial evn fuel : forall i Go lG lg calls r c,
  form_loop n o ev trial evn fuel i Go None lG lg calls = (FDone r, c) -> fr_u r = None.
Proof.
  induction fuel as [|f IH]; intros i Go lG lg calls r c H; [discriminate|].
  cbn [form_loop] in H. destruct evn eqn:Een; [discriminate|]. rewrite <- Een in *. destruct (i =? fo_imax o)%Z.
  - inversion H; subst. reflexivity.
  - destruct (nan_step o evn); [|discriminate]. eapply IH. exact H.
Qed.

Lemma loop_calls n o ev trial evn k2 :
  (forall u Gg k, ev u = (Ok Gg, k) -> k = eval_cost n o) -> (forall us Gs k, trial us = (Ok Gs, k) -> k = k2) -> k2 = ntrial ->
  forall fuel i Go us lG lg calls r c,
  form_loop n o ev trial evn fuel i Go us lG lg calls = (FDone r, c) ->
  Z.of_nat c = (Z.of_nat calls + Z.of_nat (eval_cost n o) * (fr_i r - i + 1) +
               (if Reqb (fo_step o) 0 then Z.of_nat k2 else 0) * (fr_i r - i))%Z.
Proof.
  intros K1 K2 KN. set (k1 := eval_cost n o) in *.
  assert (N2 : forall k, nan_step o evn = Ok k -> Z.of_nat k = (if Reqb (fo_step o) 0 then Z.of_nat k2 else 0)%Z).
  { intros k. unfold nan_step. destruct (Reqb (fo_step o) 0); [|intros E; injection E as <-; reflexivity].
    destruct (o_multi_proc (fo_ls o) =? 1)%Z; [|discriminate]. destruct evn; [discriminate|]. intros E. injection E as <-. now subst k2. }
  induction fuel as [|f IH]; intros i Go us lG lg calls r c H; [discriminate|].
  cbn [form_loop] in H. fold k1 in H. destruct us as [u|].
  - destruct (ev u) as [[[G g]|e] k] eqn:E; [|discriminate].
    apply K1 in E. subst k.
    destruct (Reqb (norm n g) 0).
    + destruct (i =? fo_imax o)%Z; [inversion H; subst; cbn [fr_i]; lia|].
      destruct (nan_step o evn) as [kn|] eqn:En; [|discriminate]. specialize (N2 kn eq_refl). rewrite (IH _ _ _ _ _ _ _ _ H). lia.
    + match type of H with context [if ?b then _ else _] => destruct b end.
      * inversion H; subst. cbn [fr_i]. lia.
      * destruct (getStepSize n o trial G g u (search_dir n G g u)) as [[t|e] k3] eqn:ES; [|discriminate].
        rewrite (IH _ _ _ _ _ _ _ _ H).
        assert (E3 : Z.of_nat k3 = (if Reqb (fo_step o) 0 then Z.of_nat k2 else 0)%Z).
        { unfold getStepSize, computeStepSize in ES. destruct (Reqb (fo_step o) 0).
          - destruct (o_multi_proc (fo_ls o) =? 1)%Z; [|discriminate].
            destruct (trial _) as [[Gs|e] k'] eqn:ET; [|discriminate]. inversion ES; subst. apply K2 in ET. subst. reflexivity.
          - inversion ES; subst. reflexivity. }
        lia.
  - destruct evn eqn:Een; [discriminate|]. rewrite <- Een in *. destruct (i =? fo_imax o)%Z; [inversion H; subst; cbn [fr_i]; lia|].
    destruct (nan_step o evn) as [kn|] eqn:En; [|discriminate]. specialize (N2 kn eq_refl). rewrite (IH _ _ _ _ _ _ _ _ H). lia.
Qed.

Lemma form_ev_cost fuel s expr o n T invT inv m u Gg k :
  (0 < o_block_size o)%Z ->
  form_ev fuel s expr o n T invT inv m u = (Ok Gg, k) ->
  k = (if String.eqb (o_diff_mode o) "no" then 1 else if String.eqb (o_diff_mode o) "ddm" then 1 else 1 + n)%nat.
Proof.
  intros Hb. unfold form_ev. destruct (inv n _) as [J|e]; [|discriminate].
  destruct (ev_out (evaluate_lsf fuel s expr o None n [vlist n (computeTransformation n invT m u)])) as [G grad|e|] eqn:E; try discriminate.
  pose proof (accounting_counts fuel s expr o None n _ G grad Hb E) as A. cbv zeta in A. cbn [length] in A.
  intros H. injection H as _ Hk. rewrite <- Hk, A. clear.
  destruct (String.eqb (o_diff_mode o) "no"); [lia|]. destruct (String.eqb (o_diff_mode o) "ddm"); lia.
Qed.

Lemma form_trial_cost fuel s expr o n invT m us Gs k :
  (0 < o_block_size o)%Z -> form_trial fuel s expr o n invT m us = (Ok Gs, k) -> k = length us.
Proof.
  intros Hb. unfold form_trial.
  destruct (ev_out (evaluate_lsf fuel s expr o (Some "no"%string) n _)) as [G grad|e|] eqn:E; try discriminate.
  pose proof (accounting_counts fuel s expr o _ n _ G grad Hb E) as A. cbv zeta in A. cbn [length] in A.
  intros H. injection H as _ Hk. rewrite <- Hk, A, map_length. lia.
Qed.

(** the trial evaluation always has ntrial points *)
Lemma loop_trial_ext n o ev trial trial' evn :
  (forall us, length us = ntrial -> trial us = trial' us) ->
  forall fuel i Go us lG lg calls,
  form_loop n o ev trial evn fuel i Go us lG lg calls = form_loop n o ev trial' evn fuel i Go us lG lg calls.
Proof.
  intros H. induction fuel as [|f IH]; intros i Go us lG lg calls; [reflexivity|].
  cbn [form_loop]. destruct us as [u|].
  - destruct (ev u) as [[[G g]|e] k]; [|reflexivity]. destruct (Reqb (norm n g) 0).
    + destruct (i =? fo_imax o)%Z; [reflexivity|]. destruct (nan_step o evn); [apply IH|reflexivity].
    + match goal with |- context [if ?b then _ else _] => destruct b end; [reflexivity|].
      assert (E : getStepSize n o trial G g u (search_dir n G g u) = getStepSize n o trial' G g u (search_dir n G g u)).
      { unfold getStepSize, computeStepSize. rewrite H; [reflexivity|]. rewrite map_length. reflexivity. }
      rewrite E. destruct (getStepSize n o trial' G g u (search_dir n G g u)) as [[t|e] k2]; [apply IH|reflexivity].
  - destruct evn eqn:Een; [reflexivity|]. rewrite <- Een in *. destruct (i =? fo_imax o)%Z; [reflexivity|]. destruct (nan_step o evn); [apply IH|reflexivity].
Qed.

(** ** linear limit states in (correlated) normal variables *)
Section N.
  Variables (h : list smop) (expr : expression) (f : list (string * R) -> R) (o : lsopts) (fuel : nat).
  Variables (T invT : mat) (inv : nat -> mat -> result mat) (m : nat -> rv).
  Let n := ndists h.
  Variables (c0 : R) (cf mu sd : vec).
  Hypothesis Hp : pointwise expr f.
  Hypothesis Hn : (1 <= n)%nat.
  Hypothesis Hb : (1 <= o_block_size o)%Z.
  Hypothesis Hfu : (n + ntrial + 1 < fuel)%nat.
  Hypothesis Hmp : o_multi_proc o <> 0%Z.
  Hypothesis Hd1 : o_diff_mode o <> "no"%string.
  Hypothesis Hd2 : o_diff_mode o <> "ddm"%string.
  Hypothesis Hff : o_ffdpara o <> 0.
  Hypothesis Hs : forall d, In d (dists_of (accepted h)) -> rv_stdv d <> 0.
  Hypothesis HT : inverse_pair n T invT.
  Hypothesis HI : inv_contract n inv.
  Hypothesis HIex : forall A B, inverse_pair n B A -> exists C, inv n A = Ok C.
  Hypothesis Hlin : forall q, length q = n -> f (args_at h q) = c0 + fsum n (fun i => cf i * nth i q 0).
  Hypothesis Hsd : forall i, (i < n)%nat -> sd i <> 0.
  Hypothesis Hm : forall i, (i < n)%nat -> (forall z, rv_u2x (m i) z = mu i + sd i * z) /\ forall z x, rv_jac (m i) z x = / sd i.

  Definition lin_b : R := c0 + fsum (ndists h) (fun i => cf i * mu i).
  Definition lin_a : vec := fun j => - fsum (ndists h) (fun i => cf i * sd i * invT i j).

  Lemma lin_value u : f (args_at h (vlist n (u_to_x n invT m u))) = lin_b - dot n lin_a u.
  Proof.
    rewrite Hlin by apply vlist_length. unfold lin_b, lin_a, dot. fold n.
    rewrite (fsum_ext n (fun j => - fsum n (fun i => cf i * sd i * invT i j) * u j)
                        (fun j => - fsum n (fun i => cf i * sd i * invT i j * u j))).
    2:{ intros j _. rewrite fsum_scal_r. ring. }
    rewrite fsum_opp, fsum_swap. unfold Rminus. rewrite Ropp_involutive, Rplus_assoc, <- fsum_plus. f_equal.
    apply fsum_ext. intros i Hi. rewrite vlist_nth by exact Hi. unfold u_to_x. cbv zeta.
    rewrite (proj1 (Hm i Hi)). unfold mvec. rewrite Rmult_plus_distr_l. f_equal.
    rewrite <- Rmult_assoc, <- fsum_scal. apply fsum_ext. intros; ring.
  Qed.

  Lemma lin_ev u : exists g k, form_ev fuel (sm_run h) expr o n T invT inv m u = (Ok (lin_b - dot n lin_a u, g), k) /\
    veq n g (fun i => - lin_a i).
  Proof.
    unfold form_ev. cbv zeta. unfold computeTransformation. set (x := u_to_x n invT m u).
    assert (JI : inverse_pair n (jacobian n T invT m u x) (fun i j => / rv_jac (m i) (mvec n invT u i) (x i) * invT i j)).
    { apply jac_inverse; [exact HT|]. intros i Hi. rewrite (proj2 (Hm i Hi)). apply Rinv_neq_0_compat. apply Hsd. exact Hi. }
    assert (JI' : inverse_pair n (fun i j => / rv_jac (m i) (mvec n invT u i) (x i) * invT i j) (jacobian n T invT m u x)).
    { destruct JI as [J1 J2]. split; assumption. }
    destruct (HIex _ _ JI') as [J EJ]. rewrite EJ. pose proof (HI _ _ EJ) as HJ.
    assert (EJJ : meq n J (fun i j => sd i * invT i j)).
    { assert (HJ' : inverse_pair n (jacobian n T invT m u x) J) by (destruct HJ; split; assumption).
      intros i j Hi Hj. rewrite (inverse_unique n _ _ _ HJ' JI i j Hi Hj), (proj2 (Hm i Hi)). rewrite Rinv_involutive by (apply Hsd; exact Hi). reflexivity. }
    unfold evaluate_lsf. destruct (Z.eqb_spec (o_multi_proc o) 0); [contradiction|].
    destruct (String.eqb_spec (o_diff_mode o) "no"); [contradiction|].
    destruct (String.eqb_spec (o_diff_mode o) "ddm"); [contradiction|].
    unfold n. rewrite (ffd_affine h expr f (vlist (ndists h) x) (o_block_size o) (o_ffdpara o) fuel c0 cf Hp Hn);
      [|apply vlist_length|exact Hb|rewrite vlist_length; fold n; unfold ntrial in Hfu; lia|exact Hs|exact Hff|exact Hlin].
    eexists. eexists. split.
    - cbn [nth]. unfold x. fold n. rewrite lin_value. reflexivity.
    - intros j Hj. cbn [nth]. unfold pull_gradient, lin_a. fold n. rewrite Ropp_involutive. apply fsum_ext.
      intros i Hi. rewrite EJJ by assumption. unfold vof. fold n. rewrite nth_map_seq by exact Hi. ring.
  Qed.

  Lemma lin_trial us : (length us < fuel)%nat -> exists k, form_trial fuel (sm_run h) expr o n invT m us = (Ok (map (fun u => lin_b - dot n lin_a u) us), k).
  Proof.
    intros Hus. unfold form_trial. cbv zeta. unfold n.
    rewrite (dispatch_nogradient fuel h expr f o (Some "no"%string) _ Hmp (or_introl (ex_intro _ _ eq_refl)) Hp Hn).
    - eexists. rewrite map_map. f_equal. f_equal. apply map_ext. intros u. apply lin_value.
    - intros p Hin. apply in_map_iff in Hin. destruct Hin as (u & <- & _). apply vlist_length.
    - exact Hb.
    - rewrite map_length. exact Hus.
  Qed.
End N.

(** totalised trial, for use with the affine theorems *)
Definition total_trial (n : nat) (a : vec) (b : R) (trial : list vec -> result (list R) * nat) (us : list vec) :=
  if Nat.eqb (length us) ntrial then trial us else (Ok (map (fun u => b - dot n a u) us), 0%nat).

(** ** alpha dictionary *)
Lemma zip_dict_spec {V} (ks : list string) (vs : list V) : NoDup ks ->
  zip_dict ks vs = combine ks vs.
Proof.
  intros HN. unfold zip_dict.
  assert (G : forall l acc, NoDup (map fst (acc ++ l)) ->
     fold_left (fun d (nv : string * V) => dict_set d (fst nv) (snd nv)) l acc = acc ++ l).
  { induction l as [|[k v] l IH]; intros acc Hnd; [rewrite app_nil_r; reflexivity|].
    cbn [fold_left fst snd]. rewrite dict_set_fresh.
    - rewrite IH; rewrite <- app_assoc; [reflexivity|exact Hnd].
    - rewrite map_app in Hnd. cbn [map fst] in Hnd. apply NoDup_remove_2 in Hnd. intros C. apply Hnd, in_or_app. left. exact C. }
  rewrite G; [reflexivity|]. cbn [app].
  assert (E : forall (l : list string) (l' : list V), exists r, l = map fst (combine l l') ++ r).
  { clear. induction l as [|k l IH]; intros l'; [exists []; reflexivity|]. destruct l' as [|v l']; [exists (k :: l); reflexivity|].
    destruct (IH l') as [r E]. exists r. simpl. congruence. }
  destruct (E ks vs) as [r Er]. rewrite Er in HN. apply NoDup_app_l in HN. exact HN.
Qed.

Definition consts_last (h : list smop) : Prop :=
  exists ds cs, accepted h = map ODist ds ++ map (fun c => OConst (fst c) (snd c)) cs.

Lemma accepted_names h : sm_names (sm_run h) = names_of (accepted h) /\ NoDup (names_of (accepted h)).
Proof.
  destruct (reg_inv h) as (H1 & H2 & _). split; [exact H1|]. rewrite <- H1. exact H2.
Qed.

Lemma accepted_valid h o : In o (accepted h) -> o <> OOther.
Proof.
  unfold accepted. generalize (@nil string) as seen. induction (offered h) as [|x l IH]; intros seen H; [destruct H|].
  simpl in H. destruct (valid_name x) as [nm|] eqn:E.
  - destruct (in_dec string_dec nm seen); [apply (IH _ H)|]. destruct H as [<-|H]; [|apply (IH _ H)].
    intros C. subst. discriminate.
  - apply (IH _ H).
Qed.

Lemma dict_get_fst_none {V} (d : list (string * V)) k : ~ In k (map fst d) -> dict_get d k = None.
Proof.
  induction d as [|[k' v] d IH]; intros H; [reflexivity|]. simpl. destruct (String.eqb_spec k k') as [->|].
  - exfalso. apply H. left. reflexivity.
  - apply IH. intros C. apply H. right. exact C.
Qed.

Lemma combine_fst_in {A B} (l : list A) (l' : list B) x : In x (map fst (combine l l')) -> In x (firstn (length l') l).
Proof.
  revert l'. induction l as [|a l IH]; intros l' H; [destruct H|]. destruct l' as [|b l']; [destruct H|].
  simpl in *. destruct H as [->|H]; [left; reflexivity|right; apply IH; exact H].
Qed.

Definition own_labels (acc : list obj) (alphas : list R) (dict : list (string * R)) : Prop :=
  forall i d, nth_error (dists_of acc) i = Some d -> dict_get dict (rv_name d) = Some (nth i alphas 0).

Lemma labels_ok acc : forall alphas, NoDup (names_of acc) -> (forall o, In o acc -> o <> OOther) ->
  length alphas = length (dists_of acc) ->
  (exists ds cs, acc = map ODist ds ++ map (fun c => OConst (fst c) (snd c)) cs) ->
  own_labels acc alphas (combine (names_of acc) alphas).
Proof.
  intros alphas HN HV HL (ds & cs & ->).
  assert (ED : dists_of (map ODist ds ++ map (fun c => OConst (fst c) (snd c)) cs) = ds).
  { rewrite dists_of_app. replace (dists_of (map (fun c => OConst (fst c) (snd c)) cs)) with (@nil rv).
    - rewrite app_nil_r. clear. induction ds as [|d ds IH]; [reflexivity|]. cbn. f_equal. exact IH.
    - clear. induction cs as [|d cs IH]; [reflexivity|]. cbn. exact IH. }
  rewrite ED in HL. unfold own_labels. rewrite ED. rewrite names_of_app in *.
  assert (EN : names_of (map ODist ds) = map rv_name ds) by (clear; induction ds as [|d ds IH]; [reflexivity|]; cbn; f_equal; exact IH).
  rewrite EN in *. clear ED EN.
  assert (HN1 : NoDup (map rv_name ds)) by (apply NoDup_app_l in HN; exact HN). clear HN HV.
  revert alphas HL. induction ds as [|d ds IH]; intros alphas HL i d' E; [destruct i; discriminate|].
  destruct alphas as [|al alphas]; [discriminate|]. simpl in HL. cbn [map app combine dict_get].
  inversion HN1; subst.
  destruct i as [|i]; cbn [nth_error] in E.
  - inversion E; subst. rewrite String.eqb_refl. reflexivity.
  - destruct (String.eqb_spec (rv_name d') (rv_name d)) as [C|_].
    + exfalso. apply H1. rewrite <- C. apply in_map. eapply nth_error_In. exact E.
    + cbn [nth]. apply IH; [exact H2|lia|exact E].
Qed.

Lemma labels_only_if acc : forall alphas, NoDup (names_of acc) -> (forall o, In o acc -> o <> OOther) ->
  length alphas = length (dists_of acc) -> NoDup alphas ->
  own_labels acc alphas (combine (names_of acc) alphas) ->
  exists ds cs, acc = map ODist ds ++ map (fun c => OConst (fst c) (snd c)) cs.
Proof.
  induction acc as [|o acc IH]; intros alphas HN HV HL HA HO; [exists [], []; reflexivity|].
  destruct o as [d|nm v|].
  - change (dists_of (ODist d :: acc)) with (d :: dists_of acc) in HL. destruct alphas as [|al alphas]; [discriminate|].
    cbn in HN. inversion HN; subst. inversion HA; subst.
    destruct (IH alphas) as (ds & cs & E).
    + assumption.
    + intros o Ho. apply HV. right. exact Ho.
    + cbn [length] in HL. lia.
    + assumption.
    + intros i d' E. specialize (HO (S i) d' E). cbn in HO.
      destruct (String.eqb_spec (rv_name d') (rv_name d)) as [C|_]; [|exact HO].
      exfalso. apply H1. rewrite <- C. apply nth_error_In in E. apply dist_name_in. exact E.
    + exists (d :: ds), cs. rewrite E. reflexivity.
  - destruct (dists_of acc) as [|d0 ds0] eqn:ED.
    + exists [], ((nm, v) :: flat_map (fun o => match o with OConst a b => [(a, b)] | _ => [] end) acc).
      cbn. f_equal. clear - ED HV. assert (HV' : forall o, In o acc -> o <> OOther) by (intros o Ho; apply HV; right; exact Ho). clear HV.
      induction acc as [|o acc IH]; [reflexivity|]. destruct o as [d|a b|].
      * discriminate.
      * cbn. f_equal. apply IH; [exact ED|]. intros o Ho. apply HV'. right. exact Ho.
      * exfalso. apply (HV' OOther); [left; reflexivity|reflexivity].
    + exfalso. change (dists_of (OConst nm v :: acc)) with (dists_of acc) in HL. rewrite ED in HL. destruct alphas as [|al alphas]; [discriminate|].
      assert (HO0 := HO 0%nat d0). change (dists_of (OConst nm v :: acc)) with (dists_of acc) in HO0. rewrite ED in HO0. specialize (HO0 eq_refl). change (names_of (OConst nm v :: acc)) with (nm :: names_of acc) in HO0. cbn [combine dict_get nth] in HO0.
      change (names_of (OConst nm v :: acc)) with (nm :: names_of acc) in HN. inversion HN; subst. inversion HA; subst.
      destruct (String.eqb_spec (rv_name d0) nm) as [C|_].
      * apply H1. rewrite <- C. apply dist_name_in. rewrite ED. left. reflexivity.
      * assert (IN : In al (map snd (combine (names_of acc) alphas))).
        { clear - HO0. induction (combine (names_of acc) alphas) as [|[k w] l IH]; [discriminate|].
          cbn [dict_get] in HO0. destruct (String.eqb (rv_name d0) k); [inversion HO0; left; reflexivity|right; apply IH; exact HO0]. }
        assert (SUB : forall (l : list string) (l' : list R) x, In x (map snd (combine l l')) -> In x l').
        { clear. induction l as [|a l IH]; intros l' x H; [destruct H|]. destruct l' as [|b l']; [destruct H|].
          cbn in H. destruct H as [->|H]; [left; reflexivity|right; apply (IH _ _ H)]. }
        apply SUB in IN. contradiction.
  - exfalso. apply (HV OOther); [left; reflexivity|reflexivity].
Qed.

Lemma names_count acc : (forall o, In o acc -> o <> OOther) -> length (names_of acc) = (length (dists_of acc) + length (consts_of acc))%nat.
Proof.
  induction acc as [|o acc IH]; intros HV; [reflexivity|].
  assert (IH' := IH (fun o Ho => HV o (or_intror Ho))).
  destruct o as [d|a b|]; [change (S (length (names_of acc)) = (S (length (dists_of acc)) + length (consts_of acc))%nat); lia|change (S (length (names_of acc)) = (length (dists_of acc) + S (length (consts_of acc)))%nat); lia|exfalso; apply (HV OOther); [left; reflexivity|reflexivity]].
Qed.

Lemma alpha_dict_eq h alphas : getAlpha_dict (sm_run h) alphas = combine (names_of (accepted h)) alphas.
Proof. unfold getAlpha_dict. destruct (accepted_names h) as [-> HN]. apply zip_dict_spec. exact HN. Qed.

Lemma alpha_labels_iff h alphas : length alphas = ndists h -> NoDup alphas ->
  (own_labels (accepted h) alphas (getAlpha_dict (sm_run h) alphas) <-> consts_last h).
Proof.
  intros HL HA. rewrite alpha_dict_eq. destruct (accepted_names h) as [_ HN]. split.
  - apply labels_only_if; [exact HN|apply accepted_valid|exact HL|exact HA].
  - apply labels_ok; [exact HN|apply accepted_valid|exact HL].
Qed.

Lemma alpha_last_missing h alphas l d : length alphas = ndists h -> accepted h = l ++ [ODist d] -> consts_of l <> [] ->
  dict_get (getAlpha_dict (sm_run h) alphas) (rv_name d) = None.
Proof.
  intros HL E HC. rewrite alpha_dict_eq. destruct (accepted_names h) as [_ HN]. apply dict_get_fst_none. intros C.
  apply combine_fst_in in C. rewrite E, names_of_app in *. cbn [names_of flat_map valid_name app] in *.
  assert (HV : forall o, In o l -> o <> OOther) by (intros o Ho; apply (accepted_valid h); rewrite E; apply in_or_app; left; exact Ho).
  pose proof (names_count l HV) as NC.
  assert (LA : length alphas = S (length (dists_of l))).
  { rewrite HL. unfold ndists. rewrite E, dists_of_app, app_length. cbn. lia. }
  rewrite LA in C. destruct (consts_of l) as [|c0 cs]; [contradiction|]. cbn [length] in NC.
  rewrite firstn_app in C. replace (S (length (dists_of l)) - length (names_of l))%nat with 0%nat in C by lia.
  rewrite firstn_O, app_nil_r in C.
  assert (In (rv_name d) (names_of l)). { clear - C. revert C. generalize (S (length (dists_of l))) as k. intros k C. rewrite <- (firstn_skipn k (names_of l)). apply in_or_app. left. exact C. }
  apply NoDup_remove_2 in HN. rewrite app_nil_r in HN. contradiction.
Qed.

Lemma alpha_first_const h alphas c v r : alphas <> [] -> accepted h = OConst c v :: r ->
  dict_get (getAlpha_dict (sm_run h) alphas) c = Some (nth 0 alphas 0).
Proof.
  intros HA E. rewrite alpha_dict_eq, E. destruct alphas as [|al als]; [contradiction|]. cbn. rewrite String.eqb_refl. reflexivity.
Qed.
