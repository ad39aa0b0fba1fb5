From Coquelicot Require Import Coquelicot.
From Verif Require Import Base Ext Dict Gauss GaussProofs StochModel StochModelSpec StochModelProofs LimitState LimitStateSpec LimitStateProofs LimitStateProps Transf TransfSpec TransfProofs Form FormProofs FormAffineProofs FormNormalProofs FormExactProofs FormProps Nataf NatafProofs Dist RotSpec RotProofs ScaleFormProofs Pipe PipeSpec PipeProofs GramSchmidt GramSchmidtProofs Sorm SormProofs Valid SormRun SormRunSpec SormRunProofs SormQuadSpec.
From Coq Require Import ZArith Lra Lia Permutation.
Open Scope R_scope.

(** ** the FORM loop only sees the points it visits *)
Lemma loop_inv_ext n o ev ev' trial trial' evn (P : vec -> Prop) :
  (forall u, P u -> ev u = ev' u) ->
  (forall us, Forall P us -> length us = ntrial -> trial us = trial' us) ->
  (forall u G g k t, P u -> ev u = (Ok (G, g), k) -> norm n g <> 0 -> P (fun j => u j + t * search_dir n G g u j)) ->
  forall fuel i Go us lG lg calls, (forall u, us = Some u -> P u) ->
  form_loop n o ev trial evn fuel i Go us lG lg calls = form_loop n o ev' trial' evn fuel i Go us lG lg calls.
Proof.
  intros H1 H2 H3. induction fuel as [|f IH]; intros i Go us lG lg calls HP; [reflexivity|].
  cbn [form_loop]. destruct us as [u|].
  - assert (Pu := HP u eq_refl). rewrite <- (H1 u Pu). destruct (ev u) as [[[G g]|e] k] eqn:E; [|reflexivity]. destruct (Reqb (norm n g) 0) eqn:EN.
    + destruct (i =? fo_imax o)%Z; [reflexivity|]. destruct (nan_step o evn); [|reflexivity]. apply IH. intros v Hv. discriminate.
    + apply Reqb_false in EN. match goal with |- context [if ?b then _ else _] => destruct b end; [reflexivity|].
      assert (EG : getStepSize n o trial G g u (search_dir n G g u) = getStepSize n o trial' G g u (search_dir n G g u)).
      { unfold getStepSize, computeStepSize. rewrite H2; [reflexivity| |now rewrite map_length].
        apply Forall_forall. intros v Hv. apply in_map_iff in Hv. destruct Hv as (t & <- & _).
        replace (fun i : nat => u i + search_dir n G g u i * t) with (fun i : nat => u i + t * search_dir n G g u i)
          by (apply FunctionalExtensionality.functional_extensionality; intros; ring).
        exact (H3 u G g k t Pu E EN). }
      rewrite EG. destruct (getStepSize n o trial' G g u (search_dir n G g u)) as [[t|e] k2]; [|reflexivity].
      apply IH. intros v Hv. injection Hv as <-. exact (H3 u G g k t Pu E EN).
  - destruct evn eqn:Een; [reflexivity|]. rewrite <- Een in *. destruct (i =? fo_imax o)%Z; [reflexivity|].
    destruct (nan_step o evn); [|reflexivity]. apply IH. intros v Hv. discriminate.
Qed.

Section Q.
  Variables (n : nat) (o : form_opts) (ev : vec -> result (R * vec) * nat)
            (trial : list vec -> result (list R) * nat) (evn : option exn).
  Variables (a : vec) (b : R) (H : mat).
  Definition qval (n : nat) (a : vec) (b : R) (H : mat) (u : vec) : R := b - dot n a u + / 2 * dot n u (mvec n H u).
  Hypothesis Ha : norm n a <> 0.
  Hypothesis HHa : veq n (mvec n H a) (fun _ => 0).
  Hypothesis Hev : forall u, exists g k, ev u = (Ok (qval n a b H u, g), k) /\ veq n g (fun i => - a i + mvec n H u i).
  Hypothesis Htrial : forall us, length us = ntrial -> exists k, trial us = (Ok (map (qval n a b H) us), k).

  Definition on_ray (u : vec) : Prop := exists p, veq n u (fun j => p * a j).
  Lemma ray_H u : on_ray u -> veq n (mvec n H u) (fun _ => 0).
  Proof.
    intros (p & Hp) i Hi. rewrite (mvec_ext n H _ _ Hp). unfold mvec. rewrite (fsum_ext n _ (fun j => p * (H i j * a j))) by (intros; ring).
    rewrite fsum_scal. change (fsum n (fun j => H i j * a j)) with (mvec n H a i). rewrite (HHa i Hi). ring.
  Qed.
  Lemma ray_qval u : on_ray u -> qval n a b H u = b - dot n a u.
  Proof.
    intros P. unfold qval. unfold dot at 2. rewrite fsum_zero; [ring|]. intros i Hi. rewrite (ray_H u P i Hi). ring.
  Qed.
  Definition rayb (u : vec) : bool := Reqb (norm n (fun i => u i - dot n a u / (norm n a * norm n a) * a i)) 0.
  Lemma rayb_spec u : rayb u = true <-> on_ray u.
  Proof.
    unfold rayb. rewrite Reqb_spec, norm_eq0. split.
    - intros E. exists (dot n a u / (norm n a * norm n a)). intros i Hi. specialize (E i Hi). lra.
    - intros (p & Hp) i Hi. rewrite (Base.dot_ext n a u a (fun j => p * a j) ltac:(intros j _; reflexivity) Hp), dot_scal_r, (Hp i Hi), <- norm_sqr. field. exact Ha.
  Qed.
  Definition ev1 (u : vec) := if rayb u then ev u else (Ok (b - dot n a u, fun i => - a i), 0%nat).
  Definition trial1 (us : list vec) := if forallb rayb us && Nat.eqb (length us) ntrial then trial us else (Ok (map (fun u => b - dot n a u) us), 0%nat).

  Lemma quad_form : (forall fuel u0, veq n u0 (fun _ => 0) -> form_run n o ev trial evn fuel u0 = form_run n o ev1 trial1 evn fuel u0) /\
    (forall u, exists g k, ev1 u = (Ok (b - dot n a u, g), k) /\ veq n g (fun i => - a i)) /\
    (forall us, exists k, trial1 us = (Ok (map (fun u => b - dot n a u) us), k)).
  Proof.
    assert (E1 : forall u, exists g k, ev1 u = (Ok (b - dot n a u, g), k) /\ veq n g (fun i => - a i)).
    { intros u. unfold ev1. destruct (rayb u) eqn:ER.
      - apply rayb_spec in ER. destruct (Hev u) as (g & k & E & Eg). exists g, k. rewrite E, (ray_qval u ER). split; [reflexivity|].
        intros i Hi. rewrite (Eg i Hi), (ray_H u ER i Hi). ring.
      - eexists. eexists. split; [reflexivity|]. intros i _. reflexivity. }
    split; [|split; [exact E1|]].
    - intros fuel u0 Hu. unfold form_run. apply (loop_inv_ext n o ev ev1 trial trial1 evn on_ray).
      + intros u P. unfold ev1. now rewrite (proj2 (rayb_spec u) P).
      + intros us P L. unfold trial1. rewrite L, Nat.eqb_refl. replace (forallb rayb us) with true; [reflexivity|].
        symmetry. apply forallb_forall. intros u Hin. apply rayb_spec. rewrite Forall_forall in P. now apply P.
      + intros u G g k t P E _. destruct (E1 u) as (g' & k' & E' & Eg). unfold ev1 in E'. rewrite (proj2 (rayb_spec u) P), E in E'.
        injection E' as -> -> ->. destruct P as (p & Hp). exists (p + t * (b / (norm n a * norm n a) - p)). intros j Hj.
        rewrite (dir_aff n a b Ha g' u j Eg Hj), (Hp j Hj). unfold ustar. ring.
      + intros u Eu. injection Eu as <-. exists 0. intros j Hj. rewrite (Hu j Hj). ring.
    - intros us. unfold trial1. destruct (forallb rayb us && Nat.eqb (length us) ntrial) eqn:E; [|eauto].
      apply andb_true_iff in E. destruct E as [ER EL]. apply Nat.eqb_eq in EL. destruct (Htrial us EL) as (k & E). exists k. rewrite E. do 2 f_equal.
      apply map_ext_in. intros u Hin. apply ray_qval, rayb_spec. rewrite forallb_forall in ER. now apply ER.
  Qed.

  (** FORM finds the design point exactly *)
  Lemma quad_exact fuel u0 : o_multi_proc (fo_ls o) = 1%Z -> 0 < fo_e2 o ->
    ((fo_step o = 1 /\ 0 < fo_e1 o <= 1 /\ (2 <= fo_imax o)%Z) \/ (fo_step o = 0 /\ 0 < fo_e1 o <= 1 / 3 /\ (15 < fo_imax o)%Z)) ->
    (Z.to_nat (fo_imax o) < fuel)%nat -> veq n u0 (fun _ => 0) ->
    exists r c u, form_run n o ev trial evn fuel u0 = (FDone r, c) /\ fr_G r = 0 /\ form_beta n r = Fin (b / norm n a) /\
      fr_u r = Some u /\ veq n u (fun i => b / (norm n a * norm n a) * a i) /\ veq n (fr_grad r) (fun i => - a i).
  Proof.
    intros HM H2 HS Hf Hu. destruct quad_form as (QF & QE & QT).
    assert (X : exists r c, form_run n o ev1 trial1 evn fuel u0 = (FDone r, c) /\ fr_G r = 0 /\ form_beta n r = Fin (b / norm n a) /\
      (exists u', fr_u r = Some u' /\ veq n u' (fun i => b / (norm n a * norm n a) * a i))).
    { destruct HS as [(HS & H1 & Hi)|(HS & H1 & Hi)].
      - destruct (C24_full_step_exact n o ev1 trial1 evn a b Ha QE QT HS H1 H2 Hi fuel u0 Hf) as (r & c & E & EG & EB & Eu & EI). eauto 10.
      - destruct (auto_exact n o ev1 trial1 evn a b Ha QE QT HS HM H1 H2 Hi fuel u0 Hf Hu) as (r & c & E & EG & EB & Eu & EI). eauto 10. }
    destruct X as (r & c & E & EG & EB & (u & Eu & Hu')). exists r, c, u. rewrite (QF fuel u0 Hu). repeat (split; [assumption|]).
    unfold form_run in E. destruct (loop_spec n o ev1 _ evn _ _ _ _ _ _ _ _ _ E) as (_ & _ & _ & _ & _ & G). destruct (G u Eu) as [G1 _].
    destruct (QE u) as (g & k & Ev & Eg). rewrite Ev in G1. cbn in G1. injection G1 as _ <-. exact Eg.
  Qed.
End Q.

(** ** SORM on such a function *)
Lemma orth_dim n (R1 : mat) (alpha v : vec) : norm n alpha = 1 -> orthonormal_matrix n alpha = Ok R1 ->
  (forall i, (i < n)%nat -> dot n (R1 i) v = 0) -> veq n v (fun _ => 0).
Proof.
  intros Hal HR Hv. destruct (om_ok n alpha R1 Hal HR) as (_ & _ & HC & _). intros c Hc.
  transitivity (fsum n (fun d => delta c d * v d)); [symmetry; now apply fsum_delta|].
  rewrite (fsum_ext n _ (fun d => fsum n (fun i => R1 i c * (R1 i d * v d)))).
  - rewrite fsum_swap. apply fsum_zero. intros i Hi. rewrite fsum_scal. change (fsum n (fun d => R1 i d * v d)) with (dot n (R1 i) v). rewrite (Hv i Hi). ring.
  - intros d Hd. rewrite <- (HC c d Hc Hd). unfold dot, mcol. rewrite <- fsum_scal_r. apply fsum_ext. intros; ring.
Qed.

Section S.
Variables (inv : nat -> mat -> result mat) (eig : nat -> mat -> result (list R)) (sort : list R -> list R) (lf : nat) (expr : expression) (fo : form_opts) (evn : option exn).
Variables (n : nat) (T A : mat) (s0 : smodel) (av : vec) (b : R) (H : mat).
Let cost := eval_cost n fo.
Hypothesis HS : forall s u, same_core s0 s -> exists g,
  sev inv lf expr fo n T A s (vlist n (u_to_x n A (marg_at s) u)) = (Ok (qval n av b H u, g), addCallFunction s cost) /\ veq n g (fun i => - av i + mvec n H u i).
Hypothesis Hff : o_ffdpara (fo_ls fo) <> 0.
Hypothesis Hsym : symmetric n H.
Hypothesis HHa : veq n (mvec n H av) (fun _ => 0).

Lemma sev_list_q us : forall s, same_core s0 s -> exists vs,
  sev_list inv lf expr fo n T A s (map (fun u => vlist n (u_to_x n A (marg_at s0) u)) us) = (Ok vs, addCallFunction s (length us * cost)) /\
  forall k, (k < length us)%nat -> veq n (snd (nth k vs (0, fun _ => 0))) (fun i => - av i + mvec n H (nth k us (fun _ => 0)) i).
Proof.
  induction us as [|u us IH]; intros s HC.
  - exists []. cbn. rewrite add0. split; [reflexivity|]. intros k Hk. lia.
  - cbn [map sev_list]. destruct (HS s u HC) as (g & E & Eg).
    assert (EM : marg_at s = marg_at s0) by (destruct HC as (_ & _ & X & _); unfold marg_at; now rewrite X).
    rewrite EM in E. rewrite E.
    destruct (IH (addCallFunction s cost) (core_trans _ _ _ HC (core_add s cost))) as (vs & E2 & G). rewrite E2.
    eexists. split; [rewrite add_add; reflexivity|].
    intros [|k] Hk; [exact Eg|]. cbn [nth]. apply G. cbn in Hk. lia.
Qed.
Lemma hessian_q u0 s : same_core s0 s -> exists H',
  computeHessian inv lf expr fo n T A A u0 s = (Ok H', addCallFunction s ((1 + n) * cost)) /\ forall a i, (a < n)%nat -> (i < n)%nat -> H' a i = H a i.
Proof.
  intros HC. unfold computeHessian. cbv zeta. rewrite (proj2 (Reqb_false _ _) Hff).
  assert (EM : marg_at s = marg_at s0) by (destruct HC as (_ & _ & X & _); unfold marg_at; now rewrite X). rewrite EM.
  set (h := 1 / o_ffdpara (fo_ls fo)). assert (Hh : h <> 0) by (unfold h, Rdiv; rewrite Rmult_1_l; now apply Rinv_neq_0_compat).
  destruct (sev_list_q (u0 :: map (u_plus h u0) (seq 0 n)) s HC) as (vs & E & G).
  cbn [map] in E. rewrite map_map in E. rewrite E. eexists. split.
  - cbn [length]. rewrite map_length, seq_length. reflexivity.
  - intros a i Ha Hi. cbn [length] in G. rewrite map_length, seq_length in G.
    cbv beta. rewrite (G (S i) ltac:(lia) a Ha), (G 0%nat ltac:(lia) a Ha). cbn [nth].
    rewrite (nth_indep _ _ (u_plus h u0 0%nat)) by (rewrite map_length, seq_length; exact Hi).
    rewrite map_nth, seq_nth by exact Hi. rewrite Nat.add_0_l.
    assert (D : mvec n H (u_plus h u0 i) a = mvec n H u0 a + h * H a i).
    { unfold mvec, u_plus. rewrite (fsum_ext n _ (fun j => H a j * u0 j + delta i j * (h * H a j))).
      - rewrite fsum_plus, fsum_delta by exact Hi. reflexivity.
      - intros j Hj. unfold delta. rewrite (Nat.eqb_sym i j). destruct (Nat.eqb j i); ring. }
    rewrite D. field. exact Hh.
Qed.

Variables (alpha grad : vec) (beta : R) (R1 : mat).
Hypothesis Hal : veq n alpha (fun i => av i / norm n av).
Hypothesis Hgr : norm n grad = norm n av.
Hypothesis Hna : norm n av <> 0.
Hypothesis HR : orthonormal_matrix n alpha = Ok R1.
Hypothesis Hb : beta = b / norm n av.

Lemma Hu : norm n alpha = 1. Proof. exact (alpha_unit n av alpha Hal Hna). Qed.
Lemma H_alpha : veq n (mvec n H alpha) (fun _ => 0).
Proof.
  intros i Hi. rewrite (mvec_ext n H _ _ Hal). unfold mvec. rewrite (fsum_ext n _ (fun j => / norm n av * (H i j * av j))) by (intros; unfold Rdiv; ring).
  rewrite fsum_scal. change (fsum n (fun j => H i j * av j)) with (mvec n H av i). rewrite (HHa i Hi). ring.
Qed.
Lemma H_sym u v : dot n u (mvec n H v) = dot n v (mvec n H u).
Proof.
  rewrite (dot_mvec n H u v). unfold dot. apply fsum_ext. intros i Hi. rewrite Rmult_comm. f_equal. unfold mvec, mtrans. apply fsum_ext. intros j Hj. now rewrite Hsym.
Qed.
Lemma alpha_H v : dot n alpha (mvec n H v) = 0.
Proof. rewrite H_sym. unfold dot. apply fsum_zero. intros i Hi. rewrite (H_alpha i Hi). ring. Qed.

Lemma curv_entry H' i j : (forall a c, (a < n)%nat -> (c < n)%nat -> H' a c = H a c) -> (i < n)%nat -> (j < n)%nat ->
  curvature_matrix n R1 H' grad i j = dot n (R1 i) (mvec n H (R1 j)) / norm n av.
Proof.
  intros HH Hi Hj. unfold curvature_matrix, mmul, mtrans. rewrite Hgr. f_equal.
  rewrite (fsum_ext n _ (fun k => fsum n (fun l => R1 i l * (H l k * R1 j k)))).
  - rewrite fsum_swap. unfold dot, mvec. apply fsum_ext. intros l Hl. now rewrite fsum_scal.
  - intros k Hk. rewrite <- fsum_scal_r. apply fsum_ext. intros l Hl. rewrite HH by assumption. ring.
Qed.

Definition lift (w : vec) : vec := fun c => fsum (n - 1) (fun j => w j * R1 j c).
Lemma lift_row w i : (i < n)%nat -> dot n (R1 i) (lift w) = if Nat.eqb i (n - 1) then 0 else w i.
Proof.
  destruct (om_ok n alpha R1 Hu HR) as (N2 & HO & HC & HL & _).
  intros Hi. unfold dot, lift. rewrite (fsum_ext n _ (fun c => fsum (n - 1) (fun j => w j * (R1 i c * R1 j c)))).
  2: { intros c _. rewrite <- fsum_scal. apply fsum_ext. intros; ring. }
  rewrite fsum_swap. destruct (Nat.eqb_spec i (n - 1)) as [->|Hd].
  - apply fsum_zero. intros j Hj. rewrite fsum_scal. change (fsum n (fun c => R1 (n - 1)%nat c * R1 j c)) with (dot n (R1 (n - 1)%nat) (R1 j)).
    rewrite HO by lia. rewrite delta_neq by lia. ring.
  - rewrite (fsum_ext (n - 1) _ (fun j => delta i j * w j)); [now rewrite fsum_delta by lia|].
    intros j Hj. rewrite fsum_scal. change (fsum n (fun c => R1 i c * R1 j c)) with (dot n (R1 i) (R1 j)). rewrite HO by lia. ring.
Qed.
Lemma lift_alpha w : dot n alpha (lift w) = 0.
Proof.
  destruct (om_ok n alpha R1 Hu HR) as (N2 & HO & HC & HL & _).
  assert (X := lift_row w (n - 1)%nat ltac:(lia)). rewrite Nat.eqb_refl in X. rewrite <- X. apply Base.dot_ext; [|intros c _; reflexivity]. intros c Hc. now rewrite (HL c Hc).
Qed.
Lemma lift_dot w w' : dot n (lift w) (lift w') = dot (n - 1) w w'.
Proof.
  unfold dot at 1. rewrite (fsum_ext n _ (fun c => fsum (n - 1) (fun j => w j * (R1 j c * lift w' c)))).
  - rewrite fsum_swap. unfold dot. apply fsum_ext. intros j Hj. rewrite fsum_scal. f_equal.
    change (fsum n (fun c => R1 j c * lift w' c)) with (dot n (R1 j) (lift w')). rewrite lift_row by lia. destruct (Nat.eqb_spec j (n - 1)); [lia|reflexivity].
  - intros c _. unfold lift at 1. rewrite <- fsum_scal_r. apply fsum_ext. intros; ring.
Qed.
Lemma lift_eigen B w x : (forall i j, (i < n - 1)%nat -> (j < n - 1)%nat -> B i j = dot n (R1 i) (mvec n H (R1 j)) / norm n av) ->
  (forall i, (i < n - 1)%nat -> mvec (n - 1) B w i = x * w i) ->
  veq n (mvec n H (lift w)) (fun c => x * norm n av * lift w c).
Proof.
  intros HB HE. destruct (om_ok n alpha R1 Hu HR) as (N2 & HO & HC & HL & _).
  set (v := lift w). assert (DV : forall i, (i < n)%nat -> dot n (R1 i) v = if Nat.eqb i (n - 1) then 0 else w i) by (intros i Hi; now apply lift_row).
  assert (HV : forall c, (c < n)%nat -> mvec n H v c = fsum (n - 1) (fun j => w j * mvec n H (R1 j) c)).
  { intros c Hc. unfold mvec, v, lift. rewrite (fsum_ext n _ (fun d => fsum (n - 1) (fun j => w j * (H c d * R1 j d)))).
    - rewrite fsum_swap. apply fsum_ext. intros j _. now rewrite fsum_scal.
    - intros d _. rewrite <- fsum_scal. apply fsum_ext. intros; ring. }
  assert (Z : veq n (fun c => mvec n H v c - x * norm n av * v c) (fun _ => 0)).
  { apply (orth_dim n R1 alpha _ Hu HR). intros i Hi. rewrite dot_sub_r, (dot_scal_r n (x * norm n av)), (DV i Hi).
    destruct (Nat.eqb_spec i (n - 1)) as [->|Hd].
    - rewrite (Base.dot_ext n (R1 (n - 1)%nat) (mvec n H v) alpha (mvec n H v)) by (first [exact HL|intros c _; reflexivity]). rewrite alpha_H. ring.
    - rewrite (Base.dot_ext n (R1 i) (mvec n H v) (R1 i) (fun c => fsum (n - 1) (fun j => w j * mvec n H (R1 j) c))) by (first [exact HV|intros c _; reflexivity]).
      unfold dot at 1. rewrite (fsum_ext n _ (fun c => fsum (n - 1) (fun j => w j * (R1 i c * mvec n H (R1 j) c)))).
      2: { intros c _. rewrite <- fsum_scal. apply fsum_ext. intros; ring. }
      rewrite fsum_swap. specialize (HE i ltac:(lia)). unfold mvec at 1 in HE.
      rewrite (fsum_ext (n - 1) _ (fun j => norm n av * (B i j * w j))).
      + rewrite fsum_scal, HE. ring.
      + intros j Hj. rewrite fsum_scal, (HB i j) by lia. unfold dot. field. exact Hna. }
  intros i Hi. specialize (Z i Hi). cbv beta in Z. lra.
Qed.

Lemma curvefit_q u0 s : same_core s0 s -> eig_contract (n - 1) eig -> sort_contract sort -> exists l,
  curvefit inv eig sort lf expr fo n T A A u0 alpha grad beta s = (Ok (beta, l), addCallFunction s ((1 + n) * cost)) /\
  principal_curvatures n H alpha (norm n av) l /\ ascending l.
Proof.
  intros HC HE HSo. unfold curvefit. destruct (hessian_q u0 s HC) as (H' & E & Z). rewrite E, HR. cbn [rbind].
  assert (B : forall i j, (i < n - 1)%nat -> (j < n - 1)%nat -> curvature_matrix n R1 H' grad i j = dot n (R1 i) (mvec n H (R1 j)) / norm n av)
    by (intros i j Hi Hj; apply curv_entry; [exact Z|lia|lia]).
  destruct (HE (curvature_matrix n R1 H' grad)) as (l & V & El & Ll & HO & HV).
  { intros i j Hi Hj. rewrite (B i j Hi Hj), (B j i Hj Hi). f_equal. apply H_sym. }
  rewrite El. cbn [rbind]. destruct (HSo l) as (HP & HA). exists (sort l). split; [reflexivity|]. split; [|exact HA].
  assert (LS : length (sort l) = (n - 1)%nat) by (rewrite (Permutation_length HP); exact Ll).
  split; [exact LS|]. apply Permutation_sym in HP. destruct (proj1 (Permutation_nth l (sort l) 0) HP) as (_ & p & Pb & Pi & Pn).
  rewrite Ll in *. exists (fun i => lift (V (p i))). intros i j Hi Hj. assert (Hpi := Pb i Hi). assert (Hpj := Pb j Hj). split; [|split].
  - rewrite lift_dot, HO by assumption. unfold delta. destruct (Nat.eqb_spec i j) as [->|Hd]; [now rewrite Nat.eqb_refl|].
    destruct (Nat.eqb_spec (p i) (p j)) as [Hp|]; [|reflexivity]. now apply Pi in Hp.
  - apply lift_alpha.
  - rewrite (Pn i Hi). apply (lift_eigen _ (V (p i)) (nth (p i) l 0) B). intros k Hk. now apply HV.
Qed.

(** point fitting *)
Lemma rot_point axis up : (axis < n - 1)%nat -> (forall c, c <> axis -> c <> (n - 1)%nat -> up c = 0) ->
  veq n (mvec n (mtrans R1) up) (fun c => up axis * R1 axis c + up (n - 1)%nat * alpha c).
Proof.
  intros Hax Hz c Hc. destruct (om_ok n alpha R1 Hu HR) as (N2 & _ & _ & HL & _). unfold mvec, mtrans.
  rewrite (fsum_ext n _ (fun j => delta axis j * (up j * R1 j c) + delta (n - 1) j * (up j * R1 j c))).
  - rewrite fsum_plus, !fsum_delta by lia. now rewrite (HL c Hc).
  - intros j Hj. unfold delta. destruct (Nat.eqb_spec axis j) as [<-|H1].
    + destruct (Nat.eqb_spec (n - 1) axis); [lia|]. ring.
    + destruct (Nat.eqb_spec (n - 1) j) as [<-|H2]; [ring|]. rewrite Hz by congruence. ring.
Qed.
Lemma ev_rot axis up s : (axis < n - 1)%nat -> same_core s0 s -> (forall c, c <> axis -> c <> (n - 1)%nat -> up c = 0) ->
  exists g, fst (sev inv lf expr fo n T A s (vlist n (u_to_x n A (marg_at s) (mvec n (mtrans R1) up)))) =
    Ok (b + / 2 * (up axis * up axis) * dot n (R1 axis) (mvec n H (R1 axis)) - norm n av * up (n - 1)%nat, g) /\ mvec n R1 g (n - 1)%nat = - norm n av.
Proof.
  intros Hax HC Hz. destruct (om_ok n alpha R1 Hu HR) as (N2 & HO & _ & HL & _).
  set (p := mvec n (mtrans R1) up). assert (HP := rot_point axis up Hax Hz). fold p in HP.
  destruct (HS s p HC) as (g & E & Eg). exists g. rewrite E. cbn [fst].
  set (t := up axis) in *. set (un := up (n - 1)%nat) in *. set (r := R1 axis) in *.
  assert (AV : forall v, dot n av v = norm n av * dot n alpha v).
  { intros v. rewrite <- dot_scal_l. apply Base.dot_ext; [|intros c _; reflexivity]. intros c Hc. rewrite (Hal c Hc). field. exact Hna. }
  assert (AR : dot n alpha r = 0).
  { rewrite (Base.dot_ext n alpha r (R1 (n - 1)%nat) r) by (first [intros c Hc; now rewrite (HL c Hc)|intros c _; reflexivity]). unfold r. rewrite HO by lia. apply delta_neq. lia. }
  assert (AA : dot n alpha alpha = 1) by (rewrite <- norm_sqr, Hu; ring).
  assert (AP : dot n alpha p = un).
  { rewrite (Base.dot_ext n alpha p alpha _ ltac:(intros c _; reflexivity) HP). rewrite (dot_add_r n alpha (fun c => t * r c) (fun c => un * alpha c)), !dot_scal_r, AR, AA. ring. }
  assert (MP : forall i, (i < n)%nat -> mvec n H p i = t * mvec n H r i).
  { intros i Hi. rewrite (mvec_ext n H _ _ HP). unfold mvec. rewrite (fsum_ext n _ (fun j => t * (H i j * r j) + un * (H i j * alpha j))) by (intros; ring).
    rewrite fsum_plus, !fsum_scal. change (fsum n (fun j => H i j * alpha j)) with (mvec n H alpha i). rewrite (H_alpha i Hi). ring. }
  assert (PP : dot n p (mvec n H p) = t * t * dot n r (mvec n H r)).
  { rewrite (Base.dot_ext n p _ p (fun i => t * mvec n H r i) ltac:(intros c _; reflexivity) MP), dot_scal_r.
    rewrite H_sym, (Base.dot_ext n r _ r (fun i => t * mvec n H r i) ltac:(intros c _; reflexivity) MP), dot_scal_r. ring. }
  split.
  - do 2 f_equal. unfold qval. rewrite PP, AV, AP. ring.
  - change (mvec n R1 g (n - 1)%nat) with (dot n (R1 (n - 1)%nat) g).
    rewrite (Base.dot_ext n (R1 (n - 1)%nat) g alpha (fun i => - av i + mvec n H p i) HL Eg).
    rewrite (dot_add_r n alpha (fun c => - av c) (mvec n H p)), alpha_H.
    rewrite (Base.dot_ext n alpha (fun c => - av c) alpha (fun c => - norm n av * alpha c)) by (first [intros c _; reflexivity|intros c Hc; rewrite (Hal c Hc); field; exact Hna]).
    rewrite dot_scal_r, AA. ring.
Qed.
Lemma trace_calls s (x : vec -> list R) tr : same_core s0 s -> (forall s' u, same_core s0 s' -> snd (sev inv lf expr fo n T A s' (x u)) = addCallFunction s' cost) ->
  fold_left (fun s u => snd (sev inv lf expr fo n T A s (x u))) tr s = addCallFunction s (length tr * cost).
Proof.
  intros HC HX. revert s HC. induction tr as [|u tr IH]; intros s HC; [cbn; now rewrite add0|].
  cbn [fold_left]. rewrite (HX s u HC). rewrite IH by exact (core_trans _ _ _ HC (core_add s cost)). rewrite add_add. reflexivity.
Qed.
Hypothesis Hbig : 1 / 1000000000000 <= norm n av.
Lemma fit_one_q k s axis sign : same_core s0 s -> (axis < n - 1)%nat -> sign * sign = 1 -> 1 / 1000000000000 <= Rabs (k * beta) ->
  exists c, fit_one inv lf expr fo n T A R1 beta k s axis sign = (Ok (fitted n H (norm n av) ((k * beta) * (k * beta)) (R1 axis)), addCallFunction s c) /\ (c <= 2 * cost)%nat.
Proof.
  intros HC Hax Hsg Hkb. unfold fit_one. cbv zeta.
  set (ev := fun u => fst (sev inv lf expr fo n T A s (vlist n (u_to_x n A (marg_at s) u)))).
  set (q := dot n (R1 axis) (mvec n H (R1 axis))).
  assert (ES : Rabs sign = 1) by (assert (X : sign = 1 \/ sign = -1) by nra; destruct X as [-> | ->]; unfold Rabs; destruct (Rcase_abs _); lra).
  assert (Habs : Rabs (sign * k * beta) = Rabs (k * beta)) by (rewrite Rmult_assoc, Rabs_mult, ES; ring).
  destruct (ffp_linear n R1 ev axis sign beta k 50 (1 / 1000000) (fun t => b + / 2 * (t * t) * q) (norm n av) Hax ltac:(lra) ltac:(lia)) as (tr & Ltr & P1 & P2).
  - rewrite Rabs_right; [exact Hbig|lra].
  - rewrite Habs. exact Hkb.
  - intros up Hz. destruct (ev_rot axis up s Hax HC Hz) as (g & E & Eg). exists g. split; [exact E|exact Eg].
  - assert (SQ : sign * k * beta * (sign * k * beta) = k * beta * (k * beta)).
    { replace (sign * k * beta * (sign * k * beta)) with (sign * sign * (k * beta * (k * beta))) by ring. rewrite Hsg. ring. }
    assert (EV : b + / 2 * (sign * k * beta * (sign * k * beta)) * q - norm n av * beta = / 2 * (k * beta * (k * beta)) * q) by (rewrite SQ, Hb; field; exact Hna).
    cbv zeta beta in P1, P2. rewrite EV in P1, P2.
    assert (K0 : k * beta <> 0) by (intros Z; rewrite Z, Rabs_R0 in Hkb; lra).
    assert (EF : find_fitting_point n R1 ev axis sign beta k 50 (1 / 1000000) = (Ok (fitted n H (norm n av) (k * beta * (k * beta)) (R1 axis)), tr)).
    { unfold fitted, normal_curv. fold q. destruct (Rltb (Rabs (/ 2 * (k * beta * (k * beta)) * q)) (1 / 1000000)) eqn:EL.
      - apply Rltb_spec in EL. exact (P2 EL).
      - apply Rltb_false in EL. rewrite (P1 ltac:(lra)). do 2 f_equal. rewrite SQ. set (kb := k * beta) in *. rewrite Hb. clear - K0 Hna. field. now split. }
    rewrite EF. exists (length tr * cost)%nat. split; [|nia]. f_equal. apply trace_calls; [exact HC|].
    intros s' u HC'. assert (EM : marg_at s = marg_at s') by (destruct HC as (_ & _ & X & _), HC' as (_ & _ & X' & _); unfold marg_at; now rewrite X, X').
    rewrite EM. destruct (HS s' u HC') as (g & E & _). rewrite E. reflexivity.
Qed.
Lemma fit_axes_q k axes : 1 / 1000000000000 <= Rabs (k * beta) -> (forall i, In i axes -> (i < n - 1)%nat) -> forall s, same_core s0 s -> exists c,
  let l := map (fun i => fitted n H (norm n av) (k * beta * (k * beta)) (R1 i)) axes in
  fit_axes inv lf expr fo n T A R1 beta k s axes = (Ok (l, l), addCallFunction s c) /\ (c <= 4 * length axes * cost)%nat.
Proof.
  intros Hk. induction axes as [|i axes IH]; intros HI s HC; [exists 0%nat; cbn; rewrite add0; split; [reflexivity|lia]|].
  cbn [fit_axes]. destruct (fit_one_q k s i (-1) HC (HI i (or_introl eq_refl)) ltac:(lra) Hk) as (c1 & E1 & L1). rewrite E1.
  assert (C1 := core_trans _ _ _ HC (core_add s c1)). destruct (fit_one_q k _ i 1 C1 (HI i (or_introl eq_refl)) ltac:(lra) Hk) as (c2 & E2 & L2). rewrite E2.
  destruct (IH (fun j Hj => HI j (or_intror Hj)) _ (core_trans _ _ _ C1 (core_add _ c2))) as (c3 & E3 & L3). cbv zeta in E3. rewrite E3.
  exists (c1 + c2 + c3)%nat. cbv zeta. cbn [map length]. split; [rewrite !add_add; do 2 f_equal; lia|]. nia.
Qed.
Lemma pointfit_q s : beta <> 0 -> same_core s0 s -> exists c,
  let l := map (fun i => fitted n H (norm n av) ((step_coeff beta * beta) * (step_coeff beta * beta)) (R1 i)) (seq 0 (n - 1)) in
  pointfit inv lf expr fo evn n T A alpha beta s = (Ok (beta, l, l), addCallFunction s c) /\ (c <= 4 * (n - 1) * cost)%nat.
Proof.
  intros H0 HC. unfold pointfit. rewrite HR, (proj2 (Reqb_false _ _) H0).
  destruct (step_coeff_spec beta H0) as (SC & _).
  destruct (fit_axes_q (step_coeff beta) (seq 0 (n - 1))) with (s := s) as (c & E & L).
  - rewrite SC. apply Rle_trans with 1; [lra|apply Rmax_l].
  - intros i Hi. apply in_seq in Hi. lia.
  - exact HC.
  - cbv zeta in E. rewrite E, seq_length in *. exists c. split; [reflexivity|exact L].
Qed.
End S.

(** ** quadratic limit states in normal variables *)
Section N.
  Variables (h : list smop) (expr : expression) (f : list (string * R) -> R) (gr : list (string * R) -> list R) (o : lsopts) (fuel : nat).
  Variables (T A : mat) (inv : nat -> mat -> result mat) (m : nat -> rv).
  Let n := ndists h.
  Variables (c0 : R) (cf mu sd : vec) (Q : mat).
  Hypothesis Hp : with_gradient expr f gr.
  Hypothesis Hn : (1 <= n)%nat.
  Hypothesis Hb : (1 <= o_block_size o)%Z.
  Hypothesis Hfu : (ntrial < fuel)%nat.
  Hypothesis Hmp : o_multi_proc o = 1%Z.
  Hypothesis Hd : o_diff_mode o = "ddm"%string.
  Hypothesis HT : inverse_pair n T A.
  Hypothesis HI : inv_contract n inv.
  Hypothesis HIex : forall X Y, inverse_pair n Y X -> exists C, inv n X = Ok C.
  Hypothesis Hq : forall q, length q = n -> f (args_at h q) = quad_value n c0 cf mu Q q /\ gr (args_at h q) = quad_gradient n cf mu Q q.
  Hypothesis Hsd : forall i, (i < n)%nat -> sd i <> 0.
  Hypothesis Hm : forall i, (i < n)%nat -> (forall z, rv_u2x (m i) z = mu i + sd i * z) /\ forall z x, rv_jac (m i) z x = / sd i.

  Let b := c0 + fsum n (fun i => cf i * mu i).
  Let av : vec := fun j => - fsum n (fun i => cf i * sd i * A i j).
  Let H := u_hessian n A sd Q.

  Lemma x_at u i : (i < n)%nat -> nth i (vlist n (u_to_x n A m u)) 0 = mu i + sd i * mvec n A u i.
  Proof. intros Hi. rewrite vlist_nth by exact Hi. unfold u_to_x. cbv zeta. apply (proj1 (Hm i Hi)). Qed.
  Lemma H_at u j : mvec n H u j = fsum n (fun i => (A i j * sd i) * fsum n (fun k => Q i k * (sd k * mvec n A u k))).
  Proof.
    unfold mvec at 1, H, u_hessian.
    rewrite (fsum_ext n _ (fun l => fsum n (fun i => fsum n (fun k => A i j * sd i * Q i k * (sd k * A k l) * u l)))).
    2: { intros l _. rewrite <- fsum_scal_r. apply fsum_ext. intros i _. rewrite <- fsum_scal_r. apply fsum_ext. intros; ring. }
    rewrite fsum_swap. apply fsum_ext. intros i _. rewrite fsum_swap. rewrite <- fsum_scal. apply fsum_ext. intros k _.
    unfold mvec. rewrite <- !fsum_scal. apply fsum_ext. intros; ring.
  Qed.
  Lemma q_value u : f (args_at h (vlist n (u_to_x n A m u))) = qval n av b H u.
  Proof.
    rewrite (proj1 (Hq _ (vlist_length _ _))). unfold quad_value, qval. f_equal.
    - rewrite (fsum_ext n _ (fun i => cf i * mu i + fsum n (fun j => cf i * sd i * A i j * u j))).
      + rewrite fsum_plus. unfold b, av, dot. rewrite fsum_swap.
        rewrite (fsum_ext n (fun j => - fsum n (fun i => cf i * sd i * A i j) * u j) (fun j => - fsum n (fun i => cf i * sd i * A i j * u j))).
        * rewrite fsum_opp. ring.
        * intros j _. rewrite fsum_scal_r. ring.
      + intros i Hi. rewrite (x_at u i Hi). unfold mvec. rewrite Rmult_plus_distr_l. f_equal. rewrite <- !fsum_scal. apply fsum_ext. intros; ring.
    - f_equal. unfold dot. rewrite (fsum_ext n (fun j => u j * mvec n H u j) (fun j => fsum n (fun i => u j * ((A i j * sd i) * fsum n (fun k => Q i k * (sd k * mvec n A u k)))))).
      2: { intros j _. now rewrite H_at, fsum_scal. }
      symmetry. rewrite fsum_swap. symmetry. apply fsum_ext. intros i Hi.
      rewrite (fsum_ext n (fun j => u j * (A i j * sd i * fsum n (fun k => Q i k * (sd k * mvec n A u k)))) (fun j => (A i j * u j) * (sd i * fsum n (fun k => Q i k * (sd k * mvec n A u k))))) by (intros; ring).
      rewrite fsum_scal_r. change (fsum n (fun j => A i j * u j)) with (mvec n A u i). rewrite <- !fsum_scal. apply fsum_ext. intros k Hk. rewrite !x_at by assumption. ring.
  Qed.

  Lemma q_ev u : exists g k, form_ev fuel (sm_run h) expr o n T A inv m u = (Ok (qval n av b H u, g), k) /\ veq n g (fun i => - av i + mvec n H u i).
  Proof.
    unfold form_ev. cbv zeta. unfold computeTransformation. set (x := u_to_x n A m u).
    assert (JI : inverse_pair n (jacobian n T A m u x) (fun i j => / rv_jac (m i) (mvec n A u i) (x i) * A i j)).
    { apply jac_inverse; [exact HT|]. intros i Hi. rewrite (proj2 (Hm i Hi)). apply Rinv_neq_0_compat. apply Hsd. exact Hi. }
    assert (JI' : inverse_pair n (fun i j => / rv_jac (m i) (mvec n A u i) (x i) * A i j) (jacobian n T A m u x)).
    { destruct JI as [J1 J2]. split; assumption. }
    destruct (HIex _ _ JI') as [J EJ]. rewrite EJ. pose proof (HI _ _ EJ) as HJ.
    assert (EJJ : meq n J (fun i j => sd i * A i j)).
    { assert (HJ' : inverse_pair n (jacobian n T A m u x) J) by (destruct HJ; split; assumption).
      intros i j Hi Hj. rewrite (inverse_unique n _ _ _ HJ' JI i j Hi Hj), (proj2 (Hm i Hi)). rewrite Rinv_involutive by (apply Hsd; exact Hi). reflexivity. }
    destruct Hp as (Hpw & Hgr).
    assert (LX : length (vlist n x) = ndists h) by apply vlist_length.
    assert (KN : kwfull h [vlist n x] <> []) by (apply kwfull_nonnil; exact Hn).
    assert (KA : map (fun kv => (fst kv, nth 0 (snd kv) 0)) (kwfull h [vlist n x]) = args_at h (vlist n x)) by (apply (kwfull_at h [vlist n x] 0); [cbn; lia|exact LX]).
    destruct (Hgr (kwfull h [vlist n x]) KN ltac:(intros k v Hkv; apply kwfull_lengths in Hkv; exact Hkv)) as (G & EG). rewrite KA in EG.
    destruct (Hpw (kwfull h [vlist n x]) 1%nat KN ltac:(intros k v Hkv; apply kwfull_lengths in Hkv; exact Hkv)) as (out & EO & EV).
    rewrite EG in EO. injection EO as <-. cbn [value_of seq map] in EV. rewrite KA in EV. subst G.
    rewrite (proj2 (Hq _ LX)) in EG.
    assert (ED : ev_out (evaluate_lsf fuel (sm_run h) expr o None n [vlist n x]) = ODone [f (args_at h (vlist n x))] [quad_gradient n cf mu Q (vlist n x)]).
    { unfold evaluate_lsf. rewrite Hmp, Hd. cbn [Z.eqb Pos.eqb String.eqb Ascii.eqb Bool.eqb].
      apply (ddm_one_point h expr (vlist n x) _ (quad_gradient n cf mu Q (vlist n x)) LX); [unfold quad_gradient; now rewrite map_length, seq_length|exact EG]. }
    rewrite ED. eexists. eexists. split; [cbn [nth]; unfold x; rewrite q_value; reflexivity|].
    intros j Hj. cbn [nth]. unfold pull_gradient. rewrite H_at. unfold av. rewrite Ropp_involutive, <- fsum_plus. apply fsum_ext. intros i Hi.
    rewrite (EJJ i j Hi Hj). unfold vof, quad_gradient. rewrite nth_map_seq by exact Hi.
    rewrite (fsum_ext n (fun k => Q i k * (nth k (vlist n (u_to_x n A m u)) 0 - mu k)) (fun k => Q i k * (sd k * mvec n A u k))) by (intros k Hk; rewrite x_at by exact Hk; ring). ring.
  Qed.
  Lemma q_trial us : length us = ntrial -> exists k, form_trial fuel (sm_run h) expr o n A m us = (Ok (map (qval n av b H) us), k).
  Proof.
    intros Hus. unfold form_trial. cbv zeta. unfold n.
    rewrite (dispatch_nogradient fuel h expr f o (Some "no"%string) _ ltac:(rewrite Hmp; discriminate) (or_introl (ex_intro _ _ eq_refl)) (proj1 Hp) Hn).
    - eexists. rewrite map_map. f_equal. f_equal. apply map_ext. intros u. apply q_value.
    - intros p Hin. apply in_map_iff in Hin. destruct Hin as (u & <- & _). apply vlist_length.
    - exact Hb.
    - rewrite map_length, Hus. exact Hfu.
  Qed.
End N.

(** the condition on the Hessian, in physical terms: Q Sigma cf = 0 *)
Lemma kernel_cond n A (Ro : mat) (sd cf : vec) Q : factor_of n A Ro ->
  (forall i, (i < n)%nat -> fsum n (fun j => Q i j * (sd j * fsum n (fun k => Ro j k * (sd k * cf k)))) = 0) ->
  veq n (mvec n (u_hessian n A sd Q) (fun j => - fsum n (fun i => cf i * sd i * A i j))) (fun _ => 0).
Proof.
  intros HF HQ j Hj.
  assert (AA : forall k, (k < n)%nat -> mvec n A (fun j => - fsum n (fun i => cf i * sd i * A i j)) k = - fsum n (fun i => Ro k i * (sd i * cf i))).
  { intros k Hk. unfold mvec. rewrite (fsum_ext n _ (fun l => - fsum n (fun i => (sd i * cf i) * (A k l * A i l)))).
    - rewrite fsum_opp. f_equal. rewrite fsum_swap. apply fsum_ext. intros i Hi. rewrite fsum_scal, (HF k i Hk Hi). ring.
    - intros l _. rewrite Ropp_mult_distr_r_reverse, <- fsum_scal. f_equal. apply fsum_ext. intros; ring. }
  set (a := fun j0 : nat => - fsum n (fun i : nat => cf i * sd i * A i j0)) in *. clearbody a. unfold mvec at 1, u_hessian.
  rewrite (fsum_ext n _ (fun l => fsum n (fun i => fsum n (fun k => A i j * sd i * Q i k * (sd k * A k l) * a l)))).
  2: { intros l _. rewrite <- fsum_scal_r. apply fsum_ext. intros i _. rewrite <- fsum_scal_r. apply fsum_ext. intros; ring. }
  rewrite fsum_swap. apply fsum_zero. intros i Hi. rewrite fsum_swap.
  rewrite (fsum_ext n _ (fun k => - (A i j * sd i) * (Q i k * (sd k * fsum n (fun i => Ro k i * (sd i * cf i)))))).
  - rewrite fsum_scal, (HQ i Hi). ring.
  - intros k Hk. rewrite (fsum_ext n _ (fun l => (A i j * sd i * Q i k * sd k) * (A k l * a l))) by (intros; ring).
    rewrite fsum_scal. change (fsum n (fun l => A k l * a l)) with (mvec n A a k). rewrite (AA k Hk). ring.
Qed.
Lemma hessian_sym n A sd Q : symmetric n Q -> symmetric n (u_hessian n A sd Q).
Proof.
  intros HQ i j Hi Hj. unfold u_hessian. rewrite fsum_swap. apply fsum_ext. intros k Hk. apply fsum_ext. intros l Hl. rewrite (HQ l k Hl Hk). ring.
Qed.
