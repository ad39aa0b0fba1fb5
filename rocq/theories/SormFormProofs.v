(** Lemmas for C103: SORM with a Form object whose transformation has another type. *)
From Coquelicot Require Import Coquelicot.
From Verif Require Import Base Ext Gauss GaussProofs StochModel LimitState Transf TransfSpec TransfProofs Form FormProofs Nataf Dist RotSpec Pipe PipeProofs GramSchmidt GramSchmidtProofs Sorm SormProofs Valid SormRun SormRunSpec SormRunProofs SormFormSpec.
From Coq Require Import ZArith Lra Lia.
Open Scope R_scope.

(** the physical image of a point of the Form's space is that of its image in the other space *)
Lemma image_change n T A Af m u : inverse_pair n T A -> vlist n (u_to_x n Af m u) = vlist n (u_to_x n A m (mvec n T (mvec n Af u))).
Proof.
  intros [_ HI]. unfold vlist. apply map_ext_in. intros i Hi. apply in_seq in Hi. unfold u_to_x.
  rewrite <- mvec_mmul, (mvec_meq n _ _ _ i HI ltac:(lia)), mvec_eye by lia. reflexivity.
Qed.

Lemma two_sided_breit beta km kp m (fm fp : nat -> R) : km = map fm (seq 0 m) -> kp = map fp (seq 0 m) ->
  two_sided beta m fm fp (pf_attr (sr_pf (pf_breitung_pf beta km kp))) (pf_attr (sr_beta (pf_breitung_pf beta km kp))).
Proof.
  intros -> ->. unfold pf_breitung_pf. split.
  - intros HP p.
    rewrite breit_pf_ok.
    2, 3: apply Forall_forall; intros x Hx; apply in_map_iff in Hx; destruct Hx as (i & <- & Hi); apply in_seq in Hi; apply HP; lia.
    cbv zeta. unfold pf_attr. cbn [sr_pf sr_beta].
    assert (E : Phi (- beta) * pfprod beta (map fm (seq 0 m)) (map fp (seq 0 m)) = p).
    { unfold p, pfprod. f_equal. f_equal. clear. induction (seq 0 m) as [|i l IH]; [reflexivity|]. cbn. f_equal; [unfold Rdiv; ring|exact IH]. }
    rewrite E. split; [reflexivity|]. intros z Hz. rewrite <- Hz, xppf_in by apply Phi_bound. rewrite ppf_Phi. cbn [xneg]. now rewrite Ropp_involutive.
  - intros (i & Hi & HN). unfold breitung_pf.
    assert (E : existsb (fun t => Rleb t 0) (map (fun k => 1 + beta * k) (map fp (seq 0 m))) || existsb (fun t => Rleb t 0) (map (fun k => 1 + beta * k) (map fm (seq 0 m))) = true).
    { apply orb_true_iff. destruct HN as [H|H]; [right|left]; apply existsb_exists.
      - exists (1 + beta * fm i). split; [apply (in_map (fun k => 1 + beta * k)), in_map, in_seq; lia|now apply Rleb_spec].
      - exists (1 + beta * fp i). split; [apply (in_map (fun k => 1 + beta * k)), in_map, in_seq; lia|now apply Rleb_spec]. }
    rewrite E. cbn. split; reflexivity.
Qed.

Section Foreign.
Variables (inv : nat -> mat -> result mat) (eig : nat -> mat -> result (list R)) (sort : list R -> list R) (lf : nat) (expr : expression) (fo : form_opts) (evn : option exn).
Variables (n : nat) (T A : mat) (s0 : smodel) (av : vec) (b : R).
Let cost := eval_cost n fo.
Hypothesis HS : forall s u, same_core s0 s -> exists g,
  sev inv lf expr fo n T A s (vlist n (u_to_x n A (marg_at s) u)) = (Ok (b - dot n av u, g), addCallFunction s cost) /\ veq n g (fun i => - av i).
Hypothesis HT : inverse_pair n T A.
Hypothesis Hff : o_ffdpara (fo_ls fo) <> 0.

Lemma hessian_foreign Af u0 s : same_core s0 s -> exists H,
  computeHessian inv lf expr fo n T A Af u0 s = (Ok H, addCallFunction s ((1 + n) * cost)) /\ forall a i, (a < n)%nat -> (i < n)%nat -> H a i = 0.
Proof.
  intros HC. unfold computeHessian. cbv zeta. rewrite (proj2 (Reqb_false _ _) Hff).
  assert (EM : marg_at s = marg_at s0) by (destruct HC as (_ & _ & X & _); unfold marg_at; now rewrite X). rewrite EM.
  set (h := 1 / o_ffdpara (fo_ls fo)). rewrite (image_change n T A Af (marg_at s0) u0 HT).
  destruct (sev_list_aff inv lf expr fo n T A s0 av b HS (mvec n T (mvec n Af u0) :: map (u_plus h u0) (seq 0 n)) s HC) as (vs & E & L & G).
  cbn [map] in E. rewrite map_map in E. rewrite E. eexists. split.
  - cbn [length]. rewrite map_length, seq_length. reflexivity.
  - intros a i Ha Hi. cbn [length] in G. rewrite map_length, seq_length in G.
    cbv beta. rewrite (G (S i) ltac:(lia) a Ha), (G 0%nat ltac:(lia) a Ha). unfold Rdiv. ring.
Qed.

Lemma curvefit_foreign Af alpha grad beta u0 s : same_core s0 s -> eig_contract (n - 1) eig -> sort_contract sort ->
  curvefit inv eig sort lf expr fo n T A Af u0 alpha grad beta s =
  (rbind (orthonormal_matrix n alpha) (fun _ => Ok (beta, repeat 0 (n - 1))), addCallFunction s ((1 + n) * cost)).
Proof.
  intros HC HE HSo. unfold curvefit. destruct (hessian_foreign Af u0 s HC) as (H & E & Z). rewrite E. f_equal.
  destruct (orthonormal_matrix n alpha) as [R1|]; [|reflexivity]. cbn [rbind].
  rewrite (eig_zero (n - 1) eig _ HE); [cbn [rbind]; now rewrite (sort_zero _ _ HSo)|].
  intros i j Hi Hj. unfold curvature_matrix, mmul. rewrite fsum_zero; [unfold Rdiv; ring|].
  intros k Hk. rewrite fsum_zero; [ring|]. intros l Hl. rewrite Z by assumption. ring.
Qed.

(** *** the Newton search in coordinates R1 (any matrix) *)
Variables (R1 : mat) (beta k : R).
Let C := dot n (R1 (n - 1)%nat) av.
Let D i := dot n (R1 i) av.
Hypothesis Hn : (2 <= n)%nat.
Hypothesis HC0 : 1 / 1000000000000 <= Rabs C.
Hypothesis Hk : 1 / 1000000000000 <= Rabs (k * beta).

Lemma rot_dot axis (up : vec) : (axis < n - 1)%nat -> (forall c, c <> axis -> c <> (n - 1)%nat -> up c = 0) ->
  dot n av (mvec n (mtrans R1) up) = up axis * D axis + up (n - 1)%nat * C.
Proof.
  intros Hax Hup. unfold dot, mvec, mtrans.
  rewrite (fsum_ext n _ (fun i => fsum n (fun j => up j * (R1 j i * av i)))).
  2: { intros i Hi. rewrite <- fsum_scal. apply fsum_ext. intros j _. ring. }
  rewrite fsum_swap. rewrite (fsum_ext n _ (fun j => up j * D j)) by (intros j _; rewrite fsum_scal; reflexivity).
  rewrite (fsum_ext n _ (fun j => delta axis j * (up axis * D axis) + delta (n - 1) j * (up (n - 1)%nat * C))).
  - rewrite fsum_plus, !fsum_delta by lia. reflexivity.
  - intros j Hj. unfold delta. destruct (Nat.eqb_spec axis j) as [<-|N1].
    + destruct (Nat.eqb_spec (n - 1) axis); [lia|]. ring.
    + destruct (Nat.eqb_spec (n - 1) j) as [<-|N2]; [unfold C, D; ring|]. rewrite Hup by congruence. ring.
Qed.

Lemma fit_second m (R2 : mat) (ev : vec -> result (R * vec)) tol up tr G g g' :
  ev (mvec n (mtrans R2) up) = Ok (G, g) -> tol <= Rabs G -> 1 / 1000000000000 <= Rabs (mvec n R2 g (n - 1)%nat) ->
  let up' := fun a => if Nat.eqb a (n - 1) then up a - G / (mvec n R2 g (n - 1)%nat) else up a in
  ev (mvec n (mtrans R2) up') = Ok (0, g') -> 0 < tol ->
  fit_loop (S (S m)) n R2 ev tol up tr = (Ok up', (tr ++ [mvec n (mtrans R2) up]) ++ [mvec n (mtrans R2) up']).
Proof.
  intros E HG Hg up' E' Ht. cbn [fit_loop]. rewrite E.
  destruct (Rltb (Rabs G) tol) eqn:B; [apply Rltb_spec in B; lra|].
  destruct (Rltb (Rabs (mvec n R2 g (n - 1)%nat)) (1 / 1000000000000)) eqn:B2; [apply Rltb_spec in B2; lra|].
  fold up'. rewrite E', Rabs_R0. now rewrite (proj2 (Rltb_spec _ _) Ht).
Qed.
Lemma fit_one_foreign s axis sign : same_core s0 s -> (axis < n - 1)%nat -> sign * sign = 1 ->
  1 / 1000000 <= Rabs (b - sign * k * beta * D axis - beta * C) ->
  fit_one inv lf expr fo n T A R1 beta k s axis sign =
  (Ok (2 * ((b - sign * k * beta * D axis - beta * C) / C) / (k * beta * (k * beta))), addCallFunction s (2 * cost)).
Proof.
  intros HC Hax Hsg HG. unfold fit_one, find_fitting_point. cbv zeta.
  set (up := fun a : nat => if Nat.eqb a (n - 1) then beta else if Nat.eqb a axis then sign * k * beta else 0).
  set (G := b - sign * k * beta * D axis - beta * C) in *.
  assert (CN : C <> 0) by (intros X; rewrite X, Rabs_R0 in HC0; lra).
  assert (U1 : up (n - 1)%nat = beta) by (unfold up; now rewrite Nat.eqb_refl).
  assert (U2 : up axis = sign * k * beta). { unfold up. rewrite Nat.eqb_refl. destruct (Nat.eqb_spec axis (n - 1)); [lia|reflexivity]. }
  assert (UZ : forall c, c <> axis -> c <> (n - 1)%nat -> up c = 0).
  { intros c H1 H2. unfold up. destruct (Nat.eqb_spec c (n - 1)); [contradiction|]. destruct (Nat.eqb_spec c axis); [contradiction|reflexivity]. }
  destruct (HS s (mvec n (mtrans R1) up) HC) as (g & E & Eg).
  assert (V : b - dot n av (mvec n (mtrans R1) up) = G) by (rewrite (rot_dot axis up Hax UZ), U1, U2; unfold G; ring).
  rewrite V in E.
  assert (GN : mvec n R1 g (n - 1)%nat = - C).
  { unfold mvec, C, dot. rewrite (fsum_ext n _ (fun j => (-1) * (R1 (n - 1)%nat j * av j))) by (intros j Hj; rewrite (Eg j Hj); ring). rewrite fsum_scal. ring. }
  set (up' := fun a => if Nat.eqb a (n - 1) then up a - G / (mvec n R1 g (n - 1)%nat) else up a).
  assert (U1' : up' (n - 1)%nat = beta + G / C). { unfold up'. rewrite Nat.eqb_refl, U1, GN. field. exact CN. }
  assert (U2' : up' axis = sign * k * beta). { unfold up'. destruct (Nat.eqb_spec axis (n - 1)); [lia|exact U2]. }
  assert (UZ' : forall c, c <> axis -> c <> (n - 1)%nat -> up' c = 0).
  { intros c H1 H2. unfold up'. destruct (Nat.eqb_spec c (n - 1)); [contradiction|]. now apply UZ. }
  destruct (HS s (mvec n (mtrans R1) up') HC) as (g' & E' & _).
  assert (V' : b - dot n av (mvec n (mtrans R1) up') = 0). { rewrite (rot_dot axis up' Hax UZ'), U1', U2'. unfold G. field. exact CN. }
  rewrite V' in E'.
  assert (FL : fit_loop 50 n R1 (fun u => fst (sev inv lf expr fo n T A s (vlist n (u_to_x n A (marg_at s) u)))) (1 / 1000000) up [] =
    (Ok up', [mvec n (mtrans R1) up; mvec n (mtrans R1) up'])).
  { apply (fit_second 48 R1 _ _ up [] G g g'); [rewrite E; reflexivity|exact HG|rewrite GN, Rabs_Ropp; exact HC0|fold up'; rewrite E'; reflexivity|lra]. }
  rewrite FL, U1', U2'.
  assert (AK : Rabs (sign * k * beta) = Rabs (k * beta)).
  { rewrite Rmult_assoc, Rabs_mult. replace (Rabs sign) with 1; [ring|]. symmetry. destruct (Rcase_abs sign); [rewrite Rabs_left by lra|rewrite Rabs_right by lra]; nra. }
  destruct (Rltb (Rabs (sign * k * beta)) (1 / 1000000000000)) eqn:B; [apply Rltb_spec in B; rewrite AK in B; lra|].
  cbn [fold_left]. rewrite E. cbn [snd].
  assert (KN : k * beta <> 0) by (intros X; rewrite X, Rabs_R0 in Hk; lra).
  f_equal.
  - f_equal. replace (beta + G / C - beta) with (G / C) by ring. f_equal. transitivity (sign * sign * (k * beta * (k * beta))); [ring|rewrite Hsg; ring].
  - assert (C1 := core_trans _ _ _ HC (core_add s cost)).
    destruct (HS (addCallFunction s cost) (mvec n (mtrans R1) up') C1) as (g'' & E'' & _).
    change (marg_at (addCallFunction s cost)) with (marg_at s) in E''. rewrite E''. cbn [snd]. rewrite add_add. f_equal. lia.
Qed.

Lemma fit_axes_foreign axes : (forall i, In i axes -> (i < n - 1)%nat) ->
  (forall i, In i axes -> 1 / 1000000 <= Rabs (b - k * beta * D i - beta * C) /\ 1 / 1000000 <= Rabs (b + k * beta * D i - beta * C)) -> forall s, same_core s0 s ->
  fit_axes inv lf expr fo n T A R1 beta k s axes =
  (Ok (map (fun i => 2 * ((b + k * beta * D i - beta * C) / C) / (k * beta * (k * beta))) axes, map (fun i => 2 * ((b - k * beta * D i - beta * C) / C) / (k * beta * (k * beta))) axes),
   addCallFunction s (4 * length axes * cost)).
Proof.
  induction axes as [|i axes IH]; intros HI HG s HC; [cbn; now rewrite add0|].
  destruct (HG i (or_introl eq_refl)) as (G1 & G2).
  assert (E1 : b - -1 * k * beta * D i - beta * C = b + k * beta * D i - beta * C) by ring.
  assert (E2 : b - 1 * k * beta * D i - beta * C = b - k * beta * D i - beta * C) by ring.
  cbn [fit_axes]. rewrite (fit_one_foreign s i (-1) HC) by (first [apply HI; now left|lra|rewrite E1; exact G2]). rewrite E1.
  assert (C1 := core_trans _ _ _ HC (core_add s (2 * cost))). rewrite (fit_one_foreign _ i 1 C1) by (first [apply HI; now left|lra|rewrite E2; exact G1]). rewrite E2.
  rewrite IH; [|intros j Hj; apply HI; now right|intros j Hj; apply HG; now right|exact (core_trans _ _ _ C1 (core_add _ (2 * cost)))].
  rewrite !add_add. cbn [length map]. f_equal. f_equal. lia.
Qed.
End Foreign.
