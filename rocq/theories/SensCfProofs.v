From Coquelicot Require Import Coquelicot.
From Verif Require Import Base StochModel Transf TransfSpec TransfProofs Chol CholProofs Gauss GaussProofs Quad QuadProofs Nataf NatafSpec NatafProofs Sens SensSpec.
Open Scope R_scope.

(** ** the symmetric double loop *)
Section Loop.
Variable f : nat -> nat -> option R.
Definition sym_upd (m : mat) (i j : nat) : mat :=
  match f i j with Some v => mupd (mupd m i j v) j i v | None => m end.
Definition fval i j : R := match f i j with Some v => v | None => 0 end.

Lemma sym_inner i k m : (k <= i)%nat -> (forall b, m i b = 0 /\ m b i = 0) ->
  forall a b, fold_left (fun m j => sym_upd m i j) (seq 0 k) m a b =
    if Nat.eqb a i && Nat.ltb b k then fval i b
    else if Nat.eqb b i && Nat.ltb a k then fval i a else m a b.
Proof.
  intros Hk Hz. induction k as [|k IH]; intros a b.
  - cbn [seq fold_left]. rewrite !andb_false_r. reflexivity.
  - rewrite seq_S, fold_left_app. cbn [fold_left Nat.add].
    specialize (IH ltac:(lia)).
    set (m' := fold_left (fun m j => sym_upd m i j) (seq 0 k) m) in *.
    unfold sym_upd.
    assert (Z : fval i k = 0 -> m' i k = 0 /\ m' k i = 0).
    { intros _. rewrite !IH. rewrite Nat.eqb_refl, Nat.ltb_irrefl. cbn [andb].
      replace (Nat.eqb k i) with false by (symmetry; apply Nat.eqb_neq; lia). cbn [andb].
      apply Hz. }
    destruct (f i k) as [v|] eqn:Ef.
    + assert (Fv : fval i k = v) by (unfold fval; rewrite Ef; reflexivity).
      unfold mupd. rewrite IH.
      destruct (Nat.eqb_spec a i) as [Ea|Ea]; destruct (Nat.eqb_spec b i) as [Eb|Eb];
      destruct (Nat.eqb_spec a k) as [Ak|Ak]; destruct (Nat.eqb_spec b k) as [Bk|Bk];
      destruct (Nat.ltb_spec a k); destruct (Nat.ltb_spec b k); destruct (Nat.ltb_spec a (S k)); destruct (Nat.ltb_spec b (S k));
      cbn [andb]; subst; try lia; try reflexivity; try assumption; try (symmetry; assumption).
    + assert (Fv : fval i k = 0) by (unfold fval; rewrite Ef; reflexivity).
      destruct (Z Fv) as [Z1 Z2].
      rewrite IH.
      destruct (Nat.eqb_spec a i) as [Ea|Ea]; destruct (Nat.eqb_spec b i) as [Eb|Eb];
      destruct (Nat.eqb_spec a k) as [Ak|Ak]; destruct (Nat.eqb_spec b k) as [Bk|Bk];
      destruct (Nat.ltb_spec a k); destruct (Nat.ltb_spec b k); destruct (Nat.ltb_spec a (S k)); destruct (Nat.ltb_spec b (S k));
      cbn [andb]; subst; try lia; try reflexivity; try (rewrite Fv; apply Hz).
Qed.

Lemma sym_outer n a b :
  fold_left (fun m i => fold_left (fun m j => sym_upd m i j) (seq 0 i) m) (seq 0 n) (fun _ _ => 0) a b =
  if Nat.ltb a n && Nat.ltb b n then
    (if Nat.ltb b a then fval a b else if Nat.ltb a b then fval b a else 0) else 0.
Proof.
  revert a b. induction n as [|n IH]; intros a b; [reflexivity|].
  rewrite seq_S, fold_left_app. cbn [fold_left Nat.add].
  rewrite sym_inner; [|lia|].
  2:{ intros c. rewrite !IH. rewrite Nat.ltb_irrefl, andb_false_r. split; reflexivity. }
  rewrite IH.
  destruct (Nat.eqb_spec a n) as [Ea|Ea]; destruct (Nat.eqb_spec b n) as [Eb|Eb];
  destruct (Nat.ltb_spec a n); destruct (Nat.ltb_spec b n); destruct (Nat.ltb_spec a (S n)); destruct (Nat.ltb_spec b (S n));
  destruct (Nat.ltb_spec a b); destruct (Nat.ltb_spec b a); cbn [andb]; subst; try lia; reflexivity.
Qed.
End Loop.

Section Cf.
Variable n : nat.
Variables alpha u_star x_star : vec.
Variable mg : nat -> marg.
Variables Rphys Ro : mat.
Variables L0 L0_inv : mat.
Variable np_inv : mat -> mat.
Variable gr : nat -> nat -> grid.

Lemma corr_sens_eq a b :
  corr_sens n alpha u_star mg Ro L0 np_inv gr a b =
  if Nat.ltb a n && Nat.ltb b n then
    (if Nat.ltb b a then corr_entry n alpha u_star mg Ro L0 np_inv gr a b
     else if Nat.ltb a b then corr_entry n alpha u_star mg Ro L0 np_inv gr b a else 0) else 0.
Proof.
  apply (sym_outer (fun i j => Some (corr_entry n alpha u_star mg Ro L0 np_inv gr i j))).
Qed.

Definition dR0_opt (k : nat) (param : string) (i j : nat) : option R :=
  if negb (Nat.eqb k i) && negb (Nat.eqb k j) then None
  else if Rltb (Rabs (Ro i j - Rphys i j)) (/ 10 ^ 12) && Rltb (Rabs (Rphys i j)) (/ 10 ^ 12) then None
  else Some (drho0_dtheta (Ro i j) (mg i) (mg j) (gr i j) (if Nat.eqb k i then 0%nat else 1%nat) param).

Lemma dR0_pair_eq k param i j m : dR0_pair mg Rphys Ro gr k param i j m = sym_upd (dR0_opt k param) m i j.
Proof.
  unfold dR0_pair, sym_upd, dR0_opt.
  destruct (negb (Nat.eqb k i) && negb (Nat.eqb k j)); [reflexivity|].
  destruct (Rltb _ _ && Rltb _ _); reflexivity.
Qed.

Lemma compute_dR0_eq k param a b :
  compute_dR0_dtheta n mg Rphys Ro gr k param a b =
  if Nat.ltb a n && Nat.ltb b n then
    (if Nat.ltb b a then fval (dR0_opt k param) a b else if Nat.ltb a b then fval (dR0_opt k param) b a else 0) else 0.
Proof.
  unfold compute_dR0_dtheta. rewrite <- (sym_outer (dR0_opt k param) n a b).
  assert (E : forall l i m, fold_left (fun m j => dR0_pair mg Rphys Ro gr k param i j m) l m
                 = fold_left (fun m j => sym_upd (dR0_opt k param) m i j) l m).
  { induction l as [|x l IH]; intros i m; [reflexivity|]. cbn [fold_left]. rewrite dR0_pair_eq. apply IH. }
  assert (E2 : forall l m, fold_left (fun m i => fold_left (fun m j => dR0_pair mg Rphys Ro gr k param i j m) (seq 0 i) m) l m
                 = fold_left (fun m i => fold_left (fun m j => sym_upd (dR0_opt k param) m i j) (seq 0 i) m) l m).
  { induction l as [|x l IH]; intros m; [reflexivity|]. cbn [fold_left]. rewrite E. apply IH. }
  rewrite E2. reflexivity.
Qed.

Lemma compute_dR0_sym k param : symmetric n (compute_dR0_dtheta n mg Rphys Ro gr k param).
Proof.
  intros a b Ha Hb. rewrite !compute_dR0_eq. rewrite (andb_comm (Nat.ltb b n)).
  destruct (Nat.ltb a n && Nat.ltb b n); [|reflexivity].
  destruct (Nat.ltb_spec b a); destruct (Nat.ltb_spec a b); try lia; reflexivity.
Qed.

Lemma dR0_corr_eq i j a b : i <> j -> dR0_corr mg Ro gr i j a b =
  if (Nat.eqb a i && Nat.eqb b j) || (Nat.eqb a j && Nat.eqb b i) then drho0_drho mg Ro gr i j else 0.
Proof.
  intros H. unfold dR0_corr, mupd.
  destruct (Nat.eqb_spec a i); destruct (Nat.eqb_spec b j); destruct (Nat.eqb_spec a j); destruct (Nat.eqb_spec b i);
    cbn [andb orb]; subst; try lia; reflexivity.
Qed.

(** ** derivative of alpha . L(t)^{-1} z(t) *)
Lemma beta_lin_derive (Rt : R -> mat) (dR0 : mat) (Lit : R -> mat) (z : R -> vec) (dz : vec) t0 :
  symmetric n (Rt t0) -> pos_def n (Rt t0) ->
  (forall i j, (i < n)%nat -> (j < n)%nat -> is_derive (fun t => Rt t i j) t0 (dR0 i j)) ->
  locally t0 (fun t => inverse_pair n (fst (cholesky_with_derivative n (Rt t) dR0)) (Lit t)) ->
  (forall i, (i < n)%nat -> is_derive (fun t => z t i) t0 (dz i)) ->
  is_derive (fun t => dot n alpha (mvec n (Lit t) (z t))) t0
    (dot n alpha (mvec n (Lit t0) dz)
     + dot n alpha (mvec n (dinvL0_dtheta n (Lit t0) (snd (cholesky_with_derivative n (Rt t0) dR0))) (z t0))).
Proof.
  intros HS HP HD HI HZ.
  pose proof (cholesky_derivative n Rt dR0 t0 (fun _ => dR0) HS HP HD) as DL.
  pose proof (inverse_derivative n (fun t => fst (cholesky_with_derivative n (Rt t) dR0)) Lit _ t0 HI DL) as DI.
  set (dLi := dinvL0_dtheta n (Lit t0) (snd (cholesky_with_derivative n (Rt t0) dR0))) in *.
  assert (E : dot n alpha (mvec n (Lit t0) dz) + dot n alpha (mvec n dLi (z t0))
     = fsum n (fun i => alpha i * fsum n (fun j => dLi i j * z t0 j + Lit t0 i j * dz j))).
  { unfold dot, mvec. rewrite <- fsum_plus. apply fsum_ext. intros i Hi. rewrite fsum_plus. ring. }
  rewrite E. unfold dot, mvec.
  apply (is_derive_fsum n (fun i t => alpha i * fsum n (fun j => Lit t i j * z t j))
           (fun i => alpha i * fsum n (fun j => dLi i j * z t0 j + Lit t0 i j * dz j))).
  intros i Hi. apply (is_derive_scal (fun t => fsum n (fun j => Lit t i j * z t j)) t0 (alpha i)).
  apply (is_derive_fsum n (fun j t => Lit t i j * z t j) (fun j => dLi i j * z t0 j + Lit t0 i j * dz j)).
  intros j Hj. apply (is_derive_mult (fun t => Lit t i j) (fun t => z t j)); [apply DI; assumption|apply HZ; assumption|apply Rmult_comm].
Qed.

Lemma mvec_meq2 A B v i : meq n A B -> (i < n)%nat -> mvec n A v i = mvec n B v i.
Proof. apply mvec_meq. Qed.

Lemma dinv_ext A B dL : meq n A B -> forall i j, (i < n)%nat -> (j < n)%nat -> dinvL0_dtheta n A dL i j = dinvL0_dtheta n B dL i j.
Proof.
  intros H i j Hi Hj. unfold dinvL0_dtheta, mmul. apply fsum_ext. intros k Hk. f_equal; [|apply H; assumption].
  apply fsum_ext. intros l Hl. rewrite H by assumption. reflexivity.
Qed.

Lemma dot_mvec_ext A B v w : meq n A B -> veq n v w -> dot n alpha (mvec n A v) = dot n alpha (mvec n B w).
Proof.
  intros H HV. apply fsum_ext. intros i Hi. f_equal. apply fsum_ext. intros j Hj. rewrite H, HV by assumption. reflexivity.
Qed.


Lemma pos_def_of_factor L Li M : factor_of n L M -> inverse_pair n L Li -> symmetric n M /\ pos_def n M.
Proof.
  intros HF HI. split.
  - intros i j Hi Hj. rewrite <- !HF by assumption. apply fsum_ext. intros; ring.
  - intros v (i0 & Hi0 & Hv).
    assert (E : fsum n (fun i => fsum n (fun j => v i * M i j * v j))
       = fsum n (fun k => mvec n (mtrans L) v k * mvec n (mtrans L) v k)).
    { transitivity (fsum n (fun i => fsum n (fun k => fsum n (fun j => (v i * L i k) * (L j k * v j))))).
      - apply fsum_ext. intros i Hi.
        rewrite (fsum_swap n n (fun k j => v i * L i k * (L j k * v j))).
        apply fsum_ext. intros j Hj. rewrite <- HF by assumption.
        rewrite (Rmult_comm (v i)), Rmult_assoc, <- fsum_scal_r. apply fsum_ext. intros; ring.
      - rewrite (fsum_swap n n (fun i k => fsum n (fun j => v i * L i k * (L j k * v j)))).
        apply fsum_ext. intros k Hk. unfold mvec, mtrans. rewrite <- fsum_scal_r.
        apply fsum_ext. intros i Hi. rewrite <- fsum_scal. apply fsum_ext. intros; ring. }
    rewrite E. pose proof (dot_self_nonneg n (mvec n (mtrans L) v)) as P.
    change (0 < dot n (mvec n (mtrans L) v) (mvec n (mtrans L) v)).
    destruct (Req_dec (dot n (mvec n (mtrans L) v) (mvec n (mtrans L) v)) 0) as [Z|Z]; [|lra].
    exfalso. apply Hv.
    assert (HZ := dot_self_eq0 _ _ Z).
    pose proof (factor_trans_inv n L Li HI) as [_ HT].
    transitivity (mvec n meye v i0); [symmetry; apply mvec_eye; exact Hi0|].
    rewrite <- (mvec_meq n _ _ v i0 HT Hi0), mvec_mmul.
    unfold mvec at 1. apply fsum_zero. intros k Hk. rewrite HZ by exact Hk. ring.
Qed.

Lemma factor_is_cwd L Li M dR0 : cholesky_factor n L M -> inverse_pair n L Li -> symmetric n dR0 ->
  meq n (fst (cholesky_with_derivative n M dR0)) L.
Proof.
  intros (HT & HP & HF) HI HD. destruct (pos_def_of_factor L Li M HF HI) as [Hs Hp].
  destruct (cholesky_correct n M dR0 Hs Hp HD) as (T & P & F & _).
  intros i j Hi Hj. apply (cholesky_unique n); try assumption.
  - intros a b Hab. split; [apply T|apply HT]; exact Hab.
  - intros a Ha. split; [apply P|apply HP]; exact Ha.
  - intros a b Ha Hb. rewrite F, HF by assumption. reflexivity.
Qed.

Lemma inverse_pair_meq A A' B : meq n A A' -> inverse_pair n A' B -> inverse_pair n A B.
Proof.
  intros H [H1 H2]. split.
  - eapply meq_trans; [|exact H1]. apply mmul_meq; [exact H|apply meq_refl].
  - eapply meq_trans; [|exact H2]. apply mmul_meq; [apply meq_refl|exact H].
Qed.

(** the derivative with the transformation's own factor *)
Lemma beta_lin_derive2 (Rt : R -> mat) (dR0 : mat) (Lt Lit : R -> mat) (Li : mat) (z : R -> vec) (dz z0 : vec) t0 :
  symmetric n dR0 ->
  Rt t0 = Ro -> cholesky_factor n L0 Ro -> inverse_pair n L0 Li ->
  (forall i j, (i < n)%nat -> (j < n)%nat -> is_derive (fun t => Rt t i j) t0 (dR0 i j)) ->
  locally t0 (fun t => cholesky_factor n (Lt t) (Rt t) /\ inverse_pair n (Lt t) (Lit t)) ->
  (forall i, (i < n)%nat -> is_derive (fun t => z t i) t0 (dz i)) ->
  veq n (z t0) z0 ->
  is_derive (fun t => dot n alpha (mvec n (Lit t) (z t))) t0
    (dot n alpha (mvec n Li dz)
     + dot n alpha (mvec n (dinvL0_dtheta n Li (snd (cholesky_with_derivative n Ro dR0))) z0)).
Proof.
  intros HdS E0 HC HI HD HL HZ Hz0.
  destruct (locally_singleton _ _ HL) as [HC0 HI0]. rewrite E0 in HC0.
  destruct (pos_def_of_factor L0 Li Ro (proj2 (proj2 HC)) HI) as [Hs Hp].
  assert (EL : meq n (Lit t0) Li).
  { apply (inverse_unique n L0).
    - apply (inverse_pair_meq L0 (Lt t0)); [|exact HI0].
      intros i j Hi Hj. rewrite <- (factor_is_cwd L0 Li Ro dR0 HC HI HdS i j Hi Hj).
      apply (factor_is_cwd (Lt t0) (Lit t0) Ro dR0 HC0 HI0 HdS); assumption.
    - exact HI. }
  pose proof (beta_lin_derive Rt dR0 Lit z dz t0) as B. rewrite E0 in B.
  specialize (B Hs Hp HD).
  assert (HL' : locally t0 (fun t => inverse_pair n (fst (cholesky_with_derivative n (Rt t) dR0)) (Lit t))).
  { eapply filter_imp; [|exact HL]. intros t [A1 A2].
    apply (inverse_pair_meq _ (Lt t)); [|exact A2]. apply (factor_is_cwd (Lt t) (Lit t)); assumption. }
  specialize (B HL' HZ).
  rewrite (dot_mvec_ext (Lit t0) Li dz dz EL ltac:(intros ? ?; reflexivity)) in B.
  rewrite (dot_mvec_ext (dinvL0_dtheta n (Lit t0) (snd (cholesky_with_derivative n Ro dR0)))
             (dinvL0_dtheta n Li (snd (cholesky_with_derivative n Ro dR0))) (z t0) z0) in B; [exact B| |exact Hz0].
  intros i j Hi Hj. apply dinv_ext; assumption.
Qed.

(** the correlation part *)
Lemma rho0_derive i j (rho0 : R -> R) : -1 < Ro i j < 1 ->
  locally (Rphys i j) (fun t => rho_integral (rho0 t) (mg i) (mg j) (gr i j) = t) ->
  rho0 (Rphys i j) = Ro i j -> ex_derive rho0 (Rphys i j) ->
  tiny < Rabs (drho_drho0 (Ro i j) (mg i) (mg j) (gr i j)) ->
  is_derive rho0 (Rphys i j) (drho0_drho mg Ro gr i j).
Proof.
  intros Hr HL E0 HD HT. pose proof (Derive_correct _ _ HD) as Dr.
  set (r' := Derive rho0 (Rphys i j)) in *.
  unfold drho0_drho. set (dv := drho_drho0 _ _ _ _) in *.
  replace (Rltb tiny (Rabs dv)) with true by (symmetry; apply Rltb_spec; exact HT).
  assert (Hdv : dv <> 0).
  { intros Z. rewrite Z, Rabs_R0 in HT. pose proof tiny_pos. lra. }
  assert (D1 : is_derive (fun t => rho_integral (rho0 t) (mg i) (mg j) (gr i j)) (Rphys i j) (scal r' dv)).
  { apply (is_derive_comp (fun r => rho_integral r (mg i) (mg j) (gr i j)) rho0); [|exact Dr].
    rewrite E0. apply rho_integral_derive. exact Hr. }
  assert (D2 : is_derive (fun t => rho_integral (rho0 t) (mg i) (mg j) (gr i j)) (Rphys i j) 1).
  { apply (is_derive_ext_loc (fun t => t)); [|apply (is_derive_id (Rphys i j))].
    eapply filter_imp; [|exact HL]. intros t E. symmetry. exact E. }
  pose proof (is_derive_unique _ _ _ D1) as U1. pose proof (is_derive_unique _ _ _ D2) as U2.
  assert (U : r' * dv = 1) by (transitivity (scal r' dv); [reflexivity|]; rewrite <- U1; exact U2).
  replace (1 / dv) with r'; [exact Dr|]. rewrite <- U. field. exact Hdv.
Qed.

Lemma corr_derivative i j (rho0 : R -> R) (Lt Lit : R -> mat) :
  (j < i)%nat -> (i < n)%nat ->
  cholesky_factor n L0 Ro -> inverse_pair n L0 (np_inv L0) ->
  -1 < Ro i j < 1 ->
  locally (Rphys i j) (fun t => rho_integral (rho0 t) (mg i) (mg j) (gr i j) = t) ->
  rho0 (Rphys i j) = Ro i j -> ex_derive rho0 (Rphys i j) ->
  tiny < Rabs (drho_drho0 (Ro i j) (mg i) (mg j) (gr i j)) ->
  locally (Rphys i j) (fun t => cholesky_factor n (Lt t) (set_sym Ro i j (rho0 t)) /\ inverse_pair n (Lt t) (Lit t)) ->
  is_derive (fun t => dot n alpha (mvec n (Lit t) (z_star n u_star L0))) (Rphys i j)
    (corr_sens n alpha u_star mg Ro L0 np_inv gr i j).
Proof.
  intros Hij Hi HC HI Hr HL E0 HD HT HLt.
  destruct (pos_def_of_factor L0 (np_inv L0) Ro (proj2 (proj2 HC)) HI) as [Hs _].
  pose proof (rho0_derive i j rho0 Hr HL E0 HD HT) as Dr.
  rewrite corr_sens_eq.
  replace (Nat.ltb i n) with true by (symmetry; apply Nat.ltb_lt; lia).
  replace (Nat.ltb j n) with true by (symmetry; apply Nat.ltb_lt; lia).
  replace (Nat.ltb j i) with true by (symmetry; apply Nat.ltb_lt; lia). cbn [andb].
  unfold corr_entry, cf_dLinv.
  pose proof (beta_lin_derive2 (fun t => set_sym Ro i j (rho0 t)) (dR0_corr mg Ro gr i j) Lt Lit (np_inv L0)
    (fun _ => z_star n u_star L0) (fun _ => 0) (z_star n u_star L0) (Rphys i j)) as B.
  replace (dot n alpha (mvec n (np_inv L0) (fun _ => 0))) with 0 in B.
  2:{ symmetry. apply fsum_zero. intros a Ha. unfold mvec. rewrite fsum_zero; [ring|]. intros; ring. }
  rewrite Rplus_0_l in B. apply B; auto.
  - intros a b Ha Hb. rewrite !dR0_corr_eq by lia.
    rewrite (andb_comm (Nat.eqb b i)), (andb_comm (Nat.eqb b j)), orb_comm. reflexivity.
  - apply FunctionalExtensionality.functional_extensionality; intros a.
    apply FunctionalExtensionality.functional_extensionality; intros b.
    unfold set_sym. rewrite E0.
    destruct (Nat.eqb_spec a i); destruct (Nat.eqb_spec b j);
    destruct (Nat.eqb_spec a j); destruct (Nat.eqb_spec b i); cbn [andb orb]; subst; try reflexivity; try lia;
    apply Hs; lia.
  - intros a b Ha Hb. rewrite dR0_corr_eq by lia. unfold set_sym.
    destruct ((Nat.eqb a i && Nat.eqb b j) || (Nat.eqb a j && Nat.eqb b i)); [exact Dr|].
    apply (is_derive_const (Ro a b) (Rphys i j)).
  - intros a Ha. apply (is_derive_const (z_star n u_star L0 a) (Rphys i j)).
  - intros a Ha. reflexivity.
Qed.

(** the marginal part *)
Lemma marginal_derivative k param (F : R -> R -> R) (Rt Lt Lit : R -> mat) t0 :
  (k < n)%nat ->
  cholesky_factor n L0 Ro -> inverse_pair n L0 L0_inv -> inverse_pair n L0 (np_inv L0) ->
  F t0 (x_star k) = Phi (z_star n u_star L0 k) ->
  is_derive (fun t => F t (x_star k)) t0 (mg_dF (mg k) param (x_star k)) ->
  tiny < phi (z_star n u_star L0 k) ->
  Rt t0 = Ro ->
  (forall i j, (j < i)%nat -> (i < n)%nat -> forall t, Rt t j i = Rt t i j) ->
  (forall i t, (i < n)%nat -> Rt t i i = 1) ->
  (forall i j, (j < i)%nat -> (i < n)%nat -> k <> i -> k <> j -> is_derive (fun t => Rt t i j) t0 0) ->
  (forall i j, (j < i)%nat -> (i < n)%nat -> k = i \/ k = j ->
     (Rphys i j = 0 /\ forall t, Rt t i j = 0)
     \/ (/ 10 ^ 12 <= Rabs (Rphys i j)
         /\ is_derive (fun t => Rt t i j) t0
             (drho0_dtheta (Ro i j) (mg i) (mg j) (gr i j) (if Nat.eqb k i then 0%nat else 1%nat) param))) ->
  locally t0 (fun t => cholesky_factor n (Lt t) (Rt t) /\ inverse_pair n (Lt t) (Lit t)) ->
  is_derive (fun t => dot n alpha (mvec n (Lit t) (fun i => if Nat.eqb i k then ppf (F t (x_star k)) else z_star n u_star L0 i))) t0
    (marginal_sens n alpha u_star x_star mg Rphys Ro L0 L0_inv np_inv gr k param).
Proof.
  intros Hk HC HI HI' HF HdF HT E0 HRs HRd HR1 HR2 HL.
  unfold marginal_sens, cf_dLinv.
  assert (EI : meq n L0_inv (np_inv L0)) by (apply (inverse_unique n L0); assumption).
  rewrite (dot_mvec_ext L0_inv (np_inv L0) (dz_dtheta n u_star x_star mg L0 k param) _ EI ltac:(intros ? ?; reflexivity)).
  assert (HD : forall i j, (j < i)%nat -> (i < n)%nat ->
     is_derive (fun t => Rt t i j) t0 (compute_dR0_dtheta n mg Rphys Ro gr k param i j)).
  { intros i j Hij Hi. rewrite compute_dR0_eq.
    replace (Nat.ltb i n) with true by (symmetry; apply Nat.ltb_lt; lia).
    replace (Nat.ltb j n) with true by (symmetry; apply Nat.ltb_lt; lia).
    replace (Nat.ltb j i) with true by (symmetry; apply Nat.ltb_lt; lia). cbn [andb].
    unfold fval, dR0_opt.
    destruct (Nat.eqb_spec k i) as [Eki|Eki]; destruct (Nat.eqb_spec k j) as [Ekj|Ekj]; cbn [negb andb];
      try (apply HR1; assumption).
    all: destruct (HR2 i j Hij Hi ltac:(auto)) as [[Z1 Z2]|[Z1 Z2]].
    all: try (assert (Zr : Ro i j = 0) by (rewrite <- E0; apply Z2);
              rewrite Z1, Zr, Rminus_0_r, Rabs_R0;
              replace (Rltb 0 (/ 10 ^ 12)) with true by
                (symmetry; apply Rltb_spec, Rinv_0_lt_compat, pow_lt; lra); cbn [andb];
              apply (is_derive_ext (fun _ => 0)); [intros t; symmetry; apply Z2|apply (is_derive_const 0 t0)]).
    all: replace (Rltb (Rabs (Rphys i j)) (/ 10 ^ 12)) with false by (symmetry; apply Rltb_false; exact Z1);
         rewrite andb_false_r.
    all: try (destruct (Nat.eqb_spec k i); [|contradiction]); try (destruct (Nat.eqb_spec k i); [contradiction|]); exact Z2. }
  apply (beta_lin_derive2 Rt (compute_dR0_dtheta n mg Rphys Ro gr k param) Lt Lit (np_inv L0)
    (fun t i => if Nat.eqb i k then ppf (F t (x_star k)) else z_star n u_star L0 i)); auto.
  - apply compute_dR0_sym.
  - intros i j Hi Hj. destruct (lt_eq_lt_dec i j) as [[A|A]|A].
    + rewrite (compute_dR0_sym k param i j Hi Hj).
      apply (is_derive_ext (fun t => Rt t j i)); [intros t; symmetry; apply HRs; assumption|]. apply HD; assumption.
    + subst j. rewrite compute_dR0_eq, Nat.ltb_irrefl.
      replace (if Nat.ltb i n && Nat.ltb i n then 0 else 0) with 0 by (destruct (Nat.ltb i n && Nat.ltb i n); reflexivity).
      apply (is_derive_ext (fun _ => 1)); [intros t; symmetry; apply HRd; assumption|apply (is_derive_const 1 t0)].
    + apply HD; assumption.
  - intros i Hi. unfold dz_dtheta. destruct (Nat.eqb_spec i k) as [->|Hne].
    + replace (Rltb tiny (phi (z_star n u_star L0 k))) with true by (symmetry; apply Rltb_spec; exact HT).
      set (dF := mg_dF (mg k) param (x_star k)) in *. set (z := z_star n u_star L0 k) in *.
      replace (dF / phi z) with (scal dF (/ phi (ppf (F t0 (x_star k))))).
      2:{ rewrite HF, ppf_Phi. reflexivity. }
      apply (is_derive_comp ppf (fun t => F t (x_star k))); [|exact HdF].
      apply ppf_derive. rewrite HF. apply Phi_bound.
    + apply (is_derive_const (z_star n u_star L0 i) t0).
  - intros i Hi. cbv beta. destruct (Nat.eqb_spec i k) as [->|Hne]; [|reflexivity]. rewrite HF. apply ppf_Phi.
Qed.
End Cf.

(** the marginal part, with the modified correlations following the parameter *)
Lemma marginal_derivative_full n alpha u_star x_star mg Rphys Ro L0 L0_inv np_inv k param
    (mt : R -> marg) (F : R -> R -> R) (Rt Lt Lit : R -> mat) t0 :
  let mgt t i := if Nat.eqb i k then mt t else mg i in
  (k < n)%nat -> mt t0 = mg k -> mg_stdv (mg k) <> 0 ->
  cholesky_factor n L0 Ro -> inverse_pair n L0 L0_inv -> inverse_pair n L0 (np_inv L0) ->
  F t0 (x_star k) = Phi (z_star n u_star L0 k) ->
  is_derive (fun t => F t (x_star k)) t0 (mg_dF (mg k) param (x_star k)) ->
  tiny < phi (z_star n u_star L0 k) ->
  is_derive (fun t => mg_mean (mt t)) t0 (fst (mg_dmom (mg k) param)) ->
  is_derive (fun t => mg_stdv (mt t)) t0 (snd (mg_dmom (mg k) param)) ->
  (forall z, -6 < z < 6 -> tiny <= mg_pdf (mg k) (mg_u2x (mg k) z)
     /\ quantile_path F (fun t => mg_u2x (mt t) z) t0 (mg_dF (mg k) param (mg_u2x (mg k) z)) (mg_pdf (mg k) (mg_u2x (mg k) z))) ->
  Rt t0 = Ro ->
  (forall t i, (i < n)%nat -> Rt t i i = 1) ->
  (forall t i j, (j < i)%nat -> (i < n)%nat -> Rt t j i = Rt t i j) ->
  (forall i j, (j < i)%nat -> (i < n)%nat -> k <> i -> k <> j -> forall t, Rt t i j = Ro i j) ->
  (forall i j, (j < i)%nat -> (i < n)%nat -> k = i \/ k = j ->
     (Rphys i j = 0 /\ forall t, Rt t i j = 0)
     \/ (/ 10 ^ 12 <= Rabs (Rphys i j) /\ -1 < Ro i j < 1
         /\ ex_derive (fun t => Rt t i j) t0
         /\ drho_drho0 (Ro i j) (mg i) (mg j) (cf_grid mg Rphys i j) <> 0
         /\ (forall a, (a < nIP_sensitivity (Rphys i j))%nat -> -6 < zx_z 6 (nIP_sensitivity (Rphys i j)) a < 6)
         /\ locally t0 (fun t => rho_integral (Rt t i j) (mgt t i) (mgt t j)
                (zi_and_xi (mgt t i) (mgt t j) 6 (nIP_sensitivity (Rphys i j))) = Rphys i j))) ->
  locally t0 (fun t => cholesky_factor n (Lt t) (Rt t) /\ inverse_pair n (Lt t) (Lit t)) ->
  is_derive (fun t => dot n alpha (mvec n (Lit t) (fun i => if Nat.eqb i k then ppf (F t (x_star k)) else z_star n u_star L0 i))) t0
    (cf_marginal n alpha u_star x_star mg Rphys Ro L0 L0_inv np_inv k param).
Proof.
  intros mgt Hk Em Hs HC HI HI' HF HdF HT Dm Ds HQ E0 Hd1 Hsy Hno Hyes HL.
  unfold cf_marginal. apply (marginal_derivative n alpha u_star x_star mg Rphys Ro L0 L0_inv np_inv (cf_grid mg Rphys) k param F Rt Lt Lit); auto.
  - intros i j Hij Hi H1 H2. apply (is_derive_ext (fun _ => Ro i j)); [intros t; symmetry; apply Hno; assumption|apply (is_derive_const (Ro i j) t0)].
  - intros i j Hij Hi Hkk. destruct (Hyes i j Hij Hi Hkk) as [Z|(Z1 & Hr & Z2 & Z3 & Hz & Z4)]; [left; exact Z|right].
    split; [exact Z1|]. pose proof (Derive_correct _ _ Z2) as DR.
    assert (E : drho0_dtheta (Ro i j) (mg i) (mg j) (cf_grid mg Rphys i j) (if Nat.eqb k i then 0%nat else 1%nat) param
                = Derive (fun t => Rt t i j) t0); [|rewrite E; exact DR].
    unfold mgt in Z4. rewrite <- E0 in *.
    destruct Hkk as [-> | ->].
    + rewrite Nat.eqb_refl in *. replace (Nat.eqb j i) with false in Z4 by (symmetry; apply Nat.eqb_neq; lia).
      rewrite <- Em in *.
      apply (drho0_dtheta_correct0 mt (mg j) (fun t a _ => mg_u2x (mt t) (zx_z 6 (nIP_sensitivity (Rphys i j)) a)) (cf_grid mg Rphys i j)
              (fun t => Rt t i j) t0 param F); auto.
      * intros a b Ha Hb. unfold cf_grid in *. cbn [zi_and_xi g_k g_X1] in *. rewrite Em.
        split; [reflexivity|]. rewrite <- Em. apply HQ. apply Hz; assumption.
      * exists (Rphys i j). exact Z4.
    + rewrite Nat.eqb_refl in *. replace (Nat.eqb i j) with false in Z4 by (symmetry; apply Nat.eqb_neq; lia).
      replace (Nat.eqb j i) with false by (symmetry; apply Nat.eqb_neq; lia).
      rewrite <- Em in *.
      apply (drho0_dtheta_correct1 (mg i) mt (fun t _ b => mg_u2x (mt t) (zx_z 6 (nIP_sensitivity (Rphys i j)) b)) (cf_grid mg Rphys i j)
              (fun t => Rt t i j) t0 param F); auto.
      * intros a b Ha Hb. unfold cf_grid in *. cbn [zi_and_xi g_k g_X2] in *. rewrite Em.
        split; [reflexivity|]. rewrite <- Em. apply HQ. apply Hz; assumption.
      * exists (Rphys i j). exact Z4.
Qed.
