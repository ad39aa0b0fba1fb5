(** The hypotheses about numpy.linalg used in the theorems of the other files are consistent: routines meeting all of them
    exist, for every dimension at once. *)
From Verif Require Import Base TransfSpec GramSchmidt GramSchmidtProofs RotSpec PipeSpec SormRunSpec LapackProofs.
From Verif Require Ss SsProofs.
From Coq Require Import ClassicalEpsilon Permutation.
Open Scope R_scope.

Definition choose {X} (e : exn) (P : X -> Prop) : result X :=
  match excluded_middle_informative (exists x, P x) with left H => Ok (proj1_sig (constructive_indefinite_description P H)) | right _ => Err e end.
Lemma choose_ok {X} e (P : X -> Prop) x : choose e P = Ok x -> P x.
Proof. unfold choose. destruct (excluded_middle_informative _) as [H|H]; [|discriminate]. intros E. injection E as <-. exact (proj2_sig (constructive_indefinite_description P H)). Qed.
Lemma choose_some {X} e (P : X -> Prop) : (exists x, P x) -> exists x, choose e P = Ok x /\ P x.
Proof. intros H. unfold choose. destruct (excluded_middle_informative _) as [H'|H']; [|contradiction]. eexists. split; [reflexivity|exact (proj2_sig (constructive_indefinite_description P H'))]. Qed.
Lemma choose_err {X} e (P : X -> Prop) e' : choose e P = Err e' -> e' = e.
Proof. unfold choose. destruct (excluded_middle_informative _); intros E; [discriminate|congruence]. Qed.

Theorem numpy_contracts_satisfiable : forall e0, exists chol svd inv eig, forall n,
  lapack n chol svd inv e0 /\ eig_contract n eig /\ (forall C L, chol n C = Ok L -> lower_factor n L C) /\
  (forall C L, meq n C meye -> chol n C = Ok L -> meq n L meye).
Proof.
  intros e0.
  set (chol := fun n C => choose e0 (fun L => lower_factor n L C)).
  set (svd := fun n C => choose e0 (fun UD : mat * vec => exists V, svd_of n (fst UD) (snd UD) V C)).
  set (inv := fun n X => choose e0 (fun T => inverse_pair n T X)).
  set (eig := fun m A => choose e0 (fun l : list R => length l = m /\ exists V : nat -> vec, (forall i j, (i < m)%nat -> (j < m)%nat -> dot m (V i) (V j) = delta i j) /\
     forall k i, (k < m)%nat -> (i < m)%nat -> mvec m A (V k) i = nth k l 0 * V k i)).
  exists chol, svd, inv, eig. intros n.
  assert (LO : forall C L, chol n C = Ok L -> lower_factor n L C) by (intros C L E; apply choose_ok in E; exact E).
  assert (IV : inv_total n inv e0).
  { split; [|split].
    - intros A B E. apply choose_ok in E. exact E.
    - intros A B H. destruct (choose_some e0 (fun T => inverse_pair n T A) (ex_intro _ B H)) as (C & E & _). exists C. exact E.
    - intros A e E. apply choose_err in E. exact E. }
  split; [|split; [|split; [exact LO|]]].
  - split; [intros Ro L E; destruct (LO Ro L E) as (_ & _ & F); exact F|]. split; [intros Ro U D E; apply choose_ok in E; exact E|]. split; [exact IV|].
    intros Ro HS HP. destruct IV as (_ & IV & _). split.
    + destruct (choose_some e0 (fun L => lower_factor n L Ro) (cholesky_exists n Ro HS HP)) as (L & E & HL). destruct (lower_inverse n Ro L HS HP HL) as (T & HT). destruct (IV L T HT) as (C & EC). exists L, C. split; [exact E|exact EC].
    + assert (X : exists UD : mat * vec, exists V, svd_of n (fst UD) (snd UD) V Ro).
      { destruct (decomposed n Ro HS HP) as (U & D & U1 & U2 & DP & EM). exists (U, D), U. cbn [fst snd]. assert (IU : inverse_pair n U (mtrans U)) by (split; assumption).
        split; [exact IU|]. split; [exact IU|]. split; [intros i Hi; apply Rlt_le, DP, Hi|exact EM]. }
      destruct (choose_some e0 _ X) as ([U D] & E & V & (U2 & U1) & (V2 & V1) & DN & EM). cbn [fst snd] in *. exists U, D.
      assert (DP : forall k, (k < n)%nat -> 0 < D k).
      { intros k Hk. destruct (DN k Hk) as [P|P]; [exact P|exfalso].
        (* M V_k = D_k U_k = 0 although V_k is a unit vector *)
        assert (Z : forall i, (i < n)%nat -> fsum n (fun j => Ro i j * V j k) = 0).
        { intros i Hi. rewrite (fsum_ext n _ (fun j => fsum n (fun a => U i a * D a * (V j a * V j k)))) by (intros j Hj; rewrite <- (EM i j Hi Hj), <- fsum_scal_r; apply fsum_ext; intros; ring). rewrite fsum_swap.
          rewrite (fsum_ext n _ (fun a => U i a * D a * delta a k)) by (intros a Ha; rewrite fsum_scal; change (fsum n (fun j => V j a * V j k)) with (mmul n (mtrans V) V a k); rewrite (V1 a k Ha Hk); reflexivity). rewrite fsum_delta_r by exact Hk. rewrite <- P. ring. }
        assert (Q : 0 < fsum n (fun i => fsum n (fun j => V i k * Ro i j * V j k))).
        { apply (HP (fun i => V i k)). apply NNPP. intros NX. pose proof (V1 k k Hk Hk) as V11. unfold meye in V11. rewrite delta_refl in V11. unfold mmul, mtrans in V11. rewrite fsum_zero in V11; [lra|].
          intros i Hi. assert (V i k = 0) as -> by (apply NNPP; intros X1; apply NX; exists i; split; assumption). ring. }
        rewrite fsum_zero in Q; [lra|]. intros i Hi. rewrite (fsum_ext n _ (fun j => V i k * (Ro i j * V j k))) by (intros; ring). rewrite fsum_scal, (Z i Hi). ring. }
      destruct (scaled_inverse n U D U1 U2 DP) as (T & HT). destruct (IV _ T HT) as (C & EC). exists C. split; [exact E|exact EC].
  - intros A HS. assert (X : exists l : list R, length l = n /\ exists V : nat -> vec, (forall i j, (i < n)%nat -> (j < n)%nat -> dot n (V i) (V j) = delta i j) /\
      forall k i, (k < n)%nat -> (i < n)%nat -> mvec n A (V k) i = nth k l 0 * V k i).
    { destruct (spectral n A HS) as (V & lam & HV & HE). exists (vlist n lam). split; [apply vlist_length|]. exists V. split; [exact HV|]. intros k i Hk Hi. rewrite vlist_nth by exact Hk. exact (HE k Hk i Hi). }
    destruct (choose_some e0 _ X) as (l & E & LL & V & HV & HE). exists l, V. split; [exact E|]. split; [exact LL|]. split; [exact HV|exact HE].
  - intros C L HC E. destruct (LO C L E) as (L1 & L2 & L3). clear E.
    (* by induction on the row: L is the identity *)
    assert (G : forall i, (i < n)%nat -> (forall j, (j < n)%nat -> L i j = delta i j)).
    { intros i. induction i as [i IH] using (well_founded_induction lt_wf). intros Hi.
      assert (LOW : forall j, (j < i)%nat -> L i j = 0).
      { intros j Hj. pose proof (L3 i j Hi ltac:(lia)) as Q. rewrite (HC i j) in Q by lia. unfold meye in Q. rewrite delta_neq in Q by lia.
        rewrite (fsum_ext n _ (fun k => L i k * delta k j)) in Q by (intros k Hk; rewrite (IH j Hj ltac:(lia) k Hk), delta_sym; reflexivity). rewrite fsum_delta_r in Q by lia. exact Q. }
      assert (DG : L i i = 1).
      { pose proof (L3 i i Hi Hi) as Q. rewrite (HC i i) in Q by lia. unfold meye in Q. rewrite delta_refl in Q.
        rewrite (fsum_ext n _ (fun k => delta i k * (L i k * L i k))) in Q.
        - rewrite fsum_delta in Q by exact Hi. specialize (L2 i Hi). assert ((L i i - 1) * (L i i + 1) = 0) as X by lra. apply Rmult_integral in X as [X|X]; lra.
        - intros k Hk. unfold delta. destruct (Nat.eqb_spec i k) as [->|Ne]; [ring|]. destruct (Nat.lt_ge_cases k i) as [X|X]; [rewrite (LOW k X); ring|rewrite (L1 i k) by lia; ring]. }
      intros j Hj. destruct (Nat.lt_trichotomy i j) as [X|[<-|X]]; [rewrite (L1 i j), delta_neq by lia; reflexivity|rewrite delta_refl; exact DG|rewrite (LOW j X), delta_neq by lia; reflexivity]. }
    intros i j Hi Hj. exact (G i Hi j Hj).
Qed.
Print Assumptions numpy_contracts_satisfiable.
