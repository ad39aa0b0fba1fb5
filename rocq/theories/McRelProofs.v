(** Proofs for C94: the points of a Monte Carlo run are determined by the generator, the options
    and the number of samples used. *)
From Coquelicot Require Import Coquelicot.
From Verif Require Import Base Ext Gauss GaussProofs StochModel LimitState Transf Form FormProofs Sorm SormProofs Mc McSpec McProofs McRunProofs.
From Coq Require Import ZArith Lra Lia.
Open Scope R_scope.

Section Plan.
Variables (nrv : nat) (o : mc_opts) (stream : nat -> R) (p : vec) (off0 : nat).
Fixpoint plan (m : nat) : Z * nat * list (list vec) :=
  match m with
  | O => (0%Z, off0, [])
  | S m =>
      let '(k, off, bl) := plan m in
      let b := Z.min (mo_block o) (mo_samples o - k) in
      ((k + b)%Z, (off + nrv * Z.to_nat b)%nat, bl ++ [map (draw nrv stream off (Z.to_nat b) p (mo_stdv o)) (seq 0 (Z.to_nat b))])
  end.
Definition plan_k (m : nat) : Z := fst (fst (plan m)).
Lemma plan_k_S m : plan_k (S m) = (plan_k m + Z.min (mo_block o) (mo_samples o - plan_k m))%Z.
Proof. unfold plan_k. cbn [plan]. destruct (plan m) as [[k of] bl]. reflexivity. Qed.
Lemma plan_k_bound m : (0 < mo_block o)%Z -> (0 <= mo_samples o)%Z -> (0 <= plan_k m <= mo_samples o)%Z.
Proof. intros Hb Hs. induction m as [|m IH]; [cbn; lia|]. rewrite plan_k_S. lia. Qed.
Lemma plan_k_mono m m' : (0 < mo_block o)%Z -> (0 <= mo_samples o)%Z -> (m <= m')%nat -> (plan_k m <= plan_k m')%Z.
Proof.
  intros Hb Hs H. induction H as [|m' H IH]; [lia|]. rewrite plan_k_S. pose proof (plan_k_bound m' Hb Hs). lia.
Qed.

Section OneRun.
Variables (tox : vec -> vec) (Gof : list vec -> result (list R)) (g : vec -> R) (prev : mc_state).
Hypothesis HG : forall us, Gof us = Ok (map g us).
Lemma run_plan fuel st : (0 < mo_block o)%Z -> mc_run nrv o stream p tox Gof fuel prev off0 = MDone st ->
  exists m, plan (S m) = (ms_k st, ms_off st, ms_blocks st) /\ (plan_k m < mo_samples o)%Z.
Proof.
  intros Hb E. destruct (run_inv nrv o stream p tox Gof g HG prev off0 fuel st Hb E) as (_ & Kp & _).
  assert (X : exists m, plan m = (ms_k st, ms_off st, ms_blocks st) /\ (forall m', m = S m' -> (plan_k m' < mo_samples o)%Z)).
  { revert E. apply (run_ind nrv o stream p tox Gof g HG prev off0 (fun st => exists m, plan m = (ms_k st, ms_off st, ms_blocks st) /\ (forall m', m = S m' -> (plan_k m' < mo_samples o)%Z))); [| |lia].
    - clear. intros st st' HI (m & EP & _) L EB. exists (S m). split.
      + cbn [plan]. rewrite EP. cbv zeta. unfold mc_block in EB.
        destruct (Z.ltb_spec (Z.min (mo_block o) (mo_samples o - ms_k st)) 0); [discriminate|]. destruct (negb (mo_rg o =? 0)%Z); [discriminate|].
        destruct (Gof _); [|discriminate]. injection EB as <-. reflexivity.
      + intros m' Em. injection Em as <-. unfold plan_k. rewrite EP. exact L.
    - exists 0%nat. split; [reflexivity|]. discriminate. }
  destruct X as ([|m] & EP & Q); [cbn [plan] in EP; injection EP as E1 _ _; lia|]. exists m. split; [exact EP|]. now apply Q.
Qed.
End OneRun.

Lemma same_points tox1 tox2 Gof1 Gof2 g1 g2 prev1 prev2 f1 f2 s1 s2 :
  (forall us, Gof1 us = Ok (map g1 us)) -> (forall us, Gof2 us = Ok (map g2 us)) -> (0 < mo_block o)%Z ->
  mc_run nrv o stream p tox1 Gof1 f1 prev1 off0 = MDone s1 -> mc_run nrv o stream p tox2 Gof2 f2 prev2 off0 = MDone s2 ->
  ms_k s1 = ms_k s2 -> ms_pts s1 = ms_pts s2.
Proof.
  intros H1 H2 Hb E1 E2 K.
  destruct (run_plan tox1 Gof1 g1 prev1 H1 f1 s1 Hb E1) as (m1 & P1 & L1).
  destruct (run_plan tox2 Gof2 g2 prev2 H2 f2 s2 Hb E2) as (m2 & P2 & L2).
  assert (Hs : (0 <= mo_samples o)%Z).
  { unfold mc_run in E1. destruct (Z.ltb_spec (mo_samples o) 0); [discriminate|lia]. }
  assert (K1 : plan_k (S m1) = ms_k s1) by (unfold plan_k; rewrite P1; reflexivity).
  assert (K2 : plan_k (S m2) = ms_k s2) by (unfold plan_k; rewrite P2; reflexivity).
  assert (m1 = m2).
  { destruct (lt_eq_lt_dec m1 m2) as [[X|X]|X]; [|exact X|]; exfalso.
    - pose proof (plan_k_mono (S m1) m2 Hb Hs X). rewrite plan_k_S in K2. pose proof (plan_k_bound m2 Hb Hs). lia.
    - pose proof (plan_k_mono (S m2) m1 Hb Hs X). rewrite plan_k_S in K1. pose proof (plan_k_bound m1 Hb Hs). lia. }
  subst m2. rewrite P1 in P2. injection P2 as _ _ EB. unfold ms_pts. now rewrite EB.
Qed.
End Plan.

Lemma lsum_le {A} (f h : A -> R) l : (forall x, In x l -> f x <= h x) -> lsum (map f l) <= lsum (map h l).
Proof.
  induction l as [|x l IH]; intros H; cbn; [lra|]. pose proof (H x (or_introl eq_refl)).
  specialize (IH (fun y Hy => H y (or_intror Hy))). lra.
Qed.
Lemma lsum_add {A} (f h : A -> R) l : lsum (map (fun x => f x + h x) l) = lsum (map f l) + lsum (map h l).
Proof. induction l as [|x l IH]; cbn; [lra|]. rewrite IH. lra. Qed.
Lemma nfail_compl (g : vec -> R) l : (forall u, In u l -> g u <> 0) -> (nfail g l + nfail (fun u => - g u) l)%nat = length l.
Proof.
  induction l as [|x l IH]; intros H; [reflexivity|]. cbn [nfail length].
  specialize (IH (fun y Hy => H y (or_intror Hy))). pose proof (H x (or_introl eq_refl)).
  destruct (Rltb (g x) 0) eqn:E1, (Rltb (- g x) 0) eqn:E2; rewrite ?Rltb_spec, ?Rltb_false in *; try lia; exfalso; lra.
Qed.
