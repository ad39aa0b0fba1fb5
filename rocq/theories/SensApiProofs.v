(** Proofs for C106. *)
From Coquelicot Require Import Coquelicot.
From Verif Require Import Base Ext Dict StochModel LimitState Form Nataf Dist Pipe Sens SensSpec SensNumProofs SensRun NumRun SensApi SensApiSpec.
From Coq Require Import Lra Lia.
Open Scope R_scope.

Definition flat (s : list (string * list (string * R))) : list (string * string * pyv) :=
  flat_map (fun row => map (fun pv => (fst row, fst pv, PNum (snd pv))) (snd row)) s.

Lemma summary_rows s : fold_right (fun nv acc => rbind (rows_of_var (fst nv) (snd nv)) (fun a => rbind acc (fun b => Ok (a ++ b)))) (Ok [])
  (map (fun row => (fst row, PDict (map (fun pv => (fst pv, PNum (snd pv))) (snd row)))) s) = Ok (flat s).
Proof.
  induction s as [|[n row] s IH]; [reflexivity|]. cbn [map fold_right fst snd]. rewrite IH. cbn [rows_of_var rbind]. unfold flat. cbn [flat_map fst snd]. do 2 f_equal.
  rewrite map_map. reflexivity.
Qed.
Lemma nested_get s name : dict_get (map (fun row : string * list (string * R) => (fst row, PDict (map (fun pv => (fst pv, PNum (snd pv))) (snd row)))) s) name =
  option_map (fun row => PDict (map (fun pv => (fst pv, PNum (snd pv))) row)) (dict_get s name).
Proof. exact (dget_map (fun _ row => PDict (map (fun pv => (fst pv, PNum (snd pv))) row)) s name). Qed.
Lemma nested_entry s name p : entry (nested s) name p = match dict_get s name with Some row => dict_get row p | None => None end.
Proof.
  unfold nested, entry. rewrite nested_get. destruct (dict_get s name) as [row|]; [|reflexivity]. cbn [option_map].
  assert (E : dict_get (map (fun pv : string * R => (fst pv, PNum (snd pv))) row) p = option_map PNum (dict_get row p)) by exact (dget_map (fun _ v => PNum v) row p).
  rewrite E. destruct (dict_get row p); reflexivity.
Qed.
Lemma flat_tabulates s : NoDup (map fst s) -> (forall n row, In (n, row) s -> NoDup (map fst row)) ->
  tabulates (flat s) (flat_map (fun row => map (fun p => (fst row, p)) (snd row)) (map (fun row => (fst row, map fst (snd row))) s)) (nested s).
Proof.
  intros HN HR. split.
  - clear HN HR. unfold flat. induction s as [|[n row] s IH]; [reflexivity|]. cbn [flat_map map fst snd]. rewrite map_app, IH, !map_map. reflexivity.
  - intros name p v HI. unfold flat in HI. apply in_flat_map in HI. destruct HI as ([n row] & I1 & I2). apply in_map_iff in I2. destruct I2 as ([q x] & E & I2).
    cbn [fst snd] in *. injection E as -> -> <-. exists x. split; [reflexivity|]. rewrite nested_entry, (dget_nodup _ _ _ HN I1). exact (dget_nodup _ _ _ (HR _ _ I1) I2).
Qed.
Lemma rows_match {A B} (f : A -> list string) (g : B -> list string) : forall (l1 : list (string * A)) (l2 : list (string * B)),
  map fst l1 = map fst l2 -> NoDup (map fst l2) -> (forall name d, In (name, d) l2 -> exists row, dict_get l1 name = Some row /\ f row = g d) ->
  map (fun r => (fst r, f (snd r))) l1 = map (fun r => (fst r, g (snd r))) l2.
Proof.
  induction l1 as [|[k v] l1 IH]; intros [|[k2 d] l2] E N H; try discriminate; [reflexivity|]. cbn [map fst snd] in *. injection E as -> E.
  inversion N as [|? ? N1 N2]; subst. f_equal.
  - destruct (H k2 d (or_introl eq_refl)) as (row & G & F). cbn in G. rewrite String.eqb_refl in G. injection G as <-. now rewrite F.
  - apply IH; [exact E|exact N2|]. intros name d' HI. destruct (H name d' (or_intror HI)) as (row & G & F). cbn in G.
    destruct (String.eqb_spec name k2) as [->|]; [exfalso; apply N1, (in_map fst _ _ HI)|]. eauto.
Qed.
Lemma flat_pairs {D} (sparams : D -> list (string * R)) m :
  flat_map (fun row => map (fun p => (fst row, p)) (snd row)) (map (fun nd => (fst nd, map fst (sparams (snd nd)))) (pm_vars D m)) = pairs_of sparams m.
Proof.
  unfold pairs_of. generalize (pm_vars D m). intros l. induction l as [|[n d] l IH]; [reflexivity|]. cbn [map flat_map fst snd]. rewrite IH, map_map. reflexivity.
Qed.
Lemma map_seq_nth {A B} (f : A -> B) (l : list A) d : map (fun k => f (nth k l d)) (seq 0 (length l)) = map f l.
Proof.
  assert (H : forall pre l, map (fun k => f (nth k (pre ++ l) d)) (seq (length pre) (length l)) = map f l).
  { intros pre l0. revert pre. induction l0 as [|x l0 IH]; intros pre; [reflexivity|]. cbn [length seq map]. f_equal.
    - rewrite app_nth2, Nat.sub_diag by lia. reflexivity.
    - specialize (IH (pre ++ [x])). rewrite <- app_assoc in IH. cbn [app] in IH. rewrite app_length in IH. cbn [length] in IH. rewrite Nat.add_1_r in IH. exact IH. }
  exact (H [] l).
Qed.
