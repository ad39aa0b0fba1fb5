(** Property theorems C120: Calibration.calc_lsf_eval_df. *)
From Verif Require Import Base Dict StochModel LoadComb LoadCombProps Calib CalibDf.
From Coq Require Import Lra Lia.
Open Scope list_scope.
Open Scope R_scope.

Lemma mapM_ok {A B} (f : A -> result B) l r : mapM f l = Ok r <-> Forall2 (fun x y => f x = Ok y) l r.
Proof.
  revert r. induction l as [|x l IH]; intros r; cbn [mapM].
  - split; [intros H; injection H as <-; constructor|intros H; inversion H; reflexivity].
  - destruct (f x) as [y|e] eqn:E; cbn [rbind].
    + destruct (mapM f l) as [ys|e'] eqn:M; cbn [rbind].
      * split; [intros H; injection H as <-; constructor; [exact E|apply IH; reflexivity]|]. intros H. inversion H as [|? y' ? ys' H1 H2]; subst. rewrite E in H1. injection H1 as <-. apply IH in H2. injection H2 as <-. reflexivity.
      * split; [discriminate|]. intros H. inversion H as [|? y' ? ys' H1 H2]; subst. apply IH in H2. discriminate.
    + split; [discriminate|]. intros H. inversion H as [|? y' ? ys' H1 H2]; subst. congruence.
Qed.
Lemma mapM_err {A B} (f : A -> result B) l e : mapM f l = Err e <-> exists l1 x l2, l = l1 ++ x :: l2 /\ (forall y, In y l1 -> exists v, f y = Ok v) /\ f x = Err e.
Proof.
  induction l as [|x l IH]; cbn [mapM].
  - split; [discriminate|]. intros (l1 & x & l2 & E & _). destruct l1; discriminate.
  - destruct (f x) as [y|e'] eqn:E; cbn [rbind].
    + destruct (mapM f l) as [ys|e''] eqn:M; cbn [rbind].
      * split; [discriminate|]. intros ([|a l1] & z & l2 & H & K & F); injection H as <- ->; [congruence|]. assert (X : @Ok (list B) ys = Err e) by (apply IH; exists l1, z, l2; split; [reflexivity|]; split; [intros w Hw; apply K; right; exact Hw|exact F]). discriminate X.
      * split.
        -- intros H. injection H as ->. destruct (proj1 IH eq_refl) as (l1 & z & l2 & -> & K & F). exists (x :: l1), z, l2. split; [reflexivity|]. split; [|exact F]. intros w [<-|Hw]; [exists y; exact E|apply K, Hw].
        -- intros ([|a l1] & z & l2 & H & K & F); injection H as <- ->; [congruence|]. rewrite (proj2 IH); [reflexivity|]. exists l1, z, l2. split; [reflexivity|]. split; [intros w Hw; apply K; right; exact Hw|exact F].
    + split; [intros H; injection H as ->; exists [], x, l; split; [reflexivity|]; split; [intros y []|exact E]|]. intros ([|a l1] & z & l2 & H & K & F); injection H as <- ->; [congruence|]. destruct (K x (or_introl eq_refl)) as [v V]. congruence.
Qed.

(** C120: the arguments of one cell: the column's variable has the cell's value, z has the value 1 unless
    the column is z itself, constants have their own values and every other variable is 0. *)
Theorem C120_arguments : forall l cd lsf col x,
  lc_const l = Some cd -> (forall k o, In (k, o) cd -> exists n v, o = OConst n v) ->
  exists args, df_cell l lsf col x = lsf args /\
    dict_get args col = Some x /\
    (col <> "z"%string -> dict_get args "z"%string = Some 1) /\
    (forall k n v, k <> col -> k <> "z"%string -> dict_get cd k = Some (OConst n v) -> dict_get args k = Some v) /\
    (forall k, k <> col -> k <> "z"%string -> dict_get cd k = None -> In k (lc_label_all l) -> dict_get args k = Some 0) /\
    (forall k, k <> col -> k <> "z"%string -> dict_get cd k = None -> ~ In k (lc_label_all l) -> dict_get args k = None).
Proof.
  intros l cd lsf col x Hc HC. destruct (C56_arguments l cd R lsf 0 None (dict_set [("z"%string, 1)] col x) Hc HC) as (args & E & G). exists args. split; [exact E|].
  assert (Z : forall k, k <> "z"%string -> dict_get [("z"%string, 1)] k = None) by (intros k N; cbn; destruct (String.eqb_spec k "z"%string); [contradiction|reflexivity]).
  split; [rewrite G, dget_set_same; reflexivity|]. split; [intros N; rewrite G, dget_set_other by exact N; reflexivity|].
  split; [intros k n v N1 N2 D; rewrite G, dget_set_other, Z, D by congruence; reflexivity|].
  split; intros k N1 N2 D I; rewrite G, dget_set_other, Z, D by congruence; destruct (in_dec string_dec k (lc_label_all l)); tauto.
Qed.
Print Assumptions C120_arguments.

(** C120: the result: the same columns in the same order with the same number of rows; each cell holds
    the absolute value (or, with ret_abs=False, the value) of the limit state function for that cell. *)
Theorem C120_cells : forall l lsf df ret_abs out, calc_lsf_eval_df l lsf df ret_abs = Ok out ->
  map fst out = map fst df /\
  forall i col xs, nth_error df i = Some (col, xs) ->
    exists ys, nth_error out i = Some (col, ys) /\ length ys = length xs /\
      forall j x, nth_error xs j = Some x -> exists g, df_cell l lsf col x = Ok g /\ nth_error ys j = Some (if ret_abs then Rabs g else g).
Proof.
  intros l lsf df ret_abs out H. unfold calc_lsf_eval_df in H. apply mapM_ok in H. induction H as [|[col xs] [c ys] df out H1 H2 [IH1 IH2]]; [split; [reflexivity|intros [|i] ? ? E; discriminate]|].
  cbn [fst snd] in H1. destruct (mapM (df_cell l lsf col) xs) as [jj|e] eqn:M; [|discriminate]. cbn [rbind] in H1. injection H1 as <- <-. split; [cbn [map fst]; f_equal; exact IH1|].
  intros [|i] col' xs' E; [|exact (IH2 i col' xs' E)]. injection E as <- <-. eexists. split; [reflexivity|]. apply mapM_ok in M. clear - M. induction M as [|x g xs jj Hx M [L IH]].
  - split; [destruct ret_abs; reflexivity|]. intros [|j] x E; discriminate.
  - split; [destruct ret_abs; cbn [map length]; f_equal; exact L|]. intros [|j] x' E.
    + injection E as <-. exists g. split; [exact Hx|destruct ret_abs; reflexivity].
    + destruct (IH j x' E) as (g' & G1 & G2). exists g'. split; [exact G1|]. destruct ret_abs; exact G2.
Qed.
Print Assumptions C120_cells.

(** C120: it raises iff some cell does, and then with the error of the first such cell, column by column. *)
Theorem C120_errors : forall l lsf df ret_abs e, calc_lsf_eval_df l lsf df ret_abs = Err e <->
  exists i j col xs x, nth_error df i = Some (col, xs) /\ nth_error xs j = Some x /\ df_cell l lsf col x = Err e /\
    (forall j' x', (j' < j)%nat -> nth_error xs j' = Some x' -> exists g, df_cell l lsf col x' = Ok g) /\
    (forall i' col' xs' x', (i' < i)%nat -> nth_error df i' = Some (col', xs') -> In x' xs' -> exists g, df_cell l lsf col' x' = Ok g).
Proof.
  intros l lsf df ret_abs e. unfold calc_lsf_eval_df. rewrite mapM_err. split.
  - intros (l1 & [col xs] & l2 & -> & K & F). cbn [fst snd] in F. destruct (mapM (df_cell l lsf col) xs) as [jj|e'] eqn:M; [discriminate|]. injection F as ->. apply mapM_err in M. destruct M as (k1 & x & k2 & -> & K1 & F1).
    exists (length l1), (length k1), col, (k1 ++ x :: k2), x. split; [rewrite nth_error_app2, Nat.sub_diag by lia; reflexivity|]. split; [rewrite nth_error_app2, Nat.sub_diag by lia; reflexivity|]. split; [exact F1|]. split.
    + intros j' x' L E. rewrite nth_error_app1 in E by exact L. apply K1, (nth_error_In _ _ E).
    + intros i' col' xs' x' L E I. rewrite nth_error_app1 in E by exact L. destruct (K _ (nth_error_In _ _ E)) as [v V]. cbn [fst snd] in V. destruct (mapM (df_cell l lsf col') xs') as [jj|] eqn:M; [|discriminate].
      apply mapM_ok in M. clear - M I. induction M as [|a b u v Hab M IH]; [destruct I|]. destruct I as [<-|I]; [exists b; exact Hab|apply IH, I].
  - intros (i & j & col & xs & x & E & Ex & F & K1 & K). destruct (nth_error_split _ _ E) as (l1 & l2 & -> & L1). exists l1, (col, xs), l2. split; [reflexivity|].
    assert (AO : forall c ys, (forall y, In y ys -> exists g, df_cell l lsf c y = Ok g) -> exists jj, mapM (df_cell l lsf c) ys = Ok jj).
    { intros c ys H. destruct (mapM (df_cell l lsf c) ys) as [jj|e'] eqn:M; [exists jj; reflexivity|]. apply mapM_err in M. destruct M as (k1 & y & k2 & -> & _ & Fy). destruct (H y ltac:(apply in_or_app; right; left; reflexivity)) as [g G]. congruence. }
    split.
    + intros [c ys] I. cbn [fst snd]. apply In_nth_error in I. destruct I as [i' I]. assert (i' < length l1)%nat by (apply nth_error_Some; congruence).
      destruct (AO c ys) as [jj J]; [|rewrite J; eexists; reflexivity]. intros y Hy. apply (K i' c ys y); [lia| |exact Hy]. rewrite nth_error_app1 by lia. exact I.
    + cbn [fst snd]. destruct (nth_error_split _ _ Ex) as (k1 & k2 & -> & L2). assert (M : mapM (df_cell l lsf col) (k1 ++ x :: k2) = Err e).
      { apply mapM_err. exists k1, x, k2. split; [reflexivity|]. split; [|exact F]. intros y Hy. apply In_nth_error in Hy. destruct Hy as [j' J]. assert (j' < length k1)%nat by (apply nth_error_Some; congruence). apply (K1 j'); [lia|]. rewrite nth_error_app1 by lia. exact J. }
      rewrite M. reflexivity.
Qed.
Print Assumptions C120_errors.

(** C120 refuted: "works whatever the calibration variable is called". The name z is fixed in the method: if
    the limit state function has no parameter z (Python: an unexpected keyword is a TypeError), every
    table with a cell in a column other than z raises. *)
Theorem C120_other_calibration_variable_refuted : forall l cd lsf df ret_abs,
  lc_const l = Some cd -> (forall k o, In (k, o) cd -> exists n v, o = OConst n v) ->
  (forall args v, dict_get args "z"%string = Some v -> lsf args = Err EType) ->
  (exists col x xs, In (col, x :: xs) df) -> exists e, calc_lsf_eval_df l lsf df ret_abs = Err e.
Proof.
  intros l cd lsf df ret_abs Hc HC HL (col & x & xs & I).
  assert (F : df_cell l lsf col x = Err EType).
  { destruct (C120_arguments l cd lsf col x Hc HC) as (args & E & A & B & _). rewrite E. destruct (string_dec col "z") as [->|N]; [exact (HL args x A)|exact (HL args 1 (B N))]. }
  destruct (calc_lsf_eval_df l lsf df ret_abs) as [out|e] eqn:E; [|exists e; reflexivity]. exfalso. destruct (C120_cells l lsf df ret_abs out E) as (_ & C). apply In_nth_error in I. destruct I as [i Hi].
  destruct (C i col (x :: xs) Hi) as (ys & _ & _ & K). destruct (K O x eq_refl) as (g & G & _). congruence.
Qed.
Print Assumptions C120_other_calibration_variable_refuted.

(** C120: a limit state without constant term, affine in each variable: the cell is the absolute load or
    resistance effect of that variable. For z R - G - Q1 - Q2 with the combination of C54_example. *)
Definition lin_lsf (args : list (string * R)) : result R :=
  match dict_get args "z"%string, dict_get args "R"%string, dict_get args "G"%string, dict_get args "Q1"%string, dict_get args "Q2"%string with
  | Some z, Some r, Some g, Some q1, Some q2 => Ok (z * r - g - q1 - q2)
  | _, _, _, _, _ => Err EType
  end.
Example C120_example : exists l, lc_ex = Ok l /\
  calc_lsf_eval_df l lin_lsf [("R"%string, [10; 12]); ("Q1"%string, [3; 4])] true = Ok [("R"%string, [10; 12]); ("Q1"%string, [3; 4])] /\
  calc_lsf_eval_df l lin_lsf [("R"%string, [10; 12]); ("Q1"%string, [3; 4])] false = Ok [("R"%string, [10; 12]); ("Q1"%string, [-3; -4])].
Proof.
  unfold lc_ex, lc_init. cbn. eexists. split; [reflexivity|]. unfold calc_lsf_eval_df, df_cell, eval_lsf_kwargs, eval_kwargs, lin_lsf. cbn.
  split; repeat f_equal; try lra; (rewrite Rabs_right; lra) || (rewrite Rabs_left; lra).
Qed.
