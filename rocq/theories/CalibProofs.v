(** Proofs about Calib.v. *)
From Verif Require Import Base StochModel StochModelSpec StochModelProofs Dict LoadComb LoadCombSpec LoadCombProofs LoadCombProps Calib CalibSpec.
Open Scope list_scope.
Open Scope R_scope.

Lemma mem_true k l : In k l -> mem_str k l = true.
Proof. apply mem_str_In. Qed.
Lemma mem_false k l : ~ In k l -> mem_str k l = false.
Proof. intros H. destruct (mem_str k l) eqn:E; [apply mem_str_In in E; contradiction|reflexivity]. Qed.
Lemma forallb_mem cols l : (forall c, In c l -> In c cols) -> forallb (fun c => mem_str c cols) l = true.
Proof. intros H. apply forallb_forall. intros c Hc. apply mem_true, H, Hc. Qed.

Lemma select_ok t cols : (forall c, In c cols -> In c (t_cols t)) -> select t cols = Ok (mkTbl (t_rows t) cols (t_val t)).
Proof. intros H. unfold select. rewrite forallb_mem by exact H. reflexivity. Qed.

Lemma row_dict_ok t r cols (f : string -> R) : (forall c, In c cols -> In c (t_cols t) /\ t_val t r c = Some (f c)) -> row_dict t r cols = Ok (map (fun c => (c, f c)) cols).
Proof.
  induction cols as [|c cs IH]; intros H; [reflexivity|]. cbn [row_dict map]. destruct (H c (or_introl eq_refl)) as [A B].
  rewrite (mem_true _ _ A), B, IH; [reflexivity|]. intros c' Hc. apply H. right. exact Hc.
Qed.
Lemma dget_map_self (f : string -> R) cols v : dict_get (map (fun c => (c, f c)) cols) v = if in_dec string_dec v cols then Some (f v) else None.
Proof.
  induction cols as [|c cs IH]; [reflexivity|]. cbn [map dict_get]. destruct (String.eqb_spec v c) as [->|N].
  - destruct (in_dec string_dec c (c :: cs)) as [|X]; [reflexivity|exfalso; apply X; left; reflexivity].
  - rewrite IH. destruct (in_dec string_dec v cs) as [I|I]; destruct (in_dec string_dec v (c :: cs)) as [J|J]; try reflexivity.
    + exfalso. apply J. right. exact I.
    + exfalso. destruct J as [E|J]; [apply N; symmetry; exact E|contradiction].
Qed.

Lemma mapM_ok {A B} (f : A -> result B) (g : A -> B) l : (forall x, In x l -> f x = Ok (g x)) -> mapM f l = Ok (map g l).
Proof. induction l as [|x l IH]; intros H; [reflexivity|]. cbn [mapM map]. rewrite (H x (or_introl eq_refl)), IH; [reflexivity|]. intros y Hy. apply H. right. exact Hy. Qed.
Lemma mapM_inv {A B} (f : A -> result B) l : forall ys, mapM f l = Ok ys -> List.length ys = List.length l /\ forall i x, nth_error l i = Some x -> exists y, nth_error ys i = Some y /\ f x = Ok y.
Proof.
  induction l as [|x l IH]; intros ys H; cbn [mapM] in H.
  - injection H as <-. split; [reflexivity|]. intros [|i] x Hx; discriminate.
  - destruct (f x) as [y|] eqn:E; cbn [rbind] in H; [|discriminate]. destruct (mapM f l) as [zs|]; cbn [rbind] in H; [|discriminate]. injection H as <-.
    destruct (IH zs eq_refl) as [L N]. split; [cbn; rewrite L; reflexivity|]. intros [|i] x' Hx; cbn in *; [injection Hx as <-; eauto|apply N, Hx].
Qed.
Lemma mapM_err {A B} (f : A -> result B) l x e : In x l -> f x = Err e -> exists e', mapM f l = Err e'.
Proof.
  induction l as [|y l IH]; intros H E; [destruct H|]. cbn [mapM]. destruct (f y) as [b|e0] eqn:F; cbn [rbind]; [|eauto].
  destruct H as [->|H]; [congruence|]. destruct (IH H E) as [e' ->]. cbn. eauto.
Qed.

(** *** spreading the leading factors *)
Lemma spread_all_spec lc cs : forall t, (forall n, In n (map fst cs) -> In n (c_cases lc)) ->
  (forall n vrs v, In (n, vrs) cs -> In v vrs -> In v (t_cols t)) ->
  exists t', spread_all lc cs t = Ok t' /\ t_rows t' = t_rows t /\ t_cols t' = t_cols t
    /\ forall r c, In r (c_cases lc) -> t_val t' r c = match first_lead c cs with Some m => t_val t m c | None => t_val t r c end.
Proof.
  induction cs as [|[n vrs] cs IH]; intros t H1 H2.
  - exists t. repeat split; reflexivity.
  - cbn [spread_all]. unfold spread. rewrite forallb_mem by (intros c Hc; apply (H2 n vrs c (or_introl eq_refl) Hc)). cbn [rbind].
    set (t1 := mkTbl _ _ _). destruct (IH t1) as (t' & E & R1 & R2 & V).
    + intros m Hm. apply H1. right. exact Hm.
    + intros m w v Hi Hv. cbn. apply (H2 m w v (or_intror Hi) Hv).
    + exists t'. split; [exact E|]. split; [exact R1|]. split; [exact R2|]. intros r c Hr. rewrite V by exact Hr. cbn [first_lead].
      assert (Hn : In n (c_cases lc)) by (apply H1; left; reflexivity).
      assert (K : forall m, In m (c_cases lc) -> In c vrs -> t_val t1 m c = t_val t n c).
      { intros m Hm Hc. unfold t1. cbn. rewrite (mem_true _ _ Hc), (mem_true _ _ Hm). cbn [andb]. destruct (String.eqb_spec m n) as [->|]; reflexivity. }
      assert (K' : forall m, ~ In c vrs -> t_val t1 m c = t_val t m c) by (intros m Hc; unfold t1; cbn; rewrite (mem_false _ _ Hc); reflexivity).
      destruct (in_dec string_dec c vrs) as [I|I].
      * destruct (first_lead c cs) as [m|] eqn:F; [|apply K; assumption]. apply K; [|exact I]. apply H1. right. clear - F. induction cs as [|[k w] cs IH]; [discriminate|].
        cbn [first_lead] in F. destruct (in_dec string_dec c w); [injection F as ->; left; reflexivity|right; apply IH, F].
      * destruct (first_lead c cs); apply K', I.
Qed.
Lemma first_lead_in c cs m : first_lead c cs = Some m -> exists vrs, In (m, vrs) cs /\ In c vrs.
Proof.
  induction cs as [|[n vrs] cs IH]; intros H; [discriminate|]. cbn [first_lead] in H. destruct (in_dec string_dec c vrs) as [I|I].
  - injection H as <-. exists vrs. split; [left; reflexivity|exact I].
  - destruct (IH H) as (w & A & B). exists w. split; [right; exact A|exact B].
Qed.
Lemma first_lead_none c cs : first_lead c cs = None -> forall n vrs, In (n, vrs) cs -> ~ In c vrs.
Proof.
  induction cs as [|[k w] cs IH]; intros H n vrs Hi; [destruct Hi|]. cbn [first_lead] in H. destruct (in_dec string_dec c w) as [|I]; [discriminate|].
  destruct Hi as [E|Hi]; [injection E as <- <-; exact I|exact (IH H n vrs Hi)].
Qed.

Lemma tbin_cols_l op a b c : In c (t_cols a) -> In c (t_cols (tbin op a b)).
Proof. intros H. cbn. apply in_or_app. left. exact H. Qed.
Lemma cell_in t r c : In c (t_cols t) -> cell t r c = t_val t r c.
Proof. intros H. unfold cell. rewrite (mem_true _ _ H). reflexivity. Qed.

(** the table of design points over nominals, after spreading *)
Lemma calc_Xst_nom_spec lc nom X :
  (forall n vrs v, In (n, vrs) (lc_cases lc) -> In v vrs -> In v (t_cols X)) ->
  exists xn, calc_Xst_nom lc nom X = Ok xn /\ t_rows xn = t_rows X /\ t_cols xn = t_cols X
    /\ forall r c, In r (c_cases lc) -> In c (t_cols X) ->
       t_val xn r c = let q n := odiv (t_val X n c) (match dict_get nom c with Some f => Some (f n) | None => None end) in
                      match first_lead c (lc_cases lc) with Some m => q m | None => q r end.
Proof.
  intros H. unfold calc_Xst_nom.
  destruct (spread_all_spec lc (lc_cases lc) (tbin odiv X (df_nom lc nom))) as (t & E & R1 & R2 & V).
  - intros n Hn. exact Hn.
  - intros n vrs v Hi Hv. apply tbin_cols_l, (H n vrs v Hi Hv).
  - rewrite E. cbn [rbind]. rewrite select_ok by (intros c Hc; rewrite R2; apply tbin_cols_l, Hc).
    eexists. split; [reflexivity|]. cbn [t_rows t_cols t_val]. split; [rewrite R1; reflexivity|]. split; [reflexivity|].
    intros r c Hr Hc. rewrite V by exact Hr. cbv zeta.
    assert (Q : forall n, t_val (tbin odiv X (df_nom lc nom)) n c = odiv (t_val X n c) (match dict_get nom c with Some f => Some (f n) | None => None end)).
    { intros n. cbn [tbin t_val]. rewrite (cell_in X n c Hc). f_equal. unfold cell. cbn [df_nom t_cols t_val].
      destruct (dict_get nom c) as [f|] eqn:G; cbn [option_map].
      - rewrite mem_true by (eapply dget_some_key; exact G). reflexivity.
      - rewrite mem_false by (apply dget_none, G). reflexivity. }
    destruct (first_lead c (lc_cases lc)); apply Q.
Qed.

(** *** evaluating a linear limit state by keywords *)
Lemma evalk_linear lc lsf cd cvar nm z0 a b kw : lc_const lc = Some cd -> (forall k o, In (k, o) cd -> exists n v, o = OConst n v) ->
  dict_get cd cvar = Some (OConst nm z0) -> (forall v, In v (c_R lc ++ c_S lc) -> ~ In v (map fst cd)) -> linear_lsf lsf cvar (c_R lc) (c_S lc) a b ->
  let x v := match dict_get kw v with Some y => y | None => 0 end in
  evalk lc lsf kw = Ok ((match dict_get kw cvar with Some z => z | None => z0 end) * lsum (map (fun r => a r * x r) (c_R lc)) - lsum (map (fun s => b s * x s) (c_S lc))).
Proof.
  intros Hc HC Hz Hd HL x. unfold evalk. destruct (C56_arguments lc cd R lsf 0 None kw Hc HC) as (args & -> & G). apply HL.
  - rewrite G. destruct (dict_get kw cvar); [reflexivity|]. rewrite Hz. reflexivity.
  - intros v Hv. rewrite G. unfold x. destruct (dict_get kw v); [reflexivity|]. rewrite (proj2 (dget_none cd v) (Hd v Hv)).
    destruct (in_dec string_dec v (lc_label_all lc)) as [|N]; [reflexivity|]. exfalso. apply N. unfold lc_label_all, c_R, c_S, c_other, c_comb in *.
    apply in_or_app. left. exact Hv.
Qed.

Lemma lsum_ext2 (f g : string -> R) l : (forall v, In v l -> f v = g v) -> lsum (map f l) = lsum (map g l).
Proof. intros H. f_equal. apply map_ext_in, H. Qed.
Lemma lsum_zero (f : string -> R) l : (forall v, In v l -> f v = 0) -> lsum (map f l) = 0.
Proof. induction l as [|v l IH]; intros H; [reflexivity|]. cbn. rewrite (H v (or_introl eq_refl)), IH; [lra|]. intros w Hw. apply H. right. exact Hw. Qed.
Lemma lsum_fsum (f : string -> R) l : lsum (map f l) = fsum (List.length l) (fun j => f (nth j l ""%string)).
Proof. induction l as [|v l IH]; [reflexivity|]. cbn [map lsum List.length]. rewrite fsum_shift. cbn [nth]. rewrite IH. reflexivity. Qed.
Lemma lsum_map_app (f : string -> R) l1 l2 : lsum (map f (l1 ++ l2)) = lsum (map f l1) + lsum (map f l2).
Proof. rewrite map_app. apply lsum_app. Qed.
Lemma lsum_map_minus (f g : string -> R) l : lsum (map (fun v => f v - g v) l) = lsum (map f l) - lsum (map g l).
Proof. induction l as [|v l IH]; [cbn; lra|]. cbn. rewrite IH. lra. Qed.
Lemma lsum_map_le (f g : string -> R) l : (forall v, In v l -> f v <= g v) -> lsum (map f l) <= lsum (map g l).
Proof. induction l as [|v l IH]; intros H; cbn; [lra|]. pose proof (H v (or_introl eq_refl)). assert (lsum (map f l) <= lsum (map g l)) by (apply IH; intros w Hw; apply H; right; exact Hw). lra. Qed.

(** *** column extrema *)
Lemma col_ext_max t c (f : string -> R) : (forall r, In r (t_rows t) -> t_val t r c = Some (f r)) -> t_rows t <> [] ->
  exists m, col_ext Rmax t c = Some m /\ greatest (t_rows t) f m.
Proof.
  unfold col_ext, greatest. induction (t_rows t) as [|r rows IH]; intros H N; [congruence|]. cbn [fold_right]. rewrite (H r (or_introl eq_refl)).
  destruct rows as [|r' rows].
  - cbn. exists (f r). split; [reflexivity|]. split; [exists r; split; [left; reflexivity|reflexivity]|]. intros q [<-|[]]. lra.
  - destruct IH as (m & E & (q & Iq & Fq) & G); [intros; apply H; right; assumption|discriminate|]. rewrite E. cbn [oext]. exists (Rmax (f r) m). split; [reflexivity|]. split.
    + unfold Rmax. destruct (Rle_dec (f r) m); [exists q; split; [right; exact Iq|exact Fq]|exists r; split; [left; reflexivity|reflexivity]].
    + intros p [<-|Hp]; [apply Rmax_l|]. eapply Rle_trans; [apply G, Hp|apply Rmax_r].
Qed.
Lemma col_ext_min t c (f : string -> R) : (forall r, In r (t_rows t) -> t_val t r c = Some (f r)) -> t_rows t <> [] ->
  exists m, col_ext Rmin t c = Some m /\ least (t_rows t) f m.
Proof.
  unfold col_ext, least. induction (t_rows t) as [|r rows IH]; intros H N; [congruence|]. cbn [fold_right]. rewrite (H r (or_introl eq_refl)).
  destruct rows as [|r' rows].
  - cbn. exists (f r). split; [reflexivity|]. split; [exists r; split; [left; reflexivity|reflexivity]|]. intros q [<-|[]]. lra.
  - destruct IH as (m & E & (q & Iq & Fq) & G); [intros; apply H; right; assumption|discriminate|]. rewrite E. cbn [oext]. exists (Rmin (f r) m). split; [reflexivity|]. split.
    + unfold Rmin. destruct (Rle_dec (f r) m); [exists r; split; [left; reflexivity|reflexivity]|exists q; split; [right; exact Iq|exact Fq]].
    + intros p [<-|Hp]; [apply Rmin_l|]. eapply Rle_trans; [apply Rmin_r|apply G, Hp].
Qed.
