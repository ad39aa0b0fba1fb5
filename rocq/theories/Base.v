(** Shared vocabulary: Python exceptions as values, boolean comparisons on
    reals, finite sums, vectors and matrices as functions of the index with an
    explicit size.  Nothing here models a particular line of /repo. *)
From Coq Require Export String.
From Coq Require Export Reals Lra Lia List Arith Bool.
Export ListNotations.
Open Scope R_scope.

(** ** Exceptions as values *)
Inductive exn :=
| EValue          (* ValueError *)
| EType           (* TypeError *)
| EKey            (* KeyError *)
| EIndex          (* IndexError *)
| EAttr           (* AttributeError *)
| ERuntime        (* RuntimeError *)
| ENotImpl        (* NotImplementedError *)
| EZeroDiv        (* ZeroDivisionError *)
| EException.     (* plain Exception *)

Inductive result (A : Type) :=
| Ok (a : A)
| Err (e : exn).
Arguments Ok {A} a.
Arguments Err {A} e.

Definition is_ok {A} (r : result A) : bool :=
  match r with Ok _ => true | Err _ => false end.

Definition rbind {A B} (r : result A) (f : A -> result B) : result B :=
  match r with Ok a => f a | Err e => Err e end.

(** ** Comparisons *)
Definition Rltb (x y : R) : bool := if Rlt_dec x y then true else false.
Definition Rleb (x y : R) : bool := if Rle_dec x y then true else false.
Definition Reqb (x y : R) : bool := if Req_EM_T x y then true else false.

Lemma Rltb_spec x y : Rltb x y = true <-> x < y.
Proof. unfold Rltb; destruct (Rlt_dec x y); split; intros; easy. Qed.
Lemma Rltb_false x y : Rltb x y = false <-> y <= x.
Proof. unfold Rltb; destruct (Rlt_dec x y); split; intros; try easy; lra. Qed.
Lemma Rleb_spec x y : Rleb x y = true <-> x <= y.
Proof. unfold Rleb; destruct (Rle_dec x y); split; intros; easy. Qed.
Lemma Rleb_false x y : Rleb x y = false <-> y < x.
Proof. unfold Rleb; destruct (Rle_dec x y); split; intros; try easy; lra. Qed.
Lemma Reqb_spec x y : Reqb x y = true <-> x = y.
Proof. unfold Reqb; destruct (Req_EM_T x y); split; intros; easy. Qed.
Lemma Reqb_false x y : Reqb x y = false <-> x <> y.
Proof. unfold Reqb; destruct (Req_EM_T x y); split; intros; easy. Qed.

(** ** Finite sums: [fsum n f = f 0 + ... + f (n-1)] *)
Fixpoint fsum (n : nat) (f : nat -> R) : R :=
  match n with O => 0 | S m => fsum m f + f m end.

Lemma fsum_ext n f g : (forall i, (i < n)%nat -> f i = g i) -> fsum n f = fsum n g.
Proof.
  induction n as [|n IH]; simpl; intros H; [reflexivity|].
  rewrite (H n) by lia. rewrite IH; [reflexivity|]. intros i Hi. apply H. lia.
Qed.

Lemma fsum_plus n f g : fsum n (fun i => f i + g i) = fsum n f + fsum n g.
Proof. induction n as [|n IH]; simpl; [lra|]. rewrite IH. lra. Qed.

Lemma fsum_minus n f g : fsum n (fun i => f i - g i) = fsum n f - fsum n g.
Proof. induction n as [|n IH]; simpl; [lra|]. rewrite IH. lra. Qed.

Lemma fsum_opp n f : fsum n (fun i => - f i) = - fsum n f.
Proof. induction n as [|n IH]; simpl; [lra|]. rewrite IH. lra. Qed.

Lemma fsum_scal n c f : fsum n (fun i => c * f i) = c * fsum n f.
Proof. induction n as [|n IH]; simpl; [lra|]. rewrite IH. lra. Qed.

Lemma fsum_scal_r n c f : fsum n (fun i => f i * c) = fsum n f * c.
Proof. induction n as [|n IH]; simpl; [lra|]. rewrite IH. lra. Qed.

Lemma fsum_zero n f : (forall i, (i < n)%nat -> f i = 0) -> fsum n f = 0.
Proof.
  induction n as [|n IH]; simpl; intros H; [reflexivity|].
  rewrite (H n) by lia. rewrite IH; [lra|]. intros; apply H; lia.
Qed.

Lemma fsum_swap n m f :
  fsum n (fun i => fsum m (fun j => f i j)) = fsum m (fun j => fsum n (fun i => f i j)).
Proof.
  induction n as [|n IH]; simpl.
  - symmetry. apply fsum_zero. reflexivity.
  - rewrite IH. rewrite <- fsum_plus. reflexivity.
Qed.

Definition delta (i j : nat) : R := if Nat.eqb i j then 1 else 0.

Lemma delta_refl i : delta i i = 1.
Proof. unfold delta; rewrite Nat.eqb_refl; reflexivity. Qed.
Lemma delta_neq i j : i <> j -> delta i j = 0.
Proof. unfold delta; intros H; apply Nat.eqb_neq in H; rewrite H; reflexivity. Qed.
Lemma delta_sym i j : delta i j = delta j i.
Proof. unfold delta; rewrite Nat.eqb_sym; reflexivity. Qed.

Lemma fsum_single n k f :
  (k < n)%nat -> (forall i, (i < n)%nat -> i <> k -> f i = 0) -> fsum n f = f k.
Proof.
  induction n as [|n IH]; intros Hk H; [lia|].
  simpl. destruct (Nat.eq_dec k n) as [->|Hne].
  - rewrite fsum_zero; [lra|]. intros i Hi. apply H; lia.
  - rewrite IH; [|lia|intros; apply H; lia]. rewrite (H n); [lra|lia|lia].
Qed.

Lemma fsum_delta n k f : (k < n)%nat -> fsum n (fun i => delta k i * f i) = f k.
Proof.
  intros Hk. rewrite (fsum_single n k); [rewrite delta_refl; lra|exact Hk|].
  intros i _ Hi. rewrite delta_neq by auto. lra.
Qed.

Lemma fsum_delta_r n k f : (k < n)%nat -> fsum n (fun i => f i * delta i k) = f k.
Proof.
  intros Hk. rewrite (fsum_single n k); [rewrite delta_refl; lra|exact Hk|].
  intros i _ Hi. rewrite delta_neq by auto. lra.
Qed.

Lemma fsum_nonneg n f : (forall i, (i < n)%nat -> 0 <= f i) -> 0 <= fsum n f.
Proof.
  induction n as [|n IH]; simpl; intros H; [lra|].
  assert (0 <= f n) by (apply H; lia).
  assert (0 <= fsum n f) by (apply IH; intros; apply H; lia). lra.
Qed.

Lemma fsum_le n f g : (forall i, (i < n)%nat -> f i <= g i) -> fsum n f <= fsum n g.
Proof.
  induction n as [|n IH]; simpl; intros H; [lra|].
  assert (f n <= g n) by (apply H; lia).
  assert (fsum n f <= fsum n g) by (apply IH; intros; apply H; lia). lra.
Qed.

Lemma fsum_pos_eq0 n f :
  (forall i, (i < n)%nat -> 0 <= f i) -> fsum n f = 0 -> forall i, (i < n)%nat -> f i = 0.
Proof.
  induction n as [|n IH]; simpl; intros H H0 i Hi; [lia|].
  assert (Hn : 0 <= f n) by (apply H; lia).
  assert (Hs : 0 <= fsum n f) by (apply fsum_nonneg; intros; apply H; lia).
  assert (fsum n f = 0) by lra. assert (f n = 0) by lra.
  destruct (Nat.eq_dec i n) as [->|]; [assumption|].
  apply IH; [intros; apply H; lia|assumption|lia].
Qed.

Lemma fsum_const n c : fsum n (fun _ => c) = INR n * c.
Proof.
  induction n as [|n IH]; [simpl; lra|].
  rewrite S_INR. cbn [fsum]. rewrite IH. lra.
Qed.

Lemma fsum_S n f : fsum (S n) f = fsum n f + f n.
Proof. reflexivity. Qed.

Lemma fsum_shift n f : fsum (S n) f = f O + fsum n (fun i => f (S i)).
Proof.
  induction n as [|n IH]; [simpl; lra|].
  rewrite fsum_S, IH. simpl. lra.
Qed.

Lemma fsum_app n m f : fsum (n + m) f = fsum n f + fsum m (fun i => f (n + i)%nat).
Proof.
  induction m as [|m IH]; [rewrite Nat.add_0_r; simpl; lra|].
  rewrite Nat.add_succ_r. simpl. rewrite IH. lra.
Qed.

(** ** Vectors and matrices of explicit size *)
Definition vec := nat -> R.
Definition mat := nat -> nat -> R.

Definition dot (n : nat) (u v : vec) : R := fsum n (fun i => u i * v i).
Definition norm (n : nat) (u : vec) : R := sqrt (dot n u u).
Definition mvec (n : nat) (A : mat) (v : vec) : vec := fun i => fsum n (fun j => A i j * v j).
Definition mmul (n : nat) (A B : mat) : mat := fun i j => fsum n (fun k => A i k * B k j).
Definition mtrans (A : mat) : mat := fun i j => A j i.
Definition meye : mat := delta.

Definition veq (n : nat) (u v : vec) : Prop := forall i, (i < n)%nat -> u i = v i.
Definition meq (n : nat) (A B : mat) : Prop :=
  forall i j, (i < n)%nat -> (j < n)%nat -> A i j = B i j.

Lemma dot_comm n u v : dot n u v = dot n v u.
Proof. apply fsum_ext; intros; ring. Qed.

Lemma dot_ext n u v u' v' : veq n u u' -> veq n v v' -> dot n u v = dot n u' v'.
Proof. intros H1 H2. apply fsum_ext. intros i Hi. rewrite H1, H2 by assumption. reflexivity. Qed.

Lemma dot_self_nonneg n u : 0 <= dot n u u.
Proof. apply fsum_nonneg. intros i _. apply Rle_0_sqr. Qed.

Lemma dot_self_eq0 n u : dot n u u = 0 -> forall i, (i < n)%nat -> u i = 0.
Proof.
  intros H i Hi.
  assert (E : u i * u i = 0).
  { apply (fsum_pos_eq0 n (fun i => u i * u i)); auto. intros; apply Rle_0_sqr. }
  apply Rmult_integral in E. tauto.
Qed.

Lemma norm_nonneg n u : 0 <= norm n u.
Proof. apply sqrt_pos. Qed.

Lemma norm_sqr n u : norm n u * norm n u = dot n u u.
Proof. apply sqrt_sqrt, dot_self_nonneg. Qed.

Lemma norm_eq0 n u : norm n u = 0 <-> (forall i, (i < n)%nat -> u i = 0).
Proof.
  split.
  - intros H. apply dot_self_eq0. rewrite <- norm_sqr, H. ring.
  - intros H. unfold norm, dot. rewrite fsum_zero; [apply sqrt_0|]. intros i Hi. rewrite H by assumption. ring.
Qed.

Lemma norm_pos n u : norm n u <> 0 -> 0 < norm n u.
Proof. intros H. pose proof (norm_nonneg n u). lra. Qed.

Lemma mvec_ext n A v v' : veq n v v' -> forall i, mvec n A v i = mvec n A v' i.
Proof. intros H i. apply fsum_ext. intros j Hj. rewrite H by assumption. reflexivity. Qed.

Lemma mvec_mmul n A B v i : mvec n (mmul n A B) v i = mvec n A (mvec n B v) i.
Proof.
  unfold mvec, mmul.
  rewrite (fsum_ext n (fun j => fsum n (fun k => A i k * B k j) * v j)
             (fun j => fsum n (fun k => A i k * B k j * v j))).
  2:{ intros j _. rewrite fsum_scal_r. reflexivity. }
  rewrite fsum_swap. apply fsum_ext. intros k _.
  rewrite <- fsum_scal. apply fsum_ext. intros; ring.
Qed.

Lemma mvec_eye n v i : (i < n)%nat -> mvec n meye v i = v i.
Proof. intros Hi. apply fsum_delta. exact Hi. Qed.

Lemma mvec_meq n A B v i : meq n A B -> (i < n)%nat -> mvec n A v i = mvec n B v i.
Proof. intros H Hi. apply fsum_ext. intros j Hj. rewrite H by assumption. reflexivity. Qed.

Lemma mmul_assoc n A B C i j : mmul n (mmul n A B) C i j = mmul n A (mmul n B C) i j.
Proof.
  unfold mmul.
  rewrite (fsum_ext n (fun k => fsum n (fun k0 => A i k0 * B k0 k) * C k j)
             (fun k => fsum n (fun k0 => A i k0 * B k0 k * C k j))).
  2:{ intros k _. rewrite fsum_scal_r. reflexivity. }
  rewrite fsum_swap. apply fsum_ext. intros k _.
  rewrite <- fsum_scal. apply fsum_ext. intros; ring.
Qed.

Lemma mmul_eye_l n A i j : (i < n)%nat -> mmul n meye A i j = A i j.
Proof. intros Hi. unfold mmul, meye. apply (fsum_delta n i (fun k => A k j)). exact Hi. Qed.

Lemma mmul_eye_r n A i j : (j < n)%nat -> mmul n A meye i j = A i j.
Proof. intros Hi. unfold mmul, meye. apply (fsum_delta_r n j (fun k => A i k)). exact Hi. Qed.

Lemma mmul_meq n A A' B B' : meq n A A' -> meq n B B' -> meq n (mmul n A B) (mmul n A' B').
Proof.
  intros H1 H2 i j Hi Hj. apply fsum_ext. intros k Hk. rewrite H1, H2 by assumption. reflexivity.
Qed.

Lemma meq_refl n A : meq n A A.
Proof. intros i j _ _. reflexivity. Qed.
Lemma meq_sym n A B : meq n A B -> meq n B A.
Proof. intros H i j Hi Hj. symmetry. apply H; assumption. Qed.
Lemma meq_trans n A B C : meq n A B -> meq n B C -> meq n A C.
Proof. intros H1 H2 i j Hi Hj. rewrite H1, H2 by assumption. reflexivity. Qed.

Lemma mmul_trans n A B i j : mtrans (mmul n A B) i j = mmul n (mtrans B) (mtrans A) i j.
Proof. unfold mtrans, mmul. apply fsum_ext. intros; ring. Qed.

Lemma dot_mvec n A u v : dot n u (mvec n A v) = dot n (mvec n (mtrans A) u) v.
Proof.
  unfold dot, mvec, mtrans.
  rewrite (fsum_ext n (fun i => u i * fsum n (fun j => A i j * v j))
             (fun i => fsum n (fun j => u i * (A i j * v j)))).
  2:{ intros i _. rewrite fsum_scal. reflexivity. }
  rewrite fsum_swap. apply fsum_ext. intros j _.
  rewrite <- fsum_scal_r. apply fsum_ext. intros; ring.
Qed.

(** A list as a vector and back. *)
Definition vof (l : list R) : vec := fun i => nth i l 0.
Definition vlist (n : nat) (v : vec) : list R := map v (seq 0 n).

Lemma vlist_length n v : length (vlist n v) = n.
Proof. unfold vlist. rewrite map_length, seq_length. reflexivity. Qed.

Lemma vlist_nth n v i d : (i < n)%nat -> nth i (vlist n v) d = v i.
Proof.
  intros Hi. unfold vlist. rewrite (nth_indep _ d (v 0%nat)).
  - rewrite map_nth, seq_nth by assumption. reflexivity.
  - rewrite map_length, seq_length. exact Hi.
Qed.

Fixpoint lsum (l : list R) : R := match l with [] => 0 | x :: r => x + lsum r end.
Fixpoint lprod (l : list R) : R := match l with [] => 1 | x :: r => x * lprod r end.

Lemma lsum_app l1 l2 : lsum (l1 ++ l2) = lsum l1 + lsum l2.
Proof. induction l1 as [|x l IH]; simpl; [lra|]. rewrite IH. lra. Qed.

Lemma lprod_app l1 l2 : lprod (l1 ++ l2) = lprod l1 * lprod l2.
Proof. induction l1 as [|x l IH]; simpl; [lra|]. rewrite IH. lra. Qed.

Lemma lprod_pos l : (forall x, In x l -> 0 < x) -> 0 < lprod l.
Proof.
  induction l as [|x l IH]; simpl; intros H; [lra|].
  apply Rmult_lt_0_compat; [apply H; auto|apply IH; intros; apply H; auto].
Qed.

Lemma vec_zero_dec n (v : vec) :
  (exists i, (i < n)%nat /\ v i <> 0) \/ (forall i, (i < n)%nat -> v i = 0).
Proof.
  induction n as [|n IH].
  - right. intros i Hi. lia.
  - destruct IH as [[i [Hi Hv]]|H]; [left; exists i; split; [lia|exact Hv]|].
    destruct (Req_EM_T (v n) 0) as [E|E]; [|left; exists n; split; [lia|exact E]].
    right. intros i Hi. destruct (Nat.eq_dec i n) as [->|]; [exact E|apply H; lia].
Qed.
