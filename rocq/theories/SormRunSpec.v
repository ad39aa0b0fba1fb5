(** Specification vocabulary for C98. *)
From Coquelicot Require Import Coquelicot.
From Verif Require Import Base StochModel LimitState TransfSpec.
From Coq Require Import Permutation.

(** np.linalg.eig on m x m symmetric matrices: the m eigenvalues with their multiplicities, i.e. the
    diagonal of A in some orthonormal basis V 0, ..., V (m-1) of eigenvectors *)
Definition eig_contract (m : nat) (eig : nat -> mat -> result (list R)) : Prop :=
  forall A, symmetric m A -> exists l (V : nat -> vec), eig m A = Ok l /\ length l = m /\
    (forall i j, (i < m)%nat -> (j < m)%nat -> dot m (V i) (V j) = delta i j) /\
    forall k i, (k < m)%nat -> (i < m)%nat -> mvec m A (V k) i = nth k l 0 * V k i.
(** np.sort: a permutation in ascending order *)
Definition ascending (l : list R) : Prop := forall i j, (i <= j)%nat -> (j < length l)%nat -> nth i l 0 <= nth j l 0.
Definition sort_contract (sort : list R -> list R) : Prop := forall l, Permutation (sort l) l /\ ascending (sort l).

(** np.linalg.cholesky: L lower triangular with a positive diagonal and L L^T = C *)
Definition lower_factor (n : nat) (L C : mat) : Prop :=
  (forall i j, (i < j < n)%nat -> L i j = 0) /\ (forall i, (i < n)%nat -> 0 < L i i) /\
  (forall i j, (i < n)%nat -> (j < n)%nat -> fsum n (fun k => L i k * L j k) = C i j).

(** The stored SORM results are the FORM results: zero curvatures, and both formulas give beta. *)
From Verif Require Import Ext Gauss Valid.
Definition agrees_with_form (st : sorm) (m : nat) (beta : R) : Prop :=
  so_kappa st = Some (repeat 0 m) /\
  so_pf st = SArr (Fin (Phi (- beta))) /\ so_bg st = SArr (Fin beta) /\
  so_pfm st = SArr (Fin (Phi (- beta))) /\ so_bgm st = SArr (Fin beta).
