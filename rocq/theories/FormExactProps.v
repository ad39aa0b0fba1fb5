(** Property theorem C24 (continued): automatic steps from the origin. *)
From Coquelicot Require Import Coquelicot.
From Verif Require Import Base Ext Gauss GaussProofs StochModel LimitState Transf TransfSpec TransfProofs Form FormProofs FormAffineProofs FormExactProofs FormProps.
From Coq Require Import ZArith Lra Lia.

(** C24: automatic steps from the origin are exact on affine limit states: no iterate meets the
    stopping criterion before a full step has been accepted.  Holds for every criterion e1 <= 1/3
    (default 0.001) and every i_max above 15 (default 100); if the origin is on the surface the run
    uses all i_max iterations. *)
Theorem C24_automatic_exact_from_origin : forall n o ev trial evn a b,
  norm n a <> 0 -> affine_ev n a b ev -> affine_trial n a b trial ->
  fo_step o = 0 -> o_multi_proc (fo_ls o) = 1%Z -> 0 < fo_e1 o <= 1 / 3 -> 0 < fo_e2 o -> (15 < fo_imax o)%Z ->
  forall fuel u0, (Z.to_nat (fo_imax o) < fuel)%nat -> veq n u0 (fun _ => 0) ->
  exists r c, form_run n o ev trial evn fuel u0 = (FDone r, c) /\ fr_G r = 0 /\ form_beta n r = Fin (b / norm n a) /\
    (exists u', fr_u r = Some u' /\ veq n u' (fun i => b / (norm n a * norm n a) * a i)) /\ (b <> 0 -> (fr_i r <= 15)%Z).
Proof. intros n o ev trial evn a b Ha He Ht HS HM H1 H2 Hi fuel u0 Hf Hu. apply auto_exact; assumption. Qed.
Print Assumptions C24_automatic_exact_from_origin.

(** the same run as in C24_auto_example: the result is 3 exactly *)
Example C24_auto_exact_example : exists r c, form_run 2 (exOpt 100 0) exEv exTrial None 101 (fun _ => 0) = (FDone r, c) /\
  form_beta 2 r = Fin 3 /\ (fr_i r <= 15)%Z.
Proof.
  destruct (C24_automatic_exact_from_origin 2 (exOpt 100 0) exEv exTrial None exA 3) with (fuel := 101%nat) (u0 := fun _ : nat => 0) as (r & c & E & _ & EB & _ & EI).
  - rewrite exA_norm. lra.
  - exact exEv_affine.
  - exact exTrial_affine.
  - reflexivity.
  - reflexivity.
  - simpl; lra.
  - simpl; lra.
  - simpl; lia.
  - simpl. lia.
  - intros i _. reflexivity.
  - exists r, c. split; [exact E|]. rewrite exA_norm in EB. replace (3 / 1) with 3 in EB by field. split; [exact EB|apply EI; lra].
Qed.
