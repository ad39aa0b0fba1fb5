(** Specification vocabulary for C100. *)
From Coquelicot Require Import Coquelicot.
From Verif Require Import Base Ext Gauss StochModel LimitState Transf Form Pipe Ls LsRun.

(** scipy's brentq with xtol = eps and at most m function calls: given a continuous function whose
    values at the ends have opposite signs it returns a number within eps of a root between them. *)
Definition brentq_contract (eps : R) (m : nat) (brentq : (R -> option R) -> R -> R -> option R * list R) : Prop :=
  forall f h lo hi, lo <= hi -> (forall c, f c = Some (h c)) -> (forall c, continuity_pt h c) -> h lo * h hi <= 0 ->
    (exists c r, fst (brentq f lo hi) = Some c /\ lo <= r <= hi /\ h r = 0 /\ Rabs (c - r) <= eps) /\
    (length (snd (brentq f lo hi)) <= m)%nat.

(** the reported Pf and beta are those of the index b up to eps *)
Definition estimates (a : lobj) (b eps : R) : Prop :=
  exists r Pf beta, lo_res a = Some r /\ lres_Pf r = Fin Pf /\ lres_beta r = Fin beta /\
    Phi (- b - eps) <= Pf <= Phi (- b + eps) /\ Rabs (beta - b) <= eps.

(** the limit-state function at the physical image of u (None: it raises) *)
Definition line_value (lf : nat) (expr : expression) (fo : form_opts) (s : smodel) (n : nat) (A : mat) (u : vec) : option R :=
  match ev_out (evaluate_lsf lf s expr (fo_ls fo) (Some "no"%string) n [vlist n (u_to_x n A (marg_at s) u)]) with ODone G _ => Some (nth 0 G 0) | _ => None end.
