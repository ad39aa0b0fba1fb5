(** Model of the estimator of CrudeMonteCarlo in double precision: /repo/src/pystra/mc.py 112-176 and
    the loop 273-336.  Definitions only.

    A double is a real number of the binary format with 53 digits and least exponent -1074; an operation
    of NumPy on doubles (product, difference, square root) is the exact one rounded to nearest, ties to
    even.  Overflow is not modelled (no value here exceeds 2^53).  The powers k ** (-1), q ** 2 and
    q ** (-1), which Python and NumPy leave to the C library's pow, are arguments.

    Crude sampling with standard deviation 1 and centre 0: the exponent -0.5 u.u + 0.5 u.u of line 130 is
    0 (the two scalar products are taken to be the same double), so the weights are 1 or 0 and sum_q and
    sum_q2 are the same whole number, which doubles hold exactly up to 2^53. *)
From Coquelicot Require Import Coquelicot.
From Flocq Require Import Core.
From Verif Require Import Base Ext Gauss StochModel LimitState Transf Form Sorm Mc.
From Coq Require Import ZArith.
Open Scope R_scope.

Definition fexp64 : Z -> Z := FLT_exp (-1074) 53.
(** rounding to nearest, ties to even *)
Definition rnd (x : R) : R := round radix2 fexp64 ZnearestE x.

Section Double.
  Variable recip : Z -> R.        (* k ** (-1) for an int k *)
  Variables sq inv : R -> R.      (* q ** 2, q ** (-1) for a double q *)

  (** 137-155: q_bar[k-1] and cov_q_bar[k-1]; None is NaN (the square root of a negative number) *)
  Definition fl_update (k : Z) (sum_q : R) : R * option R :=
    if Rltb 0 sum_q then
      let a := recip k in
      let q_bar := rnd (a * sum_q) in
      let var := rnd (a * rnd (rnd (a * sum_q) - sq (rnd (a * sum_q)))) in
      if Rltb var 0 then (q_bar, None)
      else
        let cov := rnd (rnd (sqrt var) * inv q_bar) in
        (q_bar, Some (if Reqb cov 0 then 1 else cov))
    else (0, Some 1).
End Double.

(** 137-155 in exact arithmetic, as in Mc.v *)
Definition ex_update (k : Z) (sum_q : R) : R * option R :=
  (fst (cov_update (IZR k) sum_q sum_q), Some (snd (cov_update (IZR k) sum_q sum_q))).

(** state of the loop: samples used, failures, q_bar[k-1], cov_q_bar[k-1] *)
Record cnt := mkcnt { cn_k : Z; cn_fails : R; cn_qbar : R; cn_cov : option R }.
Definition le_target (c : option R) (target : R) : bool := match c with Some c => Rleb c target | None => false end.
(** 112-116, 132: the failures among the samples k, ..., k + b - 1 *)
Definition block_fails (fails : nat -> bool) (k b : nat) : R := lsum (map (fun j => if fails j then 1 else 0) (seq k b)).

Section Loop.
  Variable upd : Z -> R -> R * option R.
  Variables (samples block : Z) (target : R).
  Variable fails : nat -> bool.      (* sample j lies in the failure domain *)

  (** 273-334; None: out of fuel *)
  Fixpoint cnt_loop (fuel : nat) (st : cnt) : option cnt :=
    match fuel with
    | O => None
    | S f =>
        if (cn_k st <? samples)%Z then
          let b := Z.min block (samples - cn_k st) in
          let k := (cn_k st + b)%Z in
          let s := cn_fails st + block_fails fails (Z.to_nat (cn_k st)) (Z.to_nat b) in
          let qc := upd k s in
          let st' := mkcnt k s (fst qc) (snd qc) in
          if le_target (snd qc) target then Some st' else cnt_loop f st'
        else Some st
    end.
  (** 270-336 with the initial values of 354-364 *)
  Definition cnt_run (fuel : nat) : option cnt := cnt_loop fuel (mkcnt 0 0 0 (Some 1)).
End Loop.

(** 164-176 *)
Definition cnt_Pf (st : cnt) : R := if Rltb 0 (cn_fails st) then cn_qbar st else 0.
Definition cnt_beta (st : cnt) : xnum := if Rltb 0 (cn_fails st) then xneg (xppf (Fin (cnt_Pf st))) else Fin 0.
