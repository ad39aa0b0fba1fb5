(** Model of [LineSampling] (/repo/src/pystra/ls.py).  Definitions only.
    A limit-state value is [Some g] (a finite real) or [None] (NaN, or the
    evaluation raised: line 176 turns the exception into NaN).  Infinite values
    are not modelled. *)
From Coquelicot Require Import Coquelicot.
From Verif Require Import Base Ext Gauss StochModel LimitState Transf Form Sorm.
From Coq Require Import ZArith.

(** 109-110: u_perp = u - alpha (alpha^T u) *)
Definition foot (n : nat) (alpha u : vec) : vec := fun i => u i - alpha i * dot n alpha u.
(** 146: the point of the line with parameter c *)
Definition line_pt (v alpha : vec) (c : R) : vec := fun i => v i + c * alpha i.

(** 165-167 *)
Definition n_scan : nat := 40.
Definition c_max (c_init : R) : R := Rmax (Rabs c_init * 3 + 5) 15.
Definition c_scan (c_init : R) (j : nat) : R :=
  - c_max c_init + INR j * (2 * c_max c_init / INR (n_scan - 1)).

(** 178-192: the loop over the n_scan - 1 intervals; [found] is the fallback
    bracket recorded so far *)
Fixpoint find_bracket (k j : nat) (g : nat -> option R) (found : option nat) : option nat :=
  match k with
  | O => found
  | S k' =>
      match g j, g (S j) with
      | Some g1, Some g2 =>
          if Rleb (g1 * g2) 0 then
            if Rltb 0 g1 && Rleb g2 0 then Some j            (* 184-187: take it and break *)
            else find_bracket k' (S j) g (match found with None => Some j | Some f => Some f end)
          else find_bracket k' (S j) g found
      | _, _ => find_bracket k' (S j) g found
      end
  end.
Definition bracket (g : nat -> option R) : option nat := find_bracket (n_scan - 1) 0 g None.

(** 196: the first value that is not NaN *)
Fixpoint first_valid (k j : nat) (g : nat -> option R) : option R :=
  match k with
  | O => None
  | S k' => match g j with Some v => Some v | None => first_valid k' (S j) g end
  end.

(** 156-207; [brentq f lo hi] is scipy's root finder (None: it raised) *)
Definition find_line_intersection (ev : vec -> option R) (brentq : (R -> option R) -> R -> R -> option R)
    (v alpha : vec) (c_init : R) : R :=
  let g := fun j => ev (line_pt v alpha (c_scan c_init j)) in
  match bracket g with
  | None =>
      match first_valid n_scan 0 g with
      | Some g0 => if Rltb g0 0 then c_scan c_init 0 else c_scan c_init (n_scan - 1)
      | None => c_scan c_init (n_scan - 1)
      end
  | Some j =>
      let lo := c_scan c_init j in let hi := c_scan c_init (S j) in
      match brentq (fun c => ev (line_pt v alpha c)) (Rmin lo hi) (Rmax lo hi) with
      | Some c => c
      | None => 1 / 2 * (lo + hi)
      end
  end.

Record ls_res := mkls {
  ls_c : list R;            (* c_values (local) *)
  ls_contribs : list R;
  ls_Pf : R;
  ls_beta : xnum;
  ls_cov : xnum
}.

(** np.std *)
Definition np_std (l : list R) : R :=
  let m := lsum l / INR (length l) in
  sqrt (lsum (map (fun x => (x - m) ^ 2) l) / INR (length l)).

(** 102-136 after the FORM run; column j of randn(n, N) *)
Definition ls_run (n N : nat) (randn : nat -> R) (ev : vec -> option R) (brentq : (R -> option R) -> R -> R -> option R)
    (alpha : vec) (beta_form : R) : ls_res :=
  let cs := map (fun j => find_line_intersection ev brentq (foot n alpha (fun i => randn (i * N + j)%nat)) alpha beta_form) (seq 0 N) in
  let contribs := map (fun c => Phi (- c)) cs in
  let Pf := lsum contribs / INR N in
  if Rltb 0 Pf && Rltb Pf 1 then
    mkls cs contribs Pf (xneg (xppf (Fin Pf))) (Fin (np_std contribs / (sqrt (INR N) * Pf)))
  else if Rleb Pf 0 then mkls cs contribs Pf PInf PInf
  else mkls cs contribs Pf NInf PInf.
