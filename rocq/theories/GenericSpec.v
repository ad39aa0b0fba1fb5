(** Specification vocabulary for the generic calibration; no pystra code here. *)
From Verif Require Import Base StochModel Generic.
Open Scope list_scope.
Open Scope R_scope.

(** the fourteen roles and the value a setter call gives to each of them *)
Inductive role := Phi_ | GammaG | GammaP | GammaQ | WR | WS | Res | Dead | Perm | Live | ResK | DeadK | PermK | LiveK.
Definition number_for (s : gset) (k : role) : option R :=
  match s, k with
  | SFactors phi _ _ _, Phi_ => Some phi | SFactors _ gg _ _, GammaG => Some gg | SFactors _ _ gp _, GammaP => Some gp | SFactors _ _ _ gq, GammaQ => Some gq
  | SNominals rk _ _ _, ResK => Some rk | SNominals _ gk _ _, DeadK => Some gk | SNominals _ _ pk _, PermK => Some pk | SNominals _ _ _ qk, LiveK => Some qk
  | SResist _ rk _, ResK => Some rk | SResist _ _ phi, Phi_ => Some phi
  | SDead _ gk _, DeadK => Some gk | SDead _ _ gg, GammaG => Some gg
  | SPerm _ pk _, PermK => Some pk | SPerm _ _ gp, GammaP => Some gp
  | SLive _ qk _, LiveK => Some qk | SLive _ _ gq, GammaQ => Some gq
  | _, _ => None
  end.
Definition object_for (s : gset) (k : role) : option obj :=
  match s, k with
  | SDists wR _ _ _ _ _, WR => Some wR | SDists _ wS _ _ _ _, WS => Some wS | SDists _ _ r _ _ _, Res => Some r
  | SDists _ _ _ g _ _, Dead => Some g | SDists _ _ _ _ p _, Perm => Some p | SDists _ _ _ _ _ q, Live => Some q
  | SErrors wR _, WR => Some wR | SErrors _ wS, WS => Some wS
  | SResist r _ _, Res => Some r | SDead g _ _, Dead => Some g | SPerm p _ _, Perm => Some p | SLive q _ _, Live => Some q
  | _, _ => None
  end.
(** the last value given to a role in a list of calls *)
Fixpoint latest {V} (f : gset -> role -> option V) (l : list gset) (k : role) : option V :=
  match l with
  | [] => None
  | s :: r => match latest f r k with Some v => Some v | None => f s k end
  end.

(** code design equation: factored resistance equals factored load *)
Definition code_equation (z aq ag phi gg gp gq rk gk pk qk : R) : Prop :=
  z * (phi * rk) = (1 - aq) * (ag * (gg * gk) + (1 - ag) * (gp * pk)) + aq * (gq * qk).

(** the position of the first entry with a given name *)
Fixpoint pos_of (n : string) (l : list string) : nat := match l with [] => 0 | x :: r => if string_dec n x then 0 else S (pos_of n r) end.

Definition six_roles : list string := ["wR"; "R"; "wS"; "G"; "P"; "Q"]%string.
