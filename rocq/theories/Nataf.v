(** Model of /repo/src/pystra/integration.py and /repo/src/pystra/correlation.py
    (65-168): the Nataf correlation integral, its derivatives and the modified
    correlation matrix.  Definitions only.

    Simplifications: exact real arithmetic; a NumPy [k x k] array is a function of
    two indices; [scipy.optimize.fmin] is an oracle taking the objective and the
    starting value. *)
From Coquelicot Require Import Coquelicot.
From Verif Require Import Base Quad Chol.
Open Scope R_scope.

(** What the Nataf code reads off a Distribution (distribution.py 100-524):
    mean, stdv, u_to_x, pdf, dF_dtheta(x)[param] and _dmoments_dtheta(param). *)
Record marg := mkMarg {
  mg_mean : R; mg_stdv : R;
  mg_u2x : R -> R;
  mg_pdf : R -> R;
  mg_dF : string -> R -> R;
  mg_dmom : string -> R * R
}.

(** The tuple (Z1, Z2, X1, X2, WIP, detJ) passed around, with its size. *)
Record grid := mkGrid { g_k : nat; g_Z1 : mat; g_Z2 : mat; g_X1 : mat; g_X2 : mat; g_W : mat; g_detJ : R }.

(** [np.sum] of a k x k array *)
Definition sum2 (k : nat) (f : nat -> nat -> R) : R := fsum k (fun a => fsum k (fun b => f a b)).

(** integration.py 47-55: the density as written inside rho_integral *)
Definition ri_PHI2 (rho0 z1 z2 : R) : R :=
  1 * / (2 * PI * sqrt (1 - rho0^2)) *
  exp (-1 * / (2 * (1 - rho0^2)) * (z1^2 - 2 * rho0 * z1 * z2 + z2^2)).

(** integration.py 17-65 *)
Definition rho_integral (rho0 : R) (mi mj : marg) (g : grid) : R :=
  sum2 (g_k g) (fun a b =>
    ((g_X1 g a b - mg_mean mi) / mg_stdv mi) * ((g_X2 g a b - mg_mean mj) / mg_stdv mj)
    * ri_PHI2 rho0 (g_Z1 g a b) (g_Z2 g a b) * g_detJ g * g_W g a b).

(** integration.py 68-128.  [z1] and [z2] are the same vector; the meshgrids are
    outer products with a vector of ones. *)
Definition zx_z (zmax : R) (nIP : nat) (a : nat) : R :=
  let zmin := - zmax in
  zmin * 1 + (zmax - zmin) * (nth a (fst (quadratureRule nIP)) 0 + 1) / 2.
Definition zi_and_xi (mi mj : marg) (zmax : R) (nIP : nat) : grid :=
  let zmin := - zmax in
  let detJ := (zmax - zmin)^2 * / 4 in
  let wIP a := nth a (snd (quadratureRule nIP)) 0 in
  let z1 := zx_z zmax nIP in
  let z2 := z1 in
  let x1 a := mg_u2x mi (z1 a) in
  let x2 a := mg_u2x mj (z2 a) in
  mkGrid nIP (fun a _ => z1 a) (fun _ b => z2 b) (fun a _ => x1 a) (fun _ b => x2 b)
         (fun a b => wIP a * wIP b) detJ.

(** integration.py 131-148 *)
Definition phi2 (z1 z2 rho0 : R) : R :=
  let c := 1 - rho0^2 in
  let Q := z1^2 - 2 * rho0 * z1 * z2 + z2^2 in
  / (2 * PI * sqrt c) * exp (- Q / (2 * c)).

(** integration.py 151-170 *)
Definition dphi2_drho0 (z1 z2 rho0 PHI2 : R) : R :=
  let c := 1 - rho0^2 in
  let numer := rho0 * c + z1 * z2 * (1 + rho0^2) - rho0 * (z1^2 + z2^2) in
  PHI2 * numer / c^2.

(** integration.py 173-200 *)
Definition drho_drho0 (rho0 : R) (mi mj : marg) (g : grid) : R :=
  sum2 (g_k g) (fun a b =>
    let PHI2 := phi2 (g_Z1 g a b) (g_Z2 g a b) rho0 in
    let dPHI2 := dphi2_drho0 (g_Z1 g a b) (g_Z2 g a b) rho0 PHI2 in
    let H := ((g_X1 g a b - mg_mean mi) / mg_stdv mi) * ((g_X2 g a b - mg_mean mj) / mg_stdv mj) in
    H * dPHI2 * g_detJ g * g_W g a b).

(** the literal 1e-300 (integration.py 268, sensitivity.py 262, 288) *)
Definition tiny : R := / 10 ^ 300.

(** integration.py 203-286; [vi = 0]: the parameter belongs to margi, else margj *)
Definition drho0_dtheta (rho0 : R) (mi mj : marg) (g : grid) (vi : nat) (param : string) : R :=
  let dist := if Nat.eqb vi 0 then mi else mj in
  let X := if Nat.eqb vi 0 then g_X1 g else g_X2 g in
  let Hi a b := (g_X1 g a b - mg_mean mi) / mg_stdv mi in
  let Hj a b := (g_X2 g a b - mg_mean mj) / mg_stdv mj in
  let Hthis := if Nat.eqb vi 0 then Hi else Hj in
  let Hother := if Nat.eqb vi 0 then Hj else Hi in
  let sigma := mg_stdv dist in
  let dmu := fst (mg_dmom dist param) in
  let dsig := snd (mg_dmom dist param) in
  let dh a b :=
    let dX := - mg_dF dist param (X a b) / Rmax (mg_pdf dist (X a b)) tiny in
    ((dX - dmu) / sigma - Hthis a b * dsig / sigma) * Hother a b in
  let PHI2 a b := phi2 (g_Z1 g a b) (g_Z2 g a b) rho0 in
  let numer := sum2 (g_k g) (fun a b => dh a b * PHI2 a b * g_detJ g * g_W g a b) in
  let denom := sum2 (g_k g) (fun a b =>
     Hi a b * Hj a b * dphi2_drho0 (g_Z1 g a b) (g_Z2 g a b) rho0 (PHI2 a b) * g_detJ g * g_W g a b) in
  - numer / denom.

(** correlation.py 104-115: number of quadrature points *)
Definition nIP_correlation (rho : R) : nat :=
  if Rltb (9995/10000) (Rabs rho) then 1024
  else if Rltb (998/1000) (Rabs rho) then 512
  else if Rltb (992/1000) (Rabs rho) then 256
  else if Rltb (97/100) (Rabs rho) then 128
  else if Rltb (9/10) (Rabs rho) then 64
  else 32.

(** sensitivity.py 369-385: the second copy of the table *)
Definition nIP_sensitivity (rho : R) : nat :=
  let rho_abs := Rabs rho in
  if Rltb (9995/10000) rho_abs then 1024
  else if Rltb (998/1000) rho_abs then 512
  else if Rltb (992/1000) rho_abs then 256
  else if Rltb (97/100) rho_abs then 128
  else if Rltb (9/10) rho_abs then 64
  else 32.

(** correlation.py 141-166 *)
Definition absoluteIntegralValue (rho0 rho_target : R) (mi mj : marg) (g : grid) : R :=
  Rabs (rho_target - rho_integral rho0 mi mj g).

Section Modified.
(** [scipy.optimize.fmin(objective, start)[0]] *)
Variable fmin : (R -> R) -> R -> R.

(** State of the double loop: the matrix and the pairs (i,j) for which fmin ran. *)
Definition mc_state := (mat * list (nat * nat))%type.

(** correlation.py 96-131, the body for one pair.  [n] is the number of rows of
    R: reading R[i][j] beyond it is an IndexError. *)
Definition mod_pair (n : nat) (R : mat) (mg : nat -> marg) (i j : nat) (s : result mc_state) : result mc_state :=
  match s with
  | Err e => Err e
  | Ok (Ro, log) =>
      if Nat.ltb i n && Nat.ltb j n then
        let rho := R i j in
        if Reqb rho 0 then Ok (mupd Ro i j 0, log)
        else
          let g := zi_and_xi (mg i) (mg j) 6 (nIP_correlation rho) in
          Ok (mupd Ro i j (fmin (fun r => absoluteIntegralValue r rho (mg i) (mg j) g) rho), log ++ [(i, j)])
      else Err EIndex
  end.

(** [np.tril(A, -1)] *)
Definition tril_strict (A : mat) : mat := fun i j => if Nat.ltb j i then A i j else 0.

(** correlation.py 65-138; [nvr = len(marg)], R is n x n.  Returns the matrix and
    the log of solver calls. *)
Definition computeModifiedCorrelationMatrix (nvr n : nat) (R : mat) (mg : nat -> marg) : result mc_state :=
  match fold_left (fun s i => fold_left (fun s j => mod_pair n R mg i j s) (seq 0 i) s)
                  (seq 0 nvr) (Ok (meye, [])) with
  | Err e => Err e
  | Ok (Ro, log) => Ok ((fun i j => Ro i j + tril_strict Ro j i), log)
  end.
End Modified.

(** The grid with its X1 (resp. X2) array replaced (used to follow a parameter). *)
Definition with_X1 (g : grid) (X : mat) : grid := mkGrid (g_k g) (g_Z1 g) (g_Z2 g) X (g_X2 g) (g_W g) (g_detJ g).
Definition with_X2 (g : grid) (X : mat) : grid := mkGrid (g_k g) (g_Z1 g) (g_Z2 g) (g_X1 g) X (g_W g) (g_detJ g).
