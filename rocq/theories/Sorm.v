(** Model of /repo/src/pystra/sorm.py.  Definitions only.
    (orthonormal_matrix and gram_schmidt are in GramSchmidt.v.) *)
From Coquelicot Require Import Coquelicot.
From Verif Require Import Base Ext Gauss StochModel LimitState Transf GramSchmidt.
From Coq Require Import ZArith.

(** numpy's [t ** (-0.5)]: NaN for negative t, inf at 0 *)
Definition pow_mhalf (t : R) : xnum :=
  if Rltb 0 t then Fin (/ sqrt t) else if Reqb t 0 then PInf else NaN.

(** StdNormal.ppf on a computed probability (distribution.py 54-68): scipy's
    erfinv returns NaN outside [-1, 1] *)
Definition xppf (p : xnum) : xnum :=
  match p with
  | Fin p =>
      if Rltb p 0 then NaN else if Rltb 1 p then NaN
      else match Phi_inv p with Finite x => Fin x | p_infty => PInf | m_infty => NInf end
  | _ => NaN
  end.

(** pf2, the generalised index, and whether the error message was printed *)
Record sorm_res := mksr { sr_pf : xnum; sr_beta : xnum; sr_msg : bool }.

(** pf_breitung, lines 346-361 (also the common body of pf_breitung_m,
    363-378, where the coefficient is psi).  [beta] is an array of one element,
    so -1/beta is -inf for beta = 0 and no curvature is below it. *)
Definition guard_cf (c : R) (kappa : list R) : bool :=
  if Reqb c 0 then false else existsb (fun k => Rltb k (-1 / c)) kappa.

Definition breitung_cf (beta c : R) (kappa : list R) : sorm_res :=
  if negb (guard_cf c kappa) then
    let pf := xmul (Fin (Phi (- beta))) (xprod (map (fun k => pow_mhalf (1 + c * k)) kappa)) in
    mksr pf (xneg (xppf pf)) false
  else mksr (Fin 0) (Fin 0) true.

Definition pf_breitung (beta : R) (kappa : list R) : sorm_res := breitung_cf beta beta kappa.

(** lines 371, 332 *)
Definition psi (beta : R) : R := phi beta / Phi (- beta).

Definition pf_breitung_m (beta : R) (kappa : list R) : sorm_res := breitung_cf beta (psi beta) kappa.

(** _pf_breitung_pf, lines 291-316, and _pf_breitung_m_pf, 318-344 (c = psi):
    [kappa_minus] and [kappa_plus] have the same length. *)
Definition breitung_pf (beta c : R) (km kp : list R) : sorm_res :=
  let tp := map (fun k => 1 + c * k) kp in
  let tm := map (fun k => 1 + c * k) km in
  let invalid := existsb (fun t => Rleb t 0) tp || existsb (fun t => Rleb t 0) tm in
  if negb invalid then
    let pf := Phi (- beta) *
      lprod (map (fun t => 1 / 2 * (/ sqrt (fst t) + / sqrt (snd t))) (combine tp tm)) in
    mksr (Fin pf) (xneg (xppf (Fin pf))) false
  else mksr (Fin 0) (Fin 0) true.

Definition pf_breitung_pf (beta : R) (km kp : list R) : sorm_res := breitung_pf beta beta km kp.
Definition pf_breitung_m_pf (beta : R) (km kp : list R) : sorm_res := breitung_pf beta (psi beta) km kp.

(** run_pointfit lines 177-183: the step coefficient *)
Definition step_coeff (beta : R) : R :=
  let ab := Rabs beta in
  if Rltb ab 1 then 1 / ab else if Rleb ab 3 then 1 else 3 / ab.

(** _find_fitting_point, lines 205-289.  [ev u] stands for the evaluation at
    the physical image of u: limit state value and gradient in u-space
    (evaluateLSF, which may raise).  The list collects the points evaluated. *)
Definition newton_out := (result vec * list vec)%type.

Fixpoint fit_loop (max_iter n : nat) (R1 : mat) (ev : vec -> result (R * vec)) (tol : R)
    (up : vec) (trace : list vec) : newton_out :=
  match max_iter with
  | O => (Err ERuntime, trace)                                   (* 274-278, for-else *)
  | S m =>
      let u := mvec n (mtrans R1) up in                          (* 252 *)
      match ev u with
      | Err e => (Err e, trace ++ [u])
      | Ok (G, grad_u) =>
          if Rltb (Rabs G) tol then (Ok up, trace ++ [u])         (* 262-263 *)
          else
            let gn := mvec n R1 grad_u (n - 1)%nat in             (* 266 *)
            if Rltb (Rabs gn) (1 / 1000000000000)                 (* 269-274 *)
            then (Err ERuntime, trace ++ [u])
            else fit_loop m n R1 ev tol
                   (fun a => if Nat.eqb a (n - 1) then up a - G / gn else up a)   (* 275 *)
                   (trace ++ [u])
      end
  end.

Definition find_fitting_point (n : nat) (R1 : mat) (ev : vec -> result (R * vec))
    (axis : nat) (sign beta k : R) (max_iter : nat) (tol : R) : result R * list vec :=
  let up0 : vec := fun a => if Nat.eqb a (n - 1) then beta
                            else if Nat.eqb a axis then sign * k * beta else 0 in   (* 244-246 *)
  match fit_loop max_iter n R1 ev tol up0 [] with
  | (Err e, tr) => (Err e, tr)
  | (Ok up, tr) =>
      let ui := up axis in let un := up (n - 1)%nat in
      if Rltb (Rabs ui) (1 / 1000000000000) then (Ok 0, tr)
      else (Ok (2 * (un - beta) / (ui * ui)), tr)
  end.

(** evaluateLSF(x, calc_gradient=True), lines 553-578, at one point x.  The
    local copy x0 is passed to evaluate_lsf, which may change it in place; the
    changed copy is then used for x_to_u and the Jacobian. *)
Definition sorm_evaluateLSF (fuel : nat) (s : smodel) (expr : expression) (o : lsopts)
    (n : nat) (T invT : mat) (inv : nat -> mat -> result mat) (m : nat -> rv)
    (x : list R) : result (R * vec) :=
  let r := evaluate_lsf fuel s expr o None n [x] in
  match ev_out r with
  | ODone G grad =>
      let x0 := vof (nth 0 (ev_x r) []) in
      let u := x_to_u n T m x0 in
      rbind (inv n (jacobian n T invT m u x0)) (fun J =>
        Ok (nth 0 G 0, pull_gradient n (vof (nth 0 grad [])) J))
  | ORaise e => Err e
  | OFuel => Err ERuntime
  end.

(** computeHessian with diff_type=None, lines 482-496; [eg u] is the gradient
    returned by evaluateLSF at the physical image of u; [h] = 1/ffdpara. *)
Definition hess_grad (n : nat) (eg : vec -> vec) (h : R) (u0 : vec) : mat :=
  let g0 := eg u0 in
  fun a i => (eg (fun b => if Nat.eqb b i then u0 b + h else u0 b) a - g0 a) / h.

(** run_curvefit line 136: A = R1 H R1' / ||grad||, and 137: A[:-1, :-1] *)
Definition curvature_matrix (n : nat) (R1 H : mat) (grad : vec) : mat :=
  fun i j => mmul n (mmul n R1 H) (mtrans R1) i j / norm n grad.

(** computeHessian with a diff_type, lines 498-534: the points evaluated, as
    columns plus(0..n-1), minus(0..n-1), both(idx) with idx = (i-1)i/2 + j. *)
Definition both_idx (i j : nat) : nat := ((i - 1) * i / 2 + j)%nat.

Definition u_plus (h : R) (u0 : vec) (i : nat) : vec := fun b => if Nat.eqb b i then u0 b + h else u0 b.
Definition u_minus (h : R) (u0 : vec) (i : nat) : vec := fun b => if Nat.eqb b i then u0 b - h else u0 b.

(** the mixed columns: zeros, then one assignment per pair j < i, in order *)
Definition both_cols (n : nat) (h : R) (u0 : vec) (tox : vec -> list R) : list (list R) :=
  fold_left (fun cols ij => let '(i, j) := ij in
      firstn (both_idx i j) cols ++ tox (u_plus h (u_plus h u0 i) j) :: skipn (S (both_idx i j)) cols)
    (flat_map (fun i => map (fun j => (i, j)) (seq 0 i)) (seq 0 n))
    (repeat (repeat 0 n) (n * (n - 1) / 2)%nat).

Definition mixed_points (n : nat) (h : R) (u0 : vec) (tox : vec -> list R) : list (list R) :=
  map (fun i => tox (u_plus h u0 i)) (seq 0 n) ++
  map (fun i => tox (u_minus h u0 i)) (seq 0 n) ++
  both_cols n h u0 tox.

(** lines 532-549; G is form.G *)
Definition hess_mixed (fuel : nat) (s : smodel) (expr : expression) (o : lsopts)
    (n : nat) (h : R) (u0 : vec) (tox : vec -> list R) (G : R) : result mat :=
  match ev_out (evaluate_lsf fuel s expr o None n (mixed_points n h u0 tox)) with
  | ODone all_G _ =>
      let gp := fun i => nth i all_G 0 in
      let gm := fun i => nth (n + i) all_G 0 in
      let gb := fun k => nth (2 * n + k) all_G 0 in
      let low := fun i j => (gb (both_idx i j) - gp j - gp i + G) / (h * h) in
      Ok (fun i j => if Nat.eqb i j then (gp i - 2 * G + gm i) / (h * h)
                     else if Nat.ltb j i then low i j else low j i)
  | ORaise e => Err e
  | OFuel => Err ERuntime
  end.

(** [self.form.alpha.shape[1] - 1] axes; run (99-128) dispatches on fit_type *)
Definition sorm_dispatch {A} (fit_type : string) (cf pf : result A) : result A :=
  if String.eqb fit_type "cf" then cf
  else if String.eqb fit_type "pf" then pf
  else Err EValue.
