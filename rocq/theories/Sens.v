(** Model of /repo/src/pystra/sensitivity.py (SensitivityAnalysis).  Definitions only. *)
From Coquelicot Require Import Coquelicot.
From Verif Require Import Base StochModel Transf Chol Gauss Quad Nataf.
Open Scope R_scope.

(** ** Finite differences (141-188) *)
Section Num.
(** A Distribution as this code uses it: [sensitivity_params]
    (distribution.py 365-388), [_make_copy(param=value)] (390-422, may raise) and
    [stdv]. *)
Variable D : Type.
Variable sparams : D -> list (string * R).
Variable make_copy : D -> string -> R -> result D.
Variable stdv : D -> R.
(** analysis options (opaque here) *)
Variable opts : Type.

(** A StochasticModel (model.py 17-28). *)
Record pmodel := mkpm {
  pm_vars : list (string * D);
  pm_marg : list D;
  pm_corr : option (list (list R));
  pm_Ro : option (list (list R));
  pm_calls : nat;
  pm_consts : list (string * R)
}.

(** [Form(stochastic_model=m, limit_state, analysis_options=o).run(); getBeta()]:
    beta or an exception, and the model object after the run (a run stores the
    modified correlation and counts calls). *)
Variable form_beta : option opts -> pmodel -> result R.
Variable form_after : option opts -> pmodel -> pmodel.

(** [list.index] *)
Fixpoint index_of (k : string) (l : list string) : option nat :=
  match l with
  | [] => None
  | x :: r => if String.eqb k x then Some O else option_map S (index_of k r)
  end.

(** [l[i] = v] *)
Fixpoint list_set {A} (l : list A) (i : nat) (v : A) : list A :=
  match l, i with
  | [], _ => []
  | _ :: r, O => v :: r
  | x :: r, S i' => x :: list_set r i' v
  end.

(** sensitivity.py 171-177 on the deep copy *)
Definition replace_dist (m : pmodel) (name : string) (d : D) : result pmodel :=
  match index_of name (map fst (pm_vars m)) with
  | None => Err EValue
  | Some i =>
      if Nat.ltb i (length (pm_marg m)) then
        Ok (mkpm (dict_set (pm_vars m) name d) (list_set (pm_marg m) i d)
                 (pm_corr m) (pm_Ro m) (pm_calls m) (pm_consts m))
      else Err EIndex
  end.

(** sensitivity.py 164-187, one parameter; [m] is self.model (deep-copied, so it is
    not changed by the perturbed run) *)
Definition fd_one (delta beta0 : R) (m : pmodel) (name param : string) (val : R) : result R :=
  match dict_get (pm_vars m) name with
  | None => Err EKey
  | Some dist1 =>
      let h := delta * stdv dist1 in
      rbind (make_copy dist1 param (val + h)) (fun new_dist =>
      rbind (replace_dist m name new_dist) (fun model1 =>
      match dict_get (sparams new_dist) param with
      | None => Err EKey
      | Some v1 =>
          let delta_actual := v1 - val in
          rbind (form_beta None model1) (fun beta1 =>
          Ok ((beta1 - beta0) / delta_actual))
      end))
  end.

Definition sdict := list (string * list (string * R)).

(** [sensitivities[name][param] = v] *)
Definition sset (s : sdict) (name param : string) (v : R) : result sdict :=
  match dict_get s name with
  | None => Err EKey
  | Some row => Ok (dict_set s name (dict_set row param v))
  end.

(** sensitivity.py 150-156: the initial zero-filled result *)
Definition sens_init (m : pmodel) : sdict :=
  map (fun nd => (fst nd, map (fun pv => (fst pv, 0)) (sparams (snd nd)))) (pm_vars m).

(** the (name, param, val) triples visited by the double loop 163-165 *)
Definition sens_todo (m : pmodel) : list (string * (string * R)) :=
  flat_map (fun nd => map (fun pv => (fst nd, pv)) (sparams (snd nd))) (pm_vars m).

(** sensitivity.py 163-187 *)
Fixpoint fd_loop (delta beta0 : R) (m : pmodel) (todo : list (string * (string * R))) (s : sdict) : result sdict :=
  match todo with
  | [] => Ok s
  | (name, (param, val)) :: r =>
      rbind (fd_one delta beta0 m name param val) (fun v =>
      rbind (sset s name param v) (fun s' => fd_loop delta beta0 m r s'))
  end.

(** sensitivity.py 141-188: result and self.model afterwards.  [o] is
    self.options: this method does not pass it on. *)
Definition numerical_sens (o : opts) (delta : R) (m : pmodel) : result sdict * pmodel :=
  let m1 := form_after None m in
  (rbind (form_beta None m) (fun beta0 => fd_loop delta beta0 m1 (sens_todo m) (sens_init m)), m1).
End Num.

(** ** Closed form (193-367) *)
Section Cf.
(** what is read off the FORM run and the model (209-231) *)
Variable n : nat.                 (* nrv = len(marg) *)
Variables alpha u_star x_star : vec.
Variable mg : nat -> marg.
Variables Rphys Ro : mat.
Variables L0 L0_inv : mat.        (* form.transform.inv_T and form.transform.T *)
Variable np_inv : mat -> mat.     (* np.linalg.inv inside dinvL0_dtheta *)

(** 237-247: quad_grids, indexed by pairs (i,j) with i > j; see [cf_grid] below *)
Variable gr : nat -> nat -> grid.

(** 226 *)
Definition z_star : vec := mvec n L0 u_star.

(** 253-262 *)
Definition dz_dtheta (k : nat) (param : string) : vec :=
  fun i => if Nat.eqb i k then
             (if Rltb tiny (phi (z_star k)) then mg_dF (mg k) param (x_star k) / phi (z_star k) else 0)
           else 0.

(** 336-365, the body of the loop of _compute_dR0_dtheta for the pair (i,j) *)
Definition dR0_pair (k : nat) (param : string) (i j : nat) (dR0 : mat) : mat :=
  if negb (Nat.eqb k i) && negb (Nat.eqb k j) then dR0
  else if Rltb (Rabs (Ro i j - Rphys i j)) (/ 10 ^ 12) && Rltb (Rabs (Rphys i j)) (/ 10 ^ 12) then dR0
  else
    let vi := if Nat.eqb k i then 0%nat else 1%nat in
    let val := drho0_dtheta (Ro i j) (mg i) (mg j) (gr i j) vi param in
    mupd (mupd dR0 i j val) j i val.

(** 311-367 *)
Definition compute_dR0_dtheta (k : nat) (param : string) : mat :=
  fold_left (fun m i => fold_left (fun m j => dR0_pair k param i j m) (seq 0 i) m) (seq 0 n) (fun _ _ => 0).

(** 264-279 for variable k: term1 + term2 *)
Definition cf_dLinv (dR0 : mat) : mat :=
  dinvL0_dtheta n (np_inv L0) (snd (cholesky_with_derivative n Ro dR0)).
Definition marginal_sens (k : nat) (param : string) : R :=
  let term1 := dot n alpha (mvec n L0_inv (dz_dtheta k param)) in
  let term2 := dot n alpha (mvec n (cf_dLinv (compute_dR0_dtheta k param)) z_star) in
  term1 + term2.

(** 290-292 *)
Definition drho0_drho (i j : nat) : R :=
  let drho_val := drho_drho0 (Ro i j) (mg i) (mg j) (gr i j) in
  if Rltb tiny (Rabs drho_val) then 1 / drho_val else 0.

(** 294-303 *)
Definition dR0_corr (i j : nat) : mat :=
  mupd (mupd (fun _ _ => 0) i j (drho0_drho i j)) j i (drho0_drho i j).
Definition corr_entry (i j : nat) : R := dot n alpha (mvec n (cf_dLinv (dR0_corr i j)) z_star).

(** 284-306 *)
Definition corr_sens : mat :=
  fold_left (fun m i => fold_left (fun m j => mupd (mupd m i j (corr_entry i j)) j i (corr_entry i j)) (seq 0 i) m)
            (seq 0 n) (fun _ _ => 0).
End Cf.

(** 241-247: the grid the code uses for a pair (i,j), i > j *)
Definition cf_grid (mg : nat -> marg) (Rphys : mat) (i j : nat) : grid :=
  zi_and_xi (mg i) (mg j) 6 (nIP_sensitivity (Rphys i j)).

(** 193-308: _cf_sens after the FORM run *)
Definition cf_marginal n alpha u_star x_star mg Rphys Ro L0 L0_inv np_inv k param : R :=
  marginal_sens n alpha u_star x_star mg Rphys Ro L0 L0_inv np_inv (cf_grid mg Rphys) k param.
Definition cf_correlation n alpha u_star mg Rphys Ro L0 np_inv : mat :=
  corr_sens n alpha u_star mg Ro L0 np_inv (cf_grid mg Rphys).
