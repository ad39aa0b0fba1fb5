(** Model of class Calibration, /repo/src/pystra/calibration.py 13-967.  Definitions only.

    Data frames are tables with named rows and columns; a missing value (NaN) is [None].
    Simplifications: division is that of the reals (theorems exclude zero divisors); a NaN
    reaching the limit state function is reported as [ERuntime] instead of propagating;
    Python set order is replaced by list order (it only orders keyword arguments). *)
From Verif Require Import Base StochModel LoadComb.
Open Scope list_scope.
Open Scope R_scope.

Record tbl := mkTbl { t_rows : list string; t_cols : list string; t_val : string -> string -> option R }.

(** a cell, NaN outside the columns *)
Definition cell (t : tbl) (r c : string) : option R := if mem_str c (t_cols t) then t_val t r c else None.
Definition odiv (a b : option R) : option R := match a, b with Some x, Some y => Some (x / y) | _, _ => None end.
Definition omul (a b : option R) : option R := match a, b with Some x, Some y => Some (x * y) | _, _ => None end.

(** frame (op) frame: rows agree, the columns are united, missing ones are NaN *)
Definition tbin (op : option R -> option R -> option R) (a b : tbl) : tbl :=
  mkTbl (t_rows a) (t_cols a ++ filter (fun c => negb (mem_str c (t_cols a))) (t_cols b)) (fun r c => op (cell a r c) (cell b r c)).

(** df[cols]: KeyError for an absent label *)
Definition select (t : tbl) (cols : list string) : result tbl :=
  if forallb (fun c => mem_str c (t_cols t)) cols then Ok (mkTbl (t_rows t) cols (t_val t)) else Err EKey.

(** df.loc[[row], cols].to_dict("records")[0] *)
Fixpoint row_dict (t : tbl) (r : string) (cols : list string) : result (list (string * R)) :=
  match cols with
  | [] => Ok []
  | c :: cs =>
      if mem_str c (t_cols t) then
        match t_val t r c with
        | Some v => rbind (row_dict t r cs) (fun d => Ok ((c, v) :: d))
        | None => Err ERuntime
        end
      else Err EKey
  end.

Fixpoint mapM {A B} (f : A -> result B) (l : list A) : result (list B) :=
  match l with [] => Ok [] | x :: r => rbind (f x) (fun y => rbind (mapM f r) (fun ys => Ok (y :: ys))) end.

(** a finished FORM analysis as the calibration sees it: getBeta, getAlpha, the model's
    names and constants, transform.u_to_x, getDesignPoint(uspace=False) *)
Record formres := mkForm { fm_beta : R; fm_alpha : list R; fm_names : list string; fm_consts : list string; fm_u2x : list R -> list R; fm_x : list R }.

Inductive zval := ZScalar (z : R) | ZArr (z : R).
Definition zv (z : zval) : R := match z with ZScalar z => z | ZArr z => z end.

(** np.isclose(a, b, atol), rtol = 1e-5 *)
Definition isclose (a b atol : R) : bool := Rleb (Rabs (a - b)) (atol + / 100000 * Rabs b).

Section Calibration.
Variable lc : loadcomb.
Variable lsf : list (string * R) -> result R.
Variable beta_t : R.
Variable nom : list (string * (string -> R)).      (* dict_nom, 103: variable -> value per case *)
Variable cvar : string.

(** 104-114 *)
Definition c_cases : list string := lc_label_cases lc.
Definition c_R : list string := lc_label_resist lc.
Definition c_other : list string := lc_label_other lc.
Definition c_comb : list string := lc_label_comb lc.
Definition c_S : list string := c_other ++ c_comb.
Definition df_nom : tbl := mkTbl c_cases (dict_keys nom) (fun r c => option_map (fun f => f r) (dict_get nom c)).

(** lc_obj.eval_lsf_kwargs( **kw) with the default set_value and set_const *)
Definition evalk (kw : list (string * R)) : result R := eval_lsf_kwargs lc lsf 0 None kw.

(** *** calc_Xst_nom, 676-685 *)
Definition spread (t : tbl) (comb : string) (vrs : list string) : result tbl :=
  if forallb (fun c => mem_str c (t_cols t)) vrs then
    Ok (mkTbl (t_rows t) (t_cols t)
          (fun r c => if mem_str c vrs && mem_str r c_cases && negb (String.eqb r comb) then t_val t comb c else t_val t r c))
  else Err EKey.
Fixpoint spread_all (cs : list (string * list string)) (t : tbl) : result tbl :=
  match cs with [] => Ok t | (comb, vrs) :: r => rbind (spread t comb vrs) (spread_all r) end.
Definition calc_Xst_nom (X : tbl) : result tbl :=
  rbind (spread_all (lc_cases lc) (tbin odiv X df_nom)) (fun t => select t (t_cols X)).

(** calc_phi 707-708, calc_gamma 734-736 and their concatenation 646, 769 *)
Definition calc_phi (t : tbl) : result tbl := select t c_R.
Definition calc_gamma (t : tbl) : result tbl := rbind (select t c_other) (fun a => rbind (select t c_comb) (fun b => Ok (mkTbl (t_rows t) (t_cols a ++ t_cols b) (t_val t)))).

(** *** calc_pg_coeff, 643-655 *)
Definition calc_pg_coeff (X : tbl) : result (tbl * tbl * tbl) :=
  rbind (calc_Xst_nom X) (fun xn =>
  rbind (calc_phi xn) (fun phi =>
  rbind (calc_gamma xn) (fun gamma =>
  rbind (select (tbin odiv (tbin odiv X gamma) df_nom) c_S) (fun psi => Ok (phi, gamma, psi))))).

(** *** calc_phiRz_egS_vect, 808-822 *)
Definition rhs_labels (lead : list string) : list string :=
  filter (fun x => negb (mem_str x c_comb && negb (mem_str x lead))) (nodup string_dec (c_R ++ c_comb ++ c_other ++ [cvar])).
Definition phiRz_entry (X : tbl) (comb : string) : result R :=
  match dict_get (lc_cases lc) comb with
  | None => Err EKey
  | Some lead => rbind (row_dict X comb (rhs_labels lead)) evalk
  end.
Definition calc_phiRz_egS_vect (X : tbl) : result (list R) := mapM (phiRz_entry X) (t_rows X).

(** *** calc_epgS_mat, 845-867: column [idx] belongs to the idx-th case *)
Definition epgS_col (gn : tbl) (comb : string) : result R :=
  match dict_get (lc_cases lc) comb with
  | None => Err EKey
  | Some lead =>
      rbind (row_dict gn comb (nodup string_dec (c_other ++ lead))) (fun dc =>
      rbind (match c_other with [] => Ok [] | _ => row_dict gn comb c_other end) (fun d_o =>
      rbind (evalk dc) (fun a => rbind (evalk d_o) (fun b => Ok (a - b)))))
  end.
Definition calc_epgS_mat (gn : tbl) : result mat :=
  rbind (mapM (epgS_col gn) (t_rows gn)) (fun cols =>
  if Nat.ltb (List.length c_comb) (List.length cols) then Err EIndex
  else Ok (fun i j => if Nat.eqb i j then 0 else nth j cols 0 * -1)).

(** _get_psi_row_mat 892-900 with the labels of 779-781 *)
Definition psi_table (rows : list string) (psi : list R) : tbl :=
  mkTbl rows c_S (fun r c =>
    match index_of r rows, index_of c c_S with
    | Some i, Some k =>
        if Nat.ltb k (List.length c_other) then Some 1
        else let j := (k - List.length c_other)%nat in if Nat.eqb i j then Some 1 else Some (nth j psi 0)
    | _, _ => None
    end).

(** *** calc_pg_matrix, 765-789; [solve] is np.linalg.solve for a square system *)
Definition calc_pg_matrix (solve : nat -> mat -> list R -> result (list R)) (X : tbl) : result (tbl * tbl * tbl) :=
  rbind (calc_Xst_nom X) (fun xn =>
  rbind (calc_phi xn) (fun phi =>
  rbind (calc_gamma xn) (fun gamma =>
  rbind (calc_phiRz_egS_vect X) (fun b =>
  let gn := tbin omul (mkTbl (t_rows phi) (t_cols phi ++ t_cols gamma) (t_val xn)) df_nom in
  rbind (calc_epgS_mat gn) (fun M =>
  if Nat.eqb (List.length (t_rows gn)) (List.length c_comb) then
    rbind (solve (List.length c_comb) M b) (fun psi => Ok (phi, gamma, psi_table (t_rows gamma) psi))
  else Err EException))))).          (* LinAlgError *)

(** *** get_psi_max, 537-548 *)
Definition on_diag (rows cols : list string) (r c : string) : bool :=
  match index_of r rows, index_of c cols with Some i, Some j => Nat.eqb i j | _, _ => false end.
Definition set_diag (v : R) (t : tbl) : tbl :=
  mkTbl (t_rows t) (t_cols t) (fun r c => if on_diag (t_rows t) (t_cols t) r c then Some v else t_val t r c).
(** column extremum, skipping NaN *)
Definition oext (f : R -> R -> R) (a b : option R) : option R :=
  match a, b with Some x, Some y => Some (f x y) | Some x, None => Some x | None, b => b end.
Definition col_ext (f : R -> R -> R) (t : tbl) (c : string) : option R :=
  fold_right (fun r acc => oext f (t_val t r c) acc) None (t_rows t).
(** clip(lower = column maximum) / clip(upper = column minimum): NaN cells stay NaN *)
Definition clip_ext (f : R -> R -> R) (t : tbl) : tbl :=
  mkTbl (t_rows t) (t_cols t) (fun r c =>
    match t_val t r c, col_ext f t c with Some x, Some m => Some (f x m) | Some x, None => Some x | None, _ => None end).
Definition get_psi_max (psi : tbl) : result tbl :=
  rbind (select psi c_comb) (fun t =>
  let t := set_diag 1 (clip_ext Rmax (set_diag 0 t)) in
  match c_other with
  | [] => Ok t
  | _ => rbind (select psi c_other) (fun po =>
           Ok (mkTbl (t_rows t) (t_cols t ++ c_other) (fun r c => if mem_str c c_other then t_val po r c else t_val t r c)))
  end).
(** get_phi_min, 710-713 *)
Definition get_phi_min (phi : tbl) : tbl := clip_ext Rmin phi.

(** *** calc_design_param_Xst, 391-398 (one row) *)
Definition calc_design_param_Xst (t : tbl) (r : string) : result R :=
  rbind (row_dict t r c_S) (fun ds =>
  rbind (evalk ds) (fun load =>
  rbind (row_dict t r c_R) (fun dr =>
  rbind (evalk dr) (fun res =>
  if Reqb res 0 then Err EZeroDiv else Ok (Rabs (load / res)))))).

(** *** calc_df_pgRS 945-951 and get_design_param_factor 964-967 *)
Definition calc_df_pgRS (phi gamma psi : tbl) (min_phi max_psi : bool) : result tbl :=
  rbind (if max_psi then get_psi_max psi else Ok psi) (fun psi =>
  let phi := if min_phi then get_phi_min phi else phi in
  rbind (select df_nom c_S) (fun _ =>
  rbind (select df_nom c_R) (fun _ =>
  Ok (mkTbl c_cases (t_cols df_nom) (fun r c =>
        if mem_str c c_R then omul (t_val df_nom r c) (cell phi r c)
        else if mem_str c c_S then omul (omul (t_val df_nom r c) (if mem_str c (t_cols gamma) then col_ext Rmax gamma c else None)) (cell psi r c)
        else t_val df_nom r c))))).
Definition get_design_param_factor (phi gamma psi : tbl) (min_phi max_psi : bool) : result (list R) :=
  rbind (calc_df_pgRS phi gamma psi min_phi max_psi) (fun t => mapM (calc_design_param_Xst t) c_cases).

(** *** _calibration_alpha, 328-373.  [rel lcn z] is run_reliability_case with the constant
    [cvar] replaced by [z].  The counter is returned too; [None] = out of fuel. *)
Variable rel : string -> R -> result formres.

(** _get_df_Xstar_labels, 446-449 *)
Definition xstar_labels (f : formres) : list string := filter (fun x => negb (mem_str x (fm_consts f))) (fm_names f).
(** one row of a frame with the given columns; a length mismatch raises ValueError *)
Definition one_row (cols : list string) (x : list R) : result tbl :=
  if Nat.eqb (List.length x) (List.length cols) then
    Ok (mkTbl ["0"%string] cols (fun _ c => match index_of c cols with Some i => nth_error x i | None => None end))
  else Err EValue.
Definition project (cols : list string) (f : formres) : result R :=
  rbind (one_row cols (fm_u2x f (map (fun a => a * beta_t) (fm_alpha f)))) (fun t => calc_design_param_Xst t "0"%string).

Fixpoint alpha_loop (fuel n max_iter : nat) (abstol : R) (cols : list string) (lcn : string) (z : zval) (f : formres)
  : result (option (nat * zval * formres)) :=
  if isclose (fm_beta f) beta_t abstol then Ok (Some (n, z, f))
  else match fuel with
       | O => Ok None
       | S fuel =>
           rbind (project cols f) (fun z' =>
           rbind (rel lcn z') (fun f' =>
           if Nat.eqb (S n) max_iter then Ok (Some (S n, ZArr z', f'))
           else alpha_loop fuel (S n) max_iter abstol cols lcn (ZArr z') f'))
       end.
Definition calibration_alpha (fuel : nat) (z0 abstol : R) (max_iter : nat) (lcn : string) : result (option (nat * zval * formres)) :=
  rbind (rel lcn z0) (fun f0 => alpha_loop fuel 0 max_iter abstol (xstar_labels f0) lcn (ZScalar z0) f0).

(** *** _calibration_optimize, 260-286: [fsolve] is scipy's root finder *)
Variable fsolve : (R -> result R) -> R -> result R.
Definition calibration_optimize (z0 : R) (lcn : string) : result (zval * formres) :=
  rbind (fsolve (fun z => rbind (rel lcn z) (fun f => Ok (beta_t - fm_beta f))) z0) (fun z =>
  rbind (rel lcn z) (fun f => Ok (ZArr z, f))).

(** *** _calibrate_design_param, 565-592, with the default abstol = 1e-4 and max_iter = 100.
    An unknown method leaves [zcal] unassigned (UnboundLocalError, here EException). *)
Inductive cmethod := MOptimize | MAlpha | MUnknown.
Definition calibrate_case (m : cmethod) (startz : R) (lcn : string) : result (zval * formres) :=
  match m with
  | MOptimize => calibration_optimize startz lcn
  | MAlpha => rbind (calibration_alpha 100 startz (/ 10000) 100 lcn) (fun o =>
                match o with Some (_, z, f) => Ok (z, f) | None => Err EException end)
  | MUnknown => Err EException
  end.
Definition is_arr (z : zval) : bool := match z with ZArr _ => true | ZScalar _ => false end.
Definition calibrate_design_param (m : cmethod) : result (list (R * formres)) :=
  match lc_const lc with
  | None => Err EType
  | Some cd =>
      match dict_get cd cvar with
      | None => Err EKey
      | Some o =>
          rbind (get_value o) (fun startz =>
          rbind (mapM (calibrate_case m startz) c_cases) (fun l =>
          match l with
          | [] => Err EValue                                      (* np.concatenate([]) *)
          | _ => if forallb (fun p => is_arr (fst p)) l then Ok (map (fun p => (zv (fst p), snd p)) l)
                 else Err EValue                                  (* zero-dimensional arrays *)
          end))
      end
  end.

(** _get_df_Xstar 421-426 and _run_calibration 488-492: column "z" is set last *)
Definition xstar_table (l : list (R * formres)) : result tbl :=
  match l with
  | [] => Err EIndex
  | (_, f0) :: _ =>
      let cols := xstar_labels f0 in
      if forallb (fun p => Nat.eqb (List.length (fm_x (snd p))) (List.length cols)) l && Nat.eqb (List.length l) (List.length c_cases) then
        Ok (mkTbl c_cases (if mem_str "z" cols then cols else cols ++ ["z"%string])
              (fun r c => match index_of r c_cases with
                          | None => None
                          | Some i => match nth_error l i with
                                      | None => None
                                      | Some (z, f) => if String.eqb c "z" then Some z
                                                       else match index_of c cols with Some k => nth_error (fm_x f) k | None => None end
                                      end
                          end))
      else Err EValue
  end.
Definition run_calibration (m : cmethod) : result tbl := rbind (calibrate_design_param m) xstar_table.

(** *** run, 467-476: None = attributes left unset *)
Inductive emethod := ECoeff | EMatrix | EUnknown.
Definition env_factors (set_max : bool) (f : tbl * tbl * tbl) : result (tbl * tbl * tbl) :=
  let '(phi, gamma, psi) := f in
  if set_max then rbind (get_psi_max psi) (fun psi' => Ok (get_phi_min phi, gamma, psi')) else Ok (phi, gamma, psi).
Definition cal_run (solve : nat -> mat -> list R -> result (list R)) (m : cmethod) (e : emethod) (set_max : bool) : result (option (tbl * tbl * tbl)) :=
  rbind (run_calibration m) (fun X =>
  match e with
  | ECoeff => rbind (calc_pg_coeff X) (fun f => rbind (env_factors set_max f) (fun f => Ok (Some f)))
  | EMatrix => rbind (calc_pg_matrix solve X) (fun f => rbind (env_factors set_max f) (fun f => Ok (Some f)))
  | EUnknown => Ok None
  end).
End Calibration.
