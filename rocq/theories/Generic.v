(** Model of GenericModel and GenericCalibration, /repo/src/pystra/calibration.py 994-1636.
    Definitions only.  Not modelled: colours, labels, figure decoration (1506-1524, 1580-1600);
    a plot is what plot_region hands to matplotlib for every model.  FORM itself is the
    argument [form] (it is modelled in Form.v). *)
From Verif Require Import Base StochModel LimitState LoadComb Calib.
Open Scope list_scope.
Open Scope R_scope.

(** *** GenericModel, 1008-1021: None = never set *)
Record gmodel := mkGM {
  gm_phi : option R; gm_gg : option R; gm_gp : option R; gm_gq : option R;
  gm_wR : option obj; gm_wS : option obj; gm_R : option obj; gm_G : option obj; gm_P : option obj; gm_Q : option obj;
  gm_Rk : option R; gm_Gk : option R; gm_Pk : option R; gm_Qk : option R }.
Definition gm_init : gmodel := mkGM None None None None None None None None None None None None None None.

(** the setters, 1043-1046, 1072-1077, 1099-1102, 1121-1122, 1144-1146, 1166-1168, 1188-1190,
    1210-1212 *)
Inductive gset :=
| SFactors (phi gg gp gq : R)
| SDists (wR wS r g p q : obj)
| SNominals (Rk Gk Pk Qk : R)
| SErrors (wR wS : obj)
| SResist (r : obj) (Rk phi : R)
| SDead (G : obj) (Gk gg : R)
| SPerm (P : obj) (Pk gp : R)
| SLive (Q : obj) (Qk gq : R).
Definition gm_set (m : gmodel) (s : gset) : gmodel :=
  let '(mkGM phi gg gp gq wR wS r g p q rk gk pk qk) := m in
  match s with
  | SFactors phi' gg' gp' gq' => mkGM (Some phi') (Some gg') (Some gp') (Some gq') wR wS r g p q rk gk pk qk
  | SDists wR' wS' r' g' p' q' => mkGM phi gg gp gq (Some wR') (Some wS') (Some r') (Some g') (Some p') (Some q') rk gk pk qk
  | SNominals rk' gk' pk' qk' => mkGM phi gg gp gq wR wS r g p q (Some rk') (Some gk') (Some pk') (Some qk')
  | SErrors wR' wS' => mkGM phi gg gp gq (Some wR') (Some wS') r g p q rk gk pk qk
  | SResist r' rk' phi' => mkGM (Some phi') gg gp gq wR wS (Some r') g p q (Some rk') gk pk qk
  | SDead g' gk' gg' => mkGM phi (Some gg') gp gq wR wS r (Some g') p q rk (Some gk') pk qk
  | SPerm p' pk' gp' => mkGM phi gg (Some gp') gq wR wS r g (Some p') q rk gk (Some pk') qk
  | SLive q' qk' gq' => mkGM phi gg gp (Some gq') wR wS r g p (Some q') rk gk pk (Some qk')
  end.

(** get, 1254-1269: the tuple as (numbers before, objects, numbers after) in order *)
Definition gm_get (m : gmodel) : list (option R) * list (option obj) * list (option R) :=
  ([gm_phi m; gm_gg m; gm_gp m; gm_gq m], [gm_wR m; gm_wS m; gm_R m; gm_G m; gm_P m; gm_Q m], [gm_Rk m; gm_Gk m; gm_Pk m; gm_Qk m]).

(** *** lsf, 1349 *)
Definition gen_g (z aq ag wR r wS g p q : R) : R := z * wR * r - wS * ((1 - aq) * (ag * g + (1 - ag) * p) + aq * q).

(** the bound method called with keyword arguments (model.py 367): exactly these names, any
    other or missing one is a TypeError.  The arrays all have one entry per point. *)
Definition gen_args : list string := ["z"; "aq"; "ag"; "wR"; "R"; "wS"; "G"; "P"; "Q"]%string.
Definition gen_lsf (kw : kwargs) : result uout :=
  if forallb (fun k => mem_str k gen_args) (dict_keys kw) then
    match dict_get kw "z", dict_get kw "aq", dict_get kw "ag", dict_get kw "wR", dict_get kw "R", dict_get kw "wS", dict_get kw "G", dict_get kw "P", dict_get kw "Q" with
    | Some z, Some aq, Some ag, Some wR, Some r, Some wS, Some g, Some p, Some q =>
        Ok (UPlain (Arr (map (fun i => gen_g (nth i z 0) (nth i aq 0) (nth i ag 0) (nth i wR 0) (nth i r 0) (nth i wS 0) (nth i g 0) (nth i p 0) (nth i q 0)) (seq 0 (length z)))))
    | _, _, _, _, _, _, _, _, _ => Err EType
    end
  else Err EType.

(** *** design, 1384-1387 *)
Definition design (aq ag phi gg gp gq rk gk pk qk : R) : R :=
  (1 / (phi * rk)) * ((1 - aq) * (ag * gg * gk + (1 - ag) * gp * pk) + aq * gq * qk).

(** *** analyse_design, 1420-1439 *)
Fixpoint add_objs (os : list obj) (s : smodel) : result smodel :=
  match os with [] => Ok s | o :: r => rbind (addVariable s o) (add_objs r) end.
Definition gen_submit (z aq ag : R) (wR r wS g p q : obj) : result smodel :=
  add_objs [wR; r; wS; g; p; q; OConst "z" z; OConst "aq" aq; OConst "ag" ag] sm_init.

Section Gen.
Variable form : smodel -> expression -> result R.       (* Form(...).run(); getBeta() *)

Definition analyse_design (z aq ag : R) (wR r wS g p q : obj) : result R :=
  rbind (gen_submit z aq ag wR r wS g p q) (fun sm => form sm gen_lsf).

(** *** get_reliabilities, 1460-1481: one grid point.  Arithmetic on None is a TypeError (the
    product phi*Rk is formed first), 1/0 a ZeroDivisionError, addVariable(None) raises. *)
Definition as_obj (o : option obj) : obj := match o with Some o => o | None => OOther end.
Definition gen_point (m : gmodel) (ag aq : R) : result R :=
  match gm_phi m, gm_gg m, gm_gp m, gm_gq m, gm_Rk m, gm_Gk m, gm_Pk m, gm_Qk m with
  | Some phi, Some gg, Some gp, Some gq, Some rk, Some gk, Some pk, Some qk =>
      if Reqb (phi * rk) 0 then Err EZeroDiv
      else analyse_design (design aq ag phi gg gp gq rk gk pk qk) aq ag
             (as_obj (gm_wR m)) (as_obj (gm_R m)) (as_obj (gm_wS m)) (as_obj (gm_G m)) (as_obj (gm_P m)) (as_obj (gm_Q m))
  | _, _, _, _, _, _, _, _ => Err EType
  end.
Definition get_reliabilities (Aq Ag : list R) (m : gmodel) : result (list (list R)) :=
  mapM (fun ag => mapM (fun aq => gen_point m ag aq) Aq) Ag.

(** *** GenericCalibration, 1289-1292.  Probability models are references into [store]. *)
Record gcal := mkGC { gc_models : list (nat * option (list (list R))); gc_analysed : bool }.
Definition gc_init : gcal := mkGC [] false.

(** add_model, 1314-1316 *)
Definition add_model (c : gcal) (id : nat) : gcal := mkGC (gc_models c ++ [(id, None)]) false.

(** analyse, 1497-1505: on an exception the models before the failing one keep their new
    results and the flag is not touched *)
Fixpoint analyse_all (Aq Ag : list R) (store : nat -> gmodel) (ms : list (nat * option (list (list R)))) : list (nat * option (list (list R))) * option exn :=
  match ms with
  | [] => ([], None)
  | (id, b) :: r =>
      match get_reliabilities Aq Ag (store id) with
      | Err e => ((id, b) :: r, Some e)
      | Ok beta => let '(r', e) := analyse_all Aq Ag store r in ((id, Some beta) :: r', e)
      end
  end.
Definition analyse (Aq Ag : list R) (store : nat -> gmodel) (c : gcal) : gcal * result unit :=
  match gc_models c with
  | [] => (c, Err EValue)
  | _ => match analyse_all Aq Ag store (gc_models c) with
         | (ms, None) => (mkGC ms true, Ok tt)
         | (ms, Some e) => (mkGC ms (gc_analysed c), Err e)
         end
  end.

(** plot_region, 1550-1558: lower edge, upper edge, dotted line.  beta.min(axis=0) of an
    array without rows raises; a missing result has no min. *)
Definition colext (f : R -> R -> R) (b0 : list R) (bs : list (list R)) (j : nat) : R := fold_left (fun acc row => f acc (nth j row 0)) bs (nth j b0 0).
Definition plot_region (nq : nat) (b : option (list (list R))) : result (list R * list R * list R) :=
  match b with
  | None => Err EAttr
  | Some [] => Err EValue
  | Some (b0 :: bs) => Ok (map (colext Rmin b0 bs) (seq 0 nq), map (colext Rmax b0 bs) (seq 0 nq), last bs b0)
  end.
(** plot, 1630-1636, and beta_region_plot, 1588-1600 *)
Definition plot (nq : nat) (c : gcal) : result (list (list R * list R * list R)) :=
  if gc_analysed c then mapM (fun m => plot_region nq (snd m)) (gc_models c) else Err EValue.

(** a user's history: setters on shared model objects, add_model, analyse, plot *)
Inductive gop := GSet (id : nat) (s : gset) | GAdd (id : nat) | GAnalyse | GPlot.
Definition gstate := ((nat -> gmodel) * gcal)%type.
Definition gstep (Aq Ag : list R) (st : gstate) (o : gop) : gstate :=
  let '(store, c) := st in
  match o with
  | GSet id s => (fun i => if Nat.eqb i id then gm_set (store i) s else store i, c)
  | GAdd id => (store, add_model c id)
  | GAnalyse => (store, fst (analyse Aq Ag store c))
  | GPlot => st
  end.
Definition ghist (Aq Ag : list R) (h : list gop) : gstate := fold_left (gstep Aq Ag) h (fun _ => gm_init, gc_init).
End Gen.
