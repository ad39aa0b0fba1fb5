(** Model of the results_valid protocol: analysis.py 70 and the first statement of every
    run(); showResults.  Definitions only.

    Part 1 covers Form, CrudeMonteCarlo, ImportanceSampling, DistributionAnalysis,
    LineSampling and SubsetSimulation, whose run() is [results_valid = True] followed by a body
    that never touches the flag (form.py 64, mc.py 261, 444, 492, ls.py 84, ss.py 93), and
    whose showResults is the flag test followed by a print of the attributes (form.py 272-,
    mc.py 367-, 457-, 560-, ls.py 221-, ss.py 281-).  Part 2 is Sorm with its attributes. *)
From Coquelicot Require Import Coquelicot.
From Verif Require Import Base Ext Gauss Sorm.
Open Scope list_scope.
Open Scope R_scope.

(** *** Part 1.  [S] = all other attributes; [body i s] = the rest of run with inputs [i]
    (limit state, random stream, options): new attributes and the exception, if any;
    [render] = the print part, which may raise on attributes that are still None *)
Record ana (S : Type) := mkAna { a_valid : bool; a_attr : S }.
Arguments mkAna {S}. Arguments a_valid {S}. Arguments a_attr {S}.
Section Generic.
Context {S I O : Type}.
Variable body : I -> S -> S * option exn.
Variable render : S -> result O.
Definition ana_init (s0 : S) : ana S := mkAna false s0.
Definition ana_run (i : I) (a : ana S) : ana S * option exn :=
  let a := mkAna true (a_attr a) in
  let '(s, e) := body i (a_attr a) in (mkAna (a_valid a) s, e).
Definition ana_show (a : ana S) : result O := if a_valid a then render (a_attr a) else Err EValue.
Inductive aop := ARun (i : I) | AShow.
Definition ana_step (a : ana S) (o : aop) : ana S := match o with ARun i => fst (ana_run i a) | AShow => a end.
Definition ana_hist (s0 : S) (h : list aop) : ana S := fold_left ana_step h (ana_init s0).
End Generic.
Arguments aop : clear implicits.

(** the body of Form.run: beta and Pf are stored only after the loop (form.py 132-136) *)
Definition form_body (i : result (R * R)) (s : option (R * R)) : option (R * R) * option exn :=
  match i with Ok r => (Some r, None) | Err e => (s, Some e) end.
(** beta[0] of None is a TypeError, form.py 282 *)
Definition form_render (s : option (R * R)) : result (R * R) := match s with Some r => Ok r | None => Err EType end.

(** *** Part 2: Sorm.  An attribute is the plain int 0 (sorm.py 88-98, 360-361) or a
    one-element array *)
Inductive sattr := SInt0 | SArr (x : xnum).
Definition idx0 (a : sattr) : result xnum := match a with SInt0 => Err EType | SArr x => Ok x end.
Record sorm := mkSorm {
  so_valid : bool; so_fit : option string; so_kappa : option (list R) (* None: the int 0 *); so_kpf : option (list R * list R);
  so_pf : sattr; so_bg : sattr; so_pfm : sattr; so_bgm : sattr }.
(** __init__, 88-98 (after FORM) *)
Definition sorm_init : sorm := mkSorm false None None None SInt0 SInt0 SInt0 SInt0.

(** what one call of run meets: init_run; the index and sorted curvatures found by curve
    fitting (131-140), or the index and two-sided curvatures of point fitting (171-196), each
    of which may raise; the print option *)
Record sin := mkSin { si_init : result unit; si_cf : result (R * list R); si_pf : result (R * list R * list R); si_sort : list R -> list R; si_print : bool }.

(** attributes written by pf_breitung (_m): arrays, or ints in the error branch *)
Definition cf_attr (r : sorm_res) (x : xnum) : sattr := if sr_msg r then SInt0 else SArr x.
(** by the point-fitting variants: always arrays *)
Definition pf_attr (x : xnum) : sattr := SArr x.

(** showResults, 380-404 *)
Definition sorm_show (s : sorm) : result (xnum * xnum * list R) :=
  if so_valid s then
    rbind (idx0 (so_bg s)) (fun b => rbind (idx0 (so_pf s)) (fun p =>
    match so_fit s, so_kpf s with
    | Some f, Some (km, kp) => if String.eqb f "pf" then Ok (b, p, km ++ kp) else match so_kappa s with Some k => Ok (b, p, k) | None => Err EType end
    | _, _ => match so_kappa s with Some k => Ok (b, p, k) | None => Err EType end
    end))
  else Err EValue.

(** run, 116-128; run_curvefit 138-145; run_pointfit 193-203 *)
Definition sorm_run (fit : string) (i : sin) (s : sorm) : sorm * result unit :=
  let s := mkSorm true (so_fit s) (so_kappa s) (so_kpf s) (so_pf s) (so_bg s) (so_pfm s) (so_bgm s) in
  match si_init i with
  | Err e => (s, Err e)
  | Ok _ =>
      let s := mkSorm true (Some fit) (so_kappa s) (so_kpf s) (so_pf s) (so_bg s) (so_pfm s) (so_bgm s) in
      let finish s := (s, if si_print i then rbind (sorm_show s) (fun _ => Ok tt) else Ok tt) in
      if String.eqb fit "cf" then
        match si_cf i with
        | Err e => (s, Err e)
        | Ok (beta, kappa) =>
            let r := pf_breitung beta kappa in let rm := pf_breitung_m beta kappa in
            finish (mkSorm true (so_fit s) (Some kappa) (so_kpf s) (cf_attr r (sr_pf r)) (cf_attr r (sr_beta r)) (cf_attr rm (sr_pf rm)) (cf_attr rm (sr_beta rm)))
        end
      else if String.eqb fit "pf" then
        match si_pf i with
        | Err e => (s, Err e)
        | Ok (beta, km, kp) =>
            let r := pf_breitung_pf beta km kp in let rm := pf_breitung_m_pf beta km kp in
            finish (mkSorm true (so_fit s) (Some (si_sort i (map (fun c => / 2 * (fst c + snd c)) (combine km kp)))) (Some (km, kp)) (pf_attr (sr_pf r)) (pf_attr (sr_beta r)) (pf_attr (sr_pf rm)) (pf_attr (sr_beta rm)))
        end
      else (s, Err EValue)
  end.
Inductive sop := SRun (fit : string) (i : sin) | SShow.
Definition sorm_step (s : sorm) (o : sop) : sorm := match o with SRun f i => fst (sorm_run f i s) | SShow => s end.
Definition sorm_hist (h : list sop) : sorm := fold_left sorm_step h sorm_init.
