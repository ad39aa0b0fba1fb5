(** Model of a session: a user's script that creates models, limit states, options and analyses, changes
    them and runs the analyses in any order (analysis.py 48-70, 101-336; form.py 39-44; mc.py 38-45, 244-253,
    414-447, 488-489; ss.py 66-88; ls.py 62-82).  Objects are passed by reference; an argument left out is a new
    object (analysis.py 50-66).  Definitions only.
    Left out: SORM, Form objects handed to LineSampling, and the printed reports. *)
From Coquelicot Require Import Coquelicot.
From Verif Require Import Base Ext Gauss StochModel LimitState Transf Form Nataf Dist Pipe Sorm Mc McRun Ss SsRun Ls LsRun DaRun.
From Coq Require Import ZArith.

(** AnalysisOptions, 109-244, all attributes.  Of random_generator, stdv_sim, target_cov and some others there is no setter;
    they are public attributes. *)
Record aopts := mkAo {
  ao_transf_type : Z; ao_Ro_method : Z; ao_flag_sens : bool; ao_print_output : bool;
  ao_multi_proc : Z; ao_block_size : Z;
  ao_i_max : Z; ao_e1 : R; ao_e2 : R; ao_step_size : R; ao_Recorded_u : bool; ao_Recorded_x : bool;
  ao_diff_mode : string; ao_ffdpara : R; ao_ffdpara_thetag : R;
  ao_samples : Z; ao_random_generator : Z; ao_sim_point : string; ao_stdv_sim : R; ao_target_cov : R;
  ao_bins : option Z; ao_transform_type : option string
}.
(** 109-244 *)
Definition ao_init : aopts :=
  mkAo 3 1 true false 1 1000 100 (1 / 1000) (1 / 1000) 0 true true "ffd" 1000 1000 100000 0 "origin" 1 (5 / 100) None None.

(** the setters, 299-336, and the assignments to attributes that analyses read but have no setter *)
Inductive setting :=
| SetPrintOutput (tof : bool) | SetMultiProc (v : Z) | SetBlockSize (v : Z) | SetImax (v : Z) | SetE1 (v : R) | SetE2 (v : R)
| SetStepSize (v : R) | SetDiffMode (v : string) | Setffdpara (v : R) | SetBins (v : option Z) | SetSamples (v : Z) | SetTransform (v : option string)
| AttrRandomGenerator (v : Z) | AttrStdvSim (v : R) | AttrTargetCov (v : R).

Definition assign (o : aopts) (v : setting) : aopts :=
  let '(mkAo tr ro fs po mp bs im e1 e2 ss ru rx dm fp ft sa rg sp st tc bi ty) := o in
  match v with
  | SetPrintOutput b => mkAo tr ro fs b mp bs im e1 e2 ss ru rx dm fp ft sa rg sp st tc bi ty      (* 299 *)
  | SetMultiProc z => mkAo tr ro fs po z bs im e1 e2 ss ru rx dm fp ft sa rg sp st tc bi ty        (* 302 *)
  | SetBlockSize z => mkAo tr ro fs po mp z im e1 e2 ss ru rx dm fp ft sa rg sp st tc bi ty        (* 305 *)
  | SetImax z => mkAo tr ro fs po mp bs z e1 e2 ss ru rx dm fp ft sa rg sp st tc bi ty             (* 308 *)
  | SetE1 r => mkAo tr ro fs po mp bs im r e2 ss ru rx dm fp ft sa rg sp st tc bi ty               (* 311 *)
  | SetE2 r => mkAo tr ro fs po mp bs im e1 r ss ru rx dm fp ft sa rg sp st tc bi ty               (* 314 *)
  | SetStepSize r => mkAo tr ro fs po mp bs im e1 e2 r ru rx dm fp ft sa rg sp st tc bi ty         (* 317 *)
  | SetDiffMode s => mkAo tr ro fs po mp bs im e1 e2 ss ru rx s fp ft sa rg sp st tc bi ty         (* 320 *)
  | Setffdpara r => mkAo tr ro fs po mp bs im e1 e2 ss ru rx dm r ft sa rg sp st tc bi ty          (* 323 *)
  | SetBins b => mkAo tr ro fs po mp bs im e1 e2 ss ru rx dm fp ft sa rg sp st tc b ty             (* 326 *)
  | SetSamples z => mkAo tr ro fs po mp bs im e1 e2 ss ru rx dm fp ft z rg sp st tc bi ty          (* 329 *)
  | SetTransform s => mkAo tr ro fs po mp bs im e1 e2 ss ru rx dm fp ft sa rg sp st tc bi s        (* 335 *)
  | AttrRandomGenerator z => mkAo tr ro fs po mp bs im e1 e2 ss ru rx dm fp ft sa z sp st tc bi ty
  | AttrStdvSim r => mkAo tr ro fs po mp bs im e1 e2 ss ru rx dm fp ft sa rg sp r tc bi ty
  | AttrTargetCov r => mkAo tr ro fs po mp bs im e1 e2 ss ru rx dm fp ft sa rg sp st r bi ty
  end.

(** what the analyses read through the getters, 247-296 *)
Definition fo_of (o : aopts) : form_opts :=
  mkfo (ao_i_max o) (ao_e1 o) (ao_e2 o) (ao_step_size o) (mkopts (ao_diff_mode o) (ao_multi_proc o) (ao_block_size o) (ao_ffdpara o)).
Definition mo_of (o : aopts) : mc_opts :=
  mkmo (ao_samples o) (ao_block_size o) (ao_target_cov o) (ao_stdv_sim o) (ao_random_generator o).

(** A limit state object: its expression, and what evaluating that at NaN raises *)
Definition lstate := (expression * option exn)%type.
(** model.py 187-196: LimitState() has the expression None, which cannot be called *)
Definition ls_none : lstate := (fun _ => Err EType, Some EType).

(** the analysis classes with the arguments of their constructors *)
Inductive kind := KForm | KCrude (point : option (nat * option vec)) | KImportance | KSubset (p0 sigma : R) | KLine | KDistribution.
Inductive aobj := OForm (f : fobj) | OCrude (a : mobj) | OImportance (a : mobj) | OSubset (a : sobj) | OLine (a : lobj) | ODistribution (a : dobj).
(** analysis.py 48-70: references to the model, the limit state and the options *)
Record analysis := mkAn { an_model : nat; an_ls : nat; an_opts : nat; an_obj : aobj }.

(** The objects of a session, in the order of their creation; None: the constructor raised. *)
Record world := mkW { w_models : list smodel; w_ls : list lstate; w_opts : list aopts; w_ans : list (option analysis) }.
Definition w_init : world := mkW [] [] [] [].

Inductive cmd :=
| NewModel | ModelCall (m : nat) (op : smop)
| NewLimitState (e : lstate) | SetExpression (l : nat) (e : lstate)
| NewOptions | Set_ (o : nat) (v : setting)
| NewAnalysis (k : kind) (m l o : option nat)
| Run (a : nat) (randn unif : nat -> R).     (* the numbers the generators yield from here on *)

(** what the user sees of a command: nothing special, an exception, or the end of a run *)
Inductive seen := SNone | SRaise (e : exn) | SForm (o : form_out) | SMc (o : mout) | SSub (o : sout) | SLin (o : lout).

Fixpoint upd {A} (l : list A) (i : nat) (x : A) : list A :=
  match l, i with
  | [], _ => []
  | _ :: r, O => x :: r
  | y :: r, S i => y :: upd r i x
  end.

(** an argument: a known object, or a new one at the end of the list; None: no such name *)
Definition arg {A} (l : list A) (fresh : A) (r : option nat) : option (list A * nat) :=
  match r with
  | None => Some (l ++ [fresh], length l)
  | Some i => if Nat.ltb i (length l) then Some (l, i) else None
  end.

Section Step.
Variable fmin : (R -> R) -> R -> R.
Variable chol : nat -> mat -> result mat.
Variable svd : nat -> mat -> result (mat * vec).
Variable inv : nat -> mat -> result mat.
Variable brentq : (R -> option R) -> R -> R -> option R * list R.
Variables fuel lf fl : nat.

(** the constructors on their (existing) arguments: the new object, and the model object *)
Definition construct (k : kind) (e : lstate) (o : aopts) (s : smodel) : result aobj * smodel :=
  let opt := ao_transform_type o in
  match k with
  | KForm => (rbind (form_init opt) (fun a => Ok (OForm a)), s)
  | KCrude p => (rbind (cmc_new opt p s) (fun a => Ok (OCrude a)), s)
  | KImportance => let '(r, s') := is_new fmin chol svd inv fuel lf (fst e) (fo_of o) (snd e) opt s in (rbind r (fun a => Ok (OImportance a)), s')
  | KSubset p0 sg => (rbind (ss_new opt p0 sg) (fun a => Ok (OSubset a)), s)
  | KLine => (rbind (ls_new opt None s) (fun a => Ok (OLine a)), s)
  | KDistribution => (rbind (da_new opt s) (fun a => Ok (ODistribution a)), s)
  end.

(** run: the object, the model object and the end of the run *)
Definition run_obj (a : aobj) (e : lstate) (o : aopts) (s : smodel) (randn unif : nat -> R) : aobj * smodel * seen :=
  match a with
  | OForm f => let '(f', s', out) := run_form fmin chol svd inv fuel lf (fst e) (fo_of o) (snd e) f s in (OForm f', s', SForm out)
  | OCrude m => let '(m', s', out) := cmc_run_on fmin chol svd inv (fst e) (fo_of o) (mo_of o) (snd e) randn fl m s 0 in (OCrude m', s', SMc out)
  | OImportance m => let '(m', s', out) := is_run_on fmin chol svd inv (fst e) (fo_of o) (mo_of o) (snd e) randn fl m s 0 in (OImportance m', s', SMc out)
  | OSubset v => let '(v', s', out) := ss_run_on fmin chol svd inv (fst e) (fo_of o) (ao_samples o) randn unif fl v s in (OSubset v', s', SSub out)
  | OLine l => let '(l', s', out) := ls_run_on fmin chol svd inv brentq fuel lf (fst e) (fo_of o) (snd e) (ao_transform_type o) (ao_samples o) randn l s in (OLine l', s', SLin out)
  | ODistribution d => let '(d', s', out) := da_run_on fmin chol svd inv (fst e) (fo_of o) (mo_of o) (ao_bins o) randn fl d s 0 in (ODistribution d', s', SMc out)
  end.

(** mc.py 436-447: importance sampling switches the print option of the shared object off and, if the run
    ends, on again (C33) *)
Definition print_after (a : aobj) (o : aopts) (s : smodel) (out : seen) : aopts :=
  match a with
  | OImportance m =>
      match snd (init_run_full fmin chol svd inv (mb_type m) s), out with
      | Ok _, SMc MEnd => o
      | Ok _, _ => assign o (SetPrintOutput false)
      | Err _, _ => o
      end
  | _ => o
  end.

(** An unknown name raises NameError, nothing happens then. *)
Definition step (w : world) (c : cmd) : world * seen :=
  let '(mkW ms ls os ans) := w in
  match c with
  | NewModel => (mkW (ms ++ [sm_init]) ls os ans, SNone)
  | ModelCall m op =>
      match nth_error ms m with
      | Some s => (mkW (upd ms m (sm_step s op)) ls os ans, match op with OpAdd o => match addVariable s o with Ok _ => SNone | Err e => SRaise e end | _ => SNone end)
      | None => (w, SRaise EKey)
      end
  | NewLimitState e => (mkW ms (ls ++ [e]) os ans, SNone)
  | SetExpression l e => if Nat.ltb l (length ls) then (mkW ms (upd ls l e) os ans, SNone) else (w, SRaise EKey)
  | NewOptions => (mkW ms ls (os ++ [ao_init]) ans, SNone)
  | Set_ o v =>
      match nth_error os o with
      | Some x => (mkW ms ls (upd os o (assign x v)) ans, SNone)
      | None => (w, SRaise EKey)
      end
  | NewAnalysis k m l o =>
      match arg ms sm_init m, arg ls ls_none l, arg os ao_init o with
      | Some (ms, m), Some (ls, l), Some (os, o) =>
          let '(r, s) := construct k (nth l ls ls_none) (nth o os ao_init) (nth m ms sm_init) in
          (mkW (upd ms m s) ls os (ans ++ [match r with Ok a => Some (mkAn m l o a) | Err _ => None end]),
           match r with Ok _ => SNone | Err e => SRaise e end)
      | _, _, _ => (w, SRaise EKey)
      end
  | Run i randn unif =>
      match nth_error ans i with
      | Some (Some a) =>
          let s := nth (an_model a) ms sm_init in
          let '(b, s', out) := run_obj (an_obj a) (nth (an_ls a) ls ls_none) (nth (an_opts a) os ao_init) s randn unif in
          (mkW (upd ms (an_model a) s') ls (upd os (an_opts a) (print_after (an_obj a) (nth (an_opts a) os ao_init) s out))
               (upd ans i (Some (mkAn (an_model a) (an_ls a) (an_opts a) b))), out)
      | _ => (w, SRaise EKey)
      end
  end.

(** a script *)
Definition exec (p : list cmd) : world := fold_left (fun w c => fst (step w c)) p w_init.
End Step.
