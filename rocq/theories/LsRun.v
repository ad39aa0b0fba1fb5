(** Model of a whole LineSampling analysis on a model object (ls.py 62-140 with analysis.py 48-98):
    the constructor, and run with its init_run, the Form analysis it makes and keeps, and the
    evaluations on the model object.  Definitions only. *)
From Coquelicot Require Import Coquelicot.
From Verif Require Import Base Ext Gauss StochModel LimitState Transf Form Nataf Dist Pipe Sorm Ls.
From Coq Require Import ZArith.

(** Pf, beta, cov after a run: numbers, or the values NaN, -inf, inf that a NaN mean leads to
    (comparisons with NaN are False, so the last branch, 133-135, is taken) *)
Inductive lres := LNum (r : ls_res) | LNaN.
Definition lres_Pf (r : lres) : xnum := match r with LNum r => Fin (ls_Pf r) | LNaN => NaN end.
Definition lres_beta (r : lres) : xnum := match r with LNum r => ls_beta r | LNaN => NInf end.
Definition lres_cov (r : lres) : xnum := match r with LNum r => ls_cov r | LNaN => PInf end.

(** A LineSampling object: the flag, the type of its transformation, the number of variables at
    construction (76), the Form object with the length of its alpha vector, and the results. *)
Record lobj := mkLo { lo_valid : bool; lo_type : string; lo_nrv : nat; lo_form : option (nat * fobj); lo_res : option lres }.

(** 62-82 *)
Definition ls_new (opt : option string) (form : option (nat * fobj)) (s : smodel) : result lobj :=
  rbind (form_init opt) (fun a => Ok (mkLo false (fb_type a) (length (sm_marg s)) form None)).

(** the run ended, raised, or is still running *)
Inductive lout := LDone | LRaised (e : exn) | LRunning.

Section Run.
Variable fmin : (R -> R) -> R -> R.
Variable chol : nat -> mat -> result mat.
Variable svd : nat -> mat -> result (mat * vec).
Variable inv : nat -> mat -> result mat.
(** scipy's brentq: the root (None: it raised) and the points at which it called the function *)
Variable brentq : (R -> option R) -> R -> R -> option R * list R.
Variables fuel lf : nat.
Variable expr : expression.
Variable fo : form_opts.
Variable evn : option exn.
(** options.getTransform() when run is called: the Form analysis is constructed then, whereas the
    transformation of the lines is that of the constructor *)
Variable topt : option string.
(** options.getSamples() and the next draws of np.random.randn *)
Variable Ns : Z.
Variable randn : nat -> R.

(** _eval_g_at_c, 147-154.  u_to_x raises if u has not the size of the matrix (np.dot) or there are
    more marginals than rows (IndexError); nothing is evaluated then.  (A matrix larger than the
    number of marginals is larger than nrv: variables cannot be removed.)  The value depends on the
    model object only through its variables, constants and marginals, so ls_run_on takes the values
    from the object before the first line and advances the counter afterwards. *)
Definition ls_call (k nrv : nat) (A : mat) (s : smodel) (u : vec) : option evalout :=
  if Nat.eqb nrv k && Nat.eqb (length (sm_marg s)) k
  then Some (evaluate_lsf lf s expr (fo_ls fo) (Some "no"%string) (length (sm_marg s)) [vlist (length (sm_marg s)) (u_to_x (length (sm_marg s)) A (marg_at s) u)])
  else None.
Definition ls_ev (k nrv : nat) (A : mat) (s : smodel) (u : vec) : option R :=
  match ls_call k nrv A s u with
  | Some r => match ev_out r with ODone G _ => Some (nth 0 G 0) | _ => None end
  | None => None
  end.
Definition ls_state (k nrv : nat) (A : mat) (s : smodel) (u : vec) : smodel :=
  match ls_call k nrv A s u with Some r => ev_s r | None => s end.

(** the points evaluated for one line: the scan (170-174), then brentq (200-206) *)
Definition line_trace (ev : vec -> option R) (v alpha : vec) (c_init : R) : list vec :=
  map (fun j => line_pt v alpha (c_scan c_init j)) (seq 0 n_scan) ++
  match bracket (fun j => ev (line_pt v alpha (c_scan c_init j))) with
  | None => []
  | Some j =>
      let lo := c_scan c_init j in let hi := c_scan c_init (S j) in
      map (line_pt v alpha) (snd (brentq (fun c => ev (line_pt v alpha c)) (Rmin lo hi) (Rmax lo hi)))
  end.

(** 88-99: the Form object kept from before, or a new one *)
Definition ls_form (a : lobj) (s : smodel) : (result (nat * fobj) + unit) * smodel :=
  match lo_form a with
  | Some b => (inl (Ok b), s)
  | None =>
      match form_init topt with
      | Err e => (inl (Err e), s)
      | Ok b0 =>
          let '(b, s', out) := run_form fmin chol svd inv fuel lf expr fo evn b0 s in
          (match out with FDone _ => inl (Ok (length (sm_marg s'), b)) | FRaise e => inl (Err e) | FFuel => inr tt end, s')
      end
  end.

(** run, 84-140.  Raises: a Form that has not run (None[0]), a negative number of samples (randn), an alpha of
    another length than nrv (matmul).  The mean of no contributions is NaN.  With a NaN alpha every point is NaN.
    Block sizes below 1 are never worked off: the first evaluation shows it. *)
Definition ls_run_on (a : lobj) (s : smodel) : lobj * smodel * lout :=
  let nrv := lo_nrv a in
  let keep f r := mkLo true (lo_type a) nrv f r in
  let '(s, r) := init_run_full fmin chol svd inv (lo_type a) s in
  match r with
  | Err e => (keep (lo_form a) (lo_res a), s, LRaised e)
  | Ok (T, A) =>
      let k := match sm_Ro s with Some M => length M | None => 0%nat end in
      let '(f, s) := ls_form a s in
      match f with
      | inr _ => (keep (lo_form a) (lo_res a), s, LRunning)
      | inl (Err e) => (keep (lo_form a) (lo_res a), s, LRaised e)
      | inl (Ok (nf, b)) =>
          let fail e := (keep (Some (nf, b)) (lo_res a), s, LRaised e) in
          match fb_res b with
          | None => fail EType
          | Some fr =>
              if (Ns <? 0)%Z then fail EValue else
              if negb (Nat.eqb nf nrv) then fail EValue else
              let N := Z.to_nat Ns in
              if Nat.eqb N 0 then (keep (Some (nf, b)) (Some LNaN), s, LDone) else
              match form_alpha nf fr, form_beta nf fr with
              | Some alpha, Fin beta =>
                  let ev := ls_ev k nrv A s in
                  let foots := map (fun j => foot nrv alpha (fun i => randn (i * N + j)%nat)) (seq 0 N) in
                  let pts := flat_map (fun v => line_trace ev v alpha beta) foots in
                  match ls_call k nrv A s (nth 0 pts (fun _ => 0)) with
                  | Some {| ev_out := OFuel |} => (keep (Some (nf, b)) (lo_res a), s, LRunning)
                  | _ =>
                      (keep (Some (nf, b)) (Some (LNum (ls_run nrv N randn ev (fun g lo hi => fst (brentq g lo hi)) alpha beta))),
                       fold_left (ls_state k nrv A) pts s, LDone)
                  end
              | _, _ =>
                  let calls := match evn with
                               | None => if Nat.eqb nrv k && Nat.eqb (length (sm_marg s)) k then (n_scan * N)%nat else 0%nat
                               | Some _ => 0%nat end in
                  (keep (Some (nf, b)) (Some LNaN), addCallFunction s calls, LDone)
              end
          end
      end
  end.
End Run.
