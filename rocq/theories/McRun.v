(** Model of whole CrudeMonteCarlo and ImportanceSampling analyses on a model object (mc.py 38-75,
    244-266, 268-343, 414-447 with analysis.py 48-98): the constructors, and run with its init_run and
    every block evaluated on the model object.  Definitions only. *)
From Coquelicot Require Import Coquelicot.
From Verif Require Import Base Ext Gauss StochModel LimitState Transf Form Nataf Dist Pipe Sorm Mc.
From Coq Require Import ZArith.

(** An object: the flag, the type of its transformation, the number of variables at construction (45),
    the sampling centre (a column with its number of rows; inner None: NaN, from a Form analysis that
    ended so), the records, Pf and beta (None: not computed yet). *)
Record mobj := mkMb {
  mb_valid : bool; mb_type : string; mb_nrv : nat;
  mb_point : option (nat * option vec);
  mb_st : mc_state;
  mb_res : option (R * xnum)
}.

(** 244-253 *)
Definition cmc_new (opt : option string) (point : option (nat * option vec)) (s : smodel) : result mobj :=
  rbind (form_init opt) (fun a => Ok (mkMb false (fb_type a) (length (sm_marg s)) point mc_fresh None)).

(** the run ended, raised, or is still running *)
Inductive mout := MEnd | MRaised (e : exn) | MRunning.

Section Run.
Variable fmin : (R -> R) -> R -> R.
Variable chol : nat -> mat -> result mat.
Variable svd : nat -> mat -> result (mat * vec).
Variable inv : nat -> mat -> result mat.
Variables fuel lf : nat.
Variable expr : expression.
(** the options: those FORM reads, and those of the simulation (the block size is one option) *)
Variable fo : form_opts.
Variable mo : mc_opts.
Variable evn : option exn.
(** the numbers np.random.randn yields, from the start of the program *)
Variable stream : nat -> R.

(** computeTransformation and computeLimitState, 90-110, for the points of one block.  [k] is the size
    of the transformation matrices.  u_to_x raises ValueError in np.dot if u has another size, and
    IndexError if there are more marginals than matrix rows (transformation.py 66-82; fewer there cannot
    be, as nrv marginals were registered at construction and none can be removed). *)
Definition mc_eval (k nrv : nat) (A : mat) (s : smodel) (us : list vec) : result (list R) * smodel :=
  let bad := match us with
             | [] => None
             | _ => if Nat.eqb nrv k then if Nat.eqb (length (sm_marg s)) k then None else Some EIndex else Some EValue
             end in
  match bad with
  | Some e => (Err e, s)
  | None =>
      let r := evaluate_lsf (S (length us)) s expr (fo_ls fo) (Some "no"%string) nrv (map (fun u => vlist nrv (u_to_x nrv A (marg_at s) u)) us) in
      (match ev_out r with ODone G _ => Ok G | ORaise e => Err e | OFuel => Err ERuntime end, ev_s r)
  end.

(** 273-334 with the model object.  After an exception the records are those of the finished blocks
    (k, which has been advanced already, is not), and the random numbers of the block are used up. *)
Fixpoint mc_loop_on (fl k nrv : nat) (A : mat) (p : vec) (st : mc_state) (s : smodel) : mc_state * smodel * mout :=
  match fl with
  | O => (st, s, MRunning)
  | S f =>
      if (ms_k st <? mo_samples mo)%Z then
        let b := Z.min (mo_block mo) (mo_samples mo - ms_k st) in
        if (b <? 0)%Z then (st, s, MRaised EValue)
        else if negb (mo_rg mo =? 0)%Z then (st, s, MRaised EType)
        else
          let us := map (draw nrv stream (ms_off st) (Z.to_nat b) p (mo_stdv mo)) (seq 0 (Z.to_nat b)) in
          let '(G, s') := mc_eval k nrv A s us in
          match mc_block nrv mo stream p (u_to_x nrv A (marg_at s)) (fun _ => G) st b with
          | Err e => (mkms (ms_k st) (ms_off st + nrv * Z.to_nat b) (ms_sum_q st) (ms_sum_q2 st) (ms_qbar st) (ms_cov st)
                        (ms_allG st) (ms_uall st) (ms_xall st) (ms_approx st) (ms_blocks st) (ms_hist st), s', MRaised e)
          | Ok st' => if Rleb (ms_cov st') (mo_target mo) then (st', s', MEnd) else mc_loop_on f k nrv A p st' s'
          end
      else (st, s, MEnd)
  end.

(** the sampling centre in the shape of the random numbers (83-88): (rows, 1) @ (1, b) + (nrv, b) *)
Definition centre (nrv : nat) (point : option (nat * option vec)) : result (option vec) :=
  match point with
  | None => Ok (Some (fun _ => 0))                                       (* setPoint, 76-81 *)
  | Some (rows, v) =>
      if Nat.eqb rows nrv then Ok v
      else if Nat.eqb rows 1 then Ok (option_map (fun w _ => w 0%nat) v)  (* broadcast *)
      else Err EValue                                                   (* here, or in u_to_x or np.dot (123-126) if nrv is 1 *)
  end.

(** run, 255-343, without the report.  [off] is the position in the stream of random numbers; the result
    carries it in the records.  With a NaN centre every value is NaN: no point fails, the weights are NaN,
    sum_q > 0 is False, so Pf and beta are 0 and the coefficient of variation 1; the records (NaN) are not
    modelled then. *)
Definition cmc_run_on (fl : nat) (a : mobj) (s : smodel) (off : nat) : mobj * smodel * mout :=
  let nrv := mb_nrv a in
  let '(s, r) := init_run_full fmin chol svd inv (mb_type a) s in
  match r with
  | Err e => (mkMb true (mb_type a) nrv (mb_point a) (mb_st a) (mb_res a), s, MRaised e)
  | Ok (_, A) =>
      let k := match sm_Ro s with Some M => length M | None => 0%nat end in
      let point := match mb_point a with None => Some (nrv, Some (fun _ => 0)) | q => q end in
      let fail e := (mkMb true (mb_type a) nrv point (mb_st a) (mb_res a), s, MRaised e) in
      if Reqb (mo_stdv mo) 0 then fail EZeroDiv else                      (* 352: (stdv**2)**(-1) *)
      if (mo_samples mo <? 0)%Z then fail EValue else
      if (mo_samples mo =? 0)%Z then fail EIndex else
      let st0 := mb_st a in
      let start := mkms 0 off 0 0 0 1 (ms_allG st0) (ms_uall st0) (ms_xall st0) (ms_approx st0) [] [] in
      match centre nrv point with
      | Err e => if (mo_block mo <? 0)%Z then fail EValue else if negb (mo_rg mo =? 0)%Z then fail EType else fail e
      | Ok None =>
          if (mo_block mo <? 0)%Z then fail EValue else
          if negb (mo_rg mo =? 0)%Z then fail EType else
          if negb (Nat.eqb nrv k) then fail EValue else
          if negb (Nat.eqb (length (sm_marg s)) k) then fail EIndex else
          if (o_multi_proc (fo_ls fo) =? 0)%Z then fail ENotImpl else
          match evn with
          | Some e => fail e
          | None =>
              if Rleb 1 (mo_target mo) then
                (mkMb true (mb_type a) nrv point start (Some (0, Fin 0)), addCallFunction s (Z.to_nat (Z.min (mo_block mo) (mo_samples mo))), MEnd)
              else if (mo_block mo =? 0)%Z then (mkMb true (mb_type a) nrv point start (mb_res a), s, MRunning)
              else (mkMb true (mb_type a) nrv point start (Some (0, Fin 0)), addCallFunction s (Z.to_nat (mo_samples mo)), MEnd)
          end
      | Ok (Some p) =>
          let '(st, s, out) := mc_loop_on fl k nrv A p start s in
          (mkMb true (mb_type a) nrv point st
             (match out with MEnd => Some (mc_Pf st, mc_beta st) | _ => mb_res a end), s, out)     (* 336-339 *)
      end
  end.

(** ImportanceSampling.__init__, 414-427: a Form analysis on the same arguments, then the design point as
    sampling centre *)
Definition is_new (opt : option string) (s : smodel) : result mobj * smodel :=
  match form_init opt with
  | Err e => (Err e, s)
  | Ok a =>
      let '(b, s', out) := run_form fmin chol svd inv fuel lf expr fo evn a s in
      (match out with
       | FDone r => cmc_new opt (Some (length (sm_marg s'), fr_u r)) s'
       | FRaise e => Err e
       | FFuel => Err ERuntime
       end, s')
  end.

(** ImportanceSampling.run, 429-447: init_run is executed twice; the print option is switched off and
    on again (Mc.is_run) *)
Definition is_run_on (fl : nat) (a : mobj) (s : smodel) (off : nat) : mobj * smodel * mout :=
  let '(s1, r) := init_run_full fmin chol svd inv (mb_type a) s in
  match r with
  | Err e => (mkMb true (mb_type a) (mb_nrv a) (mb_point a) (mb_st a) (mb_res a), s1, MRaised e)
  | Ok _ => cmc_run_on fl a s1 off
  end.
End Run.
