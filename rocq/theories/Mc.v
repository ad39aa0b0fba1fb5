(** Model of /repo/src/pystra/mc.py (plots and progress messages are not
    modelled).  Definitions only.

    The global NumPy generator is a stream of standard normal numbers;
    np.random.randn(nrv, b) takes nrv*b of them and fills its matrix row by
    row.  A matrix of points is the list of its columns (as vectors). *)
From Coquelicot Require Import Coquelicot.
From Verif Require Import Base Ext Gauss StochModel LimitState Transf Form Sorm.
From Coq Require Import ZArith.

(** AnalysisOptions used here (analysis.py 109-244). *)
Record mc_opts := mkmo {
  mo_samples : Z;
  mo_block : Z;
  mo_target : R;       (* getSimulationCov *)
  mo_stdv : R;         (* getSimulationStdv *)
  mo_rg : Z            (* getRandomGenerator *)
}.

(** np.append without axis flattens its arguments; a block is stored as a
    matrix (its columns), anything appended becomes flat. *)
Inductive arr := A2 (nrows : nat) (cols : list vec) | A1 (l : list R).
Definition flatten (a : arr) : list R :=
  match a with
  | A2 nr cols => flat_map (fun i => map (fun c : vec => c i) cols) (seq 0 nr)
  | A1 l => l
  end.
Definition np_append (a b : arr) : arr := A1 (flatten a ++ flatten b).

(** 76-81 *)
Definition setPoint (point : option vec) : vec :=
  match point with None => (fun _ => 0) | Some p => p end.

(** 350-352, 361: scaled identity matrices and the factor stdv ** nrv *)
Definition chol_cov (s : R) : mat := fun i j => s * meye i j.
Definition inv_cov (s : R) : mat := fun i j => / (s ^ 2) * meye i j.

(** 83-88: column j of the block whose draws start at [off] in the stream *)
Definition draw (nrv : nat) (stream : nat -> R) (off b : nat) (p : vec) (s : R) (j : nat) : vec :=
  fun i => p i + mvec nrv (chol_cov s) (fun k => stream (off + k * b + j)%nat) i.

(** 112-116 *)
Definition indicator (g : R) : R := if Rltb g 0 then 1 else 0.

(** 118-132: the weight of one point *)
Definition weight (nrv : nat) (p : vec) (s : R) (u : vec) (I : R) : R :=
  let d : vec := fun i => u i - p i in
  I * s ^ nrv * exp (- (1 / 2) * dot nrv u u + 1 / 2 * dot nrv d (mvec nrv (inv_cov s) d)).

(** 137-155, k >= 1 *)
Definition cov_update (k sum_q sum_q2 : R) : R * R :=
  if Rltb 0 sum_q then
    let q_bar := / k * sum_q in
    let var := / k * (/ k * sum_q2 - (/ k * sum_q) ^ 2) in
    let cov := sqrt var * / q_bar in
    (q_bar, if Reqb cov 0 then 1 else cov)
  else (0, 1).

(** The object during and after run().  [ms_blocks] is history (the points
    drawn, block by block); everything else is an attribute.
    [ms_cov]/[ms_qbar] are the entries at index k-1 of cov_q_bar and q_bar;
    [ms_hist] lists (k, q_bar, cov) for every block end. *)
Record mc_state := mkms {
  ms_k : Z;
  ms_off : nat;
  ms_sum_q : R;
  ms_sum_q2 : R;
  ms_qbar : R;
  ms_cov : R;
  ms_allG : option (list R);
  ms_uall : option arr;
  ms_xall : option arr;
  ms_approx : option (list R);
  ms_blocks : list (list vec);
  ms_hist : list (Z * R * R)
}.

Inductive mc_out := MDone (st : mc_state) | MRaise (e : exn) | MFuel.

Definition opt_app {A} (f : A -> A -> A) (a : option A) (b : A) : option A :=
  match a with None => Some b | Some a => Some (f a b) end.

Section Run.
  Variable nrv : nat.
  Variable o : mc_opts.
  Variable stream : nat -> R.
  Variable p : vec.                              (* self.point after setPoint *)
  Variable tox : vec -> vec.                     (* transform.u_to_x, column by column (92-105) *)
  Variable Gof : list vec -> result (list R).    (* 107-110: evaluate_lsf(..., "no") on the block *)

  (** 282-334, one pass of the loop after the block size b has been fixed *)
  Definition mc_block (st : mc_state) (b : Z) : result mc_state :=
    if (b <? 0)%Z then Err EValue                (* np.ones of a negative size *)
    else if negb (mo_rg o =? 0)%Z then Err EType (* self.u is still None *)
    else
      let bn := Z.to_nat b in
      let us := map (draw nrv stream (ms_off st) bn p (mo_stdv o)) (seq 0 bn) in
      match Gof us with
      | Err e => Err e
      | Ok G =>
          let q := map (fun ug => weight nrv p (mo_stdv o) (fst ug) (indicator (snd ug))) (combine us G) in
          let sum_q := ms_sum_q st + lsum q in
          let sum_q2 := ms_sum_q2 st + lsum (map (fun w => w ^ 2) q) in
          let k := (ms_k st + b)%Z in
          let qc := cov_update (IZR k) sum_q sum_q2 in
          Ok (mkms k (ms_off st + nrv * bn) sum_q sum_q2 (fst qc) (snd qc)
                (match ms_uall st with None => Some G | Some _ => opt_app (@app R) (ms_allG st) G end)  (* 299-303 *)
                (opt_app np_append (ms_uall st) (A2 nrv us))                                         (* 306-309 *)
                (match ms_xall st with
                 | None => Some (A2 nrv (map tox us))
                 | Some x => Some (np_append x (A2 nrv us))                                        (* 312-315 *)
                 end)
                (opt_app (@app R) (ms_approx st) (map (fun u => sqrt (dot nrv u u)) us))              (* 318-329 *)
                (ms_blocks st ++ [us]) (ms_hist st ++ [(k, fst qc, snd qc)]))
      end.

  (** 273-334 *)
  Fixpoint mc_loop (fuel : nat) (st : mc_state) : mc_out :=
    match fuel with
    | O => MFuel
    | S f =>
        if (ms_k st <? mo_samples o)%Z then
          match mc_block st (Z.min (mo_block o) (mo_samples o - ms_k st)) with
          | Err e => MRaise e
          | Ok st' => if Rleb (ms_cov st') (mo_target o) then MDone st' else mc_loop f st'   (* 332-333 *)
          end
        else MDone st
    end.

  (** 260-336 after init_run; [prev] is the object before (a fresh object has
      no records, a second run keeps them); [off] the position in the random
      stream.  np.zeros(samples) and cov_q_bar[0] = 1.0 raise for samples <= 0. *)
  Definition mc_run (fuel : nat) (prev : mc_state) (off : nat) : mc_out :=
    if (mo_samples o <? 0)%Z then MRaise EValue
    else if (mo_samples o =? 0)%Z then MRaise EIndex
    else mc_loop fuel (mkms 0 off 0 0 0 1 (ms_allG prev) (ms_uall prev) (ms_xall prev) (ms_approx prev) [] []).
End Run.

Definition mc_fresh : mc_state := mkms 0 0 0 0 0 1 None None None None [] [].

(** all points drawn, in order *)
Definition ms_pts (st : mc_state) : list vec := concat (ms_blocks st).

(** 164-176 *)
Definition mc_Pf (st : mc_state) : R := if Rltb 0 (ms_sum_q st) then ms_qbar st else 0.
Definition mc_beta (st : mc_state) : xnum :=
  if Rltb 0 (ms_sum_q st) then xneg (xppf (Fin (mc_Pf st))) else Fin 0.

(** 107-110 (and 90-105): the physical points of the block are passed to
    evaluate_lsf with gradient mode "no"; [form_trial] is the same call as in
    Form.  The inner evaluation loop always gets enough fuel. *)
Definition mc_limit_state (s : smodel) (expr : expression) (o : lsopts)
    (n : nat) (invT : mat) (m : nat -> rv) (us : list vec) : result (list R) :=
  fst (form_trial (S (length us)) s expr o n invT m us).

(** ImportanceSampling.run, 436-447: the print flag of the shared options.
    [init] is the outcome of init_run; [inner] is CrudeMonteCarlo.run, which gets
    the flag and returns it with its result; [shown a] tells whether showResults
    printed something for the result. *)
Record is_out (A : Type) := mkio { io_flag : bool; io_shown : bool; io_res : result A }.
Arguments mkio {A}. Arguments io_flag {A}. Arguments io_shown {A}. Arguments io_res {A}.

Definition is_run {A} (init : result unit) (inner : bool -> bool * result A) (shown : A -> bool) (flag : bool) : is_out A :=
  match init with
  | Err e => mkio flag false (Err e)
  | Ok _ =>
      let print_results := flag in                   (* 441 *)
      match inner false with                         (* 443-444 *)
      | (flag', Err e) => mkio flag' false (Err e)
      | (_, Ok a) =>
          let flag'' := print_results in             (* 446 *)
          mkio flag'' (if flag'' then shown a else false) (Ok a)
      end
  end.

(** DistributionAnalysis, 478-545.  all_X and all_G are arrays of
    [samples] columns, written block by block (537-541). *)
Record da_state := mkda { da_k : Z; da_off : nat; da_X : list vec; da_G : list R; da_pts : list vec }.

Definition write_cols {A} (k : nat) (vals l : list A) : list A :=
  firstn k l ++ vals ++ skipn (k + length vals) l.

Inductive da_out := DDone (st : da_state) | DRaise (e : exn) | DFuel.

Section Dist.
  Variable nrv : nat.
  Variable o : mc_opts.
  Variable stream : nat -> R.
  Variable tox : vec -> vec.
  Variable Gof : list vec -> result (list R).

  Fixpoint da_loop (fuel : nat) (st : da_state) : da_out :=
    match fuel with
    | O => DFuel
    | S f =>
        if (da_k st <? mo_samples o)%Z then
          let b := Z.min (mo_block o) (mo_samples o - da_k st) in
          if (b <? 0)%Z then DRaise EValue
          else if negb (mo_rg o =? 0)%Z then DRaise EType
          else
            let bn := Z.to_nat b in
            let us := map (draw nrv stream (da_off st) bn (fun _ => 0) (mo_stdv o)) (seq 0 bn) in
            match Gof us with
            | Err e => DRaise e
            | Ok G =>
                da_loop f (mkda (da_k st + b)%Z (da_off st + nrv * bn)%nat
                             (write_cols (Z.to_nat (da_k st)) (map tox us) (da_X st))
                             (write_cols (Z.to_nat (da_k st)) G (da_G st))
                             (da_pts st ++ us))
            end
        else DDone st
    end.

  Definition da_run (fuel : nat) (off : nat) : da_out :=
    if (mo_samples o <? 0)%Z then DRaise EValue
    else da_loop fuel (mkda 0 off (repeat (fun _ => 0) (Z.to_nat (mo_samples o)))
                                  (repeat 0 (Z.to_nat (mo_samples o))) []).
End Dist.
