(** Model of a whole SubsetSimulation analysis on a model object (ss.py 66-164, 170-267 with analysis.py
    48-98): the constructor, and run with init_run and every evaluation made on the model object.
    Definitions only.  Messages are not modelled. *)
From Coquelicot Require Import Coquelicot.
From Verif Require Import Base Ext Gauss StochModel LimitState Transf Form Nataf Dist Pipe Sorm Mc McRun Ss.
From Coq Require Import ZArith.

(** An object: the flag, the type of its transformation, p0, proposal_sigma, thresholds,
    conditional_probs, (Pf, beta, cov) and n_levels (None: not computed yet).  [sv_st] is history. *)
Record sobj := mkSv {
  sv_valid : bool; sv_type : string; sv_p0 : R; sv_sigma : R;
  sv_thr : list R; sv_probs : list R;
  sv_res : option (R * xnum * R); sv_nlev : option nat;
  sv_st : option ss_state
}.

(** 66-88 *)
Definition ss_new (opt : option string) (p0 sigma : R) : result sobj :=
  rbind (form_init opt) (fun a => rbind (ss_init p0) (fun _ => Ok (mkSv false (fb_type a) p0 sigma [] [] None None None))).

(** the run ended, raised, or is still running *)
Inductive sout := SEnd | SRaised (e : exn) | SRunning.

Section Run.
Variable fmin : (R -> R) -> R -> R.
Variable chol : nat -> mat -> result mat.
Variable svd : nat -> mat -> result (mat * vec).
Variable inv : nat -> mat -> result mat.
Variable expr : expression.
Variable fo : form_opts.          (* only the options of the limit state are read *)
Variable Ns : Z.                  (* options.getSamples() *)
Variables randn unif : nat -> R.  (* the next numbers of np.random.randn, and of rand and uniform *)

Section Loop.
Variables (k nrv N : nat) (A : mat) (p0 sigma : R).

(** the points are transformed and evaluated on the model object: 195-202 for a block, 252-256 for one *)
Definition sv_eval := mc_eval expr fo k nrv A.

(** 188-203 *)
Fixpoint eval_blocks_on (fl : nat) (us : list vec) (s : smodel) : result (list R) * smodel :=
  match fl with
  | O => (Ok [], s)
  | S f =>
      match us with
      | [] => (Ok [], s)
      | _ =>
          let b := Z.to_nat (o_block_size (fo_ls fo)) in
          let '(G, s) := sv_eval s (firstn b us) in
          match G with
          | Err e => (Err e, s)
          | Ok G =>
              let '(G', s) := eval_blocks_on f (skipn b us) s in
              (match G' with Err e => Err e | Ok G' => Ok (G ++ G') end, s)
          end
      end
  end.
Definition eval_g_batch_on (us : list vec) (s : smodel) : result (list R) * smodel :=
  if (o_block_size (fo_ls fo) <=? 0)%Z then (Err EValue, s) else eval_blocks_on (length us) us s.

(** 239-264 *)
Fixpoint mmh_chain_on (m : nat) (threshold : R) (u : vec) (g : R) (pos calls : nat) (acc : list (vec * R)) (s : smodel) : ss_level_out * smodel :=
  match m with
  | O => (LvDone acc pos calls, s)
  | S m' =>
      let up := mmh_prop nrv sigma unif u pos in
      let '(G, s) := sv_eval s [up] in
      match G with
      | Err e => (LvRaise e, s)
      | Ok Gp =>
          let gp := nth 0 Gp 0 in
          let ug := if Rleb gp threshold then (up, gp) else (u, g) in
          mmh_chain_on m' threshold (fst ug) (snd ug) (pos + 2 * nrv)%nat (S calls) (acc ++ [ug]) s
      end
  end.

(** 228-267 *)
Fixpoint mmh_chains_on (Nc i : nat) (seeds : list (vec * R)) (threshold : R) (pos calls : nat) (acc : list (vec * R)) (s : smodel) : ss_level_out * smodel :=
  match seeds with
  | [] => (LvDone acc pos calls, s)
  | (u, g) :: rest =>
      let '(r, s) := mmh_chain_on (chain_len N Nc i) threshold u g pos calls acc s in
      match r with
      | LvRaise e => (LvRaise e, s)
      | LvDone acc' pos' calls' => mmh_chains_on Nc (S i) rest threshold pos' calls' acc' s
      end
  end.
Definition mmh_step_on (seeds : list (vec * R)) (threshold : R) (pos calls : nat) (s : smodel) : ss_level_out * smodel :=
  match seeds with
  | [] => (LvRaise EZeroDiv, s)
  | _ => mmh_chains_on (length seeds) 0 seeds threshold pos calls [] s
  end.

(** 136-161.  The first component is what thresholds and conditional_probs hold when the loop is left. *)
Fixpoint ss_loop_on (fl : nat) (st : ss_state) (seeds : list (vec * R)) (y : R) (pos level : nat) (s : smodel) : ss_state * smodel * sout :=
  match fl with
  | O => (st, s, SRunning)
  | S f =>
      let '(r, s) := mmh_step_on seeds y pos (ss_calls st) s in
      match r with
      | LvRaise e => (st, s, SRaised e)
      | LvDone smp pos' calls' =>
          let Gn := map snd smp in
          let y_new := percentile Gn p0 in
          if Rleb y_new 0 then
            let p_last := INR (count_le Gn 0) / INR N in
            (mkss (ss_thresholds st ++ [0]) (ss_probs st ++ [p_last]) (ss_Pf st * p_last) (level + 1) (ss_levels st ++ [smp]) calls', s, SEnd)
          else
            let p_lvl := INR (count_le Gn y_new) / INR N in
            ss_loop_on f (mkss (ss_thresholds st ++ [y_new]) (ss_probs st ++ [p_lvl]) (ss_Pf st * p_lvl) (ss_nlevels st) (ss_levels st ++ [smp]) calls')
              (seeds_of smp y_new) y_new pos' (level + 1) s
      end
  end.

(** 96-164 *)
Definition ss_body (fl : nat) (s : smodel) : ss_state * smodel * sout :=
  let u := map (fun j => (fun i => randn (i * N + j)%nat) : vec) (seq 0 N) in
  let none := mkss [] [] 0 0 [] 0 in
  let '(G, s) := eval_g_batch_on u s in
  match G with
  | Err e => (none, s, SRaised e)
  | Ok G =>
      let smp := combine u G in
      let y := percentile G p0 in
      if Rleb y 0 then
        let Pf := INR (count_le G 0) / INR N in (mkss [0] [Pf] Pf 1 [smp] N, s, SEnd)
      else
        let p_lvl := INR (count_le G y) / INR N in
        ss_loop_on fl (mkss [y] [p_lvl] p_lvl 0 [smp] N) (seeds_of smp y) y 0 1 s
  end.
End Loop.

(** run, 90-164 with _finalise.  The number of variables is read from the model at every run.  randn raises
    for a negative number of samples; the percentile of no values raises IndexError (NumPy >= 1.22), after
    an evaluation of nothing (range raises for a zero step). *)
Definition ss_run_on (fl : nat) (a : sobj) (s : smodel) : sobj * smodel * sout :=
  let '(s, r) := init_run_full fmin chol svd inv (sv_type a) s in
  match r with
  | Err e => (mkSv true (sv_type a) (sv_p0 a) (sv_sigma a) (sv_thr a) (sv_probs a) (sv_res a) (sv_nlev a) (sv_st a), s, SRaised e)
  | Ok (_, A) =>
      let k := match sm_Ro s with Some M => length M | None => 0%nat end in
      let nrv := length (sm_marg s) in
      let fail e := (mkSv true (sv_type a) (sv_p0 a) (sv_sigma a) [] [] (sv_res a) (sv_nlev a) (sv_st a), s, SRaised e) in
      if (Ns <? 0)%Z then fail EValue else
      if (Ns =? 0)%Z then (if (o_block_size (fo_ls fo) =? 0)%Z then fail EValue else fail EIndex) else
      let N := Z.to_nat Ns in
      let '(st, s, out) := ss_body k nrv N A (sv_p0 a) (sv_sigma a) fl s in
      (match out with
       | SEnd => mkSv true (sv_type a) (sv_p0 a) (sv_sigma a) (ss_thresholds st) (ss_probs st) (Some (ss_Pf st, ss_beta st, ss_cov N st)) (Some (ss_nlevels st)) (Some st)
       | _ => mkSv true (sv_type a) (sv_p0 a) (sv_sigma a) (ss_thresholds st) (ss_probs st) (sv_res a) (sv_nlev a) (sv_st a)
       end, s, out)
  end.
End Run.
