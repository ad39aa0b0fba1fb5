(** Model of a whole DistributionAnalysis on a model object (mc.py 475-612 with 38-110, 178-190 and
    analysis.py 48-98): the constructor, run, and the figures of showResults (their titles and data; the
    drawing itself is matplotlib's).  Definitions only. *)
From Coquelicot Require Import Coquelicot.
From Verif Require Import Base Ext Gauss StochModel LimitState Transf Form Nataf Dist Pipe Sorm Mc McRun.
From Coq Require Import ZArith.

(** An object: the flag, the type of its transformation, the number of variables at construction (45), the
    record (None before initializeVariables) and the number of bins. *)
Record dobj := mkDb { db_valid : bool; db_type : string; db_nrv : nat; db_st : option da_state; db_bins : option Z }.

(** 488-489 with 38-75 *)
Definition da_new (opt : option string) (s : smodel) : result dobj :=
  rbind (form_init opt) (fun a => Ok (mkDb false (fb_type a) (length (sm_marg s)) None None)).

(** np.ceil *)
Definition ceilZ (x : R) : Z := (- Int_part (- x))%Z.
(** 178-190; [bins] is options.bins *)
Definition computeBins (bins : option Z) (samples : Z) : Z :=
  match bins with Some b => b | None => ceilZ (4 * sqrt (sqrt (IZR samples))) end.

Section Run.
Variable fmin : (R -> R) -> R -> R.
Variable chol : nat -> mat -> result mat.
Variable svd : nat -> mat -> result (mat * vec).
Variable inv : nat -> mat -> result mat.
Variable expr : expression.
Variable fo : form_opts.
Variable mo : mc_opts.
Variable bins : option Z.
Variable stream : nat -> R.

(** 502-522 with the model object; the block is 83-110 (McRun.mc_eval) and 548-552.  With another generator
    self.u is still None on an object that never ran (TypeError); the stale points an earlier run leaves in
    self.u are not modelled. *)
Fixpoint da_loop_on (fl k nrv : nat) (A : mat) (st : da_state) (s : smodel) : da_state * smodel * mout :=
  match fl with
  | O => (st, s, MRunning)
  | S f =>
      if (da_k st <? mo_samples mo)%Z then
        let b := Z.min (mo_block mo) (mo_samples mo - da_k st) in
        if (b <? 0)%Z then (st, s, MRaised EValue)
        else if negb (mo_rg mo =? 0)%Z then (st, s, MRaised EType)
        else
          let bn := Z.to_nat b in
          let us := map (draw nrv stream (da_off st) bn (fun _ => 0) (mo_stdv mo)) (seq 0 bn) in
          let '(G, s') := mc_eval expr fo k nrv A s us in
          match G with
          | Err e => (mkda (da_k st) (da_off st + nrv * bn) (da_X st) (da_G st) (da_pts st), s', MRaised e)
          | Ok G =>
              da_loop_on f k nrv A
                (mkda (da_k st + b)%Z (da_off st + nrv * bn)%nat
                   (write_cols (Z.to_nat (da_k st)) (map (u_to_x nrv A (marg_at s)) us) (da_X st))
                   (write_cols (Z.to_nat (da_k st)) G (da_G st))
                   (da_pts st ++ us)) s'
          end
      else (st, s, MEnd)
  end.

(** 491-529 without the report: the flag, init_run, setPoint (the origin), initializeVariables, the loop;
    computeDistributionData transposes all_G.  [off] is the position in the stream of random numbers. *)
Definition da_run_on (fl : nat) (a : dobj) (s : smodel) (off : nat) : dobj * smodel * mout :=
  let nrv := db_nrv a in
  let '(s, r) := init_run_full fmin chol svd inv (db_type a) s in
  match r with
  | Err e => (mkDb true (db_type a) nrv (db_st a) (db_bins a), s, MRaised e)
  | Ok (_, A) =>
      let k := match sm_Ro s with Some M => length M | None => 0%nat end in
      if (mo_samples mo <? 0)%Z then (mkDb true (db_type a) nrv (db_st a) (db_bins a), s, MRaised EValue)   (* np.zeros *)
      else
        let N := Z.to_nat (mo_samples mo) in
        let '(st, s, out) := da_loop_on fl k nrv A (mkda 0 off (repeat (fun _ => 0) N) (repeat 0 N) []) s in
        (mkDb true (db_type a) nrv (Some st) (Some (computeBins bins (mo_samples mo))), s, out)
  end.
End Run.

(** A figure: its title, the data of the histogram, the number of bins, and the position of the marginal
    whose density is drawn over it *)
Record figure := mkFig { fg_title : string; fg_data : list R; fg_bins : Z; fg_ref : option nat }.

(** showResults, 560-612.  np.min and the histogram of no data raise ValueError. *)
Definition da_show (a : dobj) (s : smodel) : result (list figure) :=
  if negb (db_valid a) then Err EValue else
  match db_st a, db_bins a with
  | Some st, Some b =>
      rbind (fold_right (fun i acc => rbind acc (fun l =>
               match da_X st with
               | [] => Err EValue
               | _ => match nth_error (sm_names s) i with
                      | None => Err EIndex
                      | Some nm => Ok (mkFig ("Distribution Analysis for " ++ nm)%string (map (fun x : vec => x i) (da_X st)) b (Some i) :: l)
                      end
               end)) (Ok []) (seq 0 (db_nrv a)))
            (fun l => Ok (l ++ [mkFig "Distribution Analysis for the Limit State Function" (da_G st) b None]))
  | _, _ => if Nat.eqb (db_nrv a) 0 then Err EValue else Err EType
  end.
