(** Model of [SubsetSimulation] (/repo/src/pystra/ss.py; messages and the
    public getters are not modelled).  Definitions only.

    Limit-state values are finite reals (no NaN).  The global generator is two
    streams: [randn] for np.random.randn and [unif] (numbers in [0,1)) for
    np.random.rand and np.random.uniform(-1, 1) = -1 + 2 U; [pos] is the position
    in [unif]. *)
From Coquelicot Require Import Coquelicot.
From Verif Require Import Base Ext Gauss StochModel LimitState Transf Form Sorm.
From Coq Require Import ZArith.

(** np.percentile(G, 100 q), default "linear" method, for a non-empty array:
    sorted values s, virtual index h = q (N-1), s[k] + (h-k)(s[k+1]-s[k]) with
    k = floor h (numpy/lib/function_base, not part of /repo). *)
Fixpoint insert (x : R) (l : list R) : list R :=
  match l with
  | [] => [x]
  | y :: r => if Rleb x y then x :: l else y :: insert x r
  end.
Fixpoint sort (l : list R) : list R :=
  match l with [] => [] | x :: r => insert x (sort r) end.

Definition percentile (G : list R) (q : R) : R :=
  let s := sort G in
  let h := q * INR (length G - 1) in
  let k := Z.to_nat (Int_part h) in
  let lo := nth k s 0 in
  let hi := nth (Nat.min (S k) (length G - 1)) s 0 in
  lo + (h - INR k) * (hi - lo).

(** np.sum(G <= y) *)
Definition count_le (G : list R) (y : R) : nat := length (filter (fun g => Rleb g y) G).

(** lines 80-81 *)
Definition ss_init (p0 : R) : result unit := if Rltb 0 p0 && Rltb p0 1 then Ok tt else Err EValue.

(** 248: np.log(rand) < log_alpha; np.log(0.0) is -inf *)
Definition log_lt (r a : R) : bool := if Rltb 0 r then Rltb (ln r) a else true.

(** 244-249: one component *)
Definition accept_comp (u xi r : R) : bool := log_lt r (- (1 / 2) * (xi ^ 2 - u ^ 2)).
Definition propose (sigma u r : R) : R := u + sigma * (-1 + 2 * r).

Inductive ss_level_out := LvDone (out : list (vec * R)) (pos calls : nat) | LvRaise (e : exn).

Record ss_state := mkss {
  ss_thresholds : list R;
  ss_probs : list R;
  ss_Pf : R;
  ss_nlevels : nat;
  ss_levels : list (list (vec * R));     (* history: the samples of every level with their G values *)
  ss_calls : nat                         (* history: limit-state evaluations *)
}.
Inductive ss_out := SDone (st : ss_state) | SRaise (e : exn) | SFuel.

Section Run.
  Variable nrv : nat.
  Variable N : nat.                              (* options.getSamples() *)
  Variable block : Z.                            (* options.getBlockSize() *)
  Variables (p0 sigma : R).
  Variables (randn unif : nat -> R).
  Variable Gof : list vec -> result (list R).    (* u_to_x column by column, evaluate_lsf(..., "no") *)

  (** 188-203; [us] is the rest of the columns.  range(0, N, 0) raises; a negative
      step gives an empty range and leaves G uninitialised (modelled as an error). *)
  Fixpoint eval_blocks (fuel : nat) (us : list vec) : result (list R) :=
    match fuel with
    | O => Ok []
    | S f =>
        match us with
        | [] => Ok []
        | _ =>
            match Gof (firstn (Z.to_nat block) us) with
            | Err e => Err e
            | Ok G => match eval_blocks f (skipn (Z.to_nat block) us) with
                      | Err e => Err e
                      | Ok G' => Ok (G ++ G')
                      end
            end
        end
    end.
  Definition eval_g_batch (us : list vec) : result (list R) :=
    if (block <=? 0)%Z then Err EValue else eval_blocks (length us) us.

  (** 241-249: the component-wise proposal from u_curr *)
  Definition mmh_prop (u : vec) (pos : nat) : vec := fun d =>
    let xi := propose sigma (u d) (unif (pos + 2 * d)%nat) in
    if Nat.ltb d nrv && accept_comp (u d) xi (unif (pos + 2 * d + 1)%nat) then xi else u d.

  (** 239-264: one chain of n samples *)
  Fixpoint mmh_chain (n : nat) (threshold : R) (u : vec) (g : R) (pos calls : nat) (acc : list (vec * R)) : ss_level_out :=
    match n with
    | O => LvDone acc pos calls
    | S n' =>
        let up := mmh_prop u pos in
        match Gof [up] with
        | Err e => LvRaise e
        | Ok Gp =>
            let gp := nth 0 Gp 0 in
            let ug := if Rleb gp threshold then (up, gp) else (u, g) in
            mmh_chain n' threshold (fst ug) (snd ug) (pos + 2 * nrv)%nat (S calls) (acc ++ [ug])
        end
    end.

  (** 228-267; u_out and G_out are arrays of N slots, slot [idx] = length of the
      accumulated list being written next *)
  Definition chain_len (Ns s : nat) : nat :=
    let base := (N / Ns)%nat in
    let remainder := (N - base * Ns)%nat in
    (base + (if Nat.ltb s remainder then 1 else 0))%nat.

  Fixpoint mmh_chains (Ns s : nat) (seeds : list (vec * R)) (threshold : R) (pos calls : nat) (acc : list (vec * R)) : ss_level_out :=
    match seeds with
    | [] => LvDone acc pos calls
    | (u, g) :: rest =>
        match mmh_chain (chain_len Ns s) threshold u g pos calls acc with
        | LvRaise e => LvRaise e
        | LvDone acc' pos' calls' => mmh_chains Ns (S s) rest threshold pos' calls' acc'
        end
    end.
  Definition mmh_step (seeds : list (vec * R)) (threshold : R) (pos calls : nat) : ss_level_out :=
    match seeds with
    | [] => LvRaise EZeroDiv                     (* N // 0 *)
    | _ => mmh_chains (length seeds) 0 seeds threshold pos calls []
    end.

  (** 136-161; [level] counts completed levels; thresholds and probabilities grow *)
  Definition seeds_of (smp : list (vec * R)) (y : R) : list (vec * R) := filter (fun ug => Rleb (snd ug) y) smp.

  Fixpoint ss_loop (fuel : nat) (st : ss_state) (seeds : list (vec * R)) (y : R) (pos level : nat) : ss_out :=
    match fuel with
    | O => SFuel
    | S f =>
        match mmh_step seeds y pos (ss_calls st) with
        | LvRaise e => SRaise e
        | LvDone smp pos' calls' =>
            let Gn := map snd smp in
            let y_new := percentile Gn p0 in
            if Rleb y_new 0 then
              let p_last := INR (count_le Gn 0) / INR N in
              SDone (mkss (ss_thresholds st ++ [0]) (ss_probs st ++ [p_last]) (ss_Pf st * p_last)
                       (level + 1) (ss_levels st ++ [smp]) calls')
            else
              let p_lvl := INR (count_le Gn y_new) / INR N in
              ss_loop f (mkss (ss_thresholds st ++ [y_new]) (ss_probs st ++ [p_lvl]) (ss_Pf st * p_lvl)
                           (ss_nlevels st) (ss_levels st ++ [smp]) calls')
                (seeds_of smp y_new) y_new pos' (level + 1)
        end
    end.

  (** 91-164 *)
  Definition ss_run (fuel : nat) : ss_out :=
    let u := map (fun j => (fun i => randn (i * N + j)%nat) : vec) (seq 0 N) in
    match eval_g_batch u with
    | Err e => SRaise e
    | Ok G =>
        let smp := combine u G in
        let y := percentile G p0 in
        if Rleb y 0 then
          let Pf := INR (count_le G 0) / INR N in
          SDone (mkss [0] [Pf] Pf 1 [smp] N)
        else
          let p_lvl := INR (count_le G y) / INR N in
          ss_loop fuel (mkss [y] [p_lvl] p_lvl 0 [smp] N) (seeds_of smp y) y 0 1
    end.
End Run.

(** 170-183 *)
Definition ss_beta (st : ss_state) : xnum :=
  if Rltb 0 (ss_Pf st) && Rltb (ss_Pf st) 1 then xneg (xppf (Fin (ss_Pf st)))
  else if Rleb (ss_Pf st) 0 then PInf else NInf.
Definition ss_cov (N : nat) (st : ss_state) : R :=
  let d := lsum (map (fun p => (1 - p) / (INR N * p)) (filter (fun p => Rltb 0 p) (ss_probs st))) in
  if Rltb 0 d then sqrt d else 0.
