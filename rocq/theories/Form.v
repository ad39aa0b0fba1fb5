(** Model of [Form] (/repo/src/pystra/form.py).  Definitions only. *)
From Coquelicot Require Import Coquelicot.
From Verif Require Import Base Ext Gauss StochModel LimitState Transf.
From Coq Require Import ZArith.

(** AnalysisOptions consulted by Form (analysis.py 109-244). *)
Record form_opts := mkfo {
  fo_imax : Z;          (* getImax *)
  fo_e1 : R;
  fo_e2 : R;
  fo_step : R;          (* getStepSize; 0 = automatic *)
  fo_ls : lsopts
}.

(** form.py 212-219: ntrial = 6, 0.5 ** np.arange(0, ntrial) *)
Definition ntrial : nat := 6.
Definition trial_steps : list R := map (fun k => (1 / 2) ^ k) (seq 0 ntrial).

(** form.py 245-254: the while loop; [k] = ntrial - j *)
Fixpoint step_while (k j : nat) (merit : R) (T M : list R) (step merit_new : R) : R :=
  match k with
  | O => step
  | S k' => if Rltb merit merit_new
            then step_while k' (S j) merit T M (nth j T 0) (nth j M 0)
            else step
  end.

(** form.py 173-175 *)
Definition alpha_of (n : nat) (g : vec) : vec := fun i => - g i * / norm n g.

(** form.py 184-188 *)
Definition search_dir (n : nat) (G : R) (g u : vec) : vec :=
  let a := alpha_of n g in
  fun i => (G * / norm n g + dot n a u) * a i - u i.

(** form.py 208-209 *)
Definition penalty (n : nat) (g u : vec) : R := norm n u * / norm n g * 2 + 10.
Definition merit_of (n : nat) (c : R) (u : vec) (G : R) : R :=
  1 / 2 * (norm n u) ^ 2 + c * Rabs G.

(** form.py 99-100: e1 = |G * Go ** (-1)| (IEEE: Go = 0 gives inf or nan),
    e2 = || u - (alpha . u) alpha || *)
Definition e1_of (G Go : R) : xnum := xabs (xmul (Fin G) (xinv Go)).
Definition e2_of (n : nat) (a u : vec) : R := norm n (fun i => u i - dot n a u * a i).

(** What run() leaves in the object.  [fr_u = None] stands for a u vector of
    NaNs (then alpha, beta and Pf are NaN as well); G and the gradient are those
    of the last evaluation. *)
Record form_res := mkfr {
  fr_i : Z;
  fr_u : option vec;
  fr_G : R;
  fr_Go : R;
  fr_grad : vec
}.

Inductive form_out := FDone (r : form_res) | FRaise (e : exn) | FFuel.

(** The loop is written over the evaluation at a u-point (x = u_to_x(u), inverse
    Jacobian, evaluate_lsf, pull-back: lines 83-89, [form_ev] below), over the
    evaluation of the trial points without gradient (line 234), and over what
    an evaluation at a NaN point does ([evn]: the exception it raises, if any).
    The evaluations report how many calls they add to the model's counter. *)
Section Loop.
  Variable n : nat.
  Variable o : form_opts.
  Variable ev : vec -> result (R * vec) * nat.
  Variable trial : list vec -> result (list R) * nat.
  Variable evn : option exn.

  (** form.py 202-262; for getMultiProc() not in {0, 1}, trial_step_size is
      unbound at line 261 (UnboundLocalError, [EException] here); for 0
      evaluate_lsf raised before. *)
  Definition computeStepSize (G : R) (g u d : vec) : result R * nat :=
    let c := penalty n g u in
    let merit := merit_of n c u G in
    let Trial_u := map (fun t => fun i => u i + d i * t) trial_steps in
    if (o_multi_proc (fo_ls o) =? 1)%Z then
      match trial Trial_u with
      | (Err e, k) => (Err e, k)
      | (Ok Gs, k) =>
          let M := map (fun uG => merit_of n c (fst uG) (snd uG)) (combine Trial_u Gs) in
          (Ok (step_while ntrial 0 merit trial_steps M (nth 0 trial_steps 0) (nth 0 M 0)), k)
      end
    else (Err EException, 0%nat).

  (** form.py 190-200 *)
  Definition getStepSize (G : R) (g u d : vec) : result R * nat :=
    if Reqb (fo_step o) 0 then computeStepSize G g u d else (Ok (fo_step o), 0%nat).

  (** calls per evaluation of one point: model.py 277, 323, 334 *)
  Definition eval_cost : nat :=
    if String.eqb (o_diff_mode (fo_ls o)) "no" then 1%nat
    else if String.eqb (o_diff_mode (fo_ls o)) "ddm" then 1%nat else (1 + n)%nat.

  (** The step from a point with a NaN direction (form.py 190-262): the trial points are NaN and
      are evaluated, the merit comparison is False and the step is irrelevant.  The calls made. *)
  Definition nan_step : result nat :=
    if Reqb (fo_step o) 0 then
      if (o_multi_proc (fo_ls o) =? 1)%Z then match evn with Some e => Err e | None => Ok ntrial end
      else Err EException
    else Ok 0%nat.

  (** form.py 75-131.  [Go = None] before the first evaluation (i = 1).
      A zero gradient gives norm ** (-1) = inf and alpha = 0 * inf = nan, so e2
      is nan, the comparison is False, d and the next u are nan; from then on u
      stays nan and only i == i_max can end the loop.  [calls] accumulates the
      calls to the limit state function, those at NaN points included. *)
  Fixpoint form_loop (fuel : nat) (i : Z) (Go : option R) (us : option vec)
      (lastG : R) (lastg : vec) (calls : nat) : form_out * nat :=
    match fuel with
    | O => (FFuel, calls)
    | S f =>
        match us with
        | None =>
            match evn with
            | Some e => (FRaise e, calls)
            | None =>
                let calls := (calls + eval_cost)%nat in
                if (i =? fo_imax o)%Z
                then (FDone (mkfr i None lastG (match Go with Some q => q | None => lastG end) lastg), calls)
                else match nan_step with
                     | Err e => (FRaise e, calls)
                     | Ok k2 => form_loop f (i + 1)%Z Go None lastG lastg (calls + k2)%nat
                     end
            end
        | Some u =>
            match ev u with
            | (Err e, k) => (FRaise e, (calls + k)%nat)
            | (Ok (G, g), k) =>
                let Go' := match Go with None => G | Some q => q end in
                if Reqb (norm n g) 0 then
                  if (i =? fo_imax o)%Z then (FDone (mkfr i None G Go' g), (calls + k)%nat)
                  else match nan_step with
                       | Err e => (FRaise e, (calls + k)%nat)
                       | Ok k2 => form_loop f (i + 1)%Z (Some Go') None G g (calls + k + k2)%nat
                       end
                else
                  let a := alpha_of n g in
                  let e1 := e1_of G Go' in
                  let e2 := e2_of n a u in
                  let condition1 := xltb e1 (Fin (fo_e1 o)) in
                  let condition2 := Rltb e2 (fo_e2 o) in
                  let condition3 := (i =? fo_imax o)%Z in
                  if (condition1 && condition2) || condition3
                  then (FDone (mkfr i (Some u) G Go' g), (calls + k)%nat)
                  else
                    let d := search_dir n G g u in
                    match getStepSize G g u d with
                    | (Err e, k2) => (FRaise e, (calls + k + k2)%nat)
                    | (Ok t, k2) =>
                        form_loop f (i + 1)%Z (Some Go') (Some (fun j => u j + t * d j)) G g (calls + k + k2)%nat
                    end
            end
        end
    end.

  (** form.py 60-143, from the starting point u0 *)
  Definition form_run (fuel : nat) (u0 : vec) : form_out * nat :=
    form_loop fuel 1 None (Some u0) 0 (fun _ => 0) 0.
End Loop.

(** form.py 264-270 and the accessors 338-384 *)
Definition form_alpha (n : nat) (r : form_res) : option vec :=
  match fr_u r with None => None | Some _ => Some (alpha_of n (fr_grad r)) end.
Definition form_beta (n : nat) (r : form_res) : xnum :=
  match fr_u r with None => NaN | Some u => Fin (dot n (alpha_of n (fr_grad r)) u) end.
Definition form_Pf (n : nat) (r : form_res) : xnum :=
  match form_beta n r with Fin b => Fin (Phi (- b)) | _ => NaN end.

(** getAlpha(as_dict=True), form.py 366-370: zip stops at the shorter list; the
    names are all names of the model, constants included, in insertion order. *)
Definition zip_dict {V} (names : list string) (vals : list V) : list (string * V) :=
  fold_left (fun d nv => dict_set d (fst nv) (snd nv)) (combine names vals) [].
Definition getAlpha_dict (s : smodel) (alphas : list R) : list (string * R) :=
  zip_dict (sm_names s) alphas.

(** The evaluation used by run: form.py 153-171.  The Jacobian is inverted
    before the limit state is evaluated (so the in-place change of self.x by
    evaluate_ffd does not reach it).  The model object passed in is the one
    before the run: evaluate_lsf consults it only for names, constants and
    standard deviations, which do not change. *)
Definition form_ev (fuel : nat) (s : smodel) (expr : expression) (o : lsopts)
    (n : nat) (T invT : mat) (inv : nat -> mat -> result mat) (m : nat -> rv)
    (u : vec) : result (R * vec) * nat :=
  let x := computeTransformation n invT m u in
  match inv n (jacobian n T invT m u x) with
  | Err e => (Err e, 0%nat)
  | Ok J =>
      let r := evaluate_lsf fuel s expr o None n [vlist n x] in
      let k := (sm_calls (ev_s r) - sm_calls s)%nat in
      match ev_out r with
      | ODone G grad => (Ok (nth 0 G 0, pull_gradient n (vof (nth 0 grad [])) J), k)
      | ORaise e => (Err e, k)
      | OFuel => (Err ERuntime, k)
      end
  end.

(** form.py 226-236 *)
Definition form_trial (fuel : nat) (s : smodel) (expr : expression) (o : lsopts)
    (n : nat) (invT : mat) (m : nat -> rv) (us : list vec) : result (list R) * nat :=
  let r := evaluate_lsf fuel s expr o (Some "no"%string) n (map (fun u => vlist n (u_to_x n invT m u)) us) in
  let k := (sm_calls (ev_s r) - sm_calls s)%nat in
  match ev_out r with
  | ODone G _ => (Ok G, k)
  | ORaise e => (Err e, k)
  | OFuel => (Err ERuntime, k)
  end.
