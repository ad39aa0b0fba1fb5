(** Model of a whole Form analysis on a StochasticModel object: AnalysisObject.init_run
    (analysis.py 72-98) with setModifiedCorrelationMatrix (correlation.py 169-184), and Form.run
    (form.py 60-143) with the model object threaded through every evaluation.  Definitions only. *)
From Coquelicot Require Import Coquelicot.
From Verif Require Import Base Ext Gauss StochModel LimitState Transf Form Nataf Dist.
From Coq Require Import ZArith.

(** a Distribution object of any class under a name, as the stochastic model stores it *)
Definition rv_of (name : string) (d : dist) (start : R) : rv :=
  mkrv name (d_mean d) (d_stdv d) start (d_u2x d) (d_x2u d) (d_jac d).
(** Normal(name, mean, stdv): normal.py 23-33 *)
Definition Normal (name : string) (mean stdv : R) : rv :=
  let s := normal_init mean stdv None in rv_of name (normal_dist s) (no_start s).

(** a stored matrix (list of rows) read by index, and back *)
Definition mat_of (M : list (list R)) : mat := fun i j => nth j (nth i M []) 0.
Definition rows_of (n : nat) (A : mat) : list (list R) := map (fun i => map (fun j => A i j) (seq 0 n)) (seq 0 n).

(** what correlation.py reads off a marginal; pdf and the derivatives are not used there *)
Definition marg_of (d : rv) : marg := mkMarg (rv_mean d) (rv_stdv d) (rv_u2x d) (fun _ => 0) (fun _ _ => 0) (fun _ => (0, 0)).
Definition rv0 : rv := mkrv "" 0 0 0 (fun u => u) (fun x => x) (fun _ _ => 1).
Definition marg_at (s : smodel) (i : nat) : rv := nth i (sm_marg s) rv0.

Section Run.
Variable fmin : (R -> R) -> R -> R.
Variable chol : nat -> mat -> result mat.
Variable svd : nat -> mat -> result (mat * vec).
Variable inv : nat -> mat -> result mat.

(** correlation.py 169-184.  np.shape(None) cannot be unpacked into two numbers (ValueError); a
    matrix that is not square fails at the latest when its transposed triangle is added
    (ValueError; possibly an IndexError before; not distinguished). *)
Definition setModifiedCorrelationMatrix (s : smodel) : result smodel :=
  match sm_corr s with
  | None => Err EValue
  | Some M =>
      let n := length M in
      if forallb (fun r => Nat.eqb (length r) n) M then
        match computeModifiedCorrelationMatrix fmin (length (sm_marg s)) n (mat_of M) (fun i => marg_of (marg_at s i)) with
        | Err e => Err e
        | Ok (Ro, _) => Ok (setModifiedCorrelation s (rows_of n Ro))
        end
      else Err EValue
  end.

(** analysis.py 72-98: the model object after the call, and (T, inv_T) or the exception *)
Definition init_run_full (ty : string) (s : smodel) : smodel * result (mat * mat) :=
  match setModifiedCorrelationMatrix s with
  | Err e => (s, Err e)
  | Ok s' =>
      match sm_Ro s' with
      | None => (s', Err EValue)
      | Some Ro => (s', transf_compute chol svd inv ty (length Ro) (mat_of Ro))
      end
  end.

Section Loop.
Variable lf : nat.            (* fuel of the block loop *)
Variable expr : expression.
Variable fo : form_opts.
Variable n : nat.
Variables T invT : mat.
Variable evn : option exn.

(** form.py 153-171 *)
Definition ev_st (s : smodel) (u : vec) : result (R * vec) * smodel :=
  let m := marg_at s in
  let x := computeTransformation n invT m u in
  match inv n (jacobian n T invT m u x) with
  | Err e => (Err e, s)
  | Ok J =>
      let r := evaluate_lsf lf s expr (fo_ls fo) None n [vlist n x] in
      match ev_out r with
      | ODone G grad => (Ok (nth 0 G 0, pull_gradient n (vof (nth 0 grad [])) J), ev_s r)
      | ORaise e => (Err e, ev_s r)
      | OFuel => (Err ERuntime, ev_s r)
      end
  end.
(** form.py 226-236 *)
Definition trial_st (s : smodel) (us : list vec) : result (list R) * smodel :=
  let r := evaluate_lsf lf s expr (fo_ls fo) (Some "no"%string) n (map (fun u => vlist n (u_to_x n invT (marg_at s) u)) us) in
  match ev_out r with
  | ODone G _ => (Ok G, ev_s r)
  | ORaise e => (Err e, ev_s r)
  | OFuel => (Err ERuntime, ev_s r)
  end.
(** form.py 190-262 *)
Definition step_st (s : smodel) (G : R) (g u d : vec) : result R * smodel :=
  if Reqb (fo_step fo) 0 then
    let c := penalty n g u in
    let merit := merit_of n c u G in
    let Trial_u := map (fun t => fun i => u i + d i * t) trial_steps in
    if (o_multi_proc (fo_ls fo) =? 1)%Z then
      match trial_st s Trial_u with
      | (Err e, s') => (Err e, s')
      | (Ok Gs, s') =>
          let M := map (fun uG => merit_of n c (fst uG) (snd uG)) (combine Trial_u Gs) in
          (Ok (step_while ntrial 0 merit trial_steps M (nth 0 trial_steps 0) (nth 0 M 0)), s')
      end
    else (Err EException, s)
  else (Ok (fo_step fo), s).
(** form.py 75-131, as [form_loop] with the model object instead of a call count *)
Fixpoint loop_st (fuel : nat) (i : Z) (Go : option R) (us : option vec) (lastG : R) (lastg : vec) (s : smodel) : form_out * smodel :=
  match fuel with
  | O => (FFuel, s)
  | S f =>
      match us with
      | None =>
          match evn with
          | Some e => (FRaise e, s)
          | None =>
              let s := addCallFunction s (eval_cost n fo) in
              if (i =? fo_imax fo)%Z
              then (FDone (mkfr i None lastG (match Go with Some q => q | None => lastG end) lastg), s)
              else match nan_step fo evn with
                   | Err e => (FRaise e, s)
                   | Ok k => loop_st f (i + 1)%Z Go None lastG lastg (addCallFunction s k)
                   end
          end
      | Some u =>
          match ev_st s u with
          | (Err e, s) => (FRaise e, s)
          | (Ok (G, g), s) =>
              let Go' := match Go with None => G | Some q => q end in
              if Reqb (norm n g) 0 then
                if (i =? fo_imax fo)%Z then (FDone (mkfr i None G Go' g), s)
                else match nan_step fo evn with
                     | Err e => (FRaise e, s)
                     | Ok k => loop_st f (i + 1)%Z (Some Go') None G g (addCallFunction s k)
                     end
              else
                let a := alpha_of n g in
                if (xltb (e1_of G Go') (Fin (fo_e1 fo)) && Rltb (e2_of n a u) (fo_e2 fo)) || (i =? fo_imax fo)%Z
                then (FDone (mkfr i (Some u) G Go' g), s)
                else
                  let d := search_dir n G g u in
                  match step_st s G g u d with
                  | (Err e, s) => (FRaise e, s)
                  | (Ok t, s) => loop_st f (i + 1)%Z (Some Go') (Some (fun j => u j + t * d j)) G g s
                  end
          end
      end
  end.
End Loop.

(** A Form object: the flag, the transformation created by the constructor and its matrices, and
    the results of the last completed run (analysis.py 48-70, form.py 39-58). *)
Record fobj := mkFobj { fb_valid : bool; fb_type : string; fb_TA : option (mat * mat); fb_res : option form_res }.
Definition form_init (opt : option string) : result fobj :=
  rbind (mkTransformation opt) (fun t => Ok (mkFobj false t None None)).

(** form.py 60-143: the object, the model object and the outcome.  With a correlation matrix of
    another size than the number of variables np.dot in x_to_u raises ValueError. *)
Definition run_form (fuel lf : nat) (expr : expression) (fo : form_opts) (evn : option exn) (a : fobj) (s : smodel)
  : fobj * smodel * form_out :=
  let '(s, r) := init_run_full (fb_type a) s in
  match r with
  | Err e => (mkFobj true (fb_type a) (fb_TA a) (fb_res a), s, FRaise e)
  | Ok (T, invT) =>
      let n := length (sm_marg s) in
      let a := mkFobj true (fb_type a) (Some (T, invT)) (fb_res a) in
      if Nat.eqb (match sm_Ro s with Some M => length M | None => 0%nat end) n then
        let '(out, s) := loop_st lf expr fo n T invT evn fuel 1 None (Some (computeStartingPoint n T (marg_at s))) 0 (fun _ => 0) s in
        (match out with FDone r => mkFobj true (fb_type a) (fb_TA a) (Some r) | _ => a end, s, out)
      else (a, s, FRaise EValue)
  end.
End Run.

(** form.py 372-380: the number reported is the model's counter *)
Definition getNoFunctionCalls (s : smodel) : nat := sm_calls s.
