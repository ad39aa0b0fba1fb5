(** Model of a whole Sorm analysis on a model object (sorm.py 66-203 with analysis.py 48-98): the
    constructor with its FORM run, and run with its own init_run, the Hessian or Newton evaluations
    on the model object, and the results of Valid.v.  Definitions only. *)
From Coquelicot Require Import Coquelicot.
From Verif Require Import Base Ext Gauss StochModel LimitState Transf Form Nataf Dist Pipe GramSchmidt Sorm Valid.
From Coq Require Import ZArith.

Section Run.
Variable fmin : (R -> R) -> R -> R.
Variable chol : nat -> mat -> result mat.
Variable svd : nat -> mat -> result (mat * vec).
Variable inv : nat -> mat -> result mat.
(** np.linalg.eig (the values; complex pairs, which only an unsymmetric matrix can have, are not
    modelled) and np.sort *)
Variable eig : nat -> mat -> result (list R).
Variable sort : list R -> list R.
Variables fuel lf : nat.
Variable expr : expression.
Variable fo : form_opts.
(** what evaluating the limit state function at NaN raises, if anything *)
Variable evn : option exn.

(** sorm.py 66-97: [opt] is the transform option, [form] the form argument.  The result is the type
    of Sorm's own transformation and the Form object. *)
Definition sorm_new (opt : option string) (form : option fobj) (s : smodel) : result (string * fobj) * smodel :=
  match form_init opt with
  | Err e => (Err e, s)
  | Ok a =>
      match form with
      | Some b => (Ok (fb_type a, b), s)
      | None =>
          let '(b, s', out) := run_form fmin chol svd inv fuel lf expr fo evn a s in
          (match out with FDone _ => Ok (fb_type a, b) | FRaise e => Err e | FFuel => Err ERuntime end, s')
      end
  end.

(** evaluateLSF (553-578) at one point; the model object counts the calls *)
Definition sev (n : nat) (T A : mat) (s : smodel) (x : list R) : result (R * vec) * smodel :=
  (sorm_evaluateLSF lf s expr (fo_ls fo) n T A inv (marg_at s) x, ev_s (evaluate_lsf lf s expr (fo_ls fo) None n [x])).
Fixpoint sev_list (n : nat) (T A : mat) (s : smodel) (xs : list (list R)) : result (list (R * vec)) * smodel :=
  match xs with
  | [] => (Ok [], s)
  | x :: r =>
      match sev n T A s x with
      | (Err e, s) => (Err e, s)
      | (Ok v, s) =>
          match sev_list n T A s r with
          | (Err e, s) => (Err e, s)
          | (Ok vs, s) => (Ok (v :: vs), s)
          end
      end
  end.

(** computeHessian(), 478-496.  [Af] is the Form object's inv_T: getDesignPoint(uspace=False)
    (form.py 346-356) uses the Form's transformation, the perturbed points Sorm's own. *)
Definition computeHessian (n : nat) (T A Af : mat) (u0 : vec) (s : smodel) : result mat * smodel :=
  let ff := o_ffdpara (fo_ls fo) in
  if Reqb ff 0 then (Err EZeroDiv, s) else
  let h := 1 / ff in
  let xs := vlist n (u_to_x n Af (marg_at s) u0) :: map (fun i => vlist n (u_to_x n A (marg_at s) (u_plus h u0 i))) (seq 0 n) in
  match sev_list n T A s xs with
  | (Err e, s) => (Err e, s)
  | (Ok vs, s) =>
      let g k := snd (nth k vs (0, fun _ => 0)) in
      (Ok (fun a i => (g (S i) a - g 0%nat a) / h), s)
  end.

(** run_curvefit, 130-140: beta and the sorted curvatures *)
Definition curvefit (n : nat) (T A Af : mat) (u0 alpha grad : vec) (beta : R) (s : smodel) : result (R * list R) * smodel :=
  match computeHessian n T A Af u0 s with
  | (Err e, s) => (Err e, s)
  | (Ok H, s) =>
      (rbind (orthonormal_matrix n alpha) (fun R1 =>
       rbind (eig (n - 1) (curvature_matrix n R1 H grad)) (fun kappa =>
       Ok (beta, sort kappa))), s)
  end.

(** _find_fitting_point (205-289) with max_iter = 50, tol = 1e-6 (205): the evaluations differ only
    in the call counter, which is advanced afterwards, once for each point of the trace. *)
Definition fit_one (n : nat) (T A R1 : mat) (beta k : R) (s : smodel) (axis : nat) (sign : R) : result R * smodel :=
  let x u := vlist n (u_to_x n A (marg_at s) u) in
  let '(r, tr) := find_fitting_point n R1 (fun u => fst (sev n T A s (x u))) axis sign beta k 50 (1 / 1000000) in
  (r, fold_left (fun s u => snd (sev n T A s (x u))) tr s).
(** 188-190 *)
Fixpoint fit_axes (n : nat) (T A R1 : mat) (beta k : R) (s : smodel) (axes : list nat) : result (list R * list R) * smodel :=
  match axes with
  | [] => (Ok ([], []), s)
  | i :: r =>
      match fit_one n T A R1 beta k s i (-1) with
      | (Err e, s) => (Err e, s)
      | (Ok km, s) =>
          match fit_one n T A R1 beta k s i 1 with
          | (Err e, s) => (Err e, s)
          | (Ok kp, s) =>
              match fit_axes n T A R1 beta k s r with
              | (Err e, s) => (Err e, s)
              | (Ok (a, b), s) => (Ok (km :: a, kp :: b), s)
              end
          end
      end
  end.
(** run_pointfit, 171-190.  For beta = 0, k is infinite and the first trial point NaN (k * beta):
    the 50 evaluations give NaN, no comparison holds and the search ends in RuntimeError. *)
Definition pointfit (n : nat) (T A : mat) (alpha : vec) (beta : R) (s : smodel) : result (R * list R * list R) * smodel :=
  match orthonormal_matrix n alpha with
  | Err e => (Err e, s)
  | Ok R1 =>
      if Reqb beta 0 then
        match evn with
        | Some e => (Err e, s)
        | None => (Err ERuntime, addCallFunction s (50 * eval_cost n fo))
        end
      else
        match fit_axes n T A R1 beta (step_coeff beta) s (seq 0 (n - 1)) with
        | (Err e, s) => (Err e, s)
        | (Ok (km, kp), s) => (Ok (beta, km, kp), s)
        end
  end.

(** run (99-128): init_run, then the fitting of the Form object's design point, then the attributes
    (Valid.v).  A Form without results has alpha None (TypeError or AttributeError, not
    distinguished); one with a NaN design point ends in LinAlgError in np.linalg.eig or in
    RuntimeError in the search (not distinguished; the calls made on the way are not counted). *)
Definition sorm_run_on (fit : string) (print : bool) (ty : string) (b : fobj) (st : sorm) (s : smodel) : sorm * smodel * result unit :=
  let '(s, r) := init_run_full fmin chol svd inv ty s in
  let n := length (sm_marg s) in
  let fail e := mkSin (Ok tt) (Err e) (Err e) sort print in
  let '(i, s) :=
    match r with
    | Err e => (mkSin (Err e) (Err e) (Err e) sort print, s)
    | Ok (T, A) =>
        match fb_res b, fb_TA b with
        | Some fr, Some (_, Af) =>
            match fr_u fr, form_alpha n fr, form_beta n fr with
            | Some u, Some alpha, Fin beta =>
                if String.eqb fit "cf" then
                  let '(k, s) := curvefit n T A Af u alpha (fr_grad fr) beta s in (mkSin (Ok tt) k (Err EValue) sort print, s)
                else if String.eqb fit "pf" then
                  let '(k, s) := pointfit n T A alpha beta s in (mkSin (Ok tt) (Err EValue) k sort print, s)
                else (fail EValue, s)
            | _, _, _ => (fail ERuntime, s)
            end
        | _, _ => (fail EAttr, s)
        end
    end in
  let '(st, out) := sorm_run fit i st in (st, s, out).
End Run.
