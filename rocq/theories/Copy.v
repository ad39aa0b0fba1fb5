(** Model of Distribution.sensitivity_params, _make_copy, _dmoments_dtheta and the base-class
    dF_dtheta (/repo/src/pystra/distributions/distribution.py 365-524) and of the class
    constructors as _make_copy calls them.  Definitions only. *)
From Coquelicot Require Import Coquelicot.
From Verif Require Import Base StochModel Gauss Dist.
From Coq Require Import String.
Open Scope string_scope.
Open Scope R_scope.

(** What this code reads of a distribution object. *)
Record inst := mkInst {
  in_mean : R; in_stdv : R; in_start : R;
  in_sens : list (string * R);       (* sensitivity_params *)
  in_kw : list (string * R);         (* _ctor_kwargs *)
  in_cdf : R -> R
}.

(** type(self)(self.name, mean, stdv, **kw): input_type and startpoint keep their defaults. *)
Definition cls : Type := R -> R -> list (string * R) -> result inst.

(** dict.update; del / pop *)
Definition dict_update (d e : list (string * R)) : list (string * R) :=
  fold_left (fun acc kv => dict_set acc (fst kv) (snd kv)) e d.
Definition dict_del (d : list (string * R)) (k : string) : list (string * R) :=
  filter (fun kv => negb (String.eqb k (fst kv))) d.

(** 416-422 *)
Definition make_copy (c : cls) (o : inst) (overrides : list (string * R)) : result inst :=
  let params := dict_update (dict_update [("mean", in_mean o); ("std", in_stdv o)] (in_kw o)) overrides in
  match dict_get params "mean", dict_get params "std" with
  | Some m, Some s => c m s (dict_del (dict_del params "mean") "std")
  | _, _ => Err EKey
  end.

(** 447-458 *)
Definition dmoments_dtheta (c : cls) (o : inst) (param : string) : result (R * R) :=
  if String.eqb param "mean" then Ok (1, 0)
  else if String.eqb param "std" then Ok (0, 1)
  else match dict_get (in_sens o) param with
       | None => Err EKey
       | Some val =>
           let h := Rmax (Rabs val * / 10 ^ 6) (/ 10 ^ 10) in
           rbind (make_copy c o [(param, val + h)]) (fun d_plus =>
           rbind (make_copy c o [(param, val - h)]) (fun d_minus =>
           Ok ((in_mean d_plus - in_mean d_minus) / (2 * h), (in_stdv d_plus - in_stdv d_minus) / (2 * h))))
       end.

(** 520 *)
Definition fd_step (o : inst) (val : R) : R := Rmax (Rabs val * / 10 ^ 6) (in_stdv o * / 10 ^ 8).

(** 518-524 *)
Fixpoint fd_params (c : cls) (o : inst) (x : R) (ps : list (string * R)) : result (list (string * R)) :=
  match ps with
  | [] => Ok []
  | (param, val) :: r =>
      let h := fd_step o val in
      rbind (make_copy c o [(param, val + h)]) (fun d_plus =>
      rbind (make_copy c o [(param, val - h)]) (fun d_minus =>
      rbind (fd_params c o x r) (fun rest =>
      Ok ((param, (in_cdf d_plus x - in_cdf d_minus x) / (2 * h)) :: rest))))
  end.

(** 495-524.  (The dictionary result is filled in the order of sensitivity_params.) *)
Definition base_dF (c : cls) (o : inst) (x : R) : result (list (string * R)) :=
  match make_copy c o [] with
  | Err _ => Err EValue                                             (* 496-503 *)
  | Ok test =>
      let x_test := in_mean o + 1 / 2 * in_stdv o in                (* 506 *)
      let ref_cdf := in_cdf o x_test in
      let test_cdf := in_cdf test x_test in
      if Rltb (/ 10 ^ 6 * (1 + Rabs ref_cdf)) (Rabs (test_cdf - ref_cdf)) then Err EValue   (* 509-516 *)
      else fd_params c o x (in_sens o)
  end.

(** ** Instances *)
(** an object that keeps the base class sensitivity_params (365-388) *)
Definition inst_of (d : dist) (start : R) (kw : list (string * R)) : inst :=
  mkInst (d_mean d) (d_stdv d) start [("mean", d_mean d); ("std", d_stdv d)] kw (d_cdf d).
Definition inst_s (s : sobj) (kw : list (string * R)) : inst := inst_of (base_dist s) (so_start s) kw.
(** gev.py 74-83 and 161-170: GEVmax/GEVmin add the shape *)
Definition inst_shape (d : dist) (start shape : R) : inst :=
  mkInst (d_mean d) (d_stdv d) start [("mean", d_mean d); ("std", d_stdv d); ("shape", shape)] [("shape", shape)] (d_cdf d).

(** ** Constructors.  A keyword the signature does not name, or a missing required one, is a
    TypeError. *)
Definition no_kw (kw : list (string * R)) (r : result inst) : result inst :=
  match kw with [] => r | _ => Err EType end.
(** required keyword [k] and no other *)
Definition one_kw (kw : list (string * R)) (k : string) (f : R -> result inst) : result inst :=
  match kw with
  | [(k', v)] => if String.eqb k k' then f v else Err EType
  | _ => Err EType
  end.
(** optional keyword [k] with default [v0], no other *)
Definition opt_kw (kw : list (string * R)) (k : string) (v0 : R) (f : R -> result inst) : result inst :=
  match kw with
  | [] => f v0
  | [(k', v)] => if String.eqb k k' then f v else Err EType
  | _ => Err EType
  end.

(** normal.py 23; lognormal.py 25 *)
Definition normal_inst (t : normal) : inst := inst_of (normal_dist t) (no_start t) [].
Definition normal_cls : cls := fun m s kw => no_kw kw (Ok (normal_inst (normal_init m s None))).
Definition lognormal_inst (t : lognormal) : inst := inst_of (lognormal_dist t) (ln_start t) [].
Definition lognormal_cls : cls := fun m s kw => no_kw kw (Ok (lognormal_inst (lognormal_init m s true None))).
(** shiftedlognormal.py 26-30 *)
Definition slognormal_inst (t : slognormal) : inst := inst_of (slognormal_dist t) (ln_start (sl_ln t)) [("lower", sl_ctor_lower t)].
Definition slognormal_cls : cls := fun m s kw =>
  one_kw kw "lower" (fun lo => rbind (slognormal_init m s lo true None) (fun t => Ok (slognormal_inst t))).
(** uniform.py 20 *)
Definition uniform_inst (t : uniform) : inst := inst_of (uniform_dist t) (so_start (un_s t)) [].
Definition uniform_cls : cls := fun m s kw => no_kw kw (Ok (uniform_inst (uniform_init m s true None))).
(** shiftedexponential.py 20; shiftedrayleigh.py 21; gumbel.py 21 and typeilargestvalue.py 20;
    typeismallestvalue.py 21; gamma.py 20; chisquare.py 20; typeiilargestvalue.py 22 *)
Definition frozen_cls (obj : R -> R -> frozen) : cls := fun m s kw => no_kw kw (Ok (inst_s (base_init (obj m s) None) [])).
Definition shiftedexp_cls : cls := frozen_cls (fun m s => shiftedexp_obj m s true).
Definition shiftedrayleigh_cls : cls := frozen_cls (fun m s => shiftedrayleigh_obj m s true).
Definition gumbel_cls (eg : R) : cls := frozen_cls (fun m s => gumbel_obj eg m s true).
Definition typeismallest_cls (eg : R) : cls := frozen_cls (fun m s => typeismallest_obj eg m s true).
Definition gamma_cls (gam : R -> sfam) : cls := frozen_cls (fun m s => gamma_obj gam m s true).
Definition chisquare_cls (chi2 : R -> sfam) : cls := frozen_cls (fun m s => chisquare_obj chi2 m s true).
Definition typeII_cls (Gam : R -> R) (fsolve : (R -> R) -> R -> R) : cls := frozen_cls (fun m s => typeII_obj Gam fsolve m s true).
(** weibull.py 22-24 and typeiiismallestvalue.py 22-24 *)
Definition weibull_cls (Gam : R -> R) (fsolve : (R -> R) -> R -> R) : cls := fun m s kw =>
  opt_kw kw "epsilon" 0 (fun eps => Ok (inst_s (base_init (weibull_obj Gam fsolve m s eps true) None) [("epsilon", eps)])).
(** beta.py 23-26 *)
Definition beta_cls (bet : R -> R -> sfam) (fmin : (R -> R) -> R -> R) : cls := fun m s kw =>
  let mk a b := Ok (inst_s (base_init (beta_obj bet fmin m s a b true) None) [("a", a); ("b", b)]) in
  match kw with
  | [(k1, a); (k2, b)] => if String.eqb "a" k1 && String.eqb "b" k2 then mk a b else Err EType
  | [] => mk 0 1
  | [(k1, v)] => if String.eqb "a" k1 then mk v 1 else if String.eqb "b" k1 then mk 0 v else Err EType
  | _ => Err EType
  end.
(** gev.py 36-41, 107-112 *)
Definition gevmax_cls (Gam : R -> R) (eg : R) : cls := fun m s kw =>
  one_kw kw "shape" (fun sh => rbind (gevmax_obj Gam eg m s sh true) (fun o =>
    Ok (inst_shape (base_dist (base_init o None)) (so_start (base_init o None)) sh))).
Definition gevmin_cls (Gam : R -> R) (eg : R) : cls := fun m s kw =>
  one_kw kw "shape" (fun sh => rbind (gevmin_init Gam eg m s sh true None) (fun t => Ok (inst_shape (gevmin_dist t) (gm_start t) sh))).
(** maximum.py 23-27, parent.py 28-32, zeroinflated.py 26-30: the second argument must be a
    Distribution, and _make_copy passes the mean; scipydist.py 21-25: it must be a frozen SciPy
    object (and the third is the start point) *)
Definition composite_cls : cls := fun m s kw => no_kw kw (Err EException).
