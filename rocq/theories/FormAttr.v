(** Model of the attributes of a Form object during and after its runs, and of the methods that
    read them (/repo/src/pystra/form.py 39-143 and 272-378).  Definitions only.

    A run assigns the attributes one by one, so a run ended by an exception leaves some of them
    from the failed run and others from before.  The control flow is that of Pipe.v; here the
    values assigned on the way are kept.  The attributes x, J, G, Go, gradient, gamma, d and step
    are not read by any of the methods below and are left out. *)
From Coquelicot Require Import Coquelicot.
From Verif Require Import Base Ext Gauss StochModel LimitState Transf Form Nataf Dist Pipe.
From Coq Require Import ZArith.

(** Vectors carry their length; the value None is a vector of NaN.  [fa_T]: the matrices of the
    transformation object (transformation.py 38-50). *)
Record fattr := mkFA {
  fa_valid : bool;                       (* results_valid, analysis.py 70 *)
  fa_type : string;
  fa_T : option (nat * mat * mat);       (* size, T, inv_T *)
  fa_i : option Z;
  fa_u : option (nat * option vec);
  fa_alpha : option (nat * option vec);
  fa_beta : option xnum;
  fa_Pf : option xnum }.

(** form.py 39-58 with analysis.py 50-70 *)
Definition attr_init (opt : option string) : result fattr :=
  rbind (mkTransformation opt) (fun t => Ok (mkFA false t None None None None None None)).

Section Run.
Variable fmin : (R -> R) -> R -> R.
Variable chol : nat -> mat -> result mat.
Variable svd : nat -> mat -> result (mat * vec).
Variable inv : nat -> mat -> result mat.

Section Loop.
Variable lf : nat.
Variable expr : expression.
Variable fo : form_opts.
Variable n : nat.
Variables T invT : mat.
Variable evn : option exn.

(** form.py 75-131: [us] is the attribute u, [al] the attribute alpha (assigned at 100, 173-175).
    The result: how the loop ends, the model object, and the two attributes. *)
Fixpoint loop_at (fuel : nat) (i : Z) (Go : option R) (us : option vec) (lastG : R) (lastg : vec)
    (al : option (nat * option vec)) (s : smodel) : form_out * smodel * (option vec * option (nat * option vec)) :=
  match fuel with
  | O => (FFuel, s, (us, al))
  | S f =>
      match us with
      | None =>
          match evn with
          | Some e => (FRaise e, s, (us, al))                      (* 90 *)
          | None =>
              let s := addCallFunction s (eval_cost n fo) in
              let al := Some (n, None) in                           (* 100 *)
              if (i =? fo_imax fo)%Z
              then (FDone (mkfr i None lastG (match Go with Some q => q | None => lastG end) lastg), s, (us, al))
              else match nan_step fo evn with
                   | Err e => (FRaise e, s, (us, al))               (* 126 *)
                   | Ok k => loop_at f (i + 1)%Z Go None lastG lastg al (addCallFunction s k)
                   end
          end
      | Some u =>
          match ev_st inv lf expr fo n T invT s u with
          | (Err e, s) => (FRaise e, s, (us, al))                   (* 87-90 *)
          | (Ok (G, g), s) =>
              let Go' := match Go with None => G | Some q => q end in
              if Reqb (norm n g) 0 then
                let al := Some (n, None) in
                if (i =? fo_imax fo)%Z then (FDone (mkfr i None G Go' g), s, (us, al))
                else match nan_step fo evn with
                     | Err e => (FRaise e, s, (us, al))
                     | Ok k => loop_at f (i + 1)%Z (Some Go') None G g al (addCallFunction s k)
                     end
              else
                let a := alpha_of n g in
                let al := Some (n, Some a) in
                if (xltb (e1_of G Go') (Fin (fo_e1 fo)) && Rltb (e2_of n a u) (fo_e2 fo)) || (i =? fo_imax fo)%Z
                then (FDone (mkfr i (Some u) G Go' g), s, (us, al))
                else
                  let d := search_dir n G g u in
                  match step_st lf expr fo n invT s G g u d with
                  | (Err e, s) => (FRaise e, s, (us, al))           (* 126 *)
                  | (Ok t, s) => loop_at f (i + 1)%Z (Some Go') (Some (fun j => u j + t * d j)) G g al s
                  end
          end
      end
  end.
End Loop.

(** form.py 60-143.  computeStartingPoint assigns u (151); beta and Pf are assigned after the loop
    (133-137), i when it has converged (119). *)
Definition run_at (fuel lf : nat) (expr : expression) (fo : form_opts) (evn : option exn) (a : fattr) (s : smodel)
  : fattr * smodel * form_out :=
  let '(s, r) := init_run_full fmin chol svd inv (fa_type a) s in
  match r with
  | Err e => (mkFA true (fa_type a) (fa_T a) (fa_i a) (fa_u a) (fa_alpha a) (fa_beta a) (fa_Pf a), s, FRaise e)
  | Ok (T, invT) =>
      let n := length (sm_marg s) in
      let nT := match sm_Ro s with Some M => length M | None => 0%nat end in
      if Nat.eqb nT n then
        let '(out, s, (us, al)) := loop_at lf expr fo n T invT evn fuel 1 None (Some (computeStartingPoint n T (marg_at s))) 0 (fun _ => 0) (fa_alpha a) s in
        match out with
        | FDone r => (mkFA true (fa_type a) (Some (nT, T, invT)) (Some (fr_i r)) (Some (n, us)) al (Some (form_beta n r)) (Some (form_Pf n r)), s, out)
        | _ => (mkFA true (fa_type a) (Some (nT, T, invT)) (fa_i a) (Some (n, us)) al (fa_beta a) (fa_Pf a), s, out)
        end
      else (mkFA true (fa_type a) (Some (nT, T, invT)) (fa_i a) (fa_u a) (fa_alpha a) (fa_beta a) (fa_Pf a), s, FRaise EValue)
  end.
End Run.

(** ** Reading.  form.py 330-336: [self.beta[0]]; TypeError for None *)
Definition getBeta (a : fattr) : result xnum := match fa_beta a with Some b => Ok b | None => Err EType end.
(** 338-344; None before the first completed run *)
Definition getFailure (a : fattr) : option xnum := fa_Pf a.
(** 346-355.  In u-space the attribute itself.  In the physical space Transformation.u_to_x
    (transformation.py 69-83) with the marginals the model has now: np.dot of a matrix and a vector of
    another length raises ValueError (TypeError with None), and z[i] IndexError beyond its length.
    [nan_x]: the value of each marginal's u_to_x at NaN is NaN. *)
Definition getDesignPoint_u (a : fattr) : option (nat * option vec) := fa_u a.
Definition getDesignPoint_x (a : fattr) (s : smodel) : result (list xnum) :=
  match fa_T a, fa_u a with
  | None, _ => Err EType
  | Some (nT, _, _), None => if Nat.eqb nT 1 then Err EType else Err EValue
  | Some (nT, T, invT), Some (n, us) =>
      if negb (Nat.eqb nT n) then Err EValue
      else if Nat.ltb n (length (sm_marg s)) then Err EIndex
      else match us with
           | Some u => Ok (map (fun i => Fin (u_to_x n invT (marg_at s) u i)) (seq 0 (length (sm_marg s))))
           | None => Ok (map (fun _ => NaN) (seq 0 (length (sm_marg s))))
           end
  end.
(** 357-370, as_dict=False: [self.alpha[0]] *)
Definition getAlpha (a : fattr) : result (nat * option vec) := match fa_alpha a with Some v => Ok v | None => Err EType end.

(** showResults, 272-291: the four numbers printed.  The header is printed before an exception
    caused by beta or Pf being None; the text itself is not modelled. *)
Definition showResults (a : fattr) (s : smodel) : result (option Z * xnum * xnum * nat) :=
  if negb (fa_valid a) then Err EValue
  else match fa_beta a, fa_Pf a with
       | Some b, Some p => Ok (fa_i a, b, p, getNoFunctionCalls s)
       | _, _ => Err EType
       end.

(** a component of an array *)
Definition comp (v : nat * option vec) (i : nat) : result xnum :=
  if Nat.ltb i (fst v) then Ok (match snd v with Some w => Fin (w i) | None => NaN end) else Err EIndex.
Fixpoint rows (i : nat) (names : list string) (u al : nat * option vec) (x : list xnum) : result (list (string * xnum * xnum * xnum)) :=
  match names with
  | [] => Ok []
  | nm :: r =>
      rbind (comp u i) (fun ui => rbind (match nth_error x i with Some v => Ok v | None => Err EIndex end) (fun xi =>
        rbind (comp al i) (fun ai => rbind (rows (S i) r u al x) (fun rest => Ok ((nm, ui, xi, ai) :: rest)))))
  end.

(** showDetailedOutput, 293-328: Pf, beta, the model's counter, the row of each variable and of each
    constant.  (u None cannot reach the rows: the physical point raises first.) *)
Definition showDetailedOutput (a : fattr) (s : smodel)
  : result (xnum * xnum * nat * list (string * xnum * xnum * xnum) * list (string * R)) :=
  if negb (fa_valid a) then Err EValue
  else
    rbind (getDesignPoint_x a s) (fun x =>
    rbind (getAlpha a) (fun al =>
    match fa_u a, fa_beta a, fa_Pf a with
    | Some u, Some b, Some p =>
        rbind (rows 0 (dict_keys (sm_variables s)) u al x) (fun rs => Ok (p, b, sm_calls s, rs, sm_consts s))
    | _, _, _ => Err EType
    end)).

(** ** Histories of one Form object: the user works on the model, replaces the expression of the limit
    state (with what it raises at NaN) or the options, and runs the analysis, catching exceptions. *)
Inductive fop := FModel (op : smop) | FExpr (e : expression) (evn : option exn) | FOpts (fo : form_opts) | FRun.
Record fworld := mkFW { fw_a : fattr; fw_s : smodel; fw_e : expression; fw_n : option exn; fw_o : form_opts }.

Section Hist.
Variable fmin : (R -> R) -> R -> R.
Variable chol : nat -> mat -> result mat.
Variable svd : nat -> mat -> result (mat * vec).
Variable inv : nat -> mat -> result mat.
Variables fuel lf : nat.

Definition fstep (w : fworld) (c : fop) : fworld * option form_out :=
  match c with
  | FModel op => (mkFW (fw_a w) (sm_step (fw_s w) op) (fw_e w) (fw_n w) (fw_o w), None)
  | FExpr e evn => (mkFW (fw_a w) (fw_s w) e evn (fw_o w), None)
  | FOpts fo => (mkFW (fw_a w) (fw_s w) (fw_e w) (fw_n w) fo, None)
  | FRun =>
      let '(a, s, out) := run_at fmin chol svd inv fuel lf (fw_e w) (fw_o w) (fw_n w) (fw_a w) (fw_s w) in
      (mkFW a s (fw_e w) (fw_n w) (fw_o w), Some out)
  end.
Definition fexec (w : fworld) (h : list fop) : fworld := fold_left (fun w c => fst (fstep w c)) h w.
End Hist.
