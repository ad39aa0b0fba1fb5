(** Model of Sorm.showDetailedOutput (/repo/src/pystra/sorm.py 406-468): the numbers printed.  The
    attributes of Sorm are those of Valid.v, those of its Form object those of FormAttr.v; the model
    objects of the Form ([mf]) and of the Sorm ([m]) may differ when a Form object was passed in.  The
    header printed before an exception is not modelled.  Definitions only. *)
From Coquelicot Require Import Coquelicot.
From Verif Require Import Base Ext Gauss StochModel LimitState Transf Form Nataf Dist Pipe Sorm Valid FormAttr.
From Coq Require Import ZArith.

(** 446-454: the curvatures printed *)
Definition curvature_lines (s : sorm) : result (list R) :=
  match so_fit s, so_kpf s with
  | Some f, Some (km, kp) => if String.eqb f "pf" then Ok (km ++ kp) else match so_kappa s with Some k => Ok k | None => Err EType end
  | _, _ => match so_kappa s with Some k => Ok k | None => Err EType end
  end.

Record detail := mkDetail {
  d_pf_form : xnum; d_pf : xnum; d_pfm : xnum; d_beta_form : xnum; d_bg : xnum; d_bgm : xnum; d_calls : nat;
  d_curv : list R; d_rows : list (string * xnum * xnum * xnum); d_consts : list (string * R) }.

(** 408-468, in the order of evaluation *)
Definition sorm_detail (fa : fattr) (mf m : smodel) (s : sorm) : result detail :=
  if negb (so_valid s) then Err EValue                                   (* 408-409 *)
  else
    rbind (getDesignPoint_x fa mf) (fun x =>                             (* 413 *)
    rbind (getAlpha fa) (fun al =>                                       (* 414 *)
    match fa_beta fa, fa_Pf fa, fa_u fa with                             (* 412, 415-416, 424 *)
    | Some b, Some p, Some u =>
        rbind (idx0 (so_pf s)) (fun pf => rbind (idx0 (so_pfm s)) (fun pfm =>        (* 425-428 *)
        rbind (idx0 (so_bg s)) (fun bg => rbind (idx0 (so_bgm s)) (fun bgm =>        (* 430-435 *)
        rbind (curvature_lines s) (fun cs =>
        rbind (rows 0 (dict_keys (sm_variables m)) u al x) (fun rs =>                (* 460-466 *)
        Ok (mkDetail p pf pfm b bg bgm (sm_calls m) cs rs (sm_consts m))))))))
    | _, _, _ => Err EType
    end)).
