(** Model of Calibration.calc_lsf_eval_df, /repo/src/pystra/calibration.py 187-217.  Definitions only.
    A data frame is the list of its columns (name, cells); column names are distinct and no cell is
    missing.  The frame passed in is copied (210), so it is not in the result type. *)
From Verif Require Import Base StochModel LoadComb Calib.
Open Scope list_scope.
Open Scope R_scope.

(** the call {"z": 1.0, col: xx} of 213, 216 *)
Definition df_cell (lc : loadcomb) (lsf : list (string * R) -> result R) (col : string) (x : R) : result R :=
  eval_lsf_kwargs lc lsf 0 None (dict_set [("z"%string, 1)] col x).
(** 210-217 *)
Definition calc_lsf_eval_df (lc : loadcomb) (lsf : list (string * R) -> result R) (df : list (string * list R)) (ret_abs : bool) : result (list (string * list R)) :=
  mapM (fun cx => rbind (mapM (df_cell lc lsf (fst cx)) (snd cx)) (fun jj => Ok (fst cx, if ret_abs then map Rabs jj else jj))) df.
