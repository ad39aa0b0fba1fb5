(** Vocabulary for C131. *)
From Coquelicot Require Import Coquelicot.
From Verif Require Import Base Ext Gauss StochModel LimitState Transf Form Nataf Dist Pipe Sorm Valid SormRun FormAttrSpec.

(** a fit that was completed, with what it found *)
Inductive fit := CurveFit (beta : R) (kappa : list R) | PointFit (beta : R) (km kp avg : list R).

(** the results that belong to it: the first- or modified Breitung numbers, the curvatures *)
Definition the_pf (f : fit) : sorm_res := match f with CurveFit b k => pf_breitung b k | PointFit b km kp _ => pf_breitung_pf b km kp end.
Definition the_pfm (f : fit) : sorm_res := match f with CurveFit b k => pf_breitung_m b k | PointFit b km kp _ => pf_breitung_m_pf b km kp end.
Definition its_curvatures (f : fit) : list R := match f with CurveFit _ k => k | PointFit _ km kp _ => km ++ kp end.
Definition one_sided (f : fit) : list R := match f with CurveFit _ k => k | PointFit _ _ _ a => a end.
(** a curve fit with a curvature below -1/c *)
Definition excessive (c : R -> R) (f : fit) : Prop :=
  match f with CurveFit b k => c b <> 0 /\ exists x, In x k /\ x < -1 / c b | PointFit _ _ _ _ => False end.

(** the completed fits of a history, the point fits among them, and the fit types of the runs whose
    initialisation succeeded *)
Definition fit_of (o : sop) : list fit :=
  match o with
  | SRun f i =>
      match si_init i with
      | Err _ => []
      | Ok _ =>
          if String.eqb f "cf" then match si_cf i with Ok (b, k) => [CurveFit b k] | Err _ => [] end
          else if String.eqb f "pf" then
            match si_pf i with
            | Ok (b, km, kp) => [PointFit b km kp (si_sort i (map (fun c => / 2 * (fst c + snd c)) (combine km kp)))]
            | Err _ => [] end
          else []
      end
  | SShow => []
  end.
Definition fits (h : list sop) : list fit := flat_map fit_of h.
Definition point_fits (h : list sop) : list (list R * list R) :=
  flat_map (fun f => match f with PointFit _ km kp _ => [(km, kp)] | CurveFit _ _ => [] end) (fits h).
Definition begun (h : list sop) : list string :=
  flat_map (fun o => match o with SRun f i => match si_init i with Ok _ => [f] | Err _ => [] end | SShow => [] end) h.

(** the curvatures shown: those of the last completed point fit if the last run begun asked for one *)
Definition shown (h : list sop) (f : fit) : list R :=
  match last_of (begun h), last_of (point_fits h) with
  | Some t, Some (km, kp) => if String.eqb t "pf" then km ++ kp else one_sided f
  | _, _ => one_sided f
  end.

(** runs of one Sorm object in a session: each meets the limit state, options, Form object and
    stochastic model there are at the time *)
Record srun := mkSrun { r_expr : expression; r_fo : form_opts; r_evn : option exn; r_fit : string; r_print : bool; r_form : fobj; r_model : smodel }.
