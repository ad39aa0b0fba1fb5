(** Specifications for C114, over scripts only. *)
From Coquelicot Require Import Coquelicot.
From Verif Require Import Base Ext StochModel LimitState Form Pipe Mc McRun SsRun LsRun DaRun Session.
From Coq Require Import ZArith.

(** the script without the runs of analyses other than [a] *)
Definition alone (a : nat) (p : list cmd) : list cmd :=
  filter (fun c => match c with Run b _ _ => Nat.eqb a b | _ => true end) p.

(** the calls a script makes on model [m] *)
Definition calls_on (m : nat) (p : list cmd) : list smop :=
  flat_map (fun c => match c with ModelCall m' op => if Nat.eqb m m' then [op] else [] | _ => [] end) p.

(** the last value a script gives limit state [l]; [d] if it gives none *)
Fixpoint last_expr (l : nat) (d : lstate) (p : list cmd) : lstate :=
  match p with
  | [] => d
  | SetExpression l' e :: r => last_expr l (if Nat.eqb l l' then e else d) r
  | _ :: r => last_expr l d r
  end.

(** the last value a script gives one attribute of options object [o]; [pick] selects the calls that set it *)
Fixpoint last_set {A} (pick : setting -> option A) (o : nat) (d : A) (p : list cmd) : A :=
  match p with
  | [] => d
  | Set_ o' v :: r => last_set pick o (if Nat.eqb o o' then match pick v with Some x => x | None => d end else d) r
  | _ :: r => last_set pick o d r
  end.

Definition is_multi_proc v := match v with SetMultiProc x => Some x | _ => None end.
Definition is_block_size v := match v with SetBlockSize x => Some x | _ => None end.
Definition is_i_max v := match v with SetImax x => Some x | _ => None end.
Definition is_e1 v := match v with SetE1 x => Some x | _ => None end.
Definition is_e2 v := match v with SetE2 x => Some x | _ => None end.
Definition is_step_size v := match v with SetStepSize x => Some x | _ => None end.
Definition is_diff_mode v := match v with SetDiffMode x => Some x | _ => None end.
Definition is_ffdpara v := match v with Setffdpara x => Some x | _ => None end.
Definition is_bins v := match v with SetBins x => Some x | _ => None end.
Definition is_samples v := match v with SetSamples x => Some x | _ => None end.
Definition is_transform v := match v with SetTransform x => Some x | _ => None end.
Definition is_random_generator v := match v with AttrRandomGenerator x => Some x | _ => None end.
Definition is_stdv_sim v := match v with AttrStdvSim x => Some x | _ => None end.
Definition is_target_cov v := match v with AttrTargetCov x => Some x | _ => None end.
Definition is_print v := match v with SetPrintOutput x => Some x | _ => None end.

(** the options an options object holds after the script [p] that follows its creation (the print flag aside) *)
Definition current (o : nat) (p : list cmd) (x : aopts) : Prop :=
  ao_multi_proc x = last_set is_multi_proc o 1%Z p /\ ao_block_size x = last_set is_block_size o 1000%Z p /\
  ao_i_max x = last_set is_i_max o 100%Z p /\ ao_e1 x = last_set is_e1 o (1 / 1000) p /\ ao_e2 x = last_set is_e2 o (1 / 1000) p /\
  ao_step_size x = last_set is_step_size o 0 p /\ ao_diff_mode x = last_set is_diff_mode o "ffd"%string p /\
  ao_ffdpara x = last_set is_ffdpara o 1000 p /\ ao_bins x = last_set is_bins o None p /\ ao_samples x = last_set is_samples o 100000%Z p /\
  ao_transform_type x = last_set is_transform o None p /\ ao_random_generator x = last_set is_random_generator o 0%Z p /\
  ao_stdv_sim x = last_set is_stdv_sim o 1 p /\ ao_target_cov x = last_set is_target_cov o (5 / 100) p.

(** which of these settings the numerical work of an analysis is given *)
Definition form_settings (x : aopts) : form_opts :=
  {| fo_imax := ao_i_max x; fo_e1 := ao_e1 x; fo_e2 := ao_e2 x; fo_step := ao_step_size x;
     fo_ls := {| o_diff_mode := ao_diff_mode x; o_multi_proc := ao_multi_proc x; o_block_size := ao_block_size x; o_ffdpara := ao_ffdpara x |} |}.
Definition mc_settings (x : aopts) : mc_opts :=
  {| mo_samples := ao_samples x; mo_block := ao_block_size x; mo_target := ao_target_cov x; mo_stdv := ao_stdv_sim x; mo_rg := ao_random_generator x |}.

(** no analysis among [p] is an importance sampling one *)
Definition no_importance (p : list cmd) : Prop := forall m l o, ~ In (NewAnalysis KImportance m l o) p.

(** the class and the transformation type of an analysis *)
Definition obj_type (a : aobj) : string := match a with OForm f => fb_type f | OCrude m | OImportance m => mb_type m | OSubset v => sv_type v | OLine l => lo_type l | ODistribution d => db_type d end.
Definition same_class (a b : aobj) : Prop :=
  match a, b with OForm _, OForm _ | OCrude _, OCrude _ | OImportance _, OImportance _ | OSubset _, OSubset _ | OLine _, OLine _ | ODistribution _, ODistribution _ => True | _, _ => False end.
