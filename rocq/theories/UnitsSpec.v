(** Specification vocabulary for C95: the same problem in other units of its variables. *)
From Coquelicot Require Import Coquelicot.
From Verif Require Import Base Ext StochModel StochModelSpec LimitState LimitStateSpec Transf Form RotSpec.

(** The variable d' is the variable d in units in which a value x of d reads a * x + b (a > 0; for
    example centimetres for metres, or Fahrenheit for Celsius): same name, moments, starting point
    and u_to_x converted, the same standard normal starting point, and the derivative du/dx divided
    by a. *)
Definition in_units (a b : R) (d d' : rv) : Prop :=
  rv_name d' = rv_name d /\ rv_mean d' = a * rv_mean d + b /\ rv_stdv d' = a * rv_stdv d /\
  rv_start d' = a * rv_start d + b /\
  (forall u, rv_u2x d' u = a * rv_u2x d u + b) /\
  rv_x2u d' (rv_start d') = rv_x2u d (rv_start d) /\
  (forall u, rv_jac d' u (rv_u2x d' u) = rv_jac d u (rv_u2x d u) / a).

(** The model built by h' is the model built by h with variable i in units (a i, b i) and the
    same correlation matrix; the constants may be converted in any way. *)
Definition converted (n : nat) (a b : vec) (h h' : list smop) : Prop :=
  ndists h = n /\ ndists h' = n /\
  (forall i, (i < n)%nat -> 0 < a i /\ exists d d',
     nth_error (dists_of (accepted h)) i = Some d /\ nth_error (dists_of (accepted h')) i = Some d' /\
     rv_stdv d <> 0 /\ in_units (a i) (b i) d d') /\
  sm_corr (sm_run h') = sm_corr (sm_run h).

(** The limit state function f' of the converted model is f with converted arguments. *)
Definition converted_lsf (n : nat) (a b : vec) (h h' : list smop) (f f' : list (string * R) -> R) : Prop :=
  forall q q', length q = n -> length q' = n -> (forall i, (i < n)%nat -> nth i q' 0 = a i * nth i q 0 + b i) ->
  f' (args_at h' q') = f (args_at h q).

(** Two finished runs report the same: iterations, limit state values, beta, Pf, design point in
    standard normal space, alpha; the physical design points are converted into each other. *)
Definition same_report (n : nat) (a b : vec) (A : mat) (m m' : nat -> rv) (r r' : form_res) : Prop :=
  fr_i r' = fr_i r /\ fr_G r' = fr_G r /\ fr_Go r' = fr_Go r /\
  form_beta n r' = form_beta n r /\ form_Pf n r' = form_Pf n r /\
  match fr_u r, fr_u r', form_alpha n r, form_alpha n r' with
  | Some u, Some u', Some al, Some al' =>
      veq n u' u /\ veq n al' al /\
      (forall i, (i < n)%nat -> u_to_x n A m' u' i = a i * u_to_x n A m u i + b i)
  | None, None, None, None => True
  | _, _, _, _ => False
  end.
