(** Specification vocabulary for C99: quadratic limit states with a user-supplied gradient. *)
From Coquelicot Require Import Coquelicot.
From Verif Require Import Base StochModel LimitState LimitStateSpec Form.
From Coq Require Import ZArith.

(** The user's function (differentiation mode "ddm"): point by point the value f, and for a single
    point also the gradient gr, as a tuple. *)
Definition with_gradient (expr : expression) (f : list (string * R) -> R) (gr : list (string * R) -> list R) : Prop :=
  pointwise expr f /\
  forall kw : kwargs, kw <> [] -> (forall k v, In (k, v) kw -> length v = 1%nat) ->
    exists G, expr kw = Ok (UTuple G (gr (map (fun kv => (fst kv, nth 0 (snd kv) 0)) kw))).

(** c0 + cf . x + 1/2 (x - mu)^T Q (x - mu) and its gradient *)
Definition quad_value (n : nat) (c0 : R) (cf mu : vec) (Q : mat) (x : list R) : R :=
  c0 + fsum n (fun i => cf i * nth i x 0) + / 2 * fsum n (fun i => fsum n (fun j => Q i j * (nth i x 0 - mu i) * (nth j x 0 - mu j))).
Definition quad_gradient (n : nat) (cf mu : vec) (Q : mat) (x : list R) : list R :=
  map (fun i => cf i + fsum n (fun j => Q i j * (nth j x 0 - mu j))) (seq 0 n).

(** options: user gradient, serial, and a step rule that reaches the design point exactly *)
Definition ddm_options (fo : form_opts) : Prop :=
  o_diff_mode (fo_ls fo) = "ddm"%string /\ o_multi_proc (fo_ls fo) = 1%Z /\ (1 <= o_block_size (fo_ls fo))%Z /\ o_ffdpara (fo_ls fo) <> 0 /\
  0 < fo_e2 fo /\
  ((fo_step fo = 1 /\ 0 < fo_e1 fo <= 1 /\ (2 <= fo_imax fo)%Z) \/
   (fo_step fo = 0 /\ 0 < fo_e1 fo <= 1 / 3 /\ (15 < fo_imax fo)%Z)).

(** the Hessian of the limit state in standard normal space, x = mu + diag(sd) A u *)
Definition u_hessian (n : nat) (A : mat) (sd : vec) (Q : mat) : mat :=
  fun j l => fsum n (fun i => fsum n (fun k => (A i j * sd i) * Q i k * (sd k * A k l))).

(** kappa is the list of the principal curvatures at the design point of a surface with Hessian H, unit
    normal alpha and gradient norm g, with their multiplicities: there are orthonormal directions W k in
    the tangent plane (orthogonal to alpha) with H (W k) = kappa_k g (W k). *)
Definition principal_curvatures (n : nat) (H : mat) (alpha : vec) (g : R) (kappa : list R) : Prop :=
  length kappa = (n - 1)%nat /\ exists W : nat -> vec,
    forall i j, (i < n - 1)%nat -> (j < n - 1)%nat -> dot n (W i) (W j) = delta i j /\ dot n alpha (W i) = 0 /\
      veq n (mvec n H (W i)) (fun c => nth i kappa 0 * g * W i c).

(** The normal curvature in the unit direction r, and what point fitting reports for a trial distance
    with square s2: 0 if the limit state value at the trial point is below the tolerance 1e-6. *)
Definition normal_curv (n : nat) (H : mat) (g : R) (r : vec) : R := dot n r (mvec n H r) / g.
Definition fitted (n : nat) (H : mat) (g s2 : R) (r : vec) : R :=
  if Rltb (Rabs (/ 2 * s2 * dot n r (mvec n H r))) (1 / 1000000) then 0 else normal_curv n H g r.

(** The results of Breitung's formula for the coefficient c: the probability pf and the index bg *)
From Verif Require Import Ext Gauss Sorm Valid.
Definition breitung_values (beta c : R) (kappa : list R) (pf bg : sattr) : Prop :=
  let p := Phi (- beta) * lprod (map (fun k => / sqrt (1 + c * k)) kappa) in
  pf = SArr (Fin p) /\ forall z, Phi (- z) = p -> bg = SArr (Fin z).
