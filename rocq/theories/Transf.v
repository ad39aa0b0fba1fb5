(** Model of [Transformation] (/repo/src/pystra/transformation.py) and of the
    part of [AnalysisObject] that creates it (analysis.py 48-98).  Definitions only.

    Vectors and matrices are functions of the index with explicit size n = len(marg);
    the marginals are given as a function of the index. *)
From Verif Require Import Base StochModel.

(** transformation.py 32-46 *)
Definition transform_types : list string := ["cholesky"; "svd"]%string.

Definition mkTransformation (ty : option string) : result string :=
  let t := match ty with None => "cholesky"%string | Some s => s end in
  if existsb (String.eqb t) transform_types then Ok t else Err EValue.

(** transformation.py 51-67 *)
Definition x_to_u (n : nat) (T : mat) (m : nat -> rv) (x : vec) : vec :=
  let u := fun i => rv_x2u (m i) (x i) in mvec n T u.

(** transformation.py 69-83 *)
Definition u_to_x (n : nat) (invT : mat) (m : nat -> rv) (u : vec) : vec :=
  let z := mvec n invT u in fun i => rv_u2x (m i) (z i).

(** transformation.py 85-106; [Ji.item()] is the scalar rv_jac. *)
Definition jac_diag (n : nat) (invT : mat) (m : nat -> rv) (u x : vec) : mat :=
  let z := mvec n invT u in
  fun i j => if Nat.eqb i j then rv_jac (m i) (z i) (x i) else 0.
Definition jacobian (n : nat) (T invT : mat) (m : nat -> rv) (u x : vec) : mat :=
  mmul n T (jac_diag n invT m u x).

(** transformation.py 108-168.  [chol], [svd] and [inv] stand for
    np.linalg.cholesky (may raise), np.linalg.svd (only U and D are used) and
    np.linalg.inv.  The result is (T, inv_T). *)
Section Compute.
  Variable chol : nat -> mat -> result mat.
  Variable svd : nat -> mat -> result (mat * vec).
  Variable inv : nat -> mat -> result mat.

  (* 119-139 *)
  Definition computeCholesky (n : nat) (Ro : mat) : result (mat * mat) :=
    rbind (chol n Ro) (fun L => rbind (inv n L) (fun T => Ok (T, L))).

  (* 141-168 *)
  Definition computeSVD (n : nat) (Ro : mat) : result (mat * mat) :=
    rbind (svd n Ro) (fun UD =>
      let sqrtD := fun i j => sqrt (snd UD j) * meye i j in   (* np.sqrt(D) * np.eye(len(D)): row broadcast *)
      let Rm := mmul n (fst UD) sqrtD in
      rbind (inv n Rm) (fun T => Ok (T, Rm))).

  Definition transf_compute (ty : string) (n : nat) (Ro : mat) : result (mat * mat) :=
    if String.eqb ty "cholesky" then computeCholesky n Ro
    else if String.eqb ty "svd" then computeSVD n Ro
    else Err EValue.

  (** AnalysisObject: the options object is shared, the transformation is
      created once in the constructor (analysis.py 62-68) and used by init_run
      (97-98). *)
  Record analysis := mkan { an_opt_transform : option string; an_type : string }.

  Definition analysis_init (opt : option string) : result analysis :=
    rbind (mkTransformation opt) (fun t => Ok (mkan opt t)).

  (* options.setTransform on the shared options object *)
  Definition set_transform_option (a : analysis) (opt : option string) : analysis :=
    mkan opt (an_type a).

  Definition init_run (a : analysis) (n : nat) (Ro : mat) : result (mat * mat) :=
    transf_compute (an_type a) n Ro.
End Compute.

(** form.py 145-151 *)
Definition computeStartingPoint (n : nat) (T : mat) (m : nat -> rv) : vec :=
  x_to_u n T m (fun i => rv_start (m i)).

(** form.py 153-157 *)
Definition computeTransformation (n : nat) (invT : mat) (m : nat -> rv) (u : vec) : vec :=
  u_to_x n invT m u.

(** form.py 167-171: pull-back of the x-gradient, [J] the inverse Jacobian *)
Definition pull_gradient (n : nat) (grad : vec) (J : mat) : vec :=
  fun j => fsum n (fun i => grad i * J i j).
