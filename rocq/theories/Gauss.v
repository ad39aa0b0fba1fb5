(** Model of the standard normal distribution used everywhere in pystra
    (/repo/src/pystra/distributions/distribution.py, lines 10-68, class
    StdNormal; the same functions as scipy.stats.norm).  Definitions only.

    [scipy.special.erf] is the error function; [erfinv] its
    inverse.  Exact reals instead of doubles. *)
From Coquelicot Require Import Coquelicot.
From Verif Require Import Base.

(** the error function (math.erf) *)
Definition erf (x : R) : R := 2 / sqrt PI * RInt (fun t => exp (- (t * t))) 0 x.

(** StdNormal.cdf, lines 36-51: [0.5 + erf(u / sqrt(2)) / 2] *)
Definition Phi (u : R) : R := 1 / 2 + erf (u / sqrt 2) / 2.

(** StdNormal.pdf, lines 19-33: [exp(-0.5 u**2) / sqrt(2 pi)] *)
Definition phi (u : R) : R := exp (- (1 / 2) * (u * u)) / sqrt (2 * PI).

(** StdNormal.ppf, lines 54-68: [erfinv(2p - 1) sqrt(2)]: the least upper bound of the points
    whose probability is at most p; -inf for p <= 0 and +inf for p >= 1, as
    scipy's erfinv returns at 2p-1 = -1 and 1 (outside [0,1] scipy returns NaN,
    which is not modelled). *)
Definition Phi_inv (p : R) : Rbar := Lub_Rbar (fun x => Phi x <= p).

(** the finite values *)
Definition ppf (p : R) : R := real (Phi_inv p).
