(** Model of /repo/src/pystra/distributions/: the base class Distribution
    (distribution.py 100-572) and the classes Normal, Lognormal, ShiftedLognormal,
    Uniform and the SciPy-backed ones.  Definitions only.

    Simplifications: exact real arithmetic; vectorised methods are modelled on one
    element; np.log is [ln], so statements about Lognormal carry x > 0; SciPy's
    frozen distributions are modelled by their documented location-scale semantics
    ([frozen]), and the standardised families by SciPy's own formulas. *)
From Coquelicot Require Import Coquelicot.
From Verif Require Import Base StochModel Gauss.
Open Scope R_scope.

(** A scipy.stats family with its shape parameters fixed, at loc = 0, scale = 1.
    sf_ppf 0 is the lower end of the support where that is finite. *)
Record sfam := mkFam {
  sf_cdf : R -> R; sf_pdf : R -> R; sf_ppf : R -> R; sf_mean : R; sf_std : R
}.

(** scipy.stats.rv_frozen: the family with kwds loc and scale. Simplified: SciPy returns
    NaN for a scale that is not positive, here the formulas are extended to it; theorems
    that need scale > 0 say so. *)
Record frozen := mkFrozen { fz_fam : sfam; fz_loc : R; fz_scale : R }.
Definition fz_cdf (o : frozen) (x : R) : R := sf_cdf (fz_fam o) ((x - fz_loc o) / fz_scale o).
Definition fz_pdf (o : frozen) (x : R) : R := sf_pdf (fz_fam o) ((x - fz_loc o) / fz_scale o) / fz_scale o.
Definition fz_ppf (o : frozen) (p : R) : R := fz_loc o + fz_scale o * sf_ppf (fz_fam o) p.
Definition fz_mean (o : frozen) : R := fz_loc o + fz_scale o * sf_mean (fz_fam o).
Definition fz_std (o : frozen) : R := fz_scale o * sf_std (fz_fam o).

(** What the methods of any Distribution object give, whatever its class. *)
Record dist := mkDist {
  d_mean : R; d_stdv : R;
  d_pdf : R -> R; d_cdf : R -> R; d_ppf : R -> R;
  d_u2x : R -> R; d_x2u : R -> R; d_jac : R -> R -> R
}.

(** distribution.py 308-332: inverse-transform sampling of one number in (0,1) *)
Definition d_sample (d : dist) (u : R) : R := d_ppf d u.

(** ** Base class over a SciPy object: distribution.py 146-307 *)
Record sobj := mkSobj { so_obj : frozen; so_mean : R; so_stdv : R; so_start : R }.

(** 146-181, 195-199: dist_obj given, [startpoint] optional *)
Definition base_init (o : frozen) (startpoint : option R) : sobj :=
  let mean := fz_mean o in
  let stdv := fz_std o in
  mkSobj o mean stdv (match startpoint with None => mean | Some s => s end).

(** 204-307: methods that only use dist_obj *)
Definition base_dist (s : sobj) : dist :=
  let cdf := fz_cdf (so_obj s) in
  let pdf := fz_pdf (so_obj s) in
  mkDist (so_mean s) (so_stdv s) pdf cdf (fz_ppf (so_obj s))
    (fun u => fz_ppf (so_obj s) (Phi u))
    (fun x => ppf (cdf x))
    (fun u x => pdf x / phi u).

(** 526-572: set_location / set_scale write into dist_obj.kwds and recompute the
    moments; the start point is not touched *)
Definition base_set_location (loc : R) (s : sobj) : sobj :=
  let o := mkFrozen (fz_fam (so_obj s)) loc (fz_scale (so_obj s)) in
  mkSobj o (fz_mean o) (fz_std o) (so_start s).
Definition base_set_scale (scale : R) (s : sobj) : sobj :=
  let o := mkFrozen (fz_fam (so_obj s)) (fz_loc (so_obj s)) scale in
  mkSobj o (fz_mean o) (fz_std o) (so_start s).

(** ** Normal: normal.py *)
Record normal := mkNormal { no_mean : R; no_stdv : R; no_start : R }.
(** 23-33 *)
Definition normal_init (mean stdv : R) (startpoint : option R) : normal :=
  mkNormal mean stdv (match startpoint with None => mean | Some s => s end).
(** 35-87 *)
Definition normal_dist (s : normal) : dist :=
  mkDist (no_mean s) (no_stdv s)
    (fun x => phi ((x - no_mean s) / no_stdv s) / no_stdv s)
    (fun x => Phi ((x - no_mean s) / no_stdv s))
    (fun p => no_stdv s * ppf p + no_mean s)
    (fun u => u * no_stdv s + no_mean s)
    (fun x => (x - no_mean s) / no_stdv s)
    (fun _ _ => 1 / no_stdv s).
(** 89-104: (dF/dmean, dF/dstd) *)
Definition normal_dF (s : normal) (x : R) : R * R :=
  let z := (x - no_mean s) / no_stdv s in
  let phi_z := phi z in
  (- phi_z / no_stdv s, - phi_z * z / no_stdv s).
(** 106-118 *)
Definition normal_set_location (loc : R) (s : normal) : normal := mkNormal loc (no_stdv s) (no_start s).
Definition normal_set_scale (scale : R) (s : normal) : normal := mkNormal (no_mean s) scale (no_start s).

(** ** Lognormal: lognormal.py *)
(** scipy.stats.lognorm with shape s *)
Definition lognorm_fam (s : R) : sfam :=
  mkFam (fun x => if Rltb 0 x then Phi (ln x / s) else 0)
        (fun x => if Rltb 0 x then phi (ln x / s) / (s * x) else 0)
        (fun p => if Rleb p 0 then 0 else exp (s * ppf p))
        (exp (s * s / 2)) (sqrt ((exp (s * s) - 1) * exp (s * s))).

(** 50-53 *)
Definition ln_params (mean stdv : R) : R * R :=       (* (lamb, zeta) *)
  let cov := stdv / mean in
  let zeta := sqrt (ln (1 + cov * cov)) in
  (ln mean - 1 / 2 * (zeta * zeta), zeta).

Record lognormal := mkLn { ln_lamb : R; ln_zeta : R; ln_obj : frozen; ln_mean : R; ln_stdv : R; ln_start : R }.

(** 25-48: [by_moments] is [input_type is None] *)
Definition lognormal_init (mean stdv : R) (by_moments : bool) (startpoint : option R) : lognormal :=
  let lz := if by_moments then ln_params mean stdv else (mean, stdv) in
  let o := mkFrozen (lognorm_fam (snd lz)) 0 (exp (fst lz)) in
  let b := base_init o startpoint in
  mkLn (fst lz) (snd lz) o (so_mean b) (so_stdv b) (so_start b).

(** 57-85; ppf and jacobian are inherited (distribution.py 236-250, 283-307).
    np.log(0) = -inf makes the cdf 0 at 0; for x < 0 np.log gives NaN and so does the
    cdf, which the model also sends to 0: no statement is made about cdf values there. *)
Definition ln_pdf (lamb zeta x : R) : R :=
  let z := (ln x - lamb) / zeta in
  exp (- (1 / 2) * (z * z)) / (sqrt (2 * PI) * zeta * x).
Definition ln_cdf (lamb zeta x : R) : R :=
  if Rltb 0 x then let z := (ln x - lamb) / zeta in 1 / 2 + erf (z / sqrt 2) / 2 else 0.
Definition lognormal_dist (s : lognormal) : dist :=
  mkDist (ln_mean s) (ln_stdv s)
    (ln_pdf (ln_lamb s) (ln_zeta s)) (ln_cdf (ln_lamb s) (ln_zeta s))
    (fz_ppf (ln_obj s))
    (fun u => exp (u * ln_zeta s + ln_lamb s))
    (fun x => (ln x - ln_lamb s) / ln_zeta s)
    (fun u x => ln_pdf (ln_lamb s) (ln_zeta s) x / phi u).

(** 87-126 *)
Definition lognormal_dF (s : lognormal) (x : R) : R * R :=
  let cov := ln_stdv s / ln_mean s in
  let cov2 := cov * cov in
  let z := (ln x - ln_lamb s) / ln_zeta s in
  let phi_z := phi z in
  let dzeta_dmu := - cov2 / (ln_mean s * ln_zeta s * (1 + cov2)) in
  let dzeta_dsig := cov / (ln_mean s * ln_zeta s * (1 + cov2)) in
  let dlamb_dmu := 1 / ln_mean s - ln_zeta s * dzeta_dmu in
  let dlamb_dsig := - ln_zeta s * dzeta_dsig in
  let coeff := phi_z / ln_zeta s in
  (coeff * (- dlamb_dmu - z * dzeta_dmu), coeff * (- dlamb_dsig - z * dzeta_dsig)).

(** 128-145 *)
Definition lognormal_set_location (loc : R) (s : lognormal) : lognormal :=
  let lz := ln_params loc (ln_stdv s) in
  mkLn (fst lz) (snd lz) (ln_obj s) loc (ln_stdv s) (ln_start s).
Definition lognormal_set_scale (scale : R) (s : lognormal) : lognormal :=
  let lz := ln_params (ln_mean s) scale in
  mkLn (fst lz) (snd lz) (ln_obj s) (ln_mean s) scale (ln_start s).

(** ** ShiftedLognormal: shiftedlognormal.py *)
Record slognormal := mkSln { sl_ln : lognormal; sl_lower : R; sl_ctor_lower : R }.

(** 27-47; [ctor_lower] is _ctor_kwargs["lower"] *)
Definition slognormal_init (mean stdv lower : R) (by_moments : bool) (startpoint : option R) : result slognormal :=
  if negb by_moments then Err ENotImpl
  else
    let lz := ln_params (mean - lower) stdv in
    let o := mkFrozen (lognorm_fam (snd lz)) lower (exp (fst lz)) in
    let b := base_init o startpoint in
    Ok (mkSln (mkLn (fst lz) (snd lz) o (so_mean b) (so_stdv b) (so_start b)) lower lower).

(** 54-77; jacobian, ppf inherited *)
Definition slognormal_dist (s : slognormal) : dist :=
  let b := lognormal_dist (sl_ln s) in
  let pdf x := d_pdf b (x - sl_lower s) in
  mkDist (d_mean b) (d_stdv b) pdf
    (fun x => d_cdf b (x - sl_lower s)) (d_ppf b)
    (fun u => d_u2x b u + sl_lower s)
    (fun x => d_x2u b (x - sl_lower s))
    (fun u x => pdf x / phi u).

(** dF_dtheta is inherited from Lognormal unchanged *)
Definition slognormal_dF (s : slognormal) (x : R) : R * R := lognormal_dF (sl_ln s) x.

(** 49-52 with lower=None, as called from the inherited set_location/set_scale *)
Definition slognormal_set_location (loc : R) (s : slognormal) : slognormal :=
  let l := sl_ln s in
  let lz := ln_params (loc - sl_lower s) (ln_stdv l) in
  mkSln (mkLn (fst lz) (snd lz) (ln_obj l) loc (ln_stdv l) (ln_start l)) (sl_lower s) (sl_ctor_lower s).
Definition slognormal_set_scale (scale : R) (s : slognormal) : slognormal :=
  let l := sl_ln s in
  let lz := ln_params (ln_mean l - sl_lower s) scale in
  mkSln (mkLn (fst lz) (snd lz) (ln_obj l) (ln_mean l) scale (ln_start l)) (sl_lower s) (sl_ctor_lower s).
(** 79-86 *)
Definition slognormal_set_lower (lower : R) (s : slognormal) : slognormal :=
  let l := sl_ln s in
  let lz := ln_params (ln_mean l - lower) (ln_stdv l) in
  mkSln (mkLn (fst lz) (snd lz) (ln_obj l) (ln_mean l) (ln_stdv l) (ln_start l)) lower (sl_ctor_lower s).

(** ** Uniform: uniform.py *)
Definition uniform_fam : sfam :=
  mkFam (fun x => if Rltb x 0 then 0 else if Rltb 1 x then 1 else x)
        (fun x => if Rleb 0 x && Rleb x 1 then 1 else 0)
        (fun p => p) (1 / 2) (sqrt (1 / 12)).
Record uniform := mkUni { un_a : R; un_b : R; un_s : sobj }.
(** 20-42 *)
Definition uniform_init (mean stdv : R) (by_moments : bool) (startpoint : option R) : uniform :=
  let a := if by_moments then mean - sqrt 3 * stdv else mean in
  let b := if by_moments then mean + sqrt 3 * stdv else stdv in
  mkUni a b (base_init (mkFrozen uniform_fam a (b - a)) startpoint).
(** 46-58; the rest is inherited *)
Definition uniform_dist (s : uniform) : dist :=
  let b := base_dist (un_s s) in
  mkDist (d_mean b) (d_stdv b) (d_pdf b) (d_cdf b) (d_ppf b)
    (fun u => un_a s + (un_b s - un_a s) * Phi u)
    (fun x => ppf (d_cdf b x))
    (d_jac b).
(** inherited *)
Definition uniform_set_location (loc : R) (s : uniform) : uniform := mkUni (un_a s) (un_b s) (base_set_location loc (un_s s)).
Definition uniform_set_scale (scale : R) (s : uniform) : uniform := mkUni (un_a s) (un_b s) (base_set_scale scale (un_s s)).

(** ** The other SciPy-backed constructors (moments -> frozen object) *)
(** shiftedexponential.py 20-37 *)
Definition expon_fam : sfam :=
  mkFam (fun x => if Rltb x 0 then 0 else 1 - exp (- x)) (fun x => if Rltb x 0 then 0 else exp (- x))
        (fun p => - ln (1 - p)) 1 1.
Definition shiftedexp_obj (mean stdv : R) (by_moments : bool) : frozen :=
  let x_zero := if by_moments then mean - stdv else stdv in
  let lamb := if by_moments then 1 / stdv else mean in
  mkFrozen expon_fam x_zero (1 / lamb).

(** shiftedrayleigh.py 21-38 *)
Definition rayleigh_fam : sfam :=
  mkFam (fun x => if Rltb x 0 then 0 else 1 - exp (- (x * x) / 2)) (fun x => if Rltb x 0 then 0 else x * exp (- (x * x) / 2))
        (fun p => sqrt (- 2 * ln (1 - p))) (sqrt (PI / 2)) (sqrt (2 - PI / 2)).
Definition shiftedrayleigh_obj (mean stdv : R) (by_moments : bool) : frozen :=
  let a := if by_moments then stdv / sqrt (2 - PI * (1 / 2)) else mean in
  let x_zero := if by_moments then mean - stdv * sqrt (PI / (4 - PI)) else stdv in
  mkFrozen rayleigh_fam x_zero a.

(** gumbel.py 21-38 (typeilargestvalue.py 18-31 is the same object); [eg] is Euler's
    constant as SciPy uses it; 0.5772156649 is the literal in the code *)
Definition eg_literal : R := 5772156649 / 10000000000.
Definition gumbel_fam (eg : R) : sfam :=
  mkFam (fun x => exp (- exp (- x))) (fun x => exp (- (x + exp (- x)))) (fun p => - ln (- ln p)) eg (PI / sqrt 6).
Definition gumbel_obj (eg mean stdv : R) (by_moments : bool) : frozen :=
  let mu := if by_moments then mean - eg_literal * stdv * sqrt 6 / PI else mean in
  let scale := if by_moments then stdv * sqrt 6 / PI else stdv in
  mkFrozen (gumbel_fam eg) mu scale.

(** typeismallestvalue.py 21-38 *)
Definition gumbel_l_fam (eg : R) : sfam :=
  mkFam (fun x => 1 - exp (- exp x)) (fun x => exp (x - exp x)) (fun p => ln (- ln (1 - p))) (- eg) (PI / sqrt 6).
Definition typeismallest_obj (eg mean stdv : R) (by_moments : bool) : frozen :=
  let beta := if by_moments then PI / (stdv * sqrt 6) else stdv in
  let mu := if by_moments then mean + eg_literal * stdv * sqrt 6 / PI else mean in
  mkFrozen (gumbel_l_fam eg) mu (1 / beta).

(** gamma.py 20-37 and chisquare.py 19-44: families with incomplete-gamma cdf
    [g], [c2]; only their moments matter below.  ChiSquare prints a message when
    mean/(stdv^2/2) is outside [0.95,1.05] and carries on: [chisquare_warns]. *)
Definition gamma_obj (gam : R -> sfam) (mean stdv : R) (by_moments : bool) : frozen :=
  let beta := if by_moments then mean / (stdv * stdv) else mean in
  let alpha := if by_moments then (mean * mean) / (stdv * stdv) else stdv in
  mkFrozen (gam alpha) 0 (1 / beta).
Definition chisquare_obj (chi2 : R -> sfam) (mean stdv : R) (by_moments : bool) : frozen :=
  let nu := if by_moments then 2 * (mean * mean) / (stdv * stdv) else mean in
  mkFrozen (chi2 nu) 0 1.
Definition chisquare_warns (mean stdv : R) : bool :=
  let mean_test := 1 / 2 * (stdv * stdv) in
  Rltb (mean / mean_test) (95 / 100) || Rltb (105 / 100) (mean / mean_test).

(** weibull.py 23-60 (typeiiismallestvalue.py 22-36 is the same object).  [Gam] is
    the gamma function, [fsolve f x0] SciPy's solver. *)
Definition weibull_fam (Gam : R -> R) (c : R) : sfam :=
  mkFam (fun x => if Rleb x 0 then 0 else 1 - exp (- Rpower x c)) (fun x => if Rleb x 0 then 0 else c * Rpower x (c - 1) * exp (- Rpower x c))
        (fun p => if Rleb p 0 then 0 else Rpower (- ln (1 - p)) (1 / c)) (Gam (1 + 1 / c)) (sqrt (Gam (1 + 2 / c) - Gam (1 + 1 / c) * Gam (1 + 1 / c))).
Definition weibull_parameter (Gam : R -> R) (x meaneps stdv : R) : R :=
  sqrt (Gam (1 + 2 / x) - Gam (1 + 1 / x) * Gam (1 + 1 / x)) - (stdv / meaneps) * Gam (1 + 1 / x).
Definition weibull_obj (Gam : R -> R) (fsolve : (R -> R) -> R -> R) (mean stdv epsilon : R) (by_moments : bool) : frozen :=
  let meaneps := mean - epsilon in
  let k := if by_moments then fsolve (fun x => weibull_parameter Gam x meaneps stdv) (1 / 10) else stdv in
  let u_1 := if by_moments then meaneps / Gam (1 + 1 / k) + epsilon else mean in
  mkFrozen (weibull_fam Gam k) epsilon (u_1 - epsilon).

(** typeiilargestvalue.py 21-54 *)
Definition frechet_fam (Gam : R -> R) (c : R) : sfam :=
  mkFam (fun x => if Rleb x 0 then 0 else exp (- Rpower x (- c))) (fun x => if Rleb x 0 then 0 else c * Rpower x (- c - 1) * exp (- Rpower x (- c)))
        (fun p => if Rleb p 0 then 0 else Rpower (- ln p) (- (1 / c))) (Gam (1 - 1 / c)) (sqrt (Gam (1 - 2 / c) - Gam (1 - 1 / c) * Gam (1 - 1 / c))).
Definition typeII_parameter (Gam : R -> R) (x mean stdv : R) : R :=
  sqrt (Gam (1 - 2 / x) - Gam (1 - 1 / x) * Gam (1 - 1 / x)) - (stdv / mean) * Gam (1 - 1 / x).
Definition typeII_obj (Gam : R -> R) (fsolve : (R -> R) -> R -> R) (mean stdv : R) (by_moments : bool) : frozen :=
  let k := if by_moments then fsolve (fun x => typeII_parameter Gam x mean stdv) (2000001 / 1000000) else stdv in
  let u_n := if by_moments then mean / Gam (1 - 1 / k) else mean in
  mkFrozen (frechet_fam Gam k) 0 u_n.

(** beta.py 23-63; [bet q r] is the Beta family on [0,1], [fmin] SciPy's minimiser *)
Definition beta_parameter (a b mean stdv q : R) : R :=
  let r := (b - mean) * / (mean - a) * q in
  Rabs (((b - a) * / (q + r)) * sqrt (q * r * / (q + r + 1)) - stdv).
Definition beta_obj (bet : R -> R -> sfam) (fmin : (R -> R) -> R -> R) (mean stdv a b : R) (by_moments : bool) : frozen :=
  let q := if by_moments then fmin (beta_parameter a b mean stdv) 1 else mean in
  let r := if by_moments then q * (b - a) * / (mean - a) - q else stdv in
  mkFrozen (bet q r) a (b - a).

(** gev.py 36-72 (GEVmax) and 107-155 (GEVmin).  [gev_fam c] is
    scipy.stats.genextreme(c): exp(-(1 - c z)^(1/c)) where 1 - c z > 0, the Gumbel
    law for c = 0; [close0] is np.isclose(shape, 0). *)
Definition gev_fam (Gam : R -> R) (eg c : R) : sfam :=
  if Reqb c 0 then gumbel_fam eg
  else mkFam (fun z => if Rltb 0 (1 - c * z) then exp (- Rpower (1 - c * z) (1 / c)) else if Rltb 0 c then 1 else 0)
         (fun z => if Rltb 0 (1 - c * z) then exp (- Rpower (1 - c * z) (1 / c)) * Rpower (1 - c * z) (1 / c - 1) else 0)
         (fun p => (1 - Rpower (- ln p) c) / c)
         ((1 - Gam (1 + c)) / c) (sqrt (Gam (1 + 2 * c) - Gam (1 + c) * Gam (1 + c)) / Rabs c).
Definition close0 (shape : R) : bool := Rleb (Rabs shape) (/ 10 ^ 8).
Definition gev_loc_scale (Gam : R -> R) (eg shape mean stdv : R) (by_moments : bool) : R * R :=
  let g1 := Gam (1 - shape) in
  let g2 := Gam (1 - 2 * shape) in
  if by_moments then
    if close0 shape then
      let scale := stdv * sqrt 6 / PI in (mean - scale * eg, scale)
    else
      let scale := stdv * Rabs shape / sqrt (g2 - g1 * g1) in (mean - scale / shape * (g1 - 1), scale)
  else (mean, stdv).
Definition gevmax_obj (Gam : R -> R) (eg mean stdv shape : R) (by_moments : bool) : result frozen :=
  if Rleb (1 / 2) shape then Err EValue
  else let ls := gev_loc_scale Gam eg shape mean stdv by_moments in
       Ok (mkFrozen (gev_fam Gam eg (- shape)) (fst ls) (snd ls)).

(** GEVmin: the frozen object describes -X (150), the reported moments are computed
    before and restored after the base constructor (129-131, 138-145, 155-168) *)
Record gevmin := mkGmin { gm_obj : frozen; gm_mean : R; gm_stdv : R; gm_start : R }.
Definition gevmin_init (Gam : R -> R) (eg mean stdv shape : R) (by_moments : bool) (startpoint : option R) : result gevmin :=
  if Rleb (1 / 2) shape then Err EValue
  else
    let g1 := Gam (1 - shape) in
    let g2 := Gam (1 - 2 * shape) in
    let ls := gev_loc_scale Gam eg shape mean stdv by_moments in
    let m := if by_moments then mean else
             if close0 shape then fst ls + snd ls * eg else fst ls + (g1 - 1) * snd ls / shape in
    let s := if by_moments then stdv else
             if close0 shape then snd ls * PI / sqrt 6 else sqrt ((g2 - g1 * g1) * ((snd ls / shape) * (snd ls / shape))) in
    Ok (mkGmin (mkFrozen (gev_fam Gam eg (- shape)) (- fst ls) (snd ls)) m s (match startpoint with None => m | Some x => x end)).
(** 167-188; u_to_x, x_to_u, jacobian inherited (distribution.py 252-307) *)
Definition gevmin_dist (s : gevmin) : dist :=
  let o := gm_obj s in
  let cdf x := 1 - fz_cdf o (- x) in
  let pdf x := fz_pdf o (- x) in
  mkDist (gm_mean s) (gm_stdv s) pdf cdf
    (fun u => - fz_ppf o u)
    (fun u => fz_ppf o (Phi u))
    (fun x => ppf (cdf x))
    (fun u x => pdf x / phi u).

(** ** Maximum (maximum.py) and MaxParent (parent.py) *)
Record powd := mkPow { pw_base : dist; pw_N : R }.
(** maximum.py 23-31, parent.py 29-38: the checks (the moments, which come from a
    random sample, are modelled in DistHeap.v) *)
Definition maximum_init (parent : dist) (N : R) : result powd := if Rltb N 1 then Err EException else Ok (mkPow parent N).
Definition maxparent_init (mx : dist) (N : R) : result powd := if Rltb N 1 then Err EException else Ok (mkPow mx N).
(** [x ** y] for a probability x: 0 ** y = 0 for y > 0, x ** 0 = 1 *)
Definition ppow (x y : R) : R := if Reqb y 0 then 1 else if Rltb 0 x then Rpower x y else 0.
(** maximum.py 44-60 *)
Definition maximum_pdf (m : powd) (x : R) : R :=
  let pdf := d_pdf (pw_base m) x in
  let cdf := if Rltb 1 (pw_N m) then d_cdf (pw_base m) x else 1 in
  pw_N m * pdf * ppow cdf (pw_N m - 1).
Definition maximum_cdf (m : powd) (x : R) : R := ppow (d_cdf (pw_base m) x) (pw_N m).
(** parent.py 51-65 *)
Definition maxparent_cdf (m : powd) (x : R) : R := ppow (d_cdf (pw_base m) x) (1 / pw_N m).
Definition maxparent_pdf (m : powd) (x : R) : R :=
  d_pdf (pw_base m) x / (pw_N m * ppow (maxparent_cdf m x) (pw_N m - 1)).
(** maximum.py 134-138 / parent.py 144-148 and the ppf loops 62-73 / 67-78, one element *)
Definition pow_ppf (fmin : (R -> R) -> R -> R) (cdf : R -> R) (x0 p : R) : R := fmin (fun x => Rabs (cdf x - p)) x0.
(** parent.py 129-134: not validated *)
Definition maxparent_set_exponent (N : R) (m : powd) : powd := mkPow (pw_base m) N.
(** both classes as Distribution objects; [m], [s] the sampled moments *)
Definition maximum_dist (fmin : (R -> R) -> R -> R) (w : powd) (m s : R) : dist :=
  mkDist m s (maximum_pdf w) (maximum_cdf w) (pow_ppf fmin (maximum_cdf w) (d_mean (pw_base w)))
    (fun u => pow_ppf fmin (maximum_cdf w) (d_mean (pw_base w)) (Phi u))
    (fun x => ppf (maximum_cdf w x)) (fun u x => maximum_pdf w x / phi u).
Definition maxparent_dist (fmin : (R -> R) -> R -> R) (w : powd) (m s : R) : dist :=
  mkDist m s (maxparent_pdf w) (maxparent_cdf w) (pow_ppf fmin (maxparent_cdf w) (d_mean (pw_base w)))
    (fun u => pow_ppf fmin (maxparent_cdf w) (d_mean (pw_base w)) (Phi u))
    (fun x => ppf (maxparent_cdf w x)) (fun u x => maxparent_pdf w x / phi u).

(** ** ZeroInflated: zeroinflated.py *)
Record zinf := mkZi { zi_base : dist; zi_p : R; zi_q : R; zi_mean : R; zi_stdv : R }.
Definition zero_tol : R := / 10 ^ 6.
(** 113-131 *)
Definition zi_stats (d : dist) (p q : R) : R * R :=
  (q * d_mean d, sqrt (q * (d_stdv d * d_stdv d) + p * q * (d_mean d * d_mean d))).
(** 26-49 *)
Definition zinf_init (d : dist) (p : R) : result zinf :=
  if Rltb p 0 then Err EException else if Rleb 1 p then Err EException
  else Ok (mkZi d p (1 - p) (fst (zi_stats d p (1 - p))) (snd (zi_stats d p (1 - p)))).
(** 51-94 *)
Definition zinf_pdf (z : zinf) (x : R) : R :=
  d_pdf (zi_base z) x * zi_q z + (if Rltb (- zero_tol) x && Rltb x zero_tol then zi_p z else 0).
Definition zinf_cdf (z : zinf) (x : R) : R :=
  d_cdf (zi_base z) x * zi_q z + (if Rltb (- zero_tol) x then zi_p z else 0).
Definition zinf_ppf (z : zinf) (p : R) : R :=
  let p0 := d_cdf (zi_base z) 0 in
  let qp0 := zi_q z * p0 in
  let qp0p := qp0 + zi_p z in
  let x := 0 in
  let x := if Rltb p qp0 then d_ppf (zi_base z) (p / zi_q z) else x in
  let x := if Rltb qp0 p && Rltb p qp0p then 0 else x in
  if Rleb qp0p p then d_ppf (zi_base z) ((p - zi_p z) / zi_q z) else x.
(** 96-112: a ZeroInflated as a Distribution object *)
Definition zinf_dist (z : zinf) : dist :=
  mkDist (zi_mean z) (zi_stdv z) (zinf_pdf z) (zinf_cdf z) (zinf_ppf z)
    (fun u => zinf_ppf z (Phi u)) (fun x => ppf (zinf_cdf z x)) (fun u x => zinf_pdf z x / phi u).
(** 147-153: not validated *)
Definition zinf_set_zero_probability (p : R) (z : zinf) : zinf :=
  mkZi (zi_base z) p (1 - p) (fst (zi_stats (zi_base z) p (1 - p))) (snd (zi_stats (zi_base z) p (1 - p))).
