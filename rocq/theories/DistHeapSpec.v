(** Specification vocabulary for C110: what an object built on other objects should be. *)
From Coquelicot Require Import Coquelicot.
From Verif Require Import Base Gauss Dist DistHeap.
Open Scope R_scope.

(** one construction on top of a variable X: the maximum of N copies, the parent of an
    N-fold maximum, X multiplied by a 0/1 switch that is off with probability p *)
Inductive layer := LMax (N : R) | LPar (N : R) | LZero (p : R).
Definition layer_cdf (y : layer) (F : R -> R) (x : R) : R :=
  match y with
  | LMax N => ppow (F x) N
  | LPar N => ppow (F x) (1 / N)
  | LZero p => (1 - p) * F x + (if Rltb (- zero_tol) x then p else 0)
  end.
Definition layer_pdf (y : layer) (F f : R -> R) (x : R) : R :=
  match y with
  | LMax N => N * f x * ppow (if Rltb 1 N then F x else 1) (N - 1)
  | LPar N => f x / (N * ppow (ppow (F x) (1 / N)) (N - 1))
  | LZero p => (1 - p) * f x + (if Rltb (- zero_tol) x && Rltb x zero_tol then p else 0)
  end.
Fixpoint tower_cdf (ys : list layer) (F : R -> R) : R -> R :=
  match ys with [] => F | y :: r => layer_cdf y (tower_cdf r F) end.
Fixpoint tower_pdf (ys : list layer) (F f : R -> R) : R -> R :=
  match ys with [] => f | y :: r => layer_pdf y (tower_cdf r F) (tower_pdf r F f) end.

(** object [a] is built by [ys] on the plain distribution [l] that is object [r] *)
Inductive built (h : list cell) : nat -> nat -> list layer -> leaf -> Prop :=
| built_leaf a l x : nth_error h a = Some (mkCell (OLeaf l) x) -> built h a a [] l
| built_max a b N m s x r ys l : nth_error h a = Some (mkCell (OMax b N m s) x) -> built h b r ys l -> built h a r (LMax N :: ys) l
| built_par a b N m s x r ys l : nth_error h a = Some (mkCell (OParent b N m s) x) -> built h b r ys l -> built h a r (LPar N :: ys) l
| built_zero a b p q m s x r ys l : nth_error h a = Some (mkCell (OZero b p q m s) x) -> built h b r ys l -> built h a r (LZero p :: ys) l.

(** the object held, and [x] is [a] or held by it, directly or not *)
Definition held (o : obj) : option nat := match o with OLeaf _ => None | OMax b _ _ _ | OParent b _ _ _ | OZero b _ _ _ _ => Some b end.
Inductive inside (h : list cell) : nat -> nat -> Prop :=
| inside_self a c : nth_error h a = Some c -> inside h a a
| inside_held a c b x : nth_error h a = Some c -> held (c_obj c) = Some b -> inside h b x -> inside h a x.

(** a set_location/set_scale on a plain distribution *)
Definition leaf_set (k : upd_kind) (v : R) (l : leaf) : leaf := match k with ULoc => leaf_set_location v l | UScale => leaf_set_scale v l end.

(** mean and (population) standard deviation of a list of numbers *)
Definition sample_moments (xs : list R) (m s : R) : Prop :=
  INR (length xs) * m = lsum xs /\ 0 <= s /\ INR (length xs) * (s * s) = lsum (map (fun x => (x - m) * (x - m)) xs).

(** the stored moments of an object are those its present distribution gives: for a
    Maximum/MaxParent the statistics of 100 quantiles at the random numbers from position
    [pos] on, for a ZeroInflated the mixture's moments *)
Definition moments_current (fmin : (R -> R) -> R -> R) (rand : nat -> R) (h : list cell) (pos : nat) (o : obj) : Prop :=
  match o with
  | OLeaf _ => True
  | OMax b N m s => exists d, view fmin h b = Some d /\
      let xs := map (fun i => d_ppf (maximum_dist fmin (mkPow d N) 0 0) (rand (pos + i)%nat)) (seq 0 100) in sample_moments xs m s
  | OParent b N m s => exists d, view fmin h b = Some d /\
      let xs := map (fun i => d_ppf (maxparent_dist fmin (mkPow d N) 0 0) (rand (pos + i)%nat)) (seq 0 100) in sample_moments xs m s
  | OZero b p q m s => exists d, view fmin h b = Some d /\
      m = (1 - p) * d_mean d /\ s = sqrt ((1 - p) * (d_stdv d * d_stdv d) + p * (1 - p) * (d_mean d * d_mean d))
  end.
(** the same object with other stored moments *)
Definition with_moments (m s : R) (o : obj) : obj :=
  match o with OLeaf l => OLeaf l | OMax b N _ _ => OMax b N m s | OParent b N _ _ => OParent b N m s | OZero b p q _ _ => OZero b p q m s end.

(** the set_location/set_scale calls of a history that reach object [r]: those made on an
    object it is inside of *)
Inductive received (fmin : (R -> R) -> R -> R) (rand : nat -> R) (r : nat) : hstate -> list hop -> list (upd_kind * R) -> Prop :=
| rec_nil st : received fmin rand r st [] []
| rec_set st k v a os us : inside (h_cells st) a r -> received fmin rand r (hcall fmin rand (HSet k v a) st) os us -> received fmin rand r st (HSet k v a :: os) ((k, v) :: us)
| rec_other st o os us : (forall k v a, o = HSet k v a -> ~ inside (h_cells st) a r) -> received fmin rand r (hcall fmin rand o st) os us -> received fmin rand r st (o :: os) us.
Definition last_of (k : upd_kind) (v0 : R) (us : list (upd_kind * R)) : R :=
  fold_left (fun v u => match k, fst u with ULoc, ULoc | UScale, UScale => snd u | _, _ => v end) us v0.

(** the call changes something object [z] is built on, without going through [z] *)
Definition disturbs (h : list cell) (z : nat) (o : hop) : Prop :=
  match o with
  | HSet _ _ a => ~ inside h a z /\ exists x, inside h z x /\ inside h a x
  | HExponent _ a | HZeroP _ a | HStats a => a <> z /\ inside h z a
  | _ => False
  end.
