(** Model of distribution objects that hold other distribution objects:
    [Maximum] (/repo/src/pystra/distributions/maximum.py), [MaxParent] (parent.py) and
    [ZeroInflated] (zeroinflated.py) keep a reference to the object they were given, and
    their set_location/set_scale forward to it.  Definitions only.

    A program's distribution objects are the cells of a heap; a cell's number is its
    identity.  Constructors append a cell, so a reference always points to an older one
    (assigning the attributes parent/max_dist/dist from outside is not modelled).
    The global generator is a stream [rand] of numbers in [0,1) with a position.
    [fmin] is scipy.optimize.fmin.  Numbers are exact reals: the finiteness check of
    the moments (distribution.py 176-177) never fires.  A SciPy object is assumed frozen
    with keyword loc/scale. *)
From Coquelicot Require Import Coquelicot.
From Verif Require Import Base StochModel Gauss Dist.
Open Scope R_scope.

(** the classes that hold no other distribution: the base class over a SciPy object
    (all of beta.py, chisquare.py, gamma.py, gev.py, gumbel.py, scipydist.py, ...) and
    the classes with their own updates *)
Inductive leaf :=
| LfScipy (s : sobj) | LfNormal (s : normal) | LfLognormal (s : lognormal) | LfShifted (s : slognormal) | LfUniform (s : uniform).
Definition leaf_dist (l : leaf) : dist :=
  match l with
  | LfScipy s => base_dist s | LfNormal s => normal_dist s | LfLognormal s => lognormal_dist s
  | LfShifted s => slognormal_dist s | LfUniform s => uniform_dist s
  end.
Definition leaf_start (l : leaf) : R :=
  match l with
  | LfScipy s => so_start s | LfNormal s => no_start s | LfLognormal s => ln_start s
  | LfShifted s => ln_start (sl_ln s) | LfUniform s => so_start (un_s s)
  end.
(** distribution.py 526-572, normal.py 106-118, lognormal.py 128-145 *)
Definition leaf_set_location (v : R) (l : leaf) : leaf :=
  match l with
  | LfScipy s => LfScipy (base_set_location v s) | LfNormal s => LfNormal (normal_set_location v s)
  | LfLognormal s => LfLognormal (lognormal_set_location v s) | LfShifted s => LfShifted (slognormal_set_location v s)
  | LfUniform s => LfUniform (uniform_set_location v s)
  end.
Definition leaf_set_scale (v : R) (l : leaf) : leaf :=
  match l with
  | LfScipy s => LfScipy (base_set_scale v s) | LfNormal s => LfNormal (normal_set_scale v s)
  | LfLognormal s => LfLognormal (lognormal_set_scale v s) | LfShifted s => LfShifted (slognormal_set_scale v s)
  | LfUniform s => LfUniform (uniform_set_scale v s)
  end.

(** the attributes of one object; [base] is the number of the object held *)
Inductive obj :=
| OLeaf (l : leaf)
| OMax (base : nat) (N mean stdv : R)
| OParent (base : nat) (N mean stdv : R)
| OZero (base : nat) (p q mean stdv : R).
(** distribution.py 195-199: the start point is a separate attribute (the copy inside [leaf] is not used) *)
Record cell := mkCell { c_obj : obj; c_start : R }.
Record hstate := mkH { h_cells : list cell; h_pos : nat }.

Fixpoint set_cell (a : nat) (c : cell) (h : list cell) : list cell :=
  match h, a with
  | [], _ => []
  | _ :: r, O => c :: r
  | d :: r, S a' => d :: set_cell a' c r
  end.

(** ndarray.mean() and ndarray.std() *)
Definition arr_mean (xs : list R) : R := lsum xs / INR (length xs).
Definition arr_std (xs : list R) : R := sqrt (lsum (map (fun x => (x - arr_mean xs) ^ 2) xs) / INR (length xs)).

Inductive upd_kind := ULoc | UScale.

Section Heap.
  Variable fmin : (R -> R) -> R -> R.
  Variable rand : nat -> R.

  (** what the methods of object [a] return now: they call the methods of the object held
      (maximum.py 44-96, parent.py 51-103, zeroinflated.py 51-112); [f] bounds the depth *)
  Fixpoint view_n (f : nat) (h : list cell) (a : nat) : option dist :=
    match f with
    | O => None
    | S f' =>
        match nth_error h a with
        | None => None
        | Some c =>
            match c_obj c with
            | OLeaf l => Some (leaf_dist l)
            | OMax b N m s => match view_n f' h b with Some d => Some (maximum_dist fmin (mkPow d N) m s) | None => None end
            | OParent b N m s => match view_n f' h b with Some d => Some (maxparent_dist fmin (mkPow d N) m s) | None => None end
            | OZero b p q m s => match view_n f' h b with Some d => Some (zinf_dist (mkZi d p q m s)) | None => None end
            end
        end
    end.
  (** a reference points to an older cell: depth at most S a *)
  Definition view (h : list cell) (a : nat) : option dist := view_n (S a) h a.

  (** maximum.py 98-109, parent.py 105-114: 100 random numbers through ppf *)
  Definition max_stats (d : dist) (N : R) (pos : nat) : R * R :=
    let xs := map (fun i => d_ppf (maximum_dist fmin (mkPow d N) 0 0) (rand (pos + i)%nat)) (seq 0 100) in
    (arr_mean xs, arr_std xs).
  Definition parent_stats (d : dist) (N : R) (pos : nat) : R * R :=
    let xs := map (fun i => d_ppf (maxparent_dist fmin (mkPow d N) 0 0) (rand (pos + i)%nat)) (seq 0 100) in
    (arr_mean xs, arr_std xs).

  (** maximum.py 125-132, parent.py 136-142, zeroinflated.py 155-162: update_stats *)
  Definition refresh (a : nat) (st : hstate) : result hstate :=
    match nth_error (h_cells st) a with
    | None => Err EAttr
    | Some c =>
        match c_obj c with
        | OLeaf _ => Err EAttr
        | OMax b N _ _ =>
            match view (h_cells st) b with
            | None => Err EAttr
            | Some d => let ms := max_stats d N (h_pos st) in
                Ok (mkH (set_cell a (mkCell (OMax b N (fst ms) (snd ms)) (c_start c)) (h_cells st)) (h_pos st + 100))
            end
        | OParent b N _ _ =>
            match view (h_cells st) b with
            | None => Err EAttr
            | Some d => let ms := parent_stats d N (h_pos st) in
                Ok (mkH (set_cell a (mkCell (OParent b N (fst ms) (snd ms)) (c_start c)) (h_cells st)) (h_pos st + 100))
            end
        | OZero b p q _ _ =>
            match view (h_cells st) b with
            | None => Err EAttr
            | Some d => let ms := zi_stats d p q in
                Ok (mkH (set_cell a (mkCell (OZero b p q (fst ms) (snd ms)) (c_start c)) (h_cells st)) (h_pos st))
            end
        end
    end.

  (** set_location / set_scale: maximum.py 111-123, parent.py 116-127,
      zeroinflated.py 135-147: the held object first, then the own moments *)
  Fixpoint set_n (f : nat) (k : upd_kind) (v : R) (a : nat) (st : hstate) : result hstate :=
    match f with
    | O => Err EAttr
    | S f' =>
        match nth_error (h_cells st) a with
        | None => Err EAttr
        | Some c =>
            match c_obj c with
            | OLeaf l =>
                let l' := match k with ULoc => leaf_set_location v l | UScale => leaf_set_scale v l end in
                Ok (mkH (set_cell a (mkCell (OLeaf l') (c_start c)) (h_cells st)) (h_pos st))
            | OMax b _ _ _ | OParent b _ _ _ | OZero b _ _ _ _ =>
                match set_n f' k v b st with
                | Err e => Err e
                | Ok st1 => refresh a st1
                end
            end
        end
    end.
  Definition set_param (k : upd_kind) (v : R) (a : nat) (st : hstate) : result hstate := set_n (S a) k v a st.

  (** maximum.py 23-42, parent.py 29-49 *)
  Definition new_max (b : nat) (N : R) (sp : option R) (st : hstate) : result hstate :=
    match view (h_cells st) b with
    | None => Err EException                      (* not a Distribution *)
    | Some d =>
        if Rltb N 1 then Err EException
        else let ms := max_stats d N (h_pos st) in
          Ok (mkH (h_cells st ++ [mkCell (OMax b N (fst ms) (snd ms)) (match sp with None => fst ms | Some x => x end)])%list (h_pos st + 100))
    end.
  Definition new_parent (b : nat) (N : R) (sp : option R) (st : hstate) : result hstate :=
    match view (h_cells st) b with
    | None => Err EException
    | Some d =>
        if Rltb N 1 then Err EException
        else let ms := parent_stats d N (h_pos st) in
          Ok (mkH (h_cells st ++ [mkCell (OParent b N (fst ms) (snd ms)) (match sp with None => fst ms | Some x => x end)])%list (h_pos st + 100))
    end.
  (** zeroinflated.py 26-49 *)
  Definition new_zero (b : nat) (p : R) (sp : option R) (st : hstate) : result hstate :=
    match view (h_cells st) b with
    | None => Err EException
    | Some d =>
        match zinf_init d p with
        | Err e => Err e
        | Ok z => Ok (mkH (h_cells st ++ [mkCell (OZero b (zi_p z) (zi_q z) (zi_mean z) (zi_stdv z)) (match sp with None => zi_mean z | Some x => x end)])%list (h_pos st))
        end
    end.

  (** parent.py 129-134 *)
  Definition set_exponent (N : R) (a : nat) (st : hstate) : result hstate :=
    match nth_error (h_cells st) a with
    | Some (mkCell (OParent b _ m s) x) => refresh a (mkH (set_cell a (mkCell (OParent b N m s) x) (h_cells st)) (h_pos st))
    | _ => Err EAttr
    end.
  (** zeroinflated.py 149-153 *)
  Definition set_zero_probability (p : R) (a : nat) (st : hstate) : result hstate :=
    match nth_error (h_cells st) a with
    | Some (mkCell (OZero b _ _ m s) x) => refresh a (mkH (set_cell a (mkCell (OZero b p (1 - p) m s) x) (h_cells st)) (h_pos st))
    | _ => Err EAttr
    end.

  (** distribution.py 186-187: the stored mean *)
  Definition obj_mean (o : obj) : R := match o with OLeaf l => d_mean (leaf_dist l) | OMax _ _ m _ | OParent _ _ m _ | OZero _ _ _ m _ => m end.
  Definition obj_stdv (o : obj) : R := match o with OLeaf l => d_stdv (leaf_dist l) | OMax _ _ _ s | OParent _ _ _ s | OZero _ _ _ _ s => s end.
  (** distribution.py 195-199 *)
  Definition set_start (sp : option R) (a : nat) (st : hstate) : result hstate :=
    match nth_error (h_cells st) a with
    | None => Err EAttr
    | Some c => Ok (mkH (set_cell a (mkCell (c_obj c) (match sp with None => obj_mean (c_obj c) | Some x => x end)) (h_cells st)) (h_pos st))
    end.

  (** a user's calls; a call that raises leaves the objects as they were *)
  Inductive hop :=
  | HLeaf (l : leaf) | HMax (b : nat) (N : R) (sp : option R) | HParent (b : nat) (N : R) (sp : option R) | HZero (b : nat) (p : R) (sp : option R)
  | HSet (k : upd_kind) (v : R) (a : nat) | HExponent (N : R) (a : nat) | HZeroP (p : R) (a : nat) | HStats (a : nat) | HStart (sp : option R) (a : nat).
  Definition hstep (o : hop) (st : hstate) : result hstate :=
    match o with
    | HLeaf l => Ok (mkH (h_cells st ++ [mkCell (OLeaf l) (leaf_start l)])%list (h_pos st))
    | HMax b N sp => new_max b N sp st
    | HParent b N sp => new_parent b N sp st
    | HZero b p sp => new_zero b p sp st
    | HSet k v a => set_param k v a st
    | HExponent N a => set_exponent N a st
    | HZeroP p a => set_zero_probability p a st
    | HStats a => refresh a st
    | HStart sp a => set_start sp a st
    end.
  Definition hcall (o : hop) (st : hstate) : hstate := match hstep o st with Ok st' => st' | Err _ => st end.
  Definition hrun (os : list hop) (st : hstate) : hstate := fold_left (fun s o => hcall o s) os st.
  Definition h_empty : hstate := mkH [] 0.
End Heap.
