(** Model of [LimitState] (/repo/src/pystra/model.py, lines 157-384).
    Definitions only.

    A NumPy array of evaluation points of shape (nrv, nx) is the list of its
    nx columns (points), each a list of nrv reals. *)
From Verif Require Import Base StochModel.
From Coq Require Import ZArith.

(** What the user's function may return as value: a plain Python number or a
    1-d array.  (Arrays of higher dimension are not modelled.) *)
Inductive nparr := Scal (r : R) | Arr (l : list R).

(** The user's return: a value, or a (value, gradient column) tuple. *)
Inductive uout := UPlain (v : nparr) | UTuple (v : nparr) (grad : list R).

(** The limit state function called with keyword arguments; it may raise. *)
Definition kwargs := list (string * list R).
Definition expression := kwargs -> result uout.

(** model.py 357-367: the keyword dictionary; [x[i]] is row i of the block and
    raises IndexError when the block has fewer rows than the model has
    variables. *)
Definition row (i : nat) (cols : list (list R)) : list R := map (fun p => nth i p 0) cols.

Fixpoint bind_vars (nrv : nat) (i : nat) (vars : list (string * rv)) (cols : list (list R)) (d : kwargs)
  : result kwargs :=
  match vars with
  | [] => Ok d
  | (name, _) :: r =>
      if Nat.ltb i nrv then bind_vars nrv (S i) r cols (dict_set d name (row i cols))
      else Err EIndex
  end.

Fixpoint bind_consts (nc : nat) (consts : list (string * R)) (d : kwargs) : kwargs :=
  match consts with
  | [] => d
  | (c, v) :: r => bind_consts nc r (dict_set d c (repeat v nc))
  end.

Definition lsf_kwargs (s : smodel) (nrv : nat) (cols : list (list R)) : result kwargs :=
  match bind_vars nrv 0 (sm_variables s) cols [] with
  | Ok d => Ok (bind_consts (length cols) (sm_consts s) d)
  | Err e => Err e
  end.

(** model.py 368-384.  With ddm=True a non-tuple value is unpacked: a number
    raises TypeError (re-raised as TypeError), a 1-d array of length other
    than 2 raises ValueError; in ddm mode blocks have one column, so an array
    of length 2 (which Python would unpack into two numbers) is not a value
    per point and is also mapped to ValueError here. *)
Definition compute_lsf (s : smodel) (expr : expression) (nrv : nat) (cols : list (list R)) (ddm : bool)
  : result (nparr * list R) :=
  match lsf_kwargs s nrv cols with
  | Err e => Err e
  | Ok kw =>
      match expr kw with
      | Err e => Err e
      | Ok out =>
          if ddm then
            match out with
            | UTuple G g => Ok (G, g)
            | UPlain (Scal _) => Err EType
            | UPlain (Arr _) => Err EValue
            end
          else
            match out with UTuple G _ => Ok (G, []) | UPlain G => Ok (G, []) end
      end
  end.

(** Assigning a value to b array slots: NumPy broadcasting of a number, a
    length-1 array or a length-b array; anything else is a ValueError. *)
Definition broadcast (b : nat) (v : nparr) : result (list R) :=
  match v with
  | Scal r => Ok (repeat r b)
  | Arr [r] => Ok (repeat r b)
  | Arr l => if Nat.eqb (length l) b then Ok l else Err EValue
  end.

(** [G[:, indx] = blockG] (model.py 274). *)
Definition assign_plain (b : nat) (v : nparr) : result (list R) := broadcast b v.

(** [allG[indx] = blockG.squeeze()] (model.py 314): a Python number has no
    squeeze method. *)
Definition assign_squeeze (b : nat) (v : nparr) : result (list R) :=
  match v with Scal _ => Err EAttr | Arr l => broadcast b (Arr l) end.

(** write [vals] into [G] at positions k, k+1, ... *)
Definition write_at (k : nat) (vals G : list R) : list R :=
  firstn k G ++ vals ++ skipn (k + length vals) G.

Inductive outcome :=
| ODone (G : list R) (grad : list (list R))     (* grad: one column per point *)
| ORaise (e : exn)
| OFuel.                                        (* still looping *)

Inductive loopout := LDone (G : list R) | LRaise (e : exn) | LFuel.

(** The block loop, model.py 266-275 and again 305-315.  [bs] and [k] are
    Python integers ([block_size] is overwritten in each iteration); the block
    is range(k, k+block_size), empty if block_size <= 0.  [trace] collects the
    blocks sent to the user's function. *)
Fixpoint block_loop (fuel : nat) (s : smodel) (expr : expression) (nrv : nat)
    (assign : nat -> nparr -> result (list R))
    (x : list (list R)) (bs k : Z) (G : list R) (trace : list (list (list R)))
  : loopout * list (list (list R)) :=
  match fuel with
  | O => (LFuel, trace)
  | S fuel' =>
      let nx := Z.of_nat (length x) in
      if (k <? nx)%Z then
        let bs' := Z.min bs (nx - k) in
        let blockx := firstn (Z.to_nat bs') (skipn (Z.to_nat k) x) in
        match compute_lsf s expr nrv blockx false with
        | Err e => (LRaise e, trace ++ [blockx])
        | Ok (v, _) =>
            match assign (length blockx) v with
            | Err e => (LRaise e, trace ++ [blockx])
            | Ok vals =>
                block_loop fuel' s expr nrv assign x bs' (k + bs')%Z
                  (write_at (Z.to_nat k) vals G) (trace ++ [blockx])
            end
        end
      else (LDone G, trace)
  end.

(** Everything an evaluation makes observable: the model object afterwards,
    the caller's point array afterwards, the blocks sent to the user's
    function, and the outcome. *)
Record evalout := mkev {
  ev_s : smodel;
  ev_x : list (list R);
  ev_trace : list (list (list R));
  ev_out : outcome
}.

(** model.py 260-279 *)
Definition evaluate_nogradient (fuel : nat) (s : smodel) (expr : expression) (bs : Z)
    (nrv : nat) (x : list (list R)) : evalout :=
  let nx := length x in
  match block_loop fuel s expr nrv assign_plain x bs 0 (repeat 0 nx) [] with
  | (LDone G, tr) => mkev (addCallFunction s nx) x tr (ODone G (repeat (repeat 0 nrv) nx))
  | (LRaise e, tr) => mkev s x tr (ORaise e)
  | (LFuel, tr) => mkev s x tr OFuel
  end.

Definition upd (i : nat) (f : R -> R) (p : list R) : list R :=
  match nth_error p i with
  | None => p
  | Some v => firstn i p ++ f v :: skipn (S i) p
  end.

(** column update: [allx[j, c] = v] *)
Definition set_cell (j c : nat) (v : R) (cols : list (list R)) : list (list R) :=
  match nth_error cols c with
  | None => cols
  | Some p => firstn c cols ++ upd j (fun _ => v) p :: skipn (S c) cols
  end.

(** model.py 294-299, the perturbation loop over j = j0, ..., j0+k-1.  [x] is
    both the loop variable and the caller's array (x = x0 is an alias), [x[j]]
    is incremented in place and never restored.  [marg[j]] may raise
    IndexError. *)
Fixpoint ffd_perturb (k j : nat) (marg : list rv) (ffdpara : R) (nrv : nat)
    (x allx : list (list R)) (allh : list R)
  : result (list (list R) * list R) * list (list R) :=
  match k with
  | O => (Ok (allx, allh), x)
  | S k' =>
      match nth_error marg j with
      | None => (Err EIndex, x)
      | Some d =>
          let h := rv_stdv d / ffdpara in
          let x' := map (upd j (fun v => v + h)) x in
          (* indx = range(j+1, ..., 1+nrv): one column per point m *)
          let allx' := fold_left (fun a m => set_cell j (j + 1 + m * (1 + nrv))
                                               (nth j (nth m x' []) 0) a)
                                 (seq 0 (length x)) allx in
          ffd_perturb k' (S j) marg ffdpara nrv x' allx' (allh ++ [h])
      end
  end.

(** model.py 281-325 *)
Definition evaluate_ffd (fuel : nat) (s : smodel) (expr : expression) (bs : Z) (ffdpara : R)
    (nrv : nat) (x : list (list R)) : evalout :=
  let nx := length x in
  let nall := (nx * (1 + nrv))%nat in
  (* allx[:] = x : broadcasting (nrv,nx) into (nrv, nx(1+nrv)), line 290 *)
  let allx0 := match x with
               | [p] => Some (repeat p nall)
               | _ => if Nat.eqb nx nall then Some x else None
               end in
  match allx0 with
  | None => mkev s x [] (ORaise EValue)
  | Some allx0 =>
      match ffd_perturb nrv 0 (sm_marg s) ffdpara nrv x allx0 [] with
      | (Err e, x') => mkev s x' [] (ORaise e)
      | (Ok (allx, allh), x') =>
          match block_loop fuel s expr nrv assign_squeeze allx bs 0 (repeat 0 nall) [] with
          | (LRaise e, tr) => mkev s x' tr (ORaise e)
          | (LFuel, tr) => mkev s x' tr OFuel
          | (LDone allG, tr) =>
              let G := map (fun m => nth (m * (1 + nrv)) allG 0) (seq 0 nx) in        (* 317-318 *)
              let grad := map (fun m =>
                   map (fun j => (nth (j + 1 + m * (1 + nrv)) allG 0 - nth m G 0) / nth j allh 0)
                       (seq 0 nrv)) (seq 0 nx) in                                   (* 320-322 *)
              mkev (addCallFunction s nall) x' tr (ODone G grad)
          end
      end
  end.

(** [grad_G[:, k:k+1] = gradient], gradient a column (nrv,1): lengths must
    agree, or be 1 (broadcast). *)
Definition assign_col (nrv : nat) (g : list R) : result (list R) :=
  match g with
  | [r] => Ok (repeat r nrv)
  | _ => if Nat.eqb (length g) nrv then Ok g else Err EValue
  end.

(** model.py 327-336.  G has shape (1, nx), so [G[k]] is row k: k = 0 writes the
    value into the whole row, k >= 1 raises IndexError after the user's function
    has been called for that point. *)
Fixpoint ddm_loop (k : nat) (s : smodel) (expr : expression) (nrv nx : nat) (todo : list (list R))
    (G : list R) (grad : list (list R)) (trace : list (list (list R)))
  : result (list R * list (list R)) * list (list (list R)) :=
  match todo with
  | [] => (Ok (G, grad), trace)
  | p :: r =>
      match compute_lsf s expr nrv [p] true with
      | Err e => (Err e, trace ++ [[p]])
      | Ok (v, g) =>
          match k with
          | S _ => (Err EIndex, trace ++ [[p]])
          | O =>
              match broadcast nx v with
              | Err e => (Err e, trace ++ [[p]])
              | Ok G' =>
                  match assign_col nrv g with
                  | Err e => (Err e, trace ++ [[p]])
                  | Ok gc => ddm_loop (S k) s expr nrv nx r G'
                               (firstn k grad ++ gc :: skipn (S k) grad) (trace ++ [[p]])
                  end
              end
          end
      end
  end.

Definition evaluate_ddm (s : smodel) (expr : expression) (nrv : nat) (x : list (list R)) : evalout :=
  let nx := length x in
  match ddm_loop 0 s expr nrv nx x (repeat 0 nx) (repeat (repeat 0 nrv) nx) [] with
  | (Ok (G, grad), tr) => mkev (addCallFunction s nx) x tr (ODone G grad)
  | (Err e, tr) => mkev s x tr (ORaise e)
  end.

(** Options consulted by the evaluation (analysis.py 109-244). *)
Record lsopts := mkopts {
  o_diff_mode : string;
  o_multi_proc : Z;
  o_block_size : Z;
  o_ffdpara : R
}.

(** model.py 208-258; [dm] is the diff_mode argument (None or a string). *)
Definition evaluate_lsf (fuel : nat) (s : smodel) (expr : expression) (o : lsopts) (dm : option string)
    (nrv : nat) (x : list (list R)) : evalout :=
  let mode := match dm with None => o_diff_mode o | Some _ => "no"%string end in
  if (o_multi_proc o =? 0)%Z then mkev s x [] (ORaise ENotImpl)
  else if String.eqb mode "no" then evaluate_nogradient fuel s expr (o_block_size o) nrv x
  else if String.eqb mode "ddm" then evaluate_ddm s expr nrv x
  else evaluate_ffd fuel s expr (o_block_size o) (o_ffdpara o) nrv x.
