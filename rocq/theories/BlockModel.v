(** Model of pyblock3/algebra/core.py: block-sparse tensors without fermionic signs
    (SubTensor 60-253, SparseTensor 434-1405: item, infos, _add, _subtract, scalar products, _tensordot, _pdot, _hdot,
    _transpose).  A block is its tuple of labels with an array; a tensor is a list of blocks.
    numpy's own functions on one array (np.add, np.transpose, np.tensordot) are modelled by their documented index
    formulas; operands of different shapes (numpy: error or broadcasting) and views/aliasing are not modelled. *)
From Coq Require Import ZArith Bool List.
From Verif Require Import SymModel SymProofs DictLib IndexLib RingLib BondModel FuseModel.
Import ListNotations.
Open Scope Z_scope.

(* np.transpose(a, axes): axis i of the result is axis axes[i] of a *)
Definition nd_transpose {R : CRing} (axes : list Z) (a : nd R) : nd R :=
  mkNd (pick 0 axes (nshape a)) (fun xs => nval a (merge 0 (Z.of_nat (length (nshape a))) axes xs [])).
(* np.tensordot(a, b, axes=(idxa, idxb)) *)
Definition nd_tensordot {R : CRing} (a b : nd R) (idxa idxb : list Z) : nd R :=
  let na := Z.of_nat (length (nshape a)) in
  let nb := Z.of_nat (length (nshape b)) in
  mkNd (pick 0 (others na idxa) (nshape a) ++ pick 0 (others nb idxb) (nshape b))
    (fun xs => let k := length (others na idxa) in
       bsum (all_idx (pick 0 idxa (nshape a))) (fun xc =>
         rmul R (nval a (merge 0 na idxa xc (firstn k xs))) (nval b (merge 0 nb idxb xc (skipn k xs))))).

Section Block.
Variable R : CRing.
Variable L : Label.
Notation block := (list L * nd R)%type.
Notation tensor := (list (list L * nd R)).
Notation bmap := (dict (list L) (nd R)).

(* 444-446 *)
Definition ndim (t : tensor) : Z := match t with [] => 0 | b :: _ => Z.of_nat (length (nshape (snd b))) end.
(* 857-858: x if x >= 0 else ndim + x *)
Definition norm_axes (n : Z) (idx : list Z) : list Z := map (fun x => if 0 <=? x then x else n + x) idx.

(* 941-957; dict comprehension, then np.add on common labels *)
Definition sp_add (a b : tensor) : tensor :=
  fold_left (fun (m : bmap) blk =>
    match dget (tup_eqb L) m (fst blk) with
    | Some mb => dset (tup_eqb L) m (fst blk) (nd_add mb (snd blk))
    | None => dset (tup_eqb L) m (fst blk) (snd blk)
    end) b (dict_of (tup_eqb L) a).
(* 964-980 *)
Definition sp_sub (a b : tensor) : tensor :=
  fold_left (fun (m : bmap) blk =>
    match dget (tup_eqb L) m (fst blk) with
    | Some mb => dset (tup_eqb L) m (fst blk) (nd_sub mb (snd blk))
    | None => dset (tup_eqb L) m (fst blk) (nd_neg (snd blk))
    end) b (dict_of (tup_eqb L) a).
(* 611-615: multiply / divide by a number and 616-618: unary ufuncs, block by block *)
Definition sp_map (f : R -> R) (a : tensor) : tensor := map (fun blk => (fst blk, nd_map f (snd blk))) a.

(* 863-869: map_idx_b *)
Definition group_ctr (idxb : list Z) (b : tensor) : dict (list L) (list block) :=
  fold_left (fun m blk =>
    let ctrq := pick (q0 L) idxb (fst blk) in
    dset (tup_eqb L) m ctrq (odflt [] (dget (tup_eqb L) m ctrq) ++ [blk])) b [].
(* 879-883: blocks_map[outq] = mat or blocks_map[outq] += mat *)
Definition acc_block (m : bmap) (q : list L) (mat : nd R) : bmap :=
  match dget (tup_eqb L) m q with
  | None => dset (tup_eqb L) m q mat
  | Some v => dset (tup_eqb L) m q (nd_add v mat)
  end.
(* 835-885 with axes = (idxa, idxb); None = AssertionError *)
Definition sp_tensordot (a b : tensor) (idxa idxb : list Z) : option tensor :=
  let idxa := norm_axes (ndim a) idxa in
  let idxb := norm_axes (ndim b) idxb in
  let outa := others (ndim a) idxa in
  let outb := others (ndim b) idxb in
  if negb (Nat.eqb (length idxa) (length idxb)) then None else
  let mb := group_ctr idxb b in
  Some (fold_left (fun (m : bmap) ba =>
    fold_left (fun (m : bmap) bb =>
      acc_block m (pick (q0 L) outa (fst ba) ++ pick (q0 L) outb (fst bb))
                  (nd_tensordot (snd ba) (snd bb) idxa idxb))
      (odflt [] (dget (tup_eqb L) mb (pick (q0 L) idxa (fst ba)))) m) a []).
(* axes = N: the last N of a with the first N of b *)
Definition sp_tensordot_n (a b : tensor) (n : Z) : option tensor :=
  sp_tensordot a b (map (fun i => i - n) (zrange n)) (zrange n).

(* 1352-1370 and SubTensor 221-242; default axes are the reversed ones *)
Definition sp_transpose (axes : option (list Z)) (a : tensor) : tensor :=
  map (fun blk =>
    let ax := match axes with Some ax => ax | None => rev (zrange (Z.of_nat (length (nshape (snd blk))))) end in
    (pick (q0 L) ax (fst blk), nd_transpose ax (snd blk))) a.

(* 912-932: contract all middle legs, then transpose (0, 2, 1, 3) *)
Definition sp_pdot (a b : tensor) : option tensor :=
  if negb (ndim a =? ndim b) then None else
  let idx := map (fun i => 1 + i) (zrange (ndim a - 2)) in
  option_map (sp_transpose (Some [0; 2; 1; 3])) (sp_tensordot a b idx idx).
(* 890-902 *)
Definition sp_hdot (a b : tensor) : option tensor := sp_tensordot_n a b 1.

(* 472-477: item of a scalar tensor; None = AssertionError *)
Definition sp_item (a : tensor) : option R :=
  match a with
  | [] => Some (r0 R)
  | [([], v)] => Some (nval v [])
  | _ => None
  end.

(* 531-541: infos; None = AssertionError.  One dict per leg, extended in block order *)
Definition info_add (d : dict L Z) (q : L) (s : Z) : option (dict L Z) :=
  match dget (qeqb L) d q with
  | Some v => if v =? s then Some d else None
  | None => Some (dset (qeqb L) d q s)
  end.
Fixpoint infos_add (ds : list (dict L Z)) (qs : list L) (sh : list Z) : option (list (dict L Z)) :=
  match ds, qs, sh with
  | d :: ds', q :: qs', s :: sh' =>
      match info_add d q s, infos_add ds' qs' sh' with Some d', Some r => Some (d' :: r) | _, _ => None end
  | _, _, _ => Some ds
  end.
Fixpoint infos_loop (ds : list (dict L Z)) (t : tensor) : option (list (dict L Z)) :=
  match t with
  | [] => Some ds
  | blk :: t' => match infos_add ds (fst blk) (nshape (snd blk)) with Some ds' => infos_loop ds' t' | None => None end
  end.
Definition sp_infos (t : tensor) : option (list (dict L Z)) := infos_loop (repeat [] (Z.to_nat (ndim t))) t.
End Block.
