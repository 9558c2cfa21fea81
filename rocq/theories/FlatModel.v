(** Model of the flat storage of block-sparse tensors:
    pyblock3/algebra/flat.py FlatSparseTensor (constructor 130-147, to_sparse 162-168, from_sparse 177-192, cast_assign
    292-302, cast_assign_removed 304-313, _tensordot 444-475, _add 538-551, _subtract 558-571, _transpose 724-750) and the
    Python kernels in pyblock3/algebra/impl/flat.py (flat_sparse_tensordot 32-78, flat_sparse_add 81-99,
    flat_sparse_transpose 356-360); pyblock3/algebra/fermion.py _add/_subtract of
    SparseFermionTensor (1288-1332) and FlatFermionTensor (1800-1839).
    A label is its 32 bit code; rows of q_labels, compared through their bytes, are lists of codes.
    numpy slices, np.delete, np.concatenate, np.cumsum and reshape are modelled by their list formulas.
    Not modelled: wrap-around of dimensions above 2^32 and total sizes above 2^64, dtypes, the C++ kernels,
    slices of unequal length in "+=" and "=" (numpy raises or broadcasts). *)
From Coq Require Import ZArith Bool List Ascii.
From Verif Require Import SymModel SymProofs DictLib IndexLib RingLib BondModel FuseModel BlockModel.
Import ListNotations.
Open Scope Z_scope.

(* a[i:j] of a one-dimensional array *)
Definition sl {A : Type} (a : list A) (i j : Z) : list A := firstn (Z.to_nat (j - i)) (skipn (Z.to_nat i) a).
(* a[i:i+len(v)] = v *)
Definition set_sl {A : Type} (a : list A) (i : Z) (v : list A) : list A :=
  firstn (Z.to_nat i) a ++ v ++ skipn (Z.to_nat i + length v) a.
(* np.delete(l, dd, axis=0) *)
Definition del_rows {A : Type} (l : list A) (dd : list Z) : list A :=
  map snd (filter (fun p => negb (existsb (Z.eqb (fst p)) dd)) (combine (zrange (Z.of_nat (length l))) l)).
(* idxs[0] = 0; idxs[1:] = np.cumsum(shapes.prod(axis=1)) *)
Fixpoint offsets (s : Z) (shs : list (list Z)) : list Z :=
  match shs with [] => [s] | sh :: r => s :: offsets (s + prodZ sh) r end.
Notation code_label := U1_label.
(* rows of label codes, compared through tobytes() *)
Definition row_eqb (a b : list Z) : bool := if list_eq_dec Z.eq_dec a b then true else false.

Section Flat.
Variable R : CRing.
(* 130-147 *)
Record flat := mkFlat { fq : list (list Z); fsh : list (list Z); fdata : list R; fidx : list Z }.
Definition idx_at (f : flat) (i : Z) : Z := nth (Z.to_nat i) (fidx f) 0.
Definition new_flat (qs shs : list (list Z)) (data : list R) : flat := mkFlat qs shs data (offsets 0 shs).
Definition n_blocks (f : flat) : Z := Z.of_nat (length (fq f)).

(* a.ravel() and l.reshape(sh), row-major *)
Definition ravel_nd (a : nd R) : list R := map (nval a) (all_idx (nshape a)).
Definition reshape_nd (sh : list Z) (l : list R) : nd R := mkNd sh (fun xs => nth (Z.to_nat (ravel sh xs)) l (r0 R)).
(* data[idxs[i]:idxs[i+1]] and its reshaped block *)
Definition chunk (f : flat) (i : Z) : list R := sl (fdata f) (idx_at f i) (idx_at f (i + 1)).
Definition block_at (f : flat) (i : Z) : nd R := reshape_nd (nth (Z.to_nat i) (fsh f) []) (chunk f i).
Definition row (l : list (list Z)) (i : Z) : list Z := nth (Z.to_nat i) l [].

(* 177-192, enc = to_flat of the label class *)
Definition from_sparse {L : Type} (enc : L -> Z) (t : list (list L * nd R)) : flat :=
  let shs := map (fun b => nshape (snd b)) t in
  let idxs := offsets 0 shs in
  mkFlat (map (fun b => map enc (fst b)) t) shs
    (fold_left (fun data p => set_sl data (nth (Z.to_nat (fst p)) idxs 0) (ravel_nd (snd (snd p))))
       (combine (zrange (Z.of_nat (length t))) t) (repeat (r0 R) (Z.to_nat (last idxs 0)))) idxs.
(* 162-168, dec = from_flat of the label class *)
Definition to_sparse {L : Type} (dec : Z -> L) (f : flat) : list (list L * nd R) :=
  map (fun i => (map dec (row (fq f) i), block_at f i)) (zrange (n_blocks f)).

(* impl 81-99 *)
Definition vadd (a b : list R) : list R := map (fun p => radd R (fst p) (snd p)) (combine a b).
Definition row_index (qs : list (list Z)) : dict (list Z) Z :=
  dict_of row_eqb (combine qs (zrange (Z.of_nat (length qs)))).
Definition add_step (a b : flat) (m : dict (list Z) Z) (st : list R * list Z * list (list R)) (ib : Z)
  : list R * list Z * list (list R) :=
  let '(data, dd, bmats) := st in
  match dget row_eqb m (row (fq b) ib) with
  | Some ia => (set_sl data (idx_at a ia) (vadd (sl data (idx_at a ia) (idx_at a (ia + 1))) (chunk b ib)), dd ++ [ib], bmats)
  | None => (data, dd, bmats ++ [chunk b ib])
  end.
Definition flat_add_kernel (a b : flat) : flat :=
  let '(data, dd, bmats) := fold_left (add_step a b (row_index (fq a))) (zrange (n_blocks b)) (fdata a, [], []) in
  new_flat (fq a ++ del_rows (fq b) dd) (fsh a ++ del_rows (fsh b) dd) (data ++ concat bmats).
Definition neg_data (b : flat) : flat := mkFlat (fq b) (fsh b) (map (ropp R) (fdata b)) (fidx b).
(* 538-551 *)
Definition flat_add (a b : flat) : flat :=
  if n_blocks b =? 0 then a else if n_blocks a =? 0 then b else flat_add_kernel a b.
(* 558-571 *)
Definition flat_sub (a b : flat) : flat :=
  if n_blocks b =? 0 then a else if n_blocks a =? 0 then neg_data b else flat_add_kernel a (neg_data b).

(* 724-750, impl 356-360 *)
Definition flat_transpose (axes : list Z) (f : flat) : flat :=
  if n_blocks f =? 0 then f else
  mkFlat (map (pick 0 axes) (fq f)) (map (pick 0 axes) (fsh f))
    (concat (map (fun i => ravel_nd (nd_transpose axes (block_at f i))) (zrange (n_blocks f)))) (fidx f).

(* impl 32-78: the blocks found so far as (blocks_map, qs, shapes, mats, idxs) *)
Definition fstate := (dict (list Z) Z * list (list Z) * list (list Z) * list (list R) * list Z)%type.
Definition put_mat (st : fstate) (outq : list Z) (mat : nd R) : fstate :=
  let '(bm, qs, shs, mats, idxs) := st in
  match dget row_eqb bm outq with
  | None => (dset row_eqb bm outq (Z.of_nat (length qs)), qs ++ [outq], shs ++ [nshape mat], mats ++ [ravel_nd mat],
      idxs ++ [last idxs 0 + prodZ (nshape mat)])
  | Some i => (bm, qs, shs,
      firstn (Z.to_nat i) mats ++ vadd (nth (Z.to_nat i) mats []) (ravel_nd mat) :: skipn (S (Z.to_nat i)) mats, idxs)
  end.
(* 45-50: map_idx_b *)
Definition ctr_index (idxb : list Z) (b : flat) : dict (list Z) (list Z) :=
  fold_left (fun m ib => let k := pick 0 idxb (row (fq b) ib) in
    dset row_eqb m k (odflt [] (dget row_eqb m k) ++ [ib])) (zrange (n_blocks b)) [].
Definition fndim (f : flat) : Z := match fq f with [] => 0 | q :: _ => Z.of_nat (length q) end.
Definition flat_tensordot (a b : flat) (idxa idxb : list Z) : flat :=
  let idxa := norm_axes (fndim a) idxa in
  let idxb := norm_axes (fndim b) idxb in
  if n_blocks a =? 0 then a else if n_blocks b =? 0 then b else
  let outa := others (fndim a) idxa in
  let outb := others (fndim b) idxb in
  let mb := ctr_index idxb b in
  let '(_, qs, shs, mats, idxs) :=
    fold_left (fun st ia =>
      fold_left (fun st ib =>
        put_mat st (pick 0 outa (row (fq a) ia) ++ pick 0 outb (row (fq b) ib)) (nd_tensordot (block_at a ia) (block_at b ib) idxa idxb))
        (odflt [] (dget row_eqb mb (pick 0 idxa (row (fq a) ia)))) st) (zrange (n_blocks a)) ([], [], [], [], [0]) in
  mkFlat qs shs (concat mats) idxs.

(* 292-302: self after the call *)
Definition cast_assign (self other : flat) : flat :=
  let m := row_index (fq other) in
  mkFlat (fq self) (fsh self)
    (fold_left (fun data ib => match dget row_eqb m (row (fq self) ib) with
       | Some ia => set_sl data (idx_at self ib) (chunk other ia) | None => data end) (zrange (n_blocks self)) (fdata self))
    (fidx self).
(* 304-313 *)
Definition cast_assign_removed (self other : flat) : flat :=
  let m := row_index (fq self) in
  mkFlat (fq other) (fsh other)
    (fold_left (fun data ia => match dget row_eqb m (row (fq other) ia) with
       | Some _ => data | None => set_sl data (idx_at other ia) (chunk other ia) end) (zrange (n_blocks other))
       (map (fun _ => r0 R) (fdata other)))
    (fidx other).
Definition zeros_like (f : flat) : flat := mkFlat (fq f) (fsh f) (map (fun _ => r0 R) (fdata f)) (fidx f).

(** *** fermion.py: tensors with a pattern *)
(* positions at which the patterns differ, 1298, 1326, 1811, 1834; the kernels raise when there is one (_adjust_block,
   _adjust_q_labels 1040-1059) *)
Definition same_pattern (n : Z) (pa pb : list ascii) : bool :=
  forallb (fun i => Ascii.eqb (nth (Z.to_nat i) pa "0"%char) (nth (Z.to_nat i) pb "0"%char)) (zrange n).
Record fflat := mkFflat { fpat : list ascii; fbase : flat }.
(* 1800-1816 *)
Definition ff_add (a b : fflat) : option fflat :=
  if n_blocks (fbase b) =? 0 then Some a else if n_blocks (fbase a) =? 0 then Some b else
  if same_pattern (fndim (fbase b)) (fpat a) (fpat b) then Some (mkFflat (fpat a) (flat_add_kernel (fbase a) (fbase b))) else None.
(* 1823-1839 *)
Definition ff_sub (a b : fflat) : option fflat :=
  if n_blocks (fbase b) =? 0 then Some a else if n_blocks (fbase a) =? 0 then Some b else
  if same_pattern (fndim (fbase b)) (fpat a) (fpat b) then Some (mkFflat (fpat a) (flat_add_kernel (fbase a) (neg_data (fbase b)))) else None.
End Flat.
Arguments fq {R}. Arguments fsh {R}. Arguments fdata {R}. Arguments fidx {R}. Arguments fpat {R}. Arguments fbase {R}.

Section FermSparse.
Variable R : CRing.
Variable L : Label.
Record fsparse := mkFsparse { spat : list ascii; sblocks : list (list L * nd R) }.
(* 1298-1307 *)
Definition fs_add (a b : fsparse) : option fsparse :=
  if same_pattern (ndim R L (sblocks b)) (spat a) (spat b) then Some (mkFsparse (spat a) (sp_add R L (sblocks a) (sblocks b))) else None.
(* 1325-1332 *)
Definition fs_sub (a b : fsparse) : option fsparse :=
  if same_pattern (ndim R L (sblocks b)) (spat a) (spat b) then Some (mkFsparse (spat a) (sp_sub R L (sblocks a) (sblocks b))) else None.
End FermSparse.
Arguments spat {R L}. Arguments sblocks {R L}.
