(** Model of pyblock3/algebra/core.py: SparseTensor._skeleton and zeros/ones (481-520), fuse (717-808), unfuse (684-711),
    kron_sum_info (662-671), symmetry_fuse (810-833), _kron_add (985-1026), to_sliceable/to_dense (1375-1402 and
    SliceableTensor.to_dense 407-427).
    numpy reshape, slicing, concatenation and in-place addition to a slice are modelled by their index formulas.
    Not modelled: dtype and array class handling (fuse 780-787), broadcasting of unequal shapes in "+=" (numpy raises or
    broadcasts when a middle leg has another dimension; the theorems assume equal middle legs). *)
From Coq Require Import ZArith Bool List Ascii.
From Verif Require Import SymModel SymProofs DictLib IndexLib RingLib BondModel FuseModel BlockModel.
Import ListNotations.
Open Scope Z_scope.

(* l[i] = v *)
Definition upd {A : Type} (i : nat) (v : A) (l : list A) : list A := firstn i l ++ v :: skipn (S i) l.

Section Nd.
Variable R : CRing.
(* a.reshape(sh), row-major *)
Definition nd_reshape (sh : list Z) (a : nd R) : nd R := mkNd sh (fun xs => nval a (unravel (nshape a) (ravel sh xs))).
(* a[..., k:k+nk, ...] on axis i *)
Definition nd_slice (i : nat) (k nk : Z) (a : nd R) : nd R :=
  mkNd (upd i nk (nshape a)) (fun xs => nval a (upd i (k + nth i xs 0) xs)).
(* np.concatenate(ps, axis=i) *)
Fixpoint cat_val (i : nat) (ps : list (nd R)) (xs : list Z) : R :=
  match ps with
  | [] => r0 R
  | p :: ps' => let s := nth i (nshape p) 0 in
      if nth i xs 0 <? s then nval p xs else cat_val i ps' (upd i (nth i xs 0 - s) xs)
  end.
Definition nd_concat (i : nat) (ps : list (nd R)) : nd R :=
  mkNd (upd i (zsum (map (fun p => nth i (nshape p) 0) ps)) (match ps with p :: _ => nshape p | [] => [] end)) (cat_val i ps).
(* a[off_0:off_0+s_0, ...] += b with s the shape of b *)
Definition zminus (xs off : list Z) : list Z := map (fun p => fst p - snd p) (combine xs off).
Definition nd_add_at (off : list Z) (a b : nd R) : nd R :=
  mkNd (nshape a) (fun xs => radd R (nval a xs) (nget b (zminus xs off))).
(* a[off_0:off_0+s_0, ...] = b *)
Definition nd_set_at (off : list Z) (a b : nd R) : nd R :=
  mkNd (nshape a) (fun xs => if in_shapeb (nshape b) (zminus xs off) then nval b (zminus xs off) else nval a xs).
End Nd.
Arguments nd_reshape {R}. Arguments nd_slice {R}. Arguments nd_concat {R}. Arguments nd_add_at {R}. Arguments nd_set_at {R}.
Arguments cat_val {R}.

Section Struct.
Variable R : CRing.
Variable L : Label.
Notation block := (list L * nd R)%type.
Notation tensor := (list (list L * nd R)).
Notation bmap := (dict (list L) (nd R)).
Notation binfo := (dict L Z).
Notation finfo := (dict L Z * finfo_t L)%type.

(** *** _skeleton *)
(* 490-491 *)
Definition default_pattern (n : nat) : list ascii := repeat "+"%char (n - 1) ++ ["-"%char].
(* 497: len(ps) == 1 or np.add.reduce(ps[:-1]) == (-ps[-1] if dq is None else dq - ps[-1]) *)
Definition keep_block (ps : list L) (dq : option L) : bool :=
  Nat.eqb (length ps) 1 ||
  qeqb L (add_reduce L (removelast ps))
         (match dq with None => qneg L (last ps (q0 L)) | Some d => qsub L d (last ps (q0 L)) end).
(* 482-500; None = ValueError of nditer (a leg without labels) or IndexError (no legs) *)
Definition sp_skeleton (infos : list binfo) (pattern : option (list ascii)) (dq : option L) : option (list (list Z * list L)) :=
  let pat := match pattern with Some p => p | None => default_pattern (length infos) end in
  if existsb (fun i : binfo => match i with [] => true | _ => false end) infos then None else
  match infos, pat with
  | [], _ | _, [] => None
  | _, _ =>
    Some (map (fun x => (map snd x, map fst x))
      (filter (fun x => keep_block (signed L pat (map fst x)) dq) (cart (map (sort_by (qltb L) fst) infos))))
  end.
(* 502-516 *)
Definition sp_zeros (infos : list binfo) pattern dq : option tensor :=
  option_map (map (fun b => (snd b, nd_zeros R (fst b)))) (sp_skeleton infos pattern dq).
Definition sp_ones (infos : list binfo) pattern dq : option tensor :=
  option_map (map (fun b => (snd b, nd_ones R (fst b)))) (sp_skeleton infos pattern dq).

(** *** unfuse *)
(* 700-710: blocks of one fused block; the entries of finfo[q] in insertion order *)
Definition unfuse_block (i : nat) (info : finfo) (blk : block) : option tensor :=
  let q := nth i (fst blk) (q0 L) in
  match dget (qeqb L) (fst info) q with
  | None => Some []
  | Some n =>
      if negb (nth i (nshape (snd blk)) 0 =? n) then None else
      match dget (qeqb L) (snd info) q with
      | None => None
      | Some ents => Some (map (fun e =>
          let '(sqs, (k, sh)) := e in
          let nk := prodZ sh in
          let new_ns := firstn i (nshape (snd blk)) ++ sh ++ skipn (S i) (nshape (snd blk)) in
          let new_qs := firstn i (fst blk) ++ sqs ++ skipn (S i) (fst blk) in
          (new_qs, nd_reshape new_ns (nd_slice i k nk (snd blk)))) ents)
      end
  end.
(* 684-711, i >= 0; None = AssertionError or KeyError *)
Fixpoint sp_unfuse (i : nat) (info : finfo) (t : tensor) : option tensor :=
  match t with
  | [] => Some []
  | blk :: t' => match unfuse_block i info blk, sp_unfuse i info t' with Some a, Some b => Some (a ++ b) | _, _ => None end
  end.

(** *** fuse *)
(* one entry of blocks_map: the shape of the first block and the pieces (k, nk, array) *)
Definition group := (list Z * list (Z * Z * nd R))%type.
Notation gmap := (dict (list L) group).
(* 733-736 *)
Definition min_idx (idxs : list Z) : Z := match idxs with [] => 0 | i :: r => fold_left Z.min r i end.
(* 755-766: range(ndim) without the fused legs other than the first *)
Definition kept (n : Z) (idxs : list Z) : list Z :=
  let midx := min_idx idxs in
  let fidxs := filter (fun x => negb (x =? midx)) idxs in
  filter (fun i => negb (existsb (Z.eqb i) fidxs)) (zrange n).
Definition new_perm (n : Z) (idxs : list Z) : list Z :=
  flat_map (fun i => if i =? min_idx idxs then idxs else [i]) (kept n idxs).
Definition new_tuple {A : Type} (d : A) (n : Z) (idxs : list Z) (v : A) (l : list A) : list A :=
  map (fun i => if i =? min_idx idxs then v else nth (Z.to_nat i) l d) (kept n idxs).
(* 741-770: one block; outer None = KeyError *)
Definition fuse_put_block (idxs : list Z) (info : finfo) (pattern : list ascii) (m : gmap) (blk : block) : option gmap :=
  let n := Z.of_nat (length (nshape (snd blk))) in
  let sqs := pick (q0 L) idxs (fst blk) in
  let q := fuse_q L pattern sqs in
  match dget (qeqb L) (fst info) q with
  | None => Some m
  | Some x =>
      match dget (qeqb L) (snd info) q with
      | None => None
      | Some ents =>
          match dget (tup_eqb L) ents sqs with
          | None => None
          | Some (k, _) =>
              let nk := prodZ (pick 0 idxs (nshape (snd blk))) in
              let new_qs := new_tuple (q0 L) n idxs q (fst blk) in
              let piece := nd_reshape (new_tuple 0 n idxs nk (nshape (snd blk)))
                             (nd_transpose (new_perm n idxs) (snd blk)) in
              let (v0, gs) := odflt (new_tuple 0 n idxs x (nshape (snd blk)), []) (dget (tup_eqb L) m new_qs) in
              Some (dset (tup_eqb L) m new_qs (v0, gs ++ [(k, nk, piece)]))
          end
      end
  end.
(* 771-792: the pieces of one fused block, padded with zeros; None = ValueError (negative dimension) *)
Fixpoint pad (i : nat) (v0 : list Z) (ik : Z) (gs : list (Z * Z * nd R)) : option (list (nd R)) :=
  match gs with
  | [] =>
      if ik =? nth i v0 0 then Some []
      else if nth i v0 0 - ik <? 0 then None else Some [nd_zeros R (upd i (nth i v0 0 - ik) v0)]
  | (k, nk, p) :: gs' =>
      if k =? ik then option_map (cons p) (pad i v0 (ik + nk) gs')
      else if k - ik <? 0 then None
      else option_map (fun l => nd_zeros R (upd i (k - ik) v0) :: p :: l) (pad i v0 (ik + (nk + k - ik)) gs')
  end.
(* sorted(v[-1]): by offset, offsets of one group being different *)
Definition fuse_group (i : nat) (g : group) : option (nd R) :=
  option_map (nd_concat i) (pad i (fst g) 0 (sort_by Z.ltb (fun p => fst (fst p)) (snd g))).
Fixpoint fuse_blocks (idxs : list Z) (info : finfo) (pattern : list ascii) (m : gmap) (t : tensor) : option gmap :=
  match t with
  | [] => Some m
  | blk :: t' => match fuse_put_block idxs info pattern m blk with
                 | Some m' => fuse_blocks idxs info pattern m' t' | None => None end
  end.
Fixpoint fuse_groups (i : nat) (m : gmap) : option tensor :=
  match m with
  | [] => Some []
  | (q, g) :: m' => match fuse_group i g, fuse_groups i m' with Some v, Some r => Some ((q, v) :: r) | _, _ => None end
  end.
(* 717-808 with a given layout and its pattern *)
Definition sp_fuse (idxs : list Z) (info : finfo) (pattern : list ascii) (t : tensor) : option tensor :=
  let idxs := norm_axes (ndim R L t) idxs in
  match idxs with
  | [] => Some t
  | _ =>
    match fuse_blocks idxs info pattern [] t with
    | Some m => fuse_groups (Z.to_nat (min_idx idxs)) m
    | None => None
    end
  end.
(* 662-671 *)
Definition kron_sum_info (idxs : list Z) (pattern : list ascii) (t : tensor) : option finfo :=
  let idxs := norm_axes (ndim R L t) idxs in
  kron_sum L (map (fun blk => (pick (q0 L) idxs (fst blk), pick 0 idxs (nshape (snd blk)))) t) None pattern.

(** *** _kron_add *)
(* 1001-1011 *)
Definition kron_alloc (lb rb : binfo) (t : tensor) : bmap :=
  fold_left (fun (m : bmap) blk =>
    if dmem (tup_eqb L) m (fst blk) then m else
    let sh := nshape (snd blk) in
    let msh := upd (length sh - 1) (bget L rb (last (fst blk) (q0 L))) (upd 0 (bget L lb (nth 0 (fst blk) (q0 L))) sh) in
    dset (tup_eqb L) m (fst blk) (nd_zeros R msh)) t [].
(* sub_mp[qs][slices] += block; the slices start at [off] applied to the shape of the new block *)
Definition add_block (off : list Z -> list Z -> list Z) (m : bmap) (blk : block) : bmap :=
  match dget (tup_eqb L) m (fst blk) with
  | Some v => dset (tup_eqb L) m (fst blk) (nd_add_at (off (nshape v) (nshape (snd blk))) v (snd blk))
  | None => m
  end.
(* [: sh[0], ..., : sh[-1]] *)
Definition off_low (sh_new sh : list Z) : list Z := map (fun _ => 0) sh.
(* [-sh[0] :, ..., -sh[-1] :] for non-zero sh[0], sh[-1] *)
Definition off_high (sh_new sh : list Z) : list Z :=
  let o := upd 0 (nth 0 sh_new 0 - nth 0 sh 0) (map (fun _ => 0) sh) in
  upd (length sh - 1) (last sh_new 0 - last sh 0) o.
Definition sp_kron_add_with (lb rb : binfo) (a b : tensor) : tensor :=
  fold_left (add_block off_high) b (fold_left (add_block off_low) a (kron_alloc lb rb (a ++ b))).
(* 985-1026 without infos; None = AssertionError in infos or IndexError (no legs) *)
Definition sp_kron_add (a b : tensor) : option tensor :=
  match sp_infos R L a, sp_infos R L b with
  | Some (a0 :: ar), Some (b0 :: br) =>
      Some (sp_kron_add_with (bplus L a0 b0) (bplus L (last (a0 :: ar) []) (last (b0 :: br) [])) a b)
  | _, _ => None
  end.

(** *** to_sliceable and to_dense *)
(* 1383-1387: position of a label among the sorted labels; Counter gives 0 for a missing label *)
Fixpoint pos_in (l : list L) (q : L) : option Z :=
  match l with [] => None | x :: r => if qeqb L x q then Some 0 else option_map (Z.add 1) (pos_in r q) end.
Definition sorted_info (info : binfo) : binfo := sort_by (qltb L) fst info.
Definition label_pos (info : binfo) (q : L) : Z := odflt 0 (pos_in (map fst (sorted_info info)) q).
(* 1388-1395: the object array as a dictionary from index tuples to blocks *)
Definition sp_to_sliceable (infos : list binfo) (t : tensor) : dict (list Z) (nd R) :=
  fold_left (fun m blk =>
    dset shape_eqb m (map (fun p => label_pos (snd p) (fst p)) (combine (fst blk) infos)) (snd blk)) t [].
(* 414-418: idx[k] *)
Definition starts (info : binfo) (k : Z) : Z := zsum (firstn (Z.to_nat k) (map snd (sorted_info info))).
Definition sector (info : binfo) (k : Z) : Z := starts info (k + 1) - starts info k.
(* 419-426; None = ValueError (block and slice of different shape) *)
Fixpoint dense_loop (infos : list binfo) (arr : dict (list Z) (nd R)) (ixs : list (list Z)) (r : nd R) : option (nd R) :=
  match ixs with
  | [] => Some r
  | ix :: ixs' =>
      match dget shape_eqb arr ix with
      | None => dense_loop infos arr ixs' r
      | Some p =>
          if shape_eqb (nshape p) (map (fun x => sector (fst x) (snd x)) (combine infos ix)) then
            dense_loop infos arr ixs' (nd_set_at (map (fun x => starts (fst x) (snd x)) (combine infos ix)) r p)
          else None
      end
  end.
Definition sp_to_dense (infos : list binfo) (t : tensor) : option (nd R) :=
  dense_loop infos (sp_to_sliceable infos t) (all_idx (map (fun i : binfo => Z.of_nat (length i)) infos))
    (nd_zeros R (map (n_bonds L) infos)).
End Struct.

(* 810-833: symmetry_fuse; L is the higher symmetry, L' the lower one, finfos one layout per leg.
   None = KeyError *)
Notation symm_layout L L' := (dict (Q L') Z * dict (Q L') (dict (Q L) (Z * Z)))%type (only parsing).
Definition symm_entry {L L' : Label} (f : symm_layout L L') (q : L') (qx : L) : option (Z * Z) :=
  match dget (qeqb L') (snd f) q with Some d => dget (qeqb L) d qx | None => None end.
Fixpoint all_some {A : Type} (l : list (option A)) : option (list A) :=
  match l with
  | [] => Some []
  | Some x :: l' => option_map (cons x) (all_some l')
  | None :: _ => None
  end.
Definition symm_put {R : CRing} {L L' : Label} (finfos : list (symm_layout L L')) (symm_map : L -> L')
  (m : dict (list L') (nd R)) (blk : list L * nd R) : option (dict (list L') (nd R)) :=
  let new_qs := map symm_map (fst blk) in
  let new_ns := map (fun p => bget L' (fst (fst p)) (snd p)) (combine finfos new_qs) in
  let v := odflt (nd_zeros R new_ns) (dget (tup_eqb L') m new_qs) in
  match all_some (map (fun p => symm_entry (fst p) (symm_map (snd p)) (snd p)) (combine finfos (fst blk))) with
  | None => None
  | Some ks => Some (dset (tup_eqb L') m new_qs (nd_add_at (map fst ks) v (snd blk)))
  end.
Fixpoint symm_loop {R : CRing} {L L' : Label} (finfos : list (symm_layout L L')) (symm_map : L -> L')
  (m : dict (list L') (nd R)) (t : list (list L * nd R)) : option (dict (list L') (nd R)) :=
  match t with
  | [] => Some m
  | blk :: t' => match symm_put finfos symm_map m blk with Some m' => symm_loop finfos symm_map m' t' | None => None end
  end.
Definition sp_symmetry_fuse {R : CRing} {L L' : Label} (finfos : list (symm_layout L L')) (symm_map : L -> L')
  (t : list (list L * nd R)) : option (list (list L' * nd R)) := symm_loop finfos symm_map [] t.
