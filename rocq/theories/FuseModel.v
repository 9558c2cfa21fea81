(** Model of pyblock3/algebra/symmetry.py lines 164-275: BondFusingInfo.
    A fusing info is the pair (quanta, finfo) plus the pattern.
    np.prod(..., dtype=np.uint32) is modelled with its wrap-around at 2^32 ([prod32]); the running total quanta[q]
    is kept exact (numpy promotes int + uint32 to int64). *)
From Coq Require Import ZArith Bool List Ascii.
From Verif Require Import SymModel SymProofs DictLib IndexLib BondModel.
Import ListNotations.
Open Scope Z_scope.

(* row-major cartesian product: np.nditer over an array whose shape is the tuple of list lengths (204-207) *)
Fixpoint cart {A : Type} (ls : list (list A)) : list (list A) :=
  match ls with
  | [] => [[]]
  | l :: r => flat_map (fun x => map (cons x) (cart r)) l
  end.

(* np.prod(shs, dtype=np.uint32) *)
Definition prod32 (shs : list Z) : Z := fold_left (fun a s => (a * s) mod 2 ^ 32) shs 1.

Definition odflt {A : Type} (d : A) (o : option A) : A := match o with Some x => x | None => d end.

Section Fuse.
Variable L : Label.
Notation binfo := (dict L Z).

(* tuple equality and tuple comparison (Python compares tuples lexicographically, a proper prefix is smaller) *)
Fixpoint tup_eqb (a b : list L) : bool :=
  match a, b with
  | [], [] => true
  | x :: a', y :: b' => qeqb L x y && tup_eqb a' b'
  | _, _ => false
  end.
Fixpoint tup_ltb (a b : list L) : bool :=
  match a, b with
  | _, [] => false
  | [], _ :: _ => true
  | x :: a', y :: b' => if qeqb L x y then tup_ltb a' b' else qltb L x y
  end.

(* finfo : dict(q -> dict(tuple of labels -> (offset, shape))) *)
Definition finfo_t := dict L (dict (list L) (Z * list Z)).

(* np.add.reduce; the neutral label for the empty list (numpy would give 0.0: no legs are never fused) *)
Definition add_reduce (ps : list L) : L := match ps with [] => q0 L | p :: r => fold_left (qadd L) r p end.
(* 208-209, 239-240: signed labels; zip stops at the shorter list *)
Definition signed (pattern : list ascii) (qs : list L) : list L :=
  map (fun p => if is_plus (snd p) then fst p else qneg L (fst p)) (combine qs pattern).
Definition fuse_q (pattern : list ascii) (qs : list L) : L := add_reduce (signed pattern qs).

(* 214-217: finfo.setdefault(q, {})[qls] = quanta[q], shs; quanta[q] += size *)
Definition fuse_put (st : binfo * finfo_t) (q : L) (qls : list L) (shs : list Z) : binfo * finfo_t :=
  let (quanta, finfo) := st in
  let inner := odflt [] (dget (qeqb L) finfo q) in
  (badd L quanta q (prod32 shs),
   dset (qeqb L) finfo q (dset tup_eqb inner qls (bget L quanta q, shs))).

(* 185-218: tensor_product; [lt] is the comparison used for sorting the labels of each leg:
   label comparison, or comparison of trans(label) when trans is given *)
Definition fuse_product (lt : L -> L -> bool) (infos : list binfo) (ref : option binfo) (pattern : list ascii)
  : binfo * finfo_t :=
  let qs := map (sort_by lt fst) infos in
  fold_left (fun st x =>
    let qls := map fst x in
    let shs := map snd x in
    let q := fuse_q pattern qls in
    if in_ref L ref q then fuse_put st q qls shs else st) (cart qs) ([], []).

(* 238-244: collected *)
Definition collect (ref : option binfo) (pattern : list ascii) (items : list (list L * list Z))
  : dict L (list (list L * list Z)) :=
  fold_left (fun c it =>
    let q := fuse_q pattern (fst it) in
    if in_ref L ref q then dset (qeqb L) c q (odflt [] (dget (qeqb L) c q) ++ [it]) else c) items [].

Fixpoint shape_eqb (a b : list Z) : bool :=
  match a, b with
  | [], [] => true
  | x :: a', y :: b' => (x =? y) && shape_eqb a' b'
  | _, _ => false
  end.

(* 248-253: the inner loop for one fused label; None = AssertionError *)
Fixpoint kron_place (st : binfo * finfo_t) (q : L) (v : list (list L * list Z)) : option (binfo * finfo_t) :=
  match v with
  | [] => Some st
  | (qs, shs) :: v' =>
      let inner := odflt [] (dget (qeqb L) (snd st) q) in
      match dget tup_eqb inner qs with
      | None => kron_place (fuse_put st q qs shs) q v'
      | Some (_, shs') => if shape_eqb shs' shs then kron_place st q v' else None
      end
  end.
(* 245-254: the outer loop *)
Fixpoint kron_loop (st : binfo * finfo_t) (c : list (L * list (list L * list Z))) : option (binfo * finfo_t) :=
  match c with
  | [] => Some st
  | (q, v) :: c' =>
      let st0 := (fst st, dset (qeqb L) (snd st) q []) in
      match kron_place st0 q (sort_by tup_ltb fst v) with
      | Some st' => kron_loop st' c'
      | None => None
      end
  end.
(* 220-254: kron_sum *)
Definition kron_sum (items : list (list L * list Z)) (ref : option binfo) (pattern : list ascii)
  : option (binfo * finfo_t) :=
  kron_loop ([], []) (collect ref pattern items).
End Fuse.

(* 256-275: get_symmetry_fusing_info; [L] is the higher symmetry, [L'] the lower one *)
Definition symm_fusing (L L' : Label) (info : dict L Z) (symm_map : L -> L')
  : dict L' Z * dict L' (dict L (Z * Z)) :=
  fold_left (fun (st : dict L' Z * dict L' (dict L (Z * Z))) kv =>
    let (quanta, finfo) := st in
    let q := symm_map (fst kv) in
    let inner := odflt ([] : dict L (Z * Z)) (dget (qeqb L') finfo q) in
    (badd L' quanta q (snd kv),
     dset (qeqb L') finfo q (dset (qeqb L) inner (fst kv) (bget L' quanta q, snd kv))))
    (sort_by (qltb L) fst info) (([] : dict L' Z), ([] : dict L' (dict L (Z * Z)))).
