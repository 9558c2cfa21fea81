(** Model of pyblock3/algebra/fermion_ops.py 17-320 (on-site operators, two-site Hamiltonians, exchange phase,
    grouping of block labels) and of pyblock3/algebra/fermion_encoding.py.
    A state is 0 (empty), 1 (up), 2 (down), 3 (both).  The letters "+" and "-" are false and true.
    A symmetry label is a pair of integers (the second is 0 for U1, Z2 and Z4).  Numbers are elements of a commutative
    ring.  Not modelled: conversion to flat and large tensors, default settings. *)
From Coq Require Import ZArith Bool List.
From Verif Require Import DictLib IndexLib RingLib OptLib.
Import ListNotations.
Open Scope Z_scope.

(* fermion_encoding.py 29-34 *)
Definition cre_map (s : Z) : list bool :=
  if s =? 0 then [] else if s =? 1 then [false] else if s =? 2 then [true] else [false; true].
Definition ann_map (s : Z) : list bool :=
  if s =? 0 then [] else if s =? 1 then [false] else if s =? 2 then [true] else [true; false].
Definition pn_dict (s : Z) : Z := if s =? 0 then 0 else if s =? 1 then 1 else if s =? 2 then 1 else 2.
Definition hop_map (s : Z) : list Z := if s =? 0 then [1; 2] else if s =? 1 then [0; 3] else if s =? 2 then [0; 3] else [1; 2].
Definition all4 : list Z := [0; 1; 2; 3].

(* ------------------------------------------------------ exchange phase, 17-40 *)
(* str.index; the letter is present where it is used *)
Fixpoint index_of (c : bool) (s : list bool) : Z :=
  match s with [] => 0 | x :: s' => if Bool.eqb x c then 0 else 1 + index_of c s' end.
(* str.replace(c, "") *)
Definition erase (c : bool) (s : list bool) : list bool := filter (fun x => negb (Bool.eqb x c)) s.
Definition has (c : bool) (s : list bool) : bool := existsb (Bool.eqb c) s.
Definition len (s : list bool) : Z := Z.of_nat (length s).
(* list(set(ia) & set(ib)): the order of a set is arbitrary; first is the letter that comes first *)
Definition shared (first : bool) (ia ib : list bool) : list bool :=
  filter (fun c => has c ia && has c ib) [first; negb first].
(* 29-35: one letter *)
Definition cancel (const_off : Z) (st : list bool * list bool * Z) (c : bool) : list bool * list bool * Z :=
  let '(ia, ib, offset) := st in
  let inda := index_of c ia in
  let indb := index_of c ib in
  let ib := erase c ib in
  let ia := erase c ia in
  (ia, ib, offset + (indb + (len ia - inda) + const_off)).
Fixpoint set_nth {A : Type} (l : list A) (n : nat) (x : A) : list A :=
  match l, n with [], _ => [] | _ :: l', O => x :: l' | y :: l', S n' => y :: set_nth l' n' x end.
(* 25-39: one site; order ix is the letter the set of site ix yields first *)
Definition swap_step (order : nat -> bool) (nops : nat) (cre_string : list (list bool))
    (st : list (list bool) * Z) (ix : nat) : list (list bool) * Z :=
  let '(full, phase) := st in
  let ia := nth ix cre_string [] in
  let ib := nth (ix + nops) full [] in
  let const_off := zsum (map len (firstn (nops - 1) (skipn (S ix) full))) in
  let '(ia', ib', offset) := fold_left (cancel const_off) (shared (order ix) ia ib) (ia, ib, 0) in
  (set_nth (set_nth full ix ia') (nops + ix) ib', phase * (-1) ^ (offset mod 2)).
Definition swap_phase (order : nat -> bool) (fermion : bool) (states : list Z) : Z :=
  if negb fermion then 1
  else
    let nops := Nat.div2 (length states) in
    let cre_string := map cre_map (firstn nops states) in
    let ann_string := map ann_map (skipn nops states) in
    snd (fold_left (swap_step order nops cre_string) (seq 0 nops) (cre_string ++ ann_string, 1)).

(* --------------------------------------------------- states of a symmetry *)
Inductive symm := SU11 | SU1 | SZ4 | SZ2 | SZ22.
Definition qlab := (Z * Z)%type.
(* fermion_encoding.py 4-27: label, index within the label, dimension of the label *)
Definition state_map (y : symm) (s : Z) : qlab * Z * Z :=
  match y with
  | SU11 => if s =? 0 then ((0, 0), 0, 1) else if s =? 1 then ((1, 1), 0, 1) else if s =? 2 then ((1, -1), 0, 1) else ((2, 0), 0, 1)
  | SU1 => if s =? 0 then ((0, 0), 0, 1) else if s =? 1 then ((1, 0), 0, 2) else if s =? 2 then ((1, 0), 1, 2) else ((2, 0), 0, 1)
  | SZ4 | SZ2 => if s =? 0 then ((0, 0), 0, 2) else if s =? 1 then ((1, 0), 0, 2) else if s =? 2 then ((1, 0), 1, 2) else ((0, 0), 1, 2)
  | SZ22 => if s =? 0 then ((0, 0), 0, 1) else if s =? 1 then ((1, 0), 0, 1) else if s =? 2 then ((1, 1), 0, 1) else ((0, 1), 0, 1)
  end.
Definition q_of (y : symm) (s : Z) : qlab := fst (fst (state_map y s)).
Definition ix_of (y : symm) (s : Z) : Z := snd (fst (state_map y s)).
Definition dim_of (y : symm) (s : Z) : Z := snd (state_map y s).

Definition qlab_eqb (a b : qlab) : bool := (fst a =? fst b) && (snd a =? snd b).
Fixpoint list_eqb {A : Type} (eqb : A -> A -> bool) (a b : list A) : bool :=
  match a, b with [], [] => true | x :: a', y :: b' => eqb x y && list_eqb eqb a' b' | _, _ => false end.
Definition key_eqb : list qlab -> list qlab -> bool := list_eqb qlab_eqb.

Section Ops.
Variable R : CRing.
(* a dense block: shape and elements *)
Record block := mkB { b_dims : list Z; b_at : list Z -> R }.
Definition zeros (d : list Z) : block := mkB d (fun _ => r0 R).
(* dat[ix] += v; out of range = None *)
Definition in_shape (d ix : list Z) : bool :=
  Nat.eqb (length d) (length ix) && forallb (fun p => (0 <=? snd p) && (snd p <? fst p)) (combine d ix).
Definition add_at (b : block) (ix : list Z) (v : R) : option block :=
  if in_shape (b_dims b) ix then
    Some (mkB (b_dims b) (fun j => if list_eqb Z.eqb j ix then radd R (b_at b j) v else b_at b j))
  else None.
(* the tensor: blocks in order *)
Definition ften := list (list qlab * block).
(* "if labels not in block_dict: zeros; block_dict[labels][inds] += v" for the given states *)
Definition accum (y : symm) (d : ften) (states : list Z) (v : R) : option ften :=
  let q := map (q_of y) states in
  let ix := map (ix_of y) states in
  let b := match dget key_eqb d q with Some b => b | None => zeros (map (dim_of y) states) end in
  do b' <- add_at b ix v;
  Some (dset key_eqb d q b').

Fixpoint zr (z : nat) : R := match z with O => r0 R | S n => radd R (r1 R) (zr n) end.
(* an integer factor *)
Definition ofZ (z : Z) : R :=
  match z with Z0 => r0 R | Zpos p => zr (Pos.to_nat p) | Zneg p => ropp R (zr (Pos.to_nat p)) end.

(* 62-75 ParticleNumber: blocks by labels *)
Definition particle_number (y : symm) : option ften :=
  foldM (fun d s => accum y d [s; s] (ofZ (pn_dict s))) [] all4.
(* 42-55, 82-95, 103-116, 124-137: blocks by state, value f s *)
Definition by_state (y : symm) (f : Z -> R) : option ften :=
  mapM (fun s => do b <- add_at (zeros [dim_of y s; dim_of y s]) [ix_of y s; ix_of y s] (f s);
                 Some ([q_of y s; q_of y s], b)) all4.
Definition measure_sz (y : symm) (half : R) : option ften :=
  by_state y (fun s => if s =? 1 then half else if s =? 2 then ropp R half else r0 R).
Definition pna_dict (s : Z) : Z := if s =? 0 then 0 else if s =? 1 then 1 else if s =? 2 then 0 else 0.
Definition pnb_dict (s : Z) : Z := if s =? 0 then 0 else if s =? 1 then 0 else if s =? 2 then 1 else 0.
Definition number_alpha (y : symm) : option ften := by_state y (fun s => ofZ (pna_dict s)).
Definition number_beta (y : symm) : option ften := by_state y (fun s => ofZ (pnb_dict s)).
Definition onsite_u (y : symm) (u : R) : option ften := by_state y (fun s => if pn_dict s =? 2 then u else r0 R).

(* 144-177; spin 0 = 'a', 1 = 'b', 2 = 'sum' *)
Definition creation_map (spin s : Z) : list Z :=
  if spin =? 0 then (if s =? 0 then [1] else if s =? 2 then [3] else [])
  else if spin =? 1 then (if s =? 0 then [2] else if s =? 1 then [3] else [])
  else (if s =? 0 then [1; 2] else if s =? 1 then [3] else if s =? 2 then [3] else []).
Section Phase.
Variable order : nat -> bool.
Variable fermion : bool.
Definition creation (y : symm) (spin : Z) : option ften :=
  foldM (fun d (p : Z * Z) => accum y d [snd p; fst p] (ofZ (swap_phase order fermion [snd p; fst p]))) []
    (flat_map (fun s => map (fun o => (s, o)) (creation_map spin s)) all4).

(* sorted(cre_map[s1] + cre_map[s2]), "+" < "-" *)
Definition sorted_letters (l : list bool) : list bool :=
  filter (fun c => negb c) l ++ filter (fun c => c) l.
Definition same_letters (a b : list bool) : bool := list_eqb Bool.eqb (sorted_letters a) (sorted_letters b).
Definition hops (s1 s2 : Z) : list (list Z) :=
  flat_map (fun s3 => flat_map (fun s4 =>
    if same_letters (cre_map s1 ++ cre_map s2) (cre_map s3 ++ cre_map s4) then [[s1; s2; s3; s4]] else []) (hop_map s2)) (hop_map s1).
(* 225-252 *)
Definition h1 (y : symm) (h : R) : option ften :=
  foldM (fun d st => accum y d st (rmul R (ofZ (swap_phase order fermion st)) h)) []
    (flat_map (fun p : Z * Z => hops (fst p) (snd p)) (list_prod all4 all4)).
(* 255-294 *)
Definition site_term (fac u mu : R) (s : Z) : R :=
  radd R (if pn_dict s =? 2 then rmul R fac u else r0 R) (rmul R (rmul R (ofZ (pn_dict s)) fac) mu).
Definition hubbard (y : symm) (t u mu faca facb : R) : option ften :=
  foldM (fun d (p : Z * Z) =>
    let s1 := fst p in let s2 := snd p in
    let val := radd R (site_term faca u mu s1) (site_term facb u mu s2) in
    do d1 <- accum y d [s1; s2; s1; s2] (rmul R (ofZ (swap_phase order fermion [s1; s2; s1; s2])) val);
    foldM (fun d st => accum y d st (rmul R (ofZ (swap_phase order fermion st)) (ropp R t))) d1 (hops s1 s2)) []
    (list_prod all4 all4).
End Phase.

(* element of a tensor between states: the last block with the labels (core.py:410-427 assigns blocks one after another);
   no block means 0 *)
Definition last_block (t : ften) (q : list qlab) : option block :=
  fold_left (fun r p => if key_eqb (fst p) q then Some (snd p) else r) t None.
Definition elem (y : symm) (t : ften) (states : list Z) : R :=
  match last_block t (map (q_of y) states) with
  | Some b => b_at b (map (ix_of y) states)
  | None => r0 R
  end.
End Ops.

(* ------------------------------------------------ grouping of labels, 296-320 *)
Section Fuse.
Variable Q : Type.
Variable eqb : Q -> Q -> bool.
Variable B : Type.
(* from_parent, to_parent, data_map *)
Record grp := mkGr { fromp : list (Q * list Q); top : list (Q * Q); dat : list (Q * list B) }.
Definition ddel {V : Type} (d : list (Q * V)) (k : Q) : list (Q * V) := filter (fun p => negb (eqb (fst p) k)) d.
Definition fuse_data_map (g : grp) (l r : Q) : option (grp * Q) :=
  match dget eqb (top g) l, dget eqb (top g) r with
  | None, None =>
    Some (mkGr (dset eqb (fromp g) l (if eqb r l then [l] else [l; r]))
               (dset eqb (dset eqb (top g) l l) r l)
               (dset eqb (dat g) l []), l)
  | None, Some p =>
    do f <- dget eqb (fromp g) p;
    Some (mkGr (dset eqb (fromp g) p (f ++ [l])) (dset eqb (top g) l p) (dat g), p)
  | Some p, None =>
    do f <- dget eqb (fromp g) p;
    Some (mkGr (dset eqb (fromp g) p (f ++ [r])) (dset eqb (top g) r p) (dat g), p)
  | Some p, Some pb =>
    if eqb p pb then Some (g, p)
    else
      do fb <- dget eqb (fromp g) pb;
      do f <- dget eqb (fromp g) p;
      do dp <- dget eqb (dat g) p;
      do db <- dget eqb (dat g) pb;
      Some (mkGr (dset eqb (fromp g) p (f ++ fb))
                 (fold_left (fun t q => dset eqb t q p) fb (top g))
                 (ddel (dset eqb (dat g) p (dp ++ db)) pb), p)
  end.
(* get_sparse_exponential 452-456: blocks with their two label groups *)
Definition group (blocks : list (Q * Q * B)) : option grp :=
  foldM (fun g (x : Q * Q * B) =>
    do (g', p) <- fuse_data_map g (fst (fst x)) (snd (fst x));
    do d <- dget eqb (dat g') p;
    Some (mkGr (fromp g') (top g') (dset eqb (dat g') p (d ++ [snd x])))) (mkGr [] [] []) blocks.
(* get_sparse_exponential 458-470 (get_flat_exponential 371-384): labels of the rows of one group, in order of appearance *)
Definition qmem (q : Q) (l : list Q) : bool := existsb (eqb q) l.
Definition row_labels (datasets : list (Q * Q)) : list Q :=
  fold_left (fun m x => let m := if qmem (fst x) m then m else m ++ [fst x] in
                        if qmem (snd x) m then m else m ++ [snd x]) datasets [].
End Fuse.
(* get_sparse_exponential 448-489 (get_flat_exponential 361-402): labels of the blocks of the result, before tiny blocks are
   screened; the block with labels l + r is the (l, r) part of the exponential of the matrix of the group.
   The numerical values are not modelled. *)
Definition exp_labels (Q : Type) (eqb : Q -> Q -> bool) (blocks : list (Q * Q)) : option (list (Q * Q)) :=
  do g <- group Q eqb (Q * Q) (map (fun x => (x, x)) blocks);
  Some (flat_map (fun p => let rows := row_labels Q eqb (snd p) in list_prod rows rows) (dat Q (Q * Q) g)).
