(** Model of BondInfo and MPSInfo.
    Sources: /repo/pyblock3/algebra/symmetry.py lines 75-161 (class BondInfo, a Counter)
             /repo/pyblock3/algebra/mps.py lines 43-137 (class MPSInfo).
    A Counter is an association list in insertion order; a missing key reads as 0 without being inserted.
    Multiplicities are [Z].  Floating point in [truncate] is replaced by exact rationals. *)
From Coq Require Import ZArith Bool List.
From Verif Require Import SymModel SymProofs DictLib.
Import ListNotations.
Open Scope Z_scope.

Section Bond.
Variable L : Label.

Notation binfo := (dict L Z).

(* Counter.__missing__ returns 0 *)
Definition bget (d : binfo) (k : L) : Z := match dget (qeqb L) d k with Some v => v | None => 0 end.
Definition bmem (d : binfo) (k : L) : bool := dmem (qeqb L) d k.
Definition bset (d : binfo) (k : L) (v : Z) : binfo := dset (qeqb L) d k v.
(* quanta[k] += v *)
Definition badd (d : binfo) (k : L) (v : Z) : binfo := bset d k (bget d k + v).

(* symmetry.py 87-90: n_bonds *)
Definition n_bonds (d : binfo) : Z := zsum (map snd d).

(* symmetry.py 105: the guard "ref is None or ka + kb in ref" *)
Definition in_ref (ref : option binfo) (k : L) : bool :=
  match ref with None => true | Some r => bmem r k end.

(* symmetry.py 100-107: tensor_product(a, b, ref) *)
Definition tensor_product (a b : binfo) (ref : option binfo) : binfo :=
  fold_left (fun quanta pa =>
    fold_left (fun quanta pb =>
      let k := qadd L (fst pa) (fst pb) in
      if in_ref ref k then badd quanta k (snd pa * snd pb) else quanta) b quanta) a [].

(* symmetry.py 125-127: __mul__ *)
Definition bmul (a b : binfo) : binfo := tensor_product a b None.

(* symmetry.py 109-111 and collections.Counter.__and__ *)
Definition band (a b : binfo) : binfo :=
  fold_left (fun r p =>
    let oc := bget b (fst p) in
    let nc := if snd p <? oc then snd p else oc in
    if 0 <? nc then bset r (fst p) nc else r) a [].

(* symmetry.py 113-115 and collections.Counter.__or__ *)
Definition bor (a b : binfo) : binfo :=
  let r1 := fold_left (fun r p =>
    let oc := bget b (fst p) in
    let nc := if snd p <? oc then oc else snd p in
    if 0 <? nc then bset r (fst p) nc else r) a [] in
  fold_left (fun r p => if negb (bmem a (fst p)) && (0 <? snd p) then bset r (fst p) (snd p) else r) b r1.

(* symmetry.py 117-119 and collections.Counter.__add__ *)
Definition bplus (a b : binfo) : binfo :=
  let r1 := fold_left (fun r p =>
    let nc := snd p + bget b (fst p) in
    if 0 <? nc then bset r (fst p) nc else r) a [] in
  fold_left (fun r p => if negb (bmem a (fst p)) && (0 <? snd p) then bset r (fst p) (snd p) else r) b r1.

(* symmetry.py 121-123: __neg__ (dict comprehension) *)
Definition bneg (a : binfo) : binfo :=
  dict_of (qeqb L) (map (fun p => (qneg L (fst p), snd p)) a).

(* symmetry.py 133-135: filter (dict comprehension) *)
Definition bfilter (a b : binfo) : binfo :=
  dict_of (qeqb L) (map (fun p => (fst p, Z.min (bget b (fst p)) (snd p)))
                        (filter (fun p => bmem b (fst p)) a)).

(* int(np.ceil(v * bond_dim / n_total + 0.1)) over exact rationals: the argument is (10*v*m + n) / (10*n) *)
Definition ceil_div (a b : Z) : Z := - ((- a) / b).
Definition scale_ceil (v m n : Z) : Z := ceil_div (10 * v * m + n) (10 * n).

(* np.round: half to even, of a / b with b > 0 *)
Definition round_half_even (a b : Z) : Z :=
  let q := a / b in let r := a mod b in
  if 2 * r <? b then q
  else if b <? 2 * r then q + 1
  else if Z.even q then q else q + 1.
Definition scale_round (v m n : Z) : Z := round_half_even (10 * v * m + n) (10 * n).

Definition cap_ref (ref : option binfo) (k : L) (v : Z) : Z :=
  match ref with None => v | Some r => Z.min v (bget r k) end.

(* symmetry.py 137-143: truncate *)
Definition truncate (d : binfo) (m : Z) (ref : option binfo) : binfo :=
  let n := n_bonds d in
  if m <? n then map (fun p => (fst p, cap_ref ref (fst p) (scale_ceil (snd p) m n))) d else d.

(* symmetry.py 145-154: truncate_no_keep *)
Definition truncate_no_keep (d : binfo) (m : Z) (ref : option binfo) : binfo :=
  let n := n_bonds d in
  if m <? n then
    filter (fun p => negb (snd p =? 0))
      (map (fun p => (fst p, cap_ref ref (fst p) (scale_round (snd p) m n))) d)
  else d.

(** ** MPSInfo *)

(* mps.py 75-79: left_dims before filtering, bonds 0..n *)
Fixpoint left_scan (l : binfo) (basis : list binfo) : list binfo :=
  l :: match basis with [] => [] | b :: r => left_scan (bmul l b) r end.
Definition left_raw (vac : L) (basis : list binfo) : list binfo := left_scan [(vac, 1)] basis.

(* mps.py 81-85: right_dims before filtering, bonds 0..n *)
Fixpoint right_raw (tgt : L) (basis : list binfo) : list binfo :=
  match basis with
  | [] => [[(tgt, 1)]]
  | b :: r => let rs := right_raw tgt r in bmul (bneg b) (hd [] rs) :: rs
  end.

Fixpoint zip_with {A B C : Type} (f : A -> B -> C) (la : list A) (lb : list B) : list C :=
  match la, lb with a :: la', b :: lb' => f a b :: zip_with f la' lb' | _, _ => [] end.

(* mps.py 72-92: set_bond_dimension_fci (without call_back) *)
Definition fci_left (vac tgt : L) (basis : list binfo) : list binfo :=
  zip_with bfilter (left_raw vac basis) (right_raw tgt basis).
Definition fci_right (vac tgt : L) (basis : list binfo) : list binfo :=
  zip_with bfilter (right_raw tgt basis) (fci_left vac tgt basis).

(* mps.py 114-116: forward truncation of left_dims[1..n]; [prev] is the (already truncated) left_dims[d] *)
Fixpoint trunc_left (m : Z) (prev : binfo) (basis : list binfo) (ls : list binfo) : list binfo :=
  match basis, ls with
  | b :: basis', l :: ls' =>
      let l' := truncate l m (Some (bmul prev b)) in l' :: trunc_left m l' basis' ls'
  | _, _ => ls
  end.
(* mps.py 117-119: backward truncation of right_dims[n-1..0]; returns all bonds of the suffix *)
Fixpoint trunc_right (m : Z) (basis : list binfo) (rs : list binfo) : list binfo :=
  match basis, rs with
  | b :: basis', r :: rs' =>
      let rs'' := trunc_right m basis' rs' in
      truncate r m (Some (bmul (bneg b) (hd [] rs''))) :: rs''
  | _, _ => rs
  end.

(* mps.py 114-116 on the whole list of bonds; left_dims[0] is not touched *)
Definition step_left (m : Z) (basis : list binfo) (ls : list binfo) : list binfo :=
  match ls with [] => [] | l0 :: ls' => l0 :: trunc_left m l0 basis ls' end.

(* mps.py 107-119: set_bond_dimension called once for every entry of [ms], in order, on a fresh object *)
Definition set_bond_left (ms : list Z) (vac tgt : L) (basis : list binfo) : list binfo :=
  fold_left (fun ls m => step_left m basis ls) ms (fci_left vac tgt basis).
Definition set_bond_right (ms : list Z) (vac tgt : L) (basis : list binfo) : list binfo :=
  fold_left (fun rs m => trunc_right m basis rs) ms (fci_right vac tgt basis).

End Bond.
