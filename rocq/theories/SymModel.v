(** Model of the quantum labels.
    Sources: /repo/pyblock3/algebra/symmetry.py lines 28-73 (class SZ)
             /repo/pyblock3/algebra/fermion_symmetry.py lines 30-321 (U1, Z2, Z4, U11, Z22).
    Python integers are [Z]; [//] and [%] are [Z.div] and [Z.modulo] (both floor),
    [^] is [Z.lxor], [&] is [Z.land].  Numpy int64 wrap-around is not modelled
    (all intermediate values are far below 2^63 for labels in the window). *)
From Coq Require Import ZArith Bool List Ascii.
Import ListNotations.
Open Scope Z_scope.

(** ** symmetry.py: class SZ *)

(* symmetry.py 31-34: __init__ *)
Record SZ := mkSZ { sz_n : Z; sz_twos : Z; sz_pg : Z }.

(* symmetry.py 31: default arguments *)
Definition sz_zero : SZ := mkSZ 0 0 0.

(* symmetry.py 36-38: is_fermion *)
Definition sz_is_fermion (q : SZ) : bool := (sz_n q mod 2) =? 1.

(* symmetry.py 40-41: to_flat *)
Definition sz_to_flat (q : SZ) : Z :=
  ((sz_n q + 8192) * 16384 + (sz_twos q + 8192)) * 8 + sz_pg q.

(* symmetry.py 43-45: from_flat *)
Definition sz_from_flat (x : Z) : SZ :=
  mkSZ ((x / 131072) mod 16384 - 8192) ((x / 8) mod 16384 - 8192) (x mod 8).

(* symmetry.py 47-49: is_flat_fermion *)
Definition sz_is_flat_fermion (x : Z) : bool := negb (Z.land x 131072 =? 0).

(* symmetry.py 51-52: __add__ *)
Definition sz_add (a b : SZ) : SZ :=
  mkSZ (sz_n a + sz_n b) (sz_twos a + sz_twos b) (Z.lxor (sz_pg a) (sz_pg b)).

(* symmetry.py 54-55: __sub__ *)
Definition sz_sub (a b : SZ) : SZ :=
  mkSZ (sz_n a - sz_n b) (sz_twos a - sz_twos b) (Z.lxor (sz_pg a) (sz_pg b)).

(* symmetry.py 57-58: __neg__ *)
Definition sz_neg (a : SZ) : SZ := mkSZ (- sz_n a) (- sz_twos a) (sz_pg a).

(* symmetry.py 60-61: __eq__ *)
Definition sz_eqb (a b : SZ) : bool :=
  (sz_n a =? sz_n b) && (sz_twos a =? sz_twos b) && (sz_pg a =? sz_pg b).

(* symmetry.py 63-64: __lt__, Python tuple comparison *)
Definition sz_ltb (a b : SZ) : bool :=
  if sz_n a =? sz_n b then
    if sz_twos a =? sz_twos b then sz_pg a <? sz_pg b
    else sz_twos a <? sz_twos b
  else sz_n a <? sz_n b.

(** ** fermion_symmetry.py: U1 and its subclasses Z2, Z4.
    The three classes share their methods by inheritance; the class is a parameter. *)
Inductive u1cls := cU1 | cZ2 | cZ4.

(* fermion_symmetry.py 151, 178: _modulus *)
Definition u1_modulus (c : u1cls) : Z := match c with cU1 => 0 | cZ2 => 2 | cZ4 => 4 end.

(* fermion_symmetry.py 34-35 (U1) and 152-153 (Z2, Z4): __init__.  A label is its field n. *)
Definition u1_mk (c : u1cls) (n : Z) : Z :=
  match c with cU1 => n | cZ2 => n mod 2 | cZ4 => n mod 4 end.

(* 37-38 *) Definition u1_add (c : u1cls) (a b : Z) : Z := u1_mk c (a + b).
(* 40-41 *) Definition u1_sub (c : u1cls) (a b : Z) : Z := u1_mk c (a - b).
(* 43-44 *) Definition u1_neg (c : u1cls) (a : Z) : Z := u1_mk c (- a).
(* 46-47 *) Definition u1_eqb (a b : Z) : bool := a =? b.
(* 49-50 *) Definition u1_ltb (a b : Z) : bool := a <? b.
(* 58-60 *) Definition u1_parity (a : Z) : Z := a mod 2.

(* 66-68 (U1), 159-161 (Z2, Z4): qpn_to_flat *)
Definition u1_qpn_to_flat (c : u1cls) (n : Z) : Z :=
  match c with cU1 => (n + 8192) * 131072 | cZ2 => n mod 2 | cZ4 => n mod 4 end.
(* 70-72 (U1), 163-165 (Z2, Z4): flat_to_qpn *)
Definition u1_flat_to_qpn (c : u1cls) (x : Z) : Z :=
  match c with cU1 => x / 131072 - 8192 | cZ2 => x mod 2 | cZ4 => x mod 4 end.
(* 74-76 *) Definition u1_from_flat (c : u1cls) (x : Z) : Z := u1_mk c (u1_flat_to_qpn c x).
(* 78-79 *) Definition u1_to_flat (c : u1cls) (a : Z) : Z := u1_qpn_to_flat c a.
(* 81-86 (U1), 155-157 (Z2, Z4): flat_to_parity *)
Definition u1_flat_to_parity (c : u1cls) (x : Z) : Z :=
  match c with cU1 => (x / 131072) mod 2 | _ => x mod 2 end.
(* 88-93 (U1), 167-169 (Z2, Z4): flip_flat *)
Definition u1_flip_flat (c : u1cls) (x : Z) : Z :=
  match c with cU1 => 2147483648 - x | cZ2 => (- x) mod 2 | cZ4 => (- x) mod 4 end.

Definition plus_c : ascii := "+"%char.
Definition minus_c : ascii := "-"%char.
Definition is_plus (c : ascii) : bool := Ascii.eqb c plus_c.
Definition is_minus (c : ascii) : bool := Ascii.eqb c minus_c.

(* fermion_symmetry.py 109-113: the accumulation loop of the object path *)
Fixpoint u1_loop (c : u1cls) (out : Z) (qs : list Z) (pat : list ascii) : Z :=
  match qs, pat with
  | iq :: qs', ix :: pat' =>
      u1_loop c (if is_plus ix then u1_add c out iq else u1_sub c out iq) qs' pat'
  | _, _ => out
  end.

(* fermion_symmetry.py 97-115, object path of U1._compute.
   [qpns[0]] raises IndexError on the empty list, the assert raises on a length mismatch. *)
Definition u1_compute_obj (c : u1cls) (pat : list ascii) (qs : list Z)
    (offset : option (ascii * Z)) (neg : bool) : option Z :=
  match qs with
  | nil => None
  | _ =>
    if Nat.eqb (List.length pat) (List.length qs) then
      let pq := match offset with
                | None => (pat, qs)
                | Some (ix, dq) => (pat ++ [ix], qs ++ [dq])
                end in
      let out := u1_loop c (u1_mk c 0) (snd pq) (fst pq) in
      Some (if neg then u1_neg c out else out)
    else None
  end.

(* fermion_symmetry.py 133-135: negate the columns marked '-';
   [narr[:,ix]] raises IndexError when the pattern is longer than the row. *)
Fixpoint signed_cols (pat : list ascii) (row : list Z) : option (list Z) :=
  match pat, row with
  | nil, _ => Some row
  | _ :: _, nil => None
  | ix :: pat', x :: row' =>
      option_map (cons (if is_minus ix then x * (-1) else x)) (signed_cols pat' row')
  end.

Definition sumZ (l : list Z) : Z := fold_right Z.add 0 l.

(* fermion_symmetry.py 116-142, array path of U1._compute for one row of integer codes.
   The offset is given by its integer code when it is not an object (126-127); here always by its code. *)
Definition u1_compute_row (c : u1cls) (pat : list ascii) (row : list Z)
    (offset : option (ascii * Z)) (neg : bool) : option Z :=
  let narr := map (u1_flat_to_qpn c) row in
  let dq := match offset with
            | None => u1_mk c 0
            | Some (ix, dqf) =>
                let dq := u1_from_flat c dqf in
                if is_minus ix then u1_neg c dq else dq
            end in
  match signed_cols pat narr with
  | None => None
  | Some l =>
      Some (u1_qpn_to_flat c (if neg then - sumZ l - dq else sumZ l + dq))
  end.

(** ** fermion_symmetry.py: U11 and its subclass Z22 *)
Inductive u11cls := cU11 | cZ22.

Notation u11 := (Z * Z)%type.

(* 186-188 (U11), 300-302 (Z22): __init__ *)
Definition u11_mk (c : u11cls) (n sz : Z) : u11 :=
  match c with cU11 => (n, sz) | cZ22 => (n mod 2, sz mod 2) end.
(* 190-191 *) Definition u11_add (c : u11cls) (a b : u11) : u11 :=
  u11_mk c (fst a + fst b) (snd a + snd b).
(* 193-194 *) Definition u11_sub (c : u11cls) (a b : u11) : u11 :=
  u11_mk c (fst a - fst b) (snd a - snd b).
(* 199-200 *) Definition u11_neg (c : u11cls) (a : u11) : u11 :=
  u11_mk c (- fst a) (- snd a).
(* 196-197 *) Definition u11_eqb (a b : u11) : bool := (fst a =? fst b) && (snd a =? snd b).
(* 202-203 *) Definition u11_ltb (a b : u11) : bool :=
  if fst a =? fst b then snd a <? snd b else fst a <? fst b.
(* 208-210 *) Definition u11_parity (a : u11) : Z := fst a mod 2.
(* 220-222 (U11), 304-306 (Z22): qpn_to_flat *)
Definition u11_qpn_to_flat (c : u11cls) (n sz : Z) : Z :=
  match c with
  | cU11 => ((n + 8192) * 16384 + (sz + 8192)) * 8
  | cZ22 => n mod 2 * 2 + sz mod 2
  end.
(* 224-226 (U11), 308-310 (Z22): flat_to_qpn *)
Definition u11_flat_to_qpn (c : u11cls) (x : Z) : u11 :=
  match c with
  | cU11 => ((x / 131072) mod 16384 - 8192, (x / 8) mod 16384 - 8192)
  | cZ22 => (x / 2, x mod 2)
  end.
(* 232-233 *) Definition u11_to_flat (c : u11cls) (a : u11) : Z := u11_qpn_to_flat c (fst a) (snd a).
(* 235-237 *) Definition u11_from_flat (c : u11cls) (x : Z) : u11 :=
  u11_mk c (fst (u11_flat_to_qpn c x)) (snd (u11_flat_to_qpn c x)).
(* 216-218 (U11), 312-314 (Z22): flat_to_parity *)
Definition u11_flat_to_parity (c : u11cls) (x : Z) : Z :=
  match c with cU11 => (x / 131072) mod 2 | cZ22 => x / 2 mod 2 end.
(* 228-230 (U11), 316-318 (Z22): flip_flat *)
Definition u11_flip_flat (c : u11cls) (x : Z) : Z :=
  match c with cU11 => 2147614720 - x | cZ22 => x mod (2 * 2) end.

(* 252-256 *)
Fixpoint u11_loop (c : u11cls) (out : u11) (qs : list u11) (pat : list ascii) : u11 :=
  match qs, pat with
  | iq :: qs', ix :: pat' =>
      u11_loop c (if is_plus ix then u11_add c out iq else u11_sub c out iq) qs' pat'
  | _, _ => out
  end.

(* 243-258: object path of U11._compute *)
Definition u11_compute_obj (c : u11cls) (pat : list ascii) (qs : list u11)
    (offset : option (ascii * u11)) (neg : bool) : option u11 :=
  match qs with
  | nil => None
  | _ =>
    if Nat.eqb (List.length pat) (List.length qs) then
      let pq := match offset with
                | None => (pat, qs)
                | Some (ix, dq) => (pat ++ [ix], qs ++ [dq])
                end in
      let out := u11_loop c (u11_mk c 0 0) (snd pq) (fst pq) in
      Some (if neg then u11_neg c out else out)
    else None
  end.

(* 259-289: array path of U11._compute for one row of integer codes *)
Definition u11_compute_row (c : u11cls) (pat : list ascii) (row : list Z)
    (offset : option (ascii * Z)) (neg : bool) : option Z :=
  let narr := map (fun x => fst (u11_flat_to_qpn c x)) row in
  let zarr := map (fun x => snd (u11_flat_to_qpn c x)) row in
  let dq := match offset with
            | None => u11_mk c 0 0
            | Some (ix, dqf) =>
                let dq := u11_from_flat c dqf in
                if is_minus ix then u11_neg c dq else dq
            end in
  match signed_cols pat narr, signed_cols pat zarr with
  | Some ln, Some lz =>
      Some (if neg then u11_qpn_to_flat c (- sumZ ln - fst dq) (- sumZ lz - snd dq)
            else u11_qpn_to_flat c (sumZ ln + fst dq) (sumZ lz + snd dq))
  | _, _ => None
  end.
