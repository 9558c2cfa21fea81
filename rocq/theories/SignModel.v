(** Model of pyblock3/algebra/fermion.py lines 1061-1083 (compute_phase) and of pyblock3/symbolic/expr.py
    lines 218-224 (OpString.sort), 306-311 (OpSum.simplify), 313-316 (OpSum.sort).
    plist (the parities of the legs) is a list of integers; axes are valid non-negative indices.
    An operator symbol is its (name, site_index); factor is 1 after OpString.__init__ (202-204) and the label is not
    looked at by equality or ordering (expr.py 144-149).  Coefficients are exact rationals. *)
From Coq Require Import ZArith QArith Bool List.
From Verif Require Import DictLib IndexLib.
Import ListNotations.
Open Scope Z_scope.

Definition memZ (x : Z) (l : list Z) : bool := existsb (Z.eqb x) l.
Definition pget (plist : list Z) (i : Z) : Z := nth (Z.to_nat i) plist 0.
(* (-1) ** parity *)
Definition m1pow (k : Z) : Z := if Z.even k then 1 else -1.

(* range(x) / range(x+1, len(plist)) *)
Definition legs_before (x : Z) : list Z := zrange x.
Definition legs_after (n x : Z) : list Z := map (fun j => x + 1 + j) (zrange (n - (x + 1))).

(* 1061-1083; [right] : direction == "right"; the loop carries (counted, phase) *)
Definition compute_phase (default_fermion : bool) (plist axes : list Z) (right : bool) : Z :=
  if negb default_fermion then 1
  else snd (fold_left (fun (st : list Z * Z) x =>
    let (counted, phase) := st in
    let range := if right then legs_after (Z.of_nat (length plist)) x else legs_before x in
    let parity := zsum (map (pget plist) (filter (fun i => negb (memZ i counted)) range)) * pget plist x in
    (counted ++ [x], phase * m1pow parity)) axes ([], 1)).

(** *** Operator strings *)
(* (name, site_index): the name is its enum value *)
Notation opsym := (Z * list Z)%type.
Definition site (o : opsym) : list Z := snd o.
(* tuple comparison *)
Fixpoint tlt (a b : list Z) : bool :=
  match a, b with
  | _, [] => false
  | [], _ :: _ => true
  | x :: a', y :: b' => if x =? y then tlt a' b' else x <? y
  end.
Fixpoint teq (a b : list Z) : bool :=
  match a, b with
  | [], [] => true
  | x :: a', y :: b' => (x =? y) && teq a' b'
  | _, _ => false
  end.
Notation opstring := (list opsym * Q)%type.

(* 219-223: the double loop over pairs i < j *)
Fixpoint sign_loop (ops : list opsym) (factor : Q) : Q :=
  match ops with
  | [] => factor
  | ix :: rest => sign_loop rest (fold_left (fun f jx => if tlt (site jx) (site ix) then Qopp f else f) rest factor)
  end.
(* 218-224 *)
Definition string_sort (fermion : bool) (s : opstring) : opstring :=
  let (ops, factor) := s in
  (sort_by tlt site ops, if fermion then sign_loop ops factor else factor).

(* OpElement.__eq__ on symbols of factor 1, OpString keys: tuples of symbols *)
Definition op_eqb (a b : opsym) : bool := (fst a =? fst b) && teq (snd a) (snd b).
Fixpoint ops_eqb (a b : list opsym) : bool :=
  match a, b with
  | [], [] => true
  | x :: a', y :: b' => op_eqb x y && ops_eqb a' b'
  | _, _ => false
  end.
(* 1E-12 *)
Definition tiny : Q := 1 # 1000000000000.
Definition Qabs' (q : Q) : Q := if Qle_bool 0 q then q else Qopp q.
(* 306-311 *)
Definition collect_strings (strings : list opstring) : dict (list opsym) Q :=
  fold_left (fun mp s => dset ops_eqb mp (fst s)
    (Qplus (match dget ops_eqb mp (fst s) with Some v => v | None => 0%Q end) (snd s))) strings [].
Definition simplify (strings : list opstring) : list opstring :=
  filter (fun kv => negb (Qle_bool (Qabs' (snd kv)) tiny)) (collect_strings strings).
(* 313-316 *)
Definition sum_sort (fermion : bool) (strings : list opstring) : list opstring := map (string_sort fermion) strings.
