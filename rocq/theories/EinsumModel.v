(** Model of einsum (pyblock3/algebra/einsum.py 21-186), the function behind numpy.einsum of block-sparse tensors
    (algebra/ad/core.py 764-772), for any number of operands.
    A script is a text of ASCII characters.  tensordot and transpose are parameters of the code and of the model.
    None = exception (assertion, RuntimeError, KeyError).  Left out: SparseTensor._tensordot returns a number instead of a
    tensor without legs (ad/core.py 797-798). *)
From Coq Require Import ZArith Bool List Ascii.
From Verif Require Import IndexLib OptLib RingLib StrLib.
Import ListNotations.
Open Scope Z_scope.

Definition nul : ascii := zero.
Definition tab : ascii := ascii_of_nat 9.
Definition cr : ascii := ascii_of_nat 13.
Definition gt : ascii := ">"%char.

(* 23-35: a comma or "->" ends an operand, what follows the last one is the result; the flag is explicit_mode *)
Fixpoint split_script (cur s : text) : list text * text * bool :=
  match s with
  | [] => ([], strip cur, false)
  | c :: s' =>
      if Ascii.eqb c comma then let '(ops, r, e) := split_script [] s' in (strip cur :: ops, r, e)
      else match s' with
           | d :: s'' => if Ascii.eqb c minus && Ascii.eqb d gt
                         then let '(ops, r, _) := split_script [] s'' in (strip cur :: ops, r, true)
                         else split_script (cur ++ [c]) s'
           | [] => split_script (cur ++ [c]) s'
           end
  end.

(* 48, 50 *)
Definition blank (c : ascii) : bool := Ascii.eqb c tab || Ascii.eqb c space || Ascii.eqb c newline || Ascii.eqb c cr.
Definition illegal (c : ascii) : bool := Ascii.eqb c minus || Ascii.eqb c dot || Ascii.eqb c gt || Ascii.eqb c nul.
(* 53-82: an ellipsis is rejected (63-65 or the assertion of 82), so is any other illegal character; blanks are removed *)
Definition clean (o : text) : option text := if existsb illegal o then None else Some (filter (fun c => negb (blank c)) o).

(* number of occurrences *)
Definition occ (c : ascii) (s : text) : Z := Z.of_nat (count_occ ascii_dec s c).
(* 89-95: char_count *)
Definition char_count (ops : list text) (res : text) (c : ascii) : Z := fold_right Z.add 0 (map (occ c) ops) + occ c res.
(* 98-129: no index twice in an operand (115), no index which occurs nowhere else (129) *)
Definition check_operand (cnt : ascii -> Z) (ig : text) : bool :=
  Nat.eqb (length (nodup ascii_dec ig)) (length ig) && forallb (fun c => negb (occ c ig =? cnt c)) ig.

(* j for j, jg in enumerate(s) if p(jg) *)
Definition positions (p : ascii -> bool) (s : text) : list Z :=
  filter (fun j => p (nth (Z.to_nat j) s nul)) (zrange (Z.of_nat (length s))).
(* char_map after char_map[l[j]] = j for all j, -1 before *)
Definition last_pos (l : text) (c : ascii) : Z :=
  fold_left (fun r p => if Ascii.eqb (snd p) c then fst p else r) (combine (zrange (Z.of_nat (length l))) l) (-1).

Section Einsum.
Variable T : Type.
Variable tensordot : T -> T -> list Z -> list Z -> option T.
Variable transpose : list Z -> T -> T.

(* 130-173: gscripts[0], garrs[0] and char_count, with the next operand *)
Definition step (st : text * T * (ascii -> Z)) (op : text * T) : option (text * T * (ascii -> Z)) :=
  let '(s0, a, cnt) := st in
  let '(s1, b) := op in
  let m c := occ c s0 + occ c s1 in
  let ctr c := (1 <? m c) && (m c =? cnt c) in
  let br c := (1 <? m c) && negb (m c =? cnt c) in
  let free c := negb (1 <? m c) in
  if existsb br s0 || existsb br s1 then None                                        (* 164-165 *)
  else
    let idxa := positions ctr s0 in
    let ctrs := pick nul idxa s0 in
    let idxb := sort_by Z.ltb (fun x => last_pos ctrs (nth (Z.to_nat x) s1 nul)) (positions ctr s1) in   (* 160-166 *)
    do t <- tensordot a b idxa idxb;
    Some (filter free s0 ++ filter free s1, t, fun c => cnt c - 2 * occ c ctrs).

(* 174-186; char_map has the characters of the operands and those of 48, 50 *)
Definition finish (known : ascii -> bool) (res s0 : text) (a : T) : option T :=
  if negb (Nat.eqb (length s0) (length res)) then None
  else if list_eq_dec ascii_dec s0 res then Some a
  else do perm <- mapM (fun c => if known c then Some (last_pos s0 c) else None) res;
       Some (transpose perm a).

Definition einsum (script : text) (arrs : list T) : option T :=
  let '(ops, res, explicit) := split_script [] script in
  if negb explicit then None
  else if negb (Nat.eqb (length ops) (length arrs)) then None
  else
    do gs <- mapM clean ops;
    let cnt := char_count gs res in
    if negb (forallb (check_operand cnt) gs) then None
    else
      let known c := blank c || illegal c || existsb (existsb (Ascii.eqb c)) ops in
      match combine gs arrs with
      | [] => None
      | (s0, a) :: rest => do st <- foldM step (s0, a, cnt) rest; finish known res (fst (fst st)) (snd (fst st))
      end.
End Einsum.
