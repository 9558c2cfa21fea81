(* Python text operations used by the FCIDUMP reader and writer, on lists of
   ASCII characters: str(int), '%wd', '%20.16f', int(), float(), str.split(),
   str.split(sep), str.strip(), str.lower(), sep.join(). *)
From Coq Require Import List Ascii String ZArith QArith Qabs Lia Bool Arith.
From Coq Require Import Qround.
Import ListNotations.
Local Open Scope Z_scope.

Definition text := list ascii.
Definition lit (s : string) : text := list_ascii_of_string s.

Definition code (c : ascii) : Z := Z.of_nat (nat_of_ascii c).

(* whitespace of str.split() and str.strip(), ASCII part: \t\n\v\f\r, \x1c..\x1f, space *)
Definition ws (c : ascii) : bool :=
  ((9 <=? code c) && (code c <=? 13)) || ((28 <=? code c) && (code c <=? 32)).

(* str.lower() on ASCII *)
Definition lower1 (c : ascii) : ascii :=
  if (65 <=? code c) && (code c <=? 90) then ascii_of_nat (Z.to_nat (code c + 32)) else c.
Definition lower (s : text) : text := map lower1 s.

(* decimal digits *)
Definition digit (d : Z) : ascii := ascii_of_nat (Z.to_nat (48 + d)).
Definition is_digit (c : ascii) : bool := (48 <=? code c) && (code c <=? 57).

Fixpoint digs_aux (fuel : nat) (z : Z) : text :=
  match fuel with
  | O => [digit z]
  | S f => if z <? 10 then [digit z] else (digs_aux f (z / 10) ++ [digit (z mod 10)])%list
  end.
(* str(z) for z >= 0 *)
Definition str_nat (z : Z) : text := digs_aux (Z.to_nat (Z.log2 z)) z.

(* value of a digit string *)
Definition dval (s : text) : Z := fold_left (fun a c => 10 * a + (code c - 48)) s 0.

Definition minus : ascii := "-"%char.
Definition plus : ascii := "+"%char.
Definition dot : ascii := "."%char.
Definition comma : ascii := ","%char.
Definition equal : ascii := "="%char.
Definition newline : ascii := ascii_of_nat 10.
Definition space : ascii := " "%char.

(* right-justification to width w *)
Definition pad (w : nat) (s : text) : text := (repeat space (w - List.length s) ++ s)%list.

(* str(z), '%d' % z *)
Definition str_int (z : Z) : text :=
  if z <? 0 then minus :: str_nat (- z) else str_nat z.
(* '%wd' % z *)
Definition fmt_d (w : nat) (z : Z) : text := pad w (str_int z).

(* left-padding with zeros to width w *)
Definition zpad (w : nat) (s : text) : text := (repeat "0"%char (w - List.length s) ++ s)%list.

(* rounding to the nearest integer, ties to even *)
Definition round_even (q : Q) : Z :=
  let f := Qfloor q in
  match Qcompare (q - inject_Z f) (1 # 2) with
  | Lt => f
  | Gt => f + 1
  | Eq => if Z.even f then f else f + 1
  end.

Definition tens16 : Z := 10 ^ 16.

(* the number of units of 10^-16 printed by '%20.16f' for |x| *)
Definition units (x : Q) : Z := round_even (Qabs x * inject_Z tens16).

(* '%20.16f' % x *)
Definition fmt_f (x : Q) : text :=
  let r := units x in
  let body := (str_nat (r / tens16) ++ dot :: zpad 16 (str_nat (r mod tens16)))%list in
  pad 20 (if Qlt_le_dec x 0 then minus :: body else body).

(* s.strip() *)
Fixpoint lstrip (s : text) : text :=
  match s with
  | [] => []
  | c :: s' => if ws c then lstrip s' else s
  end.
Definition strip (s : text) : text := rev (lstrip (rev (lstrip s))).

(* the words of s between separator characters, empty words dropped *)
Fixpoint words (p : ascii -> bool) (s : text) : list text :=
  match s with
  | [] => []
  | c :: s' =>
    if p c then words p s'
    else match s' with
         | [] => [[c]]
         | c' :: _ => if p c' then [c] :: words p s'
                      else match words p s' with
                           | w :: ws => (c :: w) :: ws
                           | [] => [[c]]
                           end
         end
  end.

(* s.split() *)
Definition split_ws (s : text) : list text := words ws s.

(* s.split(c) for a one-character separator *)
Fixpoint split_on (c : ascii) (s : text) : list text :=
  match s with
  | [] => [[]]
  | x :: s' => if Ascii.eqb x c then [] :: split_on c s'
               else match split_on c s' with
                    | w :: ws => (x :: w) :: ws
                    | [] => [[x]]
                    end
  end.

Fixpoint prefixb (p s : text) : bool :=
  match p, s with
  | [], _ => true
  | a :: p', b :: s' => Ascii.eqb a b && prefixb p' s'
  | _ :: _, [] => false
  end.

(* s.split(sep) *)
Fixpoint split_str_aux (sep : text) (skip : nat) (cur : text) (s : text) : list text :=
  match s with
  | [] => [rev cur]
  | c :: s' =>
    match skip with
    | S k => split_str_aux sep k cur s'
    | O => if prefixb sep s then rev cur :: split_str_aux sep (List.length sep - 1) [] s'
           else split_str_aux sep 0 (c :: cur) s'
    end
  end.
Definition split_str (sep s : text) : list text := split_str_aux sep 0 [] s.

(* sep in s *)
Fixpoint contains (sep s : text) : bool :=
  prefixb sep s || match s with [] => false | _ :: s' => contains sep s' end.

(* sep.join(l) for a one-character separator *)
Fixpoint join (c : ascii) (l : list text) : text :=
  match l with
  | [] => []
  | [w] => w
  | w :: l' => (w ++ c :: join c l')%list
  end.

Definition all_digits (s : text) : bool := forallb is_digit s.

(* int(s): surrounding whitespace, an optional sign, at least one digit *)
Definition nat_of (s : text) : option Z :=
  match s with [] => None | _ => if all_digits s then Some (dval s) else None end.
Definition py_int (s : text) : option Z :=
  match strip s with
  | [] => None
  | c :: s' => if Ascii.eqb c minus then option_map Z.opp (nat_of s')
               else if Ascii.eqb c plus then nat_of s'
               else nat_of (c :: s')
  end.

(* float(s) for plain decimal notation: digits, an optional point and digits *)
Definition dec_of (s : text) : option Q :=
  match split_on dot s with
  | [a] => option_map inject_Z (nat_of a)
  | [a; b] =>
    if negb (match (a ++ b)%list with [] => true | _ => false end) && all_digits (a ++ b)%list
    then Some (inject_Z (dval (a ++ b)%list) / inject_Z (10 ^ Z.of_nat (List.length b)))%Q
    else None
  | _ => None
  end.
Definition py_float (s : text) : option Q :=
  match strip s with
  | [] => None
  | c :: s' => if Ascii.eqb c minus then option_map Qopp (dec_of s')
               else if Ascii.eqb c plus then dec_of s'
               else dec_of (c :: s')
  end.

Definition text_eqb (a b : text) : bool := if list_eq_dec ascii_dec a b then true else false.
