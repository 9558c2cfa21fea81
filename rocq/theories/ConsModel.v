(** Model of Constructor.vector_to_tensor and tensor_to_vector for flat fermion tensors (pyblock3/algebra/fermion.py 2183-2231).
    The info of a total label dq (get_info, 2056-2067) is the list of block labels and block sizes (products of shapes; idxs are
    their running sums); a flat tensor is the list of block labels and block data.  T.dq is a function of the labels of T, so the
    info for T is given as a function of these labels.  None = an exception; the assignment of a block of another size raises (numpy
    also accepts blocks of one element).  The key of the cache is the text of the label array as numpy prints it (hash values of
    different texts are taken to be different): arrays of more than 1000 elements are printed with three rows at each end only. *)
From Coq Require Import ZArith Bool List.
From Verif Require Import RingLib OptLib.
Import ListNotations.

Section Cons.
Variable K : CRing.
Definition row := list Z.
Definition rows := list row.
Definition binfo := list (row * nat).
Definition ften := list (row * list K).
Definition ctab := list (nat * (nat * nat)).
Definition ckey := (bool * rows)%type.
Fixpoint row_eqb (a b : row) : bool := match a, b with [], [] => true | x :: a', y :: b' => Z.eqb x y && row_eqb a' b' | _, _ => false end.
Fixpoint rows_eqb (a b : rows) : bool := match a, b with [], [] => true | x :: a', y :: b' => row_eqb x y && rows_eqb a' b' | _, _ => false end.
Definition total (i : binfo) : nat := fold_right (fun p s => (snd p + s)%nat) 0%nat i.

(* 2183-2200, flat: the tensor has the labels of the info; vector[idxs[ik]:idxs[ik + 1]] is block ik *)
Fixpoint cut (i : binfo) (v : list K) : ften := match i with [] => [] | (q, sz) :: i' => (q, firstn sz v) :: cut i' (skipn sz v) end.
Definition vector_to_tensor (i : binfo) (v : list K) : option ften := if Nat.eqb (length v) (total i) then Some (cut i v) else None.

(* hash(str(T.q_labels)) *)
Definition np_key (ls : rows) : ckey :=
  if (1000 <? fold_right (fun r s => length r + s) 0 ls)%nat then (true, firstn 3 ls ++ skipn (length ls - 3) ls) else (false, ls).
Definition key_eqb (a b : ckey) : bool := Bool.eqb (fst a) (fst b) && rows_eqb (snd a) (snd b).
(* np.where((iq == T.q_labels).all(axis=1))[0], the first *)
Fixpoint find_ix (q : row) (ls : rows) : option nat :=
  match ls with [] => None | r :: ls' => if row_eqb q r then Some 0%nat else option_map S (find_ix q ls') end.
(* 2214-2219 *)
Fixpoint table (ls : rows) (start : nat) (i : binfo) : ctab :=
  match i with
  | [] => []
  | (q, sz) :: i' => match find_ix q ls with Some ix => [(ix, (start, (start + sz)%nat))] | None => [] end ++ table ls (start + sz)%nat i'
  end.
Fixpoint cached (k : ckey) (c : list (ckey * ctab)) : option ctab := match c with [] => None | (k', t) :: c' => if key_eqb k k' then Some t else cached k c' end.
(* 2222: vector[ist:ied] = T.data[T.idxs[ix]:T.idxs[ix + 1]] *)
Definition write (t : ften) (v : list K) (e : nat * (nat * nat)) : option (list K) :=
  let '(ix, (ist, ied)) := e in
  do b <- nth_error t ix;
  if Nat.eqb (length (snd b)) (ied - ist) then Some (firstn ist v ++ snd b ++ skipn ied v) else None.
(* 2202-2222, flat; the cache is the second component *)
Definition tensor_to_vector (info_of : rows -> binfo) (t : ften) (c : list (ckey * ctab)) : option (list K * list (ckey * ctab)) :=
  let ls := map fst t in
  let i := info_of ls in
  if rows_eqb (map fst i) ls then Some (concat (map snd t), c) else
  let k := np_key ls in
  let '(tab, c) := match cached k c with Some tab => (tab, c) | None => let tab := table ls 0 i in (tab, (k, tab) :: c) end in
  do v <- foldM (write t) (repeat (r0 K) (total i)) tab;
  Some (v, c).
End Cons.
