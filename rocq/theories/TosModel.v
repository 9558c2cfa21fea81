(** Model of pyblock3/symbolic/symbolic.py: SymbolicBondFusingInfo.from_op_names (205-221) and
    SymbolicSparseTensor.to_sparse (581-646, idx_perm None): the block-sparse tensor of a table of operators.
    K: names of operators (OpElement without factor).  The operators are FermionTensors of physical legs (PTen) or the number
    0 (PNum).  None = exception; also for a block that is added to a block of another shape (numpy would broadcast) and for a
    label that is the number 0.  Not modelled: dtypes, flat storage. *)
From Coq Require Import ZArith Bool List.
From Verif Require Import SymModel SymProofs DictLib IndexLib OptLib RingLib FuseModel MpsModel.
Import ListNotations.
Open Scope Z_scope.

Section Tos.
Variable R : CRing.
Variable L : Label.
Notation tensor := (list (list L * nd R)).

(** *** from_op_names; the label of an entry 0 is the number 0 (None) *)
Definition oq_eqb (a b : option L) : bool := match a, b with Some x, Some y => qeqb L x y | None, None => true | _, _ => false end.
(* 213-216 *)
Definition positions (qs : list (option L)) : dict (option L) (list nat) :=
  fold_left (fun mp p => dset oq_eqb mp (snd p) (match dget oq_eqb mp (snd p) with Some v => v | None => [] end ++ [fst p]))
            (combine (seq 0 (length qs)) qs) [].
(* 217 *)
Definition n_states (qs : list (option L)) : dict (option L) Z :=
  fold_left (fun ns q => dset oq_eqb ns q (match dget oq_eqb ns q with Some n => n | None => 0 end + 1)) qs [].
Fixpoint set_nth {A : Type} (k : nat) (x : A) (l : list A) : list A :=
  match l, k with [], _ => [] | _ :: l', O => x :: l' | y :: l', S k' => y :: set_nth k' x l' end.
(* 218-220 *)
Definition q_labels (qs : list (option L)) : list (option L * Z) :=
  fold_left (fun l qv => fold_left (fun l p => set_nth (snd p) (fst qv, Z.of_nat (fst p)) l) (combine (seq 0 (length (snd qv))) (snd qv)) l)
            (positions qs) (map (fun q => (q, 0)) qs).

(** *** to_sparse *)
Inductive pten := PNum | PTen (odd even : tensor).
(* map_blocks[ioe][qx][il, ..., ir] += factor * block *)
Definition add_slice (x : nd R) (il ir : Z) (f : R) (b : nd R) : option (nd R) :=
  if list_eq_dec Z.eq_dec (removelast (tl (nshape x))) (nshape b) then
    Some (mkNd (nshape x) (fun xs => if (hd 0 xs =? il) && (last xs 0 =? ir)
                                     then radd R (nval x xs) (rmul R f (nval b (removelast (tl xs)))) else nval x xs))
  else None.
(* 588-604: one block *)
Definition add_block (dq : L) (f : R) (l r : L * Z * Z) (mb : tensor) (blk : list L * nd R) : option tensor :=
  let '(ql, il, nl) := l in let '(qr, ir, nr) := r in
  let qx := qsub L dq ql :: fst blk ++ [qr] in
  let x := match dget (tup_eqb L) mb qx with Some x => x | None => nd_zeros R (nl :: nshape (snd blk) ++ [nr]) end in
  do y <- add_slice x il ir f (snd blk); Some (dset (tup_eqb L) mb qx y).
Definition add_blocks (dq : L) (f : R) (l r : L * Z * Z) (mb : tensor * tensor) (odd even : tensor) : option (tensor * tensor) :=
  do o <- foldM (add_block dq f l r) (fst mb) odd; do e <- foldM (add_block dq f l r) (snd mb) even; Some (o, e).

Variable K : Type.
Variable keqb : K -> K -> bool.
Notation cell := (option (R * K)).
(* SymbolicRowVector, SymbolicColumnVector, SymbolicMatrix *)
Inductive smat := RowV (l : list cell) | ColV (l : list cell) | Mat (l : list ((nat * nat) * cell)).
(* info.q_labels[k], info.n_states[q] *)
Definition place (qs : list (option L)) (k : nat) : option (L * Z * Z) :=
  do (q, i) <- nth_error (q_labels qs) k;
  do q' <- q; Some (q', i, match dget oq_eqb (n_states qs) q with Some n => n | None => 0 end).
(* 606-640; [numbers]: may the operator be a number *)
Definition add_cell (ops : dict K pten) (dq : L) (numbers : bool) (lr : unit -> option ((L * Z * Z) * (L * Z * Z))) (mb : tensor * tensor) (c : cell) : option (tensor * tensor) :=
  match c with
  | None => Some mb
  | Some (f, o) =>
      do s <- dget keqb ops o;
      match s with
      | PNum => if numbers then Some mb else None
      | PTen odd even => if Nat.eqb (length odd + length even) 0 then Some mb else do (l, r) <- lr tt; add_blocks dq f l r mb odd even
      end
  end.
Definition unit_place : L * Z * Z := (q0 L, 0, 1).
Definition to_sparse (mat : smat) (ops : dict K pten) (lop rop : list (option L)) (dq : option L) : option (site R L) :=
  let dq := match dq with Some q => q | None => q0 L end in
  do (o, e) <-
    match mat with
    | RowV l => foldM (fun mb kc => add_cell ops dq true (fun _ => do r <- place rop (fst kc); Some (unit_place, r)) mb (snd kc)) ([], []) (combine (seq 0 (length l)) l)
    | ColV l => foldM (fun mb kc => add_cell ops dq true (fun _ => do x <- place lop (fst kc); Some (x, unit_place)) mb (snd kc)) ([], []) (combine (seq 0 (length l)) l)
    | Mat l => foldM (fun mb jc => add_cell ops dq false (fun _ => do x <- place lop (fst (fst jc)); do r <- place rop (snd (fst jc)); Some (x, r)) mb (snd jc)) ([], []) l
    end;
  Some (FT o e).
End Tos.
