(** Model of SymbolicSparseTensor.from_sparse (pyblock3/symbolic/symbolic.py 497-579) and of MPS.to_symbolic and MPS.to_sparse
    (pyblock3/algebra/mps.py 685-713 and 657-664): a table of operators made from a block-sparse tensor, and back (TosModel).
    Sites are SparseTensors or FermionTensors; flat and symbolic sites are not modelled.  [small] is
    np.linalg.norm(reduced) <= 1E-20.  A name is its running number: the OpElements have the indices (n % 1000, n // 1000) or
    (n % 1000, n // 1000 % 1000, n // 1000000), which determine n, and OpElement.__eq__ (expr.py 154-159) compares name,
    indices and factor (the third index is not reduced).  None = exception. *)
From Coq Require Import ZArith Bool List.
From Verif Require Import SymModel SymProofs DictLib IndexLib OptLib RingLib BondModel FuseModel MpsModel TosModel.
Import ListNotations.
Open Scope Z_scope.

Section Fsp.
Variable R : CRing.
Variable L : Label.
Notation tensor := (list (list L * nd R)).
Notation binfo := (dict L Z).
Variable small : nd R -> bool.

(* SymbolicSparseTensor (235-246): mat, ops, the labels of lop and rop (None for an entry 0); names are numbers *)
Record table := mkTab { y_mat : smat R nat; y_ops : dict nat (pten R L); y_lop : list (option L); y_rop : list (option L) }.

(* 507-515: xlr[it], where the states of a label start; the keys of a dict are distinct *)
Fixpoint starts (cnt : nat) (info : binfo) : dict L nat :=
  match info with [] => [] | (k, v) :: info' => (k, cnt) :: starts (cnt + Z.to_nat v) info' end.
(* the labels of ops[it] *)
Definition labels (info : binfo) : list L := flat_map (fun kv => repeat (fst kv) (Z.to_nat (snd kv))) info.

Definition key_eqb (a b : nat * nat) : bool := Nat.eqb (fst a) (fst b) && Nat.eqb (snd a) (snd b).
(* np.asarray(block)[il, ..., ir] *)
Definition slice (b : nd R) (il ir : Z) : nd R := mkNd (removelast (tl (nshape b))) (fun xs => nval b (il :: xs ++ [ir])).
(* 528-534 *)
Definition put (mb : dict (nat * nat) tensor) (k : nat * nat) (x : list L * nd R) : dict (nat * nat) tensor :=
  if small (snd x) then mb else dset key_eqb mb k (match dget key_eqb mb k with Some v => v | None => [] end ++ [x]).
(* 523-534: one block *)
Definition split_block (sl sr : dict L nat) (mb : dict (nat * nat) tensor) (b : list L * nd R) : option (dict (nat * nat) tensor) :=
  match fst b with
  | [] => None
  | ql :: _ =>
      do iil <- dget (qeqb L) sl ql; do iir <- dget (qeqb L) sr (last (fst b) (q0 L));
      Some (fold_left (fun mb p => put mb ((iil + Z.to_nat (fst p))%nat, (iir + Z.to_nat (snd p))%nat) (removelast (tl (fst b)), slice (snd b) (fst p) (snd p)))
                      (list_prod (zrange (hd 0 (nshape (snd b)))) (zrange (last (nshape (snd b)) 0))) mb)
  end.
Definition split_blocks (li ri : binfo) (t : tensor) : option (dict (nat * nat) tensor) := foldM (split_block (starts 0 li) (starts 0 ri)) [] t.

(* 566-577: one entry of the matrix *)
Definition half_charge (qs : list L) : L :=
  let h := Nat.div (length qs) 2 in
  qsub L (fold_left (qadd L) (firstn h qs) (q0 L)) (fold_left (qadd L) (skipn h qs) (q0 L)).
Definition matrix_entry (v : tensor) : option (pten R L) :=
  match v with
  | (q :: qs, _) :: _ => Some (if qpar L (half_charge (q :: qs)) then PTen R L v [] else PTen R L [] v)
  | _ => None
  end.
(* 540-548 and 553-561: the blocks of one part are added to the operator with the name n *)
Definition add_part (odd : bool) (mops : dict nat (pten R L)) (n : nat) (v : tensor) : dict nat (pten R L) :=
  let '(o, e) := match dget Nat.eqb mops n with Some (PTen _ _ o e) => (o, e) | _ => ([], []) end in
  dset Nat.eqb mops n (if odd then PTen R L (o ++ v) e else PTen R L o (e ++ v)).
Definition add_entry (axis : nat * nat -> nat * nat) (odd : bool) (mops : dict nat (pten R L)) (kv : (nat * nat) * tensor) : option (dict nat (pten R L)) :=
  if Nat.eqb (fst (axis (fst kv))) 0 then Some (add_part odd mops (snd (axis (fst kv))) (snd kv)) else None.
Definition vector_ops (axis : nat * nat -> nat * nat) (mo me : dict (nat * nat) tensor) : option (dict nat (pten R L)) :=
  do m <- foldM (add_entry axis true) [] mo; foldM (add_entry axis false) m me.
(* 549-551 and 562-564; mat and rop (lop) have the same list *)
Definition kept (mops : dict nat (pten R L)) (n : nat) : bool := match dget Nat.eqb mops n with Some _ => true | None => false end.
Definition vector_cells (mops : dict nat (pten R L)) (n : nat) : list (option (R * nat)) := map (fun k => if kept mops k then Some (r1 R, k) else None) (seq 0 n).
Definition vector_labels (mops : dict nat (pten R L)) (ls : list L) : list (option L) := map (fun p => if kept mops (fst p) then Some (snd p) else None) (combine (seq 0 (length ls)) ls).

(* 497-579 with given infos *)
Definition from_sparse (s : site R L) (pos : Z) (li ri : binfo) (dq : option L) : option table :=
  match s with
  | SP _ => None
  | FT odd even =>
      do d <- match dq, li with Some q, _ => Some q | None, [] => None | None, _ => Some (q0 L) end;
      let ls := map (qsub L d) (labels li) in let rs := labels ri in
      do mo <- split_blocks li ri odd; do me <- split_blocks li ri even;
      if pos =? 0 then
        do mops <- vector_ops (fun k => k) mo me;
        Some (mkTab (RowV R nat (vector_cells mops (length rs))) mops (map Some ls) (vector_labels mops rs))
      else if pos =? -1 then
        do mops <- vector_ops (fun k => (snd k, fst k)) mo me;
        Some (mkTab (ColV R nat (vector_cells mops (length ls))) mops (vector_labels mops ls) (map Some rs))
      else if pos =? 1 then
        let es := mo ++ me in
        do vs <- mapM (fun p => do x <- matrix_entry (snd (snd p)); Some (fst p, x)) (combine (seq 0 (length es)) es);
        Some (mkTab (Mat R nat (map (fun p => (fst (snd p), Some (r1 R, fst p))) (combine (seq 0 (length es)) es))) vs (map Some ls) (map Some rs))
      else None
  end.

(** *** MPS.to_symbolic, mps.py 685-713 *)
Definition from_site (s : site R L) (pos : Z) (bs : binfo * binfo) (dq : option L) : option table := from_sparse s pos (fst bs) (snd bs) dq.
(* 692-697; the infos of a tensor without blocks are empty: IndexError (end_infos) *)
Fixpoint inner_unions (es : list (binfo * binfo)) : list binfo :=
  match es with
  | [] => []
  | (_, r) :: es' => match es' with [] => [r] | (l, _) :: _ => bor L l r :: inner_unions es' end
  end.
Definition bond_infos (es : list (binfo * binfo)) : list binfo := match es with [] => [] | (l, _) :: _ => l :: inner_unions es end.
Definition site_pos (n it : nat) : Z := if Nat.eqb it (n - 1) then -1 else if Nat.eqb it 0 then 0 else 1.
Definition to_symbolic (dq : option L) (ts : list (site R L)) : option (list table) :=
  do es <- mapM (end_infos R L) ts;
  let bs := bond_infos es in
  mapM (fun p => from_site (snd p) (site_pos (length ts) (fst p)) (nth (fst p) bs [], nth (S (fst p)) bs []) (if Nat.eqb (fst p) 0 then None else dq))
       (combine (seq 0 (length ts)) ts).
(* mps.py 657-664 *)
Definition tab_to_sparse (dq : option L) (y : table) : option (site R L) := to_sparse R L nat Nat.eqb (y_mat y) (y_ops y) (y_lop y) (y_rop y) dq.
Definition symbolic_to_sparse (dq : option L) (ys : list table) : option (list (site R L)) :=
  mapM (fun p => tab_to_sparse (if Nat.eqb (fst p) 0 then None else dq) (snd p)) (combine (seq 0 (length ys)) ys).
End Fsp.
