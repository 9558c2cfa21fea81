(** Model of LargeFermionTensor conversion (pyblock3/algebra/fermion_large.py): from_flat (472-498), to_flat (456-470), to_sparse
    (442-454, the same reading) and _local_flip (419-435).  A flat tensor is the list of its blocks: labels, shape and contents by
    multi-index (data[idxs[i]:idxs[i + 1]].reshape(shapes[i]) and np.ravel are row-major and inverse to each other).  A large
    tensor has one dense array (its index function) and the address of each block.  Labels are integers; sizes do not wrap.
    None = an exception. *)
From Coq Require Import ZArith Bool List.
From Verif Require Import RingLib OptLib.
Import ListNotations.

Section Large.
Variable K : CRing.
Record block := mkB { b_q : list Z; b_sh : list nat; b_val : list nat -> K }.
Definition info := list (Z * nat).
Record large := mkL { l_shape : list nat; l_blocks : list (list Z * list nat * nat); l_data : list nat -> K }.

(* sorted(list(infos[i].keys())), with the values *)
Fixpoint ins (p : Z * nat) (l : info) : info :=
  match l with [] => [p] | x :: l' => if (fst p <=? fst x)%Z then p :: l else x :: ins p l' end.
Definition sorted (l : info) : info := fold_right ins [] l.
(* 484-488: x += infos[i][xx]; infos[i][xx] = x - infos[i][xx] *)
Fixpoint running (x : nat) (l : info) : info :=
  match l with [] => [] | (q, d) :: l' => let x' := (x + d)%nat in (q, (x' - d)%nat) :: running x' l' end.
Definition offsets (l : info) : info := running 0 (sorted l).
Fixpoint lookup (q : Z) (l : info) : option nat :=
  match l with [] => None | (k, d) :: l' => if Z.eqb q k then Some d else lookup q l' end.
(* 477-478: strides[-1] = 1, strides[k] = product of shape[k + 1:] *)
Definition prod (l : list nat) : nat := fold_right Nat.mul 1%nat l.
Fixpoint strides (shape : list nat) : list nat := match shape with [] => [] | _ :: r => prod r :: strides r end.
(* 490-491 *)
Definition position (offs : list info) (q : list Z) : option (list nat) := mapM (fun p => lookup (snd p) (fst p)) (combine offs q).
Definition address (shape pidx : list nat) : nat := fold_right (fun p a => (fst p * snd p + a)%nat) 0%nat (combine pidx (strides shape)).
(* slice(xi, xi + xe) for each leg *)
Definition in_slice (pidx sh ix : list nat) : bool :=
  Nat.eqb (length ix) (length pidx) && forallb (fun p => let '(x, (i, e)) := p in (i <=? x)%nat && (x <? i + e)%nat) (combine ix (combine pidx sh)).
Definition minus (ix pidx : list nat) : list nat := map (fun p => (fst p - snd p)%nat) (combine ix pidx).
Definition plus (pidx ix : list nat) : list nat := map (fun p => (fst p + snd p)%nat) (combine pidx ix).
Definition fits (shape pidx sh : list nat) : bool := forallb (fun p => let '(s, (i, e)) := p in (i + e <=? s)%nat) (combine shape (combine pidx sh)).
(* 489-495 *)
Definition put_block (shape : list nat) (offs : list info) (st : list (list Z * list nat * nat) * (list nat -> K)) (b : block) :
  option (list (list Z * list nat * nat) * (list nat -> K)) :=
  do pidx <- position offs (b_q b);
  if fits shape pidx (b_sh b) then
    Some (fst st ++ [(b_q b, b_sh b, address shape pidx)],
          fun ix => if in_slice pidx (b_sh b) ix then b_val b (minus ix pidx) else snd st ix)
  else None.
(* 472-498, infos given; the entries of infos are overwritten by the offsets (483 copies the list only), second component *)
Definition from_flat (shape : list nat) (infos : list info) (bs : list block) : option (large * list info) :=
  let offs := map offsets infos in
  do st <- foldM (put_block shape offs) ([], fun _ => r0 K) bs;
  Some (mkL shape (fst st) (snd st), offs).
(* 465, 448, 433: idxs[i] // st % sh *)
Definition unaddress (shape : list nat) (a : nat) : list nat := map (fun p => ((a / fst p) mod (snd p))%nat) (combine (strides shape) shape).
(* 456-470 *)
Definition to_flat (t : large) : list block :=
  map (fun b => let '(q, sh, a) := b in mkB q sh (fun ix => l_data t (plus (unaddress (l_shape t) a) ix))) (l_blocks t).
(* 419-435; odd: parity of the labels on the axes *)
Definition local_flip (odd : list Z -> bool) (t : large) : large :=
  mkL (l_shape t) (l_blocks t)
    (fold_left (fun data b => let '(q, sh, a) := b in
       if odd q then (fun ix => if in_slice (unaddress (l_shape t) a) sh ix then ropp K (data ix) else data ix) else data) (l_blocks t) (l_data t)).
End Large.
