(** Model of elementwise operations of LargeFermionTensor (pyblock3/algebra/fermion_large.py): _add with a number (528-536), products
    with numbers and functions of one argument in __array_ufunc__ (625-656), conj (416-417), all of which act on the whole dense array,
    and of norm (pyblock3/algebra/flat.py 395-396, inherited: the norm of self.data).  Tensors as in LargeModel.
    Not modelled: out=, _subtract with a number (its constructor call passes no shape), cupy. *)
From Coq Require Import ZArith Bool List.
From Verif Require Import RingLib OptLib LargeModel.
Import ListNotations.

Section LargeOps.
Variable K : CRing.
(* getattr(ufunc, method)(a.data), new_like(f(a.data)) *)
Definition elementwise (f : K -> K) (t : large K) : large K := mkL K (l_shape K t) (l_blocks K t) (fun ix => f (l_data K t ix)).
(* 528-536 *)
Definition add_number (c : K) (t : large K) : large K := elementwise (fun x => radd K x c) t.
(* indices of an array, last index fastest *)
Fixpoint indices (shape : list nat) : list (list nat) :=
  match shape with [] => [[]] | n :: r => flat_map (fun i => map (cons i) (indices r)) (seq 0 n) end.
(* flat.py 395-396: square of np.linalg.norm(self.data) *)
Definition norm2 (t : large K) : K := fold_right (fun ix s => radd K (rmul K (l_data K t ix) (l_data K t ix)) s) (r0 K) (indices (l_shape K t)).
(* the same of a flat tensor, whose data are those of the blocks *)
Definition flat_norm2 (bs : list (block K)) : K :=
  fold_right (fun b s => radd K (fold_right (fun ix s => radd K (rmul K (b_val K b ix) (b_val K b ix)) s) (r0 K) (indices (b_sh K b))) s) (r0 K) bs.
End LargeOps.
