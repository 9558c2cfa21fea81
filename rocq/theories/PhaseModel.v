(** Model of make_phase_dict, pyblock3/algebra/fermion_ops.py 322-336: the exchange phases used by get_sparse_exponential
    and get_flat_exponential.  States, labels and the exchange phase are those of FermOpsModel.
    Not modelled: the eigenvalue decomposition and the exponential. *)
From Coq Require Import ZArith Bool List.
From Verif Require Import DictLib IndexLib RingLib OptLib FermOpsModel.
Import ListNotations.
Open Scope Z_scope.

(* itertools.product(state_map.keys(), repeat=ndim) *)
Fixpoint states_of (n : nat) : list (list Z) :=
  match n with O => [[]] | S n' => flat_map (fun s => map (cons s) (states_of n')) all4 end.
(* 327-329: same letters in the first ndim // 2 states and in the others *)
Definition kept (ndim : nat) (st : list Z) : bool :=
  same_letters (concat (map cre_map (firstn (Nat.div2 ndim) st))) (concat (map ann_map (skipn (Nat.div2 ndim) st))).
(* phase_dict[qlabs][inds] = v; out of range = None *)
Definition put_at (b : block Z_ring) (ix : list Z) (v : Z) : option (block Z_ring) :=
  if in_shape (b_dims _ b) ix then Some (mkB Z_ring (b_dims _ b) (fun j => if list_eqb Z.eqb j ix then v else b_at _ b j)) else None.
(* 331-335 *)
Definition put_phase (order : nat -> bool) (fermion : bool) (y : symm) (d : ften Z_ring) (st : list Z) : option (ften Z_ring) :=
  let q := map (q_of y) st in
  let b := match dget key_eqb d q with Some b => b | None => zeros Z_ring (map (dim_of y) st) end in
  do b' <- put_at b (map (ix_of y) st) (swap_phase order fermion st);
  Some (dset key_eqb d q b').
(* 322-336 *)
Definition make_phase_dict (order : nat -> bool) (fermion : bool) (y : symm) (ndim : nat) : option (ften Z_ring) :=
  foldM (fun d st => if kept ndim st then put_phase order fermion y d st else Some d) [] (states_of ndim).
(* 466-473 (380-388), one block: the elements handed to eigh *)
Definition weighted (phase t : block Z_ring) : block Z_ring := mkB Z_ring (b_dims _ t) (fun j => b_at _ t j * b_at _ phase j).
