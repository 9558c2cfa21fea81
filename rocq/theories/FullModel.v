(** Model of MPS.to_sparse (pyblock3/algebra/mps.py 657-664) on an operator whose sites are SymbolicSparseTensors, and of
    its use after Hamiltonian.build_mpo (hamiltonian.py 245-258): from a sum of strings to block-sparse tensors.
    The site operators of get_site_ops (SiteModel, BuildModel) are FermionTensors whose blocks have the shape (1, 1).
    FlatSparseTensor sites, which to_sparse leaves as they are, do not occur. None = exception. *)
From Coq Require Import ZArith Bool List.
From Verif Require Import SymModel SymProofs DictLib IndexLib OptLib RingLib FuseModel MpsModel SiteModel TosModel BuildModel.
Import ListNotations.
Open Scope Z_scope.

Section Full.
Variable R : CRing.
Notation L := SZ_label.
(* an operator of a site as a FermionTensor (hamiltonian.py 260-401: blocks of shape (1, 1)); Zero is the number 0 *)
Definition blocks_of (t : spt R) : list (list L * nd R) := map (fun kv => ([fst (fst kv); snd (fst kv)] : list L, mkNd [1; 1] (fun _ => snd kv))) t.
Definition pten_of (o : opval R) : pten R L := match o with Zero _ => PNum R L | Op _ x => PTen R L (blocks_of (f_odd R x)) (blocks_of (f_even R x)) end.

Section Tables.
Variable K : Type.
Variable keqb : K -> K -> bool.
(* SymbolicSparseTensor (symbolic.py 235-246): mat, ops, the labels of lop and rop *)
Record stab := mkStab { y_mat : smat R K; y_ops : dict K (opval R); y_lop : list L; y_rop : list L }.
Definition tab_sparse (dq : option L) (y : stab) : option (site R L) :=
  to_sparse R L K keqb (y_mat y) (map (fun kv => (fst kv, pten_of (snd kv))) (y_ops y)) (map Some (y_lop y)) (map Some (y_rop y)) dq.
(* mps.py 657-664; dq = None if it == 0 else self.dq *)
Definition mps_to_sparse (dq : option L) (ys : list stab) : option (list (site R L)) :=
  mapM (fun p : nat * stab => tab_sparse (if Nat.eqb (fst p) 0 then None else dq) (snd p)) (combine (seq 0 (length ys)) ys).
End Tables.

(** *** build_mpo *)
Variable orb : Z -> Z.
Variable iszero tiny big : R -> bool.
Variable svd : nat -> nat -> (nat -> nat -> R) -> option (nat * (nat -> nat -> R) * (nat -> R) * (nat -> nat -> R)).
(* the last tensor is the SymbolicColumnVector that right_svd (symbolic.py 459) or build_mpo (hamiltonian.py 238) made, the others are
   SymbolicMatrices (symbolic.py 458) *)
Definition column_of (t : table R) : smat R msym :=
  ColV R msym (map (fun i => option_map snd (find (fun e => Nat.eqb (fst (fst e)) i) (t_mat R t))) (seq 0 (t_rows R t))).
Definition matrix_of (t : table R) : smat R msym := Mat R msym (map (fun e => (fst e, Some (snd e))) (t_mat R t)).
Definition stab_of (last : bool) (m : Z) (t : table R) : option (stab msym) :=
  do vs <- mapM (fun kv => do x <- expr_op R orb m (snd kv); Some (fst kv, x)) (t_ops R t);
  Some (mkStab msym (if last then column_of t else matrix_of t) vs (t_lop R t) (t_rop R t)).
(* hamiltonian.py 252-257: the operators of every site, then to_sparse (dq = None) *)
Definition build_sparse (n : nat) (terms : list (R * list letter)) : option (list (site R L)) :=
  do ts <- symbolic_mpo R orb iszero tiny big svd n terms;
  do ys <- mapM (fun p => stab_of (fst p =? Z.of_nat n - 1) (fst p) (snd p)) (combine (zrange (Z.of_nat n)) ts);
  mps_to_sparse msym msym_eqb None ys.
End Full.
