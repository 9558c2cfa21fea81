(** Model of RHFTensorNetwork.fit_rdm1 (pyblock3/gaussian/core.py 462-547).
    torch.linalg.eigh, the argsort of the entropies, the sign of the determinant and np.round are parameters.
    tensors[its].data = my_logm(ub): the rotation matrix_exp(data) of the fitted tensor is taken to be ub itself (my_logm is exact
    when the rotation angles are different; not modelled). *)
From Coq Require Import ZArith Bool List.
From Verif Require Import DictLib IndexLib RingLib OptLib GaussModel.
Import ListNotations.
Open Scope Z_scope.

Section Fit.
Variable R : CRing.
Notation mat := (nat -> nat -> R).
Notation gt := (gt R).
Variable eigh : nat -> mat -> list R * mat.
Variable order : list R -> list nat.
Variable neg : nat -> mat -> bool.
Variable rnd : R -> R.
Definition transp (a : mat) : mat := fun i j => a j i.
Definition id_mat : mat := fun i j => if Nat.eqb i j then r1 R else r0 R.
(* 483-495: eigenvalues and eigenvectors in the order p, first column with the other sign if det < 0 *)
Definition local_eig (n : nat) (blk : mat) : list R * mat :=
  let '(xb, ub) := eigh n blk in
  let p := order xb in
  let xb := map (fun i => nth i xb (r0 R)) p in
  let ub : mat := fun i j => ub i (nth j p 0%nat) in
  (xb, if neg n ub then fun i j => if Nat.eqb j 0 then ropp R (ub i j) else ub i j else ub).
Fixpoint set_nth {A : Type} (i : nat) (x : A) (l : list A) : list A :=
  match l, i with [], _ => [] | _ :: l', O => x :: l' | y :: l', S i' => y :: set_nth i' x l' end.
(* 478-505 (fit_ent), 507-545 (not fit_ent): one tensor *)
Definition fit_step (fit_ent : bool) (st : dict Z nat * mat * list gt) (e : nat * gt) : option (dict Z nat * mat * list gt) :=
  let '(m, dm, ts) := st in
  let t := snd e in
  if fit_ent || (0 <? g_core t)%nat then
    do eff <- mapM (dget Z.eqb m) (g_d t);
    let '(xb, ub) := local_eig (length eff) (fun i j => dm (nth i eff 0%nat) (nth j eff 0%nat)) in
    let t' := GT R (g_u t) (g_d t) (g_core t) ub (map rnd (firstn (g_core t) xb)) in
    let dm := rot_rows R eff (transp ub) dm in
    let dm := rot_cols R eff (transp ub) dm in
    Some (retag (g_d t) (g_u t) m, dm, set_nth (fst e) t' ts)
  else
    let t' := GT R (g_u t) (g_d t) (g_core t) id_mat [] in
    Some (retag (g_d t) (g_u t) m, dm, set_nth (fst e) t' ts).
(* dm_idxs = None *)
Definition fit_rdm1 (fit_ent : bool) (ts : list gt) (dm : mat) : option (list gt) :=
  do ls <- get_layers R ts;
  do (m, dm', ts') <- foldM (fit_step fit_ent) (positions (initial_indices R ts), dm, ts) (concat ls);
  Some ts'.
End Fit.
