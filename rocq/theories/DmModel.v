(** Model of SweepAlgorithm.decomp_two_site (algorithms/core.py 101-180) and add_dm_noise (67-90): the splitting of one or several
    two-site states by the singular vectors of their density matrix.
    A two-site state is given by its matrices per sector: rows are the fused first three legs, columns the fused last three,
    sector i has nr i rows and nc i columns (tensor_svd fuses the legs in this way, C26; a state has the sectors listed, which are
    those with blocks).  Amplitudes are complex numbers, pairs over an ordered ring.  np.linalg.svd is a parameter; truncate_svd is
    that of C24 with eigen_values=True.  pert = the normalised perturbation added to the density matrix (73-88 with a real
    state and operator, or 70-72).  No MPI. *)
From Coq Require Import ZArith Bool List.
From Verif Require Import DictLib IndexLib RingLib OrdLib TruncModel.
Import ListNotations.

Section Dm.
Variable K : ORing.
Variable sqrtK : K -> K.
Notation "0'" := (r0 K).
Infix "+'" := (radd K) (at level 50, left associativity). Infix "*'" := (rmul K) (at level 40, left associativity).
Definition matrix := nat -> nat -> K.
(* sector, row, column *)
Definition state := nat -> nat -> nat -> K * K.
Variable svd : nat -> matrix -> matrix * list K * matrix.
Variable pert : state -> nat -> matrix.
Variable one_over : nat -> K.                     (* 1.0 / n *)
Variable n_sectors : nat.
Variables nr nc : nat -> nat.

(* (x.conj() * y).real *)
Definition re_prod (x y : K * K) : K := fst x *' fst y +' snd x *' snd y.
(* 107-108, 129-130: tensordot of wfn.conj() and wfn, real part *)
Definition dm_of (forward : bool) (psi : state) (i : nat) : matrix := fun a b =>
  if forward then bsum (seq 0 (nc i)) (fun c => re_prod (psi i a c) (psi i b c))
  else bsum (seq 0 (nr i)) (fun c => re_prod (psi i c a) (psi i c b)).
(* 67-90 *)
Definition add_dm_noise (dm : nat -> matrix) (psi : state) (noise : K) : nat -> matrix :=
  if oeqb noise 0' then dm else fun i a b => dm i a b +' noise *' pert psi i a b.

Inductive input := Single (psi : state) | Several (psis : list state).
Definition states_of (x : input) : list state := match x with Single psi => [psi] | Several l => l end.
(* 103-104 *)
Definition weights_of (weights : option (list K)) (x : input) : list K :=
  match weights with Some w => w | None => repeat (one_over (length (states_of x))) (length (states_of x)) end.
(* 107-118, 129-140; None: IndexError *)
Definition density (forward : bool) (x : input) (weights : option (list K)) (noise : K) : option (nat -> matrix) :=
  match x with
  | Single psi => Some (add_dm_noise (dm_of forward psi) psi noise)
  | Several l =>
      let w := weights_of weights x in
      match l, w with
      | psi :: l', w0 :: w' =>
          let dm := fun i a b => dm_of forward psi i a b *' w0 in
          let dm := fold_left (fun dm p i a b => dm i a b +' snd p *' dm_of forward (fst p) i a b) (combine l' w') dm in
          Some (fold_left (fun dm p => add_dm_noise dm (fst p) (noise *' snd p)) (combine l w) dm)
      | _, _ => None
      end
  end.
Definition size (forward : bool) (i : nat) : nat := if forward then nr i else nc i.
(* the positions kept in sector i *)
Definition kept_in (gs : list (Z * list Z)) (i : nat) : list nat :=
  flat_map (fun g => if Z.eqb (fst g) (Z.of_nat i) then map Z.to_nat (snd g) else []) gs.
Definition cscale (x : K) (z : K * K) : K * K := (x *' fst z, x *' snd z).
Definition csum (l : list nat) (f : nat -> K * K) : K * K := (bsum l (fun j => fst (f j)), bsum l (fun j => snd (f j))).

(* what is left behind: the isometry (sector, position, number of the bond state), bond states per sector, the other tensor of every
   state, the error *)
Record split := Split { sp_iso : nat -> nat -> nat -> K; sp_dim : nat -> nat; sp_rest : list (nat -> nat -> nat -> K * K); sp_error : K }.
(* 105-149 *)
Definition decomp_two_site (x : input) (forward : bool) (noise : K) (bond_dim : Z) (weights : option (list K)) (cutoff : K) : option split :=
  match density forward x weights noise with
  | None => None
  | Some dm =>
      let lsr i := svd (size forward i) (dm i) in
      let s := map (fun i => snd (fst (lsr i))) (seq 0 n_sectors) in
      let '(gs, error) := truncate_svd K sqrtK true bond_dim cutoff 0' s in
      let iso i a j := let p := nth j (kept_in gs i) O in if forward then fst (fst (lsr i)) a p else snd (lsr i) p a in
      let rest psi i := if forward
        then fun j c => csum (seq 0 (nr i)) (fun a => cscale (iso i a j) (psi i a c))
        else fun c j => csum (seq 0 (nc i)) (fun a => cscale (iso i a j) (psi i c a)) in
      Some (Split iso (fun i => length (kept_in gs i)) (map rest (states_of x)) error)
  end.
End Dm.
