(** Model of one time step on a window: the fast branch of MPE.rk4 (algebra/mpe.py 374-400) and the lines of TDDMRG.solve which use
    it (algorithms/tddmrg.py 79-102), with FlatSparseFunctor.__matmul__ (algebra/flat_functor.py 191-220) as
    op v + const v, op a parameter.
    A vector is a function of the position; a ket has positions inside the layout of the functor (the blocks of cmat) and
    outside; the layouts of cmat and vmat agree (in the code they come from the ket and bra legs of the operator; the bra is
    the ket).  frac a b is the number a / b (Python literals, division by a literal), conj, sqrt and the quotient of the
    energy are parameters; [pos] lists all positions.  contract, fast, no MPI.  Counting of operations is left out. *)
From Coq Require Import ZArith Bool List.
From Verif Require Import IndexLib RingLib.
Import ListNotations.

Section Rk.
Variable R : CRing.
Notation "0'" := (r0 R).
Infix "+'" := (radd R) (at level 50, left associativity). Infix "*'" := (rmul R) (at level 40, left associativity).
Definition vec := nat -> R.
Variable frac : Z -> Z -> R.
Variable conj : R -> R.
Variable sqrt : R -> R.
Variable quot : R -> R -> R.
Variable inside : nat -> bool.
Variable pos : list nat.
Variable op : vec -> vec.
Variable const : R.

Definition vplus (u v : vec) : vec := fun i => u i +' v i.
Definition vmult (c : R) (u : vec) : vec := fun i => c *' u i.
(* prepare_vector: flat_functor.py 222-223, flat.py 292-302 *)
Definition prepare (v : vec) : vec := fun i => if inside i then v i else 0'.
(* cast_assign_removed: flat.py 304-313 *)
Definition removed (v : vec) : vec := fun i => if inside i then 0' else v i.
(* flat_functor.py 191-213: zeros outside the layout *)
Definition apply (v : vec) : vec := prepare (vplus (op v) (vmult const v)).
(* np.linalg.norm(v) ** 2, np.dot(u.conj(), v) *)
Definition braket (u v : vec) : R := bsum pos (fun i => conj (u i) *' v i).

(* what is returned: w, g and the four kets *)
Record rk := Rk { rk_w : R; rk_g : R; rk_kets : list vec }.
(* mpe.py 374-400 *)
Definition rk4 (dt : R) (eval_ener : bool) (ket : vec) : rk :=
  let b := prepare ket in
  let brem := removed ket in
  let k1 := vmult dt (apply b) in
  let k2 := vmult dt (apply (vplus (vmult (frac 1 2) k1) b)) in
  let k3 := vmult dt (apply (vplus (vmult (frac 1 2) k2) b)) in
  let k4 := vmult dt (apply (vplus k3 b)) in
  let comb a1 a2 a3 a4 := vplus (vplus (vplus (vplus b (vmult a1 k1)) (vmult a2 k2)) (vmult a3 k3)) (vmult a4 k4) in
  let r1 := comb (frac 31 162) (frac 14 162) (frac 14 162) (frac (-5) 162) in
  let r2 := comb (frac 16 81) (frac 20 81) (frac 20 81) (frac (-2) 81) in
  let r3 := comb (frac 1 6) (frac 1 3) (frac 1 3) (frac 1 6) in
  let g2 := braket r3 r3 +' braket brem brem in
  Rk (if eval_ener then quot (braket r3 (apply r3)) g2 else 0') (sqrt g2) (map (vplus brem) [b; r1; r2; r3]).

(* tddmrg.py 81-89: ten steps of dt / 10, the energy with the last one *)
Fixpoint ten_steps (k : nat) (dt : R) (ket : vec) (last : rk) : rk * vec :=
  match k with
  | O => (last, ket)
  | S k' => let x := rk4 (frac 1 10 *' dt) (Nat.eqb k' 0) ket in ten_steps k' dt (nth 3 (rk_kets x) ket) x
  end.
(* tddmrg.py 79-102 before the decomposition: energy, norm, the states to decompose with their weights, and the position of the
   state that is kept afterwards *)
Definition td_window (dt : R) (advance normalize eval_ener : bool) (ket : vec) : R * R * list (R * vec) :=
  if advance then
    let '(x, v) := ten_steps 10 dt ket (Rk 0' 0' []) in
    let v := if normalize then vmult (quot (frac 1 1) (sqrt (braket v v))) v else v in
    (rk_w x, rk_g x, [(frac 1 1, v)])
  else
    let x := rk4 dt eval_ener ket in
    (rk_w x, rk_g x, combine [frac 1 3; frac 1 6; frac 1 6; frac 1 3] (rk_kets x)).
End Rk.
