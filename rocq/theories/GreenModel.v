(** Model of the local problem of the Green's function solver: GreensFunctionFunctor (algebra/flat_functor.py 230-258) and the fast
    branch of MPE.solve_gf (algebra/mpe.py 402-426).
    H = FlatSparseFunctor.__matmul__ of the effective operator (its constant included), a function on vectors; hdiag =
    FlatSparseFunctor.diag; both are parameters.  Numbers are elements of an ordered field; prepare_vector and finalize_vector
    (copies into and out of the layout of the functor, C36) are the identity; self.eta is not 0 wherever the code divides by it
    (numpy: inf or nan with a warning), else [Undefined].  No MPI. *)
From Coq Require Import ZArith Bool List.
From Verif Require Import IndexLib RingLib OrdLib LinalgModel.
Import ListNotations.

Section Green.
Variable K : OField.
Notation "0'" := (r0 K).
Infix "+'" := (radd K) (at level 50, left associativity). Infix "*'" := (rmul K) (at level 40, left associativity).
Local Notation vec := (list K).
Variable H : vec -> vec.
Variable hdiag : vec.
Variables omega eta : K.

(* if self.omega != 0: y += self.omega * x *)
Definition shift (y x : vec) : vec := if oeqb omega 0' then y else vadd K y (vscale K omega x).
(* 236-240 *)
Definition gf_diag : vec := map (fun d => (d +' omega) *' (d +' omega) +' eta *' eta) hdiag.
(* 242-251 *)
Definition gf_apply (v : vec) : vec :=
  let btmp := shift (H v) v in
  let c := shift (H btmp) btmp in
  if oeqb eta 0' then c else vadd K c (vscale K (eta *' eta) v).
(* 253-258 *)
Definition real_part (x : vec) : vec := vscale K (finv K (ropp K eta)) (shift (H x) x).

(* what is returned: rw, iw of rw + iw * 1j, the states r (bra) and x (ket), ncg *)
Record gf := Gf { g_re : K; g_im : K; g_r : vec; g_x : vec; g_iter : nat }.
(* 402-426; eps = 1E-12 of _precondition; max_iter = 5000 is the default of conjugate_gradient *)
Definition solve_gf (eps : K) (max_iter : nat) (thrd : K) (ket x0 : vec) : outcome gf :=
  let b := vscale K (ropp K eta) ket in
  match conjugate_gradient K eps gf_apply (Some gf_diag) x0 b max_iter thrd with
  | Done (iw, x, ncg) =>
      let r := real_part x in
      match kdiv K (dot K r b) (ropp K eta), kdiv K iw (ropp K eta) with
      | Some rw, Some iw => Done (Gf rw iw r x ncg)
      | _, _ => Undefined
      end
  | NotConverged => NotConverged
  | Undefined => Undefined
  end.
End Green.
