(** Model of pyblock3/algebra/linalg.py: _olsen_precondition (84-92), _precondition (95-102), davidson (105-239) and
    conjugate_gradient (242-273).
    Numbers are elements of an ordered field, so conj() and abs() of real numbers; vectors are lists of numbers of one
    length; the matrix is a function on vectors.  np.sqrt(np.abs(e)) < thrd is written 0 < thrd and |e| < thrd^2.
    np.linalg.norm is the parameter [nrm], np.linalg.eigh the parameter [eigh].  A division by zero (numpy: inf or nan
    with a warning) is the outcome [Undefined].  mpi=False; printing and timing are not modelled.  conjugate_gradient
    updates the argument x in place; the model returns the new value. *)
From Coq Require Import ZArith Bool List QArith Qcanon.
From Verif Require Import IndexLib RingLib OrdLib.
Import ListNotations.

Record OField := { fO :> ORing; finv : fO -> fO; finv_r : forall a : fO, a <> r0 fO -> rmul fO a (finv a) = r1 fO; f10 : r1 fO <> r0 fO }.
Definition Qc_ofield : OField.
Proof. refine (Build_OField Qc_oring Qcinv _ _); [exact Qcmult_inv_r|discriminate]. Defined.

Section Linalg.
Variable K : OField.
Notation "0'" := (r0 K). Notation "1'" := (r1 K).
Infix "+'" := (radd K) (at level 50, left associativity). Infix "*'" := (rmul K) (at level 40, left associativity).
Local Notation vec := (list K).
Definition vadd (u v : vec) : vec := map (fun p => fst p +' snd p) (combine u v).
Definition vscale (c : K) (u : vec) : vec := map (fun x => c *' x) u.
Definition dot (u v : vec) : K := bsum (combine u v) (fun p => fst p *' snd p).
Definition kabs (x : K) : K := if oleb K 0' x then x else ropp K x.
(* np.sqrt(np.abs(e)) < t *)
Definition small (t e : K) : bool := oltb 0' t && oltb (kabs e) (t *' t).
(* a / b *)
Definition kdiv (a b : K) : option K := if oeqb b 0' then None else Some (a *' finv K b).

(* 95-102; eps = 1E-12 *)
Definition precondition (eps : K) (diag : option vec) (r : vec) : vec :=
  match diag with
  | None => r
  | Some d => map (fun p => if oltb eps (kabs (snd p)) then fst p *' finv K (snd p) else fst p) (combine r d)
  end.

Inductive outcome (X : Type) := Done (x : X) | NotConverged | Undefined.
Arguments Done {X}. Arguments NotConverged {X}. Arguments Undefined {X}.

(* 252-273; [left] = max_iter - xiter at the loop test *)
Fixpoint cg_loop (A : vec -> vec) (prec : vec -> vec) (b : vec) (thrd : K) (left xiter : nat) (x r p : vec) (old_error : K)
  : outcome (K * vec * nat) :=
  match left with
  | O => NotConverged
  | S left' =>
    let hp := A p in
    match kdiv old_error (dot p hp) with
    | None => Undefined
    | Some alpha =>
      let x := vadd x (vscale alpha p) in
      let r := vadd r (vscale (ropp K alpha) hp) in
      let z := prec r in
      let error := dot z r in
      let func := dot x b in
      if small thrd error then
        if Nat.eqb left' 0 then NotConverged else Done (func, x, S (S xiter))
      else
        match kdiv error old_error with
        | None => Undefined
        | Some beta => cg_loop A prec b thrd left' (S xiter) x r (vadd (vscale beta p) z) error
        end
    end
  end.
(* 242-251 *)
Definition conjugate_gradient (eps : K) (A : vec -> vec) (diag : option vec) (x b : vec) (max_iter : nat) (thrd : K) : outcome (K * vec * nat) :=
  let prec := precondition eps diag in
  let r := vadd (vscale (ropp K 1') (A x)) b in
  let p := prec r in
  let error := dot p r in
  if small thrd error then Done (dot x b, x, 1%nat)
  else cg_loop A prec b thrd max_iter 0 x r p error.

(* 84-92 *)
Definition mask_div (l : K) (diag : vec) (eps : K) (t : vec) : vec :=
  map (fun p => if oltb eps (kabs (rsub K l (snd p))) then fst p *' finv K (rsub K l (snd p)) else fst p) (combine t diag).
Definition olsen (eps : K) (q c : vec) (l : K) (diag : vec) : option vec :=
  let t := mask_div l diag eps c in
  match kdiv (ropp K (dot t q)) (dot c t) with
  | None => None
  | Some f => Some (mask_div l diag eps (vadd q (vscale f c)))
  end.

Variable nrm : vec -> K.                                     (* np.linalg.norm *)
Variable eigh : list (list K) -> list K * list (list K).     (* np.linalg.eigh: eigenvalues, rows of alpha *)
(* q /= np.linalg.norm(q) *)
Definition normalize (q : vec) : option vec := if oeqb (nrm q) 0' then None else Some (vscale (finv K (nrm q)) q).
(* for j in range(m): q += (-np.dot(b[j], q)) * b[j] *)
Definition project_out (bs : list vec) (q : vec) : vec := fold_left (fun q bj => vadd q (vscale (ropp K (dot bj q)) bj)) bs q.
(* 146-149 *)
Fixpoint orthonormalise (done todo : list vec) : option (list vec) :=
  match todo with
  | [] => Some done
  | v :: rest => match normalize (project_out done v) with None => None | Some w => orthonormalise (done ++ [w]) rest end
  end.
Definition setn {X} (l : list X) (i : nat) (v : X) : list X := firstn i l ++ v :: skipn (S i) l.
(* 167-171: the lower triangle is computed and copied to the upper one *)
Definition atilde (b sigma : list vec) (m : nat) : list (list K) :=
  map (fun i => map (fun j => if Nat.leb j i then dot (nth i b []) (nth j sigma []) else dot (nth j b []) (nth i sigma [])) (seq 0 m)) (seq 0 m).
(* 174-188: column j of the new list is alpha[j,j] * old[j] and then += alpha[i,j] * old[i] for the other i in order *)
Definition rotate (alpha : list (list K)) (m : nat) (b : list vec) : list vec :=
  map (fun j =>
    fold_left (fun v i => if Nat.eqb i j then v else vadd v (vscale (nth j (nth i alpha []) 0') (nth i b [])))
      (seq 0 m) (vscale (nth j (nth j alpha []) 0') (nth j b []))) (seq 0 m) ++ skipn m b.
(* sigma[i] - ld[i] * b[i] *)
Definition resid (ld : list K) (b sigma : list vec) (i : nat) : vec :=
  vadd (nth i sigma []) (vscale (ropp K (nth i ld 0')) (nth i b [])).
(* 189-194: the first index below ck whose residual is not small, ck if there is none *)
Fixpoint first_bad (thrd : K) (ld : list K) (b sigma : list vec) (is : list nat) (ck : nat) : nat :=
  match is with
  | [] => ck
  | i :: is' => let q := resid ld b sigma i in if small thrd (dot q q) then first_bad thrd ld b sigma is' ck else i
  end.

(* what is returned: eigenvalues, vectors, iterations, and whether the loop was left by convergence *)
Record dav := Dav { d_vals : list K; d_vecs : list vec; d_iter : nat; d_converged : bool }.
(* 157-234; [left] = max_iter - xiter at the loop test *)
Fixpoint dav_loop (eps : K) (A : vec -> vec) (aa : option vec) (k : nat) (thrd : K) (dmin dmax : nat) (left xiter : nat)
    (b sigma : list vec) (ld : list K) (ck msig m : nat) : outcome dav :=
  match left with
  | O => Done (Dav (firstn ck ld) (firstn ck b) xiter false)
  | S left' =>
    (* 162-164 *)
    let sigma := fold_left (fun s i => setn s i (A (nth i b []))) (seq msig (m - msig)) sigma in
    let msig := (msig + (m - msig))%nat in
    let '(ld, alpha) := eigh (atilde b sigma m) in
    let b := rotate alpha m b in
    let sigma := rotate alpha m sigma in
    let ck := first_bad thrd ld b sigma (seq 0 ck) ck in
    let q := resid ld b sigma ck in
    let qq := dot q q in
    if small thrd qq then
      let ck := S ck in
      if Nat.eqb ck k then Done (Dav (firstn ck ld) (firstn ck b) (S xiter) true)
      else dav_loop eps A aa k thrd dmin dmax left' (S xiter) b sigma ld (if Nat.eqb left' 0 then k else ck) msig m
    else
      (* the quotients of _olsen_precondition are only looked at here *)
      match (match aa with None => Some q | Some d => olsen eps q (nth ck b []) (nth ck ld 0') d end) with
      | None => Undefined
      | Some q =>
        let '(m, msig) := if Nat.leb dmax m then (dmin, dmin) else (m, msig) in
        if Nat.ltb (length b) m then Undefined else   (* IndexError *)
        match normalize (project_out (firstn m b) q) with
        | None => Undefined
        | Some q =>
          let sigma := if Nat.leb (length b) m then sigma ++ [[]] else sigma in
          let b := if Nat.leb (length b) m then b ++ [q] else setn b m q in
          dav_loop eps A aa k thrd dmin dmax left' (S xiter) b sigma ld (if Nat.eqb left' 0 then k else ck) msig (S m)
        end
      end
  end.
(* 105-160 and 236-239; None for the failed assertion, for b[0] of an empty list and for the undefined ld of max_iter = 0 *)
Definition davidson (eps : K) (A : vec -> vec) (aa : option vec) (b : list vec) (k max_iter : nat) (thrd : K) (dmin dmax : nat) : option (outcome dav) :=
  if Nat.eqb (length b) k && negb (Nat.eqb k 0) && negb (Nat.eqb max_iter 0) then
    Some (let dmin := if Nat.ltb dmin k then k else dmin in
    match orthonormalise [] b with
    | None => Undefined
    | Some b => dav_loop eps A aa k thrd dmin dmax max_iter 0 b (map (fun _ => []) b) [] 0 0 k
    end)
  else None.
End Linalg.
Arguments Done {X}. Arguments NotConverged {X}. Arguments Undefined {X}.
