(** Model of the site operators of pyblock3/hamiltonian.py (get_site_ops 260-403), of the integer codes for
    elementary operators (generate_qc_terms 141-177, build_mpo 217-228), and of the horizontal product of operator
    tensors of neighbouring sites (algebra/core.py FermionTensor._tensordot 1696-1711, 1750-1760).
    Every block of a site operator is 1 x 1, so a SparseTensor is a list of (row label, column label, value).
    Values are exact elements of a commutative ring with an element half for 0.5; cutoffs are modelled by a predicate
    small for abs(x) < cutoff. *)
From Coq Require Import ZArith Bool List.
From Verif Require Import SymModel DictLib IndexLib RingLib OptLib.
Import ListNotations.
Open Scope Z_scope.

(* ------------------------------------------------------------------ codes *)
Definition SPIN : Z := 1.
Definition SITE : Z := 2.
Definition OPC : Z := 16384.
(* hamiltonian.py:145,152-153: OP_C + i * SITE + s * SPIN, OP_D = 1 * OP *)
Definition code_of (ann : bool) (i s : Z) : Z := (if ann then 1 * OPC else 0 * OPC) + i * SITE + s * SPIN.
(* 227-228: [c_op, d_op][i // OP][(i % OP) // SITE, (i % SITE) // SPIN]; IndexError = None *)
Definition op_of (n i : Z) : option (bool * Z * Z) :=
  let k := i / OPC in
  let m := (i mod OPC) / SITE in
  let s := (i mod SITE) / SPIN in
  if (negb ((- 2 <=? k) && (k <? 2))) || negb ((- n <=? m) && (m <? n)) then None
  else Some ((k =? 1) || (k =? - 1), if m <? 0 then m + n else m, s).
(* the generator of terms, 144-173; V is the type of integrals, big x = abs(x) > cutoff, hlf x = 0.5 * x *)
Section Terms.
Variable V : Type.
Variable big : V -> bool.
Variable hlf : V -> V.
Definition spins : list Z := [0; 1].
Definition qc_terms (n : Z) (h : Z -> Z -> V) (g : Z -> Z -> Z -> Z -> V) : list (V * list Z) :=
  flat_map (fun i => flat_map (fun j =>
    if big (h i j) then
      map (fun s => (h i j, [code_of false i s; code_of true j s; -1; -1])) spins
    else []) (zrange n)) (zrange n) ++
  flat_map (fun i => flat_map (fun j => flat_map (fun k => flat_map (fun l =>
    if big (g i j k l) then
      flat_map (fun sij => map (fun skl =>
        (hlf (g i j k l), [code_of false i sij; code_of false k skl; code_of true l skl; code_of true j sij])) spins) spins
    else []) (zrange n)) (zrange n)) (zrange n)) (zrange n).
(* 224-228: the operator strings built from the codes *)
Definition decode_term (n : Z) (t : V * list Z) : option (V * list (bool * Z * Z)) :=
  do ops <- mapM (op_of n) (filter (fun i => negb (i =? -1)) (snd t)); Some (fst t, ops).
Definition decode_terms (n : Z) (ts : list (V * list Z)) : option (list (V * list (bool * Z * Z))) :=
  mapM (decode_term n) ts.
End Terms.

(* --------------------------------------------------------- site operators *)
Section Site.
Variable R : CRing.
Variable half : R.
Variable small : R -> bool.

Definition spt := list ((SZ * SZ) * R).
(* FermionTensor: odd and even part *)
Record fop := mkF { f_odd : spt; f_even : spt }.

(* hamiltonian.py:64-68, the basis of a site whose orbital has symmetry ipg, in sorted order (core.py:487) *)
Definition site_basis (ipg : Z) : list SZ := [mkSZ 0 0 0; mkSZ 1 (-1) ipg; mkSZ 1 1 ipg; mkSZ 2 0 0].
(* core.py:482-508 for two legs, pattern "+-": keep (q0, q1) iff q0 = dq - (- q1) *)
Definition sp_zero (ipg : Z) (dq : SZ) : spt :=
  map (fun q => (q, r0 R))
    (filter (fun q : SZ * SZ => sz_eqb (fst q) (sz_sub dq (sz_neg (snd q))))
       (list_prod (site_basis ipg) (site_basis ipg))).
(* core.py:1531-1538 *)
Definition op_zeros (ipg : Z) (dq : SZ) : fop :=
  if sz_is_fermion dq then mkF (sp_zero ipg dq) [] else mkF [] (sp_zero ipg dq).
(* core.py:587-597: t[label][0, 0] = v, the first block with that last label; None: TypeError *)
Fixpoint set_at (t : spt) (q : SZ) (v : R) : option spt :=
  match t with
  | [] => None
  | (lab, x) :: t' => if sz_eqb (snd lab) q then Some ((lab, v) :: t')
                      else do t'' <- set_at t' q v; Some ((lab, x) :: t'')
  end.
Definition set_odd (q : SZ) (v : R) (o : fop) : option fop := do t <- set_at (f_odd o) q v; Some (mkF t (f_even o)).
Definition set_even (q : SZ) (v : R) (o : fop) : option fop := do t <- set_at (f_even o) q v; Some (mkF (f_odd o) t).

(* core.py:858-888 for matrices: blocks of b with matching first label, accumulated by outer labels *)
Definition lab_eqb (a b : SZ * SZ) : bool := sz_eqb (fst a) (fst b) && sz_eqb (snd a) (snd b).
Definition sp_mm (a b : spt) : spt :=
  fold_left (fun m (x : (SZ * SZ) * R) =>
    fold_left (fun m (y : (SZ * SZ) * R) =>
      if sz_eqb (snd (fst x)) (fst (fst y)) then
        let q := (fst (fst x), snd (fst y)) in
        let v := rmul R (snd x) (snd y) in
        match dget lab_eqb m q with Some w => dset lab_eqb m q (radd R w v) | None => dset lab_eqb m q v end
      else m) b m) a [].
(* core.py:941-957 *)
Definition sp_plus (a b : spt) : spt :=
  fold_left (fun m (y : (SZ * SZ) * R) =>
    match dget lab_eqb m (fst y) with
    | Some w => dset lab_eqb m (fst y) (radd R w (snd y))
    | None => dset lab_eqb m (fst y) (snd y)
    end) b (dict_of lab_eqb a).
(* core.py:1481-1510: matmul (matrices, no sign: 1707-1711 with d = 0), add, multiply by a number *)
Definition op_mm (a b : fop) : fop :=
  mkF (sp_plus (sp_mm (f_odd a) (f_even b)) (sp_mm (f_even a) (f_odd b)))
      (sp_plus (sp_mm (f_odd a) (f_odd b)) (sp_mm (f_even a) (f_even b))).
Definition op_plus (a b : fop) : fop := mkF (sp_plus (f_odd a) (f_odd b)) (sp_plus (f_even a) (f_even b)).
Definition sp_scale (x : R) (a : spt) : spt := map (fun p => (fst p, rmul R x (snd p))) a.
Definition op_scale (x : R) (a : fop) : fop := mkF (sp_scale x (f_odd a)) (sp_scale x (f_even a)).

Definition szs (s : Z) : Z := if s =? 0 then 1 else -1.
Section Ipg.
Variable ipg : Z.
(* 271-278 *)
Definition i_operator : option fop :=
  do o <- set_even (mkSZ 0 0 0) (r1 R) (op_zeros ipg (mkSZ 0 0 0));
  do o <- set_even (mkSZ 1 (-1) ipg) (r1 R) o;
  do o <- set_even (mkSZ 1 1 ipg) (r1 R) o;
  set_even (mkSZ 2 0 0) (r1 R) o.
(* 280-288; t0 t1 = t(0,m,m) t(1,m,m), v01 v10 = v(0,1,m,m,m,m) v(1,0,m,m,m,m) *)
Definition h_operator (t0 t1 v01 v10 : R) : option fop :=
  do o <- set_even (mkSZ 0 0 0) (r0 R) (op_zeros ipg (mkSZ 0 0 0));
  do o <- set_even (mkSZ 1 (-1) ipg) t1 o;
  do o <- set_even (mkSZ 1 1 ipg) t0 o;
  set_even (mkSZ 2 0 0) (radd R (radd R t0 t1) (rmul R half (radd R v01 v10))) o.
(* 290-296 *)
Definition c_operator (s : Z) : option fop :=
  do o <- set_odd (mkSZ 0 0 0) (r1 R) (op_zeros ipg (mkSZ 1 (szs s) ipg));
  set_odd (mkSZ 1 (- szs s) ipg) (if s =? 0 then r1 R else ropp R (r1 R)) o.
(* 298-304 *)
Definition d_operator (s : Z) : option fop :=
  do o <- set_odd (mkSZ 1 (szs s) ipg) (r1 R) (op_zeros ipg (mkSZ (-1) (- szs s) ipg));
  set_odd (mkSZ 2 0 0) (if s =? 0 then r1 R else ropp R (r1 R)) o.
(* 306-316 *)
Definition a_operator (sl sr : Z) : option fop :=
  do a <- c_operator sl; do b <- c_operator sr; Some (op_mm a b).
Definition ad_operator (sl sr : Z) : option fop :=
  do a <- d_operator sr; do b <- d_operator sl; Some (op_mm a b).
Definition b_operator (sl sr : Z) : option fop :=
  do a <- c_operator sl; do b <- d_operator sr; Some (op_mm a b).
End Ipg.

(* operator names, expr.py *)
Inductive opname :=
| OI | OH | OC (s : Z) | OD (s : Z) | OA (sl sr : Z) | OAD (sl sr : Z) | OB (sl sr : Z)
| OR (i s : Z) | ORD (i s : Z) | OP (i k si sk : Z) | OPD (i k si sk : Z) | OQ (i j si sj : Z).
(* the number 0 or a tensor *)
Inductive opval := Zero | Op (o : fop).

(* 318-381, get_op at site m; orb = orb_sym, t and v the integrals *)
Definition get_op (orb : Z -> Z) (t : Z -> Z -> Z -> R) (v : Z -> Z -> Z -> Z -> Z -> Z -> R) (m : Z) (o : opname)
  : option opval :=
  let g := orb m in
  match o with
  | OI => do x <- i_operator g; Some (Op x)
  | OH => do x <- h_operator g (t 0 m m) (t 1 m m) (v 0 1 m m m m) (v 1 0 m m m m); Some (Op x)
  | OC s => do x <- c_operator g s; Some (Op x)
  | OD s => do x <- d_operator g s; Some (Op x)
  | OA sl sr => do x <- a_operator g sl sr; Some (Op x)
  | OAD sl sr => do x <- ad_operator g sl sr; Some (Op x)
  | OB sl sr => do x <- b_operator g sl sr; Some (Op x)
  | OR i s =>
    if negb (orb i =? g) || (small (t s i m) && small (v s 0 i m m m) && small (v s 1 i m m m)) then Some Zero
    else do d <- d_operator g s; do b0 <- b_operator g 0 0; do b1 <- b_operator g 1 1;
         Some (Op (op_plus (op_scale (rmul R half (t s i m)) d)
                 (op_mm (op_plus (op_scale (v s 0 i m m m) b0) (op_scale (v s 1 i m m m) b1)) d)))
  | ORD i s =>
    if negb (orb i =? g) || (small (t s i m) && small (v s 0 i m m m) && small (v s 1 i m m m)) then Some Zero
    else do c <- c_operator g s; do b0 <- b_operator g 0 0; do b1 <- b_operator g 1 1;
         Some (Op (op_plus (op_scale (rmul R half (t s i m)) c)
                 (op_mm c (op_plus (op_scale (v s 0 i m m m) b0) (op_scale (v s 1 i m m m) b1)))))
  | OP i k si sk =>
    if small (v si sk i m k m) then Some Zero
    else do a <- ad_operator g si sk; Some (Op (op_scale (v si sk i m k m) a))
  | OPD i k si sk =>
    if small (v si sk i m k m) then Some Zero
    else do a <- a_operator g si sk; Some (Op (op_scale (v si sk i m k m) a))
  | OQ i j si sj =>
    if si =? sj then
      if small (v si sj i m m j) && small (v si 0 i j m m) && small (v si 1 i j m m) then Some Zero
      else do b <- b_operator g sj si; do b0 <- b_operator g 0 0; do b1 <- b_operator g 1 1;
           Some (Op (op_plus (op_scale (ropp R (v si sj i m m j)) b)
                   (op_plus (op_scale (v si 0 i j m m) b0) (op_scale (v si 1 i j m m) b1))))
    else
      if small (v si sj i m m j) then Some Zero
      else do b <- b_operator g sj si; Some (Op (op_scale (ropp R (v si sj i m m j)) b))
  end.

(* ------------------------------------------------------- chains of tensors *)
(* basis states of a site: 0 empty, 1 up, 2 down, 3 both; label of state k *)
Definition state_lab (ipg k : Z) : SZ :=
  if k =? 0 then mkSZ 0 0 0 else if k =? 1 then mkSZ 1 1 ipg else if k =? 2 then mkSZ 1 (-1) ipg else mkSZ 2 0 0.
(* value of the block with given labels *)
Definition at_lab (t : spt) (q : SZ * SZ) : R := match dget lab_eqb t q with Some x => x | None => r0 R end.
(* elements between states *)
Definition el (ipg : Z) (t : spt) (x' x : Z) : R := at_lab t (state_lab ipg x', state_lab ipg x).
Definition state_par (k : Z) : bool := sz_is_fermion (state_lab 0 k).

(* an operator tensor of several sites: elements between lists of states; the last site comes first in the list *)
Definition amp := list Z -> list Z -> R.
Record gop := mkG { g_odd : amp; g_even : amp }.
Definition odd_par (s : list Z) : bool := fold_right xorb false (map state_par s).
Definition flip (s : list Z) (v : R) : R := if odd_par s then ropp R v else v.
Definition kr (a : amp) (ipg : Z) (b : spt) : amp :=
  fun s' s => match s', s with x' :: s', x :: s => rmul R (a s' s) (el ipg b x' x) | _, _ => r0 R end.
Definition kr_flip (a : amp) (ipg : Z) (b : spt) : amp :=
  fun s' s => match s with [] => r0 R | _ :: sl => flip sl (kr a ipg b s' s) end.
(* core.py:1698-1706, 1750-1760: odd_b = a.even x b.odd and even_a = a.odd x b.odd are negated
   where the column labels of a have odd total parity *)
Definition gkron (a : gop) (ipg : Z) (b : fop) : gop :=
  mkG (fun s' s => radd R (kr (g_odd a) ipg (f_even b) s' s) (kr_flip (g_even a) ipg (f_odd b) s' s))
      (fun s' s => radd R (kr_flip (g_odd a) ipg (f_odd b) s' s) (kr (g_even a) ipg (f_even b) s' s)).
(* the tensor of no site: a single 1 *)
Definition gunit : gop :=
  mkG (fun _ _ => r0 R) (fun s' s => match s', s with [], [] => r1 R | _, _ => r0 R end).
(* contraction of a chain of operators from left to right *)
Definition chain (l : list (Z * fop)) : gop := fold_left (fun a p => gkron a (fst p) (snd p)) l gunit.
(* FermionTensor as a matrix: odd + even *)
Definition total (a : gop) : amp := fun s' s => radd R (g_odd a s' s) (g_even a s' s).
End Site.
