(** Model of pyblock3/algebra/mps.py MPS._matmul (487-560) on FermionTensor operators, with what it uses of
    pyblock3/algebra/core.py: FermionTensor._tensordot (1666-1760), FermionTensor._pdot for single operands (1867-1907),
    FermionTensor.fuse (1642-1665).
    Not modelled: the one-site branch of _matmul (498-505), operators stored as SparseTensor and states on the left
    (1880-1881 for mixed operands and 1891-1896), numbers as operands.  None = exception or not modelled.
    The parity of a label (is_fermion) is [qpar]. *)
From Coq Require Import ZArith Bool List Ascii.
From Verif Require Import SymModel SymProofs DictLib IndexLib OptLib RingLib BondModel FuseModel BlockModel StructModel MpsModel.
Import ListNotations.
Open Scope Z_scope.

Section Mpo.
Variable R : CRing.
Variable L : Label.
Notation tensor := (list (list L * nd R)).
Notation binfo := (dict L Z).
Notation finfo := (dict L Z * finfo_t L)%type.
Notation site := (site R L).
Notation mps := (mps R L).

(* core.py 444-446 and 1433-1436: self.odd.ndim | self.even.ndim *)
Definition s_ndim (s : site) : Z := match s with SP t => ndim R L t | FT o e => Z.lor (ndim R L o) (ndim R L e) end.
(* 1750-1760: np.logical_xor.reduce of is_fermion over the legs idx *)
Definition odd_labels (idx : list Z) (qs : list L) : bool :=
  fold_left (fun p i => xorb p (qpar L (nth (Z.to_nat i) qs (q0 L)))) idx false.
(* The sum a + b is formed first; then the blocks of a on which [neg] holds are negated in place.  In the sum a block of a
   is shared (and so negated) only if b has no block of the same labels: np.add makes a new array otherwise (941-957). *)
Definition add_then_negate (neg : list L -> bool) (a b : tensor) : tensor :=
  map (fun blk => if dmem (tup_eqb L) a (fst blk) && negb (dmem (tup_eqb L) b (fst blk)) && neg (fst blk)
                  then (fst blk, nd_neg (snd blk)) else blk) (sp_add R L a b).
(* range(i, i + n) *)
Definition from (i n : Z) : list Z := map (fun k => i + k) (zrange n).
(* 1666-1760, operator x operator and operator x state, vertical contractions: [ia] non-empty and not the horizontal pair
   ([a.ndim - 1], [0]), at least two legs of b left over.  min of an empty list raises *)
Definition ft_tensordot (a b : site) (ia ib : list Z) : option site :=
  let ia := norm_axes (s_ndim a) ia in
  let ib := norm_axes (s_ndim b) ib in
  let idx := from (s_ndim a - Z.of_nat (length ia)) (min_idx ib) in
  match ia with
  | [] => None
  | _ =>
    match a, b with
    | FT ao ae, FT bo be =>
        do odd_a <- sp_tensordot R L ao be ia ib;
        do odd_b <- sp_tensordot R L ae bo ia ib;
        do even_a <- sp_tensordot R L ao bo ia ib;
        do even_b <- sp_tensordot R L ae be ia ib;
        Some (FT (add_then_negate (odd_labels idx) odd_a odd_b) (add_then_negate (odd_labels idx) even_a even_b))
    | FT ao ae, SP t =>
        do even <- sp_tensordot R L ae t ia ib;
        do odd <- sp_tensordot R L ao t ia ib;
        Some (SP (add_then_negate (odd_labels idx) odd even))
    | _, _ => None
    end
  end.
Definition s_transpose (tr : list Z) (s : site) : site :=
  match s with SP t => SP (sp_transpose R L (Some tr) t) | FT o e => FT (sp_transpose R L (Some tr) o) (sp_transpose R L (Some tr) e) end.
(* 1867-1907: operator on the left *)
Definition s_pdot (a b : site) : option site :=
  match a, b with
  | SP _, _ => None
  | _, _ =>
    let na := s_ndim a in let nb := s_ndim b in
    if (na =? nb) && Z.even na then
      let d := na / 2 - 1 in
      do r <- ft_tensordot a b (from (d + 1) d) (from 1 d);
      Some (s_transpose ([0; d + 2] ++ from 1 d ++ from (d + 3) d ++ [d + 1; d + d + 3]) r)
    else if nb <? na then
      let dau := na - nb in let db := nb - 2 in
      do r <- ft_tensordot a b (from (dau + 1) db) (from 1 db);
      Some (s_transpose ([0; dau + 2] ++ from 1 dau ++ [dau + 1; dau + 3]) r)
    else None
  end.
(* fuse with a layout: core.py 717-808 and 1645-1665; the indices are resolved with the number of legs of the whole site *)
Definition s_fuse (idxs : list Z) (info : finfo) (pattern : list ascii) (s : site) : option site :=
  match s with
  | SP t => do r <- sp_fuse R L idxs info pattern t; Some (SP r)
  | FT o e =>
      let idxs := norm_axes (s_ndim s) idxs in
      do ro <- sp_fuse R L idxs info pattern o; do re <- sp_fuse R L idxs info pattern e; Some (FT ro re)
  end.

(** *** MPS._matmul, two or more sites *)
(* 518-523: Some None = "return 0" *)
Fixpoint pdot_all (a b : list site) : option (option (list site)) :=
  match a, b with
  | [], [] => Some (Some [])
  | x :: a', y :: b' =>
      if s_empty R L x || s_empty R L y then Some None else
      do c <- s_pdot x y;
      if s_empty R L c then Some None else
      do r <- pdot_all a' b'; Some (option_map (cons c) r)
  | _, _ => None
  end.
(* infos[0], infos[1], infos[-2], infos[-1]; None = IndexError *)
Definition four_infos (s : site) : option (binfo * binfo * binfo * binfo) :=
  do i <- s_infos R L s;
  match i, rev i with
  | i0 :: i1 :: _, im1 :: im2 :: _ => Some (i0, i1, im2, im1)
  | _, _ => None
  end.
Definition plus2 : list ascii := ["+"; "+"]%char.
(* symmetry.py 128-130: a ^ b *)
Definition bxor (a b : binfo) : finfo := fuse_product L (qltb L) [a; b] None plus2.
(* 526-531 *)
Fixpoint inner_prod (es : list (binfo * binfo * binfo * binfo)) : list finfo :=
  match es with
  | [] => []
  | (_, _, r2, r1) :: es' =>
      match es' with
      | [] => [bxor r2 r1]
      | (l0, l1, _, _) :: _ => bxor (bor L l0 r2) (bor L l1 r1) :: inner_prod es'
      end
  end.
Definition prod_bonds (es : list (binfo * binfo * binfo * binfo)) : list finfo :=
  match es with [] => [] | (l0, l1, _, _) :: _ => bxor l0 l1 :: inner_prod es end.
(* 533-535 *)
Fixpoint fuse_all (bs : list finfo) (ts : list site) : option (list site) :=
  match ts, bs with
  | [], _ => Some []
  | t :: ts', l :: ((r :: _) as bs') =>
      do t1 <- s_fuse [-2; -1] r plus2 t;
      do t2 <- s_fuse [0; 1] l plus2 t1;
      do rest <- fuse_all bs' ts'; Some (t2 :: rest)
  | _, _ => None
  end.
Definition mul_tensors (a b : list site) : option (option (list site)) :=
  do ps <- pdot_all a b;
  match ps with
  | None => Some None
  | Some ts => do es <- mapM four_infos ts; do r <- fuse_all (prod_bonds es) ts; Some (Some r)
  end.
Inductive mul_result := MulNum (x : R) | MulMps (m : mps).
Variable is0 : R -> bool. (* x == 0 *)
(* {**a.opts, **b.opts}, as the compression both stand for *)
Variable merge_opts : (list site -> option (list site)) -> (list site -> option (list site)) -> (list site -> option (list site)).
Definition both_opts (a b : mps) : option (list site -> option (list site)) :=
  match m_opts a, m_opts b with
  | Some f, Some g => Some (merge_opts f g)
  | Some f, None => Some f
  | None, o => o
  end.
(* 539-546: the constant terms *)
Definition add_consts (a b r : mps) : option mps :=
  if is0 (m_const a) then
    if is0 (m_const b) then Some r
    else do x <- mps_scale R L (m_const b) a; mps_add R L r x
  else
    do y <- mps_scale R L (m_const a) b;
    if is0 (m_const b) then mps_add R L r y
    else do x <- mps_scale R L (m_const b) a; do s <- mps_add R L x y; do r' <- mps_add R L r s;
         Some (Mps (m_tensors r') (rsub R (m_const r') (rmul R (m_const a) (m_const b))) (m_opts r')).
Definition same_odd_ndim (x y : site) : bool := (s_ndim x =? s_ndim y) && Z.odd (s_ndim x).
Definition mps_matmul (a b : mps) : option mul_result :=
  let ta := m_tensors a in let tb := m_tensors b in
  if Nat.eqb (length tb) 1 then None else if Nat.eqb (length ta) 1 then None else
  if negb (Nat.eqb (length ta) (length tb)) then None else
  if forallb (fun p => same_odd_ndim (fst p) (snd p)) (combine ta tb) then do x <- mps_dot R L a b; Some (MulNum x) else
  do r <- mul_tensors ta tb;
  match r with
  | None => Some (MulNum (r0 R))
  | Some ts =>
      do r <- add_consts a b (Mps ts (r0 R) None);
      match both_opts a b with
      | None => Some (MulMps r)
      | Some compress => do ts' <- compress (m_tensors r); Some (MulMps (Mps ts' (m_const r) (Some compress)))
      end
  end.
End Mpo.
Arguments MulNum {R L}. Arguments MulMps {R L}.
