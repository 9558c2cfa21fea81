(** Model of the canonical form of matrix product states: pyblock3/algebra/mps.py MPS.canonicalize (306-326) with
    pyblock3/algebra/core.py left_canonicalize / right_canonicalize of SparseTensor (1033-1091) and FermionTensor
    (1943-2007) and the contraction of a site with a gauge (SparseTensor._tensordot, FermionTensor._tensordot 1713-1737).
    np.linalg.qr is a parameter.  reshape, concatenate and split are modelled by their index formulas.
    Not modelled: blocks without elements, dq (passed on unchanged), concatenation of blocks with different bond
    dimensions (numpy raises; excluded by the theorems). None = exception. *)
From Coq Require Import ZArith Bool List.
From Verif Require Import SymModel SymProofs DictLib IndexLib OptLib RingLib BondModel FuseModel BlockModel StructModel MpsModel.
Import ListNotations.
Open Scope Z_scope.

Section Canon.
Variable R : CRing.
Variable L : Label.
Notation tensor := (list (list L * nd R)).
Notation tblock := (bool * (list L * nd R))%type.
Notation site := (site R L).
Notation mps := (mps R L).
Variable qr : nd R -> nd R * nd R.

(* core.py 1954-1959 and 1042-1046: the blocks in the order they are visited, with ip (true = odd) *)
Definition tagged (s : site) : list tblock :=
  match s with SP t => map (pair false) t | FT o e => map (pair true) o ++ map (pair false) e end.
(* 1973-1976: the new tensor of the same class *)
Definition untag (s : site) (bs : list tblock) : site :=
  match s with
  | SP _ => SP (map snd bs)
  | FT _ _ => FT (map snd (filter fst bs)) (map snd (filter (fun b => negb (fst b)) bs))
  end.
(* collected_rows / collected_cols; lab = the label of the last / first leg *)
Definition collect (lab : list L -> L) (bs : list tblock) : dict L (list tblock) :=
  fold_left (fun m b => dset (qeqb L) m (lab (fst (snd b))) (odflt [] (dget (qeqb L) m (lab (fst (snd b)))) ++ [b])) bs [].
(* a.T *)
Definition nd_T (a : nd R) : nd R := nd_transpose [1; 0] a.
(* reshape((sh, -1)) with sh = np.prod(b.shape[:-1]); reshape((-1, sh)) with sh = np.prod(b.shape[1:]) *)
Definition rows_left (a : nd R) : nd R := let sh := prodZ (removelast (nshape a)) in nd_reshape [sh; prodZ (nshape a) / sh] a.
Definition rows_right (a : nd R) : nd R := let sh := prodZ (tl (nshape a)) in nd_reshape [prodZ (nshape a) / sh; sh] a.
Definition rows_of (a : nd R) : Z := nth 0 (nshape a) 0.
(* np.split(q, list(accumulate(shapes[:-1])), axis=0): the last piece takes what is left *)
Fixpoint split_rows (k : Z) (ns : list Z) (a : nd R) : list (nd R) :=
  match ns with
  | [] => []
  | [_] => [nd_slice 0 k (rows_of a - k) a]
  | n :: ns' => nd_slice 0 k n a :: split_rows (k + n) ns' a
  end.
(* 1961-1976 for one label: mats = the blocks as matrices, back = the way from a piece of q to a block *)
Definition factor_group (mat : nd R -> nd R) (back : nd R -> nd R -> Z -> nd R) (g : L * list tblock) : list tblock * nd R :=
  let mats := map (fun b => mat (snd (snd b))) (snd g) in
  let '(q, r) := qr (nd_concat 0 mats) in
  (map (fun pb => (fst (snd pb), (fst (snd (snd pb)), back (fst pb) (snd (snd (snd pb))) (rows_of r))))
       (combine (split_rows 0 (map rows_of mats) q) (snd g)), r).
(* 1033-1063 and 1943-1975: q, r *)
Definition left_canonicalize (s : site) : site * tensor :=
  let gs := map (fun g => (fst g, factor_group rows_left (fun q b k => nd_reshape (removelast (nshape b) ++ [k]) q) g))
                (collect (fun qs => last qs (q0 L)) (tagged s)) in
  (untag s (flat_map (fun g => fst (snd g)) gs), map (fun g => ([fst g; fst g], snd (snd g))) gs).
(* 1065-1091 and 1977-2007: l, q *)
Definition right_canonicalize (s : site) : tensor * site :=
  let gs := map (fun g => (fst g, factor_group (fun b => nd_T (rows_right b)) (fun q b k => nd_reshape (k :: tl (nshape b)) (nd_T q)) g))
                (collect (fun qs => hd (q0 L) qs) (tagged s)) in
  (map (fun g => ([fst g; fst g], nd_T (snd (snd g)))) gs, untag s (flat_map (fun g => fst (snd g)) gs)).

(* np.tensordot(r, t, axes=1): 835-885; 1729-1737, a gauge has two legs; without blocks it has none *)
Definition gauge_left (g : tensor) (s : site) : option site :=
  match s with
  | SP t => do t' <- sp_tensordot_n R L g t 1; Some (SP t')
  | FT o e =>
      do e' <- sp_tensordot_n R L g e 1; do o' <- sp_tensordot_n R L g o 1;
      if ndim R L g - 1 =? 1 then Some (FT o' e') else Some (SP (sp_add R L o' e'))
  end.
(* np.tensordot(t, l, axes=1): 1713-1727 *)
Definition gauge_right (s : site) (g : tensor) : option site :=
  match s with
  | SP t => do t' <- sp_tensordot_n R L t g 1; Some (SP t')
  | FT o e =>
      do e' <- sp_tensordot_n R L e g 1; do o' <- sp_tensordot_n R L o g 1;
      if ndim R L g - 1 =? 1 then Some (FT o' e') else Some (SP (sp_add R L o' e'))
  end.
(* mps.py 318-321 *)
Definition left_step (ts : list site) (i : nat) : option (list site) :=
  do t <- nth_error ts i; let '(q, r) := left_canonicalize t in
  do u <- nth_error ts (S i); do u' <- gauge_left r u;
  Some (upd (S i) u' (upd i q ts)).
(* 322-325 *)
Definition right_step (ts : list site) (i : nat) : option (list site) :=
  do t <- nth_error ts i; let '(l, q) := right_canonicalize t in
  do u <- nth_error ts (i - 1); do u' <- gauge_right u l;
  Some (upd (i - 1) u' (upd i q ts)).
(* range(n - 1, c, -1) *)
Definition down (n c : nat) : list nat := rev (seq (S c) (n - 1 - c)).
(* 306-326; None = AssertionError *)
Definition canonicalize (center : Z) (a : mps) : option mps :=
  let n := length (m_tensors a) in
  let c := if center <? 0 then Z.of_nat n + center else center in
  if (0 <=? c) && (c <? Z.of_nat n) then
    do ts <- foldM left_step (m_tensors a) (seq 0 (Z.to_nat c));
    do ts <- foldM right_step ts (down n (Z.to_nat c));
    Some (Mps ts (m_const a) (m_opts a))
  else None.
End Canon.
