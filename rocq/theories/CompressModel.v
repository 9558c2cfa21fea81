(** Model of the compression of matrix product states: pyblock3/algebra/mps.py MPS.compress (328-368) with
    pyblock3/algebra/core.py left_svd / right_svd of SparseTensor (1091-1147) and FermionTensor (2009-2076), truncate_svd
    (TruncModel), diag (SubTensor 207-222, SparseTensor 1326-1348) and the contraction with a gauge (CanonModel).
    np.linalg.svd is a parameter; None = LinAlgError.  Singular values are elements of an ordered ring K, tensor elements
    those of a ring R; emb = the way from one to the other (np.diag of a real array times a complex one).
    b.norm > norm_cutoff in deflate is the parameter big.  The option eigen_values of truncate_svd is not given.
    Not modelled: blocks without elements, dq (passed on unchanged), rounding. None = exception. *)
From Coq Require Import ZArith Bool List.
From Verif Require Import SymModel SymProofs DictLib IndexLib OptLib RingLib OrdLib BondModel FuseModel BlockModel StructModel MpsModel TruncModel CanonModel.
Import ListNotations.
Open Scope Z_scope.

Section Compress.
Variable R : CRing.
Variable L : Label.
Variable K : ORing.
Variable sqrtK : K -> K.
Variable emb : K -> R.
Variable qr : nd R -> nd R * nd R.
Variable svd : nd R -> option (nd R * list K * nd R).
Variable big : list L * nd R -> bool.
Notation tensor := (list (list L * nd R)).
Notation tblock := (bool * (list L * nd R))%type.
Notation site := (site R L).
Notation mps := (mps R L).

(* keyword arguments of truncate_svd: max_bond_dim, cutoff, max_dw *)
Record copts := Copts { o_max : Z; o_cutoff : K; o_dw : K }.

Definition cols_of (a : nd R) : Z := nth 1 (nshape a) 0.
(* np.split(vh, list(accumulate(shapes[:-1])), axis=1) *)
Fixpoint split_cols (k : Z) (ns : list Z) (a : nd R) : list (nd R) :=
  match ns with
  | [] => []
  | [_] => [nd_slice 1 k (cols_of a - k) a]
  | n :: ns' => nd_slice 1 k n a :: split_cols (k + n) ns' a
  end.
(* core.py 1107-1119, 2025-2040 for one label: blocks of l, values, matrix of r *)
Definition left_group (g : L * list tblock) : option (list tblock * list K * nd R) :=
  let mats := map (fun b => rows_left R (snd (snd b))) (snd g) in
  do (u, s, vh) <- svd (nd_concat 0 mats);
  Some (map (fun pb => (fst (snd pb), (fst (snd (snd pb)), nd_reshape (removelast (nshape (snd (snd (snd pb)))) ++ [Z.of_nat (length s)]) (fst pb))))
            (combine (split_rows R 0 (map (rows_of R) mats) u) (snd g)), s, vh).
(* 1136-1146, 2060-2074: blocks of r, values, matrix of l *)
Definition right_group (g : L * list tblock) : option (list tblock * list K * nd R) :=
  let mats := map (fun b => rows_right R (snd (snd b))) (snd g) in
  do (u, s, vh) <- svd (nd_concat 1 mats);
  Some (map (fun pb => (fst (snd pb), (fst (snd (snd pb)), nd_reshape (rows_of R vh :: tl (nshape (snd (snd (snd pb))))) (fst pb))))
            (combine (split_cols 0 (map cols_of mats) vh) (snd g)), s, u).
(* 1091-1118, 2009-2041: l, labels of s, blocks of s, r *)
Definition left_svd (t : site) : option (site * list L * list (list K) * tensor) :=
  do gs <- mapM (fun g => do x <- left_group g; Some (fst g, x)) (collect R L (fun qs => last qs (q0 L)) (tagged R L t));
  Some (untag R L t (flat_map (fun g => fst (fst (snd g))) gs), map fst gs, map (fun g => snd (fst (snd g))) gs,
        map (fun g => ([fst g; fst g], snd (snd g))) gs).
(* 1120-1147, 2043-2076: l, labels of s, blocks of s, r *)
Definition right_svd (t : site) : option (tensor * list L * list (list K) * site) :=
  do gs <- mapM (fun g => do x <- right_group g; Some (fst g, x)) (collect R L (fun qs => hd (q0 L) qs) (tagged R L t));
  Some (map (fun g => ([fst g; fst g], snd (snd g))) gs, map fst gs, map (fun g => snd (fst (snd g))) gs,
        untag R L t (flat_map (fun g => fst (fst (snd g))) gs)).

(* truncate_svd of the class of the site; 1224-1302, 2078-2185 *)
Definition trunc_left (o : copts) (l : site) (slabs : list L) (s : list (list K)) (r : tensor) : site * list (L * list K) * tensor * K :=
  match l with
  | SP t => let '(t', s', r', err) := truncate_tensors K sqrtK R L (qeqb L) big false (o_max o) (o_cutoff o) (o_dw o) t slabs s r in
            (SP t', s', r', err)
  | FT od ev =>
      let '(gs, err) := truncate_svd_fermion K (o_max o) (o_cutoff o) (o_dw o) s in
      let cut := pick_blocks_fermion R L (qeqb L) (last_opt L) (last_at R L) slabs gs in
      (FT (filter big (cut od)) (filter big (cut ev)), pick_values K L slabs s gs,
       filter big (pick_blocks_fermion R L (qeqb L) (first_opt L) (first_at R L) slabs gs r), err)
  end.
Definition trunc_right (o : copts) (l : tensor) (slabs : list L) (s : list (list K)) (r : site) : tensor * list (L * list K) * site * K :=
  match r with
  | SP t => let '(l', s', t', err) := truncate_tensors K sqrtK R L (qeqb L) big false (o_max o) (o_cutoff o) (o_dw o) l slabs s t in
            (l', s', SP t', err)
  | FT od ev =>
      let '(gs, err) := truncate_svd_fermion K (o_max o) (o_cutoff o) (o_dw o) s in
      let cut := pick_blocks_fermion R L (qeqb L) (first_opt L) (first_at R L) slabs gs in
      (filter big (pick_blocks_fermion R L (qeqb L) (last_opt L) (last_at R L) slabs gs l), pick_values K L slabs s gs,
       FT (filter big (cut od)) (filter big (cut ev)), err)
  end.
(* s.diag(): 207-222, 1326-1348 *)
Definition diag (s : list (L * list K)) : tensor :=
  map (fun b => ([fst b; fst b], @mkNd R [Z.of_nat (length (snd b)); Z.of_nat (length (snd b))]
    (fun xs => if nth 0 xs 0 =? nth 1 xs 0 then emb (at_ K (snd b) (nth 0 xs 0)) else r0 R))) s.

(* max(a, b) *)
Definition kmax2 (a b : K) : K := if oltb a b then b else a.
(* mps.py 346-353 *)
Definition svd_right_step (o : copts) (st : list site * K) (i : nat) : option (list site * K) :=
  do t <- nth_error (fst st) i;
  do (l, slabs, s, r) <- right_svd t;
  let '(l', s', r', err) := trunc_right o l slabs s r in
  do ls <- sp_tensordot_n R L l' (diag s') 1;
  do u <- nth_error (fst st) (i - 1); do u' <- gauge_right R L u ls;
  Some (upd (i - 1) u' (upd i r' (fst st)), kmax2 (snd st) err).
(* 359-366 *)
Definition svd_left_step (o : copts) (st : list site * K) (i : nat) : option (list site * K) :=
  do t <- nth_error (fst st) i;
  do (l, slabs, s, r) <- left_svd t;
  let '(l', s', r', err) := trunc_left o l slabs s r in
  do sr <- sp_tensordot_n R L (diag s') r' 1;
  do u <- nth_error (fst st) (S i); do u' <- gauge_left R L sr u;
  Some (upd (S i) u' (upd i l' (fst st)), kmax2 (snd st) err).
(* 328-368 *)
Definition compress (left : bool) (o : copts) (a : mps) : option (mps * K) :=
  let n := length (m_tensors a) in
  do (ts, e) <- (if left then
      do ts <- foldM (left_step R L qr) (m_tensors a) (seq 0 (n - 1));
      foldM (svd_right_step o) (ts, r0 K) (down n 0)
    else
      do ts <- foldM (right_step R L qr) (m_tensors a) (down n 0);
      foldM (svd_left_step o) (ts, r0 K) (seq 0 (n - 1)));
  Some (Mps ts (m_const a) (m_opts a), e).
End Compress.
