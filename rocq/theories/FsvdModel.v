(** Model of pyblock3/algebra/fermion.py: sparse_svd (623-750) and sparse_qr (760-861) of SparseFermionTensor, with
    _maybe_transpose_tensor (382-401), _svd_preprocess (403-441), _trim_and_renorm_SVD (322-356, TruncModel), _absorb_svd
    (358-380) and _gen_null_qr_info (752-758).
    np.linalg.qr and np.linalg.svd are parameters; for svd, None = LinAlgError.  Singular values are elements of an ordered
    ring K, tensor elements those of a ring R; emb = the way from one to the other.  np.sqrt, np.argsort and the factor of
    the renormalisation are parameters; SVD_SCREENING is the parameter scr.  A tensor is its list of blocks with its pattern
    (FermTModel); the stored total shape is not modelled.  Indices in left_idx and right_idx are not negative.
    Not modelled: a tuple as max_bond; the s that is returned when it has been absorbed (a variable of the loop);
    blocks of different shapes for the same label (numpy raises; excluded by the theorems); rounding.
    The text of flat_svd and flat_qr differs in the order of the sectors; they are not modelled.  None = exception. *)
From Coq Require Import ZArith Bool List.
From Verif Require Import SymModel SymProofs DictLib OptLib IndexLib RingLib OrdLib BondModel FuseModel BlockModel StructModel SignModel TruncModel FermTModel MpsModel CanonModel.
Import ListNotations.
Open Scope Z_scope.

Section Fsvd.
Variable R : CRing.
Variable L : Label.
Variable fermion : bool.
Notation block := (list L * nd R)%type.
Notation tensor := (list (list L * nd R)).
Notation ftensor := (ftensor R L).

Fixpoint zlist_eqb (a b : list Z) : bool :=
  match a, b with [], [] => true | x :: a', y :: b' => (x =? y) && zlist_eqb a' b' | _, _ => false end.
(* 382-401 *)
Definition maybe_transpose (t : ftensor) (left right : list Z) : ftensor :=
  if zlist_eqb (left ++ right) (zrange (ndim R L (fst t))) then t else ft_transpose R L fermion (left ++ right) t.
(* 650-652, 779-781 *)
Definition right_of (t : ftensor) (left : list Z) (right : option (list Z)) : list Z :=
  match right with Some r => r | None => filter (fun i => negb (existsb (Z.eqb i) left)) (zrange (ndim R L (fst t))) end.

(* 660-662, 810-811: symmetry._compute(left_pattern, q_labels[:split_ax], offset=("-", dql)) *)
Definition left_label (p : pattern) (k : nat) (dql : L) (qs : list L) : L :=
  lab_compute L (firstn k p ++ [false]) (firstn k qs ++ [dql]).
(* 658-665, 808-814: data_map *)
Definition data_map (p : pattern) (k : nat) (dql : L) (t : tensor) : dict L tensor :=
  fold_left (fun m b => let c := left_label p k dql (fst b) in
    dset (qeqb L) m c (odflt [] (dget (qeqb L) m c) ++ [b])) t [].
(* 675-685, 821-831: row_map / col_map with row_len / col_len *)
Notation rmap := (dict (list L) (Z * Z * list Z)).
Definition lay_put (m : rmap * Z) (e : list L * list Z) : rmap * Z :=
  match dget (tup_eqb L) (fst m) (fst e) with
  | Some _ => m
  | None => let ed := snd m + prodZ (snd e) in (dset (tup_eqb L) (fst m) (fst e) (snd m, ed, snd e), ed)
  end.
(* 676-677, 822-823: lq, rq *)
Definition row_key (k : nat) (c : L) (b : block) : list L := firstn k (fst b) ++ [c].
Definition col_key (k : nat) (c : L) (b : block) : list L := c :: skipn k (fst b).
Definition row_map (k : nat) (c : L) (bs : tensor) : rmap * Z :=
  fold_left lay_put (map (fun b => (row_key k c b, firstn k (nshape (snd b)))) bs) ([], 0).
Definition col_map (k : nat) (c : L) (bs : tensor) : rmap * Z :=
  fold_left lay_put (map (fun b => (col_key k c b, skipn k (nshape (snd b)))) bs) ([], 0).
Definition span (m : rmap) (key : list L) : Z * Z := match dget (tup_eqb L) m key with Some (st, ed, _) => (st, ed) | None => (0, 0) end.
(* 687-692, 833-838; reshape(ied-ist, jst-jed): numpy takes a negative number for the dimension to be found *)
Definition put_block (k : nat) (c : L) (rm cm : rmap) (M : nd R) (b : block) : nd R :=
  let '(ist, ied) := span rm (row_key k c b) in
  let '(jst, jed) := span cm (col_key k c b) in
  nd_set_at [ist; jst] M (nd_reshape [ied - ist; jed - jst] (snd b)).
Record sector := Sector { sc_q : L; sc_rows : rmap; sc_cols : rmap; sc_data : nd R }.
Definition sector_of (k : nat) (c : L) (bs : tensor) : sector :=
  let '(rm, rl) := row_map k c bs in
  let '(cm, cl) := col_map k c bs in
  Sector c rm cm (fold_left (put_block k c rm cm) bs (nd_zeros R [rl; cl])).
(* 671-694, 817-840: the sectors with data *)
Definition sectors (p : pattern) (k : nat) (dql : L) (t : tensor) : list sector :=
  filter (fun s => negb (prodZ (nshape (sc_data s)) =? 0)) (map (fun e => sector_of k (fst e) (snd e)) (data_map p k dql t)).

(* 733-739, 847-853: the rows of u and the columns of v as blocks; x.reshape(tuple(lsh) + (-1,)) *)
Definition u_blocks (s : sector) (u : nd R) : tensor :=
  map (fun e : list L * (Z * Z * list Z) => let '(st, ed, sh) := snd e in
    let x := nd_slice 0 st (ed - st) u in (fst e, nd_reshape (sh ++ [prodZ (nshape x) / prodZ sh]) x)) (sc_rows s).
Definition v_blocks (s : sector) (v : nd R) : tensor :=
  map (fun e : list L * (Z * Z * list Z) => let '(st, ed, sh) := snd e in
    let x := nd_slice 1 st (ed - st) v in (fst e, nd_reshape (prodZ (nshape x) / prodZ sh :: sh) x)) (sc_cols s).
(* 743-746, 855-858 *)
Definition assemble (p : pattern) (k : nat) (fs : list (sector * (nd R * nd R))) : ftensor * ftensor :=
  ((flat_map (fun f => u_blocks (fst f) (fst (snd f))) fs, firstn k p ++ [false]),
   (flat_map (fun f => v_blocks (fst f) (snd (snd f))) fs, true :: skipn k p)).

(** *** sparse_qr *)
Variable qr : nd R -> nd R * nd R.
(* 841-845 *)
Definition qr_mod (lq : bool) (a : nd R) : nd R * nd R :=
  if lq then let '(r, q) := qr (nd_T R a) in (nd_T R q, nd_T R r) else qr a.
(* 752-758, 783-801: all legs on one side *)
Definition null_qr (lq : bool) (t : ftensor) (dq : L) : ftensor * ftensor :=
  let q : ftensor := ([([dq], nd_ones R [1])], [true]) in
  let put (b : block) : block :=
    if lq then (fst b ++ [dq], nd_reshape (nshape (snd b) ++ [1]) (snd b))
    else (dq :: fst b, nd_reshape (1 :: nshape (snd b)) (snd b)) in
  let r : ftensor := (map put (fst t), if lq then snd t ++ [false] else false :: snd t) in
  if lq then (r, q) else (q, r).
(* 760-861; T.dq of a tensor without blocks: IndexError *)
Definition sparse_qr (t : ftensor) (left : list Z) (right : option (list Z)) (lq : bool) : option (ftensor * ftensor) :=
  let rt := right_of t left right in
  let nt := maybe_transpose t left rt in
  let n := ndim R L (fst t) in
  do dq <- ft_dq R L t;
  if (Z.of_nat (length left) =? n) || (Z.of_nat (length rt) =? n) then Some (null_qr lq t dq)
  else
    let k := length left in
    let fs := map (fun s => (s, qr_mod lq (sc_data s))) (sectors (snd nt) k (if lq then q0 L else dq) (fst nt)) in
    let uv := assemble (snd nt) k fs in
    (* q.shape[-1] of a tensor without blocks: IndexError *)
    match fst (fst uv) with [] => None | _ => Some uv end.

(** *** sparse_svd *)
Variable K : ORing.
Variable emb : K -> R.
Variable sqrtK : K -> K.
Variable argsort : list K -> list Z.
Variable renorm_fac : K -> K -> nat -> K.
Variable scr : K.
Variable svd : nd R -> option (nd R * list K * nd R).

(* u[:, pos], v[pos, :] and s[pos] *)
Definition cols_at (pos : list Z) (u : nd R) : nd R :=
  mkNd [nth 0 (nshape u) 0; Z.of_nat (length pos)] (fun xs => nval u [nth 0 xs 0; nth (Z.to_nat (nth 1 xs 0)) pos 0]).
Definition rows_at (pos : list Z) (v : nd R) : nd R :=
  mkNd [Z.of_nat (length pos); nth 1 (nshape v) 0] (fun xs => nval v [nth (Z.to_nat (nth 0 xs 0)) pos 0; nth 1 xs 0]).
Definition vals_at (pos : list Z) (s : list K) : list K := map (fun j => nth (Z.to_nat j) s (r0 K)) pos.
(* 697-702: ind = s > SVD_SCREENING *)
Definition screen (x : nd R * list K * nd R) : list K * (nd R * nd R) :=
  let '(u, s, v) := x in
  let pos := filter (fun j => oltb scr (nth (Z.to_nat j) s (r0 K))) (zrange (Z.of_nat (length s))) in
  (vals_at pos s, (cols_at pos u, rows_at pos v)).
(* 358-380; u * s.reshape((1, -1)), v * s.reshape((-1, 1)) *)
Definition scale_cols (s : list K) (u : nd R) : nd R :=
  mkNd (nshape u) (fun xs => rmul R (nval u xs) (emb (nth (Z.to_nat (nth 1 xs 0)) s (r0 K)))).
Definition scale_rows (s : list K) (v : nd R) : nd R :=
  mkNd (nshape v) (fun xs => rmul R (nval v xs) (emb (nth (Z.to_nat (nth 0 xs 0)) s (r0 K)))).
Definition absorb_svd (absorb : Z) (s : list K) (uv : nd R * nd R) : nd R * nd R :=
  if absorb =? -1 then (scale_cols s (fst uv), snd uv)
  else if absorb =? 1 then (fst uv, scale_rows s (snd uv))
  else (scale_cols (map sqrtK s) (fst uv), scale_rows (map sqrtK s) (snd uv)).
(* np.diag(s) *)
Definition diag (s : list K) : nd R :=
  mkNd [Z.of_nat (length s); Z.of_nat (length s)] (fun xs => if nth 0 xs 0 =? nth 1 xs 0 then emb (nth (Z.to_nat (nth 0 xs 0)) s (r0 K)) else r0 R).
Record sopts := Sopts { so_cutoff : K; so_mode : Z; so_max : option Z; so_renorm : nat }.
(* 403-441: qpn_partition; None = AssertionError *)
Definition partition_of (dq : L) (qpn : option (L * L)) (absorb : option Z) : option (L * L) :=
  match qpn with
  | Some (a, b) => if qeqb L (qadd L a b) dq then Some (a, b) else None
  | None => match absorb with Some a => if a =? -1 then Some (dq, q0 L) else Some (q0 L, dq) | None => Some (q0 L, dq) end
  end.
(* 696-705: the sectors with their screened values and vectors *)
Definition decomposed (secs : list sector) : option (list (sector * (list K * (nd R * nd R)))) :=
  do fs <- mapM (fun s => do x <- svd (sc_data s); Some (s, screen x)) secs;
  Some (filter (fun f => negb (Nat.eqb (length (fst (snd f))) 0)) fs).
(* 707, 322-356: kept values and vectors *)
Definition truncated (o : sopts) (fs : list (sector * (list K * (nd R * nd R)))) : option (list (sector * (list K * (nd R * nd R)))) :=
  let ss := map (fun f => fst (snd f)) fs in
  do ns <- trim K argsort ss (so_cutoff o) (so_mode o) (so_max o);
  let ss' := renormed K renorm_fac ss ns (so_renorm o) in
  Some (map (fun e : (sector * (list K * (nd R * nd R))) * (Z * list K) =>
    let '(f, (n, s)) := e in
    let uv := snd (snd f) in
    let pos := py_take (zrange (Z.of_nat (length (fst (snd f))))) n in
    (fst f, (s, (cols_at pos (fst uv), rows_at pos (snd uv))))) (combine fs (combine ns ss'))).
(* 623-750; s is returned when absorb is None *)
Definition sparse_svd (t : ftensor) (left : list Z) (right : option (list Z)) (qpn : option (L * L)) (absorb : option Z) (o : sopts)
    : option (ftensor * option ftensor * ftensor) :=
  let rt := right_of t left right in
  let n := ndim R L (fst t) in
  do dq <- ft_dq R L t;
  if Z.max (Z.of_nat (length left)) (Z.of_nat (length rt)) =? n then None else
  do qp <- partition_of dq qpn absorb;
  let nt := maybe_transpose t left rt in
  let k := length left in
  do fs <- decomposed (sectors (snd nt) k (fst qp) (fst nt));
  do gs <- truncated o fs;
  let hs := map (fun g => (fst g, (fst (snd g), match absorb with Some a => absorb_svd a (fst (snd g)) (snd (snd g)) | None => snd (snd g) end))) gs in
  (* 725: if u.size == 0: continue *)
  let hs := filter (fun h => negb (prodZ (nshape (fst (snd (snd h)))) =? 0)) hs in
  let uv := assemble (snd nt) k (map (fun h => (fst h, snd (snd h))) hs) in
  let s := match absorb with
           | None => Some (map (fun h => ([sc_q (fst h); sc_q (fst h)], diag (fst (snd h)))) hs, [true; false])
           | Some _ => None end in
  (* u.shape[-1] of a tensor without blocks: IndexError *)
  match fst (fst uv) with [] => None | _ => Some (fst uv, s, snd uv) end.
End Fsvd.
Arguments sc_q {R L}. Arguments sc_rows {R L}. Arguments sc_cols {R L}. Arguments sc_data {R L}.
