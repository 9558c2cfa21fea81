(** Model of QCSymbolicMPO.__init__ (pyblock3/symbolic/symbolic_mpo.py 79-493): the symbolic table of every site of the
    Hamiltonian, its row and column operator names, and SymbolicSparseTensor.deflate (symbolic/symbolic.py 261-270) with
    the site operators of SiteModel (hamiltonian.py get_site_ops).
    The table is built by loops with a running pointer p; a loop body is a function from p to the new p and the list of
    assignments made, in order.  Exceptions (IndexError, failed assert) are None.
    SymbolicMatrix.__setitem__ (symbolic.py 151-154) appends, SymbolicRowVector / SymbolicColumnVector (83-90, 109-117)
    overwrite an entry of a numpy array of zeros (python 0 = None here).
    Numbers are elements of a commutative ring with an element half for 0.5; iszero x is the comparison x == 0. *)
From Coq Require Import ZArith Bool List.
From Verif Require Import SymModel DictLib IndexLib RingLib OptLib SiteModel.
Import ListNotations.
Open Scope Z_scope.

(* operator symbols: name and site_index of an OpElement (expr.py 66-91) *)
Inductive qop :=
| QI | QH | QC (j s : Z) | QD (j s : Z) | QR (j s : Z) | QRD (j s : Z)
| QA (i j si sj : Z) | QAD (i j si sj : Z) | QB (i j si sj : Z)
| QP (i j si sj : Z) | QPD (i j si sj : Z) | QQ (i j si sj : Z).
(* the name and the indices that get_op (hamiltonian.py 318-381) reads from a symbol *)
Definition named (o : qop) : opname :=
  match o with
  | QI => OI | QH => OH | QC _ s => OC s | QD _ s => OD s | QR j s => OR j s | QRD j s => ORD j s
  | QA _ _ si sj => OA si sj | QAD _ _ si sj => OAD si sj | QB _ _ si sj => OB si sj
  | QP i j si sj => OP i j si sj | QPD i j si sj => OPD i j si sj | QQ i j si sj => OQ i j si sj
  end.
(* q_label of the symbols, symbolic_mpo.py 101-102, 118-158; sz = [1, -1] *)
Definition q_label (osym : Z -> Z) (o : qop) : SZ :=
  match o with
  | QI | QH => mkSZ 0 0 0
  | QC j s | QRD j s => mkSZ 1 (szs s) (osym j)
  | QD j s | QR j s => mkSZ (-1) (- szs s) (osym j)
  | QA i j si sj | QPD i j si sj => mkSZ 2 (szs si + szs sj) (Z.lxor (osym i) (osym j))
  | QAD i j si sj | QP i j si sj => sz_neg (mkSZ 2 (szs si + szs sj) (Z.lxor (osym i) (osym j)))
  | QB i j si sj => mkSZ 0 (szs si - szs sj) (Z.lxor (osym i) (osym j))
  | QQ i j si sj => sz_neg (mkSZ 0 (szs si - szs sj) (Z.lxor (osym i) (osym j)))
  end.

Section Qc.
Variable R : CRing.
Variable half : R.
Variable small : R -> bool.
Variable iszero : R -> bool.
Variable osym : Z -> Z.                                    (* hamil.orb_sym *)
Variable t : Z -> Z -> Z -> R.                             (* hamil.fcidump.t, v *)
Variable v : Z -> Z -> Z -> Z -> Z -> Z -> R.
Variable symmetrized_p : bool.
Variable n : Z.                                            (* n_sites *)
Notation "-' a" := (ropp R a) (at level 35).

(* an OpElement: factor and symbol; None is the number 0 *)
Definition fsym := (R * qop)%type.
Definition wr := ((Z * Z) * option fsym)%type.
Definition sy (o : qop) : option fsym := Some (r1 R, o).
(* expr.py 128-136: number * OpElement, 149-153: negation *)
Definition mul (f : R) (o : option fsym) : option fsym :=
  match o with Some (x, o) => if iszero f then None else Some (rmul R x f, o) | None => None end.
Definition neg (o : option fsym) : option fsym := match o with Some (x, o) => Some (-' x, o) | None => None end.

(* programs with a pointer *)
Definition prog := Z -> Z * list wr.
Definition nop : prog := fun p => (p, []).
Definition seq_ (a b : prog) : prog := fun p => let (p1, w1) := a p in let (p2, w2) := b p1 in (p2, w1 ++ w2).
Definition set_ (ix : Z -> Z * Z) (o : option fsym) : prog := fun p => (p, [(ix p, o)]).
Definition step (d : Z) : prog := fun p => (p + d, []).
Definition goto (q : Z) : prog := fun _ => (q, []).
Definition for_ {A : Type} (l : list A) (body : A -> prog) : prog := fold_right (fun x k => seq_ (body x) k) nop l.
Notation "a ;; b" := (seq_ a b) (at level 190, right associativity).
Notation "'mat[' r , c ']:=' o" := (set_ (fun _ => (r, c)) o) (at level 100, r at level 99, c at level 99, o at level 99).
(* the same with indices that depend on the pointer *)
Notation "'mat{' p '}[' r , c ']:=' o" := (set_ (fun p => (r, c)) o) (at level 100, p name, r at level 99, c at level 99, o at level 99).
Notation rng2 := [0; 1].
Definition range (a b : Z) : list Z := map (fun k => a + k) (zrange (b - a)).

(* the two loops over pairs, sr outer and sl inner, used everywhere *)
Definition over_pairs (body : Z -> Z -> prog) : prog := for_ rng2 (fun sr => for_ rng2 (fun sl => body sl sr)).

Section At.
Variable m : Z.
Definition lshape : Z := 2 + 4 * n + 12 * m * m.
Definition rshape : Z := 2 + 4 * n + 12 * (m + 1) * (m + 1).

(* 173-188, 210-222: m == 0 *)
Definition first_prog : prog :=
  mat[0, 0]:= sy QH ;; mat[0, 1]:= sy QI ;;
  mat[0, 2]:= sy (QC m 0) ;; mat[0, 3]:= sy (QC m 1) ;; mat[0, 4]:= sy (QD m 0) ;; mat[0, 5]:= sy (QD m 1) ;;
  goto 6 ;;
  for_ rng2 (fun s => for_ (range (m + 1) n) (fun j => mat{p}[0, p + j - m - 1]:= sy (QRD j s)) ;; step (n - (m + 1))) ;;
  for_ rng2 (fun s => for_ (range (m + 1) n) (fun j => mat{p}[0, p + j - m - 1]:= neg (sy (QR j s))) ;; step (n - (m + 1))) ;;
  over_pairs (fun sl sr => mat{p}[0, p]:= sy (QA m m sl sr) ;; step 1) ;;
  over_pairs (fun sl sr => mat{p}[0, p]:= sy (QAD m m sl sr) ;; step 1) ;;
  over_pairs (fun sl sr => mat{p}[0, p]:= sy (QB m m sl sr) ;; step 1).
(* 189-208 (m == n_sites - 1) and 225-242 (other sites), the same assignments; then 243-263 *)
Definition column_prog : prog :=
  mat[0, 0]:= sy QI ;; mat[1, 0]:= sy QH ;; goto 2 ;;
  for_ rng2 (fun s => for_ (zrange m) (fun j => mat{p}[p + j, 0]:= sy (QR j s)) ;; step m) ;;
  for_ rng2 (fun s => for_ (zrange m) (fun j => mat{p}[p + j, 0]:= neg (sy (QRD j s))) ;; step m) ;;
  for_ rng2 (fun s => mat{p}[p, 0]:= sy (QD m s) ;; step (n - m)) ;;
  for_ rng2 (fun s => mat{p}[p, 0]:= sy (QC m s) ;; step (n - m)) ;;
  over_pairs (fun sl sr => for_ (zrange m) (fun j =>
    for_ (zrange m) (fun k => mat{p}[p + k, 0]:= mul half (sy (QP j k sl sr))) ;; step m)) ;;
  over_pairs (fun sl sr => for_ (zrange m) (fun j =>
    for_ (zrange m) (fun k => mat{p}[p + k, 0]:= mul half (sy (QPD j k sl sr))) ;; step m)) ;;
  over_pairs (fun sl sr => for_ (zrange m) (fun j =>
    for_ (zrange m) (fun k => mat{p}[p + k, 0]:= sy (QQ j k sl sr)) ;; step m)).

(* 269-286: row pointers *)
Definition pi : Z := 1.
Definition arr (a b s : Z) : Z := if s =? 0 then a else b.
Definition pc (s : Z) : Z := arr 2 (2 + m) s.
Definition pd (s : Z) : Z := arr (2 + m * 2) (2 + m * 3) s.
Definition prd (s : Z) : Z := arr (2 + m * 4 - m) (2 + m * 3 + n - m) s.
Definition pr (s : Z) : Z := arr (2 + m * 2 + n * 2 - m) (2 + m + n * 3 - m) s.
Definition pa (s s' : Z) : Z := arr (arr (2 + n * 4 + m * m * 0) (2 + n * 4 + m * m * 2) s')
                                    (arr (2 + n * 4 + m * m * 1) (2 + n * 4 + m * m * 3) s') s.
Definition pad (s s' : Z) : Z := arr (arr (2 + n * 4 + m * m * 4) (2 + n * 4 + m * m * 6) s')
                                     (arr (2 + n * 4 + m * m * 5) (2 + n * 4 + m * m * 7) s') s.
Definition pb (s s' : Z) : Z := arr (arr (2 + n * 4 + m * m * 8) (2 + n * 4 + m * m * 10) s')
                                    (arr (2 + n * 4 + m * m * 9) (2 + n * 4 + m * m * 11) s') s.
(* -1.0 and 0.5 times an integral *)
Definition mone : R := -' r1 R.
(* 288-296 *)
Definition c_prog : prog :=
  for_ rng2 (fun s =>
    for_ (zrange m) (fun j => mat{p}[pc s + j, p + j]:= sy QI) ;;
    mat{p}[pi, p + m]:= sy (QC m s) ;; step (m + 1)) ;;
  for_ rng2 (fun s =>
    for_ (zrange m) (fun j => mat{p}[pd s + j, p + j]:= sy QI) ;;
    mat{p}[pi, p + m]:= sy (QD m s) ;; step (m + 1)).
(* 297-337 *)
Definition rd_body (s i : Z) : prog :=
  mat{p}[prd s + i, p + i - (m + 1)]:= sy QI ;;
  mat{p}[pi, p + i - (m + 1)]:= sy (QRD i s) ;;
  for_ rng2 (fun sp => for_ (zrange m) (fun k =>
    mat{p}[pd sp + k, p + i - (m + 1)]:= sy (QPD i k s sp) ;;
    mat{p}[pc sp + k, p + i - (m + 1)]:= sy (QQ k i sp s))) ;;
  (if negb symmetrized_p then
     for_ rng2 (fun sp => for_ (zrange m) (fun j => for_ (zrange m) (fun l =>
       mat{p}[pa s sp + j * m + l, p + i - (m + 1)]:= mul (v s sp i j m l) (sy (QD m sp)))))
   else
     for_ rng2 (fun sp => for_ (zrange m) (fun j => for_ (zrange m) (fun l =>
       mat{p}[pa s sp + j * m + l, p + i - (m + 1)]:= mul (rmul R half (v s sp i j m l)) (sy (QD m sp)) ;;
       mat{p}[pa sp s + j * m + l, p + i - (m + 1)]:= mul (rmul R (-' half) (v s sp i l m j)) (sy (QD m sp)))))) ;;
  for_ rng2 (fun sp => for_ (zrange m) (fun k => for_ (zrange m) (fun l =>
    mat{p}[pb sp sp + l * m + k, p + i - (m + 1)]:= mul (v s sp i m k l) (sy (QC m s))))) ;;
  for_ rng2 (fun sp => for_ (zrange m) (fun j => for_ (zrange m) (fun k =>
    mat{p}[pb s sp + j * m + k, p + i - (m + 1)]:= mul (rmul R mone (v s sp i j k m)) (sy (QC m sp))))).
Definition rd_prog : prog :=
  for_ rng2 (fun s => for_ (range (m + 1) n) (rd_body s) ;; step (n - (m + 1))).
(* 338-378 *)
Definition r_body (s i : Z) : prog :=
  mat{p}[pr s + i, p + i - (m + 1)]:= sy QI ;;
  mat{p}[pi, p + i - (m + 1)]:= neg (sy (QR i s)) ;;
  for_ rng2 (fun sp => for_ (zrange m) (fun k =>
    mat{p}[pc sp + k, p + i - (m + 1)]:= mul mone (sy (QP i k s sp)) ;;
    mat{p}[pd sp + k, p + i - (m + 1)]:= mul mone (sy (QQ i k s sp)))) ;;
  (if negb symmetrized_p then
     for_ rng2 (fun sp => for_ (zrange m) (fun j => for_ (zrange m) (fun l =>
       mat{p}[pad s sp + j * m + l, p + i - (m + 1)]:= mul (rmul R mone (v s sp i j m l)) (sy (QC m sp)))))
   else
     for_ rng2 (fun sp => for_ (zrange m) (fun j => for_ (zrange m) (fun l =>
       mat{p}[pad s sp + j * m + l, p + i - (m + 1)]:= mul (rmul R (-' half) (v s sp i j m l)) (sy (QC m sp)) ;;
       mat{p}[pad sp s + j * m + l, p + i - (m + 1)]:= mul (rmul R half (v s sp i l m j)) (sy (QC m sp)))))) ;;
  for_ rng2 (fun sp => for_ (zrange m) (fun k => for_ (zrange m) (fun l =>
    mat{p}[pb sp sp + k * m + l, p + i - (m + 1)]:= mul (rmul R mone (v s sp i m k l)) (sy (QD m s))))) ;;
  for_ rng2 (fun sp => for_ (zrange m) (fun j => for_ (zrange m) (fun k =>
    mat{p}[pb sp s + k * m + j, p + i - (m + 1)]:= mul (rmul R (rmul R mone mone) (v s sp i j k m)) (sy (QD m sp))))).
Definition r_prog : prog :=
  for_ rng2 (fun s => for_ (range (m + 1) n) (r_body s) ;; step (n - (m + 1))).
(* 379-391 *)
Definition a_prog : prog :=
  over_pairs (fun sl sr =>
    for_ (zrange m) (fun i => for_ (zrange m) (fun j => mat{p}[pa sl sr + i * m + j, p + i * (m + 1) + j]:= sy QI)) ;;
    for_ (zrange m) (fun i =>
      mat{p}[pc sl + i, p + i * (m + 1) + m]:= sy (QC m sr) ;;
      mat{p}[pc sr + i, p + m * (m + 1) + i]:= neg (sy (QC m sl))) ;;
    mat{p}[pi, p + m * (m + 1) + m]:= sy (QA m m sl sr) ;; step ((m + 1) * (m + 1))).
(* 392-404 *)
Definition ad_prog : prog :=
  over_pairs (fun sl sr =>
    for_ (zrange m) (fun i => for_ (zrange m) (fun j => mat{p}[pad sl sr + i * m + j, p + i * (m + 1) + j]:= sy QI)) ;;
    for_ (zrange m) (fun i =>
      mat{p}[pd sl + i, p + i * (m + 1) + m]:= neg (sy (QD m sr)) ;;
      mat{p}[pd sr + i, p + m * (m + 1) + i]:= sy (QD m sl)) ;;
    mat{p}[pi, p + m * (m + 1) + m]:= sy (QAD m m sl sr) ;; step ((m + 1) * (m + 1))).
(* 405-417 *)
Definition b_prog : prog :=
  over_pairs (fun sl sr =>
    for_ (zrange m) (fun i => for_ (zrange m) (fun j => mat{p}[pb sl sr + i * m + j, p + i * (m + 1) + j]:= sy QI)) ;;
    for_ (zrange m) (fun i =>
      mat{p}[pc sl + i, p + i * (m + 1) + m]:= sy (QD m sr) ;;
      mat{p}[pd sr + i, p + m * (m + 1) + i]:= neg (sy (QC m sl))) ;;
    mat{p}[pi, p + m * (m + 1) + m]:= sy (QB m m sl sr) ;; step ((m + 1) * (m + 1))).
(* 265-268, then all groups *)
Definition other_prog : prog :=
  mat[1, 1]:= sy QI ;; goto 2 ;; c_prog ;; rd_prog ;; r_prog ;; a_prog ;; ad_prog ;; b_prog.

(* assignments to a vector of length len: numpy indices, a negative one counts from the end *)
Definition put_vec (d : list (option fsym)) (k : Z) (o : option fsym) : option (list (option fsym)) :=
  let len := Z.of_nat (length d) in
  let k := if k <? 0 then k + len else k in
  if (0 <=? k) && (k <? len) then Some (firstn (Z.to_nat k) d ++ o :: skipn (S (Z.to_nat k)) d) else None.
Definition vec_of (len : Z) (ws : list (Z * option fsym)) : option (list (option fsym)) :=
  foldM (fun d w => put_vec d (fst w) (snd w)) (repeat None (Z.to_nat len)) ws.
Definition check (b : bool) : option unit := if b then Some tt else None.

(* a site: SymbolicSparseTensor(mat, ops, lop, rop); the entries of mat with their positions *)
Record site := mkSite { s_rows : Z; s_cols : Z; s_mat : list wr; s_lop : list (option fsym); s_rop : list (option fsym) }.
(* rows and columns of a vector or matrix with these assignments *)
Definition site_mat : option (Z * Z * list wr) :=
  if m =? 0 then
    let '(p, ws) := first_prog 0 in
    do _ <- check (forallb (fun w => fst (fst w) =? 0) ws);
    do d <- vec_of rshape (map (fun w => (snd (fst w), snd w)) ws);
    do _ <- check (p =? rshape);
    Some (1, rshape, combine (map (fun k => (0, k)) (zrange rshape)) d)
  else if m =? n - 1 then
    let '(p, ws) := column_prog 0 in
    do _ <- check (forallb (fun w => snd (fst w) =? 0) ws);
    do d <- vec_of lshape (map (fun w => (fst (fst w), snd w)) ws);
    do _ <- check (p =? lshape);
    Some (lshape, 1, combine (map (fun k => (k, 0)) (zrange lshape)) d)
  else
    let '(p, ws) := column_prog 0 in
    do _ <- check (p =? lshape);
    let '(p', ws') := other_prog p in
    do _ <- check (p' =? rshape);
    Some (lshape, rshape, ws ++ ws').

(* 412-448, a vector indexed by the row index of the assignments *)
Definition lop_prog : prog :=
  mat[0, 0]:= sy QI ;; mat[1, 0]:= sy QH ;; goto 2 ;;
  for_ rng2 (fun s => for_ (zrange m) (fun j => mat{p}[p + j, 0]:= sy (QR j s)) ;; step m) ;;
  for_ rng2 (fun s => for_ (zrange m) (fun j => mat{p}[p + j, 0]:= neg (sy (QRD j s))) ;; step m) ;;
  for_ rng2 (fun s => for_ (range m n) (fun j => mat{p}[p + j - m, 0]:= sy (QD j s)) ;; step (n - m)) ;;
  for_ rng2 (fun s => for_ (range m n) (fun j => mat{p}[p + j - m, 0]:= sy (QC j s)) ;; step (n - m)) ;;
  over_pairs (fun sl sr => for_ (zrange m) (fun j =>
    for_ (zrange m) (fun k => mat{p}[p + k, 0]:= mul half (sy (QP j k sl sr))) ;; step m)) ;;
  over_pairs (fun sl sr => for_ (zrange m) (fun j =>
    for_ (zrange m) (fun k => mat{p}[p + k, 0]:= mul half (sy (QPD j k sl sr))) ;; step m)) ;;
  over_pairs (fun sl sr => for_ (zrange m) (fun j =>
    for_ (zrange m) (fun k => mat{p}[p + k, 0]:= sy (QQ j k sl sr)) ;; step m)).
Definition site_lop : option (list (option fsym)) :=
  if m =? 0 then vec_of 1 [(0, sy QH)]
  else let '(p, ws) := lop_prog 0 in
       do d <- vec_of lshape (map (fun w => (fst (fst w), snd w)) ws);
       do _ <- check (p =? lshape); Some d.
(* 450-488 *)
Definition rop_prog : prog :=
  mat[0, 0]:= sy QH ;; mat[0, 1]:= sy QI ;; goto 2 ;;
  for_ rng2 (fun s => for_ (zrange (m + 1)) (fun j => mat{p}[0, p + j]:= sy (QC j s)) ;; step (m + 1)) ;;
  for_ rng2 (fun s => for_ (zrange (m + 1)) (fun j => mat{p}[0, p + j]:= sy (QD j s)) ;; step (m + 1)) ;;
  for_ rng2 (fun s => for_ (range (m + 1) n) (fun j => mat{p}[0, p + j - (m + 1)]:= sy (QRD j s)) ;; step (n - (m + 1))) ;;
  for_ rng2 (fun s => for_ (range (m + 1) n) (fun j => mat{p}[0, p + j - (m + 1)]:= neg (sy (QR j s))) ;; step (n - (m + 1))) ;;
  over_pairs (fun sl sr => for_ (zrange (m + 1)) (fun j =>
    for_ (zrange (m + 1)) (fun k => mat{p}[0, p + k]:= sy (QA j k sl sr)) ;; step (m + 1))) ;;
  over_pairs (fun sl sr => for_ (zrange (m + 1)) (fun j =>
    for_ (zrange (m + 1)) (fun k => mat{p}[0, p + k]:= sy (QAD j k sl sr)) ;; step (m + 1))) ;;
  over_pairs (fun sl sr => for_ (zrange (m + 1)) (fun j =>
    for_ (zrange (m + 1)) (fun k => mat{p}[0, p + k]:= sy (QB j k sl sr)) ;; step (m + 1))).
Definition site_rop : option (list (option fsym)) :=
  if m =? n - 1 then vec_of 1 [(0, sy QH)]
  else let '(p, ws) := rop_prog 0 in
       do d <- vec_of rshape (map (fun w => (snd (fst w), snd w)) ws);
       do _ <- check (p =? rshape); Some d.
Definition qc_site : option site :=
  do rc <- site_mat; do l <- site_lop; do r <- site_rop;
  let '(rows, cols, ws) := rc in Some (mkSite rows cols ws l r).

(* symbolic.py 261-270, 166-175: entries that stay, with the tensor that stands for their symbol *)
Definition entry := ((Z * Z) * (R * fop R))%type.
Definition deflate_one (w : wr) : option (list entry) :=
  match snd w with
  | None => Some []
  | Some (f, o) =>
      do x <- get_op R half small osym t v m (named o);
      match x with
      | Zero _ => Some []
      | Op _ x => if (length (f_odd R x) + length (f_even R x) =? 0)%nat then Some []
                  else Some [(fst w, (f, x))]
      end
  end.
Definition deflate (ws : list wr) : option (list entry) := do l <- mapM deflate_one ws; Some (concat l).
Definition tensor_of : option (list entry) := do s <- qc_site; deflate (s_mat s).
End At.

(* the MPO: one table per site *)
Definition qc_mpo : option (list (list entry)) := mapM tensor_of (zrange n).
End Qc.
