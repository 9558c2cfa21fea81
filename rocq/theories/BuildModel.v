(** Model of the construction of a matrix product operator from a sum of operator strings: pyblock3/hamiltonian.py
    Hamiltonian.build_mpo (195-258, flat=False), pyblock3/symbolic/expr.py OpString / OpSum (202-355) and
    pyblock3/symbolic/symbolic.py SymbolicSparseTensor.right_svd (368-490), with get_site_ops (hamiltonian.py 383-401) on
    expressions.
    Operator symbols of the expression are C(i, s) and D(i, s) (ann = false / true) or the identity; their labels are those
    build_mpo gives them (212-217).  The terms are strings of such symbols with numbers in front.
    np.linalg.svd is a parameter (None = LinAlgError); iszero x is x == 0, tiny x is abs(x) <= 1E-12 (expr.py 253),
    big x is x > cutoff.  Exceptions are None. Not modelled: dtypes, printing, the C++ branch (flat). *)
From Coq Require Import ZArith Bool List.
From Verif Require Import SymModel DictLib IndexLib RingLib OptLib SiteModel.
Import ListNotations.
Open Scope Z_scope.

Notation letter := (bool * (Z * Z))%type.
(* an OpElement with factor 1: None is i_op (hamiltonian.py 209) *)
Notation osym := (option letter).
(* symbols of the tables: an OpElement of the expression, H (210), X with a number (symbolic.py 464, 476) *)
Inductive msym := MB (o : osym) | MH | MX (k : nat).

Definition letter_eqb (a b : letter) : bool := Bool.eqb (fst a) (fst b) && (fst (snd a) =? fst (snd b)) && (snd (snd a) =? snd (snd b)).
(* expr.py 144-149 *)
Definition osym_eqb (a b : osym) : bool :=
  match a, b with Some x, Some y => letter_eqb x y | None, None => true | _, _ => false end.
Fixpoint osyms_eqb (a b : list osym) : bool :=
  match a, b with [], [] => true | x :: a', y :: b' => osym_eqb x y && osyms_eqb a' b' | _, _ => false end.
Definition msym_eqb (a b : msym) : bool :=
  match a, b with MB x, MB y => osym_eqb x y | MH, MH => true | MX i, MX j => Nat.eqb i j | _, _ => false end.
(* site_index < site_index: pairs (site, spin) *)
Definition idx_ltb (a b : Z * Z) : bool := if fst a =? fst b then snd a <? snd b else fst a <? fst b.

Section Build.
Variable R : CRing.
Variable orb : Z -> Z.                                     (* self.orb_sym *)
Variable iszero tiny big : R -> bool.
(* rows, columns, matrix -> number of singular values, u, s, vh *)
Variable svd : nat -> nat -> (nat -> nat -> R) -> option (nat * (nat -> nat -> R) * (nat -> R) * (nat -> nat -> R)).

(* hamiltonian.py 209-217 *)
Definition lab (o : osym) : SZ :=
  match o with
  | None => mkSZ 0 0 0
  | Some (false, (i, s)) => mkSZ 1 (szs s) (orb i)
  | Some (true, (i, s)) => mkSZ (-1) (- szs s) (orb i)
  end.

(* OpString: factor and operators *)
Notation str := (R * list osym)%type.
(* 0, OpElement, OpString, OpSum *)
Inductive expr := Num0 | Elem (o : osym) | Str (s : str) | Sum (l : list str).

(* expr.py 218-224 for strings of C and D: 0-based double loop, then a stable sort *)
Fixpoint swap_sign (ops : list letter) (f : R) : R :=
  match ops with
  | [] => f
  | x :: rest => swap_sign rest (fold_left (fun f y => if idx_ltb (snd y) (snd x) then ropp R f else f) rest f)
  end.
Definition sort_term (t : R * list letter) : str :=
  (swap_sign (snd t) (fst t), map Some (sort_by idx_ltb snd (snd t))).

(* expr.py 247-253, 259-264: number times OpString; None is the number 0 *)
Definition scale (f : R) (s : str) : option str :=
  if iszero f then None else if tiny (rmul R (fst s) f) then None else Some (rmul R (fst s) f, snd s).
(* symbolic.py 383-391: the terms of factor * ops[abs(op)]; 0.strings is an AttributeError *)
Definition terms_of (f : R) (e : expr) : option (list (option str)) :=
  match e with
  | Sum l => if iszero f then None else Some (map (scale f) l)
  | Str s => Some [scale f s]
  | Elem o => Some [scale f (r1 R, [o])]
  | Num0 => None
  end.
(* 395-401 *)
Fixpoint prefix (idx : Z) (ops : list osym) : nat :=
  match ops with
  | [] => 0
  | None :: r => S (prefix idx r)
  | Some (_, (i, _)) :: r => if i <=? idx then S (prefix idx r) else 0
  end.
(* 402-403 *)
Definition left_part (idx : Z) (ops : list osym) : list osym := if Nat.eqb (prefix idx ops) 0 then [None] else firstn (prefix idx ops) ops.
Definition right_part (idx : Z) (ops : list osym) : list osym := if Nat.eqb (prefix idx ops) (length ops) then [None] else skipn (prefix idx ops) ops.
(* np.add.reduce over labels *)
Definition lab_sum (l : list osym) : SZ := match l with [] => mkSZ 0 0 0 | x :: l' => fold_left sz_add (map lab l') (lab x) end.

(* lr_map[iq], mats[iq] *)
Record group := mkGroup { g_l : list (nat * list osym); g_r : list (list osym); g_v : list (nat * nat * R) }.
Definition qq_eqb (a b : SZ * SZ) : bool := sz_eqb (fst a) (fst b) && sz_eqb (snd a) (snd b).
Definition row_eqb (a b : nat * list osym) : bool := Nat.eqb (fst a) (fst b) && osyms_eqb (snd a) (snd b).
(* position of x, x appended if it is new *)
Fixpoint position {A : Type} (eqb : A -> A -> bool) (x : A) (l : list A) : option nat :=
  match l with [] => None | y :: l' => if eqb y x then Some 0%nat else option_map S (position eqb x l') end.
Definition enter {A : Type} (eqb : A -> A -> bool) (x : A) (l : list A) : nat * list A :=
  match position eqb x l with Some k => (k, l) | None => (length l, l ++ [x]) end.
(* 404-428: one term of row ip; qll = label of the row *)
Definition add_term (idx : Z) (ip : nat) (qll : SZ) (gs : dict (SZ * SZ) group) (t : option str) : option (dict (SZ * SZ) group) :=
  match t with
  | None => Some gs
  | Some (f, ops) =>
      let l := left_part idx ops in let r := right_part idx ops in
      let ql := sz_add (sz_neg qll) (lab_sum l) in let qr := lab_sum r in
      if negb (sz_eqb (sz_add ql qr) (lab None)) then None else
      let g := match dget qq_eqb gs (ql, qr) with Some g => g | None => mkGroup [] [] [] end in
      let (il, ml) := enter row_eqb (ip, l) (g_l g) in
      let (ir, mr) := enter osyms_eqb r (g_r g) in
      Some (dset qq_eqb gs (ql, qr) (mkGroup ml mr (g_v g ++ [(il, ir, f)])))
  end.

(* a row of SymbolicColumnVector: 0 or an OpElement with factor *)
Notation cell := (option (R * msym)).
(* tensor with expressions: mat (a column), ops, labels of lop *)
Record column := mkCol { c_mat : list cell; c_ops : dict msym expr; c_lop : list SZ }.
(* 378-428 *)
Definition add_row (idx : Z) (ops : dict msym expr) (gs : dict (SZ * SZ) group) (row : nat * (cell * SZ)) : option (dict (SZ * SZ) group) :=
  match fst (snd row) with
  | None => Some gs
  | Some (f, o) => do e <- dget msym_eqb ops o; do ts <- terms_of f e;
      foldM (add_term idx (fst row) (snd (snd row))) gs ts
  end.
Definition groups_of (idx : Z) (c : column) : option (dict (SZ * SZ) group) :=
  foldM (add_row idx (c_ops c)) [] (combine (seq 0 (length (c_mat c))) (combine (c_mat c) (c_lop c))).

(* 430-441: columns of ll and rows of rr of a group *)
Definition mat_of (g : group) (il ir : nat) : R :=
  bsum (g_v g) (fun e => if Nat.eqb (fst (fst e)) il && Nat.eqb (snd (fst e)) ir then snd e else r0 R).
Definition factors (g : group) : option (list ((nat -> R) * (nat -> R))) :=
  do (k, u, s, vh) <- svd (length (g_l g)) (length (g_r g)) (mat_of g);
  Some (map (fun j => ((fun il => rmul R (s j) (u il j)), vh j)) (filter (fun j => big (s j)) (seq 0 k))).

(* expr.py 266-275, 320-327: sums of 0, OpString, OpSum *)
Definition eadd (a b : expr) : expr :=
  match a, b with
  | Num0, x => x
  | x, Num0 => x
  | Str s, Str t => Sum [s; t]
  | Str s, Sum l => Sum (s :: l)
  | Sum l, Str s => Sum (l ++ [s])
  | Sum l, Sum l' => Sum (l ++ l')
  | _, _ => Num0
  end.
Definition of_scaled (s : option str) : expr := match s with Some s => Str s | None => Num0 end.
(* one element of a product of a matrix of strings and a matrix of numbers (object arrays, summed from the left) *)
Definition dot (l : list expr) : expr := match l with [] => Num0 | x :: l' => fold_left eadd l' x end.
(* 453-458: lxmat @ ll, rr @ rxmat *)
Definition left_expr (g : group) (ip : nat) (f : nat -> R) : expr :=
  dot (map (fun p => if Nat.eqb (fst (snd p)) ip then of_scaled (scale (f (fst p)) (r1 R, snd (snd p))) else Num0)
           (combine (seq 0 (length (g_l g))) (g_l g))).
Definition right_expr (g : group) (f : nat -> R) : expr :=
  dot (map (fun p => of_scaled (scale (f (fst p)) (r1 R, snd p))) (combine (seq 0 (length (g_r g))) (g_r g))).

(* 465-475, 478-488: the symbol that stands for an expression; counter, ops, symbol *)
Definition name_expr (k : nat) (ops : dict msym expr) (e : expr) : nat * dict msym expr * cell :=
  match e with
  | Num0 => (k, ops, None)
  | Str (f, [o]) => if iszero f then (k, ops, None) else (k, dset msym_eqb ops (MB o) (Elem o), Some (f, MB o))
  | e => (S k, dset msym_eqb ops (MX k) e, Some (r1 R, MX k))
  end.
(* a site: rows, columns, entries of the SymbolicMatrix (or column), ops, labels of lop and rop *)
Record table := mkTab { t_rows : nat; t_cols : nat; t_mat : list ((nat * nat) * (R * msym)); t_ops : dict msym expr; t_lop : list SZ; t_rop : list SZ }.
Definition add_entry (st : nat * dict msym expr * list ((nat * nat) * (R * msym))) (w : (nat * nat) * expr) :=
  let '(k, ops, es) := st in
  let '(k', ops', c) := name_expr k ops (snd w) in
  (k', ops', match c with Some c => es ++ [(fst w, c)] | None => es end).
Definition add_cell (st : nat * dict msym expr * list cell) (e : expr) :=
  let '(k, ops, cs) := st in
  let '(k', ops', c) := name_expr k ops e in (k', ops', cs ++ [c]).
(* 459-475: groups one after the other, in each the rows, in each the columns of the group *)
Fixpoint left_writes (rows : nat) (im : nat) (gs : list (group * list ((nat -> R) * (nat -> R)))) : list ((nat * nat) * expr) :=
  match gs with
  | [] => []
  | (g, fs) :: gs' =>
      flat_map (fun ip => map (fun p => ((ip, fst p), left_expr g ip (fst (snd p)))) (combine (seq im (length fs)) fs)) (seq 0 rows)
      ++ left_writes rows (im + length fs) gs'
  end.
(* 476-488 *)
Definition right_writes (gs : list (group * list ((nat -> R) * (nat -> R)))) : list expr :=
  flat_map (fun gf => map (fun f => right_expr (fst gf) (snd f)) (snd gf)) gs.
Definition right_svd (idx : Z) (c : column) : option (table * column) :=
  do gs <- groups_of idx c;
  do fs <- mapM (fun kg => do f <- factors (snd kg); Some (fst kg, (snd kg, f))) gs;
  let gf := map snd fs in
  let rows := length (c_mat c) in
  let '(_, lops, es) := fold_left add_entry (left_writes rows 0 gf) (0%nat, [], []) in
  let '(_, rops, cs) := fold_left add_cell (right_writes gf) (0%nat, [], []) in
  let labs f := flat_map (fun kf : (SZ * SZ) * (group * list ((nat -> R) * (nat -> R))) => map (fun _ => f (fst kf)) (snd (snd kf))) fs in
  Some (mkTab rows (length cs) es lops (c_lop c) (labs fst), mkCol cs rops (labs snd)).

(* hamiltonian.py 232-247: h_expr.sort, the first tensor, one right_svd per bond *)
Definition start (terms : list (R * list letter)) : column :=
  mkCol [Some (r1 R, MH)] [(MH, Sum (map sort_term terms))] [lab None].
Fixpoint sweep (k : nat) (i : Z) (c : column) : option (list table) :=
  match k with
  | O => Some [mkTab (length (c_mat c)) 1
                 (flat_map (fun p => match snd p with Some x => [((fst p, 0%nat), x)] | None => [] end) (combine (seq 0 (length (c_mat c))) (c_mat c)))
                 (c_ops c) (c_lop c) [lab None]]
  | S k' => do (t, c') <- right_svd i c; do ts <- sweep k' (i + 1) c'; Some (t :: ts)
  end.
Definition symbolic_mpo (n : nat) (terms : list (R * list letter)) : option (list table) := sweep (n - 1) 0 (start terms).

(* get_site_ops at site m, hamiltonian.py 383-401; get_op of I, C, D *)
Definition letter_op (m : Z) (o : osym) : option (fop R) :=
  match o with
  | None => i_operator R (orb m)
  | Some (false, (_, s)) => c_operator R (orb m) s
  | Some (true, (_, s)) => d_operator R (orb m) s
  end.
(* reduce(np.matmul, ...) of an empty list is a TypeError *)
Definition string_op (m : Z) (s : str) : option (fop R) :=
  do l <- mapM (letter_op m) (snd s);
  match l with [] => None | x :: l' => Some (op_scale R (fst s) (fold_left (op_mm R) l' x)) end.
Definition expr_op (m : Z) (e : expr) : option (opval R) :=
  match e with
  | Num0 => Some (Zero R)
  | Elem o => do x <- letter_op m o; Some (Op R x)
  | Str s => do x <- string_op m s; Some (Op R x)
  | Sum l => do xs <- mapM (string_op m) l;
             match xs with [] => Some (Zero R) | x :: xs' => Some (Op R (fold_left (op_plus R) xs' x)) end
  end.
Definition site_entries (m : Z) (t : table) : option (list ((Z * Z) * (R * fop R))) :=
  do vs <- mapM (fun kv => do x <- expr_op m (snd kv); Some (fst kv, x)) (t_ops t);
  do es <- mapM (fun e : (nat * nat) * (R * msym) =>
    do x <- dget msym_eqb vs (snd (snd e));
    Some (match x with Zero _ => [] | Op _ x => [((Z.of_nat (fst (fst e)), Z.of_nat (snd (fst e))), (fst (snd e), x))] end)) (t_mat t);
  Some (concat es).
Definition build_mpo (n : nat) (terms : list (R * list letter)) : option (list (list ((Z * Z) * (R * fop R)))) :=
  do ts <- symbolic_mpo n terms; mapM (fun p => site_entries (fst p) (snd p)) (combine (zrange (Z.of_nat n)) ts).

(* hamiltonian.py 218-224: terms from factors and index lists (decode_term of SiteModel); terms left None when gen[1] is the
   shorter one make the sort of 232 fail *)
Definition terms_of_gen (n : nat) (gen : list R * list (list Z)) : option (list (R * list letter)) :=
  if Nat.ltb (length (snd gen)) (length (fst gen)) then None else
  do ts <- decode_terms R (Z.of_nat n) (combine (fst gen) (snd gen));
  Some (map (fun t => (fst t, map (fun a : bool * Z * Z => (fst (fst a), (snd (fst a), snd a))) (snd t))) ts).
Definition build_mpo_gen (n : nat) (gen : list R * list (list Z)) : option (list (list ((Z * Z) * (R * fop R)))) :=
  do terms <- terms_of_gen n gen; build_mpo n terms.
(* hamiltonian.py 141-177 build_complex_qc_mpo: keep x is abs(x) > cutoff, hlf x is 0.5 * x *)
Definition build_complex_qc_mpo (keep : R -> bool) (hlf : R -> R) (n : nat) (h : Z -> Z -> R) (g : Z -> Z -> Z -> Z -> R) :=
  build_mpo_gen n (split (qc_terms R keep hlf (Z.of_nat n) h g)).
End Build.
