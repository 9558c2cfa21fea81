(** Model of pyblock3/algebra/fermion.py: patterns (122-222) and SparseFermionTensor: dq (1112-1117), dagger (1126-1133),
    trace (1337-1372), _tensordot_basic (1440-1490), _transpose (1602-1610).
    A tensor is its list of blocks with its pattern ([true] is "+").  The stored total shape is not modelled: it is not
    looked at by these functions.  Labels are a commutative group with a parity (SymProofs.Label); the arithmetic of the
    concrete label classes is the subject of C01-C04.  [fermion] is setting.DEFAULT_FERMION.
    ENABLE_FUSED_IMPLS = True (_tensordot_fused) is not modelled. *)
From Coq Require Import ZArith Bool List.
From Verif Require Import FermOpsModel SymModel SymProofs DictLib OptLib IndexLib RingLib BondModel FuseModel BlockModel SignModel.
Import ListNotations.
Open Scope Z_scope.

Definition pattern := list bool.
(* 122-130 *)
Definition flip_pattern (p : pattern) : pattern := map negb p.
(* 106-120 *)
Definition gen_default_pattern (n : nat) : pattern := repeat true (n - 1) ++ [false].
Definition enumerate {A : Type} (l : list A) : list (Z * A) := combine (zrange (Z.of_nat (length l))) l.
Fixpoint pat_eqb (a b : pattern) : bool :=
  match a, b with [], [] => true | x :: a', y :: b' => Bool.eqb x y && pat_eqb a' b' | _, _ => false end.
(* 132-169: the pattern of the result and the axes of b to be flipped *)
Definition contract_patterns (pa pb : pattern) (idxa idxb : list Z) : pattern * list Z :=
  let conc_a := pick false idxa pa in
  let out_a := map snd (filter (fun e => negb (memZ (fst e) idxa)) (enumerate pa)) in
  let conc_b := pick false idxb pb in
  let out_b := map snd (filter (fun e => negb (memZ (fst e) idxb)) (enumerate pb)) in
  let flips := if negb (pat_eqb conc_a (flip_pattern conc_b))
               then flat_map (fun e : Z * (bool * bool) => if Bool.eqb (fst (snd e)) (snd (snd e)) then [fst e] else [])
                             (combine idxb (combine conc_a conc_b))
               else [] in
  (out_a ++ out_b, flips).

(* 199-216: one step of the loop over the pairs.  Letters are integers.  The state is
   (ax1, ax2, input_subs, output_subs, transpose_order) *)
Definition sub_replace (old new : Z) (l : list Z) : list Z := map (fun x => if x =? old then new else x) l.
Definition sub_remove (old : Z) (l : list Z) : list Z := filter (fun x => negb (x =? old)) l.
Definition trace_state := (list Z * list Z * list Z * list Z * list Z)%type.
Definition trace_step (st : trace_state) (p : Z * Z) : trace_state :=
  let '(ax1, ax2, isub, osub, order) := st in
  let ix := Z.min (fst p) (snd p) in
  let iy := Z.max (fst p) (snd p) in
  let cx := nth (Z.to_nat ix) isub 0 in
  let cy := nth (Z.to_nat iy) isub 0 in
  (ax1 ++ [ix], ax2 ++ [iy], sub_replace cy cx isub, sub_remove cy (sub_remove cx osub), order ++ [ix; iy]).
(* 171-222; n is T.ndim *)
Definition trace_preprocess (n : Z) (p : pattern) (ax1 ax2 : list Z) : trace_state * list Z * pattern :=
  let st := fold_left trace_step (combine ax1 ax2) ([], [], zrange n, zrange n, []) in
  let out := filter (fun ix => negb (memZ ix (ax1 ++ ax2))) (zrange n) in
  (st, out, pick false out p).

(* np.einsum(isub -> osub, a) for one operand: axes with the same letter run together (numpy wants equal dimensions,
   otherwise None), letters that are not in the output are summed *)
Definition letter_dims (isub : list Z) (sh : list Z) : option (dict Z Z) :=
  foldM (fun d e => match dget Z.eqb d (fst e) with
                    | Some s => if s =? snd e then Some d else None
                    | None => Some (dset Z.eqb d (fst e) (snd e))
                    end) [] (combine isub sh).
Definition look (ls xs : list Z) (c : Z) : Z :=
  match index_of c ls with Some k => nth k xs 0 | None => 0 end.
Definition nd_einsum1 {R : CRing} (isub osub : list Z) (a : nd R) : option (nd R) :=
  do d <- letter_dims isub (nshape a);
  let dim c := match dget Z.eqb d c with Some s => s | None => 0 end in
  let summed := filter (fun c => negb (memZ c osub)) (map fst d) in
  Some (mkNd (map dim osub) (fun xs =>
    bsum (all_idx (map dim summed)) (fun ys => nval a (map (look (osub ++ summed) (xs ++ ys)) isub)))).

Section FermT.
Variable R : CRing.
Variable L : Label.
Variable fermion : bool.
Notation block := (list L * nd R)%type.
Notation tensor := (list (list L * nd R)).
Notation bmap := (dict (list L) (nd R)).
Definition ftensor := (tensor * pattern)%type.

Definition parity (q : L) : Z := if qpar L q then 1 else 0.
(* 1061-1083 for the labels of a block *)
Definition lab_phase (qs : list L) (axes : list Z) (right : bool) : Z := compute_phase fermion (map parity qs) axes right.
(* mat * phase *)
Definition nd_phase (z : Z) (a : nd R) : nd R := nd_map (fun v => rmul R v (ofZ R z)) a.

(* symmetry._compute(pattern, q_labels), fermion_symmetry.py 97-115 *)
Definition lab_compute (p : pattern) (qs : list L) : L :=
  fold_left (fun out e => if snd e : bool then qadd L out (fst e) else qsub L out (fst e)) (combine qs p) (q0 L).
(* 1112-1117; None = IndexError *)
Definition ft_dq (t : ftensor) : option L :=
  match fst t with [] => None | b :: _ => Some (lab_compute (snd t) (fst b)) end.

(* 1126-1133 with conj : R -> R; SubTensor.transpose reorders the labels and puts no sign *)
Definition ft_dagger (conj : R -> R) (t : ftensor) : ftensor :=
  let axes := rev (zrange (ndim R L (fst t))) in
  (map (fun b => (pick (q0 L) axes (fst b), nd_transpose axes (nd_map conj (snd b)))) (fst t),
   flip_pattern (rev (snd t))).

(* 1602-1610 with explicit axes *)
Definition ft_transpose (axes : list Z) (t : ftensor) : ftensor :=
  (map (fun b => (pick (q0 L) axes (fst b), nd_phase (lab_phase (fst b) axes false) (nd_transpose axes (snd b)))) (fst t),
   pick false axes (snd t)).

(* 1040-1049; None = NotImplementedError *)
Definition adjust_block (b : block) (flips : list Z) : option block := match flips with [] => Some b | _ => None end.
(* 1440-1490; None = NotImplementedError or AssertionError *)
Definition ft_tensordot (a b : ftensor) (idxa idxb : list Z) : option ftensor :=
  let na := ndim R L (fst a) in
  let nb := ndim R L (fst b) in
  let idxa := norm_axes na idxa in
  let idxb := norm_axes nb idxb in
  let '(out_pattern, flips) := contract_patterns (snd a) (snd b) idxa idxb in
  let outa := others na idxa in
  let outb := others nb idxb in
  if negb (Nat.eqb (length idxa) (length idxb)) then None else
  do bs <- mapM (fun blk => adjust_block blk flips) (fst b);
  let mb := group_ctr R L idxb bs in
  Some (fold_left (fun (m : bmap) ba =>
    let phase_a := lab_phase (fst ba) idxa true in
    fold_left (fun (m : bmap) bb =>
      let phase_b := lab_phase (fst bb) idxb false in
      acc_block R L m (pick (q0 L) outa (fst ba) ++ pick (q0 L) outb (fst bb))
                (nd_phase (phase_a * phase_b) (nd_tensordot (snd ba) (snd bb) idxa idxb)))
      (odflt [] (dget (tup_eqb L) mb (pick (q0 L) idxa (fst ba)))) m) (fst a) [], out_pattern).

(* 1345-1355: the block is kept when the charge of every traced pair is zero *)
Definition aligned (p : pattern) (qs : list L) (pairs : list (Z * Z)) : bool :=
  forallb (fun e => qeqb L (lab_compute (pick false [fst e; snd e] p) (pick (q0 L) [fst e; snd e] qs)) (q0 L)) pairs.
(* 1337-1372.  A scalar result (the number sum(data) or 0) is the tensor with the empty label; None = IndexError (dq of a
   tensor without blocks) or the error of np.einsum *)
Definition ft_trace (t : ftensor) (ax1 ax2 : list Z) : option ftensor :=
  let n := ndim R L (fst t) in
  let '(ax1', ax2', isub, osub, order, out_axes, out_pattern) := trace_preprocess n (snd t) ax1 ax2 in
  do dq <- ft_dq t;
  if (Z.of_nat (length (ax1' ++ ax2')) =? n) && negb (qeqb L dq (q0 L)) then Some ([], []) else
  let blks := filter (fun b => aligned (snd t) (fst b) (combine ax1' ax2')) (fst t) in
  do data <- foldM (fun (m : bmap) b =>
    do e <- nd_einsum1 isub osub (snd b);
    Some (acc_block R L m (pick (q0 L) out_axes (fst b)) (nd_phase (lab_phase (fst b) order false) e))) [] blks;
  Some (data, out_pattern).
End FermT.
