(** Model of pyblock3/gaussian/core.py: GaussianTensor (83-112), GaussianTensorNetwork (114-251, 310-348), RHFTensorNetwork
    (456-610), UHFTensorNetwork (612-808), GHFTensorNetwork (810-822), GaussianMPS (1152-1178).
    Indices of legs are integers (tuples in the two-dimensional networks are not modelled).  torch tensors are functions on
    positions together with their sizes; elements are in a commutative ring.  torch.matrix_exp(data) is the parameter rot of a
    tensor; its size is the number of legs.  Python sets are lists without duplicates; sorted(...) makes their order irrelevant.
    Exceptions are None.  core_occ has n_core elements (a list of another length is an exception here; numpy would also
    accept a single number for several core legs).  Not modelled: gradients, GaussianOptimizer, printing, fit_to_reference_2d. *)
From Coq Require Import ZArith Bool List.
From Verif Require Import DictLib IndexLib RingLib OptLib.
Import ListNotations.
Open Scope Z_scope.

Section Gauss.
Variable R : CRing.
Notation mat := (nat -> nat -> R).

(* 93-98: u_idx, d_idx, n_core, matrix_exp(data), core_occ *)
Record gt := GT { g_u : list Z; g_d : list Z; g_core : nat; g_rot : mat; g_occ : list R }.

Definition mem (x : Z) (l : list Z) : bool := existsb (Z.eqb x) l.
(* set.add, set.remove (KeyError if missing) *)
Definition set_add (x : Z) (s : list Z) : list Z := if mem x s then s else s ++ [x].
Definition set_remove (x : Z) (s : list Z) : option (list Z) := if mem x s then Some (filter (fun y => negb (y =? x)) s) else None.
Definition discard (x : Z) (s : list Z) : list Z := filter (fun y => negb (y =? x)) s.
(* 156-164: integers *)
Definition smart_sorted (l : list Z) : list Z := sort_by Z.ltb (fun x => x) l.
(* 166-182 *)
Definition initial_indices (ts : list gt) : list Z :=
  smart_sorted (fold_left (fun s x => discard x s) (flat_map g_u ts) (fold_left (fun s x => set_add x s) (flat_map g_d ts) [])).
(* 184-200 *)
Definition terminal_indices (ts : list gt) : list Z :=
  smart_sorted (fold_left (fun s x => discard x s) (flat_map g_d ts) (fold_left (fun s x => set_add x s) (flat_map g_u ts) [])).
(* 202-210 *)
Definition core_terminal_indices (ts : list gt) : list Z :=
  smart_sorted (fold_left (fun s x => set_add x s) (flat_map (fun t => firstn (g_core t) (g_u t)) ts) []).
(* 212-216 *)
Definition non_core_terminal_indices (ts : list gt) : list Z :=
  smart_sorted (filter (fun x => negb (mem x (core_terminal_indices ts))) (terminal_indices ts)).

(* 218-251: one pass over the remaining tensors (with their numbers); current_idxs is fixed in a pass *)
Definition pass_step (cur : list Z) (st : list (nat * gt) * list (nat * gt) * list Z) (e : nat * gt) : option (list (nat * gt) * list (nat * gt) * list Z) :=
  let '(layer, next, idxs) := st in
  if forallb (fun x => mem x cur) (g_d (snd e))
  then do s <- foldM (fun s x => set_remove x s) idxs (g_d (snd e));
       Some (layer ++ [e], next, fold_left (fun s x => set_add x s) (g_u (snd e)) s)
  else Some (layer, next ++ [e], idxs).
Definition pass (cur : list Z) (rem : list (nat * gt)) := foldM (pass_step cur) ([], [], cur) rem.
(* the loop, with at most fuel passes; the first pass is always made: range(0, n) != [] *)
Fixpoint layers_loop (fuel : nat) (cur : list Z) (rem : list (nat * gt)) : option (list (list (nat * gt))) :=
  match fuel with
  | O => None
  | S f => do (layer, next, idxs) <- pass cur rem;
           match next with [] => Some [layer] | _ => do ls <- layers_loop f idxs next; Some (layer :: ls) end
  end.
Definition layers_upto (fuel : nat) (ts : list gt) : option (list (list (nat * gt))) :=
  layers_loop fuel (initial_indices ts) (combine (seq 0 (length ts)) ts).
(* a pass that places no tensor leaves everything as it is: more than one pass per tensor is never useful (GaussProps) *)
Definition get_layers (ts : list gt) : option (list (list (nat * gt))) := layers_upto (S (length ts)) ts.

(** *** make_rdm1, 549-576 *)
Fixpoint last_pos (i : nat) (l : list nat) : option nat :=
  match l with [] => None | x :: l' => match last_pos i l' with Some p => Some (S p) | None => if Nat.eqb x i then Some 0%nat else None end end.
(* dm[idx, idx] = occ *)
Definition set_diag (idx : list nat) (occ : list R) (dm : mat) : mat :=
  fun i j => if Nat.eqb i j then match last_pos i idx with Some p => nth p occ (r0 R) | None => dm i j end else dm i j.
(* dm[idx, :] = ub @ dm[idx, :] *)
Definition rot_rows (idx : list nat) (ub : mat) (dm : mat) : mat :=
  fun i j => match last_pos i idx with Some p => bsum (seq 0 (length idx)) (fun q => rmul R (ub p q) (dm (nth q idx 0%nat) j)) | None => dm i j end.
(* dm[:, idx] = dm[:, idx] @ ub.T *)
Definition rot_cols (idx : list nat) (ub : mat) (dm : mat) : mat :=
  fun i j => match last_pos j idx with Some p => bsum (seq 0 (length idx)) (fun q => rmul R (dm i (nth q idx 0%nat)) (ub p q)) | None => dm i j end.
(* {map.get(x, x): ix for x, ix in dm_idxs_map.items()} with map = {i: j for i, j in zip(a, b)} *)
Definition retag (a b : list Z) (m : dict Z nat) : dict Z nat :=
  dict_of Z.eqb (map (fun e => (match dget Z.eqb (dict_of Z.eqb (combine a b)) (fst e) with Some y => y | None => fst e end, snd e)) m).
Definition back_step (st : dict Z nat * mat) (t : gt) : option (dict Z nat * mat) :=
  let '(m, dm) := st in
  do eff <- mapM (dget Z.eqb m) (g_u t);
  do dmc <- mapM (dget Z.eqb m) (firstn (g_core t) (g_u t));
  if negb (Nat.eqb (length (g_occ t)) (length dmc)) then None else
  let dm := set_diag dmc (g_occ t) dm in
  let dm := rot_rows eff (g_rot t) dm in
  let dm := rot_cols eff (g_rot t) dm in
  Some (retag (g_u t) (g_d t) m, dm).
Definition positions (l : list Z) : dict Z nat := dict_of Z.eqb (combine l (seq 0 (length l))).
(* size and elements *)
Definition make_rdm1 (ts : list gt) : option (nat * mat) :=
  do ls <- get_layers ts;
  do (m, dm) <- foldM back_step (positions (terminal_indices ts), fun _ _ => r0 R) (rev (map snd (concat ls)));
  do re <- mapM (dget Z.eqb m) (initial_indices ts);
  Some (length re, fun i j => dm (nth i re 0%nat) (nth j re 0%nat)).

(** *** make_rdm2 and energy_tot, 578-595, 718-754, 816-822; hlf x = x * 0.5, qtr x = x * 0.25 *)
Variable hlf qtr : R -> R.
Notation ten := (nat -> nat -> nat -> nat -> R).
Definition sub (a b : R) : R := radd R a (ropp R b).
Definition rhf_rdm2 (d : mat) : ten := fun i j k l => sub (rmul R (d i j) (d k l)) (hlf (rmul R (d i l) (d j k))).
Definition ghf_rdm2 (d : mat) : ten := fun i j k l => sub (rmul R (d i j) (d k l)) (rmul R (d i l) (d j k)).
Definition uhf_rdm2 (d : mat * mat) : ten * ten * ten :=
  (ghf_rdm2 (fst d), (fun i j k l => rmul R (fst d i j) (snd d k l)), ghf_rdm2 (snd d)).
Definition sum2 (n : nat) (f : nat -> nat -> R) : R := bsum (seq 0 n) (fun i => bsum (seq 0 n) (fun j => f i j)).
Definition sum4 (n : nat) (f : ten) : R := sum2 n (fun i j => sum2 n (fun k l => f i j k l)).
(* 585-595; also GHF *)
Definition rhf_energy (n : nat) (h : mat) (g : option ten) (d1 : mat) (d2 : option ten) : R :=
  let e := sum2 n (fun i j => rmul R (d1 i j) (h i j)) in
  match g with
  | None => e
  | Some g => match d2 with
      | Some d2 => radd R e (hlf (sum4 n (fun i j k l => rmul R (d2 i j k l) (g i j k l))))
      | None => sub (radd R e (hlf (sum4 n (fun i j k l => rmul R (rmul R (d1 i j) (d1 k l)) (g i j k l)))))
                    (qtr (sum4 n (fun i j k l => rmul R (rmul R (d1 i j) (d1 k l)) (g i k l j))))
      end
  end.
(* 729-754; h1e and g2e given per spin (two and three arrays) *)
Definition uhf_energy (n : nat) (h : mat * mat) (g : option (ten * ten * ten)) (d1 : mat * mat) (d2 : option (ten * ten * ten)) : R :=
  let e := radd R (sum2 n (fun i j => rmul R (fst d1 i j) (fst h i j))) (sum2 n (fun i j => rmul R (snd d1 i j) (snd h i j))) in
  let pair (a b : mat) (g : ten) := sum4 n (fun i j k l => rmul R (rmul R (a i j) (b k l)) (g i j k l)) in
  let exch (a : mat) (g : ten) := sum4 n (fun i j k l => rmul R (rmul R (a i j) (a k l)) (g i k l j)) in
  match g with
  | None => e
  | Some (g0, g1, g2) => match d2 with
      | Some (d20, d21, d22) =>
          let c (d g : ten) := sum4 n (fun i j k l => rmul R (d i j k l) (g i j k l)) in
          radd R (radd R (radd R e (hlf (c d20 g0))) (c d21 g1)) (hlf (c d22 g2))
      | None => sub (radd R (radd R (sub (radd R e (hlf (pair (fst d1) (fst d1) g0))) (hlf (exch (fst d1) g0))) (pair (fst d1) (snd d1) g1))
                          (hlf (pair (snd d1) (snd d1) g2))) (hlf (exch (snd d1) g2))
      end
  end.
End Gauss.
Arguments g_u {R}. Arguments g_d {R}. Arguments g_core {R}. Arguments g_rot {R}. Arguments g_occ {R}.

(** *** GaussianMPS, 1152-1178: u_idx, d_idx, n_core of the tensors; fuel bounds the loop; n = n_sites, w = n_tensor_sites (not
    negative), c = n_core *)
Definition ints (a : Z) (d : nat) : list Z := map (fun i => a + Z.of_nat i) (seq 0 d).
Fixpoint mps_loop (fuel : nat) (n w c : nat) (cur : list Z) (idx : Z) (i : nat) : option (list (list Z * list Z * nat)) :=
  match fuel with
  | O => None
  | S f =>
      let d := Z.min (Z.of_nat w) (Z.of_nat n - Z.of_nat i) in
      let dn := Z.to_nat d in
      let dl := firstn dn (skipn i cur) in
      let ul := ints idx dn in
      if Z.of_nat i + d =? Z.of_nat n then Some [(ul, dl, Nat.max (length ul) (length dl))]
      else do r <- mps_loop f n w c (firstn i cur ++ ul ++ skipn (i + dn) cur) (idx + d) (i + c); Some ((ul, dl, c) :: r)
  end.
Definition gaussian_mps (fuel n w c : nat) : option (list (list Z * list Z * nat)) :=
  if Nat.eqb c 0 then None else mps_loop fuel n w c (ints 0 n) (Z.of_nat n) 0.
