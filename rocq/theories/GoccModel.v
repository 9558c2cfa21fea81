(** Model of the occupations of Gaussian networks and of UHFTensorNetwork (pyblock3/gaussian/core.py):
    get_occupations (310-322, 756-769), set_occ_half_filling (338-348, 597-609, 771-784), UHF set_occupations (786-808), UHF
    fit_rdm1 (617-684) and make_rdm1 (686-716).  torch indexing: dm[0, :, idx] has the rows first (unlike numpy).
    Parameters as in GfitModel. *)
From Coq Require Import ZArith Bool List.
From Verif Require Import DictLib IndexLib RingLib OptLib GaussModel GfitModel.
Import ListNotations.
Open Scope Z_scope.

(** *** the loop "for l in layers: for its in l: for i in range(len(occs)): occs[i] = val(ix); ix += 1".
    nocc is len(core_occ) (None: core_occ is None), put writes the occupations; ks are the numbers of the tensors *)
Section Assign.
Variables (T V : Type) (nocc : T -> option nat) (put : T -> list V -> option T) (val : nat -> option V).
Definition assign_step (st : nat * list T) (its : nat) : option (nat * list T) :=
  do t <- nth_error (snd st) its;
  do k <- nocc t;
  do vs <- mapM val (seq (fst st) k);
  do t' <- put t vs;
  Some ((fst st + k)%nat, set_nth its t' (snd st)).
Definition assign (ks : list nat) (ts : list T) : option (nat * list T) := foldM assign_step (0%nat, ts) ks.
End Assign.

Section Occ.
Variable R : CRing.
Notation mat := (nat -> nat -> R).
Notation gt := (gt R).
(* numbers of the tensors, layer by layer *)
Definition layer_nums (ts : list gt) : option (list nat) := do ls <- get_layers R ts; Some (map fst (concat ls)).
Definition put_occ (t : gt) (vs : list R) : option gt := Some (GT R (g_u t) (g_d t) (g_core t) (g_rot t) vs).
(* 310-322 *)
Definition get_occupations (ts : list gt) : option (list R) :=
  do ks <- layer_nums ts;
  do os <- mapM (fun k => do t <- nth_error ts k; Some (g_occ t)) ks;
  Some (concat os).
(* 597-609 with high = _high_occ (2 for RHF, 1 for GHF); 338-348 with high = 1 *)
Definition set_half_filling (high : R) (ts : list gt) : option (list gt) :=
  do ks <- layer_nums ts;
  do (ix, ts') <- assign gt R (fun t => Some (length (g_occ t))) put_occ (fun ix => Some (if Nat.odd ix then high else r0 R)) ks ts;
  Some ts'.

(** *** UHF: data and core_occ have two parts; core_occ may be None *)
Record ut := UT { u_u : list Z; u_d : list Z; u_core : nat; u_rot : mat * mat; u_occ : option (list R * list R) }.
Definition u_legs (t : ut) : gt := GT R (u_u t) (u_d t) (u_core t) (fun _ _ => r0 R) [].
(* 756-769 *)
Definition u_get_occupations (us : list ut) : option (list R * list R) :=
  do ks <- layer_nums (map u_legs us);
  do os <- mapM (fun k => do t <- nth_error us k; u_occ t) ks;
  Some (concat (map fst os), concat (map snd os)).
(* occa[i] = ..., occb[i] = ... for i < len(occa) *)
Definition u_put (t : ut) (vs : list (R * R)) : option ut :=
  match u_occ t with
  | None => Some (UT (u_u t) (u_d t) (u_core t) (u_rot t) (Some (map fst vs, map snd vs)))
  | Some (oa, ob) => if (length ob <? length oa)%nat then None
                     else Some (UT (u_u t) (u_d t) (u_core t) (u_rot t) (Some (map fst vs, map snd vs ++ skipn (length vs) ob)))
  end.
(* 771-784 *)
Definition u_set_half_filling (us : list ut) : option (list ut) :=
  do ks <- layer_nums (map u_legs us);
  do (ix, us') <- assign ut (R * R) (fun t => option_map (fun o => length (fst o)) (u_occ t)) u_put
                    (fun ix => Some (if Nat.even ix then (r1 R, r0 R) else (r0 R, r1 R))) ks us;
  Some us'.
(* 786-808; core_occ = None is replaced by n_core zeros *)
Definition u_set_occupations (us : list ut) (oa ob : list R) : option (list ut) :=
  do ks <- layer_nums (map u_legs us);
  do (ix, us') <- assign ut (R * R) (fun t => Some (match u_occ t with Some o => length (fst o) | None => u_core t end)) u_put
                    (fun ix => do a <- nth_error oa ix; do b <- nth_error ob ix; Some (a, b)) ks us;
  if Nat.eqb ix (length oa) && Nat.eqb ix (length ob) then Some us' else None.

(* 686-716 *)
Definition u_back_step (us : list ut) (st : dict Z nat * mat * mat) (its : nat) : option (dict Z nat * mat * mat) :=
  let '(m, da, db) := st in
  do t <- nth_error us its;
  do eff <- mapM (dget Z.eqb m) (u_u t);
  do dmc <- mapM (dget Z.eqb m) (firstn (u_core t) (u_u t));
  do (oa, ob) <- u_occ t;
  if negb (Nat.eqb (length oa) (length dmc)) then None else
  if negb (Nat.eqb (length ob) (length dmc)) then None else
  let da := set_diag R dmc oa da in
  let db := set_diag R dmc ob db in
  let da := rot_cols R eff (fst (u_rot t)) (rot_rows R eff (fst (u_rot t)) da) in
  let db := rot_cols R eff (snd (u_rot t)) (rot_rows R eff (snd (u_rot t)) db) in
  Some (retag (u_u t) (u_d t) m, da, db).
Definition u_make_rdm1 (us : list ut) : option (nat * mat * mat) :=
  do ks <- layer_nums (map u_legs us);
  do (m, da, db) <- foldM (u_back_step us) (positions (terminal_indices R (map u_legs us)), (fun _ _ => r0 R), (fun _ _ => r0 R)) (rev ks);
  do re <- mapM (dget Z.eqb m) (initial_indices R (map u_legs us));
  Some (length re, (fun i j => da (nth i re 0%nat) (nth j re 0%nat)), (fun i j => db (nth i re 0%nat) (nth j re 0%nat))).

(* 645-682 *)
Variable eigh : nat -> mat -> list R * mat.
Variable order : list R -> list nat.
Variable neg : nat -> mat -> bool.
Variable rnd : R -> R.
Definition u_fit_step (st : dict Z nat * mat * mat * list ut) (its : nat) : option (dict Z nat * mat * mat * list ut) :=
  let '(m, da, db, us) := st in
  do t <- nth_error us its;
  do eff <- mapM (dget Z.eqb m) (u_d t);
  let '(xa, ua) := local_eig R eigh order neg (length eff) (fun i j => da (nth i eff 0%nat) (nth j eff 0%nat)) in
  let '(xb, ub) := local_eig R eigh order neg (length eff) (fun i j => db (nth i eff 0%nat) (nth j eff 0%nat)) in
  let t' := UT (u_u t) (u_d t) (u_core t) (ua, ub) (Some (map rnd (firstn (u_core t) xa), map rnd (firstn (u_core t) xb))) in
  let da := rot_cols R eff (transp R ua) (rot_rows R eff (transp R ua) da) in
  let db := rot_cols R eff (transp R ub) (rot_rows R eff (transp R ub) db) in
  Some (retag (u_d t) (u_u t) m, da, db, set_nth its t' us).
(* 617-684, dm_idxs = None, dm with two parts *)
Definition u_fit_rdm1 (us : list ut) (da db : mat) : option (list ut) :=
  do ks <- layer_nums (map u_legs us);
  do (m, da', db', us') <- foldM u_fit_step (positions (initial_indices R (map u_legs us)), da, db, us) ks;
  Some us'.
(* 626-628: dm of two dimensions *)
Definition u_fit_rdm1_total (hlf : R -> R) (us : list ut) (d : mat) : option (list ut) :=
  u_fit_rdm1 us (fun i j => hlf (d i j)) (fun i j => hlf (d i j)).
End Occ.
Arguments u_u {R}. Arguments u_d {R}. Arguments u_core {R}. Arguments u_rot {R}. Arguments u_occ {R}.
