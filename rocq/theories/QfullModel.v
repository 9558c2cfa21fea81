(** Model of Hamiltonian.build_qc_mpo, general (not flat) branch (pyblock3/hamiltonian.py 191-193): QCSymbolicMPO (symbolic/symbolic_mpo.py
    493-497: the operators of the symbols, deflate) followed by MPS.to_sparse (algebra/mps.py 657-664).
    The tables are those of QcModel, the operators those of SiteModel, the conversion that of TosModel and FullModel (which see).
    A set of symbols has the order of their first occurrence.  None = exception, also for an entry 0 among the row and column names. *)
From Coq Require Import ZArith Bool List.
From Verif Require Import SymModel SymProofs DictLib IndexLib OptLib RingLib FuseModel MpsModel SiteModel QcModel TosModel FullModel.
Import ListNotations.
Open Scope Z_scope.

(* expr.py 148-159: equal name and site_index (the factor of abs(op) is 1) *)
Definition qop_eqb (a b : qop) : bool :=
  match a, b with
  | QI, QI | QH, QH => true
  | QC j s, QC j' s' | QD j s, QD j' s' | QR j s, QR j' s' | QRD j s, QRD j' s' => (j =? j') && (s =? s')
  | QA i j s u, QA i' j' s' u' | QAD i j s u, QAD i' j' s' u' | QB i j s u, QB i' j' s' u'
  | QP i j s u, QP i' j' s' u' | QPD i j s u, QPD i' j' s' u' | QQ i j s u, QQ i' j' s' u' => (i =? i') && (j =? j') && (s =? s') && (u =? u')
  | _, _ => false
  end.

Section Qfull.
Variable R : CRing.
Variable half : R.
Variable small : R -> bool.
Variable iszero : R -> bool.
Variable osym : Z -> Z.
Variable t : Z -> Z -> Z -> R.
Variable v : Z -> Z -> Z -> Z -> Z -> Z -> R.
Variable symmetrized_p : bool.
Variable n : Z.
Notation L := SZ_label.
Notation opdict := (dict qop (opval R)).

(* symbolic.py 42-43, get_symbols; hamiltonian.py 385-387, get_site_ops: one operator per symbol *)
Definition add_op (m : Z) (d : opdict) (c : option (fsym R)) : option opdict :=
  match c with
  | None => Some d
  | Some (_, o) => do x <- get_op R half small osym t v m (named o); Some (dset qop_eqb d o x)
  end.
Definition site_ops (m : Z) (cs : list (option (fsym R))) : option opdict := foldM (add_op m) [] cs.

(* symbolic.py 263-272, deflate: an entry without operator, with the number 0 or with no blocks becomes the number 0 *)
Definition no_blocks (x : opval R) : bool :=
  match x with Zero _ => true | Op _ x => (length (f_odd R x) + length (f_even R x) =? 0)%nat end.
Definition ddel (d : opdict) (o : qop) : opdict := filter (fun kv => negb (qop_eqb o (fst kv))) d.
Fixpoint deflate_cells (d : opdict) (cs : list (option (fsym R))) : opdict * list (option (fsym R)) :=
  match cs with
  | [] => (d, [])
  | c :: cs' =>
      let '(d1, c1) := match c with
                       | None => (d, None)
                       | Some (f, o) => match dget qop_eqb d o with
                                        | None => (d, None)
                                        | Some x => if no_blocks x then (ddel d o, None) else (d, Some (f, o))
                                        end
                       end in
      let '(d2, cs2) := deflate_cells d1 cs' in (d2, c1 :: cs2)
  end.
(* q_label of the names (lop, rop) *)
Definition labels_of (l : list (option (fsym R))) : option (list L) := mapM (option_map (fun fo : fsym R => q_label osym (snd fo) : L)) l.
(* symbolic_mpo.py 158-162: SymbolicRowVector for the first site, SymbolicColumnVector for the last, SymbolicMatrix else;
   176-185: a matrix forgets its entries 0 *)
Definition shape_mat (m : Z) (ps : list (Z * Z)) (cs : list (option (fsym R))) : smat R qop :=
  if m =? 0 then RowV R qop cs
  else if m =? n - 1 then ColV R qop cs
  else Mat R qop (filter (fun e => match snd e with Some _ => true | None => false end)
                    (combine (map (fun p => (Z.to_nat (fst p), Z.to_nat (snd p))) ps) cs)).
Definition qc_stab (m : Z) : option (stab R qop) :=
  do s <- qc_site R half iszero v symmetrized_p n m;
  do d <- site_ops m (map snd (s_mat R s));
  let '(d', cs) := deflate_cells d (map snd (s_mat R s)) in
  do l <- labels_of (s_lop R s);
  do r <- labels_of (s_rop R s);
  Some (mkStab R qop (shape_mat m (map fst (s_mat R s)) cs) d' l r).
(* QCSymbolicMPO(self).to_sparse(): dq = None *)
Definition build_qc_mpo : option (list (MpsModel.site R L)) :=
  do ys <- mapM qc_stab (zrange n);
  mps_to_sparse R qop qop_eqb None ys.
End Qfull.
