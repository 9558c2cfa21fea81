(** Model of pyblock3/algebra/mps.py: MPS (144-474: ufuncs, _add, _dot) on SparseTensor and FermionTensor sites
    (algebra/core.py 434-1405 and 1412-2268).
    An MPS is its list of site tensors with the constant term.  Options (opts) stand for "compress afterwards": they are
    a parameter applied to the resulting tensors.  dq (used only when converting formats), flat and symbolic site tensors
    and numbers as operands of np.dot are not modelled.  None = exception. *)
From Coq Require Import ZArith Bool List.
From Verif Require Import SymModel SymProofs DictLib IndexLib OptLib RingLib BondModel FuseModel BlockModel StructModel.
Import ListNotations.
Open Scope Z_scope.

Section Mps.
Variable R : CRing.
Variable L : Label.
Notation tensor := (list (list L * nd R)).
Notation binfo := (dict L Z).

(* a site is a SparseTensor or a FermionTensor (core.py 1412-1431) *)
Inductive site := SP (t : tensor) | FT (odd even : tensor).
(* n_blocks: core.py 454-457 and 1443-1446 *)
Definition s_nblocks (s : site) : nat := match s with SP t => length t | FT o e => length o + length e end.
Definition s_empty (s : site) : bool := Nat.eqb (s_nblocks s) 0.
(* infos: core.py 531-541 and 1560-1568; union of the odd and the even part, leg by leg *)
Definition s_infos (s : site) : option (list binfo) :=
  match s with
  | SP t => sp_infos R L t
  | FT o e =>
      if ndim R L o =? 0 then sp_infos R L e else
      if ndim R L e =? 0 then sp_infos R L o else
      do io <- sp_infos R L o; do ie <- sp_infos R L e; Some (zip_with (bor L) io ie)
  end.
(* kron_add with given infos: core.py 985-1026 and 2033-2045 *)
Definition s_kron_add (lb rb : binfo) (a b : site) : option site :=
  match a, b with
  | SP x, SP y => Some (SP (sp_kron_add_with R L lb rb x y))
  | FT xo xe, FT yo ye => Some (FT (sp_kron_add_with R L lb rb xo yo) (sp_kron_add_with R L lb rb xe ye))
  | _, _ => None
  end.
(* np.add of two tensors: core.py 938-957 and 1489-1500 *)
Definition s_add (a b : site) : option site :=
  match a, b with
  | SP x, SP y => Some (SP (sp_add R L x y))
  | FT xo xe, FT yo ye => Some (FT (sp_add R L xo yo) (sp_add R L xe ye))
  | _, _ => None
  end.
(* ufunc with a number, or unary ufunc, block by block: core.py 611-618 and 1501-1514 *)
Definition s_map (f : R -> R) (s : site) : site :=
  match s with SP t => SP (sp_map R L f t) | FT o e => FT (sp_map R L f o) (sp_map R L f e) end.

(** *** MPS._add, mps.py 390-418 *)
(* infos[0] and infos[-1] of a tensor; None = IndexError *)
Definition end_infos (s : site) : option (binfo * binfo) :=
  do i <- s_infos s; match i with [] => None | i0 :: _ => Some (i0, last i []) end.
(* 406-412: the inner bonds and the last one *)
Fixpoint inner_bonds (ea eb : list (binfo * binfo)) : list binfo :=
  match ea with
  | [] => []
  | (_, ra) :: ea' =>
      match ea', eb with
      | [], _ => [ra]
      | (la, _) :: _, (_, rb) :: (((lb, _) :: _) as eb') => bplus L (bor L la ra) (bor L lb rb) :: inner_bonds ea' eb'
      | _, _ => []
      end
  end.
Definition sum_bonds (ea eb : list (binfo * binfo)) : list binfo :=
  match ea with [] => [] | (l0, _) :: _ => l0 :: inner_bonds ea eb end.
(* 414-417 *)
Fixpoint kron_all (bs : list binfo) (a b : list site) : option (list site) :=
  match a, b, bs with
  | [], [], _ => Some []
  | x :: a', y :: b', l :: ((r :: _) as bs') => do c <- s_kron_add l r x y; do cs <- kron_all bs' a' b'; Some (c :: cs)
  | _, _, _ => None
  end.
Definition add_tensors (a b : list site) : option (list site) :=
  if negb (Nat.eqb (length a) (length b)) then None else
  match a, b with
  | [x], [y] => do c <- s_add x y; Some [c]
  | _, _ =>
    if existsb s_empty a then Some b else
    if existsb s_empty b then Some a else
    match a with
    | [] => None
    | _ => do ea <- mapM end_infos a; do eb <- mapM end_infos b; kron_all (sum_bonds ea eb) a b
    end
  end.

(** *** MPS objects and ufuncs, mps.py 165-295 *)
Record mps := Mps { m_tensors : list site; m_const : R; m_opts : option (list site -> option (list site)) }.
(* 252-261: a + b; the sum is compressed if a has options *)
Definition mps_add (a b : mps) : option mps :=
  do ts <- add_tensors (m_tensors a) (m_tensors b);
  do ts' <- match m_opts a with Some compress => compress ts | None => Some ts end;
  Some (Mps ts' (radd R (m_const a) (m_const b)) (m_opts a)).
(* 262-275 and 276-284: one-argument ufuncs and products with numbers change the first tensor only *)
Definition on_first (f : R -> R) (a : mps) : option mps :=
  match m_tensors a with
  | [] => None
  | t :: ts => Some (Mps (s_map f t :: ts) (f (m_const a)) (m_opts a))
  end.
Definition mps_scale (c : R) (a : mps) : option mps := on_first (fun x => rmul R c x) a.
Definition mps_neg (a : mps) : option mps := on_first (ropp R) a.
(* 246-247: a - b is a + (-b) *)
Definition mps_sub (a b : mps) : option mps := do nb <- mps_neg b; mps_add a nb.
(* 248-251 *)
Definition mps_add_num (a : mps) (c : R) : mps := Mps (m_tensors a) (radd R (m_const a) c) (m_opts a).
(* 279-281: conjugate acts on every tensor *)
Definition mps_conj (cj : R -> R) (a : mps) : mps := Mps (map (s_map cj) (m_tensors a)) (cj (m_const a)) (m_opts a).

(** *** MPS._dot, mps.py 437-474 (SparseTensor sites) *)
Definition all_legs (t : tensor) : list Z := zrange (ndim R L t).
Definition all_but_last (t : tensor) : list Z := zrange (ndim R L t - 1).
(* 449-467 from site i on: [env] is None before the first site.  Some None = "return 0" *)
Fixpoint dot_loop (env : option tensor) (a b : list site) : option (option tensor) :=
  match a, b with
  | [], [] => Some env
  | x :: a', y :: b' =>
      if s_empty x || s_empty y then Some None else
      match x, y with
      | SP s, SP t =>
          if negb (ndim R L s =? ndim R L t) then None else
          let cidx := match a' with [] => all_legs s | _ => all_but_last s end in
          do new <- match env with
                    | None => sp_tensordot R L s t cidx cidx
                    | Some l => do lbra <- sp_tensordot R L l s [0] [0]; sp_tensordot R L lbra t cidx cidx
                    end;
          dot_loop (Some new) a' b'
      | _, _ => None
      end
  | _, _ => None
  end.
Definition mps_dot (a b : mps) : option R :=
  if negb (Nat.eqb (length (m_tensors a)) (length (m_tensors b))) then None else
  match m_tensors a, m_tensors b with
  | [], [] => Some (rmul R (m_const a) (m_const b))
  | ta, tb =>
      do env <- dot_loop None ta tb;
      match env with
      | None => Some (r0 R)
      | Some t => do r <- sp_item R L t; Some (radd R r (rmul R (m_const a) (m_const b)))
      end
  end.
End Mps.
Arguments SP {R L}. Arguments FT {R L}. Arguments Mps {R L}. Arguments m_tensors {R L}. Arguments m_const {R L}. Arguments m_opts {R L}.
