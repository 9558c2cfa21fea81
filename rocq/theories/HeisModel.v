(** Model of pyblock3/heisenberg.py: the basis of a site (58-61), the spin operators (get_site_ops 143-174) and the terms
    of the Hamiltonian (build_mpo 105-110).  Numbers are exact real numbers.  Every block is 1 x 1, so an operator is the
    list of (row label, column label, value) of its even part, as in SiteModel. *)
From Coq Require Import ZArith Reals Bool List.
From Verif Require Import SymModel IndexLib RingLib OptLib SiteModel.
Import ListNotations.
Open Scope Z_scope.

Definition R_ring : CRing := Build_CRing R 0%R 1%R Rplus Rmult Rminus Ropp RTheory.
(* range(a, b, 2) *)
Definition range2 (a b : Z) : list Z := map (fun k => a + 2 * k) (zrange ((b - a + 1) / 2)).
(* 58-61: the keys of the basis, increasing *)
Definition hz_basis (tj : Z) : list SZ := map (fun j => mkSZ 0 j 0) (range2 (- tj) (tj + 1)).
(* core.py:482-508 for two legs, pattern "+-" *)
Definition hz_zeros (tj : Z) (dq : SZ) : spt R_ring :=
  map (fun q => (q, r0 R_ring))
    (filter (fun q : SZ * SZ => sz_eqb (fst q) (sz_sub dq (sz_neg (snd q)))) (list_prod (hz_basis tj) (hz_basis tj))).
(* for tm in ...: repr.even[SZ(0, tm, 0)][0, 0] = value *)
Definition hz_fill (vals : list (Z * R)) (t : spt R_ring) : option (spt R_ring) :=
  foldM (fun t e => set_at R_ring t (mkSZ 0 (fst e) 0) (snd e)) t vals.
(* 143-148 *)
Definition hz_i (tj : Z) : option (spt R_ring) :=
  hz_fill (map (fun tm => (tm, 1%R)) (range2 (- tj) (tj + 1))) (hz_zeros tj (mkSZ 0 0 0)).
(* 150-153 *)
Definition hz_h (tj : Z) : option (spt R_ring) := Some (hz_zeros tj (mkSZ 0 0 0)).
(* 155-160 *)
Definition hz_sp (tj : Z) : option (spt R_ring) :=
  hz_fill (map (fun tm => (tm, sqrt (IZR ((tj - tm) * (tj + tm + 2) / 4)))) (range2 (- tj) (tj - 1))) (hz_zeros tj (mkSZ 0 2 0)).
(* 162-167 *)
Definition hz_sm (tj : Z) : option (spt R_ring) :=
  hz_fill (map (fun tm => (tm, sqrt (IZR ((tj + tm) * (tj - tm + 2) / 4)))) (range2 (- tj + 2) (tj + 1))) (hz_zeros tj (mkSZ 0 (-2) 0)).
(* 169-174 *)
Definition hz_sz (tj : Z) : option (spt R_ring) :=
  hz_fill (map (fun tm => (tm, (IZR tm / 2)%R)) (range2 (- tj) (tj + 1))) (hz_zeros tj (mkSZ 0 0 0)).

(* 105-110: the terms of the Hamiltonian; None = AssertionError *)
Inductive spin_name := SP | SM | SZop.
Definition hz_terms (topology : list (Z * Z * R)) : option (list (R * list (spin_name * Z))) :=
  foldM (fun terms e => let '(i, j, v) := e in
    if i =? j then None else
    Some (terms ++ [((/ 2 * v)%R, [(SP, i); (SM, j)]); ((/ 2 * v)%R, [(SM, i); (SP, j)]); (v, [(SZop, i); (SZop, j)])]))
    [] topology.
Definition hz_op (tj : Z) (o : spin_name) : option (spt R_ring) :=
  match o with SP => hz_sp tj | SM => hz_sm tj | SZop => hz_sz tj end.
