(** Model of FCIDUMP.build (pyblock3/fcidump.py 99-197) and of t and v (199-211).  Numbers are elements of a commutative ring;
    an array is its index function (zero at first); None = an exception.  An operator is its name, site and spin
    (site_index = (site, spin)); its q_label is not read by build.  A term is an OpString: operators and factor. *)
From Coq Require Import ZArith Bool List.
From Verif Require Import RingLib OptLib.
Import ListNotations.

Section Build.
Variable K : CRing.
Inductive oname := OC | OD.
Record op := mkOp { o_name : oname; o_site : nat; o_spin : nat }.
Definition term := (list op * K)%type.
Definition arr2 := nat -> nat -> K.
Definition arr4 := nat -> nat -> nat -> nat -> K.
Definition cnt4 := nat -> nat -> nat -> nat -> nat.
Definition is_c (o : op) : bool := match o_name o with OC => true | OD => false end.
Definition is_d (o : op) : bool := negb (is_c o).
(* a[i, j] = x *)
Definition put2 (a : arr2) (i j : nat) (x : K) : arr2 := fun p q => if Nat.eqb p i && Nat.eqb q j then x else a p q.
Definition put4 {A : Type} (a : nat -> nat -> nat -> nat -> A) (i j k l : nat) (x : A) : nat -> nat -> nat -> nat -> A :=
  fun p q r s => if Nat.eqb p i && Nat.eqb q j && Nat.eqb r k && Nat.eqb s l then x else a p q r s.
(* a[i, j, k, l] += 1 *)
Definition inc4 (a : cnt4) (i j k l : nat) : cnt4 := put4 a i j k l (a i j k l + 1)%nat.

(* 110-115, the list of codes of one term: -1 is skipped; c_op and d_op have n_sites rows and two columns *)
Definition decode (n : nat) (i : Z) : option op :=
  do nm <- match (i / 16384)%Z with 0%Z | (-2)%Z => Some OC | 1%Z | (-1)%Z => Some OD | _ => None end;
  let m := Z.to_nat ((i mod 16384) / 2) in
  if (m <? n)%nat then Some (mkOp nm m (Z.to_nat (i mod 2))) else None.
Definition decode_term (n : nat) (t : list Z) : option (list op) := mapM (decode n) (filter (fun i => negb (Z.eqb i (-1))) t).
(* 110-115: (factors, codes); a term left None fails the assertion in 126/150 *)
Definition codes_terms (n : nat) (xs : list K) (ts : list (list Z)) : option (list term) :=
  do l <- mapM (fun p => do ops <- decode_term n (snd p); Some (ops, fst p)) (combine xs ts);
  if Nat.eqb (length l) (length xs) then Some l else None.

(* 125-138 *)
Definition rhf_step (st : arr2 * arr4 * cnt4) (t : term) : option (arr2 * arr4 * cnt4) :=
  let '(h, g, c) := st in
  match fst t with
  | [a; b] => if is_c a && is_d b then Some (put2 h (o_site a) (o_site b) (snd t), g, c) else None
  | [a1; a2; b1; b2] =>
      if is_c a1 && is_c a2 && (is_d b1 && is_d b2) then
        Some (h, put4 g (o_site a1) (o_site b2) (o_site a2) (o_site b1) (snd t), inc4 c (o_site a1) (o_site b2) (o_site a2) (o_site b1))
      else None
  | _ => None
  end.
(* 139-144, 185-191 *)
Definition doubled (n : nat) (g : arr4) (c : cnt4) : arr4 := fun i j k l =>
  if (i <? n)%nat && (j <? n)%nat && (k <? n)%nat && (l <? n)%nat && (Nat.eqb (c i j k l) 2 || Nat.eqb (c i j k l) 4) then radd K (g i j k l) (g i j k l)
  else g i j k l.
(* 119-144 *)
Definition build_rhf (n : nat) (ts : list term) : option (arr2 * arr4) :=
  do st <- foldM rhf_step ((fun _ _ => r0 K), (fun _ _ _ _ => r0 K), (fun _ _ _ _ => 0%nat)) ts;
  let '(h, g, c) := st in Some (h, doubled n g c).

(* 145-184; h[s], g[x] with x in 0, 1, 2 (aa, ab, bb); tuples of three: index -1 is index 2 *)
Definition at_x {A : Type} (g : nat -> A) (x : nat) (a : A) : nat -> A := fun y => if Nat.eqb y x then a else g y.
Definition pyidx3 (x : Z) : nat := Z.to_nat (if (x <? 0)%Z then x + 3 else x)%Z.
Definition ust := ((nat -> arr2) * (nat -> arr4) * (nat -> cnt4))%type.
(* g2e[x][i, j, k, l] = f; g2ec[x][i, j, k, l] += 1 *)
Definition put_x (st : ust) (x : Z) (i j k l : nat) (f : K) : ust :=
  let '(h, g, c) := st in let y := pyidx3 x in (h, at_x g y (put4 (g y) i j k l f), at_x c y (inc4 (c y) i j k l)).
Definition uhf_step (st : ust) (t : term) : option ust :=
  match fst t with
  | [a; b] =>
      if is_c a && is_d b && Nat.eqb (o_spin a) (o_spin b) then
        let '(h, g, c) := st in Some (at_x h (o_spin a) (put2 (h (o_spin a)) (o_site a) (o_site b) (snd t)), g, c)
      else None
  | [a1; a2; b1; b2] =>
      if is_c a1 && is_c a2 && (is_d b1 && is_d b2) && Nat.eqb (o_spin a1) (o_spin b2) && Nat.eqb (o_spin a2) (o_spin b1) then
        let x := (-1)%Z in
        let '(x, st) :=
          if Nat.eqb (o_spin a1) 0 && Nat.eqb (o_spin a2) 0 then (0%Z, st)
          else if Nat.eqb (o_spin a1) 1 && Nat.eqb (o_spin a2) 1 then (2%Z, st)
          else if Nat.eqb (o_spin a1) 0 && Nat.eqb (o_spin a2) 1 then (1%Z, st)
          else (x, put_x st x (o_site a2) (o_site b1) (o_site a1) (o_site b2) (snd t)) in
        Some (if Z.eqb x (-1) then st else put_x st x (o_site a1) (o_site b2) (o_site a2) (o_site b1) (snd t))
      else None
  | _ => None
  end.
(* 145-191 *)
Definition build_uhf (n : nat) (ts : list term) : option ((nat -> arr2) * (nat -> arr4)) :=
  do st <- foldM uhf_step ((fun _ _ _ => r0 K), (fun _ _ _ _ _ => r0 K), (fun _ _ _ _ _ => 0%nat)) ts;
  let '(h, g, c) := st in Some (h, fun x => doubled n (g x) (c x)).

(* 202-209, uhf *)
Definition v_uhf (g : nat -> arr4) (sij skl i j k l : nat) : K :=
  if Nat.eqb sij skl then g (sij + sij)%nat i j k l
  else if Nat.eqb sij 0 && Nat.eqb skl 1 then g 1%nat i j k l else g 1%nat k l i j.
End Build.
Arguments mkOp _ _ _ : assert.
