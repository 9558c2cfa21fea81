(** Model of pyblock3/algebra/mpe.py: class MPE (environments, windows) and class CachedMPE (disk cache).
    Tensors are opaque: T site tensors, R bond matrices, E environments, M operator site tensors.  The tensor
    operations used by the code are parameters: canonicalisation, absorption of a bond matrix, contraction of an
    environment with one site.  mpi=False.  left_envs / right_envs are total maps to [option E]: [None] stands both for
    a missing key and for a stored None (the code tests "i not in self.left_envs or self.left_envs[i] is None"). *)
From Coq Require Import ZArith Bool List Ascii String.
From Verif Require Import DictLib IndexLib.
Import ListNotations.
Open Scope Z_scope.

Definition upd {A : Type} (f : Z -> A) (i : Z) (v : A) : Z -> A := fun j => if j =? i then v else f j.

Section Mpe.
Variables T R E M : Type.
Variable idL idR : E.                     (* self.idents[0], self.idents[1] *)
Variable mpo : Z -> M.
Variable n : Z.                           (* n_sites *)
Variable do_canon : bool.
Variable lcanon : T -> T * R.             (* left_canonicalize *)
Variable rcanon : T -> R * T.             (* right_canonicalize *)
Variable absl : R -> T -> T.              (* np.tensordot(r, mps[i + 1], axes=1) *)
Variable absr : T -> R -> T.              (* np.tensordot(mps[i - 1], l, axes=1) *)
(* hdot with mpo[i], then the two rotations by ket[i] and bra[i].conj() and the transpose (145-148, 158-164) *)
Variable lstep : E -> M -> T -> T -> E.
(* the mirror image (173-174, 186-192) *)
Variable rstep : M -> E -> T -> T -> E.

Record mpe := mkMpe {
  ket : Z -> T;
  bra_own : Z -> T;        (* the tensors of bra when it is a different object *)
  same : bool;             (* bra is ket *)
  lenv : Z -> option E;
  renv : Z -> option E
}.
Definition bra (s : mpe) : Z -> T := if same s then ket s else bra_own s.

(* 54-76: a fresh object has no environments *)
Definition init (k b : Z -> T) (sm : bool) : mpe := mkMpe k b sm (fun _ => None) (fun _ => None).

(* 86-97: copy makes two new MPS objects even when bra is ket *)
Definition copy (s : mpe) : mpe := mkMpe (ket s) (bra s) false (lenv s) (renv s).

(* 126-129 *)
Definition lcanon_site (f : Z -> T) (i : Z) : Z -> T :=
  let (q, r) := lcanon (f i) in upd (upd f i q) (i + 1) (absl r (f (i + 1))).
(* 131-134 *)
Definition rcanon_site (f : Z -> T) (i : Z) : Z -> T :=
  let (l, q) := rcanon (f i) in upd (upd f i q) (i - 1) (absr (f (i - 1)) l).

(* 149-153 / 178-182 *)
Definition canon_both (cs : (Z -> T) -> Z -> Z -> T) (s : mpe) (i : Z) : mpe :=
  if do_canon then
    mkMpe (cs (ket s) i) (if same s then bra_own s else cs (bra_own s) i) (same s) (lenv s) (renv s)
  else s.

(* 136-165: _left_contract_rotate; None = exception (prev is None) *)
Definition left_contract_rotate (s : mpe) (i : Z) (prev : option E) : option (mpe * E) :=
  if i =? -1 then Some (s, idL)
  else match prev with
       | None => None
       | Some p =>
           let s' := canon_both lcanon_site s i in
           Some (s', lstep p (mpo i) (ket s' i) (bra s' i))
       end.
(* 167-193: _right_contract_rotate *)
Definition right_contract_rotate (s : mpe) (i : Z) (prev : option E) : option (mpe * E) :=
  if i =? n then Some (s, idR)
  else match prev with
       | None => None
       | Some p =>
           let s' := canon_both rcanon_site s i in
           Some (s', rstep (mpo i) p (ket s' i) (bra s' i))
       end.

Definition set_lenv (s : mpe) (i : Z) (e : option E) : mpe := mkMpe (ket s) (bra_own s) (same s) (upd (lenv s) i e) (renv s).
Definition set_renv (s : mpe) (i : Z) (e : option E) : mpe := mkMpe (ket s) (bra_own s) (same s) (lenv s) (upd (renv s) i e).

Definition build_left1 (s : mpe) (i : Z) : option mpe :=
  match lenv s i with
  | Some _ => Some s
  | None => match left_contract_rotate s i (lenv s (i - 1)) with
            | Some (s', e) => Some (set_lenv s' i (Some e))
            | None => None
            end
  end.
Definition build_right1 (s : mpe) (i : Z) : option mpe :=
  match renv s i with
  | Some _ => Some s
  | None => match right_contract_rotate s i (renv s (i + 1)) with
            | Some (s', e) => Some (set_renv s' i (Some e))
            | None => None
            end
  end.
Fixpoint foldo {A B : Type} (f : A -> B -> option A) (l : list B) (a : A) : option A :=
  match l with
  | [] => Some a
  | x :: l' => match f a x with Some a' => foldo f l' a' | None => None end
  end.
(* range(-1, l) and range(n_sites, r - 1, -1) *)
Definition lsites (l : Z) : list Z := map (fun j => j - 1) (zrange (l + 1)).
Definition rsites (r : Z) : list Z := map (fun j => n - j) (zrange (n - r + 1)).
(* 218-229: build_envs *)
Definition build_envs (s : mpe) (l r : Z) : option mpe :=
  let s0 := set_renv (set_lenv s (-2) None) (n + 1) None in
  match foldo build_left1 (lsites l) s0 with
  | Some s1 => foldo build_right1 (rsites r) s1
  | None => None
  end.

(* what the effective problem is made of (231-279): left environment, right environment, window of ket and bra *)
Record eff := mkEff { eL : option E; eR : option E; eket : Z -> T; ebra : Z -> T }.
(* 271-279: _effective works on a copy; the object itself is unchanged *)
Definition effective (s : mpe) (l r : Z) : option (mpe * eff) :=
  match build_envs (copy s) l r with
  | Some c => Some (c, mkEff (lenv c (l - 1)) (renv c r) (ket c) (bra c))
  | None => None
  end.

Definition splice (f g : Z -> T) (l r : Z) : Z -> T := fun j => if (l <=? j) && (j <? r) then g j else f j.
(* 281-292: _embedded; nk, nb are the new tensors of the window (indexed by site), me_same: me.ket is me.bra *)
Definition embedded (s : mpe) (l r : Z) (nk nb : Z -> T) (me_same : bool) : option mpe :=
  match build_envs s l r with
  | Some s1 =>
      let nb' := if me_same then nk else nb in
      let k' := splice (ket s1) (if same s1 then nb' else nk) l r in
      Some (mkMpe k' (splice (bra_own s1) nb' l r) (same s1)
              (fun i => if (l <=? i) && (i <=? n) then None else lenv s1 i)
              (fun i => if (-1 <=? i) && (i <=? r - 1) then None else renv s1 i))
  | None => None
  end.

(** *** Histories *)
Inductive op :=
| Read (l r : Z)                                            (* mpe[l:r] *)
| Write (l r : Z) (nk nb : Z -> T) (me_same : bool)         (* mpe[l:r] = me *)
| Build (l r : Z).                                          (* mpe.build_envs(l, r) *)
Definition step (s : mpe) (o : op) : option mpe :=
  match o with
  | Read l r => match effective s l r with Some _ => Some s | None => None end
  | Write l r nk nb b => embedded s l r nk nb b
  | Build l r => build_envs s l r
  end.
Definition run (s : mpe) (h : list op) : option mpe := foldo step h s.
End Mpe.

(** ** CachedMPE: the cache (478-503) *)
Notation fname := string.
Section Cache.
Variable V : Type.
(* cached: list of [name, value, clean flag]; disk: name -> value *)
Record cache := mkCache { cached : list (fname * V * bool); disk : dict fname V }.
Definition centry := (fname * V * bool)%type.

Definition in_cache (c : cache) (fn : fname) : bool := existsb (fun e => String.eqb (fst (fst e)) fn) (cached c).
Definition cache_get (c : cache) (fn : fname) : option V :=
  match find (fun e => String.eqb (fst (fst e)) fn) (cached c) with Some e => Some (snd (fst e)) | None => None end.
(* 486-490, 499-503: evict the oldest entry when the list is too long, writing it to disk unless clean *)
Definition evict (maxsize : Z) (c : cache) : cache :=
  if Z.of_nat (List.length (cached c)) >? maxsize then
    match cached c with
    | [] => c
    | (fn, x, clean) :: rest => mkCache rest (if clean then disk c else dset String.eqb (disk c) fn x)
    end
  else c.
(* 480-491: _load_data; None = the file does not exist *)
Definition load_data (maxsize : Z) (c : cache) (fn : fname) : option (cache * V) :=
  if in_cache c fn then
    match cache_get c fn with Some x => Some (c, x) | None => None end
  else match dget String.eqb (disk c) fn with
       | Some x => Some (evict maxsize (mkCache (cached c ++ [(fn, x, true)]) (disk c)), x)
       | None => None
       end.
(* 493-503: _save_data; line 495 assigns to a slice of a temporary list, the cache does not change *)
Definition save_data (maxsize : Z) (c : cache) (fn : fname) (x : V) : cache :=
  if in_cache c fn then c
  else evict maxsize (mkCache (cached c ++ [(fn, x, false)]) (disk c)).

Inductive cop := Save (fn : fname) (x : V) | Load (fn : fname).
(* None = a load failed; the list collects the values returned by the loads *)
Fixpoint crun (maxsize : Z) (c : cache) (h : list cop) : option (cache * list V) :=
  match h with
  | [] => Some (c, [])
  | Save fn x :: h' => crun maxsize (save_data maxsize c fn x) h'
  | Load fn :: h' =>
      match load_data maxsize c fn with
      | Some (c', v) => match crun maxsize c' h' with Some (c'', vs) => Some (c'', v :: vs) | None => None end
      | None => None
      end
  end.
End Cache.

(** ** CachedMPE: environments by file name (441-538)
    Same code as MPE with the environment entries being either a value (the two identities) or a file name. *)
Section CachedMpe.
Variables T R E M : Type.
Variable idL idR : E.
Variable mpo : Z -> M.
Variable n : Z.
Variable do_canon : bool.
Variable lcanon : T -> T * R.
Variable rcanon : T -> R * T.
Variable absl : R -> T -> T.
Variable absr : T -> R -> T.
Variable lstep : E -> M -> T -> T -> E.
Variable rstep : M -> E -> T -> T -> E.
Variable maxsize : Z.

Inductive handle := HVal (e : E) | HName (fn : fname).
(* the MPE part holds handles; tag and cache in addition *)
Record cmpe := mkC { base : mpe T handle; cch : cache E; tag : string }.

(* "%d" of a site index *)
Fixpoint digits (fuel : nat) (i : nat) : string :=
  match fuel with
  | O => EmptyString
  | S f => let d := String (ascii_of_nat (48 + i mod 10)) EmptyString in
           if Nat.ltb i 10 then d else String.append (digits f (i / 10)) d
  end.
Definition dec (i : Z) : string :=
  if i <? 0 then String.append "-" (digits (S (Z.to_nat (- i))) (Z.to_nat (- i))) else digits (S (Z.to_nat i)) (Z.to_nat i).
(* 472-476 *)
Definition filename (tg : string) (left : bool) (i : Z) : fname :=
  String.append tg (String.append (if left then ".L." else ".R.") (dec i)).

(* 508-509, 520-521 *)
Definition fetch (c : cmpe) (h : handle) : option (cmpe * E) :=
  match h with
  | HVal e => Some (c, e)
  | HName fn => match load_data E maxsize (cch c) fn with
                | Some (k, e) => Some (mkC (base c) k (tag c), e)
                | None => None
                end
  end.

Definition cleft (c : cmpe) (i : Z) : option cmpe :=
  match lenv T handle (base c) i with
  | Some _ => Some c
  | None =>
      if i =? -1 then Some (mkC (set_lenv T handle (base c) i (Some (HVal idL))) (cch c) (tag c))
      else match lenv T handle (base c) (i - 1) with
           | None => None
           | Some h =>
               match fetch c h with
               | None => None
               | Some (c1, p) =>
                   let s' := canon_both T handle do_canon (lcanon_site T R lcanon absl) (base c1) i in
                   let x := lstep p (mpo i) (ket T handle s' i) (bra T handle s' i) in
                   let fn := filename (tag c1) true i in
                   Some (mkC (set_lenv T handle s' i (Some (HName fn))) (save_data E maxsize (cch c1) fn x) (tag c1))
               end
           end
  end.
Definition cright (c : cmpe) (i : Z) : option cmpe :=
  match renv T handle (base c) i with
  | Some _ => Some c
  | None =>
      if i =? n then Some (mkC (set_renv T handle (base c) i (Some (HVal idR))) (cch c) (tag c))
      else match renv T handle (base c) (i + 1) with
           | None => None
           | Some h =>
               match fetch c h with
               | None => None
               | Some (c1, p) =>
                   let s' := canon_both T handle do_canon (rcanon_site T R rcanon absr) (base c1) i in
                   let x := rstep (mpo i) p (ket T handle s' i) (bra T handle s' i) in
                   let fn := filename (tag c1) false i in
                   Some (mkC (set_renv T handle s' i (Some (HName fn))) (save_data E maxsize (cch c1) fn x) (tag c1))
               end
           end
  end.
Definition cbuild (c : cmpe) (l r : Z) : option cmpe :=
  let c0 := mkC (set_renv T handle (set_lenv T handle (base c) (-2) None) (n + 1) None) (cch c) (tag c) in
  match foldo cleft (lsites l) c0 with
  | Some c1 => foldo cright (rsites n r) c1
  | None => None
  end.

(* 457-470: copy: new tag, own copy of the cache list, shared disk *)
Definition ccopy (c : cmpe) : cmpe := mkC (copy T handle (base c)) (cch c) (String.append (tag c) "@TMP").

(* 271-279 with 527-538: the environments are loaded when the effective operator is built;
   the files written by the copy stay on the shared disk *)
Definition ceffective (c : cmpe) (l r : Z) : option (cmpe * eff T E) :=
  match cbuild (ccopy c) l r with
  | Some d =>
      match lenv T handle (base d) (l - 1), renv T handle (base d) r with
      | Some hl, Some hr =>
          match fetch d hl with
          | Some (d1, el) =>
              match fetch d1 hr with
              | Some (d2, er) =>
                  Some (mkC (base c) (mkCache E (cached E (cch c)) (disk E (cch d2))) (tag c),
                        mkEff T E (Some el) (Some er) (ket T handle (base d2)) (bra T handle (base d2)))
              | None => None
              end
          | None => None
          end
      | _, _ => None
      end
  | None => None
  end.

Definition cembedded (c : cmpe) (l r : Z) (nk nb : Z -> T) (me_same : bool) : option cmpe :=
  match cbuild c l r with
  | Some d =>
      let s1 := base d in
      let nb' := if me_same then nk else nb in
      let k' := splice T (ket T handle s1) (if same T handle s1 then nb' else nk) l r in
      Some (mkC (mkMpe T handle k' (splice T (bra_own T handle s1) nb' l r) (same T handle s1)
              (fun i => if (l <=? i) && (i <=? n) then None else lenv T handle s1 i)
              (fun i => if (-1 <=? i) && (i <=? r - 1) then None else renv T handle s1 i)) (cch d) (tag d))
  | None => None
  end.

Definition cstep (c : cmpe) (o : op T) : option cmpe :=
  match o with
  | Read _ l r => match ceffective c l r with Some (c', _) => Some c' | None => None end
  | Write _ l r nk nb b => cembedded c l r nk nb b
  | Build _ l r => cbuild c l r
  end.
Definition crun_ops (c : cmpe) (h : list (op T)) : option cmpe := foldo cstep h c.
Definition cinit (k b : Z -> T) (sm : bool) (tg : string) : cmpe :=
  mkC (mkMpe T handle k b sm (fun _ => None) (fun _ => None)) (mkCache E [] []) tg.
End CachedMpe.
