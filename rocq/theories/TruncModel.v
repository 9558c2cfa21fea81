(** Model of the truncation of singular values:
    pyblock3/algebra/core.py SparseTensor.truncate_svd 1224-1302 and FermionTensor.truncate_svd 2078-2185,
    pyblock3/algebra/impl/flat.py flat_sparse_truncate_svd 533-583 (choice of the kept values, same text as core.py),
    pyblock3/algebra/fermion.py _trim_singular_vals 224-303, _renorm_singular_vals 305-320, _trim_and_renorm_SVD 322-356.
    Numbers are elements of an arbitrary ordered commutative ring.  np.sqrt is a parameter sqrtK.  np.argsort (quicksort,
    not stable) is a parameter of which only "a permutation that sorts" is assumed.  b.norm > norm_cutoff in deflate is a
    parameter big.  Not modelled: NaN, rounding, dtype, cupy arrays. *)
From Coq Require Import ZArith Bool List Permutation Sorted.
From Verif Require Import DictLib IndexLib RingLib OrdLib.
Import ListNotations.
Open Scope Z_scope.

(* enumerate(l) *)
Definition enumerate {A : Type} (l : list A) : list (Z * A) := combine (zrange (Z.of_nat (length l))) l.
(* l[:n] *)
Definition py_take {A : Type} (l : list A) (n : Z) : list A :=
  firstn (Z.to_nat (if n <? 0 then Z.of_nat (length l) + n else n)) l.

Section Trunc.
Variable K : ORing.
Variable sqrtK : K -> K.
(* one singular value: sector number, position in the sector, value *)
Definition sv : Type := (Z * Z * K)%type.
Definition sv_i (x : sv) : Z := fst (fst x).
Definition sv_j (x : sv) : Z := snd (fst x).
Definition sv_v (x : sv) : K := snd x.

(* core.py 1249-1250 *)
Definition entries (s : list (list K)) : list sv :=
  flat_map (fun ip => map (fun jv => (fst ip, fst jv, snd jv)) (enumerate (snd ip))) (enumerate s).
(* 1251: sort(key=-v) *)
Definition sort_desc (l : list sv) : list sv := sort_by (fun a b : K => oltb b a) sv_v l.
(* 1254-1260: p *)
Fixpoint dw_count (w : K -> K) (max_dw dw : K) (l : list sv) : Z :=
  match l with
  | [] => 0
  | x :: r => let dw' := radd K dw (w (sv_v x)) in
              if oleb K dw' max_dw then 1 + dw_count w max_dw dw' r else 0
  end.
(* 1253-1261; scan = the order in which the values are visited *)
Definition cut_dw (scan : list sv -> list sv) (w : K -> K) (max_dw : K) (l : list sv) : list sv :=
  if oeqb max_dw (r0 K) then l else py_take l (- dw_count w max_dw (r0 K) (scan l)).
(* 1262-1265; c0 = the cutoff given, c = the cutoff compared with *)
Definition cut_value (c0 c : K) (l : list sv) : list sv :=
  if oeqb c0 (r0 K) then l else filter (fun x => oleb K c (sv_v x)) l.
(* 1266-1267 *)
Definition cut_count (m : Z) (l : list sv) : list sv := if m =? -1 then l else py_take l m.
(* 1268: sort(key=(i, j)) *)
Definition pos_ltb (a b : Z * Z) : bool := (fst a <? fst b) || ((fst a =? fst b) && (snd a <? snd b)).
Definition sort_pos (l : list sv) : list sv := sort_by pos_ltb (fun x => (sv_i x, sv_j x)) l.
(* 1273-1274: groupby sector, gl *)
Fixpoint group_pos (l : list sv) : list (Z * list Z) :=
  match l with
  | [] => []
  | x :: r => match group_pos r with
              | (i', g) :: gs => if sv_i x =? i' then (i', sv_j x :: g) :: gs else (sv_i x, [sv_j x]) :: (i', g) :: gs
              | [] => [(sv_i x, [sv_j x])]
              end
  end.
Definition blk (s : list (list K)) (i : Z) : list K := nth (Z.to_nat i) s [].
Definition at_ (b : list K) (j : Z) : K := nth (Z.to_nat j) b (r0 K).
(* 1275-1276 *)
Definition gl_inv (b : list K) (gl : list Z) : list Z :=
  filter (fun j => negb (existsb (Z.eqb j) gl)) (zrange (Z.of_nat (length b))).
(* 1270, 1289-1299 *)
Definition trunc_error (w : K -> K) (s : list (list K)) (gs : list (Z * list Z)) : K :=
  let e1 := fold_left (fun e g => radd K e (bsum (gl_inv (blk s (fst g)) (snd g)) (fun j => w (at_ (blk s (fst g)) j)))) gs (r0 K) in
  fold_left (fun e i => if existsb (Z.eqb i) (map fst gs) then e else radd K e (bsum (blk s i) w))
    (zrange (Z.of_nat (length s))) e1.

Definition square (v : K) : K := rmul K v v.
Definition weight (eig : bool) (v : K) : K := if eig then v else square v.
(* 1249-1268, core.py SparseTensor and impl/flat.py *)
Definition select (eig : bool) (m : Z) (cutoff max_dw : K) (s : list (list K)) : list sv :=
  cut_count m (cut_value cutoff (if eig then cutoff else sqrtK cutoff)
    (cut_dw (@rev sv) (weight eig) max_dw (sort_desc (entries s)))).
Definition truncate_svd (eig : bool) (m : Z) (cutoff max_dw : K) (s : list (list K)) : list (Z * list Z) * K :=
  let gs := group_pos (sort_pos (select eig m cutoff max_dw s)) in (gs, trunc_error (weight eig) s gs).
(* 2101-2117: visits the values from the largest, compares with the cutoff itself *)
Definition select_fermion (m : Z) (cutoff max_dw : K) (s : list (list K)) : list sv :=
  cut_count m (cut_value cutoff cutoff (cut_dw (fun l => l) square max_dw (sort_desc (entries s)))).
Definition truncate_svd_fermion (m : Z) (cutoff max_dw : K) (s : list (list K)) : list (Z * list Z) * K :=
  let gs := group_pos (sort_pos (select_fermion m cutoff max_dw s)) in (gs, trunc_error square s gs).

(** *** the three tensors *)
Section Blocks.
Variable R : CRing.
Variable L : Type.
Variable leqb : L -> L -> bool.
Variable big : list L * nd R -> bool.
Notation block := (list L * nd R)%type.
(* 1277-1278 *)
Fixpoint skip_while (p : block -> bool) (l : list block) : list block :=
  match l with [] => [] | b :: r => if p b then skip_while p r else l end.
(* 1279-1281: blocks taken, and the blocks from the pointer on *)
Fixpoint take_while (p : block -> bool) (l : list block) : list block * list block :=
  match l with
  | [] => ([], [])
  | b :: r => if p b then let '(t, u) := take_while p r in (b :: t, u) else ([], l)
  end.
(* b[..., gl] and b[gl, ...] *)
Definition last_at (gl : list Z) (b : block) : block :=
  (fst b, mkNd (removelast (nshape (snd b)) ++ [Z.of_nat (length gl)])
            (fun xs => nval (snd b) (removelast xs ++ [nth (Z.to_nat (last xs 0)) gl 0]))).
Definition first_at (gl : list Z) (b : block) : block :=
  (fst b, mkNd (Z.of_nat (length gl) :: tl (nshape (snd b)))
            (fun xs => nval (snd b) (nth (Z.to_nat (hd 0 xs)) gl 0 :: tl xs))).
(* lab = the label compared; cut = the slicing of one block *)
Fixpoint pick_blocks (lab : list L -> option L) (cut : list Z -> block -> block) (slabs : list L)
    (gs : list (Z * list Z)) (bs : list block) : list block :=
  match gs with
  | [] => []
  | (i, gl) :: r =>
      let same b := match nth_error slabs (Z.to_nat i), lab (fst b) with Some q, Some q' => leqb q' q | _, _ => false end in
      let '(t, u) := take_while same (skip_while (fun b => negb (same b)) bs) in
      map (cut gl) t ++ pick_blocks lab cut slabs r u
  end.
Definition last_opt (l : list L) : option L := nth_error l (pred (length l)).
Definition first_opt (l : list L) : option L := nth_error l 0.
(* 2118-2142: the first block with the label; 0 for labels that do not occur (Counter) *)
Fixpoint first_block (p : block -> bool) (l : list block) : option nat :=
  match l with [] => None | b :: r => if p b then Some O else option_map S (first_block p r) end.
(* 2146-2160, for one of the lists of blocks *)
Definition pick_blocks_fermion (lab : list L -> option L) (cut : list Z -> block -> block) (slabs : list L)
    (gs : list (Z * list Z)) (bs : list block) : list block :=
  flat_map (fun g =>
    let same b := match nth_error slabs (Z.to_nat (fst g)), lab (fst b) with Some q, Some q' => leqb q' q | _, _ => false end in
    let start := match first_block same bs with Some i => i | None => O end in
    map (cut (snd g)) (fst (take_while same (skipn start bs)))) gs.
(* 1282, 2152: the kept values; also 2161-2185 *)
Definition pick_values (slabs : list L) (s : list (list K)) (gs : list (Z * list Z)) : list (L * list K) :=
  flat_map (fun g => match nth_error slabs (Z.to_nat (fst g)) with
                     | Some q => [(q, map (at_ (blk s (fst g))) (snd g))] | None => [] end) gs.
(* 1269-1302 *)
Definition truncate_tensors (eig : bool) (m : Z) (cutoff max_dw : K) (l : list block) (slabs : list L) (s : list (list K))
    (r : list block) : list block * list (L * list K) * list block * K :=
  let '(gs, err) := truncate_svd eig m cutoff max_dw s in
  (filter big (pick_blocks last_opt last_at slabs gs l),
   pick_values slabs s gs,
   filter big (pick_blocks first_opt first_at slabs gs r), err).
End Blocks.

(** *** fermion.py *)
Section Trim.
Variable argsort : list K -> list Z.
(* np.sum(sblk > c) *)
Definition count_gt (c : K) (b : list K) : Z := Z.of_nat (length (filter (fun x => oltb c x) b)).
(* s.max(), defined for non-empty s *)
Definition kmax (s : list K) : option K :=
  match s with [] => None | x :: r => Some (fold_left (fun a b => if oleb K a b then b else a) r x) end.
(* ind_map *)
Definition ind_map (s : list (list K)) : list Z :=
  flat_map (fun ip => repeat (fst ip) (length (snd ip))) (enumerate s).
Definition dec_at (n : list Z) (i : Z) : list Z :=
  map (fun kv => if fst kv =? i then snd kv - 1 else snd kv) (enumerate n).
(* for i in range(cnt): n_chis[ind_map[s_ind[i + off]]] -= 1 *)
Definition drop_smallest (s : list (list K)) (s_ind : list Z) (off cnt : Z) (n : list Z) : list Z :=
  fold_left (fun n i => dec_at n (nth (Z.to_nat (nth (Z.to_nat (i + off)) s_ind 0)) (ind_map s) 0)) (zrange cnt) n.
(* np.cumsum *)
Fixpoint cumsum (a : K) (l : list K) : list K :=
  match l with [] => [] | x :: r => let a' := radd K a x in a' :: cumsum a' r end.
Definition ksort (l : list K) : list K := sort_by (fun a b : K => oltb a b) (fun x => x) l.
Definition count_le (c : K) (l : list K) : Z := Z.of_nat (length (filter (fun x => oleb K x c) l)).
Definition with_bond (max_bond : option Z) : option Z :=
  match max_bond with Some b => if 0 <? b then Some b else None | None => None end.
(* 224-303; None = an exception, or an undefined mode *)
Definition trim (s : list (list K)) (cutoff : K) (mode : Z) (max_bond : option Z) : option (list Z) :=
  let all := concat s in
  let size := Z.of_nat (length all) in
  if (mode =? 1) || (mode =? 2) then
    match (if mode =? 1 then Some cutoff else option_map (rmul K cutoff) (kmax all)) with
    | None => None
    | Some c =>
        let n_chis := map (count_gt c) s in
        let n_chi := zsum n_chis in
        match with_bond max_bond with
        | Some b => if 0 <? n_chi - b
                    then Some (drop_smallest s (argsort all) (size - n_chi) (n_chi - b) n_chis) else Some n_chis
        | None => Some n_chis
        end
    end
  else if (mode =? 3) || (mode =? 4) || (mode =? 5) || (mode =? 6) then
    let sp := map (if (mode =? 3) || (mode =? 4) then square else fun x => x) all in
    let target := if (mode =? 4) || (mode =? 6) then rmul K cutoff (bsum sp (fun x => x)) else cutoff in
    let ncut0 := count_le target (cumsum (r0 K) (ksort sp)) in
    let ncut := match with_bond max_bond with Some b => Z.max ncut0 (size - b) | None => ncut0 end in
    Some (drop_smallest s (argsort sp) 0 ncut (map (fun b => Z.of_nat (length b)) s))
  else None.
(* 350-353: sblk[:n_chi], U[..., :n_chi], VH[:n_chi, ...] *)
Definition keep_first (s : list (list K)) (n : list Z) : list (list K) :=
  map (fun p => py_take (fst p) (snd p)) (combine s n).
End Trim.
(* v ** r *)
Fixpoint kpow (v : K) (r : nat) : K := match r with O => r1 K | S r' => rmul K v (kpow v r') end.
(* 309-318: s_tot_keep, s_tot_lose *)
Definition renorm_sums (s : list (list K)) (n : list Z) (r : nat) : K * K :=
  fold_left (fun a p => fold_left (fun a iv => let v := kpow (snd iv) r in
      if fst iv <? snd p then (radd K (fst a) v, snd a) else (fst a, radd K (snd a) v)) (enumerate (fst p)) a)
    (combine s n) (r0 K, r0 K).
(* 340-352; renorm_fac keep lose r = ((keep + lose) / keep) ** (1 / r) *)
Definition renormed (renorm_fac : K -> K -> nat -> K) (s : list (list K)) (n : list Z) (r : nat) : list (list K) :=
  let size := zsum (map (fun b => Z.of_nat (length b)) s) in
  let s' := if (zsum n <? size) && (0 <? Z.of_nat r)
            then let '(a, b) := renorm_sums s n r in map (map (fun v => rmul K v (renorm_fac a b r))) s else s in
  keep_first s' n.
End Trunc.
Arguments sv_i {K}. Arguments sv_j {K}. Arguments sv_v {K}.
