(* Model of pyblock3/fcidump.py: FCIDUMP.write, FCIDUMP.read, and the
   distribution of integrals among processes.
   Files are character lists (StrLib).  A float is the exact rational number it
   denotes; a complex number is the pair of its parts.  '%20.16f' rounds the
   exact value to 16 decimals; float() returns the exact decimal value read
   (the final rounding to the nearest double is not modelled).  Arrays are
   index functions together with the number of orbitals n; assignment to an
   element resolves negative indices and raises (None) out of bounds. *)
From Coq Require Import List Ascii String ZArith QArith Qabs Bool Arith.
From Verif Require Import DictLib IndexLib TruncModel StrLib.
Import ListNotations.
Local Open Scope Z_scope.

Definition bind {A B : Type} (x : option A) (f : A -> option B) : option B :=
  match x with Some a => f a | None => None end.
Notation "'do' x <- e ; b" := (bind e (fun x => b)) (at level 200, x pattern, e at level 100, b at level 200).

Fixpoint mapM {A B : Type} (f : A -> option B) (l : list A) : option (list B) :=
  match l with
  | [] => Some []
  | x :: l' => do y <- f x; do ys <- mapM f l'; Some (y :: ys)
  end.

Fixpoint foldM {A B : Type} (f : B -> A -> option B) (b : B) (l : list A) : option B :=
  match l with
  | [] => Some b
  | x :: l' => do b' <- f b x; foldM f b' l'
  end.

(* fcidump.py:24-33, PointGroup *)
Definition point_groups : list (text * list Z) :=
  [ (lit "d2h", [8; 0; 7; 6; 1; 5; 2; 3; 4]);
    (lit "c2v", [8; 0; 2; 3; 1]);
    (lit "c2h", [8; 0; 2; 3; 1]);
    (lit "d2", [8; 0; 3; 2; 1]);
    (lit "cs", [8; 0; 1]);
    (lit "c2", [8; 0; 1]);
    (lit "ci", [8; 0; 1]);
    (lit "c1", [8; 0]) ].

(* numbers: real and imaginary part *)
Definition num := (Q * Q)%type.
Definition num0 : num := (0%Q, 0%Q).

Definition arr2 := Z -> Z -> num.
Definition arr4 := Z -> Z -> Z -> Z -> num.

(* restricted integrals (h1e, g2e) or unrestricted ((ha, hb), (vaa, vab, vbb)) *)
Inductive ints :=
| Rhf (h : arr2) (g : arr4)
| Uhf (ha hb : arr2) (gaa gab gbb : arr4).

(* fcidump.py:77-91, the attributes of FCIDUMP that are written; f_cpx tells
   whether the arrays have a complex dtype (all arrays alike) *)
Record fci := mkFci {
  f_pg : text; f_n : Z; f_elec : Z; f_twos : Z; f_ipg : Z;
  f_general : bool; f_tgeneral : bool; f_orb : list Z;
  f_cpx : bool; f_const : num; f_ints : ints }.

(* ---------------------------------------------------------------- writing *)

(* l.index(x); ValueError = None *)
Fixpoint index_from (i : Z) (l : list Z) (x : Z) : option Z :=
  match l with
  | [] => None
  | a :: l' => if a =? x then Some i else index_from (i + 1) l' x
  end.
Definition index (l : list Z) (x : Z) : option Z := index_from 0 l x.

(* fcidump.py:376-377, 'output_format' and 'output_format_cpx' *)
Definition fmt_line (cpx : bool) (v : num) (i j k l : Z) : text :=
  ((if cpx then fmt_f (fst v) ++ fmt_f (snd v) else fmt_f (fst v))
   ++ fmt_d 4 i ++ fmt_d 4 j ++ fmt_d 4 k ++ fmt_d 4 l ++ [newline])%list.

(* abs(v) > tol *)
Definition bigger (tol : Q) (v : num) : bool :=
  if Qlt_le_dec tol 0 then true
  else if Qlt_le_dec (tol * tol) (fst v * fst v + snd v * snd v) then true else false.

(* all (i, j) with j <= i < m in loop order (390-391, 470-471) *)
Definition tri (m : Z) : list (Z * Z) :=
  flat_map (fun i => map (fun j => (i, j)) (zrange (i + 1))) (zrange m).

(* the quadruples visited with ij >= kl in the loops 405-417 and 493-503; the
   counters ij and kl number the pairs in loop order *)
Definition quads8 (n : Z) : list (Z * Z * Z * Z) :=
  flat_map (fun ijp : Z * (Z * Z) =>
    map (fun klp : Z * (Z * Z) => (fst (snd ijp), snd (snd ijp), fst (snd klp), snd (snd klp)))
      (filter (fun klp : Z * (Z * Z) => fst klp <=? fst ijp) (enumerate (tri (fst (snd ijp) + 1)))))
    (enumerate (tri n)).

(* the quadruples visited by the loops 385-388 *)
Definition quads1 (n : Z) : list (Z * Z * Z * Z) :=
  flat_map (fun i => flat_map (fun j => flat_map (fun k => map (fun l => (i, j, k, l))
    (zrange n)) (zrange n)) (zrange n)) (zrange n).

Definition npair (n : Z) : Z := n * (n + 1) / 2.

(* a two-electron array, by number of dimensions *)
Inductive eri := Eri4 (g : arr4) | Eri1 (x : list num).

Definition get4 (g : arr4) (q : Z * Z * Z * Z) : num :=
  let '(i, j, k, l) := q in g i j k l.

(* fcidump.py:488-516, fold_eri; fold == 4 falls through without a return, so
   Python's None is returned: no array.  Outer option: IndexError *)
Definition fold_eri (n : Z) (g : arr4) (fold : Z) : option (option eri) :=
  if fold =? 1 then Some (Some (Eri4 g))
  else if fold =? 8 then
    let x := map (get4 g) (quads8 n) in
    if Z.of_nat (List.length x) <=? npair n * (npair n + 1) / 2
    then Some (Some (Eri1 (x ++ repeat num0 (Z.to_nat (npair n * (npair n + 1) / 2) - List.length x))))
    else None
  else Some None.

(* one line for each value above the tolerance *)
Definition eri_lines (cpx : bool) (tol : Q) (qv : list ((Z * Z * Z * Z) * num)) : text :=
  flat_map (fun qx : (Z * Z * Z * Z) * num =>
    let '((i, j, k, l), v) := qx in
    if bigger tol v then fmt_line cpx v (i + 1) (j + 1) (k + 1) (l + 1) else []) qv.

(* fcidump.py:381-467, write_eri and write_eri_cpx for one and four dimensions *)
Definition write_eri (cpx : bool) (tol : Q) (n : Z) (e : eri) : option text :=
  match e with
  | Eri4 g => Some (eri_lines cpx tol (map (fun q => (q, get4 g q)) (quads1 n)))
  | Eri1 x =>
    if Z.of_nat (List.length x) =? npair n * (npair n + 1) / 2
    then Some (eri_lines cpx tol (combine (quads8 n) x)) else None
  end.

(* fcidump.py:469-486, write_h1e and write_h1e_cpx *)
Definition write_h1e (cpx : bool) (tol : Q) (n : Z) (tgen : bool) (h : arr2) : text :=
  flat_map (fun i => flat_map (fun j =>
    if bigger tol (h i j) then fmt_line cpx (h i j) (i + 1) (j + 1) 0 0 else [])
    (zrange (if tgen then n else i + 1))) (zrange n).

(* fcidump.py:358-375, the header; PointGroup[pg] raises KeyError *)
Definition write_header (f : fci) : option text :=
  do tab <- dget text_eqb point_groups (f_pg f);
  do orb <- mapM (index tab) (f_orb f);
  do isym <- index tab (f_ipg f);
  Some ((lit " &FCI NORB=" ++ fmt_d 4 (f_n f) ++ lit ",NELEC=" ++ fmt_d 2 (f_elec f)
         ++ lit ",MS2=" ++ str_int (f_twos f) ++ lit "," ++ [newline])
        ++ (match f_orb f with
            | [] => lit "  ORBSYM=" ++ List.concat (repeat (lit "1,") (Z.to_nat (f_n f))) ++ [newline]
            | _ => lit "  ORBSYM=" ++ join comma (map str_int orb) ++ lit "," ++ [newline]
            end)
        ++ lit "  ISYM=" ++ str_int isym ++ lit "," ++ [newline]
        ++ (match f_ints f with Uhf _ _ _ _ _ => lit "  IUHF=1," ++ [newline] | _ => [] end)
        ++ (if f_general f then lit "  IGENERAL=1," ++ [newline] else [])
        ++ (if f_tgeneral f then lit "  ITGENERAL=1," ++ [newline] else [])
        ++ lit " &END" ++ [newline])%list.

(* fcidump.py:518-558, the body *)
Definition write_body (tol : Q) (f : fci) : option text :=
  let n := f_n f in
  let cpx := f_cpx f in
  let zero := fmt_line cpx num0 0 0 0 0 in
  match f_ints f with
  | Uhf ha hb gaa gab gbb =>
    do vaa <- fold_eri n gaa (if f_general f then 1 else 8);
    do vab <- fold_eri n gab (if f_general f then 1 else 4);
    do vbb <- fold_eri n gbb (if f_general f then 1 else 8);
    match vaa, vab, vbb with
    | Some vaa, Some vab, Some vbb =>
      do ta <- write_eri cpx tol n vaa;
      do tb <- write_eri cpx tol n vbb;
      do tm <- write_eri cpx tol n vab;
      Some (ta ++ zero ++ tb ++ zero ++ tm ++ zero
            ++ write_h1e cpx tol n (f_tgeneral f) ha ++ zero
            ++ write_h1e cpx tol n (f_tgeneral f) hb ++ zero
            ++ fmt_line cpx (f_const f) 0 0 0 0)%list
    | _, _, _ => None
    end
  | Rhf h g =>
    do v <- fold_eri n g (if f_general f then 1 else 8);
    match v with
    | Some v =>
      do t <- write_eri cpx tol n v;
      Some (t ++ write_h1e cpx tol n (f_tgeneral f) h
            ++ fmt_line cpx (f_const f) 0 0 0 0)%list
    | None => None
    end
  end.

(* fcidump.py:351-558, FCIDUMP.write: the content of the file *)
Definition write (tol : Q) (f : fci) : option text :=
  do a <- write_header f; do b <- write_body tol f; Some (a ++ b)%list.

(* ---------------------------------------------------------------- reading *)

(* value of a header keyword: a string, or a list of strings (260-262) *)
Inductive hval := HStr (s : text) | HList (l : list text).

(* fcidump.py:249-258, collecting the keywords *)
Definition header_step (st : option text * list (text * text)) (c : text)
  : option (option text * list (text * text)) :=
  let '(pkey, d) := st in
  let fresh := match split_on equal c with
               | [k; b] => Some (Some k, dset text_eqb d (lower (strip k)) (strip b))
               | _ => None
               end in
  match pkey with
  | None => fresh
  | Some k =>
    if existsb (Ascii.eqb equal) c then fresh
    else match strip c with
         | [] => Some (pkey, d)
         | w => do old <- dget text_eqb d (lower (strip k));
                Some (pkey, dset text_eqb d (lower (strip k))
                              (match old with [] => w | _ => old ++ comma :: w end)%list)
         end
  end.

Definition read_header (pars : text) : option (list (text * hval)) :=
  let cont := split_on comma (join comma (tl (split_ws pars))) in
  do st <- foldM header_step (None, []) cont;
  Some (map (fun kv : text * text =>
         (fst kv, if existsb (Ascii.eqb comma) (snd kv) then HList (split_on comma (snd kv))
                  else HStr (snd kv))) (snd st)).

(* int(cont_dict.get(key, default)); int of a list is a TypeError *)
Definition get_int (d : list (text * hval)) (key : text) (default : option Z) : option Z :=
  match dget text_eqb d key with
  | Some (HStr s) => py_int s
  | Some (HList _) => None
  | None => default
  end.

(* iterating over a string gives its characters *)
Definition get_list (d : list (text * hval)) (key : text) : option (list text) :=
  match dget text_eqb d key with
  | Some (HStr s) => Some (map (fun c => [c]) s)
  | Some (HList l) => Some l
  | None => None
  end.

(* l[i] with Python's negative indices; IndexError = None *)
Definition py_nth {A : Type} (l : list A) (i : Z) : option A :=
  let m := Z.of_nat (List.length l) in
  if (0 <=? i) && (i <? m) then nth_error l (Z.to_nat i)
  else if (- m <=? i) && (i <? 0) then nth_error l (Z.to_nat (i + m))
  else None.

(* a line of the integral section: (i, j, k, l, d) and whether it has 6 fields *)
Definition datum := (Z * Z * Z * Z * num)%type.

(* fcidump.py:277-290; outer None: exception, inner None: skipped line *)
Definition read_line (s : text) : option (option (bool * datum)) :=
  match strip s with
  | [] => Some None
  | c :: _ =>
    if Ascii.eqb c "!"%char then Some None
    else match split_ws (strip s) with
         | [x; i; j; k; l] =>
           do d <- py_float x;
           do i <- py_int i; do j <- py_int j; do k <- py_int k; do l <- py_int l;
           Some (Some (false, (i, j, k, l, (d, 0%Q))))
         | [x; y; i; j; k; l] =>
           do d <- py_float x; do e <- py_float y;
           do i <- py_int i; do j <- py_int j; do k <- py_int k; do l <- py_int l;
           Some (Some (true, (i, j, k, l, (d, e))))
         | _ => None
         end
  end.

Definition read_lines (s : text) : option (bool * list datum) :=
  do ls <- mapM read_line (split_on newline s);
  let ds := flat_map (fun o : option (bool * datum) => match o with Some x => [x] | None => [] end) ls in
  Some (existsb fst ds, map snd ds).

(* numpy resolution of one index *)
Definition np_index (n i : Z) : option Z :=
  if (0 <=? i) && (i <? n) then Some i
  else if (- n <=? i) && (i <? 0) then Some (i + n)
  else None.

(* h[i, j] = v and g[i, j, k, l] = v *)
Definition set2 (n : Z) (h : arr2) (i j : Z) (v : num) : option arr2 :=
  do i' <- np_index n i; do j' <- np_index n j;
  Some (fun a b => if (a =? i') && (b =? j') then v else h a b).
Definition set4 (n : Z) (g : arr4) (q : Z * Z * Z * Z) (v : num) : option arr4 :=
  let '(i, j, k, l) := q in
  do i' <- np_index n i; do j' <- np_index n j; do k' <- np_index n k; do l' <- np_index n l;
  Some (fun a b c d => if (a =? i') && (b =? j') && (c =? k') && (d =? l') then v else g a b c d).

Definition set_all (n : Z) (g : arr4) (qs : list (Z * Z * Z * Z)) (v : num) : option arr4 :=
  foldM (fun g q => set4 n g q v) g qs.

(* fcidump.py:301-309, the images of an index quadruple, in assignment order *)
Definition images4 (i j k l : Z) : list (Z * Z * Z * Z) :=
  [(j - 1, i - 1, k - 1, l - 1); (j - 1, i - 1, l - 1, k - 1); (i - 1, j - 1, l - 1, k - 1)].
Definition images8 (i j k l : Z) : list (Z * Z * Z * Z) :=
  [(k - 1, l - 1, i - 1, j - 1); (k - 1, l - 1, j - 1, i - 1);
   (l - 1, k - 1, j - 1, i - 1); (l - 1, k - 1, i - 1, j - 1)].

Definition zeros2 : arr2 := fun _ _ => num0.
Definition zeros4 : arr4 := fun _ _ _ _ => num0.

(* fcidump.py:295-309 *)
Definition rhf_step (n : Z) (general : bool) (st : arr2 * arr4 * num) (x : datum)
  : option (arr2 * arr4 * num) :=
  let '(h, g, ce) := st in
  let '(i, j, k, l, d) := x in
  if i + j + k + l =? 0 then Some (h, g, d)
  else if k + l =? 0 then
    do h1 <- set2 n h (i - 1) (j - 1) d;
    do h2 <- set2 n h1 (j - 1) (i - 1) d;
    Some (h2, g, ce)
  else
    do g1 <- set_all n g ((i - 1, j - 1, k - 1, l - 1)
                          :: if general then [] else images4 i j k l ++ images8 i j k l) d;
    Some (h, g1, ce).

(* fcidump.py:322-345; the five arrays, the section counter ip and const_e *)
Definition uhf_state := (Z * (arr2 * arr2) * (arr4 * arr4 * arr4) * num)%type.
Definition uhf_step (n : Z) (general tgeneral : bool) (st : uhf_state) (x : datum) : option uhf_state :=
  let '(ip, (ha, hb), (gaa, gab, gbb), ce) := st in
  let '(i, j, k, l, d) := x in
  if i + j + k + l =? 0 then
    Some (ip + 1, (ha, hb), (gaa, gab, gbb), if ip + 1 =? 6 then d else ce)
  else if k + l =? 0 then
    if (ip =? 3) || (ip =? 4) then
      do h1 <- set2 n (if ip =? 3 then ha else hb) (i - 1) (j - 1) d;
      do h2 <- (if tgeneral then Some h1 else set2 n h1 (j - 1) (i - 1) d);
      Some (if ip =? 3 then (ip, (h2, hb), (gaa, gab, gbb), ce)
            else (ip, (ha, h2), (gaa, gab, gbb), ce))
    else None
  else
    do ig <- py_nth [0; 2; 1] ip;
    do g1 <- set_all n (if ig =? 0 then gaa else if ig =? 1 then gab else gbb)
               (((i - 1, j - 1, k - 1, l - 1)
                 :: if general then [] else images4 i j k l)
                ++ if negb general && ((ip =? 0) || (ip =? 1)) then images8 i j k l else [])%list d;
    Some (ip, (ha, hb),
          (if ig =? 0 then (g1, gab, gbb) else if ig =? 1 then (gaa, g1, gbb) else (gaa, gab, g1)), ce).

Definition nsub (a b : num) : num := ((fst a - fst b)%Q, (snd a - snd b)%Q).

(* fcidump.py:233-349, FCIDUMP.read on an object with attributes pg, mu and
   const_e (ce0).  '-=' on an element of a tuple raises TypeError (346-348). *)
Definition read (pg : text) (mu : Q) (ce0 : num) (file : text) : option fci :=
  let ff := lower file in
  do (pars, body) <-
     (let parts := if contains (lit "/") ff then split_str (lit "/") ff
                   else if contains (lit "&end") ff then split_str (lit "&end") ff
                   else [] in
      match parts with [a; b] => Some (a, b) | _ => None end);
  do d <- read_header pars;
  do n <- get_int d (lit "norb") None;
  do twos <- get_int d (lit "ms2") (Some 0);
  do tab <- dget text_eqb point_groups pg;
  do isym <- get_int d (lit "isym") (Some 0);
  do ipg <- py_nth tab isym;
  do elec <- get_int d (lit "nelec") (Some 0);
  do uhf <- get_int d (lit "iuhf") (Some 0);
  do general <- get_int d (lit "igeneral") (Some 0);
  do tgeneral <- get_int d (lit "itgeneral") (Some 0);
  do orbs <- get_list d (lit "orbsym");
  do orb <- mapM (fun s => do i <- py_int s; py_nth tab i) orbs;
  do (cpx, data) <- read_lines body;
  do (r, ce) <-
    (if uhf =? 0 then
      do (h, g, ce) <- foldM (rhf_step n (negb (general =? 0))) (zeros2, zeros4, ce0) data;
      Some (Rhf (if Qeq_bool mu 0 then h
                 else fun a b => nsub (h a b) (if a =? b then mu else 0%Q, 0%Q)) g, ce)
    else
      do (ip, (ha, hb), (gaa, gab, gbb), ce) <-
         foldM (uhf_step n (negb (general =? 0)) (negb (tgeneral =? 0)))
               (0, (zeros2, zeros2), (zeros4, zeros4, zeros4), ce0) data;
      if Qeq_bool mu 0 then Some (Uhf ha hb gaa gab gbb, ce) else None);
  Some (mkFci pg n elec twos ipg (negb (general =? 0)) (negb (tgeneral =? 0)) orb cpx ce r).

(* ---------------------------------------------------------- distribution *)

(* x.sort() on int32 values *)
Fixpoint zinsert (a : Z) (l : list Z) : list Z :=
  match l with
  | [] => [a]
  | b :: l' => if a <=? b then a :: l else b :: zinsert a l'
  end.
Definition zsort (l : list Z) : list Z := fold_right zinsert [] l.

(* fcidump.py:35-38, _parallelize_h1e *)
Definition par_h1e (n mrank msize : Z) (h : arr2) : arr2 :=
  fun i j => if (0 <=? i) && (i <? n) && negb (mrank =? i mod msize) then num0 else h i j.

Definition is_zero (v : num) : bool := Qeq_bool (fst v) 0 && Qeq_bool (snd v) 0.

(* fcidump.py:46-60, the fate of one element; exact instead of 32-bit integers *)
Definition par_elem (mrank msize : Z) (i j k l : Z) (v : num) : num :=
  if is_zero v then v
  else match zsort [i; j; k; l] with
       | [x0; x1; x2; x3] =>
         if x1 =? x2 then (if negb (mrank =? x1 mod msize) then num0 else v)
         else if x0 <=? x1
              then (if negb (mrank =? (x1 * (x1 + 1) / 2 + x0) mod msize) then num0 else v)
              else (if negb (mrank =? (x0 * (x0 + 1) / 2 + x1) mod msize) then num0 else v)
       | _ => v
       end.

(* fcidump.py:41-60, _parallelize_g2e *)
Definition par_g2e (n mrank msize : Z) (g : arr4) : arr4 :=
  fun i j k l =>
    if (0 <=? i) && (i <? n) && (0 <=? j) && (j <? n) && (0 <=? k) && (k <? n) && (0 <=? l) && (l <? n)
    then par_elem mrank msize i j k l (g i j k l) else g i j k l.

(* fcidump.py:213-231, FCIDUMP.parallelize in process mrank of msize *)
Definition parallelize (mpi : bool) (mrank msize : Z) (f : fci) : fci :=
  if mpi then
    mkFci (f_pg f) (f_n f) (f_elec f) (f_twos f) (f_ipg f) (f_general f) (f_tgeneral f) (f_orb f) (f_cpx f)
      (if negb (mrank =? 0) then num0 else f_const f)
      (match f_ints f with
       | Rhf h g => Rhf (par_h1e (f_n f) mrank msize h) (par_g2e (f_n f) mrank msize g)
       | Uhf ha hb gaa gab gbb =>
         Uhf (par_h1e (f_n f) mrank msize ha) (par_h1e (f_n f) mrank msize hb)
             (par_g2e (f_n f) mrank msize gaa) (par_g2e (f_n f) mrank msize gab)
             (par_g2e (f_n f) mrank msize gbb)
       end)
  else f.

(* fcidump.py:199-211, the accessors t and v; spins 0 and 1 *)
Definition get_t (f : fci) (s i j : Z) : num :=
  match f_ints f with
  | Rhf h _ => h i j
  | Uhf ha hb _ _ _ => if s =? 0 then ha i j else hb i j
  end.
Definition get_v (f : fci) (sij skl i j k l : Z) : num :=
  match f_ints f with
  | Rhf _ g => g i j k l
  | Uhf _ _ gaa gab gbb =>
    if sij =? skl then (if sij =? 0 then gaa i j k l else gbb i j k l)
    else if (sij =? 0) && (skl =? 1) then gab i j k l
    else gab k l i j
  end.
