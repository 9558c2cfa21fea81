(** Row and column names of the tables of QcModel, and the vectors at both ends of the chain. *)
From Coq Require Import ZArith Bool List Lia Ring.
From Verif Require Import SymModel DictLib IndexLib RingLib OptLib SiteModel QcModel QcProg.
Import ListNotations.
Open Scope Z_scope.

Section Cols.
Variable R : CRing.
Add Ring RR : (rth R).
Variable half : R.
Variable iszero : R -> bool.
Variable n : Z.
Notation fsym := (fsym R). Notation wr := (wr R). Notation prog := (prog R).
Notation sy := (sy R). Notation neg := (neg R). Notation mul := (mul R iszero).
Notation emits := (emits R).

Definition blk (f : Z -> Z -> option fsym) (l : list Z) : list (option fsym) :=
  flat_map (fun s => map (fun j => f j s) l) [0; 1].
Definition prs (f : Z -> Z -> Z -> Z -> option fsym) (l : list Z) : list (option fsym) :=
  flat_map (fun sr => flat_map (fun sl => flat_map (fun j => map (fun k => f j k sl sr) l) l) [0; 1]) [0; 1].
Lemma blk_len : forall f l, zlen (blk f l) = 2 * zlen l.
Proof. intros. unfold blk. rewrite (zlen_flat _ _ _ _ (zlen l)); [reflexivity|]. intros; apply zlen_map. Qed.
Lemma prs_len : forall f l, zlen (prs f l) = 4 * (zlen l * zlen l).
Proof using.
  intros f l. clear n iszero half. unfold prs. rewrite (zlen_flat _ _ _ _ (2 * (zlen l * zlen l))); [unfold zlen; cbn [length]; lia|]. intros sr _.
  rewrite (zlen_flat _ _ _ _ (zlen l * zlen l)); [unfold zlen; cbn [length]; lia|]. intros sl _.
  apply zlen_flat. intros; apply zlen_map.
Qed.
Definition is_spin (s : Z) : Prop := s = 0 \/ s = 1.
Lemma blk_at_z : forall f m s j, is_spin s -> 0 <= j < m -> znth (blk f (zrange m)) (s * m + j) = Some (f j s).
Proof.
  intros f m s j S J. unfold blk. rewrite (znth_flat _ _ _ m _ _ _ s).
  - rewrite znth_map, znth_zrange by lia. reflexivity.
  - intros x _. rewrite zlen_map. apply zlen_zrange. lia.
  - destruct S; lia.
  - destruct S as [-> | ->]; reflexivity.
  - exact J.
Qed.
Lemma blk_at_r : forall f a b s j, is_spin s -> a <= j < b -> znth (blk f (range a b)) (s * (b - a) + (j - a)) = Some (f j s).
Proof.
  intros f a b s j S J. unfold blk. rewrite (znth_flat _ _ _ (b - a) _ _ _ s).
  - rewrite znth_map, znth_range by lia. reflexivity.
  - intros x _. rewrite zlen_map. apply zlen_range. lia.
  - destruct S; lia.
  - destruct S as [-> | ->]; reflexivity.
  - lia.
Qed.
Lemma prs_at : forall f m sl sr j k, is_spin sl -> is_spin sr -> 0 <= j < m -> 0 <= k < m ->
  znth (prs f (zrange m)) (sr * (2 * (m * m)) + (sl * (m * m) + (j * m + k))) = Some (f j k sl sr).
Proof.
  intros f m sl sr j k SL SR J K. assert (M : 0 <= j * m + k < m * m) by nia.
  assert (LZ : zlen (zrange m) = m) by (apply zlen_zrange; lia).
  unfold prs. rewrite (znth_flat _ _ _ (2 * (m * m)) _ _ _ sr).
  - rewrite (znth_flat _ _ _ (m * m) _ _ _ sl).
    + rewrite (znth_flat _ _ _ m _ _ _ j).
      * rewrite znth_map, znth_zrange by lia. reflexivity.
      * intros x _. rewrite zlen_map. exact LZ.
      * lia.
      * now apply znth_zrange.
      * exact K.
    + intros x _. rewrite (zlen_flat _ _ _ _ m); [now rewrite LZ|]. intros; now rewrite zlen_map.
    + destruct SL; lia.
    + destruct SL as [-> | ->]; reflexivity.
    + exact M.
  - intros x _. rewrite (zlen_flat _ _ _ _ (m * m)); [unfold zlen; cbn [length]; lia|]. intros y _.
    rewrite (zlen_flat _ _ _ _ m); [now rewrite LZ|]. intros; now rewrite zlen_map.
  - destruct SR; lia.
  - destruct SR as [-> | ->]; reflexivity.
  - destruct SL; nia.
Qed.

(* names carried by the bond with m sites on its left *)
Definition rc_tail (m : Z) : list (option fsym) :=
  blk (fun j s => sy (QC j s)) (zrange m) ++ blk (fun j s => sy (QD j s)) (zrange m) ++
  blk (fun j s => sy (QRD j s)) (range m n) ++ blk (fun j s => neg (sy (QR j s))) (range m n) ++
  prs (fun j k sl sr => sy (QA j k sl sr)) (zrange m) ++ prs (fun j k sl sr => sy (QAD j k sl sr)) (zrange m) ++
  prs (fun j k sl sr => sy (QB j k sl sr)) (zrange m).
Definition rc (m : Z) : list (option fsym) := [sy QH; sy QI] ++ rc_tail m.
(* and the names to its right *)
Definition lc_tail (m : Z) : list (option fsym) :=
  blk (fun j s => sy (QR j s)) (zrange m) ++ blk (fun j s => neg (sy (QRD j s))) (zrange m) ++
  blk (fun j s => sy (QD j s)) (range m n) ++ blk (fun j s => sy (QC j s)) (range m n) ++
  prs (fun j k sl sr => mul half (sy (QP j k sl sr))) (zrange m) ++ prs (fun j k sl sr => mul half (sy (QPD j k sl sr))) (zrange m) ++
  prs (fun j k sl sr => sy (QQ j k sl sr)) (zrange m).
Definition lc (m : Z) : list (option fsym) := [sy QI; sy QH] ++ lc_tail m.
Lemma rc_len : forall m, 0 <= m <= n -> zlen (rc m) = 2 + 4 * n + 12 * m * m.
Proof.
  intros m H. unfold rc, rc_tail. rewrite !zlen_app, !blk_len, !prs_len, zlen_zrange, zlen_range by lia. unfold zlen at 1. cbn [length]. lia.
Qed.
Lemma lc_len : forall m, 0 <= m <= n -> zlen (lc m) = 2 + 4 * n + 12 * m * m.
Proof.
  intros m H. unfold lc, lc_tail. rewrite !zlen_app, !blk_len, !prs_len, zlen_zrange, zlen_range by lia. unfold zlen at 1. cbn [length]. lia.
Qed.

Section Lookup.
Variable m : Z.
Hypothesis Hm : 0 <= m <= n.
Notation P := (pc m). 
Lemma lens : zlen (zrange m) = m /\ zlen (range m n) = n - m.
Proof. split; [apply zlen_zrange|apply zlen_range]; lia. Qed.
(* skip the groups before the one wanted *)
Ltac skip := rewrite znth_app2; [rewrite ?blk_len, ?prs_len, ?(proj1 lens), ?(proj2 lens)|rewrite ?blk_len, ?prs_len, ?(proj1 lens), ?(proj2 lens); nia].
Ltac here := rewrite znth_app1; [|rewrite ?blk_len, ?prs_len, ?(proj1 lens), ?(proj2 lens); nia].
Ltac head := unfold rc; rewrite znth_app2; [change (zlen [sy QH; sy QI]) with 2; unfold rc_tail|change (zlen [sy QH; sy QI]) with 2; nia].
Ltac sp S := destruct S as [-> | ->]; cbn [arr Z.eqb Pos.eqb] in *.
Lemma rc_pc : forall s j, is_spin s -> 0 <= j < m -> znth (rc m) (pc m s + j) = Some (sy (QC j s)).
Proof.
  intros s j S J. rewrite <- (blk_at_z (fun j s => sy (QC j s)) m s j S J). unfold pc, arr.
  destruct S as [-> | ->]; cbn [Z.eqb]; head; here; f_equal; lia.
Qed.
Lemma rc_pd : forall s j, is_spin s -> 0 <= j < m -> znth (rc m) (pd m s + j) = Some (sy (QD j s)).
Proof.
  intros s j S J. rewrite <- (blk_at_z (fun j s => sy (QD j s)) m s j S J). unfold pd, arr.
  destruct S as [-> | ->]; cbn [Z.eqb]; head; skip; here; f_equal; lia.
Qed.
Lemma rc_prd : forall s j, is_spin s -> m <= j < n -> znth (rc m) (prd n m s + j) = Some (sy (QRD j s)).
Proof.
  intros s j S J. rewrite <- (blk_at_r (fun j s => sy (QRD j s)) m n s j S J). unfold prd, arr.
  destruct S as [-> | ->]; cbn [Z.eqb]; head; skip; skip; here; f_equal; lia.
Qed.
Lemma rc_pr : forall s j, is_spin s -> m <= j < n -> znth (rc m) (pr n m s + j) = Some (neg (sy (QR j s))).
Proof.
  intros s j S J. rewrite <- (blk_at_r (fun j s => neg (sy (QR j s))) m n s j S J). unfold pr, arr.
  destruct S as [-> | ->]; cbn [Z.eqb]; head; skip; skip; skip; here; f_equal; lia.
Qed.
Lemma rc_pa : forall sl sr j k, is_spin sl -> is_spin sr -> 0 <= j < m -> 0 <= k < m ->
  znth (rc m) (pa n m sl sr + j * m + k) = Some (sy (QA j k sl sr)).
Proof.
  intros sl sr j k SL SR J K. rewrite <- (prs_at (fun j k sl sr => sy (QA j k sl sr)) m sl sr j k SL SR J K). unfold pa, arr.
  assert (M : 0 <= j * m + k < m * m) by nia.
  destruct SL as [-> | ->], SR as [-> | ->]; cbn [Z.eqb]; head; skip; skip; skip; skip; here; f_equal; lia.
Qed.
Lemma rc_pad : forall sl sr j k, is_spin sl -> is_spin sr -> 0 <= j < m -> 0 <= k < m ->
  znth (rc m) (pad n m sl sr + j * m + k) = Some (sy (QAD j k sl sr)).
Proof.
  intros sl sr j k SL SR J K. rewrite <- (prs_at (fun j k sl sr => sy (QAD j k sl sr)) m sl sr j k SL SR J K). unfold pad, arr.
  assert (M : 0 <= j * m + k < m * m) by nia.
  destruct SL as [-> | ->], SR as [-> | ->]; cbn [Z.eqb]; head; skip; skip; skip; skip; skip; here; f_equal; lia.
Qed.
Lemma rc_pb : forall sl sr j k, is_spin sl -> is_spin sr -> 0 <= j < m -> 0 <= k < m ->
  znth (rc m) (pb n m sl sr + j * m + k) = Some (sy (QB j k sl sr)).
Proof.
  intros sl sr j k SL SR J K. rewrite <- (prs_at (fun j k sl sr => sy (QB j k sl sr)) m sl sr j k SL SR J K). unfold pb, arr.
  assert (M : 0 <= j * m + k < m * m) by nia.
  destruct SL as [-> | ->], SR as [-> | ->]; cbn [Z.eqb]; head; skip; skip; skip; skip; skip; skip; f_equal; lia.
Qed.
Lemma rc_0 : znth (rc m) 0 = Some (sy QH).
Proof. reflexivity. Qed.
Lemma rc_1 : znth (rc m) 1 = Some (sy QI).
Proof. reflexivity. Qed.
End Lookup.

(* programs *)
Lemma emits_blk_z : forall ix ix' f m, 0 <= m -> (forall p j, ix' j p = ix (p + j)) ->
  emits ix (for_ R [0; 1] (fun s => seq_ R (for_ R (zrange m) (fun j => set_ R (ix' j) (f j s))) (step R m))) (blk f (zrange m)).
Proof. intros ix ix' f m H E. unfold blk. apply emits_for. intros s _. apply (emits_zrow R ix ix' (fun j => f j s)); assumption. Qed.
Lemma emits_blk_r : forall ix ix' f a b d, a <= b -> d = b - a -> (forall p j, ix' j p = ix (p + (j - a))) ->
  emits ix (for_ R [0; 1] (fun s => seq_ R (for_ R (range a b) (fun j => set_ R (ix' j) (f j s))) (step R d))) (blk f (range a b)).
Proof. intros ix ix' f a b d H D E. unfold blk. apply emits_for. intros s _. apply (emits_row R ix ix' (fun j => f j s)); assumption. Qed.
Lemma emits_prs : forall ix ix' f m, 0 <= m -> (forall p k, ix' k p = ix (p + k)) ->
  emits ix (over_pairs R (fun sl sr => for_ R (zrange m) (fun j => seq_ R (for_ R (zrange m) (fun k => set_ R (ix' k) (f j k sl sr))) (step R m))))
    (prs f (zrange m)).
Proof.
  intros ix ix' f m H E. unfold prs, over_pairs. apply emits_for. intros sr _. apply emits_for. intros sl _.
  apply emits_for. intros j _. apply (emits_zrow R ix ix' (fun k => f j k sl sr)); assumption.
Qed.
Lemma start2 : forall ix ix0 ix1 o0 o1 rest l, emits ix rest l -> ix0 = ix 0 -> ix1 = ix 1 ->
  seq_ R (set_ R (fun _ => ix0) o0) (seq_ R (set_ R (fun _ => ix1) o1) (seq_ R (goto R 2) rest)) 0 =
  (zlen ([o0; o1] ++ l), place R ix 0 ([o0; o1] ++ l)).
Proof.
  intros ix ix0 ix1 o0 o1 rest l H -> ->. rewrite !seq_eq. unfold set_, goto. cbn [fst snd]. rewrite H. cbn [fst snd app place].
  rewrite !zlen_cons. f_equal. lia.
Qed.
Definition ixc (k : Z) : Z * Z := (0, k).
Definition ixr (k : Z) : Z * Z := (k, 0).
Ltac ixs := intros; unfold ixc, ixr; f_equal; lia.
Ltac blkz := eapply emits_blk_z; [lia|ixs].
Ltac blkr := eapply emits_blk_r; [lia|lia|ixs].
Ltac prz := eapply emits_prs; [lia|ixs].

Lemma rop_eq : forall m, 0 <= m < n -> rop_prog R n m 0 = (zlen (rc (m + 1)), place R ixc 0 (rc (m + 1))).
Proof.
  intros m H. unfold rop_prog, rc. apply start2; [|reflexivity|reflexivity]. unfold rc_tail.
  apply emits_seq; [blkz|]. apply emits_seq; [blkz|]. apply emits_seq; [blkr|]. apply emits_seq; [blkr|].
  apply emits_seq; [prz|]. apply emits_seq; [prz|]. prz.
Qed.
Lemma lop_eq : forall m, 0 <= m <= n -> lop_prog R half iszero n m 0 = (zlen (lc m), place R ixr 0 (lc m)).
Proof.
  intros m H. unfold lop_prog, lc. apply start2; [|reflexivity|reflexivity]. unfold lc_tail.
  apply emits_seq; [blkz|]. apply emits_seq; [blkz|]. apply emits_seq; [blkr|]. apply emits_seq; [blkr|].
  apply emits_seq; [prz|]. apply emits_seq; [prz|]. prz.
Qed.
Theorem site_rop_eq : forall m, 0 <= m < n -> site_rop R n m = Some (if m =? n - 1 then [sy QH] else rc (m + 1)).
Proof.
  intros m H. unfold site_rop. destruct (Z.eqb_spec m (n - 1)); [reflexivity|]. rewrite rop_eq by lia.
  rewrite (vec_of_consec R snd ixc) by (reflexivity || (rewrite rc_len by lia; unfold rshape; lia)). cbn [bind].
  rewrite rc_len by lia. unfold rshape, check. rewrite (proj2 (Z.eqb_eq _ _)) by lia. reflexivity.
Qed.
Theorem site_lop_eq : forall m, 0 <= m < n -> site_lop R half iszero n m = Some (if m =? 0 then [sy QH] else lc m).
Proof.
  intros m H. unfold site_lop. destruct (Z.eqb_spec m 0); [reflexivity|]. rewrite lop_eq by lia.
  rewrite (vec_of_consec R fst ixr) by (reflexivity || (rewrite lc_len by lia; unfold lshape; lia)). cbn [bind].
  rewrite lc_len by lia. unfold lshape, check. rewrite (proj2 (Z.eqb_eq _ _)) by lia. reflexivity.
Qed.
(* the first site: row vector *)
Lemma start6 : forall ix ix0 ix1 ix2 ix3 ix4 ix5 o0 o1 o2 o3 o4 o5 rest l, emits ix rest l ->
  ix0 = ix 0 -> ix1 = ix 1 -> ix2 = ix 2 -> ix3 = ix 3 -> ix4 = ix 4 -> ix5 = ix 5 ->
  seq_ R (set_ R (fun _ => ix0) o0) (seq_ R (set_ R (fun _ => ix1) o1) (seq_ R (set_ R (fun _ => ix2) o2)
   (seq_ R (set_ R (fun _ => ix3) o3) (seq_ R (set_ R (fun _ => ix4) o4) (seq_ R (set_ R (fun _ => ix5) o5)
    (seq_ R (goto R 6) rest)))))) 0 = (zlen ([o0; o1; o2; o3; o4; o5] ++ l), place R ix 0 ([o0; o1; o2; o3; o4; o5] ++ l)).
Proof.
  intros ix ix0 ix1 ix2 ix3 ix4 ix5 o0 o1 o2 o3 o4 o5 rest l H -> -> -> -> -> ->.
  rewrite !seq_eq. unfold set_, goto. cbn [fst snd]. rewrite H. cbn [fst snd app place].
  rewrite !zlen_cons. f_equal. lia.
Qed.
Lemma emits_prs1 : forall ix f,
  emits ix (over_pairs R (fun sl sr => seq_ R (set_ R ix (f sl sr)) (step R 1))) (prs (fun _ _ sl sr => f sl sr) (zrange 1)).
Proof.
  intros ix f. unfold prs, over_pairs. apply emits_for. intros sr _. apply emits_for. intros sl _. apply emits_one.
Qed.
Lemma first_eq : 1 <= n -> first_prog R n 0 0 = (zlen (rc 1), place R ixc 0 (rc 1)).
Proof.
  intros H. unfold first_prog, rc, rc_tail.
  rewrite (start6 ixc _ _ _ _ _ _ _ _ _ _ _ _ _
    (blk (fun j s => sy (QRD j s)) (range 1 n) ++ blk (fun j s => neg (sy (QR j s))) (range 1 n) ++
     prs (fun j k sl sr => sy (QA j k sl sr)) (zrange 1) ++ prs (fun j k sl sr => sy (QAD j k sl sr)) (zrange 1) ++
     prs (fun j k sl sr => sy (QB j k sl sr)) (zrange 1))); try reflexivity.
  apply emits_seq; [blkr|]. apply emits_seq; [blkr|].
  apply emits_seq; [apply (emits_prs1 ixc (fun sl sr => sy (QA 0 0 sl sr)))|].
  apply emits_seq; [apply (emits_prs1 ixc (fun sl sr => sy (QAD 0 0 sl sr)))|].
  apply (emits_prs1 ixc (fun sl sr => sy (QB 0 0 sl sr))).
Qed.
(* all other sites: the first column *)
Definition col_head (m : Z) : list (option fsym) :=
  [sy QI; sy QH] ++ blk (fun j s => sy (QR j s)) (zrange m) ++ blk (fun j s => neg (sy (QRD j s))) (zrange m).
Definition col_tail (m : Z) : list (option fsym) :=
  prs (fun j k sl sr => mul half (sy (QP j k sl sr))) (zrange m) ++ prs (fun j k sl sr => mul half (sy (QPD j k sl sr))) (zrange m) ++
  prs (fun j k sl sr => sy (QQ j k sl sr)) (zrange m).
Definition col_mid (m : Z) : list wr :=
  [(ixr (2 + 4 * m), sy (QD m 0)); (ixr (2 + 4 * m + (n - m)), sy (QD m 1));
   (ixr (2 + 4 * m + 2 * (n - m)), sy (QC m 0)); (ixr (2 + 4 * m + 3 * (n - m)), sy (QC m 1))].
Lemma column_eq : forall m, 0 <= m <= n -> column_prog R half iszero n m 0 =
  (2 + 4 * n + 12 * m * m, place R ixr 0 (col_head m) ++ col_mid m ++ place R ixr (2 + 4 * n) (col_tail m)).
Proof.
  intros m H. unfold column_prog.
  assert (A1 : emits ixr (for_ R [0; 1] (fun s => seq_ R (for_ R (zrange m) (fun j => set_ R (fun p => (p + j, 0)) (sy (QR j s)))) (step R m)))
     (blk (fun j s => sy (QR j s)) (zrange m))) by blkz.
  assert (A2 : emits ixr (for_ R [0; 1] (fun s => seq_ R (for_ R (zrange m) (fun j => set_ R (fun p => (p + j, 0)) (neg (sy (QRD j s))))) (step R m)))
     (blk (fun j s => neg (sy (QRD j s))) (zrange m))) by blkz.
  set (rest := seq_ R (over_pairs R _) (seq_ R (over_pairs R _) (over_pairs R _))).
  assert (A3 : emits ixr rest (col_tail m)).
  { apply emits_seq; [prz|]. apply emits_seq; [prz|]. prz. }
  clearbody rest.
  assert (A4 : forall p o0 o1 d, for_ R [0; 1] (fun s => seq_ R (set_ R (fun p => (p, 0)) (if s =? 0 then o0 else o1)) (step R d)) p =
     (p + d + d, [(ixr p, o0); (ixr (p + d), o1)])).
  { intros p o0 o1 d. unfold for_. cbn [fold_right]. rewrite !seq_eq. reflexivity. }
  assert (A5 : forall p, for_ R [0; 1] (fun s => seq_ R (set_ R (fun p => (p, 0)) (sy (QD m s))) (step R (n - m))) p =
     (p + (n - m) + (n - m), [(ixr p, sy (QD m 0)); (ixr (p + (n - m)), sy (QD m 1))])) by (intros p; exact (A4 p _ _ _)).
  assert (A6 : forall p, for_ R [0; 1] (fun s => seq_ R (set_ R (fun p => (p, 0)) (sy (QC m s))) (step R (n - m))) p =
     (p + (n - m) + (n - m), [(ixr p, sy (QC m 0)); (ixr (p + (n - m)), sy (QC m 1))])) by (intros p; exact (A4 p _ _ _)).
  set (f1 := for_ R [0; 1] _) in *. set (f2 := for_ R [0; 1] _) in A2 |- *.
  set (f3 := for_ R [0; 1] _) in A5 |- *. set (f4 := for_ R [0; 1] _) in A6 |- *.
  clearbody f1 f2 f3 f4. rewrite !seq_eq. unfold set_, goto. cbn [fst snd]. rewrite A1. cbn [fst snd]. rewrite A2. cbn [fst snd].
  rewrite A5. cbn [fst snd]. rewrite A6. cbn [fst snd]. rewrite A3. cbn [fst snd].
  assert (Lc : zlen (col_tail m) = 12 * m * m) by (unfold col_tail; rewrite !zlen_app, !prs_len, zlen_zrange by lia; lia).
  rewrite !blk_len, zlen_zrange, Lc by lia. f_equal; [lia|]. unfold col_head. rewrite !place_app.
  cbn [app place]. rewrite blk_len, zlen_zrange by lia. rewrite <- !app_assoc. unfold col_mid. cbn [app].
  change (zlen [sy QI; sy QH]) with 2. unfold ixr.
  replace (2 + 2 * m + 2 * m + (n - m) + (n - m) + (n - m) + (n - m)) with (2 + 4 * n) by lia.
  replace (2 + 2 * m + 2 * m + (n - m) + (n - m) + (n - m)) with (2 + 4 * m + 3 * (n - m)) by lia.
  replace (2 + 2 * m + 2 * m + (n - m) + (n - m)) with (2 + 4 * m + 2 * (n - m)) by lia.
  replace (2 + 2 * m + 2 * m) with (2 + 4 * m) by lia. reflexivity.
Qed.
End Cols.
