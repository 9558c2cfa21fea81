(** C62: the block-sparse tensor made from a table of operators.  to_sparse on a SymbolicSparseTensor (a table of factors and
    names of site operators, with a label for each row and column) returns a FermionTensor; rows and columns with one label are
    numbered in order; the element at (row, physical states, column) is the sum, over the entries of the table at this row and
    column, of the factor times the element of the operator; everything else is 0, and the tensor is well formed. *)
From Coq Require Import ZArith Bool List Lia Ring.
From Verif Require Import SymModel SymProofs DictLib IndexLib OptLib RingLib FuseModel FuseProofs BlockProofs MpsModel MpsChain CanonSites MpoMul TosModel TosProofs.
Import ListNotations.
Open Scope Z_scope.

Section Props.
Variable R : CRing.
Add Ring Rr : (rth R).
Variable L : Label.
Variable K : Type.
Variable keqb : K -> K -> bool.
Notation tensor := (list (list L * nd R)).
Notation state := (L * Z)%type.
Notation to_sparse := (to_sparse R L K keqb).
Notation entries := (entries R K).
Notation rows := (rows R L K).
Notation cols := (cols R L K).
Notation opart := (opart R L).

(* how often a label occurs *)
Definition times (q : L) (l : list L) : Z := Z.of_nat (length (filter (qeqb L q) l)).
(* the states of the left bond for row j, of the right bond for column k *)
Definition row_state (dq : L) (l : list L) (j : nat) : state := let q := nth j l (q0 L) in (qsub L dq q, times q (firstn j l)).
Definition col_state (l : list L) (k : nat) : state := let q := nth k l (q0 L) in (q, times q (firstn k l)).
(* the entries lie in the table and their operators have the physical legs 1 .. n - 2 with dimensions dp *)
Definition operators_fit (n : Z) (dp : Z -> L -> Z) (ops : list (K * pten R L)) (mat : smat R K) (lop rop : list L) : Prop :=
  forall c, In c (entries mat) -> (fst (fst c) < length (rows mat lop))%nat /\ (snd (fst c) < length (cols mat rop))%nat /\
  exists s, dget keqb ops (snd (snd c)) = Some s /\ (s = PNum R L -> is_matrix R K mat = false) /\
  forall odd, wf_tensor R L (n - 2) (fun i => dp (1 + i)) (opart s odd) /\ forall b, In b (opart s odd) -> Forall (fun d => 0 < d) (nshape (snd b)).
Definition entry_value (ops : list (K * pten R L)) (c : (nat * nat) * (R * K)) (odd : bool) (ps : list state) : R :=
  match dget keqb ops (snd (snd c)) with Some s => rmul R (fst (snd c)) (elem R L (opart s odd) (map fst ps) (map snd ps)) | None => r0 R end.
Definition charge_of (dq : option L) : L := match dq with Some q => q | None => q0 L end.

Lemma times_count : forall q l, times q l = Z.of_nat (count L (Some q) (map Some l)).
Proof.
  intros q l. unfold times. f_equal. induction l as [|x l IH]; cbn [filter map count]; [reflexivity|]. cbn [oq_eqb]. destruct (qeqb_spec L q x), (qeqb_spec L x q); try congruence; cbn [length]; now rewrite IH.
Qed.
Lemma at_row_spec : forall dq l j s, (j < length l)%nat -> at_row L dq l j s = true <-> s = row_state dq l j.
Proof.
  intros dq l j [q x] H. unfold at_row, row_state. rewrite (nth_error_nth' l (q0 L) H). unfold rank. rewrite times_count. cbn [fst snd]. destruct (qeqb_spec L (qsub L dq (nth j l (q0 L))) q) as [<-|N]; [|split; [discriminate|congruence]].
  cbn [andb]. rewrite Z.eqb_eq. split; [now intros ->|congruence].
Qed.
Lemma at_col_spec : forall l k s, (k < length l)%nat -> at_col L l k s = true <-> s = col_state l k.
Proof.
  intros l k [q x] H. unfold at_col, col_state. rewrite (nth_error_nth' l (q0 L) H). unfold rank. rewrite times_count. cbn [fst snd]. destruct (qeqb_spec L (nth k l (q0 L)) q) as [<-|N]; [|split; [discriminate|congruence]].
  cbn [andb]. rewrite Z.eqb_eq. split; [now intros ->|congruence].
Qed.
Lemma col_inj : forall l j k, (j < length l)%nat -> (k < length l)%nat -> col_state l j = col_state l k -> j = k.
Proof.
  intros l j k Hj Hk E. unfold col_state in E. injection E as E1 E2. rewrite E1 in E2. rewrite !times_count in E2. apply Nat2Z.inj in E2. rewrite <- !firstn_map in E2.
  apply (place_inj L (map Some l) j k (Some (nth k l (q0 L)))); [| |exact E2]; apply (map_nth_error Some); [rewrite <- E1|]; now apply nth_error_nth'.
Qed.
Lemma sub_inj : forall d a b, qsub L d a = qsub L d b -> a = b.
Proof. intros d a b E. now rewrite <- (sub_sub L d a), E, sub_sub. Qed.
Lemma row_inj : forall d l j k, (j < length l)%nat -> (k < length l)%nat -> row_state d l j = row_state d l k -> j = k.
Proof. intros d l j k Hj Hk E. apply (col_inj l); auto. unfold row_state in E. unfold col_state. injection E as E1 E2. apply sub_inj in E1. congruence. Qed.

(* the tensor and its blocks, with any property of the labels *)
Lemma to_sparse_some : forall n dp ops mat lop rop dq (G : bool -> L -> list L -> L -> Prop), 2 <= n -> operators_fit n dp ops mat lop rop ->
  (forall c s odd b, In c (entries mat) -> dget keqb ops (snd (snd c)) = Some s -> In b (opart s odd) -> G odd (qsub L (charge_of dq) (nth (fst (fst c)) (rows mat lop) (q0 L))) (fst b) (nth (snd (fst c)) (cols mat rop) (q0 L))) ->
  exists od ev, to_sparse mat ops (map Some lop) (map Some rop) dq = Some (FT od ev) /\
  wf_site n (fun q => times (qsub L (charge_of dq) q) (rows mat lop)) dp (fun q => times q (cols mat rop)) (FT od ev) /\
  (forall odd l m r, In (l :: m ++ [r]) (map fst (part (FT od ev) odd)) -> G odd l m r) /\
  forall odd ps l r, selem (FT od ev) (odd, ps) l r =
    bsum (entries mat) (fun c => if at_row L (charge_of dq) (rows mat lop) (fst (fst c)) l && at_col L (cols mat rop) (snd (fst c)) r then entry_value ops c odd ps else r0 R).
Proof.
  intros n dp ops mat lop rop dq G Hn Hf HG. set (d := charge_of dq) in *. set (rw := rows mat lop) in *. set (cl := cols mat rop) in *.
  set (g := fun odd l m r => G odd l m r /\ Z.of_nat (length m) = n - 2 /\ Forall (fun d => 0 < d) (mids L n dp m)).
  assert (Hc : Forall (cell_ok R L K keqb ops d rw cl (mids L n dp) g (negb (is_matrix R K mat))) (entries mat)).
  { apply Forall_forall. intros c I. destruct (Hf c I) as (Hj & Hk & s & Ho & Hnum & Hb). exists (nth (fst (fst c)) rw (q0 L)), (nth (snd (fst c)) cl (q0 L)), s.
    split; [now apply nth_error_nth'|]. split; [now apply nth_error_nth'|]. split; [exact Ho|]. split; [intros E; now rewrite (Hnum E)|].
    intros odd b Ib. destruct (Hb odd) as [Wb Pb]. destruct (Wb b Ib) as [Lb Sb].
    assert (E : nshape (snd b) = mids L n dp (fst b)).
    { rewrite Sb. unfold mids, shape_of. generalize (zrange (n - 2)) (fst b). clear. induction l as [|x l IH]; intros [|y q]; cbn; try reflexivity. now rewrite IH. }
    split; [exact E|]. split; [apply (HG c s odd b I Ho Ib)|]. split; [exact Lb|]. rewrite <- E. now apply Pb. }
  assert (X : exists mb, match mat with
    | RowV _ _ l => foldM (fun mb kc => add_cell R L K keqb ops d true (fun _ => do r <- place L (map Some rop) (fst kc); Some (unit_place L, r)) mb (snd kc)) ([], []) (combine (seq 0 (length l)) l)
    | ColV _ _ l => foldM (fun mb kc => add_cell R L K keqb ops d true (fun _ => do x <- place L (map Some lop) (fst kc); Some (x, unit_place L)) mb (snd kc)) ([], []) (combine (seq 0 (length l)) l)
    | Mat _ _ l => foldM (fun mb jc => add_cell R L K keqb ops d false (fun _ => do x <- place L (map Some lop) (fst (fst jc)); do r <- place L (map Some rop) (snd (fst jc)); Some (x, r)) mb (snd jc)) ([], []) l
    end = Some mb /\ wfp R L d rw cl (mids L n dp) g mb /\ forall odd qm xm (l r : state), elem R L (if odd : bool then fst mb else snd mb) (fst l :: qm ++ [fst r]) (snd l :: xm ++ [snd r]) =
      radd R (r0 R) (bsum (entries mat) (fun c => if at_row L d rw (fst (fst c)) l && at_col L cl (snd (fst c)) r then cell_val R L K keqb ops c odd qm xm else r0 R))).
  { assert (W0 : wfp R L d rw cl (mids L n dp) g ([], [])) by (intros odd; destruct odd; (split; [constructor|intros b []])).
    assert (E0 : forall odd qs xs, elem R L (if odd : bool then fst (([] : tensor), ([] : tensor)) else snd (([] : tensor), ([] : tensor))) qs xs = r0 R) by (intros []; reflexivity).
    destruct mat as [l|l|l]; cbn [entries is_matrix negb rows cols] in Hc, rw, cl |- *.
    - destruct (cells_fold R L K keqb ops d rw cl (mids L n dp) g _ true (fun p => ((0%nat, fst p), snd p)) (fun kc _ => do r <- place L (map Some rop) (fst kc); Some (unit_place L, r)) (combine (seq 0 (length l)) l) ([], []) W0 Hc) as (mb & E & W & V).
      { intros a ql qr I H1 H2. cbn [fst snd] in *. unfold rw. rewrite (place_some L (map Some [q0 L]) 0 (q0 L) eq_refl). cbn [bind firstn map count]. destruct (oq_spec L (Some (q0 L)) (Some (q0 L))); [|congruence]. reflexivity. }
      exists mb. split; [exact E|]. split; [exact W|]. intros. rewrite V. now rewrite E0.
    - destruct (cells_fold R L K keqb ops d rw cl (mids L n dp) g _ true (fun p => ((fst p, 0%nat), snd p)) (fun kc _ => do x <- place L (map Some lop) (fst kc); Some (x, unit_place L)) (combine (seq 0 (length l)) l) ([], []) W0 Hc) as (mb & E & W & V).
      { intros a ql qr I H1 H2. cbn [fst snd] in *. unfold cl. rewrite (place_some L (map Some [q0 L]) 0 (q0 L) eq_refl). cbn [bind firstn map count]. destruct (oq_spec L (Some (q0 L)) (Some (q0 L))); [|congruence]. reflexivity. }
      exists mb. split; [exact E|]. split; [exact W|]. intros. rewrite V. now rewrite E0.
    - destruct (cells_fold R L K keqb ops d rw cl (mids L n dp) g _ false (fun p => p) (fun jc _ => do x <- place L (map Some lop) (fst (fst jc)); do r <- place L (map Some rop) (snd (fst jc)); Some (x, r)) l ([], []) W0) as (mb & E & W & V).
      { rewrite map_id. exact Hc. } { reflexivity. }
      rewrite map_id in V. exists mb. split; [exact E|]. split; [exact W|]. intros. rewrite V. now rewrite E0. }
  destruct X as ([od ev] & E & W & V). exists od, ev. unfold TosModel.to_sparse. fold (charge_of dq). fold d. rewrite E. cbn [bind]. split; [reflexivity|].
  assert (B : forall odd b, In b (part (FT od ev) odd) -> exists l m r, fst b = l :: m ++ [r] /\ nshape (snd b) = times (qsub L d l) rw :: mids L n dp m ++ [times r cl] /\ 0 < times (qsub L d l) rw /\ 0 < times r cl /\ g odd l m r).
  { intros odd b I. destruct (W odd) as [_ Wb]. cbn [fst snd] in Wb. destruct (Wb b) as (l & m & r & E1 & E2 & P1 & P2 & Hg); [destruct odd; exact I|]. exists l, m, r. rewrite !times_count. repeat (split; [assumption|]). exact Hg. }
  split; [|split].
  - split; [exact Hn|]. intros odd. split; [|split].
    + intros b I. destruct (B odd b I) as (l & m & r & E1 & E2 & P1 & P2 & _ & Lm & _). rewrite E1, E2. rewrite (shape_site L) by lia. split; [cbn [length]; rewrite app_length; cbn [length]; lia|reflexivity].
    + intros b I. destruct (B odd b I) as (l & m & r & E1 & E2 & P1 & P2 & _ & Lm & Pm). rewrite E2. constructor; [exact P1|]. apply Forall_app. auto.
    + destruct (W odd) as [ND _]. destruct odd; exact ND.
  - intros odd l m r I. apply in_map_iff in I. destruct I as (b & Eb & I). destruct (B odd b I) as (l' & m' & r' & E1 & _ & _ & _ & Hg & _). rewrite E1 in Eb. apply (key_split L) in Eb. destruct Eb as (<- & <- & <-). exact Hg.
  - intros odd ps l r. unfold selem. cbn [fst snd]. specialize (V odd (map fst ps) (map snd ps) l r). destruct odd; cbn [part fst snd] in *; rewrite V; unfold entry_value, cell_val; ring.
Qed.

(** *** elements *)
Theorem c62_to_sparse :
  forall n dp ops mat lop rop dq, 2 <= n -> operators_fit n dp ops mat lop rop ->
  exists od ev, to_sparse mat ops (map Some lop) (map Some rop) dq = Some (FT od ev) /\
  wf_site n (fun q => times (qsub L (charge_of dq) q) (rows mat lop)) dp (fun q => times q (cols mat rop)) (FT od ev) /\
  (forall j k odd ps, (j < length (rows mat lop))%nat -> (k < length (cols mat rop))%nat ->
     selem (FT od ev) (odd, ps) (row_state (charge_of dq) (rows mat lop) j) (col_state (cols mat rop) k) =
     bsum (filter (fun c => Nat.eqb (fst (fst c)) j && Nat.eqb (snd (fst c)) k) (entries mat)) (fun c => entry_value ops c odd ps)) /\
  (forall odd ps l r, (forall j, (j < length (rows mat lop))%nat -> l <> row_state (charge_of dq) (rows mat lop) j) \/ (forall k, (k < length (cols mat rop))%nat -> r <> col_state (cols mat rop) k) ->
     selem (FT od ev) (odd, ps) l r = r0 R).
Proof.
  intros n dp ops mat lop rop dq Hn Hf. destruct (to_sparse_some n dp ops mat lop rop dq (fun _ _ _ _ => True) Hn Hf (fun _ _ _ _ _ _ _ => I)) as (od & ev & E & W & _ & V).
  exists od, ev. split; [exact E|]. split; [exact W|]. split.
  - intros j k odd ps Hj Hk. rewrite V, bsum_filter. apply bsum_ext. intros c I. destruct (Hf c I) as (Hj' & Hk' & _).
    assert (A : at_row L (charge_of dq) (rows mat lop) (fst (fst c)) (row_state (charge_of dq) (rows mat lop) j) = Nat.eqb (fst (fst c)) j).
    { apply eq_true_iff_eq. rewrite at_row_spec, Nat.eqb_eq by exact Hj'. split; [intros X; now apply row_inj in X|now intros ->]. }
    assert (B : at_col L (cols mat rop) (snd (fst c)) (col_state (cols mat rop) k) = Nat.eqb (snd (fst c)) k).
    { apply eq_true_iff_eq. rewrite at_col_spec, Nat.eqb_eq by exact Hk'. split; [intros X; now apply col_inj in X|now intros ->]. }
    rewrite A, B. reflexivity.
  - intros odd ps l r H. rewrite V. apply bsum_zero. intros c I. destruct (Hf c I) as (Hj & Hk & _).
    destruct (at_row L (charge_of dq) (rows mat lop) (fst (fst c)) l) eqn:A; [|reflexivity]. destruct (at_col L (cols mat rop) (snd (fst c)) r) eqn:B; [|reflexivity].
    apply at_row_spec in A; [|exact Hj]. apply at_col_spec in B; [|exact Hk]. destruct H as [H|H]; [now elim (H _ Hj)|now elim (H _ Hk)].
Qed.

(** *** graded operators give a site of an operator: in the odd (even) part both the bond labels and the physical labels differ by an odd (even) label *)
Theorem c62_graded :
  forall n dp ops mat lop rop dq, 2 <= n -> operators_fit n dp ops mat lop rop ->
  (forall c s odd b, In c (entries mat) -> dget keqb ops (snd (snd c)) = Some s -> In b (opart s odd) ->
     parity (fst b) = odd /\ xorb (qpar L (charge_of dq)) (xorb (qpar L (nth (fst (fst c)) (rows mat lop) (q0 L))) (qpar L (nth (snd (fst c)) (cols mat rop) (q0 L)))) = odd) ->
  exists s, to_sparse mat ops (map Some lop) (map Some rop) dq = Some s /\ operator_site s.
Proof.
  intros n dp ops mat lop rop dq Hn Hf HG.
  assert (PN : forall a, qpar L (qneg L a) = qpar L a). { intros a. assert (X := qpar_add L (qneg L a) a). rewrite qadd_neg, qpar_0 in X. destruct (qpar L (qneg L a)), (qpar L a); (reflexivity || discriminate). }
  destruct (to_sparse_some n dp ops mat lop rop dq (fun odd l m r => xorb (qpar L l) (qpar L r) = odd /\ parity m = odd) Hn Hf) as (od & ev & E & _ & H & _).
  { intros c s odd b Ic Hs Ib. destruct (HG c s odd b Ic Hs Ib) as [P1 P2]. split; [|exact P1]. rewrite qsub_def, qpar_add, PN. now rewrite xorb_assoc. }
  exists (FT od ev). split; [exact E|]. split; [reflexivity|]. exact H.
Qed.
End Props.

(** *** examples: U(1) labels and Z *)
Notation U := U1_label.
Definition ten (l : list (list Z * Z)) : list (list U * nd Z_ring) := map (fun b => (fst b : list U, mkNd (R := Z_ring) [1; 1] (fun _ => snd b))) l.
(* 1: identity, 2: creation, 3: annihilation, 4: a number *)
Definition ops62 : list (Z * pten Z_ring U) :=
  [(1, PTen _ _ [] (ten [([0; 0], 1); ([1; 1], 1)])); (2, PTen _ _ (ten [([1; 0], 1)]) []); (3, PTen _ _ (ten [([0; 1], 1)]) []); (4, PNum _ _)].
(* a table with two entries in one cell, rows of labels 0, 1, 0, columns of labels -1, 0, 0 *)
Definition mat62 : smat Z_ring Z := Mat Z_ring Z
  [((0, 1)%nat, Some (2, 1)); ((0, 0)%nat, Some (3, 2)); ((2, 1)%nat, Some (5, 1)); ((1, 0)%nat, None); ((2, 2)%nat, Some (7, 1)); ((2, 0)%nat, Some (-1, 2)); ((2, 2)%nat, Some (4, 1)); ((1, 2)%nat, Some (9, 3))].
Definition lop62 : list U := [0; 1; 0]. Definition rop62 : list U := [-1; 0; 0].
Ltac ops_ok := intros c I; cbn in I; repeat (destruct I as [<-|I]; [split; [cbn; lia|]; split; [cbn; lia|]; eexists; split; [reflexivity|]; split; [first [discriminate|reflexivity]|];
  intros []; (split; [intros b Ib; cbn in Ib; repeat (destruct Ib as [<-|Ib]; [split; reflexivity|]); destruct Ib|intros b Ib; cbn in Ib; repeat (destruct Ib as [<-|Ib]; [repeat constructor|]); destruct Ib])|]); destruct I.
Lemma fit62 : operators_fit Z_ring U Z Z.eqb 4 (fun _ _ => 1) ops62 mat62 lop62 rop62.
Proof. ops_ok. Qed.
Definition at62 (s : site Z_ring U) (odd : bool) (u d : Z) (l r : Z * Z) : Z := selem s (odd, [((u : U), 0); ((d : U), 0)]) ((fst l : U), snd l) ((fst r : U), snd r).
(* rows 0, 1, 2 are the states (0, 0), (-1, 0), (0, 1) of the left bond; columns the states (-1, 0), (0, 0), (0, 1) of the right *)
Example c62_ex :
  match to_sparse Z_ring U Z Z.eqb mat62 ops62 (map Some lop62) (map Some rop62) None with
  | Some s => (at62 s false 1 1 (0, 0) (0, 0), at62 s true 1 0 (0, 0) (-1, 0), at62 s false 0 0 (0, 1) (0, 0), at62 s false 1 1 (0, 1) (0, 1), at62 s true 1 0 (0, 1) (-1, 0), at62 s true 0 1 (-1, 0) (0, 1), at62 s false 0 0 (0, 0) (0, 1), at62 s true 0 1 (0, 0) (-1, 0))
              = (2, 3, 5, 11, -1, 9, 0, 0)
  | None => False
  end.
Proof. vm_compute. reflexivity. Qed.
Example c62_ex_states : map (row_state U 0 lop62) [0; 1; 2]%nat = [(0, 0); (-1, 0); (0, 1)] /\ map (col_state U rop62) [0; 1; 2]%nat = [(-1, 0); (0, 0); (0, 1)].
Proof. split; reflexivity. Qed.
(* a row and a column, with a charge *)
Definition row62 : smat Z_ring Z := RowV Z_ring Z [Some (2, 2); None; Some (3, 1); Some (8, 4); Some (-5, 2)].
Definition rrow62 : list U := [-1; 0; 0; 3; -1].
Definition col62 : smat Z_ring Z := ColV Z_ring Z [Some (2, 3); Some (3, 1); Some (7, 4); Some (4, 3)].
Definition lcol62 : list U := [1; 0; 0; 1].
Lemma fit62_row : operators_fit Z_ring U Z Z.eqb 4 (fun _ _ => 1) ops62 row62 [] rrow62 /\ operators_fit Z_ring U Z Z.eqb 4 (fun _ _ => 1) ops62 col62 lcol62 [].
Proof. split; ops_ok. Qed.
Example c62_ex_vectors :
  match to_sparse Z_ring U Z Z.eqb row62 ops62 [] (map Some rrow62) (Some 5), to_sparse Z_ring U Z Z.eqb col62 ops62 (map Some lcol62) [] None with
  | Some s, Some t => (at62 s true 1 0 (5, 0) (-1, 0), at62 s true 1 0 (5, 0) (-1, 1), at62 s false 1 1 (5, 0) (0, 1), at62 s false 1 1 (5, 0) (0, 0),
                       at62 t true 0 1 (-1, 0) (0, 0), at62 t true 0 1 (-1, 1) (0, 0), at62 t false 0 0 (0, 0) (0, 0)) = (2, -5, 3, 0, 2, 4, 3)
  | _, _ => False
  end.
Proof. vm_compute. reflexivity. Qed.
(* the site is graded *)
Example c62_graded_ex : exists s, to_sparse Z_ring U Z Z.eqb mat62 ops62 (map Some lop62) (map Some rop62) None = Some s /\ operator_site s.
Proof.
  apply (c62_graded Z_ring U Z Z.eqb 4 (fun _ _ => 1) ops62 mat62 lop62 rop62 None ltac:(lia) fit62). intros c s odd b I. cbn in I.
  repeat (destruct I as [<-|I]; [intros Hs; cbn in Hs; injection Hs as <-; destruct odd; cbn; intros Ib; repeat (destruct Ib as [<-|Ib]; [split; reflexivity|]); destruct Ib|]). destruct I.
Qed.

(** *** a number as operator is skipped in a row or a column, not in a matrix *)
Theorem c62_number_in_matrix_refuted : exists (c : option (Z * Z)) (ops : list (Z * pten Z_ring U)),
  to_sparse Z_ring U Z Z.eqb (RowV Z_ring Z [c]) ops [] [Some 0] None = Some (FT [] []) /\ to_sparse Z_ring U Z Z.eqb (ColV Z_ring Z [c]) ops [Some 0] [] None = Some (FT [] []) /\
  to_sparse Z_ring U Z Z.eqb (Mat Z_ring Z [((0, 0)%nat, c)]) ops [Some 0] [Some 0] None = None.
Proof. exists (Some (1, 4)), ops62. repeat split; vm_compute; reflexivity. Qed.

Print Assumptions c62_to_sparse.
Print Assumptions c62_graded.
Print Assumptions c62_number_in_matrix_refuted.
