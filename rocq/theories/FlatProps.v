(** C17: flat storage agrees with the block lists; C36: casting into a block structure; C40: subtraction of fermion tensors. *)
From Coq Require Import ZArith Bool List Lia Permutation Ring Ascii.
From Verif Require Import SymModel SymProofs DictLib IndexLib RingLib BondModel FuseModel FuseProofs BlockModel BlockProofs BlockProps StructModel FlatModel FlatProofs.
Import ListNotations.
Open Scope Z_scope.

(** ** C17 *)
(* felem f q xs (FlatProofs) reads the element at position xs of the blocks with labels q directly from the arrays:
   block k starts at the sum of the sizes of the blocks before it and is stored row-major *)

Definition nonneg_blocks {K : Type} {R : CRing} (t : list (list K * nd R)) : Prop := forall b, In b t -> Forall (fun d => 0 <= d) (nshape (snd b)).

Theorem c17_round_trip :
  forall (R : CRing) (K : Type) (enc : K -> Z) (dec : Z -> K) (t : list (list K * nd R)),
  nonneg_blocks t -> (forall b q, In b t -> In q (fst b) -> dec (enc q) = q) ->
  Forall2 (fun b b' => fst b = fst b' /\ nshape (snd b) = nshape (snd b') /\ forall xs, nget (snd b) xs = nget (snd b') xs)
    (to_sparse R dec (from_sparse R enc t)) t.
Proof.
  intros R K enc dec t Hs Hd. rewrite from_sparse_pack by exact Hs. rewrite to_sparse_pack by (apply bview_ok; exact Hs).
  unfold tens, bview. rewrite !map_map. cbn [fst snd]. induction t as [|b t IH]; cbn [map]; constructor.
  - cbn [fst snd]. split; [|split].
    + rewrite map_map. rewrite <- (map_id (fst b)) at 2. apply map_ext_in. intros q Hq. apply (Hd b); [now left|auto].
    + reflexivity.
    + intros xs. apply nget_ravel, Hs. now left.
  - apply IH; [intros b' Hb'; apply Hs; now right|intros b' q Hb'; apply Hd; now right].
Qed.
Print Assumptions c17_round_trip.

(* layout of the arrays *)
Theorem c17_layout :
  forall (R : CRing) (K : Type) (enc : K -> Z) (t : list (list K * nd R)), nonneg_blocks t ->
  let f := from_sparse R enc t in
  fq f = map (fun b => map enc (fst b)) t /\ fsh f = map (fun b => nshape (snd b)) t /\
  (forall k, (k <= length t)%nat -> nth k (fidx f) 0 = zsum (map (fun b => prodZ (nshape (snd b))) (firstn k t))) /\
  wf_flat R f /\
  forall k b xs, nth_error t k = Some b -> in_shape (nshape (snd b)) xs ->
    nth (Z.to_nat (nth k (fidx f) 0 + ravel (nshape (snd b)) xs)) (fdata f) (r0 R) = nval (snd b) xs.
Proof.
  intros R K enc t Hs f. pose proof (bview_ok R K enc t Hs) as Ok. assert (Ef: f = pack R (bview R enc t)) by (apply from_sparse_pack; exact Hs).
  assert (Ei: forall k, (k <= length t)%nat -> nth k (fidx f) 0 = zsum (map (fun b => prodZ (nshape (snd b))) (firstn k t))).
  { intros k Hk. rewrite Ef. cbn [pack fidx]. rewrite offsets_nth by (unfold bview; rewrite !map_length; auto). unfold bview. rewrite map_map, firstn_map, map_map. reflexivity. }
  split; [reflexivity|]. split; [reflexivity|]. split; [exact Ei|]. split; [rewrite Ef; now apply pack_wf|].
  intros k b xs Hk Hx. assert (Lk: (k < length t)%nat) by (apply nth_error_Some; congruence).
  rewrite Ef. rewrite pack_idx by (auto; unfold bview; rewrite map_length; lia). cbn [pack fdata].
  assert (Lb: (k < length (bview R enc t))%nat) by (unfold bview; rewrite map_length; auto).
  rewrite (split_at _ (bview R enc t) k (dblk R) Lb) at 2. rewrite map_app, concat_app. cbn [map concat].
  assert (En: nth k (bview R enc t) (dblk R) = (map enc (fst b), (nshape (snd b), ravel_nd R (snd b)))).
  { unfold bview. apply nth_error_nth. rewrite nth_error_map, Hk. reflexivity. }
  rewrite En. cbn [snd]. pose proof (ravel_range _ _ Hx). rewrite Z2Nat.inj_add by lia. rewrite Nat2Z.id, app_nth2_plus.
  assert (Hb: Forall (fun d => 0 <= d) (nshape (snd b))) by (apply Hs; eapply nth_error_In; eauto).
  pose proof (ravel_nd_length R (snd b) Hb) as Lr. rewrite app_nth1 by lia.
  pose proof (nget_ravel R (snd b) xs Hb) as N. rewrite nget_reshape in N. rewrite nget_in in N by auto.
  apply in_shapeb_spec in Hx. rewrite Hx in N. exact N.
Qed.
Print Assumptions c17_layout.

(* labels and elements as seen through to_sparse *)
Theorem c17_unpack_elements :
  forall (R : CRing) (f : flat R), wf_flat R f ->
  map (fun b => (fst b, nshape (snd b))) (to_sparse R (fun x : Z => x) f) = combine (fq f) (fsh f) /\
  forall q xs, elem R U1_label (to_sparse R (fun x : Z => x) f) q xs = felem R f q xs.
Proof.
  intros R f W. destruct (wf_pack R f W) as (bs & Ok & ->). rewrite to_sparse_pack by auto. split.
  - unfold tens. rewrite !map_map. cbn [pack fq fsh fst snd]. clear. induction bs as [|b bs IH]; cbn [map combine]; [auto|]. rewrite IH, map_id. reflexivity.
  - intros q xs. rewrite felem_pack by auto. rewrite <- relem_elem. unfold relem. rewrite bsum_map. apply bsum_ext. intros b _. cbn [fst snd]. now rewrite map_id.
Qed.
Print Assumptions c17_unpack_elements.

(* blocks of the two operands with equal labels have equal shapes *)
Definition compatible {R : CRing} (a b : flat R) : Prop :=
  forall i j, (i < length (fq a))%nat -> (j < length (fq b))%nat -> nth i (fq a) [] = nth j (fq b) [] -> nth i (fsh a) [] = nth j (fsh b) [].

Lemma compatible_agree : forall (R : CRing) (ba bb : list (list Z * (list Z * list R))), compatible (pack R ba) (pack R bb) -> agree R ba bb.
Proof.
  intros R ba bb H x y Hx Hy E. apply (In_nth _ _ (dblk R)) in Hx, Hy. destruct Hx as (i & Hi & <-), Hy as (j & Hj & <-).
  specialize (H i j). cbn [pack fq fsh] in H. rewrite !map_length, !pack_nth_sh, !pack_nth_q in H by auto. now apply H.
Qed.
Lemma neg_compatible : forall (R : CRing) (a b : flat R), compatible a b -> compatible a (neg_data R b).
Proof. intros R a b H. exact H. Qed.
Lemma felem_empty : forall (R : CRing) (f : flat R) q xs, n_blocks R f = 0 -> felem R f q xs = r0 R.
Proof. intros R f q xs H. unfold n_blocks in H. unfold felem. destruct (fq f); [reflexivity|cbn in H; lia]. Qed.

Theorem c17_addition :
  forall (R : CRing) (a b : flat R), wf_flat R a -> wf_flat R b -> compatible a b ->
  wf_flat R (flat_add R a b) /\
  (forall q, In q (fq (flat_add R a b)) <-> In q (fq a) \/ In q (fq b)) /\
  forall q xs, felem R (flat_add R a b) q xs = radd R (felem R a q xs) (felem R b q xs).
Proof.
  intros R a b Wa Wb C. pose proof (Radd_0_l (rth R)) as A0. pose proof (Radd_comm (rth R)) as Ac. unfold flat_add.
  destruct (Z.eqb_spec (n_blocks R b) 0) as [Eb|Eb]; [|destruct (Z.eqb_spec (n_blocks R a) 0) as [Ea|Ea]].
  - split; [auto|]. split.
    + intros q. assert (fq b = []) as -> by (unfold n_blocks in Eb; destruct (fq b); [auto|cbn in Eb; lia]). cbn. tauto.
    + intros q xs. rewrite (felem_empty R b) by auto. now rewrite Ac, A0.
  - split; [auto|]. split.
    + intros q. assert (fq a = []) as -> by (unfold n_blocks in Ea; destruct (fq a); [auto|cbn in Ea; lia]). cbn. tauto.
    + intros q xs. rewrite (felem_empty R a) by auto. now rewrite A0.
  - destruct (wf_pack R a Wa) as (ba & Oa & ->), (wf_pack R b Wb) as (bb & Ob & ->).
    destruct (add_kernel_spec R ba bb Oa Ob (compatible_agree R ba bb C)) as (bs & Os & E & El & G). rewrite E. split; [now apply pack_wf|]. split.
    + intros q. cbn [pack fq]. assert (Em: map fst bs = map fst (ba ++ filter (fun b => negb (labb R ba (fst b))) bb)).
      { apply (f_equal (map fst)) in El. rewrite !map_map in El. exact El. }
      rewrite Em, map_app, in_app_iff. split.
      * intros [H|H]; [auto|]. right. apply in_map_iff in H. destruct H as (x & <- & Hx). apply filter_In in Hx. apply in_map. tauto.
      * intros [H|H]; [auto|]. pose proof (labb_spec R ba q) as Lb. destruct (labb R ba q) eqn:El2; [left; now apply Lb|]. right.
        apply in_map_iff in H. destruct H as (x & <- & Hx). apply in_map, filter_In. split; [auto|]. now rewrite El2.
    + intros q xs. rewrite !felem_pack by auto. apply G.
Qed.
Print Assumptions c17_addition.

Theorem c17_subtraction :
  forall (R : CRing) (a b : flat R), wf_flat R a -> wf_flat R b -> compatible a b ->
  wf_flat R (flat_sub R a b) /\ forall q xs, felem R (flat_sub R a b) q xs = rsub R (felem R a q xs) (felem R b q xs).
Proof.
  intros R a b Wa Wb C.
  assert (Wn: wf_flat R (neg_data R b)). { destruct (wf_pack R b Wb) as (bb & Ob & ->). rewrite neg_pack. now apply pack_wf, neg_ok. }
  assert (En: forall q xs, felem R (neg_data R b) q xs = ropp R (felem R b q xs)).
  { intros q xs. destruct (wf_pack R b Wb) as (bb & Ob & ->). rewrite neg_pack, !felem_pack by auto using neg_ok. apply neg_elem. }
  assert (E: flat_sub R a b = if n_blocks R b =? 0 then a else flat_add R a (neg_data R b)).
  { unfold flat_sub, flat_add. change (n_blocks R (neg_data R b)) with (n_blocks R b). destruct (n_blocks R b =? 0); reflexivity. }
  rewrite E. destruct (c17_addition R a (neg_data R b) Wa Wn (neg_compatible R a b C)) as (W & _ & G).
  pose proof (rth R) as [A0 Ac _ _ _ _ _ Su On]. destruct (Z.eqb_spec (n_blocks R b) 0) as [Eb|Eb].
  - split; [auto|]. intros q xs. rewrite (felem_empty R b) by auto. rewrite Su.
    assert (Z0: ropp R (r0 R) = r0 R) by (rewrite <- (A0 (ropp R (r0 R))); apply On). now rewrite Z0, Ac, A0.
  - split; [auto|]. intros q xs. now rewrite G, En, Su.
Qed.
Print Assumptions c17_subtraction.

(* every block has n legs *)
Definition rank_is {R : CRing} (n : Z) (f : flat R) : Prop :=
  forall k, (k < length (fq f))%nat -> Z.of_nat (length (nth k (fq f) [])) = n /\ Z.of_nat (length (nth k (fsh f) [])) = n.

Theorem c17_transposition :
  forall (R : CRing) (n : Z) (p : list Z) (f : flat R), wf_flat R f -> rank_is n f -> Permutation (zrange n) p ->
  wf_flat R (flat_transpose R p f) /\
  forall q xs, Z.of_nat (length q) = n -> Z.of_nat (length xs) = n ->
  felem R (flat_transpose R p f) (map (fun i => nth (Z.to_nat i) q 0) p) (map (fun i => nth (Z.to_nat i) xs 0) p) = felem R f q xs.
Proof.
  intros R n p f W Rk Hp. destruct (wf_pack R f W) as (bs & Ok & ->).
  assert (Hl: forall b, In b bs -> Z.of_nat (length (fst b)) = n /\ Z.of_nat (length (fst (snd b))) = n).
  { intros b Hb. apply (In_nth _ _ (dblk R)) in Hb. destruct Hb as (k & Hk & <-). specialize (Rk k). cbn [pack fq fsh] in Rk.
    rewrite map_length, pack_nth_sh, pack_nth_q in Rk by auto. auto. }
  destruct (transpose_pack R n p bs Hp Ok (fun b Hb => proj2 (Hl b Hb))) as [E Ok']. rewrite E. split; [now apply pack_wf|].
  intros q xs Hq Hx. rewrite !felem_pack by auto. exact (transpose_elem R n p bs q xs Hp Ok Hl Hq Hx).
Qed.
Print Assumptions c17_transposition.

(* the dimension of leg i is determined by i and the label on it *)
Definition leg_dims {R : CRing} (n : Z) (dm : Z -> Z -> Z) (f : flat R) : Prop :=
  forall k, (k < length (fq f))%nat -> Z.of_nat (length (nth k (fq f) [])) = n /\
    nth k (fsh f) [] = map (fun i => dm i (nth (Z.to_nat i) (nth k (fq f) []) 0)) (zrange n).
Lemma shape_of_zrange : forall dm n (q : list Z), Z.of_nat (length q) = n -> shape_of U1_label dm (zrange n) q = map (fun i => dm i (nth (Z.to_nat i) q 0)) (zrange n).
Proof.
  intros dm n q H. unfold shape_of. subst n. rewrite (combine_zrange_nth Z 0). rewrite map_map. reflexivity.
Qed.
Lemma leg_dims_wf : forall (R : CRing) n dm bs, leg_dims n dm (pack R bs) -> wf_tensor R U1_label n dm (tens R bs).
Proof.
  intros R n dm bs H b Hb. apply in_map_iff in Hb. destruct Hb as (b0 & <- & Hb). cbn [fst snd reshape_nd nshape].
  apply (In_nth _ _ (dblk R)) in Hb. destruct Hb as (k & Hk & <-). specialize (H k). cbn [pack fq fsh] in H.
  rewrite map_length, pack_nth_sh, pack_nth_q in H by auto. destruct (H Hk) as [A B]. split; [exact A|]. rewrite B. symmetry. now apply shape_of_zrange.
Qed.

Theorem c17_contraction :
  forall (R : CRing) (a b : flat R) (na nb : Z) (dma dmb : Z -> Z -> Z) (axa axb : list Z),
  wf_flat R a -> wf_flat R b -> leg_dims na dma a -> leg_dims nb dmb b ->
  let idxa := map (leg na) axa in let idxb := map (leg nb) axb in
  NoDup idxa -> (forall i, In i idxa -> 0 <= i < na) -> NoDup idxb -> (forall i, In i idxb -> 0 <= i < nb) ->
  length axa = length axb -> (forall i j q, In (i, j) (combine idxa idxb) -> dma i q = dmb j q) ->
  forall Ls, NoDup Ls -> (forall q, In q Ls -> length q = length idxa) ->
  (forall q, In q (fq a) -> In (map (fun i => nth (Z.to_nat i) q 0) idxa) Ls) ->
  wf_flat R (flat_tensordot R a b axa axb) /\
  forall qoa qob xoa xob, length qoa = length (others na idxa) -> length qob = length (others nb idxb) ->
  length xoa = length (others na idxa) -> length xob = length (others nb idxb) ->
  felem R (flat_tensordot R a b axa axb) (qoa ++ qob) (xoa ++ xob) =
  bsum Ls (fun qc => bsum (all_idx (map (fun p => dma (fst p) (snd p)) (combine idxa qc))) (fun xc =>
    rmul R (felem R a (merge 0 na idxa qc qoa) (merge 0 na idxa xc xoa)) (felem R b (merge 0 nb idxb qc qob) (merge 0 nb idxb xc xob)))).
Proof.
  intros R a b na nb dma dmb axa axb Wa Wb Da Db idxa idxb Na Ia Nb Ib Lab Dab Ls NL LL CL.
  assert (Lab': length idxa = length idxb) by (unfold idxa, idxb; now rewrite !map_length).
  destruct (wf_pack R a Wa) as (ba & Oa & Ea), (wf_pack R b Wb) as (bb & Ob & Eb).
  assert (M0: forall x : R, rmul R (r0 R) x = r0 R /\ rmul R x (r0 R) = r0 R).
  { intros x. assert (G: forall y : R, rmul R (r0 R) y = r0 R) by (intros y; exact (ARmul_0_l (Rth_ARth (Eqsth R) (Eq_ext _ _ _) (rth R)) y)).
    split; [apply G|]. now rewrite (Rmul_comm (rth R)). }
  destruct (Z.eqb_spec (n_blocks R a) 0) as [Za|Za].
  { assert (E: flat_tensordot R a b axa axb = a) by (unfold flat_tensordot; rewrite (proj2 (Z.eqb_eq _ _) Za); reflexivity). rewrite E. split; [auto|].
    intros. rewrite (felem_empty R a) by auto. symmetry. apply bsum_zero. intros qc _. apply bsum_zero. intros xc _. rewrite (felem_empty R a) by auto. apply M0. }
  destruct (Z.eqb_spec (n_blocks R b) 0) as [Zb|Zb].
  { assert (E: flat_tensordot R a b axa axb = b).
    { unfold flat_tensordot. rewrite (proj2 (Z.eqb_eq _ _) Zb). destruct (Z.eqb_spec (n_blocks R a) 0); [contradiction|reflexivity]. }
    rewrite E. split; [auto|].
    intros. rewrite (felem_empty R b) by auto. symmetry. apply bsum_zero. intros qc _. apply bsum_zero. intros xc _. rewrite (felem_empty R b) by auto. apply M0. }
  subst a b. rewrite pack_n in Za, Zb.
  pose proof (leg_dims_wf R na dma ba Da) as Wfa. pose proof (leg_dims_wf R nb dmb bb Db) as Wfb.
  assert (Ia': norm_axes na axa = idxa) by apply norm_axes_leg. assert (Ib': norm_axes nb axb = idxb) by apply norm_axes_leg.
  destruct (tensordot_pack R ba bb na nb dma dmb axa axb Oa Ob) as (m & Em & Et & Hm); rewrite ?Ia', ?Ib'; auto.
  - destruct ba; [cbn in Za; lia|congruence].
  - destruct bb; [cbn in Zb; lia|congruence].
  - rewrite Ia', Ib' in Em. rewrite Et. assert (Om: Forall (okb R) (bview R (fun x : Z => x) m)) by (apply bview_ok; exact Hm).
    split; [now apply pack_wf|]. intros qoa qob xoa xob A1 A2 A3 A4. rewrite felem_pack by auto. rewrite elem_bview by exact Hm. rewrite relem_elem, Em.
    pose proof (contribs_wf R U1_label (tens R ba) (tens R bb) na nb dma dmb idxa idxb Wfa Wfb Ia Ib Lab' Dab) as Wc.
    rewrite acc_plus_elem; [|constructor|exact (wf_same_shapes R U1_label _ _ _ Wc)].
    change (elem R U1_label [] (qoa ++ qob) (xoa ++ xob)) with (r0 R). rewrite (Radd_0_l (rth R)).
    rewrite (contribs_elem R U1_label (tens R ba) (tens R bb) na nb dma dmb idxa idxb Wfa Wfb Na Ia Nb Ib Lab' Dab Ls NL LL) by
      (auto; intros x Hx; apply CL; cbn [pack fq]; rewrite <- (tens_fst R ba); now apply (in_map fst)).
    apply bsum_ext. intros qc _. apply bsum_ext. intros xc _. rewrite !felem_pack by auto. rewrite !relem_elem. reflexivity.
Qed.
Print Assumptions c17_contraction.

(* readable form: rows, shapes, data, offsets *)
Definition fdump (f : flat Z_ring) : list (list Z) * list (list Z) * list Z * list Z := (fq f, fsh f, fdata f, fidx f).
Definition f1 : flat Z_ring := from_sparse Z_ring (fun x : Z => x) [([0; 1], arr [1; 2] [1; 2]); ([1; 0], arr [2; 1] [3; 4])].
Definition f2 : flat Z_ring := from_sparse Z_ring (fun x : Z => x) [([2; 2], arr [1; 1] [9]); ([1; 0], arr [2; 1] [10; 20])].
Example c17_ex :
  fdump f1 = ([[0; 1]; [1; 0]], [[1; 2]; [2; 1]], [1; 2; 3; 4], [0; 2; 4]) /\
  fdump (flat_add Z_ring f1 f2) = ([[0; 1]; [1; 0]; [2; 2]], [[1; 2]; [2; 1]; [1; 1]], [1; 2; 13; 24; 9], [0; 2; 4; 5]) /\
  fdump (flat_sub Z_ring f1 f2) = ([[0; 1]; [1; 0]; [2; 2]], [[1; 2]; [2; 1]; [1; 1]], [1; 2; -7; -16; -9], [0; 2; 4; 5]) /\
  fdump (flat_transpose Z_ring [1; 0] f1) = ([[1; 0]; [0; 1]], [[2; 1]; [1; 2]], [1; 2; 3; 4], [0; 2; 4]) /\
  fdump (flat_tensordot Z_ring f1 f2 [-1] [0]) = ([[0; 0]], [[1; 1]], [50], [0; 1]).
Proof. vm_compute. repeat split; reflexivity. Qed.

(** ** C36 *)
(* for self with distinct labels and other with distinct labels *)
Theorem c36_cast_assign_elements :
  forall (R : CRing) (self other : flat R), wf_flat R self -> wf_flat R other -> compatible self other ->
  NoDup (fq self) -> NoDup (fq other) ->
  wf_flat R (cast_assign R self other) /\ fq (cast_assign R self other) = fq self /\
  wf_flat R (cast_assign_removed R self other) /\
  forall q xs,
    (In q (fq self) -> In q (fq other) -> felem R (cast_assign R self other) q xs = felem R other q xs /\ felem R (cast_assign_removed R self other) q xs = r0 R) /\
    (In q (fq self) -> ~ In q (fq other) -> felem R (cast_assign R self other) q xs = felem R self q xs) /\
    (~ In q (fq self) -> felem R (cast_assign R self other) q xs = r0 R /\ felem R (cast_assign_removed R self other) q xs = felem R other q xs).
Proof.
  intros R self other Ws Wo C Ns No. destruct (wf_pack R self Ws) as (bs & Os & ->), (wf_pack R other Wo) as (bo & Oo & ->).
  pose proof (compatible_agree R bs bo C) as Ag. destruct (cast_assign_pack R bs bo Os Oo Ag) as [E1 O1], (removed_pack R bs bo Oo) as [E2 O2].
  rewrite E1, E2. split; [now apply pack_wf|]. split; [cbn [pack fq]; unfold cast_blocks; rewrite map_map; reflexivity|]. split; [now apply pack_wf|].
  intros q xs. rewrite !felem_pack by auto. rewrite (cast_elem R bs bo q xs Ag Ns No), removed_elem.
  pose proof (labb_spec R bs q) as Ls. pose proof (labb_spec R bo q) as Lo. cbn [pack fq].
  split; [|split].
  - intros H1 H2. rewrite (proj2 Ls H1), (proj2 Lo H2). auto.
  - intros H1 H2. rewrite (proj2 Ls H1). destruct (labb R bo q); [exfalso; apply H2, Lo; auto|auto].
  - intros H1. destruct (labb R bs q); [exfalso; apply H1, Ls; auto|auto].
Qed.
Print Assumptions c36_cast_assign_elements.

(* with an all-zero target the split is exact and the two parts have no block in common: where the block label is in the
   target the remainder is zero, elsewhere the cast is zero *)
Theorem c36_split_exact :
  forall (R : CRing) (self other : flat R), wf_flat R self -> wf_flat R other -> compatible self other ->
  NoDup (fq self) -> NoDup (fq other) -> (forall x, In x (fdata self) -> x = r0 R) ->
  forall q xs,
    felem R other q xs = radd R (felem R (cast_assign R self other) q xs) (felem R (cast_assign_removed R self other) q xs) /\
    (felem R (cast_assign R self other) q xs = r0 R \/ felem R (cast_assign_removed R self other) q xs = r0 R).
Proof.
  intros R self other Ws Wo C Ns No Hz q xs. destruct (c36_cast_assign_elements R self other Ws Wo C Ns No) as (_ & _ & _ & G). specialize (G q xs).
  pose proof (Radd_0_l (rth R)) as A0. pose proof (Radd_comm (rth R)) as Ac.
  assert (Zs: felem R self q xs = r0 R).
  { apply bsum_zero. intros k _. match goal with |- (if ?c then _ else _) = _ => destruct c; [|reflexivity] end.
    match goal with |- nth ?n ?l ?d = _ => destruct (nth_in_or_default n l d); [now apply Hz|auto] end. }
  destruct G as (G1 & G2 & G3).
  destruct (in_dec (list_eq_dec Z.eq_dec) q (fq self)) as [Hs|Hs].
  - destruct (in_dec (list_eq_dec Z.eq_dec) q (fq other)) as [Ho|Ho].
    + destruct (G1 Hs Ho) as [-> ->]. split; [now rewrite Ac, A0|auto].
    + rewrite (G2 Hs Ho), Zs, A0. split; [|auto].
      destruct (wf_pack R other Wo) as (bo & Oo & Eo), (wf_pack R self Ws) as (bs & Os & Es). subst.
      destruct (removed_pack R bs bo Oo) as [E2 O2]. rewrite E2, !felem_pack by auto. rewrite removed_elem. rewrite (proj2 (labb_spec R bs q) Hs). apply relem_absent. exact Ho.
  - destruct (G3 Hs) as [-> ->]. split; [now rewrite A0|auto].
Qed.
Print Assumptions c36_split_exact.

(* false for a target with contents: its blocks that are absent from other keep their old data *)
Theorem c36_stale_target_refuted :
  exists (self other : flat Z_ring) q xs, wf_flat Z_ring self /\ wf_flat Z_ring other /\ compatible self other /\ NoDup (fq self) /\ NoDup (fq other) /\
  felem Z_ring other q xs <> felem Z_ring (cast_assign Z_ring self other) q xs + felem Z_ring (cast_assign_removed Z_ring self other) q xs.
Proof.
  exists f1, f2, [0; 1], [0; 1].
  assert (W: forall t : list (list Z * nd Z_ring), nonneg_blocks t -> wf_flat Z_ring (from_sparse Z_ring (fun x : Z => x) t)) by (intros t H; apply (c17_layout Z_ring Z (fun x : Z => x) t H)).
  split; [|split; [|split; [|split; [|split]]]].
  - apply W. intros b [<-|[<-|[]]]; cbn; repeat constructor; lia.
  - apply W. intros b [<-|[<-|[]]]; cbn; repeat constructor; lia.
  - intros [|[|i]] [|[|j]] Hi Hj; cbn in *; try lia; try congruence; auto.
  - cbn. repeat constructor; cbn; intuition congruence.
  - cbn. repeat constructor; cbn; intuition congruence.
  - vm_compute. discriminate.
Qed.
Print Assumptions c36_stale_target_refuted.
Example c36_ex :
  fdump (cast_assign Z_ring (zeros_like Z_ring f1) f2) = ([[0; 1]; [1; 0]], [[1; 2]; [2; 1]], [0; 0; 10; 20], [0; 2; 4]) /\
  fdump (cast_assign_removed Z_ring f1 f2) = ([[2; 2]; [1; 0]], [[1; 1]; [2; 1]], [9; 0; 0], [0; 1; 3]) /\
  fdump (cast_assign Z_ring f1 f2) = ([[0; 1]; [1; 0]], [[1; 2]; [2; 1]], [1; 2; 10; 20], [0; 2; 4]).
Proof. vm_compute. repeat split; reflexivity. Qed.

(** ** C40 *)
(* sparse storage: distinct labels in a, equal shapes for equal labels; None is NotImplementedError, raised exactly for
   different patterns on one of the legs of b *)
Theorem c40_sparse_difference :
  forall (R : CRing) (L : Label) (a b : fsparse R L), NoDup (map fst (sblocks a)) -> same_shapes R L (sblocks a ++ sblocks b) ->
  (forall r, fs_sub R L a b = Some r -> spat r = spat a /\
     forall qs xs, elem R L (sblocks r) qs xs = rsub R (elem R L (sblocks a) qs xs) (elem R L (sblocks b) qs xs)) /\
  (forall r, fs_add R L a b = Some r -> spat r = spat a /\
     forall qs xs, elem R L (sblocks r) qs xs = radd R (elem R L (sblocks a) qs xs) (elem R L (sblocks b) qs xs)) /\
  (spat a = spat b \/ sblocks b = [] -> fs_sub R L a b <> None /\ fs_add R L a b <> None).
Proof.
  intros R L a b Hn Hs. unfold fs_sub, fs_add.
  destruct (same_pattern (ndim R L (sblocks b)) (spat a) (spat b)) eqn:E.
  - split; [|split].
    + intros r [= <-]. cbn [spat sblocks]. split; [auto|]. intros qs xs. rewrite sp_sub_acc by auto. now apply acc_minus_elem.
    + intros r [= <-]. cbn [spat sblocks]. split; [auto|]. intros qs xs. rewrite sp_add_acc by auto. now apply acc_plus_elem.
    + split; discriminate.
  - split; [discriminate|]. split; [discriminate|]. intros H. exfalso. destruct H as [H|H].
    + rewrite H in E. unfold same_pattern in E. assert (F: forallb (fun i => Ascii.eqb (nth (Z.to_nat i) (spat b) "0"%char) (nth (Z.to_nat i) (spat b) "0"%char)) (zrange (ndim R L (sblocks b))) = true).
      { apply forallb_forall. intros i _. apply Ascii.eqb_refl. } congruence.
    + rewrite H in E. discriminate.
Qed.
Print Assumptions c40_sparse_difference.

(* flat storage: the sum, and the difference unless a is empty and b is not *)
Theorem c40_flat_difference :
  forall (R : CRing) (a b : fflat R), wf_flat R (fbase a) -> wf_flat R (fbase b) -> compatible (fbase a) (fbase b) ->
  (forall r, ff_sub R a b = Some r -> (fq (fbase a) <> [] \/ fq (fbase b) = []) ->
     fpat r = fpat a /\ forall q xs, felem R (fbase r) q xs = rsub R (felem R (fbase a) q xs) (felem R (fbase b) q xs)) /\
  (forall r, ff_add R a b = Some r -> (fq (fbase a) <> [] -> fpat r = fpat a) /\
     forall q xs, felem R (fbase r) q xs = radd R (felem R (fbase a) q xs) (felem R (fbase b) q xs)) /\
  (fpat a = fpat b -> ff_sub R a b <> None /\ ff_add R a b <> None).
Proof.
  intros R a b Wa Wb C. destruct (c17_addition R _ _ Wa Wb C) as (_ & _ & Ga). destruct (c17_subtraction R _ _ Wa Wb C) as (_ & Gs).
  unfold ff_sub, ff_add. unfold flat_add, flat_sub in *.
  assert (Nq: forall f : flat R, n_blocks R f = 0 <-> fq f = []) by (intros f; unfold n_blocks; destruct (fq f); cbn; split; intros; try congruence; lia).
  destruct (Z.eqb_spec (n_blocks R (fbase b)) 0) as [Eb|Eb]; [|destruct (Z.eqb_spec (n_blocks R (fbase a)) 0) as [Ea|Ea]; [|destruct (same_pattern _ _ _) eqn:E]].
  - split; [|split]; [intros r [= <-] _; auto|intros r [= <-]; auto|split; discriminate].
  - split; [|split].
    + intros r [= <-] [H|H]; exfalso; [apply H, Nq; auto|apply Eb, Nq; auto].
    + intros r [= <-]. split; [|auto]. intros H. exfalso. apply H, Nq. auto.
    + split; discriminate.
  - split; [|split]; [intros r [= <-] _; auto|intros r [= <-]; auto|split; discriminate].
  - split; [|split]; [discriminate|discriminate|]. intros H. exfalso. rewrite H in E. unfold same_pattern in E.
    assert (F: forallb (fun i => Ascii.eqb (nth (Z.to_nat i) (fpat b) "0"%char) (nth (Z.to_nat i) (fpat b) "0"%char)) (zrange (fndim R (fbase b))) = true).
    { apply forallb_forall. intros i _. apply Ascii.eqb_refl. } congruence.
Qed.
Print Assumptions c40_flat_difference.

Definition fempty : flat Z_ring := mkFlat Z_ring [] [] [] [0].
(* 0 - b gives b *)
Theorem c40_empty_left_refuted :
  exists (a b : fflat Z_ring) r q xs, wf_flat Z_ring (fbase a) /\ wf_flat Z_ring (fbase b) /\ compatible (fbase a) (fbase b) /\ fpat a = fpat b /\
  ff_sub Z_ring a b = Some r /\ felem Z_ring (fbase r) q xs <> felem Z_ring (fbase a) q xs - felem Z_ring (fbase b) q xs.
Proof.
  exists (mkFflat Z_ring ["+"; "-"]%char fempty), (mkFflat Z_ring ["+"; "-"]%char f1), (mkFflat Z_ring ["+"; "-"]%char f1), [1; 0], [1; 0].
  split; [|split; [|split; [|split; [|split]]]].
  - unfold wf_flat, fempty. cbn. split; [reflexivity|]. split; [tauto|]. split; [reflexivity|]. split; [reflexivity|]. intros k Hk. replace k with O by lia. reflexivity.
  - apply (c17_layout Z_ring Z (fun x : Z => x)). intros b [<-|[<-|[]]]; cbn; repeat constructor; lia.
  - intros i j Hi. cbn in Hi. lia.
  - reflexivity.
  - reflexivity.
  - vm_compute. discriminate.
Qed.
Print Assumptions c40_empty_left_refuted.
Example c40_ex :
  option_map (fun r => fdump (fbase r)) (ff_sub Z_ring (mkFflat Z_ring ["+"; "-"]%char f1) (mkFflat Z_ring ["+"; "-"]%char f2))
  = Some ([[0; 1]; [1; 0]; [2; 2]], [[1; 2]; [2; 1]; [1; 1]], [1; 2; -7; -16; -9], [0; 2; 4; 5]) /\
  ff_sub Z_ring (mkFflat Z_ring ["+"; "+"]%char f1) (mkFflat Z_ring ["+"; "-"]%char f2) = None.
Proof. split; vm_compute; reflexivity. Qed.
