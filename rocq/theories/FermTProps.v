(** C42, C53, C54, C55, C56: contraction, transposition, trace and adjoint of fermion tensors (fermion.py). *)
From Coq Require Import ZArith Bool List Lia Permutation Sorted Ring.
From Verif Require Import FermOpsModel FermOpsProofs SymModel SymProofs DictLib OptLib IndexLib RingLib BondModel FuseModel FuseProofs
  BlockModel BlockProofs SignModel SignProofs SignProps BlockProps FermTModel FermTProofs FermNetProofs FermTraceProofs FermNetwork FermDaggerProofs.
Import ListNotations.
Open Scope Z_scope.

(** ** C42 *)
(* the charge of a block: its labels added with the signs of the pattern *)
Definition signed_total (L : Label) (p : list bool) (qs : list L) : L :=
  lsum L (map (fun e => if fst e : bool then snd e else qneg L (snd e)) (combine p qs)).
Definition sign_of (p : list bool) (k : Z) : bool := nth (Z.to_nat k) p false.
Definition kept (n : Z) (idx : list Z) : list Z := filter (fun k => negb (existsb (Z.eqb k) idx)) (zrange n).
Lemma kept_others : forall n idx, kept n idx = others n idx. Proof. reflexivity. Qed.
Lemma signed_total_charge : forall L p qs, length p = length qs -> signed_total L p qs = charge L (sign_of p) (zrange (Z.of_nat (length qs))) qs.
Proof.
  intros L p qs H. unfold signed_total, charge. f_equal. rewrite <- (pick_all bool false p) at 1. rewrite H. unfold pick.
  generalize (zrange (Z.of_nat (length qs))). intros l. revert qs H. induction l as [|k l IH]; intros qs H; [reflexivity|]. destruct qs as [|q qs]; [reflexivity|].
  cbn [map combine fst snd]. f_equal. clear H. revert qs. clear IH. induction l as [|k' l IH]; intros qs; [reflexivity|]. destruct qs; [reflexivity|]. cbn. now rewrite IH.
Qed.
Lemma signed_total_compute : forall L p qs, signed_total L p qs = lab_compute L p qs.
Proof.
  intros L p qs. rewrite lab_compute_sum. unfold signed_total. f_equal. revert qs. induction p as [|u p IH]; intros [|q qs]; cbn; [reflexivity..|]. now rewrite IH.
Qed.

(* dq is the charge of the first block; a tensor without blocks has none *)
Theorem c42_dq : forall (R : CRing) (L : Label) (t : ftensor R L),
  ft_dq R L t = match fst t with [] => None | b :: _ => Some (signed_total L (snd t) (fst b)) end.
Proof. intros R L [t p]. unfold ft_dq. cbn [fst snd]. destruct t; [reflexivity|]. now rewrite signed_total_compute. Qed.

(* when the contraction is refused *)
Theorem c42_refused : forall (R : CRing) (L : Label) fermion (a b : ftensor R L) (na nb : Z) dma dmb axa axb,
  wf_tensor R L na dma (fst a) -> wf_tensor R L nb dmb (fst b) -> fst a <> [] -> fst b <> [] ->
  let idxa := map (leg na) axa in let idxb := map (leg nb) axb in
  ft_tensordot R L fermion a b axa axb = None <->
  length axa <> length axb \/ exists i j, In (i, j) (combine idxa idxb) /\ sign_of (snd a) i = sign_of (snd b) j.
Proof.
  intros R L fermion a b na nb dma dmb axa axb Wa Wb Na Nb idxa idxb.
  assert (Da : ndim R L (fst a) = na).
  { unfold ndim. destruct (fst a) as [|b0 l]; [congruence|]. destruct (Wa b0 (or_introl eq_refl)) as [K Sh]. rewrite Sh. unfold shape_of. rewrite map_length, combine_length, zrange_length. lia. }
  assert (Db : ndim R L (fst b) = nb).
  { unfold ndim. destruct (fst b) as [|b0 l]; [congruence|]. destruct (Wb b0 (or_introl eq_refl)) as [K Sh]. rewrite Sh. unfold shape_of. rewrite map_length, combine_length, zrange_length. lia. }
  pose proof (ft_tensordot_none R L fermion a b axa axb) as H. cbv zeta in H. rewrite Da, Db, !norm_axes_leg in H. fold idxa idxb in H. unfold ftensor in *. rewrite H. clear H.
  destruct (Nat.eq_dec (length axa) (length axb)) as [El|El]; [|tauto].
  assert (El' : length idxa = length idxb) by (unfold idxa, idxb; now rewrite !map_length).
  pose proof (flips_nil (snd a) (snd b) idxa idxb El') as F. split.
  - intros [K|[_ K]]; [contradiction|]. right.
    assert (D : forall l : list (Z * Z), (exists i j, In (i, j) l /\ sign_of (snd a) i = sign_of (snd b) j) \/ forall i j, In (i, j) l -> sign_of (snd a) i <> sign_of (snd b) j).
    { induction l as [|[i j] l IH]; [right; intros ? ? []|]. destruct (Bool.bool_dec (sign_of (snd a) i) (sign_of (snd b) j)) as [e|ne].
      - left. exists i, j. split; [now left|exact e].
      - destruct IH as [(i' & j' & I1 & I2)|I]; [left; exists i', j'; split; [now right|exact I2]|]. right. intros u v [Q|Q]; [injection Q as <- <-; exact ne|now apply I]. }
    destruct (D (combine idxa idxb)) as [D'|D']; [exact D'|]. exfalso. apply K. apply F. exact D'.
  - intros [K|(i & j & I & Eq)]; [contradiction|]. right. split; [exact Nb|]. intros K. rewrite F in K. exact (K i j I Eq).
Qed.
(* the pattern of the result: the signs of the legs that stay, first those of a *)
Theorem c42_pattern : forall (R : CRing) (L : Label) fermion (a b r : ftensor R L) (na nb : Z) dma dmb axa axb,
  wf_tensor R L na dma (fst a) -> wf_tensor R L nb dmb (fst b) -> fst a <> [] -> fst b <> [] ->
  Z.of_nat (length (snd a)) = na -> Z.of_nat (length (snd b)) = nb ->
  ft_tensordot R L fermion a b axa axb = Some r ->
  snd r = map (sign_of (snd a)) (kept na (map (leg na) axa)) ++ map (sign_of (snd b)) (kept nb (map (leg nb) axb)).
Proof.
  intros R L fermion a b r na nb dma dmb axa axb Wa Wb Na Nb La Lb E.
  assert (Da : ndim R L (fst a) = na).
  { unfold ndim. destruct (fst a) as [|b0 l]; [congruence|]. destruct (Wa b0 (or_introl eq_refl)) as [K Sh]. rewrite Sh. unfold shape_of. rewrite map_length, combine_length, zrange_length. lia. }
  assert (Db : ndim R L (fst b) = nb).
  { unfold ndim. destruct (fst b) as [|b0 l]; [congruence|]. destruct (Wb b0 (or_introl eq_refl)) as [K Sh]. rewrite Sh. unfold shape_of. rewrite map_length, combine_length, zrange_length. lia. }
  destruct (ft_tensordot_inv R L fermion a b axa axb r E) as (_ & _ & H & _). rewrite H, Da, Db, !norm_axes_leg. unfold contract_patterns. cbn [fst].
  rewrite !kept_pattern, La, Lb. reflexivity.
Qed.
(* the charge of every block of the result under that pattern is the sum of the charges *)
Theorem c42_charge : forall (R : CRing) (L : Label) fermion (a b r : ftensor R L) (na nb : Z) dma dmb axa axb (dqa dqb : L),
  wf_tensor R L na dma (fst a) -> wf_tensor R L nb dmb (fst b) -> fst a <> [] -> fst b <> [] ->
  Z.of_nat (length (snd a)) = na -> Z.of_nat (length (snd b)) = nb ->
  let idxa := map (leg na) axa in let idxb := map (leg nb) axb in
  NoDup idxa -> (forall i, In i idxa -> 0 <= i < na) -> NoDup idxb -> (forall i, In i idxb -> 0 <= i < nb) ->
  (forall ba, In ba (fst a) -> signed_total L (snd a) (fst ba) = dqa) ->
  (forall bb, In bb (fst b) -> signed_total L (snd b) (fst bb) = dqb) ->
  ft_tensordot R L fermion a b axa axb = Some r ->
  forall c, In c (fst r) -> signed_total L (snd r) (fst c) = qadd L dqa dqb.
Proof.
  intros R L fermion a b r na nb dma dmb axa axb dqa dqb Wa Wb Na Nb La Lb idxa idxb ND Ia NE Ib Ha Hb E c Hc.
  assert (Lab : length idxa = length idxb).
  { destruct (ft_tensordot_inv R L fermion a b axa axb r E) as (H & _). unfold idxa, idxb. now rewrite !map_length. }
  assert (Opp : forall i j, In (i, j) (combine idxa idxb) -> sign_of (snd a) i = negb (sign_of (snd b) j)).
  { intros i j I. destruct (Bool.bool_dec (sign_of (snd a) i) (sign_of (snd b) j)) as [e|ne].
    - exfalso. assert (F : ft_tensordot R L fermion a b axa axb = None).
      { apply (c42_refused R L fermion a b na nb dma dmb axa axb); auto. right. exists i, j. auto. }
      congruence.
    - destruct (sign_of (snd a) i), (sign_of (snd b) j); auto; contradiction. }
  rewrite (c42_pattern R L fermion a b r na nb dma dmb axa axb); auto. fold idxa idxb.
  apply (in_map fst) in Hc. apply (con_labels R L fermion a b na nb dma dmb axa axb r Wa Wb E) in Hc. fold idxa idxb in Hc.
  destruct Hc as (ba & bb & H1 & H2 & H3 & H4). rewrite H4. change kept with others.
  specialize (Ha ba H1). specialize (Hb bb H2). destruct (Wa ba H1) as [Ka _], (Wb bb H2) as [Kb _].
  rewrite signed_total_charge in Ha, Hb by lia. rewrite Ka in Ha. rewrite Kb in Hb.
  rewrite (charge_split L _ na idxa (fst ba)) in Ha by auto. rewrite (charge_split L _ nb idxb (fst bb)) in Hb by auto.
  pose proof (charge_opposite L (sign_of (snd a)) (sign_of (snd b)) idxa idxb (pick (q0 L) idxa (fst ba)) Lab Opp) as O.
  assert (ST : forall p n I qs, signed_total L (map (sign_of p) (others n I)) (pick (q0 L) (others n I) qs) = charge L (sign_of p) (others n I) (pick (q0 L) (others n I) qs)).
  { intros p n I qs. unfold signed_total, charge. f_equal. unfold pick. rewrite !combine_map_map, map_map. rewrite <- (map_id (others n I)) at 2. rewrite combine_map_map, map_map. reflexivity. }
  assert (SA : forall p1 p2 q1 q2, length p1 = length q1 -> signed_total L (p1 ++ p2) (q1 ++ q2) = qadd L (signed_total L p1 q1) (signed_total L p2 q2)).
  { intros p1 p2 q1 q2 El. unfold signed_total. rewrite <- lsum_app, <- map_app. f_equal. f_equal. revert q1 El. induction p1 as [|u p1 IH]; intros [|v q1] El; cbn in El; try lia; [reflexivity|]. cbn. f_equal. apply IH. lia. }
  rewrite SA by (now rewrite map_length, pick_length). rewrite !ST, <- Ha, <- Hb, <- H3.
  set (u := charge L (sign_of (snd a)) (others na idxa) _). set (v := charge L (sign_of (snd b)) (others nb idxb) _).
  set (x := charge L (sign_of (snd a)) idxa (pick (q0 L) idxa (fst ba))) in *. set (y := charge L (sign_of (snd b)) idxb (pick (q0 L) idxa (fst ba))) in *.
  transitivity (qadd L (qadd L u v) (qadd L x y)).
  - rewrite O, qadd_0_r. reflexivity.
  - rewrite !qadd_assoc. f_equal. rewrite <- !qadd_assoc. f_equal. apply qadd_comm.
Qed.
(* equal signs on a contracted pair: the contraction is not implemented although the blocks fit *)
Theorem c42_equal_patterns_refuted : exists a b : ftensor Z_ring U1_label,
  ft_dq _ _ a = Some 0 /\ ft_dq _ _ b = Some 0 /\ (snd a = [true; false] /\ snd b = [true; false]) /\
  ft_tensordot _ _ true a b [1] [1] = None /\ ft_tensordot _ _ true a b [1] [0] <> None.
Proof.
  exists ([([1; 1], arr [1; 1] [2])], [true; false]), ([([1; 1], arr [1; 1] [3])], [true; false]).
  split; [vm_compute; reflexivity|]. split; [vm_compute; reflexivity|]. split; [split; reflexivity|]. split; [vm_compute; reflexivity|]. vm_compute. discriminate.
Qed.
Definition fdump (t : ftensor Z_ring U1_label) : list (list Z * list Z * list Z) * list bool := (dump (fst t), snd t).
Example c42_ex :
  let a := ([([1; 0; 1], arr [1; 2; 1] [1; 2]); ([0; 1; 1], arr [2; 1; 1] [3; 4])], [true; true; false]) : ftensor Z_ring U1_label in
  let b := ([([1; 1], arr [1; 2] [5; 6]); ([0; 0], arr [1; 1] [7])], [true; false]) : ftensor Z_ring U1_label in
  option_map fdump (ft_tensordot _ _ true a b [-1] [0]) =
    Some ([([1; 0; 1], [1; 2; 2], [5; 6; 10; 12]); ([0; 1; 1], [2; 1; 2], [15; 18; 20; 24])], [true; true; false]) /\
  ft_dq _ _ a = Some 0 /\ ft_dq _ _ b = Some 0.
Proof. vm_compute. auto. Qed.
Print Assumptions c42_dq.
Print Assumptions c42_refused.
Print Assumptions c42_pattern.
Print Assumptions c42_charge.
Print Assumptions c42_equal_patterns_refuted.

(** ** C53 *)
(* elements of the contraction: the sum over the contracted labels and indices of the products, with a sign for every
   pair of odd legs exchanged when the contracted legs of a go to its end in reversed order and those of b to its front *)
Theorem c53_contraction_elements : forall (R : CRing) (L : Label) fermion (a b r : ftensor R L) (na nb : Z) (dma dmb : Z -> L -> Z) axa axb,
  wf_tensor R L na dma (fst a) -> wf_tensor R L nb dmb (fst b) ->
  let idxa := map (leg na) axa in let idxb := map (leg nb) axb in
  NoDup idxa -> (forall i, In i idxa -> 0 <= i < na) -> NoDup idxb -> (forall i, In i idxb -> 0 <= i < nb) ->
  (forall i j q, In (i, j) (combine idxa idxb) -> dma i q = dmb j q) ->
  ft_tensordot R L fermion a b axa axb = Some r ->
  NoDup (map fst (fst r)) /\
  forall Ls, NoDup Ls -> (forall q, In q Ls -> length q = length idxa) -> (forall ba, In ba (fst a) -> In (map (fun k => nth (Z.to_nat k) (fst ba) (q0 L)) idxa) Ls) ->
  forall qoa qob xoa xob, length qoa = length (kept na idxa) -> length qob = length (kept nb idxb) -> length xoa = length (kept na idxa) -> length xob = length (kept nb idxb) ->
  elem R L (fst r) (qoa ++ qob) (xoa ++ xob) =
  bsum Ls (fun qc => bsum (all_idx (map (fun e => dma (fst e) (snd e)) (combine idxa qc))) (fun xc =>
    let qa := merge (q0 L) na idxa qc qoa in let qb := merge (q0 L) nb idxb qc qob in
    signed (fermion && xorb (exchanged (odd_legs L qa) (kept na idxa ++ rev idxa)) (exchanged (odd_legs L qb) (idxb ++ kept nb idxb)))
      (rmul R (elem R L (fst a) qa (merge 0 na idxa xc xoa)) (elem R L (fst b) qb (merge 0 nb idxb xc xob))))).
Proof.
  intros R L fermion a b r na nb dma dmb axa axb Wa Wb idxa idxb ND Ia NE Ib HD E. split.
  - exact (con_nodup R L fermion a b na nb dma dmb axa axb r Wa Wb E).
  - intros Ls NL LL CL qoa qob xoa xob H1 H2 H3 H4. exact (con_elem R L fermion a b na nb dma dmb axa axb r Wa Wb ND Ia NE Ib HD E Ls NL LL CL qoa qob xoa xob H1 H2 H3 H4).
Qed.
Theorem c53_transpose_elements : forall (R : CRing) (L : Label) fermion (t : ftensor R L) n dm axes,
  wf_tensor R L n dm (fst t) -> Permutation (zrange n) axes -> Z.of_nat (length (snd t)) = n ->
  snd (ft_transpose R L fermion axes t) = map (sign_of (snd t)) axes /\
  forall qs xs, Z.of_nat (length qs) = n -> Z.of_nat (length xs) = n ->
  elem R L (fst (ft_transpose R L fermion axes t)) (map (fun k => nth (Z.to_nat k) qs (q0 L)) axes) (map (fun k => nth (Z.to_nat k) xs 0) axes)
  = signed (fermion && exchanged (odd_legs L qs) axes) (elem R L (fst t) qs xs).
Proof.
  intros R L fermion t n dm axes W Hp Hl. split; [reflexivity|]. intros qs xs Hq Hx. exact (ft_transpose_elem R L fermion t n dm axes qs xs W Hp Hq Hx).
Qed.
Example c53_ex :
  let a := ([([1; 1; 1], arr [1; 1; 1] [2])], [true; true; true]) : ftensor Z_ring U1_label in
  let b := ([([1; 1; 0], arr [1; 1; 1] [3])], [false; false; true]) : ftensor Z_ring U1_label in
  (* contracting the first leg of a passes two odd legs; the second leg of b passes one *)
  option_map fdump (ft_tensordot _ _ true a b [0] [0]) = Some ([([1; 1; 1; 0], [1; 1; 1; 1], [6])], [true; true; false; true]) /\
  option_map fdump (ft_tensordot _ _ true a b [1] [0]) = Some ([([1; 1; 1; 0], [1; 1; 1; 1], [-6])], [true; true; false; true]) /\
  option_map fdump (ft_tensordot _ _ false a b [1] [0]) = Some ([([1; 1; 1; 0], [1; 1; 1; 1], [6])], [true; true; false; true]) /\
  fdump (ft_transpose _ _ true [1; 0; 2] a) = ([([1; 1; 1], [1; 1; 1], [-2])], [true; true; true]).
Proof. vm_compute. auto. Qed.
Print Assumptions c53_contraction_elements.
Print Assumptions c53_transpose_elements.

(** ** C54 *)
Definition ordered (p : Z * Z) : Z * Z := (Z.min (fst p) (snd p), Z.max (fst p) (snd p)).
Lemma ft_trace_ordered : forall (R : CRing) (L : Label) fermion (t : ftensor R L) P,
  ft_trace R L fermion t (map fst P) (map snd P) = ft_trace R L fermion t (map fst (map ordered P)) (map snd (map ordered P)).
Proof.
  intros R L fermion t P. unfold ft_trace.
  assert (E : trace_preprocess (ndim R L (fst t)) (snd t) (map fst P) (map snd P) = trace_preprocess (ndim R L (fst t)) (snd t) (map fst (map ordered P)) (map snd (map ordered P))).
  { unfold trace_preprocess. rewrite !combine_parts.
    assert (F : forall st, fold_left trace_step P st = fold_left trace_step (map ordered P) st).
    { induction P as [|p P' IH]; intros st; [reflexivity|]. cbn [fold_left map]. rewrite IH. f_equal. unfold trace_step, ordered. cbn [fst snd]. destruct st as [[[[? ?] ?] ?] ?].
      rewrite (Z.min_l (Z.min (fst p) (snd p))), (Z.max_r (Z.min (fst p) (snd p))) by lia. reflexivity. }
    rewrite F. assert (G : filter (fun ix => negb (memZ ix (map fst P ++ map snd P))) (zrange (ndim R L (fst t))) = filter (fun ix => negb (memZ ix (map fst (map ordered P) ++ map snd (map ordered P)))) (zrange (ndim R L (fst t)))).
    { apply filter_ext. intros x. f_equal. apply eq_iff_eq_true. rewrite !memZ_in, !in_app_iff, !in_map_iff. split.
      - intros [(p & Ep & Hp)|(p & Ep & Hp)].
        + destruct (Z.le_ge_cases (fst p) (snd p)); [left|right]; exists (ordered p); (split; [unfold ordered; cbn [fst snd]; lia|now apply in_map]).
        + destruct (Z.le_ge_cases (fst p) (snd p)); [right|left]; exists (ordered p); (split; [unfold ordered; cbn [fst snd]; lia|now apply in_map]).
      - intros [(p & Ep & Hp)|(p & Ep & Hp)]; apply in_map_iff in Hp; destruct Hp as (o & <- & Hp); unfold ordered in Ep; cbn [fst snd] in Ep;
          destruct (Z.le_ge_cases (fst o) (snd o)); (left; exists o; split; [lia|exact Hp]) || (right; exists o; split; [lia|exact Hp]). }
    now rewrite G. }
  now rewrite E.
Qed.
Lemma zrange_sorted : forall n, StronglySorted Z.lt (zrange n).
Proof.
  intros n. destruct (Z_le_gt_dec 0 n) as [H|H].
  - rewrite <- (Z2Nat.id n H). induction (Z.to_nat n) as [|k IH]; [constructor|]. replace (Z.of_nat (S k)) with (Z.of_nat k + 1) by lia. rewrite zrange_succ by lia.
    apply sorted_app; [exact IH|constructor; constructor|]. intros x y Hx [<-|[]]. apply in_zrange in Hx. lia.
  - assert (E : zrange n = []); [|rewrite E; constructor]. destruct (zrange n) as [|x l] eqn:E; [reflexivity|]. assert (F : In x (zrange n)) by (rewrite E; now left). apply in_zrange in F. lia.
Qed.
Lemma zrange_len : forall n, 0 <= n -> Z.of_nat (length (zrange n)) = n.
Proof. intros. rewrite zrange_length. lia. Qed.
Lemma name_zrange : forall n k, 0 <= k < n -> name (zrange n) k = k.
Proof. intros n k H. unfold name. rewrite <- (map_id (zrange n)). now rewrite nth_zrange_map. Qed.
Lemma posn_zrange : forall n k, 0 <= k < n -> posn (zrange n) k = k.
Proof. intros n k H. rewrite <- (name_zrange n k H) at 1. apply posn_name; [apply zrange_nodup|]. rewrite zrange_len; lia. Qed.

Section C54.
Variables (R : CRing) (L : Label) (fermion : bool) (t : ftensor R L) (n : Z) (dm : Z -> L -> Z) (P : list (Z * Z)) (Lq : list L) (dq : L).
Hypothesis Hn : 0 <= n.
Hypothesis Wt : wf_tensor R L n dm (fst t).
Hypothesis Ne : fst t <> [].
Hypothesis Lp : Z.of_nat (length (snd t)) = n.
(* distinct legs, given in any order *)
Hypothesis PL : forall k, In k (map fst P ++ map snd P) -> 0 <= k < n.
Hypothesis NP : NoDup (map fst P ++ map snd P).
(* opposite signs and equal dimensions on each pair, one charge *)
Hypothesis PO : forall i j, In (i, j) P -> sign_of (snd t) i = negb (sign_of (snd t) j) /\ forall q, dm i q = dm j q.
Hypothesis Hc : forall b, In b (fst t) -> signed_total L (snd t) (fst b) = dq.
Hypothesis HL : NoDup Lq.
Hypothesis Ll : forall b q, In b (fst t) -> In q (fst b) -> In q Lq.
Let A := zrange n.
Let Po := map ordered P.
Notation K := (kept n (map fst P ++ map snd P)).
Lemma o_in : forall i j, In (i, j) Po -> 0 <= i < j /\ j < n /\ sign_of (snd t) i = negb (sign_of (snd t) j) /\ forall q, dm i q = dm j q.
Proof.
  intros i j H. apply in_map_iff in H. destruct H as ([u v] & E & H). unfold ordered in E. cbn [fst snd] in E. injection E as E1 E2.
  assert (Hu : 0 <= u < n) by (apply PL, in_or_app; left; now apply (in_map fst) in H). assert (Hv : 0 <= v < n) by (apply PL, in_or_app; right; now apply (in_map snd) in H).
  assert (Nuv : u <> v).
  { intro F. subst v. apply (nodup_app_disjoint _ _ NP u); [now apply (in_map fst) in H|now apply (in_map snd) in H]. }
  destruct (PO u v H) as [O1 O2]. destruct (Z.le_ge_cases u v).
  - rewrite Z.min_l in E1 by lia. rewrite Z.max_r in E2 by lia. subst. repeat (split; [lia|]). auto.
  - rewrite Z.min_r in E1 by lia. rewrite Z.max_l in E2 by lia. subst. repeat (split; [lia|]). split; [rewrite O1; now rewrite negb_involutive|]. intros q. now rewrite O2.
Qed.
Lemma o_names : Permutation (names Po) (map fst P ++ map snd P).
Proof.
  eapply Permutation_trans; [|apply names_perm2]. unfold Po. clear. induction P as [|[u v] P' IH]; [constructor|]. cbn [map names flat_map app ordered fst snd].
  change (flat_map (fun p : Z * Z => [fst p; snd p]) ?l) with (names l).
  destruct (Z.le_ge_cases u v); [rewrite Z.min_l, Z.max_r by lia|rewrite Z.min_r, Z.max_l by lia; eapply Permutation_trans; [|apply perm_swap]]; now do 2 apply perm_skip.
Qed.
Lemma o_nodup : NoDup (names Po). Proof. eapply Permutation_NoDup; [apply Permutation_sym, o_names|exact NP]. Qed.
Lemma o_keep : keep1 A Po = K.
Proof. unfold keep1, kept. unfold without. apply filter_ext. intros x. f_equal. apply eq_iff_eq_true. change (existsb (Z.eqb x) ?l) with (memZ x l). rewrite !memZ_in. split; apply Permutation_in; [|apply Permutation_sym]; apply o_names. Qed.
Lemma o_posn : map (posn A) (map fst Po) = map fst Po /\ map (posn A) (map snd Po) = map snd Po.
Proof.
  split; rewrite <- (map_id (map _ Po)) at 2; apply map_ext_in; intros x Hx; apply in_map_iff in Hx; destruct Hx as ([i j] & <- & Hx); apply o_in in Hx; cbn [fst snd]; apply posn_zrange; lia.
Qed.
Lemma o_wfn : wfn R L dm A (fst t).
Proof.
  unfold wfn, A. rewrite zrange_len by exact Hn. eapply wf_ext; [|exact Wt]. intros k q Hk. cbn. now rewrite name_zrange.
Qed.
Lemma o_pat : snd t = map (sign_of (snd t)) A.
Proof. unfold A. rewrite <- Lp. symmetry. apply (pick_all bool false). Qed.
Lemma o_homog : homog R L (sign_of (snd t)) A (fst t) dq.
Proof. intros b Hb. rewrite <- o_pat, <- signed_total_compute. now apply Hc. Qed.
Lemma o_sorted : StronglySorted Z.lt A. Proof. apply zrange_sorted. Qed.
Lemma o_in' : forall i j, In (i, j) Po -> In i A /\ In j A /\ i < j.
Proof. intros i j H. apply o_in in H. unfold A. rewrite !in_zrange. lia. Qed.

(* the trace exists *)
Theorem c54_trace_defined : exists r, ft_trace R L fermion t (map fst P) (map snd P) = Some r.
Proof.
  rewrite ft_trace_ordered. fold Po. destruct o_posn as [O1 O2]. rewrite <- O1, <- O2.
  apply (tr_total R L fermion dm Lq (sign_of (snd t)) t A Po (zrange_sorted n) o_in' o_nodup) with (c := dq); auto using o_pat, o_wfn, o_homog; intros; now apply o_in.
Qed.
(* its elements: the sum over the labels and indices of the pairs, with a sign for every pair of odd legs exchanged when
   the pairs go to the front *)
Theorem c54_trace_elements : forall r, ft_trace R L fermion t (map fst P) (map snd P) = Some r -> forall s x,
  elem R L (fst r) (map s K) (map x K) =
  sumP R L dm Lq (map ordered P) s x (fun s' x' =>
    signed (fermion && exchanged (fun k => qpar L (s' k)) (names (map ordered P) ++ K)) (elem R L (fst t) (map s' (zrange n)) (map x' (zrange n)))).
Proof.
  intros r E s x. rewrite ft_trace_ordered in E. fold Po in E |- *. destruct o_posn as [O1 O2]. rewrite <- O1, <- O2 in E. fold A in E. rewrite <- o_keep.
  rewrite (trace_elem R L fermion dm Lq t r A Po (sign_of (snd t))); auto using o_pat, o_wfn, o_sorted, o_nodup, o_in'.
  - apply sumP_ext; [exact o_nodup|]. intros s' x' _ Sm. f_equal. f_equal. change (fun k => qpar L (s' k)) with (par L s').
    rewrite ex_trace.
    + rewrite (ex_sorted _ (keep1 A Po)), xorb_false_r; [reflexivity|]. unfold keep1, without. apply sorted_filter. apply zrange_sorted.
    + intros i j H. split; [now apply o_in'|]. unfold par. f_equal. now apply Sm.
    + apply nodup_app_intro'; [exact o_nodup|apply NoDup_filter, zrange_nodup|]. intros k H1 H2. apply in_without in H2. tauto.
  - intros. now apply o_in.
  - intros. now apply o_in.
  - intros b b' Hb Hb'. rewrite <- !signed_total_compute. now rewrite (Hc b Hb), (Hc b' Hb').
Qed.
Theorem c54_trace_structure : forall r, ft_trace R L fermion t (map fst P) (map snd P) = Some r ->
  snd r = map (sign_of (snd t)) K /\ NoDup (map fst (fst r)) /\
  forall b, In b (fst r) -> signed_total L (snd r) (fst b) = dq /\ length (fst b) = length K /\ nshape (snd b) = map (fun e => dm (fst e) (snd e)) (combine K (fst b)).
Proof.
  intros r E. rewrite ft_trace_ordered in E. fold Po in E. destruct o_posn as [O1 O2]. rewrite <- O1, <- O2 in E. fold A in E. rewrite <- o_keep.
  assert (Hom : forall b b', In b (fst t) -> In b' (fst t) -> lab_compute L (snd t) (fst b) = lab_compute L (snd t) (fst b')).
  { intros b b' Hb Hb'. rewrite <- !signed_total_compute. now rewrite (Hc b Hb), (Hc b' Hb'). }
  assert (D : forall i j q, In (i, j) Po -> dm i q = dm j q) by (intros; now apply o_in). assert (O : forall i j, In (i, j) Po -> sign_of (snd t) i = negb (sign_of (snd t) j)) by (intros; now apply o_in).
  assert (Tp : snd r = map (sign_of (snd t)) (keep1 A Po)).
  { apply (tr_pattern R L fermion dm Lq (sign_of (snd t)) t r A Po (zrange_sorted n) o_in' o_nodup D o_pat O o_wfn Ll Ne dq o_homog E). }
  split; [exact Tp|]. split.
  - exact (trace_keys R L fermion dm Lq t r A Po (sign_of (snd t)) (zrange_sorted n) o_in' o_nodup D o_pat O o_wfn Ll Ne Hom E).
  - intros b Hb. split; [|].
    + rewrite Tp, signed_total_compute. exact (tr_charge R L fermion dm Lq (sign_of (snd t)) t r A Po (zrange_sorted n) o_in' o_nodup D o_pat O o_wfn Ll Ne dq o_homog E b Hb).
    + pose proof (trace_wf R L fermion dm Lq t r A Po (sign_of (snd t)) (zrange_sorted n) o_in' o_nodup D o_pat O o_wfn Ll Ne Hom E b Hb) as [W1 W2]. split; [lia|]. rewrite W2. unfold shape_of.
      destruct (named_block L (keep1 A Po) (fst b)) as (s & Es); [apply NoDup_filter, zrange_nodup|lia|]. rewrite Es. 
      assert (Q1 : forall (f : Z -> Z) (g : Z -> L) l, map (fun e => dm (f (fst e)) (snd e)) (combine l (map g l)) = map (fun k => dm (f k) (g k)) l)
        by (intros f g l; induction l as [|u l IH]; [reflexivity|cbn; now rewrite IH]).
      rewrite (Q1 (fun k => k) s). rewrite (map_named (keep1 A Po) _ s), (map_named (keep1 A Po) _ (fun k => dm k (s k))).
      apply (Q1 (name (keep1 A Po)) (fun k => s (name (keep1 A Po) k))).
Qed.
End C54.
(* a tensor without blocks cannot be traced, although its trace is zero *)
Theorem c54_empty_refuted : exists (t : ftensor Z_ring U1_label), snd t = [true; false] /\ fst t = [] /\ ft_trace _ _ true t [0] [1] = None.
Proof. exists ([], [true; false]). vm_compute. auto. Qed.
Example c54_ex :
  let t := ([([1; 1; 1; 1], arr [2; 1; 2; 1] [1; 2; 3; 4]); ([0; 1; 0; 1], arr [1; 1; 1; 1] [10])], [true; true; false; false]) : ftensor Z_ring U1_label in
  (* the pair (0, 2) encloses one odd leg in the first block *)
  option_map fdump (ft_trace _ _ true t [2] [0]) = Some ([([1; 1], [1; 1], [5])], [true; false]) /\
  option_map fdump (ft_trace _ _ false t [2] [0]) = Some ([([1; 1], [1; 1], [15])], [true; false]) /\
  option_map fdump (ft_trace _ _ true t [0; 3] [2; 1]) = Some ([([], [], [5])], []).
Proof. vm_compute. auto. Qed.
Print Assumptions c54_trace_defined.
Print Assumptions c54_trace_elements.
Print Assumptions c54_trace_structure.
Print Assumptions c54_empty_refuted.

(** ** C56 *)
(* A network: tensors whose legs carry increasing names, first the legs of the first tensor, and pairs of names to be
   contracted.  [contracts ts P r] says that r is obtained from the tensors ts by some sequence of tensordot and trace
   calls that pairs the legs P; the axes passed to a call are the positions of the legs in the intermediate results. *)
Definition tensor_ok (R : CRing) (L : Label) (dm : Z -> L -> Z) (pat : Z -> bool) (e : ftensor R L * list Z) : Prop :=
  snd (fst e) = map pat (snd e) /\
  (forall b, In b (fst (fst e)) -> length (fst b) = length (snd e) /\ nshape (snd b) = map (fun p => dm (fst p) (snd p)) (combine (snd e) (fst b))) /\
  exists c, forall b, In b (fst (fst e)) -> signed_total L (map pat (snd e)) (fst b) = c.
Definition pairs_ok (L : Label) (dm : Z -> L -> Z) (pat : Z -> bool) (P : list (Z * Z)) : Prop :=
  forall i j, In (i, j) P -> (forall q, dm i q = dm j q) /\ pat i = negb (pat j).

Lemma shape_named : forall (L : Label) (dm : Z -> L -> Z) (A : list Z) (qs : list L), length qs = length A ->
  shape_of L (fun k q => dm (name A k) q) (zrange (Z.of_nat (length A))) qs = map (fun p => dm (fst p) (snd p)) (combine A qs).
Proof.
  intros L dm A qs H. unfold shape_of. replace (combine A qs) with (combine (map (name A) (zrange (Z.of_nat (length A)))) qs) by now rewrite map_name.
  generalize (zrange (Z.of_nat (length A))). intros l. clear H. revert qs.
  induction l as [|u l IH]; intros [|q qs]; [reflexivity..|]. cbn. now rewrite IH.
Qed.
Lemma leaf_ok : forall (R : CRing) (L : Label) dm Lq pat (e : ftensor R L * list Z),
  tensor_ok R L dm pat e -> (forall b q, In b (fst (fst e)) -> In q (fst b) -> In q Lq) -> leaf R L dm Lq pat e.
Proof.
  intros R L dm Lq pat e (T & W & c & C) Hl. split; [|split; [exact Hl|split; [exact T|]]].
  - intros b Hb. destruct (W b Hb) as [W1 W2]. split; [lia|]. now rewrite W2, shape_named.
  - exists c. intros b Hb. rewrite <- signed_total_compute. now apply C.
Qed.
Lemma elem_lengths : forall (R : CRing) (L : Label) dm K (t : list (list L * nd R)) qs xs, wfn R L dm K t ->
  length qs <> length K \/ length xs <> length K -> elem R L t qs xs = r0 R.
Proof.
  intros R L dm K t qs xs W H. apply bsum_zero. intros b Hb. destruct (W b Hb) as [W1 W2]. destruct (tup_eqb_spec L (fst b) qs) as [E|E]; [|reflexivity].
  apply nget_out. intros F. apply in_shape_length in F. rewrite W2 in F. unfold shape_of in F. rewrite map_length, combine_length, zrange_length in F. subst qs. lia.
Qed.
Lemma named_index : forall (K : list Z) (xs : list Z), NoDup K -> length xs = length K -> exists x : Z -> Z, xs = map x K.
Proof.
  intros K xs N E. exists (fun y => nth (Z.to_nat (posn K y)) xs 0). rewrite <- (pick_all Z 0 xs) at 1. rewrite E, map_named. unfold pick. apply map_ext_in. intros k Hk.
  apply in_zrange in Hk. now rewrite posn_name.
Qed.
Definition label_dec (L : Label) (a b : L) : {a = b} + {a <> b} :=
  match qeqb_spec L a b with ReflectT _ e => Specif.left e | ReflectF _ n => Specif.right n end.
Lemma all_labels : forall (R : CRing) (L : Label) (ts : list (ftensor R L * list Z)),
  exists Lq, NoDup Lq /\ forall e b q, In e ts -> In b (fst (fst e)) -> In q (fst b) -> In q Lq.
Proof.
  intros R L ts. exists (nodup (label_dec L) (flat_map (fun e : ftensor R L * list Z => flat_map fst (fst (fst e))) ts)). split; [apply NoDup_nodup|].
  intros e b q He Hb Hq. apply nodup_In. apply in_flat_map. exists e. split; [exact He|]. apply in_flat_map. now exists b.
Qed.

(* what every such sequence of calls computes: the sum, over labels and indices of the pairs, of the product of elements,
   with one sign for every pair of odd legs exchanged when the pairs are brought together in front *)
Theorem c56_network_elements : forall (R : CRing) (L : Label) fermion dm pat Lq (ts : list (ftensor R L * list Z)) P r,
  contracts R L fermion ts P r -> StronglySorted Z.lt (flat_map snd ts) -> Forall (tensor_ok R L dm pat) ts -> pairs_ok L dm pat P ->
  NoDup Lq -> (forall e b q, In e ts -> In b (fst (fst e)) -> In q (fst b) -> In q Lq) ->
  let K := filter (fun k => negb (existsb (Z.eqb k) (names P))) (flat_map snd ts) in
  tensor_ok R L dm pat (r, K) /\
  forall s x, elem R L (fst r) (map s K) (map x K) =
  sumP R L dm Lq P s x (fun s' x' => signed (fermion && exchanged (fun k => qpar L (s' k)) (names P ++ K))
    (fold_right (rmul R) (r1 R) (map (fun e => elem R L (fst (fst e)) (map s' (snd e)) (map x' (snd e))) ts))).
Proof.
  intros R L fermion dm pat Lq ts P r C HS Tk Ft NL Hl K.
  assert (Lf : Forall (leaf R L dm Lq pat) ts).
  { rewrite Forall_forall in *. intros e He. apply leaf_ok; [now apply Tk|]. intros b q. now apply (Hl e). }
  destruct (network R L fermion dm Lq pat NL ts P r C HS Lf Ft) as ((NP & PI) & (W & La & T & c & Cg) & V). change (left R L ts P) with K in *.
  assert (NK : NoDup K) by (apply NoDup_filter; now apply sorted_nodup). split.
  - split; [exact T|]. split.
    + intros b Hb. destruct (W b Hb) as [W1 W2]. cbn [snd]. split; [lia|]. rewrite W2, shape_named by lia. reflexivity.
    + exists c. intros b Hb. rewrite signed_total_compute. now apply Cg.
  - intros s x. rewrite V. unfold value. apply sumP_ext; [exact NP|]. intros s' x' _ Sm. f_equal. f_equal. change (fun k => qpar L (s' k)) with (par L s'). change (left R L ts P) with K.
    rewrite ex_trace.
    + rewrite (ex_sorted _ K), xorb_false_r; [reflexivity|]. now apply sorted_filter.
    + intros i j H. split; [now apply PI|]. unfold par. f_equal. now apply Sm.
    + apply nodup_app_intro'; auto. intros k H1 H2. apply (in_without (names P) (flat_map snd ts) k) in H2. tauto.
Qed.
Lemma value_perm : forall (R : CRing) (L : Label) fermion dm Lq (ts : list (ftensor R L * list Z)) P P' s x,
  Permutation P P' -> NoDup (names P) -> (forall i j, In (i, j) P -> i < j) -> value R L fermion dm Lq ts P s x = value R L fermion dm Lq ts P' s x.
Proof.
  intros R L fermion dm Lq ts P P' s x HP NP PI. unfold value. assert (El : left R L ts P' = left R L ts P).
  { unfold left. apply without_ext. intros k _. split; apply Permutation_in; [apply Permutation_sym|]; now apply names_perm. }
  rewrite El. rewrite (sumP_perm R L dm Lq P P'); auto.
  - apply sumP_ext; [eapply Permutation_NoDup; [apply names_perm; exact HP|exact NP]|]. intros s' x' _ Sm. f_equal. f_equal. apply psign_perm; auto.
    intros i j H. split; [now apply PI|]. unfold par. f_equal. apply Sm. now apply (Permutation_in _ HP).
  - intros u u' v v' Hu Hv. cbv beta. f_equal; [|apply amp_ext; auto]. f_equal. apply psign_ext. intros. unfold par. now rewrite Hu.
Qed.
(* two ways of contracting the same network agree *)
Theorem c56_order_independent : forall (R : CRing) (L : Label) fermion dm pat (ts : list (ftensor R L * list Z)) P r P' r',
  contracts R L fermion ts P r -> contracts R L fermion ts P' r' -> Permutation P P' ->
  StronglySorted Z.lt (flat_map snd ts) -> Forall (tensor_ok R L dm pat) ts -> pairs_ok L dm pat P ->
  snd r = snd r' /\ forall qs xs, elem R L (fst r) qs xs = elem R L (fst r') qs xs.
Proof.
  intros R L fermion dm pat ts P r P' r' C C' HP HS Tk Ft. destruct (all_labels R L ts) as (Lq & NL & Hl).
  assert (Lf : Forall (leaf R L dm Lq pat) ts).
  { rewrite Forall_forall in *. intros e He. apply leaf_ok; [now apply Tk|]. intros b q. now apply (Hl e). }
  assert (Ft' : fits L dm pat P') by (intros i j H; apply Ft; now apply (Permutation_in _ (Permutation_sym HP))).
  destruct (network R L fermion dm Lq pat NL ts P r C HS Lf Ft) as ((NP & PI) & (W & _ & T & _) & V).
  destruct (network R L fermion dm Lq pat NL ts P' r' C' HS Lf Ft') as (_ & (W' & _ & T' & _) & V').
  assert (El : left R L ts P' = left R L ts P).
  { unfold left. apply without_ext. intros k _. split; apply Permutation_in; [apply Permutation_sym|]; now apply names_perm. }
  rewrite El in *. split; [now rewrite T, T'|]. intros qs xs. set (K := left R L ts P) in *. assert (NK : NoDup K) by (apply NoDup_filter; now apply sorted_nodup).
  destruct (Nat.eq_dec (length qs) (length K)) as [E1|E1], (Nat.eq_dec (length xs) (length K)) as [E2|E2];
    try (rewrite (elem_lengths R L dm K (fst r)), (elem_lengths R L dm K (fst r')) by auto; reflexivity).
  destruct (named_block L K qs NK E1) as (s & ->). destruct (named_index K xs NK E2) as (x & ->). rewrite V, V'. apply value_perm; auto. intros i j H. now apply PI.
Qed.
(* every call of such a sequence succeeds: tensordot always, trace on a tensor with blocks *)
Theorem c56_steps_succeed : forall (R : CRing) (L : Label) fermion dm pat,
  (forall ts1 P1 r1 ts2 P2 r2 P, contracts R L fermion ts1 P1 r1 -> contracts R L fermion ts2 P2 r2 ->
     StronglySorted Z.lt (flat_map snd (ts1 ++ ts2)) -> Forall (tensor_ok R L dm pat) (ts1 ++ ts2) -> pairs_ok L dm pat (P1 ++ P2 ++ P) ->
     (forall i j, In (i, j) P -> In i (left R L ts1 P1) /\ In j (left R L ts2 P2)) -> NoDup (map fst P) -> NoDup (map snd P) ->
     exists r, ft_tensordot R L fermion r1 r2 (map (posn (left R L ts1 P1)) (map fst P)) (map (posn (left R L ts2 P2)) (map snd P)) = Some r) /\
  (forall ts P1 r1 P, contracts R L fermion ts P1 r1 -> fst r1 <> [] ->
     StronglySorted Z.lt (flat_map snd ts) -> Forall (tensor_ok R L dm pat) ts -> pairs_ok L dm pat (P1 ++ P) ->
     (forall i j, In (i, j) P -> In i (left R L ts P1) /\ In j (left R L ts P1) /\ i < j) -> NoDup (names P) ->
     exists r, ft_trace R L fermion r1 (map (posn (left R L ts P1)) (map fst P)) (map (posn (left R L ts P1)) (map snd P)) = Some r).
Proof.
  intros R L fermion dm pat. split.
  - intros ts1 P1 r1 ts2 P2 r2 P C1 C2 HS Tk Ft PI N1 N2. destruct (all_labels R L (ts1 ++ ts2)) as (Lq & NL & Hl).
    assert (Lf : Forall (leaf R L dm Lq pat) (ts1 ++ ts2)).
    { rewrite Forall_forall in *. intros e He. apply leaf_ok; [now apply Tk|]. intros b q. now apply (Hl e). }
    apply Forall_app in Lf. destruct Lf as [Lf1 Lf2]. rewrite flat_map_app in HS. destruct (sorted_app_inv _ _ HS) as (HS1 & HS2 & HS3).
    assert (F1 : fits L dm pat P1) by (intros i j H; apply Ft, in_or_app; now left).
    assert (F2 : fits L dm pat P2) by (intros i j H; apply Ft, in_or_app; right; apply in_or_app; now left).
    assert (F3 : fits L dm pat P) by (intros i j H; apply Ft, in_or_app; right; apply in_or_app; now right).
    destruct (network R L fermion dm Lq pat NL ts1 P1 r1 C1 HS1 Lf1 F1) as (_ & (W1 & _ & T1 & _) & _).
    destruct (network R L fermion dm Lq pat NL ts2 P2 r2 C2 HS2 Lf2 F2) as (_ & (W2 & _ & T2 & _) & _).
    apply (dot_total R L fermion pat r1 r2 (left R L ts1 P1) (left R L ts2 P2) P); auto. intros i j H. now apply F3.
  - intros ts P1 r1 P C Ne HS Tk Ft PI NP. destruct (all_labels R L ts) as (Lq & NL & Hl).
    assert (Lf : Forall (leaf R L dm Lq pat) ts).
    { rewrite Forall_forall in *. intros e He. apply leaf_ok; [now apply Tk|]. intros b q. now apply (Hl e). }
    assert (F1 : fits L dm pat P1) by (intros i j H; apply Ft, in_or_app; now left).
    assert (F3 : fits L dm pat P) by (intros i j H; apply Ft, in_or_app; now right).
    destruct (network R L fermion dm Lq pat NL ts P1 r1 C HS Lf F1) as (_ & (W1 & La & T1 & c & Cg) & _).
    apply (tr_total R L fermion dm Lq pat r1 (left R L ts P1) P) with (c := c); auto; [now apply left_sorted| |]; intros; now apply F3.
Qed.
(* three tensors with odd legs, each contracted with the other two: two orders and a trace *)
Definition ex_a : ftensor Z_ring U1_label := ([([1; 1; 1], arr [2; 1; 1] [1; 2]); ([1; 0; 0], arr [2; 1; 1] [3; 4])], [true; true; false]).
Definition ex_b : ftensor Z_ring U1_label := ([([1; 1; 0], arr [2; 1; 1] [1; 3]); ([1; 0; 1], arr [2; 1; 1] [2; 5])], [false; true; true]).
Definition ex_c : ftensor Z_ring U1_label := ([([1; 1], arr [1; 1] [7]); ([0; 0], arr [1; 1] [11])], [true; false]).
(* a has legs 0 1 2, b has legs 3 4 5, c has legs 6 7; pairs (0,3), (2,6), (4,7) *)
Example c56_ex :
  let way1 := do ab <- ft_tensordot _ _ true ex_a ex_b [0] [0]; ft_tensordot _ _ true ab ex_c [1; 2] [0; 1] in
  let way2 := do bc <- ft_tensordot _ _ true ex_b ex_c [1] [1]; ft_tensordot _ _ true ex_a bc [0; 2] [0; 2] in
  let way3 := do bc <- ft_tensordot _ _ true ex_b ex_c [] []; do abc <- ft_tensordot _ _ true ex_a bc [] []; ft_trace _ _ true abc [4; 0; 2] [7; 3; 6] in
  option_map fdump way1 = Some ([([1; 0], [1; 1], [-49]); ([0; 1], [1; 1], [286])], [true; true]) /\
  option_map fdump way2 = option_map fdump way1 /\ option_map fdump way3 = option_map fdump way1.
Proof. vm_compute. auto. Qed.
Print Assumptions c56_network_elements.
Print Assumptions c56_order_independent.
Print Assumptions c56_steps_succeed.

(** ** C55 *)
Lemma combine_rev : forall (X Y : Type) (a : list X) (b : list Y), length a = length b -> combine (rev a) (rev b) = rev (combine a b).
Proof.
  induction a as [|x a IH]; intros [|y b] H; cbn in H; try lia; [reflexivity|]. cbn [rev combine]. rewrite <- IH by lia.
  assert (E : length (rev a) = length (rev b)) by (rewrite !rev_length; lia). revert E. generalize (rev a) (rev b). clear. induction l as [|u l IH]; intros [|v m] E; cbn in E; try lia; [reflexivity|].
  cbn. f_equal. apply IH. lia.
Qed.
Lemma map_fst_combine' : forall (X Y : Type) (a : list X) (b : list Y), length a = length b -> map fst (combine a b) = a.
Proof. induction a as [|x a IH]; intros [|y b] H; cbn in *; try lia; [reflexivity|]. now rewrite IH by lia. Qed.
Lemma map_snd_combine' : forall (X Y : Type) (a : list X) (b : list Y), length a = length b -> map snd (combine a b) = b.
Proof. induction a as [|x a IH]; intros [|y b] H; cbn in *; try lia; [reflexivity|]. now rewrite IH by lia. Qed.
Section C55.
Variables (R : CRing) (L : Label) (fermion : bool) (conj : R -> R).
Hypothesis conj_0 : conj (r0 R) = r0 R.
Hypothesis conj_1 : conj (r1 R) = r1 R.
Hypothesis conj_add : forall x y, conj (radd R x y) = radd R (conj x) (conj y).
Hypothesis conj_mul : forall x y, conj (rmul R x y) = rmul R (conj x) (conj y).

(* the adjoint: legs in reversed order with opposite signs, elements conjugated *)
Theorem c55_dagger : forall (t : ftensor R L) n dm, wf_tensor R L n dm (fst t) -> Z.of_nat (length (snd t)) = n ->
  snd (ft_dagger R L conj t) = rev (map negb (snd t)) /\
  (forall c, In c (fst (ft_dagger R L conj t)) -> exists b, In b (fst t) /\ fst c = rev (fst b) /\ nshape (snd c) = rev (nshape (snd b)) /\
     signed_total L (snd (ft_dagger R L conj t)) (fst c) = qneg L (signed_total L (snd t) (fst b))) /\
  forall qs xs, Z.of_nat (length qs) = n -> Z.of_nat (length xs) = n -> elem R L (fst (ft_dagger R L conj t)) (rev qs) (rev xs) = conj (elem R L (fst t) qs xs).
Proof.
  intros t n dm W Hl. assert (Ep : snd (ft_dagger R L conj t) = rev (map negb (snd t))) by (unfold ft_dagger, flip_pattern; cbn [snd]; now rewrite map_rev). split; [exact Ep|]. split.
  - intros c Hc. destruct (ft_dagger_block R L conj t n dm c W Hc) as (b & Hb & E1 & E2). exists b. split; [exact Hb|]. split; [exact E1|]. split; [exact E2|].
    destruct (W b Hb) as [K _]. rewrite Ep, E1. unfold signed_total. rewrite combine_rev by (rewrite map_length; lia). rewrite <- lsum_neg. rewrite map_rev.
    rewrite (lsum_perm L (rev (map (fun e : bool * L => if fst e then snd e else qneg L (snd e)) (combine (map negb (snd t)) (fst b)))) _ (Permutation_sym (Permutation_rev _))). f_equal. rewrite map_map. generalize (fst b). generalize (snd t). clear.
    induction p as [|u p IH]; intros [|q m]; [reflexivity..|]. cbn [map combine fst snd]. rewrite IH. destruct u; cbn [negb]; [reflexivity|]. now rewrite qneg_neg.
  - intros qs xs Hq Hx. now apply (ft_dagger_elem R L conj conj_0 conj_add t n dm).
Qed.

(* the adjoint of a network is the network of the adjoints in reversed order *)
Theorem c55_dagger_of_network : forall dm pat (ts : list (ftensor R L * list Z)) P r P' r',
  contracts R L fermion ts P r ->
  contracts R L fermion (map (fun e => (ft_dagger R L conj (fst e), map Z.opp (rev (snd e)))) (rev ts)) P' r' ->
  Permutation P' (map (fun p => (- snd p, - fst p)) P) ->
  StronglySorted Z.lt (flat_map snd ts) -> Forall (tensor_ok R L dm pat) ts -> pairs_ok L dm pat P ->
  snd r' = rev (map negb (snd r)) /\ forall qs xs, elem R L (fst r') (rev qs) (rev xs) = conj (elem R L (fst r) qs xs).
Proof.
  intros dm pat ts P r P' r' C C' HP HS Tk Ft. destruct (all_labels R L ts) as (Lq & NL & Hl).
  assert (Lf : Forall (leaf R L dm Lq pat) ts).
  { rewrite Forall_forall in *. intros e He. apply leaf_ok; [now apply Tk|]. intros b q. now apply (Hl e). }
  change (fun e : ftensor R L * list Z => (ft_dagger R L conj (fst e), map Z.opp (rev (snd e)))) with (mirror R L conj) in C'. change (fun p : Z * Z => (- snd p, - fst p)) with mpair in HP.
  set (dm' := fun k (q : L) => dm (- k) q). set (pat' := fun k => negb (pat (- k))).
  destruct (network R L fermion dm Lq pat NL ts P r C HS Lf Ft) as ((NP & PI) & (W & _ & T & _) & V).
  assert (HS' : StronglySorted Z.lt (legs R L (map (mirror R L conj) (rev ts)))) by (rewrite legs_mirror; now apply opp_sorted).
  assert (SE : forall e, In e ts -> StronglySorted Z.lt (snd e)).
  { clear -HS. induction ts as [|e0 ts IH]; intros e He; [destruct He|]. cbn [flat_map] in HS. destruct (sorted_app_inv _ _ HS) as (H1 & H2 & _). destruct He as [<-|He]; auto. }
  assert (Lf' : Forall (leaf R L dm' Lq pat') (map (mirror R L conj) (rev ts))).
  { rewrite Forall_forall in *. intros e He. apply in_map_iff in He. destruct He as (e0 & <- & He). apply in_rev in He. apply leaf_mirror; auto. }
  assert (Fm : fits L dm' pat' (map mpair P)) by now apply fits_mirror.
  assert (Ft' : fits L dm' pat' P') by (intros i j H; apply Fm; now apply (Permutation_in _ HP)).
  destruct (network R L fermion dm' Lq pat' NL _ P' r' C' HS' Lf' Ft') as ((NP' & PI') & (W' & _ & T' & _) & V').
  assert (El : left R L (map (mirror R L conj) (rev ts)) P' = map Z.opp (rev (left R L ts P))).
  { rewrite <- left_mirror with (conj := conj). unfold left. apply without_ext. intros k _. split; apply Permutation_in; [|apply Permutation_sym]; now apply names_perm. }
  set (K := left R L ts P) in *. rewrite El in *. assert (NK : NoDup K) by (apply NoDup_filter; now apply sorted_nodup). split.
  - rewrite T', T, map_opp_rev, map_map. f_equal. apply map_ext. intros k. unfold pat'. now rewrite Z.opp_involutive.
  - intros qs xs. destruct (Nat.eq_dec (length qs) (length K)) as [E1|E1], (Nat.eq_dec (length xs) (length K)) as [E2|E2];
      try (rewrite (elem_lengths R L dm K (fst r)), (elem_lengths R L dm' (map Z.opp (rev K)) (fst r')) by (rewrite ?map_length, ?rev_length; auto); now symmetry).
    destruct (named_block L K qs NK E1) as (s & ->). destruct (named_index K xs NK E2) as (x & ->). rewrite V.
    assert (A1 : rev (map s K) = map (fun k => s (- k)) (map Z.opp (rev K))) by (rewrite map_opp_rev; f_equal; apply map_ext; intros; now rewrite Z.opp_involutive).
    assert (A2 : rev (map x K) = map (fun k => x (- k)) (map Z.opp (rev K))) by (rewrite map_opp_rev; f_equal; apply map_ext; intros; now rewrite Z.opp_involutive).
    rewrite A1, A2, V'. rewrite <- (value_mirror R L fermion conj conj_0 conj_1 conj_add conj_mul dm Lq pat ts P s x Lf Ft NP).
    apply value_perm; auto. intros i j H. now apply PI'.
Qed.

(* two tensors: the adjoint of a contraction is the contraction of the adjoints *)
Lemma posn_opp_rev : forall A k, NoDup A -> 0 <= k < Z.of_nat (length A) -> posn (map Z.opp (rev A)) (- name A k) = Z.of_nat (length A) - 1 - k.
Proof.
  intros A k N H. set (A' := map Z.opp (rev A)). assert (LA : length A' = length A) by (unfold A'; now rewrite map_length, rev_length).
  assert (E : - name A k = name A' (Z.of_nat (length A) - 1 - k)).
  { unfold name, A'. rewrite (nth_indep (map Z.opp (rev A)) 0 (- 0)) by (rewrite map_length, rev_length; lia). rewrite map_nth, rev_nth by lia. f_equal. f_equal. lia. }
  rewrite E. apply posn_name; [|lia]. unfold A'. apply FinFun.Injective_map_NoDup; [intros u v; lia|]. now apply NoDup_rev.
Qed.
Theorem c55_dagger_of_contraction : forall (a b : ftensor R L) na nb dma dmb axa axb ca cb,
  wf_tensor R L na dma (fst a) -> wf_tensor R L nb dmb (fst b) -> Z.of_nat (length (snd a)) = na -> Z.of_nat (length (snd b)) = nb ->
  (forall u, In u (fst a) -> signed_total L (snd a) (fst u) = ca) -> (forall u, In u (fst b) -> signed_total L (snd b) (fst u) = cb) ->
  length axa = length axb -> NoDup axa -> NoDup axb -> (forall i, In i axa -> 0 <= i < na) -> (forall j, In j axb -> 0 <= j < nb) ->
  (forall i j, In (i, j) (combine axa axb) -> (forall q, dma i q = dmb j q) /\ sign_of (snd a) i = negb (sign_of (snd b) j)) ->
  exists r r', ft_tensordot R L fermion a b axa axb = Some r /\
    ft_tensordot R L fermion (ft_dagger R L conj b) (ft_dagger R L conj a) (map (fun j => nb - 1 - j) axb) (map (fun i => na - 1 - i) axa) = Some r' /\
    snd r' = rev (map negb (snd r)) /\ forall qs xs, elem R L (fst r') (rev qs) (rev xs) = conj (elem R L (fst r) qs xs).
Proof.
  intros a b na nb dma dmb axa axb ca cb Wa Wb La Lb Ca Cb Lx NA NB Ia Ib PO.
  set (dm := fun k (q : L) => if k <? na then dma k q else dmb (k - na) q). set (pat := fun k => if k <? na then sign_of (snd a) k else sign_of (snd b) (k - na)).
  set (A := zrange na). set (B := map (Z.add na) (zrange nb)). set (P := combine axa (map (Z.add na) axb)).
  assert (Hna : 0 <= na) by lia. assert (Hnb : 0 <= nb) by lia.
  assert (LA : Z.of_nat (length A) = na) by (unfold A; rewrite zrange_length; lia). assert (LB : Z.of_nat (length B) = nb) by (unfold B; rewrite map_length, zrange_length; lia).
  assert (SB : StronglySorted Z.lt B).
  { unfold B. pose proof (zrange_sorted nb) as H. clear -H. induction H as [|u l H IH F]; [constructor|]. cbn. constructor; [exact IH|]. rewrite Forall_forall in *. intros v Hv. apply in_map_iff in Hv. destruct Hv as (w & <- & Hw). specialize (F w Hw). lia. }
  assert (HS : StronglySorted Z.lt (A ++ B)).
  { apply sorted_app; [apply zrange_sorted|exact SB|]. intros u v Hu Hv. apply in_zrange in Hu. apply in_map_iff in Hv. destruct Hv as (w & <- & Hw). apply in_zrange in Hw. lia. }
  destruct (sorted_app_inv _ _ HS) as (SA & _ & _).
  assert (Fp : map fst P = axa) by (unfold P; apply map_fst_combine'; now rewrite map_length).
  assert (Sp : map snd P = map (Z.add na) axb) by (unfold P; apply map_snd_combine'; now rewrite map_length).
  assert (PinP : forall i j, In (i, j) P -> exists j0, j = na + j0 /\ In (i, j0) (combine axa axb)).
  { intros i j H. unfold P in H. clear -H. revert axb H. induction axa as [|u l IH]; intros [|v m] H; cbn in H; try tauto. destruct H as [H|H]; [injection H as <- <-; exists v; split; [reflexivity|now left]|].
    destruct (IH m H) as (j0 & E1 & E2). exists j0. split; [exact E1|now right]. }
  assert (PI : forall i j, In (i, j) P -> In i A /\ In j B).
  { intros i j H. destruct (PinP i j H) as (j0 & -> & H0). split; [apply in_zrange, Ia; now apply in_combine_l in H0|]. apply in_map. apply in_zrange, Ib. now apply in_combine_r in H0. }
  assert (Ta : snd a = map pat A).
  { rewrite <- (pick_all bool false (snd a)) at 1. rewrite La. unfold pick. apply map_ext_in. intros k Hk. apply in_zrange in Hk. unfold pat. destruct (Z.ltb_spec k na); [reflexivity|lia]. }
  assert (Tb : snd b = map pat B).
  { rewrite <- (pick_all bool false (snd b)) at 1. rewrite Lb. unfold pick, B. rewrite map_map. apply map_ext_in. intros k Hk. apply in_zrange in Hk. unfold pat. destruct (Z.ltb_spec (na + k) na); [lia|]. unfold sign_of. f_equal. f_equal. lia. }
  assert (Oa : tensor_ok R L dm pat (a, A)).
  { split; [exact Ta|]. cbn [fst snd]. split.
    - intros u Hu. destruct (Wa u Hu) as [W1 W2]. split; [lia|]. rewrite W2. unfold shape_of. apply map_ext_in. intros [k q] Hk. cbn [fst snd]. apply in_combine_l, in_zrange in Hk. unfold dm. destruct (Z.ltb_spec k na); [reflexivity|lia].
    - exists ca. intros u Hu. rewrite <- Ta. now apply Ca. }
  assert (Ob : tensor_ok R L dm pat (b, B)).
  { split; [exact Tb|]. cbn [fst snd]. split.
    - intros u Hu. destruct (Wb u Hu) as [W1 W2]. split; [lia|]. rewrite W2. unfold shape_of, B. generalize (fst u). assert (Q : forall k, In k (zrange nb) -> 0 <= k) by (intros k Hk; apply in_zrange in Hk; lia). revert Q. generalize (zrange nb). clear. induction l as [|k l IH]; intros Q [|q m]; [reflexivity..|].
      cbn [map combine fst snd]. f_equal; [|apply IH; intros; apply Q; now right]. assert (0 <= k) by (apply Q; now left). unfold dm. destruct (Z.ltb_spec (na + k) na); [lia|]. f_equal. lia.
    - exists cb. intros u Hu. rewrite <- Tb. now apply Cb. }
  assert (Fk : pairs_ok L dm pat P).
  { intros i j H. destruct (PinP i j H) as (j0 & -> & H0). destruct (PO i j0 H0) as [D1 D2]. assert (0 <= i < na) by (apply Ia; now apply in_combine_l in H0). assert (0 <= j0 < nb) by (apply Ib; now apply in_combine_r in H0).
    unfold dm, pat. destruct (Z.ltb_spec i na); [|lia]. destruct (Z.ltb_spec (na + j0) na); [lia|]. replace (na + j0 - na) with j0 by lia. auto. }
  assert (Tk : Forall (tensor_ok R L dm pat) [(a, A); (b, B)]) by (apply Forall_cons; [exact Oa|apply Forall_cons; [exact Ob|apply Forall_nil]]).
  assert (NFp : NoDup (map fst P)) by now rewrite Fp. assert (NSp : NoDup (map snd P)) by (rewrite Sp; apply FinFun.Injective_map_NoDup; [intros u v; lia|exact NB]).
  destruct (c56_steps_succeed R L fermion dm pat) as [St _].
  assert (Lf1 : forall (t : ftensor R L) X, left R L [(t, X)] [] = X) by (intros t X; unfold left, legs; cbn [flat_map snd names]; rewrite app_nil_r; apply without_nil).
  assert (Pa : map (posn A) (map fst P) = axa).
  { rewrite Fp. rewrite <- (map_id axa) at 2. apply map_ext_in. intros i Hi. apply posn_zrange. now apply Ia. }
  assert (Pb : map (posn B) (map snd P) = axb).
  { rewrite Sp, map_map. rewrite <- (map_id axb) at 2. apply map_ext_in. intros j Hj. specialize (Ib j Hj). assert (En : na + j = name B j) by (unfold name, B; rewrite nth_zrange_map; lia). rewrite En. apply posn_name; [now apply sorted_nodup|lia]. }
  destruct (St [(a, A)] [] a [(b, B)] [] b P (C_one _ _ _ a A) (C_one _ _ _ b B)) as (r & Er); rewrite ?Lf1; auto; [cbn [flat_map app snd]; now rewrite app_nil_r|].
  rewrite !Lf1, Pa, Pb in Er. exists r.
  set (P' := map mpair P). set (A' := map Z.opp (rev A)). set (B' := map Z.opp (rev B)).
  set (dm' := fun k (q : L) => dm (- k) q). set (pat' := fun k => negb (pat (- k))).
  destruct (all_labels R L [(a, A); (b, B)]) as (Lq & NL & Hl).
  assert (Fp' : map fst P' = map Z.opp (map snd P)) by (unfold P'; rewrite !map_map; reflexivity). assert (Sp' : map snd P' = map Z.opp (map fst P)) by (unfold P'; rewrite !map_map; reflexivity).
  assert (Pb' : map (posn B') (map fst P') = map (fun j => nb - 1 - j) axb).
  { rewrite Fp', Sp, !map_map. apply map_ext_in. intros j Hj. specialize (Ib j Hj). assert (En : na + j = name B j) by (unfold name, B; rewrite nth_zrange_map; lia). rewrite En. unfold B'. rewrite posn_opp_rev; [lia|now apply sorted_nodup|lia]. }
  assert (Pa' : map (posn A') (map snd P') = map (fun i => na - 1 - i) axa).
  { rewrite Sp', Fp, !map_map. apply map_ext_in. intros i Hi. specialize (Ia i Hi). rewrite <- (name_zrange na i Ia) at 1. unfold A', A. unfold A in LA. rewrite posn_opp_rev; [lia|apply zrange_nodup|lia]. }
  assert (NFp' : NoDup (map fst P')) by (rewrite Fp'; apply FinFun.Injective_map_NoDup; [intros u v; lia|exact NSp]).
  assert (NSp' : NoDup (map snd P')) by (rewrite Sp'; apply FinFun.Injective_map_NoDup; [intros u v; lia|exact NFp]).
  assert (PI' : forall i j, In (i, j) P' -> In i B' /\ In j A').
  { intros i j H. unfold P' in H. apply in_map_iff in H. destruct H as ([u v] & E & H). unfold mpair in E. cbn [fst snd] in E. injection E as <- <-. destruct (PI u v H) as [H1 H2]. split; apply in_map; now apply -> in_rev. }
  assert (Leaf : forall e, In e [(a, A); (b, B)] -> leaf R L dm' Lq pat' (mirror R L conj e)).
  { intros e He. apply leaf_mirror; [destruct He as [<-|[<-|[]]]; assumption|]. apply leaf_ok; [rewrite Forall_forall in Tk; now apply Tk|]. intros u q. now apply (Hl e). }
  destruct (Leaf (a, A) (or_introl eq_refl)) as (Wa' & _ & Ta' & _). destruct (Leaf (b, B) (or_intror (or_introl eq_refl))) as (Wb' & _ & Tb' & _).
  cbn [mirror fst snd] in Wa', Ta', Wb', Tb'. fold A' in Wa', Ta'. fold B' in Wb', Tb'.
  assert (Fk' : fits L dm' pat' P') by (apply fits_mirror; exact Fk).
  destruct (dot_total R L fermion pat' (ft_dagger R L conj b) (ft_dagger R L conj a) B' A' P' PI' Tb' Ta') as (r' & Er'); [intros i j H; now apply Fk'|].
  pose proof Er' as Er2. rewrite Pb', Pa' in Er'. exists r'. split; [exact Er|]. split; [exact Er'|].
  apply (c55_dagger_of_network dm pat [(a, A); (b, B)] P r P' r').
  - apply (C_dot R L fermion [(a, A)] [] a [(b, B)] [] b P r); auto; rewrite ?Lf1; auto using C_one; try apply C_one. now rewrite Pa, Pb.
  - apply (C_dot R L fermion [(ft_dagger R L conj b, B')] [] (ft_dagger R L conj b) [(ft_dagger R L conj a, A')] [] (ft_dagger R L conj a) P' r'); auto; rewrite ?Lf1; auto; apply C_one.
  - apply Permutation_refl.
  - cbn [flat_map snd]. now rewrite app_nil_r.
  - exact Tk.
  - exact Fk.
Qed.
End C55.
Example c55_ex :
  let way1 := option_map (ft_dagger _ _ (fun x => x)) (ft_tensordot Z_ring U1_label true ex_a ex_b [2] [1]) in
  let way2 := ft_tensordot Z_ring U1_label true (ft_dagger _ _ (fun x => x) ex_b) (ft_dagger _ _ (fun x => x) ex_a) [1] [0] in
  option_map fdump way1 = Some ([([0; 1; 1; 1], [1; 2; 1; 2], [-1; -2; -3; -6]); ([1; 1; 0; 1], [1; 2; 1; 2], [6; 8; 15; 20])], [false; true; false; false]) /\
  option_map fdump way2 = option_map fdump way1.
Proof. vm_compute. auto. Qed.
Print Assumptions c55_dagger.
Print Assumptions c55_dagger_of_network.
Print Assumptions c55_dagger_of_contraction.
