(** Properties C13, C14, C15: block-sparse addition, contraction and transposition.
    [elem t qs xs] is the element of the tensor at labels qs and indices xs (zero where there is no block):
    the tensor as a function on the basis states of its legs. *)
From Coq Require Import ZArith Bool List Lia Permutation Ring.
From Verif Require Import SymModel SymProofs DictLib IndexLib RingLib BondModel FuseModel FuseProofs BlockModel BlockProofs.
Import ListNotations.
Open Scope Z_scope.

(** ** C13 *)
Theorem c13_addition_elementwise :
  forall (R : CRing) (L : Label) (a b : list (list L * nd R)),
  NoDup (map fst a) -> same_shapes R L (a ++ b) ->
  (forall qs xs, elem R L (sp_add R L a b) qs xs = radd R (elem R L a qs xs) (elem R L b qs xs))
  /\ NoDup (map fst (sp_add R L a b)) /\ same_shapes R L (sp_add R L a b)
  /\ (forall q, In q (map fst (sp_add R L a b)) <-> In q (map fst a) \/ In q (map fst b)).
Proof.
  intros R L a b Hn Hs. rewrite sp_add_acc by auto. split; [|split; [|split]].
  - intros. now apply acc_plus_elem.
  - now apply acc_keys.
  - now apply acc_shapes.
  - intros. apply acc_labels.
Qed.
Print Assumptions c13_addition_elementwise.

Theorem c13_subtraction_elementwise :
  forall (R : CRing) (L : Label) (a b : list (list L * nd R)),
  NoDup (map fst a) -> same_shapes R L (a ++ b) ->
  (forall qs xs, elem R L (sp_sub R L a b) qs xs = rsub R (elem R L a qs xs) (elem R L b qs xs))
  /\ NoDup (map fst (sp_sub R L a b)) /\ same_shapes R L (sp_sub R L a b)
  /\ (forall q, In q (map fst (sp_sub R L a b)) <-> In q (map fst a) \/ In q (map fst b)).
Proof.
  intros R L a b Hn Hs. rewrite sp_sub_acc by auto. split; [|split; [|split]].
  - intros. now apply acc_minus_elem.
  - now apply acc_keys.
  - now apply acc_shapes.
  - intros. apply acc_labels.
Qed.
Print Assumptions c13_subtraction_elementwise.

(* scalar multiples, and any function applied to the stored elements that fixes zero *)
Theorem c13_elementwise_function :
  forall (R : CRing) (L : Label) (f : R -> R) (a : list (list L * nd R)),
  NoDup (map fst a) -> f (r0 R) = r0 R ->
  (forall qs xs, elem R L (sp_map R L f a) qs xs = f (elem R L a qs xs)) /\ map fst (sp_map R L f a) = map fst a.
Proof.
  intros R L f a Hn H0.
  assert (E: map fst (sp_map R L f a) = map fst a) by (unfold sp_map; now rewrite map_map).
  split; [|exact E]. intros qs xs. rewrite !elem_dget; auto; [|now rewrite E].
  clear E Hn. unfold sp_map. induction a as [|[q v] a IH]; cbn [map fst snd dget]; [auto|].
  destruct (tup_eqb L q qs); [|exact IH]. unfold nget. cbn [nshape nval nd_map]. destruct (in_shapeb (nshape v) xs); auto.
Qed.
Print Assumptions c13_elementwise_function.

Definition arr (sh : list Z) (l : list Z) : nd Z_ring := @mkNd Z_ring sh (fun xs => nth (Z.to_nat (ravel sh xs)) l 0 : Z_ring).
Definition dump (t : list (list U1_label * nd Z_ring)) : list (list Z * list Z * list Z) :=
  map (fun b => (fst b, nshape (snd b), map (nval (snd b)) (all_idx (nshape (snd b))))) t.
Example c13_ex :
  let a := [([0; 1], arr [1; 2] [3; 4]); ([2; 3], arr [1; 1] [7])] in
  let b := [([1; 2], arr [2; 1] [5; 6]); ([0; 1], arr [1; 2] [10; 20])] in
  dump (sp_add Z_ring U1_label a b) = [([0; 1], [1; 2], [13; 24]); ([2; 3], [1; 1], [7]); ([1; 2], [2; 1], [5; 6])]
  /\ dump (sp_sub Z_ring U1_label a b) = [([0; 1], [1; 2], [-7; -16]); ([2; 3], [1; 1], [7]); ([1; 2], [2; 1], [-5; -6])].
Proof. split; reflexivity. Qed.

(** ** C14 *)
(* Python axis numbers: negative ones count from the end *)
Definition leg (n x : Z) : Z := if x <? 0 then n + x else x.
Lemma norm_axes_leg : forall n ax, norm_axes n ax = map (leg n) ax.
Proof. intros. apply map_ext. intros x. unfold leg. destruct (Z.leb_spec 0 x), (Z.ltb_spec x 0); lia. Qed.

(* contraction of the operands as dense tensors: sum over the labels and indices of the contracted legs.
   dma/dmb give the dimension of a leg for a label; Ls is any list of label tuples containing those of the contracted
   legs of a. *)
Theorem c14_contraction_is_dense_contraction :
  forall (R : CRing) (L : Label) (a b : list (list L * nd R)) (na nb : Z) (dma dmb : Z -> L -> Z) (axa axb : list Z) r,
  wf_tensor R L na dma a -> wf_tensor R L nb dmb b ->
  let idxa := map (leg na) axa in let idxb := map (leg nb) axb in
  NoDup idxa -> (forall i, In i idxa -> 0 <= i < na) -> NoDup idxb -> (forall i, In i idxb -> 0 <= i < nb) ->
  (forall i j q, In (i, j) (combine idxa idxb) -> dma i q = dmb j q) ->
  sp_tensordot R L a b axa axb = Some r ->
  forall Ls, NoDup Ls -> (forall q, In q Ls -> length q = length idxa) ->
  (forall ba, In ba a -> In (pick (q0 L) idxa (fst ba)) Ls) ->
  forall qoa qob xoa xob, length qoa = length (others na idxa) -> length qob = length (others nb idxb) ->
  length xoa = length (others na idxa) -> length xob = length (others nb idxb) ->
  elem R L r (qoa ++ qob) (xoa ++ xob) =
  bsum Ls (fun qc => bsum (all_idx (shape_of L dma idxa qc)) (fun xc =>
    rmul R (elem R L a (merge (q0 L) na idxa qc qoa) (merge 0 na idxa xc xoa))
           (elem R L b (merge (q0 L) nb idxb qc qob) (merge 0 nb idxb xc xob)))).
Proof.
  intros R L a b na nb dma dmb axa axb r Wa Wb idxa idxb Na Ia Nb Ib Dab E Ls NL LL CL qoa qob xoa xob A1 A2 A3 A4.
  assert (Lab: length idxa = length idxb).
  { unfold sp_tensordot, norm_axes in E. rewrite !map_length in E. unfold idxa, idxb. rewrite !map_length.
    destruct (Nat.eqb_spec (length axa) (length axb)); [auto|discriminate]. }
  assert (Er: r = fold_left (put_with R L nd_add (fun x => x)) (contribs R L a b idxa idxb (others na idxa) (others nb idxb)) []).
  { apply sp_tensordot_acc in E. rewrite E. f_equal. destruct a as [|ba a]; [reflexivity|].
    rewrite !norm_axes_leg.
    rewrite (ndim_wf R L na dma (ba :: a) Wa) by congruence. fold idxa. destruct b as [|bb b].
    - unfold contribs. clear. induction (ba :: a); [reflexivity|]. cbn [flat_map filter map app]. exact IHl.
    - rewrite (ndim_wf R L nb dmb (bb :: b) Wb) by congruence. reflexivity. }
  rewrite Er, acc_plus_elem.
  - rewrite (contribs_elem R L a b na nb dma dmb idxa idxb) with (Ls := Ls); auto.
    unfold elem at 1. rewrite bsum_nil. pose proof (rth R) as T. apply (Radd_0_l T).
  - constructor.
  - cbn [app]. eapply wf_same_shapes. apply contribs_wf; eauto.
Qed.
Print Assumptions c14_contraction_is_dense_contraction.

Lemma tensordot_labels :
  forall (R : CRing) (L : Label) (a b : list (list L * nd R)) (na nb : Z) (dma dmb : Z -> L -> Z) (axa axb : list Z) r,
  wf_tensor R L na dma a -> wf_tensor R L nb dmb b -> a <> [] -> b <> [] ->
  let idxa := map (leg na) axa in let idxb := map (leg nb) axb in
  sp_tensordot R L a b axa axb = Some r ->
  (forall qs, In qs (map fst r) <-> exists ba bb, In ba a /\ In bb b /\
     pick (q0 L) idxa (fst ba) = pick (q0 L) idxb (fst bb) /\
     qs = pick (q0 L) (others na idxa) (fst ba) ++ pick (q0 L) (others nb idxb) (fst bb)).
Proof.
  intros R L a b na nb dma dmb axa axb r Wa Wb Ea Eb idxa idxb E.
  apply sp_tensordot_acc in E. rewrite (ndim_wf R L na dma a Wa Ea), (ndim_wf R L nb dmb b Wb Eb), !norm_axes_leg in E. fold idxa idxb in E. subst r.
  intros qs. rewrite acc_labels. cbn [map In]. rewrite in_map_iff. split.
  - intros [[]|(c & <- & Hc)]. apply contribs_in in Hc. destruct Hc as (ba & bb & A & B & C & ->). exists ba, bb. auto.
  - intros (ba & bb & A & B & C & ->). right. eexists. split; [|apply contribs_in; exists ba, bb; repeat split; eauto]. reflexivity.
Qed.

(* structure of the result: no repeated block, leg dimensions inherited, exactly the matching pairs of blocks *)
Theorem c14_result_structure :
  forall (R : CRing) (L : Label) (a b : list (list L * nd R)) (na nb : Z) (dma dmb : Z -> L -> Z) (axa axb : list Z) r,
  wf_tensor R L na dma a -> wf_tensor R L nb dmb b -> a <> [] -> b <> [] ->
  let idxa := map (leg na) axa in let idxb := map (leg nb) axb in
  (forall i, In i idxa -> 0 <= i < na) -> (forall i, In i idxb -> 0 <= i < nb) ->
  (forall i j q, In (i, j) (combine idxa idxb) -> dma i q = dmb j q) ->
  sp_tensordot R L a b axa axb = Some r ->
  NoDup (map fst r) /\
  (forall b, In b r -> nshape (snd b) = 
     shape_of L dma (others na idxa) (firstn (length (others na idxa)) (fst b)) ++
     shape_of L dmb (others nb idxb) (skipn (length (others na idxa)) (fst b))) /\
  (forall qs, In qs (map fst r) <-> exists ba bb, In ba a /\ In bb b /\
     pick (q0 L) idxa (fst ba) = pick (q0 L) idxb (fst bb) /\
     qs = pick (q0 L) (others na idxa) (fst ba) ++ pick (q0 L) (others nb idxb) (fst bb)).
Proof.
  intros R L a b na nb dma dmb axa axb r Wa Wb Ea Eb idxa idxb Ia Ib Dab E.
  assert (Lab: length idxa = length idxb).
  { unfold sp_tensordot, norm_axes in E. rewrite !map_length in E. unfold idxa, idxb. rewrite !map_length.
    destruct (Nat.eqb_spec (length axa) (length axb)); [auto|discriminate]. }
  pose proof (tensordot_labels R L a b na nb dma dmb axa axb r Wa Wb Ea Eb E) as Hlab. fold idxa idxb in Hlab.
  apply sp_tensordot_acc in E. rewrite (ndim_wf R L na dma a Wa Ea), (ndim_wf R L nb dmb b Wb Eb), !norm_axes_leg in E. fold idxa idxb in E.
  split; [|split; [|exact Hlab]]; rewrite E.
  - apply acc_keys. constructor.
  - intros c Hc.
    assert (W: wf_tensor R L (Z.of_nat (length (others na idxa)) + Z.of_nat (length (others nb idxb))) (dm_out L na nb dma dmb idxa idxb) r).
    { rewrite E. apply acc_wf; auto; [intros ? []|]. apply contribs_wf; auto. }
    rewrite <- E in Hc. destruct (W c Hc) as [Wl ->].
    rewrite <- (firstn_skipn (length (others na idxa)) (fst c)) at 1.
    apply shape_of_out; auto; rewrite ?firstn_length, ?skipn_length; lia.
Qed.
Print Assumptions c14_result_structure.

(* signed label sum over legs; s gives the sign (true = plus) of each leg *)
Definition lsum (L : Label) (l : list L) : L := fold_right (qadd L) (q0 L) l.
Definition charge (L : Label) (s : Z -> bool) (idx : list Z) (qs : list L) : L :=
  lsum L (map (fun p => if s (fst p) then snd p else qneg L (snd p)) (combine idx qs)).

Lemma lsum_perm : forall (L : Label) a b, Permutation a b -> lsum L a = lsum L b.
Proof.
  unfold lsum. induction 1; cbn; try congruence. rewrite <- !(qadd_assoc L) || rewrite !(qadd_assoc L). now rewrite (qadd_comm L y x).
Qed.
Lemma lsum_app : forall (L : Label) a b, lsum L (a ++ b) = qadd L (lsum L a) (lsum L b).
Proof. unfold lsum. induction a; intros; cbn; [now rewrite qadd_0_l|]. now rewrite IHa, qadd_assoc. Qed.
Lemma charge_pick : forall (L : Label) s idx qs,
  charge L s idx (pick (q0 L) idx qs) = lsum L (map (fun i => if s i then nth (Z.to_nat i) qs (q0 L) else qneg L (nth (Z.to_nat i) qs (q0 L))) idx).
Proof.
  intros. unfold charge. f_equal. unfold pick. induction idx as [|i idx IH]; [reflexivity|]. cbn [map combine fst snd]. now rewrite IH.
Qed.
Lemma pick_all : forall A (d : A) l, pick d (zrange (Z.of_nat (length l))) l = l.
Proof.
  intros A d l. apply nth_ext with (d := d) (d' := d); [now rewrite pick_length, zrange_length, Nat2Z.id|].
  intros k Hk. rewrite pick_length, zrange_length, Nat2Z.id in Hk. unfold pick.
  rewrite <- (Nat2Z.id k) at 1. rewrite nth_zrange_map by lia. now rewrite Nat2Z.id.
Qed.
Lemma split_perm : forall n idx, NoDup idx -> (forall i, In i idx -> 0 <= i < n) -> Permutation (zrange n) (others n idx ++ idx).
Proof.
  intros n idx Hn Hi. apply NoDup_Permutation; [apply zrange_nodup| |].
  - assert (D: forall x, In x idx -> ~ In x (others n idx)) by (intros x A B; apply in_others in B; tauto).
    eapply Permutation_NoDup; [apply Permutation_app_comm|].
    revert D. pose proof (others_nodup n idx) as No. revert No. generalize (others n idx). intros o No D. clear Hi.
    induction Hn as [|x l Hx Hl IH]; cbn; auto. constructor.
    + rewrite in_app_iff. intros [|K]; [auto|]. eapply D; [left; reflexivity|exact K].
    + apply IH. intros; apply D; now right.
  - intros x. rewrite in_zrange, in_app_iff, in_others. split; [|intros [|]; [tauto|auto]].
    intro H. destruct (in_dec Z.eq_dec x idx); auto.
Qed.
Lemma charge_split : forall (L : Label) s n idx qs, Z.of_nat (length qs) = n -> NoDup idx -> (forall i, In i idx -> 0 <= i < n) ->
  charge L s (zrange n) qs = qadd L (charge L s (others n idx) (pick (q0 L) (others n idx) qs)) (charge L s idx (pick (q0 L) idx qs)).
Proof.
  intros L s n idx qs Hl Hn Hi. rewrite <- (pick_all L (q0 L) qs) at 1. rewrite Hl, !charge_pick, <- lsum_app, <- map_app.
  apply lsum_perm, Permutation_map. now apply split_perm.
Qed.
Lemma charge_opposite : forall (L : Label) sa sb idxa idxb (qs : list L), length idxa = length idxb ->
  (forall i j, In (i, j) (combine idxa idxb) -> sa i = negb (sb j)) ->
  qadd L (charge L sa idxa qs) (charge L sb idxb qs) = q0 L.
Proof.
  intros L sa sb idxa. induction idxa as [|i idxa IH]; intros [|j idxb] qs E H; cbn in E; try lia.
  - unfold charge. cbn. apply qadd_0_l.
  - destruct qs as [|q qs]; [unfold charge; cbn; apply qadd_0_l|].
    specialize (IH idxb qs ltac:(lia) ltac:(intros; apply H; now right)).
    unfold charge in *. cbn [combine map fst snd]. unfold lsum in *. cbn [fold_right].
    set (u := fold_right (qadd L) (q0 L) (map _ (combine idxa qs))) in *. set (v := fold_right (qadd L) (q0 L) (map _ (combine idxb qs))) in *.
    rewrite (H i j (or_introl eq_refl)).
    assert (X: forall x y, qadd L (qadd L x u) (qadd L y v) = qadd L (qadd L x y) (qadd L u v)).
    { intros. rewrite !qadd_assoc. f_equal. rewrite <- !qadd_assoc. f_equal. apply qadd_comm. }
    rewrite X, IH. destruct (sb j); cbn [negb].
    + rewrite qadd_neg. apply qadd_0_l.
    + rewrite (qadd_comm L q), qadd_neg. apply qadd_0_l.
Qed.

Theorem c14_charge_conserved :
  forall (R : CRing) (L : Label) (a b : list (list L * nd R)) (na nb : Z) (dma dmb : Z -> L -> Z) (axa axb : list Z) r
    (sa sb : Z -> bool) (dqa dqb : L),
  wf_tensor R L na dma a -> wf_tensor R L nb dmb b -> a <> [] -> b <> [] ->
  let idxa := map (leg na) axa in let idxb := map (leg nb) axb in
  NoDup idxa -> (forall i, In i idxa -> 0 <= i < na) -> NoDup idxb -> (forall i, In i idxb -> 0 <= i < nb) ->
  (forall i j, In (i, j) (combine idxa idxb) -> sa i = negb (sb j)) ->
  (forall ba, In ba a -> charge L sa (zrange na) (fst ba) = dqa) ->
  (forall bb, In bb b -> charge L sb (zrange nb) (fst bb) = dqb) ->
  sp_tensordot R L a b axa axb = Some r ->
  forall qs, In qs (map fst r) -> exists qoa qob, qs = qoa ++ qob /\
    length qoa = length (others na idxa) /\ length qob = length (others nb idxb) /\
    qadd L (charge L sa (others na idxa) qoa) (charge L sb (others nb idxb) qob) = qadd L dqa dqb.
Proof.
  intros R L a b na nb dma dmb axa axb r sa sb dqa dqb Wa Wb Ea Eb idxa idxb Na Ia Nb Ib Hs Ha Hb E qs Hq.
  assert (Lab: length idxa = length idxb).
  { unfold sp_tensordot, norm_axes in E. rewrite !map_length in E. unfold idxa, idxb. rewrite !map_length.
    destruct (Nat.eqb_spec (length axa) (length axb)); [auto|discriminate]. }
  pose proof (tensordot_labels R L a b na nb dma dmb axa axb r Wa Wb Ea Eb E) as S.
  fold idxa idxb in S. apply S in Hq. destruct Hq as (ba & bb & A & B & C & ->).
  eexists _, _. split; [reflexivity|]. rewrite !pick_length. split; [auto|split; [auto|]].
  rewrite <- (Ha ba A), <- (Hb bb B).
  rewrite (charge_split L sa na idxa (fst ba)), (charge_split L sb nb idxb (fst bb)); auto;
    [|apply (Wb bb B)|apply (Wa ba A)].
  rewrite <- C.
  set (u := charge L sa (others na idxa) _). set (v := charge L sb (others nb idxb) _).
  pose proof (charge_opposite L sa sb idxa idxb (pick (q0 L) idxa (fst ba)) Lab Hs) as O.
  set (x := charge L sa idxa _) in *. set (y := charge L sb idxb _) in *.
  transitivity (qadd L (qadd L u v) (qadd L x y)).
  - rewrite O, (qadd_comm L _ (q0 L)), qadd_0_l. reflexivity.
  - rewrite !qadd_assoc. f_equal. rewrite <- !qadd_assoc. f_equal. apply qadd_comm.
Qed.
Print Assumptions c14_charge_conserved.

(* non-trivial case: two legs contracted in exchanged order, with one common output block from two pairs *)
Example c14_ex :
  let a := [([0; 1; 1], arr [1; 2; 1] [1; 2]); ([0; 0; 0], arr [1; 1; 2] [3; 4])] in
  let b := [([1; 5; 1], arr [1; 2; 2] [1; 0; 2; 5]); ([0; 5; 0], arr [2; 2; 1] [1; 2; 3; 4])] in
  option_map dump (sp_tensordot Z_ring U1_label a b [-2; 2] [2; 0]) = Some [([0; 5], [1; 2], [16; 34])].
Proof. vm_compute. reflexivity. Qed.

(** ** C15 *)
Definition ranked {R : CRing} {L : Label} (n : Z) (t : list (list L * nd R)) : Prop :=
  forall b, In b t -> Z.of_nat (length (fst b)) = n /\ Z.of_nat (length (nshape (snd b))) = n.
(* same blocks in the same order with equal elements *)
Definition same_tensor {R : CRing} {L : Label} (t t' : list (list L * nd R)) : Prop :=
  Forall2 (fun b b' => fst b = fst b' /\ nshape (snd b) = nshape (snd b') /\
                       forall xs, in_shape (nshape (snd b)) xs -> nval (snd b) xs = nval (snd b') xs) t t'.

Theorem c15_transpose_moves_elements :
  forall (R : CRing) (L : Label) (n : Z) (p : list Z) (t : list (list L * nd R)),
  Permutation (zrange n) p -> ranked n t ->
  forall qs xs, Z.of_nat (length qs) = n -> Z.of_nat (length xs) = n ->
  elem R L (sp_transpose R L (Some p) t) (map (fun i => nth (Z.to_nat i) qs (q0 L)) p) (map (fun i => nth (Z.to_nat i) xs 0) p)
  = elem R L t qs xs.
Proof. intros R L n p t Hp Ht qs xs Hq Hx. exact (elem_transpose R L n p Hp t qs xs Ht Hq Hx). Qed.
Print Assumptions c15_transpose_moves_elements.

Lemma nd_transpose_compose : forall (R : CRing) n p q (a : nd R), Permutation (zrange n) p -> Permutation (zrange n) q ->
  Z.of_nat (length (nshape a)) = n ->
  nshape (nd_transpose q (nd_transpose p a)) = nshape (nd_transpose (pick 0 q p) a) /\
  forall xs, in_shape (nshape (nd_transpose q (nd_transpose p a))) xs ->
    nval (nd_transpose q (nd_transpose p a)) xs = nval (nd_transpose (pick 0 q p) a) xs.
Proof.
  intros R n p q a Hp Hq Ha.
  assert (Lp: Z.of_nat (length p) = n) by (rewrite (perm_length n p Hp); lia).
  assert (Lq: Z.of_nat (length q) = n) by (rewrite (perm_length n q Hq); lia).
  assert (Es: nshape (nd_transpose q (nd_transpose p a)) = nshape (nd_transpose (pick 0 q p) a)).
  { cbn [nshape nd_transpose]. apply pick_pick. rewrite Lp. now apply perm_range. }
  assert (Hpq: Permutation (zrange n) (pick 0 q p)).
  { etransitivity; [exact Hp|]. rewrite <- (pick_all Z 0 p) at 1. unfold pick. apply Permutation_map. now rewrite Lp. }
  split; [exact Es|]. intros xs Hx.
  assert (Lx: length xs = length q) by (apply in_shape_length in Hx; cbn [nshape nd_transpose] in Hx; now rewrite pick_length in Hx).
  cbn [nval nd_transpose nshape]. rewrite pick_length, Ha, Lp. f_equal.
  assert (Zs: xs = pick 0 q (merge 0 n q xs [])) by (symmetry; apply pick_merge_c; eauto using perm_nodup; now apply perm_range).
  set (ys := merge 0 n q xs []) in *.
  assert (Ly: Z.of_nat (length ys) = n) by (unfold ys; rewrite merge_length; lia).
  assert (Zy: ys = pick 0 p (merge 0 n p ys [])).
  { symmetry. apply pick_merge_c; [now apply (perm_nodup n)|now apply perm_range|lia]. }
  set (zs := merge 0 n p ys []) in *.
  assert (Lz: Z.of_nat (length zs) = n) by (unfold zs; rewrite merge_length; lia).
  rewrite Zs, Zy, pick_pick by (rewrite Lp; now apply perm_range). symmetry. now apply merge_pick_perm.
Qed.

Theorem c15_composition :
  forall (R : CRing) (L : Label) (n : Z) (p q : list Z) (t : list (list L * nd R)),
  Permutation (zrange n) p -> Permutation (zrange n) q -> ranked n t ->
  same_tensor (sp_transpose R L (Some q) (sp_transpose R L (Some p) t))
              (sp_transpose R L (Some (map (fun i => nth (Z.to_nat i) p 0) q)) t).
Proof.
  intros R L n p q t Hp Hq Ht. unfold sp_transpose. rewrite map_map. unfold same_tensor.
  induction t as [|b t IH]; cbn [map]; constructor.
  - destruct (Ht b (or_introl eq_refl)) as [A B]. cbn [fst snd].
    split; [apply pick_pick; rewrite (perm_length n p Hp); intros i Hi; pose proof (perm_range n q Hq i Hi); lia|].
    apply (nd_transpose_compose R n); auto.
  - apply IH. intros b' Hb'. apply Ht. now right.
Qed.
Print Assumptions c15_composition.

Theorem c15_inverse :
  forall (R : CRing) (L : Label) (n : Z) (p q : list Z) (t : list (list L * nd R)),
  Permutation (zrange n) p -> Permutation (zrange n) q -> map (fun i => nth (Z.to_nat i) p 0) q = zrange n -> ranked n t ->
  same_tensor (sp_transpose R L (Some q) (sp_transpose R L (Some p) t)) t.
Proof.
  intros R L n p q t Hp Hq E Ht. pose proof (c15_composition R L n p q t Hp Hq Ht) as C. rewrite E in C.
  unfold same_tensor in *. revert C. generalize (sp_transpose R L (Some q) (sp_transpose R L (Some p) t)).
  induction t as [|b t IH]; intros l C; cbn [sp_transpose map] in C; inversion C as [|b1 b2 l1 l2 Hb1 Hl1 X1 X2]; subst; constructor.
  - destruct (Ht b (or_introl eq_refl)) as [A B]. destruct Hb1 as (H1 & H4 & H5). cbn [fst snd] in *.
    assert (I: forall X (d : X) l0, Z.of_nat (length l0) = n -> pick d (zrange n) l0 = l0) by (intros X d l0 <-; apply pick_all).
    rewrite I in H1 by auto. cbn [nshape nval nd_transpose] in H4, H5. rewrite I in H4 by auto.
    split; [auto|split; [auto|]]. intros xs Hx. rewrite H5 by auto. f_equal. rewrite H4 in Hx.
    assert (Lx: Z.of_nat (length xs) = n) by (apply in_shape_length in Hx; lia).
    rewrite B. rewrite <- (I Z 0 xs Lx) at 1. apply merge_pick_perm; auto.
  - apply IH; auto. intros b' Hb'. apply Ht. now right.
Qed.
Print Assumptions c15_inverse.

(* the default is the reversal of the legs *)
Theorem c15_default_reverses :
  forall (R : CRing) (L : Label) (n : Z) (t : list (list L * nd R)), ranked n t ->
  sp_transpose R L None t = sp_transpose R L (Some (rev (zrange n))) t.
Proof.
  intros R L n t Ht. unfold sp_transpose. apply map_ext_in. intros b Hb. destruct (Ht b Hb) as [_ ->]. reflexivity.
Qed.
Print Assumptions c15_default_reverses.

Example c15_ex :
  dump (sp_transpose Z_ring U1_label (Some [2; 0; 1]) [([0; 1; 2], arr [1; 2; 3] [1; 2; 3; 4; 5; 6])])
  = [([2; 0; 1], [3; 1; 2], [1; 4; 2; 5; 3; 6])].
Proof. vm_compute. reflexivity. Qed.
(* AssertionError exactly for lists of different lengths *)
Theorem c14_rejects_exactly_unequal_axes :
  forall (R : CRing) (L : Label) (a b : list (list L * nd R)) axa axb,
  sp_tensordot R L a b axa axb = None <-> length axa <> length axb.
Proof.
  intros. unfold sp_tensordot, norm_axes. rewrite !map_length.
  destruct (Nat.eqb_spec (length axa) (length axb)); cbn [negb]; split; intro H; auto; try discriminate. now destruct H.
Qed.
Print Assumptions c14_rejects_exactly_unequal_axes.

Lemma filter_nil : forall A (f : A -> bool) l, (forall x, In x l -> f x = false) -> filter f l = [].
Proof. induction l as [|x l IH]; cbn; intros H; [auto|]. rewrite (H x (or_introl eq_refl)). apply IH. intros; apply H; now right. Qed.
Lemma others_ends : forall n, 2 <= n -> others n (map (fun i => 1 + i) (zrange (n - 2))) = [0; n - 1].
Proof.
  intros n Hn. unfold others.
  assert (E: zrange n = 0 :: map (fun i => 1 + i) (zrange (n - 2)) ++ [n - 1]).
  { unfold zrange. replace (Z.to_nat n) with (S (Z.to_nat (n - 2) + 1))%nat by lia. rewrite <- cons_seq, seq_app. cbn [seq map].
    rewrite map_app. cbn [map]. f_equal. f_equal.
    - rewrite <- seq_shift, !map_map. apply map_ext. intros. lia.
    - f_equal. lia. }
  rewrite E. cbn [filter]. rewrite filter_app. cbn [filter].
  set (l := map (fun i => 1 + i) (zrange (n - 2))).
  assert (M: forall x, existsb (Z.eqb x) l = true <-> 1 <= x < n - 1).
  { intros x. rewrite existsb_exists. unfold l. split.
    - intros (y & Hy & Ey). apply Z.eqb_eq in Ey. subst y. apply in_map_iff in Hy. destruct Hy as (z & <- & Hz). apply in_zrange in Hz. lia.
    - intros H. exists x. split; [|apply Z.eqb_refl]. apply in_map_iff. exists (x - 1). split; [lia|apply in_zrange; lia]. }
  assert (N: forall x, ~ (1 <= x < n - 1) -> existsb (Z.eqb x) l = false).
  { intros x Hx. destruct (existsb (Z.eqb x) l) eqn:Ex; auto. apply M in Ex. lia. }
  rewrite (N 0), (N (n - 1)) by lia. cbn [negb]. f_equal.
  replace (filter _ l) with (@nil Z); [reflexivity|]. symmetry. apply filter_nil. intros x Hx.
  apply in_map_iff in Hx. destruct Hx as (z & <- & Hz). apply in_zrange in Hz. apply negb_false_iff, M. lia.
Qed.
Lemma merge_ends : forall A (d : A) n c x y, 2 <= n -> Z.of_nat (length c) = n - 2 ->
  merge d n (map (fun i => 1 + i) (zrange (n - 2))) c [x; y] = x :: c ++ [y].
Proof.
  intros A d n c x y Hn Hc. set (l := x :: c ++ [y]).
  assert (Ll: Z.of_nat (length l) = n) by (unfold l; cbn [length]; rewrite app_length; cbn; lia).
  assert (Ei: forall i, In i (map (fun i => 1 + i) (zrange (n - 2))) -> 0 <= i < n).
  { intros i Hi. apply in_map_iff in Hi. destruct Hi as (z & <- & Hz). apply in_zrange in Hz. lia. }
  rewrite <- (merge_pick d n _ Ei l Ll). rewrite others_ends by auto. f_equal.
  - unfold pick. rewrite map_map. rewrite <- (pick_all A d c) at 1. unfold pick. rewrite Hc. apply map_ext_in. intros i Hi. apply in_zrange in Hi.
    unfold l. replace (Z.to_nat (1 + i)) with (S (Z.to_nat i)) by lia. cbn [nth]. rewrite app_nth1 by lia. reflexivity.
  - unfold pick, l. cbn [map]. replace (Z.to_nat (n - 1)) with (S (length c)) by lia. cbn [nth Z.to_nat].
    rewrite app_nth2 by lia. now rewrite Nat.sub_diag.
Qed.

(* pdot: all middle legs contracted, the outer legs interleaved as (left a, left b, right a, right b) *)
Theorem c14_pdot :
  forall (R : CRing) (L : Label) (a b : list (list L * nd R)) (n : Z) (dma dmb : Z -> L -> Z) r,
  2 <= n -> a <> [] -> b <> [] -> wf_tensor R L n dma a -> wf_tensor R L n dmb b ->
  (forall i q, 0 < i < n - 1 -> dma i q = dmb i q) ->
  sp_pdot R L a b = Some r ->
  forall Ls, NoDup Ls -> (forall q, In q Ls -> Z.of_nat (length q) = n - 2) ->
  (forall ba, In ba a -> In (pick (q0 L) (map (fun i => 1 + i) (zrange (n - 2))) (fst ba)) Ls) ->
  forall ql ql' qr qr' xl xl' xr xr',
  elem R L r [ql; ql'; qr; qr'] [xl; xl'; xr; xr'] =
  bsum Ls (fun qc => bsum (all_idx (shape_of L dma (map (fun i => 1 + i) (zrange (n - 2))) qc)) (fun xc =>
    rmul R (elem R L a (ql :: qc ++ [qr]) (xl :: xc ++ [xr])) (elem R L b (ql' :: qc ++ [qr']) (xl' :: xc ++ [xr'])))).
Proof.
  intros R L a b n dma dmb r Hn Ea Eb Wa Wb D E Ls NL LL CL ql ql' qr qr' xl xl' xr xr'.
  unfold sp_pdot in E. rewrite (ndim_wf R L n dma a Wa Ea), (ndim_wf R L n dmb b Wb Eb), Z.eqb_refl in E. cbn [negb] in E.
  set (idx := map (fun i => 1 + i) (zrange (n - 2))) in *.
  destruct (sp_tensordot R L a b idx idx) as [t|] eqn:Et; [|discriminate]. cbn [option_map] in E. injection E as <-.
  assert (Ei: forall i, In i idx -> 0 < i < n - 1).
  { intros i Hi. apply in_map_iff in Hi. destruct Hi as (z & <- & Hz). apply in_zrange in Hz. lia. }
  assert (Ni: NoDup idx).
  { apply FinFun.Injective_map_NoDup; [intros x y Hxy; lia|apply zrange_nodup]. }
  assert (Nx: map (leg n) idx = idx).
  { unfold leg. rewrite <- map_id. apply map_ext_in. intros i Hi. pose proof (Ei i Hi). destruct (Z.ltb_spec i 0); lia. }
  assert (Li: length idx = Z.to_nat (n - 2)) by (unfold idx; now rewrite map_length, zrange_length).
  assert (Dab: forall i j q, In (i, j) (combine idx idx) -> dma i q = dmb j q).
  { intros i j q Hij. assert (i = j /\ In i idx) as [<- Hi].
    { clear -Hij. induction idx as [|k l IH]; cbn in Hij; [tauto|]. destruct Hij as [Hij|Hij]; [injection Hij as <- <-; cbn; auto|].
      destruct (IH Hij); cbn; auto. }
    apply D, Ei, Hi. }
  pose proof (others_ends n Hn) as Eo. fold idx in Eo.
  assert (Rt: ranked 4 t).
  { intros c Hc. assert (Et' := Et).
    apply sp_tensordot_acc in Et'. rewrite (ndim_wf R L n dma a Wa Ea), (ndim_wf R L n dmb b Wb Eb), !norm_axes_leg, !Nx in Et'.
    assert (W: wf_tensor R L (Z.of_nat (length (others n idx)) + Z.of_nat (length (others n idx))) (dm_out L n n dma dmb idx idx) t).
    { rewrite Et'. apply acc_wf; auto; [intros ? []|]. apply contribs_wf; auto; intros i Hi; pose proof (Ei i Hi); lia. }
    rewrite Eo in W. cbn [length] in W. destruct (wf_shape_length _ _ _ _ _ _ W Hc). split; lia. }
  assert (P4: Permutation (zrange 4) [0; 2; 1; 3]).
  { change (zrange 4) with [0; 1; 2; 3]. constructor. apply perm_swap. }
  pose proof (c15_transpose_moves_elements R L 4 [0; 2; 1; 3] t P4 Rt [ql; qr; ql'; qr'] [xl; xr; xl'; xr'] eq_refl eq_refl) as T.
  change (elem R L (sp_transpose R L (Some [0; 2; 1; 3]) t) [ql; ql'; qr; qr'] [xl; xl'; xr; xr'] = elem R L t [ql; qr; ql'; qr'] [xl; xr; xl'; xr']) in T.
  rewrite T.
  change [ql; qr; ql'; qr'] with ([ql; qr] ++ [ql'; qr']). change [xl; xr; xl'; xr'] with ([xl; xr] ++ [xl'; xr']).
  pose proof (c14_contraction_is_dense_contraction R L a b n n dma dmb idx idx t Wa Wb) as Hm. cbv zeta in Hm. rewrite !Nx, !Eo in Hm.
  rewrite (Hm Ni) with (Ls := Ls); auto; try (intros i Hi; pose proof (Ei i Hi); lia).
  - apply bsum_ext. intros qc Hqc. apply bsum_ext. intros xc Hxc. unfold idx.
    apply in_all_idx, in_shape_length in Hxc. rewrite shape_of_length in Hxc. pose proof (LL qc Hqc).
    now rewrite !merge_ends by (auto; lia).
  - intros q Hq. pose proof (LL q Hq). lia.
Qed.
Print Assumptions c14_pdot.

Example c14_pdot_ex :
  let a := [([0; 1; 1], arr [1; 2; 2] [1; 2; 3; 4])] in
  let b := [([5; 1; 6], arr [1; 2; 1] [10; 20])] in
  option_map dump (sp_pdot Z_ring U1_label a b) = Some [([0; 5; 1; 6], [1; 1; 2; 1], [70; 100])].
Proof. vm_compute. reflexivity. Qed.

Lemma seq_from : forall m s, seq s m = map (fun x => (s + x)%nat) (seq 0 m).
Proof.
  induction m as [|m IH]; intros s; [reflexivity|]. cbn [seq map]. f_equal; [lia|]. rewrite (IH (S s)), (IH 1%nat), map_map.
  apply map_ext. intros; lia.
Qed.
Lemma zrange_app : forall a b, 0 <= a -> 0 <= b -> zrange (a + b) = zrange a ++ map (fun i => a + i) (zrange b).
Proof.
  intros a b Ha Hb. unfold zrange. rewrite Z2Nat.inj_add, seq_app, map_app, map_map by auto. f_equal. cbn [Nat.add].
  rewrite seq_from, map_map. apply map_ext. intros; lia.
Qed.
Lemma filter_all : forall A (f : A -> bool) l, (forall x, In x l -> f x = true) -> filter f l = l.
Proof. induction l as [|x l IH]; cbn; intros H; [auto|]. rewrite (H x (or_introl eq_refl)). f_equal. apply IH. intros; apply H; now right. Qed.
Lemma others_last : forall n k, 0 <= k <= n -> others n (map (fun i => n - k + i) (zrange k)) = zrange (n - k).
Proof.
  intros n k Hk. unfold others. replace (zrange n) with (zrange (n - k) ++ map (fun i => n - k + i) (zrange k))
    by (rewrite <- zrange_app by lia; f_equal; lia).
  rewrite filter_app, (filter_nil _ _ (map _ _)), app_nil_r.
  - apply filter_all. intros x Hx. apply in_zrange in Hx. apply negb_true_iff. destruct (existsb _ _) eqn:Ex; auto.
    apply existsb_exists in Ex. destruct Ex as (y & Hy & Exy). apply Z.eqb_eq in Exy.
    apply in_map_iff in Hy. destruct Hy as (z & <- & Hz). apply in_zrange in Hz. lia.
  - intros x Hx. apply negb_false_iff, existsb_exists. exists x. split; [auto|apply Z.eqb_refl].
Qed.
Lemma others_first : forall n k, 0 <= k <= n -> others n (zrange k) = map (fun i => k + i) (zrange (n - k)).
Proof.
  intros n k Hk. unfold others. replace (zrange n) with (zrange k ++ map (fun i => k + i) (zrange (n - k)))
    by (rewrite <- zrange_app by lia; f_equal; lia).
  rewrite filter_app, (filter_nil _ _ (zrange k)); cbn [app].
  - apply filter_all. intros x Hx. apply in_map_iff in Hx. destruct Hx as (z & <- & Hz). apply in_zrange in Hz.
    apply negb_true_iff. destruct (existsb _ _) eqn:Ex; auto.
    apply existsb_exists in Ex. destruct Ex as (y & Hy & Exy). apply Z.eqb_eq in Exy. apply in_zrange in Hy. lia.
  - intros x Hx. apply negb_false_iff, existsb_exists. exists x. split; [auto|apply Z.eqb_refl].
Qed.
Lemma pick_front : forall A (d : A) k o c, Z.of_nat (length o) = k -> pick d (zrange k) (o ++ c) = o.
Proof.
  intros A d k o c Ho. rewrite <- (pick_all A d o) at 2. rewrite Ho. unfold pick. apply map_ext_in. intros i Hi. apply in_zrange in Hi.
  rewrite app_nth1 by lia. reflexivity.
Qed.
Lemma pick_back : forall A (d : A) k m o c, Z.of_nat (length o) = k -> Z.of_nat (length c) = m ->
  pick d (map (fun i => k + i) (zrange m)) (o ++ c) = c.
Proof.
  intros A d k m o c Ho Hc. rewrite <- (pick_all A d c) at 2. rewrite Hc. unfold pick. rewrite map_map. apply map_ext_in. intros i Hi. apply in_zrange in Hi.
  rewrite app_nth2 by lia. f_equal. lia.
Qed.
Lemma merge_last : forall A (d : A) n k o c, 0 <= k <= n -> Z.of_nat (length o) = n - k -> Z.of_nat (length c) = k ->
  merge d n (map (fun i => n - k + i) (zrange k)) c o = o ++ c.
Proof.
  intros A d n k o c Hk Ho Hc. set (idx := map (fun i => n - k + i) (zrange k)).
  assert (Ei: forall i, In i idx -> 0 <= i < n).
  { intros i Hi. apply in_map_iff in Hi. destruct Hi as (z & <- & Hz). apply in_zrange in Hz. lia. }
  rewrite <- (merge_pick d n idx Ei (o ++ c)) by (rewrite app_length; lia). f_equal.
  - symmetry. now apply pick_back.
  - unfold idx. rewrite others_last by auto. symmetry. now apply pick_front.
Qed.
Lemma merge_first : forall A (d : A) n k o c, 0 <= k <= n -> Z.of_nat (length o) = n - k -> Z.of_nat (length c) = k ->
  merge d n (zrange k) c o = c ++ o.
Proof.
  intros A d n k o c Hk Ho Hc.
  assert (Ei: forall i, In i (zrange k) -> 0 <= i < n).
  { intros i Hz. apply in_zrange in Hz. lia. }
  rewrite <- (merge_pick d n (zrange k) Ei (c ++ o)) by (rewrite app_length; lia). f_equal.
  - symmetry. now apply pick_front.
  - rewrite others_first by auto. symmetry. now apply pick_back.
Qed.
Lemma leg_last : forall n k, 0 <= k <= n -> map (leg n) (map (fun i => i - k) (zrange k)) = map (fun i => n - k + i) (zrange k).
Proof.
  intros. rewrite map_map. apply map_ext_in. intros i Hi. apply in_zrange in Hi. unfold leg. destruct (Z.ltb_spec (i - k) 0); lia.
Qed.
Lemma leg_first : forall n k, map (leg n) (zrange k) = zrange k.
Proof.
  intros. rewrite <- map_id. apply map_ext_in. intros i Hi. apply in_zrange in Hi. unfold leg. destruct (Z.ltb_spec i 0); lia.
Qed.

(* axes = k: the last k legs of a with the first k legs of b; k = 1 is the matrix product of a MPS contraction (hdot) *)
Theorem c14_last_legs_with_first :
  forall (R : CRing) (L : Label) (a b : list (list L * nd R)) (na nb k : Z) (dma dmb : Z -> L -> Z) r,
  0 <= k <= na -> k <= nb -> wf_tensor R L na dma a -> wf_tensor R L nb dmb b ->
  (forall i q, 0 <= i < k -> dma (na - k + i) q = dmb i q) ->
  sp_tensordot_n R L a b k = Some r ->
  forall Ls, NoDup Ls -> (forall q, In q Ls -> Z.of_nat (length q) = k) ->
  (forall ba, In ba a -> In (pick (q0 L) (map (fun i => na - k + i) (zrange k)) (fst ba)) Ls) ->
  forall qa qb xa xb, Z.of_nat (length qa) = na - k -> Z.of_nat (length qb) = nb - k ->
  Z.of_nat (length xa) = na - k -> Z.of_nat (length xb) = nb - k ->
  elem R L r (qa ++ qb) (xa ++ xb) =
  bsum Ls (fun qc => bsum (all_idx (shape_of L dmb (zrange k) qc)) (fun xc =>
    rmul R (elem R L a (qa ++ qc) (xa ++ xc)) (elem R L b (qc ++ qb) (xc ++ xb)))).
Proof.
  intros R L a b na nb k dma dmb r Hka Hkb Wa Wb D E Ls NL LL CL qa qb xa xb A1 A2 A3 A4. unfold sp_tensordot_n in E.
  pose proof (c14_contraction_is_dense_contraction R L a b na nb dma dmb (map (fun i => i - k) (zrange k)) (zrange k) r Wa Wb) as T. cbv zeta in T.
  rewrite (leg_last na k Hka), leg_first in T.
  assert (Hc: forall i j, In (i, j) (combine (map (fun i => na - k + i) (zrange k)) (zrange k)) -> i = na - k + j /\ 0 <= j < k).
  { intros i j H. assert (Hj := in_combine_r _ _ _ _ H). apply in_zrange in Hj. split; [|exact Hj].
    clear -H. induction (zrange k) as [|z l IH]; cbn in H; [tauto|]. destruct H as [H|H]; [now injection H as <- <-|auto]. }
  rewrite T with (Ls := Ls); auto.
  - apply bsum_ext. intros qc Hqc. pose proof (LL qc Hqc) as Lq.
    rewrite (dims_match L dma dmb _ (zrange k)).
    + apply bsum_ext. intros xc Hxc.
      apply in_all_idx, in_shape_length in Hxc. rewrite shape_of_length, zrange_length in Hxc.
      rewrite !merge_last, !merge_first by (auto; lia). reflexivity.
    + now rewrite map_length.
    + intros i j q H. apply Hc in H. destruct H as [-> H]. now apply D.
  - apply FinFun.Injective_map_NoDup; [intros x y H; lia|apply zrange_nodup].
  - intros i H. apply in_map_iff in H. destruct H as (z & <- & Hz). apply in_zrange in Hz. lia.
  - apply zrange_nodup.
  - intros i H. apply in_zrange in H. lia.
  - intros i j q H. apply Hc in H. destruct H as [-> H]. now apply D.
  - intros q Hq. pose proof (LL q Hq). rewrite map_length, zrange_length. lia.
  - rewrite others_last, zrange_length by auto. lia.
  - rewrite others_first, map_length, zrange_length by lia. lia.
  - rewrite others_last, zrange_length by auto. lia.
  - rewrite others_first, map_length, zrange_length by lia. lia.
Qed.
Print Assumptions c14_last_legs_with_first.

Example c14_last_ex :
  let a := [([0; 1], arr [1; 2] [1; 2]); ([3; 4], arr [2; 1] [5; 6])] in
  let b := [([1; 7], arr [2; 1] [10; 20]); ([4; 7], arr [1; 1] [3])] in
  option_map dump (sp_tensordot_n Z_ring U1_label a b 1) = Some [([0; 7], [1; 1], [50]); ([3; 7], [2; 1], [15; 18])].
Proof. vm_compute. reflexivity. Qed.
