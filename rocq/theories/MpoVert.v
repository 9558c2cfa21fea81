(** Lemmas for C32: the vertical product of an operator site with a state or operator site (FermionTensor._pdot). *)
From Coq Require Import ZArith Bool List Lia Permutation Ring.
From Verif Require Import SymModel SymProofs DictLib IndexLib OptLib RingLib BondModel BondProofs FuseModel FuseProofs FuseTProofs FuseTProps BlockModel BlockProofs BlockProps StructModel StructProofs SumProofs StructProps MpsModel MpsChain MpsProofs MpsDot MpoModel MpoDot.
Import ListNotations.
Open Scope Z_scope.

Section MVert.
Variable R : CRing.
Add Ring Rr6 : (rth R).
Variable L : Label.
Notation tensor := (list (list L * nd R)).
Notation site := (site R L).
Notation state := (L * Z)%type.
Notation "0'" := (r0 R). Notation "1'" := (r1 R).
Infix "+'" := (radd R) (at level 50, left associativity).
Infix "*'" := (rmul R) (at level 40, left associativity).
Notation tspec := (tup_eqb_spec L).
Notation s0 := (q0 L, 0).
Notation telem := (telem R L).
Notation positive := (positive R L).

Lemma wf_tensor_ext : forall n dm dm' (t : tensor), (forall i q, 0 <= i < n -> dm i q = dm' i q) -> wf_tensor R L n dm t -> wf_tensor R L n dm' t.
Proof.
  intros n dm dm' t H W b Hb. destruct (W b Hb) as [Lb Sb]. split; [exact Lb|]. rewrite Sb. unfold shape_of. apply map_ext_in. intros [i q] Hi. cbn [fst snd]. apply H. apply in_combine_l in Hi. now apply in_zrange in Hi.
Qed.

Definition tr4 (du dw : Z) : list Z := [0; du + 2] ++ from 1 du ++ from (du + 3) dw ++ [du + 1; du + dw + 3].
Lemma tr4_perm : forall du dw, 0 <= du -> 0 <= dw -> Permutation (zrange (du + dw + 4)) (tr4 du dw).
Proof.
  intros du dw Hu Hw. apply NoDup_Permutation; [apply zrange_nodup| |].
  - unfold tr4. cbn [app]. constructor; [|constructor; [|apply NoDup_app_iff'; [apply from_nodup|apply NoDup_app_iff'; [apply from_nodup|repeat constructor; cbn; lia|]|]]].
    + cbn [In]. rewrite !in_app_iff, !in_from. cbn [In]. lia.
    + rewrite !in_app_iff, !in_from. cbn [In]. lia.
    + intros x. rewrite in_from. cbn [In]. lia.
    + intros x. rewrite in_app_iff, !in_from. cbn [In]. lia.
  - intros x. rewrite in_zrange. unfold tr4. cbn [app In]. rewrite !in_app_iff, !in_from. cbn [In]. lia.
Qed.
Lemma pick_tr4 : forall A (d : A) du dw l u r l' w r', Z.of_nat (length u) = du -> Z.of_nat (length w) = dw ->
  pick d (tr4 du dw) ((l :: u ++ [r]) ++ l' :: w ++ [r']) = l :: l' :: u ++ w ++ [r; r'].
Proof.
  intros A d du dw l u r l' w r' Hu Hw. unfold tr4. cbn [app]. unfold pick. cbn [map]. rewrite !map_app. cbn [map].
  set (X := l :: (u ++ [r]) ++ l' :: w ++ [r']).
  assert (E1: map (fun i => nth (Z.to_nat i) X d) (from 1 du) = u). { change (pick d (from 1 du) X = u). unfold X. rewrite <- app_assoc. change (l :: u ++ [r] ++ l' :: w ++ [r']) with ([l] ++ u ++ [r] ++ l' :: w ++ [r']). now apply pick_from. }
  assert (E2: map (fun i => nth (Z.to_nat i) X d) (from (du + 3) dw) = w).
  { change (pick d (from (du + 3) dw) X = w). replace X with ((l :: u ++ [r; l']) ++ w ++ [r']) by (unfold X; cbn [app]; rewrite <- !app_assoc; reflexivity). apply pick_from; [cbn [length]; rewrite app_length; cbn; lia|exact Hw]. }
  rewrite E1, E2. change (nth (Z.to_nat 0) X d) with l. f_equal. 
  assert (N: forall k y p q, X = p ++ y :: q -> Z.of_nat (length p) = k -> nth (Z.to_nat k) X d = y). { intros k y p q E Hk. rewrite E, app_nth2 by lia. replace (Z.to_nat k - length p)%nat with O by lia. reflexivity. }
  rewrite (N (du + 2) l' (l :: u ++ [r]) (w ++ [r'])), (N (du + 1) r (l :: u) (l' :: w ++ [r'])), (N (du + dw + 3) r' (l :: u ++ [r] ++ l' :: w) []); [reflexivity| | | | | |].
  - unfold X. cbn [app]. now rewrite <- !app_assoc. - cbn [length]. rewrite !app_length. cbn [length]. lia.
  - unfold X. cbn [app]. now rewrite <- !app_assoc. - cbn [length]. lia.
  - unfold X. cbn [app]. now rewrite <- !app_assoc. - cbn [length]. rewrite !app_length. cbn [length]. lia.
Qed.
(* dimensions of the product before its bonds are fused *)
Definition dm4 (n : Z) (dla dlb dra drb : L -> Z) (dpc : Z -> L -> Z) (i : Z) (q : L) : Z :=
  if i =? 0 then dla q else if i =? 1 then dlb q else if i =? n - 2 then dra q else if i =? n - 1 then drb q else dpc (i - 1) q.
Definition dpc (du k : Z) (dpa dpb : Z -> L -> Z) (i : Z) : L -> Z := if i <=? du then dpa i else dpb (i - du + k).

Section Vert.
Variables (a b : tensor) (du k dw : Z) (dla dra dlb drb : L -> Z) (dpa dpb : Z -> L -> Z) (r : tensor).
Notation na := (du + k + 2). Notation nb := (k + dw + 2).
Hypothesis Hu : 0 <= du. Hypothesis Hk : 0 < k. Hypothesis Hw : 0 <= dw.
Hypothesis Wa : wf_tensor R L na (ldim L na dla dpa dra) a.
Hypothesis Wb : wf_tensor R L nb (ldim L nb dlb dpb drb) b.
Hypothesis Pa : positive a. Hypothesis Pb : positive b.
Hypothesis D : forall i q, 1 <= i <= k -> dpa (du + i) q = dpb i q.
Hypothesis E : sp_tensordot R L a b (from (du + 1) k) (from 1 k) = Some r.
Let la : length (from (du + 1) k) = length (from 1 k). Proof. now rewrite !from_length. Qed.
Let ra : forall i, In i (from (du + 1) k) -> 0 <= i < na. Proof. intros i H. apply in_from in H. lia. Qed.
Let rb : forall i, In i (from 1 k) -> 0 <= i < nb. Proof. intros i H. apply in_from in H. lia. Qed.
Let dd : forall i j q, In (i, j) (combine (from (du + 1) k) (from 1 k)) -> ldim L na dla dpa dra i q = ldim L nb dlb dpb drb j q.
Proof.
  intros i j q H. assert (G: i = du + j /\ 1 <= j <= k).
  { pose proof (in_combine_r _ _ _ _ H) as H2. apply in_from in H2. split; [|lia]. unfold from in H. revert H. generalize (zrange k). induction l as [|x l IH]; [intros []|]. cbn [map combine In]. intros [H|H]; [apply pair_equal_spec in H; lia|auto]. }
  destruct G as [-> G]. rewrite !ldim_mid by lia. now apply D.
Qed.
Lemma vert_states : forall C l u rr l' w rr', NoDup C -> (forall c, In c C -> Z.of_nat (length c) = k) -> Z.of_nat (length u) = du -> Z.of_nat (length w) = dw ->
  (forall c, Z.of_nat (length c) = k -> ~ In c C -> telem a (l :: u ++ c ++ [rr]) *' telem b (l' :: c ++ w ++ [rr']) = 0') ->
  telem r ((l :: u ++ [rr]) ++ l' :: w ++ [rr']) = bsum C (fun c => telem a (l :: u ++ c ++ [rr]) *' telem b (l' :: c ++ w ++ [rr'])).
Proof.
  intros C l u rr l' w rr' NC LC Lu Lw Cov.
  assert (Ma: forall c, Z.of_nat (length c) = k -> merge s0 na (from (du + 1) k) c (l :: u ++ [rr]) = l :: u ++ c ++ [rr]).
  { intros c Hc. change (l :: u ++ [rr]) with ((l :: u) ++ [rr]). rewrite merge_from; [reflexivity|cbn [length]; lia|exact Hc|cbn [length]; lia]. }
  assert (Mb: forall c, Z.of_nat (length c) = k -> merge s0 nb (from 1 k) c (l' :: w ++ [rr']) = l' :: c ++ w ++ [rr']).
  { intros c Hc. change (l' :: w ++ [rr']) with ([l'] ++ w ++ [rr']). rewrite merge_from; [reflexivity|reflexivity|exact Hc|rewrite app_length; cbn [length]; lia]. }
  assert (Lc: forall c : list state, length c = length (from (du + 1) k) -> Z.of_nat (length c) = k) by (intros c; rewrite from_length; lia).
  rewrite (tdot_states R L a b na nb _ _ (from (du + 1) k) (from 1 k) r Wa Wb Pa (from_nodup _ _) (from_nodup _ _) ra rb la dd E C); auto.
  - apply bsum_ext. intros c Hc. now rewrite Ma, Mb by auto.
  - intros c Hc. rewrite from_length. specialize (LC c Hc). lia.
  - rewrite from_length. cbn [length]. rewrite app_length. cbn [length]. lia.
  - rewrite from_length. cbn [length]. rewrite app_length. cbn [length]. lia.
  - intros c Hc N. apply Lc in Hc. rewrite Ma, Mb by auto. now apply Cov.
Qed.
Lemma vert_wf : wf_tensor R L (du + dw + 4) (fun i q => if i <? du + 2 then ldim L (du + 2) dla dpa dra i q else ldim L (dw + 2) dlb (fun j => dpb (j + k)) drb (i - (du + 2)) q) r /\ positive r /\ NoDup (map fst r) /\
  forall c, In c r -> exists ql u qc qr ql' w qr', In (ql :: u ++ qc ++ [qr]) (map fst a) /\ In (ql' :: qc ++ w ++ [qr']) (map fst b) /\ fst c = (ql :: u ++ [qr]) ++ ql' :: w ++ [qr'] /\ Z.of_nat (length u) = du /\ Z.of_nat (length w) = dw.
Proof.
  destruct (tdot_wf R L a b na nb _ _ (from (du + 1) k) (from 1 k) r Wa Wb Pa (from_nodup _ _) (from_nodup _ _) ra rb la dd E Pb) as (W & P & N & O).
  rewrite !from_length in W.
  assert (Oa: others na (from (du + 1) k) = zrange (du + 1) ++ from (du + 1 + k) 1). { replace na with (du + 1 + k + 1) by lia. apply others_from; lia. }
  assert (Ob: others nb (from 1 k) = zrange 1 ++ from (1 + k) (dw + 1)). { replace nb with (1 + k + (dw + 1)) by lia. apply others_from; lia. }
  split; [|split; [exact P|split; [exact N|]]].
  - apply (wf_tensor_ext _ (dm_out L na nb (ldim L na dla dpa dra) (ldim L nb dlb dpb drb) (from (du + 1) k) (from 1 k))); [|replace (du + dw + 4) with (na - Z.of_nat (Z.to_nat k) + (nb - Z.of_nat (Z.to_nat k))) by lia; exact W].
    intros i q Hi. unfold dm_out. rewrite Oa, Ob. rewrite !app_length, zrange_length, from_length. replace (Z.of_nat (Z.to_nat (du + 1) + Z.to_nat 1)) with (du + 2) by lia.
    assert (NF: forall z n j, 0 <= j < n -> nth (Z.to_nat j) (from z n) 0 = z + j).
    { intros z n j Hj. unfold from. rewrite (nth_indep _ 0 (z + 0)) by (rewrite map_length, zrange_length; lia). rewrite (map_nth (fun x => z + x)), nth_zrange by lia. lia. }
    destruct (Z.ltb_spec i (du + 2)) as [H|H].
    + destruct (Z.ltb_spec i (du + 1)) as [H1|H1].
      * rewrite app_nth1 by (rewrite zrange_length; lia). rewrite nth_zrange by lia. rewrite Z2Nat.id by lia. unfold ldim. destruct (Z.eqb_spec i 0); [reflexivity|]. destruct (Z.eqb_spec i (na - 1)); [lia|]. destruct (Z.eqb_spec i (du + 2 - 1)); [lia|reflexivity].
      * rewrite app_nth2 by (rewrite zrange_length; lia). rewrite zrange_length. replace (Z.to_nat i - Z.to_nat (du + 1))%nat with (Z.to_nat 0) by lia. rewrite NF by lia. unfold ldim.
        destruct (Z.eqb_spec (du + 1 + k + 0) 0); [lia|]. destruct (Z.eqb_spec (du + 1 + k + 0) (na - 1)); [|lia]. destruct (Z.eqb_spec i 0); [lia|]. destruct (Z.eqb_spec i (du + 2 - 1)); [reflexivity|lia].
    + destruct (Z.eqb_spec i (du + 2)) as [H1|H1].
      * rewrite app_nth1 by (rewrite zrange_length; lia). replace (i - (du + 2)) with 0 by lia. change (nth (Z.to_nat 0) (zrange 1) 0) with 0. unfold ldim. reflexivity.
      * rewrite app_nth2 by (rewrite zrange_length; lia). rewrite zrange_length. replace (Z.to_nat (i - (du + 2)) - Z.to_nat 1)%nat with (Z.to_nat (i - (du + 2) - 1)) by lia. rewrite NF by lia. unfold ldim.
        destruct (Z.eqb_spec (1 + k + (i - (du + 2) - 1)) 0); [lia|]. destruct (Z.eqb_spec (i - (du + 2)) 0); [lia|].
        destruct (Z.eqb_spec (1 + k + (i - (du + 2) - 1)) (nb - 1)), (Z.eqb_spec (i - (du + 2)) (dw + 2 - 1)); try lia. f_equal. lia.
  - intros c Hc. apply O in Hc. destruct Hc as (ba & bb & Ha & Hb & Ec & Ep). destruct (Wa ba Ha) as [La _], (Wb bb Hb) as [Lb _].
    assert (Da: exists ql u qc qr, fst ba = ql :: u ++ qc ++ [qr] /\ Z.of_nat (length u) = du /\ Z.of_nat (length qc) = k).
    { destruct (ends L (q0 L) (fst ba)) as (ql & qm & qr & E1 & Lm); [lia|]. exists ql, (firstn (Z.to_nat du) qm), (skipn (Z.to_nat du) qm), qr. rewrite app_assoc, firstn_skipn. split; [exact E1|]. rewrite firstn_length, skipn_length. lia. }
    assert (Db: exists ql u qc qr, fst bb = ql :: u ++ qc ++ [qr] /\ Z.of_nat (length u) = k /\ Z.of_nat (length qc) = dw).
    { destruct (ends L (q0 L) (fst bb)) as (ql & qm & qr & E1 & Lm); [lia|]. exists ql, (firstn (Z.to_nat k) qm), (skipn (Z.to_nat k) qm), qr. rewrite app_assoc, firstn_skipn. split; [exact E1|]. rewrite firstn_length, skipn_length. lia. }
    destruct Da as (ql & u & qc & qr & E1 & L1 & L2), Db as (ql' & qc' & w & qr' & E2 & L3 & L4).
    assert (P1: pick (q0 L) (from (du + 1) k) (fst ba) = qc). { rewrite E1. change (ql :: u ++ qc ++ [qr]) with ((ql :: u) ++ qc ++ [qr]). apply pick_from; [cbn [length]; lia|exact L2]. }
    assert (P2: pick (q0 L) (from 1 k) (fst bb) = qc'). { rewrite E2. change (ql' :: qc' ++ w ++ [qr']) with ([ql'] ++ qc' ++ w ++ [qr']). apply pick_from; [reflexivity|exact L3]. }
    rewrite P1, P2 in Ep. subst qc'. exists ql, u, qc, qr, ql', w, qr'. split; [rewrite <- E1; now apply in_map|]. split; [rewrite <- E2; now apply in_map|]. split; [|split; assumption].
    rewrite Ec, Oa, Ob. unfold pick. rewrite !map_app. apply (f_equal2 (@app L)); [change (ql :: u ++ [qr]) with ((ql :: u) ++ [qr])|change (ql' :: w ++ [qr']) with ([ql'] ++ (w ++ [qr']))]; apply (f_equal2 (@app L)).
    + change (pick (q0 L) (zrange (du + 1)) (fst ba) = ql :: u). rewrite E1. change (ql :: u ++ qc ++ [qr]) with ((ql :: u) ++ qc ++ [qr]). apply pick_front. cbn [length]. lia.
    + change (pick (q0 L) (from (du + 1 + k) 1) (fst ba) = [qr]). rewrite E1. replace (ql :: u ++ qc ++ [qr]) with ((ql :: u ++ qc) ++ [qr] ++ []) by (cbn [app]; now rewrite <- app_assoc). apply pick_from; [cbn [length]; rewrite app_length; lia|reflexivity].
    + change (pick (q0 L) (zrange 1) (fst bb) = [ql']). rewrite E2. change (ql' :: qc ++ w ++ [qr']) with ([ql'] ++ qc ++ w ++ [qr']). now apply pick_front.
    + change (pick (q0 L) (from (1 + k) (dw + 1)) (fst bb) = w ++ [qr']). rewrite E2. replace (ql' :: qc ++ w ++ [qr']) with ((ql' :: qc) ++ (w ++ [qr']) ++ []) by (cbn [app]; now rewrite app_nil_r). apply pick_from; [cbn [length]; lia|rewrite app_length; cbn [length]; lia].
Qed.
End Vert.
(* the transposed product *)
Lemma tr4_wf : forall du k dw dla dra dlb drb dpa dpb (t : tensor), 0 <= du -> 0 < k -> 0 <= dw -> 
  wf_tensor R L (du + dw + 4) (fun i q => if i <? du + 2 then ldim L (du + 2) dla dpa dra i q else ldim L (dw + 2) dlb (fun j => dpb (j + k)) drb (i - (du + 2)) q) t -> positive t -> NoDup (map fst t) ->
  let t' := sp_transpose R L (Some (tr4 du dw)) t in
  wf_tensor R L (du + dw + 4) (dm4 (du + dw + 4) dla dlb dra drb (dpc du k dpa dpb)) t' /\ positive t' /\ NoDup (map fst t') /\
  (forall l u r l' w r', Z.of_nat (length u) = du -> Z.of_nat (length w) = dw -> telem t' (l :: l' :: u ++ w ++ [r; r']) = telem t ((l :: u ++ [r]) ++ l' :: w ++ [r'])) /\
  (forall c, In c (map fst t') -> exists l u r l' w r', In ((l :: u ++ [r]) ++ l' :: w ++ [r']) (map fst t) /\ c = l :: l' :: u ++ w ++ [r; r'] /\ Z.of_nat (length u) = du /\ Z.of_nat (length w) = dw).
Proof.
  intros du k dw dla dra dlb drb dpa dpb t Hu Hk Hw W P N t'. pose proof (tr4_perm du dw Hu Hw) as Pm.
  split; [|split; [eapply transpose_pos; eauto|split; [eapply transpose_keys; eauto|split]]].
  - refine (wf_tensor_ext _ _ _ _ _ (transpose_wf R L _ _ _ _ Pm W)). intros i q Hi. cbv beta. unfold tr4.
    assert (NF: forall z n j, 0 <= j < n -> nth (Z.to_nat j) (from z n) 0 = z + j).
    { intros z n j Hj. unfold from. rewrite (nth_indep _ 0 (z + 0)) by (rewrite map_length, zrange_length; lia). rewrite (map_nth (fun x => z + x)), nth_zrange by lia. lia. }
    assert (Nt: nth (Z.to_nat i) ([0; du + 2] ++ from 1 du ++ from (du + 3) dw ++ [du + 1; du + dw + 3]) 0 =
      if i =? 0 then 0 else if i =? 1 then du + 2 else if i <=? du + 1 then i - 1 else if i <=? du + dw + 1 then i + 1 else if i =? du + dw + 2 then du + 1 else du + dw + 3).
    { destruct (Z.eqb_spec i 0) as [->|]; [reflexivity|]. destruct (Z.eqb_spec i 1) as [->|]; [reflexivity|]. rewrite app_nth2 by (cbn [length]; lia). cbn [length].
      destruct (Z.leb_spec i (du + 1)). { rewrite app_nth1 by (rewrite from_length; lia). replace (Z.to_nat i - 2)%nat with (Z.to_nat (i - 2)) by lia. rewrite NF by lia. lia. }
      rewrite app_nth2 by (rewrite from_length; lia). rewrite from_length. destruct (Z.leb_spec i (du + dw + 1)). { rewrite app_nth1 by (rewrite from_length; lia). replace (Z.to_nat i - 2 - Z.to_nat du)%nat with (Z.to_nat (i - 2 - du)) by lia. rewrite NF by lia. lia. }
      rewrite app_nth2 by (rewrite from_length; lia). rewrite from_length. destruct (Z.eqb_spec i (du + dw + 2)); [replace (Z.to_nat i - 2 - Z.to_nat du - Z.to_nat dw)%nat with O by lia; reflexivity|].
      replace (Z.to_nat i - 2 - Z.to_nat du - Z.to_nat dw)%nat with 1%nat by lia. reflexivity. }
    rewrite Nt. unfold dm4, dpc, ldim.
    destruct (Z.eqb_spec i 0); [destruct (Z.ltb_spec 0 (du + 2)); [reflexivity|lia]|].
    destruct (Z.eqb_spec i 1). { destruct (Z.ltb_spec (du + 2) (du + 2)); [lia|]. now rewrite Z.sub_diag. }
    destruct (Z.leb_spec i (du + 1)).
    { destruct (Z.ltb_spec (i - 1) (du + 2)); [|lia]. destruct (Z.eqb_spec (i - 1) 0); [lia|]. destruct (Z.eqb_spec (i - 1) (du + 2 - 1)); [lia|]. destruct (Z.eqb_spec i (du + dw + 4 - 2)); [lia|]. destruct (Z.eqb_spec i (du + dw + 4 - 1)); [lia|]. destruct (Z.leb_spec (i - 1) du); [reflexivity|lia]. }
    destruct (Z.leb_spec i (du + dw + 1)).
    { destruct (Z.ltb_spec (i + 1) (du + 2)); [lia|]. destruct (Z.eqb_spec (i + 1 - (du + 2)) 0); [lia|]. destruct (Z.eqb_spec (i + 1 - (du + 2)) (dw + 2 - 1)); [lia|]. destruct (Z.eqb_spec i (du + dw + 4 - 2)); [lia|]. destruct (Z.eqb_spec i (du + dw + 4 - 1)); [lia|]. destruct (Z.leb_spec (i - 1) du); [lia|]. f_equal. lia. }
    destruct (Z.eqb_spec i (du + dw + 2)).
    { destruct (Z.ltb_spec (du + 1) (du + 2)); [|lia]. destruct (Z.eqb_spec (du + 1) 0); [lia|]. destruct (Z.eqb_spec (du + 1) (du + 2 - 1)); [|lia]. destruct (Z.eqb_spec i (du + dw + 4 - 2)); [reflexivity|lia]. }
    destruct (Z.ltb_spec (du + dw + 3) (du + 2)); [lia|]. destruct (Z.eqb_spec (du + dw + 3 - (du + 2)) 0); [lia|]. destruct (Z.eqb_spec (du + dw + 3 - (du + 2)) (dw + 2 - 1)); [|lia]. destruct (Z.eqb_spec i (du + dw + 4 - 2)); [lia|]. destruct (Z.eqb_spec i (du + dw + 4 - 1)); [reflexivity|lia].
  - intros l u r l' w r' Lu Lw. rewrite <- (pick_tr4 _ s0 du dw l u r l' w r' Lu Lw). eapply transpose_elem; eauto. cbn [length app]. repeat (rewrite app_length; cbn [length]). lia.
  - intros c Hc. apply in_map_iff in Hc. destruct Hc as (c' & <- & Hc). apply transpose_in in Hc. destruct Hc as (b & Hb & ->). cbn [fst]. destruct (W b Hb) as [Lb _].
    destruct (ends L (q0 L) (firstn (Z.to_nat (du + 2)) (fst b))) as (l & u & r & E1 & L1); [rewrite firstn_length; lia|].
    destruct (ends L (q0 L) (skipn (Z.to_nat (du + 2)) (fst b))) as (l' & w & r' & E2 & L2); [rewrite skipn_length; lia|]. rewrite firstn_length in L1. rewrite skipn_length in L2.
    assert (Eb: fst b = (l :: u ++ [r]) ++ l' :: w ++ [r']) by (rewrite <- E1, <- E2; now rewrite firstn_skipn).
    exists l, u, r, l', w, r'. split; [rewrite <- Eb; now apply in_map|]. split; [|lia]. rewrite Eb. apply pick_tr4; lia.
Qed.

Definition sgn (o : bool) (x : R) : R := if o then ropp R x else x.
Lemma sgn_mul : forall o x y, sgn o (x *' y) = sgn o x *' y.
Proof. intros [] x y; cbn; ring. Qed.
Lemma sgn_0 : forall o, sgn o 0' = 0'.
Proof. intros []; cbn; ring. Qed.
Lemma sgn_bsum : forall A o (l : list A) f, sgn o (bsum l f) = bsum l (fun x => sgn o (f x)).
Proof. intros A [] l f; cbn; [symmetry; apply bsum_opp|reflexivity]. Qed.
Lemma sgn_xor : forall a b x, sgn (xorb a b) x = sgn a (sgn b x).
Proof. intros [] [] x; cbn; ring. Qed.
Lemma odd_labels_one : forall i A qs (q : L) rest, qs = A ++ q :: rest -> Z.of_nat (length A) = i -> odd_labels L (from i 1) qs = qpar L q.
Proof.
  intros i A qs q rest -> H. unfold odd_labels, from. change (zrange 1) with [0]. cbn [map fold_left]. rewrite xorb_false_l. rewrite app_nth2 by lia. replace (Z.to_nat (i + 0) - length A)%nat with O by lia. reflexivity.
Qed.

Section Pair.
Variables (ao ae b1 b2 : tensor) (du k dw : Z) (dla dra dlb drb : L -> Z) (dpa dpb : Z -> L -> Z) (r1 r2 : tensor).
Notation na := (du + k + 2). Notation nb := (k + dw + 2).
Hypothesis Hu : 0 <= du. Hypothesis Hk : 0 < k. Hypothesis Hw : 0 <= dw.
Hypothesis Wo : wf_tensor R L na (ldim L na dla dpa dra) ao.
Hypothesis We : wf_tensor R L na (ldim L na dla dpa dra) ae.
Hypothesis W1 : wf_tensor R L nb (ldim L nb dlb dpb drb) b1.
Hypothesis W2 : wf_tensor R L nb (ldim L nb dlb dpb drb) b2.
Hypothesis Po : positive ao. Hypothesis Pe : positive ae. Hypothesis P1 : positive b1. Hypothesis P2 : positive b2.
Hypothesis D : forall i q, 1 <= i <= k -> dpa (du + i) q = dpb i q.
Hypothesis E1 : sp_tensordot R L ao b1 (from (du + 1) k) (from 1 k) = Some r1.
Hypothesis E2 : sp_tensordot R L ae b2 (from (du + 1) k) (from 1 k) = Some r2.
Hypothesis Co : forall l m r, In (l :: m ++ [r]) (map fst ao) -> xorb (qpar L l) (qpar L r) = true.
Hypothesis Ce : forall l m r, In (l :: m ++ [r]) (map fst ae) -> xorb (qpar L l) (qpar L r) = false.
Lemma pair_spec :
  let t := sp_transpose R L (Some (tr4 du dw)) (add_then_negate R L (odd_labels L (from (du + 2) 1)) r1 r2) in
  wf_tensor R L (du + dw + 4) (dm4 (du + dw + 4) dla dlb dra drb (dpc du k dpa dpb)) t /\ positive t /\ NoDup (map fst t) /\
  (forall c, In c (map fst t) -> exists l u qc r l' w r', c = l :: l' :: u ++ w ++ [r; r'] /\ Z.of_nat (length u) = du /\ Z.of_nat (length w) = dw /\
     ((In (l :: u ++ qc ++ [r]) (map fst ao) /\ In (l' :: qc ++ w ++ [r']) (map fst b1)) \/ (In (l :: u ++ qc ++ [r]) (map fst ae) /\ In (l' :: qc ++ w ++ [r']) (map fst b2)))) /\
  (forall C l u r l' w r', NoDup C -> (forall c, In c C -> Z.of_nat (length c) = k) -> Z.of_nat (length u) = du -> Z.of_nat (length w) = dw ->
     (forall c, Z.of_nat (length c) = k -> ~ In c C -> telem b1 (l' :: c ++ w ++ [r']) = 0' /\ telem b2 (l' :: c ++ w ++ [r']) = 0') ->
     telem t (l :: l' :: u ++ w ++ [r; r']) =
       bsum C (fun c => sgn (qpar L (fst l')) (telem ao (l :: u ++ c ++ [r])) *' telem b1 (l' :: c ++ w ++ [r'])) +' bsum C (fun c => telem ae (l :: u ++ c ++ [r]) *' telem b2 (l' :: c ++ w ++ [r']))).
Proof.
  destruct (vert_wf ao b1 du k dw dla dra dlb drb dpa dpb r1 Hu Hk Hw Wo W1 Po P1 D E1) as (V1 & Q1 & N1 & O1).
  destruct (vert_wf ae b2 du k dw dla dra dlb drb dpa dpb r2 Hu Hk Hw We W2 Pe P2 D E2) as (V2 & Q2 & N2 & O2).
  destruct (neg_wf R L (odd_labels L (from (du + 2) 1)) _ _ r1 r2 N1 V1 V2 Q1 Q2) as [V Q]. pose proof (neg_keys R L (odd_labels L (from (du + 2) 1)) r1 r2 N1) as N.
  set (s := add_then_negate R L (odd_labels L (from (du + 2) 1)) r1 r2) in *. intros t.
  destruct (tr4_wf du k dw dla dra dlb drb dpa dpb s Hu Hk Hw V Q N) as (T1 & T2 & T3 & T4 & T5). fold t in T1, T2, T3, T4, T5.
  split; [exact T1|]. split; [exact T2|]. split; [exact T3|]. split.
  - intros c Hc. apply T5 in Hc. destruct Hc as (l & u & r & l' & w & r' & Hc & -> & Lu & Lw). apply in_map_iff in Hc. destruct Hc as (blk & Eb & Hb). unfold s in Hb. apply neg_in in Hb; [|exact N1].
    destruct Hb as (blk' & Hb & Eb' & _). rewrite Eb in Eb'. apply in_app_iff in Hb.
    assert (Same: forall ql u' qr ql' w' qr', Z.of_nat (length u') = du -> (ql :: u' ++ [qr]) ++ ql' :: w' ++ [qr'] = (l :: u ++ [r]) ++ l' :: w ++ [r'] -> ql = l /\ u' = u /\ qr = r /\ ql' = l' /\ w' = w /\ qr' = r').
    { intros ql u' qr ql' w' qr' Lu' X. apply app_inj_len in X; [|cbn [length]; rewrite !app_length; cbn [length]; lia]. destruct X as [X Y]. injection X as -> X. injection Y as -> Y. apply app_inj_tail in X, Y. intuition congruence. }
    destruct Hb as [Hb|Hb]; [apply O1 in Hb|apply O2 in Hb]; destruct Hb as (ql & u' & qc & qr & ql' & w' & qr' & H1 & H2 & H3 & H4 & H5); rewrite H3 in Eb'; apply Same in Eb'; auto; destruct Eb' as (-> & -> & -> & -> & -> & ->);
      exists l, u, qc, r, l', w, r'; repeat (split; [auto; fail|]); [left|right]; auto.
  - intros C l u r l' w r' NC LC Lu Lw Cov. rewrite T4 by auto. unfold s. rewrite neg_elem; auto.
    + rewrite (vert_states ao b1 du k dw dla dra dlb drb dpa dpb r1 Hu Hk Hw Wo W1 Po D E1 C) by (auto; intros c Lc Hc; rewrite (proj1 (Cov c Lc Hc)); ring).
      rewrite (vert_states ae b2 du k dw dla dra dlb drb dpa dpb r2 Hu Hk Hw We W2 Pe D E2 C) by (auto; intros c Lc Hc; rewrite (proj2 (Cov c Lc Hc)); ring).
      rewrite (odd_labels_one (du + 2) (map fst (l :: u ++ [r])) _ (fst l') (map fst (w ++ [r']))); [|now rewrite map_app|rewrite map_length; cbn [length]; rewrite app_length; cbn [length]; lia].
      apply (f_equal (fun z => z +' _)). fold (sgn (qpar L (fst l')) (bsum C (fun c => telem ao (l :: u ++ c ++ [r]) *' telem b1 (l' :: c ++ w ++ [r'])))). rewrite sgn_bsum. apply bsum_ext. intros c _. apply sgn_mul.
    + apply (wf_same_shapes R L (du + dw + 4) (fun i q => if i <? du + 2 then ldim L (du + 2) dla dpa dra i q else ldim L (dw + 2) dlb (fun j => dpb (j + k)) drb (i - (du + 2)) q)). intros b Hb. apply in_app_iff in Hb. destruct Hb; auto.
    + intros q H1 H2. exfalso. apply in_map_iff in H1, H2. destruct H1 as (c1 & F1 & H1), H2 as (c2 & F2 & H2). apply O1 in H1. apply O2 in H2.
      destruct H1 as (ql & u1 & qc & qr & ql' & w1 & qr' & A1 & _ & A3 & A4 & _), H2 as (ml & u2 & mc & mr & ml' & w2 & mr' & B1 & _ & B3 & B4 & _).
      rewrite A3 in F1. rewrite B3 in F2. rewrite <- F1 in F2. apply app_inj_len in F2; [|cbn [length]; rewrite !app_length; cbn [length]; lia]. destruct F2 as [X _]. injection X as X Y. apply app_inj_tail in Y. destruct Y as [_ Y]. subst ml mr.
      rewrite app_assoc in A1, B1. apply Co in A1. apply Ce in B1. congruence.
Qed.
End Pair.

(* operators: bond labels of different parity exactly in the odd part; states: the parity of the right bond label is that of
   the left bond label and the physical labels together *)
Definition charge (op odd : bool) (m : list L) : bool := if op then odd else fold_right (fun q p => xorb (qpar L q) p) false m.
Definition graded (s : site) : Prop := forall odd l m r, In (l :: m ++ [r]) (map fst (part s odd)) -> xorb (qpar L l) (qpar L r) = charge (kind s) odd m.
Lemma s_ndim_wf : forall n dl dp dr (s : site), wf_site n dl dp dr s -> blocks s <> [] -> s_ndim R L s = n.
Proof.
  intros n dl dp dr s [Hn W] Ne. destruct s as [t|o e]; cbn [s_ndim].
  - destruct (W false) as (Wt & _). cbn [part] in Wt. apply (ndim_wf R L n _ t Wt). exact Ne.
  - destruct (W true) as (Wo & _), (W false) as (We & _). cbn [part] in *. destruct o as [|bo o].
    + rewrite (ndim_wf R L n _ e We) by exact Ne. reflexivity.
    + rewrite (ndim_wf R L n _ (bo :: o) Wo) by discriminate. destruct e as [|be e]; [apply Z.lor_0_r|]. rewrite (ndim_wf R L n _ (be :: e) We) by discriminate. apply Z.lor_diag.
Qed.
Lemma norm_axes_id : forall n l, (forall i, In i l -> 0 <= i < n) -> norm_axes n l = l.
Proof. intros n l H. rewrite norm_axes_leg. rewrite <- (map_id l) at 2. apply map_ext_in. intros i Hi. apply H in Hi. unfold leg. destruct (Z.ltb_spec i 0); lia. Qed.
Lemma min_idx_from : forall k, 0 < k -> min_idx (from 1 k) = 1.
Proof.
  intros k Hk. assert (G: forall l m, (forall i, In i l -> m <= i) -> fold_left Z.min l m = m).
  { induction l as [|x l IH]; intros m H; [reflexivity|]. cbn [fold_left]. rewrite Z.min_l by (apply H; now left). apply IH. intros i Hi. apply H. now right. }
  assert (E: from 1 k = 1 :: from 2 (k - 1)). { unfold from. replace k with (1 + (k - 1)) at 1 by lia. rewrite zrange_app by lia. cbn [app map]. change (zrange 1) with [0]. cbn [app map]. f_equal. rewrite map_map. apply map_ext. intros; lia. }
  rewrite E. unfold min_idx. apply G. intros i Hi. apply in_from in Hi. lia.
Qed.
Lemma pdot_site : forall (ao ae : tensor) (y : site) du k dw dla dra dlb drb dpa dpb, 0 < du -> 0 < k -> 0 <= dw ->
  wf_site (du + k + 2) dla dpa dra (FT ao ae) -> wf_site (k + dw + 2) dlb dpb drb y -> (forall i q, 1 <= i <= k -> dpa (du + i) q = dpb i q) ->
  graded (FT ao ae) -> blocks (FT (R := R) (L := L) ao ae) <> [] -> blocks y <> [] -> (if kind y then du = k /\ dw = k else dw = 0) ->
  exists c, s_pdot R L (FT ao ae) y = Some c /\ kind c = kind y /\
  (forall odd, wf_tensor R L (du + dw + 4) (dm4 (du + dw + 4) dla dlb dra drb (dpc du k dpa dpb)) (part c odd) /\ positive (part c odd) /\ NoDup (map fst (part c odd))) /\
  (forall odd qs, In qs (map fst (part c odd)) -> exists o l u qc r l' w r', qs = l :: l' :: u ++ w ++ [r; r'] /\ Z.of_nat (length u) = du /\ Z.of_nat (length w) = dw /\
     In (l :: u ++ qc ++ [r]) (map fst (part (FT ao ae) o)) /\ In (l' :: qc ++ w ++ [r']) (map fst (part y (if kind y then xorb odd o else false)))) /\
  (forall odd C l u r l' w r', (kind y = false -> odd = false) -> NoDup C -> (forall c, In c C -> Z.of_nat (length c) = k) -> Z.of_nat (length u) = du -> Z.of_nat (length w) = dw ->
     (forall c o, Z.of_nat (length c) = k -> ~ In c C -> telem (part y o) (l' :: c ++ w ++ [r']) = 0') ->
     telem (part c odd) (l :: l' :: u ++ w ++ [r; r']) =
       bsum [true; false] (fun o => bsum C (fun c => sgn (o && qpar L (fst l')) (telem (part (FT ao ae) o) (l :: u ++ c ++ [r])) *' telem (part y (if kind y then xorb odd o else false)) (l' :: c ++ w ++ [r'])))).
Proof.
  intros ao ae y du k dw dla dra dlb drb dpa dpb Hu Hk Hw Wx Wy D G Nx Ny Sh.
  pose proof (s_ndim_wf _ _ _ _ _ Wx Nx) as Ex. pose proof (s_ndim_wf _ _ _ _ _ Wy Ny) as Ey.
  assert (Ia: norm_axes (du + k + 2) (from (du + 1) k) = from (du + 1) k) by (apply norm_axes_id; intros i H; apply in_from in H; lia).
  assert (Ib: norm_axes (k + dw + 2) (from 1 k) = from 1 k) by (apply norm_axes_id; intros i H; apply in_from in H; lia).
  assert (Nf: exists z l, from (du + 1) k = z :: l) by (destruct (from (du + 1) k) eqn:F; [apply (f_equal (@length _)) in F; rewrite from_length in F; cbn in F; lia|eauto]).
  assert (Idx: from (du + k + 2 - Z.of_nat (length (from (du + 1) k))) (min_idx (from 1 k)) = from (du + 2) 1) by (rewrite min_idx_from by auto; rewrite from_length; f_equal; lia).
  assert (Td: forall u v : tensor, exists r, sp_tensordot R L u v (from (du + 1) k) (from 1 k) = Some r) by (intros; apply tdot_some; now rewrite !from_length).
  destruct Wx as [_ Wx], Wy as [_ Wy]. destruct (Wx true) as (Wo & Po & _), (Wx false) as (We & Pe & _). cbn [part] in Wo, We, Po, Pe.
  assert (Co: forall l m r, In (l :: m ++ [r]) (map fst ao) -> xorb (qpar L l) (qpar L r) = true) by (intros l m r; exact (G true l m r)).
  assert (Ce: forall l m r, In (l :: m ++ [r]) (map fst ae) -> xorb (qpar L l) (qpar L r) = false) by (intros l m r; exact (G false l m r)).
  assert (Two: forall f : bool -> R, bsum [true; false] f = f true +' f false) by (intros f; rewrite !bsum_cons, bsum_nil; ring).
  destruct y as [t|bo be]; cbn [kind] in Sh |- *.
  - subst dw. destruct (Wy false) as (Wt & Pt & _). cbn [part] in Wt, Pt. destruct (Td ae t) as (r2 & E2), (Td ao t) as (r1 & E1).
    exists (SP (sp_transpose R L (Some (tr4 du 0)) (add_then_negate R L (odd_labels L (from (du + 2) 1)) r1 r2))).
    destruct (pair_spec ao ae t t du k 0 dla dra dlb drb dpa dpb r1 r2) as (V1 & V2 & V3 & V4 & V5); auto; try lia.
    split; [|split; [reflexivity|split; [|split]]].
    + unfold s_pdot. rewrite Ex, Ey. destruct (Z.eqb_spec (du + k + 2) (k + 0 + 2)); [lia|]. cbn [andb]. destruct (Z.ltb_spec (k + 0 + 2) (du + k + 2)); [|lia].
      replace (du + k + 2 - (k + 0 + 2)) with du by lia. replace (k + 0 + 2 - 2) with k by lia. unfold ft_tensordot. rewrite Ex, Ey, Ia, Ib, Idx. destruct Nf as (z & l & Nf). rewrite Nf. rewrite <- Nf. rewrite E1, E2. cbn [bind s_transpose]. unfold tr4. change (from (du + 3) 0) with (@nil Z). cbn [app]. do 6 f_equal. f_equal. f_equal. f_equal. lia.
    + intros []; cbn [part]; [|auto]. split; [intros b []|]. split; [intros b []|constructor].
    + intros [] qs Hq; cbn [part] in Hq; [destruct Hq|]. apply V4 in Hq. destruct Hq as (l & u & qc & r & l' & w & r' & H1 & H2 & H3 & [[H4 H5]|[H4 H5]]); [exists true|exists false]; exists l, u, qc, r, l', w, r'; auto 10.
    + intros odd C l u r l' w r' Ho NC LC Lu Lw Cov. rewrite (Ho eq_refl). cbn [part]. rewrite Two. rewrite V5 with (C := C); auto. intros c Lc Hc. split; apply (Cov c false Lc Hc).
  - destruct Sh as [-> ->]. destruct (Wy false) as (Wbe & Pbe & _), (Wy true) as (Wbo & Pbo & _). cbn [part] in Wbe, Pbe, Wbo, Pbo.
    destruct (Td ao be) as (r1 & E1), (Td ae bo) as (r2 & E2), (Td ao bo) as (r3 & E3), (Td ae be) as (r4 & E4).
    exists (FT (sp_transpose R L (Some (tr4 k k)) (add_then_negate R L (odd_labels L (from (k + 2) 1)) r1 r2)) (sp_transpose R L (Some (tr4 k k)) (add_then_negate R L (odd_labels L (from (k + 2) 1)) r3 r4))).
    destruct (pair_spec ao ae be bo k k k dla dra dlb drb dpa dpb r1 r2) as (V1 & V2 & V3 & V4 & V5); auto; try lia.
    destruct (pair_spec ao ae bo be k k k dla dra dlb drb dpa dpb r3 r4) as (V1' & V2' & V3' & V4' & V5'); auto; try lia.
    split; [|split; [reflexivity|split; [|split]]].
    + unfold s_pdot. rewrite Ex, Ey. rewrite Z.eqb_refl. assert (Ev: Z.even (k + k + 2) = true) by (replace (k + k + 2) with (2 * (k + 1)) by lia; now rewrite Z.even_mul). rewrite Ev. cbn [andb].
      assert (Dv: (k + k + 2) / 2 - 1 = k) by (replace (k + k + 2) with ((k + 1) * 2) by lia; rewrite Z.div_mul; lia). rewrite Dv. unfold ft_tensordot. rewrite Ex, Ey, Ia, Ib, Idx. destruct Nf as (z & l & Nf). rewrite Nf. rewrite <- Nf. rewrite E1, E2, E3, E4. cbn [bind s_transpose]. reflexivity.
    + intros []; cbn [part]; auto.
    + intros [] qs Hq; cbn [part] in Hq; [apply V4 in Hq|apply V4' in Hq]; destruct Hq as (l & u & qc & r & l' & w & r' & H1 & H2 & H3 & [[H4 H5]|[H4 H5]]); [exists true|exists false|exists true|exists false]; exists l, u, qc, r, l', w, r'; auto 10.
    + intros odd C l u r l' w r' Ho NC LC Lu Lw Cov. rewrite Two. destruct odd; cbn [part xorb]; [rewrite V5 with (C := C)|rewrite V5' with (C := C)]; auto; intros c Lc Hc; split; solve [apply (Cov c true Lc Hc)|apply (Cov c false Lc Hc)].
Qed.
End MVert.
