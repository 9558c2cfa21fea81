(** Property C16: fusing and unfusing legs of block-sparse tensors.
    [entries info q] (FuseProps.v) is the list of (labels, (offset, shape)) stored for fused label q. *)
From Coq Require Import ZArith Bool List Ascii Lia Permutation Ring.
From Verif Require Import SymModel SymProofs DictLib IndexLib RingLib BondModel BondProofs FuseModel FuseProofs FuseProps
  BlockModel BlockProofs BlockProps StructModel StructProofs FuseTProofs.
Import ListNotations.
Open Scope Z_scope.

(* the legs kept to the right of the fused leg, m being the lowest fused leg *)
Definition legs_after (n m : Z) (idxs : list Z) : list Z :=
  filter (fun i => (m <? i) && negb (existsb (Z.eqb i) idxs)) (zrange n).
(* a tuple over all legs becomes a tuple over the legs of the fused tensor; v is the entry of the fused leg *)
Definition fuse_pos {A : Type} (d : A) (n m : Z) (idxs : list Z) (v : A) (l : list A) : list A :=
  firstn (Z.to_nat m) l ++ v :: pick d (legs_after n m idxs) l.

Lemma pick_firstn : forall A (d : A) k l, 0 <= k <= Z.of_nat (length l) -> pick d (zrange k) l = firstn (Z.to_nat k) l.
Proof.
  intros A d k l H. rewrite <- (firstn_skipn (Z.to_nat k) l) at 1. apply pick_front. rewrite firstn_length. lia.
Qed.
Lemma min_is : forall idxs m, In m idxs -> (forall i, In i idxs -> m <= i) -> min_idx idxs = m.
Proof.
  intros idxs m Hm Hl. destruct (min_idx_spec idxs) as [A B]; [intros ->; destruct Hm|]. specialize (B _ Hm). specialize (Hl _ A). lia.
Qed.
Lemma rest_after : forall n idxs, 0 <= min_idx idxs < n -> rest n idxs = legs_after n (min_idx idxs) idxs.
Proof.
  intros n idxs H. unfold rest, legs_after. set (m := min_idx idxs) in *.
  rewrite (zrange_split m n H). rewrite filter_app. cbn [filter]. rewrite Z.ltb_irrefl. cbn [andb].
  rewrite (filter_nil _ _ (zrange m)).
  - cbn [app]. apply filter_ext_in'. intros x Hx. apply in_map_iff in Hx. destruct Hx as (y & <- & Hy). apply in_zrange in Hy.
    destruct (Z.ltb_spec m (m + 1 + y)); [reflexivity|lia].
  - intros x Hx. apply in_zrange in Hx. destruct (Z.ltb_spec m x); [lia|reflexivity].
Qed.
Lemma fuse_pos_eq : forall A (d : A) n idxs v l, 0 <= min_idx idxs < n -> Z.of_nat (length l) = n ->
  pick d (zrange (min_idx idxs)) l ++ v :: pick d (rest n idxs) l = fuse_pos d n (min_idx idxs) idxs v l.
Proof. intros A d n idxs v l H Hl. unfold fuse_pos. rewrite rest_after, pick_firstn by (auto; lia). reflexivity. Qed.

Section Fused.
Variable R : CRing.
Variable L : Label.
Add Ring RR5 : (rth R).
Notation tensor := (list (list L * nd R)).
Notation ll := (q0 L).

(* every block whose fused label is in the layout finds its labels there, with its own shape *)
Definition has_room (idxs : list Z) (info : dict L Z * finfo_t L) (pat : list ascii) (t : tensor) : Prop :=
  forall b, In b t -> let q := signed_total L pat (pick ll idxs (fst b)) in
  In q (map fst (fst info)) -> exists k, In (pick ll idxs (fst b), (k, pick 0 idxs (nshape (snd b)))) (entries L info q).
(* no block is left out *)
Definition keeps_all (idxs : list Z) (info : dict L Z * finfo_t L) (pat : list ascii) (t : tensor) : Prop :=
  forall b, In b t -> In (signed_total L pat (pick ll idxs (fst b))) (map fst (fst info)).

Lemma fuse_facts_t : forall n dm (t : tensor) axes info pat m,
  let idxs := map (leg n) axes in
  axes <> [] -> NoDup idxs -> (forall i, In i idxs -> 0 <= i < n) ->
  In m idxs -> (forall i, In i idxs -> m <= i) ->
  wf_tensor R L n dm t -> NoDup (map fst t) -> layout_ok L info pat -> has_room idxs info pat t ->
  exists r, sp_fuse R L axes info pat t = Some r /\ NoDup (map fst r)
  /\ (forall c, In c r -> exists b, In b t /\
       let q := signed_total L pat (pick ll idxs (fst b)) in
       fst c = fuse_pos ll n m idxs q (fst b) /\ nshape (snd c) = fuse_pos 0 n m idxs (bget L (fst info) q) (nshape (snd b)))
  /\ (forall qs xs k sh, Z.of_nat (length qs) = n -> Z.of_nat (length xs) = n ->
       let q := signed_total L pat (pick ll idxs qs) in
       In (pick ll idxs qs, (k, sh)) (entries L info q) -> in_shape sh (pick 0 idxs xs) ->
       elem R L r (fuse_pos ll n m idxs q qs) (fuse_pos 0 n m idxs (k + ravel sh (pick 0 idxs xs)) xs) = elem R L t qs xs)
  /\ (forall q pre post xp j xq, Z.of_nat (length pre) = m -> Z.of_nat (length xp) = m ->
       (forall sqs k sh, In (sqs, (k, sh)) (entries L info q) -> ~ k <= j < k + prodZ sh) ->
       elem R L r (pre ++ q :: post) (xp ++ j :: xq) = r0 R).
Proof.
  intros n dm t axes info pat m idxs Ha Hn Hr Hm Hl Wt Nt OK Hc.
  assert (Hne: idxs <> []) by (unfold idxs; destruct axes; cbn; congruence).
  pose proof (min_is idxs m Hm Hl) as Em. pose proof (m_range n idxs Hne Hr) as Hmr.
  destruct t as [|b0 t0].
  { exists []. split; [unfold sp_fuse; cbn [fuse_blocks fuse_groups]; destruct (norm_axes _ axes); reflexivity|].
    split; [constructor|]. split; [intros c []|]. split; reflexivity. }
  set (t := b0 :: t0) in *.
  destruct (fuse_main R L n idxs Hne Hn Hr info pat OK dm t Wt Nt Hc) as (r & F1 & F2 & F3 & F4 & F5).
  exists r. split; [|split; [exact F3|split; [|split]]].
  - unfold sp_fuse. rewrite (ndim_wf R L n dm t Wt) by discriminate. rewrite norm_axes_leg. fold idxs. destruct idxs as [|i0 i1] eqn:Ei; [congruence|].
    rewrite <- Ei in *. rewrite F1. exact F2.
  - intros c Hcr. destruct (F4 c Hcr) as (b & Hb & E1 & E2 & _). destruct (wf_shape_length R L n dm t b Wt Hb) as [L1 L2].
    exists b. split; [auto|]. rewrite !fuse_pos_eq in * by auto. rewrite Em in *. auto.
  - intros qs xs k sh Hq Hx q He Hs. rewrite <- Em. rewrite <- !fuse_pos_eq by (auto; lia). 
    rewrite F5 by (rewrite pick_length, zrange_length; lia).
    apply (pieces_value R L n idxs Hne Hn Hr info pat OK dm t Wt Hc qs xs k sh Hq Hx He Hs).
  - intros q pre post xp j xq Hp Hx Hj. rewrite F5 by lia. eapply (pieces_zero R L n idxs Hr info pat OK t Hc _ q); [|lia|exact Hj].
    exists pre, post. split; [reflexivity|lia].
Qed.
End Fused.

(* where every element goes, and zeros elsewhere *)
Theorem c16_fuse_places_elements :
  forall (R : CRing) (L : Label) n dm (t : list (list L * nd R)) axes info pat m,
  let idxs := map (leg n) axes in
  axes <> [] -> NoDup idxs -> (forall i, In i idxs -> 0 <= i < n) ->
  In m idxs -> (forall i, In i idxs -> m <= i) ->
  wf_tensor R L n dm t -> NoDup (map fst t) -> layout_ok L info pat -> has_room R L idxs info pat t ->
  exists r, sp_fuse R L axes info pat t = Some r /\ NoDup (map fst r)
  /\ (forall qs xs k sh, Z.of_nat (length qs) = n -> Z.of_nat (length xs) = n ->
       let q := signed_total L pat (pick (q0 L) idxs qs) in
       In (pick (q0 L) idxs qs, (k, sh)) (entries L info q) -> in_shape sh (pick 0 idxs xs) ->
       elem R L r (fuse_pos (q0 L) n m idxs q qs) (fuse_pos 0 n m idxs (k + ravel sh (pick 0 idxs xs)) xs) = elem R L t qs xs)
  /\ (forall q pre post xp j xq, Z.of_nat (length pre) = m -> Z.of_nat (length xp) = m ->
       (forall sqs k sh, In (sqs, (k, sh)) (entries L info q) -> ~ k <= j < k + prodZ sh) ->
       elem R L r (pre ++ q :: post) (xp ++ j :: xq) = r0 R).
Proof.
  intros R L n dm t axes info pat m idxs Ha Hn Hr Hm Hl Wt Nt OK Hc.
  destruct (fuse_facts_t R L n dm t axes info pat m Ha Hn Hr Hm Hl Wt Nt OK Hc) as (r & A & B & _ & C & D). exists r. auto.
Qed.
Print Assumptions c16_fuse_places_elements.

(* adjacent legs i, i+1, ..., i+k-1 *)
Definition adjacent (i k : Z) : list Z := map (fun x => i + x) (zrange k).
Lemma pick_adjacent : forall A (d : A) i k (l : list A), 0 <= i -> 0 <= k -> i + k <= Z.of_nat (length l) ->
  pick d (adjacent i k) l = firstn (Z.to_nat k) (skipn (Z.to_nat i) l).
Proof.
  intros A d i k l Hi Hk Hl.
  assert (E: l = firstn (Z.to_nat i) l ++ firstn (Z.to_nat k) (skipn (Z.to_nat i) l) ++ skipn (Z.to_nat k) (skipn (Z.to_nat i) l)) by now rewrite !firstn_skipn.
  apply nth_ext with (d := d) (d' := d).
  - unfold adjacent. rewrite pick_length, map_length, zrange_length, firstn_length, skipn_length. lia.
  - intros x Hx. unfold adjacent in *. rewrite pick_length, map_length, zrange_length in Hx.
    unfold pick. rewrite map_map.
    rewrite nth_indep with (d' := (fun y => nth (Z.to_nat (i + y)) l d) 0) by (rewrite map_length, zrange_length; lia).
    rewrite (map_nth (fun y => nth (Z.to_nat (i + y)) l d)). rewrite nth_zrange by lia. rewrite E at 1.
    rewrite app_nth2 by (rewrite firstn_length; lia). rewrite firstn_length.
    rewrite app_nth1 by (rewrite firstn_length, skipn_length; lia). f_equal. lia.
Qed.
Lemma after_adjacent : forall A (d : A) n i k (l : list A), 0 <= i -> 0 < k -> i + k <= n -> Z.of_nat (length l) = n ->
  pick d (legs_after n i (adjacent i k)) l = skipn (Z.to_nat (i + k)) l.
Proof.
  intros A d n i k l Hi Hk Hl Hn.
  assert (E: legs_after n i (adjacent i k) = map (fun x => (i + k) + x) (zrange (n - (i + k)))).
  { unfold legs_after. replace n with ((i + k) + (n - (i + k))) at 1 by lia. rewrite zrange_add by lia. rewrite filter_app.
    rewrite filter_nil, filter_all.
    - reflexivity.
    - intros x Hx. apply in_map_iff in Hx. destruct Hx as (y & <- & Hy). apply in_zrange in Hy. apply andb_true_iff. split; [apply Z.ltb_lt; lia|].
      apply negb_true_iff. apply zmem_false. unfold adjacent. rewrite in_map_iff. intros (z & Ez & Hz). apply in_zrange in Hz. lia.
    - intros x Hx. apply in_zrange in Hx. destruct (Z.ltb_spec i x); [|reflexivity]. cbn [andb]. apply negb_false_iff. apply existsb_exists.
      exists x. split; [|apply Z.eqb_refl]. unfold adjacent. apply in_map_iff. exists (x - i). rewrite in_zrange. lia. }
  rewrite E. change (map (fun x => i + k + x) (zrange (n - (i + k)))) with (adjacent (i + k) (n - (i + k))).
  rewrite pick_adjacent by lia. apply firstn_all2. rewrite skipn_length. lia.
Qed.

Lemma adjacent_facts : forall n i k, 0 <= i -> 0 < k -> i + k <= n ->
  NoDup (adjacent i k) /\ (forall x, In x (adjacent i k) -> i <= x < i + k) /\ In i (adjacent i k).
Proof.
  intros n i k Hi Hk Hl. split; [|split].
  - unfold adjacent. apply FinFun.Injective_map_NoDup; [intros x y; lia|apply zrange_nodup].
  - intros x Hx. apply in_map_iff in Hx. destruct Hx as (y & <- & Hy). apply in_zrange in Hy. lia.
  - apply in_map_iff. exists 0. rewrite in_zrange. lia.
Qed.
Lemma leg_nonneg : forall n l, (forall x, In x l -> 0 <= x) -> map (leg n) l = l.
Proof.
  induction l as [|x l IH]; intros H; [reflexivity|]. cbn [map]. rewrite IH by (intros; apply H; now right). unfold leg.
  specialize (H x (or_introl eq_refl)). destruct (Z.ltb_spec x 0); [lia|reflexivity].
Qed.
Lemma skipn_add : forall A (i k : nat) (l : list A), skipn k (skipn i l) = skipn (i + k) l.
Proof. induction i as [|i IH]; intros k l; [reflexivity|]. destruct l; cbn; [now rewrite skipn_nil|apply IH]. Qed.
Lemma split3 : forall A (i k : nat) (l : list A), l = firstn i l ++ firstn k (skipn i l) ++ skipn (i + k) l.
Proof. intros. rewrite <- (firstn_skipn i l) at 1. f_equal. rewrite <- (firstn_skipn k (skipn i l)) at 1. f_equal. apply skipn_add. Qed.

Theorem c16_unfuse_restores :
  forall (R : CRing) (L : Label) n dm (t : list (list L * nd R)) i k info pat,
  0 <= i -> 0 < k -> i + k <= n -> let idxs := adjacent i k in
  wf_tensor R L n dm t -> NoDup (map fst t) -> layout_ok L info pat ->
  has_room R L idxs info pat t -> keeps_all R L idxs info pat t ->
  (forall q sqs e, In (sqs, e) (entries L info q) -> Z.of_nat (length sqs) = k /\ length (snd e) = length sqs) ->
  exists r t', sp_fuse R L idxs info pat t = Some r /\ sp_unfuse R L (Z.to_nat i) info r = Some t' /\
    forall qs xs, Z.of_nat (length qs) = n -> Z.of_nat (length xs) = n -> elem R L t' qs xs = elem R L t qs xs.
Proof.
  intros R L n dm t i k info pat Hi Hk Hl idxs Wt Nt OK Hc Hk' Hlen.
  destruct (adjacent_facts n i k Hi Hk Hl) as (A1 & A2 & A3). fold idxs in A1, A2, A3.
  assert (El: map (leg n) idxs = idxs) by (apply leg_nonneg; intros x Hx; specialize (A2 x Hx); lia).
  destruct (fuse_facts_t R L n dm t idxs info pat i) as (r & F1 & F2 & F3 & F4 & F5); rewrite ?El; auto.
  { intros ->. destruct A3. } { intros x Hx. specialize (A2 x Hx). lia. } { intros x Hx. specialize (A2 x Hx). lia. }
  rewrite El in F3, F4.
  assert (Lr: forall c, In c r -> length (fst c) = Z.to_nat (n - k + 1) /\ length (nshape (snd c)) = Z.to_nat (n - k + 1)).
  { intros c Hcr. destruct (F3 c Hcr) as (b & Hb & E1 & E2). destruct (wf_shape_length R L n dm t b Wt Hb) as [L1 L2].
    rewrite E1, E2. unfold fuse_pos, idxs. rewrite !after_adjacent by auto. rewrite !app_length. cbn [length]. rewrite !firstn_length, !skipn_length. lia. }
  assert (Ni: forall A (d : A) v l, Z.of_nat (length l) = n -> nth (Z.to_nat i) (fuse_pos d n i idxs v l) d = v).
  { intros A d v l Hll. unfold fuse_pos. rewrite app_nth2 by (rewrite firstn_length; lia). rewrite firstn_length.
    replace (Z.to_nat i - _)%nat with 0%nat by lia. reflexivity. }
  destruct (unfuse_succeeds R L (Z.to_nat i) info pat r OK) as (t' & Et').
  { intros c x Hcr Hx. destruct (F3 c Hcr) as (b & Hb & E1 & E2). destruct (wf_shape_length R L n dm t b Wt Hb) as [L1 L2].
    rewrite E1, Ni in Hx by auto. rewrite E2, Ni by auto. unfold bget. now rewrite Hx. }
  exists r, t'. split; [exact F1|]. split; [exact Et'|]. intros qs xs Hq Hx.
  set (pre := firstn (Z.to_nat i) qs). set (sqs := firstn (Z.to_nat k) (skipn (Z.to_nat i) qs)). set (post := skipn (Z.to_nat (i + k)) qs).
  set (xp := firstn (Z.to_nat i) xs). set (ys := firstn (Z.to_nat k) (skipn (Z.to_nat i) xs)). set (xq := skipn (Z.to_nat (i + k)) xs).
  assert (Eq: qs = pre ++ sqs ++ post) by (unfold pre, sqs, post; rewrite Z2Nat.inj_add by lia; apply split3).
  assert (Ex: xs = xp ++ ys ++ xq) by (unfold xp, ys, xq; rewrite Z2Nat.inj_add by lia; apply split3).
  assert (Lpre: length pre = Z.to_nat i) by (unfold pre; rewrite firstn_length; lia).
  assert (Lxp: length xp = Z.to_nat i) by (unfold xp; rewrite firstn_length; lia).
  assert (Lsqs: length sqs = Z.to_nat k) by (unfold sqs; rewrite firstn_length, skipn_length; lia).
  assert (Lys: length ys = Z.to_nat k) by (unfold ys; rewrite firstn_length, skipn_length; lia).
  assert (Lpost: length post = (Z.to_nat (n - k + 1) - 1 - Z.to_nat i)%nat) by (unfold post; rewrite skipn_length; lia).
  assert (Ps: pick (q0 L) idxs qs = sqs) by (apply pick_adjacent; lia).
  assert (Py: pick 0 idxs xs = ys) by (apply pick_adjacent; lia).
  set (q := signed_total L pat sqs).
  destruct (in_dec (list_eq_dec' L) sqs (map fst (entries L info q))) as [Hin|Hnin].
  - apply in_map_iff in Hin. destruct Hin as ([sqs' [o sh]] & Es & He). cbn in Es. subst sqs'.
    destruct (Hlen _ _ _ He) as [_ Lsh]. cbn [snd] in Lsh. 
    rewrite Eq at 1. rewrite Ex at 1.
    rewrite (unfuse_elem R L (Z.to_nat i) info pat (Z.to_nat (n - k + 1)) r t' q sqs o sh pre post xp ys xq) by (auto; lia).
    destruct (in_shapeb sh ys) eqn:Ei.
    + apply in_shapeb_spec in Ei. specialize (F4 qs xs o sh Hq Hx). cbv zeta in F4. rewrite Ps, Py in F4. specialize (F4 He Ei).
      unfold fuse_pos, idxs in F4. rewrite !after_adjacent in F4 by auto. exact F4.
    + symmetry. unfold elem. apply bsum_zero. intros b Hb. destruct (tup_eqb_spec L (fst b) qs) as [E|]; [|reflexivity].
      apply nget_out. intro Hs. specialize (Hk' b Hb). destruct (Hc b Hb Hk') as (o' & Ho'). rewrite E, Ps in Ho'. fold q in Ho'.
      pose proof (in_dget (tup_eqb L) (tup_eqb_spec L) _ _ _ (lo_keys _ _ _ OK q) Ho') as G1.
      pose proof (in_dget (tup_eqb L) (tup_eqb_spec L) _ _ _ (lo_keys _ _ _ OK q) He) as G2. rewrite G1 in G2. injection G2 as _ Esh.
      destruct (wf_shape_length R L n dm t b Wt Hb) as [L1 L2].
      assert (Hs': in_shape sh ys).
      { rewrite <- Esh, <- Py. apply in_shape_pick; auto. intros x Hxx. specialize (A2 x Hxx). lia. }
      apply in_shapeb_spec in Hs'. congruence.
  - rewrite Eq at 1. rewrite (unfuse_absent R L (Z.to_nat i) info (Z.to_nat (n - k + 1)) r t' sqs pre post xs); auto; [|lia|].
    + symmetry. apply elem_absent. intro Hin. apply in_map_iff in Hin. destruct Hin as (b & E & Hb). apply Hnin.
      destruct (Hc b Hb (Hk' b Hb)) as (o' & Ho'). rewrite E, Ps in Ho'. fold q in Ho'. apply in_map_iff. eexists. split; [|exact Ho']. reflexivity.
    + intros q' Hin'. apply Hnin. cut (q' = q); [intros <-; exact Hin'|]. apply in_map_iff in Hin'. destruct Hin' as ([s' [o sh]] & Es & He). cbn in Es. subst s'.
      symmetry. apply (lo_sum _ _ _ OK _ _ _ _ He).
Qed.
Print Assumptions c16_unfuse_restores.

(** *** sum of squares *)
Definition sum_sq (R : CRing) (L : Label) (t : list (list L * nd R)) : R := bsum t (fun b => nd_sq (snd b)).
Section Sq.
Variable R : CRing.
Variable L : Label.
Add Ring RR6 : (rth R).
Notation tensor := (list (list L * nd R)).
Definition positions (t : tensor) : list (list L * list Z) := flat_map (fun b => map (pair (fst b)) (all_idx (nshape (snd b)))) t.
Lemma all_idx_nodup' : forall sh, NoDup (all_idx sh).
Proof.
  induction sh as [|s sh IH]; cbn [all_idx]; [repeat constructor; intros []|]. apply NoDup_flat_map; [apply zrange_nodup| |].
  - intros x _. apply FinFun.Injective_map_NoDup; [intros a b; congruence|auto].
  - intros x y z _ _ Hx Hy. apply in_map_iff in Hx, Hy. destruct Hx as (? & <- & _), Hy as (? & E & _). congruence.
Qed.
Lemma in_positions : forall t p, In p (positions t) <-> exists b, In b t /\ fst p = fst b /\ in_shape (nshape (snd b)) (snd p).
Proof.
  intros t [q x]. unfold positions. rewrite in_flat_map. split.
  - intros (b & Hb & Hp). apply in_map_iff in Hp. destruct Hp as (y & E & Hy). injection E as <- <-. apply in_all_idx in Hy. exists b. auto.
  - intros (b & Hb & E & Hs). exists b. split; auto. cbn in *. subst q. apply in_map. now apply in_all_idx.
Qed.
Lemma positions_nodup : forall t : tensor, NoDup (map fst t) -> NoDup (positions t).
Proof.
  intros t Hn. unfold positions. apply NoDup_flat_map.
  - eapply NoDup_map_inv; eauto.
  - intros b _. apply FinFun.Injective_map_NoDup; [intros a c; congruence|apply all_idx_nodup'].
  - intros b c z Hb Hc Hz Hz'. apply in_map_iff in Hz, Hz'. destruct Hz as (x & <- & _), Hz' as (y & E & _). injection E as E _.
    destruct b as [qb vb], c as [qc vc]. cbn in E. subst qc. f_equal.
    pose proof (in_dget (tup_eqb L) (tup_eqb_spec L) t qb vb Hn Hb). pose proof (in_dget (tup_eqb L) (tup_eqb_spec L) t qb vc Hn Hc). congruence.
Qed.
Lemma sum_sq_positions : forall t, NoDup (map fst t) ->
  sum_sq R L t = bsum (positions t) (fun p => rmul R (elem R L t (fst p) (snd p)) (elem R L t (fst p) (snd p))).
Proof.
  intros t Hn. unfold positions. rewrite bsum_flat_map. unfold sum_sq. apply bsum_ext. intros [q v] Hb. cbn [fst snd]. rewrite bsum_map. unfold nd_sq.
  apply bsum_ext. intros x Hx. apply in_all_idx in Hx. cbn [fst snd]. rewrite elem_dget by auto.
  rewrite (in_dget (tup_eqb L) (tup_eqb_spec L) t q v Hn Hb). rewrite nget_in by auto. reflexivity.
Qed.
Lemma NoDup_map_inj : forall X Y (f : X -> Y) l, NoDup l -> (forall x y, In x l -> In y l -> f x = f y -> x = y) -> NoDup (map f l).
Proof.
  induction 1 as [|x l Hx Hn IH]; intros H; cbn [map]; constructor.
  - intro Hi. apply in_map_iff in Hi. destruct Hi as (y & E & Hy). apply Hx. rewrite (H x y); auto; [now left|now right].
  - apply IH. intros; apply H; auto; now right.
Qed.
(* sums over two sets agree if the function vanishes off their intersection *)
Lemma bsum_same : forall X (dec : forall a b : X, {a = b} + {a <> b}) (a b : list X) (f : X -> R), NoDup a -> NoDup b ->
  (forall x, In x a -> ~ In x b -> f x = r0 R) -> (forall x, In x b -> ~ In x a -> f x = r0 R) -> bsum a f = bsum b f.
Proof.
  assert (G: forall X (dec : forall a b : X, {a = b} + {a <> b}) (a b : list X) (f : X -> R), 
    (forall x, In x a -> ~ In x b -> f x = r0 R) -> bsum a f = bsum (filter (fun x => if in_dec dec x b then true else false) a) f).
  { intros X dec a b f H. rewrite bsum_filter. apply bsum_ext. intros x Hx. destruct (in_dec dec x b); auto. }
  intros X dec a b f Na Nb H1 H2. rewrite (G X dec a b f H1), (G X dec b a f H2). apply bsum_perm.
  apply NoDup_Permutation; try now apply NoDup_filter. intros x. rewrite !filter_In.
  destruct (in_dec dec x b), (in_dec dec x a); intuition; try discriminate.
Qed.
Lemma sq_zero : rmul R (r0 R) (r0 R) = r0 R.
Proof. ring. Qed.
Lemma elem_outside : forall (t : tensor) qs xs, ~ In (qs, xs) (positions t) -> elem R L t qs xs = r0 R.
Proof.
  intros t qs xs H. unfold elem. apply bsum_zero. intros b Hb. destruct (tup_eqb_spec L (fst b) qs) as [E|]; [|reflexivity].
  apply nget_out. intro Hs. apply H. apply in_positions. exists b. cbn. auto.
Qed.
End Sq.

Theorem c16_fuse_preserves_squares :
  forall (R : CRing) (L : Label) n dm (t : list (list L * nd R)) axes info pat r,
  let idxs := map (leg n) axes in
  axes <> [] -> NoDup idxs -> (forall i, In i idxs -> 0 <= i < n) ->
  wf_tensor R L n dm t -> NoDup (map fst t) -> layout_ok L info pat -> has_room R L idxs info pat t -> keeps_all R L idxs info pat t ->
  (forall q sqs e, In (sqs, e) (entries L info q) -> length sqs = length idxs /\ length (snd e) = length sqs) ->
  sp_fuse R L axes info pat t = Some r -> sum_sq R L r = sum_sq R L t.
Proof.
  intros R L n dm t axes info pat r idxs Ha Hn Hr Wt Nt OK Hc Hk Hlen Er.
  assert (Hne: idxs <> []) by (unfold idxs; destruct axes; cbn; congruence).
  pose proof (min_idx_spec idxs Hne) as [Hm Hl]. set (m := min_idx idxs) in *. pose proof (m_range n idxs Hne Hr) as Hmr. fold m in Hmr.
  destruct (fuse_facts_t R L n dm t axes info pat m) as (r' & F1 & F2 & F3 & F4 & F5); auto. fold idxs in F3, F4.
  rewrite Er in F1. injection F1 as <-.
  rewrite !sum_sq_positions by auto.
  set (tot qs := signed_total L pat (pick (q0 L) idxs qs)).
  set (off qs := fst (odflt (0, []) (dget (tup_eqb L) (entries L info (tot qs)) (pick (q0 L) idxs qs)))).
  set (shp qs := snd (odflt (0, []) (dget (tup_eqb L) (entries L info (tot qs)) (pick (q0 L) idxs qs)))).
  set (phi := fun p : list L * list Z => (fuse_pos (q0 L) n m idxs (tot (fst p)) (fst p), fuse_pos 0 n m idxs (off (fst p) + ravel (shp (fst p)) (pick 0 idxs (snd p))) (snd p))).
  assert (Ent: forall qs k sh, In (pick (q0 L) idxs qs, (k, sh)) (entries L info (tot qs)) -> off qs = k /\ shp qs = sh).
  { intros qs k sh He. pose proof (in_dget (tup_eqb L) (tup_eqb_spec L) _ _ _ (lo_keys _ _ _ OK (tot qs)) He) as G. unfold ents in G. unfold off, shp.
    fold (entries L info (tot qs)) in G. unfold entries in *. destruct (dget (qeqb L) (snd info) (tot qs)) as [es|]; [|discriminate]. cbn [odflt] in G. rewrite G. auto. }
  assert (Pt: forall p, In p (positions R L t) -> Z.of_nat (length (fst p)) = n /\ Z.of_nat (length (snd p)) = n /\
     exists b, In b t /\ fst b = fst p /\ in_shape (nshape (snd b)) (snd p) /\
     In (pick (q0 L) idxs (fst p), (off (fst p), shp (fst p))) (entries L info (tot (fst p))) /\ shp (fst p) = pick 0 idxs (nshape (snd b)) /\ in_shape (shp (fst p)) (pick 0 idxs (snd p))).
  { intros p Hp. apply in_positions in Hp. destruct Hp as (b & Hb & Eb & Hs). destruct (wf_shape_length R L n dm t b Wt Hb) as [L1 L2].
    split; [now rewrite Eb|]. split; [rewrite (in_shape_length _ _ Hs); auto|]. exists b.
    destruct (Hc b Hb (Hk b Hb)) as (k & He). rewrite <- Eb in He. destruct (Ent _ _ _ He) as [E1 E2]. rewrite E1, E2.
    repeat split; auto. apply in_shape_pick; auto. intros x Hx. specialize (Hr x Hx). lia. }
  transitivity (bsum (map phi (positions R L t)) (fun p => rmul R (elem R L r (fst p) (snd p)) (elem R L r (fst p) (snd p)))).
  2:{ rewrite bsum_map. apply bsum_ext. intros p Hp. destruct (Pt p Hp) as (A1 & A2 & b & Hb & Eb & Hs & He & Esh & Hs').
      unfold phi. cbn [fst snd]. pose proof (F4 (fst p) (snd p) (off (fst p)) (shp (fst p)) A1 A2) as F. cbv zeta in F. fold (tot (fst p)) in F.
      rewrite F by auto. reflexivity. }
  assert (Inj: forall qs xs qs' xs' v w v' w', Z.of_nat (length qs) = n -> Z.of_nat (length qs') = n ->
     fuse_pos (q0 L) n m idxs v qs = fuse_pos (q0 L) n m idxs v' qs' -> pick (q0 L) idxs qs = pick (q0 L) idxs qs' ->
     Z.of_nat (length xs) = n -> Z.of_nat (length xs') = n ->
     fuse_pos 0 n m idxs w xs = fuse_pos 0 n m idxs w' xs' -> pick 0 idxs xs = pick 0 idxs xs' -> qs = qs' /\ xs = xs').
  { assert (G: forall A (d : A) l l' v v', Z.of_nat (length l) = n -> Z.of_nat (length l') = n -> fuse_pos d n m idxs v l = fuse_pos d n m idxs v' l' ->
      pick d idxs l = pick d idxs l' -> l = l').
    { intros A d l l' v v' H1 H2 E1 E2. apply (pick_inj n (new_perm n idxs)) with (d := d); auto; [now apply new_perm_perm|].
      rewrite new_perm_eq by auto. unfold m in E1. rewrite <- !fuse_pos_eq in E1 by auto. apply app_inj_len in E1; [|now rewrite !pick_length].
      destruct E1 as [E1 E3]. injection E3 as _ E3. unfold pick in *. rewrite !map_app. congruence. }
    intros. split; eapply G; eauto. }
  symmetry. apply bsum_same.
  - decide equality; [apply list_eq_dec; apply Z.eq_dec|apply list_eq_dec'].
  - (* injective *)
    apply NoDup_map_inj; [now apply positions_nodup|]. intros p p' Hp Hp' E.
    destruct (Pt p Hp) as (A1 & A2 & b & Hb & Eb & Hs & He & Esh & Hs'). destruct (Pt p' Hp') as (B1 & B2 & b' & Hb' & Eb' & Hs2 & He2 & Esh2 & Hs2').
    unfold phi in E. injection E as E1 E2.
    assert (Et: tot (fst p) = tot (fst p') /\ off (fst p) + ravel (shp (fst p)) (pick 0 idxs (snd p)) = off (fst p') + ravel (shp (fst p')) (pick 0 idxs (snd p'))).
    { unfold fuse_pos in E1, E2. apply app_inj_len in E1; [|rewrite !firstn_length; lia]. apply app_inj_len in E2; [|rewrite !firstn_length; lia].
      destruct E1 as [_ E1], E2 as [_ E2]. injection E1 as E1 _. injection E2 as E2 _. auto. }
    destruct Et as [Et Eo]. pose proof (ravel_range _ _ Hs'). pose proof (ravel_range _ _ Hs2').
    assert (Es: pick (q0 L) idxs (fst p) = pick (q0 L) idxs (fst p')).
    { rewrite <- Et in He2. eapply (lo_disj _ _ _ OK _ _ _ _ _ _ _ (off (fst p) + ravel (shp (fst p)) (pick 0 idxs (snd p))) He He2); lia. }
    assert (Eof: off (fst p) = off (fst p') /\ shp (fst p) = shp (fst p')) by (unfold off, shp, tot; now rewrite Es).
    destruct Eof as [Eo1 Eo2].
    assert (Ey: pick 0 idxs (snd p) = pick 0 idxs (snd p')).
    { apply (ravel_inj (shp (fst p))); auto; [now rewrite Eo2|]. rewrite Eo2 at 2. lia. }
    destruct (Inj _ _ _ _ _ _ _ _ A1 B1 E1 Es A2 B2 E2 Ey). destruct p, p'; cbn in *; congruence.
  - now apply positions_nodup.
  - intros p _ Hp. rewrite elem_outside; [apply sq_zero|]. destruct p; exact Hp.
  - intros [nq nx] Hp Hout. cbn [fst snd].
    cut (elem R L r nq nx = r0 R); [intros ->; apply sq_zero|].
    apply in_positions in Hp. destruct Hp as (c & Hcr & Ec & Hs). cbn [fst snd] in Ec, Hs.
    destruct (F3 c Hcr) as (b & Hb & E1 & E2). destruct (wf_shape_length R L n dm t b Wt Hb) as [L1 L2]. rewrite E1 in Ec. rewrite E2 in Hs.
    set (q := signed_total L pat (pick (q0 L) idxs (fst b))) in *.
    unfold fuse_pos in Ec, Hs. set (pre := firstn (Z.to_nat m) (fst b)) in *. set (post := pick (q0 L) (legs_after n m idxs) (fst b)) in *.
    pose proof (in_shape_length _ _ Hs) as Hsl. rewrite app_length in Hsl. cbn [length] in Hsl. rewrite firstn_length, pick_length in Hsl.
    destruct (list_mid Z 0 (Z.to_nat m) nx) as (xp & j & xq & Ex & Lxp & Lxq); [lia|].
    assert (Lpre: length pre = Z.to_nat m) by (unfold pre; rewrite firstn_length; lia).
    assert (Lpost: length post = length (legs_after n m idxs)) by (unfold post; apply pick_length).
    assert (Lxq': length xq = length (legs_after n m idxs)) by lia. clear Lxq.
    destruct (existsb (fun e => (fst (snd e) <=? j) && (j <? fst (snd e) + prodZ (snd (snd e)))) (entries L info q)) eqn:Ex2.
    + apply existsb_exists in Ex2. destruct Ex2 as ([sqs [k sh]] & He & Hj). cbn [fst snd] in Hj. apply andb_true_iff in Hj.
      rewrite Z.leb_le, Z.ltb_lt in Hj. destruct (Hlen _ _ _ He) as [Ls Lsh]. cbn [snd] in Lsh.
      assert (Hpos: Forall (fun s => 0 <= s) sh) by (eapply Forall_impl; [|apply (lo_pos _ _ _ OK _ _ _ _ He)]; intros; cbn in *; lia).
      pose proof (unravel_in_shape sh (j - k) ltac:(lia) Hpos) as Hu.
      pose proof (new_perm_perm n idxs Hne Hn Hr) as Pp.
      assert (Lnp: length (new_perm n idxs) = (Z.to_nat m + length idxs + length (legs_after n m idxs))%nat).
      { rewrite new_perm_eq by auto. rewrite !app_length, zrange_length, rest_after by auto. fold m. lia. }
      set (qs := merge (q0 L) n (new_perm n idxs) (pre ++ sqs ++ post) []).
      set (xs := merge 0 n (new_perm n idxs) (xp ++ unravel sh (j - k) ++ xq) []).
      assert (Lq: Z.of_nat (length qs) = n) by (unfold qs; rewrite merge_length; lia).
      assert (Lx: Z.of_nat (length xs) = n) by (unfold xs; rewrite merge_length; lia).
      assert (Pq: pick (q0 L) (new_perm n idxs) qs = pre ++ sqs ++ post).
      { apply pick_merge_c; [now apply (perm_nodup n)|now apply perm_range|]. rewrite !app_length, Lnp. lia. }
      assert (Px: pick 0 (new_perm n idxs) xs = xp ++ unravel sh (j - k) ++ xq).
      { apply pick_merge_c; [now apply (perm_nodup n)|now apply perm_range|]. rewrite !app_length, Lnp, (in_shape_length _ _ Hu). lia. }
      assert (Sp: forall A (d : A) l a b c, pick d (new_perm n idxs) l = a ++ b ++ c -> Z.of_nat (length l) = n -> length a = Z.to_nat m -> length b = length idxs ->
         firstn (Z.to_nat m) l = a /\ pick d idxs l = b /\ pick d (legs_after n m idxs) l = c).
      { intros A d l a0 b0 c0 E Hll La Lb. rewrite new_perm_eq in E by auto. rewrite rest_after in E by auto. fold m in E. unfold pick in E. rewrite !map_app in E.
        fold (pick d (zrange m) l) in E. fold (pick d idxs l) in E. fold (pick d (legs_after n m idxs) l) in E.
        apply app_inj_len in E; [|rewrite pick_length, zrange_length; lia]. destruct E as [Ea E]. apply app_inj_len in E; [|rewrite pick_length; lia].
        destruct E as [Eb Ec']. rewrite <- Ea. rewrite pick_firstn by lia. auto. }
      destruct (Sp _ _ _ _ _ _ Pq Lq Lpre Ls) as (Q1 & Q2 & Q3).
      destruct (Sp _ _ _ _ _ _ Px Lx Lxp) as (X1 & X2 & X3); [rewrite (in_shape_length _ _ Hu); lia|].
      assert (Tq: tot qs = q) by (unfold tot; rewrite Q2; apply (lo_sum _ _ _ OK _ _ _ _ He)).
      assert (He': In (pick (q0 L) idxs qs, (k, sh)) (entries L info (tot qs))) by (rewrite Tq, Q2; exact He).
      pose proof (F4 qs xs k sh Lq Lx He') as F. rewrite X2 in F. specialize (F Hu). fold (tot qs) in F.
      assert (Enq: fuse_pos (q0 L) n m idxs (tot qs) qs = nq) by (unfold fuse_pos; now rewrite Q1, Q3, Tq).
      assert (Enx: fuse_pos 0 n m idxs (k + ravel sh (unravel sh (j - k))) xs = nx).
      { unfold fuse_pos. rewrite X1, X3, Ex. rewrite ravel_unravel by (auto; lia). f_equal. f_equal. lia. }
      rewrite Enq, Enx in F. rewrite F. apply elem_outside. intro Hp. apply Hout. apply in_map_iff. exists (qs, xs). split; [|exact Hp].
      unfold phi. cbn [fst snd]. destruct (Ent _ _ _ He') as [-> ->]. now rewrite X2, Enq, Enx.
    + rewrite Ec, Ex. apply F5; [lia|lia|]. intros sqs k sh He Hj.
      assert (existsb (fun e : list L * (Z * list Z) => (fst (snd e) <=? j) && (j <? fst (snd e) + prodZ (snd (snd e)))) (entries L info q) = true); [|congruence].
      apply existsb_exists. exists (sqs, (k, sh)). split; [exact He|]. cbn [fst snd]. apply andb_true_iff. rewrite Z.leb_le, Z.ltb_lt. lia.
Qed.
Print Assumptions c16_fuse_preserves_squares.

(** *** the layouts made by kron_sum and tensor_product qualify *)
Section Lay.
Variable L : Label.
Notation st_t := (dict L Z * finfo_t L)%type.
Definition dom_ok (st : st_t) : Prop := forall q, In q (keys (fst st)) -> In q (keys (snd st)).
Lemma keys_dset_in : forall (K V : Type) (eqb : K -> K -> bool) (spec : forall a b, reflect (a = b) (eqb a b)) (d : dict K V) k v x,
  In x (keys (dset eqb d k v)) <-> x = k \/ In x (keys d).
Proof.
  intros K V eqb spec d k v x. induction d as [|[k0 v0] d IH]; cbn [dset].
  - cbn. intuition.
  - destruct (spec k0 k) as [->|N]; cbn [keys map fst In] in *.
    + intuition.
    + fold (keys (dset eqb d k v)). rewrite IH. fold (keys d). intuition.
Qed.
Lemma dom_put : forall st q qls shs, dom_ok st -> dom_ok (fuse_put L st q qls shs).
Proof.
  intros [a b] q qls shs H x. unfold fuse_put, badd, dom_ok in *. cbn [fst snd] in *. 
  intros Hx. apply (keys_dset_in _ _ _ (qeqb_spec L)). apply (keys_dset_in _ _ _ (qeqb_spec L)) in Hx. destruct Hx; auto.
Qed.
Lemma dom_place : forall v st q st', dom_ok st -> kron_place L st q v = Some st' -> dom_ok st'.
Proof.
  induction v as [|[qs shs] v IH]; intros st q st' H E; cbn [kron_place] in E; [now injection E as <-|].
  destruct (dget (tup_eqb L) _ qs) as [[? sh']|].
  - destruct (shape_eqb sh' shs); [|discriminate]. eapply IH; eauto.
  - eapply IH; [|exact E]. now apply dom_put.
Qed.
Lemma dom_loop : forall c st st', dom_ok st -> kron_loop L st c = Some st' -> dom_ok st'.
Proof.
  induction c as [|[q v] c IH]; intros st st' H E; cbn [kron_loop] in E; [now injection E as <-|].
  destruct (kron_place L _ q _) as [s1|] eqn:E1; [|discriminate]. eapply IH; [|exact E]. eapply dom_place; [|exact E1].
  intros x Hx. cbn [fst snd] in *. rewrite (keys_dset_in _ _ _ (qeqb_spec L)). right. now apply H.
Qed.
Lemma dom_product : forall lt infos ref pat, dom_ok (fuse_product L lt infos ref pat).
Proof.
  intros lt infos ref pat. unfold fuse_product. set (l := cart _). assert (G: forall st, dom_ok st -> dom_ok (fold_left (fun st x =>
    if in_ref L ref (fuse_q L pat (map fst x)) then fuse_put L st (fuse_q L pat (map fst x)) (map fst x) (map snd x) else st) l st)).
  { induction l as [|x l IH]; intros st H; cbn [fold_left]; [auto|]. apply IH. destruct (in_ref L ref _); [now apply dom_put|auto]. }
  apply G. intros q [].
Qed.
Lemma kron_layout_ok : forall items pat, same_shape_per_tuple L items ->
  (forall it, In it items -> Forall (fun s => 0 < s) (snd it) /\ prodZ (snd it) < 2 ^ 32) ->
  exists res, kron_sum L items None pat = Some res /\ layout_ok L res pat /\
    forall q qls shs, (exists off, In (qls, (off, shs)) (entries L res q)) <-> In (qls, shs) items /\ signed_total L pat qls = q.
Proof.
  intros items pat Hs Hp. destruct (c11_layout L items None pat Hs) as (res & E & S).
  { intros it Hi. destruct (Hp it Hi) as [A B]. split; [|exact B]. eapply Forall_impl; [|exact A]. intros; cbn in *; lia. }
  exists res. split; [exact E|]. split.
  - constructor.
    + intros q. apply (S q).
    + intros q sqs k sh He. destruct (S q) as (_ & B & _). destruct (proj1 (B sqs sh)) as (_ & C & _); eauto.
    + intros q sqs k sh He. destruct (S q) as (_ & _ & B & _). eapply B. exact He.
    + intros q sqs k sh He. destruct (S q) as (_ & B & _). destruct (proj1 (B sqs sh)) as (C & _); [eauto|]. apply (Hp _ C).
    + intros q sqs k sh sqs' k' sh' i He He' Hi Hi'. destruct (S q) as (_ & _ & _ & _ & B). apply (B _ _ _ _ _ _ _ He He' Hi Hi').
    + intros q. apply (dom_loop _ _ _) with (2 := E). intros x [].
  - intros q qls shs. destruct (S q) as (_ & B & _). rewrite B. cbn [allowed]. tauto.
Qed.
Lemma product_layout_ok : forall lt infos ref pat, Forall (wf L) infos -> fits L infos -> layout_ok L (fuse_product L lt infos ref pat) pat.
Proof.
  intros lt infos ref pat Hw Hf. destruct (c10_combinations_stored_once L lt infos ref pat Hw) as [C N]. destruct (c10_ranges_tile L lt infos ref pat Hw Hf) as (R1 & R2 & R3).
  constructor.
  - exact N.
  - intros q sqs k sh He. destruct (proj1 (C q sqs sh)) as (_ & -> & _); [eauto|reflexivity].
  - intros q sqs k sh He. eapply R1. exact He.
  - intros q sqs k sh He. destruct (proj1 (C q sqs sh)) as (K & _); [eauto|]. eapply combo_pos; eauto.
  - intros q sqs k sh sqs' k' sh' i He He' Hi Hi'. apply (R3 _ _ _ _ _ _ _ _ He He' Hi Hi').
  - apply dom_product.
Qed.
End Lay.

(* no layout given: fuse computes one from the blocks (725-732); it always fits the tensor *)
Theorem c16_default_layout_round_trip :
  forall (R : CRing) (L : Label) n dm (t : list (list L * nd R)) i k pat,
  0 <= i -> 0 < k -> i + k <= n -> let idxs := adjacent i k in
  wf_tensor R L n dm t -> NoDup (map fst t) ->
  (forall b, In b t -> Forall (fun s => 0 < s) (nshape (snd b)) /\ prodZ (pick 0 idxs (nshape (snd b))) < 2 ^ 32) ->
  exists info r t', kron_sum_info R L idxs pat t = Some info /\ sp_fuse R L idxs info pat t = Some r /\
    sp_unfuse R L (Z.to_nat i) info r = Some t' /\ sum_sq R L r = sum_sq R L t /\
    forall qs xs, Z.of_nat (length qs) = n -> Z.of_nat (length xs) = n -> elem R L t' qs xs = elem R L t qs xs.
Proof.
  intros R L n dm t i k pat Hi Hk Hl idxs Wt Nt Hp.
  destruct (adjacent_facts n i k Hi Hk Hl) as (A1 & A2 & A3). fold idxs in A1, A2, A3.
  assert (El: forall n', norm_axes n' idxs = idxs) by (intros n'; rewrite norm_axes_leg; apply leg_nonneg; intros x Hx; specialize (A2 x Hx); lia).
  destruct (kron_layout_ok L (map (fun b => (pick (q0 L) idxs (fst b), pick 0 idxs (nshape (snd b)))) t) pat) as (info & E & OK & In1).
  { intros qs s s' H H'. apply in_map_iff in H, H'. destruct H as (b & Eb & Hb), H' as (b' & Eb' & Hb').
    injection Eb as <- <-. injection Eb' as Eq <-. destruct (Wt b Hb) as [Lb ->]. destruct (Wt b' Hb') as [Lb' ->].
    rewrite !pick_shape_of; auto; try (intros x Hx; specialize (A2 x Hx); lia). now rewrite Eq. }
  { intros it H. apply in_map_iff in H. destruct H as (b & <- & Hb). destruct (Hp b Hb) as [P1 P2]. cbn [snd]. split; [|exact P2].
    apply Forall_forall. intros x Hx. unfold pick in Hx. apply in_map_iff in Hx. destruct Hx as (y & <- & Hy). rewrite Forall_forall in P1. apply P1.
    apply nth_In. destruct (wf_shape_length R L n dm t b Wt Hb). specialize (A2 y Hy). lia. }
  assert (Room: forall b, In b t -> exists o, In (pick (q0 L) idxs (fst b), (o, pick 0 idxs (nshape (snd b)))) (entries L info (signed_total L pat (pick (q0 L) idxs (fst b))))).
  { intros b Hb. apply In1. split; [|reflexivity]. apply in_map_iff. exists b. auto. }
  assert (Hr: has_room R L idxs info pat t) by (intros b Hb q _; apply (Room b Hb)).
  assert (Ka: keeps_all R L idxs info pat t).
  { intros b Hb. destruct (Room b Hb) as (o & Ho). eapply (ents_dom L info pat); [exact OK|exact Ho]. }
  assert (Hlen: forall q sqs e, In (sqs, e) (entries L info q) -> length sqs = length idxs /\ length (snd e) = length sqs).
  { intros q sqs [o sh] He. cbn [snd]. destruct (proj1 (In1 q sqs sh)) as [K _]; [eauto|]. apply in_map_iff in K. destruct K as (b & Eb & _). injection Eb as <- <-. now rewrite !pick_length. }
  assert (Lk: length idxs = Z.to_nat k) by (unfold idxs, adjacent; rewrite map_length; apply zrange_length).
  destruct (c16_unfuse_restores R L n dm t i k info pat Hi Hk Hl Wt Nt OK Hr Ka) as (r & t' & F1 & F2 & F3).
  { intros q sqs e He. destruct (Hlen q sqs e He). split; [lia|auto]. }
  exists info, r, t'. split; [unfold kron_sum_info; rewrite El; exact E|]. split; [exact F1|]. split; [exact F2|]. split; [|exact F3].
  assert (El': map (leg n) idxs = idxs) by (rewrite <- norm_axes_leg; apply El).
  apply (c16_fuse_preserves_squares R L n dm t idxs info pat r); rewrite ?El'; auto.
  - intros E0. rewrite E0 in A3. destruct A3.
  - intros x Hx. specialize (A2 x Hx). lia.
Qed.
Print Assumptions c16_default_layout_round_trip.

(* a layout made by BondFusingInfo.tensor_product from the bond spaces of the fused legs *)
Theorem c16_product_layout_round_trip :
  forall (R : CRing) (L : Label) lt n dm (t : list (list L * nd R)) i k infos pat,
  0 <= i -> 0 < k -> i + k <= n -> let idxs := adjacent i k in
  wf_tensor R L n dm t -> NoDup (map fst t) -> Forall (wf L) infos -> fits L infos ->
  (forall b, In b t -> is_combo L infos (pick (q0 L) idxs (fst b)) (pick 0 idxs (nshape (snd b)))) ->
  length infos = Z.to_nat k ->
  let info := fuse_product L lt infos None pat in
  exists r t', sp_fuse R L idxs info pat t = Some r /\ sp_unfuse R L (Z.to_nat i) info r = Some t' /\ sum_sq R L r = sum_sq R L t /\
    forall qs xs, Z.of_nat (length qs) = n -> Z.of_nat (length xs) = n -> elem R L t' qs xs = elem R L t qs xs.
Proof.
  intros R L lt n dm t i k infos pat Hi Hk Hl idxs Wt Nt Hw Hf Hcb Hli info.
  destruct (adjacent_facts n i k Hi Hk Hl) as (A1 & A2 & A3). fold idxs in A1, A2, A3.
  pose proof (product_layout_ok L lt infos None pat Hw Hf) as OK. fold info in OK.
  destruct (c10_combinations_stored_once L lt infos None pat Hw) as [In1 _]. fold info in In1. cbv zeta in In1.
  assert (Room: forall b, In b t -> exists o, In (pick (q0 L) idxs (fst b), (o, pick 0 idxs (nshape (snd b)))) (entries L info (signed_total L pat (pick (q0 L) idxs (fst b))))).
  { intros b Hb. apply In1. split; [auto|]. split; [reflexivity|exact I]. }
  assert (Hr: has_room R L idxs info pat t) by (intros b Hb q _; apply (Room b Hb)).
  assert (Ka: keeps_all R L idxs info pat t).
  { intros b Hb. destruct (Room b Hb) as (o & Ho). eapply (ents_dom L info pat); [exact OK|exact Ho]. }
  assert (Lk: length idxs = Z.to_nat k) by (unfold idxs, adjacent; rewrite map_length; apply zrange_length).
  assert (Hlen: forall q sqs e, In (sqs, e) (entries L info q) -> length sqs = length idxs /\ length (snd e) = length sqs).
  { intros q sqs [o sh] He. cbn [snd]. destruct (proj1 (In1 q sqs sh)) as (K & _); [eauto|]. destruct K as (_ & K1 & K2). lia. }
  destruct (c16_unfuse_restores R L n dm t i k info pat Hi Hk Hl Wt Nt OK Hr Ka) as (r & t' & F1 & F2 & F3).
  { intros q sqs e He. destruct (Hlen q sqs e He). split; [lia|auto]. }
  exists r, t'. split; [exact F1|]. split; [exact F2|]. split; [|exact F3].
  assert (El': map (leg n) idxs = idxs) by (apply leg_nonneg; intros x Hx; specialize (A2 x Hx); lia).
  apply (c16_fuse_preserves_squares R L n dm t idxs info pat r); rewrite ?El'; auto.
  - intros E0. rewrite E0 in A3. destruct A3.
  - intros x Hx. specialize (A2 x Hx). lia.
Qed.
Print Assumptions c16_product_layout_round_trip.

Example c16_ex :
  let t := [([0; 1; 1], arr [1; 2; 1] [3; 4]); ([1; 0; 1], arr [2; 1; 1] [5; 6]); ([1; 1; 2], arr [2; 2; 1] [1; 2; 7; 8])] in
  exists info r t', kron_sum_info Z_ring U1_label [0; 1] ["+"; "+"]%char t = Some info
  /\ sp_fuse Z_ring U1_label [0; 1] info ["+"; "+"]%char t = Some r /\ dump r = [([1; 1], [4; 1], [3; 4; 5; 6]); ([2; 2], [4; 1], [1; 2; 7; 8])]
  /\ sp_unfuse Z_ring U1_label 0 info r = Some t' /\ dump t' = dump t.
Proof.
  cbv zeta. eexists. eexists. eexists. repeat split; vm_compute; reflexivity.
Qed.
