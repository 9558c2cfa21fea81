(** Lemmas about block-sparse tensors. *)
From Coq Require Import ZArith Bool List Lia Permutation Ring.
From Verif Require Import SymModel SymProofs DictLib IndexLib RingLib BondModel FuseModel FuseProofs BlockModel.
Import ListNotations.
Open Scope Z_scope.

Section BlockP.
Variable R : CRing.
Variable L : Label.
Add Ring RR2 : (rth R).
Notation block := (list L * nd R)%type.
Notation tensor := (list (list L * nd R)).
Notation bmap := (dict (list L) (nd R)).
Notation teqb := (tup_eqb L).
Notation tspec := (tup_eqb_spec L).
Notation ll := (q0 L).

(** the element of a tensor at a label tuple and an index tuple; absent blocks and positions count as zero *)
Definition elem (t : tensor) (qs : list L) (xs : list Z) : R :=
  bsum t (fun b => if teqb (fst b) qs then nget (snd b) xs else r0 R).

(* the dimension of a leg depends on the leg and the label only *)
Definition shape_of (dm : Z -> L -> Z) (idx : list Z) (qs : list L) : list Z := map (fun p => dm (fst p) (snd p)) (combine idx qs).
Definition wf_tensor (n : Z) (dm : Z -> L -> Z) (t : tensor) : Prop :=
  forall b, In b t -> Z.of_nat (length (fst b)) = n /\ nshape (snd b) = shape_of dm (zrange n) (fst b).

Lemma teqb_refl : forall a, teqb a a = true.
Proof. intros. apply (eqb_refl' _ tspec). Qed.

Lemma nget_add : forall (a b : nd R) xs, nshape a = nshape b -> nget (nd_add a b) xs = radd R (nget a xs) (nget b xs).
Proof. intros a b xs E. unfold nget, nd_add. cbn [nshape nval]. rewrite <- E. destruct (in_shapeb (nshape a) xs); [reflexivity|ring]. Qed.
Lemma nget_sub : forall (a b : nd R) xs, nshape a = nshape b -> nget (nd_sub a b) xs = rsub R (nget a xs) (nget b xs).
Proof. intros a b xs E. unfold nget, nd_sub. cbn [nshape nval]. rewrite <- E. destruct (in_shapeb (nshape a) xs); [reflexivity|ring]. Qed.
Lemma nget_neg : forall (a : nd R) xs, nget (nd_neg a) xs = ropp R (nget a xs).
Proof. intros a xs. unfold nget, nd_neg. cbn [nshape nval]. destruct (in_shapeb (nshape a) xs); [reflexivity|ring]. Qed.

Lemma elem_cons : forall b t qs xs, elem (b :: t) qs xs = radd R (if teqb (fst b) qs then nget (snd b) xs else r0 R) (elem t qs xs).
Proof. reflexivity. Qed.
Lemma elem_app : forall a b qs xs, elem (a ++ b) qs xs = radd R (elem a qs xs) (elem b qs xs).
Proof. intros. apply bsum_app. Qed.
Lemma elem_absent : forall t qs xs, ~ In qs (map fst t) -> elem t qs xs = r0 R.
Proof.
  intros t qs xs H. apply bsum_zero. intros b Hb. destruct (tspec (fst b) qs) as [E|]; [|reflexivity]. exfalso. apply H. rewrite <- E. now apply in_map.
Qed.
Lemma elem_dget : forall (m : bmap) qs xs, NoDup (map fst m) ->
  elem m qs xs = match dget teqb m qs with Some v => nget v xs | None => r0 R end.
Proof.
  induction m as [|[q v] m IH]; intros qs xs H; [reflexivity|]. cbn in H. inversion H; subst. rewrite elem_cons. cbn [fst snd dget].
  destruct (tspec q qs) as [->|N].
  - rewrite elem_absent by auto. ring.
  - rewrite IH by auto. ring.
Qed.
Lemma elem_in : forall t b xs, NoDup (map fst t) -> In b t -> elem t (fst b) xs = nget (snd b) xs.
Proof.
  intros t [q v] xs H Hb. rewrite elem_dget by auto. cbn [fst]. rewrite (in_dget teqb tspec t q v); auto.
Qed.

(* shapes of a tensor are a function of the labels *)
Definition same_shapes (t : tensor) : Prop := forall b b', In b t -> In b' t -> fst b = fst b' -> nshape (snd b) = nshape (snd b').
Lemma wf_same_shapes : forall n dm t, wf_tensor n dm t -> same_shapes t.
Proof. intros n dm t H b b' Hb Hb' E. destruct (H b Hb) as [_ E1], (H b' Hb') as [_ E2]. rewrite E1, E2, E. reflexivity. Qed.

(* insert a block, combining with f when the label is present and storing g of it otherwise *)
Definition put_with (f : nd R -> nd R -> nd R) (g : nd R -> nd R) (m : bmap) (p : block) : bmap :=
  match dget teqb m (fst p) with
  | Some v => dset teqb m (fst p) (f v (snd p))
  | None => dset teqb m (fst p) (g (snd p))
  end.
Lemma in_dset : forall (d : bmap) k w b, In b (dset teqb d k w) -> In b d \/ b = (k, w).
Proof.
  induction d as [|[k0 v0] d IHd]; intros k w b; cbn; [intuition|]. destruct (tspec k0 k) as [->|]; cbn; intuition.
  destruct (IHd _ _ _ H0); intuition.
Qed.

Section Acc.
Variable f : nd R -> nd R -> nd R.
Variable g : nd R -> nd R.
Variable h : R -> R.
Hypothesis f_shape : forall a b, nshape (f a b) = nshape a.
Hypothesis g_shape : forall a, nshape (g a) = nshape a.
Hypothesis f_get : forall a b xs, nshape a = nshape b -> nget (f a b) xs = radd R (nget a xs) (h (nget b xs)).
Hypothesis g_get : forall a xs, nget (g a) xs = h (nget a xs).
Hypothesis h_0 : h (r0 R) = r0 R.
Hypothesis h_add : forall x y, h (radd R x y) = radd R (h x) (h y).
Notation acc := (put_with f g).

Lemma acc_keys : forall l m, NoDup (map fst m) -> NoDup (map fst (fold_left acc l m)).
Proof.
  induction l as [|p l IH]; intros m H; cbn [fold_left]; auto. apply IH. unfold put_with.
  destruct (dget teqb m (fst p)); apply (nodup_dset _ tspec); exact H.
Qed.
Lemma acc_labels : forall l m q, In q (map fst (fold_left acc l m)) <-> In q (map fst m) \/ In q (map fst l).
Proof.
  induction l as [|p l IH]; intros m q; cbn [fold_left map]; [cbn; tauto|]. rewrite IH. cbn [In].
  assert (E: In q (map fst (put_with f g m p)) <-> In q (map fst m) \/ q = fst p).
  { unfold put_with. destruct (dget teqb m (fst p)); apply (keys_dset_in _ tspec). }
  rewrite E. intuition.
Qed.
Lemma put_in : forall (m : bmap) p b, In b (put_with f g m p) ->
  In b m \/ (fst b = fst p /\ (nshape (snd b) = nshape (snd p) \/ exists b', In b' m /\ fst b' = fst p /\ nshape (snd b) = nshape (snd b'))).
Proof.
  intros m p b H. unfold put_with in H. destruct (dget teqb m (fst p)) as [v|] eqn:E.
  - apply in_dset in H. destruct H as [H| ->]; auto. right. cbn. split; [auto|]. right. exists (fst p, v). split; [|auto].
    apply (dget_in _ tspec). exact E.
  - apply in_dset in H. destruct H as [H| ->]; auto. right. cbn. split; [auto|]. left. apply g_shape.
Qed.
(* every accumulated block has label and shape of an input block *)
Lemma acc_origin : forall l m b, In b (fold_left acc l m) -> exists b', In b' (m ++ l) /\ fst b' = fst b /\ nshape (snd b') = nshape (snd b).
Proof.
  induction l as [|p l IH]; intros m b H; cbn [fold_left] in H.
  - exists b. rewrite app_nil_r. auto.
  - apply IH in H. destruct H as (b' & Hb' & E1 & E2). apply in_app_or in Hb'. destruct Hb' as [Hb'|Hb'].
    + apply put_in in Hb'. destruct Hb' as [Hb'|[F [S|(b'' & I & F2 & S)]]].
      * exists b'. split; [apply in_or_app; auto|auto].
      * exists p. split; [apply in_or_app; right; now left|]. split; congruence.
      * exists b''. split; [apply in_or_app; auto|]. split; congruence.
    + exists b'. split; [apply in_or_app; right; now right|auto].
Qed.
Lemma acc_elem : forall l m qs xs, NoDup (map fst m) -> same_shapes (m ++ l) ->
  elem (fold_left acc l m) qs xs = radd R (elem m qs xs) (h (elem l qs xs)).
Proof.
  induction l as [|p l IH]; intros m qs xs Hn Hs; cbn [fold_left].
  - unfold elem at 3. rewrite bsum_nil, h_0. ring.
  - assert (Hn': NoDup (map fst (put_with f g m p))) by (apply (acc_keys [p]); exact Hn).
    rewrite IH; auto.
    + rewrite elem_cons, h_add. rewrite (elem_dget (put_with f g m p)) by auto. rewrite (elem_dget m) by auto.
      unfold put_with. destruct (dget teqb m (fst p)) as [v|] eqn:E; rewrite (dget_dset _ tspec).
      * destruct (tspec (fst p) qs) as [<-|N]; [|rewrite h_0; ring]. rewrite E. rewrite f_get; [ring|].
        apply (dget_in _ tspec) in E. apply (Hs (fst p, v) p); auto; apply in_or_app; [auto|right; now left].
      * destruct (tspec (fst p) qs) as [<-|N]; [|rewrite h_0; ring]. rewrite E, g_get. ring.
    + intros b b' Hb Hb' Ef.
      assert (G: forall c, In c (put_with f g m p ++ l) -> exists c', In c' (m ++ p :: l) /\ fst c' = fst c /\ nshape (snd c') = nshape (snd c)).
      { intros c Hc. apply in_app_or in Hc. destruct Hc as [Hc|Hc].
        - destruct (acc_origin [p] m c Hc) as (c' & I & F & S). exists c'. split; [|auto].
          apply in_app_or in I. apply in_or_app. destruct I as [|[->|[]]]; [auto|right; now left].
        - exists c. split; [apply in_or_app; right; now right|auto]. }
      destruct (G b Hb) as (c & Ic & Fc & Sc), (G b' Hb') as (c' & Ic' & Fc' & Sc'). rewrite <- Sc, <- Sc'. apply Hs; auto. congruence.
Qed.
Lemma acc_shapes : forall l m, same_shapes (m ++ l) -> same_shapes (fold_left acc l m).
Proof.
  intros l m Hs b b' Hb Hb' E. destruct (acc_origin l m b Hb) as (c & Ic & Fc & Sc), (acc_origin l m b' Hb') as (c' & Ic' & Fc' & Sc').
  rewrite <- Sc, <- Sc'. apply Hs; auto. congruence.
Qed.
Lemma acc_wf : forall n dm l m, wf_tensor n dm m -> wf_tensor n dm l -> wf_tensor n dm (fold_left acc l m).
Proof.
  intros n dm l m Hm Hl b Hb. destruct (acc_origin l m b Hb) as (c & Ic & Fc & Sc). rewrite <- Sc, <- Fc.
  apply in_app_or in Ic. destruct Ic; auto.
Qed.
End Acc.

Notation acc_plus := (put_with nd_add (fun x => x)).
Notation acc_minus := (put_with nd_sub nd_neg).
Lemma acc_plus_elem : forall l m qs xs, NoDup (map fst m) -> same_shapes (m ++ l) ->
  elem (fold_left acc_plus l m) qs xs = radd R (elem m qs xs) (elem l qs xs).
Proof.
  intros. rewrite (acc_elem nd_add (fun x => x) (fun x => x)); auto. intros. now apply nget_add.
Qed.
Lemma acc_minus_elem : forall l m qs xs, NoDup (map fst m) -> same_shapes (m ++ l) ->
  elem (fold_left acc_minus l m) qs xs = rsub R (elem m qs xs) (elem l qs xs).
Proof.
  intros. rewrite (acc_elem nd_sub nd_neg (ropp R)); auto.
  - ring.
  - intros. rewrite nget_sub by auto. ring.
  - apply nget_neg.
  - ring.
  - intros. ring.
Qed.

(** *** addition and subtraction *)
Lemma sp_add_acc : forall a b, NoDup (map fst a) -> sp_add R L a b = fold_left acc_plus b a.
Proof. intros a b H. unfold sp_add. rewrite (dict_of_nodup _ tspec) by exact H. reflexivity. Qed.
Lemma sp_sub_acc : forall a b, NoDup (map fst a) -> sp_sub R L a b = fold_left acc_minus b a.
Proof. intros a b H. unfold sp_sub. rewrite (dict_of_nodup _ tspec) by exact H. reflexivity. Qed.

(** *** contraction *)
Lemma group_ctr_get : forall idxb b k,
  odflt [] (dget teqb (group_ctr R L idxb b) k) = filter (fun blk => teqb (pick ll idxb (fst blk)) k) b.
Proof.
  intros idxb b k. unfold group_ctr.
  assert (G: forall l (m : dict (list L) (list block)),
    odflt [] (dget teqb (fold_left (fun m blk => dset teqb m (pick ll idxb (fst blk)) (odflt [] (dget teqb m (pick ll idxb (fst blk))) ++ [blk])) l m) k)
    = odflt [] (dget teqb m k) ++ filter (fun blk => teqb (pick ll idxb (fst blk)) k) l).
  { induction l as [|p l IH]; intros m; cbn [fold_left filter]; [now rewrite app_nil_r|].
    rewrite IH, (dget_dset _ tspec). destruct (tspec (pick ll idxb (fst p)) k) as [->|N]; [|reflexivity].
    cbn [odflt]. now rewrite <- app_assoc. }
  rewrite G. reflexivity.
Qed.
Lemma fold_nested : forall X Y Z' (f : Z' -> Y -> Z') (g : X -> list Y) l m,
  fold_left (fun m x => fold_left f (g x) m) l m = fold_left f (flat_map g l) m.
Proof. induction l as [|x l IH]; intros m; cbn [fold_left flat_map]; [reflexivity|]. now rewrite IH, fold_left_app. Qed.
Lemma fold_map : forall X Y Z' (f : Z' -> Y -> Z') (g : X -> Y) l m, fold_left (fun m x => f m (g x)) l m = fold_left f (map g l) m.
Proof. induction l as [|x l IH]; intros m; cbn [fold_left map]; auto. Qed.

Lemma fold_ext : forall X Z' (f g : Z' -> X -> Z') l m, (forall m x, f m x = g m x) -> fold_left f l m = fold_left g l m.
Proof. induction l as [|x l IH]; intros m H; cbn [fold_left]; [reflexivity|]. rewrite H. now apply IH. Qed.

(* the list of contributions *)
Definition contribs (a b : tensor) (idxa idxb outa outb : list Z) : list block :=
  flat_map (fun ba => map (fun bb => (pick ll outa (fst ba) ++ pick ll outb (fst bb), nd_tensordot (snd ba) (snd bb) idxa idxb))
     (filter (fun bb => teqb (pick ll idxb (fst bb)) (pick ll idxa (fst ba))) b)) a.
Lemma sp_tensordot_acc : forall a b idxa idxb r, sp_tensordot R L a b idxa idxb = Some r ->
  r = fold_left acc_plus (contribs a b (norm_axes (ndim R L a) idxa) (norm_axes (ndim R L b) idxb)
        (others (ndim R L a) (norm_axes (ndim R L a) idxa)) (others (ndim R L b) (norm_axes (ndim R L b) idxb))) [].
Proof.
  intros a b idxa idxb r H. unfold sp_tensordot in H. destruct (negb _); [discriminate|]. injection H as <-.
  unfold contribs. rewrite <- fold_nested.
  set (ia := norm_axes _ idxa). set (ib := norm_axes _ idxb). set (oa := others _ ia). set (ob := others _ ib).
  clearbody oa ob ia ib. apply fold_ext. intros m x. rewrite group_ctr_get. rewrite <- fold_map. reflexivity.
Qed.

Lemma nget_tensordot : forall (A B : nd R) idxa idxb xoa xob na nb,
  Z.of_nat (length (nshape A)) = na -> Z.of_nat (length (nshape B)) = nb ->
  NoDup idxa -> (forall i, In i idxa -> 0 <= i < na) -> NoDup idxb -> (forall i, In i idxb -> 0 <= i < nb) ->
  pick 0 idxa (nshape A) = pick 0 idxb (nshape B) ->
  length xoa = length (others na idxa) -> length xob = length (others nb idxb) ->
  nget (nd_tensordot A B idxa idxb) (xoa ++ xob) =
  bsum (all_idx (pick 0 idxa (nshape A))) (fun xc => rmul R (nget A (merge 0 na idxa xc xoa)) (nget B (merge 0 nb idxb xc xob))).
Proof.
  intros A B idxa idxb xoa xob na nb Ha Hb Na Ia Nb Ib E La Lb.
  assert (Hc: forall xc, In xc (all_idx (pick 0 idxa (nshape A))) -> in_shape (pick 0 idxa (nshape A)) xc /\ length xc = length idxa).
  { intros xc H. apply in_all_idx in H. split; [auto|]. apply in_shape_length in H. now rewrite pick_length in H. }
  assert (Lab: length idxa = length idxb) by (rewrite <- (pick_length _ 0 idxa (nshape A)), <- (pick_length _ 0 idxb (nshape B)); now rewrite E).
  assert (Sp: in_shape (nshape (nd_tensordot A B idxa idxb)) (xoa ++ xob) <->
     in_shape (pick 0 (others na idxa) (nshape A)) xoa /\ in_shape (pick 0 (others nb idxb) (nshape B)) xob).
  { cbn [nshape nd_tensordot]. rewrite Ha, Hb. apply in_shape_app_split. now rewrite pick_length. }
  destruct (in_shapeb (nshape (nd_tensordot A B idxa idxb)) (xoa ++ xob)) eqn:S.
  - unfold nget at 1. rewrite S. apply in_shapeb_spec, Sp in S. destruct S as [Sa Sb]. cbn [nval nd_tensordot].
    apply bsum_ext. intros xc H. destruct (Hc xc H) as [C1 C2].
    rewrite Ha, Hb. rewrite firstn_app, skipn_app, <- La.
    rewrite firstn_all, skipn_all, Nat.sub_diag. cbn [firstn skipn app]. rewrite app_nil_r.
    rewrite (nget_in _ A), (nget_in _ B); [reflexivity| |].
    + apply in_shape_merge; auto. now rewrite <- E.
    + apply in_shape_merge; auto.
  - unfold nget at 1. rewrite S. symmetry. apply bsum_zero. intros xc H. destruct (Hc xc H) as [C1 C2].
    destruct (in_shapeb (pick 0 (others na idxa) (nshape A)) xoa) eqn:Sa.
    + destruct (in_shapeb (pick 0 (others nb idxb) (nshape B)) xob) eqn:Sb.
      * apply in_shapeb_spec in Sa, Sb. rewrite (proj2 (in_shapeb_spec _ _) (proj2 Sp (conj Sa Sb))) in S. discriminate.
      * rewrite (nget_out _ B); [ring|]. intro K. apply in_shape_merge_iff in K; auto; [|congruence].
        destruct K as [_ K]. apply in_shapeb_spec in K. congruence.
    + rewrite (nget_out _ A); [ring|]. intro K. apply in_shape_merge_iff in K; auto.
      destruct K as [_ K]. apply in_shapeb_spec in K. congruence.
Qed.

Lemma shape_of_length : forall dm idx qs, length (shape_of dm idx qs) = Nat.min (length idx) (length qs).
Proof. intros. unfold shape_of. now rewrite map_length, combine_length. Qed.
Lemma nth_shape_of : forall dm idx qs k, (k < length idx)%nat -> (k < length qs)%nat ->
  nth k (shape_of dm idx qs) 0 = dm (nth k idx 0) (nth k qs ll).
Proof.
  intros dm idx qs k H1 H2. unfold shape_of. rewrite (nth_indep _ 0 (dm (fst (0, ll)) (snd (0, ll)))) by (rewrite map_length, combine_length; lia).
  rewrite (map_nth (fun p => dm (fst p) (snd p))).
  revert qs k H1 H2. induction idx as [|i idx IH]; intros [|q qs] k H1 H2; cbn in *; try lia. destruct k; [reflexivity|]. apply IH; lia.
Qed.
Lemma nth_zrange : forall n k, (Z.of_nat k < n) -> nth k (zrange n) 0 = Z.of_nat k.
Proof. intros n k H. unfold zrange. rewrite (nth_indep _ 0 (Z.of_nat 0)) by (rewrite map_length, seq_length; lia). rewrite map_nth, seq_nth by lia. lia. Qed.
Lemma pick_shape_of : forall n dm qs idx, Z.of_nat (length qs) = n -> (forall i, In i idx -> 0 <= i < n) ->
  pick 0 idx (shape_of dm (zrange n) qs) = shape_of dm idx (pick ll idx qs).
Proof.
  intros n dm qs idx Hl Hi. induction idx as [|i idx IH]; [reflexivity|]. 
  change (nth (Z.to_nat i) (shape_of dm (zrange n) qs) 0 :: pick 0 idx (shape_of dm (zrange n) qs)
    = dm i (nth (Z.to_nat i) qs ll) :: shape_of dm idx (pick ll idx qs)).
  f_equal.
  - specialize (Hi i (or_introl eq_refl)). rewrite nth_shape_of by (rewrite ?zrange_length; lia). rewrite nth_zrange by lia. rewrite Z2Nat.id by lia. reflexivity.
  - apply IH. intros; apply Hi; now right.
Qed.
Lemma wf_shape_length : forall n dm t b, wf_tensor n dm t -> In b t -> Z.of_nat (length (nshape (snd b))) = n /\ Z.of_nat (length (fst b)) = n.
Proof.
  intros n dm t b H Hb. destruct (H b Hb) as [A B]. split; [|auto]. rewrite B, shape_of_length, zrange_length. lia.
Qed.
Lemma ndim_wf : forall n dm t, wf_tensor n dm t -> t <> [] -> ndim R L t = n.
Proof. intros n dm [|b t] H Hn; [congruence|]. cbn. apply (wf_shape_length n dm (b :: t)); auto. now left. Qed.

Section Contract.
Variables (a b : tensor) (na nb : Z) (dma dmb : Z -> L -> Z) (idxa idxb : list Z).
Hypothesis Wa : wf_tensor na dma a.
Hypothesis Wb : wf_tensor nb dmb b.
Hypothesis Na : NoDup idxa.
Hypothesis Ia : forall i, In i idxa -> 0 <= i < na.
Hypothesis Nb : NoDup idxb.
Hypothesis Ib : forall i, In i idxb -> 0 <= i < nb.
Hypothesis Lab : length idxa = length idxb.
Hypothesis Dab : forall i j q, In (i, j) (combine idxa idxb) -> dma i q = dmb j q.
Notation outa := (others na idxa).
Notation outb := (others nb idxb).

Lemma dims_match : forall qs, shape_of dma idxa qs = shape_of dmb idxb qs.
Proof.
  clear Na Ia Nb Ib. intros qs. revert idxb qs Lab Dab. induction idxa as [|i l IH]; intros [|j l'] qs E D; cbn in E; try lia; [reflexivity|].
  destruct qs as [|q qs]; [reflexivity|]. unfold shape_of. cbn [combine map fst snd]. f_equal; [apply D; now left|].
  apply IH; [lia|]. intros i' j' q' H. apply D. now right.
Qed.

Lemma contribs_in : forall c, In c (contribs a b idxa idxb outa outb) <-> exists ba bb, In ba a /\ In bb b /\
  pick ll idxa (fst ba) = pick ll idxb (fst bb) /\
  c = (pick ll outa (fst ba) ++ pick ll outb (fst bb), nd_tensordot (snd ba) (snd bb) idxa idxb).
Proof.
  intros c. unfold contribs. rewrite in_flat_map. split.
  - intros (ba & Ha & Hm). apply in_map_iff in Hm. destruct Hm as (bb & <- & Hf). apply filter_In in Hf. destruct Hf as [Hb E].
    exists ba, bb. destruct (tspec (pick ll idxb (fst bb)) (pick ll idxa (fst ba))); [auto|discriminate].
  - intros (ba & bb & Ha & Hb & E & ->). exists ba. split; auto. apply in_map_iff. exists bb. split; auto. apply filter_In. split; auto.
    rewrite E. apply teqb_refl.
Qed.

(* leg dimensions of the result *)
Definition dm_out (k : Z) (q : L) : Z :=
  let la := Z.of_nat (length outa) in
  if k <? la then dma (nth (Z.to_nat k) outa 0) q else dmb (nth (Z.to_nat (k - la)) outb 0) q.
Lemma shape_of_out : forall qa qb, length qa = length outa -> length qb = length outb ->
  shape_of dm_out (zrange (Z.of_nat (length outa) + Z.of_nat (length outb))) (qa ++ qb) = shape_of dma outa qa ++ shape_of dmb outb qb.
Proof.
  intros qa qb Ha Hb. apply nth_ext with (d := 0) (d' := 0).
  - rewrite app_length, !shape_of_length, app_length, zrange_length. lia.
  - intros k Hk. rewrite shape_of_length, app_length, zrange_length in Hk.
    rewrite nth_shape_of by (rewrite ?zrange_length, ?app_length; lia). rewrite nth_zrange by lia. unfold dm_out.
    destruct (Z.ltb_spec (Z.of_nat k) (Z.of_nat (length outa))).
    + rewrite (app_nth1 qa) by lia. rewrite app_nth1 by (rewrite shape_of_length; lia). rewrite nth_shape_of by lia. f_equal. f_equal. lia.
    + rewrite (app_nth2 qa) by lia. rewrite app_nth2 by (rewrite shape_of_length; lia). rewrite shape_of_length, nth_shape_of by lia.
      f_equal; f_equal; lia.
Qed.
Lemma contribs_wf : wf_tensor (Z.of_nat (length outa) + Z.of_nat (length outb)) dm_out (contribs a b idxa idxb outa outb).
Proof.
  intros c Hc. apply contribs_in in Hc. destruct Hc as (ba & bb & Ha & Hb & E & ->). cbn [fst snd].
  split; [rewrite app_length, !pick_length; lia|].
  destruct (wf_shape_length _ _ _ _ Wa Ha) as [SA LA], (wf_shape_length _ _ _ _ Wb Hb) as [SB LB].
  cbn [nshape nd_tensordot]. rewrite SA, SB. rewrite shape_of_out by apply pick_length.
  rewrite (proj2 (Wa ba Ha)), (proj2 (Wb bb Hb)). rewrite !pick_shape_of; auto; intros i Hi; apply in_others in Hi; tauto.
Qed.

Variable Ls : list (list L).
Hypothesis NL : NoDup Ls.
Hypothesis LL : forall q, In q Ls -> length q = length idxa.
Hypothesis CL : forall ba, In ba a -> In (pick ll idxa (fst ba)) Ls.

Lemma contribs_elem : forall qoa qob xoa xob, length qoa = length outa -> length qob = length outb ->
  length xoa = length outa -> length xob = length outb ->
  elem (contribs a b idxa idxb outa outb) (qoa ++ qob) (xoa ++ xob) =
  bsum Ls (fun qc => bsum (all_idx (shape_of dma idxa qc)) (fun xc =>
    rmul R (elem a (merge ll na idxa qc qoa) (merge 0 na idxa xc xoa)) (elem b (merge ll nb idxb qc qob) (merge 0 nb idxb xc xob)))).
Proof.
  intros qoa qob xoa xob Lqa Lqb Lxa Lxb.
  unfold elem at 1. unfold contribs. rewrite bsum_flat_map.
  (* right hand side: bring the sums over blocks outside *)
  transitivity (bsum Ls (fun qc => bsum a (fun ba => bsum b (fun bb =>
     bsum (all_idx (shape_of dma idxa qc)) (fun xc =>
       rmul R (if teqb (fst ba) (merge ll na idxa qc qoa) then nget (snd ba) (merge 0 na idxa xc xoa) else r0 R)
              (if teqb (fst bb) (merge ll nb idxb qc qob) then nget (snd bb) (merge 0 nb idxb xc xob) else r0 R)))))).
  2:{ apply bsum_ext. intros qc Hqc. unfold elem.
      transitivity (bsum a (fun ba => bsum (all_idx (shape_of dma idxa qc)) (fun xc => bsum b (fun bb =>
         rmul R (if teqb (fst ba) (merge ll na idxa qc qoa) then nget (snd ba) (merge 0 na idxa xc xoa) else r0 R)
              (if teqb (fst bb) (merge ll nb idxb qc qob) then nget (snd bb) (merge 0 nb idxb xc xob) else r0 R))))).
      - apply bsum_ext. intros. apply bsum_swap.
      - rewrite bsum_swap. apply bsum_ext. intros xc _. symmetry. apply bsum_prod. }
  rewrite bsum_swap. apply bsum_ext. intros ba Ha. destruct (wf_shape_length _ _ _ _ Wa Ha) as [SA LA].
  rewrite bsum_map, bsum_filter.
  set (qc := pick ll idxa (fst ba)).
  rewrite (bsum_single R _ Ls _ qc NL (CL ba Ha)).
  2:{ intros q Hq Hne. apply bsum_zero. intros bb Hb. apply bsum_zero. intros xc Hxc.
      destruct (tspec (fst ba) (merge ll na idxa q qoa)) as [E|]; [|ring]. exfalso. apply Hne.
      apply merge_eq_iff in E; auto. destruct E as [E _]. symmetry. exact E. }
  apply bsum_ext. intros bb Hb. destruct (wf_shape_length _ _ _ _ Wb Hb) as [SB LB]. cbn [fst snd].
  assert (Lqc: length qc = length idxa) by apply pick_length.
  destruct (tspec (pick ll idxb (fst bb)) qc) as [E|E].
  - destruct (tspec (pick ll outa (fst ba) ++ pick ll outb (fst bb)) (qoa ++ qob)) as [E2|E2].
    + assert (E3: pick ll outa (fst ba) = qoa /\ pick ll outb (fst bb) = qob).
      { assert (Hl: length (pick ll outa (fst ba)) = length qoa) by (rewrite pick_length; auto).
        revert Hl E2. generalize (pick ll outa (fst ba)). clear. induction qoa as [|x q IH]; intros [|y l] Hl E2; cbn in *; try lia; auto.
        injection E2 as -> E2. destruct (IH l ltac:(lia) E2). split; congruence. }
      destruct E3 as [E3 E4].
      assert (F1: fst ba = merge ll na idxa qc qoa) by (apply merge_eq_iff; auto).
      assert (F2: fst bb = merge ll nb idxb qc qob) by (apply merge_eq_iff; auto; congruence).
      rewrite <- F1, <- F2, !teqb_refl.
      assert (Sh: pick 0 idxa (nshape (snd ba)) = shape_of dma idxa qc).
      { rewrite (proj2 (Wa ba Ha)). now apply pick_shape_of. }
      rewrite (nget_tensordot (snd ba) (snd bb) idxa idxb xoa xob na nb); auto.
      * rewrite Sh. reflexivity.
      * rewrite Sh, dims_match, (proj2 (Wb bb Hb)), pick_shape_of by auto. now rewrite E.
    + symmetry. apply bsum_zero. intros xc _.
      destruct (tspec (fst ba) (merge ll na idxa qc qoa)) as [F1|]; [|ring].
      destruct (tspec (fst bb) (merge ll nb idxb qc qob)) as [F2|]; [|ring]. exfalso. apply E2.
      apply merge_eq_iff in F1; auto. apply merge_eq_iff in F2; auto; [|congruence]. destruct F1 as [_ ->], F2 as [_ ->]. reflexivity.
  - symmetry. apply bsum_zero. intros xc _.
    destruct (tspec (fst bb) (merge ll nb idxb qc qob)) as [F2|]; [|ring]. exfalso. apply E.
    apply merge_eq_iff in F2; auto; [|congruence]. tauto.
Qed.
End Contract.

(** *** transposition *)
Lemma others_perm : forall n p, Permutation (zrange n) p -> others n p = [].
Proof.
  intros n p H. destruct (others n p) as [|x r] eqn:E; [reflexivity|]. exfalso.
  assert (Hx: In x (others n p)) by (rewrite E; now left). apply in_others in Hx. destruct Hx as [A B]. apply B.
  eapply Permutation_in; [exact H|]. now apply in_zrange.
Qed.
Section Transpose.
Variables (n : Z) (p : list Z).
Hypothesis Hp : Permutation (zrange n) p.
Lemma perm_nodup : NoDup p.
Proof. eapply Permutation_NoDup; [exact Hp|apply zrange_nodup]. Qed.
Lemma perm_range : forall i, In i p -> 0 <= i < n.
Proof. intros i H. apply in_zrange. eapply Permutation_in; [apply Permutation_sym; exact Hp|exact H]. Qed.
Lemma perm_length : length p = Z.to_nat n.
Proof. rewrite <- (Permutation_length Hp). apply zrange_length. Qed.
Lemma merge_pick_perm : forall A (d : A) l, Z.of_nat (length l) = n -> merge d n p (pick d p l) [] = l.
Proof.
  intros A d l H. rewrite <- (merge_pick d n p perm_range l H) at 2. rewrite (others_perm n p Hp). reflexivity.
Qed.
Lemma pick_inj : forall A (d : A) l l', Z.of_nat (length l) = n -> Z.of_nat (length l') = n -> pick d p l = pick d p l' -> l = l'.
Proof. intros A d l l' H H' E. rewrite <- (merge_pick_perm A d l H), <- (merge_pick_perm A d l' H'). now rewrite E. Qed.
Lemma in_shape_pick_perm : forall sh xs, Z.of_nat (length sh) = n -> Z.of_nat (length xs) = n ->
  (in_shape (pick 0 p sh) (pick 0 p xs) <-> in_shape sh xs).
Proof.
  intros sh xs Hs Hx. split.
  - intro H. rewrite <- (merge_pick_perm Z 0 xs Hx). apply in_shape_merge; auto using perm_nodup, perm_range.
    rewrite (others_perm n p Hp). constructor.
  - intro H. apply in_shape_pick; auto. rewrite Hs. apply perm_range.
Qed.
Lemma nget_transpose : forall (a : nd R) xs, Z.of_nat (length (nshape a)) = n -> Z.of_nat (length xs) = n ->
  nget (nd_transpose p a) (pick 0 p xs) = nget a xs.
Proof.
  intros a xs Ha Hx. unfold nget. cbn [nshape nval nd_transpose]. rewrite Ha, merge_pick_perm by auto.
  destruct (in_shapeb (pick 0 p (nshape a)) (pick 0 p xs)) eqn:S1, (in_shapeb (nshape a) xs) eqn:S2; auto.
  - apply in_shapeb_spec in S1. apply -> in_shape_pick_perm in S1; auto. apply (proj2 (in_shapeb_spec _ _)) in S1. congruence.
  - apply in_shapeb_spec in S2. apply <- in_shape_pick_perm in S2; auto. apply (proj2 (in_shapeb_spec _ _)) in S2. congruence.
Qed.
Lemma elem_transpose : forall t qs xs, (forall b, In b t -> Z.of_nat (length (fst b)) = n /\ Z.of_nat (length (nshape (snd b))) = n) ->
  Z.of_nat (length qs) = n -> Z.of_nat (length xs) = n ->
  elem (sp_transpose R L (Some p) t) (pick ll p qs) (pick 0 p xs) = elem t qs xs.
Proof.
  intros t qs xs Ht Hq Hx. unfold elem, sp_transpose. rewrite bsum_map. apply bsum_ext. intros b Hb. destruct (Ht b Hb) as [A B]. cbn [fst snd].
  destruct (tspec (pick ll p (fst b)) (pick ll p qs)) as [E|E], (tspec (fst b) qs) as [F|F]; auto.
  - now apply nget_transpose.
  - exfalso. apply F. apply (pick_inj L ll); auto.
  - congruence.
Qed.
End Transpose.
Lemma pick_pick : forall A (d : A) p q l, (forall i, In i q -> 0 <= i < Z.of_nat (length p)) -> pick d q (pick d p l) = pick d (pick 0 q p) l.
Proof.
  intros A d p q l H. unfold pick at 1 3. unfold pick at 2. rewrite map_map. apply map_ext_in. intros i Hi. specialize (H i Hi).
  unfold pick. rewrite (nth_indep _ d (nth (Z.to_nat 0) l d)) by (rewrite map_length; lia).
  rewrite (map_nth (fun j => nth (Z.to_nat j) l d)). reflexivity.
Qed.
End BlockP.
