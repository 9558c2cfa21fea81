(** Lemmas about BondInfo and MPSInfo (BondModel.v). *)
From Coq Require Import ZArith Bool List Lia ZifyBool Permutation.
From Verif Require Import SymModel SymProofs DictLib BondModel.
Import ListNotations.
Open Scope Z_scope.
Ltac Zify.zify_post_hook ::= Z.div_mod_to_equations.

Section Bond.
Variable L : Label.
Notation binfo := (dict L Z).
Notation eqb := (qeqb L).
Notation espec := (qeqb_spec L).

(** ** Specification: a bond space as the list of the labels of its states *)
Definition states (d : binfo) : list L :=
  flat_map (fun p => repeat (fst p) (Z.to_nat (snd p))) d.
(* number of states with a given label *)
Fixpoint cnt (q : L) (l : list L) : Z :=
  match l with [] => 0 | x :: l' => (if eqb x q then 1 else 0) + cnt q l' end.
(* all sums of one state of each *)
Definition sums (la lb : list L) : list L := flat_map (fun a => map (fun b => qadd L a b) lb) la.
(* well-formed Counter: unique keys; positive multiplicities *)
Definition wf (d : binfo) : Prop := NoDup (keys d) /\ forall p, In p d -> 0 < snd p.

(** ** group lemmas *)
Lemma qadd_0_r : forall a, qadd L a (q0 L) = a.
Proof. intros. rewrite qadd_comm. apply qadd_0_l. Qed.
Lemma qadd_neg_r : forall a, qadd L a (qneg L a) = q0 L.
Proof. intros. rewrite qadd_comm. apply qadd_neg. Qed.
Lemma qadd_cancel_l : forall a b c, qadd L a b = qadd L a c -> b = c.
Proof.
  intros a b c H. rewrite <- (qadd_0_l L b), <- (qadd_0_l L c), <- (qadd_neg L a).
  rewrite <- !qadd_assoc. congruence.
Qed.
Lemma qneg_unique : forall a b, qadd L a b = q0 L -> a = qneg L b.
Proof.
  intros a b H. apply (qadd_cancel_l b). rewrite (qadd_comm L b a), H. symmetry. apply qadd_neg_r.
Qed.
Lemma qneg_neg : forall a, qneg L (qneg L a) = a.
Proof. intros. symmetry. apply qneg_unique. apply qadd_neg_r. Qed.
Lemma qneg_inj : forall a b, qneg L a = qneg L b -> a = b.
Proof. intros a b H. rewrite <- (qneg_neg a), H. apply qneg_neg. Qed.
Lemma qneg_add : forall a b, qneg L (qadd L a b) = qadd L (qneg L a) (qneg L b).
Proof.
  intros. symmetry. apply qneg_unique.
  rewrite (qadd_comm L (qneg L a)). rewrite <- qadd_assoc, (qadd_assoc L (qneg L a) a b), qadd_neg, qadd_0_l.
  apply qadd_neg.
Qed.
Lemma qneg_0 : qneg L (q0 L) = q0 L.
Proof. symmetry. apply qneg_unique. apply qadd_0_l. Qed.
Lemma qeqb_refl : forall a, eqb a a = true.
Proof. intros. destruct (espec a a); congruence. Qed.

(** ** cnt *)
Lemma cnt_app : forall q a b, cnt q (a ++ b) = cnt q a + cnt q b.
Proof. induction a; intros; cbn [cnt app]; [lia|]. rewrite IHa. lia. Qed.
Lemma cnt_nonneg : forall q l, 0 <= cnt q l.
Proof. induction l; cbn [cnt]; [lia|]. destruct (eqb a q); lia. Qed.
Lemma cnt_pos_in : forall q l, 0 < cnt q l <-> In q l.
Proof.
  induction l; cbn [cnt In]; [lia|]. pose proof (cnt_nonneg q l).
  destruct (espec a q); split; intros; auto; try lia.
  - right. apply IHl. lia.
  - destruct H0; [congruence|]. apply IHl in H0. lia.
Qed.
Lemma cnt_repeat : forall q k n, cnt q (repeat k n) = if eqb k q then Z.of_nat n else 0.
Proof.
  induction n; cbn [repeat cnt]; [destruct (eqb k q); reflexivity|].
  rewrite IHn. destruct (eqb k q); lia.
Qed.
Lemma cnt_perm : forall l l', (forall q, cnt q l = cnt q l') -> Permutation l l'.
Proof.
  induction l as [|x l IH]; intros l' H.
  - destruct l' as [|y l']; [constructor|]. specialize (H y). cbn [cnt] in H.
    rewrite qeqb_refl in H. pose proof (cnt_nonneg y l'). lia.
  - assert (In x l').
    { apply cnt_pos_in. rewrite <- H. cbn [cnt]. rewrite qeqb_refl. pose proof (cnt_nonneg x l). lia. }
    apply in_split in H0. destruct H0 as (l1 & l2 & ->).
    apply Permutation_cons_app. apply IH. intros q. specialize (H q).
    rewrite cnt_app in *. cbn [cnt] in H. lia.
Qed.
Lemma cnt_of_perm : forall q l l', Permutation l l' -> cnt q l = cnt q l'.
Proof. induction 1; cbn [cnt]; lia. Qed.
Lemma cnt_length : forall l : list L, forall ks, NoDup ks -> (forall x, In x l -> In x ks) ->
  Z.of_nat (length l) = zsum (map (fun k => cnt k l) ks).
Proof.
  induction l; intros ks Hn Hk; cbn [cnt length].
  - rewrite zsum_map_zero; auto.
  - rewrite zsum_map_add. rewrite <- (IHl ks) by (auto; intros; apply Hk; now right).
    assert (E: zsum (map (fun k => if eqb a k then 1 else 0) ks) = 1).
    { clear - Hn Hk. specialize (Hk a (or_introl eq_refl)). induction ks as [|k ks IH]; [destruct Hk|].
      inversion Hn; subst. cbn [map]. rewrite zsum_cons. destruct (espec a k).
      - subst. rewrite zsum_map_zero; [lia|]. intros x Hx. destruct (espec k x); [congruence|auto].
      - destruct Hk as [Hk|Hk]; [congruence|]. rewrite IH by auto. reflexivity. }
    rewrite E. lia.
Qed.

(** ** bget / bset *)
Lemma bget_bset : forall d k v q, bget L (bset L d k v) q = if eqb k q then v else bget L d q.
Proof.
  intros. unfold bget, bset. rewrite dget_dset by apply espec. destruct (eqb k q); reflexivity.
Qed.
Lemma bget_badd : forall d k v q, bget L (badd L d k v) q = bget L d q + (if eqb k q then v else 0).
Proof.
  intros. unfold badd. rewrite bget_bset. destruct (espec k q); [subst; lia|lia].
Qed.
Lemma bmem_in : forall d k, bmem L d k = true <-> In k (keys d).
Proof. intros. apply dmem_in. apply espec. Qed.
Lemma bget_notin : forall d k, ~ In k (keys d) -> bget L d k = 0.
Proof.
  intros d k H. unfold bget. destruct (dget eqb d k) eqn:E; [|reflexivity].
  apply dget_some_key in E; [tauto|apply espec].
Qed.
Lemma bget_in : forall d k v, NoDup (keys d) -> In (k, v) d -> bget L d k = v.
Proof. intros d k v Hn Hi. unfold bget. rewrite (in_dget eqb espec d k v); auto. Qed.
Lemma bget_key : forall d k, In k (keys d) -> In (k, bget L d k) d.
Proof.
  intros d k H. unfold bget. destruct (dget eqb d k) eqn:E.
  - now apply (dget_in eqb espec) in E.
  - apply (dget_none eqb espec) in E. tauto.
Qed.
Lemma wf_get : forall d k, wf d -> (0 < bget L d k <-> In k (keys d)).
Proof.
  intros d k (Hn & Hp). split.
  - intros H. destruct (in_dec (fun a b => reflect_dec _ _ (espec a b)) k (keys d)); auto.
    rewrite bget_notin in H by auto. lia.
  - intros H. apply bget_key in H. now apply (Hp _ H).
Qed.
Lemma wf_nonneg : forall d k, wf d -> 0 <= bget L d k.
Proof.
  intros d k H. destruct (in_dec (fun a b => reflect_dec _ _ (espec a b)) k (keys d)) as [i|n].
  - apply (wf_get d k H) in i. lia.
  - rewrite bget_notin by auto. lia.
Qed.

(* multiplicity = number of states, for unique keys and nonnegative values *)
Lemma bget_states : forall d q, NoDup (keys d) -> (forall p, In p d -> 0 <= snd p) ->
  bget L d q = cnt q (states d).
Proof.
  induction d as [|[k v] d IH]; intros q Hn Hp.
  - reflexivity.
  - inversion Hn; subst. unfold states; cbn [flat_map fst snd]. fold (states d).
    rewrite cnt_app, cnt_repeat. rewrite <- IH by (auto; intros; apply Hp; now right).
    unfold bget; cbn [dget fst]. pose proof (Hp (k, v) (or_introl eq_refl)). cbn in *.
    destruct (espec k q).
    + subst. fold (bget L d q). rewrite bget_notin by auto. lia.
    + reflexivity.
Qed.

(** ** tensor product *)
Definition tp_sum (a b : binfo) (q : L) : Z :=
  zsum (map (fun pa => zsum (map (fun pb => if eqb (qadd L (fst pa) (fst pb)) q then snd pa * snd pb else 0) b)) a).

Lemma tp_inner : forall ref pa b d q,
  bget L (fold_left (fun quanta pb =>
      let k := qadd L (fst pa) (fst pb) in
      if in_ref L ref k then badd L quanta k (snd pa * snd pb) else quanta) b d) q
  = bget L d q + (if in_ref L ref q then
      zsum (map (fun pb => if eqb (qadd L (fst pa) (fst pb)) q then snd pa * snd pb else 0) b) else 0).
Proof.
  induction b as [|pb b IH]; intros d q; cbn [fold_left map].
  - cbn. destruct (in_ref L ref q); lia.
  - cbv zeta. rewrite IH. rewrite zsum_cons.
    destruct (espec (qadd L (fst pa) (fst pb)) q).
    + subst q. destruct (in_ref L ref (qadd L (fst pa) (fst pb))); [rewrite bget_badd, qeqb_refl|]; lia.
    + destruct (in_ref L ref (qadd L (fst pa) (fst pb))); [|destruct (in_ref L ref q); lia].
      rewrite bget_badd. destruct (espec (qadd L (fst pa) (fst pb)) q); [congruence|].
      destruct (in_ref L ref q); lia.
Qed.

Lemma tp_get_gen : forall ref b a d q,
  bget L (fold_left (fun quanta pa =>
    fold_left (fun quanta pb =>
      let k := qadd L (fst pa) (fst pb) in
      if in_ref L ref k then badd L quanta k (snd pa * snd pb) else quanta) b quanta) a d) q
  = bget L d q + (if in_ref L ref q then tp_sum a b q else 0).
Proof.
  induction a as [|pa a IH]; intros d q; cbn [fold_left].
  - cbn. destruct (in_ref L ref q); lia.
  - rewrite IH. rewrite tp_inner. unfold tp_sum; cbn [map]; rewrite zsum_cons.
    destruct (in_ref L ref q); lia.
Qed.

Lemma tp_get : forall ref a b q,
  bget L (tensor_product L a b ref) q = if in_ref L ref q then tp_sum a b q else 0.
Proof. intros. unfold tensor_product. rewrite tp_get_gen. cbn. lia. Qed.

(* keys of the product *)
Lemma tp_inner_keys : forall ref pa b d,
  let f := fold_left (fun quanta pb =>
      let k := qadd L (fst pa) (fst pb) in
      if in_ref L ref k then badd L quanta k (snd pa * snd pb) else quanta) b d in
  (NoDup (keys d) -> NoDup (keys f)) /\
  (forall x, In x (keys f) <-> In x (keys d) \/ (in_ref L ref x = true /\ exists pb, In pb b /\ x = qadd L (fst pa) (fst pb))).
Proof.
  induction b as [|pb b IH]; intros d; cbn [fold_left].
  - split; auto. intros x. split; [auto|]. intros [|(? & ? & [] & _)]; auto.
  - cbv zeta. destruct (in_ref L ref (qadd L (fst pa) (fst pb))) eqn:E.
    + destruct (IH (badd L d (qadd L (fst pa) (fst pb)) (snd pa * snd pb))) as [I1 I2].
      split.
      * intros Hn. apply I1. unfold badd, bset. apply nodup_dset; auto using espec.
      * intros x. rewrite I2. unfold badd, bset. rewrite keys_dset_in by apply espec. split.
        -- intros [[?|?]|(? & p & ? & ?)]; auto.
           ++ right. subst. split; auto. exists pb. split; [now left|auto].
           ++ right. split; auto. exists p. split; [now right|auto].
        -- intros [?|(? & p & [->|?] & ?)]; auto.
           right. split; auto. exists p; auto.
    + destruct (IH d) as [I1 I2]. split; auto. intros x. rewrite I2. split.
      * intros [?|(? & p & ? & ?)]; auto. right. split; auto. exists p; split; [now right|auto].
      * intros [?|(? & p & [->|?] & ?)]; auto; [congruence|]. right. split; auto. exists p; auto.
Qed.

Lemma tp_keys_gen : forall ref b a d,
  let f := fold_left (fun quanta pa =>
    fold_left (fun quanta pb =>
      let k := qadd L (fst pa) (fst pb) in
      if in_ref L ref k then badd L quanta k (snd pa * snd pb) else quanta) b quanta) a d in
  (NoDup (keys d) -> NoDup (keys f)) /\
  (forall x, In x (keys f) <-> In x (keys d) \/
     (in_ref L ref x = true /\ exists pa pb, In pa a /\ In pb b /\ x = qadd L (fst pa) (fst pb))).
Proof.
  induction a as [|pa a IH]; intros d; cbn [fold_left].
  - split; auto. intros x. split; [auto|]. intros [|(? & ? & ? & [] & _)]; auto.
  - cbv zeta. match goal with |- context[fold_left _ a ?d'] => destruct (IH d') as [I1 I2] end.
    destruct (tp_inner_keys ref pa b d) as [J1 J2]. split.
    + intros Hn. apply I1. now apply J1.
    + intros x. rewrite I2. cbv zeta in J2. rewrite J2. split.
      * intros [[?|(? & p & ? & ?)]|(? & p & p' & ? & ? & ?)]; auto.
        -- right. split; auto. exists pa, p. split; [now left|auto].
        -- right. split; auto. exists p, p'. split; [now right|auto].
      * intros [?|(? & p & p' & [->|?] & ? & ?)]; auto.
        -- left. right. split; auto. exists p'. auto.
        -- right. split; auto. exists p, p'. auto.
Qed.

Lemma tp_nodup : forall ref a b, NoDup (keys (tensor_product L a b ref)).
Proof. intros. apply (tp_keys_gen ref b a []). constructor. Qed.
Lemma tp_keys : forall ref a b x, In x (keys (tensor_product L a b ref)) <->
  in_ref L ref x = true /\ exists ka kb, In ka (keys a) /\ In kb (keys b) /\ x = qadd L ka kb.
Proof.
  intros. unfold tensor_product. rewrite (proj2 (tp_keys_gen ref b a [])).
  split.
  - intros [[]|(? & p & p' & ? & ? & ?)]. split; auto. exists (fst p), (fst p').
    split; [now apply in_map|]. split; [now apply in_map|auto].
  - intros (? & ka & kb & Ha & Hb & ->). right. split; auto.
    apply in_map_iff in Ha. destruct Ha as (pa & <- & ?). apply in_map_iff in Hb. destruct Hb as (pb & <- & ?).
    exists pa, pb. auto.
Qed.

Lemma tp_sum_pos : forall a b q, wf a -> wf b ->
  (exists ka kb, In ka (keys a) /\ In kb (keys b) /\ q = qadd L ka kb) -> 0 < tp_sum a b q.
Proof.
  intros a b q (Na & Pa) (Nb & Pb) (ka & kb & Ha & Hb & ->). unfold tp_sum.
  apply in_map_iff in Ha. destruct Ha as (pa & <- & Ha).
  apply in_map_iff in Hb. destruct Hb as (pb & <- & Hb).
  set (f := fun pb0 : L * Z => if eqb (qadd L (fst pa) (fst pb0)) (qadd L (fst pa) (fst pb)) then snd pa * snd pb0 else 0).
  assert (H1: 0 < zsum (map f b)).
  { assert (0 < f pb). { unfold f. rewrite qeqb_refl. specialize (Pa _ Ha). specialize (Pb _ Hb). nia. }
    assert (f pb <= zsum (map f b)); [|lia]. apply zsum_ge_in.
    - intros x Hx. apply in_map_iff in Hx. destruct Hx as (y & <- & Hy). unfold f.
      specialize (Pa _ Ha). specialize (Pb _ Hy). destruct (eqb _ _); nia.
    - now apply in_map. }
  eapply Z.lt_le_trans; [exact H1|].
  apply (zsum_ge_in (map _ a)).
  - intros x Hx. apply in_map_iff in Hx. destruct Hx as (y & <- & Hy). apply zsum_nonneg.
    intros z Hz. apply in_map_iff in Hz. destruct Hz as (w & <- & Hw).
    specialize (Pa _ Hy). specialize (Pb _ Hw). destruct (eqb _ _); nia.
  - apply in_map_iff. exists pa. auto.
Qed.

Lemma tp_wf : forall ref a b, wf a -> wf b -> wf (tensor_product L a b ref).
Proof.
  intros ref a b Ha Hb. split; [apply tp_nodup|].
  intros [k v] Hi. cbn. pose proof (in_map fst _ _ Hi) as Hk. cbn in Hk.
  rewrite <- (bget_in _ k v (tp_nodup ref a b) Hi).
  apply tp_keys in Hk. destruct Hk as (Hr & Hk). rewrite tp_get, Hr. now apply tp_sum_pos.
Qed.

(* tp_sum counts pairs of states *)
Lemma cnt_map_add : forall k l q, cnt q (map (fun b => qadd L k b) l) = zsum (map (fun b => if eqb (qadd L k b) q then 1 else 0) l).
Proof. induction l; intros; cbn [map cnt]; [reflexivity|]. now rewrite zsum_cons, IHl. Qed.
Lemma cnt_flat_map : forall (A : Type) (f : A -> list L) l q, cnt q (flat_map f l) = zsum (map (fun a => cnt q (f a)) l).
Proof. induction l; intros; cbn [flat_map map]; [reflexivity|]. now rewrite cnt_app, zsum_cons, IHl. Qed.
Lemma zsum_map_flat : forall (A B : Type) (g : B -> Z) (f : A -> list B) l,
  zsum (map g (flat_map f l)) = zsum (map (fun a => zsum (map g (f a))) l).
Proof. induction l; cbn [flat_map map]; [reflexivity|]. now rewrite map_app, zsum_app, zsum_cons, IHl. Qed.
Lemma zsum_repeat : forall (A : Type) (g : A -> Z) k n, zsum (map g (repeat k n)) = Z.of_nat n * g k.
Proof. induction n; cbn [repeat map]; [cbn; lia|]. rewrite zsum_cons, IHn. lia. Qed.
Lemma zsum_states : forall (g : L -> Z) d, (forall p, In p d -> 0 <= snd p) ->
  zsum (map g (states d)) = zsum (map (fun p => snd p * g (fst p)) d).
Proof.
  intros g d H. unfold states. rewrite zsum_map_flat. apply zsum_map_ext. intros p Hp.
  rewrite zsum_repeat. specialize (H p Hp). rewrite Z2Nat.id; lia.
Qed.

Lemma tp_sum_states : forall a b q, (forall p, In p a -> 0 <= snd p) -> (forall p, In p b -> 0 <= snd p) ->
  tp_sum a b q = cnt q (sums (states a) (states b)).
Proof.
  intros a b q Ha Hb. unfold sums. rewrite cnt_flat_map.
  rewrite (zsum_states (fun x => cnt q (map (fun b0 => qadd L x b0) (states b)))) by auto.
  unfold tp_sum. apply zsum_map_ext. intros pa Hpa.
  rewrite cnt_map_add, (zsum_states (fun x => if eqb (qadd L (fst pa) x) q then 1 else 0)) by auto.
  rewrite <- zsum_map_mul. apply zsum_map_ext. intros pb Hpb. destruct (eqb _ _); lia.
Qed.

Lemma wf_vals : forall d, wf d -> forall p, In p d -> 0 <= snd p.
Proof. intros d (_ & H) p Hp. specialize (H p Hp). lia. Qed.
Lemma wf_get_states : forall d q, wf d -> bget L d q = cnt q (states d).
Proof. intros d q H. apply bget_states; [apply H|now apply wf_vals]. Qed.

Lemma cnt_filter : forall (f : L -> bool) q l, cnt q (filter f l) = if f q then cnt q l else 0.
Proof.
  induction l; cbn [filter cnt]; [destruct (f q); reflexivity|].
  destruct (espec a q).
  - subst. destruct (f q) eqn:E; cbn [cnt]; rewrite ?qeqb_refl, IHl; lia.
  - destruct (f a); cbn [cnt]; [destruct (espec a q); [congruence|]|]; rewrite IHl; destruct (f q); lia.
Qed.

Lemma tp_states : forall ref a b, wf a -> wf b ->
  Permutation (states (tensor_product L a b ref))
              (filter (fun q => in_ref L ref q) (sums (states a) (states b))).
Proof.
  intros ref a b Ha Hb. apply cnt_perm. intros q.
  rewrite <- wf_get_states by now apply tp_wf.
  rewrite tp_get, cnt_filter, tp_sum_states by (now apply wf_vals). reflexivity.
Qed.

Lemma filter_true : forall (A : Type) (l : list A), filter (fun _ => true) l = l.
Proof. induction l; cbn; congruence. Qed.
Lemma mul_states : forall a b, wf a -> wf b -> Permutation (states (bmul L a b)) (sums (states a) (states b)).
Proof.
  intros a b Ha Hb. unfold bmul. rewrite (tp_states None a b Ha Hb). cbn [in_ref]. now rewrite filter_true.
Qed.

Lemma n_bonds_states : forall d, (forall p, In p d -> 0 <= snd p) -> n_bonds L d = Z.of_nat (length (states d)).
Proof.
  induction d as [|[k v] d IH]; intros H; [reflexivity|].
  unfold n_bonds in *. cbn [map snd]. rewrite zsum_cons.
  unfold states; cbn [flat_map fst snd]. fold (states d).
  rewrite app_length, repeat_length, IH by (intros; apply H; now right).
  specialize (H (k, v) (or_introl eq_refl)). cbn in H. lia.
Qed.
Lemma sums_length : forall la lb, length (sums la lb) = (length la * length lb)%nat.
Proof. induction la; intros; cbn [sums flat_map]; [reflexivity|]. rewrite app_length, map_length. fold (sums la lb). rewrite IHla. cbn. lia. Qed.

Lemma sums_comm : forall la lb q, cnt q (sums la lb) = cnt q (sums lb la).
Proof.
  intros. unfold sums. rewrite !cnt_flat_map.
  rewrite (zsum_map_ext _ (fun a => cnt q (map (fun b => qadd L a b) lb))
     (fun a => zsum (map (fun b => if eqb (qadd L a b) q then 1 else 0) lb))) by (intros; apply cnt_map_add).
  rewrite zsum_swap. apply zsum_map_ext. intros b Hb. rewrite cnt_map_add.
  apply zsum_map_ext. intros a Ha. now rewrite qadd_comm.
Qed.
Lemma sums_map : forall k la lb, map (fun b => qadd L k b) (sums la lb) = sums (map (fun a => qadd L k a) la) lb.
Proof.
  induction la; intros; cbn [sums flat_map map]; [reflexivity|].
  rewrite map_app, map_map. fold (sums la lb). rewrite IHla. f_equal.
  apply map_ext. intros. apply qadd_assoc.
Qed.
Lemma sums_app : forall la la' lb, sums (la ++ la') lb = sums la lb ++ sums la' lb.
Proof. intros. unfold sums. apply flat_map_app. Qed.
Lemma sums_assoc : forall la lb lc, sums la (sums lb lc) = sums (sums la lb) lc.
Proof.
  induction la; intros; [reflexivity|].
  change (sums (a :: la) (sums lb lc)) with (map (fun b => qadd L a b) (sums lb lc) ++ sums la (sums lb lc)).
  change (sums (a :: la) lb) with (map (fun b => qadd L a b) lb ++ sums la lb).
  now rewrite IHla, sums_app, sums_map.
Qed.
Lemma sums_perm : forall la la' lb lb', Permutation la la' -> Permutation lb lb' -> Permutation (sums la lb) (sums la' lb').
Proof.
  intros la la' lb lb' H1 H2. apply Permutation_trans with (sums la' lb).
  - unfold sums. apply Permutation_flat_map. exact H1.
  - apply cnt_perm. intros q. rewrite (sums_comm la' lb), (sums_comm la' lb').
    apply cnt_of_perm. unfold sums. apply Permutation_flat_map. exact H2.
Qed.

(* two well-formed Counters with the same states agree on every label *)
Lemma states_get : forall a b, wf a -> wf b -> Permutation (states a) (states b) -> forall q, bget L a q = bget L b q.
Proof. intros. rewrite !wf_get_states by auto. now apply cnt_of_perm. Qed.

(** ** negation *)
Lemma keys_bneg_raw : forall a : binfo, keys (map (fun p => (qneg L (fst p), snd p)) a) = map (qneg L) (keys a).
Proof. intros. unfold keys. now rewrite !map_map. Qed.
Lemma bneg_eq : forall a, NoDup (keys a) -> bneg L a = map (fun p => (qneg L (fst p), snd p)) a.
Proof.
  intros a H. unfold bneg. apply dict_of_nodup; [apply espec|].
  rewrite keys_bneg_raw. apply FinFun.Injective_map_NoDup; auto. intros x y. apply qneg_inj.
Qed.
Lemma bneg_wf : forall a, wf a -> wf (bneg L a).
Proof.
  intros a (H & P). rewrite bneg_eq by auto. split.
  - rewrite keys_bneg_raw. apply FinFun.Injective_map_NoDup; auto. intros x y. apply qneg_inj.
  - intros p Hp. apply in_map_iff in Hp. destruct Hp as (x & <- & Hx). cbn. now apply P.
Qed.
Lemma map_repeat' : forall (A B : Type) (f : A -> B) x n, map f (repeat x n) = repeat (f x) n.
Proof. induction n; cbn; congruence. Qed.
Lemma bneg_states : forall a, NoDup (keys a) -> states (bneg L a) = map (qneg L) (states a).
Proof.
  intros a H. rewrite bneg_eq by auto. clear H. unfold states. induction a as [|[k v] a IH]; [reflexivity|].
  cbn [map flat_map fst snd]. rewrite map_app, IH, map_repeat'. reflexivity.
Qed.
Lemma bneg_keys : forall a, NoDup (keys a) -> keys (bneg L a) = map (qneg L) (keys a).
Proof. intros. rewrite bneg_eq by auto. apply keys_bneg_raw. Qed.

(** ** and, or, add *)
Lemma fold_set_get : forall (f : L * Z -> bool) (g : L * Z -> Z) (l : binfo) d q, NoDup (keys l) ->
  bget L (fold_left (fun r p => if f p then bset L r (fst p) (g p) else r) l d) q
  = match dget eqb l q with
    | Some v => if f (q, v) then g (q, v) else bget L d q
    | None => bget L d q
    end.
Proof.
  induction l as [|[k v] l IH]; intros d q Hn; cbn [fold_left dget]; [reflexivity|].
  inversion Hn; subst. rewrite IH by auto.
  assert (Hd: bget L (if f (k, v) then bset L d (fst (k, v)) (g (k, v)) else d) q
              = if f (k,v) && eqb k q then g (k, v) else bget L d q).
  { destruct (f (k, v)); cbn [andb fst]; [apply bget_bset|reflexivity]. }
  rewrite Hd. destruct (espec k q) as [->|N].
  - destruct (dget eqb l q) eqn:E; [apply dget_some_key in E; [tauto|apply espec]|].
    rewrite andb_true_r. destruct (f (q, v)); reflexivity.
  - rewrite andb_false_r. reflexivity.
Qed.
Lemma fold_set_wf : forall (f : L * Z -> bool) (g : L * Z -> Z) (l : binfo) d,
  (forall p, In p l -> f p = true -> 0 < g p) -> wf d ->
  wf (fold_left (fun r p => if f p then bset L r (fst p) (g p) else r) l d).
Proof.
  induction l as [|p l IH]; intros d H Hd; cbn [fold_left]; [auto|].
  apply IH; [intros; apply H; [now right|auto]|].
  destruct (f p) eqn:E; [|auto]. destruct Hd as (Hn & Hp).
  assert (Hn': NoDup (keys (bset L d (fst p) (g p)))) by (apply nodup_dset; auto using espec).
  split; [auto|]. intros [k v] Hi. cbn.
  rewrite <- (bget_in _ k v Hn' Hi). rewrite bget_bset. destruct (espec (fst p) k).
  - apply H; [now left|auto].
  - pose proof (in_map fst _ _ Hi) as Hk. cbn in Hk. unfold bset in Hk. apply keys_dset_in in Hk; [|apply espec].
    destruct Hk as [Hk|Hk]; [|congruence]. apply bget_key in Hk. now apply (Hp _ Hk).
Qed.

Lemma dget_bget : forall d q, wf d -> dget eqb d q = if 0 <? bget L d q then Some (bget L d q) else None.
Proof.
  intros d q (Hn & Hp). unfold bget. destruct (dget eqb d q) eqn:E; [|reflexivity].
  apply (dget_in eqb espec) in E. specialize (Hp _ E). cbn in Hp.
  destruct (Z.ltb_spec 0 z); [reflexivity|lia].
Qed.

Lemma wf_nil : wf []. Proof. split; [constructor|intros p []]. Qed.

Lemma band_get : forall a b q, wf a -> wf b -> bget L (band L a b) q = Z.min (bget L a q) (bget L b q).
Proof.
  intros a b q Ha Hb. unfold band.
  rewrite (fold_set_get (fun p => 0 <? (if snd p <? bget L b (fst p) then snd p else bget L b (fst p)))
    (fun p => if snd p <? bget L b (fst p) then snd p else bget L b (fst p))) by apply Ha.
  rewrite dget_bget by auto. cbn [fst snd].
  pose proof (wf_nonneg a q Ha). pose proof (wf_nonneg b q Hb).
  change (bget L [] q) with 0.
  destruct (Z.ltb_spec 0 (bget L a q)); [|lia].
  destruct (Z.ltb_spec (bget L a q) (bget L b q));
  match goal with |- context[0 <? ?x] => destruct (Z.ltb_spec 0 x) end; lia.
Qed.
Lemma band_wf : forall a b, wf (band L a b).
Proof.
  intros. apply (fold_set_wf (fun p => 0 <? (if snd p <? bget L b (fst p) then snd p else bget L b (fst p)))
    (fun p => if snd p <? bget L b (fst p) then snd p else bget L b (fst p))); [|apply wf_nil].
  intros p _ H. lia.
Qed.

Lemma bmem_bget : forall d q, wf d -> bmem L d q = (0 <? bget L d q).
Proof.
  intros d q H. apply eq_true_iff_eq. rewrite bmem_in, Z.ltb_lt. symmetry. now apply wf_get.
Qed.

Lemma merge_get : forall a b r1 q, wf b -> wf a -> 
  bget L (fold_left (fun r p => if negb (bmem L a (fst p)) && (0 <? snd p) then bset L r (fst p) (snd p) else r) b r1) q
  = if (0 <? bget L b q) && negb (0 <? bget L a q) then bget L b q else bget L r1 q.
Proof.
  intros a b r1 q Hb Ha.
  rewrite (fold_set_get (fun p => negb (bmem L a (fst p)) && (0 <? snd p)) snd) by apply Hb.
  rewrite dget_bget by auto. cbn [fst snd]. rewrite bmem_bget by auto.
  destruct (0 <? bget L b q) eqn:E, (0 <? bget L a q); cbn; rewrite ?E; reflexivity.
Qed.
Lemma bor_get : forall a b q, wf a -> wf b -> bget L (bor L a b) q = Z.max (bget L a q) (bget L b q).
Proof.
  intros a b q Ha Hb. unfold bor. rewrite merge_get by auto.
  rewrite (fold_set_get (fun p => 0 <? (if snd p <? bget L b (fst p) then bget L b (fst p) else snd p))
    (fun p => if snd p <? bget L b (fst p) then bget L b (fst p) else snd p)) by apply Ha.
  rewrite dget_bget by auto. cbn [fst snd].
  pose proof (wf_nonneg a q Ha). pose proof (wf_nonneg b q Hb). change (bget L [] q) with 0.
  destruct (Z.ltb_spec 0 (bget L a q)), (Z.ltb_spec 0 (bget L b q)); cbn [andb negb]; try lia;
  destruct (Z.ltb_spec (bget L a q) (bget L b q));
  match goal with |- context[0 <? ?x] => destruct (Z.ltb_spec 0 x) end; lia.
Qed.
Lemma bor_wf : forall a b, wf (bor L a b).
Proof.
  intros. unfold bor. apply (fold_set_wf (fun p => negb (bmem L a (fst p)) && (0 <? snd p)) snd).
  - intros p _ H. lia.
  - apply (fold_set_wf (fun p => 0 <? (if snd p <? bget L b (fst p) then bget L b (fst p) else snd p))
    (fun p => if snd p <? bget L b (fst p) then bget L b (fst p) else snd p)); [|apply wf_nil].
    intros p _ H. lia.
Qed.
Lemma bplus_get : forall a b q, wf a -> wf b -> bget L (bplus L a b) q = bget L a q + bget L b q.
Proof.
  intros a b q Ha Hb. unfold bplus. rewrite merge_get by auto.
  rewrite (fold_set_get (fun p => 0 <? snd p + bget L b (fst p)) (fun p => snd p + bget L b (fst p))) by apply Ha.
  rewrite dget_bget by auto. cbn [fst snd].
  pose proof (wf_nonneg a q Ha). pose proof (wf_nonneg b q Hb). change (bget L [] q) with 0.
  destruct (Z.ltb_spec 0 (bget L a q)), (Z.ltb_spec 0 (bget L b q)); cbn [andb negb]; try lia;
  match goal with |- context[0 <? ?x] => destruct (Z.ltb_spec 0 x) end; lia.
Qed.
Lemma bplus_wf : forall a b, wf (bplus L a b).
Proof.
  intros. unfold bplus. apply (fold_set_wf (fun p => negb (bmem L a (fst p)) && (0 <? snd p)) snd).
  - intros p _ H. lia.
  - apply (fold_set_wf (fun p => 0 <? snd p + bget L b (fst p)) (fun p => snd p + bget L b (fst p))); [|apply wf_nil].
    intros p _ H. lia.
Qed.

(** ** filter *)
Lemma NoDup_keys_filter : forall (f : L * Z -> bool) (l : binfo), NoDup (keys l) -> NoDup (keys (filter f l)).
Proof.
  induction l as [|[k v] l IH]; intros H; cbn [filter]; [constructor|]. inversion H; subst.
  destruct (f (k, v)); [|auto]. cbn [keys map fst]. constructor; auto.
  intro Hi. apply H2. apply in_map_iff in Hi. destruct Hi as (x & E & Hx). apply filter_In in Hx.
  apply in_map_iff. exists x. tauto.
Qed.
Lemma bfilter_eq : forall a b, NoDup (keys a) ->
  bfilter L a b = map (fun p => (fst p, Z.min (bget L b (fst p)) (snd p))) (filter (fun p => bmem L b (fst p)) a).
Proof.
  intros a b H. unfold bfilter. apply dict_of_nodup; [apply espec|].
  unfold keys. rewrite map_map. cbn [fst]. apply NoDup_keys_filter. auto.
Qed.
Lemma bfilter_keys : forall a b x, NoDup (keys a) ->
  (In x (keys (bfilter L a b)) <-> In x (keys a) /\ In x (keys b)).
Proof.
  intros a b x H. rewrite bfilter_eq by auto. unfold keys at 1. rewrite map_map. cbn [fst].
  rewrite in_map_iff. split.
  - intros (p & <- & Hp). apply filter_In in Hp. destruct Hp as (Hp & Hm). rewrite bmem_in in Hm.
    split; [now apply in_map|auto].
  - intros (Ha & Hb). apply in_map_iff in Ha. destruct Ha as (p & <- & Hp). exists p. split; auto.
    apply filter_In. split; auto. now apply bmem_in.
Qed.
Lemma bfilter_wf : forall a b, wf a -> wf b -> wf (bfilter L a b).
Proof.
  intros a b (Na & Pa) Hb. rewrite bfilter_eq by auto. split.
  - unfold keys. rewrite map_map. cbn [fst]. apply NoDup_keys_filter. auto.
  - intros p Hp. apply in_map_iff in Hp. destruct Hp as (x & <- & Hx). cbn. apply filter_In in Hx.
    destruct Hx as (Hx & Hm). rewrite bmem_bget in Hm by auto. specialize (Pa _ Hx). lia.
Qed.
Lemma bfilter_get : forall a b q, wf a -> wf b -> bget L (bfilter L a b) q = Z.min (bget L a q) (bget L b q).
Proof.
  intros a b q Ha Hb.
  destruct (in_dec (fun a b => reflect_dec _ _ (espec a b)) q (keys (bfilter L a b))) as [Hi|Hi].
  - pose proof Hi as Hi'. apply bget_key in Hi. rewrite (bfilter_eq a b (proj1 Ha)) in Hi at 2.
    apply in_map_iff in Hi. destruct Hi as ([k v] & E & Hx). injection E as E1 E2. cbn in E1. subst k.
    rewrite <- E2. apply filter_In in Hx. cbn [fst snd]. destruct Hx as [Hx _].
    rewrite (bget_in a q v (proj1 Ha) Hx). lia.
  - rewrite (bget_notin _ _ Hi). rewrite bfilter_keys in Hi by apply Ha.
    pose proof (wf_get a q Ha). pose proof (wf_get b q Hb).
    pose proof (wf_nonneg a q Ha). pose proof (wf_nonneg b q Hb).
    destruct (Z.eq_dec (bget L a q) 0), (Z.eq_dec (bget L b q) 0); try lia.
    exfalso. apply Hi. split; [apply H|apply H0]; lia.
Qed.

(** ** truncation arithmetic *)
Lemma ceil_div_spec : forall a b, 0 < b -> b * (ceil_div a b - 1) < a <= b * ceil_div a b.
Proof. intros a b H. unfold ceil_div. nia. Qed.
Lemma scale_ceil_pos : forall v m n, 0 < v -> 0 <= m -> 0 < n -> 1 <= scale_ceil v m n.
Proof.
  intros v m n Hv Hm Hn. unfold scale_ceil.
  pose proof (ceil_div_spec (10 * v * m + n) (10 * n) ltac:(lia)). nia.
Qed.
Lemma scale_ceil_upper : forall v m n, 0 < n -> 10 * n * scale_ceil v m n < 10 * v * m + 11 * n.
Proof.
  intros v m n Hn. unfold scale_ceil.
  pose proof (ceil_div_spec (10 * v * m + n) (10 * n) ltac:(lia)). nia.
Qed.
Lemma scale_ceil_lower : forall v m n, 0 < n -> 10 * v * m + n <= 10 * n * scale_ceil v m n.
Proof.
  intros v m n Hn. unfold scale_ceil.
  pose proof (ceil_div_spec (10 * v * m + n) (10 * n) ltac:(lia)). nia.
Qed.
Lemma scale_ceil_le : forall v m n, 0 < v -> m < n -> 0 < n -> scale_ceil v m n <= v + 1.
Proof.
  intros v m n Hv Hm Hn. pose proof (scale_ceil_upper v m n Hn). nia.
Qed.
Lemma round_spec : forall a b, 0 < b -> 2 * b * round_half_even a b <= 2 * a + b /\ 2 * a - b <= 2 * b * round_half_even a b.
Proof.
  intros a b H. unfold round_half_even. pose proof (Z.div_mod a b ltac:(lia)) as E.
  pose proof (Z.mod_pos_bound a b H) as B.
  set (q := a / b) in *. set (r := a mod b) in *. clearbody q r.
  destruct (Z.ltb_spec (2 * r) b); [nia|]. destruct (Z.ltb_spec b (2 * r)); [nia|].
  destruct (Z.even q); nia.
Qed.
Lemma scale_round_le : forall v m n, 0 < v -> m < n -> 0 < n -> scale_round v m n <= v.
Proof.
  intros v m n Hv Hm Hn. unfold scale_round.
  pose proof (round_spec (10 * v * m + n) (10 * n) ltac:(lia)). nia.
Qed.
Lemma scale_round_upper : forall v m n, 0 < n -> 10 * n * scale_round v m n <= 10 * v * m + 6 * n.
Proof.
  intros v m n Hn. unfold scale_round.
  pose proof (round_spec (10 * v * m + n) (10 * n) ltac:(lia)). nia.
Qed.
Lemma scale_round_nonneg : forall v m n, 0 < v -> 0 <= m -> 0 < n -> 0 <= scale_round v m n.
Proof.
  intros v m n Hv Hm Hn. unfold scale_round.
  pose proof (round_spec (10 * v * m + n) (10 * n) ltac:(lia)). nia.
Qed.

Lemma n_bonds_pos_in : forall d p, wf d -> In p d -> 0 < n_bonds L d.
Proof.
  intros d p (_ & P) Hp. unfold n_bonds. assert (snd p <= zsum (map snd d)).
  { apply zsum_ge_in; [|now apply in_map]. intros x Hx. apply in_map_iff in Hx. destruct Hx as (y & <- & Hy).
    specialize (P _ Hy). lia. }
  specialize (P _ Hp). lia.
Qed.

(* one truncation step with a reference keeps all sectors that the reference contains *)
Lemma truncate_keys : forall d m ref, keys (truncate L d m ref) = keys d.
Proof. intros. unfold truncate. destruct (m <? n_bonds L d); [|reflexivity]. unfold keys. now rewrite map_map. Qed.
Lemma truncate_wf : forall d m ref, wf d -> 0 <= m ->
  (match ref with None => True | Some r => forall k, In k (keys d) -> 0 < bget L r k end) ->
  wf (truncate L d m ref).
Proof.
  intros d m ref Hd Hm Hr. split; [rewrite truncate_keys; apply Hd|].
  unfold truncate. destruct (m <? n_bonds L d) eqn:E; [|apply Hd].
  intros p Hp. apply in_map_iff in Hp. destruct Hp as (x & <- & Hx). cbn [snd].
  pose proof (scale_ceil_pos (snd x) m (n_bonds L d) (proj2 Hd _ Hx) Hm (n_bonds_pos_in _ _ Hd Hx)).
  unfold cap_ref. destruct ref as [r|]; [|lia]. specialize (Hr (fst x) (in_map fst _ _ Hx)). lia.
Qed.

(** ** MPSInfo: full-CI dimensions *)
(* specification: labels of all choices of one state per site *)
Fixpoint all_sums (basis : list binfo) : list L :=
  match basis with [] => [q0 L] | b :: r => sums (states b) (all_sums r) end.

Lemma left_scan_spec : forall basis l d, wf l -> Forall wf basis -> (d <= length basis)%nat ->
  exists x, nth_error (left_scan L l basis) d = Some x /\ wf x /\
    Permutation (states x) (sums (states l) (all_sums (firstn d basis))).
Proof.
  induction basis as [|b basis IH]; intros l d Hl Hb Hd; cbn [left_scan].
  - cbn in Hd. assert (d = 0)%nat by lia. subst. exists l. repeat split; try apply Hl; auto.
    cbn. unfold sums. clear. induction (states l); cbn; [constructor|]. rewrite qadd_0_r. now constructor.
  - destruct d as [|d].
    + exists l. repeat split; try apply Hl; auto.
      cbn. unfold sums. clear. induction (states l); cbn; [constructor|]. rewrite qadd_0_r. now constructor.
    + inversion Hb; subst. destruct (IH (bmul L l b) d) as (x & E & W & P); auto; [now apply tp_wf|cbn in Hd; lia|].
      exists x. split; [exact E|]. split; [exact W|]. rewrite P. cbn [firstn all_sums].
      rewrite sums_assoc. apply sums_perm; [now apply mul_states|reflexivity].
Qed.

Lemma left_scan_length : forall basis l, length (left_scan L l basis) = S (length basis).
Proof. induction basis; intros; cbn; auto. Qed.
Lemma right_raw_length : forall tgt basis, length (right_raw L tgt basis) = S (length basis).
Proof. induction basis; intros; cbn; auto. Qed.
Lemma zip_with_nth : forall (A B C : Type) (f : A -> B -> C) la lb d a b,
  nth_error la d = Some a -> nth_error lb d = Some b -> nth_error (zip_with f la lb) d = Some (f a b).
Proof.
  induction la; destruct lb, d; cbn; intros; try discriminate; auto.
  congruence.
Qed.

Lemma sums_neg : forall la lb, map (qneg L) (sums la lb) = sums (map (qneg L) la) (map (qneg L) lb).
Proof.
  induction la; intros; cbn [sums flat_map map]; [reflexivity|]. rewrite map_app. fold (sums la lb).
  rewrite IHla. f_equal. rewrite !map_map. apply map_ext. intros. apply qneg_add.
Qed.
Lemma sums_single_r : forall la t, sums la [t] = map (fun a => qadd L a t) la.
Proof. induction la; intros; [reflexivity|]. change (sums (a :: la) [t]) with (qadd L a t :: sums la [t]). cbn [map]. now rewrite IHla. Qed.

Lemma right_raw_spec : forall tgt basis d, Forall wf basis -> (d <= length basis)%nat ->
  exists x, nth_error (right_raw L tgt basis) d = Some x /\ wf x /\
    Permutation (states x) (map (fun s => qsub L tgt s) (all_sums (skipn d basis))).
Proof.
  assert (Base: forall t : L, wf [(t, 1)]).
  { intros t. split; cbn; [repeat constructor; auto|]. intros p [<-|[]]. cbn. lia. }
  induction basis as [|b basis IH]; intros d Hb Hd; cbn [right_raw].
  - cbn in Hd. assert (d = 0)%nat by lia. subst. exists [(tgt, 1)]. repeat split; try apply Base.
    cbn. rewrite qsub_def, qneg_0, qadd_0_r. auto.
  - inversion Hb; subst. destruct d as [|d].
    + destruct (IH 0%nat) as (x & E & W & P); auto; [lia|].
      exists (bmul L (bneg L b) x). split; [|split].
      * cbn [nth_error]. destruct (right_raw L tgt basis) as [|y ys]; cbn [nth_error] in E; [discriminate|]. injection E as ->. reflexivity.
      * apply tp_wf; auto. now apply bneg_wf.
      * cbn [skipn all_sums] in *. rewrite mul_states; [|now apply bneg_wf|auto].
        rewrite bneg_states by apply H1. rewrite (sums_perm _ _ _ _ (Permutation_refl _) P).
        rewrite (map_ext (fun s => qsub L tgt s) (fun s => qadd L (qneg L s) tgt)).
        2:{ intros. rewrite qsub_def. apply qadd_comm. }
        rewrite (map_ext (fun s => qsub L tgt s) (fun s => qadd L (qneg L s) tgt)).
        2:{ intros. rewrite qsub_def. apply qadd_comm. }
        rewrite <- (map_map (qneg L) (fun s => qadd L s tgt) (all_sums basis)).
        rewrite <- (map_map (qneg L) (fun s => qadd L s tgt) (sums _ _)).
        rewrite sums_neg, <- !sums_single_r, sums_assoc. reflexivity.
    + cbn in Hd. destruct (IH d) as (x & E & W & P); auto; [lia|]. exists x. auto.
Qed.

Definition n_left (vac : L) (basis : list binfo) (d : nat) (q : L) : Z :=
  cnt q (map (fun s => qadd L vac s) (all_sums (firstn d basis))).
Definition n_right (tgt : L) (basis : list binfo) (d : nat) (q : L) : Z :=
  cnt q (map (fun s => qsub L tgt s) (all_sums (skipn d basis))).

Lemma base_wf : forall t : L, wf [(t, 1)].
Proof. intros t. split; cbn; [repeat constructor; auto|]. intros p [<-|[]]. cbn. lia. Qed.

Lemma left_raw_nth : forall vac basis d, Forall wf basis -> (d <= length basis)%nat ->
  exists x, nth_error (left_raw L vac basis) d = Some x /\ wf x /\ forall q, bget L x q = n_left vac basis d q.
Proof.
  intros vac basis d Hb Hd. destruct (left_scan_spec basis [(vac, 1)] d (base_wf vac) Hb Hd) as (x & E & W & P).
  exists x. split; [exact E|]. split; [exact W|]. intros q. rewrite wf_get_states by auto.
  rewrite (cnt_of_perm q _ _ P). unfold n_left. change (states [(vac, 1)]) with [vac]. unfold sums. cbn [flat_map]. now rewrite app_nil_r.
Qed.
Lemma right_raw_nth : forall tgt basis d, Forall wf basis -> (d <= length basis)%nat ->
  exists x, nth_error (right_raw L tgt basis) d = Some x /\ wf x /\ forall q, bget L x q = n_right tgt basis d q.
Proof.
  intros tgt basis d Hb Hd. destruct (right_raw_spec tgt basis d Hb Hd) as (x & E & W & P).
  exists x. split; [exact E|]. split; [exact W|]. intros q. rewrite wf_get_states by auto.
  now rewrite (cnt_of_perm q _ _ P).
Qed.

Lemma fci_left_nth : forall vac tgt basis d, Forall wf basis -> (d <= length basis)%nat ->
  exists x, nth_error (fci_left L vac tgt basis) d = Some x /\ wf x /\
    forall q, bget L x q = Z.min (n_left vac basis d q) (n_right tgt basis d q).
Proof.
  intros vac tgt basis d Hb Hd.
  destruct (left_raw_nth vac basis d Hb Hd) as (x & E & W & G).
  destruct (right_raw_nth tgt basis d Hb Hd) as (y & E' & W' & G').
  exists (bfilter L x y). split; [|split].
  - unfold fci_left. now apply zip_with_nth.
  - now apply bfilter_wf.
  - intros q. rewrite bfilter_get by auto. now rewrite G, G'.
Qed.
Lemma fci_right_nth : forall vac tgt basis d, Forall wf basis -> (d <= length basis)%nat ->
  exists x, nth_error (fci_right L vac tgt basis) d = Some x /\ wf x /\
    forall q, bget L x q = Z.min (n_left vac basis d q) (n_right tgt basis d q).
Proof.
  intros vac tgt basis d Hb Hd.
  destruct (fci_left_nth vac tgt basis d Hb Hd) as (x & E & W & G).
  destruct (right_raw_nth tgt basis d Hb Hd) as (y & E' & W' & G').
  exists (bfilter L y x). split; [|split].
  - unfold fci_right. now apply zip_with_nth.
  - now apply bfilter_wf.
  - intros q. rewrite bfilter_get by auto. rewrite G, G'. lia.
Qed.

(** ** MPSInfo: set_bond_dimension *)
(* linked ls: every label of the next bond is reached from a label of this bond through the site basis *)
Fixpoint linked_left (ks : list L) (basis : list binfo) (kss : list (list L)) : Prop :=
  match basis, kss with
  | b :: basis', ks' :: kss' =>
      (forall k, In k ks' -> exists ka kb, In ka ks /\ In kb (keys b) /\ k = qadd L ka kb)
      /\ linked_left ks' basis' kss'
  | _, _ => True
  end.

Lemma trunc_left_spec : forall m basis prev ls, 0 <= m -> wf prev -> Forall wf basis -> Forall wf ls ->
  linked_left (keys prev) basis (map keys ls) ->
  Forall wf (trunc_left L m prev basis ls) /\ map keys (trunc_left L m prev basis ls) = map keys ls.
Proof.
  induction basis as [|b basis IH]; intros prev ls Hm Hp Hb Hl Hk; [cbn; auto|].
  destruct ls as [|l ls]; [cbn; auto|]. inversion Hb; subst. inversion Hl; subst. cbn [trunc_left].
  cbn [map linked_left] in Hk. destruct Hk as [Hk1 Hk2].
  assert (W: wf (truncate L l m (Some (bmul L prev b)))).
  { apply truncate_wf; auto. intros k Hin. unfold bmul. rewrite tp_get. cbn. apply tp_sum_pos; auto. }
  destruct (IH (truncate L l m (Some (bmul L prev b))) ls) as [F K]; auto.
  - rewrite truncate_keys. auto.
  - split; [constructor; auto|]. cbn [map]. rewrite truncate_keys, K. reflexivity.
Qed.

Fixpoint linked_right (basis : list binfo) (kss : list (list L)) : Prop :=
  match basis, kss with
  | b :: basis', ks :: kss' =>
      (forall k, In k ks -> exists ka kb, In ka (hd [] kss') /\ In kb (keys b) /\ k = qadd L (qneg L kb) ka)
      /\ linked_right basis' kss'
  | _, _ => True
  end.

Lemma trunc_right_spec : forall m basis rs, 0 <= m -> Forall wf basis -> Forall wf rs ->
  linked_right basis (map keys rs) ->
  Forall wf (trunc_right L m basis rs) /\ map keys (trunc_right L m basis rs) = map keys rs.
Proof.
  induction basis as [|b basis IH]; intros rs Hm Hb Hr Hk; [cbn; auto|].
  destruct rs as [|r rs]; [cbn; auto|]. inversion Hb; subst. inversion Hr; subst. cbn [trunc_right].
  cbn [map linked_right] in Hk. destruct Hk as [Hk1 Hk2].
  destruct (IH rs) as [F K]; auto.
  assert (Hhd: keys (hd [] (trunc_right L m basis rs)) = hd [] (map keys rs)).
  { rewrite <- K. destruct (trunc_right L m basis rs); reflexivity. }
  assert (Whd: wf (hd [] (trunc_right L m basis rs))).
  { destruct (trunc_right L m basis rs); cbn; [apply wf_nil|now inversion F]. }
  assert (W: wf (truncate L r m (Some (bmul L (bneg L b) (hd [] (trunc_right L m basis rs)))))).
  { apply truncate_wf; auto. intros k Hin. unfold bmul. rewrite tp_get. cbn [in_ref].
    apply tp_sum_pos; auto; [now apply bneg_wf|].
    destruct (Hk1 k Hin) as (ka & kb & Ha & Hkb & ->). exists (qneg L kb), ka.
    rewrite bneg_keys by apply H1. rewrite Hhd. repeat split; auto. now apply in_map. }
  split; [constructor; auto|]. cbn [map]. rewrite truncate_keys, K. reflexivity.
Qed.

Lemma cnt_map_pos : forall (f : L -> L) l q, 0 < cnt q (map f l) <-> exists s, In s l /\ q = f s.
Proof.
  intros. rewrite cnt_pos_in, in_map_iff. split; intros (s & ? & ?); exists s; auto.
Qed.
Lemma in_sums : forall la lb q, In q (sums la lb) <-> exists a b, In a la /\ In b lb /\ q = qadd L a b.
Proof.
  intros. unfold sums. rewrite in_flat_map. split.
  - intros (a & Ha & H). apply in_map_iff in H. destruct H as (b & <- & Hb). exists a, b. auto.
  - intros (a & b & Ha & Hb & ->). exists a. split; auto. apply in_map_iff. exists b; auto.
Qed.
Lemma in_states : forall d q, wf d -> (In q (states d) <-> In q (keys d)).
Proof. intros d q H. rewrite <- cnt_pos_in, <- wf_get_states, wf_get by auto. reflexivity. Qed.
Lemma wf_get0 : forall d k, wf d -> bget L d k = 0 -> ~ In k (keys d).
Proof. intros d k H E Hi. apply wf_get in Hi; auto. lia. Qed.

(* snoc decomposition of all_sums *)
Lemma all_sums_snoc : forall bs b, Permutation (all_sums (bs ++ [b])) (sums (all_sums bs) (states b)).
Proof.
  induction bs; intros; cbn [app all_sums].
  - cbn. rewrite app_nil_r. rewrite sums_single_r.
    rewrite (map_ext (fun a => qadd L a (q0 L)) (fun a => a)) by apply qadd_0_r.
    rewrite (map_ext (fun a => qadd L (q0 L) a) (fun a => a)) by (intros; apply qadd_0_l). reflexivity.
  - rewrite (sums_perm _ _ _ _ (Permutation_refl _) (IHbs b)). rewrite sums_assoc. reflexivity.
Qed.
Lemma firstn_S_nth : forall (A : Type) (l : list A) d x, nth_error l d = Some x -> firstn (S d) l = firstn d l ++ [x].
Proof. induction l; destruct d; cbn; intros; try discriminate; [congruence|]. f_equal. now apply IHl. Qed.
Lemma skipn_nth : forall (A : Type) (l : list A) d x, nth_error l d = Some x -> skipn d l = x :: skipn (S d) l.
Proof. induction l; destruct d; cbn; intros; try discriminate; [congruence|]. now apply IHl. Qed.

(* key sets of fci dims *)
Definition reach (vac tgt : L) (basis : list binfo) (d : nat) (q : L) : Prop :=
  0 < n_left vac basis d q /\ 0 < n_right tgt basis d q.

Lemma reach_step_left : forall vac tgt basis d b k, Forall wf basis -> nth_error basis d = Some b ->
  reach vac tgt basis (S d) k -> exists ka kb, reach vac tgt basis d ka /\ In kb (keys b) /\ k = qadd L ka kb.
Proof.
  intros vac tgt basis d b k Hb Hd (Hl & Hr). unfold reach, n_left, n_right in *.
  apply cnt_map_pos in Hl. destruct Hl as (s & Hs & ->).
  rewrite (firstn_S_nth _ _ _ _ Hd) in Hs.
  apply (Permutation_in _ (all_sums_snoc _ _)) in Hs. apply in_sums in Hs. destruct Hs as (s1 & kb & H1 & H2 & ->).
  apply cnt_map_pos in Hr. destruct Hr as (t & Ht & E).
  assert (Wb: wf b) by (rewrite Forall_forall in Hb; apply Hb; eapply nth_error_In; eauto).
  exists (qadd L vac s1), kb. repeat split.
  - apply cnt_map_pos. exists s1. auto.
  - apply cnt_map_pos. rewrite (skipn_nth _ _ _ _ Hd). cbn [all_sums]. exists (qadd L kb t). split.
    + apply in_sums. exists kb, t. auto.
    + rewrite qsub_def in *. rewrite qneg_add.
      rewrite (qadd_comm L (qneg L kb)), qadd_assoc, <- E, <- !qadd_assoc, qadd_neg_r, qadd_0_r.
      reflexivity.
  - now apply in_states.
  - apply qadd_assoc.
Qed.

Lemma reach_step_right : forall vac tgt basis d b k, Forall wf basis -> nth_error basis d = Some b ->
  reach vac tgt basis d k -> exists ka kb, reach vac tgt basis (S d) ka /\ In kb (keys b) /\ k = qadd L (qneg L kb) ka.
Proof.
  intros vac tgt basis d b k Hb Hd (Hl & Hr). unfold reach, n_left, n_right in *.
  apply cnt_map_pos in Hr. destruct Hr as (t & Ht & E).
  rewrite (skipn_nth _ _ _ _ Hd) in Ht. cbn [all_sums] in Ht. apply in_sums in Ht.
  destruct Ht as (kb & t' & H1 & H2 & ->).
  apply cnt_map_pos in Hl. destruct Hl as (s & Hs & E').
  assert (Wb: wf b) by (rewrite Forall_forall in Hb; apply Hb; eapply nth_error_In; eauto).
  exists (qadd L k kb), kb. repeat split.
  - apply cnt_map_pos. rewrite (firstn_S_nth _ _ _ _ Hd). exists (qadd L s kb). split.
    + apply (Permutation_in _ (Permutation_sym (all_sums_snoc _ _))). apply in_sums. exists s, kb. auto.
    + rewrite E'. symmetry. apply qadd_assoc.
  - apply cnt_map_pos. exists t'. split; auto. rewrite E. rewrite !qsub_def, qneg_add.
    rewrite (qadd_comm L (qneg L kb)), qadd_assoc, <- qadd_assoc, qadd_neg, qadd_0_r. reflexivity.
  - now apply in_states.
  - rewrite (qadd_comm L k), qadd_assoc, qadd_neg, qadd_0_l. reflexivity.
Qed.

(* lists of key sets characterised by reach *)
Definition keyed (vac tgt : L) (basis : list binfo) (n : nat) (ls : list binfo) : Prop :=
  Forall wf ls /\ length ls = n.

Lemma fci_length : forall vac tgt basis, length (fci_left L vac tgt basis) = S (length basis)
  /\ length (fci_right L vac tgt basis) = S (length basis).
Proof.
  intros. assert (Z: forall A B C (f : A -> B -> C) la lb, length la = length lb -> length (zip_with f la lb) = length la).
  { induction la; destruct lb; cbn; intros; try discriminate; auto. }
  assert (E: length (fci_left L vac tgt basis) = S (length basis)).
  { unfold fci_left, left_raw. rewrite Z; rewrite left_scan_length; rewrite ?right_raw_length; auto. }
  split; auto. unfold fci_right. rewrite Z; rewrite right_raw_length; auto.
Qed.

Lemma nth_error_ex : forall (A : Type) (l : list A) d, (d < length l)%nat -> exists x, nth_error l d = Some x.
Proof. intros. destruct (nth_error l d) eqn:E; eauto. apply nth_error_None in E. lia. Qed.

(* a list of bonds whose key sets are the reachable sets is linked *)
Definition reach_keys (vac tgt : L) (basis : list binfo) (ls : list binfo) : Prop :=
  length ls = S (length basis) /\
  forall d x, nth_error ls d = Some x -> wf x /\ forall k, In k (keys x) <-> reach vac tgt basis d k.

Lemma fci_left_reach : forall vac tgt basis, Forall wf basis -> reach_keys vac tgt basis (fci_left L vac tgt basis).
Proof.
  intros vac tgt basis Hb. destruct (fci_length vac tgt basis) as [E _]. split; auto.
  intros d x Hx. assert (d <= length basis)%nat.
  { assert (d < length (fci_left L vac tgt basis))%nat by (apply nth_error_Some; congruence). lia. }
  destruct (fci_left_nth vac tgt basis d Hb H) as (y & Ey & W & G). rewrite Hx in Ey. injection Ey as <-.
  split; auto. intros k. rewrite <- wf_get by auto. rewrite G. unfold reach. lia.
Qed.
Lemma fci_right_reach : forall vac tgt basis, Forall wf basis -> reach_keys vac tgt basis (fci_right L vac tgt basis).
Proof.
  intros vac tgt basis Hb. destruct (fci_length vac tgt basis) as [_ E]. split; auto.
  intros d x Hx. assert (d <= length basis)%nat.
  { assert (d < length (fci_right L vac tgt basis))%nat by (apply nth_error_Some; congruence). lia. }
  destruct (fci_right_nth vac tgt basis d Hb H) as (y & Ey & W & G). rewrite Hx in Ey. injection Ey as <-.
  split; auto. intros k. rewrite <- wf_get by auto. rewrite G. unfold reach. lia.
Qed.

Lemma linked_left_of : forall vac tgt basis n bs (ls : list binfo) (prev : binfo),
  Forall wf basis -> bs = skipn n basis ->
  (forall k, In k (keys prev) <-> reach vac tgt basis n k) ->
  (forall d x, nth_error ls d = Some x -> forall k, In k (keys x) <-> reach vac tgt basis (S (n + d)) k) ->
  linked_left (keys prev) bs (map keys ls).
Proof.
  intros vac tgt basis n bs. revert n. induction bs as [|b bs IH]; intros n ls prev Hb Hs Hp Hl; [cbn; auto|].
  destruct ls as [|l ls]; [cbn; auto|]. cbn [map linked_left].
  assert (En: nth_error basis n = Some b).
  { clear - Hs. revert basis Hs. induction n; intros [|x basis]; cbn; intros; try discriminate; [congruence|].
    now apply IHn. }
  split.
  - intros k Hk. apply (Hl 0%nat l eq_refl) in Hk. rewrite Nat.add_0_r in Hk.
    destruct (reach_step_left vac tgt basis n b k Hb En Hk) as (ka & kb & Ha & Hkb & ->).
    exists ka, kb. rewrite Hp. auto.
  - apply (IH (S n)); auto.
    + rewrite (skipn_nth _ _ _ _ En) in Hs. now injection Hs.
    + intros k. rewrite (Hl 0%nat l eq_refl). now rewrite Nat.add_0_r.
    + intros d x Hx k. rewrite (Hl (S d) x Hx). now rewrite Nat.add_succ_r.
Qed.

Lemma linked_right_of : forall vac tgt basis n bs (rs : list binfo),
  Forall wf basis -> bs = skipn n basis -> length rs = S (length bs) ->
  (forall d x, nth_error rs d = Some x -> forall k, In k (keys x) <-> reach vac tgt basis (n + d) k) ->
  linked_right bs (map keys rs).
Proof.
  intros vac tgt basis n bs. revert n. induction bs as [|b bs IH]; intros n rs Hb Hs Hlen Hl; [cbn; auto|].
  destruct rs as [|r rs]; [cbn; auto|]. cbn [map linked_right].
  assert (En: nth_error basis n = Some b).
  { clear - Hs. revert basis Hs. induction n; intros [|x basis]; cbn; intros; try discriminate; [congruence|].
    now apply IHn. }
  split.
  - intros k Hk. apply (Hl 0%nat r eq_refl) in Hk. rewrite Nat.add_0_r in Hk.
    destruct (reach_step_right vac tgt basis n b k Hb En Hk) as (ka & kb & Ha & Hkb & ->).
    exists ka, kb. destruct rs as [|r' rs]; [cbn in Hlen; lia|]. cbn [map hd].
    rewrite (Hl 1%nat r' eq_refl). rewrite Nat.add_1_r. auto.
  - apply (IH (S n)); auto.
    + rewrite (skipn_nth _ _ _ _ En) in Hs. now injection Hs.
    + intros d x Hx k. rewrite (Hl (S d) x Hx). now rewrite Nat.add_succ_r.
Qed.

Lemma reach_keys_of_keys : forall vac tgt basis ls ls', reach_keys vac tgt basis ls ->
  Forall wf ls' -> map keys ls' = map keys ls -> reach_keys vac tgt basis ls'.
Proof.
  intros vac tgt basis ls ls' (Hlen & H) Hw Hk. split.
  - pose proof (f_equal (@length _) Hk) as E. rewrite !map_length in E. exact (eq_trans E Hlen).
  - intros d x Hx. split; [rewrite Forall_forall in Hw; apply Hw; eapply nth_error_In; eauto|].
    intros k. pose proof (map_nth_error keys _ _ Hx) as E. rewrite Hk in E.
    rewrite nth_error_map in E. destruct (nth_error ls d) eqn:El; cbn in E; [|discriminate].
    injection E as E. rewrite <- E. now apply (H d).
Qed.

Lemma step_left_reach : forall vac tgt basis m ls, Forall wf basis -> 0 <= m ->
  reach_keys vac tgt basis ls -> reach_keys vac tgt basis (step_left L m basis ls).
Proof.
  intros vac tgt basis m ls Hb Hm Hr. pose proof Hr as (Hlen & H). destruct ls as [|l0 ls]; [auto|].
  cbn [step_left].
  assert (Fw: Forall wf (l0 :: ls)).
  { apply Forall_forall. intros x Hx. apply In_nth_error in Hx. destruct Hx as (d & Hd). now apply (H d). }
  inversion Fw; subst.
  assert (Lk: linked_left (keys l0) basis (map keys ls)).
  { apply (linked_left_of vac tgt basis 0 basis ls l0); auto.
    - apply (H 0%nat l0 eq_refl).
    - intros d x Hx. apply (H (S d) x Hx). }
  destruct (trunc_left_spec m basis l0 ls Hm H2 Hb H3 Lk) as [F K].
  apply (reach_keys_of_keys vac tgt basis (l0 :: ls)); auto. cbn [map]. now rewrite K.
Qed.
Lemma trunc_right_reach : forall vac tgt basis m rs, Forall wf basis -> 0 <= m ->
  reach_keys vac tgt basis rs -> reach_keys vac tgt basis (trunc_right L m basis rs).
Proof.
  intros vac tgt basis m rs Hb Hm Hr. pose proof Hr as (Hlen & H).
  assert (Fw: Forall wf rs).
  { apply Forall_forall. intros x Hx. apply In_nth_error in Hx. destruct Hx as (d & Hd). now apply (H d). }
  assert (Lk: linked_right basis (map keys rs)).
  { apply (linked_right_of vac tgt basis 0 basis rs); auto. intros d x Hx. apply (H d x Hx). }
  destruct (trunc_right_spec m basis rs Hm Hb Fw Lk) as [F K].
  apply (reach_keys_of_keys vac tgt basis rs); auto.
Qed.

Lemma set_bond_left_reach : forall vac tgt basis ms, Forall wf basis -> Forall (fun m => 0 <= m) ms ->
  reach_keys vac tgt basis (set_bond_left L ms vac tgt basis).
Proof.
  intros vac tgt basis ms Hb Hm. unfold set_bond_left.
  assert (G: forall ls, reach_keys vac tgt basis ls -> reach_keys vac tgt basis (fold_left (fun ls m => step_left L m basis ls) ms ls)).
  { induction Hm; intros ls Hr; cbn [fold_left]; auto. apply IHHm. now apply step_left_reach. }
  apply G. now apply fci_left_reach.
Qed.
Lemma set_bond_right_reach : forall vac tgt basis ms, Forall wf basis -> Forall (fun m => 0 <= m) ms ->
  reach_keys vac tgt basis (set_bond_right L ms vac tgt basis).
Proof.
  intros vac tgt basis ms Hb Hm. unfold set_bond_right.
  assert (G: forall ls, reach_keys vac tgt basis ls -> reach_keys vac tgt basis (fold_left (fun rs m => trunc_right L m basis rs) ms ls)).
  { induction Hm; intros ls Hr; cbn [fold_left]; auto. apply IHHm. now apply trunc_right_reach. }
  apply G. now apply fci_right_reach.
Qed.

(** ** truncation bounds *)
Lemma zsum_map_le : forall (A : Type) (f g : A -> Z) l, (forall x, In x l -> f x <= g x) -> zsum (map f l) <= zsum (map g l).
Proof.
  induction l; cbn [map]; intros H; [cbn; lia|]. rewrite !zsum_cons.
  pose proof (H a (or_introl eq_refl)). assert (zsum (map f l) <= zsum (map g l)) by (apply IHl; intros; apply H; now right).
  lia.
Qed.
Lemma cap_le : forall ref k v, cap_ref L ref k v <= v.
Proof. intros. unfold cap_ref. destruct ref; lia. Qed.
Lemma zsum_map_const_add : forall (A : Type) (f : A -> Z) c l,
  zsum (map (fun x => f x + c) l) = zsum (map f l) + c * Z.of_nat (length l).
Proof. induction l; cbn [map length]; [cbn; lia|]. rewrite !zsum_cons, IHl. lia. Qed.

Lemma truncate_total : forall d m ref, wf d -> 0 <= m ->
  10 * n_bonds L (truncate L d m ref) <= 10 * m + 11 * Z.of_nat (length d).
Proof.
  intros d m ref Hd Hm. unfold truncate. destruct (Z.ltb_spec m (n_bonds L d)); [|lia].
  set (n := n_bonds L d) in *. assert (Hn: 0 < n) by lia.
  unfold n_bonds. rewrite map_map. cbn [snd fst].
  apply Z.le_trans with (10 * zsum (map (fun x : L * Z => scale_ceil (snd x) m n) d)).
  { apply Z.mul_le_mono_nonneg_l; [lia|]. apply zsum_map_le. intros. apply cap_le. }
  assert (G: 10 * n * zsum (map (fun x : L * Z => scale_ceil (snd x) m n) d) <= 10 * m * n + 11 * n * Z.of_nat (length d)).
  { rewrite <- zsum_map_mul.
    replace (10 * m * n + 11 * n * Z.of_nat (length d)) with (zsum (map (fun x : L * Z => 10 * m * snd x + 11 * n) d)).
    - apply zsum_map_le. intros x Hx. pose proof (scale_ceil_upper (snd x) m n Hn). nia.
    - rewrite zsum_map_const_add, zsum_map_mul. unfold n, n_bonds. ring. }
  nia.
Qed.

Lemma truncate_get_le : forall d m ref q, wf d -> bget L (truncate L d m ref) q <= bget L d q + 1.
Proof.
  intros d m ref q Hd. unfold truncate. destruct (Z.ltb_spec m (n_bonds L d)); [|lia].
  set (n := n_bonds L d) in *.
  match goal with |- bget L ?x q <= _ => set (t := x) end.
  assert (Kt: keys t = keys d) by (unfold t, keys; now rewrite map_map).
  destruct (in_dec (fun a b => reflect_dec _ _ (espec a b)) q (keys d)) as [Hi|Hi].
  - pose proof Hi as Ht. rewrite <- Kt in Ht. apply bget_key in Ht. unfold t at 2 in Ht. apply in_map_iff in Ht.
    destruct Ht as ([k v] & E & Hx). cbn [fst snd] in E. injection E as E1 E2. subst k. rewrite <- E2.
    rewrite (bget_in d q v (proj1 Hd) Hx). pose proof (n_bonds_pos_in _ _ Hd Hx) as Hn. fold n in Hn.
    pose proof (cap_le ref q (scale_ceil v m n)). pose proof (scale_ceil_le v m n (proj2 Hd _ Hx) H Hn). lia.
  - rewrite !bget_notin; [lia|auto|now rewrite Kt].
Qed.

(* truncation is proportional: sector sizes deviate from v*m/n by at most 1.1 upwards and never below *)
Lemma truncate_get_bounds : forall d m q v, wf d -> m < n_bonds L d -> In (q, v) d ->
  10 * v * m < 10 * n_bonds L d * bget L (truncate L d m None) q <= 10 * v * m + 11 * n_bonds L d.
Proof.
  intros d m q v Hd Hm Hi. pose proof (n_bonds_pos_in _ _ Hd Hi) as Hn.
  assert (E: bget L (truncate L d m None) q = scale_ceil v m (n_bonds L d)).
  { apply bget_in; [rewrite truncate_keys; apply Hd|]. unfold truncate.
    destruct (Z.ltb_spec m (n_bonds L d)); [|lia]. apply in_map_iff. exists (q, v). auto. }
  rewrite E. pose proof (scale_ceil_upper v m _ Hn). pose proof (scale_ceil_lower v m _ Hn). lia.
Qed.

(* with a reference, no sector of a truncated space exceeds the reference *)
Lemma truncate_get_ref : forall d m r q, wf d -> m < n_bonds L d -> In q (keys d) ->
  bget L (truncate L d m (Some r)) q = Z.min (bget L (truncate L d m None) q) (bget L r q).
Proof.
  intros d m r q Hd Hm Hi.
  assert (G: forall ref v, In (q, v) d -> bget L (truncate L d m ref) q = cap_ref L ref q (scale_ceil v m (n_bonds L d))).
  { intros ref v Hv. apply bget_in; [rewrite truncate_keys; apply Hd|]. unfold truncate.
    destruct (Z.ltb_spec m (n_bonds L d)); [|lia]. apply in_map_iff. exists (q, v). auto. }
  apply bget_key in Hi. rewrite (G (Some r) _ Hi), (G None _ Hi). reflexivity.
Qed.

Lemma tnk_raw_keys : forall (f : L * Z -> Z) (d : binfo), keys (map (fun p => (fst p, f p)) d) = keys d.
Proof. intros. unfold keys. now rewrite map_map. Qed.

Lemma filter_zsum : forall (f : L * Z -> bool) (l : binfo), (forall p, In p l -> f p = false -> snd p = 0) ->
  zsum (map snd (filter f l)) = zsum (map snd l).
Proof.
  induction l as [|p l IH]; intros H; [reflexivity|]. cbn [filter map]. rewrite zsum_cons.
  specialize (IH (fun p' H' => H p' (or_intror H'))).
  destruct (f p) eqn:E; cbn [map]; rewrite ?zsum_cons, IH; [reflexivity|].
  rewrite (H p (or_introl eq_refl) E). lia.
Qed.

Lemma truncate_no_keep_total : forall d m ref, wf d -> 0 <= m ->
  10 * n_bonds L (truncate_no_keep L d m ref) <= 10 * m + 6 * Z.of_nat (length d).
Proof.
  intros d m ref Hd Hm. unfold truncate_no_keep. destruct (Z.ltb_spec m (n_bonds L d)); [|lia].
  set (n := n_bonds L d) in *. assert (Hn: 0 < n) by lia.
  unfold n_bonds at 1. rewrite filter_zsum by (intros p _ E; destruct (Z.eqb_spec (snd p) 0); [auto|discriminate]).
  rewrite map_map. cbn [snd fst].
  apply Z.le_trans with (10 * zsum (map (fun x : L * Z => scale_round (snd x) m n) d)).
  { apply Z.mul_le_mono_nonneg_l; [lia|]. apply zsum_map_le. intros. apply cap_le. }
  assert (G: 10 * n * zsum (map (fun x : L * Z => scale_round (snd x) m n) d) <= 10 * m * n + 6 * n * Z.of_nat (length d)).
  { rewrite <- zsum_map_mul.
    replace (10 * m * n + 6 * n * Z.of_nat (length d)) with (zsum (map (fun x : L * Z => 10 * m * snd x + 6 * n) d)).
    - apply zsum_map_le. intros x Hx. pose proof (scale_round_upper (snd x) m n Hn). nia.
    - rewrite zsum_map_const_add, zsum_map_mul. unfold n, n_bonds. ring. }
  nia.
Qed.

Lemma truncate_no_keep_le : forall d m ref q, wf d -> bget L (truncate_no_keep L d m ref) q <= bget L d q.
Proof.
  intros d m ref q Hd. unfold truncate_no_keep. destruct (Z.ltb_spec m (n_bonds L d)); [|lia].
  set (n := n_bonds L d) in *.
  match goal with |- bget L (filter ?f ?x) q <= _ => set (t := x); set (g := f) end.
  assert (Nt: NoDup (keys (filter g t))).
  { apply NoDup_keys_filter. unfold t. rewrite (tnk_raw_keys (fun p => cap_ref L ref (fst p) (scale_round (snd p) m n))). apply Hd. }
  destruct (in_dec (fun a b => reflect_dec _ _ (espec a b)) q (keys (filter g t))) as [Hi|Hi].
  - apply bget_key in Hi. apply filter_In in Hi. destruct Hi as [Hi _]. unfold t in Hi at 2. apply in_map_iff in Hi.
    destruct Hi as ([k v] & E & Hx). cbn [fst snd] in E. injection E as E1 E2. subst k. rewrite <- E2.
    rewrite (bget_in d q v (proj1 Hd) Hx). pose proof (n_bonds_pos_in _ _ Hd Hx) as Hn. fold n in Hn.
    pose proof (cap_le ref q (scale_round v m n)). pose proof (scale_round_le v m n (proj2 Hd _ Hx) H Hn). lia.
  - rewrite (bget_notin _ _ Hi). now apply wf_nonneg.
Qed.

Lemma truncate_no_keep_wf : forall d m, wf d -> 0 <= m -> wf (truncate_no_keep L d m None).
Proof.
  intros d m Hd Hm. unfold truncate_no_keep. destruct (Z.ltb_spec m (n_bonds L d)); [|auto]. split.
  - apply NoDup_keys_filter. rewrite (tnk_raw_keys (fun p => cap_ref L None (fst p) (scale_round (snd p) m (n_bonds L d)))). apply Hd.
  - intros p Hp. apply filter_In in Hp. destruct Hp as [Hp E].
    apply in_map_iff in Hp. destruct Hp as (x & <- & Hx). cbn [fst snd cap_ref] in *.
    pose proof (scale_round_nonneg (snd x) m (n_bonds L d) (proj2 Hd _ Hx) Hm (n_bonds_pos_in _ _ Hd Hx)).
    destruct (Z.eqb_spec (scale_round (snd x) m (n_bonds L d)) 0); [discriminate|lia].
Qed.
End Bond.
