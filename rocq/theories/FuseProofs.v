(** Lemmas about fusing infos (FuseModel.v). *)
From Coq Require Import ZArith Bool List Ascii Lia ZifyBool Permutation Sorted.
From Verif Require Import SymModel SymProofs DictLib IndexLib BondModel BondProofs FuseModel.
Import ListNotations.
Open Scope Z_scope.
Ltac Zify.zify_post_hook ::= Z.div_mod_to_equations.

(** ** generic: consecutive index ranges per group *)
Section Layout.
Context {G K P : Type}.
Variable geqb : G -> G -> bool.
Hypothesis geqb_spec : forall a b, reflect (a = b) (geqb a b).
Variable keqb : K -> K -> bool.
Hypothesis keqb_spec : forall a b, reflect (a = b) (keqb a b).
Variable size : P -> Z.

(* entries of one group, packed one after the other *)
Fixpoint layout (off : Z) (l : list (K * P)) : list (K * (Z * P)) :=
  match l with
  | [] => []
  | (k, p) :: l' => (k, (off, p)) :: layout (off + size p) l'
  end.
Definition total (l : list (K * P)) : Z := zsum (map (fun kp => size (snd kp)) l).

Lemma layout_app : forall a b off, layout off (a ++ b) = layout off a ++ layout (off + total a) b.
Proof.
  induction a as [|[k p] a IH]; intros; cbn [app layout].
  - unfold total; cbn. now rewrite Z.add_0_r.
  - rewrite IH. unfold total; cbn [map snd]. rewrite zsum_cons. now rewrite Z.add_assoc.
Qed.
Lemma layout_keys : forall l off, keys (layout off l) = map fst l.
Proof. induction l as [|[k p] l IH]; intros; cbn; [reflexivity|]. f_equal. apply IH. Qed.
Lemma layout_in : forall l off k o p, In (k, (o, p)) (layout off l) -> In (k, p) l.
Proof.
  induction l as [|[k' p'] l IH]; intros off k o p H; cbn in *; [auto|].
  destruct H as [H|H]; [left; congruence|right; eauto].
Qed.
Lemma in_layout : forall l off k p, In (k, p) l -> exists o, In (k, (o, p)) (layout off l).
Proof.
  induction l as [|[k' p'] l IH]; intros off k p H; cbn in *; [tauto|].
  destruct H as [H|H].
  - exists off. left. congruence.
  - destruct (IH (off + size p') k p H) as (o & Ho). exists o. auto.
Qed.

Hypothesis size_nonneg : forall p, 0 <= size p.
Lemma total_nonneg : forall l, 0 <= total l.
Proof.
  intros. unfold total. apply zsum_nonneg. intros x Hx. apply in_map_iff in Hx. destruct Hx as (y & <- & _). auto.
Qed.
Lemma layout_bounds : forall l off k o p, In (k, (o, p)) (layout off l) -> off <= o /\ o + size p <= off + total l.
Proof.
  induction l as [|[k' p'] l IH]; intros off k o p H; cbn in H; [tauto|].
  unfold total; cbn [map snd]; rewrite zsum_cons; fold (total l).
  pose proof (size_nonneg p'). pose proof (total_nonneg l).
  destruct H as [H|H].
  - injection H as -> -> ->. lia.
  - apply IH in H. lia.
Qed.
(* the ranges cover exactly and disjointly *)
Lemma layout_cover : forall l off i, off <= i < off + total l ->
  exists k o p, In (k, (o, p)) (layout off l) /\ o <= i < o + size p.
Proof.
  induction l as [|[k' p'] l IH]; intros off i H.
  - unfold total in H; cbn in H. lia.
  - unfold total in H; cbn [map snd] in H; rewrite zsum_cons in H; fold (total l) in H.
    destruct (Z_lt_dec i (off + size p')).
    + exists k', off, p'. split; [now left|lia].
    + destruct (IH (off + size p') i) as (k & o & p & Hi & Ho); [lia|].
      exists k, o, p. split; [now right|auto].
Qed.
Lemma layout_disjoint : forall l off k o p k' o' p' i, 
  In (k, (o, p)) (layout off l) -> In (k', (o', p')) (layout off l) ->
  o <= i < o + size p -> o' <= i < o' + size p' -> (k, (o, p)) = (k', (o', p')).
Proof.
  induction l as [|[k0 p0] l IH]; intros off k o p k' o' p' i H H' Hi Hi'; cbn in *; [tauto|].
  destruct H as [H|H], H' as [H'|H'].
  - congruence.
  - injection H as -> -> ->. apply layout_bounds in H'. lia.
  - injection H' as -> -> ->. apply layout_bounds in H. lia.
  - eapply IH; eauto.
Qed.

(* one step of the loops: register key k in group g *)
Definition gput (st : dict G Z * dict G (dict K (Z * P))) (x : G * (K * P)) :=
  let '(quanta, finfo) := st in
  let '(g, (k, p)) := x in
  (dset geqb quanta g (odflt 0 (dget geqb quanta g) + size p),
   dset geqb finfo g (dset keqb (odflt [] (dget geqb finfo g)) k (odflt 0 (dget geqb quanta g), p))).

Definition group (g : G) (items : list (G * (K * P))) : list (K * P) :=
  map snd (filter (fun x => geqb (fst x) g) items).
Lemma group_app : forall g a b, group g (a ++ b) = group g a ++ group g b.
Proof. intros. unfold group. now rewrite filter_app, map_app. Qed.
Lemma in_group : forall g items k p, In (k, p) (group g items) <-> In (g, (k, p)) items.
Proof.
  intros. unfold group. rewrite in_map_iff. split.
  - intros ([g' kp] & <- & H). apply filter_In in H. cbn in *. destruct H as [H E].
    destruct (geqb_spec g' g); congruence.
  - intros H. exists (g, (k, p)). split; [reflexivity|]. apply filter_In. split; auto. cbn. now apply eqb_refl'.
Qed.

Lemma gput_fold : forall items,
  NoDup (map (fun x => (fst x, fst (snd x))) items) ->
  let st := fold_left gput items ([], []) in
  (forall g, odflt 0 (dget geqb (fst st) g) = total (group g items)) /\
  (forall g, odflt [] (dget geqb (snd st) g) = layout 0 (group g items)) /\
  (forall g, In g (keys (snd st)) <-> In g (map fst items)) /\
  (forall g, In g (keys (fst st)) <-> In g (map fst items)) /\
  NoDup (keys (fst st)) /\ NoDup (keys (snd st)).
Proof.
  intros items. induction items as [|[g0 [k0 p0]] items IH] using rev_ind; intros Hn.
  - cbn. repeat split; auto; constructor.
  - rewrite fold_left_app. cbv zeta. cbn [fold_left].
    rewrite map_app in Hn. pose proof (NoDup_remove_1 _ _ _ Hn) as Hn1. rewrite app_nil_r in Hn1.
    pose proof (NoDup_remove_2 _ _ _ Hn) as Hn2. rewrite app_nil_r in Hn2.
    specialize (IH Hn1). cbv zeta in IH.
    destruct (fold_left gput items ([], [])) as [quanta finfo]. cbn [fst snd] in IH.
    destruct IH as (I1 & I2 & I3 & I4 & I5 & I6). cbn [gput fst snd].
    assert (Fresh: ~ In k0 (keys (layout 0 (group g0 items)))).
    { rewrite layout_keys. intro H. apply in_map_iff in H. destruct H as ([k p] & E & H). cbn in E. subst k.
      apply in_group in H. apply Hn2. apply in_map_iff. exists (g0, (k0, p)). auto. }
    repeat split.
    + intros g. rewrite (dget_dset geqb geqb_spec). rewrite group_app.
      unfold total. rewrite map_app, zsum_app. fold (total (group g items)).
      unfold group at 2. cbn [filter fst]. destruct (geqb_spec g0 g).
      * subst g. cbn [map odflt snd]. rewrite I1. cbn. lia.
      * cbn. rewrite I1. lia.
    + intros g. rewrite (dget_dset geqb geqb_spec). rewrite group_app.
      rewrite layout_app. unfold group at 3. cbn [filter fst]. destruct (geqb_spec g0 g).
      * subst g. cbn [odflt map snd layout]. rewrite I2.
        rewrite (dset_fresh keqb keqb_spec) by auto. now rewrite I1.
      * cbn [map layout]. rewrite app_nil_r. apply I2.
    + rewrite (keys_dset_in geqb geqb_spec), I3. rewrite map_app, in_app_iff. cbn. intuition.
    + rewrite (keys_dset_in geqb geqb_spec), I3. rewrite map_app, in_app_iff. cbn. intuition.
    + rewrite (keys_dset_in geqb geqb_spec), I4. rewrite map_app, in_app_iff. cbn. intuition.
    + rewrite (keys_dset_in geqb geqb_spec), I4. rewrite map_app, in_app_iff. cbn. intuition.
    + apply nodup_dset; auto.
    + apply nodup_dset; auto.
Qed.
End Layout.

(** ** 32-bit products *)
Lemma prod32_range : forall shs, 0 <= prod32 shs < 2 ^ 32.
Proof.
  intros shs. unfold prod32. assert (0 <= 1 < 2 ^ 32) by lia. revert H. generalize 1.
  induction shs; intros z Hz; cbn [fold_left]; auto. apply IHshs. apply Z.mod_pos_bound. lia.
Qed.
Lemma prod32_mod : forall shs, prod32 shs = prodZ shs mod 2 ^ 32.
Proof.
  intros shs. unfold prod32.
  assert (E: forall l a, a = a mod 2 ^ 32 -> fold_left (fun a s => (a * s) mod 2 ^ 32) l a = (a * prodZ l) mod 2 ^ 32).
  { clear. induction l; intros z Hz; cbn [fold_left prodZ fold_right].
    - rewrite Z.mul_1_r. auto.
    - rewrite IHl by (symmetry; apply Z.mod_mod; lia). fold (prodZ l).
      rewrite Z.mul_mod_idemp_l by lia. f_equal. ring. }
  rewrite E; [f_equal; ring|reflexivity].
Qed.
Lemma prod32_small : forall shs, 0 <= prodZ shs < 2 ^ 32 -> prod32 shs = prodZ shs.
Proof. intros. rewrite prod32_mod. now apply Z.mod_small. Qed.

(** ** cartesian products *)
Lemma Forall2_len : forall (A B : Type) (R : A -> B -> Prop) l l', Forall2 R l l' -> length l = length l'.
Proof. induction 1; cbn; auto. Qed.
Lemma in_cart : forall (A : Type) (ls : list (list A)) x, In x (cart ls) <-> Forall2 (fun l a => In a l) ls x.
Proof.
  induction ls as [|l ls IH]; intros x; cbn [cart].
  - split; [intros [<-|[]]; constructor|]. inversion 1. now left.
  - rewrite in_flat_map. split.
    + intros (a & Ha & H). apply in_map_iff in H. destruct H as (y & <- & Hy). constructor; auto. now apply IH.
    + inversion 1; subst. exists y. split; auto. apply in_map. now apply IH.
Qed.
Lemma NoDup_flat_map : forall (A B : Type) (f : A -> list B) l, NoDup l ->
  (forall a, In a l -> NoDup (f a)) -> (forall a a' b, In a l -> In a' l -> In b (f a) -> In b (f a') -> a = a') ->
  NoDup (flat_map f l).
Proof.
  induction l as [|a l IH]; intros Hn Hf Hd; cbn [flat_map]; [constructor|]. inversion Hn; subst.
  assert (D: forall b, In b (f a) -> ~ In b (flat_map f l)).
  { intros b Hb H. apply in_flat_map in H. destruct H as (a' & Ha' & Hb').
    assert (a = a') by (eapply Hd; eauto; [now left|now right]). subst. auto. }
  specialize (IH H2 (fun x Hx => Hf x (or_intror Hx))
    (fun x y b Hx Hy => Hd x y b (or_intror Hx) (or_intror Hy))).
  specialize (Hf a (or_introl eq_refl)). revert D Hf. generalize (f a). clear - IH.
  induction l0 as [|b l0 IH0]; intros D Hf; cbn [app]; auto. inversion Hf; subst. constructor.
  - rewrite in_app_iff. intros [|]; [auto|]. apply (D b); [now left|auto].
  - apply IH0; auto. intros b' Hb'. apply D. now right.
Qed.
Lemma cart_keys_nodup : forall (A B : Type) (ls : list (list (A * B))),
  Forall (fun l => NoDup (map fst l)) ls -> NoDup (map (map fst) (cart ls)).
Proof.
  intros A B. induction 1 as [|l ls Hl Hf IH]; cbn [cart]; [repeat constructor; auto|].
  rewrite flat_map_concat_map, concat_map, map_map, <- flat_map_concat_map.
  rewrite (flat_map_ext _ (fun x => map (fun r => fst x :: r) (map (map fst) (cart ls)))).
  2:{ intros x. rewrite !map_map. reflexivity. }
  rewrite <- (map_id l). rewrite flat_map_concat_map, map_map, <- flat_map_concat_map.
  assert (E: forall l0 : list (A * B), flat_map (fun x => map (fun r => fst x :: r) (map (map fst) (cart ls))) l0
     = flat_map (fun a => map (cons a) (map (map fst) (cart ls))) (map fst l0)).
  { intros l0. rewrite !flat_map_concat_map, map_map. reflexivity. }
  rewrite E. apply NoDup_flat_map; auto.
  - intros a _. apply FinFun.Injective_map_NoDup; auto. intros x y. congruence.
  - intros a a' b _ _ H1 H2. apply in_map_iff in H1, H2. destruct H1 as (x & <- & _), H2 as (y & E' & _). congruence.
Qed.

Section Fuse.
Variable L : Label.
Notation binfo := (dict L Z).

Lemma tup_eqb_spec : forall a b, reflect (a = b) (tup_eqb L a b).
Proof.
  induction a as [|x a IH]; destruct b as [|y b]; cbn; try (constructor; congruence).
  destruct (qeqb_spec L x y); cbn; [|constructor; congruence].
  destruct (IH b); constructor; congruence.
Qed.
Lemma tup_ltb_irrefl : forall a, tup_ltb L a a = false.
Proof. induction a; cbn; [reflexivity|]. now rewrite qeqb_refl. Qed.
Lemma tup_ltb_trans : forall a b c, tup_ltb L a b = true -> tup_ltb L b c = true -> tup_ltb L a c = true.
Proof.
  induction a as [|x a IH]; destruct b as [|y b], c as [|z c]; cbn; try congruence.
  destruct (qeqb_spec L x y), (qeqb_spec L y z), (qeqb_spec L x z); try congruence; intros; subst; eauto.
  - exfalso. pose proof (qltb_trans L _ _ _ H H0). now rewrite qltb_irrefl in H1.
  - eapply qltb_trans; eauto.
Qed.
Lemma tup_ltb_total : forall a b, a <> b -> tup_ltb L a b = true \/ tup_ltb L b a = true.
Proof.
  induction a as [|x a IH]; destruct b as [|y b]; cbn; intros H; try congruence; auto.
  destruct (qeqb_spec L x y), (qeqb_spec L y x); try congruence.
  - subst. apply IH. congruence.
  - now apply qltb_total.
Qed.

(** specification: signed total label *)
Fixpoint signed_total (pat : list ascii) (qs : list L) : L :=
  match pat, qs with
  | c :: pat', q :: qs' => qadd L (if is_plus c then q else qneg L q) (signed_total pat' qs')
  | _, _ => q0 L
  end.
Lemma fold_qadd : forall l a, fold_left (qadd L) l a = qadd L a (fold_right (qadd L) (q0 L) l).
Proof.
  induction l; intros; cbn; [symmetry; apply qadd_0_r|]. rewrite IHl. symmetry. apply qadd_assoc.
Qed.
Lemma fuse_q_total : forall pat qs, fuse_q L pat qs = signed_total pat qs.
Proof.
  intros. unfold fuse_q, add_reduce.
  assert (E: fold_right (qadd L) (q0 L) (signed L pat qs) = signed_total pat qs).
  { unfold signed. revert qs. induction pat; destruct qs; cbn; try reflexivity. f_equal. apply IHpat. }
  rewrite <- E. destruct (signed L pat qs); [reflexivity|]. rewrite fold_qadd. reflexivity.
Qed.

Lemma fuse_put_gput : forall st q qls shs,
  fuse_put L st q qls shs = gput (qeqb L) (tup_eqb L) prod32 st (q, (qls, shs)).
Proof. intros [quanta finfo] q qls shs. reflexivity. Qed.

(* the list of registrations made by fuse_product *)
Definition fp_items (lt : L -> L -> bool) (infos : list binfo) (ref : option binfo) (pattern : list ascii)
  : list (L * (list L * list Z)) :=
  filter (fun x => in_ref L ref (fst x))
    (map (fun x => (fuse_q L pattern (map fst x), (map fst x, map snd x))) (cart (map (sort_by lt fst) infos))).

Lemma fuse_product_fold : forall lt infos ref pattern,
  fuse_product L lt infos ref pattern = fold_left (gput (qeqb L) (tup_eqb L) prod32) (fp_items lt infos ref pattern) ([], []).
Proof.
  intros. unfold fuse_product, fp_items. generalize (cart (map (sort_by lt fst) infos)). intros c.
  generalize (([], []) : binfo * finfo_t L).
  induction c as [|x c IH]; intros st; cbn [fold_left map filter fst]; [reflexivity|].
  rewrite IH. destruct (in_ref L ref (fuse_q L pattern (map fst x))); [|reflexivity].
  cbn [fold_left]. now rewrite fuse_put_gput.
Qed.

Lemma NoDup_map_filter : forall (A B : Type) (f : A -> B) (p : A -> bool) l, NoDup (map f l) -> NoDup (map f (filter p l)).
Proof.
  induction l; cbn; intros H; [constructor|]. inversion H; subst. destruct (p a); cbn; auto.
  constructor; auto. intro Hi. apply H2. apply in_map_iff in Hi. destruct Hi as (x & E & Hx).
  apply filter_In in Hx. apply in_map_iff. exists x. tauto.
Qed.

Lemma sort_keys_nodup : forall lt (d : binfo), NoDup (keys d) -> NoDup (map fst (sort_by lt fst d)).
Proof.
  intros. apply (Permutation_NoDup (l := map fst d)); auto. apply Permutation_map. apply sort_perm.
Qed.

Lemma fp_items_nodup : forall lt infos ref pattern, Forall (fun d : binfo => NoDup (keys d)) infos ->
  NoDup (map (fun x => (fst x, fst (snd x))) (fp_items lt infos ref pattern)).
Proof.
  intros lt infos ref pattern H. unfold fp_items. apply NoDup_map_filter. rewrite map_map. cbn [fst snd].
  apply (NoDup_map_inv snd). rewrite map_map. cbn [snd].
  apply cart_keys_nodup. apply Forall_forall. intros l Hl. apply in_map_iff in Hl. destruct Hl as (d & <- & Hd).
  rewrite Forall_forall in H. apply sort_keys_nodup. auto.
Qed.

(* a combination of unfused blocks: label and multiplicity per leg *)
Definition is_combo (infos : list binfo) (qls : list L) (shs : list Z) : Prop :=
  Forall2 (fun info kv => In kv info) infos (combine qls shs) /\ length qls = length infos /\ length shs = length infos.

Lemma combine_fst_snd : forall (A B : Type) (l : list (A * B)), combine (map fst l) (map snd l) = l.
Proof. induction l as [|[a b] l IH]; cbn; congruence. Qed.

Lemma in_fp_items : forall lt infos ref pattern q qls shs,
  In (q, (qls, shs)) (fp_items lt infos ref pattern) <->
  is_combo infos qls shs /\ q = signed_total pattern qls /\ in_ref L ref q = true.
Proof.
  intros. unfold fp_items. rewrite filter_In, in_map_iff. cbn [fst]. rewrite <- fuse_q_total. split.
  - intros ((x & E & Hx) & Hr). injection E as <- <- <-. split; [|auto].
    apply in_cart in Hx. unfold is_combo. rewrite combine_fst_snd, !map_length.
    assert (F: Forall2 (fun info kv => In kv info) infos x).
    { clear Hr. revert x Hx. induction infos; cbn; intros x Hx; inversion Hx; subst; constructor; auto.
      eapply Permutation_in; [apply Permutation_sym, (sort_perm lt fst)|eauto]. }
    split; auto. split; symmetry; eapply Forall2_len; eauto.
  - intros ((F & E1 & E2) & -> & Hr). split; auto. exists (combine qls shs).
    assert (Ef: map fst (combine qls shs) = qls /\ map snd (combine qls shs) = shs).
    { assert (length qls = length shs) by congruence. clear - H. revert shs H.
      induction qls; destruct shs; cbn; intros; try discriminate; auto.
      destruct (IHqls shs) as [A B]; [lia|]. split; congruence. }
    destruct Ef as [Ef1 Ef2]. rewrite Ef1, Ef2. split; auto.
    apply in_cart. clear Ef1 Ef2 E1 E2 Hr. revert F. generalize (combine qls shs). induction infos; intros c F; inversion F; subst; cbn; constructor; auto.
    eapply Permutation_in; [apply (sort_perm lt fst)|eauto].
Qed.

(** ** kron_sum *)
Notation item := (list L * list Z)%type.
Notation gp := (gput (qeqb L) (tup_eqb L) prod32).
Definition tmem (k : list L) (l : list (list L)) : bool := existsb (tup_eqb L k) l.
Lemma tmem_in : forall k l, tmem k l = true <-> In k l.
Proof.
  intros. unfold tmem. rewrite existsb_exists. split.
  - intros (x & Hx & E). destruct (tup_eqb_spec k x); congruence.
  - intros H. exists k. split; auto. now apply eqb_refl'; apply tup_eqb_spec.
Qed.
Fixpoint nubk (seen : list (list L)) (v : list item) : list item :=
  match v with
  | [] => []
  | it :: v' => if tmem (fst it) seen then nubk seen v' else it :: nubk (fst it :: seen) v'
  end.
Lemma nubk_incl : forall v seen x, In x (nubk seen v) -> In x v.
Proof.
  induction v; intros seen x; cbn; auto. destruct (tmem (fst a) seen).
  - intros H. right. eauto.
  - intros [->|H]; [now left|]. right. eauto.
Qed.
Lemma nubk_notseen : forall v seen x, In x (nubk seen v) -> ~ In (fst x) seen.
Proof.
  induction v; intros seen x; cbn; [tauto|]. destruct (tmem (fst a) seen) eqn:E; [eauto|].
  intros [->|H].
  - intro Hi. apply tmem_in in Hi. congruence.
  - apply IHv in H. cbn in H. tauto.
Qed.
Lemma nubk_nodup : forall v seen, NoDup (map fst (nubk seen v)).
Proof.
  induction v; intros seen; cbn; [constructor|]. destruct (tmem (fst a) seen) eqn:E; [auto|].
  cbn. constructor; auto. intro H. apply in_map_iff in H. destruct H as (x & Ex & Hx).
  apply nubk_notseen in Hx. rewrite Ex in Hx. apply Hx. now left.
Qed.
Lemma nubk_keys : forall v seen k, In k (map fst v) -> ~ In k seen -> In k (map fst (nubk seen v)).
Proof.
  induction v as [|a v IH]; intros seen k; cbn [nubk map In]; [tauto|]. intros H Hn.
  destruct (tmem (fst a) seen) eqn:E.
  - apply IH; auto. destruct H as [H|H]; auto. apply tmem_in in E. congruence.
  - cbn [map In]. destruct H as [H|H]; auto. destruct (tup_eqb_spec (fst a) k); auto.
    right. apply IH; auto. cbn. tauto.
Qed.
Definition consistent (v : list item) : Prop :=
  forall qs shs shs', In (qs, shs) v -> In (qs, shs') v -> shs = shs'.
Lemma nubk_in : forall v, consistent v -> forall x, In x (nubk [] v) <-> In x v.
Proof.
  intros v Hc x. split; [apply nubk_incl|]. intros Hx.
  pose proof (nubk_keys v [] (fst x) (in_map fst _ _ Hx) (fun H => H)) as Hk.
  apply in_map_iff in Hk. destruct Hk as (y & E & Hy). destruct x as [k s], y as [k' s']. cbn in E. subst k'.
  pose proof (nubk_incl _ _ _ Hy) as Hy'. rewrite (Hc k s s' Hx Hy'). exact Hy.
Qed.

Lemma shape_eqb_spec : forall a b, reflect (a = b) (shape_eqb a b).
Proof.
  induction a as [|x a IH]; destruct b as [|y b]; cbn; try (constructor; congruence).
  destruct (Z.eqb_spec x y); cbn; [|constructor; congruence]. destruct (IH b); constructor; congruence.
Qed.

Definition at_q (st : binfo * finfo_t L) (q : L) : dict (list L) (Z * list Z) := odflt [] (dget (qeqb L) (snd st) q).

Lemma classic_consistent : forall v, consistent v \/ ~ consistent v.
Proof.
  intros v.
  assert (D: forall (x : item) l, {forall s, In (fst x, s) l -> s = snd x} + {exists s, In (fst x, s) l /\ s <> snd x}).
  { intros x. induction l as [|[k s] l IH].
    - left. intros s [].
    - destruct IH as [IH|IH].
      + destruct (tup_eqb_spec k (fst x)) as [e|n].
        * destruct (shape_eqb_spec s (snd x)).
          -- left. intros s' [H|H]; [|auto]. congruence.
          -- right. exists s. split; [left; congruence|auto].
        * left. intros s' [H|H]; [|auto]. congruence.
      + right. destruct IH as (s' & A & B). exists s'. split; [now right|auto]. }
  assert (E: forall l, (forall x, In x l -> forall s, In (fst x, s) v -> s = snd x) \/ (exists x s, In x l /\ In (fst x, s) v /\ s <> snd x)).
  { induction l as [|x l IH].
    - left. intros x [].
    - destruct IH as [IH|(y & s & A & B & C)].
      + destruct (D x v) as [d|(s & A & B)].
        * left. intros y [<-|Hy]; auto.
        * right. exists x, s. split; [now left|auto].
      + right. exists y, s. split; [now right|auto]. }
  destruct (E v) as [H|(x & s & A & B & C)].
  - left. intros k s s' Hs Hs'. exact (H (k, s') Hs' s Hs).
  - right. intro Hc. apply C. destruct x as [k s']. cbn in *. eapply Hc; eauto.
Qed.

(* kron_place = registering the first occurrences; it fails exactly on an inconsistent repetition *)
Lemma kron_place_spec : forall v st q,
  (exists it, In it v /\ exists o s, dget (tup_eqb L) (at_q st q) (fst it) = Some (o, s) /\ s <> snd it) \/
  ~ consistent v -> kron_place L st q v = None.
Proof.
  induction v as [|[qs shs] v IH]; intros st q H; cbn [kron_place].
  - exfalso. destruct H as [(it & [] & _)|H]. apply H. intros ? ? ? [].
  - fold (at_q st q). destruct (dget (tup_eqb L) (at_q st q) qs) as [[o s]|] eqn:E.
    + destruct (shape_eqb_spec s shs); [|reflexivity]. subst s. apply IH.
      destruct H as [(it & [<-|Hi] & o' & s' & E' & N)|H].
      * cbn in *. rewrite E in E'. congruence.
      * left. exists it. eauto.
      * assert (D: (exists it, In it v /\ fst it = qs /\ snd it <> shs) \/ ~ exists it, In it v /\ fst it = qs /\ snd it <> shs).
        { clear. induction v as [|x v IH].
          - right. intros (it & [] & _).
          - destruct IH as [(it & Hi & A & B)|IH].
            + left. exists it. split; [now right|auto].
            + destruct (tup_eqb_spec (fst x) qs) as [e|n].
              * destruct (shape_eqb_spec (snd x) shs) as [e'|n'].
                -- right. intros (it & [<-|Hi] & A & B); [congruence|]. apply IH. eauto.
                -- left. exists x. split; [now left|auto].
              * right. intros (it & [<-|Hi] & A & B); [congruence|]. apply IH. eauto. }
        destruct D as [(it & Hi & A & B)|D].
        -- left. exists it. split; auto. exists o, shs. rewrite A. split; auto.
        -- right. intro Hc. apply H. intros k s1 s2 [H1|H1] [H2|H2].
           ++ congruence.
           ++ injection H1 as -> ->. destruct (shape_eqb_spec s2 s1); [auto|]. exfalso. apply D.
              exists (k, s2). auto.
           ++ injection H2 as -> ->. destruct (shape_eqb_spec s1 s2); [auto|]. exfalso. apply D.
              exists (k, s1). auto.
           ++ eauto.
    + apply IH. rewrite fuse_put_gput. destruct st as [quanta finfo].
      assert (A: forall k, dget (tup_eqb L) (at_q (gp (quanta, finfo) (q, (qs, shs))) q) k
                 = if tup_eqb L qs k then Some (odflt 0 (dget (qeqb L) quanta q), shs) else dget (tup_eqb L) (at_q (quanta, finfo) q) k).
      { intros k. unfold at_q at 1. cbn [gput snd fst]. rewrite (dget_dset _ (qeqb_spec L)), qeqb_refl. cbn [odflt].
        rewrite (dget_dset _ tup_eqb_spec). reflexivity. }
      destruct H as [(it & [<-|Hi] & o' & s' & E' & N)|H].
      * cbn in *. congruence.
      * left. exists it. split; auto. rewrite A. destruct (tup_eqb_spec qs (fst it)); eauto.
        subst. exfalso. congruence.
      * destruct (in_dec (fun x y : item => ltac:(destruct x as [a b], y as [c d];
            destruct (tup_eqb_spec a c), (shape_eqb_spec b d); [left|right|right|right]; congruence)) (qs, shs) v) as [Hin|Hin].
        -- (* repeated later: any conflict is inside v *)
           right. intro Hc. apply H. intros k s1 s2 [H1|H1] [H2|H2]; try congruence.
           ++ injection H1 as -> ->. eauto.
           ++ injection H2 as -> ->. eauto.
           ++ eauto.
        -- assert (D: (exists it, In it v /\ fst it = qs) \/ ~ exists it, In it v /\ fst it = qs).
           { destruct (tmem qs (map fst v)) eqn:T.
             - left. apply tmem_in in T. apply in_map_iff in T. destruct T as (it & A1 & A2). eauto.
             - right. intros (it & A1 & A2). subst. assert (tmem (fst it) (map fst v) = true); [|congruence].
               apply tmem_in. now apply in_map. }
           destruct D as [(it & A1 & A2)|D].
           ++ left. exists it. split; auto. rewrite A, A2. rewrite (eqb_refl' _ tup_eqb_spec).
              eexists. eexists. split; [reflexivity|]. intro; subst. apply Hin. now destruct it.
           ++ right. intro Hc. apply H. intros k s1 s2 [H1|H1] [H2|H2]; try congruence.
              ** injection H1 as -> ->. exfalso. apply D. eexists. split; eauto.
              ** injection H2 as -> ->. exfalso. apply D. eexists. split; eauto.
              ** eauto.
Qed.

Lemma kron_place_ok : forall v st q, consistent v ->
  (forall it o s, In it v -> dget (tup_eqb L) (at_q st q) (fst it) = Some (o, s) -> s = snd it) ->
  kron_place L st q v = Some (fold_left gp (map (fun it => (q, it)) (nubk (keys (at_q st q)) v)) st).
Proof.
  induction v as [|[qs shs] v IH]; intros st q Hc Hi; cbn [kron_place nubk]; [reflexivity|].
  assert (Hc': consistent v) by (intros k s1 s2 A B; eapply Hc; right; eauto).
  fold (at_q st q). cbn [fst]. destruct (dget (tup_eqb L) (at_q st q) qs) as [[o s]|] eqn:E.
  - pose proof (Hi (qs, shs) o s (or_introl eq_refl) E) as ->. cbn [snd].
    destruct (shape_eqb_spec shs shs); [|congruence].
    assert (T: tmem qs (keys (at_q st q)) = true) by (apply tmem_in; eapply dget_some_key; eauto; apply tup_eqb_spec).
    rewrite T. apply IH; auto. intros; eapply Hi; eauto. now right.
  - assert (T: tmem qs (keys (at_q st q)) = false).
    { apply not_true_is_false. intro T. apply tmem_in in T. apply (dget_none _ tup_eqb_spec) in E. tauto. }
    rewrite T. cbn [map fold_left]. rewrite fuse_put_gput. destruct st as [quanta finfo].
    assert (A: forall k, dget (tup_eqb L) (at_q (gp (quanta, finfo) (q, (qs, shs))) q) k
                 = if tup_eqb L qs k then Some (odflt 0 (dget (qeqb L) quanta q), shs) else dget (tup_eqb L) (at_q (quanta, finfo) q) k).
    { intros k. unfold at_q at 1. cbn [gput snd fst]. rewrite (dget_dset _ (qeqb_spec L)), qeqb_refl. cbn [odflt].
      rewrite (dget_dset _ tup_eqb_spec). reflexivity. }
    rewrite IH; auto.
    + f_equal. f_equal. f_equal.
      assert (K: keys (at_q (gp (quanta, finfo) (q, (qs, shs))) q) = keys (at_q (quanta, finfo) q) ++ [qs]).
      { unfold at_q at 1. cbn [gput snd fst]. rewrite (dget_dset _ (qeqb_spec L)), qeqb_refl. cbn [odflt].
        unfold at_q. cbn [snd]. rewrite (dset_fresh _ tup_eqb_spec).
        - unfold keys. rewrite map_app. reflexivity.
        - apply (dget_none _ tup_eqb_spec). exact E. }
      rewrite K. generalize (keys (at_q (quanta, finfo) q)). clear.
      assert (G: forall v s1 s2, (forall x, In x s1 <-> In x s2) -> nubk s1 v = nubk s2 v).
      { induction v0 as [|a v0 IHv]; intros s1 s2 H; cbn; [reflexivity|].
        assert (tmem (fst a) s1 = tmem (fst a) s2) by (apply eq_true_iff_eq; rewrite !tmem_in; auto).
        rewrite H0. destruct (tmem (fst a) s2); auto. f_equal. apply IHv. intros x. cbn. rewrite H. tauto. }
      intros l. apply G. intros x. rewrite in_app_iff. cbn. tauto.
    + intros it o s Hit. rewrite A. destruct (tup_eqb_spec qs (fst it)).
      * intros [= <- <-]. destruct it as [k s']. cbn in *. subst k. eapply Hc; [now left|right; eauto].
      * intros Hd. eapply Hi; eauto. now right.
Qed.

(* collected: per fused label the items in order *)
Definition in_q (ref : option binfo) (pattern : list ascii) (q : L) (items : list item) : list item :=
  filter (fun it => qeqb L (fuse_q L pattern (fst it)) q && in_ref L ref q) items.
Lemma collect_spec : forall ref pattern items,
  NoDup (keys (collect L ref pattern items)) /\
  (forall q, odflt [] (dget (qeqb L) (collect L ref pattern items) q) = in_q ref pattern q items) /\
  (forall q, In q (keys (collect L ref pattern items)) <-> in_q ref pattern q items <> []).
Proof.
  intros ref pattern items. induction items as [|it items IH] using rev_ind.
  - cbn. repeat split; auto; try constructor; intros; tauto.
  - unfold collect in *. rewrite fold_left_app. cbn [fold_left].
    match type of IH with NoDup (keys ?x) /\ _ => set (c := x) in * end. clearbody c. destruct IH as (I1 & I2 & I3).
    unfold in_q in *.
    assert (F: forall q, filter (fun it0 => qeqb L (fuse_q L pattern (fst it0)) q && in_ref L ref q) (items ++ [it])
       = filter (fun it0 => qeqb L (fuse_q L pattern (fst it0)) q && in_ref L ref q) items
         ++ if qeqb L (fuse_q L pattern (fst it)) q && in_ref L ref q then [it] else []).
    { intros q. rewrite filter_app. cbn [filter]. reflexivity. }
    cbv zeta. destruct (in_ref L ref (fuse_q L pattern (fst it))) eqn:E.
    + split; [apply nodup_dset; auto; apply qeqb_spec|]. split; intros q; rewrite F.
      * rewrite (dget_dset _ (qeqb_spec L)). destruct (qeqb_spec L (fuse_q L pattern (fst it)) q).
        -- subst q. cbn [odflt]. rewrite I2. cbn [andb]. now rewrite E.
        -- cbn [andb]. rewrite app_nil_r. apply I2.
      * rewrite (keys_dset_in _ (qeqb_spec L)), I3. destruct (qeqb_spec L (fuse_q L pattern (fst it)) q).
        -- subst q. rewrite E. cbn [andb]. split; [intros _ H; now apply app_eq_nil in H|auto].
        -- cbn [andb]. rewrite app_nil_r. intuition.
    + split; [auto|]. split; intros q; rewrite F; destruct (qeqb_spec L (fuse_q L pattern (fst it)) q).
      * subst q. rewrite E. cbn [andb]. rewrite app_nil_r, <- E. apply I2.
      * cbn [andb]. rewrite app_nil_r. apply I2.
      * subst q. rewrite E. cbn [andb]. rewrite app_nil_r, <- E. apply I3.
      * cbn [andb]. rewrite app_nil_r. apply I3.
Qed.

Lemma gp_other : forall l st q q', q <> q' ->
  at_q (fold_left gp (map (fun it => (q, it)) l) st) q' = at_q st q' /\
  bget L (fst (fold_left gp (map (fun it => (q, it)) l) st)) q' = bget L (fst st) q'.
Proof.
  induction l as [|[k p] l IH]; intros st q q' H; cbn [map fold_left]; [auto|].
  destruct (IH (gp st (q, (k, p))) q q' H) as [A B]. rewrite A, B. destruct st as [quanta finfo].
  unfold at_q, bget. cbn [gput fst snd]. rewrite !(dget_dset _ (qeqb_spec L)).
  destruct (qeqb_spec L q q'); [congruence|]. auto.
Qed.
Lemma gp_same : forall l st q off, NoDup (map fst l) -> bget L (fst st) q = off ->
  (forall k, In k (map fst l) -> ~ In k (keys (at_q st q))) ->
  at_q (fold_left gp (map (fun it => (q, it)) l) st) q = at_q st q ++ layout prod32 off l /\
  bget L (fst (fold_left gp (map (fun it => (q, it)) l) st)) q = off + total prod32 l.
Proof.
  induction l as [|[k p] l IH]; intros st q off Hn Ho Hk; cbn [map fold_left layout].
  - rewrite app_nil_r. unfold total. cbn. split; [auto|now rewrite Z.add_0_r].
  - inversion Hn; subst. destruct st as [quanta finfo].
    assert (A1: at_q (gp (quanta, finfo) (q, (k, p))) q = at_q (quanta, finfo) q ++ [(k, (bget L quanta q, p))]).
    { unfold at_q at 1. cbn [gput snd fst]. rewrite (dget_dset _ (qeqb_spec L)), qeqb_refl. cbn [odflt].
      rewrite (dset_fresh _ tup_eqb_spec); [reflexivity|]. apply (Hk k). now left. }
    assert (A2: bget L (fst (gp (quanta, finfo) (q, (k, p)))) q = bget L quanta q + prod32 p).
    { unfold bget at 1. cbn [gput fst]. rewrite (dget_dset _ (qeqb_spec L)), qeqb_refl. reflexivity. }
    destruct (IH (gp (quanta, finfo) (q, (k, p))) q (bget L quanta q + prod32 p)) as [B1 B2]; auto.
    + intros k' Hk'. rewrite A1. unfold keys. rewrite map_app, in_app_iff. cbn. intros [H|[H|[]]].
      * apply (Hk k'); [now right|auto].
      * subst. auto.
    + rewrite B1, B2, A1. split.
      * rewrite <- app_assoc. reflexivity.
      * unfold total; cbn [map snd]. rewrite zsum_cons. cbn [fst]. lia.
Qed.

Definition canon (v : list item) : list item := nubk [] (sort_by (tup_ltb L) fst v).

Lemma consistent_perm : forall v v', Permutation v v' -> consistent v -> consistent v'.
Proof.
  intros v v' H Hc k s s' A B. apply Permutation_sym in H.
  eapply Hc; eapply Permutation_in; eauto.
Qed.

Lemma kron_loop_spec : forall c st, NoDup (keys c) -> (forall q, In q (keys c) -> bget L (fst st) q = 0) ->
  (Forall (fun qv => consistent (snd qv)) c ->
   exists st', kron_loop L st c = Some st' /\
     (forall q v, In (q, v) c -> at_q st' q = layout prod32 0 (canon v) /\ bget L (fst st') q = total prod32 (canon v)) /\
     (forall q, ~ In q (keys c) -> at_q st' q = at_q st q /\ bget L (fst st') q = bget L (fst st) q)) /\
  ((exists qv, In qv c /\ ~ consistent (snd qv)) -> kron_loop L st c = None).
Proof.
  induction c as [|[q v] c IH]; intros st Hn Hz.
  - split.
    + intros _. exists st. cbn. split; [auto|]. split; [intros ? ? []|auto].
    + intros (? & [] & _).
  - inversion Hn; subst. cbn [kron_loop].
    set (st0 := (fst st, dset (qeqb L) (snd st) q [])).
    assert (E0: at_q st0 q = []) by (unfold at_q, st0; cbn [snd]; now rewrite (dget_dset _ (qeqb_spec L)), qeqb_refl).
    assert (E0': forall q', q' <> q -> at_q st0 q' = at_q st q').
    { intros q' Hq. unfold at_q, st0. cbn [snd]. rewrite (dget_dset _ (qeqb_spec L)). destruct (qeqb_spec L q q'); congruence. }
    assert (P: consistent v -> kron_place L st0 q (sort_by (tup_ltb L) fst v) = Some (fold_left gp (map (fun it => (q, it)) (canon v)) st0)).
    { intros Hc. rewrite kron_place_ok.
      - unfold canon. now rewrite E0.
      - eapply consistent_perm; [apply sort_perm|auto].
      - intros it o s _. rewrite E0. discriminate. }
    assert (Same: let st1 := fold_left gp (map (fun it => (q, it)) (canon v)) st0 in
              at_q st1 q = layout prod32 0 (canon v) /\ bget L (fst st1) q = total prod32 (canon v)).
    { destruct (gp_same (canon v) st0 q 0) as [A B].
      - apply nubk_nodup.
      - apply Hz. now left.
      - intros k _. now rewrite E0.
      - cbv zeta. rewrite A, B, E0. split; reflexivity. }
    set (st1 := fold_left gp (map (fun it => (q, it)) (canon v)) st0) in *. cbv zeta in Same.
    assert (Oth: forall q', q' <> q -> at_q st1 q' = at_q st q' /\ bget L (fst st1) q' = bget L (fst st) q').
    { intros q' Hq. destruct (gp_other (canon v) st0 q q') as [A B]; [congruence|]. fold st1 in A, B.
      rewrite A, B. rewrite E0' by auto. split; reflexivity. }
    destruct (IH st1) as [IA IB]; auto.
    { intros q' Hq'. assert (q' <> q) by (intro; subst; auto). exact (eq_trans (proj2 (Oth q' H)) (Hz q' (or_intror Hq'))). }
    split.
    + intros Hf. inversion Hf; subst. cbn [snd] in H3. rewrite (P H3). fold st1.
      destruct (IA H4) as (st' & E & A & B). exists st'. split; [auto|]. split.
      * intros q' v' [H|H]; [|auto]. injection H as <- <-. destruct (B q H1) as [B1 B2]. rewrite B1, B2. exact Same.
      * intros q' Hq'. cbn in Hq'. destruct (B q') as [B1 B2]; [tauto|]. rewrite B1, B2. apply Oth. intro; subst; tauto.
    + intros ([q' v'] & [H|H] & Hc).
      * injection H as <- <-. cbn [snd] in Hc. rewrite kron_place_spec; [reflexivity|]. right. intro Hc'. apply Hc.
        eapply consistent_perm; [apply Permutation_sym, (sort_perm (tup_ltb L) fst v)|eauto].
      * destruct (kron_place L st0 q (sort_by (tup_ltb L) fst v)) eqn:E; [|reflexivity].
        (* then v was consistent *)
        assert (Hcv: consistent v).
        { destruct (classic_consistent v) as [|N]; [auto|]. exfalso.
          rewrite kron_place_spec in E; [discriminate|]. right. intro Hc'. apply N.
          eapply consistent_perm; [apply Permutation_sym, (sort_perm (tup_ltb L) fst v)|eauto]. }
        pose proof (P Hcv) as E2. injection E2 as ->. apply IB. exists (q', v'). auto.
Qed.

Lemma list_eq_dec' : forall x y : list L, {x = y} + {x <> y}.
Proof. intros. exact (reflect_dec _ _ (tup_eqb_spec x y)). Qed.

Lemma canon_in : forall v, consistent v -> forall x, In x (canon v) <-> In x v.
Proof.
  intros v Hc x. unfold canon. rewrite nubk_in by (eapply consistent_perm; [apply sort_perm|auto]).
  split; apply Permutation_in; [apply Permutation_sym|]; apply sort_perm.
Qed.
Lemma canon_nodup : forall v, NoDup (map fst (canon v)).
Proof. intros. apply nubk_nodup. Qed.
Lemma nubk_sorted : forall v seen, StronglySorted (le_key (tup_ltb L) fst) v ->
  StronglySorted (fun a b : item => tup_ltb L (fst a) (fst b) = true) (nubk seen v).
Proof.
  induction v as [|a v IH]; intros seen H; cbn [nubk]; [constructor|]. inversion H; subst.
  destruct (tmem (fst a) seen); auto. constructor; auto.
  apply Forall_forall. intros x Hx. rewrite Forall_forall in H3.
  destruct (H3 x (nubk_incl _ _ _ Hx)) as [E|E]; auto.
  apply nubk_notseen in Hx. exfalso. apply Hx. left. auto.
Qed.
Lemma canon_sorted : forall v, StronglySorted (fun a b : item => tup_ltb L (fst a) (fst b) = true) (canon v).
Proof.
  intros. apply nubk_sorted. apply sort_sorted; [apply tup_ltb_trans|apply tup_ltb_total|apply list_eq_dec'].
Qed.
(* depends only on the set of items *)
Lemma canon_ext : forall v v', consistent v -> (forall x, In x v <-> In x v') -> canon v = canon v'.
Proof.
  intros v v' Hc E. assert (Hc': consistent v') by (intros k a b A B; apply E in A, B; eapply Hc; eauto).
  apply (strict_sorted_unique _ (fun a b : item => tup_ltb L (fst a) (fst b) = true)).
  - intros a. now rewrite tup_ltb_irrefl.
  - intros a b c. apply tup_ltb_trans.
  - apply canon_sorted.
  - apply canon_sorted.
  - intros x. rewrite !canon_in by auto. apply E.
Qed.

Lemma in_q_in : forall ref pattern q items it,
  In it (in_q ref pattern q items) <-> In it items /\ signed_total pattern (fst it) = q /\ in_ref L ref q = true.
Proof.
  intros. unfold in_q. rewrite filter_In, andb_true_iff, fuse_q_total.
  destruct (qeqb_spec L (signed_total pattern (fst it)) q); intuition congruence.
Qed.

Lemma kron_sum_spec : forall items ref pattern,
  (forall q, consistent (in_q ref pattern q items)) ->
  exists res, kron_sum L items ref pattern = Some res /\
    forall q, at_q res q = layout prod32 0 (canon (in_q ref pattern q items)) /\
              bget L (fst res) q = total prod32 (canon (in_q ref pattern q items)).
Proof.
  intros items ref pattern Hc. destruct (collect_spec ref pattern items) as (C1 & C2 & C3).
  destruct (kron_loop_spec (collect L ref pattern items) ([], []) C1) as [A _]; [reflexivity|].
  assert (V: forall q v, In (q, v) (collect L ref pattern items) -> v = in_q ref pattern q items).
  { intros q v Hi. rewrite <- C2. rewrite (in_dget _ (qeqb_spec L) _ q v); auto. }
  destruct A as (st & E & A & B).
  { apply Forall_forall. intros [q v] Hi. cbn. rewrite (V q v Hi). auto. }
  exists st. split; [exact E|]. intros q.
  destruct (in_dec (fun a b => reflect_dec _ _ (qeqb_spec L a b)) q (keys (collect L ref pattern items))) as [Hi|Hi].
  - unfold keys in Hi. apply in_map_iff in Hi. destruct Hi as ([q' v] & Eq & Hi). cbn in Eq. subst q'.
    rewrite <- (V q v Hi). apply (A q v Hi).
  - destruct (B q Hi) as [B1 B2]. rewrite C3 in Hi.
    assert (En: in_q ref pattern q items = []) by (destruct (in_q ref pattern q items); [auto|exfalso; apply Hi; discriminate]).
    rewrite En, B1, B2. split; reflexivity.
Qed.
Lemma kron_sum_none : forall items ref pattern q,
  ~ consistent (in_q ref pattern q items) -> kron_sum L items ref pattern = None.
Proof.
  intros items ref pattern q Hc. destruct (collect_spec ref pattern items) as (C1 & C2 & C3).
  destruct (kron_loop_spec (collect L ref pattern items) ([], []) C1) as [_ A]; [reflexivity|].
  apply A. exists (q, in_q ref pattern q items). split; [|auto].
  assert (Hk: In q (keys (collect L ref pattern items))).
  { apply C3. intro E. apply Hc. rewrite E. intros ? ? ? []. }
  unfold keys in Hk. apply in_map_iff in Hk. destruct Hk as ([q' v] & Eq & Hi). cbn in Eq. subst q'.
  rewrite <- C2. rewrite (in_dget _ (qeqb_spec L) _ q v); auto.
Qed.

(** ** totals of fuse_product *)
Lemma zsum_dset_add : forall (d : binfo) q v, zsum (map snd (dset (qeqb L) d q (bget L d q + v))) = zsum (map snd d) + v.
Proof.
  induction d as [|[k x] d IH]; intros q v; cbn [dset map snd].
  - cbn. lia.
  - unfold bget. cbn [dget]. destruct (qeqb_spec L k q).
    + subst. cbn [map snd]. rewrite !zsum_cons. lia.
    + fold (bget L d q). cbn [map snd]. rewrite !zsum_cons, IH. lia.
Qed.
Lemma gp_total : forall items st, n_bonds L (fst (fold_left gp items st)) = n_bonds L (fst st) + zsum (map (fun x => prod32 (snd (snd x))) items).
Proof.
  induction items as [|[g [k p]] items IH]; intros st; cbn [fold_left map].
  - cbn. lia.
  - rewrite IH, zsum_cons. cbn [snd]. destruct st as [quanta finfo]. cbn [gput fst].
    pose proof (zsum_dset_add quanta g (prod32 p)) as E. unfold n_bonds. unfold bget, odflt in *. lia.
Qed.
Lemma cart_total : forall (ls : list binfo),
  zsum (map (fun x => prodZ (map snd x)) (cart ls)) = prodZ (map (fun l => zsum (map snd l)) ls).
Proof.
  induction ls as [|l ls IH]; [reflexivity|]. cbn [cart map prodZ fold_right]. fold (prodZ (map (fun l => zsum (map snd l)) ls)).
  rewrite zsum_map_flat. rewrite <- IH. rewrite (Z.mul_comm (zsum (map snd l))), <- zsum_map_mul.
  rewrite map_map || idtac.
  apply zsum_map_ext. intros x _. rewrite map_map. cbn [map prodZ fold_right].
  rewrite (zsum_map_ext _ _ (fun a => snd x * prodZ (map snd a))) by reflexivity.
  rewrite zsum_map_mul. lia.
Qed.
End Fuse.

(** ** lowering the symmetry *)
Lemma symm_fold : forall (L L' : Label) (info : dict L Z) (m : L -> L'),
  symm_fusing L L' info m = fold_left (gput (qeqb L') (qeqb L) (fun v : Z => v))
     (map (fun kv => (m (fst kv), kv)) (sort_by (qltb L) fst info)) ([], []).
Proof.
  intros. unfold symm_fusing. generalize (sort_by (qltb L) fst info). intros l.
  match goal with |- fold_left ?f ?l ?s = fold_left ?g ?l' ?s' =>
    assert (E: forall st, fold_left f l st = fold_left g l' st); [|apply E] end.
  induction l as [|[k v] l IH]; intros st; cbn [fold_left map]; [reflexivity|].
  rewrite IH. destruct st as [quanta finfo]. reflexivity.
Qed.
