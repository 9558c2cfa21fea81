(** Lemmas about truncation. *)
From Coq Require Import ZArith Bool List Lia Permutation Sorted Ring ZifyBool.
From Verif Require Import DictLib IndexLib RingLib OrdLib TruncModel.
Import ListNotations.
Open Scope Z_scope.

Lemma enumerate_app : forall (A : Type) (a b : list A),
  enumerate (a ++ b) = enumerate a ++ map (fun p => (Z.of_nat (length a) + fst p, snd p)) (enumerate b).
Proof.
  intros A a b. unfold enumerate. rewrite app_length, Nat2Z.inj_add, zrange_add by lia.
  assert (G: forall (X : Type) (x : list X) (y : list A) u v, length x = length y -> combine (x ++ u) (y ++ v) = combine x y ++ combine u v).
  { induction x; destruct y; cbn; intros; try lia; auto. f_equal. apply IHx. lia. }
  rewrite G by (rewrite zrange_length; lia). f_equal. generalize (zrange (Z.of_nat (length b))) as u. induction b; destruct u; cbn; auto. f_equal. apply IHb.
Qed.
Lemma in_enumerate : forall (A : Type) (d : A) (l : list A) i x,
  In (i, x) (enumerate l) <-> 0 <= i < Z.of_nat (length l) /\ x = nth (Z.to_nat i) l d.
Proof.
  intros A d l i x. induction l as [|a l IH] using rev_ind; [cbn; split; [tauto|lia]|].
  rewrite enumerate_app, in_app_iff, IH, app_length. cbn. split.
  - intros [[H ->]|[[= <- <-]|[]]].
    + rewrite app_nth1 by lia. split; [lia|auto].
    + rewrite app_nth2 by lia. replace (Z.to_nat (Z.of_nat (length l) + 0) - length l)%nat with O by lia. split; [lia|auto].
  - intros [H ->]. destruct (Z.ltb_spec i (Z.of_nat (length l))).
    + left. rewrite app_nth1 by lia. split; [lia|auto].
    + right. left. rewrite app_nth2 by lia. replace (Z.to_nat i - length l)%nat with O by lia. cbn. f_equal. lia.
Qed.
Lemma map_fst_enumerate : forall (A : Type) (l : list A), map fst (enumerate l) = zrange (Z.of_nat (length l)).
Proof.
  intros A l. unfold enumerate. assert (H: length (zrange (Z.of_nat (length l))) = length l) by (rewrite zrange_length; lia).
  revert H. generalize (zrange (Z.of_nat (length l))) as z. revert l. induction l; destruct z; cbn; intros; try lia; auto. f_equal. apply IHl. lia.
Qed.
Lemma map_snd_enumerate : forall (A : Type) (l : list A), map snd (enumerate l) = l.
Proof.
  intros A l. unfold enumerate. assert (H: length (zrange (Z.of_nat (length l))) = length l) by (rewrite zrange_length; lia).
  revert H. generalize (zrange (Z.of_nat (length l))) as z. revert l. induction l; destruct z; cbn; intros; try lia; auto. f_equal. apply IHl. lia.
Qed.
Lemma NoDup_app_intro : forall (A : Type) (a b : list A), NoDup a -> NoDup b -> (forall x, In x a -> ~ In x b) -> NoDup (a ++ b).
Proof.
  induction a; intros b Ha Hb H; cbn; auto. inversion Ha; subst. constructor.
  - rewrite in_app_iff. intros [|X]; auto. apply (H a); auto. now left.
  - apply IHa; auto. intros; apply H; auto. now right.
Qed.
Lemma NoDup_flat_map : forall (A B : Type) (f : A -> list B) l, NoDup l -> (forall x, In x l -> NoDup (f x)) ->
  (forall x y z, In x l -> In y l -> In z (f x) -> In z (f y) -> x = y) -> NoDup (flat_map f l).
Proof.
  induction l as [|x l IH]; intros Hn Hf Hd; cbn; [constructor|]. inversion Hn; subst. apply NoDup_app_intro.
  - apply Hf. now left.
  - apply IH; auto. + intros; apply Hf; now right. + intros; eapply Hd; eauto; now right.
  - intros z Hz Hz'. apply in_flat_map in Hz' as (y & Hy & Hz'). assert (x = y) by (eapply Hd; eauto; [now left|now right]). subst. auto.
Qed.
Lemma SS_map_impl : forall (A : Type) (R R' : A -> A -> Prop) l, (forall a b, R a b -> R' a b) -> StronglySorted R l -> StronglySorted R' l.
Proof.
  induction 2; constructor; auto. eapply Forall_impl; [|eauto]. auto.
Qed.
Lemma SS_app : forall (A : Type) (R : A -> A -> Prop) a b,
  StronglySorted R (a ++ b) <-> StronglySorted R a /\ StronglySorted R b /\ (forall x y, In x a -> In y b -> R x y).
Proof.
  induction a as [|x a IH]; intros b; cbn.
  - split; [intros; split; [constructor|split; auto; tauto]|tauto].
  - split.
    + inversion 1; subst. apply IH in H2 as (H1 & H2 & H4). rewrite Forall_forall in H3. split; [|split; auto].
      * constructor; auto. apply Forall_forall. intros. apply H3. apply in_or_app. now left.
      * intros u v [->|Hu] Hv; [apply H3; apply in_or_app; now right|auto].
    + intros (H1 & H2 & H3). inversion H1; subst. constructor.
      * apply IH. split; [auto|split; auto].
      * rewrite Forall_forall in *. intros z Hz. apply in_app_or in Hz as [Hz|Hz]; auto.
Qed.
Lemma SS_firstn : forall (A : Type) (R : A -> A -> Prop) n l, StronglySorted R l -> StronglySorted R (firstn n l).
Proof. intros A R n l H. rewrite <- (firstn_skipn n l) in H. now apply SS_app in H. Qed.
Lemma SS_filter_prefix : forall (A : Type) (R : A -> A -> Prop) (p : A -> bool) l,
  (forall a b, R a b -> p b = true -> p a = true) -> StronglySorted R l -> filter p l = firstn (length (filter p l)) l.
Proof.
  intros A R p l Hp. induction 1 as [|a l Hs IH Hf]; [reflexivity|]. cbn. destruct (p a) eqn:E; cbn; [now f_equal|].
  assert (N: filter p l = []).
  { rewrite Forall_forall in Hf. destruct (filter p l) as [|y r] eqn:Ey; auto. assert (Hy: In y (filter p l)) by (rewrite Ey; now left).
    apply filter_In in Hy as [Hy Py]. rewrite (Hp a y) in E; auto; discriminate. }
  now rewrite N.
Qed.
Lemma py_take_prefix : forall (A : Type) (l : list A) n, exists k, py_take l n = firstn k l.
Proof. intros. unfold py_take. eauto. Qed.
Lemma firstn_le : forall (A : Type) (l : list A) k, exists k', (k' <= length l)%nat /\ firstn k l = firstn k' l.
Proof.
  intros A l k. destruct (le_lt_dec k (length l)); [now exists k|]. exists (length l). split; [lia|]. rewrite firstn_all, firstn_all2; auto. lia.
Qed.

Section T.
Variable K : ORing.
Add Ring KR : (rth K).
Notation sv := (sv K).
Notation entries := (entries K). Notation blk := (blk K). Notation at_ := (at_ K).

Lemma entries_in : forall s i j v, In (i, j, v) (entries s) <->
  0 <= i < Z.of_nat (length s) /\ 0 <= j < Z.of_nat (length (blk s i)) /\ v = at_ (blk s i) j.
Proof.
  intros s i j v. unfold TruncModel.entries. rewrite in_flat_map. split.
  - intros ([i' b] & Hb & H). apply (in_enumerate _ []) in Hb as [Hi ->]. apply in_map_iff in H as ([j' v'] & [= <- <- <-] & H).
    apply (in_enumerate _ (r0 K)) in H as [Hj ->]. cbn in *. auto.
  - intros (Hi & Hj & ->). exists (i, blk s i). split; [now apply (in_enumerate _ [])|]. apply in_map_iff. exists (j, at_ (blk s i) j).
    split; auto. now apply (in_enumerate _ (r0 K)).
Qed.
Definition pos (x : sv) : Z * Z := (sv_i x, sv_j x).
Lemma entries_pos_nodup : forall s, NoDup (map pos (entries s)).
Proof.
  intros s. unfold TruncModel.entries. rewrite flat_map_concat_map, concat_map, map_map, <- flat_map_concat_map. apply NoDup_flat_map.
  - apply (NoDup_map_inv fst). rewrite map_fst_enumerate. apply zrange_nodup.
  - intros [i b] _. rewrite map_map. cbn. apply (NoDup_map_inv snd). rewrite map_map. cbn.
    rewrite (map_ext _ fst) by reflexivity. rewrite map_fst_enumerate. apply zrange_nodup.
  - intros [i b] [i' b'] z H H' Hz Hz'. apply in_map_iff in Hz as (x & <- & Hx), Hz' as (y & Hy & Hy').
    apply in_map_iff in Hx as (u & <- & _), Hy' as (u' & <- & _). unfold pos, sv_i, sv_j in Hy. cbn in Hy. injection Hy as E _. subst i'.
    apply (in_enumerate _ []) in H as [_ ->], H' as [_ ->]. reflexivity.
Qed.
Lemma entries_nodup : forall s, NoDup (entries s).
Proof. intros. eapply NoDup_map_inv. apply entries_pos_nodup. Qed.
Lemma bsum_entries : forall s (f : sv -> K), bsum (entries s) f =
  bsum (zrange (Z.of_nat (length s))) (fun i => bsum (zrange (Z.of_nat (length (blk s i)))) (fun j => f (i, j, at_ (blk s i) j))).
Proof.
  intros s f. unfold TruncModel.entries. rewrite bsum_flat_map. rewrite <- map_fst_enumerate, bsum_map. apply bsum_ext. intros [i b] H.
  apply (in_enumerate _ []) in H as [Hi ->]. cbn [fst snd]. rewrite bsum_map. change (nth (Z.to_nat i) s []) with (blk s i).
  rewrite <- map_fst_enumerate, bsum_map. apply bsum_ext. intros [j v] H. apply (in_enumerate _ (r0 K)) in H as [Hj ->]. reflexivity.
Qed.
Lemma map_v_entries : forall s, map sv_v (entries s) = concat s.
Proof.
  intros s. unfold TruncModel.entries. rewrite flat_map_concat_map, concat_map, map_map. f_equal.
  rewrite <- (map_snd_enumerate _ s) at 2. apply map_ext. intros [i b]. cbn. rewrite map_map. cbn. rewrite <- (map_snd_enumerate _ b) at 2.
  now apply map_ext.
Qed.
Lemma map_i_entries : forall s, map sv_i (entries s) = ind_map K s.
Proof.
  intros s. unfold TruncModel.entries, ind_map. rewrite !flat_map_concat_map, concat_map, map_map. f_equal. apply map_ext. intros [i b]. cbn.
  rewrite map_map. cbn. rewrite <- (map_snd_enumerate _ b) at 2. rewrite map_length. induction (enumerate b); cbn; auto. now f_equal.
Qed.

(** *** the descending order *)
Definition ge_v (a b : sv) : Prop := ole (sv_v b) (sv_v a).
Lemma K_dec : forall x y : K, {x = y} + {x <> y}.
Proof. intros x y. destruct (oeqb_spec K x y); auto. Qed.
Lemma sort_desc_perm : forall l, Permutation l (sort_desc K l).
Proof. intros. apply sort_perm. Qed.
Lemma sort_desc_sorted : forall l, StronglySorted ge_v (sort_desc K l).
Proof.
  intros l. eapply SS_map_impl; [|apply sort_sorted].
  - intros a b [H|H]; unfold ge_v. + rewrite H. apply ole_refl. + apply olt_ole. unfold olt. unfold oltb in H. now apply negb_true_iff in H.
  - intros a b c. unfold oltb. rewrite !negb_true_iff. intros H1 H2. eapply ole_lt_trans; [apply olt_ole; exact H2|exact H1].
  - intros a b N. unfold oltb. rewrite !negb_true_iff. destruct (oleb K a b) eqn:E; auto. destruct (oleb K b a) eqn:E'; auto.
    exfalso. apply N. now apply (oleb_antisym K).
  - apply K_dec.
Qed.

(** *** every stage keeps a prefix *)
Lemma cut_dw_prefix : forall sc w d l, exists k, cut_dw K sc w d l = firstn k l.
Proof.
  intros. unfold cut_dw. destruct (oeqb d (r0 K)); [exists (length l); now rewrite firstn_all|]. apply py_take_prefix.
Qed.
Lemma cut_value_prefix : forall c0 c l, StronglySorted ge_v l -> exists k, cut_value K c0 c l = firstn k l.
Proof.
  intros c0 c l H. unfold cut_value. destruct (oeqb c0 (r0 K)); [exists (length l); now rewrite firstn_all|].
  eexists. eapply SS_filter_prefix; [|exact H]. intros a b Hab Hb. eapply ole_trans; [exact Hb|exact Hab].
Qed.
Lemma cut_count_prefix : forall m l, exists k, cut_count K m l = firstn k l.
Proof.
  intros. unfold cut_count. destruct (m =? -1); [exists (length l); now rewrite firstn_all|]. apply py_take_prefix.
Qed.
Lemma cut_count_le : forall m l, 0 <= m -> Z.of_nat (length (cut_count K m l)) <= m.
Proof.
  intros m l H. unfold cut_count, py_take. destruct (m =? -1) eqn:E; [lia|]. destruct (m <? 0) eqn:E'; [lia|]. rewrite firstn_length. lia.
Qed.

(** *** grouping *)
Definition keptb (gs : list (Z * list Z)) (i j : Z) : bool := existsb (fun g => (fst g =? i) && existsb (Z.eqb j) (snd g)) gs.
Lemma keptb_iff : forall gs i j, keptb gs i j = true <-> exists g, In (i, g) gs /\ In j g.
Proof.
  intros. unfold keptb. rewrite existsb_exists. split.
  - intros ([i' g] & H & E). cbn in E. apply andb_true_iff in E as [E1 E2]. apply Z.eqb_eq in E1 as ->. apply existsb_exists in E2 as (j' & Hj & E).
    apply Z.eqb_eq in E as ->. eauto.
  - intros (g & H & Hj). exists (i, g). split; auto. cbn. rewrite Z.eqb_refl. apply existsb_exists. exists j. split; auto. apply Z.eqb_refl.
Qed.
Lemma group_pos_in : forall l i j, (exists g, In (i, g) (group_pos K l) /\ In j g) <-> In (i, j) (map pos l).
Proof.
  induction l as [|x l IH]; intros i j; cbn [group_pos map].
  - split; [intros (g & [] & _)|intros []].
  - cbn [In]. rewrite <- IH. destruct (group_pos K l) as [|[i' g'] gs].
    + split.
      * intros (g & [[= <- <-]|[]] & [<-|[]]). now left.
      * intros [[= <- <-]|(g & [] & _)]. eexists. split; [now left|now left].
    + destruct (Z.eqb_spec (sv_i x) i') as [E|E].
      * split.
        -- intros (g & [[= -> <-]|Hg] & Hj); [|right; exists g; split; auto; now right]. destruct Hj as [<-|Hj].
           ++ left. unfold pos. congruence. ++ right. exists g'. split; auto. now left.
        -- intros [[= <- <-]|(g & [[= -> ->]|Hg] & Hj)].
           ++ eexists. split; [left; f_equal; auto|now left].
           ++ eexists. split; [now left|now right].
           ++ exists g. split; auto. now right.
      * split.
        -- intros (g & [[= <- <-]|Hg] & Hj); [destruct Hj as [<-|[]]; now left|right; eauto].
        -- intros [[= <- <-]|(g & Hg & Hj)]; [eexists; split; [now left|now left]|]. exists g. split; auto. now right.
Qed.
Definition pos_lt (a b : Z * Z) : Prop := fst a < fst b \/ (fst a = fst b /\ snd a < snd b).
Lemma group_pos_head : forall l i g gs, group_pos K l = (i, g) :: gs -> exists x r, l = x :: r /\ sv_i x = i /\ exists g', g = sv_j x :: g'.
Proof.
  intros [|x l] i g gs H; cbn in H; [discriminate|]. exists x, l. split; [auto|]. destruct (group_pos K l) as [|[i' g'] gs'].
  - injection H as <- <- <-. eauto.
  - destruct (Z.eqb_spec (sv_i x) i'); injection H as <- <- <-; eauto.
Qed.
Lemma group_pos_sorted : forall l, StronglySorted pos_lt (map pos l) ->
  StronglySorted Z.lt (map fst (group_pos K l)) /\ (forall i g, In (i, g) (group_pos K l) -> g <> [] /\ StronglySorted Z.lt g).
Proof.
  induction l as [|x l IH]; intros H; cbn [group_pos map]; [split; [constructor|intros ? ? []]|].
  cbn in H. inversion H; subst. destruct (IH H2) as [H5 H4]. clear IH.
  pose proof (group_pos_in l) as Hin.
  destruct (group_pos K l) as [|[i' g'] gs] eqn:Eg.
  { split; [repeat constructor|]. intros i g [[= <- <-]|[]]. split; [discriminate|repeat constructor]. }
  rewrite Forall_forall in H3. destruct (group_pos_head _ _ _ _ Eg) as (y & r & -> & Hy & g0 & ->).
  assert (Hxy: pos_lt (pos x) (pos y)) by (apply H3; now left).
  destruct (Z.eqb_spec (sv_i x) i') as [E|E].
  - split; [exact H5|]. intros i g [[= <- <-]|Hg]; [|apply (H4 i); now right]. split; [discriminate|].
    destruct (H4 i' (sv_j y :: g0) (or_introl eq_refl)) as [_ Hg]. constructor; auto.
    apply Forall_forall. intros j Hj. assert (P: In (i', j) (map pos (y :: r))) by (apply Hin; exists (sv_j y :: g0); split; [now left|exact Hj]).
    apply H3 in P. unfold pos_lt, pos in P. cbn in P. lia.
  - split.
    + cbn [map fst]. constructor; [exact H5|]. apply Forall_forall. intros i Hi. change (i' :: map fst gs) with (map fst ((i', sv_j y :: g0) :: gs)) in Hi. apply in_map_iff in Hi as ([i2 g2] & <- & Hg2).
      assert (H0: In (i2, g2) ((i', sv_j y :: g0) :: gs)) by exact Hg2. destruct (H4 _ _ H0) as [Hne _]. destruct g2 as [|j2 g2]; [congruence|].
      assert (P: In (i2, j2) (map pos (y :: r))) by (apply Hin; exists (j2 :: g2); split; [assumption|now left]).
      inversion H5; subst. destruct Hg2 as [Hg2|Hg2]; [injection Hg2 as E1 E2 E3; subst i2|].
      * unfold pos_lt, pos in Hxy. cbn in *. lia.
      * rewrite Forall_forall in H8. specialize (H8 i2). cbn [fst] in *. assert (sv_i y < i2) by (apply H8; apply in_map_iff; exists (i2, j2 :: g2); auto).
        unfold pos_lt, pos in Hxy. cbn in Hxy. lia.
    + intros i g [[= <- <-]|Hg]; [split; [discriminate|repeat constructor]|]. now apply (H4 i).
Qed.
Lemma group_pos_total : forall l, zsum (map (fun g => Z.of_nat (length (snd g))) (group_pos K l)) = Z.of_nat (length l).
Proof.
  induction l as [|x l IH]; [reflexivity|]. cbn [group_pos]. destruct (group_pos K l) as [|[i' g] gs] eqn:E.
  - destruct l; [reflexivity|]. cbn [map zsum fold_right length] in IH. lia.
  - cbn [map] in IH. rewrite zsum_cons in IH. destruct (sv_i x =? i'); cbn [map snd]; rewrite ?zsum_cons; cbn [length snd]; rewrite ?zsum_cons in *; cbn [snd length] in *; lia.
Qed.
Lemma sort_pos_sorted : forall l, NoDup (map pos l) -> StronglySorted pos_lt (map pos (sort_pos K l)).
Proof.
  intros l Hn. assert (Hp: Permutation l (sort_pos K l)) by apply sort_perm.
  assert (Hs: StronglySorted (le_key pos_ltb (fun x : sv => (sv_i x, sv_j x))) (sort_pos K l)).
  { apply sort_sorted.
    - intros a b c. unfold pos_ltb. lia.
    - intros [a1 a2] [b1 b2] N. unfold pos_ltb. cbn. assert (a1 <> b1 \/ a2 <> b2) by (destruct (Z.eq_dec a1 b1); destruct (Z.eq_dec a2 b2); subst; auto). lia.
    - intros [a1 a2] [b1 b2]. destruct (Z.eq_dec a1 b1); destruct (Z.eq_dec a2 b2); subst; auto; right; congruence. }
  assert (Hn': NoDup (map pos (sort_pos K l))) by (eapply Permutation_NoDup; [apply Permutation_map; exact Hp|auto]).
  clear Hp Hn. induction Hs as [|a r Hs IH Hf]; cbn; [constructor|]. cbn in Hn'. inversion Hn'; subst. constructor; auto.
  rewrite Forall_forall in *. intros p Hp'. apply in_map_iff in Hp' as (b & <- & Hb). destruct (Hf b Hb) as [E|E].
  - exfalso. apply H1. apply in_map_iff. exists b. split; auto.
  - unfold pos_lt, pos. unfold pos_ltb in E. cbn in *. lia.
Qed.

(** *** the error *)
Lemma fold_radd : forall X (f : X -> K) l a, fold_left (fun e x => radd K e (f x)) l a = radd K a (bsum l f).
Proof.
  induction l as [|x l IH]; intros a; cbn [fold_left]; [rewrite bsum_nil; ring|]. rewrite IH, bsum_cons. ring.
Qed.
Lemma fold_cond_radd : forall X (p : X -> bool) (f : X -> K) l a,
  fold_left (fun e x => if p x then e else radd K e (f x)) l a = radd K a (bsum l (fun x => if p x then r0 K else f x)).
Proof.
  induction l as [|x l IH]; intros a; cbn [fold_left]; [rewrite bsum_nil; ring|]. rewrite IH, bsum_cons. destruct (p x); ring.
Qed.
Lemma bsum_list_zrange : forall (b : list K) (f : K -> K), bsum b f = bsum (zrange (Z.of_nat (length b))) (fun j => f (at_ b j)).
Proof.
  intros b f. rewrite <- (map_snd_enumerate _ b) at 1. rewrite bsum_map. rewrite <- map_fst_enumerate, bsum_map. apply bsum_ext.
  intros [j v] H. apply (in_enumerate _ (r0 K)) in H as [_ ->]. reflexivity.
Qed.
Definition lost (w : K -> K) (s : list (list K)) (gs : list (Z * list Z)) : K :=
  bsum (zrange (Z.of_nat (length s))) (fun i => bsum (zrange (Z.of_nat (length (blk s i))))
    (fun j => if keptb gs i j then r0 K else w (at_ (blk s i) j))).
Lemma trunc_error_spec : forall w s gs, NoDup (map fst gs) -> (forall i, In i (map fst gs) -> 0 <= i < Z.of_nat (length s)) ->
  trunc_error K w s gs = lost w s gs.
Proof.
  intros w s gs Hn Hr. unfold trunc_error, lost. rewrite fold_radd, fold_cond_radd.
  set (G := fun i => bsum (zrange (Z.of_nat (length (blk s i)))) (fun j => if keptb gs i j then r0 K else w (at_ (blk s i) j))).
  set (p := fun i => existsb (Z.eqb i) (map fst gs)).
  assert (E1: bsum gs (fun g => bsum (gl_inv K (blk s (fst g)) (snd g)) (fun j => w (at_ (blk s (fst g)) j))) = bsum (map fst gs) G).
  { rewrite bsum_map. apply bsum_ext. intros [i g] Hg. cbn [fst snd]. unfold gl_inv, G. rewrite bsum_filter. apply bsum_ext. intros j _.
    assert (keptb gs i j = existsb (Z.eqb j) g) as ->.
    { apply eq_iff_eq_true. rewrite keptb_iff, existsb_exists. split.
      - intros (g' & Hg' & Hj). assert (g' = g). { clear - Hn Hg Hg'. induction gs as [|[a b] gs IH]; [destruct Hg|]. cbn in Hn. inversion Hn; subst.
          destruct Hg as [[= -> ->]|Hg], Hg' as [[= ]|Hg']; subst; auto; exfalso; apply H1; apply in_map_iff; [exists (i, g')|exists (i, g)]; auto. }
        subst. exists j. split; auto. apply Z.eqb_refl.
      - intros (j' & Hj & E). apply Z.eqb_eq in E as <-. eauto. }
    now destruct (existsb (Z.eqb j) g). }
  assert (E2: Permutation (map fst gs) (filter p (zrange (Z.of_nat (length s))))).
  { apply NoDup_Permutation; auto. - apply NoDup_filter, zrange_nodup.
    - intros i. rewrite filter_In, in_zrange. unfold p. split.
      + intros H. split; [auto|]. apply existsb_exists. exists i. split; auto. apply Z.eqb_refl.
      + intros [_ H]. apply existsb_exists in H as (i' & H & E). apply Z.eqb_eq in E as ->. auto. }
  rewrite E1. rewrite (bsum_perm _ _ _ _ G E2), bsum_filter.
  transitivity (bsum (zrange (Z.of_nat (length s))) (fun i => radd K (if p i then G i else r0 K) (if p i then r0 K else bsum (blk s i) w))).
  { rewrite bsum_add.
    subst p. cbv beta. ring. }
  apply bsum_ext. intros i Hi. destruct (p i) eqn:E; [unfold G; ring|]. rewrite bsum_list_zrange. 
  replace (bsum (zrange (Z.of_nat (length (blk s i)))) (fun j => w (at_ (blk s i) j))) with (G i); [unfold G; ring|].
  unfold G. apply bsum_ext. intros j _. destruct (keptb gs i j) eqn:Ek; [|reflexivity]. exfalso. apply keptb_iff in Ek as (g & Hg & _).
  unfold p in E. assert (existsb (Z.eqb i) (map fst gs) = true); [|congruence]. apply existsb_exists. exists i. split; [|apply Z.eqb_refl].
  apply in_map_iff. now exists (i, g).
Qed.

(** *** a prefix of the descending list, as groups *)
Section Prefix.
Variable s : list (list K).
Variable k : nat.
Let D := sort_desc K (entries s).
Let gs := group_pos K (sort_pos K (firstn k D)).
Lemma D_perm : Permutation (entries s) D. Proof. apply sort_desc_perm. Qed.
Lemma D_nodup : NoDup (map pos D).
Proof. eapply Permutation_NoDup; [apply Permutation_map, D_perm|apply entries_pos_nodup]. Qed.
Lemma D_split_nodup : NoDup (map pos (firstn k D) ++ map pos (skipn k D)).
Proof. rewrite <- map_app, firstn_skipn. apply D_nodup. Qed.
Lemma NoDup_app_l : forall (A : Type) (a b : list A), NoDup (a ++ b) -> NoDup a /\ forall x, In x a -> ~ In x b.
Proof.
  induction a; intros b H; cbn in *; [split; [constructor|tauto]|]. inversion H; subst. destruct (IHa _ H3) as [H4 H5]. split.
  - constructor; auto. intro. apply H2. apply in_or_app. now left.
  - intros x [->|Hx] Hb; [apply H2; apply in_or_app; now right|]. eapply H5; eauto.
Qed.
Lemma gs_kept : forall i j, keptb gs i j = true <-> In (i, j) (map pos (firstn k D)).
Proof.
  intros. unfold gs. rewrite keptb_iff, group_pos_in. split; intro H; (eapply Permutation_in; [|exact H]); apply Permutation_map;
    [apply Permutation_sym|]; apply sort_perm.
Qed.
Lemma gs_sorted : StronglySorted Z.lt (map fst gs) /\ (forall i g, In (i, g) gs -> g <> [] /\ StronglySorted Z.lt g).
Proof. apply group_pos_sorted, sort_pos_sorted. apply (NoDup_app_l _ _ _ D_split_nodup). Qed.
Lemma gs_range : forall i g, In (i, g) gs -> 0 <= i < Z.of_nat (length s) /\ forall j, In j g -> 0 <= j < Z.of_nat (length (blk s i)).
Proof.
  intros i g Hg.
  assert (A: forall j, In j g -> 0 <= i < Z.of_nat (length s) /\ 0 <= j < Z.of_nat (length (blk s i))).
  { intros j Hj. assert (P: keptb gs i j = true) by (apply keptb_iff; eauto). apply gs_kept in P. apply in_map_iff in P as ([[i' j'] v] & E & P). unfold pos, sv_i, sv_j in E. cbn in E. injection E as -> ->.
    assert (P': In (i, j, v) D) by (rewrite <- (firstn_skipn k D); apply in_or_app; now left).
    apply (Permutation_in _ (Permutation_sym D_perm)) in P'. apply entries_in in P' as (H1 & H2 & _). auto. }
  destruct gs_sorted as [_ H]. destruct (H i g Hg) as [Hne _]. split; [|intros; now apply A]. destruct g as [|j g]; [congruence|]. apply (A j). now left.
Qed.
Lemma SS_lt_nodup : forall l, StronglySorted Z.lt l -> NoDup l.
Proof. induction 1; constructor; auto. intro Hi. rewrite Forall_forall in H0. specialize (H0 _ Hi). lia. Qed.
Lemma gs_error : forall w, trunc_error K w s gs = lost w s gs.
Proof.
  intros w. apply trunc_error_spec; [apply SS_lt_nodup, gs_sorted|]. intros i Hi. apply in_map_iff in Hi as ([i' g] & <- & Hg). now apply (gs_range i' g).
Qed.
Lemma gs_lost : forall w, lost w s gs = bsum (skipn k D) (fun x => w (sv_v x)).
Proof.
  intros w. unfold lost.
  transitivity (bsum (entries s) (fun x : sv => if keptb gs (sv_i x) (sv_j x) then r0 K else w (sv_v x))); [now rewrite bsum_entries|].
  rewrite (bsum_perm _ _ _ _ _ D_perm). rewrite <- (firstn_skipn k D) at 1. rewrite bsum_app. rewrite bsum_zero.
  - rewrite (Radd_0_l (rth K)). apply bsum_ext. intros x Hx.
    destruct (keptb gs (sv_i x) (sv_j x)) eqn:E; [|reflexivity]. exfalso. apply gs_kept in E.
    apply (proj2 (NoDup_app_l _ _ _ D_split_nodup) _ E). now apply (in_map pos).
  - intros x Hx. assert (keptb gs (sv_i x) (sv_j x) = true) as ->; [|reflexivity]. apply gs_kept. now apply (in_map pos).
Qed.
Lemma gs_total : zsum (map (fun g => Z.of_nat (length (snd g))) gs) = Z.of_nat (length (firstn k D)).
Proof.
  unfold gs. rewrite group_pos_total. f_equal. symmetry. apply Permutation_length. apply sort_perm.
Qed.
Lemma in_D : forall i j, 0 <= i < Z.of_nat (length s) -> 0 <= j < Z.of_nat (length (blk s i)) -> In (i, j, at_ (blk s i) j) D.
Proof. intros i j Hi Hj. eapply Permutation_in; [apply D_perm|]. now apply entries_in. Qed.
Lemma pos_inj_D : forall x y, In x D -> In y D -> pos x = pos y -> x = y.
Proof.
  intros [[i j] v] [[i' j'] v'] Hx Hy E. unfold pos, sv_i, sv_j in E. cbn in E. injection E as -> ->. apply (Permutation_in _ (Permutation_sym D_perm)) in Hx, Hy. apply entries_in in Hx as (_ & _ & ->), Hy as (_ & _ & ->). reflexivity.
Qed.
Lemma in_firstn : forall (A : Type) n (l : list A) x, In x (firstn n l) -> In x l.
Proof. intros. rewrite <- (firstn_skipn n l). apply in_or_app. now left. Qed.
Lemma in_skipn : forall (A : Type) n (l : list A) x, In x (skipn n l) -> In x l.
Proof. intros. rewrite <- (firstn_skipn n l). apply in_or_app. now right. Qed.
Lemma kept_value : forall i j, keptb gs i j = true -> In (i, j, at_ (blk s i) j) (firstn k D).
Proof.
  intros i j H. apply gs_kept in H. apply in_map_iff in H as ([[i' j'] v] & E & H). unfold pos, sv_i, sv_j in E. cbn in E. injection E as -> ->. pose proof (in_firstn _ _ _ _ H) as P.
  apply (Permutation_in _ (Permutation_sym D_perm)) in P. apply entries_in in P as (_ & _ & ->). auto.
Qed.
Lemma lost_value : forall i j, 0 <= i < Z.of_nat (length s) -> 0 <= j < Z.of_nat (length (blk s i)) -> keptb gs i j = false ->
  In (i, j, at_ (blk s i) j) (skipn k D).
Proof.
  intros i j Hi Hj H. pose proof (in_D i j Hi Hj) as P. rewrite <- (firstn_skipn k D) in P. apply in_app_or in P as [P|P]; auto.
  exfalso. assert (keptb gs i j = true); [|congruence]. apply gs_kept. apply in_map_iff. now exists (i, j, at_ (blk s i) j).
Qed.
Lemma prefix_order : forall i j i' j', 0 <= i' < Z.of_nat (length s) -> 0 <= j' < Z.of_nat (length (blk s i')) ->
  keptb gs i j = true -> keptb gs i' j' = false -> ole (at_ (blk s i') j') (at_ (blk s i) j).
Proof.
  intros i j i' j' Hi Hj Hk Hn. apply kept_value in Hk. apply lost_value in Hn; auto.
  pose proof (sort_desc_sorted (entries s)) as Hs. fold D in Hs. rewrite <- (firstn_skipn k D) in Hs. apply SS_app in Hs as (_ & _ & Hs).
  exact (Hs _ _ Hk Hn).
Qed.
End Prefix.

(** *** the discarded weight stage *)
Lemma dw_count_range : forall w d l a, 0 <= dw_count K w d a l <= Z.of_nat (length l).
Proof.
  induction l as [|x l IH]; intros a; cbn [dw_count length]; [lia|]. specialize (IH (radd K a (w (sv_v x)))). destruct (oleb K (radd K a (w (sv_v x))) d); lia.
Qed.
Lemma dw_count_sum : forall w d l a, let p := Z.to_nat (dw_count K w d a l) in
  (p <> O -> ole (radd K a (bsum (firstn p l) (fun x => w (sv_v x)))) d) /\
  (forall y, nth_error l p = Some y -> olt d (radd K (radd K a (bsum (firstn p l) (fun x => w (sv_v x)))) (w (sv_v y)))).
Proof.
  induction l as [|x l IH]; intros a; cbn zeta; cbn [dw_count].
  - split; [intros []; reflexivity|]. intros y Hy. cbn in Hy. discriminate.
  - destruct (oleb K (radd K a (w (sv_v x))) d) eqn:E.
    + specialize (IH (radd K a (w (sv_v x)))). cbn zeta in IH. destruct IH as [IH1 IH2].
      pose proof (dw_count_range w d l (radd K a (w (sv_v x)))) as Hr.
      replace (Z.to_nat (1 + dw_count K w d (radd K a (w (sv_v x))) l)) with (S (Z.to_nat (dw_count K w d (radd K a (w (sv_v x))) l))) by lia.
      set (p := Z.to_nat (dw_count K w d (radd K a (w (sv_v x))) l)) in *. cbn [firstn nth_error]. rewrite bsum_cons.
      replace (radd K a (radd K (w (sv_v x)) (bsum (firstn p l) (fun x => w (sv_v x))))) with (radd K (radd K a (w (sv_v x))) (bsum (firstn p l) (fun x => w (sv_v x)))) by ring.
      split; [intros _|exact IH2]. destruct p eqn:Ep; [|apply IH1; discriminate]. cbn [firstn]. rewrite bsum_nil.
      replace (radd K (radd K a (w (sv_v x))) (r0 K)) with (radd K a (w (sv_v x))) by ring. exact E.
    + cbn [Z.to_nat firstn]. split; [intros []; reflexivity|]. intros y Hy. cbn in Hy. injection Hy as <-. rewrite bsum_nil.
      unfold olt. replace (radd K (radd K a (r0 K)) (w (sv_v x))) with (radd K a (w (sv_v x))) by ring. exact E.
Qed.
Lemma dw_count_pos : forall w d l a x r, l = x :: r -> ole (radd K a (w (sv_v x))) d -> 0 < dw_count K w d a l.
Proof.
  intros w d l a x r -> H. cbn [dw_count]. unfold ole in H. rewrite H. pose proof (dw_count_range w d r (radd K a (w (sv_v x)))). lia.
Qed.
Lemma py_take_neg : forall (A : Type) (l : list A) p, 0 < p -> py_take l (- p) = firstn (length l - Z.to_nat p) l.
Proof. intros A l p H. unfold py_take. destruct (- p <? 0) eqn:E; [|lia]. f_equal. lia. Qed.

(** *** blocks *)
Section B.
Variable R : CRing.
Variable L : Type.
Variable leqb : L -> L -> bool.
Hypothesis leqb_spec : forall a b, reflect (a = b) (leqb a b).
Notation block := (list L * nd R)%type.
Lemma skip_while_app : forall (p : block -> bool) a b, (forall x, In x a -> p x = true) -> skip_while R L p (a ++ b) = skip_while R L p b.
Proof. induction a as [|x a IH]; intros b H; cbn; auto. rewrite H by now left. apply IH. intros; apply H; now right. Qed.
Lemma take_while_app : forall (p : block -> bool) a b, (forall x, In x a -> p x = true) -> (forall x r, b = x :: r -> p x = false) ->
  take_while R L p (a ++ b) = (a, b).
Proof.
  induction a as [|x a IH]; intros b H H'; cbn.
  - destruct b as [|x r]; [reflexivity|]. cbn. now rewrite (H' x r).
  - rewrite H by now left. rewrite IH; auto. intros; apply H; now right.
Qed.
Lemma skipn_nth_cons : forall (A : Type) (d : A) n l, (n < length l)%nat -> skipn n l = nth n l d :: skipn (S n) l.
Proof. induction n; destruct l; cbn; intros; try lia; auto. apply IHn. lia. Qed.
Lemma skipn_plus : forall (A : Type) a b (l : list A), skipn a (skipn b l) = skipn (b + a) l.
Proof. induction b; intros; cbn; auto. destruct l; [now rewrite skipn_nil|]. apply IHb. Qed.
Lemma pick_blocks_spec : forall (lab : list L -> option L) cut slabs (BB : list (list block)) gs i0,
  NoDup slabs -> length BB = length slabs ->
  (forall i q b, nth_error slabs i = Some q -> In b (nth i BB []) -> lab (fst b) = Some q) ->
  (forall i, (i < length BB)%nat -> nth i BB [] <> []) ->
  StronglySorted Z.lt (map fst gs) -> (forall i, In i (map fst gs) -> Z.of_nat i0 <= i < Z.of_nat (length slabs)) ->
  pick_blocks R L leqb lab cut slabs gs (concat (skipn i0 BB)) = flat_map (fun g => map (cut (snd g)) (nth (Z.to_nat (fst g)) BB [])) gs.
Proof.
  intros lab cut slabs BB gs. induction gs as [|[i gl] gs IH]; intros i0 Hn Hl Hlab Hne Hs Hr; [reflexivity|].
  cbn [pick_blocks flat_map fst snd]. cbn [map fst] in Hs, Hr. inversion Hs as [|? ? Hs1 Hs2]; subst. rewrite Forall_forall in Hs2.
  assert (Hi: Z.of_nat i0 <= i < Z.of_nat (length slabs)) by (apply Hr; now left).
  set (n := Z.to_nat i). assert (Hnn: (i0 <= n < length BB)%nat) by (unfold n; lia).
  destruct (nth_error slabs n) as [q|] eqn:Eq; [|apply nth_error_None in Eq; lia].
  assert (E: skipn i0 BB = firstn (n - i0) (skipn i0 BB) ++ nth n BB [] :: skipn (S n) BB).
  { rewrite <- (firstn_skipn (n - i0) (skipn i0 BB)) at 1. f_equal. rewrite skipn_plus. replace (i0 + (n - i0))%nat with n by lia. apply skipn_nth_cons. lia. }
  set (same := fun b : block => match lab (fst b) with Some q' => leqb q' q | None => false end).
  assert (Hsame: forall m b, (m < length BB)%nat -> In b (nth m BB []) -> same b = (m =? n)%nat).
  { intros m b Hm Hb. destruct (nth_error slabs m) as [q'|] eqn:Eq'; [|apply nth_error_None in Eq'; lia]. unfold same. rewrite (Hlab m q' b Eq' Hb).
    destruct (leqb_spec q' q) as [->|N].
    - symmetry. apply Nat.eqb_eq. apply (proj1 (NoDup_nth_error slabs) Hn); [lia|congruence].
    - symmetry. apply Nat.eqb_neq. intros ->. congruence. }
  rewrite E, concat_app, skip_while_app.
  2:{ intros b Hb. apply in_concat in Hb as (bb & Hbb & Hb). apply (In_nth _ _ []) in Hbb as (m & Hm & Hbb).
      assert (Hlen: (m < n - i0)%nat) by (rewrite firstn_length in Hm; lia).
      assert (nth m (firstn (n - i0) (skipn i0 BB)) [] = nth (i0 + m) BB []) as Em.
      { rewrite <- (firstn_skipn (n - i0) (skipn i0 BB)) at 1. clear -Hm Hlen Hnn.
        assert (G: forall (A : Type) (d : A) k l m, (m < k)%nat -> nth m (firstn k l) d = nth m l d).
        { induction k; destruct l; cbn; intros; try lia; auto. destruct m0; auto. apply IHk. lia. }
        assert (G2: forall (A : Type) (d : A) k l m, nth m (skipn k l) d = nth (k + m) l d).
        { induction k; destruct l; cbn; intros; auto. now destruct m0. }
        rewrite firstn_skipn. rewrite G by lia. apply G2. }
      rewrite Em in Hbb. rewrite <- Hbb in Hb. fold (same b). rewrite (Hsame (i0 + m)%nat b) by (auto; lia).
      apply negb_true_iff, Nat.eqb_neq. lia. }
  cbn [concat]. assert (Hbn: nth n BB [] <> []) by (apply Hne; lia).
  assert (Hsk: skip_while R L (fun b => negb (match lab (fst b) with Some q' => leqb q' q | None => false end)) (nth n BB [] ++ concat (skipn (S n) BB)) = nth n BB [] ++ concat (skipn (S n) BB)).
  { destruct (nth n BB []) as [|b bb] eqn:Eb; [congruence|]. cbn [app skip_while]. fold (same b). rewrite (Hsame n b) by (try lia; rewrite Eb; now left).
    rewrite Nat.eqb_refl. reflexivity. }
  rewrite Hsk. rewrite take_while_app.
  - f_equal. apply IH; auto. intros i' Hi'. assert (i < i') by now apply Hs2. specialize (Hr i' (or_intror Hi')). unfold n. lia.
  - intros b Hb. fold (same b). rewrite (Hsame n b) by (auto; lia). apply Nat.eqb_refl.
  - intros b r Er. fold (same b). assert (Hb: In b (concat (skipn (S n) BB))) by (rewrite Er; now left).
    apply in_concat in Hb as (bb & Hbb & Hb). apply (In_nth _ _ []) in Hbb as (m & Hm & Hbb). rewrite skipn_length in Hm.
    assert (G2: forall (A : Type) (d : A) k l m, nth m (skipn k l) d = nth (k + m) l d).
    { induction k; destruct l; cbn; intros; auto. now destruct m0. }
    rewrite G2 in Hbb. rewrite <- Hbb in Hb. rewrite (Hsame (S n + m)%nat b) by (auto; lia). apply Nat.eqb_neq. lia.
Qed.
End B.
End T.
