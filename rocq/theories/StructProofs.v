(** Lemmas for block-sparse tensor structure: skeleton, fuse/unfuse, kron_add, to_dense, symmetry_fuse. *)
From Coq Require Import ZArith Bool List Ascii Lia Permutation Sorting.Sorted Ring.
From Verif Require Import SymModel SymProofs DictLib IndexLib RingLib BondModel BondProofs FuseModel FuseProofs BlockModel BlockProofs StructModel.
Import ListNotations.
Open Scope Z_scope.

(** ** skeleton *)
Section Skel.
Variable L : Label.
Notation binfo := (dict L Z).

Lemma add_reduce_right : forall ps, ps <> [] -> add_reduce L ps = fold_right (qadd L) (q0 L) ps.
Proof. intros [|p ps] H; [congruence|]. cbn [add_reduce fold_right]. apply fold_qadd. Qed.
Lemma add_reduce_fold : forall ps, add_reduce L ps = fold_right (qadd L) (q0 L) ps.
Proof. intros [|p ps]; [reflexivity|]. now apply add_reduce_right. Qed.
Lemma add_reduce_last : forall ps, ps <> [] -> qadd L (add_reduce L (removelast ps)) (last ps (q0 L)) = add_reduce L ps.
Proof.
  intros ps H. rewrite !add_reduce_fold. rewrite (app_removelast_last (q0 L) H) at 3.
  generalize (removelast ps). generalize (last ps (q0 L)). intros x l. induction l as [|y l IH]; cbn [app fold_right].
  - rewrite qadd_0_l, qadd_0_r. reflexivity.
  - rewrite <- IH. symmetry. apply qadd_assoc.
Qed.
Lemma qadd_cancel_r : forall a b c : L, qadd L a c = qadd L b c -> a = b.
Proof. intros a b c H. apply (qadd_cancel_l L c). rewrite !(qadd_comm L c). exact H. Qed.
Lemma keep_block_spec : forall ps dq, ps <> [] ->
  (keep_block L ps dq = true <-> length ps = 1%nat \/ add_reduce L ps = match dq with Some d => d | None => q0 L end).
Proof.
  intros ps dq H. unfold keep_block. rewrite orb_true_iff, Nat.eqb_eq. rewrite <- (add_reduce_last ps H).
  set (u := add_reduce L (removelast ps)). set (v := last ps (q0 L)).
  assert (E: qeqb L u (match dq with None => qneg L v | Some d => qsub L d v end) = true
             <-> qadd L u v = match dq with Some d => d | None => q0 L end).
  { destruct dq as [d|].
    - destruct (qeqb_spec L u (qsub L d v)) as [->|N]; split; try (intros; auto; congruence).
      + intros _. rewrite qsub_def, <- qadd_assoc, qadd_neg. apply qadd_0_r.
      + intros E. exfalso. apply N. rewrite <- E, qsub_def, <- qadd_assoc, qadd_neg_r. symmetry. apply qadd_0_r.
    - destruct (qeqb_spec L u (qneg L v)) as [->|N]; split; try (intros; auto; congruence).
      + intros _. apply qadd_neg.
      + intros E. exfalso. apply N. now apply qneg_unique. }
  rewrite E. tauto.
Qed.

(* the cartesian product of sorted lists is sorted lexicographically *)
Lemma StronglySorted_app : forall A (Rl : A -> A -> Prop) l l', StronglySorted Rl l -> StronglySorted Rl l' ->
  (forall x y, In x l -> In y l' -> Rl x y) -> StronglySorted Rl (l ++ l').
Proof.
  induction 1 as [|x l Hl IH Hf]; intros Hl' H; cbn; [auto|]. constructor.
  - apply IH; auto. intros; apply H; auto. now right.
  - apply Forall_app. split; [auto|]. apply Forall_forall. intros y Hy. apply H; auto. now left.
Qed.
Lemma StronglySorted_map : forall A B (Rl : B -> B -> Prop) (f : A -> B) l,
  StronglySorted (fun x y => Rl (f x) (f y)) l -> StronglySorted Rl (map f l).
Proof.
  induction 1 as [|x l Hl IH Hf]; cbn; constructor; auto. apply Forall_forall. intros y Hy. apply in_map_iff in Hy. destruct Hy as (z & <- & Hz).
  rewrite Forall_forall in Hf. auto.
Qed.
Lemma StronglySorted_filter : forall A (Rl : A -> A -> Prop) (p : A -> bool) l, StronglySorted Rl l -> StronglySorted Rl (filter p l).
Proof.
  induction 1 as [|x l Hl IH Hf]; cbn; [constructor|]. destruct (p x); auto. constructor; auto.
  apply Forall_forall. intros y Hy. apply filter_In in Hy. rewrite Forall_forall in Hf. apply Hf. tauto.
Qed.
Definition lt_rel (x y : list (L * Z)) : Prop := tup_ltb L (map fst x) (map fst y) = true.
Lemma cart_sorted : forall ls : list binfo, Forall (fun l => StronglySorted (fun a b => qltb L (fst a) (fst b) = true) l) ls ->
  StronglySorted lt_rel (cart ls).
Proof.
  induction 1 as [|l ls Hl Hf IH]; cbn [cart]; [repeat constructor|].
  induction Hl as [|x l Hl IHl Hx]; cbn [flat_map]; [constructor|]. apply StronglySorted_app; auto.
  - apply StronglySorted_map. clear -IH. induction IH as [|y c Hc IHc Hy]; constructor; auto.
    eapply Forall_impl; [|exact Hy]. intros z Hz. unfold lt_rel in *. cbn [map fst tup_ltb]. now rewrite qeqb_refl.
  - intros u v Hu Hv. apply in_map_iff in Hu. destruct Hu as (u' & <- & Hu). apply in_flat_map in Hv. destruct Hv as (y & Hy & Hv).
    apply in_map_iff in Hv. destruct Hv as (v' & <- & Hv). unfold lt_rel. cbn [map fst tup_ltb].
    rewrite Forall_forall in Hx. specialize (Hx y Hy). destruct (qeqb_spec L (fst x) (fst y)) as [E|]; [|exact Hx].
    rewrite E, qltb_irrefl in Hx. discriminate.
Qed.
Lemma sorted_info_strict : forall d : binfo, NoDup (keys d) ->
  StronglySorted (fun a b => qltb L (fst a) (fst b) = true) (sort_by (qltb L) fst d).
Proof.
  intros d H.
  assert (S: StronglySorted (le_key (qltb L) fst) (sort_by (qltb L) fst d)).
  { apply sort_sorted; try apply qltb_trans; try apply qltb_total; try apply qltb_irrefl.
    intros x y. destruct (qeqb_spec L x y); auto. }
  assert (N: NoDup (map fst (sort_by (qltb L) fst d))) by now apply sort_keys_nodup.
  induction S as [|x l Hl IH Hx]; constructor.
  - apply IH. now inversion N.
  - cbn in N. inversion N; subst. rewrite Forall_forall in *. intros y Hy. destruct (Hx y Hy) as [E|]; auto.
    exfalso. apply H2. rewrite E. now apply in_map.
Qed.
End Skel.

(** ** arrays with one distinguished axis: positions pre ++ j :: post *)
Lemma upd_app : forall A i (v x : A) pre post, length pre = i -> upd i v (pre ++ x :: post) = pre ++ v :: post.
Proof.
  intros A i v x pre post <-. unfold upd. rewrite firstn_app, Nat.sub_diag, firstn_all. cbn [firstn]. rewrite app_nil_r. f_equal. f_equal.
  rewrite skipn_app. rewrite skipn_all2 by lia. replace (S (length pre) - length pre)%nat with 1%nat by lia. reflexivity.
Qed.
Lemma nth_mid : forall A i (d x : A) pre post, length pre = i -> nth i (pre ++ x :: post) d = x.
Proof. intros A i d x pre post <-. rewrite app_nth2, Nat.sub_diag by lia. reflexivity. Qed.
Lemma firstn_mid : forall A i (x : A) pre post, length pre = i -> firstn i (pre ++ x :: post) = pre.
Proof. intros A i x pre post <-. rewrite firstn_app, Nat.sub_diag, firstn_all. cbn. apply app_nil_r. Qed.
Lemma skipn_mid : forall A i (x : A) pre post, length pre = i -> skipn (S i) (pre ++ x :: post) = post.
Proof.
  intros A i x pre post <-. rewrite skipn_app, skipn_all2 by lia. replace (S (length pre) - length pre)%nat with 1%nat by lia. reflexivity.
Qed.
Lemma in_shape_mid : forall a s b xp j xs, length xp = length a ->
  (in_shape (a ++ s :: b) (xp ++ j :: xs) <-> in_shape a xp /\ 0 <= j < s /\ in_shape b xs).
Proof.
  intros a s b xp j xs H. rewrite in_shape_app_split by auto. split.
  - intros [A B]. inversion B; subst. auto.
  - intros (A & B & C). split; auto. now constructor.
Qed.
Lemma in_shape_mid3 : forall a f b xp ys xs, length xp = length a -> length ys = length f ->
  (in_shape (a ++ f ++ b) (xp ++ ys ++ xs) <-> in_shape a xp /\ in_shape f ys /\ in_shape b xs).
Proof. intros. rewrite !in_shape_app_split by auto. tauto. Qed.
Lemma prodZ_cons : forall a l, prodZ (a :: l) = a * prodZ l.
Proof. reflexivity. Qed.
Lemma ravel_merge : forall a f b xp ys xs, in_shape a xp -> in_shape f ys ->
  ravel (a ++ prodZ f :: b) (xp ++ ravel f ys :: xs) = ravel (a ++ f ++ b) (xp ++ ys ++ xs).
Proof.
  intros a f b xp ys xs Ha Hf. rewrite !ravel_app by auto. cbn [ravel]. rewrite prodZ_app, !prodZ_cons. reflexivity.
Qed.

Section NdP.
Variable R : CRing.
Add Ring RR3 : (rth R).

Lemma nget_iff : forall (a b : nd R) xs ys, (in_shape (nshape a) xs <-> in_shape (nshape b) ys) ->
  (in_shape (nshape a) xs -> in_shape (nshape b) ys -> nval a xs = nval b ys) -> nget a xs = nget b ys.
Proof.
  intros a b xs ys H E. destruct (in_shapeb (nshape a) xs) eqn:Ea.
  - apply in_shapeb_spec in Ea. pose proof (proj1 H Ea). rewrite !nget_in; auto.
  - rewrite !nget_out; auto; rewrite <- ?H; rewrite <- in_shapeb_spec; congruence.
Qed.

Lemma nget_reshape_merge : forall (T : nd R) a f b xp ys xs, nshape T = a ++ f ++ b -> in_shape f ys -> length xp = length a ->
  nget (nd_reshape (a ++ prodZ f :: b) T) (xp ++ ravel f ys :: xs) = nget T (xp ++ ys ++ xs).
Proof.
  intros T a f b xp ys xs E Hy Hp. pose proof (in_shape_length _ _ Hy) as Ly. apply nget_iff; cbn [nshape nval nd_reshape]; rewrite ?E.
  - rewrite in_shape_mid, in_shape_mid3 by auto. pose proof (ravel_range _ _ Hy). tauto.
  - intros H1 H2. f_equal. apply in_shape_mid3 in H2; auto. destruct H2 as (A & B & C).
    rewrite ravel_merge by auto. apply unravel_ravel. now apply in_shape_mid3.
Qed.
Lemma nget_reshape_split : forall (T : nd R) a f b xp ys xs, nshape T = a ++ prodZ f :: b -> in_shape f ys -> length xp = length a ->
  nget (nd_reshape (a ++ f ++ b) T) (xp ++ ys ++ xs) = nget T (xp ++ ravel f ys :: xs).
Proof.
  intros T a f b xp ys xs E Hy Hp. pose proof (in_shape_length _ _ Hy) as Ly. apply nget_iff; cbn [nshape nval nd_reshape]; rewrite ?E.
  - rewrite in_shape_mid, in_shape_mid3 by auto. pose proof (ravel_range _ _ Hy). tauto.
  - intros H1 H2. f_equal. apply in_shape_mid3 in H1; auto. destruct H1 as (A & B & C).
    rewrite <- ravel_merge by auto. apply unravel_ravel. apply in_shape_mid; auto. pose proof (ravel_range _ _ Hy). tauto.
Qed.
Lemma nget_slice : forall (T : nd R) a n b k nk xp j xs, nshape T = a ++ n :: b -> 0 <= k -> k + nk <= n -> length xp = length a ->
  nget (nd_slice (length a) k nk T) (xp ++ j :: xs) = if (0 <=? j) && (j <? nk) then nget T (xp ++ (k + j) :: xs) else r0 R.
Proof.
  intros T a n b k nk xp j xs E Hk Hn Hp.
  assert (Es: nshape (nd_slice (length a) k nk T) = a ++ nk :: b) by (cbn [nshape nd_slice]; rewrite E; now apply upd_app).
  destruct ((0 <=? j) && (j <? nk)) eqn:C.
  - apply andb_true_iff in C. apply nget_iff; rewrite ?Es, ?E.
    + rewrite !in_shape_mid by auto. split; intros (A & B & D); repeat split; auto; lia.
    + intros _ _. cbn [nval nd_slice]. rewrite nth_mid, upd_app by auto. reflexivity.
  - apply nget_out. rewrite Es, in_shape_mid by auto. intros (A & B & D). apply andb_false_iff in C. lia.
Qed.

(** *** concatenation with zero padding *)
Notation piece := (Z * Z * nd R)%type.
Notation koff g := (fst (fst g)).
Notation klen g := (snd (fst g)).
Fixpoint chain (n ik : Z) (gs : list piece) : Prop :=
  match gs with [] => ik <= n | g :: gs' => ik <= koff g /\ 0 < klen g /\ chain n (koff g + klen g) gs' end.
Lemma chain_end : forall gs n ik, chain n ik gs -> ik <= n.
Proof. induction gs as [|g gs IH]; cbn; intros n ik H; [auto|]. destruct H as (A & B & C). apply IH in C. lia. Qed.
Lemma chain_lower : forall gs n ik g, chain n ik gs -> In g gs -> ik <= koff g.
Proof.
  induction gs as [|g gs IH]; cbn; intros n ik g' H Hin; [tauto|]. destruct H as (A & B & C), Hin as [->|Hin]; [auto|].
  apply (IH _ _ g') in C; auto. lia.
Qed.
Lemma nget_mid_out : forall (p : nd R) a s b xp j xs, nshape p = a ++ s :: b -> length xp = length a -> ~ 0 <= j < s -> nget p (xp ++ j :: xs) = r0 R.
Proof. intros p a s b xp j xs E Hp Hj. apply nget_out. rewrite E, in_shape_mid by auto. tauto. Qed.
Lemma pad_val : forall a n b gs ik, chain n ik gs -> (forall g, In g gs -> nshape (snd g) = a ++ klen g :: b) ->
  exists ps, pad R (length a) (a ++ n :: b) ik gs = Some ps
  /\ zsum (map (fun p => nth (length a) (nshape p) 0) ps) = n - ik
  /\ (gs <> [] -> ps <> [])
  /\ (forall p, In p ps -> exists s, nshape p = a ++ s :: b)
  /\ (forall j xp xs, ik <= j < n -> in_shape a xp -> in_shape b xs ->
        cat_val (length a) ps (xp ++ (j - ik) :: xs) = bsum gs (fun g => nget (snd g) (xp ++ (j - koff g) :: xs))).
Proof.
  intros a n b. induction gs as [|[[k nk] p] gs IH]; intros ik Hc Hs.
  - cbn in Hc. cbn [pad]. rewrite nth_mid by auto. destruct (Z.eqb_spec ik n).
    + exists []. repeat split; cbn; try tauto; try lia.
    + destruct (Z.ltb_spec (n - ik) 0); [lia|]. eexists. split; [reflexivity|].
      rewrite upd_app by auto. cbn [map]. rewrite zsum_cons. cbn [nshape nd_zeros]. rewrite nth_mid by auto. change (zsum []) with 0.
      split; [lia|]. split; [intros; congruence|]. split.
      * intros p [<-|[]]. exists (n - ik). reflexivity.
      * intros j xp xs Hj Hx Hy. pose proof (in_shape_length _ _ Hx). cbn [cat_val nshape nd_zeros nval]. rewrite !nth_mid by auto.
        destruct (Z.ltb_spec (j - ik) (n - ik)); [reflexivity|lia].
  - destruct Hc as (A & B & C). cbn [fst snd] in *.
    assert (Hp: nshape p = a ++ nk :: b) by (apply (Hs (k, nk, p)); now left).
    destruct (IH _ C) as (ps & E1 & E2 & E3 & E4 & E5); [intros g Hg; apply Hs; now right|].
    assert (T: forall j xp xs, k <= j < n -> in_shape a xp -> in_shape b xs ->
        cat_val (length a) (p :: ps) (xp ++ (j - k) :: xs)
        = radd R (nget p (xp ++ (j - k) :: xs)) (bsum gs (fun g => nget (snd g) (xp ++ (j - koff g) :: xs)))).
    { intros j xp xs Hj Hx Hy. pose proof (in_shape_length _ _ Hx) as Lx. cbn [cat_val]. rewrite Hp, !nth_mid by auto.
      destruct (Z.ltb_spec (j - k) nk).
      - rewrite bsum_zero.
        + rewrite nget_in; [ring|]. rewrite Hp, in_shape_mid by auto. repeat split; auto; lia.
        + intros g Hg. pose proof (chain_lower _ _ _ _ C Hg). eapply nget_mid_out; [apply Hs; now right|auto|lia].
      - rewrite upd_app by auto. rewrite (nget_mid_out p a nk b) by (auto; lia). replace (j - k - nk) with (j - (k + nk)) by lia.
        rewrite E5 by (auto; lia). ring. }
    cbn [pad]. destruct (Z.eqb_spec k ik) as [->|N].
    + rewrite E1. exists (p :: ps). split; [reflexivity|]. cbn [map]. rewrite zsum_cons, E2, Hp, nth_mid by auto.
      split; [lia|]. split; [intros; congruence|]. split.
      * intros p' [<-|H]; [eauto|]. now apply E4.
      * intros j xp xs Hj Hx Hy. rewrite bsum_cons. cbn [fst snd]. now apply T.
    + destruct (Z.ltb_spec (k - ik) 0); [lia|]. replace (ik + (nk + k - ik)) with (k + nk) by lia. rewrite E1.
      eexists. split; [reflexivity|]. rewrite upd_app by auto. cbn [map]. rewrite !zsum_cons, E2, Hp. cbn [nshape nd_zeros]. rewrite !nth_mid by auto.
      split; [lia|]. split; [intros; congruence|]. split.
      * intros p' [<-|[<-|H']]; [eexists; reflexivity|eauto|]. now apply E4.
      * intros j xp xs Hj Hx Hy. pose proof (in_shape_length _ _ Hx) as Lx. rewrite bsum_cons. cbn [fst snd].
        cbn [cat_val nshape nd_zeros]. rewrite !nth_mid by auto. destruct (Z.ltb_spec (j - ik) (k - ik)).
        -- cbn [nval nd_zeros]. rewrite (nget_mid_out p a nk b) by (auto; lia). rewrite bsum_zero; [ring|].
           intros g Hg. pose proof (chain_lower _ _ _ _ C Hg). eapply nget_mid_out; [apply Hs; now right|auto|lia].
        -- rewrite upd_app by auto. replace (j - ik - (k - ik)) with (j - k) by lia. apply (T j xp xs); auto. lia.
Qed.

Definition apart (g g' : piece) : Prop := koff g + klen g <= koff g' \/ koff g' + klen g' <= koff g.
Lemma FOP_perm : forall A (P : A -> A -> Prop), (forall x y, P x y -> P y x) -> forall l l', Permutation l l' -> ForallOrdPairs P l -> ForallOrdPairs P l'.
Proof.
  intros A P Hs. induction 1; intros H'; auto.
  - inversion H'; subst. constructor; auto. eapply Permutation_Forall; eauto.
  - inversion H' as [|? ? F1 F2]; subst. inversion F2 as [|? ? F3 F4]; subst. inversion F1; subst.
    constructor; [constructor; auto|]. constructor; auto.
Qed.
Lemma sorted_chain : forall n gs, (forall g, In g gs -> 0 <= koff g /\ 0 < klen g /\ koff g + klen g <= n) -> 0 <= n ->
  ForallOrdPairs apart gs -> chain n 0 (sort_by Z.ltb (fun g : piece => koff g) gs).
Proof.
  intros n gs Hb Hn Hf. set (l := sort_by Z.ltb (fun g : piece => koff g) gs).
  assert (P: Permutation gs l) by apply sort_perm.
  assert (S: StronglySorted (le_key Z.ltb (fun g : piece => koff g)) l).
  { apply sort_sorted; [intros; lia|intros; lia|apply Z.eq_dec]. }
  assert (F: ForallOrdPairs apart l) by (eapply FOP_perm; [|exact P|exact Hf]; unfold apart; intros; tauto).
  assert (Hb': forall g, In g l -> 0 <= koff g /\ 0 < klen g /\ koff g + klen g <= n).
  { intros g Hg. apply Hb. eapply Permutation_in; [symmetry; exact P|exact Hg]. }
  assert (Hik: forall g, In g l -> 0 <= koff g) by (intros g Hg; now apply Hb').
  clear P Hf Hb. clearbody l. revert Hik Hn. generalize 0. intros ik Hik Hn. revert ik Hik Hn. induction l as [|g l IH]; intros ik Hik Hn; cbn; [auto|].
  inversion S as [|? ? S1 S2]; subst. inversion F as [|? ? F1 F2]; subst.
  split; [apply Hik; now left|]. destruct (Hb' g (or_introl eq_refl)) as (A & B & C). split; [auto|]. apply IH; auto.
  - intros; apply Hb'; now right.
  - intros g' Hg'. rewrite Forall_forall in S2, F1. specialize (S2 g' Hg'). specialize (F1 g' Hg'). specialize (Hb' g' (or_intror Hg')).
    unfold le_key, apart in *. lia.
Qed.

Lemma fuse_group_val : forall a n b (gs : list piece), gs <> [] -> 0 <= n ->
  (forall g, In g gs -> nshape (snd g) = a ++ klen g :: b) ->
  (forall g, In g gs -> 0 <= koff g /\ 0 < klen g /\ koff g + klen g <= n) -> ForallOrdPairs apart gs ->
  exists v, fuse_group R (length a) (a ++ n :: b, gs) = Some v /\ nshape v = a ++ n :: b /\
    forall xp j xs, length xp = length a -> nget v (xp ++ j :: xs) = bsum gs (fun g => nget (snd g) (xp ++ (j - koff g) :: xs)).
Proof.
  intros a n b gs Hne Hn Hs Hb Hf. unfold fuse_group. cbn [fst snd].
  pose proof (sorted_chain n gs Hb Hn Hf) as Hc. pose proof (sort_perm Z.ltb (fun g : piece => koff g) gs) as P.
  set (l := sort_by Z.ltb (fun g : piece => koff g) gs) in *.
  assert (Hs': forall g, In g l -> nshape (snd g) = a ++ klen g :: b) by (intros g Hg; apply Hs; eapply Permutation_in; [symmetry; exact P|exact Hg]).
  destruct (pad_val a n b l 0 Hc Hs') as (ps & E1 & E2 & E3 & E4 & E5). rewrite E1. cbn [option_map]. eexists. split; [reflexivity|].
  assert (Hl: l <> []) by (intro Hl; rewrite Hl in P; apply Permutation_sym, Permutation_nil in P; auto).
  assert (Es: nshape (nd_concat (length a) ps) = a ++ n :: b).
  { cbn [nshape nd_concat]. rewrite E2. destruct ps as [|p ps]; [exfalso; now apply (E3 Hl)|].
    destruct (E4 p (or_introl eq_refl)) as (s & ->). rewrite upd_app by auto. f_equal. f_equal. lia. }
  split; [exact Es|]. intros xp j xs Hp.
  rewrite (bsum_perm R _ _ l _ P).
  destruct (in_shapeb (a ++ n :: b) (xp ++ j :: xs)) eqn:Ei.
  - apply in_shapeb_spec in Ei. rewrite nget_in by (rewrite Es; auto). apply in_shape_mid in Ei; auto. destruct Ei as (A & B & C).
    cbn [nval nd_concat]. rewrite <- E5 by auto. now rewrite Z.sub_0_r.
  - assert (Ho: ~ in_shape (a ++ n :: b) (xp ++ j :: xs)) by (rewrite <- in_shapeb_spec; congruence).
    rewrite nget_out by (rewrite Es; auto). symmetry. apply bsum_zero. intros g Hg. apply nget_out. rewrite (Hs' g Hg). intro Hi.
    apply Ho. rewrite in_shape_mid in * by auto. destruct Hi as (A & B & C).
    assert (Hg': In g gs) by (eapply Permutation_in; [symmetry; exact P|exact Hg]). specialize (Hb g Hg'). repeat split; auto; lia.
Qed.
End NdP.
