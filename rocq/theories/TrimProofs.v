(** Lemmas about fermion.py _trim_singular_vals. *)
From Coq Require Import ZArith Bool List Lia Permutation Sorted Ring ZifyBool.
From Verif Require Import DictLib IndexLib RingLib OrdLib TruncModel TruncProofs.
Import ListNotations.
Open Scope Z_scope.

Lemma nth_enumerate_map : forall (A B : Type) (f : Z * A -> B) (d : A) (d' : B) l i, (i < length l)%nat ->
  nth i (map f (enumerate l)) d' = f (Z.of_nat i, nth i l d).
Proof.
  intros A B f d d' l i H. induction l as [|a l IH] using rev_ind; [cbn in H; lia|]. rewrite enumerate_app, map_app.
  assert (El: length (map f (enumerate l)) = length l) by (rewrite map_length, <- (map_length snd), map_snd_enumerate; auto).
  rewrite app_length in H. cbn in H. destruct (Nat.eq_dec i (length l)) as [->|N].
  - rewrite app_nth2 by lia. rewrite El, Nat.sub_diag. rewrite app_nth2, Nat.sub_diag by lia.
    change (enumerate [a]) with [(0, a)]. cbn [map nth fst snd]. now rewrite Z.add_0_r.
  - rewrite app_nth1 by lia. rewrite app_nth1 by lia. apply IH. lia.
Qed.
Lemma dec_at_length : forall n i, length (dec_at n i) = length n.
Proof. intros. unfold dec_at. rewrite map_length, <- (map_length snd), map_snd_enumerate. reflexivity. Qed.
Lemma dec_at_nth : forall n i b, 0 <= b < Z.of_nat (length n) ->
  nth (Z.to_nat b) (dec_at n i) 0 = nth (Z.to_nat b) n 0 - (if b =? i then 1 else 0).
Proof.
  intros n i b H. unfold dec_at. rewrite (nth_enumerate_map _ _ _ 0) by lia. cbn. rewrite Z2Nat.id by lia. destruct (b =? i); lia.
Qed.
Definition cnt (b : Z) (l : list Z) : Z := Z.of_nat (length (filter (Z.eqb b) l)).
Lemma cnt_cons : forall b x l, cnt b (x :: l) = (if b =? x then 1 else 0) + cnt b l.
Proof. intros. unfold cnt. cbn [filter]. destruct (b =? x); cbn [length]; lia. Qed.
Lemma cnt_app : forall b a l, cnt b (a ++ l) = cnt b a + cnt b l.
Proof. intros. unfold cnt. rewrite filter_app, app_length. lia. Qed.
Lemma cnt_perm : forall b a l, Permutation a l -> cnt b a = cnt b l.
Proof. induction 1; rewrite ?cnt_cons in *; lia. Qed.
Lemma fold_dec : forall l n, length (fold_left dec_at l n) = length n /\
  forall b, 0 <= b < Z.of_nat (length n) -> nth (Z.to_nat b) (fold_left dec_at l n) 0 = nth (Z.to_nat b) n 0 - cnt b l.
Proof.
  induction l as [|i l IH]; intros n; cbn [fold_left].
  - split; auto. intros. unfold cnt. cbn. lia.
  - destruct (IH (dec_at n i)) as [H1 H2]. rewrite dec_at_length in *. split; auto. intros b Hb. rewrite H2 by auto. rewrite dec_at_nth by auto.
    rewrite cnt_cons. lia.
Qed.
Lemma fold_left_map : forall (A B C : Type) (f : C -> B -> C) (g : A -> B) l a, fold_left (fun c x => f c (g x)) l a = fold_left f (map g l) a.
Proof. induction l; intros; cbn; auto. Qed.
Lemma nth_skipn : forall (A : Type) (d : A) k l m, nth m (skipn k l) d = nth (k + m) l d.
Proof. induction k; destruct l; cbn; intros; auto. now destruct m. Qed.
Lemma nth_firstn : forall (A : Type) (d : A) k l m, (m < k)%nat -> nth m (firstn k l) d = nth m l d.
Proof. induction k; destruct l; cbn; intros; try lia; auto. destruct m; auto. apply IHk. lia. Qed.
Lemma zrange_window : forall (A : Type) (d : A) (l : list A) off n, 0 <= off -> 0 <= n -> off + n <= Z.of_nat (length l) ->
  map (fun i => nth (Z.to_nat (i + off)) l d) (zrange n) = firstn (Z.to_nat n) (skipn (Z.to_nat off) l).
Proof.
  intros A d l off n H1 H2 H3. apply (nth_ext _ _ d d).
  - rewrite map_length, zrange_length, firstn_length, skipn_length. lia.
  - intros k Hk. rewrite map_length, zrange_length in Hk. rewrite nth_firstn, nth_skipn by auto.
    rewrite (nth_indep _ d (nth (Z.to_nat (0 + off)) l d)) by (rewrite map_length, zrange_length; auto).
    rewrite (map_nth (fun i => nth (Z.to_nat (i + off)) l d)). unfold zrange. change 0 with (Z.of_nat 0) at 1. rewrite map_nth, seq_nth by auto. f_equal. lia.
Qed.

(** *** sorted permutations are equal *)
Lemma sorted_perm_eq : forall (A : Type) (R : A -> A -> Prop), (forall a b, R a b -> R b a -> a = b) ->
  forall l l', StronglySorted R l -> StronglySorted R l' -> Permutation l l' -> l = l'.
Proof.
  intros A R An. induction l as [|a l IH]; intros l' H H' P.
  - apply Permutation_nil in P. auto.
  - destruct l' as [|b l']; [apply Permutation_sym, Permutation_nil in P; discriminate|].
    inversion H; inversion H'; subst. rewrite Forall_forall in *.
    assert (a = b). { destruct (Permutation_in a P (or_introl eq_refl)) as [|Ha]; [auto|].
      destruct (Permutation_in b (Permutation_sym P) (or_introl eq_refl)) as [|Hb]; [auto|]. apply An; auto. }
    subst b. f_equal. apply IH; auto. eapply Permutation_cons_inv; eauto.
Qed.

Section T.
Variable K : ORing.
Add Ring KR : (rth K).
Notation sv := (sv K).
Notation entries := (entries K). Notation blk := (blk K). Notation at_ := (at_ K).
Notation pos := (pos K).

Lemma ksort_perm : forall l, Permutation l (ksort K l).
Proof. intros. apply sort_perm. Qed.
Lemma ksort_sorted : forall l, StronglySorted (@ole K) (ksort K l).
Proof.
  intros l. eapply SS_map_impl; [|apply sort_sorted].
  - intros a b [->|H]; [apply ole_refl|]. apply olt_ole. unfold oltb in H. now apply negb_true_iff in H.
  - intros a b c. unfold oltb. rewrite !negb_true_iff. intros H1 H2. eapply ole_lt_trans; [apply olt_ole; exact H1|exact H2].
  - intros a b N. unfold oltb. rewrite !negb_true_iff. destruct (oleb K a b) eqn:E; auto. destruct (oleb K b a) eqn:E'; auto.
    exfalso. apply N. now apply (oleb_antisym K).
  - apply K_dec.
Qed.
(* the smallest part of a multiset of values is determined by its size *)
Lemma low_part_unique : forall (T U D E : list K), Permutation (T ++ U) (D ++ E) -> length T = length D ->
  (forall t u, In t T -> In u U -> ole t u) -> (forall d e, In d D -> In e E -> ole d e) -> Permutation T D /\ Permutation U E.
Proof.
  assert (S: forall A B : list K, (forall t u, In t A -> In u B -> ole t u) -> StronglySorted (@ole K) (ksort K A ++ ksort K B)).
  { intros A B H. apply SS_app. split; [apply ksort_sorted|split; [apply ksort_sorted|]]. intros x y Hx Hy. apply H.
    - eapply Permutation_in; [apply Permutation_sym, ksort_perm|auto]. - eapply Permutation_in; [apply Permutation_sym, ksort_perm|auto]. }
  intros T U D E P Hl H1 H2.
  assert (Q: ksort K T ++ ksort K U = ksort K D ++ ksort K E).
  { apply (sorted_perm_eq _ (@ole K)); auto. - apply (oleb_antisym K).
    - rewrite <- (Permutation_app (ksort_perm T) (ksort_perm U)), <- (Permutation_app (ksort_perm D) (ksort_perm E)). auto. }
  assert (Ha: forall (a b c d : list K), length a = length c -> a ++ b = c ++ d -> a = c /\ b = d).
  { induction a; destruct c; cbn; intros; try lia; auto. injection H0 as -> H0. destruct (IHa b c d) as [-> ->]; auto. }
  apply Ha in Q as [Q1 Q2].
  - split; [rewrite (ksort_perm T), Q1; apply Permutation_sym, ksort_perm|rewrite (ksort_perm U), Q2; apply Permutation_sym, ksort_perm].
  - rewrite <- (Permutation_length (ksort_perm T)), <- (Permutation_length (ksort_perm D)). auto.
Qed.

(** *** keeping the first n_b values of every sector, for the numbers left after removing the low part T *)
Definition in_b (b : Z) (x : sv) : bool := sv_i x =? b.
Definition desc_by (w : K -> K) (l : list K) : Prop := StronglySorted (fun a b => ole (w b) (w a)) l.
Lemma desc_nth : forall w l j j', desc_by w l -> 0 <= j <= j' -> j' < Z.of_nat (length l) -> ole (w (at_ l j')) (w (at_ l j)).
Proof.
  intros w l j j' H. revert j j'. induction H as [|a l Hs IH Hf]; intros j j' H1 H2; cbn in H2; [lia|]. unfold TruncModel.at_ in *.
  destruct (Z.eq_dec j j') as [->|N]; [apply ole_refl|]. destruct (Z.to_nat j') as [|n'] eqn:E'; [lia|]. cbn.
  destruct (Z.to_nat j) as [|n] eqn:E.
  - rewrite Forall_forall in Hf. apply Hf. apply nth_In. lia.
  - specialize (IH (Z.of_nat n) (Z.of_nat n')). rewrite !Nat2Z.id in IH. apply IH; lia.
Qed.
Lemma filter_len_app : forall (A : Type) (p : A -> bool) a b, length (filter p (a ++ b)) = (length (filter p a) + length (filter p b))%nat.
Proof. intros. now rewrite filter_app, app_length. Qed.
Lemma perm_filter_len : forall (A : Type) (p : A -> bool) a b, Permutation a b -> length (filter p a) = length (filter p b).
Proof. induction 1; cbn; auto; repeat (destruct (p _); cbn); lia. Qed.
Lemma block_size : forall s b, 0 <= b < Z.of_nat (length s) -> Z.of_nat (length (filter (in_b b) (entries s))) = Z.of_nat (length (blk s b)).
Proof.
  intros s b Hb. f_equal. rewrite <- (map_length sv_j).
  assert (P: Permutation (map sv_j (filter (in_b b) (entries s))) (zrange (Z.of_nat (length (blk s b))))).
  { apply NoDup_Permutation.
    - assert (Hn: NoDup (map pos (filter (in_b b) (entries s)))).
      { pose proof (entries_pos_nodup K s) as H. revert H. generalize (entries s). induction l as [|x l IH]; cbn; intros H; [constructor|]. inversion H; subst.
        destruct (in_b b x); auto. cbn. constructor; auto. intro Hi. apply H2. apply in_map_iff in Hi as (y & <- & Hy). apply filter_In in Hy as [Hy _]. now apply (in_map pos). }
      assert (E: map pos (filter (in_b b) (entries s)) = map (pair b) (map sv_j (filter (in_b b) (entries s)))).
      { rewrite map_map. apply map_ext_in. intros x Hx. apply filter_In in Hx as [_ Hx]. apply Z.eqb_eq in Hx. unfold TruncProofs.pos. now rewrite Hx. }
      rewrite E in Hn. now apply NoDup_map_inv in Hn.
    - apply zrange_nodup.
    - intros j. rewrite in_map_iff, in_zrange. split.
      + intros ([[i j'] v] & <- & H). apply filter_In in H as [H E]. apply entries_in in H as (_ & H & _). apply Z.eqb_eq in E. unfold sv_i in E. cbn in *. now subst.
      + intros H. exists (b, j, at_ (blk s b) j). split; [reflexivity|]. apply filter_In. split; [now apply entries_in|]. unfold in_b, sv_i. cbn. lia. }
  rewrite (Permutation_length P), zrange_length. lia.
Qed.
(* pigeonhole: distinct positions of one sector inside [lo, hi) *)
Lemma block_count_le : forall (V : list sv) b lo hi, NoDup (map pos V) -> (forall x, In x V -> sv_i x = b -> lo <= sv_j x < hi) -> lo <= hi ->
  Z.of_nat (length (filter (in_b b) V)) <= hi - lo.
Proof.
  intros V b lo hi Hn H Hlh.
  assert (I: incl (map sv_j (filter (in_b b) V)) (map (fun k => lo + k) (zrange (hi - lo)))).
  { intros j Hj. apply in_map_iff in Hj as (x & <- & Hx). apply filter_In in Hx as [Hx E]. apply Z.eqb_eq in E. specialize (H x Hx E).
    apply in_map_iff. exists (sv_j x - lo). split; [lia|]. apply in_zrange. lia. }
  apply NoDup_incl_length in I.
  - rewrite !map_length, zrange_length in I. lia.
  - assert (Hn': NoDup (map pos (filter (in_b b) V))).
    { clear H I. induction V as [|x l IH]; cbn; [constructor|]. inversion Hn; subst. destruct (in_b b x); auto. cbn. constructor; auto.
      intro Hi. apply H1. apply in_map_iff in Hi as (y & <- & Hy). apply filter_In in Hy as [Hy _]. now apply (in_map pos). }
    apply (NoDup_map_inv (pair b)). rewrite map_map. rewrite (map_ext_in _ pos); auto. intros x Hx. apply filter_In in Hx as [_ E]. apply Z.eqb_eq in E.
    unfold TruncProofs.pos. now rewrite E.
Qed.
Lemma exists_or_all : forall (V : list sv) (p : sv -> bool), (exists x, In x V /\ p x = true) \/ (forall x, In x V -> p x = false).
Proof.
  intros V p. destruct (existsb p V) eqn:E.
  - left. now apply existsb_exists in E.
  - right. intros x Hx. destruct (p x) eqn:E'; auto. rewrite <- not_true_iff_false in E. exfalso. apply E. apply existsb_exists. eauto.
Qed.
Section Split.
Variable w : K -> K.
Variable s : list (list K).
Variables T U : list sv.
Hypothesis TU : Permutation (T ++ U) (entries s).
Hypothesis TU_le : forall t u, In t T -> In u U -> ole (w (sv_v t)) (w (sv_v u)).
Hypothesis s_desc : forall b, In b s -> desc_by w b.
Variable n : list Z.
Hypothesis n_len : length n = length s.
Hypothesis n_cnt : forall b, 0 <= b < Z.of_nat (length s) -> nth (Z.to_nat b) n 0 = Z.of_nat (length (filter (in_b b) U)).
Definition nb (b : Z) : Z := nth (Z.to_nat b) n 0.

Lemma nb_T : forall b, 0 <= b < Z.of_nat (length s) -> Z.of_nat (length (blk s b)) - nb b = Z.of_nat (length (filter (in_b b) T)).
Proof.
  intros b Hb. unfold nb. rewrite n_cnt by auto. rewrite <- block_size by auto. rewrite <- (perm_filter_len _ _ _ _ TU), filter_len_app. lia.
Qed.
Lemma nb_range : forall b, 0 <= b < Z.of_nat (length s) -> 0 <= nb b <= Z.of_nat (length (blk s b)).
Proof. intros b Hb. pose proof (nb_T b Hb). unfold nb in *. rewrite n_cnt in * by auto. lia. Qed.
Lemma in_TU : forall x, In x (entries s) <-> In x T \/ In x U.
Proof. intros x. rewrite <- in_app_iff. split; apply Permutation_in; auto. now apply Permutation_sym. Qed.
Lemma TU_nodup : NoDup (map pos (T ++ U)).
Proof. eapply Permutation_NoDup; [apply Permutation_map, Permutation_sym, TU|apply entries_pos_nodup]. Qed.
Lemma trim_order : forall b j b' j', 0 <= b < Z.of_nat (length s) -> 0 <= b' < Z.of_nat (length s) ->
  0 <= j < nb b -> nb b' <= j' < Z.of_nat (length (blk s b')) -> ole (w (at_ (blk s b') j')) (w (at_ (blk s b) j)).
Proof.
  intros b j b' j' Hb Hb' Hj Hj'. pose proof (nb_range b Hb) as R1. pose proof (nb_range b' Hb') as R2.
  pose proof TU_nodup as ND. rewrite map_app in ND.
  assert (NT: NoDup (map pos T)) by (now apply NoDup_app_l in ND).
  assert (NU: NoDup (map pos U)). { apply (Permutation_NoDup (Permutation_app_comm _ _)) in ND. now apply NoDup_app_l in ND. }
  (* some member of U in b at position >= j *)
  assert (HU: exists u, In u U /\ sv_i u = b /\ j <= sv_j u).
  { destruct (exists_or_all U (fun x => in_b b x && (j <=? sv_j x))) as [(u & Hu & E)|A].
    - apply andb_true_iff in E as [E1 E2]. unfold in_b in E1. exists u. split; auto. split; lia.
    - exfalso. assert (C: Z.of_nat (length (filter (in_b b) U)) <= j - 0).
      { apply block_count_le; auto; [|lia]. intros x Hx E. specialize (A x Hx). unfold in_b in A.
        assert (Hx': In x (entries s)) by (apply in_TU; auto). destruct x as [[i jj] v]. apply entries_in in Hx' as (_ & Hx' & _). unfold sv_i, sv_j in *. cbn in *. lia. }
      unfold nb in Hj. rewrite n_cnt in Hj by auto. lia. }
  assert (HT: exists t, In t T /\ sv_i t = b' /\ sv_j t <= j').
  { destruct (exists_or_all T (fun x => in_b b' x && (sv_j x <=? j'))) as [(t & Ht & E)|A].
    - apply andb_true_iff in E as [E1 E2]. unfold in_b in E1. exists t. split; auto. split; lia.
    - exfalso. assert (C: Z.of_nat (length (filter (in_b b') T)) <= Z.of_nat (length (blk s b')) - (j' + 1)).
      { apply block_count_le; auto; [|lia]. intros x Hx E. specialize (A x Hx). unfold in_b in A.
        assert (Hx': In x (entries s)) by (apply in_TU; auto). destruct x as [[i jj] v]. apply entries_in in Hx' as (_ & Hx' & _). unfold sv_i, sv_j in *. cbn in *. subst. lia. }
      rewrite <- nb_T in C by auto. lia. }
  destruct HU as (u & Hu & Eu & Ju), HT as (t & Ht & Et & Jt).
  pose proof (TU_le t u Ht Hu) as H.
  assert (Hue: In u (entries s)) by (apply in_TU; auto). assert (Hte: In t (entries s)) by (apply in_TU; auto).
  destruct u as [[ui uj] uv], t as [[ti tj] tv]. unfold sv_i, sv_j, sv_v in *. cbn in *. subst ui ti.
  apply entries_in in Hue as (_ & Hue & ->). apply entries_in in Hte as (_ & Hte & ->).
  assert (Db: forall b0, 0 <= b0 < Z.of_nat (length s) -> desc_by w (blk s b0)) by (intros b0 H0; apply s_desc; unfold TruncModel.blk; apply nth_In; lia).
  eapply ole_trans; [|eapply ole_trans; [exact H|]]; apply desc_nth; auto; lia.
Qed.
(* the discarded and the kept values *)
Definition trimmed (x : sv) : bool := nb (sv_i x) <=? sv_j x.
Lemma split_multisets : Permutation (map (fun x => w (sv_v x)) T) (map (fun x => w (sv_v x)) (filter trimmed (entries s)))
  /\ Permutation (map (fun x => w (sv_v x)) U) (map (fun x => w (sv_v x)) (filter (fun x => negb (trimmed x)) (entries s))).
Proof.
  assert (P2: forall l : list sv, Permutation (filter trimmed l ++ filter (fun x => negb (trimmed x)) l) l).
  { induction l as [|x l IH]; cbn; [constructor|]. destruct (trimmed x); cbn; [now constructor|]. rewrite <- Permutation_middle. now constructor. }
  apply low_part_unique.
  - rewrite <- !map_app. apply Permutation_map. rewrite P2. exact TU.
  - rewrite !map_length.
    assert (Hsum: forall V : list sv, (forall x, In x V -> In x (entries s)) ->
      Z.of_nat (length V) = zsum (map (fun b => Z.of_nat (length (filter (in_b b) V))) (zrange (Z.of_nat (length s))))).
    { induction V as [|x V IH]; intros HV.
      - cbn [filter length]. generalize (zrange (Z.of_nat (length s))). induction l; cbn; auto.
      - cbn [length]. rewrite Nat2Z.inj_succ. rewrite IH by (intros; apply HV; now right).
        assert (Hx: 0 <= sv_i x < Z.of_nat (length s)). { specialize (HV x (or_introl eq_refl)). destruct x as [[i j] v]. now apply entries_in in HV. }
        transitivity (zsum (map (fun b => (if b =? sv_i x then 1 else 0) + Z.of_nat (length (filter (in_b b) V))) (zrange (Z.of_nat (length s))))).
        + rewrite zsum_map_add. assert (zsum (map (fun b => if b =? sv_i x then 1 else 0) (zrange (Z.of_nat (length s)))) = 1); [|lia].
          apply in_zrange in Hx. pose proof (zrange_nodup (Z.of_nat (length s))) as Hn. revert Hx Hn. generalize (zrange (Z.of_nat (length s))). clear.
          assert (Z0: forall l i, ~ In i l -> zsum (map (fun b => if b =? i then 1 else 0) l) = 0).
          { induction l as [|a l IH]; intros i H; [reflexivity|]. cbn [map]. rewrite zsum_cons, IH by (intro; apply H; now right). destruct (Z.eqb_spec a i); [exfalso; apply H; now left|reflexivity]. }
          induction l as [|a l IH]; intros Hx Hn; [destruct Hx|]. inversion Hn; subst. cbn [map]. rewrite zsum_cons. destruct Hx as [->|Hx].
          * rewrite Z.eqb_refl, Z0 by auto. reflexivity. * rewrite IH by auto. destruct (Z.eqb_spec a (sv_i x)); [subst; tauto|reflexivity].
        + f_equal. apply map_ext. intros b. cbn [filter]. unfold in_b at 2. rewrite (Z.eqb_sym (sv_i x) b). destruct (b =? sv_i x); cbn [length]; lia. }
    apply Nat2Z.inj. rewrite (Hsum T), (Hsum (filter trimmed (entries s))).
    2:{ intros x Hx. now apply filter_In in Hx. } 2:{ intros; apply in_TU; auto. }
    f_equal. apply map_ext_in. intros b Hb. apply in_zrange in Hb. rewrite <- nb_T by auto. pose proof (nb_range b Hb) as Rb.
    (* positions nb .. len-1 *)
    assert (Ecount: forall lo, 0 <= lo <= Z.of_nat (length (blk s b)) ->
      Z.of_nat (length (filter (in_b b) (filter (fun x => lo <=? sv_j x) (filter (in_b b) (entries s))))) = Z.of_nat (length (blk s b)) - lo).
    { intros lo Hlo.
      assert (A1: Z.of_nat (length (filter (in_b b) (filter (fun x => lo <=? sv_j x) (filter (in_b b) (entries s))))) <= Z.of_nat (length (blk s b)) - lo).
      { apply block_count_le; [|intros x Hx _; apply filter_In in Hx as [Hx E]; apply filter_In in Hx as [Hx E']; destruct x as [[i j] v]; apply entries_in in Hx as (_ & Hx & _); unfold in_b, sv_i, sv_j in *; cbn in *; assert (i = b) by lia; subst; lia|lia].
        pose proof (entries_pos_nodup K s) as Hn. clear -Hn. assert (G: forall p (l : list sv), NoDup (map pos l) -> NoDup (map pos (filter p l))).
        { induction l as [|x l IH]; cbn; intros H; [constructor|]. inversion H; subst. destruct (p x); auto. cbn. constructor; auto. intro Hi. apply H2. apply in_map_iff in Hi as (y & <- & Hy). apply filter_In in Hy as [Hy _]. now apply (in_map pos). }
        apply G, G, Hn. }
      assert (A2: Z.of_nat (length (filter (in_b b) (filter (fun x => negb (lo <=? sv_j x)) (filter (in_b b) (entries s))))) <= lo - 0).
      { apply block_count_le; [|intros x Hx _; apply filter_In in Hx as [Hx E]; apply filter_In in Hx as [Hx E']; destruct x as [[i j] v]; apply entries_in in Hx as (_ & Hx & _); unfold sv_i, sv_j in *; cbn in *; lia|lia].
        pose proof (entries_pos_nodup K s) as Hn. clear -Hn. assert (G: forall p (l : list sv), NoDup (map pos l) -> NoDup (map pos (filter p l))).
        { induction l as [|x l IH]; cbn; intros H; [constructor|]. inversion H; subst. destruct (p x); auto. cbn. constructor; auto. intro Hi. apply H2. apply in_map_iff in Hi as (y & <- & Hy). apply filter_In in Hy as [Hy _]. now apply (in_map pos). }
        apply G, G, Hn. }
      pose proof (block_size s b Hb) as Bs.
      assert (A3: forall (p q : sv -> bool) l, (length (filter q (filter p (filter q l))) + length (filter q (filter (fun x => negb (p x)) (filter q l))) = length (filter q l))%nat).
      { clear. intros p q. induction l as [|x l IH]; cbn; auto. destruct (q x) eqn:E; cbn; auto. destruct (p x); cbn; rewrite E; cbn; lia. }
      specialize (A3 (fun x => lo <=? sv_j x) (in_b b) (entries s)). lia. }
    rewrite <- (Ecount (nb b)) by auto. do 2 f_equal. clear. generalize (entries s). induction l as [|x l IH]; cbn; auto.
    unfold trimmed at 1. destruct (in_b b x) eqn:E.
    + assert (sv_i x = b) as -> by (unfold in_b in E; lia). cbn. destruct (nb b <=? sv_j x); cbn; rewrite ?E, IH; auto.
    + destruct (nb (sv_i x) <=? sv_j x); cbn; rewrite ?E, IH; auto.
  - intros t u Ht Hu. apply in_map_iff in Ht as (t' & <- & Ht), Hu as (u' & <- & Hu). auto.
  - intros d e Hd He. apply in_map_iff in Hd as (d' & <- & Hd), He as (e' & <- & He).
    apply filter_In in Hd as [Hd Ed], He as [He Ee]. destruct d' as [[b' j'] v'], e' as [[b j] v]. unfold trimmed, sv_i, sv_j, sv_v in *. cbn in *.
    apply entries_in in Hd as (Hb' & Hj' & ->), He as (Hb & Hj & ->). apply trim_order; auto; lia.
Qed.
Definition discarded_sum : K := bsum (zrange (Z.of_nat (length s))) (fun b => bsum (zrange (Z.of_nat (length (blk s b))))
  (fun j => if nb b <=? j then w (at_ (blk s b) j) else r0 K)).
Lemma discarded_sum_T : discarded_sum = bsum T (fun x => w (sv_v x)).
Proof.
  transitivity (bsum (filter trimmed (entries s)) (fun x => w (sv_v x))).
  - rewrite bsum_filter, bsum_entries. reflexivity.
  - assert (E: forall V : list sv, bsum V (fun x => w (sv_v x)) = bsum (map (fun x => w (sv_v x)) V) (fun y => y)) by (intros; now rewrite bsum_map).
    rewrite !E. apply bsum_perm. apply Permutation_sym, split_multisets.
Qed.
Lemma kept_in_U : forall b j, 0 <= b < Z.of_nat (length s) -> 0 <= j < nb b -> exists u, In u U /\ w (sv_v u) = w (at_ (blk s b) j).
Proof.
  intros b j Hb Hj. pose proof (nb_range b Hb).
  assert (H1: In (w (at_ (blk s b) j)) (map (fun x => w (sv_v x)) (filter (fun x => negb (trimmed x)) (entries s)))).
  { apply in_map_iff. exists (b, j, at_ (blk s b) j). split; auto. apply filter_In. split; [apply entries_in; split; [lia|split; [lia|auto]]|].
    unfold trimmed, sv_i, sv_j. cbn. lia. }
  apply (Permutation_in _ (Permutation_sym (proj2 split_multisets))) in H1. apply in_map_iff in H1 as (u & E & Hu). eauto.
Qed.
Lemma total_U : zsum n = Z.of_nat (length U).
Proof.
  pose proof (Permutation_length (proj2 split_multisets)) as E. rewrite !map_length in E. rewrite E.
  assert (En: n = map nb (zrange (Z.of_nat (length s)))).
  { apply (nth_ext _ _ 0 0). - rewrite map_length, zrange_length. lia.
    - intros k Hk. rewrite (nth_indep (map nb _) 0 (nb 0)) by (rewrite map_length, zrange_length; lia). rewrite (map_nth nb). unfold zrange.
      change 0 with (Z.of_nat 0) at 2. rewrite map_nth, seq_nth by lia. unfold nb. f_equal. lia. }
  rewrite En. clear E En. rewrite <- (map_length sv_i).
  (* count per sector *)
  assert (Hb: forall b, In b (zrange (Z.of_nat (length s))) -> nb b = cnt b (map sv_i (filter (fun x => negb (trimmed x)) (entries s)))).
  { intros b Hb. apply in_zrange in Hb. pose proof (nb_T b Hb) as H1.
    assert (E2: Z.of_nat (length (filter (in_b b) T)) = Z.of_nat (length (filter (in_b b) (filter trimmed (entries s)))) -> nb b = cnt b (map sv_i (filter (fun x => negb (trimmed x)) (entries s)))).
    { intros E2. pose proof (block_size s b Hb) as Bs. unfold cnt.
      assert (A: forall l : list sv, (length (filter (in_b b) (filter trimmed l)) + length (filter (Z.eqb b) (map sv_i (filter (fun x => negb (trimmed x)) l))) = length (filter (in_b b) l))%nat).
      { clear. assert (Hb: forall x, in_b b x = (b =? sv_i x)) by (intro; apply Z.eqb_sym). induction l as [|x l IH]; [reflexivity|].
        cbn [filter]. destruct (trimmed x); cbn [negb filter map]; rewrite !Hb; destruct (b =? sv_i x); cbn [length]; lia. }
      specialize (A (entries s)). lia. }
    apply E2. clear E2. rewrite <- H1. pose proof (nb_range b Hb) as Rb. 
    assert (G: forall p (l : list sv), NoDup (map pos l) -> NoDup (map pos (filter p l))).
    { induction l as [|x l IH]; cbn; intros H; [constructor|]. inversion H; subst. destruct (p x); auto. cbn. constructor; auto. intro Hi. apply H3. apply in_map_iff in Hi as (y & <- & Hy). apply filter_In in Hy as [Hy _]. now apply (in_map pos). }
    assert (A1: Z.of_nat (length (filter (in_b b) (filter trimmed (entries s)))) <= Z.of_nat (length (blk s b)) - nb b).
    { apply block_count_le; [apply G, entries_pos_nodup| |lia]. intros x Hx E. apply filter_In in Hx as [Hx E']. destruct x as [[i j] v]. apply entries_in in Hx as (_ & Hx & _).
      unfold trimmed, sv_i, sv_j in *. cbn in *. subst. lia. }
    assert (A2: Z.of_nat (length (filter (in_b b) (filter (fun x => negb (trimmed x)) (entries s)))) <= nb b - 0).
    { apply block_count_le; [apply G, entries_pos_nodup| |lia]. intros x Hx E. apply filter_In in Hx as [Hx E']. destruct x as [[i j] v]. apply entries_in in Hx as (_ & Hx & _).
      unfold trimmed, sv_i, sv_j in *. cbn in *. subst. lia. }
    pose proof (block_size s b Hb) as Bs.
    assert (A3: forall (p q : sv -> bool) l, (length (filter q (filter p l)) + length (filter q (filter (fun x => negb (p x)) l)) = length (filter q l))%nat).
    { clear. intros p q. induction l as [|x l IH]; cbn; auto. destruct (p x) eqn:E; cbn; destruct (q x) eqn:E'; cbn; lia. }
    specialize (A3 trimmed (in_b b) (entries s)). lia. }
  rewrite (map_ext_in _ _ _ Hb).
  assert (Hin: forall i, In i (map sv_i (filter (fun x => negb (trimmed x)) (entries s))) -> In i (zrange (Z.of_nat (length s)))).
  { intros i Hi. apply in_map_iff in Hi as ([[i' j] v] & <- & Hi). apply filter_In in Hi as [Hi _]. apply entries_in in Hi as (Hi & _). now apply in_zrange. }
  revert Hin. generalize (map sv_i (filter (fun x => negb (trimmed x)) (entries s))) as V. clear.
  pose proof (zrange_nodup (Z.of_nat (length s))) as Hn. revert Hn. generalize (zrange (Z.of_nat (length s))) as R. intros R Hn.
  assert (Z0: forall l i, ~ In i l -> zsum (map (fun b => if b =? i then 1 else 0) l) = 0).
  { induction l as [|a l IH]; intros i H; [reflexivity|]. cbn [map]. rewrite zsum_cons, IH by (intro; apply H; now right). destruct (Z.eqb_spec a i); [exfalso; apply H; now left|reflexivity]. }
  assert (Z1: forall l i, NoDup l -> In i l -> zsum (map (fun b => if b =? i then 1 else 0) l) = 1).
  { induction l as [|a l IH]; intros i Hd Hi; [destruct Hi|]. inversion Hd; subst. cbn [map]. rewrite zsum_cons. destruct Hi as [->|Hi].
    - rewrite Z.eqb_refl, Z0 by auto. reflexivity. - rewrite IH by auto. destruct (Z.eqb_spec a i); [subst; tauto|reflexivity]. }
  induction V as [|i V IH]; intros Hin.
  - unfold cnt. cbn [filter length]. clear. induction R; cbn; auto.
  - cbn [length]. rewrite Nat2Z.inj_succ, <- IH by (intros; apply Hin; now right).
    rewrite (map_ext _ _ (fun b => cnt_cons b i V)), zsum_map_add, Z1 by (auto; apply Hin; now left). lia.
Qed.
End Split.

(** *** the order found by argsort *)
Section Arg.
Variable argsort : list K -> list Z.
Hypothesis argsort_perm : forall l, Permutation (argsort l) (zrange (Z.of_nat (length l))).
Hypothesis argsort_sorted : forall l, StronglySorted (fun a b => ole (at_ l a) (at_ l b)) (argsort l).
Variable w : K -> K.
Variable s : list (list K).
Notation E := (entries s).
Definition e0 : sv := (0, 0, r0 K).
Definition lookup (k : Z) : sv := nth (Z.to_nat k) E e0.
Notation sp := (map w (concat s)).
Definition A : list sv := map lookup (argsort sp).
Lemma entries_length : length E = length (concat s).
Proof. now rewrite <- map_v_entries, map_length. Qed.
Lemma argsort_length : length (argsort sp) = length (concat s).
Proof. rewrite (Permutation_length (argsort_perm sp)), zrange_length, map_length. lia. Qed.
Lemma A_length : length A = length (concat s).
Proof. unfold A. rewrite map_length. apply argsort_length. Qed.
Lemma argsort_in : forall k, In k (argsort sp) -> 0 <= k < Z.of_nat (length E).
Proof. intros k H. apply (Permutation_in _ (argsort_perm sp)), in_zrange in H. rewrite map_length in H. now rewrite entries_length. Qed.
Lemma A_perm : Permutation A E.
Proof.
  unfold A. rewrite (Permutation_map _ (argsort_perm sp)), map_length, <- entries_length.
  assert (G: map lookup (zrange (Z.of_nat (length E))) = E).
  { apply (nth_ext _ _ e0 e0); rewrite map_length, zrange_length; [lia|]. intros k Hk.
    rewrite (nth_indep _ e0 (lookup 0)) by (rewrite map_length, zrange_length; lia). rewrite (map_nth lookup). unfold zrange.
    change 0 with (Z.of_nat 0) at 1. rewrite map_nth, seq_nth by lia. unfold lookup. f_equal. lia. }
  now rewrite G.
Qed.
Lemma lookup_v : forall k, 0 <= k < Z.of_nat (length E) -> w (sv_v (lookup k)) = at_ sp k.
Proof.
  intros k H. unfold lookup, TruncModel.at_. rewrite <- map_v_entries, map_map. rewrite (nth_indep _ (r0 K) (w (sv_v e0))) by (rewrite map_length; lia).
  now rewrite (map_nth (fun x : sv => w (sv_v x))).
Qed.
Lemma lookup_i : forall k, 0 <= k < Z.of_nat (length E) -> nth (Z.to_nat k) (ind_map K s) 0 = sv_i (lookup k).
Proof. intros k H. unfold lookup. rewrite <- map_i_entries. change 0 with (sv_i e0). now rewrite (map_nth sv_i). Qed.
Lemma A_sorted : StronglySorted (fun x y => ole (w (sv_v x)) (w (sv_v y))) A.
Proof.
  unfold A. pose proof (argsort_sorted sp) as H. pose proof argsort_in as Hi. revert Hi H. generalize (argsort sp). induction l as [|k l IH]; intros Hi H; cbn; [constructor|].
  inversion H; subst. constructor; [apply IH; auto; intros; apply Hi; now right|]. rewrite Forall_forall in *. intros x Hx. apply in_map_iff in Hx as (k' & <- & Hk).
  rewrite !lookup_v by (apply Hi; auto; (now left) || (now right)). auto.
Qed.
Lemma A_split : forall N, Permutation (firstn N A ++ skipn N A) E /\ (forall t u, In t (firstn N A) -> In u (skipn N A) -> ole (w (sv_v t)) (w (sv_v u))).
Proof.
  intros N. rewrite firstn_skipn. split; [apply A_perm|]. pose proof A_sorted as H. rewrite <- (firstn_skipn N A) in H. now apply SS_app in H.
Qed.
Lemma cnt_filter : forall b (V : list sv), cnt b (map sv_i V) = Z.of_nat (length (filter (in_b b) V)).
Proof.
  intros b V. unfold cnt. f_equal. induction V as [|x V IH]; [reflexivity|]. cbn [map filter]. unfold in_b at 1. rewrite (Z.eqb_sym (sv_i x) b).
  destruct (b =? sv_i x); cbn [length]; auto.
Qed.
Lemma drop_spec : forall off c n, 0 <= off -> 0 <= c -> off + c <= Z.of_nat (length (concat s)) -> length n = length s ->
  length (drop_smallest K s (argsort sp) off c n) = length s /\
  forall b, 0 <= b < Z.of_nat (length s) -> nth (Z.to_nat b) (drop_smallest K s (argsort sp) off c n) 0 =
    nth (Z.to_nat b) n 0 - Z.of_nat (length (filter (in_b b) (firstn (Z.to_nat c) (skipn (Z.to_nat off) A)))).
Proof.
  intros off c n H1 H2 H3 Hn. unfold drop_smallest.
  rewrite (fold_left_map _ _ _ dec_at (fun i => nth (Z.to_nat (nth (Z.to_nat (i + off)) (argsort sp) 0)) (ind_map K s) 0)).
  assert (Em: map (fun i => nth (Z.to_nat (nth (Z.to_nat (i + off)) (argsort sp) 0)) (ind_map K s) 0) (zrange c) = map sv_i (firstn (Z.to_nat c) (skipn (Z.to_nat off) A))).
  { transitivity (map (fun k => nth (Z.to_nat k) (ind_map K s) 0) (map (fun i => nth (Z.to_nat (i + off)) (argsort sp) 0) (zrange c))); [now rewrite map_map|].
    rewrite zrange_window by (rewrite ?argsort_length; auto). unfold A. rewrite skipn_map, firstn_map, map_map. apply map_ext_in. intros k Hk.
    apply in_firstn, in_skipn in Hk. apply lookup_i. now apply argsort_in. }
  rewrite Em. destruct (fold_dec (map sv_i (firstn (Z.to_nat c) (skipn (Z.to_nat off) A))) n) as [L1 L2]. split; [lia|].
  intros b Hb. rewrite L2 by lia. now rewrite cnt_filter.
Qed.
(* everything starts from the full sizes *)
Lemma drop_all_sizes : forall c, 0 <= c <= Z.of_nat (length (concat s)) ->
  let n := drop_smallest K s (argsort sp) 0 c (map (fun b => Z.of_nat (length b)) s) in
  length n = length s /\ forall b, 0 <= b < Z.of_nat (length s) -> nth (Z.to_nat b) n 0 = Z.of_nat (length (filter (in_b b) (skipn (Z.to_nat c) A))).
Proof.
  intros c Hc n. destruct (drop_spec 0 c (map (fun b => Z.of_nat (length b)) s)) as [L1 L2]; try lia; [now rewrite map_length|]. fold n in L1, L2.
  split; auto. intros b Hb. rewrite L2 by auto. cbn [Z.to_nat skipn].
  change 0 with (Z.of_nat (length (@nil K))) at 1. rewrite (map_nth (fun b : list K => Z.of_nat (length b))).
  change (nth (Z.to_nat b) s []) with (blk s b). rewrite <- (block_size s b Hb). rewrite <- (perm_filter_len _ _ _ _ A_perm).
  rewrite <- (firstn_skipn (Z.to_nat c) A) at 1. rewrite filter_len_app. lia.
Qed.
End Arg.

(** *** modes 1 and 2 *)
Lemma zsum_count_gt : forall c s, zsum (map (count_gt K c) s) = Z.of_nat (length (filter (fun x => oltb c x) (concat s))).
Proof.
  intros c. induction s as [|b s IH]; [reflexivity|]. cbn [map concat]. rewrite zsum_cons, IH, filter_len_app. unfold count_gt. lia.
Qed.
Definition ent1 (i : Z) (l : list (Z * K)) : list sv := map (fun jv => (i, fst jv, snd jv)) l.
Definition ent (l : list (Z * list K)) : list sv := flat_map (fun ip => ent1 (fst ip) (enumerate (snd ip))) l.
Lemma ent_cons : forall i b l, ent ((i, b) :: l) = ent1 i (enumerate b) ++ ent l.
Proof. reflexivity. Qed.
Lemma count_gt_entries : forall c s b, 0 <= b < Z.of_nat (length s) ->
  nth (Z.to_nat b) (map (count_gt K c) s) 0 = Z.of_nat (length (filter (in_b b) (filter (fun x => oltb c (sv_v x)) (entries s)))).
Proof.
  intros c s b Hb. change 0 with (count_gt K c []). rewrite (map_nth (count_gt K c)). change (nth (Z.to_nat b) s []) with (blk s b). unfold count_gt. f_equal.
  change (entries s) with (ent (enumerate s)).
  assert (G: forall l, NoDup (map fst l) -> forall bb, In (b, bb) l ->
     length (filter (fun x => oltb c x) bb) = length (filter (in_b b) (filter (fun x => oltb c (sv_v x)) (ent l)))).
  { assert (G1: forall i (l : list (Z * K)), filter (in_b b) (filter (fun x : sv => oltb c (sv_v x)) (ent1 i l)) =
      if i =? b then ent1 i (filter (fun jv => oltb c (snd jv)) l) else []).
    { induction l as [|[j v] l IH]; [now destruct (i =? b)|]. change (ent1 i ((j, v) :: l)) with ((i, j, v) :: ent1 i l).
      cbn [filter]. change (sv_v (i, j, v)) with v. cbn [snd]. destruct (oltb c v); cbn [filter]; [|exact IH].
      change (in_b b (i, j, v)) with (i =? b). rewrite IH. destruct (i =? b); reflexivity. }
    assert (G2: forall l, ~ In b (map fst l) -> filter (in_b b) (filter (fun x : sv => oltb c (sv_v x)) (ent l)) = []).
    { induction l as [|[i bb] l IH]; intros H; [reflexivity|]. rewrite ent_cons, !filter_app, G1, IH by (intro; apply H; now right).
      destruct (Z.eqb_spec i b); [exfalso; apply H; now left|reflexivity]. }
    induction l as [|[i bb'] l IH]; intros Hn bb Hin; [destruct Hin|]. rewrite ent_cons, !filter_app, G1. cbn [map] in Hn. inversion Hn; subst.
    destruct Hin as [[= -> ->]|Hin].
    - rewrite Z.eqb_refl, G2, app_nil_r by auto. unfold ent1. rewrite map_length. rewrite <- (map_snd_enumerate _ bb) at 1. clear. induction (enumerate bb) as [|[j v] l IH]; cbn; auto. destruct (oltb c v); cbn; auto.
    - cbn [fst] in *. destruct (Z.eqb_spec i b) as [->|N]; [exfalso; apply H1; apply in_map_iff; now exists (b, bb)|]. cbn [app]. now apply IH. }
  apply G; [rewrite map_fst_enumerate; apply zrange_nodup|]. now apply (in_enumerate _ []).
Qed.
Lemma filter_neg_skip : forall (X : Type) (R : X -> X -> Prop) (p : X -> bool) l, (forall a b, R a b -> p b = true -> p a = true) -> StronglySorted R l ->
  filter (fun x => negb (p x)) l = skipn (length (filter p l)) l /\ filter p l = firstn (length (filter p l)) l.
Proof.
  intros X R p l Hp H. split; [|eapply SS_filter_prefix; eauto]. induction H as [|a l Hs IH Hf]; [reflexivity|]. cbn. destruct (p a) eqn:E; cbn; auto.
  assert (N: forall x, In x l -> p x = false).
  { rewrite Forall_forall in Hf. intros x Hx. destruct (p x) eqn:Ex; auto. rewrite (Hp a x) in E; auto; discriminate. }
  assert (filter p l = []) as ->. { clear -N. induction l as [|x l IH]; cbn; auto. rewrite N by now left. apply IH. intros; apply N; now right. }
  cbn. f_equal. clear -N. induction l as [|x l IH]; cbn; auto. rewrite N by now left. cbn. f_equal. apply IH. intros; apply N; now right.
Qed.

(** *** cumulative sums *)
Lemma cumsum_length : forall l a, length (cumsum K a l) = length l.
Proof. induction l; intros; cbn; auto. Qed.
Lemma cumsum_nth : forall l a k, (k < length l)%nat -> nth k (cumsum K a l) (r0 K) = radd K a (bsum (firstn (S k) l) (fun x => x)).
Proof.
  induction l as [|x l IH]; intros a k H; cbn in H; [lia|]. cbn [cumsum firstn]. rewrite bsum_cons. destruct k; cbn [nth].
  - cbn [firstn]. rewrite bsum_nil. ring.
  - rewrite IH by lia. ring.
Qed.
Lemma cumsum_sorted : forall l a, (forall x, In x l -> ole (r0 K) x) -> StronglySorted (@ole K) (cumsum K a l) /\ (forall y, In y (cumsum K a l) -> ole a y).
Proof.
  induction l as [|x l IH]; intros a H; cbn; [split; [constructor|intros ? []]|].
  destruct (IH (radd K a x)) as [I1 I2]; [intros; apply H; now right|].
  assert (Hx: ole a (radd K a x)). { replace a with (radd K a (r0 K)) at 1 by ring. apply ole_add_l. apply H. now left. }
  split.
  - constructor; auto. apply Forall_forall. auto.
  - intros y [<-|Hy]; auto. eapply ole_trans; eauto.
Qed.
Lemma count_le_spec : forall target l, (forall x, In x l -> ole (r0 K) x) -> let p := Z.to_nat (count_le K target (cumsum K (r0 K) l)) in
  (p <= length l)%nat /\ (p <> O -> ole (bsum (firstn p l) (fun x => x)) target) /\ ((p < length l)%nat -> olt target (bsum (firstn (S p) l) (fun x => x))).
Proof.
  intros target l Hl p. set (C := cumsum K (r0 K) l) in *. destruct (cumsum_sorted l (r0 K) Hl) as [Hs _]. fold C in Hs.
  assert (Hp: p = length (filter (fun x => oleb K x target) C)) by (unfold p, count_le; lia).
  destruct (filter_neg_skip _ (@ole K) (fun x => oleb K x target) C) as [F1 F2]; auto.
  { intros a b Hab Hb. eapply ole_trans; eauto. }
  rewrite <- Hp in F1, F2.
  assert (Hlen: (p <= length C)%nat). { rewrite Hp. clear. induction C; cbn; auto. destruct (oleb K a target); cbn; lia. }
  unfold C in Hlen. rewrite cumsum_length in Hlen. split; [auto|]. split.
  - intros Hp0. assert (Hin: In (nth (pred p) C (r0 K)) (firstn p C)).
    { rewrite <- (nth_firstn _ (r0 K) p C (pred p)) by lia. apply nth_In. rewrite firstn_length. unfold C. rewrite cumsum_length. lia. }
    rewrite <- F2 in Hin. apply filter_In in Hin as [_ Hin]. unfold C in Hin. rewrite cumsum_nth in Hin by lia. rewrite (Radd_0_l (rth K)) in Hin.
    replace (S (pred p)) with p in Hin by lia. exact Hin.
  - intros Hp1. assert (Hin: In (nth p C (r0 K)) (skipn p C)).
    { replace p with (p + 0)%nat at 1 by lia. rewrite <- nth_skipn. apply nth_In. rewrite skipn_length. unfold C. rewrite cumsum_length. lia. }
    rewrite <- F1 in Hin. apply filter_In in Hin as [_ Hin]. apply negb_true_iff in Hin. unfold C in Hin. rewrite cumsum_nth in Hin by lia. rewrite (Radd_0_l (rth K)) in Hin. exact Hin.
Qed.
Lemma bsum_firstn_mono : forall (l : list K) a b, (forall x, In x l -> ole (r0 K) x) -> (a <= b)%nat -> ole (bsum (firstn a l) (fun x => x)) (bsum (firstn b l) (fun x => x)).
Proof.
  induction l as [|x l IH]; intros a b H Hab; [rewrite !firstn_nil; apply ole_refl|]. destruct a; cbn [firstn].
  - rewrite bsum_nil. apply bsum_ole0. intros y Hy. apply H. now apply in_firstn in Hy.
  - destruct b; [lia|]. cbn [firstn]. rewrite !bsum_cons. apply ole_add_l. apply IH; [intros; apply H; now right|lia].
Qed.
End T.
