(** Contraction of fermion tensors with named legs: signs of sets of pairs, sums over pairs, contraction order. *)
From Coq Require Import ZArith Bool List Lia Permutation Sorted Ring.
From Verif Require Import FermOpsModel FermOpsProofs SymModel SymProofs DictLib OptLib IndexLib RingLib BondModel FuseModel FuseProofs
  BlockModel BlockProofs SignModel SignProofs SignProps BlockProps FermTModel FermTProofs.
Import ListNotations.
Open Scope Z_scope.

(** *** Signs of sets of pairs *)
Definition names (P : list (Z * Z)) : list Z := flat_map (fun p => [fst p; snd p]) P.
Lemma names_app : forall P P', names (P ++ P') = names P ++ names P'.
Proof. intros. unfold names. apply flat_map_app. Qed.
Lemma names_perm2 : forall P, Permutation (names P) (map fst P ++ map snd P).
Proof.
  induction P as [|[i j] P IH]; cbn; [constructor|]. constructor. etransitivity; [constructor; exact IH|]. apply Permutation_middle.
Qed.
Lemma names_perm : forall P P', Permutation P P' -> Permutation (names P) (names P').
Proof. intros. unfold names. now apply Permutation_flat_map. Qed.
Lemma in_names : forall P x, In x (names P) <-> exists p, In p P /\ (x = fst p \/ x = snd p).
Proof.
  intros P x. unfold names. rewrite in_flat_map. split; intros (p & H & K); exists p; (split; [auto|]); cbn in *; intuition.
Qed.
Section Signs.
Variable odd : Z -> bool.
Notation ex := (exchanged odd).
Lemma xors_app : forall a b, xors (a ++ b) = xorb (xors a) (xors b).
Proof. induction a as [|x a IH]; intros b; cbn; [now destruct (xors b)|]. rewrite IH. now destruct x, (xors a), (xors b). Qed.
Lemma xors_perm : forall a b, Permutation a b -> xors a = xors b.
Proof. induction 1; cbn; try congruence. now destruct x, y, (xors l). Qed.
Lemma xors_xor : forall A (f g : A -> bool) l, xors (map (fun x => xorb (f x) (g x)) l) = xorb (xors (map f l)) (xors (map g l)).
Proof. induction l as [|x l IH]; cbn; [reflexivity|]. rewrite IH. now destruct (f x), (g x), (xors (map f l)), (xors (map g l)). Qed.
Lemma xors_and : forall A b (f : A -> bool) l, xors (map (fun x => b && f x) l) = b && xors (map f l).
Proof. induction l as [|x l IH]; cbn; [now destruct b|]. rewrite IH. now destruct b. Qed.
Lemma xors_false : forall A (f : A -> bool) l, (forall x, In x l -> f x = false) -> xors (map f l) = false.
Proof. induction l as [|x l IH]; intros H; cbn; [reflexivity|]. rewrite H by now left. rewrite IH; [reflexivity|]. intros; apply H; now right. Qed.

Definition inv1 (x : Z) (l : list Z) : bool := xors (map (fun y => (y <? x) && (odd x && odd y)) l).
Lemma ex_cons : forall x l, ex (x :: l) = xorb (inv1 x l) (ex l).
Proof. reflexivity. Qed.
Lemma inv1_app : forall x a b, inv1 x (a ++ b) = xorb (inv1 x a) (inv1 x b).
Proof. intros. unfold inv1. now rewrite map_app, xors_app. Qed.
Lemma inv1_perm : forall x a b, Permutation a b -> inv1 x a = inv1 x b.
Proof. intros. unfold inv1. now apply xors_perm, Permutation_map. Qed.
Lemma ex_swap : forall l1 a b l2, a <> b -> ex (l1 ++ b :: a :: l2) = xorb (ex (l1 ++ a :: b :: l2)) (odd a && odd b).
Proof.
  induction l1 as [|x l1 IH]; intros a b l2 N; cbn [app].
  - rewrite !ex_cons. unfold inv1 at 1 3. cbn [map]. cbn [xors].
    change (xors (map (fun y => (y <? b) && (odd b && odd y)) l2)) with (inv1 b l2).
    change (xors (map (fun y => (y <? a) && (odd a && odd y)) l2)) with (inv1 a l2).
    destruct (Z.ltb_spec a b), (Z.ltb_spec b a); try lia; destruct (odd a), (odd b), (inv1 a l2), (inv1 b l2), (ex l2); reflexivity.
  - rewrite !ex_cons, IH by auto. rewrite (inv1_perm x (l1 ++ b :: a :: l2) (l1 ++ a :: b :: l2)) by (apply Permutation_app_head; constructor).
    now destruct (inv1 x (l1 ++ a :: b :: l2)), (ex (l1 ++ a :: b :: l2)), (odd a && odd b).
Qed.
Lemma ex_sorted : forall l, StronglySorted Z.lt l -> ex l = false.
Proof.
  induction 1 as [|x l _ IH F]; [reflexivity|]. rewrite ex_cons, IH. unfold inv1. rewrite xors_false; [reflexivity|]. intros y Hy.
  rewrite Forall_forall in F. specialize (F y Hy). destruct (Z.ltb_spec y x); [lia|reflexivity].
Qed.
Lemma ex_split : forall a b, (forall x y, In x a -> In y b -> x < y) -> ex (a ++ b) = xorb (ex a) (ex b).
Proof.
  induction a as [|x a IH]; intros b H; cbn [app]; [now destruct (ex b)|]. rewrite !ex_cons, inv1_app.
  rewrite IH by (intros; apply H; [now right|auto]).
  assert (Z : inv1 x b = false).
  { unfold inv1. apply xors_false. intros y Hy. specialize (H x y (or_introl eq_refl) Hy). destruct (Z.ltb_spec y x); [lia|reflexivity]. }
  rewrite Z. now destruct (inv1 x a), (ex a), (ex b).
Qed.

(* parity of the odd legs strictly between i and j *)
Definition between (i j : Z) (l : list Z) : bool := xors (map (fun x => (i <? x) && (x <? j) && odd x) l).
Lemma between_app : forall i j a b, between i j (a ++ b) = xorb (between i j a) (between i j b).
Proof. intros. unfold between. now rewrite map_app, xors_app. Qed.
Lemma between_perm : forall i j a b, Permutation a b -> between i j a = between i j b.
Proof. intros. unfold between. now apply xors_perm, Permutation_map. Qed.
Lemma between_out : forall i j l, (forall x, In x l -> x <= i \/ j <= x) -> between i j l = false.
Proof.
  intros i j l H. apply xors_false. intros x Hx. destruct (H x Hx); destruct (Z.ltb_spec i x), (Z.ltb_spec x j); try lia; reflexivity.
Qed.

Lemma ex_front : forall i j l, i < j -> odd i = odd j -> ~ In i l -> ex (i :: j :: l) = xorb (odd i && between i j l) (ex l).
Proof.
  intros i j l Hij Ho Hi. rewrite !ex_cons. unfold inv1. cbn [map]. cbn [xors].
  change (xors (map (fun y => (y <? i) && (odd i && odd y)) l)) with (xors (map (fun y => (y <? i) && (odd i && odd y)) l)).
  destruct (Z.ltb_spec j i); [lia|]. cbn [andb xorb].
  assert (E : xorb (xors (map (fun y => (y <? i) && (odd i && odd y)) l)) (xors (map (fun y => (y <? j) && (odd j && odd y)) l)) = odd i && between i j l).
  { rewrite <- xors_xor. unfold between. rewrite <- xors_and. f_equal. apply map_ext_in. intros y Hy. rewrite <- Ho.
    assert (y <> i) by (intro; subst; auto). destruct (Z.ltb_spec y i), (Z.ltb_spec y j), (Z.ltb_spec i y); try lia; destruct (odd i), (odd y); reflexivity. }
  rewrite <- E. set (u := xors _). set (v := xors _). destruct u, v, (ex l); reflexivity.
Qed.
Lemma ex_pair : forall i j l1 l2, i < j -> odd i = odd j -> ~ In i (l1 ++ l2) -> ~ In j (l1 ++ l2) ->
  ex (l1 ++ i :: j :: l2) = xorb (odd i && between i j (l1 ++ l2)) (ex (l1 ++ l2)).
Proof.
  intros i j l1. induction l1 as [|x l1 IH] using rev_ind; intros l2 Hij Ho Hi Hj; cbn [app].
  - now apply ex_front.
  - rewrite <- !app_assoc in *. cbn [app] in *.
    assert (x <> i) by (intro; subst; apply Hi; apply in_or_app; right; now left).
    assert (x <> j) by (intro; subst; apply Hj; apply in_or_app; right; now left).
    rewrite (ex_swap l1 i x (j :: l2)) by auto.
    replace (l1 ++ i :: x :: j :: l2) with ((l1 ++ [i]) ++ x :: j :: l2) by now rewrite <- app_assoc.
    rewrite (ex_swap (l1 ++ [i]) j x l2) by auto. rewrite <- app_assoc. cbn [app]. rewrite (IH (x :: l2)) by auto.
    rewrite <- Ho. now destruct (odd i && between i j (l1 ++ x :: l2)), (ex (l1 ++ x :: l2)), (odd i), (odd x).
Qed.

(* the pairs are taken out one after the other; each costs a sign for the odd legs still standing between its two legs *)
Fixpoint psign (P : list (Z * Z)) (K : list Z) : bool :=
  match P with
  | [] => false
  | (i, j) :: P' => xorb (odd i && between i j (names P' ++ K)) (psign P' K)
  end.
Lemma psign_app : forall P P' K, psign (P ++ P') K = xorb (psign P (names P' ++ K)) (psign P' K).
Proof.
  induction P as [|[i j] P IH]; intros P' K; cbn [app psign]; [now destruct (psign P' K)|]. rewrite IH, names_app, <- app_assoc.
  now destruct (odd i && _), (psign P _), (psign P' K).
Qed.
Definition good (P : list (Z * Z)) : Prop := forall i j, In (i, j) P -> i < j /\ odd i = odd j.
Lemma good_cons : forall p P, good (p :: P) -> good P.
Proof. intros p P H i j K. apply H. now right. Qed.
Lemma psign_keep_perm : forall P K K', Permutation K K' -> psign P K = psign P K'.
Proof.
  induction P as [|[i j] P IH]; intros K K' H; cbn [psign]; [reflexivity|]. rewrite (IH K K' H). f_equal. f_equal.
  apply between_perm. now apply Permutation_app_head.
Qed.
Lemma between_perm_names : forall i j P P' K, Permutation P P' -> between i j (names P ++ K) = between i j (names P' ++ K).
Proof. intros. apply between_perm. apply Permutation_app_tail. now apply names_perm. Qed.
Lemma psign_perm : forall P P' K, Permutation P P' -> good P -> NoDup (names P) -> psign P K = psign P' K.
Proof.
  induction 1 as [|[i j] P P' H IH|[i j] [i' j'] P|P P' P'' H1 IH1 H2 IH2]; intros G N; cbn [psign].
  - reflexivity.
  - rewrite IH; [|eapply good_cons; eauto|]. 2:{ cbn in N. inversion N; subst. inversion H3; auto. }
    now rewrite (between_perm_names i j P P' K H).
  - change (names ((i, j) :: P)) with ([i; j] ++ names P). change (names ((i', j') :: P)) with ([i'; j'] ++ names P). rewrite <- !app_assoc, !between_app.
    assert (C : odd i' && between i' j' [i; j] = odd i && between i j [i'; j']).
    { assert (Gi : i < j /\ odd i = odd j) by (apply G; right; now left). assert (Gi' : i' < j' /\ odd i' = odd j') by (apply G; now left).
      destruct Gi as [L1 O1], Gi' as [L2 O2]. unfold between. cbn [map]. cbn [xors]. rewrite <- O1, <- O2.
      cbn in N. assert (i' <> i /\ i' <> j /\ j' <> i /\ j' <> j) as (A1 & A2 & A3 & A4).
      { inversion N as [|? ? M1 N1]; subst. inversion N1 as [|? ? M2 N2]; subst. cbn in M1, M2. repeat split; intro; subst; tauto. }
      destruct (Z.ltb_spec i' i), (Z.ltb_spec i j'), (Z.ltb_spec i' j), (Z.ltb_spec j j'), (Z.ltb_spec i i'), (Z.ltb_spec i' j), (Z.ltb_spec i j'), (Z.ltb_spec j' j);
        try lia; destruct (odd i), (odd i'); reflexivity. }
    set (u := between i' j' (names P)) in *. set (w := between i j (names P)) in *. set (u2 := between i' j' K). set (w2 := between i j K).
    set (z1 := between i' j' [i; j]) in *. set (z2 := between i j [i'; j']) in *. clearbody z1 z2.
    destruct (odd i), (odd i'), z1, z2; cbn in C; try discriminate; destruct u, w, u2, w2, (psign P K); reflexivity.
  - rewrite IH1 by auto. apply IH2.
    + intros i j K'. apply G. eapply Permutation_in; [apply Permutation_sym; exact H1|exact K'].
    + eapply Permutation_NoDup; [apply names_perm; exact H1|exact N].
Qed.

(* bringing the pairs to the front *)
Lemma ex_trace : forall P K, good P -> NoDup (names P ++ K) -> ex (names P ++ K) = xorb (psign P K) (ex K).
Proof.
  induction P as [|[i j] P IH]; intros K G N; [cbn [names flat_map app psign]; now destruct (ex K)|].
  change (names ((i, j) :: P) ++ K) with (i :: j :: names P ++ K) in *. inversion N as [|? ? M1 N1]; subst. inversion N1 as [|? ? M2 N2]; subst.
  destruct (G i j (or_introl eq_refl)) as [Hij Ho]. rewrite ex_front by (auto; intro; apply M1; now right).
  rewrite IH by (auto; eapply good_cons; eauto). cbn [psign]. now destruct (odd i && _), (psign P K), (ex K).
Qed.
(* contracting the pairs of two tensors *)
Lemma ex_contract : forall P KA KB, good P -> NoDup (names P ++ KA ++ KB) ->
  ex (KA ++ rev (map fst P) ++ map snd P ++ KB) = xorb (psign P (KA ++ KB)) (ex (KA ++ KB)).
Proof.
  induction P as [|[i j] P IH]; intros KA KB G N; cbn [map rev app psign fst snd]; [now destruct (ex (KA ++ KB))|].
  change (names ((i, j) :: P)) with (i :: j :: names P) in N. cbn [app] in N. inversion N as [|? ? M1 N1]; subst. inversion N1 as [|? ? M2 N2]; subst.
  destruct (G i j (or_introl eq_refl)) as [Hij Ho].
  assert (PP : Permutation ((KA ++ rev (map fst P)) ++ map snd P ++ KB) (names P ++ KA ++ KB)).
  { rewrite <- app_assoc. etransitivity; [|apply Permutation_app_comm]. rewrite <- app_assoc. apply Permutation_app_head.
    etransitivity; [|apply Permutation_app_comm]. rewrite app_assoc. apply Permutation_app_tail.
    etransitivity; [|apply Permutation_sym, names_perm2]. apply Permutation_app_tail. apply Permutation_sym, Permutation_rev. }
  replace (KA ++ (rev (map fst P) ++ [i]) ++ j :: map snd P ++ KB) with ((KA ++ rev (map fst P)) ++ i :: j :: map snd P ++ KB).
  2:{ rewrite <- !app_assoc. reflexivity. }
  rewrite ex_pair; auto.
  - rewrite (between_perm i j _ _ PP). rewrite <- app_assoc. rewrite IH by (auto; eapply good_cons; eauto).
    now destruct (odd i && _), (psign P (KA ++ KB)), (ex (KA ++ KB)).
  - intro F. apply M1. right. eapply Permutation_in; [exact PP|exact F].
  - intro F. apply M2. eapply Permutation_in; [exact PP|exact F].
Qed.
(* legs outside the range of all pairs do not matter *)
Lemma psign_out : forall P K X, (forall p x, In p P -> In x X -> snd p <= x \/ x <= fst p) -> psign P (K ++ X) = psign P K.
Proof.
  induction P as [|[i j] P IH]; intros K X H; cbn [psign]; [reflexivity|]. rewrite IH by (intros; apply H; [now right|auto]).
  rewrite app_assoc, between_app. rewrite (between_out i j X); [now rewrite xorb_false_r|]. intros x Hx. destruct (H (i, j) x (or_introl eq_refl) Hx); cbn in *; lia.
Qed.
End Signs.
Lemma psign_ext : forall odd odd' P K, (forall x, In x (names P ++ K) -> odd x = odd' x) -> psign odd P K = psign odd' P K.
Proof.
  intros odd odd'. induction P as [|[i j] P IH]; intros K H; cbn [psign]; [reflexivity|].
  change (names ((i, j) :: P)) with (i :: j :: names P) in H. cbn [app] in H.
  rewrite (H i) by now left. rewrite IH by (intros; apply H; right; now right). f_equal. f_equal. unfold between. f_equal. apply map_ext_in. intros x Hx.
  now rewrite (H x) by (right; now right).
Qed.
(* positions instead of names *)
Lemma exchanged_map : forall (odd : Z -> bool) (f : Z -> Z) l, (forall x y, In x l -> In y l -> (f y <? f x) = (y <? x)) ->
  exchanged (fun i => odd (f i)) l = exchanged odd (map f l).
Proof.
  intros odd f. induction l as [|x l IH]; intros H; cbn [exchanged map]; [reflexivity|].
  rewrite IH by (intros; apply H; now right). f_equal. rewrite map_map. f_equal. apply map_ext_in. intros y Hy. rewrite (H x y); auto; [now left|now right].
Qed.

(** *** Named legs *)
Definition posn (A : list Z) (x : Z) : Z := match index_of x A with Some k => Z.of_nat k | None => 0 end.
Definition name (A : list Z) (k : Z) : Z := nth (Z.to_nat k) A 0.
Lemma posn_spec : forall A x, In x A -> 0 <= posn A x < Z.of_nat (length A) /\ name A (posn A x) = x.
Proof.
  intros A x H. unfold posn, name. destruct (index_of x A) as [k|] eqn:E.
  - apply index_of_some in E. rewrite Nat2Z.id. split; [lia|tauto].
  - apply index_of_none in E. tauto.
Qed.
Lemma posn_name : forall A k, NoDup A -> 0 <= k < Z.of_nat (length A) -> posn A (name A k) = k.
Proof. intros A k N H. unfold posn, name. rewrite index_of_nth by (auto; lia). lia. Qed.
Lemma map_name : forall A, map (name A) (zrange (Z.of_nat (length A))) = A.
Proof. intros A. apply (pick_all Z 0 A). Qed.
Lemma name_posns : forall A I, (forall x, In x I -> In x A) -> map (name A) (map (posn A) I) = I.
Proof. intros A I H. rewrite map_map. rewrite <- (map_id I) at 2. apply map_ext_in. intros x Hx. now apply posn_spec, H. Qed.
Definition without (I A : list Z) : list Z := filter (fun x => negb (memZ x I)) A.
Lemma in_without : forall I A x, In x (without I A) <-> In x A /\ ~ In x I.
Proof. intros. unfold without. rewrite filter_In, negb_true_iff. pose proof (memZ_in x I). destruct (memZ x I); intuition congruence. Qed.
Lemma name_others : forall A I, NoDup A -> (forall x, In x I -> In x A) ->
  map (name A) (others (Z.of_nat (length A)) (map (posn A) I)) = without I A.
Proof.
  intros A I N H. transitivity (without I (map (name A) (zrange (Z.of_nat (length A))))); [|now rewrite map_name].
  unfold without. rewrite filter_map_comm. f_equal. unfold others. apply filter_ext_in.
  intros k Hk. apply in_zrange in Hk. f_equal. apply eq_iff_eq_true. rewrite memZ_in. rewrite existsb_exists. split.
  - intros (y & Hy & E). apply Z.eqb_eq in E. subst. apply in_map_iff in Hy. destruct Hy as (x & <- & Hx). rewrite (proj2 (posn_spec A x (H x Hx))). auto.
  - intros Hx. exists k. split; [|apply Z.eqb_refl]. rewrite <- (posn_name A k N Hk). now apply in_map.
Qed.
Lemma posns_nodup : forall A I, NoDup I -> (forall x, In x I -> In x A) -> NoDup (map (posn A) I).
Proof.
  intros A I N H. apply (NoDup_map_inv (name A)). now rewrite name_posns.
Qed.
Lemma pick_named : forall X (d : X) (s : Z -> X) A idx, (forall k, In k idx -> 0 <= k < Z.of_nat (length A)) ->
  pick d idx (map s A) = map s (map (name A) idx).
Proof.
  intros X d s A idx H. unfold pick. rewrite map_map. apply map_ext_in. intros k Hk. specialize (H k Hk).
  rewrite (nth_indep _ d (s 0)) by (rewrite map_length; lia). now rewrite map_nth.
Qed.
Lemma merge_named : forall X (d : X) (s : Z -> X) A I, NoDup A -> NoDup I -> (forall x, In x I -> In x A) ->
  merge d (Z.of_nat (length A)) (map (posn A) I) (map s I) (map s (without I A)) = map s A.
Proof.
  intros X d s A I N NI H.
  assert (R1 : forall k, In k (map (posn A) I) -> 0 <= k < Z.of_nat (length A)).
  { intros k Hk. apply in_map_iff in Hk. destruct Hk as (x & <- & Hx). now apply posn_spec, H. }
  transitivity (merge d (Z.of_nat (length A)) (map (posn A) I) (map s (map (name A) (map (posn A) I))) (map s (map (name A) (others (Z.of_nat (length A)) (map (posn A) I))))).
  { rewrite name_others, name_posns by auto. reflexivity. }
  rewrite <- !(pick_named X d s A).
  - apply merge_pick; auto. now rewrite map_length.
  - intros k Hk. apply in_others in Hk. tauto.
  - exact R1.
Qed.

Lemma nodup_app_intro' : forall (A : Type) (a b : list A), NoDup a -> NoDup b -> (forall x, In x a -> In x b -> False) -> NoDup (a ++ b).
Proof.
  induction a as [|x a IH]; intros b Ha Hb H; cbn; auto. inversion Ha; subst. constructor.
  - rewrite in_app_iff. intros [K|K]; [auto|]. apply (H x); [now left|auto].
  - apply IH; auto. intros y K1 K2. apply (H y); [now right|auto].
Qed.
Lemma combine_map_map : forall (X Y Z' : Type) (f : X -> Y) (g : X -> Z') l, combine (map f l) (map g l) = map (fun x => (f x, g x)) l.
Proof. induction l as [|x l IH]; cbn; [reflexivity|]. now rewrite IH. Qed.
Lemma sorted_app_inv : forall a b, StronglySorted Z.lt (a ++ b) -> StronglySorted Z.lt a /\ StronglySorted Z.lt b /\ forall x y, In x a -> In y b -> x < y.
Proof.
  induction a as [|x a IH]; intros b H; cbn in *; [repeat split; auto using SSorted_nil; intros ? ? []|].
  inversion H as [|? ? S F]; subst. destruct (IH b S) as (A & B & C). rewrite Forall_forall in F. split; [|split; [auto|]].
  - constructor; auto. rewrite Forall_forall. intros y Hy. apply F, in_or_app. now left.
  - intros u v [->|Hu] Hv; [apply F, in_or_app; now right|now apply C].
Qed.
Lemma sorted_app : forall a b, StronglySorted Z.lt a -> StronglySorted Z.lt b -> (forall x y, In x a -> In y b -> x < y) -> StronglySorted Z.lt (a ++ b).
Proof.
  induction a as [|x a IH]; intros b A B C; cbn; auto. inversion A as [|? ? S F]; subst. constructor.
  - apply IH; auto. intros; apply C; auto. now right.
  - rewrite Forall_forall in *. intros y Hy. apply in_app_or in Hy. destruct Hy; [auto|apply C; [now left|auto]].
Qed.
Lemma sorted_nodup : forall a, StronglySorted Z.lt a -> NoDup a.
Proof. induction 1 as [|x l S IH F]; constructor; auto. rewrite Forall_forall in F. intro K. specialize (F x K). lia. Qed.
Lemma sorted_nth : forall A, StronglySorted Z.lt A -> forall k l, (k < l)%nat -> (l < length A)%nat -> nth k A 0 < nth l A 0.
Proof.
  induction 1 as [|x A S IH F]; intros k l Hk Hl; cbn in Hl; [lia|]. destruct l as [|l]; [lia|]. destruct k as [|k]; cbn [nth].
  - rewrite Forall_forall in F. apply F, nth_In. lia.
  - apply IH; lia.
Qed.
Lemma name_mono : forall A k l, StronglySorted Z.lt A -> 0 <= k < Z.of_nat (length A) -> 0 <= l < Z.of_nat (length A) -> (name A k <? name A l) = (k <? l).
Proof.
  intros A k l H Hk Hl. unfold name. destruct (Z.ltb_spec k l) as [E|E].
  - apply Z.ltb_lt. apply sorted_nth; auto; lia.
  - apply Z.ltb_ge. destruct (Z.eq_dec k l); [subst; lia|]. apply Z.lt_le_incl, sorted_nth; auto; lia.
Qed.

(** *** Sums over contracted pairs *)
Definition upd2 {X : Type} (s : Z -> X) (i j : Z) (q : X) : Z -> X := fun x => if (x =? i) || (x =? j) then q else s x.
Fixpoint updl {X : Type} (s : Z -> X) (P : list (Z * Z)) (qs : list X) : Z -> X :=
  match P, qs with (i, j) :: P', q :: qs' => updl (upd2 s i j q) P' qs' | _, _ => s end.
Lemma upd2_out : forall X (s : Z -> X) i j q x, x <> i -> x <> j -> upd2 s i j q x = s x.
Proof. intros X s i j q x A B. unfold upd2. destruct (Z.eqb_spec x i), (Z.eqb_spec x j); try congruence; reflexivity. Qed.
Lemma upd2_l : forall X (s : Z -> X) i j q, upd2 s i j q i = q.
Proof. intros. unfold upd2. now rewrite Z.eqb_refl. Qed.
Lemma upd2_r : forall X (s : Z -> X) i j q, upd2 s i j q j = q.
Proof. intros. unfold upd2. now rewrite Z.eqb_refl, orb_true_r. Qed.
Lemma updl_out : forall X P (s : Z -> X) qs x, ~ In x (names P) -> updl s P qs x = s x.
Proof.
  induction P as [|[i j] P IH]; intros s [|q qs] x H; cbn [updl]; auto. change (names ((i, j) :: P)) with (i :: j :: names P) in H. cbn in H.
  rewrite IH by tauto. apply upd2_out; intro; subst; tauto.
Qed.
Lemma updl_pair : forall X P (s : Z -> X) qs, NoDup (names P) -> length qs = length P ->
  map (updl s P qs) (map fst P) = qs /\ map (updl s P qs) (map snd P) = qs.
Proof.
  induction P as [|[i j] P IH]; intros s [|q qs] N E; cbn in E; try lia; [auto|]. change (names ((i, j) :: P)) with (i :: j :: names P) in N.
  inversion N as [|? ? M1 N1]; subst. inversion N1 as [|? ? M2 N2]; subst. cbn in M1.
  destruct (IH (upd2 s i j q) qs N2) as [A B]; [lia|]. cbn [map fst snd updl]. rewrite !updl_out, upd2_l, upd2_r by tauto. rewrite A, B. auto.
Qed.
Lemma updl_same : forall X P (s : Z -> X) qs i j, NoDup (names P) -> length qs = length P -> In (i, j) P -> updl s P qs i = updl s P qs j.
Proof.
  intros X P s qs i j N E H. destruct (updl_pair X P s qs N E) as [A B]. rewrite <- B in A at 2. rewrite !map_map in A.
  revert A H. generalize (updl s P qs). clear. intros f A H.
  induction P as [|p P IH]; [destruct H|]. cbn in A. injection A as A1 A2. destruct H as [->|H]; [exact A1|]. now apply IH.
Qed.

Section Named.
Variable R : CRing.
Variable L : Label.
Variable fermion : bool.
Add Ring rr3 : (rth R).
Variable dm : Z -> L -> Z.
Variable Lq : list L.
Notation tensor := (list (list L * nd R)).
Notation ll := (q0 L).

Fixpoint tuples (k : nat) : list (list L) :=
  match k with O => [[]] | S k' => flat_map (fun q => map (cons q) (tuples k')) Lq end.
Lemma in_tuples : forall k q, In q (tuples k) <-> length q = k /\ forall x, In x q -> In x Lq.
Proof.
  clear dm fermion.
  induction k as [|k IH]; intros q; cbn [tuples].
  - cbn. split; [intros [<-|[]]; split; [reflexivity|intros ? []]|]. intros [E _]. left. now destruct q.
  - rewrite in_flat_map. split.
    + intros (x & Hx & Hm). apply in_map_iff in Hm. destruct Hm as (t & <- & Ht). apply IH in Ht. destruct Ht as [E F]. cbn. split; [lia|].
      intros y [->|Hy]; auto.
    + intros [E F]. destruct q as [|x q]; cbn in E; [lia|]. exists x. split; [apply F; now left|]. apply in_map. apply IH. split; [lia|]. intros; apply F; now right.
Qed.
Lemma tuples_nodup : NoDup Lq -> forall k, NoDup (tuples k).
Proof.
  intros N. induction k as [|k IH]; cbn [tuples]; [constructor; [intros []|constructor]|]. revert IH. generalize (tuples k). intros T IH. induction N as [|x l Hx N IH']; cbn [flat_map]; [constructor|].
  apply nodup_app_intro'; auto.
  - apply FinFun.Injective_map_NoDup; auto. intros a b E. now injection E.
  - intros t H1 H2. apply in_map_iff in H1. destruct H1 as (t1 & <- & _). apply in_flat_map in H2. destruct H2 as (y & Hy & K). apply in_map_iff in K.
    destruct K as (t2 & E & _). injection E as E _. subst. auto.
Qed.

(* sum over the labels and indices of the pairs *)
Fixpoint sumP (P : list (Z * Z)) (s : Z -> L) (x : Z -> Z) (F : (Z -> L) -> (Z -> Z) -> R) : R :=
  match P with
  | [] => F s x
  | (i, j) :: P' => bsum Lq (fun q => bsum (zrange (dm i q)) (fun v => sumP P' (upd2 s i j q) (upd2 x i j v) F))
  end.
Lemma sumP_app : forall P P' s x F, sumP (P ++ P') s x F = sumP P s x (fun s' x' => sumP P' s' x' F).
Proof.
  induction P as [|[i j] P IH]; intros P' s x F; cbn [app sumP]; [reflexivity|]. apply bsum_ext. intros q _. apply bsum_ext. intros v _. apply IH.
Qed.
Lemma sumP_ext : forall P s x F G, NoDup (names P) ->
  (forall s' x', (forall n, ~ In n (names P) -> s' n = s n /\ x' n = x n) -> (forall i j, In (i, j) P -> s' i = s' j /\ x' i = x' j) -> F s' x' = G s' x') ->
  sumP P s x F = sumP P s x G.
Proof.
  induction P as [|[i j] P IH]; intros s x F G N H; cbn [sumP].
  - apply H; [auto|intros ? ? []].
  - apply bsum_ext. intros q _. apply bsum_ext. intros v _. change (names ((i, j) :: P)) with (i :: j :: names P) in N, H.
    inversion N as [|? ? M1 N1]; subst. inversion N1 as [|? ? M2 N2]; subst. cbn in M1. apply IH; [auto|]. intros s' x' A B. apply H.
    + intros n Hn. cbn in Hn. destruct (A n) as [-> ->]; [tauto|]. rewrite !upd2_out by (intro; subst; tauto). auto.
    + intros i' j' [E|K]; [|now apply B]. injection E as <- <-. destruct (A i) as [-> ->]; [tauto|]. destruct (A j) as [-> ->]; [tauto|].
      rewrite !upd2_l, !upd2_r. auto.
Qed.
(* F looks at the assignments only through their values *)
Definition proper (F : (Z -> L) -> (Z -> Z) -> R) : Prop :=
  forall s s' x x', (forall n, s n = s' n) -> (forall n, x n = x' n) -> F s x = F s' x'.
Lemma sumP_proper : forall P F, proper F -> proper (fun s x => sumP P s x F).
Proof.
  induction P as [|[i j] P IH]; intros F H s s' x x' A B; cbn [sumP]; [now apply H|]. apply bsum_ext. intros q _. apply bsum_ext. intros v _.
  apply (IH F H); intros n; unfold upd2; [now rewrite A|now rewrite B].
Qed.
Lemma sumP_perm : forall P P' s x F, Permutation P P' -> NoDup (names P) -> proper F -> sumP P s x F = sumP P' s x F.
Proof.
  intros P P' s x F H. revert s x. induction H as [|[i j] P P' H IH|[i j] [i' j'] P|P P' P'' H1 IH1 H2 IH2]; intros s x N HF; cbn [sumP].
  - reflexivity.
  - apply bsum_ext. intros q _. apply bsum_ext. intros v _. apply IH; auto. cbn in N. inversion N; subst. inversion H3; auto.
  - transitivity (bsum Lq (fun q => bsum Lq (fun q' => bsum (zrange (dm i' q)) (fun v => bsum (zrange (dm i q')) (fun v' =>
       sumP P (upd2 (upd2 s i' j' q) i j q') (upd2 (upd2 x i' j' v) i j v') F))))).
    { apply bsum_ext. intros q _. apply bsum_swap. }
    rewrite bsum_swap. apply bsum_ext. intros q' _. etransitivity; [|apply bsum_swap]. apply bsum_ext. intros q _.
    etransitivity; [apply bsum_swap|]. apply bsum_ext. intros v' _. apply bsum_ext. intros v _.
    assert (D : i <> i' /\ i <> j' /\ j <> i' /\ j <> j').
    { cbn in N. inversion N as [|? ? M1 N1]; subst. inversion N1 as [|? ? M2 N2]; subst. cbn in M1, M2. repeat split; intro; subst; tauto. }
    apply sumP_proper; auto; intros n; unfold upd2;
      destruct (Z.eqb_spec n i), (Z.eqb_spec n j), (Z.eqb_spec n i'), (Z.eqb_spec n j'); subst; cbn [orb]; try reflexivity; exfalso; tauto.
  - rewrite IH1 by auto. apply IH2; auto. eapply Permutation_NoDup; [apply names_perm; exact H1|exact N].
Qed.
Lemma sumP_signed : forall P s x b F, sumP P s x (fun s' x' => signed b (F s' x')) = signed b (sumP P s x F).
Proof.
  induction P as [|[i j] P IH]; intros s x b F; cbn [sumP]; [reflexivity|]. rewrite <- signed_sum. apply bsum_ext. intros q _.
  rewrite <- signed_sum. apply bsum_ext. intros v _. apply IH.
Qed.
Lemma sumP_mulr : forall P s x F g, sumP P s x (fun s' x' => rmul R (F s' x') g) = rmul R (sumP P s x F) g.
Proof.
  induction P as [|[i j] P IH]; intros s x F g; cbn [sumP]; [reflexivity|]. rewrite <- bsum_mulr. apply bsum_ext. intros q _.
  rewrite <- bsum_mulr. apply bsum_ext. intros v _. apply IH.
Qed.
Lemma sumP_mull : forall P s x F g, sumP P s x (fun s' x' => rmul R g (F s' x')) = rmul R g (sumP P s x F).
Proof.
  induction P as [|[i j] P IH]; intros s x F g; cbn [sumP]; [reflexivity|]. rewrite <- bsum_mull. apply bsum_ext. intros q _.
  rewrite <- bsum_mull. apply bsum_ext. intros v _. apply IH.
Qed.
Lemma sum_tuples : forall P s x F,
  bsum (tuples (length P)) (fun qc => bsum (all_idx (map (fun e => dm (fst (fst e)) (snd e)) (combine P qc))) (fun xc => F (updl s P qc) (updl x P xc)))
  = sumP P s x F.
Proof.
  induction P as [|[i j] P IH]; intros s x F; cbn [length tuples sumP].
  - rewrite bsum_cons, bsum_nil. cbn [combine map all_idx]. rewrite bsum_cons, bsum_nil. cbn [updl]. ring.
  - rewrite bsum_flat_map. apply bsum_ext. intros q _. rewrite bsum_map. cbn [combine map fst snd all_idx updl].
    transitivity (bsum (tuples (length P)) (fun t => bsum (zrange (dm i q)) (fun v => bsum (all_idx (map (fun e => dm (fst (fst e)) (snd e)) (combine P t)))
       (fun xs => F (updl (upd2 s i j q) P t) (updl (upd2 x i j v) P xs))))).
    { apply bsum_ext. intros t _. rewrite bsum_flat_map. apply bsum_ext. intros v _. rewrite bsum_map. reflexivity. }
    rewrite bsum_swap. apply bsum_ext. intros v _. apply (IH (upd2 s i j q) (upd2 x i j v) F).
Qed.

(** *** Contraction in terms of names *)
Definition wfn (A : list Z) (t : tensor) : Prop := wf_tensor R L (Z.of_nat (length A)) (fun k q => dm (name A k) q) t.
Definition labs (t : tensor) : Prop := forall b q, In b t -> In q (fst b) -> In q Lq.
Definition par (s : Z -> L) (x : Z) : bool := qpar L (s x).

Lemma wf_ext : forall n d d' t, (forall k q, 0 <= k < n -> d k q = d' k q) -> wf_tensor R L n d t -> wf_tensor R L n d' t.
Proof.
  intros n d d' t H W b Hb. destruct (W b Hb) as [A B]. split; [auto|]. rewrite B. unfold shape_of. apply map_ext_in. intros [k q] Hk. cbn [fst snd].
  apply H. apply in_combine_l in Hk. now apply in_zrange.
Qed.
Lemma exchanged_named : forall (s : Z -> L) A l, StronglySorted Z.lt A -> (forall k, In k l -> 0 <= k < Z.of_nat (length A)) ->
  exchanged (odd_legs L (map s A)) l = exchanged (par s) (map (name A) l).
Proof.
  clear dm fermion Lq.
  intros s A l HA H. rewrite <- exchanged_map.
  - apply exchanged_ext. intros k Hk. specialize (H k Hk). unfold odd_legs, par, name. rewrite (nth_indep _ ll (s 0)) by (rewrite map_length; lia).
    now rewrite map_nth.
  - intros x y Hx Hy. apply name_mono; auto.
Qed.

Section Con.
Variables (a b r : ftensor R L) (A B : list Z) (P : list (Z * Z)).
Hypothesis HL : NoDup Lq.
Hypothesis HS : StronglySorted Z.lt (A ++ B).
Hypothesis PA : forall i j, In (i, j) P -> In i A /\ In j B.
Hypothesis NA : NoDup (map fst P).
Hypothesis NB : NoDup (map snd P).
Hypothesis PD : forall i j q, In (i, j) P -> dm i q = dm j q.
Hypothesis Wa : wfn A (fst a).
Hypothesis Wb : wfn B (fst b).
Hypothesis La : labs (fst a).
Hypothesis Lb : labs (fst b).
Let ia := map (posn A) (map fst P).
Let ib := map (posn B) (map snd P).
Hypothesis E : ft_tensordot R L fermion a b ia ib = Some r.
Definition keep2 : list Z := without (map fst P) A ++ without (map snd P) B.

Lemma con_fst : forall x, In x (map fst P) -> In x A.
Proof. intros x H. apply in_map_iff in H. destruct H as ([i j] & <- & H). now apply (PA i j). Qed.
Lemma con_snd : forall x, In x (map snd P) -> In x B.
Proof. intros x H. apply in_map_iff in H. destruct H as ([i j] & <- & H). now apply (PA i j). Qed.
Lemma con_sorted : StronglySorted Z.lt A /\ StronglySorted Z.lt B /\ forall x y, In x A -> In y B -> x < y.
Proof. now apply sorted_app_inv. Qed.
Lemma con_names_nodup : NoDup (names P).
Proof.
  eapply Permutation_NoDup; [apply Permutation_sym, names_perm2|]. apply nodup_app_intro'; auto. intros x H1 H2.
  apply con_fst in H1. apply con_snd in H2. destruct con_sorted as (_ & _ & C). specialize (C x x H1 H2). lia.
Qed.
Lemma con_legs : forall n A' I, (forall x, In x I -> In x A') -> map (leg n) (map (posn A') I) = map (posn A') I.
Proof.
  intros n A' I H. rewrite map_map. apply map_ext_in. intros x Hx. destruct (posn_spec A' x (H x Hx)) as [K _]. unfold leg. destruct (Z.ltb_spec (posn A' x) 0); lia.
Qed.
Lemma con_range : forall A' I, (forall x, In x I -> In x A') -> forall k, In k (map (posn A') I) -> 0 <= k < Z.of_nat (length A').
Proof. intros A' I H k Hk. apply in_map_iff in Hk. destruct Hk as (x & <- & Hx). now apply posn_spec, H. Qed.
Lemma con_dims : forall i j q, In (i, j) (combine ia ib) -> dm (name A i) q = dm (name B j) q.
Proof.
  intros i j q H. unfold ia, ib in H. rewrite !map_map in H. rewrite combine_map_map in H. apply in_map_iff in H. destruct H as ([i' j'] & K & H). cbn [fst snd] in K.
  injection K as <- <-. destruct (PA i' j' H) as [H1 H2]. rewrite (proj2 (posn_spec A i' H1)), (proj2 (posn_spec B j' H2)). now apply PD.
Qed.
Lemma keep2_sorted : StronglySorted Z.lt keep2.
Proof.
  destruct con_sorted as (SA & SB & C). apply sorted_app; [now apply sorted_filter|now apply sorted_filter|]. intros x y Hx Hy. apply in_without in Hx, Hy.
  apply C; tauto.
Qed.

Lemma con_named : forall s x,
  elem R L (fst r) (map s keep2) (map x keep2) =
  sumP P s x (fun s' x' => signed (fermion && psign (par s') P keep2)
    (rmul R (elem R L (fst a) (map s' A) (map x' A)) (elem R L (fst b) (map s' B) (map x' B)))).
Proof.
  intros s x. destruct con_sorted as (SA & SB & SAB). pose proof con_names_nodup as NN.
  rewrite <- sum_tuples. unfold keep2 at 1 2. rewrite !map_app.
  assert (OA : length (others (Z.of_nat (length A)) ia) = length (without (map fst P) A)).
  { rewrite <- (name_others A (map fst P)) by (auto using sorted_nodup, con_fst). now rewrite map_length. }
  assert (OB : length (others (Z.of_nat (length B)) ib) = length (without (map snd P) B)).
  { rewrite <- (name_others B (map snd P)) by (auto using sorted_nodup, con_snd). now rewrite map_length. }
  assert (EA : map (leg (Z.of_nat (length A))) ia = ia) by apply con_legs, con_fst.
  assert (EB : map (leg (Z.of_nat (length B))) ib = ib) by apply con_legs, con_snd.
  rewrite (con_elem R L fermion a b (Z.of_nat (length A)) (Z.of_nat (length B)) (fun k q => dm (name A k) q) (fun k q => dm (name B k) q) ia ib r)
    with (Ls := tuples (length P)); rewrite ?EA, ?EB; auto.
  all: try (now rewrite map_length).
  2:{ apply posns_nodup; auto using con_fst. }
  2:{ apply con_range, con_fst. }
  2:{ apply posns_nodup; auto using con_snd. }
  2:{ apply con_range, con_snd. }
  2:{ apply con_dims. }
  2:{ now apply tuples_nodup. }
  2:{ intros q Hq. apply in_tuples in Hq. unfold ia. rewrite !map_length. tauto. }
  2:{ intros ba Hb. apply in_tuples. split; [unfold ia; now rewrite pick_length, !map_length|]. intros q Hq. apply in_map_iff in Hq. destruct Hq as (k & <- & Hk).
      apply (La ba); auto. apply nth_In. destruct (Wa ba Hb) as [K _]. apply (con_range A (map fst P) con_fst) in Hk. lia. }
  apply bsum_ext. intros qc Hqc. apply in_tuples in Hqc. destruct Hqc as [Lqc _]. destruct (updl_pair L P s qc NN Lqc) as [Q1 Q2].
  assert (DS : shape_of L (fun k q => dm (name A k) q) ia qc = map (fun e => dm (fst (fst e)) (snd e)) (combine P qc)).
  { clear - PA. unfold shape_of, ia. revert qc. assert (PA' : forall p, In p P -> In (fst p) A) by (intros [i j] H; now apply (PA i j)). clear PA.
    induction P as [|p P' IH]; intros qc; [reflexivity|]. destruct qc as [|q qc]; [reflexivity|]. cbn [map combine fst snd].
    rewrite (proj2 (posn_spec A (fst p) (PA' p (or_introl eq_refl)))). f_equal. apply IH. intros; apply PA'. now right. }
  rewrite DS. apply bsum_ext. intros xc Hxc. apply in_all_idx in Hxc. apply in_shape_length in Hxc. rewrite map_length, combine_length, Lqc, Nat.min_id in Hxc.
  destruct (updl_pair Z P x xc NN Hxc) as [X1 X2]. cbn zeta.
  set (s' := updl s P qc) in *. set (x' := updl x P xc) in *.
  assert (KA : forall n, In n (without (map fst P) A) -> ~ In n (names P)).
  { intros n Hn F. apply in_without in Hn. apply in_names in F. destruct F as ([i j] & F & [->| ->]); cbn [fst snd] in *.
    - apply Hn. now apply (in_map fst) in F.
    - destruct Hn as [Hn _]. apply PA in F. specialize (SAB j j Hn (proj2 F)). lia. }
  assert (KB : forall n, In n (without (map snd P) B) -> ~ In n (names P)).
  { intros n Hn F. apply in_without in Hn. apply in_names in F. destruct F as ([i j] & F & [->| ->]); cbn [fst snd] in *.
    - destruct Hn as [Hn _]. apply PA in F. specialize (SAB i i (proj1 F) Hn). lia.
    - apply Hn. now apply (in_map snd) in F. }
  assert (MA : merge ll (Z.of_nat (length A)) ia qc (map s (without (map fst P) A)) = map s' A).
  { rewrite <- Q1. rewrite (map_ext_in s s') by (intros n Hn; symmetry; now apply updl_out, KA). apply merge_named; auto using sorted_nodup, con_fst. }
  assert (MB : merge ll (Z.of_nat (length B)) ib qc (map s (without (map snd P) B)) = map s' B).
  { rewrite <- Q2. rewrite (map_ext_in s s') by (intros n Hn; symmetry; now apply updl_out, KB). apply merge_named; auto using sorted_nodup, con_snd. }
  assert (XA : merge 0 (Z.of_nat (length A)) ia xc (map x (without (map fst P) A)) = map x' A).
  { rewrite <- X1. rewrite (map_ext_in x x') by (intros n Hn; symmetry; now apply updl_out, KA). apply merge_named; auto using sorted_nodup, con_fst. }
  assert (XB : merge 0 (Z.of_nat (length B)) ib xc (map x (without (map snd P) B)) = map x' B).
  { rewrite <- X2. rewrite (map_ext_in x x') by (intros n Hn; symmetry; now apply updl_out, KB). apply merge_named; auto using sorted_nodup, con_snd. }
  rewrite MA, MB, XA, XB. f_equal. f_equal.
  rewrite !exchanged_named; auto.
  2:{ intros k Hk. apply in_app_or in Hk. destruct Hk as [Hk|Hk]; [apply (con_range B (map snd P) con_snd); exact Hk|apply in_others in Hk; tauto]. }
  2:{ intros k Hk. apply in_app_or in Hk. destruct Hk as [Hk|Hk]; [apply in_others in Hk; tauto|apply in_rev in Hk; apply (con_range A (map fst P) con_fst); exact Hk]. }
  rewrite !map_app, map_rev. unfold ia, ib. rewrite !name_others, !name_posns by (auto using sorted_nodup, con_fst, con_snd).
  rewrite <- ex_split.
  - rewrite <- app_assoc. rewrite ex_contract.
    + fold keep2. rewrite (ex_sorted _ keep2 keep2_sorted). apply xorb_false_r.
    + intros i j H. split; [apply SAB; apply (PA i j H)|]. unfold par. f_equal. now apply updl_same.
    + fold keep2. apply nodup_app_intro'; [exact NN|apply sorted_nodup, keep2_sorted|]. intros n H1 H2. apply in_app_or in H2. destruct H2 as [H2|H2]; [now apply (KA n H2)|now apply (KB n H2)].
  - intros u v Hu Hv. apply SAB.
    + apply in_app_or in Hu. destruct Hu as [Hu|Hu]; [apply in_without in Hu; tauto|apply in_rev in Hu; now apply con_fst].
    + apply in_app_or in Hv. destruct Hv as [Hv|Hv]; [now apply con_snd|apply in_without in Hv; tauto].
Qed.

Lemma con_wfn : wfn keep2 (fst r).
Proof.
  destruct con_sorted as (SA & SB & SAB).
  assert (EA : map (leg (Z.of_nat (length A))) ia = ia) by apply con_legs, con_fst.
  assert (EB : map (leg (Z.of_nat (length B))) ib = ib) by apply con_legs, con_snd.
  assert (OA : map (name A) (others (Z.of_nat (length A)) ia) = without (map fst P) A) by (apply name_others; auto using sorted_nodup, con_fst).
  assert (OB : map (name B) (others (Z.of_nat (length B)) ib) = without (map snd P) B) by (apply name_others; auto using sorted_nodup, con_snd).
  rewrite (con_res R L fermion a b (Z.of_nat (length A)) (Z.of_nat (length B)) (fun k q => dm (name A k) q) (fun k q => dm (name B k) q) ia ib r) by auto.
  rewrite EA, EB. apply acc_wf; [intros; reflexivity|intros; reflexivity|intros ? []|].
  pose proof (con_wf R L fermion a b (Z.of_nat (length A)) (Z.of_nat (length B)) (fun k q => dm (name A k) q) (fun k q => dm (name B k) q) ia ib r) as W.
  rewrite EA, EB in W. unfold wfn.
  assert (EL : Z.of_nat (length keep2) = Z.of_nat (length (others (Z.of_nat (length A)) ia)) + Z.of_nat (length (others (Z.of_nat (length B)) ib))).
  { unfold keep2. rewrite <- OA, <- OB, app_length, !map_length. lia. }
  rewrite EL. eapply wf_ext; [|apply W; auto].
  - intros k q Hk. unfold dm_out. unfold name at 3. unfold keep2. rewrite <- OA, <- OB. destruct (Z.ltb_spec k (Z.of_nat (length (others (Z.of_nat (length A)) ia)))) as [H|H].
    + rewrite app_nth1 by (rewrite map_length; lia). rewrite (nth_indep (map (name A) _) 0 (name A 0)) by (rewrite map_length; lia). now rewrite map_nth.
    + rewrite app_nth2 by (rewrite map_length; lia). rewrite map_length. rewrite (nth_indep (map (name B) _) 0 (name B 0)) by (rewrite map_length; lia). rewrite map_nth.
      do 3 f_equal. lia.
  - apply con_range, con_fst.
  - apply con_range, con_snd.
  - apply con_dims.
Qed.
Lemma con_labs : labs (fst r).
Proof.
  intros c q Hc Hq.
  assert (EA : map (leg (Z.of_nat (length A))) ia = ia) by apply con_legs, con_fst.
  assert (EB : map (leg (Z.of_nat (length B))) ib = ib) by apply con_legs, con_snd.
  apply (in_map fst) in Hc. rewrite (con_labels R L fermion a b (Z.of_nat (length A)) (Z.of_nat (length B)) (fun k q => dm (name A k) q) (fun k q => dm (name B k) q) ia ib r) in Hc by auto.
  destruct Hc as (ba & bb & H1 & H2 & _ & Ec). rewrite Ec in Hq. apply in_app_or in Hq. rewrite EA, EB in Hq.
  destruct Hq as [Hq|Hq]; apply in_map_iff in Hq; destruct Hq as (k & <- & Hk); apply in_others in Hk.
  - apply (La ba); auto. apply nth_In. destruct (Wa ba H1). lia.
  - apply (Lb bb); auto. apply nth_In. destruct (Wb bb H2). lia.
Qed.
End Con.
End Named.
