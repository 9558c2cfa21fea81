(** Row-major multi-indices (numpy C order), ranges, stable sorting as Python's sorted/list.sort. *)
From Coq Require Import ZArith Bool List Lia ZifyBool Permutation Sorted.
From Verif Require Import DictLib.
Import ListNotations.
Open Scope Z_scope.
Ltac Zify.zify_post_hook ::= Z.div_mod_to_equations.

(** ** ranges *)
Definition zrange (n : Z) : list Z := map Z.of_nat (seq 0 (Z.to_nat n)).
Lemma in_zrange : forall n x, In x (zrange n) <-> 0 <= x < n.
Proof.
  intros n x. unfold zrange. rewrite in_map_iff. split.
  - intros (k & <- & H). apply in_seq in H. lia.
  - intros H. exists (Z.to_nat x). split; [lia|]. apply in_seq. lia.
Qed.
Lemma zrange_length : forall n, length (zrange n) = Z.to_nat n.
Proof. intros. unfold zrange. now rewrite map_length, seq_length. Qed.
Lemma zrange_nodup : forall n, NoDup (zrange n).
Proof.
  intros. unfold zrange. apply FinFun.Injective_map_NoDup; [|apply seq_NoDup]. intros x y. lia.
Qed.
Lemma zrange_nonpos : forall n, n <= 0 -> zrange n = [].
Proof. intros n H. unfold zrange. replace (Z.to_nat n) with O by lia. reflexivity. Qed.
Lemma zrange_add : forall a b, 0 <= a -> 0 <= b -> zrange (a + b) = zrange a ++ map (fun x => a + x) (zrange b).
Proof.
  intros a b Ha Hb. unfold zrange. rewrite Z2Nat.inj_add by auto. rewrite seq_app, map_app. f_equal.
  cbn [plus]. rewrite map_map.
  replace (Z.to_nat a) with (0 + Z.to_nat a)%nat at 1 by lia.
  assert (G: forall n s k, map Z.of_nat (seq (s + k) n) = map (fun x => Z.of_nat k + Z.of_nat x) (seq s n)).
  { induction n; intros; cbn [seq map]; [reflexivity|]. f_equal; [lia|]. apply (IHn (S s) k). }
  rewrite (G (Z.to_nat b) O (Z.to_nat a)). rewrite Z2Nat.id by auto. reflexivity.
Qed.
Lemma zrange_0 : zrange 0 = []. Proof. reflexivity. Qed.
Lemma zrange_1 : zrange 1 = [0]. Proof. reflexivity. Qed.
Lemma zrange_succ : forall n, 0 <= n -> zrange (n + 1) = zrange n ++ [n].
Proof. intros. rewrite zrange_add by lia. f_equal. rewrite zrange_1. cbn [map]. f_equal. lia. Qed.
Lemma zrange_cons : forall n, 0 <= n -> zrange (n + 1) = 0 :: map (fun x => 1 + x) (zrange n).
Proof. intros. rewrite Z.add_comm. rewrite zrange_add by lia. reflexivity. Qed.

(** ** shapes *)
Definition prodZ (l : list Z) : Z := fold_right Z.mul 1 l.
Lemma prodZ_app : forall a b, prodZ (a ++ b) = prodZ a * prodZ b.
Proof. unfold prodZ. induction a; intros; cbn [app fold_right]; [lia|]. rewrite IHa. lia. Qed.
Lemma prodZ_nonneg : forall l, Forall (fun x => 0 <= x) l -> 0 <= prodZ l.
Proof. unfold prodZ. induction 1; cbn [fold_right]; nia. Qed.
Lemma prodZ_pos : forall l, Forall (fun x => 0 < x) l -> 0 < prodZ l.
Proof. unfold prodZ. induction 1; cbn [fold_right]; nia. Qed.

(* multi-index inside a shape *)
Definition in_shape (sh xs : list Z) : Prop := Forall2 (fun s x => 0 <= x < s) sh xs.

(* row-major linear index *)
Fixpoint ravel (sh xs : list Z) : Z :=
  match sh, xs with
  | _ :: sh', x :: xs' => x * prodZ sh' + ravel sh' xs'
  | _, _ => 0
  end.
Fixpoint unravel (sh : list Z) (i : Z) : list Z :=
  match sh with
  | [] => []
  | _ :: sh' => i / prodZ sh' :: unravel sh' (i mod prodZ sh')
  end.
(* all multi-indices in row-major order *)
Fixpoint all_idx (sh : list Z) : list (list Z) :=
  match sh with
  | [] => [[]]
  | s :: sh' => flat_map (fun x => map (cons x) (all_idx sh')) (zrange s)
  end.

Lemma in_shape_pos : forall sh xs, in_shape sh xs -> 0 < prodZ sh.
Proof.
  induction 1; cbn; [lia|]. unfold prodZ in IHForall2. nia.
Qed.
Lemma in_shape_length : forall sh xs, in_shape sh xs -> length xs = length sh.
Proof. induction 1; cbn; auto. Qed.

Lemma ravel_range : forall sh xs, in_shape sh xs -> 0 <= ravel sh xs < prodZ sh.
Proof.
  induction 1; cbn [ravel prodZ fold_right]; [lia|]. fold (prodZ l).
  pose proof (in_shape_pos _ _ H0). nia.
Qed.
Lemma unravel_ravel : forall sh xs, in_shape sh xs -> unravel sh (ravel sh xs) = xs.
Proof.
  induction 1; cbn [ravel unravel]; [reflexivity|].
  pose proof (ravel_range _ _ H0). pose proof (in_shape_pos _ _ H0).
  replace ((y * prodZ l + ravel l l') / prodZ l) with y
    by (symmetry; rewrite Z.add_comm, Z.div_add by lia; rewrite Z.div_small by lia; lia).
  replace ((y * prodZ l + ravel l l') mod prodZ l) with (ravel l l')
    by (symmetry; rewrite Z.add_comm, Z.mod_add by lia; apply Z.mod_small; lia).
  now rewrite IHForall2.
Qed.
Lemma unravel_in_shape : forall sh i, 0 <= i < prodZ sh -> Forall (fun s => 0 <= s) sh -> in_shape sh (unravel sh i).
Proof.
  induction sh as [|s sh IH]; intros i Hi Hs; cbn [unravel]; [constructor|].
  inversion Hs; subst. cbn in Hi. fold (prodZ sh) in Hi. pose proof (prodZ_nonneg _ H2).
  assert (0 < prodZ sh) by nia. constructor.
  - split; [apply Z.div_pos; lia|]. apply Z.div_lt_upper_bound; nia.
  - apply IH; auto. apply Z.mod_pos_bound. lia.
Qed.
Lemma ravel_unravel : forall sh i, 0 <= i < prodZ sh -> Forall (fun s => 0 <= s) sh -> ravel sh (unravel sh i) = i.
Proof.
  induction sh as [|s sh IH]; intros i Hi Hs; cbn [unravel ravel].
  - cbn in Hi. lia.
  - inversion Hs; subst. cbn in Hi. fold (prodZ sh) in Hi. pose proof (prodZ_nonneg _ H2).
    assert (0 < prodZ sh) by nia. rewrite IH; auto; [|apply Z.mod_pos_bound; lia].
    pose proof (Z.div_mod i (prodZ sh)). lia.
Qed.
Lemma ravel_inj : forall sh xs ys, in_shape sh xs -> in_shape sh ys -> ravel sh xs = ravel sh ys -> xs = ys.
Proof. intros sh xs ys Hx Hy E. rewrite <- (unravel_ravel _ _ Hx), <- (unravel_ravel _ _ Hy). congruence. Qed.

Lemma in_all_idx : forall sh xs, In xs (all_idx sh) <-> in_shape sh xs.
Proof.
  induction sh as [|s sh IH]; intros xs; cbn [all_idx].
  - split; [intros [<-|[]]; constructor|]. inversion 1. now left.
  - rewrite in_flat_map. split.
    + intros (x & Hx & Hm). apply in_map_iff in Hm. destruct Hm as (ys & <- & Hy).
      apply in_zrange in Hx. apply IH in Hy. constructor; auto.
    + inversion 1; subst. exists y. split; [now apply in_zrange|]. apply in_map. now apply IH.
Qed.
Lemma all_idx_ravel : forall sh, Forall (fun s => 0 <= s) sh -> map (ravel sh) (all_idx sh) = zrange (prodZ sh).
Proof.
  induction 1 as [|s sh Hs Hf IH]; [reflexivity|]. cbn [all_idx prodZ fold_right]. fold (prodZ sh).
  pose proof (prodZ_nonneg _ Hf) as Hp.
  assert (G: forall n, map (ravel (s :: sh)) (flat_map (fun x => map (cons x) (all_idx sh)) (zrange (Z.of_nat n)))
                       = zrange (Z.of_nat n * prodZ sh)).
  { induction n.
    - reflexivity.
    - rewrite Nat2Z.inj_succ, <- Z.add_1_r, zrange_succ by lia.
      rewrite flat_map_app, map_app, IHn. cbn [flat_map]. rewrite app_nil_r, map_map. cbn [ravel].
      rewrite Z.mul_add_distr_r, Z.mul_1_l, zrange_add by nia. f_equal.
      rewrite <- IH, map_map. reflexivity. }
  specialize (G (Z.to_nat s)). rewrite Z2Nat.id in G by auto. exact G.
Qed.
Lemma all_idx_nodup : forall sh, Forall (fun s => 0 <= s) sh -> NoDup (all_idx sh).
Proof.
  intros sh H. apply (NoDup_map_inv (ravel sh)). rewrite all_idx_ravel by auto. apply zrange_nodup.
Qed.
Lemma in_shape_app : forall a b xs ys, in_shape a xs -> in_shape b ys -> in_shape (a ++ b) (xs ++ ys).
Proof. intros. now apply Forall2_app. Qed.
Lemma ravel_app : forall a b xs ys, in_shape a xs -> ravel (a ++ b) (xs ++ ys) = ravel a xs * prodZ b + ravel b ys.
Proof.
  induction 1; cbn [app ravel]; [lia|]. rewrite IHForall2, prodZ_app. lia.
Qed.

(** ** stable sort by key with a strict order (Python: list.sort(key=f) only uses <) *)
Section Sort.
Context {A K : Type}.
Variable ltb : K -> K -> bool.
Variable f : A -> K.

Fixpoint insert_by (x : A) (l : list A) : list A :=
  match l with
  | [] => [x]
  | y :: l' => if ltb (f y) (f x) then y :: insert_by x l' else x :: y :: l'
  end.
Definition sort_by (l : list A) : list A := fold_right insert_by [] l.

Lemma insert_perm : forall x l, Permutation (x :: l) (insert_by x l).
Proof.
  induction l; cbn; [auto|]. destruct (ltb (f a) (f x)); [|auto].
  rewrite perm_swap. now constructor.
Qed.
Lemma sort_perm : forall l, Permutation l (sort_by l).
Proof. induction l; cbn; [constructor|]. rewrite <- insert_perm. now constructor. Qed.

Hypothesis ltb_irrefl : forall a, ltb a a = false.
Hypothesis ltb_trans : forall a b c, ltb a b = true -> ltb b c = true -> ltb a c = true.
Hypothesis ltb_total : forall a b, a <> b -> ltb a b = true \/ ltb b a = true.

Definition le_key (a b : A) : Prop := f a = f b \/ ltb (f a) (f b) = true.
Lemma le_key_trans : forall a b c, le_key a b -> le_key b c -> le_key a c.
Proof.
  unfold le_key. intros a b c [H|H] [H'|H']; [left; congruence|right; congruence|right; congruence|right; eauto].
Qed.
Lemma not_lt_le : forall a b, ltb (f b) (f a) = false -> (forall x y : K, {x = y} + {x <> y}) -> le_key a b.
Proof.
  intros a b H D. destruct (D (f a) (f b)); [now left|]. right.
  destruct (ltb_total _ _ n); congruence.
Qed.

Hypothesis Keq : forall x y : K, {x = y} + {x <> y}.
Lemma insert_sorted : forall x l, StronglySorted le_key l -> StronglySorted le_key (insert_by x l).
Proof.
  induction l as [|y l IH]; intros H; cbn; [repeat constructor|].
  inversion H; subst. destruct (ltb (f y) (f x)) eqn:E.
  - constructor; auto. apply Forall_forall. intros z Hz.
    apply (Permutation_in _ (Permutation_sym (insert_perm x l))) in Hz. destruct Hz as [<-|Hz].
    + now right.
    + rewrite Forall_forall in H3. auto.
  - constructor; [constructor; auto|]. pose proof (not_lt_le x y E Keq) as Hle. constructor; auto.
    apply Forall_forall. intros z Hz. rewrite Forall_forall in H3. eapply le_key_trans; eauto.
Qed.
Lemma sort_sorted : forall l, StronglySorted le_key (sort_by l).
Proof. induction l; cbn; [constructor|]. now apply insert_sorted. Qed.
End Sort.

(* lists strictly sorted by key are determined by their elements *)
Lemma strict_sorted_unique : forall (A : Type) (R : A -> A -> Prop),
  (forall a, ~ R a a) -> (forall a b c, R a b -> R b c -> R a c) ->
  forall l l', StronglySorted R l -> StronglySorted R l' -> (forall x, In x l <-> In x l') -> l = l'.
Proof.
  intros A R Ri Rt. induction l as [|a l IH]; intros l' Hs Hs' E.
  - destruct l' as [|b l']; [reflexivity|]. exfalso. apply (E b). now left.
  - destruct l' as [|b l']; [exfalso; apply (E a); now left|].
    inversion Hs; subst. inversion Hs'; subst. rewrite Forall_forall in H2, H4.
    assert (a = b).
    { destruct (proj1 (E a) (or_introl eq_refl)) as [|Ha]; [auto|].
      destruct (proj2 (E b) (or_introl eq_refl)) as [|Hb]; [auto|].
      exfalso. apply (Ri a). apply Rt with b; auto. }
    subst b. f_equal. apply IH; auto. intros x. split; intros Hx.
    + destruct (proj1 (E x) (or_intror Hx)) as [->|]; auto. exfalso. apply (Ri x). auto.
    + destruct (proj2 (E x) (or_intror Hx)) as [->|]; auto. exfalso. apply (Ri x). auto.
Qed.
