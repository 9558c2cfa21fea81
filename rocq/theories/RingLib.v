(** Commutative rings, finite sums, and numpy arrays as a shape with an index function.
    Array elements are exact elements of an arbitrary commutative ring in place of floating point numbers. *)
From Coq Require Import ZArith Bool List Lia Permutation Ring QArith Qcanon.
From Verif Require Import DictLib IndexLib.
Import ListNotations.
Open Scope Z_scope.

Record CRing := {
  rA :> Type;
  r0 : rA; r1 : rA;
  radd : rA -> rA -> rA; rmul : rA -> rA -> rA; rsub : rA -> rA -> rA; ropp : rA -> rA;
  rth : ring_theory r0 r1 radd rmul rsub ropp (@eq rA)
}.
Definition Z_ring : CRing := Build_CRing Z 0 1 Z.add Z.mul Z.sub Z.opp InitialRing.Zth.
Definition Qc_ring : CRing := Build_CRing Qc 0%Qc 1%Qc Qcplus Qcmult Qcminus Qcopp Qcrt.

Section Big.
Variable R : CRing.
Add Ring RR : (rth R).
Notation "0'" := (r0 R). Notation "1'" := (r1 R).
Infix "+'" := (radd R) (at level 50, left associativity).
Infix "*'" := (rmul R) (at level 40, left associativity).
Notation "-' a" := (ropp R a) (at level 35).

Definition bsum {X : Type} (l : list X) (f : X -> R) : R := fold_right (fun x a => f x +' a) 0' l.

Lemma bsum_cons : forall X (x : X) l f, bsum (x :: l) f = f x +' bsum l f.
Proof. reflexivity. Qed.
Lemma bsum_nil : forall X (f : X -> R), bsum [] f = 0'.
Proof. reflexivity. Qed.
Lemma bsum_app : forall X (a b : list X) f, bsum (a ++ b) f = bsum a f +' bsum b f.
Proof. induction a; intros; cbn [app]; rewrite ?bsum_cons, ?bsum_nil; [ring|]. rewrite IHa. ring. Qed.
Lemma bsum_ext : forall X (l : list X) f g, (forall x, In x l -> f x = g x) -> bsum l f = bsum l g.
Proof.
  induction l; intros f g H; [reflexivity|]. rewrite !bsum_cons. rewrite H by now left. f_equal. apply IHl. intros; apply H; now right.
Qed.
Lemma bsum_zero : forall X (l : list X) f, (forall x, In x l -> f x = 0') -> bsum l f = 0'.
Proof. induction l; intros f H; [reflexivity|]. rewrite bsum_cons, H by now left. rewrite IHl; [ring|]. intros; apply H; now right. Qed.
Lemma bsum_add : forall X (l : list X) f g, bsum l (fun x => f x +' g x) = bsum l f +' bsum l g.
Proof. induction l; intros; rewrite ?bsum_cons, ?bsum_nil; [ring|]. rewrite IHl. ring. Qed.
Lemma bsum_opp : forall X (l : list X) f, bsum l (fun x => -' f x) = -' bsum l f.
Proof. induction l; intros; rewrite ?bsum_cons, ?bsum_nil; [ring|]. rewrite IHl. ring. Qed.
Lemma bsum_mull : forall X (l : list X) c f, bsum l (fun x => c *' f x) = c *' bsum l f.
Proof. induction l; intros; rewrite ?bsum_cons, ?bsum_nil; [ring|]. rewrite IHl. ring. Qed.
Lemma bsum_mulr : forall X (l : list X) c f, bsum l (fun x => f x *' c) = bsum l f *' c.
Proof. induction l; intros; rewrite ?bsum_cons, ?bsum_nil; [ring|]. rewrite IHl. ring. Qed.
Lemma bsum_swap : forall X Y (a : list X) (b : list Y) f, bsum a (fun x => bsum b (f x)) = bsum b (fun y => bsum a (fun x => f x y)).
Proof.
  induction a as [|x a IH]; intros b f.
  - rewrite bsum_nil. symmetry. apply bsum_zero. reflexivity.
  - rewrite bsum_cons, IH, <- bsum_add. apply bsum_ext. reflexivity.
Qed.
Lemma bsum_map : forall X Y (g : X -> Y) l f, bsum (map g l) f = bsum l (fun x => f (g x)).
Proof. induction l; intros; [reflexivity|]. cbn [map]. rewrite !bsum_cons, IHl. reflexivity. Qed.
Lemma bsum_flat_map : forall X Y (g : X -> list Y) l f, bsum (flat_map g l) f = bsum l (fun x => bsum (g x) f).
Proof. induction l; intros; [reflexivity|]. cbn [flat_map]. rewrite bsum_app, bsum_cons, IHl. reflexivity. Qed.
Lemma bsum_filter : forall X (p : X -> bool) l f, bsum (filter p l) f = bsum l (fun x => if p x then f x else 0').
Proof. induction l; intros; [reflexivity|]. cbn [filter]. rewrite bsum_cons. destruct (p a); rewrite ?bsum_cons, IHl; ring. Qed.
Lemma bsum_perm : forall X (a b : list X) f, Permutation a b -> bsum a f = bsum b f.
Proof. induction 1; rewrite ?bsum_cons; try congruence. ring. Qed.
Lemma bsum_prod : forall X Y (a : list X) (b : list Y) f g, bsum a f *' bsum b g = bsum a (fun x => bsum b (fun y => f x *' g y)).
Proof.
  intros. rewrite <- bsum_mulr. apply bsum_ext. intros x _. now rewrite bsum_mull.
Qed.
(* a sum with at most one nonzero term *)
Lemma bsum_single : forall X (l : list X) f k, NoDup l -> In k l -> (forall x, In x l -> x <> k -> f x = 0') -> bsum l f = f k.
Proof.
  induction l as [|x l IH]; intros f k Hn Hk H; [destruct Hk|]. inversion Hn; subst. rewrite bsum_cons. destruct Hk as [->|Hk].
  - rewrite (bsum_zero _ l); [ring|]. intros y Hy. apply H; [now right|]. intro. subst. auto.
  - rewrite H; [|now left|intro; subst; auto]. rewrite (IH f k); auto; [ring|]. intros; apply H; auto. now right.
Qed.

(** *** numpy arrays *)
Record nd := mkNd { nshape : list Z; nval : list Z -> R }.

Fixpoint in_shapeb (sh xs : list Z) : bool :=
  match sh, xs with
  | [], [] => true
  | s :: sh', x :: xs' => (0 <=? x) && (x <? s) && in_shapeb sh' xs'
  | _, _ => false
  end.
Lemma in_shapeb_spec : forall sh xs, in_shapeb sh xs = true <-> in_shape sh xs.
Proof.
  induction sh as [|s sh IH]; intros [|x xs]; cbn; split; try discriminate; try (intro H; inversion H; fail); try constructor.
  - rewrite !andb_true_iff in H. lia.
  - rewrite !andb_true_iff in H. now apply IH.
  - inversion 1; subst. rewrite !andb_true_iff. repeat split; try lia. now apply IH.
Qed.
(* element at a multi-index, zero outside the array *)
Definition nget (a : nd) (xs : list Z) : R := if in_shapeb (nshape a) xs then nval a xs else 0'.

Lemma nget_in : forall a xs, in_shape (nshape a) xs -> nget a xs = nval a xs.
Proof. intros a xs H. unfold nget. apply in_shapeb_spec in H. now rewrite H. Qed.
Lemma nget_out : forall a xs, ~ in_shape (nshape a) xs -> nget a xs = 0'.
Proof. intros a xs H. unfold nget. destruct (in_shapeb (nshape a) xs) eqn:E; [|reflexivity]. apply in_shapeb_spec in E. tauto. Qed.

(* np.zeros, np.ones *)
Definition nd_zeros (sh : list Z) : nd := mkNd sh (fun _ => 0').
Definition nd_ones (sh : list Z) : nd := mkNd sh (fun _ => 1').
(* np.add / np.subtract of arrays of equal shape (broadcasting of different shapes is not modelled) *)
Definition nd_add (a b : nd) : nd := mkNd (nshape a) (fun xs => nval a xs +' nval b xs).
Definition nd_sub (a b : nd) : nd := mkNd (nshape a) (fun xs => rsub R (nval a xs) (nval b xs)).
Definition nd_neg (a : nd) : nd := mkNd (nshape a) (fun xs => -' nval a xs).
(* elementwise function, e.g. multiplication by a number *)
Definition nd_map (f : R -> R) (a : nd) : nd := mkNd (nshape a) (fun xs => f (nval a xs)).
(* sum of squares of all elements *)
Definition nd_sq (a : nd) : R := bsum (all_idx (nshape a)) (fun xs => nval a xs *' nval a xs).
End Big.
Arguments bsum {R X} l f.
Arguments mkNd {R}. Arguments nshape {R}. Arguments nval {R}. Arguments nget {R}.
Arguments nd_add {R}. Arguments nd_sub {R}. Arguments nd_neg {R}. Arguments nd_map {R}. Arguments nd_sq {R}.

(** *** choosing axes: (l[i] for i in idx) *)
Definition pick {A : Type} (d : A) (idx : list Z) (l : list A) : list A := map (fun i => nth (Z.to_nat i) l d) idx.
Fixpoint index_of (i : Z) (l : list Z) : option nat :=
  match l with [] => None | x :: r => if x =? i then Some O else option_map S (index_of i r) end.
(* range(n) without idx, ascending *)
Definition others (n : Z) (idx : list Z) : list Z := filter (fun i => negb (existsb (Z.eqb i) idx)) (zrange n).
(* the sequence of length n with the given entries at idx and at the other positions *)
Definition merge {A : Type} (d : A) (n : Z) (idx : list Z) (xc xo : list A) : list A :=
  map (fun i => match index_of i idx with
                | Some k => nth k xc d
                | None => match index_of i (others n idx) with Some k => nth k xo d | None => d end end) (zrange n).

Lemma index_of_none : forall i l, index_of i l = None <-> ~ In i l.
Proof.
  induction l as [|x l IH]; cbn; [tauto|]. destruct (Z.eqb_spec x i) as [->|N].
  - split; [discriminate|tauto].
  - destruct (index_of i l); cbn; split; try discriminate; intuition; try congruence.
Qed.
Lemma index_of_some : forall i l k, index_of i l = Some k -> (k < length l)%nat /\ nth k l 0 = i.
Proof.
  induction l as [|x l IH]; intros k; cbn; [discriminate|]. destruct (Z.eqb_spec x i) as [->|N].
  - intros [= <-]. split; [lia|reflexivity].
  - destruct (index_of i l) as [j|]; cbn; [|discriminate]. intros [= <-]. destruct (IH j eq_refl). split; [lia|auto].
Qed.
Lemma index_of_nth : forall l k, NoDup l -> (k < length l)%nat -> index_of (nth k l 0) l = Some k.
Proof.
  induction l as [|x l IH]; intros k Hn Hk; cbn in Hk; [lia|]. inversion Hn; subst. destruct k; cbn [nth index_of].
  - now rewrite Z.eqb_refl.
  - destruct (Z.eqb_spec x (nth k l 0)) as [E|E].
    + exfalso. apply H1. rewrite E. apply nth_In. lia.
    + rewrite IH by (auto; lia). reflexivity.
Qed.
Lemma in_others : forall n idx i, In i (others n idx) <-> 0 <= i < n /\ ~ In i idx.
Proof.
  intros. unfold others. rewrite filter_In, in_zrange, negb_true_iff.
  assert (H: existsb (Z.eqb i) idx = true <-> In i idx).
  { rewrite existsb_exists. split; [intros (y & Hy & E); apply Z.eqb_eq in E; now subst|intros; exists i; split; auto; apply Z.eqb_refl]. }
  destruct (existsb (Z.eqb i) idx); intuition congruence.
Qed.
Lemma others_nodup : forall n idx, NoDup (others n idx).
Proof. intros. apply NoDup_filter, zrange_nodup. Qed.
Lemma pick_length : forall A (d : A) idx l, length (pick d idx l) = length idx.
Proof. intros. unfold pick. apply map_length. Qed.
Lemma merge_length : forall A (d : A) n idx xc xo, length (merge d n idx xc xo) = Z.to_nat n.
Proof. intros. unfold merge. now rewrite map_length, zrange_length. Qed.
Lemma nth_zrange_map : forall A (d : A) n (f : Z -> A) i, 0 <= i < n -> nth (Z.to_nat i) (map f (zrange n)) d = f i.
Proof.
  intros A d n f i Hi. unfold zrange. rewrite map_map. rewrite (nth_indep _ d (f (Z.of_nat 0))) by (rewrite map_length, seq_length; lia).
  rewrite (map_nth (fun x => f (Z.of_nat x))). rewrite seq_nth by lia. f_equal. lia.
Qed.

Section Axes.
Context {A : Type}.
Variable d : A.
Variable n : Z.
Variable idx : list Z.
Hypothesis Hn : NoDup idx.
Hypothesis Hi : forall i, In i idx -> 0 <= i < n.

Lemma merge_pick : forall l, Z.of_nat (length l) = n -> merge d n idx (pick d idx l) (pick d (others n idx) l) = l.
Proof.
  intros l Hl. apply nth_ext with (d := d) (d' := d).
  - rewrite merge_length. lia.
  - intros k Hk. rewrite merge_length in Hk. unfold merge. rewrite <- (Nat2Z.id k) at 1. rewrite nth_zrange_map by lia.
    destruct (index_of (Z.of_nat k) idx) as [j|] eqn:E.
    + destruct (index_of_some _ _ _ E) as [Hj Ej]. unfold pick. rewrite (nth_indep _ d (nth (Z.to_nat 0) l d)) by now rewrite map_length.
      rewrite (map_nth (fun i => nth (Z.to_nat i) l d)). rewrite Ej, Nat2Z.id. reflexivity.
    + apply index_of_none in E. destruct (index_of (Z.of_nat k) (others n idx)) as [j|] eqn:E2.
      * destruct (index_of_some _ _ _ E2) as [Hj Ej]. unfold pick. rewrite (nth_indep _ d (nth (Z.to_nat 0) l d)) by now rewrite map_length.
        rewrite (map_nth (fun i => nth (Z.to_nat i) l d)). rewrite Ej, Nat2Z.id. reflexivity.
      * apply index_of_none in E2. exfalso. apply E2. apply in_others. split; [lia|auto].
Qed.
Lemma pick_merge_c : forall xc xo, length xc = length idx -> pick d idx (merge d n idx xc xo) = xc.
Proof.
  intros xc xo Hl. apply nth_ext with (d := d) (d' := d).
  - now rewrite pick_length.
  - intros k Hk. rewrite pick_length in Hk. unfold pick. rewrite (nth_indep _ d (nth (Z.to_nat 0) (merge d n idx xc xo) d)) by now rewrite map_length.
    rewrite (map_nth (fun i => nth (Z.to_nat i) (merge d n idx xc xo) d)). unfold merge.
    rewrite nth_zrange_map by (apply Hi; now apply nth_In). rewrite index_of_nth by auto. reflexivity.
Qed.
Lemma pick_merge_o : forall xc xo, length xo = length (others n idx) -> pick d (others n idx) (merge d n idx xc xo) = xo.
Proof.
  intros xc xo Hl. apply nth_ext with (d := d) (d' := d).
  - now rewrite pick_length.
  - intros k Hk. rewrite pick_length in Hk. unfold pick.
    rewrite (nth_indep _ d (nth (Z.to_nat 0) (merge d n idx xc xo) d)) by now rewrite map_length.
    rewrite (map_nth (fun i => nth (Z.to_nat i) (merge d n idx xc xo) d)). unfold merge.
    assert (Io: In (nth k (others n idx) 0) (others n idx)) by now apply nth_In.
    pose proof Io as Io'. apply in_others in Io'. rewrite nth_zrange_map by tauto.
    rewrite (proj2 (index_of_none _ _)) by tauto. rewrite index_of_nth by (auto; apply others_nodup). reflexivity.
Qed.
Lemma merge_inj : forall xc xo xc' xo', length xc = length idx -> length xc' = length idx ->
  length xo = length (others n idx) -> length xo' = length (others n idx) ->
  merge d n idx xc xo = merge d n idx xc' xo' -> xc = xc' /\ xo = xo'.
Proof.
  intros xc xo xc' xo' A1 A2 A3 A4 E. split.
  - rewrite <- (pick_merge_c xc xo A1), <- (pick_merge_c xc' xo' A2). now rewrite E.
  - rewrite <- (pick_merge_o xc xo A3), <- (pick_merge_o xc' xo' A4). now rewrite E.
Qed.
Lemma merge_eq_iff : forall l xc xo, Z.of_nat (length l) = n -> length xc = length idx -> length xo = length (others n idx) ->
  (l = merge d n idx xc xo <-> pick d idx l = xc /\ pick d (others n idx) l = xo).
Proof.
  intros l xc xo Hl H1 H2. split.
  - intros ->. split; [now apply pick_merge_c|now apply pick_merge_o].
  - intros [<- <-]. symmetry. now apply merge_pick.
Qed.
End Axes.

(* shapes *)
Lemma in_shape_nth : forall sh xs, in_shape sh xs <-> length xs = length sh /\ forall k, (k < length sh)%nat -> 0 <= nth k xs 0 < nth k sh 0.
Proof.
  induction sh as [|s sh IH]; intros [|x xs]; cbn.
  - split; [split; [auto|intros; lia]|constructor].
  - split; [intro H; inversion H|intros [H _]; discriminate].
  - split; [intro H; inversion H|intros [H _]; discriminate].
  - split.
    + intro H; inversion H; subst. apply IH in H5. destruct H5 as [El Hk]. split; [lia|]. intros [|k] Hk'; [auto|]. apply Hk. lia.
    + intros [El Hk]. constructor; [apply (Hk O); lia|]. apply IH. split; [lia|]. intros k Hk'. apply (Hk (S k)). lia.
Qed.
Lemma in_shape_pick : forall sh xs idx, in_shape sh xs -> (forall i, In i idx -> 0 <= i < Z.of_nat (length sh)) -> in_shape (pick 0 idx sh) (pick 0 idx xs).
Proof.
  intros sh xs idx H Hi. apply in_shape_nth in H. destruct H as [El Hk]. induction idx as [|i idx IH]; [constructor|].
  cbn. constructor; [|apply IH; intros; apply Hi; now right]. specialize (Hi i (or_introl eq_refl)). apply Hk. lia.
Qed.
Lemma in_shape_merge : forall n idx sh xc xo, NoDup idx -> (forall i, In i idx -> 0 <= i < n) -> Z.of_nat (length sh) = n ->
  in_shape (pick 0 idx sh) xc -> in_shape (pick 0 (others n idx) sh) xo -> in_shape sh (merge 0 n idx xc xo).
Proof.
  intros n idx sh xc xo Hn Hi Hl Hc Ho. apply in_shape_nth. rewrite merge_length. split; [lia|]. intros k Hk.
  apply in_shape_nth in Hc, Ho. destruct Hc as [Lc Hc], Ho as [Lo Ho]. rewrite pick_length in Lc, Lo, Hc, Ho.
  unfold merge. rewrite <- (Nat2Z.id k) at 1 2. rewrite nth_zrange_map by lia.
  destruct (index_of (Z.of_nat k) idx) as [j|] eqn:E.
  - destruct (index_of_some _ _ _ E) as [Hj Ej]. specialize (Hc j Hj). unfold pick in Hc.
    rewrite (nth_indep (map _ idx) 0 (nth (Z.to_nat 0) sh 0)) in Hc by now rewrite map_length.
    rewrite (map_nth (fun i => nth (Z.to_nat i) sh 0)) in Hc. rewrite Ej, Nat2Z.id in Hc. exact Hc.
  - apply index_of_none in E. destruct (index_of (Z.of_nat k) (others n idx)) as [j|] eqn:E2.
    + destruct (index_of_some _ _ _ E2) as [Hj Ej]. specialize (Ho j Hj). unfold pick in Ho.
      rewrite (nth_indep (map _ (others n idx)) 0 (nth (Z.to_nat 0) sh 0)) in Ho by now rewrite map_length.
      rewrite (map_nth (fun i => nth (Z.to_nat i) sh 0)) in Ho. rewrite Ej, Nat2Z.id in Ho. exact Ho.
    + apply index_of_none in E2. exfalso. apply E2. apply in_others. split; [lia|auto].
Qed.
Lemma in_shape_merge_iff : forall n idx sh xc xo, NoDup idx -> (forall i, In i idx -> 0 <= i < n) -> Z.of_nat (length sh) = n ->
  length xc = length idx -> length xo = length (others n idx) ->
  (in_shape sh (merge 0 n idx xc xo) <-> in_shape (pick 0 idx sh) xc /\ in_shape (pick 0 (others n idx) sh) xo).
Proof.
  intros n idx sh xc xo Hn Hi Hl Lc Lo. split.
  - intro H. split.
    + rewrite <- (pick_merge_c 0 n idx Hn Hi xc xo Lc). apply in_shape_pick; auto. intros i Hx. specialize (Hi i Hx). lia.
    + rewrite <- (pick_merge_o 0 n idx xc xo Lo). apply in_shape_pick; auto. intros i Hx. apply in_others in Hx. lia.
  - intros [A B]. now apply in_shape_merge.
Qed.
Lemma in_shape_app_iff : forall a b xs, in_shape (a ++ b) xs <-> exists ys zs, xs = ys ++ zs /\ in_shape a ys /\ in_shape b zs.
Proof.
  intros. split.
  - intro H. apply Forall2_app_inv_l in H. destruct H as (ys & zs & A & B & ->). exists ys, zs. auto.
  - intros (ys & zs & -> & A & B). now apply in_shape_app.
Qed.
Lemma in_shape_app_split : forall a b xs ys, length xs = length a -> (in_shape (a ++ b) (xs ++ ys) <-> in_shape a xs /\ in_shape b ys).
Proof.
  induction a as [|s a IH]; intros b [|x xs] ys Hl; cbn in Hl; try lia; cbn [app].
  - split; [intros; split; [constructor|auto]|tauto].
  - split.
    + intro H; inversion H; subst. apply IH in H5; [|lia]. split; [constructor|]; tauto.
    + intros [H1 H2]. inversion H1; subst. constructor; auto. apply IH; [lia|auto].
Qed.
