(** Splitting of a two-body Hamiltonian over two groups of modes, for any functional on words of creation and
    annihilation operators that changes sign when two neighbouring letters (not a conjugate pair) are exchanged. *)
From Coq Require Import ZArith Bool List Lia Ring.
From Verif Require Import RingLib.
Import ListNotations.
Open Scope Z_scope.

Section Alg.
Variable R : CRing.
Add Ring RR : (rth R).
Notation "0'" := (r0 R). Notation "1'" := (r1 R).
Infix "+'" := (radd R) (at level 50, left associativity).
Infix "*'" := (rmul R) (at level 40, left associativity).
Notation "-' a" := (ropp R a) (at level 35).

Definition mode := (Z * Z)%type.
Definition letter := (bool * mode)%type.
Definition cr (x : mode) : letter := (false, x).
Definition an (x : mode) : letter := (true, x).
Definition conj (a b : letter) : Prop := snd a = snd b /\ fst a <> fst b.
Definition functional := list letter -> R.
Definition car (f : functional) : Prop := forall w1 a b w2, ~ conj a b -> f (w1 ++ a :: b :: w2) = -' f (w1 ++ b :: a :: w2).

Lemma car_l : forall f w, car f -> car (fun u => f (w ++ u)).
Proof. intros f w H w1 a b w2 N. rewrite !app_assoc. now apply H. Qed.
Lemma car_cons : forall f a, car f -> car (fun u => f (a :: u)).
Proof. intros f a H. exact (car_l f [a] H). Qed.
Lemma car_r : forall f w, car f -> car (fun u => f (u ++ w)).
Proof. intros f w H w1 a b w2 N. rewrite <- !app_assoc. cbn [app]. now apply H. Qed.
Lemma conj_no_c : forall x y, ~ conj (cr x) (cr y).
Proof. intros x y [_ H]. now apply H. Qed.
Lemma conj_no_d : forall x y, ~ conj (an x) (an y).
Proof. intros x y [_ H]. now apply H. Qed.
Lemma conj_neq : forall a b, snd a <> snd b -> ~ conj a b.
Proof. intros a b H [E _]. contradiction. Qed.
(* exchange at a given position *)
Lemma car0 : forall f a b w, car f -> ~ conj a b -> f (a :: b :: w) = -' f (b :: a :: w).
Proof. intros f a b w H N. exact (H [] a b w N). Qed.
Lemma car1 : forall f z a b w, car f -> ~ conj a b -> f (z :: a :: b :: w) = -' f (z :: b :: a :: w).
Proof. intros f z a b w H N. exact (H [z] a b w N). Qed.
Lemma car2 : forall f y z a b w, car f -> ~ conj a b -> f (y :: z :: a :: b :: w) = -' f (y :: z :: b :: a :: w).
Proof. intros f y z a b w H N. exact (H [y; z] a b w N). Qed.

Definition ssum3 {A B C : Type} (a : list A) (b : list B) (c : list C) (f : A -> B -> C -> R) : R :=
  bsum a (fun x => bsum b (fun y => bsum c (fun z => f x y z))).
Definition ssum4 {A B C D : Type} (a : list A) (b : list B) (c : list C) (d : list D) (f : A -> B -> C -> D -> R) : R :=
  bsum a (fun x => ssum3 b c d (f x)).
Lemma s3_ext : forall A B C (a : list A) (b : list B) (c : list C) f g,
  (forall x y z, In x a -> In y b -> In z c -> f x y z = g x y z) -> ssum3 a b c f = ssum3 a b c g.
Proof. intros. unfold ssum3. apply bsum_ext; intros. apply bsum_ext; intros. apply bsum_ext; intros. auto. Qed.
Lemma s4_ext : forall A B C D (a : list A) (b : list B) (c : list C) (d : list D) f g,
  (forall x y z w, In x a -> In y b -> In z c -> In w d -> f x y z w = g x y z w) -> ssum4 a b c d f = ssum4 a b c d g.
Proof. intros. unfold ssum4. apply bsum_ext; intros. apply s3_ext; intros. auto. Qed.
Lemma s3_mull : forall A B C (a : list A) (b : list B) (c : list C) k f,
  ssum3 a b c (fun x y z => k *' f x y z) = k *' ssum3 a b c f.
Proof.
  intros. unfold ssum3. rewrite <- bsum_mull. apply bsum_ext; intros. rewrite <- bsum_mull. apply bsum_ext; intros.
  now rewrite <- bsum_mull.
Qed.
Lemma s4_mull : forall A B C D (a : list A) (b : list B) (c : list C) (d : list D) k f,
  ssum4 a b c d (fun x y z w => k *' f x y z w) = k *' ssum4 a b c d f.
Proof. intros. unfold ssum4. rewrite <- bsum_mull. apply bsum_ext; intros. apply s3_mull. Qed.
Lemma s3_opp : forall A B C (a : list A) (b : list B) (c : list C) f,
  ssum3 a b c (fun x y z => -' f x y z) = -' ssum3 a b c f.
Proof.
  intros. unfold ssum3. rewrite <- bsum_opp. apply bsum_ext; intros. rewrite <- bsum_opp. apply bsum_ext; intros.
  now rewrite <- bsum_opp.
Qed.
Lemma s4_opp : forall A B C D (a : list A) (b : list B) (c : list C) (d : list D) f,
  ssum4 a b c d (fun x y z w => -' f x y z w) = -' ssum4 a b c d f.
Proof. intros. unfold ssum4. rewrite <- bsum_opp. apply bsum_ext; intros. apply s3_opp. Qed.
Lemma s3_sw12 : forall A B C (a : list A) (b : list B) (c : list C) f,
  ssum3 a b c f = ssum3 b a c (fun y x z => f x y z).
Proof. intros. unfold ssum3. apply bsum_swap. Qed.
Lemma s3_sw23 : forall A B C (a : list A) (b : list B) (c : list C) f,
  ssum3 a b c f = ssum3 a c b (fun x z y => f x y z).
Proof. intros. unfold ssum3. apply bsum_ext; intros. apply bsum_swap. Qed.
Lemma s4_sw12 : forall A B C D (a : list A) (b : list B) (c : list C) (d : list D) f,
  ssum4 a b c d f = ssum4 b a c d (fun y x z w => f x y z w).
Proof. intros. unfold ssum4, ssum3. rewrite bsum_swap. reflexivity. Qed.
Lemma s4_sw23 : forall A B C D (a : list A) (b : list B) (c : list C) (d : list D) f,
  ssum4 a b c d f = ssum4 a c b d (fun x z y w => f x y z w).
Proof. intros. unfold ssum4. apply bsum_ext; intros. apply s3_sw12. Qed.
Lemma s4_sw34 : forall A B C D (a : list A) (b : list B) (c : list C) (d : list D) f,
  ssum4 a b c d f = ssum4 a b d c (fun x y w z => f x y z w).
Proof. intros. unfold ssum4. apply bsum_ext; intros. apply s3_sw23. Qed.
Lemma s3_app : forall A (s u : list A) f,
  ssum3 (s ++ u) (s ++ u) (s ++ u) f =
    ssum3 s s s f +' ssum3 s s u f +' ssum3 s u s f +' ssum3 s u u f +'
    ssum3 u s s f +' ssum3 u s u f +' ssum3 u u s f +' ssum3 u u u f.
Proof.
  intros A s u f. unfold ssum3.
  assert (E : forall x, bsum (s ++ u) (fun y => bsum (s ++ u) (fun z => f x y z)) =
     bsum s (fun y => bsum s (fun z => f x y z)) +' bsum s (fun y => bsum u (fun z => f x y z)) +'
     (bsum u (fun y => bsum s (fun z => f x y z)) +' bsum u (fun y => bsum u (fun z => f x y z)))).
  { intros x. rewrite bsum_app. f_equal; rewrite <- bsum_add; apply bsum_ext; intros; apply bsum_app. }
  rewrite (bsum_ext R _ _ _ _ (fun x _ => E x)). rewrite bsum_app, !bsum_add. ring.
Qed.
Lemma s4_app : forall A (s u : list A) f,
  ssum4 (s ++ u) (s ++ u) (s ++ u) (s ++ u) f =
    ssum4 s s s s f +' ssum4 s s s u f +' ssum4 s s u s f +' ssum4 s s u u f +'
    ssum4 s u s s f +' ssum4 s u s u f +' ssum4 s u u s f +' ssum4 s u u u f +'
    ssum4 u s s s f +' ssum4 u s s u f +' ssum4 u s u s f +' ssum4 u s u u f +'
    ssum4 u u s s f +' ssum4 u u s u f +' ssum4 u u u s f +' ssum4 u u u u f.
Proof.
  intros A s u f. unfold ssum4. rewrite (bsum_ext R _ _ _ _ (fun x _ => s3_app A s u (f x))).
  rewrite bsum_app, !bsum_add. ring.
Qed.

Variable half : R.
Hypothesis half2 : half +' half = 1'.
Variable T : mode -> mode -> R.
Variable V : mode -> mode -> mode -> mode -> R.
Hypothesis T_sym : forall x y, T x y = T y x.
Hypothesis V_xy : forall x y z w, V x y z w = V y x z w.
Hypothesis V_zw : forall x y z w, V x y z w = V x y w z.
Hypothesis V_pair : forall x y z w, V x y z w = V z w x y.

Definition Hs (M : list mode) (f : functional) : R :=
  bsum M (fun x => bsum M (fun y => T x y *' f [cr x; an y])) +'
  half *' ssum4 M M M M (fun x y z w => V x y z w *' f [cr x; cr z; an w; an y]).
Definition Rs (x : mode) (M : list mode) (f : functional) : R :=
  half *' bsum M (fun y => T x y *' f [an y]) +' ssum3 M M M (fun y z w => V x y z w *' f [cr z; an w; an y]).
Definition RDs (x : mode) (M : list mode) (f : functional) : R :=
  half *' bsum M (fun y => T x y *' f [cr y]) +' ssum3 M M M (fun y z w => V x y z w *' f [cr y; cr w; an z]).
Definition Ps (x z : mode) (M : list mode) (f : functional) : R :=
  bsum M (fun y => bsum M (fun w => V x y z w *' f [an w; an y])).
Definition PDs (x z : mode) (M : list mode) (f : functional) : R :=
  bsum M (fun y => bsum M (fun w => V x y z w *' f [cr y; cr w])).
Definition Qs (x y : mode) (M : list mode) (f : functional) : R :=
  bsum M (fun z => bsum M (fun w => V x y z w *' f [cr z; an w])) +'
  -' bsum M (fun z => bsum M (fun w => V x w z y *' f [cr z; an w])).

Lemma car_same : forall f a w1 w2, car f -> f (w1 ++ a :: a :: w2) = 0'.
Proof.
  intros f a w1 w2 H. assert (E := H w1 a a w2). assert (N : ~ conj a a) by (intros [_ X]; now apply X). specialize (E N).
  transitivity ((half +' half) *' f (w1 ++ a :: a :: w2)); [rewrite half2; ring|].
  transitivity (half *' (f (w1 ++ a :: a :: w2) +' f (w1 ++ a :: a :: w2))); [ring|]. rewrite E at 2. ring.
Qed.

Section Split.
Variable s u : list mode.
Hypothesis disj : forall x y, In x s -> In y u -> x <> y.
Lemma no_conj1 : forall a b x y, In x s -> In y u -> ~ conj (a, x) (b, y).
Proof. intros a b x y X Y. apply conj_neq. cbn. now apply disj. Qed.
Lemma no_conj2 : forall a b x y, In x s -> In y u -> ~ conj (a, y) (b, x).
Proof. intros a b x y X Y. apply conj_neq. cbn. intros E. symmetry in E. revert E. now apply disj. Qed.

Ltac nc := first [apply conj_no_c | apply conj_no_d | apply no_conj1; assumption | apply no_conj2; assumption].

Theorem RD_split : forall x f, car f ->
  RDs x (s ++ u) f = RDs x s f +' RDs x u f +'
    bsum s (fun z => PDs x z u (fun w => f (an z :: w))) +'
    bsum s (fun y => Qs y x u (fun w => f (cr y :: w))) +'
    ssum3 s u s (fun y z w => V x y z w *' f [cr y; cr w; an z]) +'
    ssum3 u s s (fun y z w => V x y z w *' f [cr w; an z; cr y]) +'
    -' ssum3 s s u (fun y z w => V x y z w *' f [cr y; an z; cr w]).
Proof.
  intros x f F. unfold RDs. rewrite s3_app, bsum_app. set (g := fun y z w => V x y z w *' f [cr y; cr w; an z]).
  assert (E1 : ssum3 u s u g = bsum s (fun z => PDs x z u (fun w => f (an z :: w)))).
  { rewrite s3_sw12. unfold ssum3, PDs. apply bsum_ext; intros z Z. apply bsum_ext; intros y Y. apply bsum_ext; intros w W.
    unfold g. rewrite (car1 f) by (auto; nc). rewrite (car0 f) by (auto; nc). ring. }
  assert (E2 : bsum s (fun y => Qs y x u (fun w => f (cr y :: w))) = ssum3 s u u g +' ssum3 u u s g).
  { unfold Qs. rewrite bsum_add, bsum_opp. f_equal.
    - rewrite s3_sw23. unfold ssum3. apply bsum_ext; intros y Y. apply bsum_ext; intros w W. apply bsum_ext; intros z Z.
      unfold g. rewrite (V_xy y x), (V_zw x y). ring.
    - rewrite s3_sw23, s3_sw12. unfold ssum3. rewrite <- bsum_opp.
      apply bsum_ext; intros w W. rewrite <- bsum_opp. apply bsum_ext; intros y Y. rewrite <- bsum_opp. apply bsum_ext; intros z Z.
      unfold g. rewrite (car0 f) by (auto; nc). rewrite (V_xy w z), (V_pair z w), (V_xy y x), (V_zw x y). ring. }
  assert (E3 : ssum3 u s s g = ssum3 u s s (fun y z w => V x y z w *' f [cr w; an z; cr y])).
  { apply s3_ext; intros y z w Y Z W. unfold g. rewrite (car0 f) by (auto; nc). rewrite (car1 f) by (auto; nc). ring. }
  assert (E4 : ssum3 s s u g = -' ssum3 s s u (fun y z w => V x y z w *' f [cr y; an z; cr w])).
  { rewrite <- s3_opp. apply s3_ext; intros y z w Y Z W. unfold g. rewrite (car1 f) by (auto; nc). ring. }
  rewrite E1, E2, E3, E4. fold g. ring.
Qed.

Theorem R_split : forall x f, car f ->
  Rs x (s ++ u) f = Rs x s f +' Rs x u f +'
    bsum s (fun z => Ps x z u (fun w => f (cr z :: w))) +'
    bsum s (fun y => Qs x y u (fun w => f (an y :: w))) +'
    ssum3 s u s (fun y z w => V x y z w *' f [an w; an y; cr z]) +'
    ssum3 u s s (fun y z w => V x y z w *' f [cr z; an w; an y]) +'
    -' ssum3 s s u (fun y z w => V x y z w *' f [cr z; an y; an w]).
Proof.
  intros x f F. unfold Rs. rewrite s3_app, bsum_app. set (g := fun y z w => V x y z w *' f [cr z; an w; an y]).
  assert (E1 : ssum3 u s u g = bsum s (fun z => Ps x z u (fun w => f (cr z :: w)))).
  { rewrite s3_sw12. reflexivity. }
  assert (E2 : bsum s (fun y => Qs x y u (fun w => f (an y :: w))) = ssum3 s u u g +' ssum3 u u s g).
  { unfold Qs. rewrite bsum_add, bsum_opp. f_equal.
    - unfold ssum3. apply bsum_ext; intros y Y. apply bsum_ext; intros z Z. apply bsum_ext; intros w W.
      unfold g. rewrite (car0 f) by (auto; nc). rewrite (car1 f) by (auto; nc). ring.
    - rewrite s3_sw23, s3_sw12, s3_sw23. unfold ssum3. rewrite <- bsum_opp.
      apply bsum_ext; intros w W. rewrite <- bsum_opp. apply bsum_ext; intros z Z. rewrite <- bsum_opp. apply bsum_ext; intros y Y.
      unfold g. rewrite (car0 f) by (auto; nc). ring. }
  assert (E3 : ssum3 s u s g = ssum3 s u s (fun y z w => V x y z w *' f [an w; an y; cr z])).
  { apply s3_ext; intros y z w Y Z W. unfold g. rewrite (car0 f) by (auto; nc). rewrite (car1 f) by (auto; nc). ring. }
  assert (E4 : ssum3 s s u g = -' ssum3 s s u (fun y z w => V x y z w *' f [cr z; an y; an w])).
  { rewrite <- s3_opp. apply s3_ext; intros y z w Y Z W. unfold g. rewrite (car1 f) by (auto; nc). ring. }
  rewrite E1, E2, E3, E4. fold g. ring.
Qed.

Theorem H_split : forall f, car f ->
  Hs (s ++ u) f = Hs s f +' Hs u f +'
    bsum s (fun x => Rs x u (fun w => f (cr x :: w))) +'
    -' bsum s (fun x => RDs x u (fun w => f (an x :: w))) +'
    bsum u (fun y => RDs y s (fun w => f (w ++ [an y]))) +'
    -' bsum u (fun y => Rs y s (fun w => f (w ++ [cr y]))) +'
    half *' bsum s (fun x => bsum s (fun z => Ps x z u (fun w => f (cr x :: cr z :: w)))) +'
    half *' bsum s (fun x => bsum s (fun z => PDs x z u (fun w => f (an z :: an x :: w)))) +'
    bsum s (fun x => bsum s (fun y => Qs x y u (fun w => f (cr x :: an y :: w)))).
Proof.
  intros f F. unfold Hs. rewrite s4_app. set (g := fun x y z w => V x y z w *' f [cr x; cr z; an w; an y]).
  assert (B : bsum (s ++ u) (fun x => bsum (s ++ u) (fun y => T x y *' f [cr x; an y])) =
    bsum s (fun x => bsum s (fun y => T x y *' f [cr x; an y])) +' bsum s (fun x => bsum u (fun y => T x y *' f [cr x; an y])) +'
    (bsum u (fun x => bsum s (fun y => T x y *' f [cr x; an y])) +' bsum u (fun x => bsum u (fun y => T x y *' f [cr x; an y])))).
  { rewrite bsum_app. f_equal; rewrite <- bsum_add; apply bsum_ext; intros; apply bsum_app. }
  rewrite B. clear B.
  set (tsu := bsum s (fun x => bsum u (fun y => T x y *' f [cr x; an y]))).
  set (tus := bsum u (fun x => bsum s (fun y => T x y *' f [cr x; an y]))).
  (* exchange of the two pairs *)
  assert (PX : forall a b c d, ssum4 a b c d g = ssum4 c d a b g).
  { intros a b c d. rewrite s4_sw23, s4_sw12, s4_sw34, s4_sw23. apply s4_ext; intros z w x y Z W X Y.
    unfold g. rewrite (car0 f) by (auto; nc). rewrite (car2 f) by (auto; nc). rewrite (V_pair z w). ring. }
  (* three in s *)
  assert (K1 : bsum s (fun x => Rs x u (fun w => f (cr x :: w))) = half *' tsu +' ssum4 s u u u g).
  { unfold Rs. rewrite bsum_add, bsum_mull. reflexivity. }
  assert (K2 : bsum s (fun x => RDs x u (fun w => f (an x :: w))) = -' (half *' tus) +' -' ssum4 u s u u g).
  { unfold RDs. rewrite bsum_add, bsum_mull. f_equal.
    - transitivity (half *' -' tus); [|ring]. f_equal.
      assert (SW : tus = bsum s (fun y => bsum u (fun x => T x y *' f [cr x; an y]))) by apply bsum_swap. rewrite SW.
      rewrite <- bsum_opp. apply bsum_ext; intros y Y. rewrite <- bsum_opp. apply bsum_ext; intros x X.
      rewrite (car0 f (an y)) by (auto; nc). rewrite (T_sym y x). ring.
    - transitivity (ssum4 s u u u (fun x y z w => V x y z w *' f [an x; cr y; cr w; an z])); [reflexivity|].
      rewrite (s4_sw12 _ _ _ _ s), (s4_sw34 _ _ _ _ u s), <- s4_opp.
      apply s4_ext; intros y x w z Y X W Z. unfold g. rewrite (car0 f (an x)) by (auto; nc). rewrite (car1 f _ (an x)) by (auto; nc).
      rewrite (car2 f _ _ (an x)) by (auto; nc). rewrite (V_xy x y), (V_zw y x). ring. }
  assert (K3 : bsum u (fun y => RDs y s (fun w => f (w ++ [an y]))) = half *' tsu +' ssum4 s u s s g).
  { unfold RDs. rewrite bsum_add, bsum_mull. f_equal.
    - f_equal. assert (SW : tsu = bsum u (fun y => bsum s (fun x => T x y *' f [cr x; an y]))) by apply bsum_swap. rewrite SW.
      apply bsum_ext; intros y Y. apply bsum_ext; intros x X. cbn [app]. now rewrite T_sym.
    - rewrite s4_sw12. rewrite s4_sw34. unfold ssum4. apply bsum_ext; intros y Y. unfold ssum3.
      apply bsum_ext; intros x X. apply bsum_ext; intros w W. apply bsum_ext; intros z Z. cbn [app]. unfold g.
      rewrite (V_xy y x), (V_zw x y). ring. }
  assert (K4 : bsum u (fun y => Rs y s (fun w => f (w ++ [cr y]))) = -' (half *' tus) +' -' ssum4 u s s s g).
  { unfold Rs. rewrite bsum_add, bsum_mull. f_equal.
    - transitivity (half *' -' tus); [|ring]. f_equal. unfold tus. rewrite <- bsum_opp. apply bsum_ext; intros x X.
      rewrite <- bsum_opp. apply bsum_ext; intros y Y. cbn [app]. rewrite (car0 f) by (auto; nc). ring.
    - rewrite <- s4_opp. unfold ssum4. apply bsum_ext; intros x X. apply s3_ext; intros y z w Y Z W. cbn [app]. unfold g.
      rewrite (car2 f) by (auto; nc). rewrite (car1 f) by (auto; nc). rewrite (car0 f) by (auto; nc). ring. }
  assert (K5 : bsum s (fun x => bsum s (fun z => Ps x z u (fun w => f (cr x :: cr z :: w)))) = ssum4 s u s u g).
  { rewrite s4_sw23. unfold Ps. unfold ssum4, ssum3, g. reflexivity. }
  assert (K6 : bsum s (fun x => bsum s (fun z => PDs x z u (fun w => f (an z :: an x :: w)))) = ssum4 u s u s g).
  { rewrite s4_sw12, s4_sw34, s4_sw23. unfold PDs, ssum4, ssum3, g.
    apply bsum_ext; intros y Y. apply bsum_ext; intros w W. apply bsum_ext; intros x X. apply bsum_ext; intros z Z.
    rewrite (V_xy x y), (V_zw y x).
    rewrite (car1 f (cr x) (cr z)) by (auto; nc). rewrite (car0 f (cr x) (an w)) by (auto; nc).
    rewrite (car2 f _ _ (cr z) (an y)) by (auto; nc). rewrite (car1 f _ (cr x) (an y)) by (auto; nc). ring. }
  assert (K7 : bsum s (fun x => bsum s (fun y => Qs x y u (fun w => f (cr x :: an y :: w)))) = ssum4 s s u u g +' ssum4 s u u s g).
  { unfold Qs. transitivity (ssum4 s s u u (fun x y z w => V x y z w *' f [cr x; an y; cr z; an w]) +'
       -' ssum4 s s u u (fun x y z w => V x w z y *' f [cr x; an y; cr z; an w])).
    - rewrite <- s4_opp. unfold ssum4. rewrite <- bsum_add. apply bsum_ext; intros x X. unfold ssum3. rewrite <- bsum_add.
      apply bsum_ext; intros y Y. f_equal. rewrite <- bsum_opp. apply bsum_ext; intros z Z. now rewrite <- bsum_opp.
    - f_equal.
      + apply s4_ext; intros x y z w X Y Z W. unfold g. rewrite (car1 f) by (auto; nc). rewrite (car2 f) by (auto; nc). ring.
      + assert (X0 : forall h, ssum4 s s u u h = ssum4 s u u s (fun x w z y => h x y z w)).
        { intros h. rewrite s4_sw34, s4_sw23, s4_sw34. reflexivity. }
        rewrite X0, <- s4_opp. apply s4_ext; intros x w z y X W Z Y. unfold g. rewrite (car1 f _ (an y)) by (auto; nc). ring. }
  rewrite K1, K2, K3, K4, K5, K6, K7.
  rewrite (PX s s s u), (PX s s u s), (PX u s s u), (PX u u s s), (PX u u s u), (PX u u u s).
  assert (D : forall a, a = half *' a +' half *' a). { intros a. transitivity ((half +' half) *' a); [rewrite half2; ring|ring]. }
  rewrite (D tsu) at 1. rewrite (D tus) at 1.
  rewrite (D (ssum4 s u s s g)) at 3. rewrite (D (ssum4 u s s s g)) at 3.
  rewrite (D (ssum4 s u u u g)) at 3. rewrite (D (ssum4 u s u u g)) at 3.
  rewrite (D (ssum4 s s u u g)) at 3. rewrite (D (ssum4 s u u s g)) at 3.
  ring.
Qed.
End Split.
End Alg.
