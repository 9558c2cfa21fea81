(** Evaluation of the table programs of QcModel: pointer movements, written positions, sums over the assignments. *)
From Coq Require Import ZArith Bool List Lia Ring.
From Verif Require Import SymModel DictLib IndexLib RingLib OptLib SiteModel QcModel.
Import ListNotations.
Open Scope Z_scope.

Definition zlen {A : Type} (l : list A) : Z := Z.of_nat (length l).
Definition znth {A : Type} (l : list A) (k : Z) : option A := if k <? 0 then None else nth_error l (Z.to_nat k).
Section Lists.
Variables A B : Type.
Lemma zlen_app : forall (a b : list A), zlen (a ++ b) = zlen a + zlen b.
Proof. intros. unfold zlen. rewrite app_length. lia. Qed.
Lemma zlen_cons : forall (x : A) l, zlen (x :: l) = 1 + zlen l.
Proof. intros. unfold zlen. cbn [length]. lia. Qed.
Lemma zlen_map : forall (f : A -> B) l, zlen (map f l) = zlen l.
Proof. intros. unfold zlen. now rewrite map_length. Qed.
Lemma zlen_nonneg : forall (l : list A), 0 <= zlen l.
Proof. intros. unfold zlen. lia. Qed.
Lemma zlen_flat : forall (f : A -> list B) l L, (forall x, In x l -> zlen (f x) = L) -> zlen (flat_map f l) = zlen l * L.
Proof.
  intros f l L. induction l as [|x l IH]; intros H; [reflexivity|]. cbn [flat_map].
  assert (E : zlen (f x ++ flat_map f l) = zlen (f x) + zlen (flat_map f l)) by (unfold zlen; rewrite app_length; lia).
  rewrite E, IH, H; [|now left|intros; apply H; now right]. unfold zlen. cbn [length]. lia.
Qed.
Lemma znth_app1 : forall (a b : list A) k, 0 <= k < zlen a -> znth (a ++ b) k = znth a k.
Proof. intros a b k H. unfold znth, zlen in *. destruct (Z.ltb_spec k 0); [lia|]. apply nth_error_app1. lia. Qed.
Lemma znth_app2 : forall (a b : list A) k, zlen a <= k -> znth (a ++ b) k = znth b (k - zlen a).
Proof.
  intros a b k H. unfold znth, zlen in *. destruct (Z.ltb_spec k 0); [lia|]. destruct (Z.ltb_spec (k - Z.of_nat (length a)) 0); [lia|].
  rewrite nth_error_app2 by lia. f_equal. lia.
Qed.
Lemma znth_cons0 : forall (x : A) l, znth (x :: l) 0 = Some x.
Proof. reflexivity. Qed.
Lemma znth_consS : forall (x : A) l k, 0 < k -> znth (x :: l) k = znth l (k - 1).
Proof.
  intros x l k H. unfold znth. destruct (Z.ltb_spec k 0); [lia|]. destruct (Z.ltb_spec (k - 1) 0); [lia|].
  replace (Z.to_nat k) with (S (Z.to_nat (k - 1))) by lia. reflexivity.
Qed.
Lemma znth_map : forall (f : A -> B) l k, znth (map f l) k = option_map f (znth l k).
Proof. intros f l k. unfold znth. destruct (k <? 0); [reflexivity|]. apply nth_error_map. Qed.
Lemma znth_flat : forall (f : A -> list B) L l i j x, (forall x, In x l -> zlen (f x) = L) ->
  0 <= i -> znth l i = Some x -> 0 <= j < L -> znth (flat_map f l) (i * L + j) = znth (f x) j.
Proof.
  intros f L l. induction l as [|y l IH]; intros i j x H Hi E Hj.
  - unfold znth in E. destruct (i <? 0); [discriminate|]. destruct (Z.to_nat i); discriminate.
  - cbn [flat_map]. assert (Ly : zlen (f y) = L) by (apply H; now left). destruct (Z.eq_dec i 0) as [->|N].
    + cbn in E. injection E as ->. replace (0 * L + j) with j by lia. unfold znth at 1. unfold znth, zlen in *.
      destruct (Z.ltb_spec j 0); [lia|]. apply nth_error_app1. lia.
    + assert (E' : znth (f y ++ flat_map f l) (i * L + j) = znth (flat_map f l) (i * L + j - zlen (f y))).
      { unfold znth, zlen in *. destruct (Z.ltb_spec (i * L + j) 0); [nia|]. destruct (Z.ltb_spec (i * L + j - Z.of_nat (length (f y))) 0); [nia|].
        rewrite nth_error_app2 by nia. f_equal. lia. }
      rewrite E', Ly. replace (i * L + j - L) with ((i - 1) * L + j) by lia. apply IH; [intros; apply H; now right|lia| |lia].
      rewrite <- E. unfold znth. destruct (Z.ltb_spec i 0); [lia|]. destruct (Z.ltb_spec (i - 1) 0); [lia|].
      replace (Z.to_nat i) with (S (Z.to_nat (i - 1))) by lia. reflexivity.
Qed.
End Lists.
Lemma zlen_zrange : forall m, 0 <= m -> zlen (zrange m) = m.
Proof. intros. unfold zlen. rewrite zrange_length. lia. Qed.
Lemma znth_zrange : forall m j, 0 <= j < m -> znth (zrange m) j = Some j.
Proof.
  intros m j H. unfold znth, zrange. destruct (Z.ltb_spec j 0); [lia|]. rewrite nth_error_map.
  rewrite (nth_error_nth' _ O); [|rewrite seq_length; lia]. rewrite seq_nth by lia. cbn. f_equal. lia.
Qed.
Lemma in_range : forall a b x, In x (range a b) <-> a <= x < b.
Proof.
  intros a b x. unfold range. rewrite in_map_iff. split.
  - intros [k [<- K]]. apply in_zrange in K. lia.
  - intros H. exists (x - a). split; [lia|]. apply in_zrange. lia.
Qed.
Lemma zlen_range : forall a b, a <= b -> zlen (range a b) = b - a.
Proof. intros. unfold range. rewrite zlen_map. apply zlen_zrange. lia. Qed.
Lemma znth_range : forall a b j, a <= j < b -> znth (range a b) (j - a) = Some j.
Proof. intros a b j H. unfold range. rewrite znth_map, znth_zrange by lia. cbn. f_equal. lia. Qed.

Section Prog.
Variable R : CRing.
Add Ring RR : (rth R).
Notation "0'" := (r0 R). Notation "1'" := (r1 R).
Infix "+'" := (radd R) (at level 50, left associativity).
Infix "*'" := (rmul R) (at level 40, left associativity).
Notation "-' a" := (ropp R a) (at level 35).
Notation fsym := (fsym R). Notation wr := (wr R). Notation prog := (prog R).
Notation seq_ := (seq_ R). Notation set_ := (set_ R). Notation for_ := (for_ R). Notation step := (step R).
Notation nop := (nop R). Notation goto := (goto R). Notation over_pairs := (over_pairs R).

Lemma seq_eq : forall (a b : prog) p, seq_ a b p = (fst (b (fst (a p))), snd (a p) ++ snd (b (fst (a p)))).
Proof. intros a b p. unfold QcModel.seq_. destruct (a p) as [q w]. cbn. destruct (b q). reflexivity. Qed.
Lemma fst_seq : forall (a b : prog) p, fst (seq_ a b p) = fst (b (fst (a p))).
Proof. intros. now rewrite seq_eq. Qed.
Lemma snd_seq : forall (a b : prog) p, snd (seq_ a b p) = snd (a p) ++ snd (b (fst (a p))).
Proof. intros. now rewrite seq_eq. Qed.

(* ---- programs that fill consecutive positions *)
Fixpoint place (ix : Z -> Z * Z) (p : Z) (l : list (option fsym)) : list wr :=
  match l with [] => [] | o :: l' => (ix p, o) :: place ix (p + 1) l' end.
Definition emits (ix : Z -> Z * Z) (a : prog) (l : list (option fsym)) : Prop :=
  forall p, a p = (p + zlen l, place ix p l).
Lemma place_app : forall ix l k p, place ix p (l ++ k) = place ix p l ++ place ix (p + zlen l) k.
Proof.
  intros ix l. induction l as [|o l IH]; intros k p; cbn [app place].
  - f_equal. unfold zlen. cbn. lia.
  - rewrite IH. do 3 f_equal. rewrite zlen_cons. lia.
Qed.
Lemma emits_seq : forall ix a b l k, emits ix a l -> emits ix b k -> emits ix (seq_ a b) (l ++ k).
Proof. intros ix a b l k A B p. rewrite seq_eq, A. cbn [fst snd]. rewrite B. cbn [fst snd]. now rewrite place_app, zlen_app, Z.add_assoc. Qed.
Lemma emits_nop : forall ix, emits ix nop [].
Proof. intros ix p. unfold QcModel.nop, zlen. cbn. f_equal. lia. Qed.
Lemma emits_one : forall ix o, emits ix (seq_ (set_ ix o) (step 1)) [o].
Proof. intros ix o p. rewrite seq_eq. unfold QcModel.set_, QcModel.step, zlen. cbn. reflexivity. Qed.
Lemma emits_for : forall A ix (l : list A) body f, (forall x, In x l -> emits ix (body x) (f x)) -> emits ix (for_ l body) (flat_map f l).
Proof.
  intros A ix l body f. induction l as [|x l IH]; intros H; [apply emits_nop|]. cbn [flat_map]. unfold QcModel.for_. cbn [fold_right].
  apply emits_seq; [apply H; now left|]. apply IH. intros; apply H; now right.
Qed.
Lemma for_sets : forall A (l : list A) (ix : A -> Z -> Z * Z) (f : A -> option fsym) p,
  for_ l (fun j => set_ (ix j) (f j)) p = (p, map (fun j => (ix j p, f j)) l).
Proof.
  intros A l ix f p. induction l as [|x l IH]; [reflexivity|]. unfold QcModel.for_ in *. cbn [fold_right map].
  rewrite seq_eq. change (fst (set_ (ix x) (f x) p)) with p. rewrite IH. reflexivity.
Qed.
Lemma place_map : forall A ix p (l : list A) (f : A -> option fsym) (g : A -> Z) a, (forall k x, znth l k = Some x -> g x = a + k) ->
  place ix (p + a) (map f l) = map (fun j => (ix (p + g j), f j)) l.
Proof.
  intros A ix p l f g. induction l as [|x l IH]; intros a H; [reflexivity|]. cbn [map place].
  assert (E := H 0 x eq_refl). f_equal; [do 3 f_equal; lia|].
  replace (p + a + 1) with (p + (a + 1)) by lia. apply IH. intros k y K. rewrite (H (k + 1) y); [lia|].
  unfold znth in *. destruct (Z.ltb_spec k 0); [discriminate|]. destruct (Z.ltb_spec (k + 1) 0); [lia|].
  replace (Z.to_nat (k + 1)) with (S (Z.to_nat k)) by lia. exact K.
Qed.
Lemma emits_row : forall ix ix' f a b d, a <= b -> d = b - a -> (forall p j, ix' j p = ix (p + (j - a))) ->
  emits ix (seq_ (for_ (range a b) (fun j => set_ (ix' j) (f j))) (step d)) (map f (range a b)).
Proof.
  intros ix ix' f a b d H -> E p. rewrite seq_eq, for_sets. unfold QcModel.step. cbn [fst snd]. rewrite zlen_map, zlen_range by lia.
  f_equal. rewrite app_nil_r. assert (PM := place_map _ ix p (range a b) f (fun j => j - a) 0). rewrite Z.add_0_r in PM. rewrite PM.
  - apply map_ext_in. intros j _. now rewrite E.
  - intros k x K. assert (X := K). unfold range in X. rewrite znth_map in X. destruct (znth (zrange (b - a)) k) as [y|] eqn:Y; [|discriminate].
    cbn in X. injection X as <-. assert (D : 0 <= k < b - a).
    { unfold znth in Y. destruct (Z.ltb_spec k 0); [discriminate|]. assert (N : nth_error (zrange (b - a)) (Z.to_nat k) <> None) by congruence.
      apply nth_error_Some in N. rewrite zrange_length in N. lia. }
    rewrite znth_zrange in Y by exact D. injection Y as <-. lia.
Qed.
Lemma range_zrange : forall m, range 0 m = zrange m.
Proof. intros m. unfold range. rewrite Z.sub_0_r. rewrite <- (map_id (zrange m)) at 2. apply map_ext. intros; lia. Qed.
Lemma emits_zrow : forall ix ix' f m, 0 <= m -> (forall p j, ix' j p = ix (p + j)) ->
  emits ix (seq_ (for_ (zrange m) (fun j => set_ (ix' j) (f j))) (step m)) (map f (zrange m)).
Proof.
  intros ix ix' f m H E. assert (K := emits_row ix ix' f 0 m m H ltac:(lia)). rewrite range_zrange in K.
  apply K. intros p j. rewrite E. f_equal. lia.
Qed.

(* ---- vectors whose positions are written once, in order *)
Lemma put_vec_at : forall d (o o' : option fsym) e, put_vec R (d ++ o :: e) (zlen d) o' = Some (d ++ o' :: e).
Proof.
  intros d o o' e. unfold put_vec, zlen. destruct (Z.ltb_spec (Z.of_nat (length d)) 0); [lia|].
  rewrite app_length. cbn [length].
  replace ((0 <=? Z.of_nat (length d)) && (Z.of_nat (length d) <? Z.of_nat (length d + S (length e)))) with true by (symmetry; apply andb_true_intro; split; [apply Z.leb_le|apply Z.ltb_lt]; lia).
  rewrite Nat2Z.id. rewrite firstn_app, Nat.sub_diag, firstn_all, firstn_O, app_nil_r.
  assert (E : skipn (S (length d)) (d ++ o :: e) = e).
  { rewrite skipn_app. rewrite skipn_all2 by lia. replace (S (length d) - length d)%nat with 1%nat by lia. reflexivity. }
  now rewrite E.
Qed.
Lemma vec_of_consec : forall (sel : Z * Z -> Z) ix (l : list (option fsym)) len, (forall k, sel (ix k) = k) -> zlen l = len ->
  vec_of R len (map (fun w => (sel (fst w), snd w)) (place ix 0 l)) = Some l.
Proof.
  intros sel ix l len E <-. unfold vec_of, zlen. rewrite Nat2Z.id.
  assert (G : forall l d, foldM (fun d w => put_vec R d (fst w) (snd w)) (d ++ repeat None (length l))
     (map (fun w => (sel (fst w), snd w)) (place ix (zlen d) l)) = Some (d ++ l)).
  { clear l. induction l as [|o l IH]; intros d; [reflexivity|]. cbn [place map foldM length repeat fst snd]. rewrite E, put_vec_at. cbn [bind].
    specialize (IH (d ++ [o])). rewrite <- !app_assoc in IH. cbn [app] in IH. rewrite zlen_app in IH. exact IH. }
  exact (G l []).
Qed.

(* ---- sums *)
Fixpoint dsum (p : Z) (l : list (option fsym)) (F : Z -> option fsym -> R) : R :=
  match l with [] => 0' | o :: l' => F p o +' dsum (p + 1) l' F end.
Lemma dsum_place : forall ix l p g, bsum (place ix p l) g = dsum p l (fun k o => g (ix k, o)).
Proof. intros ix l. induction l as [|o l IH]; intros p g; [reflexivity|]. cbn [place dsum]. now rewrite bsum_cons, IH. Qed.
Lemma dsum_app : forall l k p F, dsum p (l ++ k) F = dsum p l F +' dsum (p + zlen l) k F.
Proof.
  induction l as [|o l IH]; intros k p F; cbn [app dsum].
  - unfold zlen. cbn. replace (p + 0) with p by lia. ring.
  - rewrite IH. replace (p + zlen (o :: l)) with (p + 1 + zlen l) by (rewrite zlen_cons; lia). ring.
Qed.
Lemma dsum_ext : forall l p F G, (forall k o, znth l k = Some o -> F (p + k) o = G (p + k) o) -> dsum p l F = dsum p l G.
Proof.
  induction l as [|o l IH]; intros p F G H; [reflexivity|]. cbn [dsum]. f_equal.
  - specialize (H 0 o eq_refl). now rewrite Z.add_0_r in H.
  - apply IH. intros k x K. rewrite <- !Z.add_assoc. apply H.
    unfold znth in *. destruct (Z.ltb_spec k 0); [discriminate|]. destruct (Z.ltb_spec (1 + k) 0); [lia|].
    replace (Z.to_nat (1 + k)) with (S (Z.to_nat k)) by lia. exact K.
Qed.
Lemma dsum_map : forall A (l : list A) (f : A -> option fsym) (pos : A -> Z) p F a, (forall k x, znth l k = Some x -> pos x = a + k) ->
  dsum (p + a) (map f l) F = bsum l (fun x => F (p + pos x) (f x)).
Proof.
  intros A l f pos p F. induction l as [|x l IH]; intros a H; [reflexivity|]. cbn [map dsum]. rewrite bsum_cons.
  assert (E := H 0 x eq_refl). f_equal; [f_equal; lia|].
  replace (p + a + 1) with (p + (a + 1)) by lia. apply IH. intros k y K. rewrite (H (k + 1) y); [lia|].
  unfold znth in *. destruct (Z.ltb_spec k 0); [discriminate|]. destruct (Z.ltb_spec (k + 1) 0); [lia|].
  replace (Z.to_nat (k + 1)) with (S (Z.to_nat k)) by lia. exact K.
Qed.
Lemma znth_zrange_inv : forall m k x, znth (zrange m) k = Some x -> x = k /\ 0 <= k < m.
Proof.
  intros m k x Y. assert (D : 0 <= k < m).
  { unfold znth in Y. destruct (Z.ltb_spec k 0); [discriminate|]. assert (N : nth_error (zrange m) (Z.to_nat k) <> None) by congruence.
    apply nth_error_Some in N. rewrite zrange_length in N. lia. }
  rewrite znth_zrange in Y by exact D. injection Y as <-. auto.
Qed.
Lemma dsum_zrange : forall m (f : Z -> option fsym) p F, dsum p (map f (zrange m)) F = bsum (zrange m) (fun j => F (p + j) (f j)).
Proof.
  intros m f p F. replace p with (p + 0) at 1 by lia. apply (dsum_map _ _ f (fun j => j)). intros k x K.
  apply znth_zrange_inv in K. lia.
Qed.
Lemma dsum_range : forall a b (f : Z -> option fsym) p F,
  dsum p (map f (range a b)) F = bsum (range a b) (fun j => F (p + (j - a)) (f j)).
Proof.
  intros a b f p F. replace p with (p + 0) at 1 by lia. apply (dsum_map _ _ f (fun j => j - a)). intros k x K.
  unfold range in K. rewrite znth_map in K. destruct (znth (zrange (b - a)) k) as [y|] eqn:Y; [|discriminate]. cbn in K. injection K as <-.
  apply znth_zrange_inv in Y. lia.
Qed.
(* blocks of equal length d *)
Lemma dsum_flat : forall A (l : list A) (f : A -> list (option fsym)) (pos : A -> Z) d p F a,
  (forall x, In x l -> zlen (f x) = d) -> (forall k x, znth l k = Some x -> pos x = a + k) ->
  dsum (p + a * d) (flat_map f l) F = bsum l (fun x => dsum (p + pos x * d) (f x) F).
Proof.
  intros A l f pos d p F. induction l as [|x l IH]; intros a D H; [reflexivity|]. cbn [flat_map]. rewrite bsum_cons, dsum_app.
  rewrite (D x) by now left. assert (E := H 0 x eq_refl). f_equal; [f_equal; nia|].
  replace (p + a * d + d) with (p + (a + 1) * d) by lia. apply IH; [intros; apply D; now right|]. intros k y K. rewrite (H (k + 1) y); [lia|].
  unfold znth in *. destruct (Z.ltb_spec k 0); [discriminate|]. destruct (Z.ltb_spec (k + 1) 0); [lia|].
  replace (Z.to_nat (k + 1)) with (S (Z.to_nat k)) by lia. exact K.
Qed.
Lemma dsum_flat_zrange : forall m (f : Z -> list (option fsym)) d p F, (forall j, In j (zrange m) -> zlen (f j) = d) ->
  dsum p (flat_map f (zrange m)) F = bsum (zrange m) (fun j => dsum (p + j * d) (f j) F).
Proof.
  intros m f d p F D. replace p with (p + 0 * d) at 1 by lia. apply (dsum_flat _ _ f (fun j => j)); [exact D|].
  intros k x K. apply znth_zrange_inv in K. lia.
Qed.

(* ---- programs that leave the pointer where it is *)
Definition still (a : prog) : Prop := forall p, fst (a p) = p.
Lemma still_set : forall ix o, still (set_ ix o).
Proof. intros ix o p. reflexivity. Qed.
Lemma still_seq : forall a b, still a -> still b -> still (seq_ a b).
Proof. intros a b A B p. rewrite fst_seq, A. apply B. Qed.
Lemma still_for : forall A (l : list A) body, (forall x, still (body x)) -> still (for_ l body).
Proof.
  intros A l body H. induction l as [|x l IH]; [intros p; reflexivity|]. unfold QcModel.for_ in *. cbn [fold_right].
  apply still_seq; [apply H|exact IH].
Qed.
Lemma sum_seq : forall a b p (g : wr -> R), bsum (snd (seq_ a b p)) g = bsum (snd (a p)) g +' bsum (snd (b (fst (a p)))) g.
Proof. intros. rewrite snd_seq. apply bsum_app. Qed.
Lemma sum_set : forall ix o p (g : wr -> R), bsum (snd (set_ ix o p)) g = g (ix p, o).
Proof. intros. unfold QcModel.set_. cbn [snd]. rewrite bsum_cons, bsum_nil. ring. Qed.
Lemma sum_step : forall d p (g : wr -> R), bsum (snd (step d p)) g = 0'.
Proof. reflexivity. Qed.
Lemma sum_for : forall A (l : list A) body p (g : wr -> R), (forall x, still (body x)) ->
  bsum (snd (for_ l body p)) g = bsum l (fun x => bsum (snd (body x p)) g).
Proof.
  intros A l body p g H. induction l as [|x l IH]; [reflexivity|]. unfold QcModel.for_ in *. cbn [fold_right].
  rewrite sum_seq, bsum_cons, H, IH. reflexivity.
Qed.
Lemma for2 : forall body p (g : wr -> R), bsum (snd (for_ [0; 1] body p)) g = bsum (snd (body 0 p)) g +' bsum (snd (body 1 (fst (body 0 p)))) g.
Proof.
  intros body p g. unfold QcModel.for_. cbn [fold_right]. rewrite !sum_seq. cbn. ring.
Qed.
Lemma fst_for2 : forall body p, fst (for_ [0; 1] body p) = fst (body 1 (fst (body 0 p))).
Proof. intros body p. unfold QcModel.for_. cbn [fold_right]. now rewrite !fst_seq. Qed.
End Prog.
