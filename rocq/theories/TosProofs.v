(** Lemmas about TosModel: the block-sparse tensor of a table. *)
From Coq Require Import ZArith Bool List Lia Ring.
From Verif Require Import SymModel SymProofs DictLib IndexLib OptLib RingLib BondModel FuseModel FuseProofs BlockModel BlockProofs StructModel MpsModel MpsChain TosModel.
Import ListNotations.
Open Scope Z_scope.

(** *** lists *)
Lemma nth_set : forall (A : Type) k (x : A) l p, nth_error (set_nth k x l) p = if Nat.eqb k p then (if Nat.ltb p (length l) then Some x else None) else nth_error l p.
Proof.
  intros A. induction k as [|k IH]; intros x [|y l] [|p]; cbn [set_nth nth_error Nat.eqb length]; try reflexivity.
  - destruct (Nat.eqb k p); reflexivity.
  - rewrite IH. destruct (Nat.eqb k p); reflexivity.
Qed.
Lemma set_len : forall (A : Type) k (x : A) l, length (set_nth k x l) = length l.
Proof. intros A. induction k as [|k IH]; intros x [|y l]; cbn; auto. Qed.
(* writes that agree with a function *)
Lemma writes_nth : forall (A : Type) (F : nat -> A) ws l p, (forall w, In w ws -> snd w = F (fst w)) -> (p < length l)%nat ->
  nth_error (fold_left (fun l (w : nat * A) => set_nth (fst w) (snd w) l) ws l) p = if existsb (fun w => Nat.eqb (fst w) p) ws then Some (F p) else nth_error l p.
Proof.
  intros A F. induction ws as [|w ws IH]; intros l p H Hp; cbn [fold_left existsb]; [reflexivity|]. rewrite IH; [|intros w' I; apply H; now right|now rewrite set_len].
  rewrite nth_set. assert (Hw := H w (or_introl eq_refl)). destruct (Nat.eqb_spec (fst w) p) as [<-|N]; cbn [orb].
  - destruct (Nat.ltb_spec (fst w) (length l)); [|lia]. rewrite Hw. now destruct (existsb _ ws).
  - reflexivity.
Qed.

Section Tos.
Variable R : CRing.
Add Ring Rr : (rth R).
Notation "0'" := (r0 R). Notation "1'" := (r1 R).
Infix "+'" := (radd R) (at level 50, left associativity).
Infix "*'" := (rmul R) (at level 40, left associativity).
Variable L : Label.
Notation tensor := (list (list L * nd R)).
Notation state := (L * Z)%type.
Notation oq_eqb := (oq_eqb L).

Lemma oq_spec : forall a b, reflect (a = b) (oq_eqb a b).
Proof. intros [a|] [b|]; cbn; try (constructor; congruence). destruct (qeqb_spec L a b); constructor; congruence. Qed.
Lemma teq_spec : forall a b, reflect (a = b) (tup_eqb L a b).
Proof. apply (tup_eqb_spec L). Qed.

(** *** labels *)
Fixpoint count (q : option L) (l : list (option L)) : nat := match l with [] => 0 | x :: l' => (if oq_eqb x q then 1 else 0) + count q l' end.
Definition posl (q : option L) (a : nat) (qs : list (option L)) : list nat := map fst (filter (fun p => oq_eqb (snd p) q) (combine (seq a (length qs)) qs)).
Lemma posl_app : forall q qs x a, posl q a (qs ++ [x]) = posl q a qs ++ (if oq_eqb x q then [(a + length qs)%nat] else []).
Proof.
  intros q. induction qs as [|y qs IH]; intros x a; unfold posl in *; cbn [app length seq combine filter map].
  - rewrite Nat.add_0_r. cbn [snd]. destruct (oq_eqb x q); reflexivity.
  - cbn [snd]. destruct (oq_eqb y q); cbn [map fst app]; rewrite IH; replace (S a + length qs)%nat with (a + S (length qs))%nat by lia; reflexivity.
Qed.
Lemma posl_nth : forall q qs a i p, nth_error (posl q a qs) i = Some p -> (a <= p)%nat /\ nth_error qs (p - a) = Some q /\ i = count q (firstn (p - a) qs).
Proof.
  intros q. induction qs as [|x qs IH]; intros a i p H; unfold posl in *; cbn [length seq combine filter map] in H; [destruct i; discriminate|]. cbn [snd] in H. destruct (oq_spec x q) as [->|N].
  - destruct i as [|i]; cbn [map nth_error] in H.
    + injection H as <-. rewrite Nat.sub_diag. auto.
    + destruct (IH (S a) i p H) as [A [B C]]. split; [lia|]. replace (p - a)%nat with (S (p - S a)) by lia. cbn [nth_error firstn count]. destruct (oq_spec q q); [|congruence]. split; [exact B|lia].
  - destruct (IH (S a) i p H) as [A [B C]]. split; [lia|]. replace (p - a)%nat with (S (p - S a)) by lia. cbn [nth_error firstn count]. destruct (oq_spec x q); [congruence|]. auto.
Qed.
Lemma posl_in : forall q qs a k, nth_error qs k = Some q -> In (a + k)%nat (posl q a qs).
Proof.
  intros q. induction qs as [|x qs IH]; intros a [|k] H; cbn [nth_error] in H; try discriminate; unfold posl; cbn [length seq combine filter]; cbn [snd].
  - injection H as ->. destruct (oq_spec q q); [|congruence]. cbn. left. lia.
  - apply (IH (S a)) in H. unfold posl in H. replace (a + S k)%nat with (S a + k)%nat by lia. destruct (oq_eqb x q); cbn [map]; [right|]; exact H.
Qed.
Definition pos_step (mp : dict (option L) (list nat)) (p : nat * option L) := dset oq_eqb mp (snd p) (match dget oq_eqb mp (snd p) with Some v => v | None => [] end ++ [fst p]).
Lemma combine_snoc : forall (A : Type) (x : A) l a, combine (seq a (length (l ++ [x]))) (l ++ [x]) = combine (seq a (length l)) l ++ [((a + length l)%nat, x)].
Proof. intros A x. induction l as [|y l IH]; intros a; cbn [app length seq combine]; [now rewrite Nat.add_0_r|]. rewrite IH. cbn. replace (S (a + length l)) with (a + S (length l))%nat by lia. reflexivity. Qed.
Lemma positions_get : forall qs q, dget oq_eqb (positions L qs) q = (match posl q 0 qs with [] => None | v => Some v end) /\ NoDup (keys (positions L qs)).
Proof.
  intros qs. pattern qs. apply rev_ind; clear qs.
  - intros q. split; [reflexivity|constructor].
  - intros x qs IH q. unfold positions. rewrite combine_snoc, fold_left_app. cbn [fold_left]. fold (positions L qs). rewrite Nat.add_0_l. cbn [fst snd]. destruct (IH x) as [Hx ND]. split; [|now apply (nodup_dset oq_eqb oq_spec)].
    rewrite (dget_dset oq_eqb oq_spec), Hx, posl_app, Nat.add_0_l. destruct (oq_spec x q) as [->|N].
    + destruct (posl q 0 qs); [reflexivity|]. cbn. reflexivity.
    + rewrite app_nil_r. apply IH.
Qed.
Lemma nstates_get : forall qs q, match dget oq_eqb (n_states L qs) q with Some n => n | None => 0 end = Z.of_nat (count q qs).
Proof.
  intros qs. pattern qs. apply rev_ind; clear qs; [reflexivity|]. intros x qs IH q. unfold n_states. rewrite fold_left_app. cbn [fold_left]. fold (n_states L qs). rewrite (dget_dset oq_eqb oq_spec).
  assert (C : forall l, count q (l ++ [x]) = (count q l + if oq_eqb x q then 1 else 0)%nat) by (induction l as [|y l IHl]; cbn [app count]; [lia|rewrite IHl; lia]). rewrite C.
  destruct (oq_spec x q) as [->|N]; [rewrite IH; lia|rewrite IH; lia].
Qed.
Lemma fold_fold : forall (A B C : Type) (f : A -> C -> A) (g : B -> list C) l a, fold_left (fun a b => fold_left f (g b) a) l a = fold_left f (flat_map g l) a.
Proof. intros A B C f g. induction l as [|x l IH]; intros a; cbn [fold_left flat_map]; [reflexivity|]. now rewrite fold_left_app, IH. Qed.
Lemma fold_map' : forall (A B C : Type) (f : A -> B -> A) (g : C -> B) l a, fold_left (fun a x => f a (g x)) l a = fold_left f (map g l) a.
Proof. intros A B C f g. induction l as [|x l IH]; intros a; cbn [fold_left map]; auto. Qed.
Lemma q_labels_nth : forall qs k q, nth_error qs k = Some q -> nth_error (q_labels L qs) k = Some (q, Z.of_nat (count q (firstn k qs))).
Proof.
  intros qs k q H. unfold q_labels.
  set (F := fun p => match nth_error qs p with Some x => (x, Z.of_nat (count x (firstn p qs))) | None => (None, 0) end).
  set (g := fun qv : option L * list nat => map (fun p : nat * nat => (snd p, (fst qv, Z.of_nat (fst p)))) (combine (seq 0 (length (snd qv))) (snd qv))).
  match goal with |- nth_error ?x k = _ => assert (E : x = fold_left (fun l (w : nat * (option L * Z)) => set_nth (fst w) (snd w) l) (flat_map g (positions L qs)) (map (fun q => (q, 0)) qs)) end.
  { rewrite <- fold_fold. generalize (map (fun q : option L => (q, 0)) qs). induction (positions L qs) as [|qv l IH]; intros a; cbn [fold_left]; [reflexivity|]. rewrite IH. f_equal. unfold g. rewrite <- fold_map'. reflexivity. }
  rewrite E. clear E. assert (Hk : (k < length qs)%nat) by (apply nth_error_Some; congruence).
  assert (W : forall w, In w (flat_map g (positions L qs)) -> snd w = F (fst w)).
  { intros w I. apply in_flat_map in I. destruct I as [[x v] [I J]]. unfold g in J. cbn [fst snd] in J. apply in_map_iff in J. destruct J as [[i p] [<- J]]. cbn [fst snd].
    destruct (positions_get qs x) as [G ND]. apply (in_dget oq_eqb oq_spec) in I; [|exact ND]. rewrite I in G.
    assert (v = posl x 0 qs) as -> by (destruct (posl x 0 qs); congruence). clear G I.
    assert (N : nth_error (posl x 0 qs) i = Some p). { clear - J. assert (K : forall (l : list nat) a, In (i, p) (combine (seq a (length l)) l) -> (a <= i)%nat /\ nth_error l (i - a) = Some p).
      { induction l as [|y l IH]; intros a I; cbn in I; [destruct I|]. destruct I as [I|I]; [injection I as -> ->; rewrite Nat.sub_diag; auto|]. destruct (IH (S a) I) as [A B]. split; [lia|]. replace (i - a)%nat with (S (i - S a)) by lia. exact B. }
      destruct (K _ _ J) as [_ N]. now rewrite Nat.sub_0_r in N. }
    apply posl_nth in N. rewrite Nat.sub_0_r in N. destruct N as [_ [N1 N2]]. unfold F. rewrite N1, N2. reflexivity. }
  rewrite (writes_nth _ F) by (exact W || (rewrite map_length; exact Hk)).
  assert (X : existsb (fun w : nat * (option L * Z) => Nat.eqb (fst w) k) (flat_map g (positions L qs)) = true).
  { apply existsb_exists. assert (P := posl_in q qs 0 k H). rewrite Nat.add_0_l in P. destruct (positions_get qs q) as [G ND]. assert (Hq : dget oq_eqb (positions L qs) q = Some (posl q 0 qs)) by (rewrite G; destruct (posl q 0 qs); [destruct P|reflexivity]).
    apply (dget_in oq_eqb oq_spec) in Hq. apply In_nth_error in P. destruct P as [i P]. exists (k, (q, Z.of_nat i)). split; [|cbn; apply Nat.eqb_refl]. apply in_flat_map. exists (q, posl q 0 qs). split; [exact Hq|]. unfold g. cbn [fst snd].
    apply in_map_iff. exists (i, k). split; [reflexivity|]. clear - P. assert (K : forall (l : list nat) a i', nth_error l i' = Some k -> In ((a + i')%nat, k) (combine (seq a (length l)) l)).
    { clear. induction l as [|y l IH]; intros a [|i] I; cbn in I; try discriminate; cbn; [injection I as ->; left; f_equal; lia|right]. replace (a + S i)%nat with (S a + i)%nat by lia. now apply IH. }
    exact (K _ 0%nat _ P). }
  rewrite X. unfold F. now rewrite H.
Qed.
Lemma place_some : forall qs k q, nth_error qs k = Some (Some q) -> place L qs k = Some (q, Z.of_nat (count (Some q) (firstn k qs)), Z.of_nat (count (Some q) qs)).
Proof. intros qs k q H. unfold place. rewrite (q_labels_nth _ _ _ H). cbn [bind]. rewrite nstates_get. reflexivity. Qed.
Lemma count_lt : forall q qs k, nth_error qs k = Some q -> (count q (firstn k qs) < count q qs)%nat.
Proof.
  intros q. induction qs as [|x qs IH]; intros [|k] H; cbn [nth_error] in H; try discriminate; cbn [firstn count].
  - injection H as ->. destruct (oq_spec q q); [lia|congruence].
  - specialize (IH _ H). lia.
Qed.
Lemma count_mono : forall q qs j k, (j <= k)%nat -> (count q (firstn j qs) <= count q (firstn k qs))%nat.
Proof. intros q. induction qs as [|x qs IH]; intros [|j] [|k] H; cbn [firstn count]; try lia. specialize (IH j k). lia. Qed.
Lemma count_step : forall q qs k, nth_error qs k = Some q -> count q (firstn (S k) qs) = S (count q (firstn k qs)).
Proof.
  intros q. induction qs as [|x qs IH]; intros [|k] H; cbn [nth_error] in H; try discriminate.
  - injection H as ->. cbn. destruct (oq_spec q q); [reflexivity|congruence].
  - specialize (IH _ H). cbn [firstn count] in *. lia.
Qed.
(* labels and numbers tell positions apart *)
Lemma place_inj : forall qs j k q, nth_error qs j = Some q -> nth_error qs k = Some q -> count q (firstn j qs) = count q (firstn k qs) -> j = k.
Proof.
  intros qs j k q Hj Hk E. destruct (Nat.lt_trichotomy j k) as [H|[H|H]]; [|exact H|].
  - assert (A := count_step _ _ _ Hj). assert (B := count_mono q qs (S j) k H). lia.
  - assert (A := count_step _ _ _ Hk). assert (B := count_mono q qs (S k) j H). lia.
Qed.

(** *** blocks *)
Lemma in_shape_app : forall sh xs n x, in_shapeb (sh ++ [n]) (xs ++ [x]) = in_shapeb sh xs && ((0 <=? x) && (x <? n)).
Proof.
  induction sh as [|s sh IH]; intros [|y xs] n x; cbn [app in_shapeb].
  - now rewrite andb_true_r.
  - destruct xs; cbn; now rewrite ?andb_false_r.
  - destruct sh; cbn; now rewrite ?andb_false_r.
  - rewrite IH. destruct ((0 <=? y) && (y <? s)); reflexivity.
Qed.
Lemma mid_cons : forall (A : Type) (x y : A) l, removelast (tl (x :: l ++ [y])) = l.
Proof. intros. cbn [tl]. apply removelast_last. Qed.
Variable nl nr : L -> Z.
Variable shp : list L -> list Z.
Definition wfb (g : L -> list L -> L -> Prop) (mb : tensor) : Prop :=
  NoDup (keys mb) /\ forall b, In b mb -> exists l m r, fst b = l :: m ++ [r] /\ nshape (snd b) = nl l :: shp m ++ [nr r] /\ 0 < nl l /\ 0 < nr r /\ g l m r.
Definition hit (ql qr : L) (il ir : Z) (l r : state) : bool := qeqb L ql (fst l) && (il =? snd l) && (qeqb L qr (fst r) && (ir =? snd r)).
Lemma key_split : forall (l r l' r' : L) m m', l :: m ++ [r] = l' :: m' ++ [r'] <-> l = l' /\ m = m' /\ r = r'.
Proof using. clear nl nr shp R. intros l r l' r' m m'. split; [|intros [-> [-> ->]]; reflexivity]. intros E. injection E as -> E. apply app_inj_tail in E. tauto. Qed.
Lemma slice_get : forall (x y b : nd R) l m r il ir f i xm j, nshape x = nl l :: shp m ++ [nr r] -> nshape b = shp m -> 0 <= il < nl l -> 0 <= ir < nr r ->
  add_slice R x il ir f b = Some y -> nshape y = nshape x /\ nget y (i :: xm ++ [j]) = nget x (i :: xm ++ [j]) +' (if (il =? i) && (ir =? j) then f *' nget b xm else 0').
Proof.
  intros x y b l m r il ir f i xm j Sx Sb Hl Hr E. unfold add_slice in E. destruct (list_eq_dec Z.eq_dec _ _) as [_|]; [|discriminate]. injection E as <-. split; [reflexivity|].
  unfold nget. cbn [nshape nval]. rewrite Sx, Sb. cbn [in_shapeb]. rewrite in_shape_app, mid_cons. cbn [hd]. replace (last (i :: xm ++ [j]) 0) with j by (rewrite app_comm_cons, last_last; reflexivity). rewrite (Z.eqb_sym i), (Z.eqb_sym j).
  destruct (Z.eqb_spec il i) as [<-|N1]; [|cbn [andb]; destruct (_ && _); ring]. destruct (Z.eqb_spec ir j) as [<-|N2]; [|cbn [andb]; destruct (_ && _); ring]. cbn [andb].
  destruct (Z.leb_spec 0 il); [|lia]. destruct (Z.ltb_spec il (nl l)); [|lia]. destruct (Z.leb_spec 0 ir); [|lia]. destruct (Z.ltb_spec ir (nr r)); [|lia]. cbn [andb]. rewrite andb_true_r. destruct (in_shapeb (shp m) xm); ring.
Qed.
Lemma add_block_ok : forall (g : L -> list L -> L -> Prop) dq f ql il qr ir mb blk, wfb g mb -> nshape (snd blk) = shp (fst blk) -> g (qsub L dq ql) (fst blk) qr -> 0 <= il < nl (qsub L dq ql) -> 0 <= ir < nr qr ->
  exists mb', add_block R L dq f (ql, il, nl (qsub L dq ql)) (qr, ir, nr qr) mb blk = Some mb' /\ wfb g mb' /\
  forall qm xm l r, elem R L mb' (fst l :: qm ++ [fst r]) (snd l :: xm ++ [snd r]) =
    elem R L mb (fst l :: qm ++ [fst r]) (snd l :: xm ++ [snd r]) +' (if hit (qsub L dq ql) qr il ir l r then f *' elem R L [blk] qm xm else 0').
Proof.
  intros g dq f ql il qr ir mb blk [ND W] S G Hl Hr. unfold add_block.
  set (qx := qsub L dq ql :: fst blk ++ [qr]). set (x := match dget (tup_eqb L) mb qx with Some x => x | None => nd_zeros R (nl (qsub L dq ql) :: nshape (snd blk) ++ [nr qr]) end).
  assert (Sx : nshape x = nl (qsub L dq ql) :: shp (fst blk) ++ [nr qr]).
  { unfold x. destruct (dget (tup_eqb L) mb qx) as [x0|] eqn:D; [|cbn; now rewrite S]. apply (dget_in _ teq_spec) in D. destruct (W _ D) as (l & m & r & E1 & E2 & _). cbn [fst snd] in E1, E2. apply key_split in E1. destruct E1 as [<- [<- <-]]. exact E2. }
  destruct (add_slice R x il ir f (snd blk)) as [y|] eqn:A.
  2:{ unfold add_slice in A. rewrite Sx, mid_cons, S in A. destruct (list_eq_dec Z.eq_dec _ _); [discriminate|congruence]. }
  cbn [bind]. exists (dset (tup_eqb L) mb qx y). split; [reflexivity|].
  assert (SG := fun i xm j => slice_get x y (snd blk) (qsub L dq ql) (fst blk) qr il ir f i xm j Sx S Hl Hr A).
  assert (ND' : NoDup (keys (dset (tup_eqb L) mb qx y))) by (apply (nodup_dset _ teq_spec); exact ND).
  split; [split; [exact ND'|]|].
  - intros b I. apply in_dset in I. destruct I as [I| ->]; [now apply W|]. cbn [fst snd]. exists (qsub L dq ql), (fst blk), qr. split; [reflexivity|]. split; [destruct (SG 0 [] 0) as [-> _]; exact Sx|]. split; [lia|]. split; [lia|exact G].
  - intros qm xm l r. rewrite !elem_dget by assumption. rewrite (dget_dset _ teq_spec). unfold hit. destruct (teq_spec qx (fst l :: qm ++ [fst r])) as [E|N].
    + assert (E' := E). unfold qx in E'. apply key_split in E'. destruct E' as [El [Em Er]]. rewrite El, Er. destruct (qeqb_spec L (fst l) (fst l)); [|congruence]. destruct (qeqb_spec L (fst r) (fst r)); [|congruence]. cbn [andb].
      destruct (SG (snd l) xm (snd r)) as [_ ->]. unfold elem. rewrite bsum_cons, bsum_nil. destruct (teq_spec (fst blk) qm); [|congruence]. rewrite <- E. unfold x. destruct (dget (tup_eqb L) mb qx) as [x0|].
      * destruct ((il =? snd l) && (ir =? snd r)); ring.
      * replace (nget (nd_zeros R (nl (qsub L dq ql) :: nshape (snd blk) ++ [nr qr])) (snd l :: xm ++ [snd r])) with 0' by (unfold nget, nd_zeros; cbn [nval nshape]; now destruct (in_shapeb _ _)). destruct ((il =? snd l) && (ir =? snd r)); ring.
    + match goal with |- _ = ?u +' ?v => replace v with 0' by (
        destruct (qeqb_spec L (qsub L dq ql) (fst l)) as [El|]; [|reflexivity]; destruct (qeqb_spec L qr (fst r)) as [Er|]; [|now rewrite andb_false_r];
        unfold elem; rewrite bsum_cons, bsum_nil; destruct (teq_spec (fst blk) qm) as [Em|]; [elim N; unfold qx; now rewrite El, Em, Er|]; destruct (_ && _); ring) end. ring.
Qed.
Lemma add_blocks_ok : forall g dq f ql il qr ir bs mb, wfb g mb -> (forall b, In b bs -> nshape (snd b) = shp (fst b) /\ g (qsub L dq ql) (fst b) qr) -> 0 <= il < nl (qsub L dq ql) -> 0 <= ir < nr qr ->
  exists mb', foldM (add_block R L dq f (ql, il, nl (qsub L dq ql)) (qr, ir, nr qr)) mb bs = Some mb' /\ wfb g mb' /\
  forall qm xm l r, elem R L mb' (fst l :: qm ++ [fst r]) (snd l :: xm ++ [snd r]) =
    elem R L mb (fst l :: qm ++ [fst r]) (snd l :: xm ++ [snd r]) +' (if hit (qsub L dq ql) qr il ir l r then f *' elem R L bs qm xm else 0').
Proof.
  intros g dq f ql il qr ir. induction bs as [|b bs IH]; intros mb W H Hl Hr; cbn [foldM].
  - exists mb. split; [reflexivity|]. split; [exact W|]. intros. unfold elem at 3. rewrite bsum_nil. destruct (hit _ _ _ _ l r); ring.
  - destruct (H b (or_introl eq_refl)) as [Sb Gb]. destruct (add_block_ok g dq f ql il qr ir mb b W Sb Gb Hl Hr) as (m1 & E1 & W1 & V1). rewrite E1. cbn [bind].
    destruct (IH m1 W1) as (m2 & E2 & W2 & V2); auto. { intros b' I. apply H. now right. }
    exists m2. split; [exact E2|]. split; [exact W2|]. intros qm xm l r. rewrite V2, V1. change (b :: bs) with ([b] ++ bs). rewrite elem_app. destruct (hit _ _ _ _ l r); ring.
Qed.
End Tos.

(** *** cells *)
Section Cells.
Variable R : CRing.
Add Ring Rr2 : (rth R).
Notation "0'" := (r0 R).
Infix "+'" := (radd R) (at level 50, left associativity).
Infix "*'" := (rmul R) (at level 40, left associativity).
Variable L : Label.
Notation tensor := (list (list L * nd R)).
Notation state := (L * Z)%type.
Variable K : Type.
Variable keqb : K -> K -> bool.
Notation smat := (smat R K).
Notation pten := (pten R L).

(* the entries of a matrix that are not 0 *)
Definition present (p : (nat * nat) * option (R * K)) : list ((nat * nat) * (R * K)) := match snd p with Some c => [(fst p, c)] | None => [] end.
Definition numbered {A : Type} (l : list A) : list (nat * A) := combine (seq 0 (length l)) l.
Definition entries (m : smat) : list ((nat * nat) * (R * K)) :=
  match m with
  | RowV _ _ l => flat_map present (map (fun p => ((0%nat, fst p), snd p)) (numbered l))
  | ColV _ _ l => flat_map present (map (fun p => ((fst p, 0%nat), snd p)) (numbered l))
  | Mat _ _ l => flat_map present l
  end.
(* labels of the rows and columns *)
Definition rows (m : smat) (lop : list L) : list L := match m with RowV _ _ _ => [q0 L] | _ => lop end.
Definition cols (m : smat) (rop : list L) : list L := match m with ColV _ _ _ => [q0 L] | _ => rop end.
Definition is_matrix (m : smat) : bool := match m with Mat _ _ _ => true | _ => false end.
Definition opart (s : pten) (odd : bool) : tensor := match s with PNum _ _ => [] | PTen _ _ o e => if odd then o else e end.
Variable ops : list (K * pten).
Notation op := (dget keqb ops).
Variable dq : L.
Variables rw cl : list L.
Variable shp : list L -> list Z.
Variable g : bool -> L -> list L -> L -> Prop.
Notation cnt l q := (count L (Some q) (map Some l)).
Definition nl (q : L) : Z := Z.of_nat (cnt rw (qsub L dq q)).
Definition nr (q : L) : Z := Z.of_nat (cnt cl q).
Lemma sub_sub : forall a b, qsub L a (qsub L a b) = b.
Proof.
  intros a b. rewrite !qsub_def. assert (N : qneg L (qadd L a (qneg L b)) = qadd L (qneg L a) b).
  { assert (C : forall x y, qadd L x y = q0 L -> x = qneg L y). { intros x y E. rewrite <- (qadd_0_l L x), <- (qadd_neg L y), <- qadd_assoc, (qadd_comm L y), E, (qadd_comm L). now rewrite qadd_0_l. }
    symmetry. apply C. rewrite <- (qadd_assoc L (qneg L a)), (qadd_comm L b), <- (qadd_assoc L a), qadd_neg. rewrite (qadd_comm L a), qadd_0_l. apply qadd_neg. }
  rewrite N, qadd_assoc, (qadd_comm L a), qadd_neg. apply qadd_0_l.
Qed.
Definition cell_ok (numbers : bool) (c : (nat * nat) * (R * K)) : Prop :=
  exists ql qr s, nth_error rw (fst (fst c)) = Some ql /\ nth_error cl (snd (fst c)) = Some qr /\ op (snd (snd c)) = Some s /\ (s = PNum R L -> numbers = true) /\
  forall odd b, In b (opart s odd) -> nshape (snd b) = shp (fst b) /\ g odd (qsub L dq ql) (fst b) qr.
Definition rank (l : list L) (k : nat) (q : L) : Z := Z.of_nat (cnt (firstn k l) q).
(* the place of a row or column *)
Definition at_row (j : nat) (l : state) : bool := match nth_error rw j with Some q => qeqb L (qsub L dq q) (fst l) && (rank rw j q =? snd l) | None => false end.
Definition at_col (k : nat) (r : state) : bool := match nth_error cl k with Some q => qeqb L q (fst r) && (rank cl k q =? snd r) | None => false end.
Definition cell_val (c : (nat * nat) * (R * K)) (odd : bool) (qm : list L) (xm : list Z) : R :=
  match op (snd (snd c)) with Some s => fst (snd c) *' elem R L (opart s odd) qm xm | None => 0' end.
Notation mpart mb odd := (if odd : bool then fst (mb : tensor * tensor) else snd mb).
Definition wfp (mb : tensor * tensor) : Prop := forall odd, wfb R L nl nr shp (g odd) (mpart mb odd).
Lemma nth_some : forall (l : list L) k q, nth_error l k = Some q -> nth_error (map Some l) k = Some (Some q).
Proof. intros l k q H. now apply (map_nth_error Some). Qed.
Lemma cell_step : forall numbers mb c lr, wfp mb -> cell_ok numbers c ->
  (forall ql qr, nth_error rw (fst (fst c)) = Some ql -> nth_error cl (snd (fst c)) = Some qr -> lr tt = do x <- place L (map Some rw) (fst (fst c)); do r <- place L (map Some cl) (snd (fst c)); Some (x, r)) ->
  exists mb', add_cell R L K keqb ops dq numbers lr mb (Some (snd c)) = Some mb' /\ wfp mb' /\
  forall odd qm xm l r, elem R L (mpart mb' odd) (fst l :: qm ++ [fst r]) (snd l :: xm ++ [snd r]) =
    elem R L (mpart mb odd) (fst l :: qm ++ [fst r]) (snd l :: xm ++ [snd r]) +' (if at_row (fst (fst c)) l && at_col (snd (fst c)) r then cell_val c odd qm xm else 0').
Proof.
  intros numbers mb [[j k] [f o]] lr W (ql & qr & s & Hj & Hk & Ho & Hn & Hb) Hlr. cbn [fst snd] in *. unfold add_cell, cell_val. cbn [fst snd]. rewrite Ho. cbn [bind].
  assert (Z0 : (forall odd, opart s odd = []) -> forall odd qm xm (l r : state), 0' = if at_row j l && at_col k r then f *' elem R L (opart s odd) qm xm else 0').
  { intros E odd qm xm l r. rewrite E. unfold elem. rewrite bsum_nil. destruct (_ && _); ring. }
  destruct s as [|od ev].
  - rewrite (Hn eq_refl). exists mb. split; [reflexivity|]. split; [exact W|]. intros. rewrite <- Z0 by reflexivity. ring.
  - destruct (Nat.eqb_spec (length od + length ev) 0) as [E|N].
    + destruct od; [|discriminate]. destruct ev; [|discriminate]. exists mb. split; [reflexivity|]. split; [exact W|]. intros. rewrite <- Z0 by (intros []; reflexivity). ring.
    + rewrite (Hlr ql qr Hj Hk), (place_some L _ _ _ (nth_some _ _ _ Hj)), (place_some L _ _ _ (nth_some _ _ _ Hk)). cbn [bind]. rewrite !firstn_map. unfold add_blocks.
      assert (El : nl (qsub L dq ql) = Z.of_nat (cnt rw ql)) by (unfold nl; now rewrite sub_sub). assert (Cl := count_lt L (Some ql) _ _ (nth_some _ _ _ Hj)). assert (Cr := count_lt L (Some qr) _ _ (nth_some _ _ _ Hk)). rewrite firstn_map in Cl, Cr.
      assert (B1 : 0 <= rank rw j ql < nl (qsub L dq ql)) by (unfold rank; lia). assert (B2 : 0 <= rank cl k qr < nr qr) by (unfold rank, nr; lia).
      rewrite <- El. change (Z.of_nat (cnt cl qr)) with (nr qr). change (Z.of_nat (cnt (firstn j rw) ql)) with (rank rw j ql). change (Z.of_nat (cnt (firstn k cl) qr)) with (rank cl k qr).
      destruct (add_blocks_ok R L nl nr shp (g true) dq f ql (rank rw j ql) qr (rank cl k qr) od (fst mb) (W true) (Hb true) B1 B2) as (m1 & E1 & W1 & V1).
      destruct (add_blocks_ok R L nl nr shp (g false) dq f ql (rank rw j ql) qr (rank cl k qr) ev (snd mb) (W false) (Hb false) B1 B2) as (m2 & E2 & W2 & V2).
      rewrite E1. cbn [bind]. rewrite E2. cbn [bind]. exists (m1, m2). split; [reflexivity|]. split; [intros []; assumption|].
      intros odd qm xm l r. unfold at_row, at_col. rewrite Hj, Hk. destruct odd; cbn [fst snd opart]; [rewrite V1|rewrite V2]; reflexivity.
Qed.
Lemma cells_fold : forall (A : Type) numbers (h : A -> (nat * nat) * option (R * K)) (lr : A -> unit -> option ((L * Z * Z) * (L * Z * Z))) cs mb, wfp mb -> Forall (cell_ok numbers) (flat_map present (map h cs)) ->
  (forall a ql qr, In a cs -> nth_error rw (fst (fst (h a))) = Some ql -> nth_error cl (snd (fst (h a))) = Some qr -> lr a tt = do x <- place L (map Some rw) (fst (fst (h a))); do r <- place L (map Some cl) (snd (fst (h a))); Some (x, r)) ->
  exists mb', foldM (fun mb a => add_cell R L K keqb ops dq numbers (lr a) mb (snd (h a))) mb cs = Some mb' /\ wfp mb' /\
  forall odd qm xm l r, elem R L (mpart mb' odd) (fst l :: qm ++ [fst r]) (snd l :: xm ++ [snd r]) =
    elem R L (mpart mb odd) (fst l :: qm ++ [fst r]) (snd l :: xm ++ [snd r]) +' bsum (flat_map present (map h cs)) (fun c => if at_row (fst (fst c)) l && at_col (snd (fst c)) r then cell_val c odd qm xm else 0').
Proof.
  intros A numbers h lr. induction cs as [|a cs IH]; intros mb W Hc Hlr; cbn [foldM map flat_map].
  - exists mb. split; [reflexivity|]. split; [exact W|]. intros. rewrite bsum_nil. ring.
  - cbn [map flat_map] in Hc. apply Forall_app in Hc. destruct Hc as [Ha Hc].
    assert (IH' := fun m Wm => IH m Wm Hc (fun a' ql qr I => Hlr a' ql qr (or_intror I))). clear IH. specialize (Hlr a). unfold present in Ha |- *. destruct (h a) as [jk [c|]] eqn:E; cbn [fst snd] in *.
    + inversion Ha as [|? ? H1 _]; subst. destruct (cell_step numbers mb (jk, c) (lr a) W H1) as (m1 & E1 & W1 & V1). { cbn [fst snd]. intros ql qr. apply Hlr. now left. }
      cbn [fst snd] in *. rewrite E1. cbn [bind]. destruct (IH' m1 W1) as (m2 & E2 & W2 & V2). exists m2. split; [exact E2|]. split; [exact W2|]. intros. cbn [app]. rewrite bsum_cons. rewrite V2, V1. cbn [fst snd]. unfold present. ring.
    + cbn [add_cell bind app]. destruct (IH' mb W) as (m2 & E2 & W2 & V2). exists m2. split; [exact E2|]. split; [exact W2|]. exact V2.
Qed.
End Cells.
