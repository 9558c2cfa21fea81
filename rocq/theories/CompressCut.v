(** Lemmas for C59: what truncation keeps of tensors, and the size of what it drops. *)
From Coq Require Import ZArith Bool List Lia Permutation Sorted Ring.
From Verif Require Import SymModel SymProofs DictLib IndexLib OptLib RingLib OrdLib BondModel FuseModel FuseProofs BlockModel BlockProofs StructModel StructProofs MpsModel MpsChain MpsProofs MpsDot TruncModel TruncProofs CanonModel CanonProofs CanonSites CompressModel CompressSvd.
Import ListNotations.
Open Scope Z_scope.

(** *** sums over a selection of positions *)
Section Sel.
Variable R : CRing.
Add Ring Rr32 : (rth R).
Notation "0'" := (r0 R). Notation "1'" := (r1 R).
Infix "+'" := (radd R) (at level 50, left associativity).
Infix "-'" := (rsub R) (at level 50, left associativity).
Infix "*'" := (rmul R) (at level 40, left associativity).
Definition memb (z : Z) (l : list Z) : bool := existsb (Z.eqb z) l.
Lemma memb_in : forall z l, memb z l = true <-> In z l.
Proof. intros z l. unfold memb. rewrite existsb_exists. split; [intros (x & H & E); apply Z.eqb_eq in E; now subst|intros H; exists z; split; [exact H|apply Z.eqb_refl]]. Qed.
Lemma nth_sum : forall (l : list Z) (h : Z -> R), bsum (zrange (Z.of_nat (length l))) (fun i => h (nth (Z.to_nat i) l 0)) = bsum l h.
Proof.
  intros l h. induction l as [|x l IH] using rev_ind; [reflexivity|]. rewrite app_length. cbn [length]. rewrite Nat2Z.inj_add, zrange_add by lia. rewrite !bsum_app. f_equal.
  - rewrite <- IH. apply bsum_ext. intros i Hi. apply in_zrange in Hi. rewrite app_nth1 by lia. reflexivity.
  - change (zrange (Z.of_nat 1)) with [0]. cbn [map]. rewrite !bsum_cons, !bsum_nil. rewrite app_nth2 by lia. replace (Z.to_nat (Z.of_nat (length l) + 0) - length l)%nat with O by lia. reflexivity.
Qed.
Lemma sel_split : forall k (l : list Z) (h : Z -> R), NoDup l -> (forall z, In z l -> 0 <= z < k) ->
  bsum (zrange k) h = bsum (zrange (Z.of_nat (length l))) (fun i => h (nth (Z.to_nat i) l 0)) +' bsum (zrange k) (fun z => if memb z l then 0' else h z).
Proof.
  intros k l h N Hl. rewrite nth_sum. rewrite (bsum_ext R _ (zrange k) h (fun z => (if memb z l then h z else 0') +' (if memb z l then 0' else h z))) by (intros z _; destruct (memb z l); ring).
  rewrite bsum_add. f_equal. rewrite <- bsum_filter. apply bsum_perm. apply NoDup_Permutation; [apply NoDup_filter, zrange_nodup|exact N|]. intros z. rewrite filter_In, in_zrange, memb_in. split; [tauto|]. intros H. split; [now apply Hl|exact H].
Qed.

(** *** a truncated factorisation *)
Variable cj : R -> R.
Hypothesis cj_add : forall x y, cj (x +' y) = cj x +' cj y.
Hypothesis cj_mul : forall x y, cj (x *' y) = cj x *' cj y.
Let cj0 : cj 0' = 0'.
Proof. assert (E: cj 0' +' cj 0' = cj 0') by (rewrite <- cj_add; f_equal; ring). transitivity (cj 0' +' cj 0' -' cj 0'); [ring|]. rewrite E. ring. Qed.
Let cj_sum : forall A (l : list A) f, cj (bsum l f) = bsum l (fun x => cj (f x)).
Proof. intros A l f. induction l as [|x l IH]; [rewrite !bsum_nil; apply cj0|]. rewrite !bsum_cons, cj_add, IH. reflexivity. Qed.
Variables X Q : Type.
Variable Q_dec : forall a b : Q, {a = b} + {a <> b}.
Variables (Xs : list X) (f0 f s : X -> Q -> Z -> R) (G0 G : Q -> Z -> Z -> R) (k0 : Q -> Z) (sel : Q -> list Z).
Hypothesis sel_nodup : forall q, NoDup (sel q).
Hypothesis sel_range : forall q z, In z (sel q) -> 0 <= z < k0 q.
Notation dn := (fun q => Z.of_nat (length (sel q))).
Hypothesis full : forall x q y, s x q y = bsum (zrange (k0 q)) (fun z => G0 q y z *' f0 x q z).
Hypothesis f_sel : forall x q z, 0 <= z < dn q -> f x q z = f0 x q (nth (Z.to_nat z) (sel q) 0).
Hypothesis G_sel : forall q y z, 0 <= z < dn q -> G q y z = G0 q y (nth (Z.to_nat z) (sel q) 0).
Hypothesis on : forall q z q' z', 0 <= z < k0 q -> 0 <= z' < k0 q' -> bsum Xs (fun x => cj (f0 x q z) *' f0 x q' z') = if Q_dec q q' then (if z =? z' then 1' else 0') else 0'.
Definition resid (x : X) (q : Q) (y : Z) : R := s x q y -' bsum (zrange (dn q)) (fun z => G q y z *' f x q z).
Lemma sel_nth : forall q z, 0 <= z < dn q -> In (nth (Z.to_nat z) (sel q) 0) (sel q).
Proof. intros q z H. apply nth_In. lia. Qed.
Lemma resid_spec : forall x q y, resid x q y = bsum (zrange (k0 q)) (fun z => if memb z (sel q) then 0' else G0 q y z *' f0 x q z).
Proof.
  intros x q y. unfold resid. rewrite full, (sel_split (k0 q) (sel q) (fun z => G0 q y z *' f0 x q z)) by auto.
  rewrite (bsum_ext R _ (zrange (dn q)) (fun z => G q y z *' f x q z) (fun i => G0 q y (nth (Z.to_nat i) (sel q) 0) *' f0 x q (nth (Z.to_nat i) (sel q) 0))); [ring|]. intros z Hz. apply in_zrange in Hz. now rewrite f_sel, G_sel.
Qed.
Lemma cut_iso : forall q z q' z', 0 <= z < dn q -> 0 <= z' < dn q' -> bsum Xs (fun x => cj (f x q z) *' f x q' z') = if Q_dec q q' then (if z =? z' then 1' else 0') else 0'.
Proof.
  intros q z q' z' Hz Hz'. rewrite (bsum_ext R _ Xs _ (fun x => cj (f0 x q (nth (Z.to_nat z) (sel q) 0)) *' f0 x q' (nth (Z.to_nat z') (sel q') 0))) by (intros x _; now rewrite !f_sel).
  rewrite on by (apply sel_range, sel_nth; auto). destruct (Q_dec q q') as [<-|]; [|reflexivity]. destruct (Z.eqb_spec z z') as [->|N]; [now rewrite Z.eqb_refl|]. destruct (Z.eqb_spec (nth (Z.to_nat z) (sel q) 0) (nth (Z.to_nat z') (sel q) 0)) as [E|]; [|reflexivity].
  apply (proj1 (NoDup_nth (sel q) 0) (sel_nodup q)) in E; lia.
Qed.
Lemma cut_orth : forall q z q' y, 0 <= z < dn q -> bsum Xs (fun x => cj (f x q z) *' resid x q' y) = 0'.
Proof.
  intros q z q' y Hz. rewrite (bsum_ext R _ Xs _ (fun x => bsum (zrange (k0 q')) (fun z' => (if memb z' (sel q') then 0' else G0 q' y z') *' (cj (f0 x q (nth (Z.to_nat z) (sel q) 0)) *' f0 x q' z')))).
  - rewrite bsum_swap. apply bsum_zero. intros z' Hz'. apply in_zrange in Hz'. rewrite bsum_mull, on by (auto; apply sel_range, sel_nth; auto). destruct (Q_dec q q') as [<-|]; [|ring]. destruct (Z.eqb_spec (nth (Z.to_nat z) (sel q) 0) z') as [<-|]; [|ring]. rewrite (proj2 (memb_in _ _) (sel_nth q z Hz)). ring.
  - intros x _. rewrite resid_spec, f_sel, <- bsum_mull by auto. apply bsum_ext. intros z' _. destruct (memb z' (sel q')); ring.
Qed.
Lemma cut_err : forall q (d : Z), bsum (zrange d) (fun y => bsum Xs (fun x => cj (resid x q y) *' resid x q y)) = bsum (zrange (k0 q)) (fun z => if memb z (sel q) then 0' else bsum (zrange d) (fun y => cj (G0 q y z) *' G0 q y z)).
Proof.
  intros q d. transitivity (bsum (zrange d) (fun y => bsum (zrange (k0 q)) (fun z => if memb z (sel q) then 0' else cj (G0 q y z) *' G0 q y z))).
  - apply bsum_ext. intros y _. set (c := fun z => if memb z (sel q) then 0' else G0 q y z).
    transitivity (bsum Xs (fun x => bsum (zrange (k0 q)) (fun z => bsum (zrange (k0 q)) (fun z' => cj (c z) *' c z' *' (cj (f0 x q z) *' f0 x q z'))))).
    + apply bsum_ext. intros x _. rewrite resid_spec. rewrite (bsum_ext R _ (zrange (k0 q)) (fun z => if memb z (sel q) then 0' else G0 q y z *' f0 x q z) (fun z => c z *' f0 x q z)) by (intros z _; unfold c; destruct (memb z (sel q)); ring).
      rewrite cj_sum, <- bsum_mulr. apply bsum_ext. intros z _. rewrite <- bsum_mull. apply bsum_ext. intros z' _. rewrite cj_mul. ring.
    + rewrite bsum_swap. apply bsum_ext. intros z Hz. rewrite bsum_swap. rewrite (bsum_single R _ (zrange (k0 q)) _ z); [|apply zrange_nodup|exact Hz|].
      * apply in_zrange in Hz. rewrite bsum_mull, on by auto. destruct (Q_dec q q); [|congruence]. rewrite Z.eqb_refl. unfold c. destruct (memb z (sel q)); ring.
      * intros z' Hz' Nz. apply in_zrange in Hz, Hz'. rewrite bsum_mull, on by auto. destruct (Q_dec q q); [|congruence]. destruct (Z.eqb_spec z z'); [congruence|ring].
  - rewrite bsum_swap. apply bsum_ext. intros z _. destruct (memb z (sel q)); [now apply bsum_zero|reflexivity].
Qed.
End Sel.

(** *** blocks kept by truncate_svd *)
Section Cut.
Variable R : CRing.
Add Ring Rr33 : (rth R).
Variable L : Label.
Notation block := (list L * nd R)%type.
Notation tensor := (list (list L * nd R)).
Notation state := (L * Z)%type.
Notation telem := (telem R L).
Notation "0'" := (r0 R).
Variable slabs : list L.
Variable gs : list (Z * list Z).
Hypothesis SN : NoDup slabs.
Hypothesis gsS : StronglySorted Z.lt (map fst gs).
Hypothesis gsR : forall i, In i (map fst gs) -> 0 <= i < Z.of_nat (length slabs).
Hypothesis gsN : forall i g, In (i, g) gs -> g <> [].
Definition has_lab (q : L) (g : Z * list Z) : bool := match nth_error slabs (Z.to_nat (fst g)) with Some q' => qeqb L q' q | None => false end.
(* the positions kept of the label q *)
Definition sel (q : L) : list Z := match find (has_lab q) gs with Some g => snd g | None => [] end.
Lemma nth_slabs_inj : forall i j q, 0 <= i -> 0 <= j -> nth_error slabs (Z.to_nat i) = Some q -> nth_error slabs (Z.to_nat j) = Some q -> i = j.
Proof.
  intros i j q Hi Hj E1 E2. assert (Z.to_nat i = Z.to_nat j); [|lia]. apply (proj1 (NoDup_nth_error slabs) SN); [apply nth_error_Some; congruence|congruence].
Qed.
Lemma gs_unique : forall i g g', In (i, g) gs -> In (i, g') gs -> g = g'.
Proof.
  intros i g g' H H'. pose proof (SS_lt_nodup _ gsS) as N. clear -N H H'. induction gs as [|[j h] l IH]; [destruct H|]. cbn [map fst] in N. inversion N as [|? ? N1 N2]; subst. destruct H as [E|H], H' as [E'|H'].
  - congruence.
  - injection E as <- <-. destruct N1. apply in_map_iff. exists (j, g'). auto.
  - injection E' as <- <-. destruct N1. apply in_map_iff. exists (j, g). auto.
  - now apply IH.
Qed.
Lemma sel_in : forall i g q, In (i, g) gs -> nth_error slabs (Z.to_nat i) = Some q -> sel q = g.
Proof.
  intros i g q H E. unfold sel. destruct (find (has_lab q) gs) as [[j g']|] eqn:F.
  - apply find_some in F. destruct F as [F1 F2]. unfold has_lab in F2. cbn [fst snd] in *. destruct (nth_error slabs (Z.to_nat j)) as [q'|] eqn:E'; [|discriminate]. destruct (qeqb_spec L q' q) as [Eqq|]; [|discriminate]. rewrite Eqq in E'.
    assert (i = j). { apply (nth_slabs_inj i j q); auto; apply gsR; apply in_map_iff; [exists (i, g)|exists (j, g')]; auto. } subst j. now apply (gs_unique i).
  - apply (find_none _ _ F) in H. unfold has_lab in H. cbn [fst] in H. rewrite E in H. destruct (qeqb_spec L q q); [discriminate|congruence].
Qed.
Lemma sel_some : forall q, sel q <> [] -> exists i, In (i, sel q) gs /\ nth_error slabs (Z.to_nat i) = Some q.
Proof.
  intros q H. unfold sel in *. destruct (find (has_lab q) gs) as [[j g]|] eqn:F; [|congruence]. apply find_some in F. destruct F as [F1 F2]. unfold has_lab in F2. cbn [fst snd] in *. exists j. split; [exact F1|]. destruct (nth_error slabs (Z.to_nat j)) as [qq|] eqn:Ej; [|discriminate]. destruct (qeqb_spec L qq q) as [Eqq|]; [congruence|discriminate].
Qed.

Section Pick.

Variable cut : list Z -> block -> block.
Hypothesis cut_key : forall gl b, fst (cut gl b) = fst b.
Lemma first_block_app : forall (p : block -> bool) a b, (forall x, In x a -> p x = false) -> first_block R L p (a ++ b) = option_map (Nat.add (length a)) (first_block R L p b).
Proof.
  intros p. induction a as [|x a IH]; intros b H; cbn [app first_block length]; [now destruct (first_block R L p b)|]. rewrite (H x (or_introl eq_refl)). rewrite IH by (intros; apply H; now right). now destruct (first_block R L p b).
Qed.
Lemma take_none : forall (p : block -> bool) l, (forall x, In x l -> p x = false) -> take_while R L p l = ([], l).
Proof. intros p [|x l] H; [reflexivity|]. cbn. now rewrite (H x (or_introl eq_refl)). Qed.
Lemma pick_fermion_spec : forall (labo : list L -> option L) BB, length BB = length slabs -> (forall i q b, nth_error slabs i = Some q -> In b (nth i BB []) -> labo (fst b) = Some q) ->
  pick_blocks_fermion R L (qeqb L) labo cut slabs gs (concat BB) = flat_map (fun g => map (cut (snd g)) (nth (Z.to_nat (fst g)) BB [])) gs.
Proof.
  intros labo BB Hl Hlab. unfold pick_blocks_fermion. rewrite !flat_map_concat_map. f_equal. apply map_ext_in. intros [i gl] Hg. cbn [fst snd]. f_equal.
  assert (Hi: 0 <= i < Z.of_nat (length slabs)) by (apply gsR; apply in_map_iff; exists (i, gl); auto). set (n := Z.to_nat i). destruct (nth_error slabs n) as [q|] eqn:Eq; [|apply nth_error_None in Eq; lia].
  set (same := fun b : block => match labo (fst b) with Some q' => qeqb L q' q | None => false end).
  assert (Hsame: forall m b, (m < length BB)%nat -> In b (nth m BB []) -> same b = (m =? n)%nat).
  { intros m b Hm Hb. destruct (nth_error slabs m) as [q'|] eqn:Eq'; [|apply nth_error_None in Eq'; lia]. unfold same. rewrite (Hlab m q' b Eq' Hb).
    destruct (qeqb_spec L q' q) as [->|N]; symmetry; [apply Nat.eqb_eq; apply (proj1 (NoDup_nth_error slabs) SN); [lia|congruence]|apply Nat.eqb_neq; intros ->; congruence]. }
  assert (Hin: forall b, In b (concat BB) -> exists m, (m < length BB)%nat /\ In b (nth m BB [])) by (intros b Hb; apply in_concat in Hb; destruct Hb as (bb & Hbb & Hb); apply (In_nth _ _ []) in Hbb; destruct Hbb as (m & Hm & <-); eauto).
  destruct (nth n BB []) as [|b0 bn] eqn:En.
  - assert (None': forall x, In x (concat BB) -> same x = false). { intros x Hx. destruct (Hin x Hx) as (m & Hm & Hx'). rewrite (Hsame m x Hm Hx'). apply Nat.eqb_neq. intros ->. rewrite En in Hx'. destruct Hx'. }
    pose proof (first_block_app same (concat BB) [] None') as F. rewrite app_nil_r in F. cbn [first_block option_map] in F. rewrite F. cbn [skipn]. now rewrite take_none.
  - assert (E: BB = firstn n BB ++ (b0 :: bn) :: skipn (S n) BB). { rewrite <- (firstn_skipn n BB) at 1. f_equal. rewrite <- En. apply skipn_nth_cons. lia. }
    assert (Pre: forall x, In x (concat (firstn n BB)) -> same x = false).
    { intros x Hx. apply in_concat in Hx. destruct Hx as (bb & Hbb & Hx). apply (In_nth _ _ []) in Hbb. destruct Hbb as (m & Hm & Hbb). rewrite firstn_length in Hm. rewrite (Hsame m x); [apply Nat.eqb_neq; lia|lia|]. rewrite E, app_nth1 by (rewrite firstn_length; lia). now rewrite Hbb. }
    assert (Ec: concat BB = concat (firstn n BB) ++ (b0 :: bn) ++ concat (skipn (S n) BB)) by (rewrite E at 1; rewrite concat_app; reflexivity).
    assert (S0: forall x, In x (b0 :: bn) -> same x = true) by (intros x Hx; rewrite (Hsame n x) by (try lia; now rewrite En); apply Nat.eqb_refl).
    assert (Ef: first_block R L same (concat BB) = Some (length (concat (firstn n BB)))) by (rewrite Ec, (first_block_app same _ _ Pre); cbn [app first_block]; rewrite (S0 b0 (or_introl eq_refl)); cbn [option_map]; now rewrite Nat.add_0_r).
    rewrite Ef. replace (skipn (length (concat (firstn n BB))) (concat BB)) with ((b0 :: bn) ++ concat (skipn (S n) BB)) by (rewrite Ec; now rewrite skipn_app, Nat.sub_diag, skipn_all).
    rewrite (take_while_app R L same); [reflexivity|exact S0|]. intros x r Er. assert (Hx: In x (concat (skipn (S n) BB))) by (rewrite Er; now left). apply in_concat in Hx. destruct Hx as (bb & Hbb & Hx). apply (In_nth _ _ []) in Hbb. destruct Hbb as (m & Hm & Hbb). rewrite skipn_length in Hm.
    rewrite (Hsame (S n + m)%nat x); [apply Nat.eqb_neq; lia|lia|]. rewrite E, app_nth2; rewrite firstn_length, Nat.min_l by lia; [|lia]. replace (S n + m - n)%nat with (S m) by lia. cbn [nth]. now rewrite Hbb.
Qed.

Variable lab : list L -> L.
(* blocks whose label is kept, cut *)
Definition cut_of (t t' : tensor) : Prop := NoDup (map fst t') /\
  (forall b', In b' t' -> exists b, In b t /\ sel (lab (fst b)) <> [] /\ b' = cut (sel (lab (fst b))) b) /\
  (forall b, In b t -> sel (lab (fst b)) <> [] -> In (cut (sel (lab (fst b))) b) t' \/ forall xs, nget (snd (cut (sel (lab (fst b))) b)) xs = 0').
Lemma cut_of_flat : forall BB, length BB = length slabs -> (forall i q b, nth_error slabs i = Some q -> In b (nth i BB []) -> lab (fst b) = q) -> NoDup (map fst (concat BB)) ->
  cut_of (concat BB) (flat_map (fun g => map (cut (snd g)) (nth (Z.to_nat (fst g)) BB [])) gs).
Proof.
  intros BB Hl Hlab N. assert (Q: forall i gl, In (i, gl) gs -> exists q, nth_error slabs (Z.to_nat i) = Some q /\ sel q = gl).
  { intros i gl Hg. assert (Hi: 0 <= i < Z.of_nat (length slabs)) by (apply gsR; apply in_map_iff; exists (i, gl); auto). destruct (nth_error slabs (Z.to_nat i)) as [q|] eqn:Eq; [|apply nth_error_None in Eq; lia]. exists q. split; [reflexivity|]. now apply (sel_in i). }
  split; [|split].
  - rewrite flat_map_concat_map, concat_map, map_map, <- flat_map_concat_map. apply NoDup_flat_map.
    + apply (NoDup_map_inv fst). now apply SS_lt_nodup.
    + intros [i gl] Hg. cbn [fst snd]. rewrite map_map. rewrite (map_ext _ fst) by (intros; apply cut_key). destruct (Nat.lt_ge_cases (Z.to_nat i) (length BB)) as [Hi|Hi]; [|rewrite nth_overflow by lia; constructor].
      apply (nth_In _ []) in Hi. apply in_split in Hi. destruct Hi as (B1 & B2 & E). rewrite E in N at 1. rewrite concat_app in N. cbn [concat] in N. rewrite !map_app in N. apply nodup_app in N. destruct N as (_ & N & _). apply nodup_app in N. tauto.
    + intros [i gl] [j gl'] k Hg Hg' Hk Hk'. cbn [fst snd] in *. rewrite map_map in Hk, Hk'. apply in_map_iff in Hk, Hk'. destruct Hk as (b & E & Hb), Hk' as (b' & E' & Hb'). rewrite cut_key in E, E'.
      destruct (Q i gl Hg) as (q & Eq & _), (Q j gl' Hg') as (q' & Eq' & _). assert (q = q') by (rewrite <- (Hlab _ _ _ Eq Hb), <- (Hlab _ _ _ Eq' Hb'); congruence). subst q'.
      assert (i = j) by (apply (nth_slabs_inj i j q); auto; apply gsR; apply in_map_iff; [exists (i, gl)|exists (j, gl')]; auto). subst j. f_equal. now apply (gs_unique i).
  - intros b' Hb'. apply in_flat_map in Hb'. destruct Hb' as ((i & gl) & Hg & Hb'). cbn [fst snd] in Hb'. apply in_map_iff in Hb'. destruct Hb' as (b & <- & Hb). exists b. destruct (Q i gl Hg) as (q & Eq & Es). rewrite (Hlab _ _ _ Eq Hb), Es. split; [|split; [now apply (gsN i)|reflexivity] ].
    apply in_concat. exists (nth (Z.to_nat i) BB []). split; [|exact Hb]. apply nth_In. destruct (Nat.lt_ge_cases (Z.to_nat i) (length BB)); [assumption|]. rewrite nth_overflow in Hb by lia. destruct Hb.
  - intros b Hb Ns. left. destruct (sel_some _ Ns) as (i & Hg & Eq). apply in_flat_map. exists (i, sel (lab (fst b))). split; [exact Hg|]. cbn [fst snd]. apply in_map_iff. exists b. split; [reflexivity|].
    apply in_concat in Hb. destruct Hb as (bb & Hbb & Hb). apply (In_nth _ _ []) in Hbb. destruct Hbb as (m & Hm & Em). subst bb. destruct (nth_error slabs m) as [q|] eqn:Em; [|apply nth_error_None in Em; lia]. assert (Eb: lab (fst b) = q) by exact (Hlab m q b Em Hb). rewrite Eb in Eq.
    replace (Z.to_nat i) with m; [exact Hb|]. apply (proj1 (NoDup_nth_error slabs) SN); [lia|congruence].
Qed.
Lemma cut_of_big : forall big t t', (forall b : block, big b = false -> forall xs, nget (snd b) xs = 0') -> cut_of t t' -> cut_of t (filter big t').
Proof.
  clear gsN gsR gsS SN. intros big t t' Hbig (N & A & B). split; [|split].
  - clear -N. induction t' as [|b t' IH]; [constructor|]. cbn [map] in N. inversion N as [|? ? N1 N2]; subst. cbn [filter]. destruct (big b); [|now apply IH]. cbn [map]. constructor; [|now apply IH]. intros H. apply N1. apply in_map_iff in H. destruct H as (c & E & H). apply filter_In in H. apply in_map_iff. exists c. tauto.
  - intros b' H. apply filter_In in H. apply A. tauto.
  - intros b Hb Ns. destruct (B b Hb Ns) as [H|H]; [|now right]. destruct (big (cut (sel (lab (fst b))) b)) eqn:E; [left; apply filter_In; auto|right; now apply Hbig].
Qed.

Variable put : forall A : Type, A -> list A -> list A.
Hypothesis put_map : forall A B (f : A -> B) x l, map f (put A x l) = put B (f x) (map f l).
Hypothesis lab_put : forall q l, lab (put L q l) = q.
Hypothesis put_shape : forall d rs y ys, in_shape (put Z d rs) (put Z y ys) <-> 0 <= y < d /\ in_shape rs ys.
Hypothesis cut_ok : forall gl b d rs, nshape (snd b) = put Z d rs -> (forall z, In z gl -> 0 <= z < d) ->
  nshape (snd (cut gl b)) = put Z (Z.of_nat (length gl)) rs /\ forall z ys, 0 <= z < Z.of_nat (length gl) -> nget (snd (cut gl b)) (put Z z ys) = nget (snd b) (put Z (nth (Z.to_nat z) gl 0) ys).
Variable d : L -> Z.
Hypothesis selR : forall q z, In z (sel q) -> 0 <= z < d q.
Lemma cut_elem : forall t t', NoDup (map fst t) -> (forall b, In b t -> exists rs, nshape (snd b) = put Z (d (lab (fst b))) rs) -> cut_of t t' -> forall q z c,
  telem t' (put state (q, z) c) = if (0 <=? z) && (z <? Z.of_nat (length (sel q))) then telem t (put state (q, nth (Z.to_nat z) (sel q) 0) c) else 0'.
Proof.
  clear gsN gsR gsS SN. intros t t' N Sh (N' & A & B) q z c. unfold MpsDot.telem. rewrite !put_map. cbn [fst snd].
  destruct ((0 <=? z) && (z <? Z.of_nat (length (sel q)))) eqn:Ez.
  - assert (Hz: 0 <= z < Z.of_nat (length (sel q))) by (apply andb_prop in Ez; lia). assert (Ns: sel q <> []) by (intros E; rewrite E in Hz; cbn in Hz; lia).
    destruct (in_dec (list_eq_dec (q_dec L)) (put L q (map fst c)) (map fst t)) as [I|I].
    + apply in_map_iff in I. destruct I as (b & E & Hb). rewrite <- E. rewrite (elem_in R L t b _ N Hb). assert (El: lab (fst b) = q) by (rewrite E; apply lab_put). destruct (Sh b Hb) as (rs & Es). rewrite El in Es. destruct (cut_ok (sel q) b (d q) rs Es (selR q)) as [C1 C2].
      rewrite <- C2 by exact Hz. destruct (B b Hb) as [H|H]; rewrite El in *; [exact Ns| |].
      * rewrite <- (cut_key (sel q) b). now apply elem_in.
      * rewrite H. destruct (in_dec (list_eq_dec (q_dec L)) (fst b) (map fst t')) as [I'|I'].
        -- apply in_map_iff in I'. destruct I' as (b' & E' & Hb'). rewrite <- E', (elem_in R L t' b' _ N' Hb'). destruct (A b' Hb') as (b2 & Hb2 & _ & ->). rewrite cut_key in E'. assert (b2 = b).
           { clear -N Hb Hb2 E'. induction t as [|a t IH]; [destruct Hb|]. cbn [map] in N. inversion N as [|? ? N1 N2]; subst. destruct Hb as [->|Hb], Hb2 as [->|Hb2]; [reflexivity| | |now apply IH]; destruct N1; apply in_map_iff; [exists b2|exists b]; auto. }
           subst b2. rewrite El. apply H.
        -- unfold elem. apply bsum_zero. intros b2 Hb2. destruct (tup_eqb_spec L (fst b2) (fst b)) as [E2|]; [|reflexivity]. destruct I'. rewrite <- E2. now apply in_map.
    + assert (I': ~ In (put L q (map fst c)) (map fst t')). { intros H. apply I. apply in_map_iff in H. destruct H as (b' & E & Hb'). destruct (A b' Hb') as (b & Hb & _ & ->). rewrite cut_key in E. rewrite <- E. now apply in_map. }
      unfold elem. rewrite !bsum_zero; [reflexivity| |]; intros b2 Hb2; destruct (tup_eqb_spec L (fst b2) (put L q (map fst c))) as [E2|]; try reflexivity; [destruct I|destruct I']; rewrite <- E2; now apply in_map.
  - apply elem_out. intros b' Hb' E X. destruct (A b' Hb') as (b & Hb & _ & ->). rewrite cut_key in E. destruct (Sh b Hb) as (rs & Es). rewrite E, lab_put in *. destruct (cut_ok (sel q) b (d q) rs Es (selR q)) as [C1 _]. rewrite C1 in X. apply put_shape in X. apply andb_false_iff in Ez. lia.
Qed.
End Pick.

Lemma last_at_ok : forall gl (b : block) d rs, nshape (snd b) = put_last Z d rs -> (forall z, In z gl -> 0 <= z < d) ->
  nshape (snd (last_at R L gl b)) = put_last Z (Z.of_nat (length gl)) rs /\ forall z ys, 0 <= z < Z.of_nat (length gl) -> nget (snd (last_at R L gl b)) (put_last Z z ys) = nget (snd b) (put_last Z (nth (Z.to_nat z) gl 0) ys).
Proof.
  clear gsN gsR gsS SN. intros gl b d rs E H. assert (E1: nshape (snd (last_at R L gl b)) = put_last Z (Z.of_nat (length gl)) rs) by (cbn [last_at snd nshape]; rewrite E; unfold put_last; now rewrite removelast_last). split; [exact E1|].
  intros z ys Hz. assert (Hn: In (nth (Z.to_nat z) gl 0) gl) by (apply nth_In; lia). apply H in Hn. destruct (in_shapeb rs ys) eqn:Ei.
  - apply in_shapeb_spec in Ei. rewrite !nget_in by (rewrite ?E1, ?E; apply put_last_shape; auto). cbn [last_at snd nval]. unfold put_last. now rewrite removelast_last, last_last.
  - assert (~ in_shape rs ys) by (rewrite <- in_shapeb_spec; congruence). rewrite !nget_out; auto; rewrite ?E1, ?E, put_last_shape; tauto.
Qed.
Lemma first_at_ok : forall gl (b : block) d rs, nshape (snd b) = put_first Z d rs -> (forall z, In z gl -> 0 <= z < d) ->
  nshape (snd (first_at R L gl b)) = put_first Z (Z.of_nat (length gl)) rs /\ forall z ys, 0 <= z < Z.of_nat (length gl) -> nget (snd (first_at R L gl b)) (put_first Z z ys) = nget (snd b) (put_first Z (nth (Z.to_nat z) gl 0) ys).
Proof.
  clear gsN gsR gsS SN. intros gl b d rs E H. assert (E1: nshape (snd (first_at R L gl b)) = put_first Z (Z.of_nat (length gl)) rs) by (cbn [first_at snd nshape]; rewrite E; reflexivity). split; [exact E1|].
  intros z ys Hz. assert (Hn: In (nth (Z.to_nat z) gl 0) gl) by (apply nth_In; lia). apply H in Hn. destruct (in_shapeb rs ys) eqn:Ei.
  - apply in_shapeb_spec in Ei. rewrite !nget_in by (rewrite ?E1, ?E; apply put_first_shape; auto). reflexivity.
  - assert (~ in_shape rs ys) by (rewrite <- in_shapeb_spec; congruence). rewrite !nget_out; auto; rewrite ?E1, ?E, put_first_shape; tauto.
Qed.
End Cut.
