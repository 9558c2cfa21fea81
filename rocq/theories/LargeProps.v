(** C81: conversion between flat and large fermion tensors. *)
From Coq Require Import ZArith Bool List Lia Permutation.
From Verif Require Import RingLib OptLib LargeModel.
Import ListNotations.

(** *** offsets *)
Definition total (l : info) : nat := fold_right (fun p s => (snd p + s)%nat) 0%nat l.
Lemma ins_perm : forall p l, Permutation (ins p l) (p :: l).
Proof. intros p l. induction l as [|x l IH]; cbn; [reflexivity|]. destruct (_ <=? _)%Z; [reflexivity|]. rewrite IH. apply perm_swap. Qed.
Lemma sorted_perm : forall l, Permutation (sorted l) l.
Proof. induction l as [|x l IH]; cbn; [reflexivity|]. rewrite ins_perm. now constructor. Qed.
Lemma total_perm : forall a b, Permutation a b -> total a = total b.
Proof. intros a b P. unfold total. induction P; cbn; lia. Qed.
Lemma running_at : forall l x q d, NoDup (map fst l) -> In (q, d) l -> exists o, lookup q (running x l) = Some o /\ (x <= o)%nat /\ (o + d <= x + total l)%nat.
Proof.
  induction l as [|[k e] l IH]; intros x q d ND I; [destruct I|]. cbn [map fst] in ND. apply NoDup_cons_iff in ND as [Nk ND]. cbn [running lookup total fold_right snd]. fold (total l). destruct (Z.eqb_spec q k) as [->|Nq].
  - exists (x + e - e)%nat. destruct I as [E|I]; [injection E as ->|exfalso; apply Nk; change k with (fst (k, d)); now apply in_map]. split; [reflexivity|lia].
  - destruct I as [E|I]; [injection E as -> ->; congruence|]. destruct (IH (x + e)%nat q d ND I) as (o & E & H1 & H2). exists o. split; [exact E|lia].
Qed.
Lemma running_apart : forall l x q d q' d' o o', NoDup (map fst l) -> In (q, d) l -> In (q', d') l -> q <> q' -> lookup q (running x l) = Some o -> lookup q' (running x l) = Some o' -> (o + d <= o' \/ o' + d' <= o)%nat.
Proof.
  induction l as [|[k e] l IH]; intros x q d q' d' o o' ND I I' N E E'; [destruct I|]. cbn [map fst] in ND. apply NoDup_cons_iff in ND as [Nk ND].
  assert (K0 : forall a b, In (a, b) l -> a <> k) by (intros a b Hi ->; apply Nk; change k with (fst (k, b)); now apply in_map).
  cbn [running lookup] in E, E'. destruct I as [I|I], I' as [I'|I'].
  - congruence.
  - injection I as -> ->. rewrite Z.eqb_refl in E. injection E as <-. destruct (Z.eqb_spec q' q) as [->|_]; [congruence|].
    destruct (running_at l (x + d)%nat q' d' ND I') as (p & F & G & _). rewrite F in E'. injection E' as <-. left. lia.
  - injection I' as -> ->. rewrite Z.eqb_refl in E'. injection E' as <-. destruct (Z.eqb_spec q q') as [->|_]; [congruence|].
    destruct (running_at l (x + d')%nat q d ND I) as (p & F & G & _). rewrite F in E. injection E as <-. right. lia.
  - destruct (Z.eqb_spec q k) as [->|_]; [exfalso; exact (K0 _ _ I eq_refl)|]. destruct (Z.eqb_spec q' k) as [->|_]; [exfalso; exact (K0 _ _ I' eq_refl)|]. exact (IH _ _ _ _ _ _ _ ND I I' N E E').
Qed.
Lemma keys_sorted : forall l, NoDup (map fst l) -> NoDup (map fst (sorted l)).
Proof. intros l H. apply (Permutation_NoDup (l := map fst l)); [apply Permutation_map, Permutation_sym, sorted_perm|exact H]. Qed.
Lemma offsets_at : forall l q d, NoDup (map fst l) -> In (q, d) l -> exists o, lookup q (offsets l) = Some o /\ (o + d <= total l)%nat.
Proof.
  intros l q d ND I. destruct (running_at (sorted l) 0 q d (keys_sorted l ND)) as (o & E & _ & H); [apply (Permutation_in _ (Permutation_sym (sorted_perm l))); exact I|].
  exists o. split; [exact E|]. rewrite <- (total_perm _ _ (sorted_perm l)). lia.
Qed.
Lemma offsets_apart : forall l q d q' d' o o', NoDup (map fst l) -> In (q, d) l -> In (q', d') l -> q <> q' -> lookup q (offsets l) = Some o -> lookup q' (offsets l) = Some o' -> (o + d <= o' \/ o' + d' <= o)%nat.
Proof.
  intros l q d q' d' o o' ND I I' N E E'. apply (running_apart (sorted l) 0 q d q' d' o o' (keys_sorted l ND)); try assumption; apply (Permutation_in _ (Permutation_sym (sorted_perm l))); assumption.
Qed.

(* the dimensions of the smaller labels *)
Definition below (q : Z) (l : info) : nat := total (filter (fun p => (fst p <? q)%Z) l).
Fixpoint asc (l : info) : Prop := match l with [] => True | p :: l' => (forall x, In x l' -> (fst p <= fst x)%Z) /\ asc l' end.
Lemma ins_asc : forall p l, asc l -> asc (ins p l).
Proof.
  intros p l. induction l as [|x l IH]; intros A; cbn; [split; [intros y []|exact I]|]. destruct A as [A1 A2]. destruct (Z.leb_spec (fst p) (fst x)) as [L|L].
  - split; [|split; assumption]. intros y [<-|H]; [exact L|]. specialize (A1 y H). lia.
  - split; [|now apply IH]. intros y H. apply (Permutation_in _ (ins_perm p l)) in H as [<-|H]; [lia|now apply A1].
Qed.
Lemma sorted_asc : forall l, asc (sorted l).
Proof. induction l as [|p l IH]; [exact I|]. now apply ins_asc. Qed.
Lemma running_below : forall l x q d, NoDup (map fst l) -> asc l -> In (q, d) l -> lookup q (running x l) = Some (x + below q l)%nat.
Proof.
  induction l as [|[k e] l IH]; intros x q d ND A I; [destruct I|]. destruct A as [A1 A2]. cbn [map fst] in ND. apply NoDup_cons_iff in ND as [Nk ND]. cbn [running lookup]. unfold below. cbn [filter fst]. destruct (Z.eqb_spec q k) as [->|Nq].
  - rewrite Z.ltb_irrefl. assert (Z : filter (fun p => (fst p <? k)%Z) l = []).
    { clear -A1. induction l as [|y l IH]; [reflexivity|]. cbn. destruct (Z.ltb_spec (fst y) k); [specialize (A1 y (or_introl eq_refl)); cbn in A1; lia|]. apply IH. intros z Hz. apply A1. now right. }
    rewrite Z. cbn. f_equal. lia.
  - destruct I as [E|I]; [injection E as -> ->; congruence|]. pose proof (A1 _ I) as L. cbn in L. destruct (Z.ltb_spec k q); [|lia]. cbn [total fold_right snd]. fold (total (filter (fun p => (fst p <? q)%Z) l)). fold (below q l). rewrite (IH _ q d ND A2 I). f_equal. lia.
Qed.
Lemma below_perm : forall q a b, Permutation a b -> below q a = below q b.
Proof. intros q a b P. unfold below. apply total_perm. induction P; cbn; [constructor|destruct (_ <? _)%Z; [now constructor|assumption]|destruct (fst x <? q)%Z, (fst y <? q)%Z; try reflexivity; apply perm_swap|now transitivity (filter (fun p => (fst p <? q)%Z) l')]. Qed.
Lemma offsets_below : forall l q d, NoDup (map fst l) -> In (q, d) l -> lookup q (offsets l) = Some (below q l).
Proof.
  intros l q d ND I. unfold offsets. rewrite (running_below (sorted l) 0 q d (keys_sorted l ND) (sorted_asc l)); [|apply (Permutation_in _ (Permutation_sym (sorted_perm l))); exact I].
  f_equal. exact (below_perm q _ _ (sorted_perm l)).
Qed.

(** *** addresses *)
Lemma unaddress_add : forall shape m r, Forall (fun s => (0 < s)%nat) shape -> unaddress shape (m * prod shape + r) = unaddress shape r.
Proof.
  induction shape as [|s shape IH]; intros m r P; [reflexivity|]. apply Forall_cons_iff in P as [Ps P]. unfold unaddress in *. cbn [strides combine map fst snd prod fold_right]. fold (prod shape). f_equal.
  - assert (Z : prod shape <> 0%nat) by (clear -P; induction P; cbn; [lia|]; unfold prod in *; nia).
    replace (m * (s * prod shape) + r)%nat with ((m * s) * prod shape + r)%nat by lia. rewrite Nat.div_add_l by exact Z. rewrite Nat.add_comm. apply Nat.mod_add. lia.
  - replace (m * (s * prod shape) + r)%nat with ((m * s) * prod shape + r)%nat by lia. exact (IH (m * s)%nat r P).
Qed.
Lemma address_lt : forall shape pidx, Forall2 lt pidx shape -> (address shape pidx < prod shape)%nat.
Proof.
  intros shape pidx F. induction F as [|p s pidx shape Hp F IH]; [cbn; lia|]. unfold address in *. cbn [strides combine fold_right fst snd prod]. fold (prod shape). nia.
Qed.
Lemma unaddress_address : forall shape pidx, Forall2 lt pidx shape -> unaddress shape (address shape pidx) = pidx.
Proof.
  intros shape pidx F. induction F as [|p s pidx shape Hp F IH]; [reflexivity|]. pose proof (address_lt shape pidx F) as L.
  assert (A : address (s :: shape) (p :: pidx) = (p * prod shape + address shape pidx)%nat) by reflexivity. rewrite A.
  assert (T : unaddress shape (p * prod shape + address shape pidx) = pidx).
  { rewrite unaddress_add; [exact IH|]. clear -F. induction F; constructor; [lia|assumption]. }
  unfold unaddress at 1. cbn [strides combine map fst snd]. f_equal; [|exact T].
  rewrite Nat.div_add_l by lia. rewrite (Nat.div_small _ _ L), Nat.add_0_r. now apply Nat.mod_small.
Qed.

(** *** slices *)
Lemma in_slice_cons : forall p ps e es x xs, in_slice (p :: ps) (e :: es) (x :: xs) = ((p <=? x)%nat && (x <? p + e)%nat) && in_slice ps es xs.
Proof. intros. unfold in_slice. cbn [length combine forallb]. change (Nat.eqb (S (length xs)) (S (length ps))) with (Nat.eqb (length xs) (length ps)). destruct (Nat.eqb _ _); cbn; [reflexivity|]. now rewrite andb_false_r. Qed.
Lemma slice_in : forall pidx sh ix, length pidx = length sh -> Forall2 lt ix sh -> in_slice pidx sh (plus pidx ix) = true /\ minus (plus pidx ix) pidx = ix.
Proof.
  intros pidx sh ix L F. revert pidx L. induction F as [|x e ix sh Hx F IH]; intros [|p pidx] L; try discriminate L; [split; reflexivity|]. cbn in L. injection L as L. destruct (IH pidx L) as [A B].
  change (plus (p :: pidx) (x :: ix)) with ((p + x)%nat :: plus pidx ix). rewrite in_slice_cons, A. split.
  - destruct (Nat.leb_spec p (p + x)); [|lia]. destruct (Nat.ltb_spec (p + x) (p + e)); [reflexivity|lia].
  - change (minus ((p + x)%nat :: plus pidx ix) (p :: pidx)) with ((p + x - p)%nat :: minus (plus pidx ix) pidx). rewrite B. f_equal. lia.
Qed.

(** *** C81 *)
Section C81.
Variable K : CRing.
Notation block := (block K).
(* the leg has room for all labels, each label one positive dimension *)
Definition leg_ok (s : nat) (i : info) : Prop := NoDup (map fst i) /\ (forall q d, In (q, d) i -> (0 < d)%nat) /\ (total i <= s)%nat.
(* the labels and dimensions of a block are in the infos *)
Definition block_ok (infos : list info) (b : block) : Prop :=
  length (b_q K b) = length (b_sh K b) /\ Forall2 (fun i p => In p i) infos (combine (b_q K b) (b_sh K b)).
Definition tensor_ok (shape : list nat) (infos : list info) (bs : list block) : Prop :=
  Forall2 leg_ok shape infos /\ (forall b, In b bs -> block_ok infos b) /\ NoDup (map (b_q K) bs).
Definition same (b b' : block) : Prop := b_q K b = b_q K b' /\ b_sh K b = b_sh K b' /\ forall ix, Forall2 lt ix (b_sh K b) -> b_val K b ix = b_val K b' ix.

Inductive Place : list info -> list nat -> list Z -> list nat -> list nat -> Prop :=
| P_nil : Place [] [] [] [] []
| P_cons : forall i s q e o infos shape qs es os, leg_ok s i -> In (q, e) i -> lookup q (offsets i) = Some o -> Place infos shape qs es os -> Place (i :: infos) (s :: shape) (q :: qs) (e :: es) (o :: os).
Lemma place : forall shape infos, Forall2 leg_ok shape infos -> forall q sh, length q = length sh -> Forall2 (fun i p => In p i) infos (combine q sh) ->
  exists os, position (map offsets infos) q = Some os /\ Place infos shape q sh os.
Proof.
  intros shape infos F. induction F as [|s i shape infos Hs F IH]; intros [|q qs] [|e es] L G; cbn in L, G; try discriminate L; inversion G; subst.
  - exists []. split; [reflexivity|constructor].
  - injection L as L. destruct (IH qs es L H4) as (os & E & P). destruct Hs as (N & D & T). destruct (offsets_at i q e N H2) as (o & Eo & _).
    exists (o :: os). split; [unfold position in *; cbn [map combine mapM fst snd]; rewrite Eo; cbn [bind]; rewrite E; reflexivity|]. constructor; try assumption. repeat split; assumption.
Qed.
Lemma place_facts : forall infos shape q sh os, Place infos shape q sh os -> length os = length sh /\ Forall2 lt os shape /\ fits shape os sh = true.
Proof.
  intros infos shape q sh os P. induction P as [|i s q e o infos shape qs es os (N & D & T) I E P (A & B & C)]; [repeat split; constructor|].
  destruct (offsets_at i q e N I) as (o' & E' & H). rewrite E in E'. injection E' as <-. pose proof (D q e I). split; [cbn; congruence|]. split; [constructor; [lia|exact B]|].
  unfold fits in *. cbn [combine forallb]. rewrite C. destruct (Nat.leb_spec (o + e) s); [reflexivity|lia].
Qed.
Lemma place_apart : forall infos shape q sh os, Place infos shape q sh os -> forall q' sh' os', Place infos shape q' sh' os' -> q <> q' -> forall ix, in_slice os sh ix = true -> in_slice os' sh' ix = false.
Proof.
  intros infos shape q sh os P. induction P as [|i s q e o infos shape qs es os (N & D & T) I E P IH]; intros q' sh' os' P' Nq ix H; inversion P'; subst; [congruence|].
  destruct ix as [|x ix]; [discriminate H|]. rewrite in_slice_cons in H. apply andb_true_iff in H as [H1 H2]. rewrite in_slice_cons. apply andb_true_iff in H1 as [L1 L2]. apply Nat.leb_le in L1. apply Nat.ltb_lt in L2.
  destruct (Z.eq_dec q q0) as [<-|Nh].
  - rewrite (IH qs0 es0 os0); [apply andb_false_r|assumption|congruence|exact H2].
  - match goal with A : In (q0, e0) i, B : lookup q0 (offsets i) = Some o0 |- _ => pose proof (offsets_apart i q e q0 e0 o o0 N I A Nh E B) as X end.
    destruct (Nat.leb_spec o0 x); [|reflexivity]. destruct (Nat.ltb_spec x (o0 + e0)); [lia|reflexivity].
Qed.

Section Run.
Variables (shape : list nat) (infos : list info).
Definition pos (b : block) : list nat := match position (map offsets infos) (b_q K b) with Some p => p | None => [] end.
Definition entry (b : block) : list Z * list nat * nat := (b_q K b, b_sh K b, address shape (pos b)).
Definition placed (b : block) : Prop := position (map offsets infos) (b_q K b) = Some (pos b) /\ Place infos shape (b_q K b) (b_sh K b) (pos b).
Definition inb (b : block) (ix : list nat) : bool := in_slice (pos b) (b_sh K b) ix.
Lemma apart : forall b b' ix, placed b -> placed b' -> b_q K b <> b_q K b' -> inb b ix = true -> inb b' ix = false.
Proof. intros b b' ix [_ P] [_ P'] N H. exact (place_apart _ _ _ _ _ P _ _ _ P' N ix H). Qed.
Lemma put_all : forall bs es d, (forall b, In b bs -> placed b) -> NoDup (map (b_q K) bs) -> exists data,
  foldM (put_block K shape (map offsets infos)) (es, d) bs = Some (es ++ map entry bs, data) /\
  (forall b ix, In b bs -> inb b ix = true -> data ix = b_val K b (minus ix (pos b))) /\
  (forall ix, (forall b, In b bs -> inb b ix = false) -> data ix = d ix).
Proof.
  induction bs as [|b bs IH]; intros es d H ND.
  - exists d. cbn. rewrite app_nil_r. split; [reflexivity|]. split; [intros b ix []|reflexivity].
  - cbn [map] in ND. apply NoDup_cons_iff in ND as [Nb ND]. destruct (H b (or_introl eq_refl)) as [Ep Pl]. destruct (place_facts _ _ _ _ _ Pl) as (_ & _ & Fi).
    destruct (IH (es ++ [entry b]) (fun ix => if inb b ix then b_val K b (minus ix (pos b)) else d ix) (fun b' I => H b' (or_intror I)) ND) as (data & E & A & B).
    assert (Ap : forall b' ix, In b' bs -> inb b ix = true -> inb b' ix = false) by (intros b' ix I; apply apart; [exact (H b (or_introl eq_refl))|exact (H b' (or_intror I))|intros X; apply Nb; rewrite X; now apply in_map]).
    exists data. split; [|split].
    + cbn [foldM]. unfold put_block at 1. rewrite Ep. cbn [bind]. rewrite Fi. cbn [bind fst snd]. cbn [map]. change (es ++ entry b :: map entry bs) with (es ++ [entry b] ++ map entry bs). rewrite app_assoc. exact E.
    + intros b' ix [<-|I] Hx; [|now apply A]. rewrite B by (intros b' I; exact (Ap b' ix I Hx)). now rewrite Hx.
    + intros ix Hx. rewrite B by (intros b' I; apply Hx; now right). now rewrite (Hx b (or_introl eq_refl)).
Qed.
Lemma flip_all : forall (odd : list Z -> bool) bs (d : list nat -> K), (forall b, In b bs -> placed b) -> NoDup (map (b_q K) bs) ->
  let r := fold_left (fun data e => let '(q, sh, a) := e in if odd q then (fun ix => if in_slice (unaddress shape a) sh ix then ropp K (data ix) else data ix) else data) (map entry bs) d in
  (forall b ix, In b bs -> inb b ix = true -> r ix = if odd (b_q K b) then ropp K (d ix) else d ix) /\ (forall ix, (forall b, In b bs -> inb b ix = false) -> r ix = d ix).
Proof.
  intros odd bs. induction bs as [|b bs IH]; intros d H ND; cbn [map fold_left]; [split; [intros b ix []|intros; reflexivity]|].
  cbn [map] in ND. apply NoDup_cons_iff in ND as [Nb ND]. destruct (H b (or_introl eq_refl)) as [Ep Pl]. destruct (place_facts _ _ _ _ _ Pl) as (_ & Lt & _).
  unfold entry at 2 4. cbv iota. rewrite (unaddress_address shape (pos b) Lt).
  set (d' := if odd (b_q K b) then _ else d).
  assert (D1 : forall ix, inb b ix = true -> d' ix = if odd (b_q K b) then ropp K (d ix) else d ix) by (intros ix Hx; unfold d'; destruct (odd _); [|reflexivity]; unfold inb in Hx; now rewrite Hx).
  assert (D0 : forall ix, inb b ix = false -> d' ix = d ix) by (intros ix Hx; unfold d'; destruct (odd _); [|reflexivity]; unfold inb in Hx; now rewrite Hx).
  assert (Ap : forall b' ix, In b' bs -> inb b ix = true -> inb b' ix = false) by (intros b' ix I; apply apart; [exact (H b (or_introl eq_refl))|exact (H b' (or_intror I))|intros X; apply Nb; rewrite X; now apply in_map]).
  destruct (IH d' (fun b' I => H b' (or_intror I)) ND) as [A B]. split.
  - intros b' ix [<-|I] Hx; [rewrite B by (intros b' I; exact (Ap b' ix I Hx)); now apply D1|]. rewrite (A b' ix I Hx).
    assert (Z : inb b ix = false) by (destruct (inb b ix) eqn:X; [rewrite (Ap b' ix I X) in Hx; discriminate|reflexivity]). now rewrite (D0 ix Z).
  - intros ix Hx. rewrite B by (intros b' I; apply Hx; now right). apply D0. apply Hx. now left.
Qed.
Hypothesis OK : Forall2 leg_ok shape infos.
Lemma ok_placed : forall b, block_ok infos b -> placed b.
Proof. intros b [L F]. destruct (place shape infos OK _ _ L F) as (os & E & P). unfold placed, pos. rewrite E. split; [reflexivity|exact P]. Qed.
End Run.
End C81.

(* from_flat followed by to_flat gives the blocks back; the sign flips of odd blocks in the dense array are the sign flips of the blocks *)
Theorem c81_roundtrip : forall K shape infos bs, tensor_ok K shape infos bs -> exists t infos',
  from_flat K shape infos bs = Some (t, infos') /\ Forall2 (same K) bs (to_flat K t) /\
  forall odd : list Z -> bool, Forall2 (same K) (map (fun b => mkB K (b_q K b) (b_sh K b) (fun ix => if odd (b_q K b) then ropp K (b_val K b ix) else b_val K b ix)) bs) (to_flat K (local_flip K odd t)).
Proof.
  intros K shape infos bs (F & B & N). assert (Pl : forall b, In b bs -> placed K shape infos b) by (intros b I; apply ok_placed; [exact F|now apply B]).
  destruct (put_all K shape infos bs [] (fun _ => r0 K) Pl N) as (data & E & A & _).
  exists (mkL K shape (map (entry K shape infos) bs) data), (map offsets infos). split; [unfold from_flat; rewrite E; reflexivity|].
  assert (G : forall b ix, In b bs -> Forall2 lt ix (b_sh K b) -> inb K infos b (plus (unaddress shape (address shape (pos K infos b))) ix) = true /\
    data (plus (unaddress shape (address shape (pos K infos b))) ix) = b_val K b ix).
  { intros b ix I H. destruct (place_facts _ _ _ _ _ (proj2 (Pl b I))) as (L & Lt & _). rewrite (unaddress_address shape _ Lt). destruct (slice_in (pos K infos b) (b_sh K b) ix L H) as [S1 S2].
    split; [exact S1|]. rewrite (A b _ I S1). now rewrite S2. }
  split.
  - unfold to_flat. cbn [l_blocks l_shape l_data]. rewrite map_map. clear -G. induction bs as [|b bs IH]; [constructor|]. cbn [map]. constructor; [|apply IH; intros; apply G; [now right|assumption]].
    split; [reflexivity|]. split; [reflexivity|]. intros ix H. cbn. symmetry. exact (proj2 (G b ix (or_introl eq_refl) H)).
  - intros odd. destruct (flip_all K shape infos odd bs data Pl N) as [Fl _]. unfold to_flat, local_flip. cbn [l_blocks l_shape l_data]. rewrite map_map.
    set (r := fold_left _ (map (entry K shape infos) bs) data) in *.
    assert (Q : forall b ix, In b bs -> Forall2 lt ix (b_sh K b) -> r (plus (unaddress shape (address shape (pos K infos b))) ix) = if odd (b_q K b) then ropp K (b_val K b ix) else b_val K b ix).
    { intros b ix I H. destruct (G b ix I H) as [G1 G2]. rewrite (Fl b _ I G1), G2. reflexivity. }
    clearbody r. clear -Q. induction bs as [|b bs IH]; [constructor|]. cbn [map]. constructor; [|apply IH; intros; apply Q; [now right|assumption]].
    split; [reflexivity|]. split; [reflexivity|]. intros ix H. cbn in *. symmetry. exact (Q b ix (or_introl eq_refl) H).
Qed.
Print Assumptions c81_roundtrip.

(* The place of a block is on every leg after the dimensions of the smaller labels, in whatever order the labels
   are in the infos. *)
Theorem c81_position : forall K shape infos bs, tensor_ok K shape infos bs -> exists t infos',
  from_flat K shape infos bs = Some (t, infos') /\
  forall b ix, In b bs -> Forall2 lt ix (b_sh K b) -> l_data K t (plus (map (fun p => below (snd p) (fst p)) (combine infos (b_q K b))) ix) = b_val K b ix.
Proof.
  intros K shape infos bs (F & B & N). assert (Pl : forall b, In b bs -> placed K shape infos b) by (intros b I; apply ok_placed; [exact F|now apply B]).
  destruct (put_all K shape infos bs [] (fun _ => r0 K) Pl N) as (data & E & A & _).
  exists (mkL K shape (map (entry K shape infos) bs) data), (map offsets infos). split; [unfold from_flat; rewrite E; reflexivity|].
  intros b ix I H. destruct (Pl b I) as [_ P]. destruct (place_facts _ _ _ _ _ P) as (L & _ & _). destruct (slice_in (pos K infos b) (b_sh K b) ix L H) as [S1 S2].
  assert (Q : map (fun p => below (snd p) (fst p)) (combine infos (b_q K b)) = pos K infos b).
  { clear -P. induction P as [|i s q e o infos shape qs es os (N & D & T) I E P IH]; [reflexivity|]. cbn [combine map fst snd]. rewrite IH. f_equal. rewrite (offsets_below i q e N I) in E. now injection E. }
  rewrite Q. cbn [l_data]. rewrite (A b _ I S1). now rewrite S2.
Qed.
Print Assumptions c81_position.

(** *** example and refutation *)
Definition blk (q : list Z) (sh : list nat) (v : Z) : block Z_ring := mkB Z_ring q sh (fun ix => (v + Z.of_nat (fold_right (fun x a => (x + 10 * a)%nat) 0%nat ix))%Z).
Definition ex_infos : list info := [[(5%Z, 2%nat); (3%Z, 1%nat)]; [(0%Z, 2%nat); (1%Z, 3%nat)]].
Definition ex_bs : list (block Z_ring) := [blk [5; 0]%Z [2; 2]%nat 100; blk [3; 1]%Z [1; 3]%nat 200].
Ltac leg := split; [repeat constructor; cbn; intuition discriminate|split; [intros q d H; cbn in H; repeat (destruct H as [H|H]; [injection H as <- <-; lia|]); destruct H|cbn; lia]].
Lemma ex_ok : tensor_ok Z_ring [3; 5]%nat ex_infos ex_bs.
Proof.
  split; [|split].
  - constructor; [leg|constructor; [leg|constructor]].
  - intros b [<-|[<-|[]]]; (split; [reflexivity|]); cbn; repeat (constructor; [cbn; tauto|]); constructor.
  - repeat constructor; cbn; [intros [H|[]]; discriminate H|intros H; exact H].
Qed.
Definition read (o : option (large Z_ring * list info)) (k : nat) (ix : list nat) : option Z :=
  match o with Some (t, _) => match nth_error (to_flat Z_ring t) k with Some b => Some (b_val Z_ring b ix) | None => None end | None => None end.
Example ex_large : let o := from_flat Z_ring [3; 5]%nat ex_infos ex_bs in
  match o with Some (t, _) => (map snd (l_blocks Z_ring t), l_data Z_ring t [1; 1]%nat, l_data Z_ring t [0; 4]%nat) = ([5; 2]%nat, 110%Z, 220%Z) | None => False end /\
  read o 0 [1; 0]%nat = Some 101%Z /\ read o 1 [0; 2]%nat = Some 220%Z.
Proof. vm_compute. repeat split. Qed.

(* The infos given to from_flat are overwritten by offsets: a second call with them puts two blocks at the same place.  _tensordot
   (689-697) gives the same BondInfo object to the conversions of both tensors. *)
Theorem c81_infos_refuted : exists shape infos bs, tensor_ok Z_ring shape infos bs /\
  match from_flat Z_ring shape infos bs with
  | Some (_, infos') => read (from_flat Z_ring shape infos' bs) 0 [0]%nat = Some 2%Z /\ (exists b, nth_error bs 0 = Some b /\ b_val Z_ring b [0]%nat = 1%Z)
  | None => False end.
Proof.
  exists [4]%nat, [[(0%Z, 2%nat); (1%Z, 2%nat)]], [blk [0]%Z [2]%nat 1; blk [1]%Z [2]%nat 2]. split.
  - split; [|split].
    + constructor; [leg|constructor].
    + intros b [<-|[<-|[]]]; (split; [reflexivity|]); cbn; repeat (constructor; [cbn; tauto|]); constructor.
    + repeat constructor; cbn; [intros [H|[]]; discriminate H|intros H; exact H].
  - vm_compute. split; [reflexivity|]. eexists. split; reflexivity.
Qed.
Print Assumptions c81_infos_refuted.
