(** Properties C10-C12: fused legs.
    Specification notions: [signed_total] (FuseProofs.v) is the signed sum of labels, [is_combo infos qls shs] says that
    leg i has label qls_i with multiplicity shs_i, [leg_state] is one state of a leg (label, index inside the label),
    [place] reads off a result where a tuple of leg states is stored. *)
From Coq Require Import ZArith Bool List Ascii Lia Permutation.
From Verif Require Import SymModel SymProofs DictLib IndexLib BondModel BondProofs FuseModel FuseProofs.
Import ListNotations.
Open Scope Z_scope.

Lemma prod32_nn : forall p, 0 <= prod32 p.
Proof. intros p; pose proof (prod32_range p); lia. Qed.

Section Spec.
Variable L : Label.
(* what the caller sees: the entries and the dimension of fused label q *)
Definition entries (res : dict L Z * finfo_t L) (q : L) : list (list L * (Z * list Z)) :=
  match dget (qeqb L) (snd res) q with Some d => d | None => [] end.
Definition dim (res : dict L Z * finfo_t L) (q : L) : Z := bget L (fst res) q.

Definition allowed (ref : option (dict L Z)) (q : L) : Prop :=
  match ref with None => True | Some r => In q (map fst r) end.
Lemma allowed_in_ref : forall ref q, in_ref L ref q = true <-> allowed ref q.
Proof. intros [r|] q; cbn; [apply bmem_in|tauto]. Qed.

(* block sizes fit in 32 bits *)
Definition fits (infos : list (dict L Z)) : Prop := forall qls shs, is_combo L infos qls shs -> prodZ shs < 2 ^ 32.

Definition leg_state (info : dict L Z) (s : L * Z) : Prop := exists n, In (fst s, n) info /\ 0 <= snd s < n.

Definition place (res : dict L Z * finfo_t L) (pat : list ascii) (st : list (L * Z)) : option (L * Z) :=
  let q := signed_total L pat (map fst st) in
  match find (fun e => tup_eqb L (fst e) (map fst st)) (entries res q) with
  | Some (_, (off, shs)) => Some (q, off + ravel shs (map snd st))
  | None => None
  end.

Lemma at_q_entries : forall res q, entries res q = at_q L res q. Proof. reflexivity. Qed.

Lemma wf_nodup : forall infos, Forall (wf L) infos -> Forall (fun d : dict L Z => NoDup (keys d)) infos.
Proof. intros infos H. eapply Forall_impl; [|exact H]. intros a Ha. apply Ha. Qed.

Lemma combo_pos : forall infos qls shs, Forall (wf L) infos -> is_combo L infos qls shs -> Forall (fun s => 0 < s) shs.
Proof.
  intros infos qls shs Hw (F & E1 & E2). revert qls shs F E1 E2. induction Hw; intros qls shs F E1 E2.
  - destruct shs; [constructor|discriminate].
  - destruct qls as [|k qls], shs as [|s shs]; try discriminate. cbn in F. inversion F; subst.
    constructor.
    + destruct H as [_ P]. exact (P _ H3).
    + eapply IHHw; eauto.
Qed.

Lemma fuse_facts : forall lt infos ref pat, Forall (wf L) infos ->
  let res := fuse_product L lt infos ref pat in
  (forall q, entries res q = layout prod32 0 (group (qeqb L) q (fp_items L lt infos ref pat))) /\
  (forall q, dim res q = total prod32 (group (qeqb L) q (fp_items L lt infos ref pat))).
Proof.
  intros lt infos ref pat Hw. cbv zeta. rewrite fuse_product_fold.
  destruct (gput_fold (qeqb L) (qeqb_spec L) (tup_eqb L) (tup_eqb_spec L) prod32 prod32_nn (fp_items L lt infos ref pat)) as (A & B & _).
  { apply fp_items_nodup. now apply wf_nodup. }
  cbv zeta in A, B. split; intros q.
  - exact (B q).
  - exact (A q).
Qed.
End Spec.

(** ** C10 *)
(* every combination of blocks is stored exactly once, under its signed sum *)
Theorem c10_combinations_stored_once :
  forall (L : Label) (lt : L -> L -> bool) infos ref pat, Forall (wf L) infos ->
  let res := fuse_product L lt infos ref pat in
  (forall q qls shs, (exists off, In (qls, (off, shs)) (entries L res q)) <->
      is_combo L infos qls shs /\ q = signed_total L pat qls /\ allowed L ref q)
  /\ (forall q, NoDup (map fst (entries L res q))).
Proof.
  intros L lt infos ref pat Hw. cbv zeta. destruct (fuse_facts L lt infos ref pat Hw) as [A _]. cbv zeta in A. split.
  - intros q qls shs. rewrite A. rewrite <- (allowed_in_ref L), <- (in_fp_items L lt).
    rewrite <- (in_group (qeqb L) (qeqb_spec L)). split.
    + intros (off & H). eapply layout_in; eauto.
    + apply in_layout.
  - intros q. rewrite A. change (map fst (layout prod32 0 ?x)) with (keys (layout prod32 0 x)). rewrite layout_keys.
    pose proof (fp_items_nodup L lt infos ref pat (wf_nodup L infos Hw)) as N.
    unfold group. rewrite map_map. revert N. generalize (fp_items L lt infos ref pat). clear.
    induction l as [|[g [k p]] l IH]; cbn [filter map fst snd]; intros N; [constructor|]. inversion N; subst.
    destruct (qeqb_spec L g q); cbn [map fst snd]; auto. constructor; auto.
    intro Hi. apply H1. apply in_map_iff in Hi. destruct Hi as ([g' [k' p']] & E & Hi). apply filter_In in Hi.
    cbn in *. destruct Hi as [Hi Hq]. destruct (qeqb_spec L g' q); [|discriminate]. subst.
    apply in_map_iff. exists (q, (k, p')). auto.
Qed.
Print Assumptions c10_combinations_stored_once.

(* the index ranges of one fused label are disjoint and cover 0..dim-1 *)
Theorem c10_ranges_tile :
  forall (L : Label) (lt : L -> L -> bool) infos ref pat, Forall (wf L) infos -> fits L infos ->
  let res := fuse_product L lt infos ref pat in
  (forall q qls off shs, In (qls, (off, shs)) (entries L res q) -> 0 <= off /\ off + prodZ shs <= dim L res q)
  /\ (forall q i, 0 <= i < dim L res q ->
        exists qls off shs, In (qls, (off, shs)) (entries L res q) /\ off <= i < off + prodZ shs)
  /\ (forall q qls off shs qls' off' shs' i,
        In (qls, (off, shs)) (entries L res q) -> In (qls', (off', shs')) (entries L res q) ->
        off <= i < off + prodZ shs -> off' <= i < off' + prodZ shs' -> qls = qls' /\ off = off').
Proof.
  intros L lt infos ref pat Hw Hf. cbv zeta. destruct (fuse_facts L lt infos ref pat Hw) as [A B]. cbv zeta in A, B.
  destruct (c10_combinations_stored_once L lt infos ref pat Hw) as [C _]. cbv zeta in C.
  assert (Hp: forall q qls off shs, In (qls, (off, shs)) (entries L (fuse_product L lt infos ref pat) q) -> prod32 shs = prodZ shs).
  { intros q qls off shs H. assert (K: is_combo L infos qls shs) by (apply (C q qls shs); eauto).
    apply prod32_small. split; [|eapply Hf; eauto]. apply prodZ_nonneg.
    eapply Forall_impl; [|eapply combo_pos; eauto]. intros; cbn in *; lia. }
  assert (Nn: forall p, 0 <= prod32 p) by (intros p; pose proof (prod32_range p); lia).
  split; [|split].
  - intros q qls off shs H. rewrite <- (Hp _ _ _ _ H). rewrite A in H. rewrite B.
    apply (layout_bounds (tup_eqb L) (tup_eqb_spec L) prod32 Nn) in H. lia.
  - intros q i Hi. rewrite B in Hi. destruct (layout_cover (tup_eqb L) (tup_eqb_spec L) prod32 Nn (group (qeqb L) q (fp_items L lt infos ref pat)) 0 i) as (k & o & p & H & Ho); [lia|].
    rewrite <- A in H. exists k, o, p. split; auto. now rewrite <- (Hp _ _ _ _ H).
  - intros q qls off shs qls' off' shs' i H H' Hi Hi'. rewrite <- (Hp _ _ _ _ H) in Hi. rewrite <- (Hp _ _ _ _ H') in Hi'.
    rewrite A in H, H'. pose proof (layout_disjoint (tup_eqb L) (tup_eqb_spec L) prod32 Nn _ _ _ _ _ _ _ _ _ H H' Hi Hi') as E. split; congruence.
Qed.
Print Assumptions c10_ranges_tile.

Lemma find_nodup : forall (L : Label) (V : Type) (l : list (list L * V)) k v, NoDup (map fst l) ->
  (find (fun e => tup_eqb L (fst e) k) l = Some (k, v) <-> In (k, v) l).
Proof.
  induction l as [|[k0 v0] l IH]; intros k v Hn; cbn [find map] in *.
  - split; [discriminate|intros []].
  - inversion Hn; subst. cbn [fst]. destruct (tup_eqb_spec L k0 k).
    + subst. split; [intros H; left; congruence|]. intros [H|H]; [congruence|].
      exfalso. apply H1. apply in_map_iff. exists (k, v). auto.
    + rewrite IH by auto. split; [now right|]. intros [H|H]; [congruence|auto].
Qed.
Lemma find_none : forall (L : Label) (V : Type) (l : list (list L * V)) k e,
  find (fun e => tup_eqb L (fst e) k) l = Some e -> fst e = k /\ In e l.
Proof.
  intros L V l k e H. apply find_some in H. destruct H as [H E]. destruct (tup_eqb_spec L (fst e) k); [auto|discriminate].
Qed.

(* fused states (q, i) and allowed tuples of leg states are in one-to-one correspondence *)
Theorem c10_state_bijection :
  forall (L : Label) (lt : L -> L -> bool) infos ref pat, Forall (wf L) infos -> fits L infos ->
  let res := fuse_product L lt infos ref pat in
  (forall st, Forall2 (leg_state L) infos st -> allowed L ref (signed_total L pat (map fst st)) ->
     exists i, place L res pat st = Some (signed_total L pat (map fst st), i)
               /\ 0 <= i < dim L res (signed_total L pat (map fst st)))
  /\ (forall st st' x, Forall2 (leg_state L) infos st -> Forall2 (leg_state L) infos st' ->
        place L res pat st = Some x -> place L res pat st' = Some x -> st = st')
  /\ (forall q i, 0 <= i < dim L res q ->
        exists st, Forall2 (leg_state L) infos st /\ place L res pat st = Some (q, i)).
Proof.
  intros L lt infos ref pat Hw Hf. cbv zeta.
  destruct (c10_combinations_stored_once L lt infos ref pat Hw) as [C N]. cbv zeta in C, N.
  destruct (c10_ranges_tile L lt infos ref pat Hw Hf) as (R1 & R2 & R3). cbv zeta in R1, R2, R3.
  set (res := fuse_product L lt infos ref pat) in *.
  (* a tuple of leg states determines its combination *)
  assert (Cb: forall st, Forall2 (leg_state L) infos st -> exists shs, is_combo L infos (map fst st) shs /\ in_shape shs (map snd st)).
  { clear - Hw. intros st F. induction F as [|info [k x] infos st (n & Hi & Hx) F IH].
    - exists []. split; [repeat split; constructor|constructor].
    - inversion Hw; subst. destruct (IH H2) as (shs & (F' & E1 & E2) & S). exists (n :: shs).
      split; [repeat split; cbn in *; auto|constructor; auto]. }
  assert (Uq: forall qls shs shs', is_combo L infos qls shs -> is_combo L infos qls shs' -> shs = shs').
  { clear - Hw. induction Hw; intros qls shs shs' (F & E1 & E2) (F' & E1' & E2').
    - destruct shs, shs'; try discriminate. reflexivity.
    - destruct qls, shs, shs'; try discriminate. cbn in F, F'. inversion F; subst. inversion F'; subst.
      f_equal.
      + rewrite <- (bget_in L x q z (proj1 H)), <- (bget_in L x q z0 (proj1 H)); auto.
      + apply (IHHw qls); (split; [assumption|split; cbn in *; congruence]). }
  assert (Pl: forall st shs, is_combo L infos (map fst st) shs -> allowed L ref (signed_total L pat (map fst st)) ->
     exists off, In (map fst st, (off, shs)) (entries L res (signed_total L pat (map fst st)))
      /\ place L res pat st = Some (signed_total L pat (map fst st), off + ravel shs (map snd st))).
  { intros st shs Hc Ha. destruct (proj2 (C _ _ _) (conj Hc (conj eq_refl Ha))) as (off & Ho).
    exists off. split; auto. unfold place. rewrite (proj2 (find_nodup L _ _ _ _ (N _)) Ho). reflexivity. }
  split; [|split].
  - intros st F Ha. destruct (Cb st F) as (shs & Hc & Hs). destruct (Pl st shs Hc Ha) as (off & Ho & E).
    eexists. split; [exact E|]. pose proof (R1 _ _ _ _ Ho). pose proof (ravel_range _ _ Hs). lia.
  - intros st st' [q i] F F' E E'.
    assert (Sh: forall st, Forall2 (leg_state L) infos st -> place L res pat st = Some (q, i) ->
       exists off shs, is_combo L infos (map fst st) shs /\ in_shape shs (map snd st) /\
         In (map fst st, (off, shs)) (entries L res q) /\ i = off + ravel shs (map snd st)).
    { clear st st' F F' E E'. intros st F E. unfold place in E.
      destruct (find _ _) as [[k [off shs]]|] eqn:Ef; [|discriminate].
      apply find_none in Ef. cbn in Ef. destruct Ef as [-> Hi]. injection E as Eq Ei.
      destruct (Cb st F) as (shs' & Hc & Hs).
      assert (Hc2: is_combo L infos (map fst st) shs) by (apply (C (signed_total L pat (map fst st)) (map fst st) shs); eauto).
      rewrite (Uq _ _ _ Hc Hc2) in *. exists off, shs. rewrite <- Eq. auto. }
    destruct (Sh st F E) as (o & s & Hc & Hs & Hi & Ei). destruct (Sh st' F' E') as (o' & s' & Hc' & Hs' & Hi' & Ei').
    pose proof (ravel_range _ _ Hs). pose proof (ravel_range _ _ Hs').
    destruct (R3 q _ _ _ _ _ _ i Hi Hi') as [Ek Eo]; [lia|lia|].
    assert (s = s') by (rewrite Ek in Hc; eapply Uq; eauto). subst s' o'.
    assert (Ex: map snd st = map snd st') by (apply (ravel_inj s); auto; lia).
    clear - Ek Ex. revert st' Ek Ex. induction st as [|[a b] st IH]; destruct st' as [|[c d] st']; cbn; intros; try discriminate; auto.
    f_equal; [congruence|]. apply IH; congruence.
  - intros q i Hi. destruct (R2 q i Hi) as (qls & off & shs & Ho & Hr).
    assert (Hc: is_combo L infos qls shs /\ q = signed_total L pat qls /\ allowed L ref q) by (apply C; eauto).
    destruct Hc as (Hc & Eq & Ha).
    assert (Pz: Forall (fun s => 0 <= s) shs) by (eapply Forall_impl; [|eapply combo_pos; eauto]; intros; cbn in *; lia).
    pose proof (unravel_in_shape shs (i - off) ltac:(lia) Pz) as Hs.
    exists (combine qls (unravel shs (i - off))).
    assert (Len: length qls = length (unravel shs (i - off))).
    { rewrite (in_shape_length _ _ Hs). destruct Hc as (_ & -> & ->). reflexivity. }
    assert (M: map fst (combine qls (unravel shs (i - off))) = qls /\ map snd (combine qls (unravel shs (i - off))) = unravel shs (i - off)).
    { revert Len. generalize (unravel shs (i - off)). clear. induction qls; destruct l; cbn; intros; try discriminate; auto.
      destruct (IHqls l) as [A B]; [lia|]. split; congruence. }
    destruct M as [M1 M2]. split.
    + clear - Hc Hs Len. destruct Hc as (F & E1 & E2). revert F E1 E2 Hs Len. generalize (unravel shs (i - off)).
      clear. intros xs F E1 E2 Hs Len. revert xs qls shs F E1 E2 Hs Len. induction infos as [|info infos' IH]; intros xs qls shs F E1 E2 Hs Len.
      * destruct qls; [|discriminate]. constructor.
      * destruct qls as [|k qls], shs as [|s shs]; try discriminate. inversion Hs; subst. cbn in F. inversion F; subst.
        cbn. constructor; [exists s; auto|]. eapply IH; eauto.
    + destruct (Pl (combine qls (unravel shs (i - off))) shs) as (off' & Ho' & E).
      * now rewrite M1.
      * rewrite M1, <- Eq. exact Ha.
      * rewrite M1, M2, <- Eq in *. rewrite E. f_equal. f_equal.
        rewrite ravel_unravel by (auto; lia).
        assert (In (qls, (off', shs)) (entries L res q)) by exact Ho'.
        pose proof (proj2 (find_nodup L _ _ _ _ (N q)) Ho). pose proof (proj2 (find_nodup L _ _ _ _ (N q)) H).
        assert (off = off') by congruence. lia.
Qed.
Print Assumptions c10_state_bijection.

Theorem c10_dimensions_multiply :
  forall (L : Label) (lt : L -> L -> bool) infos pat, Forall (wf L) infos -> fits L infos ->
  n_bonds L (fst (fuse_product L lt infos None pat)) = prodZ (map (n_bonds L) infos).
Proof.
  intros L lt infos pat Hw Hf. rewrite fuse_product_fold, gp_total. cbn [fst]. change (n_bonds L []) with 0.
  unfold fp_items. cbn [in_ref]. rewrite filter_true, map_map. cbn [snd].
  rewrite (zsum_map_ext _ _ (fun x => prodZ (map snd x))).
  - rewrite cart_total, map_map. cbn. f_equal. apply map_ext. intros a. unfold n_bonds. apply zsum_perm.
    apply Permutation_map. apply Permutation_sym. apply sort_perm.
  - intros x Hx. assert (Hc: is_combo L infos (map fst x) (map snd x)).
    { apply (proj1 (in_fp_items L lt infos None pat (fuse_q L pat (map fst x)) _ _)).
      unfold fp_items. cbn [in_ref]. rewrite filter_true. apply in_map_iff. exists x. auto. }
    apply prod32_small. split; [|eapply Hf; eauto]. apply prodZ_nonneg.
    eapply Forall_impl; [|eapply combo_pos; eauto]. intros; cbn in *; lia.
Qed.
Print Assumptions c10_dimensions_multiply.

(* FINDING: without the 32-bit restriction the layout is wrong: two legs of 65536 states fuse to an empty range *)
Theorem c10_without_32bit_bound_refuted :
  exists (infos : list (dict U1_label Z)) (pat : list ascii),
    Forall (wf U1_label) infos /\
    n_bonds U1_label (fst (fuse_product U1_label (qltb U1_label) infos None pat)) <> prodZ (map (n_bonds U1_label) infos).
Proof.
  exists [[(0, 65536)]; [(1, 65536)]], (["+"; "+"]%char). split.
  - repeat constructor; cbn; try tauto; intros p [<-|[]]; cbn; lia.
  - vm_compute. discriminate.
Qed.
Print Assumptions c10_without_32bit_bound_refuted.

Example c10_case :
  let infos := [[(1, 2); (0, 3)]; [(0, 1); (1, 2)]] : list (dict U1_label Z) in
  Forall (wf U1_label) infos /\ fits U1_label infos /\
  entries U1_label (fuse_product U1_label (qltb U1_label) infos None ["+"; "-"]%char) 0
    = [([0; 0], (0, [3; 1])); ([1; 1], (3, [2; 2]))].
Proof.
  cbv zeta. split; [|split].
  - repeat (apply Forall_cons || apply Forall_nil); split; cbn; try (repeat constructor; cbn; intuition lia);
    intros p H; cbn in H; intuition (subst; cbn; lia).
  - intros qls shs (F & E1 & E2). destruct qls as [|a [|b [|]]], shs as [|x [|y [|]]]; try discriminate.
    cbn in F. inversion F as [|? ? ? ? A F']; subst. inversion F' as [|? ? ? ? B F'']; subst. cbn in A, B.
    assert (x <= 3 /\ 0 <= x) by (destruct A as [A|[A|[]]]; injection A as <- <-; lia).
    assert (y <= 2 /\ 0 <= y) by (destruct B as [B|[B|[]]]; injection B as <- <-; lia).
    cbn. nia.
  - vm_compute. reflexivity.
Qed.

(** ** C11 *)
Definition same_shape_per_tuple (L : Label) (items : list (list L * list Z)) : Prop :=
  forall qs shs shs', In (qs, shs) items -> In (qs, shs') items -> shs = shs'.

(* the entries of q: exactly the tuples with signed sum q, once each, tiling 0..dim-1 *)
Theorem c11_layout :
  forall (L : Label) items ref pat,
  same_shape_per_tuple L items -> (forall it, In it items -> Forall (fun s => 0 <= s) (snd it) /\ prodZ (snd it) < 2 ^ 32) ->
  exists res, kron_sum L items ref pat = Some res /\ forall q,
    NoDup (map fst (entries L res q))
    /\ (forall qls shs, (exists off, In (qls, (off, shs)) (entries L res q)) <->
          In (qls, shs) items /\ signed_total L pat qls = q /\ allowed L ref q)
    /\ (forall qls off shs, In (qls, (off, shs)) (entries L res q) -> 0 <= off /\ off + prodZ shs <= dim L res q)
    /\ (forall i, 0 <= i < dim L res q -> exists qls off shs, In (qls, (off, shs)) (entries L res q) /\ off <= i < off + prodZ shs)
    /\ (forall qls off shs qls' off' shs' i,
        In (qls, (off, shs)) (entries L res q) -> In (qls', (off', shs')) (entries L res q) ->
        off <= i < off + prodZ shs -> off' <= i < off' + prodZ shs' -> qls = qls' /\ off = off').
Proof.
  intros L items ref pat Hc Hs.
  assert (Hc': forall q, consistent L (in_q L ref pat q items)).
  { intros q k s s' A B. apply in_q_in in A, B. eapply Hc; [apply A|apply B]. }
  destruct (kron_sum_spec L items ref pat Hc') as (res & E & S). exists res. split; [exact E|]. intros q.
  destruct (S q) as [S1 S2]. change (at_q L res q) with (entries L res q) in S1. change (bget L (fst res) q) with (dim L res q) in S2.
  assert (Nn: forall p, 0 <= prod32 p) by (intros p; pose proof (prod32_range p); lia).
  assert (Ei: forall qls shs, (exists off, In (qls, (off, shs)) (entries L res q)) <->
          In (qls, shs) items /\ signed_total L pat qls = q /\ allowed L ref q).
  { intros qls shs. rewrite S1. rewrite <- (allowed_in_ref L).
    rewrite <- (in_q_in L ref pat q items (qls, shs)). rewrite <- (canon_in L _ (Hc' q)). split.
    - intros (off & H). eapply layout_in; eauto.
    - apply in_layout. }
  assert (Hp: forall qls off shs, In (qls, (off, shs)) (entries L res q) -> prod32 shs = prodZ shs).
  { intros qls off shs H. assert (K: In (qls, shs) items) by (apply (Ei qls shs); eauto).
    destruct (Hs _ K) as [H1 H2]. apply prod32_small. split; [now apply prodZ_nonneg|auto]. }
  split; [|split; [exact Ei|split; [|split]]].
  - rewrite S1. change (map fst (layout prod32 0 ?x)) with (keys (layout prod32 0 x)). rewrite layout_keys. apply canon_nodup.
  - intros qls off shs H. rewrite <- (Hp _ _ _ H). rewrite S1 in H. rewrite S2. apply (layout_bounds (tup_eqb L) (tup_eqb_spec L) prod32 Nn) in H. lia.
  - intros i Hi. rewrite S2 in Hi. destruct (layout_cover (tup_eqb L) (tup_eqb_spec L) prod32 Nn (canon L (in_q L ref pat q items)) 0 i) as (k & o & p & H & Ho); [lia|].
    rewrite <- S1 in H. exists k, o, p. split; auto. now rewrite <- (Hp _ _ _ H).
  - intros qls off shs qls' off' shs' i H H' Hi Hi'. rewrite <- (Hp _ _ _ H) in Hi. rewrite <- (Hp _ _ _ H') in Hi'.
    rewrite S1 in H, H'. pose proof (layout_disjoint (tup_eqb L) (tup_eqb_spec L) prod32 Nn _ _ _ _ _ _ _ _ _ H H' Hi Hi') as E'. split; congruence.
Qed.
Print Assumptions c11_layout.

(* same set of items (any order, any repetitions): same layout *)
Theorem c11_order_and_repetition_insensitive :
  forall (L : Label) items items' ref pat res, same_shape_per_tuple L items ->
  (forall it, In it items <-> In it items') -> kron_sum L items ref pat = Some res ->
  exists res', kron_sum L items' ref pat = Some res' /\
    forall q, entries L res' q = entries L res q /\ dim L res' q = dim L res q.
Proof.
  intros L items items' ref pat res Hc He E.
  assert (Hc1: forall q, consistent L (in_q L ref pat q items)).
  { intros q k s s' A B. apply in_q_in in A, B. eapply Hc; [apply A|apply B]. }
  assert (Hc2: forall q, consistent L (in_q L ref pat q items')).
  { intros q k s s' A B. apply in_q_in in A, B. eapply Hc; apply He; [apply A|apply B]. }
  destruct (kron_sum_spec L items ref pat Hc1) as (r1 & E1 & S1).
  destruct (kron_sum_spec L items' ref pat Hc2) as (r2 & E2 & S2).
  rewrite E in E1. injection E1 as <-. exists r2. split; [exact E2|]. intros q.
  assert (Ec: canon L (in_q L ref pat q items') = canon L (in_q L ref pat q items)).
  { symmetry. apply canon_ext; auto. intros x. rewrite !in_q_in. rewrite He. tauto. }
  destruct (S1 q) as [A B]. destruct (S2 q) as [A' B']. rewrite Ec in *.
  change (entries L r2 q) with (at_q L r2 q). change (entries L res q) with (at_q L res q). unfold dim. split; congruence.
Qed.
Print Assumptions c11_order_and_repetition_insensitive.

(* contradicting shapes are rejected *)
Theorem c11_inconsistent_rejected :
  forall (L : Label) items ref pat qs shs shs', In (qs, shs) items -> In (qs, shs') items -> shs <> shs' ->
  allowed L ref (signed_total L pat qs) -> kron_sum L items ref pat = None.
Proof.
  intros L items ref pat qs shs shs' H H' N Ha. apply (kron_sum_none L items ref pat (signed_total L pat qs)).
  intro Hc. apply N. eapply (Hc qs); apply in_q_in; cbn; rewrite (allowed_in_ref L); auto.
Qed.
Print Assumptions c11_inconsistent_rejected.

Example c11_case :
  let items := [([1; 1], [2; 2]); ([0; 2], [1; 3]); ([1; 1], [2; 2]); ([2; 0], [1; 1])] : list (list U1_label * list Z) in
  same_shape_per_tuple U1_label items /\
  option_map (fun r => entries U1_label r 2) (kron_sum U1_label items None ["+"; "+"]%char)
    = Some [([0; 2], (0, [1; 3])); ([1; 1], (3, [2; 2])); ([2; 0], (7, [1; 1]))].
Proof.
  cbv zeta. split; [|vm_compute; reflexivity]. intros qs s s' H H'. cbn in H, H'. intuition congruence.
Qed.

(** ** C12 *)
Theorem c12_lower_symmetry :
  forall (L L' : Label) (info : dict L Z) (m : L -> L'), wf L info ->
  let res := symm_fusing L L' info m in
  let ent := fun q => match dget (qeqb L') (snd res) q with Some d => d | None => [] end in
  (forall q k v, (exists off, In (k, (off, v)) (ent q)) <-> In (k, v) info /\ q = m k)
  /\ (forall q, NoDup (map fst (ent q)))
  /\ (forall q k off v, In (k, (off, v)) (ent q) -> 0 <= off /\ off + v <= bget L' (fst res) q)
  /\ (forall q i, 0 <= i < bget L' (fst res) q -> exists k off v, In (k, (off, v)) (ent q) /\ off <= i < off + v)
  /\ (forall q k off v k' off' v' i, In (k, (off, v)) (ent q) -> In (k', (off', v')) (ent q) ->
        off <= i < off + v -> off' <= i < off' + v' -> k = k' /\ off = off')
  /\ n_bonds L' (fst res) = n_bonds L info.
Proof.
  intros L L' info m Hw. cbv zeta. rewrite symm_fold.
  set (items := map (fun kv => (m (fst kv), kv)) (sort_by (qltb L) fst info)).
  (* sizes are positive on the items: use the absolute value as size, equal on all items *)
  assert (Pi: forall q k v, In (q, (k, v)) items <-> In (k, v) info /\ q = m k).
  { intros q k v. unfold items. rewrite in_map_iff. split.
    - intros ([k' v'] & E & H). injection E as <- <- <-. split; [|reflexivity].
      eapply Permutation_in; [apply Permutation_sym, (sort_perm (qltb L) fst)|exact H].
    - intros (H & ->). exists (k, v). split; [reflexivity|]. eapply Permutation_in; [apply (sort_perm (qltb L) fst)|exact H]. }
  assert (Nk: NoDup (map fst (sort_by (qltb L) fst info))) by (apply sort_keys_nodup; apply Hw).
  assert (Nd: NoDup (map (fun x => (fst x, fst (snd x))) items)).
  { unfold items. rewrite map_map. cbn [fst snd]. apply (NoDup_map_inv snd). rewrite map_map. exact Nk. }
  assert (Ab: fold_left (gput (qeqb L') (qeqb L) (fun v : Z => v)) items ([], []) =
              fold_left (gput (qeqb L') (qeqb L) Z.abs) items ([], [])).
  { assert (P: forall x, In x items -> 0 <= snd (snd x)).
    { intros [q [k v]] H. apply Pi in H. destruct H as [H _]. destruct Hw as [_ P]. specialize (P _ H). cbn in *. lia. }
    assert (Gen: forall l st, (forall x, In x l -> 0 <= snd (snd x)) ->
      fold_left (gput (qeqb L') (qeqb L) (fun v : Z => v)) l st = fold_left (gput (qeqb L') (qeqb L) Z.abs) l st).
    { clear. induction l as [|[q [k v]] l IH]; intros st P; [reflexivity|]. cbn [fold_left].
      specialize (P (q, (k, v)) (or_introl eq_refl)) as P0. cbn in P0.
      assert (E: gput (qeqb L') (qeqb L) (fun v : Z => v) st (q, (k, v)) = gput (qeqb L') (qeqb L) Z.abs st (q, (k, v))).
      { destruct st. cbn [gput]. now rewrite Z.abs_eq by lia. }
      rewrite E. apply IH. intros x Hx. apply P. now right. }
    apply Gen. exact P. }
  rewrite Ab.
  destruct (gput_fold (qeqb L') (qeqb_spec L') (qeqb L) (qeqb_spec L) Z.abs Z.abs_nonneg items Nd) as (A & B & _). cbv zeta in A, B.
  set (res := fold_left (gput (qeqb L') (qeqb L) Z.abs) items ([], [])) in *.
  assert (Ei: forall q k v, (exists off, In (k, (off, v)) (odflt ([] : dict L (Z * Z)) (dget (qeqb L') (snd res) q))) <-> In (k, v) info /\ q = m k).
  { intros q k v. rewrite B, <- Pi, <- (in_group (qeqb L') (qeqb_spec L')). split.
    - intros (off & H). eapply layout_in; eauto.
    - apply in_layout. }
  assert (Hp: forall q k off v, In (k, (off, v)) (odflt ([] : dict L (Z * Z)) (dget (qeqb L') (snd res) q)) -> Z.abs v = v).
  { intros q k off v H. assert (K: In (k, v) info) by (apply (Ei q k v); eauto). destruct Hw as [_ P]. specialize (P _ K). cbn in P. lia. }
  assert (Nn: forall v, 0 <= Z.abs v) by (intros; lia).
  change (forall q : L', bget L' (fst res) q = total Z.abs (group (qeqb L') q items)) in A.
  split; [exact Ei|]. split; [|split; [|split; [|split]]].
  - intros q. fold (odflt ([] : dict L (Z * Z)) (dget (qeqb L') (snd res) q)). rewrite B.
    change (map fst (layout Z.abs 0 ?x)) with (keys (layout Z.abs 0 x)). rewrite layout_keys.
    unfold group. rewrite map_map. apply NoDup_map_inv with (f := fun x => x). rewrite map_id.
    unfold items. clear - Nk. revert Nk. generalize (sort_by (qltb L) fst info).
    induction l as [|[k v] l IH]; cbn [map filter fst snd]; intros N; [constructor|]. inversion N; subst.
    destruct (qeqb L' (m k) q); cbn [map fst snd]; auto. constructor; auto.
    intro Hi. apply H1. apply in_map_iff in Hi. destruct Hi as ([q' [k' v']] & E & Hi). apply filter_In in Hi.
    destruct Hi as [Hi _]. apply in_map_iff in Hi. destruct Hi as ([k2 v2] & E2 & Hi). injection E2 as _ -> ->. cbn in E. subst.
    apply in_map_iff. exists (k, v'). auto.
  - intros q k off v H. fold (odflt ([] : dict L (Z * Z)) (dget (qeqb L') (snd res) q)) in H. rewrite <- (Hp _ _ _ _ H). rewrite B in H. rewrite A.
    apply (layout_bounds (qeqb L) (qeqb_spec L) Z.abs Nn) in H. lia.
  - intros q i Hi. fold (odflt ([] : dict L (Z * Z)) (dget (qeqb L') (snd res) q)). rewrite A in Hi.
    destruct (layout_cover (qeqb L) (qeqb_spec L) Z.abs Nn (group (qeqb L') q items) 0 i) as (k & o & p & H & Ho); [lia|].
    rewrite <- B in H. exists k, o, p. split; auto. now rewrite <- (Hp _ _ _ _ H).
  - intros q k off v k' off' v' i H H' Hi Hi'. fold (odflt ([] : dict L (Z * Z)) (dget (qeqb L') (snd res) q)) in H, H'.
    rewrite <- (Hp _ _ _ _ H) in Hi. rewrite <- (Hp _ _ _ _ H') in Hi'.
    rewrite B in H, H'. pose proof (layout_disjoint (qeqb L) (qeqb_spec L) Z.abs Nn _ _ _ _ _ _ _ _ _ H H' Hi Hi') as E. split; congruence.
  - assert (T: forall its st, n_bonds L' (fst (fold_left (gput (qeqb L') (qeqb L) Z.abs) its st))
         = n_bonds L' (fst st) + zsum (map (fun x => Z.abs (snd (snd x))) its)).
    { clear. induction its as [|[g [k p]] its IH]; intros st; cbn [fold_left map].
      - cbn. lia.
      - rewrite IH, zsum_cons. cbn [snd]. destruct st as [quanta finfo]. cbn [gput fst].
        pose proof (zsum_dset_add L' quanta g (Z.abs p)) as E. unfold n_bonds. unfold bget, odflt in *. lia. }
    unfold res. rewrite T. change (n_bonds L' (fst ([], []))) with 0. unfold items. rewrite map_map. cbn [snd].
    unfold n_bonds. rewrite (zsum_perm (map snd info) (map snd (sort_by (qltb L) fst info))) by (apply Permutation_map, sort_perm).
    cbn. apply zsum_map_ext. intros [k v] H.
    assert (K: In (k, v) info) by (eapply Permutation_in; [apply Permutation_sym, (sort_perm (qltb L) fst)|exact H]).
    destruct Hw as [_ P]. specialize (P _ K). cbn in *. lia.
Qed.
Print Assumptions c12_lower_symmetry.

Example c12_case :
  let info := [((1, 1), 2); ((1, -1), 3); ((2, 0), 1)] : dict U11_label Z in
  wf U11_label info /\
  symm_fusing U11_label U1_label info (fun q => fst q) = ([(1, 5); (2, 1)], [(1, [((1, -1), (0, 3)); ((1, 1), (3, 2))]); (2, [((2, 0), (0, 1))])]).
Proof.
  cbv zeta. split; [|vm_compute; reflexivity].
  split; [cbn; repeat constructor; cbn; intuition congruence|intros p H; cbn in H; intuition (subst; cbn; lia)].
Qed.
