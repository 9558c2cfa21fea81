(** Properties C38 (tensor skeletons), C39 (kron_add), C44 (to_dense), C45 (symmetry_fuse), C46 (infos).
    Specification notions: [is_combo infos qs sh] (FuseProofs.v): one entry (label, dimension) of every leg;
    [signed_total] (FuseProofs.v): the sum of the labels with the signs of a pattern;
    [elem t qs xs] (BlockProofs.v): the element at position xs of the block with labels qs, 0 if there is none. *)
From Coq Require Import ZArith Bool List Sorted Ascii Lia Permutation Ring.
From Verif Require Import SymModel SymProofs DictLib IndexLib RingLib BondModel BondProofs FuseModel FuseProofs FuseProps
  BlockModel BlockProofs BlockProps StructModel StructProofs FuseTProofs SumProofs.
Import ListNotations.
Open Scope Z_scope.

Lemma map_fst_combine : forall (A B : Type) (a : list A) (b : list B), length a = length b -> map fst (combine a b) = a.
Proof. induction a as [|x a IH]; intros [|y b] H; cbn in *; try discriminate; [reflexivity|]. f_equal. apply IH. lia. Qed.
Lemma map_snd_combine : forall (A B : Type) (a : list A) (b : list B), length a = length b -> map snd (combine a b) = b.
Proof. induction a as [|x a IH]; intros [|y b] H; cbn in *; try discriminate; [reflexivity|]. f_equal. apply IH. lia. Qed.

Lemma Forall2_nth_intro : forall (A B : Type) (P : A -> B -> Prop) d d' l l', length l = length l' ->
  (forall k, (k < length l)%nat -> P (nth k l d) (nth k l' d')) -> Forall2 P l l'.
Proof.
  induction l as [|x l IH]; intros [|y l'] H Hk; cbn in H; try discriminate; constructor.
  - apply (Hk 0%nat). cbn. lia.
  - apply IH; [lia|]. intros k Hl. apply (Hk (S k)). cbn. lia.
Qed.

(** ** C38 *)
Section Skel.
Variable L : Label.
Notation binfo := (dict L Z).

Lemma signed_length : forall pat qs, length (signed L pat qs) = Nat.min (length qs) (length pat).
Proof. intros. unfold signed. now rewrite map_length, combine_length. Qed.
Lemma sorted_combo : forall (infos : list binfo) x, In x (cart (map (sort_by (qltb L) fst) infos)) <-> Forall2 (fun (i : binfo) e => In e i) infos x.
Proof.
  intros infos x. rewrite in_cart. revert x. induction infos as [|i is IH]; intros x; cbn [map]; split; intro H; inversion H; subst; constructor.
  - eapply Permutation_in; [apply Permutation_sym, (sort_perm (qltb L) fst)|eauto].
  - now apply IH.
  - eapply Permutation_in; [apply (sort_perm (qltb L) fst)|eauto].
  - now apply IH.
Qed.
End Skel.

(* the label that the signed sum has to reach *)
Definition target (L : Label) (dq : option L) : L := match dq with Some d => d | None => q0 L end.

Theorem c38_skeleton_complete :
  forall (L : Label) (infos : list (dict L Z)) (pat : list ascii) (dq : option L),
  infos <> [] -> length pat = length infos -> Forall (fun i => i <> []) infos ->
  exists sk, sp_skeleton L infos (Some pat) dq = Some sk
  /\ (forall sh qs, In (sh, qs) sk <-> is_combo L infos qs sh /\ (length infos = 1%nat \/ signed_total L pat qs = target L dq))
  /\ (Forall (fun i => NoDup (map fst i)) infos ->
       NoDup (map snd sk) /\ StronglySorted (fun a b => tup_ltb L (snd a) (snd b) = true) sk).
Proof.
  intros L infos pat dq Hn Hp Hne. unfold sp_skeleton.
  assert (E: existsb (fun i : dict L Z => match i with [] => true | _ => false end) infos = false).
  { rewrite <- not_true_iff_false, existsb_exists. intros (i & Hi & H). rewrite Forall_forall in Hne. apply (Hne i Hi). destruct i; [reflexivity|discriminate]. }
  rewrite E. destruct infos as [|i0 is] eqn:Ei; [congruence|]. destruct pat as [|p0 pp] eqn:Ep; [discriminate|]. rewrite <- Ei, <- Ep in *. clear Ei Ep.
  eexists. split; [reflexivity|]. split.
  - intros sh qs. rewrite in_map_iff. split.
    + intros (x & Ex & Hx). injection Ex as <- <-. apply filter_In in Hx. destruct Hx as [Hx Hk]. apply sorted_combo in Hx.
      pose proof (Forall2_len _ _ _ _ _ Hx) as Lx. split.
      * split; [now rewrite combine_fst_snd|]. rewrite !map_length. lia.
      * apply keep_block_spec in Hk.
        -- rewrite signed_length, map_length in Hk. change (add_reduce L (signed L pat (map fst x))) with (fuse_q L pat (map fst x)) in Hk. rewrite fuse_q_total in Hk.
           destruct Hk as [Hk|Hk]; [left; lia|now right].
        -- intro N. apply (f_equal (@length L)) in N. rewrite signed_length, map_length in N. destruct infos; [congruence|]. cbn in *. lia.
    + intros ((F & A & B) & Hk). exists (combine qs sh). assert (E1: map fst (combine qs sh) = qs) by (apply map_fst_combine; lia).
      assert (E2: map snd (combine qs sh) = sh) by (apply map_snd_combine; lia). rewrite E1, E2. split; [reflexivity|]. apply filter_In. split; [apply sorted_combo; auto|].
      rewrite E1. apply keep_block_spec.
      * intro N. apply (f_equal (@length L)) in N. rewrite signed_length in N. destruct infos; [congruence|]. cbn in *. lia.
      * rewrite signed_length. change (add_reduce L (signed L pat qs)) with (fuse_q L pat qs). rewrite fuse_q_total.
        destruct Hk as [Hk|Hk]; [left; lia|now right].
  - intros Nd. assert (S: StronglySorted (fun a b : list Z * list L => tup_ltb L (snd a) (snd b) = true)
      (map (fun x : list (L * Z) => (map snd x, map fst x)) (filter (fun x => keep_block L (signed L pat (map fst x)) dq) (cart (map (sort_by (qltb L) fst) infos))))).
    { apply StronglySorted_map. cbn [snd]. apply StronglySorted_filter. apply (cart_sorted L). apply Forall_forall. intros l Hl. apply in_map_iff in Hl.
      destruct Hl as (i & <- & Hi). apply sorted_info_strict. rewrite Forall_forall in Nd. now apply Nd. }
    split; [|exact S]. clear - S. revert S. generalize (map (fun x : list (L * Z) => (map snd x, map fst x)) (filter (fun x => keep_block L (signed L pat (map fst x)) dq) (cart (map (sort_by (qltb L) fst) infos)))).
    induction l as [|e l IH]; intros S; cbn; constructor; inversion S as [|? ? S' F]; subst; [|auto].
    intro H. apply in_map_iff in H. destruct H as (e' & E & He). rewrite Forall_forall in F. specialize (F _ He). rewrite <- E in F. rewrite tup_ltb_irrefl in F. discriminate.
Qed.
Print Assumptions c38_skeleton_complete.

(* the default pattern: the labels of the first legs sum to the label of the last leg plus dq *)
Theorem c38_default_pattern :
  forall (L : Label) (infos : list (dict L Z)) (dq : option L),
  (2 <= length infos)%nat -> Forall (fun i => i <> []) infos ->
  exists sk, sp_skeleton L infos None dq = Some sk
  /\ (forall sh qs q, In (sh, qs ++ [q]) sk <->
        is_combo L infos (qs ++ [q]) sh /\ fold_right (qadd L) (q0 L) qs = qadd L q (target L dq)).
Proof.
  intros L infos dq Hl Hne. set (n := length infos) in *.
  assert (Lp: length (repeat "+"%char (n - 1) ++ ["-"%char]) = length infos) by (rewrite app_length, repeat_length; cbn; unfold n in *; lia).
  destruct (c38_skeleton_complete L infos (repeat "+"%char (n - 1) ++ ["-"%char]) dq) as (sk & A & B & _); auto; [destruct infos; cbn in *; [lia|discriminate]|].
  exists sk. split; [exact A|]. intros sh qs q. rewrite B. fold n.
  assert (T: length qs = (n - 1)%nat -> signed_total L (repeat "+"%char (n - 1) ++ ["-"%char]) (qs ++ [q]) = qadd L (fold_right (qadd L) (q0 L) qs) (qneg L q)).
  { generalize (n - 1)%nat as k. clear. intros k. revert qs. induction k as [|k IH]; intros [|x qs] H; cbn in H; try discriminate; cbn [repeat app signed_total is_plus fold_right].
    - change (is_plus "-"%char) with false. cbv iota. rewrite qadd_0_r, qadd_0_l. reflexivity.
    - change (is_plus "+"%char) with true. cbv iota. rewrite IH by lia. apply qadd_assoc. }
  split.
  - intros [C D]. split; [exact C|]. destruct C as (_ & C & _). rewrite app_length in C. cbn [length] in C. fold n in C. destruct D as [D|D]; [lia|].
    rewrite T in D by lia. rewrite <- D. rewrite (qadd_comm L _ (qneg L q)), (qadd_assoc L), qadd_neg_r, qadd_0_l. reflexivity.
  - intros [C D]. split; [exact C|]. right. destruct C as (_ & C & _). rewrite app_length in C. cbn [length] in C. fold n in C. rewrite T by lia. rewrite D.
    rewrite (qadd_comm L q), <- (qadd_assoc L), qadd_neg_r. apply qadd_0_r.
Qed.
Print Assumptions c38_default_pattern.

(* the tensors built on the skeleton: one block per combination, constant elements *)
Theorem c38_zeros_ones :
  forall (R : CRing) (L : Label) (infos : list (dict L Z)) (pat : option (list ascii)) (dq : option L) sk,
  sp_skeleton L infos pat dq = Some sk -> NoDup (map snd sk) ->
  exists z o, sp_zeros R L infos pat dq = Some z /\ sp_ones R L infos pat dq = Some o
  /\ map fst z = map snd sk /\ map fst o = map snd sk
  /\ map (fun b => nshape (snd b)) z = map fst sk /\ map (fun b => nshape (snd b)) o = map fst sk
  /\ (forall qs xs, elem R L z qs xs = r0 R)
  /\ (forall sh qs xs, In (sh, qs) sk -> in_shape sh xs -> elem R L o qs xs = r1 R).
Proof.
  intros R L infos pat dq sk E N. unfold sp_zeros, sp_ones. rewrite E. cbn [option_map]. eexists. eexists. split; [reflexivity|]. split; [reflexivity|].
  rewrite !map_map. split; [reflexivity|]. split; [reflexivity|]. split; [reflexivity|]. split; [reflexivity|]. split.
  - intros qs xs. unfold elem. apply bsum_zero. intros b Hb. apply in_map_iff in Hb. destruct Hb as (s & <- & _). cbn [fst snd].
    destruct (tup_eqb L (snd s) qs); [|reflexivity]. unfold nget, nd_zeros. cbn. now destruct (in_shapeb _ xs).
  - intros sh qs xs Hin X. change qs with (fst (qs, nd_ones R sh)) at 1. rewrite elem_in.
    + cbn [snd]. unfold nget, nd_ones. cbn. now rewrite (proj2 (in_shapeb_spec sh xs) X).
    + rewrite map_map. exact N.
    + apply in_map_iff. exists (sh, qs). auto.
Qed.
Print Assumptions c38_zeros_ones.

Example c38_case :
  sp_skeleton U1_label [[(1, 2); (0, 3)]; [(0, 1); (1, 1)]; [(2, 5); (1, 4); (0, 9)]] None None
  = Some [([3; 1; 9], [0; 0; 0]); ([3; 1; 4], [0; 1; 1]); ([2; 1; 4], [1; 0; 1]); ([2; 1; 5], [1; 1; 2])].
Proof. vm_compute. reflexivity. Qed.
Example c38_case_dq :
  sp_skeleton U1_label [[(1, 2); (0, 3)]; [(2, 5); (0, 9)]] None (Some (-1)) = Some [([2; 5], [1; 2])].
Proof. vm_compute. reflexivity. Qed.

(** ** C46 *)
(* the bond infos of a tensor: per leg exactly the labels that occur, with the dimension of every block that has them *)
Theorem c46_infos :
  forall (R : CRing) (L : Label) n dm (t : list (list L * nd R)),
  t <> [] -> wf_tensor R L n dm t ->
  exists ds, sp_infos R L t = Some ds /\ Z.of_nat (length ds) = n /\
  (forall i, 0 <= i < n -> NoDup (map fst (nth (Z.to_nat i) ds [])) /\
     forall q v, In (q, v) (nth (Z.to_nat i) ds []) <->
       exists b, In b t /\ nth (Z.to_nat i) (fst b) (q0 L) = q /\ nth (Z.to_nat i) (nshape (snd b)) 0 = v)
  /\ (forall b, In b t -> is_combo L ds (fst b) (nshape (snd b))).
Proof.
  intros R L n dm t Hne W. destruct (sp_infos_spec R L n dm t Hne W) as (ds & A & B & C). exists ds. split; [exact A|]. split; [exact B|].
  assert (Sh: forall b i, In b t -> 0 <= i < n -> nth (Z.to_nat i) (nshape (snd b)) 0 = dm i (nth (Z.to_nat i) (fst b) (q0 L))).
  { intros b i Hb Hi. destruct (W b Hb) as [W1 W2]. rewrite W2, nth_shape_of by (rewrite ?zrange_length; lia). f_equal. rewrite nth_zrange by lia. lia. }
  assert (E: forall i, 0 <= i < n -> NoDup (map fst (nth (Z.to_nat i) ds [])) /\
     forall q v, In (q, v) (nth (Z.to_nat i) ds []) <-> exists b, In b t /\ nth (Z.to_nat i) (fst b) (q0 L) = q /\ nth (Z.to_nat i) (nshape (snd b)) 0 = v).
  { intros i Hi. destruct (C i Hi) as [N D]. split; [exact N|]. intros q v. rewrite D. split.
    - intros (-> & b & Hb & <-). exists b. split; [auto|]. split; [auto|]. now apply Sh.
    - intros (b & Hb & <- & <-). split; [now apply Sh|]. eauto. }
  split; [exact E|]. intros b Hb. destruct (wf_shape_length R L n dm t b W Hb) as [L1 L2]. split; [|lia].
  apply (Forall2_nth_intro (dict L Z) (L * Z) (fun info kv => In kv info) [] (q0 L, 0)); [rewrite combine_length; lia|]. intros k Hk.
  rewrite combine_nth by lia. specialize (E (Z.of_nat k) ltac:(lia)). rewrite Nat2Z.id in E. apply (proj2 E). eauto.
Qed.
Print Assumptions c46_infos.

(** ** C39 *)
Section Extent.
Variable R : CRing.
Variable L : Label.
(* the dimension of label q on leg i of t, 0 if the label does not occur there *)
Definition extent (t : list (list L * nd R)) (i : Z) (q : L) (s : Z) : Prop :=
  (exists b, In b t /\ nth (Z.to_nat i) (fst b) (q0 L) = q /\ nth (Z.to_nat i) (nshape (snd b)) 0 = s)
  \/ (s = 0 /\ forall b, In b t -> nth (Z.to_nat i) (fst b) (q0 L) <> q).

Lemma extent_bget : forall n dm t ds i q s, (forall i, 0 <= i < n -> NoDup (map fst (nth (Z.to_nat i) ds ([] : dict L Z))) /\
     forall q v, In (q, v) (nth (Z.to_nat i) ds []) <->
       exists b, In b t /\ nth (Z.to_nat i) (fst b) (q0 L) = q /\ nth (Z.to_nat i) (nshape (snd b)) 0 = v) ->
  wf_tensor R L n dm t -> 0 <= i < n -> extent t i q s -> bget L (nth (Z.to_nat i) ds []) q = s.
Proof.
  intros n dm t ds i q s H W Hi [(b & Hb & E1 & E2)|[-> Hn]]; destruct (H i Hi) as [N D]; unfold bget.
  - now rewrite (in_dget _ (qeqb_spec L) _ q s N (proj2 (D q s) (ex_intro _ b (conj Hb (conj E1 E2))))).
  - destruct (dget (qeqb L) (nth (Z.to_nat i) ds []) q) as [v|] eqn:E; [|reflexivity]. apply (dget_in _ (qeqb_spec L)) in E. apply D in E.
    destruct E as (b & Hb & E1 & _). exfalso. now apply (Hn b Hb).
Qed.
Lemma last_nth : forall A (l : list A) d, last l d = nth (length l - 1) l d.
Proof. induction l as [|x l IH]; intros d; [reflexivity|]. destruct l as [|y l]; [reflexivity|]. change (last (x :: y :: l) d) with (last (y :: l) d). rewrite IH. cbn [length]. replace (S (S (length l)) - 1)%nat with (S (S (length l) - 1)) by lia. reflexivity. Qed.
Lemma nth_ends : forall A (d x y : A) m, nth (length m + 1) (x :: m ++ [y]) d = y.
Proof. intros. rewrite Nat.add_1_r. cbn [nth]. rewrite app_nth2, Nat.sub_diag by lia. reflexivity. Qed.
End Extent.

(* the direct sum of the first and of the last leg: a keeps its positions, b is moved behind a *)
Theorem c39_kron_add_direct_sum :
  forall (R : CRing) (L : Label) n dma dmb (a b : list (list L * nd R)),
  2 <= n -> a <> [] -> b <> [] -> wf_tensor R L n dma a -> wf_tensor R L n dmb b ->
  (forall i q, 0 < dma i q) -> (forall i q, 0 < dmb i q) ->
  (forall i q, 0 < i < n - 1 -> dma i q = dmb i q) ->
  exists r, sp_kron_add R L a b = Some r
  /\ NoDup (map fst r)
  /\ (forall qs, In qs (map fst r) <-> In qs (map fst a) \/ In qs (map fst b))
  /\ (forall ql qm qr v al ar bl br, In (ql :: qm ++ [qr], v) r ->
        extent R L a 0 ql al -> extent R L b 0 ql bl -> extent R L a (n - 1) qr ar -> extent R L b (n - 1) qr br ->
        exists m, nshape v = (al + bl) :: m ++ [ar + br] /\ length m = length qm /\
          forall w, In (ql :: qm ++ [qr], w) a \/ In (ql :: qm ++ [qr], w) b -> exists l' r', nshape w = l' :: m ++ [r'])
  /\ (forall ql qm qr xl xm xr al ar,
        Z.of_nat (length qm) = n - 2 -> Z.of_nat (length xm) = n - 2 ->
        extent R L a 0 ql al -> extent R L a (n - 1) qr ar ->
        elem R L r (ql :: qm ++ [qr]) (xl :: xm ++ [xr])
        = radd R (elem R L a (ql :: qm ++ [qr]) (xl :: xm ++ [xr]))
                 (elem R L b (ql :: qm ++ [qr]) (xl - al :: xm ++ [xr - ar]))).
Proof.
  intros R L n dma dmb a b Hn Na Nb Wa Wb Pa Pb Mid.
  destruct (c46_infos R L n dma a Na Wa) as (da & A1 & A2 & A3 & _). destruct (c46_infos R L n dmb b Nb Wb) as (db & B1 & B2 & B3 & _).
  unfold sp_kron_add. rewrite A1, B1. destruct da as [|a0 ar'] eqn:Ea; [cbn in A2; lia|]. destruct db as [|b0 br'] eqn:Eb; [cbn in B2; lia|]. rewrite <- Ea, <- Eb in *.
  assert (Ea0: a0 = nth (Z.to_nat 0) da []) by (rewrite Ea; reflexivity). assert (Eb0: b0 = nth (Z.to_nat 0) db []) by (rewrite Eb; reflexivity).
  assert (Ear: last da [] = nth (Z.to_nat (n - 1)) da []) by (rewrite last_nth; f_equal; lia).
  assert (Ebr: last db [] = nth (Z.to_nat (n - 1)) db []) by (rewrite last_nth; f_equal; lia).
  rewrite Ear, Ebr, Ea0, Eb0. clear Ea Eb Ea0 Eb0 Ear Ebr a0 b0 ar' br'.
  assert (Dim: forall dm t i x, wf_tensor R L n dm t -> In x t -> 0 <= i < n -> nth (Z.to_nat i) (nshape (snd x)) 0 = dm i (nth (Z.to_nat i) (fst x) (q0 L))).
  { intros dm t i x W Hx Hi. destruct (W x Hx) as [W1 W2]. rewrite W2, nth_shape_of by (rewrite ?zrange_length; lia). f_equal. rewrite nth_zrange by lia. lia. }
  assert (WF: forall dm t ds i, (forall i, 0 <= i < n -> NoDup (map fst (nth (Z.to_nat i) ds ([] : dict L Z))) /\
     forall q v, In (q, v) (nth (Z.to_nat i) ds []) <-> exists b, In b t /\ nth (Z.to_nat i) (fst b) (q0 L) = q /\ nth (Z.to_nat i) (nshape (snd b)) 0 = v) ->
     wf_tensor R L n dm t -> (forall i q, 0 < dm i q) -> 0 <= i < n -> wf L (nth (Z.to_nat i) ds [])).
  { intros dm t ds i H W P Hi. destruct (H i Hi) as [N D]. split; [exact N|]. intros [q v] Hp. apply D in Hp. destruct Hp as (x & Hx & E1 & E2). cbn [snd].
    rewrite <- E2, (Dim dm t i x W Hx Hi). apply P. }
  set (lb := bplus L (nth (Z.to_nat 0) da []) (nth (Z.to_nat 0) db [])). set (rb := bplus L (nth (Z.to_nat (n - 1)) da []) (nth (Z.to_nat (n - 1)) db [])).
  assert (Glb: forall q, bget L lb q = bget L (nth (Z.to_nat 0) da []) q + bget L (nth (Z.to_nat 0) db []) q).
  { intro q. apply bplus_get; [apply (WF dma a)|apply (WF dmb b)]; auto; lia. }
  assert (Grb: forall q, bget L rb q = bget L (nth (Z.to_nat (n - 1)) da []) q + bget L (nth (Z.to_nat (n - 1)) db []) q).
  { intro q. apply bplus_get; [apply (WF dma a)|apply (WF dmb b)]; auto; lia. }
  assert (Pos: forall (ds : list (dict L Z)) i q, wf L (nth (Z.to_nat i) ds []) -> 0 <= bget L (nth (Z.to_nat i) ds []) q).
  { intros ds i q [_ P]. unfold bget. destruct (dget (qeqb L) (nth (Z.to_nat i) ds []) q) as [v|] eqn:E; [|cbn; lia]. apply (dget_in _ (qeqb_spec L)) in E. specialize (P _ E). cbn in *. lia. }
  assert (Ends: forall ql qm qr (v : nd R) dm t, wf_tensor R L n dm t -> In (ql :: qm ++ [qr], v) t -> nth (Z.to_nat 0) (ql :: qm ++ [qr]) (q0 L) = ql /\ nth (Z.to_nat (n - 1)) (ql :: qm ++ [qr]) (q0 L) = qr).
  { intros ql qm qr v dm t W Hx. split; [reflexivity|]. destruct (wf_shape_length R L n dm t _ W Hx) as [_ K]. cbn [fst length] in K. rewrite app_length in K. cbn in K.
    replace (Z.to_nat (n - 1)) with (length qm + 1)%nat by lia. apply nth_ends. }
  assert (Got: forall ql qm qr (v : nd R) dm t ds, wf_tensor R L n dm t -> In (ql :: qm ++ [qr], v) t ->
     (forall i, 0 <= i < n -> NoDup (map fst (nth (Z.to_nat i) ds ([] : dict L Z))) /\
     forall q v, In (q, v) (nth (Z.to_nat i) ds []) <-> exists b, In b t /\ nth (Z.to_nat i) (fst b) (q0 L) = q /\ nth (Z.to_nat i) (nshape (snd b)) 0 = v) ->
     bget L (nth (Z.to_nat 0) ds []) ql = dm 0 ql /\ bget L (nth (Z.to_nat (n - 1)) ds []) qr = dm (n - 1) qr).
  { intros ql qm qr v dm t ds W Hx H. destruct (Ends ql qm qr v dm t W Hx) as [E1 E2]. split.
    - eapply (extent_bget R L n dm t); eauto; [lia|]. left. exists (ql :: qm ++ [qr], v). split; [auto|]. split; [auto|]. rewrite (Dim dm t 0 _ W Hx) by lia. reflexivity.
    - eapply (extent_bget R L n dm t); eauto; [lia|]. left. exists (ql :: qm ++ [qr], v). split; [auto|]. split; [auto|]. rewrite (Dim dm t (n - 1) _ W Hx) by lia. cbn [fst]. now rewrite E2. }
  destruct (kron_add_spec R L n dma dmb a b lb rb Hn Wa Wb Mid) as (K1 & K2 & K3 & K4).
  { intros ql qm qr v Hx. destruct (Got ql qm qr v dma a da Wa Hx A3) as [G1 G2]. rewrite Glb, Grb, <- G1, <- G2.
    pose proof (Pos db 0 ql (WF dmb b db 0 B3 Wb Pb ltac:(lia))). pose proof (Pos db (n - 1) qr (WF dmb b db (n - 1) B3 Wb Pb ltac:(lia))). lia. }
  { intros ql qm qr v Hx. destruct (Got ql qm qr v dmb b db Wb Hx B3) as [G1 G2]. rewrite Glb, Grb, <- G1, <- G2.
    pose proof (Pos da 0 ql (WF dma a da 0 A3 Wa Pa ltac:(lia))). pose proof (Pos da (n - 1) qr (WF dma a da (n - 1) A3 Wa Pa ltac:(lia))). lia. }
  exists (sp_kron_add_with R L lb rb a b). split; [reflexivity|]. split; [exact K1|]. split; [exact K2|]. split.
  - intros ql qm qr v al ar bl br Hin X1 X2 X3 X4.
    assert (Lq: Z.of_nat (length qm) = n - 2).
    { assert (Hin' := Hin). apply (in_map fst) in Hin'. apply K2 in Hin'. cbn [fst] in Hin'. destruct Hin' as [Hin'|Hin']; apply in_map_iff in Hin'; destruct Hin' as (x & E & Hx);
        [destruct (wf_shape_length R L n dma a x Wa Hx) as [_ K]|destruct (wf_shape_length R L n dmb b x Wb Hx) as [_ K]]; rewrite E in K; cbn [length] in K; rewrite app_length in K; cbn in K; lia. }
    assert (Ev: nshape v = ksh L n dma lb rb (ql :: qm ++ [qr])) by (apply K3; apply (in_dget _ (tup_eqb_spec L)); auto).
    rewrite ksh_ends in Ev by lia. rewrite Glb, Grb in Ev.
    rewrite (extent_bget R L n dma a da 0 ql al A3 Wa), (extent_bget R L n dmb b db 0 ql bl B3 Wb), (extent_bget R L n dma a da (n - 1) qr ar A3 Wa), (extent_bget R L n dmb b db (n - 1) qr br B3 Wb) in Ev by (auto; lia).
    eexists. split; [exact Ev|]. split.
    + rewrite shape_of_length, map_length, zrange_length. lia.
    + intros w [Hw|Hw].
      * destruct (Wa _ Hw) as [W1 W2]. cbn [fst snd] in *. rewrite W2. rewrite (shape_ends L n dma) by lia. eauto.
      * destruct (Wb _ Hw) as [W1 W2]. cbn [fst snd] in *. rewrite W2. rewrite (shape_ends L n dmb) by lia. assert (Em: shape_of L dmb (map (fun i => 1 + i) (zrange (n - 2))) qm = shape_of L dma (map (fun i => 1 + i) (zrange (n - 2))) qm).
        { unfold shape_of. apply map_ext_in. intros [i q] H. cbn [fst snd]. symmetry. apply Mid. apply in_combine_l in H. apply in_map_iff in H.
          destruct H as (x & <- & Hx). apply in_zrange in Hx. lia. }
        rewrite Em. eauto.
  - intros ql qm qr xl xm xr al ar Lq Lx X1 X2. rewrite K4 by auto. f_equal.
    rewrite Glb, Grb, (extent_bget R L n dma a da 0 ql al A3 Wa), (extent_bget R L n dma a da (n - 1) qr ar A3 Wa) by (auto; lia).
    destruct (in_dec (list_eq_dec (fun x y : L => match qeqb_spec L x y with ReflectT _ e => left e | ReflectF _ e => right e end)) (ql :: qm ++ [qr]) (map fst b)) as [Hb|Hb].
    + apply in_map_iff in Hb. destruct Hb as ([k v] & E & Hb). cbn in E. subst k. destruct (Got ql qm qr v dmb b db Wb Hb B3) as [G1 G2]. rewrite G1, G2.
      f_equal. f_equal; [lia|]. f_equal. f_equal. lia.
    + now rewrite !elem_absent.
Qed.
Print Assumptions c39_kron_add_direct_sum.

Example c39_case :
  option_map dump (sp_kron_add Z_ring U1_label
    [([0; 0], arr [1; 2] [1; 2]); ([1; 1], arr [1; 1] [3])]
    [([0; 0], arr [2; 1] [4; 5]); ([2; 2], arr [1; 1] [6])])
  = Some [([0; 0], [3; 3], [1; 2; 0; 0; 0; 4; 0; 0; 5]); ([1; 1], [1; 1], [3]); ([2; 2], [1; 1], [6])].
Proof. vm_compute. reflexivity. Qed.

(** ** C44 *)
(* [below info q] (SumProofs.v) is the total dimension of the labels smaller than q;
   [dense_at infos qs xs] adds it to the position inside the block, leg by leg *)
Theorem c44_to_dense :
  forall (R : CRing) (L : Label) (infos : list (dict L Z)) (t : list (list L * nd R)),
  Forall (wf L) infos -> NoDup (map fst t) ->
  (forall b, In b t -> is_combo L infos (fst b) (nshape (snd b))) ->
  exists r, sp_to_dense R L infos t = Some r
  /\ nshape r = map (fun i => fold_right Z.add 0 (map snd i)) infos
  /\ (forall qs sh xs, is_combo L infos qs sh -> in_shape sh xs ->
        in_shape (nshape r) (dense_at L infos qs xs) /\ nget r (dense_at L infos qs xs) = elem R L t qs xs)
  /\ (forall ys, in_shape (nshape r) ys -> exists qs sh xs, is_combo L infos qs sh /\ in_shape sh xs /\ ys = dense_at L infos qs xs)
  /\ (forall qs sh xs qs' sh' xs', is_combo L infos qs sh -> in_shape sh xs -> is_combo L infos qs' sh' -> in_shape sh' xs' ->
        dense_at L infos qs xs = dense_at L infos qs' xs' -> qs = qs' /\ xs = xs').
Proof.
  intros R L infos t W N Hc. destruct (to_dense_spec R L infos t W N Hc) as (r & A & B & C).
  exists r. split; [exact A|]. split; [exact B|]. split; [|split].
  - intros qs sh xs Cq X. split; [|eauto]. rewrite B. eapply dense_at_box; eauto.
  - intros ys Y. rewrite B in Y. now apply dense_at_onto.
  - intros qs sh xs qs' sh' xs' Cq X Cq' X' E.
    destruct (dense_at_box L infos W qs' sh' xs' Cq' X') as [_ Z1].
    assert (Eq: qs' = qs). { eapply (dense_at_unique L infos W qs sh xs qs' sh'); eauto. now rewrite E, Z1. }
    subst qs'. split; [reflexivity|]. destruct (dense_at_box L infos W qs sh xs Cq X) as [_ Z2]. rewrite <- Z1, <- Z2. now rewrite E.
Qed.
Print Assumptions c44_to_dense.

(* without explicit infos: the labels of the tensor itself *)
Theorem c44_to_dense_own_infos :
  forall (R : CRing) (L : Label) n dm (t : list (list L * nd R)),
  t <> [] -> wf_tensor R L n dm t -> NoDup (map fst t) -> (forall i q, 0 < dm i q) ->
  exists ds r, sp_infos R L t = Some ds /\ sp_to_dense R L ds t = Some r /\ Forall (wf L) ds
  /\ (forall b xs, In b t -> in_shape (nshape (snd b)) xs -> nget r (dense_at L ds (fst b) xs) = nget (snd b) xs)
  /\ (forall qs sh xs, is_combo L ds qs sh -> in_shape sh xs -> ~ In qs (map fst t) -> nget r (dense_at L ds qs xs) = r0 R).
Proof.
  intros R L n dm t Ht W N P. destruct (c46_infos R L n dm t Ht W) as (ds & A & B & C & D). exists ds.
  assert (Wd: Forall (wf L) ds).
  { apply Forall_forall. intros d Hd. apply (@In_nth (dict L Z) ds d []) in Hd. destruct Hd as (k & Hk & <-). destruct (C (Z.of_nat k) ltac:(lia)) as [C1 C2]. rewrite Nat2Z.id in *.
    split; [exact C1|]. intros [q v] Hq. apply C2 in Hq. destruct Hq as (b & Hb & E1 & E2). cbn [snd]. destruct (W b Hb) as [W1 W2]. rewrite <- E2, W2.
    rewrite nth_shape_of by (rewrite ?zrange_length; lia). apply P. }
  destruct (to_dense_spec R L ds t Wd N D) as (r & E & F & G). exists r. split; [exact A|]. split; [exact E|]. split; [exact Wd|]. split.
  - intros b xs Hb X. rewrite (G _ _ _ (D b Hb) X). now apply elem_in.
  - intros qs sh xs Cq X Hn. rewrite (G _ _ _ Cq X). now apply elem_absent.
Qed.
Print Assumptions c44_to_dense_own_infos.

(* infos that lack a label of the tensor are not rejected: the block overwrites the one of the first label.
   The element 5 of block (0, 0), whose labels are in infos, is lost. *)
Theorem c44_missing_label_refuted :
  exists (infos : list (dict U1_label Z)) (t : list (list U1_label * nd Z_ring)) r,
  Forall (wf U1_label) infos /\ NoDup (map fst t)
  /\ sp_to_dense Z_ring U1_label infos t = Some r
  /\ is_combo U1_label infos [0; 0] [1; 1] /\ elem Z_ring U1_label t [0; 0] [0; 0] = 5
  /\ nget r (dense_at U1_label infos [0; 0] [0; 0]) = 7.
Proof.
  exists [[(0, 1)]; [(0, 1)]], [([0; 0], arr [1; 1] [5]); ([1; 1], arr [1; 1] [7])]. eexists.
  split; [repeat constructor; cbn; try tauto; intros p [<-|[]]; cbn; lia|]. split; [cbn; repeat constructor; cbn; intuition congruence|].
  split; [vm_compute; reflexivity|]. split; [split; [repeat constructor; cbn; auto|auto]|]. split; vm_compute; reflexivity.
Qed.
Print Assumptions c44_missing_label_refuted.

Example c44_case :
  option_map (fun r => (nshape r, map (nget r) (all_idx (nshape r))))
    (sp_to_dense Z_ring U1_label [[(1, 2); (0, 1)]; [(0, 1); (1, 1)]]
      [([1; 1], arr [2; 1] [7; 8]); ([0; 0], arr [1; 1] [5])])
  = Some ([3; 2], [5; 0; 0; 7; 0; 8]).
Proof. vm_compute. reflexivity. Qed.

(** ** C45 *)
Lemma radd_0_left : forall (R : CRing) (x : R), radd R (r0 R) x = x.
Proof. intros R x. apply (Radd_0_l (rth R)). Qed.
Section Lower.
Variable R : CRing.
Variables L L' : Label.
Add Ring RR10 : (rth R).
Variable f : L -> L'.
(* the offset of label k inside its image, as stored in the layout made by symmetry_fuse_info *)
Definition low_offset (info : dict L Z) (k : L) (off : Z) : Prop :=
  exists d v, In (f k, d) (snd (symm_fusing L L' info f)) /\ In (k, (off, v)) d.
(* position ys in the lower symmetry of element xs of the block with labels qs *)
Inductive lowered : list (dict L Z) -> list L -> list Z -> list Z -> Prop :=
| low_nil : lowered [] [] [] []
| low_cons : forall i is q qs x xs off ys, low_offset i q off -> lowered is qs xs ys -> lowered (i :: is) (q :: qs) (x :: xs) (off + x :: ys).

Notation ent i q := (match dget (qeqb L') (snd (symm_fusing L L' i f)) q with Some d => d | None => [] end).
Lemma symm_nodup : forall i, NoDup (keys (snd (symm_fusing L L' i f))).
Proof.
  intros i. unfold symm_fusing.
  match goal with |- NoDup (keys (snd (fold_left ?g ?l0 ([], [])))) => assert (G: forall l st, NoDup (keys (snd st)) -> NoDup (keys (snd (fold_left g l st)))) end.
  { induction l as [|[k v] l IH]; intros [a b] H; [exact H|]. cbn [fold_left]. apply IH. cbn [snd] in *. apply (nodup_dset _ (qeqb_spec L')). exact H. }
  apply G. constructor.
Qed.
Lemma low_ent : forall i k off, low_offset i k off <-> exists v, In (k, (off, v)) (ent i (f k)).
Proof.
  intros i k off. unfold low_offset. split.
  - intros (d & v & H1 & H2). exists v. now rewrite (in_dget _ (qeqb_spec L') _ _ _ (symm_nodup i) H1).
  - intros (v & H). destruct (dget (qeqb L') (snd (symm_fusing L L' i f)) (f k)) as [d|] eqn:E; [|destruct H]. exists d, v. split; [|exact H].
    now apply (dget_in _ (qeqb_spec L')) in E.
Qed.
Lemma low_entry : forall i k v, wf L i -> In (k, v) i -> exists off, symm_entry (symm_fusing L L' i f) (f k) k = Some (off, v) /\ In (k, (off, v)) (ent i (f k)).
Proof.
  intros i k v W H. destruct (c12_lower_symmetry L L' i f W) as (A & B & _). cbv zeta in A, B.
  destruct (proj2 (A (f k) k v) (conj H eq_refl)) as (off & Hoff). exists off. split; [|exact Hoff]. unfold symm_entry.
  specialize (B (f k)). destruct (dget (qeqb L') (snd (symm_fusing L L' i f)) (f k)) as [d|]; [|destruct Hoff]. now apply (in_dget _ (qeqb_spec L)).
Qed.
Lemma ent_fun : forall i k o v o' v', wf L i -> In (k, (o, v)) (ent i (f k)) -> In (k, (o', v')) (ent i (f k)) -> o = o' /\ v = v'.
Proof.
  intros i k o v o' v' W H H'. destruct (c12_lower_symmetry L L' i f W) as (_ & B & _). cbv zeta in B. specialize (B (f k)).
  pose proof (in_dget _ (qeqb_spec L) _ _ _ B H). pose proof (in_dget _ (qeqb_spec L) _ _ _ B H'). split; congruence.
Qed.

Notation layouts infos := (map (fun i => symm_fusing L L' i f) infos).
Lemma offs_cons : forall i is q qs, offs L L' f (symm_fusing L L' i f :: layouts is) (q :: qs) =
  odflt [] (match symm_entry (symm_fusing L L' i f) (f q) q with Some x => option_map (cons x) (all_some (map (fun p => symm_entry (fst p) (f (snd p)) (snd p)) (combine (layouts is) qs))) | None => None end).
Proof. intros. unfold offs. cbn [combine map fst snd all_some]. now destruct (symm_entry (symm_fusing L L' i f) (f q) q). Qed.
Lemma combo_low : forall infos, Forall (wf L) infos -> forall qs sh, is_combo L infos qs sh ->
  exists ks, all_some (map (fun p => symm_entry (fst p) (f (snd p)) (snd p)) (combine (layouts infos) qs)) = Some ks
  /\ fits_at (lsh L L' (layouts infos) (map f qs)) (map fst ks) sh
  /\ Forall2 (fun p k => In (snd p, (fst k, snd k)) (ent (fst p) (f (snd p)))) (combine infos qs) ks.
Proof.
  induction 1 as [|i is W Hf IH]; intros qs sh C.
  - apply combo_nil in C. destruct C as [-> ->]. exists []. split; [reflexivity|]. split; constructor.
  - apply combo_cons in C. destruct C as (q & v & qs' & sh' & -> & -> & Hi & C). destruct (IH qs' sh' C) as (ks & A & B & D).
    destruct (low_entry i q v W Hi) as (off & E1 & E2). exists ((off, v) :: ks). cbn [map combine fst snd all_some]. rewrite E1, A. split; [reflexivity|]. split; [|constructor; auto].
    destruct (c12_lower_symmetry L L' i f W) as (_ & _ & R1 & _). cbv zeta in R1. specialize (R1 _ _ _ _ E2). destruct R1 as [R1 R2].
    unfold lsh. cbn [map combine fst snd]. exact (conj R1 (conj R2 B)).
Qed.
Lemma lowered_box : forall infos, Forall (wf L) infos -> forall qs sh xs ys, is_combo L infos qs sh -> in_shape sh xs -> lowered infos qs xs ys ->
  in_shape (lsh L L' (layouts infos) (map f qs)) ys /\ zminus ys (map fst (offs L L' f (layouts infos) qs)) = xs.
Proof.
  induction 1 as [|i is W Hf IH]; intros qs sh xs ys C X Lo.
  - inversion Lo; subst. split; [constructor|reflexivity].
  - apply combo_cons in C. destruct C as (q & v & qs' & sh' & -> & -> & Hi & C). inversion X as [|? x ? xs' Hx X']; subst. inversion Lo as [|? ? ? ? ? ? off ys' Ho Lo']; subst.
    destruct (IH qs' sh' xs' ys' C X' Lo') as [A B]. destruct (low_entry i q v W Hi) as (off' & E1 & E2).
    apply low_ent in Ho. destruct Ho as (v2 & Ho). destruct (ent_fun i q _ _ _ _ W Ho E2) as [-> ->].
    destruct (c12_lower_symmetry L L' i f W) as (_ & _ & R1 & _). cbv zeta in R1. specialize (R1 _ _ _ _ E2). split.
    + unfold lsh. cbn [map combine fst snd]. constructor; [lia|exact A].
    + cbn [map]. rewrite offs_cons, E1. destruct (combo_low is Hf qs' sh' C) as (ks & K & _). rewrite K. cbn [option_map odflt map fst].
      rewrite zminus_cons. f_equal; [lia|]. unfold offs in B. now rewrite K in B.
Qed.
Lemma lowered_unique : forall infos, Forall (wf L) infos -> forall qs sh xs ys qs' sh', is_combo L infos qs sh -> in_shape sh xs -> lowered infos qs xs ys ->
  is_combo L infos qs' sh' -> map f qs' = map f qs -> in_shape sh' (zminus ys (map fst (offs L L' f (layouts infos) qs'))) -> qs' = qs.
Proof.
  induction 1 as [|i is W Hf IH]; intros qs sh xs ys qs' sh' C X Lo C' Ef X'.
  - apply combo_nil in C. apply combo_nil in C'. intuition congruence.
  - apply combo_cons in C. destruct C as (q & v & q1 & s1 & -> & -> & Hi & C). inversion X as [|? x ? xs' Hx X1]; subst. inversion Lo as [|? ? ? ? ? ? off ys' Ho Lo']; subst.
    apply combo_cons in C'. destruct C' as (q' & v' & q1' & s1' & -> & -> & Hi' & C'). cbn [map] in Ef. injection Ef as Ef1 Ef2.
    destruct (low_entry i q v W Hi) as (o1 & E1 & E2). destruct (low_entry i q' v' W Hi') as (o2 & E1' & E2').
    apply low_ent in Ho. destruct Ho as (v2 & Ho). destruct (ent_fun i q _ _ _ _ W Ho E2) as [-> ->].
    cbn [map] in X'. rewrite offs_cons, E1' in X'. destruct (combo_low is Hf q1' s1' C') as (ks & K & _). rewrite K in X'. cbn [option_map odflt map fst] in X'.
    rewrite zminus_cons in X'. inversion X' as [|? ? ? ? Hy X2]; subst. f_equal.
    + destruct (c12_lower_symmetry L L' i f W) as (_ & _ & _ & _ & R2 & _). cbv zeta in R2. rewrite Ef1 in E2'.
      destruct (R2 (f q) q' o2 v' q o1 v (o1 + x) E2' E2); [lia|lia|auto].
    + eapply IH; eauto. unfold offs. now rewrite K.
Qed.
Lemma lowered_exists : forall infos, Forall (wf L) infos -> forall qs sh xs, is_combo L infos qs sh -> length xs = length infos -> exists ys, lowered infos qs xs ys.
Proof.
  induction 1 as [|i is W Hf IH]; intros qs sh xs C Hl.
  - apply combo_nil in C. destruct C as [-> ->]. destruct xs; [|discriminate]. exists []. constructor.
  - apply combo_cons in C. destruct C as (q & v & qs' & sh' & -> & -> & Hi & C). destruct xs as [|x xs]; [discriminate|]. destruct (IH qs' sh' xs C) as (ys & Hy); [cbn in Hl; lia|].
    destruct (low_entry i q v W Hi) as (off & _ & E2). exists (off + x :: ys). constructor; [apply low_ent; eauto|exact Hy].
Qed.
Lemma lowered_onto : forall infos, Forall (wf L) infos -> forall nq ys, in_shape (lsh L L' (layouts infos) nq) ys -> length nq = length infos ->
  exists qs sh xs, is_combo L infos qs sh /\ in_shape sh xs /\ map f qs = nq /\ lowered infos qs xs ys.
Proof.
  induction 1 as [|i is W Hf IH]; intros nq ys Y Hl.
  - destruct nq; [|discriminate]. inversion Y; subst. exists [], [], []. split; [repeat split; constructor|]. split; [constructor|]. split; [reflexivity|constructor].
  - destruct nq as [|n0 nq]; [discriminate|]. unfold lsh in Y. cbn [map combine fst snd] in Y. inversion Y as [|? y ? ys' Hy Y']; subst.
    destruct (IH nq ys' Y') as (qs & sh & xs & A & B & C & D); [cbn in Hl; lia|]. destruct (c12_lower_symmetry L L' i f W) as (R0 & _ & _ & R1 & _). cbv zeta in R0, R1.
    destruct (R1 n0 y Hy) as (k & off & v & Hk & Hb). destruct (proj1 (R0 n0 k v) (ex_intro _ off Hk)) as [Hi ->].
    exists (k :: qs), (v :: sh), (y - off :: xs). split; [apply combo_cons; exists k, v, qs, sh; auto|]. split; [constructor; [lia|exact B]|].
    split; [cbn; congruence|]. replace y with (off + (y - off)) at 2 by lia. constructor; [apply low_ent; eauto|exact D].
Qed.
End Lower.

(* lowering the symmetry with the layouts of symmetry_fuse_info moves every element to its own place and adds nothing *)
Theorem c45_symmetry_fuse_moves_elements :
  forall (R : CRing) (L L' : Label) (f : L -> L') (infos : list (dict L Z)) (t : list (list L * nd R)),
  Forall (wf L) infos -> NoDup (map fst t) ->
  (forall b, In b t -> is_combo L infos (fst b) (nshape (snd b))) ->
  exists r, sp_symmetry_fuse (map (fun i => symm_fusing L L' i f) infos) f t = Some r
  /\ NoDup (map fst r)
  /\ (forall nq, In nq (map fst r) <-> exists qs, In qs (map fst t) /\ nq = map f qs)
  /\ (forall nq v, In (nq, v) r -> length nq = length infos /\ nshape v = map (fun p => bget L' (fst (symm_fusing L L' (fst p) f)) (snd p)) (combine infos nq))
  /\ (forall qs sh xs, is_combo L infos qs sh -> in_shape sh xs -> exists ys, lowered L L' f infos qs xs ys)
  /\ (forall qs sh xs ys, is_combo L infos qs sh -> in_shape sh xs -> lowered L L' f infos qs xs ys ->
        elem R L' r (map f qs) ys = elem R L t qs xs)
  /\ (forall nq v ys, In (nq, v) r -> in_shape (nshape v) ys ->
        exists qs sh xs, is_combo L infos qs sh /\ in_shape sh xs /\ map f qs = nq /\ lowered L L' f infos qs xs ys).
Proof.
  intros R L L' f infos t W N Hc. set (fs := map (fun i => symm_fusing L L' i f) infos).
  destruct (symm_loop_spec R L L' f fs t []) as (r & A & B & C & D & E).
  { constructor. } { intros k v H; discriminate. }
  { intros b Hb. destruct (combo_low L L' f infos W (fst b) (nshape (snd b)) (Hc b Hb)) as (ks & K1 & K2 & _). split.
    - unfold fs. rewrite K1. discriminate.
    - unfold offs, fs. now rewrite K1. }
  exists r. split; [exact A|]. split; [exact B|].
  assert (D': forall nq, In nq (map fst r) <-> exists qs, In qs (map fst t) /\ nq = map f qs).
  { intros nq. unfold keys in D. rewrite D. split.
    - intros [H|(b & Hb & ->)]; [destruct H|]. exists (fst b). split; [now apply in_map|reflexivity].
    - intros (qs & Hq & ->). right. apply in_map_iff in Hq. destruct Hq as (b & <- & Hb). eauto. }
  assert (Sh: forall nq v, In (nq, v) r -> length nq = length infos /\ nshape v = lsh L L' fs nq).
  { intros nq v Hin. split.
    - assert (H: In nq (map fst r)) by (apply in_map_iff; exists (nq, v); auto). apply D' in H. destruct H as (qs & Hq & ->). apply in_map_iff in Hq. destruct Hq as (b & <- & Hb).
      rewrite map_length. apply (Hc b Hb).
    - apply C. now apply (in_dget _ (tup_eqb_spec L')). }
  split; [exact D'|]. split.
  { intros nq v Hin. destruct (Sh nq v Hin) as [S1 S2]. split; [exact S1|]. rewrite S2. unfold lsh, fs. clear. revert nq. induction infos as [|i is IH]; intros [|q nq]; cbn; auto. f_equal. apply IH. }
  split; [intros qs sh xs Cq X; apply (lowered_exists L L' f infos W qs sh xs Cq); rewrite (in_shape_length _ _ X); apply Cq|]. split.
  - intros qs sh xs ys Cq X Lo. destruct (lowered_box L L' f infos W qs sh xs ys Cq X Lo) as [Y Z1].
    rewrite E by (symmetry; now apply in_shape_length in Y). change (elem R L' [] (map f qs) ys) with (r0 R).
    unfold elem. rewrite radd_0_left. symmetry. apply bsum_ext.
    intros b Hb. destruct (tup_eqb_spec L (fst b) qs) as [Eb|Eb].
    + destruct (tup_eqb_spec L' (map f (fst b)) (map f qs)) as [_|Ne]; [|congruence]. rewrite Eb. unfold fs. now rewrite Z1.
    + destruct (tup_eqb_spec L' (map f (fst b)) (map f qs)) as [Em|_]; [|reflexivity]. symmetry. apply nget_out. intro Hin. apply Eb.
      eapply (lowered_unique L L' f infos W qs sh xs ys); eauto.
  - intros nq v ys Hin Y. destruct (Sh nq v Hin) as [S1 S2]. rewrite S2 in Y. now apply lowered_onto.
Qed.
Print Assumptions c45_symmetry_fuse_moves_elements.

Example c45_case :
  let infos := [[((1, 1), 1); ((1, -1), 2)]; [((1, 1), 1); ((1, -1), 2)]] : list (dict U11_label Z) in
  option_map dump (sp_symmetry_fuse (map (fun i => symm_fusing U11_label U1_label i (fun q => fst q)) infos) (fun q => fst q)
    [([(1, 1); (1, 1)], arr [1; 1] [9]); ([(1, -1); (1, -1)], arr [2; 2] [1; 2; 3; 4])])
  = Some [([1; 1], [3; 3], [1; 2; 0; 3; 4; 0; 0; 0; 9])].
Proof. vm_compute. reflexivity. Qed.
