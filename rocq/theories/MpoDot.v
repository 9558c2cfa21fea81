(** Lemmas for C32: contraction of arbitrary legs as a sum over states, transposition, the vertical product of two sites. *)
From Coq Require Import ZArith Bool List Lia Permutation Ring.
From Verif Require Import SymModel SymProofs DictLib IndexLib OptLib RingLib BondModel BondProofs FuseModel FuseProofs FuseTProofs FuseTProps BlockModel BlockProofs BlockProps StructModel StructProofs SumProofs StructProps MpsModel MpsChain MpsProofs MpsDot MpoModel.
Import ListNotations.
Open Scope Z_scope.

Section MDot.
Variable R : CRing.
Add Ring Rr5 : (rth R).
Variable L : Label.
Notation tensor := (list (list L * nd R)).
Notation site := (site R L).
Notation state := (L * Z)%type.
Notation "0'" := (r0 R). Notation "1'" := (r1 R).
Infix "+'" := (radd R) (at level 50, left associativity).
Infix "*'" := (rmul R) (at level 40, left associativity).
Notation tspec := (tup_eqb_spec L).
Notation s0 := (q0 L, 0).
Notation telem := (telem R L).
Notation positive := (positive R L).

Lemma merge_map : forall A B (f : A -> B) d n idx c o, map f (merge d n idx c o) = merge (f d) n idx (map f c) (map f o).
Proof.
  intros A B f d n idx c o. unfold merge. rewrite map_map. apply map_ext. intros i. destruct (index_of i idx); [now rewrite map_nth|]. destruct (index_of i (others n idx)); [now rewrite map_nth|reflexivity].
Qed.

Lemma existsb_nexists_lt : forall x (l : list Z), (forall y, In y l -> y <> x) -> existsb (Z.eqb x) l = false.
Proof. intros x l H. destruct (existsb (Z.eqb x) l) eqn:E; [|reflexivity]. apply existsb_exists in E. destruct E as (y & Hy & E). apply Z.eqb_eq in E. subst. now apply H in Hy. Qed.

Section Any.
Variables (a b : tensor) (na nb : Z) (dma dmb : Z -> L -> Z) (ia ib : list Z) (r : tensor).
Hypothesis Wa : wf_tensor R L na dma a.
Hypothesis Wb : wf_tensor R L nb dmb b.
Hypothesis Pa : positive a.
Hypothesis Na : NoDup ia.
Hypothesis Nb : NoDup ib.
Hypothesis Ra : forall i, In i ia -> 0 <= i < na.
Hypothesis Rb : forall i, In i ib -> 0 <= i < nb.
Hypothesis Lab : length ia = length ib.
Hypothesis D : forall i j q, In (i, j) (combine ia ib) -> dma i q = dmb j q.
Hypothesis E : sp_tensordot R L a b ia ib = Some r.

Let leg_id : forall n l, (forall i, In i l -> 0 <= i < n) -> map (leg n) l = l.
Proof. intros n l H. rewrite <- (map_id l) at 2. apply map_ext_in. intros i Hi. apply H in Hi. unfold leg. destruct (Z.ltb_spec i 0); lia. Qed.
Let Ls := nodup (tup_dec L) (map (fun ba => pick (q0 L) ia (fst ba)) a).
Definition cstates : list (list state) := flat_map (fun qc => map (combine qc) (all_idx (shape_of L dma ia qc))) Ls.
Let Ls_len : forall qc, In qc Ls -> length qc = length ia.
Proof. intros qc H. apply nodup_In in H. apply in_map_iff in H. destruct H as (ba & <- & _). apply pick_length. Qed.
Let pos_c : forall qc, In qc Ls -> Forall (fun d => 0 <= d) (shape_of L dma ia qc).
Proof.
  intros qc H. apply nodup_In in H. apply in_map_iff in H. destruct H as (ba & <- & Hb). destruct (Wa ba Hb) as [Lb Sb]. rewrite <- (pick_shape_of L na dma (fst ba) ia Lb Ra), <- Sb.
  apply Forall_forall. intros d Hd. unfold pick in Hd. apply in_map_iff in Hd. destruct Hd as (i & <- & Hi). specialize (Pa ba Hb). rewrite Forall_forall in Pa.
  assert (0 < nth (Z.to_nat i) (nshape (snd ba)) 0); [|lia]. apply Pa. apply nth_In. destruct (wf_shape_length _ _ _ _ _ _ Wa Hb). apply Ra in Hi. lia.
Qed.
Let idx_len : forall qc xc, In qc Ls -> In xc (all_idx (shape_of L dma ia qc)) -> length qc = length xc.
Proof. intros qc xc Hq Hx. apply in_all_idx in Hx. apply F2_length in Hx. rewrite shape_of_length in Hx. rewrite (Ls_len qc Hq) in *. lia. Qed.
Lemma cstates_nodup : NoDup cstates.
Proof.
  unfold cstates. assert (N: NoDup Ls) by apply NoDup_nodup. assert (Sub: incl Ls Ls) by (intros ? ?; assumption). revert N Sub. generalize Ls at 1 2 4. induction 1 as [|qc l Hq N IH]; intros Sub; cbn [flat_map]; [constructor|].
  apply NoDup_app_iff'; [|apply IH; intros x Hx; apply Sub; now right|].
  - assert (Nx: NoDup (all_idx (shape_of L dma ia qc))) by (apply all_idx_nodup, pos_c, Sub; now left). assert (Lx: forall xc, In xc (all_idx (shape_of L dma ia qc)) -> length qc = length xc) by (intros; apply idx_len; auto; apply Sub; now left).
    clear - Nx Lx. induction Nx as [|x l Hx Nx IH]; cbn [map]; constructor.
    + intros H. apply in_map_iff in H. destruct H as (y & Ey & Hy). apply Hx. assert (x = y); [|congruence]. rewrite <- (map_snd_combine L Z qc x) by (apply Lx; now left). rewrite <- Ey. apply map_snd_combine. apply Lx. now right.
    + apply IH. intros; apply Lx; now right.
  - intros c H1 H2. apply in_map_iff in H1. destruct H1 as (x & <- & Hx). apply in_flat_map in H2. destruct H2 as (q' & Hq' & H2). apply in_map_iff in H2. destruct H2 as (x' & Ex & Hx').
    apply Hq. assert (qc = q'); [|congruence]. rewrite <- (map_fst_combine L Z qc x) by (apply idx_len; auto; apply Sub; now left). rewrite <- Ex. apply map_fst_combine. apply idx_len; auto. apply Sub. now right.
Qed.
Let oa_len : forall A (f : list A), Z.of_nat (length f) = na - Z.of_nat (length ia) -> length f = length (others na ia).
Proof.
  intros A f H. pose proof (Permutation_length (split_perm na ia Na Ra)) as P. rewrite app_length, zrange_length in P.
  destruct ia as [|i l] eqn:Ei; [cbn in *; lia|]. specialize (Ra i (or_introl eq_refl)). lia.
Qed.
Let ob_len : forall A (f : list A), Z.of_nat (length f) = nb - Z.of_nat (length ib) -> length f = length (others nb ib).
Proof.
  intros A f H. pose proof (Permutation_length (split_perm nb ib Nb Rb)) as P. rewrite app_length, zrange_length in P.
  destruct ib as [|i l] eqn:Ei; [cbn in *; lia|]. specialize (Rb i (or_introl eq_refl)). lia.
Qed.
Lemma cstates_zero : forall c fa, length c = length ia -> Z.of_nat (length fa) = na - Z.of_nat (length ia) -> ~ In c cstates -> telem a (merge s0 na ia c fa) = 0'.
Proof.
  intros c fa Hc Hf N. unfold MpsDot.telem. rewrite !merge_map. cbn [fst snd]. apply elem_out. intros ba Hb Eb X. apply N. unfold cstates. apply in_flat_map. exists (map fst c).
  assert (Ep: pick (q0 L) ia (fst ba) = map fst c). { rewrite Eb. apply pick_merge_c; auto. now rewrite map_length. }
  split. { apply nodup_In. apply in_map_iff. exists ba. auto. }
  rewrite (split_states L c) at 1. apply in_map. apply in_all_idx. destruct (Wa ba Hb) as [Lb Sb]. rewrite Sb in X.
  apply in_shape_merge_iff in X; auto.
  - destruct X as [X _]. rewrite pick_shape_of in X by auto. rewrite Ep in X. exact X.
  - rewrite shape_of_length, zrange_length. lia.
  - now rewrite map_length.
  - apply oa_len. now rewrite map_length.
Qed.
Lemma tdot_states : forall C fa fb, NoDup C -> (forall c, In c C -> length c = length ia) -> Z.of_nat (length fa) = na - Z.of_nat (length ia) -> Z.of_nat (length fb) = nb - Z.of_nat (length ib) ->
  (forall c, length c = length ia -> ~ In c C -> telem a (merge s0 na ia c fa) *' telem b (merge s0 nb ib c fb) = 0') ->
  telem r (fa ++ fb) = bsum C (fun c => telem a (merge s0 na ia c fa) *' telem b (merge s0 nb ib c fb)).
Proof.
  intros C fa fb NC LC Lfa Lfb Cov. unfold MpsDot.telem at 1. rewrite !map_app.
  assert (LH: forall c, In c cstates -> length c = length ia).
  { intros c Hc. unfold cstates in Hc. apply in_flat_map in Hc. destruct Hc as (qc & Hq & Hc). apply in_map_iff in Hc. destruct Hc as (xc & <- & Hx). rewrite combine_length, <- (idx_len qc xc Hq Hx), (Ls_len qc Hq). lia. }
  pose proof (c14_contraction_is_dense_contraction R L a b na nb dma dmb ia ib r Wa Wb) as T. cbv zeta in T. rewrite !leg_id in T by auto.
  rewrite T with (Ls := Ls); clear T; auto.
  - transitivity (bsum cstates (fun c => telem a (merge s0 na ia c fa) *' telem b (merge s0 nb ib c fb))).
    + unfold cstates. rewrite bsum_flat_map. apply bsum_ext. intros qc Hq. rewrite bsum_map. apply bsum_ext. intros xc Hx.
      unfold MpsDot.telem. rewrite !merge_map. cbn [fst snd]. rewrite map_fst_combine, map_snd_combine by now apply idx_len. reflexivity.
    + set (g := fun c => telem a (merge s0 na ia c fa) *' telem b (merge s0 nb ib c fb)) in *.
      assert (G: forall l, (forall c, In c l -> length c = length ia) -> bsum l g = bsum l (fun c => if Nat.eqb (length c) (length ia) then g c else 0')).
      { intros l Hl. apply bsum_ext. intros c Hc. now rewrite (Hl c Hc), Nat.eqb_refl. }
      rewrite (G cstates LH), (G C LC). apply (bsum_cover R _ (sts_dec L)); auto using cstates_nodup; intros c Hc; destruct (Nat.eqb_spec (length c) (length ia)) as [Lc|Lc]; auto.
      * unfold g. rewrite cstates_zero by auto. ring.
      * unfold g. now apply Cov.
  - apply NoDup_nodup.
  - intros ba Hb. apply nodup_In. apply in_map_iff. eauto.
  - apply oa_len. now rewrite map_length.
  - apply ob_len. now rewrite map_length.
  - apply oa_len. now rewrite map_length.
  - apply ob_len. now rewrite map_length.
Qed.
Lemma tdot_wf : positive b -> wf_tensor R L (na - Z.of_nat (length ia) + (nb - Z.of_nat (length ib))) (dm_out L na nb dma dmb ia ib) r /\ positive r /\ NoDup (map fst r) /\
  (forall c, In c r -> exists ba bb, In ba a /\ In bb b /\ fst c = pick (q0 L) (others na ia) (fst ba) ++ pick (q0 L) (others nb ib) (fst bb) /\ pick (q0 L) ia (fst ba) = pick (q0 L) ib (fst bb)).
Proof.
  intros Pb. assert (Er: r = fold_left (put_with R L nd_add (fun x => x)) (contribs R L a b ia ib (others na ia) (others nb ib)) []).
  { apply sp_tensordot_acc in E. rewrite E. f_equal. destruct a as [|ba a']; [reflexivity|].
    rewrite !norm_axes_leg. rewrite (ndim_wf R L na dma (ba :: a') Wa) by congruence. rewrite leg_id by auto. destruct b as [|bb b'].
    - unfold contribs. clear. induction (ba :: a'); [reflexivity|]. cbn [flat_map filter map app]. exact IHl.
    - rewrite (ndim_wf R L nb dmb (bb :: b') Wb) by congruence. rewrite leg_id by auto. reflexivity. }
  assert (Or: forall c, In c r -> exists ba bb, In ba a /\ In bb b /\ pick (q0 L) ia (fst ba) = pick (q0 L) ib (fst bb) /\ fst c = pick (q0 L) (others na ia) (fst ba) ++ pick (q0 L) (others nb ib) (fst bb) /\ nshape (snd c) = nshape (nd_tensordot (snd ba) (snd bb) ia ib)).
  { intros c Hc. rewrite Er in Hc. apply acc_origin in Hc; [|reflexivity|reflexivity]. destruct Hc as (c' & Hc & E1 & E2). cbn [app] in Hc. apply contribs_in in Hc. destruct Hc as (ba & bb & Ha & Hb & Hp & ->). cbn [fst snd] in *. exists ba, bb. split; [exact Ha|]. split; [exact Hb|]. split; [congruence|]. split; congruence. }
  split; [|split; [|split]].
  - assert (W: wf_tensor R L (Z.of_nat (length (others na ia)) + Z.of_nat (length (others nb ib))) (dm_out L na nb dma dmb ia ib) (contribs R L a b ia ib (others na ia) (others nb ib))) by (apply contribs_wf; auto).
    pose proof (Permutation_length (split_perm na ia Na Ra)) as P1. pose proof (Permutation_length (split_perm nb ib Nb Rb)) as P2. rewrite app_length, zrange_length in P1, P2.
    destruct a as [|ba0 a'] eqn:Ea. { intros c Hc. apply Or in Hc. destruct Hc as (? & ? & [] & _). }
    destruct b as [|bb0 b'] eqn:Eb. { intros c Hc. apply Or in Hc. destruct Hc as (? & ? & _ & [] & _). }
    destruct (Wa ba0 (or_introl eq_refl)) as [La0 _], (Wb bb0 (or_introl eq_refl)) as [Lb0 _].
    replace (na - Z.of_nat (length ia) + (nb - Z.of_nat (length ib))) with (Z.of_nat (length (others na ia)) + Z.of_nat (length (others nb ib))) by lia.
    rewrite Er. apply acc_wf; [reflexivity|reflexivity|intros ? []|exact W].
  - intros c Hc. apply Or in Hc. destruct Hc as (ba & bb & Ha & Hb & _ & _ & ->). cbn [snd nshape nd_tensordot].
    apply Forall_app. specialize (Pa ba Ha). specialize (Pb bb Hb). destruct (wf_shape_length _ _ _ _ _ _ Wa Ha) as [SA LA], (wf_shape_length _ _ _ _ _ _ Wb Hb) as [SB LB]. rewrite Forall_forall in Pa, Pb.
    split; apply Forall_forall; intros d Hd; unfold pick in Hd; apply in_map_iff in Hd; destruct Hd as (i & <- & Hi); apply in_others in Hi; [apply Pa|apply Pb]; apply nth_In; lia.
  - rewrite Er. apply acc_keys. constructor.
  - intros c Hc. apply Or in Hc. destruct Hc as (ba & bb & Ha & Hb & Hp & Ec & _). eauto 10.
Qed.
End Any.

(** consecutive legs *)
Lemma from_length : forall i n, length (from i n) = Z.to_nat n.
Proof. intros. unfold from. now rewrite map_length, zrange_length. Qed.
Lemma in_from : forall i n x, In x (from i n) <-> i <= x < i + n.
Proof. intros i n x. unfold from. rewrite in_map_iff. split. - intros (k & <- & Hk). apply in_zrange in Hk. lia. - intros H. exists (x - i). split; [lia|]. apply in_zrange. lia. Qed.
Lemma from_nodup : forall i n, NoDup (from i n).
Proof. intros. unfold from. apply FinFun.Injective_map_NoDup; [intros x y H; lia|apply zrange_nodup]. Qed.
Lemma zrange_split3 : forall i k m, 0 <= i -> 0 <= k -> 0 <= m -> zrange (i + k + m) = zrange i ++ from i k ++ from (i + k) m.
Proof. intros. rewrite zrange_app, zrange_app by lia. now rewrite <- app_assoc. Qed.
Lemma pick_from : forall A (d : A) i k f1 c f2, Z.of_nat (length f1) = i -> Z.of_nat (length c) = k -> pick d (from i k) (f1 ++ c ++ f2) = c.
Proof.
  intros A d i k f1 c f2 H1 H2. apply nth_ext with (d := d) (d' := d); [rewrite pick_length, from_length; lia|]. intros j Hj. rewrite pick_length, from_length in Hj.
  unfold pick, from. rewrite map_map. rewrite (nth_indep _ d (nth (Z.to_nat (i + 0)) (f1 ++ c ++ f2) d)) by (rewrite map_length, zrange_length; lia).
  rewrite (map_nth (fun x => nth (Z.to_nat (i + x)) (f1 ++ c ++ f2) d)), nth_zrange by lia. rewrite app_nth2 by lia. rewrite app_nth1 by lia. f_equal. lia.
Qed.
Lemma others_from : forall i k m, 0 <= i -> 0 <= k -> 0 <= m -> others (i + k + m) (from i k) = zrange i ++ from (i + k) m.
Proof.
  intros i k m Hi Hk Hm. unfold others. rewrite zrange_split3, !filter_app by auto. rewrite (filter_all _ _ (zrange i)), (filter_nil _ _ (from i k)), (filter_all _ _ (from (i + k) m)); [reflexivity| | |].
  - intros x Hx. apply in_from in Hx. apply negb_true_iff. apply existsb_nexists_lt. intros y Hy. apply in_from in Hy. lia.
  - intros x Hx. apply negb_false_iff. apply existsb_exists. exists x. split; [auto|apply Z.eqb_refl].
  - intros x Hx. apply in_zrange in Hx. apply negb_true_iff. apply existsb_nexists_lt. intros y Hy. apply in_from in Hy. lia.
Qed.
Lemma merge_from : forall A (d : A) n i k f1 c f2, Z.of_nat (length f1) = i -> Z.of_nat (length c) = k -> n = i + k + Z.of_nat (length f2) -> merge d n (from i k) c (f1 ++ f2) = f1 ++ c ++ f2.
Proof.
  intros A d n i k f1 c f2 H1 H2 ->. symmetry. apply merge_eq_iff.
  - apply from_nodup. - intros x Hx. apply in_from in Hx. lia. - rewrite !app_length. lia. - rewrite from_length. lia.
  - rewrite others_from by lia. rewrite !app_length, zrange_length, from_length. lia.
  - split; [now apply pick_from|]. rewrite others_from by lia. unfold pick. rewrite map_app. f_equal.
    + change (pick d (zrange i) (f1 ++ c ++ f2) = f1). now apply pick_front.
    + change (pick d (from (i + k) (Z.of_nat (length f2))) (f1 ++ c ++ f2) = f2). rewrite (app_assoc f1 c f2). rewrite <- (app_nil_r f2) at 2. apply pick_from; [rewrite app_length; lia|reflexivity].
Qed.

(** signs applied after the sum *)
Lemma neg_elem : forall neg a b sts, NoDup (map fst a) -> same_shapes R L (a ++ b) -> (forall q, In q (map fst a) -> In q (map fst b) -> neg q = false) ->
  telem (add_then_negate R L neg a b) sts = (if neg (map fst sts) then ropp R (telem a sts) else telem a sts) +' telem b sts.
Proof.
  intros neg a b sts Na Sh Dj. unfold MpsDot.telem. set (qs := map fst sts). set (xs := map snd sts).
  set (m := fun q => dmem (tup_eqb L) a q && negb (dmem (tup_eqb L) b q) && neg q).
  assert (Em: forall t, elem R L (map (fun blk : list L * nd R => if m (fst blk) then (fst blk, nd_neg (snd blk)) else blk) t) qs xs = if m qs then ropp R (elem R L t qs xs) else elem R L t qs xs).
  { induction t as [|blk t IH]; [unfold elem; cbn [map]; rewrite bsum_nil; destruct (m qs); ring|]. cbn [map]. rewrite !elem_cons, IH. destruct (m (fst blk)) eqn:E1; cbn [fst snd]; destruct (tspec (fst blk) qs) as [E2|E2].
    - rewrite <- E2, E1, nget_neg. ring. - destruct (m qs); ring. - rewrite <- E2, E1. ring. - destruct (m qs); ring. }
  unfold add_then_negate. fold m. change (map _ (sp_add R L a b)) with (map (fun blk : list L * nd R => if m (fst blk) then (fst blk, nd_neg (snd blk)) else blk) (sp_add R L a b)).
  rewrite Em, sp_add_acc by auto. rewrite acc_plus_elem by auto. unfold m.
  assert (Md: forall t : tensor, dmem (tup_eqb L) t qs = true <-> In qs (map fst t)) by (intros t; apply (dmem_in _ tspec)).
  destruct (dmem (tup_eqb L) a qs) eqn:Ea; cbn [andb].
  - destruct (dmem (tup_eqb L) b qs) eqn:Eb; cbn [negb andb].
    + rewrite (Dj qs) by now apply Md. reflexivity.
    + rewrite (elem_absent R L b) by (rewrite <- Md; congruence). destruct (neg qs); ring.
  - rewrite (elem_absent R L a) by (rewrite <- Md; congruence). destruct (neg qs); ring.
Qed.
Lemma neg_in : forall neg a b c, In c (add_then_negate R L neg a b) -> NoDup (map fst a) -> exists c', In c' (a ++ b) /\ fst c' = fst c /\ nshape (snd c') = nshape (snd c).
Proof.
  intros neg a b c Hc Na. unfold add_then_negate in Hc. apply in_map_iff in Hc. destruct Hc as (c1 & Ec & Hc). rewrite sp_add_acc in Hc by auto. apply acc_origin in Hc; [|reflexivity|reflexivity].
  destruct Hc as (c' & H1 & H2 & H3). exists c'. split; [exact H1|]. destruct (_ && _); subst c; auto.
Qed.
Lemma neg_keys : forall neg a b, NoDup (map fst a) -> NoDup (map fst (add_then_negate R L neg a b)).
Proof.
  intros neg a b Na. unfold add_then_negate. rewrite map_map. rewrite (map_ext _ fst) by (intros x; destruct (_ && _); reflexivity). rewrite sp_add_acc by auto. now apply acc_keys.
Qed.
Lemma neg_wf : forall neg n dm a b, NoDup (map fst a) -> wf_tensor R L n dm a -> wf_tensor R L n dm b -> positive a -> positive b -> wf_tensor R L n dm (add_then_negate R L neg a b) /\ positive (add_then_negate R L neg a b).
Proof.
  intros neg n dm a b Na Wa Wb Pa Pb. split; intros c Hc; apply neg_in in Hc; auto; destruct Hc as (c' & H1 & H2 & H3); apply in_app_iff in H1; rewrite <- ?H2, <- H3; destruct H1; auto.
Qed.

(** transposition *)
Lemma transpose_elem : forall n dm p (t : tensor) sts, Permutation (zrange n) p -> wf_tensor R L n dm t -> Z.of_nat (length sts) = n -> telem (sp_transpose R L (Some p) t) (pick s0 p sts) = telem t sts.
Proof.
  intros n dm p t sts Hp W Ls. unfold MpsDot.telem. rewrite <- (elem_transpose R L n p Hp t (map fst sts) (map snd sts)); [|intros b Hb; destruct (wf_shape_length _ _ _ _ _ _ W Hb); auto|now rewrite map_length|now rewrite map_length].
  f_equal; unfold pick; rewrite map_map; apply map_ext; intros i; [change (q0 L) with (fst s0) at 2|change 0 with (snd s0) at 2]; now rewrite map_nth.
Qed.
Lemma transpose_in : forall p (t : tensor) c, In c (sp_transpose R L (Some p) t) <-> exists b, In b t /\ c = (pick (q0 L) p (fst b), nd_transpose p (snd b)).
Proof. intros p t c. unfold sp_transpose. rewrite in_map_iff. split; intros (b & H1 & H2); exists b; auto. Qed.
Lemma transpose_wf : forall n dm p (t : tensor), Permutation (zrange n) p -> wf_tensor R L n dm t -> wf_tensor R L n (fun i => dm (nth (Z.to_nat i) p 0)) (sp_transpose R L (Some p) t).
Proof.
  intros n dm p t Hp W c Hc. apply transpose_in in Hc. destruct Hc as (b & Hb & ->). cbn [fst snd nshape nd_transpose]. destruct (W b Hb) as [Lb Sb]. pose proof (perm_length n p Hp) as Lp. rewrite pick_length.
  assert (0 <= n) by lia. split; [lia|]. rewrite Sb. rewrite pick_shape_of; [|exact Lb|now apply perm_range]. unfold shape_of.
  apply nth_ext with (d := 0) (d' := 0); [rewrite !map_length, !combine_length, pick_length, zrange_length; lia|].
  intros k Hk. rewrite map_length, combine_length, pick_length in Hk.
  rewrite (nth_indep _ 0 (dm (fst (0, q0 L)) (snd (0, q0 L)))) by (rewrite map_length, combine_length, pick_length; lia). rewrite (map_nth (fun z => dm (fst z) (snd z))).
  rewrite (nth_indep _ 0 ((fun z => dm (nth (Z.to_nat (fst z)) p 0) (snd z)) (0, q0 L))) by (rewrite map_length, combine_length, pick_length, zrange_length; lia). rewrite (map_nth (fun z => dm (nth (Z.to_nat (fst z)) p 0) (snd z))).
  rewrite !combine_nth by (rewrite pick_length, ?zrange_length; lia). cbn [fst snd]. rewrite nth_zrange by lia. now rewrite Nat2Z.id.
Qed.
Lemma transpose_pos : forall n dm p (t : tensor), Permutation (zrange n) p -> wf_tensor R L n dm t -> positive t -> positive (sp_transpose R L (Some p) t).
Proof.
  intros n dm p t Hp W Pt c Hc. apply transpose_in in Hc. destruct Hc as (b & Hb & ->). cbn [snd nshape nd_transpose]. apply Forall_forall. intros d Hd. unfold pick in Hd. apply in_map_iff in Hd. destruct Hd as (i & <- & Hi).
  specialize (Pt b Hb). rewrite Forall_forall in Pt. apply Pt. apply nth_In. destruct (wf_shape_length _ _ _ _ _ _ W Hb). apply (perm_range n p Hp) in Hi. lia.
Qed.
Lemma transpose_keys : forall n dm p (t : tensor), Permutation (zrange n) p -> wf_tensor R L n dm t -> NoDup (map fst t) -> NoDup (map fst (sp_transpose R L (Some p) t)).
Proof.
  intros n dm p t Hp W N. unfold sp_transpose. rewrite map_map. cbn [fst]. induction t as [|b t IH]; [constructor|]. cbn [map] in *. inversion N as [|? ? N1 N2]; subst. constructor; [|apply IH; [intros c Hc; apply W; now right|exact N2]].
  intros H. apply in_map_iff in H. destruct H as (b' & E & Hb'). apply N1. apply in_map_iff. exists b'. split; [|exact Hb']. apply (pick_inj n p Hp _ (q0 L)); [apply (W b' (or_intror Hb'))|apply (W b (or_introl eq_refl))|exact E].
Qed.
End MDot.
