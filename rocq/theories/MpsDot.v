(** Lemmas for C32 and C33: contractions written as sums over states, overlaps of two MPS. *)
From Coq Require Import ZArith Bool List Lia Permutation Ring.
From Verif Require Import SymModel SymProofs DictLib IndexLib OptLib RingLib BondModel BondProofs FuseModel FuseProofs FuseTProofs FuseTProps BlockModel BlockProofs BlockProps StructModel StructProofs SumProofs StructProps MpsModel MpsChain MpsProofs.
Import ListNotations.
Open Scope Z_scope.

Section Dot.
Variable R : CRing.
Add Ring Rr3 : (rth R).
Variable L : Label.
Notation tensor := (list (list L * nd R)).
Notation site := (site R L).
Notation state := (L * Z)%type.
Notation "0'" := (r0 R). Notation "1'" := (r1 R).
Infix "+'" := (radd R) (at level 50, left associativity).
Infix "*'" := (rmul R) (at level 40, left associativity).
Notation tspec := (tup_eqb_spec L).

(* element of a tensor at a list of states *)
Definition telem (t : tensor) (sts : list state) : R := elem R L t (map fst sts) (map snd sts).
Definition positive (t : tensor) : Prop := forall b, In b t -> Forall (fun d => 0 < d) (nshape (snd b)).

Lemma split_states : forall (sts : list state), sts = combine (map fst sts) (map snd sts).
Proof. induction sts as [|[q x] l IH]; cbn; congruence. Qed.
Lemma map_fst_combine : forall A B (l : list A) (m : list B), length l = length m -> map fst (combine l m) = l.
Proof. induction l as [|x l IH]; intros [|y m] H; cbn in *; try discriminate; f_equal; auto. Qed.
Lemma map_snd_combine : forall A B (l : list A) (m : list B), length l = length m -> map snd (combine l m) = m.
Proof. induction l as [|x l IH]; intros [|y m] H; cbn in *; try discriminate; f_equal; auto. Qed.
Lemma combine_app2 : forall A B (l l' : list A) (m m' : list B), length l = length m -> combine (l ++ l') (m ++ m') = combine l m ++ combine l' m'.
Proof. induction l as [|x l IH]; intros l' [|y m] m' H; cbn in *; try discriminate; f_equal; auto. Qed.
Definition tup_dec : forall a b : list L, {a = b} + {a <> b} := list_eq_dec (q_dec L).
Definition sts_dec : forall a b : list state, {a = b} + {a <> b} := list_eq_dec (st_dec L).

Section Head.
Variables (a b : tensor) (na nb : Z) (dma dmb : Z -> L -> Z) (k : Z) (r : tensor).
Hypothesis Wa : wf_tensor R L na dma a.
Hypothesis Wb : wf_tensor R L nb dmb b.
Hypothesis Pa : positive a.
Hypothesis Ka : 0 <= k <= na.
Hypothesis Kb : k <= nb.
Hypothesis D : forall i q, 0 <= i < k -> dma i q = dmb i q.
Hypothesis E : sp_tensordot R L a b (zrange k) (zrange k) = Some r.

Let leg_id : forall n, map (leg n) (zrange k) = zrange k.
Proof. intros n. rewrite <- (map_id (zrange k)) at 2. apply map_ext_in. intros i Hi. apply in_zrange in Hi. unfold leg. destruct (Z.ltb_spec i 0); lia. Qed.
Let dims : forall i j q, In (i, j) (combine (zrange k) (zrange k)) -> dma i q = dmb j q.
Proof.
  intros i j q H. assert (i = j). { clear - H. induction (zrange k); cbn in H; [destruct H|]. destruct H as [H|H]; [congruence|auto]. } subst j. apply D. apply in_combine_l in H. now apply in_zrange.
Qed.
(* the states of the first k legs that occur in a *)
Definition head_states : list (list state) :=
  flat_map (fun qc => map (combine qc) (all_idx (shape_of L dma (zrange k) qc))) (nodup tup_dec (map (fun ba => pick (q0 L) (zrange k) (fst ba)) a)).
Lemma head_pick : forall ba, In ba a -> exists qo, fst ba = pick (q0 L) (zrange k) (fst ba) ++ qo /\ Z.of_nat (length qo) = na - k.
Proof.
  intros ba Hb. destruct (Wa ba Hb) as [Lb _]. exists (skipn (Z.to_nat k) (fst ba)). rewrite pick_firstn by lia. split; [now rewrite firstn_skipn|]. rewrite skipn_length. lia.
Qed.
Lemma shape_app : forall qc qo, Z.of_nat (length qc) = k -> Z.of_nat (length qo) = na - k -> exists so, shape_of L dma (zrange na) (qc ++ qo) = shape_of L dma (zrange k) qc ++ so.
Proof.
  intros qc qo Hc Ho. exists (shape_of L dma (map (fun i => k + i) (zrange (na - k))) qo).
  replace (zrange na) with (zrange k ++ map (fun i => k + i) (zrange (na - k))) by (rewrite <- zrange_app by lia; f_equal; lia).
  unfold shape_of. rewrite <- map_app. f_equal. rewrite combine_app2 by (rewrite zrange_length; lia). reflexivity.
Qed.
Lemma head_nodup : NoDup (head_states).
Proof.
  unfold head_states. assert (Q: forall qc, In qc (nodup tup_dec (map (fun ba => pick (q0 L) (zrange k) (fst ba)) a)) -> Z.of_nat (length qc) = k /\ Forall (fun d => 0 <= d) (shape_of L dma (zrange k) qc)).
  { intros qc H. apply nodup_In in H. apply in_map_iff in H. destruct H as (ba & <- & Hb). assert (Lp: Z.of_nat (length (pick (q0 L) (zrange k) (fst ba))) = k) by (rewrite pick_length, zrange_length; lia). split; [exact Lp|].
    destruct (head_pick ba Hb) as (qo & E1 & E2). destruct (Wa ba Hb) as [_ Sb]. specialize (Pa ba Hb). rewrite Sb, E1 in Pa. destruct (shape_app _ qo Lp E2) as (so & Es). rewrite Es in Pa.
    apply Forall_app in Pa. destruct Pa as [P1 _]. eapply Forall_impl; [|exact P1]. cbv beta; intros; lia. }
  assert (N: NoDup (nodup tup_dec (map (fun ba => pick (q0 L) (zrange k) (fst ba)) a))) by apply NoDup_nodup.
  induction N as [|qc l Hq N IH]; cbn [flat_map]; [constructor|]. destruct (Q qc (or_introl eq_refl)) as [Lq Fq].
  assert (Ls: forall xc q, In xc (all_idx (shape_of L dma (zrange k) q)) -> Z.of_nat (length q) = k -> length q = length xc).
  { intros xc q Hx Hk. apply in_all_idx in Hx. apply F2_length in Hx. rewrite <- Hx, shape_of_length, zrange_length. lia. }
  apply NoDup_app_iff'; [|apply IH; intros q Hi; apply Q; now right|].
  - assert (Nx: NoDup (all_idx (shape_of L dma (zrange k) qc))) by now apply all_idx_nodup. assert (Lx: forall xc, In xc (all_idx (shape_of L dma (zrange k) qc)) -> length qc = length xc) by (intros; now apply Ls).
    clear - Nx Lx. induction Nx as [|x l Hx Nx IH]; cbn [map]; constructor.
    + intros H. apply in_map_iff in H. destruct H as (y & Ey & Hy). apply Hx. assert (x = y); [|congruence]. rewrite <- (map_snd_combine L Z qc x) by (apply Lx; now left). rewrite <- Ey. apply map_snd_combine. apply Lx. now right.
    + apply IH. intros; apply Lx; now right.
  - intros c H1 H2. apply in_map_iff in H1. destruct H1 as (x & <- & Hx). apply in_flat_map in H2. destruct H2 as (q' & Hq' & H2). apply in_map_iff in H2. destruct H2 as (x' & Ex & Hx').
    apply Hq. destruct (Q q' (or_intror Hq')) as [Lq' _]. assert (qc = q'); [|congruence]. rewrite <- (map_fst_combine L Z qc x) by now apply Ls. rewrite <- Ex. apply map_fst_combine. now apply Ls.
Qed.
Lemma head_zero : forall c fa, Z.of_nat (length c) = k -> Z.of_nat (length fa) = na - k -> ~ In c head_states -> telem a (c ++ fa) = 0'.
Proof.
  intros c fa Hc Hf N. unfold telem. apply elem_out. intros ba Hb Eb X. apply N. unfold head_states. apply in_flat_map.
  assert (Epick: pick (q0 L) (zrange k) (fst ba) = map fst c). { rewrite Eb, map_app. apply pick_front. now rewrite map_length. }
  exists (map fst c). split. { apply nodup_In. apply in_map_iff. exists ba. auto. }
  rewrite (split_states c) at 1. apply in_map. apply in_all_idx. destruct (Wa ba Hb) as [_ Sb]. rewrite Sb, Eb, map_app in X.
  destruct (shape_app (map fst c) (map fst fa)) as (so & Es); [now rewrite map_length|now rewrite map_length|]. rewrite Es, map_app in X. unfold in_shape in *.
  apply Forall2_app_inv_l in X. destruct X as (x1 & x2 & X1 & X2 & Ex). apply FuseTProofs.app_inj_len in Ex; [|].
  - destruct Ex as [-> _]. exact X1.
  - apply F2_length in X1. rewrite <- X1, shape_of_length, zrange_length, !map_length. lia.
Qed.
Lemma tdot_head : forall C fa fb, NoDup C -> (forall c, In c C -> Z.of_nat (length c) = k) -> Z.of_nat (length fa) = na - k -> Z.of_nat (length fb) = nb - k ->
  (forall c, Z.of_nat (length c) = k -> ~ In c C -> telem a (c ++ fa) *' telem b (c ++ fb) = 0') ->
  telem r (fa ++ fb) = bsum C (fun c => telem a (c ++ fa) *' telem b (c ++ fb)).
Proof.
  intros C fa fb NC LC Lfa Lfb Cov. unfold telem at 1. rewrite !map_app.
  assert (LH: forall c, In c head_states -> Z.of_nat (length c) = k).
  { intros c Hc. unfold head_states in Hc. apply in_flat_map in Hc. destruct Hc as (qc & Hq & Hc). apply nodup_In in Hq. apply in_map_iff in Hq. destruct Hq as (ba & <- & _). apply in_map_iff in Hc. destruct Hc as (xc & <- & Hx).
    apply in_all_idx in Hx. apply F2_length in Hx. rewrite shape_of_length, pick_length, zrange_length in Hx. rewrite combine_length, pick_length, zrange_length. lia. }
  pose proof (c14_contraction_is_dense_contraction R L a b na nb dma dmb (zrange k) (zrange k) r Wa Wb) as T. cbv zeta in T. rewrite !leg_id in T.
  rewrite (T (zrange_nodup k)) with (Ls := nodup tup_dec (map (fun ba => pick (q0 L) (zrange k) (fst ba)) a)); clear T; auto.
  - transitivity (bsum head_states (fun c => telem a (c ++ fa) *' telem b (c ++ fb))).
    + unfold head_states. rewrite bsum_flat_map. apply bsum_ext. intros qc Hq. rewrite bsum_map. apply bsum_ext. intros xc Hx.
      apply nodup_In in Hq. apply in_map_iff in Hq. destruct Hq as (ba & Eq & _). assert (Lq: Z.of_nat (length qc) = k) by (rewrite <- Eq, pick_length, zrange_length; lia).
      apply in_all_idx in Hx. apply F2_length in Hx. rewrite shape_of_length, zrange_length in Hx.
      unfold telem. rewrite !map_app, map_fst_combine, map_snd_combine by lia. rewrite !merge_first by (rewrite ?map_length; lia). reflexivity.
    + apply (bsum_cover R _ sts_dec); auto using head_nodup; intros c Hc.
      * destruct (Z.eq_dec (Z.of_nat (length c)) k) as [Lc|Lc]; [rewrite head_zero by auto; ring|].
        assert (Z0: telem a (c ++ fa) = 0'); [|rewrite Z0; ring]. unfold telem. apply elem_out. intros ba Hb Eb _. destruct (Wa ba Hb) as [Lb _]. rewrite Eb, map_length, app_length in Lb. lia.
      * destruct (Z.eq_dec (Z.of_nat (length c)) k) as [Lc|Lc]; [now apply Cov|].
        assert (Z0: telem a (c ++ fa) = 0'); [|rewrite Z0; ring]. unfold telem. apply elem_out. intros ba Hb Eb _. destruct (Wa ba Hb) as [Lb _]. rewrite Eb, map_length, app_length in Lb. lia.
  - intros i Hi. apply in_zrange in Hi. lia.
  - apply zrange_nodup.
  - intros i Hi. apply in_zrange in Hi. lia.
  - apply NoDup_nodup.
  - intros q Hq. apply nodup_In in Hq. apply in_map_iff in Hq. destruct Hq as (ba & <- & _). apply pick_length.
  - intros ba Hb. apply nodup_In. apply in_map_iff. eauto.
  - rewrite others_first, !map_length, zrange_length by lia. lia.
  - rewrite others_first, !map_length, zrange_length by lia. lia.
  - rewrite others_first, !map_length, zrange_length by lia. lia.
  - rewrite others_first, !map_length, zrange_length by lia. lia.
Qed.
Lemma tdot_head_wf : positive b -> wf_tensor R L (na - k + (nb - k)) (fun i q => if i <? na - k then dma (k + i) q else dmb (k + (i - (na - k))) q) r /\ positive r /\ NoDup (map fst r).
Proof.
  intros Pb. assert (Er: r = fold_left (put_with R L nd_add (fun x => x)) (contribs R L a b (zrange k) (zrange k) (others na (zrange k)) (others nb (zrange k))) []).
  { apply sp_tensordot_acc in E. rewrite E. f_equal. destruct a as [|ba a']; [reflexivity|].
    rewrite !norm_axes_leg, !leg_id. rewrite (ndim_wf R L na dma (ba :: a') Wa) by congruence. destruct b as [|bb b'].
    - unfold contribs. clear. induction (ba :: a'); [reflexivity|]. cbn [flat_map filter map app]. exact IHl.
    - rewrite (ndim_wf R L nb dmb (bb :: b') Wb) by congruence. reflexivity. }
  assert (Ia: forall i, In i (zrange k) -> 0 <= i < na) by (intros i Hi; apply in_zrange in Hi; lia). assert (Ib: forall i, In i (zrange k) -> 0 <= i < nb) by (intros i Hi; apply in_zrange in Hi; lia).
  rewrite Er. split; [|split].
  - assert (W: wf_tensor R L (na - k + (nb - k)) (dm_out L na nb dma dmb (zrange k) (zrange k)) (contribs R L a b (zrange k) (zrange k) (others na (zrange k)) (others nb (zrange k)))).
    { replace (na - k + (nb - k)) with (Z.of_nat (length (others na (zrange k))) + Z.of_nat (length (others nb (zrange k)))) by (rewrite !others_first, !map_length, !zrange_length by lia; lia). apply contribs_wf; auto. }
    apply acc_wf; [reflexivity|reflexivity|intros ? []|]. intros c Hc. destruct (W c Hc) as [Lc Sc]. split; [exact Lc|]. rewrite Sc. apply map_ext_in. intros [i q] Hi. cbn [fst snd]. apply in_combine_l in Hi. apply in_zrange in Hi.
    unfold dm_out. rewrite !others_first, !map_length, !zrange_length by lia. replace (Z.of_nat (Z.to_nat (na - k))) with (na - k) by lia.
    destruct (Z.ltb_spec i (na - k)).
    + rewrite (nth_indep _ 0 (k + 0)) by (rewrite map_length, zrange_length; lia). rewrite (map_nth (fun j => k + j)), nth_zrange by lia. f_equal. lia.
    + rewrite (nth_indep _ 0 (k + 0)) by (rewrite map_length, zrange_length; lia). rewrite (map_nth (fun j => k + j)), nth_zrange by lia. f_equal. lia.
  - intros c Hc. apply acc_origin in Hc; [|reflexivity|reflexivity]. destruct Hc as (c' & Hc & _ & <-). cbn [app] in Hc. apply contribs_in in Hc. destruct Hc as (ba & bb & Ha & Hb & _ & ->). cbn [snd nshape nd_tensordot].
    apply Forall_app. specialize (Pa ba Ha). specialize (Pb bb Hb). destruct (wf_shape_length _ _ _ _ _ _ Wa Ha) as [SA LA], (wf_shape_length _ _ _ _ _ _ Wb Hb) as [SB LB]. rewrite Forall_forall in Pa, Pb.
    split; apply Forall_forall; intros d Hd; unfold pick in Hd; apply in_map_iff in Hd; destruct Hd as (i & <- & Hi); apply in_others in Hi; [apply Pa|apply Pb]; apply nth_In; lia.
  - apply acc_keys. constructor.
Qed.
End Head.

Lemma tdot_some : forall a b ia ib, length ia = length ib -> exists r, sp_tensordot R L a b ia ib = Some r.
Proof. intros a b ia ib H. unfold sp_tensordot, norm_axes. rewrite !map_length, H, Nat.eqb_refl. cbn [negb]. eauto. Qed.
Lemma NoDup_prod : forall A B (l : list A) (m : list B), NoDup l -> NoDup m -> NoDup (list_prod l m).
Proof.
  intros A B l m Hl Hm. induction Hl as [|x l Hx Hl IH]; cbn [list_prod]; [constructor|]. apply NoDup_app_iff'; [|exact IH|].
  - apply FinFun.Injective_map_NoDup; [intros y z H; congruence|exact Hm].
  - intros p H1 H2. apply in_map_iff in H1. destruct H1 as (y & <- & _). apply in_prod_iff in H2. tauto.
Qed.
Lemma bsum_list_prod : forall A B (l : list A) (m : list B) (f : A * B -> R), bsum (list_prod l m) f = bsum l (fun x => bsum m (fun y => f (x, y))).
Proof. intros A B l m f. induction l as [|x l IH]; cbn [list_prod]; [reflexivity|]. rewrite bsum_app, bsum_cons, IH, bsum_map. reflexivity. Qed.
Lemma selem_telem : forall t p l r, selem (R := R) (SP t) (false, p) l r = telem t (l :: p ++ [r]).
Proof. intros. unfold selem, telem. cbn [fst snd part map]. now rewrite !map_app. Qed.
Lemma item_scalar : forall dm t, wf_tensor R L 0 dm t -> NoDup (map fst t) -> sp_item R L t = Some (telem t []).
Proof.
  intros dm t W N. destruct t as [|[q v] t]; [reflexivity|]. destruct (W _ (or_introl eq_refl)) as [Lq Sq]. cbn [fst snd] in *. destruct q; [|cbn in Lq; lia].
  destruct t as [|[q' v'] t].
  - cbn [sp_item]. f_equal. unfold telem, elem. rewrite bsum_cons, bsum_nil. cbn [fst snd map]. destruct (tspec [] []); [|congruence]. unfold nget. rewrite Sq. cbn. ring.
  - exfalso. destruct (W _ (or_intror (or_introl eq_refl))) as [Lq' _]. cbn [fst] in Lq'. destruct q'; [|cbn in Lq'; lia]. cbn [map fst] in N. inversion N as [|? ? H _]. apply H. now left.
Qed.

(* one physical state per site *)
Fixpoint choices {A} (Ps : list (list A)) : list (list A) :=
  match Ps with [] => [[] ] | P :: Ps' => flat_map (fun p => map (cons p) (choices Ps')) P end.
Fixpoint phys (shp : list (Z * (Z -> L -> Z))) (Ps : list (list (list state))) (ts : list site) {struct ts} : Prop :=
  match ts with
  | [] => Ps = []
  | t :: ts' =>
    match shp, Ps with
    | (n, _) :: shp', P :: Ps' => NoDup P /\ (forall p, In p P -> Z.of_nat (length p) = n - 2) /\ (forall p l r, ~ In p P -> selem t (false, p) l r = 0') /\ phys shp' Ps' ts'
    | _, _ => False
    end
  end.
Definition overlap (Ps : list (list (list state))) (Br : list state) (Ba : list (list state)) (a : list site) (Bb : list (list state)) (b : list site) (m m' : state) : R :=
  bsum (choices Ps) (fun ps => bsum Br (fun r => amplitude Ba a (map (pair false) ps) m r *' amplitude Bb b (map (pair false) ps) m' r)).
Lemma bsum_mul2 : forall A B (l : list A) (l' : list B) f g, bsum l f *' bsum l' g = bsum l (fun x => bsum l' (fun y => f x *' g y)).
Proof. intros. rewrite <- bsum_mulr. apply bsum_ext. intros. rewrite <- bsum_mull. reflexivity. Qed.
Lemma overlap_cons : forall P P' Ps Br B Ba s s' a B' Bb t t' b m m', overlap (P :: P' :: Ps) Br (B :: Ba) (s :: s' :: a) (B' :: Bb) (t :: t' :: b) m m' =
  bsum P (fun p => bsum B (fun k => bsum B' (fun k' => selem s (false, p) m k *' selem t (false, p) m' k' *' overlap (P' :: Ps) Br Ba (s' :: a) Bb (t' :: b) k k'))).
Proof.
  intros. unfold overlap at 1. cbn [choices]. rewrite bsum_flat_map. apply bsum_ext. intros p _. rewrite bsum_map. unfold overlap. fold (choices (P' :: Ps)).
  transitivity (bsum (choices (P' :: Ps)) (fun ps => bsum Br (fun r => bsum B (fun k => bsum B' (fun k' => selem s (false, p) m k *' selem t (false, p) m' k' *' (amplitude Ba (s' :: a) (map (pair false) ps) k r *' amplitude Bb (t' :: b) (map (pair false) ps) k' r)))))).
  { apply bsum_ext. intros ps _. apply bsum_ext. intros r _. unfold amplitude. cbn [map]. rewrite !chain_cons, bsum_mul2. apply bsum_ext. intros k _. apply bsum_ext. intros k' _. ring. }
  rewrite (bsum_ext R _ _ _ (fun ps => bsum B (fun k => bsum B' (fun k' => bsum Br (fun r => selem s (false, p) m k *' selem t (false, p) m' k' *' (amplitude Ba (s' :: a) (map (pair false) ps) k r *' amplitude Bb (t' :: b) (map (pair false) ps) k' r)))))).
  2:{ intros ps _. rewrite bsum_swap. apply bsum_ext. intros k _. apply bsum_swap. }
  rewrite bsum_swap. apply bsum_ext. intros k _. rewrite bsum_swap. apply bsum_ext. intros k' _. rewrite <- bsum_mull. apply bsum_ext. intros ps _. rewrite bsum_mull. reflexivity.
Qed.
Lemma overlap_one : forall P Br Ba s Bb t m m', overlap [P] Br Ba [s] Bb [t] m m' = bsum P (fun p => bsum Br (fun r => selem s (false, p) m r *' selem t (false, p) m' r)).
Proof. intros. unfold overlap. cbn [choices]. rewrite bsum_flat_map. apply bsum_ext. intros p _. rewrite bsum_map, bsum_cons, bsum_nil. unfold amplitude. cbn [map]. rewrite (bsum_ext R _ Br _ (fun r => selem s (false, p) m r *' selem t (false, p) m' r)) by (intros; now rewrite !chain_one). ring. Qed.

(* a contraction of the first legs (left bond, physical, possibly the right bond) *)
Definition sparse (s : site) : Prop := exists t, s = SP t.
Section Step.
Variables (s t : tensor) (n : Z) (dla dlb dra drb : L -> Z) (dp : Z -> L -> Z) (P : list (list state)).
Hypothesis Ws : wf_site (R := R) n dla dp dra (SP s).
Hypothesis Wt : wf_site (R := R) n dlb dp drb (SP t).
Hypothesis NP : NoDup P.
Hypothesis LP : forall p, In p P -> Z.of_nat (length p) = n - 2.
Hypothesis CP : forall p l r, ~ In p P -> selem (R := R) (SP s) (false, p) l r = 0'.
Let Hn : 2 <= n. Proof. apply Ws. Qed.
Let Wss : wf_tensor R L n (ldim L n dla dp dra) s. Proof. destruct Ws as [_ W]. apply (W false). Qed.
Let Wtt : wf_tensor R L n (ldim L n dlb dp drb) t. Proof. destruct Wt as [_ W]. apply (W false). Qed.
Let Ps : positive s. Proof. destruct Ws as [_ W]. exact (proj1 (proj2 (W false))). Qed.
Let Pt : positive t. Proof. destruct Wt as [_ W]. exact (proj1 (proj2 (W false))). Qed.
Definition heads (M : list state) : list (list state) := map (fun mp => fst mp :: snd mp) (list_prod M P).
Definition wholes (M Br : list state) : list (list state) := map (fun mpr => fst (fst mpr) :: snd (fst mpr) ++ [snd mpr]) (list_prod (list_prod M P) Br).
Lemma heads_nodup : forall M, NoDup M -> NoDup (heads M).
Proof. intros M N. unfold heads. apply FinFun.Injective_map_NoDup; [|now apply NoDup_prod]. intros [x p] [y q] H. cbn [fst snd] in H. congruence. Qed.
Lemma wholes_nodup : forall M Br, NoDup M -> NoDup Br -> NoDup (wholes M Br).
Proof.
  intros M Br N N'. unfold wholes. apply FinFun.Injective_map_NoDup; [|repeat apply NoDup_prod; auto]. intros [[x p] z] [[y q] z'] H. cbn [fst snd] in H. injection H as -> H. apply app_inj_tail in H. destruct H. congruence.
Qed.
Lemma bsum_heads : forall M (f : list state -> R), bsum (heads M) f = bsum M (fun m => bsum P (fun p => f (m :: p))).
Proof. intros. unfold heads. rewrite bsum_map, bsum_list_prod. reflexivity. Qed.
Lemma bsum_wholes : forall M Br (f : list state -> R), bsum (wholes M Br) f = bsum M (fun m => bsum P (fun p => bsum Br (fun r => f (m :: p ++ [r])))).
Proof. intros. unfold wholes. rewrite bsum_map, !bsum_list_prod. reflexivity. Qed.
Lemma telem_len : forall (x : tensor) k dm c, wf_tensor R L k dm x -> Z.of_nat (length c) <> k -> telem x c = 0'.
Proof. intros x k dm c W H. unfold telem. apply elem_out. intros b Hb Eb _. destruct (W b Hb) as [Lb _]. rewrite Eb, map_length in Lb. lia. Qed.

(* without a left environment *)
Lemma first_step : (forall q, dla q = dlb q) -> forall new, sp_tensordot R L s t (zrange (n - 1)) (zrange (n - 1)) = Some new ->
  wf_tensor R L 2 (fun i q => if i =? 0 then dra q else drb q) new /\ positive new /\
  forall Bl, NoDup Bl -> (forall p l r, ~ In l Bl -> selem (R := R) (SP s) (false, p) l r = 0') -> forall k k',
  telem new [k; k'] = bsum Bl (fun l => bsum P (fun p => selem (R := R) (SP s) (false, p) l k *' selem (R := R) (SP t) (false, p) l k')).
Proof.
  intros Dl new E.
  assert (Dm: forall i q, 0 <= i < n - 1 -> ldim L n dla dp dra i q = ldim L n dlb dp drb i q).
  { intros i q Hi. destruct (Z.eq_dec i 0) as [->|]; [rewrite !ldim_0; apply Dl|rewrite !ldim_mid by lia; reflexivity]. }
  destruct (tdot_head_wf s t n n _ _ (n - 1) new Wss Wtt Ps ltac:(lia) ltac:(lia) Dm E Pt) as (W & Pn & _).
  split; [|split; [exact Pn|] ].
  { intros b Hb. destruct (W b Hb) as [Lb Sb]. split; [lia|]. rewrite Sb. replace (n - (n - 1) + (n - (n - 1))) with 2 by lia. apply map_ext_in. intros [i q] Hi. cbn [fst snd]. apply in_combine_l in Hi. apply in_zrange in Hi.
    destruct (Z.ltb_spec i (n - (n - 1))); destruct (Z.eqb_spec i 0); try lia.
    - replace (n - 1 + i) with (n - 1) by lia. now rewrite ldim_last.
    - replace (n - 1 + (i - (n - (n - 1)))) with (n - 1) by lia. now rewrite ldim_last. }
  intros Bl NBl CBl k k'. change [k; k'] with ([k] ++ [k']).
  rewrite (tdot_head s t n n _ _ (n - 1) new Wss Wtt Ps ltac:(lia) ltac:(lia) Dm E (heads Bl) [k] [k']); cbn [length]; try lia.
  - rewrite bsum_heads. apply bsum_ext. intros l _. apply bsum_ext. intros p _. rewrite !selem_telem. reflexivity.
  - now apply heads_nodup.
  - intros c Hc. unfold heads in Hc. apply in_map_iff in Hc. destruct Hc as ([m p] & <- & Hc). apply in_prod_iff in Hc. destruct Hc as [_ Hp]. cbn [fst snd length]. specialize (LP p Hp). lia.
  - intros c Lc Hc. destruct c as [|m p]; [cbn in Lc; lia|]. cbn [app]. rewrite <- selem_telem.
    destruct (in_dec (st_dec L) m Bl) as [Im|Im]; [|rewrite CBl by auto; ring]. destruct (in_dec sts_dec p P) as [Ip|Ip]; [|rewrite CP by auto; ring].
    exfalso. apply Hc. unfold heads. apply in_map_iff. exists (m, p). split; [reflexivity|]. now apply in_prod.
Qed.
Lemma first_last : (forall q, dla q = dlb q) -> (forall q, dra q = drb q) -> forall new, sp_tensordot R L s t (zrange n) (zrange n) = Some new ->
  forall Bl Br, NoDup Bl -> NoDup Br -> (forall p l r, ~ In l Bl \/ ~ In r Br -> selem (R := R) (SP s) (false, p) l r = 0') ->
  sp_item R L new = Some (bsum Bl (fun l => bsum P (fun p => bsum Br (fun r => selem (R := R) (SP s) (false, p) l r *' selem (R := R) (SP t) (false, p) l r)))).
Proof.
  intros Dl Dr new E Bl Br NBl NBr CB.
  assert (Dm: forall i q, 0 <= i < n -> ldim L n dla dp dra i q = ldim L n dlb dp drb i q).
  { intros i q Hi. destruct (Z.eq_dec i 0) as [->|]; [rewrite !ldim_0; apply Dl|]. destruct (Z.eq_dec i (n - 1)) as [->|]; [rewrite !ldim_last by lia; apply Dr|rewrite !ldim_mid by lia; reflexivity]. }
  destruct (tdot_head_wf s t n n _ _ n new Wss Wtt Ps ltac:(lia) ltac:(lia) Dm E Pt) as (W & _ & Nn). replace (n - n + (n - n)) with 0 in W by lia. rewrite (item_scalar _ _ W Nn). f_equal.
  change (telem new []) with (telem new ([] ++ [])).
  rewrite (tdot_head s t n n _ _ n new Wss Wtt Ps ltac:(lia) ltac:(lia) Dm E (wholes Bl Br) [] []); cbn [length]; try lia.
  - rewrite bsum_wholes. apply bsum_ext. intros l _. apply bsum_ext. intros p _. apply bsum_ext. intros r _. rewrite !selem_telem, !app_nil_r. reflexivity.
  - now apply wholes_nodup.
  - intros c Hc. unfold wholes in Hc. apply in_map_iff in Hc. destruct Hc as ([[m p] r] & <- & Hc). apply in_prod_iff in Hc. destruct Hc as [Hc _]. apply in_prod_iff in Hc. destruct Hc as [_ Hp]. cbn [fst snd length]. rewrite app_length. cbn [length]. specialize (LP p Hp). lia.
  - intros c Lc Hc. rewrite !app_nil_r. destruct c as [|m c]; [cbn in Lc; lia|]. destruct (exists_last (l := c)) as (p & r & ->); [intro Z0; subst c; cbn in Lc; lia|]. rewrite <- selem_telem.
    destruct (in_dec (st_dec L) m Bl) as [Im|Im]; [|rewrite CB by auto; ring]. destruct (in_dec (st_dec L) r Br) as [Ir|Ir]; [|rewrite CB by auto; ring]. destruct (in_dec sts_dec p P) as [Ip|Ip]; [|rewrite CP by auto; ring].
    exfalso. apply Hc. unfold wholes. apply in_map_iff. exists (m, p, r). split; [reflexivity|]. apply in_prod; [now apply in_prod|exact Ir].
Qed.

(* with a left environment *)
Variable env : tensor.
Hypothesis We : wf_tensor R L 2 (fun i q => if i =? 0 then dla q else dlb q) env.
Hypothesis Pe : positive env.
Variables (lbra : tensor).
Hypothesis El : sp_tensordot R L env s [0] [0] = Some lbra.
Let Dm1 : forall i q, 0 <= i < 1 -> (if i =? 0 then dla q else dlb q) = ldim L n dla dp dra i q.
Proof. intros i q Hi. assert (i = 0) by lia. subst i. now rewrite ldim_0. Qed.
Let Wl : wf_tensor R L n (ldim L n dlb dp dra) lbra /\ positive lbra.
Proof.
  assert (H: 0 <= 1 <= 2) by lia. destruct (tdot_head_wf env s 2 n _ _ 1 lbra We Wss Pe H ltac:(lia) Dm1 El Ps) as (W & Pl & _). split; [|exact Pl].
  intros b Hb. destruct (W b Hb) as [Lb Sb]. split; [lia|]. rewrite Sb. replace (2 - 1 + (n - 1)) with n by lia. apply map_ext_in. intros [i q] Hi. cbn [fst snd]. apply in_combine_l in Hi. apply in_zrange in Hi.
  destruct (Z.ltb_spec i (2 - 1)).
  - assert (i = 0) by lia. subst i. now rewrite ldim_0.
  - replace (1 + (i - (2 - 1))) with i by lia. unfold ldim. destruct (Z.eqb_spec i 0); [lia|]. reflexivity.
Qed.
Let lbra_elem : forall Ma, NoDup Ma -> (forall m m', ~ In m Ma -> telem env [m; m'] = 0') -> forall m' p k, Z.of_nat (length p) = n - 2 ->
  telem lbra (m' :: p ++ [k]) = bsum Ma (fun m => telem env [m; m'] *' selem (R := R) (SP s) (false, p) m k).
Proof.
  intros Ma NM CM m' p k Lp. change (m' :: p ++ [k]) with ([m'] ++ (p ++ [k])). assert (H: 0 <= 1 <= 2) by lia.
  rewrite (tdot_head env s 2 n _ _ 1 lbra We Wss Pe H ltac:(lia) Dm1 El (map (fun m => [m]) Ma) [m'] (p ++ [k])); cbn [length]; try (rewrite ?app_length; cbn [length]; lia).
  - rewrite bsum_map. apply bsum_ext. intros m _. rewrite selem_telem. reflexivity.
  - apply FinFun.Injective_map_NoDup; [intros x y E; congruence|exact NM].
  - intros c Hc. apply in_map_iff in Hc. destruct Hc as (m & <- & _). reflexivity.
  - intros c Lc Hc. destruct c as [|m [|]]; cbn in Lc; try lia. cbn [app]. rewrite CM; [ring|]. intros Hm. apply Hc. now apply (in_map (fun m => [m])).
Qed.
Lemma next_step : forall new, sp_tensordot R L lbra t (zrange (n - 1)) (zrange (n - 1)) = Some new ->
  wf_tensor R L 2 (fun i q => if i =? 0 then dra q else drb q) new /\ positive new /\
  forall Ma Mb, NoDup Ma -> NoDup Mb -> (forall m m', ~ In m Ma \/ ~ In m' Mb -> telem env [m; m'] = 0') -> forall k k',
  telem new [k; k'] = bsum Ma (fun m => bsum Mb (fun m' => bsum P (fun p => telem env [m; m'] *' selem (R := R) (SP s) (false, p) m k *' selem (R := R) (SP t) (false, p) m' k'))).
Proof.
  intros new E. destruct Wl as [Wll Pl].
  assert (Dm: forall i q, 0 <= i < n - 1 -> ldim L n dlb dp dra i q = ldim L n dlb dp drb i q).
  { intros i q Hi. destruct (Z.eq_dec i 0) as [->|]; [rewrite !ldim_0; reflexivity|rewrite !ldim_mid by lia; reflexivity]. }
  destruct (tdot_head_wf lbra t n n _ _ (n - 1) new Wll Wtt Pl ltac:(lia) ltac:(lia) Dm E Pt) as (W & Pn & _).
  split; [|split; [exact Pn|] ].
  { intros b Hb. destruct (W b Hb) as [Lb Sb]. split; [lia|]. rewrite Sb. replace (n - (n - 1) + (n - (n - 1))) with 2 by lia. apply map_ext_in. intros [i q] Hi. cbn [fst snd]. apply in_combine_l in Hi. apply in_zrange in Hi.
    destruct (Z.ltb_spec i (n - (n - 1))); destruct (Z.eqb_spec i 0); try lia.
    - replace (n - 1 + i) with (n - 1) by lia. now rewrite ldim_last.
    - replace (n - 1 + (i - (n - (n - 1)))) with (n - 1) by lia. now rewrite ldim_last. }
  intros Ma Mb NMa NMb CM k k'. change [k; k'] with ([k] ++ [k']).
  assert (CMa: forall m m', ~ In m Ma -> telem env [m; m'] = 0') by (intros; apply CM; auto).
  rewrite (tdot_head lbra t n n _ _ (n - 1) new Wll Wtt Pl ltac:(lia) ltac:(lia) Dm E (heads Mb) [k] [k']); cbn [length]; try lia.
  - rewrite bsum_heads. rewrite (bsum_swap R _ _ Ma Mb). apply bsum_ext. intros m' _. rewrite (bsum_swap R _ _ Ma P). apply bsum_ext. intros p Hp.
    cbn [app]. rewrite (lbra_elem Ma NMa CMa m' p k (LP p Hp)), <- bsum_mulr, selem_telem. apply bsum_ext. intros m _. reflexivity.
  - now apply heads_nodup.
  - intros c Hc. unfold heads in Hc. apply in_map_iff in Hc. destruct Hc as ([m p] & <- & Hc). apply in_prod_iff in Hc. destruct Hc as [_ Hp]. cbn [fst snd length]. specialize (LP p Hp). lia.
  - intros c Lc Hc. destruct c as [|m' p]; [cbn in Lc; lia|]. cbn [app]. rewrite (lbra_elem Ma NMa CMa) by (cbn [length] in Lc; lia).
    rewrite bsum_zero; [ring|]. intros m _.
    destruct (in_dec (st_dec L) m' Mb) as [Im|Im]; [|rewrite CM by auto; ring]. destruct (in_dec sts_dec p P) as [Ip|Ip]; [|rewrite CP by auto; ring].
    exfalso. apply Hc. unfold heads. apply in_map_iff. exists (m', p). split; [reflexivity|]. now apply in_prod.
Qed.
Lemma next_last : (forall q, dra q = drb q) -> forall new, sp_tensordot R L lbra t (zrange n) (zrange n) = Some new ->
  forall Ma Mb Br, NoDup Ma -> NoDup Mb -> NoDup Br -> (forall m m', ~ In m Ma \/ ~ In m' Mb -> telem env [m; m'] = 0') -> (forall p l r, ~ In r Br -> selem (R := R) (SP s) (false, p) l r = 0') ->
  sp_item R L new = Some (bsum Ma (fun m => bsum Mb (fun m' => telem env [m; m'] *' bsum P (fun p => bsum Br (fun r => selem (R := R) (SP s) (false, p) m r *' selem (R := R) (SP t) (false, p) m' r))))).
Proof.
  intros Dr new E Ma Mb Br NMa NMb NBr CM CB. destruct Wl as [Wll Pl].
  assert (Dm: forall i q, 0 <= i < n -> ldim L n dlb dp dra i q = ldim L n dlb dp drb i q).
  { intros i q Hi. destruct (Z.eq_dec i 0) as [->|]; [rewrite !ldim_0; reflexivity|]. destruct (Z.eq_dec i (n - 1)) as [->|]; [rewrite !ldim_last by lia; apply Dr|rewrite !ldim_mid by lia; reflexivity]. }
  destruct (tdot_head_wf lbra t n n _ _ n new Wll Wtt Pl ltac:(lia) ltac:(lia) Dm E Pt) as (W & _ & Nn). replace (n - n + (n - n)) with 0 in W by lia. rewrite (item_scalar _ _ W Nn). f_equal.
  change (telem new []) with (telem new ([] ++ [])).
  assert (CMa: forall m m', ~ In m Ma -> telem env [m; m'] = 0') by (intros; apply CM; auto).
  rewrite (tdot_head lbra t n n _ _ n new Wll Wtt Pl ltac:(lia) ltac:(lia) Dm E (wholes Mb Br) [] []); cbn [length]; try lia.
  - rewrite bsum_wholes. rewrite (bsum_swap R _ _ Ma Mb). apply bsum_ext. intros m' _.
    transitivity (bsum P (fun p => bsum Br (fun r => bsum Ma (fun m => telem env [m; m'] *' selem (R := R) (SP s) (false, p) m r *' selem (R := R) (SP t) (false, p) m' r)))).
    + apply bsum_ext. intros p Hp. apply bsum_ext. intros r _. rewrite !app_nil_r, (lbra_elem Ma NMa CMa m' p r (LP p Hp)), <- bsum_mulr, selem_telem. reflexivity.
    + rewrite (bsum_ext R _ P _ (fun p => bsum Ma (fun m => bsum Br (fun r => telem env [m; m'] *' selem (R := R) (SP s) (false, p) m r *' selem (R := R) (SP t) (false, p) m' r)))) by (intros; apply bsum_swap).
      rewrite bsum_swap. apply bsum_ext. intros m _. rewrite <- bsum_mull. apply bsum_ext. intros p _. rewrite <- bsum_mull. apply bsum_ext. intros r _. ring.
  - now apply wholes_nodup.
  - intros c Hc. unfold wholes in Hc. apply in_map_iff in Hc. destruct Hc as ([[m p] r] & <- & Hc). apply in_prod_iff in Hc. destruct Hc as [Hc _]. apply in_prod_iff in Hc. destruct Hc as [_ Hp]. cbn [fst snd length]. rewrite app_length. cbn [length]. specialize (LP p Hp). lia.
  - intros c Lc Hc. rewrite !app_nil_r. destruct c as [|m' c]; [cbn in Lc; lia|]. destruct (exists_last (l := c)) as (p & r & ->); [intro Z0; subst c; cbn in Lc; lia|].
    rewrite (lbra_elem Ma NMa CMa) by (cbn [length] in Lc; rewrite app_length in Lc; cbn [length] in Lc; lia).
    rewrite bsum_zero; [ring|]. intros m _.
    destruct (in_dec (st_dec L) m' Mb) as [Im|Im]; [|rewrite CM by auto; ring]. destruct (in_dec (st_dec L) r Br) as [Ir|Ir]; [|rewrite CB by auto; ring]. destruct (in_dec sts_dec p P) as [Ip|Ip]; [|rewrite CP by auto; ring].
    exfalso. apply Hc. unfold wholes. apply in_map_iff. exists (m', p, r). split; [reflexivity|]. apply in_prod; [now apply in_prod|exact Ir].
Qed.
End Step.

Lemma nempty_sparse : forall t, blocks (SP (R := R) (L := L) t) <> [] -> s_empty R L (SP t) = false /\ t <> [].
Proof. intros t H. unfold blocks in H. cbn in H. split; [|exact H]. unfold s_empty. cbn. destruct t; [congruence|reflexivity]. Qed.
Lemma last_cons2 : forall A (x y : A) l d, last (x :: y :: l) d = last (y :: l) d.
Proof. reflexivity. Qed.
Lemma dot_loop_spec : forall a b da db shp Ps Br Ba Bb env, a <> [] -> wf_sites da shp a -> wf_sites db shp b -> Forall sparse a -> Forall sparse b ->
  (forall s, In s (a ++ b) -> blocks s <> []) -> (forall q, last da (fun _ => 0) q = last db (fun _ => 0) q) ->
  wf_tensor R L 2 (fun i q => if i =? 0 then hd (fun _ => 0) da q else hd (fun _ => 0) db q) env -> positive env ->
  phys shp Ps a -> NoDup Br -> (forall p l r, ~ In r Br -> selem (last a (SP [])) p l r = 0') -> bonds Ba a -> bonds Bb b ->
  forall Ma Mb, NoDup Ma -> NoDup Mb -> (forall m m', ~ In m Ma \/ ~ In m' Mb -> telem env [m; m'] = 0') ->
  exists t, dot_loop R L (Some env) a b = Some (Some t) /\ sp_item R L t = Some (bsum Ma (fun m => bsum Mb (fun m' => telem env [m; m'] *' overlap Ps Br Ba a Bb b m m'))).
Proof.
  induction a as [|s0 a IH]; intros b da db shp Ps Br Ba Bb env Ne Wa Wb Sa Sb Nes Hl We Pe Ph NBr CBr Ca Cb Ma Mb NMa NMb CM; [now destruct Ne|]. clear Ne.
  destruct shp as [|[n dp] shp]; [destruct Wa|]. destruct da as [|d0 da]; [destruct Wa|]. destruct Wa as [Ws Wa].
  destruct b as [|t0 b]; [destruct Wb as [Wb _]; discriminate|]. destruct db as [|e0 db]; [destruct Wb|]. destruct Wb as [Wt Wb].
  destruct Ps as [|P Ps]; [destruct Ph|]. destruct Ph as (NP & LP & CP & Ph).
  assert (Ss := Forall_inv Sa). assert (St := Forall_inv Sb). apply Forall_inv_tail in Sa, Sb. destruct Ss as (s & ->), St as (t & ->).
  destruct (nempty_sparse s) as [Es Ns]; [apply Nes; now left|]. destruct (nempty_sparse t) as [Et Nt]; [apply Nes; apply in_app_iff; right; now left|].
  assert (Wss : wf_tensor R L n (ldim L n d0 dp (hd (fun _ => 0) da)) s) by (destruct Ws as [_ W0]; apply (W0 false)).
  assert (Wtt : wf_tensor R L n (ldim L n e0 dp (hd (fun _ => 0) db)) t) by (destruct Wt as [_ W0]; apply (W0 false)).
  cbn [dot_loop]. rewrite Es, Et. cbn [Datatypes.orb]. rewrite (ndim_wf R L n _ s Wss Ns), (ndim_wf R L n _ t Wtt Nt), Z.eqb_refl. cbn [negb]. unfold all_legs, all_but_last. rewrite (ndim_wf R L n _ s Wss Ns).
  destruct (tdot_some env s [0] [0] eq_refl) as (lbra & El). rewrite El. cbn [bind]. cbn [hd] in We.
  destruct a as [|s1 a].
  - destruct b as [|]; [|destruct Wa as [-> _], Wb]. destruct Wa as [-> La], Wb as [_ Lb]. destruct da as [|d1 [|]]; try discriminate. destruct db as [|e1 [|]]; try discriminate. cbn [hd last] in *.
    destruct (tdot_some lbra t (zrange n) (zrange n) eq_refl) as (new & E). rewrite E. cbn [bind dot_loop].
    assert (CBr' : forall p l r, ~ In r Br -> selem (R := R) (SP s) (false, p) l r = 0') by auto.
    exists new. split; [reflexivity|]. rewrite (next_last s t n d0 e0 d1 e1 dp P Ws Wt NP LP CP env We Pe lbra El Hl new E Ma Mb Br NMa NMb NBr CM CBr'). f_equal.
    apply bsum_ext. intros m _. apply bsum_ext. intros m' _. f_equal. cbn in Ph. subst Ps. now rewrite overlap_one.
  - destruct shp as [|[n' dp'] shp]; [destruct Wa|]. destruct da as [|d1 da]; [destruct Wa|]. destruct b as [|t1 b]; [destruct Wb as [Wb _]; discriminate|]. destruct db as [|e1 db]; [destruct Wb|]. cbn [hd] in Ws, Wt.
    destruct (tdot_some lbra t (zrange (n - 1)) (zrange (n - 1)) eq_refl) as (new & E). rewrite E. cbn [bind].
    destruct (next_step s t n d0 e0 d1 e1 dp P Ws Wt NP LP CP env We Pe lbra El new E) as (Wn & Pn & En). specialize (En Ma Mb NMa NMb CM).
    destruct Ba as [|B Ba]; [destruct Ca|]. destruct Bb as [|B' Bb]; [destruct Cb|]. destruct Ca as (NB & CB & Ca), Cb as (NB' & CB' & Cb).
    destruct Ps as [|P' Ps]; [destruct Ph|].
    destruct (IH (t1 :: b) (d1 :: da) (e1 :: db) ((n', dp') :: shp) (P' :: Ps) Br Ba Bb new) with (Ma := B) (Mb := B') as (r & E1 & E2); auto; try discriminate.
    { intros x Hx. apply Nes. apply in_app_iff in Hx. apply in_app_iff. destruct Hx; [left|right]; now right. }
    { intros k k' Hk. rewrite En. apply bsum_zero. intros m _. apply bsum_zero. intros m' _. apply bsum_zero. intros p _. destruct Hk as [Hk|Hk]; [rewrite CB by auto|rewrite CB' by auto]; ring. }
    exists r. split; [exact E1|]. rewrite E2. f_equal. clear E1 E2 IH.
    transitivity (bsum B (fun k => bsum B' (fun k' => bsum Ma (fun m => bsum Mb (fun m' => bsum P (fun p => telem env [m; m'] *' selem (SP s) (false, p) m k *' selem (SP t) (false, p) m' k' *' overlap (P' :: Ps) Br Ba (s1 :: a) Bb (t1 :: b) k k')))))).
    { apply bsum_ext. intros k _. apply bsum_ext. intros k' _. rewrite En, <- bsum_mulr. apply bsum_ext. intros m _. rewrite <- bsum_mulr. apply bsum_ext. intros m' _. rewrite <- bsum_mulr. reflexivity. }
    rewrite (bsum_ext R _ B _ (fun k => bsum Ma (fun m => bsum B' (fun k' => bsum Mb (fun m' => bsum P (fun p => telem env [m; m'] *' selem (SP s) (false, p) m k *' selem (SP t) (false, p) m' k' *' overlap (P' :: Ps) Br Ba (s1 :: a) Bb (t1 :: b) k k')))))) by (intros; apply bsum_swap).
    rewrite bsum_swap. apply bsum_ext. intros m _.
    rewrite (bsum_ext R _ B _ (fun k => bsum Mb (fun m' => bsum B' (fun k' => bsum P (fun p => telem env [m; m'] *' selem (SP s) (false, p) m k *' selem (SP t) (false, p) m' k' *' overlap (P' :: Ps) Br Ba (s1 :: a) Bb (t1 :: b) k k'))))) by (intros; apply bsum_swap).
    rewrite bsum_swap. apply bsum_ext. intros m' _. rewrite overlap_cons, <- bsum_mull.
    rewrite (bsum_ext R _ B _ (fun k => bsum P (fun p => bsum B' (fun k' => telem env [m; m'] *' selem (SP s) (false, p) m k *' selem (SP t) (false, p) m' k' *' overlap (P' :: Ps) Br Ba (s1 :: a) Bb (t1 :: b) k k')))) by (intros; apply bsum_swap).
    rewrite bsum_swap. apply bsum_ext. intros p _. rewrite <- bsum_mull. apply bsum_ext. intros k _. rewrite <- bsum_mull. apply bsum_ext. intros k' _. ring.
Qed.

Lemma mps_dot_spec : forall (a b : mps R L) da db shp Ps Bl Br Ba Bb, m_tensors a <> [] -> wf_sites da shp (m_tensors a) -> wf_sites db shp (m_tensors b) -> Forall sparse (m_tensors a) -> Forall sparse (m_tensors b) ->
  (forall s, In s (m_tensors a ++ m_tensors b) -> blocks s <> []) -> (forall q, hd (fun _ => 0) da q = hd (fun _ => 0) db q) -> (forall q, last da (fun _ => 0) q = last db (fun _ => 0) q) ->
  phys shp Ps (m_tensors a) -> NoDup Bl -> NoDup Br -> (forall p l r, ~ In l Bl -> selem (hd (SP []) (m_tensors a)) p l r = 0') -> (forall p l r, ~ In r Br -> selem (last (m_tensors a) (SP [])) p l r = 0') ->
  bonds Ba (m_tensors a) -> bonds Bb (m_tensors b) ->
  mps_dot R L a b = Some (bsum Bl (fun l => overlap Ps Br Ba (m_tensors a) Bb (m_tensors b) l l) +' m_const a *' m_const b).
Proof.
  intros [a ca oa] [b cb ob] da db shp Ps Bl Br Ba Bb Ne Wa Wb Sa Sb Nes Hd Hl Ph NBl NBr CBl CBr Ca Cb. cbn [m_tensors m_const] in *.
  assert (Len: length a = length b).
  { clear - Wa Wb. revert da db shp b Wa Wb. induction a as [|x a IH]; intros da db shp b Wa Wb.
    - destruct Wa as [-> _]. destruct b; [reflexivity|destruct Wb].
    - destruct shp as [|[n dp] shp]; [destruct Wa|]. destruct da as [|d0 da]; [destruct Wa|]. destruct b as [|y b]; [destruct Wb; discriminate|]. destruct db as [|e0 db]; [destruct Wb|]. cbn. f_equal. eapply IH; [apply Wa|apply Wb]. }
  unfold mps_dot. cbn [m_tensors m_const]. rewrite Len, Nat.eqb_refl. cbn [negb].
  destruct a as [|s0 a]; [now destruct Ne|].
  destruct shp as [|[n dp] shp]; [destruct Wa|]. destruct da as [|d0 da]; [destruct Wa|]. destruct Wa as [Ws Wa].
  destruct b as [|t0 b]; [destruct Wb as [Wb _]; discriminate|]. destruct db as [|e0 db]; [destruct Wb|]. destruct Wb as [Wt Wb].
  destruct Ps as [|P Ps]; [destruct Ph|]. destruct Ph as (NP & LP & CP & Ph).
  assert (Ss := Forall_inv Sa). assert (St := Forall_inv Sb). apply Forall_inv_tail in Sa, Sb. destruct Ss as (s & ->), St as (t & ->).
  destruct (nempty_sparse s) as [Es Ns]; [apply Nes; now left|]. destruct (nempty_sparse t) as [Et Nt]; [apply Nes; apply in_app_iff; right; now left|].
  assert (Wss : wf_tensor R L n (ldim L n d0 dp (hd (fun _ => 0) da)) s) by (destruct Ws as [_ W0]; apply (W0 false)).
  assert (Wtt : wf_tensor R L n (ldim L n e0 dp (hd (fun _ => 0) db)) t) by (destruct Wt as [_ W0]; apply (W0 false)).
  cbn [dot_loop]. rewrite Es, Et. cbn [Datatypes.orb]. rewrite (ndim_wf R L n _ s Wss Ns), (ndim_wf R L n _ t Wtt Nt), Z.eqb_refl. cbn [negb]. unfold all_legs, all_but_last. rewrite (ndim_wf R L n _ s Wss Ns).
  cbn [hd] in Hd, CBl. destruct a as [|s1 a].
  - destruct b as [|]; [|discriminate]. destruct Wa as [-> La], Wb as [_ Lb]. destruct da as [|d1 [|]]; try discriminate. destruct db as [|e1 [|]]; try discriminate. cbn [hd last] in *.
    destruct (tdot_some s t (zrange n) (zrange n) eq_refl) as (new & E). rewrite E. cbn [bind dot_loop].
    rewrite (first_last s t n d0 e0 d1 e1 dp P Ws Wt NP LP CP Hd Hl new E Bl Br NBl NBr). 2:{ intros p l r [H|H]; auto. }
    cbn [bind]. f_equal. f_equal. apply bsum_ext. intros l _. cbn in Ph. subst Ps. now rewrite overlap_one.
  - destruct shp as [|[n' dp'] shp]; [destruct Wa|]. destruct da as [|d1 da]; [destruct Wa|]. destruct b as [|t1 b]; [discriminate|]. destruct db as [|e1 db]; [destruct Wb|]. cbn [hd] in Ws, Wt.
    destruct (tdot_some s t (zrange (n - 1)) (zrange (n - 1)) eq_refl) as (new & E). rewrite E. cbn [bind].
    destruct (first_step s t n d0 e0 d1 e1 dp P Ws Wt NP LP CP Hd new E) as (Wn & Pn & En). specialize (En Bl NBl ltac:(auto)).
    destruct Ba as [|B Ba]; [destruct Ca|]. destruct Bb as [|B' Bb]; [destruct Cb|]. destruct Ca as (NB & CB & Ca), Cb as (NB' & CB' & Cb).
    destruct Ps as [|P' Ps]; [destruct Ph|].
    destruct (dot_loop_spec (s1 :: a) (t1 :: b) (d1 :: da) (e1 :: db) ((n', dp') :: shp) (P' :: Ps) Br Ba Bb new) with (Ma := B) (Mb := B') as (r & E1 & E2); auto; try discriminate.
    { intros x Hx. apply Nes. apply in_app_iff in Hx. apply in_app_iff. destruct Hx; [left|right]; now right. }
    { intros k k' Hk. rewrite En. apply bsum_zero. intros m _. apply bsum_zero. intros p _. destruct Hk as [Hk|Hk]; [rewrite CB by auto|rewrite CB' by auto]; ring. }
    rewrite E1. cbn [bind]. rewrite E2. cbn [bind]. f_equal. f_equal.
    transitivity (bsum B (fun k => bsum B' (fun k' => bsum Bl (fun l => bsum P (fun p => selem (SP s) (false, p) l k *' selem (SP t) (false, p) l k' *' overlap (P' :: Ps) Br Ba (s1 :: a) Bb (t1 :: b) k k'))))).
    { apply bsum_ext. intros k _. apply bsum_ext. intros k' _. rewrite En, <- bsum_mulr. apply bsum_ext. intros l _. rewrite <- bsum_mulr. reflexivity. }
    rewrite (bsum_ext R _ B _ (fun k => bsum Bl (fun l => bsum B' (fun k' => bsum P (fun p => selem (SP s) (false, p) l k *' selem (SP t) (false, p) l k' *' overlap (P' :: Ps) Br Ba (s1 :: a) Bb (t1 :: b) k k'))))) by (intros; apply bsum_swap).
    rewrite bsum_swap. apply bsum_ext. intros l _. rewrite overlap_cons.
    rewrite (bsum_ext R _ B _ (fun k => bsum P (fun p => bsum B' (fun k' => selem (SP s) (false, p) l k *' selem (SP t) (false, p) l k' *' overlap (P' :: Ps) Br Ba (s1 :: a) Bb (t1 :: b) k k')))) by (intros; apply bsum_swap).
    rewrite bsum_swap. reflexivity.
Qed.
End Dot.
