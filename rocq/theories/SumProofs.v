(** Lemmas for infos, kron_add, symmetry_fuse and to_dense of block-sparse tensors. *)
From Coq Require Import ZArith Bool List Sorted Ascii Lia Permutation Ring.
From Verif Require Import SymModel SymProofs DictLib IndexLib RingLib BondModel BondProofs FuseModel FuseProofs BlockModel BlockProofs StructModel StructProofs FuseTProofs.
Import ListNotations.
Open Scope Z_scope.

Section Infos.
Variable R : CRing.
Variable L : Label.
Notation tensor := (list (list L * nd R)).
Notation binfo := (dict L Z).
Notation ll := (q0 L).

Lemma infos_add_some : forall (ds : list binfo) qs sh, length qs = length ds -> length sh = length ds ->
  (forall i, (i < length ds)%nat -> forall v, dget (qeqb L) (nth i ds []) (nth i qs ll) = Some v -> v = nth i sh 0) ->
  exists ds', infos_add L ds qs sh = Some ds' /\ length ds' = length ds /\ forall i, (i < length ds)%nat ->
    nth i ds' [] = match dget (qeqb L) (nth i ds []) (nth i qs ll) with
                   | Some _ => nth i ds [] | None => dset (qeqb L) (nth i ds []) (nth i qs ll) (nth i sh 0) end.
Proof.
  induction ds as [|d ds IH]; intros [|q qs] [|s sh] H1 H2 H; cbn in H1, H2; try discriminate.
  - exists []. repeat split. cbn. intros; lia.
  - destruct (IH qs sh) as (ds' & E & Ll & N); try lia. { intros i Hi v. apply (H (S i)). cbn. lia. }
    cbn [infos_add]. rewrite E. unfold info_add.
    specialize (H 0%nat). cbn [nth] in H. destruct (dget (qeqb L) d q) as [v|] eqn:Ed.
    + rewrite (H ltac:(cbn; lia) v eq_refl), Z.eqb_refl. eexists. split; [reflexivity|]. cbn [length]. split; [lia|].
      intros [|i] Hi; cbn [nth]; [now rewrite Ed|apply N; cbn in Hi; lia].
    + eexists. split; [reflexivity|]. cbn [length]. split; [lia|].
      intros [|i] Hi; cbn [nth]; [now rewrite Ed|apply N; cbn in Hi; lia].
Qed.

Lemma infos_loop_spec : forall n dm (t : tensor) (ds : list binfo), wf_tensor R L (Z.of_nat n) dm t -> length ds = n ->
  (forall i, (i < n)%nat -> NoDup (keys (nth i ds [])) /\ forall q v, In (q, v) (nth i ds []) -> v = dm (Z.of_nat i) q) ->
  exists ds', infos_loop R L ds t = Some ds' /\ length ds' = n /\ forall i, (i < n)%nat ->
    NoDup (keys (nth i ds' [])) /\
    forall q v, In (q, v) (nth i ds' []) <-> v = dm (Z.of_nat i) q /\ (In q (keys (nth i ds [])) \/ exists b, In b t /\ nth i (fst b) ll = q).
Proof.
  intros n dm. induction t as [|b t IH]; intros ds Wt Hl Hd; cbn [infos_loop].
  - exists ds. split; [reflexivity|]. split; [auto|]. intros i Hi. destruct (Hd i Hi) as [A B]. split; [auto|]. intros q v. split.
    + intros H. split; [now apply B|]. left. now apply (in_map fst) in H.
    + intros [-> [H|(b & [] & _)]]. apply in_map_iff in H. destruct H as ([q' v] & E & H). cbn in E. subst q'. now rewrite <- (B q v H).
  - assert (Wb: In b (b :: t)) by now left. destruct (wf_shape_length R L _ dm (b :: t) b Wt Wb) as [L1 L2]. destruct (Wt b Wb) as [_ Es].
    assert (Ns: forall i, (i < n)%nat -> nth i (nshape (snd b)) 0 = dm (Z.of_nat i) (nth i (fst b) ll)).
    { intros i Hi. rewrite Es. pose proof (pick_shape_of L (Z.of_nat n) dm (fst b) [Z.of_nat i] L2) as P. unfold pick in P. cbn [map] in P.
      rewrite Nat2Z.id in P. assert (Q: forall j, In j [Z.of_nat i] -> 0 <= j < Z.of_nat n) by (intros j [<-|[]]; lia). specialize (P Q).
      unfold shape_of in P at 2. cbn in P. congruence. }
    destruct (infos_add_some ds (fst b) (nshape (snd b))) as (d1 & E & Ld1 & N1); [apply Nat2Z.inj in L2; congruence|apply Nat2Z.inj in L1; congruence| |].
    { intros i Hi v Ev. rewrite Ns by lia. destruct (Hd i) as [_ B]; [lia|]. apply B. eapply dget_in; [apply qeqb_spec|exact Ev]. }
    rewrite E. destruct (IH d1) as (ds' & E' & Ld & N).
    + intros c Hc. apply Wt. now right.
    + lia.
    + intros i Hi. destruct (Hd i Hi) as [A B]. rewrite N1 by lia. destruct (dget (qeqb L) (nth i ds []) (nth i (fst b) ll)) as [v|] eqn:Ed; [auto|].
      split; [apply nodup_dset; [apply qeqb_spec|auto]|]. intros q v Hv.
      assert (G: dget (qeqb L) (dset (qeqb L) (nth i ds []) (nth i (fst b) ll) (nth i (nshape (snd b)) 0)) q = Some v).
      { apply in_dget; [apply qeqb_spec|apply nodup_dset; [apply qeqb_spec|auto]|auto]. }
      rewrite dget_dset in G by apply qeqb_spec. destruct (qeqb_spec L (nth i (fst b) ll) q) as [<-|].
      * injection G as <-. now apply Ns.
      * apply B. eapply dget_in; [apply qeqb_spec|exact G].
    + exists ds'. split; [exact E'|]. split; [auto|]. intros i Hi. destruct (N i Hi) as [A B]. split; [auto|]. intros q v. rewrite B.
      assert (K: In q (keys (nth i d1 [])) <-> In q (keys (nth i ds [])) \/ nth i (fst b) ll = q).
      { rewrite N1 by lia. destruct (dget (qeqb L) (nth i ds []) (nth i (fst b) ll)) as [v'|] eqn:Ed.
        - split; [auto|]. intros [|<-]; auto. eapply dget_some_key; [apply qeqb_spec|exact Ed].
        - rewrite keys_dset_in by apply qeqb_spec. intuition. }
      rewrite K. split.
      * intros [-> [[H|H]|(c & Hc & H)]]; (split; [reflexivity|]).
        -- now left.
        -- right. exists b. split; [now left|auto].
        -- right. exists c. split; [now right|auto].
      * intros [-> [H|(c & [<-|Hc] & H)]]; split; auto. right. exists c. auto.
Qed.
Lemma sp_infos_spec : forall n dm (t : tensor), t <> [] -> wf_tensor R L n dm t ->
  exists ds, sp_infos R L t = Some ds /\ Z.of_nat (length ds) = n /\ forall i, 0 <= i < n ->
    NoDup (keys (nth (Z.to_nat i) ds [])) /\
    forall q v, In (q, v) (nth (Z.to_nat i) ds []) <-> v = dm i q /\ exists b, In b t /\ nth (Z.to_nat i) (fst b) ll = q.
Proof.
  intros n dm t Ht Wt. unfold sp_infos. rewrite (ndim_wf R L n dm t Wt Ht).
  assert (Hn: 0 <= n). { destruct t as [|b t]; [congruence|]. destruct (wf_shape_length R L n dm _ b Wt (or_introl eq_refl)). lia. }
  destruct (infos_loop_spec (Z.to_nat n) dm t (repeat [] (Z.to_nat n))) as (ds & E & Ll & N).
  - now rewrite Z2Nat.id.
  - apply repeat_length.
  - intros i Hi. rewrite nth_repeat. split; [constructor|intros q v []].
  - exists ds. split; [exact E|]. split; [lia|]. intros i Hi. destruct (N (Z.to_nat i)) as [A B]; [lia|]. split; [auto|]. intros q v. rewrite B.
    rewrite nth_repeat. rewrite Z2Nat.id by lia. cbn. intuition.
Qed.
End Infos.

(** ** adding an array at an offset *)
Fixpoint fits_at (s off sh : list Z) : Prop :=
  match s, off, sh with
  | [], [], [] => True
  | a :: s', o :: off', b :: sh' => 0 <= o /\ o + b <= a /\ fits_at s' off' sh'
  | _, _, _ => False
  end.
Lemma fits_in : forall s off sh xs, fits_at s off sh -> length xs = length s -> in_shape sh (zminus xs off) -> in_shape s xs.
Proof.
  induction s as [|a s IH]; intros [|o off] [|b sh] [|x xs] F Hl H; cbn in F, Hl; try (exfalso; exact F); try discriminate; [constructor|].
  unfold zminus in H. cbn [combine map fst snd] in H. inversion H; subst. constructor; [lia|]. destruct F as (_ & _ & F). apply (IH off sh xs F); [lia|assumption].
Qed.
Lemma fits_length : forall s off sh, fits_at s off sh -> length off = length s /\ length sh = length s.
Proof.
  induction s as [|a s IH]; intros [|o off] [|b sh] F; cbn in F; try (exfalso; exact F); [split; reflexivity|]. destruct (IH off sh); [apply F|]. cbn. split; congruence.
Qed.
Lemma zminus_length : forall xs off, length off = length xs -> length (zminus xs off) = length xs.
Proof. intros. unfold zminus. rewrite map_length, combine_length. lia. Qed.
Lemma zminus_zero : forall xs off, (forall o, In o off -> o = 0) -> length off = length xs -> zminus xs off = xs.
Proof.
  induction xs as [|x xs IH]; intros [|o off] H Hl; cbn in Hl; try discriminate; [reflexivity|]. unfold zminus. cbn [combine map fst snd]. f_equal.
  - rewrite (H o) by now left. lia.
  - apply IH; [intros; apply H; now right|lia].
Qed.
Section AddAt.
Variable R : CRing.
Variable L : Label.
Add Ring RR7 : (rth R).
Notation tensor := (list (list L * nd R)).
Notation bmap := (dict (list L) (nd R)).
Notation teqb := (tup_eqb L).
Notation tspec := (tup_eqb_spec L).

Lemma nget_add_at : forall off (a b : nd R) xs, fits_at (nshape a) off (nshape b) -> length xs = length (nshape a) ->
  nget (nd_add_at off a b) xs = radd R (nget a xs) (nget b (zminus xs off)).
Proof.
  intros off a b xs F Hl. unfold nget at 1 2. cbn [nshape nval nd_add_at]. destruct (in_shapeb (nshape a) xs) eqn:E; [reflexivity|].
  rewrite nget_out; [ring|]. intro H. apply (fits_in _ _ _ _ F Hl) in H. apply in_shapeb_spec in H. congruence.
Qed.
Lemma elem_dset : forall (m : bmap) k v qs xs, NoDup (keys m) ->
  elem R L (dset teqb m k v) qs xs = if teqb k qs then nget v xs else elem R L m qs xs.
Proof.
  intros m k v qs xs H. rewrite !elem_dget by (auto; apply (nodup_dset teqb tspec); auto). rewrite dget_dset by apply tspec. now destruct (teqb k qs).
Qed.

(* labels, offset as a function of the shape of the target, array *)
Notation aitem := (list L * (list Z -> list Z) * nd R)%type.
Definition alab (it : aitem) : list L := fst (fst it).
Definition aoff (it : aitem) : list Z -> list Z := snd (fst it).
Definition astep (m : bmap) (it : aitem) : bmap :=
  match dget teqb m (alab it) with
  | Some v => dset teqb m (alab it) (nd_add_at (aoff it (nshape v)) v (snd it))
  | None => m
  end.
(* every target has shape [sh label] *)
Definition shaped (sh : list L -> list Z) (m : bmap) : Prop := forall k v, dget teqb m k = Some v -> nshape v = sh k.
Lemma keys_dset_same : forall (m : bmap) k v, In k (keys m) -> keys (dset teqb m k v) = keys m.
Proof.
  induction m as [|[k0 v0] m IH]; intros k v H; [destruct H|]. cbn [dset]. destruct (tspec k0 k) as [->|N]; [reflexivity|].
  cbn [keys map fst]. f_equal. apply IH. destruct H; [cbn in *; congruence|auto].
Qed.
Lemma astep_spec : forall sh m it, NoDup (keys m) -> shaped sh m -> In (alab it) (keys m) ->
  fits_at (sh (alab it)) (aoff it (sh (alab it))) (nshape (snd it)) ->
  keys (astep m it) = keys m /\ shaped sh (astep m it) /\
  forall qs xs, length xs = length (sh qs) ->
    elem R L (astep m it) qs xs = radd R (elem R L m qs xs) (if teqb (alab it) qs then nget (snd it) (zminus xs (aoff it (sh qs))) else r0 R).
Proof.
  intros sh m it Nm Sm Hk F. unfold astep. destruct (dget teqb m (alab it)) as [v|] eqn:E.
  2:{ apply (dget_none teqb tspec) in E. tauto. }
  pose proof (Sm _ _ E) as Ev. rewrite Ev. split; [now apply keys_dset_same|]. split.
  - intros k w Hw. rewrite dget_dset in Hw by apply tspec. destruct (tspec (alab it) k) as [<-|]; [|now apply Sm].
    injection Hw as <-. exact Ev.
  - intros qs xs Hl. rewrite elem_dset by auto. destruct (tspec (alab it) qs) as [<-|]; [|ring].
    rewrite nget_add_at by (rewrite Ev; auto). rewrite elem_dget by auto. now rewrite E.
Qed.
Lemma afold_spec : forall sh its m, NoDup (keys m) -> shaped sh m ->
  (forall it, In it its -> In (alab it) (keys m) /\ fits_at (sh (alab it)) (aoff it (sh (alab it))) (nshape (snd it))) ->
  keys (fold_left astep its m) = keys m /\ shaped sh (fold_left astep its m) /\
  forall qs xs, length xs = length (sh qs) ->
    elem R L (fold_left astep its m) qs xs =
    radd R (elem R L m qs xs) (bsum its (fun it => if teqb (alab it) qs then nget (snd it) (zminus xs (aoff it (sh qs))) else r0 R)).
Proof.
  induction its as [|it its IH]; intros m Nm Sm H; cbn [fold_left].
  - split; [reflexivity|]. split; [auto|]. intros. rewrite bsum_nil. ring.
  - destruct (H it (or_introl eq_refl)) as [H1 H2]. destruct (astep_spec sh m it Nm Sm H1 H2) as (A & B & C).
    destruct (IH (astep m it)) as (D & E & F); [now rewrite A|auto|intros; rewrite A; apply H; now right|].
    split; [congruence|]. split; [auto|]. intros qs xs Hl. rewrite F, C, bsum_cons by auto. ring.
Qed.
End AddAt.

(** ** kron_add *)
Section Kron.
Variable R : CRing.
Variable L : Label.
Add Ring RR8 : (rth R).
Notation tensor := (list (list L * nd R)).
Notation bmap := (dict (list L) (nd R)).
Notation teqb := (tup_eqb L).
Notation tspec := (tup_eqb_spec L).
Notation ll := (q0 L).

Lemma ends : forall A (d : A) (l : list A), (2 <= length l)%nat -> exists x m y, l = x :: m ++ [y] /\ length m = (length l - 2)%nat.
Proof.
  intros A d [|x l] H; cbn in H; [lia|]. exists x, (removelast l), (last l d).
  assert (Hn: l <> []) by (intros ->; cbn in H; lia). pose proof (app_removelast_last d Hn) as E. rewrite <- E. split; [reflexivity|].
  apply (f_equal (@length A)) in E. rewrite app_length in E. cbn in *. lia.
Qed.
Lemma last_ends : forall A (d x y : A) m, last (x :: m ++ [y]) d = y.
Proof. intros. change (x :: m ++ [y]) with ((x :: m) ++ [y]). apply last_last. Qed.
Lemma upd_last : forall A (v y : A) x m, upd (length (x :: m ++ [y]) - 1) v (x :: m ++ [y]) = x :: m ++ [v].
Proof.
  intros. change (x :: m ++ [y]) with ((x :: m) ++ y :: []). rewrite upd_app; [reflexivity|]. rewrite app_length. cbn. lia.
Qed.
Lemma combine_app : forall A B (l1 l2 : list A) (m1 m2 : list B), length l1 = length m1 -> combine (l1 ++ l2) (m1 ++ m2) = combine l1 m1 ++ combine l2 m2.
Proof. induction l1 as [|x l1 IH]; intros l2 [|y m1] m2 H; cbn in H; try discriminate; [reflexivity|]. cbn. f_equal. apply IH. lia. Qed.
Lemma shape_ends : forall n dm (ql qr : L) qm, 2 <= n -> Z.of_nat (length qm) = n - 2 ->
  shape_of L dm (zrange n) (ql :: qm ++ [qr]) = dm 0 ql :: shape_of L dm (map (fun i => 1 + i) (zrange (n - 2))) qm ++ [dm (n - 1) qr].
Proof.
  intros n dm ql qr qm Hn Hl.
  assert (E: zrange n = 0 :: map (fun i => 1 + i) (zrange (n - 2)) ++ [n - 1]).
  { replace n with (1 + ((n - 2) + 1)) at 1 by lia. rewrite !zrange_add by lia. rewrite !zrange_1. cbn [map app]. f_equal. rewrite map_app. cbn [map]. f_equal. f_equal. lia. }
  rewrite E. unfold shape_of. cbn [combine map fst snd]. f_equal. rewrite combine_app by (rewrite map_length, zrange_length; lia).
  rewrite map_app. reflexivity.
Qed.
Lemma fits_ends : forall l r ol orr l' r' m, 0 <= ol -> ol + l' <= l -> 0 <= orr -> orr + r' <= r ->
  fits_at (l :: m ++ [r]) (ol :: map (fun _ => 0) m ++ [orr]) (l' :: m ++ [r']).
Proof.
  intros. cbn [fits_at]. repeat split; auto. induction m as [|x m IH]; cbn; repeat split; auto; lia.
Qed.
Lemma zminus_ends : forall xl xm xr ol orr (m : list Z), length xm = length m ->
  zminus (xl :: xm ++ [xr]) (ol :: map (fun _ => 0) m ++ [orr]) = xl - ol :: xm ++ [xr - orr].
Proof.
  intros xl xm xr ol orr m H. unfold zminus. cbn [combine map fst snd]. f_equal. revert m H. induction xm as [|x xm IH]; intros [|y m] H; cbn in *; try discriminate; auto.
  f_equal; [lia|]. apply IH. lia.
Qed.

Lemma off_high_ends : forall l m r l' m' r', off_high (l :: m ++ [r]) (l' :: m' ++ [r']) = l - l' :: map (fun _ => 0) m' ++ [r - r'].
Proof.
  intros. unfold off_high. cbn [map nth]. rewrite !last_ends, map_app. cbn [map].
  change (upd 0 (l - l') (0 :: map (fun _ => 0) m' ++ [0])) with ((l - l') :: map (fun _ => 0) m' ++ [0]).
  rewrite <- (upd_last Z (r - r') 0 (l - l') (map (fun _ => 0) m')). f_equal. cbn [length]. rewrite !app_length, map_length. reflexivity.
Qed.
Definition conv (off : list Z -> list Z -> list Z) (b : list L * nd R) : (list L * (list Z -> list Z) * nd R) :=
  (fst b, fun sn => off sn (nshape (snd b)), snd b).
Lemma add_block_astep : forall off t m, fold_left (add_block R L off) t m = fold_left (astep R L) (map (conv off) t) m.
Proof. induction t as [|b t IH]; intros m; cbn [fold_left map]; [reflexivity|]. rewrite IH. reflexivity. Qed.

Section KA.
Variables (n : Z) (dma dmb : Z -> L -> Z) (a b : tensor) (lb rb : dict L Z).
Hypothesis Hn : 2 <= n.
Hypothesis Wa : wf_tensor R L n dma a.
Hypothesis Wb : wf_tensor R L n dmb b.
Hypothesis Mid : forall i q, 0 < i < n - 1 -> dma i q = dmb i q.
Hypothesis Fa : forall ql qm qr v, In (ql :: qm ++ [qr], v) a -> dma 0 ql <= bget L lb ql /\ dma (n - 1) qr <= bget L rb qr.
Hypothesis Fb : forall ql qm qr v, In (ql :: qm ++ [qr], v) b -> dmb 0 ql <= bget L lb ql /\ dmb (n - 1) qr <= bget L rb qr.
Notation midsh qm := (shape_of L dma (map (fun i => 1 + i) (zrange (n - 2))) qm).
Lemma mid_same : forall qm, shape_of L dmb (map (fun i => 1 + i) (zrange (n - 2))) qm = midsh qm.
Proof.
  intros qm. unfold shape_of. apply map_ext_in. intros [i q] H. cbn [fst snd]. symmetry. apply Mid. apply in_combine_l in H. apply in_map_iff in H.
  destruct H as (x & <- & Hx). apply in_zrange in Hx. lia.
Qed.
Definition ksh (qs : list L) : list Z :=
  match qs with [] => [] | ql :: r => bget L lb ql :: midsh (removelast r) ++ [bget L rb (last r ll)] end.
Lemma ksh_ends : forall ql qm qr, ksh (ql :: qm ++ [qr]) = bget L lb ql :: midsh qm ++ [bget L rb qr].
Proof. intros. unfold ksh. now rewrite removelast_last, last_last. Qed.
Lemma blk_ends : forall x, In x (a ++ b) -> exists ql qm qr dl dr, fst x = ql :: qm ++ [qr] /\ Z.of_nat (length qm) = n - 2 /\
  nshape (snd x) = dl :: midsh qm ++ [dr] /\ dl <= bget L lb ql /\ dr <= bget L rb qr /\ (In x a -> dl = dma 0 ql /\ dr = dma (n - 1) qr) /\ (In x b -> dl = dmb 0 ql /\ dr = dmb (n - 1) qr).
Proof.
  intros x Hx.
  assert (Lx: Z.of_nat (length (fst x)) = n) by (apply in_app_iff in Hx; destruct Hx as [H|H]; [apply (Wa x H)|apply (Wb x H)]).
  destruct (ends L ll (fst x)) as (ql & qm & qr & E & Lm); [lia|]. 
  assert (Sa: In x a -> nshape (snd x) = dma 0 ql :: midsh qm ++ [dma (n - 1) qr] /\ dma 0 ql <= bget L lb ql /\ dma (n - 1) qr <= bget L rb qr).
  { intros H. destruct (Wa x H) as [_ S]. split; [rewrite S, E; apply shape_ends; lia|]. apply (Fa ql qm qr (snd x)). rewrite <- E. now destruct x. }
  assert (Sb: In x b -> nshape (snd x) = dmb 0 ql :: midsh qm ++ [dmb (n - 1) qr] /\ dmb 0 ql <= bget L lb ql /\ dmb (n - 1) qr <= bget L rb qr).
  { intros H. destruct (Wb x H) as [_ S]. split; [rewrite S, E, shape_ends by lia; now rewrite mid_same|]. apply (Fb ql qm qr (snd x)). rewrite <- E. now destruct x. }
  assert (U: forall l r l' r' : Z, forall mm : list Z, l :: mm ++ [r] = l' :: mm ++ [r'] -> l = l' /\ r = r').
  { intros l r l' r' mm Eq. injection Eq as -> Eq. apply app_inv_head in Eq. injection Eq as ->. auto. }
  apply in_app_iff in Hx. destruct Hx as [H|H].
  - destruct (Sa H) as (S1 & S2 & S3). exists ql, qm, qr, (dma 0 ql), (dma (n - 1) qr). do 5 (split; [auto; lia|]). split; [auto|]. intros H'; destruct (Sb H') as (S1' & _); rewrite S1 in S1'; now apply U in S1'.
  - destruct (Sb H) as (S1 & S2 & S3). exists ql, qm, qr, (dmb 0 ql), (dmb (n - 1) qr). do 5 (split; [auto; lia|]). split; [|auto]. intros H'; destruct (Sa H') as (S1' & _); rewrite S1 in S1'; now apply U in S1'.
Qed.

Lemma kron_alloc_spec : NoDup (keys (kron_alloc R L lb rb (a ++ b))) /\ shaped R L ksh (kron_alloc R L lb rb (a ++ b))
  /\ (forall k, In k (keys (kron_alloc R L lb rb (a ++ b))) <-> In k (map fst (a ++ b)))
  /\ forall qs xs, elem R L (kron_alloc R L lb rb (a ++ b)) qs xs = r0 R.
Proof.
  unfold kron_alloc. set (f := fun (m : bmap) blk => _).
  assert (G: forall t (m : bmap), incl t (a ++ b) -> NoDup (keys m) -> shaped R L ksh m -> (forall qs xs, elem R L m qs xs = r0 R) ->
    NoDup (keys (fold_left f t m)) /\ shaped R L ksh (fold_left f t m) /\ (forall k, In k (keys (fold_left f t m)) <-> In k (keys m) \/ In k (map fst t)) /\
    forall qs xs, elem R L (fold_left f t m) qs xs = r0 R).
  { induction t as [|x t IH]; intros m Hi N S Z0; cbn [fold_left]; [repeat split; auto; cbn; tauto|].
    assert (Hx: In x (a ++ b)) by (apply Hi; now left). assert (Hi': incl t (a ++ b)) by (intros y Hy; apply Hi; now right).
    destruct (dmem teqb m (fst x)) eqn:Em.
    - assert (Ef: f m x = m) by (unfold f; now rewrite Em). rewrite Ef. destruct (IH m Hi' N S Z0) as (A & B & C & D).
      repeat split; auto; rewrite C; cbn [map In]; [tauto|]. intros [|[<-|]]; auto. left. apply (dmem_in teqb tspec). exact Em.
    - assert (Ef: exists v, f m x = dset teqb m (fst x) (nd_zeros R v) /\ v = ksh (fst x)).
      { unfold f. rewrite Em. eexists. split; [reflexivity|]. destruct (blk_ends x Hx) as (ql & qm & qr & dl & dr & E1 & E2 & E3 & _).
        rewrite E3, E1. rewrite last_ends, ksh_ends. cbn [nth]. change (upd 0 (bget L lb ql) (dl :: midsh qm ++ [dr])) with (bget L lb ql :: midsh qm ++ [dr]).
        replace (length (dl :: midsh qm ++ [dr])) with (length (bget L lb ql :: midsh qm ++ [dr])) by reflexivity. apply upd_last. }
      destruct Ef as (v & -> & ->). destruct (IH (dset teqb m (fst x) (nd_zeros R (ksh (fst x)))) Hi') as (A & B & C & D).
      + apply nodup_dset; [apply tspec|auto].
      + intros k w Hw. rewrite dget_dset in Hw by apply tspec. destruct (tspec (fst x) k) as [<-|]; [injection Hw as <-; reflexivity|now apply S].
      + intros qs xs. rewrite elem_dset by auto. destruct (teqb (fst x) qs); [|apply Z0]. unfold nget, nd_zeros. cbn. now destruct (in_shapeb _ xs).
      + repeat split; auto; rewrite C, (keys_dset_in _ tspec); cbn [map In]; intuition. }
  destruct (G (a ++ b) []) as (A & B & C & D); [intros x H; exact H|constructor|intros k v H; discriminate|reflexivity|].
  repeat split; auto; rewrite C; cbn; tauto.
Qed.

Lemma kron_add_spec : NoDup (map fst (sp_kron_add_with R L lb rb a b)) /\
  (forall qs, In qs (map fst (sp_kron_add_with R L lb rb a b)) <-> In qs (map fst a) \/ In qs (map fst b)) /\
  shaped R L ksh (sp_kron_add_with R L lb rb a b) /\
  forall ql qm qr xl xm xr, Z.of_nat (length qm) = n - 2 -> Z.of_nat (length xm) = n - 2 ->
    elem R L (sp_kron_add_with R L lb rb a b) (ql :: qm ++ [qr]) (xl :: xm ++ [xr]) =
    radd R (elem R L a (ql :: qm ++ [qr]) (xl :: xm ++ [xr]))
           (elem R L b (ql :: qm ++ [qr]) (xl - (bget L lb ql - dmb 0 ql) :: xm ++ [xr - (bget L rb qr - dmb (n - 1) qr)])).
Proof.
  destruct kron_alloc_spec as (A1 & A2 & A3 & A4). unfold sp_kron_add_with. rewrite !add_block_astep.
  set (m0 := kron_alloc R L lb rb (a ++ b)) in *.
  assert (Lo: forall x, In x (a ++ b) -> forall sn, off_low sn (nshape (snd x)) = map (fun _ => 0) (nshape (snd x))) by reflexivity.
  destruct (afold_spec R L ksh (map (conv off_low) a) m0 A1 A2) as (B1 & B2 & B3).
  { intros it Hit. apply in_map_iff in Hit. destruct Hit as (x & <- & Hx). cbn [alab aoff conv fst snd]. split; [apply A3; apply in_map; apply in_app_iff; auto|].
    destruct (blk_ends x (in_or_app _ _ _ (or_introl Hx))) as (ql & qm & qr & dl & dr & E1 & E2 & E3 & E4 & E5 & _).
    unfold alab, aoff, conv. cbn [fst snd]. rewrite E1, ksh_ends, E3. unfold off_low. cbn [map]. rewrite map_app. cbn [map]. apply fits_ends; lia. }
  destruct (afold_spec R L ksh (map (conv off_high) b) (fold_left (astep R L) (map (conv off_low) a) m0)) as (C1 & C2 & C3).
  { rewrite B1. exact A1. } { exact B2. }
  { intros it Hit. apply in_map_iff in Hit. destruct Hit as (x & <- & Hx). cbn [alab aoff conv fst snd]. split; [rewrite B1; apply A3; apply in_map; apply in_app_iff; auto|].
    destruct (blk_ends x (in_or_app _ _ _ (or_intror Hx))) as (ql & qm & qr & dl & dr & E1 & E2 & E3 & E4 & E5 & _).
    unfold alab, aoff, conv. cbn [fst snd]. rewrite E1, ksh_ends, E3, off_high_ends. apply fits_ends; lia. }
  unfold keys in C1, B1. split; [rewrite C1, B1; exact A1|]. split; [|split; [exact C2|]].
  { intros qs. rewrite C1, B1. unfold keys in A3. rewrite A3, map_app, in_app_iff. tauto. }
  intros ql qm qr xl xm xr Lq Lx.
  assert (Lk: length (xl :: xm ++ [xr]) = length (ksh (ql :: qm ++ [qr]))).
  { rewrite ksh_ends. cbn [length]. rewrite !app_length, shape_of_length, map_length, zrange_length. cbn. lia. }
  rewrite C3, B3, A4 by auto. rewrite !bsum_map.
  assert (Ea: bsum a (fun x => if teqb (alab R L (conv off_low x)) (ql :: qm ++ [qr]) then nget (snd (conv off_low x)) (zminus (xl :: xm ++ [xr]) (aoff R L (conv off_low x) (ksh (ql :: qm ++ [qr])))) else r0 R)
    = elem R L a (ql :: qm ++ [qr]) (xl :: xm ++ [xr])).
  { unfold elem. apply bsum_ext. intros x Hx. unfold alab, aoff, conv. cbn [fst snd]. destruct (tspec (fst x) (ql :: qm ++ [qr])) as [E|]; [|reflexivity].
    rewrite zminus_zero; [reflexivity| |].
    - intros o Ho. unfold off_low in Ho. apply in_map_iff in Ho. now destruct Ho as (? & <- & _).
    - unfold off_low. rewrite map_length. destruct (wf_shape_length R L n dma a x Wa Hx) as [K _]. cbn [length]. rewrite app_length. cbn. lia. }
  assert (Eb: bsum b (fun x => if teqb (alab R L (conv off_high x)) (ql :: qm ++ [qr]) then nget (snd (conv off_high x)) (zminus (xl :: xm ++ [xr]) (aoff R L (conv off_high x) (ksh (ql :: qm ++ [qr])))) else r0 R)
    = elem R L b (ql :: qm ++ [qr]) (xl - (bget L lb ql - dmb 0 ql) :: xm ++ [xr - (bget L rb qr - dmb (n - 1) qr)])).
  { unfold elem. apply bsum_ext. intros x Hx. unfold alab, aoff, conv. cbn [fst snd]. destruct (tspec (fst x) (ql :: qm ++ [qr])) as [E|]; [|reflexivity].
    destruct (blk_ends x (in_or_app _ _ _ (or_intror Hx))) as (ql' & qm' & qr' & dl & dr & E1 & E2 & E3 & E4 & E5 & _ & E6). destruct (E6 Hx) as [-> ->].
    rewrite E in E1. injection E1 as <- E1. apply app_inj_tail in E1. destruct E1 as [<- <-].
    rewrite ksh_ends, E3, off_high_ends, zminus_ends; [reflexivity|]. rewrite shape_of_length, map_length, zrange_length. lia. }
  change (@nil (list L * nd R)) with (@nil (list L * nd R)). rewrite <- Ea, <- Eb. ring.
Qed.
End KA.
End Kron.

(** ** symmetry_fuse *)
Section Symm.
Variable R : CRing.
Variables L L' : Label.
Add Ring RR9 : (rth R).
Notation tensor := (list (list L * nd R)).
Notation bmap := (dict (list L') (nd R)).
Notation teqb := (tup_eqb L').
Notation tspec := (tup_eqb_spec L').
Variable f : L -> L'.
Variable fs : list (symm_layout L L').
Definition offs (qs : list L) : list (Z * Z) :=
  odflt [] (all_some (map (fun p => symm_entry (fst p) (f (snd p)) (snd p)) (combine fs qs))).
Definition lsh (nq : list L') : list Z := map (fun p => bget L' (fst (fst p)) (snd p)) (combine fs nq).
Definition lok (b : list L * nd R) : Prop :=
  all_some (map (fun p => symm_entry (fst p) (f (snd p)) (snd p)) (combine fs (fst b))) <> None /\
  fits_at (lsh (map f (fst b))) (map fst (offs (fst b))) (nshape (snd b)).

Lemma symm_put_spec : forall (m : bmap) b, NoDup (keys m) -> shaped R L' lsh m -> lok b ->
  exists m', symm_put fs f m b = Some m' /\ NoDup (keys m') /\ shaped R L' lsh m' /\
  (forall k, In k (keys m') <-> In k (keys m) \/ k = map f (fst b)) /\
  forall qs xs, length xs = length (lsh qs) ->
    elem R L' m' qs xs = radd R (elem R L' m qs xs) (if teqb (map f (fst b)) qs then nget (snd b) (zminus xs (map fst (offs (fst b)))) else r0 R).
Proof.
  intros m b Nm Sm [H1 H2]. unfold symm_put. unfold offs in *.
  destruct (all_some (map (fun p => symm_entry (fst p) (f (snd p)) (snd p)) (combine fs (fst b)))) as [ks|]; [|congruence].
  cbn [odflt] in *. eexists. split; [reflexivity|]. split; [apply nodup_dset; [apply tspec|auto]|].
  match goal with |- context [nd_add_at _ ?v _] => assert (Ev: nshape v = lsh (map f (fst b))) end.
  { destruct (dget teqb m (map f (fst b))) as [v|] eqn:E; [|reflexivity]. cbn [odflt]. now apply Sm. }
  split; [|split].
  - intros k w Hw. rewrite dget_dset in Hw by apply tspec. destruct (tspec (map f (fst b)) k) as [<-|]; [|now apply Sm]. injection Hw as <-. exact Ev.
  - intros k. rewrite (keys_dset_in _ tspec). tauto.
  - intros qs xs Hl. rewrite elem_dset by auto. destruct (tspec (map f (fst b)) qs) as [<-|]; [|ring].
    rewrite nget_add_at by (rewrite Ev; auto). f_equal. rewrite elem_dget by auto.
    destruct (dget teqb m (map f (fst b))) as [v|]; [reflexivity|]. cbn [odflt]. unfold nget, nd_zeros. cbn. now destruct (in_shapeb _ xs).
Qed.
Lemma symm_loop_spec : forall t (m : bmap), NoDup (keys m) -> shaped R L' lsh m -> (forall b, In b t -> lok b) ->
  exists r, symm_loop fs f m t = Some r /\ NoDup (keys r) /\ shaped R L' lsh r /\
  (forall k, In k (keys r) <-> In k (keys m) \/ exists b, In b t /\ k = map f (fst b)) /\
  forall qs xs, length xs = length (lsh qs) ->
    elem R L' r qs xs = radd R (elem R L' m qs xs) (bsum t (fun b => if teqb (map f (fst b)) qs then nget (snd b) (zminus xs (map fst (offs (fst b)))) else r0 R)).
Proof.
  induction t as [|b t IH]; intros m Nm Sm Ht; cbn [symm_loop].
  - exists m. split; [reflexivity|]. split; [auto|]. split; [auto|]. split; [intros k; split; [auto|intros [H|(b & H & _)]; [auto|destruct H]]|]. intros. rewrite bsum_nil. ring.
  - destruct (symm_put_spec m b Nm Sm (Ht b (or_introl eq_refl))) as (m' & -> & A & B & C & D).
    destruct (IH m' A B) as (r & -> & A' & B' & C' & D'); [intros; apply Ht; now right|]. exists r. split; [reflexivity|]. split; [auto|]. split; [auto|]. split.
    + intros k. rewrite C', C. split.
      * intros [[H|H]|(c & Hc & H)]; [now left| |]; right; [exists b|exists c]; (split; [|exact H]); [now left|now right].
      * intros [H|(c & [H|H] & E)]; [auto|subst c; auto|]. right. exists c. auto.
    + intros qs xs Hl. rewrite D', D, bsum_cons by auto. ring.
Qed.
End Symm.

(** ** to_dense *)
Section Dense.
Variable R : CRing.
Variable L : Label.
Notation tensor := (list (list L * nd R)).
Notation binfo := (dict L Z).
Notation teqb := (tup_eqb L).
Notation tspec := (tup_eqb_spec L).
Notation seqb := shape_eqb.
Notation sspec := shape_eqb_spec.

(* specification: the index at which label q starts *)
Definition below (info : binfo) (q : L) : Z := zsum (map snd (filter (fun e => qltb L (fst e) q) info)).

Lemma zsum_firstn_S : forall l n, zsum (firstn (S n) l) = zsum (firstn n l) + nth n l 0.
Proof.
  induction l as [|a l IH]; intros [|n]; try reflexivity; [|].
  - cbn [firstn nth]. rewrite zsum_cons. cbn. lia.
  - change (firstn (S (S n)) (a :: l)) with (a :: firstn (S n) l). change (firstn (S n) (a :: l)) with (a :: firstn n l). cbn [nth]. rewrite !zsum_cons, IH. lia.
Qed.
Lemma pos_in_spec : forall (l : binfo) q v, StronglySorted (fun a b => qltb L (fst a) (fst b) = true) l -> In (q, v) l ->
  exists k, pos_in L (map fst l) q = Some k /\ 0 <= k < Z.of_nat (length l) /\
    zsum (firstn (Z.to_nat k) (map snd l)) = zsum (map snd (filter (fun e => qltb L (fst e) q) l)) /\ nth (Z.to_nat k) l (q0 L, 0) = (q, v).
Proof.
  induction l as [|[k0 v0] l IH]; intros q v So H; [destruct H|]. inversion So as [|? ? S' Hx]; subst. rewrite Forall_forall in Hx. cbn [map fst pos_in].
  destruct (qeqb_spec L k0 q) as [->|N].
  - exists 0. split; [reflexivity|]. cbn [length]. split; [lia|]. split.
    + cbn [Z.to_nat firstn filter fst]. rewrite qltb_irrefl.
      assert (E: filter (fun e : L * Z => qltb L (fst e) q) l = []).
      { clear IH H So S'. induction l as [|e l IHl]; [reflexivity|]. cbn [filter]. pose proof (Hx e (or_introl eq_refl)) as K. cbn [fst] in K.
        destruct (qltb L (fst e) q) eqn:E2; [exfalso; pose proof (qltb_trans L _ _ _ K E2) as T; rewrite qltb_irrefl in T; discriminate|].
        apply IHl. intros; apply Hx; now right. }
      now rewrite E.
    + cbn. destruct H as [H|H]; [congruence|]. exfalso. specialize (Hx _ H). cbn in Hx. rewrite qltb_irrefl in Hx. discriminate.
  - destruct H as [H|H]; [congruence|]. destruct (IH q v S' H) as (k & E & Hk & Hz & Hn). rewrite E. exists (1 + k). split; [reflexivity|]. cbn [length].
    split; [lia|]. replace (Z.to_nat (1 + k)) with (S (Z.to_nat k)) by lia. cbn [firstn nth map snd filter fst]. specialize (Hx _ H). cbn [fst] in Hx. rewrite Hx.
    cbn [map snd]. rewrite !zsum_cons, Hz. auto.
Qed.
Lemma label_pos_spec : forall info q v, NoDup (keys info) -> In (q, v) info ->
  let k := label_pos L info q in 0 <= k < Z.of_nat (length info) /\ starts L info k = below info q /\ sector L info k = v
    /\ nth (Z.to_nat k) (sorted_info L info) (q0 L, 0) = (q, v).
Proof.
  intros info q v N H. pose proof (sorted_info_strict L info N) as So. fold (sorted_info L info) in So.
  assert (P: Permutation info (sorted_info L info)) by apply sort_perm.
  destruct (pos_in_spec (sorted_info L info) q v So) as (k & E & Hk & Hz & Hn); [eapply Permutation_in; eauto|].
  cbv zeta. unfold label_pos. rewrite E. cbn [odflt]. rewrite <- (Permutation_length P) in Hk. split; [auto|]. split; [|split; [|exact Hn]].
  - unfold starts, below. rewrite Hz. apply zsum_perm. apply Permutation_map. apply Permutation_sym.
    clear - P. induction P; cbn [filter]; repeat match goal with |- context [if ?c then _ else _] => destruct c end; eauto using perm_swap, perm_skip, perm_trans.
  - unfold sector, starts. replace (Z.to_nat (k + 1)) with (S (Z.to_nat k)) by lia.
    assert (Hk': (Z.to_nat k < length (sorted_info L info))%nat) by (rewrite <- (Permutation_length P); lia).
    rewrite zsum_firstn_S. change 0 with (snd (q0 L, 0)) at 1. rewrite map_nth, Hn. cbn [snd]. lia.
Qed.
Lemma starts_mono : forall info k k', wf L info -> 0 <= k <= k' -> starts L info k <= starts L info k'.
Proof.
  intros info k k' [N Pz] H. unfold starts.
  assert (P: forall x, In x (map snd (sorted_info L info)) -> 0 <= x).
  { intros x Hx. apply in_map_iff in Hx. destruct Hx as (e & <- & He). assert (In e info) by (eapply Permutation_in; [apply Permutation_sym, (sort_perm (qltb L) fst)|exact He]).
    specialize (Pz _ H0). lia. }
  assert (E: firstn (Z.to_nat k') (map snd (sorted_info L info)) = firstn (Z.to_nat k) (map snd (sorted_info L info)) ++ firstn (Z.to_nat k' - Z.to_nat k) (skipn (Z.to_nat k) (map snd (sorted_info L info)))).
  { replace (Z.to_nat k') with (Z.to_nat k + (Z.to_nat k' - Z.to_nat k))%nat at 1 by lia. generalize (Z.to_nat k' - Z.to_nat k)%nat as j. generalize (map snd (sorted_info L info)). generalize (Z.to_nat k). clear.
    induction n as [|n IH]; intros [|x l] j; cbn; auto; [now rewrite firstn_nil|]. f_equal. apply IH. }
  rewrite E, zsum_app. assert (0 <= zsum (firstn (Z.to_nat k' - Z.to_nat k) (skipn (Z.to_nat k) (map snd (sorted_info L info))))); [|lia].
  apply zsum_nonneg. intros x Hx. apply P. rewrite <- (firstn_skipn (Z.to_nat k)), in_app_iff. right. rewrite <- (firstn_skipn (Z.to_nat k' - Z.to_nat k)), in_app_iff. now left.
Qed.
End Dense.

Section DenseLoop.
Variable R : CRing.
Variable L : Label.
Notation tensor := (list (list L * nd R)).
Notation binfo := (dict L Z).
Notation teqb := (tup_eqb L).
Notation tspec := (tup_eqb_spec L).
Notation seqb := shape_eqb.
Notation sspec := shape_eqb_spec.
Variable infos : list binfo.

Definition known (qs : list L) : Prop := Forall2 (fun (i : binfo) q => In q (keys i)) infos qs.
Definition poss (is : list binfo) (qs : list L) : list Z := map (fun p => label_pos L (snd p) (fst p)) (combine qs is).

Lemma poss_inj : forall is, Forall (fun i => NoDup (keys i)) is -> forall qs qs',
  Forall2 (fun (i : binfo) q => In q (keys i)) is qs -> Forall2 (fun (i : binfo) q => In q (keys i)) is qs' -> poss is qs = poss is qs' -> qs = qs'.
Proof.
  induction 1 as [|i is N Hf IH]; intros qs qs' A B E; inversion A as [|? q ? qs1 Hq Hr]; inversion B as [|? q' ? qs1' Hq' Hr']; subst; [reflexivity|].
  unfold poss in E. cbn [combine map fst snd] in E. injection E as E1 E2. f_equal; [|now apply IH].
  apply in_map_iff in Hq. destruct Hq as ([q1 v] & <- & Hv). apply in_map_iff in Hq'. destruct Hq' as ([q1' v'] & <- & Hv'). cbn [fst] in *.
  destruct (label_pos_spec L i q1 v N Hv) as (_ & _ & _ & C). destruct (label_pos_spec L i q1' v' N Hv') as (_ & _ & _ & C'). cbv zeta in *.
  rewrite E1 in C. congruence.
Qed.
Hypothesis Nk : Forall (fun i : binfo => NoDup (keys i)) infos.

Definition putb (m : dict (list Z) (nd R)) (blk : list L * nd R) := dset seqb m (poss infos (fst blk)) (snd blk).
Lemma slice_get : forall (t : tensor) m qs, NoDup (map fst t) -> (forall b, In b t -> known (fst b)) -> known qs ->
  dget seqb (fold_left putb t m) (poss infos qs) = match dget teqb t qs with Some p => Some p | None => dget seqb m (poss infos qs) end.
Proof.
  induction t as [|[k v] t IH]; intros m qs N Kt Kq; [reflexivity|]. cbn in N. inversion N as [|? ? N1 N2]; subst. cbn [fold_left dget].
  rewrite IH; auto; [|intros; apply Kt; now right]. destruct (tspec k qs) as [->|Ne].
  - assert (E: dget teqb t qs = None) by (apply (dget_none teqb tspec); exact N1). rewrite E. unfold putb. rewrite dget_dset by apply sspec. cbn [fst snd].
    destruct (sspec (poss infos qs) (poss infos qs)); [reflexivity|congruence].
  - destruct (dget teqb t qs); [reflexivity|]. unfold putb. rewrite dget_dset by apply sspec. cbn [fst snd].
    destruct (sspec (poss infos k) (poss infos qs)) as [E|]; [|reflexivity]. exfalso. apply Ne. eapply poss_inj; eauto. apply (Kt (k, v)). now left.
Qed.
Lemma slice_from : forall (t : tensor) m ix p, dget seqb (fold_left putb t m) ix = Some p ->
  dget seqb m ix = Some p \/ exists b, In b t /\ ix = poss infos (fst b) /\ p = snd b.
Proof.
  induction t as [|b t IH]; intros m ix p H; [now left|]. cbn [fold_left] in H. apply IH in H. destruct H as [H|(c & Hc & E)].
  - unfold putb in H. rewrite dget_dset in H by apply sspec. destruct (sspec (poss infos (fst b)) ix) as [E|]; [|now left].
    right. exists b. split; [now left|]. injection H as <-. auto.
  - right. exists c. split; [now right|auto].
Qed.

Definition sts (ix : list Z) : list Z := map (fun x => starts L (fst x) (snd x)) (combine infos ix).
Lemma dense_loop_spec : forall arr ixs r,
  (forall ix p, In ix ixs -> dget seqb arr ix = Some p -> nshape p = map (fun x => sector L (fst x) (snd x)) (combine infos ix)) ->
  exists r', dense_loop R L infos arr ixs r = Some r' /\ nshape r' = nshape r
  /\ (forall ys, (forall ix p, In ix ixs -> dget seqb arr ix = Some p -> ~ in_shape (nshape p) (zminus ys (sts ix))) -> nval r' ys = nval r ys)
  /\ (forall ys ix0 p0, In ix0 ixs -> dget seqb arr ix0 = Some p0 -> in_shape (nshape p0) (zminus ys (sts ix0)) ->
        (forall ix p, In ix ixs -> dget seqb arr ix = Some p -> in_shape (nshape p) (zminus ys (sts ix)) -> ix = ix0) ->
        nval r' ys = nval p0 (zminus ys (sts ix0))).
Proof.
  intros arr. induction ixs as [|ix ixs IH]; intros r Hs.
  { exists r. split; [reflexivity|]. split; [reflexivity|]. split; [auto|]. intros ys ix0 p0 []. }
  cbn [dense_loop]. destruct (dget seqb arr ix) as [p|] eqn:Ep.
  - assert (Hp := Hs ix p (or_introl eq_refl) Ep). destruct (sspec (nshape p) (map (fun x => sector L (fst x) (snd x)) (combine infos ix))) as [_|]; [|congruence].
    fold (sts ix). destruct (IH (nd_set_at (sts ix) r p)) as (r' & A & B & C & D); [intros; apply Hs; auto; now right|].
    exists r'. split; [exact A|]. split; [exact B|]. split.
    + intros ys Hn. rewrite C by (intros; apply Hn; auto; now right). unfold nd_set_at. cbn [nval].
      destruct (in_shapeb (nshape p) (zminus ys (sts ix))) eqn:E; [|reflexivity]. apply in_shapeb_spec in E. exfalso. now apply (Hn ix p (or_introl eq_refl) Ep).
    + intros ys ix0 p0 H0 H1 H2 Hu.
      destruct (in_dec (list_eq_dec Z.eq_dec) ix0 ixs) as [Hi|Hi].
      * apply D; auto. intros; eapply Hu; eauto. now right.
      * destruct H0 as [->|H0]; [|tauto]. rewrite Ep in H1. injection H1 as ->. rewrite C.
        -- unfold nd_set_at. cbn [nval]. apply in_shapeb_spec in H2. now rewrite H2.
        -- intros ix p Hx Hp' Hin. apply Hi. rewrite <- (Hu ix p); auto. now right.
  - destruct (IH r) as (r' & A & B & C & D); [intros; apply Hs; auto; now right|]. exists r'. split; [exact A|]. split; [exact B|]. split.
    + intros ys Hn. apply C. intros; apply Hn; auto. now right.
    + intros ys ix0 p0 H0 H1 H2 Hu. destruct H0 as [->|H0]; [congruence|]. apply D; auto. intros; eapply Hu; eauto. now right.
Qed.
End DenseLoop.

Section DenseMain.
Variable R : CRing.
Variable L : Label.
Notation tensor := (list (list L * nd R)).
Notation binfo := (dict L Z).
Notation teqb := (tup_eqb L).
Notation tspec := (tup_eqb_spec L).

Lemma combo_nil : forall qs sh, is_combo L [] qs sh -> qs = [] /\ sh = [].
Proof. intros qs sh (_ & A & B). destruct qs; [|discriminate]. destruct sh; [|discriminate]. auto. Qed.
Lemma combo_cons : forall i is qs sh, is_combo L (i :: is) qs sh <-> exists q v qs' sh', qs = q :: qs' /\ sh = v :: sh' /\ In (q, v) i /\ is_combo L is qs' sh'.
Proof.
  intros i is qs sh. split.
  - intros (F & A & B). destruct qs as [|q qs]; [discriminate|]. destruct sh as [|v sh]; [discriminate|]. exists q, v, qs, sh. cbn [combine] in F. inversion F; subst.
    split; [reflexivity|]. split; [reflexivity|]. split; [auto|]. split; [auto|]. cbn in A, B. lia.
  - intros (q & v & qs' & sh' & -> & -> & H & (F & A & B)). split; [constructor; auto|]. cbn. lia.
Qed.

(* specification: the position in the dense array of element xs of the block with labels qs *)
Fixpoint dense_at (infos : list binfo) (qs : list L) (xs : list Z) : list Z :=
  match infos, qs, xs with
  | i :: is, q :: qs', x :: xs' => (below L i q + x) :: dense_at is qs' xs'
  | _, _, _ => []
  end.

Lemma leg_bounds : forall i q v, wf L i -> In (q, v) i -> 0 <= below L i q /\ below L i q + v <= n_bonds L i.
Proof.
  intros i q v W H. destruct (label_pos_spec L i q v (proj1 W) H) as (A & B & C & _). cbv zeta in *. rewrite <- B. split.
  - change 0 with (starts L i 0). apply starts_mono; [auto|lia].
  - replace (n_bonds L i) with (starts L i (Z.of_nat (length i))).
    + pose proof (starts_mono L i (label_pos L i q + 1) (Z.of_nat (length i)) W ltac:(lia)). unfold sector in C. lia.
    + unfold starts, n_bonds. assert (P: Permutation i (sorted_info L i)) by apply sort_perm. rewrite (zsum_perm _ _ (Permutation_map snd P)).
      f_equal. rewrite Nat2Z.id, (Permutation_length P), <- (map_length snd). apply firstn_all.
Qed.
Lemma leg_disjoint : forall i q v q' v' y, wf L i -> In (q, v) i -> In (q', v') i ->
  below L i q <= y < below L i q + v -> below L i q' <= y < below L i q' + v' -> q = q'.
Proof.
  intros i q v q' v' y W H H' B B'. destruct (label_pos_spec L i q v (proj1 W) H) as (A1 & A2 & A3 & A4).
  destruct (label_pos_spec L i q' v' (proj1 W) H') as (C1 & C2 & C3 & C4). cbv zeta in *. unfold sector in *.
  assert (E: label_pos L i q = label_pos L i q').
  { destruct (Z.lt_trichotomy (label_pos L i q) (label_pos L i q')) as [T|[T|T]]; [|auto|]; exfalso.
    - pose proof (starts_mono L i (label_pos L i q + 1) (label_pos L i q') W ltac:(lia)). lia.
    - pose proof (starts_mono L i (label_pos L i q' + 1) (label_pos L i q) W ltac:(lia)). lia. }
  rewrite E in A4. congruence.
Qed.
Lemma prefix_find : forall l y, 0 <= y < zsum l -> (forall x, In x l -> 0 <= x) -> exists k, (k < length l)%nat /\ zsum (firstn k l) <= y < zsum (firstn (S k) l).
Proof.
  induction l as [|a l IH]; intros y H P; [cbn in H; lia|]. rewrite zsum_cons in H. destruct (Z.lt_ge_cases y a).
  - exists 0%nat. cbn [length]. split; [lia|]. cbn [firstn]. rewrite zsum_cons. cbn. lia.
  - destruct (IH (y - a)) as (k & A & B); [lia|intros; apply P; now right|]. exists (S k). cbn [length]. split; [lia|].
    change (firstn (S k) (a :: l)) with (a :: firstn k l). change (firstn (S (S k)) (a :: l)) with (a :: firstn (S k) l). rewrite !zsum_cons. lia.
Qed.
Lemma leg_cover : forall i y, wf L i -> 0 <= y < n_bonds L i -> exists q v, In (q, v) i /\ below L i q <= y < below L i q + v.
Proof.
  intros i y W H. assert (P: Permutation i (sorted_info L i)) by apply sort_perm.
  destruct (prefix_find (map snd (sorted_info L i)) y) as (k & A & B).
  - unfold n_bonds in H. rewrite (zsum_perm _ _ (Permutation_map snd P)) in H. auto.
  - intros x Hx. apply in_map_iff in Hx. destruct Hx as (e & <- & He). assert (In e i) by (eapply Permutation_in; [apply Permutation_sym; exact P|exact He]).
    pose proof (proj2 W _ H0). lia.
  - rewrite map_length in A. pose proof (nth_In (sorted_info L i) (q0 L, 0) A) as Hin. destruct (nth k (sorted_info L i) (q0 L, 0)) as [q v] eqn:En.
    assert (Hi: In (q, v) i) by (eapply Permutation_in; [apply Permutation_sym; exact P|exact Hin]). exists q, v. split; [auto|].
    destruct (label_pos_spec L i q v (proj1 W) Hi) as (A1 & A2 & A3 & A4). cbv zeta in *.
    assert (Ek: Z.to_nat (label_pos L i q) = k).
    { assert (N: NoDup (sorted_info L i)) by (apply (NoDup_map_inv fst); apply (sort_keys_nodup L); apply W).
      rewrite (NoDup_nth (sorted_info L i) (q0 L, 0)) in N. apply N; [rewrite <- (Permutation_length P); lia|auto|]. now rewrite A4, En. }
    rewrite zsum_firstn_S in B. change 0 with (snd (q0 L, 0)) in B. rewrite map_nth, En in B. cbn [snd] in B. rewrite <- A2. unfold starts. rewrite Ek. lia.
Qed.

Lemma zminus_cons : forall x xs o os, zminus (x :: xs) (o :: os) = x - o :: zminus xs os.
Proof. reflexivity. Qed.
Lemma dense_at_box : forall infos, Forall (wf L) infos -> forall qs sh xs, is_combo L infos qs sh -> in_shape sh xs ->
  in_shape (map (n_bonds L) infos) (dense_at infos qs xs) /\ zminus (dense_at infos qs xs) (sts L infos (poss L infos qs)) = xs.
Proof.
  induction 1 as [|i is W Hf IH]; intros qs sh xs C X.
  - apply combo_nil in C. destruct C as [-> ->]. inversion X; subst. split; [constructor|reflexivity].
  - apply combo_cons in C. destruct C as (q & v & qs' & sh' & -> & -> & Hi & C). inversion X as [|? x ? xs' Hx X']; subst.
    destruct (IH qs' sh' xs' C X') as [A B]. destruct (leg_bounds i q v W Hi) as [D E]. cbn [dense_at map]. split.
    + constructor; [lia|auto].
    + change (poss L (i :: is) (q :: qs')) with (label_pos L i q :: poss L is qs').
      change (sts L (i :: is) (label_pos L i q :: poss L is qs')) with (starts L i (label_pos L i q) :: sts L is (poss L is qs')).
      destruct (label_pos_spec L i q v (proj1 W) Hi) as (_ & Es & _). cbv zeta in Es. rewrite zminus_cons, B, Es. f_equal. lia.
Qed.
Lemma dense_at_unique : forall infos, Forall (wf L) infos -> forall qs sh xs qs' sh', is_combo L infos qs sh -> in_shape sh xs ->
  is_combo L infos qs' sh' -> in_shape sh' (zminus (dense_at infos qs xs) (sts L infos (poss L infos qs'))) -> qs' = qs.
Proof.
  induction 1 as [|i is W Hf IH]; intros qs sh xs qs' sh' C X C' X'.
  - apply combo_nil in C. destruct C as [-> ->]. apply combo_nil in C'. tauto.
  - apply combo_cons in C. destruct C as (q & v & q1 & s1 & -> & -> & Hi & C). inversion X as [|? x ? xs' Hx X1]; subst.
    apply combo_cons in C'. destruct C' as (q' & v' & q1' & s1' & -> & -> & Hi' & C'). cbn [dense_at] in X'.
    change (poss L (i :: is) (q' :: q1')) with (label_pos L i q' :: poss L is q1') in X'.
    change (sts L (i :: is) (label_pos L i q' :: poss L is q1')) with (starts L i (label_pos L i q') :: sts L is (poss L is q1')) in X'.
    rewrite zminus_cons in X'. inversion X' as [|? ? ? ? Hy X2]; subst.
    destruct (label_pos_spec L i q' v' (proj1 W) Hi') as (_ & Es & _). cbv zeta in Es. rewrite Es in Hy. f_equal.
    + eapply (leg_disjoint i q' v' q v (below L i q + x)); eauto; lia.
    + eapply IH; eauto.
Qed.
Lemma dense_at_onto : forall infos, Forall (wf L) infos -> forall ys, in_shape (map (n_bonds L) infos) ys ->
  exists qs sh xs, is_combo L infos qs sh /\ in_shape sh xs /\ ys = dense_at infos qs xs.
Proof.
  induction 1 as [|i is W Hf IH]; intros ys Y.
  - inversion Y; subst. exists [], [], []. split; [repeat split; constructor|]. split; [constructor|reflexivity].
  - cbn [map] in Y. inversion Y as [|? y ? ys' Hy Y']; subst. destruct (IH ys' Y') as (qs & sh & xs & A & B & ->).
    destruct (leg_cover i y W Hy) as (q & v & Hi & C). exists (q :: qs), (v :: sh), (y - below L i q :: xs). split; [|split].
    + apply combo_cons. exists q, v, qs, sh. auto.
    + constructor; [lia|exact B].
    + cbn [dense_at]. f_equal. lia.
Qed.
Lemma combo_known : forall infos qs sh, is_combo L infos qs sh -> known L infos qs.
Proof.
  induction infos as [|i is IH]; intros qs sh C.
  - apply combo_nil in C. destruct C as [-> _]. constructor.
  - apply combo_cons in C. destruct C as (q & v & qs' & sh' & -> & -> & Hi & C). constructor; [apply in_map_iff; exists (q, v); auto|]. eapply IH; eauto.
Qed.
Lemma combo_det : forall infos, Forall (wf L) infos -> forall qs sh sh', is_combo L infos qs sh -> is_combo L infos qs sh' -> sh = sh'.
Proof.
  induction 1 as [|i is W Hf IH]; intros qs sh sh' C C'.
  - apply combo_nil in C. apply combo_nil in C'. intuition congruence.
  - apply combo_cons in C. destruct C as (q & v & qs1 & sh1 & -> & -> & Hi & C). apply combo_cons in C'. destruct C' as (q' & v' & qs2 & sh2 & E & -> & Hi' & C').
    injection E as <- <-. f_equal; [|eapply IH; eauto]. pose proof (in_dget _ (qeqb_spec L) i _ _ (proj1 W) Hi) as E1. pose proof (in_dget _ (qeqb_spec L) i _ _ (proj1 W) Hi') as E2. congruence.
Qed.
Lemma combo_pos : forall infos, Forall (wf L) infos -> forall qs sh, is_combo L infos qs sh ->
  in_shape (map (fun i : binfo => Z.of_nat (length i)) infos) (poss L infos qs) /\ map (fun x => sector L (fst x) (snd x)) (combine infos (poss L infos qs)) = sh.
Proof.
  induction 1 as [|i is W Hf IH]; intros qs sh C.
  - apply combo_nil in C. destruct C as [-> ->]. split; [constructor|reflexivity].
  - apply combo_cons in C. destruct C as (q & v & qs1 & sh1 & -> & -> & Hi & C). destruct (IH qs1 sh1 C) as [A B].
    destruct (label_pos_spec L i q v (proj1 W) Hi) as (P1 & _ & P2 & _). cbv zeta in *.
    change (poss L (i :: is) (q :: qs1)) with (label_pos L i q :: poss L is qs1). cbn [map combine fst snd]. split; [constructor; auto|]. now rewrite B, P2.
Qed.

Lemma to_dense_spec : forall infos (t : tensor), Forall (wf L) infos -> NoDup (map fst t) ->
  (forall b, In b t -> is_combo L infos (fst b) (nshape (snd b))) ->
  exists r, sp_to_dense R L infos t = Some r /\ nshape r = map (n_bonds L) infos
  /\ (forall qs sh xs, is_combo L infos qs sh -> in_shape sh xs -> nget r (dense_at infos qs xs) = elem R L t qs xs).
Proof.
  intros infos t W N Hc. unfold sp_to_dense.
  assert (Nk: Forall (fun i : binfo => NoDup (keys i)) infos) by (eapply Forall_impl; [|exact W]; intros a Ha; apply Ha).
  set (arr := sp_to_sliceable R L infos t). assert (Ea: arr = fold_left (putb R L infos) t []) by reflexivity.
  assert (From: forall ix p, dget shape_eqb arr ix = Some p -> exists b, In b t /\ ix = poss L infos (fst b) /\ p = snd b).
  { intros ix p H. rewrite Ea in H. apply slice_from in H. destruct H as [H|H]; [discriminate|exact H]. }
  destruct (dense_loop_spec R L infos arr (all_idx (map (fun i : binfo => Z.of_nat (length i)) infos)) (nd_zeros R (map (n_bonds L) infos))) as (r & A & B & C & D).
  { intros ix p _ H. apply From in H. destruct H as (b & Hb & -> & ->). symmetry. eapply combo_pos; eauto. }
  exists r. split; [exact A|]. split; [exact B|]. intros qs sh xs Cq X.
  destruct (dense_at_box infos W qs sh xs Cq X) as [Y Z0].
  assert (U: forall ix p, dget shape_eqb arr ix = Some p -> in_shape (nshape p) (zminus (dense_at infos qs xs) (sts L infos ix)) -> ix = poss L infos qs /\ dget teqb t qs = Some p).
  { intros ix p H Hin. apply From in H. destruct H as ([k v] & Hb & -> & ->). cbn [fst snd] in *.
    assert (E: k = qs) by (eapply (dense_at_unique infos W qs sh xs k (nshape v)); eauto; apply (Hc (k, v) Hb)). subst k. split; [reflexivity|].
    apply (in_dget teqb tspec); auto. }
  unfold nget. assert (Eb: in_shapeb (nshape r) (dense_at infos qs xs) = true) by (apply in_shapeb_spec; rewrite B; exact Y). rewrite Eb.
  rewrite elem_dget by auto. destruct (dget teqb t qs) as [p|] eqn:Ep.
  - assert (Hb: In (qs, p) t) by now apply (dget_in teqb tspec) in Ep. pose proof (Hc _ Hb) as Cb. cbn [fst snd] in Cb. assert (Es: nshape p = sh) by (symmetry; eapply combo_det; eauto).
    rewrite (D _ (poss L infos qs) p).
    + rewrite Z0. unfold nget. now rewrite Es, (proj2 (in_shapeb_spec sh xs) X).
    + apply in_all_idx. eapply combo_pos; eauto.
    + rewrite Ea, slice_get; auto; [now rewrite Ep| |eapply combo_known; eauto]. intros b' Hb'. eapply combo_known. apply Hc. exact Hb'.
    + rewrite Z0, Es. exact X.
    + intros ix p' _ H Hin. now apply (U ix p').
  - rewrite C; [reflexivity|]. intros ix p _ H Hin. destruct (U ix p H Hin). congruence.
Qed.
End DenseMain.
