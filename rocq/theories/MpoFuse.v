(** Lemmas for C32: the bonds of the vertical product are fused pairwise; fused bond states = pairs of bond states. *)
From Coq Require Import ZArith Bool List Ascii Lia Permutation Ring.
From Verif Require Import SymModel SymProofs DictLib IndexLib OptLib RingLib BondModel BondProofs FuseModel FuseProofs FuseProps FuseTProofs FuseTProps BlockModel BlockProofs BlockProps StructModel StructProofs SumProofs StructProps MpsModel MpsChain MpsProofs MpsDot MpoModel MpoDot MpoVert.
Import ListNotations.
Open Scope Z_scope.

Section MFuse.
Variable R : CRing.
Add Ring Rr7 : (rth R).
Variable L : Label.
Notation tensor := (list (list L * nd R)).
Notation site := (site R L).
Notation state := (L * Z)%type.
Notation binfo := (dict L Z).
Notation "0'" := (r0 R). Notation "1'" := (r1 R).
Infix "+'" := (radd R) (at level 50, left associativity).
Infix "*'" := (rmul R) (at level 40, left associativity).
Notation telem := (telem R L).
Notation positive := (positive R L).

(** infos of a site leg by leg *)
Definition leg_labels (i : nat) (s : site) : list L := map (fun b => nth i (fst b) (q0 L)) (blocks s).
Lemma part_infos : forall n dm (t : tensor), wf_tensor R L n dm t -> positive t -> t <> [] -> exists ds, sp_infos R L t = Some ds /\ Z.of_nat (length ds) = n /\ ndim R L t = n /\
  forall i, 0 <= i < n -> wf L (nth (Z.to_nat i) ds []) /\ forall q, bget L (nth (Z.to_nat i) ds []) q = if in_dec (q_dec L) q (map (fun b => nth (Z.to_nat i) (fst b) (q0 L)) t) then dm i q else 0.
Proof.
  intros n dm t Wt Pos Ne. destruct (c46_infos R L n _ t Ne Wt) as (ds & E & Ld & D & _). exists ds. split; [exact E|]. split; [exact Ld|]. split; [now apply (ndim_wf R L n _ _ Wt)|].
  intros i Hi. destruct (D i Hi) as [D1 D2].
  assert (Sh: forall b, In b t -> nth (Z.to_nat i) (nshape (snd b)) 0 = dm i (nth (Z.to_nat i) (fst b) (q0 L))).
  { intros b Hb. destruct (Wt b Hb) as [Lb Sb]. rewrite Sb. rewrite nth_shape_of by (rewrite ?zrange_length; lia). rewrite nth_zrange by lia. now rewrite Z2Nat.id by lia. }
  split.
  - split; [exact D1|]. intros [q v] Hq. apply D2 in Hq. destruct Hq as (b & Hb & _ & <-). destruct (wf_shape_length R L n _ _ b Wt Hb) as [Ls _]. specialize (Pos b Hb). rewrite Forall_forall in Pos. apply Pos. apply nth_In. lia.
  - intros q. destruct (in_dec _ q _) as [I|I].
    + apply in_map_iff in I. destruct I as (b & Eb & Hb). unfold bget. rewrite (in_dget _ (qeqb_spec L) _ q (dm i q) D1); [reflexivity|]. apply D2. exists b. split; [exact Hb|]. split; [exact Eb|]. rewrite Sh by auto. now rewrite Eb.
    + unfold bget. destruct (dget (qeqb L) (nth (Z.to_nat i) ds []) q) as [v|] eqn:Ev; [|reflexivity]. apply (dget_in _ (qeqb_spec L)) in Ev. apply D2 in Ev. destruct Ev as (b & Hb & Eb & _). destruct I. apply in_map_iff. eauto.
Qed.
Lemma infos_spec : forall n dm (s : site), 0 < n -> (forall odd, wf_tensor R L n dm (part s odd) /\ positive (part s odd)) -> blocks s <> [] ->
  exists ds, s_infos R L s = Some ds /\ Z.of_nat (length ds) = n /\ forall i, 0 <= i < n -> wf L (nth (Z.to_nat i) ds []) /\ forall q, bget L (nth (Z.to_nat i) ds []) q = if in_dec (q_dec L) q (leg_labels (Z.to_nat i) s) then dm i q else 0.
Proof.
  intros n dm s Hn W Ne. unfold s_infos. destruct s as [t|o e].
  - destruct (W false) as [Wt Pt]. cbn [part] in *. destruct (part_infos n dm t Wt Pt Ne) as (ds & E & Ld & _ & H). exists ds. auto.
  - destruct (W true) as [Wo Po], (W false) as [We Pe]. cbn [part] in *. unfold leg_labels, blocks in *. cbn [part] in *. destruct o as [|bo o]; [|destruct e as [|be e]].
    + destruct (part_infos n dm e We Pe Ne) as (ds & E & Ld & _ & H). exists ds. split; [exact E|]. split; [exact Ld|exact H].
    + destruct (part_infos n dm (bo :: o) Wo Po ltac:(discriminate)) as (ds & E & Ld & En & H). rewrite En. destruct (Z.eqb_spec n 0); [lia|]. cbn [ndim]. rewrite Z.eqb_refl. exists ds. split; [exact E|]. split; [exact Ld|]. rewrite app_nil_r. exact H.
    + destruct (part_infos n dm (bo :: o) Wo Po ltac:(discriminate)) as (ds & E & Ld & En & H). destruct (part_infos n dm (be :: e) We Pe ltac:(discriminate)) as (ds' & E' & Ld' & En' & H').
      rewrite En, En'. destruct (Z.eqb_spec n 0); [lia|]. rewrite E, E'. cbn [bind]. exists (zip_with (bor L) ds ds'). split; [reflexivity|].
      assert (ZL: length (zip_with (bor L) ds ds') = length ds). { assert (X: length ds = length ds') by lia. clear - X. revert ds' X. induction ds; intros [|d' ds'] X; try discriminate; [reflexivity|]. cbn [zip_with length]. f_equal. apply IHds. now injection X. }
      split; [lia|]. intros i Hi. destruct (H i Hi) as [W1 G1], (H' i Hi) as [W2 G2].
      assert (ZN: nth (Z.to_nat i) (zip_with (bor L) ds ds') [] = bor L (nth (Z.to_nat i) ds []) (nth (Z.to_nat i) ds' [])).
      { assert (X: length ds = length ds') by lia. assert (Y: (Z.to_nat i < length ds)%nat) by lia. revert Y. generalize (Z.to_nat i). clear - X. revert ds' X. induction ds; intros [|d' ds'] X k Y; try discriminate; [cbn in Y; lia|]. destruct k; [reflexivity|]. cbn [zip_with nth]. apply IHds; [now injection X|cbn in Y; lia]. }
      rewrite ZN. split; [apply bor_wf|]. intros q. rewrite bor_get by auto. rewrite G1, G2. rewrite map_app.
      assert (Pd: forall t : tensor, wf_tensor R L n dm t -> positive t -> In q (map (fun b => nth (Z.to_nat i) (fst b) (q0 L)) t) -> 0 < dm i q).
      { intros t Wt Pt I. apply in_map_iff in I. destruct I as (b & Eb & Hb). destruct (Wt b Hb) as [Lb Sb]. specialize (Pt b Hb). rewrite Forall_forall in Pt. rewrite <- Eb. replace (dm i (nth (Z.to_nat i) (fst b) (q0 L))) with (nth (Z.to_nat i) (nshape (snd b)) 0).
        - apply Pt. apply nth_In. destruct (wf_shape_length R L n _ _ b Wt Hb). lia.
        - rewrite Sb, nth_shape_of by (rewrite ?zrange_length; lia). rewrite nth_zrange by lia. now rewrite Z2Nat.id by lia. }
      destruct (in_dec _ q (_ ++ _)) as [I|I]; rewrite in_app_iff in I; destruct (in_dec _ q (map _ (bo :: o))) as [I1|I1], (in_dec _ q (map _ (be :: e))) as [I2|I2]; try tauto; try lia.
      * apply Pd in I1; auto. lia. * apply Pd in I2; auto. lia.
Qed.

(** a pair of states of legs with infos i0 and i1 as a state of the fused leg; (q, -1) is no state *)
Definition okb (i0 i1 : binfo) (l l' : state) : bool := (0 <=? snd l) && (snd l <? bget L i0 (fst l)) && ((0 <=? snd l') && (snd l' <? bget L i1 (fst l'))).
Definition kmap (i0 i1 : binfo) (l l' : state) : state :=
  if okb i0 i1 l l' then match place L (bxor L i0 i1) plus2 [l; l'] with Some s => s | None => (qadd L (fst l) (fst l'), -1) end else (qadd L (fst l) (fst l'), -1).
Lemma okb_spec : forall i0 i1 l l', okb i0 i1 l l' = true <-> 0 <= snd l < bget L i0 (fst l) /\ 0 <= snd l' < bget L i1 (fst l').
Proof. intros. unfold okb. rewrite !andb_true_iff, !Z.leb_le, !Z.ltb_lt. reflexivity. Qed.
Lemma total_plus2 : forall q q', signed_total L plus2 [q; q'] = qadd L q q'.
Proof. intros. unfold plus2. cbn. rewrite ?qadd_0_l. try reflexivity. now rewrite (qadd_comm L q' (q0 L)), qadd_0_l. Qed.
Section Pairs.
Variables i0 i1 : binfo.
Hypothesis W0 : wf L i0. Hypothesis W1 : wf L i1.
Hypothesis Sm : forall q q', bget L i0 q * bget L i1 q' < 2 ^ 32.
Let Wf : Forall (wf L) [i0; i1]. Proof. repeat constructor; try apply W0; apply W1. Qed.
Lemma pair_fits : fits L [i0; i1].
Proof.
  intros qls shs (F & E1 & E2). destruct qls as [|q [|q' []]]; try discriminate. destruct shs as [|n [|n' []]]; try discriminate. cbn [combine] in F. inversion F as [|? ? ? ? H1 F']; subst. inversion F' as [|? ? ? ? H2 _]; subst.
  specialize (Sm q q'). rewrite (bget_in L i0 q n (proj1 W0) H1), (bget_in L i1 q' n' (proj1 W1) H2) in Sm. cbn [prodZ fold_right]. cbn. lia.
Qed.
Lemma ok_leg : forall l l', okb i0 i1 l l' = true <-> Forall2 (leg_state L) [i0; i1] [l; l'].
Proof.
  intros l l'. rewrite okb_spec. assert (G: forall i (s : state), wf L i -> (0 <= snd s < bget L i (fst s) <-> leg_state L i s)).
  { intros i [q x] Wi. cbn [fst snd]. split.
    - intros H. unfold bget in H. destruct (dget (qeqb L) i q) as [n|] eqn:E; [|cbn in H; lia]. cbn in H. exists n. split; [apply (dget_in _ (qeqb_spec L)); exact E|exact H].
    - intros (n & H1 & H2). cbn [fst snd] in *. now rewrite (bget_in L i q n (proj1 Wi) H1). }
  rewrite (G i0 l W0), (G i1 l' W1). split; [intros [A B]; repeat constructor; assumption|]. intros F. inversion F as [|? ? ? ? A F']; subst. inversion F' as [|? ? ? ? B _]; subst. auto.
Qed.
Lemma kmap_label : forall l l', fst (kmap i0 i1 l l') = qadd L (fst l) (fst l').
Proof.
  intros l l'. unfold kmap. destruct (okb i0 i1 l l'); [|reflexivity]. unfold place. cbn [map]. rewrite total_plus2. destruct (find _ _) as [[? [? ?]]|]; reflexivity.
Qed.
Lemma kmap_ok : forall l l', okb i0 i1 l l' = true -> place L (bxor L i0 i1) plus2 [l; l'] = Some (kmap i0 i1 l l') /\ 0 <= snd (kmap i0 i1 l l') < dim L (bxor L i0 i1) (fst (kmap i0 i1 l l')).
Proof.
  intros l l' O. pose proof (kmap_label l l') as Lb. destruct (c10_state_bijection L (qltb L) [i0; i1] None plus2 Wf pair_fits) as (A & _). destruct (A [l; l'] (proj1 (ok_leg l l') O) I) as (x & E & Hx). fold (bxor L i0 i1) in E, Hx.
  unfold kmap in *. rewrite O in *. rewrite E in *. cbn [fst snd]. auto.
Qed.
Lemma kmap_bad : forall l l', okb i0 i1 l l' = false -> snd (kmap i0 i1 l l') = -1.
Proof. intros l l' H. unfold kmap. now rewrite H. Qed.
Lemma kmap_inj : forall l l' m m', okb i0 i1 l l' = true -> okb i0 i1 m m' = true -> kmap i0 i1 l l' = kmap i0 i1 m m' -> l = m /\ l' = m'.
Proof.
  intros l l' m m' O1 O2 E. destruct (c10_state_bijection L (qltb L) [i0; i1] None plus2 Wf pair_fits) as (_ & B & _). destruct (kmap_ok l l' O1) as [P1 _], (kmap_ok m m' O2) as [P2 _]. rewrite <- E in P2.
  assert (X: [l; l'] = [m; m']) by (apply (B _ _ (kmap i0 i1 l l')); [now apply ok_leg|now apply ok_leg|exact P1|exact P2]). now injection X.
Qed.
Lemma kmap_surj : forall q x, 0 <= x < dim L (bxor L i0 i1) q -> exists l l', okb i0 i1 l l' = true /\ kmap i0 i1 l l' = (q, x).
Proof.
  intros q x Hx. destruct (c10_state_bijection L (qltb L) [i0; i1] None plus2 Wf pair_fits) as (_ & _ & C). destruct (C q x Hx) as (st & F & E). pose proof (F2_length _ _ _ _ _ F) as Lst. destruct st as [|l [|l' [|z st]]]; try discriminate Lst.
  assert (O: okb i0 i1 l l' = true) by (apply ok_leg; exact F). exists l, l'. split; [exact O|]. destruct (kmap_ok l l' O) as [P _]. fold (bxor L i0 i1) in E. congruence.
Qed.
(* fusing with a single state of the neutral label changes nothing *)
Lemma kmap_vacuum : forall s, (forall q, bget L i0 q = if qeqb L q (q0 L) then 1 else 0) -> 0 <= snd s < bget L i1 (fst s) -> kmap i0 i1 (q0 L, 0) s = s.
Proof.
  intros [q x] V Hx. cbn [fst snd] in Hx. assert (O: okb i0 i1 (q0 L, 0) (q, x) = true). { apply okb_spec. cbn [fst snd]. rewrite V. destruct (qeqb_spec L (q0 L) (q0 L)); [lia|congruence]. }
  destruct (kmap_ok _ _ O) as [P Hr]. pose proof (kmap_label (q0 L, 0) (q, x)) as Lb. cbn [fst] in Lb. rewrite qadd_0_l in Lb.
  destruct (c10_combinations_stored_once L (qltb L) [i0; i1] None plus2 Wf) as [C Nd]. destruct (c10_ranges_tile L (qltb L) [i0; i1] None plus2 Wf pair_fits) as (T1 & T2 & _). fold (bxor L i0 i1) in *. cbv zeta in *. fold (bxor L i0 i1) in C, Nd, T1, T2.
  unfold place in P. cbn [map fst snd] in P. rewrite total_plus2, qadd_0_l in P. destruct (find _ _) as [[k [off shs]]|] eqn:Ef; [|discriminate]. apply find_none in Ef. cbn [fst] in Ef. destruct Ef as [-> Hi]. injection P as P. rewrite <- P. f_equal.
  assert (Only: forall qls off' shs', In (qls, (off', shs')) (entries L (bxor L i0 i1) q) -> qls = [q0 L; q] /\ shs' = [1; bget L i1 q]).
  { intros qls off' shs' H. destruct (proj1 (C q qls shs')) as ((F & E1 & E2) & Eq & _); [eauto|]. destruct qls as [|a [|b []]]; try discriminate. destruct shs' as [|n [|n' []]]; try discriminate. cbn [combine] in F. inversion F as [|? ? ? ? H1 F']; subst. inversion F' as [|? ? ? ? H2 _]; subst.
    rewrite total_plus2. pose proof (bget_in L i0 a n (proj1 W0) H1) as G1. pose proof (bget_in L i1 b n' (proj1 W1) H2) as G2. rewrite V in G1. destruct (qeqb_spec L a (q0 L)) as [->|]; [|assert (0 < n) by exact (proj2 W0 _ H1); lia]. rewrite qadd_0_l. subst. auto. }
  assert (Hd: 0 <= 0 < dim L (bxor L i0 i1) q). { rewrite <- P in Hr. cbn [fst] in Hr. lia. }
  destruct (T2 q 0 Hd) as (qls & off' & shs' & H' & Hz). destruct (Only _ _ _ Hi) as [_ Es], (Only _ _ _ H') as [Eq' _]. subst qls.
  assert (off = off'). { pose proof (proj2 (find_nodup L _ _ _ _ (Nd q)) Hi) as F1. pose proof (proj2 (find_nodup L _ _ _ _ (Nd q)) H') as F2. congruence. }
  subst. pose proof (T1 _ _ _ _ H'). cbn. lia.
Qed.

(** fusing two neighbouring legs whose labels are in the layouts *)
Variables (t : tensor) (n m : Z) (dm : Z -> L -> Z) (axes : list Z).
Hypothesis Hm : 0 <= m /\ m + 1 < n.
Hypothesis Ax : map (leg n) axes = [m; m + 1].
Hypothesis Wt : wf_tensor R L n dm t.
Hypothesis Pt : positive t.
Hypothesis Nt : NoDup (map fst t).
Hypothesis In0 : forall b, In b t -> bget L i0 (nth (Z.to_nat m) (fst b) (q0 L)) = dm m (nth (Z.to_nat m) (fst b) (q0 L)).
Hypothesis In1 : forall b, In b t -> bget L i1 (nth (Z.to_nat (m + 1)) (fst b) (q0 L)) = dm (m + 1) (nth (Z.to_nat (m + 1)) (fst b) (q0 L)).
Definition fdim (i : Z) (q : L) : Z := if i <? m then dm i q else if i =? m then dim L (bxor L i0 i1) q else dm (i + 1) q.
Let split_at : forall A (d : A) (l : list A), Z.of_nat (length l) = n -> exists pre x y post, l = pre ++ x :: y :: post /\ Z.of_nat (length pre) = m /\ x = nth (Z.to_nat m) l d /\ y = nth (Z.to_nat (m + 1)) l d.
Proof.
  intros A d l Hl. exists (firstn (Z.to_nat m) l), (nth (Z.to_nat m) l d), (nth (Z.to_nat (m + 1)) l d), (skipn (Z.to_nat (m + 2)) l).
  split; [|split; [rewrite firstn_length; lia|auto]].
  rewrite <- (firstn_skipn (Z.to_nat m) l) at 1. f_equal.
  assert (G: forall k, (k < length l)%nat -> skipn k l = nth k l d :: skipn (S k) l). { clear. induction l; intros k Hk; [cbn in Hk; lia|]. destruct k; [reflexivity|]. cbn [skipn nth]. apply IHl. cbn in Hk; lia. }
  rewrite G by lia. f_equal. replace (S (Z.to_nat m)) with (Z.to_nat (m + 1)) by lia. rewrite G by lia. f_equal. f_equal. lia.
Qed.
Let pick2 : forall A (d : A) pre x y post, Z.of_nat (length pre) = m -> pick d [m; m + 1] (pre ++ x :: y :: post) = [x; y].
Proof. intros A d pre x y post Hp. unfold pick. cbn [map]. rewrite !app_nth2 by lia. replace (Z.to_nat m - length pre)%nat with O by lia. replace (Z.to_nat (m + 1) - length pre)%nat with 1%nat by lia. reflexivity. Qed.
Let pos2 : forall A (d : A) v pre x y post, Z.of_nat (length pre) = m -> Z.of_nat (length (pre ++ x :: y :: post)) = n -> fuse_pos d n m [m; m + 1] v (pre ++ x :: y :: post) = pre ++ v :: post.
Proof.
  intros A d v pre x y post Hp Hl. unfold fuse_pos. rewrite firstn_app. replace (Z.to_nat m - length pre)%nat with O by lia. rewrite firstn_all2 by lia. cbn [firstn]. rewrite app_nil_r. f_equal. f_equal.
  assert (Ea: [m; m + 1] = adjacent m 2). { unfold adjacent. change (zrange 2) with [0; 1]. cbn [map]. f_equal. lia. }
  rewrite Ea, after_adjacent by lia. rewrite skipn_app. rewrite skipn_all2 by lia. replace (Z.to_nat (m + 2) - length pre)%nat with 2%nat by lia. reflexivity.
Qed.
Lemma fuse_pair : exists r, sp_fuse R L axes (bxor L i0 i1) plus2 t = Some r /\ wf_tensor R L (n - 1) fdim r /\ positive r /\ NoDup (map fst r) /\
  (forall qs, In qs (map fst r) -> exists pre x y post, qs = pre ++ qadd L x y :: post /\ Z.of_nat (length pre) = m /\ In (pre ++ x :: y :: post) (map fst t)) /\
  (forall pre l l' post, Z.of_nat (length pre) = m -> Z.of_nat (length post) = n - m - 2 -> telem r (pre ++ kmap i0 i1 l l' :: post) = telem t (pre ++ l :: l' :: post)) /\
  (forall pre s post, Z.of_nat (length pre) = m -> (forall l l', okb i0 i1 l l' = true -> kmap i0 i1 l l' <> s) -> telem r (pre ++ s :: post) = 0') /\
  (t = [] -> r = []).
Proof.
  set (info := bxor L i0 i1).
  pose proof (product_layout_ok L (qltb L) [i0; i1] None plus2 Wf pair_fits) as OK. fold (bxor L i0 i1) in OK. fold info in OK.
  destruct (c10_combinations_stored_once L (qltb L) [i0; i1] None plus2 Wf) as [C Nd]. cbv zeta in C, Nd. fold (bxor L i0 i1) in C, Nd. fold info in C, Nd.
  destruct (c10_ranges_tile L (qltb L) [i0; i1] None plus2 Wf pair_fits) as (T1 & T2 & T3). cbv zeta in T1, T2, T3. fold (bxor L i0 i1) in T1, T2, T3. fold info in T1, T2, T3.
  assert (Sh: forall b i, In b t -> 0 <= i < n -> nth (Z.to_nat i) (nshape (snd b)) 0 = dm i (nth (Z.to_nat i) (fst b) (q0 L))).
  { intros b i Hb Hi. destruct (Wt b Hb) as [Lb Sb]. rewrite Sb. rewrite nth_shape_of by (rewrite ?zrange_length; lia). rewrite nth_zrange by lia. now rewrite Z2Nat.id by lia. }
  assert (Cb: forall b, In b t -> is_combo L [i0; i1] (pick (q0 L) [m; m + 1] (fst b)) (pick 0 [m; m + 1] (nshape (snd b)))).
  { intros b Hb. unfold pick. cbn [map]. rewrite !Sh by (auto; lia). rewrite <- In0, <- In1 by auto. destruct (wf_shape_length R L n _ _ b Wt Hb) as [Ls _]. specialize (Pt b Hb). rewrite Forall_forall in Pt.
    assert (Key: forall i q, 0 < bget L i q -> In (q, bget L i q) i). { intros i q Hq. unfold bget in *. destruct (dget (qeqb L) i q) as [v|] eqn:E; [|cbn in Hq; lia]. cbn. now apply (dget_in _ (qeqb_spec L)). }
    split; [|split; reflexivity]. cbn [combine]. repeat constructor; apply Key; [rewrite In0 by auto|rewrite In1 by auto]; rewrite <- Sh by (auto; lia); apply Pt; apply nth_In; lia. }
  assert (Room: has_room R L [m; m + 1] info plus2 t). { intros b Hb q _. apply C. split; [auto|]. split; [reflexivity|exact I]. }
  assert (Ne: axes <> []) by (intros ->; discriminate).
  destruct (fuse_facts_t R L n dm t axes info plus2 m) as (r & F1 & F2 & F3 & F4 & F5); rewrite ?Ax; auto.
  { repeat constructor; cbn [In]; lia. } { cbn [In]. intros i Hi. lia. } { now left. } { cbn [In]. intros i Hi. lia. }
  rewrite Ax in F3, F4. cbv zeta in F3, F4.
  exists r. split; [exact F1|].
  assert (Kq: forall b, In b t -> 0 < dim L info (signed_total L plus2 (pick (q0 L) [m; m + 1] (fst b)))).
  { intros b Hb. destruct (proj2 (C _ _ _) (conj (Cb b Hb) (conj eq_refl I))) as (off & Ho). pose proof (T1 _ _ _ _ Ho). assert (0 < prodZ (pick 0 [m; m + 1] (nshape (snd b)))) by (apply prodZ_pos; exact (FuseProps.combo_pos L _ _ _ Wf (Cb b Hb))). lia. }
  assert (Bl: forall c, In c r -> exists b pre x y post, In b t /\ fst b = pre ++ x :: y :: post /\ Z.of_nat (length pre) = m /\ fst c = pre ++ qadd L x y :: post /\ exists sp sx sy sq, nshape (snd b) = sp ++ sx :: sy :: sq /\ Z.of_nat (length sp) = m /\ nshape (snd c) = sp ++ dim L info (qadd L x y) :: sq /\ 0 < dim L info (qadd L x y)).
  { intros c Hc. destruct (F3 c Hc) as (b & Hb & G1 & G2). destruct (wf_shape_length R L n _ _ b Wt Hb) as [Ls Lb]. pose proof (Kq b Hb) as Kb.
    destruct (split_at _ (q0 L) (fst b)) as (pre & x & y & post & Eb & Lp & _); [lia|]. destruct (split_at _ 0 (nshape (snd b))) as (sp & sx & sy & sq & Es & Lsp & _); [lia|].
    rewrite Eb in G1, G2, Kb. rewrite Es in G2. rewrite pick2, total_plus2 in G1, G2, Kb by auto. rewrite pos2 in G1 by (auto; rewrite <- Eb; lia). rewrite pos2 in G2 by (auto; rewrite <- Es; lia).
    exists b, pre, x, y, post. split; [exact Hb|]. split; [exact Eb|]. split; [exact Lp|]. split; [exact G1|]. exists sp, sx, sy, sq. split; [exact Es|]. split; [exact Lsp|]. split; [exact G2|exact Kb]. }
  split; [|split; [|split; [exact F2|split; [|split; [|split]]]]].
  - intros c Hc. destruct (Bl c Hc) as (b & pre & x & y & post & Hb & Eb & Lp & Ec & sp & sx & sy & sq & Es & Lsp & Sc & _). destruct (wf_shape_length R L n _ _ b Wt Hb) as [Ls Lb]. destruct (Wt b Hb) as [_ Sb].
    rewrite Eb in Lb. rewrite Es in Ls. rewrite app_length in Lb, Ls. cbn [length] in Lb, Ls.
    split. { rewrite Ec. rewrite app_length. cbn [length]. lia. }
    rewrite Sc, Ec. apply nth_ext with (d := 0) (d' := 0); [rewrite shape_of_length, zrange_length, !app_length; cbn [length]; lia|].
    intros j Hj. rewrite app_length in Hj. cbn [length] in Hj. rewrite nth_shape_of by (rewrite ?zrange_length, ?app_length; cbn [length]; lia). rewrite nth_zrange by lia. unfold fdim.
    destruct (Z.ltb_spec (Z.of_nat j) m) as [H|H]; [|destruct (Z.eqb_spec (Z.of_nat j) m) as [H'|H']].
    + rewrite !app_nth1 by lia. specialize (Sh b (Z.of_nat j) Hb ltac:(lia)). rewrite Es, Eb, !app_nth1, Nat2Z.id in Sh by lia. exact Sh.
    + rewrite !app_nth2 by lia. replace (j - length sp)%nat with O by lia. replace (j - length pre)%nat with O by lia. reflexivity.
    + rewrite !app_nth2 by lia. specialize (Sh b (Z.of_nat j + 1) Hb ltac:(lia)). rewrite Es, Eb, !app_nth2 in Sh by lia.
      replace (j - length sp)%nat with (S (j - 1 - length sp)) by lia. replace (j - length pre)%nat with (S (j - 1 - length pre)) by lia. replace (Z.to_nat (Z.of_nat j + 1) - length sp)%nat with (S (S (j - 1 - length sp))) in Sh by lia. replace (Z.to_nat (Z.of_nat j + 1) - length pre)%nat with (S (S (j - 1 - length pre))) in Sh by lia. exact Sh.
  - intros c Hc. destruct (Bl c Hc) as (b & pre & x & y & post & Hb & Eb & Lp & Ec & sp & sx & sy & sq & Es & Lsp & Sc & Kb). specialize (Pt b Hb). rewrite Es in Pt. rewrite Sc. apply Forall_app in Pt. destruct Pt as [P1 P2]. inversion P2 as [|? ? _ P3]; subst. inversion P3; subst. apply Forall_app. split; [assumption|]. constructor; assumption.
  - intros qs Hq. apply in_map_iff in Hq. destruct Hq as (c & <- & Hc). destruct (Bl c Hc) as (b & pre & x & y & post & Hb & Eb & Lp & Ec & _). exists pre, x, y, post. split; [exact Ec|]. split; [exact Lp|]. rewrite <- Eb. now apply in_map.
  - intros pre l l' post Lp Lq. destruct (okb i0 i1 l l') eqn:O.
    + destruct (kmap_ok l l' O) as [P _]. unfold place in P. fold info in P. cbn [map] in P. rewrite total_plus2 in P. destruct (find _ _) as [[k [off shs]]|] eqn:Ef; [|discriminate]. apply find_none in Ef. cbn [fst] in Ef. destruct Ef as [-> Hi]. injection P as P. rewrite <- P.
      unfold MpsDot.telem. rewrite !map_app. cbn [map fst snd].
      assert (Lm: Z.of_nat (length (map fst pre)) = m /\ Z.of_nat (length (map snd pre)) = m) by (rewrite !map_length; auto).
      specialize (F4 (map fst pre ++ fst l :: fst l' :: map fst post) (map snd pre ++ snd l :: snd l' :: map snd post) off shs). rewrite !app_length in F4. cbn [length] in F4. rewrite !map_length in F4. specialize (F4 ltac:(lia) ltac:(lia)).
      rewrite !pick2, total_plus2 in F4 by tauto. specialize (F4 Hi).
      assert (Is: in_shape shs [snd l; snd l']). { apply okb_spec in O. destruct (proj1 (C _ _ _) (ex_intro _ off Hi)) as ((F & E1 & E2) & _). destruct shs as [|n1 [|n2 []]]; try discriminate. cbn [combine] in F. inversion F as [|? ? ? ? H1 F']; subst. inversion F' as [|? ? ? ? H2 _]; subst. rewrite (bget_in L i0 _ _ (proj1 W0) H1), (bget_in L i1 _ _ (proj1 W1) H2) in O. repeat constructor; tauto. }
      specialize (F4 Is). rewrite !pos2 in F4 by (try tauto; rewrite app_length; cbn [length]; rewrite !map_length; lia). exact F4.
    + assert (Z1: telem t (pre ++ l :: l' :: post) = 0').
      { unfold MpsDot.telem. apply elem_out. intros b Hb Eb X. rewrite map_app in Eb, X. cbn [map] in Eb, X. assert (O': okb i0 i1 l l' = true); [|congruence]. apply okb_spec.
        destruct (wf_shape_length R L n _ _ b Wt Hb) as [Ls Lb].
        assert (Nth: forall i A (d x y : A) p q, Z.of_nat (length p) = m -> (i = m -> nth (Z.to_nat i) (p ++ x :: y :: q) d = x) /\ (i = m + 1 -> nth (Z.to_nat i) (p ++ x :: y :: q) d = y)).
        { intros i A d x y p q Hp. split; intros ->; rewrite app_nth2 by lia; [replace (Z.to_nat m - length p)%nat with 0%nat by lia|replace (Z.to_nat (m + 1) - length p)%nat with 1%nat by lia]; reflexivity. }
        assert (Lm: Z.of_nat (length (map fst pre)) = m /\ Z.of_nat (length (map snd pre)) = m) by (rewrite !map_length; auto).
        pose proof (In0 b Hb) as G0. pose proof (In1 b Hb) as G1. pose proof (Sh b m Hb ltac:(lia)) as S0. pose proof (Sh b (m + 1) Hb ltac:(lia)) as S1. rewrite <- G0 in S0. rewrite <- G1 in S1. rewrite Eb in S0, S1.
        rewrite (proj1 (Nth m _ _ _ _ _ _ (proj1 Lm)) eq_refl) in S0. rewrite (proj2 (Nth (m + 1) _ _ _ _ _ _ (proj1 Lm)) eq_refl) in S1.
        rewrite <- S0, <- S1. pose proof (proj2 (proj1 (in_shape_nth _ _) X) (Z.to_nat m) ltac:(lia)) as X0. pose proof (proj2 (proj1 (in_shape_nth _ _) X) (Z.to_nat (m + 1)) ltac:(lia)) as X1.
        rewrite (proj1 (Nth m _ _ _ _ _ _ (proj2 Lm)) eq_refl) in X0. rewrite (proj2 (Nth (m + 1) _ _ _ _ _ _ (proj2 Lm)) eq_refl) in X1. auto. }
      rewrite Z1. unfold MpsDot.telem. rewrite !map_app. cbn [map]. apply F5; [now rewrite map_length|now rewrite map_length|]. rewrite kmap_bad by auto. intros sqs k sh He Hr. pose proof (T1 _ _ _ _ He). lia.
  - intros pre s post Lp No. unfold MpsDot.telem. rewrite !map_app. cbn [map]. apply F5; [now rewrite map_length|now rewrite map_length|]. intros sqs k sh He Hr. pose proof (T1 _ _ _ _ He) as [? ?].
    destruct (kmap_surj (fst s) (snd s)) as (l & l' & O & E); [fold info; lia|]. apply (No l l' O). rewrite E. now destruct s.
  - intros ->. destruct r as [|c r]; [reflexivity|]. destruct (F3 c (or_introl eq_refl)) as (b & [] & _).
Qed.
End Pairs.
End MFuse.
