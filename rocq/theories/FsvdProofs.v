(** Lemmas on the decomposition of fermion tensors: layout of the sector matrices, their elements, the blocks of the factors. *)
From Coq Require Import ZArith Bool List Lia Permutation Ring.
From Verif Require Import SymModel SymProofs DictLib OptLib IndexLib RingLib OrdLib BondModel FuseModel FuseProofs BlockModel BlockProofs BlockProps
  StructModel StructProofs SignModel SignProofs SignProps TruncModel FermTModel FermTProofs FermNetProofs FermTProps MpsModel CanonModel CanonProofs FsvdModel.
Import ListNotations.
Open Scope Z_scope.

Lemma prodZ_pos : forall l, Forall (fun s => 0 < s) l -> 0 < prodZ l.
Proof. induction 1 as [|x l Hx _ IH]; cbn; [lia|]. unfold prodZ in *. cbn in *. nia. Qed.
Lemma combine_app' : forall A B (a1 a2 : list A) (b1 b2 : list B), length a1 = length b1 -> combine (a1 ++ a2) (b1 ++ b2) = combine a1 b1 ++ combine a2 b2.
Proof. induction a1 as [|x a1 IH]; intros a2 [|y b1] b2 H; cbn in *; try lia; [reflexivity|]. f_equal. apply IH. lia. Qed.
Lemma combine_map_l : forall A B C (f : A -> B) (l : list A) (m : list C), combine (map f l) m = map (fun e => (f (fst e), snd e)) (combine l m).
Proof. induction l as [|x l IH]; intros [|y m]; cbn; [reflexivity..|]. now rewrite IH. Qed.

Section Lay.
Variable L : Label.
Notation rmap := (dict (list L) (Z * Z * list Z)).
Notation teqb := (tup_eqb L).
Let tspec := tup_eqb_spec L.

Fixpoint layout (off : Z) (m : rmap) (len : Z) : Prop :=
  match m with
  | [] => off = len
  | (_, (st, ed, sh)) :: m' => st = off /\ ed = off + prodZ sh /\ layout ed m' len
  end.
Definition nonneg_shapes (m : rmap) : Prop := forall key st ed sh, In (key, (st, ed, sh)) m -> Forall (fun s => 0 <= s) sh.

Lemma layout_app : forall m off len key sh, layout off m len -> layout off (m ++ [(key, (len, len + prodZ sh, sh))]) (len + prodZ sh).
Proof.
  induction m as [|[k [[st ed] s]] m IH]; intros off len key sh H; cbn in *; [subst; auto|]. destruct H as (A & B & C). auto.
Qed.
Lemma layout_le : forall m off len, nonneg_shapes m -> layout off m len -> off <= len.
Proof.
  induction m as [|[k [[st ed] s]] m IH]; intros off len N H; cbn in *; [lia|]. destruct H as (A & B & C).
  assert (0 <= prodZ s) by (apply prodZ_nonneg; eapply N; now left). apply IH in C; [lia|]. intros k' st' ed' sh' Hk. eapply N. right; eauto.
Qed.
Lemma layout_entry : forall m off len key st ed sh, nonneg_shapes m -> layout off m len -> In (key, (st, ed, sh)) m ->
  off <= st /\ ed = st + prodZ sh /\ ed <= len.
Proof.
  induction m as [|[k [[st0 ed0] s]] m IH]; intros off len key st ed sh N H Hin; [destruct Hin|]. cbn in H. destruct H as (A & B & C).
  assert (N' : nonneg_shapes m) by (intros k' st' ed' sh' Hk; eapply N; right; eauto).
  assert (P0 : 0 <= prodZ s) by (apply prodZ_nonneg; eapply N; now left).
  destruct Hin as [Hin|Hin].
  - injection Hin as -> -> -> ->. apply layout_le in C; auto. lia.
  - destruct (IH _ _ _ _ _ _ N' C Hin) as (X & Y & Z'). lia.
Qed.
(* the spans of different entries do not meet *)
Lemma layout_disjoint : forall m off len key st ed sh key' st' ed' sh' i, nonneg_shapes m -> layout off m len ->
  In (key, (st, ed, sh)) m -> In (key', (st', ed', sh')) m -> st <= i < ed -> st' <= i < ed' -> key = key' /\ st = st' /\ sh = sh'.
Proof.
  induction m as [|[k [[st0 ed0] s]] m IH]; intros off len key st ed sh key' st' ed' sh' i N H H1 H2 I1 I2; [destruct H1|].
  cbn in H. destruct H as (A & B & C).
  assert (N' : nonneg_shapes m) by (intros k' s' e' h' Hk; eapply N; right; eauto).
  destruct H1 as [H1|H1], H2 as [H2|H2].
  - injection H1 as -> -> -> ->. injection H2 as -> -> -> ->. auto.
  - injection H1 as -> -> -> ->. destruct (layout_entry _ _ _ _ _ _ _ N' C H2) as (X & Y & Z'). lia.
  - injection H2 as -> -> -> ->. destruct (layout_entry _ _ _ _ _ _ _ N' C H1) as (X & Y & Z'). lia.
  - eapply IH; eauto.
Qed.
Lemma layout_sum : forall (R : CRing) m off len (f : Z -> R), nonneg_shapes m -> layout off m len ->
  bsum (map (fun x => off + x) (zrange (len - off))) f =
  bsum m (fun e => bsum (all_idx (snd (snd e))) (fun x => f (fst (fst (snd e)) + ravel (snd (snd e)) x))).
Proof.
  intros R. induction m as [|[k [[st ed] s]] m IH]; intros off len f N H; cbn in H.
  - subst. rewrite Z.sub_diag, zrange_0. reflexivity.
  - destruct H as (A & B & C). subst st.
    assert (N' : nonneg_shapes m) by (intros k' s' e' h' Hk; eapply N; right; eauto).
    assert (P0 : 0 <= prodZ s) by (apply prodZ_nonneg; eapply N; now left).
    pose proof (layout_le _ _ _ N' C) as Le.
    rewrite bsum_cons. cbn [fst snd]. rewrite <- (IH ed len f N' C).
    replace (len - off) with (prodZ s + (len - ed)) by lia. rewrite zrange_add by lia. rewrite map_app, bsum_app. f_equal.
    + rewrite <- all_idx_ravel by (eapply N; now left). rewrite map_map, bsum_map. reflexivity.
    + rewrite map_map, !bsum_map. apply bsum_ext. intros x _. f_equal. lia.
Qed.

(* one pass of lay_put *)
Definition lay_of (es : list (list L * list Z)) : rmap * Z := fold_left (lay_put L) es ([], 0).
Lemma lay_of_snoc : forall es e, lay_of (es ++ [e]) = lay_put L (lay_of es) e.
Proof. intros. unfold lay_of. now rewrite fold_left_app. Qed.
Lemma lay_of_spec : forall es, let m := fst (lay_of es) in
  layout 0 m (snd (lay_of es)) /\ NoDup (map fst m) /\ (forall key sh, In (key, sh) es -> In key (map fst m)) /\
  (forall key st ed sh, In (key, (st, ed, sh)) m -> In (key, sh) es).
Proof.
  cbv zeta. induction es as [|[key sh] es IH] using rev_ind.
  - cbn. repeat split; auto; try constructor; intros; contradiction.
  - rewrite lay_of_snoc. destruct (lay_of es) as [m len]. cbn [fst snd] in IH. destruct IH as (A & B & C & D). unfold lay_put. cbn [fst snd].
    destruct (dget teqb m key) as [v|] eqn:E.
    + cbn [fst snd]. split; [exact A|]. split; [exact B|]. split.
      * intros k s Hk. apply in_app_iff in Hk. destruct Hk as [Hk|[Hk|[]]]; [eapply C; eauto|]. injection Hk as -> ->. eapply (dget_some_key teqb tspec); eauto.
      * intros k st ed s Hk. apply in_app_iff. left. eapply D; eauto.
    + cbn [fst snd]. pose proof E as E'. apply (dget_none teqb tspec) in E'. rewrite (dset_fresh teqb tspec m) by exact E'.
      split; [now apply layout_app|]. split; [|split].
      * rewrite map_app. cbn [map fst]. apply nodup_app_intro'; [exact B|repeat constructor; auto|]. intros x Hx [<-|[]]. now apply E'.
      * intros k s Hk. rewrite map_app, in_app_iff. apply in_app_iff in Hk. destruct Hk as [Hk|[Hk|[]]]; [left; eapply C; eauto|]. injection Hk as -> ->. right. now left.
      * intros k st ed s Hk. apply in_app_iff. apply in_app_iff in Hk. destruct Hk as [Hk|[Hk|[]]]; [left; eapply D; eauto|]. injection Hk as -> _ _ ->. right. now left.
Qed.
End Lay.

Section Data.
Variable R : CRing.
Add Ring RRfs : (rth R).
Variable L : Label.
Notation rmap := (dict (list L) (Z * Z * list Z)).
Notation block := (list L * nd R)%type.
Notation tensor := (list (list L * nd R)).
Notation teqb := (tup_eqb L).
Let tspec := tup_eqb_spec L.
Variables (k : nat) (c : L).

Lemma span_in : forall (m : rmap) key st ed sh, NoDup (map fst m) -> In (key, (st, ed, sh)) m -> span L m key = (st, ed).
Proof. intros m key st ed sh N H. unfold span. now rewrite (in_dget teqb tspec m key (st, ed, sh)). Qed.
Lemma entry_unique : forall (m : rmap) key v v', NoDup (map fst m) -> In (key, v) m -> In (key, v') m -> v = v'.
Proof. intros m key v v' N H H'. apply (in_dget teqb tspec) in H, H'; auto. congruence. Qed.
Lemma ravel2 : forall a b x y, ravel [a; b] [x; y] = x * b + y.
Proof. intros. cbn. lia. Qed.

Definition good_block (rm cm : rmap) (b : block) : Prop :=
  (exists st ed, In (row_key R L k c b, (st, ed, firstn k (nshape (snd b)))) rm) /\
  (exists st ed, In (col_key R L k c b, (st, ed, skipn k (nshape (snd b)))) cm) /\
  length (nshape (snd b)) = length (fst b) /\ Forall (fun s => 0 <= s) (nshape (snd b)) /\ (k < length (fst b))%nat.
Lemma put_value : forall (rm cm : rmap) rl cl, layout L 0 rm rl -> layout L 0 cm cl -> NoDup (map fst rm) -> NoDup (map fst cm) -> nonneg_shapes L rm -> nonneg_shapes L cm ->
  forall bs, NoDup (map fst bs) -> (forall b, In b bs -> good_block rm cm b) ->
  let M := fold_left (put_block R L k c rm cm) bs (nd_zeros R [rl; cl]) in
  nshape M = [rl; cl] /\
  forall ql qr str edr shr stc edc shc xl xr, length ql = k -> In (ql ++ [c], (str, edr, shr)) rm -> In (c :: qr, (stc, edc, shc)) cm ->
    in_shape shr xl -> in_shape shc xr -> nval M [str + ravel shr xl; stc + ravel shc xr] = elem R L bs (ql ++ qr) (xl ++ xr).
Proof.
  intros rm cm rl cl Lr Lc Nr Nc Pr Pc. induction bs as [|b bs IH] using rev_ind; intros ND G; cbv zeta.
  - split; [reflexivity|]. intros. reflexivity.
  - rewrite map_app in ND. cbn [map] in ND. apply NoDup_remove in ND. rewrite app_nil_r in ND. destruct ND as [ND NI].
    destruct (IH ND) as [S V]; [intros b' Hb'; apply G; apply in_app_iff; now left|]. clear IH.
    rewrite fold_left_app. cbn [fold_left]. set (M := fold_left (put_block R L k c rm cm) bs (nd_zeros R [rl; cl])) in *.
    destruct (G b) as ((st & ed & Hr) & (st' & ed' & Hc) & Lb & Pb & Kb); [apply in_app_iff; right; now left|].
    unfold put_block. rewrite (span_in _ _ _ _ _ Nr Hr), (span_in _ _ _ _ _ Nc Hc). split; [exact S|].
    intros ql qr str edr shr stc edc shc xl xr Kq Er Ec Ir Ic. cbn [nval nd_set_at nshape nd_reshape].
    destruct (layout_entry L _ _ _ _ _ _ _ Pr Lr Hr) as (_ & Ee & _). destruct (layout_entry L _ _ _ _ _ _ _ Pc Lc Hc) as (_ & Ee' & _).
    destruct (layout_entry L _ _ _ _ _ _ _ Pr Lr Er) as (_ & Er' & _). destruct (layout_entry L _ _ _ _ _ _ _ Pc Lc Ec) as (_ & Ec' & _).
    pose proof (ravel_range _ _ Ir) as Rr. pose proof (ravel_range _ _ Ic) as Rc.
    rewrite elem_app, elem_cons. replace (elem R L [] (ql ++ qr) (xl ++ xr)) with (r0 R) by reflexivity.
    set (i := str + ravel shr xl) in *. set (j := stc + ravel shc xr) in *. unfold zminus. cbn [combine map fst snd].
    destruct (tspec (fst b) (ql ++ qr)) as [Eb|Eb].
    + assert (Fb : firstn k (fst b) = ql) by (rewrite Eb, firstn_app, Kq, Nat.sub_diag, firstn_O, app_nil_r, <- Kq; apply firstn_all).
      assert (Sb : skipn k (fst b) = qr) by (rewrite Eb, skipn_app, Kq, Nat.sub_diag, skipn_O, <- Kq, skipn_all; reflexivity).
      unfold row_key in Hr. unfold col_key in Hc. rewrite Fb in Hr. rewrite Sb in Hc.
      pose proof (entry_unique _ _ _ _ Nr Hr Er) as Q1. pose proof (entry_unique _ _ _ _ Nc Hc Ec) as Q2. injection Q1 as Q1a Q1b Q1c. injection Q2 as Q2a Q2b Q2c.
      assert (Sh : nshape (snd b) = shr ++ shc) by (rewrite <- Q1c, <- Q2c; symmetry; apply firstn_skipn).
      replace (i - st) with (ravel shr xl) by (unfold i; lia). replace (j - st') with (ravel shc xr) by (unfold j; lia).
      assert (In2 : in_shapeb [ed - st; ed' - st'] [ravel shr xl; ravel shc xr] = true).
      { apply in_shapeb_spec. apply in_shape2. rewrite Ee, Ee', Q1c, Q2c. lia. }
      rewrite In2, ravel2, Ee', Q2c. replace (st' + prodZ shc - st') with (prodZ shc) by lia. rewrite <- ravel_app by exact Ir.
      rewrite Sh, unravel_ravel by (now apply in_shape_app). rewrite elem_absent by (rewrite <- Eb; exact NI).
      rewrite nget_in by (rewrite Sh; now apply in_shape_app). ring.
    + replace (in_shapeb [ed - st; ed' - st'] [i - st; j - st']) with false.
      * unfold i, j. rewrite (V ql qr str edr shr stc edc shc xl xr Kq Er Ec Ir Ic). ring.
      * symmetry. apply not_true_iff_false. intros H. apply in_shapeb_spec, in_shape2 in H.
        destruct (layout_disjoint L _ _ _ _ _ _ _ _ _ _ _ i Pr Lr Hr Er) as (K1 & _); [lia|unfold i; lia|].
        destruct (layout_disjoint L _ _ _ _ _ _ _ _ _ _ _ j Pc Lc Hc Ec) as (K2 & _); [lia|unfold j; lia|].
        apply Eb. unfold row_key in K1. unfold col_key in K2. apply app_inj_tail in K1. destruct K1 as [K1 _]. injection K2 as K2. rewrite <- K1, <- K2. symmetry. apply firstn_skipn.
Qed.
End Data.

Section Sec.
Variable R : CRing.
Add Ring RRsec : (rth R).
Variable L : Label.
Notation rmap := (dict (list L) (Z * Z * list Z)).
Notation block := (list L * nd R)%type.
Notation tensor := (list (list L * nd R)).
Notation sector := (sector R L).
Notation teqb := (tup_eqb L).
Let tspec := tup_eqb_spec L.
Variables (p : pattern) (k : nat) (dql : L) (t : tensor) (n : Z) (dm : Z -> L -> Z).
Hypothesis W : wf_tensor R L n dm t.
Hypothesis ND : NoDup (map fst t).
Hypothesis Kn : Z.of_nat k < n.
Hypothesis Pos : forall b, In b t -> Forall (fun s => 0 < s) (nshape (snd b)).
Notation lbl := (left_label L p k dql).

Lemma lbl_firstn : forall qs qs', firstn k qs = firstn k qs' -> lbl qs = lbl qs'.
Proof. intros qs qs' H. unfold left_label. now rewrite H. Qed.
Lemma data_map_snoc : forall l b, data_map R L p k dql (l ++ [b]) =
  dset (qeqb L) (data_map R L p k dql l) (lbl (fst b)) (odflt [] (dget (qeqb L) (data_map R L p k dql l) (lbl (fst b))) ++ [b]).
Proof. intros. unfold data_map. rewrite fold_left_app. reflexivity. Qed.
Definition members (c : L) (l : tensor) : tensor := filter (fun b => qeqb L (lbl (fst b)) c) l.
Lemma data_map_spec : forall l, NoDup (map fst (data_map R L p k dql l)) /\
  forall c, dget (qeqb L) (data_map R L p k dql l) c = match members c l with [] => None | bs => Some bs end.
Proof.
  induction l as [|b l [N G]] using rev_ind; [split; [constructor|reflexivity]|]. rewrite data_map_snoc. split; [now apply (nodup_dset (qeqb L) (qeqb_spec L))|].
  intros c. rewrite (dget_dset (qeqb L) (qeqb_spec L)). unfold members. rewrite filter_app. cbn [filter]. fold (members c l). rewrite !G.
  destruct (qeqb_spec L (lbl (fst b)) c) as [<-|Ne].
  - destruct (members (lbl (fst b)) l); reflexivity.
  - rewrite app_nil_r. reflexivity.
Qed.
Lemma data_map_in : forall c bs, In (c, bs) (data_map R L p k dql t) -> bs = members c t /\ bs <> [].
Proof.
  intros c bs H. destruct (data_map_spec t) as [N G]. apply (in_dget (qeqb L) (qeqb_spec L)) in H; auto. rewrite G in H.
  destruct (members c t) as [|b l]; [discriminate|]. injection H as <-. split; [auto|discriminate].
Qed.
Lemma data_map_has : forall b, In b t -> In (lbl (fst b), members (lbl (fst b)) t) (data_map R L p k dql t).
Proof.
  intros b H. destruct (data_map_spec t) as [N G]. apply (dget_in (qeqb L) (qeqb_spec L)). rewrite G.
  assert (I : In b (members (lbl (fst b)) t)). { apply filter_In. split; [auto|]. destruct (qeqb_spec L (lbl (fst b)) (lbl (fst b))); auto. }
  destruct (members (lbl (fst b)) t); [destruct I|reflexivity].
Qed.

Definition rshape (ql : list L) : list Z := shape_of L dm (zrange (Z.of_nat k)) ql.
Definition cshape (qr : list L) : list Z := shape_of L dm (map (fun i => Z.of_nat k + i) (zrange (n - Z.of_nat k))) qr.
Lemma shape_split : forall qs, Z.of_nat (length qs) = n -> shape_of L dm (zrange n) qs = rshape (firstn k qs) ++ cshape (skipn k qs).
Proof.
  intros qs H. unfold rshape, cshape, shape_of. rewrite <- map_app. f_equal. replace n with (Z.of_nat k + (n - Z.of_nat k)) at 1 by lia.
  rewrite zrange_add by lia. rewrite <- (firstn_skipn k qs) at 1. apply combine_app'. rewrite zrange_length, firstn_length. lia.
Qed.
Lemma rshape_length : forall ql, length ql = k -> length (rshape ql) = k.
Proof. intros ql H. unfold rshape, shape_of. rewrite map_length, combine_length, zrange_length. lia. Qed.
Lemma cshape_length : forall qr, Z.of_nat (length qr) = n - Z.of_nat k -> Z.of_nat (length (cshape qr)) = n - Z.of_nat k.
Proof. intros ql H. unfold cshape, shape_of. rewrite map_length, combine_length, map_length, zrange_length. lia. Qed.
Lemma block_shapes : forall b, In b t -> length (fst b) = Z.to_nat n /\ nshape (snd b) = rshape (firstn k (fst b)) ++ cshape (skipn k (fst b)) /\
  firstn k (nshape (snd b)) = rshape (firstn k (fst b)) /\ skipn k (nshape (snd b)) = cshape (skipn k (fst b)) /\ length (firstn k (fst b)) = k.
Proof.
  intros b H. destruct (W b H) as [A B]. rewrite shape_split in B by exact A. split; [lia|]. split; [exact B|].
  assert (Lf : length (firstn k (fst b)) = k) by (rewrite firstn_length; lia). pose proof (rshape_length _ Lf) as Lr.
  rewrite B. split; [|split; [|exact Lf]].
  - rewrite firstn_app, Lr, Nat.sub_diag, firstn_O, app_nil_r. apply firstn_all2. lia.
  - rewrite skipn_app, Lr, Nat.sub_diag, skipn_O. rewrite skipn_all2 by lia. reflexivity.
Qed.
Lemma block_pos : forall b, In b t -> Forall (fun s => 0 < s) (rshape (firstn k (fst b))) /\ Forall (fun s => 0 < s) (cshape (skipn k (fst b))).
Proof. intros b H. destruct (block_shapes b H) as (_ & E & _). pose proof (Pos b H) as P. rewrite E in P. now apply Forall_app in P. Qed.

Definition sec_r (s : sector) : Z := nth 0 (nshape (sc_data s)) 0.
Definition sec_c (s : sector) : Z := nth 1 (nshape (sc_data s)) 0.
Record sec_ok (s : sector) : Prop := SecOk {
  ok_lr : layout L 0 (sc_rows s) (sec_r s); ok_lc : layout L 0 (sc_cols s) (sec_c s);
  ok_nr : NoDup (map fst (sc_rows s)); ok_nc : NoDup (map fst (sc_cols s));
  ok_sh : nshape (sc_data s) = [sec_r s; sec_c s];
  ok_row : forall key st ed sh, In (key, (st, ed, sh)) (sc_rows s) ->
    exists b, In b t /\ lbl (fst b) = sc_q s /\ key = firstn k (fst b) ++ [sc_q s] /\ sh = rshape (firstn k (fst b));
  ok_col : forall key st ed sh, In (key, (st, ed, sh)) (sc_cols s) ->
    exists b, In b t /\ lbl (fst b) = sc_q s /\ key = sc_q s :: skipn k (fst b) /\ sh = cshape (skipn k (fst b));
  ok_has : forall b, In b t -> lbl (fst b) = sc_q s ->
    In (firstn k (fst b) ++ [sc_q s]) (map fst (sc_rows s)) /\ In (sc_q s :: skipn k (fst b)) (map fst (sc_cols s));
  ok_some : exists b, In b t /\ lbl (fst b) = sc_q s;
  ok_data : forall ql qr str edr shr stc edc shc xl xr, length ql = k ->
    In (ql ++ [sc_q s], (str, edr, shr)) (sc_rows s) -> In (sc_q s :: qr, (stc, edc, shc)) (sc_cols s) ->
    in_shape shr xl -> in_shape shc xr -> nval (sc_data s) [str + ravel shr xl; stc + ravel shc xr] = elem R L t (ql ++ qr) (xl ++ xr)
}.
Lemma sector_sec_ok : forall c bs, In (c, bs) (data_map R L p k dql t) -> sec_ok (sector_of R L k c bs) /\ sc_q (sector_of R L k c bs) = c.
Proof.
  intros c bs H. apply data_map_in in H. destruct H as [Eb Nb].
  assert (Hb : forall b, In b bs <-> In b t /\ lbl (fst b) = c).
  { intros b. subst bs. unfold members. rewrite filter_In. destruct (qeqb_spec L (lbl (fst b)) c); intuition discriminate. }
  unfold sector_of. set (res := map (fun b => (row_key R L k c b, firstn k (nshape (snd b)))) bs). set (ces := map (fun b => (col_key R L k c b, skipn k (nshape (snd b)))) bs).
  change (row_map R L k c bs) with (lay_of L res). change (col_map R L k c bs) with (lay_of L ces).
  pose proof (lay_of_spec L res) as SR. pose proof (lay_of_spec L ces) as SC. cbv zeta in SR, SC.
  destruct (lay_of L res) as [rm rl], (lay_of L ces) as [cm cl]. cbn [fst snd] in SR, SC.
  destruct SR as (Lr & Nr & Hr & Or), SC as (Lc & Nc & Hc & Oc). split; [|reflexivity].
  assert (Rows : forall key st ed sh, In (key, (st, ed, sh)) rm -> exists b, In b t /\ lbl (fst b) = c /\ key = firstn k (fst b) ++ [c] /\ sh = rshape (firstn k (fst b))).
  { intros key st ed sh I. apply Or in I. apply in_map_iff in I. destruct I as (b & E & I). injection E as <- <-. apply Hb in I. destruct I as [I1 I2]. exists b. repeat split; auto. now apply block_shapes. }
  assert (Cols : forall key st ed sh, In (key, (st, ed, sh)) cm -> exists b, In b t /\ lbl (fst b) = c /\ key = c :: skipn k (fst b) /\ sh = cshape (skipn k (fst b))).
  { intros key st ed sh I. apply Oc in I. apply in_map_iff in I. destruct I as (b & E & I). injection E as <- <-. apply Hb in I. destruct I as [I1 I2]. exists b. repeat split; auto. now apply block_shapes. }
  assert (Wk : forall l : list Z, Forall (fun s => 0 < s) l -> Forall (fun s => 0 <= s) l) by (intros l; apply Forall_impl; intros; lia).
  assert (Pr : nonneg_shapes L rm). { intros key st ed sh I. apply Rows in I. destruct I as (b & I & _ & _ & ->). apply Wk. now apply block_pos. }
  assert (Pc : nonneg_shapes L cm). { intros key st ed sh I. apply Cols in I. destruct I as (b & I & _ & _ & ->). apply Wk. now apply block_pos. }
  assert (Has : forall b, In b t -> lbl (fst b) = c -> In (firstn k (fst b) ++ [c]) (map fst rm) /\ In (c :: skipn k (fst b)) (map fst cm)).
  { intros b I1 I2. assert (I : In b bs) by (apply Hb; auto). split.
    - apply (Hr (row_key R L k c b) (firstn k (nshape (snd b)))). apply in_map_iff. exists b. auto.
    - apply (Hc (col_key R L k c b) (skipn k (nshape (snd b)))). apply in_map_iff. exists b. auto. }
  assert (NDb : NoDup (map fst bs)).
  { subst bs. unfold members. clear -ND. induction t as [|b l IH]; [constructor|]. cbn in ND. inversion ND; subst. cbn [filter]. destruct (qeqb L (lbl (fst b)) c); [|now apply IH].
    cbn [map]. constructor; [|now apply IH]. intros I. apply H1. apply in_map_iff in I. destruct I as (x & E & I). apply filter_In in I. rewrite <- E. apply in_map. tauto. }
  assert (Good : forall b, In b bs -> good_block R L k c rm cm b).
  { intros b I. apply Hb in I. destruct I as [I1 I2]. destruct (Has b I1 I2) as [A B]. destruct (block_shapes b I1) as (Lb & Sb & Fb & Kb & Lf). unfold good_block. rewrite Fb, Kb.
    apply in_map_iff in A, B. destruct A as ([k1 [[s1 e1] h1]] & A1 & A2), B as ([k2 [[s2 e2] h2]] & B1 & B2). cbn [fst] in A1, B1. subst k1 k2. split; [|split; [|split; [|split]]].
    - exists s1, e1. unfold row_key. destruct (Rows _ _ _ _ A2) as (b' & _ & _ & E & ->). apply app_inj_tail in E. destruct E as [E _]. rewrite <- E in A2. exact A2.
    - exists s2, e2. unfold col_key. destruct (Cols _ _ _ _ B2) as (b' & _ & _ & E & ->). injection E as E. rewrite <- E in B2. exact B2.
    - destruct (W b I1) as [X Y]. rewrite Y. rewrite shape_of_length, zrange_length. lia.
    - apply Wk, Pos, I1.
    - lia. }
  destruct (put_value R L k c rm cm rl cl Lr Lc Nr Nc Pr Pc bs NDb Good) as [Sd Vd]. cbv zeta in Sd, Vd.
  set (M := fold_left (put_block R L k c rm cm) bs (nd_zeros R [rl; cl])) in *.
  apply SecOk; unfold sec_r, sec_c; cbn [sc_q sc_rows sc_cols sc_data]; rewrite ?Sd; cbn [nth]; auto.
  - destruct bs as [|b0 bs']; [congruence|]. exists b0. apply Hb. now left.
  - intros ql qr str edr shr stc edc shc xl xr Kq Er Ec Ir Ic. rewrite (Vd ql qr str edr shr stc edc shc xl xr Kq Er Ec Ir Ic).
    (* blocks outside the group have other labels *)
    destruct (Rows _ _ _ _ Er) as (b0 & B1 & B2 & B3 & _). apply app_inj_tail in B3. destruct B3 as [B3 _].
    rewrite Eb. unfold members, elem. rewrite bsum_filter. apply bsum_ext. intros b Hbt. destruct (qeqb_spec L (lbl (fst b)) c) as [E|E]; [reflexivity|].
    destruct (tspec (fst b) (ql ++ qr)) as [E'|]; [|reflexivity]. exfalso. apply E. rewrite <- B2. apply lbl_firstn. rewrite E', <- B3.
    rewrite firstn_app, Kq, Nat.sub_diag, firstn_O, app_nil_r. apply firstn_all2. lia.
Qed.

Lemma ok_nnr : forall s, sec_ok s -> nonneg_shapes L (sc_rows s).
Proof.
  intros s H key st ed sh I. destruct (ok_row s H _ _ _ _ I) as (b & B1 & _ & _ & ->). apply Forall_impl with (P := fun s => 0 < s); [intros; lia|]. now apply block_pos.
Qed.
Lemma ok_nnc : forall s, sec_ok s -> nonneg_shapes L (sc_cols s).
Proof.
  intros s H key st ed sh I. destruct (ok_col s H _ _ _ _ I) as (b & B1 & _ & _ & ->). apply Forall_impl with (P := fun s => 0 < s); [intros; lia|]. now apply block_pos.
Qed.
Lemma ok_pos : forall s, sec_ok s -> 0 < sec_r s /\ 0 < sec_c s.
Proof.
  intros s H. destruct (ok_some s H) as (b & B1 & B2). destruct (ok_has s H b B1 B2) as [A B].
  apply in_map_iff in A, B. destruct A as ([k1 [[s1 e1] h1]] & A1 & A2), B as ([k2 [[s2 e2] h2]] & B3 & B4).
  destruct (layout_entry L _ _ _ _ _ _ _ (ok_nnr s H) (ok_lr s H) A2) as (X1 & X2 & X3). destruct (layout_entry L _ _ _ _ _ _ _ (ok_nnc s H) (ok_lc s H) B4) as (Y1 & Y2 & Y3).
  destruct (ok_row s H _ _ _ _ A2) as (b1 & C1 & _ & _ & C4). destruct (ok_col s H _ _ _ _ B4) as (b2 & D1 & _ & _ & D4). subst h1 h2.
  pose proof (prodZ_pos _ (proj1 (block_pos b1 C1))). pose proof (prodZ_pos _ (proj2 (block_pos b2 D1))). lia.
Qed.
Notation secs := (sectors R L p k dql t).
Lemma secs_all : secs = map (fun e => sector_of R L k (fst e) (snd e)) (data_map R L p k dql t).
Proof.
  unfold sectors. apply filter_all. intros s Hs. apply in_map_iff in Hs. destruct Hs as ([c bs] & <- & Hs). cbn [fst snd].
  destruct (sector_sec_ok c bs Hs) as [O _]. destruct (ok_pos _ O) as [X Y]. rewrite (ok_sh _ O). apply negb_true_iff, Z.eqb_neq. unfold prodZ. cbn. nia.
Qed.
Lemma secs_ok : forall s, In s secs -> sec_ok s.
Proof. intros s H. rewrite secs_all in H. apply in_map_iff in H. destruct H as ([c bs] & <- & H). now apply sector_sec_ok. Qed.
Lemma secs_q : map sc_q secs = map fst (data_map R L p k dql t).
Proof. rewrite secs_all, map_map. apply map_ext_in. intros [c bs] H. now apply sector_sec_ok. Qed.
Lemma secs_nodup : NoDup (map sc_q secs).
Proof. rewrite secs_q. apply data_map_spec. Qed.
Lemma secs_has : forall b, In b t -> exists s, In s secs /\ sc_q s = lbl (fst b).
Proof.
  intros b H. apply data_map_has in H. apply (in_map fst) in H. cbn in H. rewrite <- secs_q in H. apply in_map_iff in H. destruct H as (s & E & H). eauto.
Qed.

(** ** positions in the matrix of a sector *)
Definition pos_in (m : rmap) (key : list L) (x : list Z) : option Z :=
  match dget teqb m key with Some (st, _, sh) => if in_shapeb sh x then Some (st + ravel sh x) else None | None => None end.
Definition rpos (s : sector) ql xl := pos_in (sc_rows s) (ql ++ [sc_q s]) xl.
Definition cpos (s : sector) qr xr := pos_in (sc_cols s) (sc_q s :: qr) xr.
Lemma pos_in_some : forall m key x i, pos_in m key x = Some i -> exists st ed sh, In (key, (st, ed, sh)) m /\ in_shape sh x /\ i = st + ravel sh x.
Proof.
  intros m key x i H. unfold pos_in in H. destruct (dget teqb m key) as [[[st ed] sh]|] eqn:E; [|discriminate]. apply (dget_in teqb tspec) in E.
  destruct (in_shapeb sh x) eqn:I; [|discriminate]. injection H as <-. apply in_shapeb_spec in I. eauto 6.
Qed.
Lemma pos_in_at : forall m key x st ed sh, NoDup (map fst m) -> In (key, (st, ed, sh)) m -> in_shape sh x -> pos_in m key x = Some (st + ravel sh x).
Proof. intros m key x st ed sh N I S. unfold pos_in. rewrite (in_dget teqb tspec m key (st, ed, sh) N I). apply in_shapeb_spec in S. now rewrite S. Qed.
Lemma pos_in_out : forall m key x st ed sh, NoDup (map fst m) -> In (key, (st, ed, sh)) m -> ~ in_shape sh x -> pos_in m key x = None.
Proof. intros m key x st ed sh N I S. unfold pos_in. rewrite (in_dget teqb tspec m key (st, ed, sh) N I). destruct (in_shapeb sh x) eqn:E; [|reflexivity]. apply in_shapeb_spec in E. contradiction. Qed.
Lemma rpos_range : forall s ql xl i, sec_ok s -> rpos s ql xl = Some i -> 0 <= i < sec_r s.
Proof.
  intros s ql xl i O H. apply pos_in_some in H. destruct H as (st & ed & sh & A & B & ->). destruct (layout_entry L _ _ _ _ _ _ _ (ok_nnr s O) (ok_lr s O) A) as (X & Y & Z').
  apply ravel_range in B. lia.
Qed.
Lemma cpos_range : forall s qr xr i, sec_ok s -> cpos s qr xr = Some i -> 0 <= i < sec_c s.
Proof.
  intros s ql xl i O H. apply pos_in_some in H. destruct H as (st & ed & sh & A & B & ->). destruct (layout_entry L _ _ _ _ _ _ _ (ok_nnc s O) (ok_lc s O) A) as (X & Y & Z').
  apply ravel_range in B. lia.
Qed.
(* the label of the sector follows from the labels on the left *)
Lemma rpos_label : forall s ql xl i, sec_ok s -> rpos s ql xl = Some i -> sc_q s = lbl ql.
Proof.
  intros s ql xl i O H. apply pos_in_some in H. destruct H as (st & ed & sh & A & _ & _). destruct (ok_row s O _ _ _ _ A) as (b & B1 & B2 & B3 & _).
  apply app_inj_tail in B3. destruct B3 as [-> _]. rewrite <- B2. apply lbl_firstn. rewrite firstn_firstn. now rewrite Nat.min_id.
Qed.
Definition at_pos (o1 o2 : option Z) (f : Z -> Z -> R) : R := match o1, o2 with Some i, Some j => f i j | _, _ => r0 R end.
(* at most one sector has the positions *)
Lemma one_sector : forall (l : list sector) ql qr xl xr (f : sector -> Z -> Z -> R) s i, (forall s, In s l -> sec_ok s) -> NoDup (map sc_q l) ->
  In s l -> rpos s ql xl = Some i -> bsum l (fun s => at_pos (rpos s ql xl) (cpos s qr xr) (f s)) = at_pos (Some i) (cpos s qr xr) (f s).
Proof.
  intros l ql qr xl xr f s i O N I E. rewrite <- E. rewrite (bsum_single R _ l (fun s => at_pos (rpos s ql xl) (cpos s qr xr) (f s)) s); auto.
  - now apply NoDup_map_inv in N.
  - intros s' I' Ne. destruct (rpos s' ql xl) as [i'|] eqn:E'; [|reflexivity]. exfalso. apply Ne.
    apply rpos_label in E, E'; auto. clear -N I I' E E'. revert N I I'. induction l as [|x l IH]; intros N I I'; [destruct I|]. cbn in N. inversion N; subst.
    destruct I as [->|I], I' as [->|I']; auto.
    + exfalso. apply H1. rewrite E, <- E'. now apply in_map.
    + exfalso. apply H1. rewrite E', <- E. now apply in_map.
Qed.
Lemma tensor_value : forall ql qr xl xr, length ql = k -> length xl = k ->
  elem R L t (ql ++ qr) (xl ++ xr) = bsum secs (fun s => at_pos (rpos s ql xl) (cpos s qr xr) (fun i j => nval (sc_data s) [i; j])).
Proof.
  intros ql qr xl xr Kq Kx.
  destruct (in_dec (fun a b => ltac:(destruct (tspec a b); [left|right]; assumption)) (ql ++ qr) (map fst t)) as [I|I].
  - apply in_map_iff in I. destruct I as (b & Eb & I). destruct (secs_has b I) as (s & Is & Es). pose proof (secs_ok s Is) as O.
    assert (Fb : firstn k (fst b) = ql) by (rewrite Eb, firstn_app, Kq, Nat.sub_diag, firstn_O, app_nil_r, <- Kq; apply firstn_all).
    assert (Sb : skipn k (fst b) = qr) by (rewrite Eb, skipn_app, Kq, Nat.sub_diag, skipn_O, <- Kq, skipn_all; reflexivity).
    destruct (ok_has s O b I (eq_sym Es)) as [A B]. rewrite Fb in A. rewrite Sb in B.
    apply in_map_iff in A, B. destruct A as ([k1 [[s1 e1] h1]] & A1 & A2), B as ([k2 [[s2 e2] h2]] & B3 & B4). cbn [fst] in A1, B3. subst k1 k2.
    destruct (ok_row s O _ _ _ _ A2) as (b1 & C1 & _ & C3 & C4). apply app_inj_tail in C3. destruct C3 as [C3 _]. destruct (ok_col s O _ _ _ _ B4) as (b2 & D1 & _ & D3 & D4). injection D3 as D3.
    destruct (block_shapes b I) as (_ & Sh & _ & _ & _). rewrite Fb, Sb, C3, D3, <- C4, <- D4 in Sh.
    assert (Lh : length xl = length h1). { rewrite C4, rshape_length; [exact Kx|]. rewrite <- C3. exact Kq. }
    assert (Out : ~ in_shape h1 xl \/ ~ in_shape h2 xr -> elem R L t (ql ++ qr) (xl ++ xr) = r0 R).
    { intros H. rewrite <- Eb. rewrite (elem_in R L t b) by auto. apply nget_out. rewrite Sh, in_shape_app_split by exact Lh. tauto. }
    destruct (in_shapeb h1 xl) eqn:E1.
    + apply in_shapeb_spec in E1. rewrite (one_sector secs ql qr xl xr (fun s i j => nval (sc_data s) [i; j]) s (s1 + ravel h1 xl) secs_ok secs_nodup Is)
        by (apply (pos_in_at _ _ _ _ _ _ (ok_nr s O) A2 E1)).
      destruct (in_shapeb h2 xr) eqn:E2.
      * apply in_shapeb_spec in E2. unfold cpos. rewrite (pos_in_at _ _ _ _ _ _ (ok_nc s O) B4 E2). cbn [at_pos]. symmetry. apply (ok_data s O ql qr s1 e1 h1 s2 e2 h2 xl xr); auto.
      * assert (E2' : ~ in_shape h2 xr) by (intros X; apply in_shapeb_spec in X; congruence). unfold cpos. rewrite (pos_in_out _ _ _ _ _ _ (ok_nc s O) B4 E2'). cbn [at_pos]. apply Out. now right.
    + assert (E1' : ~ in_shape h1 xl) by (intros X; apply in_shapeb_spec in X; congruence). rewrite Out by (now left). symmetry. apply bsum_zero. intros s' I'.
      destruct (rpos s' ql xl) as [i'|] eqn:E'; [|reflexivity]. exfalso. pose proof (rpos_label _ _ _ _ (secs_ok s' I') E') as Q.
      apply pos_in_some in E'. destruct E' as (st & ed & sh & X1 & X2 & _). destruct (ok_row s' (secs_ok s' I') _ _ _ _ X1) as (b3 & _ & _ & X3 & X4).
      apply app_inj_tail in X3. destruct X3 as [X3 _]. rewrite X4, <- X3 in X2. rewrite C4, <- C3 in E1'. contradiction.
  - rewrite (elem_absent R L t) by exact I. symmetry. apply bsum_zero. intros s Is. pose proof (secs_ok s Is) as O.
    destruct (rpos s ql xl) as [i|] eqn:E1; [|reflexivity]. destruct (cpos s qr xr) as [j|] eqn:E2; [|reflexivity]. cbn [at_pos].
    apply pos_in_some in E1, E2. destruct E1 as (s1 & e1 & h1 & A1 & A2 & ->), E2 as (s2 & e2 & h2 & B1 & B2 & ->).
    rewrite (ok_data s O ql qr s1 e1 h1 s2 e2 h2 xl xr) by auto. now apply elem_absent.
Qed.
End Sec.

(** ** contraction of the last leg of one tensor with the first of the next: no sign *)
Section LF.
Variable R : CRing.
Add Ring RRlf : (rth R).
Variable L : Label.
Variable fermion : bool.
Variables (a b : ftensor R L) (na nb : Z) (dma dmb : Z -> L -> Z).
Hypothesis Wa : wf_tensor R L na dma (fst a).
Hypothesis Wb : wf_tensor R L nb dmb (fst b).
Hypothesis Na : fst a <> [].
Hypothesis Nb : fst b <> [].
Hypothesis La : Z.of_nat (length (snd a)) = na.
Hypothesis Lb : Z.of_nat (length (snd b)) = nb.
Hypothesis Pa : 1 <= na.
Hypothesis Pb : 1 <= nb.
Hypothesis Dab : forall q, dma (na - 1) q = dmb 0 q.
Hypothesis Sab : sign_of (snd a) (na - 1) <> sign_of (snd b) 0.
Definition dm_lf (i : Z) (q : L) : Z := if i <? na - 1 then dma i q else dmb (i - (na - 1) + 1) q.

Let ia : map (leg na) [-1] = map (fun i => na - 1 + i) (zrange 1).
Proof. change (zrange 1) with [0]. cbn [map]. f_equal. unfold leg. destruct (Z.ltb_spec (-1) 0); lia. Qed.
Let ib : map (leg nb) [0] = zrange 1. Proof. reflexivity. Qed.
Let oa : others na (map (fun i => na - 1 + i) (zrange 1)) = zrange (na - 1).
Proof. apply others_last. lia. Qed.
Let ob : others nb (zrange 1) = map (fun i => 1 + i) (zrange (nb - 1)).
Proof. apply others_first. lia. Qed.
Lemma last_first_defined : exists r, ft_tensordot R L fermion a b [-1] [0] = Some r.
Proof.
  destruct (ft_tensordot R L fermion a b [-1] [0]) as [r|] eqn:E; [now exists r|]. exfalso.
  apply (c42_refused R L fermion a b na nb dma dmb [-1] [0] Wa Wb Na Nb) in E. destruct E as [E|(i & j & I & E)]; [now apply E|].
  rewrite ia, ib in I. cbn in I. destruct I as [I|[]]. injection I as <- <-. apply Sab. replace (na - 1 + 0) with (na - 1) in E by lia. exact E.
Qed.
Variable r : ftensor R L.
Hypothesis E : ft_tensordot R L fermion a b [-1] [0] = Some r.
Let N1 : NoDup (map (leg na) [-1]). Proof. repeat constructor. intros []. Qed.
Let N2 : NoDup (map (leg nb) [0]). Proof. repeat constructor. intros []. Qed.
Let I1 : forall i, In i (map (leg na) [-1]) -> 0 <= i < na. Proof. intros i [<-|[]]. unfold leg. cbn [Z.ltb Z.compare]. lia. Qed.
Let I2 : forall i, In i (map (leg nb) [0]) -> 0 <= i < nb. Proof. intros i [<-|[]]. unfold leg. cbn [Z.ltb Z.compare]. lia. Qed.
Let D1 : forall i j q, In (i, j) (combine (map (leg na) [-1]) (map (leg nb) [0])) -> dma i q = dmb j q.
Proof. intros i j q H. rewrite ia, ib in H. cbn in H. destruct H as [H|[]]. injection H as <- <-. replace (na - 1 + 0) with (na - 1) by lia. apply Dab. Qed.
Lemma last_first_nodup : NoDup (map fst (fst r)).
Proof. exact (con_nodup R L fermion a b na nb dma dmb [-1] [0] r Wa Wb E). Qed.
Lemma last_first_wf : wf_tensor R L (na - 1 + (nb - 1)) dm_lf (fst r).
Proof.
  pose proof (con_wf R L fermion a b na nb dma dmb [-1] [0] r Wa Wb I1 I2 D1 E) as W. rewrite (con_res R L fermion a b na nb dma dmb [-1] [0] r Wa Wb E).
  rewrite ia, ib, oa, ob in *. rewrite map_length, !zrange_length in W.
  replace (Z.of_nat (Z.to_nat (na - 1)) + Z.of_nat (Z.to_nat (nb - 1))) with (na - 1 + (nb - 1)) in W by lia.
  apply (acc_wf R L nd_add); [|now auto|intros x []|]; [reflexivity|]. eapply wf_ext; [|exact W]. intros i q Hi. unfold dm_out, dm_lf. rewrite oa, ob, zrange_length.
  replace (Z.of_nat (Z.to_nat (na - 1))) with (na - 1) by lia. destruct (Z.ltb_spec i (na - 1)).
  - f_equal. rewrite <- (map_id (zrange (na - 1))). rewrite nth_zrange_map by lia. reflexivity.
  - f_equal. rewrite nth_zrange_map by lia. lia.
Qed.
Lemma last_first_pattern : snd r = removelast (snd a) ++ tl (snd b).
Proof.
  rewrite (c42_pattern R L fermion a b r na nb dma dmb [-1] [0] Wa Wb Na Nb La Lb E). change @FermTProps.kept with others. f_equal.
  - rewrite ia, oa. destruct (@exists_last _ (snd a)) as (l & s0 & El); [intros X; rewrite X in La; cbn in La; lia|]. rewrite El, removelast_last. rewrite El, app_length in La. cbn in La.
    replace (na - 1) with (Z.of_nat (length l)) by lia. apply nth_ext with (d := false) (d' := false); [now rewrite map_length, zrange_length, Nat2Z.id|].
    intros i Hi. rewrite map_length, zrange_length, Nat2Z.id in Hi. rewrite <- (Nat2Z.id i) at 1. rewrite nth_zrange_map by lia. unfold sign_of. rewrite Nat2Z.id. now apply app_nth1.
  - rewrite ib, ob, map_map. destruct (snd b) as [|s0 l] eqn:El; [cbn in Lb; lia|]. cbn [tl length] in *. apply nth_ext with (d := false) (d' := false); [rewrite map_length, zrange_length; lia|].
    intros i Hi. rewrite map_length, zrange_length in Hi. rewrite <- (Nat2Z.id i) at 1. rewrite nth_zrange_map by lia. unfold sign_of. replace (Z.to_nat (1 + Z.of_nat i)) with (S i) by lia. reflexivity.
Qed.
Lemma last_first_elem : forall Ls, NoDup Ls -> (forall ba, In ba (fst a) -> exists q, fst ba = removelast (fst ba) ++ [q] /\ In q Ls) ->
  forall qa qb xa xb, Z.of_nat (length qa) = na - 1 -> Z.of_nat (length qb) = nb - 1 -> Z.of_nat (length xa) = na - 1 -> Z.of_nat (length xb) = nb - 1 ->
  elem R L (fst r) (qa ++ qb) (xa ++ xb) =
  bsum Ls (fun c => bsum (zrange (dma (na - 1) c)) (fun x => rmul R (elem R L (fst a) (qa ++ [c]) (xa ++ [x])) (elem R L (fst b) (c :: qb) (x :: xb)))).
Proof.
  intros Ls NL CL qa qb xa xb H1 H2 H3 H4.
  rewrite (con_elem R L fermion a b na nb dma dmb [-1] [0] r Wa Wb N1 I1 N2 I2 D1 E (map (fun c => [c]) Ls)).
  - rewrite bsum_map. apply bsum_ext. intros c _. rewrite ia, ib, oa, ob.
    assert (Sh : all_idx (shape_of L dma (map (fun i => na - 1 + i) (zrange 1)) [c]) = map (fun x => [x]) (zrange (dma (na - 1) c))).
    { change (zrange 1) with [0]. unfold shape_of. cbn [map combine fst snd]. replace (na - 1 + 0) with (na - 1) by lia. cbn [all_idx map]. generalize (zrange (dma (na - 1) c)). clear. intros l. induction l; [reflexivity|]. cbn. now f_equal. }
    rewrite Sh, bsum_map. apply bsum_ext. intros x _. cbv zeta.
    rewrite !merge_last, !merge_first by (cbn [length]; lia). cbn [app].
    rewrite (ex_sorted _ (zrange (na - 1) ++ _)), (ex_sorted _ (zrange 1 ++ _)).
    + cbn [xorb]. rewrite andb_false_r. reflexivity.
    + rewrite <- zrange_app by lia. apply zrange_sorted.
    + change (rev (map (fun i => na - 1 + i) (zrange 1))) with (map (fun i => na - 1 + i) (zrange 1)). rewrite <- zrange_app by lia. apply zrange_sorted.
  - apply FinFun.Injective_map_NoDup; [intros u v Huv; now injection Huv|exact NL].
  - intros q Hq. apply in_map_iff in Hq. destruct Hq as (c & <- & _). reflexivity.
  - intros ba Hb. destruct (CL ba Hb) as (q & Eq & Iq). apply in_map_iff. exists q. split; [|exact Iq]. rewrite ia. change (zrange 1) with [0]. unfold pick. cbn [map]. replace (na - 1 + 0) with (na - 1) by lia.
    destruct (Wa ba Hb) as [K _]. rewrite Eq in K. rewrite app_length in K. cbn [length] in K. rewrite Eq, app_nth2 by lia. replace (Z.to_nat (na - 1) - length (removelast (fst ba)))%nat with 0%nat by lia. reflexivity.
  - rewrite ia, oa, zrange_length. lia.
  - rewrite ib, ob, map_length, zrange_length. lia.
  - rewrite ia, oa, zrange_length. lia.
  - rewrite ib, ob, map_length, zrange_length. lia.
Qed.
End LF.

(** ** the blocks of the factors *)
Section Asm.
Variable R : CRing.
Add Ring RRasm : (rth R).
Variable L : Label.
Notation rmap := (dict (list L) (Z * Z * list Z)).
Notation block := (list L * nd R)%type.
Notation tensor := (list (list L * nd R)).
Notation sector := (sector R L).
Notation teqb := (tup_eqb L).
Let tspec := tup_eqb_spec L.
Variables (p : pattern) (k : nat) (dql : L) (t : tensor) (n : Z) (dm : Z -> L -> Z).
Hypothesis W : wf_tensor R L n dm t.
Hypothesis Kn : Z.of_nat k < n.
Hypothesis Pos : forall b, In b t -> Forall (fun s => 0 < s) (nshape (snd b)).
Hypothesis Lp : Z.of_nat (length p) = n.
Notation sec_ok := (sec_ok R L p k dql t n dm).
Notation rshape := (rshape L k dm).
Notation cshape := (cshape L k n dm).

Definition width (f : sector * (nd R * nd R)) : Z := nth 1 (nshape (fst (snd f))) 0.
Definition fac_ok (f : sector * (nd R * nd R)) : Prop :=
  sec_ok (fst f) /\ 0 < width f /\ nshape (fst (snd f)) = [sec_r R L (fst f); width f] /\ nshape (snd (snd f)) = [width f; sec_c R L (fst f)].

Lemma u_blk : forall f key st ed sh, fac_ok f -> In (key, (st, ed, sh)) (sc_rows (fst f)) ->
  let x := nd_slice 0 st (ed - st) (fst (snd f)) in let b := nd_reshape (sh ++ [prodZ (nshape x) / prodZ sh]) x in
  nshape b = sh ++ [width f] /\
  forall xl a, length xl = length sh -> nget b (xl ++ [a]) = if in_shapeb sh xl then nget (fst (snd f)) [st + ravel sh xl; a] else r0 R.
Proof.
  intros [s [u v]] key st ed sh (O & Hw & Hu & _) I x b. cbn [fst snd] in *. set (w := width (s, (u, v))) in *.
  destruct (layout_entry L _ _ _ _ _ _ _ (ok_nnr R L p k dql t n dm W Kn Pos s O) (ok_lr _ _ _ _ _ _ _ _ s O) I) as (X1 & X2 & X3).
  destruct (ok_row _ _ _ _ _ _ _ _ s O _ _ _ _ I) as (b0 & B1 & _ & _ & B4).
  assert (Ps : 0 < prodZ sh) by (rewrite B4; apply prodZ_pos; now apply (block_pos R L k t n dm W Kn Pos)).
  assert (Sx : nshape x = [prodZ sh; w]). { unfold x. cbn [nshape nd_slice]. rewrite Hu. unfold upd. cbn [firstn skipn app]. f_equal. lia. }
  assert (Sb : nshape b = sh ++ [w]). { unfold b. cbn [nshape nd_reshape]. rewrite Sx. replace (prodZ [prodZ sh; w]) with (w * prodZ sh) by (unfold prodZ; cbn; lia). rewrite Z.div_mul by lia. reflexivity. }
  split; [exact Sb|]. intros xl a Hl. destruct (in_shapeb sh xl) eqn:Ei.
  - apply in_shapeb_spec in Ei. assert (Eb : b = nd_reshape ([] ++ sh ++ [w]) x).
    { unfold b. cbn [app]. rewrite Sx. replace (prodZ [prodZ sh; w]) with (w * prodZ sh) by (unfold prodZ; cbn; lia). rewrite Z.div_mul by lia. reflexivity. }
    rewrite Eb. change (xl ++ [a]) with ([] ++ xl ++ [a]). rewrite nget_reshape_split by (auto; exact Sx). unfold x.
    change 0%nat with (length (@nil Z)). rewrite (nget_slice R u [] (sec_r R L s) [w] st (ed - st) [] (ravel sh xl) [a]); [|exact Hu|lia|lia|reflexivity]. cbn [app].
    apply ravel_range in Ei. replace ((0 <=? ravel sh xl) && (ravel sh xl <? ed - st)) with true by (symmetry; apply andb_true_iff; split; [apply Z.leb_le|apply Z.ltb_lt]; lia). reflexivity.
  - apply nget_out. rewrite Sb, in_shape_app_split by exact Hl. intros [H _]. apply in_shapeb_spec in H. congruence.
Qed.
Lemma v_blk : forall f key st ed sh, fac_ok f -> In (key, (st, ed, sh)) (sc_cols (fst f)) ->
  let x := nd_slice 1 st (ed - st) (snd (snd f)) in let b := nd_reshape (prodZ (nshape x) / prodZ sh :: sh) x in
  nshape b = width f :: sh /\
  forall xr a, length xr = length sh -> nget b (a :: xr) = if in_shapeb sh xr then nget (snd (snd f)) [a; st + ravel sh xr] else r0 R.
Proof.
  intros [s [u v]] key st ed sh (O & Hw & _ & Hv) I x b. cbn [fst snd] in *. set (w := width (s, (u, v))) in *.
  destruct (layout_entry L _ _ _ _ _ _ _ (ok_nnc R L p k dql t n dm W Kn Pos s O) (ok_lc _ _ _ _ _ _ _ _ s O) I) as (X1 & X2 & X3).
  destruct (ok_col _ _ _ _ _ _ _ _ s O _ _ _ _ I) as (b0 & B1 & _ & _ & B4).
  assert (Ps : 0 < prodZ sh) by (rewrite B4; apply prodZ_pos; now apply (block_pos R L k t n dm W Kn Pos)).
  assert (Sx : nshape x = [w; prodZ sh]). { unfold x. cbn [nshape nd_slice]. rewrite Hv. unfold upd. cbn [firstn skipn app]. f_equal. f_equal. lia. }
  assert (Eb : b = nd_reshape ([w] ++ sh ++ []) x).
  { unfold b. rewrite app_nil_r. cbn [app]. rewrite Sx. replace (prodZ [w; prodZ sh]) with (w * prodZ sh) by (unfold prodZ; cbn; lia). rewrite Z.div_mul by lia. reflexivity. }
  assert (Sb : nshape b = w :: sh). { rewrite Eb. cbn [nshape nd_reshape]. rewrite app_nil_r. reflexivity. }
  split; [exact Sb|]. intros xr a Hl. destruct (in_shapeb sh xr) eqn:Ei.
  - apply in_shapeb_spec in Ei. rewrite Eb. replace (a :: xr) with ([a] ++ xr ++ []) by (now rewrite app_nil_r). rewrite nget_reshape_split by (auto; exact Sx). unfold x.
    change 1%nat with (length [w]). change ([a] ++ [ravel sh xr]) with ([a] ++ ravel sh xr :: []). rewrite (nget_slice R v [w] (sec_c R L s) [] st (ed - st) [a] (ravel sh xr) []); [|exact Hv|lia|lia|reflexivity]. cbn [app].
    apply ravel_range in Ei. replace ((0 <=? ravel sh xr) && (ravel sh xr <? ed - st)) with true by (symmetry; apply andb_true_iff; split; [apply Z.leb_le|apply Z.ltb_lt]; lia). reflexivity.
  - apply nget_out. rewrite Sb. change (w :: sh) with ([w] ++ sh). change (a :: xr) with ([a] ++ xr). rewrite in_shape_app_split by reflexivity. intros [_ H]. apply in_shapeb_spec in H. congruence.
Qed.
Lemma u_keys : forall f : sector * (nd R * nd R), map fst (u_blocks R L (fst f) (fst (snd f))) = map fst (sc_rows (fst f)).
Proof. intros f. unfold u_blocks. rewrite map_map. apply map_ext. intros [key [[st ed] sh]]. reflexivity. Qed.
Lemma v_keys : forall f : sector * (nd R * nd R), map fst (v_blocks R L (fst f) (snd (snd f))) = map fst (sc_cols (fst f)).
Proof. intros f. unfold v_blocks. rewrite map_map. apply map_ext. intros [key [[st ed] sh]]. reflexivity. Qed.
Definition at_row (o : option Z) (g : Z -> R) : R := match o with Some i => g i | None => r0 R end.
Lemma u_elem1 : forall f ql c xl a, fac_ok f -> length ql = k -> length xl = k ->
  elem R L (u_blocks R L (fst f) (fst (snd f))) (ql ++ [c]) (xl ++ [a]) =
  if qeqb L (sc_q (fst f)) c then at_row (rpos R L (fst f) ql xl) (fun i => nget (fst (snd f)) [i; a]) else r0 R.
Proof.
  intros f ql c xl a F Kq Kx. pose proof F as (O & _). destruct (qeqb_spec L (sc_q (fst f)) c) as [<-|Ne].
  - unfold rpos, pos_in. destruct (dget teqb (sc_rows (fst f)) (ql ++ [sc_q (fst f)])) as [[[st ed] sh]|] eqn:E.
    + apply (dget_in teqb tspec) in E. pose proof (u_blk f _ _ _ _ F E) as B. cbv zeta in B. destruct B as [_ B].
      rewrite (elem_in R L _ (ql ++ [sc_q (fst f)], nd_reshape (sh ++ [prodZ (nshape (nd_slice 0 st (ed - st) (fst (snd f)))) / prodZ sh]) (nd_slice 0 st (ed - st) (fst (snd f))))).
      * cbn [snd]. destruct (ok_row _ _ _ _ _ _ _ _ _ O _ _ _ _ E) as (b0 & B1 & _ & B3 & B4). apply app_inj_tail in B3. destruct B3 as [B3 _].
        rewrite B by (rewrite B4, <- B3, rshape_length; auto). destruct (in_shapeb sh xl); reflexivity.
      * rewrite u_keys. apply (ok_nr _ _ _ _ _ _ _ _ _ O).
      * unfold u_blocks. apply in_map_iff. exists (ql ++ [sc_q (fst f)], (st, ed, sh)). split; [reflexivity|exact E].
    + cbn [at_row]. apply elem_absent. rewrite u_keys. now apply (dget_none teqb tspec) in E.
  - apply elem_absent. rewrite u_keys. intros I. apply in_map_iff in I. destruct I as ([key [[st ed] sh]] & E & I). cbn [fst] in E. subst key.
    destruct (ok_row _ _ _ _ _ _ _ _ _ O _ _ _ _ I) as (b0 & _ & _ & B3 & _). apply app_inj_tail in B3. destruct B3 as [_ B3]. congruence.
Qed.
Lemma v_elem1 : forall f qr c xr a, fac_ok f -> Z.of_nat (length qr) = n - Z.of_nat k -> Z.of_nat (length xr) = n - Z.of_nat k ->
  elem R L (v_blocks R L (fst f) (snd (snd f))) (c :: qr) (a :: xr) =
  if qeqb L (sc_q (fst f)) c then at_row (cpos R L (fst f) qr xr) (fun j => nget (snd (snd f)) [a; j]) else r0 R.
Proof.
  intros f qr c xr a F Kq Kx. pose proof F as (O & _). destruct (qeqb_spec L (sc_q (fst f)) c) as [<-|Ne].
  - unfold cpos, pos_in. destruct (dget teqb (sc_cols (fst f)) (sc_q (fst f) :: qr)) as [[[st ed] sh]|] eqn:E.
    + apply (dget_in teqb tspec) in E. pose proof (v_blk f _ _ _ _ F E) as B. cbv zeta in B. destruct B as [_ B].
      rewrite (elem_in R L _ (sc_q (fst f) :: qr, nd_reshape (prodZ (nshape (nd_slice 1 st (ed - st) (snd (snd f)))) / prodZ sh :: sh) (nd_slice 1 st (ed - st) (snd (snd f))))).
      * cbn [snd]. destruct (ok_col _ _ _ _ _ _ _ _ _ O _ _ _ _ E) as (b0 & B1 & _ & B3 & B4). injection B3 as B3.
        pose proof (cshape_length L k n dm Kn qr Kq) as Lc. rewrite B by (rewrite B4, <- B3; lia). destruct (in_shapeb sh xr); reflexivity.
      * rewrite v_keys. apply (ok_nc _ _ _ _ _ _ _ _ _ O).
      * unfold v_blocks. apply in_map_iff. exists (sc_q (fst f) :: qr, (st, ed, sh)). split; [reflexivity|exact E].
    + cbn [at_row]. apply elem_absent. rewrite v_keys. now apply (dget_none teqb tspec) in E.
  - apply elem_absent. rewrite v_keys. intros I. apply in_map_iff in I. destruct I as ([key [[st ed] sh]] & E & I). cbn [fst] in E. subst key.
    destruct (ok_col _ _ _ _ _ _ _ _ _ O _ _ _ _ I) as (b0 & _ & _ & B3 & _). injection B3 as B3 _. congruence.
Qed.
Variable fs : list (sector * (nd R * nd R)).
Hypothesis F : forall f, In f fs -> fac_ok f.
Hypothesis N : NoDup (map (fun f => sc_q (fst f)) fs).
Notation U := (fst (assemble R L p k fs)).
Notation V := (snd (assemble R L p k fs)).
Lemma elem_flat : forall X (g : X -> tensor) l qs xs, elem R L (flat_map g l) qs xs = bsum l (fun x => elem R L (g x) qs xs).
Proof. intros. unfold elem. apply bsum_flat_map. Qed.
Lemma u_elem : forall ql c xl a, length ql = k -> length xl = k -> elem R L (fst U) (ql ++ [c]) (xl ++ [a]) =
  bsum fs (fun f => if qeqb L (sc_q (fst f)) c then at_row (rpos R L (fst f) ql xl) (fun i => nget (fst (snd f)) [i; a]) else r0 R).
Proof. intros. unfold assemble. cbn [fst snd]. rewrite elem_flat. apply bsum_ext. intros f Hf. apply u_elem1; auto. Qed.
Lemma v_elem : forall qr c xr a, Z.of_nat (length qr) = n - Z.of_nat k -> Z.of_nat (length xr) = n - Z.of_nat k -> elem R L (fst V) (c :: qr) (a :: xr) =
  bsum fs (fun f => if qeqb L (sc_q (fst f)) c then at_row (cpos R L (fst f) qr xr) (fun j => nget (snd (snd f)) [a; j]) else r0 R).
Proof. intros. unfold assemble. cbn [fst snd]. rewrite elem_flat. apply bsum_ext. intros f Hf. apply v_elem1; auto. Qed.

Definition bond_dim (c : L) : Z := match find (fun f => qeqb L (sc_q (fst f)) c) fs with Some f => width f | None => 0 end.
Lemma bond_dim_at : forall f, In f fs -> bond_dim (sc_q (fst f)) = width f.
Proof.
  unfold bond_dim. clear F. induction fs as [|g l IH]; intros f Hf; [destruct Hf|]. cbn in N. inversion N as [|? ? N1 N2]; subst. cbn [find].
  destruct (qeqb_spec L (sc_q (fst g)) (sc_q (fst f))) as [E|E].
  - destruct Hf as [->|Hf]; [reflexivity|]. exfalso. apply N1. rewrite E. now apply (in_map (fun f => sc_q (fst f))).
  - destruct Hf as [->|Hf]; [congruence|]. now apply IH.
Qed.
Definition dmu (i : Z) (q : L) : Z := if i <? Z.of_nat k then dm i q else bond_dim q.
Definition dmv (i : Z) (q : L) : Z := if i =? 0 then bond_dim q else dm (i - 1 + Z.of_nat k) q.
Lemma U_wf : wf_tensor R L (Z.of_nat k + 1) dmu (fst U).
Proof.
  intros b Hb. cbn [assemble fst] in Hb. apply in_flat_map in Hb. destruct Hb as (f & Hf & Hb). pose proof (F f Hf) as Fo. pose proof Fo as (O & _).
  unfold u_blocks in Hb. apply in_map_iff in Hb. destruct Hb as ([key [[st ed] sh]] & <- & I). cbn [fst snd].
  destruct (ok_row _ _ _ _ _ _ _ _ _ O _ _ _ _ I) as (b0 & B1 & _ & B3 & B4). destruct (block_shapes R L k t n dm W Kn Pos b0 B1) as (_ & _ & _ & _ & Lf).
  split; [rewrite B3, app_length; cbn; lia|]. destruct (u_blk f _ _ _ _ Fo I) as [S _]. rewrite S, B3, B4. unfold FsvdProofs.rshape, shape_of. rewrite zrange_app by lia.
  rewrite combine_app' by (rewrite zrange_length; lia). rewrite map_app. f_equal.
  - apply map_ext_in. intros [i q] Hi. apply in_combine_l, in_zrange in Hi. cbn [fst snd]. unfold dmu. destruct (Z.ltb_spec i (Z.of_nat k)); [reflexivity|lia].
  - change (zrange 1) with [0]. cbn [map combine fst snd]. unfold dmu. destruct (Z.ltb_spec (Z.of_nat k + 0) (Z.of_nat k)); [lia|]. now rewrite bond_dim_at.
Qed.
Lemma V_wf : wf_tensor R L (n - Z.of_nat k + 1) dmv (fst V).
Proof.
  intros b Hb. cbn [assemble fst snd] in Hb. apply in_flat_map in Hb. destruct Hb as (f & Hf & Hb). pose proof (F f Hf) as Fo. pose proof Fo as (O & _).
  unfold v_blocks in Hb. apply in_map_iff in Hb. destruct Hb as ([key [[st ed] sh]] & <- & I). cbn [fst snd].
  destruct (ok_col _ _ _ _ _ _ _ _ _ O _ _ _ _ I) as (b0 & B1 & _ & B3 & B4). destruct (block_shapes R L k t n dm W Kn Pos b0 B1) as (Lb & _ & _ & _ & Lf).
  split; [rewrite B3; cbn [length]; rewrite skipn_length; lia|]. destruct (v_blk f _ _ _ _ Fo I) as [S _]. rewrite S, B3, B4. unfold FsvdProofs.cshape, shape_of.
  replace (n - Z.of_nat k + 1) with (1 + (n - Z.of_nat k)) by lia. rewrite zrange_app by lia. change (zrange 1) with [0]. cbn [app map combine fst snd]. f_equal.
  - unfold dmv. cbn [Z.eqb]. now rewrite bond_dim_at.
  - rewrite !combine_map_l, !map_map. apply map_ext_in. intros [i q] Hi. apply in_combine_l, in_zrange in Hi. cbn [fst snd]. unfold dmv. destruct (Z.eqb_spec (1 + i) 0); [lia|]. f_equal. lia.
Qed.
Lemma U_labels : forall b, In b (fst U) -> exists f, In f fs /\ fst b = removelast (fst b) ++ [sc_q (fst f)].
Proof.
  intros b Hb. cbn [assemble fst] in Hb. apply in_flat_map in Hb. destruct Hb as (f & Hf & Hb). exists f. split; [exact Hf|]. destruct (F f Hf) as (O & _).
  unfold u_blocks in Hb. apply in_map_iff in Hb. destruct Hb as ([key [[st ed] sh]] & <- & I). cbn [fst snd].
  destruct (ok_row _ _ _ _ _ _ _ _ _ O _ _ _ _ I) as (b0 & B1 & _ & -> & B4). now rewrite removelast_last.
Qed.
Hypothesis Ne : fs <> [].
Lemma rows_some : forall f, In f fs -> sc_rows (fst f) <> [] /\ sc_cols (fst f) <> [].
Proof.
  intros f Hf. destruct (F f Hf) as (O & _). destruct (ok_some _ _ _ _ _ _ _ _ _ O) as (b & B1 & B2). destruct (ok_has _ _ _ _ _ _ _ _ _ O b B1 B2) as [A B].
  split; intros X; rewrite X in *; contradiction.
Qed.
Lemma some_fac : exists f, In f fs.
Proof. clear F N. destruct fs as [|f l]; [congruence|]. exists f. now left. Qed.
Lemma U_some : fst U <> [].
Proof.
  destruct some_fac as [f Hf]. destruct (rows_some f Hf) as [A _]. destruct (sc_rows (fst f)) as [|[key [[st ed] sh]] l] eqn:E; [congruence|].
  assert (I : In (key, nd_reshape (sh ++ [prodZ (nshape (nd_slice 0 st (ed - st) (fst (snd f)))) / prodZ sh]) (nd_slice 0 st (ed - st) (fst (snd f)))) (fst U)).
  { cbn [assemble fst]. apply in_flat_map. exists f. split; [exact Hf|]. unfold u_blocks. apply in_map_iff. exists (key, (st, ed, sh)). split; [reflexivity|]. rewrite E. now left. }
  intros X. rewrite X in I. destruct I.
Qed.
Lemma V_some : fst V <> [].
Proof.
  destruct some_fac as [f Hf]. destruct (rows_some f Hf) as [_ A]. destruct (sc_cols (fst f)) as [|[key [[st ed] sh]] l] eqn:E; [congruence|].
  assert (I : In (key, nd_reshape (prodZ (nshape (nd_slice 1 st (ed - st) (snd (snd f)))) / prodZ sh :: sh) (nd_slice 1 st (ed - st) (snd (snd f)))) (fst V)).
  { cbn [assemble fst snd]. apply in_flat_map. exists f. split; [exact Hf|]. unfold v_blocks. apply in_map_iff. exists (key, (st, ed, sh)). split; [reflexivity|]. rewrite E. now left. }
  intros X. rewrite X in I. destruct I.
Qed.
Lemma U_pat : Z.of_nat (length (snd U)) = Z.of_nat k + 1 /\ sign_of (snd U) (Z.of_nat k) = false /\ removelast (snd U) = firstn k p.
Proof.
  cbn [assemble fst snd]. assert (Lf : length (firstn k p) = k) by (rewrite firstn_length; lia). split; [rewrite app_length; cbn; lia|]. split; [|apply removelast_last].
  unfold sign_of. rewrite app_nth2 by (rewrite Nat2Z.id; lia). replace (Z.to_nat (Z.of_nat k) - length (firstn k p))%nat with 0%nat by lia. reflexivity.
Qed.
Lemma V_pat : Z.of_nat (length (snd V)) = n - Z.of_nat k + 1 /\ sign_of (snd V) 0 = true /\ tl (snd V) = skipn k p.
Proof. cbn [assemble fst snd]. split; [cbn [length]; rewrite skipn_length; lia|]. split; reflexivity. Qed.

Notation qof := (fun f : sector * (nd R * nd R) => sc_q (fst f)).
Lemma one_fac : forall f (g : sector * (nd R * nd R) -> R), In f fs -> bsum fs (fun f' => if qeqb L (sc_q (fst f')) (sc_q (fst f)) then g f' else r0 R) = g f.
Proof.
  intros f g Hf. rewrite (bsum_single R _ fs _ f); auto.
  - destruct (qeqb_spec L (sc_q (fst f)) (sc_q (fst f))); [reflexivity|contradiction].
  - now apply NoDup_map_inv in N.
  - intros f' Hf' Nf. destruct (qeqb_spec L (sc_q (fst f')) (sc_q (fst f))) as [E|]; [|reflexivity]. exfalso. apply Nf. clear -N Hf Hf' E.
    revert N Hf Hf'. induction fs as [|x l IH]; intros N I I'; [destruct I|]. cbn in N. inversion N as [|? ? N1 N2]; subst. destruct I as [->|I], I' as [->|I']; auto.
    + exfalso. apply N1. rewrite <- E. now apply (in_map qof).
    + exfalso. apply N1. rewrite E. now apply (in_map qof).
Qed.
(* a tensor with the rows of the sectors on the left times V *)
Section Prod.
Variable fermion : bool.
Variable X : ftensor R L.
Variable dmX : Z -> L -> Z.
Variable g : sector * (nd R * nd R) -> Z -> Z -> R.
Hypothesis WX : wf_tensor R L (Z.of_nat k + 1) dmX (fst X).
Hypothesis DX : forall q, dmX (Z.of_nat k) q = bond_dim q.
Hypothesis NX : fst X <> [].
Hypothesis PX : Z.of_nat (length (snd X)) = Z.of_nat k + 1 /\ sign_of (snd X) (Z.of_nat k) = false /\ removelast (snd X) = firstn k p.
Hypothesis LX : forall b, In b (fst X) -> exists f, In f fs /\ fst b = removelast (fst b) ++ [sc_q (fst f)].
Hypothesis EX : forall ql c xl a, length ql = k -> length xl = k -> elem R L (fst X) (ql ++ [c]) (xl ++ [a]) =
  bsum fs (fun f => if qeqb L (sc_q (fst f)) c then at_row (rpos R L (fst f) ql xl) (fun i => g f i a) else r0 R).
Lemma prod_value : exists r, ft_tensordot R L fermion X V [-1] [0] = Some r /\ snd r = p /\ NoDup (map fst (fst r)) /\ wf_tensor R L n (dm_lf L (Z.of_nat k + 1) dmX dmv) (fst r) /\
  forall ql qr xl xr, length ql = k -> Z.of_nat (length qr) = n - Z.of_nat k -> length xl = k -> Z.of_nat (length xr) = n - Z.of_nat k ->
  elem R L (fst r) (ql ++ qr) (xl ++ xr) =
  bsum fs (fun f => at_pos R (rpos R L (fst f) ql xl) (cpos R L (fst f) qr xr) (fun i j => bsum (zrange (width f)) (fun a => rmul R (g f i a) (nget (snd (snd f)) [a; j])))).
Proof.
  destruct PX as (P1 & P2 & P3), V_pat as (Q1 & Q2 & Q3). pose proof V_wf as WV. pose proof V_some as NV.
  assert (D : forall q, dmX (Z.of_nat k + 1 - 1) q = dmv 0 q). { intros q. replace (Z.of_nat k + 1 - 1) with (Z.of_nat k) by lia. rewrite DX. reflexivity. }
  assert (S : sign_of (snd X) (Z.of_nat k + 1 - 1) <> sign_of (snd V) 0). { replace (Z.of_nat k + 1 - 1) with (Z.of_nat k) by lia. rewrite P2, Q2. discriminate. }
  destruct (last_first_defined R L fermion X V (Z.of_nat k + 1) (n - Z.of_nat k + 1) dmX dmv WX WV NX NV) as [r E]; try lia; auto. exists r. split; [exact E|].
  split; [|split; [|split]].
  - assert (PP : snd r = removelast (snd X) ++ tl (snd V)) by (eapply (last_first_pattern R L fermion X V (Z.of_nat k + 1) (n - Z.of_nat k + 1) dmX dmv); eauto; lia). rewrite PP, P3, Q3. apply firstn_skipn.
  - eapply (last_first_nodup R L fermion X V (Z.of_nat k + 1) (n - Z.of_nat k + 1) dmX dmv); eauto; lia.
  - replace n with (Z.of_nat k + 1 - 1 + (n - Z.of_nat k + 1 - 1)) at 1 by lia. apply (last_first_wf R L fermion X V (Z.of_nat k + 1) (n - Z.of_nat k + 1) dmX dmv WX WV); auto; lia.
  - intros ql qr xl xr H1 H2 H3 H4.
    rewrite (last_first_elem R L fermion X V (Z.of_nat k + 1) (n - Z.of_nat k + 1) dmX dmv WX WV) with (r := r) (Ls := map qof fs); auto; try lia.
    + rewrite bsum_map. apply bsum_ext. intros f Hf. replace (Z.of_nat k + 1 - 1) with (Z.of_nat k) by lia. rewrite DX, bond_dim_at by exact Hf.
      rewrite (bsum_ext R _ (zrange (width f)) _ (fun a => rmul R (at_row (rpos R L (fst f) ql xl) (fun i => g f i a)) (at_row (cpos R L (fst f) qr xr) (fun j => nget (snd (snd f)) [a; j])))).
      * destruct (rpos R L (fst f) ql xl) as [i|]; cbn [at_row at_pos].
        -- destruct (cpos R L (fst f) qr xr) as [j|]; cbn [at_row at_pos]; [reflexivity|]. apply bsum_zero. intros. ring.
        -- apply bsum_zero. intros. ring.
      * intros a _. rewrite EX, v_elem by auto. rewrite !(one_fac f) by exact Hf. reflexivity.
    + intros ba Hb. destruct (LX ba Hb) as (f & Hf & E'). exists (sc_q (fst f)). split; [exact E'|now apply (in_map qof)].
Qed.
End Prod.
Lemma UV_value : forall fermion, exists r, ft_tensordot R L fermion U V [-1] [0] = Some r /\ snd r = p /\ NoDup (map fst (fst r)) /\ wf_tensor R L n (dm_lf L (Z.of_nat k + 1) dmu dmv) (fst r) /\
  forall ql qr xl xr, length ql = k -> Z.of_nat (length qr) = n - Z.of_nat k -> length xl = k -> Z.of_nat (length xr) = n - Z.of_nat k ->
  elem R L (fst r) (ql ++ qr) (xl ++ xr) =
  bsum fs (fun f => at_pos R (rpos R L (fst f) ql xl) (cpos R L (fst f) qr xr) (fun i j => bsum (zrange (width f)) (fun a => rmul R (nget (fst (snd f)) [i; a]) (nget (snd (snd f)) [a; j])))).
Proof.
  intros fermion. apply (prod_value fermion U dmu (fun f i a => nget (fst (snd f)) [i; a])).
  - exact U_wf.
  - intros q. unfold dmu. destruct (Z.ltb_spec (Z.of_nat k) (Z.of_nat k)); [lia|reflexivity].
  - exact U_some.
  - exact U_pat.
  - exact U_labels.
  - intros. now apply u_elem.
Qed.
End Asm.
