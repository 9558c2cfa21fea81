(** Lemmas about fermion tensors: patterns, phases, contraction. *)
From Coq Require Import ZArith Bool List Lia Permutation Sorted Ring.
From Verif Require Import FermOpsModel FermOpsProofs SymModel SymProofs DictLib OptLib IndexLib RingLib BondModel FuseModel FuseProofs
  BlockModel BlockProofs SignModel SignProofs SignProps BlockProps FermTModel.
Import ListNotations.
Open Scope Z_scope.

(** *** Specification: sign of an arrangement of legs *)
(* true when an odd number of the given bits are set *)
Fixpoint xors (l : list bool) : bool := match l with [] => false | b :: r => xorb b (xors r) end.
(* true when an odd number of pairs of odd legs stand in exchanged order *)
Fixpoint exchanged (odd : Z -> bool) (l : list Z) : bool :=
  match l with
  | [] => false
  | x :: r => xorb (xors (map (fun y => (y <? x) && (odd x && odd y)) r)) (exchanged odd r)
  end.
Definition signed {R : CRing} (b : bool) (v : R) : R := if b then ropp R v else v.
(* the odd legs of a block *)
Definition odd_legs (L : Label) (qs : list L) (i : Z) : bool := qpar L (nth (Z.to_nat i) qs (q0 L)).

Lemma exchanged_sgn : forall par odd l, (forall x, In x l -> odd x = Z.odd (par x)) ->
  sgn par l = if exchanged odd l then -1 else 1.
Proof.
  intros par odd. induction l as [|x l IH]; intros H; cbn [sgn exchanged]; [reflexivity|].
  rewrite IH by (intros; apply H; now right).
  assert (E : prodZ (map (term par x) l) = if xors (map (fun y => (y <? x) && (odd x && odd y)) l) then -1 else 1).
  { assert (Hx : odd x = Z.odd (par x)) by (apply H; now left).
    assert (Hl : forall y, In y l -> odd y = Z.odd (par y)) by (intros; apply H; now right). clear IH H. rewrite Hx.
    induction l as [|y l IH]; cbn [map xors]; [reflexivity|]. rewrite prodZ_cons, IH by (intros; apply Hl; now right).
    unfold term at 1. rewrite (Hl y) by now left. clear IH. destruct (y <? x); cbn [andb]; [|destruct (xors _); reflexivity].
    rewrite m1pow_mul. unfold oddb. rewrite !Z.negb_even.
    destruct (Z.odd (par x)), (Z.odd (par y)), (xors _); reflexivity. }
  rewrite E. destruct (xors _), (exchanged odd l); reflexivity.
Qed.
Lemma exchanged_ext : forall odd odd' l, (forall x, In x l -> odd x = odd' x) -> exchanged odd l = exchanged odd' l.
Proof.
  intros odd odd'. induction l as [|x l IH]; intros H; cbn [exchanged]; [reflexivity|]. rewrite IH by (intros; apply H; now right). f_equal.
  rewrite (H x) by now left. f_equal. apply map_ext_in. intros y Hy. now rewrite (H y) by now right.
Qed.

Lemma ofZ_m1 : forall R, ofZ R (-1) = ropp R (r1 R).
Proof. intros R. change (-1) with (- (1)). now rewrite ofZ_opp, ofZ_1. Qed.
Section S.
Variable R : CRing.
Add Ring rr : (rth R).
Lemma mul_sign : forall (b : bool) (v : R), rmul R v (ofZ R (if b then -1 else 1)) = signed b v.
Proof. intros b v. destruct b; unfold signed; rewrite ?ofZ_m1, ?ofZ_1; ring. Qed.
Lemma signed_xorb : forall b c (v : R), signed (xorb b c) v = signed b (signed c v).
Proof. intros [|] [|] v; cbn; ring. Qed.
Lemma signed_mul : forall b c (v w : R), signed (xorb b c) (rmul R v w) = rmul R (signed b v) (signed c w).
Proof. intros [|] [|] v w; cbn; ring. Qed.
Lemma signed_0 : forall b, signed b (r0 R) = r0 R.
Proof. intros [|]; cbn; ring. Qed.
Lemma signed_sum : forall X (l : list X) b (f : X -> R), bsum l (fun x => signed b (f x)) = signed b (bsum l f).
Proof. intros X l [|] f; unfold signed; [|reflexivity]. now rewrite bsum_opp. Qed.
End S.

(** *** Patterns *)
Lemma enum_map : forall (A : Type) (d : A) l, enumerate l = map (fun i => (i, nth (Z.to_nat i) l d)) (zrange (Z.of_nat (length l))).
Proof.
  intros A d l. unfold enumerate. transitivity (combine (zrange (Z.of_nat (length l))) (pick d (zrange (Z.of_nat (length l))) l)).
  { now rewrite pick_all. }
  unfold pick. induction (zrange (Z.of_nat (length l))) as [|x r IH]; cbn; [reflexivity|]. now rewrite IH.
Qed.
Lemma filter_map_comm : forall A B (f : B -> bool) (g : A -> B) l, filter f (map g l) = map g (filter (fun x => f (g x)) l).
Proof. induction l as [|x l IH]; cbn; [reflexivity|]. destruct (f (g x)); cbn; now rewrite IH. Qed.
Lemma kept_pattern : forall (p : pattern) idx,
  map snd (filter (fun e => negb (memZ (fst e) idx)) (enumerate p)) = pick false (others (Z.of_nat (length p)) idx) p.
Proof. intros p idx. rewrite (enum_map bool false), filter_map_comm, map_map. reflexivity. Qed.
Lemma pat_eqb_spec : forall a b, reflect (a = b) (pat_eqb a b).
Proof.
  induction a as [|x a IH]; intros [|y b]; cbn; try (constructor; congruence).
  destruct (Bool.eqb_spec x y); cbn; [|constructor; congruence]. destruct (IH b); constructor; congruence.
Qed.

Definition flips_of (pa pb : pattern) (idxa idxb : list Z) : list Z := snd (contract_patterns pa pb idxa idxb).
Lemma flips_nil : forall pa pb idxa idxb, length idxa = length idxb ->
  (flips_of pa pb idxa idxb = [] <-> forall i j, In (i, j) (combine idxa idxb) -> nth (Z.to_nat i) pa false <> nth (Z.to_nat j) pb false).
Proof.
  intros pa pb idxa idxb E. unfold flips_of, contract_patterns. cbn [snd].
  destruct (pat_eqb_spec (pick false idxa pa) (flip_pattern (pick false idxb pb))) as [H|H]; cbn [negb].
  - split; [|reflexivity]. intros _. revert idxb E H. induction idxa as [|i l IH]; intros [|j l'] E H; cbn in E; try lia; [easy|].
    unfold flip_pattern, pick in H. cbn [map] in H. injection H as H1 H2. intros i' j' [F|F].
    + injection F as <- <-. rewrite H1. now destruct (nth (Z.to_nat j) pb false).
    + eapply IH; [|exact H2|exact F]. lia.
  - clear H. revert idxb E. induction idxa as [|i l IH]; intros [|j l'] E; cbn in E; try lia; [easy|].
    unfold pick. cbn [map combine flat_map]. change (map (fun i0 => nth (Z.to_nat i0) pa false) l) with (pick false l pa).
    change (map (fun i0 => nth (Z.to_nat i0) pb false) l') with (pick false l' pb). cbn [fst snd].
    destruct (Bool.eqb_spec (nth (Z.to_nat i) pa false) (nth (Z.to_nat j) pb false)) as [F|F].
    + split; [discriminate|]. intros G. exfalso. apply (G i j); [now left|exact F].
    + cbn [app]. rewrite IH by lia. split.
      * intros G i' j' [K|K]; [injection K as <- <-; exact F|now apply G].
      * intros G i' j' K. apply G. now right.
Qed.
Lemma adjust_all : forall (R : CRing) (L : Label) (flips : list Z) (b : list (list L * nd R)),
  mapM (fun blk => adjust_block R L blk flips) b = match flips, b with _ :: _, _ :: _ => None | _, _ => Some b end.
Proof.
  intros R L [|f fl] b; cbn [adjust_block].
  - induction b as [|x b IH]; cbn; [reflexivity|]. unfold adjust_block in IH. cbn in IH. rewrite IH. reflexivity.
  - destruct b; reflexivity.
Qed.

Section FT.
Variable R : CRing.
Variable L : Label.
Variable fermion : bool.
Add Ring rr2 : (rth R).
Notation block := (list L * nd R)%type.
Notation tensor := (list (list L * nd R)).
Notation teqb := (tup_eqb L).
Notation tspec := (tup_eqb_spec L).
Notation ll := (q0 L).

(** *** Phases *)
Lemma parity_odd : forall qs i, 0 <= i < Z.of_nat (length qs) -> odd_legs L qs i = Z.odd (pget (map (parity L) qs) i).
Proof.
  intros qs i H. unfold odd_legs, pget. rewrite (nth_indep _ 0 (parity L ll)) by (rewrite map_length; lia). rewrite map_nth.
  unfold parity. now destruct (qpar L _).
Qed.
Lemma phase_exchanged : forall qs p, Permutation (zrange (Z.of_nat (length qs))) p ->
  compute_phase true (map (parity L) qs) p false = if exchanged (odd_legs L qs) p then -1 else 1.
Proof.
  intros qs p H. rewrite phase_perm by (unfold legs; now rewrite map_length). apply exchanged_sgn.
  intros x Hx. apply parity_odd. apply in_zrange. eapply Permutation_in; [apply Permutation_sym; exact H|exact Hx].
Qed.
Lemma lab_phase_right : forall qs idx, NoDup idx -> (forall i, In i idx -> 0 <= i < Z.of_nat (length qs)) ->
  lab_phase L fermion qs idx true = if fermion && exchanged (odd_legs L qs) (others (Z.of_nat (length qs)) idx ++ rev idx) then -1 else 1.
Proof.
  intros qs idx Hn Hi. unfold lab_phase. destruct fermion; [|reflexivity]. cbn [andb].
  destruct (c19_left_tensor (map (parity L) qs) idx) as [P E]; [auto|now rewrite map_length|].
  unfold kept, legs in P, E. rewrite map_length in P, E. rewrite E. now apply phase_exchanged.
Qed.
Lemma lab_phase_left : forall qs idx, NoDup idx -> (forall i, In i idx -> 0 <= i < Z.of_nat (length qs)) ->
  lab_phase L fermion qs idx false = if fermion && exchanged (odd_legs L qs) (idx ++ others (Z.of_nat (length qs)) idx) then -1 else 1.
Proof.
  intros qs idx Hn Hi. unfold lab_phase. destruct fermion; [|reflexivity]. cbn [andb].
  destruct (c19_right_tensor (map (parity L) qs) idx) as [P E]; [auto|now rewrite map_length|].
  unfold kept, legs in P, E. rewrite map_length in P, E. rewrite E. now apply phase_exchanged.
Qed.

Lemma nget_phase : forall b A xs, nget (nd_phase R (if b : bool then -1 else 1) A) xs = signed b (nget A xs).
Proof.
  intros b A xs. unfold nget, nd_phase, nd_map. cbn [nshape nval]. destruct (in_shapeb (nshape A) xs).
  - apply mul_sign.
  - symmetry. apply signed_0.
Qed.
Lemma lab_phase_pm : forall qs idx d, exists b : bool, lab_phase L fermion qs idx d = if b then -1 else 1.
Proof.
  intros qs idx d. unfold lab_phase, compute_phase. destruct fermion; cbn [negb]; [|now exists false].
  assert (G : forall ph, (exists b : bool, ph = if b then -1 else 1) -> forall c, exists b : bool,
    snd (fold_left (fun (st : list Z * Z) x => let (counted, phase) := st in
      let range := if d then legs_after (Z.of_nat (length (map (parity L) qs))) x else legs_before x in
      let parity' := zsum (map (pget (map (parity L) qs)) (filter (fun i => negb (memZ i counted)) range)) * pget (map (parity L) qs) x in
      (counted ++ [x], phase * m1pow parity')) idx (c, ph)) = if b then -1 else 1).
  { induction idx as [|x idx IH]; intros ph Hph c; cbn [fold_left]; [exact Hph|]. apply IH. destruct Hph as [b ->].
    unfold m1pow. destruct (Z.even _); [exists b|exists (negb b)]; destruct b; reflexivity. }
  apply G. now exists false.
Qed.

(** *** Contraction *)
Definition phased (right : bool) (idx : list Z) (t : tensor) : tensor :=
  map (fun b => (fst b, nd_phase R (lab_phase L fermion (fst b) idx right) (snd b))) t.
Lemma phased_wf : forall n dm right idx t, wf_tensor R L n dm t -> wf_tensor R L n dm (phased right idx t).
Proof. intros n dm right idx t H b Hb. apply in_map_iff in Hb. destruct Hb as (b' & <- & Hb). exact (H b' Hb). Qed.
Lemma phased_elem : forall right idx t qs xs (s : bool), lab_phase L fermion qs idx right = (if s then -1 else 1) ->
  elem R L (phased right idx t) qs xs = signed s (elem R L t qs xs).
Proof.
  intros right idx t qs xs s E. unfold elem, phased. rewrite bsum_map, <- signed_sum. apply bsum_ext. intros b Hb. cbn [fst snd].
  destruct (tspec (fst b) qs) as [F|F]; [|now rewrite signed_0]. rewrite F, E. apply nget_phase.
Qed.

Definition fcontribs (a b : tensor) (idxa idxb outa outb : list Z) : list block :=
  flat_map (fun ba => map (fun bb => (pick ll outa (fst ba) ++ pick ll outb (fst bb),
      nd_phase R (lab_phase L fermion (fst ba) idxa true * lab_phase L fermion (fst bb) idxb false) (nd_tensordot (snd ba) (snd bb) idxa idxb)))
     (filter (fun bb => teqb (pick ll idxb (fst bb)) (pick ll idxa (fst ba))) b)) a.
Lemma ft_tensordot_inv : forall a b idxa idxb r, ft_tensordot R L fermion a b idxa idxb = Some r ->
  let ia := norm_axes (ndim R L (fst a)) idxa in let ib := norm_axes (ndim R L (fst b)) idxb in
  length idxa = length idxb /\ (fst b = [] \/ flips_of (snd a) (snd b) ia ib = []) /\
  snd r = fst (contract_patterns (snd a) (snd b) ia ib) /\
  fst r = fold_left (put_with R L nd_add (fun x => x))
            (fcontribs (fst a) (fst b) ia ib (others (ndim R L (fst a)) ia) (others (ndim R L (fst b)) ib)) [].
Proof.
  intros [a pa] [b pb] idxa idxb r H ia ib. unfold ft_tensordot in H. cbn [fst snd] in *. fold ia ib in H.
  unfold flips_of. destruct (contract_patterns pa pb ia ib) as [op fl]. cbn [fst snd].
  destruct (Nat.eqb_spec (length ia) (length ib)) as [El|]; [|discriminate]. cbn [negb] in H.
  unfold ia, ib, norm_axes in El. rewrite !map_length in El.
  rewrite adjust_all in H.
  assert (Hb : (b = [] \/ fl = []) /\ match fl, b with _ :: _, _ :: _ => None | _, _ => Some b end = Some b).
  { destruct fl; [auto|]. destruct b; [auto|discriminate]. }
  destruct Hb as [Hb Eb]. rewrite Eb in H. cbn [bind] in H. injection H as <-. cbn [fst snd]. repeat split; auto.
  unfold fcontribs. rewrite <- fold_nested.
  set (oa := others _ ia). set (ob := others _ ib). clearbody oa ob ia ib. apply fold_ext. intros m x. rewrite group_ctr_get.
  rewrite <- fold_map. reflexivity.
Qed.
Lemma ft_tensordot_none : forall a b idxa idxb,
  let ia := norm_axes (ndim R L (fst a)) idxa in let ib := norm_axes (ndim R L (fst b)) idxb in
  ft_tensordot R L fermion a b idxa idxb = None <-> length idxa <> length idxb \/ (fst b <> [] /\ flips_of (snd a) (snd b) ia ib <> []).
Proof.
  intros [a pa] [b pb] idxa idxb ia ib. unfold ft_tensordot. cbn [fst snd] in *. fold ia ib.
  unfold flips_of. destruct (contract_patterns pa pb ia ib) as [op fl]. cbn [fst snd].
  assert (El : length ia = length idxa /\ length ib = length idxb) by (unfold ia, ib, norm_axes; now rewrite !map_length).
  destruct El as [-> ->]. destruct (Nat.eqb_spec (length idxa) (length idxb)) as [El|El]; cbn [negb]; [|tauto].
  rewrite adjust_all. destruct fl as [|f fl], b as [|b0 b]; cbn [bind]; (split; [try discriminate; intros _|intros [K|[K K']]; try discriminate; try tauto]).
  right. split; discriminate.
Qed.

Lemma tensordot_phase : forall (A B : nd R) idxa idxb (s s' : bool) xs,
  nget (nd_tensordot (nd_phase R (if s then -1 else 1) A) (nd_phase R (if s' then -1 else 1) B) idxa idxb) xs
  = nget (nd_phase R ((if s then -1 else 1) * (if s' then -1 else 1)) (nd_tensordot A B idxa idxb)) xs.
Proof.
  intros A B idxa idxb s s' xs.
  replace ((if s then -1 else 1) * (if s' then -1 else 1)) with (if xorb s s' then -1 else 1) by (destruct s, s'; reflexivity).
  rewrite nget_phase. unfold nget. cbn [nshape nval nd_tensordot nd_phase nd_map]. destruct (in_shapeb _ xs); [|now rewrite signed_0].
  rewrite <- signed_sum. apply bsum_ext. intros xc _. rewrite !mul_sign. symmetry. apply signed_mul.
Qed.
Lemma fcontribs_elem : forall a b idxa idxb outa outb qs xs,
  elem R L (fcontribs a b idxa idxb outa outb) qs xs = elem R L (contribs R L (phased true idxa a) (phased false idxb b) idxa idxb outa outb) qs xs.
Proof.
  intros a b idxa idxb outa outb qs xs. unfold elem, fcontribs, contribs. rewrite !bsum_flat_map. unfold phased at 1. rewrite bsum_map.
  apply bsum_ext. intros ba _. cbn [fst snd]. unfold phased. rewrite filter_map_comm. cbn [fst]. rewrite !bsum_map. apply bsum_ext. intros bb _.
  cbn [fst snd]. destruct (teqb _ qs); [|reflexivity].
  destruct (lab_phase_pm (fst ba) idxa true) as [s ->], (lab_phase_pm (fst bb) idxb false) as [s' ->]. symmetry. apply tensordot_phase.
Qed.
Lemma fcontribs_labels : forall a b idxa idxb outa outb,
  map (fun c => (fst c, nshape (snd c))) (fcontribs a b idxa idxb outa outb) = map (fun c => (fst c, nshape (snd c))) (contribs R L a b idxa idxb outa outb).
Proof.
  intros. unfold fcontribs, contribs. induction a as [|ba a IH]; cbn [flat_map]; [reflexivity|]. rewrite !map_app, IH, !map_map. reflexivity.
Qed.
Lemma wf_by_shapes : forall n dm t t', map (fun c => (fst c, nshape (snd c))) t = map (fun c : block => (fst c, nshape (snd c))) t' ->
  wf_tensor R L n dm t' -> wf_tensor R L n dm t.
Proof.
  intros n dm t t' E H b Hb. apply (in_map (fun c : block => (fst c, nshape (snd c)))) in Hb. rewrite E in Hb. apply in_map_iff in Hb.
  destruct Hb as (b' & F & Hb). injection F as F1 F2. rewrite <- F1, <- F2. exact (H b' Hb).
Qed.

Lemma norm_ndim : forall n dm t ax, wf_tensor R L n dm t -> t <> [] -> norm_axes (ndim R L t) ax = map (leg n) ax.
Proof. intros n dm t ax W N. now rewrite norm_axes_leg, (ndim_wf R L n dm t W N). Qed.

Section Con.
Variables (a b : ftensor R L) (na nb : Z) (dma dmb : Z -> L -> Z) (axa axb : list Z) (r : ftensor R L).
Hypothesis Wa : wf_tensor R L na dma (fst a).
Hypothesis Wb : wf_tensor R L nb dmb (fst b).
Let idxa := map (leg na) axa.
Let idxb := map (leg nb) axb.
Hypothesis Na : NoDup idxa.
Hypothesis Ia : forall i, In i idxa -> 0 <= i < na.
Hypothesis Nb : NoDup idxb.
Hypothesis Ib : forall i, In i idxb -> 0 <= i < nb.
Hypothesis Dab : forall i j q, In (i, j) (combine idxa idxb) -> dma i q = dmb j q.
Hypothesis E : ft_tensordot R L fermion a b axa axb = Some r.

Lemma con_len : length idxa = length idxb.
Proof. apply ft_tensordot_inv in E. unfold idxa, idxb. rewrite !map_length. tauto. Qed.
Lemma con_res : fst r = fold_left (put_with R L nd_add (fun x => x)) (fcontribs (fst a) (fst b) idxa idxb (others na idxa) (others nb idxb)) [].
Proof.
  apply ft_tensordot_inv in E. destruct E as (_ & _ & _ & ->). f_equal. destruct (fst a) as [|ba a'] eqn:Ea; [reflexivity|].
  rewrite (norm_ndim na dma (ba :: a') axa) by (auto; discriminate). rewrite (ndim_wf R L na dma (ba :: a')) by (auto; discriminate). fold idxa.
  destruct (fst b) as [|bb b'] eqn:Eb.
  - unfold fcontribs. clear. induction (ba :: a'); [reflexivity|]. cbn [flat_map filter map app]. exact IHl.
  - rewrite (norm_ndim nb dmb (bb :: b') axb) by (auto; discriminate). rewrite (ndim_wf R L nb dmb (bb :: b')) by (auto; discriminate). reflexivity.
Qed.
Lemma con_wf : wf_tensor R L (Z.of_nat (length (others na idxa)) + Z.of_nat (length (others nb idxb))) (dm_out L na nb dma dmb idxa idxb)
  (fcontribs (fst a) (fst b) idxa idxb (others na idxa) (others nb idxb)).
Proof. eapply wf_by_shapes; [apply fcontribs_labels|]. apply contribs_wf; auto using con_len.
Qed.

Lemma con_elem : forall Ls, NoDup Ls -> (forall q, In q Ls -> length q = length idxa) ->
  (forall ba, In ba (fst a) -> In (pick ll idxa (fst ba)) Ls) ->
  forall qoa qob xoa xob, length qoa = length (others na idxa) -> length qob = length (others nb idxb) ->
  length xoa = length (others na idxa) -> length xob = length (others nb idxb) ->
  elem R L (fst r) (qoa ++ qob) (xoa ++ xob) =
  bsum Ls (fun qc => bsum (all_idx (shape_of L dma idxa qc)) (fun xc =>
    let qa := merge ll na idxa qc qoa in let qb := merge ll nb idxb qc qob in
    signed (fermion && xorb (exchanged (odd_legs L qa) (others na idxa ++ rev idxa)) (exchanged (odd_legs L qb) (idxb ++ others nb idxb)))
      (rmul R (elem R L (fst a) qa (merge 0 na idxa xc xoa)) (elem R L (fst b) qb (merge 0 nb idxb xc xob))))).
Proof.
  intros Ls NL LL CL qoa qob xoa xob A1 A2 A3 A4. rewrite con_res, acc_plus_elem.
  - rewrite fcontribs_elem.
    rewrite (contribs_elem R L (phased true idxa (fst a)) (phased false idxb (fst b)) na nb dma dmb idxa idxb) with (Ls := Ls); auto using phased_wf, con_len.
    2:{ intros ba Hb. apply in_map_iff in Hb. destruct Hb as (b' & <- & Hb). cbn [fst]. now apply CL. }
    unfold elem at 1. rewrite bsum_nil. transitivity (bsum Ls (fun qc => bsum (all_idx (shape_of L dma idxa qc)) (fun xc =>
      rmul R (elem R L (phased true idxa (fst a)) (merge ll na idxa qc qoa) (merge 0 na idxa xc xoa))
             (elem R L (phased false idxb (fst b)) (merge ll nb idxb qc qob) (merge 0 nb idxb xc xob))))); [ring|].
    destruct (Z_lt_le_dec na 0) as [Na0|Na0].
    { (* no legs at all: no blocks *)
      assert (Ha : fst a = []).
      { destruct (fst a) as [|b0 a0] eqn:Ea; [reflexivity|]. destruct (Wa b0 (or_introl eq_refl)) as [K _]. lia. }
      rewrite Ha. apply bsum_ext. intros qc _. apply bsum_ext. intros xc _. cbn [phased map]. unfold elem at 1 3. rewrite bsum_nil.
      cbn zeta. unfold signed. destruct (_ && _); ring. }
    destruct (Z_lt_le_dec nb 0) as [Nb0|Nb0].
    { assert (Hb : fst b = []).
      { destruct (fst b) as [|b0 a0] eqn:Eb; [reflexivity|]. destruct (Wb b0 (or_introl eq_refl)) as [K _]. lia. }
      rewrite Hb. apply bsum_ext. intros qc _. apply bsum_ext. intros xc _. cbn [phased map]. unfold elem at 2 4. rewrite bsum_nil.
      cbn zeta. unfold signed. destruct (_ && _); ring. }
    apply bsum_ext. intros qc Hqc. apply bsum_ext. intros xc _. cbn zeta.
    set (qa := merge ll na idxa qc qoa). set (qb := merge ll nb idxb qc qob).
    assert (La : Z.of_nat (length qa) = na) by (unfold qa; rewrite merge_length; lia).
    assert (Lb : Z.of_nat (length qb) = nb) by (unfold qb; rewrite merge_length; lia).
    erewrite phased_elem by (rewrite lab_phase_right by (rewrite ?La; auto); reflexivity).
    erewrite (phased_elem false) by (rewrite lab_phase_left by (rewrite ?Lb; auto); reflexivity).
    rewrite La, Lb, <- signed_mul. f_equal. now destruct fermion.
  - constructor.
  - cbn [app]. eapply wf_same_shapes. apply con_wf.
Qed.

Lemma con_labels : forall qs, In qs (map fst (fst r)) <-> exists ba bb, In ba (fst a) /\ In bb (fst b) /\
  pick ll idxa (fst ba) = pick ll idxb (fst bb) /\ qs = pick ll (others na idxa) (fst ba) ++ pick ll (others nb idxb) (fst bb).
Proof.
  intros qs. rewrite con_res, acc_labels. cbn [map In].
  assert (M : map fst (fcontribs (fst a) (fst b) idxa idxb (others na idxa) (others nb idxb)) = map fst (contribs R L (fst a) (fst b) idxa idxb (others na idxa) (others nb idxb))).
  { pose proof (fcontribs_labels (fst a) (fst b) idxa idxb (others na idxa) (others nb idxb)) as H. apply (f_equal (map fst)) in H. now rewrite !map_map in H. }
  rewrite M, in_map_iff. split.
  - intros [[]|(c & <- & Hc)]. apply contribs_in in Hc. destruct Hc as (ba & bb & A & B & C & ->). exists ba, bb. auto.
  - intros (ba & bb & A & B & C & ->). right. eexists. split; [|apply contribs_in; exists ba, bb; repeat split; eauto]. reflexivity.
Qed.
Lemma con_nodup : NoDup (map fst (fst r)).
Proof. rewrite con_res. apply acc_keys. constructor. Qed.
End Con.
End FT.
