(** Lemmas for C64: a table made from a tensor is the same tensor. *)
From Coq Require Import ZArith Bool List Lia Ring.
From Verif Require Import SymModel SymProofs DictLib IndexLib OptLib RingLib BondModel BondProofs FuseModel FuseProofs BlockProofs StructModel SumProofs MpsModel MpsChain MpsProofs MpsDot CanonSites MpoMul TosModel TosProofs TosProps FspModel FspProofs.
Import ListNotations.
Open Scope Z_scope.

Lemma combine_map : forall (A B : Type) (g : A -> B) l, combine l (map g l) = map (fun x => (x, g x)) l.
Proof. intros A B g. induction l as [|x l IH]; [reflexivity|]. cbn. now rewrite IH. Qed.
Lemma foldM_ext : forall (A B : Type) (f g : B -> A -> option B) l b, (forall b x, In x l -> f b x = g b x) -> foldM f b l = foldM g b l.
Proof. intros A B f g. induction l as [|x l IH]; intros b H; [reflexivity|]. cbn [foldM]. rewrite H by (now left). destruct (g b x); [|reflexivity]. cbn [bind]. apply IH. intros; apply H; now right. Qed.

Lemma numbered_nth : forall (A : Type) (l : list A) a i, nth_error (combine (seq a (length l)) l) i = option_map (pair (a + i)%nat) (nth_error l i).
Proof. intros A. induction l as [|x l IH]; intros a [|i]; cbn [length seq combine nth_error option_map]; try reflexivity; [now rewrite Nat.add_0_r|]. rewrite IH. now rewrite Nat.add_succ_comm. Qed.
Lemma numbered_in : forall (A : Type) (l : list A) k x, In (k, x) (combine (seq 0 (length l)) l) -> nth_error l k = Some x.
Proof. intros A l k x I. apply In_nth_error in I. destruct I as [i I]. rewrite numbered_nth in I. destruct (nth_error l i) eqn:E; [|discriminate]. cbn [option_map Nat.add] in I. injection I as <- <-. exact E. Qed.

Section Round.
Variable R : CRing.
Add Ring Rr : (rth R).
Variable L : Label.
Notation tensor := (list (list L * nd R)).
Notation binfo := (dict L Z).
Notation state := (L * Z)%type.
Notation "0'" := (r0 R). Notation "1'" := (r1 R).
Infix "+'" := (radd R) (at level 50, left associativity).
Infix "*'" := (rmul R) (at level 40, left associativity).
Notation times := (times L).
Notation col_state := (col_state L).
Notation labels := (labels L).
Notation ops := (dict nat (pten R L)).
Notation opart := (opart R L).
Variable small : nd R -> bool.
Hypothesis small_spec : forall x, small x = true <-> forall xs, nget x xs = 0'.

Lemma half_par : forall qs : list L, qpar L (half_charge L qs) = parity qs.
Proof using.
  assert (F : forall (l : list L) a, qpar L (fold_left (qadd L) l a) = xorb (qpar L a) (parity l)).
  { induction l as [|x l IH]; intros a; cbn [fold_left parity fold_right]; [now rewrite xorb_false_r|]. rewrite IH, qpar_add, <- xorb_assoc. reflexivity. }
  assert (PN : forall a, qpar L (qneg L a) = qpar L a). { intros a. assert (X := qpar_add L (qneg L a) a). rewrite qadd_neg, qpar_0 in X. destruct (qpar L (qneg L a)), (qpar L a); (reflexivity || discriminate). }
  assert (P2 : forall a b : list L, parity (a ++ b) = xorb (parity a) (parity b)). { induction a as [|x a IH]; intros b; cbn [app parity fold_right]; [now rewrite xorb_false_l|]. unfold parity in IH. now rewrite IH, xorb_assoc. }
  intros qs. unfold half_charge. rewrite qsub_def, qpar_add, PN, !F, qpar_0, !xorb_false_l. now rewrite <- P2, firstn_skipn.
Qed.

Variables (li ri : binfo) (n : Z) (dp : Z -> L -> Z) (od ev : tensor).
Hypothesis Wl : wf L li.
Hypothesis Wr : wf L ri.
Hypothesis W : wf_site n (bget L li) dp (bget L ri) (FT od ev).
Notation s := (FT (R := R) (L := L) od ev).
Notation origin := (origin R L small li ri).
Notation contrib := (contrib R L li ri).
Lemma parts_split : exists mo me, split_blocks R L small li ri od = Some mo /\ split_blocks R L small li ri ev = Some me /\
  forall odd : bool, inv R L (origin (part s odd)) (if odd then mo else me) /\ forall ps l r, selem s (odd, ps) l r = bsum (if odd then mo else me) (fun e => contrib l r (map fst ps) (map snd ps) (fst e) (snd e)).
Proof.
  assert (Bk : forall odd b, In b (part s odd) -> block_ok R L li ri b).
  { intros odd b I. destruct (site_block R L n _ dp _ _ W odd b I) as (ql & qm & qr & E & Lm & (m & Sm & _) & P1 & P2). exists ql, qm, qr, m. auto. }
  destruct (split_ok R L small small_spec li ri Wl Wr od (Bk true)) as (mo & Eo & Io & Vo). destruct (split_ok R L small small_spec li ri Wl Wr ev (Bk false)) as (me & Ee & Ie & Ve).
  exists mo, me. split; [exact Eo|]. split; [exact Ee|]. intros [|]; (split; [assumption|]); intros; unfold selem; cbn [part fst snd]; [now rewrite Vo|now rewrite Ve].
Qed.
(* the operators have the shape of the physical legs *)
Lemma origin_fit : forall odd k x, origin (part s odd) k x -> Z.of_nat (length (fst x)) = n - 2 /\ nshape (snd x) = shape_of L (fun i => dp (1 + i)) (zrange (n - 2)) (fst x) /\ Forall (fun d => 0 < d) (nshape (snd x)).
Proof.
  intros odd k x (b & ql & qr & sm & il & ir & Ib & Eb & Sb & Ex & _). destruct W as [Hn H]. destruct (H odd) as (Wt & Pos & _). destruct (Wt b Ib) as [Lb Shb]. specialize (Pos b Ib). rewrite Eb in Lb. cbn [length] in Lb. rewrite app_length in Lb. cbn [length] in Lb.
  assert (Lx : Z.of_nat (length (fst x)) = n - 2) by lia. split; [exact Lx|]. rewrite Ex. unfold slice. cbn [nshape]. rewrite Sb, mid_cons. rewrite Sb in Pos. split.
  - rewrite Sb, Eb, (shape_site L) in Shb by lia. injection Shb as E2. apply app_inj_tail in E2. destruct E2 as [-> _]. unfold mids, shape_of. generalize (zrange (n - 2)) (fst x). clear. induction l as [|a l IH]; intros [|y q]; cbn; try reflexivity. now rewrite IH.
  - inversion Pos as [|? ? _ P2]; subst. apply Forall_app in P2. apply P2.
Qed.
Lemma origin_labels : forall odd k x, origin (part s odd) k x -> (fst k < length (labels li))%nat /\ (snd k < length (labels ri))%nat /\ In (nth (fst k) (labels li) (q0 L) :: fst x ++ [nth (snd k) (labels ri) (q0 L)]) (map fst (part s odd)).
Proof.
  intros odd k x (b & ql & qr & sm & il & ir & Ib & Eb & Sb & Ex & _ & K1 & K2 & _ & _ & C1 & C2). split; [exact K1|]. split; [exact K2|].
  unfold TosProps.col_state in C1, C2. injection C1 as C1 _. injection C2 as C2 _. rewrite C1, C2, <- Eb. now apply in_map.
Qed.
Lemma hit_at : forall d l r k, (fst k < length (labels li))%nat -> (snd k < length (labels ri))%nat -> at_row L d (map (qsub L d) (labels li)) (fst k) l && at_col L (labels ri) (snd k) r = hit L li ri l r k.
Proof.
  intros d l r k K1 K2. unfold hit. f_equal.
  - apply eq_true_iff_eq. rewrite at_row_spec by (now rewrite map_length). rewrite row_state_map by exact K1. destruct (st_dec L l _); intuition congruence.
  - apply eq_true_iff_eq. rewrite at_col_spec by exact K2. destruct (st_dec L r _); intuition congruence.
Qed.
Notation to_sparse := (to_sparse R L nat Nat.eqb).
Definition same_site (s' : site R L) : Prop := kind s' = true /\ wf_site n (bget L li) dp (bget L ri) s' /\ (forall odd qs, In qs (map fst (part s' odd)) -> In qs (map fst (part s odd))) /\ forall p l r, selem s' p l r = selem s p l r.

(** *** matrices *)
Lemma round_matrix : forall dq, 3 <= n -> operator_site s -> (dq = None -> li <> []) ->
  exists y s', from_sparse R L small s 1 li ri dq = Some y /\ tab_to_sparse R L dq y = Some s' /\ same_site s'.
Proof.
  intros dq Hn [_ Op] Nl. destruct parts_split as (mo & me & Eo & Ee & H). unfold from_sparse.
  set (d := charge_of L dq). assert (Ed : match dq, li with Some q, _ => Some q | None, [] => None | None, _ => Some (q0 L) end = Some d) by (unfold d; destruct dq as [q|]; [reflexivity|]; destruct li; [now elim Nl|reflexivity]).
  rewrite Ed. cbn [bind]. rewrite Eo, Ee. cbn [bind]. change (1 =? 0) with false. change (1 =? -1) with false. change (1 =? 1) with true. cbv iota.
  set (es := mo ++ me). set (ns := combine (seq 0 (length es)) es).
  assert (Oe : forall e, In e es -> exists odd, In e (if odd : bool then mo else me)) by (intros e I; unfold es in I; apply in_app_iff in I; destruct I; [exists true|exists false]; assumption).
  set (cls := fun v : tensor => match v with (qs, _) :: _ => if parity qs then PTen R L v [] else PTen R L [] v | [] => PNum R L end).
  assert (Vs : mapM (fun p : nat * ((nat * nat) * tensor) => do x <- matrix_entry R L (snd (snd p)); Some (fst p, x)) ns = Some (map (fun p => (fst p, cls (snd (snd p)))) ns)).
  { apply mapM_total. intros [i [k v]] I. cbn [fst snd]. assert (Ie : In (k, v) es) by (unfold ns in I; apply in_combine_r in I; exact I). destruct (Oe _ Ie) as [odd Io]. destruct (H odd) as [[_ Hv] _]. destruct (Hv k v Io) as [Nv Ov].
    destruct v as [|x v]; [now elim Nv|]. destruct (origin_fit odd k x (Ov x (or_introl eq_refl))) as [Lx _]. destruct x as [[|q qs] x]; cbn [fst] in Lx; [cbn in Lx; lia|]. cbn [matrix_entry]. rewrite half_par. reflexivity. }
  rewrite Vs. cbn [bind]. eexists. unfold tab_to_sparse. cbn [y_mat y_ops y_lop y_rop].
  set (mat := Mat R nat (map (fun p : nat * ((nat * nat) * tensor) => (fst (snd p), Some (1', fst p))) ns)).
  assert (Em : entries R nat mat = map (fun p : nat * ((nat * nat) * tensor) => (fst (snd p), (1', fst p))) ns).
  { unfold mat. cbn [entries]. clear. induction ns as [|p l IH]; [reflexivity|]. cbn [map flat_map present snd fst app]. now rewrite IH. }
  assert (Nk : NoDup (map fst ns)) by (unfold ns; rewrite map_fst_combine by (now rewrite seq_length); apply seq_NoDup).
  assert (Dg : forall p, In p ns -> dget Nat.eqb (map (fun p : nat * ((nat * nat) * tensor) => (fst p, cls (snd (snd p)))) ns) (fst p) = Some (cls (snd (snd p)))).
  { intros p I. apply (in_dget _ Nat.eqb_spec); [unfold keys; rewrite map_map; exact Nk|]. apply in_map_iff. exists p. auto. }
  assert (Cl : forall odd k v, In (k, v) (if odd : bool then mo else me) -> cls v = if odd then PTen R L v [] else PTen R L [] v).
  { intros odd k v I. destruct (H odd) as [[_ Hv] _]. destruct (Hv k v I) as [Nv Ov]. destruct v as [|x v]; [now elim Nv|]. destruct (origin_labels odd k x (Ov x (or_introl eq_refl))) as (_ & _ & Il). destruct (Op odd _ _ _ Il) as [_ Pm]. unfold cls. destruct x as [qs x]. cbn [fst] in Pm. rewrite Pm. destruct odd; reflexivity. }
  assert (Hb : forall p, In p ns -> exists odd, In (snd p) (if odd : bool then mo else me) /\ forall odd' b, In b (opart (cls (snd (snd p))) odd') -> odd' = odd /\ origin (part s odd) (fst (snd p)) b).
  { intros [i [k v]] I. cbn [fst snd]. assert (Ie : In (k, v) es) by (unfold ns in I; apply in_combine_r in I; exact I). destruct (Oe _ Ie) as [odd Io]. exists odd. split; [exact Io|]. intros odd' b Ib. rewrite (Cl odd k v Io) in Ib.
    destruct (H odd) as [[_ Hv] _]. destruct (Hv k v Io) as [_ Ov]. destruct odd, odd'; cbn [TosProofs.opart] in Ib; try contradiction; auto. }
  destruct (to_sparse_some R L nat Nat.eqb n dp (map (fun p : nat * ((nat * nat) * tensor) => (fst p, cls (snd (snd p)))) ns) mat (map (qsub L d) (labels li)) (labels ri) dq (fun odd l m r => In (l :: m ++ [r]) (map fst (part s odd)))) as (od' & ev' & E & W' & G & V); [lia| | |].
  - intros c I. rewrite Em in I. apply in_map_iff in I. destruct I as (p & <- & Ip). cbn [fst snd]. unfold mat. cbn [rows cols is_matrix]. rewrite map_length. destruct (Hb p Ip) as (odd & Io & Ho). destruct p as [i [k v]]. cbn [fst snd] in *.
    destruct (H odd) as [[_ Hv] _]. destruct (Hv k v Io) as [Nv Ov]. assert (Kx : (fst k < length (labels li))%nat /\ (snd k < length (labels ri))%nat). { destruct v as [|x v]; [now elim Nv|]. destruct (origin_labels odd k x (Ov x (or_introl eq_refl))) as (K1 & K2 & _). auto. }
    split; [apply Kx|]. split; [apply Kx|]. exists (cls v). split; [apply (Dg (i, (k, v)) Ip)|]. split; [rewrite (Cl odd k v Io); destruct odd; discriminate|].
    intros odd'. split; [intros b Ib|intros b Ib]; destruct (Ho odd' b Ib) as [-> Or]; destruct (origin_fit odd k b Or) as (A1 & A2 & A3); auto.
  - intros c x odd' b I D Ib. rewrite Em in I. apply in_map_iff in I. destruct I as (p & <- & Ip). cbn [fst snd] in *. rewrite (Dg p Ip) in D. injection D as <-. destruct (Hb p Ip) as (odd & _ & Ho). destruct (Ho odd' b Ib) as [-> Or]. destruct (origin_labels odd _ b Or) as (K1 & K2 & Il).
    unfold mat. cbn [rows cols]. fold d. rewrite (nth_indep _ _ (qsub L d (q0 L))) by (now rewrite map_length). rewrite map_nth, sub_sub. exact Il.
  - exists (FT od' ev'). split; [reflexivity|]. split; [exact E|]. split; [reflexivity|]. split; [|split].
    + unfold mat in W'. cbn [rows cols] in W'. destruct W' as [W1 W2]. split; [exact W1|]. intros odd. specialize (W2 odd). destruct W2 as (W2 & W3 & W4). split; [|auto].
      intros b Ib. destruct (W2 b Ib) as [A1 A2]. split; [exact A1|]. rewrite A2. unfold shape_of. apply map_ext. intros [i q]. cbn [fst snd]. unfold ldim. destruct (i =? 0); [|destruct (i =? n - 1); [apply times_labels, Wr|reflexivity]].
      fold d. rewrite <- (times_labels L li q Wl). unfold TosProps.times. f_equal. clear. induction (labels li) as [|x l IH]; [reflexivity|]. cbn [map filter]. destruct (qeqb_spec L (qsub L d q) (qsub L d x)) as [E|N], (qeqb_spec L q x) as [E'|N']; cbn [length]; try (now rewrite IH); [apply (sub_inj L) in E; congruence|subst; congruence].
    + intros odd qs I. destruct W' as [W1 W2]. destruct (W2 odd) as (W3 & _). assert (I' := I). apply in_map_iff in I. destruct I as (b & <- & Ib). destruct (W3 b Ib) as [Lb _]. destruct (ends L (q0 L) (fst b)) as (l & m & r & Eb & _); [lia|]. rewrite Eb in *. now apply G.
    + intros [odd ps] l r. rewrite V, Em, bsum_map. destruct (H odd) as [_ Hs]. rewrite Hs. cbn [fst snd].
      transitivity (bsum ns (fun p => if hit L li ri l r (fst (snd p)) then elem R L (opart (cls (snd (snd p))) odd) (map fst ps) (map snd ps) else 0')).
      { apply bsum_ext. intros p Ip. unfold mat. cbn [rows cols]. fold d. destruct (Hb p Ip) as (o & Io & _). destruct (H o) as [[_ Hv] _]. destruct p as [i [k v]]. cbn [fst snd] in *. destruct (Hv k v Io) as [Nv Ov]. destruct v as [|x v]; [now elim Nv|]. destruct (origin_labels o k x (Ov x (or_introl eq_refl))) as (K1 & K2 & _).
        rewrite hit_at by assumption. destruct (hit L li ri l r k); [|reflexivity]. unfold entry_value. cbn [fst snd]. change i with (fst (i, (k, x :: v))) at 1. rewrite (Dg (i, (k, x :: v)) Ip). cbn [fst snd]. ring. }
      transitivity (bsum es (fun e => if hit L li ri l r (fst e) then elem R L (opart (cls (snd e)) odd) (map fst ps) (map snd ps) else 0')).
      { transitivity (bsum (map snd ns) (fun e => if hit L li ri l r (fst e) then elem R L (opart (cls (snd e)) odd) (map fst ps) (map snd ps) else 0')); [now rewrite bsum_map|]. unfold ns. now rewrite map_snd_combine by (now rewrite seq_length). }
      unfold es. rewrite bsum_app. assert (Z0 : forall o : bool, o <> odd -> bsum (if o then mo else me) (fun e => if hit L li ri l r (fst e) then elem R L (opart (cls (snd e)) odd) (map fst ps) (map snd ps) else 0') = 0').
      { intros o No. apply bsum_zero. intros [k v] Io. cbn [fst snd]. rewrite (Cl o k v Io). destruct (hit L li ri l r k); [|reflexivity]. destruct o, odd; try congruence; cbn [TosProofs.opart]; reflexivity. }
      assert (Z1 : bsum (if odd then mo else me) (fun e => if hit L li ri l r (fst e) then elem R L (opart (cls (snd e)) odd) (map fst ps) (map snd ps) else 0') = bsum (if odd then mo else me) (fun e => contrib l r (map fst ps) (map snd ps) (fst e) (snd e))).
      { apply bsum_ext. intros [k v] Io. cbn [fst snd]. rewrite (Cl odd k v Io). unfold FspProofs.contrib. destruct odd; reflexivity. }
      destruct odd; [rewrite Z1, (Z0 false ltac:(discriminate))|rewrite Z1, (Z0 true ltac:(discriminate))]; ring.
Qed.

(** *** vectors *)
Notation bmap := (list ((nat * nat) * tensor)).
Definition dflt (o : option tensor) : tensor := match o with Some v => v | None => [] end.
Notation get := (dget key_eqb).
Lemma add_entries_ok : forall axis (odd : bool) (mb : bmap) (m : ops), (forall k, axis (axis k) = k) -> NoDup (map fst mb) -> (forall e, In e mb -> fst (axis (fst e)) = 0%nat) ->
  exists m', foldM (add_entry R L axis odd) m mb = Some m' /\ forall i, dget Nat.eqb m' i = match get mb (axis (0%nat, i)) with
    | None => dget Nat.eqb m i
    | Some v => Some (let '(o, e) := match dget Nat.eqb m i with Some (PTen _ _ o e) => (o, e) | _ => ([], []) end in if odd then PTen R L (o ++ v) e else PTen R L o (e ++ v)) end.
Proof using.
  clear. intros axis odd. induction mb as [|[k v] mb IH]; intros m Ax N H; cbn [foldM].
  - exists m. split; [reflexivity|]. reflexivity.
  - cbn [map fst] in N. inversion N as [|? ? N1 N2]; subst. assert (K0 := H _ (or_introl eq_refl)). cbn [fst] in K0. unfold add_entry at 1. cbn [fst snd]. rewrite K0. cbn [Nat.eqb bind].
    set (j := snd (axis k)). assert (Ek : k = axis (0%nat, j)) by (rewrite <- (Ax k); f_equal; unfold j; rewrite <- K0; apply surjective_pairing).
    destruct (IH (add_part R L odd m j v) Ax N2 (fun e I => H e (or_intror I))) as (m' & E & V). exists m'. split; [exact E|]. intros i. rewrite V. cbn [dget]. unfold add_part.
    destruct (key_spec k (axis (0%nat, i))) as [E1|N3].
    + assert (j = i) by (apply (f_equal axis) in E1; rewrite Ax in E1; unfold j; now rewrite E1). subst i. destruct (get mb (axis (0%nat, j))) as [w|] eqn:G; [elim N1; rewrite Ek; apply (dget_some_key _ key_spec) in G; exact G|].
      destruct (match dget Nat.eqb m j with Some (PTen _ _ o e) => (o, e) | _ => ([], []) end) as [o e]. rewrite (dget_dset _ Nat.eqb_spec), Nat.eqb_refl. reflexivity.
    + assert (Nj : j <> i) by (intros <-; now elim N3). assert (D : dget Nat.eqb (let '(o, e) := match dget Nat.eqb m j with Some (PTen _ _ o e) => (o, e) | _ => ([], []) end in dset Nat.eqb m j (if odd then PTen R L (o ++ v) e else PTen R L o (e ++ v))) i = dget Nat.eqb m i).
      { destruct (match dget Nat.eqb m j with Some (PTen _ _ o e) => (o, e) | _ => ([], []) end) as [o e]. rewrite (dget_dset _ Nat.eqb_spec). destruct (Nat.eqb_spec j i); [contradiction|reflexivity]. }
      rewrite D. reflexivity.
Qed.
Lemma vector_ops_ok : forall axis (mo me : bmap), (forall k, axis (axis k) = k) -> (forall odd : bool, NoDup (map fst (if odd then mo else me)) /\ forall e, In e (if odd then mo else me) -> fst (axis (fst e)) = 0%nat) ->
  exists m, vector_ops R L axis mo me = Some m /\ forall i, dget Nat.eqb m i = match get mo (axis (0%nat, i)), get me (axis (0%nat, i)) with None, None => None | o, e => Some (PTen R L (dflt o) (dflt e)) end.
Proof using.
  clear. intros axis mo me Ax H. destruct (H true) as [N1 H1]. destruct (H false) as [N2 H2]. unfold vector_ops.
  destruct (add_entries_ok axis true mo [] Ax N1 H1) as (m1 & E1 & V1). rewrite E1. cbn [bind]. destruct (add_entries_ok axis false me m1 Ax N2 H2) as (m2 & E2 & V2). exists m2. split; [exact E2|].
  intros i. rewrite V2, V1. cbn [dget]. destruct (get mo (axis (0%nat, i))) as [v|], (get me (axis (0%nat, i))) as [w|]; reflexivity.
Qed.
Lemma dict_sum : forall axis (F : nat * nat -> tensor -> R) N (mb : bmap), (forall k, axis (axis k) = k) -> (forall k, F k [] = 0') -> NoDup (map fst mb) -> (forall e, In e mb -> fst (axis (fst e)) = 0%nat /\ (snd (axis (fst e)) < N)%nat) ->
  bsum mb (fun e => F (fst e) (snd e)) = bsum (seq 0 N) (fun i => F (axis (0%nat, i)) (dflt (get mb (axis (0%nat, i))))).
Proof using.
  clear. intros axis F N mb Ax F0. induction mb as [|[k v] mb IH]; intros Nd H; [rewrite bsum_nil; symmetry; apply bsum_zero; intros; apply F0|].
  cbn [map fst] in Nd. inversion Nd as [|? ? N1 N2]; subst. rewrite bsum_cons, IH by (auto; intros; apply H; now right). cbn [fst snd]. destruct (H _ (or_introl eq_refl)) as [K0 K1]. cbn [fst] in K0, K1. set (j := snd (axis k)) in *.
  assert (Ek : k = axis (0%nat, j)) by (rewrite <- (Ax k); f_equal; unfold j; rewrite <- K0; apply surjective_pairing).
  transitivity (bsum (seq 0 N) (fun i => (if Nat.eqb i j then F k v else 0') +' F (axis (0%nat, i)) (dflt (get mb (axis (0%nat, i)))))).
  - rewrite bsum_add. f_equal. rewrite (bsum_single R _ _ _ j (seq_NoDup N 0)); [now rewrite Nat.eqb_refl|apply in_seq; lia|]. intros i _ Ne. destruct (Nat.eqb_spec i j); [contradiction|reflexivity].
  - apply bsum_ext. intros i _. cbn [dget]. destruct (key_spec k (axis (0%nat, i))) as [E|Ne].
    + assert (j = i) by (apply (f_equal axis) in E; rewrite Ax in E; unfold j; now rewrite E). subst i. rewrite Nat.eqb_refl. destruct (get mb (axis (0%nat, j))) as [w|] eqn:G; [elim N1; rewrite Ek; apply (dget_some_key _ key_spec) in G; exact G|]. cbn [dflt]. rewrite F0, <- E. ring.
    + destruct (Nat.eqb_spec i j) as [->|]; [now elim Ne|]. ring.
Qed.

(* labels dropped as a whole do not change the numbering of the others *)
Notation thin f l := (map (fun p : nat * L => if f (fst p) : bool then Some (snd p) else None) (combine (seq 0 (length l)) l)).
Lemma thin_count : forall (f : nat -> bool) q l a k, (forall j, (j < length l)%nat -> nth j l (q0 L) = q -> f (a + j)%nat = true) ->
  count L (Some q) (firstn k (map (fun p : nat * L => if f (fst p) then Some (snd p) else None) (combine (seq a (length l)) l))) = count L (Some q) (firstn k (map Some l)).
Proof using.
  clear. intros f q. induction l as [|x l IH]; intros a k H; [reflexivity|]. destruct k as [|k]; [reflexivity|]. cbn [length seq combine map firstn count fst snd].
  rewrite (IH (S a) k). 2:{ intros j Hj E. rewrite Nat.add_succ_comm. apply H; [cbn; lia|exact E]. }
  assert (H0 := H 0%nat ltac:(cbn; lia)). cbn [nth] in H0. rewrite Nat.add_0_r in H0. destruct (f a) eqn:E; [reflexivity|]. cbn [oq_eqb]. destruct (qeqb_spec L x q) as [->|N]; [discriminate (H0 eq_refl)|reflexivity].
Qed.
Lemma thin_place : forall (f : nat -> bool) l i, (i < length l)%nat -> (forall j, (j < length l)%nat -> nth j l (q0 L) = nth i l (q0 L) -> f j = true) -> place L (thin f l) i = place L (map Some l) i.
Proof using.
  clear. intros f l i Hi H. set (q := nth i l (q0 L)) in *. assert (E : nth_error l i = Some q) by (now apply nth_error_nth').
  assert (Lt : length (thin f l) = length l) by (rewrite map_length, combine_length, seq_length; lia).
  rewrite (place_some L (map Some l) i q) by (now apply (map_nth_error Some)). rewrite (place_some L (thin f l) i q).
  - rewrite (thin_count f q l 0 i) by exact H. assert (C := thin_count f q l 0 (length l) H). rewrite !firstn_all2 in C by (rewrite ?Lt, ?map_length; lia). now rewrite C.
  - erewrite map_nth_error by (rewrite numbered_nth, E; reflexivity). cbn [fst snd Nat.add]. now rewrite (H i Hi eq_refl).
Qed.
Lemma row_ext : forall cells (o : ops) lop lop' rop rop' dq, (forall k c, nth_error cells k = Some (Some c) -> place L rop k = place L rop' k) -> to_sparse (RowV R nat cells) o lop rop dq = to_sparse (RowV R nat cells) o lop' rop' dq.
Proof using.
  clear. intros cells o lop lop' rop rop' dq H. unfold TosModel.to_sparse. f_equal. apply foldM_ext. intros mb [k [c|]] I; [|reflexivity]. cbn [fst snd add_cell]. rewrite (H k c); [reflexivity|]. now apply numbered_in.
Qed.
Lemma col_ext : forall cells (o : ops) lop lop' rop rop' dq, (forall k c, nth_error cells k = Some (Some c) -> place L lop k = place L lop' k) -> to_sparse (ColV R nat cells) o lop rop dq = to_sparse (ColV R nat cells) o lop' rop' dq.
Proof using.
  clear. intros cells o lop lop' rop rop' dq H. unfold TosModel.to_sparse. f_equal. apply foldM_ext. intros mb [k [c|]] I; [|reflexivity]. cbn [fst snd add_cell]. rewrite (H k c); [reflexivity|]. now apply numbered_in.
Qed.

(* side: the vector runs over the right (true) or the left (false) bond *)
Section Vector.
Variable side : bool.
Definition axis (k : nat * nat) : nat * nat := if side then k else (snd k, fst k).
Definition info : binfo := if side then ri else li.
Definition other : binfo := if side then li else ri.
Definition sel (p : bool * list state) (x y : state) : R := if side then selem s p x y else selem s p y x.
Hypothesis One : length (labels other) = 1%nat.
Hypothesis Uni : forall q i j, 0 <= i < bget L info q -> 0 <= j < bget L info q -> (forall p x, sel p x (q, i) = 0') -> forall p x, sel p x (q, j) = 0'.
Variables mo me : bmap.
Notation mb odd := (if odd : bool then mo else me).
Hypothesis Hmb : forall odd : bool, inv R L (origin (part s odd)) (mb odd) /\ forall ps l r, selem s (odd, ps) l r = bsum (mb odd) (fun e => contrib l r (map fst ps) (map snd ps) (fst e) (snd e)).

Lemma axis_axis : forall k, axis (axis k) = k.
Proof using. clear. intros [a b]. unfold axis. destruct side; reflexivity. Qed.
Lemma mb_origin : forall odd k v, In (k, v) (mb odd) -> exists x, In x v /\ origin (part s odd) k x.
Proof. intros odd k v I. destruct (Hmb odd) as [[_ H] _]. destruct (H k v I) as [Nv Ov]. destruct v as [|x v]; [now elim Nv|]. exists x. split; [now left|apply Ov; now left]. Qed.
Lemma mb_keys : forall odd e, In e (mb odd) -> fst (axis (fst e)) = 0%nat /\ (snd (axis (fst e)) < length (labels info))%nat.
Proof.
  clear Uni. intros odd [k v] I. cbn [fst]. destruct (mb_origin odd k v I) as (x & _ & Or). destruct (origin_labels odd k x Or) as (K1 & K2 & _). unfold axis, info, other in *. destruct side; cbn [fst snd]; lia.
Qed.
Lemma mops_some : exists m, vector_ops R L axis mo me = Some m /\ forall i, dget Nat.eqb m i = match get mo (axis (0%nat, i)), get me (axis (0%nat, i)) with None, None => None | o, e => Some (PTen R L (dflt o) (dflt e)) end.
Proof. apply vector_ops_ok; [apply axis_axis|]. intros odd. split; [apply (Hmb odd)|]. intros e I. apply (mb_keys odd e I). Qed.
Variable m : ops.
Hypothesis Hm : forall i, dget Nat.eqb m i = match get mo (axis (0%nat, i)), get me (axis (0%nat, i)) with None, None => None | o, e => Some (PTen R L (dflt o) (dflt e)) end.
Notation kept := (kept R L m).
Lemma kept_op : forall i, kept i = true -> exists x, dget Nat.eqb m i = Some x /\ x <> PNum R L /\ forall odd, opart x odd = dflt (get (mb odd) (axis (0%nat, i))).
Proof.
  intros i K. unfold FspModel.kept in K. rewrite Hm in *. destruct (get mo (axis (0%nat, i))) as [v|] eqn:E1, (get me (axis (0%nat, i))) as [w|] eqn:E2; try discriminate; (eexists; split; [reflexivity|]; split; [discriminate|]; intros []; rewrite ?E1, ?E2; reflexivity).
Qed.
Lemma not_kept : forall i, kept i = false -> forall odd, get (mb odd) (axis (0%nat, i)) = None.
Proof. intros i K odd. unfold FspModel.kept in K. rewrite Hm in K. destruct odd; destruct (get mo (axis (0%nat, i))), (get me (axis (0%nat, i))); try discriminate; reflexivity. Qed.
Lemma kept_origin : forall i, kept i = true -> exists odd v x, get (mb odd) (axis (0%nat, i)) = Some v /\ In x v /\ origin (part s odd) (axis (0%nat, i)) x.
Proof.
  intros i K. unfold FspModel.kept in K. rewrite Hm in K. assert (X : exists odd v, get (mb odd) (axis (0%nat, i)) = Some v).
  { destruct (get mo (axis (0%nat, i))) as [v|] eqn:E1; [exists true, v; exact E1|]. destruct (get me (axis (0%nat, i))) as [w|] eqn:E2; [exists false, w; exact E2|]. discriminate. }
  destruct X as (odd & v & E). exists odd, v. destruct (mb_origin odd _ v (dget_in _ key_spec _ _ _ E)) as (x & Ix & Or). exists x. auto.
Qed.
Lemma kept_lt : forall i, kept i = true -> (i < length (labels info))%nat.
Proof. intros i K. destruct (kept_origin i K) as (odd & v & x & E & _). apply (dget_in _ key_spec) in E. apply mb_keys in E. cbn [fst] in E. rewrite axis_axis in E. apply E. Qed.
Lemma op_origin : forall i odd x, In x (dflt (get (mb odd) (axis (0%nat, i)))) -> origin (part s odd) (axis (0%nat, i)) x.
Proof. intros i odd x I. destruct (get (mb odd) (axis (0%nat, i))) as [v|] eqn:E; [|destruct I]. cbn [dflt] in I. apply (dget_in _ key_spec) in E. destruct (Hmb odd) as [[_ H] _]. now apply (H _ _ E). Qed.
Lemma unused : forall i, kept i = false -> (i < length (labels info))%nat -> forall p x, sel p x (col_state (labels info) i) = 0'.
Proof.
  intros i K Hi [odd ps] x. assert (N := not_kept i K odd). destruct (Hmb odd) as [[Nd _] Hs].
  assert (Z0 : forall l r, (forall k v, In (k, v) (mb odd) -> hit L li ri l r k = true -> k = axis (0%nat, i)) -> selem s (odd, ps) l r = 0').
  { intros l r H. rewrite Hs. apply bsum_zero. intros [k v] I. cbn [fst snd]. unfold FspProofs.contrib. destruct (hit L li ri l r k) eqn:Hh; [|reflexivity]. rewrite (H k v I Hh) in I. apply (in_dget _ key_spec _ _ _ Nd) in I. discriminate (eq_trans (eq_sym N) I). }
  unfold sel. assert (Kc : forall k v, In (k, v) (mb odd) -> col_state (labels info) i = col_state (labels info) (snd (axis k)) -> k = axis (0%nat, i)).
  { intros k v I E. destruct (mb_keys odd _ I) as [K0 K1]. cbn [fst] in K0, K1. apply col_inj in E; auto. rewrite <- (axis_axis k). f_equal. rewrite E, <- K0. apply surjective_pairing. }
  unfold info, axis in *. destruct side; apply Z0; intros k v I Hh; apply (Kc k v I); unfold hit in Hh; apply andb_true_iff in Hh; destruct Hh as [H1 H2]; [destruct (st_dec L (col_state (labels ri) i) (col_state (labels ri) (snd k))); [assumption|discriminate]|destruct (st_dec L (col_state (labels li) i) (col_state (labels li) (fst k))); [assumption|discriminate]].
Qed.
Lemma used : forall i, kept i = true -> ~ forall p x, sel p x (col_state (labels info) i) = 0'.
Proof.
  clear Uni. intros i K H. destruct (kept_origin i K) as (odd & v & x & E & Ix & Or). assert (Or' := Or). destruct Or' as (b & ql & qr & sm & il & ir & Ib & Eb & Sb & Ex & Sx & K1 & K2 & B1 & B2 & C1 & C2).
  assert (S1 : small (snd x) = true); [|congruence]. apply small_spec. intros xs. rewrite Ex, (slice_nget R _ _ _ _ _ _ xs Sb B1 B2).
  destruct W as [Hn Wp]. destruct (Wp odd) as (Wt & _ & Nd). destruct (Wt b Ib) as [Lb Shb].
  assert (D : length xs = length (fst x) \/ length xs <> length (fst x)) by lia. destruct D as [D|D].
  - assert (Es : selem s (odd, combine (fst x) xs) (ql, il) (qr, ir) = nget (snd b) (il :: xs ++ [ir])).
    { unfold selem. cbn [fst snd]. rewrite map_fst_combine, map_snd_combine, <- Eb by lia. now apply elem_in. }
    rewrite <- Es. specialize (H (odd, combine (fst x) xs)). unfold sel, info in H. unfold axis in C1, C2. destruct side; cbn [fst snd] in C1, C2; [rewrite C2 in H|rewrite C1 in H]; apply H.
  - apply nget_out. intros B. apply in_shape_length in B. rewrite Shb in B. unfold shape_of in B. rewrite map_length, combine_length, zrange_length, Eb in B. rewrite Eb in Lb. cbn [length] in B, Lb. rewrite app_length in B, Lb. rewrite app_length in B. cbn [length] in B, Lb. lia.
Qed.
Lemma wf_info : wf L info.
Proof. unfold info. destruct side; assumption. Qed.
Lemma state_range : forall i, (i < length (labels info))%nat -> 0 <= snd (col_state (labels info) i) < bget L info (fst (col_state (labels info) i)).
Proof.
  clear Uni. intros i Hi. unfold TosProps.col_state. cbn [fst snd]. rewrite <- (times_labels L info _ wf_info). set (q := nth i (labels info) (q0 L)). assert (E : nth_error (labels info) i = Some q) by (now apply nth_error_nth').
  rewrite !times_count. assert (C := count_lt L (Some q) (map Some (labels info)) i ltac:(now apply (map_nth_error Some))). rewrite firstn_map in C. lia.
Qed.
Lemma kept_uniform : forall i j, kept i = true -> (j < length (labels info))%nat -> nth j (labels info) (q0 L) = nth i (labels info) (q0 L) -> kept j = true.
Proof.
  intros i j K Hj E. destruct (kept j) eqn:Kj; [reflexivity|]. elim (used i K). assert (U := unused j Kj Hj). assert (Hi := kept_lt i K). assert (Ri := state_range i Hi). assert (Rj := state_range j Hj).
  unfold TosProps.col_state in *. cbn [fst snd] in *. rewrite E in *. exact (Uni _ _ _ Rj Ri U).
Qed.
Lemma vector_sum : forall odd ps l r, selem s (odd, ps) l r = bsum (seq 0 (length (labels info))) (fun i => if kept i then contrib l r (map fst ps) (map snd ps) (axis (0%nat, i)) (dflt (get (mb odd) (axis (0%nat, i)))) else 0').
Proof.
  intros odd ps l r. destruct (Hmb odd) as [[Nd _] Hs]. rewrite Hs. rewrite (dict_sum axis (contrib l r (map fst ps) (map snd ps)) (length (labels info))).
  - apply bsum_ext. intros i _. destruct (kept i) eqn:K; [reflexivity|]. assert (N := not_kept i K odd). replace (dflt _) with (@nil (list L * nd R)) by (symmetry; exact (f_equal dflt N)). unfold FspProofs.contrib, elem. rewrite bsum_nil. now destruct (hit _ _ _ _ _ _).
  - apply axis_axis.
  - intros k. unfold FspProofs.contrib, elem. rewrite bsum_nil. now destruct (hit _ _ _ _ _ _).
  - exact Nd.
  - apply mb_keys.
Qed.
Lemma vector_entries : forall (h : nat -> nat * nat) N, flat_map (present R nat) (map (fun p : nat * option (R * nat) => (h (fst p), snd p)) (numbered (vector_cells R L m N))) = flat_map (fun i => if kept i then [(h i, (1', i))] else []) (seq 0 N).
Proof using.
  clear. intros h N. unfold numbered, vector_cells. rewrite map_length, seq_length, combine_map, map_map, flat_map_concat_map, map_map, flat_map_concat_map. f_equal. apply map_ext. intros i. unfold present. cbn [fst snd]. destruct (FspModel.kept R L m i); reflexivity.
Qed.
End Vector.

Lemma round_row : forall dq, li = [(charge_of L dq, 1)] -> (forall q i j, 0 <= i < bget L ri q -> 0 <= j < bget L ri q -> (forall p x, selem s p x (q, i) = 0') -> forall p x, selem s p x (q, j) = 0') ->
  exists y s', from_sparse R L small s 0 li ri dq = Some y /\ tab_to_sparse R L dq y = Some s' /\ same_site s'.
Proof.
  intros dq Eo' Uni. destruct parts_split as (mo & me & Eo & Ee & H). unfold from_sparse.
  set (d := charge_of L dq) in *. assert (Ed : match dq, li with Some q, _ => Some q | None, [] => None | None, _ => Some (q0 L) end = Some d) by (unfold d; rewrite Eo'; destruct dq; reflexivity).
  rewrite Ed. cbn [bind]. rewrite Eo, Ee. cbn [bind]. change (0 =? 0) with true. cbv iota.
  assert (One : length (labels (other true)) = 1%nat) by (unfold other; rewrite Eo'; reflexivity).
  destruct (mops_some true One mo me H) as (m & Em & Hm). change (fun k : nat * nat => k) with (axis true). rewrite Em. cbn [bind].
  eexists. assert (Kl := kept_lt true One mo me H m Hm). change (info true) with ri in Kl.
  set (cells := vector_cells R L m (length (labels ri))). set (ls := map (qsub L d) (labels li)).
  assert (Kc : forall k c, nth_error cells k = Some (Some c) -> kept R L m k = true).
  { intros k c E. unfold cells, vector_cells in E. assert (Hk : (k < length (labels ri))%nat) by (assert (X : nth_error cells k <> None) by (unfold cells, vector_cells; congruence); apply nth_error_Some in X; unfold cells, vector_cells in X; rewrite map_length, seq_length in X; exact X).
    erewrite map_nth_error in E by (apply nth_error_nth' with (d := 0%nat); now rewrite seq_length). rewrite seq_nth in E by exact Hk. cbn [Nat.add] in E. destruct (kept R L m k); [reflexivity|discriminate]. }
  assert (Es : tab_to_sparse R L dq (mkTab R L (RowV R nat cells) m (map Some ls) (vector_labels R L m (labels ri))) = to_sparse (RowV R nat cells) m (map Some (@nil L)) (map Some (labels ri)) dq).
  { unfold tab_to_sparse. cbn [y_mat y_ops y_lop y_rop]. apply row_ext. intros k c E. apply Kc in E. apply thin_place; [now apply Kl|]. intros j Hj Ej. exact (kept_uniform true One Uni mo me H m Hm k j E Hj Ej). }
  assert (Em' : entries R nat (RowV R nat cells) = flat_map (fun i => if kept R L m i then [((0%nat, i), (1', i))] else []) (seq 0 (length (labels ri)))) by (apply (vector_entries m (fun i => (0%nat, i)))).
  assert (Ie : forall c, In c (entries R nat (RowV R nat cells)) -> exists i, kept R L m i = true /\ c = ((0%nat, i), (1', i))).
  { intros c I. rewrite Em' in I. apply in_flat_map in I. destruct I as (i & _ & I). exists i. destruct (kept R L m i); [|destruct I]. destruct I as [<-|[]]. auto. }
  assert (Or := op_origin true mo me H).
  destruct (to_sparse_some R L nat Nat.eqb n dp m (RowV R nat cells) (@nil L) (labels ri) dq (fun odd l m r => In (l :: m ++ [r]) (map fst (part s odd)))) as (od' & ev' & E & W' & G & V); [apply W| | |].
  - intros c I. destruct (Ie c I) as (i & K & ->). cbn [fst snd]. cbn [rows cols is_matrix]. rewrite ?map_length. split; [cbn; lia|]. split; [now apply Kl|].
    destruct (kept_op true mo me m Hm i K) as (x & Dx & Nx & Ox). exists x. split; [exact Dx|]. split; [intros ->; now elim Nx|]. intros odd. rewrite Ox. split; intros b Ib; apply Or in Ib; destruct (origin_fit odd _ b Ib) as (A1 & A2 & A3); auto.
  - intros c x odd b I D Ib. destruct (Ie c I) as (i & K & ->). cbn [fst snd] in *. destruct (kept_op true mo me m Hm i K) as (x' & Dx & _ & Ox). rewrite Dx in D. injection D as <-. rewrite Ox in Ib. apply Or in Ib. destruct (origin_labels odd _ b Ib) as (K1 & K2 & Il). cbn [axis fst snd] in *.
    cbn [rows cols nth]. fold d. rewrite Eo' in Il at 1. cbn in Il. rewrite qsub_def. replace (qneg L (q0 L)) with (q0 L) by (symmetry; rewrite <- (qadd_0_l L (qneg L (q0 L))), (qadd_comm L); apply qadd_neg). rewrite (qadd_comm L), qadd_0_l. exact Il.
  - exists (FT od' ev'). split; [reflexivity|]. split; [rewrite <- E; exact Es|]. split; [reflexivity|]. split; [|split].
    + cbn [rows cols] in W'. destruct W' as [W1 W2]. split; [exact W1|]. intros odd. specialize (W2 odd). destruct W2 as (W2 & W3 & W4). split; [|auto].
      intros b Ib. destruct (W2 b Ib) as [A1 A2]. split; [exact A1|]. rewrite A2. unfold shape_of. apply map_ext. intros [i q]. cbn [fst snd]. unfold ldim. fold d. destruct (i =? 0); [|destruct (i =? n - 1); [apply times_labels, Wr|reflexivity]]. rewrite Eo'. fold d. unfold bget, TosProps.times. cbn [dget filter]. assert (Q : qsub L d q = q0 L <-> d = q) by (split; [intros X; rewrite <- (sub_sub L d q), X, qsub_def; replace (qneg L (q0 L)) with (q0 L) by (symmetry; rewrite <- (qadd_0_l L (qneg L (q0 L))), (qadd_comm L); apply qadd_neg); now rewrite (qadd_comm L), qadd_0_l|intros <-; rewrite qsub_def, (qadd_comm L); apply qadd_neg]). destruct (qeqb_spec L (qsub L d q) (q0 L)), (qeqb_spec L d q); try tauto; reflexivity.
    + intros odd qs I. destruct W' as [W1 W2]. destruct (W2 odd) as (W3 & _). assert (I' := I). apply in_map_iff in I. destruct I as (b & <- & Ib). destruct (W3 b Ib) as [Lb _]. destruct (ends L (q0 L) (fst b)) as (l & mm & r & Eb & _); [lia|]. rewrite Eb in *. now apply G.
    + intros [odd ps] l r. rewrite V, Em', bsum_flat_map. rewrite (vector_sum true One mo me H m Hm odd ps l r). change (info true) with ri. apply bsum_ext. intros i _.
      destruct (kept R L m i) eqn:K; [|apply bsum_nil]. rewrite bsum_cons, bsum_nil. cbn [fst snd rows cols]. fold d. unfold FspProofs.contrib.
      assert (A1 : (0 < length (labels li))%nat) by (rewrite Eo'; exact (le_n 1)). assert (A2 := Kl i K).
      replace (at_row L d [q0 L] _ l && at_col L (labels ri) _ r) with (hit L li ri l r (axis true (0%nat, i))).
      2:{ cbn [axis]. rewrite <- (hit_at d l r (0%nat, i) A1 A2). cbn [fst snd]. f_equal. rewrite Eo'. change (labels [(d, 1)]) with [d]. cbn [map]. rewrite qsub_def, (qadd_comm L), qadd_neg. reflexivity. }
      destruct (hit L li ri l r (axis true (0%nat, i))); [|ring]. unfold entry_value. cbn [fst snd]. destruct (kept_op true mo me m Hm i K) as (x & Dx & _ & Ox). rewrite Dx, Ox. ring.
Qed.

Lemma round_col : forall dq, (dq = None -> li <> []) -> ri = [(q0 L, 1)] -> (forall q i j, 0 <= i < bget L li q -> 0 <= j < bget L li q -> (forall p x, selem s p (q, i) x = 0') -> forall p x, selem s p (q, j) x = 0') ->
  exists y s', from_sparse R L small s (-1) li ri dq = Some y /\ tab_to_sparse R L dq y = Some s' /\ same_site s'.
Proof.
  intros dq Nl Eo' Uni. destruct parts_split as (mo & me & Eo & Ee & H). unfold from_sparse.
  set (d := charge_of L dq) in *. assert (Ed : match dq, li with Some q, _ => Some q | None, [] => None | None, _ => Some (q0 L) end = Some d) by (unfold d; destruct dq as [q|]; [reflexivity|]; destruct li; [now elim Nl|reflexivity]).
  rewrite Ed. cbn [bind]. rewrite Eo, Ee. cbn [bind]. change (-1 =? 0) with false. change (-1 =? -1) with true. cbv iota.
  assert (One : length (labels (other false)) = 1%nat) by (unfold other; rewrite Eo'; reflexivity).
  destruct (mops_some false One mo me H) as (m & Em & Hm). change (fun k : nat * nat => (snd k, fst k)) with (axis false). rewrite Em. cbn [bind].
  replace (length (map (qsub L d) (labels li))) with (length (labels li)) by (symmetry; apply map_length).
  eexists. assert (Kl := kept_lt false One mo me H m Hm). change (info false) with li in Kl.
  set (cells := vector_cells R L m (length (labels li))). set (ls := map (qsub L d) (labels li)).
  assert (Kc : forall k c, nth_error cells k = Some (Some c) -> kept R L m k = true).
  { intros k c E. unfold cells, vector_cells in E. assert (Hk : (k < length (labels li))%nat) by (assert (X : nth_error cells k <> None) by (unfold cells, vector_cells; congruence); apply nth_error_Some in X; unfold cells, vector_cells in X; rewrite map_length, seq_length in X; exact X).
    erewrite map_nth_error in E by (apply nth_error_nth' with (d := 0%nat); now rewrite seq_length). rewrite seq_nth in E by exact Hk. cbn [Nat.add] in E. destruct (kept R L m k); [reflexivity|discriminate]. }
  assert (Es : tab_to_sparse R L dq (mkTab R L (ColV R nat cells) m (vector_labels R L m ls) (map Some (labels ri))) = to_sparse (ColV R nat cells) m (map Some ls) (map Some (@nil L)) dq).
  { unfold tab_to_sparse. cbn [y_mat y_ops y_lop y_rop]. apply col_ext. intros k c E. apply Kc in E. apply thin_place; [unfold ls; rewrite map_length; now apply Kl|]. intros j Hj Ej. unfold ls in Hj, Ej. rewrite map_length in Hj. rewrite !(nth_indep (map (qsub L d) (labels li)) (q0 L) (qsub L d (q0 L))), !map_nth in Ej by (rewrite map_length; auto). apply (sub_inj L) in Ej. exact (kept_uniform false One Uni mo me H m Hm k j E Hj Ej). }
  assert (Em' : entries R nat (ColV R nat cells) = flat_map (fun i => if kept R L m i then [((i, 0%nat), (1', i))] else []) (seq 0 (length (labels li)))) by (apply (vector_entries m (fun i => (i, 0%nat)))).
  assert (Ie : forall c, In c (entries R nat (ColV R nat cells)) -> exists i, kept R L m i = true /\ c = ((i, 0%nat), (1', i))).
  { intros c I. rewrite Em' in I. apply in_flat_map in I. destruct I as (i & _ & I). exists i. destruct (kept R L m i); [|destruct I]. destruct I as [<-|[]]. auto. }
  assert (Or := op_origin false mo me H).
  destruct (to_sparse_some R L nat Nat.eqb n dp m (ColV R nat cells) ls (@nil L) dq (fun odd l m r => In (l :: m ++ [r]) (map fst (part s odd)))) as (od' & ev' & E & W' & G & V); [apply W| | |].
  - intros c I. destruct (Ie c I) as (i & K & ->). cbn [fst snd]. cbn [rows cols is_matrix]. rewrite ?map_length. split; [unfold ls; rewrite map_length; now apply Kl|]. split; [cbn; lia|].
    destruct (kept_op false mo me m Hm i K) as (x & Dx & Nx & Ox). exists x. split; [exact Dx|]. split; [intros ->; now elim Nx|]. intros odd. rewrite Ox. split; intros b Ib; apply Or in Ib; destruct (origin_fit odd _ b Ib) as (A1 & A2 & A3); auto.
  - intros c x odd b I D Ib. destruct (Ie c I) as (i & K & ->). cbn [fst snd] in *. destruct (kept_op false mo me m Hm i K) as (x' & Dx & _ & Ox). rewrite Dx in D. injection D as <-. rewrite Ox in Ib. apply Or in Ib. destruct (origin_labels odd _ b Ib) as (K1 & K2 & Il). cbn [axis fst snd] in *.
    cbn [rows cols nth]. fold d. unfold ls. rewrite (nth_indep _ _ (qsub L d (q0 L))) by (now rewrite map_length). rewrite map_nth, sub_sub. rewrite Eo' in Il at 1. exact Il.
  - exists (FT od' ev'). split; [reflexivity|]. split; [rewrite <- E; exact Es|]. split; [reflexivity|]. split; [|split].
    + cbn [rows cols] in W'. destruct W' as [W1 W2]. split; [exact W1|]. intros odd. specialize (W2 odd). destruct W2 as (W2 & W3 & W4). split; [|auto].
      intros b Ib. destruct (W2 b Ib) as [A1 A2]. split; [exact A1|]. rewrite A2. unfold shape_of. apply map_ext. intros [i q]. cbn [fst snd]. unfold ldim. fold d. destruct (i =? 0); [|destruct (i =? n - 1); [rewrite Eo'; unfold bget, TosProps.times; cbn [dget filter]; destruct (qeqb_spec L q (q0 L)), (qeqb_spec L (q0 L) q); try congruence; reflexivity|reflexivity]]. rewrite <- (times_labels L li q Wl). unfold ls, TosProps.times. f_equal. clear. induction (labels li) as [|x l IH]; [reflexivity|]. cbn [map filter]. destruct (qeqb_spec L (qsub L d q) (qsub L d x)) as [E|N], (qeqb_spec L q x) as [E'|N']; cbn [length]; try (now rewrite IH); [apply (sub_inj L) in E; congruence|subst; congruence].
    + intros odd qs I. destruct W' as [W1 W2]. destruct (W2 odd) as (W3 & _). assert (I' := I). apply in_map_iff in I. destruct I as (b & <- & Ib). destruct (W3 b Ib) as [Lb _]. destruct (ends L (q0 L) (fst b)) as (l & mm & r & Eb & _); [lia|]. rewrite Eb in *. now apply G.
    + intros [odd ps] l r. rewrite V, Em', bsum_flat_map. rewrite (vector_sum false One mo me H m Hm odd ps l r). change (info false) with li. apply bsum_ext. intros i _.
      destruct (kept R L m i) eqn:K; [|apply bsum_nil]. rewrite bsum_cons, bsum_nil. cbn [fst snd rows cols]. fold d. unfold FspProofs.contrib.
      assert (A1 : (0 < length (labels ri))%nat) by (rewrite Eo'; exact (le_n 1)). assert (A2 := Kl i K).
      replace (at_row L d ls _ l && at_col L [q0 L] _ r) with (hit L li ri l r (axis false (0%nat, i))).
      2:{ cbn [axis fst snd]. rewrite <- (hit_at d l r (i, 0%nat) A2 A1). cbn [fst snd]. f_equal. rewrite Eo'. reflexivity. }
      destruct (hit L li ri l r (axis false (0%nat, i))); [|ring]. unfold entry_value. cbn [fst snd]. destruct (kept_op false mo me m Hm i K) as (x & Dx & _ & Ox). rewrite Dx, Ox. ring.
Qed.
End Round.
