(** C64: a block-sparse operator turned into tables of operators (to_symbolic) and back (to_sparse) is the same operator. *)
From Coq Require Import ZArith Bool List Lia Ring.
From Verif Require Import SymModel SymProofs SymProps DictLib IndexLib OptLib RingLib BondModel BondProofs FuseModel FuseProofs BlockProofs StructModel SumProofs MpsModel MpsChain MpsProofs MpsDot MpsProps CanonSites MpoMul MpoProps TosModel TosProofs TosProps FspModel FspProofs FspRound.
Import ListNotations.
Open Scope Z_scope.

Section Chain.
Variable R : CRing.
Variable L : Label.
Notation binfo := (dict L Z).
Notation site := (site R L).
Notation zf := (fun _ : L => 0).
Notation "0'" := (r0 R).

(** ** Specification *)
(* of the states of a label, as many as d says, either all or none are used *)
Definition all_or_none (d : L -> Z) (unused : L * Z -> Prop) : Prop := forall q i j, 0 <= i < d q -> 0 <= j < d q -> unused (q, i) -> unused (q, j).
Definition no_row (s : site) (l : L * Z) : Prop := forall p r, selem s p l r = 0'.
Definition no_col (s : site) (r : L * Z) : Prop := forall p l, selem s p l r = 0'.

Lemma wf_sites_nth : forall (ts : list site) ds shp k t, wf_sites ds shp ts -> nth_error ts k = Some t -> exists n dp, nth_error shp k = Some (n, dp) /\ wf_site n (nth k ds zf) dp (nth (S k) ds zf) t.
Proof using.
  induction ts as [|t0 ts IH]; intros ds shp k t W N; [destruct k; discriminate|]. destruct shp as [|[n dp] shp], ds as [|d ds]; try contradiction. destruct W as [W0 W]. destruct k as [|k].
  - injection N as <-. exists n, dp. split; [reflexivity|]. cbn [nth]. destruct ds; exact W0.
  - destruct (IH ds shp k t W N) as (n' & dp' & E & W'). exists n', dp'. split; [exact E|exact W'].
Qed.
Lemma wf_sites_len : forall (ts : list site) ds shp, wf_sites ds shp ts -> length ds = S (length ts) /\ length shp = length ts.
Proof using. induction ts as [|t ts IH]; intros ds shp W; [destruct W as [-> W]; auto|]. destruct shp as [|[n dp] shp], ds as [|d ds]; try contradiction. destruct W as [_ W]. apply IH in W. cbn [length]. lia. Qed.

Definition part_of (i : binfo) (d : L -> Z) (ls : list L) : Prop := wf L i /\ (forall q, In q ls -> bget L i q = d q) /\ (forall q, bget L i q = 0 \/ bget L i q = d q).
Lemma ends_some : forall (ts : list site) ds shp, wf_sites ds shp ts -> all_nonempty ts -> exists es, mapM (end_infos R L) ts = Some es /\ length es = length ts /\
  forall k t, nth_error ts k = Some t -> part_of (fst (nth k es ([], []))) (nth k ds zf) (firsts t) /\ part_of (snd (nth k es ([], []))) (nth (S k) ds zf) (lasts t) /\ (forall q, bget L (fst (nth k es ([], []))) q <> 0 -> In q (firsts t)) /\ forall q, bget L (snd (nth k es ([], []))) q <> 0 -> In q (lasts t).
Proof using.
  induction ts as [|t ts IH]; intros ds shp W Ne; [exists []; repeat split; destruct k; discriminate|].
  destruct shp as [|[n dp] shp], ds as [|d ds]; try contradiction. destruct W as [W0 W]. destruct (IH ds shp W) as (es & E & Le & H); [intros s I; apply Ne; now right|].
  destruct (end_infos_spec R L n _ dp _ t W0) as (i0 & i1 & Ei & W1 & W2 & G1 & G2).
  { intros X. specialize (Ne t (or_introl eq_refl)). apply Ne. destruct t; cbn in *; [now destruct t|]. destruct odd, even; try discriminate; reflexivity. }
  exists ((i0, i1) :: es). cbn [mapM]. rewrite Ei. cbn [bind]. rewrite E. split; [reflexivity|]. split; [cbn; congruence|]. intros [|k] t' N.
  - injection N as <-. cbn [nth fst snd]. replace (nth 0 ds zf) with (hd zf ds) by (destruct ds; reflexivity). split; [|split; [|split]].
    + split; [exact W1|]. split; intros q; rewrite G1; destruct (in_dec (q_dec L) q (firsts t)); tauto.
    + split; [exact W2|]. split; intros q; rewrite G2; destruct (in_dec (q_dec L) q (lasts t)); tauto.
    + intros q. rewrite G1. destruct (in_dec (q_dec L) q (firsts t)); tauto.
    + intros q. rewrite G2. destruct (in_dec (q_dec L) q (lasts t)); tauto.
  - cbn [nth]. now apply H.
Qed.
Lemma infos_nth : forall (es : list (binfo * binfo)) k, (k < length es)%nat -> nth (S k) (bond_infos L es) [] = if Nat.eqb (S k) (length es) then snd (nth k es ([], [])) else bor L (fst (nth (S k) es ([], []))) (snd (nth k es ([], []))).
Proof using.
  intros es k H. assert (X : forall es k, (k < length es)%nat -> nth k (inner_unions L es) [] = if Nat.eqb (S k) (length es) then snd (nth k es ([], [])) else bor L (fst (nth (S k) es ([], []))) (snd (nth k es ([], [])))).
  { clear. induction es as [|[l r] es IH]; intros k H; [cbn in H; lia|]. destruct es as [|[l' r'] es].
    - destruct k; [reflexivity|cbn in H; lia].
    - destruct k as [|k]; [reflexivity|]. specialize (IH k ltac:(cbn in *; lia)). change (inner_unions L ((l, r) :: (l', r') :: es)) with (bor L l' r :: inner_unions L ((l', r') :: es)). cbn [nth] in *. exact IH. }
  unfold bond_infos. destruct es as [|[l r] es]; [cbn in H; lia|]. cbn [nth]. apply X. exact H.
Qed.
Lemma bget_ge : forall (i : binfo) q, wf L i -> 0 <= bget L i q.
Proof using. intros i q [_ P]. unfold bget. destruct (dget (qeqb L) i q) as [v|] eqn:E; [|lia]. apply (dget_in (qeqb L) (qeqb_spec L)) in E. specialize (P _ E). cbn in P. lia. Qed.
Lemma part_bor : forall i j d ls ms, part_of i d ls -> part_of j d ms -> part_of (bor L i j) d ls /\ part_of (bor L i j) d ms.
Proof using.
  intros i j d ls ms (W1 & G1 & H1) (W2 & G2 & H2). assert (W := bor_wf L i j). split; (split; [exact W|]); (split; intros q; [intros I|]); rewrite (bor_get L i j q W1 W2); assert (B1 := bget_ge i q W1); assert (B2 := bget_ge j q W2); specialize (H1 q); specialize (H2 q); try specialize (G1 q I); try specialize (G2 q I); lia.
Qed.
Lemma single_info : forall (i : binfo) q, wf L i -> (forall q', bget L i q' = if qeqb L q' q then 1 else 0) -> i = [(q, 1)].
Proof using.
  intros i q [Nd P] G. assert (K : forall k v, In (k, v) i -> k = q /\ v = 1).
  { intros k v I. assert (B : bget L i k = v) by (unfold bget; now rewrite (in_dget (qeqb L) (qeqb_spec L) i k v Nd I)). rewrite G in B. specialize (P _ I). cbn in P. destruct (qeqb_spec L k q); [auto|lia]. }
  destruct i as [|[k v] i]; [specialize (G q); unfold bget in G; cbn in G; destruct (qeqb_spec L q q); congruence|]. destruct (K k v (or_introl eq_refl)) as [-> ->]. destruct i as [|[k v] i]; [reflexivity|].
  destruct (K k v ltac:(right; now left)) as [-> ->]. cbn in Nd. inversion Nd as [|? ? N _]. elim N. now left.
Qed.

Lemma mapM_pairs : forall (A B C : Type) (f : nat * A -> option B) (g : nat * B -> option C) (P : nat -> A -> C -> Prop) (ts : list A) a,
  (forall k t, nth_error ts k = Some t -> exists y s', f ((a + k)%nat, t) = Some y /\ g ((a + k)%nat, y) = Some s' /\ P k t s') ->
  exists ys ss, mapM f (combine (seq a (length ts)) ts) = Some ys /\ mapM g (combine (seq a (length ys)) ys) = Some ss /\ length ss = length ts /\ forall k t s', nth_error ts k = Some t -> nth_error ss k = Some s' -> P k t s'.
Proof using.
  intros A B C f g P ts. revert P. clear. induction ts as [|t ts IH]; intros P a H; [exists [], []; repeat split; destruct k; discriminate|].
  destruct (H 0%nat t eq_refl) as (y & s' & Ef & Eg & Hp). rewrite Nat.add_0_r in Ef, Eg. destruct (IH (fun k => P (S k)) (S a)) as (ys & ss & E1 & E2 & Ls & Hs).
  { intros k t' N. destruct (H (S k) t' N) as (y' & s'' & X). exists y', s''. replace (S a + k)%nat with (a + S k)%nat by lia. exact X. }
  exists (y :: ys), (s' :: ss). cbn [length seq combine mapM]. rewrite Ef, E1. cbn [bind length seq combine mapM]. rewrite Eg, E2. split; [reflexivity|]. split; [reflexivity|]. split; [cbn; congruence|].
  intros [|k] t' s'' N N'; [injection N as <-; injection N' as <-; exact Hp|exact (Hs k t' s'' N N')].
Qed.
Lemma sub_labels : forall (s s' : site), (forall odd qs, In qs (map fst (part s' odd)) -> In qs (map fst (part s odd))) -> incl (firsts s') (firsts s) /\ incl (lasts s') (lasts s).
Proof using.
  intros s s' H. assert (X : forall b, In b (blocks s') -> exists b', In b' (blocks s) /\ fst b' = fst b).
  { intros b I. unfold blocks in *. apply in_app_or in I. destruct I as [I|I]; apply (in_map fst), H, in_map_iff in I; destruct I as (b' & E & I); exists b'; (split; [apply in_or_app; auto|exact E]). }
  split; intros q I; apply in_map_iff in I; destruct I as (b & <- & I); destruct (X b I) as (b' & I' & E); apply in_map_iff; exists b'; rewrite E; auto.
Qed.
Lemma wf_sites_of : forall (ts : list site) ds shp, length ds = S (length ts) -> length shp = length ts -> (forall k t n dp, nth_error ts k = Some t -> nth_error shp k = Some (n, dp) -> wf_site n (nth k ds zf) dp (nth (S k) ds zf) t) -> wf_sites ds shp ts.
Proof using.
  induction ts as [|t ts IH]; intros ds shp Ld Ls H; [destruct shp; [split; [reflexivity|exact Ld]|discriminate]|]. destruct shp as [|[n dp] shp]; [discriminate|]. destruct ds as [|d ds]; [discriminate|]. split.
  - specialize (H 0%nat t n dp eq_refl eq_refl). cbn [nth] in H. destruct ds; [discriminate|exact H].
  - apply IH; [now injection Ld|now injection Ls|]. intros k t' n' dp' N N'. exact (H (S k) t' n' dp' N N').
Qed.
(* the same block labels or fewer, the same elements *)
Definition same_site (s s' : site) : Prop := kind s' = true /\ (forall odd qs, In qs (map fst (part s' odd)) -> In qs (map fst (part s odd))) /\ forall p l r, selem s' p l r = selem s p l r.

Variable small : nd R -> bool.
Theorem c64_round_trip : (forall x, small x = true <-> forall xs, nget x xs = 0') -> forall dq ds shp (ts : list site),
  wf_sites ds shp ts -> Forall operator_site ts -> Forall (fun h => 3 <= fst h) shp -> all_nonempty ts -> ts <> [] -> vacuum_ends R L ts ds ->
  all_or_none (nth 1 ds zf) (no_col (first_site ts)) -> all_or_none (nth (length ts - 1) ds zf) (no_row (last_site ts)) ->
  exists ys ts', to_symbolic R L small dq ts = Some ys /\ symbolic_to_sparse R L dq ys = Some ts' /\ wf_sites ds shp ts' /\ Forall2 same_site ts ts' /\
  forall Bs ps l r, amplitude Bs ts' ps l r = amplitude Bs ts ps l r.
Proof.
  intros Sm dq ds shp ts W Op L3 Ne N0 (V1 & V2 & D1 & D2) U1 U2.
  destruct (wf_sites_len ts ds shp W) as [Ld Lh]. destruct (ends_some ts ds shp W Ne) as (es & Ee & Le & He).
  assert (Inf : forall k t, nth_error ts k = Some t -> part_of (nth k (bond_infos L es) []) (nth k ds zf) (firsts t) /\ part_of (nth (S k) (bond_infos L es) []) (nth (S k) ds zf) (lasts t)).
  { assert (B : forall k, (S k < length ts)%nat -> forall t t', nth_error ts k = Some t -> nth_error ts (S k) = Some t' -> part_of (nth (S k) (bond_infos L es) []) (nth (S k) ds zf) (firsts t') /\ part_of (nth (S k) (bond_infos L es) []) (nth (S k) ds zf) (lasts t)).
    { intros k Hk t t' N N'. rewrite infos_nth by lia. destruct (Nat.eqb_spec (S k) (length es)); [lia|]. destruct (He k t N) as (_ & P1 & _). destruct (He (S k) t' N') as (P2 & _). exact (part_bor _ _ _ _ _ P2 P1). }
    intros k t N. assert (Hk : (k < length ts)%nat) by (apply nth_error_Some; congruence). split.
    - destruct k as [|k]; [replace (nth 0 (bond_infos L es) []) with (fst (nth 0 es ([], []))) by (destruct es as [|[] ]; reflexivity); apply (He 0%nat t N)|].
      destruct (nth_error ts k) as [t'|] eqn:N'; [|apply nth_error_None in N'; lia]. exact (proj1 (B k Hk t' t N' N)).
    - destruct (Nat.eq_dec (S k) (length ts)) as [E|E].
      + rewrite infos_nth by lia. destruct (Nat.eqb_spec (S k) (length es)); [|lia]. apply (He k t N).
      + destruct (nth_error ts (S k)) as [t'|] eqn:N'; [|apply nth_error_None in N'; lia]. exact (proj2 (B k ltac:(lia) t t' N N')). }
  assert (First : forall t, nth_error ts 0 = Some t -> nth 0 (bond_infos L es) [] = [(q0 L, 1)]).
  { intros t N. destruct (Inf 0%nat t N) as [(Wi & Gi & _) _]. apply single_info; [exact Wi|]. intros q. destruct (He 0%nat t N) as (_ & _ & In1 & _). assert (Ef : first_site ts = t) by (destruct ts; [discriminate|injection N as <-; reflexivity]). rewrite Ef in V1. rewrite Forall_forall in V1.
    assert (E0 : nth 0 (bond_infos L es) [] = fst (nth 0 es ([], []))) by (destruct es as [|[] ]; reflexivity). rewrite E0 in *.
    assert (Dd : nth 0 ds zf = hd zf ds) by (destruct ds; reflexivity). rewrite Dd in Gi. destruct (qeqb_spec L q (q0 L)) as [->|Nq].
    - rewrite Gi; [exact D1|]. assert (Nt := Ne t (nth_error_In ts 0 N)). unfold firsts in *. destruct (blocks t) as [|b bs]; [congruence|]. left. symmetry. specialize (V1 _ (or_introl eq_refl)). cbn in V1. congruence.
    - destruct (Z.eq_dec (bget L (fst (nth 0 es ([], []))) q) 0) as [E|E]; [exact E|]. elim Nq. now apply V1, In1. }
  assert (Last : forall t, nth_error ts (length ts - 1) = Some t -> last_site ts = t /\ nth (length ts) (bond_infos L es) [] = [(q0 L, 1)]).
  { intros t N. assert (El : last_site ts = t). { unfold last_site. clear - N N0. induction ts as [|x l IH]; [congruence|]. destruct l as [|y l]; [injection N as <-; reflexivity|]. cbn [last]. apply IH; [discriminate|]. cbn [length] in *. replace (S (S (length l)) - 1)%nat with (S (S (length l) - 1)) in N by lia. exact N. }
    split; [exact El|]. assert (Hl : (0 < length ts)%nat) by (destruct ts; [congruence|cbn; lia]). destruct (Inf _ t N) as [_ (Wi & Gi & _)]. replace (S (length ts - 1)) with (length ts) in * by lia. apply single_info; [exact Wi|]. intros q. destruct (He _ t N) as (_ & _ & _ & In1).
    assert (En : nth (length ts) (bond_infos L es) [] = snd (nth (length ts - 1) es ([], []))). { replace (length ts) with (S (length ts - 1)) at 1 by lia. rewrite infos_nth by lia. destruct (Nat.eqb_spec (S (length ts - 1)) (length es)); [reflexivity|lia]. }
    rewrite En in *. assert (Dd : nth (length ts) ds zf = last ds zf). { clear - Ld. revert Ld. generalize (length ts). induction ds as [|d l IH]; intros n E; [discriminate|]. destruct n as [|n]; [destruct l; [reflexivity|discriminate]|]. destruct l as [|d' l]; [discriminate|]. cbn [nth last] in *. apply IH. cbn [length] in *. lia. }
    rewrite Dd in Gi. rewrite El in V2. rewrite Forall_forall in V2. destruct (qeqb_spec L q (q0 L)) as [->|Nq].
    - rewrite Gi; [exact D2|]. assert (Nt := Ne t (nth_error_In ts _ N)). unfold lasts in *. destruct (blocks t) as [|b bs]; [congruence|]. left. symmetry. specialize (V2 _ (or_introl eq_refl)). cbn in V2. congruence.
    - destruct (Z.eq_dec (bget L (snd (nth (length ts - 1) es ([], []))) q) 0) as [E|E]; [exact E|]. elim Nq. now apply V2, In1. }
  destruct (mapM_pairs site (table R L) site (fun p => from_site R L small (snd p) (site_pos (length ts) (fst p)) (nth (fst p) (bond_infos L es) [], nth (S (fst p)) (bond_infos L es) []) (if Nat.eqb (fst p) 0 then None else dq))
     (fun p => tab_to_sparse R L (if Nat.eqb (fst p) 0 then None else dq) (snd p)) (fun k t s' => same_site t s' /\ forall n dp, nth_error shp k = Some (n, dp) -> wf_site n (nth k ds zf) dp (nth (S k) ds zf) s') ts 0%nat) as (ys & ts' & E1 & E2 & Ls & Hs).
  { intros k t N. cbn [Nat.add fst snd]. destruct (Inf k t N) as [(Wl & Gl & Al) (Wr & Gr & Ar)]. destruct (wf_sites_nth ts ds shp k t W N) as (n & dp & Eh & Wt).
    assert (Ot : operator_site t) by (rewrite Forall_forall in Op; apply Op; eapply nth_error_In; exact N). assert (N3 : 3 <= n) by (rewrite Forall_forall in L3; exact (L3 _ (nth_error_In _ _ Eh))).
    assert (Wt' : wf_site n (bget L (nth k (bond_infos L es) [])) dp (bget L (nth (S k) (bond_infos L es) [])) t) by (eapply wf_site_ext; [exact Wt| |]; intros q I; symmetry; auto).
    assert (Nl : nth k (bond_infos L es) [] <> []).
    { intros X. rewrite X in Gl, Wl. assert (Nt := Ne t (nth_error_In ts _ N)). destruct (blocks t) as [|b bs] eqn:Eb; [congruence|]. assert (I : In (nth 0 (fst b) (q0 L)) (firsts t)) by (unfold firsts; rewrite Eb; now left).
      assert (Ib : exists odd, In b (part t odd)). { assert (I' : In b (blocks t)) by (rewrite Eb; now left). apply in_app_or in I'. destruct I'; eauto. } destruct Ib as [odd Ib]. destruct (site_block R L n _ dp _ t Wt odd b Ib) as (ql & qm & qr & Ex & _ & _ & P1 & _).
      rewrite Ex in I. cbn [nth] in I. specialize (Gl _ I). unfold bget in Gl. cbn in Gl. lia. }
    pose proof (proj1 Ot) as Kt. destruct t as [t|od ev]; [discriminate|]. clear Kt.
    assert (Goal' : exists y s', from_sparse R L small (FT od ev) (site_pos (length ts) k) (nth k (bond_infos L es) []) (nth (S k) (bond_infos L es) []) (if Nat.eqb k 0 then None else dq) = Some y /\ tab_to_sparse R L (if Nat.eqb k 0 then None else dq) y = Some s' /\
       FspRound.same_site R L (nth k (bond_infos L es) []) (nth (S k) (bond_infos L es) []) n dp od ev s').
    { unfold site_pos. destruct (Nat.eqb_spec k (length ts - 1)) as [Ek|Ek]; [|destruct (Nat.eqb_spec k 0) as [->|K0]].
      - rewrite Ek in N. destruct (Last _ N) as [El Er]. assert (Hk : (k < length ts)%nat) by (rewrite Ek; destruct ts; [congruence|cbn; lia]). apply round_col; auto; [replace (S k) with (length ts) by lia; exact Er|]. rewrite El, <- Ek in U2. intros q i j Hi Hj. destruct (Al q) as [X|X]; rewrite X in Hi, Hj; [lia|]. exact (U2 q i j Hi Hj).
      - assert (Ef : first_site ts = FT od ev) by (destruct ts; [discriminate|injection N as <-; reflexivity]). rewrite Ef in U1. apply round_row; auto; [exact (First _ N)|]. intros q i j Hi Hj. destruct (Ar q) as [X|X]; rewrite X in Hi, Hj; [lia|]. exact (U1 q i j Hi Hj).
      - apply round_matrix; auto. }
    destruct Goal' as (y & s' & F1 & F2 & S1 & S2 & S3 & S4). exists y, s'. split; [exact F1|]. split; [exact F2|]. split; [split; auto|]. intros n' dp' Eh'. rewrite Eh in Eh'. injection Eh' as <- <-.
    destruct (sub_labels _ _ S3) as [I1 I2]. eapply wf_site_ext; [exact S2| |]; intros q I; auto. }
  exists ys, ts'. split; [unfold to_symbolic; rewrite Ee; exact E1|]. split; [exact E2|].
  assert (F : Forall2 same_site ts ts'). { clear - Ls Hs. set (P := fun k t s' => same_site t s' /\ (forall n dp, nth_error shp k = Some (n, dp) -> wf_site n (nth k ds zf) dp (nth (S k) ds zf) s')) in Hs. assert (Hs' : forall k t s', nth_error ts k = Some t -> nth_error ts' k = Some s' -> same_site t s') by (intros k t s' N N'; exact (proj1 (Hs k t s' N N'))). clear P Hs. revert ts' Ls Hs'. induction ts as [|t ts IH]; intros [|s' ts'] Ls H; try discriminate; [constructor|]. constructor; [exact (H 0%nat _ _ eq_refl eq_refl)|]. apply IH; [now injection Ls|]. intros k t0 s0 N N'. exact (H (S k) t0 s0 N N'). }
  split; [|split; [exact F|]].
  - apply wf_sites_of; [lia|lia|]. intros k s' n dp N Eh. destruct (nth_error ts k) as [t|] eqn:Nt; [|apply nth_error_None in Nt; assert (k < length ts')%nat by (apply nth_error_Some; congruence); lia]. exact (proj2 (Hs k t s' Nt N) n dp Eh).
  - intros Bs ps l r. unfold amplitude. apply chain_ext. clear - F. induction F as [|t s' ts ts' H F IH]; constructor; [exact (proj2 (proj2 H))|exact IH].
Qed.
End Chain.

(** ** Examples: U(1) labels and integers; three sites, two states for the label 0 of the bonds *)
Notation U := U1_label.
Definition small_z (x : nd Z_ring) : bool := forallb (fun xs => nval x xs =? 0) (all_idx (nshape x)).
Lemma small_z_spec : forall x : nd Z_ring, small_z x = true <-> forall xs, nget x xs = r0 Z_ring.
Proof.
  intros x. unfold small_z. rewrite forallb_forall. split; intros H xs.
  - unfold nget. destruct (in_shapeb (nshape x) xs) eqn:E; [|reflexivity]. apply Z.eqb_eq, H, in_all_idx, in_shapeb_spec, E.
  - intros I. apply in_all_idx, in_shapeb_spec in I. specialize (H xs). unfold nget in H. rewrite I in H. apply Z.eqb_eq, H.
Qed.
Definition oblk (qs : list Z) (sh : list Z) (f : Z -> Z -> Z) : list U * nd Z_ring := (qs : list U, mkNd (R := Z_ring) sh (fun xs => f (nth 0 xs 0) (nth 3 xs 0))).
Definition s64a : MpsModel.site Z_ring U := FT [oblk [0; 1; 0; -1] [1; 1; 1; 1] (fun _ _ => 3); oblk [0; 0; 1; 1] [1; 1; 1; 1] (fun _ _ => 5)]
  [oblk [0; 0; 0; 0] [1; 1; 1; 2] (fun _ j => 1 + 3 * j); oblk [0; 1; 1; 0] [1; 1; 1; 2] (fun _ j => 1 - 3 * j)].
Definition s64b : MpsModel.site Z_ring U := FT [oblk [-1; 0; 1; 0] [1; 1; 1; 2] (fun _ j => j); oblk [0; 1; 0; -1] [2; 1; 1; 1] (fun i _ => 2 + i)]
  [oblk [0; 0; 0; 0] [2; 1; 1; 2] (fun i j => if i =? j then 1 else 0); oblk [0; 1; 1; 0] [2; 1; 1; 2] (fun i j => i - j); oblk [1; 0; 0; 1] [1; 1; 1; 1] (fun _ _ => 0); oblk [-1; 1; 1; -1] [1; 1; 1; 1] (fun _ _ => 9)].
Definition s64c : MpsModel.site Z_ring U := FT [oblk [-1; 0; 1; 0] [1; 1; 1; 1] (fun _ _ => 7)] [oblk [0; 0; 0; 0] [2; 1; 1; 1] (fun i _ => 2 - i); oblk [0; 1; 1; 0] [2; 1; 1; 1] (fun i _ => 10 * i)].
Definition d64 (l : list (Z * Z)) (q : U) : Z := match find (fun p => fst p =? q) l with Some p => snd p | None => 0 end.
Definition ds64 : list (U -> Z) := [d64 [(0, 1)]; d64 [(0, 2); (-1, 1); (1, 1)]; d64 [(0, 2); (-1, 1); (1, 1)]; d64 [(0, 1)] ].
Definition shp64 : list (Z * (Z -> U -> Z)) := repeat (4, fun _ _ => 1) 3.
Definition bond64 : list (U * Z) := [((-1 : U), 0); ((0 : U), 0); ((0 : U), 1); ((1 : U), 0)].
Definition ops64 (l : list (Z * Z)) : list (bool * list (U * Z)) := map (fun p => (negb (fst p =? snd p), [((fst p : U), 0); ((snd p : U), 0)])) l.
Definition amp64 (ts : list (MpsModel.site Z_ring U)) (l : list (Z * Z)) : Z := amplitude [bond64; bond64] ts (ops64 l) ((0 : U), 0) ((0 : U), 0).
Definition round64 (dq : option U) (ts : list (MpsModel.site Z_ring U)) : option (list (MpsModel.site Z_ring U)) := do ys <- to_symbolic Z_ring U small_z dq ts; symbolic_to_sparse Z_ring U dq ys.
Example c64_ex : map (fun dq => match round64 dq [s64a; s64b; s64c] with Some ts => map (amp64 ts) [ [(0, 0); (0, 0); (0, 0)]; [(1, 1); (1, 1); (1, 1)]; [(1, 0); (1, 1); (0, 1)]; [(1, 0); (0, 1); (1, 1)]; [(0, 0); (1, 0); (0, 1)] ] | None => [] end)
    [None; Some (5 : U)] = [ [6; -10; 189; 30; 98]; [6; -10; 189; 30; 98] ]
  /\ map (amp64 [s64a; s64b; s64c]) [ [(0, 0); (0, 0); (0, 0)]; [(1, 1); (1, 1); (1, 1)]; [(1, 0); (1, 1); (0, 1)]; [(1, 0); (0, 1); (1, 1)]; [(0, 0); (1, 0); (0, 1)] ] = [6; -10; 189; 30; 98].
Proof. split; vm_compute; reflexivity. Qed.
(* the hypotheses of the theorem hold for it *)
Lemma d64_cases : forall q : U, d64 [(0, 2); (-1, 1); (1, 1)] q = 2 /\ q = 0 \/ d64 [(0, 2); (-1, 1); (1, 1)] q <= 1.
Proof. intros q. unfold d64. cbn [find fst snd]. destruct (Z.eqb_spec 0 q); [left; auto|right]. destruct (-1 =? q); [cbn; lia|]. destruct (1 =? q); cbn; lia. Qed.
Ltac op_site := split; [reflexivity|]; intros odd l m r I; apply in_map_iff in I; destruct I as (b & Ex & I); destruct odd; cbn in I; repeat (destruct I as [<-|I]; [destruct m as [|m1 [|m2 [|m3 [|]]]]; try discriminate Ex; injection Ex as <- <- <- <-; split; reflexivity|]); destruct I.
Example c64_ex_applies : forall dq, exists ys ts', to_symbolic Z_ring U small_z dq [s64a; s64b; s64c] = Some ys /\ symbolic_to_sparse Z_ring U dq ys = Some ts' /\ forall Bs ps l r, amplitude Bs ts' ps l r = amplitude Bs [s64a; s64b; s64c] ps l r.
Proof.
  intros dq. destruct (c64_round_trip Z_ring U small_z small_z_spec dq ds64 shp64 [s64a; s64b; s64c]) as (ys & ts' & E1 & E2 & _ & _ & V).
  - split; [small_site|]; split; [small_site|]; split; [small_site|]; split; reflexivity.
  - repeat (constructor; [op_site|]); constructor.
  - repeat constructor; cbn; lia.
  - intros s I. cbn in I. repeat (destruct I as [<-|I]; [discriminate|]). destruct I.
  - discriminate.
  - repeat split; repeat constructor.
  - intros q i j Hi Hj Un. cbn [nth ds64] in Hi, Hj. destruct (d64_cases q) as [[D ->]|D].
    + specialize (Un (false, [((0 : U), 0); ((0 : U), 0)]) ((0 : U), 0)). assert (C : i = 0 \/ i = 1) by (rewrite D in Hi; lia). destruct C as [->| ->]; vm_compute in Un; discriminate.
    + assert (i = j) by lia. now subst.
  - intros q i j Hi Hj Un. cbn [nth length Nat.sub ds64] in Hi, Hj. destruct (d64_cases q) as [[D ->]|D].
    + specialize (Un (false, [((0 : U), 0); ((0 : U), 0)]) ((0 : U), 0)). assert (C : i = 0 \/ i = 1) by (rewrite D in Hi; lia). destruct C as [->| ->]; vm_compute in Un; discriminate.
    + assert (i = j) by lia. now subst.
  - exists ys, ts'. auto.
Qed.

(** ** What the hypotheses exclude *)
(* the list of column names is shared by mat and rop: with an unused state of a label in the first site the later states of
   that label get other numbers on its right bond, and the amplitudes change *)
Definition a64 : list (MpsModel.site Z_ring U) := [FT [] [oblk [0; 0; 0; 0] [1; 1; 1; 2] (fun _ j => 5 * j)]; FT [] [oblk [0; 0; 0; 0] [2; 1; 1; 1] (fun i _ => 7 - 4 * i)] ].
Lemma bond_one : forall (s t : MpsModel.site Z_ring U), (forall odd, forallb (fun b => (last (fst b) 0 =? 0) && (last (snd b) 0 <=? 2)) (shapes (part s odd)) = true) -> bonds [bond64] [s; t].
Proof.
  intros s t H. split; [repeat constructor; cbn; intuition congruence|]. split; [|exact I]. intros p l [q i] N. unfold selem. apply (elem_out Z_ring U). intros b Hb E X. apply N. clear N.
  specialize (H (fst p)). rewrite forallb_forall in H. assert (Ib : In (fst b, nshape (snd b)) (shapes (part s (fst p)))) by (unfold shapes; apply in_map_iff; exists b; auto). specialize (H _ Ib). cbn [fst snd] in H. apply andb_prop in H. destruct H as [H1 H2]. apply Z.eqb_eq in H1. apply Z.leb_le in H2.
  rewrite E in H1. change (fst l :: map fst (snd p) ++ [fst (q, i)]) with ((fst l :: map fst (snd p)) ++ [q]) in H1. rewrite last_last in H1. subst q.
  change (snd l :: map snd (snd p) ++ [snd (0, i)]) with ((snd l :: map snd (snd p)) ++ [i]) in X. apply Forall2_app_inv_r in X. destruct X as (s1 & s2 & _ & X2 & Es).
  inversion X2 as [|d y s2' l2 Xd Xn]; subst. inversion Xn; subst. rewrite Es, last_last in H2. assert (C : i = 0 \/ i = 1) by lia. destruct C as [->| ->]; cbn; auto.
Qed.
Definition narrow (ts : list (MpsModel.site Z_ring U)) : bool := match ts with [s; _] => forallb (fun odd => forallb (fun b => (last (fst b) 0 =? 0) && (last (snd b) 0 <=? 2)) (shapes (part s odd))) [true; false] | _ => false end.
Lemma bond_two : forall ts, narrow ts = true -> bonds [bond64] ts.
Proof.
  intros [|s [|t [|]]] H; try discriminate. apply bond_one. unfold narrow in H. cbn [forallb] in H. apply andb_prop in H. destruct H as [H1 H2]. apply andb_prop in H2. destruct H2 as [H2 _]. intros []; assumption.
Qed.
Theorem c64_unused_state_refuted : exists (ts ts' : list (MpsModel.site Z_ring U)) ds shp, wf_sites ds shp ts /\ Forall operator_site ts /\ all_nonempty ts /\ vacuum_ends Z_ring U ts ds /\
  round64 None ts = Some ts' /\ let amp t := amplitude [bond64] t (ops64 [(0, 0); (0, 0)]) ((0 : U), 0) ((0 : U), 0) in bonds [bond64] ts /\ bonds [bond64] ts' /\ amp ts = 15 /\ amp ts' = 35.
Proof.
  assert (Ne : all_nonempty a64) by (intros s I; cbn in I; repeat (destruct I as [<-|I]; [discriminate|]); destruct I).
  set (amp := fun t => amplitude [bond64] t (ops64 [(0, 0); (0, 0)]) ((0 : U), 0) ((0 : U), 0)). assert (C : option_map (fun ts => (narrow ts, (amp ts : Z))) (round64 None a64) = Some (true, 35)) by (vm_compute; reflexivity).
  destruct (round64 None a64) as [ts'|] eqn:E; [|discriminate]. injection C as C1 C2. exists a64, ts', [d64 [(0, 1)]; d64 [(0, 2)]; d64 [(0, 1)] ], (repeat (4, fun _ _ => 1) 2).
  split; [split; [small_site|]; split; [small_site|]; split; reflexivity|]. split; [repeat (constructor; [op_site|]); constructor|]. split; [exact Ne|]. split; [repeat split; repeat constructor|].
  split; [exact E|]. cbv zeta. split; [apply bond_two; reflexivity|]. split; [now apply bond_two|]. split; [vm_compute; reflexivity|exact C2].
Qed.
(* a FermionTensor of a state has blocks with an odd physical label in its even part: they move to the odd part *)
Theorem c64_state_refuted : exists (s s' : MpsModel.site Z_ring U) (i : dict U Z), wf_site 3 (bget U i) (fun _ _ => 1) (bget U i) s /\ kind s = true /\
  (forall l m r, In (l :: m ++ [r]) (map fst (part s false)) -> xorb (qpar U l) (qpar U r) = parity m) /\
  (do y <- from_sparse Z_ring U small_z s 1 i i None; tab_to_sparse Z_ring U None y) = Some s' /\
  selem s (false, [((1 : U), 0)]) ((0 : U), 0) ((1 : U), 0) = 4 /\ selem s' (false, [((1 : U), 0)]) ((0 : U), 0) ((1 : U), 0) = 0 /\ selem s' (true, [((1 : U), 0)]) ((0 : U), 0) ((1 : U), 0) = 4.
Proof.
  set (s := FT (R := Z_ring) (L := U) [] [((([0; 1; 1] : list Z) : list U), mkNd (R := Z_ring) [1; 1; 1] (fun _ => 4))]). set (i := [((0 : U), 1); ((1 : U), 1)]).
  assert (C : option_map (fun s' : MpsModel.site Z_ring U => (selem s' (false, [((1 : U), 0)]) ((0 : U), 0) ((1 : U), 0) : Z, selem s' (true, [((1 : U), 0)]) ((0 : U), 0) ((1 : U), 0) : Z)) (do y <- from_sparse Z_ring U small_z s 1 i i None; tab_to_sparse Z_ring U None y) = Some (0, 4)) by (vm_compute; reflexivity).
  destruct (do y <- from_sparse Z_ring U small_z s 1 i i None; tab_to_sparse Z_ring U None y) as [s'|] eqn:E; [|discriminate]. injection C as C1 C2. exists s, s', i. split; [small_site|]. split; [reflexivity|]. split.
  { intros l m r I. cbn in I. destruct I as [X|[]]. destruct m as [|m1 [|m2 [|]]]; try discriminate X. injection X as <- <- <-. reflexivity. }
  split; [exact E|]. split; [vm_compute; reflexivity|]. split; assumption.
Qed.
(* the label at the right end is lost *)
Theorem c64_right_label_refuted : exists (ts ts' : list (MpsModel.site Z_ring U)) ds shp, wf_sites ds shp ts /\ Forall operator_site ts /\ all_nonempty ts /\
  (forall q, In q (firsts (first_site ts)) -> q = 0) /\ (forall q, In q (lasts (last_site ts)) -> q = 1) /\ round64 (Some (1 : U)) ts = Some ts' /\
  let amp t r := amplitude [bond64] t (ops64 [(0, 0); (0, 1)]) ((0 : U), 0) r in bonds [bond64] ts /\ bonds [bond64] ts' /\ amp ts ((1 : U), 0) = 6 /\ amp ts' ((1 : U), 0) = 0 /\ amp ts' ((0 : U), 0) = 6.
Proof.
  set (ts := [FT (R := Z_ring) (L := U) [] [oblk [0; 0; 0; 0] [1; 1; 1; 1] (fun _ _ => 2)]; FT [oblk [0; 0; 1; 1] [1; 1; 1; 1] (fun _ _ => 3)] [] ]).
  set (amp := fun t r => amplitude [bond64] t (ops64 [(0, 0); (0, 1)]) ((0 : U), 0) r). assert (C : option_map (fun ts => (narrow ts, (amp ts ((1 : U), 0) : Z), (amp ts ((0 : U), 0) : Z))) (round64 (Some (1 : U)) ts) = Some (true, 0, 6)) by (vm_compute; reflexivity).
  destruct (round64 (Some (1 : U)) ts) as [ts'|] eqn:E; [|discriminate]. injection C as C1 C2 C3. exists ts, ts', [d64 [(0, 1)]; d64 [(0, 1)]; d64 [(1, 1)] ], (repeat (4, fun _ _ => 1) 2).
  split; [split; [small_site|]; split; [small_site|]; split; reflexivity|]. split; [repeat (constructor; [op_site|]); constructor|]. split; [intros s I; cbn in I; repeat (destruct I as [<-|I]; [discriminate|]); destruct I|].
  split; [intros q I; cbn in I; intuition congruence|]. split; [intros q I; cbn in I; intuition congruence|]. split; [exact E|]. cbv zeta.
  split; [apply bond_two; reflexivity|]. split; [now apply bond_two|]. split; [vm_compute; reflexivity|]. split; assumption.
Qed.
Print Assumptions c64_round_trip.
Print Assumptions c64_unused_state_refuted.
Print Assumptions c64_state_refuted.
Print Assumptions c64_right_label_refuted.
