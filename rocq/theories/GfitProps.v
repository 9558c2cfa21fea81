(** C75: fitting a Gaussian network to a density matrix (RHFTensorNetwork.fit_rdm1) and reading it back (make_rdm1). *)
From Coq Require Import ZArith Bool List Lia Permutation Ring Sorted QArith Qcanon.
From Verif Require Import CanonProofs DictLib IndexLib RingLib OptLib OrdLib LinalgModel LinalgProps GaussModel GaussProofs GaussProps GfitModel GfitProofs.
Import ListNotations.
Open Scope Z_scope.

(* ---- complete orbitals *)
Section Complete.
Variable R : CRing.
Add Ring Rr : (rth R).
Notation "a +' b" := (radd R a b) (at level 50, left associativity).
Notation "a *' b" := (rmul R a b) (at level 40, left associativity).
Notation gt := (gt R).
Definition row_orth (t : gt) : Prop := forall q q', (q < length (g_u t))%nat -> (q' < length (g_u t))%nat ->
  bsum (seq 0 (length (g_u t))) (fun p => g_rot t q p *' g_rot t q' p) = if Nat.eqb q q' then r1 R else r0 R.
Variable ts : list gt.
Notation I := (initial_indices R ts).
Lemma sum_pos : forall (l : list Z) (f : Z -> R), bsum l f = bsum (seq 0 (length l)) (fun p => f (nth p l 0)).
Proof.
  intros l f. rewrite <- (bsum_map R _ _ (fun p => nth p l 0)). f_equal. apply nth_ext with (d := 0) (d' := 0); [now rewrite map_length, seq_length|].
  intros j Hj. rewrite (nth_indep (map (fun p => nth p l 0) (seq 0 (length l))) 0 (nth 0 l 0)) by (rewrite map_length, seq_length; lia). rewrite (map_nth (fun p => nth p l 0)). now rewrite seq_nth.
Qed.
Lemma leg_sum : forall phi t a b, orbs R ts phi -> In t ts -> row_orth t -> length (g_d t) = length (g_u t) -> (a < length I)%nat -> (b < length I)%nat ->
  bsum (g_u t) (fun x => phi x a *' phi x b) = bsum (g_d t) (fun x => phi x a *' phi x b).
Proof.
  intros phi t a b [_ O] Ht Ro Ld Ha Hb. rewrite !sum_pos, Ld.
  rewrite (bsum_ext R _ _ _ (fun p => bsum (seq 0 (length (g_u t))) (fun q => bsum (seq 0 (length (g_u t))) (fun q' => g_rot t q p *' g_rot t q' p *' (phi (nth q (g_d t) 0) a *' phi (nth q' (g_d t) 0) b))))).
  - rewrite bsum_swap. apply bsum_ext. intros q Hq. rewrite bsum_swap. apply in_seq in Hq. rewrite (bsum_single R _ (seq 0 (length (g_u t))) _ q (seq_NoDup _ _) ltac:(apply in_seq; lia)).
    + rewrite bsum_mulr, Ro, Nat.eqb_refl by lia. ring.
    + intros q' Hq' Nq. apply in_seq in Hq'. rewrite bsum_mulr, Ro by lia. destruct (Nat.eqb_spec q q'); [congruence|ring].
  - intros p Hp. apply in_seq in Hp. rewrite (O t a Ht Ha p ltac:(lia)), (O t b Ht Hb p ltac:(lia)). rewrite <- bsum_mulr. apply bsum_ext. intros q _. rewrite <- bsum_mull. apply bsum_ext. intros q' _. ring.
Qed.
Lemma cut_complete : forall phi done l, orbs R ts phi -> (forall t, In t ts -> row_orth t) -> Permutation (done ++ l) ts -> NoDup (Us R ts) -> NoDup (Ds R ts) -> topo R (done ++ l) -> (forall t, In t ts -> length (g_d t) = length (g_u t)) ->
  forall K, NoDup K -> (forall x, In x K <-> (In x I \/ In x (Us R done)) /\ ~ In x (Ds R done)) ->
  forall a b, (a < length I)%nat -> (b < length I)%nat -> bsum K (fun x => phi x a *' phi x b) = if Nat.eqb a b then r1 R else r0 R.
Proof.
  intros phi done. induction done as [|t done IH] using rev_ind; intros l O C P NU ND TP W K NK HK a b Ha Hb.
  - assert (PK : Permutation K I) by (apply NoDup_Permutation; [exact NK|apply nodup_initial|]; intros x; rewrite HK; cbn; tauto).
    rewrite (bsum_perm R _ _ _ _ PK), sum_pos. rewrite (bsum_single R _ (seq 0 (length I)) _ a (seq_NoDup _ _) ltac:(apply in_seq; lia)).
    + rewrite !(proj1 O) by auto. rewrite Nat.eqb_refl. ring.
    + intros c Hc Nc. apply in_seq in Hc. rewrite (proj1 O c a) by lia. destruct (Nat.eqb_spec c a); [congruence|ring].
  - assert (Ht : In t ts) by (apply (Permutation_in t P); apply in_or_app; left; apply in_or_app; right; now left).
    assert (TP' : topo R (done ++ t :: l)) by (now rewrite <- app_assoc in TP).
    specialize (IH (t :: l) O C ltac:(now rewrite <- app_assoc in P) NU ND TP' W).
    assert (HK' : forall z, In z K <-> (In z I \/ In z (Us R done) \/ In z (g_u t)) /\ ~ In z (Ds R done) /\ ~ In z (g_d t)).
    { intros z. rewrite HK, (Us_app R), (Ds_app R), !in_app_iff. cbn. rewrite !app_nil_r. tauto. }
    pose proof (Permutation_NoDup (perm_Ds R _ _ (Permutation_sym P)) ND) as NDo. rewrite <- app_assoc in NDo. rewrite (Ds_app R) in NDo. apply CanonProofs.nodup_app in NDo. destruct NDo as (_ & NDt & NDs). cbn [app] in NDt, NDs. change (Ds R (t :: l)) with (g_d t ++ Ds R l) in NDt, NDs. apply CanonProofs.nodup_app in NDt. destruct NDt as (Nd & _ & _).
    pose proof (Permutation_NoDup (perm_Us R _ _ (Permutation_sym P)) NU) as NUo. rewrite <- app_assoc in NUo. rewrite (Us_app R) in NUo. apply CanonProofs.nodup_app in NUo. destruct NUo as (_ & NUt & NUs). cbn [app] in NUt, NUs. change (Us R (t :: l)) with (g_u t ++ Us R l) in NUt, NUs. apply CanonProofs.nodup_app in NUt. destruct NUt as (Nu & _ & _).
    assert (Dc : forall z, In z (g_d t) -> (In z I \/ In z (Us R done)) /\ ~ In z (Ds R done)).
    { intros z Hz. split.
      - destruct (in_dec Z.eq_dec z (Us R ts)) as [H|H].
        + right. apply (Permutation_in z (perm_Us R _ _ (Permutation_sym P))) in H. rewrite <- app_assoc in H. rewrite (Us_app R), in_app_iff in H. destruct H as [H|H]; [exact H|]. exfalso. exact (proj1 (topo_suffix R _ _ TP') z Hz H).
        + left. apply in_initial. split; [|exact H]. apply in_Ds. exists t. auto.
      - intros H. apply (NDs z H). apply in_or_app. now left. }
    assert (Dis : forall z, (In z I \/ In z (Us R done)) -> ~ In z (g_u t)).
    { intros z [Hz|Hz] Hu; [|apply (NUs z Hz); apply in_or_app; now left]. apply in_initial in Hz. apply (proj2 Hz). apply in_Us. exists t. auto. }
    assert (Tu : forall z, In z (g_u t) -> ~ In z (Ds R done) /\ ~ In z (g_d t)).
    { intros z Hz. split.
      - intros H. apply in_Ds in H. destruct H as (t' & Ht' & H). apply (topo_before R done (t :: l) t' z TP' Ht' H). cbn. apply in_or_app. now left.
      - intros H. apply (proj1 (topo_suffix R _ _ TP') z H). cbn. apply in_or_app. now left. }
    set (re := filter (fun x => negb (mem x (g_u t))) K).
    assert (Hr : forall z, In z re <-> In z K /\ ~ In z (g_u t)) by (intros z; unfold re; rewrite filter_In, Bool.negb_true_iff, mem_notin; tauto).
    assert (P1 : Permutation K (g_u t ++ re)).
    { apply NoDup_Permutation; [exact NK| |].
      - apply CanonProofs.nodup_app. split; [exact Nu|]. split; [now apply NoDup_filter|]. intros z H1 H2. apply Hr in H2. tauto.
      - intros z. rewrite in_app_iff, Hr. split; [intros H; destruct (in_dec Z.eq_dec z (g_u t)); tauto|]. intros [H|[H _]]; [|exact H]. apply HK'. specialize (Tu z H). tauto. }
    rewrite (bsum_perm R _ _ _ _ P1), bsum_app, (leg_sum phi t a b O Ht (C t Ht) (W t Ht) Ha Hb), <- bsum_app.
    apply IH; auto.
    + apply CanonProofs.nodup_app. split; [exact Nd|]. split; [now apply NoDup_filter|]. intros z H1 H2. apply Hr in H2. destruct H2 as [H2 _]. apply HK' in H2. tauto.
    + intros z. rewrite in_app_iff, Hr, HK'. split.
      * intros [H|H]; [exact (Dc z H)|tauto].
      * intros [H1 H2]. destruct (in_dec Z.eq_dec z (g_d t)); [now left|right]. specialize (Dis z H1). tauto.
Qed.
Lemma terminal_complete : forall rk phi, net_ok R ts rk -> orbs R ts phi -> (forall t, In t ts -> row_orth t) -> forall a b, (a < length I)%nat -> (b < length I)%nat ->
  bsum (terminal_indices R ts) (fun x => phi x a *' phi x b) = if Nat.eqb a b then r1 R else r0 R.
Proof.
  intros rk phi Ne O C a b Ha Hb. destruct (net_order R ts rk Ne) as (ls & _ & Q & (_ & _ & TP & _ & _)). destruct Ne as (NU & ND & _ & W).
  apply (cut_complete phi (map snd (concat ls)) [] O C); rewrite ?app_nil_r; auto.
  - intros t Ht. apply W. exact Ht.
  - apply nodup_terminal.
  - intros x. rewrite in_terminal, in_initial. pose proof (perm_Us R _ _ Q) as QU. pose proof (perm_Ds R _ _ Q) as QD. split.
    + intros [H1 H2]. split; [right; exact (Permutation_in x (Permutation_sym QU) H1)|]. intros H. apply H2. exact (Permutation_in x QD H).
    + intros [H1 H2]. split; [|intros H; apply H2; exact (Permutation_in x (Permutation_sym QD) H)]. destruct H1 as [[H1 _]|H1]; [elim H2; exact (Permutation_in x (Permutation_sym QD) H1)|exact (Permutation_in x QU H1)].
Qed.
End Complete.

Section Spec.
Variable R : CRing.
Add Ring Rr2 : (rth R).
Notation "a +' b" := (radd R a b) (at level 50, left associativity).
Notation "a *' b" := (rmul R a b) (at level 40, left associativity).
Notation "a -' b" := (radd R a (ropp R b)) (at level 50, left associativity).
Notation mat := (nat -> nat -> R).
Notation gt := (gt R).
(* square tensors, core legs (the first up legs) not used again; no occupations and rotations needed yet *)
Definition fittable (ts : list gt) : Prop := forall t, In t ts -> length (g_d t) = length (g_u t) /\ (g_core t <= length (g_u t))%nat /\
  forall p, (p < g_core t)%nat -> ~ In (nth p (g_u t) 0) (downs R ts).
(* the columns of ub are orthonormal eigenvectors of A *)
Definition diagonalises (n : nat) (A : mat) (xb : list R) (ub : mat) : Prop := length xb = n /\
  (forall p p', (p < n)%nat -> (p' < n)%nat -> bsum (seq 0 n) (fun q => ub q p *' ub q p') = if Nat.eqb p p' then r1 R else r0 R) /\
  (forall q q', (q < n)%nat -> (q' < n)%nat -> bsum (seq 0 n) (fun p => ub q p *' ub q' p) = if Nat.eqb q q' then r1 R else r0 R) /\
  (forall i p, (i < n)%nat -> (p < n)%nat -> bsum (seq 0 n) (fun j => A i j *' ub j p) = nth p xb (r0 R) *' ub i p).
Definition symmetric (n : nat) (A : mat) : Prop := forall i j, (i < n)%nat -> (j < n)%nat -> A i j = A j i.
(* eigh diagonalises the symmetric matrices of the sizes of the tensors *)
Definition solver (ts : list gt) (eigh : nat -> mat -> list R * mat) : Prop := forall t A, In t ts -> symmetric (length (g_u t)) A ->
  diagonalises (length (g_u t)) A (fst (eigh (length (g_u t)) A)) (snd (eigh (length (g_u t)) A)).
Definition sorter (order : list R -> list nat) : Prop := forall xb, Permutation (order xb) (seq 0 (length xb)).
Definition same_legs (t t' : gt) : Prop := g_u t' = g_u t /\ g_d t' = g_d t /\ g_core t' = g_core t.
Definition with_occ (f : R -> R) (t : gt) : gt := GT R (g_u t) (g_d t) (g_core t) (g_rot t) (map f (g_occ t)).
Definition dist2 (n : nat) (A A' : mat) : R := bsum (seq 0 n) (fun a => bsum (seq 0 n) (fun b => (A a b -' A' a b) *' (A a b -' A' a b))).

Lemma legs_dec : forall a b : list Z * list Z * nat, {a = b} + {a <> b}.
Proof. repeat decide equality. Qed.
Lemma wired_legs : forall a b : list gt, map (legs_of R) a = map (legs_of R) b -> wired R a -> wired R b.
Proof.
  intros a b E (NU & ND & lv & H). destruct (Us_legs R a b E) as [EU ED]. unfold Us, Ds in EU, ED. unfold wired, ups, downs in *. rewrite <- EU, <- ED. split; [exact NU|]. split; [exact ND|].
  set (fd := fun t' : gt => find (fun t => if legs_dec (legs_of R t) (legs_of R t') then true else false) a).
  assert (Hf : forall t', In t' b -> exists t, fd t' = Some t /\ In t a /\ legs_of R t = legs_of R t').
  { intros t' Ht'. destruct (fd t') as [t|] eqn:F.
    - exists t. split; [reflexivity|]. apply find_some in F. destruct F as [F1 F2]. split; [exact F1|]. now destruct (legs_dec _ _).
    - exfalso. destruct (legs_in R b a (eq_sym E) t' Ht') as (t & Ht & L). pose proof (find_none _ _ F t Ht) as C. cbv beta in C. destruct (legs_dec _ _); [discriminate|contradiction]. }
  exists (fun t' => match fd t' with Some t => lv t | None => 0%nat end). intros t t' x Ht Ht' Hu Hd.
  destruct (Hf t Ht) as (s & -> & Hs & L). destruct (Hf t' Ht') as (s' & -> & Hs' & L'). unfold legs_of in L, L'. injection L as L1 L2 L3. injection L' as L1' L2' L3'.
  apply (H s s' x Hs Hs'); congruence.
Qed.
Lemma initial_legs : forall a b : list gt, map (legs_of R) a = map (legs_of R) b -> initial_indices R a = initial_indices R b.
Proof. intros a b E. destruct (Us_legs R a b E) as [EU ED]. unfold Us, Ds in EU, ED. unfold initial_indices. now rewrite EU, ED. Qed.

Lemma fold_set_len : forall (F : gt -> gt) (L : list (nat * gt)) ts, length (fold_left (fun ts e => set_nth (fst e) (F (snd e)) ts) L ts) = length ts.
Proof. intros F L. induction L as [|e L IH]; intros ts; cbn; [reflexivity|]. rewrite IH. apply set_nth_len. Qed.
Lemma fold_set_other : forall (F : gt -> gt) (L : list (nat * gt)) ts i d, ~ In i (map fst L) -> nth i (fold_left (fun ts e => set_nth (fst e) (F (snd e)) ts) L ts) d = nth i ts d.
Proof. intros F L. induction L as [|e L IH]; intros ts i d H; cbn; [reflexivity|]. cbn in H. rewrite IH by tauto. apply set_nth_other. tauto. Qed.
Lemma fold_set_in : forall (F : gt -> gt) (L : list (nat * gt)) ts i t d, NoDup (map fst L) -> In (i, t) L -> (i < length ts)%nat ->
  nth i (fold_left (fun ts e => set_nth (fst e) (F (snd e)) ts) L ts) d = F t.
Proof.
  intros F L. induction L as [|e L IH]; intros ts i t d N H Hi; [contradiction|]. cbn in N. apply NoDup_cons_iff in N. destruct N as [N1 N2]. cbn [fold_left]. destruct H as [->|H].
  - rewrite fold_set_other by exact N1. cbn. now apply set_nth_same.
  - apply IH; auto. now rewrite set_nth_len.
Qed.

(** the fitted network, without rounding and with it *)
Lemma fit_net : forall eigh order neg fit_ent ts D, wired R ts -> fittable ts -> solver ts eigh -> sorter order -> symmetric (length (initial_indices R ts)) D ->
  exists ts0, map (legs_of R) ts0 = map (legs_of R) ts /\ (forall rnd, fit_rdm1 R eigh order neg rnd fit_ent ts D = Some (map (with_occ rnd) ts0)) /\
    (forall t, In t ts0 -> length (g_occ t) = g_core t /\ ortho R t) /\
    forall phi, units R (length (initial_indices R ts)) (initial_indices R ts) phi -> (forall t, In t ts0 -> follows R (length (initial_indices R ts)) phi t) ->
      forall t p, In t ts0 -> (p < g_core t)%nat -> B R (length (initial_indices R ts)) D phi (nth p (g_u t) 0) (nth p (g_u t) 0) = nth p (g_occ t) (r0 R).
Proof.
  intros eigh order neg fit_ent ts D (NU & ND & lv & Hl) Fi So Sr Dsym. set (I := initial_indices R ts) in *. set (N := length I) in *.
  destruct (get_layers_ok R ts lv ND NU Hl) as (ls & El & Pl & TP & _ & _).
  assert (Q : Permutation (map snd (concat ls)) ts) by (apply (Permutation_map snd) in Pl; rewrite map_snd_combine' in Pl by (now rewrite seq_length); exact Pl).
  assert (Qf : Permutation (map fst (concat ls)) (seq 0 (length ts))) by (apply (Permutation_map fst) in Pl; rewrite map_fst_combine' in Pl by (now rewrite seq_length); exact Pl).
  assert (Ep : positions I = combine I (seq 0 N)) by (apply dict_nodup; rewrite map_fst_combine' by apply seq_length; apply nodup_initial).
  destruct (loop_fit R eigh (fun n => exists t, In t ts /\ length (g_u t) = n)) with (order := order) (neg := neg) (N := N) (D := D) (I := I) (fit_ent := fit_ent) (l := concat ls) (done := @nil gt) (od := @nil gt) (m := positions I) (dm := D)
    as (L0 & m' & dm' & Ef & Fs & Lg & Oc & HB); auto.
  - intros n A (t & Ht & <-) Sy. exact (So t A Ht Sy).
  - apply nodup_initial.
  - rewrite Ep. split; [rewrite map_fst_combine' by apply seq_length; apply nodup_initial|]. split; [rewrite map_snd_combine' by apply seq_length; apply seq_NoDup|]. split.
    + intros x. rewrite map_fst_combine' by apply seq_length. cbn. tauto.
    + intros phi U _ x i y j Hx Hy.
      assert (G : forall z k, In (z, k) (combine I (seq 0 N)) -> (k < N)%nat /\ z = nth k I 0).
      { intros z k H. apply (In_nth _ _ (0, 0%nat)) in H. destruct H as (n & Ln & E). rewrite combine_length, seq_length, Nat.min_id in Ln. rewrite combine_nth in E by (now rewrite seq_length). rewrite seq_nth in E by exact Ln. injection E as <- <-. auto. }
      destruct (G _ _ Hx) as [Hi ->]. destruct (G _ _ Hy) as [Hj ->]. unfold B.
      rewrite (bsum_single R _ (seq 0 N) _ i (seq_NoDup _ _) ltac:(apply in_seq; lia)).
      * rewrite (bsum_single R _ (seq 0 N) _ j (seq_NoDup _ _) ltac:(apply in_seq; lia)).
        -- rewrite (U i i Hi Hi), (U j j Hj Hj), !Nat.eqb_refl. ring.
        -- intros b Hb Nb. apply in_seq in Hb. rewrite (U j b) by lia. destruct (Nat.eqb_spec j b); [congruence|ring].
      * intros a Ha Na. apply in_seq in Ha. apply bsum_zero. intros b _. rewrite (U i a) by lia. destruct (Nat.eqb_spec i a); [congruence|ring].
  - cbn [app]. exact (Permutation_NoDup (perm_Us R _ _ (Permutation_sym Q)) NU).
  - cbn [app]. exact (Permutation_NoDup (perm_Ds R _ _ (Permutation_sym Q)) ND).
  - cbn [app]. intros t Ht. apply (Permutation_in t Q) in Ht. destruct (Fi t Ht) as (A1 & A2 & _). split; [exact A1|]. split; [exact A2|]. exists t. auto.
  - cbn [app]. intros x. unfold I. rewrite in_initial. split; intros [H1 H2].
    + split; [exact (Permutation_in x (perm_Ds R _ _ (Permutation_sym Q)) H1)|]. intros C. apply H2. exact (Permutation_in x (perm_Us R _ _ Q) C).
    + split; [exact (Permutation_in x (perm_Ds R _ _ Q) H1)|]. intros C. apply H2. exact (Permutation_in x (perm_Us R _ _ (Permutation_sym Q)) C).
  - set (ts0 := fold_left (fun ts e => set_nth (fst e) (snd e) ts) L0 ts).
    assert (NL : NoDup (map fst L0)) by (rewrite Fs; exact (Permutation_NoDup (Permutation_sym Qf) (seq_NoDup _ _))).
    assert (Len : length ts0 = length ts) by exact (fold_set_len (fun t => t) L0 ts).
    assert (At : forall i, (i < length ts)%nat -> exists t, In (i, t) L0).
    { intros i Hi. assert (H : In i (map fst L0)) by (rewrite Fs; apply (Permutation_in i (Permutation_sym Qf)); apply in_seq; lia). apply in_map_iff in H. destruct H as ([j t] & E & H). cbn in E. subst j. exists t. exact H. }
    assert (Lt : forall i t, In (i, t) L0 -> (i < length ts)%nat).
    { intros i t H. apply (in_map fst) in H. rewrite Fs in H. apply (Permutation_in _ Qf) in H. apply in_seq in H. cbn in H. lia. }
    set (d0 := GT R [] [] 0 (fun _ _ => r0 R) [] : gt).
    assert (N0 : forall i t, In (i, t) L0 -> nth i ts0 d0 = t) by (intros i t H; exact (fold_set_in (fun t => t) L0 ts i t d0 NL H (Lt i t H))).
    assert (In0 : forall t, In t ts0 <-> In t (map snd L0)).
    { intros t. split; intros H.
      - apply (In_nth _ _ d0) in H. destruct H as (i & Li & <-). rewrite Len in Li. destruct (At i Li) as (t & Ht). rewrite (N0 i t Ht). exact (in_map snd _ _ Ht).
      - apply in_map_iff in H. destruct H as ([i t2] & E & H). cbn in E. subst t2. rewrite <- (N0 i t H). apply nth_In. rewrite Len. exact (Lt i t H). }
    exists ts0. split; [|split; [|split]].
    + apply nth_ext with (d := legs_of R d0) (d' := legs_of R d0); [now rewrite !map_length|]. intros i Hi. rewrite map_length, Len in Hi. rewrite !map_nth. destruct (At i Hi) as (t & Ht). rewrite (N0 i t Ht).
      apply (In_nth _ _ (0%nat, d0)) in Ht. destruct Ht as (k & Lk & Ek). 
      assert (Lc : length L0 = length (concat ls)) by (rewrite <- (map_length fst L0), Fs; apply map_length).
      assert (E1 : fst (nth k (concat ls) (0%nat, d0)) = i) by (rewrite <- (map_nth fst), <- Fs, (map_nth fst), Ek; reflexivity).
      assert (E2 : legs_of R (snd (nth k (concat ls) (0%nat, d0))) = legs_of R t).
      { rewrite <- (map_nth snd), <- (map_nth (legs_of R)). cbn [snd]. rewrite <- Lg. rewrite (map_nth (legs_of R)). change d0 with (snd (0%nat, d0)) at 1. rewrite (map_nth snd), Ek. reflexivity. }
      rewrite <- E2. f_equal. assert (H : In (nth k (concat ls) (0%nat, d0)) (combine (seq 0 (length ts)) ts)) by (apply (Permutation_in _ Pl); apply nth_In; lia).
      apply (In_nth _ _ (0%nat, d0)) in H. destruct H as (j & Lj & Ej). rewrite combine_length, seq_length, Nat.min_id in Lj. rewrite combine_nth in Ej by apply seq_length. rewrite seq_nth in Ej by exact Lj. rewrite <- Ej in *. cbn in E1 |- *. now subst j.
    + intros rnd. unfold fit_rdm1. rewrite El. cbn [bind]. fold I. rewrite Ef. cbn [bind]. f_equal.
      apply nth_ext with (d := with_occ rnd d0) (d' := with_occ rnd d0); [rewrite (fold_set_len (rt R rnd)), map_length; now symmetry|]. intros i Hi. rewrite (fold_set_len (rt R rnd)) in Hi. destruct (At i Hi) as (t & Ht).
      rewrite (map_nth (with_occ rnd)), (N0 i t Ht). exact (fold_set_in (rt R rnd) L0 ts i t _ NL Ht Hi).
    + intros t Ht. apply In0 in Ht. apply in_map_iff in Ht. destruct Ht as (e & <- & He). exact (Oc e He).
    + intros phi U F t p Ht Hp. apply In0 in Ht. apply in_map_iff in Ht. destruct Ht as (e & <- & He). apply (HB phi U); auto. cbn [app]. intros t Ht. apply F. now apply In0.
Qed.

Lemma core_with : forall f ts F, (forall t, In t ts -> length (g_occ t) = g_core t) -> core_sum R (map (with_occ f) ts) F = core_sum R ts (fun x o => F x (f o)).
Proof.
  intros f ts F H. unfold core_sum. rewrite bsum_map. apply bsum_ext. intros t Ht. cbn [with_occ g_core g_u g_occ]. apply bsum_ext. intros p Hp. apply in_seq in Hp. f_equal.
  rewrite (nth_indep _ (r0 R) (f (r0 R))) by (rewrite map_length, (H t Ht); lia). apply map_nth.
Qed.
Lemma core_ext : forall ts F G, (forall t p, In t ts -> (p < g_core t)%nat -> F (nth p (g_u t) 0) (nth p (g_occ t) (r0 R)) = G (nth p (g_u t) 0) (nth p (g_occ t) (r0 R))) -> core_sum R ts F = core_sum R ts G.
Proof. intros ts F G H. unfold core_sum. apply bsum_ext. intros t Ht. apply bsum_ext. intros p Hp. apply in_seq in Hp. apply H; auto. lia. Qed.
Lemma core_add : forall ts F G, core_sum R ts (fun x o => F x o +' G x o) = core_sum R ts F +' core_sum R ts G.
Proof. intros ts F G. unfold core_sum. rewrite <- bsum_add. apply bsum_ext. intros t _. now rewrite <- bsum_add. Qed.
Lemma core_mull : forall ts c F, core_sum R ts (fun x o => c *' F x o) = c *' core_sum R ts F.
Proof. intros ts c F. unfold core_sum. rewrite <- bsum_mull. apply bsum_ext. intros t _. now rewrite <- bsum_mull. Qed.
Lemma core_swap : forall (l : list nat) ts (F : nat -> Z -> R -> R), bsum l (fun a => core_sum R ts (F a)) = core_sum R ts (fun x o => bsum l (fun a => F a x o)).
Proof. intros l ts F. unfold core_sum. rewrite bsum_swap. apply bsum_ext. intros t _. now rewrite bsum_swap. Qed.

(** *** C75: fit_rdm1 ends, keeps the legs, gives orthogonal rotations; the square distance of make_rdm1 of the fitted network to D is
    |D|^2 - (sum of x^2) + (sum of (x - round x)^2), x being the eigenvalues kept in the core legs. *)
Theorem c75_fit : forall eigh order neg fit_ent ts D, wired R ts -> fittable ts -> solver ts eigh -> sorter order -> symmetric (length (initial_indices R ts)) D ->
  exists ts0, fit_rdm1 R eigh order neg (fun x => x) fit_ent ts D = Some ts0 /\ Forall2 same_legs ts ts0 /\
    (forall t, In t ts0 -> length (g_occ t) = g_core t /\ orthogonal R t /\ row_orth R t) /\
    forall rnd, fit_rdm1 R eigh order neg rnd fit_ent ts D = Some (map (with_occ rnd) ts0) /\
      exists dm, make_rdm1 R (map (with_occ rnd) ts0) = Some (length (initial_indices R ts), dm) /\ symmetric (length (initial_indices R ts)) dm /\
        bsum (seq 0 (length (initial_indices R ts))) (fun a => dm a a) = core_sum R ts0 (fun _ x => rnd x) /\
        dist2 (length (initial_indices R ts)) D dm = dist2 (length (initial_indices R ts)) D (fun _ _ => r0 R) -' core_sum R ts0 (fun _ x => x *' x) +' core_sum R ts0 (fun _ x => (x -' rnd x) *' (x -' rnd x)) /\
        ((forall x, In x (ups R ts) -> ~ In x (downs R ts) -> exists t p, In t ts /\ (p < g_core t)%nat /\ x = nth p (g_u t) 0) ->
         bsum (seq 0 (length (initial_indices R ts))) (fun a => D a a) = core_sum R ts0 (fun _ x => x)).
Proof.
  intros eigh order neg fit_ent ts D Wi Fi So Sr Dsym. destruct (fit_net eigh order neg fit_ent ts D Wi Fi So Sr Dsym) as (ts0 & El & Ef & Oc & HB).
  set (I := initial_indices R ts) in *. set (N := length I) in *.
  assert (Eid : map (with_occ (fun x => x)) ts0 = ts0) by (rewrite <- (map_id ts0) at 2; apply map_ext; intros [u d c r o]; unfold with_occ; cbn; now rewrite map_id).
  exists ts0. split; [rewrite Ef, Eid; reflexivity|]. split.
  { clear - El. revert ts0 El. induction ts as [|t ts IH]; intros [|t0 ts0] E; try discriminate; constructor; cbn [map] in E; injection E as E1 E2 E3 E4; [repeat split; assumption|now apply IH]. }
  split. { intros t Ht. destruct (Oc t Ht) as (A1 & A2 & A3). split; [exact A1|]. split; [exact A2|exact A3]. }
  intros rnd. split; [apply Ef|]. set (ts' := map (with_occ rnd) ts0).
  assert (El' : map (legs_of R) ts' = map (legs_of R) ts) by (rewrite <- El; unfold ts'; rewrite map_map; apply map_ext; intros t; reflexivity).
  assert (Wi' : wired R ts') by (apply (wired_legs ts); [now symmetry|exact Wi]).
  assert (EI : initial_indices R ts' = I) by (apply initial_legs; exact El').
  destruct (Us_legs R ts' ts El') as [EU ED]. change (Us R ts') with (ups R ts') in EU. change (Us R ts) with (ups R ts) in EU. change (Ds R ts') with (downs R ts') in ED. change (Ds R ts) with (downs R ts) in ED.
  assert (Sh' : shaped R ts').
  { intros t Ht. destruct (legs_in R ts' ts El' t Ht) as (s & Hs & L). unfold legs_of in L. injection L as L1 L2 L3. destruct (Fi s Hs) as (A1 & A2 & A3). rewrite <- L1, <- L2, <- L3, ED. repeat split; auto.
    unfold ts' in Ht. apply in_map_iff in Ht. destruct Ht as (t0 & <- & Ht0). cbn [with_occ g_occ g_core] in *. rewrite map_length. rewrite L3. apply (Oc t0 Ht0). }
  assert (Or' : forall t, In t ts' -> orthogonal R t) by (intros t Ht; unfold ts' in Ht; apply in_map_iff in Ht; destruct Ht as (t0 & <- & Ht0); exact (proj1 (proj2 (Oc t0 Ht0)))).
  assert (Ro' : forall t, In t ts' -> row_orth R t) by (intros t Ht; unfold ts' in Ht; apply in_map_iff in Ht; destruct Ht as (t0 & <- & Ht0); exact (proj2 (proj2 (Oc t0 Ht0)))).
  destruct (c72_rdm1 R ts' Wi' Sh') as (dm & Em & phi & (O1 & O2) & Hd). rewrite EI in *. destruct (Hd N eq_refl) as (Fd & Hd2). destruct (Hd2 Or') as (On & Eg & _ & Tr & _). clear Hd Hd2.
  exists dm. split; [exact Em|].
  assert (Hx : forall t p, In t ts0 -> (p < g_core t)%nat -> B R N D phi (nth p (g_u t) 0) (nth p (g_u t) 0) = nth p (g_occ t) (r0 R)).
  { apply HB; [exact O1|]. intros t Ht b Hb p Hp. exact (O2 (with_occ rnd t) p b (in_map _ _ _ Ht) Hp Hb). }
  assert (Oc0 : forall t, In t ts0 -> length (g_occ t) = g_core t) by (intros t Ht; apply (Oc t Ht)).
  assert (Cu : forall t p, In t ts' -> (p < g_core t)%nat -> In (nth p (g_u t) 0) (ups R ts') /\ ~ In (nth p (g_u t) 0) (downs R ts')).
  { intros t p Ht Hp. destruct (Sh' t Ht) as (_ & _ & A & A'). split; [|now apply A']. unfold ups. apply in_flat_map. exists t. split; [exact Ht|]. apply nth_In. lia. }
  split. { intros a b Ha Hb. rewrite !Fd by assumption. apply core_ext. intros t p _ _. ring. }
  split. { rewrite Tr. unfold ts'. rewrite core_with by exact Oc0. reflexivity. }
  split.
  - assert (E1 : bsum (seq 0 N) (fun a => bsum (seq 0 N) (fun b => D a b *' dm a b)) = core_sum R ts0 (fun _ x => x *' rnd x)).
    { rewrite (bsum_ext R _ _ _ (fun a => core_sum R ts' (fun x o => bsum (seq 0 N) (fun b => o *' (phi x a *' D a b *' phi x b))))).
      - rewrite core_swap. unfold ts'. rewrite core_with by exact Oc0. apply core_ext. intros t p Ht Hp. cbv beta. transitivity (rnd (nth p (g_occ t) (r0 R)) *' B R N D phi (nth p (g_u t) 0) (nth p (g_u t) 0)); [|rewrite (Hx t p Ht Hp); ring]. unfold B. rewrite <- bsum_mull. apply bsum_ext. intros a _. now rewrite bsum_mull.
      - intros a Ha. apply in_seq in Ha. rewrite <- core_swap. apply bsum_ext. intros b Hb. apply in_seq in Hb. rewrite Fd by lia. rewrite <- core_mull. apply core_ext. intros t p _ _. ring. }
    assert (E2 : bsum (seq 0 N) (fun a => bsum (seq 0 N) (fun b => dm a b *' dm a b)) = core_sum R ts0 (fun _ x => rnd x *' rnd x)).
    { rewrite (bsum_ext R _ _ _ (fun a => core_sum R ts' (fun x o => o *' o *' (phi x a *' phi x a)))).
      - rewrite core_swap. rewrite (core_ext ts' _ (fun _ o => o *' o)); [unfold ts'; rewrite core_with by exact Oc0; reflexivity|]. intros t p Ht Hp. cbv beta. rewrite bsum_mull. destruct (Cu t p Ht Hp) as [C1 C2]. rewrite (On _ _ C1 C2 C1 C2), Z.eqb_refl. ring.
      - intros a Ha. apply in_seq in Ha. transitivity (core_sum R ts' (fun x o => bsum (seq 0 N) (fun b => o *' phi x a *' (dm a b *' phi x b)))).
        + rewrite <- core_swap. apply bsum_ext. intros b Hb. apply in_seq in Hb. rewrite (Fd a b) at 2 by lia. rewrite <- core_mull. apply core_ext. intros t p _ _. ring.
        + apply core_ext. intros t p Ht Hp. cbv beta. rewrite bsum_mull, (Eg t p a Ht Hp) by lia. ring. }
    unfold dist2.
    transitivity (bsum (seq 0 N) (fun a => bsum (seq 0 N) (fun b => D a b *' D a b)) +' (ropp R (r1 R +' r1 R) *' bsum (seq 0 N) (fun a => bsum (seq 0 N) (fun b => D a b *' dm a b)) +' bsum (seq 0 N) (fun a => bsum (seq 0 N) (fun b => dm a b *' dm a b)))).
    + rewrite <- bsum_mull, <- !bsum_add. apply bsum_ext. intros a _. rewrite <- bsum_mull, <- !bsum_add. apply bsum_ext. intros b _. ring.
    + rewrite E1, E2.
      rewrite (core_ext ts0 (fun _ x => (x -' rnd x) *' (x -' rnd x)) (fun _ x => x *' x +' (ropp R (r1 R +' r1 R) *' (x *' rnd x) +' rnd x *' rnd x))) by (intros; ring). rewrite !core_add, core_mull.
      assert (E3 : bsum (seq 0 N) (fun a => bsum (seq 0 N) (fun b => (D a b -' r0 R) *' (D a b -' r0 R))) = bsum (seq 0 N) (fun a => bsum (seq 0 N) (fun b => D a b *' D a b))) by (apply bsum_ext; intros a _; apply bsum_ext; intros b _; ring).
      rewrite E3. ring.
  - intros Full. destruct (net_of R ts' Wi' Sh') as (rk & Ne). assert (Ob : orbs R ts' phi) by (split; rewrite EI; [exact O1|intros t b Ht Hb p Hp; exact (O2 t p b Ht Hp Hb)]).
    set (T := terminal_indices R ts').
    assert (Cm : forall a b, (a < N)%nat -> (b < N)%nat -> bsum T (fun x => phi x a *' phi x b) = if Nat.eqb a b then r1 R else r0 R).
    { intros a b Ha Hb. apply (terminal_complete R ts' rk phi Ne Ob Ro'); rewrite EI; assumption. }
    set (C := flat_map (fun t : gt => map (fun p => nth p (g_u t) 0) (seq 0 (g_core t))) ts').
    assert (InC : forall x, In x C <-> exists t p, In t ts' /\ (p < g_core t)%nat /\ x = nth p (g_u t) 0).
    { intros x. unfold C. rewrite in_flat_map. split.
      - intros (t & Ht & H). apply in_map_iff in H. destruct H as (p & <- & Hp). apply in_seq in Hp. exists t, p. repeat split; auto. lia.
      - intros (t & p & Ht & Hp & ->). exists t. split; [exact Ht|]. apply in_map_iff. exists p. split; [reflexivity|]. apply in_seq. lia. }
    assert (PT : Permutation T C).
    { apply NoDup_Permutation; [apply nodup_terminal| |].
      - destruct Wi' as (NU' & _ & _). unfold C. assert (Lc : forall t, In t ts' -> (g_core t <= length (g_u t))%nat) by (intros t Ht; apply (Sh' t Ht)). unfold ups in NU'. clear - NU' Lc.
        assert (In1 : forall (t : gt) x, (g_core t <= length (g_u t))%nat -> In x (map (fun p => nth p (g_u t) 0) (seq 0 (g_core t))) -> In x (g_u t)).
        { intros t x L H. apply in_map_iff in H. destruct H as (p & <- & Hp). apply in_seq in Hp. apply nth_In. lia. }
        induction ts' as [|t l IH]; cbn [flat_map] in *; [constructor|]. apply CanonProofs.nodup_app in NU'. destruct NU' as (N1 & N2 & N3). apply CanonProofs.nodup_app. split; [|split].
        + assert (L := Lc t (or_introl eq_refl)). clear - N1 L. generalize (seq_NoDup (g_core t) 0). assert (G : forall p, In p (seq 0 (g_core t)) -> (p < length (g_u t))%nat) by (intros p Hp; apply in_seq in Hp; lia). revert G. generalize (seq 0 (g_core t)) as l. induction l as [|p l IH]; intros G Nl; cbn; [constructor|]. apply NoDup_cons_iff in Nl. destruct Nl as [Np Nl]. constructor; [|apply IH; auto; intros p' H'; apply G; now right].
          intros H. apply in_map_iff in H. destruct H as (p' & E & H). apply Np. rewrite (NoDup_nth (g_u t) 0) in N1. rewrite <- (N1 p' p (G p' (or_intror H)) (G p (or_introl eq_refl)) E). exact H.
        + apply IH; [exact N2|]. intros t' H. apply Lc. now right.
        + intros x H1 H2. apply (N3 x); [exact (In1 t x (Lc t (or_introl eq_refl)) H1)|]. apply in_flat_map in H2. destruct H2 as (t' & Ht' & H2). apply in_flat_map. exists t'. split; [exact Ht'|]. exact (In1 t' x (Lc t' (or_intror Ht')) H2).
      - intros x. rewrite InC. unfold T. rewrite in_terminal. change (Us R ts') with (ups R ts'). change (Ds R ts') with (downs R ts'). split.
        + intros [H1 H2]. rewrite EU in H1. rewrite ED in H2. destruct (Full x H1 H2) as (s & p & Hs & Hp & ->). destruct (legs_in R ts ts' (eq_sym El') s Hs) as (t & Ht & L). unfold legs_of in L. injection L as L1 L2 L3. exists t, p. rewrite L1, L3. auto.
        + intros (t & p & Ht & Hp & ->). apply Cu; assumption. }
    transitivity (bsum T (fun x => B R N D phi x x)).
    + unfold B. symmetry. rewrite bsum_swap. apply bsum_ext. intros a Ha. apply in_seq in Ha. rewrite bsum_swap.
      rewrite (bsum_ext R _ _ _ (fun b => D a b *' (if Nat.eqb a b then r1 R else r0 R))).
      * rewrite (bsum_single R _ (seq 0 N) _ a (seq_NoDup _ _) ltac:(apply in_seq; lia)); [rewrite Nat.eqb_refl; ring|]. intros b _ Nb. destruct (Nat.eqb_spec a b); [congruence|ring].
      * intros b Hb. apply in_seq in Hb. rewrite <- (Cm a b) by lia. rewrite <- bsum_mull. apply bsum_ext. intros x _. ring.
    + rewrite (bsum_perm R _ _ _ _ PT). unfold C. rewrite bsum_flat_map. unfold core_sum, ts'. rewrite bsum_map. apply bsum_ext. intros t Ht. cbn [with_occ g_core g_u]. rewrite bsum_map. apply bsum_ext. intros p Hp. apply in_seq in Hp. apply Hx; auto. lia.
Qed.

(** for a density matrix with D D = h D and a network whose terminal legs are all core legs: the distance is a sum over the core legs *)
Theorem c75_state : forall eigh order neg fit_ent ts D h, wired R ts -> fittable ts -> solver ts eigh -> sorter order -> symmetric (length (initial_indices R ts)) D ->
  (forall a c, (a < length (initial_indices R ts))%nat -> (c < length (initial_indices R ts))%nat -> bsum (seq 0 (length (initial_indices R ts))) (fun b => D a b *' D b c) = h *' D a c) ->
  (forall x, In x (ups R ts) -> ~ In x (downs R ts) -> exists t p, In t ts /\ (p < g_core t)%nat /\ x = nth p (g_u t) 0) ->
  exists ts0, fit_rdm1 R eigh order neg (fun x => x) fit_ent ts D = Some ts0 /\
    forall rnd, exists ts' dm, fit_rdm1 R eigh order neg rnd fit_ent ts D = Some ts' /\ make_rdm1 R ts' = Some (length (initial_indices R ts), dm) /\
      dist2 (length (initial_indices R ts)) D dm = core_sum R ts0 (fun _ x => x *' (h -' x) +' (x -' rnd x) *' (x -' rnd x)).
Proof.
  intros eigh order neg fit_ent ts D h Wi Fi So Sr Dsym Dh Full. destruct (c75_fit eigh order neg fit_ent ts D Wi Fi So Sr Dsym) as (ts0 & E0 & _ & _ & H). exists ts0. split; [exact E0|].
  intros rnd. destruct (H rnd) as (Ef & dm & Em & _ & _ & Ds & Tr). exists (map (with_occ rnd) ts0), dm. split; [exact Ef|]. split; [exact Em|]. rewrite Ds. specialize (Tr Full). set (N := length (initial_indices R ts)) in *.
  assert (E : dist2 N D (fun _ _ => r0 R) = h *' core_sum R ts0 (fun _ x => x)).
  { rewrite <- Tr, <- bsum_mull. unfold dist2. apply bsum_ext. intros a Ha. apply in_seq in Ha. rewrite <- (Dh a a) by lia. apply bsum_ext. intros b Hb. apply in_seq in Hb. rewrite (Dsym b a) by lia. ring. }
  rewrite E. rewrite (core_ext ts0 (fun _ x => x *' (h -' x) +' (x -' rnd x) *' (x -' rnd x)) (fun _ x => h *' x +' (ropp R (r1 R) *' (x *' x) +' (x -' rnd x) *' (x -' rnd x)))) by (intros; ring).
  rewrite !core_add, !core_mull. ring.
Qed.
End Spec.

(** nothing is lost when the eigenvalues kept are 0 and h and rounding does not change them *)
Section Exact.
Variable K : OField.
Notation R := (oC (fO K)).
Add Ring Rr3 : (rth R).
Theorem c75_exact : forall eigh order neg fit_ent ts (D : nat -> nat -> R) h rnd ts0, wired R ts -> fittable R ts -> solver R ts eigh -> sorter R order -> symmetric R (length (initial_indices R ts)) D ->
  (forall a c, (a < length (initial_indices R ts))%nat -> (c < length (initial_indices R ts))%nat -> bsum (seq 0 (length (initial_indices R ts))) (fun b => rmul R (D a b) (D b c)) = rmul R h (D a c)) ->
  (forall x, In x (ups R ts) -> ~ In x (downs R ts) -> exists t p, In t ts /\ (p < g_core t)%nat /\ x = nth p (g_u t) 0) ->
  fit_rdm1 R eigh order neg (fun x => x) fit_ent ts D = Some ts0 ->
  (forall t x, In t ts0 -> In x (g_occ t) -> (x = r0 R \/ x = h) /\ rnd x = x) ->
  exists ts' dm, fit_rdm1 R eigh order neg rnd fit_ent ts D = Some ts' /\ make_rdm1 R ts' = Some (length (initial_indices R ts), dm) /\
    forall a b, (a < length (initial_indices R ts))%nat -> (b < length (initial_indices R ts))%nat -> dm a b = D a b.
Proof.
  intros eigh order neg fit_ent ts D h rnd ts0 Wi Fi So Sr Dsym Dh Full E0 Hx.
  destruct (c75_fit R eigh order neg fit_ent ts D Wi Fi So Sr Dsym) as (ts1 & E1 & _ & Oc & _). rewrite E0 in E1. injection E1 as <-.
  destruct (c75_state R eigh order neg fit_ent ts D h Wi Fi So Sr Dsym Dh Full) as (ts1 & E1 & H). rewrite E0 in E1. injection E1 as <-. destruct (H rnd) as (ts' & dm & Ef & Em & Ds). exists ts', dm. split; [exact Ef|]. split; [exact Em|].
  assert (Z0 : dist2 R (length (initial_indices R ts)) D dm = r0 R).
  { rewrite Ds. unfold core_sum. apply bsum_zero. intros t Ht. apply bsum_zero. intros p Hp. apply in_seq in Hp. destruct (Oc t Ht) as (Lo & _). destruct (Hx t (nth p (g_occ t) (r0 R)) Ht ltac:(apply nth_In; lia)) as [[E|E] Er]; rewrite Er, E; ring. }
  set (N := length (initial_indices R ts)) in *. unfold dist2 in Z0. intros a b Ha Hb.
  set (l := flat_map (fun a => map (fun b => (a, b)) (seq 0 N)) (seq 0 N)).
  assert (Hl : In (a, b) l) by (apply in_flat_map; exists a; split; [apply in_seq; lia|]; apply in_map; apply in_seq; lia).
  apply (In_nth _ _ (0%nat, 0%nat)) in Hl. destruct Hl as (k & Lk & Ek).
  set (f := fun k => radd R (D (fst (nth k l (0%nat, 0%nat))) (snd (nth k l (0%nat, 0%nat)))) (ropp R (dm (fst (nth k l (0%nat, 0%nat))) (snd (nth k l (0%nat, 0%nat)))))).
  assert (S : f k = r0 R).
  { apply (sum_sq_zero K (seq 0 (length l)) f); [|apply in_seq; lia].
    rewrite <- Z0. transitivity (bsum (R := R) l (fun e => rmul R (radd R (D (fst e) (snd e)) (ropp R (dm (fst e) (snd e)))) (radd R (D (fst e) (snd e)) (ropp R (dm (fst e) (snd e)))))).
    - unfold f. rewrite <- (bsum_map R _ _ (fun k => nth k l (0%nat, 0%nat)) (seq 0 (length l)) (fun e => rmul R (radd R (D (fst e) (snd e)) (ropp R (dm (fst e) (snd e)))) (radd R (D (fst e) (snd e)) (ropp R (dm (fst e) (snd e)))))). f_equal.
      apply nth_ext with (d := (0%nat, 0%nat)) (d' := (0%nat, 0%nat)); [now rewrite map_length, seq_length|]. intros j Hj. rewrite map_length, seq_length in Hj. rewrite (nth_indep _ (0%nat, 0%nat) (nth 0 l (0%nat, 0%nat))) by (now rewrite map_length, seq_length). rewrite (map_nth (fun k => nth k l (0%nat, 0%nat))). now rewrite seq_nth.
    - unfold l. rewrite bsum_flat_map. apply bsum_ext. intros i _. now rewrite bsum_map. }
  unfold f in S. rewrite Ek in S. cbn [fst snd] in S. transitivity (radd R (D a b) (ropp R (radd R (D a b) (ropp R (dm a b))))); [ring|]. rewrite S. ring.
Qed.
End Exact.

(** *** Examples *)
(* two sites, one tensor: D = 2 v v^T with v = (3/5, -4/5); eigh gives its eigenvectors, smallest eigenvalue first; order is by falling eigenvalue *)
Definition ex_fit_net : list (gt Qc_ring) := [GT Qc_ring [2; 3] [0; 1] 2 (fun _ _ => q 0 1) []].
Definition ex_fit_eigh (n : nat) (A : nat -> nat -> Qc) : list Qc * (nat -> nat -> Qc) := ([q 0 1; q 2 1], fun i j => rot345 i (1 - j)).
Definition ex_fit_D (i j : nat) : Qc := match i, j with O, O => q 18 25 | O, _ => q (-24) 25 | _, O => q (-24) 25 | _, _ => q 32 25 end.
Example ex_fit : option_map (fun ts => map (fun t : gt Qc_ring => (g_u t, g_d t, map this (g_occ t))) ts) (fit_rdm1 Qc_ring ex_fit_eigh (fun _ => [1; 0]%nat) (fun _ _ => true) (fun x => x) true ex_fit_net ex_fit_D)
  = Some [([2; 3], [0; 1], [2 # 1; 0 # 1]%Q)] /\
  option_map (fun r => (fst r, map (fun i => map (fun j => this (snd r i j)) (seq 0 2)) (seq 0 2))) (match fit_rdm1 Qc_ring ex_fit_eigh (fun _ => [1; 0]%nat) (fun _ _ => true) (fun x => x) true ex_fit_net ex_fit_D with Some ts => make_rdm1 Qc_ring ts | None => None end)
  = Some (2%nat, [[18 # 25; -24 # 25]; [-24 # 25; 32 # 25]])%Q.
Proof. vm_compute. split; reflexivity. Qed.

(* the hypotheses can be met: real symmetric 2 x 2 matrices, three sites, two tensors *)
From Coq Require Import Reals Lra.
Definition eigh2 (n : nat) (A : nat -> nat -> R) : list R * (nat -> nat -> R) :=
  let a := A 0%nat 0%nat in let b := A 0%nat 1%nat in let c := A 1%nat 1%nat in
  if Req_EM_T b 0 then ([a; c], fun i j => if Nat.eqb i j then 1%R else 0%R) else
  let l := ((a + c + sqrt ((a - c) * (a - c) + 4 * b * b)) / 2)%R in
  let m := sqrt (b * b + (l - a) * (l - a)) in
  ([l; (a + c - l)%R], fun i j => match i, j with O, O => b / m | O, _ => - ((l - a) / m) | _, O => (l - a) / m | _, _ => b / m end)%R.
Definition Rr : CRing := oC (fO R_ofield).
Lemma eig2_facts : forall a b c : R, b <> 0%R -> let l := ((a + c + sqrt ((a - c) * (a - c) + 4 * b * b)) / 2)%R in let m := sqrt (b * b + (l - a) * (l - a)) in
  (m * m = b * b + (l - a) * (l - a) /\ m <> 0 /\ b * b = (l - a) * (l - c))%R.
Proof.
  intros a b c Hb l m. pose proof (Rle_0_sqr (a - c)) as S1. pose proof (Rle_0_sqr b) as S2. pose proof (Rle_0_sqr (l - a)) as S3. unfold Rsqr in *.
  assert (Pb : (0 < b * b)%R) by (destruct (Rtotal_order b 0) as [H|[H|H]]; [|contradiction|]; nra).
  assert (Hs : (sqrt ((a - c) * (a - c) + 4 * b * b) * sqrt ((a - c) * (a - c) + 4 * b * b) = (a - c) * (a - c) + 4 * b * b)%R) by (apply sqrt_sqrt; lra).
  assert (Hm : (m * m = b * b + (l - a) * (l - a))%R) by (apply sqrt_sqrt; lra).
  split; [exact Hm|]. split; [intros Z; rewrite Z in Hm; lra|]. unfold l. set (s := sqrt _) in *. clearbody s. clear - Hs. nra.
Qed.
Lemma eigh2_ok : forall A : nat -> nat -> R, symmetric Rr 2 A -> diagonalises Rr 2 A (fst (eigh2 2 A)) (snd (eigh2 2 A)).
Proof.
  intros A Sy. assert (E10 : @eq R (A 1%nat 0%nat) (A 0%nat 1%nat)) by (apply Sy; lia). unfold eigh2. destruct (Req_EM_T (A 0%nat 1%nat) 0) as [Hb|Hb].
  - cbn [fst snd]. split; [reflexivity|]. split; [|split]; intros p p' Hp Hp'; (destruct p as [|[|p]]; [| |clear - Hp; lia]); (destruct p' as [|[|p']]; [| |clear - Hp'; lia]); cbn; rewrite ?E10, ?Hb; ring.
  - destruct (eig2_facts (A 0%nat 0%nat) (A 0%nat 1%nat) (A 1%nat 1%nat) Hb) as (Hm & M0 & Hl). cbv zeta in *.
    set (l := ((A 0%nat 0%nat + A 1%nat 1%nat + _) / 2)%R) in *. set (m := sqrt (A 0%nat 1%nat * A 0%nat 1%nat + _)) in *. clearbody l m. cbn [fst snd].
    split; [reflexivity|]. split; [|split]; intros p p' Hp Hp'; (destruct p as [|[|p]]; [| |clear - Hp; lia]); (destruct p' as [|[|p']]; [| |clear - Hp'; lia]); cbn; rewrite ?E10; revert Hm M0 Hl; generalize (A 0%nat 0%nat) (A 0%nat 1%nat) (A 1%nat 1%nat); clear; intros a b c Hm M0 Hl; field_simplify_eq; try exact M0; nra.
Qed.
Definition ex_fit_net3 : list (gt Rr) := [GT Rr [5; 6] [4; 2] 2 (fun _ _ => 0%R) []; GT Rr [3; 4] [0; 1] 1 (fun _ _ => 0%R) []].
Lemma ex_fit_wired : wired Rr ex_fit_net3.
Proof.
  split; [|split].
  - cbn. repeat (constructor; [cbn; lia|]). constructor.
  - cbn. repeat (constructor; [cbn; lia|]). constructor.
  - exists (fun t => match g_d t with 0 :: _ => 0%nat | _ => 1%nat end).
    intros t t' x Ht Ht' Hu Hd. cbn in Ht, Ht'. destruct Ht as [<-|[<-|[]]], Ht' as [<-|[<-|[]]]; cbn in *; lia.
Qed.
Lemma ex_fittable : fittable Rr ex_fit_net3.
Proof. intros t Ht. cbn in Ht. destruct Ht as [<-|[<-|[]]]; cbn [g_u g_d g_core length]; repeat split; try lia; intros p Hp; destruct p as [|[|p]]; try lia; cbn; lia. Qed.
Lemma ex_solver : solver Rr ex_fit_net3 eigh2.
Proof. intros t A Ht Sy. cbn in Ht. destruct Ht as [<-|[<-|[]]]; apply eigh2_ok; exact Sy. Qed.
(* the projection on (1,1,1): the trace of the fitted matrix is that of D *)
Example ex_fit_trace : forall fit_ent neg, exists ts0 dm, fit_rdm1 Rr eigh2 (fun xb => rev (seq 0 (length xb))) neg (fun x => x) fit_ent ex_fit_net3 (fun _ _ => / 3)%R = Some ts0 /\
  make_rdm1 Rr ts0 = Some (3%nat, dm) /\ (dm 0%nat 0%nat + (dm 1%nat 1%nat + (dm 2%nat 2%nat + 0)) = 1)%R.
Proof.
  intros fit_ent neg. destruct (c75_fit Rr eigh2 (fun xb => rev (seq 0 (length xb))) neg fit_ent ex_fit_net3 (fun _ _ => / 3)%R ex_fit_wired ex_fittable ex_solver) as (ts0 & E & _ & _ & H).
  - intros xb. apply Permutation_sym, Permutation_rev.
  - intros i j _ _. reflexivity.
  - destruct (H (fun x => x)) as (E' & dm & Em & _ & T1 & _ & T2). rewrite E in E'. injection E' as E'. exists ts0, dm. split; [exact E|]. split; [rewrite E'; exact Em|].
    transitivity (bsum (R := Rr) (seq 0 3) (fun a => dm a a)); [reflexivity|]. change 3%nat with (length (initial_indices Rr ex_fit_net3)). rewrite T1, <- T2; [cbn; lra|].
    intros x Hu Hd. cbn in Hu, Hd. destruct Hu as [<-|[<-|[<-|[<-|[]]]]].
    + exists (nth 0 ex_fit_net3 (GT Rr [] [] 0 (fun _ _ => 0%R) [])), 0%nat. cbn. repeat split; auto.
    + exists (nth 0 ex_fit_net3 (GT Rr [] [] 0 (fun _ _ => 0%R) [])), 1%nat. cbn. repeat split; auto.
    + exists (nth 1 ex_fit_net3 (GT Rr [] [] 0 (fun _ _ => 0%R) [])), 0%nat. cbn. repeat split; auto.
    + exfalso. apply Hd. auto.
Qed.

Print Assumptions c75_fit.
Print Assumptions c75_state.
Print Assumptions c75_exact.
