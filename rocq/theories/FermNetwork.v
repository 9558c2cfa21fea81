(** Networks of fermion tensors: any sequence of contractions and traces gives the value of the network. *)
From Coq Require Import ZArith Bool List Lia Permutation Sorted Ring.
From Verif Require Import FermOpsModel FermOpsProofs SymModel SymProofs DictLib OptLib IndexLib RingLib BondModel FuseModel FuseProofs
  BlockModel BlockProofs SignModel SignProofs SignProps BlockProps FermTModel FermTProofs FermNetProofs FermTraceProofs.
Import ListNotations.
Open Scope Z_scope.

Lemma without_without : forall I J A, without I (without J A) = without (J ++ I) A.
Proof.
  intros I J A. unfold without. rewrite filter_twice. apply filter_ext. intros x. unfold memZ. rewrite existsb_app. now rewrite negb_orb.
Qed.
Lemma without_ext : forall I J A, (forall x, In x A -> (In x I <-> In x J)) -> without I A = without J A.
Proof.
  intros I J A H. unfold without. apply filter_ext_in. intros x Hx. f_equal. apply eq_iff_eq_true. rewrite !memZ_in. now apply H.
Qed.
Lemma without_app : forall I A B, without I (A ++ B) = without I A ++ without I B.
Proof. intros. apply filter_app. Qed.
Lemma without_nil : forall A, without [] A = A.
Proof. intros A. unfold without. induction A as [|x A IH]; [reflexivity|]. cbn in *. now rewrite IH. Qed.
Lemma names_split_perm : forall A P, NoDup A -> NoDup (names P) -> (forall x, In x (names P) -> In x A) -> Permutation A (names P ++ without (names P) A).
Proof.
  intros A P NA NP H. apply NoDup_Permutation; [exact NA| |].
  - apply nodup_app_intro'; [exact NP|now apply NoDup_filter|]. intros x H1 H2. apply in_without in H2. tauto.
  - intros x. rewrite in_app_iff, in_without. split; [|intros [K|K]; [now apply H|tauto]]. intros K. destruct (in_dec Z.eq_dec x (names P)); tauto.
Qed.

Lemma nodup_app_disjoint : forall (a b : list Z), NoDup (a ++ b) -> forall k, In k a -> In k b -> False.
Proof.
  induction a as [|y a IH]; intros b H k Ha Hb; [destruct Ha|]. cbn in H. inversion H as [|? ? H1 H2]; subst. rewrite in_app_iff in H1. destruct Ha as [->|Ha]; [tauto|eauto].
Qed.

Section Network.
Variable R : CRing.
Variable L : Label.
Variable fermion : bool.
Add Ring rr5 : (rth R).
Variable dm : Z -> L -> Z.
Variable Lq : list L.
Variable pat : Z -> bool.
Notation ll := (q0 L).
Notation tensor := (list (list L * nd R)).
Hypothesis HL : NoDup Lq.

(** *** Charges of blocks in terms of names *)
Definition chg (K : list Z) (s : Z -> L) : L := lsum L (map (fun x => oriented L (pat x) (s x)) K).
Lemma lab_compute_named : forall K s, lab_compute L (map pat K) (map s K) = chg K s.
Proof. intros K s. rewrite lab_compute_sum, combine_map_map, map_map. reflexivity. Qed.
Lemma chg_app : forall K K' s, chg (K ++ K') s = qadd L (chg K s) (chg K' s).
Proof. intros. unfold chg. now rewrite map_app, lsum_app. Qed.
Lemma chg_perm : forall K K' s, Permutation K K' -> chg K s = chg K' s.
Proof. intros. unfold chg. now apply lsum_perm, Permutation_map. Qed.
Lemma chg_pairs : forall P s, (forall i j, In (i, j) P -> pat i = negb (pat j) /\ s i = s j) -> chg (names P) s = ll.
Proof. intros P s H. now apply paired_charge. Qed.
Definition homog (K : list Z) (t : tensor) (c : L) : Prop := forall b, In b t -> lab_compute L (map pat K) (fst b) = c.

(** *** Blocks of a contraction *)
Lemma named_block : forall (K : list Z) (qs : list L), NoDup K -> length qs = length K -> exists s, qs = map s K.
Proof.
  intros K qs N E. exists (fun x => nth (Z.to_nat (posn K x)) qs ll). rewrite <- (pick_all L ll qs) at 1. rewrite E, map_named. unfold pick. apply map_ext_in. intros k Hk.
  apply in_zrange in Hk. now rewrite posn_name.
Qed.
Section Dot.
Variables (a b r : ftensor R L) (A B : list Z) (P : list (Z * Z)).
Hypothesis HS : StronglySorted Z.lt (A ++ B).
Hypothesis PA : forall i j, In (i, j) P -> In i A /\ In j B.
Hypothesis NA : NoDup (map fst P).
Hypothesis NB : NoDup (map snd P).
Hypothesis Wa : wfn R L dm A (fst a).
Hypothesis Wb : wfn R L dm B (fst b).
Hypothesis Ta : snd a = map pat A.
Hypothesis Tb : snd b = map pat B.
Notation ia := (map (posn A) (map fst P)).
Notation ib := (map (posn B) (map snd P)).

Lemma dot_fst : forall x, In x (map fst P) -> In x A.
Proof. intros x H. apply in_map_iff in H. destruct H as ([i j] & <- & H). now apply (PA i j). Qed.
Lemma dot_snd : forall x, In x (map snd P) -> In x B.
Proof. intros x H. apply in_map_iff in H. destruct H as ([i j] & <- & H). now apply (PA i j). Qed.
Lemma dot_parts : NoDup A /\ NoDup B /\ forall x, In x A -> In x B -> False.
Proof.
  apply sorted_app_inv in HS. destruct HS as (H1 & H2 & H3). split; [now apply sorted_nodup|]. split; [now apply sorted_nodup|]. intros x Ha Hb. specialize (H3 x x Ha Hb). lia.
Qed.
Lemma leg_pos : forall n A' I, (forall x, In x I -> In x A') -> map (leg n) (map (posn A') I) = map (posn A') I.
Proof.
  intros n A' I H. rewrite map_map. apply map_ext_in. intros x Hx. destruct (posn_spec A' x (H x Hx)) as [Rg _]. unfold leg. destruct (Z.ltb_spec (posn A' x) 0); lia.
Qed.
Lemma pat_at : forall A' x, In x A' -> nth (Z.to_nat (posn A' x)) (map pat A') false = pat x.
Proof.
  intros A' x H. destruct (posn_spec A' x H) as [Rg Ex]. rewrite (nth_indep _ false (pat 0)) by (rewrite map_length; lia). rewrite map_nth. unfold name in Ex. now rewrite Ex.
Qed.
(* success and pattern *)
Lemma dot_total : (forall i j, In (i, j) P -> pat i = negb (pat j)) -> exists r', ft_tensordot R L fermion a b ia ib = Some r'.
Proof.
  intros PO. destruct (ft_tensordot R L fermion a b ia ib) as [r'|] eqn:E; [now exists r'|]. exfalso. apply ft_tensordot_none in E.
  destruct E as [E|[_ E]]; [apply E; now rewrite !map_length|]. apply E. rewrite !norm_axes_leg. apply flips_nil; [now rewrite !map_length|].
  rewrite !leg_pos by (apply dot_fst || apply dot_snd). intros i j H. rewrite !map_map in H. rewrite combine_map_map in H. apply in_map_iff in H.
  destruct H as ([u v] & Eu & H). cbn [fst snd] in Eu. injection Eu as <- <-. destruct (PA u v H) as [Hu Hv]. rewrite Ta, Tb, !pat_at by assumption.
  rewrite (PO u v H). destruct (pat v); discriminate.
Qed.
Lemma dot_none : fst b <> [] -> (exists i j, In (i, j) P /\ pat i = pat j) -> ft_tensordot R L fermion a b ia ib = None.
Proof.
  intros Nb (i & j & H & Ep). apply ft_tensordot_none. right. split; [exact Nb|]. intros F. rewrite !norm_axes_leg in F. rewrite !leg_pos in F by (apply dot_fst || apply dot_snd).
  apply (proj1 (flips_nil _ _ ia ib ltac:(now rewrite !map_length))) with (i := posn A i) (j := posn B j) in F.
  - rewrite Ta, Tb, !pat_at in F by (apply (PA i j H)). contradiction.
  - rewrite !map_map, combine_map_map. apply in_map_iff. exists (i, j). auto.
Qed.
Hypothesis E : ft_tensordot R L fermion a b ia ib = Some r.
Notation K := (keep2 A B P).
Lemma dot_pattern : snd r = map pat K.
Proof.
  pose proof (ft_tensordot_inv R L fermion a b ia ib r E) as (_ & _ & H & _). rewrite H, !norm_axes_leg, !leg_pos by (apply dot_fst || apply dot_snd).
  unfold contract_patterns. cbn [fst]. rewrite !kept_pattern, Ta, Tb. unfold keep2. rewrite map_app.
  destruct dot_parts as (ND & NE & _).
  rewrite <- (name_others A (map fst P) ND dot_fst), <- (name_others B (map snd P) NE dot_snd), !map_length, (map_map (name A) pat), (map_map (name B) pat). f_equal; unfold pick; apply map_ext_in; intros k Hk;
    apply in_others in Hk; unfold name; rewrite (nth_indep _ false (pat 0)) by (rewrite map_length; lia); now rewrite map_nth.
Qed.
Lemma dot_origin : forall c, In c (fst r) -> exists s ba bb, In ba (fst a) /\ In bb (fst b) /\ fst ba = map s A /\ fst bb = map s B /\
  (forall i j, In (i, j) P -> s i = s j) /\ fst c = map s K.
Proof.
  intros c Hc. apply (in_map fst) in Hc.
  apply (con_labels R L fermion a b (Z.of_nat (length A)) (Z.of_nat (length B)) (fun k q => dm (name A k) q) (fun k q => dm (name B k) q) ia ib r Wa Wb E) in Hc.
  destruct Hc as (ba & bb & H1 & H2 & H3 & H4). rewrite !leg_pos in H3, H4 by (apply dot_fst || apply dot_snd). destruct dot_parts as (ND & NE & Dj).
  destruct (named_block A (fst ba) ND) as (s1 & E1); [destruct (Wa ba H1); lia|]. destruct (named_block B (fst bb) NE) as (s2 & E2); [destruct (Wb bb H2); lia|].
  set (s := fun x => if memZ x A then s1 x else s2 x).
  assert (SA : forall x, In x A -> s x = s1 x) by (intros x Hx; unfold s; apply memZ_in in Hx; now rewrite Hx).
  assert (SB : forall x, In x B -> s x = s2 x).
  { intros x Hx. unfold s. destruct (memZ x A) eqn:M; [|reflexivity]. apply memZ_in in M. exfalso. eauto. }
  assert (E1' : fst ba = map s A) by (rewrite E1; apply map_ext_in; intros; symmetry; now apply SA).
  assert (E2' : fst bb = map s B) by (rewrite E2; apply map_ext_in; intros; symmetry; now apply SB).
  exists s, ba, bb. repeat (split; [assumption|]).
  assert (PK : forall (A' : list Z) I, (forall k, In k I -> 0 <= k < Z.of_nat (length A')) -> pick ll I (map s A') = map s (map (name A') I)).
  { intros A' I H. unfold pick. rewrite map_map. apply map_ext_in. intros k Hk. specialize (H k Hk). rewrite (nth_indep _ ll (s 0)) by (rewrite map_length; lia). now rewrite map_nth. }
  rewrite E1', E2' in H3, H4. split.
  - rewrite !PK in H3 by (intros k Hk; apply in_map_iff in Hk; destruct Hk as (x & <- & Hx); apply posn_spec; (now apply dot_fst) || (now apply dot_snd)).
    rewrite !name_posns in H3 by (apply dot_fst || apply dot_snd). rewrite !map_map in H3. intros i j H. exact (map_eq_at _ _ _ _ _ H3 (i, j) H).
  - rewrite !PK in H4 by (intros k Hk; apply in_others in Hk; tauto). rewrite !name_others in H4 by (assumption || apply dot_fst || apply dot_snd).
    rewrite H4. unfold keep2. now rewrite map_app.
Qed.
Lemma dot_names : NoDup (names P) /\ Permutation (A ++ B) (names P ++ K).
Proof.
  destruct dot_parts as (ND & NE & Dj).
  assert (NN : NoDup (names P)).
  { eapply Permutation_NoDup; [apply Permutation_sym, names_perm2|]. apply nodup_app_intro'; [exact NA|exact NB|]. intros x H1 H2. apply dot_fst in H1. apply dot_snd in H2. eauto. }
  split; [exact NN|]. assert (EK : K = without (names P) (A ++ B)).
  { unfold keep2. rewrite without_app. f_equal; apply without_ext; intros x Hx; rewrite in_names; split.
    - intros H. apply in_map_iff in H. destruct H as (p & <- & H). exists p. auto.
    - intros ([i j] & H & [->| ->]); [now apply (in_map fst) in H|]. exfalso. apply (Dj j); [exact Hx|now apply (PA i j)].
    - intros H. apply in_map_iff in H. destruct H as (p & <- & H). exists p. auto.
    - intros ([i j] & H & [->| ->]); [|now apply (in_map snd) in H]. exfalso. apply (Dj i); [now apply (PA i j)|exact Hx]. }
  rewrite EK. apply names_split_perm; [now apply sorted_nodup|exact NN|]. intros x H. apply in_names in H. destruct H as ([i j] & H & [->| ->]); apply PA in H; apply in_or_app; tauto.
Qed.
Lemma dot_charge : (forall i j, In (i, j) P -> pat i = negb (pat j)) -> forall ca cb, homog A (fst a) ca -> homog B (fst b) cb -> homog K (fst r) (qadd L ca cb).
Proof.
  intros PO ca cb Ha Hb c Hc. destruct (dot_origin c Hc) as (s & ba & bb & H1 & H2 & E1 & E2 & H3 & H4).
  specialize (Ha ba H1). specialize (Hb bb H2). rewrite E1, lab_compute_named in Ha. rewrite E2, lab_compute_named in Hb. rewrite H4, lab_compute_named, <- Ha, <- Hb, <- chg_app.
  destruct dot_names as [NN PM]. rewrite (chg_perm _ _ s PM), chg_app, (chg_pairs P s) by (intros i j H; split; [now apply PO|now apply H3]). now rewrite qadd_0_l.
Qed.
End Dot.

(** *** Blocks of a trace *)
Section Tr.
Variables (t r : ftensor R L) (A : list Z) (P : list (Z * Z)).
Hypothesis HS : StronglySorted Z.lt A.
Hypothesis PA : forall i j, In (i, j) P -> In i A /\ In j A /\ i < j.
Hypothesis NP : NoDup (names P).
Hypothesis PD : forall i j q, In (i, j) P -> dm i q = dm j q.
Hypothesis PT : snd t = map pat A.
Hypothesis PO : forall i j, In (i, j) P -> pat i = negb (pat j).
Hypothesis Wt : wfn R L dm A (fst t).
Hypothesis Lt : labs R L Lq (fst t).
Hypothesis Ne : fst t <> [].
Variable c : L.
Hypothesis Hom : homog A (fst t) c.
Notation K := (keep1 A P).
Lemma tr_hom : forall b b', In b (fst t) -> In b' (fst t) -> lab_compute L (snd t) (fst b) = lab_compute L (snd t) (fst b').
Proof. intros b b' H H'. rewrite PT, (Hom b H), (Hom b' H'). reflexivity. Qed.
Lemma tr_names_in : forall x, In x (names P) -> In x A.
Proof. intros x H. apply in_names in H. destruct H as ([i j] & H & [->| ->]); apply PA in H; tauto. Qed.
Lemma tr_total : exists r', ft_trace R L fermion t (map (posn A) (map fst P)) (map (posn A) (map snd P)) = Some r'.
Proof. rewrite (ft_trace_eq R L fermion dm Lq t A P pat); auto using tr_hom. destruct (emptied R L t A P); eexists; reflexivity. Qed.
Hypothesis E : ft_trace R L fermion t (map (posn A) (map fst P)) (map (posn A) (map snd P)) = Some r.
Lemma tr_pattern : snd r = map pat K.
Proof.
  rewrite (ft_trace_eq R L fermion dm Lq t A P pat) in E; auto using tr_hom. destruct (emptied R L t A P) eqn:Em; injection E as <-; [|reflexivity]. cbn [snd].
  unfold emptied in Em. apply andb_prop in Em. destruct Em as [Em _]. apply Z.eqb_eq in Em.
  assert (EK : K = []); [|now rewrite EK].
  assert (In0 : forall x, In x A -> In x (names P)).
  { intros x Hx. eapply Permutation_in; [|exact Hx]. apply Permutation_sym. apply NoDup_Permutation_bis; [exact NP|lia|intros y Hy; now apply tr_names_in]. }
  unfold keep1. destruct (without (names P) A) as [|x l] eqn:W; [reflexivity|]. assert (Hx : In x (without (names P) A)) by (rewrite W; now left).
  apply in_without in Hx. destruct Hx as [H1 H2]. exfalso. auto.
Qed.
Lemma tr_charge : homog K (fst r) c.
Proof.
  intros d Hd. rewrite (ft_trace_eq R L fermion dm Lq t A P pat) in E; auto using tr_hom. destruct (emptied R L t A P); injection E as <-; [destruct Hd|]. cbn [fst] in Hd.
  apply (in_map fst) in Hd. apply acc_labels in Hd. destruct Hd as [[]|Hd]. rewrite map_map in Hd. apply in_map_iff in Hd. destruct Hd as (b & Eb & Hb).
  apply filter_In in Hb. destruct Hb as [Hb Al]. rewrite (tr_aligned R L fermion dm t A P pat) in Al by auto using tr_hom. rewrite <- Eb. unfold tcontrib. cbn [fst].
  rewrite lab_compute_named. specialize (Hom b Hb). rewrite (lab_map R L dm t A HS Wt b Hb), lab_compute_named in Hom. rewrite <- Hom.
  rewrite (chg_perm A (names P ++ K)) by (apply names_split_perm; auto using sorted_nodup, tr_names_in).
  rewrite chg_app, chg_pairs by (intros i j H; split; [now apply PO|now apply Al]). symmetry. apply qadd_0_l.
Qed.
End Tr.

(** *** Value of a network *)
Definition legs (ts : list (ftensor R L * list Z)) : list Z := flat_map snd ts.
Definition left (ts : list (ftensor R L * list Z)) (P : list (Z * Z)) : list Z := without (names P) (legs ts).
Definition rprod (l : list R) : R := fold_right (rmul R) (r1 R) l.
Definition amp (ts : list (ftensor R L * list Z)) (s : Z -> L) (x : Z -> Z) : R :=
  rprod (map (fun e => elem R L (fst (fst e)) (map s (snd e)) (map x (snd e))) ts).
Definition value (ts : list (ftensor R L * list Z)) (P : list (Z * Z)) (s : Z -> L) (x : Z -> Z) : R :=
  sumP R L dm Lq P s x (fun s' x' => signed (fermion && psign (par L s') P (left ts P)) (amp ts s' x')).

Inductive contracts : list (ftensor R L * list Z) -> list (Z * Z) -> ftensor R L -> Prop :=
| C_one : forall t A, contracts [(t, A)] [] t
| C_dot : forall ts1 P1 r1 ts2 P2 r2 P r, contracts ts1 P1 r1 -> contracts ts2 P2 r2 ->
    (forall i j, In (i, j) P -> In i (left ts1 P1) /\ In j (left ts2 P2)) -> NoDup (map fst P) -> NoDup (map snd P) ->
    ft_tensordot R L fermion r1 r2 (map (posn (left ts1 P1)) (map fst P)) (map (posn (left ts2 P2)) (map snd P)) = Some r ->
    contracts (ts1 ++ ts2) (P1 ++ P2 ++ P) r
| C_trace : forall ts P1 r1 P r, contracts ts P1 r1 ->
    (forall i j, In (i, j) P -> In i (left ts P1) /\ In j (left ts P1) /\ i < j) -> NoDup (names P) ->
    ft_trace R L fermion r1 (map (posn (left ts P1)) (map fst P)) (map (posn (left ts P1)) (map snd P)) = Some r ->
    contracts ts (P1 ++ P) r.

Lemma rprod_app : forall a b, rprod (a ++ b) = rmul R (rprod a) (rprod b).
Proof. intros a b. unfold rprod. induction a as [|x a IH]; cbn; [ring|]. rewrite IH. ring. Qed.
Lemma amp_app : forall ts ts' s x, amp (ts ++ ts') s x = rmul R (amp ts s x) (amp ts' s x).
Proof. intros. unfold amp. now rewrite map_app, rprod_app. Qed.
Lemma amp_ext : forall ts s s' x x', (forall k, In k (legs ts) -> s k = s' k /\ x k = x' k) -> amp ts s x = amp ts s' x'.
Proof.
  intros ts s s' x x' H. unfold amp. f_equal. apply map_ext_in. intros [t A] He. cbn [fst snd].
  assert (HA : forall k, In k A -> s k = s' k /\ x k = x' k) by (intros k Hk; apply H; apply in_flat_map; exists (t, A); auto).
  f_equal; apply map_ext_in; intros k Hk; now apply HA.
Qed.
(* a sum depends on the legs only *)
Lemma sumP_local : forall P (D : list Z) F s s' x x', (forall k, In k D -> ~ In k (names P) -> s k = s' k /\ x k = x' k) ->
  (forall u u' v v', (forall k, In k D -> u k = u' k /\ v k = v' k) -> F u v = F u' v') ->
  sumP R L dm Lq P s x F = sumP R L dm Lq P s' x' F.
Proof.
  induction P as [|[i j] P IH]; intros D F s s' x x' H HF; cbn [sumP]; [apply HF; intros; apply H; auto|]. apply bsum_ext. intros q _. apply bsum_ext. intros v _.
  apply (IH D); [|exact HF]. intros k Hk Nk. unfold upd2. destruct ((k =? i) || (k =? j)) eqn:Q; [auto|]. apply orb_false_elim in Q. destruct Q as [Q1 Q2].
  apply Z.eqb_neq in Q1, Q2. apply H; [exact Hk|]. cbn. intros [F1|[F1|F1]]; [now subst|now subst|now apply Nk].
Qed.
Lemma names_disjoint_app : forall P P', NoDup (names (P ++ P')) -> NoDup (names P) /\ NoDup (names P') /\ forall k, In k (names P) -> In k (names P') -> False.
Proof.
  intros P P' H. rewrite names_app in H. revert H. generalize (names P) (names P'). induction l as [|y l IH]; intros l' H; [split; [constructor|split; [exact H|intros k []]]|].
  cbn in H. inversion H as [|? ? H1 H2]; subst. destruct (IH l' H2) as (A1 & A2 & A3). rewrite in_app_iff in H1. split; [constructor; tauto|]. split; [exact A2|].
  intros k [<-|Hk] Hk'; [tauto|eauto].
Qed.
(* a sum over P of a sum over Q with signs is a sum over both *)
Lemma sum_nest : forall P Q K K' (G : (Z -> L) -> (Z -> Z) -> R) s x, NoDup (names (Q ++ P)) -> (forall k, In k K -> ~ In k (names Q)) ->
  (forall s, psign (par L s) Q K' = psign (par L s) Q (names P ++ K)) ->
  sumP R L dm Lq P s x (fun s' x' => signed (fermion && psign (par L s') P K) (sumP R L dm Lq Q s' x' (fun s'' x'' => signed (fermion && psign (par L s'') Q K') (G s'' x''))))
  = sumP R L dm Lq (P ++ Q) s x (fun s' x' => signed (fermion && psign (par L s') (Q ++ P) K) (G s' x')).
Proof.
  intros P Q K K' G s x N HK HQ. destruct (names_disjoint_app Q P N) as (NQ & NP & Dj). rewrite sumP_app. apply sumP_ext; [exact NP|]. intros s1 x1 _ _.
  rewrite <- sumP_signed. apply sumP_ext; [exact NQ|]. intros s2 x2 Ho _. rewrite <- signed_xorb. f_equal. rewrite psign_app, HQ.
  assert (E : psign (par L s1) P K = psign (par L s2) P K).
  { apply psign_ext. intros k Hk. unfold par. f_equal. symmetry. apply Ho. apply in_app_or in Hk. destruct Hk as [Hk|Hk]; [intro; eauto|now apply HK]. }
  rewrite E. destruct fermion; cbn [andb]; [apply xorb_comm|reflexivity].
Qed.

(* what a network must satisfy *)
Definition leaf (e : ftensor R L * list Z) : Prop :=
  wfn R L dm (snd e) (fst (fst e)) /\ labs R L Lq (fst (fst e)) /\ snd (fst e) = map pat (snd e) /\ exists c, homog (snd e) (fst (fst e)) c.
Definition fits (P : list (Z * Z)) : Prop := forall i j, In (i, j) P -> (forall q, dm i q = dm j q) /\ pat i = negb (pat j).

Lemma left_sorted : forall ts P, StronglySorted Z.lt (legs ts) -> StronglySorted Z.lt (left ts P).
Proof. intros ts P H. unfold left, without. now apply sorted_filter. Qed.
Lemma in_left : forall ts P k, In k (left ts P) <-> In k (legs ts) /\ ~ In k (names P).
Proof. intros. unfold left. apply in_without. Qed.

Theorem network : forall ts P r, contracts ts P r -> StronglySorted Z.lt (legs ts) -> Forall leaf ts -> fits P ->
  (NoDup (names P) /\ (forall i j, In (i, j) P -> In i (legs ts) /\ In j (legs ts) /\ i < j)) /\
  (wfn R L dm (left ts P) (fst r) /\ labs R L Lq (fst r) /\ snd r = map pat (left ts P) /\ exists c, homog (left ts P) (fst r) c) /\
  forall s x, elem R L (fst r) (map s (left ts P)) (map x (left ts P)) = value ts P s x.
Proof.
  intros ts P r H. induction H as [t A|ts1 P1 r1 ts2 P2 r2 P r H1 IH1 H2 IH2 HP NA NB E|ts P1 r1 P r H1 IH1 HP NP E]; intros HS Lf Ft.
  - (* one tensor *)
    assert (EL : left [(t, A)] [] = A) by (unfold left, legs; cbn [flat_map snd names]; rewrite app_nil_r; apply without_nil).
    split; [split; [constructor|intros ? ? []]|]. rewrite EL. inversion Lf as [|? ? Lt _]; subst. split; [exact Lt|].
    intros s x. unfold value, amp, rprod. cbn [sumP map fold_right fst snd psign]. rewrite andb_false_r. cbn. ring.
  - (* contraction *)
    unfold legs in HS. rewrite flat_map_app in HS. fold (legs ts1) (legs ts2) in HS.
    destruct (sorted_app_inv _ _ HS) as (S1 & S2 & S12).
    apply Forall_app in Lf. destruct Lf as [Lf1 Lf2].
    assert (Ft1 : fits P1) by (intros i j Hij; apply Ft; apply in_or_app; now left).
    assert (Ft2 : fits P2) by (intros i j Hij; apply Ft; apply in_or_app; right; apply in_or_app; now left).
    assert (Ft3 : fits P) by (intros i j Hij; apply Ft; apply in_or_app; right; apply in_or_app; now right).
    destruct (IH1 S1 Lf1 Ft1) as ((N1 & G1) & (W1 & L1 & T1 & c1 & C1) & V1). destruct (IH2 S2 Lf2 Ft2) as ((N2 & G2) & (W2 & L2 & T2 & c2 & C2) & V2). clear IH1 IH2.
    set (K1 := left ts1 P1) in *. set (K2 := left ts2 P2) in *.
    assert (In1 : forall k, In k (names P1) -> In k (legs ts1)) by (intros k Hk; apply in_names in Hk; destruct Hk as ([i j] & Hk & [->| ->]); apply G1 in Hk; tauto).
    assert (In2 : forall k, In k (names P2) -> In k (legs ts2)) by (intros k Hk; apply in_names in Hk; destruct Hk as ([i j] & Hk & [->| ->]); apply G2 in Hk; tauto).
    assert (Dj : forall k, In k (legs ts1) -> In k (legs ts2) -> False) by (intros k A1 A2; specialize (S12 k k A1 A2); lia).
    assert (SK : StronglySorted Z.lt (K1 ++ K2)).
    { apply sorted_app; [now apply left_sorted|now apply left_sorted|]. intros u v Hu Hv. apply in_left in Hu, Hv. now apply S12. }
    assert (PD : forall i j q, In (i, j) P -> dm i q = dm j q) by (intros i j q Hij; now apply Ft3).
    assert (PO : forall i j, In (i, j) P -> pat i = negb (pat j)) by (intros i j Hij; now apply Ft3).
    destruct (dot_names K1 K2 P SK HP NA NB) as [NP PM].
    assert (In3 : forall k, In k (names P) -> In k K1 \/ In k K2) by (intros k Hk; apply in_names in Hk; destruct Hk as ([i j] & Hk & [->| ->]); apply HP in Hk; tauto).
    assert (EK : keep2 K1 K2 P = left (ts1 ++ ts2) (P1 ++ P2 ++ P)).
    { unfold keep2, left, legs. rewrite flat_map_app. fold (legs ts1) (legs ts2). rewrite without_app. unfold K1, K2, left. rewrite !without_without. f_equal; apply without_ext; intros k Hk.
      - rewrite !names_app, !in_app_iff. split.
        + intros [A1|A1]; [tauto|]. apply in_map_iff in A1. destruct A1 as (p & <- & A1). right. right. apply in_names. exists p. auto.
        + intros [A1|[A1|A1]]; [tauto|exfalso; eauto|]. apply in_names in A1. destruct A1 as ([i j] & A1 & [->| ->]).
          * right. now apply (in_map fst) in A1.
          * exfalso. apply HP in A1. destruct A1 as [_ A1]. apply in_left in A1. eapply Dj; [exact Hk|tauto].
      - rewrite !names_app, !in_app_iff. split.
        + intros [A1|A1]; [tauto|]. apply in_map_iff in A1. destruct A1 as (p & <- & A1). right. right. apply in_names. exists p. auto.
        + intros [A1|[A1|A1]]; [exfalso; eauto|tauto|]. apply in_names in A1. destruct A1 as ([i j] & A1 & [->| ->]).
          * exfalso. apply HP in A1. destruct A1 as [A1 _]. apply in_left in A1. eapply Dj; [|exact Hk]. tauto.
          * right. now apply (in_map snd) in A1. }
    rewrite <- EK.
    assert (NN : NoDup (names (P1 ++ P2 ++ P))).
    { rewrite !names_app. apply nodup_app_intro'; [exact N1| |].
      - apply nodup_app_intro'; [exact N2|exact NP|]. intros k A1 A2. apply In3 in A2. destruct A2 as [A2|A2]; apply in_left in A2; [apply (Dj k); [tauto|auto]|tauto].
      - intros k A1 A2. apply in_app_or in A2. destruct A2 as [A2|A2]; [eauto|]. apply In3 in A2. destruct A2 as [A2|A2]; apply in_left in A2; [tauto|apply (Dj k); [auto|tauto]]. }
    split; [split; [exact NN|]|split].
    + intros i j Hij. unfold legs. rewrite flat_map_app. fold (legs ts1) (legs ts2). rewrite !in_app_iff. apply in_app_or in Hij. destruct Hij as [Hij|Hij]; [apply G1 in Hij; tauto|].
      apply in_app_or in Hij. destruct Hij as [Hij|Hij]; [apply G2 in Hij; tauto|]. apply HP in Hij. destruct Hij as [Hi Hj]. apply in_left in Hi, Hj. repeat split; try tauto. apply S12; tauto.
    + split; [|split; [|split]].
      * exact (con_wfn R L fermion dm r1 r2 r K1 K2 P SK HP PD W1 W2 E).
      * exact (con_labs R L fermion dm Lq r1 r2 r K1 K2 P HP PD W1 W2 L1 L2 E).
      * eapply dot_pattern; eassumption.
      * exists (qadd L c1 c2). eapply dot_charge; eassumption.
    + intros s x. rewrite (con_named R L fermion dm Lq r1 r2 r K1 K2 P HL SK HP NA NB PD W1 W2 L1 E). set (K := keep2 K1 K2 P) in *.
      assert (KK : forall k, In k K -> (In k K1 \/ In k K2) /\ ~ In k (names P)).
      { intros k Hk. unfold K, keep2 in Hk. rewrite in_app_iff, !in_without in Hk. split; [tauto|]. intro F.
        assert (A2 : NoDup (names P ++ K)) by (eapply Permutation_NoDup; [exact PM|now apply sorted_nodup]).
        clear - A2 F Hk. revert A2. unfold K, keep2. intros A2. eapply (nodup_app_disjoint _ _ A2 k); [exact F|]. rewrite in_app_iff, !in_without. exact Hk. }
      transitivity (sumP R L dm Lq P s x (fun s' x' => signed (fermion && psign (par L s') P K)
         (sumP R L dm Lq (P1 ++ P2) s' x' (fun s'' x'' => signed (fermion && psign (par L s'') (P1 ++ P2) (names P ++ K)) (rmul R (amp ts1 s'' x'') (amp ts2 s'' x'')))))).
      { apply sumP_ext; [exact NP|]. intros s1 x1 _ _. f_equal. rewrite V1, V2. unfold value.
        rewrite <- sumP_mulr. rewrite sumP_app. apply sumP_ext; [exact N1|]. intros s2 x2 O2 _.
        rewrite (sumP_local P2 (legs ts2) _ s1 s2 x1 x2).
        2:{ intros k Hk _. destruct (O2 k) as [-> ->]; [intro; eauto|auto]. }
        2:{ intros u u' v v' Hu. f_equal; [|now apply amp_ext]. f_equal. apply psign_ext. intros k Hk. unfold par. f_equal. apply Hu. apply in_app_or in Hk. destruct Hk as [Hk|Hk]; [auto|apply in_left in Hk; tauto]. }
        rewrite <- sumP_mull. apply sumP_ext; [exact N2|]. intros s3 x3 O3 _. rewrite <- signed_mul. f_equal.
        - rewrite psign_app.
          assert (X1 : psign (par L s3) P1 (names P2 ++ names P ++ K) = psign (par L s2) P1 (left ts1 P1)).
          { transitivity (psign (par L s3) P1 (K1 ++ (K2 ++ names P2))).
            - apply psign_keep_perm. rewrite (Permutation_app_comm (names P2) (names P ++ K)). rewrite <- PM. rewrite <- app_assoc. reflexivity.
            - rewrite psign_out.
              + apply psign_ext. intros k Hk. unfold par. f_equal. apply O3. intro F. apply (Dj k); [|auto]. apply in_app_or in Hk. destruct Hk as [Hk|Hk]; [auto|apply in_left in Hk; tauto].
              + intros [i j] k Hp Hk. left. apply G1 in Hp. cbn [snd]. apply in_app_or in Hk. assert (A1 : In k (legs ts2)) by (destruct Hk as [Hk|Hk]; [apply in_left in Hk; tauto|auto]).
                destruct Hp as (_ & Hj & _). specialize (S12 j k Hj A1). lia. }
          assert (X2 : psign (par L s3) P2 (names P ++ K) = psign (par L s3) P2 (left ts2 P2)).
          { transitivity (psign (par L s3) P2 (K2 ++ K1)).
            - apply psign_keep_perm. rewrite <- PM. apply Permutation_app_comm.
            - apply psign_out. intros [i j] k Hp Hk. right. apply G2 in Hp. cbn [fst]. apply in_left in Hk. destruct Hp as (Hi & _). specialize (S12 k i (proj1 Hk) Hi). lia. }
          rewrite X1, X2. destruct fermion; reflexivity.
        - f_equal. apply amp_ext. intros k Hk. destruct (O3 k) as [-> ->]; [intro; eauto|auto]. }
      rewrite sum_nest.
      * unfold value. rewrite <- EK. fold K.
        assert (Pr : forall Q K', proper R L (fun s' x' => signed (fermion && psign (par L s') Q K') (amp (ts1 ++ ts2) s' x'))).
        { intros Q K' u u' v v' Hu Hv. f_equal; [|apply amp_ext; auto]. f_equal. apply psign_ext. intros k _. unfold par. now rewrite Hu. }
        transitivity (sumP R L dm Lq (P ++ P1 ++ P2) s x (fun s' x' => signed (fermion && psign (par L s') ((P1 ++ P2) ++ P) K) (amp (ts1 ++ ts2) s' x'))).
        { apply sumP_ext; [eapply Permutation_NoDup; [|exact NN]; apply names_perm; rewrite app_assoc; apply Permutation_app_comm|].
          intros. now rewrite amp_app. }
        rewrite (sumP_perm R L dm Lq _ (P1 ++ P2 ++ P)).
        { now rewrite <- app_assoc. }
        { rewrite (app_assoc P1). apply Permutation_app_comm. }
        { eapply Permutation_NoDup; [|exact NN]; apply names_perm; rewrite app_assoc; apply Permutation_app_comm. }
        { apply Pr. }
      * now rewrite <- app_assoc.
      * intros k Hk F. destruct (KK k Hk) as [[A1|A1] _]; apply in_left in A1; rewrite names_app, in_app_iff in F; destruct F as [F|F]; try tauto; [apply (Dj k); [tauto|auto]|apply (Dj k); [auto|tauto]].
      * reflexivity.
  - (* trace *)
    assert (Ft1 : fits P1) by (intros i j Hij; apply Ft; apply in_or_app; now left).
    assert (Ft3 : fits P) by (intros i j Hij; apply Ft; apply in_or_app; now right).
    destruct (IH1 HS Lf Ft1) as ((N1 & G1) & (W1 & L1 & T1 & c1 & C1) & V1). clear IH1. set (K1 := left ts P1) in *.
    assert (SK : StronglySorted Z.lt K1) by now apply left_sorted.
    assert (PD : forall i j q, In (i, j) P -> dm i q = dm j q) by (intros i j q Hij; now apply Ft3).
    assert (PO : forall i j, In (i, j) P -> pat i = negb (pat j)) by (intros i j Hij; now apply Ft3).
    assert (Ne : fst r1 <> []).
    { intro F. unfold ft_trace in E. destruct (trace_preprocess _ _ _ _) as [[[[[[? ?] ?] ?] ?] ?] ?]. unfold ft_dq in E. rewrite F in E. discriminate. }
    assert (Hm : forall b b', In b (fst r1) -> In b' (fst r1) -> lab_compute L (snd r1) (fst b) = lab_compute L (snd r1) (fst b')) by (eapply tr_hom; eassumption).
    assert (In3 : forall k, In k (names P) -> In k K1) by (eapply tr_names_in; eassumption).
    assert (EK : keep1 K1 P = left ts (P1 ++ P)) by (unfold keep1, K1, left; rewrite without_without, names_app; reflexivity).
    assert (NN : NoDup (names (P1 ++ P))).
    { rewrite names_app. apply nodup_app_intro'; [exact N1|exact NP|]. intros k A1 A2. apply In3, in_left in A2. tauto. }
    rewrite <- EK. split; [split; [exact NN|]|split].
    + intros i j Hij. apply in_app_or in Hij. destruct Hij as [Hij|Hij]; [now apply G1|]. apply HP in Hij. destruct Hij as (A1 & A2 & A3). apply in_left in A1, A2. tauto.
    + split; [|split; [|split]].
      * eapply trace_wf; eassumption.
      * eapply trace_labs; eassumption.
      * eapply tr_pattern; eassumption.
      * exists c1. eapply tr_charge; eassumption.
    + intros s x. rewrite (trace_elem R L fermion dm Lq r1 r K1 P pat HL SK HP NP PD T1 PO W1 L1 Ne Hm E). set (K := keep1 K1 P).
      transitivity (sumP R L dm Lq P s x (fun s' x' => signed (fermion && psign (par L s') P K) (sumP R L dm Lq P1 s' x' (fun s'' x'' => signed (fermion && psign (par L s'') P1 K1) (amp ts s'' x''))))).
      { apply sumP_ext; [exact NP|]. intros s1 x1 _ _. f_equal. apply V1. }
      rewrite sum_nest.
      * unfold value. rewrite <- EK. fold K. apply sumP_perm; [apply Permutation_app_comm| |].
        -- eapply Permutation_NoDup; [apply names_perm, Permutation_app_comm|exact NN].
        -- intros u u' v v' Hu Hv. f_equal; [|apply amp_ext; auto]. f_equal. apply psign_ext. intros k _. unfold par. now rewrite Hu.
      * exact NN.
      * intros k Hk. unfold K, keep1 in Hk. apply in_without in Hk. destruct Hk as [Hk _]. apply in_left in Hk. tauto.
      * intros s1. apply psign_keep_perm. apply names_split_perm; auto. now apply sorted_nodup.
Qed.
End Network.
