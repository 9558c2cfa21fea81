(** Proofs about einsum over block-sparse tensors: the result is the sum over the states of the contracted indices. *)
From Coq Require Import ZArith Bool List Ascii Lia ZifyBool Permutation Sorted Ring.
From Verif Require Import SymModel SymProofs DictLib IndexLib OptLib RingLib StrLib BondModel FuseModel FuseProofs BlockModel BlockProofs BlockProps CanonProofs EinsumModel.
Import ListNotations.
Open Scope Z_scope.

(** ** positions of letters *)
Lemma filter_map_comm : forall (A B : Type) (g : A -> B) (p : B -> bool) l, filter p (map g l) = map g (filter (fun x => p (g x)) l).
Proof. induction l as [|x l IH]; [reflexivity|]. cbn. destruct (p (g x)); cbn; now rewrite IH. Qed.
Lemma pick_positions : forall p s, pick nul (positions p s) s = filter p s.
Proof.
  intros p s. unfold positions. rewrite <- (pick_all ascii nul s) at 3. unfold pick. now rewrite filter_map_comm.
Qed.
Lemma pick_map : forall (A : Type) (d : A) (g : ascii -> A) idx s, (forall i, In i idx -> 0 <= i < Z.of_nat (length s)) ->
  pick d idx (map g s) = map g (pick nul idx s).
Proof.
  intros A d g idx s H. unfold pick. rewrite map_map. apply map_ext_in. intros i Hi. specialize (H i Hi).
  rewrite (nth_indep _ d (g nul)) by (rewrite map_length; lia). apply map_nth.
Qed.
Lemma nth_pick : forall (A : Type) (d : A) idx l k, (k < length idx)%nat -> nth k (pick d idx l) d = nth (Z.to_nat (nth k idx 0)) l d.
Proof.
  intros A d idx l k H. unfold pick. rewrite (nth_indep _ d ((fun i => nth (Z.to_nat i) l d) 0)) by (rewrite map_length; exact H).
  apply (map_nth (fun i => nth (Z.to_nat i) l d)).
Qed.
Lemma positions_range : forall p s i, In i (positions p s) -> 0 <= i < Z.of_nat (length s).
Proof. intros p s i H. apply filter_In in H. now apply in_zrange. Qed.
Lemma positions_nodup : forall p s, NoDup (positions p s).
Proof. intros. apply NoDup_filter, zrange_nodup. Qed.
Lemma others_positions : forall p s, others (Z.of_nat (length s)) (positions p s) = positions (fun c => negb (p c)) s.
Proof.
  intros p s. unfold others. unfold positions at 2. apply filter_ext_in. intros i Hi. f_equal.
  destruct (p (nth (Z.to_nat i) s nul)) eqn:E.
  - apply existsb_exists. exists i. split; [|apply Z.eqb_refl]. apply filter_In. auto.
  - destruct (existsb (Z.eqb i) (positions p s)) eqn:X; [|reflexivity]. apply existsb_exists in X. destruct X as (j & J & EJ).
    apply Z.eqb_eq in EJ. subst j. apply filter_In in J. destruct J. congruence.
Qed.

Lemma combine_snoc : forall (A B : Type) (a : list A) (b : list B) x y, length a = length b ->
  combine (a ++ [x]) (b ++ [y]) = combine a b ++ [(x, y)].
Proof. induction a as [|u a IH]; intros [|v b] x y H; try discriminate; [reflexivity|]. cbn. f_equal. apply IH. now injection H. Qed.
Lemma last_pos_snoc : forall l d c, last_pos (l ++ [d]) c = if Ascii.eqb d c then Z.of_nat (length l) else last_pos l c.
Proof.
  intros l d c. unfold last_pos. rewrite app_length. cbn [length]. replace (Z.of_nat (length l + 1)) with (Z.of_nat (length l) + 1) by lia.
  rewrite zrange_succ by lia. rewrite combine_snoc by (rewrite zrange_length; lia). rewrite fold_left_app. cbn [fold_left fst snd]. reflexivity.
Qed.
Lemma last_pos_nth : forall l, NoDup l -> forall k, (k < length l)%nat -> last_pos l (nth k l nul) = Z.of_nat k.
Proof.
  intros l. induction l as [|d l IH] using rev_ind; intros N k Hk; [cbn in Hk; lia|].
  rewrite app_length in Hk. cbn [length] in Hk. rewrite last_pos_snoc.
  apply NoDup_remove in N. rewrite app_nil_r in N. destruct N as [N1 N2].
  destruct (Nat.eq_dec k (length l)) as [->|NE].
  - rewrite app_nth2, Nat.sub_diag by lia. cbn [nth]. now rewrite Ascii.eqb_refl.
  - rewrite app_nth1 by lia. destruct (Ascii.eqb_spec d (nth k l nul)) as [->|_].
    + exfalso. apply N2. apply nth_In. lia.
    + apply IH; auto; lia.
Qed.
Lemma last_pos_in : forall l c, NoDup l -> In c l -> 0 <= last_pos l c < Z.of_nat (length l) /\ nth (Z.to_nat (last_pos l c)) l nul = c.
Proof.
  intros l c N H. destruct (In_nth _ _ nul H) as (k & K & <-). rewrite last_pos_nth by auto. split; [lia|]. now rewrite Nat2Z.id.
Qed.

(* idxb.sort: the positions of the second operand come in the order of the letters of the first *)
Lemma sorted_positions : forall s1 cs p, NoDup s1 -> NoDup cs -> (forall c, In c cs <-> In c s1 /\ p c = true) ->
  let idx := sort_by Z.ltb (fun x => last_pos cs (nth (Z.to_nat x) s1 nul)) (positions p s1) in
  pick nul idx s1 = cs /\ NoDup idx /\ (forall i, In i idx -> 0 <= i < Z.of_nat (length s1)) /\ (forall i, In i idx <-> In i (positions p s1)).
Proof.
  intros s1 cs p N1 Nc H idx. set (key := fun x => last_pos cs (nth (Z.to_nat x) s1 nul)) in *.
  assert (P : Permutation (positions p s1) idx) by apply sort_perm.
  assert (I : forall i, In i idx <-> In i (positions p s1)).
  { intros i. split; intros Hi; [eapply Permutation_in; [symmetry; exact P|exact Hi]|eapply Permutation_in; [exact P|exact Hi]]. }
  assert (Nd : NoDup idx) by (eapply Permutation_NoDup; [exact P|apply positions_nodup]).
  split; [|split; [exact Nd|split; [intros i Hi; apply I in Hi; eapply positions_range; eauto|exact I]]].
  assert (S : StronglySorted (le_key Z.ltb key) idx).
  { apply sort_sorted; [intros; lia|intros; lia|apply Z.eq_dec]. }
  assert (InC : forall i, In i idx -> In (nth (Z.to_nat i) s1 nul) cs).
  { intros i Hi. apply I in Hi. unfold positions in Hi. apply filter_In in Hi. destruct Hi as [Hi Pi]. apply in_zrange in Hi.
    apply H. split; [apply nth_In; lia|exact Pi]. }
  (* strictly sorted *)
  assert (Inj : forall i j, In i idx -> In j idx -> key i = key j -> i = j).
  { intros i j Hi Hj E. unfold key in E.
    destruct (last_pos_in cs _ Nc (InC i Hi)) as [_ A]. destruct (last_pos_in cs _ Nc (InC j Hj)) as [_ B]. rewrite E in A. rewrite A in B.
    apply I in Hi. apply I in Hj. apply positions_range in Hi. apply positions_range in Hj.
    assert (Z.to_nat i = Z.to_nat j); [|lia]. apply (proj1 (NoDup_nth s1 nul) N1); [lia|lia|exact B]. }
  set (lt := fun a b : ascii => last_pos cs a < last_pos cs b).
  assert (S2 : forall l, StronglySorted (le_key Z.ltb key) l -> NoDup l -> (forall i, In i l -> In i idx) -> StronglySorted lt (pick nul l s1)).
  { induction l as [|i l IH]; intros Sl Nl Il; [constructor|]. inversion Sl as [|? ? Sl' Fl]; subst. inversion Nl as [|? ? Ni Nl']; subst. cbn [pick map]. constructor.
    - apply IH; auto. intros; apply Il; now right.
    - apply Forall_forall. intros c Hc. unfold pick in Hc. apply in_map_iff in Hc. destruct Hc as (j & <- & Hj).
      rewrite Forall_forall in Fl. specialize (Fl j Hj). unfold le_key, key in Fl. unfold lt. destruct Fl as [Fl|Fl]; [|lia].
      exfalso. apply Ni. assert (i = j) by (apply Inj; [apply Il; now left|apply Il; now right|exact Fl]). now subst. }
  assert (S3 : StronglySorted lt cs).
  { clear - Nc. assert (G : forall k, StronglySorted lt (skipn (length cs - k) cs)).
    { induction k as [|k IH]; [rewrite Nat.sub_0_r, skipn_all; constructor|].
      destruct (le_lt_dec (length cs) k) as [L|L]; [replace (length cs - S k)%nat with (length cs - k)%nat by lia; exact IH|].
      assert (E : skipn (length cs - S k) cs = nth (length cs - S k) cs nul :: skipn (length cs - k) cs).
      { replace (length cs - k)%nat with (S (length cs - S k)) by lia. set (n := (length cs - S k)%nat). assert (Hn : (n < length cs)%nat) by (unfold n; lia). clearbody n.
        clear - Hn. revert n Hn. induction cs as [|c cs IHc]; intros n Hn; [cbn in Hn; lia|]. destruct n; [reflexivity|]. cbn [length] in Hn. cbn [nth skipn]. apply IHc. lia. }
      rewrite E. constructor; [exact IH|]. apply Forall_forall. intros c Hc. unfold lt.
      destruct (In_nth _ _ nul Hc) as (j & J & <-). rewrite skipn_length in J.
      assert (X : nth j (skipn (length cs - k) cs) nul = nth (length cs - k + j) cs nul).
      { set (n := (length cs - k)%nat). clearbody n. clear. revert n. induction cs as [|c cs IHc]; intros [|n]; [reflexivity| |reflexivity|].
        - cbn. now destruct j.
        - cbn [skipn plus nth]. apply IHc. }
      rewrite X, !last_pos_nth by (auto; lia). lia. }
    specialize (G (length cs)). now rewrite Nat.sub_diag in G. }
  apply (strict_sorted_unique _ lt); [unfold lt; intros; lia|unfold lt; intros; lia|apply S2; auto|exact S3|].
  intros c. unfold pick. rewrite in_map_iff. split.
  - intros (i & <- & Hi). now apply InC.
  - intros Hc. apply H in Hc. destruct Hc as [A B]. destruct (In_nth _ _ nul A) as (k & K & E).
    exists (Z.of_nat k). rewrite Nat2Z.id. split; [exact E|]. apply I. unfold positions. apply filter_In. split; [apply in_zrange; lia|]. now rewrite Nat2Z.id, E.
Qed.

(** ** occurrences *)
Lemma occ_app : forall c a b, occ c (a ++ b) = occ c a + occ c b.
Proof. intros. unfold occ. rewrite count_occ_app. lia. Qed.
Lemma occ_nonneg : forall c s, 0 <= occ c s.
Proof. intros. unfold occ. lia. Qed.
Lemma occ_in : forall c s, In c s <-> 1 <= occ c s.
Proof. intros. unfold occ. rewrite (count_occ_In ascii_dec). lia. Qed.
Lemma occ_nodup : forall c s, NoDup s -> occ c s <= 1.
Proof. intros c s H. unfold occ. pose proof (proj1 (NoDup_count_occ ascii_dec s) H c). lia. Qed.
Lemma nodup_occ : forall s, (forall c, occ c s <= 1) -> NoDup s.
Proof. intros s H. apply (NoDup_count_occ ascii_dec). intros c. specialize (H c). unfold occ in H. lia. Qed.
Lemma occ_filter : forall c p s, occ c (filter p s) = if p c then occ c s else 0.
Proof.
  intros c p s. unfold occ. induction s as [|d s IH]; cbn [filter count_occ]; [destruct (p c); reflexivity|].
  destruct (p d) eqn:E; cbn [count_occ]; destruct (ascii_dec d c) as [->|NE]; rewrite ?E in *; try exact IH; destruct (p c); try lia; congruence.
Qed.

Definition total (c : ascii) (l : list text) : Z := fold_right Z.add 0 (map (occ c) l).
Lemma total_cons : forall c s l, total c (s :: l) = occ c s + total c l.
Proof. reflexivity. Qed.
Lemma total_app : forall c a b, total c (a ++ b) = total c a + total c b.
Proof. intros c a b. induction a as [|s a IH]; [reflexivity|]. cbn [app]. rewrite !total_cons, IH. lia. Qed.
Lemma total_nonneg : forall c l, 0 <= total c l.
Proof. intros c l. induction l as [|s l IH]; [cbn; lia|]. rewrite total_cons. pose proof (occ_nonneg c s). lia. Qed.
Lemma total_in : forall c s l, In s l -> In c s -> 1 <= total c l.
Proof.
  intros c s l. induction l as [|t l IH]; intros H Hc; [destruct H|]. rewrite total_cons. destruct H as [->|H].
  - apply occ_in in Hc. pose proof (total_nonneg c l). lia.
  - specialize (IH H Hc). pose proof (occ_nonneg c t). lia.
Qed.
Lemma total_pos : forall c l, 1 <= total c l -> exists s, In s l /\ In c s.
Proof.
  intros c l. induction l as [|t l IH]; intros H; [cbn in H; lia|]. rewrite total_cons in H.
  destruct (Z_le_gt_dec 1 (occ c t)) as [H1|H1].
  - exists t. split; [now left|]. now apply occ_in.
  - destruct IH as (s & A & B); [lia|]. exists s. split; [now right|exact B].
Qed.

(** ** sums over the states of indices *)
Section Sums.
Variable R : CRing.
Variable L : Label.
Notation "0'" := (r0 R). Notation "1'" := (r1 R).
Infix "+'" := (radd R) (at level 50, left associativity). Infix "*'" := (rmul R) (at level 40, left associativity).
Add Ring RRe : (rth R).
Notation tensor := (list (list L * nd R)).
Notation asg := (ascii -> L * Z).
Variable dm : ascii -> L -> Z.
Variable Q : list L.
Hypothesis NQ : NoDup Q.

Definition upd (s : asg) (c : ascii) (v : L * Z) : asg := fun d => if Ascii.eqb d c then v else s d.
Definition states (c : ascii) : list (L * Z) := flat_map (fun q => map (pair q) (zrange (dm c q))) Q.
Fixpoint asum (cs : text) (s : asg) (f : asg -> R) : R :=
  match cs with [] => f s | c :: cs' => bsum (states c) (fun v => asum cs' (upd s c v) f) end.

Lemma asum_ext : forall cs s f g, (forall s', (forall c, ~ In c cs -> s' c = s c) -> f s' = g s') -> asum cs s f = asum cs s g.
Proof using.
  induction cs as [|c cs IH]; intros s f g H; cbn [asum]; [apply H; auto|]. apply (bsum_ext R). intros v _. apply IH.
  intros s' Hs. apply H. intros d Hd. rewrite Hs by (intros X; apply Hd; now right). unfold upd. destruct (Ascii.eqb_spec d c) as [->|_]; [|reflexivity].
  exfalso. apply Hd. now left.
Qed.
Definition ext (f : asg -> R) : Prop := forall s s', (forall c, s c = s' c) -> f s = f s'.
Lemma asum_asg : forall cs f s s', ext f -> (forall c, s c = s' c) -> asum cs s f = asum cs s' f.
Proof using.
  induction cs as [|c cs IH]; intros f s s' Hf H; cbn [asum]; [now apply Hf|]. apply (bsum_ext R). intros v _. apply IH; auto.
  intros d. unfold upd. destruct (Ascii.eqb d c); auto.
Qed.
Lemma asum_perm : forall cs cs' f s, ext f -> NoDup cs -> Permutation cs cs' -> asum cs s f = asum cs' s f.
Proof using.
  intros cs cs' f s Hf N P. revert s N. induction P as [|c l l' P IH|c d l|l l' l'' P1 IH1 P2 IH2]; intros s N; [reflexivity| | |].
  - cbn [asum]. inversion N; subst. apply (bsum_ext R). intros v _. now apply IH.
  - cbn [asum]. rewrite (bsum_swap R). apply (bsum_ext R). intros u _. apply (bsum_ext R). intros v _. apply asum_asg; [exact Hf|].
    intros x. unfold upd. destruct (Ascii.eqb_spec x c) as [E1|], (Ascii.eqb_spec x d) as [E2|]; try reflexivity.
    exfalso. inversion N as [|? ? N1 _]; subst. apply N1. now left.
  - rewrite IH1 by exact N. apply IH2. eapply Permutation_NoDup; eauto.
Qed.
Lemma asum_app : forall a b f s, asum (a ++ b) s f = asum a s (fun s' => asum b s' f).
Proof using. induction a as [|c a IH]; intros b f s; [reflexivity|]. cbn [app asum]. apply (bsum_ext R). intros v _. apply IH. Qed.
Lemma asum_mulr : forall cs s f g, (forall s', (forall c, ~ In c cs -> s' c = s c) -> g s' = g s) ->
  asum cs s f *' g s = asum cs s (fun s' => f s' *' g s').
Proof using.
  induction cs as [|c cs IH]; intros s f g H; cbn [asum]; [reflexivity|]. rewrite <- (bsum_mulr R). apply (bsum_ext R). intros v _.
  assert (E : g (upd s c v) = g s).
  { apply H. intros d Hd. unfold upd. destruct (Ascii.eqb_spec d c) as [->|_]; [exfalso; apply Hd; now left|reflexivity]. }
  rewrite <- E. apply IH. intros s' Hs. rewrite E. apply H. intros d Hd. rewrite Hs by (intros X; apply Hd; now right). unfold upd.
  destruct (Ascii.eqb_spec d c) as [->|_]; [exfalso; apply Hd; now left|reflexivity].
Qed.

(* label tuples of length k *)
Fixpoint tuples (k : nat) : list (list L) := match k with O => [[]] | S k' => flat_map (fun q => map (cons q) (tuples k')) Q end.
Lemma tuples_in : forall k l, In l (tuples k) <-> length l = k /\ forall q, In q l -> In q Q.
Proof using.
  clear dm. induction k as [|k IH]; intros l; cbn [tuples].
  - split; [intros [<-|[]]; split; [reflexivity|intros ? []]|]. intros [H _]. destruct l; [now left|discriminate].
  - rewrite in_flat_map. split.
    + intros (q & Hq & H). apply in_map_iff in H. destruct H as (l' & <- & H). apply IH in H. destruct H as [A B]. split; [cbn; lia|]. intros x [<-|X]; auto.
    + intros [A B]. destruct l as [|q l]; [discriminate|]. exists q. split; [apply B; now left|]. apply in_map. apply IH. split; [now injection A|]. intros; apply B; now right.
Qed.
Lemma tuples_nodup : forall k, NoDup (tuples k).
Proof using NQ.
  clear dm. induction k as [|k IH]; cbn [tuples]; [repeat constructor; auto|].
  revert NQ. induction Q as [|q l IHl]; intros N; cbn [flat_map]; [constructor|]. inversion N as [|? ? Hq N']; subst.
  apply (proj2 (nodup_app _ _ _)); split; [|split]; [apply FinFun.Injective_map_NoDup; [intros x y E; now injection E|exact IH]|now apply IHl|].
  intros x Hx Hy. apply in_map_iff in Hx. destruct Hx as (x' & <- & _). apply in_flat_map in Hy. destruct Hy as (q' & Hq' & Hy).
  apply in_map_iff in Hy. destruct Hy as (y' & E & _). injection E as -> _. contradiction.
Qed.
Lemma asum_tuples : forall cs F s, NoDup cs ->
  bsum (tuples (length cs)) (fun qc => bsum (all_idx (map (fun p => dm (fst p) (snd p)) (combine cs qc))) (fun xc => F qc xc))
  = asum cs s (fun s' => F (map (fun c => fst (s' c)) cs) (map (fun c => snd (s' c)) cs)).
Proof using.
  induction cs as [|c cs IH]; intros F s N.
  - cbn [length tuples combine map all_idx asum]. rewrite !(bsum_cons R), !(bsum_nil R). ring.
  - inversion N as [|? ? Nc N']; subst. cbn [length tuples asum]. rewrite (bsum_flat_map R). unfold states. rewrite (bsum_flat_map R). apply (bsum_ext R). intros q _.
    rewrite !(bsum_map R). cbn [combine map fst snd all_idx].
    transitivity (bsum (tuples (length cs)) (fun qc => bsum (zrange (dm c q)) (fun x =>
      bsum (all_idx (map (fun p => dm (fst p) (snd p)) (combine cs qc))) (fun xc => F (q :: qc) (x :: xc))))).
    { apply (bsum_ext R). intros qc _. rewrite (bsum_flat_map R). apply (bsum_ext R). intros x _. now rewrite (bsum_map R). }
    rewrite (bsum_swap R). apply (bsum_ext R). intros x _.
    rewrite (IH (fun qc xc => F (q :: qc) (x :: xc)) (upd s c (q, x)) N'). apply asum_ext. intros s' Hs. cbn [map].
    assert (E : s' c = (q, x)) by (rewrite Hs by exact Nc; unfold upd; now rewrite Ascii.eqb_refl). now rewrite E.
Qed.

(** ** one contraction *)
(* the element of a tensor with legs named s at the states given by an assignment *)
Definition at_ (t : tensor) (s : text) (g : asg) : R := elem R L t (map (fun c => fst (g c)) s) (map (fun c => snd (g c)) s).
Definition legs (t : tensor) (s : text) : Prop :=
  wf_tensor R L (Z.of_nat (length s)) (fun i => dm (nth (Z.to_nat i) s nul)) t /\ (forall b q, In b t -> In q (fst b) -> In q Q).
Lemma at_ext : forall t s g g', (forall c, In c s -> g c = g' c) -> at_ t s g = at_ t s g'.
Proof using. intros t s g g' H. unfold at_. f_equal; apply map_ext_in; intros c Hc; now rewrite H. Qed.

Lemma leg_id : forall n l, (forall i, In i l -> 0 <= i) -> map (leg n) l = l.
Proof using. intros n l H. rewrite <- (map_id l) at 2. apply map_ext_in. intros i Hi. specialize (H i Hi). unfold leg. destruct (Z.ltb_spec i 0); lia. Qed.

Lemma shape_legs : forall (o : list Z) (s : text) q, length q = length o ->
  shape_of L (fun i => dm (nth (Z.to_nat i) s nul)) o q = map (fun p => dm (fst p) (snd p)) (combine (pick nul o s) q).
Proof using.
  intros o s. induction o as [|i o IH]; intros [|y q] H; try discriminate; [reflexivity|]. cbn. f_equal. apply IH. now injection H.
Qed.
Lemma dot_step : forall a b s0 s1 p cs idxb r, NoDup s0 -> NoDup s1 -> legs a s0 -> legs b s1 ->
  (forall c, p c = true -> In c s0 <-> In c s1) -> cs = filter p s0 ->
  idxb = sort_by Z.ltb (fun x => last_pos cs (nth (Z.to_nat x) s1 nul)) (positions p s1) ->
  sp_tensordot R L a b (positions p s0) idxb = Some r ->
  let free := filter (fun c => negb (p c)) s0 ++ filter (fun c => negb (p c)) s1 in
  legs r free /\ forall g, at_ r free g = asum cs g (fun g' => at_ a s0 g' *' at_ b s1 g').
Proof using NQ.
  intros a b s0 s1 p cs idxb r N0 N1 [Wa Qa] [Wb Qb] Hp Ecs Eidx Er free.
  set (na := Z.of_nat (length s0)) in *. set (nb := Z.of_nat (length s1)) in *.
  set (idxa := positions p s0) in *.
  assert (Nc : NoDup cs) by (subst cs; now apply NoDup_filter).
  assert (Hc : forall c, In c cs <-> In c s1 /\ p c = true).
  { intros c. subst cs. rewrite filter_In. split; intros [A B]; (split; [apply (Hp c B); exact A|exact B]). }
  destruct (sorted_positions s1 cs p N1 Nc Hc) as (Pb & Nb & Ib & Mb). rewrite <- Eidx in Pb, Nb, Ib, Mb. fold nb in Ib.
  assert (Pa : pick nul idxa s0 = cs) by (subst cs; apply pick_positions).
  assert (Ia : forall i, In i idxa -> 0 <= i < na) by (intros; eapply positions_range; eauto).
  assert (Na : NoDup idxa) by apply positions_nodup.
  assert (La : length idxa = length cs) by (rewrite <- Pa; symmetry; apply pick_length).
  assert (Lb : length idxb = length cs) by (rewrite <- Pb; symmetry; apply pick_length).
  assert (Ma : map (leg na) idxa = idxa) by (apply leg_id; intros i Hi; apply Ia in Hi; lia).
  assert (Mbb : map (leg nb) idxb = idxb) by (apply leg_id; intros i Hi; apply Ib in Hi; lia).
  assert (Oa : others na idxa = positions (fun c => negb (p c)) s0) by apply others_positions.
  assert (Ob : others nb idxb = positions (fun c => negb (p c)) s1).
  { rewrite <- others_positions. fold nb. unfold others. apply filter_ext. intros i. f_equal.
    apply eq_iff_eq_true. rewrite !existsb_exists. split; intros (x & X & E); exists x; (split; [apply Mb; exact X|exact E]). }
  assert (Fa : pick nul (others na idxa) s0 = filter (fun c => negb (p c)) s0) by (rewrite Oa; apply pick_positions).
  assert (Fb : pick nul (others nb idxb) s1 = filter (fun c => negb (p c)) s1) by (rewrite Ob; apply pick_positions).
  assert (Ioa : forall i, In i (others na idxa) -> 0 <= i < na) by (intros i Hi; apply in_others in Hi; tauto).
  assert (Iob : forall i, In i (others nb idxb) -> 0 <= i < nb) by (intros i Hi; apply in_others in Hi; tauto).
  assert (Loa : length (others na idxa) = length (filter (fun c => negb (p c)) s0)) by (rewrite <- Fa; symmetry; apply pick_length).
  assert (Lob : length (others nb idxb) = length (filter (fun c => negb (p c)) s1)) by (rewrite <- Fb; symmetry; apply pick_length).
  assert (Dab : forall i j q, In (i, j) (combine idxa idxb) -> dm (nth (Z.to_nat i) s0 nul) q = dm (nth (Z.to_nat j) s1 nul) q).
  { intros i j q H. f_equal. destruct (In_nth _ _ (0, 0) H) as (k & K & E). rewrite combine_length, La, Lb, Nat.min_id in K.
    rewrite combine_nth in E by congruence. injection E as E1 E2.
    assert (X : nth k (pick nul idxa s0) nul = nth k (pick nul idxb s1) nul) by congruence.
    rewrite !nth_pick in X by congruence. now rewrite E1, E2 in X. }
  split; [split|].
  - (* structure *)
    destruct a as [|ba a']; [|destruct b as [|bb b']].
    + assert (r = []) by (unfold sp_tensordot in Er; destruct (negb _) in Er; [discriminate|]; injection Er as <-; reflexivity). subst r. intros ? [].
    + assert (r = []); [|subst r; intros ? []].
      apply sp_tensordot_acc in Er. rewrite Er. clear. unfold contribs. match goal with |- fold_left _ ?l _ = _ => assert (E : l = []) end.
      { induction (ba :: a') as [|x l IH]; [reflexivity|]. cbn [flat_map filter map app]. exact IH. } now rewrite E.
    + intros x Hx.
      destruct (c14_result_structure R L (ba :: a') (bb :: b') na nb _ _ idxa idxb r Wa Wb) as (_ & S1 & S2); rewrite ?Ma, ?Mbb; auto; [discriminate|discriminate|].
      rewrite Ma, Mbb in S1, S2. specialize (S1 x Hx).
      assert (Lx : length (fst x) = length free).
      { pose proof (proj1 (S2 (fst x)) (in_map fst _ _ Hx)) as (u & v & _ & _ & _ & ->). unfold free. rewrite !app_length, !pick_length. congruence. }
      split; [now rewrite Lx|]. rewrite S1. rewrite <- (firstn_skipn (length (others na idxa)) (fst x)) at 3.
      set (q1 := firstn (length (others na idxa)) (fst x)). set (q2 := skipn (length (others na idxa)) (fst x)).
      assert (L1 : length q1 = length (others na idxa)) by (unfold q1; rewrite firstn_length, Lx; unfold free; rewrite app_length; lia).
      assert (L2 : length q2 = length (others nb idxb)) by (unfold q2; rewrite skipn_length, Lx; unfold free; rewrite app_length; lia).
      rewrite !shape_legs by (rewrite ?zrange_length; auto; rewrite app_length, L1, L2; unfold free; rewrite app_length; lia).
      rewrite Fa, Fb, (pick_all ascii nul free). unfold free.
      rewrite <- map_app. f_equal. rewrite Loa in L1. clearbody q1 q2. clear - L1. revert q1 L1. induction (filter (fun c => negb (p c)) s0) as [|y l IH]; intros [|z q1] L1; try discriminate; [reflexivity|].
      cbn. f_equal. apply IH. now injection L1.
  - intros x q Hx Hq.
    destruct a as [|ba a']; [|destruct b as [|bb b']].
    + assert (r = []) by (unfold sp_tensordot in Er; destruct (negb _) in Er; [discriminate|]; injection Er as <-; reflexivity). subst r. destruct Hx.
    + assert (r = []); [|subst r; destruct Hx].
      apply sp_tensordot_acc in Er. rewrite Er. clear. unfold contribs. match goal with |- fold_left _ ?l _ = _ => assert (E : l = []) end.
      { induction (ba :: a') as [|y l IH]; [reflexivity|]. cbn [flat_map filter map app]. exact IH. } now rewrite E.
    + destruct (c14_result_structure R L (ba :: a') (bb :: b') na nb _ _ idxa idxb r Wa Wb) as (_ & _ & S2); rewrite ?Ma, ?Mbb; auto; [discriminate|discriminate|].
      rewrite Ma, Mbb in S2. pose proof (proj1 (S2 (fst x)) (in_map fst _ _ Hx)) as (u & v & Hu & Hv & _ & E). rewrite E in Hq.
      apply in_app_iff in Hq. destruct Hq as [Hq|Hq]; unfold pick in Hq; apply in_map_iff in Hq; destruct Hq as (i & <- & Hi).
      * apply (Qa u); [exact Hu|]. apply nth_In. destruct (Wa u Hu) as [W _]. apply Ioa in Hi. unfold na in *. lia.
      * apply (Qb v); [exact Hv|]. apply nth_In. destruct (Wb v Hv) as [W _]. apply Iob in Hi. unfold nb in *. lia.
  - intros g. unfold at_ at 1. unfold free at 1 2. rewrite !map_app.
    assert (C := c14_contraction_is_dense_contraction R L a b na nb _ _ idxa idxb r Wa Wb). cbv zeta in C. rewrite Ma, Mbb in C.
    rewrite (C Na Ia Nb Ib Dab Er (tuples (length cs)) (tuples_nodup _)); clear C; try (rewrite map_length; congruence).
    + rewrite La || idtac.
      transitivity (bsum (tuples (length cs)) (fun qc => bsum (all_idx (map (fun p => dm (fst p) (snd p)) (combine cs qc))) (fun xc =>
        elem R L a (merge (q0 L) na idxa qc (map (fun c => fst (g c)) (filter (fun c => negb (p c)) s0))) (merge 0 na idxa xc (map (fun c => snd (g c)) (filter (fun c => negb (p c)) s0)))
        *' elem R L b (merge (q0 L) nb idxb qc (map (fun c => fst (g c)) (filter (fun c => negb (p c)) s1))) (merge 0 nb idxb xc (map (fun c => snd (g c)) (filter (fun c => negb (p c)) s1)))))).
      { apply (bsum_ext R). intros qc Hqc. apply tuples_in in Hqc. destruct Hqc as [Lq _]. f_equal. f_equal.
        rewrite <- Pa. unfold shape_of, pick. rewrite <- La in Lq. clearbody idxa. clear - Lq. revert qc Lq. induction idxa as [|i l IH]; intros [|y q] H; try discriminate; [reflexivity|]. cbn. f_equal. apply IH. now injection H. }
      rewrite (asum_tuples cs (fun qc xc =>
        elem R L a (merge (q0 L) na idxa qc (map (fun c => fst (g c)) (filter (fun c => negb (p c)) s0))) (merge 0 na idxa xc (map (fun c => snd (g c)) (filter (fun c => negb (p c)) s0)))
        *' elem R L b (merge (q0 L) nb idxb qc (map (fun c => fst (g c)) (filter (fun c => negb (p c)) s1))) (merge 0 nb idxb xc (map (fun c => snd (g c)) (filter (fun c => negb (p c)) s1)))) g Nc).
      apply asum_ext. intros g' Hg.
      assert (Free : forall s c, In c (filter (fun c => negb (p c)) s) -> g' c = g c).
      { intros s c H. apply Hg. intros X. apply Hc in X. apply filter_In in H. destruct H as [_ H]. destruct X as [_ X]. rewrite X in H. discriminate. }
      assert (G : forall (A : Type) (d : A) (h : L * Z -> A) s idx, NoDup idx -> (forall i, In i idx -> 0 <= i < Z.of_nat (length s)) ->
        pick nul idx s = cs -> pick nul (others (Z.of_nat (length s)) idx) s = filter (fun c => negb (p c)) s ->
        merge d (Z.of_nat (length s)) idx (map (fun c => h (g' c)) cs) (map (fun c => h (g c)) (filter (fun c => negb (p c)) s)) = map (fun c => h (g' c)) s).
      { intros A d h s idx Ni Ii P1 P2.
        rewrite <- (merge_pick d (Z.of_nat (length s)) idx Ii (map (fun c => h (g' c)) s)) by now rewrite map_length.
        rewrite !pick_map by (auto; intros i Hi; apply in_others in Hi; tauto). rewrite P1, P2. f_equal. apply map_ext_in. intros c H. now rewrite (Free s). }
      unfold na, nb. rewrite (G L (q0 L) fst s0 idxa), (G Z 0 snd s0 idxa), (G L (q0 L) fst s1 idxb), (G Z 0 snd s1 idxb) by auto. reflexivity.
    + intros q Hq. apply tuples_in in Hq. destruct Hq as [Lq _]. congruence.
    + intros ba Hba. apply tuples_in. split; [rewrite pick_length; exact La|]. intros q Hq. unfold pick in Hq. apply in_map_iff in Hq. destruct Hq as (i & <- & Hi).
      apply (Qa ba); [exact Hba|]. apply nth_In. destruct (Wa ba Hba) as [W _]. apply Ia in Hi. unfold na in *. lia.
Qed.

(** ** all contractions *)
Definition prods (l : list (text * tensor)) (g : asg) : R := fold_right (fun o r => at_ (snd o) (fst o) g *' r) 1' l.
Lemma prods_snoc : forall l o g, prods (l ++ [o]) g = prods l g *' at_ (snd o) (fst o) g.
Proof using.
  intros l o g. unfold prods. induction l as [|x l IH]; cbn [app fold_right]; [ring|]. rewrite IH. ring.
Qed.
Lemma prods_ext : forall l g g', (forall c s, In s (map fst l) -> In c s -> g c = g' c) -> prods l g = prods l g'.
Proof using.
  intros l g g' H. unfold prods. induction l as [|x l IH]; cbn [fold_right]; [reflexivity|]. rewrite IH.
  - f_equal. apply at_ext. intros c Hc. apply (H c (fst x)); [now left|exact Hc].
  - intros c s Hs Hc. apply (H c s); [now right|exact Hc].
Qed.

Record inv (res : text) (dn rest : list (text * tensor)) (cd s0 : text) (a : tensor) (cnt : ascii -> Z) : Prop := {
  i_nodup : NoDup s0;
  i_legs : legs a s0;
  i_cnt : forall c, cnt c = occ c s0 + total c (map fst rest) + occ c res;
  i_two : forall c, 1 <= occ c s0 + total c (map fst rest) -> 2 <= cnt c;
  i_rest : forall o, In o rest -> NoDup (fst o) /\ legs (snd o) (fst o);
  i_cd : NoDup cd;
  i_cd0 : forall c, In c cd -> cnt c = 0;
  i_dn : forall c, (exists s, In s (map fst dn) /\ In c s) <-> In c cd \/ In c s0;
  i_val : forall g, at_ a s0 g = asum cd g (prods dn);
  i_tot : forall c, total c (map fst dn) = 2 * occ c cd + occ c s0 }.

Lemma step_inv : forall res dn o rest cd s0 a cnt st, inv res dn (o :: rest) cd s0 a cnt ->
  step tensor (sp_tensordot R L) (s0, a, cnt) o = Some st ->
  exists cd', inv res (dn ++ [o]) rest cd' (fst (fst st)) (snd (fst st)) (snd st) /\ (forall c, snd st c <= cnt c).
Proof using NQ.
  intros res dn [s1 b] rest cd s0 a cnt st I H. destruct I as [N0 Wa Hcnt Htwo Hrest Ncd Hcd Hdn Hval Htot].
  destruct (Hrest (s1, b) (or_introl eq_refl)) as [N1 Wb]. cbn [fst snd] in N1, Wb.
  unfold step in H. set (m := fun c => occ c s0 + occ c s1) in *.
  destruct (existsb _ s0 || existsb _ s1) eqn:B in H; [discriminate|]. apply orb_false_iff in B. destruct B as [B0 B1].
  set (ctr := fun c => (1 <? m c) && (m c =? cnt c)) in *.
  destruct (sp_tensordot R L a b _ _) as [t|] eqn:E in H; [|discriminate]. cbn [bind] in H. injection H as <-. cbn [fst snd].
  rewrite pick_positions in *. set (cs := filter ctr s0) in *.
  assert (M : forall c, 0 <= occ c s0 <= 1 /\ 0 <= occ c s1 <= 1).
  { intros c. split; (split; [apply occ_nonneg|now apply occ_nodup]). }
  assert (Cm : forall c, cnt c = m c + total c (map fst rest) + occ c res) by (intros c; rewrite Hcnt; cbn [map fst]; rewrite total_cons; unfold m; lia).
  assert (Tn : forall c, 0 <= total c (map fst rest) /\ 0 <= occ c res) by (intros c; split; [apply total_nonneg|apply occ_nonneg]).
  assert (NB : forall c, 1 < m c -> m c = cnt c).
  { intros c Hm. assert (In c s0) by (apply occ_in; specialize (M c); unfold m in Hm; lia).
    destruct (Z.eq_dec (m c) (cnt c)) as [Ee|Ne]; [exact Ee|]. exfalso.
    assert (X : existsb (fun c => (1 <? m c) && negb (m c =? cnt c)) s0 = true); [|assert (X' : existsb (fun c => (1 <? m c) && negb (m c =? cnt c)) s0 = false) by exact B0; rewrite X in X'; discriminate].
    apply existsb_exists. exists c. split; [exact H|]. apply andb_true_iff. split; [lia|]. apply negb_true_iff. lia. }
  assert (Fr : forall c, negb (1 <? m c) = negb (ctr c)).
  { intros c. unfold ctr. f_equal. destruct (1 <? m c) eqn:X; [|reflexivity]. symmetry. cbn [andb]. apply Z.eqb_eq, NB. lia. }
  assert (Hp : forall c, ctr c = true -> In c s0 <-> In c s1).
  { intros c Hc. unfold ctr in Hc. apply andb_true_iff in Hc. destruct Hc as [Hc _]. specialize (M c). unfold m in Hc. rewrite !occ_in. lia. }
  destruct (dot_step a b s0 s1 ctr cs _ t N0 N1 Wa Wb Hp eq_refl eq_refl E) as [Wt Vt].
  assert (Ef : forall s, filter (fun c => negb (1 <? m c)) s = filter (fun c => negb (ctr c)) s) by (intros s; apply filter_ext; exact Fr).
  rewrite !Ef.
  assert (Occ : forall c, occ c cs = if ctr c then 1 else 0).
  { intros c. unfold cs. rewrite occ_filter. destruct (ctr c) eqn:X; [|reflexivity]. unfold ctr in X. apply andb_true_iff in X. destruct X as [X _]. specialize (M c). unfold m in X. lia. }
  assert (Of : forall c, occ c (filter (fun c => negb (ctr c)) s0 ++ filter (fun c => negb (ctr c)) s1) = if ctr c then 0 else m c).
  { intros c. rewrite occ_app, !occ_filter. destruct (ctr c); cbn [negb]; unfold m; lia. }
  assert (Ct : forall c, ctr c = true -> m c = 2 /\ cnt c = 2 /\ total c (map fst rest) = 0 /\ occ c res = 0).
  { intros c Hc. unfold ctr in Hc. apply andb_true_iff in Hc. destruct Hc as [X Y]. specialize (M c). specialize (Cm c). specialize (Tn c). unfold m in *. lia. }
  assert (Cf : forall c, ctr c = false -> m c <= 1).
  { intros c Hc. unfold ctr in Hc. destruct (1 <? m c) eqn:X; [|lia]. cbn [andb] in Hc. rewrite NB in Hc by lia. lia. }
  assert (Dis : forall c, In c cd -> occ c s0 = 0 /\ occ c s1 = 0 /\ total c (map fst rest) = 0 /\ occ c res = 0).
  { intros c Hc. specialize (Hcd c Hc). specialize (Cm c). specialize (M c). specialize (Tn c). unfold m in *. lia. }
  assert (InCs : forall c, In c cs <-> ctr c = true).
  { intros c. rewrite occ_in, Occ. destruct (ctr c); intuition; lia. }
  exists (cs ++ cd). split.
  - constructor.
    + apply nodup_occ. intros c. rewrite Of. destruct (ctr c) eqn:X; [lia|]. now apply Cf.
    + exact Wt.
    + intros c. rewrite Of, Occ, Cm. destruct (ctr c) eqn:X; [destruct (Ct c X) as (-> & _ & -> & ->); lia|lia].
    + intros c. rewrite Of, Occ. intros H. destruct (ctr c) eqn:X; [destruct (Ct c X) as (_ & _ & ? & _); lia|].
      assert (2 <= cnt c); [|lia]. apply Htwo. cbn [map fst]. rewrite total_cons. unfold m in H. lia.
    + intros o Ho. apply Hrest. now right.
    + apply (proj2 (nodup_app _ _ _)). split; [unfold cs; now apply NoDup_filter|split; [exact Ncd|]]. intros c H1 H2.
      apply Dis in H2. apply InCs, Ct in H1. unfold m in H1. lia.
    + intros c Hc. rewrite Occ. apply in_app_iff in Hc. destruct Hc as [Hc|Hc].
      * apply InCs in Hc. rewrite Hc. destruct (Ct c Hc) as (_ & -> & _). lia.
      * rewrite (Hcd c Hc). destruct (ctr c) eqn:X; [|lia]. apply Ct in X. apply Hcd in Hc. lia.
    + intros c. rewrite map_app. cbn [map fst]. rewrite in_app_iff, (occ_in c (_ ++ _)), Of.
      split.
      * intros (s & Hs & Hc). apply in_app_iff in Hs. destruct (ctr c) eqn:X; [left; left; now apply InCs|].
        destruct Hs as [Hs|[<-|[]]].
        -- destruct (proj1 (Hdn c) (ex_intro _ s (conj Hs Hc))) as [Y|Y]; [tauto|]. apply occ_in in Y. right. specialize (M c). unfold m. lia.
        -- apply occ_in in Hc. right. specialize (M c). unfold m. lia.
      * intros H. assert (D : In c cd \/ In c s0 \/ In c s1).
        { destruct H as [[H|H]|H]; [|tauto|].
          - apply InCs, Ct in H. rewrite !occ_in. specialize (M c). unfold m in H. lia.
          - destruct (ctr c); [lia|]. rewrite !occ_in. specialize (M c). unfold m in H. lia. }
        destruct D as [D|[D|D]].
        -- destruct (proj2 (Hdn c) (or_introl D)) as (s & A & C). exists s. split; [apply in_app_iff; now left|exact C].
        -- destruct (proj2 (Hdn c) (or_intror D)) as (s & A & C). exists s. split; [apply in_app_iff; now left|exact C].
        -- exists s1. split; [apply in_app_iff; right; now left|exact D].
    + intros g. rewrite Vt, asum_app. apply asum_ext. intros g' _. rewrite Hval. rewrite (asum_mulr cd g' (prods dn) (at_ b s1)).
      * apply asum_ext. intros g2 _. now rewrite prods_snoc.
      * intros g2 Hg. apply at_ext. intros c Hc. apply Hg. intros X. apply Dis in X. apply occ_in in Hc. lia.
    + intros c. rewrite map_app, total_app, Htot, Of, occ_app, Occ. cbn [map fst]. rewrite total_cons. cbn [total map fold_right].
      destruct (ctr c) eqn:X; [apply Ct in X; unfold m in X; lia|unfold m; lia].
  - intros c. rewrite Occ. destruct (ctr c); lia.
Qed.

Lemma fold_inv : forall res rest dn cd s0 a cnt st, inv res dn rest cd s0 a cnt ->
  foldM (step tensor (sp_tensordot R L)) (s0, a, cnt) rest = Some st ->
  exists cd', inv res (dn ++ rest) [] cd' (fst (fst st)) (snd (fst st)) (snd st).
Proof using NQ.
  intros res rest. induction rest as [|o rest IH]; intros dn cd s0 a cnt st I H.
  - cbn in H. injection H as <-. exists cd. now rewrite app_nil_r.
  - cbn [foldM] in H. destruct (step _ _ _ o) as [[[s' a'] cnt']|] eqn:E; [|discriminate]. cbn [bind] in H.
    destruct (step_inv _ _ _ _ _ _ _ _ _ I E) as (cd' & I' & _). cbn [fst snd] in I'.
    destruct (IH _ _ _ _ _ _ I' H) as (cd2 & I2). exists cd2. now rewrite <- app_assoc in I2.
Qed.

Lemma tensordot_defined : forall (a b : tensor) x y, length x = length y -> exists t, sp_tensordot R L a b x y = Some t.
Proof using.
  intros a b x y H. unfold sp_tensordot. unfold norm_axes at 1 2. rewrite !map_length, H, Nat.eqb_refl. cbn [negb]. eexists. reflexivity.
Qed.
Lemma step_defined : forall res dn o rest cd s0 a cnt, inv res dn (o :: rest) cd s0 a cnt -> (forall c, cnt c <= 2) ->
  exists st, step tensor (sp_tensordot R L) (s0, a, cnt) o = Some st.
Proof using NQ.
  intros res dn [s1 b] rest cd s0 a cnt I Hle. destruct I as [N0 Wa Hcnt Htwo Hrest Ncd Hcd Hdn Hval Htot].
  destruct (Hrest (s1, b) (or_introl eq_refl)) as [N1 Wb]. cbn [fst snd] in N1, Wb.
  unfold step. set (m := fun c => occ c s0 + occ c s1).
  assert (M : forall c, 0 <= occ c s0 <= 1 /\ 0 <= occ c s1 <= 1).
  { intros c. split; (split; [apply occ_nonneg|now apply occ_nodup]). }
  assert (Cm : forall c, cnt c = m c + total c (map fst rest) + occ c res) by (intros c; rewrite Hcnt; cbn [map fst]; rewrite total_cons; unfold m; lia).
  assert (Tn : forall c, 0 <= total c (map fst rest) /\ 0 <= occ c res) by (intros c; split; [apply total_nonneg|apply occ_nonneg]).
  assert (NB : forall c, 1 < m c -> m c = cnt c).
  { intros c Hm. specialize (Cm c). specialize (Hle c). specialize (M c). specialize (Tn c). unfold m in *. lia. }
  assert (B : forall s, existsb (fun c => (1 <? m c) && negb (m c =? cnt c)) s = false).
  { intros s. destruct (existsb _ s) eqn:X; [|reflexivity]. exfalso. apply existsb_exists in X. destruct X as (c & _ & X). apply andb_true_iff in X.
    destruct X as [X Y]. apply negb_true_iff in Y. specialize (NB c). lia. }
  rewrite !B. cbn [orb]. set (ctr := fun c => (1 <? m c) && (m c =? cnt c)).
  rewrite pick_positions.
  assert (Hp : forall c, ctr c = true -> In c s0 <-> In c s1).
  { intros c Hc. unfold ctr in Hc. apply andb_true_iff in Hc. destruct Hc as [Hc _]. specialize (M c). unfold m in Hc. rewrite !occ_in. lia. }
  assert (Ln : length (positions ctr s0) = length (sort_by Z.ltb (fun x => last_pos (filter ctr s0) (nth (Z.to_nat x) s1 nul)) (positions ctr s1))).
  { rewrite <- (Permutation_length (sort_perm _ _ _)).
    assert (G : forall s, length (positions ctr s) = length (filter ctr s)) by (intros s; rewrite <- (pick_positions ctr s); symmetry; apply pick_length).
    rewrite !G. apply Permutation_length. apply NoDup_Permutation; [now apply NoDup_filter|now apply NoDup_filter|].
    intros c. rewrite !filter_In. split; intros [A C]; (split; [apply (Hp c C); exact A|exact C]). }
  destruct (tensordot_defined a b _ _ Ln) as (t & Et).
  match goal with |- context [bind ?x _] => replace x with (Some t) by (symmetry; exact Et) end. cbn [bind]. eexists. reflexivity.
Qed.
Lemma fold_defined : forall res rest dn cd s0 a cnt, inv res dn rest cd s0 a cnt -> (forall c, cnt c <= 2) ->
  exists st, foldM (step tensor (sp_tensordot R L)) (s0, a, cnt) rest = Some st.
Proof using NQ.
  intros res rest. induction rest as [|o rest IH]; intros dn cd s0 a cnt I H; [eexists; reflexivity|].
  destruct (step_defined _ _ _ _ _ _ _ _ I H) as ([[s' a'] cnt'] & E). cbn [foldM]. rewrite E. cbn [bind].
  destruct (step_inv _ _ _ _ _ _ _ _ _ I E) as (cd' & I' & Le). cbn [fst snd] in I', Le.
  apply (IH _ _ _ _ _ I'). intros c. specialize (H c). specialize (Le c). lia.
Qed.

(** ** the final transposition *)
Lemma finish_value : forall known res s0 a r, NoDup s0 -> Permutation s0 res -> legs a s0 ->
  finish tensor (fun p => sp_transpose R L (Some p)) known res s0 a = Some r ->
  legs r res /\ forall g, at_ r res g = at_ a s0 g.
Proof using.
  intros known res s0 a r N0 P [Wa Qa] H. unfold finish in H. destruct (negb _); [discriminate|].
  destruct (list_eq_dec ascii_dec s0 res) as [->|_]; [injection H as <-; split; [split; assumption|reflexivity]|].
  destruct (mapM _ res) as [perm|] eqn:E; [|discriminate]. cbn [bind] in H. injection H as <-.
  assert (Ep : perm = map (last_pos s0) res).
  { clear - E. revert perm E. induction res as [|c l IH]; intros perm E; cbn [mapM] in E; [injection E as <-; reflexivity|].
    destruct (known c); [|discriminate]. cbn [bind] in E. destruct (mapM _ l) as [p|] eqn:X; [|discriminate]. cbn [bind] in E. injection E as <-.
    cbn [map]. f_equal. now apply IH. }
  set (n := Z.of_nat (length s0)) in *.
  assert (Pz : Permutation (zrange n) perm).
  { rewrite Ep. transitivity (map (last_pos s0) s0); [|now apply Permutation_map].
    assert (X : map (last_pos s0) s0 = zrange n); [|now rewrite X].
    rewrite <- (pick_all ascii nul s0) at 2. unfold pick. rewrite map_map. fold n. rewrite <- (map_id (zrange n)) at 2. apply map_ext_in. intros i Hi. apply in_zrange in Hi.
    rewrite last_pos_nth; [lia|exact N0|unfold n in Hi; lia]. }
  assert (Pk : pick nul perm s0 = res).
  { rewrite Ep. unfold pick. rewrite map_map. rewrite <- (map_id res) at 2. apply map_ext_in. intros c Hc.
    apply (last_pos_in s0 c N0). eapply Permutation_in; [symmetry; exact P|exact Hc]. }
  assert (Ip : forall i, In i perm -> 0 <= i < n) by (intros i Hi; apply in_zrange; eapply Permutation_in; [symmetry; exact Pz|exact Hi]).
  assert (Lp : length perm = length res) by (rewrite Ep; apply map_length).
  assert (Lr : length res = length s0) by (symmetry; now apply Permutation_length).
  assert (Rk : ranked n a).
  { intros b Hb. destruct (Wa b Hb) as [A B]. split; [exact A|]. rewrite B. rewrite shape_of_length, zrange_length. lia. }
  split; [split|].
  - intros b' Hb'. unfold sp_transpose in Hb'. apply in_map_iff in Hb'. destruct Hb' as (b & <- & Hb). cbn [fst snd]. destruct (Wa b Hb) as [A B].
    split; [rewrite pick_length; congruence|]. cbn [nshape nd_transpose]. rewrite B. rewrite (pick_shape_of L n) by assumption.
    rewrite !shape_legs by (rewrite pick_length, ?zrange_length; lia). now rewrite Pk, (pick_all ascii nul res).
  - intros b' q Hb' Hq. unfold sp_transpose in Hb'. apply in_map_iff in Hb'. destruct Hb' as (b & <- & Hb). cbn [fst] in Hq. unfold pick in Hq.
    apply in_map_iff in Hq. destruct Hq as (i & <- & Hi). apply (Qa b); [exact Hb|]. apply nth_In. apply Ip in Hi. destruct (Wa b Hb) as [A _]. lia.
  - intros g. unfold at_.
    replace (map (fun c => fst (g c)) res) with (pick (q0 L) perm (map (fun c => fst (g c)) s0)) by (rewrite pick_map by exact Ip; now rewrite Pk).
    replace (map (fun c => snd (g c)) res) with (pick 0 perm (map (fun c => snd (g c)) s0)) by (rewrite pick_map by exact Ip; now rewrite Pk).
    apply (c15_transpose_moves_elements R L n perm a Pz Rk); rewrite map_length; reflexivity.
Qed.
End Sums.
