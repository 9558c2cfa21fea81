(** Transposes and adjoints of fermion tensors, and of networks of them. *)
From Coq Require Import ZArith Bool List Lia Permutation Sorted Ring.
From Verif Require Import FermOpsModel FermOpsProofs SymModel SymProofs DictLib OptLib IndexLib RingLib BondModel FuseModel FuseProofs
  BlockModel BlockProofs SignModel SignProofs SignProps BlockProps FermTModel FermTProofs FermNetProofs FermTraceProofs FermNetwork.
Import ListNotations.
Open Scope Z_scope.

Lemma pick_rev : forall X (d : X) l, pick d (rev (zrange (Z.of_nat (length l)))) l = rev l.
Proof. intros X d l. unfold pick. rewrite map_rev. f_equal. apply pick_all. Qed.
Lemma rev_perm : forall n, Permutation (zrange n) (rev (zrange n)).
Proof. intros. apply Permutation_rev. Qed.

Section Dag.
Variable R : CRing.
Variable L : Label.
Variable fermion : bool.
Add Ring rr6 : (rth R).
Notation ll := (q0 L).
Notation tensor := (list (list L * nd R)).

(** *** transposition *)
Lemma ft_transpose_elem : forall (t : ftensor R L) n dm axes qs xs, wf_tensor R L n dm (fst t) -> Permutation (zrange n) axes ->
  Z.of_nat (length qs) = n -> Z.of_nat (length xs) = n ->
  elem R L (fst (ft_transpose R L fermion axes t)) (pick ll axes qs) (pick 0 axes xs) = signed (fermion && exchanged (odd_legs L qs) axes) (elem R L (fst t) qs xs).
Proof.
  intros t n dm axes qs xs W Hp Hq Hx. unfold ft_transpose, elem. cbn [fst]. rewrite bsum_map, <- signed_sum. apply bsum_ext. intros b Hb. destruct (W b Hb) as [K Sh]. cbn [fst snd].
  assert (Ks : Z.of_nat (length (nshape (snd b))) = n) by (rewrite Sh; unfold shape_of; rewrite map_length, combine_length, zrange_length; lia).
  destruct (tup_eqb_spec L (pick ll axes (fst b)) (pick ll axes qs)) as [E|E], (tup_eqb_spec L (fst b) qs) as [F|F].
  - subst qs. assert (PH : lab_phase L fermion (fst b) axes false = if fermion && exchanged (odd_legs L (fst b)) axes then -1 else 1).
    { rewrite lab_phase_left.
      - rewrite K, (others_perm n axes Hp), app_nil_r. reflexivity.
      - now apply (perm_nodup n).
      - intros i Hi. rewrite K. now apply (perm_range n axes). }
    rewrite PH, nget_phase. f_equal. now apply (nget_transpose R n).
  - exfalso. apply F. apply (pick_inj n axes Hp L ll); auto.
  - congruence.
  - symmetry. apply signed_0.
Qed.

(** *** adjoint *)
Variable conj : R -> R.
Hypothesis conj_0 : conj (r0 R) = r0 R.
Hypothesis conj_1 : conj (r1 R) = r1 R.
Hypothesis conj_add : forall x y, conj (radd R x y) = radd R (conj x) (conj y).
Hypothesis conj_mul : forall x y, conj (rmul R x y) = rmul R (conj x) (conj y).
Lemma conj_opp : forall x, conj (ropp R x) = ropp R (conj x).
Proof.
  intros x. assert (H : radd R (conj (ropp R x)) (conj x) = r0 R) by (rewrite <- conj_add, <- conj_0; f_equal; ring).
  transitivity (radd R (radd R (conj (ropp R x)) (conj x)) (ropp R (conj x))); [ring|]. rewrite H. ring.
Qed.
Lemma conj_signed : forall b x, conj (signed b x) = signed b (conj x).
Proof. intros [|] x; [apply conj_opp|reflexivity]. Qed.
Lemma conj_sum : forall X (l : list X) f, conj (bsum l f) = bsum l (fun x => conj (f x)).
Proof. intros X l f. induction l as [|x l IH]; [exact conj_0|]. rewrite !bsum_cons, conj_add. now rewrite IH. Qed.
Lemma nget_conj : forall (a : nd R) xs, nget (nd_map conj a) xs = conj (nget a xs).
Proof. intros a xs. unfold nget, nd_map. cbn [nshape nval]. destruct (in_shapeb (nshape a) xs); [reflexivity|now rewrite conj_0]. Qed.
Lemma ft_dagger_elem : forall (t : ftensor R L) n dm qs xs, wf_tensor R L n dm (fst t) -> Z.of_nat (length qs) = n -> Z.of_nat (length xs) = n ->
  elem R L (fst (ft_dagger R L conj t)) (rev qs) (rev xs) = conj (elem R L (fst t) qs xs).
Proof.
  intros t n dm qs xs W Hq Hx. unfold ft_dagger. cbn [fst].
  assert (Nd : forall b, In b (fst t) -> ndim R L (fst t) = n).
  { intros b Hb. unfold ndim. destruct (fst t) as [|b0 l]; [destruct Hb|]. destruct (W b0 (or_introl eq_refl)) as [K Sh]. rewrite Sh. unfold shape_of.
    rewrite map_length, combine_length, zrange_length. lia. }
  unfold elem. rewrite bsum_map, conj_sum. apply bsum_ext. intros b Hb. rewrite (Nd b Hb). destruct (W b Hb) as [K Sh]. cbn [fst snd].
  assert (Ks : Z.of_nat (length (nshape (snd b))) = n) by (rewrite Sh; unfold shape_of; rewrite map_length, combine_length, zrange_length; lia).
  rewrite <- (pick_rev L ll qs), <- (pick_rev Z 0 xs), Hq, Hx. pose proof (rev_perm n) as Hp.
  destruct (tup_eqb_spec L (pick ll (rev (zrange n)) (fst b)) (pick ll (rev (zrange n)) qs)) as [E|E], (tup_eqb_spec L (fst b) qs) as [F|F].
  - rewrite (nget_transpose R n) by auto. apply nget_conj.
  - exfalso. apply F. apply (pick_inj n _ Hp L ll); auto.
  - congruence.
  - now symmetry.
Qed.
Lemma ft_dagger_block : forall (t : ftensor R L) n dm c, wf_tensor R L n dm (fst t) -> In c (fst (ft_dagger R L conj t)) ->
  exists b, In b (fst t) /\ fst c = rev (fst b) /\ nshape (snd c) = rev (nshape (snd b)).
Proof.
  intros t n dm c W Hc. unfold ft_dagger in Hc. cbn [fst] in Hc. apply in_map_iff in Hc. destruct Hc as (b & <- & Hb). exists b. split; [exact Hb|]. cbn [fst snd nd_transpose nd_map nshape].
  assert (Nd : ndim R L (fst t) = n).
  { unfold ndim. destruct (fst t) as [|b0 l]; [destruct Hb|]. destruct (W b0 (or_introl eq_refl)) as [K Sh]. rewrite Sh. unfold shape_of.
    rewrite map_length, combine_length, zrange_length. lia. }
  destruct (W b Hb) as [K Sh].
  assert (Ks : Z.of_nat (length (nshape (snd b))) = n) by (rewrite Sh; unfold shape_of; rewrite map_length, combine_length, zrange_length; lia).
  rewrite Nd. split; [rewrite <- K|rewrite <- Ks]; apply pick_rev.
Qed.

(** *** adjoint of a network: the legs in the opposite order, named by the opposite numbers *)
Definition mirror (e : ftensor R L * list Z) : ftensor R L * list Z := (ft_dagger R L conj (fst e), map Z.opp (rev (snd e))).
Definition mpair (p : Z * Z) : Z * Z := (- snd p, - fst p).
Variable dm : Z -> L -> Z.
Variable Lq : list L.
Variable pat : Z -> bool.
Notation dm' := (fun k q => dm (- k) q).
Notation pat' := (fun k => negb (pat (- k))).

Lemma legs_mirror : forall ts, legs R L (map mirror (rev ts)) = map Z.opp (rev (legs R L ts)).
Proof.
  unfold legs. induction ts as [|e ts IH]; [reflexivity|]. cbn [rev flat_map]. rewrite map_app, flat_map_app, IH. cbn [map flat_map mirror snd]. rewrite app_nil_r, rev_app_distr, map_app. reflexivity.
Qed.
Lemma opp_sorted : forall l, StronglySorted Z.lt l -> StronglySorted Z.lt (map Z.opp (rev l)).
Proof.
  clear. induction 1 as [|x l H IH F]; cbn [rev map]; [constructor|]. rewrite map_app. apply sorted_app; [exact IH|cbn; constructor; constructor|].
  intros u v Hu [<-|[]]. apply in_map_iff in Hu. destruct Hu as (y & <- & Hy). apply in_rev in Hy. rewrite Forall_forall in F. specialize (F y Hy). lia.
Qed.
Lemma qneg_neg : forall q : L, qneg L (qneg L q) = q.
Proof. intros q. apply qsub_eq. apply qadd_neg. Qed.
Lemma qneg_0 : qneg L ll = ll.
Proof. rewrite <- (qadd_0_r L (qneg L ll)). apply qadd_neg. Qed.
Lemma qneg_add : forall a b : L, qneg L (qadd L a b) = qadd L (qneg L a) (qneg L b).
Proof.
  intros a b. symmetry. apply qsub_eq. rewrite qneg_neg. rewrite (qadd_comm L (qneg L a)), (qadd_assoc L).
  rewrite <- (qadd_assoc L (qneg L b) (qneg L a) a), qadd_neg, qadd_0_r. apply qadd_neg.
Qed.
Lemma oriented_opp : forall u (q : L), oriented L (negb u) q = qneg L (oriented L u q).
Proof. intros u q. unfold oriented. destruct u; [reflexivity|]. cbn [negb]. now rewrite qneg_neg. Qed.
Lemma lsum_neg : forall l, lsum L (map (qneg L) l) = qneg L (lsum L l).
Proof. unfold lsum. induction l as [|q l IH]; cbn [map fold_right]; [symmetry; apply qneg_0|]. now rewrite IH, qneg_add. Qed.
Lemma map_opp_rev : forall X (s : Z -> X) K, map s (map Z.opp (rev K)) = rev (map (fun k => s (- k)) K).
Proof. intros. rewrite map_map, map_rev. reflexivity. Qed.

Lemma leaf_mirror : forall e, StronglySorted Z.lt (snd e) -> leaf R L dm Lq pat e -> leaf R L dm' Lq pat' (mirror e).
Proof.
  intros [t A] HS (W & La & T & c & C). unfold leaf. cbn [mirror fst snd] in *. split; [|split; [|split]].
  - intros d Hd. destruct (ft_dagger_block t _ _ d W Hd) as (b & Hb & E1 & E2). destruct (W b Hb) as [K Sh]. rewrite map_length, rev_length. split; [rewrite E1, rev_length; exact K|].
    destruct (named_block L A (fst b) (sorted_nodup A HS)) as (s & Es); [lia|].
    assert (Sh' : nshape (snd b) = map (fun k => dm k (s k)) A).
    { rewrite Sh, Es. unfold shape_of. rewrite (map_named A _ s), (map_named A _ (fun k => dm k (s k))). rewrite <- (map_id (zrange (Z.of_nat (length A)))) at 1.
      rewrite combine_map_map, map_map. reflexivity. }
    rewrite E2, E1, Sh', Es.
    assert (E3 : rev (map s A) = map (fun k => s (- k)) (map Z.opp (rev A))) by (rewrite map_opp_rev; f_equal; apply map_ext; intros; now rewrite Z.opp_involutive).
    assert (E4 : rev (map (fun k => dm k (s k)) A) = map (fun k => dm (- k) (s (- k))) (map Z.opp (rev A))) by (rewrite map_opp_rev; f_equal; apply map_ext; intros; now rewrite Z.opp_involutive).
    rewrite E3, E4. unfold shape_of. set (A' := map Z.opp (rev A)). assert (LA : length A = length A') by (unfold A'; now rewrite map_length, rev_length). rewrite LA.
    rewrite (map_named A' _ (fun k => s (- k))), (map_named A' _ (fun k => dm (- k) (s (- k)))). rewrite <- (map_id (zrange (Z.of_nat (length A')))) at 2.
    rewrite combine_map_map, map_map. reflexivity.
  - intros d q Hd Hq. destruct (ft_dagger_block t _ _ d W Hd) as (b & Hb & E1 & _). rewrite E1 in Hq. apply in_rev in Hq. now apply (La b).
  - unfold ft_dagger. cbn [snd]. unfold flip_pattern. rewrite T, map_opp_rev, map_rev. f_equal. rewrite map_map. apply map_ext. intros k. now rewrite Z.opp_involutive.
  - exists (qneg L c). intros d Hd. destruct (ft_dagger_block t _ _ d W Hd) as (b & Hb & E1 & _). specialize (C b Hb). destruct (W b Hb) as [K _].
    destruct (named_block L A (fst b) (sorted_nodup A HS)) as (s & Es); [lia|]. rewrite E1. rewrite Es in *. rewrite lab_compute_named in C.
    assert (E3 : rev (map s A) = map (fun k => s (- k)) (map Z.opp (rev A))) by (rewrite map_opp_rev; f_equal; apply map_ext; intros; now rewrite Z.opp_involutive).
    rewrite E3, (lab_compute_named L pat'). unfold chg. rewrite map_opp_rev. rewrite <- C. unfold chg. rewrite <- lsum_neg. apply lsum_perm. rewrite map_map.
    rewrite <- Permutation_rev. apply Permutation_refl'. apply map_ext. intros k. rewrite !Z.opp_involutive. apply oriented_opp.
Qed.
Lemma fits_mirror : forall P, fits L dm pat P -> fits L dm' pat' (map mpair P).
Proof.
  intros P H i j Hij. apply in_map_iff in Hij. destruct Hij as ([u v] & E & Hp). unfold mpair in E. cbn [fst snd] in E. injection E as <- <-. destruct (H u v Hp) as [H1 H2].
  split; [intros q; cbn; rewrite !Z.opp_involutive; now rewrite H1|]. rewrite !Z.opp_involutive. now rewrite H2, negb_involutive.
Qed.
Lemma names_mirror : forall P, Permutation (names (map mpair P)) (map Z.opp (names P)).
Proof.
  induction P as [|[i j] P IH]; [constructor|]. cbn [map names flat_map app mpair fst snd].
  change (flat_map (fun p : Z * Z => [fst p; snd p]) (map mpair P)) with (names (map mpair P)). change (flat_map (fun p : Z * Z => [fst p; snd p]) P) with (names P).
  eapply Permutation_trans; [apply perm_swap|]. now do 2 apply perm_skip.
Qed.
Lemma psign_mirror : forall odd P K K', (forall i j, In (i, j) P -> odd i = odd j) -> Permutation K' (map Z.opp K) ->
  psign (fun k => odd (- k)) (map mpair P) K' = psign odd P K.
Proof.
  intros odd P K K' H HK. induction P as [|[i j] P IH]; [reflexivity|]. cbn [map mpair fst snd psign]. rewrite IH by (intros; apply H; now right).
  f_equal. rewrite Z.opp_involutive. rewrite (H i j (or_introl eq_refl)). f_equal.
  rewrite (between_perm _ _ _ (names (map mpair P) ++ K') (map Z.opp (names P ++ K))).
  2:{ rewrite map_app. apply Permutation_app; [apply names_mirror|exact HK]. }
  unfold between. rewrite map_map. f_equal. apply map_ext. intros k. rewrite Z.opp_involutive.
  destruct (Z.ltb_spec (- j) (- k)), (Z.ltb_spec (- k) (- i)), (Z.ltb_spec i k), (Z.ltb_spec k j); try lia; reflexivity.
Qed.
Lemma sumP_mirror : forall P s x F s' x', fits L dm pat P -> proper R L F -> (forall k, s' k = s (- k)) -> (forall k, x' k = x (- k)) ->
  sumP R L dm' Lq (map mpair P) s' x' F = sumP R L dm Lq P s x (fun u v => F (fun k => u (- k)) (fun k => v (- k))).
Proof.
  induction P as [|[i j] P IH]; intros s x F s' x' Ft HF Hs Hx; cbn [map mpair sumP fst snd]; [now apply HF|].
  apply bsum_ext. intros q _. rewrite Z.opp_involutive. destruct (Ft i j (or_introl eq_refl)) as [Dm _]. rewrite <- (Dm q). apply bsum_ext. intros v _.
  apply IH; auto.
  - intros u w H. apply Ft. now right.
  - intros k. unfold upd2. rewrite Hs. rewrite orb_comm. destruct (Z.eqb_spec k (- i)), (Z.eqb_spec k (- j)), (Z.eqb_spec (- k) i), (Z.eqb_spec (- k) j); try lia; reflexivity.
  - intros k. unfold upd2. rewrite Hx. rewrite orb_comm. destruct (Z.eqb_spec k (- i)), (Z.eqb_spec k (- j)), (Z.eqb_spec (- k) i), (Z.eqb_spec (- k) j); try lia; reflexivity.
Qed.
Lemma conj_sumP : forall P s x F, conj (sumP R L dm Lq P s x F) = sumP R L dm Lq P s x (fun u v => conj (F u v)).
Proof.
  induction P as [|[i j] P IH]; intros s x F; cbn [sumP]; [reflexivity|]. rewrite conj_sum. apply bsum_ext. intros q _. rewrite conj_sum. apply bsum_ext. intros v _. apply IH.
Qed.
Lemma rprod_rev : forall l, rprod R (rev l) = rprod R l.
Proof.
  induction l as [|y l IH]; [reflexivity|]. cbn [rev]. rewrite rprod_app, IH. unfold rprod. cbn [fold_right]. ring.
Qed.
Lemma amp_mirror : forall ts s x, (forall e, In e ts -> wfn R L dm (snd e) (fst (fst e))) ->
  amp R L (map mirror (rev ts)) (fun k => s (- k)) (fun k => x (- k)) = conj (amp R L ts s x).
Proof.
  intros ts s x W. unfold amp. rewrite map_map, map_rev, rprod_rev. induction ts as [|e ts IH]; [now symmetry|]. unfold rprod in *. cbn [map fold_right].
  rewrite IH by (intros; apply W; now right). rewrite conj_mul. f_equal. cbn [mirror fst snd]. rewrite !map_opp_rev.
  rewrite (map_ext (fun k => s (- - k)) s), (map_ext (fun k => x (- - k)) x) by (intros; now rewrite Z.opp_involutive).
  apply (ft_dagger_elem _ _ _ _ _ (W e (or_introl eq_refl))); now rewrite map_length.
Qed.
Lemma left_mirror : forall ts P, left R L (map mirror (rev ts)) (map mpair P) = map Z.opp (rev (left R L ts P)).
Proof.
  clear pat dm. intros ts P. unfold left. rewrite legs_mirror. generalize (legs R L ts). intros l. unfold without. 
  assert (M : forall k, memZ (- k) (names (map mpair P)) = memZ k (names P)).
  { intros k. apply eq_iff_eq_true. rewrite !memZ_in. split; intro H.
    - apply (Permutation_in _ (names_mirror P)) in H. apply in_map_iff in H. destruct H as (y & E & H). assert (y = k) by lia. now subst.
    - apply (Permutation_in _ (Permutation_sym (names_mirror P))). now apply in_map. }
  induction l as [|k l IH]; [reflexivity|]. cbn [rev filter]. rewrite map_app, filter_app, IH. cbn [map filter]. rewrite M. destruct (memZ k (names P)); cbn [negb].
  - now rewrite app_nil_r.
  - cbn [rev]. now rewrite map_app.
Qed.
Lemma value_mirror : forall ts P s x, Forall (leaf R L dm Lq pat) ts -> fits L dm pat P -> NoDup (names P) ->
  value R L fermion dm' Lq (map mirror (rev ts)) (map mpair P) (fun k => s (- k)) (fun k => x (- k)) = conj (value R L fermion dm Lq ts P s x).
Proof.
  intros ts P s x Lf Ft NP. unfold value. rewrite conj_sumP.
  rewrite (sumP_mirror P s x); [|exact Ft| |intros; reflexivity|intros; reflexivity].
  2:{ intros u u' v v' Hu Hv. cbv beta. f_equal; [|apply amp_ext; auto]. f_equal. apply psign_ext. intros. unfold par. now rewrite Hu. }
  apply sumP_ext; [exact NP|]. intros s' x' _ Sm. rewrite conj_signed. f_equal.
  - f_equal. rewrite left_mirror. change (par L (fun k => s' (- k))) with (fun k => par L s' (- k)). apply psign_mirror.
    + intros i j H. unfold par. f_equal. now apply Sm.
    + apply Permutation_map. apply Permutation_sym, Permutation_rev.
  - apply amp_mirror. intros e He. rewrite Forall_forall in Lf. now apply Lf.
Qed.
End Dag.
