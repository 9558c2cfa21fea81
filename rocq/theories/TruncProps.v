(** C24, C25, C47: truncation of singular values. *)
From Coq Require Import ZArith Bool List Lia Permutation Sorted Ring ZifyBool.
From Verif Require Import DictLib IndexLib RingLib OrdLib TruncModel TruncProofs TrimProofs.
Import ListNotations.
Open Scope Z_scope.

(** ** specification: singular values s, kept positions as a list of (sector, positions) *)
(* value number j of sector i *)
Definition val {K : ORing} (s : list (list K)) (i j : Z) : K := nth (Z.to_nat j) (nth (Z.to_nat i) s []) (r0 K).
Definition valid {A : Type} (s : list (list A)) (i j : Z) : Prop :=
  0 <= i < Z.of_nat (length s) /\ 0 <= j < Z.of_nat (length (nth (Z.to_nat i) s [])).
Definition kept (gs : list (Z * list Z)) (i j : Z) : Prop := exists g, In (i, g) gs /\ In j g.
Definition keptB (gs : list (Z * list Z)) (i j : Z) : bool := existsb (fun g => (fst g =? i) && existsb (Z.eqb j) (snd g)) gs.
Definition number_kept (gs : list (Z * list Z)) : Z := zsum (map (fun g => Z.of_nat (length (snd g))) gs).
(* sum of f over the positions satisfying p *)
Definition total {K : ORing} (s : list (list K)) (p : Z -> Z -> bool) (f : K -> K) : K :=
  bsum (zrange (Z.of_nat (length s))) (fun i => bsum (zrange (Z.of_nat (length (nth (Z.to_nat i) s []))))
    (fun j => if p i j then f (val s i j) else r0 K)).
(* v for eigenvalues, v * v for singular values *)
Definition wt (K : ORing) (eig : bool) (v : K) : K := if eig then v else rmul K v v.

Lemma total_lost : forall (K : ORing) w (s : list (list K)) gs, lost K w s gs = total s (fun i j => negb (keptB gs i j)) w.
Proof.
  intros. unfold lost, total. apply bsum_ext. intros i _. apply bsum_ext. intros j _. unfold val, blk, at_.
  change (keptb gs i j) with (keptB gs i j). now destruct (keptB gs i j).
Qed.

Section C24.
Variable K : ORing.
Add Ring KR : (rth K).
Variable sqrtK : K -> K.
Variable eig : bool.
Variable m : Z.
Variables cutoff max_dw : K.
Variable s : list (list K).
Variables (gs : list (Z * list Z)) (err : K).
Hypothesis run : truncate_svd K sqrtK eig m cutoff max_dw s = (gs, err).
Notation D := (sort_desc K (entries K s)).

Lemma select_prefix : exists k, select K sqrtK eig m cutoff max_dw s = firstn k D.
Proof.
  unfold select. destruct (cut_dw_prefix K (@rev (sv K)) (weight K eig) max_dw D) as [k1 E1]. rewrite E1.
  destruct (cut_value_prefix K cutoff (if eig then cutoff else sqrtK cutoff) (firstn k1 D)) as [k2 E2]; [apply SS_firstn, sort_desc_sorted|]. rewrite E2.
  destruct (cut_count_prefix K m (firstn k2 (firstn k1 D))) as [k3 E3]. rewrite E3, !firstn_firstn. eauto.
Qed.
Lemma run_gs : gs = group_pos K (sort_pos K (select K sqrtK eig m cutoff max_dw s)) /\ err = trunc_error K (weight K eig) s gs.
Proof. unfold truncate_svd in run. now injection run as <- <-. Qed.

(* the kept values of each sector form an ascending list of valid positions; sectors ascend; none is empty *)
Theorem c24_form : StronglySorted Z.lt (map fst gs) /\
  forall i g, In (i, g) gs -> g <> [] /\ StronglySorted Z.lt g /\ forall j, In j g -> valid s i j.
Proof.
  destruct run_gs as [-> _]. destruct select_prefix as [k ->]. destruct (gs_sorted K s k) as [H1 H2]. split; [exact H1|].
  intros i g Hg. destruct (H2 i g Hg) as [H3 H4]. destruct (gs_range K s k i g Hg) as [H5 H6]. split; [exact H3|]. split; [exact H4|].
  intros j Hj. split; [exact H5|]. now apply H6.
Qed.
(* no discarded value exceeds a kept one *)
Theorem c24_largest_kept : forall i j i' j', kept gs i j -> valid s i' j' -> ~ kept gs i' j' -> ole (val s i' j') (val s i j).
Proof.
  intros i j i' j' Hk [Hi Hj] Hn. destruct run_gs as [E _]. destruct select_prefix as [k Ek]. rewrite Ek in E. subst gs.
  apply (prefix_order K s k); auto.
  - now apply keptb_iff.
  - apply not_true_iff_false. intro H. apply keptb_iff in H. auto.
Qed.
Theorem c24_bond_limit : 0 <= m -> number_kept gs <= m.
Proof.
  intros Hm. destruct run_gs as [-> _]. unfold number_kept. rewrite group_pos_total. unfold sort_pos.
  rewrite <- (Permutation_length (sort_perm _ _ _)). now apply cut_count_le.
Qed.
Lemma kept_in_select : forall i j, kept gs i j -> In (i, j, val s i j) (select K sqrtK eig m cutoff max_dw s).
Proof.
  intros i j Hk. destruct run_gs as [E _]. destruct select_prefix as [k Ek]. rewrite Ek in *. rewrite E in Hk. apply keptb_iff in Hk. now apply kept_value in Hk.
Qed.
Theorem c24_cutoff : cutoff <> r0 K -> forall i j, kept gs i j -> ole (if eig then cutoff else sqrtK cutoff) (val s i j).
Proof.
  intros Hc i j Hk. apply kept_in_select in Hk. unfold select in Hk.
  assert (Hk': In (i, j, val s i j) (cut_value K cutoff (if eig then cutoff else sqrtK cutoff) (cut_dw K (@rev (sv K)) (weight K eig) max_dw D))).
  { destruct (cut_count_prefix K m (cut_value K cutoff (if eig then cutoff else sqrtK cutoff) (cut_dw K (@rev (sv K)) (weight K eig) max_dw D))) as [k Ek].
    rewrite Ek in Hk. now apply in_firstn in Hk. }
  unfold cut_value in Hk'. destruct (oeqb_spec K cutoff (r0 K)); [tauto|]. now apply filter_In in Hk' as [_ Hk'].
Qed.
Theorem c24_cutoff_squared : eig = false -> cutoff <> r0 K -> ole (r0 K) (sqrtK cutoff) -> rmul K (sqrtK cutoff) (sqrtK cutoff) = cutoff ->
  forall i j, kept gs i j -> ole cutoff (rmul K (val s i j) (val s i j)).
Proof.
  intros He Hc H0 Hs i j Hk. pose proof (c24_cutoff Hc i j Hk) as H. rewrite He in H. rewrite <- Hs at 1. now apply ole_mul2.
Qed.
(* the error is the weight of everything that was discarded *)
Theorem c24_error : err = total s (fun i j => negb (keptB gs i j)) (wt K eig).
Proof.
  destruct run_gs as [E ->]. rewrite <- (total_lost K (wt K eig)). destruct select_prefix as [k Ek]. rewrite Ek in E. rewrite E. apply gs_error.
Qed.
(* without a limit on the discarded weight, a value is discarded only for a reason *)
Theorem c24_minimal : max_dw = r0 K -> -1 <= m -> forall i j, valid s i j -> ~ kept gs i j ->
  (cutoff <> r0 K /\ olt (val s i j) (if eig then cutoff else sqrtK cutoff)) \/ number_kept gs = m.
Proof.
  intros Hd Hm i j [Hi Hj] Hn. pose proof run_gs as [E _].
  assert (HD: In (i, j, val s i j) D) by (now apply in_D).
  assert (Hns: ~ In (i, j, val s i j) (select K sqrtK eig m cutoff max_dw s)).
  { intro H. apply Hn. rewrite E. apply group_pos_in. apply (Permutation_in _ (Permutation_map (pos K) (sort_perm _ _ _))). now apply (in_map (pos K)) in H. }
  assert (Hnk: number_kept gs = Z.of_nat (length (select K sqrtK eig m cutoff max_dw s))).
  { rewrite E. unfold number_kept. rewrite group_pos_total. unfold sort_pos. now rewrite <- (Permutation_length (sort_perm _ _ _)). }
  unfold select, cut_dw in *. destruct (oeqb_spec K max_dw (r0 K)); [|tauto].
  set (c := if eig then cutoff else sqrtK cutoff) in *. set (V := cut_value K cutoff c D) in *.
  assert (Hv: In (i, j, val s i j) V \/ (cutoff <> r0 K /\ olt (val s i j) c)).
  { unfold V, cut_value. destruct (oeqb_spec K cutoff (r0 K)); [now left|]. destruct (ole_or_olt K c (val s i j)) as [H|H].
    - left. apply filter_In. split; auto. - right. auto. }
  destruct Hv as [Hv|Hv]; [|now left]. right. rewrite Hnk. unfold cut_count, py_take in *. destruct (Z.eqb_spec m (-1)); [tauto|].
  destruct (Z.ltb_spec m 0); [lia|]. rewrite firstn_length. destruct (le_lt_dec (length V) (Z.to_nat m)); [|lia].
  exfalso. apply Hns. rewrite firstn_all2 by auto. auto.
Qed.
Lemma wt_mono : forall a b : K, ole (r0 K) a -> ole a b -> ole (weight K eig a) (weight K eig b).
Proof. intros a b Ha Hab. unfold weight, square. destruct eig; auto. apply ole_mul2; auto. Qed.
(* with a limit on the discarded weight only: within the limit, and discarding any further value would exceed it *)
Theorem c24_discarded_weight : max_dw <> r0 K -> cutoff = r0 K -> m = -1 -> (forall i j, valid s i j -> ole (r0 K) (val s i j)) ->
  (exists i j, valid s i j /\ ole (wt K eig (val s i j)) max_dw) ->
  ole err max_dw /\ forall i j, kept gs i j -> olt max_dw (radd K err (wt K eig (val s i j))).
Proof.
  intros Hd Hc Hm Hpos (i0 & j0 & [Hv0 Hv0'] & Hw0). pose proof run_gs as [E Herr].
  set (p := dw_count K (weight K eig) max_dw (r0 K) (rev D)).
  assert (HD0: In (i0, j0, val s i0 j0) D) by (now apply in_D).
  assert (Hsorted: StronglySorted (ge_v K) D) by apply sort_desc_sorted.
  assert (HposD: forall x, In x D -> ole (r0 K) (sv_v x)).
  { intros [[i j] v] Hx. apply (Permutation_in _ (Permutation_sym (D_perm K s))) in Hx. apply entries_in in Hx as (H1 & H2 & ->). now apply (Hpos i j). }
  assert (Hp: 0 < p).
  { destruct (rev D) as [|x r] eqn:Er; [apply (f_equal (@rev (sv K))) in Er; rewrite rev_involutive in Er; rewrite Er in HD0; destruct HD0|].
    assert (ED: D = rev r ++ [x]) by (rewrite <- (rev_involutive D), Er; reflexivity).
    unfold p. apply (dw_count_pos K _ _ _ _ x r); auto. rewrite (Radd_0_l (rth K)). eapply ole_trans; [|exact Hw0].
    apply wt_mono; [apply HposD; rewrite ED; apply in_or_app; right; now left|].
    rewrite ED in HD0, Hsorted. apply in_app_or in HD0 as [H|[H|[]]]; [|subst x; apply ole_refl].
    apply SS_app in Hsorted as (_ & _ & Hs). apply (Hs _ x) in H; [exact H|now left]. }
  pose proof (dw_count_range K (weight K eig) max_dw (rev D) (r0 K)) as Hr. fold p in Hr. rewrite rev_length in Hr.
  destruct (dw_count_sum K (weight K eig) max_dw (rev D) (r0 K)) as [S1 S2]. fold p in S1, S2.
  set (k := (length D - Z.to_nat p)%nat).
  assert (Ek: select K sqrtK eig m cutoff max_dw s = firstn k D).
  { unfold select, cut_dw, cut_value, cut_count. destruct (oeqb_spec K max_dw (r0 K)); [tauto|]. destruct (oeqb_spec K cutoff (r0 K)); [|tauto].
    rewrite Hm. cbn [Z.eqb Pos.eqb]. fold p. now apply py_take_neg. }
  rewrite Ek in E.
  assert (Esum: bsum (firstn (Z.to_nat p) (rev D)) (fun x : sv K => weight K eig (sv_v x)) = err).
  { rewrite Herr, E, gs_error, gs_lost. apply bsum_perm. rewrite firstn_rev. fold k. apply Permutation_sym, Permutation_rev. }
  rewrite Esum in S1, S2. rewrite (Radd_0_l (rth K)) in S1, S2. split; [apply S1; lia|].
  intros i j Hk. rewrite E in Hk. apply keptb_iff in Hk. apply kept_value in Hk. change (at_ K (blk K s i) j) with (val s i j) in Hk.
  assert (Hk0: (0 < k)%nat) by (destruct k; [destruct Hk|lia]).
  destruct (nth_error (rev D) (Z.to_nat p)) as [y|] eqn:Ey; [|apply nth_error_None in Ey; rewrite rev_length in Ey; lia].
  specialize (S2 y eq_refl). eapply olt_le_trans; [exact S2|]. apply ole_add_l.
  (* y is the last kept entry *)
  assert (Hy: exists r, firstn k D = r ++ [y]).
  { rewrite (nth_error_nth' _ y) in Ey by (rewrite rev_length; lia). injection Ey as Ey. rewrite rev_nth in Ey by lia.
    replace (length D - S (Z.to_nat p))%nat with (pred k) in Ey by lia. exists (firstn (pred k) D). rewrite <- Ey at 1.
    replace k with (S (pred k)) at 1 by lia. clear -Hk0. assert (Hlt: (pred k < length D)%nat) by lia. revert Hlt. generalize (pred k) D. clear.
    induction n; destruct l; cbn; intros; try lia; auto. f_equal. apply IHn. lia. }
  destruct Hy as [r Er].
  assert (HyD: In y D) by (apply (in_firstn _ k); rewrite Er; apply in_or_app; right; now left).
  apply wt_mono; [now apply HposD|].
  assert (Sf: StronglySorted (ge_v K) (firstn k D)) by (now apply SS_firstn). rewrite Er in Hk, Sf. apply SS_app in Sf as (_ & _ & Sf).
  apply in_app_or in Hk as [Hk|[Hk|[]]]; [|subst y; apply ole_refl]. apply (Sf _ y) in Hk; [exact Hk|now left].
Qed.
End C24.

(** ** the tensors *)
Section C24T.
Variable K : ORing.
Variable sqrtK : K -> K.
Variable R : CRing.
Variable L : Type.
Variable leqb : L -> L -> bool.
Hypothesis leqb_spec : forall a b, reflect (a = b) (leqb a b).
Variable big : list L * nd R -> bool.
Notation block := (list L * nd R)%type.

(* l and r hold, sector after sector in the order of s, the blocks LB i and RB i (at least one per sector) whose label on the
   bond is the label of sector i: after truncation they hold the same blocks of the kept sectors, sliced to the kept positions *)
Theorem c24_tensors : forall eig m cutoff max_dw slabs s (LB RB : list (list block)) l' s' r' err,
  NoDup slabs -> length s = length slabs -> length LB = length slabs -> length RB = length slabs ->
  (forall i q b, nth_error slabs i = Some q -> In b (nth i LB []) -> exists qs, fst b = qs ++ [q]) ->
  (forall i q b, nth_error slabs i = Some q -> In b (nth i RB []) -> exists qs, fst b = q :: qs) ->
  (forall i, (i < length slabs)%nat -> nth i LB [] <> [] /\ nth i RB [] <> []) ->
  truncate_tensors K sqrtK R L leqb big eig m cutoff max_dw (concat LB) slabs s (concat RB) = (l', s', r', err) ->
  exists gs, truncate_svd K sqrtK eig m cutoff max_dw s = (gs, err) /\
    l' = filter big (flat_map (fun g => map (last_at R L (snd g)) (nth (Z.to_nat (fst g)) LB [])) gs) /\
    r' = filter big (flat_map (fun g => map (first_at R L (snd g)) (nth (Z.to_nat (fst g)) RB [])) gs) /\
    map fst s' = flat_map (fun g => match nth_error slabs (Z.to_nat (fst g)) with Some q => [q] | None => [] end) gs /\
    map snd s' = map (fun g => map (val s (fst g)) (snd g)) gs.
Proof.
  intros eig m cutoff max_dw slabs s LB RB l' s' r' err Hn Hs HL HR HlabL HlabR Hne H. unfold truncate_tensors, pick_values in H.
  destruct (truncate_svd K sqrtK eig m cutoff max_dw s) as [gs e] eqn:E. injection H as <- <- <- <-. exists gs.
  destruct (c24_form K sqrtK eig m cutoff max_dw s gs e E) as [F1 F2].
  assert (F3: forall i, In i (map fst gs) -> 0 <= i < Z.of_nat (length slabs)).
  { intros i Hi. apply in_map_iff in Hi as ([i' g] & <- & Hg). destruct (F2 _ _ Hg) as (G1 & _ & G2). destruct g as [|j g]; [congruence|].
    destruct (G2 j (or_introl eq_refl)) as [G3 _]. cbn. lia. }
  split; [reflexivity|]. split; [|split; [|split]].
  - f_equal. rewrite <- (pick_blocks_spec R L leqb leqb_spec (last_opt L) (last_at R L) slabs LB gs 0); auto.
    + intros i q b Hq Hb. destruct (HlabL i q b Hq Hb) as [qs ->]. unfold last_opt. rewrite app_length. cbn [length]. replace (pred (length qs + 1)) with (length qs) by lia.
      rewrite nth_error_app2 by lia. now rewrite Nat.sub_diag.
    + intros i Hi. apply Hne. lia.
  - f_equal. rewrite <- (pick_blocks_spec R L leqb leqb_spec (first_opt L) (first_at R L) slabs RB gs 0); auto.
    + intros i q b Hq Hb. destruct (HlabR i q b Hq Hb) as [qs ->]. reflexivity.
    + intros i Hi. apply Hne. lia.
  - clear -F3. induction gs as [|[i g] gs IH]; [reflexivity|]. cbn [flat_map fst snd]. rewrite map_app, IH by (intros; apply F3; now right). now destruct (nth_error slabs (Z.to_nat i)).
  - clear -F3. induction gs as [|[i g] gs IH]; [reflexivity|]. cbn [flat_map map fst snd]. rewrite map_app, IH by (intros; apply F3; now right).
    assert (Hi: 0 <= i < Z.of_nat (length slabs)) by (apply F3; now left). destruct (nth_error slabs (Z.to_nat i)) eqn:Eq; [reflexivity|]. apply nth_error_None in Eq. lia.
Qed.
(* slicing: position k of the new bond is position gl[k] of the old one *)
Theorem c24_slices : forall gl (b : block) n sh xs k, 0 <= k < Z.of_nat (length gl) -> (forall j, In j gl -> 0 <= j < n) ->
  (nshape (snd b) = sh ++ [n] -> in_shape sh xs ->
     nget (snd (last_at R L gl b)) (xs ++ [k]) = nget (snd b) (xs ++ [nth (Z.to_nat k) gl 0]) /\ nshape (snd (last_at R L gl b)) = sh ++ [Z.of_nat (length gl)]) /\
  (nshape (snd b) = n :: sh -> in_shape sh xs ->
     nget (snd (first_at R L gl b)) (k :: xs) = nget (snd b) (nth (Z.to_nat k) gl 0 :: xs) /\ nshape (snd (first_at R L gl b)) = Z.of_nat (length gl) :: sh).
Proof.
  intros gl [q a] n sh xs k Hk Hgl. assert (Hj: 0 <= nth (Z.to_nat k) gl 0 < n) by (apply Hgl, nth_In; lia). cbn [snd last_at first_at fst]. split.
  - intros Hsh Hxs. rewrite Hsh, removelast_last. split; [|reflexivity]. rewrite !nget_in; cbn [nshape nval].
    + now rewrite removelast_last, last_last.
    + rewrite Hsh. apply in_shape_app; auto. repeat constructor; lia.
    + apply in_shape_app; auto. repeat constructor; lia.
  - intros Hsh Hxs. rewrite Hsh. cbn [tl]. split; [|reflexivity]. rewrite !nget_in; cbn [nshape nval hd tl]; auto.
    + rewrite Hsh. constructor; auto.
    + constructor; auto; lia.
Qed.
End C24T.

(** ** FermionTensor.truncate_svd *)
Theorem c24_fermion : forall (K : ORing) m cutoff (s : list (list K)), truncate_svd_fermion K m cutoff (r0 K) s = truncate_svd K (fun c => c) false m cutoff (r0 K) s.
Proof.
  intros. unfold truncate_svd_fermion, truncate_svd, select_fermion, select, cut_dw, weight. destruct (oeqb_spec K (r0 K) (r0 K)); [reflexivity|tauto].
Qed.

(** ** the stated limit on the discarded weight does not hold *)
Definition Zsqrt : Z_oring -> Z_oring := Z.sqrt.
(* the weight of every value exceeds max_dw: nothing may be discarded, everything is *)
Theorem c24_max_dw_refuted : exists (s : list (list Z_oring)) max_dw gs err, truncate_svd Z_oring Zsqrt false (-1) 0 max_dw s = (gs, err) /\
  0 < max_dw /\ gs = [] /\ max_dw < err.
Proof. exists [[3; 2]; [2]], 1, [], 17. vm_compute. auto. Qed.
(* FermionTensor: the weight of the small values is within max_dw, the large one is discarded with them *)
Theorem c24_fermion_max_dw_refuted : exists (s : list (list Z_oring)) max_dw gs err, truncate_svd_fermion Z_oring (-1) 0 max_dw s = (gs, err) /\
  (exists i j, valid s i j /\ val s i j * val s i j <= max_dw) /\ gs = [] /\ max_dw < err.
Proof.
  exists [[3; 1]], 2, [], 10. split; [reflexivity|]. split; [|split; [reflexivity|lia]]. exists 0, 1. split; [split; cbn; lia|]. vm_compute. discriminate.
Qed.

Example c24_ex1 : truncate_svd Z_oring Zsqrt false 3 0 0 [[5; 2; 1]; [4; 3]; [1]] = ([(0, [0]); (1, [0; 1])], 6).
Proof. reflexivity. Qed.
Example c24_ex2 : truncate_svd Z_oring Zsqrt false (-1) 4 0 [[5; 2; 1]; [4; 3]; [1]] = ([(0, [0; 1]); (1, [0; 1])], 2).
Proof. reflexivity. Qed.
Example c24_ex3 : truncate_svd Z_oring Zsqrt false (-1) 0 7 [[5; 2; 1]; [4; 3]; [1]] = ([(0, [0]); (1, [0; 1])], 6).
Proof. reflexivity. Qed.
Example c24_ex4 : truncate_svd Z_oring Zsqrt true (-1) 0 7 [[5; 2; 1]; [4; 3]; [1]] = ([(0, [0]); (1, [0])], 7).
Proof. reflexivity. Qed.
Definition ex_blk (q : list Z) (sh : list Z) (f : list Z -> Z) : list Z * nd Z_ring := (q, @mkNd Z_ring sh f).
Example c24_ex5 : let '(l, s, r, e) := truncate_tensors Z_oring Zsqrt Z_ring Z Z.eqb (fun _ => true) false 2 0 0
    [ex_blk [7; 0] [2; 2] (fun x => 10 * nth 0 x 0 + nth 1 x 0); ex_blk [8; 1] [1; 1] (fun _ => 5)] [0; 1] [[9; 1]; [4]]
    [ex_blk [0; 7] [2; 1] (fun x => 3 + nth 0 x 0); ex_blk [1; 8] [1; 1] (fun _ => 6)] in
  (map fst l, map (fun b => nshape (snd b)) l, map (fun b => nget (snd b) [0; 0]) l, s, map fst r, e)
  = ([[7; 0]; [8; 1]], [[2; 1]; [1; 1]], [0; 5], [(0, [9]); (1, [4])], [[0; 7]; [1; 8]], 1).
Proof. reflexivity. Qed.

(** ** C25: _trim_singular_vals; n = numbers of kept values, the first n_i values of sector i are kept *)
Definition pw (K : ORing) (mode : Z) (v : K) : K := if (mode =? 3) || (mode =? 4) then rmul K v v else v.
Definition num (n : list Z) (i : Z) : Z := nth (Z.to_nat i) n 0.
Definition descending {K : ORing} (s : list (list K)) : Prop :=
  forall i j j', valid s i j -> valid s i j' -> j <= j' -> ole (val s i j') (val s i j).
Definition nonneg {K : ORing} (s : list (list K)) : Prop := forall i j, valid s i j -> ole (r0 K) (val s i j).
(* the limit, when there is one *)
Definition limit (max_bond : option Z) (b : Z) : Prop := max_bond = Some b /\ 0 < b.

Section C25.
Variable K : ORing.
Add Ring KR2 : (rth K).
Variable argsort : list K -> list Z.
(* np.argsort: some permutation of the positions that puts the values in ascending order *)
Hypothesis argsort_perm : forall l, Permutation (argsort l) (zrange (Z.of_nat (length l))).
Hypothesis argsort_sorted : forall l, StronglySorted (fun a b => ole (nth (Z.to_nat a) l (r0 K)) (nth (Z.to_nat b) l (r0 K))) (argsort l).
Notation sv := (sv K). Notation entries := (entries K).

Lemma with_bond_spec : forall mb b, with_bond mb = Some b <-> limit mb b.
Proof.
  intros [x|] b; cbn; unfold limit; [|split; [discriminate|intros [H _]; discriminate]]. destruct (Z.ltb_spec 0 x); split; try discriminate.
  - intros [= ->]. auto. - intros [[= ->] _]. auto. - intros [[= ->] ?]. lia.
Qed.
Lemma entries_val : forall s x, In x (entries s) -> valid s (sv_i x) (sv_j x) /\ sv_v x = val s (sv_i x) (sv_j x).
Proof. intros s [[i j] v] H. apply entries_in in H as (H1 & H2 & ->). split; [split; auto|reflexivity]. Qed.
Lemma desc_ok : forall s w, descending s -> (forall a b, (exists i j, valid s i j /\ a = val s i j) -> (exists i j, valid s i j /\ b = val s i j) -> ole a b -> ole (w a) (w b)) ->
  forall b, In b s -> desc_by K w b.
Proof.
  intros s w Hd Hw b Hb. apply (In_nth _ _ []) in Hb as (i & Hi & <-).
  assert (G: forall l p, nth i s [] = p ++ l -> desc_by K w l).
  { induction l as [|a l IH]; intros p E; [constructor|].
    assert (El: (length (nth i s []) = length p + S (length l))%nat) by (rewrite E; now rewrite app_length).
    assert (Hn: forall m, nth m (a :: l) (r0 K) = val s (Z.of_nat i) (Z.of_nat (length p + m))).
    { intros m. unfold val. rewrite !Nat2Z.id. rewrite E. rewrite app_nth2 by lia. f_equal. lia. }
    constructor.
    - apply (IH (p ++ [a])). now rewrite <- app_assoc.
    - apply Forall_forall. intros y Hy. apply (In_nth _ _ (r0 K)) in Hy as (m & Hm & <-).
      change (nth m l (r0 K)) with (nth (S m) (a :: l) (r0 K)). change a with (nth 0 (a :: l) (r0 K)) at 2. rewrite !Hn.
      assert (V: forall m', (m' < S (length l))%nat -> valid s (Z.of_nat i) (Z.of_nat (length p + m'))) by (intros m' Hm'; unfold valid; rewrite Nat2Z.id; lia).
      apply Hw; [exists (Z.of_nat i), (Z.of_nat (length p + S m)); split; [apply V; lia|auto]|exists (Z.of_nat i), (Z.of_nat (length p + 0)); split; [apply V; lia|auto]|].
      apply Hd; [apply V; lia|apply V; lia|lia]. }
  apply (G _ []). reflexivity.
Qed.
Definition splits (w : K -> K) (s : list (list K)) (n : list Z) (T U : list sv) : Prop :=
  Permutation (T ++ U) (entries s) /\ (forall t u, In t T -> In u U -> ole (w (sv_v t)) (w (sv_v u))) /\ length n = length s /\
  (forall b, 0 <= b < Z.of_nat (length s) -> nth (Z.to_nat b) n 0 = Z.of_nat (length (filter (in_b K b) U))).
Lemma map_id_eq : forall l : list K, map (fun x => x) l = l. Proof. intros. apply map_id. Qed.
Lemma total_sizes : forall s (T U : list sv), Permutation (T ++ U) (entries s) -> (length T + length U = length (concat s))%nat.
Proof. intros s T U H. apply Permutation_length in H. now rewrite app_length, entries_length in H. Qed.

Lemma trim_12 : forall s cutoff mode mb n, mode = 1 \/ mode = 2 -> trim K argsort s cutoff mode mb = Some n ->
  exists c T U, (if mode =? 1 then Some cutoff else option_map (rmul K cutoff) (kmax K (concat s))) = Some c /\ splits (fun x => x) s n T U /\
    (forall u, In u U -> olt c (sv_v u)) /\ (forall b, limit mb b -> Z.of_nat (length U) <= b) /\
    ((forall t, In t T -> ole (sv_v t) c) \/ exists b, limit mb b /\ Z.of_nat (length U) = b).
Proof.
  intros s cutoff mode mb n Hm H. unfold trim in H.
  assert (E: (mode =? 1) || (mode =? 2) = true) by lia. rewrite E in H. clear E.
  destruct (if mode =? 1 then Some cutoff else option_map (rmul K cutoff) (kmax K (concat s))) as [c|]; [|discriminate]. exists c.
  set (A := TrimProofs.A K argsort (fun x => x) s).
  pose proof (A_perm K argsort argsort_perm (fun x => x) s) as HP. pose proof (A_sorted K argsort argsort_perm argsort_sorted (fun x => x) s) as HS. fold A in HP, HS.
  pose proof (A_length K argsort argsort_perm (fun x => x) s) as HL. fold A in HL.
  destruct (filter_neg_skip sv (fun x y => ole (sv_v x) (sv_v y)) (fun x => oleb K (sv_v x) c) A) as [F1 F2]; [intros a b Hab Hb; eapply ole_trans; eauto|exact HS|].
  set (N0 := length (filter (fun x : sv => oleb K (sv_v x) c) A)) in *.
  assert (HN0: (N0 <= length A)%nat) by (unfold N0; clear; induction A; cbn; auto; destruct (oleb K (sv_v a) c); cbn; lia).
  assert (HU: forall u, In u (skipn N0 A) -> olt c (sv_v u)).
  { intros u Hu. rewrite <- F1 in Hu. apply filter_In in Hu as [_ Hu]. now apply negb_true_iff in Hu. }
  assert (HT: forall t, In t (firstn N0 A) -> ole (sv_v t) c).
  { intros t Ht. rewrite <- F2 in Ht. now apply filter_In in Ht as [_ Ht]. }
  assert (Hcnt: forall b, 0 <= b < Z.of_nat (length s) -> nth (Z.to_nat b) (map (count_gt K c) s) 0 = Z.of_nat (length (filter (in_b K b) (skipn N0 A)))).
  { intros b Hb. rewrite count_gt_entries by auto. f_equal. rewrite <- F1. unfold oltb.
    apply perm_filter_len. clear -HP. apply Permutation_sym in HP. induction HP; cbn; auto; repeat match goal with |- context[oleb K (sv_v ?z) c] => destruct (oleb K (sv_v z) c) end; cbn; auto; try constructor; auto. eapply perm_trans; eauto. }
  assert (Hchi: zsum (map (count_gt K c) s) = Z.of_nat (length (skipn N0 A))).
  { rewrite zsum_count_gt. f_equal. rewrite <- map_v_entries, <- F1. rewrite <- (Permutation_length (Permutation_map sv_v HP)) || idtac.
    transitivity (length (filter (fun x : sv => oltb c (sv_v x)) (entries s))).
    - clear. induction (entries s) as [|x l IH]; cbn; auto. destruct (oltb c (sv_v x)); cbn; auto.
    - rewrite <- (perm_filter_len _ _ _ _ HP). reflexivity. }
  destruct (with_bond mb) as [b|] eqn:Eb.
  - apply with_bond_spec in Eb. destruct (Z.ltb_spec 0 (zsum (map (count_gt K c) s) - b)) as [Hx|Hx].
    + injection H as <-. set (N := (length A - Z.to_nat b)%nat). destruct Eb as [Eb Hb0].
      assert (HNN: (N0 <= N)%nat) by (rewrite skipn_length in Hchi; lia).
      exists (firstn N A), (skipn N A). split; [reflexivity|].
      pose proof (drop_spec K argsort argsort_perm (fun x => x) s (Z.of_nat (length (concat s)) - zsum (map (count_gt K c) s)) (zsum (map (count_gt K c) s) - b) (map (count_gt K c) s)) as DS.
      rewrite map_id_eq in DS. fold A in DS. rewrite skipn_length in Hchi. destruct DS as [D1 D2]; try lia; [now rewrite map_length|].
      split; [|split; [|split]].
      * split; [now rewrite firstn_skipn|]. split; [|split].
        -- intros t u. apply (proj2 (A_split K argsort argsort_perm argsort_sorted (fun x => x) s N)).
        -- exact D1.
        -- intros b' Hb'. rewrite D2, Hcnt by auto.
           replace (Z.to_nat (Z.of_nat (length (concat s)) - zsum (map (count_gt K c) s))) with N0 by lia.
           replace (Z.to_nat (zsum (map (count_gt K c) s) - b)) with (N - N0)%nat by lia.
           rewrite <- (firstn_skipn (N - N0) (skipn N0 A)) at 1. rewrite filter_len_app. rewrite skipn_plus. replace (N0 + (N - N0))%nat with N by lia. lia.
      * intros u Hu. apply HU. replace N with (N0 + (N - N0))%nat in Hu by lia. rewrite <- skipn_plus in Hu. now apply in_skipn in Hu.
      * intros b' [Hb' _]. rewrite skipn_length. assert (b' = b) by congruence. lia.
      * right. exists b. split; [split; auto|]. rewrite skipn_length. lia.
    + injection H as <-. exists (firstn N0 A), (skipn N0 A). split; [reflexivity|]. split; [|split; [|split]]; auto.
      * split; [now rewrite firstn_skipn|]. split; [|split]; auto; [|now rewrite map_length]. intros t u. apply (proj2 (A_split K argsort argsort_perm argsort_sorted (fun x => x) s N0)).
      * intros b' Hb'. unfold limit in *. assert (b' = b) by (destruct Hb', Eb; congruence). lia.
  - injection H as <-. exists (firstn N0 A), (skipn N0 A). split; [reflexivity|]. split; [|split; [|split]]; auto.
    + split; [now rewrite firstn_skipn|]. split; [|split]; auto; [|now rewrite map_length]. intros t u. apply (proj2 (A_split K argsort argsort_perm argsort_sorted (fun x => x) s N0)).
    + intros b' Hb'. apply with_bond_spec in Hb'. congruence.
Qed.
Lemma trim_3456 : forall s cutoff mode mb n, 3 <= mode <= 6 -> nonneg s -> ole (r0 K) cutoff -> trim K argsort s cutoff mode mb = Some n ->
  let w := pw K mode in
  let target := if (mode =? 4) || (mode =? 6) then rmul K cutoff (bsum (concat s) w) else cutoff in
  exists T U, splits w s n T U /\ (forall b, limit mb b -> Z.of_nat (length U) <= b) /\
    (forall u, In u U -> olt target (radd K (bsum T (fun x => w (sv_v x))) (w (sv_v u)))) /\
    (ole (bsum T (fun x => w (sv_v x))) target \/ exists b, limit mb b /\ Z.of_nat (length U) = b).
Proof.
  intros s cutoff mode mb n Hm Hpos Hc H w target. unfold trim in H.
  assert (E: (mode =? 1) || (mode =? 2) = false) by lia. rewrite E in H. clear E.
  assert (E: (mode =? 3) || (mode =? 4) || (mode =? 5) || (mode =? 6) = true) by lia. rewrite E in H. clear E.
  assert (Ew: map (if (mode =? 3) || (mode =? 4) then square K else fun x => x) (concat s) = map w (concat s)).
  { unfold w, pw, square. destruct ((mode =? 3) || (mode =? 4)); reflexivity. }
  rewrite Ew in H. rewrite bsum_map in H. change (fun x : K => w x) with w in H. fold target in H.
  set (A := TrimProofs.A K argsort w s).
  pose proof (A_perm K argsort argsort_perm w s) as HP. pose proof (A_sorted K argsort argsort_perm argsort_sorted w s) as HS. fold A in HP, HS.
  pose proof (A_length K argsort argsort_perm w s) as HL. fold A in HL.
  set (l := ksort K (map w (concat s))) in *.
  assert (Hl: map (fun x : sv => w (sv_v x)) A = l).
  { apply (sorted_perm_eq _ (@ole K)); [apply (oleb_antisym K)| |apply ksort_sorted|].
    - clear -HS. induction HS; cbn; constructor; auto. rewrite Forall_forall in *. intros y Hy. apply in_map_iff in Hy as (x & <- & Hx). auto.
    - unfold l. rewrite <- (ksort_perm K (map w (concat s))). rewrite <- map_v_entries, map_map. apply Permutation_map. exact HP. }
  assert (Hw0: forall x, In x A -> ole (r0 K) (w (sv_v x))).
  { intros x Hx. apply (Permutation_in _ HP), entries_val in Hx as [Hx ->]. unfold w, pw. destruct ((mode =? 3) || (mode =? 4)); [apply ole_sq|]. now apply Hpos. }
  assert (Hl0: forall y, In y l -> ole (r0 K) y).
  { intros y Hy. rewrite <- Hl in Hy. apply in_map_iff in Hy as (x & <- & Hx). auto. }
  assert (Ht0: ole (r0 K) target).
  { unfold target. destruct ((mode =? 4) || (mode =? 6)); auto. apply oleb_mul; auto. apply bsum_ole0. intros x Hx.
    rewrite <- map_v_entries in Hx. apply in_map_iff in Hx as (y & <- & Hy). apply Hw0. eapply Permutation_in; [apply Permutation_sym, HP|auto]. }
  assert (Hll: length l = length (concat s)) by (rewrite <- Hl, map_length; auto).
  destruct (count_le_spec K target l Hl0) as (C1 & C2 & C3).
  set (p := Z.to_nat (count_le K target (cumsum K (r0 K) l))) in *.
  assert (Hp: count_le K target (cumsum K (r0 K) l) = Z.of_nat p) by (unfold p, count_le; lia).
  rewrite Hp in H.
  set (N := match with_bond mb with Some b => Z.max (Z.of_nat p) (Z.of_nat (length (concat s)) - b) | None => Z.of_nat p end) in *.
  injection H as H.
  assert (HN: Z.of_nat p <= N <= Z.of_nat (length (concat s))).
  { unfold N. destruct (with_bond mb) as [b|] eqn:Eb; [apply with_bond_spec in Eb as [_ Eb]; lia|lia]. }
  destruct (drop_all_sizes K argsort argsort_perm w s N) as [D1 D2]; [lia|]. fold A in D2. rewrite H in D1, D2.
  set (k := Z.to_nat N) in *.
  assert (Esum: forall j, bsum (firstn j A) (fun x => w (sv_v x)) = bsum (firstn j l) (fun y => y)).
  { intros j. rewrite <- Hl, firstn_map, bsum_map. reflexivity. }
  exists (firstn k A), (skipn k A). split; [|split; [|split]].
  - split; [now rewrite firstn_skipn|]. split; [|split]; auto. intros t u. apply (proj2 (A_split K argsort argsort_perm argsort_sorted w s k)).
  - intros b Hb. rewrite skipn_length. assert (EN: N = Z.max (Z.of_nat p) (Z.of_nat (length (concat s)) - b)) by (apply with_bond_spec in Hb; unfold N; now rewrite Hb). destruct Hb. unfold k. lia.
  - intros u Hu. rewrite Esum. assert (Hk: (k < length l)%nat). { destruct (le_lt_dec (length l) k); auto. rewrite skipn_all2 in Hu by lia. destruct Hu. }
    eapply olt_le_trans; [apply C3; lia|].
    destruct (Nat.eq_dec p k) as [Epk|Npk].
    + rewrite <- Epk in *. rewrite (skipn_nth_cons _ (e0 K)) in Hu by lia.
      assert (Hle: ole (nth p l (r0 K)) (w (sv_v u))).
      { replace (nth p l (r0 K)) with (w (sv_v (nth p A (e0 K)))).
        - rewrite <- (firstn_skipn p A) in HS. apply SS_app in HS as (_ & HS & _). rewrite (skipn_nth_cons _ (e0 K)) in HS by lia. inversion HS as [|? ? _ HF]; subst.
          rewrite Forall_forall in HF. destruct Hu as [<-|Hu]; [apply ole_refl|]. now apply HF.
        - rewrite <- Hl. rewrite (nth_indep _ (r0 K) (w (sv_v (e0 K)))) by (rewrite map_length; lia). now rewrite (map_nth (fun x : sv => w (sv_v x))). }
      assert (Ef: firstn (S p) l = firstn p l ++ [nth p l (r0 K)]).
      { assert (G: forall (d : K) q r, (q < length r)%nat -> firstn (S q) r = firstn q r ++ [nth q r d]).
        { induction q; destruct r; cbn; intros; try lia; auto. f_equal. apply IHq. lia. }
        apply G. lia. }
      rewrite Ef, bsum_app, bsum_cons, bsum_nil. apply ole_add_l. replace (radd K (nth p l (r0 K)) (r0 K)) with (nth p l (r0 K)) by ring. exact Hle.
    + apply ole_trans with (bsum (firstn k l) (fun y => y)); [apply bsum_firstn_mono; auto; lia|].
      replace (bsum (firstn k l) (fun y => y)) with (radd K (bsum (firstn k l) (fun y => y)) (r0 K)) at 1 by ring. apply ole_add_l. apply Hw0. now apply in_skipn in Hu.
  - rewrite Esum. destruct (with_bond mb) as [b|] eqn:Eb.
    + apply with_bond_spec in Eb. destruct (Z.le_gt_cases (Z.of_nat (length (concat s)) - b) (Z.of_nat p)) as [Hle|Hgt].
      * left. replace k with p by (unfold k, N; lia). destruct (Nat.eq_dec p 0) as [->|]; [rewrite bsum_nil; auto|auto].
      * right. exists b. split; auto. rewrite skipn_length. unfold k, N. lia.
    + left. replace k with p by (unfold k, N; lia). destruct (Nat.eq_dec p 0) as [->|]; [rewrite bsum_nil; auto|auto].
Qed.
Lemma w_mono : forall mode s, nonneg s -> forall a b, (exists i j, valid s i j /\ a = val s i j) -> (exists i j, valid s i j /\ b = val s i j) ->
  ole a b -> ole (pw K mode a) (pw K mode b).
Proof.
  intros mode s Hp a b (i & j & Hv & ->) _ Hab. unfold pw. destruct ((mode =? 3) || (mode =? 4)); auto. apply ole_mul2; auto.
Qed.
Lemma w_inv : forall mode a b, ole (r0 K) b -> ole (pw K mode a) (pw K mode b) -> ole a b.
Proof. intros mode a b Hb H. unfold pw in H. destruct ((mode =? 3) || (mode =? 4)); auto. now apply ole_sq_inv in H. Qed.

(* every mode: as many numbers as sectors, within the sizes; bond limit; the values kept are the largest of all sectors together *)
Theorem c25_kept_largest : forall s cutoff mode max_bond n, trim K argsort s cutoff mode max_bond = Some n ->
  descending s -> nonneg s -> ole (r0 K) cutoff ->
  length n = length s /\ (forall i, 0 <= i < Z.of_nat (length s) -> 0 <= num n i <= Z.of_nat (length (nth (Z.to_nat i) s []))) /\
  (forall b, max_bond = Some b -> 0 < b -> zsum n <= b) /\
  (forall i j i' j', valid s i j -> valid s i' j' -> j < num n i -> num n i' <= j' -> ole (val s i' j') (val s i j)).
Proof.
  intros s cutoff mode mb n H Hd Hp Hc.
  assert (Hm: 1 <= mode <= 6).
  { unfold trim in H. destruct ((mode =? 1) || (mode =? 2)) eqn:E1; [lia|]. destruct ((mode =? 3) || (mode =? 4) || (mode =? 5) || (mode =? 6)) eqn:E2; [lia|discriminate]. }
  assert (G: exists T U, splits (pw K mode) s n T U /\ forall b, limit mb b -> Z.of_nat (length U) <= b).
  { destruct (Z.le_gt_cases mode 2) as [H2|H2].
    - destruct (trim_12 s cutoff mode mb n) as (c & T & U & _ & G1 & _ & G2 & _); auto; [lia|]. exists T, U. split; auto.
      assert (pw K mode = fun x => x) as -> by (unfold pw; replace ((mode =? 3) || (mode =? 4)) with false by lia; reflexivity). auto.
    - destruct (trim_3456 s cutoff mode mb n) as (T & U & G1 & G2 & _); auto; [lia|]. exists T, U. auto. }
  destruct G as (T & U & (P1 & P2 & P3 & P4) & Hlim).
  assert (Hds: forall b, In b s -> desc_by K (pw K mode) b) by (apply desc_ok; auto; now apply w_mono).
  split; [auto|]. split; [|split].
  - intros i Hi. exact (nb_range K s T U P1 n P3 P4 i Hi).
  - intros b Hb Hb0. rewrite (total_U K (pw K mode) s T U P1 P2 Hds n P3 P4). apply Hlim. now split.
  - intros i j i' j' [Hi Hj] [Hi' Hj'] Hk Hk'. apply (w_inv mode); [apply Hp; split; auto|].
    exact (trim_order K (pw K mode) s T U P1 P2 Hds n P3 P4 i j i' j' Hi Hi' (conj (proj1 Hj) Hk) (conj Hk' (proj2 Hj'))).
Qed.
(* modes 1 and 2: what is kept exceeds the threshold; what is discarded does not, or the bond limit is reached *)
Theorem c25_threshold : forall s cutoff mode max_bond n, mode = 1 \/ mode = 2 -> trim K argsort s cutoff mode max_bond = Some n -> descending s ->
  exists c, (mode = 1 -> c = cutoff) /\
    (mode = 2 -> exists i j, valid s i j /\ c = rmul K cutoff (val s i j) /\ forall i' j', valid s i' j' -> ole (val s i' j') (val s i j)) /\
    (forall i j, valid s i j -> j < num n i -> olt c (val s i j)) /\
    ((forall i j, valid s i j -> num n i <= j -> ole (val s i j) c) \/ exists b, max_bond = Some b /\ 0 < b /\ zsum n = b).
Proof.
  intros s cutoff mode mb n Hm H Hd. destruct (trim_12 s cutoff mode mb n Hm H) as (c & T & U & Ec & (P1 & P2 & P3 & P4) & HU & HB & HT).
  assert (Hds: forall b, In b s -> desc_by K (fun x => x) b) by (apply desc_ok; auto).
  exists c. split; [|split; [|split]].
  - intros ->. cbn in Ec. congruence.
  - intros ->. cbn in Ec. unfold kmax in Ec. destruct (concat s) as [|x r] eqn:Ex; [discriminate|]. injection Ec as <-.
    set (M := fold_left (fun a b => if oleb K a b then b else a) r x).
    assert (HM: In M (x :: r) /\ forall y, In y (x :: r) -> ole y M).
    { unfold M. clear. revert x. induction r as [|z r IH]; intros x; cbn [fold_left]; [split; [now left|intros y [<-|[]]; apply ole_refl]|].
      destruct (IH (if oleb K x z then z else x)) as [I1 I2]. assert (Hx: ole x (if oleb K x z then z else x) /\ ole z (if oleb K x z then z else x)).
      { destruct (oleb K x z) eqn:E; split; auto using ole_refl. now apply olt_ole. }
      split.
      - destruct I1 as [I1|I1]; [|now right; right]. rewrite <- I1. destruct (oleb K x z); [now right; left|now left].
      - intros y [<-|[<-|Hy]]; [eapply ole_trans; [apply Hx|apply I2; now left]|eapply ole_trans; [apply Hx|apply I2; now left]|apply I2; now right]. }
    destruct HM as [M1 M2]. rewrite <- Ex, <- map_v_entries in M1. apply in_map_iff in M1 as (e & Ee & He). apply entries_val in He as [Hv Hv'].
    exists (sv_i e), (sv_j e). split; auto. split; [rewrite <- Hv', Ee; reflexivity|]. rewrite <- Hv', Ee. intros i' j' Hij. apply M2. rewrite <- Ex, <- map_v_entries.
    apply in_map_iff. exists (i', j', val s i' j'). split; auto. apply entries_in. destruct Hij. split; auto.
  - intros i j [Hi Hj] Hk. destruct (kept_in_U K (fun x => x) s T U P1 P2 Hds n P3 P4 i j Hi (conj (proj1 Hj) Hk)) as (u & Hu & Eu).
    change (olt c (at_ K (blk K s i) j)). rewrite <- Eu. now apply HU.
  - destruct HT as [HT|(b & [Hb Hb0] & El)].
    + left. intros i j [Hi Hj] Hk. pose proof (split_multisets K (fun x => x) s T U P1 P2 Hds n P3 P4) as [M1 _].
      assert (Hin: In (val s i j) (map (fun x : sv => sv_v x) (filter (trimmed K n) (entries s)))).
      { apply in_map_iff. exists (i, j, val s i j). split; auto. apply filter_In. split; [apply entries_in; auto|].
        unfold trimmed, nb, sv_i, sv_j. cbn. unfold num in Hk. lia. }
      apply (Permutation_in _ (Permutation_sym M1)) in Hin. apply in_map_iff in Hin as (t & <- & Ht). auto.
    + right. exists b. split; auto. split; auto. now rewrite (total_U K (fun x => x) s T U P1 P2 Hds n P3 P4).
Qed.
(* modes 3 to 6: the discarded weight is within the target, or the bond limit is reached; discarding any kept value too would exceed the target *)
Theorem c25_sum : forall s cutoff mode max_bond n, 3 <= mode <= 6 -> trim K argsort s cutoff mode max_bond = Some n ->
  descending s -> nonneg s -> ole (r0 K) cutoff ->
  let w := fun v : K => if mode <=? 4 then rmul K v v else v in
  let target := if Z.even mode then rmul K cutoff (total s (fun _ _ => true) w) else cutoff in
  let lost := total s (fun i j => num n i <=? j) w in
  (ole lost target \/ exists b, max_bond = Some b /\ 0 < b /\ zsum n = b) /\
  (forall i j, valid s i j -> j < num n i -> olt target (radd K lost (w (val s i j)))).
Proof.
  intros s cutoff mode mb n Hm H Hd Hp Hc w target lost.
  destruct (trim_3456 s cutoff mode mb n Hm Hp Hc H) as (T & U & (P1 & P2 & P3 & P4) & HB & HU & HT).
  assert (Ew: w = pw K mode). { unfold w, pw. replace ((mode =? 3) || (mode =? 4)) with (mode <=? 4) by lia. destruct (mode <=? 4); reflexivity. }
  assert (Hds: forall b, In b s -> desc_by K (pw K mode) b) by (apply desc_ok; auto; now apply w_mono).
  assert (El: lost = bsum T (fun x => pw K mode (sv_v x))).
  { rewrite <- (discarded_sum_T K (pw K mode) s T U P1 P2 Hds n P3 P4). unfold lost, total, discarded_sum. rewrite Ew. reflexivity. }
  assert (Et: target = if (mode =? 4) || (mode =? 6) then rmul K cutoff (bsum (concat s) (pw K mode)) else cutoff).
  { unfold target. replace ((mode =? 4) || (mode =? 6)) with (Z.even mode) by (assert (mode = 3 \/ mode = 4 \/ mode = 5 \/ mode = 6) as [->|[->|[->| ->]]] by lia; reflexivity).
    destruct (Z.even mode); auto. f_equal. rewrite <- map_v_entries, bsum_map, bsum_entries. unfold total. rewrite Ew. reflexivity. }
  rewrite <- Et, <- El in *. split.
  - destruct HT as [HT|(b & [Hb Hb0] & E)]; [now left|]. right. exists b. split; auto. split; auto. now rewrite (total_U K (pw K mode) s T U P1 P2 Hds n P3 P4).
  - intros i j [Hi Hj] Hk. destruct (kept_in_U K (pw K mode) s T U P1 P2 Hds n P3 P4 i j Hi (conj (proj1 Hj) Hk)) as (u & Hu & Eu).
    rewrite Ew. change (val s i j) with (at_ K (blk K s i) j). rewrite <- Eu. now apply HU.
Qed.
(* an undefined mode, or the maximum of no value, is the only failure *)
Theorem c25_defined : forall s cutoff mode max_bond, trim K argsort s cutoff mode max_bond = None <-> ~ 1 <= mode <= 6 \/ (mode = 2 /\ forall b, In b s -> b = []).
Proof.
  intros s cutoff mode mb. unfold trim. destruct ((mode =? 1) || (mode =? 2)) eqn:E1.
  - destruct (Z.eqb_spec mode 1) as [->|N].
    + split; [|intros [H|[H _]]; lia]. destruct (with_bond mb) as [b|]; [|discriminate]. destruct (0 <? zsum (map (count_gt K cutoff) s) - b); discriminate.
    + assert (mode = 2) as -> by lia. destruct (kmax K (concat s)) as [x|] eqn:Ex; cbn.
      * split.
        -- destruct (with_bond mb) as [b|]; [|discriminate]. destruct (0 <? zsum (map (count_gt K (rmul K cutoff x)) s) - b); discriminate.
        -- intros [H|[_ H]]; [lia|]. exfalso. assert (concat s = []). { clear -H. induction s as [|b s IH]; auto. cbn. rewrite (H b) by now left. apply IH. intros; apply H; now right. }
           rewrite H0 in Ex. discriminate.
      * split; auto. intros _. right. split; auto. intros b Hb. destruct (concat s) as [|y r] eqn:Ec; [|discriminate]. destruct b as [|z b]; auto. exfalso.
        assert (In z (concat s)) by (apply in_concat; exists (z :: b); split; auto; now left). rewrite Ec in H. destruct H.
  - destruct ((mode =? 3) || (mode =? 4) || (mode =? 5) || (mode =? 6)) eqn:E2; split; try discriminate; intros; try lia. reflexivity.
Qed.
End C25.
(* the values kept are the first ones of each sector *)
Theorem c25_kept_values : forall (K : ORing) (s : list (list K)) n i, length n = length s -> 0 <= i < Z.of_nat (length s) -> 0 <= num n i ->
  nth (Z.to_nat i) (keep_first K s n) [] = firstn (Z.to_nat (num n i)) (nth (Z.to_nat i) s []).
Proof.
  intros K s n i Hl Hi Hn. unfold keep_first, num in *.
  rewrite (nth_indep _ [] (py_take (fst ([], 0)) (snd (@nil K, 0)))) by (rewrite map_length, combine_length; lia).
  rewrite (map_nth (fun p : list K * Z => py_take (fst p) (snd p)) (combine s n) ([], 0)). rewrite combine_nth by auto. cbn [fst snd]. unfold py_take.
  destruct (Z.ltb_spec (nth (Z.to_nat i) n 0) 0); [lia|]. reflexivity.
Qed.

(** ** C47: renormalisation after trimming *)
Fixpoint power (K : ORing) (v : K) (r : nat) : K := match r with O => r1 K | S r' => rmul K v (power K v r') end.
Definition power_sum (K : ORing) (r : nat) (s : list (list K)) : K := bsum (concat s) (fun v => power K v r).
Section C47.
Variable K : ORing.
Add Ring KR3 : (rth K).
Lemma power_mul : forall a b r, power K (rmul K a b) r = rmul K (power K a r) (power K b r).
Proof. induction r; cbn [power]; [ring|]. rewrite IHr. ring. Qed.
Lemma kpow_power : forall v r, kpow K v r = power K v r.
Proof. induction r; cbn; auto. now rewrite IHr. Qed.
Definition rest_of (s : list (list K)) (n : list Z) : list (list K) := map (fun p => skipn (Z.to_nat (snd p)) (fst p)) (combine s n).
Lemma renorm_block : forall r (b : list K) n a, 0 <= n ->
  fold_left (fun a iv => let v := kpow K (snd iv) r in if fst iv <? n then (radd K (fst a) v, snd a) else (fst a, radd K (snd a) v)) (enumerate b) a
  = (radd K (fst a) (bsum (firstn (Z.to_nat n) b) (fun v => power K v r)), radd K (snd a) (bsum (skipn (Z.to_nat n) b) (fun v => power K v r))).
Proof.
  intros r b n [a1 a2] Hn. induction b as [|v b IH] using rev_ind; [rewrite firstn_nil, skipn_nil; cbn; f_equal; ring|].
  rewrite enumerate_app, fold_left_app, IH. change (enumerate [v]) with [(0, v)]. cbn [map fold_left fst snd]. rewrite Z.add_0_r, kpow_power.
  rewrite firstn_app, skipn_app, !bsum_app. destruct (Z.ltb_spec (Z.of_nat (length b)) n).
  - replace (Z.to_nat n - length b)%nat with (S (Z.to_nat n - length b - 1)) by lia. cbn [firstn skipn]. rewrite firstn_nil, skipn_nil, bsum_cons, !bsum_nil. f_equal; ring.
  - replace (Z.to_nat n - length b)%nat with O by lia. cbn [firstn skipn]. rewrite bsum_cons, !bsum_nil. f_equal; ring.
Qed.
Lemma keep_first_firstn : forall s n, Forall (fun x => 0 <= x) n -> keep_first K s n = map (fun p => firstn (Z.to_nat (snd p)) (fst p)) (combine s n).
Proof.
  intros s n Hn. unfold keep_first. apply map_ext_in. intros [b x] Hin. cbn. apply in_combine_r in Hin. rewrite Forall_forall in Hn. unfold py_take.
  destruct (Z.ltb_spec x 0); auto. specialize (Hn _ Hin). lia.
Qed.
Lemma renorm_sums_spec : forall s n r, Forall (fun x => 0 <= x) n -> renorm_sums K s n r = (power_sum K r (keep_first K s n), power_sum K r (rest_of s n)).
Proof.
  intros s n r Hn. unfold renorm_sums, power_sum. rewrite keep_first_firstn by auto. unfold rest_of.
  assert (G: forall l a, (forall p, In p l -> 0 <= snd p) -> fold_left (fun a (p : list K * Z) => fold_left (fun a iv => let v := kpow K (snd iv) r in
      if fst iv <? snd p then (radd K (fst a) v, snd a) else (fst a, radd K (snd a) v)) (enumerate (fst p)) a) l a
    = (radd K (fst a) (bsum (concat (map (fun p => firstn (Z.to_nat (snd p)) (fst p)) l)) (fun v => power K v r)),
       radd K (snd a) (bsum (concat (map (fun p => skipn (Z.to_nat (snd p)) (fst p)) l)) (fun v => power K v r)))).
  { induction l as [|[b x] l IH]; intros [a1 a2] Hl; cbn [fold_left map concat fst snd].
    - rewrite !bsum_nil. f_equal; ring.
    - rewrite renorm_block by (apply (Hl (b, x)); now left). rewrite IH by (intros; apply Hl; now right). cbn [fst snd]. rewrite !bsum_app. f_equal; ring. }
  rewrite G; [cbn [fst snd]; f_equal; ring|]. intros [b x] Hin. apply in_combine_r in Hin. rewrite Forall_forall in Hn. now apply Hn.
Qed.
Lemma power_sum_split : forall s n r, length n = length s -> power_sum K r s = radd K (power_sum K r (keep_first K s n)) (power_sum K r (rest_of s n)) \/ ~ Forall (fun x => 0 <= x) n.
Proof.
  intros s n r Hl. destruct (Forall_dec (fun x => 0 <= x) (fun x => Z_le_dec 0 x) n) as [Hn|Hn]; [left|now right].
  rewrite keep_first_firstn by auto. unfold rest_of, power_sum. clear Hn. revert s Hl. induction n as [|x n IH]; intros [|b s] Hl; cbn in Hl; try lia.
  - cbn. ring.
  - cbn [combine map concat fst snd]. rewrite !bsum_app, IH by lia. rewrite <- (firstn_skipn (Z.to_nat x) b) at 1. rewrite bsum_app. ring.
Qed.
(* if the factor is the r-th root of total / kept, the r-th power sum of the kept, rescaled values is that of all the old values *)
Theorem c47_power_sum : forall fac s n r, length n = length s -> Forall (fun x => 0 <= x) n ->
  (0 < r)%nat -> zsum n < Z.of_nat (length (concat s)) ->
  (forall a b, a = power_sum K r (keep_first K s n) -> radd K a b = power_sum K r s -> rmul K (power K (fac a b r) r) a = radd K a b) ->
  power_sum K r (renormed K fac s n r) = power_sum K r s.
Proof.
  intros fac s n r Hl Hn Hr Hz Hf. unfold renormed.
  assert (El: zsum (map (fun b : list K => Z.of_nat (length b)) s) = Z.of_nat (length (concat s))).
  { clear. induction s; [reflexivity|]. cbn [map concat]. rewrite zsum_cons, IHs, app_length. lia. }
  rewrite El. replace ((zsum n <? Z.of_nat (length (concat s))) && (0 <? Z.of_nat r)) with true by lia. rewrite renorm_sums_spec by auto.
  destruct (power_sum_split s n r Hl) as [Hs|]; [|tauto]. set (a := power_sum K r (keep_first K s n)) in *. set (b := power_sum K r (rest_of s n)) in *.
  specialize (Hf a b eq_refl (eq_sym Hs)). set (f := fac a b r) in *.
  assert (E: power_sum K r (keep_first K (map (map (fun v => rmul K v f)) s) n) = rmul K (power K f r) a).
  { unfold a, power_sum. rewrite !keep_first_firstn by auto. generalize f. clear. intro f. revert s. induction n as [|x n IH]; intros [|bb s]; cbn [map combine concat fst snd]; rewrite ?bsum_nil; try ring.
    rewrite !bsum_app, IH. rewrite firstn_map, bsum_map. rewrite (bsum_ext K _ _ _ (fun v => rmul K (power K f r) (power K v r))) by (intros; rewrite power_mul; ring).
    rewrite bsum_mull. ring. }
  rewrite E, Hf. now symmetry.
Qed.
(* each kept value is multiplied by the same factor, or left as it is when nothing was trimmed or renorm = 0 *)
Theorem c47_values : forall fac s n r, exists f, renormed K fac s n r = keep_first K (map (map (fun v => rmul K v f)) s) n /\
  ((r = 0%nat \/ Z.of_nat (length (concat s)) <= zsum n) -> f = r1 K).
Proof.
  intros fac s n r. unfold renormed.
  assert (El: zsum (map (fun b : list K => Z.of_nat (length b)) s) = Z.of_nat (length (concat s))).
  { clear. induction s; [reflexivity|]. cbn [map concat]. rewrite zsum_cons, IHs, app_length. lia. }
  rewrite El. destruct ((zsum n <? Z.of_nat (length (concat s))) && (0 <? Z.of_nat r)) eqn:E.
  - destruct (renorm_sums K s n r) as [a b]. exists (fac a b r). split; auto. lia.
  - exists (r1 K). split; auto. f_equal. clear. rewrite <- (map_id s) at 1. apply map_ext. intros b. rewrite <- (map_id b) at 1. apply map_ext. intros v. ring.
Qed.
End C47.
Example c47_ex : renormed Z_oring (fun a b _ => (a + b) / a) [[4; 2]; [4; 2]] [1; 1] 1 = [[4]; [4]] /\ renormed Z_oring (fun a b _ => Z.sqrt ((a + b) / a)) [[3; 3]; [3; 3]] [1; 0] 2 = [[6]; []]
  /\ power_sum Z_oring 2 [[6]; []] = power_sum Z_oring 2 [[3; 3]; [3; 3]].
Proof. repeat split. Qed.

(* a concrete argsort *)
Definition stable_argsort (l : list Z_oring) : list Z := map fst (sort_by Z.ltb snd (enumerate (l : list Z))).
Lemma stable_argsort_ok : (forall l, Permutation (stable_argsort l) (zrange (Z.of_nat (length l)))) /\
  (forall l, StronglySorted (fun a b => @ole Z_oring (nth (Z.to_nat a) l 0) (nth (Z.to_nat b) l 0)) (stable_argsort l)).
Proof.
  split; intros l; unfold stable_argsort.
  - rewrite <- (map_fst_enumerate _ l). apply Permutation_map, Permutation_sym, sort_perm.
  - assert (H: StronglySorted (fun a b : Z * Z => snd a <= snd b) (sort_by Z.ltb snd (enumerate (l : list Z)))).
    { eapply SS_map_impl; [|apply sort_sorted]. - intros a b [H|H]; lia. - intros; lia. - intros; lia. - apply Z.eq_dec. }
    assert (Hin: forall p, In p (sort_by Z.ltb snd (enumerate (l : list Z))) -> snd p = nth (Z.to_nat (fst p)) l 0).
    { intros [i v] Hp. apply (Permutation_in _ (Permutation_sym (sort_perm _ _ _))) in Hp. now apply (in_enumerate _ 0) in Hp as [_ Hp]. }
    revert Hin H. generalize (sort_by Z.ltb snd (enumerate (l : list Z))). induction l0 as [|p l0 IH]; intros Hin H; cbn; [constructor|]. inversion H; subst.
    constructor; [apply IH; auto; intros; apply Hin; now right|]. rewrite Forall_forall in *. intros i Hi. apply in_map_iff in Hi as (q & <- & Hq).
    rewrite <- !Hin by ((now left) || (now right)). unfold ole. cbn. apply Z.leb_le. auto.
Qed.
Example c25_ex : map (fun m => trim Z_oring stable_argsort [[5; 2; 1]; [4; 2]; [1]] 1 m (Some 3)) [1; 2; 3; 4; 5; 6; 7]
  = [Some [1; 2; 0]; Some [0; 0; 0]; Some [1; 2; 0]; Some [0; 0; 0]; Some [1; 2; 0]; Some [0; 0; 0]; None].
Proof. reflexivity. Qed.
Example c25_ex2 : map (fun m => trim Z_oring stable_argsort [[5; 2; 1]; [4; 2]; [1]] 6 m None) [1; 3; 5] = [Some [0; 0; 0]; Some [1; 2; 0]; Some [1; 1; 0]]
  /\ trim Z_oring stable_argsort [[5; 2; 1]; [4; 2]; [1]] 1 1 None = Some [2; 2; 0].
Proof. split; reflexivity. Qed.

Print Assumptions c24_form. Print Assumptions c24_largest_kept. Print Assumptions c24_bond_limit. Print Assumptions c24_cutoff.
Print Assumptions c24_cutoff_squared. Print Assumptions c24_error. Print Assumptions c24_minimal. Print Assumptions c24_discarded_weight.
Print Assumptions c24_tensors. Print Assumptions c24_slices. Print Assumptions c24_fermion. Print Assumptions c24_max_dw_refuted.
Print Assumptions c24_fermion_max_dw_refuted. Print Assumptions c25_kept_largest. Print Assumptions c25_threshold. Print Assumptions c25_sum.
Print Assumptions c25_defined. Print Assumptions c25_kept_values. Print Assumptions c47_power_sum. Print Assumptions c47_values.
