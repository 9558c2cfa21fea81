(** Properties C05-C09: bond spaces and MPS bond dimensions.
    Specification notions (BondProofs.v): [states d] lists the label of every state of a bond space,
    [cnt q l] counts a label in a list, [sums la lb] lists all pairwise sums, [all_sums basis] lists the total label of
    every choice of one state per site, [wf] says unique labels with positive multiplicity. *)
From Coq Require Import ZArith Bool List Lia Permutation.
From Verif Require Import SymModel SymProofs DictLib BondModel BondProofs.
Import ListNotations.
Open Scope Z_scope.

(** ** C05 *)
Theorem c05_product_counts_pairs : forall (L : Label) (a b : dict L Z), wf L a -> wf L b ->
  wf L (bmul L a b)
  /\ Permutation (states L (bmul L a b)) (sums L (states L a) (states L b))
  /\ (forall q, bget L (bmul L a b) q = cnt L q (sums L (states L a) (states L b)))
  /\ n_bonds L (bmul L a b) = n_bonds L a * n_bonds L b.
Proof.
  intros L a b Ha Hb. assert (W: wf L (bmul L a b)) by now apply tp_wf.
  split; [exact W|]. split; [now apply mul_states|]. split.
  - intros q. rewrite wf_get_states by auto. apply cnt_of_perm. now apply mul_states.
  - rewrite !n_bonds_states by now apply wf_vals.
    rewrite (Permutation_length (mul_states L a b Ha Hb)), sums_length. lia.
Qed.
Print Assumptions c05_product_counts_pairs.

Theorem c05_product_with_reference : forall (L : Label) (a b r : dict L Z), wf L a -> wf L b ->
  Permutation (states L (tensor_product L a b (Some r)))
    (filter (fun q => if in_dec (fun x y => reflect_dec _ _ (qeqb_spec L x y)) q (map fst r) then true else false)
       (sums L (states L a) (states L b))).
Proof.
  intros L a b r Ha Hb. rewrite (tp_states L (Some r) a b Ha Hb).
  erewrite filter_ext; [reflexivity|]. intros q. cbn [in_ref].
  destruct (in_dec _ q (map fst r)) as [i|n].
  - now apply bmem_in.
  - apply not_true_is_false. intro H. apply bmem_in in H. auto.
Qed.
Print Assumptions c05_product_with_reference.

Theorem c05_product_algebra : forall (L : Label) (a b c : dict L Z), wf L a -> wf L b -> wf L c ->
  (forall q, bget L (bmul L a b) q = bget L (bmul L b a) q)
  /\ (forall q, bget L (bmul L a (bmul L b c)) q = bget L (bmul L (bmul L a b) c) q)
  /\ (forall q, bget L (bneg L (bmul L a b)) q = bget L (bmul L (bneg L a) (bneg L b)) q).
Proof.
  intros L a b c Ha Hb Hc.
  assert (Wab: wf L (bmul L a b)) by now apply tp_wf.
  assert (Wbc: wf L (bmul L b c)) by now apply tp_wf.
  pose proof (bneg_wf L a Ha) as Wa. pose proof (bneg_wf L b Hb) as Wb.
  split; [|split]; intros q.
  - apply states_get; auto; [now apply tp_wf|]. rewrite !mul_states by auto. apply cnt_perm. apply sums_comm.
  - apply states_get; try (now apply tp_wf). rewrite (mul_states L a _ Ha Wbc), (mul_states L _ c Wab Hc).
    rewrite (sums_perm L _ _ _ _ (Permutation_refl _) (mul_states L b c Hb Hc)).
    rewrite (sums_perm L _ _ _ _ (mul_states L a b Ha Hb) (Permutation_refl _)).
    rewrite sums_assoc. reflexivity.
  - apply states_get; [now apply bneg_wf|now apply tp_wf|].
    rewrite bneg_states by apply Wab. rewrite (Permutation_map _ (mul_states L a b Ha Hb)).
    rewrite (mul_states L _ _ Wa Wb), !bneg_states by apply Ha || apply Hb. rewrite sums_neg. reflexivity.
Qed.
Print Assumptions c05_product_algebra.

(* a fermionic site basis: empty, alpha, beta, doubly occupied *)
Definition site4 : dict SZ_label Z :=
  [((mkSZ 0 (0) 0), 1); ((mkSZ 1 (1) 0), 1); ((mkSZ 1 (-1) 0), 1); ((mkSZ 2 (0) 0), 1)].
Lemma site4_wf : wf SZ_label site4.
Proof.
  split.
  - cbn. repeat constructor; cbn; intuition congruence.
  - intros p H. cbn in H. intuition (subst; cbn; lia).
Qed.
Example c05_case : wf SZ_label site4 /\ bget SZ_label (bmul SZ_label site4 site4) (mkSZ 2 (0) 0) = 4
  /\ n_bonds SZ_label (bmul SZ_label site4 site4) = 16.
Proof. split; [apply site4_wf|]. split; vm_compute; reflexivity. Qed.

(** ** C06 *)
Theorem c06_pointwise : forall (L : Label) (a b : dict L Z), wf L a -> wf L b ->
  (forall q, bget L (band L a b) q = Z.min (bget L a q) (bget L b q))
  /\ (forall q, bget L (bor L a b) q = Z.max (bget L a q) (bget L b q))
  /\ (forall q, bget L (bplus L a b) q = bget L a q + bget L b q)
  /\ (forall q, bget L (bfilter L a b) q = Z.min (bget L a q) (bget L b q))
  /\ wf L (band L a b) /\ wf L (bor L a b) /\ wf L (bplus L a b) /\ wf L (bfilter L a b).
Proof.
  intros L a b Ha Hb.
  split; [intros; now apply band_get|]. split; [intros; now apply bor_get|].
  split; [intros; now apply bplus_get|]. split; [intros; now apply bfilter_get|].
  split; [apply band_wf|]. split; [apply bor_wf|]. split; [apply bplus_wf|now apply bfilter_wf].
Qed.
Print Assumptions c06_pointwise.

Theorem c06_negation_relabels : forall (L : Label) (a : dict L Z), wf L a ->
  wf L (bneg L a) /\ states L (bneg L a) = map (qneg L) (states L a)
  /\ (forall q, bget L (bneg L a) (qneg L q) = bget L a q)
  /\ n_bonds L (bneg L a) = n_bonds L a /\ length (bneg L a) = length a.
Proof.
  intros L a Ha. pose proof (bneg_wf L a Ha) as W.
  pose proof (bneg_states L a (proj1 Ha)) as S.
  split; [exact W|]. split; [exact S|]. split.
  - intros q. rewrite !wf_get_states by auto. rewrite S. generalize (states L a). clear.
    induction l; cbn [map cnt]; [reflexivity|]. rewrite IHl. f_equal.
    destruct (qeqb_spec L (qneg L a) (qneg L q)), (qeqb_spec L a q); auto; try congruence.
    apply qneg_inj in e. congruence.
  - split.
    + rewrite !n_bonds_states by (now apply wf_vals). rewrite S, map_length. reflexivity.
    + rewrite bneg_eq by apply Ha. apply map_length.
Qed.
Print Assumptions c06_negation_relabels.

Example c06_case : let a := [((mkSZ 0 (0) 0),3); ((mkSZ 1 (1) 0),2)] in let b := [((mkSZ 1 (1) 0),5); ((mkSZ 2 (0) 0),1)] in
  wf SZ_label a /\ wf SZ_label b /\ band SZ_label a b = [((mkSZ 1 (1) 0),2)]
  /\ bplus SZ_label a b = [((mkSZ 0 (0) 0),3); ((mkSZ 1 (1) 0),7); ((mkSZ 2 (0) 0),1)].
Proof.
  cbv zeta. split; [|split; [|split; vm_compute; reflexivity]].
  all: split; [cbn; repeat constructor; cbn; intuition congruence|intros p H; cbn in H; intuition (subst; cbn; lia)].
Qed.

(** ** C07 *)
(* number of ways to reach q on bond d from the left, and to go from q to the target on the right *)
Definition ways_left (L : Label) (vac : L) (basis : list (dict L Z)) (d : nat) (q : L) : Z :=
  cnt L q (map (fun s => qadd L vac s) (all_sums L (firstn d basis))).
Definition ways_right (L : Label) (tgt : L) (basis : list (dict L Z)) (d : nat) (q : L) : Z :=
  cnt L tgt (map (fun s => qadd L q s) (all_sums L (skipn d basis))).

Lemma ways_right_eq : forall L tgt basis d q, ways_right L tgt basis d q = n_right L tgt basis d q.
Proof.
  intros. unfold ways_right, n_right. generalize (all_sums L (skipn d basis)).
  induction l; cbn [map cnt]; [reflexivity|]. rewrite IHl. f_equal.
  rewrite qsub_def.
  destruct (qeqb_spec L (qadd L q a) tgt), (qeqb_spec L (qadd L tgt (qneg L a)) q); auto; exfalso.
  - apply n. subst tgt. rewrite <- qadd_assoc, qadd_neg_r. apply qadd_0_r.
  - apply n. subst q. rewrite <- qadd_assoc, qadd_neg. apply qadd_0_r.
Qed.

Theorem c07_fci_dimensions : forall (L : Label) (vac tgt : L) (basis : list (dict L Z)), Forall (wf L) basis ->
  length (fci_left L vac tgt basis) = S (length basis)
  /\ length (fci_right L vac tgt basis) = S (length basis)
  /\ forall d, (d <= length basis)%nat ->
      exists l r, nth_error (fci_left L vac tgt basis) d = Some l
        /\ nth_error (fci_right L vac tgt basis) d = Some r
        /\ wf L l /\ wf L r
        /\ forall q, bget L l q = Z.min (ways_left L vac basis d q) (ways_right L tgt basis d q)
             /\ bget L r q = Z.min (ways_left L vac basis d q) (ways_right L tgt basis d q)
             /\ (In q (map fst l) <-> 0 < ways_left L vac basis d q /\ 0 < ways_right L tgt basis d q)
             /\ (In q (map fst r) <-> 0 < ways_left L vac basis d q /\ 0 < ways_right L tgt basis d q).
Proof.
  intros L vac tgt basis Hb. destruct (fci_length L vac tgt basis) as [E1 E2].
  split; [exact E1|]. split; [exact E2|]. intros d Hd.
  destruct (fci_left_nth L vac tgt basis d Hb Hd) as (l & El & Wl & Gl).
  destruct (fci_right_nth L vac tgt basis d Hb Hd) as (r & Er & Wr & Gr).
  exists l, r. split; [exact El|]. split; [exact Er|]. split; [exact Wl|]. split; [exact Wr|].
  intros q. rewrite Gl, Gr, ways_right_eq. fold (n_left L vac basis d q). unfold ways_left.
  fold (n_left L vac basis d q). split; [reflexivity|]. split; [reflexivity|].
  pose proof (wf_get L l q Wl) as A. pose proof (wf_get L r q Wr) as B. rewrite Gl in A. rewrite Gr in B.
  unfold keys in *. rewrite <- A, <- B. lia.
Qed.
Print Assumptions c07_fci_dimensions.

Example c07_case : Forall (wf SZ_label) [site4; site4; site4]
  /\ nth_error (fci_left SZ_label (mkSZ 0 (0) 0) (mkSZ 2 (0) 0) [site4; site4; site4]) 1 = Some site4
  /\ ways_left SZ_label (mkSZ 0 (0) 0) [site4; site4; site4] 2 (mkSZ 2 (0) 0) = 4
  /\ ways_right SZ_label (mkSZ 2 (0) 0) [site4; site4; site4] 2 (mkSZ 2 (0) 0) = 1.
Proof. split; [repeat (apply Forall_cons; [apply site4_wf|]); apply Forall_nil|]. repeat split; vm_compute; reflexivity. Qed.

(** ** C08 *)
(* after any sequence of requested bond dimensions, exactly the full-CI sectors remain, each with at least one state *)
Theorem c08_sectors_kept : forall (L : Label) (vac tgt : L) (basis : list (dict L Z)) (ms : list Z),
  Forall (wf L) basis -> Forall (fun m => 0 <= m) ms ->
  forall d, (d <= length basis)%nat ->
    exists l r, nth_error (set_bond_left L ms vac tgt basis) d = Some l
      /\ nth_error (set_bond_right L ms vac tgt basis) d = Some r
      /\ (forall q, 0 < ways_left L vac basis d q /\ 0 < ways_right L tgt basis d q ->
            1 <= bget L l q /\ 1 <= bget L r q)
      /\ (forall q, In q (map fst l) \/ In q (map fst r) ->
            0 < ways_left L vac basis d q /\ 0 < ways_right L tgt basis d q).
Proof.
  intros L vac tgt basis ms Hb Hm d Hd.
  destruct (set_bond_left_reach L vac tgt basis ms Hb Hm) as [L1 L2].
  destruct (set_bond_right_reach L vac tgt basis ms Hb Hm) as [R1 R2].
  destruct (nth_error_ex _ (set_bond_left L ms vac tgt basis) d) as (l & El); [lia|].
  destruct (nth_error_ex _ (set_bond_right L ms vac tgt basis) d) as (r & Er); [lia|].
  exists l, r. split; [exact El|]. split; [exact Er|].
  destruct (L2 d l El) as [Wl Kl]. destruct (R2 d r Er) as [Wr Kr].
  assert (E: forall q, (0 < ways_left L vac basis d q /\ 0 < ways_right L tgt basis d q) <-> reach L vac tgt basis d q).
  { intros q. rewrite ways_right_eq. reflexivity. }
  split.
  - intros q Hq. apply E in Hq. pose proof (proj2 (Kl q) Hq) as A. pose proof (proj2 (Kr q) Hq) as B.
    apply wf_get in A, B; auto. lia.
  - intros q [Hq|Hq]; apply E; [now apply Kl|now apply Kr].
Qed.
Print Assumptions c08_sectors_kept.

Example c08_case :
  map (fun d => n_bonds SZ_label d) (set_bond_left SZ_label [1] (mkSZ 0 (0) 0) (mkSZ 3 (1) 0) [site4; site4; site4; site4]) = [1; 4; 6; 4; 1]
  /\ map (fun d => n_bonds SZ_label d) (fci_left SZ_label (mkSZ 0 (0) 0) (mkSZ 3 (1) 0) [site4; site4; site4; site4]) = [1; 4; 8; 4; 1].
Proof. split; vm_compute; reflexivity. Qed.

(** ** C09 *)
Theorem c09_truncate_bound : forall (L : Label) (d : dict L Z) (m : Z) (ref : option (dict L Z)), wf L d -> 0 <= m ->
  (* total dimension: at most m + 1.1 * number of sectors *)
  10 * n_bonds L (truncate L d m ref) <= 10 * m + 11 * Z.of_nat (length d)
  (* a sector grows by at most one state *)
  /\ (forall q, bget L (truncate L d m ref) q <= bget L d q + 1)
  (* nothing changes when the space is already small enough *)
  /\ (n_bonds L d <= m -> truncate L d m ref = d)
  (* otherwise every sector gets its proportional share, rounded up *)
  /\ (forall q v, m < n_bonds L d -> In (q, v) d ->
        10 * v * m < 10 * n_bonds L d * bget L (truncate L d m None) q <= 10 * v * m + 11 * n_bonds L d)
  (* a reference caps the sectors of a truncated space *)
  /\ (forall r q, m < n_bonds L d -> In q (map fst d) ->
        bget L (truncate L d m (Some r)) q = Z.min (bget L (truncate L d m None) q) (bget L r q)).
Proof.
  intros L d m ref Hd Hm. split; [now apply truncate_total|]. split; [intros; now apply truncate_get_le|].
  split; [|split; [intros; now apply truncate_get_bounds|intros; now apply truncate_get_ref]].
  intros H. unfold truncate. destruct (Z.ltb_spec m (n_bonds L d)); [lia|reflexivity].
Qed.
Print Assumptions c09_truncate_bound.

Theorem c09_truncate_no_keep_bound : forall (L : Label) (d : dict L Z) (m : Z) (ref : option (dict L Z)), wf L d -> 0 <= m ->
  10 * n_bonds L (truncate_no_keep L d m ref) <= 10 * m + 6 * Z.of_nat (length d)
  /\ (forall q, bget L (truncate_no_keep L d m ref) q <= bget L d q)
  /\ (n_bonds L d <= m -> truncate_no_keep L d m ref = d)
  /\ wf L (truncate_no_keep L d m None).
Proof.
  intros L d m ref Hd Hm. split; [now apply truncate_no_keep_total|]. split; [intros; now apply truncate_no_keep_le|].
  split; [|now apply truncate_no_keep_wf].
  intros H. unfold truncate_no_keep. destruct (Z.ltb_spec m (n_bonds L d)); [lia|reflexivity].
Qed.
Print Assumptions c09_truncate_no_keep_bound.

(* FINDING: "truncating never enlarges a sector" is false: truncating 1000 states to 999 turns a sector of 20 states into 21 *)
Theorem c09_truncate_never_enlarges_refuted :
  exists (d : dict U1_label Z) (m q : Z), wf U1_label d /\ 0 <= m < n_bonds U1_label d
    /\ bget U1_label d q < bget U1_label (truncate U1_label d m None) q.
Proof.
  exists [(0, 20); (1, 980)], 999, 0. split; [|split].
  - split; [cbn; repeat constructor; cbn; intuition congruence|intros p H; cbn in H; intuition (subst; cbn; lia)].
  - vm_compute. intuition congruence.
  - vm_compute. reflexivity.
Qed.
Print Assumptions c09_truncate_never_enlarges_refuted.

(* FINDING: the requested dimension can be exceeded by more than one state per sector: 11 sectors of one state truncated
   to 10 states become 22 states *)
Theorem c09_truncate_respects_dimension_refuted :
  exists (d : dict U1_label Z) (m : Z), wf U1_label d /\ 0 <= m < n_bonds U1_label d
    /\ m + Z.of_nat (length d) < n_bonds U1_label (truncate U1_label d m None).
Proof.
  exists (map (fun i => (Z.of_nat i, 1)) (seq 0 11)), 10.
  assert (E: forall l : list (Z*Z), forallb (fun p => 0 <? snd p) l = true -> forall p, In p l -> 0 < snd p).
  { intros l H p Hp. rewrite forallb_forall in H. apply Z.ltb_lt. now apply H. }
  split; [split|split].
  - cbn. repeat constructor; cbn; intuition congruence.
  - apply E. vm_compute. reflexivity.
  - vm_compute. intuition congruence.
  - vm_compute. reflexivity.
Qed.
Print Assumptions c09_truncate_respects_dimension_refuted.
