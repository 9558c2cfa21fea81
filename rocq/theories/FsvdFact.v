(** Lemmas on the decomposition of fermion tensors: the transposed tensor, QR, SVD of the sectors. *)
From Coq Require Import ZArith Bool List Lia Permutation Ring.
From Verif Require Import SymModel SymProofs DictLib OptLib IndexLib RingLib OrdLib BondModel FuseModel FuseProofs BlockModel BlockProofs BlockProps
  StructModel StructProofs SignModel SignProofs SignProps TruncModel TruncProofs FermTModel FermTProofs FermNetProofs FermDaggerProofs FermTProps MpsModel CanonModel CanonProofs FuseTProps FsvdModel FsvdProofs.
Import ListNotations.
Open Scope Z_scope.

Lemma zlist_eqb_true : forall a b, zlist_eqb a b = true -> a = b.
Proof. induction a as [|x a IH]; intros [|y b] H; cbn in H; try discriminate; [reflexivity|]. apply andb_true_iff in H. destruct H as [H1 H2]. apply Z.eqb_eq in H1. subst. f_equal. now apply IH. Qed.

Section Tr.
Variable R : CRing.
Variable L : Label.
Variable fermion : bool.
Variables (t : ftensor R L) (n : Z) (dm : Z -> L -> Z) (left right : list Z).
Hypothesis W : wf_tensor R L n dm (fst t).
Hypothesis ND : NoDup (map fst (fst t)).
Hypothesis Pos : forall b, In b (fst t) -> Forall (fun s => 0 < s) (nshape (snd b)).
Hypothesis Lp : Z.of_nat (length (snd t)) = n.
Hypothesis Ne : fst t <> [].
Notation axes := (left ++ right).
Hypothesis Pm : Permutation (zrange n) axes.
Notation nt := (maybe_transpose R L fermion t left right).
Definition dmt (i : Z) (q : L) : Z := dm (nth (Z.to_nat i) axes 0) q.

Lemma tr_ndim : ndim R L (fst t) = n.
Proof. apply (ndim_wf R L n dm); auto. Qed.
Lemma axes_length : length axes = Z.to_nat n.
Proof. rewrite <- (Permutation_length Pm). apply zrange_length. Qed.
Lemma n_nonneg : 0 <= n. Proof. destruct (fst t) as [|b l] eqn:E; [congruence|]. destruct (W b) as [A _]; [now left|]. lia. Qed.
Lemma tr_cases : (axes = zrange n /\ nt = t) \/ nt = ft_transpose R L fermion axes t.
Proof. unfold maybe_transpose. rewrite tr_ndim. destruct (zlist_eqb axes (zrange n)) eqn:E; [left|right; reflexivity]. apply zlist_eqb_true in E. auto. Qed.
Lemma tr_wf : wf_tensor R L n dmt (fst nt).
Proof.
  destruct tr_cases as [[E ->]| ->].
  - intros b Hb. destruct (W b Hb) as [A B]. split; [exact A|]. rewrite B. unfold shape_of. apply map_ext_in. intros [i q] Hi. apply in_combine_l, in_zrange in Hi. cbn [fst snd]. unfold dmt. rewrite E.
    f_equal. rewrite <- (map_id (zrange n)). now rewrite nth_zrange_map.
  - intros b Hb. apply in_map_iff in Hb. destruct Hb as (b0 & <- & Hb). destruct (W b0 Hb) as [A B]. cbn [fst snd]. split; [rewrite pick_length, axes_length; pose proof n_nonneg; lia|].
    cbn [nshape nd_phase nd_transpose nd_map]. rewrite B, (pick_shape_of L n dm (fst b0) axes A) by (intros i Hi; now apply (perm_range n axes Pm)).
    unfold shape_of. rewrite <- (pick_all Z 0 axes) at 1. rewrite axes_length. unfold pick at 1. rewrite combine_map_l, map_map. rewrite Z2Nat.id by apply n_nonneg. reflexivity.
Qed.
Lemma tr_nodup : NoDup (map fst (fst nt)).
Proof.
  destruct tr_cases as [[E ->]| ->]; [exact ND|]. unfold ft_transpose. cbn [fst]. rewrite map_map. cbn [fst]. rewrite <- map_map with (f := fst) (g := pick (q0 L) axes).
  assert (G : forall l, NoDup l -> (forall q, In q l -> Z.of_nat (length q) = n) -> NoDup (map (pick (q0 L) axes) l)).
  { induction l as [|q l IH]; intros N H; [constructor|]. apply NoDup_cons_iff in N. destruct N as [N1 N2]. cbn. constructor.
    - intros I. apply in_map_iff in I. destruct I as (q' & E & I). apply (pick_inj n axes Pm) in E; [rewrite E in I; contradiction|apply H; now right|apply H; now left].
    - apply IH; auto. intros q' Hq. apply H. now right. }
  apply G; [exact ND|]. intros q Hq. apply in_map_iff in Hq. destruct Hq as (b & <- & Hb). now apply W.
Qed.
Lemma tr_pos : forall b, In b (fst nt) -> Forall (fun s => 0 < s) (nshape (snd b)).
Proof.
  destruct tr_cases as [[E ->]| ->]; [exact Pos|]. intros b Hb. apply in_map_iff in Hb. destruct Hb as (b0 & <- & Hb). cbn [snd nshape nd_phase nd_transpose nd_map].
  destruct (W b0 Hb) as [A B]. assert (Ln : Z.of_nat (length (nshape (snd b0))) = n) by (rewrite B, shape_of_length, zrange_length; lia).
  apply Forall_forall. intros x Hx. apply in_map_iff in Hx. destruct Hx as (i & <- & Hi). pose proof (Pos b0 Hb) as P. rewrite Forall_forall in P. apply P. apply nth_In. apply (perm_range n axes Pm) in Hi. lia.
Qed.
Lemma tr_pat : snd nt = map (sign_of (snd t)) axes.
Proof.
  destruct tr_cases as [[E ->]| ->]; [|reflexivity]. rewrite E. rewrite <- (pick_all bool false (snd t)) at 1. unfold pick. now rewrite Lp.
Qed.
Lemma tr_some : fst nt <> [].
Proof. destruct tr_cases as [[E ->]| ->]; [exact Ne|]. unfold ft_transpose. cbn [fst]. intros H. apply map_eq_nil in H. contradiction. Qed.
Lemma tr_elem : forall qs xs, Z.of_nat (length qs) = n -> Z.of_nat (length xs) = n ->
  elem R L (fst nt) (pick (q0 L) axes qs) (pick 0 axes xs) = signed (fermion && exchanged (odd_legs L qs) axes) (elem R L (fst t) qs xs).
Proof.
  intros qs xs Hq Hx. destruct tr_cases as [[E ->]| ->]; [|now apply (ft_transpose_elem R L fermion t n dm)].
  rewrite E, (ex_sorted _ (zrange n)) by apply zrange_sorted. rewrite andb_false_r. cbn [signed]. rewrite <- Hq at 1. rewrite <- Hx. now rewrite !pick_all.
Qed.
Lemma tr_labels : forall b, In b (fst nt) -> exists b0, In b0 (fst t) /\ fst b = pick (q0 L) axes (fst b0).
Proof.
  intros b Hb. destruct tr_cases as [[E X]|X]; rewrite X in Hb.
  - exists b. split; [exact Hb|]. rewrite E. destruct (W b Hb) as [A _]. rewrite <- A. symmetry. apply pick_all.
  - apply in_map_iff in Hb. destruct Hb as (b0 & <- & Hb). exists b0. auto.
Qed.
Lemma tr_charge : forall dq, (forall b, In b (fst t) -> signed_total L (snd t) (fst b) = dq) -> forall b, In b (fst nt) -> signed_total L (snd nt) (fst b) = dq.
Proof.
  intros dq H b Hb. destruct (tr_labels b Hb) as (b0 & H0 & E). rewrite E, tr_pat, <- (H b0 H0). destruct (W b0 H0) as [A _].
  assert (E2 : signed_total L (snd t) (fst b0) = signed_total L (map (sign_of (snd t)) (zrange n)) (pick (q0 L) (zrange n) (fst b0))).
  { f_equal; [change (snd t = pick false (zrange n) (snd t)); rewrite <- Lp; symmetry; apply pick_all|rewrite <- A; symmetry; apply pick_all]. }
  rewrite E2. unfold signed_total, pick. rewrite !combine_map_map, !map_map. cbn [fst snd]. apply lsum_perm. apply Permutation_map. now apply Permutation_sym.
Qed.
Lemma dmt_rows : forall ql, length ql = length left -> rshape L (length left) dmt ql = shape_of L dm left ql.
Proof.
  intros ql H. unfold rshape, shape_of. rewrite <- (pick_all Z 0 left) at 2. unfold pick. rewrite combine_map_l, map_map. apply map_ext_in. intros [i q] Hi. apply in_combine_l, in_zrange in Hi. cbn [fst snd]. unfold dmt. now rewrite app_nth1 by lia.
Qed.
Lemma dmt_cols : forall qr, length qr = length right -> cshape L (length left) n dmt qr = shape_of L dm right qr.
Proof.
  intros qr H. unfold cshape, shape_of. pose proof axes_length as A. rewrite app_length in A. pose proof n_nonneg. replace (n - Z.of_nat (length left)) with (Z.of_nat (length right)) by lia.
  rewrite <- (pick_all Z 0 right) at 2. unfold pick. rewrite !combine_map_l, !map_map. apply map_ext_in. intros [i q] Hi. apply in_combine_l, in_zrange in Hi. cbn [fst snd]. unfold dmt. rewrite app_nth2 by lia. do 2 f_equal. lia.
Qed.
Lemma tr_first : forall X (d : X) l, firstn (length left) (pick d axes l) = pick d left l /\ skipn (length left) (pick d axes l) = pick d right l.
Proof.
  intros X d l. unfold pick. rewrite map_app, firstn_app, skipn_app, map_length, Nat.sub_diag. cbn [firstn skipn]. rewrite app_nil_r. split; [now rewrite <- (map_length (fun k => nth (Z.to_nat k) l d) left), firstn_all|].
  rewrite <- (map_length (fun k => nth (Z.to_nat k) l d) left) at 1. now rewrite skipn_all.
Qed.
(* every block and index of the new tensor *)
Lemma tr_split : forall (X : Type) (d : X) l, Z.of_nat (length l) = n -> pick d axes l = pick d left l ++ pick d right l.
Proof. intros. unfold pick. now rewrite map_app. Qed.
End Tr.

Section Qr.
Variable R : CRing.
Add Ring RRqr : (rth R).
Variable L : Label.
Notation sector := (sector R L).
Variable cj : R -> R.
Variable qr : nd R -> nd R * nd R.
Hypothesis HQ : exact_qr R cj qr.

Lemma qr_mod_ok : forall lq a m n, nshape a = [m; n] -> 0 < m -> 0 < n -> let u := fst (qr_mod R qr lq a) in let v := snd (qr_mod R qr lq a) in
  exists w, 0 < w /\ nshape u = [m; w] /\ nshape v = [w; n] /\
  (forall i j, 0 <= i < m -> 0 <= j < n -> nget a [i; j] = bsum (zrange w) (fun z => rmul R (nget u [i; z]) (nget v [z; j]))) /\
  (forall z z', 0 <= z < w -> 0 <= z' < w ->
    (if lq then bsum (zrange n) (fun j => rmul R (cj (nget v [z; j])) (nget v [z'; j])) else bsum (zrange m) (fun i => rmul R (cj (nget u [i; z])) (nget u [i; z']))) = if z =? z' then r1 R else r0 R).
Proof.
  intros lq a m n E Hm Hn. unfold qr_mod. destruct lq.
  - assert (ET : nshape (nd_T R a) = [n; m]) by (exact (proj1 (nget_T R a m n 0 0 E))).
    destruct (HQ _ _ _ ET Hn Hm) as (w & Hw & E1 & E2 & Ef & Ei). destruct (qr (nd_T R a)) as [r q]. cbn [fst snd] in *. exists w. split; [exact Hw|].
    split; [exact (proj1 (nget_T R q w m 0 0 E2))|]. split; [exact (proj1 (nget_T R r n w 0 0 E1))|]. split.
    + intros i j Hi Hj. rewrite <- (proj2 (nget_T R a m n i j E)), Ef by auto. apply bsum_ext. intros z _. rewrite (proj2 (nget_T R q w m z i E2)), (proj2 (nget_T R r n w j z E1)). ring.
    + intros z z' Hz Hz'. rewrite <- (Ei z z' Hz Hz'). apply bsum_ext. intros j _. now rewrite !(proj2 (nget_T R r n w _ _ E1)).
  - destruct (HQ _ _ _ E Hm Hn) as (w & Hw & E1 & E2 & Ef & Ei). exists w. auto.
Qed.
Variables (p : pattern) (k : nat) (dql : L) (t : list (list L * nd R)) (n : Z) (dm : Z -> L -> Z).
Hypothesis W : wf_tensor R L n dm t.
Hypothesis ND : NoDup (map fst t).
Hypothesis Kn : Z.of_nat k < n.
Hypothesis Pos : forall b, In b t -> Forall (fun s => 0 < s) (nshape (snd b)).
Hypothesis Lp : Z.of_nat (length p) = n.
Hypothesis Ne : t <> [].
Variable lq : bool.
Notation secs := (sectors R L p k dql t).
Notation sec_ok := (sec_ok R L p k dql t n dm).
Notation fs := (map (fun s => (s, qr_mod R qr lq (sc_data s))) secs).
Lemma sec_qr : forall s, sec_ok s -> let u := fst (qr_mod R qr lq (sc_data s)) in let v := snd (qr_mod R qr lq (sc_data s)) in let w := width R L (s, qr_mod R qr lq (sc_data s)) in
  0 < w /\ nshape u = [sec_r R L s; w] /\ nshape v = [w; sec_c R L s] /\
  (forall i j, 0 <= i < sec_r R L s -> 0 <= j < sec_c R L s -> nval (sc_data s) [i; j] = bsum (zrange w) (fun z => rmul R (nget u [i; z]) (nget v [z; j]))) /\
  (forall z z', 0 <= z < w -> 0 <= z' < w ->
    (if lq then bsum (zrange (sec_c R L s)) (fun j => rmul R (cj (nget v [z; j])) (nget v [z'; j])) else bsum (zrange (sec_r R L s)) (fun i => rmul R (cj (nget u [i; z])) (nget u [i; z']))) = if z =? z' then r1 R else r0 R).
Proof.
  intros s O u v w. destruct (ok_pos R L p k dql t n dm W Kn Pos s O) as [P1 P2]. pose proof (ok_sh _ _ _ _ _ _ _ _ s O) as Sh.
  destruct (qr_mod_ok lq (sc_data s) _ _ Sh P1 P2) as (w' & A & B & C & D & E). assert (Ew : w = w') by (unfold w, width; cbn [fst snd]; rewrite B; reflexivity). rewrite <- Ew in *.
  split; [exact A|]. split; [exact B|]. split; [exact C|]. split; [|exact E]. intros i j Hi Hj. rewrite <- D by auto. symmetry. apply nget_in. rewrite Sh. now apply in_shape2.
Qed.
Lemma fs_q : map (fun f => sc_q (fst f)) fs = map sc_q secs.
Proof. rewrite map_map. reflexivity. Qed.
Lemma fs_nodup : NoDup (map (fun f => sc_q (fst f)) fs).
Proof. rewrite fs_q. apply (secs_nodup R L p k dql t n dm); auto. Qed.
Lemma fs_ok : forall f, In f fs -> fac_ok R L p k dql t n dm f.
Proof.
  intros f Hf. apply in_map_iff in Hf. destruct Hf as (s & <- & Hs). apply (secs_ok R L p k dql t n dm) in Hs; auto. pose proof (sec_qr s Hs) as Q. cbv zeta in Q. unfold fac_ok. cbn [fst snd]. tauto.
Qed.
Lemma fs_some : fs <> [].
Proof.
  intros X. apply map_eq_nil in X. destruct t as [|b l] eqn:E; [congruence|]. rewrite <- E in *. destruct (secs_has R L p k dql t n dm W ND Kn Pos b) as (s & Hs & _); [rewrite E; now left|]. rewrite X in Hs. destruct Hs.
Qed.
Lemma qr_value : forall fermion, exists r, ft_tensordot R L fermion (fst (assemble R L p k fs)) (snd (assemble R L p k fs)) [-1] [0] = Some r /\ snd r = p /\ NoDup (map fst (fst r)) /\
  forall ql qr xl xr, length ql = k -> Z.of_nat (length qr) = n - Z.of_nat k -> length xl = k -> Z.of_nat (length xr) = n - Z.of_nat k ->
  elem R L (fst r) (ql ++ qr) (xl ++ xr) = elem R L t (ql ++ qr) (xl ++ xr).
Proof.
  intros fermion. destruct (UV_value R L p k dql t n dm W Kn Pos Lp fs fs_ok fs_nodup fs_some fermion) as (r & E & Pr & Nr & _ & V). exists r. split; [exact E|]. split; [exact Pr|]. split; [exact Nr|].
  intros ql qr0 xl xr H1 H2 H3 H4. rewrite V by auto. rewrite (tensor_value R L p k dql t n dm W ND Kn Pos) by auto. rewrite bsum_map. apply bsum_ext. intros s Hs. cbn [fst snd].
  apply (secs_ok R L p k dql t n dm W ND Kn Pos) in Hs. destruct (rpos R L s ql xl) as [i|] eqn:Ei; [|reflexivity]. destruct (cpos R L s qr0 xr) as [j|] eqn:Ej; [|reflexivity]. cbn [at_pos].
  pose proof (sec_qr s Hs) as Q. cbv zeta in Q. symmetry. apply Q.
  - exact (rpos_range R L p k dql t n dm W Kn Pos s ql xl i Hs Ei).
  - exact (cpos_range R L p k dql t n dm W Kn Pos s qr0 xr j Hs Ej).
Qed.
End Qr.

(** ** sums over the rows, the columns and all elements of the sectors *)
Section Sum.
Variable R : CRing.
Add Ring RRsum : (rth R).
Variable L : Label.
Notation sector := (sector R L).
Variables (p : pattern) (k : nat) (dql : L) (t : list (list L * nd R)) (n : Z) (dm : Z -> L -> Z).
Hypothesis W : wf_tensor R L n dm t.
Hypothesis ND : NoDup (map fst t).
Hypothesis Kn : Z.of_nat k < n.
Hypothesis Pos : forall b, In b t -> Forall (fun s => 0 < s) (nshape (snd b)).
Notation sec_ok := (sec_ok R L p k dql t n dm).
Lemma tup_dec : forall a b : list L, {a = b} + {a <> b}.
Proof. intros a b. destruct (tup_eqb_spec L a b); [left|right]; assumption. Qed.
Lemma map_sum : forall (m : dict (list L) (Z * Z * list Z)) len (sh : list L -> list Z) (keys : list (list L)) (h : Z -> R), NoDup (map fst m) -> nonneg_shapes L m -> layout L 0 m len ->
  (forall key st ed s, In (key, (st, ed, s)) m -> s = sh key) -> NoDup keys -> (forall key, In key (map fst m) -> In key keys) ->
  bsum keys (fun key => bsum (all_idx (sh key)) (fun x => at_row R (pos_in L m key x) h)) = bsum (zrange len) h.
Proof.
  intros m len sh keys h Nm Nn Ly Sh Nk Ck.
  pose proof (layout_sum L R m 0 len h Nn Ly) as S. rewrite Z.sub_0_r in S.
  transitivity (bsum (map (fun x => 0 + x) (zrange len)) h); [|rewrite bsum_map; apply bsum_ext; intros; f_equal; lia]. rewrite S.
  rewrite (bsum_same R _ tup_dec keys (map fst m)); auto.
  - rewrite bsum_map. apply bsum_ext. intros [key [[st ed] s]] He. cbn [fst snd]. rewrite <- (Sh _ _ _ _ He). apply bsum_ext. intros x Hx.
    rewrite (pos_in_at L m key x st ed s Nm He); [reflexivity|]. apply in_all_idx in Hx. exact Hx.
  - intros key Hk Hn. apply bsum_zero. intros x _. unfold pos_in. destruct (dget (tup_eqb L) m key) as [v|] eqn:E; [|reflexivity]. exfalso. apply Hn. apply (dget_in _ (tup_eqb_spec L)) in E. apply in_map_iff. exists (key, v). auto.
  - intros key Hk Hn. exfalso. auto.
Qed.
Variables (Lr Lc : list (list L)).
Hypothesis Nr : NoDup Lr.
Hypothesis Nc : NoDup Lc.
Hypothesis Hr : forall b, In b t -> In (firstn k (fst b)) Lr.
Hypothesis Hc : forall b, In b t -> In (skipn k (fst b)) Lc.
Lemma rows_sum : forall s h, sec_ok s -> bsum Lr (fun ql => bsum (all_idx (rshape L k dm ql)) (fun xl => at_row R (rpos R L s ql xl) h)) = bsum (zrange (sec_r R L s)) h.
Proof.
  intros s h O. rewrite <- (map_sum (sc_rows s) (sec_r R L s) (fun key => rshape L k dm (removelast key)) (map (fun ql => ql ++ [sc_q s]) Lr) h).
  - rewrite bsum_map. apply bsum_ext. intros ql _. rewrite removelast_last. reflexivity.
  - apply (ok_nr _ _ _ _ _ _ _ _ s O).
  - exact (ok_nnr R L p k dql t n dm W Kn Pos s O).
  - apply (ok_lr _ _ _ _ _ _ _ _ s O).
  - intros key st ed sh H. destruct (ok_row _ _ _ _ _ _ _ _ s O _ _ _ _ H) as (b & _ & _ & -> & ->). now rewrite removelast_last.
  - apply NoDup_map_inj; [exact Nr|]. intros a b _ _ E. now apply app_inj_tail in E.
  - intros key H. apply in_map_iff in H. destruct H as ([key' [[st ed] sh]] & E & H). cbn in E. subst key'. destruct (ok_row _ _ _ _ _ _ _ _ s O _ _ _ _ H) as (b & B & _ & -> & _).
    apply in_map_iff. eauto.
Qed.
Lemma cols_sum : forall s h, sec_ok s -> bsum Lc (fun qr => bsum (all_idx (cshape L k n dm qr)) (fun xr => at_row R (cpos R L s qr xr) h)) = bsum (zrange (sec_c R L s)) h.
Proof.
  intros s h O. rewrite <- (map_sum (sc_cols s) (sec_c R L s) (fun key => cshape L k n dm (tl key)) (map (fun ql => sc_q s :: ql) Lc) h).
  - rewrite bsum_map. apply bsum_ext. intros ql _. reflexivity.
  - apply (ok_nc _ _ _ _ _ _ _ _ s O).
  - exact (ok_nnc R L p k dql t n dm W Kn Pos s O).
  - apply (ok_lc _ _ _ _ _ _ _ _ s O).
  - intros key st ed sh H. destruct (ok_col _ _ _ _ _ _ _ _ s O _ _ _ _ H) as (b & _ & _ & -> & ->). reflexivity.
  - apply NoDup_map_inj; [exact Nc|]. intros a b _ _ E. congruence.
  - intros key H. apply in_map_iff in H. destruct H as ([key' [[st ed] sh]] & E & H). cbn in E. subst key'. destruct (ok_col _ _ _ _ _ _ _ _ s O _ _ _ _ H) as (b & B & _ & -> & _).
    apply in_map_iff. eauto.
Qed.
Notation grid_sum f := (bsum Lr (fun ql => bsum (all_idx (rshape L k dm ql)) (fun xl => bsum Lc (fun qr => bsum (all_idx (cshape L k n dm qr)) (fun xr => f ql xl qr xr))))).
(* phi : a function of several sums over the sectors *)
Lemma quad_sum : forall X (sec : X -> sector) (l : list X) (g g' : X -> Z -> Z -> R) (phi : R -> R -> R), (forall x, In x l -> sec_ok (sec x)) -> NoDup (map (fun x => sc_q (sec x)) l) -> phi (r0 R) (r0 R) = r0 R ->
  grid_sum (fun ql xl qr xr => phi (bsum l (fun x => at_pos R (rpos R L (sec x) ql xl) (cpos R L (sec x) qr xr) (g x)))
    (bsum l (fun x => at_pos R (rpos R L (sec x) ql xl) (cpos R L (sec x) qr xr) (g' x)))) =
  bsum l (fun x => bsum (zrange (sec_r R L (sec x))) (fun i => bsum (zrange (sec_c R L (sec x))) (fun j => phi (g x i j) (g' x i j)))).
Proof.
  intros X sec l g g' phi O N P0.
  transitivity (grid_sum (fun ql xl qr xr => bsum l (fun x => at_pos R (rpos R L (sec x) ql xl) (cpos R L (sec x) qr xr) (fun i j => phi (g x i j) (g' x i j))))).
  { apply bsum_ext. intros ql _. apply bsum_ext. intros xl _. apply bsum_ext. intros qr _. apply bsum_ext. intros xr _. induction l as [|x l IH]; [rewrite !bsum_nil; exact P0|]. rewrite !bsum_cons. cbn [map] in N. apply NoDup_cons_iff in N. destruct N as [N1 N2].
    assert (IH' := IH (fun y Hy => O y (or_intror Hy)) N2). clear IH.
    destruct (rpos R L (sec x) ql xl) as [i|] eqn:E.
    - destruct (cpos R L (sec x) qr xr) as [j|] eqn:E2.
      + assert (Zr : forall gg : X -> Z -> Z -> R, bsum l (fun x => at_pos R (rpos R L (sec x) ql xl) (cpos R L (sec x) qr xr) (gg x)) = r0 R).
        { intros gg. apply bsum_zero. intros y Hy. destruct (rpos R L (sec y) ql xl) as [i'|] eqn:E'; [|reflexivity]. exfalso. apply N1.
          rewrite (rpos_label R L p k dql t n dm (sec x) ql xl i (O x (or_introl eq_refl)) E). rewrite <- (rpos_label R L p k dql t n dm (sec y) ql xl i' (O y (or_intror Hy)) E'). now apply (in_map (fun x => sc_q (sec x))). }
        rewrite (Zr g), (Zr g'), (Zr (fun x i j => phi (g x i j) (g' x i j))). cbn [at_pos]. replace (radd R (g x i j) (r0 R)) with (g x i j) by ring. replace (radd R (g' x i j) (r0 R)) with (g' x i j) by ring. ring.
      + cbn [at_pos]. rewrite !(Radd_0_l (rth R)). exact IH'.
    - cbn [at_pos]. rewrite !(Radd_0_l (rth R)). exact IH'. }
  transitivity (bsum l (fun x => bsum Lr (fun ql => bsum (all_idx (rshape L k dm ql)) (fun xl => at_row R (rpos R L (sec x) ql xl) (fun i => bsum Lc (fun qr => bsum (all_idx (cshape L k n dm qr)) (fun xr => at_row R (cpos R L (sec x) qr xr) (fun j => phi (g x i j) (g' x i j))))))))).
  { rewrite (bsum_swap R _ _ l). apply bsum_ext. intros ql _. rewrite (bsum_swap R _ _ l). apply bsum_ext. intros xl _.
    transitivity (bsum l (fun x => bsum Lc (fun qr => bsum (all_idx (cshape L k n dm qr)) (fun xr => at_pos R (rpos R L (sec x) ql xl) (cpos R L (sec x) qr xr) (fun i j => phi (g x i j) (g' x i j)))))).
    - rewrite (bsum_swap R _ _ l). apply bsum_ext. intros qr _. rewrite (bsum_swap R _ _ l). apply bsum_ext. intros xr _. reflexivity.
    - apply bsum_ext. intros x _. destruct (rpos R L (sec x) ql xl) as [i|]; cbn [at_row]; [apply bsum_ext; intros qr _; apply bsum_ext; intros xr _; destruct (cpos R L (sec x) qr xr); reflexivity|].
      apply bsum_zero. intros qr _. apply bsum_zero. reflexivity. }
  apply bsum_ext. intros x Hx. rewrite <- (rows_sum (sec x) _ (O x Hx)). apply bsum_ext. intros ql _. apply bsum_ext. intros xl _. destruct (rpos R L (sec x) ql xl) as [i|]; [cbn [at_row]|reflexivity]. apply (cols_sum (sec x)). auto.
Qed.
End Sum.

(** ** the factors: charges and isometry *)
Section Charge.
Variable L : Label.
Lemma signed_app : forall p1 p2 (q1 q2 : list L), length p1 = length q1 -> signed_total L (p1 ++ p2) (q1 ++ q2) = qadd L (signed_total L p1 q1) (signed_total L p2 q2).
Proof. intros p1 p2 q1 q2 El. unfold signed_total. rewrite <- lsum_app, <- map_app. f_equal. f_equal. now apply combine_app'. Qed.
Lemma signed_one : forall u (q : L), signed_total L [u] [q] = if u then q else qneg L q.
Proof. intros u q. unfold signed_total, lsum. cbn. apply FermTraceProofs.qadd_0_r. Qed.
Lemma cancel1 : forall a b : L, qadd L a (qneg L (qadd L a (qneg L b))) = b.
Proof.
  intros a b. transitivity (qadd L (qadd L (qneg L (qadd L a (qneg L b))) (qadd L a (qneg L b))) b).
  - rewrite <- qadd_assoc. rewrite <- (qadd_assoc L a (qneg L b) b), qadd_neg, FermTraceProofs.qadd_0_r. apply qadd_comm.
  - rewrite qadd_neg. apply qadd_0_l.
Qed.
Lemma cancel2 : forall a b c : L, qadd L (qadd L a (qneg L b)) c = qadd L (qadd L a c) (qneg L b).
Proof. intros. rewrite <- !qadd_assoc. f_equal. apply qadd_comm. Qed.
End Charge.
Section Iso.
Variable R : CRing.
Add Ring RRiso : (rth R).
Variable L : Label.
Notation sector := (sector R L).
Variables (p : pattern) (k : nat) (dql : L) (t : list (list L * nd R)) (n : Z) (dm : Z -> L -> Z).
Hypothesis W : wf_tensor R L n dm t.
Hypothesis Kn : Z.of_nat k < n.
Hypothesis Pos : forall b, In b t -> Forall (fun s => 0 < s) (nshape (snd b)).
Hypothesis Lp : Z.of_nat (length p) = n.
Variable fs : list (sector * (nd R * nd R)).
Hypothesis F : forall f, In f fs -> fac_ok R L p k dql t n dm f.
Hypothesis N : NoDup (map (fun f => sc_q (fst f)) fs).
Notation U := (fst (assemble R L p k fs)).
Notation V := (snd (assemble R L p k fs)).
Lemma left_label_sum : forall qs, (k <= length qs)%nat -> left_label L p k dql qs = qadd L (signed_total L (firstn k p) (firstn k qs)) (qneg L dql).
Proof. intros qs H. unfold left_label. rewrite <- signed_total_compute, signed_app, signed_one by (rewrite !firstn_length; lia). reflexivity. Qed.
Lemma U_charge : forall b, In b (fst U) -> signed_total L (snd U) (fst b) = dql.
Proof.
  intros b Hb. unfold assemble in *. cbn [fst snd] in *. apply in_flat_map in Hb. destruct Hb as (f & Hf & Hb). unfold u_blocks in Hb. apply in_map_iff in Hb. destruct Hb as ([key [[st ed] sh]] & <- & He). cbn [fst snd].
  destruct (F f Hf) as (O & _). destruct (ok_row _ _ _ _ _ _ _ _ _ O _ _ _ _ He) as (b0 & B1 & B2 & -> & _). destruct (W b0 B1) as [Lb _].
  rewrite signed_app, signed_one, <- B2, left_label_sum by (rewrite ?firstn_length; lia). apply cancel1.
Qed.
Lemma V_charge : forall dq, (forall b, In b t -> signed_total L p (fst b) = dq) -> forall b, In b (fst V) -> signed_total L (snd V) (fst b) = qsub L dq dql.
Proof.
  intros dq Hd b Hb. unfold assemble in *. cbn [fst snd] in *. apply in_flat_map in Hb. destruct Hb as (f & Hf & Hb). unfold v_blocks in Hb. apply in_map_iff in Hb. destruct Hb as ([key [[st ed] sh]] & <- & He). cbn [fst snd].
  destruct (F f Hf) as (O & _). destruct (ok_col _ _ _ _ _ _ _ _ _ O _ _ _ _ He) as (b0 & B1 & B2 & -> & _). destruct (W b0 B1) as [Lb _].
  change (true :: skipn k p) with ([true] ++ skipn k p). change (sc_q (fst f) :: skipn k (fst b0)) with ([sc_q (fst f)] ++ skipn k (fst b0)).
  rewrite signed_app, signed_one, <- B2, left_label_sum by (cbn [length]; lia). rewrite cancel2, <- signed_app, !firstn_skipn, (Hd b0 B1), qsub_def by (rewrite !firstn_length; lia). reflexivity.
Qed.
Lemma nodup_flat : forall X (g : X -> list (list L)) (key : X -> L) (lab : list L -> L) l, NoDup (map key l) -> (forall x, In x l -> NoDup (g x)) -> (forall x q, In x l -> In q (g x) -> lab q = key x) -> NoDup (flat_map g l).
Proof.
  intros X g key lab. induction l as [|x l IH]; intros Nk Ng Hl; [constructor|]. cbn [map flat_map] in *. apply NoDup_cons_iff in Nk. destruct Nk as [N1 N2]. apply nodup_app_intro'.
  - apply Ng. now left.
  - apply IH; auto; intros; [apply Ng|apply Hl]; auto; now right.
  - intros q H1 H2. apply in_flat_map in H2. destruct H2 as (y & Hy & H2). apply N1. rewrite <- (Hl x q (or_introl eq_refl) H1), (Hl y q (or_intror Hy) H2). now apply in_map.
Qed.
Lemma U_nodup : NoDup (map fst (fst U)).
Proof.
  unfold assemble. cbn [fst snd]. rewrite flat_map_concat_map, concat_map, map_map, <- flat_map_concat_map. apply (nodup_flat _ _ (fun f => sc_q (fst f)) (fun q => last q (q0 L))); [exact N| |].
  - intros f Hf. rewrite u_keys. apply (ok_nr _ _ _ _ _ _ _ _ _ (proj1 (F f Hf))).
  - intros f q Hf Hq. rewrite u_keys in Hq. apply in_map_iff in Hq. destruct Hq as ([key [[st ed] sh]] & <- & He). cbn [fst]. destruct (ok_row _ _ _ _ _ _ _ _ _ (proj1 (F f Hf)) _ _ _ _ He) as (b0 & _ & _ & -> & _). apply last_last.
Qed.
Lemma V_nodup : NoDup (map fst (fst V)).
Proof.
  unfold assemble. cbn [fst snd]. rewrite flat_map_concat_map, concat_map, map_map, <- flat_map_concat_map. apply (nodup_flat _ _ (fun f => sc_q (fst f)) (fun q => hd (q0 L) q)); [exact N| |].
  - intros f Hf. rewrite v_keys. apply (ok_nc _ _ _ _ _ _ _ _ _ (proj1 (F f Hf))).
  - intros f q Hf Hq. rewrite v_keys in Hq. apply in_map_iff in Hq. destruct Hq as ([key [[st ed] sh]] & <- & He). cbn [fst]. destruct (ok_col _ _ _ _ _ _ _ _ _ (proj1 (F f Hf)) _ _ _ _ He) as (b0 & _ & _ & -> & _). reflexivity.
Qed.
Variables (Lr Lc : list (list L)).
Hypothesis Nr : NoDup Lr.
Hypothesis Nc : NoDup Lc.
Hypothesis Kr : forall q, In q Lr -> length q = k.
Hypothesis Kc : forall q, In q Lc -> Z.of_nat (length q) = n - Z.of_nat k.
Hypothesis Hr : forall b, In b t -> In (firstn k (fst b)) Lr.
Hypothesis Hc : forall b, In b t -> In (skipn k (fst b)) Lc.
Variable cj : R -> R.
Hypothesis cj0 : cj (r0 R) = r0 R.
Lemma rows_len : forall ql xl, In ql Lr -> In xl (all_idx (rshape L k dm ql)) -> length xl = k.
Proof. intros ql xl H H'. apply in_all_idx, in_shape_length in H'. rewrite rshape_length in H'; auto. Qed.
Lemma cols_len : forall ql xl, In ql Lc -> In xl (all_idx (cshape L k n dm ql)) -> Z.of_nat (length xl) = n - Z.of_nat k.
Proof. intros ql xl H H'. apply in_all_idx, in_shape_length in H'. rewrite H'. apply (cshape_length L k n dm Kn). auto. Qed.
Lemma no_fac : forall c (g : sector * (nd R * nd R) -> R), ~ In c (map (fun f => sc_q (fst f)) fs) -> bsum fs (fun f' => if qeqb L (sc_q (fst f')) c then g f' else r0 R) = r0 R.
Proof. intros c g H. apply bsum_zero. intros f Hf. destruct (qeqb_spec L (sc_q (fst f)) c) as [<-|]; [|reflexivity]. exfalso. apply H. now apply (in_map (fun f => sc_q (fst f))). Qed.
Lemma bond_none : forall c, ~ In c (map (fun f => sc_q (fst f)) fs) -> bond_dim R L fs c = 0.
Proof. intros c H. unfold bond_dim. destruct (find _ fs) as [f|] eqn:E; [|reflexivity]. apply find_some in E. destruct E as [E1 E2]. destruct (qeqb_spec L (sc_q (fst f)) c) as [<-|]; [|discriminate]. exfalso. apply H. now apply (in_map (fun f => sc_q (fst f))). Qed.
Lemma lab_in : forall c, In c (map (fun f => sc_q (fst f)) fs) \/ ~ In c (map (fun f => sc_q (fst f)) fs).
Proof. intros c. destruct (in_dec (fun a b => ltac:(destruct (qeqb_spec L a b); [left|right]; assumption)) c (map (fun f => sc_q (fst f)) fs)); auto. Qed.
Definition delta (c c' : L) (a a' : Z) : R := if qeqb L c c' && (a =? a') && (0 <=? a) && (a <? bond_dim R L fs c) then r1 R else r0 R.
Lemma nget_col_out : forall (u : nd R) m w i a, nshape u = [m; w] -> ~ 0 <= a < w -> nget u [i; a] = r0 R.
Proof. intros u m w i a E H. apply nget_out. rewrite E. intros X. apply H. unfold in_shape in X. inversion X; subst. inversion H5; subst. assumption. Qed.
Lemma nget_row_out : forall (u : nd R) m w i a, nshape u = [w; m] -> ~ 0 <= a < w -> nget u [a; i] = r0 R.
Proof. intros u m w i a E H. apply nget_out. rewrite E. intros X. apply H. unfold in_shape in X. inversion X; subst. assumption. Qed.
Section Gen.
(* Ls: rows or columns; el: the elements of the factor; ps: positions; len, M: the number and the elements of the matrix *)
Variables (Ls : list (list L)) (shp : list L -> list Z) (el : list L -> L -> list Z -> Z -> R) (ps : sector -> list L -> list Z -> option Z)
  (len : sector -> Z) (M : sector * (nd R * nd R) -> Z -> Z -> R).
Hypothesis El : forall ql c xl a, In ql Ls -> In xl (all_idx (shp ql)) -> el ql c xl a =
  bsum fs (fun f => if qeqb L (sc_q (fst f)) c then at_row R (ps (fst f) ql xl) (fun i => M f i a) else r0 R).
Hypothesis Sum : forall f h, In f fs -> bsum Ls (fun ql => bsum (all_idx (shp ql)) (fun xl => at_row R (ps (fst f) ql xl) h)) = bsum (zrange (len (fst f))) h.
Hypothesis Dis : forall f f' ql xl i i', In f fs -> In f' fs -> In ql Ls -> ps (fst f) ql xl = Some i -> ps (fst f') ql xl = Some i' -> sc_q (fst f) = sc_q (fst f').
Hypothesis Out : forall f i a, In f fs -> ~ 0 <= a < width R L f -> M f i a = r0 R.
Hypothesis Iso : forall f z z', In f fs -> 0 <= z < width R L f -> 0 <= z' < width R L f -> bsum (zrange (len (fst f))) (fun i => rmul R (cj (M f i z)) (M f i z')) = if z =? z' then r1 R else r0 R.
Lemma gen_iso : forall c c' a a', bsum Ls (fun ql => bsum (all_idx (shp ql)) (fun xl => rmul R (cj (el ql c xl a)) (el ql c' xl a'))) = delta c c' a a'.
Proof.
  intros c c' a a'.
  transitivity (bsum Ls (fun ql => bsum (all_idx (shp ql)) (fun xl => rmul R (cj (bsum fs (fun f => if qeqb L (sc_q (fst f)) c then at_row R (ps (fst f) ql xl) (fun i => M f i a) else r0 R)))
    (bsum fs (fun f => if qeqb L (sc_q (fst f)) c' then at_row R (ps (fst f) ql xl) (fun i => M f i a') else r0 R))))).
  { apply bsum_ext. intros ql Hq. apply bsum_ext. intros xl Hx. now rewrite !El. }
  unfold delta. destruct (lab_in c) as [Hc1|Hc1].
  2:{ rewrite (bond_none c Hc1). replace ((0 <=? a) && (a <? 0)) with false by (destruct (Z.leb_spec 0 a), (Z.ltb_spec a 0); try reflexivity; lia). rewrite <- andb_assoc, (proj2 (andb_false_iff _ _)) by (right; destruct (Z.leb_spec 0 a), (Z.ltb_spec a 0); try reflexivity; lia).
      apply bsum_zero. intros ql _. apply bsum_zero. intros xl _. rewrite (no_fac c) by exact Hc1. rewrite cj0. ring. }
  apply in_map_iff in Hc1. destruct Hc1 as (f & <- & Hf).
  destruct (lab_in c') as [Hc2|Hc2].
  2:{ destruct (qeqb_spec L (sc_q (fst f)) c') as [<-|]; [exfalso; apply Hc2; now apply (in_map (fun f => sc_q (fst f)))|]. cbn [andb].
      apply bsum_zero. intros ql _. apply bsum_zero. intros xl _. rewrite (no_fac c') by exact Hc2. ring. }
  apply in_map_iff in Hc2. destruct Hc2 as (f' & <- & Hf').
  rewrite (bond_dim_at R L p k t n dm W Kn Lp fs N f Hf).
  transitivity (bsum Ls (fun ql => bsum (all_idx (shp ql)) (fun xl => rmul R (cj (at_row R (ps (fst f) ql xl) (fun i => M f i a))) (at_row R (ps (fst f') ql xl) (fun i => M f' i a'))))).
  { apply bsum_ext. intros ql _. apply bsum_ext. intros xl _. f_equal; [f_equal|]; [apply (one_fac R L fs N f (fun f => at_row R (ps (fst f) ql xl) (fun i => M f i a)))|apply (one_fac R L fs N f' (fun f => at_row R (ps (fst f) ql xl) (fun i => M f i a')))]; assumption. }
  destruct (qeqb_spec L (sc_q (fst f)) (sc_q (fst f'))) as [Eq|Nq]; cbn [andb].
  - assert (f = f') as <-. { clear -N Hf Hf' Eq. revert N Hf Hf'. induction fs as [|x l IH]; intros N I I'; [destruct I|]. cbn in N. apply NoDup_cons_iff in N. destruct N as [N1 N2]. destruct I as [->|I], I' as [->|I']; auto.
      + exfalso. apply N1. rewrite Eq. now apply (in_map (fun f => sc_q (fst f))). + exfalso. apply N1. rewrite <- Eq. now apply (in_map (fun f => sc_q (fst f))). }
    transitivity (bsum (zrange (len (fst f))) (fun i => rmul R (cj (M f i a)) (M f i a'))).
    { rewrite <- (Sum f) by exact Hf. apply bsum_ext. intros ql _. apply bsum_ext. intros xl _. destruct (ps (fst f) ql xl); cbn [at_row]; [reflexivity|ring]. }
    destruct (Z.leb_spec 0 a) as [A1|A1]; [destruct (Z.ltb_spec a (width R L f)) as [A2|A2]|].
    + rewrite !andb_true_r. destruct (Z.leb_spec 0 a') as [B1|B1]; [destruct (Z.ltb_spec a' (width R L f)) as [B2|B2]|].
      * now rewrite Iso.
      * destruct (Z.eqb_spec a a'); [lia|]. apply bsum_zero. intros i _. rewrite (Out f i a') by (auto; lia). ring.
      * destruct (Z.eqb_spec a a'); [lia|]. apply bsum_zero. intros i _. rewrite (Out f i a') by (auto; lia). ring.
    + rewrite andb_false_r. apply bsum_zero. intros i _. rewrite (Out f i a), cj0 by (auto; lia). ring.
    + rewrite andb_false_r. cbn [andb]. apply bsum_zero. intros i _. rewrite (Out f i a), cj0 by (auto; lia). ring.
  - apply bsum_zero. intros ql Hq. apply bsum_zero. intros xl _. destruct (ps (fst f) ql xl) as [i|] eqn:E1; cbn [at_row]; [|rewrite cj0; ring]. destruct (ps (fst f') ql xl) as [i'|] eqn:E2; cbn [at_row]; [|ring].
    exfalso. apply Nq. eapply Dis; eauto.
Qed.
End Gen.
Lemma U_iso : (forall f z z', In f fs -> 0 <= z < width R L f -> 0 <= z' < width R L f -> bsum (zrange (sec_r R L (fst f))) (fun i => rmul R (cj (nget (fst (snd f)) [i; z])) (nget (fst (snd f)) [i; z'])) = if z =? z' then r1 R else r0 R) ->
  forall c c' a a', bsum Lr (fun ql => bsum (all_idx (rshape L k dm ql)) (fun xl => rmul R (cj (elem R L (fst U) (ql ++ [c]) (xl ++ [a]))) (elem R L (fst U) (ql ++ [c']) (xl ++ [a'])))) = delta c c' a a'.
Proof.
  intros I c c' a a'. apply (gen_iso Lr (rshape L k dm) (fun ql c xl a => elem R L (fst U) (ql ++ [c]) (xl ++ [a])) (rpos R L) (sec_r R L) (fun f i a => nget (fst (snd f)) [i; a])).
  - intros ql c0 xl a0 Hq Hx. apply (u_elem R L p k dql t n dm); auto. now apply (rows_len ql).
  - intros f h Hf. apply (rows_sum R L p k dql t n dm W Kn Pos Lr Nr Hr). apply F. exact Hf.
  - intros f f' ql xl i i' Hf Hf' _ E1 E2. rewrite (rpos_label R L p k dql t n dm _ _ _ _ (proj1 (F f Hf)) E1). symmetry. exact (rpos_label R L p k dql t n dm _ _ _ _ (proj1 (F f' Hf')) E2).
  - intros f i a0 Hf Ha. destruct (F f Hf) as (_ & _ & E & _). exact (nget_col_out _ _ _ i a0 E Ha).
  - exact I.
Qed.
(* the label of the bond follows from the labels on the right when all blocks have the same charge *)
Hypothesis Hom : exists dq, forall b, In b t -> signed_total L p (fst b) = dq.
Lemma cpos_label : forall f f' qr xr i i', In f fs -> In f' fs -> cpos R L (fst f) qr xr = Some i -> cpos R L (fst f') qr xr = Some i' -> sc_q (fst f) = sc_q (fst f').
Proof.
  intros f f' qr xr i i' Hf Hf' E1 E2. destruct Hom as [dq Hd].
  assert (G : forall f i, In f fs -> cpos R L (fst f) qr xr = Some i -> qadd L (sc_q (fst f)) (signed_total L (skipn k p) qr) = qsub L dq dql).
  { clear f f' i i' Hf Hf' E1 E2. intros f i Hf E. apply pos_in_some in E. destruct E as (st & ed & sh & I & _). destruct (F f Hf) as (O & _). destruct (ok_col _ _ _ _ _ _ _ _ _ O _ _ _ _ I) as (b0 & B1 & B2 & B3 & _). injection B3 as B3.
    destruct (W b0 B1) as [Lb _]. rewrite B3, <- B2, left_label_sum by lia. rewrite cancel2, <- signed_app, !firstn_skipn, (Hd b0 B1), qsub_def by (rewrite !firstn_length; lia). reflexivity. }
  pose proof (G f i Hf E1) as X. rewrite <- (G f' i' Hf' E2) in X. set (y := signed_total L (skipn k p) qr) in X.
  assert (C : forall x, qadd L (qadd L x y) (qneg L y) = x). { intros x. rewrite <- qadd_assoc, (qadd_comm L y), qadd_neg. apply FermTraceProofs.qadd_0_r. }
  rewrite <- (C (sc_q (fst f))), X. apply C.
Qed.
Lemma V_iso : (forall f z z', In f fs -> 0 <= z < width R L f -> 0 <= z' < width R L f -> bsum (zrange (sec_c R L (fst f))) (fun i => rmul R (cj (nget (snd (snd f)) [z; i])) (nget (snd (snd f)) [z'; i])) = if z =? z' then r1 R else r0 R) ->
  forall c c' a a', bsum Lc (fun qr => bsum (all_idx (cshape L k n dm qr)) (fun xr => rmul R (cj (elem R L (fst V) (c :: qr) (a :: xr))) (elem R L (fst V) (c' :: qr) (a' :: xr)))) = delta c c' a a'.
Proof.
  intros I c c' a a'. apply (gen_iso Lc (cshape L k n dm) (fun ql c xl a => elem R L (fst V) (c :: ql) (a :: xl)) (cpos R L) (sec_c R L) (fun f i a => nget (snd (snd f)) [a; i])).
  - intros ql c0 xl a0 Hq Hx. apply (v_elem R L p k dql t n dm); auto. now apply (cols_len ql).
  - intros f h Hf. apply (cols_sum R L p k dql t n dm W Kn Pos Lc Nc Hc). apply F. exact Hf.
  - intros f f' ql xl i i' Hf Hf' _ E1 E2. exact (cpos_label f f' ql xl i i' Hf Hf' E1 E2).
  - intros f i a0 Hf Ha. destruct (F f Hf) as (_ & _ & _ & E). exact (nget_row_out _ _ _ i a0 E Ha).
  - exact I.
Qed.
End Iso.

(** ** all legs on one side *)
Section Null.
Variable R : CRing.
Add Ring RRnull : (rth R).
Variable L : Label.
Variable fermion : bool.
Variables (t : ftensor R L) (n : Z) (dm : Z -> L -> Z) (dq : L).
Hypothesis W : wf_tensor R L n dm (fst t).
Hypothesis Lp : Z.of_nat (length (snd t)) = n.
Hypothesis Ne : fst t <> [].
Lemma one_label : elem R L [([dq], nd_ones R [1])] [dq] [0] = r1 R.
Proof. unfold elem. rewrite bsum_cons, bsum_nil. cbn [fst snd]. destruct (tup_eqb_spec L [dq] [dq]); [|congruence]. rewrite nget_in by (constructor; [lia|constructor]). cbn. ring. Qed.
Lemma one_wf : wf_tensor R L 1 (fun _ _ => 1) [([dq], nd_ones R [1])].
Proof. intros b [<-|[]]. split; reflexivity. Qed.
Lemma one_first : forall (a : nd R) xs, nget (nd_reshape (1 :: nshape a) a) (0 :: xs) = nget a xs.
Proof.
  intros a xs. destruct (in_shapeb (nshape a) xs) eqn:E.
  - apply in_shapeb_spec in E. rewrite (nget_in R a xs E). rewrite nget_in by (constructor; [lia|exact E]). cbn [nval nd_reshape nshape]. f_equal. change (1 :: nshape a) with ([1] ++ nshape a). change (0 :: xs) with ([0] ++ xs).
    rewrite ravel_app by (constructor; [lia|constructor]). replace (ravel [1] [0] * prodZ (nshape a) + ravel (nshape a) xs) with (ravel (nshape a) xs) by (unfold ravel; cbn; lia). now apply unravel_ravel.
  - assert (E' : ~ in_shape (nshape a) xs) by (intros X; apply in_shapeb_spec in X; congruence). rewrite (nget_out R a) by exact E'. apply nget_out. cbn [nshape nd_reshape]. intros X. apply E'. now inversion X.
Qed.
Lemma one_last : forall (a : nd R) xs, length xs = length (nshape a) -> nget (nd_reshape (nshape a ++ [1]) a) (xs ++ [0]) = nget a xs.
Proof.
  intros a xs Lx. assert (I1 : in_shape [1] [0]) by (constructor; [lia|constructor]). destruct (in_shapeb (nshape a) xs) eqn:E.
  - apply in_shapeb_spec in E. rewrite (nget_in R a xs E). rewrite nget_in by (cbn [nshape nd_reshape]; apply in_shape_app_split; auto). cbn [nval nd_reshape nshape]. f_equal.
    rewrite ravel_app by exact E. replace (ravel (nshape a) xs * prodZ [1] + ravel [1] [0]) with (ravel (nshape a) xs) by (unfold prodZ, ravel; cbn; lia). now apply unravel_ravel.
  - assert (E' : ~ in_shape (nshape a) xs) by (intros X; apply in_shapeb_spec in X; congruence). rewrite (nget_out R a) by exact E'. apply nget_out. cbn [nshape nd_reshape]. rewrite in_shape_app_split by exact Lx. tauto.
Qed.
Lemma n_ge : 0 <= n. Proof. lia. Qed.
Lemma null_value : forall lq, let qr := null_qr R L lq t dq in
  exists x, ft_tensordot R L fermion (fst qr) (snd qr) [-1] [0] = Some x /\ snd x = snd t /\ NoDup (map fst (fst x)) /\
  forall qs xs, Z.of_nat (length qs) = n -> Z.of_nat (length xs) = n -> elem R L (fst x) qs xs = elem R L (fst t) qs xs.
Proof.
  intros lq. pose proof n_ge as Ng. destruct lq; cbn zeta; unfold null_qr; cbn [fst snd].
  - set (a := (map (fun b : list L * nd R => (fst b ++ [dq], nd_reshape (nshape (snd b) ++ [1]) (snd b))) (fst t), snd t ++ [false]) : ftensor R L). set (b := ([([dq], nd_ones R [1])], [true]) : ftensor R L).
    set (dma := fun i q => if i <? n then dm i q else 1).
    assert (Wa : wf_tensor R L (n + 1) dma (fst a)).
    { intros c Hc. apply in_map_iff in Hc. destruct Hc as (c0 & <- & Hc). destruct (W c0 Hc) as [A B]. cbn [fst snd nshape nd_reshape]. split; [rewrite app_length; cbn [length]; lia|]. rewrite B. unfold shape_of.
      rewrite zrange_app by lia. rewrite combine_app' by (rewrite zrange_length; lia). rewrite map_app. f_equal.
      - apply map_ext_in. intros [i q] Hi. apply in_combine_l, in_zrange in Hi. cbn [fst snd]. unfold dma. destruct (Z.ltb_spec i n); [reflexivity|lia].
      - change (zrange 1) with [0]. cbn [map combine fst snd]. unfold dma. destruct (Z.ltb_spec (n + 0) n); [lia|reflexivity]. }
    assert (Na : fst a <> []) by (unfold a; cbn [fst]; intros X; apply map_eq_nil in X; contradiction).
    assert (Sab : sign_of (snd a) (n + 1 - 1) <> sign_of (snd b) 0). { unfold a, b, sign_of. cbn [snd]. rewrite app_nth2 by lia. replace (Z.to_nat (n + 1 - 1) - length (snd t))%nat with 0%nat by lia. discriminate. }
    assert (Dab : forall q : L, dma (n + 1 - 1) q = (fun _ _ => 1) 0 q). { intros q. unfold dma. destruct (Z.ltb_spec (n + 1 - 1) n); [lia|reflexivity]. }
    assert (Lna : Z.of_nat (length (snd a)) = n + 1) by (unfold a; cbn [snd]; rewrite app_length; cbn [length]; lia).
    destruct (last_first_defined R L fermion a b (n + 1) 1 dma (fun _ _ => 1) Wa one_wf Na ltac:(discriminate) Sab) as [x Ex]. exists x. split; [exact Ex|]. split; [|split].
    + rewrite (last_first_pattern R L fermion a b (n + 1) 1 dma (fun _ _ => 1) Wa one_wf Na ltac:(discriminate) Lna eq_refl ltac:(lia) ltac:(lia) Dab Sab x Ex). unfold a, b. cbn [snd tl]. rewrite removelast_last. apply app_nil_r.
    + exact (last_first_nodup R L fermion a b (n + 1) 1 dma (fun _ _ => 1) Wa one_wf x Ex).
    + intros qs xs Hq Hx. pose proof (last_first_elem R L fermion a b (n + 1) 1 dma (fun _ _ => 1) Wa one_wf ltac:(lia) ltac:(lia) Dab x Ex [dq]) as V.
      specialize (V ltac:(repeat constructor; intros [])). rewrite <- (app_nil_r qs) at 1. rewrite <- (app_nil_r xs) at 1. rewrite V; cbn [length]; try lia.
      * rewrite bsum_cons, bsum_nil, Dab. change (zrange 1) with [0]. rewrite bsum_cons, bsum_nil. change (fst b) with [([dq], nd_ones R [1])]. rewrite one_label.
        replace (elem R L (fst a) (qs ++ [dq]) (xs ++ [0])) with (elem R L (fst t) qs xs); [ring|]. unfold elem, a. cbn [fst]. rewrite bsum_map. apply bsum_ext. intros c Hc. cbn [fst snd].
        destruct (W c Hc) as [A B]. destruct (tup_eqb_spec L (fst c) qs) as [E1|E1], (tup_eqb_spec L (fst c ++ [dq]) (qs ++ [dq])) as [E2|E2]; try reflexivity.
        -- rewrite one_last; [reflexivity|]. rewrite B, shape_of_length, zrange_length. lia.
        -- exfalso. apply E2. now rewrite E1.
        -- exfalso. apply E1. now apply app_inj_tail in E2.
      * intros ba Hb. exists dq. split; [|now left]. apply in_map_iff in Hb. destruct Hb as (c & <- & _). cbn [fst]. now rewrite removelast_last.
  - set (b := (map (fun b : list L * nd R => (dq :: fst b, nd_reshape (1 :: nshape (snd b)) (snd b))) (fst t), false :: snd t) : ftensor R L). set (a := ([([dq], nd_ones R [1])], [true]) : ftensor R L).
    set (dmb := fun i q => if i =? 0 then 1 else dm (i - 1) q).
    assert (Wb : wf_tensor R L (n + 1) dmb (fst b)).
    { intros c Hc. apply in_map_iff in Hc. destruct Hc as (c0 & <- & Hc). destruct (W c0 Hc) as [A B]. cbn [fst snd nshape nd_reshape]. split; [cbn [length]; lia|]. rewrite B. unfold shape_of.
      replace (n + 1) with (1 + n) by lia. rewrite zrange_app by lia. change (dq :: fst c0) with ([dq] ++ fst c0). rewrite combine_app' by reflexivity. rewrite map_app. change (zrange 1) with [0]. cbn [map combine fst snd app]. f_equal.
      rewrite combine_map_l, map_map. apply map_ext_in. intros [i q] Hi. apply in_combine_l, in_zrange in Hi. cbn [fst snd]. unfold dmb. destruct (Z.eqb_spec (1 + i) 0); [lia|]. f_equal. lia. }
    assert (Nb : fst b <> []) by (unfold b; cbn [fst]; intros X; apply map_eq_nil in X; contradiction).
    assert (Sab : sign_of (snd a) (1 - 1) <> sign_of (snd b) 0) by (cbv; discriminate).
    assert (Dab : forall q : L, (fun _ _ => 1) (1 - 1) q = dmb 0 q) by reflexivity.
    assert (Lnb : Z.of_nat (length (snd b)) = n + 1) by (unfold b; cbn [snd length]; lia).
    destruct (last_first_defined R L fermion a b 1 (n + 1) (fun _ _ => 1) dmb one_wf Wb ltac:(discriminate) Nb Sab) as [x Ex]. exists x. split; [exact Ex|]. split; [|split].
    + rewrite (last_first_pattern R L fermion a b 1 (n + 1) (fun _ _ => 1) dmb one_wf Wb ltac:(discriminate) Nb eq_refl Lnb ltac:(lia) ltac:(lia) Dab Sab x Ex). reflexivity.
    + exact (last_first_nodup R L fermion a b 1 (n + 1) (fun _ _ => 1) dmb one_wf Wb x Ex).
    + intros qs xs Hq Hx. pose proof (last_first_elem R L fermion a b 1 (n + 1) (fun _ _ => 1) dmb one_wf Wb ltac:(lia) ltac:(lia) Dab x Ex [dq]) as V.
      specialize (V ltac:(repeat constructor; intros [])). change qs with ([] ++ qs) at 1. change xs with ([] ++ xs) at 1. rewrite V; cbn [length]; try lia.
      * rewrite bsum_cons, bsum_nil. change (zrange 1) with [0]. rewrite bsum_cons, bsum_nil. change (fst a) with [([dq], nd_ones R [1])]. cbn [app]. rewrite one_label.
        replace (elem R L (fst b) (dq :: qs) (0 :: xs)) with (elem R L (fst t) qs xs); [ring|]. unfold elem, b. cbn [fst]. rewrite bsum_map. apply bsum_ext. intros c Hc. cbn [fst snd].
        destruct (tup_eqb_spec L (fst c) qs) as [E1|E1], (tup_eqb_spec L (dq :: fst c) (dq :: qs)) as [E2|E2]; try reflexivity.
        -- now rewrite one_first.
        -- exfalso. apply E2. now rewrite E1.
        -- exfalso. apply E1. congruence.
      * intros ba Hb. exists dq. split; [|now left]. destruct Hb as [<-|[]]. reflexivity.
Qed.
End Null.
