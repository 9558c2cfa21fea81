(** Property C70: the QR and the singular value decomposition of fermion tensors (fermion.py sparse_qr, sparse_svd). *)
From Coq Require Import ZArith Bool List Lia Permutation Ring QArith Qcanon.
From Verif Require Import SymModel SymProofs DictLib OptLib IndexLib RingLib OrdLib BondModel FuseModel FuseProofs BlockModel BlockProofs BlockProps
  StructModel StructProofs SignModel SignProofs SignProps TruncModel TruncProofs FermTModel FermTProofs FermNetProofs FermDaggerProofs FermTProps MpsModel CanonModel CanonProofs CanonProps FuseTProps FsvdModel FsvdProofs FsvdFact.
Import ListNotations.
Open Scope Z_scope.

(** ** specification *)
(* the legs that are not in left, in order *)
Definition rest (n : Z) (left : list Z) : list Z := filter (fun i => negb (existsb (Z.eqb i) left)) (zrange n).
Definition labels_at (L : Label) (legs : list Z) (qs : list L) : list L := map (fun k => nth (Z.to_nat k) qs (q0 L)) legs.
Definition places_at (legs xs : list Z) : list Z := map (fun k => nth (Z.to_nat k) xs 0) legs.
(* the ranges of the positions on these legs with these labels *)
Definition ranges (L : Label) (dm : Z -> L -> Z) (legs : list Z) (qs : list L) : list Z := map (fun e => dm (fst e) (snd e)) (combine legs qs).
(* a list of label tuples for some legs with all the tuples of the tensor *)
Definition covers (R : CRing) (L : Label) (t : list (list L * nd R)) (legs : list Z) (Ls : list (list L)) : Prop :=
  NoDup Ls /\ (forall q, In q Ls -> length q = length legs) /\ (forall b, In b t -> In (labels_at L legs (fst b)) Ls).

Section Statements.
Variable R : CRing.
Variable L : Label.
Variable fermion : bool.
Variables (t : ftensor R L) (n : Z) (dm : Z -> L -> Z) (left rt : list Z) (right : option (list Z)).
(* a tensor with n legs; the dimension of a leg depends on its label *)
Hypothesis W : wf_tensor R L n dm (fst t).
Hypothesis ND : NoDup (map fst (fst t)).
Hypothesis Pos : forall b, In b (fst t) -> Forall (fun s => 0 < s) (nshape (snd b)).
Hypothesis Lp : Z.of_nat (length (snd t)) = n.
Hypothesis Ne : fst t <> [].
(* a partition of the legs in two parts that are not empty *)
Hypothesis Pm : Permutation (zrange n) (left ++ rt).
Hypothesis Hl : left <> [].
Hypothesis Hrt : rt <> [].
Hypothesis Right : right = Some rt \/ right = None /\ rt = rest n left.
Variable cj : R -> R.
Hypothesis cj0 : cj (r0 R) = r0 R.

Notation k := (length left).
Notation nt := (maybe_transpose R L fermion t left rt).
Notation dt := (dmt L dm left rt).
Lemma s_nonneg : 0 <= n. Proof. exact (n_nonneg R L t n dm W ND Pos Ne). Qed.
Lemma s_len : Z.of_nat k + Z.of_nat (length rt) = n.
Proof. pose proof (axes_length n left rt Pm) as E. rewrite app_length in E. pose proof s_nonneg. lia. Qed.
Lemma s_kl : (0 < k)%nat. Proof. destruct left; [congruence|cbn; lia]. Qed.
Lemma s_kr : (0 < length rt)%nat. Proof. destruct rt; [congruence|cbn; lia]. Qed.
Lemma s_lt : Z.of_nat k < n. Proof. pose proof s_len. pose proof s_kr. lia. Qed.
Lemma s_dim : ndim R L (fst t) = n. Proof. exact (tr_ndim R L t n dm W Ne). Qed.
Lemma s_right : right_of R L t left right = rt.
Proof. unfold right_of. rewrite s_dim. destruct Right as [-> |[-> ->]]; reflexivity. Qed.
Definition dq_of : L := lab_compute L (snd t) (fst (hd ([], nd_zeros R []) (fst t))).
Lemma s_dq : ft_dq R L t = Some dq_of.
Proof. unfold ft_dq, dq_of. destruct (fst t); [congruence|reflexivity]. Qed.
Lemma s_dq_eq : forall dq, (forall b, In b (fst t) -> signed_total L (snd t) (fst b) = dq) -> dq_of = dq.
Proof. intros dq H. unfold dq_of. rewrite <- signed_total_compute. destruct (fst t) as [|b l] eqn:E; [congruence|]. apply H. now left. Qed.
Lemma Wt : wf_tensor R L n dt (fst nt). Proof. exact (tr_wf R L fermion t n dm left rt W ND Pos Ne Pm). Qed.
Lemma NDt : NoDup (map fst (fst nt)). Proof. exact (tr_nodup R L fermion t n dm left rt W ND Ne Pm). Qed.
Lemma Post : forall b, In b (fst nt) -> Forall (fun s => 0 < s) (nshape (snd b)). Proof. exact (tr_pos R L fermion t n dm left rt W Pos Ne Pm). Qed.
Lemma Pt : snd nt = map (sign_of (snd t)) (left ++ rt). Proof. exact (tr_pat R L fermion t n dm left rt W Lp Ne). Qed.
Lemma Lpt : Z.of_nat (length (snd nt)) = n. Proof. rewrite Pt, map_length, app_length. pose proof s_len. lia. Qed.
Lemma Net : fst nt <> []. Proof. exact (tr_some R L fermion t n dm left rt W Ne). Qed.
Lemma wf_ext : forall m (d d' : Z -> L -> Z) (x : list (list L * nd R)), (forall i q, 0 <= i < m -> d i q = d' i q) -> wf_tensor R L m d x -> wf_tensor R L m d' x.
Proof. intros m d d' x E H b Hb. destruct (H b Hb) as [A B]. split; [exact A|]. rewrite B. unfold shape_of. apply map_ext_in. intros [i q] Hi. apply in_combine_l, in_zrange in Hi. now apply E. Qed.
Lemma cover_rows : forall Ls, covers R L (fst t) left Ls -> forall b, In b (fst nt) -> In (firstn k (fst b)) Ls.
Proof. intros Ls (_ & _ & C) b Hb. destruct (tr_labels R L fermion t n dm left rt W Ne b Hb) as (b0 & H0 & ->). rewrite (proj1 (tr_first left rt L (q0 L) (fst b0))). now apply C. Qed.
Lemma cover_cols : forall Ls, covers R L (fst t) rt Ls -> forall b, In b (fst nt) -> In (skipn k (fst b)) Ls.
Proof. intros Ls (_ & _ & C) b Hb. destruct (tr_labels R L fermion t n dm left rt W Ne b Hb) as (b0 & H0 & ->). rewrite (proj2 (tr_first left rt L (q0 L) (fst b0))). now apply C. Qed.
(* the factors put together from the sectors *)
Section Factors.
Variable dql : L.
Variable fs : list (sector R L * (nd R * nd R)).
Hypothesis F : forall f, In f fs -> fac_ok R L (snd nt) k dql (fst nt) n dt f.
Hypothesis N : NoDup (map (fun f => sc_q (fst f)) fs).
Notation q := (fst (assemble R L (snd nt) k fs)).
Notation r := (snd (assemble R L (snd nt) k fs)).
Notation bond := (bond_dim R L fs).
Lemma f_pat : snd q = map (sign_of (snd t)) left ++ [false] /\ snd r = true :: map (sign_of (snd t)) rt.
Proof.
  unfold assemble. cbn [fst snd]. rewrite Pt, map_app, firstn_app, skipn_app, map_length, Nat.sub_diag. cbn [firstn skipn]. rewrite app_nil_r.
  rewrite <- (map_length (sign_of (snd t)) left) at 1 2. now rewrite firstn_all, skipn_all.
Qed.
Lemma f_nodup : NoDup (map fst (fst q)) /\ NoDup (map fst (fst r)).
Proof. split; [exact (U_nodup R L _ _ _ _ _ _ fs F N)|exact (V_nodup R L _ _ _ _ _ _ fs F N)]. Qed.
Lemma f_wf : wf_tensor R L (Z.of_nat k + 1) (fun i c => if i <? Z.of_nat k then dm (nth (Z.to_nat i) left 0) c else bond c) (fst q) /\
  wf_tensor R L (Z.of_nat (length rt) + 1) (fun i c => if i =? 0 then bond c else dm (nth (Z.to_nat (i - 1)) rt 0) c) (fst r).
Proof.
  split.
  - eapply wf_ext; [|exact (U_wf R L _ _ _ _ _ _ Wt s_lt Post Lpt fs F N)]. intros i c Hi. unfold dmu. destruct (Z.ltb_spec i (Z.of_nat k)); [|reflexivity]. unfold dmt. now rewrite app_nth1 by lia.
  - replace (Z.of_nat (length rt) + 1) with (n - Z.of_nat k + 1) by (pose proof s_len; lia). eapply wf_ext; [|exact (V_wf R L _ _ _ _ _ _ Wt s_lt Post Lpt fs F N)]. intros i c Hi. unfold dmv. destruct (Z.eqb_spec i 0); [reflexivity|]. unfold dmt. rewrite app_nth2 by lia. do 2 f_equal. lia.
Qed.
Lemma f_charge : forall dq, (forall b, In b (fst t) -> signed_total L (snd t) (fst b) = dq) ->
  (forall b, In b (fst q) -> signed_total L (snd q) (fst b) = dql) /\ (forall b, In b (fst r) -> signed_total L (snd r) (fst b) = qsub L dq dql).
Proof.
  intros dq H. split; [exact (U_charge R L _ _ _ _ _ _ Wt s_lt Post Lpt fs F)|]. apply (V_charge R L _ _ _ _ _ _ Wt s_lt Post Lpt fs F). exact (tr_charge R L fermion t n dm left rt W Lp Ne Pm dq H).
Qed.
Lemma f_iso_l : (forall f z z', In f fs -> 0 <= z < width R L f -> 0 <= z' < width R L f -> bsum (zrange (sec_r R L (fst f))) (fun i => rmul R (cj (nget (fst (snd f)) [i; z])) (nget (fst (snd f)) [i; z'])) = if z =? z' then r1 R else r0 R) ->
  forall Ls, covers R L (fst t) left Ls -> forall c c' a a',
    bsum Ls (fun ql => bsum (all_idx (ranges L dm left ql)) (fun xl => rmul R (cj (elem R L (fst q) (ql ++ [c]) (xl ++ [a]))) (elem R L (fst q) (ql ++ [c']) (xl ++ [a'])))) =
    if qeqb L c c' && (a =? a') && (0 <=? a) && (a <? bond c) then r1 R else r0 R.
Proof.
  intros I Ls C c c' a a'. pose proof C as (C1 & C2 & C3).
  transitivity (delta R L fs c c' a a'); [|reflexivity].
  rewrite <- (U_iso R L (snd nt) k dql (fst nt) n dt Wt s_lt Post Lpt fs F N Ls [] C1 C2 (fun _ H => match H with end) (cover_rows Ls C) cj cj0 I c c' a a').
  apply bsum_ext. intros ql Hq. rewrite (dmt_rows R L t dm left rt ql (C2 ql Hq)). reflexivity.
Qed.
Lemma f_iso_r : (forall f z z', In f fs -> 0 <= z < width R L f -> 0 <= z' < width R L f -> bsum (zrange (sec_c R L (fst f))) (fun i => rmul R (cj (nget (snd (snd f)) [z; i])) (nget (snd (snd f)) [z'; i])) = if z =? z' then r1 R else r0 R) ->
  (exists dq, forall b, In b (fst t) -> signed_total L (snd t) (fst b) = dq) -> forall Ls, covers R L (fst t) rt Ls -> forall c c' a a',
    bsum Ls (fun qr => bsum (all_idx (ranges L dm rt qr)) (fun xr => rmul R (cj (elem R L (fst r) (c :: qr) (a :: xr))) (elem R L (fst r) (c' :: qr) (a' :: xr)))) =
    if qeqb L c c' && (a =? a') && (0 <=? a) && (a <? bond c) then r1 R else r0 R.
Proof.
  intros I [dq Hd] Ls C c c' a a'. pose proof C as (C1 & C2 & C3). pose proof s_len as SL.
  assert (Lb : forall b, In b (fst nt) -> Z.of_nat (length (fst b)) = n) by (intros b Hb; now apply Wt).
  transitivity (delta R L fs c c' a a'); [|reflexivity].
  rewrite <- (V_iso R L (snd nt) k dql (fst nt) n dt Wt s_lt Post Lpt fs F N (map (fun b => firstn k (fst b)) (fst nt)) Ls C1) with (cj := cj); auto.
  - apply bsum_ext. intros qr Hq. rewrite (dmt_cols R L t n dm left rt W ND Pos Lp Ne Pm qr (C2 qr Hq)). reflexivity.
  - intros q Hq. apply in_map_iff in Hq. destruct Hq as (b & <- & Hb). rewrite firstn_length. specialize (Lb b Hb). lia.
  - intros q Hq. rewrite (C2 q Hq). lia.
  - intros b Hb. apply in_map_iff. eauto.
  - exact (cover_cols Ls C).
  - exists dq. exact (tr_charge R L fermion t n dm left rt W Lp Ne Pm dq Hd).
Qed.
End Factors.

Section Qr.
Variable qr : nd R -> nd R * nd R.
Hypothesis HQ : exact_qr R cj qr.
(** For every tensor and partition of its legs sparse_qr returns factors on the legs left ++ [bond] and [bond] ++ right;
    they have one block for a label, and shapes that fit; their product is the tensor with its legs transposed.
    With mod = "qr" the columns of q are orthonormal, with mod = "lq" the rows of r, when all blocks have the same charge;
    this factor has charge dq and zero for the other one. *)
Theorem c70_qr : forall lq, exists q r x bond, sparse_qr R L fermion qr t left right lq = Some (q, r) /\
  snd q = map (sign_of (snd t)) left ++ [false] /\ snd r = true :: map (sign_of (snd t)) rt /\
  NoDup (map fst (fst q)) /\ NoDup (map fst (fst r)) /\
  wf_tensor R L (Z.of_nat (length left) + 1) (fun i c => if i <? Z.of_nat (length left) then dm (nth (Z.to_nat i) left 0) c else bond c) (fst q) /\
  wf_tensor R L (Z.of_nat (length rt) + 1) (fun i c => if i =? 0 then bond c else dm (nth (Z.to_nat (i - 1)) rt 0) c) (fst r) /\
  (ft_tensordot R L fermion q r [-1] [0] = Some x /\ snd x = map (sign_of (snd t)) (left ++ rt) /\ NoDup (map fst (fst x)) /\
    forall qs xs, Z.of_nat (length qs) = n -> Z.of_nat (length xs) = n ->
    elem R L (fst x) (labels_at L left qs ++ labels_at L rt qs) (places_at left xs ++ places_at rt xs) =
    signed (fermion && exchanged (odd_legs L qs) (left ++ rt)) (elem R L (fst t) qs xs)) /\
  (forall dq, (forall b, In b (fst t) -> signed_total L (snd t) (fst b) = dq) ->
    (forall b, In b (fst q) -> signed_total L (snd q) (fst b) = if lq then q0 L else dq) /\
    (forall b, In b (fst r) -> signed_total L (snd r) (fst b) = if lq then dq else q0 L)) /\
  (lq = false -> forall Ls, covers R L (fst t) left Ls -> forall c c' a a',
    bsum Ls (fun ql => bsum (all_idx (ranges L dm left ql)) (fun xl => rmul R (cj (elem R L (fst q) (ql ++ [c]) (xl ++ [a]))) (elem R L (fst q) (ql ++ [c']) (xl ++ [a'])))) =
    if qeqb L c c' && (a =? a') && (0 <=? a) && (a <? bond c) then r1 R else r0 R) /\
  (lq = true -> (exists dq, forall b, In b (fst t) -> signed_total L (snd t) (fst b) = dq) -> forall Ls, covers R L (fst t) rt Ls -> forall c c' a a',
    bsum Ls (fun qr => bsum (all_idx (ranges L dm rt qr)) (fun xr => rmul R (cj (elem R L (fst r) (c :: qr) (a :: xr))) (elem R L (fst r) (c' :: qr) (a' :: xr)))) =
    if qeqb L c c' && (a =? a') && (0 <=? a) && (a <? bond c) then r1 R else r0 R).
Proof.
  intros lq. set (dql := if lq then q0 L else dq_of). set (fs := map (fun s => (s, qr_mod R qr lq (sc_data s))) (sectors R L (snd nt) k dql (fst nt))).
  assert (F : forall f, In f fs -> fac_ok R L (snd nt) k dql (fst nt) n dt f) by exact (fs_ok R L cj qr HQ (snd nt) k dql (fst nt) n dt Wt NDt s_lt Post lq).
  assert (N : NoDup (map (fun f => sc_q (fst f)) fs)) by exact (fs_nodup R L qr (snd nt) k dql (fst nt) n dt Wt NDt s_lt Post lq).
  assert (S : fs <> []) by exact (fs_some R L qr (snd nt) k dql (fst nt) n dt Wt NDt s_lt Post Net lq).
  destruct (qr_value R L cj qr HQ (snd nt) k dql (fst nt) n dt Wt NDt s_lt Post Lpt Net lq fermion) as (x & Ex & Px & Nx & Vx). fold fs in Ex.
  pose proof (f_pat fs) as [P1 P2]. destruct (f_nodup dql fs F N) as [N1 N2]. destruct (f_wf dql fs F N) as [W1 W2].
  exists (fst (assemble R L (snd nt) k fs)), (snd (assemble R L (snd nt) k fs)), x, (bond_dim R L fs).
  pose proof s_len as SL. pose proof s_kl as KL. pose proof s_kr as KR. split.
  { unfold sparse_qr. rewrite s_right, s_dim, s_dq. cbn [bind]. destruct (Z.eqb_spec (Z.of_nat k) n); [lia|]. destruct (Z.eqb_spec (Z.of_nat (length rt)) n); [lia|]. cbn [orb]. fold dql. fold fs.
    pose proof (U_some R L (snd nt) k dql (fst nt) n dt fs F S) as US. destruct (fst (fst (assemble R L (snd nt) k fs))); [congruence|]. now destruct (assemble R L (snd nt) k fs). }
  split; [exact P1|]. split; [exact P2|]. split; [exact N1|]. split; [exact N2|]. split; [exact W1|]. split; [exact W2|]. split; [|split; [|split]].
  - split; [exact Ex|]. split; [rewrite Px; exact Pt|]. split; [exact Nx|]. intros qs xs Hq Hx. unfold labels_at, places_at. rewrite Vx by (rewrite map_length; lia).
    rewrite <- (tr_elem R L fermion t n dm left rt W Ne Pm qs xs Hq Hx). unfold pick. now rewrite !map_app.
  - intros dq Hd. destruct (f_charge dql fs F dq Hd) as [C1 C2]. pose proof (s_dq_eq dq Hd) as Ed. split; intros b Hb; [rewrite (C1 b Hb)|rewrite (C2 b Hb)]; unfold dql; destruct lq; auto; rewrite qsub_def.
    + assert (Z0 : qneg L (q0 L) = q0 L) by (rewrite <- (FermTraceProofs.qadd_0_r L (qneg L (q0 L))); apply qadd_neg). rewrite Z0. apply FermTraceProofs.qadd_0_r.
    + rewrite Ed, qadd_comm. apply qadd_neg.
  - intros -> Ls C. apply (f_iso_l dql fs F N); [|exact C]. intros f z z' Hf Hz Hz'. apply in_map_iff in Hf. destruct Hf as (s & <- & Hs). apply (secs_ok R L (snd nt) k dql (fst nt) n dt Wt NDt s_lt Post) in Hs.
    pose proof (sec_qr R L cj qr HQ (snd nt) k dql (fst nt) n dt Wt s_lt Post false s Hs) as Q. cbv zeta in Q. now apply Q.
  - intros -> Hd Ls C. apply (f_iso_r dql fs F N); [|exact Hd|exact C]. intros f z z' Hf Hz Hz'. apply in_map_iff in Hf. destruct Hf as (s & <- & Hs). apply (secs_ok R L (snd nt) k dql (fst nt) n dt Wt NDt s_lt Post) in Hs.
    pose proof (sec_qr R L cj qr HQ (snd nt) k dql (fst nt) n dt Wt s_lt Post true s Hs) as Q. cbv zeta in Q. now apply Q.
Qed.
End Qr.
End Statements.
(** All legs on one side: the factors multiply to the tensor itself. *)
Theorem c70_qr_null : forall (R : CRing) (L : Label) fermion qr (t : ftensor R L) n dm left right lq,
  wf_tensor R L n dm (fst t) -> fst t <> [] -> Z.of_nat (length (snd t)) = n ->
  Z.of_nat (length left) = n \/ (exists rt, right = Some rt /\ Z.of_nat (length rt) = n) \/ (right = None /\ left = []) ->
  exists q r x, sparse_qr R L fermion qr t left right lq = Some (q, r) /\ ft_tensordot R L fermion q r [-1] [0] = Some x /\ snd x = snd t /\
  forall qs xs, Z.of_nat (length qs) = n -> Z.of_nat (length xs) = n -> elem R L (fst x) qs xs = elem R L (fst t) qs xs.
Proof.
  intros R L fermion qr t n dm left right lq W Ne Lp H. assert (Nd : ndim R L (fst t) = n) by exact (tr_ndim R L t n dm W Ne).
  destruct (ft_dq R L t) as [dq|] eqn:Ed; [|unfold ft_dq in Ed; destruct (fst t); [congruence|discriminate]].
  destruct (null_value R L fermion t n dm dq W Lp Ne lq) as (x & E1 & E2 & _ & E3). exists (fst (null_qr R L lq t dq)), (snd (null_qr R L lq t dq)), x.
  split; [|auto]. unfold sparse_qr. rewrite Ed. cbn [bind]. rewrite Nd.
  assert (C : (Z.of_nat (length left) =? n) || (Z.of_nat (length (right_of R L t left right)) =? n) = true).
  { apply orb_true_iff. destruct H as [H|[(rt & -> & H)|[-> ->]]]; [left; now apply Z.eqb_eq|right; now apply Z.eqb_eq|right]. apply Z.eqb_eq. unfold right_of. rewrite Nd.
    assert (F : forall l : list Z, filter (fun i => negb (existsb (Z.eqb i) [])) l = l) by (induction l as [|y l IH]; [reflexivity|cbn; now f_equal]). rewrite F, zrange_length. lia. }
  rewrite C. now destruct (null_qr R L lq t dq).
Qed.
Print Assumptions c70_qr. Print Assumptions c70_qr_null.

(** ** concrete cases *)
Definition qfd (t : ftensor Qc_ring U1_label) : list (list Z * list Z * list QArith_base.Q) * list bool :=
  (map (fun b : list U1_label * nd Qc_ring => (fst b, nshape (snd b), map (fun xs => this (nval (snd b) xs)) (all_idx (nshape (snd b))))) (fst t), snd t).
(* left_idx = [2, 0]: the exchange of the odd legs gives a sign, and two rows share the label of the bond *)
Definition ex_t : ftensor Qc_ring U1_label := ([qblk [1; 0; 1] [1; 1; 1] [-3]; qblk [0; 0; 0] [1; 1; 1] [4]; qblk [0; 1; 1] [1; 1; 1] [2]], [true; true; false]).
Example c70_qr_ex :
  option_map (fun e => (qfd (fst e), qfd (snd e))) (sparse_qr Qc_ring U1_label true qr345 ex_t [2; 0] None false) =
  Some (([([1; 1; 0], [1; 1; 1], [(3 # 5)%Q]); ([0; 0; 0], [1; 1; 1], [(4 # 5)%Q]); ([1; 0; -1], [1; 1; 1], [(1 # 1)%Q])], [false; true; false]),
        ([([0; 0], [1; 1], [(5 # 1)%Q]); ([-1; 1], [1; 1], [(-2 # 1)%Q])], [true; true])) /\
  option_map qfd (match sparse_qr Qc_ring U1_label true qr345 ex_t [2; 0] None false with Some (q, r) => ft_tensordot _ _ true q r [-1] [0] | None => None end) =
  Some (qfd (ft_transpose _ _ true [2; 0; 1] ex_t)) /\
  option_map (fun e => (qfd (fst e), qfd (snd e))) (sparse_qr Qc_ring U1_label true qr345 ex_t [1] (Some [2; 0]) true) =
  Some (([([0; 0], [1; 1], [(5 # 1)%Q]); ([1; 1], [1; 1], [(2 # 1)%Q])], [true; false]),
        ([([0; 1; 1], [1; 1; 1], [(3 # 5)%Q]); ([0; 0; 0], [1; 1; 1], [(4 # 5)%Q]); ([1; 1; 0], [1; 1; 1], [(1 # 1)%Q])], [true; false; true])).
Proof. split; [|split]; vm_compute; reflexivity. Qed.
(* the hypotheses of the theorem hold *)
Lemma ex_t_wf : wf_tensor Qc_ring U1_label 3 (fun _ _ => 1) (fst ex_t) /\ NoDup (map fst (fst ex_t)) /\ (forall b, In b (fst ex_t) -> Forall (fun s => 0 < s) (nshape (snd b))) /\
  Permutation (zrange 3) ([2; 0] ++ [1]) /\ [1] = rest 3 [2; 0] /\ (forall b, In b (fst ex_t) -> signed_total U1_label (snd ex_t) (fst b) = 0).
Proof.
  split; [intros b [<- |[<- |[<- |[] ] ] ]; split; reflexivity|]. split; [repeat constructor; cbn; intuition discriminate|]. split; [intros b [<- |[<- |[<- |[] ] ] ]; repeat constructor|].
  split; [change (zrange 3) with [0; 1; 2]; cbn [app]; apply NoDup_Permutation; [repeat constructor; cbn; intuition discriminate..|]; intros x; cbn; tauto|]. split; [reflexivity|]. intros b [<- |[<- |[<- |[] ] ] ]; reflexivity.
Qed.
Example c70_qr_ex_applies : forall lq, exists q r x, sparse_qr Qc_ring U1_label true qr345 ex_t [2; 0] None lq = Some (q, r) /\ ft_tensordot _ _ true q r [-1] [0] = Some x /\
  elem _ _ (fst x) [1; 1; 0] [0; 0; 0] = qi 3 /\ elem _ _ (fst x) [1; 0; 1] [0; 0; 0] = qi (-2).
Proof.
  intros lq. destruct ex_t_wf as (W & ND & Pos & Pm & Er & Hd).
  destruct (c70_qr Qc_ring U1_label true ex_t 3 (fun _ _ => 1) [2; 0] [1] None W ND Pos eq_refl ltac:(discriminate) Pm ltac:(discriminate) ltac:(discriminate) (or_intror (conj eq_refl Er)) (fun x => x) eq_refl qr345 qr345_exact lq)
    as (q & r & x & bond & E & _ & _ & _ & _ & _ & _ & (Ex & _ & _ & V) & _).
  exists q, r, x. split; [exact E|]. split; [exact Ex|]. split.
  - refine (eq_trans (V [1; 0; 1] [0; 0; 0] eq_refl eq_refl) _). apply Qc_is_canon. vm_compute. reflexivity.
  - refine (eq_trans (V [0; 1; 1] [0; 0; 0] eq_refl eq_refl) _). apply Qc_is_canon. vm_compute. reflexivity.
Qed.
(* all legs on the left, in another order: the order is ignored, and the legs are on the second factor *)
Theorem c70_null_order_refuted : exists (t : ftensor Z_ring U1_label) q r x, 
  (forall qr, sparse_qr Z_ring U1_label true qr t [1; 0] None false = Some (q, r)) /\ ft_tensordot Z_ring U1_label true q r [-1] [0] = Some x /\
  snd x <> snd (ft_transpose Z_ring U1_label true [1; 0] t) /\
  elem _ _ (fst x) [1; 1] [0; 0] = 5 /\ elem _ _ (fst (ft_transpose Z_ring U1_label true [1; 0] t)) [1; 1] [0; 0] = -5 /\
  (length (snd q) = 1)%nat /\ (length (snd r) = 3)%nat.
Proof.
  set (t := ([([1; 1], @mkNd Z_ring [1; 1] (fun _ => 5))], [true; false]) : ftensor Z_ring U1_label).
  exists t, (fst (null_qr Z_ring U1_label false t 0)), (snd (null_qr Z_ring U1_label false t 0)).
  destruct (ft_tensordot Z_ring U1_label true (fst (null_qr Z_ring U1_label false t 0)) (snd (null_qr Z_ring U1_label false t 0)) [-1] [0]) as [x|] eqn:E; [|vm_compute in E; discriminate].
  exists x. split; [reflexivity|]. split; [reflexivity|]. vm_compute in E. injection E as <-. split; [discriminate|]. repeat split; vm_compute; reflexivity.
Qed.
Print Assumptions c70_null_order_refuted.
