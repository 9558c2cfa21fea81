(** Proofs about sparse_svd: the form of the result. *)
From Coq Require Import ZArith Bool List Lia Permutation Sorted Ring.
From Verif Require Import SymModel SymProofs DictLib OptLib IndexLib RingLib OrdLib BondModel FuseModel FuseProofs BlockModel BlockProofs BlockProps
  StructModel StructProofs SignModel TruncModel TruncProofs TrimProofs TruncProps FermTModel FermTProofs MpsModel CanonModel CanonProofs CompressSvd FsvdModel FsvdProofs FsvdFact FsvdSvd FsvdTrim FsvdWhole.
Import ListNotations.
Open Scope Z_scope.

Lemma filter_filter' : forall (A : Type) (p q : A -> bool) l, filter p (filter q l) = filter (fun x => q x && p x) l.
Proof. intros A p q. induction l as [|a l IH]; [reflexivity|]. cbn. destruct (q a); cbn; [destruct (p a)|]; now rewrite IH. Qed.

Section Form.
Variable R : CRing.
Add Ring RRf : (rth R).
Variable L : Label.
Variable K : ORing.
Variable emb : K -> R.
Variable sqrtK : K -> K.
Variable scr : K.
Variable argsort : list K -> list Z.
Variable renorm_fac : K -> K -> nat -> K.
Variable svd : nd R -> option (nd R * list K * nd R).
Variable cj : R -> R.
Hypothesis cj_emb : forall x, cj (emb x) = emb x.
Hypothesis emb_add : forall x y, emb (radd K x y) = radd R (emb x) (emb y).
Hypothesis emb_mul : forall x y, emb (rmul K x y) = rmul R (emb x) (emb y).
Hypothesis HS : exact_svd R K emb cj svd.
Hypothesis svd_desc : forall a u s v, svd a = Some (u, s, v) -> StronglySorted (fun x y : K => ole y x) s.
Hypothesis scr0 : ole (r0 K) scr.
Hypothesis argsort_perm : forall l, Permutation (argsort l) (zrange (Z.of_nat (length l))).
Hypothesis argsort_sorted : forall l, StronglySorted (fun a b => ole (nth (Z.to_nat a) l (r0 K)) (nth (Z.to_nat b) l (r0 K))) (argsort l).
Notation piece := (sector R L * (nd R * list K * nd R))%type.
Notation item := (piece * nat)%type.
Variables (p : pattern) (k : nat) (dql : L) (t : list (list L * nd R)) (n : Z) (dm : Z -> L -> Z).
Hypothesis W : wf_tensor R L n dm t.
Hypothesis ND : NoDup (map fst t).
Hypothesis Kn : Z.of_nat k < n.
Hypothesis Pos : forall b, In b t -> Forall (fun s => 0 < s) (nshape (snd b)).
Variables (o : sopts K) (ab : option Z).
Hypothesis cut0 : ole (r0 K) (so_cutoff K o).
Notation secs := (sectors R L p k dql t).
Variables (fs0 gs : list (sector R L * (list K * (nd R * nd R)))).
Hypothesis Ed : decomposed R L K scr svd secs = Some fs0.
Hypothesis Et : truncated R L K argsort renorm_fac o fs0 = Some gs.
Definition hs := filter (fun h => negb (prodZ (nshape (fst (snd (snd h)))) =? 0))
  (map (fun g : sector R L * (list K * (nd R * nd R)) => (fst g, (fst (snd g), match ab with Some a => absorb_svd R K emb sqrtK a (fst (snd g)) (snd (snd g)) | None => snd (snd g) end))) gs).
Lemma svd_form : exists (zs : list item) fac,
  map (fun z => fst (fst z)) zs = secs /\ (forall z, In z zs -> svd (sc_data (fst (fst z))) = Some (snd (fst z))) /\
  map (fun h => (fst h, snd (snd h))) hs = map (fz R L K emb sqrtK scr fac ab) (filter (alive R L K scr) zs) /\
  (ab = None -> map (fun h => ([sc_q (fst h); sc_q (fst h)], diag R K emb (fst (snd h)))) hs = fst (S R L K emb scr zs fac)) /\
  (so_renorm K o = 0%nat \/ trimmed R L K scr zs = [] -> fac = r1 K) /\
  (so_renorm K o <> 0%nat -> trimmed R L K scr zs <> [] ->
    fac = renorm_fac (bsum (kept R L K scr zs) (fun x => power K x (so_renorm K o))) (bsum (trimmed R L K scr zs) (fun x => power K x (so_renorm K o))) (so_renorm K o)) /\
  trimmed_as K (so_cutoff K o) (so_mode K o) (so_max K o) (kept R L K scr zs) (trimmed R L K scr zs).
Proof.
  destruct (decomposed_ok R L K scr svd secs fs0 Ed) as (ys & Y1 & Y2 & Y3).
  destruct (truncated_ok R L K argsort renorm_fac o fs0 gs Et) as (ns & fac & T1 & T2 & T4 & T3).
  set (ss := map (fun f => fst (snd f)) fs0) in *.
  assert (Vals : forall s, In s ss -> exists y, In y ys /\ s = filter (fun x => oltb scr x) (sg R L K y)).
  { intros s Hs. unfold ss in Hs. apply in_map_iff in Hs. destruct Hs as (f & <- & Hf). rewrite Y3 in Hf. apply filter_In in Hf. destruct Hf as [Hf _]. apply in_map_iff in Hf. destruct Hf as (y & <- & Hy).
    exists y. split; [exact Hy|]. rewrite scd_vals. apply vals_spos. }
  assert (De : descending ss).
  { apply (desc_lists K argsort argsort_perm argsort_sorted). intros s Hs. destruct (Vals s Hs) as (y & Hy & ->). apply sorted_filter. specialize (Y2 y Hy). destruct y as [s' [[u g] v]]. exact (svd_desc _ _ _ _ Y2). }
  assert (No : nonneg ss).
  { apply (nonneg_lists K scr). intros s x Hs Hx. destruct (Vals s Hs) as (y & Hy & ->). apply filter_In in Hx. destruct Hx as [_ Hx]. eapply ole_trans; [exact scr0|]. apply olt_ole. unfold oltb in Hx. now apply negb_true_iff in Hx. }
  destruct (trim_lists K argsort argsort_perm argsort_sorted ss _ _ _ ns T1 De No cut0) as (TA & LN & TE & TN & TS).
  destruct (lift R L K renorm_fac scr ys ns) as (zs & Z1 & Z2 & Z3); [rewrite <- Y3, LN; unfold ss; now rewrite map_length|].
  rewrite <- Y3 in Z2, Z3. fold ss in Z3.
  assert (Zs : map (fun z : item => fst (fst z)) zs = secs) by (rewrite <- Y1, <- Z1; now rewrite map_map).
  assert (Zv : forall z : item, In z zs -> svd (sc_data (fst (fst z))) = Some (snd (fst z))) by (intros z Hz; apply Y2; rewrite <- Z1; now apply in_map).
  assert (Kp : kept R L K scr zs = kept_of K ss ns).
  { unfold kept_of. rewrite <- (Z3 K (fun l c => firstn c l)) by (intros; now rewrite firstn_nil). apply flat_map_ext_in'. intros z _. unfold screened_vals, vals_at, pz. rewrite firstn_map. reflexivity. }
  assert (Tp : trimmed R L K scr zs = trim_of K ss ns).
  { unfold trim_of. rewrite <- (Z3 K (fun l c => skipn c l)) by (intros; now rewrite skipn_nil). apply flat_map_ext_in'. intros z _. unfold screened_vals, vals_at. rewrite skipn_map. reflexivity. }
  exists zs, fac. split; [exact Zs|]. split; [exact Zv|].
  assert (Hh : hs = map (fun z => (fst (gz R L K scr fac z), (fst (snd (gz R L K scr fac z)), snd (fz R L K emb sqrtK scr fac ab z)))) (filter (alive R L K scr) zs)).
  { unfold hs. rewrite T3, (Z2 _ (grow R L K fac)), map_map, filter_map_comm', filter_filter'. cbn [fst snd].
    rewrite (filter_ext_in _ (alive R L K scr)); [reflexivity|]. intros z Hz.
    destruct (fz_UV R L K emb sqrtK scr svd cj cj_emb emb_add emb_mul HS p k dql t n dm W ND Kn Pos zs fac ab Zs Zv z Hz) as [S1 _].
    change (nshape (fst match ab with Some a => absorb_svd R K emb sqrtK a (fst (snd (grow R L K fac (scd R L K scr (fst z)) (snd z)))) (snd (snd (grow R L K fac (scd R L K scr (fst z)) (snd z)))) | None => snd (snd (grow R L K fac (scd R L K scr (fst z)) (snd z))) end)) with (nshape (fst (snd (fz R L K emb sqrtK scr fac ab z)))).
    rewrite S1. unfold prodZ. cbn [fold_right]. destruct (z_pos R L K p k dql t n dm W ND Kn Pos zs Zs z Hz) as [P1 _].
    unfold alive, ne. rewrite scd_vals. unfold vals_at. rewrite map_length. change (sg R L K (fst z)) with (sz R L K z).
    assert (Le : (length (pz R L K scr z) <= length (spos K scr (sz R L K z)))%nat) by (unfold pz; rewrite firstn_length; lia).
    destruct (Nat.eqb_spec (length (pz R L K scr z)) 0) as [E0|E0]; [rewrite E0|]; cbn [negb].
    - replace (sec_r R L (secz R L K z) * (Z.of_nat 0 * 1) =? 0) with true by (symmetry; apply Z.eqb_eq; lia). now rewrite andb_false_r.
    - destruct (Nat.eqb_spec (length (spos K scr (sz R L K z))) 0); [lia|]. cbn [negb andb]. apply negb_true_iff, Z.eqb_neq. nia. }
  split; [|split; [|split; [|split]]].
  - rewrite Hh, map_map. apply map_ext. intros z. reflexivity.
  - intros _. rewrite Hh, map_map. apply map_ext. intros z. reflexivity.
  - intros [H|H]; apply T2; [now left|right]. apply TE. now rewrite <- Tp.
  - intros H1 H2. rewrite Tp in H2. rewrite (T4 H1 (TN H2)), TS, Kp, Tp. reflexivity.
  - rewrite Kp, Tp. exact TA.
Qed.
End Form.
