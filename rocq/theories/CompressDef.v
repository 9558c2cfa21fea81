(** Lemmas for C59: when the singular value decomposition is defined, and when nothing is discarded. *)
From Coq Require Import ZArith Bool List Lia Permutation Sorted Ring.
From Verif Require Import SymModel SymProofs DictLib IndexLib OptLib RingLib OrdLib BondModel BondProofs FuseModel FuseProofs BlockModel BlockProofs StructModel StructProofs MpsModel MpsChain MpsProofs MpsDot TruncModel TruncProofs TruncProps CanonModel CanonProofs CanonSites CanonChain CompressModel CompressSvd CompressFac.
Import ListNotations.
Open Scope Z_scope.

Lemma full_err : forall (K : ORing) sq (s : list (list K)) gs err, truncate_svd K sq false (-1) (r0 K) (r0 K) s = (gs, err) -> err = r0 K.
Proof.
  intros K sq s gs err E. rewrite (c24_error K sq false _ _ _ s gs err E). unfold total. apply bsum_zero. intros i Hi. apply bsum_zero. intros j Hj. apply in_zrange in Hi, Hj.
  destruct (keptB gs i j) eqn:Kb; [reflexivity|]. exfalso.
  destruct (c24_minimal K sq false _ _ _ s gs err E eq_refl ltac:(lia) i j (conj Hi Hj)) as [[H _]|H]; [|congruence|].
  - intros (g & H1 & H2). assert (keptb gs i j = true) by (apply keptb_iff; eauto). change (keptb gs i j) with (keptB gs i j) in H. congruence.
  - assert (0 <= number_kept gs); [|lia]. unfold number_kept. clear. induction gs as [|g gs IH]; [cbn; lia|]. cbn [map]. rewrite zsum_cons. lia.
Qed.

Section Def.
Variable R : CRing.
Variable L : Label.
Variable K : ORing.
Variable sqrtK : K -> K.
Variable svd : nd R -> option (nd R * list K * nd R).
Variable big : list L * nd R -> bool.
Notation tblock := (bool * (list L * nd R))%type.
Notation site := (site R L).
Notation lastq := (fun qs : list L => last qs (q0 L)).
Notation headq := (fun qs : list L => hd (q0 L) qs).
(* options that discard nothing *)
Definition keep_all (o : copts K) : Prop := o_max K o = -1 /\ o_cutoff K o = r0 K /\ o_dw K o = r0 K.
Lemma trunc_right_err : forall o l slabs ss f0 l' s' f err, keep_all o -> trunc_right R L K sqrtK big o l slabs ss f0 = (l', s', f, err) -> err = r0 K.
Proof.
  intros o l slabs ss f0 l' s' f err (E1 & E2 & E3) T. unfold trunc_right in T. rewrite E1, E2, E3 in T. destruct f0 as [t|od ev].
  - unfold truncate_tensors in T. destruct (truncate_svd K sqrtK false (-1) (r0 K) (r0 K) ss) as [gs e] eqn:E. injection T as _ _ _ <-. exact (full_err _ _ _ _ _ E).
  - rewrite c24_fermion in T. destruct (truncate_svd K (fun c => c) false (-1) (r0 K) (r0 K) ss) as [gs e] eqn:E. injection T as _ _ _ <-. exact (full_err _ _ _ _ _ E).
Qed.
Lemma trunc_left_err : forall o f0 slabs ss r f s' r' err, keep_all o -> trunc_left R L K sqrtK big o f0 slabs ss r = (f, s', r', err) -> err = r0 K.
Proof.
  intros o f0 slabs ss r f s' r' err (E1 & E2 & E3) T. unfold trunc_left in T. rewrite E1, E2, E3 in T. destruct f0 as [t|od ev].
  - unfold truncate_tensors in T. destruct (truncate_svd K sqrtK false (-1) (r0 K) (r0 K) ss) as [gs e] eqn:E. injection T as _ _ _ <-. exact (full_err _ _ _ _ _ E).
  - rewrite c24_fermion in T. destruct (truncate_svd K (fun c => c) false (-1) (r0 K) (r0 K) ss) as [gs e] eqn:E. injection T as _ _ _ <-. exact (full_err _ _ _ _ _ E).
Qed.

Definition svd_defined : Prop := forall a m n, nshape a = [m; n] -> 0 < m -> 0 < n -> svd a <> None.
Hypothesis SD : svd_defined.
Lemma mapM_some : forall A B (f : A -> option B) l, (forall x, In x l -> f x <> None) -> exists r, mapM f l = Some r.
Proof.
  intros A B f l. induction l as [|x l IH]; intros H; [exists []; reflexivity|]. cbn [mapM]. destruct (f x) as [y|] eqn:E; [|destruct (H x (or_introl eq_refl) E)]. cbn [bind].
  destruct IH as [r Er]; [intros z Hz; apply H; now right|]. rewrite Er. cbn [bind]. eauto.
Qed.
Lemma left_group_some : forall d g, shape_ok R L put_last d (snd g) -> left_group R L K svd g <> None.
Proof.
  intros d [q bs0] (Nn & Hd & Hb). unfold left_group. cbn [snd] in *. set (ms := map (fun b : tblock => rows_left R (snd (snd b))) bs0) in *.
  assert (Hs: forall m, In m ms -> nshape m = [rows_of R m; d] /\ 0 < rows_of R m). { intros m Hm. apply in_map_iff in Hm. destruct Hm as (tb & <- & Ht). destruct (Hb tb Ht) as (rs & Er & Pos). destruct (left_mat_ok R _ _ _ Er Hd Pos) as [M1 _]. unfold rows_of. rewrite M1. cbn [nth]. split; [reflexivity|now apply prodZ_pos]. }
  destruct (concat_rows R ms d ltac:(now destruct bs0) Hs) as [Es Ps]. pose proof (SD _ _ _ Es Ps Hd) as N. destruct (svd (nd_concat 0 ms)) as [[[u s] vh]|]; [|congruence]. discriminate.
Qed.
Lemma right_group_some : forall d g, shape_ok R L put_first d (snd g) -> right_group R L K svd g <> None.
Proof.
  intros d [q bs0] (Nn & Hd & Hb). unfold right_group. cbn [snd] in *. set (ms := map (fun b : tblock => rows_right R (snd (snd b))) bs0) in *.
  assert (Hc: forall m, In m ms -> nshape m = [d; cols_of R m] /\ 0 < cols_of R m).
  { intros m Hm. apply in_map_iff in Hm. destruct Hm as (tb & <- & Ht). destruct (Hb tb Ht) as (rs & Er & Pos). unfold put_first in Er. pose proof (prodZ_pos _ Pos). assert (Es: nshape (rows_right R (snd (snd tb))) = [d; prodZ rs]) by (unfold rows_right; rewrite Er; cbn [tl nshape nd_reshape]; do 1 f_equal; cbn [prodZ fold_right]; apply Z.div_mul; unfold prodZ in *; lia).
    unfold cols_of. rewrite Es. cbn [nth]. auto. }
  assert (Ps: 0 < zsum (map (cols_of R) ms)). { assert (Ne: ms <> []) by (now destruct bs0). clearbody ms. clear - Hc Ne. destruct ms as [|m ms]; [congruence|]. cbn [map]. rewrite zsum_cons. pose proof (proj2 (Hc m (or_introl eq_refl))). assert (0 <= zsum (map (cols_of R) ms)); [|lia]. assert (H': forall x, In x ms -> 0 < cols_of R x) by (intros x Hx; apply Hc; now right). clear - H'. induction ms as [|x ms IH]; [cbn; lia|]. cbn [map]. rewrite zsum_cons. pose proof (H' x (or_introl eq_refl)). specialize (IH (fun y Hy => H' y (or_intror Hy))). lia. }
  assert (E1: nshape (nd_concat 1 ms) = [d; zsum (map (cols_of R) ms)]). { cbn [nd_concat nshape]. destruct ms as [|m ms'] eqn:Em; [cbn in Ps; lia|]. rewrite (proj1 (Hc m (or_introl eq_refl))). reflexivity. }
  pose proof (SD _ _ _ E1 Hd Ps) as N. destruct (svd (nd_concat 1 ms)) as [[[u s] vh]|]; [|congruence]. discriminate.
Qed.
Lemma right_svd_some : forall n dl dp dr s, wf_site n dl dp dr s -> exists l slabs ss f0, right_svd R L K svd s = Some (l, slabs, ss, f0).
Proof.
  intros n dl dp dr s W. unfold right_svd. destruct (mapM_some _ _ (fun g => do x <- right_group R L K svd g; Some (fst g, x)) (collect R L headq (tagged R L s))) as [r Er].
  - intros g Hg. pose proof (right_group_some _ g (r_shape R L n dl dp dr s W g Hg)). destruct (right_group R L K svd g); [discriminate|congruence].
  - rewrite Er. cbn [bind]. eauto 10.
Qed.
Lemma left_svd_some : forall n dl dp dr s, wf_site n dl dp dr s -> exists f0 slabs ss r, left_svd R L K svd s = Some (f0, slabs, ss, r).
Proof.
  intros n dl dp dr s W. unfold left_svd. destruct (mapM_some _ _ (fun g => do x <- left_group R L K svd g; Some (fst g, x)) (collect R L lastq (tagged R L s))) as [r Er].
  - intros g Hg. pose proof (left_group_some _ g (l_shape R L n dl dp dr s W g Hg)). destruct (left_group R L K svd g); [discriminate|congruence].
  - rewrite Er. cbn [bind]. eauto 10.
Qed.
End Def.
