(** C33: moving the canonical centre does not change the state and makes the other sites isometric. *)
From Coq Require Import ZArith Bool List Lia Permutation Ring QArith Qcanon.
From Verif Require Import SymModel SymProofs DictLib IndexLib OptLib RingLib BondModel FuseModel BlockModel BlockProofs StructModel StructProofs MpsModel MpsChain MpsProofs MpsDot CanonModel CanonProofs CanonSites CanonChain CanonSweep.
Import ListNotations.
Open Scope Z_scope.

Section Props.
Variable R : CRing.
Add Ring Rr26 : (rth R).
Variable L : Label.
Notation tensor := (list (list L * nd R)).
Notation tblock := (bool * (list L * nd R))%type.
Notation site := (site R L).
Notation "0'" := (r0 R). Notation "1'" := (r1 R).
Notation zf := (fun _ : L => 0).
Notation lastq := (fun qs : list L => last qs (q0 L)).
Notation headq := (fun qs : list L => hd (q0 L) qs).
Notation st := (SP (R := R) (L := L) []).
Variable cj : R -> R.
Hypothesis cj0 : cj 0' = 0'.
Variable qr : nd R -> nd R * nd R.
Hypothesis QR : exact_qr R cj qr.

(* the factor r has at most as many rows as columns *)
Definition thin_qr : Prop := forall a m n, nshape a = [m; n] -> 0 < m -> 0 < n -> nth 0 (nshape (snd (qr a))) 0 <= n.
Notation bound := (fun x y => thin_qr -> x <= Z.max 0 y).

Notation lfac := (factor_group R L qr (rows_left R) (fun q b k => nd_reshape (removelast (nshape b) ++ [k]) q)).
Notation rfac := (factor_group R L qr (fun b => nd_T R (rows_right R b)) (fun q b k => nd_reshape (k :: tl (nshape b)) (nd_T R q))).
Lemma left_can : forall s, left_canonicalize R L qr s = (untag R L s (out_blocks R L lastq (tagged R L s) lfac), map (fun g => ([fst g; fst g], snd (lfac g))) (collect R L lastq (tagged R L s))).
Proof. intros s. unfold left_canonicalize, out_blocks. cbv zeta. rewrite !map_map, flat_map_concat_map, map_map, <- flat_map_concat_map. reflexivity. Qed.
Lemma right_can : forall s, right_canonicalize R L qr s = (map (fun g => ([fst g; fst g], nd_T R (snd (rfac g)))) (collect R L headq (tagged R L s)), untag R L s (out_blocks R L headq (tagged R L s) rfac)).
Proof. intros s. unfold right_canonicalize, out_blocks. cbv zeta. rewrite !map_map, flat_map_concat_map, map_map, <- flat_map_concat_map. reflexivity. Qed.
Lemma collect_group : forall lab (T : list tblock) g, In g (collect R L lab T) -> snd g <> [] /\ forall tb, In tb (snd g) -> In tb T /\ lab (fst (snd tb)) = fst g.
Proof.
  intros lab T [q bs] H. apply collect_in in H. destruct H as [E N]. cbn [fst snd]. split; [exact N|]. intros tb Hb. rewrite E in Hb. apply filter_In in Hb. destruct Hb as [H1 H2]. split; [exact H1|]. destruct (qeqb_spec L (lab (fst (snd tb))) q); [assumption|discriminate].
Qed.
Lemma fac_thin : forall lab (T : list tblock) (mat : nd R -> nd R) back d, (forall tb, In tb T -> 0 < d (lab (fst (snd tb))) /\ nshape (mat (snd (snd tb))) = [rows_of R (mat (snd (snd tb))); d (lab (fst (snd tb)))] /\ 0 < rows_of R (mat (snd (snd tb)))) ->
  thin_qr -> forall q, new_dim R L lab T (factor_group R L qr mat back) q <= Z.max 0 (d q).
Proof.
  intros lab T mat back d H Th q. unfold new_dim. destruct (dget (qeqb L) (collect R L lab T) q) as [bs|] eqn:E; [|lia]. apply (dget_in _ (qeqb_spec L)) in E. destruct (collect_group lab T _ E) as [N Hb]. cbn [fst snd] in *.
  unfold factor_group. cbn [snd]. set (ms := map (fun b : tblock => mat (snd (snd b))) bs).
  assert (Hm: forall m, In m ms -> nshape m = [rows_of R m; d q] /\ 0 < rows_of R m). { intros m Hm. apply in_map_iff in Hm. destruct Hm as (tb & <- & Ht). destruct (Hb tb Ht) as [H1 <-]. destruct (H tb H1) as (_ & A & B). auto. }
  destruct (concat_rows R ms (d q) ltac:(now destruct bs) Hm) as [Es Ps]. destruct (qr (nd_concat 0 ms)) as [Q r] eqn:Eq. cbn [snd].
  assert (0 < d q) by (destruct bs as [|tb bs]; [congruence|]; destruct (Hb tb (or_introl eq_refl)) as [H1 <-]; apply (H tb H1)).
  pose proof (Th _ _ _ Es Ps H0) as T1. rewrite Eq in T1. cbn [snd] in T1. lia.
Qed.
Lemma left_shape : forall n dl dp dr (s : site) tb, wf_site n dl dp dr s -> In tb (tagged R L s) -> exists rs, nshape (snd (snd tb)) = put_last Z (dr (last (fst (snd tb)) (q0 L))) rs /\ Forall (fun x => 0 < x) rs /\ 0 < dr (last (fst (snd tb)) (q0 L)).
Proof.
  intros n dl dp dr s tb W H. destruct (tagged_block R L n dl dp dr s tb W H) as (ql & qm & qr' & E & Lm & Es & Pm & Pl & Pr & _). exists (dl ql :: mids L n dp qm). rewrite E, Es. change (ql :: qm ++ [qr']) with ((ql :: qm) ++ [qr']). rewrite last_last.
  split; [reflexivity|]. split; [now constructor|exact Pr].
Qed.
Lemma right_shape : forall n dl dp dr (s : site) tb, wf_site n dl dp dr s -> In tb (tagged R L s) -> exists rs, nshape (snd (snd tb)) = put_first Z (dl (hd (q0 L) (fst (snd tb)))) rs /\ Forall (fun x => 0 < x) rs /\ 0 < dl (hd (q0 L) (fst (snd tb))).
Proof.
  intros n dl dp dr s tb W H. destruct (tagged_block R L n dl dp dr s tb W H) as (ql & qm & qr' & E & Lm & Es & Pm & Pl & Pr & _). exists (mids L n dp qm ++ [dr qr']). rewrite E, Es. cbn [hd].
  split; [reflexivity|]. split; [apply Forall_app; auto|exact Pl].
Qed.
Lemma left_facts : left_fac R L cj (left_canonicalize R L qr) bound.
Proof.
  intros n dl dp dr s W.
  assert (F: forall g, In g (collect R L lastq (tagged R L s)) -> fac_ok R L put_last rest_last cj (dr (fst g)) (snd g) (lfac g)).
  { intros g Hg. destruct (collect_group _ _ g Hg) as [N Hb]. apply (factor_group_ok R L put_last rest_last rest_put_last (rows_left R) (fun q b k => nd_reshape (removelast (nshape b) ++ [k]) q) (left_mat_ok R) (left_back_ok R)); auto.
    - destruct (snd g) as [|tb bs] eqn:E; [congruence|]. destruct (Hb tb (or_introl eq_refl)) as [H1 <-]. now destruct (left_shape n dl dp dr s tb W H1) as (rs & _ & _ & P).
    - intros tb Ht. destruct (Hb tb Ht) as [H1 <-]. destruct (left_shape n dl dp dr s tb W H1) as (rs & A & B & _). eauto. }
  destruct (fac_left R L cj cj0 n dl dp dr s W lfac F) as (K & Wf & P & G & Fa & Iso & _). rewrite left_can. cbn [fst snd]. eexists. split; [split; [exact Wf|split; [|split; [exact G|exact Fa] ] ]|].
  - intros o x Hx. apply (Permutation_in _ (P o)). exact Hx.
  - split; [exact K|]. split; [exact Iso|]. intros q Th. apply fac_thin; [|exact Th]. intros tb Hb. destruct (left_shape n dl dp dr s tb W Hb) as (rs & A & B & C). destruct (left_mat_ok R (snd (snd tb)) _ rs A C B) as [M _]. unfold rows_of. rewrite M. cbn [nth]. repeat split; auto. now apply prodZ_pos.
Qed.
Lemma right_facts : right_fac R L cj (right_canonicalize R L qr) bound.
Proof.
  intros n dl dp dr s W.
  assert (F: forall g, In g (collect R L headq (tagged R L s)) -> fac_ok R L put_first rest_first cj (dl (fst g)) (snd g) (rfac g)).
  { intros g Hg. destruct (collect_group _ _ g Hg) as [N Hb]. apply (factor_group_ok R L put_first rest_first ltac:(reflexivity) (fun b => nd_T R (rows_right R b)) (fun q b k => nd_reshape (k :: tl (nshape b)) (nd_T R q)) (right_mat_ok R) (right_back_ok R)); auto.
    - destruct (snd g) as [|tb bs] eqn:E; [congruence|]. destruct (Hb tb (or_introl eq_refl)) as [H1 <-]. now destruct (right_shape n dl dp dr s tb W H1) as (rs & _ & _ & P).
    - intros tb Ht. destruct (Hb tb Ht) as [H1 <-]. destruct (right_shape n dl dp dr s tb W H1) as (rs & A & B & _). eauto. }
  destruct (fac_right R L cj cj0 n dl dp dr s W rfac F) as (K & Wf & P & G & Fa & Iso & _). rewrite right_can. cbn [fst snd]. eexists. split; [split; [exact Wf|split; [|split; [exact G|exact Fa] ] ]|].
  - intros o x Hx. apply (Permutation_in _ (P o)). exact Hx.
  - split; [exact K|]. split; [exact Iso|]. intros q Th. apply (fac_thin headq (tagged R L s) (fun b => nd_T R (rows_right R b))); [|exact Th]. intros tb Hb. destruct (right_shape n dl dp dr s tb W Hb) as (rs & A & B & C). destruct (right_mat_ok R (snd (snd tb)) _ rs A C B) as [M _]. unfold rows_of. rewrite M. cbn [nth]. repeat split; auto. now apply prodZ_pos.
Qed.
Lemma canonicalize_ok : forall c (ts : list site) ds shp, (c < length ts)%nat -> wf_sites ds shp ts ->
  exists ts1 ts' ds', foldM (left_step R L qr) ts (seq 0 c) = Some ts1 /\ foldM (right_step R L qr) ts1 (down (length ts) c) = Some ts' /\ evolve R L shp ds ds' ts ts' /\
  (thin_qr -> forall i q, nth i ds' zf q <= Z.max 0 (nth i ds zf q)) /\
  (forall j, (j < c)%nat -> last_determined R L (nth j ts st) -> left_iso R L cj (nth (S j) ds' zf) (nth j ts' st)) /\
  (forall j, (c < j < length ts)%nat -> first_determined R L (nth j ts st) -> right_iso R L cj (nth j ds' zf) (nth j ts' st)).
Proof.
  intros c ts ds shp Hc W.
  assert (Br: forall x, bound x x) by (intros; lia). assert (Bt: forall x y z, bound y x -> bound z y -> bound z x) by (intros x y z H1 H2 T; specialize (H1 T); specialize (H2 T); lia).
  destruct (left_sweep R L cj _ (right_canonicalize R L qr) bound Br Bt left_facts shp c ds ts Hc W) as (t1 & d1 & E1 & V1 & B1 & I1 & S1). pose proof V1 as (W1 & L1 & _ & K1 & _).
  destruct (right_sweep R L cj (left_canonicalize R L qr) _ bound Br Bt right_facts shp c (length ts - 1 - c) d1 t1 ltac:(lia) W1) as (t2 & d2 & E2 & V2 & B2 & I2 & S2 & S3).
  exists t1, t2, d2. split; [exact E1|]. split; [exact E2|]. split; [apply (evolve_trans R L shp ds d1 _ ts t1 t2); auto; intros ->; cbn in Hc; lia|]. split; [|split].
  - intros Th i q. pose proof (B1 i q Th). pose proof (B2 i q Th). lia.
  - intros j Hj D. rewrite S2, S3 by lia. now apply I1.
  - intros j Hj D. apply I2; [lia|]. apply (first_determined_incl R L (nth j ts st)); [apply K1|exact D].
Qed.
End Props.

Section Statements.
Variable R : CRing.
Variable L : Label.
Notation zf := (fun _ : L => 0).
Notation st := (SP (R := R) (L := L) []).
(** Canonicalisation with an exact orthogonal factorisation, for every chain and every centre.  The number of legs and
    the physical dimensions of the sites (shp) are kept, the bond dimensions (ds) at the ends too.
    The state: the amplitude of every configuration, whatever lists of bond states the sums run over, as long as these
    contain the states the tensors use.  Isometry needs that the last (first) label of a block follows from the others,
    as in tensors with definite quantum number. *)
Theorem c33_canonicalize : forall (cj : R -> R) qr, cj (r0 R) = r0 R -> exact_qr R cj qr -> forall (a : mps R L) ds shp center, wf_sites ds shp (m_tensors a) ->
  let n := Z.of_nat (length (m_tensors a)) in let c := if center <? 0 then center + n else center in
  (~ 0 <= c < n -> canonicalize R L qr center a = None) /\
  (0 <= c < n -> exists b ds', canonicalize R L qr center a = Some b /\ m_const b = m_const a /\ m_opts b = m_opts a /\
    length (m_tensors b) = length (m_tensors a) /\ wf_sites ds' shp (m_tensors b) /\
    nth 0 ds' zf = nth 0 ds zf /\ nth (length (m_tensors a)) ds' zf = nth (length (m_tensors a)) ds zf /\
    (forall Ba Bb ps l r, bonds Ba (m_tensors a) -> bonds Bb (m_tensors b) -> amplitude Bb (m_tensors b) ps l r = amplitude Ba (m_tensors a) ps l r) /\
    (forall j, Z.of_nat j < c -> last_determined R L (nth j (m_tensors a) st) -> left_iso R L cj (nth (S j) ds' zf) (nth j (m_tensors b) st)) /\
    (forall j, c < Z.of_nat j < n -> first_determined R L (nth j (m_tensors a) st) -> right_iso R L cj (nth j ds' zf) (nth j (m_tensors b) st)) /\
    (forall j, kind (nth j (m_tensors b) st) = kind (nth j (m_tensors a) st) \/ blocks (nth j (m_tensors b) st) = []) /\
    (forall j o k, In k (map fst (part (nth j (m_tensors b) st) o)) -> In k (map fst (part (nth j (m_tensors a) st) o)))).
Proof.
  intros cj qr cj0 QR a ds shp center W n c. unfold canonicalize. fold n.
  replace (if center <? 0 then n + center else center) with c by (unfold c; destruct (center <? 0); lia). split.
  - intros N. destruct (Z.leb_spec 0 c), (Z.ltb_spec c n); cbn [andb]; try reflexivity; lia.
  - intros Hc. destruct (Z.leb_spec 0 c), (Z.ltb_spec c n); try lia. cbn [andb].
    destruct (canonicalize_ok R L cj cj0 qr QR (Z.to_nat c) (m_tensors a) ds shp ltac:(lia) W) as (t1 & t2 & d2 & E1 & E2 & (Wn & Ln & Am & In' & Kn & D0 & Dn) & _ & I1 & I2).
    exists (Mps t2 (m_const a) (m_opts a)), d2. rewrite E1. cbn [bind]. rewrite E2. cbn [bind m_const m_opts m_tensors].
    repeat (split; [solve [auto]|]). split; [intros j Hj; apply I1; lia|]. split; [intros j Hj; apply I2; lia|]. split; [exact Kn|]. intros j o k. apply In'.
Qed.
(** With a factorisation whose inner dimension is at most the number of columns no bond grows. *)
Theorem c33_bond_dims : forall (cj : R -> R) qr, cj (r0 R) = r0 R -> exact_qr R cj qr ->
  (forall a m n, nshape a = [m; n] -> 0 < m -> 0 < n -> nth 0 (nshape (snd (qr a))) 0 <= n) ->
  forall (a : mps R L) ds shp center b, wf_sites ds shp (m_tensors a) -> canonicalize R L qr center a = Some b ->
  exists ds', wf_sites ds' shp (m_tensors b) /\ forall i q, nth i ds' zf q <= Z.max 0 (nth i ds zf q).
Proof.
  intros cj qr cj0 QR Th a ds shp center b W E. unfold canonicalize in E. set (c := if center <? 0 then _ else _) in E. destruct (Z.leb_spec 0 c) as [H1|H1], (Z.ltb_spec c (Z.of_nat (length (m_tensors a)))) as [H2|H2]; cbn [andb] in E; try discriminate.
  destruct (canonicalize_ok R L cj cj0 qr QR (Z.to_nat c) (m_tensors a) ds shp ltac:(lia) W) as (t1 & t2 & d2 & E1 & E2 & (Wn & _) & Bd & _). rewrite E1 in E. cbn [bind] in E. rewrite E2 in E. injection E as <-. exists d2. split; [exact Wn|]. exact (Bd Th).
Qed.
End Statements.
Print Assumptions c33_canonicalize. Print Assumptions c33_bond_dims.

(** *** exact factorisations, and concrete cases *)
Section Eye.
Variable R : CRing.
Add Ring Rr27 : (rth R).
Definition eye (m : Z) : nd R := @mkNd R [m; m] (fun xs => if nth 0 xs 0 =? nth 1 xs 0 then r1 R else r0 R).
Definition eye_qr (a : nd R) : nd R * nd R := (eye (nth 0 (nshape a) 0), a).
Lemma nget_eye : forall m x y, 0 <= x < m -> 0 <= y < m -> nget (eye m) [x; y] = if x =? y then r1 R else r0 R.
Proof. intros m x y Hx Hy. rewrite nget_in by (apply in_shape2; auto). reflexivity. Qed.
Lemma bsum_delta : forall m x (f : Z -> R), 0 <= x < m -> bsum (zrange m) (fun z => if z =? x then f z else r0 R) = f x.
Proof.
  intros m x f Hx. rewrite (bsum_single R _ (zrange m) _ x); [now rewrite Z.eqb_refl|apply zrange_nodup|now apply in_zrange|]. intros z _ N. destruct (Z.eqb_spec z x); [contradiction|reflexivity].
Qed.
Lemma eye_qr_exact : forall cj, cj (r0 R) = r0 R -> cj (r1 R) = r1 R -> exact_qr R cj eye_qr.
Proof.
  intros cj c0 c1 a m n Es Hm Hn. exists m. unfold eye_qr. cbn [fst snd]. rewrite Es. cbn [nth]. split; [exact Hm|]. split; [reflexivity|]. split; [reflexivity|]. split.
  - intros i j Hi Hj. rewrite (bsum_ext R _ _ _ (fun z => if z =? i then nget a [z; j] else r0 R)).
    + symmetry. now apply bsum_delta.
    + intros z Hz. apply in_zrange in Hz. rewrite nget_eye by auto. rewrite Z.eqb_sym. destruct (z =? i); ring.
  - intros z z' Hz Hz'. rewrite (bsum_ext R _ _ _ (fun i => if i =? z then (if i =? z' then r1 R else r0 R) else r0 R)).
    + rewrite (bsum_delta m z (fun i => if i =? z' then r1 R else r0 R)) by auto. reflexivity.
    + intros i Hi. apply in_zrange in Hi. rewrite !nget_eye by auto. destruct (i =? z); [rewrite c1|rewrite c0]; ring.
Qed.
End Eye.

(* a factorisation with rational numbers: (3, 4)^T = (3/5, 4/5)^T 5, anything else with the identity matrix *)
Definition qv2 (x y : Qc) : nd Qc_ring := @mkNd Qc_ring [2; 1] (fun xs => if nth 0 xs 0 =? 0 then x else y).
Definition qeq (x y : Qc) : bool := if Qc_eq_dec x y then true else false.
Definition qi (z : Z) : Qc := Q2Qc (inject_Z z).
Definition is345 (a : nd Qc_ring) : bool := (match nshape a with [2; 1] => true | _ => false end) && qeq (nget a [0; 0]) (qi 3) && qeq (nget a [1; 0]) (qi 4).
Definition qr345 (a : nd Qc_ring) : nd Qc_ring * nd Qc_ring := if is345 a then (qv2 (Q2Qc (3 # 5)) (Q2Qc (4 # 5)), @mkNd Qc_ring [1; 1] (fun _ => qi 5)) else eye_qr Qc_ring a.
Lemma qr345_exact : exact_qr Qc_ring (fun x => x) qr345.
Proof.
  intros a m n Es Hm Hn. unfold qr345. destruct (is345 a) eqn:E; [|exact (eye_qr_exact Qc_ring (fun x => x) eq_refl eq_refl a m n Es Hm Hn)].
  unfold is345 in E. rewrite !andb_true_iff in E. destruct E as [ [E1 E2] E3]. assert (m = 2 /\ n = 1) as [-> ->].
  { rewrite Es in E1. destruct m as [|[m|[m|m|]|]|]; try discriminate; destruct n as [|[n|n|]|]; try discriminate; auto. }
  unfold qeq in *. destruct (Qc_eq_dec (nget a [0; 0]) (qi 3)) as [A0|]; [|discriminate]. destruct (Qc_eq_dec (nget a [1; 0]) (qi 4)) as [A1|]; [|discriminate].
  exists 1. split; [lia|]. split; [reflexivity|]. split; [reflexivity|]. split.
  - intros i j Hi Hj. assert (j = 0) as -> by lia. assert (i = 0 \/ i = 1) as [-> | ->] by lia; [rewrite A0|rewrite A1]; apply Qc_is_canon; vm_compute; reflexivity.
  - intros z z' Hz Hz'. assert (z = 0) as -> by lia. assert (z' = 0) as -> by lia. apply Qc_is_canon. vm_compute. reflexivity.
Qed.
Definition qblk (qs sh : list Z) (l : list Z) : list U1_label * nd Qc_ring := (qs, @mkNd Qc_ring sh (fun xs => qi (nth (Z.to_nat (ravel sh xs)) l 0))).
Definition qdump (s : site Qc_ring U1_label) : bool * list (list Z * list Z * list QArith_base.Q) := (kind s, map (fun b : list U1_label * nd Qc_ring => (fst b, nshape (snd b), map (fun xs => this (nval (snd b) xs)) (all_idx (nshape (snd b))))) (blocks s)).
(* two sites with one particle; the bond state 1 can be reached in two ways on the first site *)
Definition ex_c : mps Qc_ring U1_label :=
  Mps (R := Qc_ring) [SP [qblk [0; 1; 1] [1; 1; 1] [3]; qblk [1; 0; 1] [1; 1; 1] [4]; qblk [0; 0; 0] [1; 1; 1] [2] ]; SP [qblk [1; 0; 1] [1; 1; 1] [7]; qblk [0; 1; 1] [1; 1; 1] [11] ] ] (qi 6) None.
(* centre on the second site *)
Example c33_ex :
  option_map (fun b => (map qdump (m_tensors b), this (m_const b))) (canonicalize Qc_ring U1_label qr345 (-1) ex_c) =
  Some ([(false, [([0; 1; 1], [1; 1; 1], [(3 # 5)%Q]); ([1; 0; 1], [1; 1; 1], [(4 # 5)%Q]); ([0; 0; 0], [1; 1; 1], [(1 # 1)%Q])]);
         (false, [([1; 0; 1], [1; 1; 1], [(35 # 1)%Q]); ([0; 1; 1], [1; 1; 1], [(22 # 1)%Q])])], (6 # 1)%Q)
  /\ canonicalize Qc_ring U1_label qr345 (-3) ex_c = None /\ canonicalize Qc_ring U1_label qr345 2 ex_c = None
  /\ wf_sites [(fun _ => 1); (fun _ => 1); (fun _ => 1)] [(3, fun _ _ => 1); (3, fun _ _ => 1)] (m_tensors ex_c)
  /\ Forall (last_determined Qc_ring U1_label) (m_tensors ex_c) /\ Forall (first_determined Qc_ring U1_label) (m_tensors ex_c).
Proof.
  split; [vm_compute; reflexivity|]. split; [vm_compute; reflexivity|]. split; [vm_compute; reflexivity|]. split; [|split].
  - assert (P: forall t : list (list U1_label * nd Qc_ring), (forall b, In b t -> length (fst b) = 3%nat /\ nshape (snd b) = [1; 1; 1]) -> NoDup (map fst t) -> wf_site (R := Qc_ring) 3 (fun _ => 1) (fun _ _ => 1) (fun _ => 1) (SP t)).
    { intros t H N. split; [lia|]. intros o. destruct o; cbn [part]; [split; [intros b []|split; [intros b []|constructor] ]|]. split; [|split; [|exact N] ].
      - intros b Hb. destruct (H b Hb) as [H1 H2]. split; [now rewrite H1|]. rewrite H2. destruct (fst b) as [|k0 [|k1 [|k2 [|k3 l] ] ] ]; cbn in H1; try lia. reflexivity.
      - intros b Hb. destruct (H b Hb) as [_ H2]. rewrite H2. repeat constructor. }
    split; [|split; [|split; reflexivity] ]; apply P.
    + intros b [<- |[<- |[<- |[] ] ] ]; split; reflexivity.
    + repeat constructor; cbn; intuition discriminate.
    + intros b [<- |[<- |[] ] ]; split; reflexivity.
    + repeat constructor; cbn; intuition discriminate.
  - repeat constructor; intros [] ks q q'; cbn; try tauto; intros H1 H2; destruct ks as [|k0 [|k1 [|k2 [|k3 ks] ] ] ]; cbn in *; intuition congruence.
  - repeat constructor; intros [] ks q q'; cbn; try tauto; intros H1 H2; intuition congruence.
Qed.

(** With a FermionTensor without blocks the neighbouring FermionTensor becomes a SparseTensor: the gauge has no blocks,
    so it has no legs either, and the contraction takes the branch for results of another class. *)
Theorem c33_class_kept_refuted : exists (a : mps Qc_ring U1_label) b, canonicalize Qc_ring U1_label qr345 1 a = Some b /\
  kind (nth 1 (m_tensors a) (SP [])) = true /\ kind (nth 1 (m_tensors b) (SP [])) = false.
Proof. exists (Mps (R := Qc_ring) [FT [] []; FT [] [qblk [1; 0; 1] [1; 1; 1] [7] ] ] (qi 0) None), (Mps (R := Qc_ring) [FT [] []; SP [] ] (qi 0) None). repeat split. Qed.
Print Assumptions c33_ex. Print Assumptions c33_class_kept_refuted.
