(** Lemmas for C59: the contract of one truncated factorisation. *)
From Coq Require Import ZArith Bool List Lia Permutation Sorted Ring.
From Verif Require Import SymModel SymProofs DictLib IndexLib OptLib RingLib OrdLib BondModel BondProofs FuseModel FuseProofs BlockModel BlockProofs StructModel StructProofs MpsModel MpsChain MpsProofs MpsDot TruncModel TruncProofs CanonModel CanonProofs CanonSites CanonChain CompressModel CompressSvd CompressCut CompressSites.
Import ListNotations.
Open Scope Z_scope.

Lemma nth_bsum : forall (R : CRing) A (d : A) (l : list A) (h : A -> R), bsum (zrange (Z.of_nat (length l))) (fun i => h (nth (Z.to_nat i) l d)) = bsum l h.
Proof.
  intros R A d l h. induction l as [|x l IH] using rev_ind; [reflexivity|]. rewrite app_length. cbn [length]. rewrite Nat2Z.inj_add, zrange_add by lia. rewrite !bsum_app. f_equal.
  - rewrite <- IH. apply bsum_ext. intros i Hi. apply in_zrange in Hi. rewrite app_nth1 by lia. reflexivity.
  - change (zrange (Z.of_nat 1)) with [0]. cbn [map]. rewrite !bsum_cons, !bsum_nil. rewrite app_nth2 by lia. replace (Z.to_nat (Z.of_nat (length l) + 0) - length l)%nat with O by lia. reflexivity.
Qed.
Lemma zsum_incl : forall A (f : A -> Z) a b, NoDup a -> (forall x, 0 <= f x) -> (forall x, In x a -> f x <> 0 -> In x b) -> zsum (map f a) <= zsum (map f b).
Proof.
  intros A f. induction a as [|x a IH]; intros b N P H.
  - cbn [map]. change (zsum []) with 0. induction b as [|y b IHb]; [cbn; lia|]. cbn [map]. rewrite zsum_cons. specialize (P y). assert (0 <= zsum (map f b)) by (apply IHb; intros ? []). lia.
  - inversion N as [|? ? N1 N2]; subst. cbn [map]. rewrite zsum_cons. destruct (Z.eq_dec (f x) 0) as [E|E].
    + rewrite E. cbn [Z.add]. apply IH; auto. intros y Hy. apply H. now right.
    + destruct (in_split x b (H x (or_introl eq_refl) E)) as (b1 & b2 & ->). rewrite (zsum_perm (map f (b1 ++ x :: b2)) (map f (x :: b1 ++ b2))) by (apply Permutation_map; symmetry; apply Permutation_middle).
      cbn [map]. rewrite zsum_cons. assert (zsum (map f a) <= zsum (map f (b1 ++ b2))); [|lia].
      apply IH; auto. intros y Hy Ey. specialize (H y (or_intror Hy) Ey). apply in_app_iff. apply in_app_iff in H. destruct H as [H|[->|H] ]; auto. contradiction.
Qed.

Section Split.
Variable R : CRing.
Add Ring Rr35 : (rth R).
Variable L : Label.
Variable K : ORing.
Variable sqrtK : K -> K.
Variable emb : K -> R.
Variable cj : R -> R.
Variable svd : nd R -> option (nd R * list K * nd R).
Variable big : list L * nd R -> bool.
Notation block := (list L * nd R)%type.
Notation tensor := (list (list L * nd R)).
Notation tblock := (bool * (list L * nd R))%type.
Notation site := (site R L).
Notation state := (L * Z)%type.
Notation pstate := (bool * list state)%type.
Notation telem := (telem R L).
Notation positive := (positive R L).
Notation "0'" := (r0 R). Notation "1'" := (r1 R).
Infix "+'" := (radd R) (at level 50, left associativity).
Infix "-'" := (rsub R) (at level 50, left associativity).
Infix "*'" := (rmul R) (at level 40, left associativity).
Notation at_ := (at_ K). Notation blk := (blk K).
Notation lastq := (fun qs : list L => last qs (q0 L)).
Notation headq := (fun qs : list L => hd (q0 L) qs).
Hypothesis Hbig : forall b, big b = false -> forall xs, nget (snd b) xs = 0'.
Hypothesis cj_add : forall x y, cj (x +' y) = cj x +' cj y.
Hypothesis cj_mul : forall x y, cj (x *' y) = cj x *' cj y.
Hypothesis cj0 : cj 0' = 0'.
Hypothesis cj_emb : forall x, cj (emb x) = emb x.
Hypothesis emb0 : emb (r0 K) = 0'.
Hypothesis emb_add : forall x y, emb (radd K x y) = emb x +' emb y.
Hypothesis emb_mul : forall x y, emb (rmul K x y) = emb x *' emb y.
Hypothesis HS : exact_svd R K emb cj svd.
Lemma emb_sum : forall A (l : list A) f, emb (bsum l f) = bsum l (fun x => emb (f x)).
Proof using emb0 emb_add. intros A l f. induction l as [|x l IH]; [rewrite !bsum_nil; exact emb0|]. now rewrite !bsum_cons, emb_add, IH. Qed.

(** *** the contract *)
Definition covers_r (n : Z) (dp : Z -> L -> Z) (dr : L -> Z) (s : site) (X : list (pstate * state)) : Prop :=
  forall dl' w, wf_site n dl' dp dr w -> (forall o, incl (map fst (part w o)) (map fst (part s o))) -> forall p l r, ~ In (p, r) X -> selem w p l r = 0'.
Definition covers_l (n : Z) (dl : L -> Z) (dp : Z -> L -> Z) (s : site) (X : list (pstate * state)) : Prop :=
  forall dr' w, wf_site n dl dp dr' w -> (forall o, incl (map fst (part w o)) (map fst (part s o))) -> forall p l r, ~ In (p, l) X -> selem w p l r = 0'.
Definition rho_r (dn : L -> Z) (s f : site) (g : tensor) (p : pstate) (q : L) (y : Z) (r : state) : R :=
  selem s p (q, y) r -' bsum (zrange (dn q)) (fun z => telem g [(q, y); (q, z)] *' selem f p (q, z) r).
Definition rho_l (dn : L -> Z) (s f : site) (g : tensor) (p : pstate) (l : state) (q : L) (y : Z) : R :=
  selem s p l (q, y) -' bsum (zrange (dn q)) (fun z => selem f p l (q, z) *' telem g [(q, z); (q, y)]).
Definition tsplit_right (n : Z) (dl : L -> Z) (dp : Z -> L -> Z) (dr dn : L -> Z) (s f : site) (g : tensor) (err : K) : Prop :=
  wf_site n dn dp dr f /\ (forall o, incl (map fst (part f o)) (map fst (part s o))) /\ gauge_ok R L headq (tagged R L s) dl dn g /\ kind f = kind s /\
  forall X, first_determined R L s -> NoDup X -> covers_r n dp dr s X ->
    (forall l l', 0 <= snd l < dn (fst l) -> 0 <= snd l' < dn (fst l') -> bsum X (fun x => cj (selem f (fst x) l (snd x)) *' selem f (fst x) l' (snd x)) = if st_dec L l l' then 1' else 0') /\
    (forall q z q' y, 0 <= z < dn q -> bsum X (fun x => cj (selem f (fst x) (q, z) (snd x)) *' rho_r dn s f g (fst x) q' y (snd x)) = 0') /\
    (forall Qs, NoDup Qs -> incl (firsts s) Qs -> bsum Qs (fun q => bsum (zrange (dl q)) (fun y => bsum X (fun x => cj (rho_r dn s f g (fst x) q y (snd x)) *' rho_r dn s f g (fst x) q y (snd x)))) = emb err).
Definition tsplit_left (n : Z) (dl : L -> Z) (dp : Z -> L -> Z) (dr dn : L -> Z) (s f : site) (g : tensor) (err : K) : Prop :=
  wf_site n dl dp dn f /\ (forall o, incl (map fst (part f o)) (map fst (part s o))) /\ gauge_ok R L lastq (tagged R L s) dn dr g /\ kind f = kind s /\
  forall X, last_determined R L s -> NoDup X -> covers_l n dl dp s X ->
    (forall r r', 0 <= snd r < dn (fst r) -> 0 <= snd r' < dn (fst r') -> bsum X (fun x => cj (selem f (fst x) (snd x) r) *' selem f (fst x) (snd x) r') = if st_dec L r r' then 1' else 0') /\
    (forall q z q' y, 0 <= z < dn q -> bsum X (fun x => cj (selem f (fst x) (snd x) (q, z)) *' rho_l dn s f g (fst x) (snd x) q' y) = 0') /\
    (forall Qs, NoDup Qs -> incl (lasts s) Qs -> bsum Qs (fun q => bsum (zrange (dr q)) (fun y => bsum X (fun x => cj (rho_l dn s f g (fst x) (snd x) q y) *' rho_l dn s f g (fst x) (snd x) q y))) = emb err).
(* bond dimensions after truncation *)
Definition within (m : Z) (dn : L -> Z) : Prop := (forall q, 0 <= dn q) /\ (0 <= m -> forall Qs, NoDup Qs -> zsum (map dn Qs) <= m).

(** *** cutting sites and gauges *)
Section CutSite.
Variable slabs : list L.
Variable gs : list (Z * list Z).
Notation sel := (sel L slabs gs).
Notation dn := (fun q => Z.of_nat (length (sel q))).
Variable k0 : L -> Z.
Hypothesis selR : forall q z, In z (sel q) -> 0 <= z < k0 q.
Let dn_pos : forall q, sel q <> [] -> 0 < dn q.
Proof. intros q H. cbn beta. destruct (sel q); [congruence|cbn [length]; lia]. Qed.
Lemma part_block : forall n dl dp dr (f : site) o b, wf_site n dl dp dr f -> In b (part f o) -> exists ql qm qr, fst b = ql :: qm ++ [qr] /\ Z.of_nat (length qm) = n - 2 /\
  nshape (snd b) = dl ql :: mids L n dp qm ++ [dr qr] /\ Forall (fun x => 0 < x) (mids L n dp qm) /\ 0 < dl ql /\ 0 < dr qr.
Proof.
  intros n dl dp dr f o b W H. destruct (tagged_block R L n dl dp dr f (o, b) W) as (ql & qm & qr & H1 & H2 & H3 & H4 & H5 & H6 & _); [apply in_tagged; exact H|]. exists ql, qm, qr. auto 10.
Qed.
Lemma site_cut_first : forall n dp dr (f0 f : site), wf_site n k0 dp dr f0 -> (forall o, cut_of R L slabs gs (first_at R L) headq (part f0 o) (part f o)) ->
  wf_site n dn dp dr f /\ (forall o, incl (map fst (part f o)) (map fst (part f0 o))) /\
  forall p q z r, selem f p (q, z) r = if (0 <=? z) && (z <? dn q) then selem f0 p (q, nth (Z.to_nat z) (sel q) 0) r else 0'.
Proof.
  intros n dp dr f0 f W C. assert (Hb: forall o b', In b' (part f o) -> exists b ql qm qr, In b (part f0 o) /\ fst b' = fst b /\ fst b' = ql :: qm ++ [qr] /\ Z.of_nat (length qm) = n - 2 /\ nshape (snd b') = dn ql :: mids L n dp qm ++ [dr qr] /\ Forall (fun x => 0 < x) (mids L n dp qm) /\ 0 < dn ql /\ 0 < dr qr).
  { intros o b' H. destruct (C o) as (_ & A & _). destruct (A b' H) as (b & Hb & Ns & ->). destruct (part_block n k0 dp dr f0 o b W Hb) as (ql & qm & qr & E1 & E2 & E3 & E4 & E5 & E6). exists b, ql, qm, qr. rewrite E1 in *. cbn [hd] in *. cbn [first_at fst snd nshape]. rewrite E3. cbn [tl]. rewrite E1. auto 12. }
  split; [|split].
  - destruct W as [Hn W]. split; [exact Hn|]. intros o. split; [|split].
    + intros b' H. destruct (Hb o b' H) as (b & ql & qm & qr & _ & _ & E1 & E2 & E3 & _). rewrite E1, E3, shape_site by auto. split; [|reflexivity]. cbn [length]. rewrite app_length. cbn [length]. lia.
    + intros b' H. destruct (Hb o b' H) as (b & ql & qm & qr & _ & _ & E1 & E2 & E3 & E4 & E5 & E6). rewrite E3. constructor; [exact E5|]. apply Forall_app. split; [exact E4|]. repeat constructor. exact E6.
    + apply (C o).
  - intros o k H. apply in_map_iff in H. destruct H as (b' & <- & H). destruct (Hb o b' H) as (b & ql & qm & qr & Hb0 & E & _). rewrite E. now apply in_map.
  - intros p q z r. rewrite !selem_tel.
    apply (cut_elem R L slabs gs (first_at R L)) with (put := put_first) (lab := headq) (d := k0); try reflexivity; auto.
    + intros. apply put_first_shape.
    + intros gl b d rs E Hgl. now apply (first_at_ok R L gl b d rs).
    + destruct W as [_ W]. apply (W (fst p)).
    + intros b H. destruct (part_block n k0 dp dr f0 (fst p) b W H) as (ql & qm & qr & E1 & E2 & E3 & _). exists (mids L n dp qm ++ [dr qr]). rewrite E1, E3. reflexivity.
Qed.
Lemma site_cut_last : forall n dl dp (f0 f : site), wf_site n dl dp k0 f0 -> (forall o, cut_of R L slabs gs (last_at R L) lastq (part f0 o) (part f o)) ->
  wf_site n dl dp dn f /\ (forall o, incl (map fst (part f o)) (map fst (part f0 o))) /\
  forall p l q z, selem f p l (q, z) = if (0 <=? z) && (z <? dn q) then selem f0 p l (q, nth (Z.to_nat z) (sel q) 0) else 0'.
Proof.
  intros n dl dp f0 f W C. assert (Ll: forall ql qm qr, last (ql :: qm ++ [qr]) (q0 L) = qr) by (intros; apply (last_last (ql :: qm))).
  assert (Hb: forall o b', In b' (part f o) -> exists b ql qm qr, In b (part f0 o) /\ fst b' = fst b /\ fst b' = ql :: qm ++ [qr] /\ Z.of_nat (length qm) = n - 2 /\ nshape (snd b') = dl ql :: mids L n dp qm ++ [dn qr] /\ Forall (fun x => 0 < x) (mids L n dp qm) /\ 0 < dl ql /\ 0 < dn qr).
  { intros o b' H. destruct (C o) as (_ & A & _). destruct (A b' H) as (b & Hb & Ns & ->). destruct (part_block n dl dp k0 f0 o b W Hb) as (ql & qm & qr & E1 & E2 & E3 & E4 & E5 & E6). exists b, ql, qm, qr. rewrite E1, Ll in *. cbn [last_at fst snd nshape]. rewrite E3. change (dl ql :: mids L n dp qm ++ [k0 qr]) with ((dl ql :: mids L n dp qm) ++ [k0 qr]). rewrite removelast_last, E1. auto 12. }
  split; [|split].
  - destruct W as [Hn W]. split; [exact Hn|]. intros o. split; [|split].
    + intros b' H. destruct (Hb o b' H) as (b & ql & qm & qr & _ & _ & E1 & E2 & E3 & _). rewrite E1, E3, shape_site by auto. split; [|reflexivity]. cbn [length]. rewrite app_length. cbn [length]. lia.
    + intros b' H. destruct (Hb o b' H) as (b & ql & qm & qr & _ & _ & E1 & E2 & E3 & E4 & E5 & E6). rewrite E3. constructor; [exact E5|]. apply Forall_app. split; [exact E4|]. repeat constructor. exact E6.
    + apply (C o).
  - intros o k H. apply in_map_iff in H. destruct H as (b' & <- & H). destruct (Hb o b' H) as (b & ql & qm & qr & Hb0 & E & _). rewrite E. now apply in_map.
  - intros p l q z. rewrite !selem_tel. change (l :: snd p ++ [(q, z)]) with (put_last state (q, z) (l :: snd p)). change (l :: snd p ++ [(q, nth (Z.to_nat z) (sel q) 0)]) with (put_last state (q, nth (Z.to_nat z) (sel q) 0) (l :: snd p)).
    apply (cut_elem R L slabs gs (last_at R L)) with (put := put_last) (lab := lastq) (d := k0); try reflexivity; auto.
    + intros. apply put_last_map.
    + intros. apply last_lab.
    + intros. apply put_last_shape.
    + intros gl b d rs E Hgl. now apply (last_at_ok R L gl b d rs).
    + destruct W as [_ W]. apply (W (fst p)).
    + intros b H. destruct (part_block n dl dp k0 f0 (fst p) b W H) as (ql & qm & qr & E1 & E2 & E3 & _). exists (dl ql :: mids L n dp qm). rewrite E1, E3, Ll. reflexivity.
Qed.
Lemma gauge_block : forall lab T d1 d2 (g : tensor) b, gauge_ok R L lab T d1 d2 g -> In b g -> exists q, fst b = [q; q] /\ nshape (snd b) = [d1 q; d2 q] /\ 0 < d1 q /\ 0 < d2 q /\ In q (labs R L lab T).
Proof.
  intros lab T d1 d2 g b (Wg & P & _ & Kg) H. destruct (Kg (fst b) (in_map fst _ _ H)) as (q & E & Hq). exists q. destruct (Wg b H) as [_ Sh]. specialize (P b H). rewrite E in Sh. change (nshape (snd b) = [d1 q; d2 q]) in Sh. rewrite Sh in P. inversion P as [|? ? P1 P2]; subst. inversion P2; subst. auto.
Qed.
Lemma gauge_cut_last : forall lab T d1 (g0 g : tensor), gauge_ok R L lab T d1 k0 g0 -> cut_of R L slabs gs (last_at R L) lastq g0 g ->
  gauge_ok R L lab T d1 dn g /\ forall q y z, telem g [(q, y); (q, z)] = if (0 <=? z) && (z <? dn q) then telem g0 [(q, y); (q, nth (Z.to_nat z) (sel q) 0)] else 0'.
Proof.
  intros lab T d1 g0 g O C. assert (Hb: forall b', In b' g -> exists q, fst b' = [q; q] /\ nshape (snd b') = [d1 q; dn q] /\ 0 < d1 q /\ 0 < dn q /\ In q (labs R L lab T)).
  { intros b' H. destruct C as (_ & A & _). destruct (A b' H) as (b & Hb & Ns & ->). destruct (gauge_block _ _ _ _ _ b O Hb) as (q & E1 & E2 & E3 & E4 & E5). exists q. rewrite E1 in *. cbn [last] in *. cbn [last_at fst snd nshape]. rewrite E2, E1. cbn [removelast app]. auto 10. }
  split.
  - split; [|split; [|split] ].
    + intros b' H. destruct (Hb b' H) as (q & -> & -> & _). split; reflexivity.
    + intros b' H. destruct (Hb b' H) as (q & _ & -> & P1 & P2 & _). repeat constructor; assumption.
    + apply C.
    + intros k H. apply in_map_iff in H. destruct H as (b' & <- & H). destruct (Hb b' H) as (q & E & _ & _ & _ & Hq). eauto.
  - intros q y z. change [(q, y); (q, z)] with (put_last state (q, z) [(q, y)]). change [(q, y); (q, nth (Z.to_nat z) (sel q) 0)] with (put_last state (q, nth (Z.to_nat z) (sel q) 0) [(q, y)]).
    apply (cut_elem R L slabs gs (last_at R L)) with (put := put_last) (lab := lastq) (d := k0); try reflexivity; auto.
    + intros. apply put_last_map.
    + intros. apply last_lab.
    + intros. apply put_last_shape.
    + intros gl b d rs E Hgl. now apply (last_at_ok R L gl b d rs).
    + apply O.
    + intros b H. destruct (gauge_block _ _ _ _ _ b O H) as (q' & E1 & E2 & _). exists [d1 q']. rewrite E1, E2. reflexivity.
Qed.
Lemma gauge_cut_first : forall lab T d2 (g0 g : tensor), gauge_ok R L lab T k0 d2 g0 -> cut_of R L slabs gs (first_at R L) headq g0 g ->
  gauge_ok R L lab T dn d2 g /\ forall q y z, telem g [(q, z); (q, y)] = if (0 <=? z) && (z <? dn q) then telem g0 [(q, nth (Z.to_nat z) (sel q) 0); (q, y)] else 0'.
Proof.
  intros lab T d2 g0 g O C. assert (Hb: forall b', In b' g -> exists q, fst b' = [q; q] /\ nshape (snd b') = [dn q; d2 q] /\ 0 < dn q /\ 0 < d2 q /\ In q (labs R L lab T)).
  { intros b' H. destruct C as (_ & A & _). destruct (A b' H) as (b & Hb & Ns & ->). destruct (gauge_block _ _ _ _ _ b O Hb) as (q & E1 & E2 & E3 & E4 & E5). exists q. rewrite E1 in *. cbn [hd] in *. cbn [first_at fst snd nshape]. rewrite E2, E1. cbn [tl]. auto 10. }
  split.
  - split; [|split; [|split] ].
    + intros b' H. destruct (Hb b' H) as (q & -> & -> & _). split; reflexivity.
    + intros b' H. destruct (Hb b' H) as (q & _ & -> & P1 & P2 & _). repeat constructor; assumption.
    + apply C.
    + intros k H. apply in_map_iff in H. destruct H as (b' & <- & H). destruct (Hb b' H) as (q & E & _ & _ & _ & Hq). eauto.
  - intros q y z.
    apply (cut_elem R L slabs gs (first_at R L)) with (put := put_first) (lab := headq) (d := k0); try reflexivity; auto.
    + intros. apply put_first_shape.
    + intros gl b d rs E Hgl. now apply (first_at_ok R L gl b d rs).
    + apply O.
    + intros b H. destruct (gauge_block _ _ _ _ _ b O H) as (q' & E1 & E2 & _). exists [d2 q']. rewrite E1, E2. reflexivity.
Qed.
End CutSite.

(** *** product of gauges *)
Lemma gauge_dot : forall lab T d1 d2 d3 (a b r : tensor), gauge_ok R L lab T d1 d2 a -> gauge_ok R L lab T d2 d3 b -> sp_tensordot_n R L a b 1 = Some r -> gauge_ok R L lab T d1 d3 r /\
  forall q y z, telem r [(q, y); (q, z)] = bsum (zrange (d2 q)) (fun x => telem a [(q, y); (q, x)] *' telem b [(q, x); (q, z)]).
Proof.
  intros lab T d1 d2 d3 a b r Oa Ob H. pose proof Oa as (Wa & Pa & Na & Ka). pose proof Ob as (Wb & Pb & Nb & Kb).
  destruct (hdot_spec R L a b r 2 2 (gauge_dim L d1 d2) (gauge_dim L d2 d3)) as (V & Wr & Pr & Nr & Kr); auto; try lia.
  assert (Kc: forall c, In c r -> exists q, fst c = [q; q] /\ In q (labs R L lab T)).
  { intros c Hc. destruct (Kr c Hc) as (ka & kb & m & H1 & H2 & E). destruct (Ka _ H1) as (q & E1 & Hq). destruct (Kb _ H2) as (q' & E2 & _). exists q. split; [|exact Hq]. rewrite E. change [q; q] with ([q] ++ [q]) in E1. apply app_inj_tail in E1. destruct E1 as [-> ->]. injection E2 as <- ->. reflexivity. }
  split.
  - split; [|split; [exact Pr|split; [exact Nr|] ] ].
    + intros c Hc. destruct (Wr c Hc) as [E1 E2]. split; [exact E1|]. destruct (Kc c Hc) as (q & E & _). rewrite E2, E. reflexivity.
    + intros k Hk. apply in_map_iff in Hk. destruct Hk as (c & <- & Hc). now apply Kc.
  - intros q y z. change [(q, y); (q, z)] with ([(q, y)] ++ [(q, z)]). rewrite (V (map (pair q) (zrange (d2 q))) [(q, y)] [(q, z)]); [|apply pair_zrange_nodup|reflexivity|reflexivity|].
    + rewrite bsum_map. reflexivity.
    + intros m Hm. cbn [app]. rewrite (gauge_zero R L lab T d1 d2 a (q, y) m Oa); [ring|]. intros (E & _ & _ & Hx). apply Hm. apply in_map_iff. exists (snd m). cbn [fst] in E. split; [destruct m; cbn in *; congruence|]. apply in_zrange. now rewrite E.
Qed.
End Split.
