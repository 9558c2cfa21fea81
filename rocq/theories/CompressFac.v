(** Lemmas for C59: left_svd / right_svd with truncate_svd fulfil the contract. *)
From Coq Require Import ZArith Bool List Lia Permutation Sorted Ring.
From Verif Require Import SymModel SymProofs DictLib IndexLib OptLib RingLib OrdLib BondModel BondProofs FuseModel FuseProofs BlockModel BlockProofs StructModel StructProofs MpsModel MpsChain MpsProofs MpsDot TruncModel TruncProofs CanonModel CanonProofs CanonSites CanonChain CompressModel CompressSvd CompressCut CompressSites CompressSplit.
Import ListNotations.
Open Scope Z_scope.

Section Fac.
Variable R : CRing.
Add Ring Rr36 : (rth R).
Variable L : Label.
Variable K : ORing.
Variable sqrtK : K -> K.
Variable emb : K -> R.
Variable cj : R -> R.
Variable svd : nd R -> option (nd R * list K * nd R).
Variable big : list L * nd R -> bool.
Notation block := (list L * nd R)%type.
Notation tensor := (list (list L * nd R)).
Notation tblock := (bool * (list L * nd R))%type.
Notation site := (site R L).
Notation state := (L * Z)%type.
Notation pstate := (bool * list state)%type.
Notation telem := (telem R L).
Notation positive := (positive R L).
Notation "0'" := (r0 R). Notation "1'" := (r1 R).
Infix "+'" := (radd R) (at level 50, left associativity).
Infix "-'" := (rsub R) (at level 50, left associativity).
Infix "*'" := (rmul R) (at level 40, left associativity).
Notation at_ := (at_ K). Notation blk := (blk K).
Notation lastq := (fun qs : list L => last qs (q0 L)).
Notation headq := (fun qs : list L => hd (q0 L) qs).
Hypothesis Hbig : forall b, big b = false -> forall xs, nget (snd b) xs = 0'.
Hypothesis cj_add : forall x y, cj (x +' y) = cj x +' cj y.
Hypothesis cj_mul : forall x y, cj (x *' y) = cj x *' cj y.
Hypothesis cj0 : cj 0' = 0'.
Hypothesis cj_emb : forall x, cj (emb x) = emb x.
Hypothesis emb0 : emb (r0 K) = 0'.
Hypothesis emb_add : forall x y, emb (radd K x y) = emb x +' emb y.
Hypothesis emb_mul : forall x y, emb (rmul K x y) = emb x *' emb y.
Hypothesis HS : exact_svd R K emb cj svd.

Lemma lost_nonneg : forall s gs, ole (r0 K) (lost K (square K) s gs).
Proof using.
  intros s gs. unfold lost. apply (bsum_ole0 K). intros i _. apply (bsum_ole0 K). intros j _. destruct (keptb gs i j); [apply ole_refl|]. apply ole_sq.
Qed.

(** *** what both sides have in common *)
Section Common.
Variable lab : list L -> L.
Variable s : site.
Notation G := (collect R L lab (tagged R L s)).
Variable rg : L * list tblock -> list tblock * list K * nd R.
Variable d : L -> Z.
Variable w : L * list tblock -> Z -> Z -> R.
Notation sv := (fun g => snd (fst (rg g))).
Notation fac := (fun g => (fst (fst (rg g)), scaled R K emb (sv g) (d (fst g)) (w g))).
Notation k0 := (new_dim R L lab (tagged R L s) fac).
Lemma slabs_nodup : NoDup (map fst G).
Proof using. apply collect_nodup. Qed.
Lemma k0_sval : forall q, k0 q = Z.of_nat (length (sval R L K G sv q)).
Proof using.
  intros q. unfold new_dim. destruct (dget (qeqb L) G q) as [bs|] eqn:E.
  - apply dget_in in E; [|apply qeqb_spec]. change (sval R L K G sv q) with (sval R L K G sv (fst (q, bs))). rewrite sval_in by (auto; apply slabs_nodup). reflexivity.
  - rewrite sval_out; [reflexivity|]. intros H. apply in_map_iff in H. destruct H as ((q' & bs) & <- & H). cbn [fst] in E. assert (dget (qeqb L) G q' = Some bs) by (apply in_dget; [apply qeqb_spec|apply slabs_nodup|exact H]). congruence.
Qed.
Lemma group_bsum : forall g (h : L * list tblock -> R), In g G -> bsum G (fun g' => if qeqb L (fst g') (fst g) then h g' else 0') = h g.
Proof using.
  intros g h Hg. pose proof slabs_nodup as N. assert (NG: NoDup G) by (now apply NoDup_map_inv in N). rewrite (bsum_single R _ G _ g); auto.
  - destruct (qeqb_spec L (fst g) (fst g)); [reflexivity|congruence].
  - intros g' Hg' Ne. destruct (qeqb_spec L (fst g') (fst g)) as [E|]; [|reflexivity]. destruct Ne. now apply (G_unique R L G N).
Qed.
Lemma group_bsum_out : forall q (h : L * list tblock -> R), ~ In q (map fst G) -> bsum G (fun g' => if qeqb L (fst g') q then h g' else 0') = 0'.
Proof using. intros q h H. apply bsum_zero. intros g Hg. destruct (qeqb_spec L (fst g) q) as [E|]; [|reflexivity]. destruct H. rewrite <- E. now apply in_map. Qed.
Variable gs : list (Z * list Z).
Hypothesis gsS : StronglySorted Z.lt (map fst gs).
Hypothesis gsR : forall i g, In (i, g) gs -> g <> [] /\ NoDup g /\ 0 <= i < Z.of_nat (length (map sv G)) /\ forall j, In j g -> 0 <= j < Z.of_nat (length (blk (map sv G) i)).
Notation sel := (sel L (map fst G) gs).
Lemma selR : forall q z, In z (sel q) -> 0 <= z < k0 q.
Proof using gsS gsR.
  intros q z H. assert (Hq: In q (map fst G)) by (apply (sel_lab R L G gs); intros E; rewrite E in H; destruct H). apply in_map_iff in Hq. destruct Hq as (g & <- & Hg). rewrite k0_sval, (sval_in R L K G sv slabs_nodup g Hg). apply (sel_group R L K G sv gs slabs_nodup gsS gsR g z Hg H).
Qed.
Lemma lost_groups : lost K (square K) (map sv G) gs = bsum G (fun g => bsum (zrange (Z.of_nat (length (sv g)))) (fun z => if memb z (sel (fst g)) then r0 K else square K (at_ (sv g) z))).
Proof using gsS gsR.
  clear -gsS gsR. unfold lost. rewrite map_length. destruct G as [|g0 G0] eqn:EG; [reflexivity|]. rewrite <- EG in *. rewrite <- (nth_bsum K _ g0 G). apply bsum_ext. intros i Hi. apply in_zrange in Hi. set (g := nth (Z.to_nat i) G g0).
  assert (Eg: nth_error G (Z.to_nat i) = Some g) by (apply nth_error_nth'; lia). assert (Hg: In g G) by now apply nth_error_In in Eg.
  assert (Eb: blk (map sv G) i = sv g) by (unfold TruncModel.blk; apply nth_error_nth; now apply (map_nth_error sv)). rewrite Eb. apply bsum_ext. intros z _. replace (keptb gs i z) with (memb z (sel (fst g))); [reflexivity|].
  apply eq_true_iff_eq. rewrite memb_in, keptb_iff. split.
  - intros H. destruct (sel_some L (map fst G) gs (fst g)) as (j & H1 & H2); [intros E; rewrite E in H; destruct H|]. exists (sel (fst g)). split; [|exact H]. replace i with j; [exact H1|]. destruct (gsR j _ H1) as (_ & _ & Hj & _).
    assert (E: Z.to_nat j = Z.to_nat i); [|lia]. apply (proj1 (NoDup_nth_error (map fst G)) slabs_nodup); [apply nth_error_Some; congruence|]. rewrite H2. symmetry. now apply (map_nth_error fst).
  - intros (gl & H & Hz). destruct (kept_at R L K G sv gs slabs_nodup gsS gsR i gl H) as (g' & Eg' & _ & _ & Es & _). assert (g' = g) by congruence. subst g'. now rewrite Es.
Qed.
Lemma sel_within : forall o, (0 <= o_max K o -> zsum (map (fun g => Z.of_nat (length (snd g))) gs) <= o_max K o) -> within L (o_max K o) (fun q => Z.of_nat (length (sel q))).
Proof using gsS gsR.
  clear -gsS gsR. intros o H. split; [intros; lia|]. intros Ho Qs N. apply Z.le_trans with (2 := H Ho).
  assert (E: zsum (map (fun g => Z.of_nat (length (snd g))) gs) = zsum (map (fun q => Z.of_nat (length (sel q))) (map (fun g => nth (Z.to_nat (fst g)) (map fst G) (q0 L)) gs))).
  { rewrite map_map. f_equal. apply map_ext_in. intros [i gl] Hg. cbn [fst snd]. destruct (kept_at R L K G sv gs slabs_nodup gsS gsR i gl Hg) as (g & _ & _ & Es & Esel & _). rewrite (nth_error_nth _ _ _ Es), Esel. reflexivity. }
  rewrite E. apply zsum_incl; auto; [intros; lia|]. intros q _ Hq. destruct (sel_some L (map fst G) gs q) as (i & H1 & H2); [intros E'; rewrite E' in Hq; cbn in Hq; lia|]. apply in_map_iff. exists (i, sel q). split; [|exact H1]. cbn [fst]. now apply nth_error_nth.
Qed.
End Common.

Lemma last_opt_snoc : forall (m : list L) x, last_opt L (m ++ [x]) = Some x.
Proof using. intros m x. unfold last_opt. rewrite app_length. cbn [length]. replace (pred (length m + 1)) with (length m) by lia. rewrite nth_error_app2 by lia. now rewrite Nat.sub_diag. Qed.

(** *** right_svd *)
Section Right.
Variables (n : Z) (dl : L -> Z) (dp : Z -> L -> Z) (dr : L -> Z) (s : site).
Hypothesis W : wf_site n dl dp dr s.
Notation G := (collect R L headq (tagged R L s)).
Variable rg : L * list tblock -> list tblock * list K * nd R.
Hypothesis Hrg : forall g, In g G -> right_group R L K svd g = Some (rg g).
Notation sv := (fun g => snd (fst (rg g))).
Notation wr := (fun g z y => nget (snd (rg g)) [y; z]).
Notation fac := (fun g => (fst (fst (rg g)), scaled R K emb (sv g) (dl (fst g)) (wr g))).
Notation k0 := (new_dim R L headq (tagged R L s) fac).
Notation f0 := (untag R L s (flat_map (fun g => fst (fst (rg g))) G)).
Lemma r_shape : forall g, In g G -> shape_ok R L put_first (dl (fst g)) (snd g).
Proof using W.
  intros [q bs] Hg. apply collect_in in Hg. destruct Hg as [E Ne]. cbn [fst snd].
  assert (Hb: forall tb, In tb bs -> exists qm qr, fst (snd tb) = q :: qm ++ [qr] /\ nshape (snd (snd tb)) = dl q :: mids L n dp qm ++ [dr qr] /\ Forall (fun x => 0 < x) (mids L n dp qm) /\ 0 < dl q /\ 0 < dr qr).
  { intros tb H. rewrite E in H. apply filter_In in H. destruct H as [H1 H2]. destruct (tagged_block R L n dl dp dr s tb W H1) as (ql & qm & qr & E1 & E2 & E3 & E4 & E5 & E6 & _). rewrite E1 in H2. cbn [hd] in H2. destruct (qeqb_spec L ql q) as [->|]; [|discriminate]. exists qm, qr. auto. }
  split; [exact Ne|]. split.
  - destruct bs as [|tb bs]; [congruence|]. destruct (Hb tb (or_introl eq_refl)) as (qm & qr & _ & _ & _ & P & _). exact P.
  - intros tb H. destruct (Hb tb H) as (qm & qr & E1 & E3 & P1 & P2 & P3). exists (mids L n dp qm ++ [dr qr]). split; [exact E3|]. apply Forall_app. split; [exact P1|]. repeat constructor. exact P3.
Qed.
Lemma r_group : forall g, In g G -> fac_ok R L put_first rest_first cj (dl (fst g)) (snd g) (fac g) /\ 0 < Z.of_nat (length (sv g)) /\ nshape (snd (rg g)) = [dl (fst g); Z.of_nat (length (sv g))] /\ unit_rows R cj (Z.of_nat (length (sv g))) (dl (fst g)) (wr g).
Proof using W Hrg HS.
  intros g Hg. pose proof (Hrg g Hg) as E. rewrite (surjective_pairing (rg g)), (surjective_pairing (fst (rg g))) in E. exact (right_group_ok R L K emb cj svd HS (dl (fst g)) g _ _ _ (r_shape g Hg) E).
Qed.
Lemma r_tags : forall g tb, In g G -> In tb (fst (fst (rg g))) -> hd (q0 L) (fst (snd tb)) = fst g /\ fst (snd tb) <> [] /\ (kind s = false -> fst tb = false).
Proof using W Hrg HS.
  intros g tb Hg H. destruct (r_group g Hg) as ((k & _ & _ & F & _) & _). cbn [fst] in F. assert (X: exists tb0, In tb0 (snd g) /\ fst tb = fst tb0 /\ fst (snd tb) = fst (snd tb0)).
  { revert F H. generalize (snd g), (fst (fst (rg g))). intros l l' F H. cbn [snd] in F. clear -F H. induction F as [|a b m m' P F IH]; [destruct H|]. destruct H as [<-|H]; [exists a; destruct P as (P1 & P2 & _); cbn; auto|]. destruct (IH H) as (tb0 & H1 & H2). exists tb0. cbn; auto. }
  destruct X as (tb0 & H0 & E1 & E2). rewrite E1, E2. destruct g as [q bs]. apply collect_in in Hg. destruct Hg as [E _]. cbn [fst snd] in *. rewrite E in H0. apply filter_In in H0. destruct H0 as [H1 H2]. split; [|split].
  - now destruct (qeqb_spec L (hd (q0 L) (fst (snd tb0))) q).
  - destruct (tagged_block R L n dl dp dr s tb0 W H1) as (ql & qm & qr & E' & _). rewrite E'. discriminate.
  - intros Hk. now apply (tagged_tags R L s).
Qed.
Lemma r_ne : forall g, In g G -> fst (fst (rg g)) <> [].
Proof using W Hrg HS.
  intros g Hg. destruct (r_group g Hg) as ((k & _ & _ & F & _) & _). cbn [fst] in F. destruct (r_shape g Hg) as (Ne & _). intros E. apply F2_length in F. rewrite E in F. destruct (snd g); [congruence|discriminate].
Qed.
Lemma r_part : forall o, part f0 o = flat_map (fun g => map snd (filter (fun b : tblock => Bool.eqb (fst b) o) (fst (fst (rg g))))) G.
Proof using W Hrg HS.
  intros o. rewrite part_untag.
  - rewrite !flat_map_concat_map. rewrite <- (map_map (fun g => fst (fst (rg g))) (fun bs => map snd (filter (fun b : tblock => Bool.eqb (fst b) o) bs))). generalize (map (fun g => fst (fst (rg g))) G). intros ll. induction ll as [|l ll IH]; [reflexivity|]. cbn [concat map]. now rewrite filter_app, map_app, IH.
  - intros tb H Hk. apply in_flat_map in H. destruct H as (g & Hg & H). now apply (r_tags g tb Hg H).
Qed.
Let FR := fac_right R L cj cj0 n dl dp dr s W fac (fun g Hg => proj1 (r_group g Hg)).
Variable o : copts K.
Variable gs : list (Z * list Z).
Hypothesis gsO : sel_ok K o (map sv G) gs.
Notation sel := (sel L (map fst G) gs).
Notation dn := (fun q => Z.of_nat (length (sel q))).
Notation l0 := (map (fun g => ([fst g; fst g], snd (rg g))) G).
Lemma r_cut : forall q, cut_of R L (map fst G) gs (first_at R L) headq (part f0 q) (part (trunc_site R L big (first_opt L) (first_at R L) (map fst G) gs f0) q).
Proof using Hbig HS W Hrg gsO cj0.
  intros q. destruct gsO as (gsS & gsR & _). assert (N: NoDup (map fst (part f0 q))) by (destruct FR as (_ & (_ & W0) & _); apply (W0 q)).
  assert (Hl: forall g b, In g G -> In b (map snd (filter (fun b : tblock => Bool.eqb (fst b) q) (fst (fst (rg g))))) -> hd (q0 L) (fst b) = fst g /\ first_opt L (fst b) = Some (fst g)).
  { intros g b Hg H. apply in_map_iff in H. destruct H as (tb & <- & H). apply filter_In in H. destruct (r_tags g tb Hg (proj1 H)) as (E & Ne & _). split; [exact E|]. destruct (fst (snd tb)); [congruence|]. cbn in *. congruence. }
  assert (P: forall fm, (fm = false -> forall g, In g G -> map snd (filter (fun b : tblock => Bool.eqb (fst b) q) (fst (fst (rg g)))) <> []) -> cut_of R L (map fst G) gs (first_at R L) headq (part f0 q) (filter big (pickk R L fm (first_opt L) (first_at R L) (map fst G) gs (part f0 q)))).
  { intros fm Hne. rewrite r_part in *. apply (pickk_cut R L K big Hbig G sv gs (slabs_nodup headq s) gsS gsR); auto. }
  assert (Kf: kind f0 = kind s) by apply FR. clear N. revert P Kf. generalize f0. intros [t|od ev] P Kf; cbn [trunc_site part kind] in P, Kf |- *.
  - destruct q; [|apply P; intros _ g Hg E].
    + split; [constructor|split; [intros ? []|intros ? [] ] ].
    + apply map_eq_nil in E. assert (fst (fst (rg g)) = []); [|now apply (r_ne g Hg)]. destruct (fst (fst (rg g))) as [|tb l] eqn:El; [reflexivity|]. exfalso. assert (Ht: fst tb = false) by (apply (r_tags g tb Hg); [rewrite El; now left|now symmetry]). cbn [filter] in E. rewrite Ht in E. discriminate.
  - destruct q; apply P; discriminate.
Qed.
Lemma r_k0 : forall g, In g G -> k0 (fst g) = Z.of_nat (length (sv g)).
Proof using. intros g Hg. now rewrite k0_sval, (sval_in R L K G sv (slabs_nodup headq s) g Hg). Qed.
Lemma r_gauge0 : gauge_ok R L headq (tagged R L s) dl k0 l0 /\ forall g y z, In g G -> telem l0 [(fst g, y); (fst g, z)] = nget (snd (rg g)) [y; z].
Proof using HS W Hrg.
  destruct (gauge_gen R L headq (tagged R L s) (fun g => (@nil tblock, snd (rg g))) (fun x => x) dl k0) as [O V].
  - intros q bs H. destruct (r_group (q, bs) H) as (_ & P & E & _). destruct (r_shape (q, bs) H) as (_ & Pd & _). pose proof (r_k0 (q, bs) H) as Ek. cbn [fst snd] in *. rewrite Ek. auto.
  - split; [exact O|]. intros g y z Hg. rewrite V. destruct (qeqb_spec L (fst g) (fst g)); [|congruence]. exact (group_bsum headq s g (fun g' => nget (snd (rg g')) [y; z]) Hg).
Qed.
Notation g0 := (map (fun g => ([fst g; fst g], nd_T R (snd (fac g)))) G).
Lemma r_sel : forall q z, In z (sel q) -> 0 <= z < k0 q.
Proof using gsO. destruct gsO as (gsS & gsR & _). intros q z. exact (selR headq s rg dl wr gs gsS gsR q z). Qed.
Lemma r_full : forall g y z, In g G -> telem g0 [(fst g, y); (fst g, z)] = emb (at_ (sv g) z) *' nget (snd (rg g)) [y; z].
Proof using HS W Hrg.
  intros g y z Hg. destruct (gauge_gen R L headq (tagged R L s) fac (nd_T R) dl k0) as [_ V].
  - intros q bs H. destruct (r_group (q, bs) H) as (_ & P & E & _). destruct (r_shape (q, bs) H) as (_ & Pd & _). pose proof (r_k0 (q, bs) H) as Ek. cbn [fst snd] in *. rewrite Ek. auto.
  - rewrite V. destruct (qeqb_spec L (fst g) (fst g)); [|congruence]. transitivity (nget (nd_T R (snd (fac g))) [y; z]); [exact (group_bsum headq s g (fun g' => nget (nd_T R (snd (fac g'))) [y; z]) Hg)|]. cbn [snd].
    destruct (nget_T R (scaled R K emb (sv g) (dl (fst g)) (wr g)) (Z.of_nat (length (sv g))) (dl (fst g)) z y eq_refl) as [_ E]. rewrite E.
    destruct (r_group g Hg) as (_ & _ & Sh & _). destruct (in_shapeb [dl (fst g); Z.of_nat (length (sv g))] [y; z]) eqn:Ei.
    + apply in_shapeb_spec, in_shape2 in Ei. destruct Ei as [Ei1 Ei2]. rewrite (scaled_get R K emb _ _ _ z y Ei2 Ei1). reflexivity.
    + assert (~ in_shape [dl (fst g); Z.of_nat (length (sv g))] [y; z]) by (rewrite <- in_shapeb_spec; congruence). rewrite scaled_out, (nget_out _ (snd (rg g))); [ring|rewrite Sh; exact H|]. intros [H1 H2]. apply H. apply in_shape2. exact (conj H2 H1).
Qed.
Lemma r_dot : exists ls, sp_tensordot_n R L (filter big (pickk R L (kind f0) (last_opt L) (last_at R L) (map fst G) gs l0)) (diag R L K emb (pick_values K L (map fst G) (map sv G) gs)) 1 = Some ls /\
  gauge_ok R L headq (tagged R L s) dl dn ls /\ forall q y z, 0 <= z < dn q -> telem ls [(q, y); (q, z)] = telem g0 [(q, y); (q, nth (Z.to_nat z) (sel q) 0)].
Proof using Hbig HS W Hrg gsO.
  destruct (hdot_some R L (filter big (pickk R L (kind f0) (last_opt L) (last_at R L) (map fst G) gs l0)) (diag R L K emb (pick_values K L (map fst G) (map sv G) gs))) as (ls & E). exists ls. split; [exact E|].
  pose proof gsO as (gsS & gsR & _). destruct r_gauge0 as [O V].
  assert (C: cut_of R L (map fst G) gs (last_at R L) lastq l0 (filter big (pickk R L (kind f0) (last_opt L) (last_at R L) (map fst G) gs l0))).
  { replace l0 with (flat_map (fun g => [([fst g; fst g], snd (rg g))]) G) at 1 2 by (clear; induction G as [|g G' IH]; [reflexivity|]; cbn [flat_map map app]; now rewrite IH).
    apply (pickk_cut R L K big Hbig G sv gs (slabs_nodup headq s) gsS gsR); auto.
    - intros _ g _. discriminate.
    - intros g b _ [<-|[] ]. split; reflexivity.
    - replace (flat_map (fun g => [([fst g; fst g], snd (rg g))]) G) with l0 by (clear; induction G as [|g G' IH]; [reflexivity|]; cbn [flat_map map app]; now rewrite IH). apply O. }
  destruct (gauge_cut_last R L (map fst G) gs k0 r_sel headq (tagged R L s) dl _ _ O C) as [O' V'].
  destruct (diag_ok R L K emb big Hbig G sv gs (slabs_nodup headq s) gsS gsR headq (tagged R L s)) as [OD VD].
  { intros q Hq. apply collect_key in Hq. destruct Hq as (b & Hb & <-). unfold labs. apply in_map_iff. eauto. }
  destruct (gauge_dot R L headq (tagged R L s) dl dn dn _ _ ls O' OD E) as [Or Vr]. split; [exact Or|].
  intros q y z Hz. rewrite Vr. rewrite (bsum_single R _ _ _ z); [|apply zrange_nodup|now apply in_zrange|].
  - rewrite V', VD. rewrite Z.eqb_refl. assert (Er: (0 <=? z) && (z <? dn q) = true) by (apply andb_true_intro; split; lia). rewrite Er. cbn [andb].
    assert (Hq: In q (map fst G)) by (apply (sel_lab R L G gs); intros E'; rewrite E' in Hz; cbn in Hz; lia). apply in_map_iff in Hq. destruct Hq as (g & Eq & Hg). subst q. rewrite V, r_full by exact Hg. rewrite (sval_in R L K G sv (slabs_nodup headq s) g Hg). ring.
  - intros x _ Nx. rewrite VD. replace (x =? z) with false by lia. cbn [andb]. ring.
Qed.
Lemma right_tsplit : exists ls, sp_tensordot_n R L (filter big (pickk R L (kind f0) (last_opt L) (last_at R L) (map fst G) gs l0)) (diag R L K emb (pick_values K L (map fst G) (map sv G) gs)) 1 = Some ls /\
  tsplit_right R L K emb cj n dl dp dr dn s (trunc_site R L big (first_opt L) (first_at R L) (map fst G) gs f0) ls (lost K (square K) (map sv G) gs) /\ within L (o_max K o) dn.
Proof using Hbig HS W Hrg gsO cj_add cj_mul cj0 cj_emb emb0 emb_add emb_mul.
  destruct r_dot as (ls & E & Og & Vg). exists ls. split; [exact E|]. pose proof gsO as (gsS & gsR & gsB). split; [|exact (sel_within headq s rg gs gsS gsR o gsB)].
  pose proof FR as (Kf & Wf0 & Pf & _ & Full & Iso & _). destruct (site_cut_first R L big Hbig (map fst G) gs k0 r_sel n dp dr f0 _ Wf0 r_cut) as (Wf & If & Vf).
  set (f := trunc_site R L big (first_opt L) (first_at R L) (map fst G) gs f0) in *.
  assert (If': forall o, incl (map fst (part f o)) (map fst (part s o))) by (intros o' k Hk; apply (Permutation_in _ (Pf o')); now apply (If o')).
  split; [exact Wf|split; [exact If'|split; [exact Og|split] ] ].
  { transitivity (kind f0); [|exact Kf]. unfold f. generalize f0. intros [t|od ev]; reflexivity. }
  intros X Det NX Cov. specialize (Iso Det). specialize (Iso X NX).
  assert (C0: forall p l r, ~ In (p, r) X -> selem f0 p l r = 0') by (intros p l r H; apply (Cov k0 f0 Wf0); [intros o' k Hk; now apply (Permutation_in _ (Pf o'))|exact H]).
  specialize (Iso C0).
  assert (ON: forall q z q' z', 0 <= z < k0 q -> 0 <= z' < k0 q' -> bsum X (fun x => cj (selem f0 (fst x) (q, z) (snd x)) *' selem f0 (fst x) (q', z') (snd x)) = if q_dec L q q' then (if z =? z' then 1' else 0') else 0').
  { intros q z q' z' Hz Hz'. transitivity (if st_dec L (q, z) (q', z') then 1' else 0'); [exact (Iso (q, z) (q', z') Hz Hz')|]. destruct (st_dec L (q, z) (q', z')) as [Es|Es], (q_dec L q q') as [Eq|Eq]; try (injection Es as -> ->); try congruence; [now rewrite Z.eqb_refl|]. destruct (Z.eqb_spec z z'); [congruence|reflexivity]. }
  assert (FS: forall (x : pstate * state) q z, 0 <= z < dn q -> selem f (fst x) (q, z) (snd x) = selem f0 (fst x) (q, nth (Z.to_nat z) (sel q) 0) (snd x)).
  { intros x q z Hz. rewrite Vf. assert (Er: (0 <=? z) && (z <? dn q) = true) by (apply andb_true_intro; split; lia). now rewrite Er. }
  set (fx0 := fun (x : pstate * state) (q : L) (z : Z) => selem f0 (fst x) (q, z) (snd x)). set (fx := fun (x : pstate * state) (q : L) (z : Z) => selem f (fst x) (q, z) (snd x)). set (sx := fun (x : pstate * state) (q : L) (z : Z) => selem s (fst x) (q, z) (snd x)).
  set (Gx := fun (q : L) (y z : Z) => telem ls [(q, y); (q, z)]). set (Gx0 := fun (q : L) (y z : Z) => telem g0 [(q, y); (q, z)]).
  assert (SN: forall q, NoDup (sel q)) by exact (CompressSites.sel_nodup R L K G sv gs gsR).
  assert (FU: forall x q y, sx x q y = bsum (zrange (k0 q)) (fun z => Gx0 q y z *' fx0 x q z)) by (intros x q y; apply Full).
  split; [|split].
  - intros [q z] [q' z'] Hz Hz'. cbn [fst snd] in Hz, Hz'. transitivity (if q_dec L q q' then (if z =? z' then 1' else 0') else 0'); [exact (cut_iso R cj _ _ (q_dec L) X fx0 fx sx Gx0 Gx k0 sel SN r_sel FU FS Vg ON q z q' z' Hz Hz')|]. destruct (st_dec L (q, z) (q', z')) as [Es|Es], (q_dec L q q') as [Eq|Eq]; try (injection Es as -> ->); try congruence; [now rewrite Z.eqb_refl|]. destruct (Z.eqb_spec z z'); [congruence|reflexivity].
  - intros q z q' y Hz. exact (cut_orth R cj _ _ (q_dec L) X fx0 fx sx Gx0 Gx k0 sel SN r_sel FU FS Vg ON q z q' y Hz).
  - intros Qs NQ IQ. rewrite (lost_groups headq s rg gs gsS gsR). rewrite (emb_sum R K emb emb0 emb_add).
    transitivity (bsum Qs (fun q => bsum (zrange (k0 q)) (fun z => if memb z (sel q) then 0' else bsum (zrange (dl q)) (fun y => cj (Gx0 q y z) *' Gx0 q y z)))).
    { apply bsum_ext. intros q _. exact (cut_err R cj cj_add cj_mul _ _ (q_dec L) X fx0 fx sx Gx0 Gx k0 sel SN r_sel FU FS Vg ON q (dl q)). }
    rewrite (bsum_cover R _ (q_dec L) Qs (map fst G)); [|exact NQ|apply slabs_nodup| |].
    + rewrite bsum_map. apply bsum_ext. intros g Hg. rewrite (emb_sum R K emb emb0 emb_add). rewrite k0_sval, (sval_in R L K G sv (slabs_nodup headq s) g Hg). apply bsum_ext. intros z Hz. apply in_zrange in Hz. destruct (memb z (sel (fst g))); [now rewrite emb0|].
      destruct (r_group g Hg) as (_ & _ & _ & U). transitivity (emb (at_ (sv g) z) *' emb (at_ (sv g) z) *' bsum (zrange (dl (fst g))) (fun y => cj (nget (snd (rg g)) [y; z]) *' nget (snd (rg g)) [y; z])).
      * rewrite <- bsum_mull. apply bsum_ext. intros y _. unfold Gx0. rewrite (r_full g y z Hg), cj_mul, cj_emb. ring.
      * rewrite (U z Hz). unfold square. rewrite emb_mul. ring.
    + intros q Hq. assert (Eq: k0 q = 0). { rewrite k0_sval, sval_out; [reflexivity|]. intros H. apply Hq, IQ. apply labs_firsts. apply collect_key in H. destruct H as (b & Hb & <-). unfold labs. apply in_map_iff. eauto. } rewrite Eq. apply bsum_nil.
    + intros q Hq. assert (Eq: k0 q = 0) by (rewrite k0_sval, sval_out; [reflexivity|exact Hq]). rewrite Eq. apply bsum_nil.
Qed.
End Right.

(** *** left_svd *)
Section Left.
Variables (n : Z) (dl : L -> Z) (dp : Z -> L -> Z) (dr : L -> Z) (s : site).
Hypothesis W : wf_site n dl dp dr s.
Notation G := (collect R L lastq (tagged R L s)).
Variable rg : L * list tblock -> list tblock * list K * nd R.
Hypothesis Hrg : forall g, In g G -> left_group R L K svd g = Some (rg g).
Notation sv := (fun g => snd (fst (rg g))).
Notation wr := (fun g z y => nget (snd (rg g)) [z; y]).
Notation fac := (fun g => (fst (fst (rg g)), scaled R K emb (sv g) (dr (fst g)) (wr g))).
Notation k0 := (new_dim R L lastq (tagged R L s) fac).
Notation f0 := (untag R L s (flat_map (fun g => fst (fst (rg g))) G)).
Lemma l_shape : forall g, In g G -> shape_ok R L put_last (dr (fst g)) (snd g).
Proof using W.
  intros [q bs] Hg. apply collect_in in Hg. destruct Hg as [E Ne]. cbn [fst snd].
  assert (Hb: forall tb, In tb bs -> exists ql qm, fst (snd tb) = ql :: qm ++ [q] /\ nshape (snd (snd tb)) = put_last Z (dr q) (dl ql :: mids L n dp qm) /\ Forall (fun x => 0 < x) (mids L n dp qm) /\ 0 < dl ql /\ 0 < dr q).
  { intros tb H. rewrite E in H. apply filter_In in H. destruct H as [H1 H2]. destruct (tagged_block R L n dl dp dr s tb W H1) as (ql & qm & qr & E1 & E2 & E3 & E4 & E5 & E6 & _). rewrite E1 in H2. change (ql :: qm ++ [qr]) with ((ql :: qm) ++ [qr]) in H2. rewrite last_last in H2. destruct (qeqb_spec L qr q) as [Eqr|]; [|discriminate]; rewrite Eqr in *. exists ql, qm. auto. }
  split; [exact Ne|]. split.
  - destruct bs as [|tb bs]; [congruence|]. destruct (Hb tb (or_introl eq_refl)) as (ql & qm & _ & _ & _ & _ & P). exact P.
  - intros tb H. destruct (Hb tb H) as (ql & qm & E1 & E3 & P1 & P2 & P3). exists (dl ql :: mids L n dp qm). split; [exact E3|]. constructor; assumption.
Qed.
Lemma l_group : forall g, In g G -> fac_ok R L put_last rest_last cj (dr (fst g)) (snd g) (fac g) /\ 0 < Z.of_nat (length (sv g)) /\ nshape (snd (rg g)) = [Z.of_nat (length (sv g)); dr (fst g)] /\ unit_rows R cj (Z.of_nat (length (sv g))) (dr (fst g)) (wr g).
Proof using W Hrg HS.
  intros g Hg. pose proof (Hrg g Hg) as E. rewrite (surjective_pairing (rg g)), (surjective_pairing (fst (rg g))) in E. exact (left_group_ok R L K emb cj svd HS (dr (fst g)) g _ _ _ (l_shape g Hg) E).
Qed.
Lemma l_tags : forall g tb, In g G -> In tb (fst (fst (rg g))) -> last (fst (snd tb)) (q0 L) = fst g /\ fst (snd tb) <> [] /\ (kind s = false -> fst tb = false).
Proof using W Hrg HS.
  intros g tb Hg H. destruct (l_group g Hg) as ((k & _ & _ & F & _) & _). cbn [fst] in F. assert (X: exists tb0, In tb0 (snd g) /\ fst tb = fst tb0 /\ fst (snd tb) = fst (snd tb0)).
  { revert F H. generalize (snd g), (fst (fst (rg g))). intros l l' F H. cbn [snd] in F. clear -F H. induction F as [|a b m m' P F IH]; [destruct H|]. destruct H as [<-|H]; [exists a; destruct P as (P1 & P2 & _); cbn; auto|]. destruct (IH H) as (tb0 & H1 & H2). exists tb0. cbn; auto. }
  destruct X as (tb0 & H0 & E1 & E2). rewrite E1, E2. destruct g as [q bs]. apply collect_in in Hg. destruct Hg as [E _]. cbn [fst snd] in *. rewrite E in H0. apply filter_In in H0. destruct H0 as [H1 H2]. split; [|split].
  - now destruct (qeqb_spec L (last (fst (snd tb0)) (q0 L)) q).
  - destruct (tagged_block R L n dl dp dr s tb0 W H1) as (ql & qm & qr & E' & _). rewrite E'. discriminate.
  - intros Hk. now apply (tagged_tags R L s).
Qed.
Lemma l_ne : forall g, In g G -> fst (fst (rg g)) <> [].
Proof using W Hrg HS.
  intros g Hg. destruct (l_group g Hg) as ((k & _ & _ & F & _) & _). cbn [fst] in F. destruct (l_shape g Hg) as (Ne & _). intros E. apply F2_length in F. rewrite E in F. destruct (snd g); [congruence|discriminate].
Qed.
Lemma l_part : forall o, part f0 o = flat_map (fun g => map snd (filter (fun b : tblock => Bool.eqb (fst b) o) (fst (fst (rg g))))) G.
Proof using W Hrg HS.
  intros o. rewrite part_untag.
  - rewrite !flat_map_concat_map. rewrite <- (map_map (fun g => fst (fst (rg g))) (fun bs => map snd (filter (fun b : tblock => Bool.eqb (fst b) o) bs))). generalize (map (fun g => fst (fst (rg g))) G). intros ll. induction ll as [|l ll IH]; [reflexivity|]. cbn [concat map]. now rewrite filter_app, map_app, IH.
  - intros tb H Hk. apply in_flat_map in H. destruct H as (g & Hg & H). now apply (l_tags g tb Hg H).
Qed.
Let FL := fac_left R L cj cj0 n dl dp dr s W fac (fun g Hg => proj1 (l_group g Hg)).
Variable o : copts K.
Variable gs : list (Z * list Z).
Hypothesis gsO : sel_ok K o (map sv G) gs.
Notation sel := (sel L (map fst G) gs).
Notation dn := (fun q => Z.of_nat (length (sel q))).
Notation l0 := (map (fun g => ([fst g; fst g], snd (rg g))) G).
Lemma l_cut : forall q, cut_of R L (map fst G) gs (last_at R L) lastq (part f0 q) (part (trunc_site R L big (last_opt L) (last_at R L) (map fst G) gs f0) q).
Proof using Hbig HS W Hrg gsO cj0.
  intros q. destruct gsO as (gsS & gsR & _). assert (N: NoDup (map fst (part f0 q))) by (destruct FL as (_ & (_ & W0) & _); apply (W0 q)).
  assert (Hl: forall g b, In g G -> In b (map snd (filter (fun b : tblock => Bool.eqb (fst b) q) (fst (fst (rg g))))) -> last (fst b) (q0 L) = fst g /\ last_opt L (fst b) = Some (fst g)).
  { intros g b Hg H. apply in_map_iff in H. destruct H as (tb & <- & H). apply filter_In in H. destruct (l_tags g tb Hg (proj1 H)) as (E & Ne & _). split; [exact E|]. destruct (put_last_ex _ _ Ne) as (x & m & Ex). unfold put_last in Ex. rewrite Ex in E |- *. rewrite last_last in E. subst x. apply last_opt_snoc. }
  assert (P: forall fm, (fm = false -> forall g, In g G -> map snd (filter (fun b : tblock => Bool.eqb (fst b) q) (fst (fst (rg g)))) <> []) -> cut_of R L (map fst G) gs (last_at R L) lastq (part f0 q) (filter big (pickk R L fm (last_opt L) (last_at R L) (map fst G) gs (part f0 q)))).
  { intros fm Hne. rewrite l_part in *. apply (pickk_cut R L K big Hbig G sv gs (slabs_nodup lastq s) gsS gsR); auto. }
  assert (Kf: kind f0 = kind s) by apply FL. clear N. revert P Kf. generalize f0. intros [t|od ev] P Kf; cbn [trunc_site part kind] in P, Kf |- *.
  - destruct q; [|apply P; intros _ g Hg E].
    + split; [constructor|split; [intros ? []|intros ? [] ] ].
    + apply map_eq_nil in E. assert (fst (fst (rg g)) = []); [|now apply (l_ne g Hg)]. destruct (fst (fst (rg g))) as [|tb l] eqn:El; [reflexivity|]. exfalso. assert (Ht: fst tb = false) by (apply (l_tags g tb Hg); [rewrite El; now left|now symmetry]). cbn [filter] in E. rewrite Ht in E. discriminate.
  - destruct q; apply P; discriminate.
Qed.
Lemma l_k0 : forall g, In g G -> k0 (fst g) = Z.of_nat (length (sv g)).
Proof using. intros g Hg. now rewrite k0_sval, (sval_in R L K G sv (slabs_nodup lastq s) g Hg). Qed.
Lemma l_gauge0 : gauge_ok R L lastq (tagged R L s) k0 dr l0 /\ forall g y z, In g G -> telem l0 [(fst g, z); (fst g, y)] = nget (snd (rg g)) [z; y].
Proof using HS W Hrg.
  destruct (gauge_gen R L lastq (tagged R L s) (fun g => (@nil tblock, snd (rg g))) (fun x => x) k0 dr) as [O V].
  - intros q bs H. destruct (l_group (q, bs) H) as (_ & P & E & _). destruct (l_shape (q, bs) H) as (_ & Pd & _). pose proof (l_k0 (q, bs) H) as Ek. cbn [fst snd] in *. rewrite Ek. auto.
  - split; [exact O|]. intros g y z Hg. rewrite V. destruct (qeqb_spec L (fst g) (fst g)); [|congruence]. exact (group_bsum lastq s g (fun g' => nget (snd (rg g')) [z; y]) Hg).
Qed.
Notation g0 := (map (fun g => ([fst g; fst g], snd (fac g))) G).
Lemma l_sel : forall q z, In z (sel q) -> 0 <= z < k0 q.
Proof using gsO. destruct gsO as (gsS & gsR & _). intros q z. exact (selR lastq s rg dr wr gs gsS gsR q z). Qed.
Lemma l_full : forall g y z, In g G -> telem g0 [(fst g, z); (fst g, y)] = emb (at_ (sv g) z) *' nget (snd (rg g)) [z; y].
Proof using HS W Hrg.
  intros g y z Hg. destruct (gauge_gen R L lastq (tagged R L s) fac (fun x => x) k0 dr) as [_ V].
  - intros q bs H. destruct (l_group (q, bs) H) as (_ & P & E & _). destruct (l_shape (q, bs) H) as (_ & Pd & _). pose proof (l_k0 (q, bs) H) as Ek. cbn [fst snd] in *. rewrite Ek. auto.
  - rewrite V. destruct (qeqb_spec L (fst g) (fst g)); [|congruence]. transitivity (nget (snd (fac g)) [z; y]); [exact (group_bsum lastq s g (fun g' => nget (snd (fac g')) [z; y]) Hg)|]. cbn [snd].
    destruct (l_group g Hg) as (_ & _ & Sh & _). destruct (in_shapeb [Z.of_nat (length (sv g)); dr (fst g)] [z; y]) eqn:Ei.
    + apply in_shapeb_spec, in_shape2 in Ei. destruct Ei as [Ei1 Ei2]. rewrite (scaled_get R K emb _ _ _ z y Ei1 Ei2). reflexivity.
    + assert (~ in_shape [Z.of_nat (length (sv g)); dr (fst g)] [z; y]) by (rewrite <- in_shapeb_spec; congruence). rewrite scaled_out, (nget_out _ (snd (rg g))); [ring|rewrite Sh; exact H|]. intros [H1 H2]. apply H. apply in_shape2. exact (conj H1 H2).
Qed.
Lemma l_dot : exists ls, sp_tensordot_n R L (diag R L K emb (pick_values K L (map fst G) (map sv G) gs)) (filter big (pickk R L (kind f0) (first_opt L) (first_at R L) (map fst G) gs l0)) 1 = Some ls /\
  gauge_ok R L lastq (tagged R L s) dn dr ls /\ forall q y z, 0 <= z < dn q -> telem ls [(q, z); (q, y)] = telem g0 [(q, nth (Z.to_nat z) (sel q) 0); (q, y)].
Proof using Hbig HS W Hrg gsO.
  destruct (hdot_some R L (diag R L K emb (pick_values K L (map fst G) (map sv G) gs)) (filter big (pickk R L (kind f0) (first_opt L) (first_at R L) (map fst G) gs l0))) as (ls & E). exists ls. split; [exact E|].
  pose proof gsO as (gsS & gsR & _). destruct l_gauge0 as [O V].
  assert (C: cut_of R L (map fst G) gs (first_at R L) (fun qs => hd (q0 L) qs) l0 (filter big (pickk R L (kind f0) (first_opt L) (first_at R L) (map fst G) gs l0))).
  { replace l0 with (flat_map (fun g => [([fst g; fst g], snd (rg g))]) G) at 1 2 by (clear; induction G as [|g G' IH]; [reflexivity|]; cbn [flat_map map app]; now rewrite IH).
    apply (pickk_cut R L K big Hbig G sv gs (slabs_nodup lastq s) gsS gsR); auto.
    - intros _ g _. discriminate.
    - intros g b _ [<-|[] ]. split; reflexivity.
    - replace (flat_map (fun g => [([fst g; fst g], snd (rg g))]) G) with l0 by (clear; induction G as [|g G' IH]; [reflexivity|]; cbn [flat_map map app]; now rewrite IH). apply O. }
  destruct (gauge_cut_first R L (map fst G) gs k0 l_sel lastq (tagged R L s) dr _ _ O C) as [O' V'].
  destruct (diag_ok R L K emb big Hbig G sv gs (slabs_nodup lastq s) gsS gsR lastq (tagged R L s)) as [OD VD].
  { intros q Hq. apply collect_key in Hq. destruct Hq as (b & Hb & <-). unfold labs. apply in_map_iff. eauto. }
  destruct (gauge_dot R L lastq (tagged R L s) dn dn dr _ _ ls OD O' E) as [Or Vr]. split; [exact Or|].
  intros q y z Hz. rewrite Vr. rewrite (bsum_single R _ _ _ z); [|apply zrange_nodup|now apply in_zrange|].
  - rewrite VD, V'. rewrite Z.eqb_refl. assert (Er: (0 <=? z) && (z <? dn q) = true) by (apply andb_true_intro; split; lia). rewrite Er. cbn [andb].
    assert (Hq: In q (map fst G)) by (apply (sel_lab R L G gs); intros E'; rewrite E' in Hz; cbn in Hz; lia). apply in_map_iff in Hq. destruct Hq as (g & Eq & Hg). subst q. rewrite V, l_full by exact Hg. rewrite (sval_in R L K G sv (slabs_nodup lastq s) g Hg). ring.
  - intros x _ Nx. rewrite VD. replace (z =? x) with false by lia. cbn [andb]. ring.
Qed.
Lemma left_tsplit : exists ls, sp_tensordot_n R L (diag R L K emb (pick_values K L (map fst G) (map sv G) gs)) (filter big (pickk R L (kind f0) (first_opt L) (first_at R L) (map fst G) gs l0)) 1 = Some ls /\
  tsplit_left R L K emb cj n dl dp dr dn s (trunc_site R L big (last_opt L) (last_at R L) (map fst G) gs f0) ls (lost K (square K) (map sv G) gs) /\ within L (o_max K o) dn.
Proof using Hbig HS W Hrg gsO cj_add cj_mul cj0 cj_emb emb0 emb_add emb_mul.
  destruct l_dot as (ls & E & Og & Vg). exists ls. split; [exact E|]. pose proof gsO as (gsS & gsR & gsB). split; [|exact (sel_within lastq s rg gs gsS gsR o gsB)].
  pose proof FL as (Kf & Wf0 & Pf & _ & Full & Iso & _). destruct (site_cut_last R L big Hbig (map fst G) gs k0 l_sel n dl dp f0 _ Wf0 l_cut) as (Wf & If & Vf).
  set (f := trunc_site R L big (last_opt L) (last_at R L) (map fst G) gs f0) in *.
  assert (If': forall o, incl (map fst (part f o)) (map fst (part s o))) by (intros o' k Hk; apply (Permutation_in _ (Pf o')); now apply (If o')).
  split; [exact Wf|split; [exact If'|split; [exact Og|split] ] ].
  { transitivity (kind f0); [|exact Kf]. unfold f. generalize f0. intros [t|od ev]; reflexivity. }
  intros X Det NX Cov. specialize (Iso Det). specialize (Iso X NX).
  assert (C0: forall p l r, ~ In (p, l) X -> selem f0 p l r = 0') by (intros p l r H; apply (Cov k0 f0 Wf0); [intros o' k Hk; now apply (Permutation_in _ (Pf o'))|exact H]).
  specialize (Iso C0).
  assert (ON: forall q z q' z', 0 <= z < k0 q -> 0 <= z' < k0 q' -> bsum X (fun x => cj (selem f0 (fst x) (snd x) (q, z)) *' selem f0 (fst x) (snd x) (q', z')) = if q_dec L q q' then (if z =? z' then 1' else 0') else 0').
  { intros q z q' z' Hz Hz'. transitivity (if st_dec L (q, z) (q', z') then 1' else 0'); [exact (Iso (q, z) (q', z') Hz Hz')|]. destruct (st_dec L (q, z) (q', z')) as [Es|Es], (q_dec L q q') as [Eq|Eq]; try (injection Es as -> ->); try congruence; [now rewrite Z.eqb_refl|]. destruct (Z.eqb_spec z z'); [congruence|reflexivity]. }
  assert (FS: forall (x : pstate * state) q z, 0 <= z < dn q -> selem f (fst x) (snd x) (q, z) = selem f0 (fst x) (snd x) (q, nth (Z.to_nat z) (sel q) 0)).
  { intros x q z Hz. rewrite Vf. assert (Er: (0 <=? z) && (z <? dn q) = true) by (apply andb_true_intro; split; lia). now rewrite Er. }
  set (fx0 := fun (x : pstate * state) (q : L) (z : Z) => selem f0 (fst x) (snd x) (q, z)). set (fx := fun (x : pstate * state) (q : L) (z : Z) => selem f (fst x) (snd x) (q, z)). set (sx := fun (x : pstate * state) (q : L) (z : Z) => selem s (fst x) (snd x) (q, z)).
  set (Gx := fun (q : L) (y z : Z) => telem ls [(q, z); (q, y)]). set (Gx0 := fun (q : L) (y z : Z) => telem g0 [(q, z); (q, y)]).
  assert (SN: forall q, NoDup (sel q)) by exact (CompressSites.sel_nodup R L K G sv gs gsR).
  assert (FU: forall x q y, sx x q y = bsum (zrange (k0 q)) (fun z => Gx0 q y z *' fx0 x q z)) by (intros x q y; unfold sx; rewrite Full; apply bsum_ext; intros z _; apply (Ring_theory.Rmul_comm (rth R))).
  assert (RHO: forall (x : pstate * state) q y, rho_l R L dn s f ls (fst x) (snd x) q y = resid R _ _ fx sx Gx sel x q y) by (intros x q y; unfold rho_l, resid; f_equal; apply bsum_ext; intros z _; apply (Ring_theory.Rmul_comm (rth R))).
  split; [|split].
  - intros [q z] [q' z'] Hz Hz'. cbn [fst snd] in Hz, Hz'. transitivity (if q_dec L q q' then (if z =? z' then 1' else 0') else 0'); [exact (cut_iso R cj _ _ (q_dec L) X fx0 fx sx Gx0 Gx k0 sel SN l_sel FU FS Vg ON q z q' z' Hz Hz')|]. destruct (st_dec L (q, z) (q', z')) as [Es|Es], (q_dec L q q') as [Eq|Eq]; try (injection Es as -> ->); try congruence; [now rewrite Z.eqb_refl|]. destruct (Z.eqb_spec z z'); [congruence|reflexivity].
  - intros q z q' y Hz. rewrite (bsum_ext R _ X _ (fun x => cj (fx x q z) *' resid R _ _ fx sx Gx sel x q' y)) by (intros x _; now rewrite RHO). exact (cut_orth R cj _ _ (q_dec L) X fx0 fx sx Gx0 Gx k0 sel SN l_sel FU FS Vg ON q z q' y Hz).
  - intros Qs NQ IQ. rewrite (lost_groups lastq s rg gs gsS gsR). rewrite (emb_sum R K emb emb0 emb_add).
    transitivity (bsum Qs (fun q => bsum (zrange (k0 q)) (fun z => if memb z (sel q) then 0' else bsum (zrange (dr q)) (fun y => cj (Gx0 q y z) *' Gx0 q y z)))).
    { apply bsum_ext. intros q _. rewrite (bsum_ext R _ (zrange (dr q)) _ (fun y => bsum X (fun x => cj (resid R _ _ fx sx Gx sel x q y) *' resid R _ _ fx sx Gx sel x q y))) by (intros y _; apply bsum_ext; intros x _; now rewrite RHO). exact (cut_err R cj cj_add cj_mul _ _ (q_dec L) X fx0 fx sx Gx0 Gx k0 sel SN l_sel FU FS Vg ON q (dr q)). }
    rewrite (bsum_cover R _ (q_dec L) Qs (map fst G)); [|exact NQ|apply slabs_nodup| |].
    + rewrite bsum_map. apply bsum_ext. intros g Hg. rewrite (emb_sum R K emb emb0 emb_add). rewrite k0_sval, (sval_in R L K G sv (slabs_nodup lastq s) g Hg). apply bsum_ext. intros z Hz. apply in_zrange in Hz. destruct (memb z (sel (fst g))); [now rewrite emb0|].
      destruct (l_group g Hg) as (_ & _ & _ & U). transitivity (emb (at_ (sv g) z) *' emb (at_ (sv g) z) *' bsum (zrange (dr (fst g))) (fun y => cj (nget (snd (rg g)) [z; y]) *' nget (snd (rg g)) [z; y])).
      * rewrite <- bsum_mull. apply bsum_ext. intros y _. unfold Gx0. rewrite (l_full g y z Hg), cj_mul, cj_emb. ring.
      * rewrite (U z Hz). unfold square. rewrite emb_mul. ring.
    + intros q Hq. assert (Eq: k0 q = 0). { rewrite k0_sval, sval_out; [reflexivity|]. intros H. apply Hq, IQ. apply labs_lasts. apply collect_key in H. destruct H as (b & Hb & <-). unfold labs. apply in_map_iff. eauto. } rewrite Eq. apply bsum_nil.
    + intros q Hq. assert (Eq: k0 q = 0) by (rewrite k0_sval, sval_out; [reflexivity|exact Hq]). rewrite Eq. apply bsum_nil.
Qed.
End Left.

(** *** one step *)
Definition tdflt : list tblock * list K * nd R := ([], [], mkNd [] (fun _ => 0')).
Lemma right_trunc : forall o n dl dp dr s l slabs ss f0 l' s' f err, wf_site n dl dp dr s -> right_svd R L K svd s = Some (l, slabs, ss, f0) -> trunc_right R L K sqrtK big o l slabs ss f0 = (l', s', f, err) ->
  exists g dn, sp_tensordot_n R L l' (diag R L K emb s') 1 = Some g /\ tsplit_right R L K emb cj n dl dp dr dn s f g err /\ within L (o_max K o) dn /\ ole (r0 K) err.
Proof.
  intros o n dl dp dr s l slabs ss f0 l' s' f err W E T. unfold right_svd in E. destruct (mapM _ _) as [gs|] eqn:M; cbn [bind] in E; [|discriminate]. injection E as <- <- <- <-.
  destruct (mapM_map _ _ _ (q0 L, tdflt) _ _ M) as [-> Hg]. set (G := collect R L headq (tagged R L s)) in *. set (rg := fun g => odflt tdflt (right_group R L K svd g)).
  assert (Hrg: forall g, In g G -> right_group R L K svd g = Some (rg g)) by (intros g H; specialize (Hg g H); unfold rg; destruct (right_group R L K svd g); [reflexivity|discriminate]).
  assert (EM: forall B (h : L * (list tblock * list K * nd R) -> B), map h (map (fun g => odflt (q0 L, tdflt) (do x <- right_group R L K svd g; Some (fst g, x))) G) = map (fun g => h (fst g, rg g)) G).
  { intros B h. rewrite map_map. apply map_ext_in. intros g H. rewrite (Hrg g H). reflexivity. }
  rewrite !EM in T. cbn [fst snd] in T. rewrite flat_map_concat_map, EM, <- flat_map_concat_map in T. cbn [fst snd] in T.
  destruct (trunc_right_spec R L K sqrtK big o (map (fun g => ([fst g; fst g], snd (rg g))) G) (map (fun g => fst g) G) (map (fun g => snd (fst (rg g))) G) (untag R L s (flat_map (fun g => fst (fst (rg g))) G))) as (gs & SO & Et).
  rewrite Et in T. injection T as <- <- <- <-. destruct (right_tsplit n dl dp dr s W rg Hrg o gs SO) as (ls & E1 & E2 & E3). exists ls. eexists. split; [exact E1|split; [exact E2|split; [exact E3|apply lost_nonneg] ] ].
Qed.
Lemma left_trunc : forall o n dl dp dr s f0 slabs ss r f s' r' err, wf_site n dl dp dr s -> left_svd R L K svd s = Some (f0, slabs, ss, r) -> trunc_left R L K sqrtK big o f0 slabs ss r = (f, s', r', err) ->
  exists g dn, sp_tensordot_n R L (diag R L K emb s') r' 1 = Some g /\ tsplit_left R L K emb cj n dl dp dr dn s f g err /\ within L (o_max K o) dn /\ ole (r0 K) err.
Proof.
  intros o n dl dp dr s f0 slabs ss r f s' r' err W E T. unfold left_svd in E. destruct (mapM _ _) as [gs|] eqn:M; cbn [bind] in E; [|discriminate]. injection E as <- <- <- <-.
  destruct (mapM_map _ _ _ (q0 L, tdflt) _ _ M) as [-> Hg]. set (G := collect R L lastq (tagged R L s)) in *. set (rg := fun g => odflt tdflt (left_group R L K svd g)).
  assert (Hrg: forall g, In g G -> left_group R L K svd g = Some (rg g)) by (intros g H; specialize (Hg g H); unfold rg; destruct (left_group R L K svd g); [reflexivity|discriminate]).
  assert (EM: forall B (h : L * (list tblock * list K * nd R) -> B), map h (map (fun g => odflt (q0 L, tdflt) (do x <- left_group R L K svd g; Some (fst g, x))) G) = map (fun g => h (fst g, rg g)) G).
  { intros B h. rewrite map_map. apply map_ext_in. intros g H. rewrite (Hrg g H). reflexivity. }
  rewrite !EM in T. cbn [fst snd] in T. rewrite flat_map_concat_map, EM, <- flat_map_concat_map in T. cbn [fst snd] in T.
  destruct (trunc_left_spec R L K sqrtK big o (untag R L s (flat_map (fun g => fst (fst (rg g))) G)) (map (fun g => fst g) G) (map (fun g => snd (fst (rg g))) G) (map (fun g => ([fst g; fst g], snd (rg g))) G)) as (gs & SO & Et).
  rewrite Et in T. injection T as <- <- <- <-. destruct (left_tsplit n dl dp dr s W rg Hrg o gs SO) as (ls & E1 & E2 & E3). exists ls. eexists. split; [exact E1|split; [exact E2|split; [exact E3|apply lost_nonneg] ] ].
Qed.
End Fac.
