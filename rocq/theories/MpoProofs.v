(** Lemmas for C32: products of an operator with a state or an operator, site by site. *)
From Coq Require Import ZArith Bool List Ascii Lia Permutation Ring.
From Verif Require Import SymModel SymProofs DictLib IndexLib OptLib RingLib BondModel BondProofs FuseModel FuseProofs FuseProps FuseTProofs FuseTProps BlockModel BlockProofs BlockProps StructModel StructProofs SumProofs StructProps MpsModel MpsChain MpsProofs MpsDot MpoModel MpoDot MpoVert MpoFuse MpoChain.
Import ListNotations.
Open Scope Z_scope.

Section MProofs.
Variable R : CRing.
Add Ring Rr10 : (rth R).
Variable L : Label.
Notation tensor := (list (list L * nd R)).
Notation site := (site R L).
Notation state := (L * Z)%type.
Notation binfo := (dict L Z).
Notation "0'" := (r0 R). Notation "1'" := (r1 R).
Infix "+'" := (radd R) (at level 50, left associativity).
Infix "*'" := (rmul R) (at level 40, left associativity).
Notation telem := (telem R L).
Notation positive := (positive R L).
Notation sgn := (sgn R).
Notation charge := (charge L).
Notation graded := (graded R L).
Notation kmap := (kmap L).
Notation okb := (okb L).
Notation phy := (bool * list state)%type.
Notation dt := (bool * list state * list state * list (list state))%type.
Notation par := (fun s : state => qpar L (fst s)).

Lemma selem_t : forall (s : site) odd p l r, selem s (odd, p) l r = telem (part s odd) (l :: p ++ [r]).
Proof. intros. unfold selem, MpsDot.telem. cbn [fst snd map]. now rewrite !map_app. Qed.

(** *** one site *)
Definition partner (y : site) (oc o : bool) : bool := if kind y then xorb oc o else false.
Definition terms (y : site) (d : dt) : list (term phy phy) :=
  let '(oc, u, w, C) := d in
  map (fun oc' => Term (fst oc') (fst oc', u ++ snd oc') (partner y oc (fst oc'), snd oc' ++ w) (charge (kind y) (partner y oc (fst oc')) (map fst (snd oc' ++ w)))) (list_prod [true; false] C).
Definition out_phys (d : dt) : phy := let '(oc, u, w, _) := d in (oc, u ++ w).
(* C lists the states of the contracted legs *)
Definition okd (du k dw : Z) (y : site) (d : dt) : Prop :=
  let '(oc, u, w, C) := d in
  (kind y = false -> oc = false) /\ Z.of_nat (length u) = du /\ Z.of_nat (length w) = dw /\ NoDup C /\ (forall c, In c C -> Z.of_nat (length c) = k) /\
  (forall c o l r, Z.of_nat (length c) = k -> ~ In c C -> selem y (o, c ++ w) l r = 0').
Notation gst x y d := (gstep R phy phy state par (selem x) (selem y) (terms y d)).
Lemma gstep_eq : forall (x y : site) d l l' r r', gst x y d l l' r r' =
  let '(oc, u, w, C) := d in bsum [true; false] (fun o => bsum C (fun c => sgn (o && qpar L (fst l')) (telem (part x o) (l :: u ++ c ++ [r])) *' telem (part y (partner y oc o)) (l' :: c ++ w ++ [r']))).
Proof.
  intros x y [[[oc u] w] C] l l' r r'. unfold gstep, terms. rewrite bsum_map, bsum_list_prod. apply bsum_ext. intros o _. apply bsum_ext. intros c _. cbn [t_o t_a t_b fst snd]. rewrite !selem_t, <- !app_assoc. apply sgn_mul.
Qed.
Lemma terms_move : forall (y : site) d, graded y -> moves R phy phy state par (selem y) (terms y d).
Proof.
  intros y [[[oc u] w] C] G t l r Ht. unfold terms in Ht. apply in_map_iff in Ht. destruct Ht as ([o c] & <- & _). cbn [t_b t_m fst snd]. set (ob := partner y oc o). rewrite selem_t. unfold MpsDot.telem. rewrite map_cons, map_app. cbn [map].
  destruct (in_dec (tup_dec L) (fst l :: map fst (c ++ w) ++ [fst r]) (map fst (part y ob))) as [H|H].
  - right. apply (G ob _ _ _ H).
  - left. now apply elem_absent.
Qed.

Definition n4 (du dw : Z) : Z := du + dw + 4.
Definition site4 (du k dw : Z) (dla dra dlb drb : L -> Z) (dpv : Z -> L -> Z) (x y c : site) : Prop :=
  kind c = kind y /\
  (forall odd, wf_tensor R L (n4 du dw) (dm4 L (n4 du dw) dla dlb dra drb dpv) (part c odd) /\ positive (part c odd) /\ NoDup (map fst (part c odd))) /\
  (forall odd qs, In qs (map fst (part c odd)) -> exists o l u qc r l' w r', qs = l :: l' :: u ++ w ++ [r; r'] /\ Z.of_nat (length u) = du /\ Z.of_nat (length w) = dw /\
     In (l :: u ++ qc ++ [r]) (map fst (part x o)) /\ In (l' :: qc ++ w ++ [r']) (map fst (part y (partner y odd o)))) /\
  (forall d l r l' r', okd du k dw y d -> telem (part c (fst (out_phys d))) (l :: l' :: snd (out_phys d) ++ [r; r']) = gst x y d l l' r r').
Lemma site4_pdot : forall (x y : site) du k dw dla dra dlb drb dpa dpb, 0 < du -> 0 < k -> 0 <= dw -> kind x = true ->
  wf_site (du + k + 2) dla dpa dra x -> wf_site (k + dw + 2) dlb dpb drb y -> (forall i q, 1 <= i <= k -> dpa (du + i) q = dpb i q) ->
  graded x -> blocks x <> [] -> blocks y <> [] -> (if kind y then du = k /\ dw = k else dw = 0) ->
  exists c, s_pdot R L x y = Some c /\ site4 du k dw dla dra dlb drb (dpc L du k dpa dpb) x y c.
Proof.
  intros x y du k dw dla dra dlb drb dpa dpb Hu Hk Hw Kx Wx Wy D G Nx Ny Sh. destruct x as [t|ao ae]; [discriminate|].
  destruct (pdot_site R L ao ae y du k dw dla dra dlb drb dpa dpb) as (c & E & Kc & Wc & Bc & Fc); auto. exists c. split; [exact E|]. split; [exact Kc|]. split; [exact Wc|]. split; [exact Bc|].
  intros [[[oc u] w] C] l r l' r' (Ho & Lu & Lw & NC & LC & Cov). rewrite gstep_eq. cbn [out_phys fst snd]. rewrite <- app_assoc. rewrite (Fc oc C); auto.
  intros c' o Lc Hc. specialize (Cov c' o l' r' Lc Hc). rewrite selem_t, <- app_assoc in Cov. exact Cov.
Qed.

(** *** all sites *)
Inductive vmatch : list (Z * Z * Z) -> list (Z * (Z -> L -> Z)) -> list (Z * (Z -> L -> Z)) -> list site -> Prop :=
  | vm_nil : vmatch [] [] [] []
  | vm_cons : forall du k dw dpa dpb y hs sa sb ys, 0 < du -> 0 < k -> 0 <= dw -> (forall i q, 1 <= i <= k -> dpa (du + i) q = dpb i q) -> (if kind y then du = k /\ dw = k else dw = 0) ->
      vmatch hs sa sb ys -> vmatch ((du, k, dw) :: hs) ((du + k + 2, dpa) :: sa) ((k + dw + 2, dpb) :: sb) (y :: ys).
Inductive sites4 : list (Z * Z * Z) -> list (L -> Z) -> list (L -> Z) -> list (Z -> L -> Z) -> list site -> list site -> list site -> Prop :=
  | s4_nil : forall da db, sites4 [] [da] [db] [] [] [] []
  | s4_cons : forall du k dw dla dra dlb drb dsa dsb dpv hs dps x y c a b cs, 0 < du -> 0 <= dw -> site4 du k dw dla dra dlb drb dpv x y c -> blocks c <> [] -> sites4 hs (dra :: dsa) (drb :: dsb) dps a b cs ->
      sites4 ((du, k, dw) :: hs) (dla :: dra :: dsa) (dlb :: drb :: dsb) (dpv :: dps) (x :: a) (y :: b) (c :: cs).
Fixpoint dpcs (hs : list (Z * Z * Z)) (sa sb : list (Z * (Z -> L -> Z))) : list (Z -> L -> Z) :=
  match hs, sa, sb with (du, k, dw) :: hs', (_, dpa) :: sa', (_, dpb) :: sb' => dpc L du k dpa dpb :: dpcs hs' sa' sb' | _, _, _ => [] end.
Inductive okds : list (Z * Z * Z) -> list site -> list dt -> Prop :=
  | okds_nil : okds [] [] []
  | okds_cons : forall du k dw hs y ys d ds, okd du k dw y d -> okds hs ys ds -> okds ((du, k, dw) :: hs) (y :: ys) (d :: ds).
Fixpoint all_terms (ys : list site) (ds : list dt) : list (list (term phy phy)) :=
  match ys, ds with y :: ys', d :: ds' => terms y d :: all_terms ys' ds' | _, _ => [] end.
(* one of the factors of the product vanishes *)
Inductive vanish : list (Z * Z * Z) -> list site -> list site -> Prop :=
  | van_here : forall du k dw hs x y a b, (forall d l l' r r', okd du k dw y d -> gst x y d l l' r r' = 0') -> vanish ((du, k, dw) :: hs) (x :: a) (y :: b)
  | van_later : forall h hs x y a b, vanish hs a b -> vanish (h :: hs) (x :: a) (y :: b).
Lemma empty_blocks : forall s : site, s_empty R L s = true <-> blocks s = [].
Proof. intros s. unfold s_empty. rewrite nblocks_blocks. destruct (blocks s); cbn; split; congruence. Qed.
Lemma empty_part : forall (s : site) odd sts, blocks s = [] -> telem (part s odd) sts = 0'.
Proof. intros s odd sts H. unfold blocks in H. apply app_eq_nil in H. destruct H as [H1 H2]. unfold MpsDot.telem. destruct odd; [rewrite H1|rewrite H2]; reflexivity. Qed.
Lemma pdot_all_spec : forall a b hs da db sa sb, wf_sites da sa a -> wf_sites db sb b -> vmatch hs sa sb b -> Forall (fun s => kind s = true) a -> Forall graded a ->
  (pdot_all R L a b = Some None /\ vanish hs a b) \/ (exists cs, pdot_all R L a b = Some (Some cs) /\ sites4 hs da db (dpcs hs sa sb) a b cs).
Proof.
  induction a as [|x a IH]; intros b hs da db sa sb Wa Wb V K G.
  - destruct Wa as [-> La]. inversion V; subst. destruct Wb as [_ Lb]. right. exists []. split; [reflexivity|]. destruct da as [|d [|]]; try discriminate. destruct db as [|d' [|]]; try discriminate. constructor.
  - destruct sa as [|[na dpa] sa]; [destruct Wa|]. destruct da as [|dla da]; [destruct Wa|]. destruct Wa as [Wx Wa]. inversion V as [|du k dw dpa' dpb y hs' sa' sb' ys Hu Hk Hw D Sh V']; subst. destruct db as [|dlb db]; [destruct Wb|]. destruct Wb as [Wy Wb].
    inversion K as [|? ? Kx K']; subst. inversion G as [|? ? Gx G']; subst. cbn [pdot_all].
    destruct (s_empty R L x) eqn:Ex. { left. split; [reflexivity|]. apply van_here. intros [[[oc u] w] C] l l' r r' _. rewrite gstep_eq. apply bsum_zero. intros o _. apply bsum_zero. intros c _. rewrite empty_part by now apply empty_blocks. rewrite sgn_0. ring. }
    destruct (s_empty R L y) eqn:Ey. { left. split; [reflexivity|]. apply van_here. intros [[[oc u] w] C] l l' r r' _. rewrite gstep_eq. apply bsum_zero. intros o _. apply bsum_zero. intros c _. rewrite (empty_part y) by now apply empty_blocks. ring. }
    cbn [orb].
    assert (Nx: blocks x <> []) by (intros H; apply empty_blocks in H; congruence). assert (Ny: blocks y <> []) by (intros H; apply empty_blocks in H; congruence).
    destruct (site4_pdot x y du k dw dla (hd (fun _ => 0) da) dlb (hd (fun _ => 0) db) dpa dpb) as (c & Ec & S4); auto. rewrite Ec. cbn [bind].
    destruct (s_empty R L c) eqn:Em. { left. split; [reflexivity|]. apply van_here. intros d l l' r r' Hd. destruct S4 as (_ & _ & _ & F). rewrite <- F by auto. apply empty_part. now apply empty_blocks. }
    assert (Nc: blocks c <> []) by (intros H; apply empty_blocks in H; congruence).
    destruct (IH ys hs' da db sa sb' Wa Wb V' K' G') as [[E Z]|(cs & E & S)]; rewrite E; cbn [bind option_map]; [left; split; [reflexivity|now apply van_later]|].
    right. exists (c :: cs). split; [reflexivity|]. cbn [dpcs]. destruct da as [|dra dsa]; [inversion S|]. destruct db as [|drb dsb]; [inversion S|]. cbn [hd] in S4. econstructor; eauto.
Qed.

(** *** bond layouts *)
(* i0 is the layout of a leg whose labels S have the dimensions d *)
Definition good (i : binfo) (d : L -> Z) (ls : list L) : Prop := wf L i /\ (forall q, bget L i q = 0 \/ bget L i q = d q) /\ (forall q, In q ls -> bget L i q = d q).
Lemma four_spec : forall du k dw dla dra dlb drb dpv (x y c : site), 0 < du -> 0 <= dw -> site4 du k dw dla dra dlb drb dpv x y c -> blocks c <> [] ->
  exists l0 l1 r2 r1, four_infos R L c = Some (l0, l1, r2, r1) /\
  (wf L l0 /\ forall q, bget L l0 q = if in_dec (q_dec L) q (leg_labels R L 0 c) then dla q else 0) /\
  (wf L l1 /\ forall q, bget L l1 q = if in_dec (q_dec L) q (leg_labels R L 1 c) then dlb q else 0) /\
  (wf L r2 /\ forall q, bget L r2 q = if in_dec (q_dec L) q (leg_labels R L (Z.to_nat (n4 du dw - 2)) c) then dra q else 0) /\
  (wf L r1 /\ forall q, bget L r1 q = if in_dec (q_dec L) q (leg_labels R L (Z.to_nat (n4 du dw - 1)) c) then drb q else 0).
Proof.
  intros du k dw dla dra dlb drb dpv x y c Hu Hw (_ & W & _) Ne. unfold n4 in *.
  destruct (infos_spec R L (du + dw + 4) (dm4 L (du + dw + 4) dla dlb dra drb dpv) c) as (ds & E & Ld & H); auto; [lia|intros odd; destruct (W odd) as (A & B & _); auto|].
  destruct ds as [|l0 [|l1 ds]]; try (cbn [length] in Ld; lia).
  assert (Er: exists r1 r2 rs, rev (l0 :: l1 :: ds) = r1 :: r2 :: rs). { destruct (rev (l0 :: l1 :: ds)) as [|r1 [|r2 rs]] eqn:X; [| |eauto]; apply (f_equal (@length _)) in X; rewrite rev_length in X; cbn in X; lia. }
  destruct Er as (r1 & r2 & rs & Er). exists l0, l1, r2, r1. unfold four_infos. rewrite E. cbn [bind]. rewrite Er. split; [reflexivity|].
  assert (Ed: l0 :: l1 :: ds = rev rs ++ [r2; r1]). { rewrite <- (rev_involutive (l0 :: l1 :: ds)), Er. cbn [rev]. now rewrite <- app_assoc. }
  assert (Lr: Z.of_nat (length (rev rs)) = du + dw + 2). { rewrite Ed, app_length in Ld. cbn [length] in Ld. lia. }
  split; [|split; [|split]].
  - specialize (H 0 ltac:(lia)). cbn in H. exact H.
  - specialize (H 1 ltac:(lia)). cbn in H. exact H.
  - specialize (H (du + dw + 4 - 2) ltac:(lia)). rewrite Ed, app_nth2 in H by lia. replace (Z.to_nat (du + dw + 4 - 2) - length (rev rs))%nat with O in H by lia. cbn [nth] in H. unfold dm4 in H.
    destruct (Z.eqb_spec (du + dw + 4 - 2) 0); [lia|]. destruct (Z.eqb_spec (du + dw + 4 - 2) 1); [lia|]. rewrite Z.eqb_refl in H. exact H.
  - specialize (H (du + dw + 4 - 1) ltac:(lia)). rewrite Ed, app_nth2 in H by lia. replace (Z.to_nat (du + dw + 4 - 1) - length (rev rs))%nat with 1%nat in H by lia. cbn [nth] in H. unfold dm4 in H.
    destruct (Z.eqb_spec (du + dw + 4 - 1) 0); [lia|]. destruct (Z.eqb_spec (du + dw + 4 - 1) 1); [lia|]. destruct (Z.eqb_spec (du + dw + 4 - 1) (du + dw + 4 - 2)); [lia|]. rewrite Z.eqb_refl in H. exact H.
Qed.
End MProofs.
