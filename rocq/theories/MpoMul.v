(** Lemmas for C32: products of matrix product operators; the words used by the theorems in MpoProps. *)
From Coq Require Import ZArith Bool List Lia Ring.
From Verif Require Import SymModel SymProofs DictLib IndexLib OptLib RingLib BondModel BondProofs FuseModel FuseProofs FuseProps BlockModel BlockProofs BlockProps StructModel MpsModel MpsChain MpsProofs MpsDot MpsProps MpoModel MpoDot MpoVert MpoFuse MpoChain MpoProofs MpoSite.
Import ListNotations.
Open Scope Z_scope.

(** *** vocabulary (amplitude, bonds, wf_sites: see MpsProps) *)
Section Vocabulary.
Variable R : CRing.
Variable L : Label.
Notation state := (L * Z)%type.
Notation site := (site R L).
Notation shape := (Z * (Z -> L -> Z))%type.
(* number of fermions mod 2 in a list of labels *)
Definition parity (qs : list L) : bool := fold_right (fun q p => xorb (qpar L q) p) false qs.
(* a site of an operator: in the odd (even) part both the bond labels and the physical labels change the parity (do not) *)
Definition operator_site (s : site) : Prop := kind s = true /\ forall odd l m r, In (l :: m ++ [r]) (map fst (part s odd)) -> xorb (qpar L l) (qpar L r) = odd /\ parity m = odd.
(* a site of a state: the bond labels differ by the parity of the physical labels *)
Definition state_site (s : site) : Prop := kind s = false /\ forall l m r, In (l :: m ++ [r]) (map fst (part s false)) -> xorb (qpar L l) (qpar L r) = parity m.
(* an operator with u upper and k lower physical legs per site acts on states with k physical legs; dims of these legs agree *)
Inductive acts_on : list (Z * Z) -> list shape -> list shape -> list shape -> Prop :=
  | acts_nil : acts_on [] [] [] []
  | acts_cons : forall u k da db dc hs sa sb sc, 0 < u -> 0 < k -> (forall i q, 1 <= i <= k -> da (u + i) q = db i q) -> (forall i q, 1 <= i <= u -> dc i q = da i q) -> acts_on hs sa sb sc ->
      acts_on ((u, k) :: hs) ((u + k + 2, da) :: sa) ((k + 2, db) :: sb) ((u + 2, dc) :: sc).
(* operators with k upper and k lower legs *)
Inductive composes : list Z -> list shape -> list shape -> list shape -> Prop :=
  | comp_nil : composes [] [] [] []
  | comp_cons : forall k da db dc hs sa sb sc, 0 < k -> (forall i q, 1 <= i <= k -> da (k + i) q = db i q) -> (forall i q, 1 <= i <= k -> dc i q = da i q /\ dc (k + i) q = db (k + i) q) -> composes hs sa sb sc ->
      composes (k :: hs) ((2 * k + 2, da) :: sa) ((2 * k + 2, db) :: sb) ((2 * k + 2, dc) :: sc).
(* blocks small enough for the 32-bit sizes of the fused bonds *)
Definition fits32 (da db : list (L -> Z)) : Prop := Forall2 (fun d d' : L -> Z => forall q q', d q * d' q' < 2 ^ 32) da db.
(* k names the states of a bond by pairs of states; a negative number stands for "no such state" *)
Definition joins (k : state -> state -> state) : Prop :=
  (forall l l', fst (k l l') = qadd L (fst l) (fst l')) /\ (forall l l' m m', 0 <= snd (k l l') -> k l l' = k m m' -> l = m /\ l' = m').
Definition signed (neg : bool) (x : R) : R := if neg then ropp R x else x.
(* Jordan-Wigner sign: each odd part of the first factor passes the odd parts of the second factor on its left.
   p: parity to the left of the first site; per site: is the part of the first factor odd, is that of the second factor odd *)
Fixpoint crossings (p : bool) (ms : list (bool * bool)) : bool :=
  match ms with [] => false | (o, m) :: ms' => xorb (o && p) (crossings (xorb p m) ms') end.
(* sum over the states ms_i = (part of the operator, state of the contracted legs) of all sites *)
Definition apply_sum (a b : list site) (Ps : list (list (list state))) Ba Bb (us : list (list state)) (l l' r r' : state) : R :=
  bsum (choices (map (list_prod [true; false]) Ps)) (fun ms =>
    signed (crossings (qpar L (fst l')) (map (fun m => (fst m, parity (map fst (snd m)))) ms))
      (rmul R (amplitude Ba a (map (fun um => (fst (snd um), fst um ++ snd (snd um))) (combine us ms)) l r)
              (amplitude Bb b (map (fun m => (false, snd m)) ms) l' r'))).
(* the same for two operators; ps: (part of the product, upper states, lower states) *)
Definition compose_sum (a b : list site) (Cs : list (list (list state))) Ba Bb (ps : list (bool * list state * list state)) (l l' r r' : state) : R :=
  bsum (choices (map (list_prod [true; false]) Cs)) (fun ms =>
    signed (crossings (qpar L (fst l')) (map (fun pm => (fst (snd pm), xorb (fst (fst (fst pm))) (fst (snd pm)))) (combine ps ms)))
      (rmul R (amplitude Ba a (map (fun pm => (fst (snd pm), snd (fst (fst pm)) ++ snd (snd pm))) (combine ps ms)) l r)
              (amplitude Bb b (map (fun pm => (xorb (fst (fst (fst pm))) (fst (snd pm)), snd (snd pm) ++ snd (fst pm))) (combine ps ms)) l' r'))).
(* C_i lists the states of the contracted legs of site i of b *)
Inductive middle : list Z -> list site -> list (bool * list state * list state) -> list (list (list state)) -> Prop :=
  | mid_nil : middle [] [] [] []
  | mid_cons : forall k hs t ts odd u w ps C Cs, Z.of_nat (length u) = k -> Z.of_nat (length w) = k -> NoDup C -> (forall c, In c C -> Z.of_nat (length c) = k) ->
      (forall c o l r, Z.of_nat (length c) = k -> ~ In c C -> selem t (o, c ++ w) l r = r0 R) -> middle hs ts ps Cs -> middle (k :: hs) (t :: ts) ((odd, u, w) :: ps) (C :: Cs).
End Vocabulary.
Arguments parity {L}. Arguments operator_site {R L}. Arguments state_site {R L}. Arguments acts_on {L}. Arguments composes {L}. Arguments fits32 {L}. Arguments joins {L}. Arguments signed {R}.
Arguments apply_sum {R L}. Arguments compose_sum {R L}. Arguments middle {R L}.

Section Mul.
Variable R : CRing.
Add Ring Rr12 : (rth R).
Variable L : Label.
Notation state := (L * Z)%type.
Notation site := (site R L).
Notation dt := (bool * list state * list state * list (list state))%type.
Notation phy := (bool * list state)%type.
Notation kmap := (kmap L).
Notation okb := (okb L).

Lemma op_graded : forall s : site, operator_site s -> kind s = true /\ graded R L s /\ conserving R L s.
Proof. intros s [K H]. split; [exact K|]. split; [intros odd l m r Hi; rewrite K; apply (H odd l m r Hi)|intros odd l m r Hi _; apply (H odd l m r Hi)]. Qed.
Lemma st_graded : forall s : site, state_site s -> kind s = false /\ graded R L s /\ conserving R L s.
Proof.
  intros s [K H]. destruct s as [t|]; [|discriminate]. split; [exact K|]. split; [|intros odd l m r _ Kt; discriminate]. intros [] l m r Hi; [destruct Hi|]. apply (H l m r Hi).
Qed.
Lemma graded_op : forall s : site, kind s = true -> graded R L s -> conserving R L s -> operator_site s.
Proof. intros s K G C. split; [exact K|]. intros odd l m r Hi. split; [rewrite (G odd l m r Hi), K; reflexivity|apply (C odd l m r Hi K)]. Qed.
Lemma graded_st : forall s : site, kind s = false -> graded R L s -> state_site s.
Proof. intros s K G. split; [exact K|]. intros l m r Hi. rewrite (G false l m r Hi), K. reflexivity. Qed.

(* all sums at once *)
Lemma bsum_choices_map : forall A B (F : list A -> R) (fs : list (B -> A)) (Xs : list (list B)), length fs = length Xs ->
  bsum (choices (map (fun fX => map (fst fX) (snd fX)) (combine fs Xs))) F = bsum (choices Xs) (fun xs => F (map (fun fx => fst fx (snd fx)) (combine fs xs))).
Proof.
  intros A B F fs Xs. revert F fs. induction Xs as [|X Xs IH]; intros F fs Hl; destruct fs as [|f fs]; try discriminate; cbn [combine map choices].
  - rewrite !bsum_cons, !bsum_nil. reflexivity.
  - rewrite !bsum_flat_map. rewrite bsum_map. cbn [fst snd]. apply bsum_ext. intros x _. rewrite !bsum_map. apply (IH (fun ys => F (f x :: ys))). now injection Hl.
Qed.
Definition tfun (y : site) (d : dt) (m : bool * list state) : term phy phy :=
  let '(oc, u, w, _) := d in Term (fst m) (fst m, u ++ snd m) (partner R L y oc (fst m), snd m ++ w) (charge L (kind y) (partner R L y oc (fst m)) (map fst (snd m ++ w))).
Lemma all_terms_map : forall hs b ds, okds R L hs b ds -> all_terms R L b ds = map (fun fX => map (fst fX) (snd fX)) (combine (map (fun yd => tfun (fst yd) (snd yd)) (combine b ds)) (map (fun d : dt => list_prod [true; false] (snd d)) ds)) /\ length b = length ds.
Proof.
  induction 1 as [|du k dw hs y ys d ds H O [IH1 IH2]]; [split; reflexivity|]. cbn [all_terms combine map fst snd length]. split; [|congruence]. f_equal; [|exact IH1]. destruct d as [[[oc u] w] C]. reflexivity.
Qed.
Lemma prod_sum_eq : forall hs a b ds Ba Bb l l' r r', okds R L hs b ds ->
  prod_sum R L a b ds Ba Bb l l' r r' = bsum (choices (map (fun d : dt => list_prod [true; false] (snd d)) ds)) (fun ms =>
    let ts := map (fun fx => fst fx (snd fx)) (combine (map (fun yd => tfun (fst yd) (snd yd)) (combine b ds)) ms) in
    sgn R (jw (qpar L (fst l')) ts) (rmul R (amplitude Ba a (map t_a ts) l r) (amplitude Bb b (map t_b ts) l' r'))).
Proof.
  intros hs a b ds Ba Bb l l' r r' O. unfold prod_sum. destruct (all_terms_map hs b ds O) as [E El]. rewrite E. rewrite bsum_choices_map; [reflexivity|]. rewrite !map_length, combine_length, El. apply Nat.min_id.
Qed.
Lemma choices_len : forall A (Ps : list (list A)) ps, In ps (choices Ps) -> length ps = length Ps.
Proof.
  induction Ps as [|P Ps IH]; intros ps H; cbn [choices] in H; [destruct H as [<-|[]]; reflexivity|]. apply in_flat_map in H. destruct H as (p & _ & H). apply in_map_iff in H. destruct H as (ps' & <- & H). cbn [length]. f_equal. now apply IH.
Qed.

Lemma chain_left : forall (c : list site) ps Bs l r, (forall p m, selem (hd (SP []) c) p l m = r0 R) -> amplitude Bs c ps l r = r0 R.
Proof.
  intros [|t c] ps Bs l r H; [reflexivity|]. cbn [hd] in H. unfold amplitude. cbn [map]. destruct c as [|t' c]; cbn [map].
  - destruct ps as [|p [|q ps]]; [reflexivity|rewrite chain_one; apply H|apply chain_long].
  - destruct ps as [|p ps]; [reflexivity|]. destruct Bs as [|B Bs]; [reflexivity|]. rewrite chain_cons. apply bsum_zero. intros m _. rewrite H. ring.
Qed.
Lemma chain_right : forall (c : list site) ps Bs l r, (forall p m, selem (last c (SP [])) p m r = r0 R) -> amplitude Bs c ps l r = r0 R.
Proof.
  intros c ps Bs l r H. destruct c as [|t c]; [reflexivity|]. destruct (exists_last (l := t :: c) ltac:(discriminate)) as (c' & t' & E). rewrite E in *. rewrite last_last in H. unfold amplitude. rewrite map_app. cbn [map]. now apply chain_dead_end.
Qed.
Lemma joins_kmap : forall i0 i1, wf L i0 -> wf L i1 -> (forall q q', bget L i0 q * bget L i1 q' < 2 ^ 32) -> joins (kmap i0 i1).
Proof.
  intros i0 i1 W0 W1 S. split; [apply kmap_label; auto|]. intros l l' m m' H E.
  assert (O: forall l l', 0 <= snd (kmap i0 i1 l l') -> okb i0 i1 l l' = true). { intros x x' Hx. destruct (okb i0 i1 x x') eqn:Ex; [reflexivity|]. rewrite kmap_bad in Hx by exact Ex. lia. }
  apply (kmap_inj L i0 i1 W0 W1 S); auto. apply O. now rewrite <- E.
Qed.
Lemma full_small : forall i i' d d' ls ls', full L i d ls -> full L i' d' ls' -> small L d d' -> forall q q', bget L i q * bget L i' q' < 2 ^ 32.
Proof. intros i i' d d' ls ls' (G & _) (G' & _) S. exact (good_small L _ _ _ _ _ _ G G' S). Qed.
Lemma small_ends : forall da db, Forall2 (small L) da db -> da <> [] -> small L (hd (fun _ => 0) da) (hd (fun _ => 0) db) /\ small L (last da (fun _ => 0)) (last db (fun _ => 0)).
Proof.
  induction 1 as [|d d' da db H F IH]; intros Ne; [congruence|]. cbn [hd]. split; [exact H|]. destruct F as [|e e' da db H' F]; [exact H|]. apply IH. discriminate.
Qed.
Lemma wf_shp_ext : forall (ts : list site) ds s1 s2, Forall2 (fun x y : Z * (Z -> L -> Z) => fst x = fst y /\ forall i q, 0 < i < fst x - 1 -> snd x i q = snd y i q) s1 s2 -> wf_sites ds s1 ts -> wf_sites ds s2 ts.
Proof.
  induction ts as [|t ts IH]; intros ds s1 s2 F W.
  - destruct W as [-> Ld]. inversion F; subst. split; auto.
  - destruct s1 as [|[n dp] s1]; [destruct W|]. destruct ds as [|d ds]; [destruct W|]. destruct W as [[Hn Wt] W]. inversion F as [|? [n' dp'] ? s2' [En Ed] F']; subst. cbn [fst snd] in *. subst n'. split; [|now apply (IH ds s1)].
    split; [exact Hn|]. intros odd. destruct (Wt odd) as (W1 & W2 & W3). split; [|split; assumption]. refine (wf_tensor_ext R L n _ _ _ _ W1). intros i q Hi. unfold ldim. destruct (Z.eqb_spec i 0); [reflexivity|]. destruct (Z.eqb_spec i (n - 1)); [reflexivity|]. apply Ed. lia.
Qed.
Lemma wf_ds : forall (ts : list site) ds shp, wf_sites ds shp ts -> ds <> [].
Proof. intros [|t ts] ds shp W E; subst; [destruct W; discriminate|]. destruct shp as [|[? ?] ?]; destruct W. Qed.

(** mul_spec with the boundary maps packed *)
Lemma mul_packed : forall a b hs da db sa sb sc, a <> [] -> wf_sites da sa a -> wf_sites db sb b -> vmatch R L hs sa sb b -> Forall operator_site a -> Forall (fun y : site => graded R L y /\ conserving R L y) b -> fits32 da db ->
  Forall2 (fun x y : Z * (Z -> L -> Z) => fst x = fst y /\ forall i q, 0 < i < fst x - 1 -> snd x i q = snd y i q) (out_shp L hs (dpcs L hs sa sb)) sc ->
  exists res, mul_tensors R L a b = Some res /\
  match res with
  | None => forall ds Ba Bb l l' r r', okds R L hs b ds -> bonds Ba a -> bonds Bb b -> prod_sum R L a b ds Ba Bb l l' r r' = r0 R
  | Some c => exists dc kl kr, wf_sites dc sc c /\ Forall2 (fun x y => kind x = kind y) b c /\ Forall (graded R L) c /\ Forall (conserving R L) c /\ joins kl /\ joins kr /\
      (exists li0 li1 ri0 ri1, kl = kmap li0 li1 /\ kr = kmap ri0 ri1 /\ full L li0 (hd (fun _ => 0) da) (firsts (hd (SP []) a)) /\ full L li1 (hd (fun _ => 0) db) (firsts (hd (SP []) b)) /\ full L ri0 (last da (fun _ => 0)) (lasts (last a (SP []))) /\ full L ri1 (last db (fun _ => 0)) (lasts (last b (SP []))) /\
         hd (fun _ => 0) dc = dim L (bxor L li0 li1) /\ last dc (fun _ => 0) = dim L (bxor L ri0 ri1)) /\
      (forall Bc ps s r, (forall l l', 0 <= snd s -> kl l l' <> s) -> amplitude Bc c ps s r = r0 R) /\ (forall Bc ps l s, (forall r r', 0 <= snd s -> kr r r' <> s) -> amplitude Bc c ps l s = r0 R) /\
      forall ds Ba Bb Bc l l' r r', okds R L hs b ds -> bonds Ba a -> bonds Bb b -> bonds Bc c -> amplitude Bc c (map (out_phys L) ds) (kl l l') (kr r r') = prod_sum R L a b ds Ba Bb l l' r r'
  end.
Proof.
  intros a b hs da db sa sb sc Ne Wa Wb V Oa Ob F32 Sh.
  assert (Ga: Forall (fun s : site => kind s = true) a /\ Forall (graded R L) a /\ Forall (conserving R L) a) by (split; [|split]; (eapply Forall_impl; [|exact Oa]); intros s Hs; now apply op_graded).
  assert (Gb: Forall (graded R L) b /\ Forall (conserving R L) b) by (split; (eapply Forall_impl; [|exact Ob]); cbn beta; tauto).
  destruct Ga as (G1 & G2 & G3), Gb as (G4 & G5). destruct (mul_spec R L a b hs da db sa sb Ne Wa Wb V G1 G2 G4 G3 G5 F32) as (res & E & H). exists res. split; [exact E|]. destruct res as [c|]; [|exact H].
  destruct H as (dc & li0 & li1 & ri0 & ri1 & Wc & Kc & Gc & Cc & FL0 & FL1 & FR0 & FR1 & Hd & Hl & Y & Z0 & A). destruct (small_ends da db F32 (wf_ds _ _ _ Wa)) as [SL SR].
  pose proof (full_small _ _ _ _ _ _ FL0 FL1 SL) as SmL. pose proof (full_small _ _ _ _ _ _ FR0 FR1 SR) as SmR.
  exists dc, (kmap li0 li1), (kmap ri0 ri1). split; [exact (wf_shp_ext _ _ _ _ Sh Wc)|]. split; [exact Kc|]. split; [exact Gc|]. split; [exact Cc|]. split; [apply joins_kmap; [apply FL0|apply FL1|exact SmL]|]. split; [apply joins_kmap; [apply FR0|apply FR1|exact SmR]|]. split; [exists li0, li1, ri0, ri1; auto 10|]. split; [|split].
  - intros Bc ps s r H. apply chain_left. intros p m. apply Y. intros x x' O Ex. destruct (kmap_ok L li0 li1 (proj1 (proj1 FL0)) (proj1 (proj1 FL1)) SmL x x' O) as [_ P]. rewrite Ex in P. apply (H x x'); [lia|exact Ex].
  - intros Bc ps l s H. apply chain_right. intros p m. apply Z0. intros x x' O Ex. destruct (kmap_ok L ri0 ri1 (proj1 (proj1 FR0)) (proj1 (proj1 FR1)) SmR x x' O) as [_ P]. rewrite Ex in P. apply (H x x'); [lia|exact Ex].
  - exact A.
Qed.

(** *** operator times state *)
Definition ds_of (us : list (list state)) (Ps : list (list (list state))) : list dt := map (fun uP => (false, fst uP, [], snd uP)) (combine us Ps).
Lemma apply_okds : forall hs sa sb sc (b : list site), acts_on hs sa sb sc -> forall db us Ps, wf_sites db sb b -> Forall state_site b -> phys R L sb Ps b -> Forall2 (fun h (u : list state) => Z.of_nat (length u) = fst h) hs us ->
  okds R L (map (fun h => (fst h, snd h, 0)) hs) b (ds_of us Ps) /\ map (fun d : dt => list_prod [true; false] (snd d)) (ds_of us Ps) = map (list_prod [true; false]) Ps /\ map (out_phys L) (ds_of us Ps) = map (pair false) us /\ length Ps = length us.
Proof.
  intros hs sa sb sc b A. revert b. induction A as [|u k da db' dc' hs sa sb sc Hu Hk D Dc A IH]; intros b db us Ps Wb Sb Ph Fu.
  - inversion Fu; subst. destruct b as [|t b]; [|destruct Wb]. cbn in Ph. subst. repeat split; constructor.
  - destruct b as [|t b]; [destruct Wb; discriminate|]. destruct db as [|d db]; [destruct Wb|]. destruct Wb as [Wt Wb]. destruct Ps as [|P Ps]; [destruct Ph|]. destruct Ph as (NP & LP & CP & Ph). inversion Fu as [|? u0 ? us' Lu Fu']; subst. inversion Sb as [|? ? St Sb']; subst.
    destruct (IH b db us' Ps Wb Sb' Ph Fu') as (I1 & I2 & I3 & I4). unfold ds_of in *. cbn [combine map fst snd]. split; [|split; [now rewrite I2|split; [rewrite I3; cbn [out_phys]; now rewrite app_nil_r|cbn [length]; now rewrite I4]]].
    constructor; [|exact I1]. cbn [fst] in Lu. split; [reflexivity|]. split; [exact Lu|]. split; [reflexivity|]. split; [exact NP|]. split; [intros c Hc; apply LP in Hc; lia|].
    intros c o l r Lc Hc. rewrite app_nil_r. destruct St as [Kt _]. destruct t as [t|]; [|discriminate]. destruct o; [reflexivity|]. now apply CP.
Qed.
Lemma apply_sum_eq : forall hs sa sb sc (a b : list site) db us Ps Ba Bb l l' r r', acts_on hs sa sb sc -> wf_sites db sb b -> Forall state_site b -> phys R L sb Ps b -> Forall2 (fun h (u : list state) => Z.of_nat (length u) = fst h) hs us ->
  prod_sum R L a b (ds_of us Ps) Ba Bb l l' r r' = apply_sum a b Ps Ba Bb us l l' r r'.
Proof.
  intros hs sa sb sc a b db us Ps Ba Bb l l' r r' A Wb Sb Ph Fu. destruct (apply_okds hs sa sb sc b A db us Ps Wb Sb Ph Fu) as (O & E2 & _ & Ll). rewrite (prod_sum_eq _ a b _ Ba Bb l l' r r' O), E2. unfold apply_sum. apply bsum_ext. intros ms Hm. cbv zeta.
  destruct (all_terms_map _ _ _ O) as [_ Lb]. assert (Lm: length ms = length us) by (apply choices_len in Hm; rewrite map_length in Hm; congruence).
  unfold ds_of in *. rewrite map_length, combine_length, Ll, Nat.min_id in Lb.
  assert (G: forall (b' : list site) us' Ps' (ms' : list (bool * list state)) p, length b' = length us' -> length Ps' = length us' -> length ms' = length us' -> Forall state_site b' ->
    let ts := map (fun fx => fst fx (snd fx)) (combine (map (fun yd => tfun (fst yd) (snd yd)) (combine b' (map (fun uP => (false, fst uP, [], snd uP)) (combine us' Ps')))) ms') in
    jw p ts = crossings p (map (fun m => (fst m, parity (map fst (snd m)))) ms') /\ map t_a ts = map (fun um => (fst (snd um), fst um ++ snd (snd um))) (combine us' ms') /\ map t_b ts = map (fun m => (false, snd m)) ms').
  { clear. induction b' as [|y b' IH]; intros us' Ps' ms' p L1 L2 L3 Sb'; destruct us' as [|u us']; try discriminate; destruct Ps' as [|P Ps']; try discriminate; destruct ms' as [|[o c] ms']; try discriminate; cbv zeta; [auto|]. cbn [length] in *. inversion Sb' as [|? ? [Ky _] Sb'']; subst.
    destruct (IH us' Ps' ms' (xorb p (parity (map fst c)))) as (I1 & I2 & I3); auto. cbn [combine map fst snd tfun jw crossings t_o t_a t_b t_m]. rewrite app_nil_r. unfold partner. rewrite Ky. cbn [charge].
    split; [|split; [now rewrite I2|now rewrite I3]]. unfold MpoVert.charge. fold (@parity L (map fst c)). rewrite <- I1. reflexivity. }
  destruct (G b us Ps ms (qpar L (fst l')) Lb Ll Lm Sb) as (G1 & G2 & G3). rewrite G1, G2, G3. reflexivity.
Qed.
Lemma acts_vmatch : forall hs sa sb sc, acts_on hs sa sb sc -> forall (b : list site) db, wf_sites db sb b -> Forall state_site b -> vmatch R L (map (fun h => (fst h, snd h, 0)) hs) sa sb b /\
  Forall2 (fun x y : Z * (Z -> L -> Z) => fst x = fst y /\ forall i q, 0 < i < fst x - 1 -> snd x i q = snd y i q) (out_shp L (map (fun h => (fst h, snd h, 0)) hs) (dpcs L (map (fun h => (fst h, snd h, 0)) hs) sa sb)) sc.
Proof.
  induction 1 as [|u k da db' dc' hs sa sb sc Hu Hk D Dc A IH]; intros b db Wb Sb.
  - destruct b; [|destruct Wb]. split; constructor.
  - destruct b as [|t b]; [destruct Wb; discriminate|]. destruct db as [|d db]; [destruct Wb|]. destruct Wb as [Wt Wb]. inversion Sb as [|? ? [Kt _] Sb']; subst. destruct (IH b db Wb Sb') as [I1 I2]. cbn [map fst snd]. split.
    + replace (k + 2) with (k + 0 + 2) by lia. constructor; auto; [lia|]. now rewrite Kt.
    + unfold out_shp in *. cbn [map combine dpcs]. constructor; [|exact I2]. cbn [fst snd]. split; [lia|]. intros i q Hi. unfold dpc. destruct (Z.leb_spec i u); [symmetry; apply Dc; lia|lia].
Qed.
Lemma forall2_kind : forall (b c : list site), Forall2 (fun x y => kind x = kind y) b c -> forall o, Forall (fun s => kind s = o) b -> Forall (fun s => kind s = o) c.
Proof. induction 1; intros o F; constructor; inversion F; subst; auto. Qed.

Lemma apply_tensors : forall (a b : list site) da db sa sb sc hs, a <> [] -> wf_sites da sa a -> wf_sites db sb b -> acts_on hs sa sb sc -> Forall operator_site a -> Forall state_site b -> fits32 da db ->
  exists res, mul_tensors R L a b = Some res /\
  match res with
  | None => forall Ps us Ba Bb l l' r r', phys R L sb Ps b -> Forall2 (fun h (u : list state) => Z.of_nat (length u) = fst h) hs us -> bonds Ba a -> bonds Bb b -> apply_sum a b Ps Ba Bb us l l' r r' = r0 R
  | Some c => exists dc kl kr, wf_sites dc sc c /\ Forall state_site c /\ joins kl /\ joins kr /\
      (exists li0 li1 ri0 ri1, kl = kmap li0 li1 /\ kr = kmap ri0 ri1 /\ full L li0 (hd (fun _ => 0) da) (firsts (hd (SP []) a)) /\ full L li1 (hd (fun _ => 0) db) (firsts (hd (SP []) b)) /\ full L ri0 (last da (fun _ => 0)) (lasts (last a (SP []))) /\ full L ri1 (last db (fun _ => 0)) (lasts (last b (SP []))) /\
         hd (fun _ => 0) dc = dim L (bxor L li0 li1) /\ last dc (fun _ => 0) = dim L (bxor L ri0 ri1)) /\
      (forall Bc ps s r, (forall l l', 0 <= snd s -> kl l l' <> s) -> amplitude Bc c ps s r = r0 R) /\ (forall Bc ps l s, (forall r r', 0 <= snd s -> kr r r' <> s) -> amplitude Bc c ps l s = r0 R) /\
      forall Ps us Ba Bb Bc l l' r r', phys R L sb Ps b -> Forall2 (fun h (u : list state) => Z.of_nat (length u) = fst h) hs us -> bonds Ba a -> bonds Bb b -> bonds Bc c ->
      amplitude Bc c (map (pair false) us) (kl l l') (kr r r') = apply_sum a b Ps Ba Bb us l l' r r'
  end.
Proof.
  intros a b da db sa sb sc hs Ne Wa Wb A Oa Ob F32. destruct (acts_vmatch hs sa sb sc A b db Wb Ob) as [V Sh].
  assert (Gb: Forall (fun y : site => graded R L y /\ conserving R L y) b) by (eapply Forall_impl; [|exact Ob]; intros s Hs; now apply st_graded).
  destruct (mul_packed a b _ da db sa sb sc Ne Wa Wb V Oa Gb F32 Sh) as (res & E & H). exists res. split; [exact E|]. destruct res as [c|].
  - destruct H as (dc & kl & kr & Wc & Kc & Gc & Cc & Jl & Jr & Inf & Y & Z0 & Am). exists dc, kl, kr. split; [exact Wc|]. split.
    { assert (Kb: Forall (fun s : site => kind s = false) b) by (eapply Forall_impl; [|exact Ob]; intros s Hs; apply Hs). pose proof (forall2_kind b c Kc false Kb) as Kc'. apply Forall_forall. intros s Hs. rewrite Forall_forall in Kc', Gc. apply graded_st; auto. }
    split; [exact Jl|]. split; [exact Jr|]. split; [exact Inf|]. split; [exact Y|]. split; [exact Z0|].
    intros Ps us Ba Bb Bc l l' r r' Ph Fu Ca Cb Cc'. destruct (apply_okds hs sa sb sc b A db us Ps Wb Ob Ph Fu) as (O & _ & E3 & _). rewrite <- E3. rewrite (Am (ds_of us Ps) Ba Bb Bc l l' r r' O Ca Cb Cc'). now apply (apply_sum_eq hs sa sb sc a b db).
  - intros Ps us Ba Bb l l' r r' Ph Fu Ca Cb. rewrite <- (apply_sum_eq hs sa sb sc a b db us Ps Ba Bb l l' r r' A Wb Ob Ph Fu). apply H; auto. now apply (apply_okds hs sa sb sc b A db us Ps).
Qed.

(** *** operator times operator *)
Definition hs3 (hs : list Z) : list (Z * Z * Z) := map (fun k => (k, k, k)) hs.
Definition ds2 (ps : list (bool * list state * list state)) (Cs : list (list (list state))) : list dt := map (fun pC => (fst pC, snd pC)) (combine ps Cs).
Lemma mid_okds : forall hs (b : list site) ps Cs, middle hs b ps Cs -> Forall operator_site b -> okds R L (hs3 hs) b (ds2 ps Cs) /\ map (fun d : dt => list_prod [true; false] (snd d)) (ds2 ps Cs) = map (list_prod [true; false]) Cs /\
  map (out_phys L) (ds2 ps Cs) = map (fun p => (fst (fst p), snd (fst p) ++ snd p)) ps /\ length ps = length Cs /\ length b = length Cs.
Proof.
  induction 1 as [|k hs t ts odd u w ps C Cs Lu Lw NC LC Cov M IH]; intros Ob; [repeat split; constructor|]. inversion Ob as [|? ? [Kt _] Ob']; subst. destruct (IH Ob') as (I1 & I2 & I3 & I4 & I5). unfold ds2 in *. cbn [combine map fst snd hs3 length]. split; [|split; [now rewrite I2|split; [rewrite I3; reflexivity|split; congruence]]].
  constructor; [|exact I1]. split; [intros X; congruence|]. auto 10.
Qed.
Lemma compose_sum_eq : forall hs (a b : list site) ps Cs Ba Bb l l' r r', middle hs b ps Cs -> Forall operator_site b -> prod_sum R L a b (ds2 ps Cs) Ba Bb l l' r r' = compose_sum a b Cs Ba Bb ps l l' r r'.
Proof.
  intros hs a b ps Cs Ba Bb l l' r r' M Ob. destruct (mid_okds hs b ps Cs M Ob) as (O & E2 & _ & L1 & L2). rewrite (prod_sum_eq _ a b _ Ba Bb l l' r r' O), E2. unfold compose_sum. apply bsum_ext. intros ms Hm. cbv zeta.
  assert (Lm: length ms = length ps) by (apply choices_len in Hm; rewrite map_length in Hm; congruence).
  assert (G: forall (b' : list site) ps' Cs' (ms' : list (bool * list state)) p, length b' = length ps' -> length Cs' = length ps' -> length ms' = length ps' -> Forall operator_site b' ->
    let ts := map (fun fx => fst fx (snd fx)) (combine (map (fun yd => tfun (fst yd) (snd yd)) (combine b' (ds2 ps' Cs'))) ms') in
    jw p ts = crossings p (map (fun pm => (fst (snd pm), xorb (fst (fst (fst pm))) (fst (snd pm)))) (combine ps' ms')) /\ map t_a ts = map (fun pm => (fst (snd pm), snd (fst (fst pm)) ++ snd (snd pm))) (combine ps' ms') /\
    map t_b ts = map (fun pm => (xorb (fst (fst (fst pm))) (fst (snd pm)), snd (snd pm) ++ snd (fst pm))) (combine ps' ms')).
  { clear. unfold ds2. induction b' as [|y b' IH]; intros ps' Cs' ms' p L1 L2 L3 Ob'; destruct ps' as [|[[oc u] w] ps']; try discriminate; destruct Cs' as [|C Cs']; try discriminate; destruct ms' as [|[o c] ms']; try discriminate; cbv zeta; [auto|]. cbn [length] in *. inversion Ob' as [|? ? [Ky _] Ob'']; subst.
    destruct (IH ps' Cs' ms' (xorb p (xorb oc o))) as (I1 & I2 & I3); auto. cbn [combine map fst snd tfun jw crossings t_o t_a t_b t_m]. unfold partner. rewrite Ky. unfold MpoVert.charge.
    split; [|split; [now rewrite I2|now rewrite I3]]. rewrite <- I1. reflexivity. }
  destruct (G b ps Cs ms (qpar L (fst l'))) as (G1 & G2 & G3); try congruence. rewrite G1, G2, G3. reflexivity.
Qed.
Lemma comp_vmatch : forall hs sa sb sc, composes hs sa sb sc -> forall (b : list site) db, wf_sites db sb b -> Forall operator_site b -> vmatch R L (hs3 hs) sa sb b /\
  Forall2 (fun x y : Z * (Z -> L -> Z) => fst x = fst y /\ forall i q, 0 < i < fst x - 1 -> snd x i q = snd y i q) (out_shp L (hs3 hs) (dpcs L (hs3 hs) sa sb)) sc.
Proof.
  unfold hs3. induction 1 as [|k da db' dc' hs sa sb sc Hk D Dc A IH]; intros b db Wb Ob.
  - destruct b; [|destruct Wb]. split; constructor.
  - destruct b as [|t b]; [destruct Wb; discriminate|]. destruct db as [|d db]; [destruct Wb|]. destruct Wb as [Wt Wb]. inversion Ob as [|? ? [Kt _] Ob']; subst. destruct (IH b db Wb Ob') as [I1 I2]. cbn [map fst snd]. split.
    + replace (2 * k + 2) with (k + k + 2) by lia. constructor; auto; [lia|]. rewrite Kt. auto.
    + unfold out_shp in *. cbn [map combine dpcs]. constructor; [|exact I2]. cbn [fst snd]. split; [lia|]. intros i q Hi. unfold dpc. destruct (Z.leb_spec i k); [symmetry; apply Dc; lia|]. replace i with (k + (i - k)) at 2 by lia. destruct (Dc (i - k) q ltac:(lia)) as [_ ->]. f_equal. lia.
Qed.
Lemma compose_tensors : forall (a b : list site) da db sa sb sc hs, a <> [] -> wf_sites da sa a -> wf_sites db sb b -> composes hs sa sb sc -> Forall operator_site a -> Forall operator_site b -> fits32 da db ->
  exists res, mul_tensors R L a b = Some res /\
  match res with
  | None => forall ps Cs Ba Bb l l' r r', middle hs b ps Cs -> bonds Ba a -> bonds Bb b -> compose_sum a b Cs Ba Bb ps l l' r r' = r0 R
  | Some c => exists dc kl kr, wf_sites dc sc c /\ Forall operator_site c /\ joins kl /\ joins kr /\
      (exists li0 li1 ri0 ri1, kl = kmap li0 li1 /\ kr = kmap ri0 ri1 /\ full L li0 (hd (fun _ => 0) da) (firsts (hd (SP []) a)) /\ full L li1 (hd (fun _ => 0) db) (firsts (hd (SP []) b)) /\ full L ri0 (last da (fun _ => 0)) (lasts (last a (SP []))) /\ full L ri1 (last db (fun _ => 0)) (lasts (last b (SP []))) /\
         hd (fun _ => 0) dc = dim L (bxor L li0 li1) /\ last dc (fun _ => 0) = dim L (bxor L ri0 ri1)) /\
      (forall Bc ps s r, (forall l l', 0 <= snd s -> kl l l' <> s) -> amplitude Bc c ps s r = r0 R) /\ (forall Bc ps l s, (forall r r', 0 <= snd s -> kr r r' <> s) -> amplitude Bc c ps l s = r0 R) /\
      forall ps Cs Ba Bb Bc l l' r r', middle hs b ps Cs -> bonds Ba a -> bonds Bb b -> bonds Bc c ->
      amplitude Bc c (map (fun p => (fst (fst p), snd (fst p) ++ snd p)) ps) (kl l l') (kr r r') = compose_sum a b Cs Ba Bb ps l l' r r'
  end.
Proof.
  intros a b da db sa sb sc hs Ne Wa Wb A Oa Ob F32. destruct (comp_vmatch hs sa sb sc A b db Wb Ob) as [V Sh].
  assert (Gb: Forall (fun y : site => graded R L y /\ conserving R L y) b) by (eapply Forall_impl; [|exact Ob]; intros s Hs; now apply op_graded).
  destruct (mul_packed a b _ da db sa sb sc Ne Wa Wb V Oa Gb F32 Sh) as (res & E & H). exists res. split; [exact E|]. destruct res as [c|].
  - destruct H as (dc & kl & kr & Wc & Kc & Gc & Cc & Jl & Jr & Inf & Y & Z0 & Am). exists dc, kl, kr. split; [exact Wc|]. split.
    { assert (Kb: Forall (fun s : site => kind s = true) b) by (eapply Forall_impl; [|exact Ob]; intros s Hs; apply Hs). pose proof (forall2_kind b c Kc true Kb) as Kc'. apply Forall_forall. intros s Hs. rewrite Forall_forall in Kc', Gc, Cc. apply graded_op; auto. }
    split; [exact Jl|]. split; [exact Jr|]. split; [exact Inf|]. split; [exact Y|]. split; [exact Z0|].
    intros ps Cs Ba Bb Bc l l' r r' M Ca Cb Cc'. destruct (mid_okds hs b ps Cs M Ob) as (O & _ & E3 & _). rewrite <- E3. rewrite (Am (ds2 ps Cs) Ba Bb Bc l l' r r' O Ca Cb Cc'). now apply (compose_sum_eq hs).
  - intros ps Cs Ba Bb l l' r r' M Ca Cb. rewrite <- (compose_sum_eq hs a b ps Cs Ba Bb l l' r r' M Ob). apply H; auto. now apply mid_okds.
Qed.

(** *** operators whose end bonds carry the vacuum only *)
Definition vacuum_ends (a : list site) (da : list (L -> Z)) : Prop :=
  Forall (fun q => q = q0 L) (firsts (first_site a)) /\ Forall (fun q => q = q0 L) (lasts (last_site a)) /\ hd zf da (q0 L) = 1 /\ last da zf (q0 L) = 1.
Lemma full_vacuum : forall i d ls, full L i d ls -> Forall (fun q => q = q0 L) ls -> d (q0 L) = 1 -> forall q, bget L i q = if qeqb L q (q0 L) then 1 else 0.
Proof.
  intros i d ls ((W & G & _) & I & (q1 & H1 & E1)) F D q. rewrite Forall_forall in F. assert (q1 = q0 L) by auto. subst q1. destruct (qeqb_spec L q (q0 L)) as [->|N]; [congruence|]. destruct (Z.eq_dec (bget L i q) 0) as [E|E]; [exact E|]. destruct N. apply F. now apply I.
Qed.
Lemma vac_dim : forall i0 i1 q, wf L i0 -> wf L i1 -> (forall q q', bget L i0 q * bget L i1 q' < 2 ^ 32) -> (forall q, bget L i0 q = if qeqb L q (q0 L) then 1 else 0) -> forall x, 0 <= x < dim L (bxor L i0 i1) q <-> 0 <= x < bget L i1 q.
Proof.
  intros i0 i1 q W0 W1 S V x. split; intros H.
  - destruct (kmap_surj L i0 i1 W0 W1 S q x H) as (l & l' & O & E). apply okb_spec in O. destruct O as [O1 O2]. rewrite V in O1. destruct l as [ql xl]. cbn [fst snd] in O1. destruct (qeqb_spec L ql (q0 L)) as [->|]; [|lia]. assert (xl = 0) by lia. subst xl. rewrite (kmap_vacuum L i0 i1 W0 W1 S l' V O2) in E. subst l'. exact O2.
  - pose proof (kmap_vacuum L i0 i1 W0 W1 S (q, x) V H) as E. destruct (kmap_ok L i0 i1 W0 W1 S (q0 L, 0) (q, x)) as [_ K].
    + apply okb_spec. cbn [fst snd]. rewrite V. destruct (qeqb_spec L (q0 L) (q0 L)); [lia|congruence].
    + rewrite E in K. exact K.
Qed.
(* the name of a pair (vacuum, s) is s; states that are not there are not the name of anything *)
Lemma vac_cases : forall i0 i1 s, wf L i0 -> wf L i1 -> (forall q q', bget L i0 q * bget L i1 q' < 2 ^ 32) -> (forall q, bget L i0 q = if qeqb L q (q0 L) then 1 else 0) ->
  kmap i0 i1 (q0 L, 0) s = s \/ (snd (kmap i0 i1 (q0 L, 0) s) = -1 /\ forall l l', 0 <= snd s -> kmap i0 i1 l l' <> s).
Proof.
  intros i0 i1 s W0 W1 S V. destruct (okb i0 i1 (q0 L, 0) s) eqn:O.
  - left. apply okb_spec in O. apply kmap_vacuum; tauto.
  - right. split; [now apply kmap_bad|]. intros l l' Hs E. assert (O': okb i0 i1 l l' = true). { destruct (okb i0 i1 l l') eqn:O'; [reflexivity|]. pose proof (kmap_bad L i0 i1 l l' O') as B. rewrite E in B. lia. }
    apply okb_spec in O'. destruct O' as [O1 O2]. rewrite V in O1. destruct l as [ql xl]. cbn [fst snd] in O1. destruct (qeqb_spec L ql (q0 L)) as [->|]; [|lia]. assert (xl = 0) by lia. subst xl. rewrite (kmap_vacuum L i0 i1 W0 W1 S l' V O2) in E. subst l'.
    assert (X: okb i0 i1 (q0 L, 0) s = true); [|congruence]. apply okb_spec. cbn [fst snd]. rewrite V. destruct (qeqb_spec L (q0 L) (q0 L)); [|congruence]. split; [lia|exact O2].
Qed.
Lemma vacuum_amplitude : forall (a b c : list site) da db dc kl kr (X : state -> state -> R) Bc ps,
  (exists li0 li1 ri0 ri1, kl = kmap li0 li1 /\ kr = kmap ri0 ri1 /\ full L li0 (hd (fun _ => 0) da) (firsts (hd (SP []) a)) /\ full L li1 (hd (fun _ => 0) db) (firsts (hd (SP []) b)) /\ full L ri0 (last da (fun _ => 0)) (lasts (last a (SP []))) /\ full L ri1 (last db (fun _ => 0)) (lasts (last b (SP []))) /\
         hd (fun _ => 0) dc = dim L (bxor L li0 li1) /\ last dc (fun _ => 0) = dim L (bxor L ri0 ri1)) ->
  (forall Bc ps s r, (forall l l', 0 <= snd s -> kl l l' <> s) -> amplitude Bc c ps s r = r0 R) -> (forall Bc ps l s, (forall r r', 0 <= snd s -> kr r r' <> s) -> amplitude Bc c ps l s = r0 R) ->
  vacuum_ends a da -> fits32 da db -> da <> [] ->
  (forall s s', amplitude Bc c ps (kl (q0 L, 0) s) (kr (q0 L, 0) s') = X s s') -> forall s s', amplitude Bc c ps s s' = X s s'.
Proof.
  intros a b c da db dc kl kr X Bc ps (li0 & li1 & ri0 & ri1 & -> & -> & FL0 & FL1 & FR0 & FR1 & _) Y Z0 (V1 & V2 & V3 & V4) F32 Ne A s s'. destruct (small_ends da db F32 Ne) as [SL SR].
  pose proof (full_vacuum _ _ _ FL0 V1 V3) as VL. pose proof (full_vacuum _ _ _ FR0 V2 V4) as VR.
  destruct (vac_cases li0 li1 s (proj1 (proj1 FL0)) (proj1 (proj1 FL1)) (full_small _ _ _ _ _ _ FL0 FL1 SL) VL) as [El|[El Nl]].
  - destruct (vac_cases ri0 ri1 s' (proj1 (proj1 FR0)) (proj1 (proj1 FR1)) (full_small _ _ _ _ _ _ FR0 FR1 SR) VR) as [Er|[Er Nr]].
    + rewrite <- A. now rewrite El, Er.
    + rewrite (Z0 _ _ _ _ Nr). rewrite <- A. symmetry. apply Z0. intros. rewrite Er in *. lia.
  - rewrite (Y _ _ _ _ Nl). rewrite <- A. symmetry. apply Y. intros. rewrite El in *. lia.
Qed.
Lemma wf_sites_lst : forall (ts : list site) ds shp d', ts <> [] -> wf_sites ds shp ts -> (forall q, In q (lasts (last ts (SP []))) -> last ds (fun _ => 0) q = d' q) ->
  exists ds', wf_sites ds' shp ts /\ hd (fun _ => 0) ds' = hd (fun _ => 0) ds /\ last ds' (fun _ => 0) = d' /\ length ds' = length ds.
Proof.
  induction ts as [|t ts IH]; intros ds shp d' Ne W H; [congruence|]. destruct shp as [|[n dp] shp]; [destruct W|]. destruct ds as [|d0 ds]; [destruct W|]. destruct W as [Wt W]. destruct ts as [|t' ts].
  - destruct W as [-> Ld]. destruct ds as [|d1 [|]]; try discriminate. cbn [last hd] in *. exists [d0; d']. split; [|auto]. split; [|split; reflexivity]. cbn [hd]. eapply wf_site_ext; [exact Wt|reflexivity|exact H].
  - assert (Nd: ds <> []) by exact (wf_ds _ _ _ W). destruct ds as [|d1 ds]; [congruence|]. destruct (IH (d1 :: ds) shp d' ltac:(discriminate) W) as (ds' & W' & Hh & Hl & Ll); [exact H|]. assert (Nd': ds' <> []) by exact (wf_ds _ _ _ W'). destruct ds' as [|d1' ds']; [congruence|].
    exists (d0 :: d1' :: ds'). split; [|split; [reflexivity|split; [exact Hl|cbn [length] in *; congruence]]]. split; [|exact W']. cbn [hd] in Hh |- *. subst d1'. exact Wt.
Qed.
Lemma wf_sites_ends : forall (ts : list site) ds shp d0 d1, ts <> [] -> wf_sites ds shp ts -> (forall q, In q (firsts (hd (SP []) ts)) -> hd (fun _ => 0) ds q = d0 q) -> (forall q, In q (lasts (last ts (SP []))) -> last ds (fun _ => 0) q = d1 q) ->
  exists ds', wf_sites ds' shp ts /\ hd (fun _ => 0) ds' = d0 /\ last ds' (fun _ => 0) = d1.
Proof.
  intros ts ds shp d0 d1 Ne W H0 H1. destruct (wf_sites_lst ts ds shp d1 Ne W H1) as (ds' & W' & Hh & Hl & Ll).
  exists (d0 :: tl ds'). split; [apply wf_sites_hd; auto; rewrite Hh; exact H0|]. split; [reflexivity|]. destruct ds' as [|e [|e' ds']]; [exfalso; exact (wf_ds _ _ _ W' eq_refl)| |exact Hl].
  destruct ts as [|t ts]; [congruence|]. destruct shp as [|[? ?] shp]; [destruct W'|]. destruct W' as [_ W']. exfalso. exact (wf_ds _ _ _ W' eq_refl).
Qed.
End Mul.
