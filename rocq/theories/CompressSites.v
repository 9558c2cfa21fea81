(** Lemmas for C59: one site factorised by SVD and truncated. *)
From Coq Require Import ZArith Bool List Lia Permutation Sorted Ring.
From Verif Require Import SymModel SymProofs DictLib IndexLib OptLib RingLib OrdLib BondModel BondProofs FuseModel FuseProofs BlockModel BlockProofs StructModel StructProofs MpsModel MpsChain MpsProofs MpsDot TruncModel TruncProofs CanonModel CanonProofs CanonSites CanonChain CompressModel CompressSvd CompressCut.
Import ListNotations.
Open Scope Z_scope.

Lemma mapM_map : forall A B (f : A -> option B) (d : B) l r, mapM f l = Some r -> r = map (fun x => odflt d (f x)) l /\ forall x, In x l -> f x = Some (odflt d (f x)).
Proof.
  intros A B f d. induction l as [|x l IH]; intros r H; cbn [mapM] in H; [injection H as <-; split; [reflexivity|intros x []]|].
  destruct (f x) as [y|] eqn:E; cbn [bind] in H; [|discriminate]. destruct (mapM f l) as [r'|]; cbn [bind] in H; [|discriminate]. injection H as <-. destruct (IH r' eq_refl) as [-> IH2]. split; [cbn [map]; now rewrite E|]. intros z [<-|Hz]; [now rewrite E|now apply IH2].
Qed.

Section Sites.
Variable R : CRing.
Add Ring Rr34 : (rth R).
Variable L : Label.
Variable K : ORing.
Variable sqrtK : K -> K.
Variable emb : K -> R.
Variable cj : R -> R.
Variable big : list L * nd R -> bool.
Notation block := (list L * nd R)%type.
Notation tensor := (list (list L * nd R)).
Notation tblock := (bool * (list L * nd R))%type.
Notation site := (site R L).
Notation state := (L * Z)%type.
Notation pstate := (bool * list state)%type.
Notation telem := (telem R L).
Notation positive := (positive R L).
Notation "0'" := (r0 R). Notation "1'" := (r1 R).
Infix "+'" := (radd R) (at level 50, left associativity).
Infix "-'" := (rsub R) (at level 50, left associativity).
Infix "*'" := (rmul R) (at level 40, left associativity).
Notation at_ := (at_ K). Notation blk := (blk K).
Notation lastq := (fun qs : list L => last qs (q0 L)).
Notation headq := (fun qs : list L => hd (q0 L) qs).
Hypothesis Hbig : forall b, big b = false -> forall xs, nget (snd b) xs = 0'.

(** *** truncate_svd *)
Definition pickk (fm : bool) := if fm then pick_blocks_fermion R L (qeqb L) else pick_blocks R L (qeqb L).
Definition trunc_site (labo : list L -> option L) (cut : list Z -> block -> block) (slabs : list L) (gs : list (Z * list Z)) (f : site) : site :=
  match f with SP t => SP (filter big (pickk false labo cut slabs gs t)) | FT od ev => FT (filter big (pickk true labo cut slabs gs od)) (filter big (pickk true labo cut slabs gs ev)) end.
Definition sel_ok (o : copts K) (s : list (list K)) (gs : list (Z * list Z)) : Prop :=
  StronglySorted Z.lt (map fst gs) /\ (forall i g, In (i, g) gs -> g <> [] /\ NoDup g /\ 0 <= i < Z.of_nat (length s) /\ forall j, In j g -> 0 <= j < Z.of_nat (length (blk s i))) /\
  (0 <= o_max K o -> zsum (map (fun g => Z.of_nat (length (snd g))) gs) <= o_max K o).
Lemma prefix_sel : forall o s k, (0 <= o_max K o -> Z.of_nat (length (firstn k (sort_desc K (entries K s)))) <= o_max K o) -> sel_ok o s (group_pos K (sort_pos K (firstn k (sort_desc K (entries K s))))).
Proof.
  intros o s k Hm. destruct (gs_sorted K s k) as [S1 S2]. split; [exact S1|split].
  - intros i g H. destruct (S2 i g H) as [H1 H2]. destruct (gs_range K s k i g H) as [H3 H4]. split; [exact H1|split; [now apply SS_lt_nodup|split; assumption] ].
  - intros Ho. rewrite gs_total. now apply Hm.
Qed.
Lemma trunc_right_spec : forall o l slabs s r, exists gs, sel_ok o s gs /\ trunc_right R L K sqrtK big o l slabs s r = (filter big (pickk (kind r) (last_opt L) (last_at R L) slabs gs l), pick_values K L slabs s gs, trunc_site (first_opt L) (first_at R L) slabs gs r, lost K (square K) s gs).
Proof.
  intros o l slabs s [t|od ev]; cbn [trunc_right kind pickk trunc_site].
  - unfold truncate_tensors, truncate_svd, select. destruct (cut_dw_prefix K (@rev (sv K)) (weight K false) (o_dw K o) (sort_desc K (entries K s))) as (k1 & ->).
    destruct (cut_value_prefix K (o_cutoff K o) (sqrtK (o_cutoff K o)) (firstn k1 (sort_desc K (entries K s)))) as (k2 & E2); [apply SS_firstn, sort_desc_sorted|]. rewrite E2, firstn_firstn.
    set (k3 := Nat.min k2 k1). destruct (cut_count_prefix K (o_max K o) (firstn k3 (sort_desc K (entries K s)))) as (k4 & E4).
    pose proof (cut_count_le K (o_max K o) (firstn k3 (sort_desc K (entries K s)))) as Hle. rewrite E4 in Hle |- *. rewrite firstn_firstn in Hle |- *. eexists. split; [apply prefix_sel; exact Hle|]. rewrite gs_error. reflexivity.
  - unfold truncate_svd_fermion, select_fermion. destruct (cut_dw_prefix K (fun l => l) (square K) (o_dw K o) (sort_desc K (entries K s))) as (k1 & ->).
    destruct (cut_value_prefix K (o_cutoff K o) (o_cutoff K o) (firstn k1 (sort_desc K (entries K s)))) as (k2 & E2); [apply SS_firstn, sort_desc_sorted|]. rewrite E2, firstn_firstn.
    set (k3 := Nat.min k2 k1). destruct (cut_count_prefix K (o_max K o) (firstn k3 (sort_desc K (entries K s)))) as (k4 & E4).
    pose proof (cut_count_le K (o_max K o) (firstn k3 (sort_desc K (entries K s)))) as Hle. rewrite E4 in Hle |- *. rewrite firstn_firstn in Hle |- *. eexists. split; [apply prefix_sel; exact Hle|]. rewrite gs_error. reflexivity.
Qed.
Lemma trunc_left_spec : forall o l slabs s r, exists gs, sel_ok o s gs /\ trunc_left R L K sqrtK big o l slabs s r = (trunc_site (last_opt L) (last_at R L) slabs gs l, pick_values K L slabs s gs, filter big (pickk (kind l) (first_opt L) (first_at R L) slabs gs r), lost K (square K) s gs).
Proof.
  intros o [t|od ev] slabs s r; cbn [trunc_left kind pickk trunc_site].
  - unfold truncate_tensors, truncate_svd, select. destruct (cut_dw_prefix K (@rev (sv K)) (weight K false) (o_dw K o) (sort_desc K (entries K s))) as (k1 & ->).
    destruct (cut_value_prefix K (o_cutoff K o) (sqrtK (o_cutoff K o)) (firstn k1 (sort_desc K (entries K s)))) as (k2 & E2); [apply SS_firstn, sort_desc_sorted|]. rewrite E2, firstn_firstn.
    set (k3 := Nat.min k2 k1). destruct (cut_count_prefix K (o_max K o) (firstn k3 (sort_desc K (entries K s)))) as (k4 & E4).
    pose proof (cut_count_le K (o_max K o) (firstn k3 (sort_desc K (entries K s)))) as Hle. rewrite E4 in Hle |- *. rewrite firstn_firstn in Hle |- *. eexists. split; [apply prefix_sel; exact Hle|]. rewrite gs_error. reflexivity.
  - unfold truncate_svd_fermion, select_fermion. destruct (cut_dw_prefix K (fun l => l) (square K) (o_dw K o) (sort_desc K (entries K s))) as (k1 & ->).
    destruct (cut_value_prefix K (o_cutoff K o) (o_cutoff K o) (firstn k1 (sort_desc K (entries K s)))) as (k2 & E2); [apply SS_firstn, sort_desc_sorted|]. rewrite E2, firstn_firstn.
    set (k3 := Nat.min k2 k1). destruct (cut_count_prefix K (o_max K o) (firstn k3 (sort_desc K (entries K s)))) as (k4 & E4).
    pose proof (cut_count_le K (o_max K o) (firstn k3 (sort_desc K (entries K s)))) as Hle. rewrite E4 in Hle |- *. rewrite firstn_firstn in Hle |- *. eexists. split; [apply prefix_sel; exact Hle|]. rewrite gs_error. reflexivity.
Qed.

(** *** the blocks kept *)
Section Kept.
Variable G : list (L * list tblock).
Variable sv : L * list tblock -> list K.
Variable gs : list (Z * list Z).
Notation slabs := (map fst G).
Notation s := (map sv G).
Notation sel := (sel L slabs gs).
Hypothesis SN : NoDup slabs.
Hypothesis gsS : StronglySorted Z.lt (map fst gs).
Hypothesis gsR : forall i g, In (i, g) gs -> g <> [] /\ NoDup g /\ 0 <= i < Z.of_nat (length s) /\ forall j, In j g -> 0 <= j < Z.of_nat (length (blk s i)).
Let gsR' : forall i, In i (map fst gs) -> 0 <= i < Z.of_nat (length slabs).
Proof. intros i H. apply in_map_iff in H. destruct H as ((j & g) & <- & H). cbn [fst]. rewrite map_length. destruct (gsR j g H) as (_ & _ & H' & _). now rewrite map_length in H'. Qed.
Let gsN : forall i g, In (i, g) gs -> g <> [].
Proof. intros i g H. now apply (gsR i). Qed.

Lemma kept_at : forall i gl, In (i, gl) gs -> exists g, nth_error G (Z.to_nat i) = Some g /\ In g G /\ nth_error slabs (Z.to_nat i) = Some (fst g) /\ sel (fst g) = gl /\ blk s i = sv g.
Proof.
  intros i gl H. assert (Hi: 0 <= i < Z.of_nat (length slabs)) by (apply gsR'; apply in_map_iff; exists (i, gl); auto). rewrite map_length in Hi. destruct (nth_error G (Z.to_nat i)) as [g|] eqn:E; [|apply nth_error_None in E; lia].
  exists g. assert (E1: nth_error slabs (Z.to_nat i) = Some (fst g)) by (now apply (map_nth_error fst)). split; [reflexivity|split; [now apply nth_error_In in E|split; [exact E1|split; [now apply (sel_in L slabs gs SN gsS gsR' gsN i)|] ] ] ].
  unfold TruncModel.blk. apply nth_error_nth. now apply (map_nth_error sv).
Qed.
Lemma sel_nodup : forall q, NoDup (sel q).
Proof. intros q. destruct (sel q) as [|x l] eqn:E; [constructor|]. destruct (sel_some L slabs gs q) as (i & H & _); [congruence|]. rewrite <- E. now apply (gsR i). Qed.
Lemma sel_group : forall g z, In g G -> In z (sel (fst g)) -> 0 <= z < Z.of_nat (length (sv g)).
Proof.
  intros g z Hg H. destruct (sel_some L slabs gs (fst g)) as (i & H1 & H2); [intros E; rewrite E in H; destruct H|]. destruct (kept_at i _ H1) as (g' & E' & Hg' & E'' & Es & Eb). destruct (gsR i _ H1) as (_ & _ & _ & H4). specialize (H4 z H). rewrite Eb in H4. replace g with g'; [exact H4|].
  rewrite E'' in H2. injection H2 as H2. clear -SN H2 Hg Hg'. induction G as [|a G' IH]; [destruct Hg|]. cbn [map] in SN. inversion SN as [|? ? N1 N2]; subst. destruct Hg as [->|Hg], Hg' as [->|Hg']; [reflexivity| | |now apply IH]; destruct N1; apply in_map_iff; [exists g'|exists g]; auto.
Qed.
Lemma sel_lab : forall q, sel q <> [] -> In q slabs.
Proof. intros q H. destruct (sel_some L slabs gs q H) as (i & _ & E). now apply nth_error_In in E. Qed.
Lemma in_concat_nth : forall A (b : A) BB, In b (concat BB) -> exists m, (m < length BB)%nat /\ In b (nth m BB []).
Proof. intros A b BB H. apply in_concat in H. destruct H as (l & H & Hb). apply (In_nth _ _ []) in H. destruct H as (m & Hm & <-). eauto. Qed.
Lemma pickk_cut : forall fm labo lab cut (bl : L * list tblock -> list block), (forall gl b, fst (cut gl b) = fst b) -> (fm = false -> forall g, In g G -> bl g <> []) ->
  (forall g b, In g G -> In b (bl g) -> lab (fst b) = fst g /\ labo (fst b) = Some (fst g)) -> NoDup (map fst (flat_map bl G)) ->
  cut_of R L slabs gs cut lab (flat_map bl G) (filter big (pickk fm labo cut slabs gs (flat_map bl G))).
Proof.
  intros fm labo lab cut bl Hk Hne Hl N. apply cut_of_big; [exact Hbig|].
  assert (E: flat_map bl G = concat (map bl G)) by apply flat_map_concat_map. rewrite E in *.
  assert (Hnth: forall i q, nth_error slabs i = Some q -> exists g, In g G /\ fst g = q /\ nth i (map bl G) [] = bl g).
  { intros i q Hq. rewrite nth_error_map in Hq. destruct (nth_error G i) as [g|] eqn:Eg; [|discriminate]. injection Hq as Hq. exists g. split; [now apply nth_error_In in Eg|split; [exact Hq|] ]. apply nth_error_nth. now apply map_nth_error. }
  assert (Hlen: length (map bl G) = length slabs) by now rewrite !map_length.
  assert (H1: forall i q b, nth_error slabs i = Some q -> In b (nth i (map bl G) []) -> labo (fst b) = Some q) by (intros i q b Hq Hb; destruct (Hnth i q Hq) as (g & Hg & <- & En); rewrite En in Hb; now apply Hl).
  assert (H2: forall i q b, nth_error slabs i = Some q -> In b (nth i (map bl G) []) -> lab (fst b) = q) by (intros i q b Hq Hb; destruct (Hnth i q Hq) as (g & Hg & <- & En); rewrite En in Hb; now apply Hl).
  replace (pickk fm labo cut slabs gs (concat (map bl G))) with (flat_map (fun g => map (cut (snd g)) (nth (Z.to_nat (fst g)) (map bl G) [])) gs); [now apply cut_of_flat|]. symmetry. destruct fm; cbn [pickk].
  - apply pick_fermion_spec; assumption.
  - change (concat (map bl G)) with (concat (skipn 0 (map bl G))). apply pick_blocks_spec; try assumption.
    + apply qeqb_spec.
    + intros i Hi. destruct (nth_error slabs i) as [q|] eqn:Eq; [|apply nth_error_None in Eq; lia]. destruct (Hnth i q Eq) as (g & Hg & _ & ->). now apply Hne.
Qed.
Definition sval (q : L) : list K := match find (fun g => qeqb L (fst g) q) G with Some g => sv g | None => [] end.
Lemma G_unique : forall g g', In g G -> In g' G -> fst g = fst g' -> g = g'.
Proof.
  intros g g' Hg Hg' E. clear -SN E Hg Hg'. induction G as [|a G' IH]; [destruct Hg|]. cbn [map] in SN. inversion SN as [|? ? N1 N2]; subst. destruct Hg as [->|Hg], Hg' as [->|Hg']; [reflexivity| | |now apply IH]; destruct N1; apply in_map_iff; [exists g'|exists g]; auto.
Qed.
Lemma sval_in : forall g, In g G -> sval (fst g) = sv g.
Proof.
  intros g Hg. unfold sval. destruct (find (fun g' => qeqb L (fst g') (fst g)) G) as [g'|] eqn:F.
  - apply find_some in F. destruct F as [F1 F2]. destruct (qeqb_spec L (fst g') (fst g)) as [E|]; [|discriminate]. f_equal. now apply G_unique.
  - apply (find_none _ _ F) in Hg. destruct (qeqb_spec L (fst g) (fst g)); [discriminate|congruence].
Qed.
Lemma sval_out : forall q, ~ In q slabs -> sval q = [].
Proof.
  intros q Hq. unfold sval. destruct (find (fun g' => qeqb L (fst g') q) G) as [g'|] eqn:F; [|reflexivity]. apply find_some in F. destruct F as [F1 F2]. destruct (qeqb_spec L (fst g') q) as [<-|]; [|discriminate]. destruct Hq. now apply in_map.
Qed.
Notation dn := (fun q => Z.of_nat (length (sel q))).
(* the diagonal tensor of the values kept *)
Lemma diag_keys : map fst (diag R L K emb (pick_values K L slabs s gs)) = flat_map (fun g => match nth_error slabs (Z.to_nat (fst g)) with Some q => [[q; q]] | None => [] end) gs.
Proof. unfold diag, pick_values. rewrite map_map, flat_map_concat_map, concat_map, map_map, <- flat_map_concat_map. apply flat_map_ext. intros g. now destruct (nth_error slabs (Z.to_nat (fst g))). Qed.
Lemma diag_in : forall b, In b (diag R L K emb (pick_values K L slabs s gs)) -> exists g, In g G /\ sel (fst g) <> [] /\ fst b = [fst g; fst g] /\ nshape (snd b) = [dn (fst g); dn (fst g)] /\
  forall y z, 0 <= y < dn (fst g) -> 0 <= z < dn (fst g) -> nget (snd b) [y; z] = if y =? z then emb (at_ (sv g) (nth (Z.to_nat z) (sel (fst g)) 0)) else 0'.
Proof.
  intros b H. unfold diag, pick_values in H. apply in_map_iff in H. destruct H as ((q & vs) & <- & H). apply in_flat_map in H. destruct H as ((i & gl) & Hg & H). cbn [fst snd] in H. destruct (kept_at i gl Hg) as (g & _ & HgG & Es & Esel & Eb). rewrite Es in H. destruct H as [H|[]]. injection H as <- <-. exists g. cbn [fst snd nshape]. rewrite Esel, map_length, Eb.
  split; [exact HgG|split; [now apply (gsN i)|split; [reflexivity|split; [reflexivity|] ] ] ]. intros y z Hy Hz. rewrite nget_in by (apply in_shape2; auto). cbn [nval nth]. destruct (Z.eqb_spec y z) as [->|]; [|reflexivity]. f_equal. unfold TruncModel.at_ at 1. rewrite (nth_indep _ _ (at_ (sv g) 0)) by (rewrite map_length; lia). now rewrite map_nth.
Qed.
Lemma diag_has : forall q, sel q <> [] -> In [q; q] (map fst (diag R L K emb (pick_values K L slabs s gs))).
Proof. intros q H. destruct (sel_some L slabs gs q H) as (i & Hi & Eq). rewrite diag_keys. apply in_flat_map. exists (i, sel q). split; [exact Hi|]. cbn [fst]. rewrite Eq. now left. Qed.
Lemma diag_nodup : NoDup (map fst (diag R L K emb (pick_values K L slabs s gs))).
Proof.
  rewrite diag_keys. apply NoDup_flat_map.
  - apply (NoDup_map_inv fst). now apply SS_lt_nodup.
  - intros g _. destruct (nth_error slabs (Z.to_nat (fst g))); constructor; [intros []|constructor].
  - intros [i gl] [j gl'] k Hg Hg' Hk Hk'. cbn [fst] in *. destruct (nth_error slabs (Z.to_nat i)) as [q|] eqn:E; [|destruct Hk]. destruct (nth_error slabs (Z.to_nat j)) as [q'|] eqn:E'; [|destruct Hk']. destruct Hk as [<-|[]]. destruct Hk' as [Hk'|[]]. injection Hk' as -> _.
    assert (i = j) by (apply (nth_slabs_inj L slabs gs SN gsR' gsN i j q); auto; apply gsR'; apply in_map_iff; [exists (i, gl)|exists (j, gl')]; auto). subst j. f_equal. now apply (gs_unique gs gsS i).
Qed.
Lemma diag_ok : forall lab T, (forall q, In q slabs -> In q (labs R L lab T)) -> gauge_ok R L lab T dn dn (diag R L K emb (pick_values K L slabs s gs)) /\
  forall q y z, telem (diag R L K emb (pick_values K L slabs s gs)) [(q, y); (q, z)] = if (y =? z) && ((0 <=? z) && (z <? dn q)) then emb (at_ (sval q) (nth (Z.to_nat z) (sel q) 0)) else 0'.
Proof.
  intros lab T Hlab. set (D := diag R L K emb (pick_values K L slabs s gs)). split.
  - split; [|split; [|split] ].
    + intros b Hb. destruct (diag_in b Hb) as (g & _ & _ & E1 & E2 & _). rewrite E1, E2. split; reflexivity.
    + intros b Hb. destruct (diag_in b Hb) as (g & _ & N & E1 & E2 & _). rewrite E2. assert (0 < dn (fst g)) by (destruct (sel (fst g)); [congruence|cbn [length]; lia]). repeat constructor; assumption.
    + apply diag_nodup.
    + intros k Hk. apply in_map_iff in Hk. destruct Hk as (b & <- & Hb). destruct (diag_in b Hb) as (g & Hg & _ & E1 & _). exists (fst g). split; [exact E1|]. apply Hlab. now apply in_map.
  - intros q y z. unfold MpsDot.telem. cbn [map fst snd].
    assert (Hel: forall b, In b D -> fst b = [q; q] -> exists g, In g G /\ fst g = q /\ sel q <> [] /\ nshape (snd b) = [dn q; dn q] /\ forall y z, 0 <= y < dn q -> 0 <= z < dn q -> nget (snd b) [y; z] = if y =? z then emb (at_ (sv g) (nth (Z.to_nat z) (sel q) 0)) else 0').
    { intros b Hb E. destruct (diag_in b Hb) as (g & Hg & N & E1 & E2 & V). rewrite E1 in E. injection E as E _. exists g. subst q. auto. }
    destruct ((y =? z) && ((0 <=? z) && (z <? dn q))) eqn:Ez.
    + assert (Hz: y = z /\ 0 <= z < dn q) by (apply andb_prop in Ez; destruct Ez as [Ez1 Ez2]; apply Z.eqb_eq in Ez1; apply andb_prop in Ez2; lia). destruct Hz as [-> Hz]. assert (Hs: sel q <> []) by (intros E; rewrite E in Hz; cbn in Hz; lia).
      pose proof (diag_has q Hs) as Hk. apply in_map_iff in Hk. destruct Hk as (b & E & Hb). destruct (Hel b Hb E) as (g & Hg & Eg & _ & _ & V). rewrite <- E, (elem_in R L D b _ diag_nodup Hb), V by auto. rewrite Z.eqb_refl. subst q. now rewrite sval_in.
    + destruct (in_dec (list_eq_dec (q_dec L)) [q; q] (map fst D)) as [Hk|Hk].
      * apply in_map_iff in Hk. destruct Hk as (b & E & Hb). destruct (Hel b Hb E) as (g & Hg & Eg & _ & Sh & V). rewrite <- E, (elem_in R L D b _ diag_nodup Hb). destruct (Z.ltb_spec y 0); [apply nget_out; rewrite Sh, in_shape2; lia|]. destruct (Z.ltb_spec z 0); [apply nget_out; rewrite Sh, in_shape2; lia|].
        destruct (Z.ltb_spec y (dn q)); [|apply nget_out; rewrite Sh, in_shape2; lia]. destruct (Z.ltb_spec z (dn q)) as [Hz|]; [|apply nget_out; rewrite Sh, in_shape2; lia]. rewrite V by lia. destruct (Z.eqb_spec y z) as [Ey|]; [|reflexivity]. exfalso. rewrite !andb_false_iff in Ez. lia.
      * apply elem_out. intros b Hb E. destruct Hk. rewrite <- E. now apply in_map.
Qed.
End Kept.
End Sites.
