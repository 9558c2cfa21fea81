(** Lemmas for C33: gauge transformations between neighbouring sites of a chain. *)
From Coq Require Import ZArith Bool List Lia Permutation Ring.
From Verif Require Import SymModel SymProofs DictLib IndexLib OptLib RingLib BondModel FuseModel BlockModel BlockProofs StructModel StructProofs MpsModel MpsChain MpsProofs MpsDot CanonModel CanonProofs CanonSites.
Import ListNotations.
Open Scope Z_scope.

Lemma upd_0 : forall A (v a : A) l, upd 0 v (a :: l) = v :: l.
Proof. reflexivity. Qed.
Lemma upd_S : forall A i (v a : A) l, upd (S i) v (a :: l) = a :: upd i v l.
Proof. reflexivity. Qed.
Lemma upd_len : forall A i (v : A) l, (i < length l)%nat -> length (upd i v l) = length l.
Proof. intros A i v l. revert i. induction l as [|a l IH]; intros [|i] H; cbn in H; try lia; [reflexivity|]. rewrite upd_S. cbn [length]. rewrite IH by lia. reflexivity. Qed.
Lemma nth_upd : forall A i (v d : A) l k, (i < length l)%nat -> nth k (upd i v l) d = if Nat.eqb k i then v else nth k l d.
Proof.
  intros A i v d l. revert i. induction l as [|a l IH]; intros [|i] k H; cbn in H; try lia; [destruct k; reflexivity|]. rewrite upd_S. destruct k as [|k]; [reflexivity|]. cbn [nth Nat.eqb]. apply IH. lia.
Qed.
Lemma nth_error_upd : forall A i (v : A) l k, (i < length l)%nat -> nth_error (upd i v l) k = if Nat.eqb k i then Some v else nth_error l k.
Proof.
  intros A i v l. revert i. induction l as [|a l IH]; intros [|i] k H; cbn in H; try lia; [destruct k; reflexivity|]. rewrite upd_S. destruct k as [|k]; [reflexivity|]. cbn [nth_error Nat.eqb]. apply IH. lia.
Qed.
Lemma map_upd : forall A B (f : A -> B) i v l, map f (upd i v l) = upd i (f v) (map f l).
Proof. intros. unfold upd. now rewrite map_app, firstn_map, map_cons, skipn_map. Qed.

Section Swap.
Variable R : CRing.
Add Ring Rr23 : (rth R).
Notation "0'" := (r0 R). Notation "1'" := (r1 R).
Infix "+'" := (radd R) (at level 50, left associativity).
Infix "*'" := (rmul R) (at level 40, left associativity).
Variables P S : Type.
Notation mat := (P -> S -> S -> R).
Notation chain := (chain R P S).
Notation bonds_cover := (bonds_cover R P S).
Lemma chain_two : forall (f g f' g' : mat) B B', (forall p l p' r, bsum B (fun m => f p l m *' g p' m r) = bsum B' (fun m => f' p l m *' g' p' m r)) ->
  forall post Bs ps l r, chain (B :: Bs) (f :: g :: post) ps l r = chain (B' :: Bs) (f' :: g' :: post) ps l r.
Proof.
  intros f g f' g' B B' H post Bs ps l r. destruct ps as [|p ps]; [reflexivity|]. rewrite !chain_cons. destruct post as [|h post].
  - destruct ps as [|p' [|p'' ps]].
    + rewrite !bsum_zero; [reflexivity|intros; cbn; ring|intros; cbn; ring].
    + rewrite (bsum_ext R _ B _ (fun m => f p l m *' g p' m r)) by (intros; now rewrite chain_one). rewrite H. apply bsum_ext. intros. now rewrite chain_one.
    + rewrite !bsum_zero; [reflexivity|intros; rewrite chain_long; ring|intros; rewrite chain_long; ring].
  - destruct ps as [|p' ps]; [rewrite !bsum_zero; [reflexivity|intros; cbn; ring|intros; cbn; ring]|]. destruct Bs as [|C Bs]; [rewrite !bsum_zero; [reflexivity|intros; cbn; ring|intros; cbn; ring]|].
    assert (A: forall (f g : mat) B, bsum B (fun m => f p l m *' chain (C :: Bs) (g :: h :: post) (p' :: ps) m r) = bsum C (fun x => bsum B (fun m => f p l m *' g p' m x) *' chain Bs (h :: post) ps x r)).
    { intros f0 g0 B0. rewrite (bsum_ext R _ B0 _ (fun m => bsum C (fun x => f0 p l m *' g0 p' m x *' chain Bs (h :: post) ps x r))).
      - rewrite bsum_swap. apply bsum_ext. intros x _. now rewrite bsum_mulr.
      - intros m _. rewrite chain_cons, <- bsum_mull. apply bsum_ext. intros x _. ring. }
    rewrite !A. apply bsum_ext. intros x _. now rewrite H.
Qed.
Lemma chain_swap : forall i fs (f g f' g' : mat) Bs B B', nth_error fs i = Some f -> nth_error fs (Datatypes.S i) = Some g -> nth_error Bs i = Some B ->
  (forall p l p' r, bsum B (fun m => f p l m *' g p' m r) = bsum B' (fun m => f' p l m *' g' p' m r)) ->
  forall ps l r, chain Bs fs ps l r = chain (upd i B' Bs) (upd (Datatypes.S i) g' (upd i f' fs)) ps l r.
Proof.
  induction i as [|i IH]; intros fs f g f' g' Bs B B' Hf Hg HB H ps l r; destruct fs as [|f0 fs]; try discriminate; destruct Bs as [|B0 Bs]; try discriminate; cbn [nth_error] in *.
  - injection Hf as ->. injection HB as ->. destruct fs as [|g0 fs]; [discriminate|]. injection Hg as ->. exact (chain_two f g f' g' B B' H fs Bs ps l r).
  - rewrite !upd_S. destruct fs as [|g0 fs]; [destruct i; discriminate|].
    destruct (upd (Datatypes.S i) g' (upd i f' (g0 :: fs))) as [|x y] eqn:E. { apply (f_equal (@length _)) in E. assert (Li: (Datatypes.S i < length (g0 :: fs))%nat) by (apply nth_error_Some; cbn [nth_error]; congruence). rewrite upd_len in E by (rewrite upd_len by lia; lia). rewrite upd_len in E by lia. cbn in E. lia. }
    destruct ps as [|p ps]; [destruct i; reflexivity|]. rewrite !chain_cons. apply bsum_ext. intros m _. f_equal. rewrite <- E. eapply IH; eauto.
Qed.
Lemma bonds_cover_nth : forall fs Bs, bonds_cover Bs fs <-> fs <> [] /\ forall i f, (Datatypes.S i < length fs)%nat -> nth_error fs i = Some f -> exists B, nth_error Bs i = Some B /\ NoDup B /\ forall p l m, ~ In m B -> f p l m = 0'.
Proof.
  induction fs as [|f fs IH]; intros Bs; [split; [intros []|intros [[] _]; reflexivity]|]. destruct fs as [|g fs].
  - cbn. split; [intros _|auto]. split; [discriminate|]. intros i f' H. cbn in H. lia.
  - split.
    + intros H. split; [discriminate|]. destruct Bs as [|B Bs]; [destruct H|]. destruct H as (N & Z & H). intros [|i] f' Hi E; cbn [nth_error] in *; [injection E as <-; eauto|]. apply IH in H. apply H; [cbn [length] in *; lia|exact E].
    + intros [_ H]. destruct (H 0%nat f ltac:(cbn; lia) eq_refl) as (B & EB & N & Z). destruct Bs as [|B' Bs]; [discriminate|]. injection EB as ->. split; [exact N|]. split; [exact Z|]. apply IH. split; [discriminate|]. intros i f' Hi E. apply (H (Datatypes.S i) f'); [cbn [length] in *; lia|exact E].
Qed.
End Swap.

Section Steps.
Variable R : CRing.
Add Ring Rr24 : (rth R).
Variable L : Label.
Notation tensor := (list (list L * nd R)).
Notation tblock := (bool * (list L * nd R))%type.
Notation site := (site R L).
Notation state := (L * Z)%type.
Notation pstate := (bool * list state)%type.
Notation "0'" := (r0 R). Notation "1'" := (r1 R).
Infix "*'" := (rmul R) (at level 40, left associativity).
Notation telem := (telem R L).
Notation zf := (fun _ : L => 0).
Notation zs := (0, fun (_ : Z) (_ : L) => 0).
Lemma wf_sites_nth : forall (ts : list site) ds shp, wf_sites ds shp ts <-> length ds = S (length ts) /\ length shp = length ts /\
  forall i, (i < length ts)%nat -> wf_site (fst (nth i shp zs)) (nth i ds zf) (snd (nth i shp zs)) (nth (S i) ds zf) (nth i ts (SP [])).
Proof.
  induction ts as [|t ts IH]; intros ds shp.
  - cbn. split; [intros [-> ->]; repeat split; auto; intros; lia|]. intros (A & B & _). split; [now destruct shp|exact A].
  - split.
    + intros W. destruct shp as [|[n dp] shp]; [destruct W|]. destruct ds as [|d0 ds]; [destruct W|]. destruct W as [Wt W]. apply IH in W. destruct W as (A & B & C). split; [cbn; lia|]. split; [cbn; lia|].
      intros [|i] Hi; [|apply C; cbn in Hi; lia]. cbn [nth fst snd]. destruct ds; [cbn in A; lia|exact Wt].
    + intros (A & B & C). destruct shp as [|[n dp] shp]; [cbn in B; lia|]. destruct ds as [|d0 ds]; [cbn in A; lia|]. split.
      * specialize (C 0%nat ltac:(cbn; lia)). cbn [nth fst snd] in C. destruct ds; [cbn in A; lia|exact C].
      * apply IH. split; [cbn in A; lia|]. split; [cbn in B; lia|]. intros i Hi. apply (C (S i)). cbn. lia.
Qed.
Lemma bonds_of_nth : forall (ts : list site) ds i, length ds = S (length ts) -> (i < length ts)%nat -> nth_error (bonds_of R L ds ts) i = Some (out_states R L (nth (S i) ds zf) (nth i ts (SP []))).
Proof.
  induction ts as [|t ts IH]; intros ds i Ld Hi; [cbn in Hi; lia|]. destruct ds as [|d0 ds]; [cbn in Ld; lia|]. destruct i as [|i]; cbn [bonds_of nth_error nth]; [destruct ds; [cbn in Ld; lia|reflexivity]|]. apply IH; [cbn in Ld; lia|cbn in Hi; lia].
Qed.
Lemma in_out_states : forall d (s : site) q x, In (q, x) (out_states R L d s) <-> In q (lasts s) /\ 0 <= x < d q.
Proof.
  intros d s q x. unfold out_states. rewrite in_flat_map. split.
  - intros (q' & Hq & H). apply nodup_In in Hq. apply in_map_iff in H. destruct H as (y & E & H). injection E as -> ->. apply in_zrange in H. auto.
  - intros [H1 H2]. exists q. split; [now apply nodup_In|]. apply in_map. now apply in_zrange.
Qed.
Lemma nth_err : forall A (l : list A) i d, (i < length l)%nat -> nth_error l i = Some (nth i l d).
Proof. intros A l i d. revert i. induction l as [|a l IH]; intros [|i] H; cbn in H; try lia; [reflexivity|]. cbn. apply IH. lia. Qed.

(* replacing sites i, i + 1 and the bond between them *)
Lemma swap_sites : forall (ts : list site) ds shp i t' u' d' B', (S i < length ts)%nat -> wf_sites ds shp ts ->
  wf_site (fst (nth i shp zs)) (nth i ds zf) (snd (nth i shp zs)) d' t' ->
  wf_site (fst (nth (S i) shp zs)) d' (snd (nth (S i) shp zs)) (nth (S (S i)) ds zf) u' ->
  incl (lasts u') (lasts (nth (S i) ts (SP []))) -> NoDup B' -> (forall p l m, ~ In m B' -> selem t' p l m = 0') ->
  (forall p l p' r, bsum (out_states R L (nth (S i) ds zf) (nth i ts (SP []))) (fun m => selem (nth i ts (SP [])) p l m *' selem (nth (S i) ts (SP [])) p' m r) = bsum B' (fun m => selem t' p l m *' selem u' p' m r)) ->
  let ts' := upd (S i) u' (upd i t' ts) in
  wf_sites (upd (S i) d' ds) shp ts' /\ forall Ba Bc ps l r, bonds Ba ts -> bonds Bc ts' -> amplitude Bc ts' ps l r = amplitude Ba ts ps l r.
Proof.
  intros ts ds shp i t' u' d' B' Hi W Wt Wu Iu NB CB Eq ts'. pose proof W as W0. apply wf_sites_nth in W. destruct W as (A & Bl & C).
  assert (L1: length (upd i t' ts) = length ts) by (apply upd_len; lia). assert (L2: length ts' = length ts) by (unfold ts'; rewrite upd_len; lia).
  assert (Nt: forall k, nth k ts' (SP []) = if Nat.eqb k (S i) then u' else if Nat.eqb k i then t' else nth k ts (SP [])) by (intros k; unfold ts'; rewrite nth_upd by lia; now rewrite nth_upd by lia).
  assert (Wn: wf_sites (upd (S i) d' ds) shp ts').
  { apply wf_sites_nth. rewrite upd_len by lia. split; [lia|]. split; [lia|]. intros k Hk. rewrite Nt, !nth_upd by lia. rewrite L2 in Hk. specialize (C k Hk).
    destruct (Nat.eqb_spec k (S i)) as [->|N1].
    - destruct (Nat.eqb_spec (S (S i)) (S i)); [lia|]. exact Wu.
    - destruct (Nat.eqb_spec k i) as [->|N2]; [|destruct (Nat.eqb_spec (S k) (S i)); [lia|exact C] ]. rewrite Nat.eqb_refl. exact Wt. }
  split; [exact Wn|]. intros Ba Bc ps l r Ca Cc. pose proof (bonds_of_cover R L ts ds shp ltac:(intros ->; cbn in Hi; lia) W0) as Co. unfold amplitude, bonds in *.
  assert (Nm: forall k, (k < length ts)%nat -> nth_error (map selem ts) k = Some (selem (nth k ts (SP [])))) by (intros k Hk; rewrite nth_error_map, (nth_err _ ts k (SP []) Hk); reflexivity).
  rewrite (chain_cover_indep R _ _ (st_dec L) _ Ba (bonds_of R L ds ts)) by auto.
  rewrite (chain_swap R _ _ i (map selem ts) (selem (nth i ts (SP []))) (selem (nth (S i) ts (SP []))) (selem t') (selem u') _ (out_states R L (nth (S i) ds zf) (nth i ts (SP []))) B'); [|apply Nm; lia|apply Nm; lia|apply bonds_of_nth; lia|exact Eq].
  rewrite <- !map_upd. fold ts'. apply (chain_cover_indep R _ _ (st_dec L)); [exact Cc|]. apply bonds_cover_nth. split; [intros E; apply (f_equal (@length _)) in E; rewrite map_length, L2 in E; cbn [length] in E; lia|].
  intros k f Hk Ef. rewrite map_length, L2 in Hk. rewrite nth_error_map, (nth_err _ ts' k (SP [])) in Ef by lia. cbn [option_map] in Ef. injection Ef as <-. rewrite Nt.
  rewrite nth_error_upd by (apply nth_error_Some; rewrite bonds_of_nth by lia; discriminate).
  destruct (Nat.eqb_spec k (S i)) as [->|N1]; [destruct (Nat.eqb_spec (S i) i); [lia|]|destruct (Nat.eqb_spec k i) as [->|N2] ].
  - rewrite bonds_of_nth by lia. eexists. split; [reflexivity|]. split; [apply out_states_nodup|]. intros p l0 [q x] Hm. apply (selem_right R L _ _ _ _ u' Wu). cbn [fst snd]. intros [H1 H2]. apply Hm. apply in_out_states. split; [now apply Iu|exact H2].
  - exists B'. auto.
  - rewrite bonds_of_nth by lia. eexists. split; [reflexivity|]. split; [apply out_states_nodup|]. intros p l0 [q x] Hm. apply (selem_right R L _ _ _ _ _ (C k ltac:(lia))). cbn [fst snd]. intros [H1 H2]. apply Hm. now apply in_out_states.
Qed.

Variable cj : R -> R.
Notation lastq := (fun qs : list L => last qs (q0 L)).
Notation headq := (fun qs : list L => hd (q0 L) qs).
(* s = f g, and s = g f *)
Definition split_left (n : Z) (dl : L -> Z) (dp : Z -> L -> Z) (dr dn : L -> Z) (s f : site) (g : tensor) : Prop :=
  wf_site n dl dp dn f /\ (forall o, incl (map fst (part f o)) (map fst (part s o))) /\ gauge_ok R L lastq (tagged R L s) dn dr g /\
  forall p l q y, selem s p l (q, y) = bsum (zrange (dn q)) (fun z => selem f p l (q, z) *' telem g [(q, z); (q, y)]).
Definition split_right (n : Z) (dl : L -> Z) (dp : Z -> L -> Z) (dr dn : L -> Z) (s f : site) (g : tensor) : Prop :=
  wf_site n dn dp dr f /\ (forall o, incl (map fst (part f o)) (map fst (part s o))) /\ gauge_ok R L headq (tagged R L s) dl dn g /\
  forall p q y r, selem s p (q, y) r = bsum (zrange (dn q)) (fun z => telem g [(q, y); (q, z)] *' selem f p (q, z) r).
Lemma pair_zrange_nodup : forall (q : L) k, NoDup (map (pair q) (zrange k)).
Proof. intros. apply FinFun.Injective_map_NoDup; [intros a b E; congruence|apply zrange_nodup]. Qed.
Lemma labs_lasts : forall (s : site) q, In q (labs R L lastq (tagged R L s)) <-> In q (lasts s).
Proof. intros. symmetry. apply in_lasts_tagged. Qed.
Lemma labs_firsts : forall (s : site) q, In q (labs R L headq (tagged R L s)) <-> In q (firsts s).
Proof. intros. symmetry. apply in_firsts_tagged. Qed.
Lemma step_left : forall (ts : list site) ds shp i dn f g, (S i < length ts)%nat -> wf_sites ds shp ts ->
  split_left (fst (nth i shp zs)) (nth i ds zf) (snd (nth i shp zs)) (nth (S i) ds zf) dn (nth i ts (SP [])) f g ->
  exists u', gauge_left R L g (nth (S i) ts (SP [])) = Some u' /\ (kind u' = kind (nth (S i) ts (SP [])) \/ blocks u' = []) /\ (forall o, incl (map fst (part u' o)) (map fst (part (nth (S i) ts (SP [])) o))) /\
  let ts' := upd (S i) u' (upd i f ts) in
  wf_sites (upd (S i) dn ds) shp ts' /\ forall Ba Bc ps l r, bonds Ba ts -> bonds Bc ts' -> amplitude Bc ts' ps l r = amplitude Ba ts ps l r.
Proof.
  intros ts ds shp i dn f g Hi W (Wf & If & Gg & Fa). pose proof W as W0. apply wf_sites_nth in W0. destruct W0 as (A & Bl & C). set (t := nth i ts (SP [])) in *. set (u := nth (S i) ts (SP [])) in *.
  destruct (gauge_left_spec R L _ _ _ _ g _ _ _ u Gg (C (S i) Hi)) as (u' & Eu & Ku & Wu & Iu & Su). exists u'. split; [exact Eu|]. split; [exact Ku|]. split; [exact Iu|].
  apply (swap_sites ts ds shp i f u' dn (out_states R L dn f)); auto.
  - apply (keys_firsts R L u u' Iu).
  - apply out_states_nodup.
  - intros p l [q x] Hm. apply (selem_right R L _ _ _ _ f Wf). cbn [fst snd]. intros H. apply Hm. now apply in_out_states.
  - fold t u. intros p l p' r. set (B := out_states R L (nth (S i) ds zf) t).
    assert (Ft: forall m, selem t p l m = bsum (out_states R L dn f) (fun m' => selem f p l m' *' telem g [m'; m])).
    { intros [q y]. rewrite Fa. rewrite <- (bsum_map R _ _ (fun z => (q, z)) (zrange (dn q)) (fun m' => selem f p l m' *' telem g [m'; (q, y)])). apply (bsum_cover R _ (st_dec L)).
      - apply pair_zrange_nodup.
      - apply out_states_nodup.
      - intros [q' z] N. destruct (q_dec L q' q) as [->|D]; [|rewrite (gauge_zero R L _ _ _ _ g (q', z) (q, y) Gg) by (cbn [fst]; tauto); ring].
        rewrite (selem_right R L _ _ _ _ f Wf) by (cbn [fst snd]; intros [_ H]; apply N; apply in_map; now apply in_zrange). ring.
      - intros [q' z] N. rewrite (selem_right R L _ _ _ _ f Wf) by (cbn [fst snd]; intros H; apply N; now apply in_out_states). ring. }
    assert (Fu: forall m', selem u' p' m' r = bsum B (fun m => telem g [m'; m] *' selem u p' m r)).
    { intros m'. apply Su; [apply out_states_nodup|]. intros [q y] N. apply (gauge_zero R L _ _ _ _ g m' (q, y) Gg). cbn [fst snd]. intros (E & H1 & _ & H2). apply N. apply in_out_states. split; [apply labs_lasts; congruence|exact H2]. }
    rewrite (bsum_ext R _ B _ (fun m => bsum (out_states R L dn f) (fun m' => selem f p l m' *' telem g [m'; m] *' selem u p' m r))) by (intros m _; rewrite Ft, bsum_mulr; reflexivity).
    rewrite bsum_swap. apply bsum_ext. intros m' _. rewrite Fu, <- bsum_mull. apply bsum_ext. intros m _. ring.
Qed.
Lemma step_right : forall (ts : list site) ds shp i dn f g, (S i < length ts)%nat -> wf_sites ds shp ts ->
  split_right (fst (nth (S i) shp zs)) (nth (S i) ds zf) (snd (nth (S i) shp zs)) (nth (S (S i)) ds zf) dn (nth (S i) ts (SP [])) f g ->
  exists u', gauge_right R L (nth i ts (SP [])) g = Some u' /\ (kind u' = kind (nth i ts (SP [])) \/ blocks u' = []) /\ (forall o, incl (map fst (part u' o)) (map fst (part (nth i ts (SP [])) o))) /\
  let ts' := upd i u' (upd (S i) f ts) in
  wf_sites (upd (S i) dn ds) shp ts' /\ forall Ba Bc ps l r, bonds Ba ts -> bonds Bc ts' -> amplitude Bc ts' ps l r = amplitude Ba ts ps l r.
Proof.
  intros ts ds shp i dn f g Hi W (Wf & If & Gg & Fa). pose proof W as W0. apply wf_sites_nth in W0. destruct W0 as (A & Bl & C). set (t := nth (S i) ts (SP [])) in *. set (u := nth i ts (SP [])) in *.
  destruct (gauge_right_spec R L _ _ _ _ g _ _ _ u Gg (C i ltac:(lia))) as (u' & Eu & Ku & Wu & Iu & Su). exists u'. split; [exact Eu|]. split; [exact Ku|]. split; [exact Iu|].
  assert (Eup: upd i u' (upd (S i) f ts) = upd (S i) f (upd i u' ts)). { clear - Hi. revert i Hi. induction ts as [|a ts IH]; intros [|i] Hi; cbn in Hi; try lia; [destruct ts; [cbn in Hi; lia|reflexivity] |]. rewrite !upd_S. f_equal. apply IH. lia. }
  rewrite Eup. set (B' := out_states R L dn u').
  apply (swap_sites ts ds shp i u' f dn B'); auto.
  - apply (keys_firsts R L t f If).
  - apply out_states_nodup.
  - intros p l [q x] Hm. apply (selem_right R L _ _ _ _ u' Wu). cbn [fst snd]. intros H. apply Hm. now apply in_out_states.
  - fold t u. intros p l p' r. set (B := out_states R L (nth (S i) ds zf) u).
    assert (Fu: forall m', selem u' p l m' = bsum B (fun m => selem u p l m *' telem g [m; m'])).
    { intros m'. apply Su; [apply out_states_nodup|]. intros [q y] N. rewrite (selem_right R L _ _ _ _ u (C i ltac:(lia))) by (cbn [fst snd]; intros H; apply N; now apply in_out_states). ring. }
    set (Z2 := fun q => map (pair q) (zrange (dn q))). set (qs := nodup (q_dec L) (map fst B ++ map fst B')). set (D := flat_map Z2 qs).
    assert (ND: NoDup D). { unfold D. assert (Nq: NoDup qs) by apply NoDup_nodup. clearbody qs. induction Nq as [|q qs Hq Nq IH]; [constructor|]. cbn [flat_map]. apply nodup_app. split; [apply pair_zrange_nodup|]. split; [exact IH|]. intros m H1 H2. apply in_map_iff in H1. destruct H1 as (z & <- & _). apply in_flat_map in H2. destruct H2 as (q' & Hq' & H2). apply in_map_iff in H2. destruct H2 as (z' & E & _). injection E as -> _. contradiction. }
    assert (ID: forall q z, In (q, z) D <-> In q qs /\ 0 <= z < dn q). { intros q z. unfold D. rewrite in_flat_map. split; [intros (q' & H1 & H2); apply in_map_iff in H2; destruct H2 as (z' & E & H2); injection E as -> ->; apply in_zrange in H2; auto|intros [H1 H2]; exists q; split; [exact H1|apply in_map; now apply in_zrange] ]. }
    rewrite (bsum_cover R _ (st_dec L) B' D); [|apply out_states_nodup|exact ND| |].
    + rewrite (bsum_ext R _ D _ (fun m' => bsum B (fun m => selem u p l m *' telem g [m; m'] *' selem f p' m' r))) by (intros m _; rewrite Fu, bsum_mulr; reflexivity).
      rewrite bsum_swap. apply bsum_ext. intros [q y] Hm. rewrite Fa, <- bsum_mull. rewrite <- (bsum_map R _ _ (fun z => (q, z)) (zrange (dn q)) (fun m' => selem u p l (q, y) *' (telem g [(q, y); m'] *' selem f p' m' r))).
      rewrite (bsum_cover R _ (st_dec L) (map (fun z => (q, z)) (zrange (dn q))) D).
      * apply bsum_ext. intros m' _. ring.
      * apply pair_zrange_nodup.
      * exact ND.
      * intros [q' z] N. rewrite (gauge_zero R L _ _ _ _ g (q, y) (q', z) Gg); [ring|]. cbn [fst snd]. intros (E & _ & _ & H). subst q'. apply N. apply in_map. now apply in_zrange.
      * intros [q' z] N. rewrite (gauge_zero R L _ _ _ _ g (q, y) (q', z) Gg); [ring|]. cbn [fst snd]. intros (E & _ & _ & H). subst q'. apply N. apply ID. split; [|exact H]. unfold qs. apply nodup_In, in_or_app. left. apply in_map_iff. exists (q, y). auto.
    + intros [q z] N. rewrite (selem_right R L _ _ _ _ u' Wu); [ring|]. cbn [fst snd]. intros H. apply N. now apply in_out_states.
    + intros [q z] N. rewrite (selem_right R L _ _ _ _ u' Wu); [ring|]. cbn [fst snd]. intros H. apply N. apply ID. split; [|apply H]. unfold qs. apply nodup_In, in_or_app. right. apply in_map_iff. exists (q, z). split; [reflexivity|]. now apply in_out_states.
Qed.
End Steps.
