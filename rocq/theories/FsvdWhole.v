(** Proofs about sparse_svd: the factors of all sectors put together. *)
From Coq Require Import ZArith Bool List Lia Permutation Ring.
From Verif Require Import SymModel SymProofs DictLib OptLib IndexLib RingLib OrdLib BondModel FuseModel FuseProofs BlockModel BlockProofs BlockProps
  StructModel StructProofs SignModel SignProofs SignProps TruncModel TruncProofs FermTModel FermTProofs FermNetProofs FermDaggerProofs FermTProps MpsModel CanonModel CanonProofs CompressSvd FsvdModel FsvdProofs FsvdFact FsvdSvd.
Import ListNotations.
Open Scope Z_scope.

Lemma pick_removelast : forall A (d : A) l m, Z.of_nat (length l) = m + 1 -> 0 <= m -> pick d (zrange m) l = removelast l.
Proof.
  intros A d l m H Hm. destruct (@exists_last _ l) as (l' & x & ->); [intros ->; cbn in H; lia|]. rewrite removelast_last. rewrite app_length in H. cbn in H.
  unfold pick. apply nth_ext with (d := d) (d' := d); [rewrite map_length, zrange_length; lia|]. intros i Hi. rewrite map_length, zrange_length in Hi. rewrite <- (Nat2Z.id i) at 1. rewrite nth_zrange_map by lia. rewrite Nat2Z.id. apply app_nth1. lia.
Qed.
Lemma pick_tl : forall A (d : A) l m, Z.of_nat (length l) = m + 1 -> 0 <= m -> pick d (map (fun i => 1 + i) (zrange m)) l = tl l.
Proof.
  intros A d l m H Hm. destruct l as [|x l]; [cbn in H; lia|]. cbn [tl length] in *. unfold pick. rewrite map_map. apply nth_ext with (d := d) (d' := d); [rewrite map_length, zrange_length; lia|].
  intros i Hi. rewrite map_length, zrange_length in Hi. rewrite <- (Nat2Z.id i) at 1. rewrite nth_zrange_map by lia. replace (Z.to_nat (1 + Z.of_nat i)) with (Datatypes.S i) by lia. reflexivity.
Qed.
Lemma last_first_labels : forall (R : CRing) (L : Label) fermion (a b : ftensor R L) na nb dma dmb r, wf_tensor R L na dma (fst a) -> wf_tensor R L nb dmb (fst b) -> 1 <= na -> 1 <= nb ->
  ft_tensordot R L fermion a b [-1] [0] = Some r -> forall qs, In qs (map fst (fst r)) <-> exists ba bb, In ba (fst a) /\ In bb (fst b) /\ last (fst ba) (q0 L) = hd (q0 L) (fst bb) /\ qs = removelast (fst ba) ++ tl (fst bb).
Proof.
  intros R L fermion a b na nb dma dmb r Wa Wb Pa Pb E qs. rewrite (con_labels R L fermion a b na nb dma dmb [-1] [0] r Wa Wb E).
  assert (ia : map (leg na) [-1] = map (fun i => na - 1 + i) (zrange 1)) by (change (zrange 1) with [0]; cbn [map]; f_equal; unfold leg; cbn [Z.ltb Z.compare]; lia).
  assert (ib : map (leg nb) [0] = zrange 1) by reflexivity.
  assert (oa : others na (map (fun i => na - 1 + i) (zrange 1)) = zrange (na - 1)) by (apply others_last; lia).
  assert (ob : others nb (zrange 1) = map (fun i => 1 + i) (zrange (nb - 1))) by (apply others_first; lia).
  rewrite ia, ib, oa, ob.
  assert (G : forall ba bb, In ba (fst a) -> In bb (fst b) -> (pick (q0 L) (map (fun i => na - 1 + i) (zrange 1)) (fst ba) = pick (q0 L) (zrange 1) (fst bb) <-> last (fst ba) (q0 L) = hd (q0 L) (fst bb)) /\
    pick (q0 L) (zrange (na - 1)) (fst ba) = removelast (fst ba) /\ pick (q0 L) (map (fun i => 1 + i) (zrange (nb - 1))) (fst bb) = tl (fst bb)).
  { intros ba bb Ha Hb. destruct (Wa ba Ha) as [La _], (Wb bb Hb) as [Lb _]. split; [|split; [apply pick_removelast; lia|apply pick_tl; lia]].
    change (zrange 1) with [0]. unfold pick. cbn [map].
    assert (E1 : nth (Z.to_nat (na - 1 + 0)) (fst ba) (q0 L) = last (fst ba) (q0 L)). { destruct (@exists_last _ (fst ba)) as (l & x & El); [intros X; rewrite X in La; cbn in La; lia|]. rewrite El in *. rewrite last_last. rewrite app_length in La. cbn in La. rewrite app_nth2 by lia. replace (Z.to_nat (na - 1 + 0) - length l)%nat with 0%nat by lia. reflexivity. }
    assert (E2 : nth (Z.to_nat 0) (fst bb) (q0 L) = hd (q0 L) (fst bb)) by (destruct (fst bb); reflexivity).
    rewrite E1, E2. split; [intros H; now injection H|intros ->; reflexivity]. }
  split; intros (ba & bb & Ha & Hb & C & ->); exists ba, bb; destruct (G ba bb Ha Hb) as (G1 & G2 & G3).
  - rewrite G2, G3. repeat split; auto. now apply G1.
  - rewrite G2, G3. repeat split; auto. now apply G1.
Qed.

Lemma col_out : forall (R : CRing) (u : nd R) m w i a, nshape u = [m; w] -> ~ 0 <= a < w -> nget u [i; a] = r0 R.
Proof. intros R u m w i a E H. apply nget_out. rewrite E. intros X. inversion X as [|? ? ? ? _ X2]; subst. inversion X2; subst. lia. Qed.

Section Whole.
Variable R : CRing.
Add Ring RRw : (rth R).
Variable L : Label.
Variable K : ORing.
Add Ring KRw : (rth K).
Notation "x +' y" := (radd R x y) (at level 50, left associativity).
Notation "x *' y" := (rmul R x y) (at level 40, left associativity).
Variable emb : K -> R.
Variable sqrtK : K -> K.
Variable scr : K.
Variable svd : nd R -> option (nd R * list K * nd R).
Variable cj : R -> R.
Hypothesis cj_add : forall x y, cj (x +' y) = cj x +' cj y.
Hypothesis cj_mul : forall x y, cj (x *' y) = cj x *' cj y.
Hypothesis cj_emb : forall x, cj (emb x) = emb x.
Hypothesis emb_add : forall x y, emb (radd K x y) = emb x +' emb y.
Hypothesis emb_mul : forall x y, emb (rmul K x y) = emb x *' emb y.
Hypothesis HS : exact_svd R K emb cj svd.
Variables (p : pattern) (k : nat) (dql : L) (t : list (list L * nd R)) (n : Z) (dm : Z -> L -> Z).
Hypothesis W : wf_tensor R L n dm t.
Hypothesis ND : NoDup (map fst t).
Hypothesis Kn : Z.of_nat k < n.
Hypothesis Pos : forall b, In b t -> Forall (fun s => 0 < s) (nshape (snd b)).
Hypothesis Lp : Z.of_nat (length p) = n.
Notation secs := (sectors R L p k dql t).
Notation sec_ok := (sec_ok R L p k dql t n dm).
Notation sector := (sector R L).
Notation piece := (sector * (nd R * list K * nd R))%type.
Notation item := (piece * nat)%type.
Variables (zs : list item) (fac : K) (ab : option Z).
Hypothesis Zs : map (fun z => fst (fst z)) zs = secs.
Hypothesis Zv : forall z, In z zs -> svd (sc_data (fst (fst z))) = Some (snd (fst z)).
Definition secz (z : item) : sector := fst (fst z).
Definition uz (z : item) : nd R := fst (fst (snd (fst z))).
Definition vz (z : item) : nd R := snd (snd (fst z)).
Definition sz (z : item) : list K := snd (fst (snd (fst z))).
Definition pz (z : item) : list Z := firstn (snd z) (spos K scr (sz z)).
Definition gz (z : item) := grow R L K fac (scd R L K scr (fst z)) (snd z).
Definition fz (z : item) : sector * (nd R * nd R) :=
  (fst (gz z), match ab with Some a => absorb_svd R K emb sqrtK a (fst (snd (gz z))) (snd (snd (gz z))) | None => snd (snd (gz z)) end).
Definition bz (z : item) (i j : Z) : R := bmat R K emb scr (uz z) (vz z) (sz z) (snd z) fac i j.
Definition alive (z : item) : bool := negb (Nat.eqb (length (pz z)) 0).
Notation live := (filter alive zs).
Notation fs := (map fz live).
Notation at_ z j := (nth (Z.to_nat j) (sz z) (r0 K)).

Lemma z_ok : forall z, In z zs -> sec_ok (secz z).
Proof. intros z H. apply (secs_ok R L p k dql t n dm W ND Kn Pos). rewrite <- Zs. now apply (in_map (fun z => fst (fst z))). Qed.
Lemma z_nodup : NoDup (map (fun z => sc_q (secz z)) zs).
Proof. rewrite <- (map_map (fun z : item => fst (fst z)) sc_q). rewrite Zs. exact (secs_nodup R L p k dql t n dm W ND Kn Pos). Qed.
Lemma z_pos : forall z, In z zs -> 0 < sec_r R L (secz z) /\ 0 < sec_c R L (secz z).
Proof. intros z H. exact (ok_pos R L p k dql t n dm W Kn Pos (secz z) (z_ok z H)). Qed.
Lemma z_svd : forall z, In z zs -> let m := sec_r R L (secz z) in let c := sec_c R L (secz z) in let kk := Z.of_nat (length (sz z)) in
  nshape (uz z) = [m; kk] /\ nshape (vz z) = [kk; c] /\
  (forall i j, 0 <= i < m -> 0 <= j < c -> nget (sc_data (secz z)) [i; j] = bsum (zrange kk) (fun a => nget (uz z) [i; a] *' emb (at_ z a) *' nget (vz z) [a; j])) /\
  (forall a a', 0 <= a < kk -> 0 <= a' < kk -> bsum (zrange m) (fun i => cj (nget (uz z) [i; a]) *' nget (uz z) [i; a']) = if a =? a' then r1 R else r0 R) /\
  (forall a a', 0 <= a < kk -> 0 <= a' < kk -> bsum (zrange c) (fun j => nget (vz z) [a; j] *' cj (nget (vz z) [a'; j])) = if a =? a' then r1 R else r0 R).
Proof.
  intros z H. cbv zeta. pose proof (z_ok z H) as O. destruct (z_pos z H) as [P1 P2]. pose proof (Zv z H) as E. destruct z as [[s [[u g] v]] c]. cbn [secz uz vz sz fst snd] in *.
  destruct (HS (sc_data s) (sec_r R L s) (sec_c R L s) u g v (ok_sh R L p k dql t n dm s O) P1 P2 E) as (_ & A & B & C & D & F). auto.
Qed.
Lemma fz_UV : forall z, In z zs -> nshape (fst (snd (fz z))) = [sec_r R L (secz z); Z.of_nat (length (pz z))] /\ nshape (snd (snd (fz z))) = [Z.of_nat (length (pz z)); sec_c R L (secz z)].
Proof.
  intros z H. destruct (z_svd z H) as (A & B & _). destruct z as [[s [[u g] v]] c]. cbn [secz uz vz sz fst snd] in *. split.
  - exact (proj1 (absorbed_U R L K emb sqrtK scr cj cj_emb emb_add emb_mul s u v g _ c fac A ab)).
  - exact (proj1 (absorbed_V R L K emb sqrtK scr cj cj_emb emb_add emb_mul s u v g _ c fac B ab)).
Qed.
Lemma fz_q : forall z, fst (fz z) = secz z. Proof. intros [[s [[u g] v]] c]. reflexivity. Qed.
Lemma fz_width : forall z, In z zs -> width R L (fz z) = Z.of_nat (length (pz z)).
Proof. intros z H. unfold width. rewrite (proj1 (fz_UV z H)). reflexivity. Qed.
Lemma live_in : forall z, In z live -> In z zs /\ 0 < Z.of_nat (length (pz z)).
Proof. intros z H. apply filter_In in H. destruct H as [H A]. split; [exact H|]. unfold alive in A. destruct (Nat.eqb_spec (length (pz z)) 0); [discriminate|lia]. Qed.
Lemma F : forall f, In f fs -> fac_ok R L p k dql t n dm f.
Proof.
  intros f Hf. apply in_map_iff in Hf. destruct Hf as (z & <- & Hz). apply live_in in Hz. destruct Hz as [Hz Hw]. unfold fac_ok. rewrite (fz_width z Hz), fz_q. destruct (fz_UV z Hz) as [A B].
  split; [now apply z_ok|]. split; [exact Hw|]. split; [exact A|exact B].
Qed.
Lemma live_nodup : NoDup (map (fun z => sc_q (secz z)) live).
Proof.
  pose proof z_nodup as N. clear -N. induction zs as [|z l IH]; [constructor|]. cbn [map filter] in *. apply NoDup_cons_iff in N. destruct N as [N1 N2]. destruct (alive z); [|auto]. cbn [map]. constructor; [|auto].
  intros H. apply N1. apply in_map_iff in H. destruct H as (y & E & Hy). apply in_map_iff. exists y. split; [exact E|]. now apply filter_In in Hy.
Qed.
Lemma N : NoDup (map (fun f => sc_q (fst f)) fs).
Proof. rewrite map_map. rewrite (map_ext _ (fun z => sc_q (secz z))); [exact live_nodup|]. intros z. now rewrite fz_q. Qed.
Lemma dead : forall z i j, alive z = false -> bz z i j = r0 R.
Proof.
  intros z i j H. unfold alive in H. apply negb_false_iff, Nat.eqb_eq in H. unfold bz, bmat. apply bsum_zero. intros a _. fold (pz z). destruct (pz z); [|discriminate]. cbn [existsb].
  rewrite (emb0 R K emb) by exact emb_add. ring.
Qed.
(* the labels of the new leg, with the values between the factors *)
Definition midz (z : item) (a : Z) : R := match ab with None => emb (nth (Z.to_nat a) (fst (snd (gz z))) (r0 K)) | Some _ => r1 R end.
Hypothesis Root : forall x, ab = Some x -> x <> -1 -> x <> 1 -> forall z j, In z zs -> In j (pz z) -> rmul K (sqrtK (rmul K (at_ z j) fac)) (sqrtK (rmul K (at_ z j) fac)) = rmul K (at_ z j) fac.
Lemma z_prod : forall z i j, In z zs -> 0 <= i < sec_r R L (secz z) -> 0 <= j < sec_c R L (secz z) ->
  bsum (zrange (width R L (fz z))) (fun a => nget (fst (snd (fz z))) [i; a] *' midz z a *' nget (snd (snd (fz z))) [a; j]) = bz z i j.
Proof.
  intros z i j H Hi Hj. rewrite (fz_width z H). destruct (z_svd z H) as (A & B & _). pose proof (fun x E E1 E2 j => Root x E E1 E2 z j H) as Rt. destruct z as [[s [[u g] v]] c]. cbn [secz uz vz sz fst snd] in *.
  exact (piece_prod R L K emb sqrtK scr cj cj_emb emb_add emb_mul s u v g _ _ c fac A B ab Rt i j Hi Hj).
Qed.
Lemma at_pos_ext : forall s ql xl qr xr (f g : Z -> Z -> R), sec_ok s -> (forall i j, 0 <= i < sec_r R L s -> 0 <= j < sec_c R L s -> f i j = g i j) ->
  at_pos R (rpos R L s ql xl) (cpos R L s qr xr) f = at_pos R (rpos R L s ql xl) (cpos R L s qr xr) g.
Proof.
  intros s ql xl qr xr f g O E. destruct (rpos R L s ql xl) as [i|] eqn:Ei; [|reflexivity]. destruct (cpos R L s qr xr) as [j|] eqn:Ej; [|reflexivity]. cbn [at_pos].
  apply E; [eapply rpos_range; eauto|eapply cpos_range; eauto].
Qed.
Lemma live_sum : forall ql xl qr xr, bsum live (fun z => at_pos R (rpos R L (secz z) ql xl) (cpos R L (secz z) qr xr) (bz z)) = bsum zs (fun z => at_pos R (rpos R L (secz z) ql xl) (cpos R L (secz z) qr xr) (bz z)).
Proof.
  intros. rewrite bsum_filter. apply bsum_ext. intros z Hz. destruct (alive z) eqn:A; [reflexivity|]. symmetry. rewrite (at_pos_ext _ _ _ _ _ _ (fun _ _ => r0 R) (z_ok z Hz)); [|intros; now apply dead].
  unfold at_pos. destruct (rpos _ _ _ _ _); [|reflexivity]. now destruct (cpos _ _ _ _ _).
Qed.
Hypothesis Ne : live <> [].
Lemma Nf : fs <> []. Proof. intros H. apply map_eq_nil in H. contradiction. Qed.
Notation U := (fst (assemble R L p k fs)).
Notation V := (snd (assemble R L p k fs)).
Definition is_value (r : ftensor R L) : Prop := snd r = p /\ NoDup (map fst (fst r)) /\
  forall ql qr xl xr, length ql = k -> Z.of_nat (length qr) = n - Z.of_nat k -> length xl = k -> Z.of_nat (length xr) = n - Z.of_nat k ->
  elem R L (fst r) (ql ++ qr) (xl ++ xr) = bsum zs (fun z => at_pos R (rpos R L (secz z) ql xl) (cpos R L (secz z) qr xr) (bz z)).
Lemma value_some : forall fermion x, ab = Some x -> exists r, ft_tensordot R L fermion U V [-1] [0] = Some r /\ is_value r.
Proof.
  intros fermion x Ea. destruct (UV_value R L p k dql t n dm W Kn Pos Lp fs F N Nf fermion) as (r & E & E1 & E2 & _ & E3). exists r. split; [exact E|]. split; [exact E1|]. split; [exact E2|].
  intros ql qr xl xr H1 H2 H3 H4. rewrite E3 by assumption. rewrite bsum_map, <- live_sum. apply bsum_ext. intros z Hz. apply live_in in Hz. destruct Hz as [Hz _]. rewrite fz_q. apply at_pos_ext; [now apply z_ok|].
  intros i j Hi Hj. rewrite <- (z_prod z i j Hz Hi Hj). apply bsum_ext. intros a _. unfold midz. rewrite Ea. ring.
Qed.
(* the values kept as a tensor *)
Definition S : ftensor R L := (map (fun z => ([sc_q (secz z); sc_q (secz z)], diag R K emb (fst (snd (gz z))))) live, [true; false]).
Lemma gz_len : forall z, length (fst (snd (gz z))) = length (pz z).
Proof. clear Root Ne. intros z. destruct z as [[s [[u g] v]] c]. unfold gz. cbn [fst snd]. rewrite (g_vals R L K scr s u v g c fac). now rewrite map_length. Qed.
Lemma bond_z : forall z, In z live -> bond_dim R L fs (sc_q (secz z)) = Z.of_nat (length (pz z)).
Proof. clear Root Ne. intros z Hz. rewrite <- (fz_width z) by (now apply live_in in Hz). rewrite <- fz_q. apply (bond_dim_at R L p k t n dm W Kn Lp fs N). now apply in_map. Qed.
Lemma S_wf : wf_tensor R L 2 (fun _ => bond_dim R L fs) (fst S).
Proof. clear Root Ne.
  intros b Hb. apply in_map_iff in Hb. destruct Hb as (z & <- & Hz). cbn [fst snd]. split; [reflexivity|]. unfold diag. cbn [nshape]. rewrite gz_len. unfold shape_of. change (zrange 2) with [0; 1]. cbn [combine map fst snd].
  now rewrite (bond_z z Hz).
Qed.
Lemma S_elem : forall z c a a', In z live -> 0 <= a < Z.of_nat (length (pz z)) -> elem R L (fst S) [sc_q (secz z); c] [a; a'] =
  if qeqb L (sc_q (secz z)) c && (a =? a') then emb (nth (Z.to_nat a) (fst (snd (gz z))) (r0 K)) else r0 R.
Proof. clear Root Ne.
  intros z c a a' Hz Ha. unfold elem, S. cbn [fst]. rewrite bsum_map. cbn [fst snd].
  rewrite (bsum_single R _ live _ z); [|eapply NoDup_map_inv; exact live_nodup|exact Hz|].
  - destruct (tup_eqb_spec L [sc_q (secz z); sc_q (secz z)] [sc_q (secz z); c]) as [E|E].
    + injection E as E. rewrite <- E. destruct (qeqb_spec L (sc_q (secz z)) (sc_q (secz z))) as [_|X]; [|congruence]. cbn [andb].
      destruct (Z.eqb_spec a a') as [<-|D].
      * rewrite nget_in; [|unfold diag; cbn [nshape]; rewrite gz_len; repeat constructor; lia]. unfold diag. cbn [nval nth]. now rewrite Z.eqb_refl.
      * unfold nget. destruct (in_shapeb _ _); [|reflexivity]. unfold diag. cbn [nval nth]. destruct (Z.eqb_spec a a'); [congruence|reflexivity].
    + destruct (qeqb_spec L (sc_q (secz z)) c) as [<-|X]; [congruence|reflexivity].
  - intros z' Hz' D. destruct (tup_eqb_spec L [sc_q (secz z'); sc_q (secz z')] [sc_q (secz z); c]) as [E|E]; [|reflexivity]. exfalso. apply D. injection E as E _.
    pose proof live_nodup as M. clear -M Hz Hz' E. induction live as [|y l IH]; [destruct Hz|]. cbn [map] in M. apply NoDup_cons_iff in M. destruct M as [M1 M2].
    destruct Hz as [->|Hz], Hz' as [->|Hz']; auto; exfalso; apply M1; [rewrite <- E|rewrite E]; now apply (in_map (fun z => sc_q (secz z))).
Qed.
Definition midf (f : sector * (nd R * nd R)) (a : Z) : R := match find (fun z => qeqb L (sc_q (secz z)) (sc_q (fst f))) live with Some z => midz z a | None => r0 R end.
Lemma midf_z : forall z a, In z live -> midf (fz z) a = midz z a.
Proof.
  intros z a Hz. unfold midf. rewrite fz_q. pose proof live_nodup as M. clear Ne. induction live as [|y l IH]; [destruct Hz|]. cbn [map] in M. apply NoDup_cons_iff in M. destruct M as [M1 M2]. cbn [find].
  destruct (qeqb_spec L (sc_q (secz y)) (sc_q (secz z))) as [E|E].
  - destruct Hz as [->|Hz]; [reflexivity|]. exfalso. apply M1. rewrite E. now apply (in_map (fun z => sc_q (secz z))).
  - destruct Hz as [->|Hz]; [congruence|]. now apply IH.
Qed.
Lemma value_none : forall fermion, ab = None -> exists x r, ft_tensordot R L fermion U S [-1] [0] = Some x /\ ft_tensordot R L fermion x V [-1] [0] = Some r /\ is_value r.
Proof.
  intros fermion Ea. pose proof (U_wf R L p k dql t n dm W Kn Pos Lp fs F N) as UW. destruct (U_pat R L p k n Kn Lp fs) as (P1 & P2 & P3).
  pose proof (U_some R L p k dql t n dm fs F Nf) as US.
  assert (SN : fst S <> []). { unfold S. cbn [fst]. intros H. apply map_eq_nil in H. contradiction. }
  set (na := Z.of_nat k + 1) in *.
  assert (D : forall q, dmu R L k dm fs (na - 1) q = bond_dim R L fs q). { intros q. unfold dmu. destruct (Z.ltb_spec (na - 1) (Z.of_nat k)); [lia|reflexivity]. }
  assert (Sg : sign_of (snd U) (na - 1) <> sign_of (snd S) 0). { replace (na - 1) with (Z.of_nat k) by lia. rewrite P2. discriminate. }
  destruct (last_first_defined R L fermion U S na 2 (dmu R L k dm fs) (fun _ => bond_dim R L fs) UW S_wf US SN) as [x Ex]; auto; try lia.
  pose proof (last_first_wf R L fermion U S na 2 (dmu R L k dm fs) (fun _ => bond_dim R L fs) UW S_wf) as XW. specialize (XW ltac:(lia) ltac:(lia)).
  pose proof (fun E => XW E x Ex) as XW'. clear XW. specialize (XW' D).
  pose proof (last_first_pattern R L fermion U S na 2 (dmu R L k dm fs) (fun _ => bond_dim R L fs) UW S_wf US SN P1 eq_refl) as XP.
  assert (XP' : snd x = removelast (snd U) ++ [false]) by (apply XP; auto; lia). clear XP.
  assert (XE : forall ql c xl a, length ql = k -> length xl = k -> elem R L (fst x) (ql ++ [c]) (xl ++ [a]) =
    bsum fs (fun f => if qeqb L (sc_q (fst f)) c then at_row R (rpos R L (fst f) ql xl) (fun i => nget (fst (snd f)) [i; a] *' midf f a) else r0 R)).
  { intros ql c xl a H1 H2.
    rewrite (last_first_elem R L fermion U S na 2 (dmu R L k dm fs) (fun _ => bond_dim R L fs) UW S_wf) with (r := x) (Ls := map (fun f => sc_q (fst f)) fs); auto; try (cbn [length]; lia); [|exact N|].
    - rewrite bsum_map. apply bsum_ext. intros f Hf. pose proof Hf as Hf0. apply in_map_iff in Hf. destruct Hf as (z & <- & Hz). pose proof (live_in z Hz) as [Hz0 _].
      rewrite D, fz_q, (bond_z z Hz), (midf_z z a Hz).
      rewrite (bsum_ext R _ (zrange _) _ (fun y => if qeqb L (sc_q (secz z)) c && (y =? a) then at_row R (rpos R L (secz z) ql xl) (fun i => nget (fst (snd (fz z))) [i; y] *' midz z y) else r0 R)).
      + destruct (qeqb L (sc_q (secz z)) c); cbn [andb]; [|apply bsum_zero; reflexivity].
        destruct (Z_lt_dec a 0) as [O|O]; [|destruct (Z_le_dec (Z.of_nat (length (pz z))) a) as [O'|O']].
        1,2: rewrite bsum_zero; [|intros y Hy; apply in_zrange in Hy; destruct (Z.eqb_spec y a); [lia|reflexivity]]; destruct (rpos R L (secz z) ql xl); cbn [at_row]; [|reflexivity]; rewrite (col_out R _ _ _ _ a (proj1 (fz_UV z Hz0))) by lia; ring.
        rewrite (bsum_single R _ _ _ a (zrange_nodup _)); [now rewrite Z.eqb_refl|apply in_zrange; lia|]. intros y _ Hy. destruct (Z.eqb_spec y a); [congruence|reflexivity].
      + intros y Hy. apply in_zrange in Hy. rewrite (S_elem z c y a Hz Hy). rewrite (u_elem R L p k dql t n dm W Kn Pos fs F) by assumption.
        rewrite <- (fz_q z). rewrite (one_fac R L fs N (fz z)) by exact Hf0. rewrite fz_q. unfold midz. rewrite Ea.
        destruct (qeqb L (sc_q (secz z)) c && (y =? a)); [|ring]. destruct (rpos R L (secz z) ql xl); cbn [at_row]; [reflexivity|ring].
    - intros ba Hb. destruct (U_labels R L p k dql t n dm fs F ba Hb) as (f & Hf & E'). exists (sc_q (fst f)). split; [exact E'|now apply (in_map (fun f => sc_q (fst f)))]. }
  exists x.
  destruct (prod_value R L p k dql t n dm W Kn Pos Lp fs F N Nf fermion x (dm_lf L na (dmu R L k dm fs) (fun _ => bond_dim R L fs)) (fun f i a => nget (fst (snd f)) [i; a] *' midf f a)) as (r & E & E1 & E2 & _ & E3).
  - replace (Z.of_nat k + 1) with (na - 1 + (2 - 1)) by lia. exact XW'.
  - intros q. unfold dm_lf. destruct (Z.ltb_spec (Z.of_nat k) (na - 1)); [lia|reflexivity].
  - pose proof (last_first_labels R L fermion U S na 2 (dmu R L k dm fs) (fun _ => bond_dim R L fs) x UW S_wf ltac:(lia) ltac:(lia) Ex) as LL.
    destruct (fst U) as [|ba l] eqn:EU; [congruence|]. destruct (U_labels R L p k dql t n dm fs F ba) as (f & Hf & E'); [rewrite EU; now left|].
    apply in_map_iff in Hf. destruct Hf as (z & <- & Hz). rewrite fz_q in E'.
    assert (I : In (removelast (fst ba) ++ [sc_q (secz z)]) (map fst (fst x))).
    { apply LL. exists ba, ([sc_q (secz z); sc_q (secz z)], diag R K emb (fst (snd (gz z)))). split; [now left|]. split; [exact (in_map (fun z => ([sc_q (secz z); sc_q (secz z)], diag R K emb (fst (snd (gz z))))) live z Hz)|]. split; [|reflexivity].
      rewrite E'. now rewrite last_last. }
    intros X. rewrite X in I. destruct I.
  - rewrite XP', P3. split; [|split].
    + rewrite app_length. cbn [length]. rewrite firstn_length. lia.
    + unfold sign_of. rewrite app_nth2 by (rewrite firstn_length; lia). rewrite firstn_length. replace (Z.to_nat (Z.of_nat k) - Nat.min k (length p))%nat with 0%nat by lia. reflexivity.
    + apply removelast_last.
  - intros b Hb. apply (in_map fst) in Hb.
    apply (last_first_labels R L fermion U S na 2 (dmu R L k dm fs) (fun _ => bond_dim R L fs) x UW S_wf ltac:(lia) ltac:(lia) Ex) in Hb. destruct Hb as (ba & bb & Ha & Hb & C & ->).
    apply in_map_iff in Hb. destruct Hb as (z & <- & Hz). exists (fz z). split; [now apply in_map|]. cbn [fst tl]. rewrite removelast_last, fz_q. reflexivity.
  - exact XE.
  - exists r. split; [exact Ex|]. split; [exact E|]. split; [exact E1|]. split; [exact E2|].
    intros ql qr xl xr H1 H2 H3 H4. rewrite E3 by assumption. rewrite bsum_map, <- live_sum. apply bsum_ext. intros z Hz. pose proof Hz as Hl. apply live_in in Hz. destruct Hz as [Hz _]. rewrite fz_q. apply at_pos_ext; [now apply z_ok|].
    intros i j Hi Hj. rewrite <- (z_prod z i j Hz Hi Hj). apply bsum_ext. intros a _. now rewrite midf_z.
Qed.
(* norms *)
Variables (Lr Lc : list (list L)).
Hypothesis Nr : NoDup Lr.
Hypothesis Nc : NoDup Lc.
Hypothesis Kr : forall q, In q Lr -> length q = k.
Hypothesis Kc : forall q, In q Lc -> Z.of_nat (length q) = n - Z.of_nat k.
Hypothesis Hr : forall b, In b t -> In (firstn k (fst b)) Lr.
Hypothesis Hc : forall b, In b t -> In (skipn k (fst b)) Lc.
Notation grid_sum f := (bsum Lr (fun ql => bsum (all_idx (rshape L k dm ql)) (fun xl => bsum Lc (fun qr => bsum (all_idx (cshape L k n dm qr)) (fun xr => f ql xl qr xr))))).
Lemma row_len : forall ql xl, In ql Lr -> In xl (all_idx (rshape L k dm ql)) -> length xl = k.
Proof. clear Root Ne. intros ql xl H1 H2. apply in_all_idx, in_shape_length in H2. rewrite H2. apply rshape_length. now apply Kr. Qed.
Lemma col_len : forall ql xl, In ql Lc -> In xl (all_idx (cshape L k n dm ql)) -> Z.of_nat (length xl) = n - Z.of_nat k.
Proof. clear Root Ne. intros ql xl H1 H2. apply in_all_idx, in_shape_length in H2. rewrite H2. apply cshape_length; auto. Qed.
Lemma t_val : forall ql qr xl xr, length ql = k -> length xl = k -> elem R L t (ql ++ qr) (xl ++ xr) = bsum zs (fun z => at_pos R (rpos R L (secz z) ql xl) (cpos R L (secz z) qr xr) (fun i j => nget (sc_data (secz z)) [i; j])).
Proof. clear Root Ne.
  intros ql qr xl xr H1 H2. rewrite (tensor_value R L p k dql t n dm W ND Kn Pos) by assumption. rewrite <- Zs, bsum_map. apply bsum_ext. intros z Hz. apply at_pos_ext; [now apply z_ok|].
  intros i j Hi Hj. symmetry. apply nget_in. pose proof (ok_sh R L p k dql t n dm _ (z_ok z Hz)) as E. unfold secz in *. rewrite E. repeat constructor; lia.
Qed.
Lemma grid_ext : forall f g : list L -> list Z -> list L -> list Z -> R, (forall ql xl qr xr, length ql = k -> length xl = k -> Z.of_nat (length qr) = n - Z.of_nat k -> Z.of_nat (length xr) = n - Z.of_nat k -> f ql xl qr xr = g ql xl qr xr) -> grid_sum f = grid_sum g.
Proof. clear Root Ne.
  intros f g E. apply bsum_ext. intros ql H1. apply bsum_ext. intros xl H2. apply bsum_ext. intros qr H3. apply bsum_ext. intros xr H4. apply E; [now apply Kr|eapply row_len; eauto|now apply Kc|eapply col_len; eauto].
Qed.
Variable r : ftensor R L.
Hypothesis Vr : is_value r.
Notation X := (elem R L (fst r)).
Notation T := (elem R L t).
Notation sq x := (emb (rmul K x x)).
Definition kept : list K := flat_map (fun z => map (fun j => at_ z j) (pz z)) zs.
Definition trimmed : list K := flat_map (fun z => map (fun j => at_ z j) (skipn (snd z) (spos K scr (sz z)))) zs.
Definition screened : list K := flat_map (fun z => map (fun j => at_ z j) (tpos K scr (sz z))) zs.
Let cjz := cj00 R cj cj_add.
Lemma x_norm : grid_sum (fun ql xl qr xr => cj (X (ql ++ qr) (xl ++ xr)) *' X (ql ++ qr) (xl ++ xr)) = bsum kept (fun s => sq (rmul K s fac)).
Proof. clear Root Ne.
  destruct Vr as (_ & _ & V). rewrite (grid_ext _ (fun ql xl qr xr => (fun x y => cj y *' y) (bsum zs (fun z => at_pos R (rpos R L (secz z) ql xl) (cpos R L (secz z) qr xr) (bz z))) (bsum zs (fun z => at_pos R (rpos R L (secz z) ql xl) (cpos R L (secz z) qr xr) (bz z))))); [|intros; cbv beta; now rewrite V].
  rewrite (quad_sum R L p k dql t n dm W Kn Pos Lr Lc Nr Nc Hr Hc item secz zs bz bz (fun x y => cj y *' y) z_ok z_nodup); [|rewrite cjz; ring].
  unfold kept. rewrite bsum_flat_map. apply bsum_ext. intros z Hz. rewrite bsum_map. destruct (z_svd z Hz) as (A & B & C & D & E).
  exact (b_norm R K emb scr cj cj_add cj_mul cj_emb emb_add emb_mul (uz z) (vz z) (sz z) _ _ (snd z) fac D E).
Qed.
Lemma t_norm : grid_sum (fun ql xl qr xr => cj (T (ql ++ qr) (xl ++ xr)) *' T (ql ++ qr) (xl ++ xr)) = bsum (kept ++ trimmed ++ screened) (fun s => sq s).
Proof. clear Root Ne.
  rewrite (grid_ext _ (fun ql xl qr xr => (fun x y => cj y *' y) (bsum zs (fun z => at_pos R (rpos R L (secz z) ql xl) (cpos R L (secz z) qr xr) (fun i j => nget (sc_data (secz z)) [i; j]))) (bsum zs (fun z => at_pos R (rpos R L (secz z) ql xl) (cpos R L (secz z) qr xr) (fun i j => nget (sc_data (secz z)) [i; j]))))); [|intros; cbv beta; now rewrite t_val].
  rewrite (quad_sum R L p k dql t n dm W Kn Pos Lr Lc Nr Nc Hr Hc item secz zs (fun z i j => nget (sc_data (secz z)) [i; j]) (fun z i j => nget (sc_data (secz z)) [i; j]) (fun x y => cj y *' y) z_ok z_nodup); [|rewrite cjz; ring].
  unfold kept, trimmed, screened. rewrite !bsum_app, !bsum_flat_map, <- !bsum_add. apply bsum_ext. intros z Hz. rewrite !bsum_map. destruct (z_svd z Hz) as (A & B & C & D & E).
  rewrite (a_norm R K emb cj cj_add cj_mul cj_emb emb_mul (uz z) (vz z) (sz z) _ _ (sc_data (secz z)) C D E). exact (sum_split R L K scr R z (fun s => sq s)).
Qed.
Lemma d_norm : grid_sum (fun ql xl qr xr => cj (T (ql ++ qr) (xl ++ xr) +' ropp R (X (ql ++ qr) (xl ++ xr))) *' (T (ql ++ qr) (xl ++ xr) +' ropp R (X (ql ++ qr) (xl ++ xr)))) =
  bsum kept (fun s => sq (radd K s (ropp K (rmul K s fac)))) +' bsum (trimmed ++ screened) (fun s => sq s).
Proof. clear Root Ne.
  destruct Vr as (_ & _ & V). rewrite (grid_ext _ (fun ql xl qr xr => (fun x y => cj (x +' ropp R y) *' (x +' ropp R y)) (bsum zs (fun z => at_pos R (rpos R L (secz z) ql xl) (cpos R L (secz z) qr xr) (fun i j => nget (sc_data (secz z)) [i; j]))) (bsum zs (fun z => at_pos R (rpos R L (secz z) ql xl) (cpos R L (secz z) qr xr) (bz z))))); [|intros; cbv beta; now rewrite V, t_val].
  rewrite (quad_sum R L p k dql t n dm W Kn Pos Lr Lc Nr Nc Hr Hc item secz zs (fun z i j => nget (sc_data (secz z)) [i; j]) bz (fun x y => cj (x +' ropp R y) *' (x +' ropp R y)) z_ok z_nodup); [|replace (r0 R +' ropp R (r0 R)) with (r0 R) by ring; rewrite cjz; ring].
  unfold kept, trimmed, screened. rewrite !bsum_app, !bsum_flat_map, <- !bsum_add. apply bsum_ext. intros z Hz. rewrite !bsum_map. destruct (z_svd z Hz) as (A & B & C & D & E).
  exact (ab_norm R K emb sqrtK scr cj cj_add cj_mul cj_emb emb_add emb_mul (uz z) (vz z) (sz z) _ _ (snd z) fac (sc_data (secz z)) C D E).
Qed.
(* orthonormal columns and rows when the values are not absorbed on this side *)
Lemma fz_iso_l : (ab = None \/ ab = Some 1) -> forall f a a', In f fs -> 0 <= a < width R L f -> 0 <= a' < width R L f -> bsum (zrange (sec_r R L (fst f))) (fun i => cj (nget (fst (snd f)) [i; a]) *' nget (fst (snd f)) [i; a']) = if a =? a' then r1 R else r0 R.
Proof. clear Root Ne.
  intros Ha f a a' Hf H1 H2. apply in_map_iff in Hf. destruct Hf as (z & <- & Hz). apply live_in in Hz. destruct Hz as [Hz _]. rewrite (fz_width z Hz) in H1, H2. rewrite fz_q.
  destruct (z_svd z Hz) as (A & B & C & D & E). destruct z as [[s [[u g] v]] c]. cbn [secz uz vz sz fst snd] in *.
  pose proof (proj2 (absorbed_U R L K emb sqrtK scr cj cj_emb emb_add emb_mul s u v g _ c fac A ab)) as AU.
  pose proof (P_at R K emb sqrtK scr cj cj_emb emb_add emb_mul g c fac) as PA.
  rewrite (bsum_ext R _ (zrange (sec_r R L s)) _ (fun i => cj (nget u [i; nth (Z.to_nat a) (firstn c (spos K scr g)) 0]) *' nget u [i; nth (Z.to_nat a') (firstn c (spos K scr g)) 0])).
  - rewrite D by (apply PA; assumption). pose proof (kpos_nodup R L K scr (s, (u, g, v), c)) as ND'. change (NoDup (firstn c (spos K scr g))) in ND'. destruct (Z.eqb_spec a a') as [->|Na]; [now rewrite Z.eqb_refl|].
    destruct (Z.eqb_spec (nth (Z.to_nat a) (firstn c (spos K scr g)) 0) (nth (Z.to_nat a') (firstn c (spos K scr g)) 0)) as [En|]; [|reflexivity]. exfalso. apply Na.
    change (pz (s, (u, g, v), c)) with (firstn c (spos K scr g)) in H1, H2. assert (Z.to_nat a = Z.to_nat a') by (eapply (proj1 (NoDup_nth _ 0) ND'); [lia|lia|exact En]). lia.
  - intros i Hi. apply in_zrange in Hi. change (fst (snd (fz (s, (u, g, v), c)))) with (fst (absorbed R L K emb sqrtK scr s u v g c fac ab)). rewrite !AU by assumption.
    assert (M : forall y, fst (mul_of R L K emb sqrtK scr s u v g c fac ab) y = r1 R) by (destruct Ha as [-> | ->]; reflexivity). rewrite !M, cj_mul.
    assert (C1 : nget u [i; nth (Z.to_nat a) (firstn c (spos K scr g)) 0] *' r1 R = nget u [i; nth (Z.to_nat a) (firstn c (spos K scr g)) 0]) by ring. rewrite <- cj_mul, C1. ring.
Qed.
Lemma fz_iso_r : (ab = None \/ ab = Some (-1)) -> forall f a a', In f fs -> 0 <= a < width R L f -> 0 <= a' < width R L f -> bsum (zrange (sec_c R L (fst f))) (fun i => cj (nget (snd (snd f)) [a; i]) *' nget (snd (snd f)) [a'; i]) = if a =? a' then r1 R else r0 R.
Proof. clear Root Ne.
  intros Ha f a a' Hf H1 H2. apply in_map_iff in Hf. destruct Hf as (z & <- & Hz). apply live_in in Hz. destruct Hz as [Hz _]. rewrite (fz_width z Hz) in H1, H2. rewrite fz_q.
  destruct (z_svd z Hz) as (A & B & C & D & E). destruct z as [[s [[u g] v]] c]. cbn [secz uz vz sz fst snd] in *.
  pose proof (proj2 (absorbed_V R L K emb sqrtK scr cj cj_emb emb_add emb_mul s u v g _ c fac B ab)) as AV.
  pose proof (P_at R K emb sqrtK scr cj cj_emb emb_add emb_mul g c fac) as PA.
  rewrite (bsum_ext R _ (zrange (sec_c R L s)) _ (fun i => nget v [nth (Z.to_nat a') (firstn c (spos K scr g)) 0; i] *' cj (nget v [nth (Z.to_nat a) (firstn c (spos K scr g)) 0; i]))).
  - rewrite E by (apply PA; assumption). pose proof (kpos_nodup R L K scr (s, (u, g, v), c)) as ND'. change (NoDup (firstn c (spos K scr g))) in ND'. destruct (Z.eqb_spec a a') as [->|Na]; [now rewrite Z.eqb_refl|].
    destruct (Z.eqb_spec (nth (Z.to_nat a') (firstn c (spos K scr g)) 0) (nth (Z.to_nat a) (firstn c (spos K scr g)) 0)) as [En|]; [|reflexivity]. exfalso. apply Na.
    change (pz (s, (u, g, v), c)) with (firstn c (spos K scr g)) in H1, H2. assert (Z.to_nat a' = Z.to_nat a) by (eapply (proj1 (NoDup_nth _ 0) ND'); [lia|lia|exact En]). lia.
  - intros i Hi. apply in_zrange in Hi. change (snd (snd (fz (s, (u, g, v), c)))) with (snd (absorbed R L K emb sqrtK scr s u v g c fac ab)). rewrite !AV by assumption.
    assert (M : forall y, snd (mul_of R L K emb sqrtK scr s u v g c fac ab) y = r1 R) by (destruct Ha as [-> | ->]; reflexivity). rewrite !M.
    assert (C1 : nget v [nth (Z.to_nat a) (firstn c (spos K scr g)) 0; i] *' r1 R = nget v [nth (Z.to_nat a) (firstn c (spos K scr g)) 0; i]) by ring. rewrite C1. ring.
Qed.
(* dimension of the new leg *)
Lemma bond_total : zsum (map (bond_dim R L fs) (map (fun f => sc_q (fst f)) fs)) = Z.of_nat (length kept).
Proof. clear Root Ne.
  rewrite !map_map. rewrite (map_ext_in _ (fun z => Z.of_nat (length (pz z)))) by (intros z Hz; rewrite fz_q; now apply bond_z).
  unfold kept, live. clear. induction zs as [|z l IH]; [reflexivity|]. cbn [filter flat_map]. rewrite app_length, map_length, Nat2Z.inj_add, <- IH.
  destruct (alive z) eqn:E; [reflexivity|]. unfold alive in E. apply negb_false_iff, Nat.eqb_eq in E. rewrite E. reflexivity.
Qed.
(* the tensor of the kept values *)
Lemma S_off : forall c c' a a', c <> c' \/ a <> a' -> elem R L (fst S) [c; c'] [a; a'] = r0 R.
Proof.
  clear Root Ne. intros c c' a a' H. unfold elem, S. cbn [fst]. rewrite bsum_map. cbn [fst snd]. apply bsum_zero. intros z _.
  destruct (tup_eqb_spec L [sc_q (secz z); sc_q (secz z)] [c; c']) as [E|]; [|reflexivity]. injection E as E1 E2. destruct H as [H|H]; [congruence|].
  unfold nget. destruct (in_shapeb _ _); [|reflexivity]. unfold diag. cbn [nval nth]. destruct (Z.eqb_spec a a'); [congruence|reflexivity].
Qed.
Lemma S_list : flat_map (fun c => map (fun a => elem R L (fst S) [c; c] [a; a]) (zrange (bond_dim R L fs c))) (map (fun f => sc_q (fst f)) fs) = map (fun x => emb (rmul K x fac)) kept.
Proof.
  clear Root Ne. rewrite map_map.
  assert (G : forall l, (forall z, In z l -> In z zs) -> flat_map (fun c => map (fun a => elem R L (fst S) [c; c] [a; a]) (zrange (bond_dim R L fs c))) (map (fun z => sc_q (fst (fz z))) (filter alive l)) = map (fun x => emb (rmul K x fac)) (flat_map (fun z => map (fun j => at_ z j) (pz z)) l)); [|now apply G].
  induction l as [|z l IH]; intros Hl; [reflexivity|]. cbn [filter flat_map]. rewrite map_app, map_map, <- IH by (intros; apply Hl; now right).
  destruct (alive z) eqn:A.
  - assert (Hz : In z live) by (apply filter_In; split; [apply Hl; now left|exact A]). cbn [map flat_map]. f_equal. rewrite fz_q, (bond_z z Hz).
    apply nth_ext with (d := r0 R) (d' := r0 R); [now rewrite !map_length, zrange_length, Nat2Z.id|]. intros i Hi. rewrite map_length, zrange_length, Nat2Z.id in Hi.
    rewrite <- (Nat2Z.id i) at 1. rewrite nth_zrange_map by lia. rewrite S_elem by (auto; lia). destruct (qeqb_spec L (sc_q (secz z)) (sc_q (secz z))) as [_|X]; [|congruence]. rewrite Z.eqb_refl. cbn [andb].
    assert (Gv : fst (snd (gz z)) = map (fun j => rmul K (at_ z j) fac) (pz z)) by (destruct z as [[s [[u g] v]] c]; exact (g_vals R L K scr s u v g c fac)).
    rewrite Gv, Nat2Z.id. rewrite (nth_indep _ (r0 K) (rmul K (at_ z 0) fac)) by (rewrite map_length; lia). rewrite (map_nth (fun j => rmul K (at_ z j) fac) _ 0).
    rewrite (nth_indep _ (r0 R) (emb (rmul K (at_ z 0) fac))) by (rewrite map_length; lia). now rewrite (map_nth (fun j => emb (rmul K (at_ z j) fac)) _ 0).
  - assert (E : pz z = []) by (unfold alive in A; apply negb_false_iff, Nat.eqb_eq in A; now destruct (pz z)). now rewrite E.
Qed.
Lemma S_nodup : NoDup (map fst (fst S)).
Proof.
  clear Root Ne. unfold S. cbn [fst]. rewrite map_map. cbn [fst]. pose proof live_nodup as M. induction live as [|z l IH]; [constructor|]. cbn [map] in *. apply NoDup_cons_iff in M. destruct M as [M1 M2]. constructor; [|now apply IH].
  intros H. apply M1. apply in_map_iff in H. destruct H as (z' & E & Hz). injection E as E. apply in_map_iff. eauto.
Qed.
Lemma kept_scr : forall x, In x (kept ++ trimmed) -> olt scr x.
Proof.
  clear Root Ne. intros x H. unfold kept, trimmed in H. apply in_app_or in H. destruct H as [H|H]; apply in_flat_map in H; destruct H as (z & _ & H); apply in_map_iff in H; destruct H as (j & <- & H); apply (spos_range K scr).
  - unfold pz in H. now apply in_firstn' in H. - rewrite <- (firstn_skipn (snd z)). apply in_or_app. now right.
Qed.
Lemma screened_scr : forall x, In x screened -> ole x scr.
Proof. clear Root Ne. intros x H. apply in_flat_map in H. destruct H as (z & _ & H). apply in_map_iff in H. destruct H as (j & <- & H). apply filter_In in H. destruct H as [_ H]. unfold oltb in H. now rewrite negb_involutive in H. Qed.
Lemma kept_in : forall z j, In z zs -> In j (pz z) -> In (at_ z j) kept.
Proof. clear Root Ne. intros z j Hz Hj. apply in_flat_map. exists z. split; [exact Hz|]. now apply (in_map (fun j => at_ z j)). Qed.
Lemma kept_some : live <> [] -> kept <> [].
Proof. clear Root Ne. intros H E. destruct live as [|z l] eqn:El; [congruence|]. assert (Hz : In z live) by (rewrite El; now left). apply live_in in Hz. destruct Hz as [H1 H2]. destruct (pz z) as [|j q] eqn:Ez; [cbn in H2; lia|]. pose proof (kept_in z j H1) as X. rewrite Ez, E in X. destruct X. now left. Qed.
End Whole.
