(** Lemmas for C32: MPS addition, scaling, overlaps. *)
From Coq Require Import ZArith Bool List Lia Permutation Ring.
From Verif Require Import SymModel SymProofs DictLib IndexLib OptLib RingLib BondModel BondProofs FuseModel FuseProofs FuseTProofs BlockModel BlockProofs BlockProps StructModel StructProofs SumProofs StructProps MpsModel MpsChain.
Import ListNotations.
Open Scope Z_scope.

Section MpsP.
Variable R : CRing.
Add Ring Rr2 : (rth R).
Variable L : Label.
Notation tensor := (list (list L * nd R)).
Notation site := (site R L).
Notation state := (L * Z)%type.
Notation binfo := (dict L Z).
Notation "0'" := (r0 R).
Infix "+'" := (radd R) (at level 50, left associativity).
Infix "*'" := (rmul R) (at level 40, left associativity).
Notation teqb := (tup_eqb L).
Notation tspec := (tup_eqb_spec L).

Definition q_dec : forall a b : L, {a = b} + {a <> b} := fun x y => match qeqb_spec L x y with ReflectT _ e => left e | ReflectF _ e => right e end.
Definition st_dec : forall a b : state, {a = b} + {a <> b}.
Proof. intros [q x] [q' x']. destruct (q_dec q q'), (Z.eq_dec x x'); [left|right|right|right]; congruence. Defined.

Lemma elem_out : forall (t : tensor) qs xs, (forall b, In b t -> fst b = qs -> ~ in_shape (nshape (snd b)) xs) -> elem R L t qs xs = 0'.
Proof.
  intros t qs xs H. unfold elem. apply bsum_zero. intros b Hb. destruct (tspec (fst b) qs) as [E|N]; [|reflexivity].
  unfold nget. destruct (in_shapeb (nshape (snd b)) xs) eqn:X; [|reflexivity]. apply in_shapeb_spec in X. exfalso. eapply H; eauto.
Qed.

Section OneSite.
Variables (n : Z) (dl : L -> Z) (dp : Z -> L -> Z) (dr : L -> Z) (s : site).
Hypothesis W : wf_site n dl dp dr s.
Lemma site_block : forall odd b, In b (part s odd) -> exists ql qm qr, fst b = ql :: qm ++ [qr] /\ Z.of_nat (length qm) = n - 2 /\
  (exists m, nshape (snd b) = dl ql :: m ++ [dr qr] /\ length m = length qm) /\ 0 < dl ql /\ 0 < dr qr.
Proof.
  intros odd b Hb. destruct W as [Hn H]. destruct (H odd) as (Wt & Pos & _). destruct (Wt b Hb) as [Lb Sb].
  destruct (ends L (q0 L) (fst b)) as (ql & qm & qr & E & Lm); [lia|]. exists ql, qm, qr. split; [exact E|]. split; [lia|].
  assert (Sh: nshape (snd b) = dl ql :: shape_of L (ldim L n dl dp dr) (map (fun i => 1 + i) (zrange (n - 2))) qm ++ [dr qr]).
  { rewrite Sb, E, shape_ends by lia. unfold ldim at 1 3. rewrite Z.eqb_refl. replace (n - 1 =? 0) with false by lia. now rewrite Z.eqb_refl. }
  split; [|]. { eexists. split; [exact Sh|]. rewrite shape_of_length, map_length, zrange_length. lia. }
  specialize (Pos b Hb). rewrite Sh in Pos. inversion Pos as [|x l P1 P2]; subst. split; [exact P1|]. apply Forall_app in P2. destruct P2 as [_ P2]. now inversion P2.
Qed.
Lemma selem_left : forall p l r, ~ (In (fst l) (firsts s) /\ 0 <= snd l < dl (fst l)) -> selem s p l r = 0'.
Proof.
  intros p l r H. unfold selem. apply elem_out. intros b Hb E X. destruct (site_block _ b Hb) as (ql & qm & qr & E' & Lm & (m & Sh & _) & _).
  assert (Eq: ql = fst l) by congruence. rewrite Sh in X. inversion X; subst. apply H. split; [|assumption].
  unfold firsts. apply in_map_iff. exists b. rewrite E'. split; [reflexivity|]. unfold blocks. apply in_app_iff. destruct (fst p); auto.
Qed.
Lemma selem_right : forall p l r, ~ (In (fst r) (lasts s) /\ 0 <= snd r < dr (fst r)) -> selem s p l r = 0'.
Proof.
  intros p l r H. unfold selem. apply elem_out. intros b Hb E X. destruct (site_block _ b Hb) as (ql & qm & qr & E' & Lm & (m & Sh & Lmm) & _).
  rewrite E' in E. injection E as E1 E2. apply app_inj_tail in E2. destruct E2 as [E2 E3]. rewrite Sh in X. inversion X as [|? ? ? ? _ X']; subst.
  apply Forall2_app_inv_l in X'. destruct X' as (xa & xb & Xa & Xb & Ex). inversion Xb as [|? y ? ? Xy Xn]; subst. inversion Xn; subst. apply app_inj_tail in Ex. destruct Ex as [_ Ex]. subst y.
  apply H. split; [|assumption].
  unfold lasts. apply in_map_iff. exists b. rewrite E'. split; [change (fst l :: map fst (snd p) ++ [fst r]) with ((fst l :: map fst (snd p)) ++ [fst r]); apply last_last|]. unfold blocks. apply in_app_iff. destruct (fst p); auto.
Qed.
Lemma selem_len : forall p l r, Z.of_nat (length (snd p)) <> n - 2 -> selem s p l r = 0'.
Proof.
  intros p l r H. unfold selem. apply elem_out. intros b Hb E _. destruct (site_block _ b Hb) as (ql & qm & qr & E' & Lm & _). rewrite E' in E. injection E as _ E.
  apply (f_equal (@length _)) in E. rewrite !app_length, map_length in E. cbn in E. lia.
Qed.
Lemma wf_part_infos : forall odd, part s odd <> [] -> exists ds, sp_infos R L (part s odd) = Some ds /\ Z.of_nat (length ds) = n /\ ndim R L (part s odd) = n /\
  wf L (nth 0 ds []) /\ wf L (last ds []) /\
  (forall q, bget L (nth 0 ds []) q = if in_dec q_dec q (map (fun b => nth 0 (fst b) (q0 L)) (part s odd)) then dl q else 0) /\
  (forall q, bget L (last ds []) q = if in_dec q_dec q (map (fun b => last (fst b) (q0 L)) (part s odd)) then dr q else 0).
Proof.
  intros odd Ne. destruct W as [Hn H]. destruct (H odd) as (Wt & Pos & _).
  destruct (c46_infos R L n _ (part s odd) Ne Wt) as (ds & E & Ld & D & _). exists ds. split; [exact E|]. split; [exact Ld|]. split; [now apply (ndim_wf R L n _ _ Wt)|].
  assert (K: forall i q v, 0 <= i < n -> In (q, v) (nth (Z.to_nat i) ds []) -> 0 < v).
  { intros i q v Hi Hq. apply (proj2 (D i Hi)) in Hq. destruct Hq as (b & Hb & _ & <-). destruct (wf_shape_length R L n _ _ b Wt Hb) as [Ls _]. specialize (Pos b Hb). rewrite Forall_forall in Pos. apply Pos. apply nth_In. lia. }
  rewrite last_nth. replace (length ds - 1)%nat with (Z.to_nat (n - 1)) by lia. change (nth 0 ds []) with (nth (Z.to_nat 0) ds []).
  assert (WW: forall i, 0 <= i < n -> wf L (nth (Z.to_nat i) ds [])).
  { intros i Hi. split; [apply (proj1 (D i Hi))|]. intros [q v] Hq. eapply K; eauto. }
  split; [apply WW; lia|]. split; [apply WW; lia|].
  assert (G: forall i q v, 0 <= i < n -> In (q, v) (nth (Z.to_nat i) ds []) -> bget L (nth (Z.to_nat i) ds []) q = v).
  { intros i q v Hi Hq. unfold bget. now rewrite (in_dget _ (qeqb_spec L) _ q v (proj1 (D i Hi)) Hq). }
  assert (G0: forall i q, 0 <= i < n -> (forall v, ~ In (q, v) (nth (Z.to_nat i) ds [])) -> bget L (nth (Z.to_nat i) ds []) q = 0).
  { intros i q Hi Hq. unfold bget. destruct (dget (qeqb L) (nth (Z.to_nat i) ds []) q) as [v|] eqn:Ev; [|reflexivity]. apply (dget_in _ (qeqb_spec L)) in Ev. destruct (Hq v Ev). }
  split; intros q; destruct (in_dec q_dec q _) as [I|I].
  - apply in_map_iff in I. destruct I as (b & Eb & Hb). apply G; [lia|]. apply (proj2 (D 0 ltac:(lia))). exists b. split; [exact Hb|]. split; [exact Eb|].
    destruct (site_block odd b Hb) as (ql & qm & qr & E' & _ & (m & Sh & _) & _). rewrite Sh. rewrite E' in Eb. cbn in Eb |- *. congruence.
  - apply G0; [lia|]. intros v Hv. apply (proj2 (D 0 ltac:(lia))) in Hv. destruct Hv as (b & Hb & Eb & _). apply I. apply in_map_iff. exists b. now split.
  - apply in_map_iff in I. destruct I as (b & Eb & Hb). apply G; [lia|]. apply (proj2 (D (n - 1) ltac:(lia))). exists b. split; [exact Hb|].
    destruct (site_block odd b Hb) as (ql & qm & qr & E' & Lm & (m & Sh & Lm') & _). rewrite Sh, E' in *. replace (Z.to_nat (n - 1)) with (length qm + 1)%nat by lia. rewrite nth_ends.
    change (ql :: qm ++ [qr]) with ((ql :: qm) ++ [qr]) in Eb. rewrite last_last in Eb. subst qr. split; [reflexivity|]. rewrite <- Lm'. apply nth_ends.
  - apply G0; [lia|]. intros v Hv. apply (proj2 (D (n - 1) ltac:(lia))) in Hv. destruct Hv as (b & Hb & Eb & _). apply I. apply in_map_iff. exists b. split; [|auto].
    destruct (site_block odd b Hb) as (ql & qm & qr & E' & Lm & _). rewrite E' in *. replace (Z.to_nat (n - 1)) with (length qm + 1)%nat in Eb by lia. rewrite nth_ends in Eb.
    change (ql :: qm ++ [qr]) with ((ql :: qm) ++ [qr]). now rewrite last_last.
Qed.
Lemma end_infos_spec : s_nblocks R L s <> O -> exists i0 i1, end_infos R L s = Some (i0, i1) /\ wf L i0 /\ wf L i1 /\
  (forall q, bget L i0 q = if in_dec q_dec q (firsts s) then dl q else 0) /\ (forall q, bget L i1 q = if in_dec q_dec q (lasts s) then dr q else 0).
Proof.
  intros Ne. assert (Hn: 2 <= n) by apply W.
  assert (ED: forall (P Q : Prop) (x : Z) (d1 : {P} + {~ P}) (d2 : {Q} + {~ Q}), (P <-> Q) -> (if d1 then x else 0) = (if d2 then x else 0)) by (intros P Q x [] []; tauto).
  assert (One: forall (ds : list binfo) odd, (forall b, In b (blocks s) <-> In b (part s odd)) -> length ds <> O -> wf L (nth 0 ds []) -> wf L (last ds []) ->
    (forall q, bget L (nth 0 ds []) q = if in_dec q_dec q (map (fun b => nth 0 (fst b) (q0 L)) (part s odd)) then dl q else 0) ->
    (forall q, bget L (last ds []) q = if in_dec q_dec q (map (fun b => last (fst b) (q0 L)) (part s odd)) then dr q else 0) ->
    exists i0 i1 : binfo, match ds with [] => None | i0 :: _ => Some (i0, last ds []) end = Some (i0, i1) /\ wf L i0 /\ wf L i1 /\
  (forall q, bget L i0 q = if in_dec q_dec q (firsts s) then dl q else 0) /\ (forall q, bget L i1 q = if in_dec q_dec q (lasts s) then dr q else 0)).
  { intros ds odd HB Ld W0 W1 G0 G1. destruct ds as [|d ds]; [now destruct Ld|]. exists d, (last (d :: ds) []). split; [reflexivity|]. split; [exact W0|]. split; [exact W1|].
    split; intros q; [change d with (nth 0 (d :: ds) []); rewrite G0|rewrite G1]; apply ED; unfold firsts, lasts; rewrite !in_map_iff; split; intros (b & Eb & Hb); exists b; (split; [exact Eb|]); now apply HB. }
  unfold end_infos, s_infos. destruct s as [t|o e] eqn:Es; rewrite <- Es in *.
  - assert (Ep: part s false = t) by now rewrite Es. assert (Et: t <> []) by (intros ->; apply Ne; now rewrite Es). rewrite <- Ep in Et.
    destruct (wf_part_infos false Et) as (ds & E & Ld & _ & W0 & W1 & G0 & G1). rewrite <- Ep, E. cbn [bind].
    apply (One ds false); auto; [|lia]. intros b. unfold blocks. rewrite Es. cbn. reflexivity.
  - assert (Eo: part s true = o) by now rewrite Es. assert (Ee: part s false = e) by now rewrite Es.
    destruct o as [|bo o']; [|destruct e as [|be e']].
    + cbn [ndim]. rewrite Z.eqb_refl. assert (He: part s false <> []) by (rewrite Ee; intros ->; apply Ne; now rewrite Es).
      destruct (wf_part_infos false He) as (ds & E & Ld & _ & W0 & W1 & G0 & G1). rewrite <- Ee, E. cbn [bind]. apply (One ds false); auto; [|lia]. intros b. unfold blocks. rewrite Es. cbn. reflexivity.
    + assert (Ho: part s true <> []) by (rewrite Eo; discriminate). destruct (wf_part_infos true Ho) as (ds & E & Ld & En & W0 & W1 & G0 & G1). rewrite <- Eo, En. replace (n =? 0) with false by lia.
      change (ndim R L [] =? 0) with true. cbv iota. rewrite E. cbn [bind]. apply (One ds true); auto; [|lia]. intros b. unfold blocks. rewrite Es. cbn. rewrite app_nil_r. reflexivity.
    + assert (Ho: part s true <> []) by (rewrite Eo; discriminate). assert (He: part s false <> []) by (rewrite Ee; discriminate).
      destruct (wf_part_infos true Ho) as (ds & E & Ld & En & W0 & W1 & G0 & G1). destruct (wf_part_infos false He) as (ds' & E' & Ld' & En' & W0' & W1' & G0' & G1').
      rewrite <- Eo, <- Ee, En, En'. replace (n =? 0) with false by lia. cbv iota. rewrite E, E'. cbn [bind].
      destruct ds as [|d ds]; [cbn in Ld; lia|]. destruct ds' as [|d' ds']; [cbn in Ld'; lia|]. cbn [zip_with]. exists (bor L d d'), (bor L (last (d :: ds) []) (last (d' :: ds') [])).
      assert (El: forall (u v : list binfo) a b, length u = length v -> last (bor L a b :: zip_with (bor L) u v) [] = bor L (last (a :: u) []) (last (b :: v) [])).
      { induction u as [|x u IH]; intros [|y v] a b Hl; try discriminate; [reflexivity|]. change (last (zip_with (bor L) (x :: u) (y :: v)) [] = bor L (last (x :: u) []) (last (y :: v) [])). cbn [zip_with]. apply IH. now injection Hl. }
      split; [f_equal; f_equal; apply El; cbn [length] in *; lia|]. split; [apply bor_wf|]. split; [apply bor_wf|]. cbn [nth] in *.
      split; intros q; rewrite bor_get by auto; [rewrite G0, G0'|rewrite G1, G1']; unfold firsts, lasts, blocks; rewrite map_app.
      * destruct (in_dec q_dec q (_ ++ _)) as [I|I]; rewrite in_app_iff in I; destruct (in_dec q_dec q (map _ (part s true))) as [I1|I1], (in_dec q_dec q (map _ (part s false))) as [I2|I2]; try tauto.
        all: try (apply in_map_iff in I1; destruct I1 as (b & Eb & Hb); destruct (site_block true b Hb) as (ql & qm & qr & E2 & _ & _ & P1 & P2); rewrite E2 in Eb; cbn in Eb; subst q; lia).
        apply in_map_iff in I2; destruct I2 as (b & Eb & Hb); destruct (site_block false b Hb) as (ql & qm & qr & E2 & _ & _ & P1 & P2); rewrite E2 in Eb; cbn in Eb; subst q; lia.
      * assert (LE: forall (ql qr : L) qm, last (ql :: qm ++ [qr]) (q0 L) = qr) by (intros; change (ql :: qm ++ [qr]) with ((ql :: qm) ++ [qr]); apply last_last).
        destruct (in_dec q_dec q (_ ++ _)) as [I|I]; rewrite in_app_iff in I; destruct (in_dec q_dec q (map _ (part s true))) as [I1|I1], (in_dec q_dec q (map _ (part s false))) as [I2|I2]; try tauto.
        all: try (apply in_map_iff in I1; destruct I1 as (b & Eb & Hb); destruct (site_block true b Hb) as (ql & qm & qr & E2 & _ & _ & P1 & P2); rewrite E2, LE in Eb; subst q; lia).
        apply in_map_iff in I2; destruct I2 as (b & Eb & Hb); destruct (site_block false b Hb) as (ql & qm & qr & E2 & _ & _ & P1 & P2); rewrite E2, LE in Eb; subst q; lia.
Qed.
End OneSite.

Definition shift (o : L -> Z) (s : state) : state := (fst s, snd s - o (fst s)).

Lemma ldim_0 : forall n dl dp dr q, ldim L n dl dp dr 0 q = dl q.
Proof. intros. reflexivity. Qed.
Lemma ldim_last : forall n dl dp dr q, 2 <= n -> ldim L n dl dp dr (n - 1) q = dr q.
Proof. intros. unfold ldim. replace (n - 1 =? 0) with false by lia. now rewrite Z.eqb_refl. Qed.
Lemma ldim_mid : forall n dl dp dr i q, 0 < i < n - 1 -> ldim L n dl dp dr i q = dp i q.
Proof. intros. unfold ldim. replace (i =? 0) with false by lia. now replace (i =? n - 1) with false by lia. Qed.
Lemma in_firsts : forall (s : site) odd ql r v, In (ql :: r, v) (part s odd) -> In ql (firsts s).
Proof. intros s odd ql r v H. apply in_map_iff. exists (ql :: r, v). split; [reflexivity|]. unfold blocks. apply in_app_iff. destruct odd; auto. Qed.
Lemma in_lasts : forall (s : site) odd l qr v, In (l ++ [qr], v) (part s odd) -> In qr (lasts s).
Proof. intros s odd l qr v H. apply in_map_iff. exists (l ++ [qr], v). split; [apply last_last|]. unfold blocks. apply in_app_iff. destruct odd; auto. Qed.

Lemma site_kron : forall n dla dlb dp dra drb lb rb (x y : site), wf_site n dla dp dra x -> wf_site n dlb dp drb y -> kind x = kind y ->
  (forall q, In q (firsts x) -> dla q <= bget L lb q) -> (forall q, In q (lasts x) -> dra q <= bget L rb q) ->
  (forall q, In q (firsts y) -> dlb q <= bget L lb q) -> (forall q, In q (lasts y) -> drb q <= bget L rb q) ->
  exists c, s_kron_add R L lb rb x y = Some c /\ kind c = kind x /\ wf_site n (bget L lb) dp (bget L rb) c /\
    (forall p l r, selem c p l r = selem x p l r +' selem y p (shift (fun q => bget L lb q - dlb q) l) (shift (fun q => bget L rb q - drb q) r)) /\
    (s_nblocks R L x <> O -> s_nblocks R L c <> O) /\
    (forall q, In q (firsts c) -> In q (firsts x) \/ In q (firsts y)) /\ (forall q, In q (lasts c) -> In q (lasts x) \/ In q (lasts y)).
Proof.
  intros n dla dlb dp dra drb lb rb x y Wx Wy K Fx Lx Fy Ly. assert (Hn: 2 <= n) by apply Wx.
  assert (C: exists c, s_kron_add R L lb rb x y = Some c /\ kind c = kind x /\ forall odd, part c odd = sp_kron_add_with R L lb rb (part x odd) (part y odd)).
  { destruct x as [t|o e], y as [t'|o' e']; try discriminate; eexists; (split; [reflexivity|]); (split; [reflexivity|]); intros []; reflexivity. }
  destruct C as (c & Ec & Kc & Pc). exists c. split; [exact Ec|]. split; [exact Kc|].
  assert (KS: forall odd, NoDup (map fst (part c odd)) /\ (forall qs, In qs (map fst (part c odd)) <-> In qs (map fst (part x odd)) \/ In qs (map fst (part y odd))) /\
    shaped R L (ksh L n (ldim L n dla dp dra) lb rb) (part c odd) /\
    forall ql qm qr xl xm xr, Z.of_nat (length qm) = n - 2 -> Z.of_nat (length xm) = n - 2 ->
    elem R L (part c odd) (ql :: qm ++ [qr]) (xl :: xm ++ [xr]) =
    elem R L (part x odd) (ql :: qm ++ [qr]) (xl :: xm ++ [xr]) +' elem R L (part y odd) (ql :: qm ++ [qr]) (xl - (bget L lb ql - dlb ql) :: xm ++ [xr - (bget L rb qr - drb qr)])).
  { intros odd. rewrite Pc. destruct (kron_add_spec R L n (ldim L n dla dp dra) (ldim L n dlb dp drb) (part x odd) (part y odd) lb rb Hn) as (A & B & C & D).
    - apply Wx. - apply Wy. - intros i q Hi. now rewrite !ldim_mid.
    - intros ql qm qr v H. rewrite ldim_0, ldim_last by auto. split; [apply Fx|apply Lx]; [eapply in_firsts; eauto|]. change (ql :: qm ++ [qr]) with ((ql :: qm) ++ [qr]) in H. eapply in_lasts; eauto.
    - intros ql qm qr v H. rewrite ldim_0, ldim_last by auto. split; [apply Fy|apply Ly]; [eapply in_firsts; eauto|]. change (ql :: qm ++ [qr]) with ((ql :: qm) ++ [qr]) in H. eapply in_lasts; eauto.
    - split; [exact A|]. split; [exact B|]. split; [exact C|]. intros ql qm qr xl xm xr H1 H2. rewrite D by auto. now rewrite ldim_0, ldim_last. }
  split; [|split; [|split; [|split] ] ].
  - split; [exact Hn|]. intros odd. destruct (KS odd) as (Nd & Lab & Sh & _).
    assert (G: forall b, In b (part c odd) -> exists ql qm qr mid, fst b = ql :: qm ++ [qr] /\ Z.of_nat (length qm) = n - 2 /\ nshape (snd b) = bget L lb ql :: mid ++ [bget L rb qr] /\
       mid = shape_of L (ldim L n dla dp dra) (map (fun i => 1 + i) (zrange (n - 2))) qm /\ 0 < bget L lb ql /\ 0 < bget L rb qr /\ Forall (fun d => 0 < d) mid).
    { intros b Hb. assert (Hk: In (fst b) (map fst (part c odd))) by now apply in_map. apply Lab in Hk.
      assert (Sb: nshape (snd b) = ksh L n (ldim L n dla dp dra) lb rb (fst b)) by (apply Sh; apply (in_dget _ tspec); [exact Nd|now destruct b]).
      assert (Z0: exists ql qm qr, fst b = ql :: qm ++ [qr] /\ Z.of_nat (length qm) = n - 2 /\ 0 < bget L lb ql /\ 0 < bget L rb qr /\ Forall (fun d => 0 < d) (shape_of L (ldim L n dla dp dra) (map (fun i => 1 + i) (zrange (n - 2))) qm)).
      { destruct Hk as [Hk|Hk]; apply in_map_iff in Hk; destruct Hk as ([k v] & Ek & Hk); cbn [fst] in Ek; subst k.
        - destruct (site_block n dla dp dra x Wx odd _ Hk) as (ql & qm & qr & E & Lm & _ & P1 & P2). cbn [fst] in E. exists ql, qm, qr. split; [exact E|]. split; [exact Lm|]. rewrite E in Hk.
          split; [pose proof (Fx ql (in_firsts _ _ _ _ _ Hk)); lia|]. assert (Hk' := Hk). change (ql :: qm ++ [qr]) with ((ql :: qm) ++ [qr]) in Hk'. split; [pose proof (Lx qr (in_lasts _ _ _ _ _ Hk')); lia|].
          destruct Wx as [_ Wx']. destruct (Wx' odd) as (Wt & Ps & _). specialize (Ps _ Hk). destruct (Wt _ Hk) as [_ Sx]. cbn [fst snd] in *. rewrite Sx, shape_ends in Ps by lia. apply Forall_inv_tail in Ps. apply Forall_app in Ps. destruct Ps as [Ps' _]. exact Ps'.
        - destruct (site_block n dlb dp drb y Wy odd _ Hk) as (ql & qm & qr & E & Lm & _ & P1 & P2). cbn [fst] in E. exists ql, qm, qr. split; [exact E|]. split; [exact Lm|]. rewrite E in Hk.
          split; [pose proof (Fy ql (in_firsts _ _ _ _ _ Hk)); lia|]. assert (Hk' := Hk). change (ql :: qm ++ [qr]) with ((ql :: qm) ++ [qr]) in Hk'. split; [pose proof (Ly qr (in_lasts _ _ _ _ _ Hk')); lia|].
          destruct Wy as [_ Wy']. destruct (Wy' odd) as (Wt & Ps & _). specialize (Ps _ Hk). destruct (Wt _ Hk) as [_ Sx]. cbn [fst snd] in *. rewrite Sx, shape_ends in Ps by lia. apply Forall_inv_tail in Ps. apply Forall_app in Ps. destruct Ps as [Ps' _].
          
          assert (Em: shape_of L (ldim L n dla dp dra) (map (fun i => 1 + i) (zrange (n - 2))) qm = shape_of L (ldim L n dlb dp drb) (map (fun i => 1 + i) (zrange (n - 2))) qm).
          { apply map_ext_in. intros [i q] H. cbn [fst snd]. apply in_combine_l in H. apply in_map_iff in H. destruct H as (j & <- & Hj). apply in_zrange in Hj. rewrite !ldim_mid by lia. reflexivity. }
          rewrite Em. exact Ps'. }
      destruct Z0 as (ql & qm & qr & E & Lm & P1 & P2 & P3). exists ql, qm, qr, (shape_of L (ldim L n dla dp dra) (map (fun i => 1 + i) (zrange (n - 2))) qm).
      rewrite E, ksh_ends in Sb. repeat (split; [assumption|]). split; [reflexivity|]. auto. }
    split; [|split; [|exact Nd] ].
    + intros b Hb. destruct (G b Hb) as (ql & qm & qr & mid & E & Lm & Sb & Em & _). split; [rewrite E; cbn [length]; rewrite app_length; cbn [length]; lia|].
      rewrite Sb, Em, E, shape_ends by lia. rewrite ldim_0, ldim_last by auto. f_equal. f_equal. apply map_ext_in. intros [i q] H. cbn [fst snd]. apply in_combine_l in H. apply in_map_iff in H. destruct H as (j & <- & Hj). apply in_zrange in Hj. rewrite !ldim_mid by lia. reflexivity.
    + intros b Hb. destruct (G b Hb) as (ql & qm & qr & mid & E & Lm & Sb & Em & P1 & P2 & P3). rewrite Sb. constructor; [exact P1|]. apply Forall_app. split; [exact P3|]. constructor; [exact P2|constructor].
  - intros p l r. destruct (Z.eq_dec (Z.of_nat (length (snd p))) (n - 2)) as [Lp|Lp].
    + unfold selem. destruct (KS (fst p)) as (_ & _ & _ & D). rewrite D by (rewrite map_length; exact Lp). reflexivity.
    + assert (Zc: selem c p l r = 0').
      { unfold selem. apply elem_out. intros b Hb E _. destruct (KS (fst p)) as (_ & Lab & _ & _). assert (Hk: In (fst b) (map fst (part c (fst p)))) by now apply in_map. apply Lab in Hk.
        destruct Hk as [Hk|Hk]; apply in_map_iff in Hk; destruct Hk as ([k v] & Ek & Hk); cbn [fst] in Ek; subst k; [destruct (site_block n dla dp dra x Wx _ _ Hk) as (ql & qm & qr & E' & Lm & _)|destruct (site_block n dlb dp drb y Wy _ _ Hk) as (ql & qm & qr & E' & Lm & _)];
        cbn [fst] in E'; rewrite E' in E; injection E as _ E; apply (f_equal (@length _)) in E; rewrite !app_length, map_length in E; cbn in E; lia. }
      rewrite Zc, (selem_len n dla dp dra x Wx) by auto. rewrite (selem_len n dlb dp drb y Wy) by auto. ring.
  - intros Ne. destruct (blocks x) as [|b0 bl] eqn:Eb.
    + exfalso. apply Ne. unfold blocks in Eb. apply app_eq_nil in Eb. destruct Eb as [E1 E2]. destruct x; cbn in *; subst; reflexivity.
    + assert (Hb: In b0 (blocks x)) by (rewrite Eb; now left). unfold blocks in Hb. assert (Ho: exists odd, In b0 (part x odd)) by (apply in_app_iff in Hb; destruct Hb; eauto). destruct Ho as (odd & Ho).
      destruct (KS odd) as (_ & Lab & _). assert (Hc: In (fst b0) (map fst (part c odd))) by (apply Lab; left; now apply in_map). intros Z0.
      assert (Zp: part c odd = []) by (destruct c as [t|o e], odd; cbn in *; try reflexivity; apply length_zero_iff_nil; lia). rewrite Zp in Hc. destruct Hc.
  - intros q Hq. unfold firsts in *. apply in_map_iff in Hq. destruct Hq as (b & <- & Hb). unfold blocks in Hb |- *. apply in_app_iff in Hb.
    assert (Ho: exists odd, In b (part c odd)) by (destruct Hb; eauto). destruct Ho as (odd & Ho). destruct (KS odd) as (_ & Lab & _). apply (in_map fst) in Ho. apply Lab in Ho.
    rewrite !map_app, !in_app_iff. destruct Ho as [Ho|Ho]; apply in_map_iff in Ho; destruct Ho as (b' & Eb & Hb'); rewrite <- Eb; [left|right]; destruct odd; [left|right|left|right]; apply in_map_iff; exists b'; auto.
  - intros q Hq. unfold lasts in *. apply in_map_iff in Hq. destruct Hq as (b & <- & Hb). unfold blocks in Hb |- *. apply in_app_iff in Hb.
    assert (Ho: exists odd, In b (part c odd)) by (destruct Hb; eauto). destruct Ho as (odd & Ho). destruct (KS odd) as (_ & Lab & _). apply (in_map fst) in Ho. apply Lab in Ho.
    rewrite !map_app, !in_app_iff. destruct Ho as [Ho|Ho]; apply in_map_iff in Ho; destruct Ho as (b' & Eb & Hb'); rewrite <- Eb; [left|right]; destruct odd; [left|right|left|right]; apply in_map_iff; exists b'; auto.
Qed.

Lemma firsts_block : forall n dl dp dr (s : site) q, wf_site n dl dp dr s -> In q (firsts s) -> 0 < dl q.
Proof.
  intros n dl dp dr s q W H. apply in_map_iff in H. destruct H as (b & <- & Hb). unfold blocks in Hb. apply in_app_iff in Hb.
  assert (Ho: exists odd, In b (part s odd)) by (destruct Hb; eauto). destruct Ho as (odd & Ho). destruct (site_block n dl dp dr s W odd b Ho) as (ql & qm & qr & E & _ & _ & P1 & _). now rewrite E.
Qed.
Lemma lasts_block : forall n dl dp dr (s : site) q, wf_site n dl dp dr s -> In q (lasts s) -> 0 < dr q.
Proof.
  intros n dl dp dr s q W H. apply in_map_iff in H. destruct H as (b & <- & Hb). unfold blocks in Hb. apply in_app_iff in Hb.
  assert (Ho: exists odd, In b (part s odd)) by (destruct Hb; eauto). destruct Ho as (odd & Ho). destruct (site_block n dl dp dr s W odd b Ho) as (ql & qm & qr & E & _ & _ & _ & P2). rewrite E.
  change (ql :: qm ++ [qr]) with ((ql :: qm) ++ [qr]). now rewrite last_last.
Qed.
Lemma wf_site_ext : forall n dl dp dr dl' dr' (s : site), wf_site n dl dp dr s -> (forall q, In q (firsts s) -> dl q = dl' q) -> (forall q, In q (lasts s) -> dr q = dr' q) -> wf_site n dl' dp dr' s.
Proof.
  intros n dl dp dr dl' dr' s W Hl Hr. assert (W' := W). destruct W' as [Hn H]. split; [exact Hn|]. intros odd. destruct (H odd) as (Wt & Ps & Nd). split; [|split; [exact Ps|exact Nd] ].
  intros b Hb. destruct (Wt b Hb) as [Lb Sb]. split; [exact Lb|]. rewrite Sb. destruct (site_block n dl dp dr s W odd b Hb) as (ql & qm & qr & E & Lm & _). rewrite E, !shape_ends by lia.
  rewrite !ldim_0, !ldim_last by auto. assert (Hb': In (ql :: qm ++ [qr], snd b) (part s odd)) by (rewrite <- E; now destruct b).
  rewrite (Hl ql) by (eapply in_firsts; eauto). rewrite (Hr qr) by (eapply (in_lasts s odd (ql :: qm)); eauto). f_equal. f_equal. apply map_ext_in. intros [i q] Hi. cbn [fst snd]. apply in_combine_l in Hi. apply in_map_iff in Hi. destruct Hi as (j & <- & Hj). apply in_zrange in Hj.
  rewrite !ldim_mid by lia. reflexivity.
Qed.

Lemma kron_all_spec : forall a b da db shp lb ea eb, a <> [] -> wf_sites da shp a -> wf_sites db shp b -> Forall2 (fun x y => kind x = kind y) a b ->
  Forall (fun s => s_nblocks R L s <> O) a -> Forall (fun s => s_nblocks R L s <> O) b -> mapM (end_infos R L) a = Some ea -> mapM (end_infos R L) b = Some eb ->
  (forall q, In q (firsts (hd (SP []) a)) -> hd (fun _ => 0) da q <= bget L lb q) -> (forall q, In q (firsts (hd (SP []) b)) -> hd (fun _ => 0) db q <= bget L lb q) ->
  (forall q, In q (lasts (last b (SP []))) -> In q (lasts (last a (SP []))) /\ last da (fun _ => 0) q = last db (fun _ => 0) q) ->
  exists cs dc k, kron_all R L (lb :: inner_bonds L ea eb) a b = Some cs /\ Forall2 (fun x y => kind x = kind y) a cs /\ Forall (fun s => s_nblocks R L s <> O) cs /\
    wf_sites (bget L lb :: dc) shp cs /\ last (bget L lb :: dc) (fun _ => 0) = last da (fun _ => 0) /\ (forall q, In q (firsts (hd (SP []) cs)) -> In q (firsts (hd (SP []) a)) \/ In q (firsts (hd (SP []) b))) /\
    dsum R (bool * list state) state (shift (fun q => bget L lb q - hd (fun _ => 0) db q)) (map selem a) (map selem b) (map selem cs) (shift k) /\
    forall q, In q (lasts (last b (SP []))) -> k q = 0.
Proof.
  induction a as [|x a IH]; intros b da db shp lb ea eb Ne Wa Wb K Na Nb Ea Eb Fa Fb Lst; [now destruct Ne|]. clear Ne.
  destruct b as [|y b]; [inversion K|]. assert (K0: kind x = kind y) by (inversion K; auto). assert (K1: Forall2 (fun x y => kind x = kind y) a b) by (inversion K; auto). clear K. rename K1 into K. apply Forall_cons_iff in Na, Nb. destruct Na as [Nx Na], Nb as [Ny Nb].
  destruct shp as [|[n dp] shp]; [destruct Wa|]. destruct da as [|d0 da]; [destruct Wa|]. destruct db as [|e0 db]; [destruct Wb|]. destruct Wa as [Wx Wa], Wb as [Wy Wb].
  cbn [hd] in Fa, Fb. cbn [mapM] in Ea, Eb.
  destruct (end_infos_spec n _ _ _ x Wx Nx) as (lx & rx & Ex & Wlx & Wrx & Glx & Grx). destruct (end_infos_spec n _ _ _ y Wy Ny) as (ly & ry & Ey & Wly & Wry & Gly & Gry).
  rewrite Ex in Ea. rewrite Ey in Eb. cbn [bind] in Ea, Eb. destruct (mapM (end_infos R L) a) as [ea'|] eqn:Ea'; [|discriminate]. destruct (mapM (end_infos R L) b) as [eb'|] eqn:Eb'; [|discriminate].
  cbn [bind] in Ea, Eb. injection Ea as <-. injection Eb as <-. destruct a as [|x' a].
  - inversion K; subst b. cbn in Ea', Eb'. injection Ea' as <-. injection Eb' as <-. cbn [inner_bonds kron_all]. cbn [last] in Lst.
    destruct Wa as [-> La], Wb as [_ Lb]. destruct da as [|d1 [|]]; try discriminate. destruct db as [|e1 [|]]; try discriminate. cbn [hd last] in *.
    destruct (site_kron n d0 e0 dp d1 e1 lb rx x y Wx Wy K0) as (c & Ec & Kc & Wc & Sc & Nc & Fc & Lc); auto.
    { intros q Hq. rewrite Grx. destruct (in_dec q_dec q (lasts x)); [lia|tauto]. }
    { intros q Hq. rewrite Grx. destruct (Lst q Hq) as [I Eq]. destruct (in_dec q_dec q (lasts x)); [lia|tauto]. }
    exists [c], [d1], (fun q => bget L rx q - e1 q). rewrite Ec. cbn [bind]. split; [reflexivity|]. split; [constructor; [auto|constructor]|]. split; [constructor; [auto|constructor]|]. split; [|split; [reflexivity|split; [exact Fc|split] ] ].
    + cbn [wf_sites hd]. split; [|split; reflexivity]. eapply wf_site_ext; [exact Wc|reflexivity|]. intros q Hq. rewrite Grx. destruct (in_dec q_dec q (lasts x)) as [|I]; [reflexivity|]. exfalso. apply Lc in Hq. destruct Hq as [Hq|Hq]; [tauto|]. apply I. now apply Lst.
    + cbn [map]. constructor. exact Sc.
    + intros q Hq. destruct (Lst q Hq) as [I Eq]. rewrite Grx. destruct (in_dec q_dec q (lasts x)); [lia|tauto].
  - destruct b as [|y' b]; [inversion K|].
    assert (Hea: exists lx' rx' er, ea' = (lx', rx') :: er /\ end_infos R L x' = Some (lx', rx')).
    { cbn [mapM] in Ea'. destruct (end_infos R L x') as [[u v]|]; [|discriminate]. cbn [bind] in Ea'. destruct (mapM (end_infos R L) a); [|discriminate]. cbn [bind] in Ea'. injection Ea' as <-. eauto. }
    assert (Heb: exists lx' rx' er, eb' = (lx', rx') :: er /\ end_infos R L y' = Some (lx', rx')).
    { cbn [mapM] in Eb'. destruct (end_infos R L y') as [[u v]|]; [|discriminate]. cbn [bind] in Eb'. destruct (mapM (end_infos R L) b); [|discriminate]. cbn [bind] in Eb'. injection Eb' as <-. eauto. }
    destruct Hea as (lx' & rx' & era & -> & Ex'), Heb as (ly' & ry' & erb & -> & Ey').
    destruct shp as [|[n' dp'] shp]; [destruct Wa|]. destruct da as [|d1 da]; [destruct Wa|]. destruct db as [|e1 db]; [destruct Wb|]. cbn [hd] in Wx, Wy, Glx, Grx, Gly, Gry.
    assert (Wx' : wf_site n' d1 dp' (hd (fun _ => 0) da) x') by apply Wa. assert (Wy' : wf_site n' e1 dp' (hd (fun _ => 0) db) y') by apply Wb.
    apply Forall_cons_iff in Na, Nb. destruct Na as [Nx' Na], Nb as [Ny' Nb].
    destruct (end_infos_spec n' _ _ _ x' Wx' Nx') as (u & v & Eu & Wlx' & _ & Glx' & _). rewrite Ex' in Eu. injection Eu as <- <-.
    destruct (end_infos_spec n' _ _ _ y' Wy' Ny') as (u & v & Eu & Wly' & _ & Gly' & _). rewrite Ey' in Eu. injection Eu as <- <-.
    change (inner_bonds L ((lx, rx) :: (lx', rx') :: era) ((ly, ry) :: (ly', ry') :: erb)) with (bplus L (bor L lx' rx) (bor L ly' ry) :: inner_bonds L ((lx', rx') :: era) ((ly', ry') :: erb)).
    set (rb := bplus L (bor L lx' rx) (bor L ly' ry)).
    assert (Grb: forall q, bget L rb q = (if in_dec q_dec q (firsts x' ++ lasts x) then d1 q else 0) + (if in_dec q_dec q (firsts y' ++ lasts y) then e1 q else 0)).
    { intros q. unfold rb. rewrite bplus_get, !bor_get by (auto using bor_wf). rewrite Glx', Grx, Gly', Gry. f_equal.
      - destruct (in_dec q_dec q (firsts x' ++ lasts x)) as [I|I]; rewrite in_app_iff in I; destruct (in_dec q_dec q (firsts x')) as [I1|I1], (in_dec q_dec q (lasts x)) as [I2|I2]; try tauto; try lia.
        + pose proof (firsts_block _ _ _ _ _ _ Wx' I1). lia. + pose proof (lasts_block _ _ _ _ _ _ Wx I2). lia.
      - destruct (in_dec q_dec q (firsts y' ++ lasts y)) as [I|I]; rewrite in_app_iff in I; destruct (in_dec q_dec q (firsts y')) as [I1|I1], (in_dec q_dec q (lasts y)) as [I2|I2]; try tauto; try lia.
        + pose proof (firsts_block _ _ _ _ _ _ Wy' I1). lia. + pose proof (lasts_block _ _ _ _ _ _ Wy I2). lia. }
    assert (Pa: forall q, In q (firsts x' ++ lasts x) -> 0 < d1 q).
    { intros q H. apply in_app_iff in H. destruct H as [H|H]; [exact (firsts_block _ _ _ _ _ _ Wx' H)|exact (lasts_block _ _ _ _ _ _ Wx H)]. }
    assert (Pb: forall q, In q (firsts y' ++ lasts y) -> 0 < e1 q).
    { intros q H. apply in_app_iff in H. destruct H as [H|H]; [exact (firsts_block _ _ _ _ _ _ Wy' H)|exact (lasts_block _ _ _ _ _ _ Wy H)]. }
    assert (Ra: forall q, In q (firsts x' ++ lasts x) -> d1 q <= bget L rb q).
    { intros q H. rewrite Grb. destruct (in_dec q_dec q (firsts x' ++ lasts x)); [|tauto]. destruct (in_dec q_dec q (firsts y' ++ lasts y)) as [I|I]; [pose proof (Pb q I)|]; lia. }
    assert (Rb: forall q, In q (firsts y' ++ lasts y) -> e1 q <= bget L rb q).
    { intros q H. rewrite Grb. destruct (in_dec q_dec q (firsts y' ++ lasts y)); [|tauto]. destruct (in_dec q_dec q (firsts x' ++ lasts x)) as [I|I]; [pose proof (Pa q I)|]; lia. }
    destruct (site_kron n d0 e0 dp d1 e1 lb rb x y Wx Wy K0) as (c & Ec & Kc & Wc & Sc & Nc & Fc & Lc); auto.
    { intros q Hq. apply Ra. apply in_app_iff. auto. } { intros q Hq. apply Rb. apply in_app_iff. auto. }
    destruct (IH (y' :: b) (d1 :: da) (e1 :: db) ((n', dp') :: shp) rb ((lx', rx') :: era) ((ly', ry') :: erb)) as (cs & dc & k & E1 & E2 & E3 & E4 & E5 & E6 & E7 & E8); auto; [discriminate| | |].
    { intros q Hq. cbn [hd] in *. apply Ra. apply in_app_iff. auto. } { intros q Hq. cbn [hd] in *. apply Rb. apply in_app_iff. auto. }
    exists (c :: cs), (bget L rb :: dc), k. split; [|split; [constructor; auto|split; [constructor; auto|split; [|split; [|split; [|split] ] ] ] ] ].
    + change (kron_all R L (lb :: rb :: inner_bonds L ((lx', rx') :: era) ((ly', ry') :: erb)) (x :: x' :: a) (y :: y' :: b)) with
        (do c <- s_kron_add R L lb rb x y; do cs <- kron_all R L (rb :: inner_bonds L ((lx', rx') :: era) ((ly', ry') :: erb)) (x' :: a) (y' :: b); Some (c :: cs)). rewrite Ec, E1. reflexivity.
    + split; [exact Wc|exact E4].
    + change (last (bget L lb :: bget L rb :: dc) (fun _ : L => 0)) with (last (bget L rb :: dc) (fun _ : L => 0)). change (last (d0 :: d1 :: da) (fun _ : L => 0)) with (last (d1 :: da) (fun _ : L => 0)). exact E5.
    + exact Fc.
    + destruct cs as [|c' cs]; [inversion E2|]. cbn [map hd] in E7 |- *. apply dsum_cons with (k := shift (fun q => bget L rb q - e1 q)); auto.
      * intros [q z]. unfold shift. cbn [fst snd]. set (X := if in_dec q_dec q (firsts x' ++ lasts x) then d1 q else 0). set (Y := if in_dec q_dec q (firsts y' ++ lasts y) then e1 q else 0).
        assert (EG: bget L rb q = X + Y) by apply Grb. destruct (Z_lt_ge_dec z X) as [Hz|Hz].
        -- left. assert (Neg: In q (firsts y' ++ lasts y) -> z - (bget L rb q - e1 q) < 0). { intros I. unfold Y in EG. destruct (in_dec q_dec q (firsts y' ++ lasts y)); [lia|tauto]. }
           split; intros p s; [apply (selem_right n e0 dp e1 y Wy)|apply (selem_left n' e1 dp' _ y' Wy')]; cbn [fst snd]; intros [I J]; rewrite in_app_iff in Neg; specialize (Neg ltac:(tauto)); lia.
        -- right. assert (Big: In q (firsts x' ++ lasts x) -> d1 q <= z). { intros I. unfold X in Hz. destruct (in_dec q_dec q (firsts x' ++ lasts x)); [lia|tauto]. }
           split; intros p s; [apply (selem_right n d0 dp d1 x Wx)|apply (selem_left n' d1 dp' _ x' Wx')]; cbn [fst snd]; intros [I J]; rewrite in_app_iff in Big; specialize (Big ltac:(tauto)); lia.
      * intros [q z] [q' z'] H. unfold shift in H. cbn [fst snd] in H. injection H as H1 H2. subst q'. f_equal. lia.
      * intros [q z]. exists (q, z + (bget L rb q - e1 q)). unfold shift. cbn [fst snd]. f_equal. lia.
    + exact E8.
Qed.

(** *** one site *)
Lemma site_add : forall n dl dp dr (x y : site), wf_site n dl dp dr x -> wf_site n dl dp dr y -> kind x = kind y ->
  exists c, s_add R L x y = Some c /\ kind c = kind x /\ wf_site n dl dp dr c /\ forall p l r, selem c p l r = selem x p l r +' selem y p l r.
Proof.
  intros n dl dp dr x y Wx Wy K.
  assert (C: exists c, s_add R L x y = Some c /\ kind c = kind x /\ forall odd, part c odd = sp_add R L (part x odd) (part y odd)).
  { destruct x as [t|o e], y as [t'|o' e']; try discriminate; eexists; (split; [reflexivity|]); (split; [reflexivity|]); intros []; reflexivity. }
  destruct C as (c & Ec & Kc & Pc). exists c. split; [exact Ec|]. split; [exact Kc|]. destruct Wx as [Hn Wx], Wy as [_ Wy].
  assert (SS: forall odd, same_shapes R L (part x odd ++ part y odd)).
  { intros odd. apply (wf_same_shapes R L n (ldim L n dl dp dr)). intros b Hb. apply in_app_iff in Hb. destruct Hb as [Hb|Hb]; [now apply (Wx odd)|now apply (Wy odd)]. }
  split.
  - split; [exact Hn|]. intros odd. rewrite Pc, sp_add_acc by apply Wx. split; [|split].
    + apply acc_wf; [reflexivity|reflexivity|apply Wx|apply Wy].
    + intros b Hb. apply acc_origin in Hb; [|reflexivity|reflexivity]. destruct Hb as (b' & Hb & _ & <-). apply in_app_iff in Hb. destruct Hb as [Hb|Hb]; [now apply (Wx odd)|now apply (Wy odd)].
    + apply acc_keys. apply Wx.
  - intros p l r. unfold selem. rewrite Pc. apply c13_addition_elementwise; [apply Wx|apply SS].
Qed.
Lemma site_map : forall n dl dp dr f (x : site), f 0' = 0' -> wf_site n dl dp dr x ->
  kind (s_map R L f x) = kind x /\ wf_site n dl dp dr (s_map R L f x) /\ forall p l r, selem (s_map R L f x) p l r = f (selem x p l r).
Proof.
  intros n dl dp dr f x F [Hn W]. assert (Pc: forall odd, part (s_map R L f x) odd = sp_map R L f (part x odd)) by (destruct x; intros []; reflexivity).
  assert (Kf: forall odd, map fst (part (s_map R L f x) odd) = map fst (part x odd)) by (intros; rewrite Pc; unfold sp_map; now rewrite map_map).
  assert (Or: forall odd b, In b (part (s_map R L f x) odd) -> exists b', In b' (part x odd) /\ fst b' = fst b /\ nshape (snd b') = nshape (snd b)).
  { intros odd b Hb. rewrite Pc in Hb. unfold sp_map in Hb. apply in_map_iff in Hb. destruct Hb as (b' & <- & Hb). exists b'. auto. }
  split; [now destruct x|]. split.
  - split; [exact Hn|]. intros odd. split; [|split].
    + intros b Hb. destruct (Or odd b Hb) as (b' & Hb' & <- & <-). now apply (W odd).
    + intros b Hb. destruct (Or odd b Hb) as (b' & Hb' & _ & <-). now apply (W odd).
    + rewrite Kf. apply W.
  - intros p l r. unfold selem. rewrite Pc. apply c13_elementwise_function; [apply W|exact F].
Qed.
Lemma nblocks_blocks : forall (s : site), s_nblocks R L s = length (blocks s).
Proof. intros []; unfold blocks; cbn; now rewrite ?app_length. Qed.
Lemma empty_zero : forall (s : site), blocks s = [] -> forall p l r, selem s p l r = 0'.
Proof. intros s H p l r. unfold blocks in H. apply app_eq_nil in H. unfold selem. destruct p as [[] p]; cbn [fst]; [rewrite (proj1 H)|rewrite (proj2 H)]; reflexivity. Qed.

(** *** covering bond lists exist *)
Definition out_states (dr : L -> Z) (s : site) : list state := flat_map (fun q => map (fun x => (q, x)) (zrange (dr q))) (nodup q_dec (lasts s)).
Fixpoint bonds_of (ds : list (L -> Z)) (ts : list site) : list (list state) :=
  match ts with [] => [] | t :: ts' => match ds with [] => [] | _ :: ds' => out_states (hd (fun _ => 0) ds') t :: bonds_of ds' ts' end end.
Lemma out_states_nodup : forall dr s, NoDup (out_states dr s).
Proof.
  intros dr s. unfold out_states. assert (N: NoDup (nodup q_dec (lasts s))) by apply NoDup_nodup. induction N as [|q l Hq N IH]; cbn [flat_map]; [constructor|].
  apply FuseTProofs.NoDup_app_iff'; [|exact IH|].
  - apply FinFun.Injective_map_NoDup; [intros x y H; congruence|apply zrange_nodup].
  - intros x H1 H2. apply in_map_iff in H1. destruct H1 as (z & <- & _). apply in_flat_map in H2. destruct H2 as (q' & Hq' & H2). apply in_map_iff in H2. destruct H2 as (z' & E & _). apply Hq. congruence.
Qed.
Lemma bonds_of_cover : forall (ts : list site) ds shp, ts <> [] -> wf_sites ds shp ts -> bonds (bonds_of ds ts) ts.
Proof.
  unfold bonds. induction ts as [|t ts IH]; intros ds shp Ne W; [now destruct Ne|]. destruct shp as [|[n dp] shp]; [destruct W|]. destruct ds as [|d0 ds]; [destruct W|]. destruct W as [Wt W].
  destruct ts as [|t' ts]; [exact I|]. cbn [map bonds_of]. split; [apply out_states_nodup|]. split.
  - intros p l [q x] Hm. apply (selem_right n d0 dp _ t Wt). cbn [fst snd]. intros [Hq Hx]. apply Hm. unfold out_states. apply in_flat_map. exists q. split; [now apply nodup_In|]. apply in_map. now apply in_zrange.
  - apply (IH ds shp); [discriminate|exact W].
Qed.

(** *** sums *)
Lemma wf_sites_hd : forall (ts : list site) ds shp d', ts <> [] -> wf_sites ds shp ts -> (forall q, In q (firsts (hd (SP []) ts)) -> hd (fun _ => 0) ds q = d' q) -> wf_sites (d' :: tl ds) shp ts.
Proof.
  intros [|t ts] ds shp d' Ne W H; [now destruct Ne|]. destruct shp as [|[n dp] shp]; [destruct W|]. destruct ds as [|d0 ds]; [destruct W|]. destruct W as [Wt W]. cbn [tl hd] in *. split; [|exact W].
  eapply wf_site_ext; [exact Wt|exact H|reflexivity].
Qed.
Lemma last_site : forall (ts : list site), ts <> [] -> exists ts' t, ts = ts' ++ [t] /\ last ts (SP []) = t.
Proof. intros ts Ne. destruct (exists_last Ne) as (ts' & t & ->). exists ts', t. split; [reflexivity|apply last_last]. Qed.
Lemma wf_sites_last : forall (ts : list site) t ds shp, wf_sites ds shp (ts ++ [t]) -> exists n dl dp, wf_site n dl dp (last ds (fun _ => 0)) t.
Proof.
  induction ts as [|x ts IH]; intros t ds shp W; cbn [app] in W; (destruct shp as [|[n dp] shp]; [destruct W|]); (destruct ds as [|d0 ds]; [destruct W|]); destruct W as [Wt W].
  - destruct W as [_ W]. destruct ds as [|d1 [|]]; try discriminate. exists n, d0, dp. exact Wt.
  - destruct (IH t ds shp W) as (n' & dl' & dp' & W'). exists n', dl', dp'. destruct ds as [|d1 ds]; [|exact W']. exfalso. destruct ts; cbn [app] in W; destruct shp as [|[? ?] ?]; destruct W.
Qed.
Lemma wf_sites_length : forall (ts : list site) ds shp, wf_sites ds shp ts -> length ds = S (length ts).
Proof. induction ts as [|x ts IH]; intros ds shp W; cbn in W; [now destruct W|]. destruct shp as [|[n dp] shp]; [destruct W|]. destruct ds as [|d0 ds]; [destruct W|]. cbn. f_equal. eapply IH, W. Qed.
Lemma mapM_infos : forall (ts : list site) ds shp, wf_sites ds shp ts -> Forall (fun s => s_nblocks R L s <> O) ts -> exists es, mapM (end_infos R L) ts = Some es.
Proof.
  induction ts as [|x ts IH]; intros ds shp W N; [eexists; reflexivity|]. destruct shp as [|[n dp] shp]; [destruct W|]. destruct ds as [|d0 ds]; [destruct W|]. destruct W as [Wt W]. apply Forall_cons_iff in N. destruct N as [Nx N].
  destruct (end_infos_spec n _ _ _ x Wt Nx) as (i0 & i1 & E & _). destruct (IH ds shp W N) as (es & Es). cbn [mapM]. rewrite E, Es. cbn [bind]. eauto.
Qed.
Lemma amplitude_left : forall (ts : list site) ds shp Bs ps l r, ts <> [] -> wf_sites ds shp ts -> ~ In (fst l) (firsts (hd (SP []) ts)) -> amplitude Bs ts ps l r = 0'.
Proof.
  intros [|t ts] ds shp Bs ps l r Ne W H; [now destruct Ne|]. destruct shp as [|[n dp] shp]; [destruct W|]. destruct ds as [|d0 ds]; [destruct W|]. destruct W as [Wt W].
  unfold amplitude. cbn [map]. apply chain_dead. intros p m. apply (selem_left n d0 dp _ t Wt). tauto.
Qed.
Lemma amplitude_right : forall (ts : list site) ds shp Bs ps l r, ts <> [] -> wf_sites ds shp ts -> ~ In (fst r) (lasts (last ts (SP []))) -> amplitude Bs ts ps l r = 0'.
Proof.
  intros ts ds shp Bs ps l r Ne W H. destruct (last_site ts Ne) as (ts' & t & -> & E). rewrite E in H. apply wf_sites_last in W. destruct W as (n & dl & dp & W).
  unfold amplitude. rewrite map_app. cbn [map]. apply chain_dead_end. intros p m. apply (selem_right n dl dp _ t W). tauto.
Qed.
Lemma amplitude_empty : forall (ts : list site) Bs ps l r, (exists s, In s ts /\ blocks s = []) -> amplitude Bs ts ps l r = 0'.
Proof. intros ts Bs ps l r (s & Hs & E). apply chain_zero_site. exists (selem s). split; [now apply in_map|now apply empty_zero]. Qed.
Lemma has_empty : forall ts : list site, existsb (s_empty R L) ts = true -> exists s, In s ts /\ blocks s = [].
Proof.
  intros ts H. apply existsb_exists in H. destruct H as (s & Hs & E). exists s. split; [exact Hs|]. apply length_zero_iff_nil. rewrite <- nblocks_blocks. apply Nat.eqb_eq. exact E.
Qed.
Lemma no_empty : forall ts : list site, existsb (s_empty R L) ts = false -> (forall s, In s ts -> blocks s <> []) /\ Forall (fun s => s_nblocks R L s <> O) ts.
Proof.
  intros ts H. assert (F: forall s, In s ts -> blocks s <> []).
  { intros s Hs E. assert (X: existsb (s_empty R L) ts = true); [|congruence]. apply existsb_exists. exists s. split; [exact Hs|]. unfold s_empty. rewrite nblocks_blocks, E. reflexivity. }
  split; [exact F|]. apply Forall_forall. intros s Hs. rewrite nblocks_blocks. specialize (F s Hs). destruct (blocks s); [congruence|discriminate].
Qed.

Lemma F2_length : forall A B (P : A -> B -> Prop) a b, Forall2 P a b -> length a = length b.
Proof. induction 1; cbn; congruence. Qed.
Lemma add_tensors_spec : forall (a b : list site) da db shp, a <> [] -> wf_sites da shp a -> wf_sites db shp b -> Forall2 (fun x y => kind x = kind y) a b ->
  (forall q, hd (fun _ => 0) da q = hd (fun _ => 0) db q) -> (forall q, last da (fun _ => 0) q = last db (fun _ => 0) q) ->
  ((1 < length a)%nat -> (forall s, In s (a ++ b) -> blocks s <> []) -> incl (firsts (hd (SP []) b)) (firsts (hd (SP []) a)) /\ incl (lasts (last b (SP []))) (lasts (last a (SP [])))) ->
  exists cs dc, add_tensors R L a b = Some cs /\ Forall2 (fun x y => kind x = kind y) a cs /\ wf_sites dc shp cs /\
    (forall q, hd (fun _ => 0) dc q = hd (fun _ => 0) da q) /\ (forall q, last dc (fun _ => 0) q = last da (fun _ => 0) q) /\
    forall Ba Bb Bc ps l r, bonds Ba a -> bonds Bb b -> bonds Bc cs -> length ps = length a ->
    amplitude Bc cs ps l r = amplitude Ba a ps l r +' amplitude Bb b ps l r.
Proof.
  intros a b da db shp Ne Wa Wb K Hd Hl Inc. assert (Len: length a = length b) by (clear - K; induction K; cbn; congruence). unfold add_tensors. rewrite Len, Nat.eqb_refl. cbn [negb].
  destruct a as [|x a]; [now destruct Ne|]. destruct b as [|y b]; [discriminate|].
  assert (Kr: Forall2 (fun x y => kind x = kind y) (x :: a) (x :: a)) by (clear; induction (x :: a); constructor; auto).
  destruct a as [|x' a].
  - destruct b as [|]; [|discriminate]. destruct shp as [|[n dp] shp]; [destruct Wa|]. destruct da as [|d0 da]; [destruct Wa|]. destruct db as [|e0 db]; [destruct Wb|].
    destruct Wa as (Wx & -> & La), Wb as (Wy & _ & Lb). destruct da as [|d1 [|]]; try discriminate. destruct db as [|e1 [|]]; try discriminate. cbn [hd last] in *.
    assert (K0: kind x = kind y) by (inversion K; auto).
    destruct (site_add n d0 dp d1 x y Wx) as (c & Ec & Kc & Wc & Sc); [|exact K0|]. { eapply wf_site_ext; [exact Wy| |]; intros; congruence. }
    exists [c], [d0; d1]. rewrite Ec. cbn [bind]. split; [reflexivity|]. split; [constructor; [auto|constructor]|]. split; [cbn; auto|]. split; [reflexivity|]. split; [reflexivity|].
    intros Ba Bb Bc ps l r _ _ _ Lp. destruct ps as [|p [|]]; try discriminate. unfold amplitude. cbn [map]. rewrite !chain_one. apply Sc.
  - destruct b as [|y' b]; [discriminate|]. set (A := x :: x' :: a) in *. set (B := y :: y' :: b) in *.
    destruct (existsb (s_empty R L) A) eqn:EA; [|destruct (existsb (s_empty R L) B) eqn:EB].
    + exists B, db. split; [reflexivity|]. split; [exact K|]. split; [exact Wb|]. split; [auto|]. split; [auto|]. intros Ba Bb Bc ps l r Ca Cb Cc Lp.
      rewrite (amplitude_empty A) by now apply has_empty. unfold amplitude. rewrite (chain_cover_indep R _ _ st_dec (map selem B) Bc Bb) by auto. ring.
    + exists A, da. split; [reflexivity|]. split; [exact Kr|]. split; [exact Wa|]. split; [auto|]. split; [auto|]. intros Ba Bb Bc ps l r Ca Cb Cc Lp.
      rewrite (amplitude_empty B) by now apply has_empty. unfold amplitude. rewrite (chain_cover_indep R _ _ st_dec (map selem A) Bc Ba) by auto. ring.
    + apply no_empty in EA, EB. destruct EA as [NA FA], EB as [NB FB].
      destruct Inc as [I1 I2]; [cbn; lia|intros s Hs; apply in_app_iff in Hs; destruct Hs; auto|].
      destruct (mapM_infos A da shp Wa FA) as (ea & Ea). destruct (mapM_infos B db shp Wb FB) as (eb & Eb).
      assert (HL: exists l0 r0 er, ea = (l0, r0) :: er /\ end_infos R L x = Some (l0, r0)).
      { unfold A in Ea. cbn [mapM] in Ea. destruct (end_infos R L x) as [[l0 rr0]|]; [|discriminate]. cbn [bind] in Ea. destruct (end_infos R L x'); [|discriminate]. cbn [bind] in Ea.
        destruct (mapM (end_infos R L) a); [|discriminate]. cbn [bind] in Ea. injection Ea as <-. eauto. }
      destruct HL as (l0 & rr0 & er & Eea & Ex). rewrite Eea in Ea. rewrite Ea. cbn [bind]. rewrite Eb. cbn [bind sum_bonds].
      assert (G0: forall q, bget L l0 q = if in_dec q_dec q (firsts x) then hd (fun _ => 0) da q else 0).
      { destruct shp as [|[n dp] shp]; [destruct Wa|]. destruct da as [|d0 da]; [destruct Wa|]. destruct Wa as [Wx _].
        assert (Nx: s_nblocks R L x <> O) by (apply Forall_inv in FA; exact FA). destruct (end_infos_spec n _ _ _ x Wx Nx) as (i0 & i1 & E & _ & _ & G & _). rewrite Ex in E. injection E as <- <-. exact G. }
      assert (GA: forall q, In q (firsts x) -> bget L l0 q = hd (fun _ => 0) da q) by (intros q Hq; rewrite G0; destruct (in_dec q_dec q (firsts x)); tauto).
      destruct (kron_all_spec A B da db shp l0 _ eb Ne Wa Wb K FA FB Ea Eb) as (cs & dc & k & E1 & E2 & E3 & E4 & E5 & E6 & E7 & E8).
      { intros q Hq. cbn [hd A] in Hq. rewrite GA by exact Hq. lia. }
      { intros q Hq. apply I1 in Hq. cbn [hd A] in Hq. rewrite GA by exact Hq. rewrite Hd. lia. }
      { intros q Hq. split; [now apply I2|apply Hl]. }
      assert (Nc: cs <> []) by (intro Z0; subst cs; inversion E2).
      exists cs, (hd (fun _ => 0) da :: dc). split; [exact E1|]. split; [exact E2|]. split.
      { apply (wf_sites_hd cs (bget L l0 :: dc) shp); auto. intros q Hq. apply E6 in Hq. cbn [hd]. apply GA. destruct Hq as [Hq|Hq]; [exact Hq|now apply I1]. }
      split; [reflexivity|]. split.
      { intros q. rewrite <- E5. assert (dc <> []) by (apply wf_sites_length in E4; destruct cs; [congruence|destruct dc; discriminate]). destruct dc; [congruence|reflexivity]. }
      intros Ba Bb Bc ps l r Ca Cb Cc Lp. unfold amplitude at 1 2.
      rewrite (chain_dsum R _ _ st_dec _ _ _ _ _ E7 Ba Bb Bc ps l r) by (auto; rewrite map_length, Lp, <- Len; exact (F2_length _ _ _ _ _ E2)).
      apply (f_equal (fun z => _ +' z)). change (chain R (bool * list state) state Bb (map selem B) ps (shift (fun q => bget L l0 q - hd (fun _ => 0) db q) l) (shift k r)) with
        (amplitude Bb B ps (shift (fun q => bget L l0 q - hd (fun _ => 0) db q) l) (shift k r)).
      assert (NeB: B <> []) by discriminate.
      destruct (in_dec q_dec (fst l) (firsts y)) as [Il|Il]; [|rewrite !(amplitude_left B db shp) by (auto); reflexivity].
      destruct (in_dec q_dec (fst r) (lasts (last B (SP [])))) as [Ir|Ir]; [|rewrite !(amplitude_right B db shp) by (auto); reflexivity].
      f_equal.
      * unfold shift. rewrite GA, Hd by (now apply I1). destruct l as [q z]. cbn [fst snd]. f_equal. lia.
      * unfold shift. rewrite E8 by exact Ir. destruct r as [q z]. cbn [fst snd]. f_equal. lia.
Qed.
End MpsP.
