(** Lemmas for C33: canonicalisation of one site and contraction with a gauge. *)
From Coq Require Import ZArith Bool List Lia Permutation Ring.
From Verif Require Import SymModel SymProofs DictLib IndexLib OptLib RingLib BondModel BondProofs FuseModel FuseProofs FuseTProofs BlockModel BlockProofs BlockProps StructModel StructProofs SumProofs MpsModel MpsChain MpsProofs MpsDot MpoModel MpoDot MpoVert CanonModel CanonProofs.
Import ListNotations.
Open Scope Z_scope.

Section Sites.
Variable R : CRing.
Add Ring Rr22 : (rth R).
Variable L : Label.
Notation tensor := (list (list L * nd R)).
Notation tblock := (bool * (list L * nd R))%type.
Notation site := (site R L).
Notation state := (L * Z)%type.
Notation pstate := (bool * list state)%type.
Notation "0'" := (r0 R). Notation "1'" := (r1 R).
Infix "+'" := (radd R) (at level 50, left associativity).
Infix "*'" := (rmul R) (at level 40, left associativity).
Notation teqb := (tup_eqb L).
Notation tspec := (tup_eqb_spec L).
Notation telem := (telem R L).
Notation positive := (positive R L).
Variable cj : R -> R.
Hypothesis cj0 : cj 0' = 0'.

(** *** specification: orthonormality of a site *)
(* the columns of the matrix (left and physical state) x (right state) are orthonormal; X: any list of the rows *)
Definition left_iso (d : L -> Z) (s : site) : Prop :=
  forall X, NoDup X -> (forall p l r, ~ In (p, l) X -> selem s p l r = 0') ->
  forall r r', 0 <= snd r < d (fst r) -> 0 <= snd r' < d (fst r') ->
  bsum X (fun x => cj (selem s (fst x) (snd x) r) *' selem s (fst x) (snd x) r') = if st_dec L r r' then 1' else 0'.
Definition right_iso (d : L -> Z) (s : site) : Prop :=
  forall X, NoDup X -> (forall p l r, ~ In (p, r) X -> selem s p l r = 0') ->
  forall l l', 0 <= snd l < d (fst l) -> 0 <= snd l' < d (fst l') ->
  bsum X (fun x => cj (selem s (fst x) l (snd x)) *' selem s (fst x) l' (snd x)) = if st_dec L l l' then 1' else 0'.
(* in each part, the label of the last (first) leg follows from those of the others *)
Definition last_determined (s : site) : Prop := forall o ks q q', In (ks ++ [q]) (map fst (part s o)) -> In (ks ++ [q']) (map fst (part s o)) -> q = q'.
Definition first_determined (s : site) : Prop := forall o ks q q', In (q :: ks) (map fst (part s o)) -> In (q' :: ks) (map fst (part s o)) -> q = q'.

(** *** sites as tagged blocks *)
Lemma part_tagged : forall (s : site) o, part s o = map snd (filter (fun b => Bool.eqb (fst b) o) (tagged R L s)).
Proof.
  assert (A: forall o o' (l : tensor), map snd (filter (fun b : tblock => Bool.eqb (fst b) o) (map (pair o') l)) = if Bool.eqb o' o then l else []).
  { intros o o' l. induction l as [|x l IH]; cbn [map filter fst]; [now destruct (Bool.eqb o' o)|]. destruct (Bool.eqb o' o); [cbn [map snd]; now rewrite IH|exact IH]. }
  intros [t|od ev] o; cbn [tagged]; [rewrite A; now destruct o|]. rewrite filter_app, map_app, !A. destruct o; cbn; [now rewrite app_nil_r|reflexivity].
Qed.
Lemma in_tagged : forall (s : site) tb, In tb (tagged R L s) <-> In (snd tb) (part s (fst tb)).
Proof.
  intros s [o b]. rewrite part_tagged, in_map_iff. cbn [fst snd]. split.
  - intros H. exists (o, b). split; [reflexivity|]. apply filter_In. split; [exact H|apply eqb_reflx].
  - intros ((o' & b') & E & H). cbn [snd] in E. subst b'. apply filter_In in H. cbn [fst] in H. destruct H as [H E]. apply eqb_prop in E. now subst.
Qed.
Lemma part_untag : forall (s : site) bs o, (forall tb, In tb bs -> kind s = false -> fst tb = false) -> part (untag R L s bs) o = map snd (filter (fun b => Bool.eqb (fst b) o) bs).
Proof.
  intros [t|od ev] bs o H; cbn [untag part].
  - assert (E: forall tb, In tb bs -> fst tb = false) by (intros; now apply H). destruct o.
    + symmetry. apply map_eq_nil with (f := fun x => x). rewrite map_id. clear H. induction bs as [|x bs IH]; [reflexivity|]. cbn [filter]. rewrite (E x (or_introl eq_refl)). cbn. apply IH. intros; apply E; now right.
    + clear H. induction bs as [|x bs IH]; [reflexivity|]. cbn [filter map]. rewrite (E x (or_introl eq_refl)). cbn [Bool.eqb map]. f_equal. apply IH. intros; apply E; now right.
  - destruct o; f_equal; apply filter_ext; intros [[] ?]; reflexivity.
Qed.
Lemma gel_part : forall bs o sts, gel R L bs o sts = elem R L (map snd (filter (fun b : tblock => Bool.eqb (fst b) o) bs)) (map fst sts) (map snd sts).
Proof. intros. unfold gel, elem. rewrite bsum_map, bsum_filter. apply bsum_ext. intros tb _. now destruct (Bool.eqb (fst tb) o). Qed.
Lemma selem_gel : forall (s : site) p l r, selem s p l r = gel R L (tagged R L s) (fst p) (l :: snd p ++ [r]).
Proof. intros. unfold selem. rewrite part_tagged, gel_part. cbn [map]. now rewrite !map_app. Qed.
Lemma tagged_tags : forall (s : site) tb, In tb (tagged R L s) -> kind s = false -> fst tb = false.
Proof. intros [t|od ev] tb H K; [|discriminate]. cbn in H. apply in_map_iff in H. now destruct H as (b & <- & _). Qed.
Lemma tagged_nodup : forall n dl dp dr (s : site), wf_site n dl dp dr s -> NoDup (map (fun tb => (fst tb, fst (snd tb))) (tagged R L s)).
Proof.
  intros n dl dp dr s [_ W]. assert (A: forall o (l : tensor), NoDup (map fst l) -> NoDup (map (fun tb : tblock => (fst tb, fst (snd tb))) (map (pair o) l))).
  { intros o l H. rewrite map_map. cbn [fst snd]. rewrite <- (map_map fst (pair o)). apply FinFun.Injective_map_NoDup; [|exact H]. intros x y E. congruence. }
  destruct s as [t|od ev]; cbn [tagged]; [apply A; apply (W false)|]. rewrite map_app. apply nodup_app. split; [apply A; apply (W true)|]. split; [apply A; apply (W false)|].
  intros x H1 H2. apply in_map_iff in H1, H2. destruct H1 as (b & <- & H1), H2 as (b' & E & H2). apply in_map_iff in H1, H2. destruct H1 as (c & <- & _), H2 as (c' & <- & _). discriminate.
Qed.
Definition mids (n : Z) (dp : Z -> L -> Z) (qm : list L) : list Z := shape_of L dp (map (fun i => 1 + i) (zrange (n - 2))) qm.
Lemma shape_site : forall n dl dp dr ql qm qr, 2 <= n -> Z.of_nat (length qm) = n - 2 -> shape_of L (ldim L n dl dp dr) (zrange n) (ql :: qm ++ [qr]) = dl ql :: mids n dp qm ++ [dr qr].
Proof.
  intros n dl dp dr ql qm qr Hn Lm. rewrite shape_ends by lia. rewrite ldim_0, ldim_last by auto. do 2 f_equal. unfold mids, shape_of. apply map_ext_in. intros [i q] Hi. cbn [fst snd]. apply in_combine_l in Hi. apply in_map_iff in Hi. destruct Hi as (j & <- & Hj). apply in_zrange in Hj. apply ldim_mid. lia.
Qed.
Lemma mids_len : forall n dp qm, 2 <= n -> Z.of_nat (length qm) = n - 2 -> length (mids n dp qm) = length qm.
Proof. intros n dp qm Hn H. unfold mids. rewrite shape_of_length, map_length, zrange_length. lia. Qed.
Lemma tagged_block : forall n dl dp dr (s : site) tb, wf_site n dl dp dr s -> In tb (tagged R L s) -> exists ql qm qr, fst (snd tb) = ql :: qm ++ [qr] /\ Z.of_nat (length qm) = n - 2 /\
  nshape (snd (snd tb)) = dl ql :: mids n dp qm ++ [dr qr] /\ Forall (fun x => 0 < x) (mids n dp qm) /\ 0 < dl ql /\ 0 < dr qr /\ In ql (firsts s) /\ In qr (lasts s).
Proof.
  intros n dl dp dr s [o [ks b]] W H. apply in_tagged in H. cbn [fst snd] in *. destruct (site_block R L n dl dp dr s W o _ H) as (ql & qm & qr & E & Lm & _ & P1 & P2). exists ql, qm, qr. cbn [fst snd] in *. subst ks. destruct W as [Hn W]. destruct (W o) as (Wt & Ps & _). destruct (Wt _ H) as [_ Sb]. cbn [fst snd] in *. rewrite (shape_site n dl dp dr) in Sb by auto.
  repeat split; auto.
  - specialize (Ps _ H). cbn [snd] in Ps. rewrite Sb in Ps. inversion Ps as [|? ? _ P3]; subst. apply Forall_app in P3. tauto.
  - eapply in_firsts; eauto.
  - eapply (in_lasts R L s o (ql :: qm)); eauto.
Qed.

(* a site put together from blocks with the keys of another one *)
Lemma untag_site : forall n dl dp dr dl' dr' (s : site) bs, wf_site n dl dp dr s ->
  Permutation (map (fun tb => (fst tb, fst (snd tb))) bs) (map (fun tb => (fst tb, fst (snd tb))) (tagged R L s)) ->
  (forall tb', In tb' bs -> exists ql qm qr, fst (snd tb') = ql :: qm ++ [qr] /\ Z.of_nat (length qm) = n - 2 /\ nshape (snd (snd tb')) = dl' ql :: mids n dp qm ++ [dr' qr] /\ Forall (fun x => 0 < x) (mids n dp qm) /\ 0 < dl' ql /\ 0 < dr' qr) ->
  kind (untag R L s bs) = kind s /\ wf_site n dl' dp dr' (untag R L s bs) /\ (forall o, Permutation (map fst (part (untag R L s bs) o)) (map fst (part s o))) /\
  (forall p l r, selem (untag R L s bs) p l r = gel R L bs (fst p) (l :: snd p ++ [r])).
Proof.
  intros n dl dp dr dl' dr' s bs W P Sh.
  assert (Tg: forall tb, In tb bs -> kind s = false -> fst tb = false).
  { intros tb H K. apply (in_map (fun tb : tblock => (fst tb, fst (snd tb)))) in H. apply (Permutation_in _ P) in H. apply in_map_iff in H. destruct H as (tb0 & E & H). injection E as E _. rewrite <- E. now apply (tagged_tags s). }
  assert (Pk: forall o, Permutation (map fst (part (untag R L s bs) o)) (map fst (part s o))).
  { intros o. rewrite (part_untag s bs o Tg), (part_tagged s o). rewrite !map_map.
    assert (A: forall l : list tblock, map (fun x => fst (snd x)) (filter (fun b : tblock => Bool.eqb (fst b) o) l) = map snd (filter (fun k : bool * list L => Bool.eqb (fst k) o) (map (fun tb : tblock => (fst tb, fst (snd tb))) l))).
    { induction l as [|x l IH]; [reflexivity|]. cbn [map filter fst]. destruct (Bool.eqb (fst x) o); [cbn [map snd]; now rewrite IH|exact IH]. }
    rewrite !A. apply Permutation_map. clear - P. induction P as [|x l l' P IH|x y l|l l' l'' P IH P' IH']; [constructor| | |eapply perm_trans; eauto].
    - cbn [filter]. destruct (Bool.eqb (fst x) o); [now constructor|exact IH].
    - cbn [filter]. destruct (Bool.eqb (fst x) o), (Bool.eqb (fst y) o); try reflexivity. apply perm_swap. }
  split; [now destruct s|]. split; [|split; [exact Pk|]].
  - destruct W as [Hn W]. split; [exact Hn|]. intros o. assert (B: forall b, In b (part (untag R L s bs) o) -> In (o, b) bs).
    { intros b Hb. rewrite (part_untag s bs o Tg) in Hb. apply in_map_iff in Hb. destruct Hb as ((o' & b') & <- & Hb). apply filter_In in Hb. cbn [fst snd] in *. destruct Hb as [Hb Eo]. apply eqb_prop in Eo. now subst. }
    split; [|split].
    + intros b Hb. destruct (Sh _ (B b Hb)) as (ql & qm & qr & E & Lm & Es & _). cbn [fst snd] in *. rewrite E, Es. split; [cbn [length]; rewrite app_length; cbn; lia|]. symmetry. now apply shape_site.
    + intros b Hb. destruct (Sh _ (B b Hb)) as (ql & qm & qr & E & Lm & Es & P1 & P2 & P3). cbn [fst snd] in *. rewrite Es. constructor; [exact P2|]. apply Forall_app. auto.
    + apply (Permutation_NoDup (Permutation_sym (Pk o))). apply W.
  - intros p l r. unfold selem. rewrite (part_untag s bs _ Tg), gel_part. cbn [map]. now rewrite !map_app.
Qed.
Lemma keys_firsts : forall (s f : site), (forall o, incl (map fst (part f o)) (map fst (part s o))) -> incl (firsts f) (firsts s) /\ incl (lasts f) (lasts s).
Proof.
  intros s f H. split; intros q Hq; apply in_map_iff in Hq; destruct Hq as (b & <- & Hb); unfold blocks in Hb; apply in_app_iff in Hb; assert (Ho: exists o, In b (part f o)) by (destruct Hb; eauto); destruct Ho as (o & Ho);
    apply (in_map fst) in Ho; apply H in Ho; apply in_map_iff in Ho; destruct Ho as (b' & E & Hb'); rewrite <- E; apply in_map_iff; exists b'; (split; [reflexivity|]); unfold blocks; apply in_app_iff; destruct o; auto.
Qed.
Lemma last_lab : forall q l, (fun qs : list L => last qs (q0 L)) (put_last L q l) = q.
Proof. intros. apply last_last. Qed.
Lemma in_lasts_tagged : forall (s : site) q, In q (lasts s) <-> In q (map (fun tb => last (fst (snd tb)) (q0 L)) (tagged R L s)).
Proof.
  intros s q. unfold lasts. rewrite !in_map_iff. split.
  - intros (b & E & Hb). unfold blocks in Hb. apply in_app_iff in Hb. destruct Hb as [Hb|Hb]; [exists (true, b)|exists (false, b)]; (split; [exact E|]); now apply in_tagged.
  - intros ((o & b) & E & Hb). apply in_tagged in Hb. exists b. split; [exact E|]. unfold blocks. apply in_app_iff. cbn [fst snd] in Hb. destruct o; auto.
Qed.
Lemma in_firsts_tagged : forall (s : site) q, In q (firsts s) <-> In q (map (fun tb => hd (q0 L) (fst (snd tb))) (tagged R L s)).
Proof.
  intros s q. unfold firsts. rewrite !in_map_iff. split.
  - intros (b & E & Hb). unfold blocks in Hb. apply in_app_iff in Hb. destruct Hb as [Hb|Hb]; [exists (true, b)|exists (false, b)]; (split; [cbn [snd]; rewrite <- E; now destruct (fst b)|]); now apply in_tagged.
  - intros ((o & b) & E & Hb). apply in_tagged in Hb. exists b. split; [rewrite <- E; cbn [snd]; now destruct (fst b)|]. unfold blocks. apply in_app_iff. cbn [fst snd] in Hb. destruct o; auto.
Qed.

(** *** the gauge tensors *)
Section Gauge.
Variable lab : list L -> L.
Variables (T : list tblock) (d : L -> Z) (fac : L * list tblock -> list tblock * nd R).
Variable dn : L -> Z.
Hypothesis dims : forall q bs, In (q, bs) (collect R L lab T) -> 0 < dn q /\ 0 < d q /\ nshape (snd (fac (q, bs))) = [dn q; d q].
Definition gauge_dim (dl dr : L -> Z) (i : Z) (q : L) : Z := if i =? 0 then dl q else dr q.
Definition labs : list L := map (fun tb : tblock => lab (fst (snd tb))) T.
Definition gauge_ok (dl dr : L -> Z) (g : tensor) : Prop :=
  wf_tensor R L 2 (gauge_dim dl dr) g /\ positive g /\ NoDup (map fst g) /\ (forall k, In k (map fst g) -> exists q, k = [q; q] /\ In q labs).
Lemma gauge_gen : forall (h : nd R -> nd R) dl dr, (forall q bs, In (q, bs) (collect R L lab T) -> nshape (h (snd (fac (q, bs)))) = [dl q; dr q] /\ 0 < dl q /\ 0 < dr q) ->
  gauge_ok dl dr (map (fun g => ([fst g; fst g], h (snd (fac g)))) (collect R L lab T)) /\
  forall q q' z y, telem (map (fun g => ([fst g; fst g], h (snd (fac g)))) (collect R L lab T)) [(q, z); (q', y)] = if qeqb L q q' then bsum (collect R L lab T) (fun g => if qeqb L (fst g) q then nget (h (snd (fac g))) [z; y] else 0') else 0'.
Proof.
  intros h dl dr H. split.
  - split; [|split; [|split]].
    + intros b Hb. apply in_map_iff in Hb. destruct Hb as ((q & bs) & <- & Hb). cbn [fst snd]. split; [reflexivity|]. destruct (H q bs Hb) as [E _]. transitivity [dl q; dr q]; [exact E|reflexivity].
    + intros b Hb. apply in_map_iff in Hb. destruct Hb as ((q & bs) & <- & Hb). cbn [fst snd]. destruct (H q bs Hb) as (E & P1 & P2). cbn [fst snd] in *. rewrite E. repeat constructor; auto.
    + apply (NoDup_map_inv (hd (q0 L))). rewrite !map_map. apply collect_nodup.
    + intros k. rewrite map_map, in_map_iff.
      intros ((q & bs) & <- & Hb). exists q. split; [reflexivity|]. unfold labs. apply (in_map fst) in Hb. cbn [fst] in Hb. apply collect_key in Hb. destruct Hb as (b & Hb & <-). apply in_map_iff. eauto.
  - intros q q' z y. unfold MpsDot.telem, elem. rewrite bsum_map. cbn [map fst snd]. destruct (qeqb_spec L q q') as [<-|N].
    + apply bsum_ext. intros g _. destruct (tspec [fst g; fst g] [q; q]) as [E|E], (qeqb_spec L (fst g) q) as [F|F]; try reflexivity; congruence.
    + apply bsum_zero. intros g _. destruct (tspec [fst g; fst g] [q; q']) as [E|E]; [congruence|reflexivity].
Qed.
End Gauge.

(** *** factorising to the right: the last leg is singled out *)
Section FacLeft.
Variables (n : Z) (dl : L -> Z) (dp : Z -> L -> Z) (dr : L -> Z) (s : site).
Hypothesis W : wf_site n dl dp dr s.
Variable fac : L * list tblock -> list tblock * nd R.
Notation lastq := (fun qs : list L => last qs (q0 L)).
Hypothesis facs : forall g, In g (collect R L lastq (tagged R L s)) -> fac_ok R L put_last rest_last cj (dr (fst g)) (snd g) (fac g).
Notation dn := (new_dim R L lastq (tagged R L s) fac).
Notation f := (untag R L s (out_blocks R L lastq (tagged R L s) fac)).
Notation gs := (map (fun g => ([fst g; fst g], snd (fac g))) (collect R L lastq (tagged R L s))).
Lemma put_last_shape : forall d rs y ys, in_shape (put_last Z d rs) (put_last Z y ys) <-> 0 <= y < d /\ in_shape rs ys.
Proof.
  intros d rs y ys. unfold put_last. split.
  - intros H. apply Forall2_app_inv_l in H. destruct H as (a & b & Ha & Hb & E). inversion Hb as [|? y' ? ? Hy Hn]; subst. inversion Hn; subst. apply app_inj_tail in E. destruct E as [-> ->]. auto.
  - intros [H1 H2]. apply in_shape_app; [exact H2|]. repeat constructor; lia.
Qed.
Lemma put_last_inj : forall A (x y : A) l m, put_last A x l = put_last A y m -> x = y /\ l = m.
Proof. intros A x y l m H. apply app_inj_tail in H. tauto. Qed.
Lemma put_last_len : forall A (x : A) l, length (put_last A x l) = S (length l).
Proof. intros. unfold put_last. rewrite app_length. cbn. lia. Qed.
Lemma put_last_ex : forall A (l : list A), l <> [] -> exists x m, l = put_last A x m.
Proof. intros A l H. destruct (exists_last H) as (m & x & ->). exists x, m. reflexivity. Qed.
Lemma rest_put_last : forall A (d : A) rs, rest_last A (put_last A d rs) = rs.
Proof. intros. apply removelast_last. Qed.
Lemma put_last_map : forall A B (f : A -> B) x l, map f (put_last A x l) = put_last B (f x) (map f l).
Proof. intros. unfold put_last. now rewrite map_app. Qed.
Let Tshape : forall tb, In tb (tagged R L s) -> exists rs, nshape (snd (snd tb)) = put_last Z (dr (last (fst (snd tb)) (q0 L))) rs /\ Forall (fun x => 0 < x) rs /\ 0 < dr (last (fst (snd tb)) (q0 L)) /\ length (fst (snd tb)) = S (length rs).
Proof.
  intros tb H. destruct (tagged_block n dl dp dr s tb W H) as (ql & qm & qr & E & Lm & Es & Pm & Pl & Pr & _). destruct W as [Hn _]. exists (dl ql :: mids n dp qm). rewrite E, Es. change (ql :: qm ++ [qr]) with ((ql :: qm) ++ [qr]). rewrite last_last.
  split; [reflexivity|]. split; [now constructor|]. split; [exact Pr|]. rewrite app_length. cbn [length]. rewrite mids_len by auto. lia.
Qed.
Lemma fac_left : kind f = kind s /\ wf_site n dl dp dn f /\ (forall o, Permutation (map fst (part f o)) (map fst (part s o))) /\
  gauge_ok lastq (tagged R L s) dn dr gs /\
  (forall p l q y, selem s p l (q, y) = bsum (zrange (dn q)) (fun z => selem f p l (q, z) *' telem gs [(q, z); (q, y)])) /\
  (last_determined s -> left_iso dn f) /\ (forall q, In q (lasts s) -> 0 < dn q).
Proof.
  pose proof (tagged_nodup n dl dp dr s W) as TN.
  assert (Dm: forall q bs, In (q, bs) (collect R L lastq (tagged R L s)) -> nshape (snd (fac (q, bs))) = [dn q; dr q] /\ 0 < dn q /\ 0 < dr q).
  { intros q bs H. destruct (new_dim_in R L put_last lastq rest_last cj _ dr fac facs q bs H) as [P E]. split; [exact E|]. split; [exact P|]. apply (in_map fst) in H. cbn [fst] in H. apply collect_key in H. destruct H as (b & Hb & <-). destruct (Tshape b Hb) as (_ & _ & _ & P' & _). exact P'. }
  assert (Sh: forall tb', In tb' (out_blocks R L lastq (tagged R L s) fac) -> exists ql qm qr, fst (snd tb') = ql :: qm ++ [qr] /\ Z.of_nat (length qm) = n - 2 /\ nshape (snd (snd tb')) = dl ql :: mids n dp qm ++ [dn qr] /\ Forall (fun x => 0 < x) (mids n dp qm) /\ 0 < dl ql /\ 0 < dn qr).
  { intros tb' H. destruct (out_in R L put_last lastq rest_last cj _ dr fac facs tb' H) as (tb & Hb & _ & E2 & E3). destruct (tagged_block n dl dp dr s tb W Hb) as (ql & qm & qr & E & Lm & Es & Pm & Pl & Pr & _). exists ql, qm, qr. rewrite E2, E3, E, Es. split; [reflexivity|]. split; [exact Lm|].
    change (ql :: qm ++ [qr]) with ((ql :: qm) ++ [qr]). rewrite last_last. change (dl ql :: mids n dp qm ++ [dr qr]) with (put_last Z (dr qr) (dl ql :: mids n dp qm)). rewrite rest_put_last. split; [reflexivity|]. split; [exact Pm|]. split; [exact Pl|].
    apply (new_dim_pos R L put_last lastq rest_last cj _ dr fac facs). apply in_map_iff. exists tb. split; [|exact Hb]. rewrite E. change (ql :: qm ++ [qr]) with ((ql :: qm) ++ [qr]). apply last_last. }
  destruct (untag_site n dl dp dr dl dn s _ W (out_perm R L put_last lastq rest_last cj _ dr fac facs) Sh) as (K & Wf & Pk & Sel). destruct (gauge_gen lastq (tagged R L s) fac (fun a => a) dn dr Dm) as [G1 G2].
  split; [exact K|]. split; [exact Wf|]. split; [exact Pk|]. split; [exact G1|]. split; [|split].
  - intros p l q y. rewrite selem_gel. change (l :: snd p ++ [(q, y)]) with (put_last state (q, y) (l :: snd p)).
    rewrite (core_factor R L put_last lastq put_last_map last_lab put_last_shape rest_last rest_put_last cj _ dr Tshape fac facs). apply bsum_ext. intros z _. rewrite Sel, G2. destruct (qeqb_spec L q q); [reflexivity|congruence].
  - intros Det X NX CX [q z] [q' z'] Hz Hz'. cbn [fst snd] in *.
    pose proof (core_isometry R L put_last lastq put_last_map put_last_inj put_last_len put_last_ex last_lab put_last_shape rest_last rest_put_last cj cj0 _ dr Tshape TN fac facs) as I.
    specialize (I ltac:(intros tb tb2 a b ks H1 H2 E Ea Eb; apply in_tagged in H1, H2; apply (Det (fst tb) ks); [|rewrite E]; apply in_map_iff; [exists (snd tb)|exists (snd tb2)]; auto) q q' z z' (map (fun x : pstate * state => (fst (fst x), snd x :: snd (fst x))) X) Hz Hz').
    rewrite bsum_map in I. rewrite (bsum_ext R _ X _ (fun x : pstate * state => cj (gel R L (out_blocks R L lastq (tagged R L s) fac) (fst (fst (fst x), snd x :: snd (fst x))) (put_last state (q, z) (snd (fst (fst x), snd x :: snd (fst x))))) *' gel R L (out_blocks R L lastq (tagged R L s) fac) (fst (fst (fst x), snd x :: snd (fst x))) (put_last state (q', z') (snd (fst (fst x), snd x :: snd (fst x)))))).
    2:{ intros x _. rewrite !Sel. reflexivity. }
    rewrite I.
    + destruct (st_dec L (q, z) (q', z')) as [E|E]; destruct (qeqb_spec L q q') as [F|F], (Z.eqb_spec z z') as [F'|F']; cbn [andb]; try reflexivity; congruence.
    + apply FinFun.Injective_map_NoDup; [|exact NX]. intros [[o c] l] [[o' c'] l'] E. cbn [fst snd] in E. congruence.
    + intros o c q1 z1 N. destruct c as [|l c].
      * apply gel_zero. intros tb' H _ E _. destruct (Sh tb' H) as (ql & qm & qr & E' & _). rewrite E' in E. apply (f_equal (@length _)) in E. cbn in E. rewrite app_length in E. cbn in E. lia.
      * change (put_last state (q1, z1) (l :: c)) with (l :: snd (o, c) ++ [(q1, z1)]). change o with (fst (o, c)) at 1. rewrite <- Sel. apply CX. intros H. apply N. apply in_map_iff. exists ((o, c), l). auto.
  - intros q Hq. apply in_lasts_tagged in Hq. exact (new_dim_pos R L put_last lastq rest_last cj _ dr fac facs q Hq).
Qed.
End FacLeft.

(** *** factorising to the left: the first leg is singled out *)
Section FacRight.
Variables (n : Z) (dl : L -> Z) (dp : Z -> L -> Z) (dr : L -> Z) (s : site).
Hypothesis W : wf_site n dl dp dr s.
Variable fac : L * list tblock -> list tblock * nd R.
Notation headq := (fun qs : list L => hd (q0 L) qs).
Hypothesis facs : forall g, In g (collect R L headq (tagged R L s)) -> fac_ok R L put_first rest_first cj (dl (fst g)) (snd g) (fac g).
Notation dn := (new_dim R L headq (tagged R L s) fac).
Notation f := (untag R L s (out_blocks R L headq (tagged R L s) fac)).
Notation gs := (map (fun g => ([fst g; fst g], nd_T R (snd (fac g)))) (collect R L headq (tagged R L s))).
Lemma put_first_shape : forall d rs y ys, in_shape (put_first Z d rs) (put_first Z y ys) <-> 0 <= y < d /\ in_shape rs ys.
Proof. intros d rs y ys. unfold put_first. split; [intros H; inversion H; auto|intros [H1 H2]; now constructor]. Qed.
Lemma put_first_inj : forall A (x y : A) l m, put_first A x l = put_first A y m -> x = y /\ l = m.
Proof. unfold put_first. intros. split; congruence. Qed.
Lemma put_first_ex : forall A (l : list A), l <> [] -> exists x m, l = put_first A x m.
Proof. intros A [|x m] H; [congruence|]. exists x, m. reflexivity. Qed.
Let Tshape : forall tb, In tb (tagged R L s) -> exists rs, nshape (snd (snd tb)) = put_first Z (dl (hd (q0 L) (fst (snd tb)))) rs /\ Forall (fun x => 0 < x) rs /\ 0 < dl (hd (q0 L) (fst (snd tb))) /\ length (fst (snd tb)) = S (length rs).
Proof.
  intros tb H. destruct (tagged_block n dl dp dr s tb W H) as (ql & qm & qr & E & Lm & Es & Pm & Pl & Pr & _). destruct W as [Hn _]. exists (mids n dp qm ++ [dr qr]). rewrite E, Es. cbn [hd].
  split; [reflexivity|]. split; [apply Forall_app; auto|]. split; [exact Pl|]. cbn [length]. rewrite !app_length. cbn [length]. rewrite mids_len by auto. lia.
Qed.
Lemma fac_right : kind f = kind s /\ wf_site n dn dp dr f /\ (forall o, Permutation (map fst (part f o)) (map fst (part s o))) /\
  gauge_ok headq (tagged R L s) dl dn gs /\
  (forall p q y r, selem s p (q, y) r = bsum (zrange (dn q)) (fun z => telem gs [(q, y); (q, z)] *' selem f p (q, z) r)) /\
  (first_determined s -> right_iso dn f) /\ (forall q, In q (firsts s) -> 0 < dn q).
Proof.
  pose proof (tagged_nodup n dl dp dr s W) as TN.
  assert (Dm: forall q bs, In (q, bs) (collect R L headq (tagged R L s)) -> nshape (snd (fac (q, bs))) = [dn q; dl q] /\ 0 < dn q /\ 0 < dl q).
  { intros q bs H. destruct (new_dim_in R L put_first headq rest_first cj _ dl fac facs q bs H) as [P E]. split; [exact E|]. split; [exact P|]. apply (in_map fst) in H. cbn [fst] in H. apply collect_key in H. destruct H as (b & Hb & <-). destruct (Tshape b Hb) as (_ & _ & _ & P' & _). exact P'. }
  assert (Sh: forall tb', In tb' (out_blocks R L headq (tagged R L s) fac) -> exists ql qm qr, fst (snd tb') = ql :: qm ++ [qr] /\ Z.of_nat (length qm) = n - 2 /\ nshape (snd (snd tb')) = dn ql :: mids n dp qm ++ [dr qr] /\ Forall (fun x => 0 < x) (mids n dp qm) /\ 0 < dn ql /\ 0 < dr qr).
  { intros tb' H. destruct (out_in R L put_first headq rest_first cj _ dl fac facs tb' H) as (tb & Hb & _ & E2 & E3). destruct (tagged_block n dl dp dr s tb W Hb) as (ql & qm & qr & E & Lm & Es & Pm & Pl & Pr & _). exists ql, qm, qr. rewrite E2, E3, E, Es. split; [reflexivity|]. split; [exact Lm|].
    cbn [hd]. split; [reflexivity|]. split; [exact Pm|]. split; [|exact Pr].
    apply (new_dim_pos R L put_first headq rest_first cj _ dl fac facs). apply in_map_iff. exists tb. split; [|exact Hb]. rewrite E. reflexivity. }
  destruct (untag_site n dl dp dr dn dr s _ W (out_perm R L put_first headq rest_first cj _ dl fac facs) Sh) as (K & Wf & Pk & Sel).
  destruct (gauge_gen headq (tagged R L s) fac (nd_T R) dl dn) as [G1 G2].
  { intros q bs H. destruct (Dm q bs H) as (E & P1 & P2). split; [|auto]. exact (proj1 (nget_T R _ _ _ 0 0 E)). }
  split; [exact K|]. split; [exact Wf|]. split; [exact Pk|]. split; [exact G1|]. split; [|split].
  - intros p q y r. rewrite selem_gel. change ((q, y) :: snd p ++ [r]) with (put_first state (q, y) (snd p ++ [r])).
    rewrite (core_factor R L put_first headq (fun A B f x l => eq_refl) (fun q l => eq_refl) put_first_shape rest_first (fun A d rs => eq_refl) cj _ dl Tshape fac facs). apply bsum_ext. intros z _. rewrite Sel, G2. destruct (qeqb_spec L q q); [|congruence].
    unfold gauge_at. rewrite (bsum_ext R _ (collect R L headq (tagged R L s)) (fun g => if qeqb L (fst g) q then nget (nd_T R (snd (fac g))) [y; z] else 0') (fun g => if qeqb L (fst g) q then nget (snd (fac g)) [z; y] else 0')).
    + apply (Rmul_comm (rth R)).
    + intros [q1 bs] H. cbn [fst]. destruct (qeqb L q1 q); [|reflexivity]. destruct (Dm q1 bs H) as (E & _). exact (proj2 (nget_T R _ _ _ z y E)).
  - intros Det X NX CX [q z] [q' z'] Hz Hz'. cbn [fst snd] in *.
    pose proof (core_isometry R L put_first headq (fun A B f x l => eq_refl) put_first_inj (fun A x l => eq_refl) put_first_ex (fun q l => eq_refl) put_first_shape rest_first (fun A d rs => eq_refl) cj cj0 _ dl Tshape TN fac facs) as I.
    specialize (I ltac:(intros tb tb2 a b ks H1 H2 E Ea Eb; apply in_tagged in H1, H2; apply (Det (fst tb) ks); [|rewrite E]; apply in_map_iff; [exists (snd tb)|exists (snd tb2)]; auto) q q' z z' (map (fun x : pstate * state => (fst (fst x), snd (fst x) ++ [snd x])) X) Hz Hz').
    rewrite bsum_map in I. rewrite (bsum_ext R _ X _ (fun x : pstate * state => cj (gel R L (out_blocks R L headq (tagged R L s) fac) (fst (fst (fst x), snd (fst x) ++ [snd x])) (put_first state (q, z) (snd (fst (fst x), snd (fst x) ++ [snd x])))) *' gel R L (out_blocks R L headq (tagged R L s) fac) (fst (fst (fst x), snd (fst x) ++ [snd x])) (put_first state (q', z') (snd (fst (fst x), snd (fst x) ++ [snd x]))))).
    2:{ intros x _. rewrite !Sel. reflexivity. }
    rewrite I.
    + destruct (st_dec L (q, z) (q', z')) as [E|E]; destruct (qeqb_spec L q q') as [F|F], (Z.eqb_spec z z') as [F'|F']; cbn [andb]; try reflexivity; congruence.
    + apply FinFun.Injective_map_NoDup; [|exact NX]. intros [[o c] l] [[o' c'] l'] E. cbn [fst snd] in E. injection E as -> E. apply app_inj_tail in E. destruct E as [-> ->]. reflexivity.
    + intros o c q1 z1 N. destruct c as [|l c _] using rev_ind.
      * apply gel_zero. intros tb' H _ E _. destruct (Sh tb' H) as (ql & qm & qr & E' & _). rewrite E' in E. apply (f_equal (@length _)) in E. cbn in E. rewrite app_length in E. cbn in E. lia.
      * change (put_first state (q1, z1) (c ++ [l])) with ((q1, z1) :: snd (o, c) ++ [l]). change o with (fst (o, c)) at 1. rewrite <- Sel. apply CX. intros H. apply N. apply in_map_iff. exists ((o, c), l). auto.
  - intros q Hq. apply in_firsts_tagged in Hq. exact (new_dim_pos R L put_first headq rest_first cj _ dl fac facs q Hq).
Qed.
End FacRight.

(** *** contraction of the last leg with the first *)
Lemma hdot_axes : forall (a b : tensor) na dma, wf_tensor R L na dma a -> sp_tensordot_n R L a b 1 = sp_tensordot R L a b [na - 1] [0].
Proof.
  intros a b na dma Wa. unfold sp_tensordot_n. change (map (fun i => i - 1) (zrange 1)) with [-1]. change (zrange 1) with [0]. destruct a as [|ba a]; [reflexivity|].
  unfold sp_tensordot. rewrite (ndim_wf R L na dma (ba :: a) Wa) by discriminate. destruct (Wa ba (or_introl eq_refl)) as [La _]. 
  assert (E: norm_axes na [-1] = norm_axes na [na - 1]). { unfold norm_axes. cbn [map]. change (0 <=? -1) with false. destruct (Z.leb_spec 0 (na - 1)); cbn iota; f_equal; lia. }
  now rewrite E.
Qed.

Lemma hdot_spec : forall (a b r : tensor) na nb dma dmb, 1 <= na -> 1 <= nb -> wf_tensor R L na dma a -> wf_tensor R L nb dmb b -> positive a -> positive b -> (forall q, dma (na - 1) q = dmb 0 q) -> sp_tensordot_n R L a b 1 = Some r ->
  (forall C fa fb, NoDup C -> Z.of_nat (length fa) = na - 1 -> Z.of_nat (length fb) = nb - 1 -> (forall m, ~ In m C -> telem a (fa ++ [m]) *' telem b (m :: fb) = 0') ->
     telem r (fa ++ fb) = bsum C (fun m => telem a (fa ++ [m]) *' telem b (m :: fb))) /\
  wf_tensor R L (na + nb - 2) (fun i q => if i <? na - 1 then dma i q else dmb (i - (na - 1) + 1) q) r /\ positive r /\ NoDup (map fst r) /\
  (forall c, In c r -> exists ka kb m, In (ka ++ [m]) (map fst a) /\ In (m :: kb) (map fst b) /\ fst c = ka ++ kb).
Proof.
  intros a b r na nb dma dmb Hna Hnb Wa Wb Pa Pb D E. rewrite (hdot_axes a b na dma Wa) in E.
  assert (Na: NoDup [na - 1]) by (repeat constructor; intros []). assert (Nb: NoDup [0]) by (repeat constructor; intros []).
  assert (Ra: forall i, In i [na - 1] -> 0 <= i < na) by (intros i [<-|[]]; lia). assert (Rb: forall i, In i [0] -> 0 <= i < nb) by (intros i [<-|[]]; lia).
  assert (Dd: forall i j q, In (i, j) (combine [na - 1] [0]) -> dma i q = dmb j q) by (intros i j q [H|[]]; injection H as <- <-; apply D).
  assert (Oa: others na [na - 1] = zrange (na - 1)). { pose proof (others_last na 1 ltac:(lia)) as O. change (zrange 1) with [0] in O. cbn [map] in O. now rewrite Z.add_0_r in O. }
  assert (Ob: others nb [0] = map (fun i => 1 + i) (zrange (nb - 1))). { exact (others_first nb 1 ltac:(lia)). }
  assert (Ma: forall A (d : A) o c, Z.of_nat (length o) = na - 1 -> merge d na [na - 1] [c] o = o ++ [c]). { intros A d o c Ho. pose proof (merge_last A d na 1 o [c] ltac:(lia) Ho eq_refl) as O. change (zrange 1) with [0] in O. cbn [map] in O. now rewrite Z.add_0_r in O. }
  assert (Mb: forall A (d : A) o c, Z.of_nat (length o) = nb - 1 -> merge d nb [0] [c] o = c :: o). { intros A d o c Ho. exact (merge_first A d nb 1 o [c] ltac:(lia) Ho eq_refl). }
  destruct (tdot_wf R L a b na nb dma dmb [na - 1] [0] r Wa Wb Pa Na Nb Ra Rb eq_refl Dd E Pb) as (Wr & Pr & Nr & Or). cbn [length] in Wr.
  split; [|split; [|split; [exact Pr|split; [exact Nr|] ] ] ].
  - intros C fa fb NC La Lb Cov.
    rewrite (tdot_states R L a b na nb dma dmb [na - 1] [0] r Wa Wb Pa Na Nb Ra Rb eq_refl Dd E (map (fun m => [m]) C) fa fb).
    + rewrite bsum_map. apply bsum_ext. intros m _. now rewrite Ma, Mb.
    + apply FinFun.Injective_map_NoDup; [intros x y H; congruence|exact NC].
    + intros c Hc. apply in_map_iff in Hc. now destruct Hc as (m & <- & _).
    + cbn [length]. lia.
    + cbn [length]. lia.
    + intros c Lc Nc. destruct c as [|m [|]]; try discriminate. rewrite Ma, Mb by auto. apply Cov. intros H. apply Nc. apply in_map_iff. exists m. auto.
  - intros c Hc. destruct (Wr c Hc) as [Lc Sc]. split; [lia|]. rewrite Sc. replace (na - Z.of_nat 1 + (nb - Z.of_nat 1)) with (na + nb - 2) by lia. apply map_ext_in. intros [i q] Hi. cbn [fst snd]. apply in_combine_l in Hi. apply in_zrange in Hi.
    unfold dm_out. rewrite Oa, Ob, zrange_length. replace (Z.of_nat (Z.to_nat (na - 1))) with (na - 1) by lia. destruct (Z.ltb_spec i (na - 1)).
    + rewrite nth_zrange by lia. f_equal. lia.
    + rewrite (nth_indep _ 0 (1 + 0)) by (rewrite map_length, zrange_length; lia). rewrite (map_nth (fun j => 1 + j)), nth_zrange by lia. f_equal. lia.
  - intros c Hc. destruct (Or c Hc) as (ba & bb & Ha & Hb & Ec & Em). destruct (Wa ba Ha) as [La _], (Wb bb Hb) as [Lb _].
    assert (Ea: exists ka m, fst ba = ka ++ [m]). { destruct (exists_last (l := fst ba)) as (ka & m & Ea); [intros Ea; rewrite Ea in La; cbn in La; lia|]. eauto. } destruct Ea as (ka & m & Ea). destruct (fst bb) as [|m' kb] eqn:Eb; [cbn in Lb; lia|].
    rewrite Ea in La. rewrite app_length in La. cbn [length] in La, Lb.
    exists ka, kb, m. split; [rewrite <- Ea; now apply in_map|].
    assert (Mm: m = m'). { cbn [pick map] in Em. injection Em as Em. rewrite Ea in Em. rewrite app_nth2 in Em by lia. replace (Z.to_nat (na - 1) - length ka)%nat with O in Em by lia. exact Em. }
    split; [rewrite Mm, <- Eb; now apply in_map|]. rewrite Ec, Oa, Ob, Ea.
    rewrite <- (Ma L (q0 L) ka m) by lia. rewrite <- Oa, pick_merge_o by (auto; rewrite Oa, zrange_length; lia).
    rewrite <- (Mb L (q0 L) kb m') at 1 by lia. rewrite <- Ob, pick_merge_o by (auto; rewrite Ob, map_length, zrange_length; lia). reflexivity.
Qed.

(** *** a site with a gauge *)
Lemma elem_key : forall (t : tensor) sts, telem t sts <> 0' -> In (map fst sts) (map fst t).
Proof.
  intros t sts H. destruct (in_dec (list_eq_dec (q_dec L)) (map fst sts) (map fst t)) as [I|N]; [exact I|]. destruct H. unfold MpsDot.telem, elem. apply bsum_zero. intros b Hb. destruct (tspec (fst b) (map fst sts)) as [E|]; [|reflexivity]. destruct N. rewrite <- E. now apply in_map.
Qed.
Lemma gauge_zero : forall lab T d1 d2 g m m', gauge_ok lab T d1 d2 g -> ~ (fst m = fst m' /\ In (fst m) (labs lab T) /\ 0 <= snd m < d1 (fst m) /\ 0 <= snd m' < d2 (fst m')) -> telem g [m; m'] = 0'.
Proof.
  intros lab T d1 d2 g [q z] [q' y] (Wg & _ & _ & Kg) N. cbn [fst snd] in N. unfold MpsDot.telem. apply elem_out. intros b Hb E X. cbn [map fst snd] in *. assert (Hk: In [q; q'] (map fst g)) by (rewrite <- E; now apply in_map). apply Kg in Hk. destruct Hk as (q1 & Eq & Hq). injection Eq as -> ->. destruct (Wg b Hb) as [_ Sb]. rewrite E in Sb. cbn in Sb. rewrite Sb in X. apply in_shape2 in X. apply N. repeat split; try apply X; auto.
Qed.
Lemma selem_tel : forall (s : site) p l r, selem s p l r = telem (part s (fst p)) (l :: snd p ++ [r]).
Proof. intros. unfold selem, MpsDot.telem. cbn [map]. now rewrite !map_app. Qed.
Lemma hdot_some : forall a b : tensor, exists r, sp_tensordot_n R L a b 1 = Some r.
Proof. intros a b. apply tdot_some. reflexivity. Qed.
Lemma gauge_left_spec : forall lab T dn dm g n dp dr (u : site), gauge_ok lab T dn dm g -> wf_site n dm dp dr u -> exists u', gauge_left R L g u = Some u' /\
  (kind u' = kind u \/ blocks u' = []) /\ wf_site n dn dp dr u' /\ (forall o, incl (map fst (part u' o)) (map fst (part u o))) /\
  (forall p m' r C, NoDup C -> (forall m, ~ In m C -> telem g [m'; m] = 0') -> selem u' p m' r = bsum C (fun m => telem g [m'; m] *' selem u p m r)).
Proof.
  intros lab T dn dm g n dp dr u Gg Wu. pose proof Gg as (Wg & Pg & Ng & Kg). pose proof Wu as [Hn Wp].
  assert (P: forall o r, sp_tensordot_n R L g (part u o) 1 = Some r ->
     (wf_tensor R L n (ldim L n dn dp dr) r /\ positive r /\ NoDup (map fst r)) /\ incl (map fst r) (map fst (part u o)) /\
     forall p m' x C, NoDup C -> (forall m, ~ In m C -> telem g [m'; m] = 0') -> Z.of_nat (length p) = n - 2 -> telem r (m' :: p ++ [x]) = bsum C (fun m => telem g [m'; m] *' telem (part u o) (m :: p ++ [x]))).
  { intros o r E. destruct (Wp o) as (Wo & Po & No). destruct (hdot_spec g (part u o) r 2 n _ _ ltac:(lia) ltac:(lia) Wg Wo Pg Po) as (S1 & S2 & S3 & S4 & S5); [intros q; rewrite ldim_0; reflexivity|exact E|]. split; [|split].
    - split; [|split; [exact S3|exact S4] ]. replace (2 + n - 2) with n in S2 by lia. refine (wf_tensor_ext R L n _ _ r _ S2). intros i q Hi. unfold gauge_dim, ldim. destruct (Z.ltb_spec i (2 - 1)), (Z.eqb_spec i 0); [reflexivity|lia|lia|]. replace (i - (2 - 1) + 1) with i by lia. destruct (Z.eqb_spec i 0); [lia|reflexivity].
    - intros k Hk. apply in_map_iff in Hk. destruct Hk as (c & <- & Hc). destruct (S5 c Hc) as (ka & kb & m & Ha & Hb & ->). apply Kg in Ha. destruct Ha as (q & Ea & _). destruct ka as [|k0 [|]]; try discriminate; [|destruct l; discriminate]. injection Ea as -> ->. exact Hb.
    - intros p m' x C NC Cov Lp. apply (S1 C [m'] (p ++ [x]) NC); [reflexivity|rewrite app_length; cbn [length]; lia|]. intros m Hm. cbn [app]. rewrite (Cov m Hm). ring. }
  assert (Q: exists u', gauge_left R L g u = Some u' /\ (kind u' = kind u \/ blocks u' = []) /\ forall o, sp_tensordot_n R L g (part u o) 1 = Some (part u' o)).
  { destruct u as [t|od ev]; cbn [gauge_left part].
    - destruct (hdot_some g t) as (r & E). rewrite E. cbn [bind]. exists (SP r). split; [reflexivity|]. split; [now left|]. intros []; [|exact E]. cbn [part]. destruct (hdot_some g []) as (r0' & E0). destruct (P true r0' E0) as (_ & I & _). cbn [part map] in I. destruct r0' as [|b r0']; [exact E0|]. destruct (I (fst b) (or_introl eq_refl)).
    - destruct (hdot_some g ev) as (re & Ee), (hdot_some g od) as (ro & Eo). rewrite Ee, Eo. cbn [bind]. destruct g as [|b g'] eqn:Eg.
      + change (ndim R L []) with 0. assert (re = [] /\ ro = []) as [-> ->]. { change (Some [] = Some re) in Ee. change (Some [] = Some ro) in Eo. split; congruence. } cbn [Z.sub Z.eqb]. exists (SP (sp_add R L [] [])). split; [reflexivity|]. split; [right; reflexivity|]. intros []; cbn [part]; [exact Eo|exact Ee].
      + rewrite (ndim_wf R L 2 _ (b :: g') Wg) by discriminate. cbn [Z.sub Z.eqb]. exists (FT ro re). split; [reflexivity|]. split; [now left|]. intros []; cbn [part]; assumption. }
  destruct Q as (u' & E & K & H). exists u'. split; [exact E|]. split; [exact K|]. split; [|split].
  - split; [exact Hn|]. intros o. apply (P o _ (H o)).
  - intros o. apply (P o _ (H o)).
  - intros p m' r C NC Cov. destruct (Z.eq_dec (Z.of_nat (length (snd p))) (n - 2)) as [Lp|Lp].
    + rewrite selem_tel. destruct (P (fst p) _ (H (fst p))) as (_ & _ & S). rewrite (S (snd p) m' r C NC Cov Lp). apply bsum_ext. intros m _. now rewrite selem_tel.
    + rewrite (selem_len R L n dn dp dr); [|split; [exact Hn|intros o; apply (P o _ (H o))]|exact Lp]. symmetry. apply bsum_zero. intros m _. rewrite (selem_len R L n dm dp dr u Wu) by exact Lp. ring.
Qed.
Lemma gauge_right_spec : forall lab T dm dn g n dl dp (u : site), gauge_ok lab T dm dn g -> wf_site n dl dp dm u -> exists u', gauge_right R L u g = Some u' /\
  (kind u' = kind u \/ blocks u' = []) /\ wf_site n dl dp dn u' /\ (forall o, incl (map fst (part u' o)) (map fst (part u o))) /\
  (forall p l m' C, NoDup C -> (forall m, ~ In m C -> selem u p l m *' telem g [m; m'] = 0') -> selem u' p l m' = bsum C (fun m => selem u p l m *' telem g [m; m'])).
Proof.
  intros lab T dm dn g n dl dp u Gg Wu. pose proof Gg as (Wg & Pg & Ng & Kg). pose proof Wu as [Hn Wp].
  assert (P: forall o r, sp_tensordot_n R L (part u o) g 1 = Some r ->
     (wf_tensor R L n (ldim L n dl dp dn) r /\ positive r /\ NoDup (map fst r)) /\ incl (map fst r) (map fst (part u o)) /\
     forall p l m' C, NoDup C -> (forall m, ~ In m C -> telem (part u o) (l :: p ++ [m]) *' telem g [m; m'] = 0') -> Z.of_nat (length p) = n - 2 -> telem r (l :: p ++ [m']) = bsum C (fun m => telem (part u o) (l :: p ++ [m]) *' telem g [m; m'])).
  { intros o r E. destruct (Wp o) as (Wo & Po & No). destruct (hdot_spec (part u o) g r n 2 _ _ ltac:(lia) ltac:(lia) Wo Wg Po Pg) as (S1 & S2 & S3 & S4 & S5); [intros q; rewrite ldim_last by auto; reflexivity|exact E|]. split; [|split].
    - split; [|split; [exact S3|exact S4] ]. replace (n + 2 - 2) with n in S2 by lia. refine (wf_tensor_ext R L n _ _ r _ S2). intros i q Hi. unfold gauge_dim, ldim. destruct (Z.ltb_spec i (n - 1)).
      + destruct (Z.eqb_spec i 0); [reflexivity|]. destruct (Z.eqb_spec i (n - 1)); [lia|reflexivity].
      + destruct (Z.eqb_spec i 0); [lia|]. destruct (Z.eqb_spec (i - (n - 1) + 1) 0); [lia|]. destruct (Z.eqb_spec i (n - 1)); [reflexivity|lia].
    - intros k Hk. apply in_map_iff in Hk. destruct Hk as (c & <- & Hc). destruct (S5 c Hc) as (ka & kb & m & Ha & Hb & ->). apply Kg in Hb. destruct Hb as (q & Eb & _). injection Eb as -> ->. exact Ha.
    - intros p l m' C NC Cov Lp. change (l :: p ++ [m']) with ((l :: p) ++ [m']). apply (S1 C (l :: p) [m'] NC); [cbn [length]; lia|reflexivity|]. intros m Hm. cbn [app]. exact (Cov m Hm). }
  assert (Q: exists u', gauge_right R L u g = Some u' /\ (kind u' = kind u \/ blocks u' = []) /\ forall o, sp_tensordot_n R L (part u o) g 1 = Some (part u' o)).
  { destruct u as [t|od ev]; cbn [gauge_right part].
    - destruct (hdot_some t g) as (r & E). rewrite E. cbn [bind]. exists (SP r). split; [reflexivity|]. split; [now left|]. intros []; [|exact E]. cbn [part]. reflexivity.
    - destruct (hdot_some ev g) as (re & Ee), (hdot_some od g) as (ro & Eo). rewrite Ee, Eo. cbn [bind]. destruct g as [|b g'] eqn:Eg.
      + change (ndim R L []) with 0. destruct (P true ro Eo) as ((_ & _ & _) & Io & _), (P false re Ee) as ((_ & _ & _) & Ie & _).
        assert (G0: forall (t r : tensor), sp_tensordot_n R L t [] 1 = Some r -> r = []). { intros t r E. unfold sp_tensordot_n, sp_tensordot in E. cbn [negb Nat.eqb length norm_axes map zrange] in E. injection E as <-. cbn. assert (F: forall l acc, fold_left (fun (m : list (list L * nd R)) (_ : list L * nd R) => m) l acc = acc) by (induction l; auto). apply F. }
        pose proof (G0 _ _ Ee). pose proof (G0 _ _ Eo). subst re ro. cbn [Z.sub Z.eqb]. exists (SP (sp_add R L [] [])). split; [reflexivity|]. split; [right; reflexivity|]. intros []; cbn [part]; [exact Eo|exact Ee].
      + rewrite (ndim_wf R L 2 _ (b :: g') Wg) by discriminate. cbn [Z.sub Z.eqb]. exists (FT ro re). split; [reflexivity|]. split; [now left|]. intros []; cbn [part]; assumption. }
  destruct Q as (u' & E & K & H). exists u'. split; [exact E|]. split; [exact K|]. split; [|split].
  - split; [exact Hn|]. intros o. apply (P o _ (H o)).
  - intros o. apply (P o _ (H o)).
  - intros p l m' C NC Cov. destruct (Z.eq_dec (Z.of_nat (length (snd p))) (n - 2)) as [Lp|Lp].
    + rewrite selem_tel. destruct (P (fst p) _ (H (fst p))) as (_ & _ & S). rewrite (S (snd p) l m' C NC); [|intros m Hm; rewrite <- selem_tel; now apply Cov|exact Lp]. apply bsum_ext. intros m _. now rewrite selem_tel.
    + rewrite (selem_len R L n dl dp dn); [|split; [exact Hn|intros o; apply (P o _ (H o))]|exact Lp]. symmetry. apply bsum_zero. intros m _. rewrite (selem_len R L n dl dp dm u Wu) by exact Lp. ring.
Qed.
End Sites.
