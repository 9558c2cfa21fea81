(** C59, C33: MPS.compress discards what it reports, and the result is canonical and within the bond limit. *)
From Coq Require Import ZArith Bool List Lia Permutation Sorted Ring QArith Qcanon.
From Verif Require Import SymModel SymProofs DictLib IndexLib OptLib RingLib OrdLib BondModel BondProofs FuseModel FuseProofs BlockModel BlockProofs StructModel StructProofs MpsModel MpsChain MpsProofs MpsDot TruncModel TruncProofs CanonModel CanonProofs CanonSites CanonChain CanonSweep CanonProps CompressModel CompressSvd CompressCut CompressSites CompressSplit CompressFac CompressChain CompressMirror CompressDef CompressSweep.
Import ListNotations.
Open Scope Z_scope.

Lemma choices_in : forall A (Ps : list (list A)) ps, Forall2 (fun p P => In p P) ps Ps -> In ps (choices Ps).
Proof. intros A Ps ps H. induction H as [|p P ps Ps Hp H IH]; [now left|]. cbn [choices]. apply in_flat_map. exists p. split; [exact Hp|]. now apply in_map. Qed.
Lemma choices_nodup : forall A (Ps : list (list A)), Forall (@NoDup A) Ps -> NoDup (choices Ps).
Proof.
  intros A Ps H. induction H as [|P Ps HP H IH]; cbn [choices]; [repeat constructor; intros []|]. apply FuseProofs.NoDup_flat_map; auto.
  - intros p _. apply FinFun.Injective_map_NoDup; [|exact IH]. intros x y E. congruence.
  - intros p p' b _ _ H1 H2. apply in_map_iff in H1. destruct H1 as (x & <- & _). apply in_map_iff in H2. destruct H2 as (y & E & _). congruence.
Qed.
Section Out.
Variable R : CRing.
Add Ring Rr41 : (rth R).
Variables P S : Type.
Variable P_dec : forall a b : P, {a = b} + {a <> b}.
Notation "0'" := (r0 R).
Notation mat := (P -> S -> S -> R).
Lemma chain_phys : forall (fs : list mat) Ps Bs ps l r, Forall2 (fun f Q => forall p l r, ~ In p Q -> f p l r = 0') fs Ps -> ~ Forall2 (fun p Q => In p Q) ps Ps -> chain R P S Bs fs ps l r = 0'.
Proof.
  intros fs Ps Bs ps l r F. revert Bs ps l r. induction F as [|f Q fs Ps Hf F IH]; intros Bs ps l r N; [now destruct Bs, ps|].
  destruct ps as [|p ps]; [destruct fs; reflexivity|]. destruct (in_dec P_dec p Q) as [Hp|Hp].
  - assert (N': ~ Forall2 (fun p Q => In p Q) ps Ps) by (intros H; apply N; now constructor). destruct fs as [|g fs].
    + inversion F; subst. destruct ps as [|p' ps]; [exfalso; apply N'; constructor|]. apply chain_long.
    + destruct Bs as [|B Bs]; [reflexivity|]. rewrite chain_cons. apply bsum_zero. intros m _. rewrite IH by exact N'. ring.
  - destruct fs as [|g fs]; [destruct ps as [|p' ps]; [rewrite chain_one; now apply Hf|apply chain_long]|]. destruct Bs as [|B Bs]; [reflexivity|]. rewrite chain_cons. apply bsum_zero. intros m _. rewrite Hf by exact Hp. ring.
Qed.
Lemma chain_end : forall (fs : list mat) Bs ps l r d, (forall p m, last fs d p m r = 0') -> chain R P S Bs fs ps l r = 0'.
Proof.
  induction fs as [|f fs IH]; intros Bs ps l r d H; [now destruct Bs, ps|]. destruct fs as [|g fs].
  - cbn [last] in H. destruct ps as [|p [|p' ps]]; [reflexivity|rewrite chain_one; apply H|apply chain_long].
  - destruct ps as [|p ps]; [reflexivity|]. destruct Bs as [|B Bs]; [reflexivity|]. rewrite chain_cons. apply bsum_zero. intros m _. rewrite (IH Bs ps m r d H). ring.
Qed.
End Out.

Section Max.
Variable K : ORing.
Add Ring Kr42 : (rth K).
Lemma kmax2_le : forall a b : K, ole a (kmax2 K a b) /\ ole b (kmax2 K a b).
Proof.
  intros a b. unfold kmax2, oltb. destruct (oleb K b a) eqn:E; cbn [negb].
  - split; [apply ole_refl|exact E].
  - split; [apply olt_ole; exact E|apply ole_refl].
Qed.
Lemma fold_max : forall (l : list K) e, ole e (fold_left (kmax2 K) l e) /\ (forall x, In x l -> ole x (fold_left (kmax2 K) l e)) /\ (fold_left (kmax2 K) l e = e \/ In (fold_left (kmax2 K) l e) l).
Proof.
  induction l as [|x l IH]; intros e; cbn [fold_left]; [split; [apply ole_refl|]; split; [intros ? []|now left]|]. destruct (IH (kmax2 K e x)) as (A & B & C). destruct (kmax2_le e x) as [D1 D2]. split; [eapply ole_trans; eauto|]. split.
  - intros y [<-|Hy]; [eapply ole_trans; eauto|now apply B].
  - destruct C as [C|C]; [|right; now right]. rewrite C. unfold kmax2. destruct (oltb e x); [right; now left|now left].
Qed.
Lemma le_sum : forall (l : list K) x, Forall (ole (r0 K)) l -> In x l -> ole x (bsum l (fun y => y)).
Proof.
  intros l x F. induction F as [|y l Hy F IH]; intros H; [destruct H|]. rewrite bsum_cons. destruct H as [->|H].
  - eapply ole_trans; [|apply ole_add_l, bsum_ole0; intros z Hz; rewrite Forall_forall in F; now apply F]. replace (radd K x (r0 K)) with x by ring. apply ole_refl.
  - eapply ole_trans; [apply (IH H)|]. eapply ole_trans; [|apply ole_add_r; exact Hy]. replace (radd K (r0 K) (bsum l (fun y0 => y0))) with (bsum l (fun y0 : K => y0)) by ring. apply ole_refl.
Qed.
Lemma max_sum : forall (l : list K), Forall (ole (r0 K)) l -> let e := fold_left (kmax2 K) l (r0 K) in
  ole (r0 K) e /\ ole e (bsum l (fun y => y)) /\ ole (bsum l (fun y => y)) (bsum (seq 1 (length l)) (fun _ => e)).
Proof.
  intros l F e. destruct (fold_max l (r0 K)) as (A & B & C). fold e in A, B, C. split; [exact A|]. split.
  - destruct C as [C|C]; [rewrite C; apply bsum_ole0; intros z Hz; rewrite Forall_forall in F; now apply F|now apply le_sum].
  - clearbody e. clear F C A. generalize 1%nat. induction l as [|x l IH]; intros k; cbn [length seq]; [apply ole_refl|]. rewrite !bsum_cons. apply ole_add2; [apply B; now left|]. apply IH. intros y Hy. apply B. now right.
Qed.
End Max.

Section Ampl.
Variable R : CRing.
Add Ring Rr43 : (rth R).
Variable L : Label.
Notation site := (site R L).
Notation state := (L * Z)%type.
Notation pstate := (bool * list state)%type.
Notation "0'" := (r0 R). Notation "1'" := (r1 R).
Notation zf := (fun _ : L => 0).
Notation zs := (0, fun (_ : Z) (_ : L) => 0).
Notation st := (SP (R := R) (L := L) []).
(* a configuration: physical states, left and right end *)
Notation conf := (list pstate * (state * state))%type.
Definition amp (Bs : list (list state)) (ts : list site) (x : conf) : R := amplitude Bs ts (fst x) (fst (snd x)) (snd (snd x)).

Variable ts0 : list site.
Variable shp : list (Z * (Z -> L -> Z)).
Hypothesis Lshp : length shp = length ts0.
Variable Qs : list L.
Hypothesis NQ : NoDup Qs.
Hypothesis IQ : forall j, incl (firsts (nth j ts0 st)) Qs /\ incl (lasts (nth j ts0 st)) Qs.
Notation n := (length ts0).
Hypothesis Hn : (0 < n)%nat.
Notation shaped := (shaped R L ts0 shp).
Notation D := (states L Qs).
Notation Fs := (Fs R L Qs).
Notation PP := (PP R L ts0 shp).
Lemma shaped_out : forall ts ds j, shaped ts ds -> (j < n)%nat ->
  (forall p l r, ~ In p (pl R L ts0 shp j) -> selem (nth j ts st) p l r = 0') /\ (forall p l r, ~ In l (D (nth j ds zf)) -> selem (nth j ts st) p l r = 0') /\ (forall p l r, ~ In r (D (nth (S j) ds zf)) -> selem (nth j ts st) p l r = 0').
Proof.
  intros ts ds j Sh Hj. destruct (shaped_wf R L ts0 shp ts ds Sh) as [Ld W]. pose proof Sh as (Lt & _ & I). split; [|split]; intros p l r H.
  - apply (pcov_out R L _ _ _ _ _ (nth j ts0 st) (W j Hj) (I j) p l r H).
  - apply (left_out R L _ _ _ _ _ (nth j ts0 st) (W j Hj) (I j) Qs (proj1 (IQ j)) p l r H).
  - apply (right_out R L _ _ _ _ _ (nth j ts0 st) (W j Hj) (I j) Qs (proj2 (IQ j)) p l r H).
Qed.
Lemma amp_Fs : forall ts ds Ba ps l r, shaped ts ds -> bonds Ba ts -> In r (D (nth n ds zf)) -> amplitude Ba ts ps l r = Fs ts ds ps l r.
Proof.
  intros ts ds Ba ps l r Sh HB Hr. destruct (shaped_wf R L ts0 shp ts ds Sh) as [Ld W]. pose proof Sh as (Lt & _ & I). unfold amplitude, bonds in *. destruct ds as [|d0 ds]; [discriminate|]. cbn [length] in Ld. injection Ld as Ld.
  assert (Ne: ts <> []) by (intros ->; cbn in Lt; lia).
  assert (HC: bonds_cover R pstate state (map D (firstn (n - 1) ds)) (map selem ts)).
  { apply bonds_cover_nth. split; [destruct ts; [congruence|discriminate]|]. intros i f Hi Ef. rewrite map_length in Hi. rewrite (nth_err _ _ _ (selem st)), map_nth in Ef by (rewrite map_length; lia). injection Ef as <-.
    exists (D (nth i ds zf)). split.
    - rewrite nth_error_map. rewrite (nth_err _ _ _ zf) by (rewrite firstn_length; lia). cbn [option_map]. do 2 f_equal. rewrite <- (firstn_skipn (n - 1) ds) at 2. rewrite app_nth1 by (rewrite firstn_length; lia). reflexivity.
    - split; [now apply states_nodup|]. intros p a m. apply (proj2 (proj2 (shaped_out ts (d0 :: ds) i Sh ltac:(lia))) p a m). }
  rewrite (chain_cover_indep R _ _ (st_dec L) (map selem ts) _ _ ps l r HB HC).
  rewrite (chain_env R pstate state (st_dec L) (map selem ts) (map D (firstn (n - 1) ds)) (D (nth n (d0 :: ds) zf))); auto.
  - unfold CompressSweep.Fs, psi. cbn [map tl]. do 2 f_equal. replace n with (S (n - 1)) at 2 by lia. cbn [nth]. replace ds with (firstn (S (n - 1)) ds) at 3 by (apply firstn_all2; lia). rewrite (firstn_snoc _ ds (n - 1) zf) by lia. now rewrite map_app.
  - destruct ts; [congruence|discriminate].
  - rewrite !map_length, firstn_length. lia.
  - now apply states_nodup.
Qed.
Definition X0 (ds : list (L -> Z)) : list conf := list_prod (choices PP) (list_prod (D (nth 0 ds zf)) (D (nth n ds zf))).
Lemma X0_nodup : forall ds, NoDup (X0 ds).
Proof.
  intros ds. apply lprod_nodup; [|apply lprod_nodup; now apply states_nodup]. apply choices_nodup. apply Forall_forall. intros Q H. unfold CompressSweep.PP in H. apply in_map_iff in H. destruct H as (j & <- & _). apply pcov_nodup.
Qed.
Lemma amp_out : forall ts ds Ba x, shaped ts ds -> ~ In x (X0 ds) -> amp Ba ts x = 0'.
Proof.
  intros ts ds Ba [ps [l r]] Sh N. unfold amp. cbn [fst snd]. unfold amplitude. pose proof Sh as (Lt & _).
  destruct (in_dec (st_dec L) l (D (nth 0 ds zf))) as [Hl|Hl]; [|].
  - destruct (in_dec (st_dec L) r (D (nth n ds zf))) as [Hr|Hr]; [|].
    + apply (chain_phys R pstate state (pst_dec L)) with (Ps := PP).
      * unfold CompressSweep.PP. assert (E: ts = map (fun j => nth j ts st) (seq 0 n)). { apply (nth_ext _ _ st st); [rewrite map_length, seq_length; lia|]. intros k Hk. rewrite (nth_indep _ st (nth 0 ts st)) by (rewrite ?map_length, ?seq_length; lia). rewrite (nth_indep (map _ _) st (nth 0 ts st)) by (rewrite map_length, seq_length; lia). rewrite (map_nth (fun j => nth j ts st)), seq_nth by lia. cbn [Nat.add]. apply nth_indep. lia. }
        rewrite E, map_map. assert (A: forall js, (forall j, In j js -> (j < n)%nat) -> Forall2 (fun (f : pstate -> state -> state -> R) Q => forall p l r, ~ In p Q -> f p l r = 0') (map (fun j => selem (nth j ts st)) js) (map (pl R L ts0 shp) js)).
        { induction js as [|j js IH]; intros H; [constructor|]. cbn [map]. constructor; [apply (shaped_out ts ds j Sh); apply H; now left|]. apply IH. intros k Hk. apply H. now right. }
        apply A. intros j Hj. apply in_seq in Hj. lia.
      * intros F. apply N. unfold X0. apply in_prod; [now apply choices_in|]. now apply in_prod.
    + apply (chain_end R pstate state (map selem ts) Ba ps l r (selem st)). intros p m.
      assert (Ne: ts <> []) by (intros ->; cbn in Lt; lia). assert (E: last (map selem ts) (selem st) = selem (nth (n - 1) ts st)).
      { rewrite (app_removelast_last st Ne) at 1. rewrite map_app. cbn [map]. rewrite last_last. f_equal. rewrite (app_removelast_last st Ne) at 2. rewrite app_nth2; rewrite removelast_firstn_len, firstn_length; [|lia]. replace (n - 1 - Nat.min (Nat.pred (length ts)) (length ts))%nat with 0%nat by lia. reflexivity. }
      rewrite E. apply (proj2 (proj2 (shaped_out ts ds (n - 1) Sh ltac:(lia)))). now replace (S (n - 1)) with n by lia.
  - destruct ts as [|t ts]; [cbn in Lt; lia|]. cbn [map]. apply chain_dead. intros p m. exact (proj1 (proj2 (shaped_out (t :: ts) ds 0 Sh Hn)) p l m Hl).
Qed.
Lemma total_X0 : forall ds (F : list pstate -> state -> state -> R), total R pstate state PP (D (nth 0 ds zf)) (D (nth n ds zf)) F = bsum (X0 ds) (fun x => F (fst x) (fst (snd x)) (snd (snd x))).
Proof.
  intros ds F. unfold total, X0. rewrite bsum_lprod, bsum_swap. apply bsum_ext. intros ps _. rewrite bsum_lprod. reflexivity.
Qed.
Lemma conf_dec : forall a b : conf, {a = b} + {a <> b}.
Proof. intros [p [l r]] [p' [l' r']]. destruct (list_eq_dec (pst_dec L) p p') as [->|N]; [|right; congruence]. destruct (st_dec L l l') as [->|N]; [|right; congruence]. destruct (st_dec L r r') as [->|N]; [now left|right; congruence]. Qed.
End Ampl.

Section Core.
Variable R : CRing.
Add Ring Rr44 : (rth R).
Variable L : Label.
Variable K : ORing.
Notation site := (site R L).
Notation state := (L * Z)%type.
Notation pstate := (bool * list state)%type.
Notation conf := (list pstate * (state * state))%type.
Notation "0'" := (r0 R).
Infix "+'" := (radd R) (at level 50, left associativity).
Infix "*'" := (rmul R) (at level 40, left associativity).
Notation zf := (fun _ : L => 0).
Notation st := (SP (R := R) (L := L) []).
Variable sqrtK : K -> K.
Variable emb : K -> R.
Variable cj : R -> R.
Variable qr : nd R -> nd R * nd R.
Variable svd : nd R -> option (nd R * list K * nd R).
Variable big : list L * nd R -> bool.
Hypothesis Hbig : forall b, big b = false -> forall xs, nget (snd b) xs = 0'.
Hypothesis cj_add : forall x y, cj (x +' y) = cj x +' cj y.
Hypothesis cj_mul : forall x y, cj (x *' y) = cj x *' cj y.
Hypothesis cj_cj : forall x, cj (cj x) = x.
Hypothesis cj_emb : forall x, cj (emb x) = emb x.
Hypothesis emb_add : forall x y, emb (radd K x y) = emb x +' emb y.
Hypothesis emb_mul : forall x y, emb (rmul K x y) = emb x *' emb y.
Hypothesis HQ : exact_qr R cj qr.
Hypothesis HS : exact_svd R K emb cj svd.
Notation compress := (compress R L K sqrtK emb qr svd big).

Lemma half0 : forall x : R, x = x +' x -> x = 0'.
Proof. intros x H. assert (E: x +' (ropp R x) = (x +' x) +' ropp R x) by now rewrite <- H. replace (x +' ropp R x) with 0' in E by ring. rewrite E. ring. Qed.
Lemma cj_0 : cj 0' = 0'.
Proof. apply half0. rewrite <- cj_add. f_equal. ring. Qed.
Add Ring Kr44 : (rth K).
Lemma emb_0 : emb (r0 K) = 0'.
Proof. apply half0. rewrite <- emb_add. f_equal. ring. Qed.

Definition labels (ts : list site) : list L := nodup (q_dec L) (flat_map (fun s => firsts s ++ lasts s) ts).
Lemma labels_in : forall ts j, incl (firsts (nth j ts st)) (labels ts) /\ incl (lasts (nth j ts st)) (labels ts).
Proof.
  intros ts j. destruct (nth_in_or_default j ts st) as [H|H].
  - split; intros q Hq; apply nodup_In, in_flat_map; exists (nth j ts st); split; auto; apply in_app_iff; auto.
  - rewrite H. split; intros q [].
Qed.
Lemma wf_sites_len : forall (ts : list site) ds shp, wf_sites ds shp ts -> length shp = length ts.
Proof. induction ts as [|t ts IH]; intros ds shp W; [destruct W as [-> _]; reflexivity|]. destruct shp as [|[m dp] shp], ds; try destruct W. cbn [length]. f_equal. eapply IH; eauto. Qed.
Lemma sweep_start : forall (left : bool) (a : mps R L) ds shp, wf_sites ds shp (m_tensors a) -> (0 < length (m_tensors a))%nat ->
  (forall j, first_determined R L (nth j (m_tensors a) st)) -> (forall j, last_determined R L (nth j (m_tensors a) st)) ->
  let n := length (m_tensors a) in
  exists t1 d1, evolve R L shp ds d1 (m_tensors a) t1 /\ inv R L cj (m_tensors a) shp t1 d1 (if left then n - 1 else 0)%nat /\
  forall o, compress left o a = do (ts, e) <- (if left then foldM (svd_right_step R L K sqrtK emb svd big o) (t1, r0 K) (rev (seq 1 (n - 1)))
    else foldM (svd_left_step R L K sqrtK emb svd big o) (t1, r0 K) (seq 0 (n - 1))); Some (Mps ts (m_const a) (m_opts a), e).
Proof.
  intros left a ds shp W Hn DF DL n. destruct left.
  - destruct (canonicalize_ok R L cj cj_0 qr HQ (n - 1) (m_tensors a) ds shp ltac:(unfold n; lia) W) as (t1 & t2 & d2 & E1 & E2 & V & _ & I1 & I2). exists t2, d2. split; [exact V|]. split.
    + split; [split; [apply V|split; apply V]|]. split; [intros j Hj; now apply I1|intros j Hj; fold n in Hj; lia].
    + intros o. unfold CompressModel.compress. fold n. rewrite E1. cbn [bind]. replace (down n 0) with (rev (seq 1 (n - 1))) by (unfold down; now rewrite Nat.sub_0_r).
      fold n in E2. replace (down n (n - 1)) with (@nil nat) in E2 by (unfold down; now rewrite Nat.sub_diag). cbn [foldM] in E2. injection E2 as ->. reflexivity.
  - destruct (canonicalize_ok R L cj cj_0 qr HQ 0 (m_tensors a) ds shp ltac:(unfold n; lia) W) as (t1 & t2 & d2 & E1 & E2 & V & _ & I1 & I2). exists t2, d2. split; [exact V|]. split.
    + split; [split; [apply V|split; apply V]|]. split; [intros j Hj; lia|intros j Hj; now apply I2].
    + intros o. cbn [seq foldM] in E1. injection E1 as <-. unfold CompressModel.compress. fold n in E2 |- *. rewrite E2. reflexivity.
Qed.
Lemma compress_core : forall (left : bool) o (a : mps R L) ds shp b e, wf_sites ds shp (m_tensors a) ->
  (forall j, first_determined R L (nth j (m_tensors a) st)) -> (forall j, last_determined R L (nth j (m_tensors a) st)) ->
  compress left o a = Some (b, e) ->
  let n := length (m_tensors a) in
  m_const b = m_const a /\ m_opts b = m_opts a /\ length (m_tensors b) = n /\
  exists ds' D X0, wf_sites ds' shp (m_tensors b) /\ nth 0 ds' zf = nth 0 ds zf /\ nth n ds' zf = nth n ds zf /\
  (forall j, (0 < j < n)%nat -> within L (o_max K o) (nth j ds' zf)) /\
  (left = true -> forall j, (0 < j < n)%nat -> right_iso R L cj (nth j ds' zf) (nth j (m_tensors b) st)) /\
  (left = false -> forall j, (S j < n)%nat -> left_iso R L cj (nth (S j) ds' zf) (nth j (m_tensors b) st)) /\
  (forall j, kind (nth j (m_tensors b) st) = kind (nth j (m_tensors a) st) \/ blocks (nth j (m_tensors b) st) = []) /\
  (forall j odd, incl (map fst (part (nth j (m_tensors b) st) odd)) (map fst (part (nth j (m_tensors a) st) odd))) /\
  ole (r0 K) e /\ ole e D /\ ole D (bsum (seq 1 (n - 1)) (fun _ => e)) /\ (keep_all K o -> e = r0 K) /\
  NoDup X0 /\ (forall Ba Bb x, bonds Ba (m_tensors a) -> bonds Bb (m_tensors b) -> ~ In x X0 -> amp R L Ba (m_tensors a) x = 0' /\ amp R L Bb (m_tensors b) x = 0') /\
  (forall Ba Bb X, bonds Ba (m_tensors a) -> bonds Bb (m_tensors b) -> NoDup X ->
    (forall x, ~ In x X -> amp R L Ba (m_tensors a) x = 0' /\ amp R L Bb (m_tensors b) x = 0') ->
    let d := fun x : conf => rsub R (amp R L Ba (m_tensors a) x) (amp R L Bb (m_tensors b) x) in
    bsum X (fun x => cj (d x) *' d x) = emb D /\
    bsum X (fun x => cj (amp R L Ba (m_tensors a) x) *' amp R L Ba (m_tensors a) x) = emb D +' bsum X (fun x => cj (amp R L Bb (m_tensors b) x) *' amp R L Bb (m_tensors b) x)).
Proof.
  intros left o a ds shp b e W DF DL E n. destruct (Nat.eq_dec n 0) as [Z0|NZ].
  - assert (Et: m_tensors a = []) by (destruct (m_tensors a); [reflexivity|discriminate]). unfold CompressModel.compress, n in *. rewrite Et in *. assert (E': b = Mps [] (m_const a) (m_opts a) /\ e = r0 K) by (destruct left; cbn in E; injection E as <- <-; auto). destruct E' as [-> ->]. cbn [m_const m_opts m_tensors length].
    split; [reflexivity|]. split; [reflexivity|]. split; [reflexivity|]. exists ds, (r0 K), []. split; [exact W|]. split; [reflexivity|]. split; [reflexivity|]. split; [intros; lia|]. split; [intros; lia|]. split; [intros; lia|]. split; [intros j; right; now destruct j|]. split; [intros j oo; apply incl_refl|]. split; [apply ole_refl|]. split; [apply ole_refl|]. split; [apply ole_refl|]. split; [reflexivity|]. split; [constructor|]. split.
    + unfold amp, amplitude. intros Ba Bb x HB. destruct x as [ [|p ps] [l r] ]; destruct Ba, Bb; cbn; auto.
    + intros Ba Bb X _ _ _ _. assert (Hz: forall B x, amp R L B [] x = 0') by (intros B [ [|p ps] [l r] ]; destruct B; reflexivity). cbn beta. rewrite emb_0. split.
      * apply bsum_zero. intros x _. rewrite !Hz. ring.
      * rewrite !bsum_zero; [ring| |]; intros x _; rewrite !Hz; ring.
  - assert (Hn: (0 < n)%nat) by lia. pose proof (wf_sites_len _ _ _ W) as Lshp. pose proof (labels_in (m_tensors a)) as IQ. assert (NQ: NoDup (labels (m_tensors a))) by apply NoDup_nodup.
    destruct (sweep_start left a ds shp W Hn DF DL) as (t1 & d1 & V & Iv & Ec). fold n in Iv, Ec. rewrite Ec in E. clear Ec.
    assert (Out: exists ts', b = Mps ts' (m_const a) (m_opts a) /\ exists d2 errs c, length errs = (n - 1)%nat /\ c = (if left then 0 else n - 1)%nat /\ outcome R L K emb cj o (m_tensors a) shp (labels (m_tensors a)) t1 d1 (r0 K) c ts' d2 e errs /\ forall j, (0 < j < n)%nat -> within L (o_max K o) (nth j d2 zf)).
    { destruct left.
      - destruct (foldM _ _ _) as [ [ts' e']|] eqn:F in E; [|discriminate]. cbn [bind] in E. injection E as <- <-. exists ts'. split; [reflexivity|].
        destruct (svd_right_sweep R L K sqrtK emb cj svd big Hbig cj_add cj_mul cj_cj cj_0 cj_emb emb_0 emb_add emb_mul HS o (m_tensors a) shp Lshp (labels (m_tensors a)) NQ IQ DF DL (n - 1) t1 d1 (r0 K) ts' e' ltac:(fold n; lia) Iv F) as (d2 & errs & Le & O1 & _ & _ & Wi).
        exists d2, errs, 0%nat. split; [exact Le|]. split; [reflexivity|]. split; [exact O1|]. intros j Hj. apply Wi. lia.
      - destruct (foldM _ _ _) as [ [ts' e']|] eqn:F in E; [|discriminate]. cbn [bind] in E. injection E as <- <-. exists ts'. split; [reflexivity|].
        destruct (svd_left_sweep R L K sqrtK emb cj svd big Hbig cj_add cj_mul cj_cj cj_0 cj_emb emb_0 emb_add emb_mul HS o (m_tensors a) shp Lshp (labels (m_tensors a)) NQ IQ DF DL (n - 1) 0 t1 d1 (r0 K) ts' e' ltac:(fold n; lia) Iv F) as (d2 & errs & Le & O1 & _ & _ & Wi).
        exists d2, errs, (n - 1)%nat. split; [exact Le|]. split; [reflexivity|]. split; [exact O1|]. intros j Hj. apply Wi. lia. }
    clear E. destruct Out as (ts' & -> & d2 & errs & c & Le & Ecn & (Ee & Fe & Ka & I2 & Kd & Ky & D0 & Dn & Di & No) & Wi). cbn [m_const m_opts m_tensors]. fold n in Dn, Di, No.
    pose proof V as (_ & L1 & Am & K1 & Kd1 & V0 & Vn). fold n in Vn. pose proof Iv as (S1 & _). pose proof I2 as (S2 & Li & Ri). pose proof S2 as (L2 & W2 & Y2). fold n in L2, Ri.
    split; [reflexivity|]. split; [reflexivity|]. split; [exact L2|]. destruct (max_sum K errs Fe) as (M0 & M1 & M2). rewrite <- Ee, Le in *.
    set (X := X0 R L (m_tensors a) shp (labels (m_tensors a)) d1).
    assert (EX: X0 R L (m_tensors a) shp (labels (m_tensors a)) d2 = X) by (unfold X, X0; fold n; now rewrite D0, Dn).
    assert (Bc: bonds (bonds_of R L d1 t1) t1) by (apply (bonds_of_cover R L t1 d1 shp); [intros ->; cbn in L1; fold n in L1; lia|apply S1]).
    assert (OA: forall Ba x, bonds Ba (m_tensors a) -> ~ In x X -> amp R L Ba (m_tensors a) x = 0').
    { intros Ba x HB Hx. unfold amp. rewrite <- (Am Ba _ _ _ _ HB Bc). apply (amp_out R L (m_tensors a) shp Lshp (labels (m_tensors a)) IQ Hn t1 d1 _ x S1 Hx). }
    assert (OB: forall Bb x, ~ In x X -> amp R L Bb ts' x = 0').
    { intros Bb x Hx. apply (amp_out R L (m_tensors a) shp Lshp (labels (m_tensors a)) IQ Hn ts' d2 _ x S2). now rewrite EX. }
    assert (AA: forall Ba x, bonds Ba (m_tensors a) -> In x X -> amp R L Ba (m_tensors a) x = Fs R L (labels (m_tensors a)) t1 d1 (fst x) (fst (snd x)) (snd (snd x))).
    { intros Ba [ps [l r] ] HB Hx. unfold amp. cbn [fst snd]. rewrite <- (Am Ba _ _ _ _ HB Bc). apply (amp_Fs R L (m_tensors a) shp Lshp (labels (m_tensors a)) NQ IQ Hn t1 d1 _ _ _ _ S1 Bc). unfold X, X0 in Hx. apply in_prod_iff in Hx. destruct Hx as [_ Hx]. apply in_prod_iff in Hx. apply Hx. }
    assert (AB: forall Bb x, bonds Bb ts' -> In x X -> amp R L Bb ts' x = Fs R L (labels (m_tensors a)) ts' d2 (fst x) (fst (snd x)) (snd (snd x))).
    { intros Bb [ps [l r] ] HB Hx. unfold amp. cbn [fst snd]. apply (amp_Fs R L (m_tensors a) shp Lshp (labels (m_tensors a)) NQ IQ Hn ts' d2 _ _ _ _ S2 HB). rewrite <- EX in Hx. unfold X0 in Hx. apply in_prod_iff in Hx. destruct Hx as [_ Hx]. apply in_prod_iff in Hx. apply Hx. }
    exists d2, (sumK K errs), X. split; [exact W2|]. split; [now rewrite D0|]. split; [now rewrite Dn|]. split; [exact Wi|].
    split; [intros -> j Hj; subst c; apply Ri; lia|]. split; [intros -> j Hj; subst c; apply Li; lia|]. split.
    { intros j. destruct (Kd j) as [H|H]; [|now right]. rewrite H. destruct (Kd1 j) as [H'|H']; [now left|]. right. pose proof (Ky j true) as P1. pose proof (Ky j false) as P2.
      destruct (nth j t1 st) as [t|u v], (nth j ts' st) as [t'|u' v']; cbn in H, H', P1, P2 |- *; try discriminate; subst.
      - destruct t' as [|x t']; [reflexivity|destruct (P2 (fst x) (or_introl eq_refl))].
      - apply app_eq_nil in H'. destruct H' as [-> ->]. destruct u' as [|x u']; [destruct v' as [|x v']; [reflexivity|destruct (P2 (fst x) (or_introl eq_refl))]|destruct (P1 (fst x) (or_introl eq_refl))]. }
    split; [intros j oo; apply Y2|]. split; [exact M0|]. split; [exact M1|]. split; [exact M2|]. split.
    { intros KA. specialize (Ka KA). rewrite Ee. clear - Ka. induction Ka as [|x l <- _ IH]; [reflexivity|]. cbn [fold_left]. unfold kmax2 at 2. now destruct (oltb (r0 K) (r0 K)). }
    split; [apply X0_nodup; exact NQ|]. split; [intros Ba Bb x HB HB' Hx; split; [now apply OA|now apply OB]|].
    intros Ba Bb Y HB HB' NY HY.
    assert (Cov: forall f : conf -> R, (forall x, amp R L Ba (m_tensors a) x = 0' -> amp R L Bb ts' x = 0' -> f x = 0') -> bsum Y f = bsum X f).
    { intros f Hf. apply (bsum_cover R _ (conf_dec L) Y X); [exact NY|apply X0_nodup; exact NQ| |]; intros x Hx; apply Hf; try (now apply OA); try (now apply OB); now apply HY. }
    split; [|rewrite (Cov (fun x => cj (amp R L Ba (m_tensors a) x) *' amp R L Ba (m_tensors a) x)), (Cov (fun x => cj (amp R L Bb ts' x) *' amp R L Bb ts' x))].
    + rewrite Cov by (intros x H1 H2; rewrite H1, H2; ring). rewrite <- Di. unfold dist2. rewrite (total_X0 R L (m_tensors a) shp (labels (m_tensors a)) d1). fold X. apply bsum_ext. intros x Hx. rewrite (AA Ba x HB Hx), (AB Bb x HB' Hx).
      reflexivity.
    + unfold norm2 in No. rewrite !(total_X0 R L (m_tensors a) shp (labels (m_tensors a)) d1) in No. fold X in No.
      rewrite (bsum_ext R _ X _ (fun x => cj (Fs R L (labels (m_tensors a)) t1 d1 (fst x) (fst (snd x)) (snd (snd x))) *' Fs R L (labels (m_tensors a)) t1 d1 (fst x) (fst (snd x)) (snd (snd x)))) by (intros x Hx; now rewrite (AA Ba x HB Hx)).
      rewrite (bsum_ext R _ X (fun x => cj (amp R L Bb ts' x) *' _) (fun x => cj (Fs R L (labels (m_tensors a)) ts' d2 (fst x) (fst (snd x)) (snd (snd x))) *' Fs R L (labels (m_tensors a)) ts' d2 (fst x) (fst (snd x)) (snd (snd x)))) by (intros x Hx; now rewrite (AB Bb x HB' Hx)).
      exact No.
    + intros x H1 H2. rewrite H2. ring.
    + intros x H1 H2. rewrite H1. ring.
Qed.
End Core.

Section Statements.
Variable R : CRing.
Add Ring Rr45 : (rth R).
Variable L : Label.
Variable K : ORing.
Notation "0'" := (r0 R).
Infix "+'" := (radd R) (at level 50, left associativity).
Infix "*'" := (rmul R) (at level 40, left associativity).
Notation state := (L * Z)%type.
Notation pstate := (bool * list state)%type.
Notation zf := (fun _ : L => 0).
Notation st := (SP (R := R) (L := L) []).
(* tensors whose first (last) label follows from the others, as with a definite quantum number *)
Definition determined (a : mps R L) : Prop := forall j, first_determined R L (nth j (m_tensors a) st) /\ last_determined R L (nth j (m_tensors a) st).
(* what is assumed of numbers and factorisations: conjugation cj, embedding emb of singular values, exact qr and svd,
   and that deflate drops only blocks of zeros *)
Definition exact_kit (emb : K -> R) (cj : R -> R) (qr : nd R -> nd R * nd R) (svd : nd R -> option (nd R * list K * nd R)) (big : list L * nd R -> bool) : Prop :=
  (forall x y, cj (x +' y) = cj x +' cj y) /\ (forall x y, cj (x *' y) = cj x *' cj y) /\ (forall x, cj (cj x) = x) /\ (forall x, cj (emb x) = emb x) /\
  (forall x y, emb (radd K x y) = emb x +' emb y) /\ (forall x y, emb (rmul K x y) = emb x *' emb y) /\
  exact_qr R cj qr /\ exact_svd R K emb cj svd /\ (forall b, big b = false -> forall xs, nget (snd b) xs = 0').

(** Compression, for every chain, both directions and all truncation options, whenever it returns: constant, options,
    length, physical legs, ends, and labels are kept; every inner bond has at most max_bond_dim states; all sites but the
    first (left=True) or last (left=False) are isometric; the squared distance between the states is a number D that
    lies between the reported error and (n - 1) times it, and the squared norm drops by exactly D. *)
Theorem c59_compress : forall sqrtK emb cj qr svd big, exact_kit emb cj qr svd big ->
  forall (left : bool) (o : copts K) (a : mps R L) ds shp b e, wf_sites ds shp (m_tensors a) -> determined a ->
  compress R L K sqrtK emb qr svd big left o a = Some (b, e) ->
  let n := length (m_tensors a) in
  m_const b = m_const a /\ m_opts b = m_opts a /\ length (m_tensors b) = n /\
  exists ds' D, wf_sites ds' shp (m_tensors b) /\ nth 0 ds' zf = nth 0 ds zf /\ nth n ds' zf = nth n ds zf /\
  (0 <= o_max K o -> forall j Qs, (0 < j < n)%nat -> NoDup Qs -> zsum (map (nth j ds' zf) Qs) <= o_max K o) /\
  (forall j, (0 < j < n)%nat -> forall q, 0 <= nth j ds' zf q) /\
  (left = true -> forall j, (0 < j < n)%nat -> right_iso R L cj (nth j ds' zf) (nth j (m_tensors b) st)) /\
  (left = false -> forall j, (S j < n)%nat -> left_iso R L cj (nth (S j) ds' zf) (nth j (m_tensors b) st)) /\
  (forall j, kind (nth j (m_tensors b) st) = kind (nth j (m_tensors a) st) \/ blocks (nth j (m_tensors b) st) = []) /\
  (forall j odd k, In k (map fst (part (nth j (m_tensors b) st) odd)) -> In k (map fst (part (nth j (m_tensors a) st) odd))) /\
  ole (r0 K) e /\ ole e D /\ ole D (bsum (seq 1 (n - 1)) (fun _ => e)) /\
  (forall Ba Bb X, bonds Ba (m_tensors a) -> bonds Bb (m_tensors b) ->
    let va := fun x : list pstate * (state * state) => amplitude Ba (m_tensors a) (fst x) (fst (snd x)) (snd (snd x)) in
    let vb := fun x : list pstate * (state * state) => amplitude Bb (m_tensors b) (fst x) (fst (snd x)) (snd (snd x)) in
    NoDup X -> (forall x, ~ In x X -> va x = 0' /\ vb x = 0') ->
    bsum X (fun x => cj (rsub R (va x) (vb x)) *' rsub R (va x) (vb x)) = emb D /\
    bsum X (fun x => cj (va x) *' va x) = emb D +' bsum X (fun x => cj (vb x) *' vb x)).
Proof.
  intros sqrtK emb cj qr svd big (H1 & H2 & H3 & H4 & H5 & H6 & H7 & H8 & H9) left o a ds shp b e W Dt E n.
  destruct (compress_core R L K sqrtK emb cj qr svd big H9 H1 H2 H3 H4 H5 H6 H7 H8 left o a ds shp b e W (fun j => proj1 (Dt j)) (fun j => proj2 (Dt j)) E) as (A1 & A2 & A3 & d2 & D & X & A4 & A5 & A6 & A7 & A8 & A9 & A10 & A11 & A12 & A13 & A14 & _ & _ & _ & A15).
  split; [exact A1|]. split; [exact A2|]. split; [exact A3|]. exists d2, D. split; [exact A4|]. split; [exact A5|]. split; [exact A6|]. split; [intros Ho j Qs Hj; now apply (A7 j Hj)|]. split; [intros j Hj; apply (A7 j Hj)|].
  split; [exact A8|]. split; [exact A9|]. split; [exact A10|]. split; [intros j oo k; apply A11|]. split; [exact A12|]. split; [exact A13|]. split; [exact A14|]. intros Ba Bb Y HB HB' va vb. exact (A15 Ba Bb Y HB HB').
Qed.
(** There are finitely many configurations with an amplitude, so that the sums above exist. *)
Theorem c59_finite : forall sqrtK emb cj qr svd big, exact_kit emb cj qr svd big ->
  forall (left : bool) (o : copts K) (a : mps R L) ds shp b e, wf_sites ds shp (m_tensors a) -> determined a ->
  compress R L K sqrtK emb qr svd big left o a = Some (b, e) ->
  exists X : list (list pstate * (state * state)), NoDup X /\ forall Ba Bb ps l r, bonds Ba (m_tensors a) -> bonds Bb (m_tensors b) -> ~ In (ps, (l, r)) X ->
    amplitude Ba (m_tensors a) ps l r = 0' /\ amplitude Bb (m_tensors b) ps l r = 0'.
Proof.
  intros sqrtK emb cj qr svd big (H1 & H2 & H3 & H4 & H5 & H6 & H7 & H8 & H9) left o a ds shp b e W Dt E.
  destruct (compress_core R L K sqrtK emb cj qr svd big H9 H1 H2 H3 H4 H5 H6 H7 H8 left o a ds shp b e W (fun j => proj1 (Dt j)) (fun j => proj2 (Dt j)) E) as (A1 & A2 & A3 & d2 & D & X & A4 & A5 & A6 & A7 & A8 & A9 & A10 & A11 & A12 & A13 & A14 & A15 & A16 & A17 & _).
  exists X. split; [exact A16|]. intros Ba Bb ps l r HB HB' N. exact (A17 Ba Bb (ps, (l, r)) HB HB' N).
Qed.
(** Nothing to discard, nothing lost: with max_bond_dim = -1, cutoff = 0, max_dw = 0 the error is zero; and whenever the
    error is zero and the form is definite, every amplitude is kept. *)
Theorem c59_lossless : forall sqrtK emb cj qr svd big, exact_kit emb cj qr svd big ->
  forall (left : bool) (o : copts K) (a : mps R L) ds shp b e, wf_sites ds shp (m_tensors a) -> determined a ->
  compress R L K sqrtK emb qr svd big left o a = Some (b, e) ->
  (o_max K o = -1 -> o_cutoff K o = r0 K -> o_dw K o = r0 K -> e = r0 K) /\
  (e = r0 K -> (forall l : list R, bsum l (fun x => cj x *' x) = 0' -> forall x, In x l -> x = 0') ->
   forall Ba Bb ps l r, bonds Ba (m_tensors a) -> bonds Bb (m_tensors b) -> amplitude Bb (m_tensors b) ps l r = amplitude Ba (m_tensors a) ps l r).
Proof.
  intros sqrtK emb cj qr svd big (H1 & H2 & H3 & H4 & H5 & H6 & H7 & H8 & H9) left o a ds shp b e W Dt E.
  destruct (compress_core R L K sqrtK emb cj qr svd big H9 H1 H2 H3 H4 H5 H6 H7 H8 left o a ds shp b e W (fun j => proj1 (Dt j)) (fun j => proj2 (Dt j)) E) as (A1 & A2 & A3 & d2 & D & X & A4 & A5 & A6 & A7 & A8 & A9 & A10 & A11 & A12 & A13 & A14 & A15 & A16 & A17 & A18).
  split; [intros O1 O2 O3; apply A15; repeat split; auto|]. intros -> Df Ba Bb ps l r HB HB'.
  assert (D0: D = r0 K). { apply (oleb_antisym K); [|exact A13]. eapply ole_trans; [exact A14|]. rewrite bsum_zero by reflexivity. apply ole_refl. }
  destruct (in_dec (conf_dec L) (ps, (l, r)) X) as [Hx|Hx].
  - destruct (A18 Ba Bb X HB HB' A16 (fun x => A17 Ba Bb x HB HB')) as [S _]. rewrite D0, (emb_0 R K emb H5) in S.
    set (d := fun x : list pstate * (state * state) => rsub R (amp R L Ba (m_tensors a) x) (amp R L Bb (m_tensors b) x)) in *. change (bsum X (fun x => cj (d x) *' d x) = 0') in S.
    assert (E0: d (ps, (l, r)) = 0'). { apply (Df (map d X)); [|now apply in_map]. now rewrite bsum_map. }
    unfold d, amp in E0. cbn [fst snd] in E0. revert E0. generalize (amplitude Ba (m_tensors a) ps l r) (amplitude Bb (m_tensors b) ps l r). intros x y E0.
    transitivity (radd R y (rsub R x y)); [rewrite E0|]; ring.
  - destruct (A17 Ba Bb (ps, (l, r)) HB HB' Hx) as [Z1 Z2]. unfold amp in Z1, Z2. cbn [fst snd] in Z1, Z2. now rewrite Z1, Z2.
Qed.
(** It returns when the decompositions do. *)
Theorem c59_defined : forall sqrtK emb cj qr svd big, exact_kit emb cj qr svd big ->
  (forall x m n, nshape x = [m; n] -> 0 < m -> 0 < n -> svd x <> None) ->
  forall (left : bool) (o : copts K) (a : mps R L) ds shp, wf_sites ds shp (m_tensors a) -> determined a ->
  exists r, compress R L K sqrtK emb qr svd big left o a = Some r.
Proof.
  intros sqrtK emb cj qr svd big (H1 & H2 & H3 & H4 & H5 & H6 & H7 & H8 & H9) SD left o a ds shp W Dt. destruct (Nat.eq_dec (length (m_tensors a)) 0) as [Z0|NZ].
  - unfold compress. rewrite Z0. destruct left; cbn; eauto.
  - pose proof (wf_sites_len R L _ _ _ W) as Lshp. pose proof (labels_in R L (m_tensors a)) as IQ. assert (NQ: NoDup (labels R L (m_tensors a))) by apply NoDup_nodup.
    assert (DF: forall j, first_determined R L (nth j (m_tensors a) st)) by apply Dt. assert (DL: forall j, last_determined R L (nth j (m_tensors a) st)) by apply Dt.
    pose proof (cj_0 R cj H1) as c0. pose proof (emb_0 R K emb H5) as e0.
    destruct (sweep_start R L K sqrtK emb cj qr svd big H1 H7 left a ds shp W ltac:(lia) DF DL) as (t1 & d1 & _ & Iv & Ec). rewrite Ec. clear Ec. destruct left.
    + destruct (right_sweep_some R L K sqrtK emb cj svd big H9 H1 H2 H3 c0 H4 e0 H5 H6 H8 o (m_tensors a) shp Lshp _ NQ IQ DF DL SD (length (m_tensors a) - 1) t1 d1 (r0 K) ltac:(lia) Iv) as [ [ts e] ->]. cbn [bind]. eauto.
    + destruct (left_sweep_some R L K sqrtK emb cj svd big H9 H1 H2 H3 c0 H4 e0 H5 H6 H8 o (m_tensors a) shp Lshp _ NQ IQ DF DL SD (length (m_tensors a) - 1) 0 t1 d1 (r0 K) ltac:(lia) Iv) as [ [ts e] ->]. cbn [bind]. eauto.
Qed.
End Statements.
Print Assumptions c59_compress. Print Assumptions c59_finite. Print Assumptions c59_lossless. Print Assumptions c59_defined.

(** *** concrete cases: rational numbers, the decomposition of a 1 x 1 matrix *)
Definition svd1 (a : nd Qc_ring) : option (nd Qc_ring * list Qc_oring * nd Qc_ring) :=
  match nshape a with [1; 1] => Some (eye Qc_ring 1, [nget a [0; 0] ], eye Qc_ring 1) | _ => None end.
Lemma kit1 : exact_kit Qc_ring U1_label Qc_oring (fun x => x) (fun x => x) qr345 svd1 (fun _ => true).
Proof.
  repeat (split; [now intros|]). split; [exact qr345_exact|]. split; [|discriminate]. intros a m n u s vh Es Hm Hn E. unfold svd1 in E. rewrite Es in E.
  assert (m = 1 /\ n = 1) as [-> ->]. { destruct m as [|[m|m|]|]; try discriminate. destruct n as [|[n|n|]|]; try discriminate. auto. }
  injection E as <- <- <-. cbn [length Z.of_nat Pos.of_succ_nat]. split; [lia|]. split; [reflexivity|]. split; [reflexivity|]. split; [|split].
  - intros i j Hi Hj. assert (i = 0) as -> by lia. assert (j = 0) as -> by lia. change (zrange 1) with [0]. rewrite bsum_cons, bsum_nil. rewrite !nget_eye by lia. cbn [nth Z.to_nat]. change (Z.eqb 0 0) with true. cbv iota. symmetry. transitivity (radd Qc_ring (nget a [0; 0]) (r0 Qc_ring)); [f_equal; change (Qcmult (Qcmult 1 (nget a [0; 0])) 1 = nget a [0; 0]); now rewrite Qcmult_1_l, Qcmult_1_r|apply Qcplus_0_r].
  - intros z z' Hz Hz'. assert (z = 0) as -> by lia. assert (z' = 0) as -> by lia. apply Qc_is_canon. vm_compute. reflexivity.
  - intros z z' Hz Hz'. assert (z = 0) as -> by lia. assert (z' = 0) as -> by lia. apply Qc_is_canon. vm_compute. reflexivity.
Qed.
Definition run1 (left : bool) (mx c dw : Z) (a : mps Qc_ring U1_label) :=
  compress Qc_ring U1_label Qc_oring (fun x => x) (fun x => x) qr345 svd1 (fun _ => true) left (Copts Qc_oring mx (qi c) (qi dw)) a.
Definition dump1 (r : option (mps Qc_ring U1_label * Qc)) := option_map (fun r => (map qdump (m_tensors (fst r)), this (m_const (fst r)), this (snd r))) r.
Definition ex_d : mps Qc_ring U1_label :=
  Mps (R := Qc_ring) [SP [qblk [0; 1; 1] [1; 1; 1] [3]; qblk [0; 0; 0] [1; 1; 1] [2] ]; SP [qblk [1; 0; 1] [1; 1; 1] [7]; qblk [0; 1; 1] [1; 1; 1] [11] ] ] (qi 6) None.
(* the amplitudes of ex_c are 21, 28 and 22: with one bond state the last is lost, and the error is its square *)
Example c59_ex :
  dump1 (run1 true 1 0 0 ex_c) = Some ([(false, [([0; 1; 1], [1; 1; 1], [21%Q]); ([1; 0; 1], [1; 1; 1], [28%Q])]); (false, [([1; 0; 1], [1; 1; 1], [1%Q])])], 6%Q, 484%Q)
  /\ dump1 (run1 true (-1) 0 0 ex_c) = Some ([(false, [([0; 1; 1], [1; 1; 1], [21%Q]); ([1; 0; 1], [1; 1; 1], [28%Q]); ([0; 0; 0], [1; 1; 1], [22%Q])]);
                                              (false, [([1; 0; 1], [1; 1; 1], [1%Q]); ([0; 1; 1], [1; 1; 1], [1%Q])])], 6%Q, 0%Q)
  /\ dump1 (run1 false (-1) 22 0 ex_d) = Some ([(false, [([0; 0; 0], [1; 1; 1], [1%Q])]); (false, [([0; 1; 1], [1; 1; 1], [22%Q])])], 6%Q, 441%Q)
  /\ determined Qc_ring U1_label ex_c.
Proof.
  split; [vm_compute; reflexivity|]. split; [vm_compute; reflexivity|]. split; [vm_compute; reflexivity|]. destruct c33_ex as (_ & _ & _ & _ & D2 & D1). intros j.
  destruct (nth_in_or_default j (m_tensors ex_c) (SP [])) as [H|H]; [rewrite Forall_forall in D1, D2; split; [now apply D1|now apply D2]|]. rewrite H. split; intros [] ks q q' [].
Qed.
(** With max_dw = 1 and no singular value small enough to be discarded, all of them are: the compressed chain is empty
    and the error is the whole squared norm. *)
Theorem c59_max_dw_refuted : exists (a : mps Qc_ring U1_label) b e, run1 true (-1) 0 1 a = Some (b, e) /\ olt (K := Qc_oring) (qi 1) e /\ Forall (fun s => blocks s = []) (m_tensors b) /\ exists s, In s (m_tensors a) /\ blocks s <> [].
Proof.
  assert (G: option_map (fun r => (this (snd r), map (fun s => length (blocks s)) (m_tensors (fst r)))) (run1 true (-1) 0 1 ex_c) = Some (1709%Q, [0; 0]%nat)) by (vm_compute; reflexivity).
  destruct (run1 true (-1) 0 1 ex_c) as [ [b e]|] eqn:E; [|discriminate]. exists ex_c, b, e. split; [exact E|].
  assert (E': this e = 1709%Q /\ map (fun s => length (blocks s)) (m_tensors b) = [0; 0]%nat) by (clear E; cbn [option_map fst snd] in G; split; congruence). clear E G.
  destruct E' as [E1 E2]. split; [|split].
  - unfold olt. cbn. unfold Qcleb. rewrite E1. reflexivity.
  - apply Forall_forall. intros s Hs. apply (in_map (fun s => length (blocks s))) in Hs. rewrite E2 in Hs. destruct (blocks s); [reflexivity|]. destruct Hs as [Hs|[Hs|[] ] ]; discriminate.
  - eexists. split; [now left|]. discriminate.
Qed.
Print Assumptions c59_ex. Print Assumptions c59_max_dw_refuted.
