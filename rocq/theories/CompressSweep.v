(** Lemmas for C59: the truncating sweeps of MPS.compress. *)
From Coq Require Import ZArith Bool List Lia Permutation Sorted Ring.
From Verif Require Import SymModel SymProofs DictLib IndexLib OptLib RingLib OrdLib BondModel BondProofs FuseModel FuseProofs BlockModel BlockProofs StructModel StructProofs MpsModel MpsChain MpsProofs MpsDot TruncModel TruncProofs CanonModel CanonProofs CanonSites CanonChain CanonSweep CompressModel CompressSvd CompressCut CompressSites CompressSplit CompressFac CompressChain CompressMirror CompressDef.
Import ListNotations.
Open Scope Z_scope.

Section Frame.
Variable R : CRing.
Add Ring Rr38 : (rth R).
Variable L : Label.
Notation block := (list L * nd R)%type.
Notation tensor := (list (list L * nd R)).
Notation site := (site R L).
Notation state := (L * Z)%type.
Notation pstate := (bool * list state)%type.
Notation telem := (telem R L).
Notation "0'" := (r0 R). Notation "1'" := (r1 R).
Infix "+'" := (radd R) (at level 50, left associativity).
Infix "-'" := (rsub R) (at level 50, left associativity).
Infix "*'" := (rmul R) (at level 40, left associativity).
Notation zf := (fun _ : L => 0).
Notation zs := (0, fun (_ : Z) (_ : L) => 0).
Notation st := (SP (R := R) (L := L) []).

Lemma pst_dec : forall a b : pstate, {a = b} + {a <> b}.
Proof. intros [o x] [o' y]. destruct (bool_dec o o') as [->|N]; [|right; congruence]. destruct (list_eq_dec (st_dec L) x y) as [->|N]; [left; reflexivity|right; congruence]. Qed.
(* the states of a bond, and the physical states of a site *)
Definition states (Qs : list L) (d : L -> Z) : list state := flat_map (fun q => map (pair q) (zrange (d q))) Qs.
Definition midk (k : list L) : list L := removelast (tl k).
Definition pcov (n : Z) (dp : Z -> L -> Z) (s : site) : list pstate :=
  nodup pst_dec (flat_map (fun o => flat_map (fun k => map (fun ys => (o, combine (midk k) ys)) (all_idx (mids L n dp (midk k)))) (map fst (part s o))) [true; false]).
Lemma in_states : forall Qs d m, In m (states Qs d) <-> In (fst m) Qs /\ 0 <= snd m < d (fst m).
Proof.
  intros Qs d [q y]. unfold states. rewrite in_flat_map. cbn [fst snd]. split.
  - intros (q' & Hq & H). apply in_map_iff in H. destruct H as (y' & E & H). injection E as -> ->. split; [exact Hq|]. now apply in_zrange.
  - intros [Hq Hy]. exists q. split; [exact Hq|]. apply in_map. now apply in_zrange.
Qed.
Lemma states_nodup : forall Qs d, NoDup Qs -> NoDup (states Qs d).
Proof.
  intros Qs d N. unfold states. apply FuseProofs.NoDup_flat_map; auto.
  - intros q _. apply pair_zrange_nodup.
  - intros q q' m _ _ H H'. apply in_map_iff in H. destruct H as (y & <- & _). apply in_map_iff in H'. destruct H' as (y' & E & _). congruence.
Qed.
Lemma states_sum : forall Qs d (F : state -> R), bsum (states Qs d) F = bsum Qs (fun q => bsum (zrange (d q)) (fun y => F (q, y))).
Proof. intros. unfold states. rewrite bsum_flat_map. apply bsum_ext. intros q _. apply bsum_map. Qed.
Lemma in_shape_app : forall a b xs, in_shape (a ++ b) xs -> in_shape a (firstn (length a) xs).
Proof. intros a b xs H. apply Forall2_app_inv_l in H. destruct H as (x1 & x2 & H1 & _ & ->). rewrite firstn_app. pose proof (F2_length _ _ _ _ _ H1) as E. rewrite E, firstn_all, Nat.sub_diag. cbn [firstn]. now rewrite app_nil_r. Qed.
Lemma combine_fst_snd : forall A B (l : list (A * B)), combine (map fst l) (map snd l) = l.
Proof. intros A B l. induction l as [|[a b] l IH]; [reflexivity|]. cbn [map combine fst snd]. now rewrite IH. Qed.
Section Cover.
Variables (n : Z) (dl : L -> Z) (dp : Z -> L -> Z) (dr : L -> Z) (w s : site).
Hypothesis W : wf_site n dl dp dr w.
Hypothesis I : forall o, incl (map fst (part w o)) (map fst (part s o)).
Lemma pcov_out : forall p l r, ~ In p (pcov n dp s) -> selem w p l r = 0'.
Proof.
  intros p l r N. unfold selem. apply elem_out. intros b Hb Ek X. apply N. destruct (part_block R L n dl dp dr w (fst p) b W Hb) as (ql & qm & qr & E & Lm & Sh & _). unfold pcov. apply nodup_In. apply in_flat_map. exists (fst p). split; [destruct (fst p); cbn; auto|].
  apply in_flat_map. exists (fst b). split; [apply I, in_map, Hb|]. assert (Em: midk (fst b) = map fst (snd p)) by (rewrite Ek; unfold midk; cbn [tl]; apply removelast_last). rewrite Em.
  assert (Eq: qm = map fst (snd p)) by (rewrite E in Em; unfold midk in Em; cbn [tl] in Em; now rewrite removelast_last in Em).
  apply in_map_iff. exists (map snd (snd p)). rewrite combine_fst_snd, <- surjective_pairing. split; [reflexivity|]. apply in_all_idx. rewrite Sh, Eq in X. inversion X as [|? ? ? ? _ X']; subst.
  apply in_shape_app in X'. rewrite mids_len in X' by (destruct W; lia). rewrite firstn_app, !map_length in X'. replace (length (snd p) - length (snd p))%nat with 0%nat in X' by lia. cbn [firstn] in X'. rewrite app_nil_r in X'. replace (firstn (length (snd p)) (map snd (snd p))) with (map snd (snd p)) in X'; [exact X'|]. symmetry. apply firstn_all2. rewrite map_length. lia.
Qed.
Variable Qs : list L.
Hypothesis IF : incl (firsts s) Qs. Hypothesis IL : incl (lasts s) Qs.
Lemma left_out : forall p l r, ~ In l (states Qs dl) -> selem w p l r = 0'.
Proof. intros p l r N. apply (selem_left R L n dl dp dr w W). intros [H1 H2]. apply N, in_states. split; [|exact H2]. apply IF. destruct (keys_firsts R L s w I) as [F _]. now apply F. Qed.
Lemma right_out : forall p l r, ~ In r (states Qs dr) -> selem w p l r = 0'.
Proof. intros p l r N. apply (selem_right R L n dl dp dr w W). intros [H1 H2]. apply N, in_states. split; [|exact H2]. apply IL. destruct (keys_firsts R L s w I) as [_ F]. now apply F. Qed.
Lemma prod_out_r : forall p l r, ~ In (p, r) (list_prod (pcov n dp s) (states Qs dr)) -> selem w p l r = 0'.
Proof.
  intros p l r N. destruct (in_dec pst_dec p (pcov n dp s)) as [Hp|Hp]; [|now apply pcov_out]. apply right_out. intros Hr. apply N. now apply in_prod.
Qed.
Lemma prod_out_l : forall p l r, ~ In (p, l) (list_prod (pcov n dp s) (states Qs dl)) -> selem w p l r = 0'.
Proof.
  intros p l r N. destruct (in_dec pst_dec p (pcov n dp s)) as [Hp|Hp]; [|now apply pcov_out]. apply left_out. intros Hr. apply N. now apply in_prod.
Qed.
End Cover.
Lemma lprod_nodup : forall A B (a : list A) (b : list B), NoDup a -> NoDup b -> NoDup (list_prod a b).
Proof.
  intros A B a b Na Nb. induction Na as [|x a Hx Na IH]; cbn [list_prod]; [constructor|]. apply nodup_app. split; [|split].
  - apply FinFun.Injective_map_NoDup; [intros y y' E; congruence|exact Nb].
  - exact IH.
  - intros [x' y] H H'. apply in_map_iff in H. destruct H as (y' & E & _). injection E as -> ->. apply in_prod_iff in H'. tauto.
Qed.
Lemma pcov_nodup : forall n dp s, NoDup (pcov n dp s).
Proof. intros. apply NoDup_nodup. Qed.
End Frame.

Section Sweeps.
Variable R : CRing.
Add Ring Rr39 : (rth R).
Variable L : Label.
Variable K : ORing.
Variable sqrtK : K -> K.
Variable emb : K -> R.
Variable cj : R -> R.
Variable svd : nd R -> option (nd R * list K * nd R).
Variable big : list L * nd R -> bool.
Notation tensor := (list (list L * nd R)).
Notation site := (site R L).
Notation state := (L * Z)%type.
Notation pstate := (bool * list state)%type.
Notation telem := (telem R L).
Notation "0'" := (r0 R). Notation "1'" := (r1 R).
Infix "+'" := (radd R) (at level 50, left associativity).
Infix "-'" := (rsub R) (at level 50, left associativity).
Infix "*'" := (rmul R) (at level 40, left associativity).
Notation zf := (fun _ : L => 0).
Notation zs := (0, fun (_ : Z) (_ : L) => 0).
Notation st := (SP (R := R) (L := L) []).
Hypothesis Hbig : forall b, big b = false -> forall xs, nget (snd b) xs = 0'.
Hypothesis cj_add : forall x y, cj (x +' y) = cj x +' cj y.
Hypothesis cj_mul : forall x y, cj (x *' y) = cj x *' cj y.
Hypothesis cj_cj : forall x, cj (cj x) = x.
Hypothesis cj0 : cj 0' = 0'.
Hypothesis cj_emb : forall x, cj (emb x) = emb x.
Hypothesis emb0 : emb (r0 K) = 0'.
Hypothesis emb_add : forall x y, emb (radd K x y) = emb x +' emb y.
Hypothesis emb_mul : forall x y, emb (rmul K x y) = emb x *' emb y.
Hypothesis HS : exact_svd R K emb cj svd.
Variable o : copts K.

(* the chain before the sweep gives the lists of states *)
Variable ts0 : list site.
Variable shp : list (Z * (Z -> L -> Z)).
Notation n := (length ts0).
Hypothesis Lshp : length shp = n.
Variable Qs : list L.
Hypothesis NQ : NoDup Qs.
Hypothesis IQ : forall j, incl (firsts (nth j ts0 st)) Qs /\ incl (lasts (nth j ts0 st)) Qs.
Hypothesis DF : forall j, first_determined R L (nth j ts0 st).
Hypothesis DL : forall j, last_determined R L (nth j ts0 st).
Definition pl (j : nat) : list pstate := pcov R L (fst (nth j shp zs)) (snd (nth j shp zs)) (nth j ts0 st).
Definition PP : list (list pstate) := map pl (seq 0 n).
Notation D := (states L Qs).
Notation psi' := (psi R pstate state (st_dec L)).
Definition Fs (ts : list site) (ds : list (L -> Z)) : list pstate -> state -> state -> R := psi' (map selem ts) (map D ds).
Notation dist2 := (dist2 R pstate state cj PP). Notation norm2 := (norm2 R pstate state cj PP).
Notation liso' := (liso R pstate state (st_dec L) cj). Notation riso' := (riso R pstate state (st_dec L) cj).
Lemma PP_len : length PP = n.
Proof. unfold PP. now rewrite map_length, seq_length. Qed.
Lemma PP_nth : forall j, (j < n)%nat -> nth j PP [] = pl j.
Proof. intros j H. unfold PP. rewrite (nth_indep _ [] (pl 0)) by (rewrite map_length, seq_length; lia). rewrite map_nth, seq_nth by lia. reflexivity. Qed.
Lemma D_nth : forall ds j, (j < length ds)%nat -> nth j (map D ds) [] = D (nth j ds zf).
Proof. intros ds j H. rewrite (nth_indep _ [] (D zf)) by (rewrite map_length; lia). now rewrite map_nth. Qed.
Lemma D_nd : forall ds B, In B (map D ds) -> NoDup B.
Proof. intros ds B H. apply in_map_iff in H. destruct H as (d & <- & _). now apply states_nodup. Qed.

Definition shaped (ts : list site) (ds : list (L -> Z)) : Prop :=
  length ts = n /\ wf_sites ds shp ts /\ (forall j o, incl (map fst (part (nth j ts st) o)) (map fst (part (nth j ts0 st) o))).
Definition inv (ts : list site) (ds : list (L -> Z)) (c : nat) : Prop :=
  shaped ts ds /\ (forall j, (j < c)%nat -> left_iso R L cj (nth (S j) ds zf) (nth j ts st)) /\ (forall j, (c < j < n)%nat -> right_iso R L cj (nth j ds zf) (nth j ts st)).
Lemma shaped_wf : forall ts ds, shaped ts ds -> length ds = S n /\ forall j, (j < n)%nat -> wf_site (fst (nth j shp zs)) (nth j ds zf) (snd (nth j shp zs)) (nth (S j) ds zf) (nth j ts st).
Proof. intros ts ds (E & W & _). apply wf_sites_nth in W. rewrite E in W. tauto. Qed.
Lemma inv_liso : forall ts ds c j, inv ts ds c -> (j < c)%nat -> (j < n)%nat -> liso' (map selem ts) (map D ds) PP j.
Proof.
  intros ts ds c j (Sh & LI & _) Hj Hn u m m' E. destruct (shaped_wf _ _ Sh) as [Ld W]. destruct Sh as (Lt & _ & I). rewrite (nth_err _ _ _ (selem st)), map_nth in E by (rewrite map_length; lia). injection E as <-.
  rewrite !D_nth, PP_nth by lia. intros Hm Hm'. apply in_states in Hm, Hm'.
  unfold dlt. rewrite <- (LI j Hj (list_prod (pl j) (D (nth j ds zf))) ltac:(apply lprod_nodup; [apply pcov_nodup|now apply states_nodup]) ltac:(intros p l r; apply (prod_out_l R L _ _ _ _ _ _ (W j Hn) (I j)); apply IQ) m m') by tauto.
  now rewrite bsum_lprod.
Qed.
Lemma inv_riso : forall ts ds c j, inv ts ds c -> (c < j)%nat -> (j < n)%nat -> riso' (map selem ts) (map D ds) PP j.
Proof.
  intros ts ds c j (Sh & _ & RI) Hj Hn u m m' E. destruct (shaped_wf _ _ Sh) as [Ld W]. destruct Sh as (Lt & _ & I). rewrite (nth_err _ _ _ (selem st)), map_nth in E by (rewrite map_length; lia). injection E as <-.
  rewrite !D_nth, PP_nth by lia. intros Hm Hm'. apply in_states in Hm, Hm'.
  unfold dlt. rewrite <- (RI j (conj Hj Hn) (list_prod (pl j) (D (nth (S j) ds zf))) ltac:(apply lprod_nodup; [apply pcov_nodup|now apply states_nodup]) ltac:(intros p l r; apply (prod_out_r R L _ _ _ _ _ _ (W j Hn) (I j)); apply IQ) m m') by tauto.
  now rewrite bsum_lprod.
Qed.

(* a gauge only connects equal labels *)
Lemma res_r : forall lab T d dn s f g p q y k, gauge_ok R L lab T d dn g -> In q Qs ->
  residual R pstate state (selem s) (selem f) (fun m z => telem g [m; z]) (D dn) p (q, y) k = rho_r R L dn s f g p q y k.
Proof.
  intros lab T d dn s f g p q y k G Hq. unfold residual, rho_r. f_equal. rewrite states_sum. rewrite (bsum_single R _ Qs _ q); auto.
  intros q' _ N. apply bsum_zero. intros z _. rewrite (gauge_zero R L lab T d dn g (q, y) (q', z) G); [ring|]. cbn [fst snd]. intros (E & _). congruence.
Qed.
Lemma res_l : forall lab T d dn s f g p q y k, gauge_ok R L lab T dn d g -> In q Qs ->
  residual R pstate state (flip R pstate state (selem s)) (flip R pstate state (selem f)) (fun m z => telem g [z; m]) (D dn) p (q, y) k = rho_l R L dn s f g p k q y.
Proof.
  intros lab T d dn s f g p q y k G Hq. unfold residual, rho_l, flip. f_equal. rewrite states_sum. rewrite (bsum_single R _ Qs _ q); auto.
  - apply bsum_ext. intros z _. ring.
  - intros q' _ N. apply bsum_zero. intros z _. rewrite (gauge_zero R L lab T dn d g (q', z) (q, y) G); [ring|]. cbn [fst snd]. intros (E & _). congruence.
Qed.
Lemma pair_dec : forall a b : pstate * state, {a = b} + {a <> b}.
Proof. intros [p l] [p' l']. destruct (pst_dec L p p') as [->|N]; [|right; congruence]. destruct (st_dec L l l') as [->|N]; [left; reflexivity|right; congruence]. Qed.
Notation headq := (fun qs : list L => hd (q0 L) qs).
Notation lastq := (fun qs : list L => last qs (q0 L)).
Lemma right_step_ok : forall ts ds i e ts1 e1, (S i < n)%nat -> inv ts ds (S i) -> svd_right_step R L K sqrtK emb svd big o (ts, e) (S i) = Some (ts1, e1) ->
  exists dn err, let ds1 := upd (S i) dn ds in e1 = kmax2 K e err /\ ole (r0 K) err /\ (keep_all K o -> err = r0 K) /\ within L (o_max K o) dn /\ inv ts1 ds1 i /\
  (forall j, kind (nth j ts1 st) = kind (nth j ts st) \/ blocks (nth j ts1 st) = []) /\ (forall j o, incl (map fst (part (nth j ts1 st) o)) (map fst (part (nth j ts st) o))) /\
  skipn (S (S i)) ts1 = skipn (S (S i)) ts /\
  (forall ts2 ds2, length ts2 = n -> length ds2 = S n -> nth 0 ds2 zf = nth 0 ds zf -> skipn (S i) ts2 = skipn (S i) ts1 -> skipn (S i) ds2 = skipn (S i) ds1 ->
     dist2 (D (nth 0 ds zf)) (D (nth n ds zf)) (Fs ts ds) (Fs ts2 ds2) = emb err +' dist2 (D (nth 0 ds zf)) (D (nth n ds zf)) (Fs ts1 ds1) (Fs ts2 ds2)) /\
  norm2 (D (nth 0 ds zf)) (D (nth n ds zf)) (Fs ts ds) = emb err +' norm2 (D (nth 0 ds zf)) (D (nth n ds zf)) (Fs ts1 ds1).
Proof.
  intros ts ds i e ts1 e1 Hi V E. pose proof V as (Sh & LI & RI). destruct (shaped_wf _ _ Sh) as [Ld W]. pose proof Sh as (Lt & Wts & I).
  unfold svd_right_step in E. cbn [fst snd] in E. rewrite (nth_err _ ts (S i) st) in E by lia. cbn [bind] in E.
  destruct (right_svd R L K svd (nth (S i) ts st)) as [[[[l slabs] ss] f0]|] eqn:Es; [|discriminate]. cbn [bind] in E.
  destruct (trunc_right R L K sqrtK big o l slabs ss f0) as [[[l' s'] f] err] eqn:Et.
  destruct (right_trunc R L K sqrtK emb cj svd big Hbig cj_add cj_mul cj0 cj_emb emb0 emb_add emb_mul HS o _ _ _ _ _ _ _ _ _ _ _ _ _ (W (S i) Hi) Es Et) as (g & dn & Eg & Sp & Wi & Pe).
  rewrite Eg in E. cbn [bind] in E. replace (S i - 1)%nat with i in E by lia. rewrite (nth_err _ ts i st) in E by lia. cbn [bind] in E.
  destruct Sp as (Wf & If & G & Kf & Sp). destruct (gauge_right_spec R L _ _ _ _ _ _ _ _ _ G (W i ltac:(lia))) as (u' & Eu & Ku & Wu & Iu & Pu). rewrite Eu in E. cbn [bind] in E. injection E as <- <-.
  set (s := nth (S i) ts st) in *. set (u := nth i ts st) in *.
  assert (Ds: first_determined R L s) by (apply (first_determined_incl R L (nth (S i) ts0 st)); [apply I|apply DF]).
  set (X := list_prod (pl (S i)) (D (nth (S (S i)) ds zf))).
  assert (NX: NoDup X) by (apply lprod_nodup; [apply pcov_nodup|now apply states_nodup]).
  assert (CX: covers_r R L (fst (nth (S i) shp zs)) (snd (nth (S i) shp zs)) (nth (S (S i)) ds zf) s X).
  { intros dl' w Ww Iw p a r. apply (prod_out_r R L _ _ _ _ _ (nth (S i) ts0 st) Ww); [|apply IQ]. intros oo. eapply incl_tran; [apply Iw|apply I]. }
  destruct (Sp X Ds NX CX) as (Iso & Orth & Err).
  assert (L1: length (upd (S i) f ts) = n) by (rewrite upd_len; lia).
  assert (Nt: forall k, nth k (upd i u' (upd (S i) f ts)) st = if Nat.eqb k i then u' else if Nat.eqb k (S i) then f else nth k ts st) by (intros k; rewrite nth_upd by lia; now rewrite nth_upd by lia).
  assert (Nd: forall k, nth k (upd (S i) dn ds) zf = if Nat.eqb k (S i) then dn else nth k ds zf) by (intros k; apply nth_upd; lia).
  assert (V1: inv (upd i u' (upd (S i) f ts)) (upd (S i) dn ds) i).
  { split; [split; [rewrite upd_len by lia; exact L1|split]|split].
    - apply wf_sites_nth. split; [rewrite !upd_len by lia; lia|]. split; [rewrite upd_len by lia; lia|]. intros k Hk. rewrite upd_len in Hk by lia. rewrite Nt, !Nd.
      destruct (Nat.eqb_spec k i) as [->|N1]; [rewrite Nat.eqb_refl; destruct (Nat.eqb_spec i (S i)); [lia|exact Wu]|].
      destruct (Nat.eqb_spec k (S i)) as [->|N2]; [destruct (Nat.eqb_spec (S (S i)) (S i)); [lia|exact Wf]|]. destruct (Nat.eqb_spec (S k) (S i)); [lia|]. apply W. lia.
    - intros j oo. rewrite Nt. destruct (Nat.eqb_spec j i) as [->|]; [eapply incl_tran; [apply Iu|apply I]|]. destruct (Nat.eqb_spec j (S i)) as [->|]; [eapply incl_tran; [apply If|apply I]|apply I].
    - intros j Hj. rewrite Nt, Nd. destruct (Nat.eqb_spec j i); [lia|]. destruct (Nat.eqb_spec j (S i)); [lia|]. destruct (Nat.eqb_spec (S j) (S i)); [lia|]. apply LI. lia.
    - intros j Hj. rewrite Nt, Nd. destruct (Nat.eqb_spec j i); [lia|]. destruct (Nat.eqb_spec j (S i)) as [->|]; [|apply RI; lia].
      intros Y NY CY a b Ha Hb. rewrite <- (Iso a b Ha Hb). apply (bsum_cover R _ pair_dec); auto; intros [p r] H; cbn [fst snd]; [rewrite (CY p b r H)|rewrite (CX _ f Wf If p b r H)]; ring. }
  exists dn, err. cbv zeta. split; [reflexivity|]. split; [exact Pe|]. split; [intros Hk; exact (trunc_right_err R L K sqrtK big o _ _ _ _ _ _ _ _ Hk Et)|]. split; [exact Wi|]. split; [exact V1|]. split.
  { intros j. rewrite Nt. destruct (Nat.eqb_spec j i) as [->|]; [exact Ku|]. destruct (Nat.eqb_spec j (S i)) as [->|]; [left; exact Kf|now left]. }
  split; [intros j oo; rewrite Nt; destruct (Nat.eqb_spec j i) as [->|]; [apply Iu|]; destruct (Nat.eqb_spec j (S i)) as [->|]; [apply If|apply incl_refl]|].
  split; [rewrite !skipn_upd_lt by (rewrite ?upd_len; lia); reflexivity|].
  assert (HD: forall j, (j <= n)%nat -> nth j (map D ds) [] = D (nth j ds zf)) by (intros; apply D_nth; lia).
  assert (Eu0: nth_error (map selem ts) i = Some (selem u)) by (rewrite (nth_err _ _ _ (selem st)), map_nth by (rewrite map_length; lia); reflexivity).
  assert (Es0: nth_error (map selem ts) (S i) = Some (selem s)) by (rewrite (nth_err _ _ _ (selem st)), map_nth by (rewrite map_length; lia); reflexivity).
  assert (HL: forall j, (j <= i)%nat -> liso' (map selem ts) (map D ds) PP j) by (intros; apply (inv_liso ts ds (S i)); auto; lia).
  assert (HR: forall j, (S i < j)%nat -> (j < n)%nat -> riso' (map selem ts) (map D ds) PP j) by (intros; now apply (inv_riso ts ds (S i))).
  assert (Push: forall p a z, In z (D dn) -> In a (nth i (map D ds) []) -> selem u' p a z = bsum (nth (S i) (map D ds) []) (fun m => selem u p a m *' telem g [m; z])).
  { intros p a z _ _. rewrite HD by lia. apply Pu; [now apply states_nodup|]. intros m Hm. rewrite (right_out R L _ _ _ _ u (nth i ts0 st) (W i ltac:(lia)) (I i) Qs (proj2 (IQ i)) p a m Hm). ring. }
  assert (Res: forall p m k, In m (D (nth (S i) ds zf)) -> residual R pstate state (selem s) (selem f) (fun m z => telem g [m; z]) (D dn) p m k = rho_r R L dn s f g p (fst m) (snd m) k).
  { intros p [q y] k Hm. apply in_states in Hm. apply (res_r _ _ _ _ _ _ _ _ _ _ _ G). apply Hm. }
  assert (Or: forall z m, In z (D dn) -> In m (nth (S i) (map D ds) []) -> bsum (nth (S i) PP []) (fun p => bsum (nth (S (S i)) (map D ds) []) (fun k => cj (selem f p z k) *' residual R pstate state (selem s) (selem f) (fun m z => telem g [m; z]) (D dn) p m k)) = 0').
  { intros [q z] m Hz Hm. rewrite HD in Hm by lia. rewrite HD, PP_nth by lia. apply in_states in Hz. rewrite <- (Orth q z (fst m) (snd m) (proj2 Hz)). unfold X. rewrite bsum_lprod. apply bsum_ext. intros p _. apply bsum_ext. intros k _. now rewrite Res. }
  assert (Er: bsum (nth (S i) PP []) (fun p => bsum (nth (S i) (map D ds) []) (fun m => bsum (nth (S (S i)) (map D ds) []) (fun k => cj (residual R pstate state (selem s) (selem f) (fun m z => telem g [m; z]) (D dn) p m k) *' residual R pstate state (selem s) (selem f) (fun m z => telem g [m; z]) (D dn) p m k))) = emb err).
  { rewrite !HD, PP_nth by lia. rewrite bsum_swap. rewrite <- (Err Qs NQ); [|eapply incl_tran; [|apply (proj1 (IQ (S i)))]; apply (keys_firsts R L _ _ (I (S i)))]. rewrite states_sum. apply bsum_ext. intros q Hq. apply bsum_ext. intros y Hy. unfold X. rewrite bsum_lprod. apply bsum_ext. intros p _. apply bsum_ext. intros k _.
    rewrite Res; [reflexivity|]. apply in_states. cbn [fst snd]. split; [exact Hq|]. now apply in_zrange. }
  assert (F1: Fs (upd i u' (upd (S i) f ts)) (upd (S i) dn ds) = psi' (fs1 R pstate state (map selem ts) i (selem u') (selem f)) (ds1 state (map D ds) i (D dn))) by (unfold Fs, fs1, ds1; now rewrite !map_upd).
  assert (Lf: length (map selem ts) = n) by (rewrite map_length; exact Lt). assert (LdD: length (map D ds) = S n) by (rewrite map_length; exact Ld).
  rewrite <- (HD 0%nat), <- (HD n) by lia. rewrite F1. split.
  - intros ts2 ds2 Lt2 Ld2 E0 Et2 Ed2. unfold Fs.
    apply (step_dist R pstate state (st_dec L) cj cj_add cj_mul cj_cj (map selem ts) (map D ds) PP n i Lf LdD PP_len (D_nd ds) Hi (selem u) (selem s) (selem u') (selem f) (fun m z => telem g [m; z]) (D dn) (emb err) Eu0 Es0 HL HR); auto.
    + now apply states_nodup.
    + now rewrite map_length.
    + now rewrite map_length.
    + apply D_nd.
    + rewrite HD by lia. rewrite D_nth by lia. now rewrite E0.
    + rewrite D_nth by lia. f_equal. rewrite (skipn_nth _ ds2 (S i) zf) in Ed2 by lia. rewrite (skipn_nth _ (upd (S i) dn ds) (S i) zf) in Ed2 by (rewrite upd_len; lia). injection Ed2 as Ed2 _. rewrite Ed2, Nd, Nat.eqb_refl. reflexivity.
    + rewrite !skipn_map, Et2. rewrite skipn_upd_lt by lia. rewrite (skipn_nth _ _ (S i) st) by lia. rewrite nth_upd, Nat.eqb_refl by lia. rewrite skipn_upd_lt by lia. reflexivity.
    + rewrite !skipn_map. f_equal. assert (Etl: tl (skipn (S i) ds2) = tl (skipn (S i) (upd (S i) dn ds))) by (now rewrite Ed2). rewrite (skipn_nth _ ds2 (S i) zf) in Etl by lia. rewrite (skipn_nth _ (upd (S i) dn ds) (S i) zf) in Etl by (rewrite upd_len; lia). cbn [tl] in Etl. rewrite Etl. apply skipn_upd_lt; lia.
  - unfold Fs. apply (step_norm R pstate state (st_dec L) cj cj_add cj_mul cj_cj (map selem ts) (map D ds) PP n i Lf LdD PP_len (D_nd ds) Hi (selem u) (selem s) (selem u') (selem f) (fun m z => telem g [m; z]) (D dn) (emb err) Eu0 Es0 HL HR); auto. now apply states_nodup.
Qed.
Lemma left_step_ok : forall ts ds i e ts1 e1, (S i < n)%nat -> inv ts ds i -> svd_left_step R L K sqrtK emb svd big o (ts, e) i = Some (ts1, e1) ->
  exists dn err, let ds1 := upd (S i) dn ds in e1 = kmax2 K e err /\ ole (r0 K) err /\ (keep_all K o -> err = r0 K) /\ within L (o_max K o) dn /\ inv ts1 ds1 (S i) /\
  (forall j, kind (nth j ts1 st) = kind (nth j ts st) \/ blocks (nth j ts1 st) = []) /\ (forall j o, incl (map fst (part (nth j ts1 st) o)) (map fst (part (nth j ts st) o))) /\
  firstn i ts1 = firstn i ts /\
  (forall ts2 ds2, length ts2 = n -> length ds2 = S n -> nth n ds2 zf = nth n ds zf -> firstn (S i) ts2 = firstn (S i) ts1 -> firstn (S (S i)) ds2 = firstn (S (S i)) ds1 ->
     dist2 (D (nth 0 ds zf)) (D (nth n ds zf)) (Fs ts ds) (Fs ts2 ds2) = emb err +' dist2 (D (nth 0 ds zf)) (D (nth n ds zf)) (Fs ts1 ds1) (Fs ts2 ds2)) /\
  norm2 (D (nth 0 ds zf)) (D (nth n ds zf)) (Fs ts ds) = emb err +' norm2 (D (nth 0 ds zf)) (D (nth n ds zf)) (Fs ts1 ds1).
Proof.
  intros ts ds i e ts1 e1 Hi V E. pose proof V as (Sh & LI & RI). destruct (shaped_wf _ _ Sh) as [Ld W]. pose proof Sh as (Lt & Wts & I).
  unfold svd_left_step in E. cbn [fst snd] in E. rewrite (nth_err _ ts i st) in E by lia. cbn [bind] in E.
  destruct (left_svd R L K svd (nth i ts st)) as [[[[f0 slabs] ss] r]|] eqn:Es; [|discriminate]. cbn [bind] in E.
  destruct (trunc_left R L K sqrtK big o f0 slabs ss r) as [[[f s'] r'] err] eqn:Et.
  destruct (left_trunc R L K sqrtK emb cj svd big Hbig cj_add cj_mul cj0 cj_emb emb0 emb_add emb_mul HS o _ _ _ _ _ _ _ _ _ _ _ _ _ (W i ltac:(lia)) Es Et) as (g & dn & Eg & Sp & Wi & Pe).
  rewrite Eg in E. cbn [bind] in E. rewrite (nth_err _ ts (S i) st) in E by lia. cbn [bind] in E.
  destruct Sp as (Wf & If & G & Kf & Sp). destruct (gauge_left_spec R L _ _ _ _ _ _ _ _ _ G (W (S i) Hi)) as (u' & Eu & Ku & Wu & Iu & Pu). rewrite Eu in E. cbn [bind] in E. injection E as <- <-.
  set (s := nth i ts st) in *. set (u := nth (S i) ts st) in *.
  assert (Ds: last_determined R L s) by (apply (last_determined_incl R L (nth i ts0 st)); [apply I|apply DL]).
  set (X := list_prod (pl i) (D (nth i ds zf))).
  assert (NX: NoDup X) by (apply lprod_nodup; [apply pcov_nodup|now apply states_nodup]).
  assert (CX: covers_l R L (fst (nth i shp zs)) (nth i ds zf) (snd (nth i shp zs)) s X).
  { intros dr' w Ww Iw p a b. apply (prod_out_l R L _ _ _ _ _ (nth i ts0 st) Ww); [|apply IQ]. intros oo. eapply incl_tran; [apply Iw|apply I]. }
  destruct (Sp X Ds NX CX) as (Iso & Orth & Err).
  assert (L1: length (upd i f ts) = n) by (rewrite upd_len; lia).
  assert (Nt: forall k, nth k (upd (S i) u' (upd i f ts)) st = if Nat.eqb k (S i) then u' else if Nat.eqb k i then f else nth k ts st) by (intros k; rewrite nth_upd by lia; now rewrite nth_upd by lia).
  assert (Nd: forall k, nth k (upd (S i) dn ds) zf = if Nat.eqb k (S i) then dn else nth k ds zf) by (intros k; apply nth_upd; lia).
  assert (ILs: incl (lasts s) Qs) by (eapply incl_tran; [|apply (proj2 (IQ i))]; apply (keys_firsts R L _ _ (I i))).
  assert (V1: inv (upd (S i) u' (upd i f ts)) (upd (S i) dn ds) (S i)).
  { split; [split; [rewrite upd_len by lia; exact L1|split]|split].
    - apply wf_sites_nth. split; [rewrite !upd_len by lia; lia|]. split; [rewrite upd_len by lia; lia|]. intros k Hk. rewrite upd_len in Hk by lia. rewrite Nt, !Nd.
      destruct (Nat.eqb_spec k (S i)) as [->|N1]; [destruct (Nat.eqb_spec (S (S i)) (S i)); [lia|exact Wu]|].
      destruct (Nat.eqb_spec k i) as [->|N2]; [rewrite Nat.eqb_refl; exact Wf|]. destruct (Nat.eqb_spec (S k) (S i)); [lia|]. apply W. lia.
    - intros j oo. rewrite Nt. destruct (Nat.eqb_spec j (S i)) as [->|]; [eapply incl_tran; [apply Iu|apply I]|]. destruct (Nat.eqb_spec j i) as [->|]; [eapply incl_tran; [apply If|apply I]|apply I].
    - intros j Hj. rewrite Nt, Nd. destruct (Nat.eqb_spec j (S i)); [lia|]. destruct (Nat.eqb_spec j i) as [->|]; [|destruct (Nat.eqb_spec (S j) (S i)); [lia|]; apply LI; lia]. rewrite Nat.eqb_refl.
      intros Y NY CY a b Ha Hb. rewrite <- (Iso a b Ha Hb). apply (bsum_cover R _ pair_dec); auto; intros [p l] H; cbn [fst snd]; [rewrite (CY p l b H)|rewrite (CX _ f Wf If p l b H)]; ring.
    - intros j Hj. rewrite Nt, Nd. destruct (Nat.eqb_spec j (S i)); [lia|]. destruct (Nat.eqb_spec j i); [lia|]. apply RI. lia. }
  exists dn, err. cbv zeta. split; [reflexivity|]. split; [exact Pe|]. split; [intros Hk; exact (trunc_left_err R L K sqrtK big o _ _ _ _ _ _ _ _ Hk Et)|]. split; [exact Wi|]. split; [exact V1|]. split.
  { intros j. rewrite Nt. destruct (Nat.eqb_spec j (S i)) as [->|]; [exact Ku|]. destruct (Nat.eqb_spec j i) as [->|]; [left; exact Kf|now left]. }
  split; [intros j oo; rewrite Nt; destruct (Nat.eqb_spec j (S i)) as [->|]; [apply Iu|]; destruct (Nat.eqb_spec j i) as [->|]; [apply If|apply incl_refl]|].
  split; [rewrite !firstn_upd by (rewrite ?upd_len; lia); reflexivity|].
  assert (HD: forall j, (j <= n)%nat -> nth j (map D ds) [] = D (nth j ds zf)) by (intros; apply D_nth; lia).
  assert (Eu0: nth_error (map selem ts) (S i) = Some (selem u)) by (rewrite (nth_err _ _ _ (selem st)), map_nth by (rewrite map_length; lia); reflexivity).
  assert (Es0: nth_error (map selem ts) i = Some (selem s)) by (rewrite (nth_err _ _ _ (selem st)), map_nth by (rewrite map_length; lia); reflexivity).
  assert (HL: forall j, (j < i)%nat -> liso' (map selem ts) (map D ds) PP j) by (intros; apply (inv_liso ts ds i); auto; lia).
  assert (HR: forall j, (i < j)%nat -> (j < n)%nat -> riso' (map selem ts) (map D ds) PP j) by (intros; now apply (inv_riso ts ds i)).
  assert (Push: forall p z b, In z (D dn) -> In b (nth (S (S i)) (map D ds) []) -> selem u' p z b = bsum (nth (S i) (map D ds) []) (fun m => selem u p m b *' telem g [z; m])).
  { intros p z b _ _. rewrite HD by lia. rewrite (Pu p z b (D (nth (S i) ds zf))); [apply bsum_ext; intros; ring|now apply states_nodup|]. intros m Hm. apply (gauge_zero R L _ _ _ _ _ z m G). intros (E1 & E2 & _ & E4). apply Hm. apply in_states. split; [|exact E4]. rewrite <- E1. apply ILs. now apply labs_lasts. }
  assert (Res: forall p m k, In m (D (nth (S i) ds zf)) -> residual R pstate state (flip R pstate state (selem s)) (flip R pstate state (selem f)) (fun m z => telem g [z; m]) (D dn) p m k = rho_l R L dn s f g p k (fst m) (snd m)).
  { intros p [q y] k Hm. apply in_states in Hm. apply (res_l _ _ _ _ _ _ _ _ _ _ _ G). apply Hm. }
  assert (Or: forall z m, In z (D dn) -> In m (nth (S i) (map D ds) []) -> bsum (nth i PP []) (fun p => bsum (nth i (map D ds) []) (fun k => cj (selem f p k z) *' residual R pstate state (flip R pstate state (selem s)) (flip R pstate state (selem f)) (fun m z => telem g [z; m]) (D dn) p m k)) = 0').
  { intros [q z] m Hz Hm. rewrite HD in Hm by lia. rewrite HD, PP_nth by lia. apply in_states in Hz. rewrite <- (Orth q z (fst m) (snd m) (proj2 Hz)). unfold X. rewrite bsum_lprod. apply bsum_ext. intros p _. apply bsum_ext. intros k _. now rewrite Res. }
  assert (Er: bsum (nth i PP []) (fun p => bsum (nth (S i) (map D ds) []) (fun m => bsum (nth i (map D ds) []) (fun k => cj (residual R pstate state (flip R pstate state (selem s)) (flip R pstate state (selem f)) (fun m z => telem g [z; m]) (D dn) p m k) *' residual R pstate state (flip R pstate state (selem s)) (flip R pstate state (selem f)) (fun m z => telem g [z; m]) (D dn) p m k))) = emb err).
  { rewrite !HD, PP_nth by lia. rewrite bsum_swap. rewrite <- (Err Qs NQ ILs). rewrite states_sum. apply bsum_ext. intros q Hq. apply bsum_ext. intros y Hy. unfold X. rewrite bsum_lprod. apply bsum_ext. intros p _. apply bsum_ext. intros k _.
    rewrite Res; [reflexivity|]. apply in_states. cbn [fst snd]. split; [exact Hq|]. now apply in_zrange. }
  assert (F1: Fs (upd (S i) u' (upd i f ts)) (upd (S i) dn ds) = psi' (fs2 R pstate state (map selem ts) i (selem u') (selem f)) (ds2 state (map D ds) i (D dn))) by (unfold Fs, fs2, ds2; now rewrite !map_upd).
  assert (Lf: length (map selem ts) = n) by (rewrite map_length; exact Lt). assert (LdD: length (map D ds) = S n) by (rewrite map_length; exact Ld).
  rewrite <- (HD 0%nat), <- (HD n) by lia. rewrite F1. split.
  - intros ts2 ds2 Lt2 Ld2 E0 Et2 Ed2. unfold Fs.
    assert (Nth: forall j, (j <= S i)%nat -> nth j ds2 zf = nth j (upd (S i) dn ds) zf).
    { intros j Hj. rewrite <- (firstn_skipn (S (S i)) ds2), <- (firstn_skipn (S (S i)) (upd (S i) dn ds)), Ed2. rewrite !app_nth1 by (rewrite firstn_length, upd_len; lia). reflexivity. }
    apply (step_dist_l R pstate state (st_dec L) cj cj_add cj_mul cj_cj (map selem ts) (map D ds) PP n i Lf LdD PP_len (D_nd ds) Hi (selem s) (selem u) (selem u') (selem f) (fun m z => telem g [z; m]) (D dn) (emb err) Es0 Eu0 HL HR); auto.
    + now apply states_nodup.
    + now rewrite map_length.
    + now rewrite map_length.
    + apply D_nd.
    + rewrite HD by lia. rewrite D_nth by lia. rewrite Nth by lia. now rewrite Nd.
    + rewrite HD by lia. rewrite D_nth by lia. now rewrite E0.
    + rewrite D_nth by lia. rewrite Nth by lia. now rewrite Nd, Nat.eqb_refl.
    + rewrite !firstn_map, Et2. rewrite firstn_upd by lia. rewrite (firstn_snoc _ _ i st) by lia. rewrite nth_upd, Nat.eqb_refl by lia. rewrite firstn_upd by lia. now rewrite map_app.
    + rewrite !firstn_map. f_equal. assert (Ef: firstn (S i) (firstn (S (S i)) ds2) = firstn (S i) (firstn (S (S i)) (upd (S i) dn ds))) by (now rewrite Ed2). rewrite !firstn_firstn in Ef. replace (Nat.min (S i) (S (S i))) with (S i) in Ef by lia. rewrite Ef. apply firstn_upd; lia.
  - unfold Fs. apply (step_norm_l R pstate state (st_dec L) cj cj_add cj_mul cj_cj (map selem ts) (map D ds) PP n i Lf LdD PP_len (D_nd ds) Hi (selem s) (selem u) (selem u') (selem f) (fun m z => telem g [z; m]) (D dn) (emb err) Es0 Eu0 HL HR); auto. now apply states_nodup.
Qed.

Definition sumK (l : list K) : K := bsum l (fun x => x).
Definition outcome (ts : list site) (ds : list (L -> Z)) (e : K) (c : nat) (ts' : list site) (ds' : list (L -> Z)) (e' : K) (errs : list K) : Prop :=
  e' = fold_left (kmax2 K) errs e /\ Forall (ole (r0 K)) errs /\ (keep_all K o -> Forall (eq (r0 K)) errs) /\ inv ts' ds' c /\
  (forall j, kind (nth j ts' st) = kind (nth j ts st) \/ blocks (nth j ts' st) = []) /\ (forall j o, incl (map fst (part (nth j ts' st) o)) (map fst (part (nth j ts st) o))) /\
  nth 0 ds' zf = nth 0 ds zf /\ nth n ds' zf = nth n ds zf /\
  dist2 (D (nth 0 ds zf)) (D (nth n ds zf)) (Fs ts ds) (Fs ts' ds') = emb (sumK errs) /\
  norm2 (D (nth 0 ds zf)) (D (nth n ds zf)) (Fs ts ds) = emb (sumK errs) +' norm2 (D (nth 0 ds zf)) (D (nth n ds zf)) (Fs ts' ds').
Lemma outcome_refl : forall ts ds e c, inv ts ds c -> outcome ts ds e c ts ds e [].
Proof.
  intros ts ds e c V. split; [reflexivity|]. split; [constructor|]. split; [constructor|]. split; [exact V|]. split; [now left|]. split; [intros; apply incl_refl|]. split; [reflexivity|]. split; [reflexivity|].
  unfold sumK. rewrite bsum_nil, emb0. split; [|ring]. unfold CompressChain.dist2, total. apply bsum_zero. intros l _. apply bsum_zero. intros ps _. apply bsum_zero. intros r _. ring.
Qed.
Lemma kinds_trans : forall ts ts1 ts2 : list site, (forall j, kind (nth j ts1 st) = kind (nth j ts st) \/ blocks (nth j ts1 st) = []) -> (forall j, kind (nth j ts2 st) = kind (nth j ts1 st) \/ blocks (nth j ts2 st) = []) ->
  (forall j o, incl (map fst (part (nth j ts2 st) o)) (map fst (part (nth j ts1 st) o))) -> forall j, kind (nth j ts2 st) = kind (nth j ts st) \/ blocks (nth j ts2 st) = [].
Proof. intros ts ts1 ts2 K1 K2 I j. destruct (K2 j) as [H|H]; [|now right]. destruct (K1 j) as [H'|H']; [left; congruence|]. right. apply (keys_nil R L (nth j ts1 st)); [apply I|exact H']. Qed.
Lemma svd_right_sweep : forall m ts ds e ts' e', (m < n)%nat -> inv ts ds m -> foldM (svd_right_step R L K sqrtK emb svd big o) (ts, e) (rev (seq 1 m)) = Some (ts', e') ->
  exists ds' errs, length errs = m /\ outcome ts ds e 0 ts' ds' e' errs /\ skipn (S m) ts' = skipn (S m) ts /\ skipn (S m) ds' = skipn (S m) ds /\ (forall j, (1 <= j <= m)%nat -> within L (o_max K o) (nth j ds' zf)).
Proof.
  induction m as [|m IH]; intros ts ds e ts' e' Hm V E.
  - cbn [seq rev foldM] in E. injection E as <- <-. exists ds, []. split; [reflexivity|]. split; [now apply outcome_refl|]. split; [reflexivity|]. split; [reflexivity|]. intros; lia.
  - rewrite seq_S, rev_app_distr in E. cbn [rev app foldM Nat.add] in E.
    destruct (svd_right_step R L K sqrtK emb svd big o (ts, e) (S m)) as [[t1 e1]|] eqn:E1; [|discriminate]. cbn [bind] in E.
    destruct (right_step_ok ts ds m e t1 e1 ltac:(lia) V E1) as (dn & err & Ee & Pe & Ze & Wi & V1 & K1 & I1 & S1 & Dist & Norm). cbv zeta in *.
    destruct (IH t1 _ e1 ts' e' ltac:(lia) V1 E) as (ds' & errs & Le & (Me & Fe & Ke & V2 & K2 & I2 & D0 & Dn & Di & No) & S2 & S3 & W2).
    assert (Ld: length ds = S n) by (destruct V as (Sh & _); now apply shaped_wf in Sh). assert (Ld2: length ds' = S n) by (destruct V2 as (Sh & _); now apply shaped_wf in Sh). assert (Lt2: length ts' = n) by apply V2. assert (Lt: length ts = n) by apply V. assert (Lt1: length t1 = n) by apply V1.
    assert (N0: nth 0 (upd (S m) dn ds) zf = nth 0 ds zf) by (now rewrite nth_upd by lia). assert (Nn: nth n (upd (S m) dn ds) zf = nth n ds zf) by (rewrite nth_upd by lia; destruct (Nat.eqb_spec n (S m)); [lia|reflexivity]).
    rewrite N0, Nn in *.
    assert (T1: tl (skipn (S m) ts') = tl (skipn (S m) t1)) by (now rewrite S2). rewrite (skipn_nth _ ts' (S m) st) in T1 by lia. rewrite (skipn_nth _ t1 (S m) st) in T1 by lia. cbn [tl] in T1.
    rewrite (skipn_nth _ ds' (S m) zf) in S3 by lia. rewrite (skipn_nth _ (upd (S m) dn ds) (S m) zf) in S3 by (rewrite upd_len; lia). assert (T2: nth (S m) ds' zf = nth (S m) (upd (S m) dn ds) zf) by (exact (f_equal (hd zf) S3)). assert (T3: skipn (S (S m)) ds' = skipn (S (S m)) (upd (S m) dn ds)) by (exact (f_equal (@tl _) S3)).
    exists ds', (err :: errs). split; [cbn [length]; now rewrite Le|]. split; [|split; [|split]].
    + split; [rewrite Me, Ee; reflexivity|]. split; [now constructor|]. split; [intros Hk; constructor; [symmetry; now apply Ze|now apply Ke]|]. split; [exact V2|]. split; [now apply (kinds_trans ts t1 ts')|].
      split; [intros j oo; eapply incl_tran; [apply I2|apply I1]|]. split; [exact D0|]. split; [exact Dn|]. unfold sumK in *. rewrite !bsum_cons, emb_add. split.
      * rewrite (Dist ts' ds' Lt2 Ld2 D0 S2), Di; [reflexivity|]. rewrite (skipn_nth _ ds' (S m) zf) by lia. rewrite (skipn_nth _ (upd (S m) dn ds) (S m) zf) by (rewrite upd_len; lia). exact S3.
      * rewrite Norm, No. ring.
    + now rewrite T1.
    + rewrite T3. apply skipn_upd_lt; lia.
    + intros j Hj. destruct (Nat.eq_dec j (S m)) as [->|N]; [rewrite T2, nth_upd, Nat.eqb_refl by lia; exact Wi|]. apply W2. lia.
Qed.
Lemma svd_left_sweep : forall m i ts ds e ts' e', (i + m < n)%nat -> inv ts ds i -> foldM (svd_left_step R L K sqrtK emb svd big o) (ts, e) (seq i m) = Some (ts', e') ->
  exists ds' errs, length errs = m /\ outcome ts ds e (i + m) ts' ds' e' errs /\ firstn i ts' = firstn i ts /\ firstn (S i) ds' = firstn (S i) ds /\ (forall j, (i < j <= i + m)%nat -> within L (o_max K o) (nth j ds' zf)).
Proof.
  induction m as [|m IH]; intros i ts ds e ts' e' Hm V E.
  - cbn [seq foldM] in E. injection E as <- <-. exists ds, []. split; [reflexivity|]. replace (i + 0)%nat with i by lia. split; [now apply outcome_refl|]. split; [reflexivity|]. split; [reflexivity|]. intros; lia.
  - cbn [seq foldM] in E.
    destruct (svd_left_step R L K sqrtK emb svd big o (ts, e) i) as [[t1 e1]|] eqn:E1; [|discriminate]. cbn [bind] in E.
    destruct (left_step_ok ts ds i e t1 e1 ltac:(lia) V E1) as (dn & err & Ee & Pe & Ze & Wi & V1 & K1 & I1 & S1 & Dist & Norm). cbv zeta in *.
    destruct (IH (S i) t1 _ e1 ts' e' ltac:(lia) V1 E) as (ds' & errs & Le & (Me & Fe & Ke & V2 & K2 & I2 & D0 & Dn & Di & No) & S2 & S3 & W2).
    assert (Ld: length ds = S n) by (destruct V as (Sh & _); now apply shaped_wf in Sh). assert (Ld2: length ds' = S n) by (destruct V2 as (Sh & _); now apply shaped_wf in Sh). assert (Lt2: length ts' = n) by apply V2. assert (Lt: length ts = n) by apply V. assert (Lt1: length t1 = n) by apply V1.
    assert (N0: nth 0 (upd (S i) dn ds) zf = nth 0 ds zf) by (now rewrite nth_upd by lia). assert (Nn: nth n (upd (S i) dn ds) zf = nth n ds zf) by (rewrite nth_upd by lia; destruct (Nat.eqb_spec n (S i)); [lia|reflexivity]).
    rewrite N0, Nn in *.
    exists ds', (err :: errs). split; [cbn [length]; now rewrite Le|]. split; [|split; [|split]].
    + split; [rewrite Me, Ee; reflexivity|]. split; [now constructor|]. split; [intros Hk; constructor; [symmetry; now apply Ze|now apply Ke]|]. split; [replace (i + S m)%nat with (S i + m)%nat by lia; exact V2|]. split; [now apply (kinds_trans ts t1 ts')|].
      split; [intros j oo; eapply incl_tran; [apply I2|apply I1]|]. split; [exact D0|]. split; [exact Dn|]. unfold sumK in *. rewrite !bsum_cons, emb_add. split.
      * rewrite (Dist ts' ds' Lt2 Ld2 Dn S2 S3), Di. reflexivity.
      * rewrite Norm, No. ring.
    + rewrite <- S1. replace (firstn i ts') with (firstn i (firstn (S i) ts')) by (rewrite firstn_firstn; f_equal; lia). rewrite S2, firstn_firstn. f_equal. lia.
    + replace (firstn (S i) ds') with (firstn (S i) (firstn (S (S i)) ds')) by (rewrite firstn_firstn; f_equal; lia). rewrite S3, firstn_firstn. replace (Nat.min (S i) (S (S i))) with (S i) by lia. apply firstn_upd; lia.
    + intros j Hj. destruct (Nat.eq_dec j (S i)) as [->|N]; [|apply W2; lia].
      assert (T: nth (S i) (firstn (S (S i)) ds') zf = nth (S i) (firstn (S (S i)) (upd (S i) dn ds)) zf) by (now rewrite S3).
      rewrite (firstn_snoc _ ds' (S i) zf), (firstn_snoc _ (upd (S i) dn ds) (S i) zf) in T by (rewrite ?upd_len; lia). rewrite !app_nth2 in T by (rewrite firstn_length, ?upd_len; lia). rewrite !firstn_length, upd_len in T by lia.
      replace (S i - Nat.min (S i) (length ds'))%nat with 0%nat in T by lia. replace (S i - Nat.min (S i) (length ds))%nat with 0%nat in T by lia. cbn [nth] in T. rewrite T, nth_upd, Nat.eqb_refl by lia. exact Wi.
Qed.

(** *** defined when the decomposition is *)
Hypothesis SD : svd_defined R K svd.
Lemma right_step_some : forall ts ds i e, (S i < n)%nat -> shaped ts ds -> exists r, svd_right_step R L K sqrtK emb svd big o (ts, e) (S i) = Some r.
Proof.
  intros ts ds i e Hi Sh. destruct (shaped_wf _ _ Sh) as [Ld W]. pose proof Sh as (Lt & _). unfold svd_right_step. cbn [fst snd]. rewrite (nth_err _ ts (S i) st) by lia. cbn [bind].
  destruct (right_svd_some R L K svd SD _ _ _ _ _ (W (S i) Hi)) as (l & slabs & ss & f0 & Es). rewrite Es. cbn [bind].
  destruct (trunc_right R L K sqrtK big o l slabs ss f0) as [[[l' s'] f] err] eqn:Et.
  destruct (right_trunc R L K sqrtK emb cj svd big Hbig cj_add cj_mul cj0 cj_emb emb0 emb_add emb_mul HS o _ _ _ _ _ _ _ _ _ _ _ _ _ (W (S i) Hi) Es Et) as (g & dn & Eg & (_ & _ & G & _) & _).
  rewrite Eg. cbn [bind]. replace (S i - 1)%nat with i by lia. rewrite (nth_err _ ts i st) by lia. cbn [bind]. destruct (gauge_right_spec R L _ _ _ _ _ _ _ _ _ G (W i ltac:(lia))) as (u' & Eu & _). rewrite Eu. cbn [bind]. eauto.
Qed.
Lemma left_step_some : forall ts ds i e, (S i < n)%nat -> shaped ts ds -> exists r, svd_left_step R L K sqrtK emb svd big o (ts, e) i = Some r.
Proof.
  intros ts ds i e Hi Sh. destruct (shaped_wf _ _ Sh) as [Ld W]. pose proof Sh as (Lt & _). unfold svd_left_step. cbn [fst snd]. rewrite (nth_err _ ts i st) by lia. cbn [bind].
  destruct (left_svd_some R L K svd SD _ _ _ _ _ (W i ltac:(lia))) as (f0 & slabs & ss & r & Es). rewrite Es. cbn [bind].
  destruct (trunc_left R L K sqrtK big o f0 slabs ss r) as [[[f s'] r'] err] eqn:Et.
  destruct (left_trunc R L K sqrtK emb cj svd big Hbig cj_add cj_mul cj0 cj_emb emb0 emb_add emb_mul HS o _ _ _ _ _ _ _ _ _ _ _ _ _ (W i ltac:(lia)) Es Et) as (g & dn & Eg & (_ & _ & G & _) & _).
  rewrite Eg. cbn [bind]. rewrite (nth_err _ ts (S i) st) by lia. cbn [bind]. destruct (gauge_left_spec R L _ _ _ _ _ _ _ _ _ G (W (S i) Hi)) as (u' & Eu & _). rewrite Eu. cbn [bind]. eauto.
Qed.
Lemma right_sweep_some : forall m ts ds e, (m < n)%nat -> inv ts ds m -> exists r, foldM (svd_right_step R L K sqrtK emb svd big o) (ts, e) (rev (seq 1 m)) = Some r.
Proof.
  induction m as [|m IH]; intros ts ds e Hm V; [exists (ts, e); reflexivity|]. rewrite seq_S, rev_app_distr. cbn [rev app foldM Nat.add].
  destruct (right_step_some ts ds m e ltac:(lia) (proj1 V)) as [[t1 e1] E1]. rewrite E1. cbn [bind].
  destruct (right_step_ok ts ds m e t1 e1 ltac:(lia) V E1) as (dn & err & _ & _ & _ & _ & V1 & _). apply (IH t1 _ e1 ltac:(lia) V1).
Qed.
Lemma left_sweep_some : forall m i ts ds e, (i + m < n)%nat -> inv ts ds i -> exists r, foldM (svd_left_step R L K sqrtK emb svd big o) (ts, e) (seq i m) = Some r.
Proof.
  induction m as [|m IH]; intros i ts ds e Hm V; [exists (ts, e); reflexivity|]. cbn [seq foldM].
  destruct (left_step_some ts ds i e ltac:(lia) (proj1 V)) as [[t1 e1] E1]. rewrite E1. cbn [bind].
  destruct (left_step_ok ts ds i e t1 e1 ltac:(lia) V E1) as (dn & err & _ & _ & _ & _ & V1 & _). apply (IH (S i) t1 _ e1 ltac:(lia) V1).
Qed.
End Sweeps.
