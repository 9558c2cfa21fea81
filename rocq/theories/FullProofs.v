(** Operators made of tables act on states: the sparse tensors of a list of tables, and their product with a state. *)
From Coq Require Import ZArith Bool List Lia Ring.
From Verif Require Import SymModel SymProofs DictLib IndexLib OptLib RingLib FuseModel FuseProofs BlockProofs MpsModel MpsChain MpsProofs MpsDot MpsProps MpoModel MpoMul MpoProps SiteModel SiteProofs QcModel QcSite QcChain TosModel TosProofs TosProps FullModel FullOps FullChain.
Import ListNotations.
Open Scope Z_scope.

Section Proofs.
Variable R : CRing.
Add Ring Rr : (rth R).
Notation "0'" := (r0 R). Notation "1'" := (r1 R).
Infix "+'" := (radd R) (at level 50, left associativity).
Infix "*'" := (rmul R) (at level 40, left associativity).
Variable K : Type.
Variable keqb : K -> K -> bool.
Variable orb : Z -> Z.
Notation stab := (stab R K).
Notation yrows := (yrows R K). Notation ycols := (ycols R K).
Notation fit_tab := (fit_tab R K keqb).
Notation good := (good R K keqb orb).
Notation ents := (ents R K keqb).
Notation site := (MpsModel.site R L).

(** *** the tensors of a list of tables *)
Fixpoint linked (i : Z) (c : list L) (ys : list stab) : Prop :=
  match ys with [] => c = [sz_zero] | y :: ys' => fit_tab (orb i) y /\ yrows y = map sz_neg c /\ linked (i + 1) (ycols y) ys' end.
Lemma to_sparse_good : forall ys zs c dq, charge_of L dq = sz_zero -> good zs c -> linked (Z.of_nat (length zs)) c ys ->
  exists ss, mapM (fun p : nat * stab => tab_sparse R K keqb (if Nat.eqb (fst p) 0 then None else dq) (snd p)) (combine (seq (length zs) (length ys)) ys) = Some ss /\
  length ss = length ys /\ good (zs ++ combine ys ss) [sz_zero].
Proof.
  induction ys as [|y ys IH]; intros zs c dq D G H.
  - cbn [linked] in H. subst c. exists []. cbn. rewrite app_nil_r. auto.
  - destruct H as (F & E & H). destruct (site_sparse R K keqb (orb (Z.of_nat (length zs))) y (if Nat.eqb (length zs) 0 then None else dq) F) as (s & Es & W & O & V & Z0); [destruct (Nat.eqb (length zs) 0); [reflexivity|exact D]|].
    assert (G' : good (zs ++ [(y, s)]) (ycols y)).
    { apply (good_snoc R K keqb orb zs c y s G F); [|exact E]. split; [exact W|]. split; [exact O|]. split; [|exact Z0]. intros x' x j k Hj Hk sl. now apply V. }
    destruct (IH (zs ++ [(y, s)]) (ycols y) dq D G') as (ss & Ess & Ls & Gs).
    { rewrite app_length. cbn [length]. replace (Z.of_nat (length zs + 1)) with (Z.of_nat (length zs) + 1) by lia. exact H. }
    exists (s :: ss). cbn [length seq combine mapM fst snd]. rewrite Es. cbn [bind]. rewrite app_length in Ess. cbn [length] in Ess. rewrite Nat.add_1_r in Ess. rewrite Ess. cbn [bind]. split; [reflexivity|]. split; [cbn; lia|].
    rewrite <- app_assoc in Gs. exact Gs.
Qed.

(** *** what the product needs *)
Definition dims (zs : list (stab * site)) : list (L -> Z) := (fun q => times L (sz_neg q) [sz_zero]) :: map (fun z => fun q : L => times L q (ycols (fst z))) zs.
Lemma wf_snoc : forall ts ds shp n dp dr (t : site), wf_sites ds shp ts -> wf_site n (last ds zf) dp dr t -> wf_sites (ds ++ [dr]) (shp ++ [(n, dp)]) (ts ++ [t]).
Proof.
  induction ts as [|u ts IH]; intros ds shp n dp dr t W Wt.
  - destruct W as [-> Ld]. destruct ds as [|d [|]]; try discriminate. cbn in *. auto.
  - destruct shp as [|[m dm] shp]; [destruct W|]. destruct ds as [|dl ds]; [destruct W|]. destruct W as [Wu W]. cbn [app wf_sites]. destruct ds as [|d2 ds].
    { exfalso. destruct ts as [|v ts]; [destruct W; discriminate|]. destruct shp as [|[]]; destruct W. }
    split; [exact Wu|]. apply (IH (d2 :: ds)); auto.
Qed.
Lemma neg_times : forall q c, times L (sz_neg q) (map sz_neg c) = times L q c.
Proof.
  intros q c. unfold times. f_equal. induction c as [|x l IH]; [reflexivity|]. cbn [map filter].
  assert (E : qeqb L (sz_neg q) (sz_neg x) = qeqb L q x). { change (qeqb L) with sz_eqb. destruct (sz_eqb_spec q x) as [E0|N], (sz_eqb_spec (sz_neg q) (sz_neg x)) as [E|E]; try congruence. elim N. destruct q, x. unfold sz_neg in E. cbn in E. injection E as E1 E2 E3. f_equal; lia. }
  rewrite E. destruct (qeqb L q x); cbn [length]; now rewrite IH.
Qed.
Lemma wf_site_ext : forall n dl dl' dp dr (s : site), (forall q, dl q = dl' q) -> wf_site n dl dp dr s -> wf_site n dl' dp dr s.
Proof.
  intros n dl dl' dp dr s E [N W]. split; [exact N|]. intros odd. destruct (W odd) as (A & B & C). split; [|auto]. intros b I. destruct (A b I) as [X Y]. split; [exact X|]. rewrite Y. unfold shape_of. apply map_ext. intros [i q]. cbn [fst snd]. unfold ldim. destruct (i =? 0); auto.
Qed.
Lemma last_dims : forall zs c, good zs c -> forall q, last (dims zs) zf q = times L q c.
Proof.
  intros zs c G q. destruct G as [|zs c y s G F Ok E].
  - cbn [dims map last]. exact (neg_times q [sz_zero]).
  - unfold dims. rewrite map_app. cbn [map fst]. rewrite app_comm_cons, last_last. reflexivity.
Qed.
Lemma good_wf : forall zs c, good zs c -> wf_sites (dims zs) (repeat (4, dim1) (length zs)) (map snd zs) /\ Forall operator_site (map snd zs).
Proof.
  intros zs c G. induction G as [|zs c y s G IH F Ok E]; [cbn; auto|]. destruct IH as [W O]. destruct Ok as (Ws & Os & _ & _). rewrite map_app, app_length. cbn [map length snd]. rewrite repeat_app. cbn [repeat]. split; [|apply Forall_app; auto].
  unfold dims. rewrite map_app. cbn [map fst]. rewrite app_comm_cons. apply wf_snoc; [exact W|]. eapply wf_site_ext; [|exact Ws]. intros q. cbv beta. rewrite E, neg_times. symmetry. exact (last_dims zs c G q).
Qed.
Lemma times_vac : forall q : L, 0 < times L q [sz_zero] -> q = sz_zero.
Proof. intros q H. unfold times in H. cbn [filter] in H. destruct (qeqb_spec L q sz_zero); [assumption|cbn in H; lia]. Qed.
Lemma neg_zero : forall q, sz_neg q = sz_zero -> q = sz_zero.
Proof. intros [a b p] E. unfold sz_neg, sz_zero in *. cbn in E. injection E as E1 E2 E3. f_equal; lia. Qed.
Lemma good_vacuum : forall zs, good zs [sz_zero] -> zs <> [] -> vacuum_ends R L (map snd zs) (dims zs).
Proof.
  intros zs G N. destruct (good_wf zs _ G) as [W _]. split; [|split; [|split; [reflexivity|]]].
  - destruct zs as [|z zs]; [congruence|]. cbn [map first_site hd]. destruct W as [Ws _]. apply Forall_forall. intros q I. apply neg_zero, times_vac. exact (firsts_block R L _ _ _ _ _ q Ws I).
  - inversion G as [E1 E2|zs' c y s G' F Ok E E1 E2]; [congruence|]. destruct Ok as (Ws & _). subst zs. rewrite map_app. cbn [map snd]. unfold last_site. rewrite last_last. apply Forall_forall. intros q I. apply times_vac. rewrite <- E2. exact (lasts_block R L _ _ _ _ _ q Ws I).
  - rewrite (last_dims zs _ G). reflexivity.
Qed.
Lemma cst_nodup : forall c, NoDup (cstates c).
Proof.
  intros c. unfold cstates. assert (H : forall l, NoDup l -> (forall j, In j l -> (j < length c)%nat) -> NoDup (map (col_state L c) l)).
  { induction l as [|x l IH]; intros N B; [constructor|]. inversion N as [|? ? Nx N']; subst. cbn [map]. constructor; [|apply IH; [exact N'|intros; apply B; now right]]. intros I. apply in_map_iff in I. destruct I as (z & E & I). apply col_inj in E; [subst; contradiction|apply B; now right|apply B; now left]. }
  apply H; [apply seq_NoDup|]. intros j I. apply in_seq in I. lia.
Qed.
Lemma cover_snoc : forall fs Bs B (f g : bool * list state -> state -> state -> R), bonds_cover R _ _ Bs (fs ++ [f]) -> NoDup B -> (forall p l m, ~ In m B -> f p l m = 0') -> length Bs = length fs -> bonds_cover R _ _ (Bs ++ [B]) ((fs ++ [f]) ++ [g]).
Proof.
  induction fs as [|h fs IH]; intros Bs B f g C N Z0 Lb.
  - destruct Bs; [|discriminate]. cbn. auto.
  - destruct Bs as [|B0 Bs]; [discriminate|]. cbn [app] in *. assert (X : forall k, exists k', (fs ++ [k]) = hd k (fs ++ [k]) :: k') by (intros k; destruct fs as [|a fs]; [exists []; reflexivity|exists (fs ++ [k]); reflexivity]).
    assert (C' : NoDup B0 /\ (forall p l m, ~ In m B0 -> h p l m = 0') /\ bonds_cover R _ _ Bs (fs ++ [f])). { destruct (X f) as [k' Ek]. cbn [bonds_cover] in C. rewrite Ek in C. rewrite Ek. exact C. }
    destruct C' as (C1 & C2 & C3). assert (D := IH Bs B f g C3 N Z0 ltac:(now injection Lb)). destruct (X f) as [k' Ek]. cbn [bonds_cover]. rewrite Ek in *. cbn [app]. split; [exact C1|]. split; [exact C2|]. exact D.
Qed.
Lemma good_cover : forall zs c, good zs c -> zs <> [] -> bonds (bnds R K zs) (map snd zs).
Proof.
  intros zs c G. induction G as [|zs c y s G IH F Ok E]; intros N; [congruence|]. destruct G as [|zs c y0 s0 G F0 Ok0 E0].
  - exact I.
  - specialize (IH ltac:(destruct zs; discriminate)). unfold bonds in *. rewrite !map_app in *. cbn [map snd] in *. assert (B : bnds R K ((zs ++ [(y0, s0)]) ++ [(y, s)]) = bnds R K (zs ++ [(y0, s0)]) ++ [cstates (ycols y0)]).
    { unfold bnds. rewrite !map_app. cbn [map fst]. now rewrite !removelast_last. }
    rewrite B. apply cover_snoc; [exact IH|apply cst_nodup| |].
    + intros [o ps] l m Nm. destruct Ok0 as (_ & _ & _ & Z0). apply Z0. right. intros k Hk X. subst m. apply Nm. unfold cstates. apply in_map, in_seq. change (Q L) with SZ in *. lia.
    + unfold bnds. rewrite map_app. cbn [map]. rewrite removelast_last, !map_length. reflexivity.
Qed.

(** *** the product with a state *)
Fixpoint dstates (b : list Z) : list (list state) := match b with [] => [] | x :: s => dstates s ++ [[((state_lab (orb (Z.of_nat (length s))) x : L), 0)]] end.
Definition site_states (m : Z) : list (list state) := map (fun x => [((state_lab (orb m) x : L), 0)]) st4.
Definition all_sites (n : nat) : list (list (list state)) := map site_states (zrange (Z.of_nat n)).
Lemma zrange_S : forall n, zrange (Z.of_nat (S n)) = zrange (Z.of_nat n) ++ [Z.of_nat n].
Proof. intros n. unfold zrange. rewrite !Nat2Z.id, seq_S, map_app. reflexivity. Qed.
Lemma states_len : forall n b, In b (states n) -> length b = n.
Proof. induction n as [|n IH]; intros b I; [destruct I as [<-|[]]; reflexivity|]. cbn [states] in I. apply in_flat_map in I. destruct I as (x & _ & I). apply in_map_iff in I. destruct I as (s & <- & I). cbn. f_equal. auto. Qed.
Lemma choices_states : forall n (F : list (list state) -> R), bsum (choices (all_sites n)) F = bsum (states n) (fun b => F (dstates b)).
Proof.
  induction n as [|n IH]; intros F; [reflexivity|]. unfold all_sites. rewrite zrange_S, map_app. cbn [map]. rewrite choices_snoc. fold (all_sites n). rewrite bsum_states_S. unfold site_states. rewrite bsum_map. apply bsum_ext. intros x _. rewrite IH. apply bsum_ext. intros b I. cbn [dstates]. now rewrite (states_len n b I).
Qed.
Lemma choices_prod : forall (A B : Type) (O : list A) (Ps : list (list B)) (F : list (A * B) -> R), bsum (choices (map (list_prod O) Ps)) F = bsum (choices Ps) (fun ps => bsum (choices (repeat O (length Ps))) (fun os => F (combine os ps))).
Proof.
  intros A B O Ps. induction Ps as [|P Ps IH]; intros F.
  - cbn. ring.
  - cbn [map choices length repeat]. rewrite !bsum_flat_map. rewrite bsum_list_prod. rewrite (bsum_swap R). apply bsum_ext. intros p _. rewrite bsum_map.
    rewrite (bsum_ext R _ O _ (fun o => bsum (choices Ps) (fun ps => bsum (choices (repeat O (length Ps))) (fun os => F ((o, p) :: combine os ps))))) by (intros o _; now rewrite bsum_map, IH).
    rewrite (bsum_swap R). apply bsum_ext. intros ps _. rewrite bsum_flat_map. apply bsum_ext. intros o _. rewrite bsum_map. reflexivity.
Qed.
Lemma dst_len : forall b, length (dstates b) = length b.
Proof. induction b as [|x b IH]; [reflexivity|]. cbn [dstates]. rewrite app_length, IH. cbn. lia. Qed.
Lemma pps_combine : forall b' b, length b' = length b -> pps orb b' b = map (fun p => fst p ++ snd p) (combine (dstates b') (dstates b)).
Proof.
  induction b' as [|x' b' IH]; intros [|x b] H; try discriminate; [reflexivity|]. injection H as H. cbn [pps dstates]. rewrite combine_snoc by (rewrite !dst_len; exact H). rewrite map_app, IH by exact H. cbn [map fst snd]. rewrite H. reflexivity.
Qed.
Lemma pars_map : forall b, pars b = map (fun p => parity (map fst p)) (dstates b).
Proof. induction b as [|x b IH]; [reflexivity|]. cbn [pars dstates]. rewrite map_app, IH. cbn [map]. unfold parity. cbn [fold_right map fst]. change (qpar L) with sz_is_fermion. rewrite xorb_false_r, state_fer. reflexivity. Qed.
Lemma comb1 : forall (A B C : Type) (f : B -> C) (os : list A) (ps : list B), map (fun m : A * B => (fst m, f (snd m))) (combine os ps) = combine os (map f ps).
Proof. intros A B C f. induction os as [|o os IH]; intros [|p ps]; try reflexivity. cbn. f_equal. apply IH. Qed.
Lemma comb2 : forall (A B : Type) (us ps : list (list B)) (os : list A), map (fun um : list B * (A * list B) => (fst (snd um), fst um ++ snd (snd um))) (combine us (combine os ps)) = combine os (map (fun p => fst p ++ snd p) (combine us ps)).
Proof. intros A B. induction us as [|u us IH]; intros ps os; [destruct os; reflexivity|]. destruct os as [|o os]; [reflexivity|]. destruct ps as [|p ps]; [reflexivity|]. cbn. f_equal. apply IH. Qed.
Lemma comb3 : forall (A B : Type) (os : list A) (ps : list B), length os = length ps -> map (fun m : A * B => (false, snd m)) (combine os ps) = map (pair false) ps.
Proof. intros A B. induction os as [|o os IH]; intros [|p ps] H; try discriminate; [reflexivity|]. cbn. f_equal. apply IH. now injection H. Qed.
Lemma applied : forall zs psi Ba Bb b' s s', good zs [sz_zero] -> zs <> [] -> length b' = length zs -> bonds Ba (map snd zs) -> sz_is_fermion (fst s) = false ->
  apply_sum (map snd zs) psi (all_sites (length zs)) Ba Bb (dstates b') (q0 L, 0) s (q0 L, 0) s' =
  bsum (states (length zs)) (fun b => value R 0 (paths R orb (ttabs R K keqb zs)) b' b *' amplitude Bb psi (map (pair false) (dstates b)) s s').
Proof.
  intros zs psi Ba Bb b' s s' G N Lb Ca Ev. unfold apply_sum. rewrite choices_prod, choices_states. apply bsum_ext. intros b I. apply states_len in I.
  change 0 with (Z.of_nat 0) at 3. rewrite <- (chain_value R K keqb orb zs _ G b' b 0%nat Lb I) by (cbn; lia). unfold ssum. rewrite <- bsum_mulr. unfold all_sites. rewrite map_length, zrange_length, Nat2Z.id. apply bsum_ext. intros os Io. apply choices_len in Io. rewrite repeat_length in Io.
  rewrite (comb1 _ _ _ (fun p => parity (map fst p))), comb2, comb3 by (rewrite dst_len; lia). rewrite <- pars_map, <- pps_combine by lia. change (qpar L (fst s)) with (sz_is_fermion (fst s)). rewrite Ev.
  assert (X : chn R (bnds R K zs) (map (fun z => selem (snd z)) zs) (combine os (pps orb b' b)) vst (col_state L [sz_zero] 0) = amplitude Ba (map snd zs) (combine os (pps orb b' b)) (q0 L, 0) (q0 L, 0)).
  { unfold amplitude. rewrite map_map. destruct zs as [|z zs]; [congruence|]. unfold chn. cbn [map]. apply (chain_cover_indep R _ _ (MpsProofs.st_dec L)); [|unfold bonds in Ca; rewrite map_map in Ca; exact Ca]. pose proof (good_cover _ _ G N) as Cg. unfold bonds in Cg. rewrite map_map in Cg. exact Cg. }
  rewrite X. unfold signed. destruct (crossings false (combine os (pars b))); ring.
Qed.
Lemma acts_one : forall n, acts_on (repeat (1, 1) n) (repeat (4, dim1) n) (repeat (3, dim1) n) (repeat (3, dim1) n).
Proof. induction n as [|n IH]; [constructor|]. cbn [repeat]. apply (acts_cons L 1 1 dim1 dim1 dim1 _ _ _ _); [lia|lia|reflexivity|reflexivity|exact IH]. Qed.
Variable is0 : R -> bool.
Hypothesis is0_spec : forall x, is0 x = true <-> x = 0'.
Variable merge : (list site -> option (list site)) -> (list site -> option (list site)) -> (list site -> option (list site)).
Theorem apply_tables : forall zs const (psi : mps R L) db, good zs [sz_zero] -> (2 <= length zs)%nat ->
  wf_sites db (repeat (3, dim1) (length zs)) (m_tensors psi) -> Forall state_site (m_tensors psi) -> phys R L (repeat (3, dim1) (length zs)) (all_sites (length zs)) (m_tensors psi) ->
  fits32 (dims zs) db ->
  (exists ql qr, Forall (fun q => q = ql) (firsts (first_site (m_tensors psi))) /\ Forall (fun q => q = qr) (lasts (last_site (m_tensors psi)))) ->
  m_const psi = 0' -> m_opts psi = None ->
  exists res, mps_matmul R L is0 merge (Mps (map snd zs) const None) psi = Some res /\
  match res with
  | MulNum x => x = 0' /\ forall Bb b' s s', length b' = length zs -> bonds Bb (m_tensors psi) -> sz_is_fermion (fst s) = false ->
      bsum (states (length zs)) (fun b => value R 0 (paths R orb (ttabs R K keqb zs)) b' b *' amplitude Bb (m_tensors psi) (map (pair false) (dstates b)) s s') = 0'
  | MulMps c => m_const c = 0' /\ m_opts c = None /\ forall Bb Bc b' s s', length b' = length zs -> bonds Bb (m_tensors psi) -> bonds Bc (m_tensors c) -> sz_is_fermion (fst s) = false ->
      amplitude Bc (m_tensors c) (map (pair false) (dstates b')) s s' =
      bsum (states (length zs)) (fun b => value R 0 (paths R orb (ttabs R K keqb zs)) b' b *' amplitude Bb (m_tensors psi) (map (pair false) (dstates b)) s s') +'
      const *' amplitude Bb (m_tensors psi) (map (pair false) (dstates b')) s s'
  end.
Proof.
  intros zs const psi db G N2 Wb Sb Ph F32 Un Cb Ob. assert (Ne : zs <> []) by (intros ->; cbn in N2; lia). destruct (good_wf zs _ G) as [Wa Oa].
  destruct (c32_apply_constant R L is0 is0_spec merge (Mps (map snd zs) const None) psi (dims zs) db (repeat (4, dim1) (length zs)) (repeat (3, dim1) (length zs)) (repeat (1, 1) (length zs))) as (res & E & H); cbn [m_tensors m_const m_opts]; auto.
  - rewrite map_length. exact N2.
  - apply acts_one.
  - now apply good_vacuum.
  - cbn [m_tensors m_const] in H. assert (U : forall b', length b' = length zs -> Forall2 (fun h (u : list state) => Z.of_nat (length u) = fst h) (repeat (1, 1) (length zs)) (dstates b')).
    { intros b' <-. induction b' as [|x b' IH]; [constructor|]. cbn [length dstates]. cbn [repeat]. rewrite repeat_cons. apply Forall2_app; [exact IH|]. constructor; [reflexivity|constructor]. }
    exists res. split; [exact E|]. destruct res as [x|c].
    + destruct H as [H0 H]. split; [exact H0|]. intros Bb b' s s' Lb Cb' Ev. rewrite <- (applied zs (m_tensors psi) (bnds R K zs) Bb b' s s' G Ne Lb (good_cover _ _ G Ne) Ev). apply H; auto. exact (good_cover _ _ G Ne).
    + destruct H as (H0 & H1 & _ & H). split; [exact H0|]. split; [exact H1|]. intros Bb Bc b' s s' Lb Cb' Cc Ev. rewrite (H (all_sites (length zs)) (dstates b') (bnds R K zs) Bb Bc s s'); auto; [|exact (good_cover _ _ G Ne)].
      rewrite (applied zs (m_tensors psi) (bnds R K zs) Bb b' s s' G Ne Lb (good_cover _ _ G Ne) Ev). reflexivity.
Qed.
End Proofs.
