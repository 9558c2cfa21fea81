(** C32: products of matrix product operators with states and with operators (pyblock3/algebra/mps.py, MPS._matmul).
    Words: MpsProps (amplitude, bonds, wf_sites, phys, choices) and MpoMul (operator_site, state_site, acts_on, composes,
    fits32, joins, apply_sum, compose_sum, middle, vacuum_ends). *)
From Coq Require Import ZArith Bool List Lia Ring.
From Verif Require Import SymModel SymProofs DictLib IndexLib OptLib RingLib BondModel BondProofs FuseModel FuseProofs FuseProps BlockModel BlockProofs BlockProps StructModel MpsModel MpsChain MpsProofs MpsDot MpsProps MpoModel MpoDot MpoVert MpoFuse MpoChain MpoProofs MpoSite MpoMul.
Import ListNotations.
Open Scope Z_scope.

Section Thms.
Variable R : CRing.
Add Ring Rr13 : (rth R).
Variable L : Label.
Variable is0 : R -> bool.
Hypothesis is0_spec : forall x, is0 x = true <-> x = r0 R.
Variable merge : (list (site R L) -> option (list (site R L))) -> (list (site R L) -> option (list (site R L))) -> (list (site R L) -> option (list (site R L))).
Notation state := (L * Z)%type.
Notation mps := (mps R L).
Notation site := (site R L).
Notation matmul := (mps_matmul R L is0 merge).
Notation vac := (q0 L, 0).

Lemma ndim_cases : forall n dl dp dr (s : site), wf_site n dl dp dr s -> s_ndim R L s = 0 \/ s_ndim R L s = n.
Proof.
  intros n dl dp dr s W. destruct (blocks s) as [|b bs] eqn:E; [left|right; apply (s_ndim_wf R L n dl dp dr s W); congruence].
  unfold blocks in E. apply app_eq_nil in E. destruct s as [t|o e]; cbn [part] in E; destruct E as [-> ->] || destruct E as [_ ->]; reflexivity.
Qed.
Lemma odd0 : forall n m (x y : site), (s_ndim R L x = 0 \/ s_ndim R L x = n) -> (s_ndim R L y = 0 \/ s_ndim R L y = m) -> n <> 0 -> m <> 0 -> n <> m \/ Z.odd n = false -> same_odd_ndim R L x y = false.
Proof.
  intros n m x y [E0|E0] [E|E] Hn Hm H; unfold same_odd_ndim; rewrite E, E0; [reflexivity| | |]; match goal with |- context [?u =? ?v] => destruct (Z.eqb_spec u v) end; cbn [andb]; try reflexivity; try lia. destruct H; [congruence|assumption].
Qed.
Lemma matmul_eq : forall a b : mps, (2 <= length (m_tensors a))%nat -> length (m_tensors a) = length (m_tensors b) -> (forall x y xs ys, m_tensors a = x :: xs -> m_tensors b = y :: ys -> same_odd_ndim R L x y = false) -> m_opts a = None -> m_opts b = None ->
  matmul a b = do r <- mul_tensors R L (m_tensors a) (m_tensors b);
    match r with None => Some (MulNum (r0 R)) | Some ts => do r <- add_consts R L is0 a b (Mps ts (r0 R) None); Some (MulMps r) end.
Proof.
  intros a b L2 El So Oa Ob. unfold mps_matmul. destruct (Nat.eqb_spec (length (m_tensors b)) 1); [lia|]. destruct (Nat.eqb_spec (length (m_tensors a)) 1); [lia|]. rewrite El, Nat.eqb_refl. cbn [negb].
  destruct (m_tensors a) as [|x xs] eqn:Ea; [cbn in L2; lia|]. destruct (m_tensors b) as [|y ys] eqn:Eb; [discriminate|]. cbn [combine forallb fst snd]. rewrite (So x y xs ys eq_refl eq_refl). cbn [andb].
  unfold both_opts. rewrite Oa, Ob. destruct (mul_tensors R L (x :: xs) (y :: ys)) as [[ts|]|]; reflexivity.
Qed.
Lemma acts_matmul : forall (a b : mps) da db sa sb sc hs, (2 <= length (m_tensors a))%nat -> wf_sites da sa (m_tensors a) -> wf_sites db sb (m_tensors b) -> acts_on hs sa sb sc ->
  length (m_tensors a) = length (m_tensors b) /\ (forall x y xs ys, m_tensors a = x :: xs -> m_tensors b = y :: ys -> same_odd_ndim R L x y = false).
Proof.
  intros a b da db sa sb sc hs _ Wa Wb A. split.
  - revert Wa Wb. generalize (m_tensors a) (m_tensors b). clear a b. revert da db. induction A as [|u k d d' d'' hs sa sb sc Hu Hk D Dc A IH]; intros da db xs ys Wa Wb.
    + destruct xs; [|destruct Wa]. destruct ys; [reflexivity|destruct Wb].
    + destruct xs; [destruct Wa; discriminate|]. destruct ys; [destruct Wb; discriminate|]. destruct da; [destruct Wa|]. destruct db; [destruct Wb|]. destruct Wa as [_ Wa], Wb as [_ Wb]. cbn [length]. f_equal. eapply IH; eauto.
  - intros x y xs ys Ea Eb. rewrite Ea in Wa. rewrite Eb in Wb. destruct A as [|u k d d' d'' hs sa sb sc Hu Hk D Dc A]; [destruct Wa|]. destruct da; [destruct Wa|]. destruct db; [destruct Wb|]. destruct Wa as [Wx _], Wb as [Wy _].
    apply (odd0 (u + k + 2) (k + 2)); [eapply ndim_cases; eauto|eapply ndim_cases; eauto|lia|lia|left; lia].
Qed.
Lemma comp_matmul : forall (a b : mps) da db sa sb sc hs, (2 <= length (m_tensors a))%nat -> wf_sites da sa (m_tensors a) -> wf_sites db sb (m_tensors b) -> composes hs sa sb sc ->
  length (m_tensors a) = length (m_tensors b) /\ (forall x y xs ys, m_tensors a = x :: xs -> m_tensors b = y :: ys -> same_odd_ndim R L x y = false).
Proof.
  intros a b da db sa sb sc hs _ Wa Wb A. split.
  - revert Wa Wb. generalize (m_tensors a) (m_tensors b). clear a b. revert da db. induction A as [|k d d' d'' hs sa sb sc Hk D Dc A IH]; intros da db xs ys Wa Wb.
    + destruct xs; [|destruct Wa]. destruct ys; [reflexivity|destruct Wb].
    + destruct xs; [destruct Wa; discriminate|]. destruct ys; [destruct Wb; discriminate|]. destruct da; [destruct Wa|]. destruct db; [destruct Wb|]. destruct Wa as [_ Wa], Wb as [_ Wb]. cbn [length]. f_equal. eapply IH; eauto.
  - intros x y xs ys Ea Eb. rewrite Ea in Wa. rewrite Eb in Wb. destruct A as [|k d d' d'' hs sa sb sc Hk D Dc A]; [destruct Wa|]. destruct da; [destruct Wa|]. destruct db; [destruct Wb|]. destruct Wa as [Wx _], Wb as [Wy _].
    apply (odd0 (2 * k + 2) (2 * k + 2)); [eapply ndim_cases; eauto|eapply ndim_cases; eauto|lia|lia|right]. replace (2 * k + 2) with (2 * (k + 1)) by lia. now rewrite Z.odd_mul.
Qed.

(** *** operator @ state, without constant terms *)
Theorem c32_apply :
  forall (a b : mps) da db sa sb sc hs, (2 <= length (m_tensors a))%nat -> wf_sites da sa (m_tensors a) -> wf_sites db sb (m_tensors b) -> acts_on hs sa sb sc ->
  Forall operator_site (m_tensors a) -> Forall state_site (m_tensors b) -> fits32 da db -> m_const a = r0 R -> m_const b = r0 R -> m_opts a = None -> m_opts b = None ->
  exists res, matmul a b = Some res /\
  match res with
  | MulNum x => x = r0 R /\ forall Ps us Ba Bb l l' r r', phys R L sb Ps (m_tensors b) -> Forall2 (fun h (u : list state) => Z.of_nat (length u) = fst h) hs us -> bonds Ba (m_tensors a) -> bonds Bb (m_tensors b) ->
      apply_sum (m_tensors a) (m_tensors b) Ps Ba Bb us l l' r r' = r0 R
  | MulMps c => m_const c = r0 R /\ m_opts c = None /\ Forall state_site (m_tensors c) /\ exists dc kl kr, wf_sites dc sc (m_tensors c) /\ joins kl /\ joins kr /\
      (forall Ps us Ba Bb Bc l l' r r', phys R L sb Ps (m_tensors b) -> Forall2 (fun h (u : list state) => Z.of_nat (length u) = fst h) hs us -> bonds Ba (m_tensors a) -> bonds Bb (m_tensors b) -> bonds Bc (m_tensors c) ->
       amplitude Bc (m_tensors c) (map (pair false) us) (kl l l') (kr r r') = apply_sum (m_tensors a) (m_tensors b) Ps Ba Bb us l l' r r') /\
      (forall Bc ps s s', (forall l l', 0 <= snd s -> kl l l' <> s) \/ (forall r r', 0 <= snd s' -> kr r r' <> s') -> amplitude Bc (m_tensors c) ps s s' = r0 R)
  end.
Proof.
  intros a b da db sa sb sc hs L2 Wa Wb A Oa Ob F32 Ca Cb Pa Pb. destruct (acts_matmul a b da db sa sb sc hs L2 Wa Wb A) as [El So]. rewrite (matmul_eq a b L2 El So Pa Pb).
  assert (Ne: m_tensors a <> []) by (intros X; rewrite X in L2; cbn in L2; lia).
  destruct (apply_tensors R L _ _ da db sa sb sc hs Ne Wa Wb A Oa Ob F32) as (res & E & H). rewrite E. cbn [bind]. destruct res as [c|].
  - unfold add_consts. rewrite (proj2 (is0_spec _) Ca), (proj2 (is0_spec _) Cb). cbn [bind]. exists (MulMps (Mps c (r0 R) None)). split; [reflexivity|]. cbn [m_const m_opts m_tensors].
    destruct H as (dc & kl & kr & Wc & Sc & Jl & Jr & _ & Y & Z0 & Am). split; [reflexivity|]. split; [reflexivity|]. split; [exact Sc|]. exists dc, kl, kr. split; [exact Wc|]. split; [exact Jl|]. split; [exact Jr|]. split; [exact Am|].
    intros Bc ps s s' [H|H]; [now apply Y|now apply Z0].
  - exists (MulNum (r0 R)). split; [reflexivity|]. split; [reflexivity|exact H].
Qed.

(* an operator with vacuum ends, constant term c times the identity: (A + c) psi *)
Theorem c32_apply_constant :
  forall (a b : mps) da db sa sb hs, (2 <= length (m_tensors a))%nat -> wf_sites da sa (m_tensors a) -> wf_sites db sb (m_tensors b) -> acts_on hs sa sb sb ->
  Forall operator_site (m_tensors a) -> Forall state_site (m_tensors b) -> fits32 da db -> vacuum_ends R L (m_tensors a) da ->
  (exists ql qr, Forall (fun q => q = ql) (firsts (first_site (m_tensors b))) /\ Forall (fun q => q = qr) (lasts (last_site (m_tensors b)))) ->
  m_const b = r0 R -> m_opts a = None -> m_opts b = None ->
  exists res, matmul a b = Some res /\
  match res with
  | MulNum x => x = r0 R /\ forall Ps us Ba Bb s s', phys R L sb Ps (m_tensors b) -> Forall2 (fun h (u : list state) => Z.of_nat (length u) = fst h) hs us -> bonds Ba (m_tensors a) -> bonds Bb (m_tensors b) ->
      apply_sum (m_tensors a) (m_tensors b) Ps Ba Bb us vac s vac s' = r0 R
  | MulMps c => m_const c = r0 R /\ m_opts c = None /\ (exists dc, wf_sites dc sb (m_tensors c)) /\
      forall Ps us Ba Bb Bc s s', phys R L sb Ps (m_tensors b) -> Forall2 (fun h (u : list state) => Z.of_nat (length u) = fst h) hs us -> bonds Ba (m_tensors a) -> bonds Bb (m_tensors b) -> bonds Bc (m_tensors c) ->
      amplitude Bc (m_tensors c) (map (pair false) us) s s' =
        radd R (apply_sum (m_tensors a) (m_tensors b) Ps Ba Bb us vac s vac s') (rmul R (m_const a) (amplitude Bb (m_tensors b) (map (pair false) us) s s'))
  end.
Proof.
  intros a b da db sa sb hs L2 Wa Wb A Oa Ob F32 V (ql & qr & Fl & Fr) Cb Pa Pb. destruct (acts_matmul a b da db sa sb sb hs L2 Wa Wb A) as [El So]. rewrite (matmul_eq a b L2 El So Pa Pb).
  assert (Ne: m_tensors a <> []) by (intros X; rewrite X in L2; cbn in L2; lia). assert (Neb: m_tensors b <> []) by (intros X; rewrite X in El; cbn in El; lia).
  destruct (apply_tensors R L _ _ da db sa sb sb hs Ne Wa Wb A Oa Ob F32) as (res & E & H). rewrite E. cbn [bind]. destruct res as [c|].
  2: { exists (MulNum (r0 R)). split; [reflexivity|]. split; [reflexivity|]. intros. now apply H. }
  destruct H as (dc & kl & kr & Wc & Sc & Jl & Jr & Inf & Y & Z0 & Am).
  assert (Av: forall Ps us Ba Bb Bc s s', phys R L sb Ps (m_tensors b) -> Forall2 (fun h (u : list state) => Z.of_nat (length u) = fst h) hs us -> bonds Ba (m_tensors a) -> bonds Bb (m_tensors b) -> bonds Bc c ->
      amplitude Bc c (map (pair false) us) s s' = apply_sum (m_tensors a) (m_tensors b) Ps Ba Bb us vac s vac s').
  { intros Ps us Ba Bb Bc s s' Ph Fu Ba' Bb' Bc'. apply (vacuum_amplitude R L (m_tensors a) (m_tensors b) c da db dc kl kr (fun s s' => apply_sum (m_tensors a) (m_tensors b) Ps Ba Bb us vac s vac s') Bc (map (pair false) us) Inf Y Z0 V F32 (wf_ds R L _ _ _ Wa)). intros. now apply Am. }
  unfold add_consts. rewrite (proj2 (is0_spec _) Cb). destruct (is0 (m_const a)) eqn:E0.
  - apply is0_spec in E0. cbn [bind]. exists (MulMps (Mps c (r0 R) None)). split; [reflexivity|]. cbn [m_const m_opts m_tensors]. split; [reflexivity|]. split; [reflexivity|]. split; [eauto|]. intros. rewrite (Av Ps us Ba Bb Bc) by auto. rewrite E0. ring.
  - destruct (c32_scale R L (m_const a) b db sb Neb Wb) as (y & Ey & Cy & Py & Wy & Ky & Ay). rewrite Ey. cbn [bind].
    destruct Inf as (li0 & li1 & ri0 & ri1 & _ & _ & FL0 & FL1 & FR0 & FR1 & Hd & Hl). destruct V as (V1 & V2 & V3 & V4). destruct (small_ends L da db F32 (wf_ds R L _ _ _ Wa)) as [SL SR].
    assert (DL: forall q, In q (firsts (first_site (m_tensors b))) -> hd (fun _ => 0) db q = hd (fun _ => 0) dc q).
    { intros q Hq. rewrite Hd. pose proof (vac_dim L li0 li1 q (proj1 (proj1 FL0)) (proj1 (proj1 FL1)) (full_small L _ _ _ _ _ _ FL0 FL1 SL) (full_vacuum L _ _ _ FL0 V1 V3)) as D.
      rewrite Forall_forall in Fl. destruct FL1 as (G1 & I1 & (q1 & H1 & E1)). assert (q1 = q) by (rewrite (Fl _ Hq); apply Fl; exact H1). subst q1.
      assert (P: 0 < hd (fun _ => 0) db q). { unfold first_site in Hq. destruct (m_tensors b) as [|t ts]; [congruence|]. destruct sb as [|[n dp] sb]; [destruct Wb|]. destruct db as [|d0 db]; [destruct Wb|]. destruct Wb as [Wt _]. exact (firsts_block R L n _ _ _ t q Wt Hq). }
      rewrite <- E1 in P |- *. pose proof (D (bget L li1 q - 1)). pose proof (D (bget L li1 q)). lia. }
    assert (DR: forall q, In q (lasts (last_site (m_tensors b))) -> last db (fun _ => 0) q = last dc (fun _ => 0) q).
    { intros q Hq. rewrite Hl. pose proof (vac_dim L ri0 ri1 q (proj1 (proj1 FR0)) (proj1 (proj1 FR1)) (full_small L _ _ _ _ _ _ FR0 FR1 SR) (full_vacuum L _ _ _ FR0 V2 V4)) as D.
      rewrite Forall_forall in Fr. destruct FR1 as (G1 & I1 & (q1 & H1 & E1)). assert (q1 = q) by (rewrite (Fr _ Hq); apply Fr; exact H1). subst q1.
      assert (P: 0 < last db (fun _ => 0) q). { destruct (MpsProofs.last_site R L (m_tensors b) Neb) as (ts' & t & Et & Elast). unfold last_site in Hq. rewrite Elast in Hq. rewrite Et in Wb. apply wf_sites_last in Wb. destruct Wb as (n & dl & dp & Wt). exact (lasts_block R L n _ _ _ t q Wt Hq). }
      rewrite <- E1 in P |- *. pose proof (D (bget L ri1 q - 1)). pose proof (D (bget L ri1 q)). lia. }
    assert (Neb': forall y', mps_scale R L (m_const a) b = Some y' -> firsts (first_site (m_tensors y')) = firsts (first_site (m_tensors b)) /\ lasts (last_site (m_tensors y')) = lasts (last_site (m_tensors b)) /\ m_tensors y' <> []).
    { intros y' Ey'. destruct b as [[|t ts] k o]; [now destruct Neb|]. unfold mps_scale, on_first in Ey'. cbn [m_tensors] in Ey'. injection Ey' as <-. cbn [m_tensors]. destruct (kinds_blocks R L (fun x => rmul R (m_const a) x) t) as (K1 & K2 & _). unfold first_site, last_site. cbn [hd]. split; [exact K1|]. split; [|discriminate]. destruct ts; cbn [last]; [exact K2|reflexivity]. }
    destruct (Neb' y Ey) as (Fy & Ly & Ney).
    destruct (wf_sites_ends R L (m_tensors y) db sb (hd (fun _ => 0) dc) (last dc (fun _ => 0)) Ney Wy) as (db' & Wy' & Hd' & Hl').
    { intros q Hq. apply DL. rewrite <- Fy. exact Hq. } { intros q Hq. apply DR. rewrite <- Ly. exact Hq. }
    assert (Ncne: c <> []) by (intros ->; destruct sb as [|[? ?] sb]; [|destruct Wc; discriminate]; destruct (m_tensors b); [congruence|destruct Wb]).
    destruct (c32_sum R L (Mps c (r0 R) None) y dc db' sb) as (z & dz & Ez & Cz & Wz & Kz & Sz & Az); cbn [m_tensors m_opts m_const]; auto.
    { assert (Lc: length c = length (m_tensors y)). { clear - Wc Wy. revert Wc Wy. generalize c (m_tensors y). clear. revert dc db. induction sb as [|[n dp] sb IH]; intros dc db xs ys W1 W2; destruct xs; destruct ys; try (destruct W1; discriminate); try (destruct W2; discriminate); try destruct W1; try destruct W2; try reflexivity; destruct dc, db; try contradiction. destruct W1, W2. cbn [length]. f_equal. eapply IH; eauto. }
      assert (Sy: Forall (fun s : site => kind s = false) (m_tensors y)). { apply (forall2_kind R L (m_tensors b) (m_tensors y) Ky false). eapply Forall_impl; [|exact Ob]. intros s Hs; apply Hs. }
      clear - Lc Sc Sy. revert Lc Sc Sy. generalize c (m_tensors y). induction c0 as [|x xs IH]; intros [|y0 ys] Ll S1 S2; try discriminate; constructor; inversion S1 as [|? ? [K1 _] S1']; inversion S2; subst; [congruence|apply IH; auto]. }
    { intros q. unfold zf. rewrite Hd', Hl'. split; reflexivity. }
    { intros _ Nall. split.
      - assert (N0: blocks (first_site c) <> []) by (apply Nall, in_app_iff; left; unfold first_site; destruct c; [congruence|now left]).
        rewrite Fy. intros q Hq. rewrite Forall_forall in Fl. rewrite (Fl q Hq). unfold first_site in *. destruct c as [|t ts]; [congruence|]. cbn [hd] in *. destruct (blocks t) as [|b0 bs] eqn:Eb; [congruence|].
        assert (Hi: In (nth 0 (fst b0) (q0 L)) (firsts t)) by (unfold firsts; rewrite Eb; now left). destruct sb as [|[n dp] sb]; [destruct Wc|]. destruct dc as [|d0 dc]; [destruct Wc|]. destruct Wc as [Wt _]. pose proof (firsts_block R L n _ _ _ t _ Wt Hi) as P. cbn [hd] in Hd. rewrite Hd in P.
        pose proof (proj1 (vac_dim L li0 li1 (nth 0 (fst b0) (q0 L)) (proj1 (proj1 FL0)) (proj1 (proj1 FL1)) (full_small L _ _ _ _ _ _ FL0 FL1 SL) (full_vacuum L _ _ _ FL0 V1 V3) 0) (conj (Z.le_refl 0) P)) as D. destruct FL1 as (_ & I1 & _). rewrite <- (Fl (nth 0 (fst b0) (q0 L))); [exact Hi|]. apply I1. lia.
      - destruct (MpsProofs.last_site R L c Ncne) as (ts' & t & Et & Elast). assert (N0: blocks t <> []) by (apply Nall, in_app_iff; left; rewrite Et; apply in_app_iff; right; now left).
        rewrite Ly. intros q Hq. rewrite Forall_forall in Fr. rewrite (Fr q Hq). unfold last_site. rewrite Elast. destruct (blocks t) as [|b0 bs] eqn:Eb; [congruence|].
        assert (Hi: In (last (fst b0) (q0 L)) (lasts t)) by (unfold lasts; rewrite Eb; now left). rewrite Et in Wc. apply wf_sites_last in Wc. destruct Wc as (n & dl & dp & Wt). pose proof (lasts_block R L n _ _ _ t _ Wt Hi) as P. rewrite Hl in P.
        pose proof (proj1 (vac_dim L ri0 ri1 (last (fst b0) (q0 L)) (proj1 (proj1 FR0)) (proj1 (proj1 FR1)) (full_small L _ _ _ _ _ _ FR0 FR1 SR) (full_vacuum L _ _ _ FR0 V2 V4) 0) (conj (Z.le_refl 0) P)) as D. destruct FR1 as (_ & I1 & _). rewrite <- (Fr (last (fst b0) (q0 L))); [exact Hi|]. apply I1. lia. }
    rewrite Ez. cbn [bind]. exists (MulMps z). split; [reflexivity|]. split; [rewrite Cz, Cy, Cb; cbn [m_const]; ring|]. split.
    { unfold mps_add in Ez. cbn [m_tensors m_opts] in Ez. destruct (add_tensors R L c (m_tensors y)); [|discriminate]. cbn [bind] in Ez. injection Ez as <-. reflexivity. }
    split; [eauto|]. intros Ps us Ba Bb Bc s s' Ph Fu Ca' Cb' Cc'.
    destruct (c32_bond_states R L c dc sb Ncne Wc) as [(Bx & Hx) _]. cbn [m_tensors] in Az.
    assert (Cy': bonds Bb (m_tensors y)). { destruct b as [[|t ts] k o]; [now destruct Neb|]. unfold mps_scale, on_first in Ey. cbn [m_tensors] in *. injection Ey as <-. cbn [m_tensors] in *. apply (bonds_first R L t); [|exact Cb'].
      intros p l r Z1. destruct sb as [|[n dp] sb]; [destruct Wb|]. destruct db as [|d0 db]; [destruct Wb|]. destruct Wb as [Wt _]. destruct (site_map R L n _ _ _ (fun x => rmul R (m_const a) x) t ltac:(cbv beta; ring) Wt) as (_ & _ & S). rewrite S, Z1. ring. }
    rewrite (Az Bx Bb Bc); auto.
    + rewrite (Av Ps us Ba Bb Bx) by auto. now rewrite Ay.
    + rewrite map_length. assert (Lu: length us = length (m_tensors a)); [|]. 
      * clear - A Wa Fu. revert da us Wa Fu. generalize (m_tensors a). induction A as [|u k d d' d'' hs sa sb sc Hu Hk D Dc A IH]; intros xs da us Wa Fu; inversion Fu; subst; destruct xs; try (destruct Wa; discriminate); try destruct Wa; try reflexivity. destruct da; [contradiction|]. destruct Wa as [_ Wa]. cbn [length]. f_equal. eapply IH; eauto.
      * rewrite Lu, El. clear - Wb Wc. revert Wb Wc. generalize (m_tensors b). intros xs. revert c dc db xs. induction sb as [|[n dp] sb IH]; intros c dc db xs W1 W2; destruct c; destruct xs; try (destruct W1; discriminate); try (destruct W2; discriminate); try destruct W1; try destruct W2; try reflexivity; destruct dc, db; try contradiction. destruct W1, W2. cbn [length]. f_equal. eapply IH; eauto.
Qed.

(** *** operator @ operator *)
Theorem c32_compose :
  forall (a b : mps) da db sa sb sc hs, (2 <= length (m_tensors a))%nat -> wf_sites da sa (m_tensors a) -> wf_sites db sb (m_tensors b) -> composes hs sa sb sc ->
  Forall operator_site (m_tensors a) -> Forall operator_site (m_tensors b) -> fits32 da db -> m_const a = r0 R -> m_const b = r0 R -> m_opts a = None -> m_opts b = None ->
  exists res, matmul a b = Some res /\
  match res with
  | MulNum x => x = r0 R /\ forall ps Cs Ba Bb l l' r r', middle hs (m_tensors b) ps Cs -> bonds Ba (m_tensors a) -> bonds Bb (m_tensors b) -> compose_sum (m_tensors a) (m_tensors b) Cs Ba Bb ps l l' r r' = r0 R
  | MulMps c => m_const c = r0 R /\ m_opts c = None /\ Forall operator_site (m_tensors c) /\ exists dc kl kr, wf_sites dc sc (m_tensors c) /\ joins kl /\ joins kr /\
      (forall ps Cs Ba Bb Bc l l' r r', middle hs (m_tensors b) ps Cs -> bonds Ba (m_tensors a) -> bonds Bb (m_tensors b) -> bonds Bc (m_tensors c) ->
       amplitude Bc (m_tensors c) (map (fun p => (fst (fst p), snd (fst p) ++ snd p)) ps) (kl l l') (kr r r') = compose_sum (m_tensors a) (m_tensors b) Cs Ba Bb ps l l' r r') /\
      (forall Bc ps s s', (forall l l', 0 <= snd s -> kl l l' <> s) \/ (forall r r', 0 <= snd s' -> kr r r' <> s') -> amplitude Bc (m_tensors c) ps s s' = r0 R)
  end.
Proof.
  intros a b da db sa sb sc hs L2 Wa Wb A Oa Ob F32 Ca Cb Pa Pb. destruct (comp_matmul a b da db sa sb sc hs L2 Wa Wb A) as [El So]. rewrite (matmul_eq a b L2 El So Pa Pb).
  assert (Ne: m_tensors a <> []) by (intros X; rewrite X in L2; cbn in L2; lia).
  destruct (compose_tensors R L _ _ da db sa sb sc hs Ne Wa Wb A Oa Ob F32) as (res & E & H). rewrite E. cbn [bind]. destruct res as [c|].
  - unfold add_consts. rewrite (proj2 (is0_spec _) Ca), (proj2 (is0_spec _) Cb). cbn [bind]. exists (MulMps (Mps c (r0 R) None)). split; [reflexivity|]. cbn [m_const m_opts m_tensors].
    destruct H as (dc & kl & kr & Wc & Sc & Jl & Jr & _ & Y & Z0 & Am). split; [reflexivity|]. split; [reflexivity|]. split; [exact Sc|]. exists dc, kl, kr. split; [exact Wc|]. split; [exact Jl|]. split; [exact Jr|]. split; [exact Am|].
    intros Bc ps s s' [H|H]; [now apply Y|now apply Z0].
  - exists (MulNum (r0 R)). split; [reflexivity|]. split; [reflexivity|exact H].
Qed.

(* both ends carry one state of the vacuum label *)
Definition vacuum_dims (ds : list (L -> Z)) : Prop := forall q, hd zf ds q = (if qeqb L q (q0 L) then 1 else 0) /\ last ds zf q = (if qeqb L q (q0 L) then 1 else 0).
Lemma vac_firsts : forall (ts : list site) ds shp, ts <> [] -> wf_sites ds shp ts -> vacuum_dims ds -> (forall q, In q (firsts (first_site ts)) -> q = q0 L) /\ (forall q, In q (lasts (last_site ts)) -> q = q0 L).
Proof.
  intros ts ds shp Ne W V. split; intros q Hq.
  - unfold first_site in Hq. destruct ts as [|t ts]; [congruence|]. destruct shp as [|[n dp] shp]; [destruct W|]. destruct ds as [|d0 ds]; [destruct W|]. destruct W as [Wt _]. pose proof (firsts_block R L n _ _ _ t q Wt Hq) as P. destruct (V q) as [V1 _]. cbn [hd] in V1. rewrite V1 in P. destruct (qeqb_spec L q (q0 L)); [assumption|lia].
  - unfold last_site in Hq. destruct (MpsProofs.last_site R L ts Ne) as (ts' & t & Et & El). rewrite El in Hq. rewrite Et in W. apply wf_sites_last in W. destruct W as (n & dl & dp & Wt). pose proof (lasts_block R L n _ _ _ t q Wt Hq) as P. destruct (V q) as [_ V1]. unfold zf in V1. rewrite V1 in P. destruct (qeqb_spec L q (q0 L)); [assumption|lia].
Qed.
Lemma vac_incl : forall (ts us : list site) ds ds' shp, ts <> [] -> us <> [] -> wf_sites ds shp ts -> wf_sites ds' shp us -> vacuum_dims ds -> vacuum_dims ds' -> all_nonempty (ts ++ us) -> ends_in us ts.
Proof.
  intros ts us ds ds' shp Nt Nu W W' V V' Ne. destruct (vac_firsts ts ds shp Nt W V) as [F1 F2]. destruct (vac_firsts us ds' shp Nu W' V') as [F3 F4]. split; intros q Hq.
  - apply F3 in Hq. subst q. unfold first_site in *. destruct ts as [|t ts]; [congruence|]. cbn [hd] in *. assert (N: blocks t <> []) by (apply Ne; now left). unfold firsts in *. destruct (blocks t) as [|b0 bs]; [congruence|]. pose proof (F1 (nth 0 (fst b0) (q0 L)) (or_introl eq_refl)) as E0. left. exact E0.
  - apply F4 in Hq. subst q. unfold last_site in *. destruct (MpsProofs.last_site R L ts Nt) as (ts' & t & Et & El). rewrite El in *. assert (N: blocks t <> []) by (apply Ne, in_app_iff; left; rewrite Et; apply in_app_iff; right; now left). unfold lasts in *. destruct (blocks t) as [|b0 bs]; [congruence|]. pose proof (F2 (last (fst b0) (q0 L)) (or_introl eq_refl)) as E0. left. exact E0.
Qed.
Lemma vac_sum : forall (a b : mps) da db shp, m_tensors a <> [] -> m_tensors b <> [] -> wf_sites da shp (m_tensors a) -> wf_sites db shp (m_tensors b) -> same_kinds (m_tensors a) (m_tensors b) -> vacuum_dims da -> vacuum_dims db -> m_opts a = None ->
  exists c dc, mps_add R L a b = Some c /\ m_const c = radd R (m_const a) (m_const b) /\ m_opts c = None /\ m_tensors c <> [] /\ wf_sites dc shp (m_tensors c) /\ same_kinds (m_tensors a) (m_tensors c) /\ vacuum_dims dc /\
  forall Ba Bb Bc ps l r, bonds Ba (m_tensors a) -> bonds Bb (m_tensors b) -> bonds Bc (m_tensors c) -> length ps = length (m_tensors a) ->
  amplitude Bc (m_tensors c) ps l r = radd R (amplitude Ba (m_tensors a) ps l r) (amplitude Bb (m_tensors b) ps l r).
Proof.
  intros a b da db shp Na Nb Wa Wb K Va Vb Op. destruct (c32_sum R L a b da db shp Na Wa Wb K) as (c & dc & E & C & Wc & Kc & Se & Am); auto.
  - intros q. destruct (Va q) as [A1 A2], (Vb q) as [B1 B2]. split; congruence.
  - intros _ N. exact (vac_incl _ _ _ _ _ Na Nb Wa Wb Va Vb N).
  - exists c, dc. split; [exact E|]. split; [exact C|]. split.
    { unfold mps_add in E. rewrite Op in E. destruct (add_tensors R L (m_tensors a) (m_tensors b)); [|discriminate]. cbn [bind] in E. injection E as <-. reflexivity. }
    split; [intros X; rewrite X in Kc; inversion Kc; congruence|]. split; [exact Wc|]. split; [exact Kc|]. split; [|exact Am]. intros q. destruct (Se q) as [S1 S2], (Va q) as [A1 A2]. split; congruence.
Qed.
Lemma scale_bonds : forall k (b y : mps) db sb Bb, wf_sites db sb (m_tensors b) -> mps_scale R L k b = Some y -> bonds Bb (m_tensors b) -> bonds Bb (m_tensors y).
Proof.
  intros k b y db sb Bb Wb Ey Cb. destruct b as [[|t ts] c o]; [discriminate|]. unfold mps_scale, on_first in Ey. cbn [m_tensors] in *. injection Ey as <-. cbn [m_tensors] in *. apply (bonds_first R L t); [|exact Cb].
  intros p l r Z1. destruct sb as [|[n dp] sb]; [destruct Wb|]. destruct db as [|d0 db]; [destruct Wb|]. destruct Wb as [Wt _]. destruct (site_map R L n _ _ _ (fun x => rmul R k x) t ltac:(cbv beta; ring) Wt) as (_ & _ & S). rewrite S, Z1. ring.
Qed.
Lemma ops_kinds : forall (a b : list site) da db shp, wf_sites da shp a -> wf_sites db shp b -> Forall (fun s => kind s = true) a -> Forall (fun s => kind s = true) b -> same_kinds a b /\ length a = length b.
Proof.
  induction a as [|x a IH]; intros b da db shp Wa Wb Ka Kb.
  - destruct Wa as [-> _]. destruct b; [split; [constructor|reflexivity]|destruct Wb].
  - destruct shp as [|[n dp] shp]; [destruct Wa|]. destruct da; [destruct Wa|]. destruct Wa as [_ Wa]. destruct b as [|y b]; [destruct Wb; discriminate|]. destruct db; [destruct Wb|]. destruct Wb as [_ Wb]. inversion Ka; inversion Kb; subst. destruct (IH b da db shp) as [I1 I2]; auto. split; [constructor; [congruence|exact I1]|cbn [length]; congruence].
Qed.
(* (A + alpha)(B + beta) = A B + beta A + alpha B + alpha beta *)
Theorem c32_compose_constants :
  forall (a b : mps) da db shp hs, (2 <= length (m_tensors a))%nat -> wf_sites da shp (m_tensors a) -> wf_sites db shp (m_tensors b) -> composes hs shp shp shp ->
  Forall operator_site (m_tensors a) -> Forall operator_site (m_tensors b) -> fits32 da db -> vacuum_dims da -> vacuum_dims db -> m_opts a = None -> m_opts b = None ->
  exists res, matmul a b = Some res /\
  match res with
  | MulNum x => x = r0 R /\ forall ps Cs Ba Bb, middle hs (m_tensors b) ps Cs -> bonds Ba (m_tensors a) -> bonds Bb (m_tensors b) -> compose_sum (m_tensors a) (m_tensors b) Cs Ba Bb ps vac vac vac vac = r0 R
  | MulMps c => m_const c = rmul R (m_const a) (m_const b) /\ m_opts c = None /\ (exists dc, wf_sites dc shp (m_tensors c) /\ vacuum_dims dc) /\
      forall ps Cs Ba Bb Bc s s', middle hs (m_tensors b) ps Cs -> bonds Ba (m_tensors a) -> bonds Bb (m_tensors b) -> bonds Bc (m_tensors c) ->
      let qs := map (fun p => (fst (fst p), snd (fst p) ++ snd p)) ps in
      amplitude Bc (m_tensors c) qs s s' = radd R (compose_sum (m_tensors a) (m_tensors b) Cs Ba Bb ps vac s vac s')
        (radd R (rmul R (m_const b) (amplitude Ba (m_tensors a) qs s s')) (rmul R (m_const a) (amplitude Bb (m_tensors b) qs s s')))
  end.
Proof.
  intros a b da db shp hs L2 Wa Wb A Oa Ob F32 Va Vb Pa Pb. destruct (comp_matmul a b da db shp shp shp hs L2 Wa Wb A) as [El So]. rewrite (matmul_eq a b L2 El So Pa Pb).
  assert (Ne: m_tensors a <> []) by (intros X; rewrite X in L2; cbn in L2; lia). assert (Neb: m_tensors b <> []) by (intros X; rewrite X in El; cbn in El; lia).
  destruct (compose_tensors R L _ _ da db shp shp shp hs Ne Wa Wb A Oa Ob F32) as (res & E & H). rewrite E. cbn [bind]. destruct res as [c|].
  2: { exists (MulNum (r0 R)). split; [reflexivity|]. split; [reflexivity|]. intros. now apply H. }
  destruct H as (dc & kl & kr & Wc & Sc & Jl & Jr & Inf & Y & Z0 & Am).
  destruct (vac_firsts _ _ _ Ne Wa Va) as [Fa1 Fa2]. destruct (vac_firsts _ _ _ Neb Wb Vb) as [Fb1 Fb2].
  assert (V: vacuum_ends R L (m_tensors a) da). { split; [now apply Forall_forall|]. split; [now apply Forall_forall|]. destruct (Va (q0 L)) as [E1 E2]. rewrite E1, E2. destruct (qeqb_spec L (q0 L) (q0 L)); [split; reflexivity|congruence]. }
  assert (Av: forall ps Cs Ba Bb Bc s s', middle hs (m_tensors b) ps Cs -> bonds Ba (m_tensors a) -> bonds Bb (m_tensors b) -> bonds Bc c ->
      amplitude Bc c (map (fun p => (fst (fst p), snd (fst p) ++ snd p)) ps) s s' = compose_sum (m_tensors a) (m_tensors b) Cs Ba Bb ps vac s vac s').
  { intros ps Cs Ba Bb Bc s s' M Ba' Bb' Bc'. apply (vacuum_amplitude R L (m_tensors a) (m_tensors b) c da db dc kl kr (fun s s' => compose_sum (m_tensors a) (m_tensors b) Cs Ba Bb ps vac s vac s') Bc _ Inf Y Z0 V F32 (wf_ds R L _ _ _ Wa)). intros. now apply Am. }
  assert (Ncne: c <> []) by (intros ->; destruct shp as [|[? ?] shp]; [|destruct Wc; discriminate]; destruct (m_tensors b); [congruence|destruct Wb]).
  (* the ends of c *)
  assert (Wv: exists dv, wf_sites dv shp c /\ vacuum_dims dv).
  { destruct Inf as (li0 & li1 & ri0 & ri1 & _ & _ & FL0 & FL1 & FR0 & FR1 & Hd & Hl). destruct V as (V1 & V2 & V3 & V4). destruct (small_ends L da db F32 (wf_ds R L _ _ _ Wa)) as [SL SR].
    assert (D1: hd (fun _ => 0) db (q0 L) = 1 /\ last db (fun _ => 0) (q0 L) = 1). { destruct (Vb (q0 L)) as [E1 E2]. unfold zf in *. rewrite E1, E2. destruct (qeqb_spec L (q0 L) (q0 L)); [split; reflexivity|congruence]. }
    assert (Gen: forall i0 i1 q, wf L i0 -> wf L i1 -> (forall q q', bget L i0 q * bget L i1 q' < 2 ^ 32) -> (forall q, bget L i0 q = if qeqb L q (q0 L) then 1 else 0) -> (forall q, bget L i1 q = if qeqb L q (q0 L) then 1 else 0) -> 0 < dim L (bxor L i0 i1) q -> dim L (bxor L i0 i1) q = if qeqb L q (q0 L) then 1 else 0).
    { intros i0 i1 q W0 W1 S B0 B1 P. pose proof (vac_dim L i0 i1 q W0 W1 S B0) as D. rewrite B1 in D. pose proof (D 0). pose proof (D 1). destruct (qeqb_spec L q (q0 L)); lia. }
    pose proof (full_vacuum L _ _ _ FL0 V1 V3) as BL0. pose proof (full_vacuum L _ _ _ FR0 V2 V4) as BR0.
    pose proof (full_vacuum L _ _ _ FL1 (proj2 (Forall_forall _ _) Fb1) (proj1 D1)) as BL1. pose proof (full_vacuum L _ _ _ FR1 (proj2 (Forall_forall _ _) Fb2) (proj2 D1)) as BR1.
    destruct (wf_sites_ends R L c dc shp (fun q => if qeqb L q (q0 L) then 1 else 0) (fun q => if qeqb L q (q0 L) then 1 else 0) Ncne Wc) as (dv & Wv & Hd' & Hl').
    - intros q Hq. rewrite Hd. apply Gen; auto; [apply FL0|apply FL1|exact (full_small L _ _ _ _ _ _ FL0 FL1 SL)|]. rewrite <- Hd. destruct c as [|t ts]; [congruence|]. destruct shp as [|[n dp] shp]; [destruct Wc|]. destruct dc as [|d0 dc]; [destruct Wc|]. destruct Wc as [Wt _]. exact (firsts_block R L n _ _ _ t q Wt Hq).
    - intros q Hq. rewrite Hl. apply Gen; auto; [apply FR0|apply FR1|exact (full_small L _ _ _ _ _ _ FR0 FR1 SR)|]. rewrite <- Hl. destruct (MpsProofs.last_site R L c Ncne) as (ts' & t & Et & Elast). rewrite Elast in Hq. rewrite Et in Wc. apply wf_sites_last in Wc. destruct Wc as (n & dl & dp & Wt). exact (lasts_block R L n _ _ _ t q Wt Hq).
    - exists dv. split; [exact Wv|]. intros q. unfold zf. rewrite Hd', Hl'. split; reflexivity. }
  destruct Wv as (dv & Wv & Vv).
  assert (Ka: Forall (fun s : site => kind s = true) (m_tensors a)) by (eapply Forall_impl; [|exact Oa]; intros s Hs; apply Hs). assert (Kb: Forall (fun s : site => kind s = true) (m_tensors b)) by (eapply Forall_impl; [|exact Ob]; intros s Hs; apply Hs). assert (Kc: Forall (fun s : site => kind s = true) c) by (eapply Forall_impl; [|exact Sc]; intros s Hs; apply Hs).
  destruct (ops_kinds c (m_tensors a) dv da shp Wv Wa Kc Ka) as [Kca Lca]. destruct (ops_kinds c (m_tensors b) dv db shp Wv Wb Kc Kb) as [Kcb Lcb].
  destruct (c32_scale R L (m_const a) b db shp Neb Wb) as (y & Ey & Cy & Py & Wy & Ky & Ay). destruct (c32_scale R L (m_const b) a da shp Ne Wa) as (x & Ex & Cx & Px & Wx & Kx & Ax).
  assert (Nx: m_tensors x <> []) by (intros X; rewrite X in Kx; inversion Kx; congruence). assert (Ny: m_tensors y <> []) by (intros X; rewrite X in Ky; inversion Ky; congruence).
  assert (Tr: forall u v w : list site, same_kinds u v -> same_kinds v w -> same_kinds u w). { unfold same_kinds. intros u v w H. revert w. induction H; intros w H'; inversion H'; subst; constructor; [congruence|auto]. }
  assert (Lq: forall ps Cs, middle hs (m_tensors b) ps Cs -> length (map (fun p : bool * list state * list state => (fst (fst p), snd (fst p) ++ snd p)) ps) = length (m_tensors b)). { intros ps Cs M. rewrite map_length. clear - M. induction M; cbn [length]; congruence. }
  set (r0' := Mps c (r0 R) None).
  unfold add_consts. destruct (is0 (m_const a)) eqn:Ea0; [apply is0_spec in Ea0|]; (destruct (is0 (m_const b)) eqn:Eb0; [apply is0_spec in Eb0|]).
  - (* no constants *)
    cbn [bind]. exists (MulMps r0'). split; [reflexivity|]. cbn [m_const m_opts m_tensors r0']. split; [rewrite Ea0; ring|]. split; [reflexivity|]. split; [eauto|]. intros ps Cs Ba Bb Bc s s' M Ca' Cb' Cc'. cbv zeta. rewrite (Av ps Cs Ba Bb Bc) by auto. rewrite Ea0, Eb0. ring.
  - rewrite Ex. cbn [bind]. destruct (vac_sum r0' x dv da shp) as (z & dz & Ez & Cz & Pz & Nz & Wz & Kz & Vz & Az); auto; [exact (Tr _ _ _ Kca Kx)|]. rewrite Ez. cbn [bind]. exists (MulMps z). split; [reflexivity|].
    split; [rewrite Cz, Cx; cbn [m_const r0']; ring|]. split; [exact Pz|]. split; [eauto|]. intros ps Cs Ba Bb Bc s s' M Ca' Cb' Cc'. cbv zeta. destruct (c32_bond_states R L c dv shp Ncne Wv) as [(Bx & Hx) _].
    rewrite (Az Bx Ba Bc); auto; [|exact (scale_bonds _ _ _ _ _ _ Wa Ex Ca')|cbn [m_tensors r0']; rewrite Lcb; eauto]. cbn [m_tensors r0']. rewrite (Av ps Cs Ba Bb Bx) by auto. rewrite Ax, Ea0. ring.
  - rewrite Ey. cbn [bind]. destruct (vac_sum r0' y dv db shp) as (z & dz & Ez & Cz & Pz & Nz & Wz & Kz & Vz & Az); auto; [exact (Tr _ _ _ Kcb Ky)|]. rewrite Ez. cbn [bind]. exists (MulMps z). split; [reflexivity|].
    split; [rewrite Cz, Cy, Eb0; cbn [m_const r0']; ring|]. split; [exact Pz|]. split; [eauto|]. intros ps Cs Ba Bb Bc s s' M Ca' Cb' Cc'. cbv zeta. destruct (c32_bond_states R L c dv shp Ncne Wv) as [(Bx & Hx) _].
    rewrite (Az Bx Bb Bc); auto; [|exact (scale_bonds _ _ _ _ _ _ Wb Ey Cb')|cbn [m_tensors r0']; rewrite Lcb; eauto]. cbn [m_tensors r0']. rewrite (Av ps Cs Ba Bb Bx) by auto. rewrite Ay, Eb0. ring.
  - rewrite Ey, Ex. cbn [bind]. destruct (vac_sum x y da db shp) as (w & dw & Ew & Cw & Pw & Nw & Ww & Kw & Vw & Aw); auto.
    { assert (same_kinds (m_tensors x) c). { clear - Kca Kx. unfold same_kinds in *. revert Kx. generalize (m_tensors x). induction Kca; intros u H'; inversion H'; subst; constructor; [congruence|auto]. } exact (Tr _ _ _ (Tr _ _ _ H Kcb) Ky). } { congruence. }
    rewrite Ew. cbn [bind]. destruct (vac_sum r0' w dv dw shp) as (z & dz & Ez & Cz & Pz & Nz & Wz & Kz & Vz & Az); auto; [exact (Tr _ _ _ (Tr _ _ _ Kca Kx) Kw)|]. rewrite Ez. cbn [bind].
    eexists. split; [reflexivity|]. cbn [m_const m_opts m_tensors]. split; [rewrite Cz, Cw, Cx, Cy; cbn [m_const r0']; ring|]. split; [exact Pz|]. split; [eauto|]. intros ps Cs Ba Bb Bc s s' M Ca' Cb' Cc'. cbv zeta.
    destruct (c32_bond_states R L c dv shp Ncne Wv) as [(Bx & Hx) _]. destruct (c32_bond_states R L (m_tensors w) dw shp Nw Ww) as [(Bw & Hw) _].
    assert (Lx: length (m_tensors x) = length (m_tensors b)) by (rewrite <- Lcb, Lca; symmetry; exact (F2_length _ _ _ _ _ Kx)).
    rewrite (Az Bx Bw Bc); auto; [|cbn [m_tensors r0']; rewrite Lcb; eauto]. cbn [m_tensors r0']. rewrite (Av ps Cs Ba Bb Bx) by auto. rewrite (Aw Ba Bb Bw); auto; [|exact (scale_bonds _ _ _ _ _ _ Wa Ex Ca')|exact (scale_bonds _ _ _ _ _ _ Wb Ey Cb')|rewrite Lx; eauto]. rewrite Ax, Ay. ring.
Qed.
(** *** constant and options of the product, with any options of the operands *)
Theorem c32_constant :
  forall (a b c : mps), matmul a b = Some (MulMps c) ->
  m_const c = rmul R (m_const a) (m_const b) /\
  m_opts c = match m_opts a, m_opts b with None, None => None | Some f, None => Some f | None, Some g => Some g | Some f, Some g => Some (merge f g) end.
Proof.
  intros a b c H. unfold mps_matmul in H. do 4 match type of H with (if ?x then _ else _) = _ => destruct x; try discriminate end; try (destruct (mps_dot R L a b); discriminate).
  destruct (mul_tensors R L (m_tensors a) (m_tensors b)) as [[ts|]|]; cbn [bind] in H; try discriminate.
  destruct (add_consts R L is0 a b (Mps ts (r0 R) None)) as [r|] eqn:E; cbn [bind] in H; [|discriminate].
  assert (K: m_const r = rmul R (m_const a) (m_const b) /\ m_opts r = None).
  { assert (SC: forall k (x y : mps), mps_scale R L k x = Some y -> m_const y = rmul R k (m_const x)) by (intros k x y; unfold mps_scale, on_first; destruct (m_tensors x); [discriminate|intros X; injection X as <-; reflexivity]).
    assert (AD: forall x y z : mps, mps_add R L x y = Some z -> m_const z = radd R (m_const x) (m_const y) /\ m_opts z = m_opts x).
    { intros x y z. unfold mps_add. destruct (add_tensors R L (m_tensors x) (m_tensors y)) as [u|]; cbn [bind]; [|discriminate]. destruct (match m_opts x with Some compress => compress u | None => Some u end); cbn [bind]; [|discriminate]. intros X; injection X as <-. split; reflexivity. }
    unfold add_consts in E. destruct (is0 (m_const a)) eqn:Ia.
    - apply is0_spec in Ia. destruct (is0 (m_const b)) eqn:Ib.
      + injection E as <-. cbn [m_const m_opts]. rewrite Ia. split; [ring|reflexivity].
      + destruct (mps_scale R L (m_const b) a) as [x|] eqn:Ex; cbn [bind] in E; [|discriminate]. apply SC in Ex. apply AD in E. destruct E as [-> ->]. cbn [m_const m_opts]. rewrite Ex, Ia. split; [ring|reflexivity].
    - destruct (mps_scale R L (m_const a) b) as [y|] eqn:Ey; cbn [bind] in E; [|discriminate]. apply SC in Ey. destruct (is0 (m_const b)) eqn:Ib.
      + apply is0_spec in Ib. apply AD in E. destruct E as [-> ->]. cbn [m_const m_opts]. rewrite Ey, Ib. split; [ring|reflexivity].
      + destruct (mps_scale R L (m_const b) a) as [x|] eqn:Ex; cbn [bind] in E; [|discriminate]. apply SC in Ex.
        destruct (mps_add R L x y) as [s|] eqn:Es; cbn [bind] in E; [|discriminate]. apply AD in Es. destruct Es as [Es _].
        destruct (mps_add R L (Mps ts (r0 R) None) s) as [r'|] eqn:Er; cbn [bind] in E; [|discriminate]. apply AD in Er. destruct Er as [Er Eo]. injection E as <-.
        cbn [m_const m_opts] in *. rewrite Er, Eo, Es, Ex, Ey. split; [ring|reflexivity]. }
  destruct K as [K1 K2]. unfold both_opts in H. destruct (m_opts a) as [f|], (m_opts b) as [g|];
    try (match type of H with bind ?x _ = _ => destruct x; cbn [bind] in H; [|discriminate] end); injection H as <-; cbn [m_const m_opts]; auto.
Qed.
(** the tensors with options: those without, compressed by the options *)
Theorem c32_options :
  forall (a b c : mps) compress, m_const a = r0 R -> m_const b = r0 R -> matmul (Mps (m_tensors a) (r0 R) None) (Mps (m_tensors b) (r0 R) None) = Some (MulMps c) ->
  match m_opts a, m_opts b with Some f, Some g => compress = merge f g | Some f, None => compress = f | None, Some g => compress = g | None, None => False end ->
  matmul a b = match compress (m_tensors c) with Some ts => Some (MulMps (Mps ts (r0 R) (Some compress))) | None => None end.
Proof.
  intros a b c compress Ca Cb H M. unfold mps_matmul in *. cbn [m_tensors] in H. do 3 (match type of H with (if ?x then _ else _) = _ => destruct x; try discriminate end).
  match type of H with (if ?x then _ else _) = _ => destruct x; [destruct (mps_dot R L _ _); discriminate|] end.
  destruct (mul_tensors R L (m_tensors a) (m_tensors b)) as [[ts|]|]; cbn [bind] in *; try discriminate.
  assert (Z0: is0 (r0 R) = true) by (apply is0_spec; reflexivity). unfold add_consts in *. cbn [m_const] in H. rewrite Ca, Cb, Z0 in *. cbn [bind both_opts m_opts] in *. injection H as <-. cbn [m_tensors m_const].
  unfold both_opts. destruct (m_opts a), (m_opts b); [subst| | |]; try contradiction; subst; match goal with |- bind ?x _ = _ => destruct x; reflexivity end.
Qed.
End Thms.
Print Assumptions c32_apply. Print Assumptions c32_apply_constant. Print Assumptions c32_compose. Print Assumptions c32_compose_constants.

(** *** concrete cases *)
Definition is_zero (x : Z_ring) : bool := Z.eqb x 0.
Lemma is_zero_spec : forall x : Z_ring, is_zero x = true <-> x = r0 Z_ring. Proof. intros x. exact (Z.eqb_eq x 0). Qed.
Definition mul2 := mps_matmul Z_ring U is_zero (fun f _ => f).
(* creation on the first and annihilation on the third of three sites; legs: left, up, down, right *)
Definition ex_hop (k : Z) : mps Z_ring U := Mps
  [FT [blk [0; 1; 0; 1] [1; 1; 1; 1] [1] ] [];
   FT [] [blk [1; 0; 0; 1] [1; 1; 1; 1] [1]; blk [1; 1; 1; 1] [1; 1; 1; 1] [1] ];
   FT [blk [1; 0; 1; 0] [1; 1; 1; 1] [1] ] [] ] k None.
(* its adjoint up to a sign *)
Definition ex_back (k : Z) : mps Z_ring U := Mps
  [FT [blk [0; 0; 1; -1] [1; 1; 1; 1] [1] ] [];
   FT [] [blk [-1; 0; 0; -1] [1; 1; 1; 1] [1]; blk [-1; 1; 1; -1] [1; 1; 1; 1] [1] ];
   FT [blk [-1; 1; 0; 0] [1; 1; 1; 1] [1] ] [] ] k None.
(* 5 |011> + 3 |101> *)
Definition ex_psi : mps Z_ring U := Mps
  [SP [blk [0; 0; 0] [1; 1; 1] [1]; blk [0; 1; 1] [1; 1; 1] [1] ];
   SP [blk [0; 1; 1] [1; 1; 1] [5]; blk [1; 0; 1] [1; 1; 1] [3] ];
   SP [blk [1; 1; 2] [1; 1; 1] [1] ] ] 0 None.
Definition ex_vacuum : mps Z_ring U := Mps [SP [blk [0; 0; 0] [1; 1; 1] [1] ]; SP [blk [0; 0; 0] [1; 1; 1] [1] ]; SP [blk [0; 0; 0] [1; 1; 1] [7] ] ] 0 None.
Definition ex_bonds : list (list (U * Z)) := let b := flat_map (fun q => map (st q) [0; 1; 2; 3]) [-1; 0; 1; 2] in [b; b].
Definition amp3 (n : Z) (m : mul_result Z_ring U) (qs : list Z) : Z := match m with MulNum x => 1000 | MulMps c => amplitude ex_bonds (m_tensors c) (map occ qs) (st 0 0) (st n 0) end.
Definition configs : list (list Z) := [ [0; 1; 1]; [1; 0; 1]; [1; 1; 0] ].
Definition const_of (m : mul_result Z_ring U) : Z := match m with MulNum x => 1000 | MulMps c => m_const c end.
Definition el3 (m : mul_result Z_ring U) (qs : list (bool * Z * Z)) : Z := match m with MulNum x => 1000 | MulMps c => amplitude ex_bonds (m_tensors c) (map (fun p => (fst (fst p), [st (snd (fst p)) 0; st (snd p) 0])) qs) (st 0 0) (st 0 0) end.
(* the particle on the middle site is passed: sign -1; then with the constants.  Last: (c0* c2 + 2)(c2* c0 + 10) on
   diagonal elements |101> and |100> and an off-diagonal one *)
Example c32_product_ex :
  option_map (fun r => map (amp3 2 r) configs) (mul2 (ex_hop 0) ex_psi) = Some [0; 0; -5]
  /\ option_map (fun r => map (amp3 2 r) configs) (mul2 (ex_hop 2) ex_psi) = Some [10; 6; -5]
  /\ option_map const_of (mul2 (ex_hop 2) (ex_back 10)) = Some 20
  /\ option_map (fun r => map (el3 r) [ [(false, 1, 1); (false, 0, 0); (false, 0, 0)]; [(false, 1, 1); (false, 1, 1); (false, 0, 0)]; [(true, 1, 0); (false, 1, 1); (true, 0, 1)]; [(true, 0, 1); (false, 1, 1); (true, 1, 0)] ])
       (mul2 (ex_hop 2) (ex_back 10)) = Some [-1; -1; 10; 2].
Proof. repeat split; vm_compute; reflexivity. Qed.

(** *** the hypotheses hold of these; a product without blocks loses the constant terms *)
Definition vac1 : U -> Z := fun q => if qeqb U q (q0 U) then 1 else 0.
Definition ones : list (U -> Z) := [fun _ => 1; fun _ => 1; fun _ => 1; fun _ => 1].
Definition op_dims : list (U -> Z) := [vac1; fun _ => 1; fun _ => 1; vac1].
Definition op_shape : list (Z * (Z -> U -> Z)) := [(4, fun _ _ => 1); (4, fun _ _ => 1); (4, fun _ _ => 1)].
Definition st_shape : list (Z * (Z -> U -> Z)) := [(3, fun _ _ => 1); (3, fun _ _ => 1); (3, fun _ _ => 1)].
Ltac parities := intros [] l m r Hi; cbn in Hi; repeat (destruct Hi as [Hi|Hi]; [injection Hi as <- Hi; destruct m as [|m0 [|m1 [|m2 [|m3 m] ] ] ]; cbn in Hi; try discriminate; injection Hi; intros; subst; split; reflexivity|]); destruct Hi.
Lemma hop_ok : forall k, wf_sites op_dims op_shape (m_tensors (ex_hop k)) /\ Forall operator_site (m_tensors (ex_hop k)).
Proof.
  intros k. split; [split; [small_site|]; split; [small_site|]; split; [small_site|]; split; reflexivity|].
  repeat (apply Forall_cons || apply Forall_nil); (split; [reflexivity|parities]).
Qed.
Ltac parities1 := intros l m r Hi; cbn in Hi; repeat (destruct Hi as [Hi|Hi]; [injection Hi as <- Hi; destruct m as [|m0 [|m1 [|m2 m] ] ]; cbn in Hi; try discriminate; injection Hi; intros; subst; reflexivity|]); destruct Hi.
Lemma psi_ok : wf_sites ones st_shape (m_tensors ex_psi) /\ Forall state_site (m_tensors ex_psi).
Proof. split; [split; [small_site|]; split; [small_site|]; split; [small_site|]; split; reflexivity|]. repeat (apply Forall_cons || apply Forall_nil); (split; [reflexivity|parities1]). Qed.
Lemma vacuum_ok : wf_sites ones st_shape (m_tensors ex_vacuum) /\ Forall state_site (m_tensors ex_vacuum).
Proof. split; [split; [small_site|]; split; [small_site|]; split; [small_site|]; split; reflexivity|]. repeat (apply Forall_cons || apply Forall_nil); (split; [reflexivity|parities1]). Qed.
Lemma shapes_ok : acts_on [(1, 1); (1, 1); (1, 1)] op_shape st_shape st_shape /\ composes [1; 1; 1] op_shape op_shape op_shape.
Proof.
  split.
  - repeat (apply (acts_cons U 1 1); [lia|lia|reflexivity|reflexivity|]). constructor.
  - repeat (apply (comp_cons U 1); [lia|reflexivity|split; reflexivity|]). constructor.
Qed.
Lemma dims_ok : fits32 op_dims ones /\ fits32 op_dims op_dims /\ vacuum_dims U op_dims /\ forall k, vacuum_ends Z_ring U (m_tensors (ex_hop k)) op_dims.
Proof.
  assert (V: forall q, vac1 q = 0 \/ vac1 q = 1) by (intros q; unfold vac1; destruct (qeqb U q (q0 U)); auto).
  split; [repeat constructor; intros q q'; pose proof (V q); lia|]. split; [repeat constructor; intros q q'; pose proof (V q); pose proof (V q'); nia|]. split; [split; reflexivity|].
  intros k. split; [repeat constructor|]. split; [repeat constructor|]. split; reflexivity.
Qed.
(* the theorems apply: to 1 + c0* c2 on the state and to the square of c0* c2 *)
Example c32_apply_constant_ex : exists res, mul2 (ex_hop 2) ex_psi = Some res /\ match res with MulNum _ => False | MulMps c => m_const c = 0 /\ exists dc, wf_sites dc st_shape (m_tensors c) end.
Proof.
  destruct (hop_ok 2) as [Wa Oa], psi_ok as [Wb Sb], shapes_ok as [A _], dims_ok as (F & _ & _ & V).
  destruct (c32_apply_constant Z_ring U is_zero is_zero_spec (fun f _ => f) (ex_hop 2) ex_psi op_dims ones op_shape st_shape _ ltac:(cbn; lia) Wa Wb A Oa Sb F (V 2)) as (res & E & H); [exists 0, 2; split; repeat constructor|reflexivity|reflexivity|reflexivity|].
  exists res. split; [exact E|]. destruct res as [x|c]; [|destruct H as (H1 & _ & H2 & _); auto].
  assert (X: option_map const_of (mul2 (ex_hop 2) ex_psi) = Some 0) by (vm_compute; reflexivity). unfold mul2 in X. rewrite E in X. discriminate.
Qed.
(* (A + k) b with A b = 0 block by block: the number 0 is returned, k b is lost *)
Theorem c32_apply_constant_refuted :
  exists (a b : mps Z_ring U) da db sa sb hs, (2 <= length (m_tensors a))%nat /\ wf_sites da sa (m_tensors a) /\ wf_sites db sb (m_tensors b) /\ acts_on hs sa sb sb /\
  Forall operator_site (m_tensors a) /\ Forall state_site (m_tensors b) /\ fits32 da db /\ vacuum_ends Z_ring U (m_tensors a) da /\ m_const b = 0 /\ m_opts a = None /\ m_opts b = None /\
  mul2 a b = Some (MulNum (R := Z_ring) 0) /\ exists Bb us s s', bonds Bb (m_tensors b) /\ (m_const a : Z) * amplitude Bb (m_tensors b) us s s' <> 0.
Proof.
  destruct (hop_ok 2) as [Wa Oa], vacuum_ok as [Wb Sb], shapes_ok as [A _], dims_ok as (F & _ & _ & V).
  exists (ex_hop 2), ex_vacuum, op_dims, ones, op_shape, st_shape, [(1, 1); (1, 1); (1, 1)]. do 11 (split; [first [assumption|reflexivity|cbn; lia|apply V]|]). split; [vm_compute; reflexivity|].
  exists (bonds_of Z_ring U ones (m_tensors ex_vacuum)), [occ 0; occ 0; occ 0], (st 0 0), (st 0 0). split; [apply (bonds_of_cover Z_ring U _ _ st_shape); [discriminate|exact Wb]|vm_compute; discriminate].
Qed.
(* (A + 2)(A + 10) with A A = 0 block by block: the number 0 instead of 12 A + 20 *)
Theorem c32_compose_constants_refuted :
  exists (a b : mps Z_ring U) da db shp hs, (2 <= length (m_tensors a))%nat /\ wf_sites da shp (m_tensors a) /\ wf_sites db shp (m_tensors b) /\ composes hs shp shp shp /\
  Forall operator_site (m_tensors a) /\ Forall operator_site (m_tensors b) /\ fits32 da db /\ vacuum_dims U da /\ vacuum_dims U db /\ m_opts a = None /\ m_opts b = None /\
  mul2 a b = Some (MulNum (R := Z_ring) 0) /\ (m_const a : Z) * m_const b <> 0.
Proof.
  destruct (hop_ok 2) as [Wa Oa], (hop_ok 10) as [Wb Ob], shapes_ok as [_ A], dims_ok as (_ & F & V & _).
  exists (ex_hop 2), (ex_hop 10), op_dims, op_dims, op_shape, [1; 1; 1]. do 11 (split; [first [assumption|reflexivity|cbn; lia]|]). split; [vm_compute; reflexivity|discriminate].
Qed.
Print Assumptions c32_apply_constant_refuted. Print Assumptions c32_compose_constants_refuted.
(* options that flip every element: they are applied once to the product with the state; the constant is that of the product, the options stay *)
Definition flip (ts : list (site Z_ring U)) : option (list (site Z_ring U)) := Some (map (s_map Z_ring U Z.opp) ts).
Definition with_opts (a : mps Z_ring U) : mps Z_ring U := Mps (m_tensors a) (m_const a) (Some flip).
Example c32_constant_ex : exists c, mul2 (with_opts (ex_hop 2)) ex_psi = Some (MulMps c) /\ (m_const c : Z) = 0 /\ m_opts c = Some flip.
Proof.
  assert (X: match mul2 (with_opts (ex_hop 2)) ex_psi with Some (MulMps _) => true | _ => false end = true) by (vm_compute; reflexivity).
  destruct (mul2 (with_opts (ex_hop 2)) ex_psi) as [[x|c]|] eqn:E; try discriminate. exists c. split; [reflexivity|].
  destruct (c32_constant Z_ring U is_zero is_zero_spec (fun f _ => f) _ _ _ E) as [E1 E2]. split; [rewrite E1; reflexivity|exact E2].
Qed.
Example c32_options_ex : exists c, mul2 (ex_hop 0) ex_psi = Some (MulMps c) /\ mul2 (with_opts (ex_hop 0)) ex_psi = Some (MulMps (Mps (map (s_map Z_ring U Z.opp) (m_tensors c)) 0 (Some flip))).
Proof.
  assert (X: match mul2 (ex_hop 0) ex_psi with Some (MulMps _) => true | _ => false end = true) by (vm_compute; reflexivity).
  destruct (mul2 (ex_hop 0) ex_psi) as [[x|c]|] eqn:E; try discriminate. exists c. split; [reflexivity|].
  exact (c32_options Z_ring U is_zero is_zero_spec (fun f _ => f) (with_opts (ex_hop 0)) ex_psi c flip eq_refl eq_refl E eq_refl).
Qed.
Print Assumptions c32_constant. Print Assumptions c32_options.
