(** Lemmas for C32: fusing the bonds of the products of sites, and the chain they form. *)
From Coq Require Import ZArith Bool List Ascii Lia Permutation Ring.
From Verif Require Import SymModel SymProofs DictLib IndexLib OptLib RingLib BondModel BondProofs FuseModel FuseProofs FuseProps FuseTProofs FuseTProps BlockModel BlockProofs BlockProps StructModel StructProofs SumProofs StructProps MpsModel MpsChain MpsProofs MpsDot MpoModel MpoDot MpoVert MpoFuse MpoChain MpoProofs.
Import ListNotations.
Open Scope Z_scope.

Section MSite.
Variable R : CRing.
Add Ring Rr11 : (rth R).
Variable L : Label.
Notation tensor := (list (list L * nd R)).
Notation site := (site R L).
Notation state := (L * Z)%type.
Notation binfo := (dict L Z).
Notation "0'" := (r0 R). Notation "1'" := (r1 R).
Infix "+'" := (radd R) (at level 50, left associativity).
Infix "*'" := (rmul R) (at level 40, left associativity).
Notation telem := (telem R L).
Notation positive := (positive R L).
Notation sgn := (sgn R).
Notation charge := (charge L).
Notation graded := (graded R L).
Notation kmap := (kmap L).
Notation okb := (okb L).
Notation phy := (bool * list state)%type.
Notation par := (fun s : state => qpar L (fst s)).
Notation good := (good L).
Notation site4 := (site4 R L).
Notation okd := (okd R L).
Notation gst x y d := (gstep R phy phy state par (selem x) (selem y) (terms R L y d)).

Lemma not_image : forall i0 i1 m, wf L i0 -> wf L i1 -> (forall q q', bget L i0 q * bget L i1 q' < 2 ^ 32) ->
  (exists l l', okb i0 i1 l l' = true /\ kmap i0 i1 l l' = m) \/ (forall l l', okb i0 i1 l l' = true -> kmap i0 i1 l l' <> m).
Proof.
  intros i0 i1 [q x] W0 W1 Sm. destruct (Z_le_dec 0 x) as [H0|H0]; [destruct (Z_lt_dec x (dim L (bxor L i0 i1) q)) as [H1|H1]|].
  - left. apply kmap_surj; auto.
  - right. intros l l' O E. destruct (kmap_ok L i0 i1 W0 W1 Sm l l' O) as [_ H]. rewrite E in H. cbn [fst snd] in H. lia.
  - right. intros l l' O E. destruct (kmap_ok L i0 i1 W0 W1 Sm l l' O) as [_ H]. rewrite E in H. cbn [fst snd] in H. lia.
Qed.

Section OneSite.
Variables (li0 li1 ri0 ri1 : binfo).
Hypothesis WL0 : wf L li0. Hypothesis WL1 : wf L li1. Hypothesis WR0 : wf L ri0. Hypothesis WR1 : wf L ri1.
Hypothesis SmL : forall q q', bget L li0 q * bget L li1 q' < 2 ^ 32.
Hypothesis SmR : forall q q', bget L ri0 q * bget L ri1 q' < 2 ^ 32.
Variables (n : Z) (dla dlb dra drb : L -> Z) (dpv : Z -> L -> Z).
Hypothesis Hn : 4 <= n.
Lemma part_fuse : forall (t : tensor) axR axL, map (leg n) axR = [n - 2; n - 1] -> map (leg (n - 1)) axL = [0; 1] ->
  wf_tensor R L n (dm4 L n dla dlb dra drb dpv) t -> positive t -> NoDup (map fst t) ->
  (forall b, In b t -> bget L li0 (nth 0 (fst b) (q0 L)) = dla (nth 0 (fst b) (q0 L)) /\ bget L li1 (nth 1 (fst b) (q0 L)) = dlb (nth 1 (fst b) (q0 L)) /\
     bget L ri0 (nth (Z.to_nat (n - 2)) (fst b) (q0 L)) = dra (nth (Z.to_nat (n - 2)) (fst b) (q0 L)) /\ bget L ri1 (nth (Z.to_nat (n - 1)) (fst b) (q0 L)) = drb (nth (Z.to_nat (n - 1)) (fst b) (q0 L))) ->
  exists t1 t2, sp_fuse R L axR (bxor L ri0 ri1) plus2 t = Some t1 /\ sp_fuse R L axL (bxor L li0 li1) plus2 t1 = Some t2 /\
  wf_tensor R L (n - 2) (ldim L (n - 2) (dim L (bxor L li0 li1)) dpv (dim L (bxor L ri0 ri1))) t2 /\ positive t2 /\ NoDup (map fst t2) /\
  (forall qs, In qs (map fst t2) -> exists l l' p r r', qs = qadd L l l' :: p ++ [qadd L r r'] /\ In (l :: l' :: p ++ [r; r']) (map fst t)) /\
  (forall p l l' r r', Z.of_nat (length p) = n - 4 -> telem t2 (kmap li0 li1 l l' :: p ++ [kmap ri0 ri1 r r']) = telem t (l :: l' :: p ++ [r; r'])) /\
  (forall p s m, Z.of_nat (length p) = n - 4 -> (forall r r', okb ri0 ri1 r r' = true -> kmap ri0 ri1 r r' <> m) -> telem t2 (s :: p ++ [m]) = 0') /\
  (forall p s, (forall r r', okb li0 li1 r r' = true -> kmap li0 li1 r r' <> s) -> telem t2 (s :: p) = 0').
Proof.
  intros t axR axL AR AL Wt Pt Nt I0.
  assert (D: forall q, dm4 L n dla dlb dra drb dpv 0 q = dla q /\ dm4 L n dla dlb dra drb dpv 1 q = dlb q /\ dm4 L n dla dlb dra drb dpv (n - 2) q = dra q /\ dm4 L n dla dlb dra drb dpv (n - 1) q = drb q).
  { intros q. unfold dm4. split; [reflexivity|]. split; [reflexivity|]. destruct (Z.eqb_spec (n - 2) 0); [lia|]. destruct (Z.eqb_spec (n - 2) 1); [lia|]. destruct (Z.eqb_spec (n - 1) 0); [lia|]. destruct (Z.eqb_spec (n - 1) 1); [lia|]. destruct (Z.eqb_spec (n - 1) (n - 2)); [lia|]. rewrite !Z.eqb_refl. auto. }
  destruct (fuse_pair R L ri0 ri1 WR0 WR1 SmR t n (n - 2) (dm4 L n dla dlb dra drb dpv) axR) as (t1 & E1 & W1 & P1 & N1 & O1 & F1 & Z1 & _); auto.
  { lia. } { rewrite AR. do 2 f_equal. lia. }
  { intros b Hb. rewrite (proj1 (proj2 (proj2 (D _)))). apply I0. exact Hb. }
  { intros b Hb. replace (n - 2 + 1) with (n - 1) by lia. rewrite (proj2 (proj2 (proj2 (D _)))). apply I0. exact Hb. }
  set (d1 := fdim L ri0 ri1 (n - 2) (dm4 L n dla dlb dra drb dpv)) in *.
  assert (D1: forall q, d1 0 q = dla q /\ d1 1 q = dlb q). { intros q. unfold d1, fdim. destruct (Z.ltb_spec 0 (n - 2)); [|lia]. destruct (Z.ltb_spec 1 (n - 2)); [|lia]. split; apply D. }
  assert (I1: forall b, In b t1 -> bget L li0 (nth 0 (fst b) (q0 L)) = dla (nth 0 (fst b) (q0 L)) /\ bget L li1 (nth 1 (fst b) (q0 L)) = dlb (nth 1 (fst b) (q0 L))).
  { intros b Hb. destruct (O1 (fst b)) as (pre & x & y & post & E & Lp & Hk); [now apply in_map|]. apply in_map_iff in Hk. destruct Hk as (b' & Eb & Hb'). destruct (I0 b' Hb') as (J0 & J1 & _). rewrite Eb in J0, J1. rewrite E. destruct pre as [|z0 [|z1 pre]]; try (cbn in Lp; lia). cbn [app nth] in *. auto. }
  destruct (fuse_pair R L li0 li1 WL0 WL1 SmL t1 (n - 1) 0 d1 axL) as (t2 & E2 & W2 & P2 & N2 & O2 & F2 & Z2 & _); auto.
  { lia. } { intros b Hb. rewrite (proj1 (D1 _)). now apply I1. } { intros b Hb. change (0 + 1) with 1. rewrite (proj2 (D1 _)). now apply (I1 b Hb). }
  exists t1, t2. split; [exact E1|]. split; [exact E2|]. split; [|split; [exact P2|split; [exact N2|split; [|split; [|split]]]]].
  - replace (n - 2) with (n - 1 - 1) by lia. refine (wf_tensor_ext R L (n - 1 - 1) _ _ t2 _ W2). intros i q Hi. unfold fdim, ldim. destruct (Z.ltb_spec i 0); [lia|]. destruct (Z.eqb_spec i 0) as [->|]; [reflexivity|]. unfold d1, fdim.
    destruct (Z.ltb_spec (i + 1) (n - 2)); [|destruct (Z.eqb_spec (i + 1) (n - 2)); [|lia]].
    + destruct (Z.eqb_spec i (n - 1 - 1 - 1)); [lia|]. unfold dm4. destruct (Z.eqb_spec (i + 1) 0); [lia|]. destruct (Z.eqb_spec (i + 1) 1); [lia|]. destruct (Z.eqb_spec (i + 1) (n - 2)); [lia|]. destruct (Z.eqb_spec (i + 1) (n - 1)); [lia|]. f_equal. lia.
    + destruct (Z.eqb_spec i (n - 1 - 1 - 1)); [reflexivity|lia].
  - intros qs Hq. destruct (O2 qs Hq) as (pre & x & y & post & E & Lp & H1). destruct pre; [|cbn in Lp; lia]. cbn [app] in *. destruct (O1 _ H1) as (pre1 & x1 & y1 & post1 & E' & Lp1 & H0).
    destruct pre1 as [|z0 [|z1 pre1]]; try (cbn in Lp1; lia). cbn [app] in *. injection E' as -> -> ->. apply in_map_iff in H0. destruct H0 as (b & Eb & Hb). destruct (Wt b Hb) as [Lb _]. rewrite Eb in Lb. cbn [length] in *. rewrite app_length in Lb. cbn [length] in Lb. destruct post1; [|cbn in Lb; lia].
    exists z0, z1, pre1, x1, y1. split; [exact E|]. rewrite <- Eb. now apply in_map.
  - intros p l l' r r' Lp. etransitivity; [apply (F2 [] l l' (p ++ [kmap ri0 ri1 r r'])); [reflexivity|rewrite app_length; cbn [length]; lia]|]. cbn [app]. apply (F1 (l :: l' :: p) r r' []); cbn [length]; lia.
  - intros p s m Lp Hm. destruct (not_image li0 li1 s WL0 WL1 SmL) as [(l & l' & O & <-)|No].
    + etransitivity; [apply (F2 [] l l' (p ++ [m])); [reflexivity|rewrite app_length; cbn [length]; lia]|]. cbn [app]. apply (Z1 (l :: l' :: p) m []); [cbn [length]; lia|exact Hm].
    + apply (Z2 [] s (p ++ [m])); [reflexivity|exact No].
  - intros p s No. apply (Z2 [] s p); [reflexivity|exact No].
Qed.
Lemma site_fuse : forall c : site, blocks c <> [] -> (forall odd, wf_tensor R L n (dm4 L n dla dlb dra drb dpv) (part c odd) /\ positive (part c odd) /\ NoDup (map fst (part c odd))) ->
  (forall q, (In q (leg_labels R L 0 c) -> bget L li0 q = dla q) /\ (In q (leg_labels R L 1 c) -> bget L li1 q = dlb q) /\ (In q (leg_labels R L (Z.to_nat (n - 2)) c) -> bget L ri0 q = dra q) /\ (In q (leg_labels R L (Z.to_nat (n - 1)) c) -> bget L ri1 q = drb q)) ->
  exists c1 c2, s_fuse R L [-2; -1] (bxor L ri0 ri1) plus2 c = Some c1 /\ s_fuse R L [0; 1] (bxor L li0 li1) plus2 c1 = Some c2 /\ kind c2 = kind c /\ wf_site (n - 2) (dim L (bxor L li0 li1)) dpv (dim L (bxor L ri0 ri1)) c2 /\
  (forall odd qs, In qs (map fst (part c2 odd)) -> exists l l' p r r', qs = qadd L l l' :: p ++ [qadd L r r'] /\ In (l :: l' :: p ++ [r; r']) (map fst (part c odd))) /\
  (forall odd p l l' r r', Z.of_nat (length p) = n - 4 -> selem c2 (odd, p) (kmap li0 li1 l l') (kmap ri0 ri1 r r') = telem (part c odd) (l :: l' :: p ++ [r; r'])) /\
  (forall odd p s m, Z.of_nat (length p) = n - 4 -> (forall r r', okb ri0 ri1 r r' = true -> kmap ri0 ri1 r r' <> m) -> selem c2 (odd, p) s m = 0') /\
  (forall p s m, (forall r r', okb li0 li1 r r' = true -> kmap li0 li1 r r' <> s) -> selem c2 p s m = 0').
Proof.
  intros c Ne W Lg.
  assert (I0: forall odd b, In b (part c odd) -> bget L li0 (nth 0 (fst b) (q0 L)) = dla (nth 0 (fst b) (q0 L)) /\ bget L li1 (nth 1 (fst b) (q0 L)) = dlb (nth 1 (fst b) (q0 L)) /\
     bget L ri0 (nth (Z.to_nat (n - 2)) (fst b) (q0 L)) = dra (nth (Z.to_nat (n - 2)) (fst b) (q0 L)) /\ bget L ri1 (nth (Z.to_nat (n - 1)) (fst b) (q0 L)) = drb (nth (Z.to_nat (n - 1)) (fst b) (q0 L))).
  { intros odd b Hb. assert (Hi: forall i, In (nth i (fst b) (q0 L)) (leg_labels R L i c)). { intros i. unfold leg_labels. apply in_map_iff. exists b. split; [reflexivity|]. unfold blocks. apply in_app_iff. destruct odd; auto. }
    split; [|split; [|split]]; apply Lg; apply Hi. }
  assert (Lg0: map (leg (n - 1)) [0; 1] = [0; 1]) by reflexivity.
  assert (Lgn: map (leg n) [-2; -1] = [n - 2; n - 1]) by reflexivity.
  destruct c as [t|o e].
  - destruct (W false) as (Wt & Pt & Nt). cbn [part] in Wt, Pt, Nt. destruct (part_fuse t [-2; -1] [0; 1] Lgn Lg0 Wt Pt Nt (I0 false)) as (t1 & t2 & E1 & E2 & W2 & P2 & N2 & O2 & F2 & Z2 & Y2).
    exists (SP t1), (SP t2). cbn [s_fuse]. rewrite E1. cbn [bind]. split; [reflexivity|]. rewrite E2. cbn [bind kind]. split; [reflexivity|]. split; [reflexivity|]. split; [|split; [|split; [|split]]].
    + split; [lia|]. intros []; cbn [part]; [|split; [exact W2|split; [exact P2|exact N2]]]. split; [intros b []|]. split; [intros b []|constructor].
    + intros [] qs Hq; cbn [part] in *; [destruct Hq|]. apply O2. exact Hq.
    + intros odd p l l' r r' Lp. rewrite selem_t. destruct odd; cbn [part]; [reflexivity|]. now apply F2.
    + intros odd p s m Lp Hm. rewrite selem_t. destruct odd; cbn [part]; [reflexivity|]. now apply Z2.
    + intros [odd p] s m Hm. rewrite selem_t. destruct odd; cbn [part]; [reflexivity|]. now apply Y2.
  - destruct (W true) as (Wo & Po & No). destruct (W false) as (We & Pe & Ne'). cbn [part] in *.
    assert (Nd: s_ndim R L (FT o e) = n). { cbn [s_ndim]. unfold blocks in Ne. cbn [part] in Ne. destruct o as [|bo o]; [|rewrite (ndim_wf R L n _ _ Wo ltac:(discriminate))]; (destruct e as [|be e]; [|rewrite (ndim_wf R L n _ _ We ltac:(discriminate))]); cbn [ndim]; rewrite ?Z.lor_diag, ?Z.lor_0_r, ?Z.lor_0_l; try reflexivity; now destruct Ne. }
    assert (Ax: norm_axes n [-2; -1] = [n - 2; n - 1]) by reflexivity.
    assert (Lgn': map (leg n) [n - 2; n - 1] = [n - 2; n - 1]). { cbn [map]. unfold leg. destruct (Z.ltb_spec (n - 2) 0); [lia|]. destruct (Z.ltb_spec (n - 1) 0); [lia|]. reflexivity. }
    destruct (part_fuse o [n - 2; n - 1] [0; 1] Lgn' Lg0 Wo Po No (I0 true)) as (o1 & o2 & E1 & E2 & W2 & P2 & N2 & O2 & F2 & Z2 & Y2).
    destruct (part_fuse e [n - 2; n - 1] [0; 1] Lgn' Lg0 We Pe Ne' (I0 false)) as (e1 & e2 & E1' & E2' & W2' & P2' & N2' & O2' & F2' & Z2' & Y2').
    exists (FT o1 e1), (FT o2 e2). unfold s_fuse. rewrite Nd, Ax, E1, E1'. cbn [bind]. split; [reflexivity|]. change (norm_axes (s_ndim R L (FT o1 e1)) [0; 1]) with [0; 1]. rewrite E2, E2'. cbn [bind kind]. split; [reflexivity|]. split; [reflexivity|]. split; [|split; [|split; [|split]]].
    + split; [lia|]. intros []; cbn [part]; auto.
    + intros [] qs Hq; cbn [part] in *; auto.
    + intros odd p l l' r r' Lp. rewrite selem_t. destruct odd; cbn [part]; auto.
    + intros odd p s m Lp Hm. rewrite selem_t. destruct odd; cbn [part]; auto.
    + intros [odd p] s m Hm. rewrite selem_t. destruct odd; cbn [part]; auto.
Qed.
End OneSite.

(** *** all sites *)
Lemma bget_pos : forall i q, wf L i -> 0 <= bget L i q.
Proof.
  intros i q [_ P]. unfold bget. destruct (dget (qeqb L) i q) as [v|] eqn:E; [|cbn; lia]. cbn. apply (dget_in _ (qeqb_spec L)) in E. specialize (P _ E). cbn [snd] in P. lia.
Qed.
Lemma good_bor : forall i i' d ls ls', good i d ls -> good i' d ls' -> good (bor L i i') d (ls ++ ls').
Proof.
  intros i i' d ls ls' (W & G & H) (W' & G' & H'). split; [apply bor_wf|].
  assert (P: forall q, 0 <= bget L i q /\ 0 <= bget L i' q) by (intros q; split; now apply bget_pos).
  split; intros q; specialize (P q); rewrite bor_get by auto; specialize (G q); specialize (G' q); [lia|]. intros I. apply in_app_iff in I. destruct I as [I|I]; [apply H in I|apply H' in I]; lia.
Qed.
Lemma good_sub : forall i d ls ls', good i d ls -> incl ls' ls -> good i d ls'.
Proof. intros i d ls ls' (W & G & H) I. split; [exact W|]. split; auto. Qed.
(* layout of an end: the labels it has are among ls and at least one is there *)
Definition full (i : binfo) (d : L -> Z) (ls : list L) : Prop := good i d [] /\ (forall q, bget L i q <> 0 -> In q ls) /\ exists q, In q ls /\ bget L i q = d q.
Lemma site4_labels : forall du k dw dla dra dlb drb dpv (x y c : site) q, site4 du k dw dla dra dlb drb dpv x y c -> 0 < du -> 0 <= dw ->
  (In q (leg_labels R L 0 c) -> In q (firsts x)) /\ (In q (leg_labels R L 1 c) -> In q (firsts y)) /\ (In q (leg_labels R L (Z.to_nat (n4 du dw - 2)) c) -> In q (lasts x)) /\ (In q (leg_labels R L (Z.to_nat (n4 du dw - 1)) c) -> In q (lasts y)).
Proof.
  intros du k dw dla dra dlb drb dpv x y c q (_ & _ & O & _) Hu Hw.
  assert (Bk: forall i, In q (leg_labels R L i c) -> exists o ob l u qc r l' w r', Z.of_nat (length u) = du /\ Z.of_nat (length w) = dw /\ q = nth i (l :: l' :: u ++ w ++ [r; r']) (q0 L) /\ In (l :: u ++ qc ++ [r]) (map fst (part x o)) /\ In (l' :: qc ++ w ++ [r']) (map fst (part y ob))).
  { intros i H. unfold leg_labels in H. apply in_map_iff in H. destruct H as (b & <- & Hb). unfold blocks in Hb. apply in_app_iff in Hb.
    assert (Ho: exists odd, In (fst b) (map fst (part c odd))) by (destruct Hb as [Hb|Hb]; [exists true|exists false]; now apply in_map). destruct Ho as (odd & Ho).
    destruct (O odd _ Ho) as (o & l & u & qc & r & l' & w & r' & E & Lu & Lw & H1 & H2). exists o, (partner R L y odd o), l, u, qc, r, l', w, r'. rewrite E. auto. }
  assert (Bl: forall (s : site) o qs, In qs (map fst (part s o)) -> In (nth 0 qs (q0 L)) (firsts s) /\ In (last qs (q0 L)) (lasts s)).
  { intros s o qs H. apply in_map_iff in H. destruct H as (b & <- & Hb). unfold firsts, lasts, blocks. split; apply in_map_iff; exists b; (split; [reflexivity|]); apply in_app_iff; destruct o; auto. }
  assert (Ls: forall l (m : list L) r, last (l :: m ++ [r]) (q0 L) = r). { intros l m r. change (l :: m ++ [r]) with ((l :: m) ++ [r]). apply last_last. }
  assert (Nt: forall (l l' : L) u w r r' d, Z.of_nat (length u) = du -> Z.of_nat (length w) = dw -> nth (Z.to_nat (n4 du dw - 2)) (l :: l' :: u ++ w ++ [r; r']) d = r /\ nth (Z.to_nat (n4 du dw - 1)) (l :: l' :: u ++ w ++ [r; r']) d = r').
  { intros l l' u w r r' d Lu Lw. unfold n4. replace (Z.to_nat (du + dw + 4 - 2)) with (S (S (length (u ++ w)))) by (rewrite app_length; lia). replace (Z.to_nat (du + dw + 4 - 1)) with (S (S (S (length (u ++ w))))) by (rewrite app_length; lia). cbn [nth]. rewrite app_assoc, !app_nth2 by lia. rewrite Nat.sub_diag. replace (S (length (u ++ w)) - length (u ++ w))%nat with 1%nat by lia. split; reflexivity. }
  split; [|split; [|split]]; intros H; apply Bk in H; destruct H as (o & ob & l & u & qc & r & l' & w & r' & Lu & Lw & -> & H1 & H2).
  - apply (Bl _ _ _ H1). - apply (Bl _ _ _ H2).
  - rewrite (proj1 (Nt l l' u w r r' _ Lu Lw)). rewrite <- (Ls l (u ++ qc) r). apply (Bl x o). now rewrite <- app_assoc.
  - rewrite (proj2 (Nt l l' u w r r' _ Lu Lw)). rewrite <- (Ls l' (qc ++ w) r'). apply (Bl y ob). now rewrite <- app_assoc.
Qed.
Lemma full_of : forall i d ls ls', wf L i -> (forall q, bget L i q = if in_dec (q_dec L) q ls then d q else 0) -> ls <> [] -> incl ls ls' -> full i d ls'.
Proof.
  intros i d ls ls' W E Ne I. split; [|split].
  - split; [exact W|]. split; intros q; rewrite E; destruct (in_dec _ _ _); auto. intros [].
  - intros q. rewrite E. destruct (in_dec _ _ _); [auto|congruence].
  - destruct ls as [|q ls]; [congruence|]. exists q. split; [apply I; now left|]. rewrite E. destruct (in_dec _ _ _) as [|H]; [reflexivity|]. destruct H. now left.
Qed.
Definition small (d d' : L -> Z) : Prop := forall q q', d q * d' q' < 2 ^ 32.
Lemma good_small : forall i i' d d' ls ls', good i d ls -> good i' d' ls' -> small d d' -> forall q q', bget L i q * bget L i' q' < 2 ^ 32.
Proof. intros i i' d d' ls ls' (_ & G & _) (_ & G' & _) S q q'. specialize (G q). specialize (G' q'). specialize (S q q'). destruct G as [-> | ->]; [lia|]. destruct G' as [-> | ->]; [lia|exact S]. Qed.
Definition out_shp (hs : list (Z * Z * Z)) (dps : list (Z -> L -> Z)) : list (Z * (Z -> L -> Z)) := combine (map (fun h => let '(du, _, dw) := h in du + dw + 2) hs) dps.
Lemma selem_len : forall n dl dp dr (c : site) odd p l r, wf_site n dl dp dr c -> Z.of_nat (length p) <> n - 2 -> selem c (odd, p) l r = 0'.
Proof.
  intros n dl dp dr c odd p l r [_ W] H. unfold selem. apply elem_absent. intros I. apply in_map_iff in I. destruct I as (b & E & Hb). destruct (W odd) as (Wt & _). destruct (Wt b Hb) as [Lb _]. cbn [fst snd] in *. rewrite E in Lb. cbn [length] in Lb. rewrite app_length, map_length in Lb. cbn [length] in Lb. lia.
Qed.
Lemma okd_len : forall du k dw y d, okd du k dw y d -> Z.of_nat (length (snd (out_phys L d))) = du + dw.
Proof. intros du k dw y [[[oc u] w] C] (_ & Lu & Lw & _). cbn [out_phys snd]. rewrite app_length. lia. Qed.
Lemma okd_kind : forall du k dw y d, okd du k dw y d -> kind y = false -> fst (out_phys L d) = false.
Proof. intros du k dw y [[[oc u] w] C] (H & _) K. cbn [out_phys fst]. auto. Qed.

Lemma fuse_all_spec : forall hs da db dps a b cs, sites4 R L hs da db dps a b cs -> cs <> [] -> Forall2 small da db -> Forall graded b ->
  exists es, mapM (four_infos R L) cs = Some es /\
  forall li0 li1, good li0 (hd (fun _ => 0) da) (leg_labels R L 0 (hd (SP []) cs)) -> good li1 (hd (fun _ => 0) db) (leg_labels R L 1 (hd (SP []) cs)) ->
  exists cs' dc ri0 ri1, fuse_all R L (bxor L li0 li1 :: inner_prod L es) cs = Some cs' /\ wf_sites (dim L (bxor L li0 li1) :: dc) (out_shp hs dps) cs' /\
  Forall2 (fun x y => kind x = kind y) b cs' /\ full ri0 (last da (fun _ => 0)) (lasts (last a (SP []))) /\ full ri1 (last db (fun _ => 0)) (lasts (last b (SP []))) /\
  last (dim L (bxor L li0 li1) :: dc) (fun _ => 0) = dim L (bxor L ri0 ri1) /\
  (forall p s m, (forall r r', okb li0 li1 r r' = true -> kmap li0 li1 r r' <> s) -> selem (hd (SP []) cs') p s m = 0') /\
  (forall p s m, (forall r r', okb ri0 ri1 r r' = true -> kmap ri0 ri1 r r' <> m) -> selem (last cs' (SP [])) p s m = 0') /\
  Forall2 (fun c c' : site => forall odd qs, In qs (map fst (part c' odd)) -> exists l l' p r r', qs = qadd L l l' :: p ++ [qadd L r r'] /\ In (l :: l' :: p ++ [r; r']) (map fst (part c odd))) cs cs' /\
  forall ds, okds R L hs b ds -> prodrel R phy phy phy state state par (kmap li0 li1) (map selem a) (map selem b) (map selem cs') (map (out_phys L) ds) (all_terms R L b ds) (kmap ri0 ri1).
Proof.
  induction 1 as [da db|du k dw dla dra dlb drb dsa dsb dpv hs dps x y c a b cs Hu Hw S4 Nc S IH]; intros Ne Sm G; [congruence|]. clear Ne.
  inversion Sm as [|? ? ? ? Sm0 Sm1]; subst. inversion G as [|? ? Gy G']; subst.
  destruct (four_spec R L du k dw dla dra dlb drb dpv x y c Hu Hw S4 Nc) as (l0 & l1 & r2 & r1 & E4 & (Wl0 & El0) & (Wl1 & El1) & (Wr2 & Er2) & (Wr1 & Er1)).
  cbn [mapM]. rewrite E4. cbn [bind].
  assert (Gr2: good r2 dra (leg_labels R L (Z.to_nat (n4 du dw - 2)) c)). { split; [exact Wr2|]. split; intros q; rewrite Er2; destruct (in_dec _ _ _); auto. tauto. }
  assert (Gr1: good r1 drb (leg_labels R L (Z.to_nat (n4 du dw - 1)) c)). { split; [exact Wr1|]. split; intros q; rewrite Er1; destruct (in_dec _ _ _); auto. tauto. }
  assert (Sm2: small dra drb) by (inversion Sm1; assumption).
  assert (Hn4: 4 <= n4 du dw) by (unfold n4; lia).
  assert (One: forall li0 li1 ri0 ri1, good li0 dla (leg_labels R L 0 c) -> good li1 dlb (leg_labels R L 1 c) -> good ri0 dra (leg_labels R L (Z.to_nat (n4 du dw - 2)) c) -> good ri1 drb (leg_labels R L (Z.to_nat (n4 du dw - 1)) c) ->
    exists c1 c2, s_fuse R L [-2; -1] (bxor L ri0 ri1) plus2 c = Some c1 /\ s_fuse R L [0; 1] (bxor L li0 li1) plus2 c1 = Some c2 /\ kind y = kind c2 /\ wf_site (du + dw + 2) (dim L (bxor L li0 li1)) dpv (dim L (bxor L ri0 ri1)) c2 /\
    (forall odd qs, In qs (map fst (part c2 odd)) -> exists l l' p r r', qs = qadd L l l' :: p ++ [qadd L r r'] /\ In (l :: l' :: p ++ [r; r']) (map fst (part c odd))) /\
    (forall d l l' r r', okd du k dw y d -> selem c2 (out_phys L d) (kmap li0 li1 l l') (kmap ri0 ri1 r r') = gst x y d l l' r r') /\
    (forall p s m, (forall r r', okb ri0 ri1 r r' = true -> kmap ri0 ri1 r r' <> m) -> selem c2 p s m = 0') /\
    (forall p s m, (forall r r', okb li0 li1 r r' = true -> kmap li0 li1 r r' <> s) -> selem c2 p s m = 0')).
  { intros li0 li1 ri0 ri1 GL0 GL1 GR0 GR1. destruct S4 as (Kc & Wc & _ & Fc).
    destruct (site_fuse li0 li1 ri0 ri1 (proj1 GL0) (proj1 GL1) (proj1 GR0) (proj1 GR1) (good_small _ _ _ _ _ _ GL0 GL1 Sm0) (good_small _ _ _ _ _ _ GR0 GR1 Sm2) (n4 du dw) dla dlb dra drb dpv Hn4 c Nc Wc) as (c1 & c2 & E1 & E2 & K2 & W2 & O2 & F2 & Z2 & Y2).
    { intros q. split; [|split; [|split]]; intros Hq; [apply GL0|apply GL1|apply GR0|apply GR1]; exact Hq. }
    exists c1, c2. split; [exact E1|]. split; [exact E2|]. split; [congruence|]. split; [replace (du + dw + 2) with (n4 du dw - 2) by (unfold n4; lia); exact W2|]. split; [exact O2|]. split; [|split; [|exact Y2]].
    - intros d l l' r r' Hd. rewrite <- Fc by auto. pose proof (okd_len _ _ _ _ _ Hd) as Ln. destruct (out_phys L d) as [odd p]. cbn [fst snd] in *. apply F2. unfold n4. lia.
    - intros [odd p] s m Hm. destruct (Z.eq_dec (Z.of_nat (length p)) (du + dw)) as [Lp|Lp]; [apply Z2; [unfold n4; lia|exact Hm]|]. apply (selem_len (n4 du dw - 2) _ _ _ c2 odd p s m W2). unfold n4. lia. }
  destruct cs as [|c' cs].
  - (* last site *)
    inversion S; subst. cbn [mapM bind]. exists [(l0, l1, r2, r1)]. split; [reflexivity|]. cbn [hd]. intros li0 li1 GL0 GL1. cbn [inner_prod].
    destruct (One li0 li1 r2 r1 GL0 GL1 Gr2 Gr1) as (c1 & c2 & E1 & E2 & K2 & W2 & O2 & F2 & Z2 & Y2).
    exists [c2], [dim L (bxor L r2 r1)], r2, r1. cbn [fuse_all]. rewrite E1. cbn [bind]. rewrite E2. cbn [bind]. split; [reflexivity|].
    cbn [out_shp map combine wf_sites hd last]. split; [split; [exact W2|split; reflexivity]|]. split; [repeat constructor; exact K2|]. 
    assert (Nl: forall i, leg_labels R L i c <> []) by (intros i; unfold leg_labels; destruct (blocks c); [congruence|discriminate]).
    split; [apply (full_of _ _ _ _ Wr2 Er2 (Nl _)); intros q Hq; now apply (site4_labels _ _ _ _ _ _ _ _ _ _ _ q S4)|]. split; [apply (full_of _ _ _ _ Wr1 Er1 (Nl _)); intros q Hq; now apply (site4_labels _ _ _ _ _ _ _ _ _ _ _ q S4)|]. split; [reflexivity|]. split; [exact Y2|]. split; [exact Z2|]. split; [repeat constructor; exact O2|].
    intros ds Hd. inversion Hd as [|? ? ? ? ? ? d ds' Hd0 Hd']; subst. inversion Hd'; subst. cbn [map all_terms]. apply prod_one; [intros; now apply F2|now apply terms_move].
  - assert (Hd4: exists da' db', dra :: dsa = dra :: da' /\ drb :: dsb = drb :: db') by eauto. clear Hd4.
    destruct (IH ltac:(discriminate) Sm1 G') as (es & Ees & IH'). rewrite Ees. cbn [bind]. exists ((l0, l1, r2, r1) :: es). split; [reflexivity|]. cbn [hd]. intros li0 li1 GL0 GL1.
    inversion S as [|du' k' dw' dla' dra' dlb' drb' dsa' dsb' dpv' hs' dps' x' y' c'' a' b' cs' Hu' Hw' S4' Nc' S' E'1 E'2]; subst.
    destruct (four_spec R L du' k' dw' dra dra' drb drb' dpv' x' y' c' Hu' Hw' S4' Nc') as (l0' & l1' & r2' & r1' & E4' & (Wl0' & El0') & (Wl1' & El1') & _).
    cbn [mapM] in Ees. rewrite E4' in Ees. cbn [bind] in Ees. destruct (mapM (four_infos R L) cs) as [es'|] eqn:Em; [|discriminate]. cbn [bind] in Ees. injection Ees as <-.
    assert (Gl0: good l0' dra (leg_labels R L 0 c')). { split; [exact Wl0'|]. split; intros q; rewrite El0'; destruct (in_dec _ _ _); auto. tauto. }
    assert (Gl1: good l1' drb (leg_labels R L 1 c')). { split; [exact Wl1'|]. split; intros q; rewrite El1'; destruct (in_dec _ _ _); auto. tauto. }
    pose proof (good_bor _ _ _ _ _ Gl0 Gr2) as B0. pose proof (good_bor _ _ _ _ _ Gl1 Gr1) as B1.
    set (m0 := bor L l0' r2) in *. set (m1 := bor L l1' r1) in *.
    cbn [inner_prod]. fold m0 m1.
    destruct (One li0 li1 m0 m1 GL0 GL1) as (c1 & c2 & E1 & E2 & K2 & W2 & O2 & F2 & Z2 & Y2); [apply (good_sub _ _ _ _ B0); apply incl_appr, incl_refl|apply (good_sub _ _ _ _ B1); apply incl_appr, incl_refl|].
    destruct (IH' m0 m1) as (cs2 & dc & ri0 & ri1 & Ef & Wf & Kf & GR0 & GR1 & Ld & Y3 & Z3 & O3 & P3); [apply (good_sub _ _ _ _ B0); apply incl_appl, incl_refl|apply (good_sub _ _ _ _ B1); apply incl_appl, incl_refl|].
    exists (c2 :: cs2), (dim L (bxor L m0 m1) :: dc), ri0, ri1.
    assert (Ne2: cs2 <> []) by (intros ->; inversion Kf).
    split. { cbn [fuse_all]. rewrite E1. cbn [bind]. rewrite E2. cbn [bind]. cbn [fuse_all] in Ef. cbn [inner_prod] in Ef. rewrite Ef. reflexivity. }
    split. { cbn [out_shp map combine] in *. cbn [wf_sites hd]. split; [exact W2|exact Wf]. }
    split; [constructor; [exact K2|exact Kf]|].
    split; [exact GR0|]. split; [exact GR1|]. split; [exact Ld|]. split; [exact Y2|].
    split. { destruct cs2 as [|c3 cs2]; [congruence|]. exact Z3. }
    split; [constructor; [exact O2|exact O3]|].
    intros ds Hd. inversion Hd as [|? ? ? ? ? ? d ds' Hd0 Hd']; subst. specialize (P3 ds' Hd'). cbn [map all_terms].
    assert (Fm: forall l l' r r', selem c2 (out_phys L d) (kmap li0 li1 l l') (kmap m0 m1 r r') = gst x y d l l' r r') by (intros; now apply F2).
    destruct cs2 as [|c3 cs2]; [congruence|]. inversion Hd' as [|? ? ? ? ? ? d' ds'' Hd1 Hd2]; subst. cbn [map all_terms] in *.
    apply (prod_cons R phy phy phy state state par (kmap li0 li1) (kmap m0 m1) (kmap ri0 ri1) (okb m0 m1)); auto.
    + now apply terms_move.
    + intros z z' w w'. apply kmap_inj; [apply B0|apply B1|exact (good_small _ _ _ _ _ _ B0 B1 Sm2)].
    + intros m. destruct (not_image m0 m1 m (proj1 B0) (proj1 B1) (good_small _ _ _ _ _ _ B0 B1 Sm2)) as [H|H]; [left; exact H|right]. intros s. apply Z2. exact H.
    + intros s z z' O. apply Z2. intros w w' O' E. destruct (kmap_ok L m0 m1 (proj1 B0) (proj1 B1) (good_small _ _ _ _ _ _ B0 B1 Sm2) w w' O') as [_ H]. rewrite E, kmap_bad in H by exact O. lia.
Qed.

(** *** parities of the result *)
Definition conserving (s : site) : Prop := forall odd l m r, In (l :: m ++ [r]) (map fst (part s odd)) -> kind s = true -> charge false odd m = odd.
Lemma charge_app : forall odd m m', charge false odd (m ++ m') = xorb (charge false odd m) (charge false odd m').
Proof. intros odd m m'. unfold MpoVert.charge. induction m; cbn [app fold_right]; [now destruct (fold_right _ _ m')|]. rewrite IHm. now rewrite xorb_assoc. Qed.
Lemma charge_odd : forall o o' m, charge false o m = charge false o' m.
Proof. reflexivity. Qed.
Lemma product_parities : forall hs da db dps a b cs, sites4 R L hs da db dps a b cs -> forall cs', Forall (fun s => kind s = true) a -> Forall graded a -> Forall conserving a -> Forall graded b -> Forall conserving b ->
  Forall2 (fun c c' : site => forall odd qs, In qs (map fst (part c' odd)) -> exists l l' p r r', qs = qadd L l l' :: p ++ [qadd L r r'] /\ In (l :: l' :: p ++ [r; r']) (map fst (part c odd))) cs cs' ->
  Forall2 (fun x y => kind x = kind y) b cs' -> Forall2 (fun h (y : site) => kind y = false -> snd h = 0) hs b -> Forall graded cs' /\ Forall conserving cs'.
Proof.
  induction 1 as [da db|du k dw dla dra dlb drb dsa dsb dpv hs dps x y c a b cs Hu Hw S4 Nc S IH]; intros cs' Ka Ga Ca Gb Cb O K Hk.
  - inversion O; subst. split; constructor.
  - inversion O as [|? c' ? cs2 O1 O2]; subst. inversion K as [|? ? ? ? K1 K2]; subst. inversion Ka; subst. inversion Ga; subst. inversion Ca; subst. inversion Gb; subst. inversion Cb; subst. inversion Hk as [|? ? ? ? Hk1 Hk2]; subst. cbn [snd] in Hk1.
    destruct (IH cs2) as [I1 I2]; auto.
    assert (Q: forall odd l m r, In (l :: m ++ [r]) (map fst (part c' odd)) -> exists o lx ly u qc w rx ry, l = qadd L lx ly /\ r = qadd L rx ry /\ m = u ++ w /\ Z.of_nat (length w) = dw /\ In (lx :: (u ++ qc) ++ [rx]) (map fst (part x o)) /\ In (ly :: (qc ++ w) ++ [ry]) (map fst (part y (partner R L y odd o)))).
    { intros odd l m r Hi. destruct (O1 odd _ Hi) as (lx & ly & p & rx & ry & E & Hp). injection E as -> E. apply app_inj_tail in E. destruct E as [-> ->]. destruct S4 as (_ & _ & Og & _).
      destruct (Og odd _ Hp) as (o & l0 & u & qc & r0 & l0' & w & r0' & E & Lu & Lw & H1' & H2'). injection E as -> -> E. rewrite app_assoc in E. change [rx; ry] with ([rx] ++ [ry]) in E. change [r0; r0'] with ([r0] ++ [r0']) in E. rewrite !app_assoc in E. apply app_inj_tail in E. destruct E as [E ->]. apply app_inj_tail in E. destruct E as [-> ->].
      exists o, l0, l0', u, qc, w, r0, r0'. rewrite <- !app_assoc. auto 10. }
    assert (Px: forall o l m r, In (l :: m ++ [r]) (map fst (part x o)) -> xorb (qpar L l) (qpar L r) = o /\ charge false false m = o).
    { intros o l m r Hi. split; [|match goal with C : conserving x |- _ => apply (C o l m r Hi); assumption end]. match goal with G : graded x, Kx : kind x = true |- _ => rewrite (G o l m r Hi), Kx; reflexivity end. }
    split; constructor; auto.
    + intros odd l m r Hi. destruct (Q odd l m r Hi) as (o & lx & ly & u & qc & w & rx & ry & -> & -> & -> & Lw & H1' & H2'). destruct (Px _ _ _ _ H1') as [P1 P2].
      assert (P3: xorb (qpar L ly) (qpar L ry) = charge (kind y) (partner R L y odd o) (qc ++ w)) by (match goal with G : graded y |- _ => apply (G _ _ _ _ H2') end).
      rewrite !qpar_add, <- K1. rewrite charge_app in P2. unfold partner in P3. destruct (kind y) eqn:Ky; cbn [MpoVert.charge] in P3 |- *.
      * unfold MpoVert.charge in *. destruct (qpar L lx), (qpar L ly), (qpar L rx), (qpar L ry), o, odd; cbn in *; congruence.
      * specialize (Hk1 eq_refl). destruct w as [|]; [|cbn in Lw; lia]. rewrite app_nil_r in *. change (fold_right (fun q p => xorb (qpar L q) p) false qc) with (charge false false qc) in P3. change (fold_right (fun q p => xorb (qpar L q) p) false u) with (charge false false u).
        destruct (qpar L lx), (qpar L ly), (qpar L rx), (qpar L ry), o, (charge false false qc), (charge false false u); cbn in *; congruence.
    + intros odd l m r Hi Kc. destruct (Q odd l m r Hi) as (o & lx & ly & u & qc & w & rx & ry & -> & -> & -> & Lw & H1' & H2'). destruct (Px _ _ _ _ H1') as [P1 P2]. rewrite <- K1 in Kc.
      assert (P3: charge false false (qc ++ w) = partner R L y odd o) by (match goal with C : conserving y |- _ => apply (C _ _ _ _ H2' Kc) end). unfold partner in P3. rewrite Kc in P3. rewrite (charge_odd odd false), charge_app. rewrite charge_app in P2, P3.
      destruct (charge false false u), (charge false false qc), (charge false false w), o, odd; cbn in *; congruence.
Qed.

(** *** the product *)
Definition prod_sum (a b : list site) (ds : list (bool * list state * list state * list (list state))) (Ba Bb : list (list state)) (l l' r r' : state) : R :=
  bsum (choices (all_terms R L b ds)) (fun ts => sgn (jw (par l') ts) (amplitude Ba a (map t_a ts) l r *' amplitude Bb b (map t_b ts) l' r')).
Lemma okds_moves : forall hs b ds, okds R L hs b ds -> Forall graded b -> Forall2 (moves R phy phy state par) (map selem b) (all_terms R L b ds).
Proof. induction 1; intros G; cbn [map all_terms]; constructor; inversion G; subst; auto. now apply terms_move. Qed.
Lemma vanish_zero : forall hs a b ds Ba Bb l l' r r', vanish R L hs a b -> okds R L hs b ds -> Forall graded b -> length a = length b -> bonds Ba a -> bonds Bb b -> prod_sum a b ds Ba Bb l l' r r' = 0'.
Proof.
  intros hs a b ds Ba Bb l l' r r' V D G Ll Ca Cb. unfold prod_sum, amplitude. apply (prod_zero R phy phy state par (st_dec L)); auto.
  - destruct V; discriminate. - now rewrite !map_length. - exact (okds_moves _ _ _ D G).
  - clear - V D. revert ds D. induction V as [du k dw hs x y a b H|h hs x y a b V IH]; intros ds D; inversion D as [|? ? ? ? ? ? d ds' D1 D2]; subst; cbn [map all_terms gmats].
    + eexists. split; [left; reflexivity|]. intros tt0 p q. cbn beta. now apply H.
    + destruct (IH ds' D2) as (f & Hf & Z0). exists f. split; [now right|exact Z0].
Qed.
Lemma sites4_len : forall hs da db dps a b cs, sites4 R L hs da db dps a b cs -> length a = length b /\ length a = length hs /\ (a <> [] -> cs <> []).
Proof. induction 1; cbn [length]; [split; [reflexivity|split; [reflexivity|congruence]]|]. split; [f_equal; tauto|split; [f_equal; tauto|discriminate]]. Qed.
Lemma vmatch_dw : forall hs sa sb b, vmatch R L hs sa sb b -> Forall2 (fun h (y : site) => kind y = false -> snd h = 0) hs b.
Proof. induction 1 as [|du k dw dpa dpb y hs sa sb ys Hu Hk Hw D Sh V IH]; constructor; [|exact IH]. intros K. rewrite K in Sh. exact Sh. Qed.
Lemma mul_spec : forall a b hs da db sa sb, a <> [] -> wf_sites da sa a -> wf_sites db sb b -> vmatch R L hs sa sb b -> Forall (fun s => kind s = true) a -> Forall graded a -> Forall graded b -> Forall conserving a -> Forall conserving b -> Forall2 small da db ->
  exists res, mul_tensors R L a b = Some res /\
  match res with
  | None => forall ds Ba Bb l l' r r', okds R L hs b ds -> bonds Ba a -> bonds Bb b -> prod_sum a b ds Ba Bb l l' r r' = 0'
  | Some c => exists dc li0 li1 ri0 ri1, wf_sites dc (out_shp hs (dpcs L hs sa sb)) c /\ Forall2 (fun x y => kind x = kind y) b c /\ Forall graded c /\ Forall conserving c /\
      full li0 (hd (fun _ => 0) da) (firsts (hd (SP []) a)) /\ full li1 (hd (fun _ => 0) db) (firsts (hd (SP []) b)) /\ full ri0 (last da (fun _ => 0)) (lasts (last a (SP []))) /\ full ri1 (last db (fun _ => 0)) (lasts (last b (SP []))) /\
      hd (fun _ => 0) dc = dim L (bxor L li0 li1) /\ last dc (fun _ => 0) = dim L (bxor L ri0 ri1) /\
      (forall p s m, (forall r r', okb li0 li1 r r' = true -> kmap li0 li1 r r' <> s) -> selem (hd (SP []) c) p s m = 0') /\
      (forall p s m, (forall r r', okb ri0 ri1 r r' = true -> kmap ri0 ri1 r r' <> m) -> selem (last c (SP [])) p s m = 0') /\
      forall ds Ba Bb Bc l l' r r', okds R L hs b ds -> bonds Ba a -> bonds Bb b -> bonds Bc c -> amplitude Bc c (map (out_phys L) ds) (kmap li0 li1 l l') (kmap ri0 ri1 r r') = prod_sum a b ds Ba Bb l l' r r'
  end.
Proof.
  intros a b hs da db sa sb Ne Wa Wb V K Ga Gb Ca0 Cb0 Sm. unfold mul_tensors. destruct (pdot_all_spec R L a b hs da db sa sb Wa Wb V K Ga) as [[E Z0]|(cs & E & S)]; rewrite E; cbn [bind].
  - exists None. split; [reflexivity|]. intros ds Ba Bb l l' r r' D Ca Cb. apply (vanish_zero hs); auto.
    clear - Wa Wb V. revert b hs da db sb V Wa Wb. revert sa. induction a as [|x a IH]; intros sa b hs da db sb V Wa Wb.
    + destruct Wa as [-> _]. inversion V; subst. reflexivity.
    + destruct sa as [|[? ?] sa]; [destruct Wa|]. destruct da; [destruct Wa|]. destruct Wa as [_ Wa]. inversion V; subst. destruct db; [destruct Wb|]. destruct Wb as [_ Wb]. cbn [length]. f_equal. eapply IH; eauto.
  - destruct (sites4_len _ _ _ _ _ _ _ S) as (Lab & Lah & Nc). specialize (Nc Ne).
    destruct (fuse_all_spec hs da db _ a b cs S Nc Sm Gb) as (es & Ees & F). rewrite Ees. cbn [bind].
    inversion S as [|du k dw dla dra dlb drb dsa dsb dpv hs' dps x y c a' b' cs' Hu Hw S4 Nc' S' E1]; subst; [congruence|].
    destruct (four_spec R L du k dw dla dra dlb drb dpv x y c Hu Hw S4 Nc') as (l0 & l1 & r2 & r1 & E4 & (Wl0 & El0) & (Wl1 & El1) & _).
    cbn [mapM] in Ees. rewrite E4 in Ees. cbn [bind] in Ees. destruct (mapM (four_infos R L) cs') as [es'|]; [|discriminate]. cbn [bind] in Ees. injection Ees as <-. cbn [prod_bonds].
    assert (Nl: forall i, leg_labels R L i c <> []) by (intros i; unfold leg_labels; destruct (blocks c); [congruence|discriminate]).
    destruct (F l0 l1) as (c2 & dc & ri0 & ri1 & Ef & Wf & Kf & GR0 & GR1 & Ld & Y & Z0 & Og & P); cbn [hd].
    { split; [exact Wl0|]. split; intros q; rewrite El0; destruct (in_dec _ _ _); auto. tauto. } { split; [exact Wl1|]. split; intros q; rewrite El1; destruct (in_dec _ _ _); auto. tauto. }
    rewrite Ef. cbn [bind]. exists (Some c2). split; [reflexivity|]. exists (dim L (bxor L l0 l1) :: dc), l0, l1, ri0, ri1.
    split; [exact Wf|]. split; [exact Kf|]. destruct (product_parities _ _ _ _ _ _ _ S c2 K Ga Ca0 Gb Cb0 Og Kf (vmatch_dw _ _ _ _ V)) as [Gc Cc0]. split; [exact Gc|]. split; [exact Cc0|]. split; [apply (full_of _ _ _ _ Wl0 El0 (Nl _)); intros q Hq; now apply (site4_labels _ _ _ _ _ _ _ _ _ _ _ q S4)|]. split; [apply (full_of _ _ _ _ Wl1 El1 (Nl _)); intros q Hq; now apply (site4_labels _ _ _ _ _ _ _ _ _ _ _ q S4)|].
    split; [exact GR0|]. split; [exact GR1|]. split; [reflexivity|]. split; [exact Ld|]. split; [exact Y|]. split; [exact Z0|].
    intros ds Ba Bb Bc l l' r r' D Ca Cb Cc. unfold amplitude, prod_sum. apply (chain_prod R phy phy phy state state par (st_dec L) (st_dec L) _ _ _ _ _ _ _ (P ds D)); assumption.
Qed.
End MSite.
