(** C63: the block-sparse operator made of a sum of strings acts on matrix product states like the sum of the strings. *)
From Coq Require Import ZArith Bool List Lia Ring Permutation.
From Verif Require Import SymModel SymProofs SymProps DictLib IndexLib OptLib RingLib FuseModel FuseProofs BlockProofs MpsModel MpsChain MpsProofs MpsDot MpsProps MpoModel MpoMul MpoProps SiteModel SiteProofs SiteOps SiteProps QcAlg QcWords QcModel QcSite QcChain TosModel TosProofs TosProps BuildModel BuildProofs BuildChain BuildSweep BuildFinal BuildExists BuildLabels BuildProps FullModel FullOps FullChain FullProofs FullBuild.
Import ListNotations.
Open Scope Z_scope.

(** ** Specification: electrons on sites *)
(* label of a site that is empty, has an electron with spin up or down, or two *)
Definition occupied (irrep x : Z) : SZ := if x =? 0 then mkSZ 0 0 0 else if x =? 1 then mkSZ 1 1 irrep else if x =? 2 then mkSZ 1 (-1) irrep else mkSZ 2 0 0.
(* physical legs of a determinant (the last site first, as in [word]) *)
Definition legs (orb : Z -> Z) (b : list Z) : list (list (SZ_label * Z)) :=
  map (fun p => [((occupied (orb (fst p)) (snd p) : SZ_label), 0)]) (combine (zrange (Z.of_nat (length b))) (rev b)).
(* the four states of every site *)
Definition site_legs (orb : Z -> Z) (n : nat) : list (list (list (SZ_label * Z))) :=
  map (fun i => map (fun x => [((occupied (orb i) x : SZ_label), 0)]) [0; 1; 2; 3]) (zrange (Z.of_nat n)).
Definition single (_ : Z) (_ : SZ_label) : Z := 1.

Lemma legs_eq : forall orb b, legs orb b = dstates orb b.
Proof.
  intros orb. induction b as [|x b IH]; [reflexivity|]. cbn [dstates]. rewrite <- IH. unfold legs. cbn [length rev]. rewrite zrange_S, combine_snoc by (rewrite rev_length, zrange_length; lia). rewrite map_app. reflexivity.
Qed.
Lemma site_legs_eq : forall orb n, site_legs orb n = all_sites orb n.
Proof. intros. reflexivity. Qed.

Lemma times_le : forall (q : L) l, 0 <= times L q l <= Z.of_nat (length l).
Proof. intros q l. unfold times. induction l as [|x l IH]; [cbn; lia|]. cbn [filter length]. destruct (qeqb L q x); cbn [length]; lia. Qed.

Section C63.
Variable R : CRing.
Add Ring RR : (rth R).
Notation "0'" := (r0 R). Notation "1'" := (r1 R).
Infix "+'" := (radd R) (at level 50, left associativity).
Infix "*'" := (rmul R) (at level 40, left associativity).
Variable orb : Z -> Z.
Variable iszero tiny big : R -> bool.
Variable svd : nat -> nat -> (nat -> nat -> R) -> option (nat * (nat -> nat -> R) * (nat -> R) * (nat -> nat -> R)).
Variable is0 : R -> bool.
Variable merge : (list (MpsModel.site R L) -> option (list (MpsModel.site R L))) -> (list (MpsModel.site R L) -> option (list (MpsModel.site R L))) -> (list (MpsModel.site R L) -> option (list (MpsModel.site R L))).

Theorem c63_build_apply : (forall x, is0 x = true <-> x = 0') -> exact_cutoffs R iszero tiny big -> factorises R svd -> (forall n m a, svd n m a <> None) -> iszero 1' = false ->
  forall n terms, (2 <= n)%nat -> Forall (fun t => on_sites n (snd t) /\ neutral orb (snd t)) terms ->
  exists ops da ts, build_sparse R orb iszero tiny big svd n terms = Some ops /\
  (* every bond has as many states as the table has columns *)
  symbolic_mpo R orb iszero tiny big svd n terms = Some ts /\ Forall2 (fun (d : L -> Z) k => forall q, 0 <= d q <= Z.of_nat k) da (1%nat :: map (t_cols R) ts) /\
  wf_sites da (repeat (4, single) n) ops /\ Forall operator_site ops /\ vacuum_ends R L ops da /\
  forall const (psi : mps R L) db,
    wf_sites db (repeat (3, single) n) (m_tensors psi) -> Forall state_site (m_tensors psi) -> phys R L (repeat (3, single) n) (site_legs orb n) (m_tensors psi) ->
    fits32 da db -> (exists ql qr, Forall (fun q => q = ql) (firsts (first_site (m_tensors psi))) /\ Forall (fun q => q = qr) (lasts (last_site (m_tensors psi)))) ->
    m_const psi = 0' -> m_opts psi = None ->
    exists res, mps_matmul R L is0 merge (Mps ops const None) psi = Some res /\
    match res with
    | MulMps c => m_const c = 0' /\ m_opts c = None /\
        forall Bb Bc b' s s', In b' (all_states n) -> bonds Bb (m_tensors psi) -> bonds Bc (m_tensors c) -> sz_is_fermion (fst s) = false ->
        amplitude Bc (m_tensors c) (map (pair false) (legs orb b')) s s' =
        bsum (all_states n) (fun b => bsum terms (fun t => fst t *' word R n (snd t) b' b) *' amplitude Bb (m_tensors psi) (map (pair false) (legs orb b)) s s') +'
        const *' amplitude Bb (m_tensors psi) (map (pair false) (legs orb b')) s s'
    (* c32_apply_constant_refuted: the constant is lost in this case *)
    | MulNum x => x = 0' /\
        forall Bb b' s s', In b' (all_states n) -> bonds Bb (m_tensors psi) -> sz_is_fermion (fst s) = false ->
        bsum (all_states n) (fun b => bsum terms (fun t => fst t *' word R n (snd t) b' b) *' amplitude Bb (m_tensors psi) (map (pair false) (legs orb b)) s s') = 0'
    end.
Proof.
  intros I0 EC SV ST I1 n terms N2 F. assert (N0 : n <> 0%nat) by lia.
  destruct (c61_exists R orb iszero tiny big svd EC SV ST I1 n terms N0 F) as (ess & Eb & Le & V); [intros; lia|]. pose proof EC as (IZ & TZ & BZ).
  assert (Es : exists ts, symbolic_mpo R orb iszero tiny big svd n terms = Some ts). { unfold build_mpo in Eb. destruct (symbolic_mpo R orb iszero tiny big svd n terms) as [ts|]; [eauto|discriminate]. }
  destruct Es as [ts Es].
  assert (Lt : length ts = n) by (destruct (c61_labels R orb iszero tiny big svd EC SV n terms ts N0 F Es) as [H _]; exact H).
  destruct (build_linked R orb iszero tiny big svd IZ TZ SV n terms ts N2) as (ys & ess' & Ey & Eb' & En & Ec & Lk & Ly); [| |exact Es|exact Lt|].
  { eapply Forall_impl; [|exact F]. intros t [H _]. now apply on_okl. }
  { eapply Forall_impl; [|exact F]. intros t [_ H]. now apply neutral_lsum. }
  rewrite Eb in Eb'. injection Eb' as <-.
  destruct (to_sparse_good R msym msym_eqb orb ys [] [sz_zero] None eq_refl (good_nil R msym msym_eqb orb) Lk) as (ss & E & Ls & G). cbn [app length] in E, G.
  set (zs := combine ys ss) in *. assert (Lz : length zs = n) by (unfold zs; rewrite combine_length; lia).
  assert (Sz : map snd zs = ss) by (unfold zs; apply map_snd_combine; lia). assert (Fz : map fst zs = ys) by (unfold zs; clear - Ls; revert ss Ls; induction ys as [|y ys IH]; intros [|s ss] H; try discriminate; [reflexivity|]; cbn; f_equal; apply IH; now injection H).
  exists ss, (dims R msym zs), ts. split; [unfold build_sparse; rewrite Es; cbn [bind]; rewrite Ey; cbn [bind]; exact E|]. split; [exact Es|]. split.
  { unfold dims. constructor; [intros q; exact (times_le (sz_neg q) [sz_zero])|]. assert (Cl : map (fun y => length (ycols R msym y)) ys = map (t_cols R) ts).
    { rewrite <- (map_map (ycols R msym) (fun l => length l)), Ec, map_map. apply map_ext_in. intros t It. destruct (c61_labels R orb iszero tiny big svd EC SV n terms ts N0 F Es) as (_ & H & _). exact (proj2 (H t It)). }
    rewrite <- Cl, <- Fz, map_map. clear. induction zs as [|z zs IH]; constructor; [|exact IH]. intros q. apply times_le. }
  destruct (good_wf R msym msym_eqb orb zs _ G) as [W O]. rewrite Lz, Sz in W. rewrite Sz in O. split; [exact W|]. split; [exact O|].
  assert (Ne : zs <> []) by (intros X; rewrite X in Lz; cbn in Lz; lia). split; [rewrite <- Sz; exact (good_vacuum R msym msym_eqb orb zs G Ne)|].
  intros const psi db Wb Sb Ph F32 Un Cb Ob. rewrite <- Lz in Wb, Ph, N2. rewrite site_legs_eq in Ph.
  destruct (apply_tables R msym msym_eqb orb is0 I0 merge zs const psi db G N2 Wb Sb Ph F32 Un Cb Ob) as (res & Er & H). rewrite Sz in Er. exists res. split; [exact Er|].
  assert (T : ttabs R msym msym_eqb zs = combine (zrange (Z.of_nat n)) ess). { unfold ttabs. rewrite Lz. f_equal. rewrite <- En, <- Fz, map_map. reflexivity. }
  assert (K : forall Bb b' s s', In b' (all_states n) ->
    bsum (states (length zs)) (fun b => value R 0 (paths R orb (ttabs R msym msym_eqb zs)) b' b *' amplitude Bb (m_tensors psi) (map (pair false) (dstates orb b)) s s') =
    bsum (all_states n) (fun b => bsum terms (fun t => fst t *' word R n (snd t) b' b) *' amplitude Bb (m_tensors psi) (map (pair false) (legs orb b)) s s')).
  { intros Bb b' s s' B'. rewrite Lz, T. apply bsum_ext. intros b B. rewrite V, legs_eq; [reflexivity|exact B'|exact B]. }
  assert (Lb : forall b', In b' (all_states n) -> length b' = length zs) by (intros b' B'; rewrite Lz; apply states_len; exact B').
  destruct res as [x|c].
  - destruct H as [Hx H]. split; [exact Hx|]. intros Bb b' s s' B' HB Ev. rewrite <- (K Bb b' s s' B'). now apply H; [apply Lb| |].
  - destruct H as (Hc & Ho & H). split; [exact Hc|]. split; [exact Ho|]. intros Bb Bc b' s s' B' HB HC Ev. rewrite <- (K Bb b' s s' B'). rewrite legs_eq. now apply H; [apply Lb| | |].
Qed.
(* a string that is not neutral is refused *)
Theorem c63_refused : (forall x, tiny x = true -> x = 0') -> forall n terms t, (2 <= n)%nat -> In t terms -> fst t <> 0' -> ~ neutral orb (snd t) -> build_sparse R orb iszero tiny big svd n terms = None.
Proof.
  intros TZ n terms t N I F0 NN. unfold build_sparse, symbolic_mpo. destruct n as [|[|n]]; try lia. replace (S (S n) - 1)%nat with (S n) by lia.
  cbn [sweep]. unfold right_svd, groups_of, start. cbn [c_mat c_lop c_ops length seq combine foldM]. unfold add_row at 1. cbn [fst snd]. cbn [dget msym_eqb bind terms_of].
  destruct (iszero 1') eqn:I1; [reflexivity|]. cbn [bind].
  rewrite (add_terms_none R orb 0 0 [] _ (fst (sort_term R t) *' 1') (snd (sort_term R t))); [reflexivity| |].
  - apply in_map_iff. exists (sort_term R t). split; [|apply in_map, I]. unfold scale. rewrite I1. destruct (tiny (fst (sort_term R t) *' 1')) eqn:T; [|reflexivity]. elim F0. apply TZ in T. unfold sort_term in T. cbn [fst] in T.
    assert (S0 : swap_sign R (snd t) (fst t) = 0') by (rewrite <- T; ring). destruct (swap_sign_pm R (snd t) (fst t)) as [E|E]; rewrite E in S0; [exact S0|]. replace (fst t) with (ropp R (ropp R (fst t))) by ring. rewrite S0. ring.
  - rewrite lab_sum_eq. intros L. apply NN, neutral_lsum. rewrite <- L. unfold sort_term. cbn [snd]. apply lsum_perm, Permutation_map, sort_perm.
Qed.
End C63.


(** two sites: 3 (a+0u a1u + a+1u a0u) + 4 (a+0d a1d + a+1d a0d) - 2 n0u n0d + 10 on 2 |up, down> + 5 |both, empty>; the empty string is a number *)
Definition sz (a b c : Z) : SZ_label := mkSZ a b c.
Definition sblk (q : list SZ_label) (x : Z) : list SZ_label * nd Z_ring := (q, mkNd (R := Z_ring) [1; 1; 1] (fun _ => x)).
Definition c63_terms : list (Z * list letter) :=
  [(3, [(false, (0, 0)); (true, (1, 0))]); (3, [(false, (1, 0)); (true, (0, 0))]); (4, [(false, (0, 1)); (true, (1, 1))]); (4, [(false, (1, 1)); (true, (0, 1))]);
   (-2, [(false, (0, 0)); (false, (0, 1)); (true, (0, 1)); (true, (0, 0))]); (7, [])].
Definition c63_psi : mps Z_ring SZ_label := Mps
  [SP [sblk [sz 0 0 0; sz 1 1 6; sz 1 1 6] 2; sblk [sz 0 0 0; sz 2 0 0; sz 2 0 0] 5];
   SP [sblk [sz 1 1 6; sz 1 (-1) 6; sz 2 0 0] 1; sblk [sz 2 0 0; sz 0 0 0; sz 2 0 0] 1] ] 0 None.
Definition c63_build := build_sparse Z_ring (fun _ => 6) (Z.eqb 0) (Z.eqb 0) (fun x => negb (x =? 0)) c61_svd 2.
Definition c63_mul (const : Z) : option (mul_result Z_ring SZ_label) :=
  do ops <- c63_build c63_terms; mps_matmul Z_ring SZ_label is_zero (fun f _ => f) (Mps (R := Z_ring) ops const None) c63_psi.
Definition c63_bond : list (list (SZ_label * Z)) := [flat_map (fun q => map (pair q) (zrange 4)) [sz 0 0 0; sz 1 1 6; sz 1 (-1) 6; sz 2 0 0] ].
Definition c63_amp (ts : list (MpsModel.site Z_ring SZ_label)) (b : list Z) : Z := amplitude c63_bond ts (map (pair false) (legs (fun _ => 6) b)) (sz 0 0 0, 0) (sz 2 0 0, 0).
(* determinants: the last site first *)
Definition c63_dets : list (list Z) := [[2; 1]; [0; 3]; [1; 2]; [3; 0]; [1; 1]; [0; 0] ].
Example c63_ex : option_map (fun m => match m with MulMps c => map (c63_amp (m_tensors c)) c63_dets | _ => [] end) (c63_mul 10) = Some [2 * (7 + 10) + 5 * 4; 5 * (-2 + 7 + 10) + 2 * 4; 5 * -3; 2 * 3; 0; 0].
Proof. vm_compute. reflexivity. Qed.
(* C+ of one site has no partner *)
Example c63_ex_refused : c63_build [(1, [(false, (0, 0))])] = None.
Proof. vm_compute. reflexivity. Qed.
Definition c63_ones : list (SZ_label -> Z) := [fun _ => 1; fun _ => 1; fun _ => 1].
Ltac nodup_labels := cbn; constructor; [cbn; intros [E|[]]; discriminate E|constructor; [intros []|constructor] ].
Ltac small_labels := split; [lia|]; intros []; (split; [intros ? Hx; cbn in Hx; repeat (destruct Hx as [<-|Hx]; [split; reflexivity|]); destruct Hx
  |split; [intros ? Hx; cbn in Hx; repeat (destruct Hx as [<-|Hx]; [repeat constructor|]); destruct Hx|first [nodup_labels|constructor] ] ]).
Lemma one_leg : forall (bs : list (list SZ_label * nd Z_ring)) (P : list (list (SZ_label * Z))) p (l r : SZ_label * Z),
  Forall (fun b => nshape (snd b) = [1; 1; 1] /\ exists q x q', fst b = [q; x; q'] /\ In [(x, 0)] P) bs -> ~ In p P -> selem (SP bs) (false, p) l r = 0.
Proof.
  intros bs P p l r F N. unfold selem, part. cbn [fst snd]. unfold elem. apply (bsum_zero Z_ring). intros b I. rewrite Forall_forall in F. destruct (F b I) as (Sh & q & x & q' & Eb & Ip). rewrite Eb.
  match goal with |- context [tup_eqb _ ?a ?c] => destruct (tup_eqb_spec _ a c) as [E|E]; [|reflexivity] end.
  destruct p as [|[y k] [|z p]]; cbn [map app fst snd] in E |- *; [discriminate| |destruct p; discriminate]. injection E as E1 E2 E3. subst y. apply (nget_out Z_ring). rewrite Sh. intros B. apply in_shapeb_spec in B. cbn in B. destruct (Z.eqb_spec k 0) as [->|Nk]; [contradiction|]. lia.
Qed.
Lemma c63_psi_ok : wf_sites c63_ones (repeat (3, single) 2) (m_tensors c63_psi) /\ Forall state_site (m_tensors c63_psi) /\ phys Z_ring SZ_label (repeat (3, single) 2) (site_legs (fun _ => 6) 2) (m_tensors c63_psi).
Proof.
  split; [split; [small_labels|]; split; [small_labels|]; split; reflexivity|]. split; [repeat (apply Forall_cons || apply Forall_nil); (split; [reflexivity|parities1])|].
  assert (Nd : NoDup (map (fun x => [((occupied 6 x : SZ_label), 0)]) [0; 1; 2; 3])) by (repeat constructor; cbn; intros X; repeat (destruct X as [X|X]; [discriminate X|]); destruct X).
  assert (Ln : forall p, In p (map (fun x => [((occupied 6 x : SZ_label), 0)]) [0; 1; 2; 3]) -> Z.of_nat (length p) = 3 - 2) by (intros p I; cbn in I; repeat (destruct I as [<-|I]; [reflexivity|]); destruct I).
  repeat (split; [exact Nd|]; split; [exact Ln|]; split; [intros p l r N; apply (one_leg _ _ _ _ _) with (2 := N); repeat (constructor; [split; [reflexivity|do 3 eexists; split; [reflexivity|cbn; auto] ]|]); constructor|]). reflexivity.
Qed.
Lemma c63_cols : option_map (map (t_cols Z_ring)) (symbolic_mpo Z_ring (fun _ => 6) (Z.eqb 0) (Z.eqb 0) (fun x => negb (x =? 0)) c61_svd 2 c63_terms) = Some [5; 1]%nat.
Proof. vm_compute. reflexivity. Qed.
Lemma c63_mps : match c63_mul 10 with Some (MulMps _) => true | _ => false end = true.
Proof. vm_compute. reflexivity. Qed.
Example c63_ex_applies : exists ops res, c63_build c63_terms = Some ops /\ mps_matmul Z_ring SZ_label is_zero (fun f _ => f) (Mps (R := Z_ring) ops 10 None) c63_psi = Some (MulMps res) /\
  forall Bc b', In b' (all_states 2) -> bonds Bc (m_tensors res) ->
  (amplitude Bc (m_tensors res) (map (pair false) (legs (fun _ => 6) b')) (sz 0 0 0, 0%Z) (sz 2 0 0, 0%Z) : Z) =
  bsum (R := Z_ring) (all_states 2) (fun b => bsum (R := Z_ring) c63_terms (fun t => fst t * word Z_ring 2 (snd t) b' b) * c63_amp (m_tensors c63_psi) b) + 10 * c63_amp (m_tensors c63_psi) b'.
Proof.
  destruct (c63_build_apply Z_ring (fun _ => 6) (Z.eqb 0) (Z.eqb 0) (fun x => negb (x =? 0)) c61_svd is_zero (fun f _ => f) is_zero_spec c61_cut c61_fac ltac:(discriminate) eq_refl 2 c63_terms (le_n 2)) as (ops & da & ts & E & Et & D & _ & _ & _ & H).
  { repeat (constructor; [split; [repeat (constructor; [cbn; lia|]); constructor|repeat split]|]). constructor. }
  destruct c63_psi_ok as (W & S & P).
  destruct (H 10 c63_psi c63_ones W S P) as (res & Er & A); [|exists (sz 0 0 0), (sz 2 0 0); split; repeat constructor|reflexivity|reflexivity|].
  { assert (C := c63_cols). rewrite Et in C. cbn [option_map] in C. apply (f_equal (fun o => match o with Some l => l | None => [] end)) in C. rewrite C in D. unfold c63_ones, fits32. clear - D.
    inversion D as [|d0 ? r0 ? D0 D' E0 E1]; subst. inversion D' as [|d1 ? r1 ? D1 D2 E0 E1]; subst. inversion D2 as [|d2 ? r2 ? D3 D4 E0 E1]; subst. inversion D4; subst.
    repeat constructor; intros q q'; [specialize (D0 q)|specialize (D1 q)|specialize (D3 q)]; lia. }
  exists ops. assert (X := c63_mps). unfold c63_mul in X. change (c63_build c63_terms = Some ops) in E. rewrite E in X. cbn [bind] in X. destruct res as [x|c]; [rewrite Er in X; discriminate|]. exists c. split; [exact E|]. split; [exact Er|].
  destruct A as (_ & _ & A). intros Bc b' B' HB. apply (A c63_bond Bc b' (sz 0 0 0, 0) (sz 2 0 0, 0)); auto. split; [|split; [|exact I] ].
  - cbn. repeat constructor; cbn; intros Y; repeat (destruct Y as [Y|Y]; [discriminate Y|]); destruct Y.
  - intros [[] p] l m Nm; [reflexivity|]. unfold selem. cbn [part fst snd c63_psi]. unfold elem. apply (bsum_zero Z_ring). intros b Ib. match goal with |- context [tup_eqb _ ?a ?c] => destruct (tup_eqb_spec _ a c) as [Eq|Eq]; [|reflexivity] end.
    assert (Sh : nshape (snd b) = [1; 1; 1]) by (destruct Ib as [<-|[<-|[] ] ]; reflexivity). assert (Q : exists q x q', fst b = [q; x; q'] /\ (q' = sz 1 1 6 \/ q' = sz 2 0 0)) by (destruct Ib as [<-|[<-|[] ] ]; do 3 eexists; (split; [reflexivity|auto])).
    destruct Q as (q & x & q' & Eb & Hq). rewrite Eb in Eq. destruct p as [|[y k] [|z p] ]; cbn [map app fst snd] in Eq |- *; [discriminate| |destruct p; discriminate]. injection Eq as E1 E2 E3.
    apply (nget_out Z_ring). rewrite Sh. intros B. apply in_shapeb_spec in B. cbn in B. destruct m as [u v]. cbn [fst snd] in *. assert (v = 0) by lia. subst v u. apply Nm. destruct Hq as [-> | ->]; apply in_flat_map; eexists; (split; [|apply in_map; left; reflexivity]); cbn; auto 6.
Qed.
Print Assumptions c63_build_apply.
Print Assumptions c63_refused.
