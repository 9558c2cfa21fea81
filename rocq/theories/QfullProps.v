(** C65: the block-sparse operator of a quantum chemistry Hamiltonian acts on matrix product states like the Hamiltonian. *)
From Coq Require Import ZArith QArith Qcanon Bool List Lia Ring.
From Verif Require Import SymModel SymProofs SymProps DictLib IndexLib OptLib RingLib FuseModel FuseProofs BlockProofs MpsModel MpsChain MpsProofs MpsDot MpsProps MpoModel MpoMul MpoProps SiteModel SiteProofs SiteOps SiteProps QcAlg QcWords QcModel QcSite QcChain QcProps TosModel TosProofs TosProps FullModel FullOps FullChain FullProofs FullProps QfullModel QfullGrade QfullProofs.
Import ListNotations.
Open Scope Z_scope.

Section C65.
Variable R : CRing.
Add Ring RR : (rth R).
Notation "0'" := (r0 R). Notation "1'" := (r1 R).
Infix "+'" := (radd R) (at level 50, left associativity).
Infix "*'" := (rmul R) (at level 40, left associativity).
Variable is0 : R -> bool.
Variable merge : (list (MpsModel.site R L) -> option (list (MpsModel.site R L))) -> (list (MpsModel.site R L) -> option (list (MpsModel.site R L))) -> (list (MpsModel.site R L) -> option (list (MpsModel.site R L))).

Theorem c65_qc_apply : (forall x, is0 x = true <-> x = 0') -> 1' <> 0' ->
  forall half small iszero osym t v symmetrized_p n, 2 <= n -> half +' half = 1' ->
  (forall x, iszero x = true -> x = 0') -> (forall x, small x = true -> x = 0') ->
  (* integrals of real orbitals, with the symmetry of the orbitals *)
  (forall s i j, t s i j = t s j i) ->
  (forall a b i j k l, v a b i j k l = v a b j i k l) -> (forall a b i j k l, v a b i j k l = v a b i j l k) ->
  (forall a b i j k l, v a b i j k l = v b a k l i j) ->
  (forall s i j, osym i <> osym j -> t s i j = 0' /\ forall u, v s u i j j j = 0') ->
  exists ops da, build_qc_mpo R half small iszero osym t v symmetrized_p n = Some ops /\
  (* the states of a bond are among the names of the table *)
  Forall2 (fun (d : L -> Z) k => forall q, 0 <= d q <= bond_names n k) da (zrange (n + 1)) /\
  wf_sites da (repeat (4, single) (Z.to_nat n)) ops /\ Forall operator_site ops /\ vacuum_ends R L ops da /\
  forall const (psi : mps R L) db,
    wf_sites db (repeat (3, single) (Z.to_nat n)) (m_tensors psi) -> Forall state_site (m_tensors psi) -> phys R L (repeat (3, single) (Z.to_nat n)) (site_legs osym (Z.to_nat n)) (m_tensors psi) ->
    fits32 da db -> (exists ql qr, Forall (fun q => q = ql) (firsts (first_site (m_tensors psi))) /\ Forall (fun q => q = qr) (lasts (last_site (m_tensors psi)))) ->
    m_const psi = 0' -> m_opts psi = None ->
    exists res, mps_matmul R L is0 merge (Mps ops const None) psi = Some res /\
    match res with
    | MulMps c => m_const c = 0' /\ m_opts c = None /\
        forall Bb Bc b' s s', In b' (all_states (Z.to_nat n)) -> bonds Bb (m_tensors psi) -> bonds Bc (m_tensors c) -> sz_is_fermion (fst s) = false ->
        amplitude Bc (m_tensors c) (map (pair false) (legs osym b')) s s' =
        bsum (all_states (Z.to_nat n)) (fun b => hamiltonian R half t v n b' b *' amplitude Bb (m_tensors psi) (map (pair false) (legs osym b)) s s') +'
        const *' amplitude Bb (m_tensors psi) (map (pair false) (legs osym b')) s s'
    (* c32_apply_constant_refuted: the constant is lost in this case *)
    | MulNum x => x = 0' /\
        forall Bb b' s s', In b' (all_states (Z.to_nat n)) -> bonds Bb (m_tensors psi) -> sz_is_fermion (fst s) = false ->
        bsum (all_states (Z.to_nat n)) (fun b => hamiltonian R half t v n b' b *' amplitude Bb (m_tensors psi) (map (pair false) (legs osym b)) s s') = 0'
    end.
Proof.
  intros I0 N10 half small iszero osym t v symmetrized_p n N2 H2 IZ SM TS V1 V2 V3 OS.
  assert (Hh : iszero half = false). { destruct (iszero half) eqn:E; [|reflexivity]. elim N10. rewrite <- H2, (IZ _ E). ring. }
  destruct (c60_hamiltonian R half small iszero osym t v symmetrized_p n N2 H2 IZ SM TS V1 V2 V3 OS) as (ess & Eb & Le & V).
  destruct (qc_linked R half small iszero osym t v symmetrized_p n N2 Hh ess Eb) as (ys & Ey & Ly & En & Lk & Cl).
  destruct (to_sparse_good R qop qop_eqb osym ys [] [sz_zero] None eq_refl (good_nil R qop qop_eqb osym) Lk) as (ss & E & Ls & G). cbn [app length] in E, G.
  set (zs := combine ys ss) in *. assert (Lz : length zs = Z.to_nat n) by (unfold zs; rewrite combine_length; lia).
  assert (Sz : map snd zs = ss) by (unfold zs; apply map_snd_combine; lia). assert (Fz : map fst zs = ys) by (unfold zs; clear - Ls; revert ss Ls; induction ys as [|y ys IH]; intros [|s ss] H; try discriminate; [reflexivity|]; cbn; f_equal; apply IH; now injection H).
  exists ss, (dims R qop zs). split; [unfold build_qc_mpo; rewrite Ey; cbn [bind]; exact E|]. split.
  { assert (Zr : zrange (n + 1) = 0 :: map (fun k => k + 1) (zrange n)).
    { unfold zrange. replace (Z.to_nat (n + 1)) with (S (Z.to_nat n)) by lia. cbn [seq map]. f_equal. rewrite <- seq_shift, !map_map. apply map_ext. intros. lia. }
    rewrite Zr. unfold dims. constructor; [intros q; exact (times_le (sz_neg q) [sz_zero])|].
    assert (Cz : map (fun z => ycols R qop (fst z)) zs = map (fun k => clab R osym n (k + 1)) (zrange n)) by (rewrite <- Cl, <- Fz, map_map; reflexivity).
    assert (Zk : forall k, In k (zrange n) -> 0 <= k < n) by (intros k I; now apply in_zrange in I).
    clear - Cz Zk half small iszero t v N2 Hh. revert Cz Zk. generalize (zrange n). induction zs as [|z zs IH]; intros [|k l] Cz Zk; try discriminate; cbn [map]; [constructor|].
    cbn [map] in Cz. injection Cz as Cz1 Cz2. constructor; [|apply IH; [exact Cz2|intros; apply Zk; now right] ]. intros q.
    assert (Hk := Zk k (or_introl eq_refl)). assert (Lc := clab_len R half small iszero osym t v n (k + 1)). rewrite <- Cz1 in Lc. specialize (Lc ltac:(lia)). unfold bond_names. assert (T : 0 <= times L q (ycols R qop (fst z)) <= Z.of_nat (@length SZ (ycols R qop (fst z)))) by exact (times_le q (ycols R qop (fst z))).
    rewrite Lc in T. destruct ((k + 1 =? 0) || (k + 1 =? n)); lia. }
  destruct (good_wf R qop qop_eqb osym zs _ G) as [W O]. rewrite Lz, Sz in W. rewrite Sz in O. split; [exact W|]. split; [exact O|].
  assert (Ne : zs <> []) by (intros X; rewrite X in Lz; cbn in Lz; lia). split; [rewrite <- Sz; exact (good_vacuum R qop qop_eqb osym zs G Ne)|].
  intros const psi db Wb Sb Ph F32 Un Cb Ob. rewrite <- Lz in Wb, Ph. assert (N2' : (2 <= length zs)%nat) by lia. rewrite site_legs_eq in Ph.
  destruct (apply_tables R qop qop_eqb osym is0 I0 merge zs const psi db G N2' Wb Sb Ph F32 Un Cb Ob) as (res & Er & H). rewrite Sz in Er. exists res. split; [exact Er|].
  assert (T : ttabs R qop qop_eqb zs = combine (zrange n) ess). { unfold ttabs. rewrite Lz, Z2Nat.id by lia. f_equal. rewrite <- En, <- Fz, map_map. reflexivity. }
  assert (K : forall Bb b' s s', In b' (all_states (Z.to_nat n)) ->
    bsum (states (length zs)) (fun b => value R 0 (paths R osym (ttabs R qop qop_eqb zs)) b' b *' amplitude Bb (m_tensors psi) (map (pair false) (dstates osym b)) s s') =
    bsum (all_states (Z.to_nat n)) (fun b => hamiltonian R half t v n b' b *' amplitude Bb (m_tensors psi) (map (pair false) (legs osym b)) s s')).
  { intros Bb b' s s' B'. rewrite Lz, T. apply bsum_ext. intros b B. rewrite V, legs_eq; [reflexivity|exact B'|exact B]. }
  assert (Lb : forall b', In b' (all_states (Z.to_nat n)) -> length b' = length zs) by (intros b' B'; rewrite Lz; apply states_len; exact B').
  destruct res as [x|c].
  - destruct H as [Hx H]. split; [exact Hx|]. intros Bb b' s s' B' HB Ev. rewrite <- (K Bb b' s s' B'). now apply H; [apply Lb| |].
  - destruct H as (Hc & Ho & H). split; [exact Hc|]. split; [exact Ho|]. intros Bb Bc b' s s' B' HB HC Ev. rewrite <- (K Bb b' s s' B'). rewrite legs_eq. now apply H; [apply Lb| | |].
Qed.
End C65.

(** two sites, the integrals of c60_ex: 2 |up, down> + 5 |both, empty>, constant 10 *)
Definition c65_blk (q : list SZ_label) (x : Z) : list SZ_label * nd Qc_ring := (q, mkNd (R := Qc_ring) [1; 1; 1] (fun _ => Q2Qc (inject_Z x))).
Definition c65_psi : mps Qc_ring SZ_label := Mps (R := Qc_ring)
  [SP [c65_blk [sz 0 0 0; sz 1 1 0; sz 1 1 0] 2; c65_blk [sz 0 0 0; sz 2 0 0; sz 2 0 0] 5];
   SP [c65_blk [sz 1 1 0; sz 1 (-1) 0; sz 2 0 0] 1; c65_blk [sz 2 0 0; sz 0 0 0; sz 2 0 0] 1] ] (Q2Qc 0) None.
Definition c65_build := build_qc_mpo Qc_ring (Q2Qc (1 # 2)) c60_zero c60_zero (fun _ => 0) c60_t c60_v true 2.
Definition c65_mul : option (mul_result Qc_ring SZ_label) :=
  do ops <- c65_build; mps_matmul Qc_ring SZ_label c60_zero (fun f _ => f) (Mps (R := Qc_ring) ops (Q2Qc 10) None) c65_psi.
Definition c65_bond : list (list (SZ_label * Z)) := [flat_map (fun q => map (pair q) (zrange 60)) [sz 0 0 0; sz 1 1 0; sz 1 (-1) 0; sz 2 0 0] ].
Definition c65_num (x : Qc) : Z * BinNums.positive := (Qnum (this x), Qden (this x)).
Definition c65_amp (ts : list (MpsModel.site Qc_ring SZ_label)) (b : list Z) : Z * BinNums.positive := c65_num (amplitude c65_bond ts (map (pair false) (legs (fun _ => 0) b)) (sz 0 0 0, 0) (sz 2 0 0, 0)).
(* <21|H|21> = 7, <21|H|03> = 5, <03|H|03> = 6, <12|H|21> = -2, <12|H|03> = -5, <30|H|21> = 5, <30|H|03> = 2 *)
Example c65_ex : option_map (fun m => match m with MulMps c => map (c65_amp (m_tensors c)) c63_dets | _ => [] end) c65_mul =
  Some (map (fun x => (x, xH)) [2 * 7 + 5 * 5 + 10 * 2; 2 * 5 + 5 * 6 + 10 * 5; 2 * -2 + 5 * -5; 2 * 5 + 5 * 2; 0; 0]).
Proof. vm_compute. reflexivity. Qed.
(* the hypotheses of the theorem hold of this case *)
Definition c65_ones : list (SZ_label -> Z) := [fun _ => 1; fun _ => 1; fun _ => 1].
Lemma c65_leg : forall (bs : list (list SZ_label * nd Qc_ring)) (P : list (list (SZ_label * Z))) p (l r : SZ_label * Z),
  Forall (fun b => nshape (snd b) = [1; 1; 1] /\ exists q x q', fst b = [q; x; q'] /\ In [(x, 0)] P) bs -> ~ In p P -> selem (SP bs) (false, p) l r = r0 Qc_ring.
Proof.
  intros bs P p l r F N. unfold selem, part. cbn [fst snd]. unfold elem. apply (bsum_zero Qc_ring). intros b I. rewrite Forall_forall in F. destruct (F b I) as (Sh & q & x & q' & Eb & Ip). rewrite Eb.
  match goal with |- context [tup_eqb _ ?a ?c] => destruct (tup_eqb_spec _ a c) as [E|E]; [|reflexivity] end.
  destruct p as [|[y k] [|z p]]; cbn [map app fst snd] in E |- *; [discriminate| |destruct p; discriminate]. injection E as E1 E2 E3. subst y. apply (nget_out Qc_ring). rewrite Sh. intros B. apply in_shapeb_spec in B. cbn in B. destruct (Z.eqb_spec k 0) as [->|Nk]; [contradiction|]. lia.
Qed.
Lemma c65_psi_ok : wf_sites c65_ones (repeat (3, single) 2) (m_tensors c65_psi) /\ Forall state_site (m_tensors c65_psi) /\ phys Qc_ring SZ_label (repeat (3, single) 2) (site_legs (fun _ => 0) 2) (m_tensors c65_psi).
Proof.
  split; [split; [small_labels|]; split; [small_labels|]; split; reflexivity|]. split; [repeat (apply Forall_cons || apply Forall_nil); (split; [reflexivity|parities1])|].
  assert (Nd : NoDup (map (fun x => [((occupied 0 x : SZ_label), 0)]) [0; 1; 2; 3])) by (repeat constructor; cbn; intros X; repeat (destruct X as [X|X]; [discriminate X|]); destruct X).
  assert (Ln : forall p, In p (map (fun x => [((occupied 0 x : SZ_label), 0)]) [0; 1; 2; 3]) -> Z.of_nat (length p) = 3 - 2) by (intros p I; cbn in I; repeat (destruct I as [<-|I]; [reflexivity|]); destruct I).
  repeat (split; [exact Nd|]; split; [exact Ln|]; split; [intros p l r N; apply (c65_leg _ _ _ _ _) with (2 := N); repeat (constructor; [split; [reflexivity|do 3 eexists; split; [reflexivity|cbn; auto] ]|]); constructor|]). reflexivity.
Qed.
Lemma c60_zero_spec : forall x, c60_zero x = true <-> x = r0 Qc_ring.
Proof. intros x. unfold c60_zero. destruct (Qc_eq_dec x (Q2Qc 0)) as [E|E]; split; intros F; auto; try discriminate F; now elim E. Qed.
Example c65_ex_applies : exists ops res, c65_build = Some ops /\ mps_matmul Qc_ring SZ_label c60_zero (fun f _ => f) (Mps (R := Qc_ring) ops (Q2Qc 10) None) c65_psi = Some res /\
  match res with
  | MulMps c => forall Bb Bc b', In b' (all_states 2) -> bonds Bb (m_tensors c65_psi) -> bonds Bc (m_tensors c) ->
    amplitude Bc (m_tensors c) (map (pair false) (legs (fun _ => 0) b')) (sz 0 0 0, 0%Z) (sz 2 0 0, 0%Z) =
    radd Qc_ring (bsum (R := Qc_ring) (all_states 2) (fun b => rmul Qc_ring (hamiltonian Qc_ring (Q2Qc (1 # 2)) c60_t c60_v 2 b' b) (amplitude Bb (m_tensors c65_psi) (map (pair false) (legs (fun _ => 0) b)) (sz 0 0 0, 0%Z) (sz 2 0 0, 0%Z))))
      (rmul Qc_ring (Q2Qc 10) (amplitude Bb (m_tensors c65_psi) (map (pair false) (legs (fun _ => 0) b')) (sz 0 0 0, 0%Z) (sz 2 0 0, 0%Z)))
  | MulNum _ => False
  end.
Proof.
  assert (Z0 : forall x, c60_zero x = true -> x = r0 Qc_ring) by (intros x; apply c60_zero_spec).
  destruct (c65_qc_apply Qc_ring c60_zero (fun f _ => f) c60_zero_spec ltac:(discriminate) (Q2Qc (1 # 2)) c60_zero c60_zero (fun _ => 0) c60_t c60_v true 2) as (ops & da & E & D & _ & _ & _ & H); try assumption.
  - lia.
  - apply Qc_is_canon. reflexivity.
  - intros s i j. unfold c60_t. rewrite (Z.eqb_sym j). destruct (Z.eqb_spec i j) as [->|]; reflexivity.
  - intros. unfold c60_v. now rewrite (Z.eqb_sym j).
  - intros. unfold c60_v. now rewrite (Z.eqb_sym l).
  - intros. unfold c60_v. now rewrite andb_comm.
  - intros s i j F. now elim F.
  - destruct c65_psi_ok as (W & S & P).
    destruct (H (Q2Qc 10) c65_psi c65_ones W S P) as (res & Er & A); [|exists (sz 0 0 0), (sz 2 0 0); split; repeat constructor|reflexivity|reflexivity|].
    { unfold c65_ones, fits32. clear - D. cbn in D.
      inversion D as [|d0 ? r0 ? D0 D' E0 E1]; subst. inversion D' as [|d1 ? r1 ? D1 D2 E0 E1]; subst. inversion D2 as [|d2 ? r2 ? D3 D4 E0 E1]; subst. inversion D4; subst.
      repeat constructor; intros q q'; [specialize (D0 q)|specialize (D1 q)|specialize (D3 q)]; unfold bond_names in *; cbn in *; lia. }
    exists ops, res. split; [exact E|]. split; [exact Er|].
    assert (X : match c65_mul with Some (MulMps _) => true | _ => false end = true) by (vm_compute; reflexivity). unfold c65_mul in X. change (c65_build = Some ops) in E. rewrite E in X. cbn [bind] in X.
    destruct res as [x|c]; [rewrite Er in X; discriminate|]. destruct A as (_ & _ & A). intros Bb Bc b' B' HB HC. now apply (A Bb Bc b' (sz 0 0 0, 0) (sz 2 0 0, 0)).
Qed.
Print Assumptions c65_qc_apply.
