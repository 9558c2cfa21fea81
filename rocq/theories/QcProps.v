(** C37, C60: the tables of QCSymbolicMPO. *)
From Coq Require Import ZArith Bool List Lia Ring QArith Qcanon.
From Verif Require Import SymModel DictLib IndexLib RingLib OptLib SiteModel SiteProofs SiteOps SiteProps QcModel QcProg QcCols QcAlg QcStep QcWords QcLayout QcSite QcChain QcFill.
Import ListNotations.
Open Scope Z_scope.

(** ** C37: layout *)
(* number of names on the bond with m sites on its left: H, I, one for every site and spin in C/D/R/RD, three for every pair of
   sites and pair of spins *)
Definition bond_names (n m : Z) : Z := if (m =? 0) || (m =? n) then 1 else 2 + 4 * n + 3 * (2 * m) * (2 * m).
(* charge of an electron, and of the operators *)
Definition electron (osym : Z -> Z) (j s : Z) : SZ := mkSZ 1 (if s =? 0 then 1 else -1) (osym j).
Definition charge (osym : Z -> Z) (o : qop) : SZ :=
  let e := electron osym in
  match o with
  | QI | QH => mkSZ 0 0 0
  | QC j s | QRD j s => e j s
  | QD j s | QR j s => sz_neg (e j s)
  | QA i j s u | QPD i j s u => sz_add (e i s) (e j u)
  | QAD i j s u | QP i j s u => sz_neg (sz_add (e i s) (e j u))
  | QB i j s u => sz_sub (e i s) (e j u)
  | QQ i j s u => sz_sub (e j u) (e i s)
  end.
Theorem c37_labels : forall osym o, q_label osym o = charge osym o.
Proof.
  intros osym o. destruct o; cbn [q_label charge]; unfold sz_neg, sz_add, sz_sub, electron, szs; cbn [sz_n sz_twos sz_pg]; f_equal; try lia.
  apply Z.lxor_comm.
Qed.

Theorem c37_layout : forall R half iszero v symmetrized_p osym n, 2 <= n -> iszero half = false -> forall m, 0 <= m < n ->
  exists s, qc_site R half iszero v symmetrized_p n m = Some s /\
    s_rows R s = bond_names n m /\ s_cols R s = bond_names n (m + 1) /\
    Z.of_nat (length (s_lop R s)) = s_rows R s /\ Z.of_nat (length (s_rop R s)) = s_cols R s /\
    (* entries: none outside, none missing *)
    (forall w, In w (s_mat R s) -> 0 <= fst (fst w) < s_rows R s /\ 0 <= snd (fst w) < s_cols R s) /\
    (forall r, 0 <= r < s_rows R s -> exists w, In w (s_mat R s) /\ fst (fst w) = r) /\
    (forall c, 0 <= c < s_cols R s -> exists w, In w (s_mat R s) /\ snd (fst w) = c) /\
    (forall o, In o (s_lop R s) \/ In o (s_rop R s) -> o <> None) /\
    (* names of the next site *)
    (forall s', qc_site R half iszero v symmetrized_p n (m + 1) = Some s' -> m + 1 < n ->
       length (s_rop R s) = length (s_lop R s') /\
       forall k x o, nth_error (s_rop R s) k = Some (Some (x, o)) ->
         exists y o', nth_error (s_lop R s') k = Some (Some (y, o')) /\ q_label osym o' = sz_neg (q_label osym o)).
Proof.
  intros R half iszero v symmetrized_p osym n N HZ m H.
  assert (SE : forall m, 0 <= m < n -> qc_site R half iszero v symmetrized_p n m = Some (mkSite R
     (if m =? 0 then 1 else lshape n m) (if m =? n - 1 then 1 else rshape n m) (site_writes R half iszero v symmetrized_p n m)
     (if m =? 0 then [sy R QH] else lc R half iszero n m) (if m =? n - 1 then [sy R QH] else rc R n (m + 1)))).
  { intros k K. unfold qc_site. rewrite (site_mat_eq R half iszero v symmetrized_p n N k K), (site_lop_eq R half iszero n k K), (site_rop_eq R half iszero n k K). reflexivity. }
  assert (FO : forall k, Forall2 (opposite R osym) (rc R n k) (lc R half iszero n k)) by (intros k; now apply bond_opposite).
  assert (FL : forall k o, In o (lc R half iszero n k) -> o <> None).
  { intros k o I. specialize (FO k). induction FO as [|a b la lb [x [p [y [q [-> [-> _]]]]]] F IH]; [destruct I|].
    destruct I as [<-|I]; [discriminate|now apply IH]. }
  assert (FR : forall k o, In o (rc R n k) -> o <> None).
  { intros k o I. specialize (FO k). induction FO as [|a b la lb [x [p [y [q [-> [-> _]]]]]] F IH]; [destruct I|].
    destruct I as [<-|I]; [discriminate|now apply IH]. }
  eexists. split; [now apply SE|]. cbn [s_rows s_cols s_lop s_rop s_mat].
  split; [unfold bond_names, lshape; destruct (Z.eqb_spec m 0); [reflexivity|]; destruct (Z.eqb_spec m n); [lia|cbn [orb]; lia]|].
  split; [unfold bond_names, rshape; destruct (Z.eqb_spec (m + 1) 0); [lia|]; destruct (Z.eqb_spec (m + 1) n), (Z.eqb_spec m (n - 1)); try lia; cbn [orb]; lia|].
  split; [destruct (m =? 0); [reflexivity|]; change (zlen (lc R half iszero n m) = lshape n m); rewrite lc_len by lia; unfold lshape; lia|].
  split; [destruct (m =? n - 1); [reflexivity|]; change (zlen (rc R n (m + 1)) = rshape n m); rewrite (rc_len R half iszero) by lia; unfold rshape; lia|].
  split; [intros w I; pose proof (proj1 (Forall_forall _ _) (writes_in R half iszero v symmetrized_p n N m H) w I) as [A [B _]]; auto|].
  split; [intros r Hr; now apply rows_used|]. split; [intros c Hc; now apply cols_used|].
  split.
  { intros o [I|I].
    - destruct (m =? 0); [destruct I as [<-|[]]; discriminate|now apply (FL m)].
    - destruct (m =? n - 1); [destruct I as [<-|[]]; discriminate|now apply (FR (m + 1))]. }
  intros s' E' M. rewrite SE in E' by lia. injection E' as <-. cbn [s_lop]. replace (m =? n - 1) with false by lia. replace (m + 1 =? 0) with false by lia.
  specialize (FO (m + 1)). split; [clear -FO; induction FO; cbn; congruence|].
  intros k x o K. revert k K. induction FO as [|a b la lb [x0 [p [y [q [-> [-> Q]]]]]] F IH]; intros [|k] K; try discriminate.
  - injection K as <- <-. exists y, q. auto.
  - now apply IH.
Qed.

(* a chain of one site: the table has as many columns as an inner bond, but one column name *)
Theorem c37_one_site_refuted : exists s, qc_site Z_ring 0 (Z.eqb 0) (fun _ _ _ _ _ _ => 1) true 1 0 = Some s /\
  length (s_rop Z_ring s) = 1%nat /\ s_cols Z_ring s = 18 /\ exists w, In w (s_mat Z_ring s) /\ snd (fst w) = 17.
Proof.
  assert (E : match qc_site Z_ring 0 (Z.eqb 0) (fun _ _ _ _ _ _ => 1) true 1 0 with
     | Some s => length (s_rop Z_ring s) = 1%nat /\ s_cols Z_ring s = 18 /\ existsb (fun w => snd (fst w) =? 17) (s_mat Z_ring s) = true
     | None => False end) by (vm_compute; auto).
  destruct (qc_site Z_ring 0 (Z.eqb 0) (fun _ _ _ _ _ _ => 1) true 1 0) as [s|]; [|contradiction]. destruct E as [A [B C]].
  apply existsb_exists in C. destruct C as [w [I W]]. apply Z.eqb_eq in W. exists s. repeat split; auto. exists w. auto.
Qed.

Definition c37_integrals (s u i j k l : Z) : Z := 1.
Example c37_ex :
  match qc_site Z_ring 5 (Z.eqb 0) c37_integrals false 3 1, qc_site Z_ring 5 (Z.eqb 0) c37_integrals false 3 2 with
  | Some a, Some b =>
      (s_rows Z_ring a, s_cols Z_ring a, Z.of_nat (length (s_mat Z_ring a))) = (26, 62, 127) /\
      map (nth_error (s_rop Z_ring a)) [0; 4; 12; 30; 61]%nat =
        [Some (Some (1, QH)); Some (Some (1, QC 0 1)); Some (Some (-1, QR 2 0)); Some (Some (1, QAD 0 0 0 0)); Some (Some (1, QB 1 1 1 1))] /\
      map (nth_error (s_lop Z_ring b)) [0; 4; 12; 30; 61]%nat =
        [Some (Some (1, QI)); Some (Some (1, QR 0 1)); Some (Some (1, QC 2 0)); Some (Some (5, QPD 0 0 0 0)); Some (Some (1, QQ 1 1 1 1))]
  | _, _ => False
  end.
Proof. vm_compute. auto. Qed.

(** ** C60: the tables multiply to the Hamiltonian *)
Section C60.
Variable R : CRing.
Add Ring RR : (rth R).
Notation "0'" := (r0 R). Notation "1'" := (r1 R).
Infix "+'" := (radd R) (at level 50, left associativity).
Infix "*'" := (rmul R) (at level 40, left associativity).
Notation "-' a" := (ropp R a) (at level 35).
(* sum_ij t_ij c+_i c_j + 1/2 sum_ijkl v_ijkl c+_i c+_k c_l c_j between two lists of site states (last site first) *)
Definition hamiltonian (half : R) (t : Z -> Z -> Z -> R) (v : Z -> Z -> Z -> Z -> Z -> Z -> R) (n : Z) (b' b : list Z) : R :=
  let w := word R (Z.to_nat n) in
  bsum [0; 1] (fun s => bsum (zrange n) (fun i => bsum (zrange n) (fun j => t s i j *' w [(false, (i, s)); (true, (j, s))] b' b))) +'
  half *' bsum [0; 1] (fun s => bsum [0; 1] (fun u => bsum (zrange n) (fun i => bsum (zrange n) (fun j => bsum (zrange n) (fun k => bsum (zrange n) (fun l =>
    v s u i j k l *' w [(false, (i, s)); (false, (k, u)); (true, (l, u)); (true, (j, s))] b' b)))))).

Lemma ham_eq : forall half t v n b' b, 0 <= n -> sem R half t v (modes n) QH (phi R (Z.to_nat n) b' b) = hamiltonian half t v n b' b.
Proof.
  intros half t v n b' b N. cbn [sem]. unfold Hs, hamiltonian.
  assert (OK : forall a i s, 0 <= i < n -> is_spin s -> okl (Z.to_nat n) (a, (i, s))).
  { intros a i s I [-> | ->]; (split; [cbn; lia|cbn; auto]). }
  f_equal; [|f_equal].
  - rewrite sum_modes. apply bsum_ext. intros s S. apply in2 in S. apply bsum_ext. intros i I. apply in_zrange in I.
    rewrite (bsum_ext R _ (modes n) _ (fun y => if s =? snd y then t s i (fst y) *' phi R (Z.to_nat n) b' b [cr (i, s); an y] else 0')).
    2:{ intros y _. unfold T1. cbn [fst snd]. destruct (s =? snd y); ring. }
    rewrite spin_sum by exact S. apply bsum_ext. intros j J. apply in_zrange in J. cbn [fst].
    rewrite phi_ok by (repeat (apply Forall_cons; [now apply OK|]); constructor). reflexivity.
  - unfold ssum4, ssum3. rewrite sum_modes. apply bsum_ext. intros s S. apply in2 in S.
    rewrite (bsum_ext R _ (zrange n) _ (fun i => bsum [0; 1] (fun u => bsum (zrange n) (fun j => bsum (zrange n) (fun k => bsum (zrange n) (fun l =>
       v s u i j k l *' word R (Z.to_nat n) [(false, (i, s)); (false, (k, u)); (true, (l, u)); (true, (j, s))] b' b)))))).
    { apply (bsum_swap R _ _ (zrange n) [0; 1]). }
    intros i I. apply in_zrange in I.
    rewrite (bsum_ext R _ (modes n) _ (fun y => if s =? snd y then bsum [0; 1] (fun u => bsum (zrange n) (fun k => bsum (zrange n) (fun l =>
       v s u i (fst y) k l *' phi R (Z.to_nat n) b' b [cr (i, s); cr (k, u); an (l, u); an y]))) else 0')).
    2:{ intros y _. unfold V2. cbn [fst snd]. destruct (s =? snd y).
        - rewrite sum_modes. apply bsum_ext. intros u U. apply in2 in U. apply bsum_ext. intros k _.
          rewrite (bsum_ext R _ (modes n) _ (fun w => if u =? snd w then v s u i (fst y) k (fst w) *' phi R (Z.to_nat n) b' b [cr (i, s); cr (k, u); an w; an y] else 0')).
          + now rewrite spin_sum.
          + intros w _. cbn [fst snd]. destruct (u =? snd w); ring.
        - apply bsum_zero. intros z _. apply bsum_zero. intros w _. ring. }
    rewrite spin_sum by exact S. cbn [fst]. rewrite (bsum_swap R _ _ (zrange n) [0; 1]). apply bsum_ext. intros u U. apply in2 in U.
    apply bsum_ext. intros j J. apply bsum_ext. intros k K. apply bsum_ext. intros l L. apply in_zrange in J, K, L.
    rewrite phi_ok by (repeat (apply Forall_cons; [now apply OK|]); constructor). reflexivity.
Qed.

Theorem c60_hamiltonian : forall half small iszero osym t v symmetrized_p n, 2 <= n -> half +' half = 1' ->
  (forall x, iszero x = true -> x = 0') -> (forall x, small x = true -> x = 0') ->
  (* integrals of real orbitals, with the symmetry of the orbitals *)
  (forall s i j, t s i j = t s j i) ->
  (forall a b i j k l, v a b i j k l = v a b j i k l) -> (forall a b i j k l, v a b i j k l = v a b i j l k) ->
  (forall a b i j k l, v a b i j k l = v b a k l i j) ->
  (forall s i j, osym i <> osym j -> t s i j = 0' /\ forall u, v s u i j j j = 0') ->
  exists ts, qc_mpo R half small iszero osym t v symmetrized_p n = Some ts /\ length ts = Z.to_nat n /\
    forall b' b, In b' (all_states (Z.to_nat n)) -> In b (all_states (Z.to_nat n)) ->
      value R 0 (paths R osym (combine (zrange n) ts)) b' b = hamiltonian half t v n b' b.
Proof.
  intros half small iszero osym t v symmetrized_p n N H2 IZ SM TS V1 V2 V3 OS.
  destruct (mpo_value R half small iszero osym t v symmetrized_p n N H2 IZ SM TS V1 V2 V3 OS) as [ts [E [L P]]].
  exists ts. split; [exact E|]. split; [exact L|]. intros b' b B' B. rewrite P by assumption. apply ham_eq. lia.
Qed.
End C60.

(* two and three sites, every integral different from 0 *)
Definition c60_t (s i j : Z) : Qc := if i =? j then Q2Qc (inject_Z (i + 1)) else Q2Qc (inject_Z 3).
Definition c60_v (s u i j k l : Z) : Qc := Q2Qc (inject_Z (if (i =? j) && (k =? l) then 4 else 2)).
Definition c60_zero (x : Qc) : bool := if Qc_eq_dec x (Q2Qc 0) then true else false.
Definition c60_elements (n : Z) (symmetrized_p : bool) (l : list (list Z * list Z)) : option (list (Z * positive)) :=
  do ts <- qc_mpo Qc_ring (Q2Qc (1 # 2)) c60_zero c60_zero (fun _ => 0) c60_t c60_v symmetrized_p n;
  Some (map (fun b => let x := value Qc_ring 0 (paths Qc_ring (fun _ => 0) (combine (zrange n) ts)) (fst b) (snd b) in (Qnum (this x), Qden (this x))) l).
Example c60_ex :
  c60_elements 2 true [([1; 2], [3; 0]); ([3; 2], [2; 3]); ([3; 3], [3; 3]); ([1; 2], [0; 0])] = Some [(-5, 1%positive); (-7, 1%positive); (26, 1%positive); (0, 1%positive)] /\
  c60_elements 3 false [([1; 1; 2], [1; 2; 1]); ([3; 0; 2], [2; 0; 3]); ([3; 3; 3], [3; 3; 3])] = c60_elements 3 true [([1; 1; 2], [1; 2; 1]); ([3; 0; 2], [2; 0; 3]); ([3; 3; 3], [3; 3; 3])].
Proof. vm_compute. auto. Qed.
(* the hypotheses of the theorem hold of these integrals *)
Example c60_ex_applies : exists ts, qc_mpo Qc_ring (Q2Qc (1 # 2)) c60_zero c60_zero (fun _ => 0) c60_t c60_v true 3 = Some ts /\ length ts = 3%nat /\
  forall b' b, In b' (all_states 3) -> In b (all_states 3) ->
    value Qc_ring 0 (paths Qc_ring (fun _ => 0) (combine (zrange 3) ts)) b' b = hamiltonian Qc_ring (Q2Qc (1 # 2)) c60_t c60_v 3 b' b.
Proof.
  assert (Z0 : forall x, c60_zero x = true -> x = r0 Qc_ring) by (intros x; unfold c60_zero; destruct (Qc_eq_dec x (Q2Qc 0)); [auto|discriminate]).
  apply (c60_hamiltonian Qc_ring (Q2Qc (1 # 2)) c60_zero c60_zero (fun _ => 0) c60_t c60_v true 3); try assumption.
  - lia.
  - apply Qc_is_canon. reflexivity.
  - intros s i j. unfold c60_t. rewrite (Z.eqb_sym j). destruct (Z.eqb_spec i j) as [->|]; reflexivity.
  - intros. unfold c60_v. now rewrite (Z.eqb_sym j).
  - intros. unfold c60_v. now rewrite (Z.eqb_sym l).
  - intros. unfold c60_v. now rewrite andb_comm.
  - intros s i j H. now elim H.
Qed.

Print Assumptions c37_labels.
Print Assumptions c37_layout.
Print Assumptions c37_one_site_refuted.
Print Assumptions c60_hamiltonian.
