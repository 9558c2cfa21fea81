(** The tables of QcModel contracted from left to right: the operators of every bond, and the Hamiltonian at the end. *)
From Coq Require Import ZArith Bool List Lia Ring Permutation.
From Verif Require Import SymModel DictLib IndexLib RingLib OptLib SiteModel SiteProofs SiteOps SiteProps QcModel QcProg QcCols QcAlg QcStep QcWords QcLayout QcSite.
Import ListNotations.
Open Scope Z_scope.

(* ---- specification: the value of a chain of tables of operators *)
Section Paths.
Variable R : CRing.
Variable osym : Z -> Z.
(* a path: product of the factors, the last column, the tensors with the symmetries of their sites *)
Definition path := (R * Z * list (Z * fop R))%type.
Definition extend (acc : list path) (st : Z * list (entry R)) : list path :=
  flat_map (fun p : path => flat_map (fun e : entry R =>
    if fst (fst e) =? snd (fst p) then [(rmul R (fst (fst p)) (fst (snd e)), snd (fst e), snd p ++ [(osym (fst st), snd (snd e))])] else [])
    (snd st)) acc.
Definition paths (ts : list (Z * list (entry R))) : list path := fold_left extend ts [(r1 R, 0, [])].
(* from row 0 of the first table to column k of the last one *)
Definition value (k : Z) (acc : list path) (b' b : list Z) : R :=
  bsum acc (fun p => if snd (fst p) =? k then rmul R (fst (fst p)) (total R (chain R (snd p)) b' b) else r0 R).
End Paths.

Section Chain.
Variable R : CRing.
Add Ring RR : (rth R).
Notation "0'" := (r0 R). Notation "1'" := (r1 R).
Infix "+'" := (radd R) (at level 50, left associativity).
Infix "*'" := (rmul R) (at level 40, left associativity).
Notation "-' a" := (ropp R a) (at level 35).
Variable half : R.
Variable small : R -> bool.
Variable iszero : R -> bool.
Variable osym : Z -> Z.
Variable t : Z -> Z -> Z -> R.
Variable v : Z -> Z -> Z -> Z -> Z -> Z -> R.
Variable symmetrized_p : bool.
Variable n : Z.
Notation fsym := (fsym R). Notation wr := (wr R). Notation entry := (entry R).
Notation sy := (sy R). Notation neg := (neg R).
Notation functional := (functional R). Notation car := (car R).
Notation sem := (sem R half t v). Notation rc := (rc R n). Notation phi := (phi R).
Notation site_writes := (site_writes R half iszero v symmetrized_p n).
Hypothesis N : 2 <= n.
Hypothesis half2 : half +' half = 1'.
Hypothesis iszero_ok : forall x, iszero x = true -> x = 0'.
Hypothesis small_ok : forall x, small x = true -> x = 0'.
Hypothesis t_sym : forall s i j, t s i j = t s j i.
Hypothesis v_ij : forall a b i j k l, v a b i j k l = v a b j i k l.
Hypothesis v_kl : forall a b i j k l, v a b i j k l = v a b i j l k.
Hypothesis v_pair : forall a b i j k l, v a b i j k l = v b a k l i j.
Hypothesis osym_ok : forall s i j, osym i <> osym j -> t s i j = 0' /\ forall u, v s u i j j j = 0'.

Lemma value_extend : forall acc m es k x' s' x s,
  value R k (extend R osym acc (m, es)) (x' :: s') (x :: s) =
  bsum es (fun e : entry => if snd (fst e) =? k then value R (fst (fst e)) acc s' s *' fst (snd e) *' opel R (osym m) (snd (snd e)) s x' x else 0').
Proof.
  intros acc m es k x' s' x s. unfold value, extend. rewrite bsum_flat_map. cbn [fst snd].
  rewrite (bsum_ext R _ acc _ (fun p : path R => bsum es (fun e : entry => if snd (fst e) =? k then (if snd (fst p) =? fst (fst e) then fst (fst p) *' total R (chain R (snd p)) s' s else 0') *' fst (snd e) *' opel R (osym m) (snd (snd e)) s x' x else 0'))).
  - rewrite bsum_swap. apply bsum_ext. intros e _. destruct (snd (fst e) =? k).
    + rewrite <- !bsum_mulr. reflexivity.
    + now apply bsum_zero.
  - intros [[c col] ops] _. rewrite bsum_flat_map. apply bsum_ext. intros [[r c2] [f y]] _. cbn [fst snd]. rewrite (Z.eqb_sym col).
    destruct (r =? col); [|rewrite bsum_nil; destruct (c2 =? k); ring]. rewrite bsum_cons, bsum_nil. cbn [fst snd].
    destruct (c2 =? k); [|ring]. rewrite chain_snoc. unfold opel. ring.
Qed.
Lemma deflated : forall m, 0 <= m < n -> exists es, tensor_of R half small iszero osym t v symmetrized_p n m = Some es /\
  forall g s x' x, In x' st4 -> In x st4 -> bsum es (esum R osym g s x' x m) = bsum (site_writes m) (wsum R half t v g s x' x m).
Proof.
  intros m H. unfold tensor_of, qc_site. rewrite (site_mat_eq R half iszero v symmetrized_p n N m H), (site_lop_eq R half iszero n m H), (site_rop_eq R half iszero n m H). cbn [bind s_mat].
  apply deflate_ok; [exact small_ok|exact osym_ok|].
  eapply Forall_impl; [|exact (writes_in R half iszero v symmetrized_p n N m H)]. intros w [_ [_ G]]. exact G.
Qed.
(* the columns *)
Definition okm (m : Z) (x : mode) : Prop := 0 <= fst x < m /\ In (snd x) spins.
Lemma spin_in : forall s, is_spin s -> In s spins.
Proof. intros s [-> | ->]; cbn; auto. Qed.
Lemma ok_modes : forall m x, In x (modes m) -> okm m x.
Proof. intros m x I. apply in_modes in I. destruct I as [A B]. split; [exact A|now apply spin_in]. Qed.
Definition okf (m : Z) (o : option fsym) : Prop := match o with Some (_, o) => okq (okm m) o | None => True end.
Lemma rc_okq : forall m, Forall (okf m) (rc m).
Proof.
  intros m. unfold QcCols.rc, rc_tail. rewrite !Forall_app. split; [repeat constructor|].
  split; [|split; [|split; [|split; [|split; [|split]]]]].
  all: first [apply all_blk; intros j s J S0; exact I|apply all_blk; intros j s J S0; apply in_zrange in J; cbn; split; [exact J|now apply spin_in]
    |apply all_prs; intros i j sl sr I J A B; apply in_zrange in I, J; apply spin_in in A, B; cbn; repeat split; cbn; auto; lia].
Qed.
Definition inv (m : Z) (k : Z) (s' s : list Z) : R :=
  match znth (rc m) k with Some (Some (x, o)) => x *' sem (modes m) o (phi (Z.to_nat m) s' s) | _ => 0' end.
Lemma okl_m : forall m w, 0 <= m -> lets (okm m) w -> Forall (okl (Z.to_nat m)) w.
Proof. intros m w H L. eapply Forall_impl; [|exact L]. intros a [A B]. split; [lia|exact B]. Qed.
Definition hm (m : Z) (x : mode) : Prop := fst x = m /\ In (snd x) spins.
Lemma hm_here : forall m x, In x (here m) -> hm m x.
Proof. intros m x [<-|[<-|[]]]; split; cbn; auto. Qed.
Lemma good_hm : forall m o, good m o -> okq (hm m) o.
Proof. intros m o G. destruct o; cbn [good okq] in *; unfold hm; cbn [fst snd]; intuition (auto using spin_in). Qed.
Lemma at_m : forall m w, 0 <= m -> lets (hm m) w -> Forall (at_site (Z.to_nat m)) w.
Proof. intros m w H L. eapply Forall_impl; [|exact L]. intros a [A B]. split; [lia|exact B]. Qed.

(* what the writes of a site add up to, when the operators of the left bond are as they should be *)
Lemma split_write : forall m r o x' s' x s, 0 <= m -> good m o -> In x' st4 -> In x st4 -> In s' (states (Z.to_nat m)) -> In s (states (Z.to_nat m)) ->
  inv m r s' s *' sem (here m) o (psi R s x' x) =
  L R half t v n m r (fun w1 => sem (here m) o (fun w2 => phi (S (Z.to_nat m)) (x' :: s') (x :: s) (w1 ++ w2))).
Proof.
  intros m r o x' s' x s H G X' X S' Ss. unfold inv, L. destruct (znth (rc m) r) as [[[c o']|]|] eqn:E; try ring.
  assert (OK : okq (okm m) o').
  { apply znth_range' in E. destruct E as [_ I]. exact (proj1 (Forall_forall _ _) (rc_okq m) _ I). }
  rewrite (sem_ext_in R half t v (okm m) (modes m) o' (fun w1 => sem (here m) o (fun w2 => phi (S (Z.to_nat m)) (x' :: s') (x :: s) (w1 ++ w2)))
     (fun w1 => phi (Z.to_nat m) s' s w1 *' sem (here m) o (psi R s x' x)) (ok_modes m) OK).
  - rewrite sem_scale. ring.
  - intros w1 L1. rewrite (sem_ext_in R half t v (hm m) (here m) o (fun w2 => phi (S (Z.to_nat m)) (x' :: s') (x :: s) (w1 ++ w2))
      (fun w2 => psi R s x' x w2 *' phi (Z.to_nat m) s' s w1) (hm_here m) (good_hm m o G)).
    + rewrite sem_scale. ring.
    + intros w2 L2. rewrite phi_split by (auto using okl_m, at_m). unfold psi. ring.
Qed.
Definition chi (m k : Z) (b' b : list Z) : Z -> functional := fun c => if c =? k then phi (S (Z.to_nat m)) b' b else fun _ => 0'.
Lemma chi_car : forall m k b' b c, In b' (states (S (Z.to_nat m))) -> car (chi m k b' b c).
Proof. intros m k b' b c B. unfold chi. destruct (c =? k); [now apply phi_car|]. intros w1 x y w2 _. ring. Qed.
Lemma writes_sum : forall m k x' s' x s (g : Z * Z -> R) ws, 0 <= m -> In x' st4 -> In x st4 -> In s' (states (Z.to_nat m)) -> In s (states (Z.to_nat m)) ->
  Forall (fun w => goodw R m (snd w)) ws -> (forall r c, g (r, c) = if c =? k then inv m r s' s else 0') ->
  bsum ws (wsum R half t v g s x' x m) = bsum ws (gg R half t v n m (chi m k (x' :: s') (x :: s))).
Proof.
  intros m k x' s' x s g ws H X' X S' Ss F G. apply bsum_ext. intros [[r c] [[f o]|]] I; [|reflexivity].
  rewrite Forall_forall in F. apply F in I. cbn [snd goodw] in I. unfold wsum, gg. cbn [fst snd]. rewrite G. unfold chi.
  destruct (c =? k).
  - rewrite <- split_write by assumption. ring.
  - transitivity (f *' 0'); [ring|]. f_equal. unfold L. destruct (znth (rc m) r) as [[[c0 o']|]|]; try reflexivity.
    rewrite (sem_ext R half t v _ o' _ (fun _ => 0')) by (intros; apply sem_zero). rewrite sem_zero. ring.
Qed.
Lemma dsum_pick : forall (G : option fsym -> R) k l p, dsum R p l (fun j o => if j =? k then G o else 0') =
  match znth l (k - p) with Some o => G o | None => 0' end.
Proof.
  intros G k. induction l as [|o l IH]; intros p.
  - cbn [dsum]. unfold znth. destruct (k - p <? 0); [reflexivity|]. now destruct (Z.to_nat (k - p)).
  - cbn [dsum]. rewrite IH. destruct (Z.eqb_spec p k) as [->|Nk].
    + replace (k - k) with 0 by lia. rewrite znth_cons0. replace (k - (k + 1)) with (-1) by lia. cbn. ring.
    + destruct (Z_lt_dec (k - p) 0).
      * unfold znth. replace (k - p <? 0) with true by lia. replace (k - (p + 1) <? 0) with true by lia. ring.
      * rewrite znth_consS by lia. replace (k - (p + 1)) with (k - p - 1) by lia. ring.
Qed.

(* ---- from bond to bond *)
Definition tab (m : Z) (es : list entry) : Prop := forall g s x' x, In x' st4 -> In x st4 ->
  bsum es (esum R osym g s x' x m) = bsum (site_writes m) (wsum R half t v g s x' x m).
Lemma good_writes : forall m, 0 <= m < n -> Forall (fun w => goodw R m (snd w)) (site_writes m).
Proof. intros m H. eapply Forall_impl; [|exact (writes_in R half iszero v symmetrized_p n N m H)]. intros w [_ [_ G]]. exact G. Qed.
Lemma site_value : forall m es acc k x' s' x s, 0 <= m < n -> tab m es -> In x' st4 -> In x st4 -> In s' (states (Z.to_nat m)) -> In s (states (Z.to_nat m)) ->
  (forall r, value R r acc s' s = inv m r s' s) ->
  value R k (extend R osym acc (m, es)) (x' :: s') (x :: s) = bsum (site_writes m) (gg R half t v n m (chi m k (x' :: s') (x :: s))).
Proof.
  intros m es acc k x' s' x s H TB X' X S' Ss IH. rewrite value_extend.
  rewrite <- (writes_sum m k x' s' x s (fun rc0 => if snd rc0 =? k then inv m (fst rc0) s' s else 0')) by (auto using good_writes; lia).
  rewrite <- TB by assumption. apply bsum_ext. intros e _. unfold esum. rewrite IH. destruct (snd (fst e) =? k); ring.
Qed.
Lemma combine_snoc : forall (A B : Type) (a : list A) (b : list B) x y, length a = length b -> combine (a ++ [x]) (b ++ [y]) = combine a b ++ [(x, y)].
Proof. induction a as [|z a IH]; intros [|w b] x y L; try discriminate; [reflexivity|]. cbn. injection L as L. now rewrite IH. Qed.
Lemma F2_len : forall (A B : Type) (P : A -> B -> Prop) l k, Forall2 P l k -> length l = length k.
Proof. intros A B P l k F. induction F; cbn; auto. Qed.
Lemma F2_snoc : forall (A B : Type) (P : A -> B -> Prop) l x k, Forall2 P (l ++ [x]) k -> exists k0 y, k = k0 ++ [y] /\ Forall2 P l k0 /\ P x y.
Proof.
  intros A B P l x k F. apply Forall2_app_inv_l in F. destruct F as [k0 [k1 [F0 [F1 ->]]]].
  inversion F1 as [|? y ? k2 H F2]; subst. inversion F2; subst. exists k0, y. auto.
Qed.
Lemma paths_snoc : forall m (ts : list (list entry)) es, 0 <= m -> length ts = Z.to_nat m ->
  paths R osym (combine (zrange (m + 1)) (ts ++ [es])) = extend R osym (paths R osym (combine (zrange m) ts)) (m, es).
Proof.
  intros m ts es H L. rewrite zrange_succ by exact H. rewrite combine_snoc.
  - unfold paths. now rewrite fold_left_app.
  - unfold zrange. rewrite map_length, seq_length. congruence.
Qed.
Lemma first_inv : forall ts k b' b, Forall2 tab (zrange 1) ts -> In b' (states 1) -> In b (states 1) ->
  value R k (paths R osym (combine (zrange 1) ts)) b' b = inv 1 k b' b.
Proof.
  intros ts k b' b F B' B. change (zrange 1) with [0] in *. inversion F as [|? es ? k2 H F2]; subst. inversion F2; subst. cbn [combine].
  destruct (st_split _ _ B') as [x' [s' [-> [X' S']]]], (st_split _ _ B) as [x [s [-> [X Ss]]]].
  destruct S' as [<-|[]], Ss as [<-|[]]. unfold paths. cbn [fold_left]. rewrite value_extend.
  transitivity (bsum es (esum R osym (fun rc0 => if snd rc0 =? k then if fst rc0 =? 0 then 1' else 0' else 0') [] x' x 0)).
  { apply bsum_ext. intros e _. unfold esum, value. rewrite bsum_cons, bsum_nil. cbn [fst snd]. rewrite (Z.eqb_sym 0).
    destruct (snd (fst e) =? k); [|ring]. destruct (fst (fst e) =? 0); [|ring]. unfold chain, total. cbn. ring. }
  rewrite H by assumption. unfold QcLayout.site_writes. cbn [Z.eqb]. rewrite dsum_place.
  rewrite (dsum_ext R _ _ _ (fun j o => if j =? k then match o with Some (f, o) => f *' sem (here 0) o (psi R [] x' x) | None => 0' end else 0')).
  2:{ intros j o _. unfold wsum, ixc. cbn [fst snd Z.eqb]. destruct o as [[f o]|]; destruct (0 + j =? k); ring. }
  rewrite dsum_pick, Z.sub_0_r. unfold inv. destruct (znth (rc 1) k) as [[[c o]|]|] eqn:E; try reflexivity.
  f_equal. change (modes 1) with (here 0). apply (sem_ext_in R half t v (hm 0)).
  - apply hm_here.
  - apply good_hm. apply znth_range' in E. destruct E as [_ I]. exact (proj1 (Forall_forall _ _) (rc_good1 R iszero v n) _ I).
  - intros w L. assert (P := phi_split R 0 [] w x' [] x [] (Forall_nil _) (at_m 0 w ltac:(lia) L) X' X (or_introl eq_refl) (or_introl eq_refl)).
    cbn [app] in P. change (Z.to_nat 1) with 1%nat. rewrite P. rewrite phi_ok by constructor. unfold psi.
    change (word R 0 [] [] []) with 1'. ring.
Qed.
Theorem bond_inv : forall j ts k b' b, Z.of_nat j + 2 <= n -> Forall2 tab (zrange (Z.of_nat j + 1)) ts -> In b' (states (S j)) -> In b (states (S j)) ->
  value R k (paths R osym (combine (zrange (Z.of_nat j + 1)) ts)) b' b = inv (Z.of_nat j + 1) k b' b.
Proof.
  induction j as [|j IH]; intros ts k b' b H F B' B.
  - change (Z.of_nat 0 + 1) with 1 in *. now apply first_inv.
  - set (m := Z.of_nat j + 1) in *. replace (Z.of_nat (S j) + 1) with (m + 1) in * by lia.
    rewrite zrange_succ in F by lia. destruct (F2_snoc _ _ _ _ _ _ F) as [ts0 [es [-> [F0 TB]]]].
    assert (L : length ts0 = Z.to_nat m) by (apply F2_len in F0; unfold zrange in F0; rewrite map_length, seq_length in F0; congruence).
    rewrite paths_snoc by (lia || exact L).
    destruct (st_split _ _ B') as [x' [s' [-> [X' S']]]], (st_split _ _ B) as [x [s [-> [X Ss]]]].
    assert (EJ : Z.to_nat m = S j) by lia. rewrite (site_value m es _ k x' s' x s); try assumption; try (rewrite EJ; assumption); [|lia|].
    2:{ intros r. now apply IH; [lia|..]. }
    unfold QcLayout.site_writes. replace (m =? 0) with false by lia. replace (m =? n - 1) with false by lia. rewrite bsum_app.
    assert (Hm : 0 <= m < n) by lia. assert (CC : forall c, car (chi m k (x' :: s') (x :: s) c)) by (intros c; apply chi_car; rewrite EJ; exact B').
    rewrite (column_sum R half iszero t v n half2 iszero_ok t_sym v_ij v_kl v_pair m Hm _ CC).
    rewrite (proj2 (other_sum R half iszero t v symmetrized_p n half2 iszero_ok t_sym v_ij v_kl v_pair m Hm _ CC (lshape n m))).
    rewrite (dsum_ext R _ _ _ (fun j o => if j =? k then match o with Some (f, o) => f *' sem (modes (m + 1)) o (phi (S (Z.to_nat m)) (x' :: s') (x :: s)) | None => 0' end else 0')).
    2:{ intros c o _. unfold QcStep.F, chi. destruct o as [[f o]|]; destruct (0 + c =? k); try reflexivity. rewrite sem_zero. ring. }
    rewrite dsum_pick, Z.sub_0_r. unfold inv. replace (Z.to_nat (m + 1)) with (S (Z.to_nat m)) by lia.
    destruct (znth (rc (m + 1)) k) as [[[c o]|]|]; reflexivity.
Qed.
Theorem last_value : forall ts b' b, Forall2 tab (zrange n) ts -> In b' (states (Z.to_nat n)) -> In b (states (Z.to_nat n)) ->
  value R 0 (paths R osym (combine (zrange n) ts)) b' b = sem (modes n) QH (phi (Z.to_nat n) b' b).
Proof.
  intros ts b' b F B' B. set (j := Z.to_nat (n - 2)). set (m := Z.of_nat j + 1). assert (EN : n = m + 1) by lia. 
  assert (EJ : Z.to_nat m = S j) by lia. assert (ES : Z.to_nat n = S (S j)) by lia. rewrite ES in *.
  rewrite EN in F at 1. rewrite zrange_succ in F by lia. destruct (F2_snoc _ _ _ _ _ _ F) as [ts0 [es [-> [F0 TB]]]].
  assert (L : length ts0 = Z.to_nat m) by (apply F2_len in F0; unfold zrange in F0; rewrite map_length, seq_length in F0; congruence).
  replace (zrange n) with (zrange (m + 1)) by congruence. rewrite paths_snoc by (lia || exact L).
  destruct (st_split _ _ B') as [x' [s' [-> [X' S']]]], (st_split _ _ B) as [x [s [-> [X Ss]]]].
  rewrite (site_value m es _ 0 x' s' x s); try assumption; try (rewrite EJ; assumption); [|lia|].
  2:{ intros r. apply bond_inv; try assumption; lia. }
  unfold QcLayout.site_writes. replace (m =? 0) with false by lia. replace (m =? n - 1) with true by lia.
  assert (Hm : 0 <= m < n) by lia. assert (CC : forall c, car (chi m 0 (x' :: s') (x :: s) c)) by (intros c; apply chi_car; rewrite EJ; exact B').
  rewrite (column_sum R half iszero t v n half2 iszero_ok t_sym v_ij v_kl v_pair m Hm _ CC).
  rewrite <- EN. unfold chi. cbn [Z.eqb]. rewrite EJ. reflexivity.
Qed.
Lemma mapM_all : forall (A B : Type) (f : A -> option B) (P : A -> B -> Prop) l, (forall x, In x l -> exists y, f x = Some y /\ P x y) ->
  exists ys, mapM f l = Some ys /\ Forall2 P l ys.
Proof.
  intros A B f P l H. induction l as [|x l IH]; [exists []; split; [reflexivity|constructor]|].
  destruct (H x (or_introl eq_refl)) as [y [E Y]]. destruct IH as [ys [F Q]]; [intros; apply H; now right|].
  exists (y :: ys). cbn [mapM]. rewrite E, F. split; [reflexivity|now constructor].
Qed.
Theorem mpo_value : exists ts, qc_mpo R half small iszero osym t v symmetrized_p n = Some ts /\ length ts = Z.to_nat n /\
  forall b' b, In b' (states (Z.to_nat n)) -> In b (states (Z.to_nat n)) ->
    value R 0 (paths R osym (combine (zrange n) ts)) b' b = sem (modes n) QH (phi (Z.to_nat n) b' b).
Proof.
  destruct (mapM_all _ _ (tensor_of R half small iszero osym t v symmetrized_p n) tab (zrange n)) as [ts [E F]].
  - intros m I. apply in_zrange in I. destruct (deflated m I) as [es [E P]]. exists es. auto.
  - exists ts. split; [exact E|]. split; [|intros; now apply last_value].
    apply F2_len in F. unfold zrange in F. rewrite map_length, seq_length in F. congruence.
Qed.
End Chain.
