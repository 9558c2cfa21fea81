(** C61: the operator build_mpo makes of a sum of strings. *)
From Coq Require Import ZArith Bool List Lia Ring Permutation.
From Verif Require Import SymModel SymProofs SymProps DictLib IndexLib RingLib OptLib SiteModel SiteProofs SiteOps SiteProps QcAlg QcWords QcSite QcChain BuildModel BuildProofs BuildChain BuildSweep BuildFinal BuildExists BuildLabels.
Import ListNotations.
Open Scope Z_scope.

(** ** Specification: what a string of ladder operators changes *)
Fixpoint particles (w : list letter) : Z := match w with [] => 0 | (ann, _) :: w' => (if ann then -1 else 1) + particles w' end.
Fixpoint spin_sum (w : list letter) : Z :=
  match w with [] => 0 | (ann, (_, s)) :: w' => (if Bool.eqb ann (s =? 0) then -1 else 1) + spin_sum w' end.
Fixpoint irreps (orb : Z -> Z) (w : list letter) : Z := match w with [] => 0 | (_, (i, _)) :: w' => Z.lxor (orb i) (irreps orb w') end.
Definition neutral (orb : Z -> Z) (w : list letter) : Prop := particles w = 0 /\ spin_sum w = 0 /\ irreps orb w = 0.
(* operators of sites 0 .. n-1 and spins 0, 1 *)
Definition on_sites (n : nat) (w : list letter) : Prop := Forall (fun a => 0 <= fst (snd a) < Z.of_nat n /\ (snd (snd a) = 0 \/ snd (snd a) = 1)) w.

Lemma lsum_charge : forall orb w, lsum orb (map Some w) = mkSZ (particles w) (spin_sum w) (irreps orb w).
Proof.
  intros orb. induction w as [|[ann [i s]] w IH]; [reflexivity|]. cbn [map lsum fold_right]. fold (lsum orb (map Some w)). rewrite IH.
  cbn [particles spin_sum irreps]. destruct ann; cbn [lab]; unfold sz_add, szs; cbn [sz_n sz_twos sz_pg]; destruct (s =? 0); cbn [Bool.eqb]; f_equal.
Qed.
Lemma neutral_lsum : forall orb w, neutral orb w <-> lsum orb (map Some w) = zero_lab.
Proof. intros orb w. rewrite lsum_charge. unfold neutral, zero_lab. split; [intros [-> [-> ->]]; reflexivity|intros H; injection H; auto]. Qed.
Lemma on_okl : forall n w, on_sites n w -> Forall (okl n) w.
Proof. intros n w F. eapply Forall_impl; [|exact F]. intros [ann [i s]] [H S]. cbn [fst snd] in *. split; [exact H|]. cbn. destruct S as [-> | ->]; auto. Qed.
Lemma mapM_len : forall (A B : Type) (f : A -> option B) l k, mapM f l = Some k -> length k = length l.
Proof. intros A B f. induction l as [|x l IH]; intros k E; cbn [mapM] in E; [injection E as <-; reflexivity|]. destruct (f x); cbn [bind] in E; [|discriminate]. destruct (mapM f l); cbn [bind] in E; [|discriminate]. injection E as <-. cbn. f_equal. auto. Qed.

Section C61.
Variable R : CRing.
Add Ring RR : (rth R).
Notation "0'" := (r0 R). Notation "1'" := (r1 R).
Infix "+'" := (radd R) (at level 50, left associativity).
Infix "*'" := (rmul R) (at level 40, left associativity).
Variable orb : Z -> Z.
Variable iszero tiny big : R -> bool.
Variable svd : nat -> nat -> (nat -> nat -> R) -> option (nat * (nat -> nat -> R) * (nat -> R) * (nat -> nat -> R)).
(* numbers that are compared with 0 are 0 *)
Definition exact_cutoffs : Prop := (forall x, iszero x = true -> x = 0') /\ (forall x, tiny x = true -> x = 0') /\ (forall x, big x = false -> x = 0').
(* the factors multiply to the matrix *)
Definition factorises : Prop := forall n m a k u s vh, svd n m a = Some (k, u, s, vh) ->
  forall i j, (i < n)%nat -> (j < m)%nat -> bsum (seq 0 k) (fun c => u i c *' s c *' vh c j) = a i j.
Notation build_mpo := (build_mpo R orb iszero tiny big svd).

Lemma sweep_len : forall k i c ts, sweep R orb iszero tiny big svd k i c = Some ts -> length ts = S k.
Proof. induction k as [|k IH]; intros i c ts E; cbn [sweep] in E; [injection E as <-; reflexivity|]. destruct (right_svd _ _ _ _ _ _ _ _) as [[t c']|]; cbn [bind] in E; [|discriminate]. destruct (sweep _ _ _ _ _ _ k _ _) as [ts'|] eqn:F; cbn [bind] in E; [|discriminate]. injection E as <-. cbn. f_equal. eauto. Qed.
Lemma build_len : forall n terms ts, n <> 0%nat -> build_mpo n terms = Some ts -> length ts = n.
Proof.
  intros n terms ts N E. unfold BuildModel.build_mpo, symbolic_mpo in E. destruct (sweep _ _ _ _ _ _ _ _ _) as [tb|] eqn:F; cbn [bind] in E; [|discriminate]. apply sweep_len in F. apply mapM_len in E.
  rewrite E, combine_length, F. unfold zrange. rewrite map_length, seq_length. lia.
Qed.

(* the product of the tables is the sum of the strings *)
Theorem c61_value : exact_cutoffs -> factorises -> forall n terms ts, n <> 0%nat -> Forall (fun t => on_sites n (snd t)) terms ->
  build_mpo n terms = Some ts -> length ts = n /\
  forall b' b, In b' (all_states n) -> In b (all_states n) ->
    value R 0 (paths R orb (combine (zrange (Z.of_nat n)) ts)) b' b = bsum terms (fun t => fst t *' word R n (snd t) b' b).
Proof.
  intros [IZ [TZ BZ]] SV n terms ts N F E. split; [exact (build_len _ _ _ N E)|]. rewrite all_states_eq. apply (build_value R orb iszero tiny big svd IZ TZ BZ SV n terms ts N); [|exact E].
  eapply Forall_impl; [|exact F]. intros t. apply on_okl.
Qed.
(* and they exist when the strings are neutral *)
Theorem c61_exists : exact_cutoffs -> factorises -> (forall n m a, svd n m a <> None) -> iszero 1' = false -> forall n terms, n <> 0%nat ->
  Forall (fun t => on_sites n (snd t) /\ neutral orb (snd t)) terms -> (n = 1%nat -> Forall (fun t => snd t <> []) terms) ->
  exists ts, build_mpo n terms = Some ts /\ length ts = n /\
  forall b' b, In b' (all_states n) -> In b (all_states n) ->
    value R 0 (paths R orb (combine (zrange (Z.of_nat n)) ts)) b' b = bsum terms (fun t => fst t *' word R n (snd t) b' b).
Proof.
  intros EC SV ST I1 n terms N F NE. assert (F1 : Forall (fun t => on_sites n (snd t)) terms) by (eapply Forall_impl; [|exact F]; intros t [H _]; exact H).
  destruct (build_some orb R iszero tiny big svd (proj1 EC) (proj1 (proj2 EC)) SV I1 ST n terms N) as [ts E]; [| |exact NE|].
  - eapply Forall_impl; [|exact F1]. intros t. apply on_okl.
  - eapply Forall_impl; [|exact F]. intros t [_ H]. now apply neutral_lsum.
  - exists ts. split; [exact E|]. now apply c61_value.
Qed.

Lemma add_terms_none : forall i ip gs ts f w, In (Some (f, w)) ts -> lab_sum orb w <> zero_lab -> foldM (add_term R orb i ip zero_lab) gs ts = None.
Proof.
  intros i ip gs ts f w I N. revert gs. induction ts as [|t ts IH]; intros gs; [destruct I|]. cbn [foldM]. destruct I as [->|I].
  - unfold add_term at 1. cbn [sz_neg]. rewrite <- sz_assoc, parts_lab. change (sz_neg zero_lab) with zero_lab. rewrite sz_0l. destruct (sz_eqb_spec (lab_sum orb w) (lab orb None)) as [Q|_]; [now elim N|reflexivity].
  - destruct (add_term R orb i ip zero_lab gs t); cbn [bind]; [now apply IH|reflexivity].
Qed.
Lemma swap_sign_pm : forall w f, swap_sign R w f = f \/ swap_sign R w f = ropp R f.
Proof.
  induction w as [|x w IH]; intros f; cbn [swap_sign]; [now left|].
  assert (H : forall l g, g = f \/ g = ropp R f -> fold_left (fun f (y : letter) => if idx_ltb (snd y) (snd x) then ropp R f else f) l g = f \/ fold_left (fun f (y : letter) => if idx_ltb (snd y) (snd x) then ropp R f else f) l g = ropp R f).
  { induction l as [|y l IHl]; intros g G; cbn [fold_left]; [exact G|]. apply IHl. destruct (idx_ltb (snd y) (snd x)); [|exact G]. destruct G as [-> | ->]; [now right|left; ring]. }
  destruct (H w f (or_introl eq_refl)) as [-> | ->]; [apply IH|]. destruct (IH (ropp R f)) as [-> | ->]; [now right|left; ring].
Qed.
(* a string that is not neutral is refused *)
Theorem c61_refused : (forall x, tiny x = true -> x = 0') -> forall n terms t, (2 <= n)%nat -> In t terms -> fst t <> 0' -> ~ neutral orb (snd t) -> build_mpo n terms = None.
Proof.
  intros TZ n terms t N I F0 NN. unfold BuildModel.build_mpo, symbolic_mpo. destruct n as [|[|n]]; try lia. replace (S (S n) - 1)%nat with (S n) by lia.
  cbn [sweep]. unfold right_svd, groups_of, start. cbn [c_mat c_lop c_ops length seq combine foldM]. unfold add_row at 1. cbn [fst snd]. cbn [dget msym_eqb bind terms_of].
  destruct (iszero 1') eqn:I1; [reflexivity|]. cbn [bind].
  rewrite (add_terms_none 0 0 [] _ (fst (sort_term R t) *' 1') (snd (sort_term R t))); [reflexivity| |].
  - apply in_map_iff. exists (sort_term R t). split; [|apply in_map, I]. unfold scale. rewrite I1. destruct (tiny (fst (sort_term R t) *' 1')) eqn:T; [|reflexivity]. elim F0. apply TZ in T. unfold sort_term in T. cbn [fst] in T.
    assert (S0 : swap_sign R (snd t) (fst t) = 0') by (rewrite <- T; ring). destruct (swap_sign_pm (snd t) (fst t)) as [E|E]; rewrite E in S0; [exact S0|]. replace (fst t) with (ropp R (ropp R (fst t))) by ring. rewrite S0. ring.
  - rewrite lab_sum_eq. intros L. apply NN, neutral_lsum. rewrite <- L. unfold sort_term. cbn [snd]. apply lsum_perm, Permutation_map, sort_perm.
Qed.

(** labels: c61_labels *)
(* label of a string with identities in it *)
Definition letters_of (w : list (option letter)) : list letter := flat_map (fun o => match o with Some a => [a] | None => [] end) w.
Definition strings_of (e : expr R) : list (list (option letter)) :=
  match e with Num0 _ => [] | Elem _ o => [[o]] | Str _ s => [snd s] | Sum _ l => map snd l end.
Definition plus (a b : SZ) : SZ := mkSZ (sz_n a + sz_n b) (sz_twos a + sz_twos b) (Z.lxor (sz_pg a) (sz_pg b)).
Definition changes (w : list letter) : SZ := mkSZ (particles w) (spin_sum w) (irreps orb w).
Lemma lsum_letters : forall w, lsum orb w = changes (letters_of w).
Proof. intros w. unfold changes. rewrite <- lsum_charge. induction w as [|[a|] w IH]; [reflexivity| |]; cbn [letters_of flat_map app map lsum fold_right]; fold (lsum orb w); fold (letters_of w); fold (lsum orb (map Some (letters_of w))); rewrite IH; [reflexivity|apply sz_0l]. Qed.
Theorem c61_labels : exact_cutoffs -> factorises -> forall n terms ts, n <> 0%nat ->
  Forall (fun t => on_sites n (snd t) /\ neutral orb (snd t)) terms -> symbolic_mpo R orb iszero tiny big svd n terms = Some ts ->
  length ts = n /\
  (* one label for every row and column, those of the first row and the last column are 0 *)
  (forall t, In t ts -> length (t_lop R t) = t_rows R t /\ length (t_rop R t) = t_cols R t) /\
  (exists t, nth_error ts 0 = Some t /\ t_lop R t = [mkSZ 0 0 0]) /\ (exists t, nth_error ts (n - 1) = Some t /\ t_rop R t = [mkSZ 0 0 0]) /\
  (* the labels of a bond cancel *)
  (forall k t t', nth_error ts k = Some t -> nth_error ts (S k) = Some t' -> Forall2 (fun a b => plus a b = mkSZ 0 0 0) (t_rop R t) (t_lop R t')) /\
  (* an entry changes the particle number, spin and irrep by what the labels of its row and column say *)
  (forall t r c f o, In t ts -> In ((r, c), (f, o)) (t_mat R t) -> exists qc x, nth_error (t_rop R t) c = Some qc /\ dget msym_eqb (t_ops R t) o = Some x /\
    forall w, In w (strings_of x) -> exists qr, nth_error (t_lop R t) r = Some qr /\ changes (letters_of w) = plus qr qc).
Proof.
  intros [IZ [TZ BZ]] SV n terms ts N F E. unfold symbolic_mpo in E. assert (L := sweep_len _ _ _ _ E).
  assert (H : fits R orb [zero_lab] ts).
  { refine (sweep_lab R orb iszero tiny big svd IZ TZ SV n (n - 1) 0 (start R orb terms) ts _ _ E).
    - apply (start_loc R orb svd SV). eapply Forall_impl; [|exact F]. intros t [H _]. now apply on_okl.
    - constructor; [|constructor]. eexists. split; [reflexivity|]. split; [intros H; exact H|]. intros w W. unfold BuildChain.words in W. cbn [BuildChain.epoly] in W. rewrite map_map in W. apply in_map_iff in W. destruct W as [t [<- I]].
      rewrite Forall_forall in F. rewrite lab_sum_eq. unfold sort_term. cbn [snd]. destruct (F t I) as [_ H]. apply neutral_lsum in H. etransitivity; [|exact H]. apply lsum_perm, Permutation_map, Permutation_sym, sort_perm. }
  clear E F IZ TZ BZ SV. split; [lia|].
  assert (W : forall x : expr R, BuildChain.words R x = strings_of x) by (intros [| | |]; reflexivity).
  assert (A : forall ts lop, fits R orb lop ts -> (exists t, nth_error ts 0 = Some t /\ t_lop R t = lop) /\ (exists t, nth_error ts (length ts - 1) = Some t /\ t_rop R t = [zero_lab]) /\
     (forall k t t', nth_error ts k = Some t -> nth_error ts (S k) = Some t' -> Forall2 (fun a b => sz_add a b = zero_lab) (t_rop R t) (t_lop R t')) /\
     (forall t, In t ts -> length (t_lop R t) = t_rows R t /\ length (t_rop R t) = t_cols R t /\ Forall (entry_lab R orb t) (t_mat R t))).
  { clear. induction ts as [|t ts IH]; intros lop H; [destruct H|]. cbn [fits] in H. destruct H as [H1 [H2 [H3 [H4 H5]]]]. split; [exists t; auto|].
    destruct ts as [|t' ts].
    - split; [exists t; auto|]. split; [intros k u v E1 E2; destruct k as [|k]; cbn in E2; [discriminate|destruct k; discriminate]|]. intros u [<-|[]]. auto.
    - destruct H5 as [H5 H6]. destruct (IH _ H6) as [_ [B [C D]]]. split; [|split].
      + destruct B as [u [B1 B2]]. exists u. split; [|exact B2]. cbn [length] in B1 |- *. replace (S (S (length ts)) - 1)%nat with (S (S (length ts) - 1)) by lia. exact B1.
      + intros [|k] u v E1 E2; [cbn in E1, E2; injection E1 as <-; injection E2 as <-; exact H5|]. exact (C k u v E1 E2).
      + intros u [<-|I]; [auto|exact (D u I)]. }
  destruct (A _ _ H) as [A1 [A2 [A3 A4]]]. clear A H. split; [intros t I; destruct (A4 t I) as [B [C _]]; auto|]. split; [exact A1|]. split; [replace n with (length ts) by lia; exact A2|]. split; [exact A3|].
  intros t r c f o I J. destruct (A4 t I) as [_ [_ D]]. rewrite Forall_forall in D. destruct (D _ J) as [qc [x [E1 [E2 E3]]]]. cbn [fst snd] in E1, E2, E3. exists qc, x. split; [exact E1|]. split; [exact E2|].
  intros w V. rewrite <- W in V. destruct (E3 w V) as [qr [Q1 Q2]]. exists qr. split; [exact Q1|]. rewrite <- lsum_letters, <- lab_sum_eq. exact Q2.
Qed.

(** the numbers of the strings (a tuple of factors and index lists): c61_codes *)
Definition code (a : letter) : Z := (if fst a then 16384 else 0) + 2 * fst (snd a) + snd (snd a).
Lemma decode_code : forall n a, Z.of_nat n <= 8192 -> 0 <= fst (snd a) < Z.of_nat n -> snd (snd a) = 0 \/ snd (snd a) = 1 -> op_of (Z.of_nat n) (code a) = Some (fst a, fst (snd a), snd (snd a)).
Proof using.
  clear.
  intros n [ann [i s]] N I S. cbn [fst snd] in *. unfold code. cbn [fst snd]. replace ((if ann then 16384 else 0) + 2 * i + s) with (code_of ann i s) by (unfold code_of, OPC, SITE, SPIN; destruct ann; lia).
  now apply op_of_code.
Qed.
Theorem c61_codes : forall n terms gen, Z.of_nat n <= 8192 -> Forall (fun t => on_sites n (snd t)) terms ->
  (* -1 fills up the lists *)
  map fst terms = fst gen -> map (fun t => map code (snd t)) terms = map (filter (fun i => negb (i =? -1))) (snd gen) ->
  build_mpo_gen R orb iszero tiny big svd n gen = build_mpo n terms.
Proof.
  intros n terms [fs cs] N F E1 E2. cbn [fst snd] in *. unfold build_mpo_gen, terms_of_gen, decode_terms. cbn [fst snd].
  assert (L : length cs = length fs) by (rewrite <- E1, map_length, <- (map_length (filter (fun i => negb (i =? -1))) cs), <- E2, map_length; reflexivity).
  rewrite L, Nat.ltb_irrefl. clear L. match goal with |- bind ?m _ = _ => assert (H : m = Some terms) end; [|rewrite H; reflexivity].
  assert (K : mapM (decode_term R (Z.of_nat n)) (combine fs cs) = Some (map (fun t => (fst t, map (fun a : letter => (fst a, fst (snd a), snd (snd a))) (snd t))) terms)).
  { revert fs cs E1 E2. induction F as [|[f w] terms Hw F IH]; intros [|f' fs] [|c cs] E1 E2; cbn [map fst snd] in E1, E2; try discriminate; [reflexivity|]. injection E1 as -> E1. injection E2 as Ew E2.
    cbn [combine mapM]. unfold decode_term at 1. cbn [fst snd]. rewrite <- Ew. rewrite (IH fs cs E1 E2). cbn [snd] in Hw. clear - Hw N.
    assert (H : mapM (op_of (Z.of_nat n)) (map code w) = Some (map (fun a : letter => (fst a, fst (snd a), snd (snd a))) w)); [|rewrite H; reflexivity].
    induction Hw as [|a w [A B] Hw IHw]; [reflexivity|]. cbn [map mapM]. rewrite (decode_code n a N A B). cbn [bind]. now rewrite IHw. }
  rewrite K. cbn [bind]. f_equal. rewrite map_map. etransitivity; [|apply map_id]. apply map_ext. intros [f w]. cbn [fst snd]. f_equal. rewrite map_map. etransitivity; [|apply map_id]. apply map_ext. intros [ann [i s]]. reflexivity.
Qed.

(** build_complex_qc_mpo *)
Lemma split_pair : forall (A B : Type) (l : list (A * B)), combine (fst (split l)) (snd (split l)) = l /\ Nat.ltb (length (snd (split l))) (length (fst (split l))) = false.
Proof. intros A B l. split; [generalize (split_combine l); destruct (split l); auto|]. rewrite split_length_l, split_length_r. apply Nat.ltb_irrefl. Qed.
(* sum_ij h_ij c+_is c_js + 1/2 sum_ijkl g_ijkl c+_is c+_ku c_lu c_js *)
Definition electronic (half : R) (n : nat) (h : Z -> Z -> R) (g : Z -> Z -> Z -> Z -> R) (b' b : list Z) : R :=
  let ij := zrange (Z.of_nat n) in
  bsum ij (fun i => bsum ij (fun j => bsum [0; 1] (fun s => h i j *' word R n [(false, (i, s)); (true, (j, s))] b' b))) +'
  bsum ij (fun i => bsum ij (fun j => bsum ij (fun k => bsum ij (fun l => bsum [0; 1] (fun s => bsum [0; 1] (fun u =>
    half *' g i j k l *' word R n [(false, (i, s)); (false, (k, u)); (true, (l, u)); (true, (j, s))] b' b)))))).
Theorem c61_complex_qc : forall keep half n h g, exact_cutoffs -> factorises -> (forall n m a, svd n m a <> None) -> iszero 1' = false ->
  (forall x, keep x = false -> x = 0') -> Z.of_nat n <= 8192 -> n <> 0%nat ->
  (* the integrals that are kept have the symmetry of the orbitals *)
  (forall i j, keep (h i j) = true -> orb i = orb j) -> (forall i j k l, keep (g i j k l) = true -> Z.lxor (Z.lxor (orb i) (orb j)) (Z.lxor (orb k) (orb l)) = 0) ->
  exists ts, build_complex_qc_mpo R orb iszero tiny big svd keep (fun x => half *' x) n h g = Some ts /\ length ts = n /\
  forall b' b, In b' (all_states n) -> In b (all_states n) ->
    value R 0 (paths R orb (combine (zrange (Z.of_nat n)) ts)) b' b = electronic half n h g b' b.
Proof.
  intros keep half n h g EC SV ST I1 KZ N8 N0 HS GS. unfold build_complex_qc_mpo, build_mpo_gen, terms_of_gen. destruct (split_pair _ _ (qc_terms R keep (fun x => half *' x) (Z.of_nat n) h g)) as [C1 C2]. rewrite C2, C1. clear C1 C2.
  rewrite decode_qc by exact N8. cbn [bind].
  match goal with |- context [map ?f (tidy ?a ?b ?c ?d ?e ?g)] => set (terms := map f (tidy a b c d e g)) end. cbn [bind].
  destruct (c61_exists EC SV ST I1 n terms N0) as [ts [E [L V]]].
  - apply Forall_forall. intros t I. unfold terms in I. apply in_map_iff in I. destruct I as [t0 [<- I]]. cbn [snd]. unfold tidy in I. apply in_app_or in I. destruct I as [I|I].
    + apply in_flat_map in I. destruct I as [i [Hi I]]. apply in_flat_map in I. destruct I as [j [Hj I]]. apply in_zrange in Hi, Hj. destruct (keep (h i j)) eqn:K; [|destruct I]. apply HS in K. apply in_map_iff in I. destruct I as [s [<- Is]]. apply in_spins in Is. cbn [snd map fst].
      split; [repeat (constructor; [cbn [fst snd]; auto|]); constructor|]. unfold neutral. cbn [particles spin_sum irreps]. rewrite K, Z.lxor_0_r, Z.lxor_nilpotent. destruct Is as [-> | ->]; repeat split.
    + apply in_flat_map in I. destruct I as [i [Hi I]]. apply in_flat_map in I. destruct I as [j [Hj I]]. apply in_flat_map in I. destruct I as [k [Hk I]]. apply in_flat_map in I. destruct I as [l [Hl I]]. apply in_zrange in Hi, Hj, Hk, Hl.
      destruct (keep (g i j k l)) eqn:K; [|destruct I]. apply GS in K. apply in_flat_map in I. destruct I as [s [Is I]]. apply in_map_iff in I. destruct I as [u [<- Iu]]. apply in_spins in Is, Iu. cbn [snd map fst].
      split; [repeat (constructor; [cbn [fst snd]; auto|]); constructor|]. unfold neutral. cbn [particles spin_sum irreps]. rewrite Z.lxor_0_r. split; [reflexivity|]. split; [destruct Is as [-> | ->], Iu as [-> | ->]; reflexivity|].
      rewrite <- K. apply Z.bits_inj'. intros m _. rewrite !Z.lxor_spec. destruct (Z.testbit (orb i) m), (Z.testbit (orb j) m), (Z.testbit (orb k) m), (Z.testbit (orb l) m); reflexivity.
  - intros _. apply Forall_forall. intros t I. unfold terms in I. apply in_map_iff in I. destruct I as [t0 [<- I]]. cbn [snd]. unfold tidy in I. apply in_app_or in I. destruct I as [I|I].
    + apply in_flat_map in I. destruct I as [i [_ I]]. apply in_flat_map in I. destruct I as [j [_ I]]. destruct (keep (h i j)); [|destruct I]. apply in_map_iff in I. destruct I as [s [<- _]]. discriminate.
    + apply in_flat_map in I. destruct I as [i [_ I]]. apply in_flat_map in I. destruct I as [j [_ I]]. apply in_flat_map in I. destruct I as [k [_ I]]. apply in_flat_map in I. destruct I as [l [_ I]].
      destruct (keep (g i j k l)); [|destruct I]. apply in_flat_map in I. destruct I as [s [_ I]]. apply in_map_iff in I. destruct I as [u [<- _]]. discriminate.
  - exists ts. split; [exact E|]. split; [exact L|]. intros b' b B' B. rewrite V by assumption. unfold terms, tidy, electronic. rewrite bsum_map, bsum_app. f_equal.
    + rewrite bsum_flat_map. apply bsum_ext. intros i _. rewrite bsum_flat_map. apply bsum_ext. intros j _. destruct (keep (h i j)) eqn:K.
      * rewrite bsum_map. reflexivity.
      * rewrite (KZ _ K), bsum_nil. symmetry. apply bsum_zero. intros s _. ring.
    + do 4 (rewrite bsum_flat_map; apply bsum_ext; intros ? _). match goal with |- context [keep ?x] => destruct (keep x) eqn:K end.
      * rewrite bsum_flat_map. apply bsum_ext. intros s _. rewrite bsum_map. reflexivity.
      * rewrite (KZ _ K), bsum_nil. symmetry. apply bsum_zero. intros s _. apply bsum_zero. intros u _. ring.
Qed.
End C61.

(* one site: a constant (an empty string) cannot be entered *)
Theorem c61_one_site_refuted : exists terms, Forall (fun t => on_sites 1 (snd t) /\ neutral (fun _ => 0) (snd t)) terms /\
  forall svd, BuildModel.build_mpo Z_ring (fun _ => 0) (Z.eqb 0) (Z.eqb 0) (fun x => negb (x =? 0)) svd 1 terms = None.
Proof.
  exists [(5, [])]. split; [constructor; [|constructor]; split; [constructor|repeat split]|]. intros svd. vm_compute. reflexivity.
Qed.

(* three sites, orbitals of two irreps; a factorisation that keeps the matrix on the larger side *)
Definition c61_svd (n m : nat) (a : nat -> nat -> Z) : option (nat * (nat -> nat -> Z) * (nat -> Z) * (nat -> nat -> Z)) :=
  Some (if Nat.leb n m then (n, (fun i k => if Nat.eqb i k then 1 else 0), (fun _ => 1), a) else (m, a, (fun _ => 1), (fun k j => if Nat.eqb k j then 1 else 0))).
Definition c61_terms : list (Z * list letter) :=
  [(3, [(false, (0, 0)); (true, (2, 0))]); (3, [(false, (2, 0)); (true, (0, 0))]); (-2, [(false, (1, 1)); (true, (1, 1))]);
   (7, [(false, (0, 0)); (false, (1, 1)); (true, (0, 1)); (true, (1, 0))]); (5, []); (4, [(false, (2, 1)); (false, (0, 0)); (true, (0, 0)); (true, (2, 1))])].
Definition c61_orb (i : Z) : Z := if i =? 1 then 3 else 0.
Definition c61_build := BuildModel.build_mpo Z_ring c61_orb (Z.eqb 0) (Z.eqb 0) (fun x => negb (x =? 0)) c61_svd.
Definition c61_elements (l : list (list Z * list Z)) : option (list Z) :=
  do ts <- c61_build 3 c61_terms;
  Some (map (fun b => value Z_ring 0 (paths Z_ring c61_orb (combine (zrange 3) ts)) (fst b) (snd b)) l).
Example c61_ex :
  c61_elements [([0; 0; 1], [1; 0; 0]); ([1; 2; 0], [0; 2; 1]); ([0; 2; 1], [0; 1; 2]); ([2; 2; 1], [2; 2; 1]); ([0; 0; 0], [1; 0; 0]); ([0; 3; 0], [0; 3; 0])] = Some [3; -3; -7; 7; 0; 3] /\
  option_map (map (@length _)) (c61_build 3 c61_terms) = Some [5; 5; 4]%nat.
Proof. vm_compute. auto. Qed.
Lemma c61_cut : exact_cutoffs Z_ring (Z.eqb 0) (Z.eqb 0) (fun x => negb (x =? 0)).
Proof. repeat split; intros x H; [apply Z.eqb_eq in H; now symmetry|apply Z.eqb_eq in H; now symmetry|apply negb_false_iff, Z.eqb_eq in H; exact H]. Qed.
Lemma c61_fac : factorises Z_ring c61_svd.
Proof.
  intros n m a k u s vh E i j I J. unfold c61_svd in E. injection E as E. destruct (Nat.leb n m); injection E as <- <- <- <-.
  - rewrite (bsum_single Z_ring nat (seq 0 n) _ i); [|apply seq_NoDup|apply in_seq; lia|intros c _ N; cbn; destruct (Nat.eqb_spec i c); [congruence|lia]]. rewrite Nat.eqb_refl. cbn. destruct (a i j); reflexivity.
  - rewrite (bsum_single Z_ring nat (seq 0 m) _ j); [|apply seq_NoDup|apply in_seq; lia|intros c _ N; cbn; destruct (Nat.eqb_spec c j); [congruence|lia]]. rewrite Nat.eqb_refl. cbn. lia.
Qed.
Example c61_ex_applies : exists ts, c61_build 3 c61_terms = Some ts /\ length ts = 3%nat /\
  forall b' b, In b' (all_states 3) -> In b (all_states 3) ->
    value Z_ring 0 (paths Z_ring c61_orb (combine (zrange 3) ts)) b' b = bsum (R := Z_ring) c61_terms (fun t => fst t * word Z_ring 3 (snd t) b' b).
Proof.
  apply (c61_exists Z_ring c61_orb (Z.eqb 0) (Z.eqb 0) (fun x => negb (x =? 0)) c61_svd c61_cut c61_fac); try discriminate; [reflexivity|].
  repeat (constructor; [split; [repeat (constructor; [cbn; lia|]); constructor|repeat split]|]). constructor.
Qed.
(* C+ of site 0 has no partner; C+ of site 1 and D of site 0 differ in irrep *)
Example c61_ex_refused : c61_build 2 [(1, [(false, (0, 0))])] = None /\ c61_build 2 [(1, [(false, (1, 0)); (true, (0, 0))])] = None /\ c61_build 2 [(0, [(false, (0, 0))])] <> None.
Proof. vm_compute. repeat split. discriminate. Qed.
Example c61_ex_codes :
  build_mpo_gen Z_ring c61_orb (Z.eqb 0) (Z.eqb 0) (fun x => negb (x =? 0)) c61_svd 3 ([3; 7], [[0; 16388; -1; -1]; [0; 3; 16385; 16386]]) =
  c61_build 3 [(3, [(false, (0, 0)); (true, (2, 0))]); (7, [(false, (0, 0)); (false, (1, 1)); (true, (0, 1)); (true, (1, 0))])].
Proof. vm_compute. reflexivity. Qed.
Example c61_ex_labels :
  option_map (map (fun t => (t_lop Z_ring t, t_rop Z_ring t))) (symbolic_mpo Z_ring c61_orb (Z.eqb 0) (Z.eqb 0) (fun x => negb (x =? 0)) c61_svd 3 [(3, [(false, (0, 0)); (true, (2, 0))]); (7, [(false, (0, 0)); (false, (1, 1)); (true, (0, 1)); (true, (1, 0))])]) =
  Some [([mkSZ 0 0 0], [mkSZ 1 1 0; mkSZ 0 2 0]); ([mkSZ (-1) (-1) 0; mkSZ 0 (-2) 0], [mkSZ 1 1 0; mkSZ 0 0 0]); ([mkSZ (-1) (-1) 0; mkSZ 0 0 0], [mkSZ 0 0 0])].
Proof. vm_compute. reflexivity. Qed.

(* two orbitals, all integrals even: half of g is g / 2 *)
Example c61_ex_complex_qc :
  match build_complex_qc_mpo Z_ring (fun _ => 0) (Z.eqb 0) (Z.eqb 0) (fun x => negb (x =? 0)) c61_svd (fun x => negb (x =? 0)) (fun x => x / 2) 2 (fun i j => if i =? j then 1 else 3) (fun i j k l => if (i =? j) && (k =? l) then 4 else 2) with
  | Some ts => map (fun b => value Z_ring 0 (paths Z_ring (fun _ => 0) (combine (zrange 2) ts)) (fst b) (snd b)) [([1; 2], [3; 0]); ([3; 2], [2; 3]); ([3; 3], [3; 3]); ([1; 2], [0; 0])] =
      map (fun b => electronic Z_ring 1 2 (fun i j => if i =? j then 1 else 3) (fun i j k l => if (i =? j) && (k =? l) then 2 else 1) (fst b) (snd b)) [([1; 2], [3; 0]); ([3; 2], [2; 3]); ([3; 3], [3; 3]); ([1; 2], [0; 0])] /\
      value Z_ring 0 (paths Z_ring (fun _ => 0) (combine (zrange 2) ts)) [3; 3] [3; 3] = 24
  | None => False
  end.
Proof. vm_compute. auto. Qed.

Print Assumptions c61_value.
Print Assumptions c61_exists.
Print Assumptions c61_refused.
Print Assumptions c61_labels.
Print Assumptions c61_codes.
Print Assumptions c61_complex_qc.
Print Assumptions c61_one_site_refuted.
