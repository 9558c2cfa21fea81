(** C80: the integrals built by FCIDUMP.build from the terms of a Hamiltonian. *)
From Coq Require Import ZArith Bool List Lia Permutation.
From Verif Require Import RingLib OptLib FbuildModel.
Import ListNotations.

Section Spec.
Variable K : CRing.
Notation term := (term K).
Definition cre (i s : nat) : op := mkOp OC i s.
Definition ann (i s : nat) : op := mkOp OD i s.
(* x c+_{is} d_{js} and x c+_{is} c+_{kt} d_{lt} d_{js} *)
Definition hop (i j s : nat) (x : K) : term := ([cre i s; ann j s], x).
Definition pair (i j k l s t : nat) (x : K) : term := ([cre i s; cre k t; ann l t; ann j s], x).
(* the term is a two-body term of the sites (i, j | k, l) *)
Definition on4 (i j k l : nat) (tm : term) : bool :=
  match fst tm with [a; b; c; d] => Nat.eqb i (o_site a) && Nat.eqb j (o_site d) && Nat.eqb k (o_site b) && Nat.eqb l (o_site c) | _ => false end.
Definition on2 (i j : nat) (tm : term) : bool :=
  match fst tm with [a; b] => Nat.eqb i (o_site a) && Nat.eqb j (o_site b) | _ => false end.
(* normal ordered, one or two pairs *)
Definition normal (tm : term) : Prop :=
  (exists i s j t x, tm = ([cre i s; ann j t], x)) \/ (exists i s k t l t' j s' x, tm = ([cre i s; cre k t; ann l t'; ann j s'], x)).
Definition normal_spin (tm : term) : Prop :=
  (exists i j s x, tm = hop i j s x) \/ (exists i j k l s t x, tm = pair i j k l s t x).
Lemma c_or : forall o, (is_c o = true /\ o = cre (o_site o) (o_spin o)) \/ (is_c o = false /\ o = ann (o_site o) (o_spin o)).
Proof. intros [[|] m s]; [left|right]; split; reflexivity. Qed.

Lemma rhf_step_some : forall st tm, normal tm -> rhf_step K st tm <> None.
Proof. intros [[h g] c] tm [(i & s & j & t & x & ->)|(i & s & k & t & l & t' & j & s' & x & ->)]; discriminate. Qed.
Lemma rhf_step_normal : forall st tm st', rhf_step K st tm = Some st' -> normal tm.
Proof.
  intros [[h g] c] [ops x] st' H. unfold rhf_step in H. cbn [fst snd] in H. destruct ops as [|a [|b [|c1 [|d [|]]]]]; try discriminate H.
  - destruct (c_or a) as [[A Ea]|[A Ea]], (c_or b) as [[B Eb]|[B Eb]]; unfold is_d in H; rewrite A, B in H; try discriminate H. left. exists (o_site a), (o_spin a), (o_site b), (o_spin b), x. now rewrite <- Ea, <- Eb.
  - destruct (c_or a) as [[A Ea]|[A Ea]], (c_or b) as [[B Eb]|[B Eb]], (c_or c1) as [[C Ec]|[C Ec]], (c_or d) as [[D Ed]|[D Ed]]; unfold is_d in H; rewrite A, B, C, D in H; try discriminate H.
    right. exists (o_site a), (o_spin a), (o_site b), (o_spin b), (o_site c1), (o_spin c1), (o_site d), (o_spin d), x. now rewrite <- Ea, <- Eb, <- Ec, <- Ed.
Qed.
Lemma uhf_step_some : forall st tm, normal_spin tm -> uhf_step K st tm <> None.
Proof.
  intros st tm [(i & j & s & x & ->)|(i & j & k & l & s & t & x & ->)]; unfold uhf_step, hop, pair; cbn; rewrite ?Nat.eqb_refl; cbn.
  - destruct st as [[h g] c]. discriminate.
  - destruct (if Nat.eqb s 0 && Nat.eqb t 0 then _ else _). discriminate.
Qed.
Lemma uhf_step_normal : forall st tm st', uhf_step K st tm = Some st' -> normal_spin tm.
Proof.
  intros st [ops x] st' H. unfold uhf_step in H. cbn [fst snd] in H. destruct ops as [|a [|b [|c1 [|d [|]]]]]; try discriminate H.
  - destruct (c_or a) as [[A Ea]|[A Ea]], (c_or b) as [[B Eb]|[B Eb]]; unfold is_d in H; rewrite A, B in H; try discriminate H. cbn [negb andb] in H.
    destruct (Nat.eqb_spec (o_spin a) (o_spin b)) as [E|E]; [|discriminate H]. left. exists (o_site a), (o_site b), (o_spin a), x. unfold hop. rewrite <- Ea. rewrite E at 1. now rewrite <- Eb.
  - destruct (c_or a) as [[A Ea]|[A Ea]], (c_or b) as [[B Eb]|[B Eb]], (c_or c1) as [[C Ec]|[C Ec]], (c_or d) as [[D Ed]|[D Ed]]; unfold is_d in H; rewrite A, B, C, D in H; try discriminate H. cbn [negb andb] in H.
    destruct (Nat.eqb_spec (o_spin a) (o_spin d)) as [E|E]; [|discriminate H]. destruct (Nat.eqb_spec (o_spin b) (o_spin c1)) as [F|F]; [|discriminate H].
    right. exists (o_site a), (o_site d), (o_site b), (o_site c1), (o_spin a), (o_spin b), x. unfold pair. rewrite <- Ea, <- Eb. rewrite E, F. now rewrite <- Ec, <- Ed.
Qed.
Lemma fold_raise : forall (St : Type) (step : St -> term -> option St) (P : term -> Prop),
  (forall st tm, P tm -> step st tm <> None) -> (forall st tm st', step st tm = Some st' -> P tm) ->
  forall ts st, foldM step st ts = None <-> exists tm, In tm ts /\ ~ P tm.
Proof.
  intros St step P H1 H2 ts. induction ts as [|tm ts IH]; intros st; cbn.
  - split; [discriminate|intros (tm & [] & _)].
  - destruct (step st tm) as [st'|] eqn:E; cbn.
    + rewrite IH. split; [intros (t & I & N); exists t; tauto|]. intros (t & [<-|I] & N); [exfalso; apply N; exact (H2 st tm st' E)|exists t; tauto].
    + split; [|reflexivity]. intros _. exists tm. split; [now left|]. intros Pt. exact (H1 st tm Pt E).
Qed.
End Spec.

(* build raises exactly when a term is not normal ordered with one or two pairs (uhf: with equal spins in the pairs) *)
Theorem c80_raises : forall K n ts,
  (build_rhf K n ts = None <-> exists tm, In tm ts /\ ~ normal K tm) /\ (build_uhf K n ts = None <-> exists tm, In tm ts /\ ~ normal_spin K tm).
Proof.
  intros K n ts. split.
  - rewrite <- (fold_raise K _ (rhf_step K) (normal K) (rhf_step_some K) (rhf_step_normal K) ts ((fun _ _ => r0 K), (fun _ _ _ _ => r0 K), (fun _ _ _ _ => 0%nat))).
    unfold build_rhf. destruct (foldM _ _ ts) as [[[h g] c]|]; split; (discriminate || reflexivity).
  - rewrite <- (fold_raise K _ (uhf_step K) (normal_spin K) (uhf_step_some K) (uhf_step_normal K) ts ((fun _ _ _ => r0 K), (fun _ _ _ _ _ => r0 K), (fun _ _ _ _ _ => 0%nat))).
    unfold build_uhf. destruct (foldM _ _ ts) as [[[h g] c]|]; split; (discriminate || reflexivity).
Qed.
Print Assumptions c80_raises.

Section Rhf.
Variable K : CRing.
Variables (h : arr2 K) (f : arr4 K).
Definition term_of (tm : term K) : Prop := (exists i j s, tm = hop K i j s (h i j)) \/ (exists i j k l s t, tm = pair K i j k l s t (f i j k l)).
Lemma on2_hop : forall i j p q s x, on2 K p q (hop K i j s x) = Nat.eqb p i && Nat.eqb q j. Proof. reflexivity. Qed.
Lemma on4_pair : forall i j k l p q r u s t x, on4 K p q r u (pair K i j k l s t x) = Nat.eqb p i && Nat.eqb q j && Nat.eqb r k && Nat.eqb u l. Proof. reflexivity. Qed.
Lemma rhf_run : forall ts h0 g0 c0, (forall tm, In tm ts -> term_of tm) -> exists h' g' c', foldM (rhf_step K) (h0, g0, c0) ts = Some (h', g', c') /\
  (forall p q, h' p q = if existsb (on2 K p q) ts then h p q else h0 p q) /\
  (forall p q r u, g' p q r u = if existsb (on4 K p q r u) ts then f p q r u else g0 p q r u) /\
  (forall p q r u, c' p q r u = (c0 p q r u + length (filter (on4 K p q r u) ts))%nat).
Proof.
  induction ts as [|tm ts IH]; intros h0 g0 c0 V.
  - exists h0, g0, c0. repeat split; intros; cbn; lia.
  - destruct (V tm (or_introl eq_refl)) as [(i & j & s & ->)|(i & j & k & l & s & t & ->)].
    + destruct (IH (put2 K h0 i j (h i j)) g0 c0 (fun t H => V t (or_intror H))) as (h' & g' & c' & E & A & B & C). exists h', g', c'.
      split; [exact E|]. split; [|split; [exact B|exact C]]. intros p q. rewrite A. cbn [existsb]. rewrite on2_hop. unfold put2. destruct (Nat.eqb_spec p i) as [->|]; [destruct (Nat.eqb_spec q j) as [->|]|]; cbn; destruct (existsb _ ts); reflexivity.
    + destruct (IH h0 (put4 g0 i j k l (f i j k l)) (inc4 c0 i j k l) (fun t H => V t (or_intror H))) as (h' & g' & c' & E & A & B & C). exists h', g', c'.
      split; [exact E|]. split; [exact A|]. split; intros p q r u; [rewrite B|rewrite C]; cbn [existsb filter]; rewrite on4_pair; unfold inc4, put4;
        (destruct (Nat.eqb_spec p i) as [->|]; [destruct (Nat.eqb_spec q j) as [->|]; [destruct (Nat.eqb_spec r k) as [->|]; [destruct (Nat.eqb_spec u l) as [->|]|]|]|]; cbn); try lia; try (destruct (existsb _ ts); reflexivity).
Qed.
Lemma filter_existsb : forall (A : Type) (p : A -> bool) l, existsb p l = negb (Nat.eqb (length (filter p l)) 0).
Proof. intros A p l. induction l as [|x l IH]; [reflexivity|]. cbn. destruct (p x); [reflexivity|exact IH]. Qed.
End Rhf.

(* Without uhf: if every term is a one-body term h_ij or a two-body term f_ijkl (any spins, any order), and h_ij is given for at
   least one spin where it is not zero, then h1e = h, and g2e is f where the term is given once, 2 f where it is given two or four
   times (the four spin choices of a sum with the factor 1/2), 0 where it is not given. *)
Theorem c80_rhf : forall K n h f ts,
  (forall tm, In tm ts -> term_of K h f tm) ->
  (forall i j, (i < n)%nat -> (j < n)%nat -> h i j = r0 K \/ exists s, In (hop K i j s (h i j)) ts) ->
  exists h1e g2e, build_rhf K n ts = Some (h1e, g2e) /\
    (forall i j, (i < n)%nat -> (j < n)%nat -> h1e i j = h i j) /\
    (forall i j k l, (i < n)%nat -> (j < n)%nat -> (k < n)%nat -> (l < n)%nat -> let c := length (filter (on4 K i j k l) ts) in
      (c = 0%nat -> g2e i j k l = r0 K) /\ (c = 1%nat -> g2e i j k l = f i j k l) /\ (c = 2%nat \/ c = 4%nat -> g2e i j k l = radd K (f i j k l) (f i j k l))).
Proof.
  intros K n h f ts V Hh. destruct (rhf_run K h f ts (fun _ _ => r0 K) (fun _ _ _ _ => r0 K) (fun _ _ _ _ => 0%nat) V) as (h' & g' & c' & E & A & B & C).
  exists h', (doubled K n g' c'). split; [exact (f_equal (fun o => do st <- o; let '(h, g, c) := st in Some (h, doubled K n g c)) E)|]. split.
  - intros i j Hi Hj. rewrite A. destruct (existsb (on2 K i j) ts) eqn:X; [reflexivity|]. destruct (Hh i j Hi Hj) as [Z|(s & I)]; [now rewrite Z|].
    exfalso. assert (T : existsb (on2 K i j) ts = true) by (apply existsb_exists; exists (hop K i j s (h i j)); split; [exact I|]; rewrite on2_hop, !Nat.eqb_refl; reflexivity). congruence.
  - intros i j k l Hi Hj Hk Hl c. unfold doubled. rewrite C, B, filter_existsb. change (0 + length (filter (on4 K i j k l) ts))%nat with c. change (length (filter (on4 K i j k l) ts)) with c.
    apply Nat.ltb_lt in Hi, Hj, Hk, Hl. rewrite Hi, Hj, Hk, Hl. cbn [andb]. split; [intros ->; reflexivity|]. split; [intros ->; reflexivity|]. intros [->| ->]; reflexivity.
Qed.
Print Assumptions c80_rhf.

(* all terms of sum_ijs h_ij c+_is d_js + sum_ijklst f_ijkl c+_is c+_kt d_lt d_js, f = v / 2 *)
Definition quads (n : nat) : list (nat * nat * (nat * nat)) := list_prod (list_prod (seq 0 n) (seq 0 n)) (list_prod (seq 0 n) (seq 0 n)).
Definition all_terms (K : CRing) (n : nat) (h : arr2 K) (f : arr4 K) : list (term K) :=
  flat_map (fun p => map (fun s => hop K (fst p) (snd p) s (h (fst p) (snd p))) [0; 1]%nat) (list_prod (seq 0 n) (seq 0 n)) ++
  flat_map (fun p => let '(i, j, (k, l)) := p in map (fun st => pair K i j k l (fst st) (snd st) (f i j k l)) [(0, 0); (0, 1); (1, 0); (1, 1)]%nat) (quads n).
Lemma list_prod_nodup : forall (A B : Type) (l : list A) (m : list B), NoDup l -> NoDup m -> NoDup (list_prod l m).
Proof.
  intros A B l m Hl Hm. induction Hl as [|x l Hx Hl IH]; [constructor|]. cbn [list_prod].
  assert (G : forall l1 l2 : list (A * B), NoDup l1 -> NoDup l2 -> (forall y, In y l1 -> In y l2 -> False) -> NoDup (l1 ++ l2)).
  { induction 1 as [|y l1 Hy _ IH1]; intros H2 D; [exact H2|]. cbn. constructor; [rewrite in_app_iff; intros [H|H]; [contradiction|apply (D y); [now left|exact H]]|]. apply IH1; [exact H2|]. intros z Hz1 Hz2. apply (D z); [now right|exact Hz2]. }
  apply G; [apply FinFun.Injective_map_NoDup; [intros u v E; now injection E|exact Hm]|exact IH|].
  intros [u v] H1 H2. apply in_map_iff in H1. destruct H1 as (w & E & _). injection E as E1 E2. subst u. apply in_prod_iff in H2. tauto.
Qed.
Lemma filter_flat : forall (A B : Type) (eqd : forall x y : A, {x = y} + {x <> y}) (p : B -> bool) (F : A -> list B) (x : A) l, NoDup l -> In x l ->
  (forall y b, y <> x -> In b (F y) -> p b = false) -> (forall b, In b (F x) -> p b = true) -> length (filter p (flat_map F l)) = length (F x).
Proof.
  intros A B eqd p F x l ND. induction ND as [|y l Hy ND IH]; intros I N P; [destruct I|]. cbn [flat_map]. rewrite filter_app, app_length.
  assert (Z : forall k, (forall b, In b k -> p b = false) -> filter p k = []) by (induction k as [|b k IHk]; intros H; [reflexivity|]; cbn; rewrite (H b (or_introl eq_refl)); apply IHk; intros; apply H; now right).
  assert (O : forall k, (forall b, In b k -> p b = true) -> filter p k = k) by (induction k as [|b k IHk]; intros H; [reflexivity|]; cbn; rewrite (H b (or_introl eq_refl)); f_equal; apply IHk; intros; apply H; now right).
  destruct (eqd y x) as [->|Nx].
  - rewrite O by exact P. rewrite Z; [cbn; lia|]. intros b Hb. apply in_flat_map in Hb as (z & Hz & Hb). apply (N z b); [congruence|exact Hb].
  - rewrite (Z (F y)) by (intros b Hb; exact (N y b Nx Hb)). cbn. apply IH; [destruct I; [congruence|assumption]|exact N|exact P].
Qed.
Lemma filter_none : forall (B : Type) (p : B -> bool) k, (forall b, In b k -> p b = false) -> filter p k = [].
Proof. intros B p k. induction k as [|b k IHk]; intros H; [reflexivity|]; cbn; rewrite (H b (or_introl eq_refl)); apply IHk; intros; apply H; now right. Qed.

(* For the complete list of terms, in any order, build returns the integrals. *)
Theorem c80_all : forall K n h f ts, Permutation ts (all_terms K n h f) ->
  exists h1e g2e, build_rhf K n ts = Some (h1e, g2e) /\
    (forall i j, (i < n)%nat -> (j < n)%nat -> h1e i j = h i j) /\
    (forall i j k l, (i < n)%nat -> (j < n)%nat -> (k < n)%nat -> (l < n)%nat -> g2e i j k l = radd K (f i j k l) (f i j k l)).
Proof.
  intros K n h f ts Pm.
  destruct (c80_rhf K n h f ts) as (h1e & g2e & E & A & B).
  - intros tm I. apply (Permutation_in _ Pm) in I. unfold all_terms in I. apply in_app_iff in I as [I|I]; apply in_flat_map in I as (p & _ & I).
    + apply in_map_iff in I as (s & <- & _). left. eauto.
    + destruct p as [[i j] [k l]]. apply in_map_iff in I as ([s t] & <- & _). right. cbn. eauto 10.
  - intros i j Hi Hj. right. exists 0%nat. apply (Permutation_in _ (Permutation_sym Pm)). apply in_app_iff. left. apply in_flat_map. exists (i, j). split; [apply in_prod; apply in_seq; lia|]. cbn. now left.
  - exists h1e, g2e. split; [exact E|]. split; [exact A|]. intros i j k l Hi Hj Hk Hl. apply (B i j k l Hi Hj Hk Hl). right.
    assert (PL : forall a b : list (term K), Permutation a b -> length (filter (on4 K i j k l) a) = length (filter (on4 K i j k l) b)).
    { intros a b P. induction P as [|x a b P IH|x y a|a b c P1 IH1 P2 IH2]; cbn; [reflexivity|destruct (on4 K i j k l x); cbn; lia|destruct (on4 K i j k l x), (on4 K i j k l y); reflexivity|congruence]. }
    rewrite (PL _ _ Pm). unfold all_terms. rewrite filter_app, app_length, filter_none.
    + cbn [length Nat.add]. rewrite (filter_flat (nat * nat * (nat * nat)) (term K) ltac:(repeat decide equality) _ _ (i, j, (k, l))); [reflexivity| | | |].
      * unfold quads. repeat apply list_prod_nodup; apply seq_NoDup.
      * unfold quads. repeat apply in_prod; apply in_seq; lia.
      * intros [[i' j'] [k' l']] b N Hb. apply in_map_iff in Hb as ([s t] & <- & _). rewrite on4_pair.
        destruct (Nat.eqb_spec i i') as [<-|]; [|reflexivity]. destruct (Nat.eqb_spec j j') as [<-|]; [|reflexivity]. destruct (Nat.eqb_spec k k') as [<-|]; [|reflexivity]. destruct (Nat.eqb_spec l l') as [<-|]; [congruence|reflexivity].
      * intros b Hb. apply in_map_iff in Hb as ([s t] & <- & _). rewrite on4_pair, !Nat.eqb_refl. reflexivity.
    + intros b Hb. apply in_flat_map in Hb as (p & _ & Hb). apply in_map_iff in Hb as (s & <- & _). reflexivity.
Qed.
Print Assumptions c80_all.

(* with uhf: opposite-spin interactions given once, with spin up first *)
Section Uhf.
Variable K : CRing.
Variables (h : nat -> arr2 K) (v : arr4 K).
Definition term_of_ab (tm : term K) : Prop := (exists i j s, (s < 2)%nat /\ tm = hop K i j s (h s i j)) \/ (exists i j k l, tm = pair K i j k l 0 1 (v i j k l)).
Definition on2s (s p q : nat) (tm : term K) : bool := match fst tm with [a; b] => Nat.eqb s (o_spin a) && (Nat.eqb p (o_site a) && Nat.eqb q (o_site b)) | _ => false end.
Lemma uhf_run : forall ts h0 g0 c0, (forall tm, In tm ts -> term_of_ab tm) -> exists h' g' c', foldM (uhf_step K) (h0, g0, c0) ts = Some (h', g', c') /\
  (forall s p q, h' s p q = if existsb (on2s s p q) ts then h s p q else h0 s p q) /\
  (forall p q r u, g' 1%nat p q r u = if existsb (on4 K p q r u) ts then v p q r u else g0 1%nat p q r u) /\
  (forall p q r u, c' 1%nat p q r u = (c0 1%nat p q r u + length (filter (on4 K p q r u) ts))%nat) /\
  (forall x, x <> 1%nat -> g' x = g0 x /\ c' x = c0 x).
Proof.
  induction ts as [|tm ts IH]; intros h0 g0 c0 V.
  - exists h0, g0, c0. repeat split; intros; cbn; lia.
  - destruct (V tm (or_introl eq_refl)) as [(i & j & s & Hs & ->)|(i & j & k & l & ->)].
    + destruct (IH (at_x h0 s (put2 K (h0 s) i j (h s i j))) g0 c0 (fun t H => V t (or_intror H))) as (h' & g' & c' & E & A & B & C & D). exists h', g', c'.
      split; [cbn [foldM]; unfold uhf_step at 1; cbn; rewrite Nat.eqb_refl; exact E|]. split; [|split; [exact B|split; [exact C|exact D]]].
      intros s' p q. rewrite A. cbn [existsb]. unfold on2s at 2. cbn [fst hop o_spin o_site cre ann]. unfold at_x, put2.
      destruct (Nat.eqb_spec s' s) as [->|]; [|cbn; reflexivity]. destruct (Nat.eqb_spec p i) as [->|]; [destruct (Nat.eqb_spec q j) as [->|]|]; cbn; destruct (existsb _ ts); reflexivity.
    + destruct (IH h0 (at_x g0 1 (put4 (g0 1%nat) i j k l (v i j k l))) (at_x c0 1 (inc4 (c0 1%nat) i j k l)) (fun t H => V t (or_intror H))) as (h' & g' & c' & E & A & B & C & D). exists h', g', c'.
      split; [exact E|]. split; [exact A|]. split; [|split].
      * intros p q r u; rewrite B; cbn [existsb filter]; rewrite on4_pair; unfold at_x, inc4, put4; cbn [Nat.eqb];
        (destruct (Nat.eqb_spec p i) as [->|]; [destruct (Nat.eqb_spec q j) as [->|]; [destruct (Nat.eqb_spec r k) as [->|]; [destruct (Nat.eqb_spec u l) as [->|]|]|]|]; cbn); try (destruct (existsb _ ts); reflexivity).
      * intros p q r u; rewrite C; cbn [existsb filter]; rewrite on4_pair; unfold at_x, inc4, put4; cbn [Nat.eqb];
        (destruct (Nat.eqb_spec p i) as [->|]; [destruct (Nat.eqb_spec q j) as [->|]; [destruct (Nat.eqb_spec r k) as [->|]; [destruct (Nat.eqb_spec u l) as [->|]|]|]|]; cbn); lia.
      * intros x Nx. destruct (D x Nx) as [D1 D2]. rewrite D1, D2. unfold at_x. destruct (Nat.eqb_spec x 1); [congruence|]. split; reflexivity.
Qed.
End Uhf.
Theorem c80_uhf_opposite : forall K n h v ts,
  (forall tm, In tm ts -> term_of_ab K h v tm) ->
  (forall s i j, (s < 2)%nat -> (i < n)%nat -> (j < n)%nat -> h s i j = r0 K \/ In (hop K i j s (h s i j)) ts) ->
  (forall i j k l, (i < n)%nat -> (j < n)%nat -> (k < n)%nat -> (l < n)%nat -> let c := length (filter (on4 K i j k l) ts) in c = 1%nat \/ c = 0%nat /\ v i j k l = r0 K) ->
  exists h1e g2e, build_uhf K n ts = Some (h1e, g2e) /\
    (forall s i j, (s < 2)%nat -> (i < n)%nat -> (j < n)%nat -> h1e s i j = h s i j) /\
    (forall i j k l, (i < n)%nat -> (j < n)%nat -> (k < n)%nat -> (l < n)%nat ->
      v_uhf K g2e 0 1 i j k l = v i j k l /\ v_uhf K g2e 1 0 i j k l = v k l i j /\ v_uhf K g2e 0 0 i j k l = r0 K /\ v_uhf K g2e 1 1 i j k l = r0 K).
Proof.
  intros K n h v ts V Hh Hv. destruct (uhf_run K h v ts (fun _ _ _ => r0 K) (fun _ _ _ _ _ => r0 K) (fun _ _ _ _ _ => 0%nat) V) as (h' & g' & c' & E & A & B & C & D).
  exists h', (fun x => doubled K n (g' x) (c' x)). split; [exact (f_equal (fun o => do st <- o; let '(h, g, c) := st in Some (h, fun x => doubled K n (g x) (c x))) E)|]. split.
  - intros s i j Hs Hi Hj. rewrite A. destruct (existsb (on2s K s i j) ts) eqn:X; [reflexivity|]. destruct (Hh s i j Hs Hi Hj) as [Z|I]; [now rewrite Z|].
    exfalso. assert (T : existsb (on2s K s i j) ts = true) by (apply existsb_exists; exists (hop K i j s (h s i j)); split; [exact I|]; unfold on2s; cbn; rewrite !Nat.eqb_refl; reflexivity). congruence.
  - assert (G : forall i j k l, (i < n)%nat -> (j < n)%nat -> (k < n)%nat -> (l < n)%nat -> doubled K n (g' 1%nat) (c' 1%nat) i j k l = v i j k l).
    { intros i j k l Hi Hj Hk Hl. pose proof (Hv i j k l Hi Hj Hk Hl) as Q. cbv zeta in Q. unfold doubled. rewrite C, B, filter_existsb. cbn [Nat.add]. apply Nat.ltb_lt in Hi, Hj, Hk, Hl. rewrite Hi, Hj, Hk, Hl. cbn [andb]. destruct Q as [->|[-> Z]]; cbn; [reflexivity|now rewrite Z]. }
    assert (Z : forall x i j k l, x <> 1%nat -> doubled K n (g' x) (c' x) i j k l = r0 K).
    { intros x i j k l N. destruct (D x N) as [D1 D2]. unfold doubled. rewrite D1, D2. cbn. now rewrite andb_false_r. }
    intros i j k l Hi Hj Hk Hl. unfold v_uhf. cbn [Nat.eqb Nat.add andb]. repeat split; [now apply G|now apply G|now apply Z|now apply Z].
Qed.
Print Assumptions c80_uhf_opposite.

(* the tuple of factors and integer codes stands for the terms, up to 8192 sites *)
Definition code (o : op) : Z := ((if is_c o then 0 else 16384) + Z.of_nat (o_site o) * 2 + Z.of_nat (o_spin o))%Z.
Theorem c80_codes : forall K n (ts : list (term K)) (codes : list (list Z)), (Z.of_nat n <= 8192)%Z ->
  (forall tm o, In tm ts -> In o (fst tm) -> (o_site o < n)%nat /\ (o_spin o < 2)%nat) ->
  map (filter (fun i => negb (Z.eqb i (-1)))) codes = map (fun tm => map code (fst tm)) ts ->
  codes_terms K n (map snd ts) codes = Some ts.
Proof.
  intros K n ts codes Hn Hs H. unfold codes_terms.
  assert (L : mapM (fun p => do ops <- decode_term n (snd p); Some (ops, fst p)) (combine (map snd ts) codes) = Some ts); [|rewrite L; cbn [bind]; rewrite map_length, Nat.eqb_refl; reflexivity].
  revert codes H. induction ts as [|[ops x] ts IH]; intros [|cs codes] H; try discriminate H; [reflexivity|]. cbn [map] in H. injection H as H1 H2. cbn [map combine mapM fst snd].
  assert (De : decode_term n cs = Some ops).
  { unfold decode_term. cbn [fst] in H1. rewrite H1. specialize (Hs (ops, x)). assert (Ho : forall o, In o ops -> (o_site o < n)%nat /\ (o_spin o < 2)%nat) by (intros o Io; exact (Hs o (or_introl eq_refl) Io)).
    clear -Ho Hn. induction ops as [|o ops IH]; [reflexivity|]. cbn [map mapM]. rewrite IH by (intros; apply Ho; now right). destruct (Ho o (or_introl eq_refl)) as [S1 S2]. unfold decode.
    destruct o as [nm m s]. unfold code, is_c. cbn [o_name o_site o_spin] in *.
    assert (Ms : ((Z.of_nat m * 2 + Z.of_nat s) mod 16384 / 2 = Z.of_nat m)%Z) by (rewrite Z.mod_small by lia; symmetry; apply (Z.div_unique _ _ _ (Z.of_nat s)); lia).
    assert (Md : forall a, ((a * 16384 + Z.of_nat m * 2 + Z.of_nat s) mod 2 = Z.of_nat s)%Z) by (intros a; symmetry; apply (Z.mod_unique _ _ (a * 8192 + Z.of_nat m)); lia).
    assert (Dv : forall a, ((a * 16384 + Z.of_nat m * 2 + Z.of_nat s) / 16384 = a)%Z) by (intros a; symmetry; apply (Z.div_unique _ _ _ (Z.of_nat m * 2 + Z.of_nat s)); lia).
    assert (Mm : forall a, ((a * 16384 + Z.of_nat m * 2 + Z.of_nat s) mod 16384 / 2 = Z.of_nat m)%Z) by (intros a; etransitivity; [|exact Ms]; apply (f_equal (fun z => (z / 2)%Z)); rewrite <- Z.add_assoc, Z.add_comm; apply Z.mod_add; lia).
    destruct nm; cbv iota.
    - replace (0 + Z.of_nat m * 2 + Z.of_nat s)%Z with (0 * 16384 + Z.of_nat m * 2 + Z.of_nat s)%Z by lia. rewrite Dv, Mm, Md. cbn [bind]. rewrite !Nat2Z.id. apply Nat.ltb_lt in S1. now rewrite S1.
    - replace (16384 + Z.of_nat m * 2 + Z.of_nat s)%Z with (1 * 16384 + Z.of_nat m * 2 + Z.of_nat s)%Z by lia. rewrite Dv, Mm, Md. cbn [bind]. rewrite !Nat2Z.id. apply Nat.ltb_lt in S1. now rewrite S1. }
  rewrite De. cbn [bind]. rewrite IH; [reflexivity| |exact H2]. intros tm o I Io. apply (Hs tm o (or_intror I) Io).
Qed.
Print Assumptions c80_codes.

(** *** examples *)
Open Scope Z_scope.
Definition at2 (r : option (arr2 Z_ring * arr4 Z_ring)) (i j : nat) : option Z := match r with Some (h, _) => Some (h i j) | None => None end.
Definition at4 (r : option (arr2 Z_ring * arr4 Z_ring)) (i j k l : nat) : option Z := match r with Some (_, g) => Some (g i j k l) | None => None end.
Definition at_u (r : option ((nat -> arr2 Z_ring) * (nat -> arr4 Z_ring))) (s t i j k l : nat) : option Z := match r with Some (_, g) => Some (v_uhf Z_ring g s t i j k l) | None => None end.
(* a Hubbard chain of two sites: hopping 7 for both spins, repulsion 3 given once for each site *)
Definition hub : list (term Z_ring) :=
  [hop Z_ring 0 1 0 7; hop Z_ring 0 1 1 7; hop Z_ring 1 0 0 7; hop Z_ring 1 0 1 7; pair Z_ring 0 0 0 0 0 1 3; pair Z_ring 1 1 1 1 0 1 3].
Example ex_rhf : at2 (build_rhf Z_ring 2 hub) 0 1 = Some 7 /\ at4 (build_rhf Z_ring 2 hub) 1 1 1 1 = Some 3 /\ at4 (build_rhf Z_ring 2 hub) 0 1 1 1 = Some 0.
Proof. repeat split; vm_compute; reflexivity. Qed.
Example ex_all : let r := build_rhf Z_ring 2 (all_terms Z_ring 2 (fun i j => Z.of_nat (i + j)) (fun i j k l => Z.of_nat (i + 2 * j + 4 * k + 8 * l))) in
  at2 r 1 1 = Some 2 /\ at4 r 0 1 1 0 = Some 12 /\ at4 r 1 0 0 1 = Some 18.
Proof. repeat split; vm_compute; reflexivity. Qed.
Example ex_uhf : at_u (build_uhf Z_ring 2 hub) 0 1 1 1 1 1 = Some 3 /\ at_u (build_uhf Z_ring 2 hub) 1 0 1 1 1 1 = Some 3 /\ at_u (build_uhf Z_ring 2 hub) 1 1 1 1 1 1 = Some 0.
Proof. repeat split; vm_compute; reflexivity. Qed.
Example ex_codes : codes_terms Z_ring 2 [7; 3] [[0; 16386; -1; -1]; [2; 3; 16387; 16386]] = Some [hop Z_ring 0 1 0 7; pair Z_ring 1 1 1 1 0 1 3].
Proof. vm_compute. reflexivity. Qed.
Example ex_raises : build_rhf Z_ring 2 [([ann 0 0; cre 1 0], 1)] = None /\ build_rhf Z_ring 2 [([cre 0 0; ann 1 1], 1)] <> None /\ build_uhf Z_ring 2 [([cre 0 0; ann 1 1], 1)] = None.
Proof. split; [vm_compute; reflexivity|]. split; [discriminate|vm_compute; reflexivity]. Qed.

(* With uhf, terms with spin down first go to the array of two spins down (index -1 of a tuple of three).  The two terms of
   (2/2) (n_up n_down + n_down n_up) give the repulsion 2 without uhf; with uhf 1 for up-down, 1 for down-up and 1 for down-down,
   and in the second list the integral of two spins down is lost. *)
Theorem c80_uhf_refuted :
  (exists ts, (forall tm, In tm ts -> normal_spin Z_ring tm) /\ at4 (build_rhf Z_ring 1 ts) 0 0 0 0 = Some 2 /\
    at_u (build_uhf Z_ring 1 ts) 0 1 0 0 0 0 = Some 1 /\ at_u (build_uhf Z_ring 1 ts) 1 0 0 0 0 0 = Some 1 /\ at_u (build_uhf Z_ring 1 ts) 1 1 0 0 0 0 = Some 1) /\
  (exists tm tm', normal_spin Z_ring tm /\ normal_spin Z_ring tm' /\
    at_u (build_uhf Z_ring 2 [tm]) 1 1 0 0 1 1 = Some 5 /\ at_u (build_uhf Z_ring 2 [tm; tm']) 1 1 0 0 1 1 = Some 14 /\ at_u (build_uhf Z_ring 2 [tm; tm']) 1 0 1 1 0 0 = Some 0).
Proof.
  split.
  - exists [pair Z_ring 0 0 0 0 0 1 1; pair Z_ring 0 0 0 0 1 0 1]. split; [|repeat split; vm_compute; reflexivity].
    intros tm [<-|[<-|[]]]; right; repeat eexists.
  - exists (pair Z_ring 0 0 1 1 1 1 5), (pair Z_ring 1 1 0 0 1 0 7). split; [right; repeat eexists|]. split; [right; repeat eexists|]. repeat split; vm_compute; reflexivity.
Qed.
Print Assumptions c80_uhf_refuted.

(* A one-body term given twice is counted once: the ring of two sites, in which i - 1 and i + 1 are the same neighbour, as generated
   in tests/kdmrg.py. *)
Definition ring_terms (n : nat) (t : Z) : list (term Z_ring) :=
  flat_map (fun i => flat_map (fun s => [hop Z_ring i ((i + n - 1) mod n) s t; hop Z_ring i ((i + 1) mod n) s t]) [0; 1]%nat) (seq 0 n).
Theorem c80_repeated_refuted : exists n t,
  bsum (R := Z_ring) (filter (fun tm => on2 Z_ring 0 1 tm && Nat.eqb (o_spin (hd (cre 0 1) (fst tm))) 0) (ring_terms n t)) snd = 2 /\
  at2 (build_rhf Z_ring n (ring_terms n t)) 0 1 = Some 1.
Proof. exists 2%nat, 1. split; vm_compute; reflexivity. Qed.
Print Assumptions c80_repeated_refuted.
