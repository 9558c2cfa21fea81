(** C28, C29, C49: codes of elementary operators, site operators, anticommutation on chains. *)
From Coq Require Import ZArith Bool List Lia Ring.
From Verif Require Import SymModel DictLib IndexLib RingLib OptLib SiteModel SiteProofs SiteOps.
Import ListNotations.
Open Scope Z_scope.

(** ** C28: codes. An elementary operator is (annihilation?, site, spin). *)
Theorem c28_roundtrip : forall n ann i s, n <= 8192 -> 0 <= i < n -> (s = 0 \/ s = 1) ->
  op_of n (code_of ann i s) = Some (ann, i, s).
Proof. intros n ann i s Hn Hi Hs. now apply op_of_code. Qed.

Theorem c28_injective : forall ann i s ann' i' s', 0 <= i < 8192 -> 0 <= i' < 8192 -> (s = 0 \/ s = 1) -> (s' = 0 \/ s' = 1) ->
  code_of ann i s = code_of ann' i' s' -> ann = ann' /\ i = i' /\ s = s'.
Proof.
  intros ann i s ann' i' s' Hi Hi' Hs Hs' E. assert (A := op_of_code 8192 ann i s Hi ltac:(lia) Hs).
  rewrite E, (op_of_code 8192 ann' i' s' Hi' ltac:(lia) Hs') in A. injection A as -> -> ->. auto.
Qed.

(* the Hamiltonian sum_ij h_ij c+_i c_j + 1/2 sum_ijkl g_ijkl c+_i c+_k c_l c_j, spins summed, without integrals at or below cutoff *)
Definition in_range (n i : Z) : Prop := 0 <= i < n.
Definition spin (s : Z) : Prop := s = 0 \/ s = 1.
Definition one_body {V} (big : V -> bool) (n : Z) (h : Z -> Z -> V) (x : V) (ops : list (bool * Z * Z)) : Prop :=
  exists i j s, in_range n i /\ in_range n j /\ spin s /\ big (h i j) = true /\ x = h i j /\ ops = [(false, i, s); (true, j, s)].
Definition two_body {V} (big : V -> bool) (hlf : V -> V) (n : Z) (g : Z -> Z -> Z -> Z -> V) (x : V) (ops : list (bool * Z * Z)) : Prop :=
  exists i j k l s s', in_range n i /\ in_range n j /\ in_range n k /\ in_range n l /\ spin s /\ spin s' /\
    big (g i j k l) = true /\ x = hlf (g i j k l) /\ ops = [(false, i, s); (false, k, s'); (true, l, s'); (true, j, s)].

Lemma nodup_flat_map : forall A B (f : A -> list B) l, NoDup l -> (forall x, In x l -> NoDup (f x)) ->
  (forall x y b, In x l -> In y l -> In b (f x) -> In b (f y) -> x = y) -> NoDup (flat_map f l).
Proof.
  intros A B f l N F D. induction N as [|x l X N IH]; [constructor|]. cbn [flat_map]. apply nodup_app.
  - apply F. now left.
  - apply IH; [intros; apply F; now right|]. intros y z b Y Z0. apply D; now right.
  - intros b I J. apply in_flat_map in J. destruct J as [y [Y J]]. assert (x = y); [|subst; contradiction].
    apply (D x y b); [now left|now right|exact I|exact J].
Qed.
Lemma map_flat_map : forall A B C (g : B -> C) (f : A -> list B) l, map g (flat_map f l) = flat_map (fun x => map g (f x)) l.
Proof. intros. induction l as [|x l IH]; [reflexivity|]. cbn [flat_map]. now rewrite map_app, IH. Qed.

Theorem c28_terms : forall V (big : V -> bool) (hlf : V -> V) n h g, n <= 8192 ->
  exists L, decode_terms V n (qc_terms V big hlf n h g) = Some L /\ NoDup (map snd L) /\
    forall x ops, In (x, ops) L <-> one_body big n h x ops \/ two_body big hlf n g x ops.
Proof.
  intros V big hlf n h g Hn. exists (tidy V big hlf n h g). split; [now apply decode_qc|].
  assert (NS : NoDup spins) by (repeat constructor; cbn; intuition discriminate).
  assert (SP : forall s, In s spins <-> spin s) by (intros s; unfold spins, spin; cbn; intuition).
  assert (ZR : forall i, In i (zrange n) <-> in_range n i) by (intros i; rewrite in_zrange; reflexivity).
  assert (G1 : forall x ops, In (x, ops) (flat_map (fun i => flat_map (fun j =>
    if big (h i j) then map (fun s => (h i j, [(false, i, s); (true, j, s)])) spins else []) (zrange n)) (zrange n)) <-> one_body big n h x ops).
  { intros x ops. unfold one_body. rewrite in_flat_map. split.
    - intros [i [Hi I]]. apply in_flat_map in I. destruct I as [j [Hj I]]. destruct (big (h i j)) eqn:B; [|destruct I].
      apply in_map_iff in I. destruct I as [s [E Hs]]. injection E as <- <-. exists i, j, s. rewrite ZR in Hi, Hj. apply SP in Hs. tauto.
    - intros [i [j [s [Hi [Hj [Hs [B [-> ->]]]]]]]]. exists i. split; [now apply ZR|]. apply in_flat_map. exists j. split; [now apply ZR|].
      rewrite B. apply in_map_iff. exists s. split; [reflexivity|now apply SP]. }
  assert (G2 : forall x ops, In (x, ops) (flat_map (fun i => flat_map (fun j => flat_map (fun k => flat_map (fun l =>
    if big (g i j k l) then
      flat_map (fun sij => map (fun skl =>
        (hlf (g i j k l), [(false, i, sij); (false, k, skl); (true, l, skl); (true, j, sij)])) spins) spins
    else []) (zrange n)) (zrange n)) (zrange n)) (zrange n)) <-> two_body big hlf n g x ops).
  { intros x ops. unfold two_body. split.
    - intros I. apply in_flat_map in I. destruct I as [i [Hi I]]. apply in_flat_map in I. destruct I as [j [Hj I]].
      apply in_flat_map in I. destruct I as [k [Hk I]]. apply in_flat_map in I. destruct I as [l [Hl I]].
      destruct (big (g i j k l)) eqn:B; [|destruct I]. apply in_flat_map in I. destruct I as [s [Hs I]].
      apply in_map_iff in I. destruct I as [s' [E Hs']]. injection E as <- <-. exists i, j, k, l, s, s'.
      rewrite ZR in Hi, Hj, Hk, Hl. apply SP in Hs, Hs'. tauto.
    - intros [i [j [k [l [s [s' [Hi [Hj [Hk [Hl [Hs [Hs' [B [-> ->]]]]]]]]]]]]]].
      apply in_flat_map. exists i. split; [now apply ZR|]. apply in_flat_map. exists j. split; [now apply ZR|].
      apply in_flat_map. exists k. split; [now apply ZR|]. apply in_flat_map. exists l. split; [now apply ZR|].
      rewrite B. apply in_flat_map. exists s. split; [now apply SP|]. apply in_map_iff. exists s'. split; [reflexivity|now apply SP]. }
  split.
  2:{ intros x ops. unfold tidy. rewrite in_app_iff, G1, G2. reflexivity. }
  unfold tidy. rewrite map_app. apply nodup_app.
  - clear G1 G2. rewrite map_flat_map. apply nodup_flat_map; [apply zrange_nodup| |].
    + intros i _. rewrite map_flat_map. apply nodup_flat_map; [apply zrange_nodup| |].
      * intros j _. destruct (big (h i j)); [|constructor]. rewrite map_map. cbn [snd].
        apply FinFun.Injective_map_NoDup; [intros a b E; now injection E|exact NS].
      * intros j j' b _ _ A B. destruct (big (h i j)); [|destruct A]. destruct (big (h i j')); [|destruct B].
        rewrite map_map in A, B. apply in_map_iff in A, B. destruct A as [s [<- _]], B as [s' [E _]]. now injection E.
    + intros i i' b _ _ A B. rewrite map_flat_map in A, B. apply in_flat_map in A, B. destruct A as [j [_ A]], B as [j' [_ B]].
      destruct (big (h i j)); [|destruct A]. destruct (big (h i' j')); [|destruct B].
      rewrite map_map in A, B. apply in_map_iff in A, B. destruct A as [s [<- _]], B as [s' [E _]]. now injection E.
  - clear G1 G2. rewrite map_flat_map. apply nodup_flat_map; [apply zrange_nodup| |].
    + intros i _. rewrite map_flat_map. apply nodup_flat_map; [apply zrange_nodup| |].
      * intros j _. rewrite map_flat_map. apply nodup_flat_map; [apply zrange_nodup| |].
        -- intros k _. rewrite map_flat_map. apply nodup_flat_map; [apply zrange_nodup| |].
           ++ intros l _. destruct (big (g i j k l)); [|constructor]. rewrite map_flat_map. apply nodup_flat_map; [exact NS| |].
              ** intros s _. rewrite map_map. cbn [snd]. apply FinFun.Injective_map_NoDup; [intros a b E; now injection E|exact NS].
              ** intros s s' b _ _ A B. rewrite map_map in A, B. apply in_map_iff in A, B. destruct A as [t [<- _]], B as [t' [E _]]. now injection E.
           ++ intros l l' b _ _ A B. destruct (big (g i j k l)); [|destruct A]. destruct (big (g i j k l')); [|destruct B].
              rewrite map_flat_map in A, B. apply in_flat_map in A, B. destruct A as [s [_ A]], B as [s' [_ B]].
              rewrite map_map in A, B. apply in_map_iff in A, B. destruct A as [t [<- _]], B as [t' [E _]]. now injection E.
        -- intros k k' b _ _ A B. rewrite map_flat_map in A, B. apply in_flat_map in A, B. destruct A as [l [_ A]], B as [l' [_ B]].
           destruct (big (g i j k l)); [|destruct A]. destruct (big (g i j k' l')); [|destruct B].
           rewrite map_flat_map in A, B. apply in_flat_map in A, B. destruct A as [s [_ A]], B as [s' [_ B]].
           rewrite map_map in A, B. apply in_map_iff in A, B. destruct A as [t [<- _]], B as [t' [E _]]. now injection E.
      * intros j j' b _ _ A B. rewrite map_flat_map in A, B. apply in_flat_map in A, B. destruct A as [k [_ A]], B as [k' [_ B]].
        rewrite map_flat_map in A, B. apply in_flat_map in A, B. destruct A as [l [_ A]], B as [l' [_ B]].
        destruct (big (g i j k l)); [|destruct A]. destruct (big (g i j' k' l')); [|destruct B].
        rewrite map_flat_map in A, B. apply in_flat_map in A, B. destruct A as [s [_ A]], B as [s' [_ B]].
        rewrite map_map in A, B. apply in_map_iff in A, B. destruct A as [t [<- _]], B as [t' [E _]]. now injection E.
    + intros i i' b _ _ A B. rewrite map_flat_map in A, B. apply in_flat_map in A, B. destruct A as [j [_ A]], B as [j' [_ B]].
      rewrite map_flat_map in A, B. apply in_flat_map in A, B. destruct A as [k [_ A]], B as [k' [_ B]].
      rewrite map_flat_map in A, B. apply in_flat_map in A, B. destruct A as [l [_ A]], B as [l' [_ B]].
      destruct (big (g i j k l)); [|destruct A]. destruct (big (g i' j' k' l')); [|destruct B].
      rewrite map_flat_map in A, B. apply in_flat_map in A, B. destruct A as [s [_ A]], B as [s' [_ B]].
      rewrite map_map in A, B. apply in_map_iff in A, B. destruct A as [t [<- _]], B as [t' [E _]]. now injection E.
  - intros ops I J. apply in_map_iff in I, J. destruct I as [[x o] [<- I]], J as [[x' o'] [E J]]. cbn [snd] in E. subst o'.
    apply G1 in I. apply G2 in J. destruct I as [i [j [s [_ [_ [_ [_ [_ ->]]]]]]]].
    destruct J as [? [? [? [? [? [? [_ [_ [_ [_ [_ [_ [_ [_ E]]]]]]]]]]]]]]. discriminate.
Qed.

(* beyond 8192 sites a creation operator has the code of an annihilation operator of another site *)
Theorem c28_many_sites_refuted : exists n i s, 0 <= i < n /\ op_of n (code_of false i s) = Some (true, 0, s) /\
  code_of false i s = code_of true 0 s.
Proof. exists 8193, 8192, 1. repeat split; vm_compute; congruence. Qed.

Example c28_ex : map (fun x => code_of (fst (fst x)) (snd (fst x)) (snd x)) [(false, 0, 0); (false, 5, 1); (true, 0, 0); (true, 8191, 1)]
    = [0; 11; 16384; 32767] /\ op_of 8192 32767 = Some (true, 8191, 1) /\
  decode_terms Z 2 (qc_terms Z (fun x => 0 <? Z.abs x) (fun x => x / 2) 2 (fun i j => if i =? j then 0 else 3)
      (fun i j k l => if (i =? 0) && (j =? 0) && (k =? 1) && (l =? 1) then 8 else 0)) =
  Some [(3, [(false, 0, 0); (true, 1, 0)]); (3, [(false, 0, 1); (true, 1, 1)]);
        (3, [(false, 1, 0); (true, 0, 0)]); (3, [(false, 1, 1); (true, 0, 1)]);
        (4, [(false, 0, 0); (false, 1, 0); (true, 1, 0); (true, 0, 0)]); (4, [(false, 0, 0); (false, 1, 1); (true, 1, 1); (true, 0, 0)]);
        (4, [(false, 0, 1); (false, 1, 0); (true, 1, 0); (true, 0, 1)]); (4, [(false, 0, 1); (false, 1, 1); (true, 1, 1); (true, 0, 1)])].
Proof. vm_compute. auto. Qed.

(** ** second quantisation on one site *)
(* states of a site as occupation bits: bit 0 = up, bit 1 = down; state 0 empty, 1 up, 2 down, 3 both *)
Definition site_states : list Z := [0; 1; 2; 3].
Section SQ.
Variable R : CRing.
Notation "0'" := (r0 R). Notation "1'" := (r1 R).
Infix "+'" := (radd R) (at level 50, left associativity).
Infix "*'" := (rmul R) (at level 40, left associativity).
Notation "-' a" := (ropp R a) (at level 35).
(* creation of spin s: sets bit s, sign from the orbitals before it *)
Definition creation (s x' x : Z) : R :=
  if Z.testbit x s then 0' else if x' =? x + 2 ^ s then (if (s =? 1) && Z.testbit x 0 then -' 1' else 1') else 0'.
Definition annihilation (s x' x : Z) : R := creation s x x'.
Definition prod (a b : Z -> Z -> R) (x' x : Z) : R := bsum site_states (fun y => a x' y *' b y x).
Infix "**" := prod (at level 38, right associativity).
Definition number (s : Z) : Z -> Z -> R := creation s ** annihilation s.
Definition unit (x' x : Z) : R := if x' =? x then 1' else 0'.

(* the operator a name stands for, on the states of site m *)
Definition meaning (half : R) (t : Z -> Z -> Z -> R) (v : Z -> Z -> Z -> Z -> Z -> Z -> R) (m : Z) (o : opname) (x' x : Z) : R :=
  match o with
  | OI => unit x' x
  | OH => t 0 m m *' number 0 x' x +' t 1 m m *' number 1 x' x
          +' half *' (v 0 1 m m m m +' v 1 0 m m m m) *' (number 0 ** number 1) x' x
  | OC s => creation s x' x
  | OD s => annihilation s x' x
  | OA s s' => (creation s ** creation s') x' x
  | OAD s s' => (annihilation s' ** annihilation s) x' x
  | OB s s' => (creation s ** annihilation s') x' x
  | OR i s => half *' t s i m *' annihilation s x' x
              +' bsum [0; 1] (fun u => v s u i m m m *' (creation u ** annihilation u ** annihilation s) x' x)
  | ORD i s => half *' t s i m *' creation s x' x
              +' bsum [0; 1] (fun u => v s u i m m m *' (creation s ** creation u ** annihilation u) x' x)
  | OP i k s s' => v s s' i m k m *' (annihilation s' ** annihilation s) x' x
  | OPD i k s s' => v s s' i m k m *' (creation s ** creation s') x' x
  | OQ i j s s' => (if s =? s' then bsum [0; 1] (fun u => v s u i j m m *' (creation u ** annihilation u) x' x) else 0')
              +' -' (v s s' i m m j *' (creation s' ** annihilation s) x' x)
  end.
(* number of creation and annihilation operators, parity *)
Definition is_odd_name (o : opname) : bool := match o with OC _ | OD _ | OR _ _ | ORD _ _ => true | _ => false end.
Definition name_spins (o : opname) : list Z :=
  match o with
  | OI | OH => [] | OC s | OD s => [s] | OA s s' | OAD s s' | OB s s' => [s; s'] | OR _ s | ORD _ s => [s]
  | OP _ _ s s' | OPD _ _ s s' | OQ _ _ s s' => [s; s']
  end.
(* when the number 0 may be returned in place of a tensor *)
Definition may_vanish (small : R -> bool) (orb : Z -> Z) (t : Z -> Z -> Z -> R) (v : Z -> Z -> Z -> Z -> Z -> Z -> R) (m : Z) (o : opname) : Prop :=
  match o with
  | OR i s | ORD i s => orb i <> orb m \/ (small (t s i m) = true /\ small (v s 0 i m m m) = true /\ small (v s 1 i m m m) = true)
  | OP i k s s' | OPD i k s s' => small (v s s' i m k m) = true
  | OQ i j s s' => small (v s s' i m m j) = true /\ (s = s' -> small (v s 0 i j m m) = true /\ small (v s 1 i j m m) = true)
  | _ => False
  end.
End SQ.

(** ** C49: every named site operator is its second-quantised expression *)
Section C49.
Variable R : CRing.
Add Ring RR : (rth R).
Variable half : R.
Variable small : R -> bool.
Notation "0'" := (r0 R). Notation "1'" := (r1 R).
Infix "+'" := (radd R) (at level 50, left associativity).
Infix "*'" := (rmul R) (at level 40, left associativity).
Notation "-' a" := (ropp R a) (at level 35).

(* element of a tensor between two states: the blocks are 1 x 1 *)
Definition odd_el (g : Z) (o : fop R) (x' x : Z) : R := el R g (f_odd R o) x' x.
Definition even_el (g : Z) (o : fop R) (x' x : Z) : R := el R g (f_even R o) x' x.

Lemma creation_raw : forall s x' x, In s spins -> In x' st4 -> In x st4 -> raw_el R (c_raw R s) x' x = creation R s x' x.
Proof.
  intros s x' x S X' X. cbn in S, X', X.
  destruct S as [<-|[<-|[]]], X' as [<-|[<-|[<-|[<-|[]]]]], X as [<-|[<-|[<-|[<-|[]]]]]; reflexivity.
Qed.
Lemma annihilation_raw : forall s x' x, In s spins -> In x' st4 -> In x st4 -> raw_el R (d_raw R s) x' x = annihilation R s x' x.
Proof.
  intros s x' x S X' X. cbn in S, X', X.
  destruct S as [<-|[<-|[]]], X' as [<-|[<-|[<-|[<-|[]]]]], X as [<-|[<-|[<-|[<-|[]]]]]; reflexivity.
Qed.
Notation rep := (rep R). Notation mzero := (mzero R).
Lemma rc : forall g s, In s spins -> exists o, c_operator R g s = Some o /\ rep g o (creation R s) mzero.
Proof.
  intros g s H. destruct (c_rep R g s H) as [o [E P]]. exists o. split; [exact E|].
  eapply rep_ext; [exact P|]. intros x' x X' X. split; [now apply creation_raw|reflexivity].
Qed.
Lemma rd : forall g s, In s spins -> exists o, d_operator R g s = Some o /\ rep g o (annihilation R s) mzero.
Proof.
  intros g s H. destruct (d_rep R g s H) as [o [E P]]. exists o. split; [exact E|].
  eapply rep_ext; [exact P|]. intros x' x X' X. split; [now apply annihilation_raw|reflexivity].
Qed.
Lemma mm_zero : forall a b x' x, (forall y, a x' y = 0' \/ b y x = 0') -> mmul R a b x' x = 0'.
Proof. intros a b x' x H. unfold mmul. apply bsum_zero. intros y _. destruct (H y) as [-> | ->]; ring. Qed.
Lemma rep_oo : forall g o p a c, rep g o a mzero -> rep g p c mzero -> rep g (op_mm R o p) mzero (prod R a c).
Proof.
  intros g o p a c A C. eapply rep_ext; [exact (rep_mm R g o p _ _ _ _ A C)|]. intros x' x X' X. unfold madd.
  rewrite (mm_zero a mzero), (mm_zero mzero c), (mm_zero mzero mzero) by (intros; unfold SiteOps.mzero; tauto).
  unfold SiteOps.mzero. split; [ring|]. unfold mmul, prod. change site_states with st4. ring.
Qed.
Lemma rep_eo : forall g o p a c, rep g o mzero a -> rep g p c mzero -> rep g (op_mm R o p) (prod R a c) mzero.
Proof.
  intros g o p a c A C. eapply rep_ext; [exact (rep_mm R g o p _ _ _ _ A C)|]. intros x' x X' X. unfold madd.
  rewrite (mm_zero a mzero), (mm_zero mzero c), (mm_zero mzero mzero) by (intros; unfold SiteOps.mzero; tauto).
  unfold SiteOps.mzero. split; [|ring]. unfold mmul, prod. change site_states with st4. ring.
Qed.
Lemma rep_oe : forall g o p a c, rep g o a mzero -> rep g p mzero c -> rep g (op_mm R o p) (prod R a c) mzero.
Proof.
  intros g o p a c A C. eapply rep_ext; [exact (rep_mm R g o p _ _ _ _ A C)|]. intros x' x X' X. unfold madd.
  rewrite (mm_zero a mzero), (mm_zero mzero c), (mm_zero mzero mzero) by (intros; unfold SiteOps.mzero; tauto).
  unfold SiteOps.mzero. split; [|ring]. unfold mmul, prod. change site_states with st4. ring.
Qed.
Lemma ra : forall g s s', In s spins -> In s' spins -> exists o, a_operator R g s s' = Some o /\ rep g o mzero (prod R (creation R s) (creation R s')).
Proof.
  intros g s s' H H'. destruct (rc g s H) as [o [E P]], (rc g s' H') as [o' [E' P']]. unfold a_operator. rewrite E, E'. cbn [bind].
  eexists. split; [reflexivity|]. now apply rep_oo.
Qed.
Lemma rad : forall g s s', In s spins -> In s' spins -> exists o, ad_operator R g s s' = Some o /\ rep g o mzero (prod R (annihilation R s') (annihilation R s)).
Proof.
  intros g s s' H H'. destruct (rd g s H) as [o [E P]], (rd g s' H') as [o' [E' P']]. unfold ad_operator. rewrite E, E'. cbn [bind].
  eexists. split; [reflexivity|]. now apply rep_oo.
Qed.
Lemma rb : forall g s s', In s spins -> In s' spins -> exists o, b_operator R g s s' = Some o /\ rep g o mzero (prod R (creation R s) (annihilation R s')).
Proof.
  intros g s s' H H'. destruct (rc g s H) as [o [E P]], (rd g s' H') as [o' [E' P']]. unfold b_operator. rewrite E, E'. cbn [bind].
  eexists. split; [reflexivity|]. now apply rep_oo.
Qed.
Lemma prod_assoc_l : forall a b c x' x, prod R (prod R a b) c x' x = prod R a (prod R b c) x' x.
Proof.
  intros. unfold prod. rewrite (bsum_ext R _ site_states _ (fun y => bsum site_states (fun z => a x' z *' b z y *' c y x))).
  - rewrite bsum_swap. apply bsum_ext. intros z _. rewrite <- bsum_mull. apply bsum_ext. intros y _. ring.
  - intros y _. rewrite <- bsum_mulr. apply bsum_ext. intros z _. ring.
Qed.

Theorem c49_site_operators : forall orb t v m o, (forall s, In s (name_spins o) -> s = 0 \/ s = 1) ->
  exists r, get_op R half small orb t v m o = Some r /\
  match r with
  | Op _ x => forall x' x0, In x' site_states -> In x0 site_states ->
      (if is_odd_name o then odd_el (orb m) x x' x0 else even_el (orb m) x x' x0) = meaning R half t v m o x' x0 /\
      (if is_odd_name o then even_el (orb m) x x' x0 else odd_el (orb m) x x' x0) = 0'
  | Zero _ => may_vanish R small orb t v m o
  end.
Proof.
  intros orb t v m o HS.
  assert (S0 : In 0 spins) by (cbn; auto). assert (S1 : In 1 spins) by (cbn; auto).
  assert (SP : forall s, In s (name_spins o) -> In s spins) by (intros s I; apply HS in I; cbn; intuition). clear HS.
  set (g := orb m).
  assert (FO : forall x a, rep g x a mzero -> forall f, (forall x' x0, In x' st4 -> In x0 st4 -> a x' x0 = f x' x0) ->
     forall x' x0, In x' site_states -> In x0 site_states -> odd_el g x x' x0 = f x' x0 /\ even_el g x x' x0 = 0').
  { intros x a [_ P] f F x' x0 X' X. destruct (P x' x0 X' X) as [A B]. unfold odd_el, even_el. rewrite A, B. split; [now apply F|reflexivity]. }
  assert (FE : forall x a, rep g x mzero a -> forall f, (forall x' x0, In x' st4 -> In x0 st4 -> a x' x0 = f x' x0) ->
     forall x' x0, In x' site_states -> In x0 site_states -> even_el g x x' x0 = f x' x0 /\ odd_el g x x' x0 = 0').
  { intros x a [_ P] f F x' x0 X' X. destruct (P x' x0 X' X) as [A B]. unfold odd_el, even_el. rewrite A, B. split; [now apply F|reflexivity]. }
  destruct (rb g 0 0 S0 S0) as [b0 [Eb0 Pb0]], (rb g 1 1 S1 S1) as [b1 [Eb1 Pb1]].
  destruct o as [| |s|s|s s'|s s'|s s'|i s|i s|i k s s'|i k s s'|i j s s']; cbn [get_op name_spins] in *; fold g.
  - rewrite i_eq. eexists. split; [reflexivity|]. cbn [is_odd_name]. eapply FE.
    + eapply rep_ext; [apply (rep_raw R g []); [apply nil_ok|]|].
      * split; [repeat constructor; cbn; intuition discriminate|]. intros a b w I. cbn in I.
        repeat (destruct I as [I|I]; [injection I as <- <- _; cbn; tauto|]). destruct I.
      * intros x' x _ _. split; [reflexivity|]. reflexivity.
    + intros x' x X' X. cbn in X', X. destruct X' as [<-|[<-|[<-|[<-|[]]]]], X as [<-|[<-|[<-|[<-|[]]]]]; reflexivity.
  - rewrite h_eq. eexists. split; [reflexivity|]. cbn [is_odd_name]. eapply FE.
    + eapply rep_ext; [apply (rep_raw R g []); [apply nil_ok|]|].
      * split; [repeat constructor; cbn; intuition discriminate|]. intros a b w I. cbn in I.
        repeat (destruct I as [I|I]; [injection I as <- <- _; cbn; tauto|]). destruct I.
      * intros x' x _ _. split; [reflexivity|]. reflexivity.
    + intros x' x X' X. cbn in X', X. unfold meaning, number, prod, site_states. 
      destruct X' as [<-|[<-|[<-|[<-|[]]]]], X as [<-|[<-|[<-|[<-|[]]]]];
      cbn -[rmul radd ropp r0 r1]; ring.
  - destruct (rc g s (SP s (or_introl eq_refl))) as [x [E P]]. rewrite E. cbn [bind]. eexists. split; [reflexivity|].
    cbn [is_odd_name]. eapply FO; [exact P|reflexivity].
  - destruct (rd g s (SP s (or_introl eq_refl))) as [x [E P]]. rewrite E. cbn [bind]. eexists. split; [reflexivity|].
    cbn [is_odd_name]. eapply FO; [exact P|reflexivity].
  - destruct (ra g s s' (SP s (or_introl eq_refl)) (SP s' (or_intror (or_introl eq_refl)))) as [x [E P]]. rewrite E. cbn [bind].
    eexists. split; [reflexivity|]. cbn [is_odd_name]. eapply FE; [exact P|reflexivity].
  - destruct (rad g s s' (SP s (or_introl eq_refl)) (SP s' (or_intror (or_introl eq_refl)))) as [x [E P]]. rewrite E. cbn [bind].
    eexists. split; [reflexivity|]. cbn [is_odd_name]. eapply FE; [exact P|reflexivity].
  - destruct (rb g s s' (SP s (or_introl eq_refl)) (SP s' (or_intror (or_introl eq_refl)))) as [x [E P]]. rewrite E. cbn [bind].
    eexists. split; [reflexivity|]. cbn [is_odd_name]. eapply FE; [exact P|reflexivity].
  - destruct (negb (orb i =? g)) eqn:EO; cbn [Datatypes.orb].
    { eexists. split; [reflexivity|]. cbn [may_vanish]. left. fold g. apply negb_true_iff in EO. now apply Z.eqb_neq in EO. }
    destruct (small (t s i m)) eqn:E1, (small (v s 0 i m m m)) eqn:E2, (small (v s 1 i m m m)) eqn:E3; cbn [andb];
      try (eexists; split; [reflexivity|]; cbn [may_vanish]; right; tauto);
    (destruct (rd g s (SP s (or_introl eq_refl))) as [d [Ed Pd]]; rewrite Ed, Eb0, Eb1; cbn [bind];
    eexists; split; [reflexivity|]; cbn [is_odd_name];
    eapply FO; [eapply rep_ext; [apply rep_plus; [apply rep_scale; exact Pd|apply rep_eo;
       [eapply rep_ext; [apply rep_plus; [apply rep_scale; exact Pb0|apply rep_scale; exact Pb1]|]; intros x' x0 _ _; split;
          [unfold madd, mscale, SiteOps.mzero; ring|reflexivity]|exact Pd]]|];
       intros x' x0 _ _; split; [reflexivity|unfold madd, mscale, SiteOps.mzero; ring]|]).
    all: intros x' x0 _ _; unfold meaning, madd, mscale; rewrite !bsum_cons, bsum_nil, <- !prod_assoc_l;
      set (p := prod R (creation R 0) (annihilation R 0)); set (q := prod R (creation R 1) (annihilation R 1));
      unfold prod, site_states; rewrite !bsum_cons, !bsum_nil; ring.
  - destruct (negb (orb i =? g)) eqn:EO; cbn [Datatypes.orb].
    { eexists. split; [reflexivity|]. cbn [may_vanish]. left. fold g. apply negb_true_iff in EO. now apply Z.eqb_neq in EO. }
    destruct (small (t s i m)) eqn:E1, (small (v s 0 i m m m)) eqn:E2, (small (v s 1 i m m m)) eqn:E3; cbn [andb];
      try (eexists; split; [reflexivity|]; cbn [may_vanish]; right; tauto);
    (destruct (rc g s (SP s (or_introl eq_refl))) as [d [Ed Pd]]; rewrite Ed, Eb0, Eb1; cbn [bind];
    eexists; split; [reflexivity|]; cbn [is_odd_name];
    eapply FO; [eapply rep_ext; [apply rep_plus; [apply rep_scale; exact Pd|apply rep_oe; [exact Pd|
       eapply rep_ext; [apply rep_plus; [apply rep_scale; exact Pb0|apply rep_scale; exact Pb1]|]; intros x' x0 _ _; split;
          [unfold madd, mscale, SiteOps.mzero; ring|reflexivity]]]|];
       intros x' x0 _ _; split; [reflexivity|unfold madd, mscale, SiteOps.mzero; ring]|]).
    all: intros x' x0 _ _; unfold meaning, madd, mscale; rewrite !bsum_cons, bsum_nil;
      set (p := prod R (creation R 0) (annihilation R 0)); set (q := prod R (creation R 1) (annihilation R 1));
      unfold prod, site_states; rewrite !bsum_cons, !bsum_nil; ring.
  - destruct (small (v s s' i m k m)) eqn:E1.
    { eexists. split; [reflexivity|]. exact E1. }
    destruct (rad g s s' (SP s (or_introl eq_refl)) (SP s' (or_intror (or_introl eq_refl)))) as [x [E P]]. rewrite E. cbn [bind].
    eexists. split; [reflexivity|]. cbn [is_odd_name]. eapply FE; [eapply rep_ext; [apply rep_scale; exact P|]|].
    + intros x' x0 _ _. split; [unfold mscale, SiteOps.mzero; ring|reflexivity].
    + reflexivity.
  - destruct (small (v s s' i m k m)) eqn:E1.
    { eexists. split; [reflexivity|]. exact E1. }
    destruct (ra g s s' (SP s (or_introl eq_refl)) (SP s' (or_intror (or_introl eq_refl)))) as [x [E P]]. rewrite E. cbn [bind].
    eexists. split; [reflexivity|]. cbn [is_odd_name]. eapply FE; [eapply rep_ext; [apply rep_scale; exact P|]|].
    + intros x' x0 _ _. split; [unfold mscale, SiteOps.mzero; ring|reflexivity].
    + reflexivity.
  - destruct (rb g s' s (SP s' (or_intror (or_introl eq_refl))) (SP s (or_introl eq_refl))) as [x [E P]].
    destruct (Z.eqb_spec s s') as [->|N].
    + destruct (small (v s' s' i m m j)) eqn:E1, (small (v s' 0 i j m m)) eqn:E2, (small (v s' 1 i j m m)) eqn:E3; cbn [andb];
      try (eexists; split; [reflexivity|]; cbn [may_vanish]; tauto);
      (rewrite E, Eb0, Eb1; cbn [bind]; eexists; split; [reflexivity|]; cbn [is_odd_name];
       eapply FE; [eapply rep_ext; [apply rep_plus; [apply rep_scale; exact P|apply rep_plus; [apply rep_scale; exact Pb0|apply rep_scale; exact Pb1]]|];
         intros x' x0 _ _; split; [unfold madd, mscale, SiteOps.mzero; ring|reflexivity]|]).
      all: intros x' x0 _ _; unfold meaning, madd, mscale; rewrite Z.eqb_refl, !bsum_cons, bsum_nil; ring.
    + destruct (small (v s s' i m m j)) eqn:E1.
      { eexists. split; [reflexivity|]. cbn [may_vanish]. split; [exact E1|]. intros; contradiction. }
      rewrite E. cbn [bind]. eexists. split; [reflexivity|]. cbn [is_odd_name]. eapply FE; [eapply rep_ext; [apply rep_scale; exact P|]|].
      * intros x' x0 _ _. split; [unfold mscale, SiteOps.mzero; ring|reflexivity].
      * intros x' x0 _ _. unfold meaning, mscale. replace (s =? s') with false by lia. ring.
Qed.
End C49.

(** ** C29: anticommutation relations on chains of any length *)
Section C29.
Variable R : CRing.
Add Ring RR9 : (rth R).
Notation "0'" := (r0 R). Notation "1'" := (r1 R).
Infix "+'" := (radd R) (at level 50, left associativity).
Infix "*'" := (rmul R) (at level 40, left associativity).
Notation "-' a" := (ropp R a) (at level 35).
(* all lists of n site states *)
Fixpoint all_states (n : nat) : list (list Z) :=
  match n with O => [[]] | S n' => flat_map (fun x => map (cons x) (all_states n')) site_states end.
(* the elementary operator (creation or annihilation of spin s) on site k of a chain whose sites have symmetries orb:
   the tensors of the identity on every other site, contracted from left to right; a state list has the last site first *)
Definition elementary (ann : bool) (g s : Z) : option (fop R) := if ann then d_operator R g s else c_operator R g s.
Definition on_chain (n : nat) (orb : Z -> Z) (ann : bool) (k s : Z) : option (amp R) :=
  do l <- mapM (fun j => do o <- (if j =? k then elementary ann (orb j) s else i_operator R (orb j)); Some (orb j, o)) (zrange (Z.of_nat n));
  Some (total R (chain R l)).
Definition anticommutator (n : nat) (a b : amp R) : amp R := fun s' s =>
  bsum (all_states n) (fun m => a s' m *' b m s) +' bsum (all_states n) (fun m => b s' m *' a m s).
Definition identity : amp R := fun s' s => if list_eq_dec Z.eq_dec s' s then 1' else 0'.

Definition one_of (g : Z) : fop R := match i_operator R g with Some o => o | None => mkF R [] [] end.
Lemma one_is_one : forall g, is_one R g (one_of g).
Proof.
  intros g x' x X' X. unfold one_of. destruct (c49_site_operators R 1' (fun _ => false) (fun _ => g) (fun _ _ _ => 0') (fun _ _ _ _ _ _ => 0') 0 OI) as [r [E P]].
  { intros s []. }
  cbn [get_op] in E. destruct (i_operator R g) as [o|]; [|discriminate]. cbn [bind] in E. injection E as <-.
  destruct (P x' x X' X) as [A B]. cbn [is_odd_name] in A, B. unfold even_el, odd_el in *. rewrite A, B. split; reflexivity.
Qed.
Definition elem (ann : bool) (s : Z) : Z -> Z -> R := if ann then annihilation R s else creation R s.
Lemma elem_is_odd : forall ann g s, In s spins -> exists o, elementary ann g s = Some o /\ is_odd R g o (elem ann s).
Proof.
  intros ann g s H. assert (K : exists o, elementary ann g s = Some o /\ rep R g o (elem ann s) (mzero R)).
  { destruct ann; [exact (rd R g s H)|exact (rc R g s H)]. }
  destruct K as [o [E [_ P]]]. exists o. split; [exact E|]. intros x' x X' X. destruct (P x' x X' X) as [A B].
  split; [exact B|]. split; [exact A|]. intros Q. clear -H X' X Q. cbn in H, X', X.
  destruct ann, H as [<-|[<-|[]]], X' as [<-|[<-|[<-|[<-|[]]]]], X as [<-|[<-|[<-|[<-|[]]]]]; cbn in Q; try discriminate; reflexivity.
Qed.
Lemma on_chain_put : forall n orb ann k s o, elementary ann (orb k) s = Some o ->
  on_chain n orb ann k s = Some (total R (chain R (put R orb (fun j => one_of (orb j)) n k o))).
Proof.
  intros n orb ann k s o E. unfold on_chain, put. rewrite (mapM_total _ _ _ (fun j => (orb j, if j =? k then o else one_of (orb j)))).
  - reflexivity.
  - intros j _. destruct (Z.eqb_spec j k) as [->|N]; [now rewrite E|]. unfold one_of.
    destruct (i_operator R (orb j)) as [x|] eqn:F; [reflexivity|]. rewrite i_eq in F. discriminate.
Qed.
Lemma all_states_eq : forall n, all_states n = states n.
Proof. reflexivity. Qed.

Theorem c29_anticommutation : forall n orb i j s t annA annB, 0 <= i < Z.of_nat n -> 0 <= j < Z.of_nat n ->
  (s = 0 \/ s = 1) -> (t = 0 \/ t = 1) ->
  exists A B, on_chain n orb annA i s = Some A /\ on_chain n orb annB j t = Some B /\
  forall x' x, In x' (all_states n) -> In x (all_states n) ->
    anticommutator n A B x' x = if xorb annA annB && (i =? j) && (s =? t) then identity x' x else 0'.
Proof.
  intros n orb i j s t annA annB Hi Hj Hs Ht.
  assert (Ss : In s spins) by (cbn; intuition). assert (St : In t spins) by (cbn; intuition).
  destruct (elem_is_odd annA (orb i) s Ss) as [a [Ea Pa]], (elem_is_odd annB (orb j) t St) as [b [Eb Pb]].
  eexists. eexists. split; [exact (on_chain_put n orb annA i s a Ea)|]. split; [exact (on_chain_put n orb annB j t b Eb)|].
  intros x' x X' X.
  set (kappa := if xorb annA annB && (s =? t) then 1' else 0').
  assert (KK := anticommute R orb (fun j => one_of (orb j)) (fun j => one_is_one (orb j)) n i j a b _ _ kappa Hi Hj Pa Pb).
  unfold amm in KK. unfold anticommutator. rewrite KK; [| |assumption|assumption].
  - unfold kappa. change (idm R) with identity. destruct (xorb annA annB), (i =? j), (s =? t); cbn [andb]; ring.
  - clear -Hs Ht. intros x' x X' X. unfold kappa, elem, id1. cbn in X', X.
    destruct annA, annB, Hs as [-> | ->], Ht as [-> | ->], X' as [<-|[<-|[<-|[<-|[]]]]], X as [<-|[<-|[<-|[<-|[]]]]];
      cbn -[rmul radd ropp r0 r1]; ring.
Qed.

(* the matrix itself: b are the states of the sites before site k, a those after it *)
Definition parity_sign (b : list Z) : R :=
  fold_right (fun x r => (if (x =? 1) || (x =? 2) then -' 1' else 1') *' r) 1' b.
Theorem c29_jordan_wigner : forall n orb ann s a' x' b' a x b, (s = 0 \/ s = 1) ->
  In (a' ++ x' :: b') (all_states n) -> In (a ++ x :: b) (all_states n) -> length b' = length b ->
  exists A, on_chain n orb ann (Z.of_nat (length b)) s = Some A /\
  A (a' ++ x' :: b') (a ++ x :: b) =
    identity a' a *' (parity_sign b *' (if ann then annihilation R s x' x else creation R s x' x)) *' identity b' b.
Proof.
  intros n orb ann s a' x' b' a x b Hs I' I L. assert (Ss : In s spins) by (cbn; intuition). set (k := Z.of_nat (length b)).
  destruct (elem_is_odd ann (orb k) s Ss) as [o [Eo Po]]. eexists. split; [exact (on_chain_put n orb ann k s o Eo)|].
  assert (PS : forall l, Forall (fun x => In x st4) l -> parity_sign l = sg R (odd_par l)).
  { induction l as [|z l IH]; intros F; [reflexivity|]. inversion F as [|? ? Hz F']; subst. cbn [parity_sign fold_right].
    fold (parity_sign l). rewrite IH by exact F'. change (odd_par (z :: l)) with (xorb (state_par z) (odd_par l)).
    rewrite sg_xor. f_equal. cbn in Hz. destruct Hz as [<-|[<-|[<-|[<-|[]]]]]; reflexivity. }
  change identity with (idm R). change (if ann then annihilation R s x' x else creation R s x' x) with ((if ann then annihilation R s else creation R s) x' x) || idtac.
  assert (EL : (if ann then annihilation R s x' x else creation R s x' x) = elem ann s x' x) by (destruct ann; reflexivity).
  rewrite EL. clear EL. change (all_states n) with (states n) in *. revert n a I I'. induction a' as [|y' a' IH]; intros n a I I'.
  - destruct a as [|y a].
    + cbn [app] in *. apply in_states in I as II. destruct II as [LI FI]. destruct n as [|n]; [discriminate|]. injection LI as LI.
      unfold k. rewrite LI. rewrite (embed_last R orb _ (fun j => one_is_one (orb j)) n o (elem ann s)); [| |exact I'|exact I].
      * inversion FI; subst. rewrite PS by assumption. unfold idm at 2. destruct (list_eq_dec Z.eq_dec [] []); [|congruence]. ring.
      * subst k. rewrite LI in Po. exact Po.
    + exfalso. apply in_states in I, I'. destruct I as [A _], I' as [B _]. cbn in A, B. rewrite app_length in A. cbn in A. lia.
  - destruct a as [|y a].
    + exfalso. apply in_states in I, I'. destruct I as [A _], I' as [B _]. cbn in A, B. rewrite app_length in B. cbn in B. lia.
    + cbn [app] in *. apply in_states in I as II. apply in_states in I' as II'. destruct II as [LI FI], II' as [LI' FI'].
      destruct n as [|n]; [discriminate|]. injection LI as LI. injection LI' as LI'. inversion FI; subst. inversion FI'; subst.
      assert (NK : k <> Z.of_nat (length (a ++ x :: b))). { unfold k. rewrite app_length. cbn. lia. }
      rewrite (embed_before R orb _ (fun j => one_is_one (orb j)) _ k o NK); [|exact I'|exact I].
      rewrite IH; [|apply in_states; auto|apply in_states; auto].
      unfold idm, id1. destruct (Z.eqb_spec y' y) as [->|M], (list_eq_dec Z.eq_dec a' a) as [->|N];
        destruct (list_eq_dec Z.eq_dec (_ :: _) _) as [E|E]; try ring; congruence.
Qed.
End C29.

Example c29_ex : exists A B,
  on_chain Z_ring 3 (fun j => j + 2) false 1 1 = Some A /\ on_chain Z_ring 3 (fun j => j + 2) true 2 0 = Some B /\
  A [3; 3; 1] [3; 1; 1] = 1 /\ B [2; 1; 1] [3; 1; 1] = 1 /\ A [2; 3; 1] [2; 1; 1] * B [2; 1; 1] [3; 1; 1] = 1 /\
  B [2; 3; 1] [3; 3; 1] * A [3; 3; 1] [3; 1; 1] = -1.
Proof. do 2 eexists. split; [reflexivity|]. split; [reflexivity|]. vm_compute. auto. Qed.
Example c49_ex : exists x,
  get_op Z_ring 5 (fun z => z =? 0) (fun _ => 3) (fun s i j => 10 * s + i + j) (fun a b i j k l => 100 * a + 10 * b + i + 2 * j) 1 (OR 0 1) = Some (Op _ x) /\
  odd_el Z_ring 3 x 0 2 = 55 /\ odd_el Z_ring 3 x 1 3 = - (55 + (102 + 0)) /\ even_el Z_ring 3 x 0 2 = 0 /\
  annihilation Z_ring 1 1 3 = -1.
Proof. eexists. split; [reflexivity|]. vm_compute. auto. Qed.

Print Assumptions c28_roundtrip.
Print Assumptions c28_injective.
Print Assumptions c28_terms.
Print Assumptions c28_many_sites_refuted.
Print Assumptions c49_site_operators.
Print Assumptions c29_anticommutation.
Print Assumptions c29_jordan_wigner.
