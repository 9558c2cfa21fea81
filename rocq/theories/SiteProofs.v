(** Proofs about site operators and chains. *)
From Coq Require Import ZArith Bool List Lia Ring.
From Verif Require Import SymModel DictLib IndexLib RingLib OptLib SiteModel.
Import ListNotations.
Open Scope Z_scope.

(* ------------------------------------------------------------------ codes *)
Lemma op_of_code : forall n a i s, 0 <= i < n -> n <= 8192 -> s = 0 \/ s = 1 -> op_of n (code_of a i s) = Some (a, i, s).
Proof.
  intros n a i s Hi Hn Hs. unfold op_of, code_of, OPC, SITE, SPIN.
  assert (K : ((if a then 1 * 16384 else 0 * 16384) + i * 2 + s * 1) / 16384 = (if a then 1 else 0)).
  { symmetry. apply Z.div_unique with (i * 2 + s); destruct a; lia. }
  assert (M : (((if a then 1 * 16384 else 0 * 16384) + i * 2 + s * 1) mod 16384) = i * 2 + s).
  { symmetry. apply Z.mod_unique with (if a then 1 else 0); destruct a; lia. }
  assert (S : ((if a then 1 * 16384 else 0 * 16384) + i * 2 + s * 1) mod 2 = s).
  { symmetry. apply Z.mod_unique with ((if a then 8192 else 0) + i); destruct a; lia. }
  assert (D : (i * 2 + s) / 2 = i). { symmetry. apply Z.div_unique with s; lia. }
  rewrite K, M, S, D, Z.div_1_r.
  replace (- n <=? i) with true by lia. replace (i <? n) with true by lia. replace (i <? 0) with false by lia.
  destruct a; reflexivity.
Qed.
Lemma code_of_nonneg : forall a i s, 0 <= i -> s = 0 \/ s = 1 -> (code_of a i s =? -1) = false.
Proof. intros a i s Hi Hs. unfold code_of, OPC, SITE, SPIN. destruct a; lia. Qed.

Section Terms.
Variable V : Type.
Variable big : V -> bool.
Variable hlf : V -> V.
Definition tidy (n : Z) (h : Z -> Z -> V) (g : Z -> Z -> Z -> Z -> V) : list (V * list (bool * Z * Z)) :=
  flat_map (fun i => flat_map (fun j =>
    if big (h i j) then map (fun s => (h i j, [(false, i, s); (true, j, s)])) spins else []) (zrange n)) (zrange n) ++
  flat_map (fun i => flat_map (fun j => flat_map (fun k => flat_map (fun l =>
    if big (g i j k l) then
      flat_map (fun sij => map (fun skl =>
        (hlf (g i j k l), [(false, i, sij); (false, k, skl); (true, l, skl); (true, j, sij)])) spins) spins
    else []) (zrange n)) (zrange n)) (zrange n)) (zrange n).
Lemma mapM_flat_map : forall (A B C : Type) (f : B -> option C) (g : A -> list B) (h : A -> list C) l,
  (forall x, In x l -> mapM f (g x) = Some (h x)) -> mapM f (flat_map g l) = Some (flat_map h l).
Proof.
  intros A B C f g h l. induction l as [|x l IH]; intros H; [reflexivity|]. cbn [flat_map]. rewrite mapM_app, H by now left.
  cbn [bind]. rewrite IH; [reflexivity|]. intros; apply H; now right.
Qed.
Lemma mapM_map : forall (A B C : Type) (f : B -> option C) (g : A -> B) (h : A -> C) l,
  (forall x, In x l -> f (g x) = Some (h x)) -> mapM f (map g l) = Some (map h l).
Proof.
  intros A B C f g h l. induction l as [|x l IH]; intros H; [reflexivity|]. cbn. rewrite H by now left.
  cbn [bind]. rewrite IH; [reflexivity|]. intros; apply H; now right.
Qed.
Lemma in_spins : forall s, In s spins -> s = 0 \/ s = 1.
Proof. intros s [<-|[<-|[]]]; auto. Qed.
Lemma decode_qc : forall n h g, n <= 8192 -> decode_terms V n (qc_terms V big hlf n h g) = Some (tidy n h g).
Proof.
  intros n h g Hn. unfold decode_terms, qc_terms, tidy. rewrite mapM_app.
  assert (E1 : forall i s, In i (zrange n) -> In s spins -> forall a, op_of n (code_of a i s) = Some (a, i, s)).
  { intros i s Hi Hs a. apply in_zrange in Hi. apply in_spins in Hs. apply op_of_code; auto. }
  assert (E2 : forall i s, In i (zrange n) -> In s spins -> forall a, (code_of a i s =? -1) = false).
  { intros i s Hi Hs a. apply in_zrange in Hi. apply in_spins in Hs. apply code_of_nonneg; [lia|auto]. }
  erewrite mapM_flat_map.
  2:{ intros i Hi. apply mapM_flat_map. intros j Hj.
      instantiate (1 := fun j => if big (h i j) then map (fun s => (h i j, [(false, i, s); (true, j, s)])) spins else []).
      cbv beta. destruct (big (h i j)); [|reflexivity]. apply mapM_map. intros s Hs.
      unfold decode_term. cbn [snd fst filter]. rewrite !E2 by assumption. cbn [negb Z.eqb Pos.eqb mapM filter].
      rewrite !E1 by assumption. reflexivity. }
  cbn [bind]. erewrite mapM_flat_map.
  2:{ intros i Hi. apply mapM_flat_map. intros j Hj. apply mapM_flat_map. intros k Hk. apply mapM_flat_map. intros l Hl.
      instantiate (1 := fun l => if big (g i j k l) then
      flat_map (fun sij => map (fun skl =>
        (hlf (g i j k l), [(false, i, sij); (false, k, skl); (true, l, skl); (true, j, sij)])) spins) spins
      else []).
      cbv beta. destruct (big (g i j k l)); [|reflexivity]. apply mapM_flat_map. intros sij H1. apply mapM_map. intros skl H2.
      unfold decode_term. cbn [snd fst filter]. rewrite !E2 by assumption. cbn [negb mapM].
      rewrite !E1 by assumption. reflexivity. }
  reflexivity.
Qed.
End Terms.

(* --------------------------------------------------------- site operators *)
Section Site.
Variable R : CRing.
Add Ring RR : (rth R).
Notation "0'" := (r0 R). Notation "1'" := (r1 R).
Infix "+'" := (radd R) (at level 50, left associativity).
Infix "*'" := (rmul R) (at level 40, left associativity).
Notation "-' a" := (ropp R a) (at level 35).

Definition st4 : list Z := [0; 1; 2; 3].
Definition els (ipg : Z) (o : fop R) (x' x : Z) : R := el R ipg (f_odd R o) x' x +' el R ipg (f_even R o) x' x.

(* -------------------------------------------------------------- chains *)
Fixpoint states (n : nat) : list (list Z) :=
  match n with O => [[]] | S n' => flat_map (fun x => map (cons x) (states n')) st4 end.
Definition sg (b : bool) : R := if b then -' 1' else 1'.
Lemma sg_xor : forall a b, sg (xorb a b) = sg a *' sg b.
Proof. intros [] []; cbn; ring. Qed.
Lemma sg_sq : forall a, sg a *' sg a = 1'.
Proof. intros []; cbn; ring. Qed.
Lemma flip_sg : forall s v, flip R s v = sg (odd_par s) *' v.
Proof. intros s v. unfold flip, sg. destruct (odd_par s); ring. Qed.
Lemma bsum_states_S : forall n (f : list Z -> R), bsum (states (S n)) f = bsum st4 (fun x => bsum (states n) (fun s => f (x :: s))).
Proof. intros n f. cbn [states]. rewrite bsum_flat_map. apply bsum_ext. intros x _. now rewrite bsum_map. Qed.
Lemma in_states : forall n s, In s (states n) <-> length s = n /\ Forall (fun x => In x st4) s.
Proof.
  induction n as [|n IH]; intros s.
  - cbn. split; [intros [<-|[]]; auto|]. intros [L _]. left. now destruct s.
  - cbn [states]. rewrite in_flat_map. split.
    + intros [x [X I]]. apply in_map_iff in I. destruct I as [t [<- T]]. apply IH in T. destruct T as [L F].
      split; [cbn; lia|]. now constructor.
    + intros [L F]. destruct s as [|x t]; [discriminate|]. inversion F; subst. exists x. split; [assumption|].
      apply in_map. apply IH. split; [now injection L|assumption].
Qed.
Lemma nodup_app : forall A (a b : list A), NoDup a -> NoDup b -> (forall x, In x a -> ~ In x b) -> NoDup (a ++ b).
Proof.
  intros A a b Ha Hb H. induction Ha as [|x a N Ha IH]; [exact Hb|]. cbn. constructor.
  - rewrite in_app_iff. intros [I|I]; [contradiction|]. apply (H x); [now left|exact I].
  - apply IH. intros y I. apply H. now right.
Qed.
Lemma states_nodup : forall n, NoDup (states n).
Proof.
  induction n as [|n IH]; [repeat constructor; intros []|]. cbn [states].
  assert (K : forall l, NoDup l -> NoDup (flat_map (fun x => map (cons x) (states n)) l)).
  { induction l as [|a l IHl]; intros N; [constructor|]. inversion N as [|? ? A B]; subst. cbn [flat_map].
    apply nodup_app.
    - apply FinFun.Injective_map_NoDup; [intros s t E; now injection E|exact IH].
    - now apply IHl.
    - intros s I J. apply in_map_iff in I. destruct I as [t [<- _]]. apply in_flat_map in J. destruct J as [b [Hb J]].
      apply in_map_iff in J. destruct J as [u [E _]]. injection E as -> _. contradiction. }
  apply K. repeat constructor; cbn; intuition discriminate.
Qed.

Definition amm (n : nat) (a b : amp R) : amp R := fun s' s => bsum (states n) (fun m => a s' m *' b m s).
Definition idm : amp R := fun s' s => if list_eq_dec Z.eq_dec s' s then 1' else 0'.
Definition id1 (x' x : Z) : R := if x' =? x then 1' else 0'.

Lemma chain_snoc : forall l g o s' s x' x,
  total R (chain R (l ++ [(g, o)])) (x' :: s') (x :: s) =
  total R (chain R l) s' s *' (el R g (f_even R o) x' x +' sg (odd_par s) *' el R g (f_odd R o) x' x).
Proof.
  intros l g o s' s x' x. unfold chain. rewrite fold_left_app. cbn [fold_left fst snd]. fold (chain R l).
  unfold total, gkron, kr_flip, kr. cbn [g_odd g_even]. rewrite !flip_sg. ring.
Qed.

(* operators with one even, identity-like tensor on every site but one *)
Variable orb : Z -> Z.
Variable one : Z -> fop R.
Definition put (n : nat) (k : Z) (o : fop R) : list (Z * fop R) :=
  map (fun j => (orb j, if j =? k then o else one j)) (zrange (Z.of_nat n)).
Definition is_one (g : Z) (o : fop R) : Prop := forall x' x, In x' st4 -> In x st4 ->
  el R g (f_even R o) x' x = id1 x' x /\ el R g (f_odd R o) x' x = 0'.
Definition is_odd (g : Z) (o : fop R) (m : Z -> Z -> R) : Prop := forall x' x, In x' st4 -> In x st4 ->
  el R g (f_even R o) x' x = 0' /\ el R g (f_odd R o) x' x = m x' x /\
  (state_par x' = state_par x -> m x' x = 0').
Hypothesis Hone : forall j, is_one (orb j) (one j).

Lemma zrange_S : forall n, zrange (Z.of_nat (S n)) = zrange (Z.of_nat n) ++ [Z.of_nat n].
Proof. intros n. unfold zrange. rewrite !Nat2Z.id. rewrite seq_S, map_app. reflexivity. Qed.
Lemma put_last : forall n o, put (S n) (Z.of_nat n) o = map (fun j => (orb j, one j)) (zrange (Z.of_nat n)) ++ [(orb (Z.of_nat n), o)].
Proof.
  intros n o. unfold put. rewrite zrange_S, map_app. cbn [map]. rewrite Z.eqb_refl. f_equal.
  apply map_ext_in. intros j I. apply in_zrange in I. replace (j =? Z.of_nat n) with false by lia. reflexivity.
Qed.
Lemma put_before : forall n k o, k <> Z.of_nat n -> put (S n) k o = put n k o ++ [(orb (Z.of_nat n), one (Z.of_nat n))].
Proof.
  intros n k o H. unfold put. rewrite zrange_S, map_app. cbn [map]. replace (Z.of_nat n =? k) with false by lia. reflexivity.
Qed.

Lemma ones_id : forall n s' s, In s' (states n) -> In s (states n) ->
  total R (chain R (map (fun j => (orb j, one j)) (zrange (Z.of_nat n)))) s' s = idm s' s.
Proof.
  induction n as [|n IH]; intros s' s A B.
  - cbn in A, B. destruct A as [<-|[]], B as [<-|[]]. unfold chain, total, gunit, idm. cbn. ring.
  - rewrite zrange_S, map_app. cbn [map]. apply in_states in A, B. destruct A as [LA FA], B as [LB FB].
    destruct s' as [|x' s']; [discriminate|]. destruct s as [|x s]; [discriminate|].
    injection LA as LA. injection LB as LB. inversion FA; subst. inversion FB; subst.
    rewrite chain_snoc. destruct (Hone (Z.of_nat (length s')) x' x) as [-> ->]; auto.
    rewrite IH by (apply in_states; auto).
    unfold idm, id1. destruct (list_eq_dec Z.eq_dec s' s) as [->|N], (Z.eqb_spec x' x) as [->|M];
      destruct (list_eq_dec Z.eq_dec _ _) as [E|E]; try ring; congruence.
Qed.

(* elements of an embedded odd operator *)
Lemma embed_last : forall n o m, is_odd (orb (Z.of_nat n)) o m -> forall x' s' x s,
  In (x' :: s') (states (S n)) -> In (x :: s) (states (S n)) ->
  total R (chain R (put (S n) (Z.of_nat n) o)) (x' :: s') (x :: s) = idm s' s *' (sg (odd_par s) *' m x' x).
Proof.
  intros n o m H x' s' x s A B. rewrite put_last, chain_snoc. apply in_states in A, B.
  destruct A as [LA FA], B as [LB FB]. injection LA as LA. injection LB as LB. inversion FA; subst. inversion FB; subst.
  rewrite ones_id by (apply in_states; auto). destruct (H x' x) as [-> [-> _]]; auto. ring.
Qed.
Lemma embed_before : forall n k o, k <> Z.of_nat n -> forall x' s' x s,
  In (x' :: s') (states (S n)) -> In (x :: s) (states (S n)) ->
  total R (chain R (put (S n) k o)) (x' :: s') (x :: s) = total R (chain R (put n k o)) s' s *' id1 x' x.
Proof.
  intros n k o K x' s' x s A B. rewrite put_before by exact K. rewrite chain_snoc. apply in_states in A, B.
  destruct A as [LA FA], B as [LB FB]. injection LA as LA. injection LB as LB. inversion FA; subst. inversion FB; subst.
  destruct (Hone (Z.of_nat (length s')) x' x) as [-> ->]; auto. ring.
Qed.
(* an embedded odd operator changes the parity *)
Lemma embed_odd : forall n k o m, 0 <= k < Z.of_nat n -> is_odd (orb k) o m -> forall s' s,
  In s' (states n) -> In s (states n) -> odd_par s' = odd_par s -> total R (chain R (put n k o)) s' s = 0'.
Proof.
  induction n as [|n IH]; intros k o m K H s' s A B P; [lia|].
  assert (A' := A). assert (B' := B). apply in_states in A', B'. destruct A' as [LA FA], B' as [LB FB].
  destruct s' as [|x' s']; [discriminate|]. destruct s as [|x s]; [discriminate|].
  injection LA as LA. injection LB as LB. inversion FA; subst. inversion FB; subst.
  change (odd_par (x' :: s')) with (xorb (state_par x') (odd_par s')) in P.
  change (odd_par (x :: s)) with (xorb (state_par x) (odd_par s)) in P.
  destruct (Z.eq_dec k (Z.of_nat (length s'))) as [->|N].
  - rewrite (embed_last _ _ m) by auto. unfold idm. destruct (list_eq_dec Z.eq_dec s' s) as [->|M]; [|ring].
    destruct (H x' x) as [_ [_ Z0]]; auto. rewrite Z0; [ring|].
    destruct (state_par x'), (state_par x), (odd_par s); cbn in P; congruence.
  - rewrite embed_before by auto. unfold id1. destruct (Z.eqb_spec x' x) as [->|M]; [|ring].
    rewrite (IH k o m); [ring|lia|exact H|apply in_states; auto|apply in_states; auto|].
    destruct (state_par x), (odd_par s'), (odd_par s); cbn in P; congruence.
Qed.

Lemma bsum_idm : forall n s f, In s (states n) -> bsum (states n) (fun m => idm s m *' f m) = f s.
Proof.
  intros n s f H. rewrite (bsum_single R _ (states n) _ s); [|apply states_nodup|exact H|].
  - unfold idm. destruct (list_eq_dec Z.eq_dec s s); [ring|congruence].
  - intros m _ N. unfold idm. destruct (list_eq_dec Z.eq_dec s m); [congruence|ring].
Qed.
Lemma bsum_id1 : forall x f, In x st4 -> bsum st4 (fun y => id1 x y *' f y) = f x.
Proof.
  intros x f H. rewrite (bsum_single R _ st4 _ x); [| |exact H|].
  - unfold id1. rewrite Z.eqb_refl. ring.
  - repeat constructor; cbn; intuition discriminate.
  - intros y _ N. unfold id1. destruct (Z.eqb_spec x y); [congruence|ring].
Qed.

Theorem anticommute : forall n i j a b ma mb (kappa : R), 0 <= i < Z.of_nat n -> 0 <= j < Z.of_nat n ->
  is_odd (orb i) a ma -> is_odd (orb j) b mb ->
  (forall x' x, In x' st4 -> In x st4 -> bsum st4 (fun y => ma x' y *' mb y x +' mb x' y *' ma y x) = kappa *' id1 x' x) ->
  forall s' s, In s' (states n) -> In s (states n) ->
  amm n (total R (chain R (put n i a))) (total R (chain R (put n j b))) s' s +'
  amm n (total R (chain R (put n j b))) (total R (chain R (put n i a))) s' s =
  (if i =? j then kappa *' idm s' s else 0').
Proof.
  induction n as [|n IH]; intros i j a b ma mb kappa Hi Hj Ha Hb Hab s' s A B; [lia|].
  assert (A' := A). assert (B' := B). apply in_states in A', B'. destruct A' as [LA FA], B' as [LB FB].
  destruct s' as [|x' s']; [discriminate|]. destruct s as [|x s]; [discriminate|].
  injection LA as LA. injection LB as LB. inversion FA as [|? ? Fx' Fs']; subst. inversion FB as [|? ? Fx Fs]; subst.
  assert (S' : In s' (states (length s'))) by (apply in_states; auto).
  assert (S0 : In s (states (length s'))) by (apply in_states; auto).
  set (n := length s') in *.
  assert (CS : forall y t, In y st4 -> In t (states n) -> In (y :: t) (states (S n))).
  { intros y t Y T. apply in_states in T. destruct T. apply in_states. split; [cbn; congruence|now constructor]. }
  unfold amm. rewrite !bsum_states_S.
  (* product of two embedded operators, by position *)
  assert (LL : forall p q mp mq, is_odd (orb (Z.of_nat n)) p mp -> is_odd (orb (Z.of_nat n)) q mq ->
    bsum st4 (fun y => bsum (states n) (fun t => total R (chain R (put (S n) (Z.of_nat n) p)) (x' :: s') (y :: t) *'
       total R (chain R (put (S n) (Z.of_nat n) q)) (y :: t) (x :: s))) = idm s' s *' bsum st4 (fun y => mp x' y *' mq y x)).
  { intros p q mp mq Hp Hq. rewrite <- bsum_mull. apply bsum_ext. intros y Hy.
    rewrite (bsum_ext R _ _ _ (fun t => idm s' t *' (sg (odd_par t) *' mp x' y *' (idm t s *' (sg (odd_par s) *' mq y x))))).
    - rewrite bsum_idm by exact S'. unfold idm. destruct (list_eq_dec Z.eq_dec s' s) as [->|]; [|ring].
      transitivity ((sg (odd_par s) *' sg (odd_par s)) *' (mp x' y *' mq y x)); [ring|]. rewrite sg_sq. ring.
    - intros t Ht. rewrite (embed_last n p mp), (embed_last n q mq) by auto. ring. }
  assert (BB : forall p q k l, k <> Z.of_nat n -> l <> Z.of_nat n ->
    bsum st4 (fun y => bsum (states n) (fun t => total R (chain R (put (S n) k p)) (x' :: s') (y :: t) *'
       total R (chain R (put (S n) l q)) (y :: t) (x :: s))) =
    id1 x' x *' bsum (states n) (fun t => total R (chain R (put n k p)) s' t *' total R (chain R (put n l q)) t s)).
  { intros p q k l Hk Hl.
    rewrite (bsum_ext R _ _ _ (fun y => id1 x' y *' (id1 y x *' bsum (states n) (fun t => total R (chain R (put n k p)) s' t *' total R (chain R (put n l q)) t s)))).
    - now rewrite bsum_id1.
    - intros y Hy. rewrite <- !bsum_mull. apply bsum_ext. intros t Ht. rewrite !embed_before by auto. ring. }
  assert (BL : forall p q k mq, k <> Z.of_nat n -> is_odd (orb (Z.of_nat n)) q mq ->
    bsum st4 (fun y => bsum (states n) (fun t => total R (chain R (put (S n) k p)) (x' :: s') (y :: t) *'
       total R (chain R (put (S n) (Z.of_nat n) q)) (y :: t) (x :: s))) =
    total R (chain R (put n k p)) s' s *' (sg (odd_par s) *' mq x' x)).
  { intros p q k mq Hk Hq.
    rewrite (bsum_ext R _ _ _ (fun y => id1 x' y *' (total R (chain R (put n k p)) s' s *' (sg (odd_par s) *' mq y x)))).
    - now rewrite bsum_id1.
    - intros y Hy. rewrite (bsum_single R _ (states n) _ s); [|apply states_nodup|exact S0|].
      + rewrite embed_before by auto. rewrite (embed_last n q mq) by auto. unfold idm. destruct (list_eq_dec Z.eq_dec s s); [ring|congruence].
      + intros t Ht N. rewrite (embed_last n q mq) by auto. unfold idm. destruct (list_eq_dec Z.eq_dec t s); [congruence|ring]. }
  assert (LB' : forall p q k mq, k <> Z.of_nat n -> is_odd (orb (Z.of_nat n)) q mq ->
    bsum st4 (fun y => bsum (states n) (fun t => total R (chain R (put (S n) (Z.of_nat n) q)) (x' :: s') (y :: t) *'
       total R (chain R (put (S n) k p)) (y :: t) (x :: s))) =
    total R (chain R (put n k p)) s' s *' (sg (odd_par s') *' mq x' x)).
  { intros p q k mq Hk Hq.
    rewrite (bsum_single R _ st4 _ x); [|repeat constructor; cbn; intuition discriminate|exact Fx|].
    - rewrite (bsum_single R _ (states n) _ s'); [|apply states_nodup|exact S'|].
      + rewrite (embed_before n k p) by auto. rewrite (embed_last n q mq) by auto. unfold idm. destruct (list_eq_dec Z.eq_dec s' s'); [|congruence].
        unfold id1. rewrite Z.eqb_refl. ring.
      + intros t Ht N. rewrite (embed_last n q mq) by auto. unfold idm. destruct (list_eq_dec Z.eq_dec s' t); [congruence|ring].
    - intros y Hy N. apply bsum_zero. intros t Ht. rewrite (embed_before n k p) by auto. unfold id1.
      destruct (Z.eqb_spec y x); [congruence|ring]. }
  assert (OD : forall k p mp, 0 <= k < Z.of_nat n -> is_odd (orb k) p mp ->
    total R (chain R (put n k p)) s' s *' sg (odd_par s') = -' (total R (chain R (put n k p)) s' s *' sg (odd_par s))).
  { intros k p mp Hk Hp. destruct (bool_dec (odd_par s') (odd_par s)) as [E|E].
    - rewrite (embed_odd n k p mp) by auto. ring.
    - unfold sg. destruct (odd_par s'), (odd_par s); try congruence; ring. }
  destruct (Z.eq_dec i (Z.of_nat n)) as [->|Ni], (Z.eq_dec j (Z.of_nat n)) as [->|Nj].
  - rewrite (LL a b ma mb), (LL b a mb ma) by assumption. rewrite Z.eqb_refl.
    transitivity (idm s' s *' (bsum st4 (fun y => ma x' y *' mb y x +' mb x' y *' ma y x))).
    { rewrite bsum_add. ring. }
    rewrite Hab by assumption. unfold idm, id1. destruct (list_eq_dec Z.eq_dec s' s) as [->|N], (Z.eqb_spec x' x) as [->|M];
      destruct (list_eq_dec Z.eq_dec _ _) as [E|E]; try ring; congruence.
  - rewrite (LB' b a j ma), (BL b a j ma) by assumption. replace (Z.of_nat n =? j) with false by lia.
    transitivity ((total R (chain R (put n j b)) s' s *' sg (odd_par s') +' total R (chain R (put n j b)) s' s *' sg (odd_par s)) *' ma x' x); [ring|].
    rewrite (OD j b mb) by (auto; lia). ring.
  - rewrite (BL a b i mb), (LB' a b i mb) by assumption. replace (i =? Z.of_nat n) with false by lia.
    transitivity ((total R (chain R (put n i a)) s' s *' sg (odd_par s') +' total R (chain R (put n i a)) s' s *' sg (odd_par s)) *' mb x' x); [ring|].
    rewrite (OD i a ma) by (auto; lia). ring.
  - rewrite (BB a b i j), (BB b a j i) by assumption.
    assert (I0 := IH i j a b ma mb kappa ltac:(lia) ltac:(lia) Ha Hb Hab s' s S' S0). unfold amm in I0.
    transitivity (id1 x' x *' (bsum (states n) (fun t => total R (chain R (put n i a)) s' t *' total R (chain R (put n j b)) t s) +'
       bsum (states n) (fun t => total R (chain R (put n j b)) s' t *' total R (chain R (put n i a)) t s))); [ring|].
    rewrite I0. destruct (i =? j); [|ring]. unfold idm, id1.
    destruct (list_eq_dec Z.eq_dec s' s) as [->|N], (Z.eqb_spec x' x) as [->|M];
      destruct (list_eq_dec Z.eq_dec _ _) as [E|E]; try ring; congruence.
Qed.
End Site.
