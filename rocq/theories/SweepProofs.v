(** Lemmas about the sweep drivers. *)
From Coq Require Import ZArith Bool List Lia Sorted.
From Verif Require Import IndexLib RingLib OrdLib SweepModel.
Import ListNotations.
Open Scope nat_scope.

Lemma nth_repeat_lt : forall X (x d : X) n i, i < n -> nth i (repeat x n) d = x.
Proof. intros X x d n. induction n as [|n IH]; intros i H; [lia|]. destruct i; [reflexivity|]. cbn. apply IH. lia. Qed.
Lemma last_as_nth : forall X (l : list X) d, last l d = nth (length l - 1) l d.
Proof. intros X l d. induction l as [|x l IH]; [reflexivity|]. destruct l as [|y l]; [reflexivity|]. change (last (x :: y :: l) d) with (last (y :: l) d). rewrite IH. cbn [length]. rewrite !Nat.sub_0_r || idtac. cbn [Nat.sub]. rewrite ?Nat.sub_0_r. reflexivity. Qed.
Lemma pad_nth : forall X (l : list X) d n k, l <> [] -> k < Nat.max n (length l) -> nth k (l ++ repeat (last l d) (n - length l)) d = nth (Nat.min k (length l - 1)) l d.
Proof.
  intros X l d n k N H. assert (0 < length l) by (destruct l; [contradiction|cbn; lia]). destruct (Nat.lt_ge_cases k (length l)) as [L|L].
  - rewrite app_nth1 by exact L. f_equal. lia.
  - rewrite app_nth2 by exact L. rewrite nth_repeat_lt by lia. rewrite last_as_nth. f_equal. lia.
Qed.
Lemma pad_last : forall X (l : list X) d m, last (l ++ repeat (last l d) m) d = last l d.
Proof.
  intros X l d m. induction m as [|m IH]; [cbn; now rewrite app_nil_r|]. replace (S m) with (m + 1) by lia. rewrite repeat_app, app_assoc. cbn [repeat]. apply last_last.
Qed.
Lemma last_repeat : forall X (x : X) m, last (repeat x m) x = x.
Proof. intros X x m. induction m as [|m IH]; [reflexivity|]. destruct m; [reflexivity|]. exact IH. Qed.

Section P.
Variable K : ORing.
Notation "0'" := (r0 K).
Variable St : Type.
Section G.
Variable E : Type.
Variable site : St -> call K -> St * E.
Variable start : E.
Variable upd : E -> E -> E.
Variable delta : E -> E -> K.
Variable dirf : nat -> bool -> bool.
Variables (n_sites dot : nat) (init_site : option nat) (tol : K).

(* a history of calls with their values *)
Fixpoint runs (st : St) (h : list (call K * E)) (st' : St) : Prop :=
  match h with [] => st = st' | (c, v) :: h' => exists s, site st c = (s, v) /\ runs s h' st' end.
Lemma runs_app : forall h1 h2 a b c, runs a h1 b -> runs b h2 c -> runs a (h1 ++ h2) c.
Proof.
  induction h1 as [|[cl v] h1 IH]; intros h2 a b c H1 H2; cbn in *; [now subst|]. destruct H1 as (s & E1 & H1). exists s. split; [exact E1|now apply (IH h2 s b c)].
Qed.
Definition visited (fwd : bool) (l : list nat) : list nat := filter (fun i => negb (skipped init_site fwd i)) l.
Lemma fold_sites : forall iw fwd bd nz th l st e tr, exists h st',
  fold_left (fun acc i => let '(st, e, tr) := acc in if skipped init_site fwd i then acc
    else let c := Call K iw fwd i bd nz th in let '(st, v) := site st c in (st, upd e v, tr ++ [c])) l (st, e, tr)
  = (st', fold_left upd (map snd h) e, tr ++ map fst h) /\ runs st h st' /\ map fst h = map (fun i => Call K iw fwd i bd nz th) (visited fwd l).
Proof.
  intros iw fwd bd nz th. induction l as [|i l IH]; intros st e tr.
  - exists [], st. cbn. rewrite app_nil_r. auto.
  - cbn [fold_left visited filter]. destruct (skipped init_site fwd i) eqn:Sk; cbn [negb]; [apply IH|].
    destruct (site st (Call K iw fwd i bd nz th)) as [s v] eqn:Es. destruct (IH s (upd e v) (tr ++ [Call K iw fwd i bd nz th])) as (h & st' & Ef & R & M).
    exists ((Call K iw fwd i bd nz th, v) :: h), st'. cbn [map fst snd fold_left]. split; [etransitivity; [|etransitivity; [exact Ef|now rewrite <- app_assoc]]; cbv zeta; try rewrite Es; reflexivity|]. split; [exists s; auto|]. f_equal. exact M.
Qed.
Lemma one_sweep_spec : forall iw fwd bd nz th st, exists h st',
  one_sweep K St E site start upd n_sites dot init_site iw fwd bd nz th st = (st', fold_left upd (map snd h) start, map fst h) /\ runs st h st' /\
  map fst h = map (fun i => Call K iw fwd i bd nz th) (visited fwd (windows n_sites dot fwd)).
Proof. intros. unfold one_sweep. destruct (fold_sites iw fwd bd nz th (windows n_sites dot fwd) st start []) as (h & st' & H). exists h, st'. exact H. Qed.

Definition stops (noises : list K) (es : list E) (k : nat) : Prop :=
  0 < k /\ olt (delta (nth k es start) (nth (k - 1) es start)) tol /\ nth k noises 0' = last noises 0'.
Variable dir : nat -> bool.
Lemma sweeps_spec : forall bdims noises thrds, (forall iw, dirf (S iw) (negb (dir iw)) = dir (S iw)) ->
  forall left iw fwd st es tr, dirf iw fwd = dir iw -> length es = iw ->
  let r := sweeps K St E site start upd delta dirf n_sites dot init_site tol bdims noises thrds left iw fwd st es tr in
  exists hist, r_trace K St E r = tr ++ map fst (concat hist) /\ runs st (concat hist) (r_state K St E r) /\
    r_targets K St E r = es ++ map (fun h => fold_left upd (map snd h) start) hist /\ length hist <= left /\
    (forall j, j < length hist -> map fst (nth j hist []) = map (fun i => Call K (iw + j) (dir (iw + j)) i (nth (iw + j) bdims 0%Z) (nth (iw + j) noises 0') (nth (iw + j) thrds 0')) (visited (dir (iw + j)) (windows n_sites dot (dir (iw + j))))) /\
    (forall k, iw <= k -> k + 1 < iw + length hist -> ~ stops noises (r_targets K St E r) k) /\
    (length hist = left \/ (0 < length hist /\ stops noises (r_targets K St E r) (iw + length hist - 1))).
Proof.
  intros bdims noises thrds Hd. induction left as [|left IH]; intros iw fwd st es tr Df Le r.
  - exists []. cbn. rewrite !app_nil_r. split; [reflexivity|]. split; [reflexivity|]. split; [reflexivity|]. split; [lia|]. split; [intros; lia|]. split; [intros; lia|]. now left.
  - unfold r. clear r. cbn [sweeps]. rewrite Df. destruct (one_sweep_spec iw (dir iw) (nth iw bdims 0%Z) (nth iw noises 0') (nth iw thrds 0') st) as (h & s1 & Eo & R & M). rewrite Eo.
    set (e := fold_left upd (map snd h) start) in *. set (de := match iw with 0 => 0' | S p => delta e (nth p es start) end).
    assert (St_iff : forall rest, 0 < iw -> (Nat.ltb 0 iw && oltb de tol && oeqb (nth iw noises 0') (last noises 0') = true <-> stops noises ((es ++ [e]) ++ rest) iw)).
    { intros rest Hi. unfold stops. rewrite <- app_assoc. rewrite (app_nth2 es _ start (n := iw)) by lia. rewrite (app_nth1 es _ start (n := iw - 1)) by lia. replace (iw - length es) with 0 by lia. cbn [app nth].
      assert (Ed : de = delta e (nth (iw - 1) es start)) by (unfold de; destruct iw as [|p]; [lia|]; cbn [Nat.sub]; now rewrite Nat.sub_0_r). rewrite Ed.
      rewrite !andb_true_iff, Nat.ltb_lt. unfold oltb, olt. rewrite negb_true_iff. destruct (oeqb_spec K (nth iw noises 0') (last noises 0')); intuition congruence. }
    destruct (Nat.ltb 0 iw && oltb de tol && oeqb (nth iw noises 0') (last noises 0')) eqn:Ec.
    + exists [h]. cbn [concat map r_trace r_state r_targets length]. rewrite app_nil_r. split; [reflexivity|]. split; [exact R|]. split; [reflexivity|]. split; [lia|]. split.
      * intros j Hj. assert (j = 0) as -> by lia. rewrite Nat.add_0_r. exact M.
      * split; [intros; lia|]. right. split; [lia|]. replace (iw + 1 - 1) with iw by lia. assert (0 < iw) by (destruct (Nat.ltb_spec 0 iw); [assumption|discriminate]). rewrite <- (app_nil_r (es ++ [e])). now apply St_iff.
    + destruct (IH (S iw) (negb (dir iw)) s1 (es ++ [e]) (tr ++ map fst h)) as (hist & H1 & H2 & H3 & H4 & H5 & H6 & H7).
      * apply Hd.
      * rewrite app_length. cbn. lia.
      * set (r := sweeps _ _ _ _ _ _ _ _ _ _ _ _ _ _ _ _ _ _ _ _ _) in *. exists (h :: hist). cbn [concat map length]. split; [rewrite H1, map_app, app_assoc; reflexivity|]. split; [now apply (runs_app _ _ _ s1)|].
        split; [rewrite H3, <- app_assoc; reflexivity|]. split; [lia|]. split; [|split].
        -- intros [|j] Hj; [rewrite Nat.add_0_r; exact M|]. cbn [nth]. rewrite H5 by lia. replace (S iw + j) with (iw + S j) by lia. reflexivity.
        -- intros k Hk1 Hk2. destruct (Nat.eq_dec k iw) as [->|]; [|apply H6; lia]. intros Hs. pose proof (proj1 Hs) as Hpos. rewrite H3 in Hs. apply (St_iff _ Hpos) in Hs. congruence.
        -- destruct H7 as [H7|[H7 H8]]; [left; lia|right]. split; [lia|]. replace (iw + S (length hist) - 1) with (S iw + length hist - 1) by lia. exact H8.
Qed.
End G.

Lemma windows_in : forall n d f i, In i (windows n d f) <-> i + d <= n.
Proof. intros n d f i. unfold windows. destruct f; [rewrite in_seq|rewrite <- in_rev, in_seq]; lia. Qed.
Lemma seq_sorted : forall len s, StronglySorted lt (seq s len).
Proof. induction len as [|len IH]; intros s; cbn; constructor; auto. apply Forall_forall. intros x H. apply in_seq in H. lia. Qed.
Lemma sorted_rev : forall l, StronglySorted lt l -> StronglySorted gt (rev l).
Proof.
  induction l as [|x l IH]; intros H; cbn; [constructor|]. inversion H as [|? ? Hs Hf]; subst. rewrite Forall_forall in Hf.
  assert (G : forall l1, StronglySorted gt l1 -> (forall y, In y l1 -> x < y) -> StronglySorted gt (l1 ++ [x])).
  { clear. induction l1 as [|y l1 IH]; intros Hs Hy; cbn; [constructor; constructor|]. inversion Hs as [|? ? Hs' Hf]; subst. constructor; [apply IH; [exact Hs'|intros; apply Hy; now right]|].
    apply Forall_app. split; [exact Hf|]. constructor; [|constructor]. apply Hy. now left. }
  apply G; [now apply IH|]. intros y Hy. apply in_rev in Hy. now apply Hf.
Qed.
Lemma filter_sorted : forall (R : nat -> nat -> Prop) f l, StronglySorted R l -> StronglySorted R (filter f l).
Proof.
  intros R f. induction l as [|x l IH]; intros H; cbn; [constructor|]. inversion H as [|? ? Hs Hf]; subst. destruct (f x); [|now apply IH]. constructor; [now apply IH|].
  apply Forall_forall. intros y Hy. apply filter_In in Hy. rewrite Forall_forall in Hf. now apply Hf.
Qed.
Lemma windows_sorted : forall n d (f : bool), if f then StronglySorted lt (windows n d f) else StronglySorted gt (windows n d f).
Proof. intros n d f. unfold windows. destruct f; [apply seq_sorted|apply sorted_rev, seq_sorted]. Qed.

(** *** minimum *)
Lemma oltb_true : forall a b : K, @oltb K a b = true <-> olt a b. Proof. intros. unfold oltb, olt. apply negb_true_iff. Qed.
Lemma oltb_false : forall a b : K, oltb a b = false <-> ole b a. Proof. intros. unfold oltb, ole. apply negb_false_iff. Qed.
Lemma fold_min : forall E (lt : E -> E -> bool) (upd : E -> E -> E), (forall a b, upd a b = if lt b a then b else a) ->
  (forall a b c, lt a b = false -> lt b c = false -> lt a c = false) -> (forall a b, lt a b = true -> lt b a = false) -> (forall a, lt a a = false) ->
  forall vs e, let m := fold_left upd vs e in (m = e \/ In m vs) /\ forall v, v = e \/ In v vs -> lt v m = false.
Proof.
  intros E ltb upd Hu Ht Ha Hi. induction vs as [|v vs IH]; intros e; cbn [fold_left].
  - split; [now left|]. intros v [->|[]]. apply Hi.
  - destruct (IH (upd e v)) as [H1 H2]. split.
    + destruct H1 as [H1|H1]; [|right; now right]. rewrite Hu in H1 at 2. destruct (ltb v e); [right; left; symmetry; exact H1|left; exact H1].
    + assert (Hup : ltb (upd e v) (fold_left upd vs (upd e v)) = false) by (apply H2; now left).
      assert (G : ltb e (upd e v) = false /\ ltb v (upd e v) = false).
      { rewrite Hu. destruct (ltb v e) eqn:L; [split; [now apply Ha|apply Hi]|split; [apply Hi|exact L]]. }
      intros w [->|[->|Hw]]; [apply (Ht _ (upd e v)); tauto|apply (Ht _ (upd e w)); tauto|apply H2; now right].
Qed.
Lemma oltb_trans_f : forall a b c : K, oltb a b = false -> oltb b c = false -> oltb a c = false.
Proof. intros a b c. rewrite !oltb_false. intros H1 H2. exact (ole_trans K _ _ _ H2 H1). Qed.
Lemma oltb_asym : forall a b : K, oltb a b = true -> oltb b a = false.
Proof. intros a b. rewrite oltb_true, oltb_false. apply olt_ole. Qed.
Lemma oltb_irr : forall a : K, oltb a a = false. Proof. intros. apply oltb_false, ole_refl. Qed.
Lemma lex_irr : forall a, lex_lt K a a = false.
Proof. induction a as [|x a IH]; [reflexivity|]. cbn. rewrite oltb_irr, IH, andb_false_r. reflexivity. Qed.
Lemma tri : forall x y : K, (oltb x y = true /\ oeqb x y = false /\ oltb y x = false /\ oeqb y x = false) \/ (x = y) \/ (oltb y x = true /\ oeqb x y = false /\ oltb x y = false /\ oeqb y x = false).
Proof.
  intros x y. unfold oltb, oeqb. destruct (oleb K y x) eqn:A, (oleb K x y) eqn:B; cbn.
  - right; left. now apply (oleb_antisym K).
  - right; right. auto.
  - left. auto.
  - destruct (oleb_total K x y); congruence.
Qed.
Lemma oeqb_refl : forall a : K, oeqb a a = true. Proof. intros. unfold oeqb. pose proof (ole_refl K a) as H. unfold ole in H. now rewrite H. Qed.
Lemma lex_asym : forall a b, lex_lt K a b = true -> lex_lt K b a = false.
Proof.
  induction a as [|x a IH]; intros [|y b] H; cbn in *; try discriminate; try reflexivity.
  destruct (tri x y) as [(A & B & C & D)|[->|(A & B & C & D)]].
  - now rewrite C, D.
  - rewrite oltb_irr, oeqb_refl in *. cbn in *. now apply IH.
  - rewrite C, B in H. discriminate.
Qed.
Lemma lex_trans_f : forall a b c, lex_lt K a b = false -> lex_lt K b c = false -> lex_lt K a c = false.
Proof.
  induction a as [|x a IH]; intros [|y b] [|z c] H1 H2; cbn in *; try discriminate; try reflexivity.
  destruct (tri x y) as [(A & B & C & D)|[->|(A & B & C & D)]].
  - rewrite A in H1. discriminate.
  - rewrite oltb_irr, oeqb_refl in H1. cbn in H1. destruct (oltb y z); [discriminate|]. cbn in *. destruct (oeqb y z); [|reflexivity]. cbn in *. now apply (IH b c).
  - destruct (tri y z) as [(A' & B' & C' & D')|[->|(A' & B' & C' & D')]].
    + rewrite A' in H2. discriminate.
    + now rewrite C, B.
    + assert (Q : olt z x). { apply oltb_true in A. apply oltb_true in A'. exact (ole_lt_trans K _ _ _ (olt_ole K _ _ A') A). }
      assert (Q1 : oltb x z = false) by (apply oltb_false; now apply olt_ole). rewrite Q1. cbn. unfold oeqb. unfold olt in Q. rewrite Q. reflexivity.
Qed.
End P.
