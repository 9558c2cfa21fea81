(** Ordered commutative rings: exact stand-in for numbers that are compared. *)
From Coq Require Import ZArith Bool List Lia Ring QArith Qcanon.
From Verif Require Import DictLib IndexLib RingLib.
Import ListNotations.
Open Scope Z_scope.

Record ORing := {
  oC :> CRing;
  oleb : oC -> oC -> bool;
  oleb_total : forall a b, oleb a b = true \/ oleb b a = true;
  oleb_trans : forall a b c, oleb a b = true -> oleb b c = true -> oleb a c = true;
  oleb_antisym : forall a b, oleb a b = true -> oleb b a = true -> a = b;
  oleb_add : forall a b c, oleb a b = true -> oleb (radd oC a c) (radd oC b c) = true;
  oltb_mul : forall a b, oleb a (r0 oC) = false -> oleb b (r0 oC) = false -> oleb (rmul oC a b) (r0 oC) = false
}.
Definition oltb {K : ORing} (a b : K) : bool := negb (oleb K b a).
Definition ole {K : ORing} (a b : K) : Prop := oleb K a b = true.
Definition olt {K : ORing} (a b : K) : Prop := oleb K b a = false.
Definition oeqb {K : ORing} (a b : K) : bool := oleb K a b && oleb K b a.

Section Ord.
Variable K : ORing.
Add Ring KR : (rth K).
Notation "0'" := (r0 K).
Infix "+'" := (radd K) (at level 50, left associativity).
Infix "*'" := (rmul K) (at level 40, left associativity).
Implicit Types a b c : K.

Lemma ole_refl : forall a, ole a a.
Proof. intros a. unfold ole. destruct (oleb_total K a a); auto. Qed.
Lemma ole_trans : forall a b c, ole a b -> ole b c -> ole a c.
Proof. unfold ole. intros. eapply oleb_trans; eauto. Qed.
Lemma olt_ole : forall a b, olt a b -> ole a b.
Proof. unfold olt, ole. intros a b H. destruct (oleb_total K a b); auto. congruence. Qed.
Lemma ole_or_olt : forall a b, ole a b \/ olt b a.
Proof. unfold ole, olt. intros a b. destruct (oleb K a b); auto. Qed.
Lemma olt_not_ole : forall a b, olt a b <-> ~ ole b a.
Proof. unfold olt, ole. intros a b. destruct (oleb K b a); split; intros; congruence. Qed.
Lemma ole_lt_trans : forall a b c, ole a b -> olt b c -> olt a c.
Proof. intros a b c H1 H2. apply olt_not_ole. intro H. apply olt_not_ole in H2. apply H2. eapply ole_trans; eauto. Qed.
Lemma olt_le_trans : forall a b c, olt a b -> ole b c -> olt a c.
Proof. intros a b c H1 H2. apply olt_not_ole. intro H. apply olt_not_ole in H1. apply H1. eapply ole_trans; eauto. Qed.
Lemma oeqb_spec : forall a b, reflect (a = b) (oeqb a b).
Proof.
  intros a b. unfold oeqb. destruct (oleb K a b) eqn:E1, (oleb K b a) eqn:E2; cbn; constructor; try (intros ->; rewrite ole_refl in *; discriminate).
  - now apply (oleb_antisym K).
Qed.
Lemma ole_add_r : forall a b c, ole a b -> ole (a +' c) (b +' c).
Proof. intros. now apply (oleb_add K). Qed.
Lemma ole_add_l : forall a b c, ole a b -> ole (c +' a) (c +' b).
Proof. intros a b c H. replace (c +' a) with (a +' c) by ring. replace (c +' b) with (b +' c) by ring. now apply ole_add_r. Qed.
Lemma ole_add2 : forall a b a' b', ole a a' -> ole b b' -> ole (a +' b) (a' +' b').
Proof. intros. eapply ole_trans; [apply ole_add_r|apply ole_add_l]; eauto. Qed.
Lemma ole_sub : forall a b, ole a b <-> ole 0' (rsub K b a).
Proof.
  intros a b. split; intro H.
  - apply (ole_add_r _ _ (ropp K a)) in H. replace (a +' ropp K a) with 0' in H by ring. replace (rsub K b a) with (b +' ropp K a) by ring. exact H.
  - apply (ole_add_r _ _ a) in H. replace (0' +' a) with a in H by ring. replace (rsub K b a +' a) with b in H by ring. exact H.
Qed.
Lemma ole_eq_lt : forall a b, ole a b -> a = b \/ olt a b.
Proof. intros a b H. destruct (ole_or_olt b a) as [H'|H']; [left; now apply (oleb_antisym K)|now right]. Qed.
Lemma oleb_mul : forall a b, ole 0' a -> ole 0' b -> ole 0' (a *' b).
Proof.
  intros a b Ha Hb. apply ole_eq_lt in Ha, Hb. destruct Ha as [<-|Ha]; [replace (0' *' b) with 0' by ring; apply ole_refl|].
  destruct Hb as [<-|Hb]; [replace (a *' 0') with 0' by ring; apply ole_refl|]. apply olt_ole. now apply (oltb_mul K).
Qed.
Lemma ole_mul2 : forall a b a' b', ole 0' a -> ole a a' -> ole 0' b -> ole b b' -> ole (a *' b) (a' *' b').
Proof.
  intros a b a' b' Ha H Hb H'. apply ole_trans with (a' *' b).
  - apply ole_sub. replace (rsub K (a' *' b) (a *' b)) with (rsub K a' a *' b) by ring. apply oleb_mul; [exact (proj1 (ole_sub _ _) H)|auto].
  - apply ole_sub. replace (rsub K (a' *' b') (a' *' b)) with (a' *' rsub K b' b) by ring. apply oleb_mul; [exact (ole_trans _ _ _ Ha H)|exact (proj1 (ole_sub _ _) H')].
Qed.
Lemma ole_sq : forall a, ole 0' (a *' a).
Proof.
  intros a. destruct (oleb_total K 0' a) as [H|H]; [now apply oleb_mul|].
  assert (N: ole 0' (ropp K a)).
  { apply (ole_add_r _ _ (ropp K a)) in H. replace (a +' ropp K a) with 0' in H by ring. replace (0' +' ropp K a) with (ropp K a) in H by ring. exact H. }
  replace (a *' a) with (ropp K a *' ropp K a) by ring. now apply oleb_mul.
Qed.
Lemma olt_sub : forall a b, olt a b <-> olt 0' (rsub K b a).
Proof.
  intros a b. rewrite !olt_not_ole. split; intros H H'; apply H.
  - apply (ole_add_r _ _ a) in H'. replace (0' +' a) with a in H' by ring. replace (rsub K b a +' a) with b in H' by ring. exact H'.
  - apply (ole_add_r _ _ (ropp K a)) in H'. replace (a +' ropp K a) with 0' in H' by ring. replace (rsub K b a) with (b +' ropp K a) by ring. exact H'.
Qed.
Lemma ole_sq_inv : forall a b, ole 0' b -> ole (a *' a) (b *' b) -> ole a b.
Proof.
  intros a b Hb H. destruct (ole_or_olt a b) as [|N]; [auto|]. exfalso.
  assert (P: olt 0' (rsub K (a *' a) (b *' b))).
  { replace (rsub K (a *' a) (b *' b)) with (rsub K a b *' (a +' b)) by ring. apply (oltb_mul K); [now apply olt_sub in N|].
    apply (olt_le_trans 0' a); [eapply ole_lt_trans; eauto|]. replace a with (a +' 0') at 1 by ring. now apply ole_add_l. }
  apply olt_sub in P. apply olt_not_ole in P. auto.
Qed.
Lemma bsum_ole : forall X (l : list X) f g, (forall x, In x l -> ole (f x) (g x)) -> ole (@bsum K X l f) (@bsum K X l g).
Proof.
  induction l as [|x l IH]; intros f g H; [apply ole_refl|]. rewrite !bsum_cons. apply ole_add2; [apply H; now left|]. apply IH. intros; apply H; now right.
Qed.
Lemma bsum_ole0 : forall X (l : list X) f, (forall x, In x l -> ole 0' (f x)) -> ole 0' (@bsum K X l f).
Proof.
  intros X l f H. rewrite <- (bsum_zero K X l (fun _ => 0')) by auto. now apply bsum_ole.
Qed.
End Ord.

Definition Z_oring : ORing.
Proof.
  refine (Build_ORing Z_ring Z.leb _ _ _ _ _); cbn; intros; rewrite ?Z.leb_le, ?Z.leb_gt in *; try lia; nia.
Defined.
Definition Qcleb (a b : Qc) : bool := Qle_bool a b.
Lemma Qcleb_iff : forall a b : Qc, Qcleb a b = true <-> Qcle a b.
Proof. intros a b. apply Qle_bool_iff. Qed.
Lemma Qcleb_gt : forall a b : Qc, Qcleb a b = false <-> Qclt b a.
Proof.
  intros a b. rewrite <- not_true_iff_false, Qcleb_iff. split; [apply Qcnot_le_lt|apply Qclt_not_le].
Qed.
Definition Qc_oring : ORing.
Proof.
  refine (Build_ORing Qc_ring Qcleb _ _ _ _ _); cbn; intros; rewrite ?Qcleb_gt, ?Qcleb_iff in *.
  - unfold Qcle. destruct (Qlt_le_dec a b) as [H|H]; [left; now apply Qlt_le_weak|now right].
  - eapply Qcle_trans; eauto.
  - now apply Qcle_antisym.
  - apply Qcplus_le_compat; [auto|apply Qcle_refl].
  - apply (Qcmult_lt_compat_r 0 a b) in H; [|auto]. now rewrite Qcmult_0_l in H.
Defined.
