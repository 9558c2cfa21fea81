(** Projections, Gram matrices and their singular vectors over an ordered ring. *)
From Coq Require Import ZArith Bool List Lia Ring.
From Verif Require Import DictLib IndexLib RingLib OrdLib.
Import ListNotations.

Section Gram.
Variable K : ORing.
Add Ring KR : (rth K).
Notation "0'" := (r0 K). Notation "1'" := (r1 K).
Infix "+'" := (radd K) (at level 50, left associativity). Infix "*'" := (rmul K) (at level 40, left associativity).
Infix "-^" := (rsub K) (at level 50, left associativity).

(** *** ordered rings *)
Lemma pos_mul0 : forall a b : K, olt 0' a -> ole (a *' b) 0' -> ole b 0'.
Proof. intros a b A B. destruct (ole_or_olt K b 0') as [|N]; [auto|]. exfalso. apply (olt_not_ole K 0' (a *' b)); [now apply (oltb_mul K)|exact B]. Qed.
Lemma sq0 : forall a : K, ole (a *' a) 0' -> a = 0'.
Proof.
  intros a H. destruct (ole_or_olt K a 0') as [N|P].
  - apply ole_eq_lt in N. destruct N as [|N]; [auto|]. exfalso. assert (Q : olt 0' (ropp K a)) by (apply olt_sub in N; replace (ropp K a) with (0' -^ a) by ring; exact N).
    assert (X := oltb_mul K _ _ Q Q). replace (ropp K a *' ropp K a) with (a *' a) in X by ring. unfold ole in H. congruence.
  - exfalso. assert (X := oltb_mul K _ _ P P). unfold ole in H. congruence.
Qed.
Lemma sum0 : forall X (l : list X) f, (forall x, In x l -> ole 0' (f x)) -> ole (bsum (R := K) l f) 0' -> forall x, In x l -> ole (f x) 0'.
Proof.
  induction l as [|y l IH]; intros f N S x I; [destruct I|]. rewrite bsum_cons in S. assert (N' : ole 0' (bsum (R := K) l f)) by (apply bsum_ole0; intros; apply N; now right).
  assert (Y : ole 0' (f y)) by (apply N; now left). destruct I as [<-|I].
  - apply ole_trans with (f y +' bsum (R := K) l f); [|exact S]. replace (f y) with (f y +' 0') at 1 by ring. now apply ole_add_l.
  - apply (IH f); [intros; apply N; now right| |exact I]. apply ole_trans with (f y +' bsum (R := K) l f); [|exact S]. replace (bsum (R := K) l f) with (0' +' bsum (R := K) l f) at 1 by ring. now apply ole_add_r.
Qed.
Lemma bsum_sub : forall X (l : list X) f g, bsum (R := K) l (fun x => f x -^ g x) = bsum (R := K) l f -^ bsum (R := K) l g.
Proof. intros X l f g. induction l as [|x l IH]; [cbn; ring|]. rewrite !bsum_cons, IH. ring. Qed.

Variable T : Type.
Variable pos : list T.
Definition ip (x y : T -> K) : K := bsum pos (fun p => x p *' y p).
Lemma ip_sym : forall x y, ip x y = ip y x. Proof. intros. apply bsum_ext. intros. ring. Qed.
Lemma ip_ext : forall x x' y y', (forall p, In p pos -> x p = x' p) -> (forall p, In p pos -> y p = y' p) -> ip x y = ip x' y'.
Proof. intros x x' y y' E F. apply bsum_ext. intros p I. now rewrite (E p I), (F p I). Qed.
Lemma ip_sub : forall x y z, ip (fun p => x p -^ y p) z = ip x z -^ ip y z.
Proof. intros. unfold ip. rewrite <- bsum_sub. apply bsum_ext. intros. ring. Qed.
Lemma ip_subr : forall x y z, ip z (fun p => x p -^ y p) = ip z x -^ ip z y.
Proof. intros. rewrite ip_sym, ip_sub. now rewrite (ip_sym x), (ip_sym y). Qed.
Lemma ip_sum : forall J (l : list J) (c : J -> K) (e : J -> T -> K) z, ip (fun p => bsum l (fun j => e j p *' c j)) z = bsum l (fun j => c j *' ip (e j) z).
Proof.
  intros. unfold ip. rewrite (bsum_ext K _ pos _ (fun p => bsum l (fun j => c j *' (e j p *' z p)))).
  - rewrite bsum_swap. apply bsum_ext. intros j _. now rewrite bsum_mull.
  - intros p _. rewrite <- bsum_mulr. apply bsum_ext. intros. ring.
Qed.
Lemma ip_pos : forall x, ole 0' (ip x x). Proof. intros x. apply bsum_ole0. intros. apply ole_sq. Qed.

(* orthonormal family *)
Definition ortho (l : list nat) (e : nat -> T -> K) : Prop := forall j j', In j l -> In j' l -> ip (e j) (e j') = if Nat.eqb j j' then 1' else 0'.
Definition proj (l : list nat) (e : nat -> T -> K) (x : T -> K) : T -> K := fun p => bsum l (fun j => e j p *' ip (e j) x).
Lemma pick : forall (l : list nat) (c : nat -> K) j, NoDup l -> In j l -> bsum l (fun i => c i *' (if Nat.eqb i j then 1' else 0')) = c j.
Proof.
  intros l c j N I. rewrite (bsum_single K nat l _ j N I).
  - rewrite Nat.eqb_refl. ring.
  - intros x _ D. apply Nat.eqb_neq in D. rewrite D. ring.
Qed.
Lemma proj_coef : forall l e x j, NoDup l -> ortho l e -> In j l -> ip (proj l e x) (e j) = ip (e j) x.
Proof.
  intros l e x j N O I. unfold proj. rewrite ip_sum. rewrite <- (pick l (fun i => ip (e i) x) j N I). apply bsum_ext. intros i Ii. now rewrite (O i j Ii I).
Qed.
Lemma proj_loss : forall l e x, NoDup l -> ortho l e ->
  ip (fun p => x p -^ proj l e x p) (fun p => x p -^ proj l e x p) = ip x x -^ bsum l (fun j => ip (e j) x *' ip (e j) x).
Proof.
  intros l e x N O. rewrite ip_sub, !ip_subr.
  assert (E : ip (proj l e x) x = bsum l (fun j => ip (e j) x *' ip (e j) x)) by (unfold proj; now rewrite ip_sum).
  assert (F : ip (proj l e x) (proj l e x) = bsum l (fun j => ip (e j) x *' ip (e j) x)).
  { unfold proj at 1. rewrite ip_sum. apply bsum_ext. intros j I. rewrite (ip_sym (e j) (proj l e x)), (proj_coef l e x j N O I). reflexivity. }
  rewrite (ip_sym x (proj l e x)), E, F. ring.
Qed.
Lemma bessel : forall l e x, NoDup l -> ortho l e -> ole (bsum l (fun j => ip (e j) x *' ip (e j) x)) (ip x x).
Proof. intros l e x N O. apply ole_sub. rewrite <- (proj_loss l e x N O). apply ip_pos. Qed.

(** *** a Gram matrix with singular vectors *)
Variable G : list (K * (T -> K)).
Definition gram (p q : T) : K := bsum G (fun g => fst g *' (snd g p *' snd g q)).
Hypothesis Gpos : forall g, In g G -> ole 0' (fst g).
Variable J : list nat.
Hypothesis NJ : NoDup J.
Variables u v : nat -> T -> K.
Variable s : nat -> K.
Hypothesis Ou : ortho J u.
Hypothesis Ov : ortho J v.
Hypothesis Spos : forall j, In j J -> ole 0' (s j).
Hypothesis Dec : forall p q, In p pos -> In q pos -> gram p q = bsum J (fun j => u j p *' s j *' v j q).

Definition quad (y z : T -> K) : K := bsum G (fun g => fst g *' (ip (snd g) y *' ip (snd g) z)).
Lemma quad_gram : forall y z, quad y z = bsum pos (fun p => bsum pos (fun q => y p *' gram p q *' z q)).
Proof using.
  intros y z. unfold quad, gram, ip.
  transitivity (bsum G (fun g => bsum pos (fun p => bsum pos (fun q => y p *' (fst g *' (snd g p *' snd g q)) *' z q)))).
  - apply bsum_ext. intros g _. rewrite bsum_prod, <- bsum_mull. apply bsum_ext. intros p _. rewrite <- bsum_mull. apply bsum_ext. intros q _. ring.
  - rewrite bsum_swap. apply bsum_ext. intros p _. rewrite bsum_swap. apply bsum_ext. intros q _. rewrite bsum_mulr, bsum_mull. reflexivity.
Qed.
Lemma quad_svd : forall y z, quad y z = bsum J (fun j => s j *' (ip (u j) y *' ip (v j) z)).
Proof using Dec.
  intros y z. rewrite quad_gram. unfold ip.
  transitivity (bsum pos (fun p => bsum pos (fun q => bsum J (fun j => s j *' ((u j p *' y p) *' (v j q *' z q)))))).
  - apply bsum_ext. intros p Ip. apply bsum_ext. intros q Iq. rewrite (Dec p q Ip Iq), <- bsum_mull, <- bsum_mulr. apply bsum_ext. intros j _. ring.
  - transitivity (bsum pos (fun p => bsum J (fun j => bsum pos (fun q => s j *' ((u j p *' y p) *' (v j q *' z q)))))); [apply bsum_ext; intros p _; apply bsum_swap|].
    rewrite bsum_swap. apply bsum_ext. intros j _. rewrite bsum_prod, <- bsum_mull. apply bsum_ext. intros p _. rewrite <- bsum_mull. reflexivity.
Qed.
Lemma quad_sym : forall y z, quad y z = quad z y. Proof using. intros. apply bsum_ext. intros. ring. Qed.
Lemma quad_pos : forall y, ole 0' (quad y y). Proof using Gpos. intros y. apply bsum_ole0. intros g I. apply oleb_mul; [now apply Gpos|apply ole_sq]. Qed.
Lemma quad_sub : forall y z w, quad (fun p => y p -^ z p) w = quad y w -^ quad z w.
Proof using. intros. unfold quad. rewrite <- bsum_sub. apply bsum_ext. intros g _. rewrite ip_subr. ring. Qed.
Lemma quad_u : forall m z, In m J -> quad (u m) z = s m *' ip (v m) z.
Proof using Dec NJ Ou.
  intros m z I. rewrite quad_svd. rewrite <- (pick J (fun j => s j *' ip (v j) z) m NJ I). apply bsum_ext. intros j Ij. rewrite (Ou j m Ij I). ring.
Qed.
Lemma quad_v : forall m z, In m J -> quad z (v m) = s m *' ip (u m) z.
Proof using Dec NJ Ov.
  intros m z I. rewrite quad_svd. rewrite <- (pick J (fun j => s j *' ip (u j) z) m NJ I). apply bsum_ext. intros j Ij. rewrite (Ov j m Ij I). ring.
Qed.
Lemma same_vectors : forall m, In m J -> s m = 0' \/ forall p, In p pos -> u m p = v m p.
Proof.
  intros m I. assert (P := Spos m I). apply ole_eq_lt in P. destruct P as [P|P]; [now left|right].
  assert (E : quad (fun p => u m p -^ v m p) (fun p => u m p -^ v m p) = ropp K (s m *' ip (fun p => u m p -^ v m p) (fun p => u m p -^ v m p))).
  { rewrite quad_sub, !(quad_sym _ (fun p => u m p -^ v m p)), !quad_sub, (quad_v m _ I), (quad_u m _ I), (quad_v m _ I), (quad_sym (v m)), (quad_v m _ I), ip_sub, !ip_subr.
    rewrite (Ou m m I I), (Ov m m I I), Nat.eqb_refl, (ip_sym (v m) (u m)). ring. }
  assert (Q := quad_pos (fun p => u m p -^ v m p)). rewrite E in Q.
  assert (Z : ole (ip (fun p => u m p -^ v m p) (fun p => u m p -^ v m p)) 0').
  { apply (pos_mul0 (s m)); [exact P|]. apply ole_sub. replace (0' -^ s m *' ip (fun p => u m p -^ v m p) (fun p => u m p -^ v m p)) with (ropp K (s m *' ip (fun p => u m p -^ v m p) (fun p => u m p -^ v m p))) by ring. exact Q. }
  intros p Ip. assert (X := sum0 T pos (fun p => (u m p -^ v m p) *' (u m p -^ v m p)) (fun x _ => ole_sq K _) Z p Ip). apply sq0 in X.
  transitivity ((u m p -^ v m p) +' v m p); [ring|]. rewrite X. ring.
Qed.
Lemma s_uv : forall m z, In m J -> s m *' ip (v m) z = s m *' ip (u m) z.
Proof. intros m z I. destruct (same_vectors m I) as [->|E]; [ring|]. f_equal. apply ip_ext; [intros; now rewrite E|reflexivity]. Qed.
Lemma quad_squares : forall w, quad w w = bsum J (fun j => s j *' (ip (u j) w *' ip (u j) w)).
Proof.
  intros w. rewrite quad_svd. apply bsum_ext. intros j I. transitivity (ip (u j) w *' (s j *' ip (v j) w)); [ring|]. rewrite (s_uv j w I). ring.
Qed.
Lemma quad_uu : forall m, In m J -> quad (u m) (u m) = s m.
Proof. intros m I. rewrite (quad_u m _ I), (s_uv m _ I), (Ou m m I I), Nat.eqb_refl. ring. Qed.
Lemma quad_vv : forall m, In m J -> quad (v m) (v m) = s m.
Proof. intros m I. rewrite (quad_v m _ I), (ip_sym (u m)), (s_uv m _ I), (Ou m m I I), Nat.eqb_refl. ring. Qed.
Lemma trace : bsum G (fun g => fst g *' ip (snd g) (snd g)) = bsum J s.
Proof.
  transitivity (bsum pos (fun p => gram p p)).
  - unfold gram. rewrite bsum_swap. apply bsum_ext. intros g _. unfold ip. now rewrite bsum_mull.
  - transitivity (bsum pos (fun p => bsum J (fun j => s j *' (v j p *' u j p)))); [apply bsum_ext; intros p I; rewrite (Dec p p I I); apply bsum_ext; intros; ring|].
    rewrite bsum_swap. apply bsum_ext. intros j I. rewrite bsum_mull. change (s j *' ip (v j) (u j) = s j). rewrite (s_uv j _ I), (Ou j j I I), Nat.eqb_refl. ring.
Qed.
(* weight lost by projecting on a family *)
Definition lost_weight (l : list nat) (e : nat -> T -> K) : K := bsum G (fun g => fst g *' ip (fun p => snd g p -^ proj l e (snd g) p) (fun p => snd g p -^ proj l e (snd g) p)).
Lemma lost_eq : forall l e, NoDup l -> ortho l e -> lost_weight l e = bsum J s -^ bsum l (fun j => quad (e j) (e j)).
Proof.
  intros l e N O. rewrite <- trace. unfold quad. rewrite bsum_swap. rewrite <- bsum_sub. apply bsum_ext. intros g _. rewrite (proj_loss l e _ N O), bsum_mull.
  rewrite (bsum_ext K _ l (fun j => ip (snd g) (e j) *' ip (snd g) (e j)) (fun j => ip (e j) (snd g) *' ip (e j) (snd g))) by (intros; now rewrite ip_sym). ring.
Qed.
Lemma lost_kept : forall l e, NoDup l -> incl l J -> e = u \/ e = v -> lost_weight l e = bsum J s -^ bsum l s.
Proof.
  intros l e N I H. rewrite lost_eq; [|exact N|].
  - f_equal. apply bsum_ext. intros j Ij. destruct H as [->| ->]; [apply quad_uu|apply quad_vv]; now apply I.
  - intros a b Ia Ib. destruct H as [->| ->]; [apply Ou|apply Ov]; now apply I.
Qed.
Definition coef (l : list nat) (e : nat -> T -> K) (j : nat) : K := bsum l (fun w => ip (e w) (u j) *' ip (e w) (u j)).
Lemma lost_coef : forall l e, NoDup l -> ortho l e -> lost_weight l e = bsum J s -^ bsum J (fun j => s j *' coef l e j).
Proof.
  intros l e N O. rewrite (lost_eq l e N O). f_equal. unfold coef. transitivity (bsum l (fun w => bsum J (fun j => s j *' (ip (e w) (u j) *' ip (e w) (u j))))).
  - apply bsum_ext. intros w _. rewrite quad_squares. apply bsum_ext. intros j _. now rewrite (ip_sym (u j)).
  - rewrite bsum_swap. apply bsum_ext. intros j _. now rewrite bsum_mull.
Qed.
Lemma coef_pos : forall l e j, ole 0' (coef l e j). Proof using. intros. apply bsum_ole0. intros. apply ole_sq. Qed.
Lemma coef_le : forall l e j, NoDup l -> ortho l e -> In j J -> ole (coef l e j) 1'.
Proof using Ou. intros l e j N O I. assert (B := bessel l e (u j) N O). rewrite (Ou j j I I), Nat.eqb_refl in B. exact B. Qed.
Lemma coef_sum : forall l e, NoDup l -> ortho l e -> ole (bsum J (coef l e)) (bsum l (fun _ => 1')).
Proof using NJ Ou.
  intros l e N O. unfold coef. rewrite bsum_swap. apply bsum_ole. intros w I. assert (B := bessel J u (e w) NJ Ou). rewrite (O w w I I), Nat.eqb_refl in B.
  rewrite (bsum_ext K _ J _ (fun j => ip (u j) (e w) *' ip (u j) (e w))) by (intros; now rewrite ip_sym). exact B.
Qed.
End Gram.

(** *** the largest values *)
Section Best.
Variable K : ORing.
Add Ring KR2 : (rth K).
Notation "0'" := (r0 K). Notation "1'" := (r1 K).
Infix "+'" := (radd K) (at level 50, left associativity). Infix "*'" := (rmul K) (at level 40, left associativity).
Infix "-^" := (rsub K) (at level 50, left associativity).
Lemma smallest : forall X (l : list X) (f : X -> K), l = [] \/ exists x, In x l /\ forall y, In y l -> ole (f x) (f y).
Proof.
  intros X l f. induction l as [|x l IH]; [now left|right]. destruct IH as [->|(m & I & H)].
  - exists x. split; [now left|]. intros y [<-|[]]. apply ole_refl.
  - destruct (ole_or_olt K (f x) (f m)) as [L|L].
    + exists x. split; [now left|]. intros y [<-|Iy]; [apply ole_refl|]. eapply ole_trans; [exact L|now apply H].
    + exists m. split; [now right|]. intros y [<-|Iy]; [now apply olt_ole|now apply H].
Qed.
Lemma best : forall X (l : list X) (keep : X -> bool) (s c : X -> K),
  (forall x, In x l -> ole 0' (s x)) -> (forall x, In x l -> ole 0' (c x)) -> (forall x, In x l -> ole (c x) 1') ->
  (forall x y, In x l -> In y l -> keep x = true -> keep y = false -> ole (s y) (s x)) ->
  ole (bsum l c) (bsum (filter keep l) (fun _ => 1')) -> ole (bsum l (fun x => s x *' c x)) (bsum (filter keep l) s).
Proof.
  intros X l keep s c S C0 C1 L M.
  assert (H : exists tau, ole 0' tau /\ (forall x, In x l -> keep x = true -> ole tau (s x)) /\ (forall x, In x l -> keep x = false -> ole (s x *' c x) (tau *' c x))).
  { destruct (smallest X (filter keep l) s) as [E|(m & I & H)].
    - exists 0'. split; [apply ole_refl|]. rewrite E in M. cbn in M. split.
      + intros x I. intros. now apply S.
      + intros x I _. assert (Z := sum0 K X l c C0 M x I). replace (c x) with 0'; [replace (s x *' 0') with (0' *' 0') by ring; apply ole_refl|]. apply (oleb_antisym K); [now apply C0|exact Z].
    - apply filter_In in I. destruct I as [I Ik]. exists (s m). split; [now apply S|]. split.
      + intros x Ix Kx. apply H. now apply filter_In.
      + intros x Ix Kx. apply ole_mul2; [now apply S|now apply L|now apply C0|apply ole_refl]. }
  destruct H as (tau & T0 & T1 & T2).
  assert (A : ole (bsum l (fun x => s x *' c x)) (bsum l (fun x => (if keep x then s x -^ tau else 0') +' tau *' c x))).
  { apply bsum_ole. intros x I. destruct (keep x) eqn:E.
    - apply ole_sub. replace (rsub K (s x -^ tau +' tau *' c x) (s x *' c x)) with ((s x -^ tau) *' (1' -^ c x)) by ring.
      apply oleb_mul; [apply (proj1 (ole_sub K _ _)); now apply T1|apply (proj1 (ole_sub K _ _)); now apply C1].
    - replace (0' +' tau *' c x) with (tau *' c x) by ring. now apply T2. }
  eapply ole_trans; [exact A|]. rewrite bsum_add, bsum_mull, <- bsum_filter.
  assert (B : ole (tau *' bsum l c) (tau *' bsum (filter keep l) (fun _ => 1'))).
  { apply ole_mul2; [exact T0|apply ole_refl|now apply bsum_ole0|exact M]. }
  eapply ole_trans; [apply ole_add_l, B|]. rewrite <- bsum_mull, <- bsum_add. rewrite (bsum_ext K _ (filter keep l) _ s) by (intros; ring). apply ole_refl.
Qed.
End Best.
