(** The symbols of one site: what they stand for, and the tensors that replace them. *)
From Coq Require Import ZArith Bool List Lia Ring Permutation.
From Verif Require Import SymModel DictLib IndexLib RingLib OptLib SiteModel SiteProofs SiteOps SiteProps QcModel QcProg QcCols QcAlg QcStep QcWords QcLayout.
Import ListNotations.
Open Scope Z_scope.

Section Chain.
Variable R : CRing.
Add Ring RR : (rth R).
Notation "0'" := (r0 R). Notation "1'" := (r1 R).
Infix "+'" := (radd R) (at level 50, left associativity).
Infix "*'" := (rmul R) (at level 40, left associativity).
Notation "-' a" := (ropp R a) (at level 35).
Variable half : R.
Variable t : Z -> Z -> Z -> R.
Variable v : Z -> Z -> Z -> Z -> Z -> Z -> R.
Notation fsym := (fsym R). Notation wr := (wr R). Notation entry := (entry R).
Notation sy := (sy R). Notation neg := (neg R).
Notation functional := (functional R). Notation car := (car R).
Notation sem := (sem R half t v). Notation T1 := (T1 R t). Notation V2 := (V2 R v).

(* ---- symbols evaluated on functionals that agree on the letters in question *)
Definition okq (P : mode -> Prop) (o : qop) : Prop :=
  match o with
  | QC j s | QD j s => P (j, s)
  | QA i j si sj | QAD i j si sj | QB i j si sj => P (i, si) /\ P (j, sj)
  | _ => True
  end.
Definition lets (P : mode -> Prop) (w : list letter) : Prop := Forall (fun a => P (snd a)) w.
Ltac under tac := repeat first [solve [tac]|reflexivity|apply bsum_ext; intros|apply (f_equal2 (radd R))|apply (f_equal2 (rmul R))|apply (f_equal (ropp R))].
Lemma sem_ext_in : forall (P : mode -> Prop) M o f g, (forall x, In x M -> P x) -> okq P o ->
  (forall w, lets P w -> f w = g w) -> sem M o f = sem M o g.
Proof.
  intros P M o f g HM HO H. destruct o; cbn [QcStep.sem okq] in *; unfold Hs, Rs, RDs, Ps, PDs, Qs, ssum4, ssum3;
    under ltac:(apply H; unfold lets; repeat (apply Forall_cons; [cbn; intuition auto|]); apply Forall_nil).
Qed.
Lemma sem_scale : forall M o f c, sem M o (fun w => f w *' c) = sem M o f *' c.
Proof.
  intros M o f c.
  assert (B : forall (A : Type) (l : list A) (h h' : A -> R), (forall x, h x = h' x *' c) -> bsum l h = bsum l h' *' c).
  { intros A l h h' E. rewrite <- bsum_mulr. apply bsum_ext. auto. }
  assert (D : forall a b a' b', a = a' *' c -> b = b' *' c -> a +' b = (a' +' b') *' c) by (intros a b a' b' -> ->; ring).
  assert (E : forall a b b', b = b' *' c -> a *' b = (a *' b') *' c) by (intros a b b' ->; ring).
  assert (G : forall a a', a = a' *' c -> -' a = (-' a') *' c) by (intros a a' ->; ring).
  destruct o; cbn [QcStep.sem]; auto; unfold Hs, Rs, RDs, Ps, PDs, Qs, ssum4, ssum3;
    repeat first [reflexivity|apply D|apply B; intros|apply E|apply G].
Qed.
Lemma sem_zero : forall M o, sem M o (fun _ => 0') = 0'.
Proof.
  intros M o. transitivity (sem M o (fun w => (fun _ => 0') w *' 0')); [apply sem_ext; intros; ring|]. rewrite sem_scale. ring.
Qed.

(* ---- one site *)
Lemma sw1 : forall a j s x' x, In x' st4 -> In x st4 -> sword R [(a, (j, s))] x' x = elem R a s x' x.
Proof.
  intros a j s x' x X' X. cbn [sword]. rewrite (bsum_single R _ st4 _ x); [| |exact X|].
  - unfold id1. rewrite Z.eqb_refl. ring.
  - repeat constructor; cbn; intuition discriminate.
  - intros y _ N. unfold id1. replace (y =? x) with false by lia. ring.
Qed.
Lemma swc : forall a j s w f x' x, In x st4 -> (forall y, In y st4 -> sword R w y x = f y x) -> sword R ((a, (j, s)) :: w) x' x = prod R (elem R a s) f x' x.
Proof. intros a j s w f x' x X H. cbn [sword]. unfold prod. apply bsum_ext. intros y Y. now rewrite H. Qed.
Lemma sw2 : forall a b j k s u x' x, In x st4 -> sword R [(a, (j, s)); (b, (k, u))] x' x = prod R (elem R a s) (elem R b u) x' x.
Proof. intros. apply swc; [assumption|]. intros. now apply sw1. Qed.
Lemma sw3 : forall a b c j k l s u r x' x, In x st4 ->
  sword R [(a, (j, s)); (b, (k, u)); (c, (l, r))] x' x = prod R (elem R a s) (prod R (elem R b u) (elem R c r)) x' x.
Proof. intros. apply swc; [assumption|]. intros. now apply sw2. Qed.
Lemma pair4 : forall s u j x' x, is_spin s -> is_spin u -> In x' st4 -> In x st4 ->
  sword R [cr (j, s); cr (j, u); an (j, u); an (j, s)] x' x = if s =? u then 0' else prod R (number R 0) (number R 1) x' x.
Proof.
  intros s u j x' x S U X' X. cbn in X', X.
  assert (E : sword R [cr (j, s); cr (j, u); an (j, u); an (j, s)] x' x =
    prod R (elem R false s) (prod R (elem R false u) (prod R (elem R true u) (elem R true s))) x' x).
  { apply swc; [exact X|]. intros. apply swc; [exact X|]. intros. apply sw2; exact X. }
  rewrite E. clear E. unfold number, prod, site_states. rewrite !bsum_cons, !bsum_nil. 
  destruct S as [-> | ->], U as [-> | ->]; destruct X' as [<-|[<-|[<-|[<-|[]]]]], X as [<-|[<-|[<-|[<-|[]]]]];
    cbn -[rmul radd ropp r0 r1]; ring.
Qed.
Definition psi (s : list Z) (x' x : Z) : functional := fun w => pw R s (length w) *' sword R w x' x.
Lemma site_meaning : forall m o s x' x, good m o -> In x' st4 -> In x st4 ->
  sem (here m) o (psi s x' x) = (if is_odd_name (named o) then sg R (odd_par s) else 1') *' meaning R half t v m (named o) x' x.
Proof.
  intros m o s x' x G X' X. unfold psi.
  assert (P0 : pw R s 0 = 1') by reflexivity. assert (P1 : pw R s 1 = sg R (odd_par s)) by reflexivity.
  assert (P2 : pw R s 2 = 1') by reflexivity. assert (P3 : pw R s 3 = sg R (odd_par s)) by reflexivity. assert (P4 : pw R s 4 = 1') by reflexivity.
  destruct o as [| |j s0|j s0|j s0|j s0|i j si sj|i j si sj|i j si sj|i j si sj|i j si sj|i j si sj]; cbn [good] in G; cbn [QcStep.sem named is_odd_name].
  - cbn [length sword meaning]. rewrite P0. reflexivity.
  - unfold Hs, ssum4, ssum3. rewrite !sum_here. cbn [length]. unfold QcStep.T1, QcStep.V2. cbn [fst snd Z.eqb Pos.eqb].
    unfold cr at 1 2 3 4, an at 1 2 3 4. rewrite !sw2 by exact X. rewrite !pair4 by (unfold is_spin; auto). rewrite P2, P4. cbn [Z.eqb Pos.eqb].
    cbn [meaning]. unfold number at 3 4. cbn [elem]. unfold number. ring.
  - destruct G as [-> S0]. cbn [length]. unfold cr. rewrite sw1, P1 by assumption. reflexivity.
  - destruct G as [-> S0]. cbn [length]. unfold an. rewrite sw1, P1 by assumption. reflexivity.
  - unfold Rs, ssum3. rewrite !sum_here. cbn [length]. rewrite P1, P3. unfold cr, an. rewrite !sw1, !sw3 by assumption.
    unfold QcStep.T1, QcStep.V2. cbn [fst snd meaning]. rewrite !bsum_cons, bsum_nil. cbn [elem].
    destruct G as [-> | ->]; cbn [Z.eqb Pos.eqb]; ring.
  - unfold RDs, ssum3. rewrite !sum_here. cbn [length]. rewrite P1, P3. unfold cr, an. rewrite !sw1, !sw3 by assumption.
    unfold QcStep.T1, QcStep.V2. cbn [fst snd meaning]. rewrite !bsum_cons, bsum_nil. cbn [elem].
    destruct G as [-> | ->]; cbn [Z.eqb Pos.eqb]; ring.
  - destruct G as [-> [-> [Si Sj]]]. cbn [length]. unfold cr. rewrite sw2, P2 by assumption. reflexivity.
  - destruct G as [-> [-> [Si Sj]]]. cbn [length]. unfold an. rewrite sw2, P2 by assumption. reflexivity.
  - destruct G as [-> [-> [Si Sj]]]. cbn [length]. unfold cr, an. rewrite sw2, P2 by assumption. reflexivity.
  - unfold Ps. rewrite !sum_here. cbn [length]. rewrite P2. unfold an. rewrite !sw2 by assumption.
    unfold QcStep.V2. cbn [fst snd meaning elem].
    destruct G as [[-> | ->] [-> | ->]]; cbn [Z.eqb Pos.eqb]; ring.
  - unfold PDs. rewrite !sum_here. cbn [length]. rewrite P2. unfold cr. rewrite !sw2 by assumption.
    unfold QcStep.V2. cbn [fst snd meaning elem].
    destruct G as [[-> | ->] [-> | ->]]; cbn [Z.eqb Pos.eqb]; ring.
  - unfold Qs. rewrite !sum_here. cbn [length]. rewrite P2. unfold cr, an. rewrite !sw2 by assumption.
    unfold QcStep.V2. cbn [fst snd meaning elem].
    destruct G as [[-> | ->] [-> | ->]]; cbn [Z.eqb Pos.eqb]; rewrite ?bsum_cons, ?bsum_nil; ring.
Qed.

(* ---- the tensors that stand for symbols *)
Variable small : R -> bool.
Variable osym : Z -> Z.
Hypothesis small_ok : forall x, small x = true -> x = 0'.
Hypothesis osym_ok : forall s i j, osym i <> osym j -> t s i j = 0' /\ forall u, v s u i j j j = 0'.
Definition opel (g : Z) (y : fop R) (s : list Z) (x' x : Z) : R := el R g (f_even R y) x' x +' sg R (odd_par s) *' el R g (f_odd R y) x' x.
Lemma good_spins : forall m o, good m o -> forall s, In s (name_spins (named o)) -> s = 0 \/ s = 1.
Proof.
  intros m o G s I. destruct o; cbn in *; unfold is_spin in *;
    repeat match goal with H : _ /\ _ |- _ => destruct H end; repeat (destruct I as [<-|I]; [assumption|]); destruct I.
Qed.
Lemma vanish : forall m o x' x, good m o -> may_vanish R small osym t v m (named o) -> meaning R half t v m (named o) x' x = 0'.
Proof.
  intros m o x' x G H. destruct o as [| |j s0|j s0|j s0|j s0|i j si sj|i j si sj|i j si sj|i j si sj|i j si sj|i j si sj]; cbn [named may_vanish] in H; try contradiction; cbn [named meaning].
  - destruct H as [N|[A [B C]]].
    + destruct (osym_ok s0 j m N) as [A B]. rewrite A, !bsum_cons, bsum_nil, !B. ring.
    + apply small_ok in A, B, C. rewrite !bsum_cons, bsum_nil, A, B, C. ring.
  - destruct H as [N|[A [B C]]].
    + destruct (osym_ok s0 j m N) as [A B]. rewrite A, !bsum_cons, bsum_nil, !B. ring.
    + apply small_ok in A, B, C. rewrite !bsum_cons, bsum_nil, A, B, C. ring.
  - apply small_ok in H. rewrite H. ring.
  - apply small_ok in H. rewrite H. ring.
  - destruct H as [A B]. apply small_ok in A. rewrite A. destruct (Z.eqb_spec si sj) as [E|N].
    + destruct (B E) as [B0 B1]. apply small_ok in B0, B1. rewrite !bsum_cons, bsum_nil, B0, B1. ring.
    + ring.
Qed.
Lemma op_value : forall m o, good m o -> exists r, get_op R half small osym t v m (named o) = Some r /\
  forall s x' x, In x' st4 -> In x st4 ->
    match r with Zero _ => 0' | Op _ y => opel (osym m) y s x' x end = sem (here m) o (psi s x' x).
Proof.
  intros m o G. destruct (c49_site_operators R half small osym t v m (named o) (good_spins m o G)) as [r [E P]].
  exists r. split; [exact E|]. intros s x' x X' X. rewrite site_meaning by assumption. destruct r as [|y].
  - rewrite vanish by assumption. ring.
  - destruct (P x' x X' X) as [A B]. unfold opel. unfold odd_el, even_el in *. destruct (is_odd_name (named o)); rewrite A, B; ring.
Qed.
Definition wsum (g : Z * Z -> R) (s : list Z) (x' x : Z) (m : Z) (w : wr) : R :=
  match snd w with Some (f, o) => g (fst w) *' f *' sem (here m) o (psi s x' x) | None => 0' end.
Definition esum (g : Z * Z -> R) (s : list Z) (x' x : Z) (m : Z) (e : entry) : R :=
  g (fst e) *' fst (snd e) *' opel (osym m) (snd (snd e)) s x' x.
Lemma deflate_one_ok : forall m w, goodw R m (snd w) -> exists es, deflate_one R half small osym t v m w = Some es /\
  forall g s x' x, In x' st4 -> In x st4 -> bsum es (esum g s x' x m) = wsum g s x' x m w.
Proof.
  intros m [ix [[f o]|]] G; cbn [snd goodw] in G.
  - destruct (op_value m o G) as [r [E P]]. unfold deflate_one. cbn [snd fst]. rewrite E. cbn [bind].
    destruct r as [|y].
    + exists []. split; [reflexivity|]. intros g s x' x X' X. unfold wsum. cbn [snd]. rewrite <- (P s x' x X' X), bsum_nil. ring.
    + destruct (length (f_odd R y) + length (f_even R y) =? 0)%nat eqn:Z0.
      * exists []. split; [reflexivity|]. intros g s x' x X' X. unfold wsum. cbn [snd]. rewrite <- (P s x' x X' X), bsum_nil.
        apply Nat.eqb_eq in Z0. unfold opel, el, at_lab. destruct (f_odd R y); [|cbn in Z0; lia]. destruct (f_even R y); [|cbn in Z0; lia]. cbn. ring.
      * eexists. split; [reflexivity|]. intros g s x' x X' X. unfold wsum, esum. cbn [snd fst]. rewrite <- (P s x' x X' X), bsum_cons, bsum_nil. cbn [fst snd]. ring.
  - exists []. split; [reflexivity|]. intros. unfold wsum. cbn [snd]. apply bsum_nil.
Qed.
Lemma deflate_ok : forall m ws, Forall (fun w => goodw R m (snd w)) ws -> exists es, deflate R half small osym t v m ws = Some es /\
  forall g s x' x, In x' st4 -> In x st4 -> bsum es (esum g s x' x m) = bsum ws (wsum g s x' x m).
Proof.
  intros m ws F. unfold deflate.
  assert (K : exists l, mapM (deflate_one R half small osym t v m) ws = Some l /\
    forall g s x' x, In x' st4 -> In x st4 -> bsum (concat l) (esum g s x' x m) = bsum ws (wsum g s x' x m)).
  { induction F as [|w ws G F [l [E P]]]; [exists []; split; [reflexivity|intros; reflexivity]|].
    destruct (deflate_one_ok m w G) as [es [E1 P1]]. cbn [mapM]. rewrite E1, E. cbn [bind]. eexists. split; [reflexivity|].
    intros g s x' x X' X. cbn [concat]. rewrite bsum_app, bsum_cons, P1, P by assumption. reflexivity. }
  destruct K as [l [E P]]. rewrite E. cbn [bind]. eexists. split; [reflexivity|exact P].
Qed.
End Chain.
