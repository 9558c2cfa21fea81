(** Products of creation and annihilation matrices on a chain of sites, and how they split at the last site. *)
From Coq Require Import ZArith Bool List Lia Ring.
From Verif Require Import SymModel DictLib IndexLib RingLib OptLib SiteModel SiteProofs SiteOps SiteProps QcAlg.
Import ListNotations.
Open Scope Z_scope.

Section Words.
Variable R : CRing.
Add Ring RR : (rth R).
Notation "0'" := (r0 R). Notation "1'" := (r1 R).
Infix "+'" := (radd R) (at level 50, left associativity).
Infix "*'" := (rmul R) (at level 40, left associativity).
Notation "-' a" := (ropp R a) (at level 35).

(* ---- specification: ladder operators as matrices between lists of site states, last site first; the sign counts the
   electrons on the sites before *)
Fixpoint ladder (ann : bool) (j s : Z) (b' b : list Z) : R :=
  match b', b with
  | x' :: r', x :: r =>
      if j =? Z.of_nat (length r)
      then parity_sign R r *' (if ann then annihilation R s x' x else creation R s x' x) *' identity R r' r
      else (if x' =? x then 1' else 0') *' ladder ann j s r' r
  | _, _ => 0'
  end.
(* products of k-site matrices *)
Fixpoint word (k : nat) (w : list (bool * (Z * Z))) (b' b : list Z) : R :=
  match w with
  | [] => identity R b' b
  | (ann, (j, s)) :: w' => bsum (all_states k) (fun c => ladder ann j s b' c *' word k w' c b)
  end.

(* ---- the same matrices as contracted tensors *)
Lemma par_sign : forall l, Forall (fun x => In x st4) l -> parity_sign R l = sg R (odd_par l).
Proof.
  induction l as [|z l IH]; intros F; [reflexivity|]. inversion F as [|? ? Hz F']; subst. cbn [parity_sign fold_right].
  fold (parity_sign R l). rewrite IH by exact F'. change (odd_par (z :: l)) with (xorb (state_par z) (odd_par l)).
  rewrite sg_xor. f_equal. cbn in Hz. destruct Hz as [<-|[<-|[<-|[<-|[]]]]]; reflexivity.
Qed.
Lemma elem_eq : forall (ann : bool) s x' x, (if ann then annihilation R s x' x else creation R s x' x) = elem R ann s x' x.
Proof. intros []; reflexivity. Qed.
Lemma st_cons : forall k x s, In (x :: s) (states (S k)) <-> In x st4 /\ In s (states k).
Proof.
  intros k x s. rewrite !in_states. split.
  - intros [L F]. inversion F; subst. injection L as L. auto.
  - intros [X [L F]]. split; [cbn; congruence|now constructor].
Qed.
Lemma st_split : forall k b, In b (states (S k)) -> exists x s, b = x :: s /\ In x st4 /\ In s (states k).
Proof. intros k [|x s] H; [apply in_states in H; destruct H; discriminate|]. exists x, s. apply st_cons in H. tauto. Qed.
Lemma st_len : forall k b, In b (states k) -> length b = k.
Proof. intros k b H. now apply in_states in H. Qed.
Lemma st_all : forall k b, In b (states k) -> Forall (fun x => In x st4) b.
Proof. intros k b H. now apply in_states in H. Qed.

Lemma ladder_put : forall orb ann s k j o b' b, In s spins -> elementary R ann (orb j) s = Some o -> is_odd R (orb j) o (elem R ann s) ->
  0 <= j < Z.of_nat k -> In b' (states k) -> In b (states k) ->
  total R (chain R (put R orb (fun j => one_of R (orb j)) k j o)) b' b = ladder ann j s b' b.
Proof.
  intros orb ann s k. induction k as [|k IH]; intros j o b' b Hs E O J B' B; [lia|].
  destruct (st_split _ _ B') as [x' [r' [-> [X' R']]]], (st_split _ _ B) as [x [r [-> [X Rr]]]]. cbn [ladder]. rewrite (st_len _ _ Rr), elem_eq.
  destruct (Z.eqb_spec j (Z.of_nat k)) as [->|N].
  - rewrite (embed_last R orb _ (fun j => one_is_one R (orb j)) k o (elem R ann s)) by assumption.
    rewrite par_sign by (eapply st_all; eassumption). change (idm R r' r) with (identity R r' r). ring.
  - rewrite (embed_before R orb _ (fun j => one_is_one R (orb j)) k j o N) by assumption. rewrite IH by (assumption || lia).
    unfold id1. ring.
Qed.
Lemma ladder_anti : forall k annA i s annB j t b' b, 0 <= i < Z.of_nat k -> 0 <= j < Z.of_nat k -> In s spins -> In t spins ->
  ~ conj (annA, (i, s)) (annB, (j, t)) -> In b' (states k) -> In b (states k) ->
  bsum (states k) (fun c => ladder annA i s b' c *' ladder annB j t c b) = -' bsum (states k) (fun c => ladder annB j t b' c *' ladder annA i s c b).
Proof.
  intros k annA i s annB j t b' b I J Hs Ht NC B' B.
  assert (Hs' := in_spins _ Hs). assert (Ht' := in_spins _ Ht).
  destruct (c29_anticommutation R k (fun _ => 0) i j s t annA annB I J Hs' Ht') as [A [C [EA [EC P]]]].
  destruct (elem_is_odd R annA 0 s Hs) as [a [Ea Pa]], (elem_is_odd R annB 0 t Ht) as [c [Ec Pc]].
  rewrite (on_chain_put R k (fun _ => 0) annA i s a Ea) in EA. injection EA as <-.
  rewrite (on_chain_put R k (fun _ => 0) annB j t c Ec) in EC. injection EC as <-.
  specialize (P b' b B' B). unfold anticommutator in P. change (all_states k) with (states k) in P.
  rewrite (bsum_ext R _ (states k) _ (fun c => ladder annA i s b' c *' ladder annB j t c b)) in P.
  2:{ intros d D. rewrite (ladder_put (fun _ => 0) annA s k i a b' d), (ladder_put (fun _ => 0) annB t k j c d b) by assumption. reflexivity. }
  rewrite (bsum_ext R _ (states k) (fun m => _ *' total R (chain R (put R _ _ k i a)) m b) (fun c => ladder annB j t b' c *' ladder annA i s c b)) in P.
  2:{ intros d D. rewrite (ladder_put (fun _ => 0) annA s k i a d b), (ladder_put (fun _ => 0) annB t k j c b' d) by assumption. reflexivity. }
  assert (Z : (xorb annA annB && (i =? j) && (s =? t))%bool = false).
  { destruct (xorb annA annB) eqn:X; [|reflexivity]. destruct (Z.eqb_spec i j) as [->|]; [|reflexivity]. destruct (Z.eqb_spec s t) as [->|]; [|reflexivity].
    exfalso. apply NC. split; [reflexivity|]. cbn. intros ->. destruct annB; discriminate. }
  rewrite Z in P. transitivity (0' +' -' bsum (states k) (fun c => ladder annB j t b' c *' ladder annA i s c b)); [|ring].
  rewrite <- P. ring.
Qed.

(* ---- words *)
Definition okl (k : nat) (a : letter) : Prop := 0 <= fst (snd a) < Z.of_nat k /\ In (snd (snd a)) spins.
Lemma okl_dec : forall k a, {okl k a} + {~ okl k a}.
Proof.
  intros k a. unfold okl. destruct (Z_le_dec 0 (fst (snd a))), (Z_lt_dec (fst (snd a)) (Z.of_nat k)), (in_dec Z.eq_dec (snd (snd a)) spins);
    first [left; tauto|right; intros [[? ?] ?]; tauto].
Qed.
Definition phi (k : nat) (b' b : list Z) (w : list letter) : R := if Forall_dec _ (okl_dec k) w then word k w b' b else 0'.
Lemma phi_ok : forall k b' b w, Forall (okl k) w -> phi k b' b w = word k w b' b.
Proof. intros k b' b w H. unfold phi. destruct (Forall_dec _ _ _); [reflexivity|contradiction]. Qed.
Lemma bsum_id_l : forall k b (f : list Z -> R), In b (states k) -> bsum (states k) (fun c => identity R b c *' f c) = f b.
Proof. intros. now apply bsum_idm. Qed.
Lemma word_swap : forall k a b w2 w1 b' b0, okl k a -> okl k b -> ~ conj a b -> In b' (states k) ->
  word k (w1 ++ a :: b :: w2) b' b0 = -' word k (w1 ++ b :: a :: w2) b' b0.
Proof.
  intros k [aa [i s]] [ab [j t]] w2 w1. induction w1 as [|[ac [l u]] w1 IH]; intros b' b0 A B NC B'.
  - cbn [app word]. change (all_states k) with (states k). destruct A as [I Hs], B as [J Ht]. cbn [fst snd] in *.
    assert (K : forall (p q : list Z -> list Z -> R), bsum (states k) (fun c => p b' c *' bsum (states k) (fun d => q c d *' word k w2 d b0)) =
       bsum (states k) (fun d => bsum (states k) (fun c => p b' c *' q c d) *' word k w2 d b0)).
    { intros p q. rewrite (bsum_ext R _ (states k) _ (fun c => bsum (states k) (fun d => p b' c *' q c d *' word k w2 d b0))).
      - rewrite bsum_swap. apply bsum_ext. intros d _. now rewrite bsum_mulr.
      - intros c _. rewrite <- bsum_mull. apply bsum_ext. intros. ring. }
    rewrite !K, <- bsum_opp. apply bsum_ext. intros d D. rewrite (ladder_anti k aa i s ab j t b' d) by assumption. ring.
  - cbn [app word]. rewrite <- bsum_opp. apply bsum_ext. intros c C. rewrite IH by assumption. ring.
Qed.
Lemma phi_car : forall k b' b, In b' (states k) -> car R (phi k b' b).
Proof.
  intros k b' b0 B' w1 a b w2 NC. unfold phi.
  assert (E : Forall (okl k) (w1 ++ a :: b :: w2) <-> Forall (okl k) (w1 ++ b :: a :: w2)).
  { rewrite !Forall_app. split; intros [A B]; (split; [exact A|]); inversion B as [|? ? B1 B2]; subst; inversion B2; subst; auto. }
  destruct (Forall_dec _ _ (w1 ++ a :: b :: w2)) as [F|F], (Forall_dec _ _ (w1 ++ b :: a :: w2)) as [G|G]; try tauto; [|ring].
  apply Forall_app in F. destruct F as [_ F]. inversion F as [|? ? F1 F2]; subst. inversion F2; subst. now apply word_swap.
Qed.

(* splitting at the last site *)
Definition pw (s : list Z) (l : nat) : R := if Nat.odd l then sg R (odd_par s) else 1'.
Lemma pw_S : forall s l, pw s (S l) = sg R (odd_par s) *' pw s l.
Proof. intros s l. unfold pw. rewrite Nat.odd_succ, <- Nat.negb_odd. destruct (Nat.odd l); cbn [negb]; [symmetry; apply sg_sq|ring]. Qed.
Fixpoint sword (w : list letter) (x' x : Z) : R :=
  match w with
  | [] => id1 R x' x
  | (ann, (_, s)) :: w' => bsum st4 (fun y => elem R ann s x' y *' sword w' y x)
  end.
Lemma id_cons : forall x' s' x s, identity R (x' :: s') (x :: s) = id1 R x' x *' identity R s' s.
Proof.
  intros. unfold identity, id1. destruct (Z.eqb_spec x' x), (list_eq_dec Z.eq_dec s' s), (list_eq_dec Z.eq_dec (x' :: s') (x :: s)); try ring; congruence.
Qed.
Lemma word_before : forall k w x' s' x s, Forall (okl k) w -> In x' st4 -> In x st4 -> In s' (states k) -> In s (states k) ->
  word (S k) w (x' :: s') (x :: s) = id1 R x' x *' word k w s' s.
Proof.
  intros k w. induction w as [|[a [j u]] w IH]; intros x' s' x s F X' X S' Ss; [apply id_cons|]. inversion F as [|? ? [J U] F']; subst. cbn [fst snd] in *.
  cbn [word]. change (all_states (S k)) with (states (S k)). rewrite bsum_states_S.
  rewrite (bsum_ext R _ st4 _ (fun y => id1 R x' y *' (id1 R y x *' bsum (states k) (fun c => ladder a j u s' c *' word k w c s)))).
  - rewrite bsum_id1 by exact X'. reflexivity.
  - intros y Y. rewrite <- !bsum_mull. apply bsum_ext. intros c C. rewrite IH by assumption. cbn [ladder]. rewrite (st_len _ _ C).
    replace (j =? Z.of_nat k) with false by lia. unfold id1. ring.
Qed.
Definition at_site (k : nat) (a : letter) : Prop := fst (snd a) = Z.of_nat k /\ In (snd (snd a)) spins.
Lemma word_here : forall k w x' s' x s, Forall (at_site k) w -> In x' st4 -> In x st4 -> In s' (states k) -> In s (states k) ->
  word (S k) w (x' :: s') (x :: s) = identity R s' s *' (pw s (length w) *' sword w x' x).
Proof.
  intros k w. induction w as [|[a [j u]] w IH]; intros x' s' x s F X' X S' Ss.
  - cbn [word sword length]. rewrite id_cons. change (pw s 0) with 1'. ring.
  - inversion F as [|? ? [J U] F']; subst. cbn [fst snd] in *. cbn [word sword length]. change (all_states (S k)) with (states (S k)).
    rewrite bsum_states_S, pw_S, <- !bsum_mull.
    apply bsum_ext. intros y Y.
    rewrite (bsum_ext R _ (states k) _ (fun c => identity R s' c *' (sg R (odd_par c) *' elem R a u x' y *' (identity R c s *' (pw s (length w) *' sword w y x))))).
    + rewrite bsum_id_l by exact S'. destruct (list_eq_dec Z.eq_dec s' s) as [->|N].
      * ring.
      * unfold identity. destruct (list_eq_dec Z.eq_dec s' s); [contradiction|ring].
    + intros c C. rewrite IH by assumption. cbn [ladder]. rewrite (st_len _ _ C), J, Z.eqb_refl, elem_eq, par_sign by (eapply st_all; eassumption). ring.
Qed.
Lemma word_app : forall k w1 w2 b' b, In b' (states k) -> word k (w1 ++ w2) b' b = bsum (states k) (fun c => word k w1 b' c *' word k w2 c b).
Proof.
  intros k w1. induction w1 as [|[a [j u]] w1 IH]; intros w2 b' b B'.
  - cbn [app word]. now rewrite bsum_id_l.
  - cbn [app word]. change (all_states k) with (states k).
    rewrite (bsum_ext R _ (states k) _ (fun c => bsum (states k) (fun d => ladder a j u b' c *' word k w1 c d *' word k w2 d b))).
    + rewrite bsum_swap. apply bsum_ext. intros d _. now rewrite bsum_mulr.
    + intros c C. rewrite IH by exact C. rewrite <- bsum_mull. apply bsum_ext. intros. ring.
Qed.
Theorem phi_split : forall k w1 w2 x' s' x s, Forall (okl k) w1 -> Forall (at_site k) w2 ->
  In x' st4 -> In x st4 -> In s' (states k) -> In s (states k) ->
  phi (S k) (x' :: s') (x :: s) (w1 ++ w2) = phi k s' s w1 *' (pw s (length w2) *' sword w2 x' x).
Proof.
  intros k w1 w2 x' s' x s F1 F2 X' X S' Ss. rewrite (phi_ok k) by exact F1. rewrite phi_ok.
  2:{ apply Forall_app. split; eapply Forall_impl; try eassumption; intros [a [j u]] [J U]; split; cbn [fst snd] in *; (lia || assumption). }
  rewrite word_app by (apply st_cons; auto). rewrite bsum_states_S.
  rewrite (bsum_ext R _ st4 _ (fun y => id1 R x' y *' (word k w1 s' s *' (pw s (length w2) *' sword w2 y x)))).
  - now rewrite bsum_id1.
  - intros y Y. rewrite (bsum_ext R _ (states k) _ (fun c => identity R c s *' (id1 R x' y *' (word k w1 s' c *' (pw s (length w2) *' sword w2 y x))))).
    + rewrite (bsum_single R _ (states k) _ s); [|apply states_nodup|exact Ss|].
      * unfold identity. destruct (list_eq_dec Z.eq_dec s s); [ring|congruence].
      * intros c C N. unfold identity. destruct (list_eq_dec Z.eq_dec c s); [congruence|ring].
    + intros c C. rewrite word_before, word_here by assumption. ring.
Qed.
End Words.
