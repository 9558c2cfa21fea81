(** C67: a time step on a window multiplies the state with the Taylor polynomial of the exponential. *)
From Coq Require Import ZArith Bool List Lia Ring InitialRing QArith Qcanon.
From Verif Require Import IndexLib RingLib OrdLib LinalgModel RkModel.
Import ListNotations.

Section C67.
Variable R : CRing.
Add Ring RR : (rth R).
Notation "0'" := (r0 R). Notation "1'" := (r1 R).
Infix "+'" := (radd R) (at level 50, left associativity). Infix "*'" := (rmul R) (at level 40, left associativity).
Notation vec := (vec R).
(* the integer z as a number *)
Definition num (z : Z) : R := gen_phiZ (r0 R) (r1 R) (radd R) (rmul R) (ropp R) z.
(* the quotients in the code are quotients *)
Definition literals : list (Z * Z) := [(1, 1); (1, 2); (1, 3); (1, 6); (1, 10); (31, 162); (14, 162); (-5, 162); (16, 81); (20, 81); (-2, 81)]%Z.
Definition quotients (frac : Z -> Z -> R) : Prop := forall a b, In (a, b) literals -> num b *' frac a b = num a.

Variable frac : Z -> Z -> R.
Variable conj sqrt : R -> R.
Variable quot : R -> R -> R.
Variable inside : nat -> bool.
Variable pos : list nat.
Variable op : vec -> vec.
Variable const : R.
Variable M : nat -> nat -> R.

(** ** Specification *)
(* effective operator: a matrix between the positions inside the layout, plus a constant *)
Definition act (v : vec) : vec := fun i => (if inside i then bsum (filter inside pos) (fun j => M i j *' v j) else 0') +' const *' v i.
Fixpoint power (k : nat) (v : vec) : vec := match k with O => v | S k' => act (power k' v) end.
(* sum_k s^k / k! E^k for k <= 4, 1/2 = h, 1/3 = t *)
Definition taylor4 (h t s : R) (v : vec) (i : nat) : R :=
  v i +' s *' power 1 v i +' h *' (s *' s) *' power 2 v i +' h *' t *' (s *' s *' s) *' power 3 v i +' h *' h *' h *' t *' (s *' s *' s *' s) *' power 4 v i.
(* the same up to k = 3 *)
Definition taylor3 (h t s : R) (v : vec) (i : nat) : R :=
  v i +' s *' power 1 v i +' h *' (s *' s) *' power 2 v i +' h *' t *' (s *' s *' s) *' power 3 v i.

Hypothesis Q : quotients frac.
Hypothesis Op : forall v i, op v i = bsum pos (fun j => M i j *' v j).
Variables h t : R.
Hypothesis H2 : h +' h = 1'.
Hypothesis H3 : t +' t +' t = 1'.

Lemma frac_eq : forall a b y, In (a, b) literals -> num b *' y = 1' -> frac a b = num a *' y.
Proof. intros a b y I E. transitivity (num b *' y *' frac a b); [rewrite E; ring|]. rewrite <- (Q a b I). ring. Qed.
Lemma fr2 : frac 1 2 = h. Proof. rewrite (frac_eq 1 2 h); [cbn; ring|cbn; auto 20|cbn; ring [H2] ]. Qed.
Lemma fr3 : frac 1 3 = t. Proof. rewrite (frac_eq 1 3 t); [cbn; ring|cbn; auto 20|cbn; ring [H3] ]. Qed.
Lemma fr6 : frac 1 6 = h *' t. Proof. rewrite (frac_eq 1 6 (h *' t)); [cbn; ring|cbn; auto 20|cbn; ring [H2 H3] ]. Qed.
Lemma fr81 : forall a, In (a, 81%Z) literals -> frac a 81 = num a *' (t *' t *' t *' t). Proof. intros a Ia. apply frac_eq; [exact Ia|]. cbn. ring [H3]. Qed.
Lemma fr162 : forall a, In (a, 162%Z) literals -> frac a 162 = num a *' (h *' (t *' t *' t *' t)). Proof. intros a Ia. apply frac_eq; [exact Ia|]. cbn. ring [H2 H3]. Qed.

(* the weights *)
Let cu := h *' (t *' t *' t *' t). Let cw := t *' t *' t *' t.
Lemma a1 : num 31 *' cu +' num 14 *' cu +' num 14 *' cu +' num (-5) *' cu = t. Proof. transitivity (num 54 *' cu); unfold cu; cbn; [ring|ring [H2 H3] ]. Qed.
Lemma a2 : num 14 *' cu *' h +' num 14 *' cu *' h +' num (-5) *' cu = h *' (t *' t).
Proof. transitivity (num 14 *' cu *' (h +' h) +' num (-5) *' cu); [ring|]. rewrite H2. transitivity (num 9 *' cu); unfold cu; cbn; [ring|ring [H3] ]. Qed.
Lemma a3 : num 14 *' cu *' (h *' h) +' num (-5) *' cu *' h = h *' t *' (t *' t *' t).
Proof. transitivity (num 7 *' cu *' h *' (h +' h) +' num (-5) *' cu *' h); [cbn; ring|]. rewrite H2. transitivity (cu *' (h +' h)); [cbn; ring|]. rewrite H2. unfold cu. ring. Qed.
Lemma b1 : num 16 *' cw +' num 20 *' cw +' num 20 *' cw +' num (-2) *' cw = (1' +' 1') *' t. Proof. transitivity (num 54 *' cw); unfold cw; cbn; [ring|ring [H3] ]. Qed.
Lemma b2 : num 20 *' cw *' h +' num 20 *' cw *' h +' num (-2) *' cw = h *' (((1' +' 1') *' t) *' ((1' +' 1') *' t)).
Proof. transitivity (num 20 *' cw *' (h +' h) +' num (-2) *' cw); [ring|]. rewrite H2. transitivity (num 18 *' cw); [cbn; ring|]. transitivity ((h +' h) *' (1' +' 1') *' (t *' t)); [rewrite H2; unfold cw; cbn; ring [H3]|ring]. Qed.
Lemma b3 : num 20 *' cw *' (h *' h) +' num (-2) *' cw *' h = h *' t *' (((1' +' 1') *' t) *' ((1' +' 1') *' t) *' ((1' +' 1') *' t)).
Proof. transitivity (num 10 *' cw *' h *' (h +' h) +' num (-2) *' cw *' h); [cbn; ring|]. rewrite H2. unfold cw. cbn. ring. Qed.
Lemma b4 : num (-2) *' cw *' (h *' h) = ropp R (h *' cw). Proof. transitivity (ropp R (h *' cw *' (h +' h))); [cbn; ring|]. rewrite H2. ring. Qed.
Lemma e1 : h *' t +' t +' t +' h *' t = 1'. Proof. transitivity ((h +' h) *' t +' t +' t); [ring|]. rewrite H2. transitivity (t +' t +' t); [ring|exact H3]. Qed.
Lemma e2 : t *' h +' t *' h +' h *' t = h. Proof. transitivity (h *' (t +' t +' t)); [ring|]. rewrite H3. ring. Qed.
Lemma e3 : t *' (h *' h) +' h *' t *' h = h *' t. Proof. transitivity (t *' h *' (h +' h)); [ring|]. rewrite H2. ring. Qed.

(* vectors inside the layout *)
Definition inner_vec (v : vec) : Prop := forall i, inside i = false -> v i = 0'.
Definition same (u v : vec) : Prop := forall i, u i = v i.
Lemma apply_act : forall v, inner_vec v -> same (apply R inside op const v) (act v).
Proof.
  intros v I i. unfold apply, prepare, act, vplus, vmult. destruct (inside i) eqn:Ei; [|rewrite (I i Ei); ring]. rewrite Op. f_equal. clear - I.
  induction pos as [|j l IH]; [reflexivity|]. cbn [filter]. rewrite bsum_cons. destruct (inside j) eqn:Ej; [rewrite bsum_cons, IH; reflexivity|]. rewrite (I j Ej), IH. ring.
Qed.
Lemma act_inner : forall v, inner_vec v -> inner_vec (act v).
Proof. intros v I i Ei. unfold act. rewrite Ei, (I i Ei). ring. Qed.
Lemma act_same : forall u v, same u v -> same (act u) (act v).
Proof. intros u v S i. unfold act. rewrite (S i). f_equal. destruct (inside i); [|reflexivity]. apply bsum_ext. intros j _. now rewrite (S j). Qed.
Lemma act_lin : forall u v a c, same (act (fun i => a *' u i +' c *' v i)) (fun i => a *' act u i +' c *' act v i).
Proof.
  intros u v a c i. unfold act. destruct (inside i); [|ring]. rewrite (bsum_ext R _ (filter inside pos) _ (fun j => a *' (M i j *' u j) +' c *' (M i j *' v j))) by (intros; ring).
  rewrite bsum_add, !bsum_mull. ring.
Qed.
Lemma power_inner : forall k v, inner_vec v -> inner_vec (power k v).
Proof. induction k as [|k IH]; intros v I; [exact I|]. cbn [power]. now apply act_inner, IH. Qed.
(* combinations of the first four powers *)
Definition poly (b : vec) (a0 a1 a2 a3 : R) : vec := fun i => a0 *' b i +' a1 *' power 1 b i +' a2 *' power 2 b i +' a3 *' power 3 b i.
Lemma apply_poly : forall b u a0 a1 a2 a3, inner_vec b -> same u (poly b a0 a1 a2 a3) ->
  same (apply R inside op const u) (fun i => a0 *' power 1 b i +' a1 *' power 2 b i +' a2 *' power 3 b i +' a3 *' power 4 b i).
Proof.
  intros b u a0 a1 a2 a3 I S i. rewrite apply_act.
  - rewrite (act_same _ _ S i). unfold poly.
    assert (E : same (fun i => a0 *' b i +' a1 *' power 1 b i +' a2 *' power 2 b i +' a3 *' power 3 b i) (fun i => 1' *' (fun i => a0 *' b i +' a1 *' power 1 b i) i +' 1' *' (fun i => a2 *' power 2 b i +' a3 *' power 3 b i) i)) by (intros j; ring).
    rewrite (act_same _ _ E i), act_lin, !act_lin. cbn [power]. ring.
  - intros j Ej. rewrite (S j). unfold poly. rewrite (I j Ej), !(power_inner _ b I j Ej). ring.
Qed.
Lemma rk4_kets : forall dt ev ket, let b := prepare R inside ket in let brem := removed R inside ket in
  exists k0 k1 k2 k3, rk_kets R (rk4 R frac conj sqrt quot inside pos op const dt ev ket) = [k0; k1; k2; k3] /\ same k0 ket /\
  same k1 (fun i => brem i +' (taylor3 h t (t *' dt) b i +' ropp R ((1' +' 1' +' 1' +' 1' +' 1') *' (h *' h *' h *' (t *' t *' t *' t)) *' (dt *' dt *' dt *' dt) *' power 4 b i))) /\
  same k2 (fun i => brem i +' (taylor3 h t ((1' +' 1') *' t *' dt) b i +' ropp R (h *' (t *' t *' t *' t) *' (dt *' dt *' dt *' dt) *' power 4 b i))) /\
  same k3 (fun i => brem i +' taylor4 h t dt b i).
Proof.
  intros dt ev ket b brem. unfold rk4. fold b brem. cbn [rk_kets map]. do 4 eexists. split; [reflexivity|].
  assert (Ib : inner_vec b) by (intros i Ei; unfold b, prepare; now rewrite Ei).
  set (k1 := vmult R dt (apply R inside op const b)). set (k2 := vmult R dt (apply R inside op const (vplus R (vmult R (frac 1 2) k1) b))).
  set (k3 := vmult R dt (apply R inside op const (vplus R (vmult R (frac 1 2) k2) b))). set (k4 := vmult R dt (apply R inside op const (vplus R k3 b))).
  assert (E1 : same k1 (fun i => dt *' power 1 b i)). { intros i. unfold k1, vmult. rewrite (apply_act b Ib i). reflexivity. }
  assert (E2 : same k2 (fun i => dt *' power 1 b i +' h *' (dt *' dt) *' power 2 b i)).
  { intros i. unfold k2, vmult at 1. rewrite (apply_poly b _ 1' (h *' dt) 0' 0' Ib); [ring|]. intros j. unfold vplus, vmult, poly. rewrite (E1 j), fr2. ring. }
  assert (E3 : same k3 (fun i => dt *' power 1 b i +' h *' (dt *' dt) *' power 2 b i +' h *' h *' (dt *' dt *' dt) *' power 3 b i)).
  { intros i. unfold k3, vmult at 1. rewrite (apply_poly b _ 1' (h *' dt) (h *' h *' (dt *' dt)) 0' Ib); [ring|]. intros j. unfold vplus, vmult, poly. rewrite (E2 j), fr2. ring. }
  assert (E4 : same k4 (fun i => dt *' power 1 b i +' dt *' dt *' power 2 b i +' h *' (dt *' dt *' dt) *' power 3 b i +' h *' h *' (dt *' dt *' dt *' dt) *' power 4 b i)).
  { intros i. unfold k4, vmult at 1. rewrite (apply_poly b _ 1' dt (h *' (dt *' dt)) (h *' h *' (dt *' dt *' dt)) Ib); [ring|]. intros j. unfold vplus, poly. rewrite (E3 j). ring. }
  split; [|split; [|split]]; intros i.
  - unfold vplus, b, brem, prepare, removed. destruct (inside i); ring.
  - unfold vplus, vmult. f_equal. fold (k1 i) (k2 i). rewrite (E1 i), (E2 i), (E3 i), (E4 i), !fr162 by (cbn; auto 20). unfold taylor3. generalize (power 1 b i) (power 2 b i) (power 3 b i) (power 4 b i). intros p1 p2 p3 p4. fold cu.
    transitivity (b i +' (num 31 *' cu +' num 14 *' cu +' num 14 *' cu +' num (-5) *' cu) *' dt *' p1 +' (num 14 *' cu *' h +' num 14 *' cu *' h +' num (-5) *' cu) *' (dt *' dt) *' p2
      +' (num 14 *' cu *' (h *' h) +' num (-5) *' cu *' h) *' (dt *' dt *' dt) *' p3 +' num (-5) *' cu *' (h *' h) *' (dt *' dt *' dt *' dt) *' p4); [ring|]. rewrite a1, a2, a3. unfold cu. cbn. ring.
  - unfold vplus, vmult. f_equal. rewrite (E1 i), (E2 i), (E3 i), (E4 i), !fr81 by (cbn; auto 20). unfold taylor3. generalize (power 1 b i) (power 2 b i) (power 3 b i) (power 4 b i). intros p1 p2 p3 p4. fold cw.
    transitivity (b i +' (num 16 *' cw +' num 20 *' cw +' num 20 *' cw +' num (-2) *' cw) *' dt *' p1 +' (num 20 *' cw *' h +' num 20 *' cw *' h +' num (-2) *' cw) *' (dt *' dt) *' p2
      +' (num 20 *' cw *' (h *' h) +' num (-2) *' cw *' h) *' (dt *' dt *' dt) *' p3 +' num (-2) *' cw *' (h *' h) *' (dt *' dt *' dt *' dt) *' p4); [ring|]. rewrite b1, b2, b3, b4. ring.
  - unfold vplus, vmult. f_equal. rewrite (E1 i), (E2 i), (E3 i), (E4 i), fr3, fr6. unfold taylor4. generalize (power 1 b i) (power 2 b i) (power 3 b i) (power 4 b i). intros p1 p2 p3 p4.
    transitivity (b i +' (h *' t +' t +' t +' h *' t) *' dt *' p1 +' (t *' h +' t *' h +' h *' t) *' (dt *' dt) *' p2 +' (t *' (h *' h) +' h *' t *' h) *' (dt *' dt *' dt) *' p3 +' h *' t *' (h *' h) *' (dt *' dt *' dt *' dt) *' p4); [ring|].
    rewrite e1, e2, e3. ring.
Qed.

(* the constant does not meet the part outside the layout *)
Definition constant_inside (ket : vec) : Prop := const = 0' \/ forall i, inside i = false -> ket i = 0'.
(* <u|v> *)
Definition bra (u v : vec) : R := bsum pos (fun i => conj (u i) *' v i).
(* state k of the list *)
Definition state (k : nat) (x : rk R) : vec := nth k (rk_kets R x) (fun _ => 0').

Lemma act_split : forall u v, (forall i, inside i = true -> u i = v i) -> forall i, inside i = true -> act u i = act v i.
Proof. intros u v E i Ei. unfold act. rewrite Ei, (E i Ei). f_equal. apply bsum_ext. intros j Ij. apply filter_In in Ij. now rewrite (E j (proj2 Ij)). Qed.
Lemma power_split : forall k u v, (forall i, inside i = true -> u i = v i) -> forall i, inside i = true -> power k u i = power k v i.
Proof. induction k as [|k IH]; intros u v E i Ei; [now apply E|]. cbn [power]. apply act_split; [|exact Ei]. intros j Ej. now apply IH. Qed.
Lemma power_out : forall k ket, constant_inside ket -> forall i, inside i = false -> power (S k) ket i = 0'.
Proof.
  intros k ket C i Ei. cbn [power]. unfold act. rewrite Ei. destruct C as [C|C]; [rewrite C; ring|]. replace (power k ket i) with 0'; [ring|]. symmetry. revert i Ei.
  induction k as [|k IH]; intros i Ei; [now apply C|]. cbn [power]. unfold act. rewrite Ei, (IH i Ei). ring.
Qed.
Lemma taylor4_whole : forall s ket, constant_inside ket -> same (fun i => removed R inside ket i +' taylor4 h t s (prepare R inside ket) i) (taylor4 h t s ket).
Proof.
  intros s ket C i. unfold taylor4. destruct (inside i) eqn:Ei.
  - rewrite !(fun k => power_split k (prepare R inside ket) ket (fun j Ej => ltac:(unfold prepare; now rewrite Ej)) i Ei). unfold removed, prepare. rewrite Ei. ring.
  - rewrite !(power_out _ ket C i Ei), !(fun k => power_inner k (prepare R inside ket) (fun j Ej => ltac:(unfold prepare; now rewrite Ej)) i Ei). unfold removed, prepare. rewrite Ei. ring.
Qed.
Lemma taylor3_whole : forall s a ket, constant_inside ket ->
  same (fun i => removed R inside ket i +' (taylor3 h t s (prepare R inside ket) i +' ropp R (a *' power 4 (prepare R inside ket) i))) (fun i => taylor3 h t s ket i +' ropp R (a *' power 4 ket i)).
Proof.
  intros s a ket C i. unfold taylor3. destruct (inside i) eqn:Ei.
  - rewrite !(fun k => power_split k (prepare R inside ket) ket (fun j Ej => ltac:(unfold prepare; now rewrite Ej)) i Ei). unfold removed, prepare. rewrite Ei. ring.
  - rewrite !(power_out _ ket C i Ei), !(fun k => power_inner k (prepare R inside ket) (fun j Ej => ltac:(unfold prepare; now rewrite Ej)) i Ei). unfold removed, prepare. rewrite Ei. ring.
Qed.

(** ** C67: the four states of a step: the state, the Taylor polynomial of exp(dt/3 E), exp(2dt/3 E) up to order 3 with an
    explicit term of order 4, and the Taylor polynomial of exp(dt E) of order 4 *)
Theorem c67_step : forall dt ev ket, constant_inside ket -> let x := rk4 R frac conj sqrt quot inside pos op const dt ev ket in
  length (rk_kets R x) = 4%nat /\ same (state 0 x) ket /\
  same (state 1 x) (fun i => taylor3 h t (t *' dt) ket i +' ropp R ((1' +' 1' +' 1' +' 1' +' 1') *' (h *' h *' h *' (t *' t *' t *' t)) *' (dt *' dt *' dt *' dt) *' power 4 ket i)) /\
  same (state 2 x) (fun i => taylor3 h t ((1' +' 1') *' t *' dt) ket i +' ropp R (h *' (t *' t *' t *' t) *' (dt *' dt *' dt *' dt) *' power 4 ket i)) /\
  same (state 3 x) (taylor4 h t dt ket).
Proof.
  intros dt ev ket C x. destruct (rk4_kets dt ev ket) as (k0 & k1 & k2 & k3 & E & E0 & E1 & E2 & E3). unfold state, x. rewrite E. cbn [nth length]. split; [reflexivity|]. split; [exact E0|]. split; [|split].
  - intros i. rewrite (E1 i). exact (taylor3_whole _ _ ket C i).
  - intros i. rewrite (E2 i). exact (taylor3_whole _ _ ket C i).
  - intros i. rewrite (E3 i). exact (taylor4_whole _ ket C i).
Qed.

Lemma same_out : forall s ket, constant_inside ket -> forall i, inside i = false -> taylor4 h t s ket i = ket i.
Proof. intros s ket C i Ei. unfold taylor4. rewrite !(power_out _ ket C i Ei). ring. Qed.
Lemma constant_same : forall u v, (forall i, inside i = false -> u i = v i) -> constant_inside u -> constant_inside v.
Proof. intros u v E [C|C]; [now left|right]. intros i Ei. rewrite <- (E i Ei). now apply C. Qed.

Lemma rk4_parts : forall dt ev ket, let x := rk4 R frac conj sqrt quot inside pos op const dt ev ket in let brem := removed R inside ket in
  exists k0 k1 k2 r3, rk_kets R x = [k0; k1; k2; vplus R brem r3] /\ rk_g R x = sqrt (braket R conj pos r3 r3 +' braket R conj pos brem brem) /\
  rk_w R x = (if ev then quot (braket R conj pos r3 (apply R inside op const r3)) (braket R conj pos r3 r3 +' braket R conj pos brem brem) else 0').
Proof using. intros. do 4 eexists. split; [|split]; unfold x, rk4; cbn [rk_kets rk_g rk_w map]; reflexivity. Qed.

(** ** C67: the energy is the expectation value in the last state, the norm is its norm *)
Theorem c67_energy : conj 0' = 0' -> forall dt ev ket, constant_inside ket -> let x := rk4 R frac conj sqrt quot inside pos op const dt ev ket in
  rk_g R x = sqrt (bra (state 3 x) (state 3 x)) /\
  rk_w R x = if ev then quot (bra (state 3 x) (act (state 3 x))) (bra (state 3 x) (state 3 x)) else 0'.
Proof.
  intros C0 dt ev ket C x. destruct (rk4_kets dt ev ket) as (k0 & k1 & k2 & k3 & E & _ & _ & _ & E3). fold x in E.
  unfold state. rewrite E. cbn [nth]. pose (b := prepare R inside ket). pose (brem := removed R inside ket).
  assert (Ib : inner_vec b) by (intros i Ei; unfold b, prepare; now rewrite Ei).
  assert (It : inner_vec (taylor4 h t dt b)) by (intros i Ei; unfold taylor4; rewrite (Ib i Ei), !(power_inner _ b Ib i Ei); ring).
  assert (Er : forall i, inside i = true -> brem i = 0') by (intros i Ei; unfold brem, removed; now rewrite Ei).
  destruct (rk4_parts dt ev ket) as (k0' & k1' & k2' & r3 & E' & Eg & Ew). fold x brem in E', Eg, Ew. rewrite E in E'. injection E' as _ _ _ E'.
  assert (Er3 : same r3 (taylor4 h t dt b)).
  { intros i. assert (X := E3 i). rewrite E' in X. unfold vplus in X. fold b brem in X. cbn beta in X.
    assert (Y : ropp R (brem i) +' (brem i +' r3 i) = ropp R (brem i) +' (brem i +' taylor4 h t dt b i)) by (f_equal; exact X).
    transitivity (ropp R (brem i) +' (brem i +' r3 i)); [ring|]. rewrite Y. ring. }
  assert (I3 : inner_vec r3) by (intros i Ei; rewrite (Er3 i); now apply It).
  assert (N : braket R conj pos r3 r3 +' braket R conj pos brem brem = bra k3 k3).
  { unfold braket, bra. rewrite <- bsum_add. apply bsum_ext. intros i _. rewrite (E3 i). fold b brem. cbn beta. rewrite <- (Er3 i). destruct (inside i) eqn:Ei.
    - rewrite (Er i Ei), C0. replace (0' +' r3 i) with (r3 i) by ring. ring.
    - rewrite (I3 i Ei), C0. replace (brem i +' 0') with (brem i) by ring. ring. }
  assert (H : braket R conj pos r3 (apply R inside op const r3) = bra k3 (act k3)).
  { unfold braket, bra. apply bsum_ext. intros i _. rewrite (apply_act r3 I3 i). assert (K : forall j, k3 j = brem j +' r3 j) by (intros j; rewrite (E3 j), (Er3 j); reflexivity). rewrite (K i). destruct (inside i) eqn:Ei.
    - rewrite (Er i Ei). replace (0' +' r3 i) with (r3 i) by ring. f_equal. apply act_split; [|exact Ei]. intros j Ej. rewrite (K j), (Er j Ej). ring.
    - rewrite (I3 i Ei), C0. unfold act. rewrite Ei, (K i), (I3 i Ei). destruct C as [C|C]; [rewrite C; ring|]. unfold brem, removed. rewrite Ei, (C i Ei). ring. }
  split; [now rewrite Eg, N|]. rewrite Ew, H, N. reflexivity.
Qed.

Lemma fr1 : frac 1 1 = 1'. Proof. rewrite (frac_eq 1 1 1'); [cbn; ring|cbn; auto 20|cbn; ring]. Qed.
Lemma power_same : forall k u v, same u v -> same (power k u) (power k v).
Proof. induction k as [|k IH]; intros u v E; [exact E|]. cbn [power]. now apply act_same, IH. Qed.
Lemma taylor_same : forall s u v, same u v -> same (taylor4 h t s u) (taylor4 h t s v).
Proof. intros s u v E i. unfold taylor4. now rewrite (E i), (power_same 1 _ _ E i), (power_same 2 _ _ E i), (power_same 3 _ _ E i), (power_same 4 _ _ E i). Qed.
Lemma bra_same : forall u u' v v', same u u' -> same v v' -> bra u v = bra u' v'.
Proof. intros u u' v v' E F. apply bsum_ext. intros i _. now rewrite (E i), (F i). Qed.
(* k times the Taylor polynomial *)
Fixpoint steps (k : nat) (s : R) (v : vec) : vec := match k with O => v | S k' => taylor4 h t s (steps k' s v) end.
Lemma steps_last : forall k s v, steps (S k) s v = steps k s (taylor4 h t s v).
Proof. induction k as [|k IH]; intros s v; [reflexivity|]. change (steps (S (S k)) s v) with (taylor4 h t s (steps (S k) s v)). now rewrite IH. Qed.
Lemma steps_same : forall k s u v, same u v -> same (steps k s u) (steps k s v).
Proof. induction k as [|k IH]; intros s u v E; [exact E|]. cbn [steps]. now apply taylor_same, IH. Qed.
Lemma ten_spec : conj 0' = 0' -> forall k dt ket l, constant_inside ket ->
  let r := ten_steps R frac conj sqrt quot inside pos op const (S k) dt ket l in let u := steps (S k) (frac 1 10 *' dt) ket in
  same (snd r) u /\ rk_g R (fst r) = sqrt (bra u u) /\ rk_w R (fst r) = quot (bra u (act u)) (bra u u).
Proof.
  intros C0. induction k as [|k IH]; intros dt ket l C.
  - destruct (c67_step (frac 1 10 *' dt) true ket C) as (L & _ & _ & _ & S3). destruct (c67_energy C0 (frac 1 10 *' dt) true ket C) as [G W].
    cbn [ten_steps Nat.eqb fst snd steps]. cbv zeta in *. split; [|split].
    + intros i. rewrite <- (S3 i). unfold state. rewrite (nth_indep _ ket (fun _ => 0')) by (rewrite L; lia). reflexivity.
    + rewrite G. now rewrite (bra_same _ _ _ _ S3 S3).
    + rewrite W. now rewrite (bra_same _ _ _ _ S3 S3), (bra_same _ _ _ _ S3 (act_same _ _ S3)).
  - destruct (c67_step (frac 1 10 *' dt) (Nat.eqb (S k) 0) ket C) as (L & _ & _ & _ & S3). cbv zeta. cbn zeta in *.
    remember (S k) as k' eqn:Ek. cbn [ten_steps]. set (x := rk4 R frac conj sqrt quot inside pos op const (frac 1 10 *' dt) (Nat.eqb k' 0) ket) in *.
    set (v := nth 3 (rk_kets R x) ket). assert (Ev : same v (taylor4 h t (frac 1 10 *' dt) ket)). { intros i. rewrite <- (S3 i). unfold state, v. rewrite (nth_indep _ ket (fun _ => 0')) by (rewrite L; lia). reflexivity. }
    assert (Cv : constant_inside v). { apply (constant_same ket); [|exact C]. intros i Ei. rewrite (Ev i). symmetry. now apply same_out. }
    destruct (IH dt v x Cv) as (A & B & D). assert (Es : same (steps k' (frac 1 10 *' dt) v) (steps (S k') (frac 1 10 *' dt) ket)) by (rewrite steps_last; now apply steps_same).
    split; [|split].
    + intros i. rewrite (A i). apply Es.
    + rewrite B. now rewrite (bra_same _ _ _ _ Es Es).
    + rewrite D. now rewrite (bra_same _ _ _ _ Es Es), (bra_same _ _ _ _ Es (act_same _ _ Es)).
Qed.

(** ** C67: at the end of a time step the window holds ten Taylor steps of dt / 10 of the state, normalised if asked for; the energy
    and the norm are those of the state before it is normalised; elsewhere the first of the four states is the state itself *)
Theorem c67_advance : conj 0' = 0' -> forall dt ev ket, constant_inside ket -> forall normalize,
  let u := steps 10 (frac 1 10 *' dt) ket in
  exists v, td_window R frac conj sqrt quot inside pos op const dt true normalize ev ket = (quot (bra u (act u)) (bra u u), sqrt (bra u u), [(1', v)]) /\
  same v (if normalize then fun i => quot 1' (sqrt (bra u u)) *' u i else u).
Proof.
  intros C0 dt ev ket C nz u. destruct (ten_spec C0 9 dt ket (Rk R 0' 0' []) C) as (A & B & D). cbv zeta in A, B, D. fold u in A, B, D. unfold td_window.
  destruct (ten_steps _ _ _ _ _ _ _ _ _ 10 dt ket (Rk R 0' 0' [])) as [x v]. cbn [fst snd] in A, B, D. eexists. rewrite B, D, fr1. split; [reflexivity|].
  destruct nz; [|exact A]. intros i. unfold vmult. rewrite (A i). f_equal. f_equal. f_equal. change (braket R conj pos v v) with (bra v v). now apply bra_same.
Qed.
Theorem c67_target : forall dt ev ket normalize, exists w g v0 v1 v2 v3,
  td_window R frac conj sqrt quot inside pos op const dt false normalize ev ket = (w, g, [(t, v0); (h *' t, v1); (h *' t, v2); (t, v3)]) /\ same v0 ket /\
  [v0; v1; v2; v3] = rk_kets R (rk4 R frac conj sqrt quot inside pos op const dt ev ket).
Proof.
  intros dt ev ket nz. destruct (rk4_kets dt ev ket) as (k0 & k1 & k2 & k3 & E & E0 & _). unfold td_window. rewrite E, fr3, fr6. do 6 eexists. split; [reflexivity|]. split; [exact E0|reflexivity].
Qed.
End C67.

(** ** Concrete cases *)
(* over the rationals: positions 0, 1 inside the layout, 2 outside; operator [[1, 2], [2, 0]] *)
Definition c67_frac (a b : Z) : Qc := (Q2Qc (inject_Z a) / Q2Qc (inject_Z b))%Qc.
Definition c67_M (i j : nat) : Qc := match i, j with O, O => Q2Qc 1 | O, S O => Q2Qc 2 | S O, O => Q2Qc 2 | _, _ => Q2Qc 0 end.
Definition c67_in (i : nat) : bool := Nat.ltb i 2.
Definition c67_op (v : nat -> Qc) : nat -> Qc := fun i => bsum (R := rA Qc_ofield) [0; 1; 2]%nat (fun j => (c67_M i j * v j)%Qc).
Definition c67_run (const : Qc) (ket : nat -> Qc) : rk (rA Qc_ofield) :=
  rk4 (rA Qc_ofield) c67_frac (fun x => x) (fun x => x) Qcdiv c67_in [0; 1; 2]%nat c67_op const (Q2Qc (1 # 2)) true ket.
Definition c67_ket (i : nat) : Qc := match i with O => Q2Qc 1 | S (S O) => Q2Qc 3 | _ => Q2Qc 0 end.
Lemma c67_quotients : quotients (rA Qc_ofield) c67_frac.
Proof. intros a b I. cbn [literals In] in I. repeat (destruct I as [I|I]; [injection I as <- <-; apply Qc_is_canon; vm_compute; reflexivity|]). destruct I. Qed.
Lemma c67_shape : forall v i, c67_op v i = bsum (R := rA Qc_ofield) [0; 1; 2]%nat (fun j => rmul (rA Qc_ofield) (c67_M i j) (v j)).
Proof. reflexivity. Qed.
(* without constant: the last state is the fourth order Taylor polynomial of exp(H/2), position 2 is carried along, the energy is
   the expectation value *)
Example c67_ex : map (map this) (map (fun v => map v [0; 1; 2]%nat) (rk_kets _ (c67_run (Q2Qc 0) c67_ket))) =
  [[1; 0; 3]; [12743 # 10368; 1867 # 5184; 3]; [4291 # 2592; 1079 # 1296; 3]; [917 # 384; 289 # 192; 3]]%Q /\
  this (rk_w _ (c67_run (Q2Qc 0) c67_ket)) = (2960993 # 2502077)%Q.
Proof. vm_compute. split; reflexivity. Qed.
Definition c67_h : Qc := Q2Qc (1 # 2). Definition c67_t : Qc := Q2Qc (1 # 3).
Example c67_ex_applies : same (rA Qc_ofield) (state (rA Qc_ofield) 3 (c67_run (Q2Qc 0) c67_ket))
  (taylor4 (rA Qc_ofield) c67_in [0; 1; 2]%nat (Q2Qc 0) c67_M c67_h c67_t c67_h c67_ket).
Proof.
  refine (proj2 (proj2 (proj2 (proj2 (c67_step (rA Qc_ofield) c67_frac (fun x => x) (fun x => x) Qcdiv c67_in [0; 1; 2]%nat c67_op (Q2Qc 0) c67_M c67_quotients c67_shape c67_h c67_t _ _ c67_h true c67_ket (or_introl _))))));
  apply Qc_is_canon; vm_compute; reflexivity.
Qed.
(** ** C67: a constant together with a state outside the layout: that part is not multiplied with exp(dt const), and the energy misses
    const times its weight *)
Theorem c67_outside_refuted : exists (frac : Z -> Z -> Qc) (M : nat -> nat -> Qc) (inside : nat -> bool) (pos : list nat) (const dt h t : Qc) (ket : nat -> Qc),
  let R := rA Qc_ofield in let op := fun v i => bsum pos (fun j => rmul R (M i j) (v j)) in let x := rk4 R frac (fun x => x) (fun x => x) Qcdiv inside pos op const dt true ket in
  quotients R frac /\ (h + h = 1)%Qc /\ (t + t + t = 1)%Qc /\ (forall i j, In i pos -> In j pos -> M i j = M j i) /\
  (exists i, In i pos /\ state R 3 x i <> taylor4 R inside pos const M h t dt ket i) /\
  rk_w R x <> Qcdiv (bra R (fun x => x) pos (state R 3 x) (act R inside pos const M (state R 3 x))) (bra R (fun x => x) pos (state R 3 x) (state R 3 x)).
Proof.
  exists c67_frac, c67_M, c67_in, [0; 1; 2]%nat, (Q2Qc 1), c67_h, c67_h, c67_t, c67_ket. cbv zeta. split; [exact c67_quotients|]. split; [apply Qc_is_canon; reflexivity|]. split; [apply Qc_is_canon; reflexivity|]. split; [|split].
  - intros i j Ii Ij. cbn in Ii, Ij. repeat (destruct Ii as [<-|Ii]; [repeat (destruct Ij as [<-|Ij]; [reflexivity|]); destruct Ij|]). destruct Ii.
  - exists 2%nat. split; [cbn; auto|]. intros E. apply (f_equal this) in E. vm_compute in E. discriminate E.
  - intros E. apply (f_equal this) in E. vm_compute in E. discriminate E.
Qed.
Print Assumptions c67_step. Print Assumptions c67_energy. Print Assumptions c67_advance. Print Assumptions c67_target. Print Assumptions c67_outside_refuted.
