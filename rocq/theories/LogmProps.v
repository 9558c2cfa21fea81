(** C79: the matrix exponential of my_logm(u) is the rotation u. *)
From Coq Require Import Bool List ZArith ZifyNat Reals Lra Lia Ring Setoid Morphisms Permutation.
From Verif Require Import RingLib HeisModel LogmModel.
Import ListNotations.

(** *** matrices up to n *)
Section Alg.
Variable K : CRing.
Add Ring Kr : (rth K).
Notation mat := (nat -> nat -> K).
Notation "a +' b" := (radd K a b) (at level 50, left associativity).
Notation "a *' b" := (rmul K a b) (at level 40, left associativity).
Definition kd (i j : nat) : K := if Nat.eqb i j then r1 K else r0 K.
Fixpoint mpow (n : nat) (A : mat) (k : nat) : mat := match k with O => kd | S k' => mmul K n A (mpow n A k') end.
Variable n : nat.
Definition meq (A B : mat) : Prop := forall i j, (i < n)%nat -> (j < n)%nat -> A i j = B i j.
Global Instance meq_equiv : Equivalence meq.
Proof. split; [intros A i j _ _; reflexivity|intros A B H i j Hi Hj; symmetry; now apply H|intros A B C H1 H2 i j Hi Hj; rewrite H1 by assumption; now apply H2]. Qed.
Notation "A @ B" := (mmul K n A B) (at level 40, left associativity).
Global Instance mmul_mor : Proper (meq ==> meq ==> meq) (mmul K n).
Proof. intros A A' HA B B' HB i j Hi Hj. apply bsum_ext. intros q Hq. apply in_seq in Hq. rewrite HA, HB by lia. reflexivity. Qed.
Global Instance mtr_mor : Proper (meq ==> meq) (mtr K).
Proof. intros A A' HA i j Hi Hj. unfold mtr. now apply HA. Qed.
Lemma mmul_assoc : forall A B C, meq (A @ B @ C) (A @ (B @ C)).
Proof.
  intros A B C i j _ _. unfold mmul. rewrite (bsum_ext K _ _ _ (fun q => bsum (seq 0 n) (fun p => A i p *' B p q *' C q j))) by (intros q _; now rewrite <- bsum_mulr).
  rewrite bsum_swap. apply bsum_ext. intros p _. rewrite <- bsum_mull. apply bsum_ext. intros q _. ring.
Qed.
Lemma kd_sum : forall (f : nat -> K) i, (i < n)%nat -> bsum (seq 0 n) (fun q => kd i q *' f q) = f i.
Proof.
  intros f i Hi. rewrite (bsum_single K _ (seq 0 n) _ i (seq_NoDup _ _) ltac:(apply in_seq; lia)); [unfold kd; rewrite Nat.eqb_refl; ring|]. intros q _ Nq. unfold kd. destruct (Nat.eqb_spec i q); [congruence|ring].
Qed.
Lemma mmul_1l : forall A, meq (kd @ A) A.
Proof. intros A i j Hi _. exact (kd_sum (fun q => A q j) i Hi). Qed.
Lemma mmul_1r : forall A, meq (A @ kd) A.
Proof. intros A i j _ Hj. unfold mmul. rewrite (bsum_ext K _ _ _ (fun q => kd j q *' A i q)); [now apply (kd_sum (fun q => A i q))|]. intros q _. unfold kd. rewrite (Nat.eqb_sym q j). ring. Qed.
Lemma mtr_mul : forall A B, meq (mtr K (A @ B)) (mtr K B @ mtr K A).
Proof. intros A B i j _ _. unfold mtr, mmul. apply bsum_ext. intros q _. ring. Qed.
Lemma mtr_tr : forall A, meq (mtr K (mtr K A)) A.
Proof. intros A i j _ _. reflexivity. Qed.
Lemma mul_symr : forall A B, meq (A @ (fun a b => B a b +' B b a)) (fun a b => (A @ B) a b +' (A @ mtr K B) a b).
Proof. intros A B a b _ _. unfold mmul. rewrite <- bsum_add. apply bsum_ext. intros q _. unfold mtr. ring. Qed.
Lemma mul_syml : forall A B, meq ((fun a b => B a b +' B b a) @ A) (fun a b => (B @ A) a b +' (mtr K B @ A) a b).
Proof. intros A B a b _ _. unfold mmul. rewrite <- bsum_add. apply bsum_ext. intros q _. unfold mtr. ring. Qed.
Lemma diag_r : forall A (w : nat -> K) i j, (j < n)%nat -> (A @ (fun a b => w a *' kd a b)) i j = A i j *' w j.
Proof. intros A w i j Hj. unfold mmul. rewrite (bsum_single K _ (seq 0 n) _ j (seq_NoDup _ _) ltac:(apply in_seq; lia)); [unfold kd; rewrite Nat.eqb_refl; ring|]. intros q _ Nq. unfold kd. destruct (Nat.eqb_spec q j); [congruence|ring]. Qed.
Lemma diag_l : forall A (w : nat -> K) i j, (i < n)%nat -> ((fun a b => w a *' kd a b) @ A) i j = w i *' A i j.
Proof. intros A w i j Hi. unfold mmul. rewrite (bsum_single K _ (seq 0 n) _ i (seq_NoDup _ _) ltac:(apply in_seq; lia)); [unfold kd; rewrite Nat.eqb_refl; ring|]. intros q _ Nq. unfold kd. destruct (Nat.eqb_spec i q); [congruence|ring]. Qed.
Lemma lin_scale : forall A B W (c : K) i j, (A @ (fun p q => B p q *' c) @ W) i j = (A @ B @ W) i j *' c.
Proof. intros. unfold mmul. rewrite <- bsum_mulr. apply bsum_ext. intros q _. rewrite <- !bsum_mulr. apply bsum_ext. intros p _. ring. Qed.
Lemma lin_add : forall A B B' W i j, (A @ (fun p q => B p q +' B' p q) @ W) i j = (A @ B @ W) i j +' (A @ B' @ W) i j.
Proof. intros. unfold mmul. rewrite <- bsum_add. apply bsum_ext. intros q _. rewrite <- !bsum_mulr, <- bsum_add. apply bsum_ext. intros p _. ring. Qed.
Definition orth (A : mat) : Prop := meq (mtr K A @ A) kd /\ meq (A @ mtr K A) kd.
Variables V M : mat.
Hypothesis OV : orth V.
(* powers in another basis *)
Lemma pow_conj : forall k, meq (mpow n (V @ M @ mtr K V) k) (V @ mpow n M k @ mtr K V).
Proof.
  destruct OV as [O1 O2]. intros k. induction k as [|k IH]; cbn [mpow].
  - rewrite mmul_1r. symmetry. exact O2.
  - rewrite IH. rewrite !mmul_assoc. rewrite <- (mmul_assoc (mtr K V) V). rewrite O1, mmul_1l. reflexivity.
Qed.
Hypothesis OM : orth M.
Notation D := (mtr K V @ M @ V).
Lemma back : meq (V @ D @ mtr K V) M.
Proof. destruct OV as [O1 O2]. rewrite !mmul_assoc, O2, mmul_1r, <- mmul_assoc, O2. apply mmul_1l. Qed.
Lemma conj_orth : orth D.
Proof.
  destruct OV as [O1 O2], OM as [P1 P2]. assert (T : meq (mtr K D) (mtr K V @ mtr K M @ V)) by (rewrite !mtr_mul, mtr_tr, !mmul_assoc; reflexivity).
  split; rewrite T.
  - rewrite !mmul_assoc. rewrite <- (mmul_assoc V (mtr K V)), O2, mmul_1l. rewrite <- (mmul_assoc (mtr K M) M), P1, mmul_1l. exact O1.
  - rewrite !mmul_assoc. rewrite <- (mmul_assoc V (mtr K V)), O2, mmul_1l. rewrite <- (mmul_assoc M (mtr K M)), P2, mmul_1l. exact O1.
Qed.
(* M + M^T diagonal in the basis V *)
Variable w : nat -> K.
Hypothesis Hw : meq (fun i j => M i j +' M j i) (V @ (fun i j => w i *' kd i j) @ mtr K V).
Lemma sum_D : meq (fun i j => D i j +' D j i) (fun i j => w i *' kd i j).
Proof.
  destruct OV as [O1 O2].
  transitivity (mtr K V @ (fun i j => M i j +' M j i) @ V).
  - assert (T : meq (mtr K D) (mtr K V @ mtr K M @ V)) by (rewrite !mtr_mul, mtr_tr, !mmul_assoc; reflexivity).
    intros i j Hi Hj. rewrite (T i j Hi Hj : D j i = _). unfold mmul. rewrite <- bsum_add. apply bsum_ext. intros q _. rewrite <- !bsum_mulr, <- bsum_add. apply bsum_ext. intros p _. unfold mtr. ring.
  - rewrite Hw, !mmul_assoc, O1, mmul_1r, <- mmul_assoc, O1. apply mmul_1l.
Qed.
Lemma commute : forall i j, (i < n)%nat -> (j < n)%nat -> D i j *' w j = w i *' D i j.
Proof.
  destruct conj_orth as [Q1 Q2]. intros i j Hi Hj.
  rewrite <- (diag_r D w i j Hj), <- (diag_l D w i j Hi).
  transitivity ((D @ (fun a b => D a b +' D b a)) i j); [apply (mmul_mor D D (fun _ _ _ _ => eq_refl) _ _ (fun a b Ha Hb => eq_sym (sum_D a b Ha Hb)) i j Hi Hj)|].
  transitivity (((fun a b => D a b +' D b a) @ D) i j); [|apply (mmul_mor _ _ sum_D D D (fun _ _ _ _ => eq_refl) i j Hi Hj)].
  rewrite (mul_symr D D i j Hi Hj), (mul_syml D D i j Hi Hj). f_equal. rewrite (Q1 i j Hi Hj), (Q2 i j Hi Hj). reflexivity.
Qed.
End Alg.

(** *** exponential series *)
Ltac Zify.zify_post_hook ::= Z.div_mod_to_equations.
Notation mat := (nat -> nat -> R).
(* E is the sum of the series of exp(X), element by element *)
Definition is_exp (n : nat) (X E : mat) : Prop := forall i j, (i < n)%nat -> (j < n)%nat ->
  Un_cv (fun N => sum_f_R0 (fun k => (mpow R_ring n X k i j / INR (fact k))%R) N) (E i j).
Open Scope R_scope.

Lemma cv_merge : forall (f g : nat -> R) l, Un_cv g l -> (forall N, (1 <= N)%nat -> exists m, (N <= 2 * m + 2)%nat /\ f N = g m) -> Un_cv f l.
Proof.
  intros f g l Hg H eps He. destruct (Hg eps He) as (N0 & HN). exists (2 * N0 + 3)%nat. intros N Hn. destruct (H N ltac:(lia)) as (m & Hm & ->). apply HN. lia.
Qed.
Lemma cv_const : forall c, Un_cv (fun _ => c) c.
Proof. intros c eps He. exists 0%nat. intros. unfold R_dist. rewrite Rminus_diag_eq by reflexivity. now rewrite Rabs_R0. Qed.
Lemma cv_ext : forall f g l, (forall N, f N = g N) -> Un_cv g l -> Un_cv f l.
Proof. intros f g l E H eps He. destruct (H eps He) as (N0 & HN). exists N0. intros. rewrite E. now apply HN. Qed.
Lemma cv_bsum : forall (X : Type) (l : list X) (f : nat -> X -> R) (g : X -> R), (forall x, In x l -> Un_cv (fun N => f N x) (g x)) -> Un_cv (fun N => bsum (R := R_ring) l (f N)) (bsum (R := R_ring) l g).
Proof.
  intros X l f g H. induction l as [|x l IH]; [exact (cv_const 0)|]. apply (CV_plus (fun N => f N x) (fun N => bsum (R := R_ring) l (f N))); [apply H; now left|apply IH; intros; apply H; now right].
Qed.
Lemma even_sum : forall (a : nat -> R) x, (forall m, a (2 * m)%nat = (- (x * x)) ^ m) -> (forall m, a (2 * m + 1)%nat = 0) ->
  forall m, sum_f_R0 (fun k => a k / INR (fact k)) (2 * m) = A1 x m /\ sum_f_R0 (fun k => a k / INR (fact k)) (2 * m + 1) = A1 x m.
Proof.
  intros a x He Ho. assert (P : forall m, (- (x * x)) ^ m = (-1) ^ m * x ^ (2 * m)) by (intros m; rewrite pow_mult, <- Rpow_mult_distr; f_equal; ring).
  assert (S1 : forall m, sum_f_R0 (fun k => a k / INR (fact k)) (2 * m + 1) = sum_f_R0 (fun k => a k / INR (fact k)) (2 * m)) by (intros m; replace (2 * m + 1)%nat with (S (2 * m)) by lia; cbn [sum_f_R0]; replace (S (2 * m)) with (2 * m + 1)%nat by lia; rewrite Ho; unfold Rdiv; rewrite Rmult_0_l; ring).
  assert (S0 : forall m, sum_f_R0 (fun k => a k / INR (fact k)) (2 * m) = A1 x m).
  { induction m as [|m IH].
    - transitivity (a (2 * 0)%nat / INR (fact 0)); [reflexivity|]. rewrite He. unfold A1. cbn. lra.
    - replace (2 * S m)%nat with (S (2 * m + 1)) by lia. cbn [sum_f_R0]. rewrite S1, IH. unfold A1. cbn [sum_f_R0]. f_equal. replace (S (2 * m + 1)) with (2 * S m)%nat by lia. rewrite He, P. unfold Rdiv. ring. }
  intros m. now rewrite S1, S0.
Qed.
Lemma odd_sum : forall (a : nat -> R) x, (forall m, a (2 * m)%nat = 0) -> (forall m, a (2 * m + 1)%nat = (- (x * x)) ^ m * x) ->
  forall m, sum_f_R0 (fun k => a k / INR (fact k)) (2 * m + 1) = B1 x m /\ sum_f_R0 (fun k => a k / INR (fact k)) (2 * m + 2) = B1 x m.
Proof.
  intros a x He Ho. assert (P : forall m, (- (x * x)) ^ m = (-1) ^ m * x ^ (2 * m)) by (intros m; rewrite pow_mult, <- Rpow_mult_distr; f_equal; ring).
  assert (S1 : forall m, sum_f_R0 (fun k => a k / INR (fact k)) (2 * m + 2) = sum_f_R0 (fun k => a k / INR (fact k)) (2 * m + 1)) by (intros m; replace (2 * m + 2)%nat with (S (2 * m + 1)) by lia; cbn [sum_f_R0]; replace (S (2 * m + 1)) with (2 * S m)%nat by lia; rewrite He; unfold Rdiv; rewrite Rmult_0_l; ring).
  assert (S0 : forall m, sum_f_R0 (fun k => a k / INR (fact k)) (2 * m + 1) = B1 x m).
  { induction m as [|m IH].
    - transitivity (a (2 * 0)%nat / INR (fact 0) + a (2 * 0 + 1)%nat / INR (fact 1)); [reflexivity|]. rewrite He, Ho. unfold B1. cbn. lra.
    - replace (2 * S m + 1)%nat with (S (2 * m + 2)) by lia. cbn [sum_f_R0]. rewrite S1, IH. unfold B1. cbn [sum_f_R0]. f_equal. replace (S (2 * m + 2)) with (2 * S m + 1)%nat by lia. rewrite Ho, P, (pow_add x (2 * S m) 1), pow_1. unfold Rdiv. ring. }
  intros m. now rewrite S1, S0.
Qed.
Lemma even_cv : forall (a : nat -> R) x, (forall m, a (2 * m)%nat = (- (x * x)) ^ m) -> (forall m, a (2 * m + 1)%nat = 0) -> Un_cv (fun N => sum_f_R0 (fun k => a k / INR (fact k)) N) (cos x).
Proof.
  intros a x He Ho. apply (cv_merge _ (A1 x) _ (A1_cvg x)). intros N _. exists (N / 2)%nat. split; [lia|]. destruct (even_sum a x He Ho (N / 2)) as [E0 E1]. destruct (Nat.Even_or_Odd N) as [[h ->]|[h ->]].
  - replace (2 * h / 2)%nat with h in * by lia. exact E0.
  - replace ((2 * h + 1) / 2)%nat with h in * by lia. exact E1.
Qed.
Lemma odd_cv : forall (a : nat -> R) x, (forall m, a (2 * m)%nat = 0) -> (forall m, a (2 * m + 1)%nat = (- (x * x)) ^ m * x) -> Un_cv (fun N => sum_f_R0 (fun k => a k / INR (fact k)) N) (sin x).
Proof.
  intros a x He Ho. apply (cv_merge _ (B1 x) _ (B1_cvg x)). intros N HN. exists ((N - 1) / 2)%nat. split; [lia|]. destruct (odd_sum a x He Ho ((N - 1) / 2)) as [E0 E1]. destruct (Nat.Even_or_Odd N) as [[h ->]|[h ->]].
  - replace ((2 * h - 1) / 2)%nat with (h - 1)%nat in * by lia. replace (2 * (h - 1) + 2)%nat with (2 * h)%nat in E1 by lia. exact E1.
  - replace ((2 * h + 1 - 1) / 2)%nat with h in * by lia. exact E0.
Qed.

(** *** the matrix of angles *)
Ltac rring := match goal with |- @eq _ ?a ?b => change (@eq R a b) end; cbn [rA radd rmul ropp r0 r1 R_ring]; ring.
Section Angles.
Variables (n : nat) (rd : mat).
Notation ld := (log_ld n rd).
Definition th (a : nat) : R := if (a <? n / 2 * 2)%nat then log_theta rd (a / 2 * 2) else 0.
Lemma ld_even : forall k b, (2 * k + 1 < n)%nat -> ld (2 * k)%nat b = if Nat.eqb b (2 * k + 1) then log_theta rd (2 * k) else 0.
Proof.
  intros k b Hk. unfold log_ld. destruct (Nat.eqb_spec b (2 * k + 1)) as [->|Nb].
  - replace (2 * k / 2)%nat with k by lia. replace ((2 * k + 1) / 2)%nat with k by lia. rewrite Nat.eqb_refl. destruct (Nat.ltb_spec (2 * k) (n / 2 * 2)); [|lia]. cbn [andb]. reflexivity.
  - destruct (Nat.eqb_spec (2 * k / 2) (b / 2)); cbn [andb]; [|reflexivity]. destruct (Nat.ltb_spec (2 * k) (n / 2 * 2)); [|reflexivity]. destruct (Nat.eqb_spec b (2 * k + 1)); [congruence|]. destruct (Nat.eqb_spec (2 * k) (b + 1)); [lia|reflexivity].
Qed.
Lemma ld_odd : forall k b, (2 * k + 1 < n)%nat -> ld (2 * k + 1)%nat b = if Nat.eqb b (2 * k) then - log_theta rd (2 * k) else 0.
Proof.
  intros k b Hk. unfold log_ld. destruct (Nat.eqb_spec b (2 * k)) as [->|Nb].
  - replace (2 * k / 2)%nat with k by lia. replace ((2 * k + 1) / 2)%nat with k by lia. rewrite Nat.eqb_refl. destruct (Nat.ltb_spec (2 * k + 1) (n / 2 * 2)); [|lia]. cbn [andb]. destruct (Nat.eqb_spec (2 * k) (2 * k + 1 + 1)); [lia|]. rewrite Nat.eqb_refl. reflexivity.
  - destruct (Nat.eqb_spec ((2 * k + 1) / 2) (b / 2)); cbn [andb]; [|reflexivity]. destruct (Nat.ltb_spec (2 * k + 1) (n / 2 * 2)); [|reflexivity]. destruct (Nat.eqb_spec b (2 * k + 1 + 1)); [lia|]. destruct (Nat.eqb_spec (2 * k + 1) (b + 1)); [lia|reflexivity].
Qed.
Lemma ld_out : forall a b, (n / 2 * 2 <= a)%nat -> ld a b = 0.
Proof. intros a b Ha. unfold log_ld. destruct (Nat.ltb_spec a (n / 2 * 2)); [lia|]. now rewrite andb_false_r. Qed.
Lemma which : forall a, (a < n)%nat -> (exists k, a = (2 * k)%nat /\ (2 * k + 1 < n)%nat) \/ (exists k, a = (2 * k + 1)%nat /\ (2 * k + 1 < n)%nat) \/ (n / 2 * 2 <= a)%nat.
Proof. intros a Ha. destruct (Nat.lt_ge_cases a (n / 2 * 2)) as [H|H]; [|tauto]. destruct (Nat.Even_or_Odd a) as [[h ->]|[h ->]]; [left|right; left]; exists h; lia. Qed.
Lemma th_even : forall k, (2 * k + 1 < n)%nat -> th (2 * k)%nat = log_theta rd (2 * k).
Proof. intros k Hk. unfold th. destruct (Nat.ltb_spec (2 * k) (n / 2 * 2)); [|lia]. now replace (2 * k / 2 * 2)%nat with (2 * k)%nat by lia. Qed.
Lemma th_odd : forall k, (2 * k + 1 < n)%nat -> th (2 * k + 1)%nat = log_theta rd (2 * k).
Proof. intros k Hk. unfold th. destruct (Nat.ltb_spec (2 * k + 1) (n / 2 * 2)); [|lia]. now replace ((2 * k + 1) / 2 * 2)%nat with (2 * k)%nat by lia. Qed.
Lemma th_out : forall a, (n / 2 * 2 <= a)%nat -> th a = 0.
Proof. intros a Ha. unfold th. destruct (Nat.ltb_spec a (n / 2 * 2)); [lia|reflexivity]. Qed.
Lemma ld_diag : forall a, ld a a = 0.
Proof. intros a. unfold log_ld. destruct (_ && _); [|reflexivity]. destruct (Nat.eqb_spec a (a + 1)); [lia|reflexivity]. Qed.
Lemma ld_row : forall k (f : nat -> R), (2 * k + 1 < n)%nat ->
  bsum (R := R_ring) (seq 0 n) (fun q => ld (2 * k)%nat q * f q) = log_theta rd (2 * k) * f (2 * k + 1)%nat /\
  bsum (R := R_ring) (seq 0 n) (fun q => ld (2 * k + 1)%nat q * f q) = - log_theta rd (2 * k) * f (2 * k)%nat.
Proof.
  intros k f Hk. split.
  - rewrite (bsum_single R_ring _ (seq 0 n) _ (2 * k + 1)%nat (seq_NoDup _ _) ltac:(apply in_seq; lia)); [rewrite ld_even by exact Hk; now rewrite Nat.eqb_refl|]. intros q _ Nq. rewrite ld_even by exact Hk. destruct (Nat.eqb_spec q (2 * k + 1)); [congruence|]. cbn. rring.
  - rewrite (bsum_single R_ring _ (seq 0 n) _ (2 * k)%nat (seq_NoDup _ _) ltac:(apply in_seq; lia)); [rewrite ld_odd by exact Hk; now rewrite Nat.eqb_refl|]. intros q _ Nq. rewrite ld_odd by exact Hk. destruct (Nat.eqb_spec q (2 * k)); [congruence|]. cbn. rring.
Qed.
(* two steps *)
Lemma ld_twice : forall (f : nat -> R) a, (a < n)%nat ->
  bsum (R := R_ring) (seq 0 n) (fun q => ld a q * bsum (R := R_ring) (seq 0 n) (fun p => ld q p * f p)) = - (th a * th a) * f a.
Proof.
  intros f a Ha. destruct (which a Ha) as [(k & -> & Hk)|[(k & -> & Hk)|Ho]].
  - rewrite (proj1 (ld_row k _ Hk)), (proj2 (ld_row k f Hk)), th_even by exact Hk. rring.
  - rewrite (proj2 (ld_row k _ Hk)), (proj1 (ld_row k f Hk)), th_odd by exact Hk. rring.
  - rewrite th_out by exact Ho. transitivity 0; [|rring]. apply (bsum_zero R_ring). intros q _. rewrite ld_out by exact Ho. cbn. rring.
Qed.
Lemma ld_pow : forall a b, (a < n)%nat -> (b < n)%nat -> forall m,
  mpow R_ring n ld (2 * m) a b = (- (th a * th a)) ^ m * (if Nat.eqb a b then 1 else 0) /\ mpow R_ring n ld (2 * m + 1) a b = (- (th a * th a)) ^ m * ld a b.
Proof.
  intros a b Ha Hb m. induction m as [|m [IH0 IH1]].
  - cbn [Nat.mul Nat.add mpow pow]. split; [unfold kd; destruct (Nat.eqb a b); cbn; rring|]. rewrite (mmul_1r R_ring n ld a b Ha Hb). rring.
  - replace (2 * S m)%nat with (S (S (2 * m))) by lia. replace (S (S (2 * m)) + 1)%nat with (S (S (2 * m + 1))) by lia. cbn [mpow pow].
    assert (T : forall A : mat, mmul R_ring n ld (mmul R_ring n ld A) a b = - (th a * th a) * A a b) by (intros A; exact (ld_twice (fun p => A p b) a Ha)).
    rewrite !T. rewrite IH0, IH1. split; rring.
Qed.
Definition rot_of : mat := fun a b => if Nat.eqb a b then cos (th a) else sin (ld a b).
Lemma ld_sq : forall a b, (a < n)%nat -> ld a b = 0 \/ th a * th a = ld a b * ld a b.
Proof.
  intros a b Ha. destruct (which a Ha) as [(k & -> & Hk)|[(k & -> & Hk)|Ho]].
  - rewrite ld_even, th_even by exact Hk. destruct (Nat.eqb _ _); [right|left]; reflexivity.
  - rewrite ld_odd, th_odd by exact Hk. destruct (Nat.eqb _ _); [right; rring|left; reflexivity].
  - left. now apply ld_out.
Qed.
Lemma ld_exp : is_exp n ld rot_of.
Proof.
  intros a b Ha Hb. unfold rot_of. pose proof (ld_pow a b Ha Hb) as P. destruct (Nat.eqb_spec a b) as [<-|N].
  - apply even_cv; intros m; destruct (P m) as [P0 P1]; [rewrite P0; rring|rewrite P1, ld_diag; rring].
  - apply odd_cv; intros m; destruct (P m) as [P0 P1]; [rewrite P0; rring|]. rewrite P1. destruct (ld_sq a b Ha) as [Z|E]; [rewrite Z; rring|now rewrite E].
Qed.
End Angles.

(* the exponential in another basis *)
Lemma exp_conj : forall n (V X E : mat), orth R_ring n V -> is_exp n X E -> is_exp n (mmul R_ring n (mmul R_ring n V X) (mtr R_ring V)) (mmul R_ring n (mmul R_ring n V E) (mtr R_ring V)).
Proof.
  intros n V X E O H i j Hi Hj.
  apply (cv_ext _ (fun N => mmul R_ring n (mmul R_ring n V (fun p q => sum_f_R0 (fun k => mpow R_ring n X k p q / INR (fact k)) N)) (mtr R_ring V) i j)).
  - intros N. assert (St : forall k, mpow R_ring n (mmul R_ring n (mmul R_ring n V X) (mtr R_ring V)) k i j / INR (fact k) = mmul R_ring n (mmul R_ring n V (fun p q => mpow R_ring n X k p q / INR (fact k))) (mtr R_ring V) i j).
    { intros k. rewrite (pow_conj R_ring n V X O k i j Hi Hj). symmetry. exact (lin_scale R_ring n V (mpow R_ring n X k) (mtr R_ring V) (/ INR (fact k)) i j). }
    induction N as [|N IH]; cbn [sum_f_R0]; [apply St|]. rewrite IH, St. symmetry. exact (lin_add R_ring n V (fun p q => sum_f_R0 (fun k => mpow R_ring n X k p q / INR (fact k)) N) (fun p q => mpow R_ring n X (S N) p q / INR (fact (S N))) (mtr R_ring V) i j).
  - unfold mmul at 1 3. apply cv_bsum. intros q Hq. apply in_seq in Hq. apply (CV_mult (fun N => mmul R_ring n V _ i q) (fun _ => mtr R_ring V q j)); [|apply cv_const].
    unfold mmul. apply cv_bsum. intros p Hp. apply in_seq in Hp. apply (CV_mult (fun _ => V i p)); [apply cv_const|]. apply H; lia.
Qed.

(** *** angles from cosine and sine *)
Lemma arctan2_ok : forall c s, c * c + s * s = 1 -> cos (arctan2 s c) = c /\ sin (arctan2 s c) = s.
Proof.
  intros c s H. unfold arctan2. rewrite H, sqrt_1. destruct (Req_EM_T 1 0) as [Z|_]; [lra|]. replace (c / 1) with c by field.
  assert (Hc : -1 <= c <= 1) by nra.
  assert (Q : sqrt (1 - c²) = Rabs s) by (replace (1 - c²) with (s²) by (unfold Rsqr; lra); apply sqrt_Rsqr_abs).
  destruct (Rle_dec 0 s) as [P|P].
  - rewrite cos_acos, sin_acos, Q by exact Hc. split; [reflexivity|now apply Rabs_pos_eq].
  - rewrite cos_neg, sin_neg, cos_acos, sin_acos, Q by exact Hc. split; [reflexivity|]. rewrite Rabs_left by lra. ring.
Qed.

(** *** rows of an orthogonal matrix *)
Notation rsum n f := (bsum (R := R_ring) (seq 0 n) f).
Lemma bsum_le : forall (X : Type) (l : list X) (f g : X -> R), (forall x, In x l -> f x <= g x) -> bsum (R := R_ring) l f <= bsum (R := R_ring) l g.
Proof. intros X l f g H. induction l as [|x l IH]; [apply Rle_refl|]. apply Rplus_le_compat; [apply H; now left|apply IH; intros; apply H; now right]. Qed.
Lemma pick : forall n (x : R) i, (i < n)%nat -> rsum n (fun q => if Nat.eqb q i then x else 0) = x.
Proof. intros n x i Hi. rewrite (bsum_single R_ring _ (seq 0 n) _ i (seq_NoDup _ _) ltac:(apply in_seq; lia)); [now rewrite Nat.eqb_refl|]. intros q _ Nq. destruct (Nat.eqb_spec q i); [congruence|reflexivity]. Qed.
Lemma pick2 : forall n (f : nat -> R) i j, (i < n)%nat -> (j < n)%nat -> i <> j -> rsum n (fun q => (if Nat.eqb q i then f i else 0) + (if Nat.eqb q j then f j else 0)) = f i + f j.
Proof. intros n f i j Hi Hj N. transitivity (rsum n (fun q => if Nat.eqb q i then f i else 0) + rsum n (fun q => if Nat.eqb q j then f j else 0)); [exact (bsum_add R_ring _ (seq 0 n) (fun q => if Nat.eqb q i then f i else 0) (fun q => if Nat.eqb q j then f j else 0))|]. now rewrite !pick. Qed.
Lemma two_le : forall n (f : nat -> R) i j, (i < n)%nat -> (j < n)%nat -> i <> j -> (forall q, 0 <= f q) -> f i + f j <= rsum n f.
Proof. intros n f i j Hi Hj N P. rewrite <- (pick2 n f i j Hi Hj N). apply bsum_le. intros q _. pose proof (P q). destruct (Nat.eqb_spec q i) as [Ei|]; destruct (Nat.eqb_spec q j) as [Ej|]; subst; try congruence; lra. Qed.
Lemma two_eq : forall n (f : nat -> R) i j, (i < n)%nat -> (j < n)%nat -> i <> j -> (forall q, (q < n)%nat -> q <> i -> q <> j -> f q = 0) -> rsum n f = f i + f j.
Proof. intros n f i j Hi Hj N P. rewrite <- (pick2 n f i j Hi Hj N). apply bsum_ext. intros q Hq. apply in_seq in Hq. destruct (Nat.eqb_spec q i) as [Ei|Ni]; destruct (Nat.eqb_spec q j) as [Ej|Nj]; subst; try congruence; [rring|rring|]. rewrite (P q) by (assumption || lia). rring. Qed.

(** *** C79 *)
(* the spectrum of u + u^T for a rotation u: each value twice in a row, a single 2 at the end when n is odd *)
Definition paired (n : nat) (w : nat -> R) : Prop :=
  (forall k, (2 * k + 1 < n)%nat -> w (2 * k)%nat = w (2 * k + 1)%nat) /\ (forall k, n = (2 * k + 1)%nat -> w (2 * k)%nat = 2).
(* no angle other than 0 and pi occurs for two planes *)
Definition simple (n : nat) (w : nat -> R) : Prop :=
  forall i j, (i < n)%nat -> (j < n)%nat -> w i = w j -> w i <> 2 -> w i <> -2 -> (i / 2 = j / 2)%nat.
(* what eigh gives for a symmetric matrix *)
Definition is_eigh (n : nat) (S : mat) (r : list R * mat) : Prop :=
  orth R_ring n (snd r) /\
  meq R_ring n S (mmul R_ring n (mmul R_ring n (snd r) (fun i j => nth i (fst r) 0 * (if Nat.eqb i j then 1 else 0))) (mtr R_ring (snd r))).

Section Block.
Variables (n : nat) (D : mat) (w : nat -> R).
Hypothesis Norm : forall i, (i < n)%nat -> rsum n (fun q => D i q * D i q) = 1.
Hypothesis Sum : forall i j, (i < n)%nat -> (j < n)%nat -> D i j + D j i = w i * (if Nat.eqb i j then 1 else 0).
Hypothesis Com : forall i j, (i < n)%nat -> (j < n)%nat -> D i j * w j = w i * D i j.
Hypothesis Pr : paired n w.
Hypothesis Si : simple n w.
Lemma D_diag : forall i, (i < n)%nat -> D i i = w i / 2.
Proof. intros i Hi. pose proof (Sum i i Hi Hi) as S. rewrite Nat.eqb_refl in S. lra. Qed.
Lemma D_one : forall i j, (i < n)%nat -> (j < n)%nat -> i <> j -> w i = 2 \/ w i = -2 -> D i j = 0.
Proof.
  intros i j Hi Hj N Hw. pose proof (two_le n (fun q => D i q * D i q) i j Hi Hj N ltac:(intros q; nra)) as L. cbv beta in L. rewrite (Norm i Hi) in L.
  rewrite (D_diag i Hi) in L. assert (D i j * D i j <= 0) by (destruct Hw as [E|E]; rewrite E in L; lra). nra.
Qed.
Lemma D_zero : forall i j, (i < n)%nat -> (j < n)%nat -> i <> j -> (i / 2 <> j / 2)%nat -> D i j = 0.
Proof.
  intros i j Hi Hj N Np. destruct (Req_dec (w i) 2) as [E|E2]; [apply D_one; tauto|]. destruct (Req_dec (w i) (-2)) as [E|Em]; [apply D_one; tauto|].
  destruct (Req_dec (w i) (w j)) as [E|E]; [exfalso; apply Np; now apply Si|]. pose proof (Com i j Hi Hj) as C.
  assert (Z : D i j * (w j - w i) = 0) by lra. apply Rmult_integral in Z. destruct Z as [Z|Z]; [exact Z|lra].
Qed.
Lemma D_pair : forall k, (2 * k + 1 < n)%nat ->
  D (2 * k + 1)%nat (2 * k + 1)%nat = D (2 * k)%nat (2 * k)%nat /\ D (2 * k + 1)%nat (2 * k)%nat = - D (2 * k)%nat (2 * k + 1)%nat /\
  D (2 * k)%nat (2 * k)%nat * D (2 * k)%nat (2 * k)%nat + D (2 * k)%nat (2 * k + 1)%nat * D (2 * k)%nat (2 * k + 1)%nat = 1.
Proof.
  intros k Hk. split; [rewrite !D_diag by lia; now rewrite (proj1 Pr k Hk)|]. split.
  - pose proof (Sum (2 * k) (2 * k + 1) ltac:(lia) ltac:(lia)) as S. destruct (Nat.eqb_spec (2 * k) (2 * k + 1)); [lia|]. lra.
  - rewrite <- (Norm (2 * k)%nat ltac:(lia)). symmetry. apply (two_eq n (fun q => D (2 * k)%nat q * D (2 * k)%nat q)); [lia|lia|lia|]. intros q Hq N1 N2. rewrite D_zero by lia. ring.
Qed.
Lemma theta_ok : forall k, (2 * k + 1 < n)%nat -> cos (log_theta D (2 * k)) = D (2 * k)%nat (2 * k)%nat /\ sin (log_theta D (2 * k)) = D (2 * k)%nat (2 * k + 1)%nat.
Proof.
  intros k Hk. destruct (D_pair k Hk) as (P1 & P2 & P3). unfold log_theta. rewrite P1, P2.
  replace ((D (2 * k)%nat (2 * k)%nat + D (2 * k)%nat (2 * k)%nat) / 2) with (D (2 * k)%nat (2 * k)%nat) by field.
  replace ((D (2 * k)%nat (2 * k + 1)%nat - - D (2 * k)%nat (2 * k + 1)%nat) / 2) with (D (2 * k)%nat (2 * k + 1)%nat) by field. now apply arctan2_ok.
Qed.
Lemma rot_of_D : forall a b, (a < n)%nat -> (b < n)%nat -> rot_of n D a b = D a b.
Proof.
  intros a b Ha Hb. unfold rot_of. destruct (which n D a Ha) as [(k & -> & Hk)|[(k & -> & Hk)|Ho]].
  - destruct (theta_ok k Hk) as [T1 T2]. destruct (Nat.eqb_spec (2 * k) b) as [<-|N]; [now rewrite th_even|]. rewrite ld_even by exact Hk.
    destruct (Nat.eqb_spec b (2 * k + 1)) as [->|N']; [exact T2|]. rewrite sin_0. symmetry. apply D_zero; lia.
  - destruct (theta_ok k Hk) as [T1 T2]. destruct (D_pair k Hk) as (P1 & P2 & P3). destruct (Nat.eqb_spec (2 * k + 1) b) as [<-|N]; [rewrite th_odd by exact Hk; now rewrite P1|]. rewrite ld_odd by exact Hk.
    destruct (Nat.eqb_spec b (2 * k)) as [->|N']; [rewrite sin_neg, T2; now rewrite P2|]. rewrite sin_0. symmetry. apply D_zero; lia.
  - assert (W : w a = 2) by (replace a with (2 * (n / 2))%nat by lia; apply (proj2 Pr); lia). destruct (Nat.eqb_spec a b) as [<-|N].
    + rewrite th_out by exact Ho. rewrite cos_0, D_diag, W by exact Ha. lra.
    + rewrite ld_out by exact Ho. rewrite sin_0. symmetry. apply D_one; tauto.
Qed.
End Block.

(* For an orthogonal matrix u with u + u^T diagonalised by eigh, its spectrum paired and no angle repeated, the series of the
   exponential of my_logm(u) converges to u. *)
Theorem c79_logm : forall eigh n u,
  orth R_ring n u ->
  is_eigh n (fun i j => u i j + u j i) (eigh n (fun i j => u i j + u j i)) ->
  paired n (fun i => nth i (fst (eigh n (fun i j => u i j + u j i))) 0) ->
  simple n (fun i => nth i (fst (eigh n (fun i j => u i j + u j i))) 0) ->
  is_exp n (my_logm eigh n u) u.
Proof.
  intros eigh n u Ou [Ov Hd] Pr Si. set (r := eigh n (fun i j => u i j + u j i)) in *. set (V := snd r) in *. set (w := fun i => nth i (fst r) 0) in *.
  assert (Hw : meq R_ring n (fun i j => radd R_ring (u i j) (u j i)) (mmul R_ring n (mmul R_ring n V (fun i j => rmul R_ring (w i) (kd R_ring i j))) (mtr R_ring V))) by exact Hd.
  set (D := mmul R_ring n (mmul R_ring n (mtr R_ring V) u) V).
  assert (B : forall a b, (a < n)%nat -> (b < n)%nat -> rot_of n D a b = D a b).
  { apply (rot_of_D n D w); [| |intros i j Hi Hj; exact (commute R_ring n V u Ov Ou w Hw i j Hi Hj)|exact Pr|exact Si].
    - intros i Hi. pose proof (proj2 (conj_orth R_ring n V u Ov Ou) i i Hi Hi) as Q. unfold kd in Q. rewrite Nat.eqb_refl in Q. exact Q.
    - intros i j Hi Hj. exact (sum_D R_ring n V u Ov w Hw i j Hi Hj). }
  assert (X : is_exp n (log_ld n D) D) by (intros i j Hi Hj; rewrite <- (B i j Hi Hj); now apply ld_exp).
  pose proof (exp_conj n V (log_ld n D) D Ov X) as Y. intros i j Hi Hj. rewrite <- (back R_ring n V u Ov i j Hi Hj). exact (Y i j Hi Hj).
Qed.
Print Assumptions c79_logm.

(* a quarter turn in the first plane, third direction fixed *)
Definition turn3 : mat := fun i j => match i, j with 0%nat, 1%nat => 1 | 1%nat, 0%nat => -1 | 2%nat, 2%nat => 1 | _, _ => 0 end.
Definition eigh3 (n : nat) (_ : mat) : list R * mat := ([0; 0; 2], kd R_ring).
Ltac small3 := let i := fresh "i" in let j := fresh "j" in intros i j ?Hi ?Hj; do 3 (destruct i as [|i]; [do 3 (destruct j as [|j]; [cbn; try lra; try rring|]); lia|]); lia.
Example ex_logm : is_exp 3 (my_logm eigh3 3 turn3) turn3.
Proof.
  apply c79_logm.
  - split; small3.
  - split; [split; small3|small3].
  - split; intros k Hk; [assert (k = 0%nat) by lia|assert (k = 1%nat) by lia]; subst k; reflexivity.
  - intros i j Hi Hj E N1 N2. do 3 (destruct i as [|i]; [do 3 (destruct j as [|j]; [cbn in *; try reflexivity; try lra|]); lia|]); lia.
Qed.

(* The pair of planes is not found when an angle occurs twice: the double quarter turn (0, 1; -1, 0) of two-dimensional blocks has
   u + u^T = 0, for which every basis is one of eigenvectors; with the standard basis my_logm gives 0, whose exponential is 1. *)
Definition turn4 : mat := fun i j => match i, j with 0%nat, 2%nat => 1 | 1%nat, 3%nat => 1 | 2%nat, 0%nat => -1 | 3%nat, 1%nat => -1 | _, _ => 0 end.
Definition eigh4 (n : nat) (_ : mat) : list R * mat := ([0; 0; 0; 0], kd R_ring).
Ltac small4 := let i := fresh "i" in let j := fresh "j" in intros i j ?Hi ?Hj; do 4 (destruct i as [|i]; [do 4 (destruct j as [|j]; [cbn; try lra; try rring|]); lia|]); lia.
Theorem c79_refuted : exists eigh n u,
  orth R_ring n u /\ is_eigh n (fun i j => u i j + u j i) (eigh n (fun i j => u i j + u j i)) /\
  paired n (fun i => nth i (fst (eigh n (fun i j => u i j + u j i))) 0) /\ ~ is_exp n (my_logm eigh n u) u.
Proof.
  exists eigh4, 4%nat, turn4. split; [split; small4|]. split; [split; [split; small4|small4]|]. split.
  - split; intros k Hk; [|lia]. assert (H : k = 0%nat \/ k = 1%nat) by lia. destruct H; subst k; reflexivity.
  - intros H. assert (T : log_theta (log_rd eigh4 4 turn4) 0 = 0 /\ log_theta (log_rd eigh4 4 turn4) 2 = 0).
    { assert (A : arctan2 0 0 = 0) by (unfold arctan2; replace (0 * 0 + 0 * 0) with 0 by ring; rewrite sqrt_0; destruct (Req_EM_T 0 0); [reflexivity|lra]).
      split; unfold log_theta; [replace (_ / 2) with 0 by (cbn; lra)|replace (_ / 2) with 0 by (cbn; lra)]; match goal with |- arctan2 ?a ?b = 0 => replace b with 0 by (cbn; lra); replace a with 0 by (cbn; lra) end; exact A. }
    destruct T as [T0 T2].
    assert (Z : meq R_ring 4 (log_ld 4 (log_rd eigh4 4 turn4)) (fun _ _ => 0)).
    { intros a b Ha Hb. destruct (which 4 turn4 a Ha) as [(k & -> & Hk)|[(k & -> & Hk)|Ho]]; [rewrite ld_even by exact Hk|rewrite ld_odd by exact Hk|now apply ld_out];
        (assert (K : k = 0%nat \/ k = 1%nat) by lia; destruct K; subst k; cbn [Nat.mul Nat.add]; rewrite ?T0, ?T2; destruct (Nat.eqb _ _); try reflexivity; apply Ropp_0). }
    assert (P : meq R_ring 4 (my_logm eigh4 4 turn4) (fun _ _ => 0)).
    { unfold my_logm. rewrite Z. intros a b Ha Hb. unfold mmul. apply (bsum_zero R_ring). intros q _. rewrite (bsum_zero R_ring); [rring|]. intros p _. rring. }
    assert (Q : forall k, mpow R_ring 4 (my_logm eigh4 4 turn4) k 0%nat 2%nat = 0).
    { intros [|k]; [reflexivity|]. cbn [mpow]. rewrite (mmul_mor R_ring 4 _ _ P _ _ (fun _ _ _ _ => eq_refl) 0%nat 2%nat ltac:(lia) ltac:(lia)). apply (bsum_zero R_ring). intros q _. rring. }
    pose proof (H 0%nat 2%nat ltac:(lia) ltac:(lia)) as C. assert (C0 : Un_cv (fun N => sum_f_R0 (fun k => mpow R_ring 4 (my_logm eigh4 4 turn4) k 0%nat 2%nat / INR (fact k)) N) 0).
    { apply (cv_ext _ (fun _ => 0)); [|apply cv_const]. intros N. induction N as [|N IH]; cbn [sum_f_R0]; rewrite ?IH, Q; unfold Rdiv; ring. }
    pose proof (UL_sequence _ _ _ C C0) as U. cbn in U. lra.
Qed.
Print Assumptions c79_refuted.
