(** C66: the local Green's function solver returns (H + omega + i eta)^-1 b to the accuracy of the threshold. *)
From Coq Require Import ZArith Bool List Lia Ring QArith Qcanon.
From Verif Require Import IndexLib RingLib OrdLib LinalgModel LinalgProofs LinalgProps GreenModel.
Import ListNotations.
Open Scope nat_scope.

Section C66.
Variable K : OField.
Add Ring KSR : (rth K).
Notation "0'" := (r0 K). Notation "1'" := (r1 K). Notation "-'" := (ropp K).
Infix "+'" := (radd K) (at level 50, left associativity). Infix "*'" := (rmul K) (at level 40, left associativity). Infix "-^" := (rsub K) (at level 50, left associativity).
Notation vec := (list K).
Notation dot := (dot K). Notation vadd := (vadd K). Notation vscale := (vscale K).

(** ** Cauchy-Schwarz *)
Lemma pos_cancel : forall a b : K, olt 0' a -> ole 0' (a *' b) -> ole 0' b.
Proof.
  intros a b A B. destruct (ole_or_olt K 0' b) as [|N]; [assumption|]. exfalso. assert (P : ole 0' (-' b)).
  { apply olt_ole in N. apply (ole_sub K) in N. replace (-' b) with (0' -^ b) by ring. exact N. }
  pose proof (oleb_mul K _ _ (olt_ole K _ _ A) P) as Q. assert (E : a *' b = 0').
  { destruct (ole_eq_lt K _ _ B) as [E|L]; [now symmetry|]. exfalso. apply (olt_sub K) in L. replace (a *' b -^ 0') with (a *' b) in L by ring. apply (olt_irrefl K 0'). apply (olt_le_trans K _ _ _ L). apply (ole_sub K). replace (0' -^ a *' b) with (a *' -' b) by ring. exact Q. }
  assert (Na : a <> 0') by (intros ->; exact (olt_irrefl K _ A)). rewrite (mul_cancel K a b Na E) in N. exact (olt_irrefl K _ N).
Qed.
Lemma dot_pos : forall u, ole 0' (dot u u).
Proof. intros u. unfold LinalgModel.dot. apply bsum_ole0. intros [x y] I. assert (x = y) as <- by (clear - I; induction u as [|a u IH]; [destruct I|]; destruct I as [E|I]; [congruence|auto]). apply ole_sq. Qed.
Lemma cauchy : forall n u v, length u = n -> length v = n -> ole (dot u v *' dot u v) (dot u u *' dot v v).
Proof.
  intros n u v Lu Lv. set (a := dot u u). set (c := dot u v).
  assert (H : ole 0' (a *' (a *' dot v v -^ c *' c))).
  { pose proof (dot_pos (vadd (vscale a v) (vscale (-' c) u))) as H. rewrite dot_add_l, !dot_add_r, !dot_scale_l, !dot_scale_r in H by (rewrite !(vscale_len K n); auto). fold a in H. rewrite (dot_sym K v u) in H. fold c in H.
    eapply eq_ind with (P := fun z => ole 0' z); [exact H|]. ring. }
  destruct (ole_eq_lt K _ _ (dot_pos u)) as [E|P].
  - assert (C0 : c = 0').
    { assert (H2 : forall s, ole 0' (s *' (s *' dot v v) +' (1' +' 1') *' s *' c)).
      { intros s. pose proof (dot_pos (vadd (vscale s v) u)) as X. rewrite dot_add_l, !dot_add_r, !dot_scale_l, !dot_scale_r in X by (rewrite ?(vscale_len K n); auto). rewrite (dot_sym K v u), <- E in X. fold c in X.
        eapply eq_ind with (P := fun z => ole 0' z); [exact X|]. ring. }
      (* s = - c / (1 + |v|^2) *)
      set (d := dot v v) in *. assert (D1 : olt 0' (1' +' d)).
      { apply (olt_le_trans K _ 1'); [apply one_pos|]. apply (ole_sub K). replace (1' +' d -^ 1') with d by ring. apply dot_pos. }
      assert (Nd : 1' +' d <> 0') by (intros Z; rewrite Z in D1; exact (olt_irrefl K _ D1)). pose proof (finv_r K _ Nd) as I. set (w := finv K (1' +' d)) in *.
      pose proof (H2 (-' c *' w)) as X. assert (Y : ole 0' (((1' +' d) *' (1' +' d)) *' (-' c *' w *' (-' c *' w *' d) +' (1' +' 1') *' (-' c *' w) *' c))) by (apply oleb_mul; [apply ole_sq|exact X]).
      replace (((1' +' d) *' (1' +' d)) *' (-' c *' w *' (-' c *' w *' d) +' (1' +' 1') *' (-' c *' w) *' c)) with (-' (c *' c *' (1' +' 1' +' d))) in Y.
      - assert (Z : c *' c *' (1' +' 1' +' d) = 0').
        { assert (P2 : ole 0' (c *' c *' (1' +' 1' +' d))). { apply oleb_mul; [apply ole_sq|]. replace (1' +' 1' +' d) with (1' +' (1' +' d)) by ring. apply (ole_trans K _ (1' +' 0')); [replace (1' +' 0') with 1' by ring; apply olt_ole, one_pos|]. apply ole_add_l. now apply olt_ole. }
          destruct (ole_eq_lt K _ _ P2) as [Z|L]; [now symmetry|]. exfalso. apply (olt_irrefl K 0'). apply (olt_le_trans K _ _ _ L). apply (ole_sub K). replace (0' -^ c *' c *' (1' +' 1' +' d)) with (-' (c *' c *' (1' +' 1' +' d))) by ring. exact Y. }
        assert (N2 : 1' +' 1' +' d <> 0').
        { intros Q. assert (B : olt 0' (1' +' 1' +' d)). { apply (olt_le_trans K _ _ _ D1). apply (ole_sub K). replace (1' +' 1' +' d -^ (1' +' d)) with 1' by ring. apply olt_ole, one_pos. } rewrite Q in B. exact (olt_irrefl K _ B). }
        assert (Cc : c *' c = 0') by (apply (mul_cancel K (1' +' 1' +' d)); [exact N2|rewrite <- Z; ring]).
        destruct (oeqb_spec K c 0') as [|Nc]; [assumption|]. exact (mul_cancel K c c Nc Cc).
      - replace (((1' +' d) *' (1' +' d)) *' (-' c *' w *' (-' c *' w *' d) +' (1' +' 1') *' (-' c *' w) *' c)) with (((1' +' d) *' w) *' ((1' +' d) *' w) *' (c *' c *' d) -^ (1' +' 1') *' (1' +' d) *' ((1' +' d) *' w) *' (c *' c)) by ring. rewrite I. ring. }
    rewrite C0. replace (0' *' 0') with 0' by ring. apply oleb_mul; apply dot_pos.
  - apply (ole_sub K). exact (pos_cancel _ _ P H).
Qed.

(** ** the functor *)
Section Functor.
Variables (n : nat) (M : nat -> nat -> K) (H : vec -> vec).
Hypothesis HM : matrix_of K n M H.
Variables omega eta : K.
Let B (v : vec) : vec := vadd (H v) (vscale omega v).
Lemma B_shift : forall v, length v = n -> shift K omega (H v) v = B v /\ length (B v) = n.
Proof.
  intros v L. destruct (HM v L) as [Lh _]. assert (Lb : length (B v) = n) by (apply vadd_len; [exact Lh|now apply vscale_len]). split; [|exact Lb]. unfold shift. destruct (oeqb_spec K omega 0') as [->|]; [|reflexivity].
  apply vec_ext; [congruence|]. intros i Hi. unfold B. rewrite nth_vadd, nth_vscale by (rewrite (vscale_len K n); congruence). ring.
Qed.
Lemma B_linear : linear K n B.
Proof.
  destruct (A_linear K n M H HM) as (L & Ad & Sc). split; [intros v Lv; now apply B_shift|]. split.
  - intros u v Lu Lv. unfold B. rewrite Ad by assumption. apply vec_ext.
    { rewrite !(vadd_len K n); auto using vadd_len, vscale_len. }
    intros i _. rewrite !nth_vadd by (rewrite ?(vadd_len K n), ?(vscale_len K n), ?L; auto using vadd_len, vscale_len). rewrite !nth_vscale, nth_vadd by congruence. ring.
  - intros c u Lu. unfold B. rewrite Sc by assumption. apply vec_ext.
    { rewrite ?(vadd_len K n), ?(vscale_len K n); auto using vadd_len, vscale_len. }
    intros i _. rewrite nth_vscale, !nth_vadd, !nth_vscale by (rewrite ?(vscale_len K n), ?L; auto using vadd_len, vscale_len). ring.
Qed.
Let A := gf_apply K H omega eta.
Lemma A_eq : forall v, length v = n -> A v = vadd (B (B v)) (vscale (eta *' eta) v) /\ length (A v) = n.
Proof.
  intros v L. destruct (B_shift v L) as [E Lb]. destruct (B_shift (B v) Lb) as [E2 Lb2]. unfold A, gf_apply. rewrite E. cbv zeta. rewrite E2. assert (Lr : length (vadd (B (B v)) (vscale (eta *' eta) v)) = n) by (apply vadd_len; auto using vscale_len).
  destruct (oeqb_spec K eta 0') as [Ez|]; [|auto]. split; [|exact Lb2]. apply vec_ext; [congruence|]. intros i _. rewrite nth_vadd, nth_vscale, Ez by (rewrite (vscale_len K n); congruence). ring.
Qed.
(* its matrix *)
Definition shifted (i j : nat) : K := M i j +' (if Nat.eqb i j then omega else 0').
Definition squared (i j : nat) : K := bsum (seq 0 n) (fun k => shifted i k *' shifted k j) +' (if Nat.eqb i j then eta *' eta else 0').
Lemma delta_sum : forall (f : nat -> K) c i, i < n -> bsum (seq 0 n) (fun j => (if Nat.eqb i j then c else 0') *' f j) = c *' f i.
Proof.
  intros f c i Hi. assert (X : forall m a, a <= i < a + m -> bsum (seq a m) (fun j => (if Nat.eqb i j then c else 0') *' f j) = c *' f i).
  { induction m as [|m IH]; intros a Ha; [lia|]. cbn [seq]. rewrite bsum_cons. destruct (Nat.eqb_spec i a) as [->|N].
    - rewrite bsum_zero; [ring|]. intros x Ix. apply in_seq in Ix. destruct (Nat.eqb_spec a x); [lia|ring].
    - rewrite IH by lia. ring. }
  apply X. lia.
Qed.
Lemma B_matrix : matrix_of K n shifted B.
Proof.
  intros v L. split; [now apply B_shift|]. intros i Hi. destruct (HM v L) as [Lh Eh]. unfold B. rewrite nth_vadd, nth_vscale, Eh by (rewrite ?(vscale_len K n); congruence).
  rewrite <- (delta_sum (fun j => nth j v 0') omega i Hi), <- bsum_add. apply bsum_ext. intros j _. unfold shifted. ring.
Qed.
Lemma A_matrix : matrix_of K n squared A.
Proof.
  intros v L. destruct (A_eq v L) as [E La]. split; [exact La|]. intros i Hi. rewrite E. destruct (B_matrix v L) as [Lb Eb]. destruct (B_matrix (B v) Lb) as [Lb2 Eb2].
  rewrite nth_vadd, nth_vscale, Eb2 by (rewrite ?(vscale_len K n); congruence). rewrite <- (delta_sum (fun j => nth j v 0') (eta *' eta) i Hi).
  rewrite (bsum_ext K _ (seq 0 n) _ (fun k => bsum (seq 0 n) (fun j => shifted i k *' shifted k j *' nth j v 0'))).
  - rewrite bsum_swap, <- bsum_add. apply bsum_ext. intros j _. unfold squared.
    replace ((bsum (seq 0 n) (fun k => shifted i k *' shifted k j) +' (if Nat.eqb i j then eta *' eta else 0')) *' nth j v 0') with (nth j v 0' *' bsum (seq 0 n) (fun k => shifted i k *' shifted k j) +' (if Nat.eqb i j then eta *' eta else 0') *' nth j v 0') by ring.
    f_equal. rewrite <- bsum_mull. apply bsum_ext. intros; ring.
  - intros k Ik. apply in_seq in Ik. rewrite Eb by lia. rewrite <- bsum_mull. apply bsum_ext. intros; ring.
Qed.
Hypothesis Sy : sym_matrix K n M.
Lemma shifted_sym : sym_matrix K n shifted.
Proof. intros i j Hi Hj. unfold shifted. rewrite (Sy i j Hi Hj), (Nat.eqb_sym j i). reflexivity. Qed.
Lemma squared_sym : sym_matrix K n squared.
Proof. intros i j Hi Hj. unfold squared. rewrite (Nat.eqb_sym j i). f_equal. apply bsum_ext. intros k Ik. apply in_seq in Ik. rewrite (shifted_sym i k), (shifted_sym k j) by lia. ring. Qed.
Lemma A_form : forall v, length v = n -> dot v (A v) = dot (B v) (B v) +' eta *' eta *' dot v v.
Proof.
  intros v L. destruct (A_eq v L) as [E _]. destruct (B_shift v L) as [_ Lb]. destruct (B_shift (B v) Lb) as [_ Lb2]. rewrite E, dot_add_r, dot_scale_r by (rewrite (vscale_len K n); congruence). f_equal.
  symmetry. apply (A_symmetric K n shifted B B_matrix shifted_sym v (B v) L Lb).
Qed.
Lemma squared_pos : eta <> 0' -> pos_matrix K n squared.
Proof.
  intros Ne v L (i & Hi & Nv). rewrite <- (A_quad K n squared A A_matrix v v L L), (A_form v L).
  assert (P : olt 0' (eta *' eta *' dot v v)).
  { assert (Q : ole 0' (eta *' eta *' dot v v)) by (apply oleb_mul; [apply ole_sq|apply dot_pos]). destruct (ole_eq_lt K _ _ Q) as [E|]; [|assumption]. exfalso. symmetry in E.
    assert (E2 : eta *' dot v v = 0') by (apply (mul_cancel K eta); [exact Ne|rewrite <- E; ring]). apply (mul_cancel K eta _ Ne) in E2.
    rewrite (inner_dot K n) in E2 by assumption. unfold inner in E2. assert (I : In i (seq 0 n)) by (apply in_seq; lia).
    assert (Z : ole (nth i v 0' *' nth i v 0') 0').
    { rewrite <- E2 at 3. apply in_split in I. destruct I as (l1 & l2 & ->). rewrite bsum_app, bsum_cons. apply (ole_sub K).
      replace (_ -^ _) with (bsum l1 (fun i => nth i v 0' *' nth i v 0') +' bsum l2 (fun i => nth i v 0' *' nth i v 0')) by ring. replace 0' with (0' +' 0') by ring. apply ole_add2; apply bsum_ole0; intros; apply ole_sq. }
    destruct (ole_eq_lt K _ _ (ole_sq K (nth i v 0'))) as [Z2|Z2]; [|exact (olt_irrefl K _ (olt_le_trans K _ _ _ Z2 Z))]. symmetry in Z2. exact (Nv (mul_cancel K _ _ Nv Z2)). }
  apply (olt_le_trans K _ _ _ P). apply (ole_sub K). replace (_ -^ _) with (dot (B v) (B v)) by ring. apply dot_pos.
Qed.
(* the distance of two solutions *)
Lemma stable : forall y, length y = n -> eta <> 0' -> ole (eta *' eta *' (eta *' eta) *' dot y y) (dot (A y) (A y)) /\ ole (eta *' eta *' dot (B y) (B y)) (dot (A y) (A y)).
Proof.
  intros y L Ne. destruct (A_eq y L) as [_ La]. pose proof (A_form y L) as F. pose proof (cauchy n y (A y) L La) as C. set (q := dot y y) in *. set (w := dot (B y) (B y)) in *. set (e := dot (A y) (A y)) in *. rewrite F in C.
  assert (Pq : ole 0' q) by apply dot_pos. assert (Pw : ole 0' w) by apply dot_pos. assert (Pe : ole 0' e) by apply dot_pos. set (h := eta *' eta) in *. assert (Ph : ole 0' h) by apply ole_sq. set (s := w +' h *' q) in *.
  assert (Phq : ole 0' (h *' q)) by now apply oleb_mul. assert (Hs : ole (h *' q) s) by (apply (ole_sub K); unfold s; replace (w +' h *' q -^ h *' q) with w by ring; exact Pw). assert (Ps : ole 0' s) by (exact (ole_trans K _ _ _ Phq Hs)).
  assert (G : ole (h *' h *' q) e).
  { destruct (ole_eq_lt K _ _ Pq) as [E|P]; [rewrite <- E; replace (h *' h *' 0') with 0' by ring; exact Pe|]. apply (ole_sub K), (pos_cancel q _ P). replace (q *' (e -^ h *' h *' q)) with (q *' e -^ (h *' q) *' (h *' q)) by ring.
    apply (proj1 (ole_sub K _ _)). apply (ole_trans K _ (s *' s)); [now apply ole_mul2|exact C]. }
  split; [exact G|]. apply (ole_trans K _ (h *' s)).
  - apply (ole_sub K). unfold s. replace (h *' (w +' h *' q) -^ h *' w) with (h *' (h *' q)) by ring. now apply oleb_mul.
  - apply (ole_sq_inv K _ _ Pe). apply (ole_trans K _ (h *' h *' (q *' e))).
    + apply (ole_sub K). replace (h *' h *' (q *' e) -^ h *' s *' (h *' s)) with (h *' h *' (q *' e -^ s *' s)) by ring. apply oleb_mul; [apply ole_sq|]. now apply (proj1 (ole_sub K _ _)).
    + apply (ole_sub K). replace (e *' e -^ h *' h *' (q *' e)) with ((e -^ h *' h *' q) *' e) by ring. apply oleb_mul; [now apply (proj1 (ole_sub K _ _))|exact Pe].
Qed.
End Functor.

Lemma mul_cancel_eq : forall a x y : K, a <> 0' -> a *' x = a *' y -> x = y.
Proof. intros a x y N E. assert (Z : x -^ y = 0') by (apply (mul_cancel K a); [exact N|replace (a *' (x -^ y)) with (a *' x -^ a *' y) by ring; rewrite E; ring]). replace x with (y +' (x -^ y)) by ring. rewrite Z. ring. Qed.
(** ** Specification *)
(* component i of (H + omega) v for the matrix M of H *)
Definition resolvent (n : nat) (M : nat -> nat -> K) (omega : K) (v : vec) (i : nat) : K := bsum (seq 0 n) (fun j => M i j *' nth j v 0') +' omega *' nth i v 0'.
(* (H + omega + i eta) (re + i im) = b *)
Definition exact_solution (n : nat) (M : nat -> nat -> K) (omega eta : K) (b re im : vec) : Prop :=
  length re = n /\ length im = n /\ forall i, i < n -> resolvent n M omega re i -^ eta *' nth i im 0' = nth i b 0' /\ resolvent n M omega im i +' eta *' nth i re 0' = 0'.

Section Thm.
Variables (n : nat) (M : nat -> nat -> K) (H : vec -> vec).
Variables (hdiag : vec) (omega eta eps c t : K) (max_iter : nat) (b x0 : vec).
Hypothesis HM : matrix_of K n M H.
Hypothesis Ne : eta <> 0'.
Hypothesis Ld : length hdiag = n.
Hypothesis Lb : length b = n.
Hypothesis L0 : length x0 = n.
(* the diagonal preconditioner is used on every component and bounded by c *)
Hypothesis He : ole 0' eps.
Hypothesis Hc : olt 0' c.
Hypothesis Hd : forall d, In d hdiag -> olt eps ((d +' omega) *' (d +' omega) +' eta *' eta) /\ ole ((d +' omega) *' (d +' omega) +' eta *' eta) c.

Lemma resolvent_B : forall v i, length v = n -> i < n -> nth i (vadd (H v) (vscale omega v)) 0' = resolvent n M omega v i.
Proof. intros v i L Hi. destruct (HM v L) as [Lh Eh]. rewrite nth_vadd, nth_vscale, Eh by (rewrite ?(vscale_len K n); congruence). reflexivity. Qed.
Lemma solve_inv : forall g, solve_gf K H hdiag omega eta eps max_iter t b x0 = Done g ->
  length (g_x K g) = n /\ g_r K g = vscale (finv K (-' eta)) (vadd (H (g_x K g)) (vscale omega (g_x K g))) /\ olt (dist2 K n (vscale (-' eta) b) (gf_apply K H omega eta (g_x K g))) (c *' (t *' t)) /\
  g_re K g = inner K n (g_r K g) b /\ g_im K g = inner K n (g_x K g) b.
Proof.
  intros g E. unfold solve_gf in E. destruct (conjugate_gradient K eps (gf_apply K H omega eta) (Some (gf_diag K hdiag omega eta)) x0 (vscale (-' eta) b) max_iter t) as [[[iw x] ncg]| |] eqn:Ec; try discriminate.
  destruct (c35_preconditioned K n (squared n M omega eta) (gf_apply K H omega eta) eps (gf_diag K hdiag omega eta) c x0 (vscale (-' eta) b) max_iter t iw x ncg) as (Lx & Ei & D); try assumption.
  { now apply A_matrix. } { unfold gf_diag. now rewrite map_length. } { now apply vscale_len. }
  { intros i Hi. unfold gf_diag. set (f := fun d => (d +' omega) *' (d +' omega) +' eta *' eta). rewrite (nth_indep _ 0' (f 0')) by (rewrite map_length; lia). rewrite map_nth. apply Hd. apply nth_In. lia. }
  assert (Nn : -' eta <> 0') by (intros Z; apply Ne; replace eta with (-' (-' eta)) by ring; rewrite Z; ring).
  destruct (B_shift n M H HM omega x Lx) as [Es Lbx]. assert (Lr : length (real_part K H omega eta x) = n) by (unfold real_part; rewrite Es; now apply vscale_len).
  destruct (kdiv K (dot (real_part K H omega eta x) (vscale (-' eta) b)) (-' eta)) as [rw|] eqn:E1; [|discriminate]. destruct (kdiv K iw (-' eta)) as [iw'|] eqn:E2; [|discriminate]. injection E as <-. cbn [g_x g_r g_re g_im].
  split; [exact Lx|]. split; [unfold real_part; now rewrite Es|]. split; [exact D|].
  apply kdiv_some in E1, E2. destruct E1 as [_ E1], E2 as [_ E2]. rewrite Ei, <- (inner_dot K n), dot_scale_r in E2 by (auto using vscale_len). rewrite dot_scale_r in E1.
  split; rewrite <- (inner_dot K n) by assumption.
  - apply mul_cancel_eq with (-' eta); [exact Nn|]. rewrite <- E1. ring.
  - apply mul_cancel_eq with (-' eta); [exact Nn|]. rewrite <- E2. ring.
Qed.

(** C66: the returned states solve (H + omega) im + eta re = 0 exactly and (H + omega) re - eta im = b up to the threshold of the
    conjugate gradient; the returned number is the overlap of both with b *)
Theorem c66_solution : forall g, solve_gf K H hdiag omega eta eps max_iter t b x0 = Done g ->
  length (g_r K g) = n /\ length (g_x K g) = n /\
  (forall i, i < n -> resolvent n M omega (g_x K g) i +' eta *' nth i (g_r K g) 0' = 0') /\
  olt (eta *' eta *' bsum (seq 0 n) (fun i => let d := nth i b 0' -^ (resolvent n M omega (g_r K g) i -^ eta *' nth i (g_x K g) 0') in d *' d)) (c *' (t *' t)) /\
  g_re K g = inner K n (g_r K g) b /\ g_im K g = inner K n (g_x K g) b.
Proof.
  intros g E. destruct (solve_inv g E) as (Lx & Er & D & Ere & Eim). set (x := g_x K g) in *. set (r := g_r K g) in *.
  destruct (B_shift n M H HM omega x Lx) as [_ Lbx]. assert (Lr : length r = n) by (rewrite Er; now apply vscale_len).
  assert (Nn : -' eta <> 0') by (intros Z; apply Ne; replace eta with (-' (-' eta)) by ring; rewrite Z; ring).
  assert (Nr : forall i, i < n -> nth i r 0' = finv K (-' eta) *' resolvent n M omega x i) by (intros i Hi; rewrite Er, nth_vscale, resolvent_B by assumption; reflexivity).
  split; [exact Lr|]. split; [exact Lx|]. split.
  { intros i Hi. rewrite Nr by exact Hi. replace (eta *' (finv K (-' eta) *' resolvent n M omega x i)) with (-' ((-' eta *' finv K (-' eta)) *' resolvent n M omega x i)) by ring. rewrite (finv_r K _ Nn). ring. }
  split; [|split; assumption]. eapply eq_ind with (P := fun z => olt z _); [exact D|]. unfold dist2. rewrite <- bsum_mull. apply bsum_ext. intros i Ii. apply in_seq in Ii. assert (Hi : i < n) by lia. cbv zeta.
  rewrite nth_vscale. destruct (A_eq n M H HM omega eta x Lx) as [Ea _]. rewrite Ea. clear Ea. destruct (B_shift n M H HM omega _ Lbx) as [_ Lb2].
  rewrite nth_vadd, nth_vscale by (rewrite (vscale_len K n); congruence). rewrite resolvent_B by assumption.
  assert (Rr : resolvent n M omega (vadd (H x) (vscale omega x)) i = -' eta *' resolvent n M omega r i).
  { unfold resolvent at 1 2. rewrite (bsum_ext K _ (seq 0 n) _ (fun j => -' eta *' (M i j *' nth j r 0'))).
    - rewrite bsum_mull, Nr, resolvent_B by assumption. transitivity (-' eta *' bsum (seq 0 n) (fun j => M i j *' nth j r 0') +' omega *' ((-' eta *' finv K (-' eta)) *' resolvent n M omega x i)); [rewrite (finv_r K _ Nn)|]; ring.
    - intros j Ij. apply in_seq in Ij. rewrite Nr, resolvent_B by (assumption || lia). transitivity (M i j *' ((-' eta *' finv K (-' eta)) *' resolvent n M omega x j)); [rewrite (finv_r K _ Nn)|]; ring. }
  rewrite Rr. ring.
Qed.

Hypothesis Sy : sym_matrix K n M.
(** C66: distance to the exact Green's function *)
Theorem c66_accuracy : forall g re im, solve_gf K H hdiag omega eta eps max_iter t b x0 = Done g -> exact_solution n M omega eta b re im ->
  let h := eta *' eta *' (eta *' eta) in
  olt (h *' dist2 K n (g_r K g) re) (c *' (t *' t)) /\ olt (h *' dist2 K n (g_x K g) im) (c *' (t *' t)) /\
  ole (h *' ((g_re K g -^ inner K n re b) *' (g_re K g -^ inner K n re b))) (c *' (t *' t) *' inner K n b b) /\
  ole (h *' ((g_im K g -^ inner K n im b) *' (g_im K g -^ inner K n im b))) (c *' (t *' t) *' inner K n b b).
Proof.
  intros g re im E (Lre & Lim & Ex) h. destruct (solve_inv g E) as (Lx & Er & D & Ere & Eim). set (x := g_x K g) in *. set (r := g_r K g) in *.
  destruct (B_shift n M H HM omega x Lx) as [_ Lbx]. assert (Lr : length r = n) by (rewrite Er; now apply vscale_len).
  assert (Nn : -' eta <> 0') by (intros Z; apply Ne; replace eta with (-' (-' eta)) by ring; rewrite Z; ring).
  set (B := fun v => vadd (H v) (vscale omega v)) in *. pose proof (B_linear n M H HM omega) as BL. change (linear K n B) in BL. destruct BL as (BLl & BLa & BLs).
  set (A := gf_apply K H omega eta) in *. pose proof (A_linear K n _ A (A_matrix n M H HM omega eta)) as (ALl & ALa & ALs).
  set (diff := fun u v => vadd u (vscale (-' 1') v)). assert (Ldf : forall u v, length u = n -> length v = n -> length (diff u v) = n) by (intros; apply vadd_len; auto using vscale_len).
  assert (Dd : forall u v, length u = n -> length v = n -> dist2 K n u v = dot (diff u v) (diff u v)).
  { intros u v Lu Lv. rewrite (inner_dot K n) by auto. apply bsum_ext. intros i _. unfold diff. rewrite nth_vadd, nth_vscale by (rewrite (vscale_len K n); congruence). ring. }
  assert (Bim : B im = vscale (-' eta) re).
  { apply vec_ext; [rewrite BLl, (vscale_len K n); auto|]. intros i Hi. rewrite BLl in Hi by exact Lim. unfold B. rewrite resolvent_B, nth_vscale by assumption. destruct (Ex i Hi) as [_ X]. replace (resolvent n M omega im i) with (resolvent n M omega im i +' eta *' nth i re 0' -^ eta *' nth i re 0') by ring. rewrite X. ring. }
  assert (Aim : A im = vscale (-' eta) b).
  { apply vec_ext; [rewrite ALl, (vscale_len K n); auto|]. intros i Hi. rewrite ALl in Hi by exact Lim. destruct (A_eq n M H HM omega eta im Lim) as [Ea _]. fold A in Ea. change (A im = vadd (B (B im)) (vscale (eta *' eta) im)) in Ea.
    rewrite Ea, Bim, BLs, nth_vadd, !nth_vscale by (auto; rewrite ?(vscale_len K n), ?BLl; auto). unfold B. rewrite resolvent_B by assumption. destruct (Ex i Hi) as [X _]. rewrite <- X. ring. }
  set (y := diff x im). assert (Ly : length y = n) by now apply Ldf.
  assert (By : B y = vscale (-' eta) (diff r re)).
  { unfold y, diff. rewrite BLa, BLs, Bim, Er by auto using vscale_len. fold (B x). apply vec_ext.
    - rewrite (vadd_len K n), (vscale_len K n); auto using vadd_len, vscale_len.
    - intros i Hi. rewrite !nth_vadd, !nth_vscale by (rewrite ?(vscale_len K n) by auto using vscale_len; auto using vscale_len). rewrite nth_vadd, !nth_vscale by (rewrite ?(vscale_len K n) by auto using vscale_len; auto using vscale_len).
      transitivity ((-' eta *' finv K (-' eta)) *' nth i (B x) 0' +' eta *' nth i re 0'); [rewrite (finv_r K _ Nn)|]; ring. }
  assert (Ay : dot (A y) (A y) = dist2 K n (vscale (-' eta) b) (A x)).
  { rewrite Dd by auto using vscale_len. unfold y. assert (X : A (diff x im) = vscale (-' 1') (diff (vscale (-' eta) b) (A x))).
    - unfold diff. rewrite ALa, ALs, Aim by auto using vscale_len. apply vec_ext; [rewrite (vadd_len K n), (vscale_len K n); auto using vadd_len, vscale_len|].
      intros i Hi. rewrite nth_vscale, !nth_vadd, !nth_vscale by (rewrite ?(vscale_len K n) by auto using vscale_len; auto using vscale_len). ring.
    - rewrite X, dot_scale_l, dot_scale_r. ring. }
  destruct (stable n M H HM omega eta Sy y Ly Ne) as [S1 S2]. fold A in S1, S2. change (ole (eta *' eta *' dot (B y) (B y)) (dot (A y) (A y))) in S2. rewrite Ay in S1, S2.
  assert (Q1 : olt (h *' dist2 K n r re) (c *' (t *' t))).
  { rewrite Dd by assumption. apply (ole_lt_trans K _ _ _) with (2 := D). eapply eq_ind with (P := fun z => ole z _); [exact S2|]. rewrite By, dot_scale_l, dot_scale_r. unfold h. ring. }
  assert (Q2 : olt (h *' dist2 K n x im) (c *' (t *' t))).
  { rewrite Dd by assumption. fold y. apply (ole_lt_trans K _ _ _) with (2 := D). exact S1. }
  assert (Ph : ole 0' h) by (unfold h; apply ole_sq).
  assert (V : forall u v, length u = n -> length v = n -> olt (h *' dist2 K n u v) (c *' (t *' t)) -> ole (h *' ((inner K n u b -^ inner K n v b) *' (inner K n u b -^ inner K n v b))) (c *' (t *' t) *' inner K n b b)).
  { intros u v Lu Lv Q. pose proof (cauchy n (diff u v) b (Ldf u v Lu Lv) Lb) as C. rewrite <- Dd in C by assumption. rewrite <- !(inner_dot K n) by assumption.
    replace (dot u b -^ dot v b) with (dot (diff u v) b) by (unfold diff; rewrite dot_add_l, dot_scale_l by (rewrite (vscale_len K n); congruence); ring).
    apply (ole_trans K _ (h *' (dist2 K n u v *' dot b b))).
    - apply (ole_sub K). replace (_ -^ _) with (h *' (dist2 K n u v *' dot b b -^ dot (diff u v) b *' dot (diff u v) b)) by ring. apply oleb_mul; [exact Ph|]. now apply (proj1 (ole_sub K _ _)).
    - apply (ole_sub K). replace (_ -^ _) with ((c *' (t *' t) -^ h *' dist2 K n u v) *' dot b b) by ring. apply oleb_mul; [|apply dot_pos]. apply (proj1 (ole_sub K _ _)). now apply olt_ole. }
  split; [exact Q1|]. split; [exact Q2|]. rewrite Ere, Eim. split; now apply V.
Qed.
(** C66: the solver succeeds when the number of components is below the iteration limit *)
Theorem c66_defined : olt 0' t -> n < max_iter -> exists g, solve_gf K H hdiag omega eta eps max_iter t b x0 = Done g.
Proof.
  intros Ht Hn. unfold solve_gf. assert (Nn : -' eta <> 0') by (intros Z; apply Ne; replace eta with (-' (-' eta)) by ring; rewrite Z; ring).
  destruct (c35_terminates K n (squared n M omega eta) (gf_apply K H omega eta) eps (Some (gf_diag K hdiag omega eta)) x0 (vscale (-' eta) b) max_iter t) as (f & x & it & E & _); auto using vscale_len, A_matrix, squared_sym.
  { now apply (squared_pos n M H HM omega eta Sy). }
  { intros d E. injection E as <-. unfold gf_diag. now rewrite map_length. }
  rewrite E. destruct (kdiv_def K (dot (real_part K H omega eta x) (vscale (-' eta) b)) _ Nn) as (u & ->). destruct (kdiv_def K f _ Nn) as (w & ->). eexists. reflexivity.
Qed.
End Thm.
End C66.

(** H = [[0, 1], [1, 0]], omega = 1/2, eta = 1, b = (1, 0): the matrix of the normal equations is [[9/4, 1], [1, 9/4]] *)
Definition c66_H (v : list Qc) : list Qc := match v with [x; y] => [y; x] | _ => [] end.
Definition c66_M (i j : nat) : Qc := if Nat.eqb i j then Q2Qc 0 else Q2Qc 1.
Definition c66_run (t : Qc) : outcome (gf Qc_ofield) := solve_gf Qc_ofield c66_H [Q2Qc 0; Q2Qc 0] (Q2Qc (1 # 2)) (Q2Qc 1) (Q2Qc (1 # 100)) 5000 t [Q2Qc 1; Q2Qc 0] [Q2Qc 0; Q2Qc 0].
(* 1/2 (1 / (3/2 + i) + 1 / (-1/2 + i)) = 2/65 - 36/65 i, found in two steps *)
Definition c66_shown (o : outcome (gf Qc_ofield)) : list Q := match o with Done g => [this (g_re _ g : Qc); this (g_im _ g : Qc)] ++ map this (g_r _ g : list Qc) ++ map this (g_x _ g : list Qc) ++ [inject_Z (Z.of_nat (g_iter _ g))] | _ => [] end.
Example c66_ex : c66_shown (c66_run (Q2Qc (1 # 1000))) = [2 # 65; -36 # 65; 2 # 65; 28 # 65; -36 # 65; 16 # 65; 3]%Q.
Proof. vm_compute. reflexivity. Qed.
(* a threshold above the first residual: the start vector is returned *)
Example c66_ex_loose : c66_shown (c66_run (Q2Qc 3)) = [0; 0; 0; 0; 0; 0; 1]%Q.
Proof. vm_compute. reflexivity. Qed.
Lemma c66_matrix : matrix_of Qc_ofield 2 c66_M c66_H.
Proof.
  assert (E1 : forall x y : Qc, y = (Q2Qc 0 * x + (Q2Qc 1 * y + Q2Qc 0))%Qc) by (intros; ring). assert (E2 : forall x y : Qc, x = (Q2Qc 1 * x + (Q2Qc 0 * y + Q2Qc 0))%Qc) by (intros; ring).
  intros [|x [|y [|z v]]] L; try discriminate. split; [reflexivity|]. intros [|[|i]] Hi; [exact (E1 x y)|exact (E2 x y)|lia].
Qed.
Example c66_ex_applies : exists g, c66_run (Q2Qc (1 # 1000)) = Done g /\
  exact_solution Qc_ofield 2 c66_M (Q2Qc (1 # 2)) (Q2Qc 1) [Q2Qc 1; Q2Qc 0] [Q2Qc (2 # 65); Q2Qc (28 # 65)] [Q2Qc (-36 # 65); Q2Qc (16 # 65)] /\
  (forall re im, exact_solution Qc_ofield 2 c66_M (Q2Qc (1 # 2)) (Q2Qc 1) [Q2Qc 1; Q2Qc 0] re im ->
    olt (K := Qc_ofield) (rmul Qc_ofield (Q2Qc 1) (dist2 Qc_ofield 2 (g_r _ g) re)) (Q2Qc (9 # 4000000))).
Proof.
  assert (Hd : forall d : Qc, In d [Q2Qc 0; Q2Qc 0] -> olt (K := Qc_ofield) (Q2Qc (1 # 100)) ((d + Q2Qc (1 # 2)) * (d + Q2Qc (1 # 2)) + Q2Qc 1 * Q2Qc 1)%Qc /\ ole (K := Qc_ofield) ((d + Q2Qc (1 # 2)) * (d + Q2Qc (1 # 2)) + Q2Qc 1 * Q2Qc 1)%Qc (Q2Qc (9 # 4))).
  { intros d [<-|[<-|[]]]; split; vm_compute; reflexivity. }
  assert (Sy : sym_matrix Qc_ofield 2 c66_M) by (intros i j _ _; unfold c66_M; now rewrite Nat.eqb_sym).
  destruct (c66_defined Qc_ofield 2 c66_M c66_H [Q2Qc 0; Q2Qc 0] (Q2Qc (1 # 2)) (Q2Qc 1) (Q2Qc (1 # 100)) (Q2Qc (1 # 1000)) 5000 [Q2Qc 1; Q2Qc 0] [Q2Qc 0; Q2Qc 0] c66_matrix ltac:(discriminate) eq_refl eq_refl eq_refl Sy) as (g & E); [reflexivity|apply Nat.ltb_lt; vm_compute; reflexivity|].
  exists g. split; [exact E|]. split.
  - split; [reflexivity|]. split; [reflexivity|]. intros [|[|i]] Hi; [| |lia]; (split; apply Qc_is_canon; vm_compute; reflexivity).
  - intros re im Ex. destruct (c66_accuracy Qc_ofield 2 c66_M c66_H [Q2Qc 0; Q2Qc 0] (Q2Qc (1 # 2)) (Q2Qc 1) (Q2Qc (1 # 100)) (Q2Qc (9 # 4)) (Q2Qc (1 # 1000)) 5000 [Q2Qc 1; Q2Qc 0] [Q2Qc 0; Q2Qc 0] c66_matrix ltac:(discriminate) eq_refl eq_refl eq_refl eq_refl eq_refl Hd Sy g re im E Ex) as (A & _).
    assert (X : rmul Qc_ofield (Q2Qc (9 # 4)) (rmul Qc_ofield (Q2Qc (1 # 1000)) (Q2Qc (1 # 1000))) = Q2Qc (9 # 4000000)) by (apply Qc_is_canon; vm_compute; reflexivity).
    rewrite X in A. exact A.
Qed.
Print Assumptions c66_solution.
Print Assumptions c66_accuracy.
Print Assumptions c66_defined.
