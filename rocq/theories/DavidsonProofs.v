(** Lemmas about the Davidson iteration. *)
From Coq Require Import ZArith Bool List Lia Ring.
From Verif Require Import IndexLib RingLib OrdLib LinalgModel LinalgProofs.
Import ListNotations.

Section Dav.
Variable K : OField.
Add Ring KDR : (rth K).
Notation "0'" := (r0 K). Notation "1'" := (r1 K). Notation "-'" := (ropp K).
Infix "+'" := (radd K) (at level 50, left associativity). Infix "*'" := (rmul K) (at level 40, left associativity).
Notation vec := (list K). Notation dot := (dot K). Notation vadd := (vadd K). Notation vscale := (vscale K).
Definition kd (i j : nat) : K := if Nat.eqb i j then 1' else 0'.
Definition at2 (M : list (list K)) (i j : nat) : K := nth j (nth i M []) 0'.
Notation "b [[ i ]]" := (nth i b []) (at level 9).

(* what numpy.linalg.eigh gives for a symmetric matrix *)
Definition eigen (m : nat) (M : list (list K)) (ld : list K) (alpha : list (list K)) : Prop :=
  length ld = m /\
  (forall i l, i < m -> l < m -> bsum (seq 0 m) (fun j => at2 alpha i j *' at2 alpha l j) = kd i l)%nat /\
  (forall j l, j < m -> l < m -> bsum (seq 0 m) (fun i => at2 alpha i j *' at2 alpha i l) = kd j l)%nat /\
  (forall i j, i < m -> j < m -> bsum (seq 0 m) (fun l => at2 M i l *' at2 alpha l j) = nth j ld 0' *' at2 alpha i j)%nat /\
  (forall i j, i <= j -> j < m -> ole (nth i ld 0') (nth j ld 0'))%nat.
Definition eigh_spec (n : nat) (eigh : list (list K) -> list K * list (list K)) : Prop :=
  forall m M, (m <= n)%nat -> length M = m -> (forall row, In row M -> length row = m) -> (forall i j, i < m -> j < m -> at2 M i j = at2 M j i)%nat -> eigen m M (fst (eigh M)) (snd (eigh M)).

Variable n : nat.
Variable A : vec -> vec.
Hypothesis LA : linear K n A.
Hypothesis SA : symmetric K n A.
Variable nrm : vec -> K.
Hypothesis Hn : forall v, length v = n -> nrm v *' nrm v = dot v v.
Variable eigh : list (list K) -> list K * list (list K).
Hypothesis He : eigh_spec n eigh.

(** *** rotation *)
Definition col (alpha : list (list K)) (m : nat) (b : list vec) (j : nat) : vec :=
  fold_left (fun v i => if Nat.eqb i j then v else vadd v (vscale (nth j (nth i alpha []) 0') b[[i]])) (seq 0 m) (vscale (nth j (nth j alpha []) 0') b[[j]]).
Lemma rotate_nth : forall alpha m b j, (j < m)%nat -> (rotate K alpha m b)[[j]] = col alpha m b j.
Proof.
  intros alpha m b j H. unfold rotate. rewrite app_nth1 by (rewrite map_length, seq_length; lia).
  rewrite (nth_indep _ [] (col alpha m b 0)) by (rewrite map_length, seq_length; lia).
  rewrite (map_nth (fun j => col alpha m b j)), seq_nth by lia. reflexivity.
Qed.
Lemma rotate_length : forall alpha m b, (m <= length b)%nat -> length (rotate K alpha m b) = length b.
Proof. intros. unfold rotate. rewrite app_length, map_length, seq_length, skipn_length. lia. Qed.
Lemma fold_col_len : forall alpha b j is v0, (forall i, In i is -> length b[[i]] = n) -> length v0 = n ->
  length (fold_left (fun v i => if Nat.eqb i j then v else vadd v (vscale (nth j (nth i alpha []) 0') b[[i]])) is v0) = n.
Proof.
  intros alpha b j. induction is as [|i is IH]; intros v0 H L; [exact L|]. cbn [fold_left]. apply IH; [intros; apply H; now right|].
  destruct (Nat.eqb i j); [exact L|]. apply vadd_len; [exact L|]. apply vscale_len. apply H. now left.
Qed.
Lemma fold_col_dot : forall alpha b j w is v0, (forall i, In i is -> length b[[i]] = n) -> length v0 = n ->
  dot (fold_left (fun v i => if Nat.eqb i j then v else vadd v (vscale (nth j (nth i alpha []) 0') b[[i]])) is v0) w
  = dot v0 w +' bsum is (fun i => if Nat.eqb i j then 0' else at2 alpha i j *' dot b[[i]] w).
Proof.
  intros alpha b j w. induction is as [|i is IH]; intros v0 H L; [rewrite bsum_nil; cbn [fold_left]; ring|]. cbn [fold_left].
  rewrite bsum_cons, IH; [|intros; apply H; now right|].
  - destruct (Nat.eqb i j); [ring|]. rewrite dot_add_l, dot_scale_l; [unfold at2; ring|]. rewrite (vscale_len K n); auto. apply H. now left.
  - destruct (Nat.eqb i j); [exact L|]. apply vadd_len; [exact L|]. apply vscale_len. apply H. now left.
Qed.
Lemma fold_col_A : forall alpha b s j is v0, (forall i, In i is -> length b[[i]] = n /\ s[[i]] = A b[[i]]) -> length v0 = n ->
  fold_left (fun v i => if Nat.eqb i j then v else vadd v (vscale (nth j (nth i alpha []) 0') s[[i]])) is (A v0)
  = A (fold_left (fun v i => if Nat.eqb i j then v else vadd v (vscale (nth j (nth i alpha []) 0') b[[i]])) is v0).
Proof.
  intros alpha b s j. destruct LA as (La & Aa & As). induction is as [|i is IH]; intros v0 H L; [reflexivity|]. cbn [fold_left].
  destruct (Nat.eqb i j); [apply IH; [intros; apply H; now right|exact L]|]. destruct (H i (or_introl eq_refl)) as [Lb Es].
  rewrite Es, <- As, <- Aa by auto using vscale_len. apply IH; [intros; apply H; now right|]. apply vadd_len; auto using vscale_len.
Qed.
Lemma in_seq0 : forall i m, In i (seq 0 m) -> (i < m)%nat. Proof. intros i m H. apply in_seq in H. lia. Qed.
Lemma col_len : forall alpha m b j, (j < m)%nat -> (forall i, i < m -> length b[[i]] = n)%nat -> length (col alpha m b j) = n.
Proof. intros alpha m b j Hj H. apply fold_col_len; [intros i Hi; apply H; now apply in_seq0|]. apply vscale_len. now apply H. Qed.
Lemma col_dot : forall alpha m b j w, (j < m)%nat -> (forall i, i < m -> length b[[i]] = n)%nat -> dot (col alpha m b j) w = bsum (seq 0 m) (fun i => at2 alpha i j *' dot b[[i]] w).
Proof.
  intros alpha m b j w Hj H. unfold col. rewrite fold_col_dot; [|intros i Hi; apply H; now apply in_seq0|apply vscale_len; now apply H]. rewrite dot_scale_l.
  assert (G : bsum (seq 0 m) (fun i => at2 alpha i j *' dot b[[i]] w) = bsum (seq 0 m) (fun i => if Nat.eqb i j then at2 alpha j j *' dot b[[j]] w else 0') +' bsum (seq 0 m) (fun i => if Nat.eqb i j then 0' else at2 alpha i j *' dot b[[i]] w)).
  { rewrite <- bsum_add. apply bsum_ext. intros i _. destruct (Nat.eqb_spec i j) as [->|]; ring. }
  rewrite G. f_equal. rewrite (bsum_single K _ (seq 0 m) _ j).
  - rewrite Nat.eqb_refl. reflexivity.
  - apply seq_NoDup.
  - apply in_seq. lia.
  - intros x _ N. destruct (Nat.eqb_spec x j); [congruence|reflexivity].
Qed.
Lemma col_A : forall alpha m b s j, (j < m)%nat -> (forall i, i < m -> length b[[i]] = n /\ s[[i]] = A b[[i]])%nat -> col alpha m s j = A (col alpha m b j).
Proof.
  intros alpha m b s j Hj H. destruct LA as (La & Aa & As). unfold col. destruct (H j Hj) as [Lj Ej]. rewrite Ej, <- As by assumption.
  apply fold_col_A; [intros i Hi; apply H; now apply in_seq0|]. now apply vscale_len.
Qed.

(** *** orthonormal families *)
Definition orthonormal (bs : list vec) (m : nat) : Prop := forall i j, (i < m)%nat -> (j < m)%nat -> length bs[[i]] = n /\ dot bs[[i]] bs[[j]] = kd i j.
Lemma ortho_len : forall bs m i, orthonormal bs m -> (i < m)%nat -> length bs[[i]] = n. Proof. intros bs m i H Hi. now apply (H i i). Qed.
Lemma sum_kd : forall m i (f : nat -> K), (i < m)%nat -> bsum (seq 0 m) (fun l => kd l i *' f l) = f i.
Proof.
  intros m i f H. rewrite (bsum_single K _ (seq 0 m) _ i); [unfold kd; rewrite Nat.eqb_refl; ring|apply seq_NoDup|apply in_seq; lia|].
  intros x _ N. unfold kd. destruct (Nat.eqb_spec x i); [congruence|ring].
Qed.
Lemma rotate_ortho : forall alpha m b, orthonormal b m -> (forall j l, j < m -> l < m -> bsum (seq 0 m) (fun i => at2 alpha i j *' at2 alpha i l) = kd j l)%nat ->
  orthonormal (rotate K alpha m b) m.
Proof.
  intros alpha m b O Hc i j Hi Hj. rewrite !rotate_nth by assumption. assert (Lb : forall i, (i < m)%nat -> length b[[i]] = n) by (intros; now apply (ortho_len b m)).
  split; [now apply col_len|]. rewrite col_dot by assumption. rewrite <- Hc by assumption. apply bsum_ext. intros l Hl. apply in_seq0 in Hl. f_equal.
  rewrite dot_sym, col_dot by assumption. transitivity (bsum (seq 0 m) (fun i0 => kd i0 l *' at2 alpha i0 j)).
  - apply bsum_ext. intros i0 H0. apply in_seq0 in H0. destruct (O i0 l H0 Hl) as [_ ->]. ring.
  - exact (sum_kd m l (fun i0 => at2 alpha i0 j) Hl).
Qed.
(* the matrix of A in the basis *)
Lemma atilde_at : forall b sigma m i j, (i < m)%nat -> (j < m)%nat -> (forall i, i < m -> length b[[i]] = n /\ sigma[[i]] = A b[[i]])%nat -> at2 (atilde K b sigma m) i j = dot b[[i]] (A b[[j]]).
Proof.
  intros b sigma m i j Hi Hj H. unfold at2, atilde. set (f := fun i j => if Nat.leb j i then dot b[[i]] sigma[[j]] else dot b[[j]] sigma[[i]]).
  change (nth j (nth i (map (fun i => map (f i) (seq 0 m)) (seq 0 m)) []) 0' = dot b[[i]] (A b[[j]])).
  rewrite (nth_indep _ [] (map (f 0%nat) (seq 0 m))) by (rewrite map_length, seq_length; lia). rewrite (map_nth (fun i => map (f i) (seq 0 m))), seq_nth by lia.
  rewrite (nth_indep _ 0' (f (0 + i) 0)%nat) by (rewrite map_length, seq_length; lia). rewrite (map_nth (f (0 + i)%nat)), seq_nth by lia. cbn [plus]. unfold f.
  destruct (H i Hi) as [Li ->]. destruct (H j Hj) as [Lj ->]. destruct (Nat.leb j i); [reflexivity|]. rewrite <- SA, dot_sym by assumption. reflexivity.
Qed.
Lemma rotate_ritz : forall m b sigma ld alpha, orthonormal b m -> (forall i, i < m -> sigma[[i]] = A b[[i]])%nat -> eigen m (atilde K b sigma m) ld alpha ->
  forall i j, (i < m)%nat -> (j < m)%nat -> dot (rotate K alpha m b)[[i]] (A (rotate K alpha m b)[[j]]) = kd i j *' nth j ld 0'.
Proof.
  intros m b sigma ld alpha O Hs (E1 & E2 & E3 & E4 & E5) i j Hi Hj. rewrite !rotate_nth by assumption.
  assert (Lb : forall i, (i < m)%nat -> length b[[i]] = n) by (intros; now apply (ortho_len b m)).
  assert (Ha : forall i, (i < m)%nat -> length b[[i]] = n /\ sigma[[i]] = A b[[i]]) by (intros; auto).
  rewrite col_dot by assumption.
  transitivity (bsum (seq 0 m) (fun i0 => at2 alpha i0 i *' at2 alpha i0 j) *' nth j ld 0'); [|now rewrite E3].
  rewrite <- bsum_mulr. apply bsum_ext. intros i0 H0. apply in_seq0 in H0.
  replace (at2 alpha i0 i *' at2 alpha i0 j *' nth j ld 0') with (at2 alpha i0 i *' (nth j ld 0' *' at2 alpha i0 j)) by ring. f_equal.
  rewrite <- E4 by assumption. rewrite <- SA, dot_sym by (auto; now apply col_len). rewrite col_dot by assumption.
  apply bsum_ext. intros l Hl. apply in_seq0 in Hl. rewrite (atilde_at b sigma) by assumption. rewrite (dot_sym K b[[l]]), SA by auto. ring.
Qed.
(* the lowest Ritz value is below the expectation of every basis vector *)
Lemma ole_bsum : forall X (l : list X) (f g : X -> K), (forall x, In x l -> ole (f x) (g x)) -> ole (bsum l f) (bsum l g).
Proof.
  intros X l f g. induction l as [|x l IH]; intros H; [apply ole_refl|]. rewrite !bsum_cons. apply ole_add2; [apply H; now left|apply IH; intros; apply H; now right].
Qed.
Lemma ritz_low : forall m b sigma ld alpha i, orthonormal b m -> (forall i, i < m -> sigma[[i]] = A b[[i]])%nat -> eigen m (atilde K b sigma m) ld alpha -> (i < m)%nat ->
  ole (nth 0 ld 0') (dot b[[i]] (A b[[i]])).
Proof.
  intros m b sigma ld alpha i O Hs (E1 & E2 & E3 & E4 & E5) Hi.
  assert (Lb : forall i, (i < m)%nat -> length b[[i]] = n) by (intros; now apply (ortho_len b m)).
  assert (Ha : forall i, (i < m)%nat -> length b[[i]] = n /\ sigma[[i]] = A b[[i]]) by (intros; auto).
  assert (Ex : dot b[[i]] (A b[[i]]) = bsum (seq 0 m) (fun j => nth j ld 0' *' (at2 alpha i j *' at2 alpha i j))).
  { transitivity (bsum (seq 0 m) (fun j => bsum (seq 0 m) (fun l => at2 (atilde K b sigma m) i l *' at2 alpha l j) *' at2 alpha i j)).
    - transitivity (bsum (seq 0 m) (fun l => kd l i *' at2 (atilde K b sigma m) i l)); [rewrite (sum_kd m i (fun l => at2 (atilde K b sigma m) i l)) by assumption; symmetry; now apply atilde_at|].
      transitivity (bsum (seq 0 m) (fun j => bsum (seq 0 m) (fun l => at2 (atilde K b sigma m) i l *' at2 alpha l j *' at2 alpha i j))).
      + rewrite bsum_swap. apply bsum_ext. intros l Hl. apply in_seq0 in Hl. rewrite <- E2 by assumption. rewrite <- bsum_mulr. apply bsum_ext. intros. ring.
      + apply bsum_ext. intros j Hj. apply bsum_mulr.
    - apply bsum_ext. intros j Hj. apply in_seq0 in Hj. rewrite E4 by assumption. ring. }
  rewrite Ex. replace (nth 0 ld 0') with (nth 0 ld 0' *' bsum (seq 0 m) (fun j => at2 alpha i j *' at2 alpha i j)).
  - rewrite <- bsum_mull. apply ole_bsum. intros j Hj. apply in_seq0 in Hj. apply ole_sub.
    replace (rsub K (nth j ld 0' *' (at2 alpha i j *' at2 alpha i j)) (nth 0 ld 0' *' (at2 alpha i j *' at2 alpha i j))) with (rsub K (nth j ld 0') (nth 0 ld 0') *' (at2 alpha i j *' at2 alpha i j)) by ring.
    apply oleb_mul; [|apply ole_sq]. apply (proj1 (ole_sub K _ _)). apply E5; lia.
  - rewrite E2 by assumption. unfold kd. rewrite Nat.eqb_refl. ring.
Qed.

(** *** adding a vector *)
Lemma ortho_cons : forall b bs m, orthonormal (b :: bs) (S m) -> length b = n /\ dot b b = 1' /\ (forall i, (i < m)%nat -> dot b bs[[i]] = 0' /\ dot bs[[i]] b = 0') /\ orthonormal bs m.
Proof.
  intros b bs m H. split; [exact (proj1 (H 0%nat 0%nat ltac:(lia) ltac:(lia)))|]. split; [exact (proj2 (H 0%nat 0%nat ltac:(lia) ltac:(lia)))|]. split.
  - intros i Hi. split; [exact (proj2 (H 0%nat (S i) ltac:(lia) ltac:(lia)))|exact (proj2 (H (S i) 0%nat ltac:(lia) ltac:(lia)))].
  - intros i j Hi Hj. exact (H (S i) (S j) ltac:(lia) ltac:(lia)).
Qed.
Lemma project_len : forall bs q, (forall v, In v bs -> length v = n) -> length q = n -> length (project_out K bs q) = n.
Proof.
  unfold project_out. induction bs as [|b bs IH]; intros q H L; [exact L|]. cbn [fold_left]. apply IH; [intros; apply H; now right|]. apply vadd_len; [exact L|]. apply vscale_len. apply H. now left.
Qed.
Lemma project_keep : forall bs q w, length w = n -> length q = n -> (forall v, In v bs -> length v = n /\ dot w v = 0') -> dot w (project_out K bs q) = dot w q.
Proof.
  unfold project_out. induction bs as [|b bs IH]; intros q w Lw Lq H; [reflexivity|]. cbn [fold_left]. destruct (H b (or_introl eq_refl)) as [Lb Z].
  rewrite IH; [|exact Lw|apply vadd_len; auto using vscale_len|intros; apply H; now right]. rewrite dot_add_r, dot_scale_r, Z; [ring|]. rewrite (vscale_len K n); auto.
Qed.
Lemma project_ortho : forall bs q, orthonormal bs (length bs) -> length q = n -> forall i, (i < length bs)%nat -> dot bs[[i]] (project_out K bs q) = 0'.
Proof.
  induction bs as [|b bs IH]; intros q O Lq i Hi; [cbn in Hi; lia|]. cbn [length] in O. destruct (ortho_cons b bs _ O) as (Lb & Ub & Ob & O').
  change (project_out K (b :: bs) q) with (project_out K bs (vadd q (vscale (-' (dot b q)) b))).
  assert (Lq' : length (vadd q (vscale (-' (dot b q)) b)) = n) by (apply vadd_len; auto using vscale_len). destruct i as [|i]; cbn [nth].
  - rewrite project_keep.
    + rewrite dot_add_r, dot_scale_r, Ub; [ring|]. rewrite (vscale_len K n); auto.
    + exact Lb.
    + exact Lq'.
    + intros v Hv. apply (In_nth _ _ []) in Hv. destruct Hv as (l & Hl & <-). split; [now apply (ortho_len bs (length bs))|]. apply (Ob l Hl).
  - apply IH; [exact O'|exact Lq'|cbn in Hi; lia].
Qed.
Lemma normalize_unit : forall q w, length q = n -> normalize K nrm q = Some w -> length w = n /\ dot w w = 1' /\ (forall v, dot v q = 0' -> dot v w = 0').
Proof.
  intros q w L E. unfold normalize in E. destruct (oeqb_spec K (nrm q) 0') as [|N]; [discriminate|]. injection E as <-. split; [now apply vscale_len|]. split.
  - rewrite dot_scale_l, dot_scale_r, <- Hn by assumption. pose proof (finv_r K _ N) as I. replace (finv K (nrm q) *' (finv K (nrm q) *' (nrm q *' nrm q))) with ((nrm q *' finv K (nrm q)) *' (nrm q *' finv K (nrm q))) by ring. rewrite I. ring.
  - intros v Z. rewrite dot_scale_r, Z. ring.
Qed.
Lemma ortho_ext : forall bs cs m, orthonormal bs m -> (forall i, i < m -> cs[[i]] = bs[[i]])%nat -> orthonormal cs m.
Proof. intros bs cs m O H i j Hi Hj. rewrite (H i Hi), (H j Hj). now apply O. Qed.
Lemma ortho_add : forall bs m w, orthonormal bs m -> length w = n -> dot w w = 1' -> (forall i, i < m -> dot bs[[i]] w = 0')%nat -> bs[[m]] = w -> orthonormal bs (S m).
Proof.
  intros bs m w O L U Z E i j Hi Hj. destruct (Nat.eq_dec i m) as [->|Ni], (Nat.eq_dec j m) as [->|Nj]; rewrite ?E.
  - split; [exact L|]. rewrite U. unfold kd. now rewrite Nat.eqb_refl.
  - split; [exact L|]. rewrite dot_sym, Z by lia. unfold kd. destruct (Nat.eqb_spec m j); [congruence|reflexivity].
  - split; [apply (ortho_len bs m); [exact O|lia]|]. rewrite Z by lia. unfold kd. destruct (Nat.eqb_spec i m); [congruence|reflexivity].
  - apply O; lia.
Qed.
Lemma firstn_at : forall X (l : list X) m i d, (i < m)%nat -> nth i (firstn m l) d = nth i l d.
Proof. induction l as [|x l IH]; intros m i d H; [now rewrite firstn_nil|]. destruct m; [lia|]. destruct i; [reflexivity|]. cbn. apply IH. lia. Qed.
Lemma setn_at : forall X (l : list X) m v d i, (m < length l)%nat -> nth i (setn l m v) d = if Nat.eqb i m then v else nth i l d.
Proof.
  intros X l m v d. revert m. induction l as [|x l IH]; intros m i H; [cbn in H; lia|]. unfold setn in *. destruct m as [|m]; destruct i as [|i]; cbn [firstn skipn app nth Nat.eqb]; try reflexivity. apply IH. cbn in H. lia.
Qed.
Lemma setn_length : forall X (l : list X) m v, (m < length l)%nat -> length (setn l m v) = length l.
Proof. intros. unfold setn. rewrite app_length, firstn_length. cbn [length]. rewrite skipn_length. lia. Qed.
(* the basis after a new direction *)
Lemma extend : forall b m q w, orthonormal b m -> (m <= length b)%nat -> length q = n -> normalize K nrm (project_out K (firstn m b) q) = Some w ->
  let b' := if Nat.leb (length b) m then b ++ [w] else setn b m w in
  orthonormal b' (S m) /\ (forall i, i < m -> b'[[i]] = b[[i]])%nat /\ (S m <= length b')%nat /\ length b' = (if Nat.leb (length b) m then S (length b) else length b).
Proof.
  intros b m q w O L Lq E b'.
  assert (Lf : length (firstn m b) = m) by (rewrite firstn_length; lia).
  assert (Of : orthonormal (firstn m b) (length (firstn m b))) by (rewrite Lf; apply (ortho_ext b); [exact O|intros; now apply firstn_at]).
  assert (Lp : length (project_out K (firstn m b) q) = n).
  { apply project_len; [|exact Lq]. intros v Hv. apply (In_nth _ _ []) in Hv. destruct Hv as (l & Hl & <-). now apply (ortho_len (firstn m b) (length (firstn m b))). }
  destruct (normalize_unit _ _ Lp E) as (Lw & Uw & Zw).
  assert (Zi : forall i, (i < m)%nat -> dot b[[i]] w = 0').
  { intros i Hi. apply Zw. rewrite <- (firstn_at _ b m i [] Hi). apply project_ortho; [exact Of|exact Lq|lia]. }
  assert (At : forall i, (i < S m)%nat -> b'[[i]] = if Nat.eqb i m then w else b[[i]]).
  { intros i Hi. unfold b'. destruct (Nat.leb_spec (length b) m).
    - destruct (Nat.eqb_spec i m) as [->|]; [rewrite app_nth2 by lia; now replace (m - length b)%nat with 0%nat by lia|rewrite app_nth1 by lia; reflexivity].
    - apply setn_at. lia. }
  assert (Keep : forall i, (i < m)%nat -> b'[[i]] = b[[i]]) by (intros i Hi; rewrite At by lia; destruct (Nat.eqb_spec i m); [lia|reflexivity]).
  split; [|split; [exact Keep|] ].
  - apply (ortho_add b' m w); auto.
    + apply (ortho_ext b); auto.
    + intros i Hi. rewrite Keep by assumption. now apply Zi.
    + rewrite At by lia. now rewrite Nat.eqb_refl.
  - unfold b'. destruct (Nat.leb_spec (length b) m); [rewrite app_length; cbn; lia|rewrite setn_length by lia; lia].
Qed.
Lemma orthonormalise_ok : forall todo done r, orthonormal done (length done) -> (forall v, In v todo -> length v = n) -> orthonormalise K nrm done todo = Some r ->
  orthonormal r (length r) /\ length r = (length done + length todo)%nat /\ (forall i, i < length done -> r[[i]] = done[[i]])%nat.
Proof.
  induction todo as [|v todo IH]; intros done r O H E; cbn [orthonormalise] in E.
  - injection E as <-. split; [exact O|]. cbn [length]. split; [lia|auto].
  - destruct (normalize K nrm (project_out K done v)) as [w|] eqn:Ew; [|discriminate].
    assert (Lv : length v = n) by (apply H; now left).
    pose proof (extend done (length done) v w O ltac:(lia) Lv) as X. rewrite firstn_all in X. specialize (X Ew). cbv zeta in X. rewrite Nat.leb_refl in X. destruct X as (O' & Keep & _ & _).
    assert (Ln : length (done ++ [w]) = S (length done)) by (rewrite app_length; cbn; lia).
    destruct (IH (done ++ [w]) r) as (Or & Lr & Kr); [rewrite Ln; exact O'|intros; apply H; now right|exact E|]. split; [exact Or|]. split; [rewrite Lr, Ln; cbn [length]; lia|].
    intros i Hi. rewrite Kr by lia. now apply Keep.
Qed.
(* sigma is completed *)
Lemma sigma_fill : forall b cnt start s, (start + cnt <= length s)%nat -> (forall i, i < start -> s[[i]] = A b[[i]])%nat ->
  let s' := fold_left (fun s i => setn s i (A b[[i]])) (seq start cnt) s in length s' = length s /\ forall i, (i < start + cnt)%nat -> s'[[i]] = A b[[i]].
Proof.
  intros b. induction cnt as [|cnt IH]; intros start s L H; [cbn; split; [reflexivity|intros; apply H; lia]|]. cbn [seq fold_left].
  assert (Ls : length (setn s start (A b[[start]])) = length s) by (apply setn_length; lia).
  destruct (IH (S start) (setn s start (A b[[start]]))) as [L' H'].
  - rewrite Ls. lia.
  - intros i Hi. rewrite setn_at by lia. destruct (Nat.eqb_spec i start) as [->|]; [reflexivity|apply H; lia].
  - split; [rewrite L'; exact Ls|]. intros i Hi. apply H'. lia.
Qed.
Lemma first_bad_spec : forall t ld b s len start ck, (start + len = ck)%nat -> let c := first_bad K t ld b s (seq start len) ck in
  (start <= c <= ck)%nat /\ (forall i, start <= i < c -> small K t (dot (resid K ld b s i) (resid K ld b s i)) = true)%nat /\
  (c < ck -> small K t (dot (resid K ld b s c) (resid K ld b s c)) = false)%nat.
Proof.
  intros t ld b s. induction len as [|len IH]; intros start ck E; cbn [seq first_bad].
  - split; [lia|]. split; intros; lia.
  - destruct (small K t (dot (resid K ld b s start) (resid K ld b s start))) eqn:S1.
    + destruct (IH (S start) ck ltac:(lia)) as (H1 & H2 & H3). split; [lia|]. split; [|exact H3]. intros i Hi. destruct (Nat.eq_dec i start) as [->|]; [exact S1|apply H2; lia].
    + split; [lia|]. split; [intros; lia|auto].
Qed.

(** *** at most n orthonormal vectors *)
Lemma id_linear : linear K n (fun v => v). Proof. repeat split; auto. Qed.
Lemma ortho_bound : forall b m, orthonormal b m -> (m <= length b)%nat -> (m <= n)%nat.
Proof.
  intros b m O L. rewrite <- (firstn_length_le b L). apply (conjugate_bound K n (fun v => v)).
  - exact id_linear.
  - intros u v _ _. reflexivity.
  - intros v Hv. apply (In_nth _ _ []) in Hv. destruct Hv as (i & Hi & <-). rewrite firstn_length_le in Hi by exact L. rewrite firstn_at by exact Hi.
    destruct (O i i Hi Hi) as [L0 U]. split; [exact L0|]. rewrite U. unfold kd. rewrite Nat.eqb_refl. apply f10.
  - assert (G : forall l s, (forall i j, i < length l -> j < length l -> dot l[[i]] l[[j]] = kd (s + i) (s + j))%nat -> conjugate K (fun v => v) l).
    { induction l as [|x l IHl]; intros s Hl; [exact Logic.I|]. cbn [conjugate]. split.
      - intros q Hq. apply (In_nth _ _ []) in Hq. destruct Hq as (i & Hi & <-). pose proof (Hl (S i) 0%nat ltac:(cbn; lia) ltac:(cbn; lia)) as Z. cbn [nth] in Z. rewrite Z. unfold kd. destruct (Nat.eqb_spec (s + S i) (s + 0)); [lia|reflexivity].
      - apply (IHl (S s)). intros i j Hi Hj. pose proof (Hl (S i) (S j) ltac:(cbn; lia) ltac:(cbn; lia)) as Z. cbn [nth] in Z. rewrite Z. f_equal; lia. }
    apply (G (firstn m b) 0%nat). intros i j Hi Hj. rewrite firstn_length_le in Hi, Hj by exact L. rewrite !firstn_at by assumption. now apply O.
Qed.

(** *** the loop *)
Definition ritz (k : nat) (ld : list K) (b : list vec) : Prop :=
  (k <= length ld)%nat /\ (k <= length b)%nat /\ orthonormal b k /\ (forall i j, i < k -> j < k -> dot b[[i]] (A b[[j]]) = kd i j *' nth j ld 0')%nat /\
  (forall i j, i <= j -> j < k -> ole (nth i ld 0') (nth j ld 0'))%nat.
(* what is claimed about a result *)
Definition result_ok (k : nat) (t E0 : K) (d : dav K) : Prop :=
  length (d_vals K d) = k /\ length (d_vecs K d) = k /\ ritz k (d_vals K d) (d_vecs K d) /\ ole (nth 0 (d_vals K d) 0') E0 /\
  (d_converged K d = true -> forall i, (i < k)%nat -> let q := vadd (A (d_vecs K d)[[i]]) (vscale (-' (nth i (d_vals K d) 0')) (d_vecs K d)[[i]]) in small K t (dot q q) = true).
Lemma ritz_ext : forall k ld b ld' b', ritz k ld b -> (k <= length ld')%nat -> (k <= length b')%nat -> (forall i, i < k -> nth i ld' 0' = nth i ld 0')%nat -> (forall i, i < k -> b'[[i]] = b[[i]])%nat -> ritz k ld' b'.
Proof.
  intros k ld b ld' b' (H1 & H2 & H3 & H4 & H5) L1 L2 E1 E2. split; [exact L1|]. split; [exact L2|]. split; [now apply (ortho_ext b)|]. split.
  - intros i j Hi Hj. rewrite (E2 i Hi), (E2 j Hj), (E1 j Hj). now apply H4.
  - intros i j Hij Hj. rewrite (E1 i), (E1 j) by lia. now apply H5.
Qed.
Definition dinv (k dmin : nat) (E0 : K) (b sigma : list vec) (msig m : nat) : Prop :=
  (m <= length b)%nat /\ length sigma = length b /\ orthonormal b m /\ (forall i, i < msig -> sigma[[i]] = A b[[i]])%nat /\ (msig <= m)%nat /\ (0 < k <= m)%nat /\ (k <= dmin)%nat /\
  (dmin <= m \/ length b = m)%nat /\ ole (dot b[[0]] (A b[[0]])) E0.
(* one pass through the body up to the residual *)
Lemma body : forall k dmin E0 b sigma msig m, dinv k dmin E0 b sigma msig m ->
  let sigma1 := fold_left (fun s i => setn s i (A b[[i]])) (seq msig (m - msig)) sigma in
  let e := eigh (atilde K b sigma1 m) in let b1 := rotate K (snd e) m b in let s1 := rotate K (snd e) m sigma1 in
  length b1 = length b /\ length s1 = length b /\ orthonormal b1 m /\ (forall i, i < m -> s1[[i]] = A b1[[i]])%nat /\ ritz k (fst e) b1 /\ length (fst e) = m /\ ole (nth 0 (fst e) 0') E0 /\
  dot b1[[0]] (A b1[[0]]) = nth 0 (fst e) 0' /\ (forall i j, (i < m)%nat -> (j < m)%nat -> dot b1[[i]] (A b1[[j]]) = kd i j *' nth j (fst e) 0').
Proof.
  intros k dmin E0 b sigma msig m (L1 & L2 & O & Hs & L3 & L4 & L5 & L6 & V) sigma1 e b1 s1.
  destruct (sigma_fill b (m - msig) msig sigma ltac:(lia) Hs) as [Ls Hs1]. fold sigma1 in Ls, Hs1. replace (msig + (m - msig))%nat with m in Hs1 by lia.
  assert (Hb : forall i, (i < m)%nat -> length b[[i]] = n /\ sigma1[[i]] = A b[[i]]) by (intros i Hi; split; [now apply (ortho_len b m)|now apply Hs1]).
  assert (E : eigen m (atilde K b sigma1 m) (fst e) (snd e)).
  { apply He; [exact (ortho_bound b m O L1)|unfold atilde; now rewrite map_length, seq_length|intros row Hr; unfold atilde in Hr; apply in_map_iff in Hr; destruct Hr as (x & <- & _); now rewrite map_length, seq_length|]. intros i j Hi Hj. rewrite !(atilde_at b sigma1) by assumption. rewrite <- SA, dot_sym by (now apply Hb). reflexivity. }
  pose proof E as (E1 & E2 & E3 & E4 & E5).
  assert (O1 : orthonormal b1 m) by (apply rotate_ortho; assumption).
  assert (Rz : forall i j, (i < m)%nat -> (j < m)%nat -> dot b1[[i]] (A b1[[j]]) = kd i j *' nth j (fst e) 0') by (now apply (rotate_ritz m b sigma1)).
  assert (Lb1 : length b1 = length b) by (now apply rotate_length).
  assert (Ls1 : length s1 = length b) by (unfold s1; rewrite rotate_length by lia; lia).
  assert (Sg : forall i, (i < m)%nat -> s1[[i]] = A b1[[i]]) by (intros i Hi; unfold s1, b1; rewrite !rotate_nth by assumption; now apply col_A).
  assert (Rk : ritz k (fst e) b1).
  { split; [lia|]. split; [lia|]. split; [intros i j Hi Hj; apply O1; lia|]. split; [intros; apply Rz; lia|intros; apply E5; lia]. }
  assert (V1 : ole (nth 0 (fst e) 0') E0).
  { eapply ole_trans; [|exact V]. apply (ritz_low m b sigma1 (fst e) (snd e)); auto. lia. }
  assert (V0 : dot b1[[0]] (A b1[[0]]) = nth 0 (fst e) 0').
  { rewrite Rz by lia. unfold kd. rewrite Nat.eqb_refl. ring. }
  exact (conj Lb1 (conj Ls1 (conj O1 (conj Sg (conj Rk (conj E1 (conj V1 (conj V0 Rz)))))))).
Qed.
Lemma resid_len : forall b s m ld i, orthonormal b m -> (forall i, i < m -> s[[i]] = A b[[i]])%nat -> (i < m)%nat -> length (resid K ld b s i) = n.
Proof. intros b s m ld i O Hs Hi. unfold resid. rewrite (Hs i Hi). apply vadd_len; [|apply vscale_len]; [apply (proj1 LA)|]; now apply (ortho_len b m). Qed.
Lemma mask_len : forall l d eps v, length d = n -> length v = n -> length (mask_div K l d eps v) = n.
Proof. intros. unfold mask_div. rewrite map_length, combine_length. lia. Qed.
Lemma olsen_len : forall eps q c l d q', length q = n -> length c = n -> length d = n -> olsen K eps q c l d = Some q' -> length q' = n.
Proof.
  intros eps q c l d q' Lq Lc Ld E. unfold olsen in E. destruct (kdiv _ _ _) as [f|]; [|discriminate]. injection E as <-. apply mask_len; [exact Ld|]. apply vadd_len; auto using vscale_len.
Qed.
Lemma result_of : forall k t E0 ld b it cv, (0 < k)%nat -> ritz k ld b -> ole (nth 0 ld 0') E0 ->
  (cv = true -> forall i, (i < k)%nat -> let q := vadd (A b[[i]]) (vscale (-' (nth i ld 0')) b[[i]]) in small K t (dot q q) = true) ->
  result_ok k t E0 (Dav K (firstn k ld) (firstn k b) it cv).
Proof.
  intros k t E0 ld b it cv Hk Rz V Hc. pose proof Rz as (L1 & L2 & _). unfold result_ok. cbn [d_vals d_vecs d_converged].
  assert (F1 : length (firstn k ld) = k) by (rewrite firstn_length; lia). assert (F2 : length (firstn k b) = k) by (rewrite firstn_length; lia).
  split; [exact F1|]. split; [exact F2|]. split; [|split].
  - apply (ritz_ext k ld b); auto; try lia; intros; now apply firstn_at.
  - rewrite firstn_at by lia. exact V.
  - intros E i Hi. rewrite !firstn_at by lia. now apply Hc.
Qed.
Lemma dav_sound : forall eps aa k t dmin dmax E0, (forall d, aa = Some d -> length d = n) ->
  forall left xiter b sigma ld ck msig m d, dinv k dmin E0 b sigma msig m -> (left <> 0%nat -> (ck < k)%nat) -> (left = 0%nat -> ck = k /\ ritz k ld b /\ ole (nth 0 ld 0') E0) ->
  dav_loop K nrm eigh eps A aa k t dmin dmax left xiter b sigma ld ck msig m = Done d -> result_ok k t E0 d /\ (xiter <= d_iter K d <= xiter + left)%nat.
Proof.
  intros eps aa k t dmin dmax E0 Haa. induction left as [|left IH]; intros xiter b sigma ld ck msig m d I Hck H0 E.
  - cbn [dav_loop] in E. injection E as <-. destruct (H0 eq_refl) as (-> & Rz & V). split; [|cbn; lia]. apply result_of; auto; [apply I|discriminate].
  - cbn [dav_loop] in E. pose proof (body k dmin E0 b sigma msig m I) as Bd. cbv zeta in Bd. set (sigma1 := fold_left _ (seq msig (m - msig)) sigma) in *.
    destruct (eigh (atilde K b sigma1 m)) as [ld1 alpha] eqn:Ee. cbn [fst snd] in Bd. set (b1 := rotate K alpha m b) in *. set (s1 := rotate K alpha m sigma1) in *.
    destruct Bd as (Lb1 & Ls1 & O1 & Sg & Rk & Ll & V1 & V0 & Rz). pose proof I as (L1 & L2 & O & Hs & L3 & L4 & L5 & L6 & V). clearbody s1; clear sigma1 Ee Hs O.
    specialize (Hck ltac:(lia)). replace (msig + (m - msig))%nat with m in E by lia.
    destruct (first_bad_spec t ld1 b1 s1 ck 0 ck eq_refl) as (B1 & B2 & B3). set (c := first_bad K t ld1 b1 s1 (seq 0 ck) ck) in *.
    assert (Rs : forall i, (i < m)%nat -> resid K ld1 b1 s1 i = vadd (A b1[[i]]) (vscale (-' (nth i ld1 0')) b1[[i]])) by (intros i Hi; unfold resid; now rewrite Sg).
    assert (Lq : length (resid K ld1 b1 s1 c) = n) by (apply (resid_len b1 s1 m); auto; lia).
    destruct (small K t (dot (resid K ld1 b1 s1 c) (resid K ld1 b1 s1 c))) eqn:Sm.
    + destruct (Nat.eqb_spec (S c) k) as [Ek|Nk].
      * rewrite Ek in E. assert (Ed : d = Dav K (firstn k ld1) (firstn k b1) (S xiter) true) by congruence. subst d. clear E. split; [|cbn [d_iter]; lia]. apply result_of; auto; [lia|]. intros _ i Hi. cbv zeta. rewrite <- Rs by lia.
        destruct (Nat.eq_dec i c) as [->|]; [exact Sm|apply B2; lia].
      * apply IH in E; [split; [apply E|destruct E; lia]| | |].
        -- split; [lia|]. split; [lia|]. split; [exact O1|]. split; [exact Sg|]. split; [lia|]. split; [lia|]. split; [lia|]. split; [lia|]. rewrite V0. exact V1.
        -- intros Nl. destruct (Nat.eqb_spec left 0); [congruence|lia].
        -- intros ->. cbn [Nat.eqb]. auto.
    + set (qo := match aa with None => Some (resid K ld1 b1 s1 c) | Some d => olsen K eps (resid K ld1 b1 s1 c) b1[[c]] (nth c ld1 0') d end) in E.
      assert (Lqo : forall q', qo = Some q' -> length q' = n).
      { unfold qo. intros q' Eq. destruct aa as [dd|]; [|injection Eq as <-; exact Lq]. apply olsen_len in Eq; auto. apply (ortho_len b1 m); [exact O1|lia]. }
      destruct qo as [q'|]; [|discriminate]. specialize (Lqo q' eq_refl).
      assert (Pick : exists m1, (if Nat.leb dmax m then (dmin, dmin) else (m, m)) = (m1, m1) /\ ((m1 <= length b1)%nat -> (k <= m1 <= m)%nat) /\ (m1 = m \/ m1 = dmin)).
      { destruct (Nat.leb dmax m); [exists dmin|exists m]; split; auto; split; auto; lia. }
      destruct Pick as (m1 & Em & Pm & Pc). rewrite Em in E. destruct (Nat.ltb_spec (length b1) m1) as [|Hm1]; [discriminate|]. specialize (Pm Hm1).
      destruct (normalize K nrm (project_out K (firstn m1 b1) q')) as [w|] eqn:Ew; [|discriminate].
      assert (Om1 : orthonormal b1 m1) by (intros i j Hi Hj; apply O1; lia).
      destruct (extend b1 m1 q' w Om1 Hm1 Lqo Ew) as (O2 & Keep & Lb2 & Lb2'). set (b2 := if Nat.leb (length b1) m1 then b1 ++ [w] else setn b1 m1 w) in *.
      apply IH in E; [split; [apply E|destruct E; lia]| | |].
      * split; [exact Lb2|]. split; [rewrite Lb2'; destruct (Nat.leb (length b1) m1); [rewrite app_length; cbn; lia|lia]|]. split; [exact O2|]. split.
        -- intros i Hi. rewrite Keep by assumption. rewrite <- Sg by lia. destruct (Nat.leb (length b1) m1); [rewrite app_nth1 by lia; reflexivity|reflexivity].
        -- split; [lia|]. split; [lia|]. split; [lia|]. split.
           ++ destruct Pc as [->| ->]; [|left; lia]. destruct L6 as [|L6]; [left; lia|right]. rewrite Lb2'. destruct (Nat.leb_spec (length b1) m); lia.
           ++ rewrite Keep by lia. rewrite V0. exact V1.
      * intros Nl. destruct (Nat.eqb_spec left 0); [congruence|lia].
      * intros ->. cbn [Nat.eqb]. split; [reflexivity|]. split; [|exact V1]. apply (ritz_ext k ld1 b1); auto; try lia. intros i Hi. apply Keep. lia.
Qed.

(** *** termination without a preconditioner *)
Lemma project_none : forall bs q, (forall v, In v bs -> length v = n /\ dot v q = 0') -> length q = n -> dot (project_out K bs q) (project_out K bs q) = dot q q /\ length (project_out K bs q) = n /\ (forall v, dot v (project_out K bs q) = dot v q).
Proof.
  unfold project_out. induction bs as [|b bs IH]; intros q H Lq; [auto|]. cbn [fold_left]. destruct (H b (or_introl eq_refl)) as [Lb Z]. rewrite Z.
  set (q1 := vadd q (vscale (-' 0') b)). assert (Lq1 : length q1 = n) by (apply vadd_len; auto using vscale_len).
  assert (Dq : forall v, dot v q1 = dot v q) by (intros v; unfold q1; rewrite dot_add_r, dot_scale_r; [ring|rewrite (vscale_len K n); auto]).
  destruct (IH q1) as (G1 & G2 & G3); [intros v Hv; rewrite Dq; apply H; now right|exact Lq1|]. split; [rewrite G1, Dq, dot_sym, Dq; reflexivity|]. split; [exact G2|]. intros v. rewrite G3. apply Dq.
Qed.
Lemma dav_converges : forall eps k t dmin dmax E0, olt 0' t -> (n < dmax)%nat ->
  forall left xiter b sigma ld ck msig m, dinv k dmin E0 b sigma msig m -> (ck < k)%nat -> ((n - m) * (k + 1) + (k - ck) <= left)%nat ->
  exists d, dav_loop K nrm eigh eps A None k t dmin dmax left xiter b sigma ld ck msig m = Done d /\ d_converged K d = true.
Proof.
  intros eps k t dmin dmax E0 Ht Hd. induction left as [|left IH]; intros xiter b sigma ld ck msig m I Hck Ml; pose proof (Nat.le_0_l ((n - m) * (k + 1))) as Nn0; [lia|].
  cbn [dav_loop]. pose proof (body k dmin E0 b sigma msig m I) as Bd. cbv zeta in Bd. set (sigma1 := fold_left _ (seq msig (m - msig)) sigma) in *.
  destruct (eigh (atilde K b sigma1 m)) as [ld1 alpha] eqn:Ee. cbn [fst snd] in Bd. set (b1 := rotate K alpha m b) in *. set (s1 := rotate K alpha m sigma1) in *.
  destruct Bd as (Lb1 & Ls1 & O1 & Sg & Rk & Ll & V1 & V0 & Rz). pose proof I as (L1 & L2 & O & Hs & L3 & L4 & L5 & L6 & V). clearbody s1; clear sigma1 Ee Hs.
  replace (msig + (m - msig))%nat with m by lia. pose proof (ortho_bound b m O L1) as Bm.
  destruct (first_bad_spec t ld1 b1 s1 ck 0 ck eq_refl) as (B1 & B2 & B3). set (c := first_bad K t ld1 b1 s1 (seq 0 ck) ck) in *.
  assert (Rs : forall i, (i < m)%nat -> resid K ld1 b1 s1 i = vadd (A b1[[i]]) (vscale (-' (nth i ld1 0')) b1[[i]])) by (intros i Hi; unfold resid; now rewrite Sg).
  assert (Lq : length (resid K ld1 b1 s1 c) = n) by (apply (resid_len b1 s1 m); auto; lia).
  destruct (small K t (dot (resid K ld1 b1 s1 c) (resid K ld1 b1 s1 c))) eqn:Sm.
  - assert (c = ck) as Ec by (destruct (Nat.eq_dec c ck); [assumption|assert (Lt : (c < ck)%nat) by lia; specialize (B3 Lt); congruence]).
    destruct (Nat.eqb_spec (S c) k) as [Ek|Nk]; [eexists; split; reflexivity|].
    destruct (Nat.eqb_spec left 0) as [Z|_]; [lia|]. apply IH; [|lia|lia].
    split; [lia|]. split; [lia|]. split; [exact O1|]. split; [exact Sg|]. split; [lia|]. split; [lia|]. split; [lia|]. split; [lia|]. rewrite V0. exact V1.
  - destruct (Nat.leb_spec dmax m) as [|_]; [lia|]. destruct (Nat.ltb_spec (length b1) m) as [|_]; [lia|].
    set (q := resid K ld1 b1 s1 c) in *.
    assert (Zq : forall v, In v (firstn m b1) -> length v = n /\ dot v q = 0').
    { intros v Hv. apply (In_nth _ _ []) in Hv. destruct Hv as (i & Hi & <-). rewrite firstn_length_le in Hi by lia. rewrite firstn_at by exact Hi. pose proof (ortho_len b1 m i O1 Hi) as Li. split; [exact Li|].
      unfold q. rewrite Rs by lia. pose proof (ortho_len b1 m c O1 ltac:(lia)) as Lc. rewrite dot_add_r, dot_scale_r; [|rewrite (vscale_len K n), (proj1 LA); auto]. rewrite Rz by lia. destruct (O1 i c Hi ltac:(lia)) as [_ ->]. ring. }
    destruct (project_none (firstn m b1) q Zq Lq) as (P1 & P2 & P3).
    assert (Nn : nrm (project_out K (firstn m b1) q) <> 0').
    { intros Z. apply (small_false_nz K t _ Ht Sm). rewrite <- P1, <- Hn by exact P2. rewrite Z. ring. }
    destruct (normalize K nrm (project_out K (firstn m b1) q)) as [w|] eqn:Ew.
    2: { unfold normalize in Ew. destruct (oeqb_spec K (nrm (project_out K (firstn m b1) q)) 0'); [congruence|discriminate]. }
    destruct (extend b1 m q w O1 ltac:(lia) Lq Ew) as (O2 & Keep & Lb2 & Lb2'). set (b2 := if Nat.leb (length b1) m then b1 ++ [w] else setn b1 m w) in *.
    pose proof (ortho_bound b2 (S m) O2 Lb2) as Bm2.
    assert (Me : ((n - S m) * (k + 1) + (k - c) < (n - m) * (k + 1) + (k - ck))%nat).
    { replace (n - m)%nat with (S (n - S m)) by lia. cbn [Nat.mul]. lia. }
    pose proof (Nat.le_0_l ((n - S m) * (k + 1))) as Nn1.
    destruct (Nat.eqb_spec left 0) as [Z|_]; [lia|].
    apply IH; [|lia|lia].
    split; [exact Lb2|]. split; [rewrite Lb2'; destruct (Nat.leb (length b1) m); [rewrite app_length; cbn; lia|lia]|]. split; [exact O2|]. split.
    + intros i Hi. rewrite Keep by assumption. rewrite <- Sg by lia. destruct (Nat.leb (length b1) m); [rewrite app_nth1 by lia; reflexivity|reflexivity].
    + split; [lia|]. split; [lia|]. split; [lia|]. split.
      * destruct L6 as [|L6]; [left; lia|right]. rewrite Lb2'. destruct (Nat.leb_spec (length b1) m); lia.
      * rewrite Keep by lia. rewrite V0. exact V1.
Qed.
End Dav.
