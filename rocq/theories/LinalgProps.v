(** C35: the conjugate gradient solver; C58: the Davidson eigensolver (pyblock3/algebra/linalg.py). *)
From Coq Require Import ZArith Bool List Lia Ring QArith Qcanon Reals Lra.
From Verif Require Import IndexLib RingLib OrdLib HeisModel LinalgModel LinalgProofs DavidsonProofs.
Import ListNotations.
Open Scope nat_scope.

Section Spec.
Variable K : OField.
Add Ring KSR : (rth K).
Notation "0'" := (r0 K). Notation "1'" := (r1 K). Notation "-'" := (ropp K).
Infix "+'" := (radd K) (at level 50, left associativity). Infix "*'" := (rmul K) (at level 40, left associativity). Infix "-^" := (rsub K) (at level 50, left associativity).
Notation vec := (list K).
(** specification: inner product, matrix of an operator, squared length of a difference *)
Definition inner (n : nat) (u v : vec) : K := bsum (seq 0 n) (fun i => nth i u 0' *' nth i v 0').
Definition matrix_of (n : nat) (M : nat -> nat -> K) (A : vec -> vec) : Prop :=
  forall v, length v = n -> length (A v) = n /\ forall i, i < n -> nth i (A v) 0' = bsum (seq 0 n) (fun j => M i j *' nth j v 0').
Definition sym_matrix (n : nat) (M : nat -> nat -> K) : Prop := forall i j, i < n -> j < n -> M i j = M j i.
Definition pos_matrix (n : nat) (M : nat -> nat -> K) : Prop :=
  forall v, length v = n -> (exists i, i < n /\ nth i v 0' <> 0') -> olt 0' (bsum (seq 0 n) (fun i => nth i v 0' *' bsum (seq 0 n) (fun j => M i j *' nth j v 0'))).
Definition dist2 (n : nat) (u v : vec) : K := bsum (seq 0 n) (fun i => (nth i u 0' -^ nth i v 0') *' (nth i u 0' -^ nth i v 0')).

Section Op.
Variables (n : nat) (M : nat -> nat -> K) (A : vec -> vec).
Hypothesis HM : matrix_of n M A.
Lemma inner_dot : forall u v, length u = n -> length v = n -> dot K u v = inner n u v. Proof. exact (dot_nth K n). Qed.
Lemma A_linear : linear K n A.
Proof.
  split; [intros u H; apply (HM u H)|]. split.
  - intros u v Hu Hv. destruct (HM u Hu) as [Lu Eu]. destruct (HM v Hv) as [Lv Ev]. destruct (HM (vadd K u v) (vadd_len K n u v Hu Hv)) as [Ls Es].
    apply vec_ext; [rewrite Ls; symmetry; now apply vadd_len|]. intros i Hi. rewrite Ls in Hi. rewrite Es, nth_vadd, Eu, Ev by (assumption || congruence).
    rewrite <- bsum_add. apply bsum_ext. intros j _. rewrite nth_vadd by congruence. ring.
  - intros c u Hu. destruct (HM u Hu) as [Lu Eu]. destruct (HM (vscale K c u) (vscale_len K n c u Hu)) as [Ls Es].
    apply vec_ext; [rewrite Ls; symmetry; now apply vscale_len|]. intros i Hi. rewrite Ls in Hi. rewrite Es, nth_vscale, Eu by assumption.
    rewrite <- bsum_mull. apply bsum_ext. intros j _. rewrite nth_vscale. ring.
Qed.
Lemma A_quad : forall u v, length u = n -> length v = n -> dot K u (A v) = bsum (seq 0 n) (fun i => nth i u 0' *' bsum (seq 0 n) (fun j => M i j *' nth j v 0')).
Proof.
  intros u v Hu Hv. destruct (HM v Hv) as [Lv Ev]. rewrite inner_dot by assumption. apply bsum_ext. intros i Hi. apply in_seq in Hi. rewrite Ev by lia. reflexivity.
Qed.
Lemma A_symmetric : sym_matrix n M -> symmetric K n A.
Proof.
  intros Sy u v Hu Hv. rewrite dot_sym, !A_quad by assumption.
  transitivity (bsum (seq 0 n) (fun i => bsum (seq 0 n) (fun j => nth i v 0' *' (M i j *' nth j u 0')))); [apply bsum_ext; intros; symmetry; apply bsum_mull|].
  rewrite bsum_swap. apply bsum_ext. intros i Hi. apply in_seq in Hi. rewrite <- bsum_mull. apply bsum_ext. intros j Hj. apply in_seq in Hj. rewrite (Sy j i) by lia. ring.
Qed.
Lemma A_positive : pos_matrix n M -> positive K n A.
Proof.
  intros Po u Hu (x & Hx & Nx). rewrite A_quad by assumption. apply Po; [exact Hu|]. apply (In_nth _ _ 0') in Hx. destruct Hx as (i & Hi & <-). exists i. split; [lia|exact Nx].
Qed.
Lemma residual_dist : forall b x, length b = n -> length x = n -> length (residual K A b x) = n /\ forall i, i < n -> nth i (residual K A b x) 0' = nth i b 0' -^ nth i (A x) 0'.
Proof.
  intros b x Hb Hx. destruct (HM x Hx) as [Lx _]. unfold residual. split; [apply vadd_len; auto using vscale_len|]. intros i Hi. rewrite nth_vadd, nth_vscale by (rewrite (vscale_len K n); congruence). ring.
Qed.
Lemma start_residual : forall b x, length b = n -> length x = n -> vadd K (vscale K (-' 1') (A x)) b = residual K A b x.
Proof.
  intros b x Hb Hx. destruct (HM x Hx) as [Lx _]. destruct (residual_dist b x Hb Hx) as [Lr Er].
  assert (Ls : length (vadd K (vscale K (-' 1') (A x)) b) = n) by (apply vadd_len; auto using vscale_len).
  apply vec_ext; [congruence|]. intros i Hi. rewrite Ls in Hi. rewrite Er by assumption. rewrite nth_vadd, nth_vscale by (rewrite (vscale_len K n); congruence). ring.
Qed.
End Op.

(** *** the preconditioner *)
Definition weight (eps d : K) : K := if oltb eps (kabs K d) then finv K d else 1'.
Lemma precondition_some : forall eps d u, length u = length d -> length (precondition K eps (Some d) u) = length u /\
  forall i, i < length u -> nth i (precondition K eps (Some d) u) 0' = nth i u 0' *' weight eps (nth i d 0').
Proof.
  intros eps d u L. unfold precondition. split; [rewrite map_length, combine_length; lia|]. intros i Hi.
  set (f := fun p : K * K => if oltb eps (kabs K (snd p)) then fst p *' finv K (snd p) else fst p).
  rewrite (nth_indep _ 0' (f (0', 0'))) by (rewrite map_length, combine_length; lia). rewrite map_nth, combine_nth by exact L. unfold f, weight. cbn [fst snd]. destruct (oltb eps _); [reflexivity|ring].
Qed.
Lemma precondition_ok : forall n eps diag, (forall d, diag = Some d -> length d = n) -> prec_len K n (precondition K eps diag) /\ symmetric K n (precondition K eps diag).
Proof.
  intros n eps [d|] H.
  - specialize (H d eq_refl). assert (L : prec_len K n (precondition K eps (Some d))) by (intros u Hu; rewrite (proj1 (precondition_some eps d u ltac:(lia))); exact Hu).
    split; [exact L|]. intros u v Hu Hv. rewrite (dot_nth K n) by (auto; now apply L). rewrite (dot_nth K n) by (auto; now apply L). apply bsum_ext. intros i Hi. apply in_seq in Hi.
    rewrite (proj2 (precondition_some eps d u ltac:(lia)) i) by lia. rewrite (proj2 (precondition_some eps d v ltac:(lia)) i) by lia. ring.
  - split; [intros u Hu; exact Hu|intros u v _ _; reflexivity].
Qed.
Lemma small_true : forall t e, small K t e = true -> olt 0' t /\ olt e (t *' t) /\ olt (-' (t *' t)) e.
Proof.
  intros t e H. unfold small in H. apply andb_prop in H. destruct H as [H1 H2]. unfold oltb in H1, H2. apply negb_true_iff in H1, H2. change (olt 0' t) in H1. change (olt (kabs K e) (t *' t)) in H2.
  split; [exact H1|]. unfold kabs in H2. destruct (oleb K 0' e) eqn:E0.
  - split; [exact H2|]. apply olt_le_trans with 0'; [|exact E0]. apply olt_sub. replace (0' -^ -' (t *' t)) with (t *' t) by ring. exact (ole_lt_trans K _ _ _ E0 H2).
  - change (olt e 0') in E0. assert (T0 : olt 0' (t *' t)) by exact (oltb_mul K t t H1 H1). split; [exact (ole_lt_trans K _ _ _ (olt_ole K _ _ E0) T0)|].
    apply olt_sub. replace (e -^ -' (t *' t)) with (t *' t -^ -' e) by ring. now apply (proj1 (olt_sub K _ _)).
Qed.
Lemma cg_sound : forall n M A eps diag x b max_iter t f x' it, matrix_of n M A -> (forall d, diag = Some d -> length d = n) -> length x = n -> length b = n ->
  conjugate_gradient K eps A diag x b max_iter t = Done (f, x', it) ->
  length x' = n /\ f = inner n x' b /\ small K t (dot K (precondition K eps diag (residual K A b x')) (residual K A b x')) = true /\ 1 <= it /\ (it <= 1 \/ it <= max_iter).
Proof.
  intros n M A eps diag x b max_iter t f x' it HM Hd Lx Lb E. unfold conjugate_gradient in E. rewrite (start_residual n M A HM b x Lb Lx) in E.
  destruct (small K t (dot K (precondition K eps diag (residual K A b x)) (residual K A b x))) eqn:S0.
  - injection E as <- <- <-. split; [exact Lx|]. split; [apply inner_dot; assumption|]. split; [exact S0|lia].
  - destruct (precondition_ok n eps diag Hd) as [Lp _]. destruct (residual_dist n M A HM b x Lb Lx) as [Lr _].
    destruct (cg_loop_sound K n A (precondition K eps diag) b t (A_linear n M A HM) Lp Lb _ _ _ _ _ _ _ _ Lx (Lp _ Lr) E) as (L' & Ef & Sm & B).
    split; [exact L'|]. split; [rewrite Ef; now apply inner_dot|]. split; [exact Sm|lia].
Qed.

(** C35: without a diagonal the returned vector has |b - A x|^2 < thrd^2, and the returned number is x . b *)
Theorem c35_residual : forall n M A eps x b max_iter t f x' it, matrix_of n M A -> length x = n -> length b = n ->
  conjugate_gradient K eps A None x b max_iter t = Done (f, x', it) ->
  length x' = n /\ f = inner n x' b /\ olt 0' t /\ olt (dist2 n b (A x')) (t *' t) /\ 1 <= it /\ (it <= 1 \/ it <= max_iter).
Proof.
  intros n M A eps x b max_iter t f x' it HM Lx Lb E. destruct (cg_sound n M A eps None x b max_iter t f x' it HM ltac:(discriminate) Lx Lb E) as (L' & Ef & Sm & B).
  split; [exact L'|]. split; [exact Ef|]. cbn [precondition] in Sm. apply small_true in Sm. destruct Sm as (T & Sm & _). split; [exact T|]. split; [|exact B].
  destruct (residual_dist n M A HM b x' Lb L') as [Lr Er]. rewrite (inner_dot n _ _ Lr Lr) in Sm. unfold inner in Sm. unfold dist2.
  rewrite (bsum_ext K _ (seq 0 n) _ (fun i => nth i (residual K A b x') 0' *' nth i (residual K A b x') 0')); [exact Sm|]. intros i Hi. apply in_seq in Hi. rewrite Er by lia. reflexivity.
Qed.
(** C35: with a positive diagonal bounded by c the true residual satisfies |b - A x|^2 < c thrd^2 *)
Theorem c35_preconditioned : forall n M A eps d c x b max_iter t f x' it, matrix_of n M A -> length d = n -> length x = n -> length b = n -> ole 0' eps -> 
  (forall i, i < n -> olt eps (nth i d 0') /\ ole (nth i d 0') c) -> olt 0' c ->
  conjugate_gradient K eps A (Some d) x b max_iter t = Done (f, x', it) ->
  length x' = n /\ f = inner n x' b /\ olt (dist2 n b (A x')) (c *' (t *' t)).
Proof.
  intros n M A eps d c x b max_iter t f x' it HM Ld Lx Lb He Hd Hc E. destruct (cg_sound n M A eps (Some d) x b max_iter t f x' it HM ltac:(intros d0 E0; injection E0 as <-; exact Ld) Lx Lb E) as (L' & Ef & Sm & B).
  split; [exact L'|]. split; [exact Ef|]. apply small_true in Sm. destruct Sm as (T & Sm & _).
  destruct (residual_dist n M A HM b x' Lb L') as [Lr Er]. set (r := residual K A b x') in *.
  destruct (precondition_some eps d r ltac:(lia)) as [Lp Ep]. rewrite (inner_dot n) in Sm by lia. unfold inner in Sm.
  apply ole_lt_trans with (c *' bsum (seq 0 n) (fun i => nth i (precondition K eps (Some d) r) 0' *' nth i r 0')).
  - unfold dist2. rewrite <- bsum_mull. apply bsum_ole. intros i Hi. apply in_seq in Hi. rewrite <- Er by lia. rewrite Ep by lia. destruct (Hd i ltac:(lia)) as [H1 H2]. set (di := nth i d 0') in *. set (ri := nth i r 0').
    assert (P0 : olt 0' di) by exact (ole_lt_trans K _ _ _ He H1).
    assert (W : weight eps di = finv K di). { unfold weight, kabs. rewrite (olt_ole K _ _ P0). unfold oltb. rewrite H1. reflexivity. }
    rewrite W. assert (N0 : di <> 0') by (intros Z; rewrite Z in P0; exact (olt_irrefl K 0' P0)). pose proof (finv_r K di N0) as I.
    assert (Pi : ole 0' (finv K di)).
    { destruct (ole_or_olt K 0' (finv K di)) as [|Q]; [assumption|]. exfalso. assert (Q' : olt 0' (-' (finv K di))) by (apply olt_sub; replace (-' (finv K di) -^ 0') with (0' -^ finv K di) by ring; now apply (proj1 (olt_sub K _ _))).
      pose proof (oltb_mul K _ _ P0 Q') as X. change (olt 0' (di *' -' (finv K di))) in X. replace (di *' -' (finv K di)) with (-' (di *' finv K di)) in X by ring. rewrite I in X.
      pose proof (ole_sq K 1') as X1. replace (1' *' 1') with 1' in X1 by ring. pose proof (ole_add_r K _ _ (-' 1') X1) as X2. replace (0' +' -' 1') with (-' 1') in X2 by ring. replace (1' +' -' 1') with 0' in X2 by ring. apply (olt_not_ole K) in X. contradiction. }
    apply (ole_sub K). replace (c *' (ri *' finv K di *' ri) -^ ri *' ri) with (c *' (ri *' finv K di *' ri) -^ (di *' finv K di) *' (ri *' ri)) by (rewrite I; ring).
    replace (c *' (ri *' finv K di *' ri) -^ di *' finv K di *' (ri *' ri)) with ((c -^ di) *' (finv K di *' (ri *' ri))) by ring.
    apply oleb_mul; [now apply (proj1 (ole_sub K _ _))|]. apply oleb_mul; [exact Pi|apply ole_sq].
  - apply olt_sub. set (s := bsum (seq 0 n) _) in *. replace (c *' (t *' t) -^ c *' s) with (c *' (t *' t -^ s)) by ring. apply (oltb_mul K); [exact Hc|]. now apply (proj1 (olt_sub K _ _)).
Qed.
(** C35: a symmetric positive definite system of n equations is solved after at most n steps, with any diagonal *)
Theorem c35_terminates : forall n M A eps diag x b max_iter t, matrix_of n M A -> sym_matrix n M -> pos_matrix n M -> (forall d, diag = Some d -> length d = n) ->
  length x = n -> length b = n -> olt 0' t -> n < max_iter ->
  exists f x' it, conjugate_gradient K eps A diag x b max_iter t = Done (f, x', it) /\ it <= n + 1.
Proof.
  intros n M A eps diag x b max_iter t HM Sy Po Hd Lx Lb Ht Hn. unfold conjugate_gradient. rewrite (start_residual n M A HM b x Lb Lx).
  destruct (precondition_ok n eps diag Hd) as [Lp Sp]. destruct (residual_dist n M A HM b x Lb Lx) as [Lr _]. set (r := residual K A b x) in *.
  destruct (small K t (dot K (precondition K eps diag r) r)) eqn:S0; [eexists _, _, _; split; [reflexivity|lia]|].
  destruct (cg_loop_terminates K n A (precondition K eps diag) (A_linear n M A HM) (A_symmetric n M A HM Sy) (A_positive n M A HM Po) Lp Sp b t Ht max_iter 0 x r (precondition K eps diag r) []) as (f & x' & it & E & Bi).
  - cbn [cg_inv]. split; [exact Lr|]. split; [now apply Lp|]. split; [exact (small_false_nz K t _ Ht S0)|]. split; [reflexivity|]. split; [intros q s []|reflexivity].
  - cbn [length]. lia.
  - exact Lx.
  - exact Lb.
  - exists f, x', it. split; [exact E|]. cbn [length] in Bi. lia.
Qed.

(** *** Davidson *)
Definition orthonormal_list (n k : nat) (vs : list vec) : Prop :=
  forall i j, i < k -> j < k -> length (nth i vs []) = n /\ inner n (nth i vs []) (nth j vs []) = if Nat.eqb i j then 1' else 0'.
(* numpy.linalg.norm *)
Definition norm_spec (n : nat) (nrm : vec -> K) : Prop := forall v, length v = n -> nrm v *' nrm v = inner n v v.
Lemma norm_dot : forall n nrm, norm_spec n nrm -> forall v, length v = n -> nrm v *' nrm v = dot K v v.
Proof. intros n nrm H v L. rewrite (inner_dot n) by assumption. now apply H. Qed.
Lemma ortho_eq : forall n vs k, orthonormal K n vs k <-> orthonormal_list n k vs.
Proof.
  intros n vs k. split; intros H i j Hi Hj; destruct (H i j Hi Hj) as [L E]; destruct (H j j Hj Hj) as [Lj _]; (split; [exact L|]).
  - rewrite <- (inner_dot n) by assumption. exact E.
  - rewrite (inner_dot n) by assumption. exact E.
Qed.
(* entering the loop *)
Lemma enter : forall n M A nrm k dmin b b', matrix_of n M A -> norm_spec n nrm -> (forall v, In v b -> length v = n) -> length b = k -> 0 < k ->
  orthonormalise K nrm [] b = Some b' -> dinv K n A k (if Nat.ltb dmin k then k else dmin) (dot K (nth 0 b' []) (A (nth 0 b' []))) b' (map (fun _ => []) b') 0 k /\
  nth 0 b' [] = vscale K (finv K (nrm (nth 0 b []))) (nth 0 b []) /\ nrm (nth 0 b []) <> 0'.
Proof.
  intros n M A nrm k dmin b b' HM Hn Hb Lk Hk E. pose proof (norm_dot n nrm Hn) as Hn'.
  destruct (orthonormalise_ok K n nrm Hn' b [] b') as (O & L & _); [intros i j Hi; cbn in Hi; lia|exact Hb|exact E|]. cbn [length plus] in L. rewrite L, Lk in O.
  split.
  - split; [lia|]. split; [apply map_length|]. split; [exact O|]. split; [intros; lia|]. split; [lia|]. split; [lia|]. split; [destruct (Nat.ltb_spec dmin k); lia|]. split; [right; lia|]. apply ole_refl.
  - destruct b as [|v b]; [cbn in Lk; lia|]. cbn [orthonormalise project_out fold_left] in E. cbn [nth].
    unfold normalize in E. destruct (oeqb_spec K (nrm v) 0') as [|N]; [discriminate|]. split; [|exact N].
    assert (Lv : length v = n) by (apply Hb; now left).
    assert (Nw : normalize K nrm v = Some (vscale K (finv K (nrm v)) v)) by (unfold normalize; destruct (oeqb_spec K (nrm v) 0'); [contradiction|reflexivity]).
    destruct (normalize_unit K n nrm Hn' v _ Lv Nw) as (Lw & Uw & _).
    assert (O1 : orthonormal K n [vscale K (finv K (nrm v)) v] 1).
    { intros i j Hi Hj. assert (i = 0) as -> by lia. assert (j = 0) as -> by lia. cbn [nth]. split; [exact Lw|exact Uw]. }
    destruct (orthonormalise_ok K n nrm Hn' b ([] ++ [vscale K (finv K (nrm v)) v]) b' O1 ltac:(intros u Hu; apply Hb; now right) E) as (_ & _ & Keep). exact (Keep 0 ltac:(cbn; lia)).
Qed.
Lemma davidson_sound : forall n M A nrm eigh eps aa b k max_iter t dmin dmax d, matrix_of n M A -> sym_matrix n M -> norm_spec n nrm -> eigh_spec K n eigh ->
  (forall v, aa = Some v -> length v = n) -> (forall v, In v b -> length v = n) -> davidson K nrm eigh eps A aa b k max_iter t dmin dmax = Some (Done d) ->
  0 < k /\ length b = k /\ exists b', orthonormalise K nrm [] b = Some b' /\ result_ok K n A k t (dot K (nth 0 b' []) (A (nth 0 b' []))) d /\ d_iter K d <= max_iter.
Proof.
  intros n M A nrm eigh eps aa b k max_iter t dmin dmax d HM Sy Hn He Ha Hb E. unfold davidson in E.
  destruct (Nat.eqb_spec (length b) k) as [Lk|]; [|discriminate]. destruct (Nat.eqb_spec k 0) as [|Nk]; [discriminate|]. destruct (Nat.eqb_spec max_iter 0) as [|Nm]; [discriminate|]. cbn [negb andb] in E.
  destruct (orthonormalise K nrm [] b) as [b'|] eqn:Eo; [|discriminate]. split; [lia|]. split; [exact Lk|]. exists b'. split; [reflexivity|].
  destruct (enter n M A nrm k dmin b b' HM Hn Hb Lk ltac:(lia) Eo) as (I & _).
  assert (E' : dav_loop K nrm eigh eps A aa k t (if Nat.ltb dmin k then k else dmin) dmax max_iter 0 b' (map (fun _ => []) b') [] 0 0 k = Done d) by congruence.
  apply (dav_sound K n A (A_linear n M A HM) (A_symmetric n M A HM Sy) nrm (norm_dot n nrm Hn) eigh He eps aa k t _ dmax (dot K (nth 0 b' []) (A (nth 0 b' []))) Ha) in E'.
  - destruct E' as [R B]. split; [exact R|lia].
  - exact I.
  - intros _. lia.
  - intros; lia.
Qed.

(** C58: the k returned vectors are orthonormal, A is diagonal in them with the returned ascending numbers on the
    diagonal, and if the loop was left by convergence every residual is below the threshold *)
Theorem c58_eigenpairs : forall n M A nrm eigh eps aa b k max_iter t dmin dmax d, matrix_of n M A -> sym_matrix n M -> norm_spec n nrm -> eigh_spec K n eigh ->
  (forall v, aa = Some v -> length v = n) -> (forall v, In v b -> length v = n) -> davidson K nrm eigh eps A aa b k max_iter t dmin dmax = Some (Done d) ->
  length (d_vals K d) = k /\ length (d_vecs K d) = k /\ orthonormal_list n k (d_vecs K d) /\
  (forall i j, i < k -> j < k -> inner n (nth i (d_vecs K d) []) (A (nth j (d_vecs K d) [])) = if Nat.eqb i j then nth j (d_vals K d) 0' else 0') /\
  (forall i j, i <= j -> j < k -> ole (nth i (d_vals K d) 0') (nth j (d_vals K d) 0')) /\
  (d_converged K d = true -> olt 0' t /\ forall i, i < k ->
     olt (dist2 n (A (nth i (d_vecs K d) [])) (map (fun x => nth i (d_vals K d) 0' *' x) (nth i (d_vecs K d) []))) (t *' t)) /\
  d_iter K d <= max_iter.
Proof.
  intros n M A nrm eigh eps aa b k max_iter t dmin dmax d HM Sy Hn He Ha Hb E.
  destruct (davidson_sound n M A nrm eigh eps aa b k max_iter t dmin dmax d HM Sy Hn He Ha Hb E) as (Hk & _ & b' & _ & (L1 & L2 & (_ & _ & O & Rz & As) & V & Cv) & B).
  split; [exact L1|]. split; [exact L2|]. split; [now apply ortho_eq|]. split.
  - intros i j Hi Hj. destruct (O i i Hi Hi) as [Li _]. destruct (O j j Hj Hj) as [Lj _]. destruct (HM _ Lj) as [LA _]. rewrite <- (inner_dot n) by assumption. rewrite (Rz i j Hi Hj). unfold kd. destruct (Nat.eqb i j); ring.
  - split; [exact As|]. split; [|exact B]. intros C. specialize (Cv C). split; [exact (proj1 (small_true _ _ (Cv 0 Hk)))|]. intros i Hi. specialize (Cv i Hi). cbv zeta in Cv.
    destruct (O i i Hi Hi) as [Li _]. set (v := nth i (d_vecs K d) []) in *. set (e := nth i (d_vals K d) 0') in *. destruct (HM _ Li) as [LA _].
    assert (Lq : length (vadd K (A v) (vscale K (-' e) v)) = n) by (apply vadd_len; auto using vscale_len).
    apply small_true in Cv. destruct Cv as (_ & Cv & _). rewrite (inner_dot n) in Cv by assumption. unfold inner in Cv. unfold dist2.
    rewrite (bsum_ext K _ (seq 0 n) _ (fun i => nth i (vadd K (A v) (vscale K (-' e) v)) 0' *' nth i (vadd K (A v) (vscale K (-' e) v)) 0')); [exact Cv|].
    intros l Hl. apply in_seq in Hl. rewrite nth_vadd, nth_vscale by (rewrite (vscale_len K n); congruence).
    assert (G : nth l (map (fun x => e *' x) v) 0' = e *' nth l v 0') by exact (nth_vscale K e v l). rewrite G. ring.
Qed.
(** C58: the lowest returned number is at most the Rayleigh quotient of the first initial vector *)
Theorem c58_variational : forall n M A nrm eigh eps aa b k max_iter t dmin dmax d, matrix_of n M A -> sym_matrix n M -> norm_spec n nrm -> eigh_spec K n eigh ->
  (forall v, aa = Some v -> length v = n) -> (forall v, In v b -> length v = n) -> davidson K nrm eigh eps A aa b k max_iter t dmin dmax = Some (Done d) ->
  ole (nth 0 (d_vals K d) 0' *' inner n (nth 0 b []) (nth 0 b [])) (inner n (nth 0 b []) (A (nth 0 b []))).
Proof.
  intros n M A nrm eigh eps aa b k max_iter t dmin dmax d HM Sy Hn He Ha Hb E.
  destruct (davidson_sound n M A nrm eigh eps aa b k max_iter t dmin dmax d HM Sy Hn He Ha Hb E) as (Hk & Lk & b' & Eo & (L1 & L2 & _ & V & _) & _).
  destruct (enter n M A nrm k dmin b b' HM Hn Hb Lk Hk Eo) as (_ & E0 & N0). rewrite E0 in V. set (v := nth 0 b []) in *.
  assert (Lv : length v = n) by (apply Hb; apply nth_In; lia). destruct (HM v Lv) as [LAv _]. pose proof (A_linear n M A HM) as (_ & _ & As).
  rewrite As, dot_scale_l, dot_scale_r in V by exact Lv. rewrite (inner_dot n) in V by assumption. rewrite <- Hn by exact Lv. set (w := nrm v) in *. pose proof (finv_r K w N0) as I.
  replace (inner n v (A v)) with (finv K w *' (finv K w *' inner n v (A v)) *' (w *' w)).
  - apply (ole_sub K). set (q := finv K w *' (finv K w *' inner n v (A v))) in *. replace (q *' (w *' w) -^ nth 0 (d_vals K d) 0' *' (w *' w)) with ((q -^ nth 0 (d_vals K d) 0') *' (w *' w)) by ring.
    apply oleb_mul; [now apply (proj1 (ole_sub K _ _))|apply ole_sq].
  - replace (finv K w *' (finv K w *' inner n v (A v)) *' (w *' w)) with ((w *' finv K w) *' (w *' finv K w) *' inner n v (A v)) by ring. rewrite I. ring.
Qed.

(** *** termination: the initial vectors are linearly independent *)
Definition independent (n : nat) (bs : list vec) : Prop :=
  forall c : nat -> K, (forall l, l < n -> bsum (seq 0 (length bs)) (fun j => c j *' nth l (nth j bs []) 0') = 0') -> forall j, j < length bs -> c j = 0'.
Definition spanned (n m : nat) (bs : list vec) (w : vec) : Prop := exists c : nat -> K, forall l, l < n -> nth l w 0' = bsum (seq 0 m) (fun j => c j *' nth l (nth j bs []) 0').
Lemma span_step : forall n m bs w, spanned n m bs w -> spanned n (S m) bs w.
Proof.
  intros n m bs w (c & H). exists (fun j => if Nat.ltb j m then c j else 0'). intros l Hl. rewrite H by exact Hl. rewrite seq_S, bsum_app, bsum_cons, bsum_nil. cbn [plus]. rewrite Nat.ltb_irrefl.
  transitivity (bsum (seq 0 m) (fun j => (if Nat.ltb j m then c j else 0') *' nth l (nth j bs []) 0')); [|ring]. apply bsum_ext. intros j Hj. apply in_seq in Hj. destruct (Nat.ltb_spec j m); [reflexivity|lia].
Qed.
Lemma span_project : forall n m bs ds q, length q = n -> (forall d, In d ds -> length d = n /\ spanned n m bs d) -> 
  exists c : nat -> K, forall l, l < n -> nth l (project_out K ds q) 0' = nth l q 0' +' bsum (seq 0 m) (fun j => c j *' nth l (nth j bs []) 0').
Proof.
  intros n m bs. unfold project_out. induction ds as [|d ds IH]; intros q Lq H.
  - exists (fun _ => 0'). intros l Hl. cbn [fold_left]. rewrite bsum_zero by (intros; ring). ring.
  - cbn [fold_left]. destruct (H d (or_introl eq_refl)) as [Ld (c & Hc)]. destruct (IH (vadd K q (vscale K (-' (dot K d q)) d))) as (c' & Hc').
    + apply vadd_len; auto using vscale_len.
    + intros; apply H; now right.
    + exists (fun j => c' j +' (-' (dot K d q)) *' c j). intros l Hl. rewrite Hc' by exact Hl. rewrite nth_vadd, nth_vscale, Hc by (assumption || (rewrite (vscale_len K n); congruence)).
      rewrite <- bsum_mull. rewrite (bsum_ext K _ (seq 0 m) (fun j => (c' j +' (-' (dot K d q)) *' c j) *' nth l (nth j bs []) 0') (fun j => (-' (dot K d q)) *' (c j *' nth l (nth j bs []) 0') +' c' j *' nth l (nth j bs []) 0')) by (intros; ring).
      rewrite bsum_add. ring.
Qed.
Lemma sum_sq_zero : forall l (f : nat -> K), bsum l (fun i => f i *' f i) = 0' -> forall i, In i l -> f i = 0'.
Proof.
  induction l as [|x l IH]; intros f H i Hi; [destruct Hi|]. rewrite bsum_cons in H. assert (P1 : ole 0' (f x *' f x)) by apply ole_sq. assert (P2 : ole 0' (bsum l (fun i => f i *' f i))) by (apply bsum_ole0; intros; apply ole_sq).
  assert (Z1 : f x *' f x = 0').
  { destruct (ole_eq_lt K _ _ P1) as [Z|Q]; [now symmetry|]. exfalso. pose proof (ole_add_l K _ _ (f x *' f x) P2) as X. rewrite H in X. replace (f x *' f x +' 0') with (f x *' f x) in X by ring. apply (olt_not_ole K) in Q. contradiction. }
  assert (Z2 : bsum l (fun i => f i *' f i) = 0') by (rewrite Z1 in H; transitivity (0' +' bsum l (fun i => f i *' f i)); [ring|exact H]).
  destruct Hi as [<-|Hi]; [|now apply IH]. destruct (oeqb_spec K (f x) 0') as [|N]; [assumption|]. exact (mul_cancel K _ _ N Z1).
Qed.
Lemma orthonormalise_total : forall n nrm bs, norm_spec n nrm -> independent n bs -> (forall v, In v bs -> length v = n) ->
  forall todo pre done, bs = pre ++ todo -> (forall d, In d done -> length d = n /\ spanned n (length pre) bs d) -> exists r, orthonormalise K nrm done todo = Some r.
Proof.
  intros n nrm bs Hn Hi Hb. induction todo as [|v todo IH]; intros pre done Eb Hd; cbn [orthonormalise]; [eauto|].
  assert (Lv : length v = n) by (apply Hb; rewrite Eb; apply in_or_app; right; now left).
  destruct (span_project n (length pre) bs done v Lv Hd) as (c & Hc). set (q := project_out K done v) in *.
  assert (Lq : length q = n) by (apply project_len; [intros; now apply Hd|exact Lv]).
  assert (Ev : nth (length pre) bs [] = v) by (rewrite Eb, app_nth2, Nat.sub_diag by lia; reflexivity).
  assert (Lb : length bs = length pre + S (length todo)) by (rewrite Eb, app_length; reflexivity).
  unfold normalize. destruct (oeqb_spec K (nrm q) 0') as [Z|N].
  - exfalso. assert (Zq : forall l, l < n -> nth l q 0' = 0').
    { intros l Hl. apply (sum_sq_zero (seq 0 n) (fun i => nth i q 0')); [|apply in_seq; lia]. change (inner n q q = 0'). rewrite <- Hn by exact Lq. rewrite Z. ring. }
    assert (F : (if Nat.ltb (length pre) (length pre) then c (length pre) else if Nat.eqb (length pre) (length pre) then 1' else 0') = 0').
    { apply (Hi (fun j => if Nat.ltb j (length pre) then c j else if Nat.eqb j (length pre) then 1' else 0')); [|lia]. intros l Hl. rewrite Lb, seq_app, bsum_app. cbn [plus seq]. rewrite bsum_cons, Nat.ltb_irrefl, Nat.eqb_refl, Ev.
      rewrite (bsum_zero K _ (seq (S (length pre)) (length todo))) by (intros j Hj; apply in_seq in Hj; destruct (Nat.ltb_spec j (length pre)); [lia|]; destruct (Nat.eqb_spec j (length pre)); [lia|ring]).
      rewrite (bsum_ext K _ (seq 0 (length pre)) _ (fun j => c j *' nth l (nth j bs []) 0')) by (intros j Hj; apply in_seq in Hj; destruct (Nat.ltb_spec j (length pre)); [reflexivity|lia]).
      specialize (Hc l Hl). rewrite Zq in Hc by exact Hl. transitivity (nth l v 0' +' bsum (seq 0 (length pre)) (fun j => c j *' nth l (nth j bs []) 0')); [ring|now symmetry]. }
    rewrite Nat.ltb_irrefl, Nat.eqb_refl in F. exact (f10 K F).
  - apply (IH (pre ++ [v])); [rewrite <- app_assoc; exact Eb|]. assert (Lp : length (pre ++ [v]) = S (length pre)) by (rewrite app_length; cbn; lia). rewrite Lp. intros d Hin. apply in_app_or in Hin. destruct Hin as [Hin|[<-|[]]].
    + destruct (Hd d Hin) as [Ld Sd]. split; [exact Ld|now apply span_step].
    + split; [now apply vscale_len|]. exists (fun j => finv K (nrm q) *' (if Nat.ltb j (length pre) then c j else 1')). intros l Hl. rewrite nth_vscale, Hc by exact Hl. rewrite seq_S, bsum_app, bsum_cons, bsum_nil. cbn [plus]. rewrite Nat.ltb_irrefl, Ev.
      rewrite (bsum_ext K _ (seq 0 (length pre)) (fun j => finv K (nrm q) *' (if Nat.ltb j (length pre) then c j else 1') *' nth l (nth j bs []) 0') (fun j => finv K (nrm q) *' (c j *' nth l (nth j bs []) 0'))).
      * rewrite bsum_mull. ring.
      * intros j Hj. apply in_seq in Hj. destruct (Nat.ltb_spec j (length pre)); [ring|lia].
Qed.
(** C58: without a diagonal, from linearly independent vectors, the loop converges within (n - k)(k + 1) + k passes
    when the subspace may grow beyond n *)
Theorem c58_converges : forall n M A nrm eigh eps b k max_iter t dmin dmax, matrix_of n M A -> sym_matrix n M -> norm_spec n nrm -> eigh_spec K n eigh ->
  (forall v, In v b -> length v = n) -> independent n b -> length b = k -> 0 < k -> olt 0' t -> n < dmax -> (n - k) * (k + 1) + k <= max_iter ->
  exists d, davidson K nrm eigh eps A None b k max_iter t dmin dmax = Some (Done d) /\ d_converged K d = true.
Proof.
  intros n M A nrm eigh eps b k max_iter t dmin dmax HM Sy Hn He Hb Hi Lk Hk Ht Hd Hm.
  destruct (orthonormalise_total n nrm b Hn Hi Hb b [] [] eq_refl ltac:(intros d [])) as (b' & Eo).
  unfold davidson. rewrite Lk, Nat.eqb_refl, Eo. destruct (Nat.eqb_spec k 0); [lia|]. pose proof (Nat.le_0_l ((n - k) * (k + 1))). destruct (Nat.eqb_spec max_iter 0); [lia|]. cbn [negb andb].
  destruct (enter n M A nrm k dmin b b' HM Hn Hb Lk Hk Eo) as (I & _).
  destruct (dav_converges K n A (A_linear n M A HM) (A_symmetric n M A HM Sy) nrm (norm_dot n nrm Hn) eigh He eps k t (if Nat.ltb dmin k then k else dmin) dmax _ Ht Hd max_iter 0 b' (map (fun _ => []) b') [] 0 0 k I Hk ltac:(lia)) as (d & E & C).
  exists d. split; [now rewrite E|exact C].
Qed.
End Spec.

(** *** the hypotheses on norm and eigh can be met: 2 x 2 matrices in any ordered field with square roots *)
Section Two.
Variable K : OField.
Notation "0'" := (r0 K). Notation "1'" := (r1 K). Notation "-'" := (ropp K).
Infix "+'" := (radd K) (at level 50, left associativity). Infix "*'" := (rmul K) (at level 40, left associativity). Infix "-^" := (rsub K) (at level 50, left associativity).
Definition fdiv (a b : K) : K := a *' finv K b.
Lemma K_field : field_theory 0' 1' (radd K) (rmul K) (rsub K) (ropp K) fdiv (finv K) eq.
Proof. constructor; [exact (rth K)|exact (f10 K)|reflexivity|]. intros p N. destruct (rth K) as [_ _ _ _ Mc _ _ _ _]. rewrite Mc. now apply finv_r. Qed.
Add Field KF : K_field.
Variable sq : K -> K.
Definition nrm2 (v : list K) : K := sq (inner K (length v) v v).
Definition eig2 (M : list (list K)) : list K * list (list K) :=
  match M with
  | [[a]] => ([a], [[1']])
  | [[a; b]; [_; d]] =>
    if oeqb b 0' then if oleb K a d then ([a; d], [[1'; 0']; [0'; 1']]) else ([d; a], [[0'; 1']; [1'; 0']])
    else
      let s := sq ((a -^ d) *' (a -^ d) +' (1' +' 1' +' 1' +' 1') *' (b *' b)) in
      let l1 := fdiv (a +' d -^ s) (1' +' 1') in
      let l2 := fdiv (a +' d +' s) (1' +' 1') in
      let m := sq (b *' b +' (l1 -^ a) *' (l1 -^ a)) in
      ([l1; l2], [[fdiv b m; -' (fdiv (l1 -^ a) m)]; [fdiv (l1 -^ a) m; fdiv b m]])
  | _ => ([], [])
  end.
Hypothesis sq_ok : forall x, ole 0' x -> ole 0' (sq x) /\ sq x *' sq x = x.
Lemma nrm2_spec : forall n, norm_spec K n nrm2.
Proof. intros n v L. unfold nrm2. rewrite L. apply sq_ok. apply bsum_ole0. intros. apply ole_sq. Qed.
Lemma one_pos : olt 0' 1'.
Proof. pose proof (ole_sq K 1') as H. replace (1' *' 1') with 1' in H by ring. destruct (ole_eq_lt K _ _ H) as [E|]; [exfalso; apply (f10 K); now symmetry|assumption]. Qed.
Lemma two_pos : olt 0' (1' +' 1').
Proof. pose proof one_pos as H. pose proof (ole_add_l K _ _ 1' (olt_ole K _ _ H)) as H2. replace (1' +' 0') with 1' in H2 by ring. exact (olt_le_trans K _ _ _ H H2). Qed.
Lemma two_nz : 1' +' 1' <> 0'.
Proof. intros E. pose proof two_pos as H. rewrite E in H. exact (olt_irrefl K _ H). Qed.
Lemma rotation_eigen : forall a b d c e l1 l2, c *' c +' e *' e = 1' -> a *' c +' b *' e = l1 *' c -> b *' c +' d *' e = l1 *' e -> a *' (-' e) +' b *' c = l2 *' (-' e) -> b *' (-' e) +' d *' c = l2 *' c -> ole l1 l2 ->
  eigen K 2 [[a; b]; [b; d]] [l1; l2] [[c; -' e]; [e; c]].
Proof.
  intros a b d c e l1 l2 N E1 E2 E3 E4 O. split; [reflexivity|]. unfold at2, kd.
  split; [|split; [|split]].
  - intros [|[|i]] [|[|l]] Hi Hl; try lia; cbn -[rmul radd ropp]; rewrite ?bsum_cons, ?bsum_nil; cbn [nth Nat.eqb]; rewrite <- ?N; ring.
  - intros [|[|i]] [|[|l]] Hi Hl; try lia; cbn -[rmul radd ropp]; rewrite ?bsum_cons, ?bsum_nil; cbn [nth Nat.eqb]; rewrite <- ?N; ring.
  - intros [|[|i]] [|[|l]] Hi Hl; try lia; cbn [seq]; rewrite ?bsum_cons, ?bsum_nil; cbn [nth].
    + transitivity (a *' c +' b *' e); [ring|exact E1].
    + transitivity (a *' (-' e) +' b *' c); [ring|exact E3].
    + transitivity (b *' c +' d *' e); [ring|exact E2].
    + transitivity (b *' (-' e) +' d *' c); [ring|exact E4].
  - intros [|[|i]] [|[|l]] Hi Hl; try lia; cbn [nth]; auto using ole_refl.
Qed.
Lemma eig2_spec : eigh_spec K 2 eig2.
Proof.
  intros m M Hm Lm Lr Sy. destruct M as [|r0 [|r1 [|r2 M]]]; cbn [length] in Lm; subst m; [| | |lia].
  - cbn. split; [reflexivity|]. split; [intros; lia|]. split; [intros; lia|]. split; intros; lia.
  - pose proof (Lr r0 (or_introl eq_refl)) as L0. destruct r0 as [|a [|]]; try discriminate. cbn [eig2 fst snd]. split; [reflexivity|].
    split; [|split; [|split]].
    + intros [|i] [|l] Hi Hl; try lia. cbn [seq]. rewrite bsum_cons, bsum_nil. cbn. ring.
    + intros [|i] [|l] Hi Hl; try lia. cbn [seq]. rewrite bsum_cons, bsum_nil. cbn. ring.
    + intros [|i] [|l] Hi Hl; try lia. cbn [seq]. rewrite bsum_cons, bsum_nil. cbn. ring.
    + intros [|i] [|l] Hi Hl; try lia. apply ole_refl.
  - pose proof (Lr r0 (or_introl eq_refl)) as L0. pose proof (Lr r1 (or_intror (or_introl eq_refl))) as L1.
    destruct r0 as [|a [|b [|]]]; try discriminate. destruct r1 as [|b' [|d [|]]]; try discriminate. pose proof (Sy 0 1 ltac:(lia) ltac:(lia)) as E. cbn in E. subst b'. clear Sy Lr L0 L1 Hm. unfold eig2.
    destruct (oeqb_spec K b 0') as [Zb|Nb].
    + subst b. destruct (oleb K a d) eqn:Oad; cbn [fst snd].
      * assert (Z : -' 0' = 0') by ring. rewrite <- Z at 3. apply (rotation_eigen a 0' d 1' 0' a d); try ring. exact Oad.
      * assert (Oda : ole d a) by (apply olt_ole; exact Oad). split; [reflexivity|]. unfold at2, kd. split; [|split; [|split]].
        -- intros [|[|i]] [|[|l]] Hi Hl; try lia; cbn [seq]; rewrite ?bsum_cons, ?bsum_nil; cbn [nth Nat.eqb]; ring.
        -- intros [|[|i]] [|[|l]] Hi Hl; try lia; cbn [seq]; rewrite ?bsum_cons, ?bsum_nil; cbn [nth Nat.eqb]; ring.
        -- intros [|[|i]] [|[|l]] Hi Hl; try lia; cbn [seq]; rewrite ?bsum_cons, ?bsum_nil; cbn [nth Nat.eqb]; ring.
        -- intros [|[|i]] [|[|l]] Hi Hl; try lia; cbn [nth]; auto using ole_refl.
    + set (D := (a -^ d) *' (a -^ d) +' (1' +' 1' +' 1' +' 1') *' (b *' b)). cbv zeta. cbn [fst snd].
      assert (PD : ole 0' D).
      { unfold D. replace 0' with (0' +' 0') by ring. apply ole_add2; [apply ole_sq|]. replace ((1' +' 1' +' 1' +' 1') *' (b *' b)) with (((1' +' 1') *' b) *' ((1' +' 1') *' b)) by ring. apply ole_sq. }
      destruct (sq_ok D PD) as [Ps Es]. set (s := sq D) in *. set (l1 := fdiv (a +' d -^ s) (1' +' 1')). set (l2 := fdiv (a +' d +' s) (1' +' 1')). pose proof two_nz as N2.
      assert (Q : (l1 -^ a) *' (l1 -^ a) = (d -^ a) *' (l1 -^ a) +' b *' b).
      { transitivity ((d -^ a) *' (l1 -^ a) +' b *' b +' (s *' s -^ D) *' (finv K (1' +' 1') *' finv K (1' +' 1'))); [unfold l1, D; field; exact N2|rewrite Es; ring]. }
      assert (T : l2 = a +' d -^ l1) by (unfold l1, l2; field; exact N2).
      set (G := b *' b +' (l1 -^ a) *' (l1 -^ a)). assert (PG : ole 0' G) by (unfold G; replace 0' with (0' +' 0') by ring; apply ole_add2; apply ole_sq).
      assert (NG : G <> 0').
      { intros Z. assert (Zb : b *' b = 0').
        { destruct (ole_eq_lt K _ _ (ole_sq K b)) as [E|P]; [now symmetry|]. exfalso. pose proof (ole_add_l K _ _ (b *' b) (ole_sq K (l1 -^ a))) as X. fold G in X. rewrite Z in X. replace (b *' b +' 0') with (b *' b) in X by ring. apply (olt_not_ole K) in P. contradiction. }
        exact (Nb (mul_cancel K b b Nb Zb)). }
      destruct (sq_ok G PG) as [Pm Em]. set (m := sq G) in *. assert (Nm : m <> 0') by (intros Z; rewrite Z in Em; apply NG; rewrite <- Em; ring).
      apply (rotation_eigen a b d (fdiv b m) (fdiv (l1 -^ a) m) l1 l2).
      * transitivity (fdiv G (m *' m)); [unfold G; field; exact Nm|rewrite Em; field; exact NG].
      * field; exact Nm.
      * transitivity (fdiv (b *' b +' d *' (l1 -^ a)) m); [field; exact Nm|]. replace (b *' b +' d *' (l1 -^ a)) with (l1 *' (l1 -^ a)); [field; exact Nm|].
        transitivity ((l1 -^ a) *' (l1 -^ a) +' a *' (l1 -^ a)); [ring|]. rewrite Q. ring.
      * rewrite T. transitivity (fdiv (b *' b -^ a *' (l1 -^ a)) m); [field; exact Nm|]. replace (b *' b -^ a *' (l1 -^ a)) with (-' ((a +' d -^ l1) *' (l1 -^ a))); [field; exact Nm|].
        transitivity ((l1 -^ a) *' (l1 -^ a) -^ d *' (l1 -^ a)); [ring|]. rewrite Q. ring.
      * rewrite T. field; exact Nm.
      * apply (ole_sub K). replace (l2 -^ l1) with s by (unfold l1, l2; field; exact N2). exact Ps.
Qed.
End Two.
(* real numbers *)
Definition Rleb (a b : R) : bool := if Rle_dec a b then true else false.
Lemma Rleb_iff : forall a b, Rleb a b = true <-> (a <= b)%R. Proof. intros a b. unfold Rleb. destruct (Rle_dec a b); split; intros; auto; discriminate. Qed.
Lemma Rleb_gt : forall a b, Rleb a b = false <-> (b < a)%R. Proof. intros a b. unfold Rleb. destruct (Rle_dec a b); split; intros; try discriminate; lra. Qed.
Definition R_oring : ORing.
Proof.
  refine (Build_ORing R_ring Rleb _ _ _ _ _); cbn; intros; rewrite ?Rleb_gt, ?Rleb_iff in *; try lra. now apply Rmult_lt_0_compat.
Defined.
Definition R_ofield : OField.
Proof. refine (Build_OField R_oring Rinv _ _); [exact Rinv_r|exact R1_neq_R0]. Defined.
(** real 2 x 2 matrices: Davidson from any nonzero vector converges within 3 passes *)
Example c58_real : forall M A (b : list R) t, matrix_of R_ofield 2 M A -> sym_matrix R_ofield 2 M -> length b = 2 -> (nth 0 b 0 <> 0 \/ nth 1 b 0 <> 0)%R -> (0 < t)%R ->
  exists d, davidson R_ofield (nrm2 R_ofield sqrt) (eig2 R_ofield sqrt) 0%R A None [b] 1 3 t 2 20 = Some (Done d) /\ d_converged R_ofield d = true /\
    orthonormal_list R_ofield 2 1 (d_vecs R_ofield d).
Proof.
  intros M A b t HM Sy Lb Nz Ht.
  assert (Sq : forall x : R_ofield, ole (r0 R_ofield) x -> ole (r0 R_ofield) (sqrt x) /\ rmul R_ofield (sqrt x) (sqrt x) = x).
  { intros x Hx. unfold ole in *. cbn in *. rewrite Rleb_iff in *. split; [apply sqrt_pos|now apply sqrt_sqrt]. }
  assert (Hb : forall v : list R, In v [b] -> length v = 2) by (intros v [<-|[]]; exact Lb).
  assert (Hi : independent R_ofield 2 [b]).
  { intros c Hc j Hj. cbn in Hj. assert (j = 0) as -> by lia. pose proof (Hc 0 ltac:(lia)) as H0. pose proof (Hc 1 ltac:(lia)) as H1. cbn in H0, H1. rewrite Rplus_0_r in H0, H1. cbn.
    destruct Nz as [N|N]; [apply Rmult_integral in H0; destruct H0; [assumption|contradiction]|apply Rmult_integral in H1; destruct H1; [assumption|contradiction]]. }
  destruct (c58_converges R_ofield 2 M A (nrm2 R_ofield sqrt) (eig2 R_ofield sqrt) 0%R [b] 1 3 t 2 20 HM Sy (nrm2_spec R_ofield sqrt Sq 2) (eig2_spec R_ofield sqrt Sq) Hb Hi eq_refl ltac:(lia)) as (d & E & C).
  - unfold olt. cbn. now apply Rleb_gt.
  - lia.
  - lia.
  - exists d. split; [exact E|]. split; [exact C|].
    apply (c58_eigenpairs R_ofield 2 M A (nrm2 R_ofield sqrt) (eig2 R_ofield sqrt) 0%R None [b] 1 3 t 2 20 d HM Sy (nrm2_spec R_ofield sqrt Sq 2) (eig2_spec R_ofield sqrt Sq)); auto. discriminate.
Qed.

(** *** rational examples and refutations *)
Definition qz (z : Z) : Qc := Q2Qc (inject_Z z).
Definition qf (a : Z) (b : BinNums.positive) : Qc := Q2Qc (a # b).
Definition qmat (rows : list (list Qc)) (v : list Qc) : list Qc := map (fun r => dot Qc_ofield r v) rows.
(* square root of a square of a rational number *)
Definition qsqrt (x : Qc) : Qc := Q2Qc (Z.sqrt (Qnum x) # Z.to_pos (Z.sqrt (Zpos (Qden x)))).
Lemma qmat_matrix : forall n rows, length rows = n -> (forall r, In r rows -> length r = n) -> matrix_of Qc_ofield n (fun i j => nth j (nth i rows []) (r0 Qc_ofield)) (qmat rows).
Proof.
  intros n rows L H v Lv. unfold qmat. split; [rewrite map_length; exact L|]. intros i Hi.
  rewrite (nth_indep _ (r0 Qc_ofield) (dot Qc_ofield [] v)) by (rewrite map_length; lia). rewrite (map_nth (fun r => dot Qc_ofield r v)). rewrite (inner_dot Qc_ofield n); [reflexivity| |exact Lv]. apply H. apply nth_In. lia.
Qed.
Lemma qmat_matrix1 : forall c, matrix_of Qc_ofield 1 (fun _ _ => c) (qmat [[c]]).
Proof. intros c v Lv. split; [reflexivity|]. intros [|i] Hi; [|lia]. destruct v as [|x [|]]; try discriminate. reflexivity. Qed.
(* 41/25 -12/25; -12/25 34/25 has the eigenvalue 1 with the vector (3/5, 4/5) *)
Definition m2 : list (list Qc) := [[qf 41 25; qf (-12) 25]; [qf (-12) 25; qf 34 25]].
Definition qv (v : list Qc) : list Q := map this v.
(* what is computed, as plain fractions *)
Definition show_dav (o : option (outcome (dav Qc_ofield))) : option (list Q * list (list Q) * nat * bool) :=
  match o with Some (Done d) => Some (qv (d_vals _ d), map qv (d_vecs _ d), d_iter _ d, d_converged _ d) | _ => None end.
Definition show_cg (o : outcome (Qc * list Qc * nat)) : option (Q * list Q * nat) := match o with Done (f, x, it) => Some (this f, qv x, it) | _ => None end.
Example c58_run : show_dav (davidson Qc_ofield (nrm2 Qc_ofield qsqrt) (eig2 Qc_ofield qsqrt) (qf 1 1000) (qmat m2) None [[qz 2; qz 0]] 1 5 (qf 1 1000) 2 20)
  = Some ([1 # 1]%Q, [[3 # 5; 4 # 5]]%Q, 2, true).
Proof. vm_compute. reflexivity. Qed.
(* an exact excited eigenvector is returned as it is: convergence does not mean the lowest eigenvalue *)
Example c58_excited : show_dav (davidson Qc_ofield (nrm2 Qc_ofield qsqrt) (eig2 Qc_ofield qsqrt) (qf 1 1000) (qmat m2) None [[qz 4; qz (-3)]] 1 5 (qf 1 1000) 2 20)
  = Some ([2 # 1]%Q, [[4 # 5; -3 # 5]]%Q, 1, true).
Proof. vm_compute. reflexivity. Qed.
Lemma is_done : forall (o : outcome (Qc * list Qc * nat)) (P : list Qc -> bool), match o with Done (f, x', it) => P x' | _ => false end = true -> exists f x' it, o = Done (f, x', it) /\ P x' = true.
Proof. intros [[[f x'] it]| |] P H; try discriminate. eauto. Qed.
Lemma is_not_converged : forall (o : outcome (Qc * list Qc * nat)), match o with NotConverged => true | _ => false end = true -> o = NotConverged.
Proof. intros [| |] H; try discriminate. reflexivity. Qed.
(* 4 x + y = 1, x + 3 y = 2 is solved in two steps *)
Definition s2 : list (list Qc) := [[qz 4; qz 1]; [qz 1; qz 3]].
Example c35_run : show_cg (conjugate_gradient Qc_ofield (qf 1 1000) (qmat s2) None [qz 2; qz 1] [qz 1; qz 2] 5 (qf 1 1000)) = Some (15 # 11, [1 # 11; 7 # 11], 3%nat)%Q.
Proof. vm_compute. reflexivity. Qed.
(** C35: with a diagonal the test is made on the scaled residual: x = 0 is accepted for 100 x = 1 although |b - A x| = 1
    is five times the threshold *)
Theorem c35_scaled_refuted : exists A d x b t f x' it, matrix_of Qc_ofield 1 (fun _ _ => qz 100) A /\ d = [qz 100] /\ length x = 1 /\ length b = 1 /\
  conjugate_gradient Qc_ofield (qf 1 1000) A (Some d) x b 10 t = Done (f, x', it) /\ olt (K := Qc_oring) (rmul Qc_ofield (rmul Qc_ofield (qz 20) t) t) (dist2 Qc_ofield 1 b (A x')).
Proof.
  pose (A := qmat [[qz 100]]). exists A, [qz 100], [qz 0], [qz 1], (qf 1 5).
  assert (T : match conjugate_gradient Qc_ofield (qf 1 1000) A (Some [qz 100]) [qz 0] [qz 1] 10 (qf 1 5) with
              | Done (f, x', it) => oltb (K := Qc_oring) (rmul Qc_ofield (rmul Qc_ofield (qz 20) (qf 1 5)) (qf 1 5)) (dist2 Qc_ofield 1 [qz 1] (A x')) | _ => false end = true) by (vm_compute; reflexivity).
  apply (is_done _ (fun x' => oltb (K := Qc_oring) (rmul Qc_ofield (rmul Qc_ofield (qz 20) (qf 1 5)) (qf 1 5)) (dist2 Qc_ofield 1 [qz 1] (A x')))) in T. destruct T as (f & x' & it & E & T). exists f, x', it.
  split; [exact (qmat_matrix1 (qz 100))|]. split; [reflexivity|]. split; [reflexivity|]. split; [reflexivity|]. split; [exact E|]. now apply negb_true_iff.
Qed.
(** C35: convergence in the pass number max_iter is reported as failure: 2 x = 2 from x = 0 is solved exactly by the
    first pass, but max_iter = 1 ends in the error while max_iter = 2 returns after that same pass *)
Theorem c35_last_pass_refuted : exists A x b t f x' it, matrix_of Qc_ofield 1 (fun _ _ => qz 2) A /\ length x = 1 /\ length b = 1 /\
  conjugate_gradient Qc_ofield (qf 1 1000) A None x b 1 t = NotConverged /\ conjugate_gradient Qc_ofield (qf 1 1000) A None x b 2 t = Done (f, x', it) /\ dist2 Qc_ofield 1 b (A x') = qz 0.
Proof.
  pose (A := qmat [[qz 2]]). exists A, [qz 0], [qz 2], (qf 1 5).
  assert (T1 : match conjugate_gradient Qc_ofield (qf 1 1000) A None [qz 0] [qz 2] 1 (qf 1 5) with NotConverged => true | _ => false end = true) by (vm_compute; reflexivity).
  assert (T2 : match conjugate_gradient Qc_ofield (qf 1 1000) A None [qz 0] [qz 2] 2 (qf 1 5) with Done (f, x', it) => Qc_eq_bool (dist2 Qc_ofield 1 [qz 2] (A x')) (qz 0) | _ => false end = true) by (vm_compute; reflexivity).
  apply is_not_converged in T1. apply (is_done _ (fun x' => Qc_eq_bool (dist2 Qc_ofield 1 [qz 2] (A x')) (qz 0))) in T2. destruct T2 as (f & x' & it & E & T2). exists f, x', it.
  split; [exact (qmat_matrix1 (qz 2))|]. split; [reflexivity|]. split; [reflexivity|]. split; [exact T1|]. split; [exact E|]. now apply Qc_eq_bool_correct.
Qed.
Print Assumptions c35_residual. Print Assumptions c35_preconditioned. Print Assumptions c35_terminates. Print Assumptions c35_scaled_refuted. Print Assumptions c35_last_pass_refuted.
Print Assumptions c58_eigenpairs. Print Assumptions c58_variational. Print Assumptions c58_converges.
