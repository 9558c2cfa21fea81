(** build_mpo of BuildModel returns: neutral strings pass every check. *)
From Coq Require Import ZArith Bool List Lia Ring Sorted Permutation.
From Verif Require Import SymModel SymProofs SymProps DictLib IndexLib RingLib OptLib SiteModel SiteProofs SiteOps SiteProps QcAlg QcWords QcSite QcChain BuildModel BuildProofs BuildChain BuildSweep BuildFinal.
Import ListNotations.
Open Scope Z_scope.

Definition zero_lab : SZ := mkSZ 0 0 0.
Lemma sz_assoc : forall a b c, sz_add a (sz_add b c) = sz_add (sz_add a b) c.
Proof. intros [a1 a2 a3] [b1 b2 b3] [c1 c2 c3]. unfold sz_add. cbn [sz_n sz_twos sz_pg]. f_equal; [lia|lia|]. now rewrite Z.lxor_assoc. Qed.
Lemma sz_0l : forall a, sz_add zero_lab a = a.
Proof. intros [a1 a2 a3]. unfold sz_add, zero_lab. cbn [sz_n sz_twos sz_pg]. f_equal; try lia. Qed.
Lemma sz_0r : forall a, sz_add a zero_lab = a.
Proof. intros [a1 a2 a3]. unfold sz_add, zero_lab. cbn [sz_n sz_twos sz_pg]. f_equal; try lia. apply Z.lxor_0_r. Qed.
Lemma sz_neg_l : forall a, sz_add (sz_neg a) a = zero_lab.
Proof. intros [a1 a2 a3]. unfold sz_add, sz_neg, zero_lab. cbn [sz_n sz_twos sz_pg]. f_equal; try lia. apply Z.lxor_nilpotent. Qed.

Section Exists.
Variable orb : Z -> Z.
Definition lsum (l : list osym) : SZ := fold_right (fun o q => sz_add (lab orb o) q) zero_lab l.
Lemma lab_sum_eq : forall l, lab_sum orb l = lsum l.
Proof.
  intros [|x l]; [reflexivity|]. unfold lab_sum. cbn [lsum fold_right]. fold (lsum l).
  assert (H : forall l q, fold_left sz_add (map (lab orb) l) q = sz_add q (lsum l)). { induction l0 as [|y l0 IH]; intros q; cbn [map fold_left lsum fold_right]; [symmetry; apply sz_0r|]. fold (lsum l0). rewrite IH. symmetry. apply sz_assoc. }
  apply H.
Qed.
Lemma lsum_app : forall a b, lsum (a ++ b) = sz_add (lsum a) (lsum b).
Proof. induction a as [|x a IH]; intros b; cbn [app lsum fold_right]; [symmetry; apply sz_0l|]. fold (lsum (a ++ b)) (lsum a). rewrite IH. apply sz_assoc. Qed.
Lemma lsum_none : lsum [None] = zero_lab. Proof. reflexivity. Qed.
Lemma parts_lab : forall i w, sz_add (lab_sum orb (left_part i w)) (lab_sum orb (right_part i w)) = lab_sum orb w.
Proof.
  intros i w. rewrite !lab_sum_eq. unfold left_part, right_part. destruct (Nat.eqb_spec (prefix i w) 0) as [E|E]; destruct (Nat.eqb_spec (prefix i w) (length w)) as [L|L].
  - rewrite E in L. symmetry in L. apply length_zero_iff_nil in L. subst. reflexivity.
  - rewrite E, lsum_none. apply sz_0l.
  - rewrite L, firstn_all, lsum_none. apply sz_0r.
  - rewrite <- lsum_app. now rewrite firstn_skipn.
Qed.

Variable R : CRing.
Notation "0'" := (r0 R). Notation "1'" := (r1 R).
Infix "+'" := (radd R) (at level 50, left associativity).
Infix "*'" := (rmul R) (at level 40, left associativity).
Variable iszero tiny big : R -> bool.
Variable svd : nat -> nat -> (nat -> nat -> R) -> option (nat * (nat -> nat -> R) * (nat -> R) * (nat -> nat -> R)).
Hypothesis iszero_ok : forall x, iszero x = true -> x = 0'.
Hypothesis tiny_ok : forall x, tiny x = true -> x = 0'.
Hypothesis svd_ok : forall n m a k u s vh, svd n m a = Some (k, u, s, vh) ->
  forall i j, (i < n)%nat -> (j < m)%nat -> bsum (seq 0 k) (fun c => u i c *' s c *' vh c j) = a i j.
Hypothesis iszero_1 : iszero 1' = false.
Hypothesis svd_some : forall n m a, svd n m a <> None.
Notation expr := (expr R). Notation words := (words R).
Notation right_svd := (right_svd R orb iszero tiny big svd). Notation sweep := (sweep R orb iszero tiny big svd).
Notation row_lab := (row_lab R orb iszero). Notation tables := (fun p => site_entries R orb (fst p) (snd p)).

Lemma add_term_some : forall i ip q gs t, (forall f w, t = Some (f, w) -> lab_sum orb w = q) -> exists gs', add_term R orb i ip q gs t = Some gs'.
Proof using.
  intros i ip q gs [[f w]|] H; cbn [add_term]; [|eauto]. specialize (H f w eq_refl). rewrite <- sz_assoc, parts_lab, H, sz_neg_l. destruct (sz_eqb_spec zero_lab (lab orb None)) as [_|N]; [|now destruct N]. cbn [negb].
  destruct (enter row_eqb _ _) as [il ml], (enter osyms_eqb _ _) as [ir mr]. eauto.
Qed.
Lemma add_terms_some : forall i ip q ts gs, (forall f w, In (Some (f, w)) ts -> lab_sum orb w = q) -> exists gs', foldM (add_term R orb i ip q) gs ts = Some gs'.
Proof using.
  intros i ip q. induction ts as [|t ts IH]; intros gs H; cbn [foldM]; [eauto|]. destruct (add_term_some i ip q gs t) as [g1 ->]; [intros f w ->; apply (H f w); now left|]. cbn [bind]. apply IH. intros f w I. apply (H f w). now right.
Qed.
Lemma rows_some : forall i ops rows gs, Forall (fun r : nat * (option (R * msym) * SZ) => row_lab ops (fst (snd r)) (snd (snd r))) rows -> exists gs', foldM (add_row R orb iszero tiny i ops) gs rows = Some gs'.
Proof using iszero_1.
  intros i ops. induction rows as [|[ip [c q]] rows IH]; intros gs F; cbn [foldM]; [eauto|]. inversion F as [|? ? Hr F']; subst. cbn [fst snd] in Hr.
  assert (H : exists g1, add_row R orb iszero tiny i ops gs (ip, (c, q)) = Some g1).
  { unfold add_row. cbn [fst snd]. destruct c as [[f o]|]; [|eauto]. destruct Hr as [e [-> [U L]]]. cbn [bind]. specialize (U iszero_1).
    destruct (terms_of R iszero tiny f e) as [ts|] eqn:T.
    - cbn [bind]. apply add_terms_some. intros g w I. apply L. eapply terms_words; eassumption.
    - destruct e as [|o'|s|l]; cbn [terms_of usable] in *; try discriminate; [destruct U|]. rewrite U in T. discriminate. }
  destruct H as [g1 ->]. cbn [bind]. now apply IH.
Qed.
Lemma F2_combine : forall (A B : Type) (P : A -> B -> Prop) l k a, Forall2 P l k -> Forall (fun r : nat * (A * B) => P (fst (snd r)) (snd (snd r))) (combine (seq a (length l)) (combine l k)).
Proof using. clear. intros A B P l k a F. revert a. induction F; intros a; cbn; constructor; auto. Qed.
Lemma right_svd_some : forall i c, Forall2 (row_lab (c_ops R c)) (c_mat R c) (c_lop R c) -> exists t c', right_svd i c = Some (t, c').
Proof using iszero_1 svd_some.
  intros i c F. unfold BuildModel.right_svd, groups_of. destruct (rows_some i (c_ops R c) (combine (seq 0 (length (c_mat R c))) (combine (c_mat R c) (c_lop R c))) [] (F2_combine _ _ _ _ _ _ F)) as [gs ->]. cbn [bind].
  assert (H : exists fs, mapM (fun kg => do f <- factors R big svd (snd kg); Some (fst kg, (snd kg, f))) gs = Some fs).
  { clear - svd_some. induction gs as [|[k g] gs IH]; cbn [mapM fst snd]; [eauto|]. unfold factors at 1. destruct (svd (length (g_l R g)) (length (g_r R g)) (mat_of R g)) as [[[[a b] c] d]|] eqn:S; [|now apply svd_some in S]. cbn [bind]. destruct IH as [fs ->]. cbn [bind]. eauto. }
  destruct H as [fs ->]. cbn [bind]. destruct (fold_left (add_entry R iszero) _ _) as [[k1 lops] es], (fold_left (add_cell R iszero) _ _) as [[k2 rops] cs]. eauto.
Qed.
Definition full (ops : dict msym expr) : Prop := forall o e, In (o, e) ops -> forall w, In w (words e) -> w <> [] /\ Forall (spin_sym) w.
Lemma site_some : forall m t, full (t_ops R t) -> (forall e, In e (t_mat R t) -> exists x, dget msym_eqb (t_ops R t) (snd (snd e)) = Some x) -> exists es, site_entries R orb m t = Some es.
Proof using.
  clear. intros m t W L. unfold site_entries.
  assert (H : exists vs, mapM (fun kv => do x <- expr_op R orb m (snd kv); Some (fst kv, x)) (t_ops R t) = Some vs).
  { clear L. unfold full in W. induction (t_ops R t) as [|[k e] d IH]; cbn [mapM fst snd]; [eauto|]. destruct (expr_some R orb m e (W k e (or_introl eq_refl))) as [r ->]. cbn [bind]. destruct IH as [vs ->]; [intros o x I; apply (W o x); now right|]. cbn [bind]. eauto. }
  destruct H as [vs E]. rewrite E. cbn [bind].
  assert (H : exists es, mapM (fun e : (nat * nat) * (R * msym) => do x <- dget msym_eqb vs (snd (snd e)); Some (match x with Zero _ => [] | Op _ x => [((Z.of_nat (fst (fst e)), Z.of_nat (snd (fst e))), (fst (snd e), x))] end)) (t_mat R t) = Some es).
  { induction (t_mat R t) as [|e l IH]; cbn [mapM]; [eauto|]. assert (D := dget_mapM _ _ _ msym_eqb (expr_op R orb m) (t_ops R t) vs (snd (snd e)) E). destruct (L e (or_introl eq_refl)) as [x Ex].
    destruct (dget msym_eqb vs (snd (snd e))) as [v|]; [|congruence]. cbn [bind]. destruct IH as [es ->]; [intros e' I; apply L; now right|]. cbn [bind]. eauto. }
  destruct H as [es ->]. cbn [bind]. eauto.
Qed.
Lemma spins_good : forall n i w, good n i w -> Forall (spin_sym) w.
Proof using. clear. intros n i w [|u F _ _]; [repeat constructor|]. apply Forall_map. eapply Forall_impl; [|exact F]. intros a [_ B]. exact B. Qed.
Lemma sweep_some : forall n k i c, 0 <= i -> n = (Z.to_nat i + k + 1)%nat -> col_loc R n i (c_ops R c) -> Forall2 (row_lab (c_ops R c)) (c_mat R c) (c_lop R c) ->
  (k = 0%nat -> forall o e, In (o, e) (c_ops R c) -> forall w, In w (words e) -> w <> []) ->
  exists ts ess, sweep k i c = Some ts /\ mapM tables (combine (sites_from i (S k)) ts) = Some ess.
Proof.
  intros n. induction k as [|k IH]; intros i c Hi Hn CL RL NE; cbn [BuildModel.sweep].
  - match goal with |- context [Some [?t] ] => set (tb := t) end. destruct (site_some i tb) as [es E].
    + intros o e I w W. split; [exact (NE eq_refl o e I w W)|]. eapply spins_good, (CL o e I w W).
    + intros e I. cbn [t_mat tb] in I. apply in_flat_map in I. destruct I as [[r c0] [I J]]. cbn [fst snd] in J. destruct c0 as [x|]; [|destruct J]. destruct J as [<-|[]]. cbn [snd]. apply in_combine_r in I.
      assert (K : exists q, row_lab (c_ops R c) (Some x) q). { clear - RL I. induction RL as [|a b l k H RL IHl]; [destruct I|]. destruct I as [->|I]; [eauto|auto]. }
      destruct K as [q K]. destruct x as [f o]. destruct K as [y [D _]]. exists y. exact D.
    + exists [tb], [es]. split; [reflexivity|]. cbn [sites_from combine mapM fst snd]. now rewrite E.
  - destruct (right_svd_some i c RL) as [t [c' E]]. rewrite E. cbn [bind]. destruct (right_svd_loc R orb iszero tiny big svd iszero_ok tiny_ok svd_ok n i c t c' CL E) as [TH [CL' [NE' [_ [RL' LK]]]]].
    destruct (IH (i + 1) c') as [ts [ess [E1 E2]]]; [lia|lia|exact CL'|exact RL'|intros _; exact NE'|]. rewrite E1. cbn [bind].
    destruct (site_some i t) as [es Es]; [|exact LK|].
    + intros o e I w W. destruct (TH o e I w W) as [A B]. split; [exact A|]. eapply Forall_impl; [|exact B]. intros [a|] H; [apply H|exact Logic.I].
    + exists (t :: ts), (es :: ess). split; [reflexivity|]. cbn [sites_from combine mapM fst snd]. cbn [sites_from combine mapM fst snd] in E2. rewrite Es. cbn [bind]. now rewrite E2.
Qed.
Lemma lsum_perm : forall l l', Permutation l l' -> lsum l = lsum l'.
Proof using.
  clear. intros l l' P. induction P as [|x l l' P IH|x y l|l l' l'' P1 IH1 P2 IH2]; cbn [lsum fold_right]; [reflexivity| | |congruence].
  - fold (lsum l) (lsum l'). congruence.
  - fold (lsum l). rewrite !sz_assoc. f_equal. destruct (lab orb x) as [a1 a2 a3], (lab orb y) as [b1 b2 b3]. unfold sz_add. cbn [sz_n sz_twos sz_pg]. f_equal; [lia|lia|apply Z.lxor_comm].
Qed.
Theorem build_some : forall n terms, (n <> 0)%nat -> Forall (spec_term R n) terms -> Forall (fun t => lsum (map Some (snd t)) = zero_lab) terms ->
  (n = 1%nat -> Forall (fun t => snd t <> []) terms) -> exists ts, build_mpo R orb iszero tiny big svd n terms = Some ts.
Proof.
  intros n terms N F L NE. destruct (sweep_some n (n - 1) 0 (start R orb terms)) as [ts [ess [E1 E2]]].
  - lia.
  - cbn. lia.
  - now apply (start_loc R orb svd svd_ok).
  - constructor; [|constructor]. eexists. split; [reflexivity|]. split; [intros _; exact iszero_1|]. intros w W. unfold BuildChain.words in W. cbn [BuildChain.epoly] in W. rewrite map_map in W. apply in_map_iff in W. destruct W as [t [<- I]].
    rewrite Forall_forall in L. rewrite lab_sum_eq. unfold sort_term. cbn [snd]. etransitivity; [|exact (L t I)]. apply lsum_perm, Permutation_map, Permutation_sym, sort_perm.
  - intros K o e I w W. cbn in I. destruct I as [I|[]]. injection I as <- <-. unfold BuildChain.words in W. cbn [BuildChain.epoly] in W. rewrite map_map in W. apply in_map_iff in W. destruct W as [t [<- I]].
    assert (n = 1%nat) as En by lia. specialize (NE En). rewrite Forall_forall in NE. unfold sort_term. cbn [snd]. intros Z. apply map_eq_nil in Z. apply (NE t I). assert (P := sort_perm idx_ltb snd (snd t)). rewrite Z in P. apply Permutation_sym, Permutation_nil in P. exact P.
  - exists ess. unfold build_mpo, symbolic_mpo. rewrite E1. cbn [bind]. rewrite zrange_from. replace n with (S (n - 1)) at 1 by lia. exact E2.
Qed.
End Exists.
