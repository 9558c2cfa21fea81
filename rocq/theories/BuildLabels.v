(** The labels build_mpo puts on the rows and columns of its tables. *)
From Coq Require Import ZArith Bool List Lia Ring Sorted Permutation.
From Verif Require Import SymModel SymProofs SymProps DictLib IndexLib RingLib OptLib SiteModel SiteProofs SiteOps SiteProps QcAlg QcWords QcSite QcChain BuildModel BuildProofs BuildChain BuildSweep BuildFinal BuildExists.
Import ListNotations.
Open Scope Z_scope.

Lemma nth_const : forall (A B : Type) (l : list A) (x : B) k, (k < length l)%nat -> nth_error (map (fun _ => x) l) k = Some x.
Proof. intros A B. induction l as [|y l IH]; intros x [|k] H; cbn in *; try lia; [reflexivity|]. apply IH. lia. Qed.

Section Labels.
Variable R : CRing.
Notation "0'" := (r0 R). Notation "1'" := (r1 R).
Infix "+'" := (radd R) (at level 50, left associativity).
Infix "*'" := (rmul R) (at level 40, left associativity).
Notation expr := (expr R). Notation group := (group R). Notation words := (words R).
Notation gf := (group * list ((nat -> R) * (nat -> R)))%type.
Variable orb : Z -> Z.
Variable iszero tiny big : R -> bool.
Variable svd : nat -> nat -> (nat -> nat -> R) -> option (nat * (nat -> nat -> R) * (nat -> R) * (nat -> nat -> R)).
Hypothesis iszero_ok : forall x, iszero x = true -> x = 0'.
Hypothesis tiny_ok : forall x, tiny x = true -> x = 0'.
Hypothesis svd_ok : forall n m a k u s vh, svd n m a = Some (k, u, s, vh) ->
  forall i j, (i < n)%nat -> (j < m)%nat -> bsum (seq 0 k) (fun c => u i c *' s c *' vh c j) = a i j.
Notation right_svd := (right_svd R orb iszero tiny big svd). Notation sweep := (sweep R orb iszero tiny big svd).
Notation row_lab := (row_lab R orb iszero).

(* groups: the two labels cancel; the left strings make up the difference *)
Definition glab (lop : list SZ) (gs : dict (SZ * SZ) group) : Prop := forall k g, In (k, g) gs ->
  sz_add (fst k) (snd k) = zero_lab /\ (forall l, In l (g_l R g) -> exists q, nth_error lop (fst l) = Some q /\ lab_sum orb (snd l) = sz_add q (fst k)) /\
  (forall r, In r (g_r R g) -> lab_sum orb r = snd k).
Lemma sz_cancel : forall a b, sz_add a (sz_add (sz_neg a) b) = b.
Proof using. clear. intros a b. rewrite sz_assoc. replace (sz_add a (sz_neg a)) with zero_lab; [apply sz_0l|]. destruct a as [a1 a2 a3]. unfold sz_add, sz_neg, zero_lab. cbn [sz_n sz_twos sz_pg]. f_equal; try lia. symmetry. apply Z.lxor_nilpotent. Qed.
Lemma add_term_lab : forall lop i ip q gs t gs', nth_error lop ip = Some q -> glab lop gs -> add_term R orb i ip q gs t = Some gs' -> glab lop gs'.
Proof using.
  intros lop i ip q gs [[f ops]|] gs' N W E; [|injection E as <-; exact W]. unfold add_term in E. match type of E with (if ?b then _ else _) = _ => destruct b eqn:B; [discriminate|] end.
  apply negb_false_iff in B. apply (reflect_iff _ _ (sz_eqb_spec _ _)) in B.
  set (k := (sz_add (sz_neg q) (lab_sum orb (left_part i ops)), lab_sum orb (right_part i ops))) in *.
  set (g := match dget qq_eqb gs k with Some g => g | None => mkGroup R [] [] [] end) in *.
  assert (Wg : (forall l, In l (g_l R g) -> exists q, nth_error lop (fst l) = Some q /\ lab_sum orb (snd l) = sz_add q (fst k)) /\ (forall r, In r (g_r R g) -> lab_sum orb r = snd k)).
  { unfold g. destruct (dget qq_eqb gs k) as [g0|] eqn:D; [|split; intros ? []]. apply dget_In in D. destruct D as [k' [I Q]]. destruct (qq_eqb_spec k' k); [|discriminate]. subst k'. exact (proj2 (W _ _ I)). }
  destruct (enter row_eqb (ip, left_part i ops) (g_l R g)) as [il ml] eqn:El. destruct (enter osyms_eqb (right_part i ops) (g_r R g)) as [ir mr] eqn:Er.
  injection E as <-. apply (enter_ok _ _ (0%nat, []) row_eqb_spec) in El. apply (enter_ok _ _ [] osyms_eqb_spec) in Er.
  destruct El as [_ [_ [xl [_ Hl]]]], Er as [_ [_ [xr [_ Hr]]]].
  intros k' g' I. apply dset_In in I. destruct I as [I|[-> Hk]]; [exact (W _ _ I)|]. cbn [g_l g_r].
  assert (k' = k) as -> by (destruct Hk as [->|Hk]; [reflexivity|destruct (qq_eqb_spec k' k); congruence]). split; [exact B|]. split.
  - intros l I. destruct (Hl l I) as [I'| ->]; [now apply (proj1 Wg)|]. exists q. split; [exact N|]. cbn [k fst snd]. symmetry. apply sz_cancel.
  - intros r I. destruct (Hr r I) as [I'| ->]; [now apply (proj2 Wg)|]. reflexivity.
Qed.
Lemma add_terms_lab : forall lop i ip q ts gs gs', nth_error lop ip = Some q -> glab lop gs -> foldM (add_term R orb i ip q) gs ts = Some gs' -> glab lop gs'.
Proof using.
  intros lop i ip q. induction ts as [|t ts IH]; intros gs gs' N W E; cbn [foldM] in E; [injection E as <-; exact W|].
  destruct (add_term R orb i ip q gs t) as [g1|] eqn:E1; cbn [bind] in E; [|discriminate]. eapply IH; [exact N| |exact E]. eapply add_term_lab; eassumption.
Qed.
Lemma add_rows_lab : forall lop i ops rows gs gs', (forall r, In r rows -> nth_error lop (fst r) = Some (snd (snd r))) -> glab lop gs -> foldM (add_row R orb iszero tiny i ops) gs rows = Some gs' -> glab lop gs'.
Proof using.
  intros lop i ops rows. induction rows as [|[ip [c q]] rows IH]; intros gs gs' N W E; cbn [foldM] in E; [injection E as <-; exact W|].
  destruct (add_row R orb iszero tiny i ops gs (ip, (c, q))) as [g1|] eqn:E1; cbn [bind] in E; [|discriminate]. apply (IH g1 gs'); [intros r I; apply N; now right| |exact E].
  unfold add_row in E1. cbn [fst snd] in E1. destruct c as [[f o]|]; [|injection E1 as <-; exact W].
  destruct (dget msym_eqb ops o) as [e|]; cbn [bind] in E1; [|discriminate]. destruct (terms_of R iszero tiny f e) as [ts|]; cbn [bind] in E1; [|discriminate].
  eapply add_terms_lab; [|exact W|exact E1]. exact (N _ (or_introl eq_refl)).
Qed.
Lemma seq_nth_error : forall (A B : Type) (l : list A) (k : list B) a r, In r (combine (seq a (length l)) (combine l k)) -> (a <= fst r)%nat /\ nth_error k (fst r - a) = Some (snd (snd r)).
Proof using.
  clear. intros A B. induction l as [|x l IH]; intros [|y k] a r I; cbn in I; try (destruct I; fail). destruct I as [<-|I].
  - cbn [fst snd]. rewrite Nat.sub_diag. split; [lia|reflexivity].
  - destruct (IH k (S a) r I) as [L H]. split; [lia|]. replace (fst r - a)%nat with (S (fst r - S a)) by lia. exact H.
Qed.
(* left words of the entries *)
Definition col_labs (f : SZ * SZ -> SZ) (fs : list ((SZ * SZ) * gf)) : list SZ := flat_map (fun kf : (SZ * SZ) * gf => map (fun _ => f (fst kf)) (snd (snd kf))) fs.
Lemma words_left_row : forall g ip f w, In w (words (left_expr R iszero tiny g ip f)) -> In (ip, w) (g_l R g).
Proof using.
  intros g ip f w I. unfold left_expr in I. apply (words_dot R) in I. destruct I as [e [I W]]. apply in_map_iff in I. destruct I as [[k p] [<- I]]. cbn [fst snd] in W.
  apply in_combine_r in I. destruct (Nat.eqb_spec (fst p) ip) as [<-|N]; [|destruct W]. apply (words_scaled R) in W. subst w. cbn [snd]. rewrite <- surjective_pairing. exact I.
Qed.
Lemma left_writes_lab : forall lop rows fs im x, (forall k g f, In (k, (g, f)) fs -> sz_add (fst k) (snd k) = zero_lab /\ (forall l, In l (g_l R g) -> exists q, nth_error lop (fst l) = Some q /\ lab_sum orb (snd l) = sz_add q (fst k)) /\
  (forall r, In r (g_r R g) -> lab_sum orb r = snd k)) ->
  In x (left_writes R iszero tiny rows im (map snd fs)) -> exists qc, nth_error (col_labs fst fs) (snd (fst x) - im) = Some qc /\
    forall w, In w (words (snd x)) -> exists qr, nth_error lop (fst (fst x)) = Some qr /\ lab_sum orb w = sz_add qr qc.
Proof using.
  clear - R.
  intros lop rows. induction fs as [|[k [g fl]] fs IH]; intros im x G I; cbn [left_writes map snd] in I; [destruct I|]. unfold col_labs. cbn [flat_map fst snd]. fold (col_labs fst fs).
  apply in_app_or in I. destruct I as [I|I].
  - apply in_flat_map in I. destruct I as [ip [_ I]]. apply in_map_iff in I. destruct I as [[c f] [<- I]]. cbn [fst snd]. apply in_combine_l in I. apply in_seq in I.
    exists (fst k). split.
    + rewrite nth_error_app1 by (rewrite map_length; lia). apply nth_const. lia.
    + intros w W. apply words_left_row in W. destruct (G k g fl (or_introl eq_refl)) as [_ [G2 _]]. destruct (G2 _ W) as [q [Q1 Q2]]. exists q. auto.
  - assert (G' : forall k g f, In (k, (g, f)) fs -> sz_add (fst k) (snd k) = zero_lab /\ (forall l, In l (g_l R g) -> exists q, nth_error lop (fst l) = Some q /\ lab_sum orb (snd l) = sz_add q (fst k)) /\ (forall r, In r (g_r R g) -> lab_sum orb r = snd k)) by (intros; eapply G; right; eassumption).
    destruct (left_writes_shape R iszero tiny _ _ _ _ I) as [_ [L _]]. destruct (IH _ _ G' I) as [qc [Q H]]. exists qc. split; [|exact H].
    rewrite nth_error_app2 by (rewrite map_length; lia). rewrite map_length. rewrite <- Q. f_equal. lia.
Qed.
(* entries of a table *)
Lemma fold_entry_named : forall ws k ops es k' ops' es', ops_ok R k ops -> Forall (fun w => poly R (snd w)) ws -> fold_left (add_entry R iszero) ws (k, ops, es) = (k', ops', es') ->
  (forall e, In e es -> exists w, named R iszero ops (Some (snd e)) (snd w) /\ fst w = fst e) ->
  ops_ok R k' ops' /\ grows R ops ops' /\ forall e, In e es' -> In e es \/ exists w, In w ws /\ fst w = fst e /\ named R iszero ops' (Some (snd e)) (snd w).
Proof.
  induction ws as [|w ws IH]; intros k ops es k' ops' es' O P E N; cbn [fold_left] in E; [injection E as <- <- <-; split; [exact O|split; [intros o e H; exact H|auto]]|].
  inversion P as [|? ? Pw Pws]; subst. unfold add_entry in E at 2. destruct (name_expr R iszero k ops (snd w)) as [[k1 ops1] c] eqn:Nm.
  destruct (name_in R iszero _ _ _ _ _ _ Pw Nm) as [A B]. destruct (name_ok R iszero svd iszero_ok svd_ok _ _ _ _ _ _ O Pw Nm) as [O1 [G _]].
  assert (N1 : forall e, In e (match c with Some c => es ++ [(fst w, c)] | None => es end) -> exists w0, named R iszero ops1 (Some (snd e)) (snd w0) /\ fst w0 = fst e).
  { intros e I. destruct c as [c|].
    - apply in_app_or in I. destruct I as [I|[<-|[]]]; [|exists w; split; [exact B|reflexivity]]. destruct (N e I) as [w0 [H1 H2]]. exists w0. split; [|exact H2]. destruct (snd e) as [f o]. destruct H1 as [e' [D H]]. exists e'. split; [exact (G _ _ D)|exact H].
    - destruct (N e I) as [w0 [H1 H2]]. exists w0. split; [|exact H2]. destruct (snd e) as [f o]. destruct H1 as [e' [D H]]. exists e'. split; [exact (G _ _ D)|exact H]. }
  destruct (IH _ _ _ _ _ _ O1 Pws E N1) as [O2 [G2 H2]]. split; [exact O2|]. split; [intros o e D; apply G2, G, D|].
  intros e I. destruct (H2 e I) as [J|[w' [J H]]]; [|right; exists w'; split; [now right|exact H]]. destruct c as [c|]; [|now left]. apply in_app_or in J. destruct J as [J|[<-|[]]]; [now left|].
  right. exists w. split; [now left|]. split; [reflexivity|]. cbn [snd]. destruct c as [f o]. destruct B as [e' [D H]]. exists e'. split; [exact (G2 _ _ D)|exact H].
Qed.
Definition entry_lab (t : table R) (e : (nat * nat) * (R * msym)) : Prop :=
  exists qc x, nth_error (t_rop R t) (snd (fst e)) = Some qc /\ dget msym_eqb (t_ops R t) (snd (snd e)) = Some x /\
    forall w, In w (words x) -> exists qr, nth_error (t_lop R t) (fst (fst e)) = Some qr /\ lab_sum orb w = sz_add qr qc.
Lemma right_svd_lab : forall i c t c', right_svd i c = Some (t, c') ->
  t_lop R t = c_lop R c /\ t_rows R t = length (c_mat R c) /\ t_cols R t = length (c_mat R c') /\ length (t_rop R t) = t_cols R t /\
  Forall2 (fun a b => sz_add a b = zero_lab) (t_rop R t) (c_lop R c') /\ Forall (entry_lab t) (t_mat R t).
Proof.
  intros i c t c' E. unfold BuildModel.right_svd in E. destruct (groups_of R orb iszero tiny i c) as [gs|] eqn:EG; cbn [bind] in E; [|discriminate].
  match type of E with bind (mapM ?F gs) _ = _ => destruct (mapM F gs) as [fs|] eqn:EF; cbn [bind] in E; [|discriminate] end.
  destruct (fold_left (add_entry R iszero) (left_writes R iszero tiny (length (c_mat R c)) 0 (map snd fs)) (0%nat, [], [])) as [[k1 lops] es] eqn:EL.
  destruct (fold_left (add_cell R iszero) (right_writes R iszero tiny (map snd fs)) (0%nat, [], [])) as [[k2 rops] cs] eqn:ER.
  injection E as <- <-. unfold entry_lab. cbn [t_mat t_ops t_lop t_rop t_rows t_cols c_ops c_mat c_lop]. fold (col_labs fst fs). fold (col_labs snd fs).
  assert (G : glab (c_lop R c) gs).
  { unfold groups_of in EG. eapply add_rows_lab; [| |exact EG]; [|intros ? ? []]. intros r I. apply seq_nth_error in I. rewrite Nat.sub_0_r in I. apply I. }
  assert (GF : forall k g f, In (k, (g, f)) fs -> In (k, g) gs).
  { intros k g f I. eapply mapM_in in I; [|exact EF]. destruct I as [[k' g'] [I Eb]]. cbn [fst snd] in Eb. destruct (factors R big svd g'); cbn [bind] in Eb; [|discriminate]. injection Eb as <- <- <-. exact I. }
  assert (O0 : ops_ok R 0 []) by (repeat split; intros; discriminate).
  assert (PL := left_writes_poly R iszero tiny iszero_ok tiny_ok (length (c_mat R c)) (map snd fs) 0). assert (PR := right_writes_poly R iszero tiny iszero_ok tiny_ok (map snd fs)).
  destruct (fold_entry_named _ _ _ _ _ _ _ O0 PL EL) as [_ [_ NE]]; [intros e []|].
  destruct (cells_ok R iszero svd iszero_ok svd_ok orb _ _ _ _ _ _ _ O0 PR (Forall_nil _) ER) as [_ [_ [_ [LC _]]]]. cbn [length] in LC.
  assert (G' : forall k g f, In (k, (g, f)) fs -> sz_add (fst k) (snd k) = zero_lab /\ (forall l, In l (g_l R g) -> exists q, nth_error (c_lop R c) (fst l) = Some q /\ lab_sum orb (snd l) = sz_add q (fst k)) /\ (forall r, In r (g_r R g) -> lab_sum orb r = snd k)) by (intros k g f I; exact (G k g (GF _ _ _ I))).
  split; [reflexivity|]. split; [reflexivity|]. split; [reflexivity|]. split; [|split].
  - rewrite LC. clear. unfold col_labs, right_writes. induction fs as [|[k [g f]] fs IH]; [reflexivity|]. cbn [map flat_map fst snd]. rewrite !app_length, !map_length, IH. reflexivity.
  - clear - G'. unfold col_labs. induction fs as [|[k [g f]] fs IH]; [constructor|]. cbn [flat_map fst snd]. apply Forall2_app; [|apply IH; intros; eapply G'; right; eassumption].
    destruct (G' k g f (or_introl eq_refl)) as [H _]. clear - H. induction f; cbn; constructor; auto.
  - apply Forall_forall. intros e I. destruct (NE e I) as [[]|[w [J [Ew N]]]]. destruct (left_writes_lab (c_lop R c) _ _ _ _ G' J) as [qc [Q H]]. rewrite Nat.sub_0_r in Q. rewrite Ew in Q, H.
    exists qc. destruct (snd e) as [f o]. destruct N as [e' [D [W _]]]. exists e'. split; [exact Q|]. split; [exact D|]. intros v V. rewrite W in V. exact (H v V).
Qed.
(* consecutive tables *)
Fixpoint fits (lop : list SZ) (ts : list (table R)) : Prop :=
  match ts with
  | [] => False
  | t :: ts' => t_lop R t = lop /\ length (t_lop R t) = t_rows R t /\ length (t_rop R t) = t_cols R t /\ Forall (entry_lab t) (t_mat R t) /\
      match ts' with [] => t_rop R t = [zero_lab] | t' :: _ => Forall2 (fun a b => sz_add a b = zero_lab) (t_rop R t) (t_lop R t') /\ fits (t_lop R t') ts' end
  end.
Lemma sweep_lab : forall n k i c ts, col_loc R n i (c_ops R c) -> Forall2 (row_lab (c_ops R c)) (c_mat R c) (c_lop R c) -> sweep k i c = Some ts -> fits (c_lop R c) ts.
Proof.
  intros n. induction k as [|k IH]; intros i c ts CL RL E; cbn [BuildModel.sweep] in E.
  - injection E as <-. cbn [fits t_lop t_rop t_rows t_cols t_mat length]. split; [reflexivity|]. split; [symmetry; eapply F2_len; exact RL|]. split; [reflexivity|]. split; [|reflexivity].
    apply Forall_forall. intros e I. apply in_flat_map in I. destruct I as [[r c0] [I J]]. cbn [fst snd] in J. destruct c0 as [x|]; [|destruct J]. destruct J as [<-|[]].
    unfold entry_lab. cbn [t_mat t_rop t_lop t_ops fst snd nth_error].
    assert (K : exists q, nth_error (c_lop R c) r = Some q /\ row_lab (c_ops R c) (Some x) q).
    { clear - RL I. assert (K : forall a l k r, Forall2 (row_lab (c_ops R c)) l k -> In (r, Some x) (combine (seq a (length l)) l) -> (a <= r)%nat /\ exists q, nth_error k (r - a) = Some q /\ row_lab (c_ops R c) (Some x) q).
      { intros a l k r0 F. revert a. induction F as [|u v l k H F IHF]; intros a J; cbn in J; [destruct J|]. destruct J as [J|J].
        - injection J as <- ->. split; [lia|]. exists v. rewrite Nat.sub_diag. split; [reflexivity|exact H].
        - destruct (IHF (S a) J) as [L [q [Q1 Q2]]]. split; [lia|]. exists q. replace (r0 - a)%nat with (S (r0 - S a)) by lia. split; [exact Q1|exact Q2]. }
      destruct (K _ _ _ _ RL I) as [_ [q [Q1 Q2]]]. rewrite Nat.sub_0_r in Q1. eauto. }
    destruct K as [q [Q K]]. destruct x as [f o]. destruct K as [y [D [_ L]]]. exists zero_lab, y. split; [reflexivity|]. split; [exact D|]. intros w W. exists q. split; [exact Q|]. rewrite sz_0r. exact (L w W).
  - destruct (right_svd i c) as [[t c']|] eqn:ES; cbn [bind] in E; [|discriminate]. destruct (sweep k (i + 1) c') as [ts'|] eqn:ET; cbn [bind] in E; [|discriminate]. injection E as <-.
    destruct (right_svd_loc R orb iszero tiny big svd iszero_ok tiny_ok svd_ok n i c t c' CL ES) as [_ [CL' [_ [_ [RL' _]]]]]. destruct (right_svd_lab _ _ _ _ ES) as [A [B [C [D [F G]]]]].
    specialize (IH _ _ _ CL' RL' ET). cbn [fits]. split; [exact A|]. split; [rewrite A, B; symmetry; eapply F2_len; exact RL|]. split; [exact D|]. split; [exact G|].
    destruct ts' as [|t' ts']; [destruct IH|]. assert (L : t_lop R t' = c_lop R c') by apply IH. rewrite L. split; [exact F|]. exact IH.
Qed.
End Labels.
