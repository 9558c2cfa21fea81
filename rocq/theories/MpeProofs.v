(** Lemmas about environments and the disk cache. *)
From Coq Require Import ZArith Bool List String Lia Arith.
From Verif Require Import DictLib IndexLib MpeModel.
Import ListNotations.
Open Scope Z_scope.

Section Env.
Variables T R E M : Type.
Variable idL idR : E.
Variable mpo : Z -> M.
Variable n : Z.
Variable do_canon : bool.
Variable lcanon : T -> T * R.
Variable rcanon : T -> R * T.
Variable absl : R -> T -> T.
Variable absr : T -> R -> T.
Variable lstep : E -> M -> T -> T -> E.
Variable rstep : M -> E -> T -> T -> E.
(* what canonicalisation guarantees *)
Variables leftc rightc : T -> Prop.
Hypothesis lcanon_left : forall t, leftc (fst (lcanon t)).
Hypothesis rcanon_right : forall t, rightc (snd (rcanon t)).
(* the operator a chain stands for: ordered product in a semigroup *)
Variable G : Type.
Variable gm : G -> G -> G.
Variable ge : G.
Hypothesis gm_assoc : forall a b c, gm a (gm b c) = gm (gm a b) c.
Hypothesis gm_ge : forall a, gm a ge = a.
Variable vT : T -> G.
Variable vR : R -> G.
Hypothesis lcanon_val : forall t, gm (vT (fst (lcanon t))) (vR (snd (lcanon t))) = vT t.
Hypothesis rcanon_val : forall t, gm (vR (fst (rcanon t))) (vT (snd (rcanon t))) = vT t.
Hypothesis absl_val : forall r t, vT (absl r t) = gm (vR r) (vT t).
Hypothesis absr_val : forall r t, vT (absr t r) = gm (vT t) (vR r).

Notation mpe := (mpe T E).
Notation ket := (ket T E).
Notation bra := (bra T E).
Notation lenv := (lenv T E).
Notation renv := (renv T E).
Notation build_left1 := (build_left1 T R E M idL mpo do_canon lcanon absl lstep).
Notation build_right1 := (build_right1 T R E M idR mpo n do_canon rcanon absr rstep).
Notation build_envs := (build_envs T R E M idL idR mpo n do_canon lcanon rcanon absl absr lstep rstep).

(** *** Specification *)
(* environment of the first j sites / of the last j sites, computed from scratch *)
Fixpoint Lspec (k b : Z -> T) (j : nat) : E :=
  match j with
  | O => idL
  | S j' => lstep (Lspec k b j') (mpo (Z.of_nat j')) (k (Z.of_nat j')) (b (Z.of_nat j'))
  end.
Fixpoint Rspec (k b : Z -> T) (j : nat) : E :=
  match j with
  | O => idR
  | S j' => let i := n - 1 - Z.of_nat j' in rstep (mpo i) (Rspec k b j') (k i) (b i)
  end.
(* the chain value: ordered product of sites 0..n-1 *)
Definition chain (f : Z -> T) (l : list Z) : G := fold_right (fun i acc => gm (vT (f i)) acc) ge l.

Lemma Lspec_ext : forall j k b k' b', (forall i, 0 <= i < Z.of_nat j -> k i = k' i /\ b i = b' i) -> Lspec k b j = Lspec k' b' j.
Proof.
  induction j; intros; cbn [Lspec]; auto. rewrite (IHj k b k' b') by (intros; apply H; lia).
  destruct (H (Z.of_nat j)) as [-> ->]; [lia|reflexivity].
Qed.
Lemma Rspec_ext : forall j k b k' b', (forall i, n - Z.of_nat j <= i < n -> k i = k' i /\ b i = b' i) -> Rspec k b j = Rspec k' b' j.
Proof.
  induction j; intros; cbn [Rspec]; auto. rewrite (IHj k b k' b') by (intros; apply H; lia).
  destruct (H (n - 1 - Z.of_nat j)) as [-> ->]; [lia|reflexivity].
Qed.

Lemma upd_same : forall (A : Type) (f : Z -> A) i v, upd f i v i = v.
Proof. intros. unfold upd. now rewrite Z.eqb_refl. Qed.
Lemma upd_other : forall (A : Type) (f : Z -> A) i v j, j <> i -> upd f i v j = f j.
Proof. intros. unfold upd. destruct (Z.eqb_spec j i); congruence. Qed.

Lemma lcanon_site_other : forall f i j, j <> i -> j <> i + 1 -> lcanon_site T R lcanon absl f i j = f j.
Proof. intros. unfold lcanon_site. destruct (lcanon (f i)). now rewrite !upd_other. Qed.
Lemma lcanon_site_at : forall f i, lcanon_site T R lcanon absl f i i = fst (lcanon (f i)).
Proof. intros. unfold lcanon_site. destruct (lcanon (f i)). rewrite upd_other by lia. now rewrite upd_same. Qed.
Lemma rcanon_site_other : forall f i j, j <> i -> j <> i - 1 -> rcanon_site T R rcanon absr f i j = f j.
Proof. intros. unfold rcanon_site. destruct (rcanon (f i)). now rewrite !upd_other. Qed.
Lemma rcanon_site_at : forall f i, rcanon_site T R rcanon absr f i i = snd (rcanon (f i)).
Proof. intros. unfold rcanon_site. destruct (rcanon (f i)). rewrite upd_other by lia. now rewrite upd_same. Qed.

(* the chain value is unchanged by canonicalising inside the chain *)
Lemma chain_ext : forall l f g, (forall i, In i l -> f i = g i) -> chain f l = chain g l.
Proof.
  unfold chain. induction l; intros; [reflexivity|]. cbn [fold_right]. rewrite (H a) by (left; reflexivity). f_equal.
  apply IHl. intros; apply H; now right.
Qed.
Lemma chain_app_cons2 : forall l1 l2 f i j, chain f (l1 ++ i :: j :: l2) =
  fold_right (fun i acc => gm (vT (f i)) acc) (gm (gm (vT (f i)) (vT (f j))) (chain f l2)) l1.
Proof. intros. unfold chain. rewrite fold_right_app. cbn. now rewrite gm_assoc. Qed.
Lemma zrange_split2 : forall m i, 0 <= i -> i + 1 < m -> exists l1 l2, zrange m = l1 ++ i :: (i + 1) :: l2 /\
  (forall x, In x l1 -> 0 <= x < i) /\ (forall x, In x l2 -> i + 1 < x < m).
Proof.
  intros m i Hi Hm. exists (zrange i), (map (fun x => i + 2 + x) (zrange (m - i - 2))). split; [|split].
  - replace m with (i + (2 + (m - i - 2))) at 1 by lia. rewrite zrange_add by lia. f_equal.
    rewrite zrange_add by lia. change (zrange 2) with [0; 1]. cbn [app map]. rewrite Z.add_0_r. do 2 f_equal.
    rewrite map_map. apply map_ext. intros; lia.
  - intros x Hx. now apply in_zrange in Hx.
  - intros x Hx. apply in_map_iff in Hx. destruct Hx as (y & <- & Hy). apply in_zrange in Hy. lia.
Qed.
Lemma chain_two : forall f g i m, 0 <= i -> i + 1 < m -> (forall j, j <> i -> j <> i + 1 -> f j = g j) ->
  gm (vT (f i)) (vT (f (i + 1))) = gm (vT (g i)) (vT (g (i + 1))) -> chain f (zrange m) = chain g (zrange m).
Proof.
  intros f g i m Hi Hm Ho He. destruct (zrange_split2 m i Hi Hm) as (l1 & l2 & -> & H1 & H2).
  rewrite !chain_app_cons2. rewrite He. rewrite (chain_ext l2 f g).
  - revert H1. generalize (gm (gm (vT (g i)) (vT (g (i + 1)))) (chain g l2)). clear - Ho. intros x.
    induction l1; cbn; intros; auto. rewrite IHl1 by (intros; apply H1; auto). rewrite Ho; [reflexivity| |]; specialize (H1 a (or_introl eq_refl)); lia.
  - intros j Hj. apply H2 in Hj. apply Ho; lia.
Qed.
Lemma chain_lcanon : forall f i, 0 <= i -> i + 1 < n -> chain (lcanon_site T R lcanon absl f i) (zrange n) = chain f (zrange n).
Proof.
  intros f i Hi Hn. apply (chain_two _ _ i); auto.
  - intros. now apply lcanon_site_other.
  - rewrite lcanon_site_at. unfold lcanon_site. pose proof (lcanon_val (f i)) as V. destruct (lcanon (f i)) as [q r]. cbn [fst snd] in *.
    rewrite upd_same, absl_val, gm_assoc, V. reflexivity.
Qed.
Lemma chain_rcanon : forall f i, 1 <= i -> i < n -> chain (rcanon_site T R rcanon absr f i) (zrange n) = chain f (zrange n).
Proof.
  intros f i Hi Hn. apply (chain_two _ _ (i - 1)); try lia.
  - intros. apply rcanon_site_other; lia.
  - replace (i - 1 + 1) with i by lia. rewrite rcanon_site_at. unfold rcanon_site. pose proof (rcanon_val (f i)) as V.
    destruct (rcanon (f i)) as [l q]. cbn [fst snd] in *. rewrite upd_same, absr_val, <- gm_assoc, V. reflexivity.
Qed.

(** *** Invariants *)
(* left environments below site b hold the recomputed value, and their sites are canonical *)
Definition okL (s : mpe) (b : Z) : Prop := forall i e, i < b -> lenv s i = Some e ->
  e = Lspec (ket s) (bra s) (Z.to_nat (i + 1)) /\ (do_canon = true -> 0 <= i -> leftc (ket s i) /\ leftc (bra s i)).
Definition okR (s : mpe) (b : Z) : Prop := forall i e, b <= i -> renv s i = Some e ->
  e = Rspec (ket s) (bra s) (Z.to_nat (n - i)) /\ (do_canon = true -> i < n -> rightc (ket s i) /\ rightc (bra s i)).
(* present left environments form a prefix, right environments a suffix *)
Definition domL (s : mpe) : Prop := forall i, lenv s i <> None -> -1 <= i < n /\ forall j, -1 <= j <= i -> lenv s j <> None.
Definition domR (s : mpe) : Prop := forall i, renv s i <> None -> 0 <= i <= n /\ forall j, i <= j <= n -> renv s j <> None.
(* two states stand for the same bra and ket *)
Definition equiv (s s' : mpe) : Prop :=
  chain (ket s') (zrange n) = chain (ket s) (zrange n) /\ chain (bra s') (zrange n) = chain (bra s) (zrange n)
  /\ same _ _ s' = same _ _ s.
Lemma equiv_refl : forall s, equiv s s. Proof. intros; repeat split. Qed.
Lemma equiv_trans : forall a b c, equiv a b -> equiv b c -> equiv a c.
Proof. unfold equiv. intuition congruence. Qed.

Lemma bra_canon : forall cs s i j, bra (canon_both T E do_canon cs s i) j =
  if do_canon then (cs (bra s) i) j else bra s j.
Proof. intros. unfold canon_both, MpeModel.bra. destruct do_canon; [|reflexivity]. cbn. destruct (same T E s); reflexivity. Qed.
Lemma ket_canon : forall cs s i j, ket (canon_both T E do_canon cs s i) j =
  if do_canon then (cs (ket s) i) j else ket s j.
Proof. intros. unfold canon_both. destruct do_canon; reflexivity. Qed.
Lemma envs_canon : forall cs s i, lenv (canon_both T E do_canon cs s i) = lenv s /\ renv (canon_both T E do_canon cs s i) = renv s.
Proof. intros. unfold canon_both. destruct do_canon; auto. Qed.
Lemma same_canon : forall cs s i, same _ _ (canon_both T E do_canon cs s i) = same _ _ s.
Proof. intros. unfold canon_both. destruct do_canon; auto. Qed.

Lemma chain_ket_canon : forall cs s i, (forall f, chain (cs f i) (zrange n) = chain f (zrange n)) ->
  chain (ket (canon_both T E do_canon cs s i)) (zrange n) = chain (ket s) (zrange n).
Proof. intros. unfold canon_both. destruct do_canon; cbn; auto. Qed.
Lemma chain_bra_canon : forall cs s i, (forall f, chain (cs f i) (zrange n) = chain f (zrange n)) ->
  chain (bra (canon_both T E do_canon cs s i)) (zrange n) = chain (bra s) (zrange n).
Proof. intros. unfold canon_both, MpeModel.bra. destruct do_canon; cbn; auto. destruct (same T E s); cbn; auto. Qed.

Record good (s : mpe) (l r : Z) : Prop := { gL : okL s l; gR : okR s r; gdL : domL s; gdR : domR s }.

Lemma domL_set : forall s i e, domL s -> (-1 <= i < n) -> (forall j, -1 <= j < i -> lenv s j <> None) -> domL (set_lenv T E s i (Some e)).
Proof.
  intros s i e D Hi Hp j. cbn. unfold upd. destruct (Z.eqb_spec j i).
  - subst. intros _. split; [lia|]. intros j Hj. destruct (Z.eqb_spec j i); [discriminate|]. apply Hp. lia.
  - intros H. apply D in H. destruct H as [H1 H2]. split; auto. intros k Hk. destruct (Z.eqb_spec k i); [discriminate|]. auto.
Qed.
Lemma domR_set : forall s i e, domR s -> 0 <= i <= n -> (forall j, i < j <= n -> renv s j <> None) -> domR (set_renv T E s i (Some e)).
Proof.
  intros s i e D Hi Hp j. cbn. unfold upd. destruct (Z.eqb_spec j i).
  - subst. intros _. split; [lia|]. intros j Hj. destruct (Z.eqb_spec j i); [discriminate|]. apply Hp. lia.
  - intros H. apply D in H. destruct H as [H1 H2]. split; auto. intros k Hk. destruct (Z.eqb_spec k i); [discriminate|]. auto.
Qed.

Lemma left1_good : forall s i l r, 0 <= l -> l < r -> r <= n -> -1 <= i < l -> good s l r ->
  (forall j, -1 <= j < i -> lenv s j <> None) ->
  exists s', build_left1 s i = Some s' /\ good s' l r /\ equiv s s' /\ renv s' = renv s /\
    (forall j, -1 <= j <= i -> lenv s' j <> None).
Proof.
  intros s i l r Hl Hlr Hr Hi [GL GR GdL GdR] Hp. unfold MpeModel.build_left1.
  destruct (lenv s i) as [e|] eqn:Ei.
  { exists s. split; [reflexivity|]. split; [constructor; auto|]. split; [apply equiv_refl|]. split; [reflexivity|].
    intros j Hj. destruct (Z.eq_dec j i); [subst; congruence|apply Hp; lia]. }
  unfold left_contract_rotate. destruct (Z.eqb_spec i (-1)).
  - subst. eexists. split; [reflexivity|]. split; [constructor|split; [|split]].
    + intros j e Hj. cbn. unfold upd. destruct (Z.eqb_spec j (-1)).
      * subst. intros [= <-]. split; [reflexivity|intros; lia].
      * intros He. exact (GL j e Hj He).
    + exact GR.
    + apply domL_set; auto; intros; lia.
    + exact GdR.
    + exact (equiv_refl s).
    + reflexivity.
    + intros j Hj. cbn. unfold upd. destruct (Z.eqb_spec j (-1)); [discriminate|lia].
  - destruct (lenv s (i - 1)) as [p|] eqn:Ep; [|exfalso; revert Ep; apply Hp; lia].
    set (s1 := canon_both T E do_canon (lcanon_site T R lcanon absl) s i).
    assert (K: forall j, j <> i -> j <> i + 1 -> ket s1 j = ket s j).
    { intros j A B. unfold s1. rewrite ket_canon. destruct do_canon; auto. now apply lcanon_site_other. }
    assert (B: forall j, j <> i -> j <> i + 1 -> bra s1 j = bra s j).
    { intros j A C. unfold s1. rewrite bra_canon. destruct do_canon; auto. now apply lcanon_site_other. }
    assert (EL: lenv s1 = lenv s) by apply envs_canon. assert (ER: renv s1 = renv s) by apply envs_canon.
    (* no left environment at or above i *)
    assert (Nl: forall j, i <= j -> lenv s j = None).
    { intros j Hj. destruct (lenv s j) eqn:Ej; [|reflexivity]. exfalso.
      destruct (GdL j) as [_ Q]; [congruence|]. apply (Q i); [lia|exact Ei]. }
    assert (Pv: p = Lspec (ket s1) (bra s1) (Z.to_nat i)).
    { destruct (GL (i - 1) p) as [-> _]; [lia|exact Ep|]. replace (i - 1 + 1) with i by lia. apply Lspec_ext.
      intros j Hj. rewrite K, B by lia. auto. }
    eexists. split; [reflexivity|]. split; [constructor|split; [|split]].
    + intros j e Hj. cbn -[s1]. unfold upd. destruct (Z.eqb_spec j i).
      * subst j. intros [= <-]. change (MpeModel.bra T E (set_lenv T E s1 i ?x)) with (bra s1). split.
        { rewrite Pv. replace (Z.to_nat (i + 1)) with (S (Z.to_nat i)) by lia. cbn [Lspec]. rewrite Z2Nat.id by lia. reflexivity. }
        { intros Hc _. unfold s1. rewrite ket_canon, bra_canon, Hc. rewrite !lcanon_site_at. auto. }
      * rewrite EL. intros He. change (MpeModel.bra T E (set_lenv T E s1 i ?x)) with (bra s1).
        destruct (Z_lt_le_dec j i); [|rewrite Nl in He by lia; discriminate].
        destruct (GL j e Hj He) as [-> C]. split.
        { apply Lspec_ext. intros x Hx. rewrite K, B by lia. auto. }
        { intros Hc H0. rewrite K, B by lia. auto. }
    + intros j e Hj. cbn -[s1]. rewrite ER. intros He. change (MpeModel.bra T E (set_lenv T E s1 i ?x)) with (bra s1).
      destruct (GR j e Hj He) as [-> C]. split.
      { apply Rspec_ext. intros x Hx. rewrite K, B by lia. auto. }
      { intros Hc H0. rewrite K, B by lia. auto. }
    + apply domL_set; [|lia|].
      * intros j. rewrite EL. apply GdL.
      * intros j Hj. rewrite EL. apply Hp. lia.
    + intros j. cbn -[s1]. rewrite ER. apply GdR.
    + unfold equiv. change (MpeModel.bra T E (set_lenv T E s1 i ?x)) with (bra s1). change (ket (set_lenv T E s1 i ?x)) with (ket s1).
      unfold s1. split; [|split; [|apply same_canon]].
      * apply chain_ket_canon. intros f. apply chain_lcanon; lia.
      * apply chain_bra_canon. intros f. apply chain_lcanon; lia.
    + exact ER.
    + intros j Hj. cbn -[s1]. unfold upd. destruct (Z.eqb_spec j i); [discriminate|]. rewrite EL. apply Hp. lia.
Qed.

Lemma right1_good : forall s i l r, 0 <= l -> l < r -> r <= n -> r <= i <= n -> good s l r ->
  (forall j, i < j <= n -> renv s j <> None) ->
  exists s', build_right1 s i = Some s' /\ good s' l r /\ equiv s s' /\ lenv s' = lenv s /\
    (forall j, i <= j <= n -> renv s' j <> None).
Proof.
  intros s i l r Hl Hlr Hr Hi [GL GR GdL GdR] Hp. unfold MpeModel.build_right1.
  destruct (renv s i) as [e|] eqn:Ei.
  { exists s. split; [reflexivity|]. split; [constructor; auto|]. split; [apply equiv_refl|]. split; [reflexivity|].
    intros j Hj. destruct (Z.eq_dec j i); [subst; congruence|apply Hp; lia]. }
  unfold right_contract_rotate. destruct (Z.eqb_spec i n).
  - subst. eexists. split; [reflexivity|]. split; [constructor|split; [|split]].
    + exact GL.
    + intros j e Hj. cbn. unfold upd. destruct (Z.eqb_spec j n).
      * subst. intros [= <-]. rewrite Z.sub_diag. split; [reflexivity|intros; lia].
      * intros He. exact (GR j e Hj He).
    + exact GdL.
    + apply domR_set; auto; intros; lia.
    + exact (equiv_refl s).
    + reflexivity.
    + intros j Hj. cbn. unfold upd. destruct (Z.eqb_spec j n); [discriminate|lia].
  - destruct (renv s (i + 1)) as [p|] eqn:Ep; [|exfalso; revert Ep; apply Hp; lia].
    set (s1 := canon_both T E do_canon (rcanon_site T R rcanon absr) s i).
    assert (K: forall j, j <> i -> j <> i - 1 -> ket s1 j = ket s j).
    { intros j A B. unfold s1. rewrite ket_canon. destruct do_canon; auto. now apply rcanon_site_other. }
    assert (B: forall j, j <> i -> j <> i - 1 -> bra s1 j = bra s j).
    { intros j A C. unfold s1. rewrite bra_canon. destruct do_canon; auto. now apply rcanon_site_other. }
    assert (EL: lenv s1 = lenv s) by apply envs_canon. assert (ER: renv s1 = renv s) by apply envs_canon.
    assert (Nl: forall j, j <= i -> renv s j = None).
    { intros j Hj. destruct (renv s j) eqn:Ej; [|reflexivity]. exfalso.
      destruct (GdR j) as [_ Q]; [congruence|]. apply (Q i); [lia|exact Ei]. }
    assert (Pv: p = Rspec (ket s1) (bra s1) (Z.to_nat (n - i - 1))).
    { destruct (GR (i + 1) p) as [-> _]; [lia|exact Ep|]. replace (n - (i + 1)) with (n - i - 1) by lia. apply Rspec_ext.
      intros j Hj. rewrite K, B by lia. auto. }
    eexists. split; [reflexivity|]. split; [constructor|split; [|split]].
    + intros j e Hj. cbn -[s1]. rewrite EL. intros He. change (MpeModel.bra T E (set_renv T E s1 i ?x)) with (bra s1).
      destruct (GL j e Hj He) as [-> C]. split.
      { apply Lspec_ext. intros x Hx. rewrite K, B by lia. auto. }
      { intros Hc H0. rewrite K, B by lia. auto. }
    + intros j e Hj. cbn -[s1]. unfold upd. destruct (Z.eqb_spec j i).
      * subst j. intros [= <-]. change (MpeModel.bra T E (set_renv T E s1 i ?x)) with (bra s1). split.
        { rewrite Pv. replace (Z.to_nat (n - i)) with (S (Z.to_nat (n - i - 1))) by lia. cbn [Rspec]. rewrite Z2Nat.id by lia.
          replace (n - 1 - (n - i - 1)) with i by lia. reflexivity. }
        { intros Hc _. unfold s1. rewrite ket_canon, bra_canon, Hc. rewrite !rcanon_site_at. auto. }
      * rewrite ER. intros He. change (MpeModel.bra T E (set_renv T E s1 i ?x)) with (bra s1).
        destruct (Z_lt_le_dec i j); [|rewrite Nl in He by lia; discriminate].
        destruct (GR j e Hj He) as [-> C]. split.
        { apply Rspec_ext. intros x Hx. rewrite K, B by lia. auto. }
        { intros Hc H0. rewrite K, B by lia. auto. }
    + intros j. cbn -[s1]. rewrite EL. apply GdL.
    + apply domR_set; [|lia|].
      * intros j. rewrite ER. apply GdR.
      * intros j Hj. rewrite ER. apply Hp. lia.
    + unfold equiv. change (MpeModel.bra T E (set_renv T E s1 i ?x)) with (bra s1). change (ket (set_renv T E s1 i ?x)) with (ket s1).
      unfold s1. split; [|split; [|apply same_canon]].
      * apply chain_ket_canon. intros f. apply chain_rcanon; lia.
      * apply chain_bra_canon. intros f. apply chain_rcanon; lia.
    + exact EL.
    + intros j Hj. cbn -[s1]. unfold upd. destruct (Z.eqb_spec j i); [discriminate|]. rewrite ER. apply Hp. lia.
Qed.

Lemma foldo_app : forall (A B : Type) (f : A -> B -> option A) l1 l2 a,
  foldo f (l1 ++ l2) a = match foldo f l1 a with Some a' => foldo f l2 a' | None => None end.
Proof. induction l1; cbn; intros; auto. destruct (f a0 a); auto. Qed.

Lemma build_good : forall s l r, 0 <= l -> l < r -> r <= n -> good s l r ->
  exists s', build_envs s l r = Some s' /\ good s' l r /\ equiv s s' /\
    (exists e, lenv s' (l - 1) = Some e) /\ (exists e, renv s' r = Some e).
Proof.
  intros s l r Hl Hlr Hr G0. unfold MpeModel.build_envs.
  set (s0 := set_renv T E (set_lenv T E s (-2) None) (n + 1) None).
  assert (G1: good s0 l r).
  { destruct G0 as [GL GR GdL GdR]. constructor.
    - intros i e Hi. cbn. unfold upd. destruct (Z.eqb_spec i (-2)); [discriminate|]. apply GL; auto.
    - intros i e Hi. cbn. unfold upd. destruct (Z.eqb_spec i (n + 1)); [discriminate|]. apply GR; auto.
    - intros i. cbn. unfold upd. destruct (Z.eqb_spec i (-2)); [congruence|]. intros H. apply GdL in H. destruct H as [H1 H2].
      split; auto. intros j Hj. destruct (Z.eqb_spec j (-2)); [lia|]. auto.
    - intros i. cbn. unfold upd. destruct (Z.eqb_spec i (n + 1)); [congruence|]. intros H. apply GdR in H. destruct H as [H1 H2].
      split; auto. intros j Hj. destruct (Z.eqb_spec j (n + 1)); [lia|]. auto. }
  assert (Lp: forall m, (Z.of_nat m <= l + 1) -> exists s1, foldo build_left1 (map (fun j => j - 1) (zrange (Z.of_nat m))) s0 = Some s1 /\
     good s1 l r /\ equiv s0 s1 /\ renv s1 = renv s0 /\ forall j, -1 <= j < Z.of_nat m - 1 -> lenv s1 j <> None).
  { induction m; intros Hm.
    - exists s0. split; [reflexivity|]. split; [exact G1|]. split; [apply equiv_refl|]. split; [reflexivity|]. intros; lia.
    - destruct IHm as (s1 & E1 & G2 & Q1 & R1 & D1); [lia|].
      replace (Z.of_nat (S m)) with (Z.of_nat m + 1) by lia. rewrite zrange_succ by lia. rewrite map_app, foldo_app, E1. cbn [map foldo].
      destruct (left1_good s1 (Z.of_nat m - 1) l r) as (s2 & E2 & G3 & Q2 & R2 & D2); try lia; try assumption; try (intros; apply D1; lia).
      rewrite E2. exists s2. split; [reflexivity|]. split; [exact G3|]. split; [eapply equiv_trans; eauto|]. split; [congruence|].
      intros j Hj. apply D2. lia. }
  destruct (Lp (Z.to_nat (l + 1))) as (s1 & E1 & G2 & Q1 & R1 & D1); [lia|].
  rewrite Z2Nat.id in E1 by lia. unfold lsites. rewrite E1.
  assert (Rp: forall m, (Z.of_nat m <= n - r + 1) -> exists s2, foldo build_right1 (map (fun j => n - j) (zrange (Z.of_nat m))) s1 = Some s2 /\
     good s2 l r /\ equiv s1 s2 /\ lenv s2 = lenv s1 /\ forall j, n - Z.of_nat m < j <= n -> renv s2 j <> None).
  { induction m; intros Hm.
    - exists s1. split; [reflexivity|]. split; [exact G2|]. split; [apply equiv_refl|]. split; [reflexivity|]. intros; lia.
    - destruct IHm as (s2 & E2 & G3 & Q2 & L2 & D2); [lia|].
      replace (Z.of_nat (S m)) with (Z.of_nat m + 1) by lia. rewrite zrange_succ by lia. rewrite map_app, foldo_app, E2. cbn [map foldo].
      destruct (right1_good s2 (n - Z.of_nat m) l r) as (s3 & E3 & G4 & Q3 & L3 & D3); try lia; try assumption; try (intros; apply D2; lia).
      rewrite E3. exists s3. split; [reflexivity|]. split; [exact G4|]. split; [eapply equiv_trans; eauto|]. split; [congruence|].
      intros j Hj. apply D3. lia. }
  destruct (Rp (Z.to_nat (n - r + 1))) as (s2 & E2 & G3 & Q2 & L2 & D2); [lia|].
  rewrite Z2Nat.id in E2 by lia. unfold rsites. rewrite E2. exists s2. split; [reflexivity|]. split; [exact G3|].
  split; [eapply equiv_trans; [exact Q1|exact Q2]|]. split.
  - rewrite L2. destruct (lenv s1 (l - 1)) eqn:Z1; [eauto|]. exfalso. revert Z1. apply D1. lia.
  - destruct (renv s2 r) eqn:Z1; [eauto|]. exfalso. revert Z1. apply D2. lia.
Qed.

Lemma copy_good : forall s l r, good s l r -> good (copy T E s) l r /\ equiv (copy T E s) (copy T E s) /\
  bra (copy T E s) = bra s /\ ket (copy T E s) = ket s.
Proof.
  intros s l r [A B C D]. split; [|split; [apply equiv_refl|split; reflexivity]].
  constructor; auto.
Qed.

(* a state every stored environment of which is right *)
Definition coherent (s : mpe) : Prop := (forall b, okL s b) /\ (forall b, okR s b) /\ domL s /\ domR s.
Lemma coherent_good : forall s l r, coherent s -> good s l r.
Proof. intros s l r (A & B & C & D). constructor; auto. Qed.

Lemma embedded_coherent : forall s l r nk nb ms, 0 <= l -> l < r -> r <= n -> good s l r ->
  exists s', embedded T R E M idL idR mpo n do_canon lcanon rcanon absl absr lstep rstep s l r nk nb ms = Some s' /\ coherent s' /\
    exists s1, build_envs s l r = Some s1 /\ equiv s s1 /\ same _ _ s' = same _ _ s /\
     (forall j, bra s' j = if (l <=? j) && (j <? r) then (if ms then nk j else nb j) else bra s1 j) /\
     (forall j, ket s' j = if (l <=? j) && (j <? r) then (if same _ _ s && negb ms then nb j else nk j) else ket s1 j).
Proof.
  intros s l r nk nb ms Hl Hlr Hr G0. destruct (build_good s l r Hl Hlr Hr G0) as (s1 & E1 & [GL GR GdL GdR] & Q & _ & _).
  unfold embedded. rewrite E1. eexists. split; [reflexivity|].
  match goal with |- coherent ?x /\ _ => set (s' := x) end.
  assert (Es: same _ _ s1 = same _ _ s) by apply Q.
  assert (Bd: forall j, bra s' j = if (l <=? j) && (j <? r) then (if ms then nk j else nb j) else bra s1 j).
  { intros j. unfold s', MpeModel.bra. cbn. destruct (same T E s1); cbn; unfold splice; destruct ((l <=? j) && (j <? r)), ms; reflexivity. }
  assert (Kd: forall j, ket s' j = if (l <=? j) && (j <? r) then (if same _ _ s && negb ms then nb j else nk j) else ket s1 j).
  { intros j. unfold s'. cbn. rewrite <- Es. destruct (same T E s1); cbn; unfold splice; destruct ((l <=? j) && (j <? r)), ms; reflexivity. }
  assert (Out: forall j, j < l \/ r <= j -> ket s' j = ket s1 j /\ bra s' j = bra s1 j).
  { intros j Hj. rewrite Bd, Kd. destruct (Z.leb_spec l j), (Z.ltb_spec j r); cbn; auto; lia. }
  assert (LE: forall i e, lenv s' i = Some e -> i < l /\ lenv s1 i = Some e).
  { intros i e. unfold s'. cbn. destruct (Z.leb_spec l i); cbn; [|intros; split; auto; lia].
    destruct (Z.leb_spec i n); [discriminate|]. intros He. exfalso. destruct (GdL i) as [X _]; [congruence|lia]. }
  assert (RE: forall i e, renv s' i = Some e -> r <= i /\ renv s1 i = Some e).
  { intros i e. unfold s'. cbn. destruct (Z.leb_spec (-1) i); cbn.
    - destruct (Z.leb_spec i (r - 1)); [discriminate|]. intros; split; auto; lia.
    - intros He. exfalso. destruct (GdR i) as [X _]; [congruence|lia]. }
  split; [split; [|split; [|split]]|exists s1; auto 10].
  - intros b i e Hb He. apply LE in He. destruct He as [Hi He]. destruct (GL i e Hi He) as [-> C]. split.
    + apply Lspec_ext. intros j Hj. destruct (Out j) as [-> ->]; [|auto]. left. assert (i < l) by auto. lia.
    + intros Hc H0. destruct (Out i) as [-> ->]; auto.
  - intros b i e Hb He. apply RE in He. destruct He as [Hi He]. destruct (GR i e Hi He) as [-> C]. split.
    + apply Rspec_ext. intros j Hj. destruct (Out j) as [-> ->]; [|auto]. right.
      destruct (GdR i) as [X _]; [congruence|]. lia.
    + intros Hc H0. destruct (Out i) as [-> ->]; auto.
  - intros i Hi. destruct (lenv s' i) eqn:Ei; [|congruence]. apply LE in Ei. destruct Ei as [Hl' Ei].
    destruct (GdL i) as [X Y]; [congruence|]. split; [exact X|]. intros j Hj. specialize (Y j Hj).
    unfold s'. cbn. destruct (Z.leb_spec l j); cbn; [lia|exact Y].
  - intros i Hi. destruct (renv s' i) eqn:Ei; [|congruence]. apply RE in Ei. destruct Ei as [Hl' Ei].
    destruct (GdR i) as [X Y]; [congruence|]. split; [exact X|]. intros j Hj. specialize (Y j Hj).
    unfold s'. cbn. destruct (Z.leb_spec j (r - 1)); [lia|]. rewrite andb_false_r. exact Y.
Qed.

Lemma init_coherent : forall k b sm, coherent (init T E k b sm).
Proof.
  intros. split; [|split; [|split]].
  - intros c i e _. cbn. discriminate.
  - intros c i e _. cbn. discriminate.
  - intros i H. cbn in H. congruence.
  - intros i H. cbn in H. congruence.
Qed.
End Env.

(** ** The cache *)
Section CacheLemmas.
Variable V : Type.
Variable maxsize : Z.
Notation cache := (cache V).
Notation cached := (cached V).
Notation disk := (disk V).

Definition cnames (c : cache) : list fname := map (fun e => fst (fst e)) (cached c).
(* the value a name stands for: the cached one first, then the one on disk *)
Definition lk (c : cache) (fn : fname) : option V :=
  match cache_get V c fn with Some x => Some x | None => dget String.eqb (disk c) fn end.
Definition cok (c : cache) : Prop :=
  NoDup (cnames c) /\ forall fn x, In (fn, x, true) (cached c) -> dget String.eqb (disk c) fn = Some x.

Lemma in_cache_names : forall c fn, in_cache V c fn = true <-> In fn (cnames c).
Proof.
  intros c fn. unfold in_cache, cnames. rewrite existsb_exists, in_map_iff. split.
  - intros (e & H & E). apply String.eqb_eq in E. eauto.
  - intros (e & E & H). exists e. split; auto. now apply String.eqb_eq.
Qed.
Lemma cache_get_none : forall c fn, in_cache V c fn = false -> cache_get V c fn = None.
Proof.
  intros c fn H. unfold cache_get. match goal with |- context [find ?p ?l] => destruct (find p l) as [e|] eqn:E end; [|reflexivity]. apply find_some in E. destruct E as [E1 E2].
  assert (in_cache V c fn = true); [|congruence]. unfold in_cache. apply existsb_exists. eauto.
Qed.
Lemma cache_get_some : forall c fn, in_cache V c fn = true -> exists x, cache_get V c fn = Some x.
Proof.
  intros c fn H. unfold in_cache in H. apply existsb_exists in H. destruct H as (e & Hi & He). unfold cache_get.
  match goal with |- context [find ?p ?l] => destruct (find p l) as [e'|] eqn:E end; [eauto|]. eapply find_none in E; [|exact Hi]. congruence.
Qed.
Lemma find_app : forall (A : Type) (p : A -> bool) l1 l2, find p (l1 ++ l2) = match find p l1 with Some x => Some x | None => find p l2 end.
Proof. induction l1; cbn; intros; auto. destruct (p a); auto. Qed.

Lemma evict_ok : forall c, cok c -> cok (evict V maxsize c) /\ forall fn, lk (evict V maxsize c) fn = lk c fn.
Proof.
  intros [cl dk] [Hn Hc]. unfold evict. cbn [MpeModel.cached MpeModel.disk] in *.
  destruct (Z.of_nat (List.length cl) >? maxsize); [|split; [split; auto|reflexivity]].
  destruct cl as [|[[fn x] b] rest]; [split; [split; auto|reflexivity]|].
  unfold cnames in Hn. cbn in Hn. inversion Hn as [|? ? Hnot Hn']; subst.
  assert (Q: forall fn', fn' <> fn -> dget String.eqb (if b then dk else dset String.eqb dk fn x) fn' = dget String.eqb dk fn').
  { intros fn' Hne. destruct b; [reflexivity|]. rewrite (dget_dset String.eqb String.eqb_spec).
    destruct (String.eqb_spec fn fn'); congruence. }
  split.
  - split; [exact Hn'|]. cbn. intros fn' x' Hi. destruct (String.eqb_spec fn' fn).
    + subst. exfalso. apply Hnot. apply in_map_iff. exists (fn, x', true). auto.
    + rewrite Q by auto. apply Hc. now right.
  - intros fn'. unfold lk, cache_get. cbn [MpeModel.cached MpeModel.disk find fst]. destruct (String.eqb_spec fn fn').
    + subst fn'. match goal with |- context [find ?p rest] => destruct (find p rest) as [e|] eqn:E end.
      * exfalso. apply find_some in E. destruct E as [E1 E2]. apply String.eqb_eq in E2. apply Hnot. apply in_map_iff. eauto.
      * destruct b.
        { apply (Hc fn x). now left. }
        { rewrite (dget_dset String.eqb String.eqb_spec). now rewrite String.eqb_refl. }
    + match goal with |- context [find ?p rest] => destruct (find p rest) end; [reflexivity|]. apply Q. congruence.
Qed.

Lemma append_ok : forall c fn x b, cok c -> in_cache V c fn = false -> (b = true -> dget String.eqb (disk c) fn = Some x) ->
  cok (mkCache V (cached c ++ [(fn, x, b)]) (disk c)) /\
  forall fn', lk (mkCache V (cached c ++ [(fn, x, b)]) (disk c)) fn' = if String.eqb fn fn' then Some x else lk c fn'.
Proof.
  intros c fn x b [Hn Hc] Hf Hb. split.
  - split.
    + unfold cnames. cbn. rewrite map_app. cbn.
      assert (Hni: ~ In fn (cnames c)) by (intro H; apply in_cache_names in H; congruence).
      unfold cnames in *. apply NoDup_rev in Hn. rewrite <- (rev_involutive (map _ (cached c) ++ _)). apply NoDup_rev.
      rewrite rev_app_distr. cbn. constructor; auto. rewrite <- in_rev. exact Hni.
    + cbn. intros fn' x' Hi. apply in_app_or in Hi. destruct Hi as [Hi|[[= -> -> ->]|[]]]; auto.
  - intros fn'. pose proof (cache_get_none c fn') as N. unfold lk, cache_get in *. cbn [MpeModel.cached MpeModel.disk]. rewrite find_app.
    destruct (find (fun e => String.eqb (fst (fst e)) fn') (cached c)) as [e|] eqn:E.
    + destruct (String.eqb_spec fn fn'); [|reflexivity]. subst. specialize (N Hf). discriminate.
    + cbn. destruct (String.eqb fn fn'); reflexivity.
Qed.

Lemma load_ok : forall c fn, cok c ->
  match load_data V maxsize c fn with
  | Some (c', v) => lk c fn = Some v /\ cok c' /\ forall fn', lk c' fn' = lk c fn'
  | None => lk c fn = None
  end.
Proof.
  intros c fn Hk. unfold load_data. destruct (in_cache V c fn) eqn:Hi.
  - destruct (cache_get_some c fn Hi) as (x & Hx). rewrite Hx. split; [unfold lk; now rewrite Hx|auto].
  - destruct (dget String.eqb (disk c) fn) as [x|] eqn:Hd.
    + destruct (append_ok c fn x true Hk Hi) as [A B]; [auto|]. destruct (evict_ok _ A) as [A' B'].
      split; [unfold lk; now rewrite cache_get_none|]. split; [exact A'|]. intros fn'. rewrite B', B.
      destruct (String.eqb_spec fn fn'); [|reflexivity]. subst. unfold lk. rewrite cache_get_none by auto. congruence.
    + unfold lk. now rewrite cache_get_none.
Qed.
Lemma save_ok : forall c fn x, cok c -> in_cache V c fn = false ->
  cok (save_data V maxsize c fn x) /\ forall fn', lk (save_data V maxsize c fn x) fn' = if String.eqb fn fn' then Some x else lk c fn'.
Proof.
  intros c fn x Hk Hi. unfold save_data. rewrite Hi. destruct (append_ok c fn x false Hk Hi) as [A B]; [discriminate|].
  destruct (evict_ok _ A) as [A' B']. split; auto. intros fn'. now rewrite B', B.
Qed.

(* the store one expects: a finite map *)
Fixpoint naive (st : fname -> option V) (h : list (cop V)) : option (list V) :=
  match h with
  | [] => Some []
  | Save _ fn x :: h' => naive (fun f => if String.eqb fn f then Some x else st f) h'
  | Load _ fn :: h' => match st fn with
                      | Some v => match naive st h' with Some vs => Some (v :: vs) | None => None end
                      | None => None
                      end
  end.
(* the history without the saves of names that are cached at that moment *)
Fixpoint without_noop_saves (c : cache) (h : list (cop V)) : list (cop V) :=
  match h with
  | [] => []
  | Save _ fn x :: h' => let rest := without_noop_saves (save_data V maxsize c fn x) h' in
                         if in_cache V c fn then rest else Save V fn x :: rest
  | Load _ fn :: h' => Load V fn :: match load_data V maxsize c fn with
                                    | Some (c', _) => without_noop_saves c' h'
                                    | None => []
                                    end
  end.
Lemma naive_ext : forall h st st', (forall f, st f = st' f) -> naive st h = naive st' h.
Proof.
  induction h as [|[fn x|fn] h IH]; intros st st' H; cbn; auto.
  - apply IH. intros f. now rewrite H.
  - rewrite (H fn). destruct (st' fn); auto. now rewrite (IH st st' H).
Qed.
Lemma crun_naive : forall h c, cok c ->
  option_map snd (crun V maxsize c h) = naive (lk c) (without_noop_saves c h).
Proof.
  induction h as [|[fn x|fn] h IH]; intros c Hk; cbn [crun without_noop_saves naive option_map snd]; auto.
  - destruct (in_cache V c fn) eqn:Hi.
    + unfold save_data. rewrite Hi. auto.
    + destruct (save_ok c fn x Hk Hi) as [A B]. rewrite (IH _ A). cbn. apply naive_ext. exact B.
  - pose proof (load_ok c fn Hk) as L. destruct (load_data V maxsize c fn) as [[c' v]|].
    + destruct L as (E & A & B). rewrite E. rewrite (naive_ext _ (lk c) (lk c')) by auto. rewrite <- (IH c' A).
      destruct (crun V maxsize c' h) as [[c'' vs]|]; reflexivity.
    + rewrite L. reflexivity.
Qed.

(* maxsize <= 0: nothing stays cached *)
Lemma evict_small : forall c, maxsize <= 0 -> (List.length (cached c) <= 1)%nat -> cached (evict V maxsize c) = [].
Proof.
  intros [cl dk] Hm Hl. unfold evict. cbn [MpeModel.cached MpeModel.disk] in *. destruct cl as [|[[? ?] ?] [|]]; cbn in *; try lia.
  - destruct (0 >? maxsize); reflexivity.
  - destruct (Z.gtb_spec 1 maxsize); [reflexivity|lia].
Qed.
Lemma without_noop_small : forall h c, maxsize <= 0 -> cached c = [] ->
  (exists vs, naive (lk c) h = Some vs) -> without_noop_saves c h = h.
Proof.
  induction h as [|[fn x|fn] h IH]; intros c Hm Hc [vs Hv]; cbn [without_noop_saves naive] in *; auto.
  - assert (Hi: in_cache V c fn = false) by (unfold in_cache; rewrite Hc; reflexivity). rewrite Hi. f_equal.
    assert (Hk: cok c) by (split; [unfold cnames; rewrite Hc; constructor|rewrite Hc; intros ? ? []]).
    destruct (save_ok c fn x Hk Hi) as [A B].
    apply IH; auto.
    + unfold save_data. rewrite Hi. apply evict_small; auto. cbn. rewrite Hc. cbn. lia.
    + exists vs. rewrite <- Hv. apply naive_ext. exact B.
  - f_equal. assert (Hk: cok c) by (split; [unfold cnames; rewrite Hc; constructor|rewrite Hc; intros ? ? []]).
    pose proof (load_ok c fn Hk) as L. destruct (load_data V maxsize c fn) as [[c' v]|] eqn:El.
    + destruct L as (E & A & B). rewrite E in Hv. destruct (naive (lk c) h) as [vs'|] eqn:Hn; [|discriminate].
      apply IH; auto.
      * unfold load_data in El. assert (Hi: in_cache V c fn = false) by (unfold in_cache; rewrite Hc; reflexivity). rewrite Hi in El.
        destruct (dget String.eqb (disk c) fn); [|discriminate]. injection El as <- _. apply evict_small; auto. cbn. rewrite Hc. cbn. lia.
      * exists vs'. rewrite <- Hn. apply naive_ext. exact B.
    + rewrite L in Hv. discriminate.
Qed.
End CacheLemmas.
