(** Proofs about GaussModel: index sets, layers, and the density matrix going back through the layers. *)
From Coq Require Import ZArith Bool List Lia Permutation Ring.
From Verif Require Import CanonProofs DictLib IndexLib RingLib OptLib GaussModel.
Import ListNotations.
Open Scope Z_scope.

(* ---- sets *)
Lemma mem_in : forall x l, mem x l = true <-> In x l.
Proof. intros x l. unfold mem. rewrite existsb_exists. split; [intros (y & H & E); apply Z.eqb_eq in E; now subst|intros H; exists x; split; [exact H|apply Z.eqb_refl]]. Qed.
Lemma mem_notin : forall x l, mem x l = false <-> ~ In x l.
Proof. intros x l. rewrite <- mem_in. destruct (mem x l); intuition congruence. Qed.
Lemma in_set_add : forall x y s, In y (set_add x s) <-> In y s \/ y = x.
Proof. intros x y s. unfold set_add. destruct (mem x s) eqn:E; [apply mem_in in E|rewrite in_app_iff; cbn]; intuition (subst; auto). Qed.
Lemma nodup_set_add : forall x s, NoDup s -> NoDup (set_add x s).
Proof.
  intros x s H. unfold set_add. destruct (mem x s) eqn:E; [exact H|]. apply mem_notin in E. apply (Permutation_NoDup (Permutation_cons_append s x)). now constructor.
Qed.
Lemma in_add_all : forall l s y, In y (fold_left (fun s x => set_add x s) l s) <-> In y s \/ In y l.
Proof. induction l as [|x l IH]; intros s y; cbn [fold_left In]; [tauto|]. rewrite IH, in_set_add. intuition. Qed.
Lemma nodup_add_all : forall l s, NoDup s -> NoDup (fold_left (fun s x => set_add x s) l s).
Proof. induction l as [|x l IH]; intros s H; cbn [fold_left]; [exact H|]. apply IH. now apply nodup_set_add. Qed.
Lemma in_discard : forall x y s, In y (discard x s) <-> In y s /\ y <> x.
Proof. intros x y s. unfold discard. rewrite filter_In. rewrite negb_true_iff, Z.eqb_neq. tauto. Qed.
Lemma in_discard_all : forall l s y, In y (fold_left (fun s x => discard x s) l s) <-> In y s /\ ~ In y l.
Proof. induction l as [|x l IH]; intros s y; cbn [fold_left In]; [tauto|]. rewrite IH, in_discard. intuition. Qed.
Lemma nodup_discard_all : forall l s, NoDup s -> NoDup (fold_left (fun s x => discard x s) l s).
Proof. induction l as [|x l IH]; intros s H; cbn [fold_left]; [exact H|]. apply IH. now apply NoDup_filter. Qed.
Lemma in_sorted : forall l y, In y (smart_sorted l) <-> In y l.
Proof. intros l y. pose proof (sort_perm Z.ltb (fun x => x) l) as P. split; apply Permutation_in; [now symmetry|exact P]. Qed.
Lemma nodup_sorted : forall l, NoDup l -> NoDup (smart_sorted l).
Proof. intros l. apply Permutation_NoDup, sort_perm. Qed.
Lemma sorted_sorted : forall l, NoDup l -> Sorted.StronglySorted Z.lt (smart_sorted l).
Proof.
  intros l H. pose proof (nodup_sorted l H) as N. unfold smart_sorted in *.
  pose proof (sort_sorted Z.ltb (fun x : Z => x) ltac:(intros a b c; lia) ltac:(intros a b D; lia) Z.eq_dec l) as S.
  induction S as [|a s S IH F]; [constructor|]. apply NoDup_cons_iff in N. destruct N as [N1 N2]. constructor; [now apply IH|].
  apply Forall_forall. intros y Hy. rewrite Forall_forall in F. destruct (F y Hy) as [->|E]; [contradiction|lia].
Qed.
Lemma remove_all : forall l s, NoDup l -> (forall x, In x l -> In x s) -> exists s', foldM (fun s x => set_remove x s) s l = Some s' /\ forall y, In y s' <-> In y s /\ ~ In y l.
Proof.
  induction l as [|x l IH]; intros s N H; [exists s; split; [reflexivity|cbn; tauto]|]. apply NoDup_cons_iff in N. destruct N as [N1 N2].
  cbn [foldM]. unfold set_remove at 1. rewrite (proj2 (mem_in x s)) by (apply H; now left). cbn [bind]. change (filter (fun y => negb (y =? x)) s) with (discard x s).
  destruct (IH (discard x s) N2) as (s' & E & M).
  { intros y Hy. apply in_discard. split; [apply H; now right|congruence]. }
  exists s'. split; [exact E|]. intros y. rewrite M, in_discard. cbn [In]. intuition.
Qed.

(* ---- dictionaries without repeated keys *)
Lemma dict_nodup : forall (V : Type) (l : list (Z * V)), NoDup (map fst l) -> dict_of Z.eqb l = l.
Proof. intros V l. exact (dict_of_nodup Z.eqb Z.eqb_spec l). Qed.
Lemma dget_nodup : forall (V : Type) (l : list (Z * V)) k v, NoDup (map fst l) -> (dget Z.eqb l k = Some v <-> In (k, v) l).
Proof. intros V l k v N. split; [apply (dget_in Z.eqb Z.eqb_spec)|apply (in_dget Z.eqb Z.eqb_spec); exact N]. Qed.
Lemma dget_none : forall (V : Type) (l : list (Z * V)) k, ~ In k (map fst l) -> dget Z.eqb l k = None.
Proof. intros V. induction l as [|[k0 v0] l IH]; intros k H; [reflexivity|]. cbn in *. destruct (Z.eqb_spec k0 k); [tauto|]. apply IH. tauto. Qed.

Section Layers.
Variable R : CRing.
Notation gt := (gt R). Notation num := (nat * gt)%type.
Definition Us (l : list gt) : list Z := flat_map g_u l.
Definition Ds (l : list gt) : list Z := flat_map g_d l.
Lemma in_initial : forall ts x, In x (initial_indices R ts) <-> In x (Ds ts) /\ ~ In x (Us ts).
Proof. intros ts x. unfold initial_indices. rewrite in_sorted, in_discard_all, in_add_all. cbn. tauto. Qed.
Lemma in_terminal : forall ts x, In x (terminal_indices R ts) <-> In x (Us ts) /\ ~ In x (Ds ts).
Proof. intros ts x. unfold terminal_indices. rewrite in_sorted, in_discard_all, in_add_all. cbn. tauto. Qed.
Lemma nodup_initial : forall ts, NoDup (initial_indices R ts).
Proof. intros ts. apply nodup_sorted, nodup_discard_all, nodup_add_all. constructor. Qed.
Lemma nodup_terminal : forall ts, NoDup (terminal_indices R ts).
Proof. intros ts. apply nodup_sorted, nodup_discard_all, nodup_add_all. constructor. Qed.
Lemma initial_sorted : forall ts, Sorted.StronglySorted Z.lt (initial_indices R ts).
Proof. intros ts. apply sorted_sorted, nodup_discard_all, nodup_add_all. constructor. Qed.
Lemma terminal_sorted : forall ts, Sorted.StronglySorted Z.lt (terminal_indices R ts).
Proof. intros ts. apply sorted_sorted, nodup_discard_all, nodup_add_all. constructor. Qed.
Lemma Us_app : forall a b, Us (a ++ b) = Us a ++ Us b. Proof. intros. apply flat_map_app. Qed.
Lemma Ds_app : forall a b, Ds (a ++ b) = Ds a ++ Ds b. Proof. intros. apply flat_map_app. Qed.

Definition ready (cur : list Z) (e : num) : bool := forallb (fun x => mem x cur) (g_d (snd e)).
Lemma ready_in : forall cur e, ready cur e = true <-> (forall x, In x (g_d (snd e)) -> In x cur).
Proof. intros cur e. unfold ready. rewrite forallb_forall. split; intros H x Hx; apply mem_in; now apply H. Qed.

(* any pass *)
Lemma pass_parts : forall cur rem la ne ix la' ne' ix', foldM (pass_step R cur) (la, ne, ix) rem = Some (la', ne', ix') ->
  la' = la ++ filter (ready cur) rem /\ ne' = ne ++ filter (fun e => negb (ready cur e)) rem /\ (filter (ready cur) rem = [] -> ix' = ix).
Proof.
  intros cur. induction rem as [|e rem IH]; intros la ne ix la' ne' ix' H; cbn [foldM] in H.
  - injection H as <- <- <-. cbn. rewrite !app_nil_r. auto.
  - unfold pass_step at 1 in H. fold (ready cur e) in H. cbn [filter]. destruct (ready cur e); cbn [negb].
    + destruct (foldM _ ix (g_d (snd e))) as [s|]; [|discriminate]. cbn [bind] in H. apply IH in H. destruct H as (-> & -> & _). rewrite <- app_assoc. repeat split; auto. discriminate.
    + cbn [bind] in H. apply IH in H. destruct H as (-> & -> & E). rewrite <- app_assoc. repeat split; auto.
Qed.
Lemma filter_none_all : forall (A : Type) (p : A -> bool) l, filter p l = [] -> filter (fun e => negb (p e)) l = l.
Proof. induction l as [|x l IH]; cbn; auto. destruct (p x); cbn; intros H; [discriminate|]. now rewrite IH. Qed.
Lemma filter_split_len : forall (A : Type) (p : A -> bool) l, (length (filter p l) + length (filter (fun e => negb (p e)) l) = length l)%nat.
Proof. induction l as [|x l IH]; cbn; auto. destruct (p x); cbn; lia. Qed.
Lemma stuck : forall fuel cur rem, filter (ready cur) rem = [] -> rem <> [] -> layers_loop R fuel cur rem = None.
Proof.
  induction fuel as [|f IH]; intros cur rem H N; [reflexivity|]. cbn [layers_loop]. destruct (pass R cur rem) as [[[la ne] ix]|] eqn:E; [|reflexivity]. cbn [bind].
  unfold pass in E. destruct (pass_parts _ _ _ _ _ _ _ _ E) as (-> & -> & Ei). specialize (Ei H). subst ix. rewrite (filter_none_all _ _ _ H). cbn [app]. destruct rem as [|e rem]; [congruence|]. now rewrite IH.
Qed.
Lemma loop_more : forall f f' cur rem ls, (f <= f')%nat -> layers_loop R f cur rem = Some ls -> layers_loop R f' cur rem = Some ls.
Proof.
  induction f as [|f IH]; intros f' cur rem ls L H; [discriminate|]. destruct f' as [|f']; [lia|]. cbn [layers_loop] in *. destruct (pass R cur rem) as [[[la ne] ix]|]; [|discriminate]. cbn [bind] in *.
  destruct ne as [|e ne]; [exact H|]. destruct (layers_loop R f ix (e :: ne)) as [l|] eqn:E; [|discriminate]. rewrite (IH f' _ _ l ltac:(lia) E). exact H.
Qed.
Lemma loop_enough : forall f cur rem ls, layers_loop R f cur rem = Some ls -> layers_loop R (S (length rem)) cur rem = Some ls.
Proof.
  induction f as [|f IH]; intros cur rem ls H; [discriminate|]. pose proof H as H0. cbn [layers_loop] in H |- *. destruct (pass R cur rem) as [[[la ne] ix]|] eqn:E; [|discriminate]. cbn [bind] in *.
  unfold pass in E. destruct (pass_parts _ _ _ _ _ _ _ _ E) as (-> & -> & Ei). cbn [app] in *.
  destruct (filter (fun e => negb (ready cur e)) rem) as [|e ne] eqn:En; [exact H|].
  destruct (filter (ready cur) rem) as [|e' la] eqn:El.
  - exfalso. rewrite stuck in H0; [discriminate|exact El|]. destruct rem; discriminate.
  - destruct (layers_loop R f ix (e :: ne)) as [l|] eqn:Eq; [|discriminate]. apply IH in Eq.
    assert (F : (S (length (e :: ne)) <= length rem)%nat) by (pose proof (filter_split_len _ (ready cur) rem) as F; rewrite En, El in F; cbn [length] in *; lia).
    rewrite (loop_more _ (length rem) _ _ _ F Eq). exact H.
Qed.

(* a pass over tensors with separate legs *)
Lemma pass_ok : forall cur rem la ne ix, NoDup (Ds (map snd rem)) -> (forall x, In x (Us (map snd rem)) -> ~ In x cur) ->
  (forall e x, In e rem -> ready cur e = true -> In x (g_d (snd e)) -> In x ix) ->
  exists ix', foldM (pass_step R cur) (la, ne, ix) rem = Some (la ++ filter (ready cur) rem, ne ++ filter (fun e => negb (ready cur e)) rem, ix') /\
    forall x, In x ix' <-> (In x ix \/ In x (Us (map snd (filter (ready cur) rem)))) /\ ~ In x (Ds (map snd (filter (ready cur) rem))).
Proof.
  intros cur. induction rem as [|e rem IH]; intros la ne ix N H1 H2.
  - exists ix. cbn. rewrite !app_nil_r. split; [reflexivity|]. tauto.
  - cbn [map Ds flat_map] in N. apply CanonProofs.nodup_app in N. destruct N as (N1 & N2 & N3). cbn [foldM filter]. unfold pass_step at 1. fold (ready cur e).
    assert (H1' : forall x, In x (Us (map snd rem)) -> ~ In x cur) by (intros x Hx; apply H1; cbn [map Us flat_map]; apply in_or_app; now right).
    destruct (ready cur e) eqn:Er; cbn [negb].
    + destruct (remove_all (g_d (snd e)) ix N1) as (s & Es & Ms); [intros x Hx; exact (H2 e x (or_introl eq_refl) Er Hx)|]. rewrite Es. cbn [bind].
      destruct (IH (la ++ [e]) ne (fold_left (fun s x => set_add x s) (g_u (snd e)) s) N2 H1') as (ix' & E & M).
      * intros e' x He' Re' Hx. apply in_add_all. left. apply Ms. split; [exact (H2 e' x (or_intror He') Re' Hx)|]. intros C. apply (N3 x C). apply in_flat_map. exists (snd e'). split; [now apply in_map|exact Hx].
      * exists ix'. rewrite <- !app_assoc in E. split; [exact E|]. intros x. rewrite M, in_add_all, Ms. cbn [map Us Ds flat_map]. rewrite !in_app_iff.
        assert (X : In x (g_u (snd e)) -> ~ In x (g_d (snd e))).
        { intros Hu Hd. apply (H1 x); [cbn [map Us flat_map]; apply in_or_app; now left|]. exact (proj1 (ready_in cur e) Er x Hd). }
        assert (Y : In x (Us (map snd (filter (ready cur) rem))) -> ~ In x (g_d (snd e))).
        { intros Hu Hd. apply (H1 x); [|exact (proj1 (ready_in cur e) Er x Hd)]. cbn [map Us flat_map]. apply in_or_app. right. apply in_flat_map in Hu. destruct Hu as (t & Ht & Hx). apply in_map_iff in Ht. destruct Ht as (e' & <- & He'). apply filter_In in He'.
          apply in_flat_map. exists (snd e'). split; [apply in_map; tauto|exact Hx]. }
        unfold Us, Ds in *. tauto.
    + cbn [bind]. destruct (IH la (ne ++ [e]) ix N2 H1') as (ix' & E & M); [intros e' x He' Re' Hx; exact (H2 e' x (or_intror He') Re' Hx)|].
      exists ix'. rewrite <- !app_assoc in E. split; [exact E|exact M].
Qed.

Fixpoint topo (l : list gt) : Prop := match l with [] => True | t :: l' => (forall x, In x (g_d t) -> ~ In x (Us l)) /\ topo l' end.
Fixpoint layered (ls : list (list num)) : Prop :=
  match ls with
  | [] => True
  | la :: r => match r with [] => True | lb :: _ => forall e, In e lb -> exists x, In x (g_d (snd e)) /\ In x (Us (map snd la)) end /\ layered r
  end.
Lemma in_Us : forall l x, In x (Us l) <-> exists t, In t l /\ In x (g_u t). Proof. intros. unfold Us. apply in_flat_map. Qed.
Lemma in_Ds : forall l x, In x (Ds l) <-> exists t, In t l /\ In x (g_d t). Proof. intros. unfold Ds. apply in_flat_map. Qed.
Lemma perm_Us : forall a b, Permutation a b -> Permutation (Us a) (Us b).
Proof. intros a b P. unfold Us. now apply Permutation_flat_map. Qed.
Lemma perm_Ds : forall a b, Permutation a b -> Permutation (Ds a) (Ds b).
Proof. intros a b P. unfold Ds. now apply Permutation_flat_map. Qed.
Lemma filter_perm : forall (A : Type) (p : A -> bool) l, Permutation l (filter p l ++ filter (fun e => negb (p e)) l).
Proof.
  induction l as [|x l IH]; cbn; auto. destruct (p x); cbn; [now constructor|]. apply Permutation_cons_app. exact IH.
Qed.
Lemma min_rank : forall (rk : gt -> nat) (l : list num), l <> [] -> exists e, In e l /\ forall e', In e' l -> (rk (snd e) <= rk (snd e'))%nat.
Proof.
  intros rk. induction l as [|e l IH]; intros H; [congruence|]. destruct l as [|e2 l].
  - exists e. split; [now left|]. intros e' [<-|[]]. lia.
  - destruct IH as (m & Hm & M); [discriminate|]. destruct (Nat.le_gt_cases (rk (snd e)) (rk (snd m))).
    + exists e. split; [now left|]. intros e' [<-|He']; [lia|]. specialize (M e' He'). lia.
    + exists m. split; [now right|]. intros e' [<-|He']; [lia|]. exact (M e' He').
Qed.
Lemma topo_app : forall a b, (forall t x, In t a -> In x (g_d t) -> ~ In x (Us (a ++ b))) -> topo b -> topo (a ++ b).
Proof.
  induction a as [|t a IH]; intros b H T; [exact T|]. cbn [app topo]. split.
  - intros x Hx. exact (H t x (or_introl eq_refl) Hx).
  - apply IH; [|exact T]. intros t' x Ht Hx C. apply (H t' x (or_intror Ht) Hx). cbn [app]. unfold Us. cbn [flat_map]. apply in_or_app. now right.
Qed.

Section Sorted.
Variable all : list gt.
Hypothesis ND : NoDup (Ds all).
Hypothesis NU : NoDup (Us all).
Variable rk : gt -> nat.
Hypothesis RK : forall t t' x, In t all -> In t' all -> In x (g_u t') -> In x (g_d t) -> (rk t' < rk t)%nat.
Definition inv (done rem : list num) (cur : list Z) : Prop := Permutation all (map snd (done ++ rem)) /\ (forall x, In x (Ds (map snd done)) -> ~ In x (Us (map snd rem))) /\
  forall x, In x cur <-> ((In x (Ds all) /\ ~ In x (Us all)) \/ In x (Us (map snd done))) /\ ~ In x (Ds (map snd done)).
Lemma inv_U : forall done rem cur x, inv done rem cur -> In x (Us (map snd rem)) -> ~ In x cur.
Proof.
  clear RK. intros done rem cur x (P & S & M) Hx C. apply M in C. destruct C as [C _].
  pose proof (perm_Us _ _ P) as Q. rewrite map_app, Us_app in Q. pose proof (Permutation_NoDup Q NU) as N. apply CanonProofs.nodup_app in N. destruct N as (_ & _ & N).
  destruct C as [[_ C]|C]; [|exact (N x C Hx)]. apply C. apply (Permutation_in x (Permutation_sym Q)). apply in_or_app. now right.
Qed.
Lemma inv_ND : forall done rem cur, inv done rem cur -> NoDup (Ds (map snd rem)) /\ (forall x, In x (Ds (map snd done)) -> ~ In x (Ds (map snd rem))).
Proof.
  clear RK. intros done rem cur (P & S & M). pose proof (perm_Ds _ _ P) as Q. rewrite map_app, Ds_app in Q. pose proof (Permutation_NoDup Q ND) as N. apply CanonProofs.nodup_app in N. tauto.
Qed.
Lemma inv_pass : forall done rem cur, inv done rem cur -> exists ix, pass R cur rem = Some (filter (ready cur) rem, filter (fun e => negb (ready cur e)) rem, ix) /\
  inv (done ++ filter (ready cur) rem) (filter (fun e => negb (ready cur e)) rem) ix /\
  (forall x, In x ix -> In x cur \/ In x (Us (map snd (filter (ready cur) rem)))).
Proof.
  clear RK. intros done rem cur I. destruct (inv_ND _ _ _ I) as [N1 N2].
  destruct (pass_ok cur rem [] [] cur N1) as (ix & E & M).
  - intros x Hx. exact (inv_U _ _ _ x I Hx).
  - intros e x _ Re Hx. exact (proj1 (ready_in cur e) Re x Hx).
  - exists ix. split; [exact E|]. split; [|intros x Hx; apply M in Hx; tauto]. pose proof I as (P & S & Mc).
    assert (HU : forall x, In x (Us (map snd (filter (ready cur) rem))) \/ In x (Us (map snd (filter (fun e => negb (ready cur e)) rem))) -> In x (Us (map snd rem))).
    { intros x Hx. apply (Permutation_in x (perm_Us _ _ (Permutation_map snd (Permutation_sym (filter_perm _ (ready cur) rem))))). rewrite map_app, Us_app. apply in_or_app. exact Hx. }
    assert (HC : forall x, In x (Ds (map snd (filter (ready cur) rem))) -> In x cur).
    { intros x Hx. apply in_Ds in Hx. destruct Hx as (t & Ht & Hx). apply in_map_iff in Ht. destruct Ht as (e & <- & He). apply filter_In in He. exact (proj1 (ready_in cur e) (proj2 He) x Hx). }
    split; [|split].
    + rewrite P. apply Permutation_map. rewrite <- app_assoc. apply Permutation_app_head, filter_perm.
    + intros x Hx Hu. rewrite map_app, Ds_app in Hx. apply in_app_or in Hx. destruct Hx as [Hx|Hx]; [exact (S x Hx (HU x (or_intror Hu)))|]. exact (inv_U _ _ _ x I (HU x (or_intror Hu)) (HC x Hx)).
    + intros x. rewrite M, Mc, map_app, Us_app, Ds_app, !in_app_iff.
      assert (X : In x (Us (map snd (filter (ready cur) rem))) -> ~ In x (Ds (map snd done))) by (intros Hu Hd; exact (S x Hd (HU x (or_introl Hu)))).
      tauto.
Qed.
Lemma inv_progress : forall done rem cur, inv done rem cur -> rem <> [] -> filter (ready cur) rem <> [].
Proof.
  intros done rem cur I N E. destruct (min_rank rk rem N) as (e & He & M). pose proof (inv_ND _ _ _ I) as [_ N2]. destruct I as (P & S & Mc).
  assert (A : forall e', In e' rem -> In (snd e') all) by (intros e' H; apply (Permutation_in _ (Permutation_sym P)); rewrite map_app; apply in_or_app; right; now apply in_map).
  assert (In e (filter (ready cur) rem)) as F; [|rewrite E in F; exact F].
  apply filter_In. split; [exact He|]. apply ready_in. intros x Hx. apply Mc. split.
  - destruct (in_dec Z.eq_dec x (Us all)) as [Hu|Hu].
    + right. apply (Permutation_in x (perm_Us _ _ P)) in Hu. rewrite map_app, Us_app in Hu. apply in_app_or in Hu. destruct Hu as [Hu|Hu]; [exact Hu|]. exfalso.
      apply in_Us in Hu. destruct Hu as (t & Ht & Hu). apply in_map_iff in Ht. destruct Ht as (e' & <- & He'). pose proof (RK (snd e) (snd e') x (A e He) (A e' He') Hu Hx). specialize (M e' He'). lia.
    + left. split; [|exact Hu]. apply in_Ds. exists (snd e). auto.
  - intros C. apply (N2 x C). apply in_Ds. exists (snd e). split; [now apply in_map|exact Hx].
Qed.
Lemma loop_ok : forall fuel done rem cur, inv done rem cur -> (length rem < fuel)%nat ->
  exists ls, layers_loop R fuel cur rem = Some ls /\ Permutation (concat ls) rem /\ topo (map snd (concat ls)) /\ layered ls /\ hd [] ls = filter (ready cur) rem /\
    (forall a la b e x, ls = a ++ la :: b -> In e la -> In x (g_d (snd e)) -> In x cur \/ In x (Us (map snd (concat a)))).
Proof.
  induction fuel as [|f IH]; intros done rem cur I L; [lia|]. cbn [layers_loop]. destruct (inv_pass _ _ _ I) as (ix & E & I' & Mi). rewrite E. cbn [bind].
  assert (T : forall rest, Permutation rest (filter (fun e => negb (ready cur e)) rem) -> topo (map snd rest) -> topo (map snd (filter (ready cur) rem ++ rest))).
  { intros rest P T. rewrite map_app. apply topo_app; [|exact T]. intros t x Ht Hx Hu. apply in_map_iff in Ht. destruct Ht as (e & <- & He). apply filter_In in He. destruct He as [He Re].
    apply (inv_U _ _ _ x I); [|exact (proj1 (ready_in cur e) Re x Hx)]. apply (Permutation_in x (perm_Us _ _ (Permutation_map snd (Permutation_sym (filter_perm _ (ready cur) rem))))).
    rewrite map_app. rewrite Us_app in *. apply in_app_or in Hu. apply in_or_app. destruct Hu as [Hu|Hu]; [now left|]. right. exact (Permutation_in x (perm_Us _ _ (Permutation_map snd P)) Hu). }
  assert (D0 : forall e x, In e (filter (ready cur) rem) -> In x (g_d (snd e)) -> In x cur) by (intros e x He; apply filter_In in He; apply (proj1 (ready_in cur e) (proj2 He))).
  pose proof (filter_split_len _ (ready cur) rem) as LL. pose proof (filter_perm _ (ready cur) rem) as FP. pose proof (inv_progress _ _ _ I) as PR.
  destruct (filter (fun e => negb (ready cur e)) rem) as [|e1 ne] eqn:En.
  - exists [filter (ready cur) rem]. cbn [concat]. repeat split; auto.
    + rewrite FP at 2. reflexivity.
    + apply T; [constructor|exact Coq.Init.Logic.I].
    + intros a la b e x Q He Hx. destruct a as [|a0 a]; [|destruct a; discriminate]. injection Q as <- <-. left. exact (D0 e x He Hx).
  - assert (HR : rem <> []) by (intros C; rewrite C in En; discriminate).
    destruct (IH _ _ _ I') as (ls & El & P & Tl & Ly & Hh & Da).
    { destruct (filter (ready cur) rem) eqn:Eq; [elim (PR HR); reflexivity|]. cbn [length] in *. lia. }
    rewrite El. cbn [bind]. eexists. split; [reflexivity|]. cbn [concat]. repeat split.
    + rewrite FP at 2. now apply Permutation_app_head.
    + now apply T.
    + destruct ls as [|lb ls]; [exact Coq.Init.Logic.I|]. cbn [hd] in Hh. intros e He. rewrite Hh in He. apply filter_In in He. destruct He as [He Re].
      assert (NR : ready cur e = false). { rewrite <- En in He. apply filter_In in He. destruct (ready cur e); [destruct He; discriminate|reflexivity]. }
      destruct (existsb (fun x => negb (mem x cur)) (g_d (snd e))) eqn:Ex.
      * apply existsb_exists in Ex. destruct Ex as (x & Hx & Nx). exists x. split; [exact Hx|]. destruct (Mi x (proj1 (ready_in ix e) Re x Hx)) as [C|C]; [|exact C]. apply mem_in in C. rewrite C in Nx. discriminate.
      * exfalso. assert (ready cur e = true); [|congruence]. apply ready_in. intros x Hx. apply mem_in. destruct (mem x cur) eqn:Q; [reflexivity|].
        assert (existsb (fun x => negb (mem x cur)) (g_d (snd e)) = true); [|congruence]. apply existsb_exists. exists x. rewrite Q. auto.
    + exact Ly.
    + intros a la b e x Q He Hx. destruct a as [|a0 a]; injection Q as Q1 Q2.
      * subst la. left. exact (D0 e x He Hx).
      * subst a0. cbn [concat]. rewrite map_app, Us_app, in_app_iff. destruct (Da a la b e x Q2 He Hx) as [C|C]; [|tauto]. destruct (Mi x C); tauto.
Qed.
End Sorted.
Lemma enum_snd : forall (A : Type) (l : list A) n, map snd (combine (seq n (length l)) l) = l.
Proof. induction l as [|x l IH]; intros n; cbn; [reflexivity|]. now rewrite IH. Qed.
Lemma get_layers_ok : forall ts (rk : gt -> nat), NoDup (Ds ts) -> NoDup (Us ts) ->
  (forall t t' x, In t ts -> In t' ts -> In x (g_u t') -> In x (g_d t) -> (rk t' < rk t)%nat) ->
  exists ls, get_layers R ts = Some ls /\ Permutation (concat ls) (combine (seq 0 (length ts)) ts) /\ topo (map snd (concat ls)) /\ layered ls /\
    (forall a la b e x, ls = a ++ la :: b -> In e la -> In x (g_d (snd e)) -> In x (initial_indices R ts) \/ In x (Us (map snd (concat a)))).
Proof.
  intros ts rk ND NU RK. unfold get_layers, layers_upto.
  destruct (loop_ok ts ND NU rk RK (S (length ts)) [] (combine (seq 0 (length ts)) ts) (initial_indices R ts)) as (ls & E & P & T & L & _ & D).
  - split; [|split].
    + cbn [app]. now rewrite enum_snd.
    + intros x [].
    + intros x. rewrite in_initial. cbn. tauto.
  - rewrite combine_length, seq_length. lia.
  - exists ls. auto.
Qed.
End Layers.

(* ---- positions *)
Lemma last_pos_some : forall l i p, last_pos i l = Some p -> (p < length l)%nat /\ nth p l 0%nat = i.
Proof.
  induction l as [|x l IH]; intros i p H; [discriminate|]. cbn [last_pos] in H. destruct (last_pos i l) as [q|] eqn:E.
  - injection H as <-. apply IH in E. cbn. split; [lia|tauto].
  - destruct (Nat.eqb_spec x i); [|discriminate]. injection H as <-. cbn. split; [lia|auto].
Qed.
Lemma last_pos_none : forall l i, ~ In i l -> last_pos i l = None.
Proof. intros l i H. destruct (last_pos i l) as [p|] eqn:E; [|reflexivity]. apply last_pos_some in E. destruct E as [L <-]. elim H. now apply nth_In. Qed.
Lemma last_pos_in : forall l i, In i l -> exists p, last_pos i l = Some p.
Proof.
  induction l as [|x l IH]; intros i []; cbn [last_pos].
  - subst x. destruct (last_pos i l) as [p|]; [eauto|]. rewrite Nat.eqb_refl. eauto.
  - destruct (IH i H) as (p & ->). eauto.
Qed.
Lemma last_pos_nth : forall l p, NoDup l -> (p < length l)%nat -> last_pos (nth p l 0%nat) l = Some p.
Proof.
  intros l p N L. destruct (last_pos_in l (nth p l 0%nat) (nth_In _ _ L)) as (q & E). rewrite E. apply last_pos_some in E. destruct E as [L' E]. f_equal. exact (proj1 (NoDup_nth l 0%nat) N q p L' L E).
Qed.
Lemma mapM_nth : forall (m : dict Z nat) u eff, mapM (dget Z.eqb m) u = Some eff -> length eff = length u /\ forall p, (p < length u)%nat -> dget Z.eqb m (nth p u 0) = Some (nth p eff 0%nat).
Proof.
  intros m. induction u as [|x u IH]; intros eff H; cbn [mapM] in H.
  - injection H as <-. split; [reflexivity|]. cbn. lia.
  - destruct (dget Z.eqb m x) as [i|] eqn:E; [|discriminate]. destruct (mapM _ u) as [e|]; [|discriminate]. injection H as <-. destruct (IH e eq_refl) as [L H]. split; [cbn; lia|].
    intros [|p] Hp; cbn in *; [exact E|]. apply H. lia.
Qed.
Definition pairs (u : list Z) (eff : list nat) : list (Z * nat) := map (fun p => (nth p u 0, nth p eff 0%nat)) (seq 0 (length u)).
Lemma in_pairs : forall u eff x i, In (x, i) (pairs u eff) <-> exists p, (p < length u)%nat /\ nth p u 0 = x /\ nth p eff 0%nat = i.
Proof.
  intros u eff x i. unfold pairs. rewrite in_map_iff. split.
  - intros (p & E & H). apply in_seq in H. injection E as <- <-. exists p. repeat split; auto. lia.
  - intros (p & L & <- & <-). exists p. split; [reflexivity|]. apply in_seq. lia.
Qed.
Lemma nodup_fst : forall (A B : Type) (l : list (A * B)), NoDup (map fst l) -> NoDup l.
Proof. intros A B l. apply NoDup_map_inv. Qed.
Lemma pairs_fst : forall u eff, map fst (pairs u eff) = u.
Proof.
  intros u eff. unfold pairs. rewrite map_map. cbn [fst]. apply nth_ext with (d := 0) (d' := 0); [now rewrite map_length, seq_length|].
  intros p Hp. rewrite map_length, seq_length in Hp. rewrite (nth_indep _ 0 (nth 0 u 0)) by (rewrite map_length, seq_length; lia). rewrite (map_nth (fun p => nth p u 0)). now rewrite seq_nth.
Qed.
Lemma pairs_snd : forall u eff, length eff = length u -> map snd (pairs u eff) = eff.
Proof.
  intros u eff Le. unfold pairs. rewrite map_map. cbn [snd]. rewrite <- Le. apply nth_ext with (d := 0%nat) (d' := 0%nat); [now rewrite map_length, seq_length|].
  intros p Hp. rewrite map_length, seq_length in Hp. rewrite (nth_indep _ 0%nat (nth 0 eff 0%nat)) by (rewrite map_length, seq_length; lia). rewrite (map_nth (fun p => nth p eff 0%nat)). now rewrite seq_nth.
Qed.
Lemma map_fst_combine' : forall (A B : Type) (u : list A) (d : list B), length d = length u -> map fst (combine u d) = u.
Proof. induction u as [|x u IH]; intros [|y d] H; try discriminate; cbn; [reflexivity|]. f_equal. apply IH. now injection H. Qed.
Lemma in_map_inj' : forall (A B : Type) (m : list (A * B)) e e2, NoDup (map snd m) -> In e m -> In e2 m -> snd e = snd e2 -> e = e2.
Proof.
  intros A B m. induction m as [|e0 m IH]; intros e e2 N H1 H2 E; [destruct H1|]. cbn [map] in N. apply NoDup_cons_iff in N. destruct N as [N0 N].
  destruct H1 as [->|H1], H2 as [->|H2]; auto.
  - elim N0. rewrite E. now apply in_map.
  - elim N0. rewrite <- E. now apply in_map.
Qed.
Lemma map_snd_combine' : forall (A B : Type) (u : list A) (d : list B), length d = length u -> map snd (combine u d) = d.
Proof. induction u as [|x u IH]; intros [|y d] H; try discriminate; cbn; [reflexivity|]. f_equal. apply IH. now injection H. Qed.
Lemma foldM_app : forall (A X : Type) (f : A -> X -> option A) l1 l2 a, foldM f a (l1 ++ l2) = bind (foldM f a l1) (fun b => foldM f b l2).
Proof. intros A X f. induction l1 as [|x l1 IH]; intros l2 a; cbn [app foldM bind]; [reflexivity|]. destruct (f a x); cbn [bind]; auto. Qed.
Definition rest (u : list Z) (m : dict Z nat) : dict Z nat := filter (fun e => negb (mem (fst e) u)) m.
Lemma in_rest : forall u m x i, In (x, i) (rest u m) <-> In (x, i) m /\ ~ In x u.
Proof. intros u m x i. unfold rest. rewrite filter_In. cbn [fst]. rewrite Bool.negb_true_iff, mem_notin. tauto. Qed.
Lemma split_map : forall m u eff, NoDup (map fst m) -> NoDup u -> mapM (dget Z.eqb m) u = Some eff -> Permutation m (pairs u eff ++ rest u m).
Proof.
  intros m u eff Nm Nu H. apply mapM_nth in H. destruct H as [L H].
  apply NoDup_Permutation.
  - now apply nodup_fst.
  - apply CanonProofs.nodup_app. split; [apply nodup_fst; now rewrite pairs_fst|]. split; [apply NoDup_filter, nodup_fst; exact Nm|].
    intros [x i] H1 H2. apply in_rest in H2. apply in_pairs in H1. destruct H1 as (p & Lp & <- & _). apply (proj2 H2). now apply nth_In.
  - intros [x i]. rewrite in_app_iff, in_rest, in_pairs. split.
    + intros Hm. destruct (in_dec Z.eq_dec x u) as [Hu|Hu]; [|tauto]. left. apply (In_nth _ _ 0) in Hu. destruct Hu as (p & Lp & <-). exists p. repeat split; auto.
      pose proof (proj2 (dget_nodup nat m (nth p u 0) i Nm) Hm) as E. rewrite (H p Lp) in E. now injection E.
    + intros [(p & Lp & <- & <-)|[Hm _]]; [|exact Hm]. apply (dget_nodup nat m _ _ Nm). now apply H.
Qed.

Section Back.
Variable R : CRing.
Add Ring Rring : (rth R).
Notation "a +' b" := (radd R a b) (at level 50, left associativity).
Notation "a *' b" := (rmul R a b) (at level 40, left associativity).
Notation mat := (nat -> nat -> R). Notation gt := (gt R).
Definition rotv (idx : list nat) (ub : mat) (v : nat -> R) : nat -> R :=
  fun i => match last_pos i idx with Some p => bsum (seq 0 (length idx)) (fun q => ub p q *' v (nth q idx 0%nat)) | None => v i end.
Definition renf (u d : list Z) (x : Z) : Z := match dget Z.eqb (dict_of Z.eqb (combine u d)) x with Some y => y | None => x end.
Lemma renf_in : forall u d p, NoDup u -> length d = length u -> (p < length u)%nat -> renf u d (nth p u 0) = nth p d 0.
Proof.
  intros u d p N L H. unfold renf. assert (E : map fst (combine u d) = u) by (apply map_fst_combine'; exact L).
  rewrite dict_nodup by now rewrite E. rewrite (proj2 (dget_nodup Z (combine u d) (nth p u 0) (nth p d 0) ltac:(now rewrite E))); [reflexivity|].
  rewrite <- combine_nth by lia. apply nth_In. rewrite combine_length. lia.
Qed.
Lemma renf_out : forall u d x, NoDup u -> length d = length u -> ~ In x u -> renf u d x = x.
Proof.
  intros u d x N L H. unfold renf. assert (E : map fst (combine u d) = u) by (apply map_fst_combine'; exact L).
  rewrite dict_nodup by now rewrite E. now rewrite dget_none by now rewrite E.
Qed.
(* a rotation moves from the vector to the orbitals *)
Lemma rot_vec : forall m u d eff ub (v : nat -> R) (f : Z -> R), NoDup (map fst m) -> NoDup (map snd m) -> NoDup u -> length d = length u ->
  mapM (dget Z.eqb m) u = Some eff ->
  (forall p, (p < length u)%nat -> f (nth p u 0) = bsum (seq 0 (length u)) (fun q => ub q p *' f (nth q d 0))) ->
  bsum m (fun e => rotv eff ub v (snd e) *' f (renf u d (fst e))) = bsum m (fun e => v (snd e) *' f (fst e)).
Proof.
  intros m u d eff ub v f Nf Ns Nu Ld He Hf. pose proof (split_map m u eff Nf Nu He) as P. destruct (mapM_nth _ _ _ He) as [Le Ge].
  rewrite !(bsum_perm R _ m _ _ P), !bsum_app. unfold pairs. rewrite !bsum_map. cbn [fst snd].
  pose proof (Permutation_NoDup (Permutation_map snd P) Ns) as N2. rewrite map_app in N2. apply CanonProofs.nodup_app in N2. destruct N2 as (N2 & _ & N3).
  pose proof (pairs_snd u eff Le) as Ee.
  rewrite Ee in N2, N3. f_equal.
  - rewrite (bsum_ext R _ _ _ (fun p => bsum (seq 0 (length u)) (fun q => ub p q *' v (nth q eff 0%nat) *' f (nth p d 0)))).
    + rewrite bsum_swap. apply bsum_ext. intros q Hq. apply in_seq in Hq. rewrite (Hf q) by lia. rewrite <- bsum_mull. apply bsum_ext. intros p _. ring.
    + intros p Hp. apply in_seq in Hp. unfold rotv. rewrite last_pos_nth by (auto; lia). rewrite renf_in by (auto; lia). rewrite Le. now rewrite bsum_mulr.
  - apply bsum_ext. intros [x i] H. cbn [fst snd]. unfold rotv. rewrite last_pos_none.
    + apply in_rest in H. now rewrite renf_out by tauto.
    + intros C. apply (N3 i C). apply in_map_iff. exists (x, i). auto.
Qed.
Definition form (m : dict Z nat) (dm : mat) (f g : Z -> R) : R := bsum m (fun e => bsum m (fun e' => f (fst e) *' dm (snd e) (snd e') *' g (fst e'))).
Definition ren_map (u d : list Z) (m : dict Z nat) : dict Z nat := map (fun e => (renf u d (fst e), snd e)) m.
Definition rotd (t : gt) (f : Z -> R) : Prop := forall p, (p < length (g_u t))%nat -> f (nth p (g_u t) 0) = bsum (seq 0 (length (g_u t))) (fun q => g_rot t q p *' f (nth q (g_d t) 0)).
Lemma form_rot : forall m t eff dm f g, NoDup (map fst m) -> NoDup (map snd m) -> NoDup (g_u t) -> length (g_d t) = length (g_u t) ->
  mapM (dget Z.eqb m) (g_u t) = Some eff -> rotd t f -> rotd t g ->
  form (ren_map (g_u t) (g_d t) m) (rot_cols R eff (g_rot t) (rot_rows R eff (g_rot t) dm)) f g = form m dm f g.
Proof.
  intros m t eff dm f g Nf Ns Nu Ld He Hf Hg. unfold form, ren_map. rewrite !bsum_map. cbn [fst snd].
  transitivity (bsum m (fun e => bsum m (fun e' => f (renf (g_u t) (g_d t) (fst e)) *' rot_rows R eff (g_rot t) dm (snd e) (snd e') *' g (fst e')))).
  - apply bsum_ext. intros e _. rewrite bsum_map. cbn [fst snd].
    transitivity (f (renf (g_u t) (g_d t) (fst e)) *' bsum m (fun e' => rotv eff (g_rot t) (rot_rows R eff (g_rot t) dm (snd e)) (snd e') *' g (renf (g_u t) (g_d t) (fst e')))).
    + rewrite <- bsum_mull. apply bsum_ext. intros e' _. unfold rot_cols at 1, rotv. destruct (last_pos (snd e') eff); [|ring].
      rewrite (bsum_ext R _ _ (fun q => rmul R (rot_rows R eff (g_rot t) dm (snd e) (nth q eff 0%nat)) (g_rot t n q)) (fun q => g_rot t n q *' rot_rows R eff (g_rot t) dm (snd e) (nth q eff 0%nat))) by (intros; ring). ring.
    + rewrite (rot_vec m (g_u t) (g_d t) eff (g_rot t) _ g Nf Ns Nu Ld He Hg). rewrite <- bsum_mull. apply bsum_ext. intros e' _. ring.
  - rewrite bsum_swap. rewrite (bsum_swap R _ _ m m (fun e e' => f (fst e) *' dm (snd e) (snd e') *' g (fst e'))). apply bsum_ext. intros e' _.
    transitivity (g (fst e') *' bsum m (fun e => rotv eff (g_rot t) (fun i => dm i (snd e')) (snd e) *' f (renf (g_u t) (g_d t) (fst e)))).
    + rewrite <- bsum_mull. apply bsum_ext. intros e _. unfold rot_rows, rotv. destruct (last_pos (snd e) eff); ring.
    + rewrite (rot_vec m (g_u t) (g_d t) eff (g_rot t) _ f Nf Ns Nu Ld He Hf). rewrite <- bsum_mull. apply bsum_ext. intros e _. ring.
Qed.
Lemma form_diag : forall m u eff occ dm f g, NoDup (map fst m) -> NoDup (map snd m) -> NoDup u -> mapM (dget Z.eqb m) u = Some eff -> length occ = length u ->
  (forall i, In i eff -> dm i i = r0 R) ->
  form m (set_diag R eff occ dm) f g = form m dm f g +' bsum (seq 0 (length u)) (fun p => nth p occ (r0 R) *' f (nth p u 0) *' g (nth p u 0)).
Proof.
  intros m u eff occ dm f g Nf Ns Nu He Lo Hz. destruct (mapM_nth _ _ _ He) as [Le Ge].
  set (w := fun i => match last_pos i eff with Some p => nth p occ (r0 R) | None => r0 R end).
  transitivity (form m dm f g +' bsum m (fun e => bsum m (fun e' => if Nat.eqb (snd e) (snd e') then f (fst e) *' w (snd e) *' g (fst e') else r0 R))).
  - unfold form. rewrite <- bsum_add. apply bsum_ext. intros e _. rewrite <- bsum_add. apply bsum_ext. intros e' _. unfold set_diag, w.
    destruct (Nat.eqb_spec (snd e) (snd e')) as [E|]; [|ring]. rewrite <- E. destruct (last_pos (snd e) eff) as [p|] eqn:Ep; [|ring].
    rewrite (Hz (snd e)); [ring|]. apply last_pos_some in Ep. destruct Ep as [Lp <-]. now apply nth_In.
  - f_equal. transitivity (bsum m (fun e => f (fst e) *' w (snd e) *' g (fst e))).
    + apply bsum_ext. intros e He'. rewrite (bsum_single R _ m _ e (nodup_fst _ _ _ Nf) He').
      * now rewrite Nat.eqb_refl.
      * intros e2 H2 N2. destruct (Nat.eqb_spec (snd e) (snd e2)) as [E|]; [|reflexivity]. elim N2. symmetry. exact (in_map_inj' _ _ m e e2 Ns He' H2 E).
    + pose proof (split_map m u eff Nf Nu He) as P. pose proof (Permutation_NoDup (Permutation_map snd P) Ns) as N2.
      rewrite (bsum_perm R _ _ _ _ P), bsum_app. unfold pairs. rewrite bsum_map. cbn [fst snd]. rewrite (bsum_zero R _ (rest u m)).
      * transitivity (bsum (seq 0 (length u)) (fun p => f (nth p u 0) *' w (nth p eff 0%nat) *' g (nth p u 0))); [ring|]. apply bsum_ext. intros p Hp. apply in_seq in Hp. unfold w.
        rewrite last_pos_nth; [ring| |lia]. rewrite map_app in N2. apply CanonProofs.nodup_app in N2. destruct N2 as (N2 & _). now rewrite (pairs_snd u eff Le) in N2.
      * intros [x i] Hr. cbn [fst snd]. unfold w. rewrite last_pos_none; [ring|]. intros C. rewrite map_app in N2. apply CanonProofs.nodup_app in N2. destruct N2 as (_ & _ & N3). rewrite (pairs_snd u eff Le) in N3. apply (N3 i C). apply in_map_iff. exists (x, i). auto.
Qed.
Definition occsum (l : list gt) (f g : Z -> R) : R := bsum l (fun t => bsum (seq 0 (g_core t)) (fun p => nth p (g_occ t) (r0 R) *' f (nth p (g_u t) 0) *' g (nth p (g_u t) 0))).
Section Net.
Variable T : list Z.
Variable ord : list gt.
Definition wf_net : Prop := NoDup (Us R ord) /\ NoDup (Ds R ord) /\ topo R ord /\ (forall x, In x T <-> In x (Us R ord) /\ ~ In x (Ds R ord)) /\
  forall t, In t ord -> length (g_d t) = length (g_u t) /\ length (g_occ t) = g_core t /\ (g_core t <= length (g_u t))%nat /\ forall x, In x (firstn (g_core t) (g_u t)) -> In x T.
Definition good (l : list gt) (m : dict Z nat) (dm : mat) : Prop :=
  NoDup (map fst m) /\ NoDup (map snd m) /\
  (forall x, In x (map fst m) <-> (In x T \/ In x (Ds R l)) /\ ~ In x (Us R l)) /\
  (forall x i j, In (x, i) m -> In x T -> dm i j = r0 R /\ dm j i = r0 R) /\
  (forall f g, (forall t, In t l -> rotd t f) -> (forall t, In t l -> rotd t g) -> form m dm f g = occsum l f g).
Lemma topo_suffix : forall pre l, topo R (pre ++ l) -> topo R l.
Proof. induction pre as [|t pre IH]; intros l H; [exact H|]. apply IH. exact (proj2 H). Qed.
Lemma topo_before : forall pre l t x, topo R (pre ++ l) -> In t pre -> In x (g_d t) -> ~ In x (Us R l).
Proof.
  induction pre as [|t0 pre IH]; intros l t x H Ht Hx C; [destruct Ht|]. destruct H as [H0 H]. destruct Ht as [->|Ht]; [|exact (IH l t x H Ht Hx C)].
  apply (H0 x Hx). cbn [app]. rewrite app_comm_cons. rewrite (Us_app R (t :: pre) l). apply in_or_app. now right.
Qed.
Lemma mapM_keys : forall (m : dict Z nat) u, (forall x, In x u -> In x (map fst m)) -> exists e, mapM (dget Z.eqb m) u = Some e.
Proof.
  intros m. induction u as [|x u IH]; intros H; [eexists; reflexivity|]. cbn [mapM]. destruct IH as (e & ->); [intros y Hy; apply H; now right|].
  destruct (dget Z.eqb m x) as [i|] eqn:E; [eexists; reflexivity|]. exfalso. specialize (H x (or_introl eq_refl)).
  clear - E H. induction m as [|[k v] m IHm]; [destruct H|]. cbn in E. destruct (Z.eqb_spec k x); [discriminate|]. destruct H as [H|H]; [cbn in H; congruence|]. now apply IHm.
Qed.
Lemma keys_split : forall (m : dict Z nat) x, In x (map fst m) -> exists i, In (x, i) m.
Proof. intros m x H. apply in_map_iff in H. destruct H as ([k i] & E & H). cbn in E. subst k. eauto. Qed.
Lemma nodup_map_on : forall (A B : Type) (h : A -> B) (l : list A), NoDup l -> (forall x y, In x l -> In y l -> h x = h y -> x = y) -> NoDup (map h l).
Proof.
  intros A B h. induction l as [|x l IH]; intros N H; cbn; [constructor|]. apply NoDup_cons_iff in N. destruct N as [N0 N]. constructor.
  - intros C. apply in_map_iff in C. destruct C as (y & E & Hy). apply N0. rewrite (H x y); auto; [now left|now right].
  - apply IH; [exact N|]. intros a b Ha Hb. apply H; now right.
Qed.
Lemma firstn_nth : forall (A : Type) (d : A) n (l : list A) p, (p < n)%nat -> nth p (firstn n l) d = nth p l d.
Proof. intros A d. induction n as [|n IH]; intros [|x l] p H; try lia; cbn; [now destruct p|]. destruct p as [|p]; [reflexivity|]. apply IH. lia. Qed.
Lemma rot_rows_zero : forall eff ub (dm : mat) i, ~ In i eff -> (forall j, dm i j = r0 R /\ dm j i = r0 R) ->
  forall j, rot_cols R eff ub (rot_rows R eff ub dm) i j = r0 R /\ rot_cols R eff ub (rot_rows R eff ub dm) j i = r0 R.
Proof.
  intros eff ub dm i Hi Hz j.
  assert (Z1 : forall j, rot_rows R eff ub dm i j = r0 R) by (intros j'; unfold rot_rows; rewrite last_pos_none by exact Hi; apply Hz).
  assert (Z2 : forall j, rot_rows R eff ub dm j i = r0 R).
  { intros j'. unfold rot_rows. destruct (last_pos j' eff); [|apply Hz]. apply bsum_zero. intros q _. rewrite (proj2 (Hz _)). ring. }
  split; unfold rot_cols.
  - destruct (last_pos j eff); [|apply Z1]. apply bsum_zero. intros q _. rewrite Z1. ring.
  - rewrite last_pos_none by exact Hi. apply Z2.
Qed.
Lemma back_ok : forall pre t l m dm, wf_net -> ord = pre ++ t :: l -> good l m dm ->
  exists m' dm', back_step R (m, dm) t = Some (m', dm') /\ good (t :: l) m' dm'.
Proof.
  intros pre t l m dm (NU & ND & TP & HT & WF) EO (K1 & K2 & K3 & K4 & K5).
  assert (Ht : In t ord) by (rewrite EO; apply in_or_app; right; now left).
  destruct (WF t Ht) as (Ld & Lo & Lc & Ct).
  rewrite EO in NU, ND, TP. rewrite Us_app in NU. rewrite Ds_app in ND. apply CanonProofs.nodup_app in NU. apply CanonProofs.nodup_app in ND. destruct NU as (_ & NU & _). destruct ND as (_ & ND & ND').
  change (Us R (t :: l)) with (g_u t ++ Us R l) in NU. change (Ds R (t :: l)) with (g_d t ++ Ds R l) in ND, ND'. apply CanonProofs.nodup_app in NU. apply CanonProofs.nodup_app in ND. destruct NU as (Nu & NUl & NU'). destruct ND as (Nd & NDl & NDx).
  pose proof (proj1 (topo_suffix _ _ TP)) as Td. change (Us R (t :: l)) with (g_u t ++ Us R l) in Td.
  assert (Hu : forall x, In x (g_u t) -> In x (map fst m)).
  { intros x Hx. apply K3. split; [|exact (NU' x Hx)]. destruct (in_dec Z.eq_dec x (Ds R ord)) as [Hd|Hd].
    - right. rewrite EO, Ds_app in Hd. apply in_app_or in Hd. destruct Hd as [Hd|Hd].
      + exfalso. apply in_Ds in Hd. destruct Hd as (t' & Ht' & Hd). apply (topo_before pre (t :: l) t' x TP Ht' Hd). cbn. apply in_or_app. now left.
      + change (Ds R (t :: l)) with (g_d t ++ Ds R l) in Hd. apply in_app_or in Hd. destruct Hd as [Hd|Hd]; [|exact Hd]. exfalso. apply (Td x Hd). apply in_or_app. now left.
    - left. apply HT. split; [|exact Hd]. apply in_Us. exists t. auto. }
  assert (Dk : forall x, In x (g_d t) -> ~ In x (map fst m)).
  { intros x Hx C. apply K3 in C. destruct C as [[C|C] _]; [|exact (NDx x Hx C)]. apply HT in C. apply (proj2 C). apply in_Ds. exists t. auto. }
  destruct (mapM_keys m (g_u t) Hu) as (eff & Ee).
  destruct (mapM_keys m (firstn (g_core t) (g_u t))) as (dmc & Ec). { intros x Hx. apply Hu. rewrite <- (firstn_skipn (g_core t) (g_u t)). apply in_or_app. now left. }
  assert (Lf : length (firstn (g_core t) (g_u t)) = g_core t) by (apply firstn_length_le; exact Lc).
  destruct (mapM_nth _ _ _ Ec) as [Ldc Gc]. destruct (mapM_nth _ _ _ Ee) as [Lde Ge].
  assert (Nc : NoDup (firstn (g_core t) (g_u t))) by (rewrite <- (firstn_skipn (g_core t) (g_u t)) in Nu; apply CanonProofs.nodup_app in Nu; tauto).
  assert (Ren : forall x, In x (map fst m) -> (In x (g_u t) /\ In (renf (g_u t) (g_d t) x) (g_d t)) \/ (~ In x (g_u t) /\ renf (g_u t) (g_d t) x = x)).
  { intros x Hx. destruct (in_dec Z.eq_dec x (g_u t)) as [Hxu|Hxu]; [left|right].
    - split; [exact Hxu|]. apply (In_nth _ _ 0) in Hxu. destruct Hxu as (p & Lp & <-). rewrite renf_in by auto. apply nth_In. lia.
    - split; [exact Hxu|]. now apply renf_out. }
  assert (Nk : NoDup (map (fun e => renf (g_u t) (g_d t) (fst e)) m)).
  { rewrite <- (map_map fst (renf (g_u t) (g_d t))). apply nodup_map_on; [exact K1|]. intros x y Hx Hy E.
    destruct (Ren x Hx) as [[Ux Dx]|[Ux Rx]], (Ren y Hy) as [[Uy Dy]|[Uy Ry]].
    - apply (In_nth _ _ 0) in Ux. destruct Ux as (p & Lp & <-). apply (In_nth _ _ 0) in Uy. destruct Uy as (q & Lq & <-). rewrite !renf_in in E by auto. f_equal. apply (proj1 (NoDup_nth (g_d t) 0) Nd); auto; lia.
    - exfalso. apply (Dk y); [|exact Hy]. rewrite <- Ry, <- E. exact Dx.
    - exfalso. apply (Dk x); [|exact Hx]. rewrite <- Rx, E. exact Dy.
    - congruence. }
  assert (Er : retag (g_u t) (g_d t) m = ren_map (g_u t) (g_d t) m).
  { unfold retag, ren_map. apply dict_nodup. rewrite map_map. exact Nk. }
  unfold back_step. rewrite Ee. cbn [bind]. rewrite Ec. cbn [bind]. rewrite Lo, Ldc, Lf, Nat.eqb_refl. cbn [negb].
  eexists. eexists. split; [reflexivity|]. rewrite Er. clear Er.
  assert (Zc : forall i, In i dmc -> dm i i = r0 R).
  { intros i Hi. apply (In_nth _ _ 0%nat) in Hi. destruct Hi as (p & Lp & <-). rewrite Ldc in Lp. apply (K4 (nth p (firstn (g_core t) (g_u t)) 0)); [|apply Ct; now apply nth_In].
    apply (dget_nodup nat m _ _ K1). now apply Gc. }
  split; [|split; [|split; [|split]]].
  - unfold ren_map. rewrite map_map. exact Nk.
  - unfold ren_map. rewrite map_map. exact K2.
  - intros x. change (Us R (t :: l)) with (g_u t ++ Us R l). change (Ds R (t :: l)) with (g_d t ++ Ds R l). rewrite !in_app_iff. unfold ren_map. rewrite map_map. cbn [fst]. rewrite <- (map_map fst (renf (g_u t) (g_d t))), in_map_iff. split.
    + intros (y & <- & Hy). destruct (Ren y Hy) as [[Uy Dy]|[Uy ->]].
      * specialize (Td _ Dy). rewrite in_app_iff in Td. tauto.
      * apply K3 in Hy. tauto.
    + intros [H1 H2]. destruct (in_dec Z.eq_dec x (g_d t)) as [Hd|Hd].
      * apply (In_nth _ _ 0) in Hd. destruct Hd as (p & Lp & <-). rewrite Ld in Lp. exists (nth p (g_u t) 0). split; [now apply renf_in|]. apply Hu. now apply nth_In.
      * exists x. split; [apply renf_out; auto; tauto|]. apply K3. tauto.
  - intros x i j Hx HxT. unfold ren_map in Hx. apply in_map_iff in Hx. destruct Hx as ([y i'] & E & Hy). cbn [fst snd] in E. injection E as Ey <-.
    assert (Hk : In y (map fst m)) by (apply in_map_iff; exists (y, i'); auto).
    destruct (Ren y Hk) as [[Uy Dy]|[Uy Ry]].
    + exfalso. rewrite Ey in Dy. apply HT in HxT. apply (proj2 HxT). apply in_Ds. exists t. auto.
    + rewrite Ry in Ey. subst y.
      assert (Ne : forall l' e', (forall z, In z l' -> In z (g_u t)) -> mapM (dget Z.eqb m) l' = Some e' -> ~ In i' e').
      { intros l' e' Hl He' Hi. destruct (mapM_nth _ _ _ He') as [Le' G']. apply (In_nth _ _ 0%nat) in Hi. destruct Hi as (p & Lp & E). rewrite Le' in Lp. specialize (G' p Lp). rewrite E in G'. apply (dget_nodup nat m _ _ K1) in G'.
        pose proof (in_map_inj' _ _ m _ _ K2 Hy G' eq_refl) as Q. injection Q as Q. apply Uy. rewrite Q. apply Hl. now apply nth_In. }
      apply rot_rows_zero; [exact (Ne _ _ (fun z Hz => Hz) Ee)|]. intros j'. assert (Nd' : ~ In i' dmc). { apply (Ne (firstn (g_core t) (g_u t)) dmc); [|exact Ec]. intros z Hz. rewrite <- (firstn_skipn (g_core t) (g_u t)). apply in_or_app. now left. }
      unfold set_diag. rewrite (last_pos_none _ _ Nd'). destruct (Nat.eqb_spec j' i') as [->|]; [rewrite Nat.eqb_refl, (last_pos_none _ _ Nd'); exact (K4 x i' i' Hy HxT)|].
      destruct (Nat.eqb_spec i' j'); [congruence|]. exact (K4 x i' j' Hy HxT).
  - intros f g Hf Hg. rewrite (form_rot m t eff _ f g K1 K2 Nu Ld Ee (Hf t (or_introl eq_refl)) (Hg t (or_introl eq_refl))).
    rewrite (form_diag m (firstn (g_core t) (g_u t)) dmc (g_occ t) dm f g K1 K2 Nc Ec) by (auto; lia). rewrite Lf. rewrite (K5 f g (fun t' H => Hf t' (or_intror H)) (fun t' H => Hg t' (or_intror H))).
    unfold occsum. rewrite (bsum_cons R). rewrite (bsum_ext R _ (seq 0 (g_core t)) _ (fun p => nth p (g_occ t) (r0 R) *' f (nth p (g_u t) 0) *' g (nth p (g_u t) 0))); [ring|].
    intros p Hp. apply in_seq in Hp. now rewrite !firstn_nth by lia.
Qed.
Lemma back_all : forall l pre st, wf_net -> ord = pre ++ l -> good [] (fst st) (snd st) -> exists m dm, foldM (back_step R) st (rev l) = Some (m, dm) /\ good l m dm.
Proof.
  induction l as [|t l IH]; intros pre st W E G.
  - exists (fst st), (snd st). split; [cbn; now destruct st|exact G].
  - destruct (IH (pre ++ [t]) st W) as (m & dm & Ef & Gm); [now rewrite <- app_assoc|exact G|].
    destruct (back_ok pre t l m dm W E Gm) as (m' & dm' & Eb & Gb). exists m', dm'. split; [|exact Gb].
    cbn [rev]. rewrite foldM_app, Ef. cbn [bind foldM]. now rewrite Eb.
Qed.
End Net.
(* ---- the whole network *)
Section Whole.
Variable ts : list gt.
Definition net_ok (rk : gt -> nat) : Prop := NoDup (Us R ts) /\ NoDup (Ds R ts) /\
  (forall t t' x, In t ts -> In t' ts -> In x (g_u t') -> In x (g_d t) -> (rk t' < rk t)%nat) /\
  forall t, In t ts -> length (g_d t) = length (g_u t) /\ length (g_occ t) = g_core t /\ (g_core t <= length (g_u t))%nat /\ forall x, In x (firstn (g_core t) (g_u t)) -> ~ In x (Ds R ts).
Notation I := (initial_indices R ts). Notation T := (terminal_indices R ts).
Definition orbs (phi : Z -> nat -> R) : Prop :=
  (forall a b, (a < length I)%nat -> (b < length I)%nat -> phi (nth a I 0) b = if Nat.eqb a b then r1 R else r0 R) /\
  forall t b, In t ts -> (b < length I)%nat -> rotd t (fun x => phi x b).
Lemma net_order : forall rk, net_ok rk -> exists ls, get_layers R ts = Some ls /\ Permutation (map snd (concat ls)) ts /\ wf_net T (map snd (concat ls)).
Proof.
  intros rk (NU & ND & RK & W). destruct (get_layers_ok R ts rk ND NU RK) as (ls & E & P & Tp & _ & _). exists ls. split; [exact E|].
  assert (Q : Permutation (map snd (concat ls)) ts) by (rewrite P, enum_snd; reflexivity). split; [exact Q|].
  pose proof (perm_Us R _ _ Q) as QU. pose proof (perm_Ds R _ _ Q) as QD. assert (NU' := Permutation_NoDup (Permutation_sym QU) NU). assert (ND' := Permutation_NoDup (Permutation_sym QD) ND).
  repeat split; auto.
  - apply in_terminal in H. apply (Permutation_in x (Permutation_sym QU)). tauto.
  - intros C. apply in_terminal in H. apply (proj2 H). exact (Permutation_in x QD C).
  - intros [H1 H2]. apply in_terminal. split; [exact (Permutation_in x QU H1)|]. intros C. apply H2. exact (Permutation_in x (Permutation_sym QD) C).
  - apply (Permutation_in t Q) in H. apply W. exact H.
  - apply (Permutation_in t Q) in H. apply W. exact H.
  - apply (Permutation_in t Q) in H. apply W. exact H.
  - intros x Hx. apply (Permutation_in t Q) in H. apply in_terminal. split; [|exact (proj2 (proj2 (proj2 (W t H))) x Hx)]. apply in_Us. exists t. split; [exact H|]. rewrite <- (firstn_skipn (g_core t) (g_u t)). apply in_or_app. now left.
Qed.
Lemma rdm1_ok : forall rk, net_ok rk -> exists dm, make_rdm1 R ts = Some (length I, dm) /\
  forall phi, orbs phi -> forall a b, (a < length I)%nat -> (b < length I)%nat -> dm a b = occsum ts (fun x => phi x a) (fun x => phi x b).
Proof.
  intros rk N. destruct (net_order rk N) as (ls & E & Q & W). pose proof (perm_Us R _ _ Q) as QU. pose proof (perm_Ds R _ _ Q) as QD.
  assert (Ep : positions T = combine T (seq 0 (length T))) by (apply dict_nodup; rewrite map_fst_combine' by apply seq_length; apply nodup_terminal).
  assert (Ek : map fst (positions T) = T) by (rewrite Ep; apply map_fst_combine'; apply seq_length).
  destruct (back_all T _ (map snd (concat ls)) [] (positions T, fun _ _ => r0 R) W eq_refl) as (m & dm & Ef & (K1 & K2 & K3 & _ & K5)).
  - cbn [fst snd]. split; [|split; [|split; [|split]]].
    + rewrite Ek. apply nodup_terminal.
    + rewrite Ep. rewrite map_snd_combine' by apply seq_length. apply seq_NoDup.
    + intros x. rewrite Ek. cbn. tauto.
    + auto.
    + intros f g _ _. unfold form, occsum. rewrite bsum_nil. apply bsum_zero. intros e _. apply bsum_zero. intros e' _. ring.
  - assert (Hk : forall x, In x (map fst m) <-> In x I).
    { intros x. rewrite K3, in_initial, in_terminal. split.
      - intros [[[H1 _]|H1] H2]; [elim H2; exact (Permutation_in x (Permutation_sym QU) H1)|]. split; [exact (Permutation_in x QD H1)|]. intros C. apply H2. exact (Permutation_in x (Permutation_sym QU) C).
      - intros [H1 H2]. split; [right; exact (Permutation_in x (Permutation_sym QD) H1)|]. intros C. apply H2. exact (Permutation_in x QU C). }
    destruct (mapM_keys m I) as (re & Er); [intros x; apply Hk|]. destruct (mapM_nth _ _ _ Er) as [Lr Gr].
    exists (fun i j => dm (nth i re 0%nat) (nth j re 0%nat)). split.
    + unfold make_rdm1. rewrite E. cbn [bind]. rewrite Ef. cbn [bind]. rewrite Er. cbn [bind]. now rewrite Lr.
    + intros phi [P1 P2] a b Ha Hb.
      assert (P2' : forall c, (c < length I)%nat -> forall t, In t (map snd (concat ls)) -> rotd t (fun x => phi x c)) by (intros c Hc t Ht; apply P2; [exact (Permutation_in t Q Ht)|exact Hc]).
      specialize (K5 _ _ (P2' a Ha) (P2' b Hb)). unfold occsum in *. rewrite (bsum_perm R _ _ _ _ Q) in K5. rewrite <- K5. clear K5. unfold form.
      assert (Dl : forall c e, (c < length I)%nat -> In e m -> e <> (nth c I 0, nth c re 0%nat) -> phi (fst e) c = r0 R).
      { intros c [x i] Hc He Ne. assert (Hx : In x I) by (apply Hk; apply in_map_iff; exists (x, i); auto). apply (In_nth _ _ 0) in Hx. destruct Hx as (q & Lq & <-). cbn [fst]. rewrite P1 by auto. destruct (Nat.eqb_spec q c); [|reflexivity]. subst q. elim Ne. f_equal.
        apply (dget_nodup nat m _ _ K1) in He. rewrite (Gr c Hc) in He. now injection He. }
      assert (In_ : forall c, (c < length I)%nat -> In (nth c I 0, nth c re 0%nat) m) by (intros c Hc; apply (dget_nodup nat m _ _ K1); now apply Gr).
      rewrite (bsum_single R _ m _ _ (nodup_fst _ _ _ K1) (In_ a Ha)).
      * rewrite (bsum_single R _ m _ _ (nodup_fst _ _ _ K1) (In_ b Hb)).
        -- cbn [fst snd]. rewrite !P1, !Nat.eqb_refl by auto. ring.
        -- intros e He Ne. rewrite (Dl b e Hb He Ne). ring.
      * intros e He Ne. apply bsum_zero. intros e' _. rewrite (Dl a e Ha He Ne). ring.
Qed.
(* the orbitals exist *)
Fixpoint solve (l : list gt) (f : Z -> R) : Z -> R :=
  match l with
  | [] => f
  | t :: l' => solve l' (fun x => match find (fun p => nth p (g_u t) 0 =? x) (seq 0 (length (g_u t))) with
                          | Some p => bsum (seq 0 (length (g_u t))) (fun q => g_rot t q p *' f (nth q (g_d t) 0)) | None => f x end)
  end.
Lemma solve_out : forall l f x, ~ In x (Us R l) -> solve l f x = f x.
Proof.
  induction l as [|t l IH]; intros f x H; [reflexivity|]. cbn [solve]. change (Us R (t :: l)) with (g_u t ++ Us R l) in H. rewrite in_app_iff in H. rewrite IH by tauto.
  destruct (find _ _) as [p|] eqn:E; [|reflexivity]. apply find_some in E. destruct E as [E1 E2]. apply in_seq in E1. apply Z.eqb_eq in E2. elim H. left. rewrite <- E2. apply nth_In. lia.
Qed.
Lemma find_nth : forall u p, NoDup u -> (p < length u)%nat -> find (fun q => nth q u 0 =? nth p u 0) (seq 0 (length u)) = Some p.
Proof.
  intros u p N L. destruct (find _ _) as [q|] eqn:E.
  - apply find_some in E. destruct E as [E1 E2]. apply in_seq in E1. apply Z.eqb_eq in E2. f_equal. apply (proj1 (NoDup_nth u 0) N); auto; lia.
  - pose proof (find_none _ _ E p ltac:(apply in_seq; lia)) as C. cbv beta in C. rewrite Z.eqb_refl in C. discriminate.
Qed.
Lemma solve_rot : forall l f, NoDup (Us R l) -> topo R l -> (forall t, In t l -> length (g_d t) = length (g_u t)) -> forall t, In t l -> rotd t (solve l f).
Proof.
  induction l as [|t l IH]; intros f N TT W t' Ht; [destruct Ht|]. destruct TT as [Td Tp]. change (Us R (t :: l)) with (g_u t ++ Us R l) in N, Td. apply CanonProofs.nodup_app in N. destruct N as (N1 & N2 & N3).
  destruct Ht as [<-|Ht]; [|cbn [solve]; apply IH; auto; intros t2 H2; apply W; now right].
  intros p Hp. cbn [solve]. rewrite solve_out by (intros C'; exact (N3 _ (nth_In (g_u t) 0 Hp) C')). rewrite find_nth by auto. apply bsum_ext. intros q Hq. apply in_seq in Hq. f_equal.
  assert (In (nth q (g_d t) 0) (g_d t)) as Hd by (apply nth_In; rewrite (W t (or_introl eq_refl)); lia). specialize (Td _ Hd). rewrite in_app_iff in Td. rewrite solve_out by tauto.
  destruct (find _ _) as [p'|] eqn:E; [|reflexivity]. apply find_some in E. destruct E as [E1 E2]. apply in_seq in E1. apply Z.eqb_eq in E2. elim Td. left. rewrite <- E2. apply nth_In. lia.
Qed.
Lemma orbs_exist : forall rk, net_ok rk -> exists phi, orbs phi.
Proof.
  intros rk N. destruct (net_order rk N) as (ls & E & Q & (W1 & W2 & W3 & W4 & W5)).
  exists (fun x b => solve (map snd (concat ls)) (fun x => if x =? nth b I 0 then r1 R else r0 R) x). split.
  - intros a b Ha Hb. rewrite solve_out.
    + destruct (Z.eqb_spec (nth a I 0) (nth b I 0)) as [H|H].
      * apply (proj1 (NoDup_nth I 0) (nodup_initial R ts)) in H; auto. subst. now rewrite Nat.eqb_refl.
      * destruct (Nat.eqb_spec a b); [subst; congruence|reflexivity].
    + intros C. apply (Permutation_in _ (perm_Us R _ _ Q)) in C. pose proof (nth_In I 0 Ha) as HI. apply in_initial in HI. tauto.
  - intros t b Ht Hb p Hp. apply (solve_rot (map snd (concat ls)) _ W1 W3); [|exact (Permutation_in t (Permutation_sym Q) Ht)|exact Hp]. intros t' Ht'. apply W5. exact Ht'.
Qed.
(* orthogonal tensors give orthonormal terminal orbitals *)
Definition dot (phi : Z -> nat -> R) (x y : Z) : R := bsum (seq 0 (length I)) (fun a => phi x a *' phi y a).
Definition dlt (x y : Z) : R := if x =? y then r1 R else r0 R.
Definition col_orth (t : gt) : Prop := forall p p', (p < length (g_u t))%nat -> (p' < length (g_u t))%nat ->
  bsum (seq 0 (length (g_u t))) (fun q => g_rot t q p *' g_rot t q p') = if Nat.eqb p p' then r1 R else r0 R.
Lemma dot_sym : forall phi x y, dot phi x y = dot phi y x. Proof. intros. unfold dot. apply bsum_ext. intros. ring. Qed.
Lemma dlt_sym : forall x y, dlt x y = dlt y x. Proof. intros. unfold dlt. now rewrite Z.eqb_sym. Qed.
Lemma dot_rot : forall phi t p y, orbs phi -> In t ts -> (p < length (g_u t))%nat -> dot phi (nth p (g_u t) 0) y = bsum (seq 0 (length (g_u t))) (fun q => g_rot t q p *' dot phi (nth q (g_d t) 0) y).
Proof.
  intros phi t p y [_ P] Ht Hp. unfold dot.
  rewrite (bsum_ext R _ _ _ (fun a => bsum (seq 0 (length (g_u t))) (fun q => g_rot t q p *' phi (nth q (g_d t) 0) a *' phi y a))).
  - rewrite bsum_swap. apply bsum_ext. intros q _. rewrite <- bsum_mull. apply bsum_ext. intros; ring.
  - intros a Ha. apply in_seq in Ha. rewrite (P t a Ht ltac:(lia) p Hp). now rewrite bsum_mulr.
Qed.
Lemma cut_orth : forall phi done l, orbs phi -> (forall t, In t ts -> col_orth t) -> Permutation (done ++ l) ts -> NoDup (Us R ts) -> NoDup (Ds R ts) -> topo R (done ++ l) -> (forall t, In t ts -> length (g_d t) = length (g_u t)) ->
  forall x y, (In x I \/ In x (Us R done)) -> ~ In x (Ds R done) -> (In y I \/ In y (Us R done)) -> ~ In y (Ds R done) -> dot phi x y = dlt x y.
Proof.
  intros phi done. induction done as [|t done IH] using rev_ind; intros l O C P NU ND TP W x y Hx Nx Hy Ny.
  - cbn in Hx, Hy. destruct Hx as [Hx|[]]. destruct Hy as [Hy|[]]. apply (In_nth _ _ 0) in Hx. destruct Hx as (a & La & <-). apply (In_nth _ _ 0) in Hy. destruct Hy as (b & Lb & <-).
    unfold dot. rewrite (bsum_single R _ (seq 0 (length I)) _ a (seq_NoDup _ _) ltac:(apply in_seq; lia)).
    + rewrite !(proj1 O) by auto. rewrite Nat.eqb_refl. unfold dlt. destruct (Nat.eqb_spec b a) as [->|Nb]; [rewrite Z.eqb_refl; ring|].
      destruct (Z.eqb_spec (nth a I 0) (nth b I 0)) as [E|_]; [|ring]. apply (proj1 (NoDup_nth I 0) (nodup_initial R ts)) in E; auto. congruence.
    + intros c Hc Nc. apply in_seq in Hc. rewrite (proj1 O) by lia. destruct (Nat.eqb_spec a c); [congruence|ring].
  - assert (Ht : In t ts) by (apply (Permutation_in t P); apply in_or_app; left; apply in_or_app; right; now left).
    assert (TP' : topo R (done ++ t :: l)) by (now rewrite <- app_assoc in TP).
    specialize (IH (t :: l) O C ltac:(now rewrite <- app_assoc in P) NU ND TP' W).
    assert (Eu : forall z, In z (Us R (done ++ [t])) <-> In z (Us R done) \/ In z (g_u t)) by (intros z; rewrite (Us_app R), in_app_iff; cbn; rewrite app_nil_r; tauto).
    assert (Ed : forall z, In z (Ds R (done ++ [t])) <-> In z (Ds R done) \/ In z (g_d t)) by (intros z; rewrite (Ds_app R), in_app_iff; cbn; rewrite app_nil_r; tauto).
    rewrite Eu in Hx, Hy. rewrite Ed in Nx, Ny.
    (* down legs of t are in the cut before t *)
    pose proof (Permutation_NoDup (perm_Ds R _ _ (Permutation_sym P)) ND) as NDo. rewrite <- app_assoc in NDo. rewrite (Ds_app R) in NDo. apply CanonProofs.nodup_app in NDo. destruct NDo as (_ & NDt & NDs). cbn [app] in NDt, NDs. change (Ds R (t :: l)) with (g_d t ++ Ds R l) in NDt, NDs. apply CanonProofs.nodup_app in NDt. destruct NDt as (Nd & _ & _).
    pose proof (Permutation_NoDup (perm_Us R _ _ (Permutation_sym P)) NU) as NUo. rewrite <- app_assoc in NUo. rewrite (Us_app R) in NUo. apply CanonProofs.nodup_app in NUo. destruct NUo as (_ & NUt & NUs). cbn [app] in NUt, NUs. change (Us R (t :: l)) with (g_u t ++ Us R l) in NUt, NUs. apply CanonProofs.nodup_app in NUt. destruct NUt as (Nu & _ & _).
    assert (Dc : forall z, In z (g_d t) -> (In z I \/ In z (Us R done)) /\ ~ In z (Ds R done)).
    { intros z Hz. split.
      - destruct (in_dec Z.eq_dec z (Us R ts)) as [H|H].
        + right. apply (Permutation_in z (perm_Us R _ _ (Permutation_sym P))) in H. rewrite <- app_assoc in H. rewrite (Us_app R), in_app_iff in H. destruct H as [H|H]; [exact H|]. exfalso. exact (proj1 (topo_suffix _ _ TP') z Hz H).
        + left. apply in_initial. split; [|exact H]. apply in_Ds. exists t. auto.
      - intros H. apply (NDs z H). apply in_or_app. now left. }
    assert (Wt := W t Ht).
    assert (M : forall p z, (p < length (g_u t))%nat -> (In z I \/ In z (Us R done)) -> ~ In z (Ds R done) -> ~ In z (g_d t) -> dot phi (nth p (g_u t) 0) z = r0 R).
    { intros p z Hp Hz1 Hz2 Hz3. rewrite (dot_rot phi t p z O Ht Hp). apply bsum_zero. intros q Hq. apply in_seq in Hq. assert (Hd : In (nth q (g_d t) 0) (g_d t)) by (apply nth_In; lia).
      destruct (Dc _ Hd) as [D1 D2]. rewrite (IH _ z D1 D2 Hz1 Hz2). unfold dlt. destruct (Z.eqb_spec (nth q (g_d t) 0) z); [subst z; tauto|]. ring. }
    assert (MM : forall p p', (p < length (g_u t))%nat -> (p' < length (g_u t))%nat -> dot phi (nth p (g_u t) 0) (nth p' (g_u t) 0) = if Nat.eqb p p' then r1 R else r0 R).
    { intros p p' Hp Hp'. rewrite (dot_rot phi t p _ O Ht Hp). rewrite <- (C t Ht p p' Hp Hp'). apply bsum_ext. intros q Hq. apply in_seq in Hq. f_equal.
      rewrite dot_sym, (dot_rot phi t p' _ O Ht Hp'). rewrite (bsum_single R _ (seq 0 (length (g_u t))) _ q (seq_NoDup _ _) ltac:(apply in_seq; lia)).
      - destruct (Dc (nth q (g_d t) 0)) as [D1 D2]; [apply nth_In; lia|]. rewrite (IH _ _ D1 D2 D1 D2). unfold dlt. rewrite Z.eqb_refl. ring.
      - intros q' Hq' Nq. apply in_seq in Hq'. destruct (Dc (nth q (g_d t) 0)) as [D1 D2]; [apply nth_In; lia|]. destruct (Dc (nth q' (g_d t) 0)) as [D1' D2']; [apply nth_In; lia|]. rewrite (IH _ _ D1' D2' D1 D2). unfold dlt.
        destruct (Z.eqb_spec (nth q' (g_d t) 0) (nth q (g_d t) 0)) as [E|_]; [|ring]. apply (proj1 (NoDup_nth (g_d t) 0) Nd) in E; [congruence|lia|lia]. }
    assert (Dis : forall z, (In z I \/ In z (Us R done)) -> ~ In z (g_u t)).
    { intros z [Hz|Hz] Hu; [|apply (NUs z Hz); apply in_or_app; now left]. apply in_initial in Hz. apply (proj2 Hz). apply in_Us. exists t. auto. }
    destruct (in_dec Z.eq_dec x (g_u t)) as [Ux|Ux], (in_dec Z.eq_dec y (g_u t)) as [Uy|Uy].
    + apply (In_nth _ _ 0) in Ux. destruct Ux as (p & Lp & <-). apply (In_nth _ _ 0) in Uy. destruct Uy as (p' & Lp' & <-). rewrite MM by auto. unfold dlt.
      destruct (Nat.eqb_spec p p') as [->|Np]; [now rewrite Z.eqb_refl|]. destruct (Z.eqb_spec (nth p (g_u t) 0) (nth p' (g_u t) 0)) as [E|]; [|reflexivity]. apply (proj1 (NoDup_nth (g_u t) 0) Nu) in E; [congruence|auto|auto].
    + assert (Hy' : In y I \/ In y (Us R done)) by tauto. unfold dlt. destruct (Z.eqb_spec x y) as [->|_]; [tauto|]. apply (In_nth _ _ 0) in Ux. destruct Ux as (p & Lp & <-). apply M; tauto.
    + assert (Hx' : In x I \/ In x (Us R done)) by tauto. unfold dlt. destruct (Z.eqb_spec x y) as [->|_]; [tauto|]. apply (In_nth _ _ 0) in Uy. destruct Uy as (p & Lp & <-). rewrite dot_sym. apply M; tauto.
    + apply IH; tauto.
Qed.
Lemma terminal_orth : forall rk phi, net_ok rk -> orbs phi -> (forall t, In t ts -> col_orth t) -> forall x y, In x T -> In y T -> dot phi x y = dlt x y.
Proof.
  intros rk phi N O C x y Hx Hy. destruct (net_order rk N) as (ls & _ & Q & (_ & _ & TP & _ & _)). destruct N as (NU & ND & _ & W). apply in_terminal in Hx. apply in_terminal in Hy.
  pose proof (perm_Us R _ _ Q) as QU. pose proof (perm_Ds R _ _ Q) as QD.
  apply (cut_orth phi (map snd (concat ls)) [] O C); rewrite ?app_nil_r; auto.
  - intros t Ht. apply W. exact Ht.
  - right. exact (Permutation_in x (Permutation_sym QU) (proj1 Hx)).
  - intros H. exact (proj2 Hx (Permutation_in x QD H)).
  - right. exact (Permutation_in y (Permutation_sym QU) (proj1 Hy)).
  - intros H. exact (proj2 Hy (Permutation_in y QD H)).
Qed.
End Whole.
End Back.
