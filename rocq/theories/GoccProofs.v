(** Lemmas for GoccProps: layers depend on the legs only; the assignment loop; the two spins of a UHF network. *)
From Coq Require Import ZArith Bool List Lia Permutation.
From Verif Require Import DictLib IndexLib RingLib OptLib GaussModel GfitModel GaussProofs GfitProofs GoccModel.
Import ListNotations.
Open Scope Z_scope.

(** *** layers *)
Section Layers.
Variable R : CRing.
Notation gt := (gt R).
Definition strip (t : gt) : gt := GT R (g_u t) (g_d t) (g_core t) (fun _ _ => r0 R) [].
Definition fe (e : nat * gt) : nat * gt := (fst e, strip (snd e)).
Lemma pass_strip : forall cur rem la nx ix,
  foldM (pass_step R cur) (map fe la, map fe nx, ix) (map fe rem)
  = option_map (fun s => (map fe (fst (fst s)), map fe (snd (fst s)), snd s)) (foldM (pass_step R cur) (la, nx, ix) rem).
Proof.
  intros cur rem. induction rem as [|e rem IH]; intros la nx ix; [reflexivity|]. cbn [map foldM]. unfold pass_step at 1 3. cbn [fe snd strip g_d g_u].
  destruct (forallb (fun x => mem x cur) (g_d (snd e))).
  - destruct (foldM (fun s x => set_remove x s) ix (g_d (snd e))) as [s|]; cbn [bind]; [|reflexivity].
    rewrite <- IH, map_app. reflexivity.
  - cbn [bind]. rewrite <- IH, map_app. reflexivity.
Qed.
Lemma loop_strip : forall f cur rem, layers_loop R f cur (map fe rem) = option_map (map (map fe)) (layers_loop R f cur rem).
Proof.
  intros f. induction f as [|f IH]; intros cur rem; [reflexivity|]. cbn [layers_loop]. unfold pass. pose proof (pass_strip cur rem [] [] cur) as Ps. cbn [map] in Ps. rewrite Ps. clear Ps.
  destruct (foldM (pass_step R cur) ([], [], cur) rem) as [[[la nx] ix]|]; cbn [option_map bind fst snd]; [|reflexivity].
  destruct nx as [|e nx]; [reflexivity|]. cbn [map]. change (fe e :: map fe nx) with (map fe (e :: nx)). rewrite IH. destruct (layers_loop R f ix (e :: nx)); reflexivity.
Qed.
Lemma ups_strip : forall ts : list gt, flat_map g_u (map strip ts) = flat_map g_u ts /\ flat_map g_d (map strip ts) = flat_map g_d ts.
Proof. intros ts. rewrite !flat_map_concat_map, !map_map. split; reflexivity. Qed.
Lemma initial_strip : forall ts, initial_indices R (map strip ts) = initial_indices R ts.
Proof. intros ts. unfold initial_indices. destruct (ups_strip ts) as [-> ->]. reflexivity. Qed.
Lemma terminal_strip : forall ts, terminal_indices R (map strip ts) = terminal_indices R ts.
Proof. intros ts. unfold terminal_indices. destruct (ups_strip ts) as [-> ->]. reflexivity. Qed.
Lemma layers_strip : forall ts, get_layers R (map strip ts) = option_map (map (map fe)) (get_layers R ts).
Proof.
  intros ts. unfold get_layers, layers_upto. rewrite initial_strip, map_length, <- loop_strip. f_equal.
  generalize 0%nat. induction ts as [|t ts IH]; intros i; [reflexivity|]. cbn [length seq combine map]. rewrite IH. reflexivity.
Qed.
Lemma nums_strip : forall ts, layer_nums R (map strip ts) = layer_nums R ts.
Proof.
  intros ts. unfold layer_nums. rewrite layers_strip. destruct (get_layers R ts) as [ls|]; [|reflexivity]. cbn [option_map bind]. f_equal.
  induction ls as [|l ls IH]; [reflexivity|]. cbn [map concat]. rewrite !map_app, IH, map_map. reflexivity.
Qed.
Lemma nums_legs : forall ts ts', map strip ts = map strip ts' -> layer_nums R ts = layer_nums R ts'.
Proof. intros ts ts' E. rewrite <- nums_strip, E. apply nums_strip. Qed.
(* the numbers belong to the tensors *)
Lemma pass_in : forall cur rem la nx ix la' nx' ix', foldM (pass_step R cur) (la, nx, ix) rem = Some (la', nx', ix') ->
  forall e, (In e la' -> In e la \/ In e rem) /\ (In e nx' -> In e nx \/ In e rem).
Proof.
  intros cur rem. induction rem as [|e0 rem IH]; intros la nx ix la' nx' ix' H e; cbn [foldM] in H; [injection H as <- <- <-; tauto|].
  unfold pass_step at 1 in H. destruct (forallb _ _).
  - destruct (foldM (fun s x => set_remove x s) ix (g_d (snd e0))) as [s|]; cbn [bind] in H; [|discriminate]. destruct (IH _ _ _ _ _ _ H e) as [H1 H2]. rewrite in_app_iff in H1. cbn in *. tauto.
  - cbn [bind] in H. destruct (IH _ _ _ _ _ _ H e) as [H1 H2]. rewrite in_app_iff in H2. cbn in *. tauto.
Qed.
Lemma loop_in : forall f cur rem ls, layers_loop R f cur rem = Some ls -> forall e, In e (concat ls) -> In e rem.
Proof.
  intros f. induction f as [|f IH]; intros cur rem ls H e He; [discriminate|]. cbn [layers_loop] in H. unfold pass in H.
  destruct (foldM (pass_step R cur) ([], [], cur) rem) as [[[la nx] ix]|] eqn:E; cbn [bind] in H; [|discriminate]. pose proof (pass_in _ _ _ _ _ _ _ _ E e) as [P1 P2].
  destruct nx as [|e1 nx].
  - injection H as <-. cbn [concat] in He. rewrite app_nil_r in He. destruct (P1 He) as [[]|?]; auto.
  - destruct (layers_loop R f ix (e1 :: nx)) as [ls'|] eqn:E'; cbn [bind] in H; [|discriminate]. injection H as <-. cbn [concat] in He. apply in_app_or in He. destruct He as [He|He].
    + destruct (P1 He) as [[]|?]; auto.
    + destruct (P2 (IH _ _ _ E' e He)) as [[]|?]; auto.
Qed.
Lemma in_numbered : forall (A : Type) (l : list A) i e, In e (combine (seq i (length l)) l) -> nth_error l (fst e - i) = Some (snd e) /\ (i <= fst e < i + length l)%nat.
Proof.
  intros A l. induction l as [|x l IH]; intros i e H; [destruct H|]. cbn [length seq combine] in H. destruct H as [<-|H].
  - cbn [fst snd length]. rewrite Nat.sub_diag. split; [reflexivity|lia].
  - destruct (IH (S i) e H) as [H1 H2]. split; [|cbn [length]; lia]. replace (fst e - i)%nat with (S (fst e - S i)) by lia. exact H1.
Qed.
Lemma layers_in : forall ts ls, get_layers R ts = Some ls -> forall e, In e (concat ls) -> nth_error ts (fst e) = Some (snd e).
Proof. intros ts ls H e He. apply (loop_in _ _ _ _ H) in He. apply in_numbered in He. now rewrite Nat.sub_0_r in He. Qed.
End Layers.

(** *** the assignment loop *)
Lemma set_nth_error_same : forall (A : Type) (l : list A) i x, (i < length l)%nat -> nth_error (set_nth i x l) i = Some x.
Proof. intros A l. induction l as [|y l IH]; intros [|i] x H; cbn in *; try lia; [reflexivity|]. apply IH. lia. Qed.
Lemma set_nth_error_other : forall (A : Type) (l : list A) i j x, i <> j -> nth_error (set_nth i x l) j = nth_error l j.
Proof. intros A l. induction l as [|y l IH]; intros [|i] [|j] x H; cbn; try reflexivity; try lia. apply IH. lia. Qed.
Section AssignOk.
Variables (T V : Type) (nocc : T -> option nat) (put : T -> list V -> option T) (occ : T -> list V) (same : T -> T -> Prop).
Definition at_ (ts : list T) (k : nat) (n : nat) : Prop := exists t, nth_error ts k = Some t /\ nocc t = Some n /\
  forall vs, length vs = n -> exists t', put t vs = Some t' /\ occ t' = vs /\ same t t'.
Lemma at_set : forall ts k t' ks ns, Forall2 (at_ ts) ks ns -> ~ In k ks -> Forall2 (at_ (set_nth k t' ts)) ks ns.
Proof.
  intros ts k t' ks ns F Nk. induction F as [|k' n ks ns (t0 & E0 & H) F IH]; constructor; [|apply IH; intros H'; apply Nk; now right].
  exists t0. split; [|exact H]. rewrite set_nth_error_other; [exact E0|]. intros ->. apply Nk. now left.
Qed.
Lemma assign_ok : forall (v : nat -> V) val ks ns ts ix, NoDup ks -> Forall2 (at_ ts) ks ns ->
  (forall i, (ix <= i < ix + list_sum ns)%nat -> val i = Some (v i)) ->
  exists ts', foldM (assign_step T V nocc put val) (ix, ts) ks = Some ((ix + list_sum ns)%nat, ts') /\ length ts' = length ts /\
    (forall k, ~ In k ks -> nth_error ts' k = nth_error ts k) /\
    (forall k, In k ks -> exists t t', nth_error ts k = Some t /\ nth_error ts' k = Some t' /\ same t t') /\
    exists os, mapM (fun k => do t <- nth_error ts' k; Some (occ t)) ks = Some os /\ concat os = map v (seq ix (list_sum ns)) /\ map (@length V) os = ns.
Proof.
  intros v val ks. induction ks as [|k ks IH]; intros ns ts ix ND F Hv.
  - inversion F; subst. exists ts. cbn [foldM list_sum fold_right]. rewrite Nat.add_0_r. repeat split; auto; [intros k []|]. exists []. repeat split; reflexivity.
  - inversion F as [|? n ? ns' (t & Et & En & Hp) F']; subst. inversion ND as [|? ? Nk ND']; subst. change (list_sum (n :: ns')) with (n + list_sum ns')%nat in *. cbn [foldM]. unfold assign_step at 1. cbn [fst snd]. rewrite Et. cbn [bind]. rewrite En. cbn [bind].
    rewrite (mapM_total _ _ val v) by (intros i Hi; apply in_seq in Hi; apply Hv; lia). cbn [bind].
    destruct (Hp (map v (seq ix n)) ltac:(now rewrite map_length, seq_length)) as (t' & -> & Eo & Sm). cbn [bind].
    assert (Lk : (k < length ts)%nat) by (apply nth_error_Some; rewrite Et; discriminate).
    destruct (IH ns' (set_nth k t' ts) (ix + n)%nat ND' (at_set ts k t' ks ns' F' Nk)) as (ts' & E & L & O & S & os & M & C & Ln); [intros i Hi; apply Hv; lia|].
    exists ts'. rewrite E, Nat.add_assoc. split; [reflexivity|]. split; [rewrite L; apply set_nth_len|].
    assert (Ek : nth_error ts' k = Some t') by (rewrite (O k Nk); now apply set_nth_error_same).
    split; [|split].
    + intros k' H. rewrite (O k') by (intros H'; apply H; now right). apply set_nth_error_other. intros ->. apply H. now left.
    + intros k' [<-|H]; [exists t, t'; auto|]. destruct (S k' H) as (s & s' & H1 & H2 & H3). exists s, s'. rewrite set_nth_error_other in H1 by (intros ->; contradiction). auto.
    + exists (occ t' :: os). cbn [mapM]. rewrite Ek. cbn [bind]. rewrite M. cbn [bind concat map]. rewrite C, Eo, Ln, map_length, seq_length, seq_app, map_app. auto.
Qed.
(* a value that is missing *)
Lemma assign_none : forall val ks ns ts ix i, NoDup ks -> Forall2 (at_ ts) ks ns -> (ix <= i < ix + list_sum ns)%nat -> val i = None -> foldM (assign_step T V nocc put val) (ix, ts) ks = None.
Proof.
  intros val ks. induction ks as [|k ks IH]; intros ns ts ix i ND F Hi Hv.
  - inversion F; subst. cbn in Hi. lia.
  - inversion F as [|? n ? ns' (t & Et & En & Hp) F']; subst. inversion ND as [|? ? Nk ND']; subst. change (list_sum (n :: ns')) with (n + list_sum ns')%nat in *. cbn [foldM]. unfold assign_step at 1. cbn [fst snd]. rewrite Et. cbn [bind]. rewrite En. cbn [bind].
    destruct (mapM val (seq ix n)) as [vs|] eqn:Em; cbn [bind]; [|reflexivity]. destruct (put t vs) as [t'|]; cbn [bind]; [|reflexivity].
    apply (IH ns' _ _ i ND' (at_set ts k t' ks ns' F' Nk)); [|exact Hv].
    split; [|lia]. destruct (Nat.le_gt_cases (ix + n) i) as [|Hlt]; [assumption|]. exfalso.
    assert (Hin : In i (seq ix n)) by (apply in_seq; lia). clear - Em Hin Hv. revert vs Em Hin. generalize (seq ix n). intros l. induction l as [|x l IH]; intros vs Em Hin; [destruct Hin|]. cbn [mapM] in Em.
    destruct Hin as [->|Hin]; [now rewrite Hv in Em|]. destruct (val x); cbn [bind] in Em; [|discriminate]. destruct (mapM val l) eqn:El; cbn [bind] in Em; [|discriminate]. exact (IH _ eq_refl Hin).
Qed.
End AssignOk.

(** *** the two spins *)
Section Spins.
Variable R : CRing.
Notation gt := (gt R). Notation ut := (ut R).
Notation mat := (nat -> nat -> R).
Definition up (t : ut) : gt := GT R (u_u t) (u_d t) (u_core t) (fst (u_rot t)) (match u_occ t with Some o => fst o | None => [] end).
Definition dn (t : ut) : gt := GT R (u_u t) (u_d t) (u_core t) (snd (u_rot t)) (match u_occ t with Some o => snd o | None => [] end).
Lemma legs_up : forall us : list ut, map (u_legs R) us = map (strip R) (map up us).
Proof. intros us. rewrite map_map. reflexivity. Qed.
Lemma legs_dn : forall us : list ut, map (u_legs R) us = map (strip R) (map dn us).
Proof. intros us. rewrite map_map. reflexivity. Qed.
(* the tensors of a network in the order of the layers *)
Lemma order_of : forall ts ls, get_layers R ts = Some ls -> mapM (nth_error ts) (map fst (concat ls)) = Some (map snd (concat ls)).
Proof.
  intros ts ls H. pose proof (layers_in R ts ls H) as Hi. revert Hi. generalize (concat ls). intros l. induction l as [|e l IH]; intros Hi; [reflexivity|]. cbn [map mapM]. rewrite (Hi e) by now left. cbn [bind]. rewrite IH by (intros; apply Hi; now right). reflexivity.
Qed.
Lemma mapM_nth_map : forall (A B : Type) (f : A -> B) (l : list A) ks, mapM (nth_error (map f l)) ks = option_map (map f) (mapM (nth_error l) ks).
Proof.
  intros A B f l ks. induction ks as [|k ks IH]; [reflexivity|]. cbn [mapM]. rewrite nth_error_map, IH. destruct (nth_error l k); [|reflexivity]. cbn [option_map bind]. destruct (mapM (nth_error l) ks); reflexivity.
Qed.
Lemma nums_up : forall us, layer_nums R (map (u_legs R) us) = layer_nums R (map up us).
Proof. intros us. rewrite legs_up. apply nums_strip. Qed.
Lemma nums_dn : forall us, layer_nums R (map (u_legs R) us) = layer_nums R (map dn us).
Proof. intros us. rewrite legs_dn. apply nums_strip. Qed.

Definition pair3 (x y : option (dict Z nat * mat)) : option (dict Z nat * mat * mat) :=
  match x, y with Some (m, a), Some (_, b) => Some (m, a, b) | _, _ => None end.
Lemma back_pair : forall us ks l m a b, mapM (nth_error us) ks = Some l -> (forall t, In t l -> u_occ t <> None) ->
  foldM (u_back_step R us) (m, a, b) ks = pair3 (foldM (back_step R) (m, a) (map up l)) (foldM (back_step R) (m, b) (map dn l)).
Proof.
  intros us ks. induction ks as [|k ks IH]; intros l m a b E H; cbn [mapM] in E; [injection E as <-; reflexivity|].
  destruct (nth_error us k) as [t|] eqn:Et; cbn [bind] in E; [|discriminate]. destruct (mapM (nth_error us) ks) as [l'|]; cbn [bind] in E; [|discriminate]. injection E as <-.
  cbn [map foldM]. unfold u_back_step at 1, back_step at 1 3. rewrite Et. cbn [bind up dn g_u g_d g_core g_occ g_rot].
  destruct (mapM (dget Z.eqb m) (u_u t)) as [eff|]; cbn [bind]; [|reflexivity].
  destruct (mapM (dget Z.eqb m) (firstn (u_core t) (u_u t))) as [dmc|]; cbn [bind]; [|reflexivity].
  destruct (u_occ t) as [[oa ob]|] eqn:Eo; [|elim (H t (or_introl eq_refl) Eo)]. cbn [bind fst snd].
  destruct (Nat.eqb (length oa) (length dmc)); cbn [negb bind]; [|reflexivity].
  destruct (Nat.eqb (length ob) (length dmc)); cbn [negb bind].
  - apply IH; [reflexivity|]. intros; apply H; now right.
  - unfold pair3. destruct (foldM (back_step R) _ (map up l')) as [[? ?]|]; reflexivity.
Qed.
Lemma back_same : forall l m a b m1 a1 m2 b1, foldM (back_step R) (m, a) (map up l) = Some (m1, a1) -> foldM (back_step R) (m, b) (map dn l) = Some (m2, b1) -> m1 = m2.
Proof.
  induction l as [|t l IH]; intros m a b m1 a1 m2 b1; cbn [map foldM]; [congruence|]. unfold back_step at 1 3. cbn [up dn g_u g_d g_core g_occ g_rot].
  destruct (mapM (dget Z.eqb m) (u_u t)) as [eff|]; cbn [bind]; [|discriminate]. destruct (mapM (dget Z.eqb m) (firstn (u_core t) (u_u t))) as [dmc|]; cbn [bind]; [|discriminate].
  destruct (negb _); cbn [bind]; [discriminate|]. destruct (negb _); cbn [bind]; [discriminate|]. apply IH.
Qed.
Lemma mapM_rev : forall (A B : Type) (f : A -> option B) l r, mapM f l = Some r -> mapM f (rev l) = Some (rev r).
Proof.
  intros A B f l. induction l as [|x l IH]; intros r E; cbn [mapM] in E; [injection E as <-; reflexivity|]. destruct (f x) as [y|] eqn:Ex; cbn [bind] in E; [|discriminate]. destruct (mapM f l) as [ys|]; cbn [bind] in E; [|discriminate]. injection E as <-.
  cbn [rev]. rewrite mapM_app, (IH ys eq_refl). cbn [mapM bind]. rewrite Ex. reflexivity.
Qed.

Variable eigh : nat -> mat -> list R * mat.
Variable order : list R -> list nat.
Variable neg : nat -> mat -> bool.
Variable rnd : R -> R.
Notation fstep := (fit_step R eigh order neg rnd true).
Lemma set_nth_map : forall (A B : Type) (f : A -> B) l i x, map f (set_nth i x l) = set_nth i (f x) (map f l).
Proof. intros A B f l. induction l as [|y l IH]; intros [|i] x; cbn; [reflexivity..|]. now rewrite IH. Qed.
(* l: numbers and tensors as they were at the beginning; the legs in us are the same *)
Lemma fit_pair : forall l m a b us, (forall e, In e l -> exists t, nth_error us (fst e) = Some t /\ u_legs R t = u_legs R (snd e)) ->
  let pr (f : ut -> gt) := map (fun e => (fst e, f (snd e))) l in
  match foldM fstep (m, a, map up us) (pr up), foldM fstep (m, b, map dn us) (pr dn) with
  | Some (m1, a1, ta), Some (m2, b1, tb) => m1 = m2 /\ exists us', foldM (u_fit_step R eigh order neg rnd) (m, a, b, us) (map fst l) = Some (m1, a1, b1, us') /\ map up us' = ta /\ map dn us' = tb /\
      (forall k t, nth_error us' k = Some t -> u_occ t <> None \/ ~ In k (map fst l) /\ nth_error us k = Some t)
  | _, _ => foldM (u_fit_step R eigh order neg rnd) (m, a, b, us) (map fst l) = None
  end.
Proof.
  intros l. induction l as [|[k t0] l IH]; intros m a b us H pr; unfold pr; clear pr; cbn [map fst snd foldM].
  - split; [reflexivity|]. exists us. repeat split; auto.
  - destruct (H (k, t0) (or_introl eq_refl)) as (t & Et & El). cbn [fst snd] in Et, El. unfold u_legs in El. injection El as E1 E2 E3.
    assert (SU := eq_refl (u_fit_step R eigh order neg rnd (m, a, b, us) k)). unfold u_fit_step at 2 in SU. rewrite Et in SU. cbn [bind] in SU. rewrite E1, E2, E3 in SU.
    assert (SA := eq_refl (fstep (m, a, map up us) (k, up t0))). unfold fit_step at 2 in SA. cbn [orb fst snd up g_u g_d g_core] in SA.
    assert (SB := eq_refl (fstep (m, b, map dn us) (k, dn t0))). unfold fit_step at 2 in SB. cbn [orb fst snd dn g_u g_d g_core] in SB.
    destruct (mapM (dget Z.eqb m) (u_d t0)) as [eff|]; cbn [bind] in SU, SA, SB; [|rewrite SU, SA; reflexivity].
    destruct (local_eig R eigh order neg (length eff) (fun i j => a (nth i eff 0%nat) (nth j eff 0%nat))) as [xa ua].
    destruct (local_eig R eigh order neg (length eff) (fun i j => b (nth i eff 0%nat) (nth j eff 0%nat))) as [xb ub].
    rewrite SU, SA, SB. clear SU SA SB. cbn [bind].
    set (t' := UT R (u_u t0) (u_d t0) (u_core t0) (ua, ub) (Some (map rnd (firstn (u_core t0) xa), map rnd (firstn (u_core t0) xb)))).
    assert (Lk : (k < length us)%nat) by (apply nth_error_Some; rewrite Et; discriminate).
    specialize (IH (retag (u_d t0) (u_u t0) m) (rot_cols R eff (transp R ua) (rot_rows R eff (transp R ua) a)) (rot_cols R eff (transp R ub) (rot_rows R eff (transp R ub) b)) (set_nth k t' us)).
    rewrite !set_nth_map in IH. change (up t') with (GT R (u_u t0) (u_d t0) (u_core t0) ua (map rnd (firstn (u_core t0) xa))) in IH. change (dn t') with (GT R (u_u t0) (u_d t0) (u_core t0) ub (map rnd (firstn (u_core t0) xb))) in IH. cbv zeta in IH.
    match type of IH with ?P -> _ => assert (HP : P) end.
    { intros e He. destruct (H e (or_intror He)) as (s & Es & Ls). destruct (Nat.eq_dec k (fst e)) as [Ek|Nk].
      - exists t'. rewrite <- Ek, set_nth_error_same by exact Lk. split; [reflexivity|]. rewrite <- Ls. rewrite <- Ek, Et in Es. injection Es as <-. unfold u_legs, t'. cbn. now rewrite E1, E2, E3.
      - exists s. rewrite set_nth_error_other by exact Nk. auto. }
    specialize (IH HP).
    destruct (foldM fstep _ (map (fun e => (fst e, up (snd e))) l)) as [[[m1 a1] ta]|]; [|exact IH].
    destruct (foldM fstep _ (map (fun e => (fst e, dn (snd e))) l)) as [[[m2 b1] tb]|]; [|exact IH].
    destruct IH as (Em & us' & Ef & Eu & Ed & Oc). split; [exact Em|]. exists us'. repeat split; auto.
    intros k' s Hs. destruct (Oc k' s Hs) as [|[Nk Hk]]; [now left|]. destruct (Nat.eq_dec k k') as [<-|Nkk].
    + rewrite set_nth_error_same in Hk by exact Lk. injection Hk as <-. left. discriminate.
    + rewrite set_nth_error_other in Hk by exact Nkk. right. cbn. tauto.
Qed.
End Spins.
