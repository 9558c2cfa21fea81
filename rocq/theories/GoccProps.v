(** C77: occupations of Gaussian networks (get_occupations, set_occupations, set_occ_half_filling) and the particle number.
    C78: a UHF network is two networks, one for each spin (fit_rdm1, make_rdm1). *)
From Coq Require Import ZArith Bool List Lia Permutation Ring QArith Qcanon.
From Verif Require Import CanonProofs DictLib IndexLib RingLib OptLib GaussModel GaussProofs GaussProps GfitModel GfitProofs GfitProps GoccModel GoccProofs.
Import ListNotations.
Open Scope Z_scope.

Section Spec.
Variable R : CRing.
Add Ring Rr : (rth R).
Notation "a +' b" := (radd R a b) (at level 50, left associativity).
Notation "a -' b" := (radd R a (ropp R b)) (at level 50, left associativity).
Notation "a *' b" := (rmul R a b) (at level 40, left associativity).
Notation mat := (nat -> nat -> R).
Notation gt := (gt R). Notation ut := (ut R).
Definition trace (n : nat) (d : mat) : R := bsum (seq 0 n) (fun a => d a a).
Definition total (l : list R) : R := bsum l (fun x => x).
Definition cores (ts : list gt) : nat := list_sum (map g_core ts).
Definition u_cores (us : list ut) : nat := list_sum (map u_core us).
(* the same but for the occupations *)
Definition same_but_occ (t t' : gt) : Prop := g_u t' = g_u t /\ g_d t' = g_d t /\ g_core t' = g_core t /\ g_rot t' = g_rot t.
Definition u_same_but_occ (t t' : ut) : Prop := u_u t' = u_u t /\ u_d t' = u_d t /\ u_core t' = u_core t /\ u_rot t' = u_rot t.

Lemma nums_perm : forall ts : list gt, wired R ts -> exists ks, layer_nums R ts = Some ks /\ Permutation ks (seq 0 (length ts)).
Proof.
  intros ts W. destruct (c72_layers R ts W) as (ls & E & P & _). exists (map fst (concat ls)). unfold layer_nums. rewrite E. split; [reflexivity|].
  apply (Permutation_map fst) in P. rewrite P. rewrite <- (seq_length (length ts) 0) at 1. generalize 0%nat. clear. induction ts as [|t ts IH]; intros i; cbn [length seq combine map]; [reflexivity|]. rewrite seq_length in *. constructor. specialize (IH (S i)). now rewrite seq_length in IH.
Qed.
Lemma sum_perm : forall l l', Permutation l l' -> list_sum l = list_sum l'.
Proof. intros l l' P. unfold list_sum. induction P; cbn [fold_right] in *; lia. Qed.
Lemma assign_net : forall (T V : Type) (nocc : T -> option nat) put (size : T -> nat) (occ : T -> list V) (same : T -> T -> Prop) (v : nat -> V) val ks (ts : list T),
  Permutation ks (seq 0 (length ts)) ->
  (forall t, In t ts -> nocc t = Some (size t) /\ forall vs, length vs = size t -> exists t', put t vs = Some t' /\ occ t' = vs /\ same t t') ->
  ((forall i, (i < list_sum (map size ts))%nat -> val i = Some (v i)) ->
   exists ts', assign T V nocc put val ks ts = Some (list_sum (map size ts), ts') /\ Forall2 same ts ts' /\
     exists os, mapM (fun k => do t <- nth_error ts' k; Some (occ t)) ks = Some os /\ concat os = map v (seq 0 (list_sum (map size ts)))) /\
  (forall i, (i < list_sum (map size ts))%nat -> val i = None -> assign T V nocc put val ks ts = None).
Proof.
  intros T V nocc put size occ same v val ks ts P G.
  assert (ND : NoDup ks) by (apply (Permutation_NoDup (Permutation_sym P)), seq_NoDup).
  set (ns := map (fun k => match nth_error ts k with Some t => size t | None => 0%nat end) ks).
  assert (F : Forall2 (at_ T V nocc put occ same ts) ks ns).
  { assert (Hk : forall k, In k ks -> (k < length ts)%nat) by (intros k H; apply (Permutation_in _ P) in H; apply in_seq in H; lia). subst ns. clear ND P. induction ks as [|k ks IH]; cbn [map]; constructor; [|apply IH; intros; apply Hk; now right].
    destruct (nth_error ts k) as [t|] eqn:E; [|apply nth_error_None in E; specialize (Hk k (or_introl eq_refl)); lia]. exists t. destruct (G t (nth_error_In _ _ E)) as [G1 G2]. auto. }
  assert (En : list_sum ns = list_sum (map size ts)).
  { unfold ns. rewrite (sum_perm _ _ (Permutation_map _ P)). f_equal. clear. assert (H : forall l i, map (fun k => match nth_error (l : list T) (k - i) with Some t => size t | None => 0%nat end) (seq i (length l)) = map size l).
    { induction l as [|t l IH]; intros i; [reflexivity|]. cbn [length seq map]. rewrite Nat.sub_diag. cbn [nth_error]. f_equal. rewrite <- (IH (S i)). apply map_ext_in. intros k Hk. apply in_seq in Hk. replace (k - i)%nat with (S (k - S i)) by lia. reflexivity. }
    rewrite <- (H ts 0%nat). apply map_ext. intros k. now rewrite Nat.sub_0_r. }
  unfold assign. split.
  - intros Hv. destruct (assign_ok T V nocc put occ same v val ks ns ts 0%nat ND F) as (ts' & E & L & _ & S & os & M & C & _); [rewrite En; intros i Hi; apply Hv; lia|]. exists ts'. rewrite E, Nat.add_0_l, En. split; [reflexivity|]. split; [|exists os; rewrite C, En; auto].
    assert (S' : forall k, (k < length ts)%nat -> exists t t', nth_error ts k = Some t /\ nth_error ts' k = Some t' /\ same t t') by (intros k Hk; apply S, (Permutation_in _ (Permutation_sym P)), in_seq; lia).
    clear - L S'. revert ts' L S'. induction ts as [|t ts IH]; intros [|t' ts'] L S'; try discriminate; constructor.
    + destruct (S' 0%nat ltac:(cbn; lia)) as (s & s' & H1 & H2 & H3). cbn in H1, H2. congruence.
    + apply IH; [now injection L|]. intros k Hk. exact (S' (S k) ltac:(cbn; lia)).
  - intros i Hi Hv. apply (assign_none T V nocc put occ same val ks ns ts 0%nat i ND F); [lia|exact Hv].
Qed.

(** ** C77 *)
Lemma occ_core : forall ts : list gt, shaped R ts -> total (flat_map g_occ ts) = core_sum R ts (fun _ o => o).
Proof.
  intros ts Sh. unfold total, core_sum. rewrite bsum_flat_map. apply bsum_ext. intros t Ht. destruct (Sh t Ht) as (_ & <- & _). generalize (g_occ t). intros l. induction l as [|x l IH]; [reflexivity|]. cbn [length seq]. rewrite !bsum_cons, IH. f_equal. rewrite <- seq_shift. now rewrite bsum_map.
Qed.
(* occupations layer by layer; their sum is the particle number *)
Theorem c77_get : forall ts, wired R ts -> exists os, get_occupations R ts = Some os /\ Permutation os (flat_map g_occ ts) /\
  (shaped R ts -> (forall t, In t ts -> orthogonal R t) -> exists dm, make_rdm1 R ts = Some (length (initial_indices R ts), dm) /\ trace (length (initial_indices R ts)) dm = total os).
Proof.
  intros ts W. destruct (c72_layers R ts W) as (ls & E & P & _). exists (flat_map g_occ (map snd (concat ls))).
  assert (P' : Permutation (flat_map g_occ (map snd (concat ls))) (flat_map g_occ ts)).
  { rewrite !flat_map_concat_map. apply (Permutation_map snd) in P. rewrite <- !flat_map_concat_map. apply Permutation_flat_map. rewrite P. clear. generalize 0%nat. induction ts as [|t ts IH]; intros i; [reflexivity|]. cbn [length seq combine map snd]. now constructor. }
  split; [|split; [exact P'|]].
  - unfold get_occupations, layer_nums. rewrite E. cbn [bind].
    rewrite (mapM_total _ _ _ (fun k => match nth_error ts k with Some t => g_occ t | None => [] end)).
    + cbn [bind]. f_equal. rewrite flat_map_concat_map. f_equal. rewrite !map_map. apply map_ext_in. intros e He. now rewrite (layers_in R ts ls E e He).
    + intros k Hk. apply in_map_iff in Hk. destruct Hk as (e & <- & He). now rewrite (layers_in R ts ls E e He).
  - intros Sh Or. destruct (c72_rdm1 R ts W Sh) as (dm & Em & phi & _ & D). exists dm. split; [exact Em|]. destruct (D _ eq_refl) as (_ & H). destruct (H Or) as (_ & _ & _ & Tr & _). unfold trace. rewrite Tr, <- occ_core by exact Sh. unfold total. apply bsum_perm, Permutation_sym, P'.
Qed.

Lemma strip_same : forall ts ts', Forall2 same_but_occ ts ts' -> map (strip R) ts' = map (strip R) ts.
Proof. intros ts ts' F. induction F as [|t t' ts ts' (E1 & E2 & E3 & E4) F IH]; [reflexivity|]. cbn [map]. rewrite IH. f_equal. unfold strip. now rewrite E1, E2, E3. Qed.
Lemma wired_strip : forall ts ts' : list gt, map (strip R) ts' = map (strip R) ts -> wired R ts -> wired R ts'.
Proof.
  intros ts ts' E. apply wired_legs. assert (H : forall l, map (legs_of R) (map (strip R) l) = map (legs_of R) l) by (intros l; rewrite map_map; reflexivity). rewrite <- (H ts), <- E, H. reflexivity.
Qed.
Definition times (k : nat) (x : R) : R := bsum (seq 0 k) (fun _ => x).
Lemma total_app : forall a b, total (a ++ b) = total a +' total b.
Proof. intros. unfold total. apply bsum_app. Qed.
Lemma times_S : forall k x, times (S k) x = times k x +' x.
Proof. intros. unfold times. rewrite seq_S, bsum_app, bsum_cons. change (bsum (R := R) (@nil nat) (fun _ => x)) with (r0 R). ring. Qed.
Lemma total_alt : forall (x y : R) n, total (map (fun i => if Nat.odd i then x else y) (seq 0 n)) = times (n / 2) x +' times (S n / 2) y.
Proof.
  intros x y n. induction n as [|n IH]; [unfold total, times; cbn; ring|]. rewrite seq_S, map_app, total_app, IH. cbn [map plus]. replace (total [if Nat.odd n then x else y]) with (if Nat.odd n then x else y) by (unfold total, bsum; cbn; ring).
  destruct (Nat.odd n) eqn:Od.
  - apply Nat.odd_spec in Od. destruct Od as [h ->].
    rewrite <- (Nat.div_unique (2 * h + 1) 2 h 1), <- (Nat.div_unique (S (2 * h + 1)) 2 (S h) 0), <- (Nat.div_unique (S (S (2 * h + 1))) 2 (S h) 1) by lia. rewrite !times_S. ring.
  - assert (Ev : Nat.Even n) by (apply Nat.even_spec; rewrite <- Nat.negb_odd, Od; reflexivity). destruct Ev as [h ->].
    rewrite <- (Nat.div_unique (2 * h) 2 h 0), <- (Nat.div_unique (S (2 * h)) 2 h 1), <- (Nat.div_unique (S (S (2 * h))) 2 (S h) 0) by lia. rewrite !times_S. ring.
Qed.
Lemma times_0 : forall k, times k (r0 R) = r0 R.
Proof. intros k. apply bsum_zero. reflexivity. Qed.

(* half filling: every second core leg, layer by layer, starting with an empty one *)
Theorem c77_half : forall high ts, wired R ts -> shaped R ts -> exists ts', set_half_filling R high ts = Some ts' /\ Forall2 same_but_occ ts ts' /\ wired R ts' /\ shaped R ts' /\
  get_occupations R ts' = Some (map (fun i => if Nat.odd i then high else r0 R) (seq 0 (cores ts))) /\
  ((forall t, In t ts -> orthogonal R t) -> exists dm, make_rdm1 R ts' = Some (length (initial_indices R ts), dm) /\ trace (length (initial_indices R ts)) dm = times (cores ts / 2) high).
Proof.
  intros high ts W Sh. destruct (nums_perm ts W) as (ks & Ek & P).
  destruct (assign_net gt R (fun t => Some (length (g_occ t))) (put_occ R) g_core g_occ (fun t t' => same_but_occ t t' /\ length (g_occ t') = g_core t) (fun i => if Nat.odd i then high else r0 R) (fun i => Some (if Nat.odd i then high else r0 R)) ks ts P) as [H _].
  { intros t Ht. destruct (Sh t Ht) as (_ & -> & _). split; [reflexivity|]. intros vs Lv. eexists. split; [reflexivity|]. split; [reflexivity|]. cbn. split; [repeat split|exact Lv]. }
  destruct (H (fun i _ => eq_refl)) as (ts' & E & F & os & M & C). clear H. exists ts'. unfold set_half_filling. rewrite Ek. cbn [bind]. rewrite E. cbn [bind].
  assert (F' : Forall2 same_but_occ ts ts') by (clear - F; induction F as [|? ? ? ? [H _] F IH]; constructor; auto).
  pose proof (strip_same ts ts' F') as Es. pose proof (wired_strip ts ts' Es W) as W'.
  assert (Ei : initial_indices R ts' = initial_indices R ts) by (rewrite <- (initial_strip R ts'), Es; apply initial_strip).
  assert (Sh' : shaped R ts').
  { assert (Ed : downs R ts' = downs R ts) by (unfold downs; rewrite <- (proj2 (ups_strip R ts')), Es; apply ups_strip).
    intros t' Ht'. rewrite Ed. clear - F Sh Ht'.
    assert (Hx : exists t, In t ts /\ same_but_occ t t' /\ length (g_occ t') = g_core t).
    { clear Sh. induction F as [|t t0 ts ts' H F IH]; [destruct Ht'|]. destruct Ht' as [->|Ht']; [exists t; split; [now left|exact H]|]. destruct (IH Ht') as (s & ? & ?). exists s. split; [now right|assumption]. }
    destruct Hx as (t & Ht & (E1 & E2 & E3 & E4) & Lo). destruct (Sh t Ht) as (S1 & _ & S3 & S4). rewrite E1, E2, E3. repeat split; assumption. }
  assert (Eg : get_occupations R ts' = Some (map (fun i => if Nat.odd i then high else r0 R) (seq 0 (cores ts)))).
  { unfold get_occupations. rewrite (nums_legs R ts' ts Es), Ek. cbn [bind]. rewrite M. cbn [bind]. now rewrite C. }
  repeat (split; [assumption || reflexivity|]). intros Or. destruct (c77_get ts' W') as (os' & Eo & _ & Ht). rewrite Eg in Eo. injection Eo as <-.
  destruct (Ht Sh') as (dm & Em & Tr).
  { intros t' Ht'. assert (Hx : exists t, In t ts /\ same_but_occ t t') by (clear - F' Ht'; induction F' as [|t t0 ts ts' H F IH]; [destruct Ht'|]; destruct Ht' as [->|Ht']; [exists t; split; [now left|exact H]|]; destruct (IH Ht') as (s & ? & ?); exists s; split; [now right|assumption]).
    destruct Hx as (t & Hin & (E1 & E2 & E3 & E4)). specialize (Or t Hin). unfold orthogonal in *. rewrite E1, E4. exact Or. }
  exists dm. rewrite <- Ei. split; [exact Em|]. rewrite Tr, total_alt, times_0. ring.
Qed.

(** UHF: tensors without occupations, or with n_core of them for each spin *)
Definition u_filled (us : list ut) : Prop := forall t, In t us -> match u_occ t with Some (a, b) => length a = u_core t /\ length b = u_core t | None => True end.
Definition u_wired (us : list ut) : Prop := wired R (map (up R) us).
Lemma u_wired_legs : forall us, u_wired us -> wired R (map (u_legs R) us).
Proof. intros us W. apply (wired_strip (map (up R) us)); [|exact W]. rewrite legs_up, !map_map. reflexivity. Qed.
Lemma u_same_legs : forall us us', Forall2 u_same_but_occ us us' -> map (u_legs R) us' = map (u_legs R) us.
Proof. intros us us' F. induction F as [|t t' ts ts' (E1 & E2 & E3 & E4) F IH]; [reflexivity|]. cbn [map]. rewrite IH. f_equal. unfold u_legs. now rewrite E1, E2, E3. Qed.
Definition u_full (us : list ut) : Prop := forall t, In t us -> exists a b, u_occ t = Some (a, b) /\ length a = u_core t /\ length b = u_core t.
Definition zipped (t : ut) : list (R * R) := match u_occ t with Some (a, b) => combine a b | None => [] end.
Lemma map_combine : forall (A B : Type) (a : list A) (b : list B), length a = length b -> map fst (combine a b) = a /\ map snd (combine a b) = b.
Proof. intros A B a. induction a as [|x a IH]; intros [|y b] L; try discriminate; [split; reflexivity|]. cbn. destruct (IH b ltac:(now injection L)) as [-> ->]. split; reflexivity. Qed.
Lemma combine_map : forall (A B : Type) (l : list (A * B)), combine (map fst l) (map snd l) = l.
Proof. intros A B l. induction l as [|[x y] l IH]; cbn; [reflexivity|]. now rewrite IH. Qed.
Definition kept (t t' : ut) : Prop := u_same_but_occ t t' /\ exists a b, u_occ t' = Some (a, b) /\ length a = u_core t /\ length b = u_core t.
Lemma u_put_ok : forall us, u_filled us -> forall t, In t us -> forall vs, length vs = u_core t -> exists t', u_put R t vs = Some t' /\ zipped t' = vs /\ kept t t'.
Proof.
  intros us Fi t Ht vs Lv. specialize (Fi t Ht). unfold u_put. destruct (u_occ t) as [[oa ob]|].
  - destruct Fi as [La Lb]. destruct (Nat.ltb_spec (length ob) (length oa)); [lia|]. eexists. split; [reflexivity|]. rewrite skipn_all2, app_nil_r by lia. unfold zipped. cbn [u_occ]. rewrite combine_map. split; [reflexivity|]. split; [repeat split|]. eexists _, _. split; [reflexivity|]. now rewrite !map_length.
  - eexists. split; [reflexivity|]. unfold zipped. cbn [u_occ]. rewrite combine_map. split; [reflexivity|]. split; [repeat split|]. eexists _, _. split; [reflexivity|]. now rewrite !map_length.
Qed.
Lemma kept_all : forall us us', Forall2 kept us us' -> Forall2 u_same_but_occ us us' /\ u_full us'.
Proof.
  intros us us' F. split.
  - induction F as [|? ? ? ? [H _] F IH]; constructor; auto.
  - intros t' Ht'. induction F as [|t t0 us us' [(_ & _ & E & _) (a & b & H & La & Lb)] F IH]; [destruct Ht'|]. destruct Ht' as [->|Ht']; [exists a, b; rewrite E; auto|now apply IH].
Qed.
Lemma zip_get : forall us ks zs, u_full us -> mapM (fun k => do t <- nth_error us k; Some (zipped t)) ks = Some zs ->
  exists os, mapM (fun k => do t <- nth_error us k; u_occ t) ks = Some os /\ concat (map fst os) = map fst (concat zs) /\ concat (map snd os) = map snd (concat zs).
Proof.
  intros us ks zs Fu. revert zs. induction ks as [|k ks IH]; intros zs M; cbn [mapM] in *; [injection M as <-; exists []; auto|].
  destruct (nth_error us k) as [t|] eqn:Et; cbn [bind] in *; [|discriminate]. destruct (mapM (fun k => do t <- nth_error us k; Some (zipped t)) ks) as [zs'|]; cbn [bind] in *; [|discriminate]. injection M as <-.
  destruct (IH zs' eq_refl) as (os & Eo & E1 & E2). destruct (Fu t (nth_error_In _ _ Et)) as (a & b & Ho & La & Lb). rewrite Ho. cbn [bind]. rewrite Eo. cbn [bind]. exists ((a, b) :: os). split; [reflexivity|]. cbn [map concat fst snd].
  rewrite !map_app, E1, E2. unfold zipped. rewrite Ho. destruct (map_combine _ _ a b ltac:(congruence)) as [-> ->]. auto.
Qed.
Theorem c77_uhf_set : forall us oa ob, u_wired us -> u_filled us ->
  (length oa = u_cores us /\ length ob = u_cores us ->
   exists us', u_set_occupations R us oa ob = Some us' /\ Forall2 u_same_but_occ us us' /\ u_full us' /\ u_get_occupations R us' = Some (oa, ob)) /\
  (~ (length oa = u_cores us /\ length ob = u_cores us) -> u_set_occupations R us oa ob = None).
Proof.
  intros us oa ob W Fi. destruct (nums_perm _ (u_wired_legs us W)) as (ks & Ek & P). rewrite map_length in P.
  set (val := fun ix => do a <- nth_error oa ix; do b <- nth_error ob ix; Some (a, b)).
  destruct (assign_net ut (R * R) (fun t => Some (match u_occ t with Some o => length (fst o) | None => u_core t end)) (u_put R) u_core zipped kept (fun i => (nth i oa (r0 R), nth i ob (r0 R))) val ks us P) as [H1 H2].
  { intros t Ht. split; [|now apply (u_put_ok us)]. specialize (Fi t Ht). destruct (u_occ t) as [[a b]|]; [|reflexivity]. cbn [fst]. now rewrite (proj1 Fi). }
  unfold u_set_occupations. rewrite Ek. cbn [bind]. fold val. change (list_sum (map u_core us)) with (u_cores us) in *.
  assert (Hv : (u_cores us <= length oa)%nat -> (u_cores us <= length ob)%nat -> forall i, (i < u_cores us)%nat -> val i = Some (nth i oa (r0 R), nth i ob (r0 R))).
  { intros La Lb i Hi. unfold val. rewrite (nth_error_nth' oa (r0 R)), (nth_error_nth' ob (r0 R)) by lia. reflexivity. }
  split.
  - intros [La Lb]. destruct (H1 (Hv ltac:(lia) ltac:(lia))) as (us' & E & F & zs & M & C). rewrite E. cbn [bind]. rewrite La, Lb, Nat.eqb_refl. cbn [andb]. exists us'. split; [reflexivity|].
    destruct (kept_all us us' F) as [F' Fu]. split; [exact F'|]. split; [exact Fu|]. unfold u_get_occupations. rewrite (u_same_legs us us' F'), Ek. cbn [bind].
    destruct (zip_get us' ks zs Fu M) as (os & Eo & E1 & E2). rewrite Eo. cbn [bind]. rewrite E1, E2, C, !map_map. cbn [fst snd].
    assert (Hn : forall l : list R, map (fun i => nth i l (r0 R)) (seq 0 (length l)) = l).
    { clear. intros l. induction l as [|x l IH]; [reflexivity|]. cbn [length seq map nth]. f_equal. rewrite <- seq_shift, map_map. exact IH. }
    rewrite <- La at 1. rewrite <- Lb. now rewrite !Hn.
  - intros N. destruct (Nat.le_gt_cases (u_cores us) (length oa)) as [La|La]; [destruct (Nat.le_gt_cases (u_cores us) (length ob)) as [Lb|Lb]|].
    + destruct (H1 (Hv La Lb)) as (us' & -> & _). cbn [bind]. destruct (Nat.eqb_spec (u_cores us) (length oa)), (Nat.eqb_spec (u_cores us) (length ob)); cbn [andb]; try reflexivity. exfalso. apply N. split; congruence.
    + rewrite (H2 (length ob) Lb); [reflexivity|]. unfold val. destruct (nth_error oa (length ob)); cbn [bind]; [|reflexivity]. replace (nth_error ob (length ob)) with (@None R) by (symmetry; apply nth_error_None; lia). reflexivity.
    + rewrite (H2 (length oa) La); [reflexivity|]. unfold val. replace (nth_error oa (length oa)) with (@None R) by (symmetry; apply nth_error_None; lia). reflexivity.
Qed.
(* half filling: the core legs are occupied by spin up and spin down in turn *)
Theorem c77_uhf_half : forall us, u_wired us -> u_full us -> exists us', u_set_half_filling R us = Some us' /\ Forall2 u_same_but_occ us us' /\ u_full us' /\
  u_get_occupations R us' = Some (map (fun i => if Nat.even i then r1 R else r0 R) (seq 0 (u_cores us)), map (fun i => if Nat.even i then r0 R else r1 R) (seq 0 (u_cores us))).
Proof.
  intros us W Fu. destruct (nums_perm _ (u_wired_legs us W)) as (ks & Ek & P). rewrite map_length in P.
  assert (Fi : u_filled us) by (intros t Ht; destruct (Fu t Ht) as (a & b & -> & H); exact H).
  destruct (assign_net ut (R * R) (fun t => option_map (fun o => length (fst o)) (u_occ t)) (u_put R) u_core zipped kept (fun ix => if Nat.even ix then (r1 R, r0 R) else (r0 R, r1 R)) (fun ix => Some (if Nat.even ix then (r1 R, r0 R) else (r0 R, r1 R))) ks us P) as [H1 _].
  { intros t Ht. split; [|now apply (u_put_ok us)]. destruct (Fu t Ht) as (a & b & -> & La & _). cbn [option_map fst]. now rewrite La. }
  destruct (H1 (fun i _ => eq_refl)) as (us' & E & F & zs & M & C). unfold u_set_half_filling. rewrite Ek. cbn [bind]. rewrite E. cbn [bind]. exists us'. split; [reflexivity|].
  destruct (kept_all us us' F) as [F' Fu']. split; [exact F'|]. split; [exact Fu'|]. unfold u_get_occupations. rewrite (u_same_legs us us' F'), Ek. cbn [bind].
  destruct (zip_get us' ks zs Fu' M) as (os & Eo & E1 & E2). rewrite Eo. cbn [bind]. rewrite E1, E2, C, !map_map. fold (u_cores us). f_equal. f_equal; apply map_ext; intros i; destruct (Nat.even i); reflexivity.
Qed.

(** ** C78 *)
Theorem c78_rdm1 : forall us, (forall t, In t us -> u_occ t <> None) ->
  u_make_rdm1 R us = match make_rdm1 R (map (up R) us), make_rdm1 R (map (dn R) us) with Some (n, a), Some (_, b) => Some (n, a, b) | _, _ => None end.
Proof.
  intros us Ho. unfold u_make_rdm1, make_rdm1. rewrite nums_up. unfold layer_nums. destruct (get_layers R (map (up R) us)) as [ls|] eqn:E; cbn [bind]; [|reflexivity].
  pose proof (nums_dn R us) as Nd. rewrite nums_up in Nd. unfold layer_nums in Nd. rewrite E in Nd. cbn [bind] in Nd. destruct (get_layers R (map (dn R) us)) as [ls'|] eqn:E'; cbn [bind] in Nd; [|discriminate]. injection Nd as Nd. cbn [bind].
  pose proof (order_of R _ _ E) as O. rewrite mapM_nth_map in O. pose proof (order_of R _ _ E') as O'. rewrite mapM_nth_map, <- Nd in O'.
  destruct (mapM (nth_error us) (map fst (concat ls))) as [l|] eqn:El; cbn [option_map] in O, O'; [|discriminate]. injection O as O. injection O' as O'. rewrite <- O, <- O'.
  assert (Hl : forall t, In t (rev l) -> u_occ t <> None).
  { intros t Ht. apply Ho. apply in_rev in Ht. clear - El Ht. revert l El Ht. generalize (map fst (concat ls)). intros ks. induction ks as [|k ks IH]; intros l El Ht; cbn [mapM] in El; [injection El as <-; destruct Ht|]. destruct (nth_error us k) as [s|] eqn:Es; cbn [bind] in El; [|discriminate]. destruct (mapM (nth_error us) ks); cbn [bind] in El; [|discriminate]. injection El as <-. destruct Ht as [<-|Ht]; [exact (nth_error_In _ _ Es)|exact (IH _ eq_refl Ht)]. }
  rewrite (back_pair R us (rev (map fst (concat ls))) (rev l)) by (auto; now apply mapM_rev). rewrite !map_rev.
  assert (E1 : terminal_indices R (map (u_legs R) us) = terminal_indices R (map (up R) us) /\ initial_indices R (map (u_legs R) us) = initial_indices R (map (up R) us)) by (rewrite legs_up, terminal_strip, initial_strip; auto).
  assert (E2 : terminal_indices R (map (dn R) us) = terminal_indices R (map (up R) us) /\ initial_indices R (map (dn R) us) = initial_indices R (map (up R) us)) by (rewrite <- (terminal_strip R (map (dn R) us)), <- (initial_strip R (map (dn R) us)), <- legs_dn; exact E1).
  rewrite (proj1 E1), (proj2 E1), (proj1 E2), (proj2 E2). unfold pair3. destruct (foldM (back_step R) _ (rev (map (up R) l))) as [[m1 a1]|] eqn:Fa; cbn [bind]; [|reflexivity].
  destruct (foldM (back_step R) _ (rev (map (dn R) l))) as [[m2 b1]|] eqn:Fb; cbn [bind]; [|destruct (mapM (dget Z.eqb m1) (initial_indices R (map (up R) us))); reflexivity]. rewrite <- !map_rev in *.
  rewrite (back_same R _ _ _ _ _ _ _ _ Fa Fb). destruct (mapM (dget Z.eqb m2) (initial_indices R (map (up R) us))); reflexivity.
Qed.

Theorem c78_fit : forall eigh order neg rnd us Da Db,
  match fit_rdm1 R eigh order neg rnd true (map (up R) us) Da, fit_rdm1 R eigh order neg rnd true (map (dn R) us) Db with
  | Some ta, Some tb => exists us', u_fit_rdm1 R eigh order neg rnd us Da Db = Some us' /\ map (up R) us' = ta /\ map (dn R) us' = tb /\ (u_wired us -> forall t, In t us' -> u_occ t <> None)
  | _, _ => u_fit_rdm1 R eigh order neg rnd us Da Db = None
  end.
Proof.
  intros eigh order neg rnd us Da Db. unfold fit_rdm1, u_fit_rdm1. rewrite nums_up. unfold layer_nums. destruct (get_layers R (map (up R) us)) as [ls|] eqn:E; cbn [bind]; [|reflexivity].
  pose proof (nums_dn R us) as Nd. rewrite nums_up in Nd. unfold layer_nums in Nd. rewrite E in Nd. cbn [bind] in Nd. destruct (get_layers R (map (dn R) us)) as [ls'|] eqn:E'; cbn [bind] in Nd; [|discriminate]. injection Nd as Nd. cbn [bind].
  pose proof (layers_in R _ _ E) as I1. pose proof (layers_in R _ _ E') as I2.
  (* the common list of numbers and UHF tensors *)
  assert (Hl : exists l : list (nat * ut), concat ls = map (fun e => (fst e, up R (snd e))) l /\ concat ls' = map (fun e => (fst e, dn R (snd e))) l /\ forall e, In e l -> nth_error us (fst e) = Some (snd e)).
  { revert Nd I1 I2. generalize (concat ls) (concat ls'). clear. intros l. induction l as [|[k t] l IH]; intros [|[k' t'] l'] Nd I1 I2; try discriminate; [exists []; repeat split; intros e []|].
    cbn [map fst] in Nd. injection Nd as <- Nd. destruct (IH l' Nd ltac:(intros; apply I1; now right) ltac:(intros; apply I2; now right)) as (r & -> & -> & Hr).
    specialize (I1 (k, t) (or_introl eq_refl)). specialize (I2 (k, t') (or_introl eq_refl)). cbn [fst snd] in I1, I2. rewrite nth_error_map in I1, I2. destruct (nth_error us k) as [s|] eqn:Es; cbn [option_map] in *; [|discriminate]. injection I1 as <-. injection I2 as <-.
    exists ((k, s) :: r). repeat split. intros e [<-|He]; [exact Es|now apply Hr]. }
  destruct Hl as (l & L1 & L2 & L3).
  assert (E1 : initial_indices R (map (u_legs R) us) = initial_indices R (map (up R) us)) by (rewrite legs_up, initial_strip; auto).
  assert (E2 : initial_indices R (map (dn R) us) = initial_indices R (map (up R) us)) by (rewrite <- (initial_strip R (map (dn R) us)), <- legs_dn; exact E1).
  rewrite E1, E2, L1, L2. rewrite map_map. cbn [fst]. change (map (fun x : nat * ut => fst x) l) with (map fst l).
  pose proof (fit_pair R eigh order neg rnd l (positions (initial_indices R (map (up R) us))) Da Db us) as H. cbv zeta in H. specialize (H ltac:(intros e He; exists (snd e); split; [now apply L3|reflexivity])).
  destruct (foldM _ _ (map (fun e => (fst e, up R (snd e))) l)) as [[[m1 a1] ta]|]; cbn [bind]; [|now rewrite H].
  destruct (foldM _ _ (map (fun e => (fst e, dn R (snd e))) l)) as [[[m2 b1] tb]|]; cbn [bind]; [|now rewrite H].
  destruct H as (_ & us' & Ef & Eu & Ed & Oc). rewrite Ef. cbn [bind]. exists us'. repeat split; auto. intros W t Ht.
  destruct (In_nth_error _ _ Ht) as (k & Ek). destruct (Oc k t Ek) as [|[Nk Hk]]; [assumption|]. exfalso. apply Nk.
  destruct (nums_perm _ W) as (ks & En & P). unfold layer_nums in En. rewrite E in En. cbn [bind] in En. injection En as <-. rewrite L1, map_map in P. apply (Permutation_in k (Permutation_sym P)). apply in_seq. rewrite map_length. split; [lia|]. cbn. apply nth_error_Some. rewrite Hk. discriminate.
Qed.

(* together: what a fit of both spins keeps of the density matrices *)
Theorem c78_fit_rdm1 : forall eigh order neg rnd us Da Db, u_wired us -> fittable R (map (up R) us) -> solver R (map (up R) us) eigh -> sorter R order ->
  symmetric R (length (initial_indices R (map (up R) us))) Da -> symmetric R (length (initial_indices R (map (up R) us))) Db ->
  exists us0 us' da db, u_fit_rdm1 R eigh order neg (fun x => x) us Da Db = Some us0 /\ u_fit_rdm1 R eigh order neg rnd us Da Db = Some us' /\
    u_make_rdm1 R us' = Some (length (initial_indices R (map (up R) us)), da, db) /\
    forall spin D d, (spin, D, d) = (up R, Da, da) \/ (spin, D, d) = (dn R, Db, db) ->
      let N := length (initial_indices R (map (up R) us)) in
      trace N d = core_sum R (map spin us0) (fun _ x => rnd x) /\
      dist2 R N D d = dist2 R N D (fun _ _ => r0 R) -' core_sum R (map spin us0) (fun _ x => x *' x) +' core_sum R (map spin us0) (fun _ x => (x -' rnd x) *' (x -' rnd x)).
Proof.
  intros eigh order neg rnd us Da Db W Fi So Sr Sa Sb.
  assert (El : map (strip R) (map (dn R) us) = map (strip R) (map (up R) us)) by now rewrite <- legs_up, <- legs_dn.
  assert (Ei : initial_indices R (map (dn R) us) = initial_indices R (map (up R) us)) by (rewrite <- (initial_strip R (map (dn R) us)), El; apply initial_strip).
  assert (W' : wired R (map (dn R) us)) by exact (wired_strip _ _ El W).
  assert (Fi' : fittable R (map (dn R) us)).
  { intros t Ht. apply in_map_iff in Ht. destruct Ht as (s & <- & Hs). assert (Ed : downs R (map (dn R) us) = downs R (map (up R) us)) by (unfold downs; rewrite <- (proj2 (ups_strip R (map (dn R) us))), El; apply ups_strip). rewrite Ed. exact (Fi (up R s) (in_map _ _ _ Hs)). }
  assert (So' : solver R (map (dn R) us) eigh) by (intros t A Ht; apply in_map_iff in Ht; destruct Ht as (s & <- & Hs); exact (So (up R s) A (in_map _ _ _ Hs))).
  destruct (c75_fit R eigh order neg true _ Da W Fi So Sr Sa) as (ta & Ea & _ & _ & Ha).
  destruct (c75_fit R eigh order neg true _ Db W' Fi' So' Sr ltac:(rewrite Ei; exact Sb)) as (tb & Eb & _ & _ & Hb).
  pose proof (c78_fit eigh order neg (fun x => x) us Da Db) as H0. rewrite Ea, Eb in H0. destruct H0 as (us0 & E0 & Eu0 & Ed0 & _).
  destruct (Ha rnd) as (Ea' & da & Ma & _ & Ta & Dsa & _). destruct (Hb rnd) as (Eb' & db & Mb & _ & Tb & Dsb & _).
  pose proof (c78_fit eigh order neg rnd us Da Db) as H1. rewrite Ea', Eb' in H1. destruct H1 as (us' & E1 & Eu1 & Ed1 & Oc).
  exists us0, us', da, db. split; [exact E0|]. split; [exact E1|]. split.
  - rewrite (c78_rdm1 us' (Oc W)), Eu1, Ed1, Ma, Mb. reflexivity.
  - rewrite Ei in Tb, Dsb. intros spin D d [Hs|Hs]; injection Hs as -> -> ->; cbv zeta; rewrite ?Eu0, ?Ed0; split; assumption.
Qed.
(* one matrix for both spins: it is shared equally *)
Theorem c78_total : forall eigh order neg rnd half us (D : mat), half +' half = r1 R ->
  exists Ds : mat, u_fit_rdm1_total R eigh order neg rnd (fun x => x *' half) us D = u_fit_rdm1 R eigh order neg rnd us Ds Ds /\ forall i j, Ds i j +' Ds i j = D i j.
Proof.
  intros eigh order neg rnd half us D Hh. exists (fun i j => D i j *' half). split; [reflexivity|]. intros i j. transitivity (D i j *' (half +' half)); [ring|]. rewrite Hh. ring.
Qed.
End Spec.

(** *** Examples *)
(* the network of GaussProps: three core legs, the lower tensor first *)
Example ex_get : option_map (map this) (get_occupations Qc_ring ex_net) = Some [2; 2; 0]%Q.
Proof. vm_compute. reflexivity. Qed.
Example ex_half_filling : option_map (fun ts => (map (fun t : gt Qc_ring => map this (g_occ t)) ts, option_map (map this) (get_occupations Qc_ring ts))) (set_half_filling Qc_ring (GaussProps.q 2 1) ex_net)
  = Some ([[2; 0]; [0]]%Q, Some [0; 2; 0]%Q).
Proof. vm_compute. reflexivity. Qed.
Example ex_half_trace : exists ts' dm, set_half_filling Qc_ring (GaussProps.q 2 1) ex_net = Some ts' /\ make_rdm1 Qc_ring ts' = Some (3%nat, dm) /\ trace Qc_ring 3 dm = GaussProps.q 2 1.
Proof.
  destruct (c77_half Qc_ring (GaussProps.q 2 1) ex_net ex_wired ex_shaped) as (ts' & E & _ & _ & _ & _ & H). destruct (H ex_orth) as (dm & Em & Tr). exists ts', dm.
  change (length (initial_indices Qc_ring ex_net)) with 3%nat in *. split; [exact E|]. split; [exact Em|]. rewrite Tr. apply Qc_is_canon. vm_compute. reflexivity.
Qed.
(* two spins *)
Definition id2 (i j : nat) : Qc := if Nat.eqb i j then GaussProps.q 1 1 else GaussProps.q 0 1.
Definition ex_unet : list (ut Qc_ring) := [UT Qc_ring [5; 6] [4; 2] 2 (rot345, id2) None; UT Qc_ring [3; 4] [0; 1] 1 (id2, rot345) (Some ([GaussProps.q 7 1], [GaussProps.q 8 1]))].
Lemma ex_u_wired : u_wired Qc_ring ex_unet.
Proof.
  split; [|split].
  - cbn. repeat (constructor; [cbn; lia|]). constructor.
  - cbn. repeat (constructor; [cbn; lia|]). constructor.
  - exists (fun t => match g_d t with 0 :: _ => 0%nat | _ => 1%nat end).
    intros t t' x Ht Ht' Hu Hd. cbn in Ht, Ht'. destruct Ht as [<-|[<-|[]]], Ht' as [<-|[<-|[]]]; cbn in *; lia.
Qed.
Lemma ex_u_filled : u_filled Qc_ring ex_unet.
Proof. intros t Ht. cbn in Ht. destruct Ht as [<-|[<-|[]]]; cbn; auto. Qed.
Definition qs (l : list Z) : list Qc := map (fun z => GaussProps.q z 1) l.
Definition show (us : option (list (ut Qc_ring))) := option_map (map (fun t : ut Qc_ring => option_map (fun o : list Qc * list Qc => (map this (fst o), map this (snd o))) (u_occ t))) us.
Example ex_u_set : show (u_set_occupations Qc_ring ex_unet (qs [1; 0; 1]) (qs [0; 0; 1])) = Some [Some ([0; 1], [0; 1]); Some ([1], [0])]%Q /\
  show (u_set_occupations Qc_ring ex_unet (qs [1; 0]) (qs [0; 0; 1])) = None /\ show (u_set_occupations Qc_ring ex_unet (qs [1; 0; 1]) (qs [0; 0; 1; 1])) = None.
Proof. vm_compute. repeat split; reflexivity. Qed.
Example ex_u_half : show (do us <- u_set_occupations Qc_ring ex_unet (qs [5; 5; 5]) (qs [5; 5; 5]); u_set_half_filling Qc_ring us) = Some [Some ([0; 1], [1; 0]); Some ([1], [0])]%Q.
Proof. vm_compute. reflexivity. Qed.
Example ex_u_rdm1 : option_map (fun r => let '(n, a, b) := r in (n, map (fun i => map (fun j => this (a i j)) (seq 0 3)) (seq 0 3), map (fun i => map (fun j => this (b i j)) (seq 0 3)) (seq 0 3)))
    (do us <- u_set_occupations Qc_ring ex_unet (qs [0; 1; 0]) (qs [1; 0; 0]); u_make_rdm1 Qc_ring us)
  = Some (3%nat, [[0; 0; 0]; [0; 9 # 25; -12 # 25]; [0; -12 # 25; 16 # 25]]%Q, [[9 # 25; -12 # 25; 0]; [-12 # 25; 16 # 25; 0]; [0; 0; 0]]%Q).
Proof. vm_compute. reflexivity. Qed.
(* the hypotheses of the fit can be met *)
From Coq Require Import Reals Lra.
Definition ex_ufit : list (ut GfitProps.Rr) := [UT GfitProps.Rr [5; 6] [4; 2] 2 ((fun _ _ => 0%R), (fun _ _ => 0%R)) None; UT GfitProps.Rr [3; 4] [0; 1] 1 ((fun _ _ => 0%R), (fun _ _ => 0%R)) None].
Example ex_u_fit : forall neg, exists us0 us' da db, u_fit_rdm1 GfitProps.Rr eigh2 (fun xb => rev (seq 0 (length xb))) neg (fun x => x) ex_ufit (fun _ _ => / 3)%R (fun i j => if Nat.eqb i j then 1%R else 0%R) = Some us0 /\
  u_fit_rdm1 GfitProps.Rr eigh2 (fun xb => rev (seq 0 (length xb))) neg (fun _ => 1%R) ex_ufit (fun _ _ => / 3)%R (fun i j => if Nat.eqb i j then 1%R else 0%R) = Some us' /\
  u_make_rdm1 GfitProps.Rr us' = Some (3%nat, da, db) /\ trace GfitProps.Rr 3 da = trace GfitProps.Rr 3 db.
Proof.
  intros neg. destruct (c78_fit_rdm1 GfitProps.Rr eigh2 (fun xb => rev (seq 0 (length xb))) neg (fun _ => 1%R) ex_ufit (fun _ _ => / 3)%R (fun i j => if Nat.eqb i j then 1%R else 0%R)) as (us0 & us' & da & db & E0 & E1 & Em & H).
  - exact ex_fit_wired.
  - exact ex_fittable.
  - exact ex_solver.
  - intros xb. apply Permutation_sym, Permutation_rev.
  - intros i j _ _. reflexivity.
  - intros i j _ _. cbv beta. now rewrite Nat.eqb_sym.
  - exists us0, us', da, db. change (length (initial_indices GfitProps.Rr (map (GoccProofs.up GfitProps.Rr) ex_ufit))) with 3%nat in *. split; [exact E0|]. split; [exact E1|]. split; [exact Em|].
    destruct (H _ _ _ (or_introl eq_refl)) as [T1 _]. destruct (H _ _ _ (or_intror eq_refl)) as [T2 _]. rewrite T1, T2. unfold core_sum. rewrite !bsum_map. reflexivity.
Qed.

Print Assumptions c77_get.
Print Assumptions c77_half.
Print Assumptions c77_uhf_set.
Print Assumptions c77_uhf_half.
Print Assumptions c78_rdm1.
Print Assumptions c78_fit.
Print Assumptions c78_fit_rdm1.
Print Assumptions c78_total.
