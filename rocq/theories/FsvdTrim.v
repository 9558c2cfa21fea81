(** Proofs about sparse_svd: what trim_singular_vals keeps, as lists of values. *)
From Coq Require Import ZArith Bool List Lia Permutation Sorted Ring.
From Verif Require Import DictLib IndexLib RingLib OrdLib BondModel TruncModel TruncProofs TrimProofs TruncProps SymProofs FsvdModel FsvdSvd.
Import ListNotations.
Open Scope Z_scope.

Lemma combine_zrange : forall (A : Type) (d : A) (s : list A) (n : list Z), length n = length s ->
  combine s n = map (fun i => (nth (Z.to_nat i) s d, nth (Z.to_nat i) n 0)) (zrange (Z.of_nat (length s))).
Proof.
  intros A d s. induction s as [|a s IH]; intros [|x n] E; cbn [length] in *; try lia; [reflexivity|].
  replace (Z.of_nat (S (length s))) with (Z.of_nat (length s) + 1) by lia. rewrite zrange_cons by lia. cbn [combine map]. change (Z.to_nat 0) with 0%nat. cbn [nth]. f_equal.
  rewrite (IH n) by lia. rewrite map_map. apply map_ext_in. intros i Hi. apply in_zrange in Hi. replace (Z.to_nat (1 + i)) with (S (Z.to_nat i)) by lia. reflexivity.
Qed.
Lemma in_firstn_nth : forall (A : Type) (d : A) c (l : list A) x, In x (firstn c l) <-> exists j, 0 <= j < Z.of_nat (length l) /\ j < Z.of_nat c /\ x = nth (Z.to_nat j) l d.
Proof.
  intros A d c l x. split.
  - intros H. apply (In_nth _ _ d) in H. destruct H as (i & Hi & <-). rewrite firstn_length in Hi. exists (Z.of_nat i). rewrite Nat2Z.id. split; [lia|]. split; [lia|].
    rewrite <- (firstn_skipn c l) at 2. rewrite app_nth1 by (rewrite firstn_length; lia). reflexivity.
  - intros (j & Hj & Hc & ->). rewrite <- (firstn_skipn c l) at 1. rewrite app_nth1 by (rewrite firstn_length; lia). apply nth_In. rewrite firstn_length. lia.
Qed.
Lemma in_skipn_nth : forall (A : Type) (d : A) c (l : list A) x, In x (skipn c l) <-> exists j, 0 <= j < Z.of_nat (length l) /\ Z.of_nat c <= j /\ x = nth (Z.to_nat j) l d.
Proof.
  intros A d c l x. split.
  - intros H. apply (In_nth _ _ d) in H. destruct H as (i & Hi & <-). rewrite skipn_length in Hi. exists (Z.of_nat (c + i)). rewrite Nat2Z.id. split; [lia|]. split; [lia|].
    rewrite <- (firstn_skipn c l) at 2. rewrite app_nth2 by (rewrite firstn_length; lia). f_equal. rewrite firstn_length. lia.
  - intros (j & Hj & Hc & ->). rewrite <- (firstn_skipn c l) at 1. rewrite app_nth2 by (rewrite firstn_length; lia). apply nth_In. rewrite firstn_length, skipn_length. lia.
Qed.
Lemma bsum_skipn : forall (Q : CRing) (A : Type) (d : A) (w : A -> Q) (l : list A) n, bsum (zrange (Z.of_nat (length l))) (fun j => if Z.of_nat n <=? j then w (nth (Z.to_nat j) l d) else r0 Q) = bsum (skipn n l) w.
Proof.
  intros Q A d w. induction l as [|a l IH]; intros n; [now destruct n|]. cbn [length]. replace (Z.of_nat (S (length l))) with (Z.of_nat (length l) + 1) by lia. rewrite zrange_cons, bsum_cons, bsum_map by lia.
  destruct n as [|n].
  - cbn [skipn]. rewrite bsum_cons. change (Z.of_nat 0 <=? 0) with true. change (nth (Z.to_nat 0) (a :: l) d) with a. cbv iota. f_equal. specialize (IH 0%nat). cbn [skipn] in IH. rewrite <- IH. apply bsum_ext.
    intros j Hj. apply in_zrange in Hj. destruct (Z.leb_spec (Z.of_nat 0) (1 + j)), (Z.leb_spec (Z.of_nat 0) j); try lia. replace (Z.to_nat (1 + j)) with (S (Z.to_nat j)) by lia. reflexivity.
  - cbn [skipn]. destruct (Z.leb_spec (Z.of_nat (S n)) 0); [lia|]. rewrite (Radd_0_l (rth Q)). rewrite <- IH. apply bsum_ext.
    intros j Hj. apply in_zrange in Hj. destruct (Z.leb_spec (Z.of_nat (S n)) (1 + j)), (Z.leb_spec (Z.of_nat n) j); try lia; [|reflexivity]. replace (Z.to_nat (1 + j)) with (S (Z.to_nat j)) by lia. reflexivity.
Qed.
Lemma filter_map_comm' : forall (A B : Type) (f : A -> B) (p : B -> bool) l, filter p (map f l) = map f (filter (fun x => p (f x)) l).
Proof. intros A B f p. induction l as [|a l IH]; [reflexivity|]. cbn. destruct (p (f a)); cbn; now rewrite IH. Qed.
Lemma flat_map_ext_in' : forall (A B : Type) (f g : A -> list B) l, (forall x, In x l -> f x = g x) -> flat_map f l = flat_map g l.
Proof. intros A B f g. induction l as [|a l IH]; intros H; [reflexivity|]. cbn. rewrite (H a) by now left. rewrite IH; [reflexivity|]. intros x Hx. apply H. now right. Qed.

Section Lists.
Variable K : ORing.
Add Ring KRt : (rth K).
Variable argsort : list K -> list Z.
Hypothesis argsort_perm : forall l, Permutation (argsort l) (zrange (Z.of_nat (length l))).
Hypothesis argsort_sorted : forall l, StronglySorted (fun a b => ole (nth (Z.to_nat a) l (r0 K)) (nth (Z.to_nat b) l (r0 K))) (argsort l).
Variables (s : list (list K)) (ns : list Z).
Definition kept_of : list K := flat_map (fun e => firstn (cut (fst e) (snd e)) (fst e)) (combine s ns).
Definition trim_of : list K := flat_map (fun e => skipn (cut (fst e) (snd e)) (fst e)) (combine s ns).
Hypothesis Ln : length ns = length s.
Hypothesis Rn : forall i, 0 <= i < Z.of_nat (length s) -> 0 <= num ns i <= Z.of_nat (length (nth (Z.to_nat i) s [])).
Lemma cut_num : forall i, 0 <= i < Z.of_nat (length s) -> Z.of_nat (cut (nth (Z.to_nat i) s []) (num ns i)) = num ns i.
Proof. intros i Hi. pose proof (Rn i Hi). unfold cut. destruct (Z.ltb_spec (num ns i) 0); lia. Qed.
Lemma combine_num : combine s ns = map (fun i => (nth (Z.to_nat i) s [], num ns i)) (zrange (Z.of_nat (length s))).
Proof. exact (combine_zrange _ [] s ns Ln). Qed.
Lemma in_kept : forall x, In x kept_of <-> exists i j, valid s i j /\ j < num ns i /\ x = val s i j.
Proof.
  intros x. unfold kept_of. rewrite combine_num. rewrite in_flat_map. split.
  - intros (e & He & Hx). apply in_map_iff in He. destruct He as (i & <- & Hi). apply in_zrange in Hi. cbn [fst snd] in Hx. apply (in_firstn_nth _ (r0 K)) in Hx. destruct Hx as (j & H1 & H2 & ->).
    rewrite cut_num in H2 by exact Hi. exists i, j. split; [split; auto|]. auto.
  - intros (i & j & [Hi Hj] & H & ->). exists (nth (Z.to_nat i) s [], num ns i). split; [apply in_map_iff; exists i; split; [reflexivity|now apply in_zrange]|]. cbn [fst snd]. apply (in_firstn_nth _ (r0 K)). exists j. rewrite cut_num by exact Hi. auto.
Qed.
Lemma in_trim : forall x, In x trim_of <-> exists i j, valid s i j /\ num ns i <= j /\ x = val s i j.
Proof.
  intros x. unfold trim_of. rewrite combine_num. rewrite in_flat_map. split.
  - intros (e & He & Hx). apply in_map_iff in He. destruct He as (i & <- & Hi). apply in_zrange in Hi. cbn [fst snd] in Hx. apply (in_skipn_nth _ (r0 K)) in Hx. destruct Hx as (j & H1 & H2 & ->).
    rewrite cut_num in H2 by exact Hi. exists i, j. split; [split; auto|]. auto.
  - intros (i & j & [Hi Hj] & H & ->). exists (nth (Z.to_nat i) s [], num ns i). split; [apply in_map_iff; exists i; split; [reflexivity|now apply in_zrange]|]. cbn [fst snd]. apply (in_skipn_nth _ (r0 K)). exists j. rewrite cut_num by exact Hi. auto.
Qed.
Lemma in_all : forall i j, valid s i j -> In (val s i j) (kept_of ++ trim_of).
Proof. intros i j V. apply in_or_app. destruct (Z.lt_ge_cases j (num ns i)); [left; apply in_kept|right; apply in_trim]; eauto. Qed.
Lemma total_trim : forall w, total s (fun i j => num ns i <=? j) w = bsum trim_of w.
Proof.
  intros w. unfold trim_of. rewrite combine_num, bsum_flat_map, bsum_map. unfold total. apply bsum_ext. intros i Hi. apply in_zrange in Hi. cbn [fst snd]. rewrite <- (bsum_skipn K _ (r0 K)). now rewrite cut_num.
Qed.
Lemma total_all : forall w, total s (fun _ _ => true) w = bsum (kept_of ++ trim_of) w.
Proof.
  intros w. unfold kept_of, trim_of. rewrite bsum_app, combine_num, !bsum_flat_map, !bsum_map, <- bsum_add. unfold total. apply bsum_ext. intros i Hi. cbn [fst snd]. rewrite <- bsum_app, firstn_skipn.
  transitivity (bsum (skipn 0 (nth (Z.to_nat i) s [])) w); [|reflexivity]. rewrite <- (bsum_skipn K _ (r0 K)). apply bsum_ext. intros j Hj. apply in_zrange in Hj. destruct (Z.leb_spec (Z.of_nat 0) j); [reflexivity|lia].
Qed.
Lemma kept_length : Z.of_nat (length kept_of) = zsum ns.
Proof.
  unfold kept_of. clear argsort_perm argsort_sorted. revert ns Ln Rn. induction s as [|a l IH]; intros [|x n] E H; cbn [length] in *; try lia; [reflexivity|].
  cbn [combine flat_map fst snd]. rewrite app_length, Nat2Z.inj_add, IH; [|lia|].
  - unfold zsum. cbn [fold_right]. pose proof (H 0 ltac:(lia)) as H0. change (num (x :: n) 0) with x in H0. change (nth (Z.to_nat 0) (a :: l) []) with a in H0. rewrite firstn_length. unfold cut. destruct (Z.ltb_spec x 0); lia.
  - intros i Hi. specialize (H (1 + i) ltac:(lia)). unfold num in *. replace (Z.to_nat (1 + i)) with (S (Z.to_nat i)) in H by lia. exact H.
Qed.
Lemma all_length : (length kept_of + length trim_of = length (concat s))%nat.
Proof.
  unfold kept_of, trim_of. clear argsort_perm argsort_sorted Rn. revert ns Ln. induction s as [|a l IH]; intros [|x n] E; cbn [length] in *; try lia; [reflexivity|].
  cbn [combine flat_map fst snd concat]. rewrite !app_length. specialize (IH n ltac:(lia)). rewrite <- IH. rewrite firstn_length, skipn_length. lia.
Qed.
End Lists.
Section Trimmed.
Variable K : ORing.
Add Ring KRs : (rth K).
Variable argsort : list K -> list Z.
Hypothesis argsort_perm : forall l, Permutation (argsort l) (zrange (Z.of_nat (length l))).
Hypothesis argsort_sorted : forall l, StronglySorted (fun a b => ole (nth (Z.to_nat a) l (r0 K)) (nth (Z.to_nat b) l (r0 K))) (argsort l).
(* what the options of the truncation promise about the kept and the discarded values *)
Definition trimmed_as (cutoff : K) (mode : Z) (max_bond : option Z) (kept trimmed : list K) : Prop :=
  let full := exists b, max_bond = Some b /\ 0 < b /\ Z.of_nat (length kept) = b in
  let w := fun x : K => if mode <=? 4 then rmul K x x else x in
  let target := if Z.even mode then rmul K cutoff (bsum (kept ++ trimmed) w) else cutoff in
  1 <= mode <= 6 /\
  (forall x y, In x kept -> In y trimmed -> ole y x) /\
  (forall b, max_bond = Some b -> 0 < b -> Z.of_nat (length kept) <= b) /\
  (mode = 1 -> (forall x, In x kept -> olt cutoff x) /\ ((forall y, In y trimmed -> ole y cutoff) \/ full)) /\
  (mode = 2 -> exists m, In m (kept ++ trimmed) /\ (forall x, In x (kept ++ trimmed) -> ole x m) /\
    (forall x, In x kept -> olt (rmul K cutoff m) x) /\ ((forall y, In y trimmed -> ole y (rmul K cutoff m)) \/ full)) /\
  (3 <= mode -> (ole (bsum trimmed w) target \/ full) /\ forall x, In x kept -> olt target (radd K (bsum trimmed w) (w x))).
Lemma sums_lists : forall s ns r, length ns = length s -> (forall i, 0 <= i < Z.of_nat (length s) -> 0 <= num ns i <= Z.of_nat (length (nth (Z.to_nat i) s []))) ->
  renorm_sums K s ns r = (bsum (kept_of K s ns) (fun x => power K x r), bsum (trim_of K s ns) (fun x => power K x r)).
Proof.
  intros s ns r Ln Rn.
  assert (Fn : Forall (fun x => 0 <= x) ns).
  { apply Forall_forall. intros x Hx. destruct (In_nth ns x 0 Hx) as (i & Hi & <-). specialize (Rn (Z.of_nat i) ltac:(lia)). unfold num in Rn. rewrite Nat2Z.id in Rn. lia. }
  rewrite renorm_sums_spec by exact Fn. rewrite keep_first_firstn by exact Fn. unfold power_sum, kept_of, trim_of, rest_of. rewrite <- !flat_map_concat_map.
  rewrite Forall_forall in Fn.
  assert (G : forall e : list K * Z, In e (combine s ns) -> cut (fst e) (snd e) = Z.to_nat (snd e)).
  { intros [a x] He. apply in_combine_r in He. specialize (Fn x He). unfold cut. cbn [fst snd]. destruct (Z.ltb_spec x 0); [lia|reflexivity]. }
  f_equal; f_equal; apply flat_map_ext_in'; intros e He; now rewrite G.
Qed.
Lemma trim_lists : forall s cutoff mode mb ns, trim K argsort s cutoff mode mb = Some ns -> descending s -> nonneg s -> ole (r0 K) cutoff ->
  trimmed_as cutoff mode mb (kept_of K s ns) (trim_of K s ns) /\ length ns = length s /\
  (trim_of K s ns = [] -> Z.of_nat (length (concat s)) <= zsum ns) /\ (trim_of K s ns <> [] -> zsum ns < Z.of_nat (length (concat s))) /\
  (forall r, renorm_sums K s ns r = (bsum (kept_of K s ns) (fun x => power K x r), bsum (trim_of K s ns) (fun x => power K x r))).
Proof.
  intros s cutoff mode mb ns H Hd Hp Hc.
  assert (Hm : 1 <= mode <= 6). { assert (X : trim K argsort s cutoff mode mb <> None) by congruence. rewrite (c25_defined K argsort) in X. lia. }
  destruct (c25_kept_largest K argsort argsort_perm argsort_sorted s cutoff mode mb ns H Hd Hp Hc) as (L1 & L2 & L3 & L4).
  pose proof (in_kept K s ns L1 L2) as IK. pose proof (in_trim K s ns L1 L2) as IT. pose proof (in_all K s ns L1 L2) as IA. pose proof (kept_length K argsort s ns L1 L2) as KL. pose proof (all_length K argsort s ns L1) as AL.
  split; [|split; [exact L1|split; [|split]]]; [|intros E; rewrite E in AL; cbn in AL; lia|intros E; destruct (trim_of K s ns); [easy|cbn [length] in AL; lia]|intros r; exact (sums_lists s ns r L1 L2)].
  unfold trimmed_as. cbv zeta. rewrite KL. split; [exact Hm|]. split; [|split; [exact L3|split; [|split]]].
  - intros x y Hx Hy. apply IK in Hx. apply IT in Hy. destruct Hx as (i & j & V & A & ->), Hy as (i' & j' & V' & A' & ->). now apply L4.
  - intros M. destruct (c25_threshold K argsort argsort_perm argsort_sorted s cutoff mode mb ns (or_introl M) H Hd) as (c & C1 & _ & C3 & C4). rewrite <- (C1 M). split.
    + intros x Hx. apply IK in Hx. destruct Hx as (i & j & V & A & ->). now apply C3.
    + destruct C4 as [C4|C4]; [left|now right]. intros y Hy. apply IT in Hy. destruct Hy as (i & j & V & A & ->). now apply C4.
  - intros M. destruct (c25_threshold K argsort argsort_perm argsort_sorted s cutoff mode mb ns (or_intror M) H Hd) as (c & _ & C2 & C3 & C4). destruct (C2 M) as (i0 & j0 & V0 & Ec & Mx). exists (val s i0 j0). split; [now apply IA|]. split; [|rewrite <- Ec; split].
    + intros x Hx. apply in_app_or in Hx. destruct Hx as [Hx|Hx]; [apply IK in Hx|apply IT in Hx]; destruct Hx as (i & j & V & A & ->); now apply Mx.
    + intros x Hx. apply IK in Hx. destruct Hx as (i & j & V & A & ->). now apply C3.
    + destruct C4 as [C4|C4]; [left|now right]. intros y Hy. apply IT in Hy. destruct Hy as (i & j & V & A & ->). now apply C4.
  - intros M. destruct (c25_sum K argsort argsort_perm argsort_sorted s cutoff mode mb ns (conj M (proj2 Hm)) H Hd Hp Hc) as [C1 C2]. cbv zeta in C1, C2. rewrite (total_trim K s ns L1 L2), (total_all K s ns L1 L2) in C1. rewrite (total_trim K s ns L1 L2), (total_all K s ns L1 L2) in C2. split; [exact C1|].
    intros x Hx. apply IK in Hx. destruct Hx as (i & j & V & A & ->). now apply C2.
Qed.
(* screened values of sorted lists *)
Variable scr : K.
Lemma vals_spos : forall s, vals_at K (spos K scr s) s = filter (fun x => oltb scr x) s.
Proof.
  intros s. unfold vals_at, spos.
  assert (G : forall s : list K, map (fun j => nth (Z.to_nat j) s (r0 K)) (filter (fun j => oltb scr (nth (Z.to_nat j) s (r0 K))) (zrange (Z.of_nat (length s)))) = filter (fun x => oltb scr x) s); [|apply G].
  clear. induction s as [|a s IH]; [reflexivity|]. cbn [length]. replace (Z.of_nat (S (length s))) with (Z.of_nat (length s) + 1) by lia. rewrite zrange_cons by lia. cbn [filter].
  assert (E : map (fun j => nth (Z.to_nat j) (a :: s) (r0 K)) (filter (fun j => oltb scr (nth (Z.to_nat j) (a :: s) (r0 K))) (map (fun i => 1 + i) (zrange (Z.of_nat (length s))))) = filter (fun x => oltb scr x) s).
  { rewrite <- IH. rewrite filter_map_comm', map_map. 
    assert (N : forall j, In j (zrange (Z.of_nat (length s))) -> nth (Z.to_nat (1 + j)) (a :: s) (r0 K) = nth (Z.to_nat j) s (r0 K)) by (intros j Hj; apply in_zrange in Hj; replace (Z.to_nat (1 + j)) with (S (Z.to_nat j)) by lia; reflexivity).
    rewrite (filter_ext_in _ (fun j => oltb scr (nth (Z.to_nat j) s (r0 K)))) by (intros j Hj; now rewrite N). apply map_ext_in. intros j Hj. apply N. apply filter_In in Hj. tauto. }
  change (nth (Z.to_nat 0) (a :: s) (r0 K)) with a. destruct (oltb scr a); cbn [map]; [change (nth (Z.to_nat 0) (a :: s) (r0 K)) with a; f_equal|]; exact E.
Qed.
Lemma sorted_filter : forall (A : Type) (Rl : A -> A -> Prop) (f : A -> bool) l, StronglySorted Rl l -> StronglySorted Rl (filter f l).
Proof. intros A Rl f l H. induction H as [|a l H IH F]; cbn; [constructor|]. destruct (f a); [|exact IH]. constructor; [exact IH|]. rewrite Forall_forall in *. intros x Hx. apply filter_In in Hx. now apply F. Qed.
Lemma desc_lists : forall ss : list (list K), (forall s, In s ss -> StronglySorted (fun x y : K => ole y x) s) -> descending ss.
Proof.
  intros ss H i j j' [Hi Hj] [_ Hj'] Le. unfold val. set (l := nth (Z.to_nat i) ss []) in *. assert (Sl : StronglySorted (fun x y : K => ole y x) l) by (apply H, nth_In; lia).
  clearbody l. clear H Hi i ss. revert j j' Hj Hj' Le. induction Sl as [|a l Sl IH F]; intros j j' Hj Hj' Le; cbn [length] in *; [lia|]. rewrite Forall_forall in F.
  destruct (Z.to_nat j) as [|x] eqn:E1, (Z.to_nat j') as [|y] eqn:E2; cbn [nth]; [apply ole_refl|apply F, nth_In; lia|lia|].
  specialize (IH (Z.of_nat x) (Z.of_nat y)). rewrite !Nat2Z.id in IH. apply IH; lia.
Qed.
Lemma nonneg_lists : forall ss : list (list K), (forall s x, In s ss -> In x s -> ole (r0 K) x) -> nonneg ss.
Proof. intros ss H i j [Hi Hj]. unfold val. eapply H; [apply nth_In|apply nth_In]; lia. Qed.
End Trimmed.
