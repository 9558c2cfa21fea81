(** C74: the tensors made by the GaussianMPS constructor (gaussian/core.py 1152-1178) form a network as required by C72. *)
From Coq Require Import ZArith Bool List Lia Permutation Ring Sorted QArith Qcanon.
From Verif Require Import CanonProofs DictLib IndexLib RingLib OptLib GaussModel GaussProofs GaussProps.
Import ListNotations.
Open Scope Z_scope.

Notation legs := (list Z * list Z * nat)%type.
Definition lu (e : legs) : list Z := fst (fst e). Definition ld (e : legs) : list Z := snd (fst e). Definition lc (e : legs) : nat := snd e.
Lemma in_ints : forall a d x, In x (ints a d) <-> a <= x < a + Z.of_nat d.
Proof.
  intros a d x. unfold ints. rewrite in_map_iff. split; [intros (i & <- & H); apply in_seq in H; lia|]. intros H. exists (Z.to_nat (x - a)). rewrite in_seq. lia.
Qed.
Lemma ints_len : forall a d, length (ints a d) = d. Proof. intros. unfold ints. now rewrite map_length, seq_length. Qed.
Lemma ints_nodup : forall a d, NoDup (ints a d).
Proof. intros. unfold ints. apply FinFun.Injective_map_NoDup; [intros x y H; lia|apply seq_NoDup]. Qed.
Lemma ints_sorted : forall d a, StronglySorted Z.lt (ints a d).
Proof.
  intros d a. unfold ints. generalize 0%nat. induction d as [|d IH]; intros s; cbn; [constructor|]. constructor; [apply IH|]. apply Forall_forall. intros x Hx. apply in_map_iff in Hx. destruct Hx as (i & <- & Hi). apply in_seq in Hi. lia.
Qed.
Lemma ints_nth : forall a d p, (p < d)%nat -> nth p (ints a d) 0 = a + Z.of_nat p.
Proof. intros a d p H. unfold ints. rewrite (nth_indep _ 0 (a + Z.of_nat 0)) by (rewrite map_length, seq_length; lia). rewrite (map_nth (fun i => a + Z.of_nat i)). now rewrite seq_nth. Qed.
Lemma sorted_eq : forall a b, StronglySorted Z.lt a -> StronglySorted Z.lt b -> (forall x, In x a <-> In x b) -> a = b.
Proof.
  induction a as [|x a IH]; intros [|y b] Sa Sb H.
  - reflexivity.
  - destruct (proj2 (H y) (or_introl eq_refl)).
  - destruct (proj1 (H x) (or_introl eq_refl)).
  - apply StronglySorted_inv in Sa. apply StronglySorted_inv in Sb. destruct Sa as [Sa Fa], Sb as [Sb Fb]. rewrite Forall_forall in Fa, Fb.
    assert (x = y). { destruct (proj1 (H x) (or_introl eq_refl)) as [E|E]; [congruence|]. destruct (proj2 (H y) (or_introl eq_refl)) as [E'|E']; [congruence|]. specialize (Fa y E'). specialize (Fb x E). lia. }
    subst y. f_equal. apply IH; auto. intros z. specialize (H z). cbn in H. split; intros Hz.
    + destruct (proj1 H (or_intror Hz)) as [E|E]; [|exact E]. specialize (Fa z Hz). lia.
    + destruct (proj2 H (or_intror Hz)) as [E|E]; [|exact E]. specialize (Fb z Hz). lia.
Qed.

Lemma skipn_skipn' : forall (A : Type) a b (l : list A), skipn a (skipn b l) = skipn (b + a) l.
Proof. intros A a. induction b as [|b IH]; intros l; cbn; [reflexivity|]. destruct l as [|x l]; [now rewrite skipn_nil|]. apply IH. Qed.
(* the loop reads only what is at position i and later *)
Fixpoint tail_loop (fuel : nat) (w c : nat) (r : list Z) (idx : Z) : option (list legs) :=
  match fuel with
  | O => None
  | S f => if (length r <=? w)%nat then Some [(ints idx (length r), r, length r)]
           else do l <- tail_loop f w c (skipn c (ints idx w) ++ skipn w r) (idx + Z.of_nat w); Some ((ints idx w, firstn w r, c) :: l)
  end.
Lemma mps_tail : forall fuel n w c cur idx i, (c <= w)%nat -> length cur = n -> (i <= n)%nat -> mps_loop fuel n w c cur idx i = tail_loop fuel w c (skipn i cur) idx.
Proof.
  induction fuel as [|f IH]; intros n w c cur idx i Hc Hl Hi; [reflexivity|]. cbn [mps_loop tail_loop]. rewrite skipn_length, Hl.
  destruct (Nat.leb_spec (n - i) w) as [H|H].
  - rewrite Z.min_r by lia. replace (Z.of_nat i + (Z.of_nat n - Z.of_nat i) =? Z.of_nat n) with true by (symmetry; apply Z.eqb_eq; lia).
    replace (Z.to_nat (Z.of_nat n - Z.of_nat i)) with (n - i)%nat by lia. rewrite (firstn_all2 (skipn i cur)) by (rewrite skipn_length; lia). rewrite ints_len, skipn_length, Hl, Nat.max_id. reflexivity.
  - rewrite Z.min_l by lia. destruct (Z.eqb_spec (Z.of_nat i + Z.of_nat w) (Z.of_nat n)); [lia|]. rewrite Nat2Z.id.
    rewrite IH; [|exact Hc| |lia].
    + f_equal. f_equal. rewrite skipn_app, firstn_length_le by lia. replace (skipn (i + c) (firstn i cur)) with (@nil Z) by (symmetry; apply skipn_all2; rewrite firstn_length_le; lia). cbn [app].
      replace (i + c - i)%nat with c by lia. rewrite skipn_app, ints_len. replace (c - w)%nat with 0%nat by lia. cbn [skipn]. now rewrite skipn_skipn'.
    + rewrite !app_length, firstn_length_le, ints_len, skipn_length by lia. lia.
Qed.

Definition LU (L : list legs) : list Z := flat_map lu L. Definition LD (L : list legs) : list Z := flat_map ld L.
Definition LC (L : list legs) : list Z := flat_map (fun e => firstn (lc e) (lu e)) L.
Definition good_legs (r : list Z) (idx : Z) (L : list legs) : Prop :=
  NoDup (LD L) /\ NoDup (LU L) /\ (forall x, In x (LU L) -> idx <= x) /\
  (forall x, In x (LD L) <-> In x r \/ (In x (LU L) /\ ~ In x (LC L))) /\
  forall e, In e L -> length (ld e) = length (lu e) /\ (lc e <= length (lu e))%nat /\ exists base, idx <= base /\ lu e = ints base (length (lu e)) /\ forall x, In x (ld e) -> x < base.
Lemma LC_LU : forall L x, In x (LC L) -> In x (LU L).
Proof. intros L x H. apply in_flat_map in H. destruct H as (e & He & H). apply in_flat_map. exists e. split; [exact He|]. rewrite <- (firstn_skipn (lc e) (lu e)). apply in_or_app. now left. Qed.
Lemma tail_ok : forall fuel w c r idx, (1 <= c <= w)%nat -> NoDup r -> (forall x, In x r -> x < idx) -> (length r < fuel)%nat ->
  exists L, tail_loop fuel w c r idx = Some L /\ good_legs r idx L.
Proof.
  induction fuel as [|f IH]; intros w c r idx Hc Nr Hr Hf; [lia|]. cbn [tail_loop]. destruct (Nat.leb_spec (length r) w) as [H|H].
  - eexists. split; [reflexivity|]. unfold good_legs, LD, LU, LC. cbn [flat_map lu ld lc fst snd]. rewrite !app_nil_r. rewrite firstn_all2 by (rewrite ints_len; lia). split; [exact Nr|]. split; [apply ints_nodup|]. split; [intros x Hx; apply in_ints in Hx; lia|]. split; [intros x; tauto|].
    intros e [<-|[]]. cbn [lu ld lc fst snd]. rewrite ints_len. repeat split; auto. exists idx. repeat split; auto. lia.
  - assert (Ns : NoDup (firstn w r) /\ NoDup (skipn w r) /\ forall x, In x (firstn w r) -> ~ In x (skipn w r)). { rewrite <- (firstn_skipn w r) in Nr. apply CanonProofs.nodup_app in Nr. exact Nr. }
    assert (Sr : forall x, In x r <-> In x (firstn w r) \/ In x (skipn w r)) by (intros x; rewrite <- (firstn_skipn w r) at 1; apply in_app_iff).
    pose proof (ints_nodup idx w) as Ni. rewrite <- (firstn_skipn c (ints idx w)) in Ni. apply CanonProofs.nodup_app in Ni. destruct Ni as (_ & Ni & Nc).
    assert (Si : forall x, In x (ints idx w) <-> In x (firstn c (ints idx w)) \/ In x (skipn c (ints idx w))) by (intros x; rewrite <- (firstn_skipn c (ints idx w)) at 1; apply in_app_iff).
    destruct Ns as (Nf & Nk & Nx).
    destruct (IH w c (skipn c (ints idx w) ++ skipn w r) (idx + Z.of_nat w)) as (L & E & (G1 & G2 & G3 & G4 & G5)); auto.
    + apply CanonProofs.nodup_app. split; [exact Ni|]. split; [exact Nk|]. intros x H1 H2. assert (A : In x (ints idx w)) by (apply Si; auto). apply in_ints in A. assert (B : x < idx) by (apply Hr, Sr; auto). lia.
    + intros x Hx. apply in_app_or in Hx. destruct Hx as [Hx|Hx]; [assert (A : In x (ints idx w)) by (apply Si; auto); apply in_ints in A; lia|]. assert (B : x < idx) by (apply Hr, Sr; auto). lia.
    + rewrite app_length, !skipn_length, ints_len. lia.
    + rewrite E. cbn [bind]. eexists. split; [reflexivity|]. unfold good_legs, LD, LU, LC. cbn [flat_map lu ld lc fst snd]. fold (LD L). fold (LU L). fold (LC L).
      split; [|split; [|split; [|split]]].
      * apply CanonProofs.nodup_app. split; [exact Nf|]. split; [exact G1|]. intros x H1 H2. assert (B : x < idx) by (apply Hr, Sr; auto). apply G4 in H2. rewrite in_app_iff in H2. destruct H2 as [[H2|H2]|[H2 _]].
        -- assert (A : In x (ints idx w)) by (apply Si; auto). apply in_ints in A. lia.
        -- exact (Nx x H1 H2).
        -- apply G3 in H2. lia.
      * apply CanonProofs.nodup_app. split; [apply ints_nodup|]. split; [exact G2|]. intros x H1 H2. apply in_ints in H1. apply G3 in H2. lia.
      * intros x Hx. apply in_app_or in Hx. destruct Hx as [Hx|Hx]; [apply in_ints in Hx; lia|apply G3 in Hx; lia].
      * intros x. rewrite !in_app_iff, G4, Sr, Si, in_app_iff.
        assert (A1 : In x (skipn c (ints idx w)) -> ~ In x (LC L)). { intros H1 H2. apply LC_LU in H2. apply G3 in H2. assert (A : In x (ints idx w)) by (apply Si; auto). apply in_ints in A. lia. }
        assert (A2 : In x (LU L) -> ~ In x (firstn c (ints idx w))). { intros H1 H2. apply G3 in H1. assert (A : In x (ints idx w)) by (apply Si; auto). apply in_ints in A. lia. }
        assert (A3 : In x (skipn c (ints idx w)) -> ~ In x (firstn c (ints idx w))) by (intros H1 H2; exact (Nc x H2 H1)).
        tauto.
      * intros e [<-|He]; cbn [lu ld lc fst snd].
        -- rewrite ints_len, firstn_length_le by lia. repeat split; try lia. exists idx. repeat split; [lia|]. intros x Hx. apply Hr, Sr. auto.
        -- destruct (G5 e He) as (A & B & base & C1 & C2 & C3). repeat split; auto. exists base. repeat split; auto. lia.
Qed.

Section Mps.
Variable R : CRing.
Notation gt := (gt R).
(* equal numbers of up and down legs: as many terminal as initial legs *)
Theorem c74_count : forall ts, wired R ts -> (forall t, In t ts -> length (g_d t) = length (g_u t)) -> length (terminal_indices R ts) = length (initial_indices R ts).
Proof.
  intros ts (NU & ND & _) W.
  assert (Len : length (ups R ts) = length (downs R ts)).
  { clear NU ND. induction ts as [|t l IH]; [reflexivity|]. unfold ups, downs in *. cbn [flat_map]. rewrite !app_length, (W t (or_introl eq_refl)), IH; [reflexivity|]. intros t' H. apply W. now right. }
  assert (A : forall a b, NoDup a -> NoDup b -> forall s, NoDup s -> (forall x, In x s <-> In x a /\ ~ In x b) -> (length s + length (filter (fun x => mem x b) a) = length a)%nat).
  { intros a b Na Nb s Ns Hs. rewrite (Permutation_length (NoDup_Permutation Ns (NoDup_filter (fun x => negb (mem x b)) Na) ltac:(intros x; rewrite Hs, filter_In, Bool.negb_true_iff, mem_notin; tauto))). rewrite Nat.add_comm. apply (filter_split_len _ (fun x => mem x b)). }
  pose proof (A _ _ NU ND _ (nodup_terminal R ts) (in_terminal R ts)) as A1. pose proof (A _ _ ND NU _ (nodup_initial R ts) (in_initial R ts)) as A2.
  assert (length (filter (fun x => mem x (downs R ts)) (ups R ts)) = length (filter (fun x => mem x (ups R ts)) (downs R ts))) as Q.
  { apply Permutation_length, NoDup_Permutation; [now apply NoDup_filter|now apply NoDup_filter|]. intros x. rewrite !filter_In, !mem_in. tauto. }
  lia.
Qed.
Lemma legs_net : forall n L, good_legs (ints 0 n) (Z.of_nat n) L -> forall ts : list gt, map (fun t => (g_u t, g_d t, g_core t)) ts = L -> (forall t, In t ts -> length (g_occ t) = g_core t) ->
    wired R ts /\ shaped R ts /\ initial_indices R ts = map Z.of_nat (seq 0 n) /\ length (terminal_indices R ts) = n /\
    forall x, (In x (ups R ts) /\ ~ In x (downs R ts)) <-> exists t p, In t ts /\ (p < g_core t)%nat /\ x = nth p (g_u t) 0.
Proof.
  intros n L (G1 & G2 & G3 & G4 & G5) ts EL Ho.
  assert (EU : ups R ts = LU L) by (rewrite <- EL; unfold ups, LU; clear; induction ts as [|t l IH]; cbn; [reflexivity|now rewrite IH]).
  assert (ED : downs R ts = LD L) by (rewrite <- EL; unfold downs, LD; clear; induction ts as [|t l IH]; cbn; [reflexivity|now rewrite IH]).
  assert (W : forall t, In t ts -> length (g_d t) = length (g_u t) /\ (g_core t <= length (g_u t))%nat /\ exists base, Z.of_nat n <= base /\ g_u t = ints base (length (g_u t)) /\ forall x, In x (g_d t) -> x < base).
  { intros t Ht. apply (G5 (g_u t, g_d t, g_core t)). rewrite <- EL. now apply (in_map (fun t => (g_u t, g_d t, g_core t))). }
  assert (Core : forall x, In x (LC L) <-> exists t p, In t ts /\ (p < g_core t)%nat /\ x = nth p (g_u t) 0).
  { intros x. unfold LC. rewrite <- EL, in_flat_map. split.
    - intros (e & He & Hx). apply in_map_iff in He. destruct He as (t & <- & Ht). cbn [lu lc fst snd] in Hx. exists t. apply (In_nth _ _ 0) in Hx. destruct Hx as (p & Lp & <-). destruct (W t Ht) as (_ & Lc & _). rewrite firstn_length_le in Lp by exact Lc. exists p. rewrite firstn_nth by exact Lp. auto.
    - intros (t & p & Ht & Hp & ->). exists (g_u t, g_d t, g_core t). split; [now apply (in_map (fun t => (g_u t, g_d t, g_core t)))|]. cbn [lu lc fst snd]. destruct (W t Ht) as (_ & Lc & _). rewrite <- (firstn_nth _ 0 (g_core t)) by exact Hp. apply nth_In. rewrite firstn_length_le; auto. }
  assert (Wi : wired R ts).
  { split; [rewrite EU; exact G2|]. split; [rewrite ED; exact G1|]. exists (fun t => Z.to_nat (nth 0 (g_u t) 0)). intros t t' x Ht Ht' Hu Hd.
    destruct (W t Ht) as (L1 & _ & b & B1 & B2 & B3). destruct (W t' Ht') as (L1' & _ & b' & B1' & B2' & B3').
    assert (Hl : (0 < length (g_u t))%nat) by (rewrite <- L1; destruct (g_d t); [destruct Hd|cbn; lia]). assert (Hl' : (0 < length (g_u t'))%nat) by (destruct (g_u t'); [destruct Hu|cbn; lia]).
    rewrite B2' in Hu. apply in_ints in Hu. specialize (B3 x Hd). rewrite B2, B2', !ints_nth by (auto; lia). lia. }
  assert (Tc : forall x, (In x (ups R ts) /\ ~ In x (downs R ts)) <-> In x (LC L)).
  { intros x. rewrite EU, ED, G4. split.
    - intros [H1 H2]. destruct (in_dec Z.eq_dec x (LC L)); [assumption|]. elim H2. right. auto.
    - intros H. pose proof (LC_LU _ _ H) as HU. split; [exact HU|]. intros [C|[_ C]]; [|tauto]. apply in_ints in C. apply G3 in HU. lia. }
  assert (Ini : initial_indices R ts = map Z.of_nat (seq 0 n)).
  { apply sorted_eq; [apply initial_sorted|apply (ints_sorted n 0)|]. intros x. change (map Z.of_nat (seq 0 n)) with (ints 0 n). rewrite in_initial. fold (ups R ts). fold (downs R ts). change (Ds R ts) with (downs R ts). change (Us R ts) with (ups R ts). rewrite EU, ED, G4. split.
    - tauto.
    - intros H. split; [now left|]. intros C. apply in_ints in H. apply G3 in C. lia. }
  split; [exact Wi|]. split; [|split; [exact Ini|split]].
  - intros t Ht. destruct (W t Ht) as (L1 & L2 & _). repeat split; auto. intros p Hp. apply Tc. apply Core. exists t, p. auto.
  - rewrite (c74_count ts Wi (fun t Ht => proj1 (W t Ht))), Ini. now rewrite map_length, seq_length.
  - intros x. rewrite Tc. apply Core.
Qed.
(* for 1 <= n_core <= n_tensor_sites the constructor ends and makes a network of the kind of C72 on the sites 0 .. n-1, in which
   exactly the terminal legs are core legs *)
Theorem c74_mps : forall n w c fuel, (1 <= c <= w)%nat -> (n < fuel)%nat -> exists L, gaussian_mps fuel n w c = Some L /\
  forall ts : list gt, map (fun t => (g_u t, g_d t, g_core t)) ts = L -> (forall t, In t ts -> length (g_occ t) = g_core t) ->
    wired R ts /\ shaped R ts /\ initial_indices R ts = map Z.of_nat (seq 0 n) /\ length (terminal_indices R ts) = n /\
    forall x, (In x (ups R ts) /\ ~ In x (downs R ts)) <-> exists t p, In t ts /\ (p < g_core t)%nat /\ x = nth p (g_u t) 0.
Proof.
  intros n w c fuel Hc Hf. unfold gaussian_mps. destruct (Nat.eqb_spec c 0); [lia|]. rewrite mps_tail by (rewrite ?ints_len; lia). cbn [skipn].
  destruct (tail_ok fuel w c (ints 0 n) (Z.of_nat n) Hc (ints_nodup _ _)) as (L & E & G); [intros x Hx; apply in_ints in Hx; lia|rewrite ints_len; exact Hf|].
  exists L. split; [exact E|]. exact (legs_net n L G).
Qed.
End Mps.

(** *** Examples *)
Example ex_mps : gaussian_mps 10 6 4 2 = Some [([6; 7; 8; 9], [0; 1; 2; 3], 2%nat); ([10; 11; 12; 13], [8; 9; 4; 5], 4%nat)].
Proof. vm_compute. reflexivity. Qed.
Definition mps_net (L : list legs) : list (gt Qc_ring) := map (fun e => GT Qc_ring (lu e) (ld e) (lc e) rot345 (repeat (q 1 1) (lc e))) L.
Example ex_mps_rdm : option_map fst (do L <- gaussian_mps 10 6 4 2; make_rdm1 Qc_ring (mps_net L)) = Some 6%nat.
Proof. vm_compute. reflexivity. Qed.
(* more core legs than sites in a tensor: sites are skipped; the density matrix has no row for them *)
Theorem c74_wide_refuted : exists n w c L, (1 <= c)%nat /\ (1 <= w)%nat /\ gaussian_mps 10 n w c = Some L /\ n = 5%nat /\ initial_indices Qc_ring (mps_net L) = [0; 1; 3; 4].
Proof. exists 5%nat, 2%nat, 3%nat. eexists. split; [lia|]. split; [lia|]. split; [vm_compute; reflexivity|]. split; vm_compute; reflexivity. Qed.
Print Assumptions c74_count. Print Assumptions c74_mps. Print Assumptions c74_wide_refuted.

(** C72: a core leg that another tensor uses loses the occupation that tensor gives it (dm[idx, idx] = occ overwrites): the trace of the density
    matrix is not the sum of the occupations, although the legs are made and used once and the rotations are orthogonal. *)
Definition one_rot (i j : nat) : Qc := if Nat.eqb i j then q 1 1 else q 0 1.
Theorem c72_reused_refuted : exists ts, wired Qc_ring ts /\ (forall t, In t ts -> length (g_d t) = length (g_u t) /\ length (g_occ t) = g_core t /\ (g_core t <= length (g_u t))%nat /\ orthogonal Qc_ring t) /\
  exists dm, make_rdm1 Qc_ring ts = Some (2%nat, dm) /\ bsum (R := Qc_ring) (seq 0 2) (fun a => dm a a) = q 3 1 /\ core_sum Qc_ring ts (fun _ o => o) = q 5 1.
Proof.
  exists [GT Qc_ring [2; 3] [0; 1] 2 one_rot [q 1 1; q 2 1]; GT Qc_ring [4] [2] 1 one_rot [q 2 1]]. split; [|split].
  - split; [|split].
    + cbn. repeat (constructor; [cbn; lia|]). constructor.
    + cbn. repeat (constructor; [cbn; lia|]). constructor.
    + exists (fun t => match g_d t with 0 :: _ => 0%nat | _ => 1%nat end).
      intros t t' x Ht Ht' Hu Hd. cbn in Ht, Ht'. destruct Ht as [<-|[<-|[]]], Ht' as [<-|[<-|[]]]; cbn in *; lia.
  - intros t Ht. cbn in Ht. destruct Ht as [<-|[<-|[]]]; cbn [g_u g_d g_core g_occ length]; (split; [reflexivity|]; split; [reflexivity|]; split; [lia|]);
      intros p p' Hp Hp'; cbn in Hp, Hp'; destruct p as [|[|p]]; try lia; destruct p' as [|[|p']]; try lia; apply Qc_is_canon; vm_compute; reflexivity.
  - set (ts := [_; _]).
    assert (H : option_map (fun r => (fst r, this (bsum (R := Qc_ring) (seq 0 2) (fun a => snd r a a)))) (make_rdm1 Qc_ring ts) = Some (2%nat, 3 # 1)%Q) by (vm_compute; reflexivity).
    destruct (make_rdm1 Qc_ring ts) as [[n dm]|]; [|discriminate]. cbn [option_map fst snd] in H. assert (H1 := f_equal (fun o => match o with Some r => fst r | None => 0%nat end) H). assert (H2 := f_equal (fun o => match o with Some r => snd r | None => 0%Q end) H). cbn [fst snd] in H1, H2. subst n. exists dm. split; [reflexivity|].
    split; apply Qc_is_canon; [rewrite H2|]; vm_compute; reflexivity.
Qed.
Print Assumptions c72_reused_refuted.
