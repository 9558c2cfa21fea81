(** C82: vectors and flat fermion tensors of a Constructor. *)
From Coq Require Import ZArith Bool List Lia.
From Verif Require Import RingLib OptLib ConsModel.
Import ListNotations.

Lemma row_eqb_eq : forall a b, row_eqb a b = true <-> a = b.
Proof.
  induction a as [|x a IH]; intros [|y b]; cbn; try (split; intros H; (reflexivity || discriminate H)). rewrite andb_true_iff, Z.eqb_eq, IH. split; [intros [-> ->]; reflexivity|intros E; injection E as -> ->; split; reflexivity].
Qed.
Lemma rows_eqb_eq : forall a b, rows_eqb a b = true <-> a = b.
Proof.
  induction a as [|x a IH]; intros [|y b]; cbn; try (split; intros H; (reflexivity || discriminate H)). rewrite andb_true_iff, row_eqb_eq, IH. split; [intros [-> ->]; reflexivity|intros E; injection E as -> ->; split; reflexivity].
Qed.
Lemma key_eqb_eq : forall a b, key_eqb a b = true <-> a = b.
Proof. intros [a x] [b y]. unfold key_eqb. cbn. rewrite andb_true_iff, eqb_true_iff, rows_eqb_eq. split; [intros [-> ->]; reflexivity|intros E; injection E as -> ->; split; reflexivity]. Qed.

Section C82.
Variable K : CRing.
Notation ften := (ften K).
Fixpoint block_of (q : row) (t : ften) : option (list K) := match t with [] => None | (r, d) :: t' => if row_eqb q r then Some d else block_of q t' end.
(* the vector of a tensor: its blocks in the order of the info, zeros where it has none *)
Definition part (t : ften) (p : row * nat) : list K := match block_of (fst p) t with Some d => d | None => repeat (r0 K) (snd p) end.
Definition vector_of (i : binfo) (t : ften) : list K := concat (map (part t) i).
Definition sizes_ok (i : binfo) (t : ften) : Prop := forall q sz d, In (q, sz) i -> block_of q t = Some d -> length d = sz.
Definition elements (ls : rows) : nat := fold_right (fun r s => (length r + s)%nat) 0%nat ls.
(* entries of complete texts are the tables of their labels *)
Definition cache_ok (info_of : rows -> binfo) (c : list (ckey * ctab)) : Prop := forall ls tab, cached (false, ls) c = Some tab -> tab = table ls 0 (info_of ls).

Lemma find_block : forall q (t : ften), match find_ix q (map fst t) with Some ix => exists r d, nth_error t ix = Some (r, d) /\ block_of q t = Some d | None => block_of q t = None end.
Proof.
  intros q t. induction t as [|[r d] t IH]; cbn; [reflexivity|]. destruct (row_eqb q r); [exists r, d; split; reflexivity|]. destruct (find_ix q (map fst t)) as [ix|]; cbn; exact IH.
Qed.
Lemma fill : forall (t : ften) (i : binfo) pre, sizes_ok i t ->
  foldM (write K t) (pre ++ repeat (r0 K) (total i)) (table (map fst t) (length pre) i) = Some (pre ++ vector_of i t).
Proof.
  intros t i. induction i as [|[q sz] i IH]; intros pre S; [cbn; reflexivity|].
  assert (S' : sizes_ok i t) by (intros q' sz' d H; apply S; now right).
  unfold vector_of. cbn [map concat table total fold_right snd]. fold (total i). fold (vector_of i t).
  assert (Lp : forall d : list K, length d = sz -> length (pre ++ d) = (length pre + sz)%nat) by (intros d Hd; rewrite app_length; lia).
  pose proof (find_block q t) as F. unfold part at 1. cbn [fst snd]. destruct (find_ix q (map fst t)) as [ix|].
  - destruct F as (r & d & N & B). rewrite B. pose proof (S q sz d (or_introl eq_refl) B) as L. cbn [app foldM].
    unfold write at 1. rewrite N. cbn [bind snd]. rewrite L. replace (length pre + sz - length pre)%nat with sz by lia. rewrite Nat.eqb_refl. cbn [bind].
    rewrite repeat_app. rewrite firstn_app, firstn_all, Nat.sub_diag, firstn_O, app_nil_r.
    replace (skipn (length pre + sz) (pre ++ repeat (r0 K) sz ++ repeat (r0 K) (total i))) with (repeat (r0 K) (total i)).
    + rewrite app_assoc, <- (Lp d L), app_assoc. now rewrite IH.
    + rewrite app_assoc, skipn_app, skipn_all2, app_length, repeat_length, Nat.sub_diag; [reflexivity|rewrite app_length, repeat_length; lia].
  - rewrite F. cbn [app]. rewrite repeat_app, app_assoc, <- (Lp (repeat (r0 K) sz) (repeat_length _ _)), app_assoc. now apply IH.
Qed.
Lemma block_here : forall (t : ften), NoDup (map fst t) -> forall s, incl t s -> NoDup (map fst s) -> forall q d, In (q, d) t -> block_of q s = Some d.
Proof.
  intros t _ s I ND q d H. apply I in H. clear I. induction s as [|[r e] s IH]; [destruct H|]. cbn [map fst] in ND. apply NoDup_cons_iff in ND as [Nr ND]. cbn. destruct (row_eqb q r) eqn:E.
  - apply row_eqb_eq in E. subst r. destruct H as [H|H]; [now injection H as ->|]. exfalso. apply Nr. change q with (fst (q, d)). now apply in_map.
  - destruct H as [H|H]; [|now apply IH]. injection H as -> ->. assert (row_eqb q q = true) by now apply row_eqb_eq. congruence.
Qed.
Lemma same_labels : forall (i : binfo) (t : ften), NoDup (map fst t) -> map fst i = map fst t -> vector_of i t = concat (map snd t).
Proof.
  intros i t ND E. unfold vector_of. f_equal. assert (G : forall s, incl s t -> forall j, map fst j = map fst s -> map (part t) j = map snd s).
  { induction s as [|[q d] s IH]; intros I [|[q' sz] j] Ej; cbn in Ej; try discriminate Ej; [reflexivity|]. injection Ej as -> Ej. cbn [map snd]. f_equal; [|apply IH; [intros x Hx; apply I; now right|exact Ej]].
    unfold part. cbn [fst]. rewrite (block_here t ND t (incl_refl t) ND q d); [reflexivity|]. apply I. now left. }
  exact (G t (incl_refl t) i E).
Qed.
Lemma cut_vector : forall (i : binfo) (t : ften), sizes_ok i t -> cut K i (vector_of i t) = map (fun p => (fst p, part t p)) i /\ length (vector_of i t) = total i.
Proof.
  intros i t. induction i as [|[q sz] i IH]; intros S; [split; reflexivity|]. destruct (IH (fun q' sz' d H => S q' sz' d (or_intror H))) as [A B].
  assert (L : length (part t (q, sz)) = sz) by (unfold part; cbn [fst snd]; destruct (block_of q t) as [d|] eqn:E; [exact (S q sz d (or_introl eq_refl) E)|apply repeat_length]).
  unfold vector_of in *. cbn [map concat cut fst snd]. rewrite firstn_app, skipn_app, (firstn_all2 (part t (q, sz))), (skipn_all2 (part t (q, sz))) by lia. rewrite L, Nat.sub_diag, firstn_O, app_nil_r. cbn [skipn app]. rewrite A. split; [reflexivity|].
  rewrite app_length, L, B. reflexivity.
Qed.
Lemma cut_labels : forall (i : binfo) v, map fst (cut K i v) = map fst i.
Proof. induction i as [|[q sz] i IH]; intros v; cbn; [reflexivity|]. now rewrite IH. Qed.
Lemma cut_concat : forall (i : binfo) v, length v = total i -> concat (map snd (cut K i v)) = v.
Proof.
  induction i as [|[q sz] i IH]; intros v L; cbn in *; [now destruct v|]. fold (total i) in L. rewrite IH by (rewrite skipn_length; lia). apply firstn_skipn.
Qed.
End C82.

(* A vector turned into a tensor and back is unchanged. *)
Theorem c82_roundtrip : forall K info_of i v c, length v = total i -> info_of (map fst i) = i ->
  exists t, vector_to_tensor K i v = Some t /\ tensor_to_vector K info_of t c = Some (v, c).
Proof.
  intros K info_of i v c L H. exists (cut K i v). unfold vector_to_tensor. rewrite L, Nat.eqb_refl. split; [reflexivity|].
  unfold tensor_to_vector. rewrite cut_labels, H. assert (E : rows_eqb (map fst i) (map fst i) = true) by now apply rows_eqb_eq. rewrite E, cut_concat by exact L. reflexivity.
Qed.
Print Assumptions c82_roundtrip.

(* The vector of a tensor whose label array has at most 1000 elements consists of its blocks in the order of the info, whatever
   conversions have filled the cache; turned into a tensor again it has the blocks of the tensor, and zero blocks for the labels
   the tensor does not have. *)
Theorem c82_tensor : forall K info_of t c, let i := info_of (map fst t) in
  cache_ok info_of c -> NoDup (map fst t) -> sizes_ok K i t -> (elements (map fst t) <= 1000)%nat ->
  exists c', tensor_to_vector K info_of t c = Some (vector_of K i t, c') /\ cache_ok info_of c' /\
    vector_to_tensor K i (vector_of K i t) = Some (map (fun p => (fst p, part K t p)) i).
Proof.
  intros K info_of t c i C ND S Sm. destruct (cut_vector K i t S) as [Cv Lv].
  assert (V : vector_to_tensor K i (vector_of K i t) = Some (map (fun p => (fst p, part K t p)) i)) by (unfold vector_to_tensor; now rewrite Lv, Nat.eqb_refl, Cv).
  unfold tensor_to_vector. fold i. destruct (rows_eqb (map fst i) (map fst t)) eqn:E.
  - apply rows_eqb_eq in E. exists c. rewrite <- (same_labels K i t ND E). repeat split; assumption.
  - assert (Kk : np_key (map fst t) = (false, map fst t)) by (unfold np_key; fold (elements (map fst t)); destruct (Nat.ltb_spec 1000 (elements (map fst t))); [lia|reflexivity]). rewrite Kk.
    assert (F : foldM (write K t) (repeat (r0 K) (total i)) (table (map fst t) 0 i) = Some (vector_of K i t)) by exact (fill K t i [] S).
    destruct (cached (false, map fst t) c) as [tab|] eqn:G.
    + rewrite (C _ _ G). change (info_of (map fst t)) with i. rewrite F. exists c. repeat split; assumption.
    + rewrite F. eexists. split; [reflexivity|]. split; [|exact V]. intros ls tab. cbn [cached]. destruct (key_eqb (false, ls) (false, map fst t)) eqn:X; [|apply C].
      apply key_eqb_eq in X. injection X as ->. intros Y. now injection Y as <-.
Qed.
Print Assumptions c82_tensor.
(* whatever tensor is converted, the cache stays right for the tensors with at most 1000 label numbers *)
Theorem c82_cache_kept : forall K info_of t c v c', cache_ok info_of c ->
  tensor_to_vector K info_of t c = Some (v, c') -> cache_ok info_of c'.
Proof.
  intros K info_of t c v c' C H. unfold tensor_to_vector in H.
  destruct (rows_eqb (map fst (info_of (map fst t))) (map fst t)); [injection H as _ <-; exact C|].
  destruct (cached (np_key (map fst t)) c) as [tab|].
  - destruct (foldM (write K t) _ tab) as [v'|]; [|discriminate]. injection H as _ <-. exact C.
  - destruct (foldM (write K t) _ (table _ _ _)) as [v'|]; [|discriminate]. injection H as _ <-.
    intros ls tab. cbn [cached]. destruct (key_eqb (false, ls) (np_key (map fst t))) eqn:X; [|apply C].
    apply key_eqb_eq in X. unfold np_key in X. destruct (1000 <? _)%nat; [discriminate|]. injection X as ->. intros Y. now injection Y as <-.
Qed.
Print Assumptions c82_cache_kept.
Lemma cache_empty : forall info_of, cache_ok info_of []. Proof. intros info_of ls tab H. discriminate H. Qed.

(** *** example *)
Definition ex_info (_ : rows) : binfo := [([0; 0]%Z, 1%nat); ([0; 1]%Z, 2%nat); ([1; 0]%Z, 2%nat)].
Definition ex_t : ften Z_ring := [([1; 0]%Z, [5; 6]%Z); ([0; 0]%Z, [7]%Z)].
Example ex_vector : match tensor_to_vector Z_ring ex_info ex_t [] with Some (v, c) => v = [7; 0; 0; 5; 6]%Z /\ length c = 1%nat /\
    match tensor_to_vector Z_ring ex_info [([0; 1]%Z, [8; 9]%Z)] c with Some (v', c') => v' = [0; 8; 9; 0; 0]%Z /\ length c' = 2%nat | None => False end | None => False end /\
  vector_to_tensor Z_ring (ex_info []) [7; 0; 0; 5; 6]%Z = Some [([0; 0]%Z, [7]%Z); ([0; 1]%Z, [0; 0]%Z); ([1; 0]%Z, [5; 6]%Z)] /\ vector_to_tensor Z_ring (ex_info []) [7]%Z = None.
Proof. vm_compute. repeat split. Qed.

(* For more than 1000 label elements the text of the labels is abridged: a second tensor with the same first and last labels gets
   the table of the first.  502 blocks of one element in two orders. *)
Definition lbl (k : nat) : row := [Z.of_nat k; Z.of_nat k].
Definition big_info (_ : rows) : binfo := map (fun k => (lbl k, 1%nat)) (seq 0 502).
Definition big (order : list nat) : ften Z_ring := map (fun k => (lbl k, [Z.of_nat k])) order.
Definition ord1 : list nat := [1; 0]%nat ++ seq 2 500.
Definition ord2 : list nat := [1; 0; 2; 4; 3]%nat ++ seq 5 497.
Definition big_cache : list (ckey * ctab) := [(np_key (map fst (big ord1)), table (map fst (big ord1)) 0 (big_info []))].
Theorem c82_cache_refuted : exists info_of (t1 t2 : ften Z_ring) c, NoDup (map fst t2) /\ sizes_ok Z_ring (info_of (map fst t2)) t2 /\
  (exists v, tensor_to_vector Z_ring info_of t1 [] = Some (v, c)) /\
  exists v, tensor_to_vector Z_ring info_of t2 c = Some (v, c) /\ v <> vector_of Z_ring (info_of (map fst t2)) t2.
Proof.
  assert (NDl : forall l, NoDup l -> NoDup (map fst (big l))).
  { intros l H. unfold big. rewrite map_map. cbn [fst]. apply (FinFun.Injective_map_NoDup (f := lbl)); [|exact H]. intros a b E. unfold lbl in E. injection E as E. now apply Nat2Z.inj. }
  exists big_info, (big ord1), (big ord2), big_cache. split; [|split; [|split]].
  - apply NDl. apply (Permutation.Permutation_NoDup (l := seq 0 502)); [|apply seq_NoDup].
    change (seq 0 502) with ([0; 1; 2; 3; 4]%nat ++ seq 5 497). apply Permutation.Permutation_app_tail. apply (Permutation.Permutation_trans (Permutation.perm_swap _ _ _)). apply Permutation.perm_skip, Permutation.perm_skip, Permutation.perm_skip, Permutation.perm_swap.
  - intros q sz d I B. assert (Hs : sz = 1%nat) by (unfold big_info in I; apply in_map_iff in I as (k & E & _); now injection E as _ <-). subst sz.
    assert (G : forall l, block_of Z_ring q (big l) = Some d -> length d = 1%nat) by (induction l as [|k l IH]; cbn; [discriminate|destruct (row_eqb q (lbl k)); [intros Y; injection Y as <-; reflexivity|exact IH]]). exact (G _ B).
  - exists (match tensor_to_vector Z_ring big_info (big ord1) [] with Some (v, _) => v | None => [] end). vm_compute. reflexivity.
  - exists (match tensor_to_vector Z_ring big_info (big ord2) big_cache with Some (v, _) => v | None => [] end). split; [vm_compute; reflexivity|]. intros X. apply (f_equal (fun l => nth 3 l 0%Z)) in X. vm_compute in X. discriminate X.
Qed.
Print Assumptions c82_cache_refuted.
