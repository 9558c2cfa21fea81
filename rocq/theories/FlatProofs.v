(** Lemmas about flat storage. *)
From Coq Require Import ZArith Bool List Lia Permutation Ring Ascii.
From Verif Require Import SymModel SymProofs DictLib IndexLib RingLib BondModel FuseModel FuseProofs BlockModel BlockProofs StructModel FlatModel.
Import ListNotations.
Open Scope Z_scope.

Lemma rspec : forall a b, reflect (a = b) (row_eqb a b).
Proof. intros a b. unfold row_eqb. destruct (list_eq_dec Z.eq_dec a b); constructor; auto. Qed.

(** *** lists *)
Lemma Forall2_len : forall A B (P : A -> B -> Prop) l l', Forall2 P l l' -> length l = length l'.
Proof. induction 1; cbn; auto. Qed.
Lemma combine_app : forall A B (a a' : list A) (b b' : list B), length a = length b -> combine (a ++ a') (b ++ b') = combine a b ++ combine a' b'.
Proof. induction a as [|x a IH]; intros a' [|y b] b' H; cbn in *; try lia; [reflexivity|]. f_equal. apply IH. lia. Qed.
Lemma skipn_S : forall A k (l : list A), skipn 1 (skipn k l) = skipn (S k) l.
Proof. induction k as [|k IH]; intros [|x l]; try reflexivity. cbn [skipn] in *. apply IH. Qed.
Lemma firstn_exact : forall A (a b : list A) n, n = length a -> firstn n (a ++ b) = a.
Proof. intros A a b n ->. rewrite firstn_app, firstn_all, Nat.sub_diag, firstn_O, app_nil_r. reflexivity. Qed.
Lemma skipn_exact : forall A (a b : list A) n, n = length a -> skipn n (a ++ b) = b.
Proof. intros A a b n ->. rewrite skipn_app, skipn_all, Nat.sub_diag. reflexivity. Qed.
Lemma zlen_concat : forall A (cs : list (list A)), Z.of_nat (length (concat cs)) = zsum (map (fun c => Z.of_nat (length c)) cs).
Proof. induction cs as [|c cs IH]; cbn [concat map]; [reflexivity|]. rewrite app_length, zsum_cons, <- IH. lia. Qed.
Lemma split_at : forall A (l : list A) k d, (k < length l)%nat -> l = firstn k l ++ nth k l d :: skipn (S k) l.
Proof.
  induction l as [|x l IH]; intros k d H; cbn in H; [lia|]. destruct k; [reflexivity|]. cbn [firstn nth skipn app]. f_equal.
  apply (IH k d). lia.
Qed.
Lemma combine_zrange_nth : forall A (d : A) l, combine (zrange (Z.of_nat (length l))) l = map (fun i => (i, nth (Z.to_nat i) l d)) (zrange (Z.of_nat (length l))).
Proof.
  intros A d l. apply nth_ext with (d := (0, d)) (d' := (0, d)).
  - rewrite combine_length, map_length, zrange_length. lia.
  - intros k Hk. rewrite combine_length, zrange_length in Hk.
    rewrite combine_nth by (rewrite zrange_length; lia).
    rewrite (nth_indep _ (0, d) ((fun i => (i, nth (Z.to_nat i) l d)) 0)) by (rewrite map_length, zrange_length; lia).
    rewrite (map_nth (fun i => (i, nth (Z.to_nat i) l d))). rewrite nth_zrange by lia. now rewrite Nat2Z.id.
Qed.
Lemma fold_indexed : forall A B (d : A) (g : B -> Z -> A -> B) l s,
  fold_left (fun s i => g s i (nth (Z.to_nat i) l d)) (zrange (Z.of_nat (length l))) s
  = fold_left (fun s p => g s (fst p) (snd p)) (combine (zrange (Z.of_nat (length l))) l) s.
Proof. intros. rewrite (combine_zrange_nth A d). rewrite <- fold_map. reflexivity. Qed.
Lemma map_nth_zrange : forall A B (d : A) (f : A -> B) l, map (fun i => f (nth (Z.to_nat i) l d)) (zrange (Z.of_nat (length l))) = map f l.
Proof.
  intros. rewrite <- (map_map (fun i => (i, nth (Z.to_nat i) l d)) (fun p => f (snd p))), <- combine_zrange_nth.
  assert (G: forall (a : list Z) (b : list A), length a = length b -> map (fun p => f (snd p)) (combine a b) = map f b).
  { induction a as [|x a IH]; intros [|y b] H; cbn in *; try lia; [reflexivity|]. f_equal. apply IH. lia. }
  apply G. rewrite zrange_length. lia.
Qed.
(* indices of the elements satisfying P, as collected in a loop, and np.delete of these *)
Lemma in_combine_nth : forall A (d : A) i x l, In (i, x) (combine (zrange (Z.of_nat (length l))) l) -> 0 <= i < Z.of_nat (length l) /\ x = nth (Z.to_nat i) l d.
Proof.
  intros A d i x l H. rewrite (combine_zrange_nth A d) in H. apply in_map_iff in H. destruct H as (j & [= <- <-] & Hj). apply in_zrange in Hj. auto.
Qed.
Lemma del_rows_filter : forall A B (h : A -> B) (P : A -> bool) l,
  del_rows (map h l) (map fst (filter (fun p => P (snd p)) (combine (zrange (Z.of_nat (length l))) l))) = map h (filter (fun x => negb (P x)) l).
Proof.
  intros A B h P l. unfold del_rows. rewrite map_length.
  set (dd := map fst (filter (fun p => P (snd p)) (combine (zrange (Z.of_nat (length l))) l))).
  assert (Hdd: forall i x, In (i, x) (combine (zrange (Z.of_nat (length l))) l) -> existsb (Z.eqb i) dd = P x).
  { intros i x Hin. destruct (P x) eqn:E.
    - apply existsb_exists. exists i. split; [|apply Z.eqb_refl]. unfold dd. apply in_map_iff. exists (i, x). split; [auto|]. apply filter_In. auto.
    - destruct (existsb (Z.eqb i) dd) eqn:F; [|reflexivity]. apply existsb_exists in F. destruct F as (j & Hj & Ej). apply Z.eqb_eq in Ej. subst j.
      unfold dd in Hj. apply in_map_iff in Hj. destruct Hj as ((i' & x') & Hi & Hf). cbn in Hi. subst i'. apply filter_In in Hf. destruct Hf as [Hf Px]. cbn in Px.
      pose proof (in_combine_nth A x i x l Hin) as [_ E1]. pose proof (in_combine_nth A x i x' l Hf) as [_ E2]. congruence. }
  clearbody dd. revert Hdd. generalize (zrange_length (Z.of_nat (length l))). rewrite Nat2Z.id. generalize (zrange (Z.of_nat (length l))) as zs.
  induction l as [|x l IH]; intros zs Hl Hdd.
  - destruct zs; reflexivity.
  - destruct zs as [|z zs]; cbn in Hl; [lia|]. cbn [map combine filter fst snd].
    rewrite (Hdd z x) by now left. destruct (P x); cbn [negb map].
    + apply IH; [lia|]. intros i y Hy. apply Hdd. now right.
    + f_equal. apply IH; [lia|]. intros i y Hy. apply Hdd. now right.
Qed.

(** *** offsets *)
Lemma offsets_length : forall shs s, length (offsets s shs) = S (length shs).
Proof. induction shs; intros; cbn; auto. Qed.
Lemma offsets_nth : forall shs s k, (k <= length shs)%nat -> nth k (offsets s shs) 0 = s + zsum (map prodZ (firstn k shs)).
Proof.
  induction shs as [|sh shs IH]; intros s k H; cbn in H.
  - replace k with O by lia. cbn. lia.
  - destruct k; [cbn; lia|]. cbn [offsets nth firstn map]. rewrite IH by lia. rewrite zsum_cons. lia.
Qed.
Lemma offsets_app : forall a b s, offsets s (a ++ b) = removelast (offsets s a) ++ offsets (s + zsum (map prodZ a)) b.
Proof.
  induction a as [|sh a IH]; intros b s; cbn [app offsets map].
  - cbn. f_equal. lia.
  - rewrite IH. rewrite zsum_cons. change (removelast (s :: offsets (s + prodZ sh) a)) with
      (match offsets (s + prodZ sh) a with [] => [] | _ => s :: removelast (offsets (s + prodZ sh) a) end).
    destruct (offsets (s + prodZ sh) a) eqn:E; [destruct a; discriminate|]. cbn [app]. f_equal. f_equal. f_equal. lia.
Qed.
Lemma offsets_snoc : forall a sh s, offsets s (a ++ [sh]) = offsets s a ++ [last (offsets s a) 0 + prodZ sh].
Proof.
  induction a as [|x a IH]; intros sh s; [reflexivity|]. cbn [app offsets]. rewrite IH. 
  destruct (offsets (s + prodZ x) a) eqn:E; [destruct a; discriminate|]. reflexivity.
Qed.
Lemma offsets_last : forall a s, last (offsets s a) 0 = s + zsum (map prodZ a).
Proof.
  induction a as [|x a IH]; intros s; [cbn; lia|]. cbn [offsets map]. rewrite zsum_cons.
  replace (last (s :: offsets (s + prodZ x) a) 0) with (last (offsets (s + prodZ x) a) 0).
  - rewrite IH. lia.
  - destruct (offsets (s + prodZ x) a) eqn:E; [destruct a; discriminate|]. reflexivity.
Qed.

(** *** the last row with a given content *)
Lemma row_index_spec : forall qs q,
  match dget row_eqb (row_index qs) q with
  | Some i => 0 <= i < Z.of_nat (length qs) /\ nth (Z.to_nat i) qs [] = q
  | None => ~ In q qs
  end.
Proof.
  intros qs q. unfold row_index, dict_of.
  assert (G: forall (l : list (list Z * Z)) (m : dict (list Z) Z),
    (forall i, dget row_eqb m q = Some i -> 0 <= i < Z.of_nat (length qs) /\ nth (Z.to_nat i) qs [] = q) ->
    (forall p, In p l -> 0 <= snd p < Z.of_nat (length qs) /\ nth (Z.to_nat (snd p)) qs [] = fst p) ->
    match dget row_eqb (fold_left (fun d p => dset row_eqb d (fst p) (snd p)) l m) q with
    | Some i => 0 <= i < Z.of_nat (length qs) /\ nth (Z.to_nat i) qs [] = q
    | None => dget row_eqb m q = None /\ ~ In q (map fst l) end).
  { induction l as [|p l IH]; intros m Hm Hl; cbn [fold_left].
    - destruct (dget row_eqb m q) eqn:E; [apply Hm; auto|]. cbn. auto.
    - match goal with |- context[fold_left ?f l ?m'] => specialize (IH m') end.
      assert (A1: forall i, dget row_eqb (dset row_eqb m (fst p) (snd p)) q = Some i -> 0 <= i < Z.of_nat (length qs) /\ nth (Z.to_nat i) qs [] = q).
      { intros i Hi. rewrite (dget_dset _ rspec) in Hi. destruct (rspec (fst p) q) as [E|E]; [|auto].
        injection Hi as <-. rewrite <- E. apply Hl. now left. }
      assert (A2: forall p, In p l -> 0 <= snd p < Z.of_nat (length qs) /\ nth (Z.to_nat (snd p)) qs [] = fst p) by (intros; apply Hl; now right).
      specialize (IH A1 A2).
      revert IH. match goal with |- match ?x with _ => _ end -> _ => destruct x end; [auto|]. intros [E1 E2]. rewrite (dget_dset _ rspec) in E1.
      destruct (rspec (fst p) q) as [E|E]; [discriminate|]. split; [auto|]. cbn [map In]. tauto. }
  specialize (G (combine qs (zrange (Z.of_nat (length qs)))) []).
  assert (A1: forall i, dget row_eqb ([] : dict (list Z) Z) q = Some i -> 0 <= i < Z.of_nat (length qs) /\ nth (Z.to_nat i) qs [] = q) by discriminate.
  assert (A2: forall p, In p (combine qs (zrange (Z.of_nat (length qs)))) -> 0 <= snd p < Z.of_nat (length qs) /\ nth (Z.to_nat (snd p)) qs [] = fst p).
  { intros [q' i] Hp. apply (In_nth _ _ ([], 0)) in Hp. destruct Hp as (k & Hk & E).
    rewrite combine_length, zrange_length in Hk. rewrite combine_nth in E by (rewrite zrange_length; lia). rewrite nth_zrange in E by lia.
    injection E as <- <-. cbn. rewrite Nat2Z.id. split; [lia|reflexivity]. }
  specialize (G A1 A2). revert G. match goal with |- match ?x with _ => _ end -> _ => destruct x end; [auto|]. intros [_ G]. intro Hq. apply G.
  apply (In_nth _ _ []) in Hq. destruct Hq as (k & Hk & E). apply in_map_iff. exists (q, Z.of_nat k). split; [reflexivity|].
  rewrite <- E. rewrite <- (nth_zrange (Z.of_nat (length qs)) k) by lia.
  rewrite <- (combine_nth qs (zrange (Z.of_nat (length qs))) k [] 0) by (rewrite zrange_length; lia). apply nth_In.
  rewrite combine_length, zrange_length. lia.
Qed.

Section FlatP.
Variable R : CRing.
Add Ring RRf : (rth R).
Notation flat := (flat R).

(** *** independent view: label rows, shapes, offsets and contents *)
(* the data of a tensor is the row-major content of its blocks one after the other *)
Definition felem (f : flat) (q xs : list Z) : R :=
  bsum (seq 0 (length (fq f))) (fun k =>
    if (if list_eq_dec Z.eq_dec (nth k (fq f) []) q then true else false) && in_shapeb (nth k (fsh f) []) xs
    then nth (Z.to_nat (zsum (map prodZ (firstn k (fsh f))) + ravel (nth k (fsh f) []) xs)) (fdata f) (r0 R) else r0 R).
Definition wf_flat (f : flat) : Prop :=
  length (fsh f) = length (fq f) /\ (forall sh, In sh (fsh f) -> Forall (fun d => 0 <= d) sh) /\
  Z.of_nat (length (fdata f)) = zsum (map prodZ (fsh f)) /\
  length (fidx f) = S (length (fq f)) /\ (forall k, (k <= length (fq f))%nat -> nth k (fidx f) 0 = zsum (map prodZ (firstn k (fsh f)))).

(* elements of a list of blocks *)
Definition relem (t : list (list Z * nd R)) (q xs : list Z) : R := bsum t (fun b => if row_eqb (fst b) q then nget (snd b) xs else r0 R).
Lemma relem_elem : forall t q xs, relem t q xs = elem R code_label t q xs.
Proof.
  intros t q xs.
  assert (G: forall a c : list Z, row_eqb a c = tup_eqb code_label a c).
  { intros a c. destruct (rspec a c) as [E|E]; destruct (tup_eqb_spec code_label a c) as [F|F]; try reflexivity; exfalso; [exact (F E)|exact (E F)]. }
  unfold relem, elem. apply bsum_ext. intros b _. rewrite G. reflexivity.
Qed.
Lemma relem_cons : forall b t q xs, relem (b :: t) q xs = radd R (if row_eqb (fst b) q then nget (snd b) xs else r0 R) (relem t q xs).
Proof. reflexivity. Qed.
Lemma relem_app : forall a b q xs, relem (a ++ b) q xs = radd R (relem a q xs) (relem b q xs).
Proof. intros. apply bsum_app. Qed.

(** *** working view: list of (labels, (shape, content)) *)
Notation blk := (list Z * (list Z * list R))%type.
Definition okb (b : blk) : Prop := Forall (fun d => 0 <= d) (fst (snd b)) /\ Z.of_nat (length (snd (snd b))) = prodZ (fst (snd b)).
Definition pack (bs : list blk) : flat :=
  mkFlat R (map fst bs) (map (fun b => fst (snd b)) bs) (concat (map (fun b => snd (snd b)) bs)) (offsets 0 (map (fun b => fst (snd b)) bs)).
Definition tens (bs : list blk) : list (list Z * nd R) := map (fun b => (fst b, reshape_nd R (fst (snd b)) (snd (snd b)))) bs.

Lemma pack_wf : forall bs, Forall okb bs -> wf_flat (pack bs).
Proof.
  intros bs H. unfold wf_flat, pack. cbn [fq fsh fdata fidx]. rewrite !map_length, offsets_length, map_length.
  split; [reflexivity|]. split; [|split; [|split; [reflexivity|]]].
  - intros sh Hs. apply in_map_iff in Hs. destruct Hs as (b & <- & Hb). rewrite Forall_forall in H. apply (H b Hb).
  - rewrite zlen_concat. rewrite !map_map. f_equal. apply map_ext_in. intros b Hb. rewrite Forall_forall in H. apply (H b Hb).
  - intros k Hk. rewrite offsets_nth by (rewrite map_length; auto). lia.
Qed.
Lemma chunks_exist : forall shs (data : list R), (forall sh, In sh shs -> Forall (fun d => 0 <= d) sh) -> Z.of_nat (length data) = zsum (map prodZ shs) ->
  exists cs, concat cs = data /\ Forall2 (fun sh c => Z.of_nat (length c) = prodZ sh) shs cs.
Proof.
  induction shs as [|sh shs IH]; intros data Hs Hl.
  - exists []. cbn in Hl. destruct data; [split; [reflexivity|constructor]|cbn in Hl; lia].
  - cbn [map] in Hl. rewrite zsum_cons in Hl. assert (P: 0 <= prodZ sh) by (apply prodZ_nonneg, Hs; now left).
    assert (P2: 0 <= zsum (map prodZ shs)).
    { apply zsum_nonneg. intros x Hx. apply in_map_iff in Hx. destruct Hx as (s & <- & Hin). apply prodZ_nonneg, Hs. now right. }
    destruct (IH (skipn (Z.to_nat (prodZ sh)) data)) as (cs & E1 & E2).
    + intros s Hin. apply Hs. now right.
    + rewrite skipn_length. lia.
    + exists (firstn (Z.to_nat (prodZ sh)) data :: cs). split; [cbn; rewrite E1; apply firstn_skipn|]. constructor; [|auto].
      rewrite firstn_length. lia.
Qed.
Lemma wf_pack : forall f, wf_flat f -> exists bs, Forall okb bs /\ f = pack bs.
Proof.
  intros [qs shs data idx] (H1 & H2 & H3 & H4 & H5). cbn [fq fsh fdata fidx] in *.
  destruct (chunks_exist shs data H2 H3) as (cs & E1 & E2).
  exists (combine qs (combine shs cs)).
  pose proof (Forall2_len _ _ _ _ _ E2) as L1.
  assert (Ei: idx = offsets 0 shs).
  { apply nth_ext with (d := 0) (d' := 0); [rewrite offsets_length; lia|]. intros k Hk. rewrite offsets_nth by lia. rewrite H5 by lia. lia. }
  assert (C: map fst (combine qs (combine shs cs)) = qs /\ map (fun b => fst (snd b)) (combine qs (combine shs cs)) = shs
     /\ map (fun b => snd (snd b)) (combine qs (combine shs cs)) = cs).
  { clear - H1 L1. revert shs cs H1 L1. induction qs as [|q qs IH]; intros [|sh shs] [|c cs] A B; cbn in *; try lia; auto.
    destruct (IH shs cs) as (I1 & I2 & I3); [lia|lia|]. rewrite I1, I2, I3. auto. }
  destruct C as (C1 & C2 & C3). split.
  - clear - E2 H2 H1. revert qs H1. induction E2 as [|sh c shs cs Hc E2 IH]; intros [|q qs] H1; cbn in *; try constructor; try lia.
    + split; cbn; [apply H2; now left|auto].
    + apply IH; [intros; apply H2; now right|lia].
  - unfold pack. rewrite C1, C2, C3. now rewrite E1, Ei.
Qed.

Lemma pack_offset : forall bs, Forall okb bs -> forall k, zsum (map prodZ (firstn k (map (fun b : blk => fst (snd b)) bs)))
  = Z.of_nat (length (concat (map (fun b : blk => snd (snd b)) (firstn k bs)))).
Proof.
  intros bs H k. rewrite zlen_concat, !map_map, firstn_map, map_map. f_equal. apply map_ext_in. intros b Hb.
  rewrite Forall_forall in H. symmetry. apply H. rewrite <- (firstn_skipn k bs). apply in_or_app. auto.
Qed.
Definition dblk : blk := ([], ([], [])).
Lemma pack_nth_q : forall bs k, (k < length bs)%nat -> nth k (map fst bs) [] = fst (nth k bs dblk).
Proof. intros bs k H. change [] with (fst dblk) at 1. apply map_nth. Qed.
Lemma pack_nth_sh : forall bs k, nth k (map (fun b : blk => fst (snd b)) bs) [] = fst (snd (nth k bs dblk)).
Proof. intros bs k. change [] with ((fun b : blk => fst (snd b)) dblk) at 1. apply map_nth. Qed.

Lemma nget_reshape : forall sh c xs, nget (reshape_nd R sh c) xs = if in_shapeb sh xs then nth (Z.to_nat (ravel sh xs)) c (r0 R) else r0 R.
Proof. reflexivity. Qed.

Lemma felem_pack : forall bs q xs, Forall okb bs -> felem (pack bs) q xs = relem (tens bs) q xs.
Proof.
  intros bs q xs H. unfold felem, relem, tens. cbn [pack fq fsh fdata]. rewrite map_length.
  rewrite bsum_map. cbn [fst snd].
  transitivity (bsum (map (fun k => nth k bs dblk) (seq 0 (length bs))) (fun b => if row_eqb (fst b) q then nget (reshape_nd R (fst (snd b)) (snd (snd b))) xs else r0 R)).
  - rewrite bsum_map. apply bsum_ext. intros k Hk. apply in_seq in Hk. rewrite pack_nth_q by lia. rewrite pack_nth_sh.
    rewrite pack_offset by auto. set (b := nth k bs dblk).
    destruct (list_eq_dec Z.eq_dec (fst b) q) as [E|E]; destruct (rspec (fst b) q) as [F|F]; try congruence; [|reflexivity].
    cbn [andb]. rewrite nget_reshape. destruct (in_shapeb (fst (snd b)) xs) eqn:S1; [|reflexivity].
    apply in_shapeb_spec in S1. pose proof (ravel_range _ _ S1) as Rg.
    assert (Hb: okb b) by (rewrite Forall_forall in H; apply H; apply nth_In; lia). destruct Hb as [_ Lb].
    rewrite (split_at _ bs k dblk) at 2 by lia. rewrite map_app, concat_app. cbn [map concat].
    rewrite Z2Nat.inj_add by lia. rewrite Nat2Z.id. rewrite app_nth2_plus. fold b. rewrite app_nth1 by lia. reflexivity.
  - f_equal. apply nth_ext with (d := dblk) (d' := dblk); [now rewrite map_length, seq_length|].
    intros k Hk. rewrite map_length, seq_length in Hk. rewrite (nth_indep _ dblk ((fun k => nth k bs dblk) O)) by now rewrite map_length, seq_length.
    rewrite (map_nth (fun k => nth k bs dblk)). now rewrite seq_nth by auto.
Qed.

Lemma pack_idx : forall bs k, Forall okb bs -> (k <= length bs)%nat ->
  nth k (fidx (pack bs)) 0 = Z.of_nat (length (concat (map (fun b : blk => snd (snd b)) (firstn k bs)))).
Proof. intros bs k H Hk. cbn [pack fidx]. rewrite offsets_nth by now rewrite map_length. rewrite pack_offset by auto. lia. Qed.
Lemma pack_n : forall bs, n_blocks R (pack bs) = Z.of_nat (length bs).
Proof. intros. unfold n_blocks. cbn. now rewrite map_length. Qed.
Lemma pack_row : forall bs i, 0 <= i < Z.of_nat (length bs) -> row (fq (pack bs)) i = fst (nth (Z.to_nat i) bs dblk).
Proof. intros bs i H. unfold row. cbn [pack fq]. apply pack_nth_q. lia. Qed.
Lemma pack_chunk_gen : forall bs (data : list R) k, Forall okb bs -> (k < length bs)%nat ->
  forall cs : list (list R), Forall2 (fun (b : blk) c => length c = length (snd (snd b))) bs cs -> data = concat cs ->
  sl data (idx_at R (pack bs) (Z.of_nat k)) (idx_at R (pack bs) (Z.of_nat k + 1)) = nth k cs [] /\
  forall v, length v = length (nth k cs []) -> set_sl data (idx_at R (pack bs) (Z.of_nat k)) v = concat (upd k v cs).
Proof.
  intros bs data k H Hk cs HF ->. pose proof (Forall2_len _ _ _ _ _ HF) as L1. unfold idx_at.
  replace (Z.to_nat (Z.of_nat k + 1)) with (S k) by lia. rewrite Nat2Z.id. rewrite !pack_idx by (auto; lia).
  assert (E: forall j, (j <= length bs)%nat -> length (concat (map (fun b : blk => snd (snd b)) (firstn j bs))) = length (concat (firstn j cs))).
  { clear - HF. induction HF as [|b c bs cs E HF IH]; intros j Hj; [destruct j; reflexivity|]. destruct j; [reflexivity|].
    cbn [firstn map concat] in *. rewrite !app_length, E. cbn in Hj. rewrite IH by lia. reflexivity. }
  rewrite !E by lia. pose proof (split_at _ cs k [] ltac:(lia)) as Sp.
  assert (E2: firstn (S k) cs = firstn k cs ++ [nth k cs []]).
  { rewrite Sp at 1. rewrite firstn_app, firstn_firstn, firstn_length. replace (Nat.min (S k) k) with k by lia.
    replace (S k - Nat.min k (length cs))%nat with 1%nat by lia. reflexivity. }
  rewrite E2, concat_app, app_length. cbn [concat]. rewrite app_nil_r.
  unfold sl, set_sl, upd. rewrite !Nat2Z.id.
  assert (Sp2: concat cs = concat (firstn k cs) ++ nth k cs [] ++ concat (skipn (S k) cs)) by (rewrite Sp at 1; rewrite concat_app; reflexivity).
  split.
  - rewrite Sp2. rewrite skipn_exact by reflexivity. apply firstn_exact. lia.
  - intros v Hv. rewrite Sp2 at 1. rewrite firstn_exact by reflexivity. rewrite concat_app. cbn [concat]. f_equal. f_equal.
    rewrite Sp2. rewrite app_assoc. rewrite skipn_exact by (rewrite app_length; lia). reflexivity.
Qed.
Lemma pack_chunk : forall bs k, Forall okb bs -> (k < length bs)%nat -> chunk R (pack bs) (Z.of_nat k) = snd (snd (nth k bs dblk)).
Proof.
  intros bs k H Hk. unfold chunk.
  destruct (pack_chunk_gen bs (fdata (pack bs)) k H Hk (map (fun b : blk => snd (snd b)) bs)) as [E _]; [|reflexivity|].
  - clear. induction bs; constructor; auto.
  - rewrite E. change [] with ((fun b : blk => snd (snd b)) dblk). apply map_nth.
Qed.
Lemma pack_block : forall bs k, Forall okb bs -> (k < length bs)%nat ->
  block_at R (pack bs) (Z.of_nat k) = reshape_nd R (fst (snd (nth k bs dblk))) (snd (snd (nth k bs dblk))).
Proof. intros bs k H Hk. unfold block_at. rewrite pack_chunk by auto. rewrite Nat2Z.id. cbn [pack fsh]. now rewrite pack_nth_sh. Qed.

(* the block list of a well-formed tensor, seen through to_sparse *)
Lemma to_sparse_pack : forall (L : Type) (dec : Z -> L) bs, Forall okb bs ->
  to_sparse R dec (pack bs) = map (fun b => (map dec (fst b), snd b)) (tens bs).
Proof.
  intros L dec bs H. unfold to_sparse, tens. rewrite pack_n, map_map. cbn [fst snd].
  rewrite <- (map_nth_zrange blk _ dblk (fun b => (map dec (fst b), reshape_nd R (fst (snd b)) (snd (snd b)))) bs).
  apply map_ext_in. intros i Hi. apply in_zrange in Hi. rewrite pack_row by auto.
  f_equal. rewrite <- (Z2Nat.id i) at 1 by lia. rewrite pack_block by (auto; lia). reflexivity.
Qed.

(** *** from_sparse *)
Definition bview {L : Type} (enc : L -> Z) (t : list (list L * nd R)) : list blk :=
  map (fun b => (map enc (fst b), (nshape (snd b), ravel_nd R (snd b)))) t.
Lemma ravel_nd_length : forall (a : nd R), Forall (fun d => 0 <= d) (nshape a) -> Z.of_nat (length (ravel_nd R a)) = prodZ (nshape a).
Proof.
  intros a H. unfold ravel_nd. rewrite map_length. rewrite <- (map_length (ravel (nshape a))). rewrite all_idx_ravel by auto.
  rewrite zrange_length. pose proof (prodZ_nonneg _ H). lia.
Qed.
Lemma bview_ok : forall (L : Type) (enc : L -> Z) t, (forall b, In b t -> Forall (fun d => 0 <= d) (nshape (snd b))) -> Forall okb (bview enc t).
Proof.
  intros L enc t H. apply Forall_forall. intros b Hb. apply in_map_iff in Hb. destruct Hb as (b' & <- & Hb').
  split; cbn; [apply H; auto|]. apply ravel_nd_length, H. auto.
Qed.
(* filling preallocated data block by block *)
Lemma fill_blocks : forall bs, Forall okb bs -> forall cs : list (list R), Forall2 (fun (b : blk) c => length c = length (snd (snd b))) bs cs ->
  forall k, (k <= length bs)%nat ->
  fold_left (fun data p => set_sl data (idx_at R (pack bs) (fst p)) (snd (snd (snd p)))) (combine (zrange (Z.of_nat k)) (firstn k bs)) (concat cs)
  = concat (map (fun b : blk => snd (snd b)) (firstn k bs) ++ skipn k cs).
Proof.
  intros bs H cs HF k. pose proof (Forall2_len _ _ _ _ _ HF) as L1. induction k as [|k IH]; intros Hk; [reflexivity|].
  assert (E2: firstn (S k) bs = firstn k bs ++ [nth k bs dblk]).
  { rewrite (split_at _ bs k dblk) at 1 by lia. rewrite firstn_app, firstn_firstn, firstn_length. replace (Nat.min (S k) k) with k by lia.
    replace (S k - Nat.min k (length bs))%nat with 1%nat by lia. reflexivity. }
  rewrite E2. replace (Z.of_nat (S k)) with (Z.of_nat k + 1) by lia. rewrite zrange_succ by lia.
  assert (Lk: length (firstn k bs) = k) by (rewrite firstn_length; lia).
  rewrite combine_app by (rewrite zrange_length, Lk; lia). rewrite fold_left_app. rewrite IH by lia.
  cbn [combine fold_left fst snd].
  set (cs' := map (fun b : blk => snd (snd b)) (firstn k bs) ++ skipn k cs).
  assert (HF': Forall2 (fun (b : blk) c => length c = length (snd (snd b))) bs cs').
  { rewrite <- (firstn_skipn k bs). unfold cs'. apply Forall2_app.
    - clear. induction (firstn k bs); constructor; auto.
    - clear - HF. revert k. induction HF; intros k; destruct k; cbn [skipn]; auto; constructor; auto. }
  destruct (pack_chunk_gen bs (concat cs') k H ltac:(lia) cs' HF' eq_refl) as [_ G].
  assert (Nk: nth k cs' [] = nth k cs []).
  { unfold cs'. rewrite app_nth2 by (rewrite map_length; lia). rewrite map_length, Lk, Nat.sub_diag.
    rewrite (split_at _ cs k []) at 1 by lia. rewrite skipn_exact; [reflexivity|rewrite firstn_length; lia]. }
  rewrite G.
  - f_equal. unfold upd, cs'. rewrite firstn_app, firstn_all2 by (rewrite map_length; lia). rewrite map_length, Lk, Nat.sub_diag, firstn_O, app_nil_r.
    rewrite map_app, <- app_assoc. cbn [map app]. f_equal. f_equal. rewrite skipn_app. rewrite skipn_all2 by (rewrite map_length; lia).
    rewrite map_length, Lk. replace (S k - k)%nat with 1%nat by lia. cbn [app]. apply skipn_S.
  - rewrite Nk. clear - HF Hk. revert k Hk. induction HF; intros k Hk; cbn in Hk; [lia|]. destruct k; cbn [nth]; [auto|]. apply IHHF. lia.
Qed.
Lemma repeat_zsum : forall (bs : list blk) , Forall okb bs ->
  repeat (r0 R) (Z.to_nat (zsum (map (fun b : blk => prodZ (fst (snd b))) bs))) = concat (map (fun b => repeat (r0 R) (length (snd (snd b)))) bs).
Proof.
  induction 1 as [|b bs [Hn Hb] HF IH]; [reflexivity|]. cbn [map concat]. rewrite zsum_cons, <- Hb.
  assert (0 <= zsum (map (fun b : blk => prodZ (fst (snd b))) bs)).
  { apply zsum_nonneg. intros x Hx. apply in_map_iff in Hx. destruct Hx as (b' & <- & Hin). rewrite Forall_forall in HF. destruct (HF b' Hin) as [A _]. now apply prodZ_nonneg. }
  rewrite Z2Nat.inj_add by lia. rewrite repeat_app, IH, Nat2Z.id. reflexivity.
Qed.
Lemma from_sparse_pack : forall (L : Type) (enc : L -> Z) t, (forall b, In b t -> Forall (fun d => 0 <= d) (nshape (snd b))) ->
  from_sparse R enc t = pack (bview enc t).
Proof.
  intros L enc t H. pose proof (bview_ok L enc t H) as Ok. unfold from_sparse.
  assert (E1: map (fun b : list L * nd R => map enc (fst b)) t = map fst (bview enc t)) by (unfold bview; now rewrite map_map).
  assert (E2: map (fun b : list L * nd R => nshape (snd b)) t = map (fun b => fst (snd b)) (bview enc t)) by (unfold bview; now rewrite map_map).
  rewrite E1, E2. unfold pack. f_equal.
  rewrite offsets_last. rewrite Z.add_0_l, map_map. rewrite repeat_zsum by auto.
  pose proof (fill_blocks (bview enc t) Ok (map (fun b => repeat (r0 R) (length (snd (snd b)))) (bview enc t))) as F.
  assert (HF: Forall2 (fun (b : blk) c => length c = length (snd (snd b))) (bview enc t) (map (fun b => repeat (r0 R) (length (snd (snd b)))) (bview enc t))).
  { clear. induction (bview enc t); constructor; auto. apply repeat_length. }
  specialize (F HF (length (bview enc t)) ltac:(lia)). rewrite firstn_all in F. rewrite skipn_all2 in F by (rewrite map_length; lia).
  rewrite app_nil_r in F. rewrite <- F.
  assert (Lb: length (bview enc t) = length t) by (unfold bview; apply map_length). rewrite Lb.
  assert (Cb: combine (zrange (Z.of_nat (length t))) (bview enc t) = map (fun p => (fst p, (map enc (fst (snd p)), (nshape (snd (snd p)), ravel_nd R (snd (snd p)))))) (combine (zrange (Z.of_nat (length t))) t)).
  { unfold bview. generalize (zrange (Z.of_nat (length t))). clear. intros l. revert t. induction l; intros [|b t]; cbn; auto. now rewrite IHl. }
  rewrite Cb. rewrite <- fold_map. cbn [fst snd]. reflexivity.
Qed.
Lemma nth_all_idx : forall sh xs, in_shape sh xs -> Forall (fun d => 0 <= d) sh -> nth (Z.to_nat (ravel sh xs)) (all_idx sh) [] = xs.
Proof.
  intros sh xs Hx Hs. pose proof (ravel_range _ _ Hx) as Rg. pose proof (all_idx_ravel sh Hs) as E.
  assert (Ll: length (all_idx sh) = Z.to_nat (prodZ sh)) by (rewrite <- (map_length (ravel sh)), E; apply zrange_length).
  assert (Hin: In (nth (Z.to_nat (ravel sh xs)) (all_idx sh) []) (all_idx sh)) by (apply nth_In; lia).
  apply in_all_idx in Hin. apply (ravel_inj sh); auto.
  transitivity (nth (Z.to_nat (ravel sh xs)) (map (ravel sh) (all_idx sh)) 0).
  - rewrite (nth_indep _ 0 (ravel sh [])) by (rewrite map_length; lia). now rewrite map_nth.
  - rewrite E, nth_zrange by lia. lia.
Qed.
Lemma nget_ravel : forall (a : nd R) xs, Forall (fun d => 0 <= d) (nshape a) -> nget (reshape_nd R (nshape a) (ravel_nd R a)) xs = nget a xs.
Proof.
  intros a xs H. unfold nget. cbn [reshape_nd nshape nval]. destruct (in_shapeb (nshape a) xs) eqn:E; [|reflexivity].
  apply in_shapeb_spec in E. unfold ravel_nd. pose proof (ravel_range _ _ E). pose proof (ravel_nd_length a H) as Ll. unfold ravel_nd in Ll. rewrite map_length in Ll.
  rewrite (nth_indep _ (r0 R) (nval a [])) by (rewrite map_length; lia). rewrite map_nth. now rewrite nth_all_idx.
Qed.
Lemma elem_bview : forall (t : list (list Z * nd R)) q xs, (forall b, In b t -> Forall (fun d => 0 <= d) (nshape (snd b))) ->
  relem (tens (bview (fun x : Z => x) t)) q xs = relem t q xs.
Proof.
  intros t q xs H. unfold relem, tens, bview. rewrite map_map, bsum_map. apply bsum_ext. intros b Hb. cbn [fst snd].
  rewrite map_id.
  destruct (row_eqb (fst b) q); [|reflexivity]. now apply nget_ravel, H.
Qed.

(** *** addition *)
Lemma vadd_length : forall a b, length a = length b -> length (vadd R a b) = length a.
Proof. intros. unfold vadd. rewrite map_length, combine_length. lia. Qed.
Lemma vadd_nth : forall a b k, length a = length b -> nth k (vadd R a b) (r0 R) = radd R (nth k a (r0 R)) (nth k b (r0 R)).
Proof.
  induction a as [|x a IH]; intros [|y b] k H; cbn in H; try lia.
  - unfold vadd. cbn. destruct k; ring.
  - destruct k; [reflexivity|]. cbn [nth]. rewrite <- IH by lia. reflexivity.
Qed.
Lemma nget_vadd : forall sh a b xs, length a = length b ->
  nget (reshape_nd R sh (vadd R a b)) xs = radd R (nget (reshape_nd R sh a) xs) (nget (reshape_nd R sh b) xs).
Proof. intros. rewrite !nget_reshape. destruct (in_shapeb sh xs); [apply vadd_nth; auto|ring]. Qed.

Definition with_chunks (bs : list blk) (cs : list (list R)) : list blk := map (fun p => (fst (fst p), (fst (snd (fst p)), snd p))) (combine bs cs).
Lemma with_chunks_props : forall bs cs, Forall2 (fun (b : blk) c => length c = length (snd (snd b))) bs cs ->
  map fst (with_chunks bs cs) = map fst bs /\ map (fun b : blk => fst (snd b)) (with_chunks bs cs) = map (fun b : blk => fst (snd b)) bs
  /\ map (fun b : blk => snd (snd b)) (with_chunks bs cs) = cs /\ (Forall okb bs -> Forall okb (with_chunks bs cs)).
Proof.
  unfold with_chunks. induction 1 as [|b c bs cs E HF (I1 & I2 & I3 & I4)]; cbn [combine map fst snd]; [auto|].
  rewrite I1, I2, I3. split; [auto|split; [auto|split; [auto|]]]. intros H. inversion H; subst. constructor; [|auto].
  destruct H2 as [A B]. split; cbn; [auto|]. rewrite E. exact B.
Qed.
Lemma with_chunks_upd : forall bs cs k v, Forall2 (fun (b : blk) c => length c = length (snd (snd b))) bs cs -> (k < length bs)%nat ->
  length v = length (nth k cs []) ->
  Forall2 (fun (b : blk) c => length c = length (snd (snd b))) bs (upd k v cs) /\
  forall q xs, relem (tens (with_chunks bs (upd k v cs))) q xs =
    radd R (relem (tens (with_chunks bs cs)) q xs)
      (if row_eqb (fst (nth k bs dblk)) q then rsub R (nget (reshape_nd R (fst (snd (nth k bs dblk))) v) xs) (nget (reshape_nd R (fst (snd (nth k bs dblk))) (nth k cs [])) xs) else r0 R).
Proof.
  intros bs cs k v HF. revert k. induction HF as [|b c bs cs E HF IH]; intros k Hk Hv; cbn in Hk; [lia|]. destruct k.
  - cbn [upd firstn skipn app nth] in *. split; [constructor; [congruence|auto]|]. intros q xs. unfold with_chunks, tens. cbn [combine map fst snd].
    rewrite !relem_cons. cbn [fst snd]. destruct (row_eqb (fst b) q); ring.
  - cbn [nth] in Hv. destruct (IH k ltac:(lia) Hv) as [I1 I2]. unfold upd in *. cbn [firstn skipn app nth] in *. split; [constructor; auto|].
    intros q xs. specialize (I2 q xs). unfold with_chunks, tens in *. cbn [combine map fst snd app]. rewrite !relem_cons. cbn [fst snd].
    rewrite I2. ring.
Qed.

Definition labb (bs : list blk) (q : list Z) : bool := existsb (row_eqb q) (map fst bs).
Lemma labb_spec : forall bs q, labb bs q = true <-> In q (map fst bs).
Proof.
  intros. unfold labb. rewrite existsb_exists. split.
  - intros (x & Hx & E). destruct (rspec q x); [now subst|discriminate].
  - intros H. exists q. split; [auto|]. destruct (rspec q q); congruence.
Qed.
Definition agree (ba bb : list blk) : Prop := forall x y, In x ba -> In y bb -> fst x = fst y -> fst (snd x) = fst (snd y).

Lemma add_loop : forall ba bb, Forall okb ba -> Forall okb bb -> agree ba bb -> forall k, (k <= length bb)%nat ->
  exists cs : list (list R), Forall2 (fun (b : blk) c => length c = length (snd (snd b))) ba cs /\
  fold_left (add_step R (pack ba) (pack bb) (row_index (fq (pack ba)))) (zrange (Z.of_nat k)) (fdata (pack ba), [], [])
  = (concat cs, map fst (filter (fun p => labb ba (fst (snd p))) (combine (zrange (Z.of_nat k)) (firstn k bb))),
     map (fun b : blk => snd (snd b)) (filter (fun b => negb (labb ba (fst b))) (firstn k bb))) /\
  forall q xs, relem (tens (with_chunks ba cs)) q xs =
    radd R (relem (tens ba) q xs) (relem (tens (filter (fun b => labb ba (fst b)) (firstn k bb))) q xs).
Proof.
  intros ba bb Ha Hb Hag k. induction k as [|k IH]; intros Hk.
  - exists (map (fun b : blk => snd (snd b)) ba). split; [clear; induction ba; constructor; auto|]. split; [reflexivity|].
    intros q xs. assert (W: with_chunks ba (map (fun b : blk => snd (snd b)) ba) = ba).
    { unfold with_chunks. clear. induction ba as [|[q [s c]] ba IH]; cbn; [auto|]. now rewrite IH. }
    rewrite W. cbn [firstn filter]. change (relem (tens []) q xs) with (r0 R). ring.
  - destruct IH as (cs & HF & E & G); [lia|].
    set (b := nth k bb dblk). assert (Hin: In b bb) by (apply nth_In; lia).
    assert (E2: firstn (S k) bb = firstn k bb ++ [b]).
    { unfold b. rewrite (split_at _ bb k dblk) at 1 by lia. rewrite firstn_app, firstn_firstn, firstn_length. replace (Nat.min (S k) k) with k by lia.
      replace (S k - Nat.min k (length bb))%nat with 1%nat by lia. reflexivity. }
    replace (Z.of_nat (S k)) with (Z.of_nat k + 1) by lia. rewrite zrange_succ by lia.
    rewrite fold_left_app. rewrite E. rewrite E2, !filter_app. cbn [fold_left].
    rewrite combine_app by (rewrite zrange_length, firstn_length; lia). rewrite filter_app. cbn [combine filter fst snd].
    unfold add_step at 1. rewrite pack_row by lia. rewrite Nat2Z.id. fold b.
    pose proof (row_index_spec (fq (pack ba)) (fst b)) as RI. change (fq (pack ba)) with (map fst ba) in RI |- *.
    pose proof (labb_spec ba (fst b)) as Lb.
    destruct (dget row_eqb (row_index (map fst ba)) (fst b)) as [ia|].
    + destruct RI as [Ri Rq]. rewrite map_length in Ri.
      assert (Lt: labb ba (fst b) = true) by (apply Lb; rewrite <- Rq; apply nth_In; rewrite map_length; lia).
      rewrite Lt. cbn [negb filter map app].
      rewrite pack_nth_q in Rq by lia. set (x := nth (Z.to_nat ia) ba dblk) in *.
      assert (Hx: In x ba) by (apply nth_In; lia).
      assert (Es: fst (snd x) = fst (snd b)) by (apply Hag; auto).
      assert (Lc: length (nth (Z.to_nat ia) cs []) = length (snd (snd b))).
      { transitivity (length (snd (snd x))).
        - unfold x. assert (Hlt: (Z.to_nat ia < length ba)%nat) by lia. revert Hlt. generalize (Z.to_nat ia). clear - HF.
          induction HF; intros n Hn; cbn in Hn; [lia|]. destruct n; cbn; [auto|]. apply IHHF. lia.
        - rewrite Forall_forall in Ha, Hb. destruct (Ha x Hx) as [_ A], (Hb b Hin) as [_ B]. rewrite Es in A. lia. }
      destruct (pack_chunk_gen ba (concat cs) (Z.to_nat ia) Ha ltac:(lia) cs HF eq_refl) as [C1 C2]. rewrite Z2Nat.id in C1, C2 by lia.
      rewrite C1, pack_chunk by (auto; lia). fold b.
      assert (Lv: length (vadd R (nth (Z.to_nat ia) cs []) (snd (snd b))) = length (nth (Z.to_nat ia) cs [])) by now apply vadd_length.
      rewrite C2 by auto.
      destruct (with_chunks_upd ba cs (Z.to_nat ia) _ HF ltac:(lia) Lv) as [U1 U2].
      exists (upd (Z.to_nat ia) (vadd R (nth (Z.to_nat ia) cs []) (snd (snd b))) cs). split; [exact U1|]. split.
      * rewrite map_app. cbn [map fst]. rewrite app_nil_r. reflexivity.
      * intros q xs. rewrite U2, G. unfold tens at 4. rewrite map_app. fold (tens (filter (fun b0 => labb ba (fst b0)) (firstn k bb))).
        rewrite relem_app. cbn [map]. rewrite relem_cons. cbn [fst snd]. change (relem [] q xs) with (r0 R). fold x. rewrite Rq, Es.
        rewrite nget_vadd by auto. destruct (row_eqb (fst b) q); ring.
    + assert (Lt: labb ba (fst b) = false) by (destruct (labb ba (fst b)); [exfalso; apply RI, Lb; auto|auto]).
      rewrite Lt. cbn [negb filter map app].
      rewrite pack_chunk by (auto; lia). fold b.
      exists cs. split; [exact HF|]. split; [rewrite !app_nil_r, map_app; reflexivity|].
      intros q xs. rewrite G, app_nil_r. reflexivity.
Qed.

Lemma elem_filter : forall (P : blk -> bool) bs q xs, relem (tens bs) q xs =
  radd R (relem (tens (filter P bs)) q xs) (relem (tens (filter (fun b => negb (P b)) bs)) q xs).
Proof.
  intros P bs q xs. induction bs as [|b bs IH]; [cbn; ring|]. unfold tens in *. cbn [filter map]. rewrite relem_cons. rewrite IH. destruct (P b); cbn [negb map]; rewrite relem_cons; cbn [fst snd]; ring.
Qed.
Lemma add_kernel_spec : forall ba bb, Forall okb ba -> Forall okb bb -> agree ba bb ->
  exists bs, Forall okb bs /\ flat_add_kernel R (pack ba) (pack bb) = pack bs /\
  map (fun b : blk => (fst b, fst (snd b))) bs = map (fun b : blk => (fst b, fst (snd b))) (ba ++ filter (fun b => negb (labb ba (fst b))) bb) /\
  forall q xs, relem (tens bs) q xs = radd R (relem (tens ba) q xs) (relem (tens bb) q xs).
Proof.
  intros ba bb Ha Hb Hag. destruct (add_loop ba bb Ha Hb Hag (length bb) ltac:(lia)) as (cs & HF & E & G).
  rewrite firstn_all in E, G. destruct (with_chunks_props ba cs HF) as (W1 & W2 & W3 & W4).
  exists (with_chunks ba cs ++ filter (fun b => negb (labb ba (fst b))) bb). split; [|split; [|split]].
  - apply Forall_app. split; [auto|]. apply Forall_forall. intros x Hx. apply filter_In in Hx. rewrite Forall_forall in Hb. apply Hb. tauto.
  - unfold flat_add_kernel. rewrite pack_n. rewrite E. unfold new_flat, pack. cbn [fq fsh].
    rewrite (del_rows_filter blk _ fst (fun b => labb ba (fst b))). rewrite (del_rows_filter blk _ (fun b => fst (snd b)) (fun b => labb ba (fst b))).
    rewrite !map_app, concat_app, W1, W2, W3. reflexivity.
  - rewrite !map_app. f_equal. clear - HF. unfold with_chunks. induction HF; cbn; [auto|]. now rewrite IHHF.
  - intros q xs. rewrite (elem_filter (fun b => labb ba (fst b)) bb). unfold tens at 1. rewrite map_app. rewrite relem_app. fold (tens (with_chunks ba cs)).
    rewrite G. fold (tens (filter (fun b => negb (labb ba (fst b))) bb)). ring.
Qed.

(** *** negation *)
Definition negb_blk (b : blk) : blk := (fst b, (fst (snd b), map (ropp R) (snd (snd b)))).
Lemma neg_pack : forall bs, neg_data R (pack bs) = pack (map negb_blk bs).
Proof.
  intros bs. unfold neg_data, pack. cbn [fq fsh fdata fidx]. rewrite !map_map. cbn [negb_blk fst snd]. f_equal.
  rewrite concat_map, map_map. reflexivity.
Qed.
Lemma neg_ok : forall bs, Forall okb bs -> Forall okb (map negb_blk bs).
Proof.
  intros bs H. apply Forall_forall. intros b Hb. apply in_map_iff in Hb. destruct Hb as (b' & <- & Hb'). rewrite Forall_forall in H.
  destruct (H b' Hb') as [A B]. split; cbn; [auto|]. now rewrite map_length.
Qed.
Lemma neg_elem : forall bs q xs, relem (tens (map negb_blk bs)) q xs = ropp R (relem (tens bs) q xs).
Proof.
  intros bs q xs. induction bs as [|b bs IH]; [cbn; ring|]. unfold tens in *. cbn [map]. rewrite !relem_cons, IH. cbn [fst snd negb_blk].
  rewrite !nget_reshape. destruct (row_eqb (fst b) q); [|ring]. destruct (in_shapeb (fst (snd b)) xs); [|ring].
  assert (N: forall l k, nth k (map (ropp R) l) (r0 R) = ropp R (nth k l (r0 R))).
  { induction l; intros [|k]; cbn; auto; ring. }
  rewrite N. ring.
Qed.
Lemma tens_fst : forall bs, map fst (tens bs) = map fst bs.
Proof. intros. unfold tens. now rewrite map_map. Qed.

(** *** conditional assignment of blocks *)
Lemma cond_fill : forall bs, Forall okb bs -> forall cs : list (list R), Forall2 (fun (b : blk) c => length c = length (snd (snd b))) bs cs ->
  forall g : Z -> option (list R), (forall k v, (k < length bs)%nat -> g (Z.of_nat k) = Some v -> length v = length (snd (snd (nth k bs dblk)))) ->
  forall k, (k <= length bs)%nat ->
  fold_left (fun data i => match g i with Some v => set_sl data (idx_at R (pack bs) i) v | None => data end) (zrange (Z.of_nat k)) (concat cs)
  = concat (map (fun j => match g (Z.of_nat j) with Some v => v | None => nth j cs [] end) (seq 0 k) ++ skipn k cs).
Proof.
  intros bs H cs HF g Hg k. pose proof (Forall2_len _ _ _ _ _ HF) as L1.
  assert (Ln: forall j, (j < length bs)%nat -> length (nth j cs []) = length (snd (snd (nth j bs dblk)))).
  { clear - HF. induction HF; intros j Hj; cbn in Hj; [lia|]. destruct j; cbn; [auto|]. apply IHHF. lia. }
  induction k as [|k IH]; intros Hk; [reflexivity|].
  replace (Z.of_nat (S k)) with (Z.of_nat k + 1) by lia. rewrite zrange_succ by lia. rewrite fold_left_app, IH by lia. cbn [fold_left].
  rewrite seq_S, map_app. cbn [map plus].
  set (pre := map (fun j => match g (Z.of_nat j) with Some v => v | None => nth j cs [] end) (seq 0 k)).
  assert (Lp: length pre = k) by (unfold pre; rewrite map_length; apply seq_length).
  assert (Sk: skipn k cs = nth k cs [] :: skipn (S k) cs).
  { rewrite (split_at _ cs k []) at 1 by lia. rewrite skipn_exact; [reflexivity|rewrite firstn_length; lia]. }
  destruct (g (Z.of_nat k)) as [v|] eqn:E.
  - assert (HF': Forall2 (fun (b : blk) c => length c = length (snd (snd b))) bs (pre ++ skipn k cs)).
    { rewrite <- (firstn_skipn k bs). apply Forall2_app.
      - assert (G: forall j, (j <= length bs)%nat -> Forall2 (fun (b : blk) c => length c = length (snd (snd b))) (firstn j bs)
           (map (fun j => match g (Z.of_nat j) with Some v => v | None => nth j cs [] end) (seq 0 j))).
        { induction j as [|j IHj]; intros Hj; [constructor|]. rewrite seq_S, map_app.
          assert (E2: firstn (S j) bs = firstn j bs ++ [nth j bs dblk]).
          { rewrite (split_at _ bs j dblk) at 1 by lia. rewrite firstn_app, firstn_firstn, firstn_length. replace (Nat.min (S j) j) with j by lia.
            replace (S j - Nat.min j (length bs))%nat with 1%nat by lia. reflexivity. }
          rewrite E2. apply Forall2_app; [apply IHj; lia|]. cbn [map plus]. constructor; [|constructor].
          destruct (g (Z.of_nat j)) as [w|] eqn:F; [apply Hg; [lia|auto]|]. apply Ln. lia. }
        apply G. lia.
      - clear - HF. revert k. induction HF; intros k; destruct k; cbn [skipn]; auto; constructor; auto. }
    destruct (pack_chunk_gen bs _ k H ltac:(lia) _ HF' eq_refl) as [_ C].
    assert (Nk: nth k (pre ++ skipn k cs) [] = nth k cs []) by (rewrite app_nth2 by lia; rewrite Lp, Nat.sub_diag, Sk; reflexivity).
    rewrite C by (rewrite Nk, Ln by lia; apply Hg; [lia|auto]). f_equal. unfold upd. rewrite firstn_exact by auto.
    rewrite <- app_assoc. cbn [app]. f_equal. f_equal. rewrite skipn_app, skipn_all2 by lia. rewrite Lp. replace (S k - k)%nat with 1%nat by lia.
    cbn [app]. apply skipn_S.
  - rewrite Sk, <- app_assoc. reflexivity.
Qed.

(* blocks with new contents *)
Lemma relem_nodup : forall bs b xs, NoDup (map fst bs) -> In b bs -> relem (tens bs) (fst b) xs = nget (reshape_nd R (fst (snd b)) (snd (snd b))) xs.
Proof.
  intros bs b xs. induction bs as [|b0 bs IH]; intros Hn Hb; [destruct Hb|]. cbn [map] in Hn. inversion Hn; subst. unfold tens. cbn [map]. rewrite relem_cons. cbn [fst snd].
  fold (tens bs). destruct Hb as [->|Hb].
  - destruct (rspec (fst b) (fst b)); [|congruence].
    assert (Z0: relem (tens bs) (fst b) xs = r0 R).
    { apply bsum_zero. intros c Hc. destruct (rspec (fst c) (fst b)) as [E|]; [|reflexivity]. exfalso. apply H1. rewrite <- E, <- (tens_fst bs). now apply in_map. }
    rewrite Z0. ring.
  - destruct (rspec (fst b0) (fst b)) as [E|]; [exfalso; apply H1; rewrite E; now apply in_map|]. rewrite IH by auto. ring.
Qed.
Lemma relem_absent : forall bs q xs, ~ In q (map fst bs) -> relem (tens bs) q xs = r0 R.
Proof.
  intros bs q xs H. apply bsum_zero. intros c Hc. destruct (rspec (fst c) q) as [E|]; [|reflexivity]. exfalso. apply H. rewrite <- E, <- (tens_fst bs). now apply in_map.
Qed.

Definition lookup_chunk (bo : list blk) (q : list Z) : option (list R) :=
  option_map (fun i => snd (snd (nth (Z.to_nat i) bo dblk))) (dget row_eqb (row_index (map fst bo)) q).
Lemma lookup_spec : forall bo q, match lookup_chunk bo q with
  | Some c => exists b, In b bo /\ fst b = q /\ snd (snd b) = c | None => ~ In q (map fst bo) end.
Proof.
  intros bo q. unfold lookup_chunk. pose proof (row_index_spec (map fst bo) q) as H.
  destruct (dget row_eqb (row_index (map fst bo)) q) as [i|]; cbn [option_map]; [|exact H]. destruct H as [Hi Hq]. rewrite map_length in Hi.
  rewrite pack_nth_q in Hq by lia. exists (nth (Z.to_nat i) bo dblk). split; [apply nth_In; lia|auto].
Qed.
Definition cast_blocks (bs bo : list blk) : list blk :=
  map (fun b => (fst b, (fst (snd b), match lookup_chunk bo (fst b) with Some v => v | None => snd (snd b) end))) bs.
Definition removed_blocks (bs bo : list blk) : list blk :=
  map (fun b => (fst b, (fst (snd b), if labb bs (fst b) then repeat (r0 R) (length (snd (snd b))) else snd (snd b)))) bo.

Lemma cast_assign_pack : forall bs bo, Forall okb bs -> Forall okb bo -> agree bs bo ->
  cast_assign R (pack bs) (pack bo) = pack (cast_blocks bs bo) /\ Forall okb (cast_blocks bs bo).
Proof.
  intros bs bo Hs Ho Hag.
  assert (Len: forall b v, In b bs -> lookup_chunk bo (fst b) = Some v -> length v = length (snd (snd b))).
  { intros b v Hb E. pose proof (lookup_spec bo (fst b)) as Lk. rewrite E in Lk. destruct Lk as (b' & Hb' & Eq & <-).
    rewrite Forall_forall in Hs, Ho. destruct (Hs b Hb) as [_ A], (Ho b' Hb') as [_ B]. rewrite (Hag b b' Hb Hb' (eq_sym Eq)) in A. lia. }
  split.
  - unfold cast_assign, cast_blocks. rewrite pack_n.
    transitivity (mkFlat R (fq (pack bs)) (fsh (pack bs)) (concat (map (fun b : blk => match lookup_chunk bo (fst b) with Some v => v | None => snd (snd b) end) bs)) (fidx (pack bs))).
    + f_equal.
      transitivity (fold_left (fun data i => match (fun i => lookup_chunk bo (row (fq (pack bs)) i)) i with Some v => set_sl data (idx_at R (pack bs) i) v | None => data end)
        (zrange (Z.of_nat (length bs))) (concat (map (fun b : blk => snd (snd b)) bs))).
      * cbn beta. change (fdata (pack bs)) with (concat (map (fun b : blk => snd (snd b)) bs)). generalize (concat (map (fun b : blk => snd (snd b)) bs)).
        assert (E: forall i data, (match dget row_eqb (row_index (fq (pack bo))) (row (fq (pack bs)) i) with
           | Some ia => set_sl data (idx_at R (pack bs) i) (chunk R (pack bo) ia) | None => data end)
          = match lookup_chunk bo (row (fq (pack bs)) i) with Some v => set_sl data (idx_at R (pack bs) i) v | None => data end).
        { intros i data. unfold lookup_chunk. change (fq (pack bo)) with (map fst bo).
          pose proof (row_index_spec (map fst bo) (row (fq (pack bs)) i)) as RI.
          destruct (dget row_eqb (row_index (map fst bo)) (row (fq (pack bs)) i)) as [ia|]; cbn [option_map]; [|reflexivity].
          rewrite map_length in RI. rewrite <- (Z2Nat.id ia) at 1 by lia. rewrite pack_chunk by (auto; lia). reflexivity. }
        intros l. apply fold_ext. intros m x. apply E.
      * rewrite cond_fill; auto.
        -- rewrite skipn_all2 by (rewrite map_length; lia). rewrite app_nil_r. f_equal.
           apply nth_ext with (d := []) (d' := []); [rewrite !map_length, seq_length; reflexivity|]. intros k Hk. rewrite map_length, seq_length in Hk.
           set (F := fun j => match lookup_chunk bo (row (fq (pack bs)) (Z.of_nat j)) with Some v => v | None => nth j (map (fun b : blk => snd (snd b)) bs) [] end).
           rewrite (nth_indep _ [] (F O)) by (rewrite map_length, seq_length; auto). rewrite (map_nth F), seq_nth by auto. cbn [plus].
           set (G := fun b : blk => match lookup_chunk bo (fst b) with Some v => v | None => snd (snd b) end).
           rewrite (nth_indep (map G bs) [] (G dblk)) by (rewrite map_length; auto). rewrite (map_nth G). unfold F, G.
           rewrite pack_row by lia. rewrite Nat2Z.id. destruct (lookup_chunk bo (fst (nth k bs dblk))); [reflexivity|]. exact (map_nth (fun b : blk => snd (snd b)) bs dblk k).
        -- clear. induction bs; constructor; auto.
        -- intros k v Hk E. rewrite pack_row in E by lia. rewrite Nat2Z.id in E. apply Len; [apply nth_In; auto|auto].
    + unfold pack. cbn [fq fsh fidx]. rewrite !map_map. reflexivity.
  - apply Forall_forall. intros b Hb. apply in_map_iff in Hb. destruct Hb as (b0 & <- & Hb0). rewrite Forall_forall in Hs. destruct (Hs b0 Hb0) as [A B].
    split; cbn [fst snd]; [auto|]. destruct (lookup_chunk bo (fst b0)) as [v|] eqn:E; [|auto]. rewrite (Len b0 v Hb0 E). exact B.
Qed.
Lemma removed_pack : forall bs bo, Forall okb bo ->
  cast_assign_removed R (pack bs) (pack bo) = pack (removed_blocks bs bo) /\ Forall okb (removed_blocks bs bo).
Proof.
  intros bs bo Ho. split.
  - unfold cast_assign_removed, removed_blocks. rewrite pack_n.
    transitivity (mkFlat R (fq (pack bo)) (fsh (pack bo)) (concat (map (fun b : blk => if labb bs (fst b) then repeat (r0 R) (length (snd (snd b))) else snd (snd b)) bo)) (fidx (pack bo))).
    + f_equal.
      assert (Zd: map (fun _ => r0 R) (fdata (pack bo)) = concat (map (fun b : blk => repeat (r0 R) (length (snd (snd b)))) bo)).
      { cbn [pack fdata]. rewrite concat_map, map_map. f_equal. apply map_ext. intros b. induction (snd (snd b)); cbn; [auto|]. now f_equal. }
      rewrite Zd.
      transitivity (fold_left (fun data i => match (fun i => if labb bs (row (fq (pack bo)) i) then None else Some (chunk R (pack bo) i)) i with Some v => set_sl data (idx_at R (pack bo) i) v | None => data end)
        (zrange (Z.of_nat (length bo))) (concat (map (fun b : blk => repeat (r0 R) (length (snd (snd b)))) bo))).
      * cbn beta. generalize (concat (map (fun b : blk => repeat (r0 R) (length (snd (snd b)))) bo)). intros l. apply fold_ext. intros m i.
        change (fq (pack bs)) with (map fst bs). pose proof (row_index_spec (map fst bs) (row (fq (pack bo)) i)) as RI. pose proof (labb_spec bs (row (fq (pack bo)) i)) as Lb.
        destruct (dget row_eqb (row_index (map fst bs)) (row (fq (pack bo)) i)) as [ia|].
        -- rewrite (proj2 Lb); [reflexivity|]. destruct RI as [Ri <-]. apply nth_In. lia.
        -- destruct (labb bs (row (fq (pack bo)) i)); [exfalso; apply RI, Lb; auto|reflexivity].
      * rewrite cond_fill; auto.
        -- rewrite skipn_all2 by (rewrite map_length; lia). rewrite app_nil_r. f_equal.
           apply nth_ext with (d := []) (d' := []); [rewrite !map_length, seq_length; reflexivity|]. intros k Hk. rewrite map_length, seq_length in Hk.
           set (F := fun j => match (if labb bs (row (fq (pack bo)) (Z.of_nat j)) then None else Some (chunk R (pack bo) (Z.of_nat j))) with Some v => v
              | None => nth j (map (fun b : blk => repeat (r0 R) (length (snd (snd b)))) bo) [] end).
           rewrite (nth_indep _ [] (F O)) by (rewrite map_length, seq_length; auto). rewrite (map_nth F), seq_nth by auto. cbn [plus].
           set (G := fun b : blk => if labb bs (fst b) then repeat (r0 R) (length (snd (snd b))) else snd (snd b)).
           rewrite (nth_indep (map G bo) [] (G dblk)) by (rewrite map_length; auto). rewrite (map_nth G). unfold F, G.
           rewrite pack_row by lia. rewrite Nat2Z.id. rewrite pack_chunk by auto.
           destruct (labb bs (fst (nth k bo dblk))); [|reflexivity].
           apply (map_nth (fun b : blk => repeat (r0 R) (length (snd (snd b)))) bo dblk k).
        -- clear. induction bo; constructor; auto. apply repeat_length.
        -- intros k v Hk. rewrite pack_row by lia. rewrite Nat2Z.id. destruct (labb bs (fst (nth k bo dblk))); [discriminate|]. intros [= <-]. now rewrite pack_chunk.
    + unfold pack. cbn [fq fsh fidx]. rewrite !map_map. reflexivity.
  - apply Forall_forall. intros b Hb. apply in_map_iff in Hb. destruct Hb as (b0 & <- & Hb0). rewrite Forall_forall in Ho. destruct (Ho b0 Hb0) as [A B].
    split; cbn [fst snd]; [auto|]. destruct (labb bs (fst b0)); [|auto]. now rewrite repeat_length.
Qed.
Lemma cast_elem : forall bs bo q xs, agree bs bo -> NoDup (map fst bs) -> NoDup (map fst bo) ->
  relem (tens (cast_blocks bs bo)) q xs = if labb bs q then (if labb bo q then relem (tens bo) q xs else relem (tens bs) q xs) else r0 R.
Proof.
  intros bs bo q xs Hag Ns No. pose proof (labb_spec bs q) as Ls. pose proof (labb_spec bo q) as Lo.
  assert (Ec: map fst (cast_blocks bs bo) = map fst bs) by (unfold cast_blocks; now rewrite map_map).
  destruct (labb bs q).
  - assert (Hq: In q (map fst bs)) by now apply Ls. apply in_map_iff in Hq. destruct Hq as (b & <- & Hb).
    set (F := fun b : blk => (fst b, (fst (snd b), match lookup_chunk bo (fst b) with Some v => v | None => snd (snd b) end)) : blk).
    pose proof (relem_nodup (cast_blocks bs bo) (F b) xs) as E. rewrite Ec in E. specialize (E Ns (in_map F bs b Hb)). cbn [F fst snd] in E. rewrite E.
    pose proof (lookup_spec bo (fst b)) as Lk. destruct (lookup_chunk bo (fst b)) as [v|].
    + destruct Lk as (b' & Hb' & Eq & <-). rewrite (proj2 Lo) by (rewrite <- Eq; now apply in_map). rewrite <- Eq. rewrite relem_nodup by auto.
      rewrite (Hag b b' Hb Hb' (eq_sym Eq)). reflexivity.
    + destruct (labb bo (fst b)); [exfalso; apply Lk, Lo; auto|]. now rewrite relem_nodup.
  - apply relem_absent. rewrite Ec. intro Hq. apply Ls in Hq. discriminate.
Qed.
Lemma removed_elem : forall bs bo q xs, relem (tens (removed_blocks bs bo)) q xs = if labb bs q then r0 R else relem (tens bo) q xs.
Proof.
  intros bs bo q xs. induction bo as [|b bo IH]; [cbn; destruct (labb bs q); reflexivity|].
  unfold removed_blocks, tens in *. cbn [map]. rewrite !relem_cons. cbn [fst snd]. rewrite IH.
  destruct (rspec (fst b) q) as [->|N].
  - destruct (labb bs q); [|reflexivity]. rewrite nget_reshape.
    assert (Zr: forall n k, nth k (repeat (r0 R) n) (r0 R) = r0 R) by (induction n; intros [|k]; cbn; auto).
    rewrite Zr. destruct (in_shapeb (fst (snd b)) xs); ring.
  - destruct (labb bs q); ring.
Qed.

(** *** transposition *)
Definition tr_blk (p : list Z) (b : blk) : blk :=
  (pick 0 p (fst b), (pick 0 p (fst (snd b)), ravel_nd R (nd_transpose p (reshape_nd R (fst (snd b)) (snd (snd b)))))).
Lemma prodZ_perm : forall a b, Permutation a b -> prodZ a = prodZ b.
Proof. unfold prodZ. induction 1; cbn [fold_right]; lia. Qed.
Lemma pick_perm : forall n p l, Permutation (zrange n) p -> Z.of_nat (length l) = n -> Permutation l (pick 0 p l).
Proof.
  intros n p l Hp Hl. unfold pick. rewrite <- Hp. subst n.
  assert (E: l = map (fun i => nth (Z.to_nat i) l 0) (zrange (Z.of_nat (length l)))) by (rewrite (map_nth_zrange Z Z 0 (fun x => x)); symmetry; apply map_id).
  rewrite <- E. apply Permutation_refl.
Qed.
Lemma pick_nonneg : forall p l, Forall (fun d => 0 <= d) l -> Forall (fun d => 0 <= d) (pick 0 p l).
Proof.
  intros p l H. apply Forall_forall. intros x Hx. apply in_map_iff in Hx. destruct Hx as (i & <- & _).
  destruct (le_lt_dec (length l) (Z.to_nat i)); [rewrite nth_overflow by auto; lia|]. rewrite Forall_forall in H. apply H, nth_In. auto.
Qed.
Lemma transpose_pack : forall n p bs, Permutation (zrange n) p -> Forall okb bs -> (forall b, In b bs -> Z.of_nat (length (fst (snd b))) = n) ->
  flat_transpose R p (pack bs) = pack (map (tr_blk p) bs) /\ Forall okb (map (tr_blk p) bs).
Proof.
  intros n p bs Hp Ok Hl. split.
  - unfold flat_transpose. rewrite pack_n. destruct (Z.eqb_spec (Z.of_nat (length bs)) 0) as [E|E].
    { destruct bs; [reflexivity|cbn in E; lia]. }
    transitivity (mkFlat R (map (fun b => pick 0 p (fst b)) bs) (map (fun b : blk => pick 0 p (fst (snd b))) bs)
      (concat (map (fun i => ravel_nd R (nd_transpose p (block_at R (pack bs) i))) (zrange (Z.of_nat (length bs))))) (offsets 0 (map (fun b : blk => fst (snd b)) bs)));
      [cbn [pack fq fsh fidx]; rewrite !map_map; reflexivity|].
    transitivity (mkFlat R (map (fun b => pick 0 p (fst b)) bs) (map (fun b : blk => pick 0 p (fst (snd b))) bs)
      (concat (map (fun b : blk => ravel_nd R (nd_transpose p (reshape_nd R (fst (snd b)) (snd (snd b))))) bs)) (offsets 0 (map (fun b : blk => pick 0 p (fst (snd b))) bs)));
      [|unfold pack; rewrite !map_map; reflexivity].
    f_equal.
    + f_equal. rewrite <- (map_nth_zrange blk _ dblk (fun b => ravel_nd R (nd_transpose p (reshape_nd R (fst (snd b)) (snd (snd b))))) bs).
      apply map_ext_in. intros i Hi. apply in_zrange in Hi. rewrite <- (Z2Nat.id i) at 1 by lia. rewrite pack_block by (auto; lia). reflexivity.
    + assert (G: forall s (l : list blk), (forall b, In b l -> Z.of_nat (length (fst (snd b))) = n) ->
         offsets s (map (fun b : blk => fst (snd b)) l) = offsets s (map (fun x : blk => pick 0 p (fst (snd x))) l)).
      { intros s l. revert s. induction l as [|b l IH]; intros s Hl'; [reflexivity|]. cbn [map offsets]. f_equal.
        rewrite <- (prodZ_perm _ _ (pick_perm n p _ Hp (Hl' b (or_introl eq_refl)))). apply IH. intros; apply Hl'; now right. }
      apply G. auto.
  - apply Forall_forall. intros b Hb. apply in_map_iff in Hb. destruct Hb as (b0 & <- & Hb0). rewrite Forall_forall in Ok. destruct (Ok b0 Hb0) as [A B].
    split; cbn [tr_blk fst snd]; [now apply pick_nonneg|]. rewrite ravel_nd_length; [reflexivity|]. cbn [nshape nd_transpose reshape_nd]. now apply pick_nonneg.
Qed.
Lemma transpose_elem : forall n p bs q xs, Permutation (zrange n) p -> Forall okb bs ->
  (forall b, In b bs -> Z.of_nat (length (fst b)) = n /\ Z.of_nat (length (fst (snd b))) = n) ->
  Z.of_nat (length q) = n -> Z.of_nat (length xs) = n ->
  relem (tens (map (tr_blk p) bs)) (pick 0 p q) (pick 0 p xs) = relem (tens bs) q xs.
Proof.
  intros n p bs q xs Hp Ok Hl Hq Hx. unfold relem, tens. rewrite map_map, !bsum_map. apply bsum_ext. intros b Hb. cbn [tr_blk fst snd].
  destruct (Hl b Hb) as [L1 L2].
  destruct (rspec (pick 0 p (fst b)) (pick 0 p q)) as [E|E], (rspec (fst b) q) as [F|F]; try reflexivity.
  - change (pick 0 p (fst (snd b))) with (nshape (nd_transpose p (reshape_nd R (fst (snd b)) (snd (snd b))))).
    rewrite nget_ravel.
    + apply (nget_transpose R n p Hp); cbn; auto.
    + cbn. apply pick_nonneg. rewrite Forall_forall in Ok. apply (Ok b Hb).
  - exfalso. apply F. apply (pick_inj n p Hp Z 0); auto.
  - exfalso. apply E. now rewrite F.
Qed.

(** *** contraction *)
Definition putr (m : dict (list Z) (nd R)) (p : list Z * nd R) : dict (list Z) (nd R) :=
  match dget row_eqb m (fst p) with
  | Some v => dset row_eqb m (fst p) (nd_add v (snd p))
  | None => dset row_eqb m (fst p) (snd p)
  end.
Lemma row_tup : forall a c : list Z, row_eqb a c = tup_eqb code_label a c.
Proof. intros a c. destruct (rspec a c) as [E|E]; destruct (tup_eqb_spec code_label a c) as [F|F]; try reflexivity; exfalso; [exact (F E)|exact (E F)]. Qed.
Lemma dget_row : forall V (m : dict (list Z) V) q, dget row_eqb m q = @dget (list code_label) V (tup_eqb code_label) m q.
Proof. induction m as [|[k v] m IH]; intros q; cbn [dget]; [reflexivity|]. rewrite row_tup, IH. reflexivity. Qed.
Lemma dset_row : forall V (m : dict (list Z) V) q v, dset row_eqb m q v = @dset (list code_label) V (tup_eqb code_label) m q v.
Proof. induction m as [|[k w] m IH]; intros q v; cbn [dset]; [reflexivity|]. rewrite row_tup, IH. reflexivity. Qed.
Lemma putr_put : forall m p, putr m p = put_with R code_label nd_add (fun x => x) m p.
Proof. intros m [q v]. unfold putr, put_with. cbn [fst snd]. rewrite dget_row. destruct (@dget (list code_label) (nd R) (tup_eqb code_label) m q); apply dset_row. Qed.

Definition st_of (m : dict (list Z) (nd R)) : fstate R :=
  (combine (map fst m) (zrange (Z.of_nat (length m))), map fst m, map (fun b => nshape (snd b)) m, map (fun b => ravel_nd R (snd b)) m,
   offsets 0 (map (fun b => nshape (snd b)) m)).
Lemma pos_lookup : forall (m : dict (list Z) (nd R)) s q, NoDup (map fst m) ->
  match dget row_eqb (combine (map fst m) (map Z.of_nat (seq s (length m)))) q with
  | Some z => exists k v, z = Z.of_nat (s + k) /\ (k < length m)%nat /\ dget row_eqb m q = Some v /\ In (q, v) m /\
      (forall d, nth k m d = (q, v)) /\ forall w, dset row_eqb m q w = firstn k m ++ (q, w) :: skipn (S k) m
  | None => dget row_eqb m q = None /\ ~ In q (map fst m)
  end.
Proof.
  induction m as [|[k0 v0] m IH]; intros s q Hn; cbn [map length seq combine dget fst]; [auto|].
  cbn [map fst] in Hn. inversion Hn; subst. destruct (rspec k0 q) as [->|N].
  - exists O, v0. rewrite Nat.add_0_r. cbn [length nth firstn skipn app dset]. rewrite (eqb_refl' _ rspec).
    split; [reflexivity|split; [lia|split; [reflexivity|split; [now left|split; [reflexivity|reflexivity]]]]].
  - specialize (IH (S s) q H2). destruct (dget row_eqb (combine (map fst m) (map Z.of_nat (seq (S s) (length m)))) q) as [z|].
    + destruct IH as (k & v & E1 & E2 & E3 & E4 & E5 & E6). exists (S k), v. split; [rewrite E1; f_equal; lia|]. split; [cbn; lia|]. split; [auto|].
      split; [now right|]. split; [intros d; cbn; apply E5|]. intros w. cbn [dset firstn skipn app]. destruct (rspec k0 q); [congruence|]. now rewrite E6.
    + destruct IH as [A B]. split; [auto|]. cbn [In]. intuition.
Qed.
Lemma ravel_nd_add : forall a b : nd R, nshape a = nshape b -> ravel_nd R (nd_add a b) = vadd R (ravel_nd R a) (ravel_nd R b).
Proof.
  intros a b E. unfold ravel_nd, vadd. cbn [nd_add nshape nval]. rewrite <- E. induction (all_idx (nshape a)) as [|x l IH]; cbn; [auto|]. now f_equal.
Qed.
Lemma put_mat_spec : forall m q mat, NoDup (map fst m) -> (forall v, In (q, v) m -> nshape v = nshape mat) ->
  put_mat R (st_of m) q mat = st_of (putr m (q, mat)).
Proof.
  intros m q mat Hn Hs. unfold put_mat, st_of, putr. cbn [fst snd].
  pose proof (pos_lookup m O q Hn) as PL. unfold zrange at 1 2. rewrite Nat2Z.id.
  destruct (dget row_eqb (combine (map fst m) (map Z.of_nat (seq 0 (length m)))) q) as [z|] eqn:Ez.
  - destruct PL as (k & v & -> & E2 & E3 & E4 & E5 & E6). rewrite E3, E6. cbn [plus]. rewrite !Nat2Z.id.
    pose proof (split_at _ m k ([], mkNd [] (fun _ => r0 R)) E2) as Sp. rewrite E5 in Sp.
    assert (Lm: length (firstn k m ++ (q, nd_add v mat) :: skipn (S k) m) = length m).
    { rewrite app_length, firstn_length. cbn [length]. rewrite skipn_length. lia. }
    assert (M1: map fst (firstn k m ++ (q, nd_add v mat) :: skipn (S k) m) = map fst m) by (rewrite Sp at 3; rewrite !map_app; reflexivity).
    assert (M2: map (fun b : list Z * nd R => nshape (snd b)) (firstn k m ++ (q, nd_add v mat) :: skipn (S k) m) = map (fun b => nshape (snd b)) m)
      by (rewrite Sp at 3; rewrite !map_app; reflexivity).
    rewrite Lm, M1, M2. f_equal. f_equal.
    + unfold zrange. rewrite Nat2Z.id. reflexivity.
    + rewrite map_app. cbn [map snd]. rewrite ravel_nd_add by (apply Hs; auto).
      rewrite firstn_map, skipn_map. f_equal. f_equal.
      rewrite (nth_indep _ [] (ravel_nd R (snd ([] : list Z, mkNd [] (fun _ => r0 R))))) by (rewrite map_length; auto).
      rewrite (map_nth (fun b : list Z * nd R => ravel_nd R (snd b))), E5. reflexivity.
  - destruct PL as [E1 E2]. rewrite E1. rewrite (dset_fresh _ rspec m) by auto.
    rewrite (dset_fresh _ rspec).
    + rewrite !map_app, app_length, map_length. cbn [map length fst snd]. rewrite offsets_snoc.
      replace (zrange (Z.of_nat (length m + 1))) with (zrange (Z.of_nat (length m)) ++ [Z.of_nat (length m)]) by (rewrite <- zrange_succ by lia; f_equal; lia).
      rewrite combine_app by (rewrite map_length, zrange_length; lia). cbn [combine]. unfold zrange. rewrite Nat2Z.id. reflexivity.
    + intro Hin. apply E2. unfold keys in Hin. apply in_map_iff in Hin. destruct Hin as ((q', z') & <- & Hc). apply in_combine_l in Hc. exact Hc.
Qed.
Lemma fold_put_mat : forall l m, NoDup (map fst m) -> same_shapes R code_label (m ++ l) ->
  fold_left (fun st p => put_mat R st (fst p) (snd p)) l (st_of m) = st_of (fold_left putr l m).
Proof.
  induction l as [|[q mat] l IH]; intros m Hn Hs; [reflexivity|]. cbn [fold_left fst snd].
  rewrite put_mat_spec.
  - apply IH.
    + rewrite putr_put. apply (acc_keys R code_label nd_add (fun x => x) [(q, mat)] m). exact Hn.
    + intros b b' Hb Hb' E. rewrite putr_put in Hb, Hb'.
      assert (O: forall x, In x (put_with R code_label nd_add (fun x => x) m (q, mat) ++ l) -> exists y, In y (m ++ (q, mat) :: l) /\ fst y = fst x /\ nshape (snd y) = nshape (snd x)).
      { intros x Hx. apply in_app_or in Hx. destruct Hx as [Hx|Hx].
        - destruct (acc_origin R code_label nd_add (fun x => x) (fun a b => eq_refl) (fun a => eq_refl) [(q, mat)] m x Hx) as (y & Hy & A & B).
          exists y. split; [|auto]. apply in_app_or in Hy. apply in_or_app. destruct Hy as [Hy|[Hy|[]]]; [auto|right; left; auto].
        - exists x. split; [apply in_or_app; right; now right|auto]. }
      destruct (O b Hb) as (y & Hy & A & B), (O b' Hb') as (y' & Hy' & A' & B'). rewrite <- B, <- B'. apply Hs; auto. congruence.
  - exact Hn.
  - intros v Hv. apply (Hs (q, v) (q, mat)); [apply in_or_app; auto|apply in_or_app; right; now left|reflexivity].
Qed.

Lemma ctr_index_get : forall idxb b k,
  odflt [] (dget row_eqb (ctr_index R idxb b) k) = filter (fun ib => row_eqb (pick 0 idxb (row (fq b) ib)) k) (zrange (n_blocks R b)).
Proof.
  intros idxb b k. unfold ctr_index.
  assert (G: forall l (m : dict (list Z) (list Z)),
    odflt [] (dget row_eqb (fold_left (fun m ib => let k := pick 0 idxb (row (fq b) ib) in dset row_eqb m k (odflt [] (dget row_eqb m k) ++ [ib])) l m) k)
    = odflt [] (dget row_eqb m k) ++ filter (fun ib => row_eqb (pick 0 idxb (row (fq b) ib)) k) l).
  { induction l as [|ib l IH]; intros m; cbn [fold_left filter]; [now rewrite app_nil_r|].
    rewrite IH. rewrite (dget_dset _ rspec). destruct (rspec (pick 0 idxb (row (fq b) ib)) k) as [->|N]; [|reflexivity].
    cbn [odflt]. rewrite <- app_assoc. reflexivity. }
  rewrite G. reflexivity.
Qed.
Lemma filter_map : forall A B (f : A -> B) (P : B -> bool) l, filter P (map f l) = map f (filter (fun x => P (f x)) l).
Proof. induction l as [|x l IH]; cbn; [auto|]. destruct (P (f x)); cbn; now rewrite IH. Qed.
Lemma tens_zrange : forall bs, Forall okb bs -> tens bs = map (fun i => (row (fq (pack bs)) i, block_at R (pack bs) i)) (zrange (Z.of_nat (length bs))).
Proof.
  intros bs H. unfold tens. rewrite <- (map_nth_zrange blk _ dblk (fun b => (fst b, reshape_nd R (fst (snd b)) (snd (snd b)))) bs).
  apply map_ext_in. intros i Hi. apply in_zrange in Hi. rewrite pack_row by auto. f_equal.
  rewrite <- (Z2Nat.id i) at 3 by lia. rewrite pack_block by (auto; lia). reflexivity.
Qed.
Lemma contribs_flat : forall ba bb idxa idxb outa outb, Forall okb ba -> Forall okb bb ->
  contribs R code_label (tens ba) (tens bb) idxa idxb outa outb =
  flat_map (fun ia => map (fun ib => (pick 0 outa (row (fq (pack ba)) ia) ++ pick 0 outb (row (fq (pack bb)) ib),
      nd_tensordot (block_at R (pack ba) ia) (block_at R (pack bb) ib) idxa idxb))
    (odflt [] (dget row_eqb (ctr_index R idxb (pack bb)) (pick 0 idxa (row (fq (pack ba)) ia))))) (zrange (Z.of_nat (length ba))).
Proof.
  intros ba bb idxa idxb outa outb Ha Hb. unfold contribs. rewrite (tens_zrange ba Ha), (tens_zrange bb Hb).
  rewrite flat_map_concat_map, map_map, <- flat_map_concat_map. apply flat_map_ext. intros ia. cbn [fst snd].
  rewrite ctr_index_get, pack_n. rewrite filter_map, map_map. cbn [fst snd].
  erewrite filter_ext; [reflexivity|]. intros ib. cbn [fst snd]. symmetry. apply row_tup.
Qed.
Lemma fndim_pack : forall n dm bs, wf_tensor R code_label n dm (tens bs) -> bs <> [] -> fndim R (pack bs) = n.
Proof.
  intros n dm bs H Hn. destruct bs as [|b bs]; [congruence|]. unfold fndim. cbn [pack fq map].
  apply (H (fst b, reshape_nd R (fst (snd b)) (snd (snd b)))). now left.
Qed.
Lemma tensordot_pack : forall ba bb na nb dma dmb axa axb, Forall okb ba -> Forall okb bb -> ba <> [] -> bb <> [] ->
  wf_tensor R code_label na dma (tens ba) -> wf_tensor R code_label nb dmb (tens bb) ->
  let idxa := norm_axes na axa in let idxb := norm_axes nb axb in
  NoDup idxa -> (forall i, In i idxa -> 0 <= i < na) -> NoDup idxb -> (forall i, In i idxb -> 0 <= i < nb) ->
  length idxa = length idxb -> (forall i j q, In (i, j) (combine idxa idxb) -> dma i q = dmb j q) ->
  exists m : list (list Z * nd R), m = fold_left (put_with R code_label nd_add (fun x => x)) (contribs R code_label (tens ba) (tens bb) idxa idxb (others na idxa) (others nb idxb)) [] /\
  flat_tensordot R (pack ba) (pack bb) axa axb = pack (bview (fun x : Z => x) m) /\
  (forall b, In b m -> Forall (fun d => 0 <= d) (nshape (snd b))).
Proof.
  intros ba bb na nb dma dmb axa axb Ha Hb Ea Eb Wa Wb idxa idxb Na Ia Nb Ib Lab Dab.
  set (cs := contribs R code_label (tens ba) (tens bb) idxa idxb (others na idxa) (others nb idxb)).
  exists (fold_left (put_with R code_label nd_add (fun x => x)) cs []). split; [reflexivity|].
  assert (Wc: wf_tensor R code_label (Z.of_nat (length (others na idxa)) + Z.of_nat (length (others nb idxb))) (dm_out code_label na nb dma dmb idxa idxb) cs).
  { apply contribs_wf; auto. }
  split.
  - unfold flat_tensordot. rewrite !pack_n. rewrite (fndim_pack na dma ba Wa Ea), (fndim_pack nb dmb bb Wb Eb). fold idxa idxb.
    destruct (Z.eqb_spec (Z.of_nat (length ba)) 0) as [E|_]; [destruct ba; [congruence|cbn in E; lia]|].
    destruct (Z.eqb_spec (Z.of_nat (length bb)) 0) as [E|_]; [destruct bb; [congruence|cbn in E; lia]|].
    match goal with |- context[fold_left ?f (zrange (Z.of_nat (length ba))) ?s] =>
      assert (F: fold_left f (zrange (Z.of_nat (length ba))) s = st_of (fold_left putr cs [])) end.
    { rewrite <- fold_put_mat; [|constructor|exact (wf_same_shapes R code_label _ _ _ Wc)].
      unfold cs. rewrite (contribs_flat ba bb idxa idxb _ _ Ha Hb). rewrite <- fold_nested.
      change (st_of []) with (@nil (list Z * Z), @nil (list Z), @nil (list Z), @nil (list R), [0]).
      apply fold_ext. intros st ia. rewrite <- fold_map. reflexivity. }
    rewrite F. unfold st_of. assert (Ep: fold_left putr cs [] = fold_left (put_with R code_label nd_add (fun x => x)) cs []) by (apply fold_ext; apply putr_put).
    rewrite Ep. unfold pack, bview. rewrite !map_map. cbn [fst snd]. f_equal. apply map_ext. intros b. symmetry. apply map_id.
  - intros b Hin. destruct (acc_origin R code_label nd_add (fun x => x) (fun a b => eq_refl) (fun a => eq_refl) cs [] b Hin) as (c & Hc & _ & Ec).
    refine (eq_ind _ (fun s => Forall (fun d => 0 <= d) s) _ _ Ec). clear Ec.
    cbn [app] in Hc. unfold cs in Hc. apply contribs_in in Hc. destruct Hc as (x & y & Hx & Hy & _ & ->). cbn [snd nshape nd_tensordot].
    assert (N: forall bs z, Forall okb bs -> In z (tens bs) -> Forall (fun d => 0 <= d) (nshape (snd z))).
    { intros bs z Hok Hz. apply in_map_iff in Hz. destruct Hz as (z0 & <- & Hz0). cbn. rewrite Forall_forall in Hok. apply (Hok z0 Hz0). }
    apply Forall_app. split; apply pick_nonneg; [exact (N ba x Ha Hx)|exact (N bb y Hb Hy)].
Qed.
End FlatP.
