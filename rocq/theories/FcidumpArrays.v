(* Index loops of the FCIDUMP writer and element assignments of the reader. *)
From Coq Require Import List Ascii String ZArith QArith Qabs Lia Bool Arith Permutation.
From Verif Require Import DictLib IndexLib TruncModel TruncProofs StrLib StrProofs FcidumpModel FcidumpProofs.
Import ListNotations.
Local Open Scope Z_scope.
Local Open Scope list_scope.
Notation length := List.length.

Definition T (i : Z) : Z := i * (i + 1) / 2.
Lemma T2 : forall i, 2 * T i = i * (i + 1).
Proof.
  intros i. unfold T. destruct (Z.Even_or_Odd i) as [[k ->]|[k ->]].
  - replace (2 * k * (2 * k + 1)) with (k * (2 * k + 1) * 2) by ring. rewrite Z.div_mul; lia.
  - replace ((2 * k + 1) * (2 * k + 1 + 1)) with ((2 * k + 1) * (k + 1) * 2) by ring. rewrite Z.div_mul; lia.
Qed.
Lemma T_succ : forall i, T (i + 1) = T i + i + 1.
Proof. intros i. assert (A := T2 i). assert (B := T2 (i + 1)). nia. Qed.
Lemma T_mono : forall i k, 0 <= i -> i < k -> T i + i + 1 <= T k.
Proof. intros i k H L. assert (A := T2 i). assert (B := T2 k). nia. Qed.
Lemma T_nonneg : forall i, 0 <= i -> 0 <= T i.
Proof. intros i H. assert (A := T2 i). nia. Qed.

Lemma tri_succ : forall m, 0 <= m -> tri (m + 1) = tri m ++ map (fun j => (m, j)) (zrange (m + 1)).
Proof.
  intros m H. unfold tri. rewrite zrange_succ at 1 by exact H. rewrite flat_map_app. cbn [flat_map].
  now rewrite app_nil_r.
Qed.
Lemma tri_length : forall m, 0 <= m -> Z.of_nat (length (tri m)) = T m.
Proof.
  intros m H. pattern m. apply natlike_ind; [reflexivity| |exact H].
  intros x Hx IH. change (Z.succ x) with (x + 1).
  rewrite tri_succ, app_length, map_length, zrange_length by lia. rewrite T_succ. lia.
Qed.
Lemma enum_zrange : forall n, 0 <= n -> enumerate (zrange n) = map (fun j => (j, j)) (zrange n).
Proof.
  intros n H. unfold enumerate. rewrite zrange_length, Z2Nat.id by lia.
  induction (zrange n) as [|a l IH]; [reflexivity|]. cbn. now f_equal.
Qed.
Lemma enum_map : forall (A B : Type) (f : A -> B) l, enumerate (map f l) = map (fun p => (fst p, f (snd p))) (enumerate l).
Proof.
  intros A B f l. induction l as [|a l IH] using rev_ind; [reflexivity|].
  rewrite map_app, !enumerate_app, IH, map_app, map_length. reflexivity.
Qed.
Lemma enum_tri : forall m, 0 <= m -> forall x i j,
  In (x, (i, j)) (enumerate (tri m)) <-> 0 <= j <= i /\ i < m /\ x = T i + j.
Proof.
  intros m H. pattern m. apply natlike_ind; [|clear m H|exact H].
  - intros x i j. cbn. split; [tauto|lia].
  - intros m H IH x i j. change (Z.succ m) with (m + 1). rewrite tri_succ, enumerate_app, in_app_iff, IH by lia.
    rewrite tri_length by lia. rewrite enum_map, enum_zrange by lia. rewrite !map_map. cbn [fst snd].
    rewrite in_map_iff. split.
    + intros [E|[y [E I]]]; [lia|]. inversion E; subst. apply in_zrange in I. lia.
    + intros [A [B C]]. destruct (Z.eq_dec i m) as [->|N].
      * right. exists j. split; [congruence|]. apply in_zrange. lia.
      * left. lia.
Qed.

Lemma in_quads8 : forall n i j k l, 0 <= n ->
  In (i, j, k, l) (quads8 n) <-> 0 <= j <= i /\ 0 <= l <= k /\ i < n /\ T k + l <= T i + j.
Proof.
  intros n i j k l H. unfold quads8. rewrite in_flat_map. split.
  - intros [[x [a b]] [I J]]. apply enum_tri in I; [|exact H]. cbn [fst snd] in J.
    apply in_map_iff in J. destruct J as [[y [c d]] [E J]]. cbn [fst snd] in E. inversion E; subst.
    apply filter_In in J. destruct J as [J F]. cbn [fst] in F. apply enum_tri in J; lia.
  - intros [A [B [C D]]]. exists (T i + j, (i, j)). split; [apply enum_tri; lia|]. cbn [fst snd].
    apply in_map_iff. exists (T k + l, (k, l)). split; [reflexivity|].
    apply filter_In. split; [|cbn; lia]. apply enum_tri; [lia|]. split; [lia|]. split; [|reflexivity].
    destruct (Z_lt_ge_dec k (i + 1)) as [L|L]; [exact L|]. exfalso.
    assert (M := T_mono i k ltac:(lia) ltac:(lia)). lia.
Qed.

Lemma filter_keep_all : forall (A : Type) (f : A -> bool) l, (forall x, In x l -> f x = true) -> filter f l = l.
Proof.
  intros A f l. induction l as [|a l IH]; intros H; [reflexivity|]. cbn. rewrite H by now left.
  f_equal. apply IH. intros; apply H; now right.
Qed.
Lemma filter_le_length : forall (A : Type) (l : list A) x, 0 <= x < Z.of_nat (length l) ->
  Z.of_nat (length (filter (fun p : Z * A => fst p <=? x) (enumerate l))) = x + 1.
Proof.
  intros A l. induction l as [|a l IH] using rev_ind; intros x H; [cbn in H; lia|].
  rewrite app_length in H. cbn [length] in H.
  rewrite enumerate_app, filter_app, app_length.
  assert (E1 : enumerate [a] = [(0, a)]) by reflexivity. rewrite E1. cbn [map filter fst snd]. rewrite Z.add_0_r.
  destruct (Z.of_nat (length l) <=? x) eqn:E.
  - replace (filter (fun p : Z * A => fst p <=? x) (enumerate l)) with (enumerate l).
    + assert (Z.of_nat (length (enumerate l)) = Z.of_nat (length l)); [|cbn [length]; lia].
      rewrite <- (map_length snd), map_snd_enumerate. reflexivity.
    + symmetry. apply filter_keep_all. intros [i y] I.
      cbn. assert (In i (map fst (enumerate l))) as J by (apply in_map_iff; exists (i, y); auto).
      rewrite map_fst_enumerate in J. apply in_zrange in J. lia.
  - rewrite Nat2Z.inj_add, IH by lia. cbn [length]. lia.
Qed.
Lemma quads8_length_gen : forall (l : list (Z * (Z * Z))) ,
  (forall x i j, In (x, (i, j)) l -> 0 <= j <= i /\ x = T i + j) ->
  Z.of_nat (length (flat_map (fun ijp : Z * (Z * Z) =>
    map (fun klp : Z * (Z * Z) => (fst (snd ijp), snd (snd ijp), fst (snd klp), snd (snd klp)))
      (filter (fun klp : Z * (Z * Z) => fst klp <=? fst ijp) (enumerate (tri (fst (snd ijp) + 1))))) l))
  = zsum (map (fun p => fst p + 1) l).
Proof.
  induction l as [|[x [i j]] l IH]; intros H; [reflexivity|].
  cbn [flat_map map zsum fold_right fst snd]. rewrite app_length, Nat2Z.inj_add, IH by (intros; apply H; now right).
  rewrite map_length. destruct (H x i j (or_introl eq_refl)) as [A ->].
  rewrite filter_le_length; [reflexivity|]. rewrite tri_length by lia.
  assert (Tn := T_nonneg i ltac:(lia)). rewrite T_succ. lia.
Qed.
Lemma zsum_range : forall m, 0 <= m -> zsum (map (fun x => x + 1) (zrange m)) = T m.
Proof.
  intros m H. pattern m. apply natlike_ind; [reflexivity| |exact H].
  intros x Hx IH. change (Z.succ x) with (x + 1). rewrite zrange_succ, map_app, zsum_app, IH by lia.
  cbn. rewrite T_succ. lia.
Qed.
Lemma quads8_length : forall n, 0 <= n -> Z.of_nat (length (quads8 n)) = npair n * (npair n + 1) / 2.
Proof.
  intros n H. unfold quads8. rewrite quads8_length_gen.
  - assert (E : map (fun p : Z * (Z * Z) => fst p + 1) (enumerate (tri n)) = map (fun x => x + 1) (zrange (T n))).
    { rewrite <- tri_length by exact H. rewrite <- (map_fst_enumerate _ (tri n)), map_map. reflexivity. }
    rewrite E.
    rewrite zsum_range by now apply T_nonneg. reflexivity.
  - intros x i j I. apply enum_tri in I; lia.
Qed.

Lemma in_quads1 : forall n i j k l, In (i, j, k, l) (quads1 n) <->
  0 <= i < n /\ 0 <= j < n /\ 0 <= k < n /\ 0 <= l < n.
Proof.
  intros n i j k l. unfold quads1. rewrite in_flat_map. split.
  - intros [a [A I]]. apply in_flat_map in I. destruct I as [b [B I]].
    apply in_flat_map in I. destruct I as [c [C I]]. apply in_map_iff in I. destruct I as [d [E I]].
    inversion E; subst. rewrite in_zrange in *. lia.
  - intros [A [B [C D]]]. exists i. rewrite in_zrange. split; [lia|].
    apply in_flat_map. exists j. rewrite in_zrange. split; [lia|].
    apply in_flat_map. exists k. rewrite in_zrange. split; [lia|].
    apply in_map. apply in_zrange. lia.
Qed.

(* ---- element assignment ---- *)
Definition quad := (Z * Z * Z * Z)%type.
Definition inr (n : Z) (p : quad) : Prop :=
  let '(a, b, c, d) := p in 0 <= a < n /\ 0 <= b < n /\ 0 <= c < n /\ 0 <= d < n.
Lemma np_index_in : forall n i, 0 <= i < n -> np_index n i = Some i.
Proof. intros n i H. unfold np_index. replace ((0 <=? i) && (i <? n)) with true by lia. reflexivity. Qed.
Lemma quad_eq_dec : forall p q : quad, {p = q} + {p <> q}.
Proof. repeat decide equality. Qed.
Lemma set4_in : forall n g q v, inr n q -> exists g', set4 n g q v = Some g' /\
  forall p, get4 g' p = if quad_eq_dec p q then v else get4 g p.
Proof.
  intros n g [[[i j] k] l] v [A [B [C D]]]. unfold set4. rewrite !np_index_in by assumption. cbn [bind].
  eexists. split; [reflexivity|]. intros [[[a b] c] d]. cbn [get4].
  destruct (quad_eq_dec (a, b, c, d) (i, j, k, l)) as [E|N].
  - inversion E; subst. now rewrite !Z.eqb_refl.
  - destruct ((a =? i) && (b =? j) && (c =? k) && (d =? l)) eqn:E; [|reflexivity].
    rewrite !andb_true_iff in E. exfalso. apply N. repeat f_equal; lia.
Qed.
Lemma set_all_in : forall n qs g v, Forall (inr n) qs -> exists g', set_all n g qs v = Some g' /\
  forall p, get4 g' p = if in_dec quad_eq_dec p qs then v else get4 g p.
Proof.
  intros n qs. induction qs as [|q qs IH]; intros g v H.
  - exists g. split; [reflexivity|]. intros p. reflexivity.
  - inversion H as [|? ? A B]; subst. destruct (set4_in n g q v A) as [g1 [E1 G1]].
    destruct (IH g1 v B) as [g2 [E2 G2]]. exists g2. split.
    + unfold set_all in *. cbn [foldM]. rewrite E1. exact E2.
    + intros p. rewrite G2, G1. destruct (in_dec quad_eq_dec p qs) as [I|I].
      * destruct (in_dec quad_eq_dec p (q :: qs)) as [J|J]; [reflexivity|]. exfalso. apply J. now right.
      * destruct (quad_eq_dec p q) as [->|N].
        -- destruct (in_dec quad_eq_dec q (q :: qs)) as [J|J]; [reflexivity|]. exfalso. apply J. now left.
        -- destruct (in_dec quad_eq_dec p (q :: qs)) as [J|J]; [|reflexivity]. destruct J; congruence || tauto.
Qed.

Lemma set2_in : forall n h i j v, 0 <= i < n -> 0 <= j < n -> exists h', set2 n h i j v = Some h' /\
  forall a b, h' a b = if (a =? i) && (b =? j) then v else h a b.
Proof.
  intros n h i j v A B. unfold set2. rewrite !np_index_in by assumption. cbn [bind]. eauto.
Qed.

(* ---- sequences of assignments ---- *)
Section Put.
Variable n : Z.
Variable imgs : Z -> Z -> Z -> Z -> list quad.
Definition put (g : arr4) (x : datum) : option arr4 :=
  let '(i, j, k, l, d) := x in set_all n g (imgs i j k l) d.
Definition hits (x : datum) (p : quad) : Prop :=
  let '(i, j, k, l, d) := x in In p (imgs i j k l).
Lemma hit_dec : forall data p, (exists x, In x data /\ hits x p) \/ ~ (exists x, In x data /\ hits x p).
Proof.
  induction data as [|x data IH]; intros p; [right; intros [x [[] _]]|].
  destruct (IH p) as [[y [I J]]|N]; [left; exists y; split; [now right|exact J]|].
  destruct x as [[[[i j] k] l] d]. destruct (in_dec quad_eq_dec p (imgs i j k l)) as [J|J].
  - left. exists (i, j, k, l, d). split; [now left|exact J].
  - right. intros [y [[<-|I] K]]; [exact (J K)|]. apply N. eauto.
Qed.
Lemma put_all : forall (F : quad -> num) data g,
  (forall i j k l d, In (i, j, k, l, d) data -> Forall (inr n) (imgs i j k l) /\ forall p, In p (imgs i j k l) -> F p = d) ->
  exists g', foldM put g data = Some g' /\
    (forall p, (exists x, In x data /\ hits x p) -> get4 g' p = F p) /\
    (forall p, ~ (exists x, In x data /\ hits x p) -> get4 g' p = get4 g p).
Proof.
  intros F data. induction data as [|x data IH]; intros g H.
  - exists g. split; [reflexivity|]. split; [|reflexivity]. intros p [x [[] _]].
  - destruct x as [[[[i j] k] l] d]. destruct (H i j k l d (or_introl eq_refl)) as [A B].
    destruct (set_all_in n (imgs i j k l) g d A) as [g1 [E1 G1]].
    destruct (IH g1) as [g2 [E2 [C D]]]; [intros; apply H; now right|].
    exists g2. split; [cbn [foldM put]; rewrite E1; exact E2|]. split.
    + intros p [x [[<-|I] J]].
      * cbn [hits] in J. destruct (hit_dec data p) as [K|K].
        -- apply C. exact K.
        -- rewrite D by exact K. rewrite G1. destruct (in_dec quad_eq_dec p (imgs i j k l)); [|tauto].
           symmetry. now apply B.
      * apply C. eauto.
    + intros p N. rewrite D.
      * rewrite G1. destruct (in_dec quad_eq_dec p (imgs i j k l)) as [J|J]; [|reflexivity].
        exfalso. apply N. exists (i, j, k, l, d). split; [now left|exact J].
      * intros [x [I J]]. apply N. exists x. split; [now right|exact J].
Qed.
End Put.

Section Put2.
Variable n : Z.
Variable imgs : Z -> Z -> list (Z * Z).
Definition pair_dec : forall p q : Z * Z, {p = q} + {p <> q}.
Proof. repeat decide equality. Defined.
Definition set_all2 (h : arr2) (qs : list (Z * Z)) (d : num) : option arr2 :=
  foldM (fun h q => set2 n h (fst q) (snd q) d) h qs.
Definition put2 (h : arr2) (x : datum) : option arr2 :=
  let '(i, j, k, l, d) := x in set_all2 h (imgs i j) d.
Definition hits2 (x : datum) (p : Z * Z) : Prop := let '(i, j, k, l, d) := x in In p (imgs i j).
Lemma set_all2_in : forall qs h v, Forall (fun q => 0 <= fst q < n /\ 0 <= snd q < n) qs ->
  exists h', set_all2 h qs v = Some h' /\
  forall a b, h' a b = if in_dec pair_dec (a, b) qs then v else h a b.
Proof.
  induction qs as [|q qs IH]; intros h v H.
  - exists h. split; reflexivity.
  - inversion H as [|? ? [A A'] B]; subst. destruct (set2_in n h (fst q) (snd q) v A A') as [h1 [E1 H1]].
    destruct (IH h1 v B) as [h2 [E2 H2]]. exists h2. split.
    + unfold set_all2 in *. cbn [foldM]. rewrite E1. exact E2.
    + intros a b. rewrite H2, H1. destruct (in_dec pair_dec (a, b) qs) as [I|I].
      * destruct (in_dec pair_dec (a, b) (q :: qs)) as [J|J]; [reflexivity|]. exfalso. apply J. now right.
      * destruct q as [u v']. cbn [fst snd]. destruct ((a =? u) && (b =? v')) eqn:E.
        -- assert (a = u /\ b = v') as [-> ->] by lia.
           destruct (in_dec pair_dec (u, v') ((u, v') :: qs)) as [J|J]; [reflexivity|]. exfalso. apply J. now left.
        -- destruct (in_dec pair_dec (a, b) ((u, v') :: qs)) as [J|J]; [|reflexivity].
           destruct J as [J|J]; [|tauto]. inversion J; subst. rewrite !Z.eqb_refl in E. discriminate.
Qed.
Lemma hit2_dec : forall data p, (exists x, In x data /\ hits2 x p) \/ ~ (exists x, In x data /\ hits2 x p).
Proof.
  induction data as [|x data IH]; intros p; [right; intros [x [[] _]]|].
  destruct (IH p) as [[y [I J]]|N]; [left; exists y; split; [now right|exact J]|].
  destruct x as [[[[i j] k] l] d]. destruct (in_dec pair_dec p (imgs i j)) as [J|J].
  - left. exists (i, j, k, l, d). split; [now left|exact J].
  - right. intros [y [[<-|I] K]]; [exact (J K)|]. apply N. eauto.
Qed.
Lemma put2_all : forall (F : Z -> Z -> num) data h,
  (forall i j k l d, In (i, j, k, l, d) data ->
     Forall (fun q => 0 <= fst q < n /\ 0 <= snd q < n) (imgs i j) /\
     forall a b, In (a, b) (imgs i j) -> F a b = d) ->
  exists h', foldM put2 h data = Some h' /\
    (forall a b, (exists x, In x data /\ hits2 x (a, b)) -> h' a b = F a b) /\
    (forall a b, ~ (exists x, In x data /\ hits2 x (a, b)) -> h' a b = h a b).
Proof.
  intros F data. induction data as [|x data IH]; intros h H.
  - exists h. split; [reflexivity|]. split; [|reflexivity]. intros a b [x [[] _]].
  - destruct x as [[[[i j] k] l] d]. destruct (H i j k l d (or_introl eq_refl)) as [A B].
    destruct (set_all2_in (imgs i j) h d A) as [h1 [E1 G1]].
    destruct (IH h1) as [h2 [E2 [C D]]]; [intros; eapply H; right; eauto|].
    exists h2. split; [cbn [foldM put2]; rewrite E1; exact E2|]. split.
    + intros a b [x [[<-|I] J]].
      * cbn [hits2] in J. destruct (hit2_dec data (a, b)) as [K|K].
        -- apply C. exact K.
        -- rewrite D by exact K. rewrite G1. destruct (in_dec pair_dec (a, b) (imgs i j)); [|tauto].
           symmetry. now apply B.
      * apply C. eauto.
    + intros a b N. rewrite D.
      * rewrite G1. destruct (in_dec pair_dec (a, b) (imgs i j)) as [J|J]; [|reflexivity].
        exfalso. apply N. exists (i, j, k, l, d). split; [now left|exact J].
      * intros [x [I J]]. apply N. exists x. split; [now right|exact J].
Qed.
End Put2.

(* ---- the records written ---- *)
Definition shift (q : quad) : quad := let '(i, j, k, l) := q in (i + 1, j + 1, k + 1, l + 1).
Definition eri_recs (tol : Q) (g : arr4) (qs : list quad) : list rec :=
  flat_map (fun q => if bigger tol (get4 g q) then [(get4 g q, shift q)] else []) qs.
Definition h_pairs (n : Z) (tgen : bool) : list (Z * Z) :=
  flat_map (fun i => map (fun j => (i, j)) (zrange (if tgen then n else i + 1))) (zrange n).
Definition h_recs (tol : Q) (h : arr2) (ps : list (Z * Z)) : list rec :=
  flat_map (fun p : Z * Z => let v := h (fst p) (snd p) in
    if bigger tol v then [(v, (fst p + 1, snd p + 1, 0, 0))] else []) ps.

Lemma flat_map_flat_map : forall (A B C : Type) (f : A -> list B) (g : B -> list C) l,
  flat_map g (flat_map f l) = flat_map (fun x => flat_map g (f x)) l.
Proof. intros A B C f g l. induction l; [reflexivity|]. cbn. now rewrite flat_map_app, IHl. Qed.
Lemma flat_map_map : forall (A B C : Type) (f : A -> B) (g : B -> list C) l,
  flat_map g (map f l) = flat_map (fun x => g (f x)) l.
Proof. intros A B C f g l. induction l; [reflexivity|]. cbn. now rewrite IHl. Qed.
Lemma combine_map_self : forall (A B : Type) (f : A -> B) l, combine l (map f l) = map (fun x => (x, f x)) l.
Proof. intros A B f l. induction l; [reflexivity|]. cbn. now rewrite IHl. Qed.

Lemma eri_lines_recs : forall cpx tol g qs,
  eri_lines cpx tol (map (fun q => (q, get4 g q)) qs) = flat_map (rec_line cpx) (eri_recs tol g qs).
Proof.
  intros cpx tol g qs. unfold eri_lines, eri_recs. rewrite flat_map_map, flat_map_flat_map.
  apply flat_map_ext. intros [[[i j] k] l]. cbn [get4]. destruct (bigger tol (g i j k l)); [|reflexivity].
  cbn [flat_map rec_line shift]. now rewrite app_nil_r.
Qed.
Lemma write_h1e_recs : forall cpx tol n tgen h,
  write_h1e cpx tol n tgen h = flat_map (rec_line cpx) (h_recs tol h (h_pairs n tgen)).
Proof.
  intros cpx tol n tgen h. unfold write_h1e, h_recs, h_pairs. rewrite !flat_map_flat_map.
  apply flat_map_ext. intros i. rewrite flat_map_map.
  apply flat_map_ext. intros j. cbn [fst snd]. destruct (bigger tol (h i j)); [|reflexivity].
  cbn [flat_map rec_line]. now rewrite app_nil_r.
Qed.
Lemma fold_write : forall cpx tol n g (gen : bool), 0 <= n ->
  exists e, fold_eri n g (if gen then 1 else 8) = Some (Some e) /\
  write_eri cpx tol n e = Some (flat_map (rec_line cpx) (eri_recs tol g (if gen then quads1 n else quads8 n))).
Proof.
  intros cpx tol n g gen H. destruct gen.
  - exists (Eri4 g). split; [reflexivity|]. cbn [write_eri]. now rewrite eri_lines_recs.
  - unfold fold_eri. cbn [Z.eqb]. change (8 =? 1) with false. change (8 =? 8) with true. cbv iota.
    assert (L := quads8_length n H). rewrite map_length.
    replace (Z.of_nat (length (quads8 n)) <=? npair n * (npair n + 1) / 2) with true by lia.
    eexists. split; [reflexivity|].
    replace (Z.to_nat (npair n * (npair n + 1) / 2) - length (quads8 n))%nat with 0%nat by lia.
    cbn [repeat]. rewrite app_nil_r. cbn [write_eri]. rewrite map_length.
    replace (Z.of_nat (length (quads8 n)) =? npair n * (npair n + 1) / 2) with true by lia.
    rewrite combine_map_self. now rewrite eri_lines_recs.
Qed.

(* ---- reading back a section ---- *)
Definition imgs4 (gen : bool) (i j k l : Z) : list quad :=
  (i - 1, j - 1, k - 1, l - 1) :: if gen then [] else images4 i j k l ++ images8 i j k l.
Definition imgs2 (tgen : bool) (i j : Z) : list (Z * Z) :=
  (i - 1, j - 1) :: if tgen then [] else [(j - 1, i - 1)].

Definition sym8 (n : Z) (g : arr4) : Prop := forall i j k l, inr n (i, j, k, l) ->
  g j i k l = g i j k l /\ g i j l k = g i j k l /\ g k l i j = g i j k l.
Definition sym2 (n : Z) (h : arr2) : Prop := forall i j, 0 <= i < n -> 0 <= j < n -> h j i = h i j.

Lemma in_eri_recs : forall tol g qs r, In r (eri_recs tol g qs) <->
  exists q, In q qs /\ bigger tol (get4 g q) = true /\ r = (get4 g q, shift q).
Proof.
  intros tol g qs r. unfold eri_recs. rewrite in_flat_map. split.
  - intros [q [I J]]. exists q. destruct (bigger tol (get4 g q)); [|destruct J]. destruct J as [<-|[]]. auto.
  - intros [q [I [B ->]]]. exists q. rewrite B. split; [exact I|now left].
Qed.
Lemma in_h_recs : forall tol h ps r, In r (h_recs tol h ps) <->
  exists i j, In (i, j) ps /\ bigger tol (h i j) = true /\ r = (h i j, (i + 1, j + 1, 0, 0)).
Proof.
  intros tol h ps r. unfold h_recs. rewrite in_flat_map. split.
  - intros [[i j] [I J]]. exists i, j. cbn [fst snd] in J. destruct (bigger tol (h i j)); [|destruct J].
    destruct J as [<-|[]]. auto.
  - intros [i [j [I [B ->]]]]. exists (i, j). cbn [fst snd]. rewrite B. split; [exact I|now left].
Qed.
Lemma in_h_pairs : forall n tgen i j, In (i, j) (h_pairs n tgen) <->
  0 <= i < n /\ 0 <= j < (if tgen then n else i + 1).
Proof.
  intros n tgen i j. unfold h_pairs. rewrite in_flat_map. split.
  - intros [a [A I]]. apply in_map_iff in I. destruct I as [b [E B]]. inversion E; subst.
    rewrite in_zrange in *. auto.
  - intros [A B]. exists i. rewrite in_zrange. split; [exact A|]. apply in_map. now apply in_zrange.
Qed.

Definition quads (gen : bool) (n : Z) : list quad := if gen then quads1 n else quads8 n.
Lemma in_quads_inr : forall gen n q, 0 <= n -> In q (quads gen n) -> inr n q.
Proof.
  intros gen n [[[i j] k] l] H I. unfold quads in I. destruct gen.
  - apply in_quads1 in I. exact I.
  - apply in_quads8 in I; [|exact H]. unfold inr.
    destruct (Z_lt_ge_dec k (i + 1)) as [L|L]; [lia|].
    assert (M := T_mono i k ltac:(lia) ltac:(lia)). lia.
Qed.

(* every quadruple is an image of a visited one *)
Lemma quads_cover : forall gen n i j k l, 0 <= n -> inr n (i, j, k, l) ->
  exists a b c d, In (a, b, c, d) (quads gen n) /\ In (i, j, k, l) (imgs4 gen (a + 1) (b + 1) (c + 1) (d + 1)).
Proof.
  intros gen n i j k l H R. unfold inr in R.
  unfold quads, imgs4, images4, images8. destruct gen.
  - exists i, j, k, l. split; [now apply in_quads1|]. left. repeat f_equal; lia.
  - assert (P : exists a b, ((a, b) = (i, j) \/ (a, b) = (j, i)) /\ b <= a).
    { destruct (Z_le_gt_dec j i); [exists i, j|exists j, i]; split; auto; lia. }
    assert (Q : exists c d, ((c, d) = (k, l) \/ (c, d) = (l, k)) /\ d <= c).
    { destruct (Z_le_gt_dec l k); [exists k, l|exists l, k]; split; auto; lia. }
    destruct P as [a [b [P PL]]]. destruct Q as [c [d [Q QL]]].
    destruct (Z_le_gt_dec (T c + d) (T a + b)) as [L|L].
    + exists a, b, c, d. split.
      * apply in_quads8; [exact H|]. destruct P as [P|P]; destruct Q as [Q|Q]; inversion P; inversion Q; subst; lia.
      * rewrite !Z.add_simpl_r. destruct P as [P|P]; destruct Q as [Q|Q]; inversion P; inversion Q; subst; cbn [In app]; auto 10.
    + exists c, d, a, b. split.
      * apply in_quads8; [exact H|]. destruct P as [P|P]; destruct Q as [Q|Q]; inversion P; inversion Q; subst; lia.
      * rewrite !Z.add_simpl_r. destruct P as [P|P]; destruct Q as [Q|Q]; inversion P; inversion Q; subst; cbn [In app]; auto 10.
Qed.

(* images carry the same value and stay in range *)
Lemma imgs4_same : forall (gen : bool) n g a b c d p, (gen = false -> sym8 n g) -> inr n (a, b, c, d) ->
  In p (imgs4 gen (a + 1) (b + 1) (c + 1) (d + 1)) -> inr n p /\ get4 g p = g a b c d.
Proof.
  intros gen n g a b c d p Y R I. unfold imgs4, images4, images8 in I. rewrite !Z.add_simpl_r in I.
  destruct I as [<-|I]; [split; [exact R|reflexivity]|]. destruct gen; [destruct I|].
  specialize (Y eq_refl). assert (R' := R). unfold inr in R'.
  destruct (Y a b c d R) as [Y1 [Y2 Y3]].
  destruct (Y a b d c) as [Z1 [_ Z3]]; [unfold inr; lia|].
  destruct (Y b a c d) as [_ [_ W3]]; [unfold inr; lia|].
  destruct (Y b a d c) as [V1 [V2 V3]]; [unfold inr; lia|].
  cbn [In app] in I.
  repeat destruct I as [<-|I]; try (split; [unfold inr; lia|cbn [get4]; congruence]). destruct I.
Qed.

Definition readback (cpx : bool) (tol : Q) (v w : num) : Prop :=
  w = if bigger tol v then printed cpx v else num0.

Lemma shift_datum : forall cpx v i j k l, rec_datum cpx (v, shift (i, j, k, l)) = (i + 1, j + 1, k + 1, l + 1, printed cpx v).
Proof. reflexivity. Qed.

Lemma g_section : forall (gen : bool) n cpx tol g, 0 <= n -> (gen = false -> sym8 n g) ->
  exists g', foldM (put n (imgs4 gen)) zeros4 (map (rec_datum cpx) (eri_recs tol g (quads gen n))) = Some g' /\
  forall i j k l, inr n (i, j, k, l) -> readback cpx tol (g i j k l) (g' i j k l).
Proof.
  intros gen n cpx tol g H Y.
  destruct (put_all n (imgs4 gen) (fun p => printed cpx (get4 g p))
              (map (rec_datum cpx) (eri_recs tol g (quads gen n))) zeros4) as [g' [E [A B]]].
  - intros i j k l d I. apply in_map_iff in I. destruct I as [r [E I]]. apply in_eri_recs in I.
    destruct I as [[[[a b] c] e] [I [_ ->]]]. rewrite shift_datum in E. inversion E; subst.
    apply in_quads_inr in I; [|exact H]. split.
    + apply Forall_forall. intros p J. eapply imgs4_same in J; eauto. tauto.
    + intros p J. eapply imgs4_same in J; eauto. cbn [get4]. destruct J as [_ ->]. reflexivity.
  - exists g'. split; [exact E|]. intros i j k l R. unfold readback.
    destruct (bigger tol (g i j k l)) eqn:G.
    + specialize (A (i, j, k, l)). cbn [get4] in A. apply A.
      destruct (quads_cover gen n i j k l H R) as [a [b [c [d [I J]]]]].
      destruct (imgs4_same gen n g a b c d _ Y (in_quads_inr _ _ _ H I) J) as [_ K]. cbn [get4] in K.
      exists (rec_datum cpx (g a b c d, shift (a, b, c, d))). split.
      * apply in_map. apply in_eri_recs. exists (a, b, c, d). cbn [get4]. rewrite <- K. auto.
      * rewrite shift_datum. exact J.
    + specialize (B (i, j, k, l)). cbn [get4] in B. apply B. intros [x [I J]].
      apply in_map_iff in I. destruct I as [r [E' I]]. apply in_eri_recs in I.
      destruct I as [[[[a b] c] e] [I [K ->]]]. rewrite shift_datum in E'. subst x. cbn [hits] in J.
      destruct (imgs4_same gen n g a b c e _ Y (in_quads_inr _ _ _ H I) J) as [_ M]. cbn [get4] in *. congruence.
Qed.

(* one-electron section: wtg is the writer's flag, rtg tells whether the reader
   assigns one element per line *)
Lemma h_section : forall (wtg rtg : bool) n cpx tol h, 0 <= n -> (rtg = false -> sym2 n h) -> (rtg = true -> wtg = true) ->
  exists h', foldM (put2 n (imgs2 rtg)) zeros2 (map (rec_datum cpx) (h_recs tol h (h_pairs n wtg))) = Some h' /\
  forall i j, 0 <= i < n -> 0 <= j < n -> readback cpx tol (h i j) (h' i j).
Proof.
  intros wtg rtg n cpx tol h H Y WR.
  assert (S : forall a b i j, 0 <= a < n -> 0 <= b < n -> In (i, j) (imgs2 rtg (a + 1) (b + 1)) ->
              0 <= i < n /\ 0 <= j < n /\ h i j = h a b).
  { intros a b i j A B I. unfold imgs2 in I. rewrite !Z.add_simpl_r in I. destruct I as [I|I].
    - inversion I; subst. auto.
    - destruct rtg; [destruct I|]. destruct I as [I|[]]. inversion I; subst. split; [lia|]. split; [lia|].
      now apply Y. }
  assert (R : forall a b, In (a, b) (h_pairs n wtg) -> 0 <= a < n /\ 0 <= b < n).
  { intros a b I. apply in_h_pairs in I. destruct wtg; lia. }
  destruct (put2_all n (imgs2 rtg) (fun a b => printed cpx (h a b))
              (map (rec_datum cpx) (h_recs tol h (h_pairs n wtg))) zeros2) as [h' [E [A B]]].
  - intros i j k l d I. apply in_map_iff in I. destruct I as [r [E I]]. apply in_h_recs in I.
    destruct I as [a [b [I [_ ->]]]]. cbn [rec_datum] in E. inversion E; subst. apply R in I. split.
    + apply Forall_forall. intros [x y] J. cbn [fst snd]. apply S in J; try tauto.
    + intros x y J. apply S in J; try tauto. destruct J as [_ [_ ->]]. reflexivity.
  - exists h'. split; [exact E|]. intros i j Ri Rj. unfold readback.
    destruct (bigger tol (h i j)) eqn:G.
    + apply A.
      assert (C : exists a b, In (a, b) (h_pairs n wtg) /\ In (i, j) (imgs2 rtg (a + 1) (b + 1))).
      { unfold imgs2. destruct rtg.
        - exists i, j. rewrite WR by reflexivity. rewrite in_h_pairs. split; [auto|]. left. f_equal; lia.
        - destruct (Z_le_gt_dec j i).
          + exists i, j. rewrite in_h_pairs. split; [destruct wtg; lia|]. left. f_equal; lia.
          + exists j, i. rewrite in_h_pairs. split; [destruct wtg; lia|]. right. left. f_equal; lia. }
      destruct C as [a [b [I J]]]. assert (Rab := R _ _ I). destruct (S a b i j) as [_ [_ K]]; try tauto.
      exists (rec_datum cpx (h a b, (a + 1, b + 1, 0, 0))). split.
      * apply in_map. apply in_h_recs. exists a, b. rewrite <- K. auto.
      * exact J.
    + apply B. intros [x [I J]]. apply in_map_iff in I. destruct I as [r [E' I]]. apply in_h_recs in I.
      destruct I as [a [b [I [K ->]]]]. subst x. cbn [hits2 rec_datum] in J. apply R in I.
      destruct (S a b i j) as [_ [_ M]]; try tauto. congruence.
Qed.

(* ---- the reader's loop, section by section ---- *)
Lemma rhf_g : forall n gen data h g ce,
  (forall i j k l d, In (i, j, k, l, d) data -> 0 < i /\ 0 < j /\ 0 < k /\ 0 < l) ->
  foldM (rhf_step n gen) (h, g, ce) data = bind (foldM (put n (imgs4 gen)) g data) (fun g' => Some (h, g', ce)).
Proof.
  intros n gen data. induction data as [|x data IH]; intros h g ce H; [reflexivity|].
  destruct x as [[[[i j] k] l] d]. destruct (H i j k l d (or_introl eq_refl)) as [A [B [C D]]].
  cbn [foldM rhf_step put]. replace (i + j + k + l =? 0) with false by lia. replace (k + l =? 0) with false by lia.
  change ((i - 1, j - 1, k - 1, l - 1) :: (if gen then [] else images4 i j k l ++ images8 i j k l)) with (imgs4 gen i j k l).
  destruct (set_all n g (imgs4 gen i j k l) d) as [g1|]; [|reflexivity]. cbn [bind]. apply IH.
  intros; eapply H; right; eauto.
Qed.
Lemma rhf_h : forall n gen data h g ce,
  (forall i j k l d, In (i, j, k, l, d) data -> 0 < i /\ 0 < j /\ k = 0 /\ l = 0) ->
  foldM (rhf_step n gen) (h, g, ce) data = bind (foldM (put2 n (imgs2 false)) h data) (fun h' => Some (h', g, ce)).
Proof.
  intros n gen data. induction data as [|x data IH]; intros h g ce H; [reflexivity|].
  destruct x as [[[[i j] k] l] d]. destruct (H i j k l d (or_introl eq_refl)) as [A [B [-> ->]]].
  cbn [foldM rhf_step put2]. replace (i + j + 0 + 0 =? 0) with false by lia. change (0 + 0 =? 0) with true. cbv iota.
  unfold set_all2, imgs2. cbn [foldM fst snd].
  destruct (set2 n h (i - 1) (j - 1) d) as [h1|]; [|reflexivity]. cbn [bind].
  destruct (set2 n h1 (j - 1) (i - 1) d) as [h2|]; [|reflexivity]. cbn [bind]. apply IH.
  intros; eapply H; right; eauto.
Qed.

Definition sel (ip : Z) (gs : arr4 * arr4 * arr4) : arr4 :=
  let '(gaa, gab, gbb) := gs in if ip =? 0 then gaa else if ip =? 1 then gbb else gab.
Definition upd (ip : Z) (gs : arr4 * arr4 * arr4) (g : arr4) : arr4 * arr4 * arr4 :=
  let '(gaa, gab, gbb) := gs in if ip =? 0 then (g, gab, gbb) else if ip =? 1 then (gaa, gab, g) else (gaa, g, gbb).
Lemma uhf_g : forall n tg ip data hs gs ce, 0 <= ip <= 2 ->
  (forall i j k l d, In (i, j, k, l, d) data -> 0 < i /\ 0 < j /\ 0 < k /\ 0 < l) ->
  foldM (uhf_step n true tg) (ip, hs, gs, ce) data =
  bind (foldM (put n (imgs4 true)) (sel ip gs) data) (fun g' => Some (ip, hs, upd ip gs g', ce)).
Proof.
  intros n tg ip data. induction data as [|x data IH]; intros [ha hb] [[gaa gab] gbb] ce P H.
  - cbn [foldM bind]. assert (ip = 0 \/ ip = 1 \/ ip = 2) as [-> | [-> | ->]] by lia; reflexivity.
  - destruct x as [[[[i j] k] l] d]. destruct (H i j k l d (or_introl eq_refl)) as [A [B [C D]]].
    assert (H' : forall i j k l d, In (i, j, k, l, d) data -> 0 < i /\ 0 < j /\ 0 < k /\ 0 < l)
      by (intros; eapply H; right; eauto).
    cbn [foldM uhf_step put]. replace (i + j + k + l =? 0) with false by lia. replace (k + l =? 0) with false by lia.
    cbn [negb andb app].
    change ([(i - 1, j - 1, k - 1, l - 1)]) with (imgs4 true i j k l).
    assert (ip = 0 \/ ip = 1 \/ ip = 2) as [-> | [-> | ->]] by lia; cbn [sel upd] in *.
    + change (py_nth [0; 2; 1] 0) with (Some 0). cbn [bind]. change (0 =? 0) with true. cbv iota.
      destruct (set_all n gaa (imgs4 true i j k l) d) as [g1|]; [|reflexivity]. cbn [bind]. rewrite IH by auto. reflexivity.
    + change (py_nth [0; 2; 1] 1) with (Some 2). cbn [bind]. change (2 =? 0) with false. change (2 =? 1) with false.
      change (1 =? 0) with false. change (1 =? 1) with true. cbv iota.
      destruct (set_all n gbb (imgs4 true i j k l) d) as [g1|]; [|reflexivity]. cbn [bind]. rewrite IH by auto. reflexivity.
    + change (py_nth [0; 2; 1] 2) with (Some 1). cbn [bind]. change (1 =? 0) with false. change (1 =? 1) with true.
      change (2 =? 0) with false. change (2 =? 1) with false. cbv iota.
      destruct (set_all n gab (imgs4 true i j k l) d) as [g1|]; [|reflexivity]. cbn [bind]. rewrite IH by auto. reflexivity.
Qed.
Lemma uhf_h : forall n gen tg ip data ha hb gs ce, ip = 3 \/ ip = 4 ->
  (forall i j k l d, In (i, j, k, l, d) data -> 0 < i /\ 0 < j /\ k = 0 /\ l = 0) ->
  foldM (uhf_step n gen tg) (ip, (ha, hb), gs, ce) data =
  bind (foldM (put2 n (imgs2 tg)) (if ip =? 3 then ha else hb) data)
    (fun h' => Some (ip, (if ip =? 3 then (h', hb) else (ha, h')), gs, ce)).
Proof.
  intros n gen tg ip data. induction data as [|x data IH]; intros ha hb [[gaa gab] gbb] ce P H.
  - cbn [foldM bind]. destruct P as [-> | ->]; reflexivity.
  - destruct x as [[[[i j] k] l] d]. destruct (H i j k l d (or_introl eq_refl)) as [A [B [-> ->]]].
    assert (H' : forall i j k l d, In (i, j, k, l, d) data -> 0 < i /\ 0 < j /\ k = 0 /\ l = 0)
      by (intros; eapply H; right; eauto).
    cbn [foldM uhf_step put2]. replace (i + j + 0 + 0 =? 0) with false by lia. change (0 + 0 =? 0) with true. cbv iota.
    replace ((ip =? 3) || (ip =? 4)) with true by lia.
    change (set_all2 n (if ip =? 3 then ha else hb) (imgs2 tg i j) d) with
      (foldM (fun h q => set2 n h (fst q) (snd q) d) (if ip =? 3 then ha else hb) ((i - 1, j - 1) :: if tg then [] else [(j - 1, i - 1)])).
    cbn [foldM fst snd].
    destruct P as [-> | ->].
    + change (3 =? 3) with true. cbv iota.
      destruct (set2 n ha (i - 1) (j - 1) d) as [h1|]; [|reflexivity]. cbn [bind].
      destruct tg.
      * cbn [foldM bind]. rewrite IH by auto. reflexivity.
      * cbn [foldM fst snd]. destruct (set2 n h1 (j - 1) (i - 1) d) as [h2|]; [|reflexivity]. cbn [bind]. rewrite IH by auto. reflexivity.
    + change (4 =? 3) with false. cbv iota.
      destruct (set2 n hb (i - 1) (j - 1) d) as [h1|]; [|reflexivity]. cbn [bind].
      destruct tg.
      * cbn [foldM bind]. rewrite IH by auto. reflexivity.
      * cbn [foldM fst snd]. destruct (set2 n h1 (j - 1) (i - 1) d) as [h2|]; [|reflexivity]. cbn [bind]. rewrite IH by auto. reflexivity.
Qed.

Lemma eri_data_pos : forall cpx tol g gen n, 0 <= n -> forall i j k l d,
  In (i, j, k, l, d) (map (rec_datum cpx) (eri_recs tol g (quads gen n))) -> 0 < i /\ 0 < j /\ 0 < k /\ 0 < l.
Proof.
  intros cpx tol g gen n H i j k l d I. apply in_map_iff in I. destruct I as [r [E I]].
  apply in_eri_recs in I. destruct I as [[[[a b] c] e] [I [_ ->]]]. rewrite shift_datum in E. inversion E; subst.
  apply in_quads_inr in I; [|exact H]. unfold inr in I. lia.
Qed.
Lemma h_data_pos : forall cpx tol h tg n i j k l d,
  In (i, j, k, l, d) (map (rec_datum cpx) (h_recs tol h (h_pairs n tg))) -> 0 < i /\ 0 < j /\ k = 0 /\ l = 0.
Proof.
  intros cpx tol h tg n i j k l d I. apply in_map_iff in I. destruct I as [r [E I]].
  apply in_h_recs in I. destruct I as [a [b [I [_ ->]]]]. cbn [rec_datum] in E. inversion E; subst.
  apply in_h_pairs in I. lia.
Qed.

Definition zrec (v : num) : rec := (v, (0, 0, 0, 0)).
Definition rhf_recs (tol : Q) (n : Z) (gen tg : bool) (h : arr2) (g : arr4) (ce : num) : list rec :=
  eri_recs tol g (quads gen n) ++ h_recs tol h (h_pairs n tg) ++ [zrec ce].
Definition uhf_recs (tol : Q) (n : Z) (tg : bool) (ha hb : arr2) (gaa gab gbb : arr4) (ce : num) : list rec :=
  eri_recs tol gaa (quads true n) ++ [zrec num0] ++ eri_recs tol gbb (quads true n) ++ [zrec num0] ++
  eri_recs tol gab (quads true n) ++ [zrec num0] ++ h_recs tol ha (h_pairs n tg) ++ [zrec num0] ++
  h_recs tol hb (h_pairs n tg) ++ [zrec num0] ++ [zrec ce].

Lemma write_body_rhf : forall tol f h g, f_ints f = Rhf h g -> 0 <= f_n f ->
  write_body tol f = Some (flat_map (rec_line (f_cpx f)) (rhf_recs tol (f_n f) (f_general f) (f_tgeneral f) h g (f_const f))).
Proof.
  intros tol f h g E H. unfold write_body. rewrite E.
  destruct (fold_write (f_cpx f) tol (f_n f) g (f_general f) H) as [e [A B]]. rewrite A. cbn [bind]. rewrite B. cbn [bind].
  unfold rhf_recs. rewrite !flat_map_app, write_h1e_recs. cbn [flat_map zrec rec_line]. now rewrite app_nil_r.
Qed.
Lemma write_body_uhf : forall tol f ha hb gaa gab gbb, f_ints f = Uhf ha hb gaa gab gbb -> f_general f = true ->
  write_body tol f = Some (flat_map (rec_line (f_cpx f)) (uhf_recs tol (f_n f) (f_tgeneral f) ha hb gaa gab gbb (f_const f))).
Proof.
  intros tol f ha hb gaa gab gbb E G. unfold write_body. rewrite E, G.
  assert (F : forall g, fold_eri (f_n f) g 1 = Some (Some (Eri4 g))) by reflexivity.
  rewrite !F. cbn [bind write_eri].
  unfold uhf_recs. rewrite !flat_map_app, !write_h1e_recs, !eri_lines_recs. cbn [flat_map zrec rec_line quads].
  rewrite !app_nil_r. reflexivity.
Qed.

Lemma read_ints_rhf : forall tol n gen tg cpx h g ce mu ce0, 0 <= n -> sym2 n h -> (gen = false -> sym8 n g) ->
  exists h' g', read_ints n false gen tg mu ce0 (map (rec_datum cpx) (rhf_recs tol n gen tg h g ce))
    = Some (Rhf (if Qeq_bool mu 0 then h' else fun a b => nsub (h' a b) (if a =? b then mu else 0%Q, 0%Q)) g', printed cpx ce) /\
  (forall i j, 0 <= i < n -> 0 <= j < n -> readback cpx tol (h i j) (h' i j)) /\
  (forall i j k l, inr n (i, j, k, l) -> readback cpx tol (g i j k l) (g' i j k l)).
Proof.
  intros tol n gen tg cpx h g ce mu ce0 H Yh Yg.
  destruct (g_section gen n cpx tol g H Yg) as [g' [Eg Cg]].
  destruct (h_section tg false n cpx tol h H (fun _ => Yh) ltac:(discriminate)) as [h' [Eh Ch]].
  exists h', g'. split; [|auto]. unfold read_ints, rhf_recs. cbn [negb].
  rewrite !map_app, !foldM_app. rewrite rhf_g by (eapply eri_data_pos; eauto). rewrite Eg. cbn [bind].
  rewrite foldM_app. rewrite rhf_h by (intros * I; eapply h_data_pos; exact I). rewrite Eh. reflexivity.
Qed.
Lemma read_ints_uhf : forall tol n tg cpx ha hb gaa gab gbb ce mu ce0, 0 <= n ->
  (tg = false -> sym2 n ha /\ sym2 n hb) ->
  exists ha' hb' gaa' gab' gbb', read_ints n true true tg mu ce0
      (map (rec_datum cpx) (uhf_recs tol n tg ha hb gaa gab gbb ce))
    = (if Qeq_bool mu 0 then Some (Uhf ha' hb' gaa' gab' gbb', printed cpx ce) else None) /\
  (forall i j, 0 <= i < n -> 0 <= j < n -> readback cpx tol (ha i j) (ha' i j) /\ readback cpx tol (hb i j) (hb' i j)) /\
  (forall i j k l, inr n (i, j, k, l) -> readback cpx tol (gaa i j k l) (gaa' i j k l) /\
     readback cpx tol (gab i j k l) (gab' i j k l) /\ readback cpx tol (gbb i j k l) (gbb' i j k l)).
Proof.
  intros tol n tg cpx ha hb gaa gab gbb ce mu ce0 H Y.
  assert (NS : forall g, true = false -> sym8 n g) by discriminate.
  destruct (g_section true n cpx tol gaa H (NS _)) as [gaa' [E1 C1]].
  destruct (g_section true n cpx tol gbb H (NS _)) as [gbb' [E2 C2]].
  destruct (g_section true n cpx tol gab H (NS _)) as [gab' [E3 C3]].
  destruct (h_section tg tg n cpx tol ha H) as [ha' [E4 C4]]; [intros; now apply Y|auto|].
  destruct (h_section tg tg n cpx tol hb H) as [hb' [E5 C5]]; [intros; now apply Y|auto|].
  exists ha', hb', gaa', gab', gbb'. split; [|split; [auto|auto]].
  unfold read_ints, uhf_recs. cbn [negb]. rewrite !map_app.
  rewrite foldM_app, (uhf_g n tg 0) by (lia || (eapply eri_data_pos; eauto)). cbn [sel]. change (0 =? 0) with true. cbv iota.
  rewrite E1. cbn [bind upd]. change (0 =? 0) with true. cbv iota. cbn [map app foldM rec_datum zrec uhf_step bind].
  change (0 + 0 + 0 + 0 =? 0) with true. cbv iota. cbn [bind].
  change (0 + 1) with 1.
  rewrite foldM_app, (uhf_g n tg 1) by (lia || (eapply eri_data_pos; eauto)). change (sel 1 (gaa', zeros4, zeros4)) with zeros4.
  rewrite E2. cbn [bind]. change (upd 1 (gaa', zeros4, zeros4) gbb') with (gaa', zeros4, gbb'). cbn [map app foldM rec_datum zrec uhf_step bind].
  change (0 + 0 + 0 + 0 =? 0) with true. cbv iota. cbn [bind].
  change (1 + 1) with 2.
  rewrite foldM_app, (uhf_g n tg 2) by (lia || (eapply eri_data_pos; eauto)). change (sel 2 (gaa', zeros4, gbb')) with zeros4.
  rewrite E3. cbn [bind]. change (upd 2 (gaa', zeros4, gbb') gab') with (gaa', gab', gbb'). cbn [map app foldM rec_datum zrec uhf_step bind].
  change (0 + 0 + 0 + 0 =? 0) with true. cbv iota. cbn [bind].
  change (2 + 1) with 3.
  rewrite foldM_app, (uhf_h n true tg 3) by (auto || (intros * I; eapply h_data_pos; exact I)). change (3 =? 3) with true. cbv iota.
  rewrite E4. cbn [bind]. cbn [map app foldM rec_datum zrec uhf_step bind].
  change (0 + 0 + 0 + 0 =? 0) with true. cbv iota. cbn [bind].
  change (3 + 1) with 4.
  rewrite foldM_app, (uhf_h n true tg 4) by (auto || (intros * I; eapply h_data_pos; exact I)). change (4 =? 3) with false. cbv iota.
  rewrite E5. reflexivity.
Qed.
