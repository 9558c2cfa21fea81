(** Proofs about sparse_svd: the sectors with their kept and dropped singular values, norm of a sum of outer products. *)
From Coq Require Import ZArith Bool List Lia Permutation Sorted Ring.
From Verif Require Import SymModel SymProofs DictLib OptLib IndexLib RingLib OrdLib BondModel FuseModel FuseProofs BlockModel BlockProofs
  StructModel StructProofs SignModel TruncModel TruncProofs TrimProofs TruncProps FermTModel FermTProofs MpsModel CanonModel CanonProofs CompressSvd FsvdModel FsvdProofs FsvdFact.
Import ListNotations.
Open Scope Z_scope.

Definition cut {A : Type} (l : list A) (n : Z) : nat := Z.to_nat (if n <? 0 then Z.of_nat (length l) + n else n).
Lemma py_take_cut : forall A (l : list A) n, py_take l n = firstn (cut l n) l. Proof. reflexivity. Qed.

Lemma renormed_values : forall (K : ORing) fac (s : list (list K)) n r, exists f, renormed K fac s n r = keep_first K (map (map (fun v => rmul K v f)) s) n /\
  ((r = 0%nat \/ Z.of_nat (length (concat s)) <= zsum n) -> f = r1 K) /\
  (r <> 0%nat -> zsum n < Z.of_nat (length (concat s)) -> f = let '(a, b) := renorm_sums K s n r in fac a b r).
Proof.
  intros K fac s n r. destruct (c47_values K fac s n r) as (f & E & H).
  assert (El: zsum (map (fun b : list K => Z.of_nat (length b)) s) = Z.of_nat (length (concat s))).
  { clear. induction s; [reflexivity|]. cbn [map concat]. rewrite zsum_cons, IHs, app_length. lia. }
  destruct (Bool.bool_dec ((zsum n <? Z.of_nat (length (concat s))) && (0 <? Z.of_nat r)) true) as [B|B].
  - unfold renormed in *. rewrite El, B in *. destruct (renorm_sums K s n r) as [a b]. exists (fac a b r). split; [reflexivity|]. split; [lia|reflexivity].
  - exists f. split; [exact E|]. split; [exact H|]. lia.
Qed.

Section Struct.
Variable R : CRing.
Variable L : Label.
Variable K : ORing.
Variable argsort : list K -> list Z.
Variable renorm_fac : K -> K -> nat -> K.
Variable scr : K.
Variable svd : nd R -> option (nd R * list K * nd R).
Notation sector := (sector R L).
Notation piece := (sector * (nd R * list K * nd R))%type.
Notation part := (sector * (list K * (nd R * nd R)))%type.
Notation scr' := (screen R K scr).

Definition spos (s : list K) : list Z := filter (fun j => oltb scr (nth (Z.to_nat j) s (r0 K))) (zrange (Z.of_nat (length s))).
Definition tpos (s : list K) : list Z := filter (fun j => negb (oltb scr (nth (Z.to_nat j) s (r0 K)))) (zrange (Z.of_nat (length s))).
Definition sg (y : piece) : list K := snd (fst (snd y)).
Definition ne (f : part) : bool := negb (Nat.eqb (length (fst (snd f))) 0).
Definition scd (y : piece) : part := (fst y, scr' (snd y)).
Lemma scd_vals : forall y, fst (snd (scd y)) = vals_at K (spos (sg y)) (sg y).
Proof. intros [s [[u g] v]]. reflexivity. Qed.

Lemma decomposed_ok : forall secs fs, decomposed R L K scr svd secs = Some fs ->
  exists ys : list piece, map fst ys = secs /\ (forall y, In y ys -> svd (sc_data (fst y)) = Some (snd y)) /\ fs = filter ne (map scd ys).
Proof.
  intros secs fs H. unfold decomposed in H. destruct (mapM _ secs) as [l|] eqn:E; [|discriminate]. injection H as <-.
  assert (G : exists ys : list piece, map fst ys = secs /\ (forall y, In y ys -> svd (sc_data (fst y)) = Some (snd y)) /\ l = map scd ys).
  { revert l E. induction secs as [|s secs IH]; intros l E; cbn in E.
    - injection E as <-. exists []. repeat split; auto. intros y [].
    - destruct (svd (sc_data s)) as [x|] eqn:Ex; [|discriminate]. cbn in E. destruct (mapM _ secs) as [l'|]; [|discriminate]. injection E as <-.
      destruct (IH l' eq_refl) as (ys & A & B & C). exists ((s, x) :: ys). cbn. rewrite A, C. repeat split; auto. intros y [<-|Hy]; auto. }
  destruct G as (ys & A & B & ->). exists ys. auto.
Qed.

Definition grow (fac : K) (f : part) (c : nat) : part :=
  (fst f, (firstn c (map (fun v => rmul K v fac) (fst (snd f))),
    (cols_at R (firstn c (zrange (Z.of_nat (length (fst (snd f)))))) (fst (snd (snd f))), rows_at R (firstn c (zrange (Z.of_nat (length (fst (snd f)))))) (snd (snd (snd f)))))).
Lemma truncated_ok : forall o fs gs, truncated R L K argsort renorm_fac o fs = Some gs ->
  exists ns fac, trim K argsort (map (fun f => fst (snd f)) fs) (so_cutoff K o) (so_mode K o) (so_max K o) = Some ns /\
    ((so_renorm K o = 0%nat \/ Z.of_nat (length (concat (map (fun f : part => fst (snd f)) fs))) <= zsum ns) -> fac = r1 K) /\
    (so_renorm K o <> 0%nat -> zsum ns < Z.of_nat (length (concat (map (fun f : part => fst (snd f)) fs))) ->
      fac = let '(a, b) := renorm_sums K (map (fun f : part => fst (snd f)) fs) ns (so_renorm K o) in renorm_fac a b (so_renorm K o)) /\
    gs = map (fun e => grow fac (fst e) (cut (fst (snd (fst e))) (snd e))) (combine fs ns).
Proof.
  intros o fs gs H. unfold truncated in H. cbv zeta in H. destruct (trim _ _ _ _ _ _) as [ns|]; [|discriminate]. cbn in H. injection H as <-.
  destruct (renormed_values K renorm_fac (map (fun f => fst (snd f)) fs) ns (so_renorm K o)) as (fac & E & H1 & H2). exists ns, fac. split; [reflexivity|]. split; [exact H1|]. split; [exact H2|].
  rewrite E. clear. revert ns. induction fs as [|f fs IH]; intros [|n ns]; cbn; auto. f_equal; [|apply IH]. unfold grow, py_take, cut. cbn [fst snd].
  rewrite map_length. rewrite zrange_length, Nat2Z.id. reflexivity.
Qed.
Lemma dec_at_length : forall n i, length (dec_at n i) = length n.
Proof. intros. unfold dec_at, TruncModel.enumerate. rewrite map_length, combine_length, zrange_length, Nat2Z.id. lia. Qed.
Lemma drop_length : forall s a off cnt n, length (drop_smallest K s a off cnt n) = length n.
Proof. intros. unfold drop_smallest. revert n. induction (zrange cnt) as [|i l IH]; intros n; cbn; auto. rewrite IH. apply dec_at_length. Qed.
Lemma trim_length : forall s c m b n, trim K argsort s c m b = Some n -> length n = length s.
Proof.
  intros s c m b n H. unfold trim in H. repeat match type of H with context[if ?x then _ else _] => destruct x end; try discriminate;
  repeat match type of H with context[match ?x with Some _ => _ | None => _ end] => destruct x end; repeat match type of H with context[if ?x then _ else _] => destruct x end; try discriminate;
  injection H as <-; rewrite ?drop_length; now rewrite map_length.
Qed.
Definition screened_vals (y : piece) : list K := vals_at K (spos (sg y)) (sg y).
Lemma lift : forall (ys : list piece) ns, length ns = length (filter ne (map scd ys)) ->
  exists zs : list (piece * nat), map fst zs = ys /\
  (forall X (G : part -> nat -> X), map (fun e => G (fst e) (cut (fst (snd (fst e))) (snd e))) (combine (filter ne (map scd ys)) ns) = map (fun z => G (scd (fst z)) (snd z)) (filter (fun z => ne (scd (fst z))) zs)) /\
  (forall X (H : list K -> nat -> list X), (forall c, H [] c = []) ->
    flat_map (fun z => H (screened_vals (fst z)) (snd z)) zs = flat_map (fun e => H (fst e) (cut (fst e) (snd e))) (combine (map (fun f => fst (snd f)) (filter ne (map scd ys))) ns)).
Proof.
  induction ys as [|y ys IH]; intros ns E.
  - exists []. destruct ns; [|discriminate]. repeat split.
  - cbn [map filter] in *. destruct (ne (scd y)) eqn:En.
    + destruct ns as [|n ns]; [discriminate|]. cbn in E. destruct (IH ns) as (zs & A & B & C); [lia|].
      exists ((y, cut (fst (snd (scd y))) n) :: zs). cbn [map fst snd filter combine]. rewrite A, En. cbn [map fst snd]. split; [reflexivity|]. split.
      * intros X G. f_equal. apply B.
      * intros X H H0. cbn [flat_map fst snd]. rewrite C by exact H0. rewrite scd_vals. reflexivity.
    + destruct (IH ns E) as (zs & A & B & C). exists ((y, 0%nat) :: zs). cbn [map fst snd filter combine]. rewrite A, En. split; [reflexivity|]. split; auto.
      intros X H H0. cbn [flat_map fst snd]. rewrite C by exact H0. unfold ne in En. rewrite scd_vals in En. unfold screened_vals. destruct (vals_at K (spos (sg y)) (sg y)); [|discriminate]. now rewrite H0.
Qed.
Definition kpos (z : piece * nat) : list Z := firstn (snd z) (spos (sg (fst z))).
Lemma vals_firstn : forall c pos s, vals_at K (firstn c pos) s = firstn c (vals_at K pos s). Proof. intros. unfold vals_at. now rewrite firstn_map. Qed.
Lemma vals_skipn : forall c pos s, vals_at K (skipn c pos) s = skipn c (vals_at K pos s). Proof. intros. unfold vals_at. now rewrite skipn_map. Qed.
Lemma spos_nodup : forall s, NoDup (spos s). Proof. intros. apply NoDup_filter, zrange_nodup. Qed.
Lemma spos_range : forall s z, In z (spos s) -> 0 <= z < Z.of_nat (length s) /\ olt scr (nth (Z.to_nat z) s (r0 K)).
Proof. intros s z H. apply filter_In in H. destruct H as [H1 H2]. apply in_zrange in H1. split; [exact H1|]. unfold oltb in H2. now apply negb_true_iff in H2. Qed.
Lemma in_firstn' : forall A c (l : list A) x, In x (firstn c l) -> In x l.
Proof. intros. rewrite <- (firstn_skipn c l). apply in_or_app. now left. Qed.
Lemma kpos_range : forall z j, In j (kpos z) -> 0 <= j < Z.of_nat (length (sg (fst z))).
Proof. intros z j H. apply in_firstn' in H. now apply spos_range in H. Qed.
Lemma kpos_nodup : forall z, NoDup (kpos z).
Proof. intros z. pose proof (spos_nodup (sg (fst z))) as H. unfold kpos. rewrite <- (firstn_skipn (snd z) (spos (sg (fst z)))) in H. now apply nodup_app in H. Qed.
(* all the singular values of a sector *)
Lemma sum_split : forall (Q : CRing) z (w : K -> Q), bsum (zrange (Z.of_nat (length (sg (fst z))))) (fun j => w (nth (Z.to_nat j) (sg (fst z)) (r0 K))) =
  radd Q (bsum (kpos z) (fun j => w (nth (Z.to_nat j) (sg (fst z)) (r0 K)))) (radd Q (bsum (skipn (snd z) (spos (sg (fst z)))) (fun j => w (nth (Z.to_nat j) (sg (fst z)) (r0 K)))) (bsum (tpos (sg (fst z))) (fun j => w (nth (Z.to_nat j) (sg (fst z)) (r0 K))))).
Proof.
  intros Q z w. pose proof (rth Q) as RT.
  assert (E : bsum (zrange (Z.of_nat (length (sg (fst z))))) (fun j => w (nth (Z.to_nat j) (sg (fst z)) (r0 K))) = radd Q (bsum (spos (sg (fst z))) (fun j => w (nth (Z.to_nat j) (sg (fst z)) (r0 K)))) (bsum (tpos (sg (fst z))) (fun j => w (nth (Z.to_nat j) (sg (fst z)) (r0 K))))).
  { unfold spos, tpos. rewrite !bsum_filter, <- bsum_add. apply bsum_ext. intros j _. destruct (oltb _ _); cbn [negb]; [rewrite (Radd_comm RT), (Radd_0_l RT)|rewrite (Radd_0_l RT)]; reflexivity. }
  rewrite E. rewrite <- (firstn_skipn (snd z) (spos (sg (fst z)))) at 1. rewrite bsum_app. unfold kpos. now rewrite (Radd_assoc RT).
Qed.
End Struct.

(** ** norms *)
Section Norm.
Variable R : CRing.
Add Ring RRn : (rth R).
Notation "x +' y" := (radd R x y) (at level 50, left associativity).
Notation "x *' y" := (rmul R x y) (at level 40, left associativity).
Variable cj : R -> R.
Hypothesis cj_add : forall x y, cj (x +' y) = cj x +' cj y.
Hypothesis cj_mul : forall x y, cj (x *' y) = cj x *' cj y.
Hypothesis cj0 : cj (r0 R) = r0 R.
Lemma cj_bsum' : forall A (l : list A) f, cj (bsum l f) = bsum l (fun x => cj (f x)).
Proof. induction l as [|a l IH]; intros f; [rewrite !bsum_nil; exact cj0|]. rewrite !bsum_cons, cj_add, IH. reflexivity. Qed.
Variables (m n k : Z) (u v : Z -> Z -> R).
Hypothesis Iu : forall z z', 0 <= z < k -> 0 <= z' < k -> bsum (zrange m) (fun i => cj (u i z) *' u i z') = if z =? z' then r1 R else r0 R.
Hypothesis Iv : forall z z', 0 <= z < k -> 0 <= z' < k -> bsum (zrange n) (fun j => v z j *' cj (v z' j)) = if z =? z' then r1 R else r0 R.
Lemma outer_norm : forall e : Z -> R, bsum (zrange m) (fun i => bsum (zrange n) (fun j =>
    cj (bsum (zrange k) (fun z => u i z *' e z *' v z j)) *' bsum (zrange k) (fun z => u i z *' e z *' v z j))) = bsum (zrange k) (fun z => cj (e z) *' e z).
Proof.
  intros e.
  transitivity (bsum (zrange k) (fun z => bsum (zrange k) (fun z' => cj (e z) *' e z' *' bsum (zrange m) (fun i => cj (u i z) *' u i z') *' bsum (zrange n) (fun j => v z' j *' cj (v z j))))).
  - rewrite (bsum_ext R _ (zrange m) _ (fun i => bsum (zrange k) (fun z => bsum (zrange k) (fun z' => bsum (zrange n) (fun j => cj (e z) *' e z' *' (cj (u i z) *' u i z') *' (v z' j *' cj (v z j))))))).
    + rewrite (bsum_swap R _ _ (zrange m) (zrange k)). apply bsum_ext. intros z _. rewrite (bsum_swap R _ _ (zrange m) (zrange k)). apply bsum_ext. intros z' _.
      rewrite <- (bsum_mull R _ (zrange m) (cj (e z) *' e z')), <- bsum_mulr. apply bsum_ext. intros i _. now rewrite <- bsum_mull.
    + intros i _. rewrite <- (bsum_swap R _ _ (zrange n) (zrange k)) || idtac.
      rewrite (bsum_ext R _ (zrange n) _ (fun j => bsum (zrange k) (fun z => bsum (zrange k) (fun z' => cj (e z) *' e z' *' (cj (u i z) *' u i z') *' (v z' j *' cj (v z j)))))).
      * rewrite (bsum_swap R _ _ (zrange n) (zrange k)). apply bsum_ext. intros z _. apply bsum_swap.
      * intros j _. rewrite cj_bsum', bsum_prod. apply bsum_ext. intros z _. apply bsum_ext. intros z' _. rewrite !cj_mul. ring.
  - apply bsum_ext. intros z Hz. apply in_zrange in Hz. rewrite (bsum_single R _ (zrange k) _ z); [|apply zrange_nodup|now apply in_zrange|].
    + rewrite Iu, Iv, Z.eqb_refl by lia. ring.
    + intros z' Hz' Hn. apply in_zrange in Hz'. rewrite Iu by lia. destruct (Z.eqb_spec z z'); [congruence|]. ring.
Qed.
End Norm.

Lemma zrange_nth_sum : forall (R : CRing) (l : list Z) (h : Z -> Z -> R), bsum (zrange (Z.of_nat (length l))) (fun a => h a (nth (Z.to_nat a) l 0)) = bsum (combine (zrange (Z.of_nat (length l))) l) (fun e => h (fst e) (snd e)).
Proof.
  intros R l. induction l as [|x l IH]; intros h; [reflexivity|]. cbn [length]. replace (Z.of_nat (S (length l))) with (Z.of_nat (length l) + 1) by lia. rewrite zrange_cons by lia.
  cbn [combine]. rewrite !bsum_cons. cbn [fst snd]. change (nth (Z.to_nat 0) (x :: l) 0) with x. f_equal. rewrite bsum_map, combine_map_l, bsum_map. cbn [fst snd].
  rewrite <- (IH (fun a b => h (1 + a) b)). apply bsum_ext. intros a Ha. apply in_zrange in Ha. f_equal. replace (Z.to_nat (1 + a)) with (S (Z.to_nat a)) by lia. reflexivity.
Qed.
Lemma zrange_nth_sum' : forall (R : CRing) (l : list Z) (h : Z -> R), bsum (zrange (Z.of_nat (length l))) (fun a => h (nth (Z.to_nat a) l 0)) = bsum l h.
Proof.
  intros R l h. rewrite (zrange_nth_sum R l (fun _ => h)). rewrite <- (bsum_map R _ _ snd). f_equal.
  assert (G : forall A B (x : list A) (y : list B), length x = length y -> map snd (combine x y) = y). { induction x; destruct y; cbn; intros; try discriminate; auto. f_equal. apply IHx. lia. }
  apply G. now rewrite zrange_length, Nat2Z.id.
Qed.
Lemma sub_sum : forall (R : CRing) (P : list Z) k (h : Z -> R), NoDup P -> (forall z, In z P -> 0 <= z < k) -> bsum P h = bsum (zrange k) (fun z => if existsb (Z.eqb z) P then h z else r0 R).
Proof.
  intros R P k h N I. rewrite <- bsum_filter. apply bsum_perm. apply NoDup_Permutation; [exact N|apply NoDup_filter, zrange_nodup|].
  intros z. rewrite filter_In, in_zrange, existsb_exists. split.
  - intros H. split; [now apply I|]. exists z. split; [exact H|apply Z.eqb_refl].
  - intros [_ (y & Hy & E)]. apply Z.eqb_eq in E. now subst.
Qed.

(** ** one sector *)
Section Piece.
Variable R : CRing.
Add Ring RRp : (rth R).
Variable L : Label.
Variable K : ORing.
Add Ring KRp : (rth K).
Notation "x +' y" := (radd R x y) (at level 50, left associativity).
Notation "x *' y" := (rmul R x y) (at level 40, left associativity).
Variable emb : K -> R.
Variable sqrtK : K -> K.
Variable scr : K.
Variable cj : R -> R.
Hypothesis cj_add : forall x y, cj (x +' y) = cj x +' cj y.
Hypothesis cj_mul : forall x y, cj (x *' y) = cj x *' cj y.
Hypothesis cj_emb : forall x, cj (emb x) = emb x.
Hypothesis emb_add : forall x y, emb (radd K x y) = emb x +' emb y.
Hypothesis emb_mul : forall x y, emb (rmul K x y) = emb x *' emb y.
Lemma zero_of : forall x : R, x = x +' x -> x = r0 R. Proof. intros x H. transitivity (x +' x +' ropp R x); [|rewrite <- H; ring]. ring. Qed.
Lemma emb0 : emb (r0 K) = r0 R. Proof. apply zero_of. rewrite <- emb_add. f_equal. ring. Qed.
Lemma cj00 : cj (r0 R) = r0 R. Proof. apply zero_of. rewrite <- cj_add. f_equal. ring. Qed.
Lemma emb_opp : forall x, emb (ropp K x) = ropp R (emb x).
Proof. intros x. transitivity (emb (ropp K x) +' emb x +' ropp R (emb x)); [ring|]. rewrite <- emb_add. replace (radd K (ropp K x) x) with (r0 K) by ring. rewrite emb0. ring. Qed.
Lemma in2 : forall (a : nd R) m n i j, nshape a = [m; n] -> 0 <= i < m -> 0 <= j < n -> nget a [i; j] = nval a [i; j].
Proof. intros a m n i j E Hi Hj. apply nget_in. rewrite E. repeat constructor; lia. Qed.

Variables (sec : sector R L) (u v : nd R) (s : list K) (m n : Z) (c : nat) (fac : K).
Notation k := (Z.of_nat (length s)).
Notation y := (sec, (u, s, v)).
Notation P := (firstn c (spos K scr s)).
Notation w := (Z.of_nat (length P)).
Notation g := (grow R L K fac (scd R L K scr y) c).
Notation at_ z := (nth (Z.to_nat z) s (r0 K)).
Hypothesis Su : nshape u = [m; k].
Hypothesis Sv : nshape v = [k; n].
Hypothesis Mp : 0 < m.
Hypothesis Np : 0 < n.
Lemma P_range : forall z, In z P -> 0 <= z < k. Proof. intros z H. apply in_firstn' in H. now apply spos_range in H. Qed.
Lemma P_at : forall a, 0 <= a < w -> 0 <= nth (Z.to_nat a) P 0 < k. Proof. intros a H. apply P_range. apply nth_In. lia. Qed.
Lemma vl : length (fst (snd (scd R L K scr y))) = length (spos K scr s).
Proof. rewrite scd_vals. unfold vals_at. now rewrite map_length. Qed.
Lemma zl : length (firstn c (zrange (Z.of_nat (length (spos K scr s))))) = length P.
Proof. rewrite !firstn_length, zrange_length, Nat2Z.id. reflexivity. Qed.
Lemma znth : forall a, 0 <= a < w -> nth (Z.to_nat (nth (Z.to_nat a) (firstn c (zrange (Z.of_nat (length (spos K scr s))))) 0)) (spos K scr s) 0 = nth (Z.to_nat a) P 0.
Proof.
  intros a H. pose proof (firstn_length c (spos K scr s)) as FL.
  assert (E : nth (Z.to_nat a) (firstn c (zrange (Z.of_nat (length (spos K scr s))))) 0 = a).
  { transitivity (nth (Z.to_nat a) (zrange (Z.of_nat (length (spos K scr s)))) 0).
    - rewrite <- (firstn_skipn c (zrange (Z.of_nat (length (spos K scr s))))) at 2. rewrite app_nth1; [reflexivity|]. rewrite zl. lia.
    - rewrite <- (map_id (zrange _)). rewrite nth_zrange_map by lia. reflexivity. }
  rewrite E. rewrite <- (firstn_skipn c (spos K scr s)) at 1. rewrite app_nth1 by lia. reflexivity.
Qed.
Lemma g_sec : fst g = sec. Proof. reflexivity. Qed.
Lemma g_vals : fst (snd g) = map (fun z => rmul K (at_ z) fac) P.
Proof. unfold grow. cbn [fst snd]. rewrite scd_vals. cbn [sg fst snd]. unfold vals_at. rewrite map_map, firstn_map. reflexivity. Qed.
Lemma g_U : nshape (fst (snd (snd g))) = [m; w] /\ forall i a, 0 <= i < m -> 0 <= a < w -> nget (fst (snd (snd g))) [i; a] = nget u [i; nth (Z.to_nat a) P 0].
Proof.
  assert (S : nshape (fst (snd (snd g))) = [m; w]).
  { unfold grow. cbn [fst snd]. unfold cols_at. cbn [nshape]. rewrite vl, zl. cbn [scd screen fst snd]. unfold cols_at. cbn [nshape]. rewrite Su. reflexivity. }
  split; [exact S|]. intros i a Hi Ha. rewrite (in2 _ _ _ _ _ S Hi Ha). rewrite (in2 _ _ _ _ _ Su Hi (P_at a Ha)).
  unfold grow. cbn [fst snd]. rewrite vl. cbn [scd screen fst snd]. unfold cols_at. cbn [nval nth]. fold (spos K scr s). rewrite znth by exact Ha. reflexivity.
Qed.
Lemma g_V : nshape (snd (snd (snd g))) = [w; n] /\ forall a j, 0 <= j < n -> 0 <= a < w -> nget (snd (snd (snd g))) [a; j] = nget v [nth (Z.to_nat a) P 0; j].
Proof.
  assert (S : nshape (snd (snd (snd g))) = [w; n]).
  { unfold grow. cbn [fst snd]. unfold rows_at. cbn [nshape]. rewrite vl, zl. cbn [scd screen fst snd]. unfold rows_at. cbn [nshape]. rewrite Sv. reflexivity. }
  split; [exact S|]. intros a j Hj Ha. rewrite (in2 _ _ _ _ _ S Ha Hj). rewrite (in2 _ _ _ _ _ Sv (P_at a Ha) Hj).
  unfold grow. cbn [fst snd]. rewrite vl. cbn [scd screen fst snd]. unfold rows_at. cbn [nval nth]. fold (spos K scr s). rewrite znth by exact Ha. reflexivity.
Qed.
Lemma nth_vals : forall a, 0 <= a < w -> nth (Z.to_nat a) (fst (snd g)) (r0 K) = rmul K (at_ (nth (Z.to_nat a) P 0)) fac.
Proof. intros a H. rewrite g_vals. rewrite (nth_indep _ (r0 K) (rmul K (at_ 0) fac)) by (rewrite map_length; lia). now rewrite (map_nth (fun z => rmul K (at_ z) fac) P 0). Qed.

(* absorption *)
Definition mul_of (absorb : option Z) : (Z -> R) * (Z -> R) :=
  let e a := emb (nth (Z.to_nat a) (fst (snd g)) (r0 K)) in
  let r a := emb (nth (Z.to_nat a) (map sqrtK (fst (snd g))) (r0 K)) in
  match absorb with
  | None => ((fun _ => r1 R), (fun _ => r1 R))
  | Some x => if x =? -1 then (e, fun _ => r1 R) else if x =? 1 then (fun _ => r1 R, e) else (r, r)
  end.
Definition absorbed (absorb : option Z) : nd R * nd R := match absorb with Some a => absorb_svd R K emb sqrtK a (fst (snd g)) (snd (snd g)) | None => snd (snd g) end.
Lemma absorbed_U : forall ab, nshape (fst (absorbed ab)) = [m; w] /\ forall i a, 0 <= i < m -> 0 <= a < w -> nget (fst (absorbed ab)) [i; a] = nget u [i; nth (Z.to_nat a) P 0] *' fst (mul_of ab) a.
Proof.
  intros ab. destruct g_U as [S E].
  assert (S' : nshape (fst (absorbed ab)) = [m; w]). { destruct ab as [x|]; [|exact S]. unfold absorbed, absorb_svd. destruct (x =? -1); [exact S|]. destruct (x =? 1); exact S. }
  split; [exact S'|]. intros i a Hi Ha. rewrite <- (E i a Hi Ha). rewrite (in2 _ _ _ _ _ S' Hi Ha), (in2 _ _ _ _ _ S Hi Ha). unfold absorbed, absorb_svd, mul_of.
  destruct ab as [x|]; [|cbn [fst]; ring]. destruct (x =? -1); [reflexivity|]. destruct (x =? 1); [cbn [fst]; ring|reflexivity].
Qed.
Lemma absorbed_V : forall ab, nshape (snd (absorbed ab)) = [w; n] /\ forall a j, 0 <= j < n -> 0 <= a < w -> nget (snd (absorbed ab)) [a; j] = nget v [nth (Z.to_nat a) P 0; j] *' snd (mul_of ab) a.
Proof.
  intros ab. destruct g_V as [S E].
  assert (S' : nshape (snd (absorbed ab)) = [w; n]). { destruct ab as [x|]; [|exact S]. unfold absorbed, absorb_svd. destruct (x =? -1); [exact S|]. destruct (x =? 1); exact S. }
  split; [exact S'|]. intros a j Hj Ha. rewrite <- (E a j Hj Ha). rewrite (in2 _ _ _ _ _ S' Ha Hj), (in2 _ _ _ _ _ S Ha Hj). unfold absorbed, absorb_svd, mul_of.
  destruct ab as [x|]; [|cbn [snd]; ring]. destruct (x =? -1); [cbn [snd]; ring|]. destruct (x =? 1); reflexivity.
Qed.
(* the product of the factors of the sector, with the values in between when they are not absorbed *)
Definition mid (ab : option Z) (a : Z) : R := match ab with None => emb (nth (Z.to_nat a) (fst (snd g)) (r0 K)) | Some _ => r1 R end.
Lemma mid_mul : forall ab, (forall x, ab = Some x -> x <> -1 -> x <> 1 -> forall z, In z P -> rmul K (sqrtK (rmul K (at_ z) fac)) (sqrtK (rmul K (at_ z) fac)) = rmul K (at_ z) fac) ->
  forall a, 0 <= a < w -> fst (mul_of ab) a *' mid ab a *' snd (mul_of ab) a = emb (rmul K (at_ (nth (Z.to_nat a) P 0)) fac).
Proof.
  intros ab Root a Ha. unfold mul_of, mid. destruct ab as [x|]; [|cbn [fst snd]; rewrite nth_vals by exact Ha; ring].
  destruct (Z.eqb_spec x (-1)); [cbn [fst snd]; rewrite nth_vals by exact Ha; ring|]. destruct (Z.eqb_spec x 1); [cbn [fst snd]; rewrite nth_vals by exact Ha; ring|].
  cbn [fst snd]. assert (E : nth (Z.to_nat a) (map sqrtK (fst (snd g))) (r0 K) = sqrtK (rmul K (at_ (nth (Z.to_nat a) P 0)) fac)).
  { rewrite <- nth_vals by exact Ha. rewrite (nth_indep _ (r0 K) (sqrtK (r0 K))) by (rewrite map_length, g_vals, map_length; lia). apply map_nth. }
  rewrite E. rewrite <- (Root x eq_refl) at 3; auto; [|apply nth_In; lia]. rewrite emb_mul. ring.
Qed.
Definition bmat (i j : Z) : R := bsum (zrange k) (fun z => nget u [i; z] *' emb (if existsb (Z.eqb z) P then rmul K (at_ z) fac else r0 K) *' nget v [z; j]).
Lemma piece_prod : forall ab, (forall x, ab = Some x -> x <> -1 -> x <> 1 -> forall z, In z P -> rmul K (sqrtK (rmul K (at_ z) fac)) (sqrtK (rmul K (at_ z) fac)) = rmul K (at_ z) fac) ->
  forall i j, 0 <= i < m -> 0 <= j < n -> bsum (zrange w) (fun a => nget (fst (absorbed ab)) [i; a] *' mid ab a *' nget (snd (absorbed ab)) [a; j]) = bmat i j.
Proof.
  intros ab Root i j Hi Hj. transitivity (bsum P (fun z => nget u [i; z] *' emb (rmul K (at_ z) fac) *' nget v [z; j])).
  - rewrite <- (zrange_nth_sum' R P). apply bsum_ext. intros a Ha. apply in_zrange in Ha. rewrite (proj2 (absorbed_U ab)), (proj2 (absorbed_V ab)) by lia. rewrite <- (mid_mul ab Root a Ha). ring.
  - unfold bmat. rewrite (sub_sum R P k); [|pose proof (spos_nodup K scr s) as H; rewrite <- (firstn_skipn c (spos K scr s)) in H; now apply nodup_app in H|exact P_range].
    apply bsum_ext. intros z _. destruct (existsb _ P); [reflexivity|]. rewrite emb0. ring.
Qed.
Variable a : nd R.
Hypothesis Ea : forall i j, 0 <= i < m -> 0 <= j < n -> nget a [i; j] = bsum (zrange k) (fun z => nget u [i; z] *' emb (at_ z) *' nget v [z; j]).
Hypothesis Iu : forall z z', 0 <= z < k -> 0 <= z' < k -> bsum (zrange m) (fun i => cj (nget u [i; z]) *' nget u [i; z']) = if z =? z' then r1 R else r0 R.
Hypothesis Iv : forall z z', 0 <= z < k -> 0 <= z' < k -> bsum (zrange n) (fun j => nget v [z; j] *' cj (nget v [z'; j])) = if z =? z' then r1 R else r0 R.
Notation sq x := (emb (rmul K x x)).
Lemma norm_val : forall e : Z -> K, bsum (zrange m) (fun i => bsum (zrange n) (fun j => cj (bsum (zrange k) (fun z => nget u [i; z] *' emb (e z) *' nget v [z; j])) *' bsum (zrange k) (fun z => nget u [i; z] *' emb (e z) *' nget v [z; j]))) =
  bsum (zrange k) (fun z => sq (e z)).
Proof. intros e. rewrite (outer_norm R cj cj_add cj_mul cj00 m n k (fun i z => nget u [i; z]) (fun z j => nget v [z; j]) Iu Iv (fun z => emb (e z))). apply bsum_ext. intros z _. now rewrite cj_emb, emb_mul. Qed.
Lemma P_nodup : NoDup P. Proof. pose proof (spos_nodup K scr s) as H. rewrite <- (firstn_skipn c (spos K scr s)) in H. now apply nodup_app in H. Qed.
Lemma b_norm : bsum (zrange m) (fun i => bsum (zrange n) (fun j => cj (bmat i j) *' bmat i j)) = bsum P (fun z => sq (rmul K (at_ z) fac)).
Proof.
  unfold bmat. rewrite norm_val. rewrite (sub_sum R P k _ P_nodup P_range). apply bsum_ext. intros z _. destruct (existsb _ P); [reflexivity|]. replace (rmul K (r0 K) (r0 K)) with (r0 K) by ring. apply emb0.
Qed.
Lemma a_norm : bsum (zrange m) (fun i => bsum (zrange n) (fun j => cj (nget a [i; j]) *' nget a [i; j])) = bsum (zrange k) (fun z => sq (at_ z)).
Proof. rewrite <- norm_val. apply bsum_ext. intros i Hi. apply bsum_ext. intros j Hj. apply in_zrange in Hi, Hj. now rewrite Ea. Qed.
Lemma ab_norm : bsum (zrange m) (fun i => bsum (zrange n) (fun j => cj (nget a [i; j] +' ropp R (bmat i j)) *' (nget a [i; j] +' ropp R (bmat i j)))) =
  bsum P (fun z => sq (radd K (at_ z) (ropp K (rmul K (at_ z) fac)))) +' (bsum (skipn c (spos K scr s)) (fun z => sq (at_ z)) +' bsum (tpos K scr s) (fun z => sq (at_ z))).
Proof.
  transitivity (bsum (zrange k) (fun z => sq (radd K (at_ z) (ropp K (if existsb (Z.eqb z) P then rmul K (at_ z) fac else r0 K))))).
  - rewrite <- norm_val. apply bsum_ext. intros i Hi. apply bsum_ext. intros j Hj. apply in_zrange in Hi, Hj. rewrite Ea by lia. unfold bmat. rewrite <- bsum_opp, <- bsum_add.
    assert (E : bsum (zrange k) (fun z => nget u [i; z] *' emb (at_ z) *' nget v [z; j] +' ropp R (nget u [i; z] *' emb (if existsb (Z.eqb z) P then rmul K (at_ z) fac else r0 K) *' nget v [z; j])) =
      bsum (zrange k) (fun z => nget u [i; z] *' emb (radd K (at_ z) (ropp K (if existsb (Z.eqb z) P then rmul K (at_ z) fac else r0 K))) *' nget v [z; j])).
    { apply bsum_ext. intros z _. rewrite emb_add, emb_opp. ring. }
    now rewrite E.
  - rewrite <- bsum_app.
    assert (D : Permutation (skipn c (spos K scr s) ++ tpos K scr s) (filter (fun z => negb (existsb (Z.eqb z) P)) (zrange k))).
    { pose proof (spos_nodup K scr s) as N. rewrite <- (firstn_skipn c (spos K scr s)) in N. apply nodup_app in N. destruct N as (N1 & N2 & N3).
      assert (T : forall z, In z (tpos K scr s) -> 0 <= z < k /\ ~ In z (spos K scr s)). { intros z H. apply filter_In in H. destruct H as [H1 H2]. apply in_zrange in H1. split; [exact H1|]. intros H. apply filter_In in H. destruct H as [_ H]. rewrite H in H2. discriminate. }
      assert (IN : forall z, In z P -> In z (spos K scr s)) by (intros z; apply in_firstn').
      assert (IS : forall z, In z (skipn c (spos K scr s)) -> In z (spos K scr s)). { intros z H. rewrite <- (firstn_skipn c (spos K scr s)). apply in_or_app. now right. }
      apply NoDup_Permutation.
      - apply nodup_app. split; [exact N2|]. split; [apply NoDup_filter, zrange_nodup|]. intros z H1 H2. apply T in H2. apply IS in H1. tauto.
      - apply NoDup_filter, zrange_nodup.
      - intros z. rewrite in_app_iff, filter_In, in_zrange, negb_true_iff. rewrite <- not_true_iff_false, existsb_exists. split.
        + intros [H|H].
          * split; [apply (spos_range K scr s z); auto|]. intros (x & Hx & E). apply Z.eqb_eq in E. subst x. exact (N3 z Hx H).
          * destruct (T z H) as [T1 T2]. split; [exact T1|]. intros (x & Hx & E). apply Z.eqb_eq in E. subst x. auto.
        + intros [H1 H2]. destruct (oltb scr (at_ z)) eqn:E.
          * left. assert (H : In z (spos K scr s)) by (apply filter_In; split; [now apply in_zrange|exact E]). rewrite <- (firstn_skipn c (spos K scr s)) in H. apply in_app_or in H. destruct H as [H|H]; [|exact H]. exfalso. apply H2. exists z. split; [exact H|apply Z.eqb_refl].
          * right. apply filter_In. split; [now apply in_zrange|]. now rewrite E. }
    rewrite (bsum_perm R _ _ _ _ D), bsum_filter. rewrite (sub_sum R P k _ P_nodup P_range), <- bsum_add. apply bsum_ext. intros z _. destruct (existsb _ P); cbn [negb]; [ring|].
    replace (radd K (at_ z) (ropp K (r0 K))) with (at_ z) by ring. ring.
Qed.
End Piece.
