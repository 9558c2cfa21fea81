(** Lemmas for C59: the singular value decomposition of the blocks with one label. *)
From Coq Require Import ZArith Bool List Lia Permutation Ring.
From Verif Require Import SymModel SymProofs DictLib IndexLib OptLib RingLib OrdLib BondModel FuseModel FuseProofs BlockModel BlockProofs StructModel StructProofs MpsModel MpsChain MpsProofs MpsDot TruncModel TruncProofs CanonModel CanonProofs CompressModel.
Import ListNotations.
Open Scope Z_scope.

Section Svd.
Variable R : CRing.
Add Ring Rr31 : (rth R).
Variable L : Label.
Variable K : ORing.
Variable emb : K -> R.
Variable cj : R -> R.
Notation tblock := (bool * (list L * nd R))%type.
Notation "0'" := (r0 R). Notation "1'" := (r1 R).
Infix "*'" := (rmul R) (at level 40, left associativity).
Notation at_ := (at_ K).

(* what np.linalg.svd promises when it returns: a = u s vh with orthonormal columns of u and rows of vh *)
Definition exact_svd (svd : nd R -> option (nd R * list K * nd R)) : Prop :=
  forall a m n u s vh, nshape a = [m; n] -> 0 < m -> 0 < n -> svd a = Some (u, s, vh) ->
    let k := Z.of_nat (length s) in
    0 < k /\ nshape u = [m; k] /\ nshape vh = [k; n] /\
    (forall i j, 0 <= i < m -> 0 <= j < n -> nget a [i; j] = bsum (zrange k) (fun z => nget u [i; z] *' emb (nth (Z.to_nat z) s (r0 K)) *' nget vh [z; j])) /\
    (forall z z', 0 <= z < k -> 0 <= z' < k -> bsum (zrange m) (fun i => cj (nget u [i; z]) *' nget u [i; z']) = if z =? z' then 1' else 0') /\
    (forall z z', 0 <= z < k -> 0 <= z' < k -> bsum (zrange n) (fun j => nget vh [z; j] *' cj (nget vh [z'; j])) = if z =? z' then 1' else 0').
Variable svd : nd R -> option (nd R * list K * nd R).
Hypothesis HS : exact_svd svd.

(* diag(s) w *)
Definition scaled (s : list K) (d : Z) (w : Z -> Z -> R) : nd R :=
  mkNd [Z.of_nat (length s); d] (fun xs => emb (at_ s (nth 0 xs 0)) *' w (nth 0 xs 0) (nth 1 xs 0)).
Lemma scaled_get : forall s d w z y, 0 <= z < Z.of_nat (length s) -> 0 <= y < d -> nget (scaled s d w) [z; y] = emb (at_ s z) *' w z y.
Proof. intros s d w z y Hz Hy. rewrite nget_in; [reflexivity|]. apply in_shape2. auto. Qed.
Lemma scaled_out : forall s d w z y, ~ (0 <= z < Z.of_nat (length s) /\ 0 <= y < d) -> nget (scaled s d w) [z; y] = 0'.
Proof. intros s d w z y H. apply nget_out. cbn [scaled nshape]. now rewrite in_shape2. Qed.

Definition shape_ok (put : forall A : Type, A -> list A -> list A) (d : Z) (bs : list tblock) : Prop :=
  bs <> [] /\ 0 < d /\ forall tb, In tb bs -> exists rs, nshape (snd (snd tb)) = put Z d rs /\ Forall (fun x => 0 < x) rs.
(* the rows of w are unit vectors *)
Definition unit_rows (k d : Z) (w : Z -> Z -> R) : Prop := forall z, 0 <= z < k -> bsum (zrange d) (fun y => cj (w z y) *' w z y) = 1'.

Lemma left_group_ok : forall d g bs s vh, shape_ok put_last d (snd g) -> left_group R L K svd g = Some (bs, s, vh) ->
  fac_ok R L put_last rest_last cj d (snd g) (bs, scaled s d (fun z y => nget vh [z; y])) /\ 0 < Z.of_nat (length s) /\ nshape vh = [Z.of_nat (length s); d] /\ unit_rows (Z.of_nat (length s)) d (fun z y => nget vh [z; y]).
Proof.
  intros d [q bs0] bs s vh (Nn & Hd & Hb) H. cbn [snd] in *. unfold left_group in H. cbn [snd] in H. set (ms := map (fun b : tblock => rows_left R (snd (snd b))) bs0) in *.
  destruct (svd (nd_concat 0 ms)) as [[[u s'] vh']|] eqn:E; [|discriminate]. cbn [bind] in H. injection H as <- <- <-.
  assert (Hs: forall m, In m ms -> nshape m = [rows_of R m; d] /\ 0 < rows_of R m). { intros m Hm. apply in_map_iff in Hm. destruct Hm as (tb & <- & Ht). destruct (Hb tb Ht) as (rs & Er & Pos). destruct (left_mat_ok R _ _ _ Er Hd Pos) as [M1 _]. unfold rows_of. rewrite M1. cbn [nth]. split; [reflexivity|now apply prodZ_pos]. }
  destruct (concat_rows R ms d ltac:(now destruct bs0) Hs) as [Es Ps]. destruct (HS _ _ _ _ _ _ Es Ps Hd E) as (Hk & Eu & Ev & Ef & Eo & Er). set (k := Z.of_nat (length s')) in *. set (W := scaled s' d (fun z y => nget vh' [z; y])).
  destruct (rows_join R u W _ k d ms 0 Eu ltac:(lia) ltac:(lia) Hs) as [J1 J2].
  { intros x y Hx Hy. cbn [Z.add]. transitivity (nget (nd_concat 0 ms) [x; y]); [symmetry; rewrite nget_in by (rewrite Es; apply in_shape2; lia); reflexivity|]. rewrite Ef by auto. apply bsum_ext. intros z Hz. apply in_zrange in Hz. unfold W. rewrite scaled_get by auto. unfold TruncModel.at_. ring. }
  destruct (combine_pairs R L put_last rest_last (fun A d rs => removelast_last rs d) (rows_left R) (fun q b k => nd_reshape (removelast (nshape b) ++ [k]) q) (left_mat_ok R) (left_back_ok R) d k W bs0 _ Hb Hd Hk J1) as [C1 C2].
  split; [|split; [auto|split; [auto|] ] ].
  2:{ intros z Hz. transitivity (bsum (zrange d) (fun j => nget vh' [z; j] *' cj (nget vh' [z; j]))); [apply bsum_ext; intros; ring|]. rewrite Er by auto. now rewrite Z.eqb_refl. }
  exists k. cbn [fst snd]. split; [exact Hk|]. split; [reflexivity|]. split; [exact C1|].
  intros z z' Hz Hz'. rewrite (C2 (fun a b => cj a *' b)). rewrite (J2 (fun a b => cj a *' b)). cbn [Z.add]. now apply Eo.
Qed.

(** *** columns *)
Definition same (a b : nd R) : Prop := nshape a = nshape b /\ forall xs, nget a xs = nget b xs.
Definition same_block (a b : tblock) : Prop := fst a = fst b /\ fst (snd a) = fst (snd b) /\ same (snd (snd a)) (snd (snd b)).
Lemma fac_same : forall put rest d bs l l' r, Forall2 same_block l l' -> fac_ok R L put rest cj d bs (l, r) -> fac_ok R L put rest cj d bs (l', r).
Proof.
  intros put rest d bs l l' r F (k & Hk & Es & P & I). exists k. split; [exact Hk|]. split; [exact Es|]. cbn [fst snd] in *. split.
  - revert l' F. clear I. induction P as [|tb x bs l P Ps IH]; intros l' F; inversion F as [|? y ? m (A1 & A2 & A3 & A4) F']; subst; constructor; [|now apply IH]. destruct P as (P1 & P2 & P3 & P4). split; [congruence|]. split; [congruence|]. split; [congruence|]. intros y0 ys H1 H2. rewrite P4 by auto. apply bsum_ext. intros z _. now rewrite A4.
  - intros z z' Hz Hz'. rewrite <- (I z z' Hz Hz'). clear -F. induction F as [|x y l m (A1 & A2 & A3 & A4) F IH]; [reflexivity|]. rewrite !bsum_cons, IH, A3. f_equal. apply bsum_ext. intros ys _. now rewrite !A4.
Qed.
Lemma nval_T : forall (a : nd R) m n x y, nshape a = [m; n] -> nval (nd_T R a) [x; y] = nval a [y; x].
Proof. intros a m n x y E. unfold nd_T. cbn [nd_transpose nval]. rewrite E. reflexivity. Qed.
Lemma cat_T : forall ms d x y, (forall m, In m ms -> nshape m = [d; cols_of R m]) -> cat_val 1 ms [y; x] = cat_val 0 (map (nd_T R) ms) [x; y].
Proof.
  induction ms as [|m ms IH]; intros d x y H; [reflexivity|]. cbn [map cat_val nth]. assert (E: nshape m = [d; cols_of R m]) by (apply H; now left). rewrite (proj1 (nget_T R m _ _ 0 0 E)). rewrite E. cbn [nth]. destruct (x <? cols_of R m); [now rewrite (nval_T m _ _ _ _ E)|]. cbn [upd firstn skipn app]. apply (IH d). intros; apply H; now right.
Qed.
Lemma split_cols_rows : forall vh N k ns k0, nshape vh = [k; N] -> 0 <= k0 -> k0 + zsum ns = N -> (forall n, In n ns -> 0 < n) ->
  Forall2 (fun p p' => exists n, nshape p = [n; k] /\ nshape p' = [k; n] /\ forall x z, nget p [x; z] = nget p' [z; x]) (split_rows R k0 ns (nd_T R vh)) (split_cols R k0 ns vh).
Proof.
  intros vh N k. assert (T: forall k0 n, nshape vh = [k; N] -> 0 <= k0 -> k0 + n <= N -> 0 < n -> exists n', nshape (nd_slice 0 k0 n (nd_T R vh)) = [n'; k] /\ nshape (nd_slice 1 k0 n vh) = [k; n'] /\ forall x z, nget (nd_slice 0 k0 n (nd_T R vh)) [x; z] = nget (nd_slice 1 k0 n vh) [z; x]).
  { intros k0 n E H0 Hn Pn. pose proof (proj1 (nget_T R vh _ _ 0 0 E)) as ET. exists n. split; [cbn [nd_slice nshape]; rewrite ET; reflexivity|]. split; [cbn [nd_slice nshape]; rewrite E; reflexivity|]. intros x z.
    pose proof (nget_slice R (nd_T R vh) [] N [k] k0 n [] x [z] ET H0 Hn eq_refl) as S1. pose proof (nget_slice R vh [k] N [] k0 n [z] x [] E H0 Hn eq_refl) as S2. cbn [length app] in S1, S2. rewrite S1, S2. destruct ((0 <=? x) && (x <? n)); [|reflexivity]. now rewrite (proj2 (nget_T R vh _ _ z (k0 + x) E)). }
  induction ns as [|n ns IH]; intros k0 E H0 HN P; [constructor|]. rewrite zsum_cons in HN. pose proof (P n (or_introl eq_refl)) as Pn. assert (Z0: 0 <= zsum ns) by (apply zsum_nonneg; intros x Hx; specialize (P x (or_intror Hx)); lia). pose proof (proj1 (nget_T R vh _ _ 0 0 E)) as ET.
  rewrite (split_cons R (nd_T R vh) N k) by (auto; lia). assert (Ec: split_cols R k0 (n :: ns) vh = nd_slice 1 k0 n vh :: split_cols R (k0 + n) ns vh).
  { destruct ns as [|n' ns]; [|reflexivity]. cbn [split_cols]. unfold cols_of. rewrite E. cbn [nth]. do 2 f_equal. cbn in HN. lia. }
  rewrite Ec. constructor; [apply T; auto; lia|]. apply IH; auto; try lia. intros m Hm. apply P. now right.
Qed.
Lemma right_group_ok : forall d g bs s u, shape_ok put_first d (snd g) -> right_group R L K svd g = Some (bs, s, u) ->
  fac_ok R L put_first rest_first cj d (snd g) (bs, scaled s d (fun z y => nget u [y; z])) /\ 0 < Z.of_nat (length s) /\ nshape u = [d; Z.of_nat (length s)] /\ unit_rows (Z.of_nat (length s)) d (fun z y => nget u [y; z]).
Proof.
  intros d [q bs0] bs s u (Nn & Hd & Hb) H. cbn [snd] in *. unfold right_group in H. cbn [snd] in H. set (ms := map (fun b : tblock => rows_right R (snd (snd b))) bs0) in *.
  destruct (svd (nd_concat 1 ms)) as [[[u' s'] vh]|] eqn:E; [|discriminate]. cbn [bind] in H. injection H as <- <- <-.
  set (mt := map (fun b : tblock => nd_T R (rows_right R (snd (snd b)))) bs0). assert (Emt: mt = map (nd_T R) ms) by (unfold mt, ms; now rewrite map_map).
  assert (Hs: forall m, In m mt -> nshape m = [rows_of R m; d] /\ 0 < rows_of R m). { intros m Hm. apply in_map_iff in Hm. destruct Hm as (tb & <- & Ht). destruct (Hb tb Ht) as (rs & Er & Pos). destruct (right_mat_ok R _ _ _ Er Hd Pos) as [M1 _]. unfold rows_of. rewrite M1. cbn [nth]. split; [reflexivity|now apply prodZ_pos]. }
  assert (Hc: forall m, In m ms -> nshape m = [d; cols_of R m] /\ 0 < cols_of R m /\ rows_of R (nd_T R m) = cols_of R m).
  { intros m Hm. apply in_map_iff in Hm. destruct Hm as (tb & <- & Ht). destruct (Hb tb Ht) as (rs & Er & Pos). unfold put_first in Er. pose proof (prodZ_pos _ Pos). assert (Es: nshape (rows_right R (snd (snd tb))) = [d; prodZ rs]) by (unfold rows_right; rewrite Er; cbn [tl nshape nd_reshape]; do 1 f_equal; cbn [prodZ fold_right]; apply Z.div_mul; unfold prodZ in *; lia).
    unfold cols_of, rows_of. rewrite (proj1 (nget_T R _ _ _ 0 0 Es)), Es. cbn [nth]. auto. }
  assert (En: map (rows_of R) mt = map (cols_of R) ms). { rewrite Emt, map_map. apply map_ext_in. intros m Hm. apply (Hc m Hm). }
  destruct (concat_rows R mt d ltac:(unfold mt; now destruct bs0) Hs) as [Es Ps]. rewrite En in Ps. set (N := zsum (map (cols_of R) ms)) in *.
  assert (E1: nshape (nd_concat 1 ms) = [d; N]). { unfold N. cbn [nd_concat nshape]. destruct ms as [|m ms'] eqn:Em; [cbn in Ps; lia|]. rewrite (proj1 (Hc m (or_introl eq_refl))). reflexivity. }
  destruct (HS _ _ _ _ _ _ E1 Hd Ps E) as (Hk & Eu & Ev & Ef & Eo & Er). set (k := Z.of_nat (length s')) in *. set (W := scaled s' d (fun z y => nget u' [y; z])).
  pose proof (proj1 (nget_T R vh _ _ 0 0 Ev)) as EvT.
  destruct (rows_join R (nd_T R vh) W N k d mt 0 EvT ltac:(lia) ltac:(rewrite En; unfold N; lia) Hs) as [J1 J2].
  { intros x y Hx Hy. rewrite En in Hx. fold N in Hx. cbn [Z.add]. rewrite Emt, <- (cat_T ms d) by (intros m Hm; apply (Hc m Hm)). transitivity (nget (nd_concat 1 ms) [y; x]); [symmetry; rewrite nget_in by (rewrite E1; apply in_shape2; lia); reflexivity|]. rewrite Ef by auto. apply bsum_ext. intros z Hz. apply in_zrange in Hz. unfold W. rewrite scaled_get by auto. rewrite (proj2 (nget_T R vh _ _ z x Ev)). unfold TruncModel.at_. ring. }
  destruct (combine_pairs R L put_first rest_first ltac:(reflexivity) (fun b => nd_T R (rows_right R b)) (fun q b k => nd_reshape (k :: tl (nshape b)) (nd_T R q)) (right_mat_ok R) (right_back_ok R) d k W bs0 _ Hb Hd Hk J1) as [C1 C2].
  split; [|split; [auto|split; [auto|] ] ].
  2:{ intros z Hz. rewrite Eo by auto. now rewrite Z.eqb_refl. }
  eapply fac_same; [|exists k; cbn [fst snd]; split; [exact Hk|]; split; [reflexivity|]; split; [exact C1|] ].
  - rewrite En. assert (Erk: rows_of R vh = k) by (unfold rows_of; rewrite Ev; reflexivity). rewrite Erk.
    assert (F: Forall2 (fun p p' => exists n, nshape p = [n; k] /\ nshape p' = [k; n] /\ forall x z, nget p [x; z] = nget p' [z; x]) (split_rows R 0 (map (cols_of R) ms) (nd_T R vh)) (split_cols R 0 (map (cols_of R) ms) vh)).
    { apply (split_cols_rows vh N k); auto; [lia|]. intros n Hn. apply in_map_iff in Hn. destruct Hn as (m & <- & Hm). apply (Hc m Hm). }
    rewrite En in J1. assert (J3: Forall2 (fun p tb => exists rs, nshape (snd (snd tb)) = d :: rs /\ Forall (fun x => 0 < x) rs /\ nshape p = [prodZ rs; k]) (split_rows R 0 (map (cols_of R) ms) (nd_T R vh)) bs0).
    { clear -J1 Hb Hd. unfold mt in J1. revert J1. generalize (split_rows R 0 (map (cols_of R) ms) (nd_T R vh)). induction bs0 as [|tb bs IH]; intros ps J; cbn [map] in J; inversion J as [|? p ? ps' [P1 _] J']; subst; constructor; [|apply IH; auto; intros; apply Hb; now right].
      destruct (Hb tb (or_introl eq_refl)) as (rs & Er & Pos). exists rs. split; [exact Er|]. split; [exact Pos|]. rewrite P1. unfold rows_of. now rewrite (proj1 (right_mat_ok R _ _ _ Er Hd Pos)). }
    revert F J3. generalize (split_rows R 0 (map (cols_of R) ms) (nd_T R vh)), (split_cols R 0 (map (cols_of R) ms) vh). intros ps ps' F J3. clear -F J3 Hk Hd. revert bs0 J3. induction F as [|p p' ps ps' (n & E1 & E2 & Eg) F IH]; intros bs0 J; inversion J as [|? tb ? bs (rs & Er & Pos & Ep) J']; subst; cbn [combine map]; constructor; [|now apply IH].
    split; [reflexivity|]. split; [reflexivity|]. cbn [fst snd]. split; [reflexivity|]. rewrite E1 in Ep. injection Ep as ->. intros xs. rewrite Er. cbn [tl].
    destruct (in_shapeb (k :: rs) xs) eqn:Ei.
    + apply in_shapeb_spec in Ei. inversion Ei as [|? z ? ys Hz Hys]; subst. destruct (right_back_ok R p (snd (snd tb)) d k rs Er ltac:(assumption) Hk Pos E1) as [_ B2]. rewrite Er in B2. cbn [tl] in B2. unfold put_first in B2. rewrite B2 by auto. rewrite Eg. pose proof (nget_reshape_split R p' [k] rs [] [z] ys [] ltac:(rewrite E2; reflexivity) Hys eq_refl) as S. rewrite !app_nil_r in S. cbn [app] in S. now rewrite S.
    + assert (~ in_shape (k :: rs) xs) by (rewrite <- in_shapeb_spec; congruence). now rewrite !nget_out.
  - intros z z' Hz Hz'. rewrite (C2 (fun a b => cj a *' b)). rewrite (J2 (fun a b => cj a *' b)). rewrite En. fold N. cbn [Z.add]. rewrite (bsum_ext R _ (zrange N) _ (fun j => nget vh [z'; j] *' cj (nget vh [z; j]))).
    + rewrite Er by auto. now rewrite Z.eqb_sym.
    + intros j _. rewrite !(proj2 (nget_T R vh _ _ _ j Ev)). ring.
Qed.
End Svd.
