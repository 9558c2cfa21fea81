(** Lemmas for C59: one truncated step moving to the right, from the one moving to the left read from the other end. *)
From Coq Require Import ZArith Bool List Lia Permutation Ring.
From Verif Require Import SymModel SymProofs DictLib IndexLib OptLib RingLib BondModel FuseModel BlockModel BlockProofs StructModel StructProofs MpsModel MpsChain MpsProofs MpsDot CanonModel CanonProofs CanonSites CanonChain CompressChain.
Import ListNotations.
Open Scope nat_scope.

Lemma rev_upd : forall A (l : list A) i v, i < length l -> rev (upd i v l) = upd (length l - 1 - i) v (rev l).
Proof.
  intros A l i v H. apply (nth_ext _ _ v v); [rewrite rev_length, !upd_len by (rewrite ?rev_length; lia); now rewrite rev_length|].
  intros k Hk. rewrite rev_length, upd_len in Hk by lia. rewrite rev_nth by (rewrite upd_len; lia). rewrite upd_len, !nth_upd by (rewrite ?rev_length; lia).
  rewrite rev_nth by lia. destruct (Nat.eqb_spec (length l - S k) i), (Nat.eqb_spec k (length l - 1 - i)); try lia; reflexivity.
Qed.
Lemma rev_nth_error : forall A (l : list A) i, i < length l -> nth_error (rev l) i = nth_error l (length l - 1 - i).
Proof.
  intros A l i H. destruct l as [|a l]; [cbn in H; lia|]. remember (a :: l) as m. rewrite (nth_err _ _ _ a) by (rewrite rev_length; lia). rewrite (nth_err _ _ _ a) by lia. rewrite rev_nth by lia. do 2 f_equal. lia.
Qed.
Lemma firstn_rev' : forall A (l : list A) k, firstn k (rev l) = rev (skipn (length l - k) l).
Proof. intros. apply firstn_rev. Qed.
Lemma skipn_rev' : forall A (l : list A) k, skipn k (rev l) = rev (firstn (length l - k) l).
Proof. intros. apply skipn_rev. Qed.

Section Mirror.
Variable R : CRing.
Add Ring Rr37 : (rth R).
Notation "0'" := (r0 R). Notation "1'" := (r1 R).
Infix "+'" := (radd R) (at level 50, left associativity).
Infix "-'" := (rsub R) (at level 50, left associativity).
Infix "*'" := (rmul R) (at level 40, left associativity).
Variables P T : Type.
Variable T_dec : forall a b : T, {a = b} + {a <> b}.
Variable cj : R -> R.
Hypothesis cj_add : forall x y, cj (x +' y) = cj x +' cj y.
Hypothesis cj_mul : forall x y, cj (x *' y) = cj x *' cj y.
Hypothesis cj_cj : forall x, cj (cj x) = x.
Notation mat := (P -> T -> T -> R).
Notation psi := (psi R P T T_dec). Notation dist2 := (dist2 R P T cj). Notation norm2 := (norm2 R P T cj).
Notation liso := (liso R P T T_dec cj). Notation riso := (riso R P T T_dec cj). Notation flip := (flip R P T).
Notation residual := (residual R P T). Notation dlt := (dlt R T T_dec).
Definition mir (fs : list mat) : list mat := rev (map flip fs).
Lemma mir_len : forall fs, length (mir fs) = length fs.
Proof. intros. unfold mir. now rewrite rev_length, map_length. Qed.
Lemma mir_nth : forall fs i u, i < length fs -> nth_error (mir fs) i = Some u -> exists v, nth_error fs (length fs - 1 - i) = Some v /\ u = flip v.
Proof. intros fs i u H E. unfold mir in E. rewrite rev_nth_error in E by (rewrite map_length; lia). rewrite map_length, nth_error_map in E. destruct (nth_error fs (length fs - 1 - i)) as [v|]; [|discriminate]. injection E as <-. eauto. Qed.
Lemma mir_some : forall fs i v, i < length fs -> nth_error fs (length fs - 1 - i) = Some v -> nth_error (mir fs) i = Some (flip v).
Proof. intros fs i v H E. unfold mir. rewrite rev_nth_error by (rewrite map_length; lia). rewrite map_length, nth_error_map, E. reflexivity. Qed.

Section Facts.
Variables (Ps : list (list P)) (n : nat).
Hypothesis Lp : length Ps = n.
Lemma nthP : forall j, j < n -> nth j (rev Ps) [] = nth (n - 1 - j) Ps [].
Proof. intros j H. rewrite rev_nth by lia. f_equal. lia. Qed.
Lemma nthD : forall (Ds : list (list T)) j, length Ds = S n -> j <= n -> nth j (rev Ds) [] = nth (n - j) Ds [].
Proof using. clear Lp. intros Ds j E H. rewrite rev_nth by lia. f_equal. lia. Qed.
Lemma mir_liso : forall fs Ds j, length fs = n -> length Ds = S n -> j < n -> riso fs Ds Ps (n - 1 - j) -> liso (mir fs) (rev Ds) (rev Ps) j.
Proof.
  intros fs Ds j Lf Ld Hj H u m m' E. rewrite !nthD by lia. rewrite nthP by lia. apply mir_nth in E; [|lia]. destruct E as (v & E & ->). rewrite Lf in E. replace (n - S j) with (n - 1 - j) by lia. intros Hm Hm'. rewrite <- (H v m m' E Hm Hm'). replace (S (n - 1 - j)) with (n - j) by lia. reflexivity.
Qed.
Lemma mir_riso : forall fs Ds j, length fs = n -> length Ds = S n -> j < n -> liso fs Ds Ps (n - 1 - j) -> riso (mir fs) (rev Ds) (rev Ps) j.
Proof.
  intros fs Ds j Lf Ld Hj H u m m' E. rewrite !nthD by lia. rewrite nthP by lia. apply mir_nth in E; [|lia]. destruct E as (v & E & ->). rewrite Lf in E. replace (n - S j) with (n - 1 - j) by lia. intros Hm Hm'. specialize (H v m m' E). replace (S (n - 1 - j)) with (n - j) in H by lia. exact (H Hm Hm').
Qed.
Lemma mir_dist : forall fs Ds gs Es, length fs = n -> length Ds = S n -> length gs = n -> length Es = S n -> (forall B, In B Ds -> NoDup B) -> (forall B, In B Es -> NoDup B) ->
  nth 0 Es [] = nth 0 Ds [] -> nth n Es [] = nth n Ds [] ->
  dist2 Ps (nth 0 Ds []) (nth n Ds []) (psi fs Ds) (psi gs Es) = dist2 (rev Ps) (nth n Ds []) (nth 0 Ds []) (psi (mir fs) (rev Ds)) (psi (mir gs) (rev Es)).
Proof.
  intros fs Ds gs Es Lf Ld Lg Le Nd Ne E0 En. unfold CompressChain.dist2. symmetry. etransitivity; [|apply total_rev]. apply total_ext. intros ps r l Lps Hr Hl.
  rewrite rev_length, Lp in Lps.
  rewrite (psi_rev R P T T_dec fs Ds (rev ps) l r), (psi_rev R P T T_dec gs Es (rev ps) l r); rewrite ?rev_involutive; auto; try congruence; rewrite ?rev_length, ?Lf, ?Lg, ?E0, ?En; auto; congruence.
Qed.
Lemma mir_norm : forall fs Ds, length fs = n -> length Ds = S n -> (forall B, In B Ds -> NoDup B) ->
  norm2 Ps (nth 0 Ds []) (nth n Ds []) (psi fs Ds) = norm2 (rev Ps) (nth n Ds []) (nth 0 Ds []) (psi (mir fs) (rev Ds)).
Proof.
  intros fs Ds Lf Ld Nd. unfold CompressChain.norm2. symmetry. etransitivity; [|apply total_rev]. apply total_ext. intros ps r l Lps Hr Hl.
  rewrite rev_length, Lp in Lps. rewrite (psi_rev R P T T_dec fs Ds (rev ps) l r); rewrite ?rev_involutive; auto; rewrite ?rev_length, ?Lf; auto; congruence.
Qed.
End Facts.

Section Step.
Variables (fs : list mat) (Ds : list (list T)) (Ps : list (list P)) (n i : nat).
Hypothesis Lf : length fs = n. Hypothesis Ld : length Ds = S n. Hypothesis Lp : length Ps = n.
Hypothesis ND : forall B, In B Ds -> NoDup B.
Hypothesis Hi : S i < n.
Variables (t u u' f : mat) (g : T -> T -> R) (B' : list T) (err : R).
Hypothesis Et : nth_error fs i = Some t. Hypothesis Eu : nth_error fs (S i) = Some u.
Hypothesis LI : forall j, j < i -> liso fs Ds Ps j.
Hypothesis RI : forall j, i < j -> j < n -> riso fs Ds Ps j.
Hypothesis NB' : NoDup B'.
Hypothesis push : forall p z r, In z B' -> In r (nth (S (S i)) Ds []) -> u' p z r = bsum (nth (S i) Ds []) (fun m => u p m r *' g m z).
Notation res := (residual (flip t) (flip f) g B').
Hypothesis orth : forall z m, In z B' -> In m (nth (S i) Ds []) -> bsum (nth i Ps []) (fun p => bsum (nth i Ds []) (fun k => cj (f p k z) *' res p m k)) = 0'.
Hypothesis Herr : bsum (nth i Ps []) (fun p => bsum (nth (S i) Ds []) (fun m => bsum (nth i Ds []) (fun k => cj (res p m k) *' res p m k))) = err.
Definition fs2 := upd (S i) u' (upd i f fs).
Definition ds2 := upd (S i) B' Ds.
Notation Bl := (nth 0 Ds []). Notation Br := (nth n Ds []).
Notation i' := (n - 2 - i).
Let nd2 : forall B, In B ds2 -> NoDup B.
Proof. intros B H. apply In_nth_error in H. destruct H as [j Hj]. unfold ds2 in Hj. rewrite nth_error_upd in Hj by lia. destruct (Nat.eqb j (S i)) eqn:E; [injection Hj as <-; auto|]. apply nth_error_In in Hj. auto. Qed.
Let ndr : forall (Es : list (list T)), (forall B, In B Es -> NoDup B) -> forall B, In B (rev Es) -> NoDup B.
Proof. intros Es H B HB. apply H. now apply in_rev. Qed.
Let Ef : fs1 R P T (mir fs) i' (flip u') (flip f) = mir fs2.
Proof.
  unfold fs1, fs2, mir. rewrite !map_upd. rewrite rev_upd by (rewrite ?upd_len, ?map_length; rewrite ?map_length; lia). rewrite rev_upd by (rewrite ?map_length; lia). rewrite upd_len by (rewrite map_length; lia). rewrite map_length, Lf.
  replace (n - 1 - i) with (S i') by lia. replace (n - 1 - S i) with i' by lia. reflexivity.
Qed.
Let Ed : ds1 T (rev Ds) i' B' = rev ds2.
Proof. unfold ds1, ds2. rewrite rev_upd by lia. rewrite Ld. f_equal. lia. Qed.
Let step_args : forall (Q : Prop),
  ((S i' < n) -> nth_error (mir fs) i' = Some (flip u) -> nth_error (mir fs) (S i') = Some (flip t) ->
   (forall j, j <= i' -> liso (mir fs) (rev Ds) (rev Ps) j) -> (forall j, S i' < j -> j < n -> riso (mir fs) (rev Ds) (rev Ps) j) ->
   (forall p l z, In z B' -> In l (nth i' (rev Ds) []) -> flip u' p l z = bsum (nth (S i') (rev Ds) []) (fun m => flip u p l m *' g m z)) ->
   (forall z m, In z B' -> In m (nth (S i') (rev Ds) []) -> bsum (nth (S i') (rev Ps) []) (fun p => bsum (nth (S (S i')) (rev Ds) []) (fun k => cj (flip f p z k) *' res p m k)) = 0') ->
   bsum (nth (S i') (rev Ps) []) (fun p => bsum (nth (S i') (rev Ds) []) (fun m => bsum (nth (S (S i')) (rev Ds) []) (fun k => cj (res p m k) *' res p m k))) = err -> Q) -> Q.
Proof.
  intros Q H. apply H; clear H.
  - lia.
  - apply mir_some; [lia|]. rewrite Lf. now replace (n - 1 - i') with (S i) by lia.
  - apply mir_some; [lia|]. rewrite Lf. now replace (n - 1 - S i') with i by lia.
  - intros j Hj. apply (mir_liso Ps n); auto; [lia|]. apply RI; lia.
  - intros j Hj Hj'. apply (mir_riso Ps n); auto. apply LI; lia.
  - intros p l z Hz. rewrite !(nthD n) by lia. replace (n - i') with (S (S i)) by lia. replace (n - S i') with (S i) by lia. intros Hl. unfold CompressChain.flip. now apply push.
  - intros z m Hz. rewrite !(nthD n) by lia. rewrite (nthP Ps n) by lia. replace (n - S i') with (S i) by lia. replace (n - S (S i')) with i by lia. replace (n - 1 - S i') with i by lia. intros Hm. unfold CompressChain.flip at 1. now apply orth.
  - rewrite !(nthD n) by lia. rewrite (nthP Ps n) by lia. replace (n - S i') with (S i) by lia. replace (n - S (S i')) with i by lia. replace (n - 1 - S i') with i by lia. exact Herr.
Qed.
Lemma step_dist_l : forall gs Es, length gs = n -> length Es = S n -> (forall B, In B Es -> NoDup B) -> nth 0 Es [] = Bl -> nth n Es [] = Br -> nth (S i) Es [] = B' -> firstn (S i) gs = firstn i fs ++ [f] -> firstn (S i) Es = firstn (S i) Ds ->
  dist2 Ps Bl Br (psi fs Ds) (psi gs Es) = err +' dist2 Ps Bl Br (psi fs2 ds2) (psi gs Es).
Proof.
  intros gs Es Lg Le Ne E0 En EB Eg Ee.
  assert (B0: nth 0 ds2 [] = Bl) by (unfold ds2; now rewrite nth_upd by lia).
  assert (Bn: nth n ds2 [] = Br) by (unfold ds2; rewrite nth_upd by lia; destruct (Nat.eqb_spec n (S i)); [lia|reflexivity]).
  assert (L2: length fs2 = n) by (unfold fs2; rewrite !upd_len by (rewrite ?upd_len; lia); exact Lf). assert (Ld2: length ds2 = S n) by (unfold ds2; rewrite upd_len by lia; exact Ld).
  rewrite (mir_dist Ps n Lp fs Ds gs Es) by auto.
  assert (M: dist2 Ps Bl Br (psi fs2 ds2) (psi gs Es) = dist2 (rev Ps) Br Bl (psi (mir fs2) (rev ds2)) (psi (mir gs) (rev Es))) by (rewrite <- B0, <- Bn; apply mir_dist; auto; congruence).
  rewrite M, <- Ef, <- Ed. clear M.
  replace Bl with (nth n (rev Ds) []) by (rewrite (nthD n) by lia; f_equal; lia). replace Br with (nth 0 (rev Ds) []) by (rewrite (nthD n) by lia; f_equal; lia).
  apply step_args. intros A1 A2 A3 A4 A5 A6 A7 A8.
  apply (step_dist R P T T_dec cj cj_add cj_mul cj_cj (mir fs) (rev Ds) (rev Ps) n i') with (u := flip u) (t := flip t) (g := g); auto; rewrite ?rev_length, ?mir_len; auto; try congruence; try (apply ndr; assumption).
  - rewrite !(nthD n) by lia. now replace (n - 0) with n by lia.
  - rewrite (nthD n) by lia. now replace (n - S i') with (S i) by lia.
  - unfold mir. rewrite !skipn_rev', !map_length, !firstn_map, Lg, Lf. replace (n - S i') with (S i) by lia. rewrite Eg, map_app, rev_app_distr. cbn [map rev app]. now replace (n - S (S i')) with i by lia.
  - rewrite !skipn_rev', Le, Ld. replace (S n - S (S i')) with (S i) by lia. now rewrite Ee.
Qed.
Lemma step_norm_l : norm2 Ps Bl Br (psi fs Ds) = err +' norm2 Ps Bl Br (psi fs2 ds2).
Proof.
  assert (B0: nth 0 ds2 [] = Bl) by (unfold ds2; now rewrite nth_upd by lia).
  assert (Bn: nth n ds2 [] = Br) by (unfold ds2; rewrite nth_upd by lia; destruct (Nat.eqb_spec n (S i)); [lia|reflexivity]).
  assert (L2: length fs2 = n) by (unfold fs2; rewrite !upd_len by (rewrite ?upd_len; lia); exact Lf). assert (Ld2: length ds2 = S n) by (unfold ds2; rewrite upd_len by lia; exact Ld).
  rewrite (mir_norm Ps n Lp fs Ds) by auto.
  assert (M: norm2 Ps Bl Br (psi fs2 ds2) = norm2 (rev Ps) Br Bl (psi (mir fs2) (rev ds2))) by (rewrite <- B0, <- Bn; apply mir_norm; auto).
  rewrite M, <- Ef, <- Ed. clear M.
  replace Bl with (nth n (rev Ds) []) by (rewrite (nthD n) by lia; f_equal; lia). replace Br with (nth 0 (rev Ds) []) by (rewrite (nthD n) by lia; f_equal; lia).
  apply step_args. intros A1 A2 A3 A4 A5 A6 A7 A8.
  apply (step_norm R P T T_dec cj cj_add cj_mul cj_cj (mir fs) (rev Ds) (rev Ps) n i') with (u := flip u) (t := flip t) (g := g); auto; rewrite ?rev_length, ?mir_len; auto; apply ndr; assumption.
Qed.
End Step.
End Mirror.
