(** One site of the tables of QcModel: from the operators of m sites to those of m + 1 sites. *)
From Coq Require Import ZArith Bool List Lia Ring Permutation.
From Verif Require Import SymModel DictLib IndexLib RingLib OptLib SiteModel QcModel QcProg QcCols QcAlg.
Import ListNotations.
Open Scope Z_scope.

Section Step.
Variable R : CRing.
Add Ring RR : (rth R).
Notation "0'" := (r0 R). Notation "1'" := (r1 R).
Infix "+'" := (radd R) (at level 50, left associativity).
Infix "*'" := (rmul R) (at level 40, left associativity).
Notation "-' a" := (ropp R a) (at level 35).
Variable half : R.
Variable iszero : R -> bool.
Variable t : Z -> Z -> Z -> R.
Variable v : Z -> Z -> Z -> Z -> Z -> Z -> R.
Variable symmetrized_p : bool.
Variable n : Z.
Notation fsym := (fsym R). Notation wr := (wr R). Notation prog := (prog R).
Notation sy := (sy R). Notation neg := (neg R). Notation mul := (mul R iszero).
Notation functional := (functional R). Notation car := (car R).

Definition T1 (x y : mode) : R := if snd x =? snd y then t (snd x) (fst x) (fst y) else 0'.
Definition V2 (x y z w : mode) : R :=
  if snd x =? snd y then if snd z =? snd w then v (snd x) (snd z) (fst x) (fst y) (fst z) (fst w) else 0' else 0'.
Definition modes (m : Z) : list mode := flat_map (fun s => map (fun j => (j, s)) (zrange m)) [0; 1].
Definition here (m : Z) : list mode := [(m, 0); (m, 1)].
(* what a symbol stands for on a list of modes *)
Definition sem (M : list mode) (o : qop) (f : functional) : R :=
  match o with
  | QI => f []
  | QH => Hs R half T1 V2 M f
  | QC j s => f [cr (j, s)]
  | QD j s => f [an (j, s)]
  | QR j s => Rs R half T1 V2 (j, s) M f
  | QRD j s => RDs R half T1 V2 (j, s) M f
  | QA i j si sj => f [cr (i, si); cr (j, sj)]
  | QAD i j si sj => f [an (j, sj); an (i, si)]
  | QB i j si sj => f [cr (i, si); an (j, sj)]
  | QP i j si sj => Ps R V2 (i, si) (j, sj) M f
  | QPD i j si sj => PDs R V2 (i, si) (j, sj) M f
  | QQ i j si sj => Qs R V2 (i, si) (j, sj) M f
  end.
Lemma sem_ext : forall M o f g, (forall w, f w = g w) -> sem M o f = sem M o g.
Proof.
  intros M o f g H. destruct o; cbn [sem]; auto; unfold Hs, Rs, RDs, Ps, PDs, Qs, ssum4, ssum3;
    repeat first [apply H|reflexivity|apply bsum_ext; intros|apply (f_equal2 (radd R))|apply (f_equal2 (rmul R))|apply (f_equal (ropp R))].
Qed.
Lemma bsum_perm' : forall (M M' : list mode) (f g : mode -> R), Permutation M M' -> (forall x, f x = g x) -> bsum M f = bsum M' g.
Proof. intros M M' f g P E. rewrite (bsum_perm R _ _ _ f P). apply bsum_ext. auto. Qed.
Lemma sem_perm : forall M M' o f, Permutation M M' -> sem M o f = sem M' o f.
Proof.
  intros M M' o f P. destruct o; cbn [sem]; auto; unfold Hs, Rs, RDs, Ps, PDs, Qs, ssum4, ssum3;
    repeat first [reflexivity|apply bsum_perm'; [exact P|intros]|apply (f_equal2 (radd R))|apply (f_equal2 (rmul R))|apply (f_equal (ropp R))].
Qed.
Lemma modes_S : forall m, 0 <= m -> Permutation (modes (m + 1)) (modes m ++ here m).
Proof.
  intros m H. unfold modes, here. cbn [flat_map]. rewrite !app_nil_r, zrange_succ, !map_app by exact H. cbn [map].
  rewrite <- !app_assoc. apply Permutation_app_head. cbn [app].
  change ((m, 0) :: map (fun j => (j, 1)) (zrange m) ++ [(m, 1)]) with ([(m, 0)] ++ (map (fun j => (j, 1)) (zrange m) ++ [(m, 1)])).
  rewrite app_assoc. change [(m, 0); (m, 1)] with ([(m, 0)] ++ [(m, 1)]). rewrite app_assoc. apply Permutation_app_tail. apply Permutation_app_comm.
Qed.
Lemma in_modes : forall m x, In x (modes m) -> 0 <= fst x < m /\ is_spin (snd x).
Proof using.
  clear. intros m x I. unfold modes in I. apply in_flat_map in I. destruct I as [s [S I]]. apply in_map_iff in I. destruct I as [j [<- J]].
  apply in_zrange in J. cbn. split; [exact J|]. cbn in S. unfold is_spin. intuition.
Qed.
Lemma disj_here : forall m x y, In x (modes m) -> In y (here m) -> x <> y.
Proof. intros m x y X Y. apply in_modes in X. cbn in Y. intros ->. destruct Y as [<-|[<-|[]]]; cbn in X; lia. Qed.
Lemma sum_modes : forall m (f : mode -> R), bsum (modes m) f = bsum [0; 1] (fun s => bsum (zrange m) (fun j => f (j, s))).
Proof. intros m f. unfold modes. rewrite bsum_flat_map. apply bsum_ext. intros s _. now rewrite bsum_map. Qed.
Lemma sum2 : forall (f : Z -> R), bsum [0; 1] f = f 0 +' f 1.
Proof. intros f. rewrite !bsum_cons, bsum_nil. ring. Qed.
Lemma sum_here : forall m (f : mode -> R), bsum (here m) f = f (m, 0) +' f (m, 1).
Proof. intros m f. unfold here. rewrite !bsum_cons, bsum_nil. ring. Qed.
Lemma pair_sum : forall m (F : mode -> mode -> R),
  bsum [0; 1] (fun sr => bsum [0; 1] (fun sl => bsum (zrange m) (fun j => bsum (zrange m) (fun k => F (j, sl) (k, sr))))) =
  bsum (modes m) (fun x => bsum (modes m) (fun z => F x z)).
Proof.
  intros m F. rewrite sum_modes, (bsum_swap R _ _ [0; 1] [0; 1]). apply bsum_ext. intros sl _.
  rewrite bsum_swap. apply bsum_ext. intros j _. now rewrite sum_modes.
Qed.
(* sums with equal spins *)
Lemma spin_sum : forall m s (f : mode -> R), is_spin s ->
  bsum (modes m) (fun y => if s =? snd y then f y else 0') = bsum (zrange m) (fun j => f (j, s)).
Proof.
  intros m s f S. rewrite sum_modes, sum2. cbn [snd]. destruct S as [-> | ->]; cbn [Z.eqb Pos.eqb].
  - rewrite (bsum_zero R _ _ (fun _ => 0')) by auto. ring.
  - rewrite (bsum_zero R _ _ (fun _ => 0')) by auto. ring.
Qed.
Lemma spin_sum' : forall m s (f : mode -> R), is_spin s ->
  bsum (modes m) (fun y => if snd y =? s then f y else 0') = bsum (zrange m) (fun j => f (j, s)).
Proof. intros m s f S. rewrite <- spin_sum by exact S. apply bsum_ext. intros y _. now rewrite Z.eqb_sym. Qed.
Lemma spin_here : forall m s (f : mode -> R), is_spin s -> bsum (here m) (fun y => if s =? snd y then f y else 0') = f (m, s).
Proof. intros m s f S. rewrite sum_here. cbn [snd]. destruct S as [-> | ->]; cbn [Z.eqb Pos.eqb]; ring. Qed.

Hypothesis half2 : half +' half = 1'.
Hypothesis iszero_ok : forall x, iszero x = true -> x = 0'.
Hypothesis t_sym : forall s i j, t s i j = t s j i.
Hypothesis v_ij : forall a b i j k l, v a b i j k l = v a b j i k l.
Hypothesis v_kl : forall a b i j k l, v a b i j k l = v a b i j l k.
Hypothesis v_pair : forall a b i j k l, v a b i j k l = v b a k l i j.
Lemma T1_sym : forall x y, T1 x y = T1 y x.
Proof. intros x y. unfold T1. rewrite (Z.eqb_sym (snd y)). destruct (Z.eqb_spec (snd x) (snd y)) as [E|]; [|reflexivity]. rewrite E. apply t_sym. Qed.
Lemma V2_xy : forall x y z w, V2 x y z w = V2 y x z w.
Proof.
  intros. unfold V2. rewrite (Z.eqb_sym (snd y)). destruct (Z.eqb_spec (snd x) (snd y)) as [E|]; [|reflexivity]. rewrite E, v_ij. reflexivity.
Qed.
Lemma V2_zw : forall x y z w, V2 x y z w = V2 x y w z.
Proof.
  intros. unfold V2. rewrite (Z.eqb_sym (snd w)). destruct (Z.eqb_spec (snd z) (snd w)) as [E|]; [|reflexivity]. now rewrite E, v_kl.
Qed.
Lemma V2_pair : forall x y z w, V2 x y z w = V2 z w x y.
Proof. intros. unfold V2. destruct (snd x =? snd y), (snd z =? snd w); auto. Qed.

Section Site.
Variable m : Z.
Hypothesis Hm : 0 <= m < n.
Variable chi : Z -> functional.
Hypothesis chi_car : forall k, car (chi k).
Notation S := (modes m). Notation U := (here m).

Definition L (k : Z) (f : functional) : R :=
  match znth (rc R n m) k with Some (Some (x, o)) => x *' sem S o f | _ => 0' end.
Definition gg (w : wr) : R :=
  match snd w with
  | Some (x, o) => x *' L (fst (fst w)) (fun w1 => sem U o (fun w2 => chi (snd (fst w)) (w1 ++ w2)))
  | None => 0'
  end.
Definition F (k : Z) (o : option fsym) : R :=
  match o with Some (x, o) => x *' sem (modes (m + 1)) o (chi k) | None => 0' end.

(* entries *)
Definition ent (r c : Z) (o : qop) : R := L r (fun w1 => sem U o (fun w2 => chi c (w1 ++ w2))).
Lemma gg_sy : forall r c o, gg ((r, c), sy o) = ent r c o.
Proof. intros. unfold gg, ent. cbn. ring. Qed.
Lemma gg_neg : forall r c o, gg ((r, c), neg (sy o)) = -' ent r c o.
Proof. intros. unfold gg, ent. cbn. ring. Qed.
Lemma gg_mul : forall r c x o, gg ((r, c), mul x (sy o)) = x *' ent r c o.
Proof.
  intros. unfold gg, ent. cbn. destruct (iszero x) eqn:E; cbn.
  - rewrite (iszero_ok x E). ring.
  - ring.
Qed.
Lemma L_at : forall k x o f, znth (rc R n m) k = Some (Some (x, o)) -> L k f = x *' sem S o f.
Proof. intros k x o f E. unfold L. now rewrite E. Qed.
Ltac lk E := unfold ent; erewrite L_at; [|exact E].
Lemma e_h : forall c o, ent 0 c o = sem S QH (fun w1 => sem U o (fun w2 => chi c (w1 ++ w2))).
Proof. intros c o. lk (rc_0 R n m). ring. Qed.
Lemma e_i : forall c o, ent 1 c o = sem U o (chi c).
Proof. intros c o. lk (rc_1 R n m). cbn [sem app]. transitivity (1' *' sem U o (chi c)); [|ring]. reflexivity. Qed.
Lemma e_c : forall k s j c o, k = pc m s + j -> is_spin s -> 0 <= j < m -> ent k c o = sem U o (fun w => chi c (cr (j, s) :: w)).
Proof. intros k s j c o -> S0 J. lk (rc_pc R half iszero n m ltac:(lia) s j S0 J). cbn [sem app]. ring. Qed.
Lemma e_d : forall k s j c o, k = pd m s + j -> is_spin s -> 0 <= j < m -> ent k c o = sem U o (fun w => chi c (an (j, s) :: w)).
Proof. intros k s j c o -> S0 J. lk (rc_pd R half iszero n m ltac:(lia) s j S0 J). cbn [sem app]. ring. Qed.
Lemma e_rd : forall k s j c o, k = prd n m s + j -> is_spin s -> m <= j < n ->
  ent k c o = RDs R half T1 V2 (j, s) S (fun w1 => sem U o (fun w2 => chi c (w1 ++ w2))).
Proof. intros k s j c o -> S0 J. lk (rc_prd R half iszero n m ltac:(lia) s j S0 J). cbn [sem]. ring. Qed.
Lemma e_r : forall k s j c o, k = pr n m s + j -> is_spin s -> m <= j < n ->
  ent k c o = -' Rs R half T1 V2 (j, s) S (fun w1 => sem U o (fun w2 => chi c (w1 ++ w2))).
Proof. intros k s j c o -> S0 J. lk (rc_pr R half iszero n m ltac:(lia) s j S0 J). cbn [sem]. ring. Qed.
Lemma e_a : forall k sl sr i j c o, k = pa n m sl sr + i * m + j -> is_spin sl -> is_spin sr -> 0 <= i < m -> 0 <= j < m ->
  ent k c o = sem U o (fun w => chi c (cr (i, sl) :: cr (j, sr) :: w)).
Proof. intros k sl sr i j c o -> A B I J. lk (rc_pa R half iszero n m ltac:(lia) sl sr i j A B I J). cbn [sem app]. ring. Qed.
Lemma e_ad : forall k sl sr i j c o, k = pad n m sl sr + i * m + j -> is_spin sl -> is_spin sr -> 0 <= i < m -> 0 <= j < m ->
  ent k c o = sem U o (fun w => chi c (an (j, sr) :: an (i, sl) :: w)).
Proof. intros k sl sr i j c o -> A B I J. lk (rc_pad R half iszero n m ltac:(lia) sl sr i j A B I J). cbn [sem app]. ring. Qed.
Lemma e_b : forall k sl sr i j c o, k = pb n m sl sr + i * m + j -> is_spin sl -> is_spin sr -> 0 <= i < m -> 0 <= j < m ->
  ent k c o = sem U o (fun w => chi c (cr (i, sl) :: an (j, sr) :: w)).
Proof. intros k sl sr i j c o -> A B I J. lk (rc_pb R half iszero n m ltac:(lia) sl sr i j A B I J). cbn [sem app]. ring. Qed.

Lemma spin0 : is_spin 0. Proof. now left. Qed.
Lemma spin1 : is_spin 1. Proof. now right. Qed.
Hint Resolve spin0 spin1 : core.
Lemma in2 : forall s, In s [0; 1] -> is_spin s.
Proof. intros s [<-|[<-|[]]]; auto. Qed.
Lemma nil_r : forall o c, sem S o (fun w1 => sem U QI (fun w2 => chi c (w1 ++ w2))) = sem S o (chi c).
Proof. intros o c. apply sem_ext. intros w. cbn [sem]. now rewrite app_nil_r. Qed.

(* sums over groups of names *)
Lemma dsum_blk_z : forall f k p G, 0 <= k -> dsum R p (blk R f (zrange k)) G = bsum [0; 1] (fun s => bsum (zrange k) (fun j => G (p + s * k + j) (f j s))).
Proof.
  intros f k p G K. unfold blk. cbn [flat_map]. rewrite app_nil_r, dsum_app, !dsum_zrange, sum2, zlen_map, zlen_zrange by exact K.
  f_equal; apply bsum_ext; intros j _; f_equal; lia.
Qed.
Lemma dsum_blk_r : forall f a b p G, a <= b -> dsum R p (blk R f (range a b)) G = bsum [0; 1] (fun s => bsum (range a b) (fun j => G (p + s * (b - a) + (j - a)) (f j s))).
Proof.
  intros f a b p G K. unfold blk. cbn [flat_map]. rewrite app_nil_r, dsum_app, !dsum_range, sum2, zlen_map, zlen_range by exact K.
  f_equal; apply bsum_ext; intros j _; f_equal; lia.
Qed.
Lemma dsum_prs : forall f k p G, 0 <= k -> dsum R p (prs R f (zrange k)) G =
  bsum [0; 1] (fun sr => bsum [0; 1] (fun sl => bsum (zrange k) (fun i => bsum (zrange k) (fun j =>
    G (p + sr * (2 * (k * k)) + sl * (k * k) + i * k + j) (f i j sl sr))))).
Proof.
  intros f k p G K.
  assert (A : forall sl sr q, dsum R q (flat_map (fun i => map (fun j => f i j sl sr) (zrange k)) (zrange k)) G =
     bsum (zrange k) (fun i => bsum (zrange k) (fun j => G (q + i * k + j) (f i j sl sr)))).
  { intros sl sr q. rewrite (dsum_flat_zrange R k _ k).
    - apply bsum_ext. intros i _. apply dsum_zrange.
    - intros i _. rewrite zlen_map. now apply zlen_zrange. }
  assert (B : forall sl sr, zlen (flat_map (fun i => map (fun j => f i j sl sr) (zrange k)) (zrange k)) = k * k).
  { intros. rewrite (zlen_flat _ _ _ _ k); [now rewrite zlen_zrange|]. intros. rewrite zlen_map. now apply zlen_zrange. }
  unfold prs. cbn [flat_map]. rewrite !app_nil_r. rewrite !dsum_app, !zlen_app, !B, !A, !sum2.
  f_equal; f_equal; apply bsum_ext; intros i _; apply bsum_ext; intros j _; f_equal; lia.
Qed.

(* ------------------------------------------------------ first column: H *)
Ltac ptr := unfold pc, pd, prd, pr, pa, pad, pb, arr; cbn [Z.eqb Pos.eqb]; lia.
Ltac zr := match goal with H : In _ (zrange _) |- _ => apply in_zrange in H end.
Theorem column_sum : bsum (snd (column_prog R half iszero n m 0)) gg = sem (modes (m + 1)) QH (chi 0).
Proof.
  rewrite (column_eq R half iszero n m) by lia. cbn [snd]. rewrite !bsum_app, !dsum_place.
  unfold col_head, col_mid, col_tail. rewrite !dsum_app. cbn [app]. unfold ixr. cbn [dsum].
  change (zlen [sy QI; sy QH]) with 2. rewrite !blk_len, !prs_len, !zlen_zrange by lia.
  rewrite !bsum_cons, bsum_nil. rewrite !dsum_blk_z, !dsum_prs by lia.
  rewrite !gg_sy. replace (0 + 1) with 1 by lia. rewrite e_h, e_i.
  rewrite (sem_perm _ _ QH _ (modes_S m (proj1 Hm))). cbn [sem].
  rewrite (H_split R half half2 T1 V2 T1_sym V2_xy V2_zw V2_pair S U (disj_here m) (chi 0) (chi_car 0)).
  rewrite (e_rd _ 0 m) by (auto; ptr). rewrite (e_rd _ 1 m) by (auto; try ptr; lia).
  rewrite (e_r _ 0 m) by (auto; ptr). rewrite (e_r _ 1 m) by (auto; try ptr; lia).
  rewrite !sum_here. cbn [sem].
  assert (E1 : bsum [0; 1] (fun s => bsum (zrange m) (fun j => gg (0 + 2 + s * m + j, 0, sy (QR j s)))) =
     bsum S (fun x => Rs R half T1 V2 x U (fun w => chi 0 (cr x :: w)))).
  { rewrite sum_modes. apply bsum_ext; intros s Hs. apply bsum_ext; intros j Hj. zr. apply in2 in Hs. rewrite gg_sy.
    rewrite (e_c _ s j) by (auto; destruct Hs as [-> | ->]; ptr). reflexivity. }
  assert (E2 : bsum [0; 1] (fun s => bsum (zrange m) (fun j => gg (0 + 2 + 2 * m + s * m + j, 0, neg (sy (QRD j s))))) =
     -' bsum S (fun x => RDs R half T1 V2 x U (fun w => chi 0 (an x :: w)))).
  { rewrite <- bsum_opp, sum_modes. apply bsum_ext; intros s Hs. apply bsum_ext; intros j Hj. zr. apply in2 in Hs. rewrite gg_neg.
    rewrite (e_d _ s j) by (auto; destruct Hs as [-> | ->]; ptr). reflexivity. }
  assert (E3 : bsum [0; 1] (fun sr => bsum [0; 1] (fun sl => bsum (zrange m) (fun i => bsum (zrange m) (fun j =>
     gg (2 + 4 * n + sr * (2 * (m * m)) + sl * (m * m) + i * m + j, 0, mul half (sy (QP i j sl sr))))))) =
     half *' bsum S (fun x => bsum S (fun z => Ps R V2 x z U (fun w => chi 0 (cr x :: cr z :: w))))).
  { rewrite <- bsum_mull. rewrite (bsum_ext R _ S _ (fun x => bsum S (fun z => half *' Ps R V2 x z U (fun w => chi 0 (cr x :: cr z :: w)))))
      by (intros; now rewrite bsum_mull).
    rewrite <- pair_sum. apply bsum_ext; intros sr SR. apply bsum_ext; intros sl SL. apply bsum_ext; intros i I. apply bsum_ext; intros j J.
    apply in2 in SR, SL. apply in_zrange in I, J. rewrite gg_mul.
    rewrite (e_a _ sl sr i j) by (auto; destruct SR as [-> | ->], SL as [-> | ->]; ptr). reflexivity. }
  assert (E4 : bsum [0; 1] (fun sr => bsum [0; 1] (fun sl => bsum (zrange m) (fun i => bsum (zrange m) (fun j =>
     gg (2 + 4 * n + 4 * (m * m) + sr * (2 * (m * m)) + sl * (m * m) + i * m + j, 0, mul half (sy (QPD i j sl sr))))))) =
     half *' bsum S (fun x => bsum S (fun z => PDs R V2 x z U (fun w => chi 0 (an z :: an x :: w))))).
  { rewrite <- bsum_mull. rewrite (bsum_ext R _ S _ (fun x => bsum S (fun z => half *' PDs R V2 x z U (fun w => chi 0 (an z :: an x :: w)))))
      by (intros; now rewrite bsum_mull).
    rewrite <- pair_sum. apply bsum_ext; intros sr SR. apply bsum_ext; intros sl SL. apply bsum_ext; intros i I. apply bsum_ext; intros j J.
    apply in2 in SR, SL. apply in_zrange in I, J. rewrite gg_mul.
    rewrite (e_ad _ sl sr i j) by (auto; destruct SR as [-> | ->], SL as [-> | ->]; ptr). reflexivity. }
  assert (E5 : bsum [0; 1] (fun sr => bsum [0; 1] (fun sl => bsum (zrange m) (fun i => bsum (zrange m) (fun j =>
     gg (2 + 4 * n + 4 * (m * m) + 4 * (m * m) + sr * (2 * (m * m)) + sl * (m * m) + i * m + j, 0, sy (QQ i j sl sr)))))) =
     bsum S (fun x => bsum S (fun z => Qs R V2 x z U (fun w => chi 0 (cr x :: an z :: w))))).
  { rewrite <- pair_sum. apply bsum_ext; intros sr SR. apply bsum_ext; intros sl SL. apply bsum_ext; intros i I. apply bsum_ext; intros j J.
    apply in2 in SR, SL. apply in_zrange in I, J. rewrite gg_sy.
    rewrite (e_b _ sl sr i j) by (auto; destruct SR as [-> | ->], SL as [-> | ->]; ptr). reflexivity. }
  rewrite E1, E2, E3, E4, E5.
  assert (E6 : Hs R half T1 V2 S (fun w1 => chi 0 (w1 ++ [])) = Hs R half T1 V2 S (chi 0)) by exact (nil_r QH 0).
  rewrite E6. ring.
Qed.

(* ------------------------------------------------------ the other columns *)
Notation seq_ := (seq_ R). Notation set_ := (set_ R). Notation for_ := (for_ R). Notation step := (step R).
Notation still := (still R).
Ltac stl := repeat first [apply still_set|apply still_for; intros|apply still_seq].
Lemma sum_seqs : forall a b p (g : wr -> R), still a -> bsum (snd (seq_ a b p)) g = bsum (snd (a p)) g +' bsum (snd (b p)) g.
Proof. intros a b p g H. rewrite sum_seq, H. reflexivity. Qed.
Lemma fst_seqs : forall a b p, still a -> fst (seq_ a b p) = fst (b p).
Proof. intros a b p H. now rewrite fst_seq, H. Qed.
Definition ML (l : list Z) : list mode := flat_map (fun s => map (fun j => (j, s)) l) [0; 1].
Lemma sum_ML : forall l (f : mode -> R), bsum (ML l) f = bsum [0; 1] (fun s => bsum l (fun j => f (j, s))).
Proof. intros l f. unfold ML. rewrite bsum_flat_map. apply bsum_ext. intros s _. now rewrite bsum_map. Qed.
Lemma collapse : forall a b c i s (g : mode -> mode -> mode -> R), is_spin s ->
  ssum3 R (ML a) (ML b) (ML c) (fun y z w => V2 (i, s) y z w *' g y z w) =
  bsum [0; 1] (fun sp => bsum a (fun j => bsum b (fun k => bsum c (fun l => v s sp i j k l *' g (j, s) (k, sp) (l, sp))))).
Proof.
  intros a b c i s g Sp. unfold ssum3.
  assert (E : forall s0 j, bsum (ML b) (fun z => bsum (ML c) (fun w => V2 (i, s) (j, s0) z w *' g (j, s0) z w)) =
     if s =? s0 then bsum [0; 1] (fun sp => bsum b (fun k => bsum c (fun l => v s sp i j k l *' g (j, s0) (k, sp) (l, sp)))) else 0').
  { intros s0 j. rewrite sum_ML. unfold V2. cbn [fst snd]. destruct (Z.eqb_spec s s0) as [<-|N].
    - apply bsum_ext. intros sp I. apply bsum_ext. intros k _. rewrite sum_ML, sum2. cbn [fst snd]. apply in2 in I.
      destruct I as [-> | ->]; cbn [Z.eqb Pos.eqb].
      + rewrite (bsum_zero R _ c (fun j0 => 0' *' _)) by (intros; ring). ring.
      + rewrite (bsum_zero R _ c (fun j0 => 0' *' _)) by (intros; ring). ring.
    - apply bsum_zero. intros sp _. apply bsum_zero. intros k _. rewrite sum_ML. apply bsum_zero. intros; apply bsum_zero. intros; ring. }
  rewrite sum_ML, sum2.
  rewrite (bsum_ext R _ a (fun j => bsum (ML b) (fun z => bsum (ML c) (fun w => V2 (i, s) (j, 0) z w *' g (j, 0) z w))) _ (fun j _ => E 0 j)).
  rewrite (bsum_ext R _ a (fun j => bsum (ML b) (fun z => bsum (ML c) (fun w => V2 (i, s) (j, 1) z w *' g (j, 1) z w))) _ (fun j _ => E 1 j)).
  rewrite (bsum_swap R _ _ [0; 1] a).
  destruct Sp as [-> | ->]; cbn [Z.eqb Pos.eqb].
  - rewrite (bsum_zero R _ a (fun _ => 0')) by auto. ring.
  - rewrite (bsum_zero R _ a (fun _ => 0')) by auto. ring.
Qed.
Lemma modes_ML : S = ML (zrange m). Proof. reflexivity. Qed.
Lemma here_ML : U = ML [m]. Proof. reflexivity. Qed.
Lemma sum1 : forall (f : Z -> R), bsum [m] f = f m.
Proof. intros f. rewrite bsum_cons, bsum_nil. ring. Qed.

Ltac spins := repeat match goal with H : In _ [0; 1] |- _ => apply in2 in H | H : In _ (zrange _) |- _ => apply in_zrange in H end.
Ltac ptrs := repeat match goal with H : is_spin _ |- _ => destruct H as [-> | ->] end; ptr.

(* sums of a body over the spin and one or two orbitals *)
Lemma over1 : forall (b : Z -> Z -> prog) p, (forall s j, still (b s j)) ->
  bsum (snd (for_ [0; 1] (fun s => for_ (zrange m) (b s)) p)) gg = bsum [0; 1] (fun s => bsum (zrange m) (fun j => bsum (snd (b s j p)) gg)).
Proof. intros b p H. rewrite sum_for by (intros; apply still_for; auto). apply bsum_ext. intros s _. now rewrite sum_for by auto. Qed.
Lemma over2 : forall (b : Z -> Z -> Z -> prog) p, (forall s j l, still (b s j l)) ->
  bsum (snd (for_ [0; 1] (fun s => for_ (zrange m) (fun j => for_ (zrange m) (b s j))) p)) gg =
  bsum [0; 1] (fun s => bsum (zrange m) (fun j => bsum (zrange m) (fun l => bsum (snd (b s j l p)) gg))).
Proof.
  intros b p H. rewrite sum_for by (intros; apply still_for; intros; apply still_for; auto). apply bsum_ext. intros s _.
  rewrite sum_for by (intros; apply still_for; auto). apply bsum_ext. intros j _. now rewrite sum_for by auto.
Qed.
Ltac ext2 := apply bsum_ext; intros ? ?; apply bsum_ext; intros ? ?.
Ltac ext3 := apply bsum_ext; intros ? ?; apply bsum_ext; intros ? ?; apply bsum_ext; intros ? ?.

Lemma still_rd : forall s i, still (rd_body R half iszero v symmetrized_p n m s i).
Proof. intros s i. unfold rd_body. destruct symmetrized_p; cbn [negb]; stl. Qed.
Lemma still_r : forall s i, still (r_body R half iszero v symmetrized_p n m s i).
Proof. intros s i. unfold r_body. destruct symmetrized_p; cbn [negb]; stl. Qed.

Lemma rd_col : forall s i p, is_spin s -> m + 1 <= i < n ->
  bsum (snd (rd_body R half iszero v symmetrized_p n m s i p)) gg = RDs R half T1 V2 (i, s) (modes (m + 1)) (chi (p + i - (m + 1))).
Proof.
  intros s i p Sp I. set (k := p + i - (m + 1)).
  assert (B : is_spin s) by exact Sp.
  transitivity (sem (modes (m + 1)) (QRD i s) (chi k)); [|reflexivity].
  rewrite (sem_perm _ _ (QRD i s) _ (modes_S m (proj1 Hm))). cbn [sem].
  rewrite (RD_split R half T1 V2 V2_xy V2_zw V2_pair S U (disj_here m) (i, s) (chi k) (chi_car k)).
  assert (E1 : bsum S (fun z => PDs R V2 (i, s) z U (fun w => chi k (an z :: w))) +' bsum S (fun y => Qs R V2 y (i, s) U (fun w => chi k (cr y :: w))) =
    bsum (snd (for_ [0; 1] (fun sp => for_ (zrange m) (fun k0 =>
      seq_ (set_ (fun p => (pd m sp + k0, p + i - (m + 1))) (sy (QPD i k0 s sp)))
           (set_ (fun p => (pc m sp + k0, p + i - (m + 1))) (sy (QQ k0 i sp s))))) p)) gg).
  { rewrite over1 by (intros; stl). rewrite <- bsum_add, sum_modes. ext2. spins. rewrite sum_seqs, !sum_set, !gg_sy by stl. fold k.
    rewrite (e_d _ x x0), (e_c _ x x0) by (auto; ptrs). reflexivity. }
  assert (E2 : ssum3 R S U S (fun y z w => V2 (i, s) y z w *' chi k [cr y; cr w; an z]) =
    bsum (snd ((if negb symmetrized_p then
     for_ [0; 1] (fun sp => for_ (zrange m) (fun j => for_ (zrange m) (fun l =>
       set_ (fun p => (pa n m s sp + j * m + l, p + i - (m + 1))) (mul (v s sp i j m l) (sy (QD m sp))))))
   else
     for_ [0; 1] (fun sp => for_ (zrange m) (fun j => for_ (zrange m) (fun l =>
       seq_ (set_ (fun p => (pa n m s sp + j * m + l, p + i - (m + 1))) (mul (half *' v s sp i j m l) (sy (QD m sp))))
            (set_ (fun p => (pa n m sp s + j * m + l, p + i - (m + 1))) (mul ((-' half) *' v s sp i l m j) (sy (QD m sp)))))))) p)) gg).
  { rewrite modes_ML, here_ML, collapse by exact Sp. destruct symmetrized_p; cbn [negb]; rewrite over2 by (intros; stl).
    - apply bsum_ext. intros sp SP. spins. symmetry.
      rewrite (bsum_ext R _ (zrange m) _ (fun j => bsum (zrange m) (fun l => half *' v s sp i j m l *' chi k [cr (j, s); cr (l, sp); an (m, sp)]) +'
         bsum (zrange m) (fun l => (-' half) *' v s sp i l m j *' chi k [cr (j, sp); cr (l, s); an (m, sp)]))).
      + rewrite bsum_add, (bsum_swap R _ _ (zrange m) (zrange m) (fun j l => (-' half) *' v s sp i l m j *' chi k [cr (j, sp); cr (l, s); an (m, sp)])).
        rewrite <- bsum_add. apply bsum_ext. intros j _. rewrite <- bsum_add, sum1. apply bsum_ext. intros l _.
        rewrite (car0 R _ (cr (l, sp)) (cr (j, s)) _ (chi_car k) (conj_no_c _ _)).
        transitivity ((half +' half) *' (v s sp i j m l *' chi k [cr (j, s); cr (l, sp); an (m, sp)])); [ring|]. rewrite half2. ring.
      + intros j J. rewrite <- bsum_add. apply bsum_ext. intros l Hl. spins. rewrite sum_seqs, !sum_set, !gg_mul by stl. fold k.
        rewrite (e_a _ s sp j l), (e_a _ sp s j l) by (auto; ptrs). cbn [sem]. ring.
    - apply bsum_ext. intros sp SP. apply bsum_ext. intros j J. rewrite sum1. apply bsum_ext. intros l Hl. spins.
      rewrite sum_set, gg_mul. fold k. rewrite (e_a _ s sp j l) by (auto; ptrs). reflexivity. }
  assert (E3 : ssum3 R U S S (fun y z w => V2 (i, s) y z w *' chi k [cr w; an z; cr y]) =
    bsum (snd (for_ [0; 1] (fun sp => for_ (zrange m) (fun k => for_ (zrange m) (fun l =>
      set_ (fun p => (pb n m sp sp + l * m + k, p + i - (m + 1))) (mul (v s sp i m k l) (sy (QC m s)))))) p)) gg).
  { rewrite modes_ML, here_ML, collapse by exact Sp. rewrite over2 by (intros; stl). apply bsum_ext. intros sp SP. rewrite sum1. ext2. spins.
    rewrite sum_set, gg_mul. fold k. rewrite (e_b _ sp sp x0 x) by (auto; ptrs). reflexivity. }
  assert (E4 : -' ssum3 R S S U (fun y z w => V2 (i, s) y z w *' chi k [cr y; an z; cr w]) =
    bsum (snd (for_ [0; 1] (fun sp => for_ (zrange m) (fun j => for_ (zrange m) (fun k =>
      set_ (fun p => (pb n m s sp + j * m + k, p + i - (m + 1))) (mul (mone R *' v s sp i j k m) (sy (QC m sp)))))) p)) gg).
  { rewrite modes_ML, here_ML, collapse by exact Sp. rewrite over2 by (intros; stl). rewrite <- bsum_opp. apply bsum_ext. intros sp SP.
    rewrite <- bsum_opp. apply bsum_ext. intros j J. rewrite <- bsum_opp. apply bsum_ext. intros l Hl. rewrite sum1. spins.
    rewrite sum_set, gg_mul. fold k. rewrite (e_b _ s sp j l) by (auto; ptrs). cbn [sem]. unfold mone. ring. }
  rewrite E2, E3, E4. unfold rd_body.
  rewrite sum_seqs by stl. rewrite sum_seqs by stl. rewrite sum_seqs by stl.
  rewrite sum_seqs by (destruct symmetrized_p; cbn [negb]; stl). rewrite sum_seqs by stl. rewrite <- E1, !sum_set. fold k. unfold pi.
  rewrite !gg_sy, e_i, (e_rd _ s i) by (auto; lia). cbn [sem].
  assert (E6 : RDs R half T1 V2 (i, s) S (fun w1 => chi k (w1 ++ [])) = RDs R half T1 V2 (i, s) S (chi k)) by exact (nil_r (QRD i s) k).
  rewrite E6. ring.
Qed.

Lemma r_col : forall s i p, is_spin s -> m + 1 <= i < n ->
  bsum (snd (r_body R half iszero v symmetrized_p n m s i p)) gg = -' Rs R half T1 V2 (i, s) (modes (m + 1)) (chi (p + i - (m + 1))).
Proof.
  intros s i p Sp I. set (k := p + i - (m + 1)).
  transitivity (-' sem (modes (m + 1)) (QR i s) (chi k)); [|reflexivity].
  rewrite (sem_perm _ _ (QR i s) _ (modes_S m (proj1 Hm))). cbn [sem].
  rewrite (R_split R half T1 V2 S U (disj_here m) (i, s) (chi k) (chi_car k)).
  assert (E1 : -' (bsum S (fun z => Ps R V2 (i, s) z U (fun w => chi k (cr z :: w))) +' bsum S (fun y => Qs R V2 (i, s) y U (fun w => chi k (an y :: w)))) =
    bsum (snd (for_ [0; 1] (fun sp => for_ (zrange m) (fun k0 =>
      seq_ (set_ (fun p => (pc m sp + k0, p + i - (m + 1))) (mul (mone R) (sy (QP i k0 s sp))))
           (set_ (fun p => (pd m sp + k0, p + i - (m + 1))) (mul (mone R) (sy (QQ i k0 s sp)))))) p)) gg).
  { rewrite over1 by (intros; stl). rewrite <- bsum_add, <- bsum_opp, sum_modes. ext2. spins. rewrite sum_seqs, !sum_set, !gg_mul by stl. fold k.
    rewrite (e_c _ x x0), (e_d _ x x0) by (auto; ptrs). cbn [sem]. unfold mone. ring. }
  assert (E2 : -' ssum3 R S U S (fun y z w => V2 (i, s) y z w *' chi k [an w; an y; cr z]) =
    bsum (snd ((if negb symmetrized_p then
     for_ [0; 1] (fun sp => for_ (zrange m) (fun j => for_ (zrange m) (fun l =>
       set_ (fun p => (pad n m s sp + j * m + l, p + i - (m + 1))) (mul (mone R *' v s sp i j m l) (sy (QC m sp))))))
   else
     for_ [0; 1] (fun sp => for_ (zrange m) (fun j => for_ (zrange m) (fun l =>
       seq_ (set_ (fun p => (pad n m s sp + j * m + l, p + i - (m + 1))) (mul ((-' half) *' v s sp i j m l) (sy (QC m sp))))
            (set_ (fun p => (pad n m sp s + j * m + l, p + i - (m + 1))) (mul (half *' v s sp i l m j) (sy (QC m sp)))))))) p)) gg).
  { rewrite modes_ML, here_ML, collapse by exact Sp. rewrite <- bsum_opp. destruct symmetrized_p; cbn [negb]; rewrite over2 by (intros; stl).
    - apply bsum_ext. intros sp SP. spins. symmetry.
      rewrite (bsum_ext R _ (zrange m) _ (fun j => bsum (zrange m) (fun l => (-' half) *' v s sp i j m l *' chi k [an (l, sp); an (j, s); cr (m, sp)]) +'
         bsum (zrange m) (fun l => half *' v s sp i l m j *' chi k [an (l, s); an (j, sp); cr (m, sp)]))).
      + rewrite bsum_add, (bsum_swap R _ _ (zrange m) (zrange m) (fun j l => half *' v s sp i l m j *' chi k [an (l, s); an (j, sp); cr (m, sp)])).
        rewrite <- bsum_add, <- bsum_opp. apply bsum_ext. intros j _. rewrite <- bsum_add, sum1, <- bsum_opp. apply bsum_ext. intros l _.
        rewrite (car0 R _ (an (j, s)) (an (l, sp)) _ (chi_car k) (conj_no_d _ _)).
        transitivity (-' ((half +' half) *' (v s sp i j m l *' chi k [an (l, sp); an (j, s); cr (m, sp)]))); [ring|]. rewrite half2. ring.
      + intros j J. rewrite <- bsum_add. apply bsum_ext. intros l Hl. spins. rewrite sum_seqs, !sum_set, !gg_mul by stl. fold k.
        rewrite (e_ad _ s sp j l), (e_ad _ sp s j l) by (auto; ptrs). cbn [sem]. ring.
    - apply bsum_ext. intros sp SP. rewrite <- bsum_opp. apply bsum_ext. intros j J. rewrite sum1, <- bsum_opp. apply bsum_ext. intros l Hl. spins.
      rewrite sum_set, gg_mul. fold k. rewrite (e_ad _ s sp j l) by (auto; ptrs). cbn [sem]. unfold mone. ring. }
  assert (E3 : -' ssum3 R U S S (fun y z w => V2 (i, s) y z w *' chi k [cr z; an w; an y]) =
    bsum (snd (for_ [0; 1] (fun sp => for_ (zrange m) (fun k => for_ (zrange m) (fun l =>
      set_ (fun p => (pb n m sp sp + k * m + l, p + i - (m + 1))) (mul (mone R *' v s sp i m k l) (sy (QD m s)))))) p)) gg).
  { rewrite modes_ML, here_ML, collapse by exact Sp. rewrite over2 by (intros; stl). rewrite <- bsum_opp. apply bsum_ext. intros sp SP. rewrite sum1.
    rewrite <- bsum_opp. apply bsum_ext. intros j J. rewrite <- bsum_opp. apply bsum_ext. intros l Hl. spins.
    rewrite sum_set, gg_mul. fold k. rewrite (e_b _ sp sp j l) by (auto; ptrs). cbn [sem]. unfold mone. ring. }
  assert (E4 : ssum3 R S S U (fun y z w => V2 (i, s) y z w *' chi k [cr z; an y; an w]) =
    bsum (snd (for_ [0; 1] (fun sp => for_ (zrange m) (fun j => for_ (zrange m) (fun k =>
      set_ (fun p => (pb n m sp s + k * m + j, p + i - (m + 1))) (mul ((mone R *' mone R) *' v s sp i j k m) (sy (QD m sp)))))) p)) gg).
  { rewrite modes_ML, here_ML, collapse by exact Sp. rewrite over2 by (intros; stl). apply bsum_ext. intros sp SP.
    apply bsum_ext. intros j J. apply bsum_ext. intros l Hl. rewrite sum1. spins.
    rewrite sum_set, gg_mul. fold k. rewrite (e_b _ sp s l j) by (auto; ptrs). cbn [sem]. unfold mone. ring. }
  unfold r_body.
  rewrite sum_seqs by stl. rewrite sum_seqs by stl. rewrite sum_seqs by stl.
  rewrite sum_seqs by (destruct symmetrized_p; cbn [negb]; stl). rewrite sum_seqs by stl. rewrite <- E1, <- E2, <- E3, <- E4, !sum_set. fold k. unfold pi.
  rewrite !gg_sy, gg_neg, e_i, (e_r _ s i) by (auto; lia). cbn [sem].
  assert (E6 : Rs R half T1 V2 (i, s) S (fun w1 => chi k (w1 ++ [])) = Rs R half T1 V2 (i, s) S (chi k)) by exact (nil_r (QR i s) k).
  rewrite E6. ring.
Qed.

(* groups of columns *)
Lemma F_sy : forall k o, F k (sy o) = sem (modes (m + 1)) o (chi k).
Proof. intros. unfold F. cbn. ring. Qed.
Lemma F_neg : forall k o, F k (neg (sy o)) = -' sem (modes (m + 1)) o (chi k).
Proof. intros. unfold F. cbn. ring. Qed.
Lemma sum_succ : forall (f : Z -> R), bsum (zrange (m + 1)) f = bsum (zrange m) f +' f m.
Proof. intros f. rewrite zrange_succ by lia. rewrite bsum_app, bsum_cons, bsum_nil. ring. Qed.
Lemma fst_step : forall a d p, still a -> fst (seq_ a (step d) p) = p + d.
Proof. intros a d p H. rewrite fst_seqs by exact H. reflexivity. Qed.
Lemma sum_stepped : forall a d p (g : wr -> R), still a -> bsum (snd (seq_ a (step d) p)) g = bsum (snd (a p)) g.
Proof. intros a d p g H. rewrite sum_seqs by exact H. rewrite sum_step. ring. Qed.

Lemma rd_group : forall p, fst (rd_prog R half iszero v symmetrized_p n m p) = p + 2 * (n - (m + 1)) /\
  bsum (snd (rd_prog R half iszero v symmetrized_p n m p)) gg = dsum R p (blk R (fun j s => sy (QRD j s)) (range (m + 1) n)) F.
Proof.
  intros p. unfold rd_prog.
  assert (St : forall s, still (for_ (range (m + 1) n) (rd_body R half iszero v symmetrized_p n m s))) by (intros; apply still_for; apply still_rd).
  split.
  - rewrite fst_for2, !fst_step by auto. lia.
  - rewrite for2, !sum_stepped, fst_step by auto. rewrite dsum_blk_r, sum2 by lia. rewrite !sum_for by apply still_rd.
    f_equal; apply bsum_ext; intros i I; apply in_range in I; rewrite F_sy, rd_col by auto; cbn [sem]; do 2 f_equal; lia.
Qed.
Lemma r_group : forall p, fst (r_prog R half iszero v symmetrized_p n m p) = p + 2 * (n - (m + 1)) /\
  bsum (snd (r_prog R half iszero v symmetrized_p n m p)) gg = dsum R p (blk R (fun j s => neg (sy (QR j s))) (range (m + 1) n)) F.
Proof.
  intros p. unfold r_prog.
  assert (St : forall s, still (for_ (range (m + 1) n) (r_body R half iszero v symmetrized_p n m s))) by (intros; apply still_for; apply still_r).
  split.
  - rewrite fst_for2, !fst_step by auto. lia.
  - rewrite for2, !sum_stepped, fst_step by auto. rewrite dsum_blk_r, sum2 by lia. rewrite !sum_for by apply still_r.
    f_equal; apply bsum_ext; intros i I; apply in_range in I; rewrite F_neg, r_col by auto; cbn [sem]; do 3 f_equal; lia.
Qed.

Lemma fst_stepped3 : forall a b c d p, still a -> still b -> still c -> fst (seq_ a (seq_ b (seq_ c (step d))) p) = p + d.
Proof. intros a b c d p A B C. rewrite !fst_seqs by auto. reflexivity. Qed.
Lemma sum_stepped3 : forall a b c d p (g : wr -> R), still a -> still b -> still c ->
  bsum (snd (seq_ a (seq_ b (seq_ c (step d))) p)) g = bsum (snd (a p)) g +' bsum (snd (b p)) g +' bsum (snd (c p)) g.
Proof. intros a b c d p g A B C. rewrite !sum_seqs by auto. rewrite sum_step. ring. Qed.
Lemma fst_stepped2 : forall a b d p, still a -> still b -> fst (seq_ a (seq_ b (step d)) p) = p + d.
Proof. intros a b d p A B. rewrite !fst_seqs by auto. reflexivity. Qed.
Lemma sum_stepped2 : forall a b d p (g : wr -> R), still a -> still b ->
  bsum (snd (seq_ a (seq_ b (step d)) p)) g = bsum (snd (a p)) g +' bsum (snd (b p)) g.
Proof. intros a b d p g A B. rewrite !sum_seqs by auto. rewrite sum_step. ring. Qed.

Lemma c_half : forall (P : Z -> Z) (o : Z -> Z -> qop) (l : mode -> letter) p,
  (forall s j c o', is_spin s -> 0 <= j < m -> ent (P s + j) c o' = sem U o' (fun w => chi c (l (j, s) :: w))) ->
  (forall j s M f, sem M (o j s) f = f [l (j, s)]) ->
  let pr := for_ [0; 1] (fun s => seq_ (for_ (zrange m) (fun j => set_ (fun p => (P s + j, p + j)) (sy QI)))
    (seq_ (set_ (fun p => (pi, p + m)) (sy (o m s))) (step (m + 1)))) in
  fst (pr p) = p + 2 * (m + 1) /\ bsum (snd (pr p)) gg = dsum R p (blk R (fun j s => sy (o j s)) (zrange (m + 1))) F.
Proof.
  intros P o l p HP Ho. cbv zeta. split.
  - rewrite fst_for2, !fst_stepped2 by (intros; stl). lia.
  - rewrite for2, !sum_stepped2, fst_stepped2 by (intros; stl). rewrite dsum_blk_z, sum2 by lia. rewrite !sum_set, !sum_for by (intros; stl).
    unfold pi. rewrite !sum_succ, !gg_sy, !e_i, !F_sy, !Ho.
    f_equal; f_equal; try (f_equal; lia).
    + apply bsum_ext. intros j J. spins. rewrite sum_set, gg_sy, F_sy, HP, Ho by auto. cbn [sem]. f_equal. lia.
    + apply bsum_ext. intros j J. spins. rewrite sum_set, gg_sy, F_sy, HP, Ho by auto. cbn [sem]. f_equal. lia.
Qed.
Lemma c_group : forall p, fst (c_prog R m p) = p + 2 * (m + 1) + 2 * (m + 1) /\
  bsum (snd (c_prog R m p)) gg = dsum R p (blk R (fun j s => sy (QC j s)) (zrange (m + 1))) F +'
    dsum R (p + 2 * (m + 1)) (blk R (fun j s => sy (QD j s)) (zrange (m + 1))) F.
Proof.
  intros p. unfold c_prog.
  destruct (c_half (pc m) QC cr p) as [A1 A2]; [intros; now apply e_c|reflexivity|].
  destruct (c_half (pd m) QD an (p + 2 * (m + 1))) as [B1 B2]; [intros; now apply e_d|reflexivity|].
  rewrite fst_seq, sum_seq, A1, A2, B2. split; [exact B1|reflexivity].
Qed.

Lemma pair_group : forall (P : Z -> Z -> Z) (o : Z -> Z -> Z -> Z -> qop) (w : mode -> mode -> list letter) (r1 r2 : Z -> Z -> Z -> Z) (o1 o2 : Z -> Z -> option fsym) p,
  (forall sl sr i j c o', is_spin sl -> is_spin sr -> 0 <= i < m -> 0 <= j < m ->
     ent (P sl sr + i * m + j) c o' = sem U o' (fun u => chi c (w (i, sl) (j, sr) ++ u))) ->
  (forall i j sl sr M f, sem M (o i j sl sr) f = f (w (i, sl) (j, sr))) ->
  (forall sl sr i c, is_spin sl -> is_spin sr -> 0 <= i < m -> gg ((r1 sl sr i, c), o1 sl sr) = chi c (w (i, sl) (m, sr))) ->
  (forall sl sr i c, is_spin sl -> is_spin sr -> 0 <= i < m -> gg ((r2 sl sr i, c), o2 sl sr) = chi c (w (m, sl) (i, sr))) ->
  let pr := over_pairs R (fun sl sr =>
    seq_ (for_ (zrange m) (fun i => for_ (zrange m) (fun j => set_ (fun p => (P sl sr + i * m + j, p + i * (m + 1) + j)) (sy QI))))
    (seq_ (for_ (zrange m) (fun i =>
      seq_ (set_ (fun p => (r1 sl sr i, p + i * (m + 1) + m)) (o1 sl sr))
           (set_ (fun p => (r2 sl sr i, p + m * (m + 1) + i)) (o2 sl sr))))
    (seq_ (set_ (fun p => (pi, p + m * (m + 1) + m)) (sy (o m m sl sr))) (step ((m + 1) * (m + 1)))))) in
  fst (pr p) = p + 4 * ((m + 1) * (m + 1)) /\ bsum (snd (pr p)) gg = dsum R p (prs R (fun i j sl sr => sy (o i j sl sr)) (zrange (m + 1))) F.
Proof.
  intros P o w r1 r2 o1 o2 p HP Ho H1 H2. cbv zeta.
  set (body := fun sl sr => seq_ (for_ (zrange m) (fun i => for_ (zrange m) (fun j => set_ (fun p => (P sl sr + i * m + j, p + i * (m + 1) + j)) (sy QI))))
    (seq_ (for_ (zrange m) (fun i =>
      seq_ (set_ (fun p => (r1 sl sr i, p + i * (m + 1) + m)) (o1 sl sr))
           (set_ (fun p => (r2 sl sr i, p + m * (m + 1) + i)) (o2 sl sr))))
    (seq_ (set_ (fun p => (pi, p + m * (m + 1) + m)) (sy (o m m sl sr))) (step ((m + 1) * (m + 1)))))).
  assert (Bf : forall sl sr q, fst (body sl sr q) = q + (m + 1) * (m + 1)) by (intros; unfold body; rewrite fst_stepped3 by (intros; stl); reflexivity).
  assert (Bs : forall sl sr q q', is_spin sl -> is_spin sr -> q = q' -> bsum (snd (body sl sr q)) gg =
     bsum (zrange (m + 1)) (fun i => bsum (zrange (m + 1)) (fun j => F (q' + i * (m + 1) + j) (sy (o i j sl sr))))).
  { intros sl sr q q' A B <-. unfold body. rewrite sum_stepped3 by (intros; stl). rewrite sum_set, gg_sy, !sum_for by (intros; stl). unfold pi. rewrite e_i, Ho.
    rewrite sum_succ, sum_succ, F_sy, Ho.
    rewrite (bsum_ext R _ (zrange m) (fun i => bsum (zrange (m + 1)) _) (fun i => bsum (zrange m) (fun j => F (q + i * (m + 1) + j) (sy (o i j sl sr))) +'
       F (q + i * (m + 1) + m) (sy (o i m sl sr)))) by (intros; apply sum_succ).
    rewrite bsum_add.
    rewrite (bsum_ext R _ (zrange m) (fun x => bsum (snd (seq_ _ _ q)) gg) (fun i => F (q + i * (m + 1) + m) (sy (o i m sl sr)) +' F (q + m * (m + 1) + i) (sy (o m i sl sr)))).
    - rewrite bsum_add. rewrite (bsum_ext R _ (zrange m) (fun x => bsum (snd (for_ _ _ q)) gg) (fun i => bsum (zrange m) (fun j => F (q + i * (m + 1) + j) (sy (o i j sl sr))))).
      + ring.
      + intros i Hi. rewrite sum_for by (intros; stl). apply bsum_ext. intros j J. spins. rewrite sum_set, gg_sy, HP, F_sy, Ho by auto. cbn [sem]. now rewrite app_nil_r.
    - intros i Hi. spins. rewrite sum_seqs by stl. rewrite !sum_set, H1, H2, !F_sy, !Ho by auto. reflexivity. }
  clearbody body. unfold over_pairs. split.
  - rewrite fst_for2, !fst_for2, !Bf. lia.
  - rewrite for2, !for2, !fst_for2, !Bf. rewrite dsum_prs, !sum2 by lia.
    rewrite (Bs 0 0 p (p + 0 * (2 * ((m + 1) * (m + 1))) + 0 * ((m + 1) * (m + 1)))) by (auto; lia).
    rewrite (Bs 1 0 _ (p + 0 * (2 * ((m + 1) * (m + 1))) + 1 * ((m + 1) * (m + 1)))) by (auto; lia).
    rewrite (Bs 0 1 _ (p + 1 * (2 * ((m + 1) * (m + 1))) + 0 * ((m + 1) * (m + 1)))) by (auto; lia).
    rewrite (Bs 1 1 _ (p + 1 * (2 * ((m + 1) * (m + 1))) + 1 * ((m + 1) * (m + 1)))) by (auto; lia). reflexivity.
Qed.
Lemma no_cj : forall a b i s s', 0 <= i < m -> ~ conj (a, (i, s)) (b, (m, s')).
Proof. intros a b i s s' H. apply conj_neq. cbn. intros E. injection E. lia. Qed.
Lemma a_group : forall p, fst (a_prog R n m p) = p + 4 * ((m + 1) * (m + 1)) /\
  bsum (snd (a_prog R n m p)) gg = dsum R p (prs R (fun i j sl sr => sy (QA i j sl sr)) (zrange (m + 1))) F.
Proof.
  intros p. apply (pair_group (pa n m) QA (fun x y => [cr x; cr y])
    (fun sl sr i => pc m sl + i) (fun sl sr i => pc m sr + i) (fun sl sr => sy (QC m sr)) (fun sl sr => neg (sy (QC m sl)))).
  - intros. now apply e_a.
  - reflexivity.
  - intros. rewrite gg_sy, (e_c _ sl i) by auto. reflexivity.
  - intros. rewrite gg_neg, (e_c _ sr i) by auto. cbn [sem].
    rewrite (car0 R _ (cr (i, sr)) (cr (m, sl)) _ (chi_car c) (no_cj _ _ _ _ _ H1)). ring.
Qed.
Lemma ad_group : forall p, fst (ad_prog R n m p) = p + 4 * ((m + 1) * (m + 1)) /\
  bsum (snd (ad_prog R n m p)) gg = dsum R p (prs R (fun i j sl sr => sy (QAD i j sl sr)) (zrange (m + 1))) F.
Proof.
  intros p. apply (pair_group (pad n m) QAD (fun x y => [an y; an x])
    (fun sl sr i => pd m sl + i) (fun sl sr i => pd m sr + i) (fun sl sr => neg (sy (QD m sr))) (fun sl sr => sy (QD m sl))).
  - intros. now apply e_ad.
  - reflexivity.
  - intros. rewrite gg_neg, (e_d _ sl i) by auto. cbn [sem].
    rewrite (car0 R _ (an (i, sl)) (an (m, sr)) _ (chi_car c) (no_cj _ _ _ _ _ H1)). ring.
  - intros. rewrite gg_sy, (e_d _ sr i) by auto. reflexivity.
Qed.
Lemma b_group : forall p, fst (b_prog R n m p) = p + 4 * ((m + 1) * (m + 1)) /\
  bsum (snd (b_prog R n m p)) gg = dsum R p (prs R (fun i j sl sr => sy (QB i j sl sr)) (zrange (m + 1))) F.
Proof.
  intros p. apply (pair_group (pb n m) QB (fun x y => [cr x; an y])
    (fun sl sr i => pc m sl + i) (fun sl sr i => pd m sr + i) (fun sl sr => sy (QD m sr)) (fun sl sr => neg (sy (QC m sl)))).
  - intros. now apply e_b.
  - reflexivity.
  - intros. rewrite gg_sy, (e_c _ sl i) by auto. reflexivity.
  - intros. rewrite gg_neg, (e_d _ sr i) by auto. cbn [sem].
    rewrite (car0 R _ (an (i, sr)) (cr (m, sl)) _ (chi_car c) (no_cj _ _ _ _ _ H1)). ring.
Qed.

Theorem other_sum : forall p, fst (other_prog R half iszero v symmetrized_p n m p) = 2 + 4 * n + 12 * (m + 1) * (m + 1) /\
  sem (modes (m + 1)) QH (chi 0) +' bsum (snd (other_prog R half iszero v symmetrized_p n m p)) gg = dsum R 0 (rc R n (m + 1)) F.
Proof.
  intros p. unfold other_prog. rewrite !fst_seq. rewrite !sum_seq. cbn [QcModel.set_ QcModel.goto fst].
  destruct (c_group 2) as [C1 C2]. rewrite C1, C2.
  destruct (rd_group (2 + 2 * (m + 1) + 2 * (m + 1))) as [D1 D2]. rewrite D1, D2.
  match goal with |- context [r_prog R half iszero v symmetrized_p n m ?q] => destruct (r_group q) as [R1 R2]; rewrite R1, R2 end.
  match goal with |- context [a_prog R n m ?q] => destruct (a_group q) as [A1 A2]; rewrite A1, A2 end.
  match goal with |- context [ad_prog R n m ?q] => destruct (ad_group q) as [B1 B2]; rewrite B1, B2 end.
  match goal with |- context [b_prog R n m ?q] => destruct (b_group q) as [G1 G2]; rewrite G1, G2 end.
  split; [lia|].
  unfold rc, rc_tail. rewrite !dsum_app. cbn [dsum]. change (zlen [sy QH; sy QI]) with 2.
  rewrite !blk_len, !prs_len, !zlen_zrange, !zlen_range by lia. rewrite !F_sy. change (0 + 1) with 1. change (0 + 2) with 2.
  rewrite (sum_set R _ _ p gg). rewrite gg_sy, e_i. cbn [sem].
  cbn [snd]. rewrite bsum_nil. ring.
Qed.
End Site.
End Step.
