(** Lemmas for C33: blocks collected by the label of one leg, factorised group by group. *)
From Coq Require Import ZArith Bool List Lia Permutation Ring.
From Verif Require Import SymModel SymProofs DictLib IndexLib OptLib RingLib BondModel BondProofs FuseModel FuseProofs BlockModel BlockProofs StructModel StructProofs MpsModel MpsChain MpsProofs CanonModel.
Import ListNotations.
Open Scope Z_scope.

Lemma nodup_app : forall A (a b : list A), NoDup (a ++ b) <-> NoDup a /\ NoDup b /\ (forall x, In x a -> In x b -> False).
Proof.
  intros A. induction a as [|x a IH]; intros b; cbn [app].
  - split; [intros H; repeat split; auto; constructor|tauto].
  - split.
    + intros H. inversion H as [|? ? H1 H2]; subst. apply IH in H2. destruct H2 as (H2 & H3 & H4). split; [|split; [exact H3|]].
      * constructor; [|exact H2]. intros K. apply H1. apply in_or_app. now left.
      * intros y [->|K] K'; [|eauto]. apply H1. apply in_or_app. now right.
    + intros (H1 & H2 & H3). inversion H1 as [|? ? H4 H5]; subst. constructor.
      * intros K. apply in_app_or in K. destruct K as [K|K]; [tauto|]. apply (H3 x); [now left|exact K].
      * apply IH. repeat split; auto. intros y K K'. apply (H3 y); [now right|exact K'].
Qed.
Lemma nodup_map_in : forall A B (f : A -> B) l, (forall x y, In x l -> In y l -> f x = f y -> x = y) -> NoDup l -> NoDup (map f l).
Proof.
  intros A B f. induction l as [|x l IH]; intros H N; [constructor|]. inversion N as [|? ? N1 N2]; subst. cbn [map]. constructor.
  - intros K. apply in_map_iff in K. destruct K as (y & E & K). apply N1. rewrite (H x y); auto; [now left|now right].
  - apply IH; auto. intros a b Ha Hb. apply H; now right.
Qed.

Section Core.
Variable R : CRing.
Add Ring Rr20 : (rth R).
Variable L : Label.
Notation state := (L * Z)%type.
Notation tblock := (bool * (list L * nd R))%type.
Notation "0'" := (r0 R). Notation "1'" := (r1 R).
Infix "+'" := (radd R) (at level 50, left associativity).
Infix "*'" := (rmul R) (at level 40, left associativity).
Notation teqb := (tup_eqb L).
Notation tspec := (tup_eqb_spec L).

(** *** collect *)
Section Collect.
Variable lab : list L -> L.
Notation labt := (fun tb : tblock => lab (fst (snd tb))).
Notation collect := (collect R L lab).
Lemma collect_snoc : forall bs b, collect (bs ++ [b]) = dset (qeqb L) (collect bs) (labt b) (odflt [] (dget (qeqb L) (collect bs) (labt b)) ++ [b]).
Proof. intros. unfold CanonModel.collect. now rewrite fold_left_app. Qed.
Lemma collect_nodup : forall bs, NoDup (keys (collect bs)).
Proof. induction bs as [|b bs IH] using rev_ind; [constructor|]. rewrite collect_snoc. now apply (nodup_dset _ (qeqb_spec L)). Qed.
Lemma collect_get : forall bs q, dget (qeqb L) (collect bs) q = match filter (fun b => qeqb L (labt b) q) bs with [] => None | g => Some g end.
Proof.
  induction bs as [|b bs IH] using rev_ind; intros q; [reflexivity|]. rewrite collect_snoc, (dget_dset _ (qeqb_spec L)). rewrite filter_app. cbn [filter]. destruct (qeqb_spec L (labt b) q) as [->|N].
  - destruct (qeqb_spec L q q); [|congruence]. rewrite IH. destruct (filter _ bs); reflexivity.
  - destruct (qeqb_spec L q (labt b)); [congruence|]. now rewrite IH, app_nil_r.
Qed.
Lemma collect_in : forall bs q g, In (q, g) (collect bs) <-> g = filter (fun b => qeqb L (labt b) q) bs /\ g <> [].
Proof.
  intros bs q g. split.
  - intros H. apply (in_dget _ (qeqb_spec L)) in H; [|apply collect_nodup]. rewrite collect_get in H. destruct (filter _ bs); [discriminate|]. injection H as <-. split; [reflexivity|discriminate].
  - intros [-> N]. apply (dget_in _ (qeqb_spec L)). rewrite collect_get. destruct (filter _ bs); [congruence|reflexivity].
Qed.
Lemma collect_key : forall bs q, In q (keys (collect bs)) <-> exists b, In b bs /\ labt b = q.
Proof.
  intros bs q. split.
  - intros H. apply in_map_iff in H. destruct H as ((q' & g) & <- & H). apply collect_in in H. destruct H as [-> N]. cbn [fst]. destruct (filter _ bs) as [|b l] eqn:E; [congruence|]. exists b. assert (In b (b :: l)) by now left. rewrite <- E in H. apply filter_In in H. destruct H as [H1 H2]. split; [exact H1|]. destruct (qeqb_spec L (labt b) q'); [assumption|discriminate].
  - intros (b & Hb & <-). apply in_map_iff. exists (labt b, filter (fun c => qeqb L (labt c) (labt b)) bs). split; [reflexivity|]. apply collect_in. split; [reflexivity|]. intros E. assert (In b []); [|assumption]. rewrite <- E. apply filter_In. split; [exact Hb|]. destruct (qeqb_spec L (labt b) (labt b)); congruence.
Qed.
Lemma collect_perm : forall bs, Permutation (flat_map snd (collect bs)) bs.
Proof.
  induction bs as [|b bs IH] using rev_ind; [constructor|]. rewrite collect_snoc.
  assert (G: forall (d : dict L (list tblock)) q, Permutation (flat_map snd (dset (qeqb L) d q (odflt [] (dget (qeqb L) d q) ++ [b]))) (flat_map snd d ++ [b])).
  { clear. induction d as [|[k v] d IH]; intros q; [cbn; reflexivity|]. cbn [dset dget]. destruct (qeqb L k q) eqn:E; cbn [flat_map snd odflt].
    - rewrite <- !app_assoc. apply Permutation_app_head. apply Permutation_app_comm.
    - rewrite <- app_assoc. apply Permutation_app_head. apply IH. }
  rewrite G. now apply Permutation_app_tail.
Qed.
End Collect.

(** *** one leg singled out *)
Variable put : forall A : Type, A -> list A -> list A.
Arguments put {A}.
Variable lab : list L -> L.
Hypothesis put_map : forall A B (f : A -> B) x l, map f (put x l) = put (f x) (map f l).
Hypothesis put_inj : forall A (x y : A) l m, put x l = put y m -> x = y /\ l = m.
Hypothesis put_len : forall A (x : A) l, length (put x l) = S (length l).
Hypothesis put_ex : forall A (l : list A), l <> [] -> exists x m, l = put x m.
Hypothesis lab_put : forall q l, lab (put q l) = q.
Hypothesis put_shape : forall d rs y ys, in_shape (put d rs) (put y ys) <-> 0 <= y < d /\ in_shape rs ys.
Variable rest : forall A : Type, list A -> list A.
Arguments rest {A}.
Hypothesis rest_put : forall A (d : A) rs, rest (put d rs) = rs.
Variable cj : R -> R.
Hypothesis cj0 : cj 0' = 0'.

(* what a factorisation of one group gives: d = dimension of the bond before, d' = after *)
Definition pair_ok (d k : Z) (r : nd R) (tb tb' : tblock) : Prop :=
  fst tb' = fst tb /\ fst (snd tb') = fst (snd tb) /\ nshape (snd (snd tb')) = put k (rest (nshape (snd (snd tb)))) /\
  forall y ys, 0 <= y < d -> in_shape (rest (nshape (snd (snd tb)))) ys -> nget (snd (snd tb)) (put y ys) = bsum (zrange k) (fun z => nget (snd (snd tb')) (put z ys) *' nget r [z; y]).
Definition fac_ok (d : Z) (bs : list tblock) (f : list tblock * nd R) : Prop :=
  exists k, 0 < k /\ nshape (snd f) = [k; d] /\ Forall2 (pair_ok d k (snd f)) bs (fst f) /\
  forall z z', 0 <= z < k -> 0 <= z' < k ->
    bsum (fst f) (fun tb' => bsum (all_idx (rest (nshape (snd (snd tb'))))) (fun ys => cj (nget (snd (snd tb')) (put z ys)) *' nget (snd (snd tb')) (put z' ys))) = if z =? z' then 1' else 0'.

Variable T : list tblock.
Variable d : L -> Z.
Hypothesis Tshape : forall tb, In tb T -> exists rs, nshape (snd (snd tb)) = put (d (lab (fst (snd tb)))) rs /\ Forall (fun x => 0 < x) rs /\ 0 < d (lab (fst (snd tb))) /\ length (fst (snd tb)) = S (length rs).
Hypothesis Tnodup : NoDup (map (fun tb => (fst tb, fst (snd tb))) T).
Variable fac : L * list tblock -> list tblock * nd R.
Hypothesis facs : forall g, In g (collect R L lab T) -> fac_ok (d (fst g)) (snd g) (fac g).

Notation G := (collect R L lab T).
Definition out_blocks : list tblock := flat_map (fun g => fst (fac g)) G.
Definition new_dim (q : L) : Z := match dget (qeqb L) G q with Some bs => nth 0 (nshape (snd (fac (q, bs)))) 0 | None => 0 end.
Definition gauge_at (q : L) (z y : Z) : R := bsum G (fun g => if qeqb L (fst g) q then nget (snd (fac g)) [z; y] else 0').
(* the element of a list of tagged blocks *)
Definition gel (bs : list tblock) (o : bool) (sts : list state) : R :=
  bsum bs (fun tb => if Bool.eqb (fst tb) o && teqb (fst (snd tb)) (map fst sts) then nget (snd (snd tb)) (map snd sts) else 0').

Lemma new_dim_in : forall q bs, In (q, bs) G -> 0 < new_dim q /\ nshape (snd (fac (q, bs))) = [new_dim q; d q].
Proof.
  intros q bs H. destruct (facs _ H) as (k & Hk & Es & _). cbn [fst snd] in *. unfold new_dim. rewrite (in_dget _ (qeqb_spec L) _ _ _ (collect_nodup lab T) H), Es. split; [exact Hk|reflexivity].
Qed.
Lemma new_dim_pos : forall q, In q (map (fun tb : tblock => lab (fst (snd tb))) T) -> 0 < new_dim q.
Proof. intros q H. apply in_map_iff in H. destruct H as (tb & <- & H). assert (K: In (lab (fst (snd tb))) (keys G)) by (apply collect_key; eauto). apply in_map_iff in K. destruct K as ((q & bs) & Eq & K). cbn [fst] in Eq. rewrite <- Eq. now apply (new_dim_in q bs). Qed.
Lemma out_perm : Permutation (map (fun tb => (fst tb, fst (snd tb))) out_blocks) (map (fun tb => (fst tb, fst (snd tb))) T).
Proof.
  rewrite <- (Permutation_map (fun tb : tblock => (fst tb, fst (snd tb))) (collect_perm lab T)). unfold out_blocks. assert (H: forall g, In g G -> fac_ok (d (fst g)) (snd g) (fac g)) by exact facs. revert H. generalize G. induction d0 as [|g l IH]; intros H; [constructor|]. cbn [flat_map]. rewrite !map_app. apply Permutation_app; [|apply IH; intros; apply H; now right].
  destruct (H g (or_introl eq_refl)) as (k & _ & _ & F & _). apply Permutation_refl'. clear - F. induction F as [|x y l m [E1 [E2 _]] F IH]; [reflexivity|]. cbn [map]. now rewrite E1, E2, IH.
Qed.
Lemma out_in : forall tb', In tb' out_blocks -> exists tb, In tb T /\ fst tb' = fst tb /\ fst (snd tb') = fst (snd tb) /\ nshape (snd (snd tb')) = put (new_dim (lab (fst (snd tb)))) (rest (nshape (snd (snd tb)))).
Proof.
  intros tb' H. unfold out_blocks in H. apply in_flat_map in H. destruct H as ((q & bs) & Hg & H). destruct (facs _ Hg) as (k & Hk & Es & F & _). cbn [fst snd] in *.
  assert (E: exists tb, In tb bs /\ pair_ok (d q) k (snd (fac (q, bs))) tb tb'). { clear - F H. revert F. generalize (snd (fac (q, bs))). intros r0' F. induction F as [|x y l m P F IH]; [destruct H|]. destruct H as [->|H]; [exists x; split; [now left|exact P]|]. destruct (IH H) as (tb & ? & ?). exists tb. split; [now right|assumption]. }
  destruct E as (tb & Hb & E1 & E2 & E3 & _). exists tb. pose proof Hg as Hg'. apply collect_in in Hg. destruct Hg as [Eb _]. rewrite Eb in Hb. apply filter_In in Hb. destruct Hb as [Hb Lb]. destruct (qeqb_spec L (lab (fst (snd tb))) q) as [Eq|]; [|discriminate].
  split; [exact Hb|]. split; [exact E1|]. split; [exact E2|]. rewrite E3, Eq. f_equal. destruct (new_dim_in q bs Hg') as [_ En]. rewrite Es in En. injection En as <-. reflexivity.
Qed.

Lemma group_sum : forall (h : tblock -> R) q, (forall tb, In tb T -> lab (fst (snd tb)) <> q -> h tb = 0') ->
  bsum T h = match dget (qeqb L) G q with Some bs => bsum bs h | None => 0' end.
Proof.
  intros h q H. rewrite collect_get. transitivity (bsum (filter (fun b : tblock => qeqb L (lab (fst (snd b))) q) T) h).
  - rewrite bsum_filter. apply bsum_ext. intros tb Hb. destruct (qeqb_spec L (lab (fst (snd tb))) q); [reflexivity|now apply H].
  - destruct (filter _ T); [now rewrite bsum_nil|reflexivity].
Qed.
Lemma out_group_sum : forall (h : tblock -> R) q, (forall tb, In tb out_blocks -> lab (fst (snd tb)) <> q -> h tb = 0') ->
  bsum out_blocks h = match dget (qeqb L) G q with Some bs => bsum (fst (fac (q, bs))) h | None => 0' end.
Proof.
  intros h q H. unfold out_blocks. rewrite bsum_flat_map.
  assert (Z0: forall g, In g G -> fst g <> q -> bsum (fst (fac g)) h = 0').
  { intros [q' bs] Hg N. cbn [fst] in N. apply bsum_zero. intros tb' Hb'. apply H; [unfold out_blocks; apply in_flat_map; eauto|]. destruct (facs _ Hg) as (k & _ & _ & F & _). cbn [fst snd] in F.
    assert (E: exists tb, In tb bs /\ fst (snd tb') = fst (snd tb)). { clear - F Hb'. induction F as [|x y l m P F IH]; [destruct Hb'|]. destruct Hb' as [->|Hb']; [exists x; split; [now left|apply P]|]. destruct (IH Hb') as (tb & ? & ?). exists tb. split; [now right|assumption]. }
    destruct E as (tb & Hb & E). rewrite E. apply collect_in in Hg. destruct Hg as [-> _]. apply filter_In in Hb. destruct Hb as [_ Hb]. destruct (qeqb_spec L (lab (fst (snd tb))) q'); [congruence|discriminate]. }
  destruct (dget (qeqb L) G q) as [bs|] eqn:Eg.
  - apply (dget_in _ (qeqb_spec L)) in Eg. rewrite (bsum_single R _ G _ (q, bs)); [reflexivity| |exact Eg|].
    + apply (NoDup_map_inv fst). apply (collect_nodup lab T).
    + intros [q' bs'] Hg N. apply Z0; [exact Hg|]. cbn [fst]. intros ->. apply N. f_equal. apply collect_in in Hg, Eg. destruct Hg, Eg. congruence.
  - apply bsum_zero. intros g Hg. apply Z0; [exact Hg|]. intros E. apply (dget_none _ (qeqb_spec L)) in Eg. apply Eg. apply in_map_iff. exists g. auto.
Qed.
Lemma gauge_get : forall q z y, gauge_at q z y = match dget (qeqb L) G q with Some bs => nget (snd (fac (q, bs))) [z; y] | None => 0' end.
Proof.
  intros q z y. unfold gauge_at. destruct (dget (qeqb L) G q) as [bs|] eqn:Eg.
  - apply (dget_in _ (qeqb_spec L)) in Eg. rewrite (bsum_single R _ G _ (q, bs)); [cbn [fst]; destruct (qeqb_spec L q q); [reflexivity|congruence]| |exact Eg|].
    + apply (NoDup_map_inv fst). apply (collect_nodup lab T).
    + intros [q' bs'] Hg N. cbn [fst]. destruct (qeqb_spec L q' q) as [->|]; [|reflexivity]. destruct N. f_equal. apply collect_in in Hg, Eg. destruct Hg, Eg. congruence.
  - apply bsum_zero. intros g Hg. destruct (qeqb_spec L (fst g) q) as [E|]; [|reflexivity]. apply (dget_none _ (qeqb_spec L)) in Eg. destruct Eg. apply in_map_iff. exists g. auto.
Qed.

Lemma gel_lab : forall bs o (q : L) y (c : list state) tb, In tb bs -> lab (fst (snd tb)) <> q ->
  (if Bool.eqb (fst tb) o && teqb (fst (snd tb)) (map fst (put (q, y) c)) then nget (snd (snd tb)) (map snd (put (q, y) c)) else 0') = 0'.
Proof. intros bs o q y c tb _ N. destruct (Bool.eqb (fst tb) o); [|reflexivity]. cbn [andb]. destruct (tspec (fst (snd tb)) (map fst (put (q, y) c))) as [E|]; [|reflexivity]. rewrite put_map in E. cbn [fst] in E. rewrite E, lab_put in N. congruence. Qed.

(* the factorisation, element by element *)
Lemma core_factor : forall o (c : list state) q y, gel T o (put (q, y) c) = bsum (zrange (new_dim q)) (fun z => gel out_blocks o (put (q, z) c) *' gauge_at q z y).
Proof.
  intros o c q y. unfold gel. rewrite (group_sum _ q) by (intros tb Hb N; now apply (gel_lab T)).
  rewrite (bsum_ext R _ (zrange (new_dim q)) _ (fun z => match dget (qeqb L) G q with Some bs => bsum (fst (fac (q, bs))) (fun tb => if Bool.eqb (fst tb) o && teqb (fst (snd tb)) (map fst (put (q, z) c)) then nget (snd (snd tb)) (map snd (put (q, z) c)) else 0') *' nget (snd (fac (q, bs))) [z; y] | None => 0' end)).
  2:{ intros z _. rewrite (out_group_sum _ q) by (intros tb Hb N; now apply (gel_lab out_blocks)). rewrite gauge_get. destruct (dget (qeqb L) G q); [reflexivity|ring]. }
  destruct (dget (qeqb L) G q) as [bs|] eqn:Eg; [|symmetry; now apply bsum_zero].
  apply (dget_in _ (qeqb_spec L)) in Eg. destruct (new_dim_in q bs Eg) as [Hk Es]. destruct (facs _ Eg) as (k & _ & Es' & F & _). cbn [fst snd] in *. rewrite Es' in Es. injection Es as ->.
  assert (Hb: forall tb, In tb bs -> In tb T /\ lab (fst (snd tb)) = q). { intros tb H. apply collect_in in Eg. destruct Eg as [-> _]. apply filter_In in H. destruct H as [H1 H2]. split; [exact H1|]. destruct (qeqb_spec L (lab (fst (snd tb))) q); [assumption|discriminate]. }
  destruct (Z_le_dec 0 y) as [Hy0|Hy0]; [destruct (Z_lt_dec y (d q)) as [Hy1|Hy1]|].
  2,3: assert (Out: forall tb, In tb bs -> nget (snd (snd tb)) (map snd (put (q, y) c)) = 0') by
     (intros tb H; destruct (Hb tb H) as [H1 H2]; destruct (Tshape tb H1) as (rs & Er & _); apply nget_out; rewrite Er, put_map, put_shape, H2; cbn [snd]; lia);
     rewrite (bsum_zero R _ bs) by (intros tb H; rewrite (Out tb H); now destruct (_ && _)); symmetry; apply bsum_zero; intros z _;
     rewrite (nget_out _ (snd (fac (q, bs)))); [ring|]; rewrite Es'; intros X; inversion X as [|? ? ? ? _ X']; subst; inversion X' as [|? ? ? ? X'']; subst; lia.
  rewrite (bsum_ext R _ (zrange (new_dim q)) _ (fun z => bsum (combine bs (fst (fac (q, bs)))) (fun p => if Bool.eqb (fst (fst p)) o && teqb (fst (snd (fst p))) (put q (map fst c)) then nget (snd (snd (snd p))) (put z (map snd c)) *' nget (snd (fac (q, bs))) [z; y] else 0'))).
  - rewrite bsum_swap. clear Eg Es'. revert F. generalize (fst (fac (q, bs))), (snd (fac (q, bs))). intros m0 r F. induction F as [|tb tb' l m P F IH]; [now rewrite !bsum_nil|]. cbn [combine]. rewrite !bsum_cons. rewrite <- IH by (intros; apply Hb; now right). f_equal. cbn [fst snd]. rewrite !put_map. cbn [fst snd].
    destruct (Bool.eqb (fst tb) o && teqb (fst (snd tb)) (put q (map fst c))); [|symmetry; apply bsum_zero; reflexivity].
    destruct P as (_ & _ & Sh & P). destruct (Hb tb (or_introl eq_refl)) as [H1 H2]. destruct (Tshape tb H1) as (rs & Er & _). rewrite Er, rest_put in Sh, P. destruct (in_shapeb rs (map snd c)) eqn:Ei.
    + apply in_shapeb_spec in Ei. now apply P.
    + assert (~ in_shape rs (map snd c)) by (rewrite <- in_shapeb_spec; congruence). rewrite nget_out by (rewrite Er, put_shape; tauto). symmetry. apply bsum_zero. intros z _. rewrite nget_out by (rewrite Sh, put_shape; tauto). ring.
  - intros z _. rewrite <- bsum_mulr. rewrite !put_map. cbn [fst snd]. clear - F. revert F. generalize (fst (fac (q, bs))), (snd (fac (q, bs))). intros m0 r F. induction F as [|tb tb' l m P F IH]; [now rewrite !bsum_nil|]. cbn [combine]. rewrite !bsum_cons, IH. f_equal. destruct P as (E1 & E2 & _). cbn [fst snd]. rewrite E1, E2. destruct (_ && _); ring.
Qed.

(* orthonormality of the factors *)
Lemma gel_in : forall tb' sts, In tb' out_blocks -> map fst sts = fst (snd tb') -> gel out_blocks (fst tb') sts = nget (snd (snd tb')) (map snd sts).
Proof.
  intros tb' sts H E. assert (N: NoDup (map (fun tb : tblock => (fst tb, fst (snd tb))) out_blocks)) by (apply (Permutation_NoDup (Permutation_sym out_perm)); exact Tnodup).
  unfold gel. rewrite (bsum_single R _ out_blocks _ tb'); [| |exact H|].
  - rewrite eqb_reflx, E. destruct (tspec (fst (snd tb')) (fst (snd tb'))); [reflexivity|congruence].
  - now apply NoDup_map_inv in N.
  - intros x Hx Nx. destruct (Bool.eqb (fst x) (fst tb')) eqn:Eo; [|reflexivity]. cbn [andb]. destruct (tspec (fst (snd x)) (map fst sts)) as [Ex|]; [|reflexivity]. destruct Nx. apply eqb_prop in Eo. rewrite E in Ex.
    clear - N Hx H Eo Ex. revert N Hx H. generalize out_blocks. induction l as [|a l IH]; intros N Hx H; [destruct H|]. cbn [map] in N. inversion N as [|? ? N1 N2]; subst. destruct Hx as [->|Hx], H as [->|H]; [reflexivity| | |now apply IH].
    + destruct N1. apply in_map_iff. exists tb'. split; [now rewrite Eo, Ex|exact H].
    + destruct N1. apply in_map_iff. exists x. split; [now rewrite Eo, Ex|exact Hx].
Qed.
Lemma gel_zero : forall o sts, (forall tb', In tb' out_blocks -> fst tb' = o -> fst (snd tb') = map fst sts -> ~ in_shape (nshape (snd (snd tb'))) (map snd sts)) -> gel out_blocks o sts = 0'.
Proof.
  intros o sts H. unfold gel. apply bsum_zero. intros tb Hb. destruct (Bool.eqb (fst tb) o) eqn:Eo; [|reflexivity]. cbn [andb]. destruct (tspec (fst (snd tb)) (map fst sts)) as [Ex|]; [|reflexivity]. apply nget_out. apply H; auto. now apply eqb_prop.
Qed.
Definition state_dec : forall a b : state, {a = b} + {a <> b}.
Proof. intros [p x] [q y]. destruct (qeqb_spec L p q) as [->|N]; [|right; congruence]. destruct (Z.eq_dec x y) as [->|N]; [now left|right; congruence]. Defined.
Definition pstate_dec : forall a b : bool * list state, {a = b} + {a <> b}.
Proof. intros [p x] [q y]. destruct (bool_dec p q) as [->|N]; [|right; congruence]. destruct (list_eq_dec state_dec x y) as [->|N]; [now left|right; congruence]. Defined.

Hypothesis Tdet : forall tb tb2 q q' l, In tb T -> In tb2 T -> fst tb = fst tb2 -> fst (snd tb) = put q l -> fst (snd tb2) = put q' l -> q = q'.
Lemma map_fst_combine : forall A B (a : list A) (b : list B), length a = length b -> map fst (combine a b) = a.
Proof. intros A B. induction a as [|x a IH]; intros [|y b] E; try discriminate; [reflexivity|]. cbn. now rewrite IH by auto. Qed.
Lemma map_snd_combine : forall A B (a : list A) (b : list B), length a = length b -> map snd (combine a b) = b.
Proof. intros A B. induction a as [|x a IH]; intros [|y b] E; try discriminate; [reflexivity|]. cbn. now rewrite IH by auto. Qed.
Lemma combine_fst_snd : forall A B (c : list (A * B)), combine (map fst c) (map snd c) = c.
Proof. intros A B. induction c as [|[x y] c IH]; [reflexivity|]. cbn. now rewrite IH. Qed.

Lemma out_shape : forall tb', In tb' out_blocks -> exists q l rs, fst (snd tb') = put q l /\ nshape (snd (snd tb')) = put (new_dim q) rs /\ length l = length rs /\ Forall (fun x => 0 < x) rs /\ In q (map (fun tb : tblock => lab (fst (snd tb))) T).
Proof.
  intros tb' H. destruct (out_in tb' H) as (tb & Hb & _ & E2 & E3). destruct (Tshape tb Hb) as (rs & Er & P & _ & Ln). rewrite Er, rest_put in E3. destruct (put_ex _ (fst (snd tb))) as (q & l & El); [destruct (fst (snd tb)); [discriminate|congruence]|].
  exists q, l, rs. rewrite E2, E3, El, lab_put. repeat split; auto. - rewrite El, put_len in Ln. congruence. - apply in_map_iff. exists tb. now rewrite El, lab_put.
Qed.
Lemma core_isometry : forall q q' z z' X, 0 <= z < new_dim q -> 0 <= z' < new_dim q' -> NoDup X ->
  (forall o c q z, ~ In (o, c) X -> gel out_blocks o (put (q, z) c) = 0') ->
  bsum X (fun oc => cj (gel out_blocks (fst oc) (put (q, z) (snd oc))) *' gel out_blocks (fst oc) (put (q', z') (snd oc))) = if qeqb L q q' && (z =? z') then 1' else 0'.
Proof.
  intros q q' z z' X Hz Hz' NX CX. destruct (qeqb_spec L q q') as [<-|Nq]; cbn [andb].
  - set (Y := flat_map (fun tb' : tblock => map (fun ys => (fst tb', combine (rest (fst (snd tb'))) ys)) (all_idx (rest (nshape (snd (snd tb'))))))
       (match dget (qeqb L) G q with Some bs => fst (fac (q, bs)) | None => [] end)).
    destruct (dget (qeqb L) G q) as [bs|] eqn:Eg; [|unfold new_dim in Hz; rewrite Eg in Hz; lia]. apply (dget_in _ (qeqb_spec L)) in Eg.
    destruct (new_dim_in q bs Eg) as [Hk Es]. destruct (facs _ Eg) as (k & _ & Es' & F & I). cbn [fst snd] in *. rewrite Es' in Es. injection Es as ->.
    assert (Sub: forall tb', In tb' (fst (fac (q, bs))) -> In tb' out_blocks) by (intros tb' H; unfold out_blocks; apply in_flat_map; exists (q, bs); auto).
    assert (Lb: forall tb', In tb' (fst (fac (q, bs))) -> lab (fst (snd tb')) = q).
    { intros tb' H. assert (E: exists tb, In tb bs /\ fst (snd tb') = fst (snd tb)). { clear - F H. revert F. generalize (snd (fac (q, bs))). intros r0' F. induction F as [|x y l m P F IH]; [destruct H|]. destruct H as [->|H]; [exists x; split; [now left|apply P]|]. destruct (IH H) as (tb & ? & ?). exists tb. split; [now right|assumption]. }
      destruct E as (tb & Hb & E). rewrite E. apply collect_in in Eg. destruct Eg as [-> _]. apply filter_In in Hb. destruct Hb as [_ Hb]. destruct (qeqb_spec L (lab (fst (snd tb))) q); [assumption|discriminate]. }
    assert (Nk: NoDup (map (fun tb : tblock => (fst tb, fst (snd tb))) (fst (fac (q, bs))))).
    { assert (N: NoDup (map (fun tb : tblock => (fst tb, fst (snd tb))) out_blocks)) by (apply (Permutation_NoDup (Permutation_sym out_perm)); exact Tnodup). revert N. apply in_split in Eg. destruct Eg as (g1 & g2 & Eg). unfold out_blocks. rewrite Eg, flat_map_app. cbn [flat_map]. rewrite !map_app. intros N. apply nodup_app in N. destruct N as (_ & N & _). apply nodup_app in N. tauto. }
    assert (NY: NoDup Y).
    { unfold Y. clear - Nk Sub Lb rest_put put_ex lab_put put_inj put_len Tshape facs. revert Nk Sub Lb. generalize (fst (fac (q, bs))). induction l as [|tb' l IH]; intros Nk Sub Lb; [constructor|]. cbn [flat_map]. cbn [map] in Nk. inversion Nk as [|? ? N1 N2]; subst. destruct (out_shape tb' (Sub tb' (or_introl eq_refl))) as (p & m & rs & Ep & En & Lm & Pos & _).
      apply nodup_app. split; [|split].
      - rewrite En, Ep, !rest_put. apply nodup_map_in; [|apply all_idx_nodup; apply (Forall_impl _ (P := fun x => 0 < x)); [intros; lia|exact Pos]]. intros ys ys' H1 H2 E. injection E as E. apply in_all_idx in H1, H2. apply in_shape_length in H1, H2. rewrite <- (map_snd_combine _ _ m ys), <- (map_snd_combine _ _ m ys') by congruence. now rewrite E.
      - apply IH; auto; intros; [apply Sub|apply Lb]; now right.
      - intros x H1 H2. apply N1. apply in_map_iff in H1. destruct H1 as (ys & <- & Hys). apply in_flat_map in H2. destruct H2 as (tb2 & Ht2 & H2). apply in_map_iff in H2. destruct H2 as (ys2 & E2 & Hys2).
        destruct (out_shape tb2 (Sub tb2 (or_intror Ht2))) as (p2 & m2 & rs2 & Ep2 & En2 & Lm2 & _). pose proof (Lb tb' (or_introl eq_refl)) as L1. pose proof (Lb tb2 (or_intror Ht2)) as L2. rewrite Ep, lab_put in L1. rewrite Ep2, lab_put in L2. subst p p2.
        rewrite Ep, Ep2, !rest_put in E2. rewrite En, rest_put in Hys. rewrite En2, rest_put in Hys2. apply in_all_idx in Hys, Hys2. apply in_shape_length in Hys, Hys2. injection E2 as Eo Ec. apply in_map_iff. exists tb2. split; [|exact Ht2]. rewrite Eo, Ep, Ep2. do 2 f_equal. rewrite <- (map_fst_combine _ _ m ys), <- (map_fst_combine _ _ m2 ys2) by congruence. now rewrite Ec. }
    rewrite (bsum_cover R _ pstate_dec X Y); [|exact NX|exact NY| |].
    + unfold Y. rewrite bsum_flat_map. rewrite <- (I z z' Hz Hz'). apply bsum_ext. intros tb' H. rewrite bsum_map. apply bsum_ext. intros ys Hys. cbn [fst snd].
      destruct (out_shape tb' (Sub tb' H)) as (p & m & rs & Ep & En & Lm & Pos & _). pose proof (Lb tb' H) as L1. rewrite Ep, lab_put in L1. subst p. rewrite Ep, rest_put. rewrite En, rest_put in Hys. apply in_all_idx in Hys. apply in_shape_length in Hys.
      rewrite !gel_in; auto; rewrite put_map; cbn [fst snd]; rewrite ?map_fst_combine by congruence; auto. rewrite put_map. cbn [snd]. now rewrite map_snd_combine by congruence.
    + intros [o c] N. cbn [fst snd]. rewrite (CX o c q z N), cj0. ring.
    + intros [o c] N. cbn [fst snd]. rewrite (gel_zero o (put (q, z) c)); [rewrite cj0; ring|]. intros tb' H Eo Ek Sh. apply N. unfold Y. apply in_flat_map. exists tb'.
      rewrite put_map in Ek, Sh. cbn [fst snd] in Ek, Sh. destruct (out_shape tb' H) as (p & m & rs & Ep & En & Lm & Pos & _). rewrite Ep in Ek. apply put_inj in Ek. destruct Ek as [-> ->]. rewrite En, put_shape in Sh. destruct Sh as [_ Sh]. split.
      * unfold out_blocks in H. apply in_flat_map in H. destruct H as ((q2 & bs2) & Hg & H). destruct (facs _ Hg) as (k2 & _ & _ & F2 & _); cbn [fst snd] in *.
        assert (E: exists tb, In tb bs2 /\ fst (snd tb') = fst (snd tb)) by (clear - F2 H; revert F2; generalize (snd (fac (q2, bs2))); intros r0' F; induction F as [|x y l m' P F IH]; [destruct H|]; destruct H as [->|H]; [exists x; split; [now left|apply P]|]; destruct (IH H) as (tb & ? & ?); exists tb; split; [now right|assumption]).
        destruct E as (tb & Hb & E). pose proof Hg as Hg'. apply collect_in in Hg'. destruct Hg' as [Eb2 _]. rewrite Eb2 in Hb. apply filter_In in Hb. destruct Hb as [_ Hb]. destruct (qeqb_spec L (lab (fst (snd tb))) q2) as [Eq|]; [|discriminate]. rewrite <- E, Ep, lab_put in Eq. subst q2.
        replace bs with bs2; [exact H|]. apply collect_in in Hg, Eg. destruct Hg, Eg. congruence.
      * apply in_map_iff. exists (map snd c). rewrite Ep, En, !rest_put, Eo, combine_fst_snd. split; [reflexivity|]. now apply in_all_idx.
  - apply bsum_zero. intros [o c] _. cbn [fst snd]. destruct (existsb (fun tb' : tblock => Bool.eqb (fst tb') o && teqb (fst (snd tb')) (put q (map fst c))) out_blocks) eqn:E1.
    + rewrite (gel_zero o (put (q', z') c)); [ring|]. intros tb2 H2 Eo2 Ek2 _. apply existsb_exists in E1. destruct E1 as (tb1 & H1 & E1). apply andb_prop in E1. destruct E1 as [Eo1 Ek1]. apply eqb_prop in Eo1. destruct (tspec (fst (snd tb1)) (put q (map fst c))) as [Ek|]; [|discriminate].
      rewrite put_map in Ek2. cbn [fst] in Ek2. destruct (out_in tb1 H1) as (t1 & Ht1 & A1 & B1 & _). destruct (out_in tb2 H2) as (t2 & Ht2 & A2 & B2 & _). apply Nq. apply (Tdet t1 t2 q q' (map fst c)); congruence.
    + rewrite (gel_zero o (put (q, z) c)); [rewrite cj0; ring|]. intros tb1 H1 Eo1 Ek1 _. assert (existsb (fun tb' : tblock => Bool.eqb (fst tb') o && teqb (fst (snd tb')) (put q (map fst c))) out_blocks = true); [|congruence]. apply existsb_exists. exists tb1. split; [exact H1|]. rewrite Eo1, eqb_reflx, Ek1, put_map. cbn [fst andb]. destruct (tspec (put q (map fst c)) (put q (map fst c))); congruence.
Qed.
End Core.

(** *** matrices stacked and split again *)
Section Rows.
Variable R : CRing.
Add Ring Rr21 : (rth R).
Notation "0'" := (r0 R). Notation "1'" := (r1 R).
Infix "*'" := (rmul R) (at level 40, left associativity).
Lemma in_shape2 : forall m n x y, in_shape [m; n] [x; y] <-> 0 <= x < m /\ 0 <= y < n.
Proof. intros. split; [intros H; inversion H as [|? ? ? ? H1 H2]; subst; inversion H2; subst; auto|intros [H1 H2]; repeat constructor; lia]. Qed.
Lemma nget_slice0 : forall (Q : nd R) N kk k n x z, nshape Q = [N; kk] -> 0 <= k -> k + n <= N -> nshape (nd_slice 0 k n Q) = [n; kk] /\ (0 <= x < n -> nget (nd_slice 0 k n Q) [x; z] = nget Q [k + x; z]).
Proof.
  intros Q N kk k n x z E Hk Hn. split; [cbn [nd_slice nshape]; rewrite E; reflexivity|]. intros Hx. pose proof (nget_slice R Q [] N [kk] k n [] x [z] E Hk Hn eq_refl) as H. cbn [length app] in H. rewrite H. destruct (Z.leb_spec 0 x), (Z.ltb_spec x n); try lia. reflexivity.
Qed.
Lemma split_one : forall (Q : nd R) N kk k n, nshape Q = [N; kk] -> k + n = N -> split_rows R k [n] Q = [nd_slice 0 k n Q].
Proof. intros Q N kk k n E H. cbn [split_rows]. unfold rows_of. rewrite E. cbn [nth]. do 2 f_equal. lia. Qed.
Lemma split_cons : forall (Q : nd R) N kk k n ns, nshape Q = [N; kk] -> k + (n + zsum ns) = N -> split_rows R k (n :: ns) Q = nd_slice 0 k n Q :: split_rows R (k + n) ns Q.
Proof. intros Q N kk k n [|m ns] E H; [|reflexivity]. rewrite (split_one Q N kk) by (auto; cbn in H; lia). reflexivity. Qed.
Definition row_pair (d kk : Z) (Rm m p : nd R) : Prop :=
  nshape p = [rows_of R m; kk] /\ forall x y, 0 <= x < rows_of R m -> 0 <= y < d -> nget m [x; y] = bsum (zrange kk) (fun z => nget p [x; z] *' nget Rm [z; y]).
Lemma rows_join : forall (Q Rm : nd R) N kk d ms k0, nshape Q = [N; kk] -> 0 <= k0 -> k0 + zsum (map (rows_of R) ms) = N -> (forall m, In m ms -> nshape m = [rows_of R m; d] /\ 0 < rows_of R m) ->
  (forall x y, 0 <= x < zsum (map (rows_of R) ms) -> 0 <= y < d -> cat_val 0 ms [x; y] = bsum (zrange kk) (fun z => nget Q [k0 + x; z] *' nget Rm [z; y])) ->
  Forall2 (row_pair d kk Rm) ms (split_rows R k0 (map (rows_of R) ms) Q) /\
  forall F : R -> R -> R, forall z z', bsum (split_rows R k0 (map (rows_of R) ms) Q) (fun p => bsum (zrange (rows_of R p)) (fun x => F (nget p [x; z]) (nget p [x; z']))) = bsum (zrange (zsum (map (rows_of R) ms))) (fun x => F (nget Q [k0 + x; z]) (nget Q [k0 + x; z'])).
Proof.
  intros Q Rm N kk d. induction ms as [|m ms IH]; intros k0 EQ H0 HN Hs Hv.
  - cbn [map split_rows zsum fold_right]. split; [constructor|]. intros. reflexivity.
  - cbn [map] in *. rewrite zsum_cons in *. destruct (Hs m (or_introl eq_refl)) as [Em Pm].
    assert (Zn: 0 <= zsum (map (rows_of R) ms)). { apply zsum_nonneg. intros x Hx. apply in_map_iff in Hx. destruct Hx as (m' & <- & Hm'). destruct (Hs m' (or_intror Hm')). lia. }
    rewrite (split_cons Q N kk) by (auto; lia).
    destruct (IH (k0 + rows_of R m) EQ) as [IH1 IH2]; [lia|lia|intros; apply Hs; now right| |].
    { intros x y Hx Hy. specialize (Hv (rows_of R m + x) y ltac:(lia) Hy). cbn [cat_val nth upd] in Hv. fold (rows_of R m) in Hv. destruct (Z.ltb_spec (rows_of R m + x) (rows_of R m)); [lia|]. replace (rows_of R m + x - rows_of R m) with x in Hv by lia. change (upd 0 x [rows_of R m + x; y]) with [x; y] in Hv. rewrite Hv. apply bsum_ext. intros z _. now rewrite Z.add_assoc. }
    split.
    + constructor; [|exact IH1]. split; [apply (nget_slice0 Q N kk k0 _ 0 0); auto; lia|]. intros x y Hx Hy. specialize (Hv x y ltac:(lia) Hy). cbn [cat_val nth] in Hv. fold (rows_of R m) in Hv. destruct (Z.ltb_spec x (rows_of R m)); [|lia].
      rewrite nget_in by (rewrite Em; apply in_shape2; lia). rewrite Hv. apply bsum_ext. intros z _. f_equal. symmetry. apply (nget_slice0 Q N kk k0 (rows_of R m) x z); auto; lia.
    + intros F z z'. rewrite bsum_cons, IH2. rewrite zrange_add by lia. rewrite bsum_app, bsum_map. f_equal.
      * unfold rows_of at 1. rewrite (proj1 (nget_slice0 Q N kk k0 (rows_of R m) 0 0 EQ H0 ltac:(lia))). cbn [nth]. apply bsum_ext. intros x Hx. apply in_zrange in Hx. rewrite !(proj2 (nget_slice0 Q N kk k0 (rows_of R m) x _ EQ H0 ltac:(lia)) Hx). reflexivity.
      * apply bsum_ext. intros x _. now rewrite !Z.add_assoc.
Qed.
Lemma concat_rows : forall ms d, ms <> [] -> (forall m, In m ms -> nshape m = [rows_of R m; d] /\ 0 < rows_of R m) -> nshape (nd_concat 0 ms) = [zsum (map (rows_of R) ms); d] /\ 0 < zsum (map (rows_of R) ms).
Proof.
  intros [|m ms] d N H; [congruence|]. destruct (H m (or_introl eq_refl)) as [E P]. split; [cbn [nd_concat nshape]; rewrite E; reflexivity|]. cbn [map]. rewrite zsum_cons.
  assert (0 <= zsum (map (rows_of R) ms)); [|lia]. apply zsum_nonneg. intros x Hx. apply in_map_iff in Hx. destruct Hx as (m' & <- & Hm'). destruct (H m' (or_intror Hm')). lia.
Qed.

(* what np.linalg.qr promises: a = q r with orthonormal columns of q; cj = complex conjugation *)
Definition exact_qr (cj : R -> R) (qr : nd R -> nd R * nd R) : Prop :=
  forall a m n, nshape a = [m; n] -> 0 < m -> 0 < n -> exists k, 0 < k /\ nshape (fst (qr a)) = [m; k] /\ nshape (snd (qr a)) = [k; n] /\
    (forall i j, 0 <= i < m -> 0 <= j < n -> nget a [i; j] = bsum (zrange k) (fun z => nget (fst (qr a)) [i; z] *' nget (snd (qr a)) [z; j])) /\
    (forall z z', 0 <= z < k -> 0 <= z' < k -> bsum (zrange m) (fun i => cj (nget (fst (qr a)) [i; z]) *' nget (fst (qr a)) [i; z']) = if z =? z' then 1' else 0').
Lemma qr_rows : forall cj qr ms d, exact_qr cj qr -> 0 < d -> ms <> [] -> (forall m, In m ms -> nshape m = [rows_of R m; d] /\ 0 < rows_of R m) ->
  exists k, 0 < k /\ nshape (snd (qr (nd_concat 0 ms))) = [k; d] /\ Forall2 (row_pair d k (snd (qr (nd_concat 0 ms)))) ms (split_rows R 0 (map (rows_of R) ms) (fst (qr (nd_concat 0 ms)))) /\
  forall z z', 0 <= z < k -> 0 <= z' < k -> bsum (split_rows R 0 (map (rows_of R) ms) (fst (qr (nd_concat 0 ms)))) (fun p => bsum (zrange (rows_of R p)) (fun x => cj (nget p [x; z]) *' nget p [x; z'])) = if z =? z' then 1' else 0'.
Proof.
  intros cj qr ms d HQ Hd Nn Hs. destruct (concat_rows ms d Nn Hs) as [Es Ps]. destruct (HQ _ _ _ Es Ps Hd) as (k & Hk & E1 & E2 & Ef & Ei). exists k. split; [exact Hk|]. split; [exact E2|].
  destruct (rows_join (fst (qr (nd_concat 0 ms))) (snd (qr (nd_concat 0 ms))) _ k d ms 0 E1 ltac:(lia) ltac:(lia) Hs) as [J1 J2].
  - intros x y Hx Hy. cbn [Z.add]. rewrite <- Ef by auto. rewrite nget_in by (rewrite Es; apply in_shape2; lia). reflexivity.
  - split; [exact J1|]. intros z z' Hz Hz'. rewrite (J2 (fun a b => cj a *' b)). cbn [Z.add]. now apply Ei.
Qed.

(** *** the group factorisation *)
Variable L : Label.
Notation tblock := (bool * (list L * nd R))%type.
Variable put : forall A : Type, A -> list A -> list A.
Arguments put {A}.
Variable rest : forall A : Type, list A -> list A.
Arguments rest {A}.
Hypothesis rest_put : forall A (d : A) rs, rest (put d rs) = rs.
Variable mat : nd R -> nd R.
Variable back : nd R -> nd R -> Z -> nd R.
Hypothesis mat_ok : forall b d rs, nshape b = put d rs -> 0 < d -> Forall (fun x => 0 < x) rs -> nshape (mat b) = [prodZ rs; d] /\ forall y ys, in_shape rs ys -> nget (mat b) [ravel rs ys; y] = nget b (put y ys).
Hypothesis back_ok : forall p b d k rs, nshape b = put d rs -> 0 < d -> 0 < k -> Forall (fun x => 0 < x) rs -> nshape p = [prodZ rs; k] -> nshape (back p b k) = put k rs /\ forall z ys, in_shape rs ys -> nget (back p b k) (put z ys) = nget p [ravel rs ys; z].
Lemma combine_pairs : forall d kk Rm (bs : list tblock) ps, (forall tb, In tb bs -> exists rs, nshape (snd (snd tb)) = put d rs /\ Forall (fun x => 0 < x) rs) -> 0 < d -> 0 < kk ->
  Forall2 (row_pair d kk Rm) (map (fun b => mat (snd (snd b))) bs) ps ->
  Forall2 (pair_ok R L (@put) (@rest) d kk Rm) bs (map (fun pb => (fst (snd pb), (fst (snd (snd pb)), back (fst pb) (snd (snd (snd pb))) kk))) (combine ps bs)) /\
  forall (F : R -> R -> R) z z', bsum (map (fun pb => (fst (snd pb), (fst (snd (snd pb)), back (fst pb) (snd (snd (snd pb))) kk))) (combine ps bs)) (fun tb' : tblock => bsum (all_idx (rest (nshape (snd (snd tb'))))) (fun ys => F (nget (snd (snd tb')) (put z ys)) (nget (snd (snd tb')) (put z' ys))))
    = bsum ps (fun p => bsum (zrange (rows_of R p)) (fun x => F (nget p [x; z]) (nget p [x; z']))).
Proof.
  intros d kk Rm. induction bs as [|tb bs IH]; intros ps Hb Hd Hk F; cbn [map] in F; inversion F as [|? p ? ps' [P1 P2] F']; subst; cbn [combine map].
  - split; [constructor|reflexivity].
  - destruct (IH ps') as [I1 I2]; auto; [intros; apply Hb; now right|]. destruct (Hb tb (or_introl eq_refl)) as (rs & Er & Pos). destruct (mat_ok _ _ _ Er Hd Pos) as [M1 M2]. assert (Ern: rows_of R (mat (snd (snd tb))) = prodZ rs) by (unfold rows_of; now rewrite M1). rewrite Ern in *.
    destruct (back_ok p _ _ _ _ Er Hd Hk Pos P1) as [B1 B2]. cbn [fst snd]. split.
    + constructor; [|exact I1]. unfold pair_ok. cbn [fst snd]. repeat split; [rewrite B1, Er, rest_put; reflexivity|]. intros y ys Hy Hys. rewrite Er, rest_put in Hys. rewrite <- M2 by auto. rewrite P2 by (auto; now apply ravel_range). apply bsum_ext. intros z _. now rewrite B2.
    + intros G z z'. rewrite !bsum_cons, I2. f_equal. cbn [fst snd]. rewrite B1, rest_put. unfold rows_of. rewrite P1. cbn [nth]. rewrite <- all_idx_ravel by (apply (Forall_impl _ (P := fun x => 0 < x)); [intros; lia|exact Pos]). rewrite bsum_map. apply bsum_ext. intros ys Hys. apply in_all_idx in Hys. now rewrite !B2.
Qed.
Lemma factor_group_ok : forall cj qr d (g : L * list tblock), exact_qr cj qr -> snd g <> [] -> 0 < d -> (forall tb, In tb (snd g) -> exists rs, nshape (snd (snd tb)) = put d rs /\ Forall (fun x => 0 < x) rs) ->
  fac_ok R L (@put) (@rest) cj d (snd g) (factor_group R L qr mat back g).
Proof.
  intros cj qr d [q bs] HQ Nn Hd Hb. cbn [snd] in *. unfold factor_group. cbn [snd]. set (ms := map (fun b : tblock => mat (snd (snd b))) bs).
  destruct (qr_rows cj qr ms d HQ Hd) as (k & Hk & E2 & F & I); [now destruct bs|intros m Hm; apply in_map_iff in Hm; destruct Hm as (tb & <- & Ht); destruct (Hb tb Ht) as (rs & Er & Pos); destruct (mat_ok _ _ _ Er Hd Pos) as [M1 _]; unfold rows_of; rewrite M1; cbn [nth]; split; [reflexivity|now apply prodZ_pos]|].
  destruct (qr (nd_concat 0 ms)) as [Q r] eqn:EQ. cbn [fst snd] in *. exists k. cbn [fst snd]. split; [exact Hk|]. split; [exact E2|]. assert (Er: rows_of R r = k) by (unfold rows_of; now rewrite E2). rewrite Er.
  destruct (combine_pairs d k r bs _ Hb Hd Hk F) as [C1 C2]. split; [exact C1|]. intros z z' Hz Hz'. rewrite (C2 (fun a b => cj a *' b)). now apply I.
Qed.
End Rows.

(** *** the two ways of singling out a leg *)
Section Legs.
Variable R : CRing.
Definition put_last (A : Type) (x : A) (l : list A) : list A := l ++ [x].
Definition put_first (A : Type) (x : A) (l : list A) : list A := x :: l.
Definition rest_last (A : Type) (l : list A) : list A := removelast l.
Definition rest_first (A : Type) (l : list A) : list A := tl l.
Lemma left_mat_ok : forall (b : nd R) d rs, nshape b = put_last Z d rs -> 0 < d -> Forall (fun x => 0 < x) rs -> nshape (rows_left R b) = [prodZ rs; d] /\ forall y ys, in_shape rs ys -> nget (rows_left R b) [ravel rs ys; y] = nget b (put_last Z y ys).
Proof.
  intros b d rs E Hd Pos. unfold rows_left, put_last in *. rewrite E, removelast_last. pose proof (prodZ_pos _ Pos) as Hp. assert (Ed: prodZ (rs ++ [d]) / prodZ rs = d) by (rewrite prodZ_app; cbn [prodZ fold_right]; rewrite Z.mul_1_r, Z.mul_comm; apply Z.div_mul; lia).
  rewrite Ed. split; [reflexivity|]. intros y ys Hys. exact (nget_reshape_merge R b [] rs [d] [] ys [y] E Hys eq_refl).
Qed.
Lemma left_back_ok : forall (p b : nd R) d k rs, nshape b = put_last Z d rs -> 0 < d -> 0 < k -> Forall (fun x => 0 < x) rs -> nshape p = [prodZ rs; k] ->
  nshape (nd_reshape (removelast (nshape b) ++ [k]) p) = put_last Z k rs /\ forall z ys, in_shape rs ys -> nget (nd_reshape (removelast (nshape b) ++ [k]) p) (put_last Z z ys) = nget p [ravel rs ys; z].
Proof.
  intros p b d k rs E Hd Hk Pos Ep. unfold put_last in *. rewrite E, removelast_last. split; [reflexivity|]. intros z ys Hys. exact (nget_reshape_split R p [] rs [k] [] ys [z] Ep Hys eq_refl).
Qed.
Lemma nget_T : forall (a : nd R) m n x y, nshape a = [m; n] -> nshape (nd_T R a) = [n; m] /\ nget (nd_T R a) [y; x] = nget a [x; y].
Proof.
  intros a m n x y E. unfold nd_T. split; [cbn [nd_transpose nshape]; rewrite E; reflexivity|]. change [y; x] with (pick 0 [1; 0] [x; y]). apply (nget_transpose R 2); [apply perm_swap|rewrite E; reflexivity|reflexivity].
Qed.
Lemma right_mat_ok : forall (b : nd R) d rs, nshape b = put_first Z d rs -> 0 < d -> Forall (fun x => 0 < x) rs -> nshape (nd_T R (rows_right R b)) = [prodZ rs; d] /\ forall y ys, in_shape rs ys -> nget (nd_T R (rows_right R b)) [ravel rs ys; y] = nget b (put_first Z y ys).
Proof.
  intros b d rs E Hd Pos. unfold put_first in *. pose proof (prodZ_pos _ Pos) as Hp. assert (Es: nshape (rows_right R b) = [d; prodZ rs]) by (unfold rows_right; rewrite E; cbn [tl nshape nd_reshape]; do 1 f_equal; cbn [prodZ fold_right]; apply Z.div_mul; unfold prodZ in *; lia).
  split; [now apply (nget_T _ d (prodZ rs) 0 0)|]. intros y ys Hys. rewrite (proj2 (nget_T _ d (prodZ rs) y (ravel rs ys) Es)). change (rows_right R b) with (nd_reshape (nshape (rows_right R b)) b). rewrite Es. pose proof (nget_reshape_merge R b [d] rs [] [y] ys [] ltac:(rewrite E, app_nil_r; reflexivity) Hys eq_refl) as H. rewrite !app_nil_r in H. exact H.
Qed.
Lemma right_back_ok : forall (p b : nd R) d k rs, nshape b = put_first Z d rs -> 0 < d -> 0 < k -> Forall (fun x => 0 < x) rs -> nshape p = [prodZ rs; k] ->
  nshape (nd_reshape (k :: tl (nshape b)) (nd_T R p)) = put_first Z k rs /\ forall z ys, in_shape rs ys -> nget (nd_reshape (k :: tl (nshape b)) (nd_T R p)) (put_first Z z ys) = nget p [ravel rs ys; z].
Proof.
  intros p b d k rs E Hd Hk Pos Ep. unfold put_first in *. rewrite E. cbn [tl]. split; [reflexivity|]. intros z ys Hys. pose proof (nget_T p _ _ (ravel rs ys) z Ep) as [E1 E2]. rewrite <- E2.
  pose proof (nget_reshape_split R (nd_T R p) [k] rs [] [z] ys [] E1 Hys eq_refl) as H. rewrite !app_nil_r in H. exact H.
Qed.
End Legs.
