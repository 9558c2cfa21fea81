(** Lemmas for fuse and unfuse of block-sparse tensors. *)
From Coq Require Import ZArith Bool List Ascii Lia Permutation Sorting.Sorted Ring.
From Verif Require Import SymModel SymProofs DictLib IndexLib RingLib BondModel BondProofs FuseModel FuseProofs BlockModel BlockProofs StructModel StructProofs.
Import ListNotations.
Open Scope Z_scope.

Section FuseT.
Variable R : CRing.
Variable L : Label.
Add Ring RR4 : (rth R).
Notation block := (list L * nd R)%type.
Notation tensor := (list (list L * nd R)).
Notation finfo := (dict L Z * finfo_t L)%type.
Notation teqb := (tup_eqb L).
Notation tspec := (tup_eqb_spec L).
Notation ll := (q0 L).
Notation piece := (Z * Z * nd R)%type.
Notation koff g := (fst (fst g)).
Notation klen g := (snd (fst g)).

(** a fusing layout in which the states of the fused legs are numbered without overlap *)
Definition ents (info : finfo) (q : L) : list (list L * (Z * list Z)) := odflt [] (dget (qeqb L) (snd info) q).
Record layout_ok (info : finfo) (pat : list ascii) : Prop := {
  lo_keys : forall q, NoDup (map fst (ents info q));
  lo_sum : forall q sqs k sh, In (sqs, (k, sh)) (ents info q) -> signed_total L pat sqs = q;
  lo_range : forall q sqs k sh, In (sqs, (k, sh)) (ents info q) -> 0 <= k /\ k + prodZ sh <= bget L (fst info) q;
  lo_pos : forall q sqs k sh, In (sqs, (k, sh)) (ents info q) -> Forall (fun s => 0 < s) sh;
  lo_disj : forall q sqs k sh sqs' k' sh' i, In (sqs, (k, sh)) (ents info q) -> In (sqs', (k', sh')) (ents info q) ->
    k <= i < k + prodZ sh -> k' <= i < k' + prodZ sh' -> sqs = sqs';
  lo_dom : forall q, In q (keys (fst info)) -> In q (keys (snd info))
}.

(** ** unfuse *)
Lemma sp_unfuse_flat : forall i info t r, sp_unfuse R L i info t = Some r ->
  r = flat_map (fun b => odflt [] (unfuse_block R L i info b)) t /\ forall b, In b t -> unfuse_block R L i info b <> None.
Proof.
  induction t as [|b t IH]; intros r E; cbn [sp_unfuse] in E; [injection E as <-; split; [reflexivity|intros ? []]|].
  destruct (unfuse_block R L i info b) as [x|] eqn:Ex; [|discriminate]. destruct (sp_unfuse R L i info t) as [y|] eqn:Ey; [|discriminate].
  injection E as <-. destruct (IH y eq_refl) as [A B]. split.
  - cbn [flat_map]. rewrite Ex. cbn [odflt]. now f_equal.
  - intros b' [<-|H]; [congruence|auto].
Qed.
Lemma elem_flat_map : forall X (g : X -> tensor) t qs xs, elem R L (flat_map g t) qs xs = bsum t (fun b => elem R L (g b) qs xs).
Proof. intros. unfold elem. now rewrite bsum_flat_map. Qed.
Lemma app_inj_len : forall A (a b a' b' : list A), length a = length a' -> a ++ b = a' ++ b' -> a = a' /\ b = b'.
Proof.
  induction a as [|x a IH]; intros b [|x' a'] b' H E; cbn in *; try discriminate; auto.
  injection E as -> E. apply IH in E; [|lia]. destruct E as [-> ->]. auto.
Qed.
Lemma app_mid_inj : forall A (a b c a' b' c' : list A), length a = length a' -> length c = length c' ->
  a ++ b ++ c = a' ++ b' ++ c' -> a = a' /\ b = b' /\ c = c'.
Proof.
  intros A a b c a' b' c' La Lc E. apply app_inj_len in E; auto. destruct E as [-> E]. split; auto.
  assert (Lb: length b = length b') by (apply (f_equal (@length A)) in E; rewrite !app_length in E; lia).
  apply app_inj_len in E; auto.
Qed.
Lemma list_mid : forall A (d : A) i (l : list A), (i < length l)%nat -> exists pre x post, l = pre ++ x :: post /\ length pre = i /\ length post = (length l - 1 - i)%nat.
Proof.
  intros A d i l H. exists (firstn i l), (nth i l d), (skipn (S i) l). rewrite firstn_length, skipn_length. repeat split; try lia.
  rewrite <- (firstn_skipn i l) at 1. f_equal. apply skipn_nth. now apply nth_error_nth'.
Qed.

Lemma bsum_if_single : forall X (l : list X) (key : X -> list L) (f : X -> R) x, NoDup (map key l) -> In x l ->
  bsum l (fun e => if teqb (key e) (key x) then f e else r0 R) = f x.
Proof.
  induction l as [|e l IH]; intros key f x Hn Hx; [destruct Hx|]. cbn in Hn. inversion Hn; subst. rewrite bsum_cons. destruct Hx as [->|Hx].
  - rewrite (teqb_refl L). rewrite bsum_zero; [ring|]. intros y Hy. destruct (tspec (key y) (key x)) as [E|]; [|reflexivity].
    exfalso. apply H1. rewrite <- E. now apply in_map.
  - rewrite IH by auto. destruct (tspec (key e) (key x)) as [E|]; [|ring]. exfalso. apply H1. rewrite E. now apply in_map.
Qed.

Lemma ents_key : forall info q e, In e (ents info q) -> In q (keys (snd info)).
Proof.
  intros info q e H. unfold ents in H. destruct (dget (qeqb L) (snd info) q) eqn:E; [|destruct H].
  eapply dget_some_key; [apply qeqb_spec|exact E].
Qed.

Lemma ents_dom : forall info pat q e, layout_ok info pat -> In e (ents info q) -> In q (keys (fst info)).
Proof.
  intros info pat q [sqs [k sh]] OK H. pose proof (lo_range _ _ OK _ _ _ _ H) as Hk. pose proof (prodZ_pos _ (lo_pos _ _ OK _ _ _ _ H)) as Hp.
  unfold bget in Hk. destruct (dget (qeqb L) (fst info) q) eqn:E; [|cbn in Hk; lia]. eapply dget_some_key; [apply qeqb_spec|exact E].
Qed.
(* the blocks made from one block *)
Lemma unfuse_block_elem : forall i info pat n b r q sqs k sh pre post xp ys xq,
  layout_ok info pat -> length (fst b) = n -> length (nshape (snd b)) = n -> (i < n)%nat ->
  unfuse_block R L i info b = Some r -> In (sqs, (k, sh)) (ents info q) ->
  length pre = i -> length post = (n - 1 - i)%nat -> length xp = i -> length ys = length sh ->
  elem R L r (pre ++ sqs ++ post) (xp ++ ys ++ xq) =
  if teqb (fst b) (pre ++ q :: post) then (if in_shapeb sh ys then nget (snd b) (xp ++ (k + ravel sh ys) :: xq) else r0 R) else r0 R.
Proof.
  intros i info pat n b r q sqs k sh pre post xp ys xq OK Hl Hs Hi Eb He Lp Lo Lx Ly.
  destruct (list_mid L ll i (fst b)) as (bp & bq & bs & Efb & Lbp & Lbs); [lia|].
  destruct (list_mid Z 0 i (nshape (snd b))) as (a & m & c & Esh & La & Lc); [lia|].
  unfold unfuse_block in Eb. rewrite Efb, Esh in Eb. rewrite !nth_mid, !firstn_mid, !skipn_mid in Eb by auto.
  assert (Hq: In q (keys (fst info))) by (eapply ents_dom; eauto).
  rewrite Efb.
  destruct (dget (qeqb L) (fst info) bq) as [x|] eqn:Ex.
  - destruct (Z.eqb_spec m x) as [->|]; [|discriminate]. cbn [negb] in Eb.
    destruct (dget (qeqb L) (snd info) bq) as [es|] eqn:Ee; [|discriminate].
    assert (Ees: es = ents info bq) by (unfold ents; now rewrite Ee).
    injection Eb as <-. unfold elem. rewrite bsum_map.
    destruct (tspec (bp ++ bq :: bs) (pre ++ q :: post)) as [E|N].
    + apply app_inj_len in E; [|congruence]. destruct E as [-> E]. injection E as -> ->.
      assert (Hnk: k + prodZ sh <= x).
      { pose proof (lo_range _ _ OK _ _ _ _ He). unfold bget in H. rewrite Ex in H. lia. }
      pose proof (proj1 (lo_range _ _ OK _ _ _ _ He)) as Hk.
      rewrite bsum_ext with (g := fun e => if teqb (fst e) (fst (sqs, (k, sh))) then
         (if in_shapeb sh ys then nget (snd b) (xp ++ (k + ravel sh ys) :: xq) else r0 R) else r0 R).
      * rewrite <- Ees in He. rewrite bsum_if_single; auto. rewrite Ees. apply (lo_keys _ _ OK).
      * intros [sqs' [k' sh']] He'. cbn [fst snd]. destruct (tspec (pre ++ sqs' ++ post) (pre ++ sqs ++ post)) as [E|N].
        -- apply app_mid_inj in E; auto. destruct E as (_ & -> & _). rewrite (teqb_refl L).
           assert (Eq: (k', sh') = (k, sh)).
           { rewrite Ees in He'. pose proof (lo_keys _ _ OK q) as Nd.
             pose proof (in_dget teqb tspec (ents info q) _ _ Nd He'). pose proof (in_dget teqb tspec (ents info q) _ _ Nd He). congruence. }
           injection Eq as -> ->.
           destruct (in_shapeb sh ys) eqn:Ei.
           ++ apply in_shapeb_spec in Ei. rewrite nget_reshape_split; auto; try congruence.
              ** subst i. rewrite <- La. rewrite (nget_slice R (snd b) a x c); auto; try congruence.
                 pose proof (ravel_range _ _ Ei). destruct (Z.leb_spec 0 (ravel sh ys)), (Z.ltb_spec (ravel sh ys) (prodZ sh)); try lia. reflexivity.
              ** cbn [nshape nd_slice]. rewrite Esh. now apply upd_app.
           ++ apply nget_out. cbn [nshape nd_reshape]. rewrite in_shape_mid3 by congruence. rewrite <- (in_shapeb_spec sh), Ei. intros (_ & ? & _). discriminate.
        -- destruct (tspec sqs' sqs) as [->|]; [exfalso; now apply N|reflexivity].
    + apply bsum_zero. intros [sqs' [k' sh']] He'. cbn [fst snd]. destruct (tspec (bp ++ sqs' ++ bs) (pre ++ sqs ++ post)) as [E|]; [|reflexivity].
      exfalso. apply N. apply app_mid_inj in E; [|congruence|lia]. destruct E as (-> & -> & ->). f_equal. f_equal.
      rewrite Ees in He'. apply (lo_sum _ _ OK) in He'. apply (lo_sum _ _ OK) in He. congruence.
  - injection Eb as <-. destruct (tspec (bp ++ bq :: bs) (pre ++ q :: post)) as [E|]; [|reflexivity].
    exfalso. apply app_inj_len in E; [|congruence]. destruct E as [_ E]. injection E as -> _.
    apply (dget_none (qeqb L) (qeqb_spec L)) in Ex. auto.
Qed.

Lemma unfuse_elem : forall i info pat n t r q sqs k sh pre post xp ys xq,
  layout_ok info pat -> (forall b, In b t -> length (fst b) = n /\ length (nshape (snd b)) = n) -> (i < n)%nat ->
  sp_unfuse R L i info t = Some r -> In (sqs, (k, sh)) (ents info q) ->
  length pre = i -> length post = (n - 1 - i)%nat -> length xp = i -> length ys = length sh ->
  elem R L r (pre ++ sqs ++ post) (xp ++ ys ++ xq) =
  if in_shapeb sh ys then elem R L t (pre ++ q :: post) (xp ++ (k + ravel sh ys) :: xq) else r0 R.
Proof.
  intros i info pat n t r q sqs k sh pre post xp ys xq OK Hb Hi E He Lp Lo Lx Ly.
  apply sp_unfuse_flat in E. destruct E as [-> Hs]. rewrite elem_flat_map.
  transitivity (bsum t (fun b => if teqb (fst b) (pre ++ q :: post) then (if in_shapeb sh ys then nget (snd b) (xp ++ (k + ravel sh ys) :: xq) else r0 R) else r0 R)).
  - apply bsum_ext. intros b Hin. destruct (Hb b Hin) as [A B]. specialize (Hs b Hin).
    destruct (unfuse_block R L i info b) as [rb|] eqn:Eb; [|congruence]. cbn [odflt]. eapply unfuse_block_elem; eauto.
  - unfold elem. destruct (in_shapeb sh ys); [reflexivity|]. apply bsum_zero. intros b _. now destruct (teqb (fst b) (pre ++ q :: post)).
Qed.
(* labels that do not occur in the layout *)
Lemma unfuse_absent : forall i info n t r sqs pre post xs,
  (forall b, In b t -> length (fst b) = n /\ length (nshape (snd b)) = n) -> (i < n)%nat ->
  sp_unfuse R L i info t = Some r -> (forall q, ~ In sqs (map fst (ents info q))) ->
  length pre = i -> length post = (n - 1 - i)%nat ->
  elem R L r (pre ++ sqs ++ post) xs = r0 R.
Proof.
  intros i info n t r sqs pre post xs Hb Hi E Ha Lp Lo. apply elem_absent. intros Hin.
  apply sp_unfuse_flat in E. destruct E as [-> Hs]. apply in_map_iff in Hin. destruct Hin as (c & Ec & Hc).
  apply in_flat_map in Hc. destruct Hc as (b & Hbt & Hc). destruct (Hb b Hbt) as [A B].
  destruct (unfuse_block R L i info b) as [rb|] eqn:Eb; [|destruct Hc]. cbn [odflt] in Hc.
  unfold unfuse_block in Eb. set (bq := nth i (fst b) ll) in *.
  destruct (dget (qeqb L) (fst info) bq) as [x|]; [|injection Eb as <-; destruct Hc].
  destruct (negb _); [discriminate|]. destruct (dget (qeqb L) (snd info) bq) as [es|] eqn:Ee; [|discriminate]. injection Eb as <-.
  apply in_map_iff in Hc. destruct Hc as ([sqs' [k' sh']] & <- & He). cbn [fst] in Ec.
  change (firstn i (fst b) ++ sqs' ++ skipn (S i) (fst b) = pre ++ sqs ++ post) in Ec.
  apply app_mid_inj in Ec; [|rewrite firstn_length; lia|rewrite skipn_length; lia]. destruct Ec as (_ & -> & _).
  apply (Ha bq). unfold ents. rewrite Ee. cbn [odflt]. apply in_map_iff. exists (sqs, (k', sh')). auto.
Qed.
Lemma unfuse_succeeds : forall i info pat t, layout_ok info pat ->
  (forall b x, In b t -> dget (qeqb L) (fst info) (nth i (fst b) ll) = Some x -> nth i (nshape (snd b)) 0 = x) ->
  exists r, sp_unfuse R L i info t = Some r.
Proof.
  intros i info pat t OK. induction t as [|b t IH]; intros H; cbn [sp_unfuse]; [eauto|].
  destruct IH as (r & ->); [intros; apply (H b0); auto; now right|]. unfold unfuse_block.
  destruct (dget (qeqb L) (fst info) (nth i (fst b) ll)) as [x|] eqn:Ex; [|eauto].
  rewrite (H b x) by (auto; now left). rewrite Z.eqb_refl. cbn [negb].
  destruct (dget (qeqb L) (snd info) (nth i (fst b) ll)) eqn:Ee; [eauto|]. exfalso.
  apply (dget_none (qeqb L) (qeqb_spec L)) in Ee. apply Ee. apply (lo_dom _ _ OK). eapply dget_some_key; [apply qeqb_spec|exact Ex].
Qed.

(** ** fuse: which legs go where *)
Lemma NoDup_app_iff' : forall A (a b : list A), NoDup a -> NoDup b -> (forall x, In x a -> ~ In x b) -> NoDup (a ++ b).
Proof.
  induction a as [|x a IH]; intros b Ha Hb H; cbn; [auto|]. inversion Ha; subst. constructor.
  - rewrite in_app_iff. intros [|K]; [auto|]. apply (H x); [now left|auto].
  - apply IH; auto. intros y Hy. apply H. now right.
Qed.
Lemma fold_min_le : forall l i, fold_left Z.min l i <= i /\ (forall x, In x l -> fold_left Z.min l i <= x) /\ (fold_left Z.min l i = i \/ In (fold_left Z.min l i) l).
Proof.
  induction l as [|y l IH]; intros i; cbn [fold_left In]; [repeat split; auto; try lia; tauto|].
  destruct (IH (Z.min i y)) as (A & B & C). repeat split; [lia| |].
  - intros x [<-|H]; [lia|auto].
  - destruct C as [C|C]; [|auto]. rewrite C. destruct (Z.min_spec i y) as [[_ ->]|[_ ->]]; auto.
Qed.
Lemma min_idx_spec : forall idxs, idxs <> [] -> In (min_idx idxs) idxs /\ forall x, In x idxs -> min_idx idxs <= x.
Proof.
  intros [|i l] H; [congruence|]. cbn [min_idx In]. destruct (fold_min_le l i) as (A & B & C). split.
  - destruct C as [->|C]; auto.
  - intros x [<-|Hx]; auto.
Qed.
Definition rest (n : Z) (idxs : list Z) : list Z :=
  filter (fun i => negb (existsb (Z.eqb i) idxs)) (map (fun x => min_idx idxs + 1 + x) (zrange (n - min_idx idxs - 1))).
Lemma zmem : forall x l, existsb (Z.eqb x) l = true <-> In x l.
Proof.
  intros. rewrite existsb_exists. split; [intros (y & H & E); apply Z.eqb_eq in E; now subst|]. intros H. exists x. split; [auto|apply Z.eqb_refl].
Qed.
Lemma zmem_false : forall x l, existsb (Z.eqb x) l = false <-> ~ In x l.
Proof. intros. rewrite <- zmem. destruct (existsb _ l); intuition congruence. Qed.
Lemma filter_ext_in' : forall A (f g : A -> bool) l, (forall x, In x l -> f x = g x) -> filter f l = filter g l.
Proof. induction l as [|x l IH]; intros H; [reflexivity|]. cbn. rewrite (H x (or_introl eq_refl)), IH; auto. intros; apply H; now right. Qed.
Lemma filter_all' : forall A (f : A -> bool) l, (forall x, In x l -> f x = true) -> filter f l = l.
Proof. induction l as [|x l IH]; cbn; intros H; [auto|]. rewrite (H x (or_introl eq_refl)). f_equal. apply IH. intros; apply H; now right. Qed.
Lemma zrange_split : forall m n, 0 <= m < n -> zrange n = zrange m ++ m :: map (fun x => m + 1 + x) (zrange (n - m - 1)).
Proof.
  intros m n H. replace n with (m + (1 + (n - m - 1))) at 1 by lia. rewrite !zrange_add by lia. f_equal. rewrite zrange_1. cbn [app map]. f_equal; [lia|].
  rewrite map_map. apply map_ext. intros; lia.
Qed.

Section Legs.
Variable n : Z.
Variable idxs : list Z.
Hypothesis Hne : idxs <> [].
Hypothesis Hnd : NoDup idxs.
Hypothesis Hr : forall i, In i idxs -> 0 <= i < n.
Notation m := (min_idx idxs).
Lemma m_range : 0 <= m < n.
Proof. apply Hr. now apply min_idx_spec. Qed.
Lemma kept_eq : kept n idxs = zrange m ++ m :: rest n idxs.
Proof.
  pose proof m_range as Hm. destruct (min_idx_spec idxs Hne) as [Hin Hle]. unfold kept. rewrite (zrange_split m n Hm), filter_app. cbn [filter].
  set (fx := filter (fun x => negb (x =? m)) idxs).
  assert (Hf: forall x, In x fx <-> In x idxs /\ x <> m).
  { intros x. unfold fx. rewrite filter_In. destruct (Z.eqb_spec x m); cbn; intuition congruence. }
  assert (E0: existsb (Z.eqb m) fx = false) by (apply zmem_false; rewrite Hf; tauto).
  rewrite E0. cbn [negb]. f_equal; [|f_equal].
  - apply filter_all'. intros x Hx. apply in_zrange in Hx. apply negb_true_iff, zmem_false. rewrite Hf. intros [A _]. apply Hle in A. lia.
  - unfold rest. apply filter_ext_in'. intros x Hx. apply in_map_iff in Hx. destruct Hx as (y & <- & Hy). apply in_zrange in Hy. f_equal.
    apply eq_true_iff_eq. rewrite !zmem, Hf. intuition lia.
Qed.
Lemma in_rest : forall x, In x (rest n idxs) <-> m < x < n /\ ~ In x idxs.
Proof.
  intros x. unfold rest. rewrite filter_In, in_map_iff, negb_true_iff, zmem_false. split.
  - intros [(y & <- & Hy) A]. apply in_zrange in Hy. split; [lia|auto].
  - intros [A B]. split; [|auto]. exists (x - m - 1). rewrite in_zrange. lia.
Qed.
Lemma rest_nodup : NoDup (rest n idxs).
Proof. apply NoDup_filter. apply FinFun.Injective_map_NoDup; [intros x y; lia|apply zrange_nodup]. Qed.
Lemma flat_map_single : forall l, (forall x, In x l -> x <> m) -> flat_map (fun i => if i =? m then idxs else [i]) l = l.
Proof. induction l as [|x l IH]; intros H; [reflexivity|]. cbn. destruct (Z.eqb_spec x m); [exfalso; apply (H x); [now left|auto]|]. cbn. f_equal. apply IH. intros; apply H; now right. Qed.
Lemma new_perm_eq : new_perm n idxs = zrange m ++ idxs ++ rest n idxs.
Proof.
  unfold new_perm. rewrite kept_eq, flat_map_app. cbn [flat_map]. rewrite Z.eqb_refl. rewrite !flat_map_single; auto.
  - intros x Hx. apply in_rest in Hx. lia.
  - intros x Hx. apply in_zrange in Hx. lia.
Qed.
Lemma new_tuple_eq : forall A (d v : A) l, new_tuple d n idxs v l = pick d (zrange m) l ++ v :: pick d (rest n idxs) l.
Proof.
  intros A d v l. unfold new_tuple. rewrite kept_eq, map_app. cbn [map]. rewrite Z.eqb_refl. f_equal; [|f_equal]; apply map_ext_in; intros x Hx.
  - apply in_zrange in Hx. destruct (Z.eqb_spec x m); [lia|reflexivity].
  - apply in_rest in Hx. destruct (Z.eqb_spec x m); [lia|reflexivity].
Qed.
Lemma new_perm_perm : Permutation (zrange n) (new_perm n idxs).
Proof.
  rewrite new_perm_eq. destruct (min_idx_spec idxs Hne) as [Hin Hle]. apply NoDup_Permutation; [apply zrange_nodup| |].
  - apply NoDup_app_iff'; [apply zrange_nodup|apply NoDup_app_iff'; [exact Hnd|apply rest_nodup|]|].
    + intros x A B. apply in_rest in B. tauto.
    + intros x A B. apply in_zrange in A. apply in_app_iff in B. destruct B as [B|B]; [apply Hle in B; lia|apply in_rest in B; lia].
  - intros x. rewrite !in_app_iff, !in_zrange, in_rest. split.
    + intros H. destruct (in_dec Z.eq_dec x idxs); [auto|]. destruct (Z.lt_trichotomy x m) as [|[->|]]; [left; lia|tauto|right; right; split; [lia|auto]].
    + pose proof m_range. intros [|[A|]]; [lia|auto|lia].
Qed.
End Legs.

(** ** fuse: grouping the pieces *)
Notation item_t := (list L * (list Z * piece))%type.
Notation gmap := (dict (list L) (list Z * list piece)).
Definition gput (m : gmap) (it : item_t) : gmap :=
  let (v0, gs) := odflt (fst (snd it), []) (dget teqb m (fst it)) in dset teqb m (fst it) (v0, gs ++ [snd (snd it)]).
Definition matching (nq : list L) (l : list item_t) : list (list Z * piece) :=
  flat_map (fun it => if teqb (fst it) nq then [snd it] else []) l.
Lemma gput_get : forall l (m : gmap) nq, dget teqb (fold_left gput l m) nq =
  match dget teqb m nq, matching nq l with
  | Some (v, gs), xs => Some (v, gs ++ map snd xs)
  | None, [] => None
  | None, x :: xs => Some (fst x, map snd (x :: xs))
  end.
Proof.
  induction l as [|[q [v0 g]] l IH]; intros m nq; cbn [fold_left].
  - cbn [matching flat_map map]. destruct (dget teqb m nq) as [[v gs]|]; [now rewrite app_nil_r|reflexivity].
  - rewrite IH. unfold gput. cbn [fst snd]. unfold matching. cbn [flat_map fst snd]. fold (matching nq l).
    destruct (tspec q nq) as [->|N].
    + destruct (dget teqb m nq) as [[v gs]|] eqn:E; cbn [odflt].
      * rewrite dget_dset by apply tspec. rewrite (teqb_refl L). cbn [app map snd]. now rewrite <- app_assoc.
      * rewrite dget_dset by apply tspec. rewrite (teqb_refl L). reflexivity.
    + destruct (odflt _ (dget teqb m q)) as [v gs]. rewrite dget_dset by apply tspec.
      destruct (tspec q nq); [congruence|]. reflexivity.
Qed.
Lemma gput_keys : forall l (m : gmap), NoDup (keys m) -> NoDup (keys (fold_left gput l m)).
Proof.
  induction l as [|it l IH]; intros m H; cbn [fold_left]; auto. apply IH. unfold gput. destruct (odflt _ _). apply nodup_dset; [apply tspec|auto].
Qed.
Lemma fuse_groups_spec : forall i (m : gmap), (forall q g, In (q, g) m -> exists v, fuse_group R i g = Some v) ->
  exists r, fuse_groups R L i m = Some r /\ map fst r = keys m /\
    forall q, dget teqb r q = match dget teqb m q with Some g => fuse_group R i g | None => None end.
Proof.
  induction m as [|[q g] m IH]; intros H; cbn [fuse_groups]; [exists []; repeat split|].
  destruct (H q g (or_introl eq_refl)) as (v & Ev). rewrite Ev. destruct IH as (r & -> & K & G); [intros; apply (H q0); now right|].
  eexists. split; [reflexivity|]. split; [cbn; now f_equal|]. intros q'. cbn [dget]. destruct (teqb q q'); [now rewrite Ev|apply G].
Qed.

Section FuseMain.
Variable n : Z.
Variable idxs : list Z.
Hypothesis Hne : idxs <> [].
Hypothesis Hnd : NoDup idxs.
Hypothesis Hr : forall i, In i idxs -> 0 <= i < n.
Variable info : finfo.
Variable pat : list ascii.
Hypothesis OK : layout_ok info pat.
Variable dm : Z -> L -> Z.
Notation m := (min_idx idxs).
Notation rs := (rest n idxs).
Notation sqs_of b := (pick ll idxs (fst b)).
Notation q_of b := (signed_total L pat (sqs_of b)).
Notation fsh b := (pick 0 idxs (nshape (snd b))).
Definition covered (b : block) : Prop :=
  In (q_of b) (keys (fst info)) -> exists k, In (sqs_of b, (k, fsh b)) (ents info (q_of b)).

Definition piece_of (b : block) : nd R :=
  nd_reshape (pick 0 (zrange m) (nshape (snd b)) ++ prodZ (fsh b) :: pick 0 rs (nshape (snd b))) (nd_transpose (new_perm n idxs) (snd b)).
Definition item (b : block) : option item_t :=
  match dget (qeqb L) (fst info) (q_of b) with
  | None => None
  | Some x =>
      match dget teqb (ents info (q_of b)) (sqs_of b) with
      | None => None
      | Some (k, _) =>
          Some (pick ll (zrange m) (fst b) ++ q_of b :: pick ll rs (fst b),
                (pick 0 (zrange m) (nshape (snd b)) ++ x :: pick 0 rs (nshape (snd b)), (k, prodZ (fsh b), piece_of b)))
      end
  end.
Definition olist {X} (o : option X) : list X := match o with Some x => [x] | None => [] end.

Lemma fuse_put_block_item : forall mp b, covered b -> Z.of_nat (length (nshape (snd b))) = n ->
  fuse_put_block R L idxs info pat mp b = Some (match item b with Some it => gput mp it | None => mp end).
Proof.
  intros mp b Hc Hl. unfold fuse_put_block, item. rewrite fuse_q_total, Hl. unfold covered in Hc.
  destruct (dget (qeqb L) (fst info) (q_of b)) as [x|] eqn:Ex; [|reflexivity].
  destruct Hc as (k & Hk); [eapply dget_some_key; [apply qeqb_spec|exact Ex]|].
  pose proof (in_dget teqb tspec _ _ _ (lo_keys _ _ OK _) Hk) as Eg. rewrite Eg. unfold ents in Eg.
  destruct (dget (qeqb L) (snd info) (q_of b)) as [es|] eqn:Ee; [|discriminate]. cbn [odflt] in Eg. rewrite Eg.
  rewrite !new_tuple_eq by auto. unfold gput. cbn [fst snd]. destruct (odflt _ _) as [v0 gs]. reflexivity.
Qed.
Lemma fuse_blocks_item : forall t mp, (forall b, In b t -> covered b /\ Z.of_nat (length (nshape (snd b))) = n) ->
  fuse_blocks R L idxs info pat mp t = Some (fold_left gput (flat_map (fun b => olist (item b)) t) mp).
Proof.
  induction t as [|b t IH]; intros mp H; cbn [fuse_blocks flat_map fold_left]; [reflexivity|].
  destruct (H b (or_introl eq_refl)) as [A B]. rewrite fuse_put_block_item by auto. rewrite IH by (intros; apply H; now right).
  rewrite fold_left_app. destruct (item b); reflexivity.
Qed.

(* what a matching item says about its block *)
Lemma item_some : forall b nq v0 k nk p, item b = Some (nq, (v0, (k, nk, p))) ->
  nq = pick ll (zrange m) (fst b) ++ q_of b :: pick ll rs (fst b) /\
  v0 = pick 0 (zrange m) (nshape (snd b)) ++ bget L (fst info) (q_of b) :: pick 0 rs (nshape (snd b)) /\
  nk = prodZ (fsh b) /\ p = piece_of b /\ (exists sh, In (sqs_of b, (k, sh)) (ents info (q_of b))) /\ In (q_of b) (keys (fst info)).
Proof.
  intros b nq v0 k nk p H. unfold item in H. destruct (dget (qeqb L) (fst info) (q_of b)) as [x|] eqn:Ex; [|discriminate].
  destruct (dget teqb (ents info (q_of b)) (sqs_of b)) as [[k' sh]|] eqn:Eg; [|discriminate]. injection H as <- <- <- <- <-.
  repeat split; auto.
  - unfold bget. now rewrite Ex.
  - exists sh. eapply dget_in; [apply tspec|exact Eg].
  - eapply dget_some_key; [apply qeqb_spec|exact Ex].
Qed.
Lemma item_covered : forall b nq v0 k nk p, covered b -> item b = Some (nq, (v0, (k, nk, p))) -> In (sqs_of b, (k, fsh b)) (ents info (q_of b)).
Proof.
  intros b nq v0 k nk p Hc H. apply item_some in H. destruct H as (_ & _ & _ & _ & (sh & Hs) & Hk). destruct (Hc Hk) as (k' & Hk').
  pose proof (in_dget teqb tspec _ _ _ (lo_keys _ _ OK _) Hk'). pose proof (in_dget teqb tspec _ _ _ (lo_keys _ _ OK _) Hs). congruence.
Qed.
Lemma same_block_label : forall b b' : block, Z.of_nat (length (fst b)) = n -> Z.of_nat (length (fst b')) = n ->
  pick ll (zrange m) (fst b) = pick ll (zrange m) (fst b') -> sqs_of b = sqs_of b' -> pick ll rs (fst b) = pick ll rs (fst b') -> fst b = fst b'.
Proof.
  intros b b' Hb Hb' A B C. apply (pick_inj n (new_perm n idxs)) with (d := ll); auto; [now apply new_perm_perm|].
  rewrite new_perm_eq by auto. unfold pick in *. rewrite !map_app. congruence.
Qed.
Lemma fused_label_inj : forall (b b' : list L) q q', pick ll (zrange m) b ++ q :: pick ll rs b = pick ll (zrange m) b' ++ q' :: pick ll rs b' ->
  pick ll (zrange m) b = pick ll (zrange m) b' /\ q = q' /\ pick ll rs b = pick ll rs b'.
Proof.
  intros b b' q q' E. apply app_inj_len in E; [|now rewrite !pick_length]. destruct E as [A E]. injection E as B C. auto.
Qed.
Lemma rs_range : forall i, In i rs -> 0 <= i < n.
Proof. intros i H. apply (in_rest n idxs Hr) in H. pose proof (m_range n idxs Hne Hr). lia. Qed.
Lemma zm_range : forall i, In i (zrange m) -> 0 <= i < n.
Proof. intros i H. apply in_zrange in H. pose proof (m_range n idxs Hne Hr). lia. Qed.

Lemma transposed_shape : forall b : block, nshape (nd_transpose (new_perm n idxs) (snd b))
  = pick 0 (zrange m) (nshape (snd b)) ++ fsh b ++ pick 0 rs (nshape (snd b)).
Proof. intros. cbn [nshape nd_transpose]. rewrite new_perm_eq by auto. unfold pick. now rewrite !map_app. Qed.
Lemma piece_val : forall (b : block) xs, Z.of_nat (length (nshape (snd b))) = n -> Z.of_nat (length xs) = n ->
  in_shape (fsh b) (pick 0 idxs xs) ->
  nget (piece_of b) (pick 0 (zrange m) xs ++ ravel (fsh b) (pick 0 idxs xs) :: pick 0 rs xs) = nget (snd b) xs.
Proof.
  intros b xs Hs Hx Hin. unfold piece_of. rewrite nget_reshape_merge; auto.
  - rewrite <- (nget_transpose R n (new_perm n idxs) (new_perm_perm n idxs Hne Hnd Hr) (snd b) xs) by auto.
    f_equal. rewrite new_perm_eq by auto. unfold pick. now rewrite !map_app.
  - apply transposed_shape.
  - now rewrite !pick_length.
Qed.

Variable t : tensor.
Hypothesis Wt : wf_tensor R L n dm t.
Hypothesis Nt : NoDup (map fst t).
Hypothesis Cov : forall b, In b t -> covered b.

Lemma blk_len : forall b, In b t -> Z.of_nat (length (nshape (snd b))) = n /\ Z.of_nat (length (fst b)) = n.
Proof. intros b Hb. eapply wf_shape_length; eauto. Qed.
Lemma pick_sh : forall b idx, In b t -> (forall i, In i idx -> 0 <= i < n) -> pick 0 idx (nshape (snd b)) = shape_of L dm idx (pick ll idx (fst b)).
Proof. intros b idx Hb Hi. destruct (Wt b Hb) as [A ->]. now apply pick_shape_of. Qed.

Definition pieces (nq : list L) : list (list Z * piece) := matching nq (flat_map (fun b => olist (item b)) t).
Lemma in_pieces : forall nq x, In x (pieces nq) <-> exists b, In b t /\ item b = Some (nq, x).
Proof.
  intros nq x. unfold pieces, matching. rewrite in_flat_map. split.
  - intros ([q y] & Hin & Hx). cbn [fst snd] in Hx. destruct (tspec q nq) as [->|]; [|destruct Hx]. destruct Hx as [->|[]].
    apply in_flat_map in Hin. destruct Hin as (b & Hb & Hi). exists b. split; auto. destruct (item b); cbn in Hi; [destruct Hi as [->|[]]; auto|tauto].
  - intros (b & Hb & E). exists (nq, x). cbn [fst snd]. rewrite (teqb_refl L). split; [|now left]. apply in_flat_map. exists b. split; auto. rewrite E. now left.
Qed.
Lemma FOP_map : forall A B (P : B -> B -> Prop) (f : A -> B) l, ForallOrdPairs (fun x y => P (f x) (f y)) l -> ForallOrdPairs P (map f l).
Proof. induction 1; cbn; constructor; auto. apply Forall_forall. intros y Hy. apply in_map_iff in Hy. destruct Hy as (z & <- & Hz). rewrite Forall_forall in H. auto. Qed.
Lemma pieces_apart : forall nq, ForallOrdPairs (fun x y => apart R (snd x) (snd y)) (pieces nq).
Proof.
  intros nq. unfold pieces, matching.
  assert (H: forall b b' x y, In b t -> In b' t -> fst b <> fst b' -> item b = Some (nq, x) -> item b' = Some (nq, y) -> apart R (snd x) (snd y)).
  { intros b b' [v [[k nk] p]] [v' [[k' nk'] p']] Hb Hb' Hf E E'. cbn [snd].
    pose proof (item_covered _ _ _ _ _ _ (Cov b Hb) E) as He. pose proof (item_covered _ _ _ _ _ _ (Cov b' Hb') E') as He'.
    apply item_some in E. apply item_some in E'. destruct E as (E1 & _ & -> & _), E' as (E1' & _ & -> & _).
    rewrite E1 in E1'. apply fused_label_inj in E1'. destruct E1' as (A & B & C).
    destruct (blk_len b Hb) as [_ Lb]. destruct (blk_len b' Hb') as [_ Lb'].
    assert (Ns: sqs_of b <> sqs_of b') by (intro D; apply Hf; now apply same_block_label).
    rewrite <- B in He'. unfold apart. cbn [fst snd].
    pose proof (prodZ_pos _ (lo_pos _ _ OK _ _ _ _ He)). pose proof (prodZ_pos _ (lo_pos _ _ OK _ _ _ _ He')).
    destruct (Z_le_gt_dec (k + prodZ (fsh b)) k'); [auto|]. destruct (Z_le_gt_dec (k' + prodZ (fsh b')) k); [auto|]. exfalso. apply Ns.
    apply (lo_disj _ _ OK _ _ _ _ _ _ _ (Z.max k k') He He'); lia. }
  clear Wt Cov. induction t as [|b l IH]; [constructor|]. cbn in Nt. inversion Nt as [|? ? Nb Nl]; subst. cbn [flat_map]. rewrite flat_map_app.
  assert (IH': ForallOrdPairs (fun x y => apart R (snd x) (snd y)) (flat_map (fun it => if teqb (fst it) nq then [snd it] else []) (flat_map (fun b => olist (item b)) l))).
  { apply IH; auto. intros; eapply H; eauto; now right. }
  destruct (item b) as [[q x]|] eqn:Eb; cbn [olist flat_map app fst snd]; [|exact IH'].
  destruct (tspec q nq) as [->|]; cbn [app]; [|exact IH']. constructor; [|exact IH'].
  apply Forall_forall. intros y Hy. apply in_flat_map in Hy. destruct Hy as ([q y'] & Hin & Hx). cbn [fst snd] in Hx. destruct (tspec q nq) as [->|]; [|destruct Hx].
  destruct Hx as [->|[]]. apply in_flat_map in Hin. destruct Hin as (b' & Hb' & Hi).
  destruct (item b') as [it|] eqn:Eb'; cbn in Hi; [|tauto]. destruct Hi as [->|[]].
  apply (H b b' x y); auto; [now left|now right|]. intro E. apply Nb. rewrite E. now apply in_map.
Qed.

Lemma fuse_main : exists r, fuse_blocks R L idxs info pat [] t = Some (fold_left gput (flat_map (fun b => olist (item b)) t) [])
  /\ fuse_groups R L (Z.to_nat m) (fold_left gput (flat_map (fun b => olist (item b)) t) []) = Some r
  /\ NoDup (map fst r)
  /\ (forall c, In c r -> exists b, In b t /\ fst c = pick ll (zrange m) (fst b) ++ q_of b :: pick ll rs (fst b) /\
        nshape (snd c) = pick 0 (zrange m) (nshape (snd b)) ++ bget L (fst info) (q_of b) :: pick 0 rs (nshape (snd b)) /\ In (q_of b) (keys (fst info)))
  /\ (forall nq xp j xq, Z.of_nat (length xp) = m ->
        elem R L r nq (xp ++ j :: xq) = bsum (pieces nq) (fun x => nget (snd (snd x)) (xp ++ (j - koff (snd x)) :: xq))).
Proof.
  pose proof (m_range n idxs Hne Hr) as Hm.
  set (M := fold_left gput (flat_map (fun b => olist (item b)) t) []).
  assert (HM: forall nq, dget teqb M nq = match pieces nq with [] => None | x :: xs => Some (fst x, map snd (x :: xs)) end).
  { intros nq. unfold M. rewrite gput_get. reflexivity. }
  assert (KM: NoDup (keys M)) by (apply gput_keys; constructor).
  assert (G: forall nq x xs, pieces nq = x :: xs -> exists b v, In b t /\
     nq = pick ll (zrange m) (fst b) ++ q_of b :: pick ll rs (fst b) /\ In (q_of b) (keys (fst info)) /\
     fuse_group R (Z.to_nat m) (fst x, map snd (x :: xs)) = Some v /\
     nshape v = pick 0 (zrange m) (nshape (snd b)) ++ bget L (fst info) (q_of b) :: pick 0 rs (nshape (snd b)) /\
     forall xp j xq, Z.of_nat (length xp) = m -> nget v (xp ++ j :: xq) = bsum (x :: xs) (fun x => nget (snd (snd x)) (xp ++ (j - koff (snd x)) :: xq))).
  { intros nq x xs Ep. assert (Hx: In x (pieces nq)) by (rewrite Ep; now left). apply in_pieces in Hx. destruct Hx as (b & Hb & Eb).
    destruct x as [v0 [[k nk] p]]. pose proof (item_some _ _ _ _ _ _ Eb) as (E1 & E2 & E3 & E4 & (sh & E5) & E6).
    set (a := pick 0 (zrange m) (nshape (snd b))) in *. set (c := pick 0 rs (nshape (snd b))) in *.
    assert (La: length a = Z.to_nat m) by (unfold a; now rewrite pick_length, zrange_length).
    destruct (fuse_group_val R a (bget L (fst info) (q_of b)) c (map snd ((v0, (k, nk, p)) :: xs))) as (v & F1 & F2 & F3).
    - discriminate.
    - pose proof (lo_range _ _ OK _ _ _ _ E5). pose proof (prodZ_pos _ (lo_pos _ _ OK _ _ _ _ E5)). lia.
    - intros g Hg. apply in_map_iff in Hg. destruct Hg as ([v1 [[k1 nk1] p1]] & <- & Hg). rewrite <- Ep in Hg. apply in_pieces in Hg.
      destruct Hg as (b1 & Hb1 & Eb1). apply item_some in Eb1. destruct Eb1 as (A1 & A2 & A3 & A4 & _). cbn [fst snd].
      rewrite E1 in A1. apply fused_label_inj in A1. destruct A1 as (B1 & B2 & B3).
      rewrite A4. unfold piece_of. cbn [nshape nd_reshape]. rewrite A3. unfold a, c.
      rewrite !(pick_sh b), !(pick_sh b1 (zrange m)), !(pick_sh b1 rs) by (auto using zm_range, rs_range). now rewrite B1, B3.
    - intros g Hg. apply in_map_iff in Hg. destruct Hg as ([v1 [[k1 nk1] p1]] & <- & Hg). rewrite <- Ep in Hg. apply in_pieces in Hg.
      destruct Hg as (b1 & Hb1 & Eb1). pose proof (item_covered _ _ _ _ _ _ (Cov b1 Hb1) Eb1) as Hc.
      apply item_some in Eb1. destruct Eb1 as (A1 & A2 & A3 & A4 & _). cbn [fst snd]. rewrite E1 in A1. apply fused_label_inj in A1. destruct A1 as (B1 & B2 & B3).
      rewrite B2, A3. pose proof (lo_range _ _ OK _ _ _ _ Hc). pose proof (prodZ_pos _ (lo_pos _ _ OK _ _ _ _ Hc)). lia.
    - apply FOP_map. rewrite <- Ep. apply pieces_apart.
    - exists b, v. split; [auto|]. split; [auto|]. split; [auto|]. rewrite La, <- E2 in F1. split; [exact F1|]. split; [exact F2|].
      intros xp j xq Hxp. rewrite F3 by (rewrite La; lia). now rewrite bsum_map. }
  destruct (fuse_groups_spec (Z.to_nat m) M) as (r & R1 & R2 & R3).
  { intros q g Hg. pose proof (in_dget teqb tspec M q g KM Hg) as Eg. rewrite HM in Eg. destruct (pieces q) as [|x xs] eqn:Ep; [discriminate|].
    injection Eg as <-. destruct (G q x xs Ep) as (b & v & _ & _ & _ & Ev & _). eauto. }
  exists r. split; [|split; [exact R1|split; [now rewrite R2|split]]].
  - apply fuse_blocks_item. intros b Hb. split; [auto|]. now apply blk_len.
  - intros [q v] Hc. cbn [fst snd]. assert (Er: dget teqb r q = Some v) by (apply in_dget; [apply tspec|unfold keys in *; rewrite R2; exact KM|exact Hc]).
    rewrite R3, HM in Er. destruct (pieces q) as [|x xs] eqn:Ep; [discriminate|]. destruct (G q x xs Ep) as (b & v' & A & B & C & D & E & _).
    exists b. rewrite D in Er. injection Er as <-. auto.
  - intros nq xp j xq Hxp. rewrite elem_dget by now rewrite R2. rewrite R3, HM. destruct (pieces nq) as [|x xs] eqn:Ep; [reflexivity|].
    destruct (G nq x xs Ep) as (b & v' & A & B & C & D & E & F). rewrite D. now apply F.
Qed.

(* a position of the fused tensor reached from qs, xs *)
Lemma pieces_value : forall qs xs k sh, Z.of_nat (length qs) = n -> Z.of_nat (length xs) = n ->
  let sqs := pick ll idxs qs in let q := signed_total L pat sqs in let ys := pick 0 idxs xs in
  In (sqs, (k, sh)) (ents info q) -> in_shape sh ys ->
  bsum (pieces (pick ll (zrange m) qs ++ q :: pick ll rs qs))
    (fun x => nget (snd (snd x)) (pick 0 (zrange m) xs ++ (k + ravel sh ys - koff (snd x)) :: pick 0 rs xs)) = elem R L t qs xs.
Proof.
  intros qs xs k sh Hq Hx sqs q ys He Hy. set (nq := pick ll (zrange m) qs ++ q :: pick ll rs qs).
  unfold pieces, matching, elem. rewrite !bsum_flat_map.
  apply bsum_ext. intros b Hb. destruct (blk_len b Hb) as [L1 L2].
  destruct (tspec (fst b) qs) as [E|N].
  - assert (Eq: In (q_of b) (keys (fst info))).
    { rewrite E. eapply ents_dom; [exact OK|exact He]. }
    destruct (Cov b Hb Eq) as (k' & Hk').
    assert (Ek: (k', fsh b) = (k, sh)).
    { rewrite E in Hk'. pose proof (in_dget teqb tspec _ _ _ (lo_keys _ _ OK _) Hk'). pose proof (in_dget teqb tspec _ _ _ (lo_keys _ _ OK _) He). unfold q, sqs in *. congruence. }
    injection Ek as -> Efs.
    assert (Ei: exists v, item b = Some (nq, (v, (k, prodZ (fsh b), piece_of b)))).
    { unfold item. destruct (dget (qeqb L) (fst info) (q_of b)) as [x|] eqn:Ex.
      - rewrite (in_dget teqb tspec _ _ _ (lo_keys _ _ OK _) Hk'). rewrite E. eauto.
      - apply (dget_none (qeqb L) (qeqb_spec L)) in Ex. tauto. }
    destruct Ei as (v & ->). cbn [olist flat_map fst snd app]. rewrite bsum_cons, bsum_nil. cbn [fst snd]. rewrite (teqb_refl L), bsum_cons, bsum_nil. cbn [fst snd].
    replace (k + ravel sh ys - k) with (ravel sh ys) by lia. rewrite <- Efs. unfold ys. rewrite piece_val; auto; [ring|now rewrite Efs].
  - destruct (item b) as [[nq' [v [[k' nk'] p]]]|] eqn:Eb; cbn [olist]; [|reflexivity].
    rewrite bsum_cons, bsum_nil. cbn [fst snd]. destruct (tspec nq' nq) as [->|]; [|rewrite bsum_nil; ring].
    rewrite bsum_cons, bsum_nil. cbn [fst snd].
    pose proof (item_covered _ _ _ _ _ _ (Cov b Hb) Eb) as Hc. apply item_some in Eb. destruct Eb as (A1 & A2 & A3 & A4 & _).
    unfold nq in A1. apply fused_label_inj in A1. destruct A1 as (B1 & B2 & B3).
    rewrite (nget_mid_out R p (pick 0 (zrange m) (nshape (snd b))) nk' (pick 0 rs (nshape (snd b)))); [ring| | |].
    + rewrite A4, A3. reflexivity.
    + now rewrite !pick_length.
    + intro Hj. apply N. rewrite <- B2 in Hc.
      assert (Es: sqs_of b = sqs).
      { eapply (lo_disj _ _ OK q _ _ _ _ _ _ (k + ravel sh ys) Hc He); [lia|]. pose proof (ravel_range _ _ Hy). lia. }
      apply (same_block_label b (qs, snd b)); auto.
Qed.
(* positions that no state of the fused legs reaches *)
Lemma pieces_zero : forall nq q xp j xq, (exists pre post, nq = pre ++ q :: post /\ Z.of_nat (length pre) = m) -> Z.of_nat (length xp) = m ->
  (forall sqs k sh, In (sqs, (k, sh)) (ents info q) -> ~ k <= j < k + prodZ sh) ->
  bsum (pieces nq) (fun x => nget (snd (snd x)) (xp ++ (j - koff (snd x)) :: xq)) = r0 R.
Proof.
  intros nq q xp j xq (pre & post & -> & Lp) Lx Hj. apply bsum_zero. intros [v [[k nk] p]] Hin. cbn [fst snd]. apply in_pieces in Hin. destruct Hin as (b & Hb & Eb).
  pose proof (item_covered _ _ _ _ _ _ (Cov b Hb) Eb) as Hc. apply item_some in Eb. destruct Eb as (A1 & A2 & A3 & A4 & _).
  apply app_inj_len in A1; [|rewrite pick_length, zrange_length; lia]. destruct A1 as [B1 B2]. injection B2 as B2 B3. rewrite <- B2 in Hc. apply Hj in Hc.
  apply nget_mid_out with (a := pick 0 (zrange m) (nshape (snd b))) (s := nk) (b := pick 0 rs (nshape (snd b))).
  - rewrite A4, A3. reflexivity.
  - rewrite pick_length, zrange_length. lia.
  - rewrite A3. lia.
Qed.
End FuseMain.
End FuseT.
