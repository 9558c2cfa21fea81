(** Lemmas about fermionic signs and operator strings. *)
From Coq Require Import ZArith QArith Bool List Lia Permutation Sorted.
From Verif Require Import DictLib IndexLib SignModel.
Import ListNotations.
Open Scope Z_scope.

Lemma m1pow_add : forall a b, m1pow (a + b) = m1pow a * m1pow b.
Proof. intros. unfold m1pow. rewrite Z.even_add. destruct (Z.even a), (Z.even b); reflexivity. Qed.
Lemma m1pow_sq : forall a, m1pow a * m1pow a = 1.
Proof. intros. unfold m1pow. destruct (Z.even a); reflexivity. Qed.
Lemma prodZ_cons : forall a l, prodZ (a :: l) = a * prodZ l.
Proof. reflexivity. Qed.
Lemma prodZ_perm : forall a b, Permutation a b -> prodZ a = prodZ b.
Proof. unfold prodZ. induction 1; cbn in *; try lia. Qed.
Lemma memZ_in : forall x l, memZ x l = true <-> In x l.
Proof.
  intros. unfold memZ. rewrite existsb_exists. split.
  - intros (y & H & E). apply Z.eqb_eq in E. now subst.
  - intros H. exists x. split; auto. apply Z.eqb_refl.
Qed.

Lemma NoDup_app_remove_l : forall (A : Type) (a b : list A), NoDup (a ++ b) -> NoDup b.
Proof. induction a; cbn; intros b H; auto. inversion H; auto. Qed.

(** *** Specification: the sign of an arrangement of legs *)
Section Sgn.
Variable par : Z -> Z.
(* exchanging two legs x, y costs (-1)^(par x * par y) *)
Definition term (x y : Z) : Z := if y <? x then m1pow (par x * par y) else 1.
(* product over all pairs standing in the wrong order *)
Fixpoint sgn (l : list Z) : Z :=
  match l with [] => 1 | x :: r => prodZ (map (term x) r) * sgn r end.

Lemma sgn_app1 : forall l x, sgn (l ++ [x]) = sgn l * prodZ (map (fun y => term y x) l).
Proof.
  induction l as [|a l IH]; intros x; cbn [app sgn map]; [reflexivity|].
  rewrite IH, map_app, prodZ_app. cbn [map]. rewrite !prodZ_cons. change (prodZ []) with 1. ring.
Qed.
Lemma sgn_swap : forall l1 a b l2, a <> b -> sgn (l1 ++ b :: a :: l2) = sgn (l1 ++ a :: b :: l2) * m1pow (par a * par b).
Proof.
  induction l1 as [|x l1 IH]; intros a b l2 Hn; cbn [app sgn].
  - cbn [map]. rewrite !prodZ_cons. unfold term at 1 4.
    assert (E: m1pow (par b * par a) = m1pow (par a * par b)) by (f_equal; lia). rewrite E.
    pose proof (m1pow_sq (par a * par b)) as S.
    destruct (Z.ltb_spec a b), (Z.ltb_spec b a); try (exfalso; lia); try ring.
    transitivity (prodZ (map (term b) l2) * (prodZ (map (term a) l2) * sgn l2) * (m1pow (par a * par b) * m1pow (par a * par b))); [rewrite S; ring|ring].
  - rewrite (IH a b l2 Hn). rewrite (prodZ_perm (map (term x) (l1 ++ b :: a :: l2)) (map (term x) (l1 ++ a :: b :: l2))); [ring|].
    apply Permutation_map. apply Permutation_app_head. constructor.
Qed.
Lemma sgn_sorted : forall l, StronglySorted Z.lt l -> sgn l = 1.
Proof.
  induction 1; cbn [sgn]; [reflexivity|]. rewrite IHStronglySorted. rewrite Forall_forall in H0.
  enough (E: prodZ (map (term a) l) = 1) by lia. clear - H0. induction l; cbn [map]; [reflexivity|].
  rewrite !prodZ_cons. rewrite IHl by (intros; apply H0; now right).
  unfold term. destruct (Z.ltb_spec a0 a); [|reflexivity]. specialize (H0 a0 (or_introl eq_refl)). lia.
Qed.
Lemma sgn_pm : forall l, sgn l * sgn l = 1.
Proof.
  assert (P: forall x l, prodZ (map (term x) l) * prodZ (map (term x) l) = 1).
  { intros x. induction l; cbn [map]; [reflexivity|]. rewrite !prodZ_cons.
    assert (T: term x a * term x a = 1) by (unfold term; destruct (a <? x); [apply m1pow_sq|reflexivity]). nia. }
  induction l; cbn [sgn]; [reflexivity|]. specialize (P a l). nia.
Qed.
Lemma term_prod_left : forall x l, prodZ (map (term x) l) = m1pow (zsum (map par (filter (fun y => y <? x) l)) * par x).
Proof.
  induction l as [|y l IH]; cbn [map filter]; [reflexivity|]. rewrite !prodZ_cons. rewrite IH.
  unfold term. destruct (y <? x); cbn [map]; [|lia]. rewrite zsum_cons, Z.mul_add_distr_r, m1pow_add. f_equal. f_equal. lia.
Qed.
Lemma term_prod_right : forall x l, prodZ (map (fun y => term y x) l) = m1pow (zsum (map par (filter (fun y => x <? y) l)) * par x).
Proof.
  induction l as [|y l IH]; cbn [map filter]; [reflexivity|]. rewrite !prodZ_cons. rewrite IH.
  unfold term. destruct (x <? y); cbn [map]; [|lia]. rewrite zsum_cons, Z.mul_add_distr_r, m1pow_add. reflexivity.
Qed.
End Sgn.

Lemma sgn_ext : forall par par' l, (forall x, In x l -> par x = par' x) -> sgn par l = sgn par' l.
Proof.
  induction l as [|x l IH]; intros H; cbn [sgn]; [reflexivity|]. rewrite IH by (intros; apply H; now right).
  f_equal. f_equal. apply map_ext_in. intros y Hy. unfold term. rewrite (H x), (H y); auto; [now right|now left].
Qed.

Lemma zrange_sorted : forall n, StronglySorted Z.lt (zrange n).
Proof.
  intros n. unfold zrange. generalize 0%nat at 1. induction (Z.to_nat n); cbn; intros k; constructor; auto.
  apply Forall_forall. intros x Hx. apply in_map_iff in Hx. destruct Hx as (y & <- & Hy). apply in_seq in Hy. lia.
Qed.
Lemma sorted_filter : forall (f : Z -> bool) l, StronglySorted Z.lt l -> StronglySorted Z.lt (filter f l).
Proof.
  induction 1; cbn; [constructor|]. destruct (f a); auto. constructor; auto. rewrite Forall_forall in *.
  intros x Hx. apply filter_In in Hx. apply H0, Hx.
Qed.

(* the legs not in axes, ascending *)
Definition rest_of (n : Z) (axes : list Z) : list Z := filter (fun i => negb (memZ i axes)) (zrange n).
Lemma in_rest_of : forall n axes x, In x (rest_of n axes) <-> 0 <= x < n /\ ~ In x axes.
Proof.
  intros. unfold rest_of. rewrite filter_In, in_zrange, negb_true_iff. rewrite <- memZ_in.
  destruct (memZ x axes); intuition congruence.
Qed.
Lemma zsum_perm_map : forall (f : Z -> Z) a b, Permutation a b -> zsum (map f a) = zsum (map f b).
Proof. intros. apply zsum_perm. now apply Permutation_map. Qed.

Section Phase.
Variable plist : list Z.
Notation n := (Z.of_nat (length plist)).
Notation par := (pget plist).

Let stepf (right : bool) := fun (st : list Z * Z) x =>
    let (counted, phase) := st in
    let range := if right then legs_after n x else legs_before x in
    let parity := zsum (map par (filter (fun i => negb (memZ i counted)) range)) * par x in
    (counted ++ [x], phase * m1pow parity).

Lemma in_legs_after : forall x i, In i (legs_after n x) <-> x < i < n.
Proof.
  intros. unfold legs_after. rewrite in_map_iff. split.
  - intros (j & <- & Hj). apply in_zrange in Hj. lia.
  - intros H. exists (i - (x + 1)). split; [lia|]. apply in_zrange. lia.
Qed.
Lemma legs_after_nodup : forall x, NoDup (legs_after n x).
Proof. intros. unfold legs_after. apply FinFun.Injective_map_NoDup; [intros a b; lia|apply zrange_nodup]. Qed.

Lemma phase_left_gen : forall l c ph rest, NoDup (c ++ l ++ rest) -> (forall x, In x (c ++ l ++ rest) <-> 0 <= x < n) ->
  StronglySorted Z.lt rest -> snd (fold_left (stepf false) l (c, ph)) = ph * sgn par (l ++ rest).
Proof.
  induction l as [|x l IH]; intros c ph rest Hn Hi Hs; cbn [fold_left app].
  - rewrite sgn_sorted by auto. cbn. lia.
  - unfold stepf at 2. cbn [sgn]. rewrite (IH (c ++ [x]) _ rest); auto.
    + rewrite <- Z.mul_assoc. f_equal. f_equal. rewrite term_prod_left. f_equal. f_equal. apply zsum_perm_map. apply NoDup_Permutation.
      * apply NoDup_filter. apply zrange_nodup.
      * apply NoDup_filter. apply NoDup_app_remove_l in Hn. cbn in Hn. now inversion Hn.
      * intros i. rewrite !filter_In. unfold legs_before. rewrite in_zrange, negb_true_iff, Z.ltb_lt.
        assert (In i c \/ ~ In i c) by (destruct (memZ i c) eqn:E; [left; now apply memZ_in|right; rewrite <- memZ_in; congruence]).
        assert (Mi: memZ i c = false <-> ~ In i c) by (rewrite <- memZ_in; destruct (memZ i c); intuition congruence).
        rewrite Mi. assert (Hx: 0 <= x < n) by (apply Hi; apply in_or_app; right; now left).
        split.
        { intros [A B]. split; [|lia]. assert (In i (c ++ (x :: l) ++ rest)) by (apply Hi; lia).
          apply in_app_or in H0. destruct H0 as [|[->|]]; [tauto|lia|auto]. }
        { intros [A B]. split; [split; [|lia]|].
          - assert (0 <= i < n) by (apply Hi; apply in_or_app; right; now right). lia.
          - intro Hc. revert Hn. clear - Hc A. induction c as [|d c IHc]; [destruct Hc|]. cbn. intros N. inversion N; subst.
            destruct Hc as [->|Hc]; [|auto]. apply H1. apply in_or_app. right. now right. }
    + now rewrite <- app_assoc.
    + intros y. rewrite <- app_assoc. apply Hi.
Qed.

Lemma phase_right_gen : forall l c ph rest, NoDup (c ++ l ++ rest) -> (forall x, In x (c ++ l ++ rest) <-> 0 <= x < n) ->
  StronglySorted Z.lt rest -> snd (fold_left (stepf true) l (c, ph)) = ph * sgn par (rest ++ rev l).
Proof.
  induction l as [|x l IH]; intros c ph rest Hn Hi Hs; cbn [fold_left app rev].
  - rewrite app_nil_r, sgn_sorted by auto. cbn. lia.
  - unfold stepf at 2. rewrite app_assoc, sgn_app1. rewrite (IH (c ++ [x]) _ rest); auto.
    + rewrite <- Z.mul_assoc. f_equal. rewrite Z.mul_comm. f_equal. rewrite term_prod_right. f_equal. f_equal. apply zsum_perm_map.
      assert (Hn': NoDup (x :: l ++ rest)) by (apply NoDup_app_remove_l in Hn; exact Hn).
      assert (Nr: NoDup (rest ++ rev l)).
      { inversion Hn'; subst. eapply Permutation_NoDup; [|exact H2]. etransitivity; [apply Permutation_app_comm|].
        apply Permutation_app_head. apply Permutation_rev. }
      apply NoDup_Permutation.
      * apply NoDup_filter. apply legs_after_nodup.
      * apply NoDup_filter. exact Nr.
      * intros i. rewrite !filter_In, in_legs_after, negb_true_iff, Z.ltb_lt.
        assert (Mi: memZ i c = false <-> ~ In i c) by (rewrite <- memZ_in; destruct (memZ i c); intuition congruence).
        rewrite Mi. assert (Ir: In i (rest ++ rev l) <-> In i (l ++ rest)) by (rewrite !in_app_iff, <- in_rev; tauto). rewrite Ir.
        assert (Hx: 0 <= x < n) by (apply Hi; apply in_or_app; right; now left).
        split.
        { intros [A B]. split; [|lia]. assert (In i (c ++ (x :: l) ++ rest)) by (apply Hi; lia).
          apply in_app_or in H. destruct H as [|[->|]]; [tauto|lia|auto]. }
        { intros [A B]. split.
          - assert (0 <= i < n) by (apply Hi; apply in_or_app; right; now right). lia.
          - intro Hc. revert Hn. clear - Hc A. induction c as [|d c IHc]; [destruct Hc|]. cbn. intros N. inversion N; subst.
            destruct Hc as [->|Hc]; [|auto]. apply H1. apply in_or_app. right. now right. }
    + now rewrite <- app_assoc.
    + intros y. rewrite <- app_assoc. apply Hi.
Qed.

Lemma axes_split : forall axes, NoDup axes -> (forall x, In x axes -> 0 <= x < n) ->
  NoDup ([] ++ axes ++ rest_of n axes) /\ (forall x, In x ([] ++ axes ++ rest_of n axes) <-> 0 <= x < n) /\
  StronglySorted Z.lt (rest_of n axes).
Proof.
  intros axes Hn Hi. split; [|split].
  - cbn. assert (Nr: NoDup (rest_of n axes)) by (apply NoDup_filter, zrange_nodup).
    assert (D: forall x, In x axes -> ~ In x (rest_of n axes)) by (intros x Hx Hr; apply in_rest_of in Hr; tauto).
    revert D Nr. generalize (rest_of n axes). intros r. clear Hi. induction Hn; cbn; intros D Nr; auto.
    constructor.
    + rewrite in_app_iff. intros [|Hr]; [auto|]. eapply D; [left; reflexivity|exact Hr].
    + apply IHHn; auto.
  - cbn. intros x. rewrite in_app_iff, in_rest_of. split; [intros [|[]]; auto|]. intros H.
    destruct (in_dec Z.eq_dec x axes); auto.
  - apply sorted_filter, zrange_sorted.
Qed.

Lemma compute_phase_left : forall axes, NoDup axes -> (forall x, In x axes -> 0 <= x < n) ->
  compute_phase true plist axes false = sgn par (axes ++ rest_of n axes).
Proof.
  intros axes Hn Hi. destruct (axes_split axes Hn Hi) as (A & B & C). unfold compute_phase. cbn [negb].
  etransitivity; [exact (phase_left_gen axes [] 1 (rest_of n axes) A B C)|]. lia.
Qed.
Lemma compute_phase_right : forall axes, NoDup axes -> (forall x, In x axes -> 0 <= x < n) ->
  compute_phase true plist axes true = sgn par (rest_of n axes ++ rev axes).
Proof.
  intros axes Hn Hi. destruct (axes_split axes Hn Hi) as (A & B & C). unfold compute_phase. cbn [negb].
  etransitivity; [exact (phase_right_gen axes [] 1 (rest_of n axes) A B C)|]. lia.
Qed.
End Phase.

Lemma perm_rest_nil : forall n axes, Permutation (zrange n) axes -> rest_of n axes = [].
Proof.
  intros n axes H. destruct (rest_of n axes) as [|x r] eqn:E; [reflexivity|]. exfalso.
  assert (Hx: In x (rest_of n axes)) by (rewrite E; now left). apply in_rest_of in Hx. destruct Hx as [A B]. apply B.
  eapply Permutation_in; [exact H|]. now apply in_zrange.
Qed.

(* composition of arrangements *)
Lemma sgn_compose : forall par n (f : Z -> Z) q, (forall a b, 0 <= a < n -> 0 <= b < n -> f a = f b -> a = b) ->
  Permutation (zrange n) q ->
  sgn par (map f q) = sgn par (map f (zrange n)) * sgn (fun i => par (f i)) q.
Proof.
  intros par n f q Hinj Hp.
  assert (G: forall l l', Permutation l l' -> Permutation (zrange n) l ->
    sgn par (map f l) = sgn par (map f (zrange n)) * sgn (fun i => par (f i)) l ->
    sgn par (map f l') = sgn par (map f (zrange n)) * sgn (fun i => par (f i)) l').
  { intros l l' H. pattern l, l'. apply Permutation_ind_transp; [| | |exact H]; clear l l' H.
    - auto.
    - intros y x l1 l2 Hl E.
      assert (Hx: 0 <= x < n /\ 0 <= y < n).
      { split; apply in_zrange; (eapply Permutation_in; [apply Permutation_sym; exact Hl|]); apply in_or_app; right; [now left|right; now left]. }
      assert (Hxy: x <> y).
      { intro. subst y. assert (N: NoDup (l1 ++ x :: x :: l2)) by (eapply Permutation_NoDup; [exact Hl|apply zrange_nodup]).
        apply NoDup_remove_2 in N. apply N. apply in_or_app. right. now left. }
      rewrite map_app in *. cbn [map] in *. rewrite sgn_swap.
      + rewrite E. rewrite (sgn_swap _ l1 x y l2 Hxy). ring.
      + intro Hf. apply Hxy. apply Hinj; tauto.
    - intros l1 l2 l3 H1 I1 H2 I2 Hz E. apply I2; [etransitivity; eauto|]. now apply I1. }
  apply (G (zrange n) q Hp); [reflexivity|]. rewrite (sgn_sorted _ (zrange n)) by apply zrange_sorted. lia.
Qed.

(** *** Operator strings *)
(* an associative algebra over the rationals, not assumed commutative *)
Record OpAlg := {
  oA : Type;
  oadd : oA -> oA -> oA; ozero : oA; oopp : oA -> oA;
  omul : oA -> oA -> oA; oone : oA; oscal : Q -> oA -> oA;
  oadd_comm : forall a b, oadd a b = oadd b a;
  oadd_assoc : forall a b c, oadd a (oadd b c) = oadd (oadd a b) c;
  oadd_0 : forall a, oadd ozero a = a;
  oadd_opp : forall a, oadd a (oopp a) = ozero;
  omul_assoc : forall a b c, omul a (omul b c) = omul (omul a b) c;
  omul_1l : forall a, omul oone a = a;
  omul_1r : forall a, omul a oone = a;
  omul_addl : forall a b c, omul (oadd a b) c = oadd (omul a c) (omul b c);
  omul_addr : forall a b c, omul a (oadd b c) = oadd (omul a b) (omul a c);
  oscal_eq : forall p q a, (p == q)%Q -> oscal p a = oscal q a;
  oscal_1 : forall a, oscal 1 a = a;
  oscal_mul : forall p q a, oscal p (oscal q a) = oscal (p * q) a;
  oscal_addq : forall p q a, oscal (p + q) a = oadd (oscal p a) (oscal q a);
  oscal_adda : forall p a b, oscal p (oadd a b) = oadd (oscal p a) (oscal p b)
}.

Section Alg.
Variable G : OpAlg.
Notation "a +' b" := (oadd G a b) (at level 50, left associativity).
Notation "a *' b" := (omul G a b) (at level 40, left associativity).
Notation "-' a" := (oopp G a) (at level 35).

Lemma o_cancel : forall a b c, a +' b = a +' c -> b = c.
Proof.
  intros a b c H. rewrite <- (oadd_0 G b), <- (oadd_0 G c), <- (oadd_opp G a), (oadd_comm G a), <- !(oadd_assoc G), H. reflexivity.
Qed.
Lemma o_mul0l : forall a, ozero G *' a = ozero G.
Proof. intros. apply (o_cancel (ozero G *' a)). rewrite <- omul_addl, oadd_0, oadd_comm, oadd_0. reflexivity. Qed.
Lemma o_mul0r : forall a, a *' ozero G = ozero G.
Proof. intros. apply (o_cancel (a *' ozero G)). rewrite <- omul_addr, oadd_0, oadd_comm, oadd_0. reflexivity. Qed.
Lemma o_mulol : forall a b, (-' a) *' b = -' (a *' b).
Proof. intros. apply (o_cancel (a *' b)). rewrite <- omul_addl, !oadd_opp. apply o_mul0l. Qed.
Lemma o_mulor : forall a b, a *' (-' b) = -' (a *' b).
Proof. intros. apply (o_cancel (a *' b)). rewrite <- omul_addr, !oadd_opp. apply o_mul0r. Qed.
Lemma o_oppopp : forall a, -' (-' a) = a.
Proof. intros. apply (o_cancel (-' a)). rewrite oadd_opp, oadd_comm, oadd_opp. reflexivity. Qed.
Lemma o_scal0 : forall a, oscal G 0 a = ozero G.
Proof.
  intros. apply (o_cancel (oscal G 0 a)). rewrite <- oscal_addq.
  rewrite (oscal_eq G (0+0)%Q 0%Q) by reflexivity. rewrite (oadd_comm G _ (ozero G)), oadd_0. reflexivity.
Qed.
Lemma o_scalopp : forall q a, oscal G (- q)%Q a = -' (oscal G q a).
Proof.
  intros. apply (o_cancel (oscal G q a)). rewrite <- oscal_addq, oadd_opp.
  rewrite (oscal_eq G (q + - q)%Q 0%Q) by ring. apply o_scal0.
Qed.
Lemma o_scalz : forall q, oscal G q (ozero G) = ozero G.
Proof. intros. apply (o_cancel (oscal G q (ozero G))). rewrite <- oscal_adda, oadd_0, oadd_comm, oadd_0. reflexivity. Qed.
Lemma o_scalopp_r : forall q a, oscal G q (-' a) = -' (oscal G q a).
Proof. intros. apply (o_cancel (oscal G q a)). rewrite <- oscal_adda, !oadd_opp. apply o_scalz. Qed.

(* meaning of a string and of a sum under an interpretation of the symbols *)
Variable ev : opsym -> oA G.
Definition ops_value (l : list opsym) : oA G := fold_right (fun o a => ev o *' a) (oone G) l.
Definition string_value (s : opstring) : oA G := oscal G (snd s) (ops_value (fst s)).
Definition sum_value (l : list opstring) : oA G := fold_right (fun s a => string_value s +' a) (ozero G) l.

Lemma ops_value_cons : forall o l, ops_value (o :: l) = ev o *' ops_value l.
Proof. reflexivity. Qed.
Lemma ops_value_app : forall a b, ops_value (a ++ b) = ops_value a *' ops_value b.
Proof. induction a; intros b; cbn [app]; rewrite ?ops_value_cons; [cbn; now rewrite omul_1l|]. now rewrite IHa, omul_assoc. Qed.
End Alg.

(* tuple order facts *)
Lemma tlt_irrefl : forall a, tlt a a = false.
Proof. induction a; cbn; auto. now rewrite Z.eqb_refl. Qed.
Lemma tlt_trans : forall a b c, tlt a b = true -> tlt b c = true -> tlt a c = true.
Proof.
  induction a as [|x a IH]; intros [|y b] [|z c]; cbn; try congruence. intros H1 H2.
  destruct (Z.eqb_spec x y), (Z.eqb_spec y z), (Z.eqb_spec x z); subst; try lia; eauto; try congruence.
Qed.
Lemma tlt_total : forall a b, tlt a b = false -> tlt b a = false -> a = b.
Proof.
  induction a as [|x a IH]; intros [|y b]; cbn; try congruence. destruct (Z.eqb_spec x y), (Z.eqb_spec y x); try lia; intros.
  subst. f_equal. auto.
Qed.
Lemma teq_spec : forall a b, teq a b = true <-> a = b.
Proof.
  induction a; intros [|y b]; cbn; split; try congruence; rewrite ?andb_true_iff, ?Z.eqb_eq, ?IHa.
  - intros []; congruence. - intros [= -> ->]; auto.
Qed.
Lemma op_eqb_spec : forall a b, op_eqb a b = true <-> a = b.
Proof.
  intros [] []. unfold op_eqb. cbn. rewrite andb_true_iff, Z.eqb_eq, teq_spec. split; [intros []; congruence|intros [= -> ->]; auto].
Qed.
Lemma ops_eqb_spec : forall a b, ops_eqb a b = true <-> a = b.
Proof.
  induction a; intros [|y b]; cbn; split; try congruence; rewrite ?andb_true_iff, ?op_eqb_spec, ?IHa.
  - intros []; congruence. - intros [= -> ->]; auto.
Qed.

Section SortValue.
Variable G : OpAlg.
Variable ev : opsym -> oA G.
Variable anti : bool.
Notation "a +' b" := (oadd G a b) (at level 50, left associativity).
Notation "a *' b" := (omul G a b) (at level 40, left associativity).
Notation "-' a" := (oopp G a) (at level 35).
Definition osg (b : bool) (a : oA G) : oA G := if b then -' a else a.
Hypothesis Hex : forall x y, site x <> site y -> ev x *' ev y = osg anti (ev y *' ev x).

Lemma osg_osg : forall b c a, osg b (osg c a) = osg (xorb b c) a.
Proof. intros [] [] a; cbn; auto. apply o_oppopp. Qed.
Lemma osg_mull : forall b x a, osg b x *' a = osg b (x *' a).
Proof. intros [] x a; cbn; auto. apply o_mulol. Qed.
Lemma osg_mulr : forall b x a, x *' osg b a = osg b (x *' a).
Proof. intros [] x a; cbn; auto. apply o_mulor. Qed.
Lemma osg_scal : forall b q a, oscal G q (osg b a) = osg b (oscal G q a).
Proof. intros [] q a; cbn; auto. apply o_scalopp_r. Qed.

Definition inv1 (x : opsym) (l : list opsym) : bool :=
  fold_right (fun y b => xorb (anti && tlt (site y) (site x)) b) false l.
Lemma inv1_perm : forall x a b, Permutation a b -> inv1 x a = inv1 x b.
Proof.
  induction 1; unfold inv1 in *; cbn; try congruence. rewrite <- !xorb_assoc. f_equal. apply xorb_comm.
Qed.
Fixpoint invs (l : list opsym) : bool := match l with [] => false | x :: r => xorb (inv1 x r) (invs r) end.

Notation le_site := (le_key tlt site).
Lemma insert_value : forall x l, StronglySorted le_site l ->
  ops_value G ev (x :: l) = osg (inv1 x l) (ops_value G ev (insert_by tlt site x l)).
Proof.
  induction l as [|y l IH]; intros Hs; cbn [insert_by]; [reflexivity|].
  inversion Hs; subst. destruct (tlt (site y) (site x)) eqn:E.
  - rewrite (ops_value_cons _ _ y (insert_by tlt site x l)). unfold inv1. cbn [fold_right]. fold (inv1 x l). rewrite E, andb_true_r.
    rewrite <- osg_osg, <- osg_mulr, <- IH by auto. rewrite !ops_value_cons.
    rewrite (omul_assoc G (ev x)), Hex, osg_mull, omul_assoc; [reflexivity|].
    intro S. rewrite S, tlt_irrefl in E. discriminate.
  - assert (Z: inv1 x (y :: l) = false); [|now rewrite Z].
    unfold inv1. cbn [fold_right]. rewrite E, andb_false_r, xorb_false_l. fold (inv1 x l).
    assert (F: forall z, In z l -> tlt (site z) (site x) = false).
    { intros z Hz. rewrite Forall_forall in H2. specialize (H2 z Hz). destruct (tlt (site z) (site x)) eqn:T; [|reflexivity].
      exfalso. destruct H2 as [H2|H2].
      - rewrite <- H2 in T. congruence.
      - pose proof (tlt_trans _ _ _ H2 T). congruence. }
    clear - F. induction l as [|z l IHl]; [reflexivity|]. unfold inv1. cbn [fold_right]. rewrite F by now left.
    rewrite andb_false_r, xorb_false_l. apply IHl; intros; apply F; now right.
Qed.

Lemma tlt_total' : forall a b, a <> b -> tlt a b = true \/ tlt b a = true.
Proof.
  intros a b H. destruct (tlt a b) eqn:E1; auto. destruct (tlt b a) eqn:E2; auto. elim H. now apply tlt_total.
Qed.
Lemma site_sort_sorted : forall l, StronglySorted le_site (sort_by tlt site l).
Proof. intros. apply sort_sorted; [exact tlt_trans|exact tlt_total'|apply list_eq_dec, Z.eq_dec]. Qed.

Lemma sort_value : forall l, ops_value G ev l = osg (invs l) (ops_value G ev (sort_by tlt site l)).
Proof.
  induction l as [|x l IH]; [reflexivity|]. cbn [invs sort_by fold_right]. fold (sort_by tlt site l).
  rewrite ops_value_cons, IH, osg_mulr, <- ops_value_cons, (insert_value x (sort_by tlt site l)) by apply site_sort_sorted.
  rewrite osg_osg, xorb_comm. f_equal. f_equal. apply inv1_perm. apply Permutation_sym, sort_perm.
Qed.
End SortValue.

Lemma sign_loop_scal : forall G ops f a, oscal G (sign_loop ops f) a = osg G (invs true ops) (oscal G f a).
Proof.
  intros G. assert (F: forall x l f a, oscal G (fold_left (fun f jx => if tlt (site jx) (site x) then Qopp f else f) l f) a = osg G (inv1 true x l) (oscal G f a)).
  { induction l as [|y l IH]; intros f a; cbn [fold_left]; [reflexivity|]. rewrite IH. unfold inv1. cbn [fold_right]. fold (inv1 true x l).
    cbn [andb]. destruct (tlt (site y) (site x)); [|now rewrite xorb_false_l]. rewrite xorb_comm, <- osg_osg. f_equal. apply o_scalopp. }
  induction ops as [|x ops IH]; intros f a; cbn [sign_loop invs]; [reflexivity|]. rewrite IH, F, osg_osg. f_equal. apply xorb_comm.
Qed.
Lemma invs_false : forall l, invs false l = false.
Proof.
  induction l; cbn; auto. rewrite IHl. enough (E: inv1 false a l = false) by (rewrite E; reflexivity). clear. induction l as [|y l IH]; [reflexivity|]. unfold inv1. cbn [fold_right andb]. rewrite xorb_false_l. exact IH.
Qed.
Lemma string_sort_value : forall G ev b s, (forall x y, site x <> site y -> omul G (ev x) (ev y) = osg G b (omul G (ev y) (ev x))) ->
  string_value G ev (string_sort b s) = string_value G ev s.
Proof.
  intros G ev b [ops f] H. unfold string_value, string_sort. cbn [fst snd]. rewrite (sort_value G ev b H ops). rewrite osg_scal. destruct b.
  - apply sign_loop_scal.
  - now rewrite invs_false.
Qed.

(* stability *)
Lemma filter_insert : forall s x l, filter (fun o => teq (site o) s) (insert_by tlt site x l) = filter (fun o => teq (site o) s) (x :: l).
Proof.
  induction l as [|y l IH]; cbn [insert_by]; [reflexivity|]. destruct (tlt (site y) (site x)) eqn:E; [|reflexivity].
  cbn [filter] in *. rewrite IH. destruct (teq (site y) s) eqn:T1, (teq (site x) s) eqn:T2; try reflexivity.
  apply teq_spec in T1, T2. rewrite T1, T2, tlt_irrefl in E. discriminate.
Qed.
Lemma filter_sort : forall s l, filter (fun o => teq (site o) s) (sort_by tlt site l) = filter (fun o => teq (site o) s) l.
Proof.
  induction l as [|x l IH]; [reflexivity|]. cbn [sort_by fold_right]. fold (sort_by tlt site l). rewrite filter_insert. cbn [filter].
  rewrite IH. reflexivity.
Qed.

(** *** simplify *)
(* total factor in front of a product of symbols *)
Definition coef (l : list opstring) (k : list opsym) : Q :=
  fold_right (fun s a => if ops_eqb (fst s) k then (snd s + a)%Q else a) 0%Q l.
Definition oget (d : dict (list opsym) Q) (k : list opsym) : Q := match dget ops_eqb d k with Some v => v | None => 0%Q end.
Lemma ops_eqb_refl' : forall a b, reflect (a = b) (ops_eqb a b).
Proof. intros. destruct (ops_eqb a b) eqn:E; constructor; [now apply ops_eqb_spec|]. intro H. apply ops_eqb_spec in H. congruence. Qed.

Lemma collect_gen : forall l d k,
  (oget (fold_left (fun mp s => dset ops_eqb mp (fst s) (oget mp (fst s) + snd s)%Q) l d) k == oget d k + coef l k)%Q.
Proof.
  induction l as [|s l IH]; intros d k; cbn [fold_left coef fold_right].
  - ring.
  - rewrite IH. unfold oget at 1. rewrite dget_dset by apply ops_eqb_refl'. fold (coef l k).
    destruct (ops_eqb_refl' (fst s) k) as [->|N].
    + ring.
    + fold (oget d k). ring.
Qed.
Lemma collect_coef : forall l k, (oget (collect_strings l) k == coef l k)%Q.
Proof. intros. unfold collect_strings. rewrite (collect_gen l [] k). cbn. ring. Qed.
Lemma collect_nodup : forall l, NoDup (map fst (collect_strings l)).
Proof.
  intros l. unfold collect_strings. assert (H: NoDup (keys (@nil (list opsym * Q)))) by constructor. revert H. generalize (@nil (list opsym * Q)).
  induction l as [|s l IH]; intros d H; cbn [fold_left]; auto. apply IH. apply nodup_dset; auto. apply ops_eqb_refl'.
Qed.
Lemma coef_dict : forall d k, NoDup (map fst d) -> (coef d k == oget d k)%Q.
Proof.
  induction d as [|[k' v] d IH]; intros k H; cbn [map fst] in H; [reflexivity|]. inversion H; subst.
  unfold oget. cbn [coef fold_right fst snd dget]. fold (coef d k). destruct (ops_eqb_refl' k' k) as [->|N].
  - rewrite IH by auto. unfold oget. destruct (dget ops_eqb d k) eqn:E; [|ring].
    exfalso. apply H2. apply (dget_some_key ops_eqb ops_eqb_refl') in E. exact E.
  - rewrite IH by auto. reflexivity.
Qed.
Lemma filter_nodup_keys : forall (f : list opsym * Q -> bool) d, NoDup (map fst d) -> NoDup (map fst (filter f d)).
Proof.
  induction d as [|p d IH]; cbn; intros H; [constructor|]. inversion H; subst. destruct (f p); cbn; auto. constructor; auto.
  intro Hi. apply H2. apply in_map_iff in Hi. destruct Hi as (q & E & Hq). apply filter_In in Hq. rewrite <- E. apply in_map. tauto.
Qed.
Lemma coef_filter : forall (f : list opsym * Q -> bool) d k, NoDup (map fst d) ->
  (coef (filter f d) k == match dget ops_eqb d k with Some v => if f (k, v) then v else 0 | None => 0 end)%Q.
Proof.
  intros f d k H. rewrite coef_dict by now apply filter_nodup_keys. unfold oget.
  destruct (dget ops_eqb d k) as [v|] eqn:E.
  - destruct (f (k, v)) eqn:F.
    + rewrite (in_dget ops_eqb ops_eqb_refl' (filter f d) k v); [reflexivity|now apply filter_nodup_keys|].
      apply filter_In. split; auto. apply (dget_in ops_eqb ops_eqb_refl'). exact E.
    + destruct (dget ops_eqb (filter f d) k) as [w|] eqn:E2; [|reflexivity].
      apply (dget_in ops_eqb ops_eqb_refl') in E2. apply filter_In in E2. destruct E2 as [I F2].
      apply (in_dget ops_eqb ops_eqb_refl' d k w H) in I. rewrite E in I. congruence.
  - destruct (dget ops_eqb (filter f d) k) as [w|] eqn:E2; [|reflexivity].
    apply (dget_in ops_eqb ops_eqb_refl') in E2. apply filter_In in E2. destruct E2 as [I F2].
    apply (in_dget ops_eqb ops_eqb_refl' d k w H) in I. congruence.
Qed.

Lemma qabs'_eq : forall q r, (q == r)%Q -> (Qabs' q == Qabs' r)%Q.
Proof.
  intros q r H. unfold Qabs'. destruct (Qle_bool 0 q) eqn:A, (Qle_bool 0 r) eqn:B; try now rewrite H.
  - apply Qle_bool_iff in A. rewrite H in A. apply Qle_bool_iff in A. congruence.
  - apply Qle_bool_iff in B. rewrite <- H in B. apply Qle_bool_iff in B. congruence.
Qed.
Lemma qle_bool_eq : forall q r t, (q == r)%Q -> Qle_bool q t = Qle_bool r t.
Proof.
  intros q r t H. destruct (Qle_bool q t) eqn:A, (Qle_bool r t) eqn:B; auto.
  - apply Qle_bool_iff in A. rewrite H in A. apply Qle_bool_iff in A. congruence.
  - apply Qle_bool_iff in B. rewrite <- H in B. apply Qle_bool_iff in B. congruence.
Qed.
Lemma simplify_coef : forall l k, (coef (simplify l) k == if Qle_bool (Qabs' (coef l k)) tiny then 0 else coef l k)%Q.
Proof.
  intros l k. unfold simplify. rewrite coef_filter by apply collect_nodup. cbn [snd].
  pose proof (collect_coef l k) as C. unfold oget in C.
  rewrite <- (qle_bool_eq _ _ tiny (qabs'_eq _ _ C)).
  destruct (dget ops_eqb (collect_strings l) k) as [v|]; cbn [negb].
  - destruct (Qle_bool (Qabs' v) tiny); cbn; [reflexivity|exact C].
  - cbn. reflexivity.
Qed.

Section SumValue.
Variable G : OpAlg.
Variable ev : opsym -> oA G.
Lemma sum_dset : forall d k f, NoDup (map fst d) -> sum_value G ev (dset ops_eqb d k (oget d k + f)%Q) = oadd G (string_value G ev (k, f)) (sum_value G ev d).
Proof.
  induction d as [|[k' v] d IH]; intros k f H.
  - cbn. unfold string_value. cbn. f_equal. apply oscal_eq. ring.
  - inversion H; subst. unfold oget. cbn [dset dget]. destruct (ops_eqb_refl' k' k) as [->|N].
    + cbn [sum_value fold_right]. rewrite oadd_assoc. f_equal. unfold string_value. cbn [fst snd].
      rewrite <- oscal_addq. apply oscal_eq. ring.
    + cbn [sum_value fold_right]. fold (sum_value G ev d). fold (oget d k). fold (sum_value G ev (dset ops_eqb d k (oget d k + f)%Q)).
      rewrite IH by auto. rewrite !oadd_assoc. f_equal. apply oadd_comm.
Qed.
Lemma collect_value : forall l, sum_value G ev (collect_strings l) = sum_value G ev l.
Proof.
  intros l. enough (E: forall l d, NoDup (map fst d) ->
    sum_value G ev (fold_left (fun mp s => dset ops_eqb mp (fst s) (oget mp (fst s) + snd s)%Q) l d) = oadd G (sum_value G ev l) (sum_value G ev d)).
  { unfold collect_strings. etransitivity; [apply (E l []); constructor|]. cbn. now rewrite oadd_comm, oadd_0. }
  clear l. induction l as [|s l IH]; intros d H; cbn [fold_left].
  - cbn. now rewrite oadd_0.
  - rewrite IH; [|apply (nodup_dset ops_eqb ops_eqb_refl'); exact H]. rewrite sum_dset by auto.
    cbn [sum_value fold_right]. fold (sum_value G ev l). rewrite (surjective_pairing s) at 3.
    rewrite !oadd_assoc. f_equal. apply oadd_comm.
Qed.
Lemma filter_value : forall (f : opstring -> bool) d, (forall s, In s d -> f s = false -> (snd s == 0)%Q) -> sum_value G ev (filter f d) = sum_value G ev d.
Proof.
  induction d as [|s d IH]; intros H; [reflexivity|]. cbn [filter]. destruct (f s) eqn:E; cbn [sum_value fold_right];
    fold (sum_value G ev d); fold (sum_value G ev (filter f d)); rewrite IH by (intros; apply H; auto; now right).
  - reflexivity.
  - unfold string_value. rewrite (oscal_eq G (snd s) 0%Q) by (apply H; [now left|auto]). now rewrite o_scal0, oadd_0.
Qed.
Lemma simplify_value : forall l, (forall k, (coef l k == 0)%Q \/ (tiny < Qabs' (coef l k))%Q) ->
  sum_value G ev (simplify l) = sum_value G ev l.
Proof.
  intros l H. unfold simplify. rewrite filter_value; [apply collect_value|].
  intros [k v] Hi Hf. cbn [snd] in *. apply (in_dget ops_eqb ops_eqb_refl' _ _ _ (collect_nodup l)) in Hi.
  pose proof (collect_coef l k) as C. unfold oget in C. rewrite Hi in C. apply negb_false_iff, Qle_bool_iff in Hf.
  destruct (H k) as [Z|Z]; [now rewrite C|]. rewrite (qabs'_eq _ _ C) in Hf. exfalso. now apply (Qlt_not_le _ _ Z).
Qed.
End SumValue.

(** *** Counting form and contraction order *)
Definition oddb (k : Z) : bool := negb (Z.even k).
Fixpoint odd_inversions (par : Z -> Z) (l : list Z) : Z :=
  match l with
  | [] => 0
  | x :: r => Z.of_nat (length (filter (fun y => (y <? x) && oddb (par x) && oddb (par y)) r)) + odd_inversions par r
  end.
Lemma m1pow_mul : forall a b, m1pow (a * b) = if oddb a && oddb b then -1 else 1.
Proof. intros. unfold m1pow, oddb. rewrite Z.even_mul. destruct (Z.even a), (Z.even b); reflexivity. Qed.
Lemma sgn_count : forall par l, sgn par l = m1pow (odd_inversions par l).
Proof.
  induction l as [|x l IH]; cbn [sgn odd_inversions]; [reflexivity|]. rewrite m1pow_add, IH. f_equal. clear IH.
  induction l as [|y l IH]; cbn [map filter]; [reflexivity|]. rewrite prodZ_cons, IH. unfold term. rewrite m1pow_mul.
  destruct (y <? x); cbn [andb]; [|lia]. destruct (oddb (par x) && oddb (par y)); [|lia]. cbn [length]. rewrite Nat2Z.inj_succ.
  unfold Z.succ. rewrite m1pow_add. change (m1pow 1) with (-1). lia.
Qed.
Lemma rest_of_perm : forall n a b, Permutation a b -> rest_of n a = rest_of n b.
Proof.
  intros n a b H. unfold rest_of. apply filter_ext. intros i. f_equal. destruct (memZ i a) eqn:A, (memZ i b) eqn:B; auto.
  - apply memZ_in in A. apply (Permutation_in _ H), memZ_in in A. congruence.
  - apply memZ_in in B. apply (Permutation_in _ (Permutation_sym H)), memZ_in in B. congruence.
Qed.
Lemma contraction_order : forall pa pb l l', Permutation l l' ->
  NoDup (map fst l) -> (forall p, In p l -> 0 <= fst p < Z.of_nat (length pa)) ->
  NoDup (map snd l) -> (forall p, In p l -> 0 <= snd p < Z.of_nat (length pb)) ->
  (forall p, In p l -> pget pa (fst p) = pget pb (snd p)) ->
  compute_phase true pa (map fst l) true * compute_phase true pb (map snd l) false =
  compute_phase true pa (map fst l') true * compute_phase true pb (map snd l') false.
Proof.
  intros pa pb l l' H. pattern l, l'. apply Permutation_ind_transp; [| | |exact H]; clear l l' H.
  - reflexivity.
  - intros y x l1 l2 Na Ia Nb Ib Hp.
    assert (Hperm: forall A (f : Z * Z -> A), Permutation (map f (l1 ++ x :: y :: l2)) (map f (l1 ++ y :: x :: l2)))
      by (intros; apply Permutation_map, Permutation_app_head; constructor).
    assert (Ix: In x (l1 ++ x :: y :: l2)) by (apply in_or_app; right; now left).
    assert (Iy: In y (l1 ++ x :: y :: l2)) by (apply in_or_app; right; right; now left).
    rewrite !compute_phase_right, !compute_phase_left; auto.
    + rewrite <- (rest_of_perm _ _ _ (Hperm _ fst)), <- (rest_of_perm _ _ _ (Hperm _ snd)).
      generalize (rest_of (Z.of_nat (length pa)) (map fst (l1 ++ x :: y :: l2))).
      generalize (rest_of (Z.of_nat (length pb)) (map snd (l1 ++ x :: y :: l2))). intros rb ra.
      assert (Dx: fst x <> fst y).
      { intro E. rewrite map_app in Na. cbn in Na. rewrite E in Na. apply NoDup_remove_2 in Na. apply Na. apply in_or_app. right. now left. }
      assert (Dy: snd x <> snd y).
      { intro E. rewrite map_app in Nb. cbn in Nb. rewrite E in Nb. apply NoDup_remove_2 in Nb. apply Nb. apply in_or_app. right. now left. }
      rewrite !map_app. cbn [map]. rewrite !rev_app_distr. cbn [rev]. rewrite <- !app_assoc. cbn [app].
      rewrite (app_assoc ra), (app_assoc ra).
      rewrite (sgn_swap (pget pa) (ra ++ rev (map fst l2)) (fst y) (fst x) (rev (map fst l1))) by congruence.
      rewrite (sgn_swap (pget pb) (map snd l1) (snd x) (snd y) (map snd l2 ++ rb)) by auto.
      rewrite (Hp x Ix), (Hp y Iy). pose proof (m1pow_sq (pget pb (snd x) * pget pb (snd y))) as S.
      rewrite (Z.mul_comm (pget pb (snd y))).
      set (m := m1pow _) in *. set (u := sgn (pget pa) _). set (v := sgn (pget pb) _).
      transitivity (u * v * (m * m)); [rewrite S; ring|ring].
    + eapply Permutation_NoDup; [apply Hperm|auto].
    + intros z Hz. apply (Permutation_in _ (Permutation_sym (Hperm _ snd))) in Hz. apply in_map_iff in Hz. destruct Hz as (p & <- & Hq). auto.
    + intros z Hz. apply in_map_iff in Hz. destruct Hz as (p & <- & Hq). auto.
    + eapply Permutation_NoDup; [apply Hperm|auto].
    + intros z Hz. apply (Permutation_in _ (Permutation_sym (Hperm _ fst))) in Hz. apply in_map_iff in Hz. destruct Hz as (p & <- & Hq). auto.
    + intros z Hz. apply in_map_iff in Hz. destruct Hz as (p & <- & Hq). auto.
  - intros l1 l2 l3 P1 I1 P2 I2 A B C D E. rewrite I1; auto. apply I2.
    + eapply Permutation_NoDup; [apply Permutation_map; exact P1|auto].
    + intros. apply B. eapply Permutation_in; [apply Permutation_sym; exact P1|auto].
    + eapply Permutation_NoDup; [apply Permutation_map; exact P1|auto].
    + intros. apply D. eapply Permutation_in; [apply Permutation_sym; exact P1|auto].
    + intros. apply E. eapply Permutation_in; [apply Permutation_sym; exact P1|auto].
Qed.
