(** Lemmas about the quantum label model (SymModel.v). *)
From Coq Require Import ZArith Bool List Ascii Lia ZifyBool Eqdep_dec.
From Verif Require Import SymModel.
Import ListNotations.
Open Scope Z_scope.
Ltac Zify.zify_post_hook ::= Z.div_mod_to_equations.

(** ** Specification notions *)
Definition in_window (n : Z) : Prop := -8192 <= n <= 8191.
Definition sz_ok (q : SZ) : Prop :=
  in_window (sz_n q) /\ in_window (sz_twos q) /\ 0 <= sz_pg q <= 7.
Definition u1_ok (c : u1cls) (n : Z) : Prop :=
  match c with cU1 => in_window n | cZ2 => 0 <= n < 2 | cZ4 => 0 <= n < 4 end.
Definition u11_ok (c : u11cls) (q : u11) : Prop :=
  match c with
  | cU11 => in_window (fst q) /\ in_window (snd q)
  | cZ22 => 0 <= fst q < 2 /\ 0 <= snd q < 2
  end.
(* a label of the class: what the constructor can produce *)
Definition u1_lab (c : u1cls) (n : Z) : Prop :=
  match c with cU1 => True | cZ2 => 0 <= n < 2 | cZ4 => 0 <= n < 4 end.
Definition u11_lab (c : u11cls) (q : u11) : Prop :=
  match c with cU11 => True | cZ22 => 0 <= fst q < 2 /\ 0 <= snd q < 2 end.

(** ** SZ codec *)
Lemma sz_eq : forall a b, sz_n a = sz_n b -> sz_twos a = sz_twos b -> sz_pg a = sz_pg b -> a = b.
Proof. intros [] []; simpl; congruence. Qed.

Lemma sz_roundtrip : forall q, sz_ok q -> sz_from_flat (sz_to_flat q) = q.
Proof.
  intros q (H1 & H2 & H3). unfold in_window in *.
  apply sz_eq; unfold sz_from_flat, sz_to_flat; cbn [sz_n sz_twos sz_pg]; lia.
Qed.

Lemma sz_roundtrip_code : forall x, 0 <= x < 2147483648 ->
  sz_to_flat (sz_from_flat x) = x /\ sz_ok (sz_from_flat x).
Proof.
  intros x Hx. unfold sz_ok, in_window, sz_from_flat, sz_to_flat; cbn [sz_n sz_twos sz_pg].
  repeat split; lia.
Qed.

Lemma sz_code_range : forall q, sz_ok q -> 0 <= sz_to_flat q < 2147483648.
Proof. intros q (H1 & H2 & H3). unfold in_window, sz_to_flat in *. lia. Qed.

Lemma sz_flat_inj : forall a b, sz_ok a -> sz_ok b -> sz_to_flat a = sz_to_flat b -> a = b.
Proof. intros a b Ha Hb H. rewrite <- (sz_roundtrip a Ha), <- (sz_roundtrip b Hb). congruence. Qed.

Lemma sz_flat_order : forall a b, sz_ok a -> sz_ok b ->
  sz_ltb a b = (sz_to_flat a <? sz_to_flat b).
Proof.
  intros a b (H1 & H2 & H3) (K1 & K2 & K3). unfold in_window, sz_ltb, sz_to_flat in *.
  destruct (Z.eqb_spec (sz_n a) (sz_n b)); [destruct (Z.eqb_spec (sz_twos a) (sz_twos b))|];
  apply eq_true_iff_eq; rewrite !Z.ltb_lt; lia.
Qed.

Lemma land_131072 : forall x, negb (Z.land x 131072 =? 0) = ((x / 131072) mod 2 =? 1).
Proof.
  intros x. change 131072 with (2 ^ 17).
  rewrite <- Z.testbit_spec' by lia.
  assert (H: Z.land x (2 ^ 17) = if Z.testbit x 17 then 2 ^ 17 else 0).
  { apply Z.bits_inj'. intros n Hn. rewrite Z.land_spec, Z.pow2_bits_eqb by lia.
    destruct (Z.eqb_spec 17 n) as [E|E].
    - subst. rewrite andb_true_r.
      destruct (Z.testbit x 17) eqn:Et; [rewrite Z.pow2_bits_true by lia|rewrite Z.testbit_0_l]; reflexivity.
    - rewrite andb_false_r. destruct (Z.testbit x 17).
      + rewrite Z.pow2_bits_eqb by lia. destruct (Z.eqb_spec 17 n); congruence.
      + rewrite Z.testbit_0_l. reflexivity. }
  rewrite H. destruct (Z.testbit x 17); reflexivity.
Qed.

Lemma sz_flat_fermion : forall q, sz_ok q ->
  sz_is_flat_fermion (sz_to_flat q) = sz_is_fermion q.
Proof.
  intros q (H1 & H2 & H3). unfold sz_is_flat_fermion. rewrite land_131072.
  unfold in_window, sz_is_fermion, sz_to_flat in *. apply eq_true_iff_eq. rewrite !Z.eqb_eq. lia.
Qed.

(** ** U1 family codec *)
Lemma u1_roundtrip : forall c n, u1_ok c n -> u1_from_flat c (u1_to_flat c n) = n.
Proof.
  intros [] n H; unfold u1_ok, in_window, u1_from_flat, u1_to_flat, u1_mk, u1_flat_to_qpn, u1_qpn_to_flat in *; lia.
Qed.

Lemma u1_roundtrip_any : forall c n, u1_lab c n -> u1_from_flat c (u1_to_flat c n) = n.
Proof.
  intros [] n H; unfold u1_lab, u1_from_flat, u1_to_flat, u1_mk, u1_flat_to_qpn, u1_qpn_to_flat in *; lia.
Qed.

Lemma u1_flat_order : forall c a b, u1_ok c a -> u1_ok c b ->
  u1_ltb a b = (u1_to_flat c a <? u1_to_flat c b).
Proof.
  intros c a b Ha Hb; destruct c; unfold u1_ok, in_window, u1_ltb, u1_to_flat, u1_qpn_to_flat in *;
  apply eq_true_iff_eq; rewrite !Z.ltb_lt; lia.
Qed.

Lemma u1_flat_parity : forall c a, u1_lab c a ->
  u1_flat_to_parity c (u1_to_flat c a) = u1_parity a.
Proof.
  intros c a Ha; destruct c; unfold u1_lab, u1_flat_to_parity, u1_to_flat, u1_qpn_to_flat, u1_parity in *; lia.
Qed.

Lemma u1_flip : forall c a, u1_lab c a -> u1_flip_flat c (u1_to_flat c a) = u1_to_flat c (u1_neg c a).
Proof.
  intros c a Ha; destruct c; unfold u1_lab, u1_flip_flat, u1_to_flat, u1_qpn_to_flat, u1_neg, u1_mk in *; lia.
Qed.

(** ** U11 family codec *)
Lemma u11_roundtrip : forall c q, u11_ok c q -> u11_from_flat c (u11_to_flat c q) = q.
Proof.
  intros c [n s] H; destruct c;
  unfold u11_ok, in_window, u11_from_flat, u11_to_flat, u11_mk, u11_flat_to_qpn, u11_qpn_to_flat in *;
  cbn [fst snd] in *; f_equal; lia.
Qed.

Lemma u11_flat_order : forall c a b, u11_ok c a -> u11_ok c b ->
  u11_ltb a b = (u11_to_flat c a <? u11_to_flat c b).
Proof.
  intros c [n s] [n' s'] Ha Hb; destruct c;
  unfold u11_ok, in_window, u11_ltb, u11_to_flat, u11_qpn_to_flat in *; cbn [fst snd] in *;
  destruct (Z.eqb_spec n n'); apply eq_true_iff_eq; rewrite !Z.ltb_lt; lia.
Qed.

Lemma u11_flat_parity : forall c a, u11_ok c a ->
  u11_flat_to_parity c (u11_to_flat c a) = u11_parity a.
Proof.
  intros c [n s] Ha; destruct c;
  unfold u11_ok, in_window, u11_flat_to_parity, u11_to_flat, u11_qpn_to_flat, u11_parity in *;
  cbn [fst snd] in *; lia.
Qed.

Lemma u11_flip : forall c a, u11_lab c a ->
  u11_flip_flat c (u11_to_flat c a) = u11_to_flat c (u11_neg c a).
Proof.
  intros c [n s] Ha; destruct c;
  unfold u11_lab, u11_flip_flat, u11_to_flat, u11_qpn_to_flat, u11_neg, u11_mk in *; cbn [fst snd] in *; lia.
Qed.

(** ** A bundle of the facts about labels that the rest of the development uses.
    [qpar] is the fermion parity (true = odd). *)
Record Label := {
  Q :> Type;
  q0 : Q;
  qadd : Q -> Q -> Q;
  qneg : Q -> Q;
  qsub : Q -> Q -> Q;
  qeqb : Q -> Q -> bool;
  qltb : Q -> Q -> bool;
  qpar : Q -> bool;
  qadd_assoc : forall a b c, qadd a (qadd b c) = qadd (qadd a b) c;
  qadd_comm : forall a b, qadd a b = qadd b a;
  qadd_0_l : forall a, qadd q0 a = a;
  qadd_neg : forall a, qadd (qneg a) a = q0;
  qsub_def : forall a b, qsub a b = qadd a (qneg b);
  qeqb_spec : forall a b, reflect (a = b) (qeqb a b);
  qltb_irrefl : forall a, qltb a a = false;
  qltb_trans : forall a b c, qltb a b = true -> qltb b c = true -> qltb a c = true;
  qltb_total : forall a b, a <> b -> qltb a b = true \/ qltb b a = true;
  qpar_0 : qpar q0 = false;
  qpar_add : forall a b, qpar (qadd a b) = xorb (qpar a) (qpar b)
}.

Lemma mod2_add_par : forall a b,
  ((a + b) mod 2 =? 1) = xorb (a mod 2 =? 1) (b mod 2 =? 1).
Proof.
  intros a b. destruct (Z.eqb_spec (a mod 2) 1), (Z.eqb_spec (b mod 2) 1); simpl;
  [apply Z.eqb_neq|apply Z.eqb_eq|apply Z.eqb_eq|apply Z.eqb_neq]; lia.
Qed.

Lemma sz_eqb_spec : forall a b, reflect (a = b) (sz_eqb a b).
Proof.
  intros [n t p] [n' t' p']. unfold sz_eqb; cbn.
  destruct (Z.eqb_spec n n'), (Z.eqb_spec t t'), (Z.eqb_spec p p'); simpl; constructor; congruence.
Qed.

Definition SZ_label : Label.
Proof.
  refine (Build_Label SZ sz_zero sz_add sz_neg sz_sub sz_eqb sz_ltb sz_is_fermion
            _ _ _ _ _ sz_eqb_spec _ _ _ _ _).
  - intros [] [] []; apply sz_eq; cbn; [lia|lia|now rewrite Z.lxor_assoc].
  - intros [] []; apply sz_eq; cbn; [lia|lia|apply Z.lxor_comm].
  - intros []; apply sz_eq; cbn; auto.
  - intros []; apply sz_eq; cbn; [lia|lia|apply Z.lxor_nilpotent].
  - intros [] []; apply sz_eq; cbn; auto; lia.
  - intros []; unfold sz_ltb; cbn. rewrite !Z.eqb_refl. apply Z.ltb_irrefl.
  - intros [] [] []; unfold sz_ltb; cbn. intros. 
    repeat match goal with |- context[Z.eqb ?a ?b] => destruct (Z.eqb_spec a b) end;
    repeat match goal with H : context[Z.eqb ?a ?b] |- _ => destruct (Z.eqb_spec a b) end; lia.
  - intros [n t p] [n' t' p'] H; unfold sz_ltb; cbn.
    destruct (Z.eqb_spec n n'), (Z.eqb_spec n' n); try lia;
    destruct (Z.eqb_spec t t'), (Z.eqb_spec t' t); try lia.
    assert (p <> p') by congruence. lia.
  - reflexivity.
  - intros [] []; apply mod2_add_par.
Defined.

Definition U1_label : Label.
Proof.
  refine (Build_Label Z 0 (u1_add cU1) (u1_neg cU1) (u1_sub cU1) u1_eqb u1_ltb
            (fun a => u1_parity a =? 1) _ _ _ _ _ Z.eqb_spec _ _ _ _ _);
  unfold u1_add, u1_neg, u1_sub, u1_mk, u1_ltb, u1_parity; intros; try lia; apply mod2_add_par.
Defined.

Definition U11_label : Label.
Proof.
  refine (Build_Label u11 (0, 0) (u11_add cU11) (u11_neg cU11) (u11_sub cU11) u11_eqb u11_ltb
            (fun a => u11_parity a =? 1) _ _ _ _ _ _ _ _ _ _ _);
  unfold u11_add, u11_neg, u11_sub, u11_mk, u11_parity, u11_eqb.
  - intros [] [] []; cbn; f_equal; lia.
  - intros [] []; cbn; f_equal; lia.
  - intros []; reflexivity.
  - intros []; cbn; f_equal; lia.
  - intros [] []; cbn; f_equal; lia.
  - intros [n s] [n' s']; cbn. destruct (Z.eqb_spec n n'), (Z.eqb_spec s s'); simpl; constructor; congruence.
  - intros []; unfold u11_ltb; cbn. rewrite Z.eqb_refl; lia.
  - intros [] [] []; unfold u11_ltb; cbn. intros.
    repeat match goal with |- context[Z.eqb ?a ?b] => destruct (Z.eqb_spec a b) end;
    repeat match goal with H : context[Z.eqb ?a ?b] |- _ => destruct (Z.eqb_spec a b) end; lia.
  - intros [n s] [n' s'] H; unfold u11_ltb; cbn.
    destruct (Z.eqb_spec n n'), (Z.eqb_spec n' n); try lia.
    assert (s <> s') by congruence. lia.
  - reflexivity.
  - intros [] []; apply mod2_add_par.
Defined.

(* Reduced residues, for Z2, Z4. *)
Record Zmod (m : Z) := mkZmod { zm_n : Z; zm_ok : (0 <=? zm_n) && (zm_n <? m) = true }.
Arguments zm_n {m}. Arguments zm_ok {m}.

Lemma zm_eq : forall m (a b : Zmod m), zm_n a = zm_n b -> a = b.
Proof.
  intros m [n H] [n' H']; cbn; intros ->. f_equal. apply UIP_dec. apply bool_dec.
Qed.

Definition fin_mod (c : bool) : Z := if c then 4 else 2.  (* true: Z4, false: Z2 *)
Definition fin_cls (c : bool) : u1cls := if c then cZ4 else cZ2.
Lemma fin_pos : forall c, 0 < fin_mod c. Proof. intros []; cbn; lia. Qed.
Lemma fin_mk : forall c n, u1_mk (fin_cls c) n = n mod fin_mod c. Proof. intros []; reflexivity. Qed.

Lemma fin_mk_ok : forall c n, (0 <=? u1_mk (fin_cls c) n) && (u1_mk (fin_cls c) n <? fin_mod c) = true.
Proof. intros c n. rewrite fin_mk. pose proof (Z.mod_pos_bound n (fin_mod c) (fin_pos c)). lia. Qed.

Definition zm_lift (c : bool) (n : Z) : Zmod (fin_mod c) :=
  mkZmod _ (u1_mk (fin_cls c) n) (fin_mk_ok c n).

Lemma zm_bound : forall m (a : Zmod m), 0 <= zm_n a < m.
Proof. intros m [n H]; cbn. lia. Qed.

Definition Zfin_label (c : bool) : Label.
Proof.
  refine (Build_Label (Zmod (fin_mod c)) (zm_lift c 0)
    (fun a b => zm_lift c (u1_add (fin_cls c) (zm_n a) (zm_n b)))
    (fun a => zm_lift c (u1_neg (fin_cls c) (zm_n a)))
    (fun a b => zm_lift c (u1_sub (fin_cls c) (zm_n a) (zm_n b)))
    (fun a b => u1_eqb (zm_n a) (zm_n b)) (fun a b => u1_ltb (zm_n a) (zm_n b))
    (fun a => u1_parity (zm_n a) =? 1) _ _ _ _ _ _ _ _ _ _ _);
  unfold u1_add, u1_neg, u1_sub, u1_eqb, u1_ltb, u1_parity.
  - intros; apply zm_eq; cbn; pose proof (zm_bound _ a); pose proof (zm_bound _ b); pose proof (zm_bound _ c0).
    rewrite !fin_mk. destruct c; cbn in *; lia.
  - intros; apply zm_eq; cbn. f_equal. f_equal. lia.
  - intros; apply zm_eq; cbn; pose proof (zm_bound _ a). rewrite !fin_mk. destruct c; cbn in *; lia.
  - intros; apply zm_eq; cbn; pose proof (zm_bound _ a). rewrite !fin_mk. destruct c; cbn in *; lia.
  - intros; apply zm_eq; cbn; pose proof (zm_bound _ a); pose proof (zm_bound _ b).
    rewrite !fin_mk. destruct c; cbn in *; lia.
  - intros a b. destruct (Z.eqb_spec (zm_n a) (zm_n b)); constructor; [now apply zm_eq|congruence].
  - intros; lia.
  - intros; lia.
  - intros a b H. assert (zm_n a <> zm_n b) by (intro; apply H; now apply zm_eq). lia.
  - destruct c; reflexivity.
  - intros a b. cbn. rewrite !fin_mk. pose proof (mod2_add_par (zm_n a) (zm_n b)) as E. rewrite <- E. f_equal.
    destruct c; cbn; lia.
Defined.

(** group laws on raw values, including that Z2/Z4/Z22 results are reduced *)
Lemma u1_closed : forall c a b, u1_lab c (u1_add c a b) /\ u1_lab c (u1_sub c a b) /\ u1_lab c (u1_neg c a)
  /\ forall n, u1_lab c (u1_mk c n).
Proof. intros c a b; destruct c; unfold u1_lab, u1_add, u1_sub, u1_neg, u1_mk; repeat split; intros; try lia. Qed.

Lemma u11_closed : forall c a b, u11_lab c (u11_add c a b) /\ u11_lab c (u11_sub c a b) /\ u11_lab c (u11_neg c a)
  /\ forall n s, u11_lab c (u11_mk c n s).
Proof.
  intros c a b; destruct c; unfold u11_lab, u11_add, u11_sub, u11_neg, u11_mk; cbn; repeat split; intros; try lia.
Qed.

Lemma u1_group : forall c a b d, u1_lab c a -> u1_lab c b -> u1_lab c d ->
  u1_add c a (u1_add c b d) = u1_add c (u1_add c a b) d /\
  u1_add c a b = u1_add c b a /\
  u1_add c (u1_mk c 0) a = a /\
  u1_add c (u1_neg c a) a = u1_mk c 0 /\
  u1_sub c a b = u1_add c a (u1_neg c b).
Proof.
  intros c a b d Ha Hb Hd; destruct c; unfold u1_lab, u1_add, u1_sub, u1_neg, u1_mk in *; repeat split; lia.
Qed.

Lemma u11_group : forall c a b d, u11_lab c a -> u11_lab c b -> u11_lab c d ->
  u11_add c a (u11_add c b d) = u11_add c (u11_add c a b) d /\
  u11_add c a b = u11_add c b a /\
  u11_add c (u11_mk c 0 0) a = a /\
  u11_add c (u11_neg c a) a = u11_mk c 0 0 /\
  u11_sub c a b = u11_add c a (u11_neg c b).
Proof.
  intros c [] [] [] Ha Hb Hd; destruct c; unfold u11_lab, u11_add, u11_sub, u11_neg, u11_mk in *; cbn in *;
  repeat split; f_equal; lia.
Qed.

(** ** _compute *)
Definition is_pm (c : ascii) : Prop := c = plus_c \/ c = minus_c.

(* independent specification: signed sum of integers *)
Fixpoint spec_signed_sum (pat : list ascii) (l : list Z) : Z :=
  match pat, l with
  | ix :: pat', x :: l' => (if Ascii.eqb ix "-"%char then - x else x) + spec_signed_sum pat' l'
  | _, _ => 0
  end.
Definition spec_offset (offset : option (ascii * Z)) : Z :=
  match offset with
  | None => 0
  | Some (ix, d) => if Ascii.eqb ix "-"%char then - d else d
  end.
Definition spec_total (pat : list ascii) (l : list Z) (offset : option (ascii * Z)) (neg : bool) : Z :=
  let s := spec_signed_sum pat l + spec_offset offset in if neg then - s else s.

Lemma signed_cols_sum : forall pat l, length pat = length l ->
  exists l', signed_cols pat l = Some l' /\ sumZ l' = spec_signed_sum pat l.
Proof.
  induction pat; destruct l as [|x l]; simpl; intros H; try discriminate.
  - exists []. auto.
  - destruct (IHpat l) as (l' & E & S); [lia|]. rewrite E. simpl. eexists; split; [reflexivity|].
    unfold sumZ in *. cbn [fold_right]. rewrite S. unfold is_minus, minus_c. destruct (Ascii.eqb a "-"); lia.
Qed.

Lemma pm_plus : forall ix, is_pm ix -> is_plus ix = negb (Ascii.eqb ix "-"%char).
Proof. intros ix [->| ->]; reflexivity. Qed.

Lemma u1_loop_spec : forall c pat qs out, Forall is_pm pat -> u1_lab c out ->
  u1_loop c out qs pat = u1_mk c (out + spec_signed_sum pat qs).
Proof.
  induction pat as [|ix pat IH]; intros qs out Hp Ho.
  - destruct qs; simpl; destruct c; unfold u1_lab, u1_mk in *; lia.
  - destruct qs as [|q qs].
    + simpl; destruct c; unfold u1_lab, u1_mk in *; lia.
    + inversion Hp; subst. cbn [u1_loop spec_signed_sum]. rewrite (pm_plus ix) by auto.
      pose proof (u1_closed c out q) as (C1 & C2 & _).
      destruct (Ascii.eqb ix "-"); cbn [negb]; rewrite IH by auto;
      unfold u1_add, u1_sub; destruct c; unfold u1_mk; lia.
Qed.

Lemma spec_signed_sum_app : forall p1 l1 p2 l2, length p1 = length l1 ->
  spec_signed_sum (p1 ++ p2) (l1 ++ l2) = spec_signed_sum p1 l1 + spec_signed_sum p2 l2.
Proof. induction p1; destruct l1; simpl; intros; try discriminate; auto. rewrite IHp1; lia. Qed.

Lemma u1_obj_spec : forall c pat qs off neg, qs <> [] -> length pat = length qs ->
  Forall is_pm pat -> (match off with Some (ix, _) => is_pm ix | None => True end) ->
  u1_compute_obj c pat qs off neg = Some (u1_mk c (spec_total pat qs off neg)).
Proof.
  intros c pat qs off neg Hq Hl Hp Hoff. unfold u1_compute_obj.
  destruct qs as [|q0' qs']; [congruence|]. set (qs := q0' :: qs') in *.
  rewrite (proj2 (Nat.eqb_eq _ _) Hl). f_equal.
  pose proof (u1_closed c 0 0) as (_ & _ & _ & C).
  assert (E: u1_loop c (u1_mk c 0) (snd (match off with None => (pat, qs) | Some (ix, dq) => (pat ++ [ix], qs ++ [dq]) end))
     (fst (match off with None => (pat, qs) | Some (ix, dq) => (pat ++ [ix], qs ++ [dq]) end))
     = u1_mk c (spec_signed_sum pat qs + spec_offset off)).
  { destruct off as [[ix dq]|]; cbn [fst snd].
    - rewrite u1_loop_spec; [|apply Forall_app; auto|apply C].
      rewrite spec_signed_sum_app by auto. cbn. destruct c; unfold u1_mk; try lia.
      all: destruct (Ascii.eqb ix "-"); lia.
    - rewrite u1_loop_spec; [|auto|apply C]. cbn. destruct c; unfold u1_mk; lia. }
  rewrite E. unfold spec_total. destruct neg; [|reflexivity].
  unfold u1_neg. destruct c; unfold u1_mk; lia.
Qed.

Lemma u1_qpn_round : forall c n, u1_lab c n -> u1_flat_to_qpn c (u1_to_flat c n) = n.
Proof. intros [] n H; unfold u1_lab, u1_to_flat, u1_flat_to_qpn, u1_qpn_to_flat in *; lia. Qed.

Lemma map_id_in : forall (A : Type) (f : A -> A) l, (forall x, In x l -> f x = x) -> map f l = l.
Proof. induction l; simpl; intros; f_equal; auto. Qed.

Definition off_map {A B} (f : A -> B) (o : option (ascii * A)) : option (ascii * B) :=
  option_map (fun p => (fst p, f (snd p))) o.

Lemma u1_row_spec : forall c pat qs off neg, length pat = length qs ->
  Forall (u1_lab c) qs -> (match off with Some (ix, d) => is_pm ix /\ u1_lab c d | None => True end) ->
  u1_compute_row c pat (map (u1_to_flat c) qs) (off_map (u1_to_flat c) off) neg
  = Some (u1_to_flat c (u1_mk c (spec_total pat qs off neg))).
Proof.
  intros c pat qs off neg Hl Hq Hoff. unfold u1_compute_row.
  rewrite map_map, (map_id_in _ (fun x => u1_flat_to_qpn c (u1_to_flat c x)))
    by (intros x Hx; apply u1_qpn_round; rewrite Forall_forall in Hq; auto).
  destruct (signed_cols_sum pat qs Hl) as (l' & -> & ->). f_equal.
  unfold spec_total, spec_offset.
  destruct off as [[ix d]|]; cbn [off_map option_map fst snd].
  - destruct Hoff as [Hi Hd]. rewrite u1_roundtrip_any by auto.
    unfold is_minus, minus_c. unfold u1_to_flat, u1_neg.
    set (s := spec_signed_sum pat qs). clearbody s.
    destruct (Ascii.eqb ix "-"), neg, c; unfold u1_lab, u1_qpn_to_flat, u1_mk in *; lia.
  - set (s := spec_signed_sum pat qs). clearbody s. unfold u1_to_flat.
    destruct neg, c; unfold u1_qpn_to_flat, u1_mk in *; lia.
Qed.

Definition pair_total (pat : list ascii) (l : list u11) (off : option (ascii * u11)) (neg : bool) : u11 :=
  (spec_total pat (map fst l) (off_map fst off) neg, spec_total pat (map snd l) (off_map snd off) neg).

Lemma u11_loop_spec : forall c pat qs out, Forall is_pm pat -> u11_lab c out ->
  u11_loop c out qs pat
  = u11_mk c (fst out + spec_signed_sum pat (map fst qs)) (snd out + spec_signed_sum pat (map snd qs)).
Proof.
  induction pat as [|ix pat IH]; intros qs out Hp Ho.
  - destruct qs; simpl; destruct out, c; unfold u11_lab, u11_mk in *; cbn in *; f_equal; lia.
  - destruct qs as [|q qs].
    + simpl; destruct out, c; unfold u11_lab, u11_mk in *; cbn in *; f_equal; lia.
    + inversion Hp; subst. cbn [u11_loop spec_signed_sum map]. rewrite (pm_plus ix) by auto.
      pose proof (u11_closed c out q) as (C1 & C2 & _).
      destruct (Ascii.eqb ix "-"); cbn [negb]; rewrite IH by auto;
      unfold u11_add, u11_sub; destruct c; unfold u11_mk; cbn [fst snd]; f_equal; lia.
Qed.

Lemma u11_obj_spec : forall c pat qs off neg, qs <> [] -> length pat = length qs ->
  Forall is_pm pat -> (match off with Some (ix, _) => is_pm ix | None => True end) ->
  u11_compute_obj c pat qs off neg
  = Some (u11_mk c (fst (pair_total pat qs off neg)) (snd (pair_total pat qs off neg))).
Proof.
  intros c pat qs off neg Hq Hl Hp Hoff. unfold u11_compute_obj.
  destruct qs as [|q0' qs']; [congruence|]. set (qs := q0' :: qs') in *.
  rewrite (proj2 (Nat.eqb_eq _ _) Hl). f_equal.
  pose proof (u11_closed c (0,0) (0,0)) as (_ & _ & _ & C).
  assert (E: u11_loop c (u11_mk c 0 0) (snd (match off with None => (pat, qs) | Some (ix, dq) => (pat ++ [ix], qs ++ [dq]) end))
     (fst (match off with None => (pat, qs) | Some (ix, dq) => (pat ++ [ix], qs ++ [dq]) end))
     = u11_mk c (spec_signed_sum pat (map fst qs) + spec_offset (off_map fst off))
                (spec_signed_sum pat (map snd qs) + spec_offset (off_map snd off))).
  { destruct off as [[ix dq]|]; cbn [fst snd].
    - rewrite u11_loop_spec; [|apply Forall_app; auto|apply C].
      rewrite !map_app, !spec_signed_sum_app by (rewrite map_length; auto).
      cbn [off_map option_map spec_offset map spec_signed_sum fst snd].
      generalize (spec_signed_sum pat (map fst qs)), (spec_signed_sum pat (map snd qs)). intros z1 z2.
      destruct c; unfold u11_mk; cbn [fst snd]; f_equal; destruct (Ascii.eqb ix "-"); lia.
    - rewrite u11_loop_spec; [|auto|apply C]. cbn [off_map option_map spec_offset].
      generalize (spec_signed_sum pat (map fst qs)), (spec_signed_sum pat (map snd qs)). intros z1 z2.
      destruct c; unfold u11_mk; cbn [fst snd]; f_equal; lia. }
  rewrite E. unfold pair_total, spec_total. cbn [fst snd]. destruct neg; [|reflexivity].
  unfold u11_neg. destruct c; unfold u11_mk; cbn [fst snd]; f_equal; lia.
Qed.

Lemma u11_qpn_round : forall c q, u11_ok c q -> u11_flat_to_qpn c (u11_to_flat c q) = q.
Proof.
  intros [] [n s] H; unfold u11_ok, in_window, u11_to_flat, u11_flat_to_qpn, u11_qpn_to_flat in *;
  cbn [fst snd] in *; f_equal; lia.
Qed.

Lemma u11_row_spec : forall c pat qs off neg, length pat = length qs ->
  Forall (u11_ok c) qs -> (match off with Some (ix, d) => is_pm ix /\ u11_ok c d | None => True end) ->
  u11_compute_row c pat (map (u11_to_flat c) qs) (off_map (u11_to_flat c) off) neg
  = Some (u11_to_flat c (u11_mk c (fst (pair_total pat qs off neg)) (snd (pair_total pat qs off neg)))).
Proof.
  intros c pat qs off neg Hl Hq Hoff. unfold u11_compute_row. rewrite !map_map.
  rewrite (map_ext_in (fun x => fst (u11_flat_to_qpn c (u11_to_flat c x))) fst)
    by (intros x Hx; rewrite u11_qpn_round; auto; rewrite Forall_forall in Hq; auto).
  rewrite (map_ext_in (fun x => snd (u11_flat_to_qpn c (u11_to_flat c x))) snd)
    by (intros x Hx; rewrite u11_qpn_round; auto; rewrite Forall_forall in Hq; auto).
  destruct (signed_cols_sum pat (map fst qs)) as (l1 & -> & ->); [now rewrite map_length|].
  destruct (signed_cols_sum pat (map snd qs)) as (l2 & -> & ->); [now rewrite map_length|].
  f_equal. unfold pair_total, spec_total, spec_offset. cbn [fst snd].
  set (s1 := spec_signed_sum pat (map fst qs)). set (s2 := spec_signed_sum pat (map snd qs)).
  clearbody s1 s2. 
  destruct off as [[ix d]|]; cbn [off_map option_map fst snd].
  - destruct Hoff as [Hi Hd]. rewrite u11_roundtrip by auto.
    unfold is_minus, minus_c. unfold u11_to_flat, u11_neg. destruct d as [d1 d2].
    destruct (Ascii.eqb ix "-"), neg, c; unfold u11_ok, in_window, u11_qpn_to_flat, u11_mk in *;
    cbn [fst snd] in *; lia.
  - unfold u11_to_flat. destruct neg, c; unfold u11_qpn_to_flat, u11_mk in *; cbn [fst snd] in *; lia.
Qed.
