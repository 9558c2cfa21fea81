(** C76: the tensors made by the GaussianMERA1D constructor (gaussian/core.py 824-909) form a network as required by C72. *)
From Coq Require Import ZArith Bool List Lia Permutation Ring Sorted QArith Qcanon.
From Verif Require Import CanonProofs DictLib IndexLib RingLib OptLib GaussModel GaussProofs GaussProps GaussMpsProps MeraModel.
Import ListNotations.
Open Scope Z_scope.

(* the tensors L turn the open legs r into r'; labels from idx up to idx' are used *)
Definition trans (r : list Z) (idx : Z) (L : list legs) (r' : list Z) (idx' : Z) : Prop :=
  idx <= idx' /\ (forall x, In x r -> x < idx) /\ NoDup (LD L) /\ NoDup (LU L) /\ (forall x, In x (LU L) -> idx <= x < idx') /\ NoDup r' /\ (forall x, In x r' -> x < idx') /\
  (forall x, (In x (LD L) \/ In x r') <-> In x r \/ (In x (LU L) /\ ~ In x (LC L))) /\ (forall x, In x (LD L) -> ~ In x r') /\
  forall e, In e L -> length (ld e) = length (lu e) /\ (lc e <= length (lu e))%nat /\ exists base, idx <= base /\ lu e = ints base (length (lu e)) /\ forall x, In x (ld e) -> x < base.
Lemma trans_nil : forall r r' idx, NoDup r -> (forall x, In x r -> x < idx) -> Permutation r r' -> trans r idx [] r' idx.
Proof.
  intros r r' idx N B P. split; [lia|]. split; [exact B|]. split; [constructor|]. split; [constructor|]. split; [intros x []|]. split; [exact (Permutation_NoDup P N)|]. split; [intros x H; apply B; exact (Permutation_in x (Permutation_sym P) H)|].
  split; [|split; [intros x []|intros e []]]. intros x. cbn. pose proof (Permutation_in x P). pose proof (Permutation_in x (Permutation_sym P)). tauto.
Qed.
Lemma trans_permr : forall r r' r2 idx idx' L, trans r idx L r' idx' -> Permutation r' r2 -> trans r idx L r2 idx'.
Proof.
  intros r r' r2 idx idx' L (A1 & A2 & A3 & A4 & A5 & A6 & A7 & A8 & A9 & A10) P.
  assert (Q : forall x, In x r' <-> In x r2) by (intros x; split; apply Permutation_in; [exact P|now apply Permutation_sym]).
  split; [exact A1|]. split; [exact A2|]. split; [exact A3|]. split; [exact A4|]. split; [exact A5|]. split; [exact (Permutation_NoDup P A6)|]. split; [intros x H; apply A7, Q, H|]. split; [intros x; rewrite <- Q; apply A8|]. split; [intros x H; rewrite <- Q; now apply A9|exact A10].
Qed.
Lemma trans_perml : forall r r' r2 idx idx' L, trans r idx L r' idx' -> Permutation r r2 -> trans r2 idx L r' idx'.
Proof.
  intros r r' r2 idx idx' L (A1 & A2 & A3 & A4 & A5 & A6 & A7 & A8 & A9 & A10) P.
  assert (Q : forall x, In x r <-> In x r2) by (intros x; split; apply Permutation_in; [exact P|now apply Permutation_sym]).
  split; [exact A1|]. split; [intros x H; apply A2, Q, H|]. split; [exact A3|]. split; [exact A4|]. split; [exact A5|]. split; [exact A6|]. split; [exact A7|]. split; [intros x; rewrite <- Q; apply A8|]. split; [exact A9|exact A10].
Qed.
Lemma trans_app : forall r1 i1 L1 r2 i2 L2 r3 i3, trans r1 i1 L1 r2 i2 -> trans r2 i2 L2 r3 i3 -> trans r1 i1 (L1 ++ L2) r3 i3.
Proof.
  intros r1 i1 L1 r2 i2 L2 r3 i3 (A1 & A2 & A3 & A4 & A5 & A6 & A7 & A8 & A9 & A10) (B1 & B2 & B3 & B4 & B5 & B6 & B7 & B8 & B9 & B10).
  assert (ED : LD (L1 ++ L2) = LD L1 ++ LD L2) by apply flat_map_app. assert (EU : LU (L1 ++ L2) = LU L1 ++ LU L2) by apply flat_map_app. assert (EC : LC (L1 ++ L2) = LC L1 ++ LC L2) by apply flat_map_app.
  assert (Dx : forall x, In x (LD L1) -> ~ (In x (LD L2) \/ In x r3)).
  { intros x H C. apply B8 in C. destruct C as [C|[C _]]; [exact (A9 x H C)|]. apply B5 in C. assert (D : In x (LD L1) \/ In x r2) by auto. apply A8 in D. destruct D as [D|[D _]]; [apply A2 in D|apply A5 in D]; lia. }
  unfold trans. rewrite ED, EU, EC. split; [lia|]. split; [exact A2|]. split; [|split; [|split; [|split; [exact B6|split; [exact B7|split; [|split]]]]]].
  - apply CanonProofs.nodup_app. split; [exact A3|]. split; [exact B3|]. intros x H1 H2. apply (Dx x H1). auto.
  - apply CanonProofs.nodup_app. split; [exact A4|]. split; [exact B4|]. intros x H1 H2. apply A5 in H1. apply B5 in H2. lia.
  - intros x H. apply in_app_or in H. destruct H as [H|H]; [apply A5 in H|apply B5 in H]; lia.
  - intros x. rewrite !in_app_iff. specialize (A8 x). specialize (B8 x). pose proof (LC_LU L1 x) as C1. pose proof (LC_LU L2 x) as C2.
    assert (Dj : In x (LU L1) -> In x (LU L2) -> False) by (intros H1 H2; apply A5 in H1; apply B5 in H2; lia). tauto.
  - intros x H C. apply in_app_or in H. destruct H as [H|H]; [apply (Dx x H); auto|exact (B9 x H C)].
  - intros e H. apply in_app_or in H. destruct H as [H|H]; [exact (A10 e H)|]. destruct (B10 e H) as (E1 & E2 & b & E3 & E4). split; [exact E1|]. split; [exact E2|]. exists b. split; [lia|exact E4].
Qed.
Lemma trans_gate : forall r idx dl rest c r', NoDup r -> (forall x, In x r -> x < idx) -> Permutation r (dl ++ rest) -> (c <= length dl)%nat -> Permutation r' (skipn c (ints idx (length dl)) ++ rest) ->
  trans r idx [(ints idx (length dl), dl, c)] r' (idx + zlen dl).
Proof.
  intros r idx dl rest c r' N B P Hc P'. assert (Nr := Permutation_NoDup P N). apply CanonProofs.nodup_app in Nr. destruct Nr as (N1 & N2 & N3).
  assert (Q : forall x, In x r <-> In x dl \/ In x rest) by (intros x; rewrite <- in_app_iff; split; apply Permutation_in; [exact P|now apply Permutation_sym]).
  set (d := length dl) in *. pose proof (ints_nodup idx d) as Ni. rewrite <- (firstn_skipn c (ints idx d)) in Ni. apply CanonProofs.nodup_app in Ni. destruct Ni as (_ & Ni & Nc).
  assert (Si : forall x, In x (ints idx d) <-> In x (firstn c (ints idx d)) \/ In x (skipn c (ints idx d))) by (intros x; rewrite <- (firstn_skipn c (ints idx d)) at 1; apply in_app_iff).
  assert (Q' : forall x, In x r' <-> In x (skipn c (ints idx d)) \/ In x rest) by (intros x; rewrite <- in_app_iff; split; apply Permutation_in; [exact P'|now apply Permutation_sym]).
  assert (Bi : forall x, In x (skipn c (ints idx d)) -> idx <= x < idx + Z.of_nat d) by (intros x H; apply in_ints; apply Si; auto).
  unfold trans, LD, LU, LC. cbn [flat_map lu ld lc fst snd]. rewrite !app_nil_r. split; [lia|]. split; [exact B|]. split; [exact N1|]. split; [apply ints_nodup|]. split; [intros x H; now apply in_ints|]. split; [|split; [|split; [|split]]].
  - apply (Permutation_NoDup (Permutation_sym P')). apply CanonProofs.nodup_app. split; [exact Ni|]. split; [exact N2|]. intros x H1 H2. apply Bi in H1. assert (x < idx) by (apply B, Q; auto). lia.
  - intros x H. apply Q' in H. destruct H as [H|H]; [apply Bi in H; lia|]. assert (x < idx) by (apply B, Q; auto). lia.
  - intros x. rewrite Q', Q, Si. specialize (Nc x). tauto.
  - intros x H1 H2. apply Q' in H2. destruct H2 as [H2|H2]; [|exact (N3 x H1 H2)]. apply Bi in H2. assert (x < idx) by (apply B, Q; auto). lia.
  - intros e [<-|[]]. cbn [lu ld lc fst snd]. rewrite ints_len. split; [reflexivity|]. split; [exact Hc|]. exists idx. split; [lia|]. split; [reflexivity|]. intros x H. apply B, Q. auto.
Qed.
Lemma trans_live : forall r idx L r' idx', trans r idx L r' idx' -> NoDup r' /\ forall x, In x r' -> x < idx'.
Proof. intros r idx L r' idx' (_ & _ & _ & _ & _ & A & B & _). auto. Qed.
Lemma trans_end : forall r idx L idx', trans r idx L [] idx' -> good_legs r idx L.
Proof.
  intros r idx L idx' (A1 & A2 & A3 & A4 & A5 & A6 & A7 & A8 & A9 & A10). split; [exact A3|]. split; [exact A4|]. split; [intros x H; apply A5 in H; lia|]. split; [|exact A10]. intros x. rewrite <- A8. cbn. tauto.
Qed.
(* open legs after a layer of isometries *)
Definition next_size (t c n : nat) : nat := (n / t * (t - c) + Nat.min (n mod t) (t - c))%nat.
Lemma next_size_step : forall t c n, (1 <= t)%nat -> (t <= n)%nat -> next_size t c n = (t - c + next_size t c (n - t))%nat.
Proof.
  intros t c n Ht H. unfold next_size. replace n with ((n - t) + 1 * t)%nat at 1 2 by lia. rewrite Nat.div_add, Nat.mod_add by lia. lia.
Qed.
Lemma next_size_small : forall t c n, (1 <= c <= t)%nat -> (n <= t)%nat -> next_size t c n = Nat.min n (t - c).
Proof.
  intros t c n Hc H. unfold next_size. destruct (Nat.eq_dec n t) as [->|]; [rewrite Nat.div_same, Nat.mod_same by lia; lia|]. rewrite Nat.div_small, Nat.mod_small by lia. lia.
Qed.
Lemma next_size_le : forall t c n, (1 <= c <= t)%nat -> (next_size t c n <= n)%nat.
Proof. intros t c n Hc. unfold next_size. pose proof (Nat.div_mod n t ltac:(lia)). nia. Qed.
Lemma next_size_lt : forall t c n, (1 <= c <= t)%nat -> (t <= n)%nat -> (next_size t c n < n)%nat.
Proof. intros t c n Hc H. rewrite next_size_step by lia. pose proof (next_size_le t c (n - t) Hc). lia. Qed.
Lemma skip_len : forall (A : Type) (l : list A) i n, (length l - i <= n)%nat -> firstn n (skipn i l) = skipn i l.
Proof. intros A l i n H. apply firstn_all2. rewrite skipn_length. exact H. Qed.
Lemma skip_split : forall (A : Type) (l : list A) i n, skipn i l = firstn n (skipn i l) ++ skipn (i + n) l.
Proof. intros A l i n. rewrite <- (firstn_skipn n (skipn i l)) at 1. f_equal. apply skipn_skipn'. Qed.

Lemma iso_ok : forall t c, (1 <= c <= t)%nat -> forall fuel cur idx i pre, (length cur - i < fuel)%nat -> (i <= length cur)%nat -> NoDup (pre ++ skipn i cur) -> (forall x, In x (pre ++ skipn i cur) -> x < idx) ->
  exists L nx ix, iso_loop fuel t (Z.of_nat t - Z.of_nat c) cur idx i = Some (L, nx, ix) /\ trans (pre ++ skipn i cur) idx L (pre ++ nx) ix /\ length nx = next_size t c (length cur - i) /\
    (last_width L <= t)%nat /\ L <> [] /\ ((length cur - i <= t)%nat -> exists k, L = [(ints idx (length cur - i), skipn i cur, k)]).
Proof.
  intros t c Hc fuel. induction fuel as [|f IH]; intros cur idx i pre Hf Hi N B; [lia|]. cbn [iso_loop].
  set (dn := Nat.min t (length cur - i)).
  assert (Ed : Z.min (Z.of_nat t) (zlen cur - Z.of_nat i) = Z.of_nat dn) by (unfold dn; lia). rewrite Ed, Nat2Z.id.
  set (dl := firstn dn (skipn i cur)). assert (Ll : length dl = dn) by (unfold dl; apply firstn_length_le; rewrite skipn_length; unfold dn; lia).
  assert (Ew : width (ints idx dn) dl = dn) by (unfold width; rewrite ints_len, Ll; lia). rewrite Ew.
  set (nc := Z.to_nat (Z.max 0 (Z.of_nat dn - (Z.of_nat t - Z.of_nat c)))). assert (Hn : (nc = dn - (t - c))%nat) by (unfold nc; lia).
  assert (G : forall rest, Permutation (pre ++ skipn i cur) (dl ++ rest) -> trans (pre ++ skipn i cur) idx [(ints idx dn, dl, nc)] (skipn nc (ints idx dn) ++ rest) (idx + Z.of_nat dn)).
  { intros rest P. pose proof (trans_gate (pre ++ skipn i cur) idx dl rest nc (skipn nc (ints idx dn) ++ rest) N B P) as T. rewrite Ll in T. apply T; [lia|apply Permutation_refl]. }
  destruct (Z.eqb_spec (Z.of_nat i + Z.of_nat dn) (zlen cur)) as [E|E].
  - assert (Edn : (dn = length cur - i)%nat) by lia. assert (Edl : dl = skipn i cur) by (unfold dl; apply skip_len; lia).
    exists [(ints idx dn, dl, nc)], (skipn nc (ints idx dn)), (idx + Z.of_nat dn). split; [reflexivity|]. split; [|split; [|split; [|split]]].
    + apply (trans_permr _ (skipn nc (ints idx dn) ++ pre)); [|apply Permutation_app_comm]. apply G. rewrite Edl. apply Permutation_app_comm.
    + rewrite skipn_length, ints_len, Hn, <- Edn, next_size_small by (unfold dn; lia). lia.
    + unfold last_width. cbn [last]. rewrite Ew. unfold dn. lia.
    + discriminate.
    + intros _. exists nc. now rewrite <- Edn, Edl.
  - assert (Edn : dn = t) by (unfold dn in *; lia). assert (Hl : (t < length cur - i)%nat) by (unfold dn in *; lia).
    replace (Z.to_nat (Z.of_nat i + Z.of_nat dn)) with (i + dn)%nat by lia.
    assert (T1 : trans (pre ++ skipn i cur) idx [(ints idx dn, dl, nc)] ((pre ++ skipn nc (ints idx dn)) ++ skipn (i + dn) cur) (idx + Z.of_nat dn)).
    { apply (trans_permr _ (skipn nc (ints idx dn) ++ (pre ++ skipn (i + dn) cur))).
      - apply G. rewrite (skip_split _ cur i dn). fold dl. rewrite !app_assoc. apply Permutation_app_tail, Permutation_app_comm.
      - rewrite !app_assoc. apply Permutation_app_tail, Permutation_app_comm. }
    destruct (trans_live _ _ _ _ _ T1) as [N1 B1].
    destruct (IH cur (idx + Z.of_nat dn) (i + dn)%nat (pre ++ skipn nc (ints idx dn)) ltac:(lia) ltac:(lia) N1 B1) as (L & nx & ix & EL & T2 & Ln & Lw & Ne & _).
    rewrite EL. cbn [bind]. do 3 eexists. split; [reflexivity|]. split; [|split; [|split; [|split]]].
    + rewrite app_assoc. change ((ints idx dn, dl, nc) :: L) with ([(ints idx dn, dl, nc)] ++ L). exact (trans_app _ _ _ _ _ _ _ _ T1 T2).
    + rewrite app_length, skipn_length, ints_len, Ln, (next_size_step t c (length cur - i)) by lia. replace (length cur - (i + dn))%nat with (length cur - i - t)%nat by lia. lia.
    + unfold last_width in *. destruct L as [|e L]; [contradiction|]. exact Lw.
    + discriminate.
    + lia.
Qed.

Lemma open_ok : forall t, (1 <= t)%nat -> forall fuel cur idx i pre, (length cur - i < fuel)%nat -> NoDup (pre ++ skipn i cur) -> (forall x, In x (pre ++ skipn i cur) -> x < idx) ->
  exists L nx ix, open_loop fuel t cur idx i = Some (L, nx, ix) /\ trans (pre ++ skipn i cur) idx L (pre ++ nx) ix /\ length nx = (length cur - i)%nat.
Proof.
  intros t Ht fuel. induction fuel as [|f IH]; intros cur idx i pre Hf N B; [lia|]. cbn [open_loop].
  destruct (le_lt_dec (length cur) i) as [Hi|Hi].
  - rewrite Z.min_r by lia. replace (Z.of_nat i + (zlen cur - Z.of_nat i) =? zlen cur) with true by (symmetry; apply Z.eqb_eq; lia). replace (zlen cur - Z.of_nat i =? Z.of_nat t) with false by (symmetry; apply Z.eqb_neq; lia).
    rewrite (skipn_all2 cur) in * by exact Hi. rewrite firstn_nil. do 3 eexists. split; [reflexivity|]. split; [now apply trans_nil|]. cbn. lia.
  - set (dn := Nat.min t (length cur - i)).
    assert (Ed : Z.min (Z.of_nat t) (zlen cur - Z.of_nat i) = Z.of_nat dn) by (unfold dn; lia). rewrite Ed, Nat2Z.id.
    set (dl := firstn dn (skipn i cur)). assert (Ll : length dl = dn) by (unfold dl; apply firstn_length_le; rewrite skipn_length; unfold dn; lia).
    assert (G : forall rest, Permutation (pre ++ skipn i cur) (dl ++ rest) -> trans (pre ++ skipn i cur) idx [(ints idx dn, dl, 0%nat)] (ints idx dn ++ rest) (idx + Z.of_nat dn)).
    { intros rest P. pose proof (trans_gate (pre ++ skipn i cur) idx dl rest 0 (ints idx dn ++ rest) N B P) as T. rewrite Ll in T. apply T; [lia|apply Permutation_refl]. }
    destruct (Z.eqb_spec (Z.of_nat dn) (Z.of_nat t)) as [Et|Et].
    + destruct (Z.eqb_spec (Z.of_nat i + Z.of_nat dn) (zlen cur)) as [E|E].
      * assert (Edl : dl = skipn i cur) by (unfold dl; apply skip_len; lia). do 3 eexists. split; [reflexivity|]. split; [|rewrite ints_len; lia].
        apply (trans_permr _ (ints idx dn ++ pre)); [|apply Permutation_app_comm]. apply G. rewrite Edl. apply Permutation_app_comm.
      * replace (Z.to_nat (Z.of_nat i + Z.of_nat dn)) with (i + dn)%nat by lia.
        assert (T1 : trans (pre ++ skipn i cur) idx [(ints idx dn, dl, 0%nat)] ((pre ++ ints idx dn) ++ skipn (i + dn) cur) (idx + Z.of_nat dn)).
        { apply (trans_permr _ (ints idx dn ++ (pre ++ skipn (i + dn) cur))).
          - apply G. rewrite (skip_split _ cur i dn). fold dl. rewrite !app_assoc. apply Permutation_app_tail, Permutation_app_comm.
          - rewrite !app_assoc. apply Permutation_app_tail, Permutation_app_comm. }
        destruct (trans_live _ _ _ _ _ T1) as [N1 B1].
        destruct (IH cur (idx + Z.of_nat dn) (i + dn)%nat (pre ++ ints idx dn) ltac:(unfold dn in *; lia) N1 B1) as (L & nx & ix & EL & T2 & Ln). rewrite EL. cbn [bind]. do 3 eexists. split; [reflexivity|]. split.
        -- rewrite app_assoc. exact (trans_app _ _ _ _ _ _ _ _ T1 T2).
        -- rewrite app_length, ints_len, Ln. unfold dn in *. lia.
    + assert (Edn : (dn = length cur - i)%nat) by (unfold dn in *; lia). replace (Z.of_nat i + Z.of_nat dn =? zlen cur) with true by (symmetry; apply Z.eqb_eq; lia).
      assert (Edl : dl = skipn i cur) by (unfold dl; apply skip_len; lia). do 3 eexists. split; [reflexivity|]. split; [|lia]. rewrite Edl. apply trans_nil; auto.
Qed.

Lemma ring_small_ok : forall t fuel cur idx, (length cur <= t)%nat -> ring_loop (S fuel) t cur idx (t / 2) [] = Some ([], cur, idx).
Proof.
  intros t fuel cur idx H. cbn [ring_loop]. rewrite Z.min_r by lia. replace (zlen cur - Z.of_nat (t / 2) + Z.of_nat (t / 2)) with (zlen cur) by lia. rewrite Z.eqb_refl, Bool.andb_false_r, Nat2Z.id.
  replace (Z.of_nat (t / 2) + zlen cur =? zlen cur + Z.of_nat (t / 2)) with true by (symmetry; apply Z.eqb_eq; lia).
  replace (Z.to_nat (Z.of_nat (t / 2) + zlen cur - zlen cur)) with (t / 2)%nat by lia. rewrite (skip_len _ cur (t / 2) (length cur)) by lia.
  destruct (Z.ltb_spec (zlen cur) (Z.of_nat (t / 2) + zlen cur)) as [E|E].
  - cbn [app]. now rewrite firstn_skipn.
  - replace (t / 2)%nat with 0%nat by lia. reflexivity.
Qed.
Lemma ring_ok : forall t, (1 <= t)%nat -> forall cur, (t < length cur)%nat -> (length cur mod t = 0 \/ t / 2 <= length cur mod t)%nat ->
  forall fuel idx i next k, (i = t / 2 + k * t)%nat -> (i <= length cur)%nat -> (length cur + t / 2 - i < fuel)%nat -> NoDup (next ++ skipn i cur ++ firstn (t / 2) cur) -> (forall x, In x (next ++ skipn i cur ++ firstn (t / 2) cur) -> x < idx) ->
  exists L nx ix, ring_loop fuel t cur idx i next = Some (L, nx, ix) /\ trans (next ++ skipn i cur ++ firstn (t / 2) cur) idx L nx ix /\ length nx = (length next + (length cur - i) + t / 2)%nat.
Proof.
  intros t Ht cur Hlen Hmod fuel. set (h := (t / 2)%nat) in *. assert (Hh : (h < t)%nat) by (apply Nat.div_lt; lia).
  induction fuel as [|f IH]; intros idx i next k Ei Hi Hf N B; [lia|]. cbn [ring_loop]. fold h.
  set (dn := Nat.min t (length cur - i + h)).
  assert (Ed : Z.min (Z.of_nat t) (zlen cur - Z.of_nat i + Z.of_nat h) = Z.of_nat dn) by (unfold dn; lia). rewrite Ed, Nat2Z.id.
  set (dl := firstn dn (skipn i cur)).
  assert (G : forall dl' rest r', length dl' = dn -> Permutation (next ++ skipn i cur ++ firstn h cur) (dl' ++ rest) -> Permutation r' (ints idx dn ++ rest) -> trans (next ++ skipn i cur ++ firstn h cur) idx [(ints idx dn, dl', 0%nat)] r' (idx + Z.of_nat dn)).
  { intros dl' rest r' L P P'. pose proof (trans_gate _ idx dl' rest 0 r' N B P) as T. rewrite L in T. apply T; [lia|exact P']. }
  replace (Z.of_nat dn =? zlen cur) with false by (symmetry; apply Z.eqb_neq; unfold dn; lia). rewrite Bool.andb_true_r.
  destruct (Z.ltb_spec (zlen cur) (Z.of_nat i + Z.of_nat dn)) as [Ho|Ho].
  - (* over the end: the last step *)
    assert (Last : (i + dn = length cur + h)%nat).
    { unfold dn in *. destruct (le_lt_dec (length cur - i + h) t) as [E|E]; [lia|]. exfalso. assert (Hs : (length cur mod t = h - (i + t - length cur))%nat).
      { symmetry. apply (Nat.mod_unique _ _ (k + 1)); lia. } lia. }
    replace (Z.of_nat i + Z.of_nat dn =? zlen cur + Z.of_nat h) with true by (symmetry; apply Z.eqb_eq; lia). replace (Z.to_nat (Z.of_nat i + Z.of_nat dn - zlen cur)) with h by lia.
    assert (Edl : dl = skipn i cur) by (unfold dl; apply skip_len; lia). assert (Lf : length (firstn h cur) = h) by (apply firstn_length_le; lia).
    destruct (Z.eqb_spec (Z.of_nat dn) (Z.of_nat t)) as [Et|Et].
    + do 3 eexists. split; [reflexivity|]. rewrite firstn_skipn. split.
      * apply (G _ next); [rewrite app_length, Edl, skipn_length, Lf; lia|rewrite Edl; apply Permutation_app_comm|].
        rewrite <- (firstn_skipn (length dl) (ints idx dn)) at 3. eapply Permutation_trans; [apply Permutation_app_comm|]. rewrite <- app_assoc. eapply Permutation_trans; [apply Permutation_app_comm|].
        rewrite <- app_assoc. apply Permutation_app_head. apply Permutation_refl.
      * rewrite !app_length, skipn_length, firstn_length, ints_len, Edl, skipn_length. lia.
    + do 3 eexists. split; [reflexivity|]. split.
      * apply trans_nil; auto. rewrite Edl. rewrite app_assoc. apply Permutation_app_comm.
      * rewrite !app_length, Edl, skipn_length, Lf. lia.
  - assert (Ll : length dl = dn) by (unfold dl; apply firstn_length_le; rewrite skipn_length; lia).
    assert (Sp : Permutation (next ++ skipn i cur ++ firstn h cur) (dl ++ (next ++ skipn (i + dn) cur ++ firstn h cur))).
    { rewrite (skip_split _ cur i dn). fold dl. rewrite !app_assoc. do 2 apply Permutation_app_tail. apply Permutation_app_comm. }
    destruct (Z.eqb_spec (Z.of_nat dn) (Z.of_nat t)) as [Et|Et].
    + assert (T1 : trans (next ++ skipn i cur ++ firstn h cur) idx [(ints idx dn, dl, 0%nat)] ((next ++ ints idx dn) ++ skipn (i + dn) cur ++ firstn h cur) (idx + Z.of_nat dn)).
      { apply (G dl _ _ Ll Sp). rewrite !app_assoc. do 2 apply Permutation_app_tail. apply Permutation_app_comm. }
      destruct (Z.eqb_spec (Z.of_nat i + Z.of_nat dn) (zlen cur + Z.of_nat h)) as [E|E].
      * do 3 eexists. split; [reflexivity|]. split; [|rewrite app_length, ints_len; lia]. apply (trans_permr _ _ _ _ _ _ T1). replace h with 0%nat by lia. rewrite (skipn_all2 (n := i + dn) cur) by lia. cbn [firstn app]. now rewrite app_nil_r.
      * replace (Z.to_nat (Z.of_nat i + Z.of_nat dn)) with (i + dn)%nat by lia. destruct (trans_live _ _ _ _ _ T1) as [N1 B1].
        destruct (IH (idx + Z.of_nat dn) (i + dn)%nat (next ++ ints idx dn) (k + 1)%nat ltac:(lia) ltac:(lia) ltac:(lia) N1 B1) as (L & nx & ix & EL & T2 & Ln). rewrite EL. cbn [bind]. do 3 eexists. split; [reflexivity|]. split.
        -- exact (trans_app _ _ _ _ _ _ _ _ T1 T2).
        -- rewrite Ln, app_length, ints_len. lia.
    + assert (h = 0)%nat by (unfold dn in *; lia). assert (Edn : (i + dn = length cur)%nat) by (unfold dn in *; lia).
      replace (Z.of_nat i + Z.of_nat dn =? zlen cur + Z.of_nat h) with true by (symmetry; apply Z.eqb_eq; lia). do 3 eexists. split; [reflexivity|]. split; [|rewrite app_length; lia].
      apply trans_nil; auto. replace dl with (skipn i cur) by (symmetry; unfold dl; apply skip_len; lia). replace h with 0%nat by lia. cbn [firstn]. now rewrite app_nil_r.
Qed.

(* sizes of the layers for which the periodic disentanglers fit: a rest of at least half a tensor, or no rest *)
Inductive ring_sizes (t c : nat) : nat -> Prop :=
| ring_last : forall n, (n <= t)%nat -> ring_sizes t c n
| ring_more : forall n, (t < n)%nat -> (n mod t = 0 \/ t / 2 <= n mod t)%nat -> ring_sizes t c (next_size t c n) -> ring_sizes t c n.
Lemma ring_sizes_small : forall t c, (1 <= c <= t)%nat -> (t <= 3)%nat -> forall n, ring_sizes t c n.
Proof.
  intros t c Hc Ht n. induction n as [n IH] using lt_wf_ind. destruct (le_lt_dec n t) as [H|H]; [now apply ring_last|]. apply ring_more; [exact H| |apply IH, next_size_lt; lia].
  assert (t / 2 <= 1)%nat by (destruct t as [|[|[|[|t]]]]; cbn; lia). lia.
Qed.
Lemma mera_ok : forall t c dis per, (1 <= c <= t)%nat -> forall fuel inner cur idx, (length cur < fuel)%nat -> (length cur < inner)%nat -> NoDup cur -> (forall x, In x cur -> x < idx) ->
  (dis = true -> per = true -> ring_sizes t c (length cur)) ->
  exists L idx', mera_loop fuel inner t c dis per cur idx = Some L /\ trans cur idx L [] idx'.
Proof.
  intros t c dis per Hc fuel. induction fuel as [|f IH]; intros inner cur idx Hf Hi N B Hr; [lia|]. cbn [mera_loop].
  assert (D : exists L1 c1 i1, (if dis then if per then ring_loop inner t cur idx (t / 2) [] else do (ts, nx, ix) <- open_loop inner t cur idx (t / 2); Some (ts, firstn (t / 2) cur ++ nx, ix) else Some ([], cur, idx)) = Some (L1, c1, i1) /\
    trans cur idx L1 c1 i1 /\ length c1 = length cur).
  { assert (E0 : firstn (t / 2) cur ++ skipn (t / 2) cur = cur) by apply firstn_skipn. destruct dis; [destruct per|].
    - specialize (Hr eq_refl eq_refl). destruct (le_lt_dec (length cur) t) as [H|H].
      + destruct inner as [|inner]; [lia|]. rewrite (ring_small_ok t inner cur idx H). do 3 eexists. split; [reflexivity|]. split; [now apply trans_nil|reflexivity].
      + assert (Hm : (length cur mod t = 0 \/ t / 2 <= length cur mod t)%nat) by (inversion Hr; [lia|assumption]). assert (Hh : (t / 2 < t)%nat) by (apply Nat.div_lt; lia).
        assert (P : Permutation ([] ++ skipn (t / 2) cur ++ firstn (t / 2) cur) cur) by (cbn [app]; eapply Permutation_trans; [apply Permutation_app_comm|]; rewrite E0; apply Permutation_refl).
        destruct (ring_ok t ltac:(lia) cur H Hm inner idx (t / 2)%nat [] 0%nat ltac:(lia) ltac:(lia) ltac:(lia)) as (L & nx & ix & EL & T & Ln).
        * exact (Permutation_NoDup (Permutation_sym P) N).
        * intros x Hx. apply B. exact (Permutation_in x P Hx).
        * exists L, nx, ix. split; [exact EL|]. split; [exact (trans_perml _ _ _ _ _ _ T P)|]. rewrite Ln. cbn [length]. lia.
    - destruct (open_ok t ltac:(lia) inner cur idx (t / 2)%nat (firstn (t / 2) cur)) as (L & nx & ix & EL & T & Ln); [lia|now rewrite E0|now rewrite E0|].
      rewrite EL. cbn [bind]. do 3 eexists. split; [reflexivity|]. rewrite E0 in T. split; [exact T|]. rewrite app_length, Ln, firstn_length. lia.
    - do 3 eexists. split; [reflexivity|]. split; [now apply trans_nil|reflexivity]. }
  destruct D as (L1 & c1 & i1 & E1 & T1 & Lc). rewrite E1. cbn [bind]. destruct (trans_live _ _ _ _ _ T1) as [N1 B1].
  destruct (iso_ok t c Hc inner c1 i1 0%nat [] ltac:(lia) ltac:(lia) N1 B1) as (L2 & nx & ix & E2 & T2 & Ln & Lw & Ne & Sm). rewrite E2. cbn [bind]. cbn [app skipn] in T2. rewrite Nat.sub_0_r in *.
  destruct (le_lt_dec (length c1) t) as [H|H].
  - destruct (Sm H) as (k & ->). unfold last_width. cbn [last]. unfold width. cbn [skipn cap]. rewrite ints_len, Nat.max_id, Nat.eqb_refl. unfold width. rewrite ints_len, Nat.max_id.
    exists (L1 ++ [(ints i1 (length c1), c1, length c1)]), (i1 + zlen c1). split; [reflexivity|]. apply (trans_app _ _ _ _ _ _ _ _ T1).
    apply (trans_gate c1 i1 c1 []); auto; [now rewrite app_nil_r|]. rewrite skipn_all2 by (rewrite ints_len; lia). constructor.
  - destruct (Nat.eqb_spec (last_width L2) (length c1)) as [E|_]; [lia|]. destruct (trans_live _ _ _ _ _ T2) as [N2 B2]. pose proof (next_size_lt t c (length c1) Hc ltac:(lia)) as Lt.
    destruct (IH inner nx ix ltac:(lia) ltac:(lia) N2 B2) as (L3 & i3 & E3 & T3).
    + intros Hd Hp. specialize (Hr Hd Hp). rewrite Ln, Lc. inversion Hr; [lia|assumption].
    + rewrite E3. cbn [bind]. exists (L1 ++ L2 ++ L3), i3. split; [reflexivity|]. apply (trans_app _ _ _ _ _ _ _ _ T1). exact (trans_app _ _ _ _ _ _ _ _ T2 T3).
Qed.

Section Mera.
Variable R : CRing.
Notation gt := (gt R).
(** *** C76: for 1 <= n_core <= n_tensor_sites the constructor ends and makes a network of the kind of C72 on the sites 0 .. n-1, in which
    exactly the terminal legs are core legs; with periodic disentanglers if they fit at every layer. *)
Theorem c76_mera : forall n t c dis per fuel, (1 <= c <= t)%nat -> (n < fuel)%nat -> (dis = true -> per = true -> ring_sizes t c n) -> exists L, mera1d fuel n t c dis per = Some L /\
  forall ts : list gt, map (fun t => (g_u t, g_d t, g_core t)) ts = L -> (forall t, In t ts -> length (g_occ t) = g_core t) ->
    wired R ts /\ shaped R ts /\ initial_indices R ts = map Z.of_nat (seq 0 n) /\ length (terminal_indices R ts) = n /\
    forall x, (In x (ups R ts) /\ ~ In x (downs R ts)) <-> exists t p, In t ts /\ (p < g_core t)%nat /\ x = nth p (g_u t) 0.
Proof.
  intros n t c dis per fuel Hc Hf Hr. unfold mera1d. destruct (Nat.eqb_spec c 0); [lia|].
  destruct (mera_ok t c dis per Hc fuel fuel (ints 0 n) (Z.of_nat n)) as (L & ix & E & T); rewrite ?ints_len; auto; [apply ints_nodup|intros x Hx; apply in_ints in Hx; lia|].
  exists L. split; [exact E|]. exact (legs_net R n L (trans_end _ _ _ _ T)).
Qed.
(** tensors of up to three sites always fit *)
Theorem c76_narrow : forall n t c dis per fuel, (1 <= c <= t)%nat -> (t <= 3)%nat -> (n < fuel)%nat -> exists L, mera1d fuel n t c dis per = Some L /\
  forall ts : list gt, map (fun t => (g_u t, g_d t, g_core t)) ts = L -> (forall t, In t ts -> length (g_occ t) = g_core t) ->
    wired R ts /\ shaped R ts /\ initial_indices R ts = map Z.of_nat (seq 0 n) /\ length (terminal_indices R ts) = n.
Proof.
  intros n t c dis per fuel Hc Ht Hf. destruct (c76_mera n t c dis per fuel Hc Hf) as (L & E & H); [intros _ _; now apply ring_sizes_small|]. exists L. split; [exact E|]. intros ts H1 H2. destruct (H ts H1 H2) as (A1 & A2 & A3 & A4 & _). auto.
Qed.
End Mera.

(** *** Examples *)
Example ex_mera : mera1d 10 8 4 2 true true = Some [([8; 9; 10; 11], [2; 3; 4; 5], 0%nat); ([12; 13; 14; 15], [6; 7; 0; 1], 0%nat);
  ([16; 17; 18; 19], [14; 15; 8; 9], 2%nat); ([20; 21; 22; 23], [10; 11; 12; 13], 2%nat); ([24; 25; 26; 27], [18; 19; 22; 23], 4%nat)].
Proof. vm_compute. reflexivity. Qed.
Example ex_mera_sizes : ring_sizes 4 2 8.
Proof. apply ring_more; [lia|left; reflexivity|]. apply ring_last. vm_compute. lia. Qed.
(* no tensor can be placed after at most k passes *)
Fixpoint dead (k : nat) (cur : list Z) (rem : list (nat * gt Qc_ring)) : bool :=
  match rem with [] => false | _ =>
    forallb (fun e => negb (forallb (fun x => mem x cur) (g_d (snd e)))) rem
    || match k with O => false | S k' => match pass Qc_ring cur rem with Some (_, ne, ix) => dead k' ix ne | None => true end end end.
Lemma dead_none : forall k cur rem fuel, dead k cur rem = true -> layers_loop Qc_ring fuel cur rem = None.
Proof.
  induction k as [|k IH]; intros cur rem fuel H; (destruct rem as [|e rem]; [discriminate|]); cbn [dead] in H; apply Bool.orb_prop in H; destruct H as [H|H]; try discriminate.
  1,2: apply stuck; [|discriminate]; clear - H; revert H; generalize (e :: rem) as l; induction l as [|x l IH]; intros H; [reflexivity|]; cbn [forallb] in H; apply andb_prop in H; destruct H as [H1 H2]; cbn [filter]; apply Bool.negb_true_iff in H1; unfold ready; rewrite H1; now apply IH.
  destruct fuel as [|fuel]; [reflexivity|]. cbn [layers_loop]. destruct (pass Qc_ring cur (e :: rem)) as [[[la ne] ix]|]; [|reflexivity]. cbn [bind]. destruct ne as [|e' ne]; [destruct k; discriminate|]. rewrite (IH ix (e' :: ne) fuel H). reflexivity.
Qed.
(* six sites and the default arguments (five sites per tensor, two core legs, periodic disentanglers): site 0 is used by two tensors *)
Theorem c76_periodic_refuted : exists n L, mera1d 20 n 5 2 true true = Some L /\ n = 6%nat /\ count_occ Z.eq_dec (LD L) 0 = 2%nat /\ forall fuel, layers_upto Qc_ring fuel (mps_net L) = None.
Proof.
  exists 6%nat. eexists. split; [vm_compute; reflexivity|]. split; [reflexivity|]. split; [vm_compute; reflexivity|].
  intros fuel. unfold layers_upto. apply (dead_none 2). vm_compute. reflexivity.
Qed.
Print Assumptions c76_mera. Print Assumptions c76_narrow. Print Assumptions c76_periodic_refuted.
