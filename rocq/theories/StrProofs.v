(* Facts about the text operations of StrLib. *)
From Coq Require Import List Ascii String ZArith QArith Qabs Qround Lia Bool Arith Psatz.
From Verif Require Import StrLib.
Import ListNotations.
Local Open Scope Z_scope.
Local Open Scope list_scope.
Notation length := List.length.

(* ---- characters ---- *)
Lemma code_digit : forall d, 0 <= d < 10 -> code (digit d) = 48 + d.
Proof.
  intros d H. unfold code, digit. rewrite nat_ascii_embedding; lia.
Qed.
Lemma is_digit_digit : forall d, 0 <= d < 10 -> is_digit (digit d) = true.
Proof. intros d H. unfold is_digit. rewrite code_digit by lia. lia. Qed.
Lemma digit_not_ws : forall c, is_digit c = true -> ws c = false.
Proof. intros c H. unfold is_digit, ws in *. lia. Qed.
Lemma digit_lower : forall c, is_digit c = true -> lower1 c = c.
Proof.
  intros c H. unfold is_digit, lower1 in *.
  destruct ((65 <=? code c) && (code c <=? 90)) eqn:E; [lia|reflexivity].
Qed.
Lemma digit_neq : forall c d, is_digit c = true -> is_digit d = false -> Ascii.eqb c d = false.
Proof. intros c d H G. apply Ascii.eqb_neq. intros ->. congruence. Qed.

(* ---- decimal strings ---- *)
Lemma dval_app1 : forall s c, dval (s ++ [c]) = 10 * dval s + (code c - 48).
Proof. intros. unfold dval. now rewrite fold_left_app. Qed.
Lemma all_digits_app : forall a b, all_digits (a ++ b) = all_digits a && all_digits b.
Proof. intros. apply forallb_app. Qed.

Lemma digs_aux_ok : forall f z, 0 <= z -> z < 2 ^ Z.of_nat (S f) ->
  all_digits (digs_aux f z) = true /\ dval (digs_aux f z) = z /\ digs_aux f z <> [].
Proof.
  induction f as [|f IH]; intros z H0 H1.
  - cbn [digs_aux]. change (2 ^ Z.of_nat 1) with 2 in H1.
    split; [|split]; [cbn [all_digits forallb]; now rewrite is_digit_digit by lia
      |unfold dval; cbn [fold_left]; rewrite code_digit; lia|discriminate].
  - cbn [digs_aux]. destruct (z <? 10) eqn:E.
    + split; [|split]; [cbn [all_digits forallb]; now rewrite is_digit_digit by lia
      |unfold dval; cbn [fold_left]; rewrite code_digit; lia|discriminate].
    + assert (M := Z.mod_pos_bound z 10 ltac:(lia)).
      assert (D := Z.div_mod z 10 ltac:(lia)).
      destruct (IH (z / 10)) as [A [B C]].
      * apply Z.div_pos; lia.
      * rewrite Nat2Z.inj_succ in H1. rewrite Z.pow_succ_r in H1 by lia. lia.
      * split; [|split].
        -- rewrite all_digits_app, A. cbn [all_digits forallb]. now rewrite is_digit_digit by lia.
        -- rewrite dval_app1, B, code_digit by lia. lia.
        -- intros Q. apply app_eq_nil in Q. now destruct Q.
Qed.
Lemma str_nat_ok : forall z, 0 <= z ->
  all_digits (str_nat z) = true /\ dval (str_nat z) = z /\ str_nat z <> [].
Proof.
  intros z H. unfold str_nat. apply digs_aux_ok; [lia|].
  rewrite Nat2Z.inj_succ. rewrite Z2Nat.id by apply Z.log2_nonneg.
  destruct (Z.eq_dec z 0) as [->|N]; [reflexivity|].
  apply Z.log2_spec. lia.
Qed.
Lemma str_nat_digits : forall z, 0 <= z -> all_digits (str_nat z) = true.
Proof. intros. now apply str_nat_ok. Qed.
Lemma str_nat_val : forall z, 0 <= z -> dval (str_nat z) = z.
Proof. intros. now apply str_nat_ok. Qed.
Lemma str_nat_nonempty : forall z, 0 <= z -> str_nat z <> [].
Proof. intros. now apply str_nat_ok. Qed.

Lemma digs_aux_length : forall f z k, 0 <= z < 10 ^ Z.of_nat k -> (1 <= k)%nat ->
  (length (digs_aux f z) <= k)%nat.
Proof.
  induction f as [|f IH]; intros z k H K; cbn [digs_aux].
  - cbn [length]. lia.
  - destruct (z <? 10) eqn:E; [cbn [length]; lia|].
    rewrite app_length. cbn [length].
    destruct k as [|[|k]]; [lia|change (10 ^ Z.of_nat 1) with 10 in H; lia|].
    assert (length (digs_aux f (z / 10)) <= S k)%nat; [|lia].
    apply IH; [|lia]. rewrite (Nat2Z.inj_succ (S k)), Z.pow_succ_r in H by lia.
    split; [apply Z.div_pos; lia|]. apply Z.div_lt_upper_bound; lia.
Qed.
Lemma str_nat_length : forall z k, 0 <= z < 10 ^ Z.of_nat k -> (1 <= k)%nat ->
  (length (str_nat z) <= k)%nat.
Proof. intros. now apply digs_aux_length. Qed.

(* lower bound on the length: a number of at least 10^k has more than k digits *)
Lemma dval_bound : forall s, all_digits s = true -> 0 <= dval s < 10 ^ Z.of_nat (length s).
Proof.
  intros s. induction s as [|c s IH] using rev_ind; intros H.
  - unfold dval. cbn. lia.
  - rewrite all_digits_app in H. apply andb_true_iff in H. destruct H as [A B].
    cbn in B. rewrite andb_true_r in B. unfold is_digit in B.
    specialize (IH A). rewrite dval_app1, app_length. cbn [length].
    rewrite Nat2Z.inj_add, Z.pow_add_r by lia. change (10 ^ Z.of_nat 1) with 10. lia.
Qed.

Lemma dval_zeros : forall k s, dval (repeat "0"%char k ++ s) = dval s.
Proof.
  intros k s. unfold dval. rewrite fold_left_app. f_equal.
  induction k; [reflexivity|]. cbn. apply IHk.
Qed.
Lemma zpad_ok : forall w s, all_digits s = true -> all_digits (zpad w s) = true /\ dval (zpad w s) = dval s.
Proof.
  intros w s H. unfold zpad. split; [|apply dval_zeros].
  rewrite all_digits_app, H, andb_true_r. induction (w - length s)%nat; [reflexivity|exact IHn].
Qed.
Lemma zpad_length : forall w s, (length s <= w)%nat -> length (zpad w s) = w.
Proof. intros. unfold zpad. rewrite app_length, repeat_length. lia. Qed.

Lemma dval_app : forall b a, all_digits b = true ->
  dval (a ++ b) = dval a * 10 ^ Z.of_nat (length b) + dval b.
Proof.
  intros b. induction b as [|c b IH] using rev_ind; intros a H.
  - rewrite app_nil_r. unfold dval at 3. cbn. lia.
  - rewrite all_digits_app in H. apply andb_true_iff in H. destruct H as [A B].
    rewrite app_assoc, !dval_app1, IH by exact A.
    rewrite app_length. cbn [length]. rewrite Nat2Z.inj_add, Z.pow_add_r by lia.
    change (10 ^ Z.of_nat 1) with 10. lia.
Qed.

(* ---- strip ---- *)
Lemma lstrip_id : forall s, (match s with [] => True | c :: _ => ws c = false end) -> lstrip s = s.
Proof. intros [|c s] H; [reflexivity|]. cbn. now rewrite H. Qed.
Definition no_ws (s : text) : Prop := forall c, In c s -> ws c = false.
Lemma strip_no_ws : forall s, no_ws s -> strip s = s.
Proof.
  intros s H. unfold strip. rewrite (lstrip_id s).
  - rewrite lstrip_id; [apply rev_involutive|].
    destruct (rev s) as [|c r] eqn:E; [exact I|]. apply H. apply in_rev. rewrite E. now left.
  - destruct s as [|c s]; [exact I|]. apply H. now left.
Qed.
Lemma all_digits_in : forall s c, all_digits s = true -> In c s -> is_digit c = true.
Proof. intros s c H I. unfold all_digits in H. rewrite forallb_forall in H. now apply H. Qed.
Lemma digits_no_ws : forall s, all_digits s = true -> no_ws s.
Proof. intros s H c I. apply digit_not_ws. eapply all_digits_in; eauto. Qed.

(* ---- int(str(z)) = z ---- *)
Lemma nat_of_digits : forall s, all_digits s = true -> s <> [] -> nat_of s = Some (dval s).
Proof. intros [|c s] H N; [congruence|]. unfold nat_of. now rewrite H. Qed.
Lemma py_int_digits : forall s, all_digits s = true -> s <> [] -> py_int s = Some (dval s).
Proof.
  intros s H N. unfold py_int. rewrite strip_no_ws by now apply digits_no_ws.
  destruct s as [|c s]; [congruence|].
  assert (D : is_digit c = true) by (eapply all_digits_in; [exact H|now left]).
  rewrite (digit_neq c minus D) by reflexivity. rewrite (digit_neq c plus D) by reflexivity.
  now apply nat_of_digits.
Qed.
Lemma str_int_no_ws : forall z, no_ws (str_int z).
Proof.
  intros z c. unfold str_int. destruct (z <? 0) eqn:E.
  - intros [<-|I]; [reflexivity|]. eapply digits_no_ws; [|exact I]. apply str_nat_digits. lia.
  - intros I. eapply digits_no_ws; [|exact I]. apply str_nat_digits. lia.
Qed.
Lemma str_int_nonempty : forall z, str_int z <> [].
Proof. intros z. unfold str_int. destruct (z <? 0) eqn:E; [discriminate|]. apply str_nat_nonempty. lia. Qed.
Lemma py_int_str_int : forall z, py_int (str_int z) = Some z.
Proof.
  intros z. unfold str_int. destruct (z <? 0) eqn:E.
  - unfold py_int. rewrite strip_no_ws.
    + cbn [Ascii.eqb]. change (Ascii.eqb minus minus) with true. cbv iota.
      destruct (str_nat_ok (- z) ltac:(lia)) as [A [B C]].
      rewrite nat_of_digits by assumption. rewrite B. cbn. f_equal. lia.
    + intros c [<-|I]; [reflexivity|]. eapply digits_no_ws; [|exact I]. apply str_nat_digits. lia.
  - destruct (str_nat_ok z ltac:(lia)) as [A [B C]]. rewrite py_int_digits by assumption. now rewrite B.
Qed.

(* ---- split_on, join ---- *)
Lemma split_on_nonempty : forall c s, split_on c s <> [].
Proof.
  intros c [|x s]; cbn; [discriminate|]. destruct (Ascii.eqb x c); [discriminate|].
  destruct (split_on c s); discriminate.
Qed.
Lemma split_on_none : forall c s, ~ In c s -> split_on c s = [s].
Proof.
  intros c s. induction s as [|x s IH]; intros N; [reflexivity|]. cbn.
  destruct (Ascii.eqb x c) eqn:E.
  - apply Ascii.eqb_eq in E. subst. exfalso. apply N. now left.
  - rewrite IH; [reflexivity|]. intros I. apply N. now right.
Qed.
Lemma split_on_app : forall c a b, split_on c (a ++ c :: b) = split_on c a ++ split_on c b.
Proof.
  intros c a b. induction a as [|x a IH].
  - cbn. now rewrite Ascii.eqb_refl.
  - cbn [app split_on]. destruct (Ascii.eqb x c) eqn:E.
    + now rewrite IH.
    + rewrite IH. destruct (split_on c a) as [|w l] eqn:G; [now apply split_on_nonempty in G|]. reflexivity.
Qed.
Lemma split_on_join : forall c l, l <> [] -> split_on c (join c l) = flat_map (split_on c) l.
Proof.
  intros c l. induction l as [|w l IH]; intros N; [congruence|].
  destruct l as [|w' l]; [cbn; now rewrite app_nil_r|].
  cbn [join flat_map]. rewrite split_on_app. f_equal. apply IH. discriminate.
Qed.

(* ---- words ---- *)
Section Words.
Variable p : ascii -> bool.
Lemma words_sep : forall c s, p c = true -> words p (c :: s) = words p s.
Proof. intros c s H. cbn. now rewrite H. Qed.
Lemma words_seps : forall a s, forallb p a = true -> words p (a ++ s) = words p s.
Proof.
  induction a as [|c a IH]; intros s H; [reflexivity|]. cbn in H. apply andb_true_iff in H.
  cbn [app]. rewrite words_sep by tauto. apply IH. tauto.
Qed.
Lemma words_word : forall w s, w <> [] -> (forall c, In c w -> p c = false) ->
  (match s with [] => True | c :: _ => p c = true end) ->
  words p (w ++ s) = w :: words p s.
Proof.
  induction w as [|c w IH]; intros s N W E; [congruence|].
  destruct w as [|c' w].
  - cbn [app]. cbn [words]. rewrite (W c) by now left.
    destruct s as [|d s]; [reflexivity|]. now rewrite E.
  - change ((c :: c' :: w) ++ s) with (c :: (c' :: w) ++ s).
    remember ((c' :: w) ++ s) as r eqn:R. cbn [words]. rewrite (W c) by now left.
    assert (words p r = (c' :: w) :: words p s) as Q.
    { subst r. apply IH; [discriminate| |exact E]. intros x I. apply W. now right. }
    rewrite Q. subst r. cbn [app]. rewrite (W c') by (right; now left). reflexivity.
Qed.
Lemma words_mixed : forall a s, words p (a ++ s) =
  match s with
  | [] => words p a
  | c :: _ => if p c then words p a ++ words p s else words p (a ++ s)
  end.
Proof.
  induction a as [|x a IH]; intros s.
  - cbn [app]. destruct s as [|c s]; [reflexivity|]. now destruct (p c).
  - destruct s as [|c s]; [now rewrite app_nil_r|]. destruct (p c) eqn:E; [|reflexivity].
    specialize (IH (c :: s)). cbn iota in IH. rewrite E in IH.
    rewrite (words_sep c s E) in *.
    cbn [app]. remember (a ++ c :: s) as r eqn:R. cbn [words].
    destruct (p x) eqn:X.
    + exact IH.
    + destruct a as [|y a].
      * cbn [app] in R. subst r. rewrite E. cbn [app]. now rewrite words_sep.
      * cbn [app] in R. subst r. destruct (p y) eqn:Y.
        -- rewrite IH. reflexivity.
        -- rewrite IH. destruct (words p (y :: a)) as [|w l] eqn:G.
           ++ exfalso. clear -G Y. cbn in G. rewrite Y in G. destruct a as [|z a]; [discriminate|].
              destruct (p z); [discriminate|]. destruct (words p (z :: a)); discriminate.
           ++ reflexivity.
Qed.
Lemma words_app_sep : forall a c s, p c = true -> words p (a ++ c :: s) = words p a ++ words p s.
Proof.
  intros a c s H. pose proof (words_mixed a (c :: s)) as Q. cbn iota in Q. rewrite H in Q.
  rewrite Q. f_equal. now apply words_sep.
Qed.
End Words.

(* splitting at whitespace and then each word at commas: words between either *)
Definition ws_comma (c : ascii) : bool := ws c || Ascii.eqb c comma.
Definition nonempty (s : text) : bool := match s with [] => false | _ => true end.
Lemma filter_split_words : forall s, no_ws s -> filter nonempty (split_on comma s) = words ws_comma s.
Proof.
  intros s. remember (length s) as n eqn:E. assert (L : (length s <= n)%nat) by lia. clear E.
  revert s L. induction n as [|n IH]; intros s L W; [destruct s; [reflexivity|cbn in L; lia]|].
  destruct (in_dec ascii_dec comma s) as [I|I].
  - apply in_split in I. destruct I as [a [b ->]].
    rewrite split_on_app, filter_app, words_app_sep by reflexivity.
    rewrite app_length in L. cbn in L.
    rewrite !IH; [reflexivity|lia| |lia|]; intros c J; apply W; apply in_or_app; [right; now right|now left].
  - rewrite split_on_none by exact I. destruct s as [|c s]; [reflexivity|]. cbn [filter nonempty].
    rewrite <- (app_nil_r (c :: s)) at 2. rewrite words_word; [reflexivity|discriminate| |exact I0 || exact Logic.I].
    intros x J. unfold ws_comma. rewrite W by exact J. cbn. apply Ascii.eqb_neq. intros ->. auto.
Qed.

(* ---- strip and words ---- *)
Lemma lstrip_decomp : forall s, exists a, forallb ws a = true /\ s = a ++ lstrip s /\
  match lstrip s with [] => True | c :: _ => ws c = false end.
Proof.
  induction s as [|c s IH]; [exists []; cbn; auto|]. cbn. destruct (ws c) eqn:E.
  - destruct IH as [a [A [B C]]]. exists (c :: a). cbn. rewrite E. split; [exact A|]. split; [now f_equal|exact C].
  - exists []. cbn. auto.
Qed.
Lemma strip_decomp : forall s, exists a b, forallb ws a = true /\ forallb ws b = true /\
  s = a ++ strip s ++ b /\ match strip s with [] => True | c :: _ => ws c = false end.
Proof.
  intros s. destruct (lstrip_decomp s) as [a [A [B C]]].
  destruct (lstrip_decomp (rev (lstrip s))) as [b [D [E F]]].
  exists a, (rev b). split; [exact A|]. split.
  - rewrite forallb_forall in *. intros x I. apply D. now apply in_rev.
  - assert (G : lstrip s = strip s ++ rev b).
    { unfold strip. rewrite <- rev_app_distr, <- E. now rewrite rev_involutive. }
    split; [rewrite <- G; exact B|].
    destruct (strip s) as [|c t] eqn:H; [exact I|]. rewrite G in C. exact C.
Qed.
Lemma words_trail : forall p s b, forallb p b = true -> words p (s ++ b) = words p s.
Proof.
  intros p s b H. rewrite words_mixed. destruct b as [|c b]; [reflexivity|].
  cbn in H. apply andb_true_iff in H. destruct H as [H1 H2]. rewrite H1.
  rewrite words_sep by exact H1. rewrite <- (app_nil_r b), words_seps by exact H2. cbn. now rewrite app_nil_r.
Qed.
Lemma words_strip : forall s, words ws (strip s) = words ws s.
Proof.
  intros s. destruct (strip_decomp s) as [a [b [A [B [E _]]]]].
  rewrite E at 2. rewrite words_seps by exact A. now rewrite words_trail.
Qed.
Lemma strip_first : forall s c w l, words ws s = (c :: w) :: l -> exists t, strip s = c :: t.
Proof.
  intros s c w l H. rewrite <- words_strip in H.
  destruct (strip_decomp s) as [a [b [_ [_ [_ D]]]]].
  destruct (strip s) as [|d t]; [discriminate|]. exists t. f_equal.
  cbn in H. rewrite D in H. destruct t as [|e t]; [now inversion H|].
  destruct (ws e); [now inversion H|]. destruct (words ws (e :: t)); now inversion H.
Qed.

(* ---- '%20.16f' and float() ---- *)
Lemma round_even_half : forall q, (Qabs (inject_Z (round_even q) - q) <= 1 # 2)%Q.
Proof.
  intros q. unfold round_even. set (f := Qfloor q).
  assert (A := Qfloor_le q). assert (B := Qlt_floor q). fold f in A, B.
  rewrite inject_Z_plus in B. change (inject_Z 1) with 1%Q in B.
  destruct (Qcompare (q - inject_Z f) (1 # 2)) eqn:E.
  - apply Qeq_alt in E. apply Qabs_Qle_condition. destruct (Z.even f); rewrite ?inject_Z_plus; change (inject_Z 1) with 1%Q; lra.
  - apply Qlt_alt in E. apply Qabs_Qle_condition. lra.
  - apply Qgt_alt in E. apply Qabs_Qle_condition. rewrite inject_Z_plus; change (inject_Z 1) with 1%Q. lra.
Qed.
Lemma round_even_int : forall q z, (q == inject_Z z)%Q -> round_even q = z.
Proof.
  intros q z H. assert (A := round_even_half q).
  apply Qabs_Qle_condition in A. destruct A as [A B].
  set (r := inject_Z (round_even q)) in *. set (t := inject_Z z) in *.
  assert (C1 : (r < t + 1)%Q) by (clearbody r t; lra).
  assert (D1 : (t - 1 < r)%Q) by (clearbody r t; lra).
  subst r t.
  assert (C : (inject_Z (round_even q) < inject_Z (z + 1))%Q) by (rewrite inject_Z_plus; exact C1).
  assert (D : (inject_Z (z - 1) < inject_Z (round_even q))%Q).
  { unfold Z.sub. rewrite inject_Z_plus. exact D1. }
  rewrite <- Zlt_Qlt in C, D. lia.
Qed.
Lemma round_even_nonneg : forall q, (0 <= q)%Q -> 0 <= round_even q.
Proof.
  intros q H. unfold round_even. assert (0 <= Qfloor q).
  { change 0 with (Qfloor (inject_Z 0)) . apply Qfloor_resp_le. exact H. }
  destruct (Qcompare (q - inject_Z (Qfloor q)) (1 # 2)); [destruct (Z.even (Qfloor q))| |]; lia.
Qed.
Lemma units_nonneg : forall x, 0 <= units x.
Proof.
  intros x. unfold units. apply round_even_nonneg. apply Qmult_le_0_compat; [apply Qabs_nonneg|].
  change 0%Q with (inject_Z 0). rewrite <- Zle_Qle. unfold tens16. lia.
Qed.

(* the decimal value printed for x *)
Definition dec16 (x : Q) : Q :=
  (if Qlt_le_dec x 0 then - (inject_Z (units x) / inject_Z tens16) else inject_Z (units x) / inject_Z tens16)%Q.

Definition core16 (x : Q) : text :=
  let body := (str_nat (units x / tens16) ++ dot :: zpad 16 (str_nat (units x mod tens16))) in
  if Qlt_le_dec x 0 then minus :: body else body.
Lemma fmt_f_core : forall x, fmt_f x = pad 20 (core16 x).
Proof. reflexivity. Qed.

Lemma tens16_pos : 0 < tens16. Proof. reflexivity. Qed.
Lemma tens16_pow : tens16 = 10 ^ Z.of_nat 16. Proof. reflexivity. Qed.
Global Opaque tens16.

Lemma frac_digits : forall r, 0 <= r ->
  let b := zpad 16 (str_nat (r mod tens16)) in
  all_digits b = true /\ dval b = r mod tens16 /\ length b = 16%nat.
Proof.
  intros r H b. assert (M := Z.mod_pos_bound r tens16 tens16_pos).
  destruct (str_nat_ok (r mod tens16) ltac:(lia)) as [A [B C]].
  destruct (zpad_ok 16 _ A) as [D E]. unfold b. split; [exact D|]. split; [now rewrite E|].
  apply zpad_length. apply str_nat_length; [|lia]. rewrite <- tens16_pow. lia.
Qed.
Lemma dec_of_body : forall r, 0 <= r ->
  dec_of (str_nat (r / tens16) ++ dot :: zpad 16 (str_nat (r mod tens16)))
  = Some (inject_Z r / inject_Z tens16)%Q.
Proof.
  intros r H. assert (P := tens16_pos). assert (Dv : 0 <= r / tens16) by (apply Z.div_pos; lia).
  destruct (str_nat_ok _ Dv) as [A [B C]].
  destruct (frac_digits r H) as [D [E F]].
  assert (NI : forall s, all_digits s = true -> ~ In dot s).
  { intros s G I. apply (all_digits_in s dot G) in I. discriminate. }
  unfold dec_of. rewrite split_on_app, !split_on_none by (apply NI; assumption).
  cbn [app]. rewrite all_digits_app, A, D. cbn [andb].
  destruct (str_nat (r / tens16)) as [|c s] eqn:G; [congruence|].
  remember (zpad 16 (str_nat (r mod tens16))) as b eqn:Eb.
  change ((c :: s) ++ b) with (c :: (s ++ b)) at 1. cbn [negb andb].
  rewrite dval_app by exact D. rewrite E, B, F, <- tens16_pow.
  replace (r / tens16 * tens16 + r mod tens16) with r; [reflexivity|].
  rewrite (Z.div_mod r tens16) at 1 by lia. lia.
Qed.
Lemma dot_ok : ws dot = false /\ lower1 dot = dot. Proof. split; reflexivity. Qed.
Lemma core16_chars : forall x c, In c (core16 x) -> is_digit c = true \/ c = dot \/ c = minus.
Proof.
  intros x c. unfold core16. cbv zeta. assert (U := units_nonneg x). assert (P := tens16_pos).
  assert (Q : In c (str_nat (units x / tens16) ++ dot :: zpad 16 (str_nat (units x mod tens16))) ->
              is_digit c = true \/ c = dot \/ c = minus).
  { rewrite in_app_iff. cbn [In]. intros [I|[I|I]].
    - left. eapply all_digits_in; [|exact I]. apply str_nat_digits. apply Z.div_pos; lia.
    - auto.
    - left. eapply all_digits_in; [|exact I]. now apply frac_digits. }
  destruct (Qlt_le_dec x 0); [|exact Q]. intros [I|I]; auto.
Qed.
Lemma core16_no_ws : forall x, no_ws (core16 x).
Proof. intros x c I. destruct (core16_chars x c I) as [D|[->| ->]]; [now apply digit_not_ws| |]; reflexivity. Qed.
Lemma core16_nonempty : forall x, core16 x <> [].
Proof.
  intros x. unfold core16. cbv zeta. destruct (Qlt_le_dec x 0); [discriminate|].
  intros Q. apply app_eq_nil in Q. now destruct Q.
Qed.
Lemma py_float_core : forall x, py_float (core16 x) = Some (dec16 x).
Proof.
  intros x. unfold py_float. rewrite strip_no_ws by apply core16_no_ws.
  assert (U := units_nonneg x). assert (P := tens16_pos).
  unfold core16, dec16. cbv zeta. destruct (Qlt_le_dec x 0).
  - change (Ascii.eqb minus minus) with true. cbv iota. now rewrite dec_of_body.
  - assert (Dv : 0 <= units x / tens16) by (apply Z.div_pos; lia).
    destruct (str_nat_ok _ Dv) as [A [B C]].
    assert (E := dec_of_body (units x) U).
    destruct (str_nat (units x / tens16)) as [|c s] eqn:G; [congruence|].
    assert (D : is_digit c = true) by (eapply all_digits_in; [exact A|now left]).
    cbn [app] in *. rewrite (digit_neq c minus D), (digit_neq c plus D) by reflexivity. exact E.
Qed.

(* the printed value is a nearest multiple of 10^-16 *)
Lemma dec16_near : forall x, (Qabs (dec16 x - x) * inject_Z tens16 <= 1 # 2)%Q.
Proof.
  intros x. assert (R := round_even_half (Qabs x * inject_Z tens16)). fold (units x) in R.
  assert (P : (0 < inject_Z tens16)%Q) by (change 0%Q with (inject_Z 0); rewrite <- Zlt_Qlt; apply tens16_pos).
  set (T := inject_Z tens16) in *. set (U := inject_Z (units x)) in *.
  assert (E : (Qabs (dec16 x - x) * T == Qabs (U - Qabs x * T))%Q).
  { rewrite <- (Qabs_pos T) at 1 by lra. rewrite <- Qabs_Qmult.
    unfold dec16. fold T U. destruct (Qlt_le_dec x 0) as [L|L].
    - rewrite (Qabs_neg x) by lra. rewrite <- (Qabs_opp (U - - x * T)). apply Qabs_wd. field. lra.
    - rewrite (Qabs_pos x) by lra. apply Qabs_wd. field. lra. }
  rewrite E. exact R.
Qed.
Lemma dec16_exact : forall x z, (x * inject_Z tens16 == inject_Z z)%Q -> (dec16 x == x)%Q.
Proof.
  intros x z H.
  assert (P : (0 < inject_Z tens16)%Q) by (change 0%Q with (inject_Z 0); rewrite <- Zlt_Qlt; apply tens16_pos).
  set (T := inject_Z tens16) in *.
  unfold dec16. fold T. destruct (Qlt_le_dec x 0) as [L|L].
  - assert (U : units x = - z).
    { unfold units. apply round_even_int. fold T. rewrite Qabs_neg by lra. rewrite inject_Z_opp, <- H. ring. }
    rewrite U, inject_Z_opp, <- H. field. lra.
  - assert (U : units x = z).
    { unfold units. apply round_even_int. fold T. rewrite Qabs_pos by lra. exact H. }
    rewrite U, <- H. field. lra.
Qed.
Lemma dec16_multiple : forall x, exists z, (dec16 x * inject_Z tens16 == inject_Z z)%Q.
Proof.
  intros x.
  assert (P : (0 < inject_Z tens16)%Q) by (change 0%Q with (inject_Z 0); rewrite <- Zlt_Qlt; apply tens16_pos).
  unfold dec16. destruct (Qlt_le_dec x 0).
  - exists (- units x). rewrite inject_Z_opp. field. lra.
  - exists (units x). field. lra.
Qed.
