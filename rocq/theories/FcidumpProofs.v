(* Proofs about FCIDUMP files: lines, header, integral arrays. *)
From Coq Require Import List Ascii String ZArith QArith Qabs Lia Bool Arith Permutation.
From Verif Require Import DictLib IndexLib TruncModel TruncProofs StrLib StrProofs FcidumpModel.
Import ListNotations.
Local Open Scope Z_scope.
Local Open Scope list_scope.
Notation length := List.length.

(* ------------------------------------------------------------------ lines *)
Definition narrow (cpx : bool) (v : num) : Prop := cpx = true -> (length (core16 (snd v)) < 20)%nat.

Lemma repeat_space_ws : forall k, forallb ws (repeat space k) = true.
Proof. induction k; [reflexivity|exact IHk]. Qed.

(* a padded field, followed by white space or the end *)
Lemma words_field : forall k w s, no_ws w -> w <> [] ->
  (match s with [] => True | c :: _ => ws c = true end) ->
  words ws (repeat space k ++ w ++ s) = w :: words ws s.
Proof.
  intros k w s W N E. rewrite words_seps by apply repeat_space_ws.
  now apply words_word.
Qed.

Lemma fmt_d_form : forall i, 0 <= i < 1000 -> exists k, fmt_d 4 i = space :: repeat space k ++ str_int i.
Proof.
  intros i H. exists (3 - length (str_int i))%nat. unfold fmt_d, pad.
  assert (length (str_int i) <= 3)%nat.
  { unfold str_int. replace (i <? 0) with false by lia. apply str_nat_length; [cbn; lia|lia]. }
  replace (4 - length (str_int i))%nat with (S (3 - length (str_int i))) by lia. reflexivity.
Qed.

Lemma words_d : forall i s, 0 <= i < 1000 -> (match s with [] => True | c :: _ => ws c = true end) ->
  words ws (fmt_d 4 i ++ s) = str_int i :: words ws s.
Proof.
  intros i s H E. destruct (fmt_d_form i H) as [k ->]. cbn [app]. rewrite words_sep by reflexivity.
  rewrite <- app_assoc. apply words_field; [apply str_int_no_ws|apply str_int_nonempty|exact E].
Qed.
Lemma head_d : forall i s, 0 <= i < 1000 ->
  match fmt_d 4 i ++ s with [] => True | c :: _ => ws c = true end.
Proof. intros i s H. destruct (fmt_d_form i H) as [k ->]. reflexivity. Qed.

Definition small (i : Z) : Prop := 0 <= i < 1000.

Definition line0 (cpx : bool) (v : num) (i j k l : Z) : text :=
  (if cpx then fmt_f (fst v) ++ fmt_f (snd v) else fmt_f (fst v))
   ++ fmt_d 4 i ++ fmt_d 4 j ++ fmt_d 4 k ++ fmt_d 4 l.
Lemma fmt_line_line0 : forall cpx v i j k l, fmt_line cpx v i j k l = line0 cpx v i j k l ++ [newline].
Proof. intros. unfold fmt_line, line0. now rewrite <- !app_assoc. Qed.

Lemma words_indices : forall i j k l, small i -> small j -> small k -> small l ->
  words ws (fmt_d 4 i ++ fmt_d 4 j ++ fmt_d 4 k ++ fmt_d 4 l) = [str_int i; str_int j; str_int k; str_int l].
Proof.
  intros i j k l Hi Hj Hk Hl.
  rewrite words_d by (auto; now apply head_d).
  rewrite words_d by (auto; now apply head_d).
  rewrite <- (app_nil_r (fmt_d 4 l)).
  rewrite words_d by (auto; now apply head_d). now rewrite words_d.
Qed.

Lemma words_line0 : forall cpx v i j k l, narrow cpx v -> small i -> small j -> small k -> small l ->
  words ws (line0 cpx v i j k l) =
  core16 (fst v) :: (if cpx then [core16 (snd v)] else []) ++ [str_int i; str_int j; str_int k; str_int l].
Proof.
  intros cpx v i j k l NW Hi Hj Hk Hl. unfold line0.
  destruct cpx.
  - specialize (NW eq_refl). rewrite <- app_assoc. rewrite (fmt_f_core (fst v)). unfold pad at 1. rewrite <- app_assoc.
    rewrite words_field; [|apply core16_no_ws|apply core16_nonempty|].
    + cbn [app]. f_equal. rewrite fmt_f_core. unfold pad. rewrite <- app_assoc.
      rewrite words_field; [|apply core16_no_ws|apply core16_nonempty|now apply head_d].
      f_equal. now apply words_indices.
    + rewrite fmt_f_core. unfold pad. destruct (20 - length (core16 (snd v)))%nat eqn:E; [lia|]. reflexivity.
  - rewrite (fmt_f_core (fst v)). unfold pad. rewrite <- app_assoc.
    rewrite words_field; [|apply core16_no_ws|apply core16_nonempty|now apply head_d].
    f_equal. now apply words_indices.
Qed.

Definition printed (cpx : bool) (v : num) : num := (dec16 (fst v), if cpx then dec16 (snd v) else 0%Q).

Lemma read_line_line0 : forall cpx v i j k l, narrow cpx v -> small i -> small j -> small k -> small l ->
  read_line (line0 cpx v i j k l) = Some (Some (cpx, (i, j, k, l, printed cpx v))).
Proof.
  intros cpx v i j k l NW Hi Hj Hk Hl. assert (W := words_line0 cpx v i j k l NW Hi Hj Hk Hl).
  unfold read_line.
  destruct (core16 (fst v)) as [|c w] eqn:E; [now apply core16_nonempty in E|].
  destruct (strip_first _ _ _ _ W) as [t T]. rewrite T.
  assert (C : Ascii.eqb c "!"%char = false).
  { apply Ascii.eqb_neq. intros ->. destruct (core16_chars (fst v) "!"%char) as [D|[D|D]]; try discriminate.
    rewrite E. now left. }
  rewrite C. unfold split_ws. rewrite <- T, words_strip, W, <- E.
  destruct cpx; cbn [app]; rewrite !py_float_core; cbn [bind]; rewrite !py_int_str_int; reflexivity.
Qed.

(* characters of the integral section *)
Definition plain (c : ascii) : bool :=
  is_digit c || Ascii.eqb c dot || Ascii.eqb c minus || Ascii.eqb c space.
Lemma pad_plain : forall w s, (forall c, In c s -> plain c = true) -> forall c, In c (pad w s) -> plain c = true.
Proof.
  intros w s H c. unfold pad. rewrite in_app_iff. intros [I|I]; [|now apply H].
  apply repeat_spec in I. subst. reflexivity.
Qed.
Lemma core16_plain : forall x c, In c (core16 x) -> plain c = true.
Proof.
  intros x c I. unfold plain. destruct (core16_chars x c I) as [->|[->| ->]]; reflexivity.
Qed.
Lemma str_int_chars : forall z c, In c (str_int z) -> is_digit c = true \/ c = minus.
Proof.
  intros z c. unfold str_int. destruct (z <? 0) eqn:E; [intros [<-|I]; auto|intros I];
    left; (eapply all_digits_in; [|exact I]); apply str_nat_digits; lia.
Qed.
Lemma str_int_plain : forall z c, In c (str_int z) -> plain c = true.
Proof. intros z c I. unfold plain. destruct (str_int_chars z c I) as [->| ->]; reflexivity. Qed.
Lemma line0_plain : forall cpx v i j k l c, In c (line0 cpx v i j k l) -> plain c = true.
Proof.
  intros cpx v i j k l c. unfold line0. rewrite !in_app_iff.
  intros [I|[I|[I|[I|I]]]]; try (eapply pad_plain; [|exact I]; intros; eapply str_int_plain; eauto).
  destruct cpx; [apply in_app_iff in I; destruct I as [I|I]|];
    (eapply pad_plain; [|exact I]); intros; eapply core16_plain; eauto.
Qed.

Lemma plain_lower : forall c, plain c = true -> lower1 c = c.
Proof.
  intros c H. unfold plain in H. rewrite !orb_true_iff in H. destruct H as [[[H|H]|H]|H];
    [now apply digit_lower|apply Ascii.eqb_eq in H; subst; reflexivity..].
Qed.
Lemma plain_not : forall c d, plain c = true -> plain d = false -> c <> d.
Proof. intros c d H G ->. congruence. Qed.

(* a record of the file *)
Definition rec := (num * (Z * Z * Z * Z))%type.
Definition rec_line (cpx : bool) (r : rec) : text :=
  let '(v, (i, j, k, l)) := r in fmt_line cpx v i j k l.
Definition rec_ok (cpx : bool) (r : rec) : Prop :=
  let '(v, (i, j, k, l)) := r in narrow cpx v /\ small i /\ small j /\ small k /\ small l.
Definition rec_datum (cpx : bool) (r : rec) : datum :=
  let '(v, (i, j, k, l)) := r in (i, j, k, l, printed cpx v).

Lemma split_lines : forall cpx rs,
  split_on newline (flat_map (rec_line cpx) rs) =
  map (fun r : rec => let '(v, (i, j, k, l)) := r in line0 cpx v i j k l) rs ++ [[]].
Proof.
  intros cpx rs. induction rs as [|[v [[[i j] k] l]] rs IH]; [reflexivity|].
  cbn [flat_map map app]. unfold rec_line at 1. rewrite fmt_line_line0, <- app_assoc.
  change ([newline] ++ flat_map (rec_line cpx) rs) with (newline :: flat_map (rec_line cpx) rs).
  rewrite split_on_app, IH. rewrite split_on_none; [reflexivity|].
  intros I. apply line0_plain in I. discriminate.
Qed.

Lemma mapM_app : forall (A B : Type) (f : A -> option B) a b,
  mapM f (a ++ b) = bind (mapM f a) (fun x => bind (mapM f b) (fun y => Some (x ++ y))).
Proof.
  intros A B f a b. induction a as [|x a IH]; cbn.
  - destruct (mapM f b); reflexivity.
  - destruct (f x); [|reflexivity]. cbn. rewrite IH. destruct (mapM f a); [|reflexivity]. cbn.
    destruct (mapM f b); reflexivity.
Qed.

Lemma read_lines_ok : forall cpx rs, rs <> [] -> Forall (rec_ok cpx) rs ->
  read_lines (newline :: flat_map (rec_line cpx) rs) = Some (cpx, map (rec_datum cpx) rs).
Proof.
  intros cpx rs N H. unfold read_lines.
  change (newline :: flat_map (rec_line cpx) rs) with ([] ++ newline :: flat_map (rec_line cpx) rs).
  rewrite split_on_app, split_lines. rewrite !mapM_app.
  assert (E : mapM read_line
     (map (fun r : rec => let '(v, (i, j, k, l)) := r in line0 cpx v i j k l) rs)
     = Some (map (fun r => Some (cpx, rec_datum cpx r)) rs)).
  { clear N. induction H as [|[v [[[i j] k] l]] rs [A [B [C [D E]]]] F IH]; [reflexivity|].
    cbn [map mapM]. rewrite read_line_line0 by assumption. cbn [bind]. rewrite IH. reflexivity. }
  rewrite E. cbn [mapM split_on bind]. change (read_line []) with (@Some (option (bool * datum)) None).
  cbn [bind app flat_map].
  rewrite flat_map_app. cbn [flat_map app]. rewrite app_nil_r.
  assert (G : flat_map (fun o : option (bool * datum) => match o with Some x => [x] | None => [] end)
    (map (fun r => Some (cpx, rec_datum cpx r)) rs) = map (fun r => (cpx, rec_datum cpx r)) rs).
  { clear. induction rs; [reflexivity|]. cbn. now f_equal. }
  rewrite G, map_map. cbn [snd]. f_equal. f_equal.
  destruct rs as [|r rs]; [congruence|]. cbn. destruct cpx; [reflexivity|].
  clear. induction rs; [reflexivity|exact IHrs].
Qed.

Lemma flat_lines_plain : forall cpx rs c, In c (flat_map (rec_line cpx) rs) -> plain c = true \/ c = newline.
Proof.
  intros cpx rs c I. apply in_flat_map in I. destruct I as [[v [[[i j] k] l]] [_ I]].
  unfold rec_line in I. rewrite fmt_line_line0, in_app_iff in I. destruct I as [I|[I|[]]]; [|auto].
  left. eapply line0_plain; eauto.
Qed.

(* ----------------------------------------------------------------- header *)
Lemma span_ws : forall s, exists w r, s = w ++ r /\ no_ws w /\
  (match r with [] => True | c :: _ => ws c = true end) /\
  (match s with c :: _ => ws c = false -> w <> [] | [] => True end).
Proof.
  induction s as [|c s [w [r [E [N [R _]]]]]].
  - exists [], []. cbn. repeat split; auto. intros c [].
  - destruct (ws c) eqn:W.
    + exists [], (c :: s). cbn. repeat split; auto; [intros x []|congruence].
    + exists (c :: w), r. cbn. split; [now rewrite E|]. split; [|split; [exact R|congruence]].
      intros x [<-|I]; auto.
Qed.

Lemma words_two_level : forall s, filter nonempty (flat_map (split_on comma) (words ws s)) = words ws_comma s.
Proof.
  intros s. remember (length s) as n eqn:E. assert (L : (length s <= n)%nat) by lia. clear E.
  revert s L. induction n as [|n IH]; intros s L; [destruct s; [reflexivity|cbn in L; lia]|].
  destruct s as [|c s]; [reflexivity|]. destruct (ws c) eqn:W.
  - rewrite !words_sep; [|unfold ws_comma; now rewrite W|exact W]. apply IH. cbn in L. lia.
  - destruct (span_ws (c :: s)) as [w [r [E [N [R NE]]]]]. specialize (NE W). rewrite E in *.
    rewrite words_word by assumption. cbn [flat_map]. rewrite filter_app.
    rewrite filter_split_words by exact N.
    rewrite app_length in L. assert (0 < length w)%nat by (destruct w; [congruence|cbn; lia]).
    rewrite IH by lia. rewrite (words_mixed ws_comma w r). destruct r as [|d r]; [cbn; now rewrite app_nil_r|].
    unfold ws_comma at 3. now rewrite R.
Qed.

Lemma foldM_app : forall (A B : Type) (f : B -> A -> option B) l1 l2 b,
  foldM f b (l1 ++ l2) = bind (foldM f b l1) (fun b' => foldM f b' l2).
Proof.
  intros A B f l1 l2. induction l1 as [|x l1 IH]; intros b; [reflexivity|]. cbn.
  destruct (f b x); [|reflexivity]. cbn. apply IH.
Qed.

Lemma header_step_some : forall st c st', header_step st c = Some st' -> exists k, fst st' = Some k.
Proof.
  intros [[k|] d] c st' H; unfold header_step in H.
  - destruct (existsb (Ascii.eqb equal) c).
    + destruct (split_on equal c) as [|a [|b [|? ?]]]; try discriminate. inversion H. subst. cbn. eauto.
    + destruct (strip c) as [|x w]; [inversion H; subst; cbn; eauto|].
      destruct (dget text_eqb d (lower (strip k))); [|discriminate]. cbn in H. inversion H. subst. cbn. eauto.
  - destruct (split_on equal c) as [|a [|b [|? ?]]]; try discriminate. inversion H. subst. cbn. eauto.
Qed.
Lemma header_fold_filter : forall cs k d,
  foldM header_step (Some k, d) cs = foldM header_step (Some k, d) (filter nonempty cs).
Proof.
  induction cs as [|c cs IH]; intros k d; [reflexivity|].
  destruct c as [|x c]; [cbn [foldM filter nonempty]; change (header_step (Some k, d) []) with (Some (Some k, d)); apply IH|].
  cbn [foldM filter nonempty]. destruct (header_step (Some k, d) (x :: c)) as [[pk d']|] eqn:E; [|reflexivity].
  cbn [bind]. apply header_step_some in E. destruct E as [k' E]. cbn in E. subst pk. apply IH.
Qed.
Lemma header_fold_filter0 : forall c cs, c <> [] ->
  foldM header_step (None, []) (c :: cs) = foldM header_step (None, []) (filter nonempty (c :: cs)).
Proof.
  intros c cs N. destruct c as [|x c]; [congruence|]. cbn [foldM filter nonempty].
  destruct (header_step (None, []) (x :: c)) as [[pk d']|] eqn:E; [|reflexivity].
  cbn [bind]. apply header_step_some in E. destruct E as [k' E]. cbn in E. subst pk. apply header_fold_filter.
Qed.

Lemma header_fold_words : forall c s, ws_comma c = false ->
  foldM header_step (None, []) (split_on comma (join comma (words ws (c :: s))))
  = foldM header_step (None, []) (words ws_comma (c :: s)).
Proof.
  intros c s H. unfold ws_comma in H. apply orb_false_iff in H. destruct H as [H1 H2].
  assert (E : exists w l, words ws (c :: s) = (c :: w) :: l).
  { cbn. rewrite H1. destruct s as [|d s]; [eauto|]. destruct (ws d); [eauto|].
    destruct (words ws (d :: s)); eauto. }
  destruct E as [w [l E]]. rewrite split_on_join by (rewrite E; discriminate).
  rewrite <- words_two_level, E. cbn [flat_map split_on].
  rewrite H2. destruct (split_on comma w) as [|a b] eqn:G; [now apply split_on_nonempty in G|].
  cbn [app]. apply header_fold_filter0. discriminate.
Qed.

(* keyword/value pairs *)
Definition token (s : text) : Prop := forall c, In c s -> ws_comma c = false /\ c <> equal.
Definition keyword (s : text) : Prop := token s /\ forall c, In c s -> lower1 c = c.
Lemma token_no_ws : forall s, token s -> no_ws s.
Proof. intros s H c I. destruct (H c I) as [A _]. unfold ws_comma in A. now apply orb_false_iff in A. Qed.
Lemma token_sep : forall s, token s -> forall c, In c s -> ws_comma c = false.
Proof. intros s H c I. now destruct (H c I). Qed.
Lemma token_no_equal : forall s, token s -> existsb (Ascii.eqb equal) s = false.
Proof.
  intros s H. apply not_true_is_false. intros E. apply existsb_exists in E. destruct E as [c [I E]].
  apply Ascii.eqb_eq in E. subst. now destruct (H _ I).
Qed.
Lemma keyword_lower : forall s, keyword s -> lower (strip s) = s.
Proof.
  intros s [H L]. rewrite strip_no_ws by now apply token_no_ws. unfold lower.
  rewrite <- (map_id s) at 2. apply map_ext_in. exact L.
Qed.
Lemma text_eqb_spec : forall a b, text_eqb a b = true <-> a = b.
Proof. intros. unfold text_eqb. destruct (list_eq_dec ascii_dec a b); split; congruence. Qed.
Lemma text_eqb_refl : forall a, text_eqb a a = true.
Proof. intros. now apply text_eqb_spec. Qed.
Lemma text_eqb_reflect : forall a b, reflect (a = b) (text_eqb a b).
Proof. intros. apply iff_reflect. symmetry. apply text_eqb_spec. Qed.
Lemma dget_dset_same : forall (d : list (text * text)) k v, dget text_eqb (dset text_eqb d k v) k = Some v.
Proof.
  intros d k v. rewrite dget_dset by apply text_eqb_reflect. now rewrite text_eqb_refl.
Qed.
Lemma dset_dset : forall (d : list (text * text)) k v v', dset text_eqb (dset text_eqb d k v) k v' = dset text_eqb d k v'.
Proof.
  induction d as [|[a b] d IH]; intros k v v'; cbn.
  - now rewrite text_eqb_refl.
  - destruct (text_eqb a k) eqn:E; cbn; rewrite E; [reflexivity|]. now rewrite IH.
Qed.

(* one keyword with a value written directly or after blanks *)
Definition kv (k : text) (m : nat) (v : text) : list text :=
  match m with O => [k ++ equal :: v] | _ => match v with [] => [k ++ [equal]] | _ => [k ++ [equal]; v] end end.

Lemma header_assign : forall pk d k v, keyword k -> token v ->
  header_step (pk, d) (k ++ equal :: v) = Some (Some k, dset text_eqb d k v).
Proof.
  intros pk d k v K T. unfold header_step.
  assert (E : split_on equal (k ++ equal :: v) = [k; v]).
  { rewrite split_on_app, !split_on_none; [reflexivity| |].
    - intros I. now destruct (T _ I).
    - intros I. now destruct (proj1 K _ I). }
  rewrite E, keyword_lower by exact K. rewrite (strip_no_ws v) by now apply token_no_ws.
  assert (X : existsb (Ascii.eqb equal) (k ++ equal :: v) = true).
  { apply existsb_exists. exists equal. split; [apply in_elt|apply Ascii.eqb_refl]. }
  destruct pk; [|reflexivity]. now rewrite X.
Qed.
Lemma header_value : forall d k v old, keyword k -> token v -> v <> [] ->
  header_step (Some k, dset text_eqb d k old) v =
  Some (Some k, dset text_eqb d k (match old with [] => v | _ => old ++ comma :: v end)).
Proof.
  intros d k v old K T N. unfold header_step. rewrite token_no_equal by exact T.
  rewrite keyword_lower by exact K. rewrite strip_no_ws by now apply token_no_ws.
  destruct v as [|c v]; [congruence|]. rewrite dget_dset_same. cbn [bind]. now rewrite dset_dset.
Qed.
Lemma header_kv : forall pk d k m v, keyword k -> token v ->
  foldM header_step (pk, d) (kv k m v) = Some (Some k, dset text_eqb d k v).
Proof.
  intros pk d k m v K T. unfold kv. destruct m.
  - cbn [foldM]. now rewrite header_assign.
  - destruct v as [|c v].
    + cbn [foldM]. now rewrite header_assign.
    + cbn [foldM]. rewrite header_assign by (auto; intros x []). cbn [bind].
      rewrite header_value by (auto; discriminate). reflexivity.
Qed.

Lemma words_kv : forall k m v c s, k <> [] -> token k -> token v -> ws_comma c = true ->
  words ws_comma (k ++ equal :: repeat space m ++ v ++ c :: s) = kv k m v ++ words ws_comma s.
Proof.
  intros k m v c s N K T C. unfold kv. destruct m.
  - cbn [repeat app].
    replace (k ++ equal :: v ++ c :: s) with ((k ++ equal :: v) ++ c :: s) by (now rewrite <- app_assoc).
    rewrite words_word; [now rewrite words_sep| | |exact C].
    + intros E. now apply app_eq_nil in E.
    + intros x. rewrite in_app_iff. intros [I|[<-|I]]; [now apply K|reflexivity|now apply T].
  - replace (k ++ equal :: repeat space (S m) ++ v ++ c :: s)
      with ((k ++ [equal]) ++ repeat space (S m) ++ v ++ c :: s) by (now rewrite <- app_assoc).
    rewrite words_word; [| | |reflexivity].
    + rewrite words_seps.
      2: { clear. change (forallb ws_comma (repeat space (S m))) with (forallb ws_comma (repeat space m)).
           induction m; [reflexivity|exact IHm]. }
      destruct v as [|x v].
      * cbn [app]. now rewrite words_sep.
      * rewrite words_word; [|discriminate|now apply token_sep|exact C]. rewrite words_sep by exact C. reflexivity.
    + intros E. now apply app_eq_nil in E.
    + intros x. rewrite in_app_iff. intros [I|[<-|[]]]; [now apply K|reflexivity].
Qed.

(* comma-separated list of tokens *)
Lemma words_join : forall vs c s, Forall (fun v => token v /\ v <> []) vs -> ws_comma c = true ->
  words ws_comma (join comma vs ++ c :: s) = vs ++ words ws_comma s.
Proof.
  induction vs as [|v vs IH]; intros c s H C.
  - cbn [join app]. now apply words_sep.
  - inversion H as [|? ? [T N] F]; subst. destruct vs as [|v' vs].
    + cbn [join app]. rewrite words_word; [|exact N|now apply token_sep|exact C]. now rewrite words_sep.
    + cbn [join]. rewrite <- app_assoc. cbn [app].
      rewrite words_word; [|exact N|now apply token_sep|reflexivity].
      rewrite words_sep by reflexivity. f_equal. now apply IH.
Qed.
Lemma header_values : forall vs d k old, keyword k -> Forall (fun v => token v /\ v <> []) vs -> old <> [] ->
  foldM header_step (Some k, dset text_eqb d k old) vs =
  Some (Some k, dset text_eqb d k (join comma (old :: vs))).
Proof.
  induction vs as [|v vs IH]; intros d k old K H N; [reflexivity|].
  inversion H as [|? ? [T NV] F]; subst. cbn [foldM]. rewrite header_value by assumption. cbn [bind].
  destruct old as [|x old]; [congruence|]. rewrite IH; [|exact K|exact F|discriminate].
  do 3 f_equal. destruct vs as [|v' vs].
  - reflexivity.
  - cbn [join]. rewrite <- app_assoc. reflexivity.
Qed.

Definition orb_text (idx : list Z) : text :=
  match idx with [] => [] | _ => join comma (map str_int idx) ++ lit "," end.
Definition flag_text (b : bool) (s : text) : text := if b then s ++ [newline] else [].
Definition low_header (n e t : Z) (idx : list Z) (isym : Z) (u g tg : bool) : text :=
  lit "norb=" ++ fmt_d 4 n ++ lit ",nelec=" ++ fmt_d 2 e ++ lit ",ms2=" ++ str_int t ++ lit "," ++ [newline]
  ++ lit "  orbsym=" ++ orb_text idx ++ [newline]
  ++ lit "  isym=" ++ str_int isym ++ lit "," ++ [newline]
  ++ flag_text u (lit "  iuhf=1,") ++ flag_text g (lit "  igeneral=1,") ++ flag_text tg (lit "  itgeneral=1,")
  ++ lit " ".

Lemma str_int_token : forall z, token (str_int z).
Proof.
  intros z c I. destruct (str_int_chars z c I) as [D| ->]; [|split; [reflexivity|discriminate]].
  split; [|intros ->; discriminate]. unfold ws_comma. rewrite digit_not_ws by exact D. cbn.
  now apply digit_neq.
Qed.
Lemma keyword_lit : forall s, forallb (fun c => negb (ws_comma c) && negb (Ascii.eqb c equal) && Ascii.eqb (lower1 c) c) (lit s) = true ->
  keyword (lit s).
Proof.
  intros s H. rewrite forallb_forall in H. split; intros c I; specialize (H c I);
    rewrite !andb_true_iff, !negb_true_iff in H; destruct H as [[A B] C].
  - split; [exact A|]. now apply Ascii.eqb_neq.
  - now apply Ascii.eqb_eq.
Qed.
Ltac kw := apply keyword_lit; reflexivity.

Definition fold_kv (d : list (text * text)) (k v : text) := dset text_eqb d k v.

Lemma fold_words_kv : forall k m v c s pk d, keyword k -> k <> [] -> token v -> ws_comma c = true ->
  foldM header_step (pk, d) (words ws_comma (k ++ equal :: repeat space m ++ v ++ c :: s)) =
  foldM header_step (Some k, dset text_eqb d k v) (words ws_comma s).
Proof.
  intros k m v c s pk d K N T C. rewrite words_kv by (auto; now destruct K).
  rewrite foldM_app, header_kv by assumption. reflexivity.
Qed.

Lemma fold_words_orb : forall idx s pk d,
  foldM header_step (pk, d) (words ws_comma (lit "orbsym=" ++ orb_text idx ++ newline :: s)) =
  foldM header_step (Some (lit "orbsym"), dset text_eqb d (lit "orbsym") (join comma (map str_int idx)))
    (words ws_comma s).
Proof.
  intros idx s pk d. destruct idx as [|i idx].
  - cbn [orb_text app map join].
    change (lit "orbsym=" ++ newline :: s) with (lit "orbsym" ++ equal :: repeat space 0 ++ [] ++ newline :: s).
    apply fold_words_kv; [kw|discriminate|intros c []|reflexivity].
  - cbn [orb_text]. rewrite <- app_assoc. change (lit ",") with [comma].
    destruct idx as [|i' idx].
    + cbn [join map app].
      change (lit "orbsym=" ++ str_int i ++ comma :: newline :: s)
        with (lit "orbsym" ++ equal :: repeat space 0 ++ str_int i ++ comma :: newline :: s).
      rewrite fold_words_kv; [|kw|discriminate|apply str_int_token|reflexivity].
      now rewrite words_sep.
    + remember (i' :: idx) as r eqn:R. cbn [map].
      assert (Fr : Forall (fun v => token v /\ v <> []) (map str_int r)).
      { clear. induction r; constructor; auto. split; [apply str_int_token|apply str_int_nonempty]. }
      assert (J : join comma (str_int i :: map str_int r) = str_int i ++ comma :: join comma (map str_int r)).
      { rewrite R. reflexivity. }
      rewrite J, <- app_assoc. cbn [app].
      change (lit "orbsym=" ++ str_int i ++ comma :: join comma (map str_int r) ++ comma :: newline :: s)
        with (lit "orbsym" ++ equal :: repeat space 0 ++ str_int i ++ comma :: join comma (map str_int r) ++ comma :: newline :: s).
      rewrite fold_words_kv; [|kw|discriminate|apply str_int_token|reflexivity].
      rewrite words_join by (auto; reflexivity). rewrite words_sep by reflexivity.
      rewrite foldM_app. rewrite header_values; [|kw|exact Fr|apply str_int_nonempty].
      unfold bind. do 3 f_equal. exact J.
Qed.

Definition flag_dict (d : list (text * text)) (b : bool) (k : text) : list (text * text) :=
  if b then dset text_eqb d k (lit "1") else d.

Lemma fold_words_flag : forall b k s pk d, keyword (lit k) -> lit k <> [] ->
  exists pk', foldM header_step (Some pk, d)
    (words ws_comma (flag_text b (space :: space :: lit k ++ lit "=1,") ++ s)) =
  foldM header_step (Some pk', flag_dict d b (lit k)) (words ws_comma s).
Proof.
  intros b k s pk d K N. destruct b; cbn [flag_text flag_dict].
  - exists (lit k). cbn [app]. rewrite !words_sep by reflexivity.
    rewrite <- !app_assoc.
    change (lit k ++ lit "=1," ++ [newline] ++ s)
      with (lit k ++ equal :: repeat space 0 ++ lit "1" ++ comma :: newline :: s).
    rewrite fold_words_kv; [|exact K|exact N| |reflexivity].
    + now rewrite words_sep.
    + intros c [<-|[]]. split; [reflexivity|discriminate].
  - exists pk. reflexivity.
Qed.

Lemma fmt_d_space : forall w z, exists m, fmt_d w z = repeat space m ++ str_int z.
Proof. intros w z. exists (w - length (str_int z))%nat. reflexivity. Qed.

Definition head_dict (n e t : Z) (idx : list Z) (isym : Z) (u g tg : bool) : list (text * text) :=
  [(lit "norb", str_int n); (lit "nelec", str_int e); (lit "ms2", str_int t);
   (lit "orbsym", join comma (map str_int idx)); (lit "isym", str_int isym)]
  ++ (if u then [(lit "iuhf", lit "1")] else [])
  ++ (if g then [(lit "igeneral", lit "1")] else [])
  ++ (if tg then [(lit "itgeneral", lit "1")] else []).

Lemma fold_header : forall n e t idx isym u g tg, exists pk,
  foldM header_step (None, []) (words ws_comma (low_header n e t idx isym u g tg)) =
  Some (pk, head_dict n e t idx isym u g tg).
Proof.
  intros n e t idx isym u g tg. unfold low_header.
  destruct (fmt_d_space 4 n) as [m1 ->]. destruct (fmt_d_space 2 e) as [m2 ->].
  rewrite <- !app_assoc.
  match goal with |- context [lit "norb=" ++ repeat space m1 ++ str_int n ++ lit ",nelec=" ++ ?s] =>
    change (lit "norb=" ++ repeat space m1 ++ str_int n ++ lit ",nelec=" ++ s)
      with (lit "norb" ++ equal :: repeat space m1 ++ str_int n ++ comma :: lit "nelec=" ++ s) end.
  rewrite fold_words_kv; [|kw|discriminate|apply str_int_token|reflexivity].
  match goal with |- context [lit "nelec=" ++ repeat space m2 ++ str_int e ++ lit ",ms2=" ++ ?s] =>
    change (lit "nelec=" ++ repeat space m2 ++ str_int e ++ lit ",ms2=" ++ s)
      with (lit "nelec" ++ equal :: repeat space m2 ++ str_int e ++ comma :: lit "ms2=" ++ s) end.
  rewrite fold_words_kv; [|kw|discriminate|apply str_int_token|reflexivity].
  match goal with |- context [lit "ms2=" ++ str_int t ++ lit "," ++ [newline] ++ lit "  orbsym=" ++ ?s] =>
    change (lit "ms2=" ++ str_int t ++ lit "," ++ [newline] ++ lit "  orbsym=" ++ s)
      with (lit "ms2" ++ equal :: repeat space 0 ++ str_int t ++ comma :: newline :: space :: space :: lit "orbsym=" ++ s) end.
  rewrite fold_words_kv; [|kw|discriminate|apply str_int_token|reflexivity].
  rewrite !words_sep by reflexivity.
  match goal with |- context [orb_text idx ++ [newline] ++ ?s] =>
    change ([newline] ++ s) with (newline :: s) end.
  rewrite fold_words_orb.
  match goal with |- context [lit "  isym=" ++ str_int isym ++ lit "," ++ [newline] ++ ?s] =>
    change (lit "  isym=" ++ str_int isym ++ lit "," ++ [newline] ++ s)
      with (space :: space :: lit "isym" ++ equal :: repeat space 0 ++ str_int isym ++ comma :: newline :: s) end.
  rewrite !words_sep by reflexivity.
  rewrite fold_words_kv; [|kw|discriminate|apply str_int_token|reflexivity].
  rewrite !words_sep by reflexivity.
  change (lit "  iuhf=1,") with (space :: space :: lit "iuhf" ++ lit "=1,").
  change (lit "  igeneral=1,") with (space :: space :: lit "igeneral" ++ lit "=1,").
  change (lit "  itgeneral=1,") with (space :: space :: lit "itgeneral" ++ lit "=1,").
  match goal with |- context [foldM header_step (Some ?pk, ?d) _] =>
    destruct (fold_words_flag u "iuhf"
      (flag_text g (lit "  igeneral=1,") ++ flag_text tg (lit "  itgeneral=1,") ++ lit " ") pk d) as [pk1 E1];
      [kw|discriminate|] end.
  match type of E1 with _ = foldM header_step (Some ?pk, ?d) _ =>
    destruct (fold_words_flag g "igeneral" (flag_text tg (lit "  itgeneral=1,") ++ lit " ") pk d) as [pk2 E2];
      [kw|discriminate|] end.
  match type of E2 with _ = foldM header_step (Some ?pk, ?d) _ =>
    destruct (fold_words_flag tg "itgeneral" (lit " ") pk d) as [pk3 E3]; [kw|discriminate|] end.
  exists (Some pk3). etransitivity; [exact E1|]. etransitivity; [exact E2|]. etransitivity; [exact E3|].
  cbn [lit list_ascii_of_string]. rewrite words_sep by reflexivity. cbn [words foldM].
  do 2 f_equal. destruct u, g, tg; reflexivity.
Qed.

Definition hv (kv : text * text) : text * hval :=
  (fst kv, if existsb (Ascii.eqb comma) (snd kv) then HList (split_on comma (snd kv)) else HStr (snd kv)).

Lemma read_header_ok : forall n e t idx isym u g tg,
  read_header (lit " &fci " ++ low_header n e t idx isym u g tg)
  = Some (map hv (head_dict n e t idx isym u g tg)).
Proof.
  intros n e t idx isym u g tg. unfold read_header.
  assert (W : split_ws (lit " &fci " ++ low_header n e t idx isym u g tg)
              = lit "&fci" :: words ws (low_header n e t idx isym u g tg)).
  { unfold split_ws. change (lit " &fci " ++ low_header n e t idx isym u g tg)
      with (space :: lit "&fci" ++ space :: low_header n e t idx isym u g tg).
    rewrite words_sep by reflexivity. rewrite words_word; [|discriminate| |reflexivity].
    - now rewrite words_sep.
    - intros c I. cbn in I. repeat destruct I as [<-|I]; try reflexivity. destruct I. }
  rewrite W. cbn [tl].
  assert (H : exists s, low_header n e t idx isym u g tg = "n"%char :: s) by (eexists; reflexivity).
  destruct H as [s H]. rewrite H. rewrite header_fold_words by reflexivity. rewrite <- H.
  destruct (fold_header n e t idx isym u g tg) as [pk ->]. reflexivity.
Qed.

Lemma token_no_comma : forall s, token s -> existsb (Ascii.eqb comma) s = false.
Proof.
  intros s H. apply not_true_is_false. intros E. apply existsb_exists in E. destruct E as [c [I E]].
  apply Ascii.eqb_eq in E. subst. destruct (H _ I) as [A _]. discriminate.
Qed.

Lemma get_int_head : forall d key z def, dget text_eqb d key = Some (snd (hv (key, str_int z))) ->
  get_int d key def = Some z.
Proof.
  intros d key z def H. unfold get_int. rewrite H. cbn [hv snd].
  rewrite token_no_comma by apply str_int_token. apply py_int_str_int.
Qed.
Section Getters.
Variables (n e t : Z) (idx : list Z) (isym : Z) (u g tg : bool).
Let d := map hv (head_dict n e t idx isym u g tg).
Lemma get_norb : get_int d (lit "norb") None = Some n.
Proof. apply get_int_head. reflexivity. Qed.
Lemma get_nelec : get_int d (lit "nelec") (Some 0) = Some e.
Proof. apply get_int_head. reflexivity. Qed.
Lemma get_ms2 : get_int d (lit "ms2") (Some 0) = Some t.
Proof. apply get_int_head. reflexivity. Qed.
Lemma get_isym : get_int d (lit "isym") (Some 0) = Some isym.
Proof. apply get_int_head. reflexivity. Qed.
Lemma get_iuhf : get_int d (lit "iuhf") (Some 0) = Some (if u then 1 else 0).
Proof. subst d. destruct u, g, tg; reflexivity. Qed.
Lemma get_igeneral : get_int d (lit "igeneral") (Some 0) = Some (if g then 1 else 0).
Proof. subst d. destruct u, g, tg; reflexivity. Qed.
Lemma get_itgeneral : get_int d (lit "itgeneral") (Some 0) = Some (if tg then 1 else 0).
Proof. subst d. destruct u, g, tg; reflexivity. Qed.
Lemma get_orbsym : (forall i, In i idx -> 0 <= i < 10) ->
  get_list d (lit "orbsym") = Some (map str_int idx).
Proof.
  intros R. unfold get_list.
  assert (E : dget text_eqb d (lit "orbsym") = Some (snd (hv (lit "orbsym", join comma (map str_int idx)))))
    by reflexivity.
  rewrite E. cbn [hv snd].
  destruct idx as [|i [|i' r]].
  - reflexivity.
  - cbn [map join]. rewrite token_no_comma by apply str_int_token. f_equal.
    unfold str_int. assert (H := R i (or_introl eq_refl)). replace (i <? 0) with false by lia.
    assert (L := str_nat_length i 1 ltac:(cbn; lia) ltac:(lia)).
    assert (N := str_nat_nonempty i ltac:(lia)).
    destruct (str_nat i) as [|a [|b l]]; [congruence|reflexivity|cbn in L; lia].
  - assert (C : existsb (Ascii.eqb comma) (join comma (map str_int (i :: i' :: r))) = true).
    { apply existsb_exists. exists comma. split; [|apply Ascii.eqb_refl]. cbn [map join].
      apply in_or_app. right. now left. }
    rewrite C, split_on_join by discriminate. f_equal.
    clear. induction (i :: i' :: r) as [|x l IH]; [reflexivity|]. cbn [map flat_map].
    rewrite IH, split_on_none; [reflexivity|].
    intros I. destruct (str_int_token x _ I) as [A _]. discriminate.
Qed.
End Getters.

(* ---- splitting the file ---- *)
Definition amp : ascii := "&"%char.
Definition slash : ascii := "/"%char.
Definition okc (c : ascii) : bool := negb (Ascii.eqb c amp) && negb (Ascii.eqb c slash).
Lemma plain_okc : forall c, plain c = true -> okc c = true.
Proof.
  intros c H. unfold okc. rewrite andb_true_iff, !negb_true_iff, !Ascii.eqb_neq.
  split; intros ->; discriminate.
Qed.
Lemma okc_app : forall a b, forallb okc (a ++ b) = forallb okc a && forallb okc b.
Proof. intros. apply forallb_app. Qed.
Lemma plain_forallb : forall s, (forall c, In c s -> plain c = true) -> forallb okc s = true.
Proof. intros s H. apply forallb_forall. intros c I. apply plain_okc. now apply H. Qed.
Lemma fmt_d_okc : forall w z, forallb okc (fmt_d w z) = true.
Proof. intros. apply plain_forallb. intros c I. eapply pad_plain; [|exact I]. apply str_int_plain. Qed.
Lemma str_int_okc : forall z, forallb okc (str_int z) = true.
Proof. intros. apply plain_forallb. apply str_int_plain. Qed.
Lemma join_okc : forall l, Forall (fun s => forallb okc s = true) l -> forallb okc (join comma l) = true.
Proof.
  induction l as [|w l IH]; intros H; [reflexivity|]. inversion H; subst. destruct l as [|w' l]; [assumption|].
  assert (J : join comma (w :: w' :: l) = w ++ comma :: join comma (w' :: l)) by reflexivity.
  rewrite J, okc_app. cbn [forallb]. specialize (IH H3). rewrite IH. now rewrite H2.
Qed.
Lemma orb_text_okc : forall idx, forallb okc (orb_text idx) = true.
Proof.
  intros [|i idx]; [reflexivity|]. unfold orb_text. rewrite okc_app, join_okc; [reflexivity|].
  apply Forall_forall. intros s I. apply in_map_iff in I. destruct I as [z [<- _]]. apply str_int_okc.
Qed.
Lemma low_header_okc : forall n e t idx isym u g tg, forallb okc (low_header n e t idx isym u g tg) = true.
Proof.
  intros. unfold low_header. rewrite !okc_app, !fmt_d_okc, !str_int_okc, orb_text_okc.
  destruct u, g, tg; reflexivity.
Qed.

Lemma contains_single : forall c s, ~ In c s -> contains [c] s = false.
Proof.
  intros c s. induction s as [|x s IH]; intros N; [reflexivity|]. cbn [contains prefixb].
  rewrite IH by (intros I; apply N; now right). rewrite orb_false_r, andb_true_r.
  apply Ascii.eqb_neq. intros ->. apply N. now left.
Qed.
Lemma prefixb_app : forall p s, prefixb p (p ++ s) = true.
Proof. induction p; intros s; [reflexivity|]. cbn. now rewrite Ascii.eqb_refl, IHp. Qed.
Lemma contains_app : forall p a b, contains p (a ++ p ++ b) = true.
Proof.
  intros p a b. induction a as [|x a IH].
  - cbn [app]. destruct (p ++ b) eqn:E; cbn [contains]; rewrite <- E, prefixb_app; reflexivity.
  - cbn [app contains]. rewrite IH. apply orb_true_r.
Qed.
Lemma split_str_skip : forall sep a s cur c r, sep = c :: r -> ~ In c a ->
  split_str_aux sep 0 cur (a ++ s) = split_str_aux sep 0 (rev a ++ cur) s.
Proof.
  intros sep a s cur c r Hs. revert cur. induction a as [|x a IH]; intros cur N; [reflexivity|].
  cbn [app split_str_aux]. assert (P : prefixb sep (x :: a ++ s) = false).
  { subst sep. cbn [prefixb]. replace (Ascii.eqb c x) with false; [reflexivity|].
    symmetry. apply Ascii.eqb_neq. intros ->. apply N. now left. }
  rewrite P, IH by (intros I; apply N; now right). cbn [rev]. now rewrite <- app_assoc.
Qed.
Lemma split_str_sep : forall sep s cur, sep <> [] ->
  split_str_aux sep 0 cur (sep ++ s) = rev cur :: split_str_aux sep 0 [] s.
Proof.
  intros sep s cur N. destruct sep as [|c r] eqn:E; [congruence|]. cbn [app split_str_aux].
  rewrite <- E. replace (prefixb sep (c :: r ++ s)) with true by (rewrite E; symmetry; apply (prefixb_app (c :: r) s)).
  f_equal. replace (length sep - 1)%nat with (length r) by (rewrite E; cbn; lia).
  assert (G : forall k, split_str_aux sep (length k) [] (k ++ s) = split_str_aux sep 0 [] s).
  { induction k as [|x k IH]; [reflexivity|]. cbn [length app split_str_aux]. exact IH. }
  apply G.
Qed.

Lemma split_file : forall X body, forallb okc X = true -> (forall c, In c body -> plain c = true \/ c = newline) ->
  let ff := lit " &fci " ++ X ++ lit "&end" ++ body in
  contains (lit "/") ff = false /\ contains (lit "&end") ff = true /\
  split_str (lit "&end") ff = [lit " &fci " ++ X; body].
Proof.
  intros X body HX HB ff.
  assert (BO : forallb okc body = true).
  { apply forallb_forall. intros c I. destruct (HB c I) as [P| ->]; [now apply plain_okc|reflexivity]. }
  assert (NA : forall s, forallb okc s = true -> ~ In amp s /\ ~ In slash s).
  { intros s F. rewrite forallb_forall in F. split; intros I; apply F in I; discriminate. }
  split; [|split].
  - apply contains_single. unfold ff. rewrite !in_app_iff. intros [I|[I|[I|I]]].
    + cbn in I. repeat destruct I as [I|I]; try discriminate. exact I.
    + now apply NA in HX.
    + cbn in I. repeat destruct I as [I|I]; try discriminate. exact I.
    + now apply NA in BO.
  - unfold ff. rewrite app_assoc. apply contains_app.
  - unfold ff, split_str.
    change (lit " &fci " ++ X ++ lit "&end" ++ body)
      with (space :: amp :: (lit "fci " ++ X) ++ lit "&end" ++ body).
    cbn [split_str_aux]. change (prefixb (lit "&end") (space :: amp :: (lit "fci " ++ X) ++ lit "&end" ++ body)) with false.
    cbv iota. change (prefixb (lit "&end") (amp :: (lit "fci " ++ X) ++ lit "&end" ++ body)) with false. cbv iota.
    rewrite (split_str_skip (lit "&end") (lit "fci " ++ X) (lit "&end" ++ body) _ amp (lit "end") eq_refl).
    2: { rewrite in_app_iff. intros [I|I]; [|now apply NA in HX].
         cbn in I. repeat destruct I as [I|I]; try discriminate. exact I. }
    rewrite split_str_sep by discriminate. f_equal.
    + rewrite rev_app_distr, rev_involutive. reflexivity.
    + rewrite <- (app_nil_r body).
      rewrite (split_str_skip (lit "&end") body [] _ amp (lit "end") eq_refl) by now apply NA in BO.
      cbn [split_str_aux]. rewrite app_nil_r, rev_involutive, app_nil_r. reflexivity.
Qed.

(* ---- the file as a whole ---- *)
Definition is_uhf (x : ints) : bool := match x with Uhf _ _ _ _ _ => true | _ => false end.

Lemma index_from_spec : forall l i x r, index_from i l x = Some r ->
  i <= r < i + Z.of_nat (length l) /\ nth_error l (Z.to_nat (r - i)) = Some x.
Proof.
  induction l as [|a l IH]; intros i x r H; [discriminate|]. cbn [index_from] in H. cbn [length].
  destruct (a =? x) eqn:E.
  - inversion H; subst. rewrite Z.sub_diag. cbn. split; [lia|]. f_equal. lia.
  - apply IH in H. destruct H as [A B]. split; [lia|].
    replace (Z.to_nat (r - i)) with (S (Z.to_nat (r - (i + 1)))) by lia. exact B.
Qed.
Lemma index_nth : forall l x r, index l x = Some r -> 0 <= r < Z.of_nat (length l) /\ py_nth l r = Some x.
Proof.
  intros l x r H. apply index_from_spec in H. destruct H as [A B]. split; [lia|].
  unfold py_nth. replace ((0 <=? r) && (r <? Z.of_nat (length l))) with true by lia.
  now rewrite Z.sub_0_r in B.
Qed.
Lemma mapM_index : forall l orb idx, mapM (index l) orb = Some idx ->
  mapM (fun s => bind (py_int s) (fun i => py_nth l i)) (map str_int idx) = Some orb
  /\ (forall i, In i idx -> 0 <= i < Z.of_nat (length l)) /\ length idx = length orb.
Proof.
  intros l. induction orb as [|x orb IH]; intros idx H.
  - inversion H; subst. cbn. split; [reflexivity|]. split; [intros i []|reflexivity].
  - cbn [mapM] in H. destruct (index l x) as [i|] eqn:E; [|discriminate]. cbn [bind] in H.
    destruct (mapM (index l) orb) as [is|] eqn:F; [|discriminate]. cbn [bind] in H.
    inversion H; subst. destruct (IH is eq_refl) as [A [B C]]. destruct (index_nth _ _ _ E) as [D G].
    split; [|split].
    + cbn [map mapM]. rewrite py_int_str_int. cbn [bind]. rewrite G. cbn [bind]. now rewrite A.
    + intros j [<-|I]; auto.
    + cbn. lia.
Qed.
Lemma point_group_length : forall pg tab, dget text_eqb point_groups pg = Some tab -> (length tab <= 9)%nat.
Proof.
  intros pg tab H. apply dget_in in H; [|apply text_eqb_reflect].
  cbn in H. repeat destruct H as [H|H]; try (inversion H; subst; cbn; lia).
Qed.

Lemma lower_id : forall s, (forall c, In c s -> plain c = true) -> map lower1 s = s.
Proof. intros s H. rewrite <- (map_id s) at 2. apply map_ext_in. intros c I. apply plain_lower. now apply H. Qed.
Lemma lower_fmt_d : forall w z, map lower1 (fmt_d w z) = fmt_d w z.
Proof. intros. apply lower_id. intros c I. eapply pad_plain; [|exact I]. apply str_int_plain. Qed.
Lemma lower_str_int : forall z, map lower1 (str_int z) = str_int z.
Proof. intros. apply lower_id. apply str_int_plain. Qed.
Lemma lower_join : forall l, map lower1 (join comma (map str_int l)) = join comma (map str_int l).
Proof.
  induction l as [|x l IH]; [reflexivity|]. destruct l as [|y l]; [apply lower_str_int|].
  assert (J : join comma (map str_int (x :: y :: l)) = str_int x ++ comma :: join comma (map str_int (y :: l))) by reflexivity.
  rewrite J, map_app, lower_str_int. cbn [map] in *. now rewrite IH.
Qed.

Lemma write_header_low : forall f hd, write_header f = Some hd -> Z.of_nat (length (f_orb f)) = f_n f ->
  exists tab idx isym, dget text_eqb point_groups (f_pg f) = Some tab /\
    mapM (index tab) (f_orb f) = Some idx /\ index tab (f_ipg f) = Some isym /\
    lower hd = lit " &fci " ++ low_header (f_n f) (f_elec f) (f_twos f) idx isym
                 (is_uhf (f_ints f)) (f_general f) (f_tgeneral f) ++ lit "&end" ++ [newline].
Proof.
  intros f hd H L. unfold write_header in H.
  destruct (dget text_eqb point_groups (f_pg f)) as [tab|]; [|discriminate]. cbn [bind] in H.
  destruct (mapM (index tab) (f_orb f)) as [idx|] eqn:EI; [|discriminate]. cbn [bind] in H.
  destruct (index tab (f_ipg f)) as [isym|] eqn:EJ; [|discriminate]. cbn [bind] in H.
  exists tab, idx, isym. split; [reflexivity|]. split; [exact EI|]. split; [exact EJ|].
  apply (f_equal (fun o => match o with Some x => x | None => hd end)) in H. cbv beta iota in H. rewrite <- H. clear H.
  unfold lower.
  assert (O : map lower1 (match f_orb f with
            | [] => lit "  ORBSYM=" ++ List.concat (repeat (lit "1,") (Z.to_nat (f_n f))) ++ [newline]
            | _ => lit "  ORBSYM=" ++ join comma (map str_int idx) ++ lit "," ++ [newline]
            end) = lit "  orbsym=" ++ orb_text idx ++ [newline]).
  { destruct (mapM_index _ _ _ EI) as [_ [_ LI]].
    destruct (f_orb f) as [|x o]; destruct idx as [|i idx]; try (cbn in LI; lia).
    - cbn [length] in L. rewrite <- L. reflexivity.
    - rewrite !map_app, lower_join. unfold orb_text. rewrite <- app_assoc. reflexivity. }
  rewrite !map_app. rewrite O. rewrite !lower_fmt_d, !lower_str_int.
  unfold low_header. rewrite <- !app_assoc.
  assert (U : map lower1 (match f_ints f with Uhf _ _ _ _ _ => lit "  IUHF=1," ++ [newline] | _ => [] end)
              = flag_text (is_uhf (f_ints f)) (lit "  iuhf=1,")) by (destruct (f_ints f); reflexivity).
  assert (G : map lower1 (if f_general f then lit "  IGENERAL=1," ++ [newline] else [])
              = flag_text (f_general f) (lit "  igeneral=1,")) by (destruct (f_general f); reflexivity).
  assert (T : map lower1 (if f_tgeneral f then lit "  ITGENERAL=1," ++ [newline] else [])
              = flag_text (f_tgeneral f) (lit "  itgeneral=1,")) by (destruct (f_tgeneral f); reflexivity).
  rewrite U, G, T. reflexivity.
Qed.

(* the integral part of the reader *)
Definition read_ints (n : Z) (uhf general tgeneral : bool) (mu : Q) (ce0 : num) (data : list datum)
  : option (ints * num) :=
  if negb uhf then
    bind (foldM (rhf_step n general) (zeros2, zeros4, ce0) data) (fun '(h, g, ce) =>
    Some (Rhf (if Qeq_bool mu 0 then h
               else fun a b => nsub (h a b) (if a =? b then mu else 0%Q, 0%Q)) g, ce))
  else
    bind (foldM (uhf_step n general tgeneral) (0, (zeros2, zeros2), (zeros4, zeros4, zeros4), ce0) data)
      (fun '(ip, (ha, hb), (gaa, gab, gbb), ce) =>
      if Qeq_bool mu 0 then Some (Uhf ha hb gaa gab gbb, ce) else None).

Lemma read_file : forall f hd rs mu ce0, write_header f = Some hd -> Z.of_nat (length (f_orb f)) = f_n f ->
  rs <> [] -> Forall (rec_ok (f_cpx f)) rs ->
  read (f_pg f) mu ce0 (hd ++ flat_map (rec_line (f_cpx f)) rs) =
  bind (read_ints (f_n f) (is_uhf (f_ints f)) (f_general f) (f_tgeneral f) mu ce0 (map (rec_datum (f_cpx f)) rs))
    (fun '(r, ce) => Some (mkFci (f_pg f) (f_n f) (f_elec f) (f_twos f) (f_ipg f) (f_general f) (f_tgeneral f)
                             (f_orb f) (f_cpx f) ce r)).
Proof.
  intros f hd rs mu ce0 H L N F.
  destruct (write_header_low f hd H L) as [tab [idx [isym [T [I [S LH]]]]]].
  unfold read. unfold lower in *. rewrite map_app, LH.
  assert (LB : map lower1 (flat_map (rec_line (f_cpx f)) rs) = flat_map (rec_line (f_cpx f)) rs).
  { rewrite <- (map_id (flat_map _ _)) at 2. apply map_ext_in. intros c J.
    apply flat_lines_plain in J. destruct J as [J| ->]; [now apply plain_lower|reflexivity]. }
  rewrite LB. rewrite <- !app_assoc. cbn [app].
  change ([newline] ++ flat_map (rec_line (f_cpx f)) rs) with (newline :: flat_map (rec_line (f_cpx f)) rs).
  set (X := low_header (f_n f) (f_elec f) (f_twos f) idx isym (is_uhf (f_ints f)) (f_general f) (f_tgeneral f)).
  set (body := newline :: flat_map (rec_line (f_cpx f)) rs).
  destruct (split_file X body (low_header_okc _ _ _ _ _ _ _ _)) as [A [B C]].
  { intros c [<-|J]; [now right|]. eapply flat_lines_plain; eauto. }
  rewrite A, B, C. cbn [bind]. subst X. rewrite read_header_ok. cbn [bind].
  rewrite get_norb. cbn [bind]. rewrite get_ms2. cbn [bind]. rewrite T. cbn [bind].
  rewrite get_isym. cbn [bind]. rewrite (proj2 (index_nth _ _ _ S)). cbn [bind].
  rewrite get_nelec, get_iuhf, get_igeneral, get_itgeneral. cbn [bind].
  destruct (mapM_index _ _ _ I) as [M [R _]]. assert (PL := point_group_length _ _ T).
  rewrite get_orbsym by (intros i J; apply R in J; lia). cbn [bind].
  rewrite M. cbn [bind]. subst body. rewrite read_lines_ok by assumption. cbn [bind].
  unfold read_ints.
  destruct (is_uhf (f_ints f)), (f_general f), (f_tgeneral f); cbn [Z.eqb negb]; reflexivity.
Qed.
