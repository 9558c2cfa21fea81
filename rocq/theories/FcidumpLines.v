(* Property C50: lines of an FCIDUMP file that carry no integral. *)
From Coq Require Import List Ascii String ZArith QArith Lia Bool.
From Verif Require Import DictLib IndexLib StrLib StrProofs FcidumpModel.
Import ListNotations.
Local Open Scope Z_scope.
Local Open Scope list_scope.

(* ------------------------------------------------------------ specification *)
Definition blank_char (c : ascii) : Prop := In (nat_of_ascii c) [32; 9; 11; 12; 13; 28; 29; 30; 31]%nat.
(* only white space, or white space followed by an exclamation mark *)
Definition no_data (s : text) : Prop :=
  exists w r, (forall c, In c w -> blank_char c) /\ (forall c, In c r -> c <> newline) /\ s = w ++ r /\ (r = [] \/ exists t, r = "!"%char :: t).
Definition slash : ascii := "/"%char.

Lemma lower_slash : forall c, lower1 c = slash -> c = slash.
Proof. intros [[] [] [] [] [] [] [] []]; vm_compute; intros H; try reflexivity; discriminate. Qed.
Lemma lower_newline : forall c, lower1 c = newline -> c = newline.
Proof. intros [[] [] [] [] [] [] [] []]; vm_compute; intros H; try reflexivity; discriminate. Qed.
Lemma blank_ws : forall c, blank_char c -> ws (lower1 c) = true /\ c <> newline /\ lower1 c <> slash.
Proof.
  intros c H. unfold blank_char in H. cbn in H.
  assert (E : c = ascii_of_nat (nat_of_ascii c)) by (symmetry; apply ascii_nat_embedding).
  repeat (destruct H as [H|H]; [rewrite <- H in E; subst c; vm_compute; split; [reflexivity|split; discriminate]|]). destruct H.
Qed.

Lemma split_slash_aux : forall b cur, ~ In slash b -> split_str_aux (lit "/") 0 cur b = [rev cur ++ b].
Proof.
  induction b as [|c b IH]; intros cur N; [cbn; now rewrite app_nil_r|]. cbn [split_str_aux].
  replace (prefixb (lit "/") (c :: b)) with false.
  - rewrite IH; [cbn; now rewrite <- app_assoc|]. intros I. apply N. now right.
  - change (prefixb (lit "/") (c :: b)) with (Ascii.eqb slash c && true).
    destruct (Ascii.eqb_spec slash c) as [<-|]; [exfalso; apply N; now left|reflexivity].
Qed.
Lemma split_slash : forall a b, ~ In slash a -> ~ In slash b -> split_str (lit "/") (a ++ slash :: b) = [a; b].
Proof.
  intros a b Na Nb. unfold split_str.
  assert (K : forall a cur, ~ In slash a -> split_str_aux (lit "/") 0 cur (a ++ slash :: b) = [rev cur ++ a; b]).
  { clear a Na. induction a as [|c a IH]; intros cur N.
    - cbn [app split_str_aux]. replace (prefixb (lit "/") (slash :: b)) with true by reflexivity.
      change (List.length (lit "/") - 1)%nat with O. rewrite split_slash_aux by exact Nb. cbn. now rewrite app_nil_r.
    - cbn [app split_str_aux]. replace (prefixb (lit "/") (c :: a ++ slash :: b)) with false.
      + rewrite IH; [cbn; now rewrite <- app_assoc|]. intros I. apply N. now right.
      + change (prefixb (lit "/") (c :: a ++ slash :: b)) with (Ascii.eqb slash c && true).
        destruct (Ascii.eqb_spec slash c) as [<-|]; [exfalso; apply N; now left|reflexivity]. }
  now rewrite K.
Qed.
Lemma contains_slash : forall a b, contains (lit "/") (a ++ slash :: b) = true.
Proof.
  induction a as [|c a IH]; intros b; [reflexivity|]. cbn [app contains]. rewrite IH. apply orb_true_r.
Qed.
Lemma lower_app : forall a b, lower (a ++ b) = lower a ++ lower b.
Proof. intros. apply map_app. Qed.
Lemma lower_no_slash : forall a, ~ In slash a -> ~ In slash (lower a).
Proof. intros a N I. apply in_map_iff in I. destruct I as [c [E I]]. apply lower_slash in E. subst. contradiction. Qed.

Lemma lstrip_ws : forall w s, forallb ws w = true -> lstrip (w ++ s) = lstrip s.
Proof. induction w as [|c w IH]; intros s H; [reflexivity|]. cbn in *. apply andb_true_iff in H. destruct H as [-> H]. now apply IH. Qed.
Lemma skip_line : forall s, no_data s -> read_line (lower s) = Some None.
Proof.
  intros s [w [r [W [_ [-> R]]]]]. unfold read_line. rewrite lower_app.
  assert (WS : forallb ws (lower w) = true).
  { apply forallb_forall. intros c I. apply in_map_iff in I. destruct I as [d [<- I]]. apply blank_ws. now apply W. }
  assert (E : strip (lower w ++ lower r) = strip (lower r)) by (unfold strip; now rewrite lstrip_ws).
  destruct R as [-> | [t ->]].
  - rewrite E. reflexivity.
  - rewrite E. change (lower ("!"%char :: t)) with ("!"%char :: lower t).
    destruct (strip_decomp ("!"%char :: lower t)) as [a [b [A [B [S D]]]]].
    destruct a as [|c a].
    + cbn [app] in S. destruct (strip ("!"%char :: lower t)) as [|c u]; [reflexivity|]. cbn [app] in S. injection S as <- _. reflexivity.
    + cbn [app] in S. injection S as <- _. cbn in A. discriminate.
Qed.
Lemma no_newline_split : forall s, ~ In newline s -> split_on newline s = [s].
Proof. intros s H. now apply split_on_none. Qed.

(* a comment or blank line between two lines changes nothing *)
Theorem c50_comments : forall pg mu ce0 header before line after,
  ~ In slash header -> ~ In slash before -> ~ In slash after -> ~ In slash line -> no_data line ->
  read pg mu ce0 (header ++ slash :: before ++ newline :: line ++ newline :: after) =
  read pg mu ce0 (header ++ slash :: before ++ newline :: after).
Proof.
  intros pg mu ce0 hd a c b Hh Ha Hb Hc N.
  assert (L : read_lines (lower (a ++ newline :: c ++ newline :: b)) = read_lines (lower (a ++ newline :: b))).
  { unfold read_lines. rewrite !lower_app. change (lower (newline :: c ++ newline :: b)) with (newline :: lower (c ++ newline :: b)).
    rewrite lower_app. change (lower (newline :: b)) with (newline :: lower b). rewrite !split_on_app.
    assert (NN : ~ In newline (lower c)).
    { intros I. apply in_map_iff in I. destruct I as [d [E I]]. apply lower_newline in E. subst d.
      destruct N as [w [r [W [R [-> _]]]]]. apply in_app_or in I. destruct I as [I|I]; [|exact (R _ I eq_refl)].
      apply W in I. apply blank_ws in I. tauto. }
    rewrite (no_newline_split (lower c)) by exact NN.
    assert (M : forall (X : list text) Y, mapM read_line (X ++ Y) = bind (mapM read_line X) (fun x => bind (mapM read_line Y) (fun y => Some (x ++ y)))).
    { induction X as [|x X IH]; intros Y.
      - cbn. destruct (mapM read_line Y); reflexivity.
      - cbn [app mapM]. destruct (read_line x) as [v|]; [|reflexivity]. cbn [bind]. rewrite IH.
        destruct (mapM read_line X) as [u|]; [|reflexivity]. cbn [bind]. destruct (mapM read_line Y); reflexivity. }
    rewrite !M. cbn [mapM]. rewrite skip_line by exact N. cbn [bind app].
    destruct (mapM read_line (split_on newline (lower a))) as [u|]; [|reflexivity]. cbn [bind].
    destruct (mapM read_line (split_on newline (lower b))) as [v|]; [|reflexivity]. cbn [bind]. rewrite !flat_map_app. reflexivity. }
  assert (S1 : forall t, ~ In slash t -> lower (hd ++ slash :: t) = lower hd ++ slash :: lower t /\ ~ In slash (lower hd) /\ ~ In slash (lower t)).
  { intros t H. split; [rewrite lower_app; reflexivity|]. split; now apply lower_no_slash. }
  assert (N1 : ~ In slash (a ++ newline :: c ++ newline :: b)).
  { rewrite !in_app_iff. cbn. rewrite in_app_iff. cbn. intros [I|[I|[I|[I|I]]]]; try contradiction; vm_compute in I; discriminate. }
  assert (N2 : ~ In slash (a ++ newline :: b)).
  { rewrite !in_app_iff. cbn. intros [I|[I|I]]; try contradiction; vm_compute in I; discriminate. }
  destruct (S1 _ N1) as [E1 [P1 Q1]], (S1 _ N2) as [E2 [P2 Q2]].
  unfold read. rewrite E1, E2, !contains_slash, !split_slash by assumption. cbn [bind]. rewrite L. reflexivity.
Qed.

(* a line "e i 0 0 0" (the energy of orbital i in the files of several programs) overwrites one-electron integrals *)
Theorem c50_orbital_energy : forall n general h g ce i e, 1 <= i <= n ->
  exists h', rhf_step n general (h, g, ce) (i, 0, 0, 0, e) = Some (h', g, ce) /\
    h' (i - 1) (n - 1) = e /\ h' (n - 1) (i - 1) = e /\
    forall a b, ~ (a = i - 1 /\ b = n - 1) -> ~ (a = n - 1 /\ b = i - 1) -> h' a b = h a b.
Proof.
  intros n general h g ce i e Hi. unfold rhf_step, set2, np_index.
  replace (i + 0 + 0 + 0 =? 0) with false by lia. replace (0 + 0 =? 0) with true by reflexivity.
  replace ((0 <=? i - 1) && (i - 1 <? n)) with true by lia. replace ((0 <=? 0 - 1) && (0 - 1 <? n)) with false by lia.
  replace ((- n <=? 0 - 1) && (0 - 1 <? 0)) with true by lia. cbn [bind]. eexists. split; [reflexivity|]. cbv beta.
  replace (0 - 1 + n) with (n - 1) by lia. rewrite !Z.eqb_refl. cbn [andb].
  split; [destruct ((i - 1 =? n - 1) && (n - 1 =? i - 1)); reflexivity|]. split; [reflexivity|]. intros a b N1 N2.
  destruct (Z.eqb_spec a (n - 1)), (Z.eqb_spec b (i - 1)); cbn [andb]; try tauto;
    destruct (Z.eqb_spec a (i - 1)), (Z.eqb_spec b (n - 1)); cbn [andb]; tauto || reflexivity.
Qed.

Definition file_a : text := lit (String.concat (String newline EmptyString)
  [" &FCI NORB=2,NELEC=2,MS2=0,"; "  ORBSYM=1,1,"; "  ISYM=1,"; " /"; "  0.5   1   1   1   1"; " -1.25   2   1   0   0"; "  3.0  0  0  0  0"; ""]%string).
Definition file_b : text := lit (String.concat (String newline EmptyString)
  [" &FCI NORB=2,NELEC=2,MS2=0,"; "  ORBSYM=1,1,"; "  ISYM=1,"; " /"; "  0.5   1   1   1   1"; " -1.25   2   1   0   0"; " ! energies";
   " -0.75   1   0   0   0"; "  3.0  0  0  0  0"; ""]%string).
Definition h01 (f : option fci) : option Q := option_map (fun f => match f_ints f with Rhf h _ => Qred (fst (h 0 1)) | _ => 0%Q end) f.
Theorem c50_orbital_energy_refuted : exists pg mu ce0 with_energies without,
  h01 (read pg mu ce0 without) = Some (-5 # 4)%Q /\ h01 (read pg mu ce0 with_energies) = Some (-3 # 4)%Q.
Proof. exists (lit "d2h"), 0%Q, (0%Q, 0%Q), file_b, file_a. split; vm_compute; reflexivity. Qed.

Example c50_ex : no_data (lit "  ! comment") /\ no_data (lit "   ") /\ ~ In slash (lit "  ! comment").
Proof.
  split; [|split].
  - exists (lit "  "), (lit "! comment"). split; [intros c H; cbn in H; repeat (destruct H as [<-|H]; [vm_compute; tauto|]); destruct H|].
    split; [intros c H; cbn in H; repeat (destruct H as [<-|H]; [vm_compute; discriminate|]); destruct H|]. split; [reflexivity|right; eexists; reflexivity].
  - exists (lit "   "), []. split; [intros c H; cbn in H; repeat (destruct H as [<-|H]; [vm_compute; tauto|]); destruct H|]. split; [intros c []|]. auto.
  - vm_compute. intuition discriminate.
Qed.

(* a missing ISYM selects entry 0 of the table of irreducible representations, which is none of the eight; a negative
   ORBSYM counts from the end of the table *)
Definition file_c : text := lit (String.concat (String newline EmptyString)
  [" &FCI NORB=2,NELEC=2,MS2=0,"; "  ORBSYM=1,-2,"; " /"; "  3.0  0  0  0  0"; ""]%string).
Theorem c50_missing_isym_refuted : exists pg mu ce0 file f, read pg mu ce0 file = Some f /\ ~ (0 <= f_ipg f < 8).
Proof.
  exists (lit "d2h"), 0%Q, (0%Q, 0%Q), file_c. destruct (read (lit "d2h") 0 (0%Q, 0%Q) file_c) as [f|] eqn:E.
  - exists f. split; [reflexivity|]. apply (f_equal (option_map f_ipg)) in E. vm_compute in E. injection E as E. unfold f_ipg. rewrite <- E. lia.
  - exfalso. apply (f_equal (option_map f_ipg)) in E. vm_compute in E. discriminate.
Qed.
Example c50_ex_negative : option_map f_orb (read (lit "d2h") 0 (0%Q, 0%Q) file_c) = Some [0; 3].
Proof. vm_compute. reflexivity. Qed.

Print Assumptions c50_missing_isym_refuted.
Print Assumptions c50_comments.
Print Assumptions c50_orbital_energy.
Print Assumptions c50_orbital_energy_refuted.
