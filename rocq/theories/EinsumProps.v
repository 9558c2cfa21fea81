(** Property C69: einsum of block-sparse tensors is the sum over the states of the indices missing in the result. *)
From Coq Require Import ZArith Bool List Ascii String Lia ZifyBool Permutation Ring.
From Verif Require Import SymModel SymProofs DictLib IndexLib OptLib RingLib StrLib StrProofs FcidumpLines BondModel FuseModel FuseProofs BlockModel BlockProofs BlockProps CanonProofs EinsumModel EinsumProofs.
Import ListNotations.
Open Scope Z_scope.

(** specification: scripts.  "o1,o2,..,on->res"; an operand is written with letters, blanks between them do not count *)
Definition is_blank (c : ascii) : Prop := c = ascii_of_nat 9 \/ c = ascii_of_nat 10 \/ c = ascii_of_nat 13 \/ c = " "%char.
Definition is_letter (c : ascii) : Prop := ws c = false /\ ~ In c [","%char; "-"%char; ">"%char; "."%char; zero].
Fixpoint commas (ops : list text) : text :=
  match ops with [] => [] | [o] => o | o :: l => (o ++ ","%char :: commas l)%list end.
Definition render (ops : list text) (res : text) : text := (commas ops ++ "-"%char :: ">"%char :: res)%list.
(* l is o without its blanks *)
Inductive letters : text -> text -> Prop :=
| letters_nil : letters [] []
| letters_blank : forall c o l, is_blank c -> letters o l -> letters (c :: o) l
| letters_cons : forall c o l, is_letter c -> letters o l -> letters (c :: o) (c :: l).
(* res has the letters l, blanks only before and behind them *)
Definition result_letters (res l : text) : Prop :=
  exists b1 b2, res = (b1 ++ l ++ b2)%list /\ Forall is_blank b1 /\ Forall is_blank b2 /\ Forall is_letter l.
(** specification: values.  at_ t s g = element of the tensor t with legs named s when index c is in state g c (label, number);
    asum dm Q cs g f = sum of f over all states of the indices cs; legs dm Q t s = t has legs named s, the leg c has dm c q states of
    label q, all labels are in Q (EinsumProofs). *)

Definition sp_einsum (R : CRing) (L : Label) : text -> list (list (list L * nd R)) -> option (list (list L * nd R)) :=
  einsum _ (sp_tensordot R L) (fun p => sp_transpose R L (Some p)).

Lemma blank_spec : forall c, blank c = true <-> is_blank c.
Proof.
  intros c. unfold blank, is_blank, tab, space, newline, cr. rewrite !orb_true_iff, !Ascii.eqb_eq. tauto.
Qed.
Lemma letter_ctrl : forall c, is_letter c -> blank c = false /\ illegal c = false /\ Ascii.eqb c comma = false /\ Ascii.eqb c minus = false.
Proof.
  intros c [W N]. repeat split.
  - destruct (blank c) eqn:E; [|reflexivity]. apply blank_spec in E. destruct E as [->|[->|[->| ->]]]; discriminate W.
  - destruct (illegal c) eqn:E; [|reflexivity]. exfalso. apply N. unfold illegal, dot, minus, gt, nul in E. rewrite !orb_true_iff, !Ascii.eqb_eq in E. cbn. intuition.
  - apply Ascii.eqb_neq. intros ->. apply N. now left.
  - apply Ascii.eqb_neq. intros ->. apply N. right. now left.
Qed.
Lemma blank_ctrl : forall c, is_blank c -> ws c = true /\ illegal c = false /\ Ascii.eqb c comma = false /\ Ascii.eqb c minus = false.
Proof. intros c [->|[->|[->| ->]]]; repeat split. Qed.

Definition plain (o : text) : Prop := forall c, In c o -> Ascii.eqb c comma = false /\ Ascii.eqb c minus = false.
Lemma letters_plain : forall o l, letters o l -> plain o /\ existsb illegal o = false /\ filter (fun c => negb (blank c)) o = l /\ forall c, In c o -> ws c = true -> blank c = true.
Proof.
  induction 1 as [|c o l B H IH|c o l B H IH]; [split; [intros ? []|split; [reflexivity|split; [reflexivity|intros ? []]]]| |]; destruct IH as (I1 & I2 & I3 & I4).
  - destruct (blank_ctrl c B) as (A1 & A2 & A3 & A4). split; [intros d [<-|Hd]; [split; assumption|now apply I1]|split; [|split]].
    + cbn. now rewrite A2.
    + cbn. now rewrite (proj2 (blank_spec c) B).
    + intros d [<-|Hd] W; [now apply blank_spec|now apply I4].
  - destruct (letter_ctrl c B) as (A1 & A2 & A3 & A4). split; [intros d [<-|Hd]; [split; assumption|now apply I1]|split; [|split]].
    + cbn. now rewrite A2.
    + cbn. rewrite A1. cbn. now rewrite I3.
    + intros d [<-|Hd] W; [destruct B; congruence|now apply I4].
Qed.
Lemma clean_letters : forall o l, letters o l -> clean (strip o) = Some l.
Proof.
  intros o l H. destruct (letters_plain o l H) as (_ & I2 & I3 & I4). unfold clean.
  destruct (strip_decomp o) as (a & b & A & B & E & _).
  assert (X : existsb illegal (strip o) = false).
  { rewrite E in I2. rewrite !existsb_app in I2. apply orb_false_iff in I2. destruct I2 as [_ I2]. now apply orb_false_iff in I2. }
  rewrite X. f_equal. rewrite <- I3. rewrite E at 2. rewrite !filter_app.
  assert (G : forall w, forallb ws w = true -> incl w o -> filter (fun c => negb (blank c)) w = []).
  { induction w as [|c w IH]; intros Hw Hi; [reflexivity|]. cbn in Hw. apply andb_true_iff in Hw. destruct Hw as [W1 W2]. cbn [filter].
    rewrite (I4 c) by (auto; apply Hi; now left). cbn [negb]. apply IH; [exact W2|]. intros x Hx. apply Hi. now right. }
  rewrite (G a), (G b) by (auto; intros x Hx; rewrite E, !in_app_iff; auto). now rewrite app_nil_r.
Qed.
Lemma split_comma : forall o cur s, plain o -> split_script cur (o ++ comma :: s) = let '(ops, r, e) := split_script [] s in (strip (cur ++ o) :: ops, r, e).
Proof.
  induction o as [|c o IH]; intros cur s P.
  - rewrite app_nil_r. cbn [app split_script]. now rewrite Ascii.eqb_refl.
  - destruct (P c (or_introl eq_refl)) as [A B]. cbn [app split_script]. rewrite A, B. cbn [andb].
    assert (X : split_script (cur ++ [c]) (o ++ comma :: s) = let '(ops, r, e) := split_script [] s in (strip (cur ++ c :: o) :: ops, r, e)).
    { rewrite IH by (intros d Hd; apply P; now right). now rewrite <- app_assoc. }
    destruct o; exact X.
Qed.
Lemma split_arrow : forall o cur s, plain o -> split_script cur (o ++ minus :: gt :: s) = let '(ops, r, _) := split_script [] s in (strip (cur ++ o) :: ops, r, true).
Proof.
  induction o as [|c o IH]; intros cur s P.
  - rewrite app_nil_r. reflexivity.
  - destruct (P c (or_introl eq_refl)) as [A B]. cbn [app split_script]. rewrite A, B. cbn [andb].
    assert (X : split_script (cur ++ [c]) (o ++ minus :: gt :: s) = let '(ops, r, _) := split_script [] s in (strip (cur ++ c :: o) :: ops, r, true)).
    { rewrite IH by (intros d Hd; apply P; now right). now rewrite <- app_assoc. }
    destruct o; exact X.
Qed.
Lemma split_end : forall o cur, plain o -> split_script cur o = ([], strip (cur ++ o), false).
Proof.
  induction o as [|c o IH]; intros cur P; [now rewrite app_nil_r|].
  destruct (P c (or_introl eq_refl)) as [A B]. cbn [split_script]. rewrite A.
  assert (X : split_script (cur ++ [c]) o = ([], strip (cur ++ c :: o), false)).
  { rewrite IH by (intros d Hd; apply P; now right). now rewrite <- app_assoc. }
  destruct o; [exact X|]. rewrite B. exact X.
Qed.
Lemma split_render : forall ops res, ops <> [] -> Forall plain ops -> plain res -> split_script [] (render ops res) = (map strip ops, strip res, true).
Proof.
  intros ops res Ne F P. unfold render. induction ops as [|o ops IH]; [congruence|]. inversion F as [|? ? F1 F2]; subst.
  destruct ops as [|o' ops'].
  - cbn [commas]. change ("-"%char :: ">"%char :: res) with (minus :: gt :: res). rewrite split_arrow by exact F1.
    rewrite split_end by exact P. reflexivity.
  - change (commas (o :: o' :: ops')) with (o ++ comma :: commas (o' :: ops'))%list. rewrite <- app_assoc. cbn [app].
    rewrite split_comma by exact F1. rewrite IH by (auto; discriminate). reflexivity.
Qed.
Lemma ws_rev : forall w, forallb ws w = true -> forallb ws (rev w) = true.
Proof. intros w H. apply forallb_forall. intros c Hc. rewrite forallb_forall in H. apply H. now apply in_rev. Qed.
Lemma strip_result : forall res l, result_letters res l -> strip res = l /\ plain res.
Proof.
  intros res l (b1 & b2 & -> & B1 & B2 & Hl).
  assert (G : forall b, Forall is_blank b -> forallb ws b = true /\ plain b).
  { intros b H. rewrite Forall_forall in H. split; [apply forallb_forall; intros c Hc; now apply blank_ctrl, H|]. intros c Hc. destruct (blank_ctrl c (H c Hc)); tauto. }
  destruct (G b1 B1) as [W1 P1]. destruct (G b2 B2) as [W2 P2]. rewrite Forall_forall in Hl. split.
  - unfold strip. rewrite lstrip_ws by exact W1.
    assert (X : rev (lstrip (l ++ b2)) = rev (lstrip b2) \/ lstrip (l ++ b2) = (l ++ b2)%list).
    { destruct l as [|c l]; [now left|]. right. cbn [app]. apply lstrip_id. now apply Hl; left. }
    assert (Y : rev (lstrip (rev l)) = l).
    { rewrite lstrip_id; [apply rev_involutive|]. destruct (rev l) as [|c r] eqn:E; [exact I|]. apply (Hl c). apply in_rev. rewrite E. now left. }
    destruct l as [|c l].
    + cbn [app]. rewrite <- (app_nil_r b2), lstrip_ws by exact W2. reflexivity.
    + cbn [app]. rewrite (lstrip_id (c :: l ++ b2)) by (now apply Hl; left).
      change (c :: l ++ b2)%list with ((c :: l) ++ b2)%list. rewrite rev_app_distr, lstrip_ws by now apply ws_rev. exact Y.
  - intros c Hc. rewrite !in_app_iff in Hc. destruct Hc as [Hc|[Hc|Hc]]; [now apply P1| |now apply P2]. destruct (letter_ctrl c (Hl c Hc)); tauto.
Qed.

Lemma nodup_length : forall l : text, Nat.eqb (List.length (nodup ascii_dec l)) (List.length l) = true <-> NoDup l.
Proof.
  intros l. rewrite Nat.eqb_eq. split.
  - intros H. apply (@NoDup_incl_NoDup _ (nodup ascii_dec l)); [apply NoDup_nodup|unfold text in *; lia|]. intros c Hc. now apply nodup_In in Hc.
  - intros H. now rewrite nodup_fixed_point.
Qed.
Lemma check_spec : forall cnt s, check_operand cnt s = true <-> NoDup s /\ forall c, In c s -> cnt c <> 1.
Proof.
  intros cnt s. unfold check_operand. rewrite andb_true_iff, nodup_length, forallb_forall. split; intros [A B]; (split; [exact A|]); intros c Hc.
  - specialize (B c Hc). apply negb_true_iff in B. apply occ_in in Hc. pose proof (occ_nodup c s A). lia.
  - specialize (B c Hc). apply negb_true_iff. apply occ_in in Hc. pose proof (occ_nodup c s A). lia.
Qed.

Lemma F2_len : forall A B (P : A -> B -> Prop) l l', Forall2 P l l' -> List.length l = List.length l'.
Proof. induction 1; cbn; congruence. Qed.

Section Main.
Variable R : CRing.
Variable L : Label.
Variable dm : ascii -> L -> Z.
Variable Q : list L.
Hypothesis NQ : NoDup Q.
Notation tensor := (list (list L * nd R)).

Lemma einsum_render : forall ops ls res l (arrs : list tensor), ops <> [] -> Forall2 letters ops ls -> result_letters res l ->
  sp_einsum R L (render ops res) arrs =
  if negb (Nat.eqb (List.length ops) (List.length arrs)) then None else
  if negb (forallb (check_operand (char_count ls l)) ls) then None else
  match combine ls arrs with
  | [] => None
  | (s0, a) :: rest => do st <- foldM (step tensor (sp_tensordot R L)) (s0, a, char_count ls l) rest;
      finish tensor (fun p => sp_transpose R L (Some p)) (fun c => blank c || illegal c || existsb (existsb (Ascii.eqb c)) (map strip ops)) l (fst (fst st)) (snd (fst st))
  end.
Proof using.
  clear. intros ops ls res l arrs Ne F Hr. destruct (strip_result res l Hr) as [Sr Pr].
  assert (Fp : Forall plain ops). { clear - F. induction F as [|o s ops ls H F IH]; constructor; auto. now apply (letters_plain o s). }
  unfold sp_einsum, einsum. rewrite split_render by assumption. cbn [negb]. rewrite map_length.
  assert (Ec : mapM clean (map strip ops) = Some ls).
  { clear - F. induction F as [|o s ops ls H F IH]; [reflexivity|]. cbn [map mapM]. rewrite (clean_letters o s H). cbn [bind]. rewrite IH. reflexivity. }
  rewrite Ec. cbn [bind]. rewrite Sr. reflexivity.
Qed.

Lemma inv_start : forall ls s0 (a : tensor) rest l, (s0, a) :: rest = combine ls (a :: map snd rest) -> map fst ((s0, a) :: rest) = ls ->
  (forall o, In o ((s0, a) :: rest) -> legs R L dm Q (snd o) (fst o)) ->
  forallb (check_operand (char_count ls l)) ls = true ->
  inv R L dm Q l [(s0, a)] rest [] s0 a (char_count ls l).
Proof using.
  clear NQ. intros ls s0 a rest l _ Els Hl Hc. rewrite forallb_forall in Hc. subst ls. cbn [map fst] in *.
  assert (Ec : forall c, char_count (s0 :: map fst rest) l c = occ c s0 + total c (map fst rest) + occ c l).
  { intros c. unfold char_count. change (fold_right Z.add 0 (map (occ c) (s0 :: map fst rest))) with (total c (s0 :: map fst rest)). rewrite total_cons. lia. }
  assert (Nd : forall s, In s (s0 :: map fst rest) -> NoDup s /\ forall c, In c s -> char_count (s0 :: map fst rest) l c <> 1) by (intros s Hs; apply check_spec; auto).
  constructor.
  - apply (Nd s0). now left.
  - apply (Hl (s0, a)). now left.
  - exact Ec.
  - intros c Hc'. rewrite Ec. pose proof (occ_nonneg c l).
    assert (X : exists s, In s (s0 :: map fst rest) /\ In c s) by (apply total_pos; rewrite total_cons; exact Hc').
    destruct X as (s & Hs & Hcs). destruct (Nd s Hs) as [_ X]. specialize (X c Hcs). rewrite Ec in X. lia.
  - intros o Ho. split; [apply Nd; right; now apply in_map|]. apply Hl. now right.
  - constructor.
  - intros c [].
  - intros c. cbn [map fst In]. split; [intros (s & [<-|[]] & H); now right|]. intros [[]|H]. exists s0. auto.
  - intros g. cbn [asum prods fold_right fst snd]. pose proof (rth R) as T. symmetry. rewrite (Rmul_comm T). apply (Rmul_1_l T).
  - intros c. cbn [map fst]. rewrite total_cons. cbn. lia.
Qed.

(* what is known when einsum succeeds *)
Lemma success : forall ops ls res l (arrs : list tensor) r, ops <> [] -> Forall2 letters ops ls -> result_letters res l ->
  Forall2 (legs R L dm Q) arrs ls -> sp_einsum R L (render ops res) arrs = Some r ->
  exists dn cd s0 a cnt, inv R L dm Q l dn [] cd s0 a cnt /\ dn = combine ls arrs /\ Permutation s0 l /\
    (forall s, In s ls -> NoDup s) /\ (forall c s, In s ls -> In c s -> 2 <= char_count ls l c) /\
    legs R L dm Q r l /\ forall g, at_ R L r l g = at_ R L a s0 g.
Proof using NQ.
  intros ops ls res l arrs r Ne F Hr Hl E. rewrite (einsum_render ops ls res l arrs Ne F Hr) in E.
  destruct (negb _) eqn:E1 in E; [discriminate|]. apply negb_false_iff, Nat.eqb_eq in E1.
  destruct (negb _) eqn:E2 in E; [discriminate|]. apply negb_false_iff in E2.
  assert (Lls : List.length ls = List.length arrs) by (symmetry; eapply F2_len; exact Hl).
  destruct ls as [|s0 ls']; [inversion F; subst; congruence|]. destruct arrs as [|a arrs']; [discriminate|]. cbn [combine] in E.
  assert (Em : map fst (combine ls' arrs') = ls' /\ map snd (combine ls' arrs') = arrs').
  { injection Lls as Lls. clear - Lls. revert arrs' Lls. induction ls' as [|x l IH]; intros [|y m] H; try discriminate; [auto|]. cbn. injection H as H. destruct (IH m H). split; f_equal; auto. }
  destruct Em as [Em1 Em2].
  assert (Hlo : forall o, In o ((s0, a) :: combine ls' arrs') -> legs R L dm Q (snd o) (fst o)).
  { change ((s0, a) :: combine ls' arrs') with (combine (s0 :: ls') (a :: arrs')). clear - Hl. revert Hl. generalize (s0 :: ls') (a :: arrs'). intros x y H.
    induction H as [|u v p q H F IH]; intros o Ho; [destruct Ho|]. destruct Ho as [<-|Ho]; [exact H|auto]. }
  assert (I : inv R L dm Q l [(s0, a)] (combine ls' arrs') [] s0 a (char_count (s0 :: ls') l)).
  { apply inv_start; [now rewrite Em2|cbn [map fst]; now rewrite Em1|exact Hlo|exact E2]. }
  destruct (foldM _ _ _) as [st|] eqn:Ef in E; [|discriminate]. cbn [bind] in E.
  destruct (fold_inv R L dm Q NQ l (combine ls' arrs') [(s0, a)] [] s0 a (char_count (s0 :: ls') l) st I Ef) as (cd & I2).
  pose proof I2 as [N0 Wa Hcnt Htwo _ Ncd Hcd Hdn Hval Htot]. cbn [map total fold_right] in Hcnt, Htwo.
  assert (Lr : List.length (fst (fst st)) = List.length l).
  { unfold finish in E. destruct (negb _) eqn:X in E; [discriminate|]. apply negb_false_iff in X. now apply Nat.eqb_eq. }
  assert (P : Permutation (fst (fst st)) l).
  { apply NoDup_Permutation_bis; [exact N0|lia|]. intros c Hc. apply occ_in. apply occ_in in Hc. specialize (Hcnt c). specialize (Htwo c). pose proof (occ_nodup c _ N0). lia. }
  destruct (finish_value R L dm Q _ l _ _ r N0 P Wa E) as [Wr Vr].
  exists ([(s0, a)] ++ combine ls' arrs')%list, cd, (fst (fst st)), (snd (fst st)), (snd st).
  split; [exact I2|]. split; [reflexivity|]. split; [exact P|].
  split; [intros s Hs; rewrite forallb_forall in E2; exact (proj1 (proj1 (check_spec _ _) (E2 s Hs)))|].
  split; [|split; [exact Wr|exact Vr]].
  intros c s Hs Hc. destruct I as [_ _ Ic It _ _ _ _ _ _]. apply It. rewrite Em1. rewrite <- total_cons. apply (total_in c s); assumption.
Qed.
End Main.

Theorem c69_value :
  forall (R : CRing) (L : Label) (dm : ascii -> L -> Z) (Q : list L) (ops ls : list text) (res l : text) (arrs : list (list (list L * nd R))) r,
  NoDup Q -> ops <> [] -> Forall2 letters ops ls -> result_letters res l -> Forall2 (legs R L dm Q) arrs ls ->
  sp_einsum R L (render ops res) arrs = Some r ->
  legs R L dm Q r l /\
  forall cs, NoDup cs -> (forall c, In c cs <-> (exists s, In s ls /\ In c s) /\ ~ In c l) ->
  forall g, at_ R L r l g =
    asum R L dm Q cs g (fun g' => fold_right (rmul R) (r1 R) (map (fun o => at_ R L (snd o) (fst o) g') (combine ls arrs))).
Proof.
  intros R L dm Q ops ls res l arrs r NQ Ne F Hr Hl E.
  destruct (success R L dm Q NQ ops ls res l arrs r Ne F Hr Hl E) as (dn & cd & s0 & a & cnt & I & Edn & P & Nd & Two & Wr & Vr).
  split; [exact Wr|]. intros cs Ncs Hcs g. rewrite Vr. destruct I as [N0 Wa Hcnt Htwo _ Ncd Hcd Hdn Hval Htot]. rewrite Hval.
  assert (Ex : ext R L (prods R L dn)) by (intros u v H; apply prods_ext; intros c s _ _; apply H).
  assert (Lls : List.length ls = List.length arrs) by (symmetry; eapply F2_len; exact Hl).
  assert (Em : map fst dn = ls).
  { subst dn. clear - Lls. revert arrs Lls. induction ls as [|x l IH]; intros [|y m] H; try discriminate; [auto|]. cbn. injection H as H. f_equal. now apply IH. }
  rewrite (asum_perm R L dm Q cd cs (prods R L dn) g Ex Ncd).
  - apply asum_ext. intros g' _. subst dn. unfold prods. clear. induction (combine ls arrs) as [|o l IH]; [reflexivity|]. cbn [map fold_right]. now rewrite IH.
  - apply NoDup_Permutation; [exact Ncd|exact Ncs|]. intros c. rewrite Hcs, <- Em, Hdn. split.
    + intros Hc. split; [now left|]. intros Hl'. apply Hcd in Hc. specialize (Hcnt c). cbn [map total fold_right] in Hcnt. apply occ_in in Hl'. pose proof (occ_nonneg c s0). lia.
    + intros [[Hc|Hc] Hn]; [exact Hc|]. exfalso. apply Hn. eapply Permutation_in; [exact P|exact Hc].
Qed.
Print Assumptions c69_value.

(* the scripts that are accepted: no index twice in an operand or in the result, every index in two of these *)
Definition containing (c : ascii) (l : list text) : list text := filter (fun s => if in_dec ascii_dec c s then true else false) l.
Lemma total_containing : forall c l, (forall s, In s l -> NoDup s) -> total c l = Z.of_nat (List.length (containing c l)).
Proof.
  intros c l H. induction l as [|s l IH]; [reflexivity|]. rewrite total_cons. cbn [containing filter]. rewrite IH by (intros; apply H; now right).
  pose proof (occ_nodup c s (H s (or_introl eq_refl))). unfold containing. destruct (in_dec ascii_dec c s) as [I|I].
  - apply occ_in in I. cbn [List.length]. lia.
  - pose proof (occ_nonneg c s). assert (~ 1 <= occ c s) by (intros X; apply I; now apply occ_in). lia.
Qed.
Theorem c69_accepted :
  forall (R : CRing) (L : Label) (dm : ascii -> L -> Z) (Q : list L) (ops ls : list text) (res l : text) (arrs : list (list (list L * nd R))),
  NoDup Q -> ops <> [] -> Forall2 letters ops ls -> result_letters res l -> Forall2 (legs R L dm Q) arrs ls ->
  ((exists r, sp_einsum R L (render ops res) arrs = Some r) <->
   forall s, In s (l :: ls) -> NoDup s /\ forall c, In c s -> List.length (containing c (l :: ls)) = 2%nat).
Proof.
  intros R L dm Q ops ls res l arrs NQ Ne F Hr Hl.
  assert (Lls : List.length ls = List.length arrs) by (symmetry; eapply F2_len; exact Hl).
  assert (Lops : List.length ops = List.length ls) by (eapply F2_len; exact F).
  assert (CC : forall c, char_count ls l c = total c (l :: ls)) by (intros c; rewrite total_cons; unfold char_count, total; lia).
  split.
  - intros (r & E). destruct (success R L dm Q NQ ops ls res l arrs r Ne F Hr Hl E) as (dn & cd & s0 & a & cnt & I & Edn & P & Nd & Two & Wr & Vr).
    destruct I as [N0 Wa Hcnt Htwo _ Ncd Hcd Hdn Hval Htot].
    assert (Nl : NoDup l) by (eapply Permutation_NoDup; [exact P|exact N0]).
    assert (Nall : forall s, In s (l :: ls) -> NoDup s) by (intros s [<-|Hs]; auto).
    assert (Em : map fst dn = ls).
    { subst dn. clear - Lls. revert arrs Lls. induction ls as [|x l IH]; intros [|y m] H; try discriminate; [auto|]. cbn. injection H as H. f_equal. now apply IH. }
    rewrite Em in Htot.
    intros s Hs. split; [now apply Nall|]. intros c Hc.
    assert (T : total c (l :: ls) = 2); [|rewrite total_containing in T by exact Nall; lia].
    rewrite total_cons, Htot. specialize (Hcnt c). cbn [map total fold_right] in Hcnt.
    pose proof (occ_nodup c cd Ncd). pose proof (occ_nonneg c cd). pose proof (occ_nodup c s0 N0). pose proof (occ_nonneg c s0). pose proof (occ_nonneg c l).
    assert (Eo : occ c s0 = occ c l) by (unfold occ; f_equal; now apply (Permutation_count_occ ascii_dec)).
    destruct (in_dec ascii_dec c cd) as [I|I].
    + specialize (Hcd c I). apply occ_in in I. lia.
    + assert (occ c cd = 0) by (assert (~ 1 <= occ c cd) by (intros X; apply I; now apply occ_in); lia).
      assert (1 <= occ c s0); [|lia]. destruct Hs as [<-|Hs]; [apply occ_in in Hc; lia|].
      assert (D : In c cd \/ In c s0) by (apply Hdn; exists s; rewrite Em; auto). destruct D as [D|D]; [contradiction|]. now apply occ_in.
  - intros H.
    assert (Nall : forall s, In s (l :: ls) -> NoDup s) by (intros s Hs; now apply H).
    assert (T2 : forall c s, In s (l :: ls) -> In c s -> total c (l :: ls) = 2).
    { intros c s Hs Hc. rewrite total_containing by exact Nall. destruct (H s Hs) as [_ X]. rewrite X by exact Hc. reflexivity. }
    assert (Tle : forall c, total c (l :: ls) <= 2).
    { intros c. destruct (Z_le_gt_dec 1 (total c (l :: ls))) as [X|X]; [|lia]. destruct (total_pos c _ X) as (s & Hs & Hc). rewrite (T2 c s Hs Hc). lia. }
    assert (E2 : forallb (check_operand (char_count ls l)) ls = true).
    { apply forallb_forall. intros s Hs. apply check_spec. split; [apply Nall; now right|]. intros c Hc. rewrite CC, (T2 c s); [lia|now right|exact Hc]. }
    rewrite (einsum_render R L ops ls res l arrs Ne F Hr).
    rewrite (proj2 (Nat.eqb_eq _ _)) by congruence. cbn [negb]. rewrite E2. cbn [negb].
    destruct ls as [|s0 ls']; [inversion F; subst; congruence|]. destruct arrs as [|a arrs']; [discriminate|]. cbn [combine].
    assert (Em : map fst (combine ls' arrs') = ls' /\ map snd (combine ls' arrs') = arrs').
    { injection Lls as Lls. clear - Lls. revert arrs' Lls. induction ls' as [|x l IH]; intros [|y m] H; try discriminate; [auto|]. cbn. injection H as H. destruct (IH m H). split; f_equal; auto. }
    destruct Em as [Em1 Em2].
    assert (Hlo : forall o, In o ((s0, a) :: combine ls' arrs') -> legs R L dm Q (snd o) (fst o)).
    { change ((s0, a) :: combine ls' arrs') with (combine (s0 :: ls') (a :: arrs')). clear - Hl. revert Hl. generalize (s0 :: ls') (a :: arrs'). intros x y H.
      induction H as [|u v p q H F IH]; intros o Ho; [destruct Ho|]. destruct Ho as [<-|Ho]; [exact H|auto]. }
    assert (I : inv R L dm Q l [(s0, a)] (combine ls' arrs') [] s0 a (char_count (s0 :: ls') l)).
    { apply inv_start; [now rewrite Em2|cbn [map fst]; now rewrite Em1|exact Hlo|exact E2]. }
    destruct (fold_defined R L dm Q NQ l (combine ls' arrs') [(s0, a)] [] s0 a (char_count (s0 :: ls') l) I) as (st & Ef); [intros c; rewrite CC; apply Tle|].
    rewrite Ef. cbn [bind].
    destruct (fold_inv R L dm Q NQ l (combine ls' arrs') [(s0, a)] [] s0 a (char_count (s0 :: ls') l) st I Ef) as (cd & I2).
    destruct I2 as [N0 Wa Hcnt Htwo _ Ncd Hcd Hdn Hval Htot]. cbn [map total fold_right] in Hcnt, Htwo.
    rewrite map_app in Hdn, Htot. cbn [map fst app] in Hdn, Htot. rewrite Em1 in Hdn, Htot.
    assert (Nl : NoDup l) by (apply Nall; now left).
    assert (P : Permutation (fst (fst st)) l).
    { apply NoDup_Permutation; [exact N0|exact Nl|]. intros c. split; intros Hc.
      - apply occ_in. apply occ_in in Hc. specialize (Hcnt c). specialize (Htwo c). pose proof (occ_nodup c _ N0). lia.
      - assert (Tc : total c (l :: s0 :: ls') = 2) by (apply (T2 c l); [now left|exact Hc]). rewrite total_cons in Tc. pose proof (occ_nodup c l Nl). apply occ_in in Hc.
        assert (X : 1 <= total c (s0 :: ls')) by lia. destruct (total_pos c _ X) as (s & Hs & Hcs).
        destruct (proj1 (Hdn c) (ex_intro _ s (conj Hs Hcs))) as [D|D]; [|exact D]. specialize (Hcd c D). specialize (Hcnt c). pose proof (occ_nonneg c (fst (fst st))). lia. }
    unfold finish. rewrite (Permutation_length P), Nat.eqb_refl. cbn [negb]. destruct (list_eq_dec ascii_dec (fst (fst st)) l); [eexists; reflexivity|].
    rewrite (mapM_total _ _ _ (last_pos (fst (fst st)))); [eexists; reflexivity|].
    intros c Hc.
    assert (D : exists s, In s (s0 :: ls') /\ In c s).
    { apply (proj2 (Hdn c)). right. eapply Permutation_in; [symmetry; exact P|exact Hc]. }
    destruct D as (s & Hs & Hcs).
    assert (X : existsb (existsb (Ascii.eqb c)) (map strip ops) = true).
    { apply existsb_exists. clear - F Hs Hcs. revert Hs. induction F as [|o t os ts Ho F IH]; intros Hs; [destruct Hs|]. destruct Hs as [->|Hs].
      - exists (strip o). split; [now left|]. apply existsb_exists. exists c. split; [|apply Ascii.eqb_refl].
        pose proof (clean_letters o s Ho) as X. unfold clean in X. destruct (existsb illegal (strip o)); [discriminate|]. injection X as X. rewrite <- X in Hcs. now apply filter_In in Hcs.
      - destruct (IH Hs) as (u & A & B). exists u. split; [now right|exact B]. }
    rewrite X, orb_true_r. reflexivity.
Qed.
Print Assumptions c69_accepted.

Definition two_letters : list (list (list U1_label * nd Z_ring)) :=
  [[([0; 1], arr [1; 2] [3; 4]); ([1; 0], arr [2; 1] [5; 6])]; [([1; 2], arr [2; 1] [7; 8]); ([0; 2], arr [1; 1] [9])]].
(* three operands, blanks, a transposed result: a_ij b_jk c_k -> summed over j and k, i first or last *)
Example c69_ex :
  option_map dump (sp_einsum Z_ring U1_label (lit " i j, jk ->ki") two_letters) = Some [([2; 0], [1; 1], [53]); ([2; 1], [1; 2], [45; 54])]
  /\ option_map dump (sp_einsum Z_ring U1_label (lit "k,jk,ij->i") ([([2], arr [1] [10])] :: rev two_letters)) = Some [([0], [1], [530]); ([1], [2], [450; 540])]
  /\ sp_einsum Z_ring U1_label (lit "ij,jk->ijk") two_letters = None.
Proof. vm_compute. repeat split. Qed.
(* the hypotheses of the theorems hold for the example *)
Example c69_ex_applies :
  let dm (c : ascii) (q : U1_label) : Z := if (q =? 1) then 2 else 1 in
  Forall2 (legs Z_ring U1_label dm [0; 1; 2]) two_letters [lit "ij"; lit "jk"] /\ NoDup ([0; 1; 2] : list U1_label)
  /\ Forall2 letters [lit " i j"; lit " jk "] [lit "ij"; lit "jk"] /\ result_letters (lit "ki") (lit "ki")
  /\ render [lit " i j"; lit " jk "] (lit "ki") = lit " i j, jk ->ki".
Proof.
  cbv zeta. split; [|split; [|split; [|split]]].
  - constructor; [split|constructor; [split|constructor]].
    + intros b Hb. destruct Hb as [<-|[<-|[]]]; split; reflexivity.
    + intros b q [<-|[<-|[]]] Hq; cbn in Hq; cbn; intuition.
    + intros b Hb. destruct Hb as [<-|[<-|[]]]; split; reflexivity.
    + intros b q [<-|[<-|[]]] Hq; cbn in Hq; cbn; intuition.
  - repeat constructor; cbn; intuition discriminate.
  - assert (B : is_blank " "%char) by (right; right; right; reflexivity).
    assert (G : forall c, ws c = false -> existsb (Ascii.eqb c) [","%char; "-"%char; ">"%char; "."%char; zero] = false -> is_letter c).
    { intros c W H. split; [exact W|]. intros I. assert (existsb (Ascii.eqb c) [","%char; "-"%char; ">"%char; "."%char; zero] = true) by (apply existsb_exists; exists c; split; [exact I|apply Ascii.eqb_refl]). congruence. }
    unfold lit. cbn [list_ascii_of_string].
    constructor; [|constructor; [|constructor]];
      repeat (first [apply letters_nil | apply letters_cons; [apply G; reflexivity|] | apply letters_blank; [exact B|]]).
  - exists [], []. split; [reflexivity|]. split; [constructor|]. split; [constructor|]. unfold lit. cbn [list_ascii_of_string]. repeat constructor; cbn; intuition discriminate.
  - reflexivity.
Qed.

(* "->" is treated like a comma: a script whose result has a comma is accepted, the part behind the comma is the result *)
Theorem c69_comma_refuted :
  exists script, (exists i j, (i < j)%nat /\ firstn 2 (skipn i script) = lit "->" /\ nth j script zero = ","%char)
  /\ exists r, sp_einsum Z_ring U1_label script two_letters = Some r
  /\ sp_einsum Z_ring U1_label script two_letters = sp_einsum Z_ring U1_label (lit "ij,jk->ik") two_letters.
Proof.
  exists (lit "ij->jk,ik"). split; [exists 2%nat, 6%nat; repeat split; lia|]. eexists. split; [vm_compute; reflexivity|vm_compute; reflexivity].
Qed.
Print Assumptions c69_comma_refuted.
(* a blank between the letters of an operand does not matter, between the letters of the result it raises *)
Theorem c69_blank_refuted :
  (exists r, sp_einsum Z_ring U1_label (lit "i j,jk->ik") two_letters = Some r) /\ sp_einsum Z_ring U1_label (lit "ij,jk->i k") two_letters = None.
Proof. split; [eexists|]; vm_compute; reflexivity. Qed.
Print Assumptions c69_blank_refuted.
