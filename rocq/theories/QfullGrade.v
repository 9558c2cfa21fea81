(** Parity of the entries of the tables of QcModel (proofs): the operator of an entry is odd if one of row and column is odd. *)
From Coq Require Import ZArith Bool List Lia Ring.
From Verif Require Import SymModel SymProofs DictLib IndexLib RingLib OptLib SiteModel QcModel QcProg QcCols QcLayout.
Import ListNotations.
Open Scope Z_scope.

Definition sym_par (o : qop) : bool := match o with QC _ _ | QD _ _ | QR _ _ | QRD _ _ => true | _ => false end.
Lemma fer_label : forall osym o, sz_is_fermion (q_label osym o) = sym_par o.
Proof. intros osym []; reflexivity. Qed.

Section Grade.
Variable R : CRing.
Variable half : R.
Variable iszero : R -> bool.
Variable v : Z -> Z -> Z -> Z -> Z -> Z -> R.
Variable symmetrized_p : bool.
Variable n : Z.
Notation fsym := (fsym R). Notation wr := (wr R). Notation prog := (prog R).
Notation sy := (sy R). Notation neg := (neg R). Notation mul := (mul R iszero).
Notation allw := (allw R).
(* rows and columns with odd names *)
Definition oddp (r : Z) : bool := (2 <=? r) && (r <? 2 + 4 * n).
Definition graded (b : bool) (w : wr) : Prop := match snd w with Some (_, o) => xorb (oddp (fst (fst w))) b = sym_par o | None => True end.
Definition every (P : wr -> Prop) (a : prog) : Prop := forall p, allw P a p.
Lemma every_seq : forall P a b, every P a -> every P b -> every P (seq_ R a b).
Proof. intros P a b A B p. now apply allw_seq. Qed.
Lemma every_set : forall (P : wr -> Prop) ix o, (forall p, P (ix p, o)) -> every P (set_ R ix o).
Proof. intros P ix o H p. now apply allw_set. Qed.
Lemma every_step : forall P d, every P (step R d).
Proof. intros P d p. apply allw_step. Qed.
Lemma every_for : forall A P (l : list A) body, (forall x, In x l -> every P (body x)) -> every P (for_ R l body).
Proof.
  intros A P l body. induction l as [|x l IH]; intros H; [intros p; unfold QcLayout.allw; cbn; constructor|]. unfold for_. cbn [fold_right].
  apply every_seq; [apply H; now left|]. apply IH. intros. apply H. now right.
Qed.

Section Site.
Variable m : Z.
Hypothesis Hm : 0 <= m < n.
Ltac sp := repeat match goal with H : is_spin _ |- _ => destruct H as [-> | ->] end.
Lemma odd_yes : forall r, 2 <= r < 2 + 4 * n -> oddp r = true.
Proof using. clear. intros r H. unfold oddp. lia. Qed.
Lemma odd_low : forall r, r < 2 -> oddp r = false.
Proof using. clear. intros r H. unfold oddp. lia. Qed.
Lemma odd_high : forall r, 2 + 4 * n <= r -> oddp r = false.
Proof using. clear. intros r H. unfold oddp. lia. Qed.
Ltac row := unfold pc, pd, prd, pr, pa, pad, pb, arr; sp; cbn [Z.eqb]; nia.
Lemma par_c : forall s j, is_spin s -> 0 <= j < m -> oddp (pc m s + j) = true. Proof. intros; apply odd_yes; row. Qed.
Lemma par_d : forall s j, is_spin s -> 0 <= j < m -> oddp (pd m s + j) = true. Proof. intros; apply odd_yes; row. Qed.
Lemma par_rd : forall s j, is_spin s -> m + 1 <= j < n -> oddp (prd n m s + j) = true. Proof. intros; apply odd_yes; row. Qed.
Lemma par_r : forall s j, is_spin s -> m + 1 <= j < n -> oddp (pr n m s + j) = true. Proof. intros; apply odd_yes; row. Qed.
Lemma par_a : forall s s' i j, is_spin s -> is_spin s' -> 0 <= i < m -> 0 <= j < m -> oddp (pa n m s s' + i * m + j) = false.
Proof. intros; apply odd_high; row. Qed.
Lemma par_ad : forall s s' i j, is_spin s -> is_spin s' -> 0 <= i < m -> 0 <= j < m -> oddp (pad n m s s' + i * m + j) = false.
Proof. intros; apply odd_high; row. Qed.
Lemma par_b : forall s s' i j, is_spin s -> is_spin s' -> 0 <= i < m -> 0 <= j < m -> oddp (pb n m s s' + i * m + j) = false.
Proof. intros; apply odd_high; row. Qed.
Lemma par_i : oddp pi = false. Proof. apply odd_low. unfold pi. lia. Qed.
Ltac put := apply every_set; intros ?; unfold graded; cbn [fst snd QcModel.sy QcModel.neg QcModel.mul];
  try (match goal with |- context [if iszero ?x then _ else _] => destruct (iszero x); [exact I|] end);
  rewrite ?par_i, ?par_c, ?par_d, ?par_rd, ?par_r, ?par_a, ?par_ad, ?par_b by assumption; reflexivity.
Ltac each := apply every_for; intros ? ?; match goal with
   | H : In _ [0; 1] |- _ => apply in2 in H | H : In _ (zrange _) |- _ => apply in_zrange in H | H : In _ (range _ _) |- _ => apply in_range in H end.
Ltac go := unfold over_pairs; repeat first [apply every_step|put|each|apply every_seq|match goal with |- every _ (if negb ?b then _ else _) => destruct b; cbn [negb] end].
Lemma c_grade : every (graded true) (c_prog R m).
Proof. unfold c_prog. go. Qed.
Lemma rd_grade : every (graded true) (rd_prog R half iszero v symmetrized_p n m).
Proof. unfold rd_prog, rd_body. go. Qed.
Lemma r_grade : every (graded true) (r_prog R half iszero v symmetrized_p n m).
Proof. unfold r_prog, r_body. go. Qed.
Lemma a_grade : every (graded false) (a_prog R n m).
Proof. unfold a_prog. go. Qed.
Lemma ad_grade : every (graded false) (ad_prog R n m).
Proof. unfold ad_prog. go. Qed.
Lemma b_grade : every (graded false) (b_prog R n m).
Proof. unfold b_prog. go. Qed.

Definition pgraded (w : wr) : Prop := match snd w with Some (_, o) => xorb (oddp (fst (fst w))) (oddp (snd (fst w))) = sym_par o | None => True end.
Lemma join : forall b lo hi a p, (forall c, lo <= c < hi -> oddp c = b) -> allw (inside R n m lo hi) a p -> every (graded b) a -> allw pgraded a p.
Proof.
  intros b lo hi a p C I G. specialize (G p). unfold QcLayout.allw in *. rewrite Forall_forall in *. intros w W. specialize (I w W). specialize (G w W). destruct I as (_ & I & _). unfold graded, pgraded in *. rewrite (C _ I). exact G.
Qed.
Theorem other_grade : forall p, allw pgraded (other_prog R half iszero v symmetrized_p n m) p.
Proof.
  intros p.
  destruct (c_in R iszero v n m Hm 2) as [C1 C2]. destruct (rd_in R half iszero v symmetrized_p n m Hm (2 + 4 * (m + 1))) as [D1 D2].
  destruct (r_in R half iszero v symmetrized_p n m Hm (2 + 4 * (m + 1) + 2 * (n - (m + 1)))) as [E1 E2].
  destruct (a_in R iszero v n m Hm (2 + 4 * (m + 1) + 2 * (n - (m + 1)) + 2 * (n - (m + 1)))) as [F1 F2].
  set (q := 2 + 4 * (m + 1) + 2 * (n - (m + 1)) + 2 * (n - (m + 1)) + 4 * ((m + 1) * (m + 1))) in *.
  destruct (ad_in R iszero v n m Hm q) as [G1 G2]. destruct (b_in R iszero v n m Hm (q + 4 * ((m + 1) * (m + 1)))) as [H1 H2].
  unfold other_prog.
  apply allw_seq; [apply allw_set; reflexivity|]. apply allw_seq; [unfold QcLayout.allw; cbn; auto|]. cbn [QcModel.goto QcModel.set_ fst].
  apply allw_seq; [eapply (join true); [|exact C2|exact c_grade]; intros; apply odd_yes; nia|]. rewrite C1.
  apply allw_seq; [eapply (join true); [|exact D2|exact rd_grade]; intros; apply odd_yes; nia|]. rewrite D1.
  apply allw_seq; [eapply (join true); [|exact E2|exact r_grade]; intros; apply odd_yes; nia|]. rewrite E1.
  apply allw_seq; [eapply (join false); [|exact F2|exact a_grade]; intros; apply odd_high; nia|]. rewrite F1.
  apply allw_seq; [eapply (join false); [|exact G2|exact ad_grade]; intros; apply odd_high; subst q; nia|]. rewrite G1.
  eapply (join false); [|exact H2|exact b_grade]; intros; apply odd_high; subst q; nia.
Qed.
End Site.
End Grade.
