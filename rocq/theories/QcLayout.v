(** The tables of QcModel are built, with the shapes announced and every entry inside (proofs). *)
From Coq Require Import ZArith Bool List Lia Ring.
From Verif Require Import SymModel DictLib IndexLib RingLib OptLib SiteModel QcModel QcProg QcCols.
Import ListNotations.
Open Scope Z_scope.

Section Layout.
Variable R : CRing.
Variable half : R.
Variable iszero : R -> bool.
Variable v : Z -> Z -> Z -> Z -> Z -> Z -> R.
Variable symmetrized_p : bool.
Variable n : Z.
Notation fsym := (fsym R). Notation wr := (wr R). Notation prog := (prog R).
Notation sy := (sy R). Notation neg := (neg R). Notation mul := (mul R iszero).
Notation seq_ := (seq_ R). Notation set_ := (set_ R). Notation for_ := (for_ R). Notation step := (step R).
Notation still := (still R). Notation over_pairs := (over_pairs R).
Ltac stl := repeat first [apply still_set|apply still_for; intros|apply still_seq].

Definition allw (P : wr -> Prop) (a : prog) (p : Z) : Prop := Forall P (snd (a p)).
Lemma allw_seq : forall P a b p, allw P a p -> allw P b (fst (a p)) -> allw P (seq_ a b) p.
Proof. intros P a b p A B. unfold allw. rewrite snd_seq. apply Forall_app. auto. Qed.
Lemma allw_seqs : forall P a b p, still a -> allw P a p -> allw P b p -> allw P (seq_ a b) p.
Proof. intros P a b p St A B. apply allw_seq; [exact A|]. now rewrite St. Qed.
Lemma allw_set : forall (P : wr -> Prop) ix o p, P (ix p, o) -> allw P (set_ ix o) p.
Proof. intros P ix o p H. unfold allw. cbn. auto. Qed.
Lemma allw_step : forall P d p, allw P (step d) p.
Proof. intros. unfold allw. cbn. auto. Qed.
Lemma allw_for : forall A P (l : list A) body p, (forall x, In x l -> still (body x)) -> (forall x, In x l -> allw P (body x) p) -> allw P (for_ l body) p.
Proof.
  intros A P l body p. induction l as [|x l IH]; intros St H; [unfold allw; cbn; auto|]. unfold QcModel.for_ in *. cbn [fold_right].
  apply allw_seq; [apply H; now left|]. rewrite (St x (or_introl eq_refl)). apply IH; intros; [apply St|apply H]; now right.
Qed.
Lemma allw_for2 : forall P body p, allw P (body 0) p -> allw P (body 1) (fst (body 0 p)) -> allw P (for_ [0; 1] body) p.
Proof.
  intros P body p A B. unfold QcModel.for_. cbn [fold_right]. apply allw_seq; [exact A|]. apply allw_seq; [exact B|]. unfold allw. cbn. auto.
Qed.
Lemma allw_mono : forall (P Q : wr -> Prop) a p, (forall w, P w -> Q w) -> allw P a p -> allw Q a p.
Proof. intros P Q a p H. apply Forall_impl. exact H. Qed.

(* symbols that may stand in the table of site m *)
Definition good (m : Z) (o : qop) : Prop :=
  match o with
  | QI | QH => True
  | QC j s | QD j s => j = m /\ is_spin s
  | QR _ s | QRD _ s => is_spin s
  | QA i j si sj | QAD i j si sj | QB i j si sj => i = m /\ j = m /\ is_spin si /\ is_spin sj
  | QP _ _ si sj | QPD _ _ si sj | QQ _ _ si sj => is_spin si /\ is_spin sj
  end.
Definition goodw (m : Z) (o : option fsym) : Prop := match o with Some (_, o) => good m o | None => True end.
Definition inside (m lo hi : Z) (w : wr) : Prop :=
  0 <= fst (fst w) < lshape n m /\ lo <= snd (fst w) < hi /\ goodw m (snd w).

Section Site.
Variable m : Z.
Hypothesis Hm : 0 <= m < n.
Lemma good_mul : forall x o, good m o -> goodw m (mul x (sy o)).
Proof. intros x o H. cbn. destruct (iszero x); [exact I|exact H]. Qed.
Lemma spin0 : is_spin 0. Proof. now left. Qed.
Lemma spin1 : is_spin 1. Proof. now right. Qed.
Hint Resolve spin0 spin1 : core.
Lemma in2 : forall s, In s [0; 1] -> is_spin s.
Proof. intros s [<-|[<-|[]]]; auto. Qed.
(* rows *)
Ltac sp := repeat match goal with H : is_spin _ |- _ => destruct H as [-> | ->] end.
Ltac row := unfold pc, pd, prd, pr, pa, pad, pb, arr, lshape; sp; cbn [Z.eqb]; nia.
Lemma row_1 : 0 <= pi < lshape n m. Proof. unfold pi, lshape. nia. Qed.
Lemma row_c : forall s j, is_spin s -> 0 <= j < m -> 0 <= pc m s + j < lshape n m. Proof. intros; row. Qed.
Lemma row_d : forall s j, is_spin s -> 0 <= j < m -> 0 <= pd m s + j < lshape n m. Proof. intros; row. Qed.
Lemma row_rd : forall s j, is_spin s -> m <= j < n -> 0 <= prd n m s + j < lshape n m. Proof. intros; row. Qed.
Lemma row_r : forall s j, is_spin s -> m <= j < n -> 0 <= pr n m s + j < lshape n m. Proof. intros; row. Qed.
Lemma row_a : forall s s' i j, is_spin s -> is_spin s' -> 0 <= i < m -> 0 <= j < m -> 0 <= pa n m s s' + i * m + j < lshape n m.
Proof. intros s s' i j A B I J. assert (0 <= i * m + j < m * m) by nia. row. Qed.
Lemma row_ad : forall s s' i j, is_spin s -> is_spin s' -> 0 <= i < m -> 0 <= j < m -> 0 <= pad n m s s' + i * m + j < lshape n m.
Proof. intros s s' i j A B I J. assert (0 <= i * m + j < m * m) by nia. row. Qed.
Lemma row_b : forall s s' i j, is_spin s -> is_spin s' -> 0 <= i < m -> 0 <= j < m -> 0 <= pb n m s s' + i * m + j < lshape n m.
Proof. intros s s' i j A B I J. assert (0 <= i * m + j < m * m) by nia. row. Qed.
Hint Resolve row_1 row_c row_d row_rd row_r row_a row_ad row_b : core.

Ltac gd := first [exact I|apply good_mul; cbn; repeat split; auto|cbn; repeat split; auto].
Ltac put := apply allw_set; unfold inside; cbn [fst snd]; split; [first [now auto|unfold lshape; nia]|split; [nia|gd]].
Ltac each := apply allw_for; [intros; stl|intros ? ?; match goal with
   | H : In _ [0; 1] |- _ => apply in2 in H | H : In _ (zrange _) |- _ => apply in_zrange in H | H : In _ (range _ _) |- _ => apply in_range in H end].

Lemma c_in : forall p, fst (c_prog R m p) = p + 4 * (m + 1) /\ allw (inside m p (p + 4 * (m + 1))) (c_prog R m) p.
Proof.
  intros p. split.
  - unfold c_prog. rewrite fst_seq, !fst_for2, !fst_seq. unfold QcModel.step, QcModel.set_. cbn [fst].
    rewrite !(still_for R _ (zrange m)) by (intros; stl). lia.
  - unfold c_prog.
    assert (F : forall (P : Z -> Z) (o : Z -> qop) q, fst (for_ [0; 1] (fun s => seq_ (for_ (zrange m) (fun j => set_ (fun p => (P s + j, p + j)) (sy QI)))
        (seq_ (set_ (fun p => (pi, p + m)) (sy (o s))) (step (m + 1)))) q) = q + 2 * (m + 1)).
    { intros P o q. rewrite !fst_for2, !fst_seq. unfold QcModel.step, QcModel.set_. cbn [fst]. rewrite !(still_for R _ (zrange m)) by (intros; stl). lia. }
    assert (St : forall (P : Z -> Z) s q, fst (for_ (zrange m) (fun j => set_ (fun p => (P s + j, p + j)) (sy QI)) q) = q) by (intros; apply still_for; intros; stl).
    apply allw_seq; [|rewrite F]; apply allw_for2; rewrite ?fst_seq, ?St; unfold QcModel.step, QcModel.set_; cbn [fst]; fold (set_); fold step;
      (apply allw_seqs; [stl|each; put|apply allw_seqs; [stl|put|apply allw_step]]).
Qed.

Lemma still_rd : forall s i, still (rd_body R half iszero v symmetrized_p n m s i).
Proof. intros s i. unfold rd_body. destruct symmetrized_p; cbn [negb]; stl. Qed.
Lemma still_r : forall s i, still (r_body R half iszero v symmetrized_p n m s i).
Proof. intros s i. unfold r_body. destruct symmetrized_p; cbn [negb]; stl. Qed.
Ltac seqs := apply allw_seqs; [stl| |].
Lemma rd_body_in : forall s i p lo hi, is_spin s -> m + 1 <= i < n -> lo <= p + i - (m + 1) < hi ->
  allw (inside m lo hi) (rd_body R half iszero v symmetrized_p n m s i) p.
Proof.
  intros s i p lo hi Sp I B. unfold rd_body.
  assert (Ii : m <= i < n) by lia.
  seqs; [put|]. seqs; [put|]. seqs; [each; each; seqs; put|].
  apply allw_seqs; [destruct symmetrized_p; cbn [negb]; stl| |].
  - destruct symmetrized_p; cbn [negb]; each; each; each; [seqs; put|put].
  - seqs; each; each; each; put.
Qed.
Lemma r_body_in : forall s i p lo hi, is_spin s -> m + 1 <= i < n -> lo <= p + i - (m + 1) < hi ->
  allw (inside m lo hi) (r_body R half iszero v symmetrized_p n m s i) p.
Proof.
  intros s i p lo hi Sp I B. unfold r_body.
  assert (Ii : m <= i < n) by lia.
  seqs; [put|]. seqs; [put|]. seqs; [each; each; seqs; put|].
  apply allw_seqs; [destruct symmetrized_p; cbn [negb]; stl| |].
  - destruct symmetrized_p; cbn [negb]; each; each; each; [seqs; put|put].
  - seqs; each; each; each; put.
Qed.
Lemma rows_in : forall (body : Z -> Z -> prog), (forall s i, still (body s i)) ->
  (forall s i p lo hi, is_spin s -> m + 1 <= i < n -> lo <= p + i - (m + 1) < hi -> allw (inside m lo hi) (body s i) p) ->
  forall p, let pr := for_ [0; 1] (fun s => seq_ (for_ (range (m + 1) n) (body s)) (step (n - (m + 1)))) in
    fst (pr p) = p + 2 * (n - (m + 1)) /\ allw (inside m p (p + 2 * (n - (m + 1)))) pr p.
Proof.
  intros body St B p. cbv zeta.
  assert (S1 : forall s q, fst (seq_ (for_ (range (m + 1) n) (body s)) (step (n - (m + 1))) q) = q + (n - (m + 1))).
  { intros s q. rewrite fst_seq, (still_for R _ _ _ (St s)). reflexivity. }
  split; [rewrite fst_for2, !S1; lia|].
  apply allw_for2; [|rewrite S1]; (apply allw_seqs; [apply still_for; apply St| |apply allw_step]);
    (apply allw_for; [auto|]); intros i I; apply in_range in I; apply B; auto; lia.
Qed.
Lemma rd_in : forall p, fst (rd_prog R half iszero v symmetrized_p n m p) = p + 2 * (n - (m + 1)) /\
  allw (inside m p (p + 2 * (n - (m + 1)))) (rd_prog R half iszero v symmetrized_p n m) p.
Proof. intros p. exact (rows_in _ still_rd rd_body_in p). Qed.
Lemma r_in : forall p, fst (r_prog R half iszero v symmetrized_p n m p) = p + 2 * (n - (m + 1)) /\
  allw (inside m p (p + 2 * (n - (m + 1)))) (r_prog R half iszero v symmetrized_p n m) p.
Proof. intros p. exact (rows_in _ still_r r_body_in p). Qed.

Lemma pairs_in : forall (P : Z -> Z -> Z) (o : Z -> Z -> qop) (r1 r2 : Z -> Z -> Z -> Z) (o1 o2 : Z -> Z -> option fsym) p,
  (forall sl sr i j, is_spin sl -> is_spin sr -> 0 <= i < m -> 0 <= j < m -> 0 <= P sl sr + i * m + j < lshape n m) ->
  (forall sl sr i, is_spin sl -> is_spin sr -> 0 <= i < m -> 0 <= r1 sl sr i < lshape n m /\ 0 <= r2 sl sr i < lshape n m) ->
  (forall sl sr, is_spin sl -> is_spin sr -> good m (o sl sr) /\ goodw m (o1 sl sr) /\ goodw m (o2 sl sr)) ->
  let pr := over_pairs (fun sl sr =>
    seq_ (for_ (zrange m) (fun i => for_ (zrange m) (fun j => set_ (fun p => (P sl sr + i * m + j, p + i * (m + 1) + j)) (sy QI))))
    (seq_ (for_ (zrange m) (fun i =>
      seq_ (set_ (fun p => (r1 sl sr i, p + i * (m + 1) + m)) (o1 sl sr))
           (set_ (fun p => (r2 sl sr i, p + m * (m + 1) + i)) (o2 sl sr))))
    (seq_ (set_ (fun p => (pi, p + m * (m + 1) + m)) (sy (o sl sr))) (step ((m + 1) * (m + 1)))))) in
  fst (pr p) = p + 4 * ((m + 1) * (m + 1)) /\ allw (inside m p (p + 4 * ((m + 1) * (m + 1)))) pr p.
Proof.
  intros P o r1 r2 o1 o2 p HP Hr Ho. cbv zeta.
  set (body := fun sl sr => seq_ (for_ (zrange m) (fun i => for_ (zrange m) (fun j => set_ (fun p => (P sl sr + i * m + j, p + i * (m + 1) + j)) (sy QI))))
    (seq_ (for_ (zrange m) (fun i =>
      seq_ (set_ (fun p => (r1 sl sr i, p + i * (m + 1) + m)) (o1 sl sr))
           (set_ (fun p => (r2 sl sr i, p + m * (m + 1) + i)) (o2 sl sr))))
    (seq_ (set_ (fun p => (pi, p + m * (m + 1) + m)) (sy (o sl sr))) (step ((m + 1) * (m + 1)))))).
  assert (Bf : forall sl sr q, fst (body sl sr q) = q + (m + 1) * (m + 1)).
  { intros sl sr q. unfold body. rewrite !fst_seq. rewrite (still_for R _ _ (fun i => for_ (zrange m) _)) by (intros; stl).
    rewrite (still_for R _ _ (fun i => seq_ (set_ _ _) (set_ _ _))) by (intros; stl). reflexivity. }
  assert (Ba : forall sl sr q lo hi, is_spin sl -> is_spin sr -> lo <= q -> q + (m + 1) * (m + 1) <= hi -> allw (inside m lo hi) (body sl sr) q).
  { intros sl sr q lo hi A B Lo Hi. unfold body. destruct (Ho sl sr A B) as [G [G1 G2]].
    seqs; [|seqs; [|seqs; [|apply allw_step]]].
    - each. each. apply allw_set. unfold inside. cbn [fst snd]. split; [apply HP; assumption|]. split; [nia|exact I].
    - each. destruct (Hr sl sr x A B H). seqs; apply allw_set; unfold inside; cbn [fst snd]; (split; [assumption|]; split; [nia|assumption]).
    - apply allw_set. unfold inside. cbn [fst snd]. split; [exact row_1|]. split; [nia|exact G]. }
  clearbody body. unfold QcModel.over_pairs. split.
  - rewrite fst_for2, !fst_for2, !Bf. lia.
  - apply allw_for2; [|rewrite fst_for2, !Bf]; (apply allw_for2; [|rewrite Bf]); apply Ba; auto; nia.
Qed.
Lemma a_in : forall p, fst (a_prog R n m p) = p + 4 * ((m + 1) * (m + 1)) /\ allw (inside m p (p + 4 * ((m + 1) * (m + 1)))) (a_prog R n m) p.
Proof.
  intros p. apply (pairs_in (pa n m) (fun sl sr => QA m m sl sr) (fun sl sr i => pc m sl + i) (fun sl sr i => pc m sr + i)
    (fun sl sr => sy (QC m sr)) (fun sl sr => neg (sy (QC m sl)))); [auto|intros; split; auto|intros; cbn; auto].
Qed.
Lemma ad_in : forall p, fst (ad_prog R n m p) = p + 4 * ((m + 1) * (m + 1)) /\ allw (inside m p (p + 4 * ((m + 1) * (m + 1)))) (ad_prog R n m) p.
Proof.
  intros p. apply (pairs_in (pad n m) (fun sl sr => QAD m m sl sr) (fun sl sr i => pd m sl + i) (fun sl sr i => pd m sr + i)
    (fun sl sr => neg (sy (QD m sr))) (fun sl sr => sy (QD m sl))); [auto|intros; split; auto|intros; cbn; auto].
Qed.
Lemma b_in : forall p, fst (b_prog R n m p) = p + 4 * ((m + 1) * (m + 1)) /\ allw (inside m p (p + 4 * ((m + 1) * (m + 1)))) (b_prog R n m) p.
Proof.
  intros p. apply (pairs_in (pb n m) (fun sl sr => QB m m sl sr) (fun sl sr i => pc m sl + i) (fun sl sr i => pd m sr + i)
    (fun sl sr => sy (QD m sr)) (fun sl sr => neg (sy (QC m sl)))); [auto|intros; split; auto|intros; cbn; auto].
Qed.
Lemma inside_le : forall lo hi lo' hi' w, lo' <= lo -> hi <= hi' -> inside m lo hi w -> inside m lo' hi' w.
Proof. intros lo hi lo' hi' w A B [C [D E]]. split; [exact C|]. split; [lia|exact E]. Qed.
Theorem other_in : forall p, fst (other_prog R half iszero v symmetrized_p n m p) = rshape n m /\
  allw (inside m 1 (rshape n m)) (other_prog R half iszero v symmetrized_p n m) p.
Proof.
  intros p.
  destruct (c_in 2) as [C1 C2]. destruct (rd_in (2 + 4 * (m + 1))) as [D1 D2].
  destruct (r_in (2 + 4 * (m + 1) + 2 * (n - (m + 1)))) as [E1 E2].
  destruct (a_in (2 + 4 * (m + 1) + 2 * (n - (m + 1)) + 2 * (n - (m + 1)))) as [F1 F2].
  set (q := 2 + 4 * (m + 1) + 2 * (n - (m + 1)) + 2 * (n - (m + 1)) + 4 * ((m + 1) * (m + 1))) in *.
  destruct (ad_in q) as [G1 G2]. destruct (b_in (q + 4 * ((m + 1) * (m + 1)))) as [H1 H2].
  unfold other_prog. split.
  - rewrite !fst_seq. cbn [QcModel.set_ QcModel.goto fst]. rewrite C1, D1, E1, F1, G1, H1. unfold rshape. subst q. lia.
  - apply allw_seqs; [stl|apply allw_set; unfold inside, lshape, rshape; cbn [fst snd]; split; [nia|split; [nia|exact I]]|].
    apply allw_seq; [unfold allw; cbn; auto|]. cbn [QcModel.goto fst].
    apply allw_seq; [eapply allw_mono; [|exact C2]; intros w; apply inside_le; unfold rshape; nia|]. rewrite C1.
    apply allw_seq; [eapply allw_mono; [|exact D2]; intros w; apply inside_le; unfold rshape; nia|]. rewrite D1.
    apply allw_seq; [eapply allw_mono; [|exact E2]; intros w; apply inside_le; unfold rshape; nia|]. rewrite E1.
    apply allw_seq; [eapply allw_mono; [|exact F2]; intros w; apply inside_le; unfold rshape; nia|]. rewrite F1.
    apply allw_seq; [eapply allw_mono; [|exact G2]; intros w; apply inside_le; subst q; unfold rshape; nia|]. rewrite G1.
    eapply allw_mono; [|exact H2]; intros w; apply inside_le; subst q; unfold rshape; nia.
Qed.

(* vectors *)
Lemma all_place : forall (P : wr -> Prop) ix l p, (forall k o, znth l k = Some o -> P (ix (p + k), o)) -> Forall P (place R ix p l).
Proof.
  intros P ix l. induction l as [|o l IH]; intros p H; [constructor|]. cbn [place]. constructor.
  - specialize (H 0 o eq_refl). now rewrite Z.add_0_r in H.
  - apply IH. intros k x K. replace (p + 1 + k) with (p + (k + 1)) by lia. apply H.
    unfold znth in *. destruct (Z.ltb_spec k 0); [discriminate|]. destruct (Z.ltb_spec (k + 1) 0); [lia|].
    replace (Z.to_nat (k + 1)) with (S (Z.to_nat k)) by lia. exact K.
Qed.
Lemma znth_range' : forall A (l : list A) k x, znth l k = Some x -> 0 <= k < zlen l /\ In x l.
Proof using.
  clear. intros A l k x H. unfold znth in H. destruct (Z.ltb_spec k 0); [discriminate|]. split; [|now apply nth_error_In in H].
  assert (L : (Z.to_nat k < length l)%nat) by (apply nth_error_Some; congruence). unfold zlen. lia.
Qed.
Lemma all_blk : forall (P : option fsym -> Prop) f l, (forall j s, In j l -> is_spin s -> P (f j s)) -> Forall P (blk R f l).
Proof.
  intros P f l H. apply Forall_forall. intros o I. unfold blk in I. apply in_flat_map in I. destruct I as [s [S0 I]].
  apply in_map_iff in I. destruct I as [j [<- J]]. apply H; [exact J|now apply in2].
Qed.
Lemma all_prs : forall (P : option fsym -> Prop) f l, (forall i j sl sr, In i l -> In j l -> is_spin sl -> is_spin sr -> P (f i j sl sr)) -> Forall P (prs R f l).
Proof.
  intros P f l H. apply Forall_forall. intros o I. unfold prs in I. apply in_flat_map in I. destruct I as [sr [S0 I]].
  apply in_flat_map in I. destruct I as [sl [S1 I]]. apply in_flat_map in I. destruct I as [i [J I]].
  apply in_map_iff in I. destruct I as [j [<- K]]. apply H; auto using in2.
Qed.
Lemma col_len : zlen (col_head R m) = 2 + 4 * m /\ zlen (col_tail R half iszero m) = 12 * m * m.
Proof.
  split; [unfold col_head; rewrite !zlen_app, !blk_len, zlen_zrange by lia; change (zlen [sy QI; sy QH]) with 2; lia|].
  unfold col_tail. rewrite !zlen_app, !prs_len, zlen_zrange by lia. lia.
Qed.
Lemma good_head : Forall (goodw m) (col_head R m).
Proof. unfold col_head. rewrite !Forall_app. repeat split; [repeat constructor|apply all_blk; cbn; auto|apply all_blk; cbn; auto]. Qed.
Lemma good_tail : Forall (goodw m) (col_tail R half iszero m).
Proof.
  unfold col_tail. rewrite !Forall_app. split; [|split]; apply all_prs; intros; try (apply good_mul); cbn; auto.
Qed.
Theorem column_in : fst (column_prog R half iszero n m 0) = lshape n m /\ allw (inside m 0 1) (column_prog R half iszero n m) 0.
Proof.
  unfold allw. rewrite column_eq by lia. cbn [fst snd]. split; [reflexivity|].
  destruct col_len as [L1 L2]. rewrite !Forall_app. split; [|split].
  - apply all_place. intros k o K. apply znth_range' in K. destruct K as [K I]. rewrite L1 in K. unfold inside, ixr. cbn [fst snd].
    split; [unfold lshape; nia|]. split; [lia|]. exact (proj1 (Forall_forall _ _) good_head o I).
  - unfold col_mid, ixr. repeat (apply Forall_cons; [unfold inside; cbn [fst snd]; split; [unfold lshape; nia|split; [lia|cbn; auto]]|]). constructor.
  - apply all_place. intros k o K. apply znth_range' in K. destruct K as [K I]. rewrite L2 in K. unfold inside, ixr. cbn [fst snd].
    split; [unfold lshape; nia|]. split; [lia|]. exact (proj1 (Forall_forall _ _) good_tail o I).
Qed.
End Site.

(* a whole vector, with positions *)
Lemma combine_place : forall (ix : Z -> Z * Z) (l : list (option fsym)) len, zlen l = len -> combine (map ix (zrange len)) l = place R ix 0 l.
Proof.
  intros ix l len <-. unfold zrange, zlen. rewrite Nat2Z.id.
  assert (G : forall l a, combine (map ix (map Z.of_nat (seq a (length l)))) l = place R ix (Z.of_nat a) l).
  { induction l0 as [|o l0 IH]; intros a; [reflexivity|]. cbn [length seq map combine place]. f_equal. rewrite IH. f_equal. lia. }
  exact (G l 0%nat).
Qed.
Lemma last_column : forall m, 0 <= m -> m = n - 1 -> snd (column_prog R half iszero n m 0) = place R ixr 0 (lc R half iszero n m).
Proof.
  intros m H ->. rewrite column_eq by lia. cbn [snd]. unfold lc, lc_tail.
  assert (E : range (n - 1) n = [n - 1]). { unfold range. replace (n - (n - 1)) with 1 by lia. change (zrange 1) with [0]. cbn [map]. now rewrite Z.add_0_r. }
  assert (L : lc R half iszero n (n - 1) = col_head R (n - 1) ++ [sy (QD (n - 1) 0); sy (QD (n - 1) 1); sy (QC (n - 1) 0); sy (QC (n - 1) 1)] ++ col_tail R half iszero (n - 1)).
  { unfold lc, lc_tail, col_head. rewrite E. rewrite <- !app_assoc. reflexivity. }
  assert (HN : 0 <= n - 1 < n) by lia. assert (CL := proj1 (col_len (n - 1) HN)).
  change (([sy QI; sy QH] ++ _)) with (lc R half iszero n (n - 1)). rewrite L, !place_app, CL.
  f_equal. f_equal; [|f_equal; change (zlen [_; _; _; _]) with 4; lia]. unfold col_mid, ixr. cbn [place].
  replace (2 + 4 * (n - 1) + (n - (n - 1))) with (0 + (2 + 4 * (n - 1)) + 1) by lia.
  replace (2 + 4 * (n - 1) + 2 * (n - (n - 1))) with (0 + (2 + 4 * (n - 1)) + 1 + 1) by lia.
  replace (2 + 4 * (n - 1) + 3 * (n - (n - 1))) with (0 + (2 + 4 * (n - 1)) + 1 + 1 + 1) by lia.
  rewrite !Z.add_0_l. reflexivity.
Qed.

Definition site_writes (m : Z) : list wr :=
  if m =? 0 then place R ixc 0 (rc R n 1)
  else if m =? n - 1 then snd (column_prog R half iszero n m 0)
  else snd (column_prog R half iszero n m 0) ++ snd (other_prog R half iszero v symmetrized_p n m (lshape n m)).
Lemma all_fst0 : forall l p, forallb (fun w : wr => fst (fst w) =? 0) (place R ixc p l) = true.
Proof. induction l as [|o l IH]; intros p; [reflexivity|]. cbn [place forallb]. now rewrite IH. Qed.
Lemma all_snd0 : forall l p, forallb (fun w : wr => snd (fst w) =? 0) (place R ixr p l) = true.
Proof. induction l as [|o l IH]; intros p; [reflexivity|]. cbn [place forallb]. now rewrite IH. Qed.
Theorem site_mat_eq : 2 <= n -> forall m, 0 <= m < n ->
  site_mat R half iszero v symmetrized_p n m =
  Some (if m =? 0 then 1 else lshape n m, if m =? n - 1 then 1 else rshape n m, site_writes m).
Proof.
  intros N m H. unfold site_mat, site_writes. destruct (Z.eqb_spec m 0) as [->|M0].
  - destruct (Z.eqb_spec 0 (n - 1)); [lia|]. rewrite (first_eq R half iszero n) by lia. rewrite all_fst0. cbn [check bind].
    assert (L : zlen (rc R n 1) = rshape n 0) by (rewrite (rc_len R half iszero) by lia; unfold rshape; lia).
    rewrite (vec_of_consec R snd ixc) by (reflexivity || exact L). cbn [bind]. rewrite L, Z.eqb_refl. cbn [check bind].
    rewrite <- (combine_place ixc (rc R n 1) (rshape n 0) L). reflexivity.
  - destruct (Z.eqb_spec m (n - 1)) as [E|M1].
    + assert (C := column_in m H). destruct C as [C1 _]. assert (L := last_column m (proj1 H) E).
      destruct (column_prog R half iszero n m 0) as [p ws]. cbn [fst snd] in *. subst ws p. rewrite all_snd0. cbn [check bind].
      assert (Ln : zlen (lc R half iszero n m) = lshape n m) by (rewrite lc_len by lia; unfold lshape; lia).
      rewrite (vec_of_consec R fst ixr) by (reflexivity || exact Ln). cbn [bind]. rewrite Z.eqb_refl. cbn [check bind].
      rewrite <- (combine_place ixr _ _ Ln). reflexivity.
    + assert (C := column_in m H). destruct C as [C1 _].
      destruct (column_prog R half iszero n m 0) as [p ws]. cbn [fst snd] in *. subst p. rewrite Z.eqb_refl. cbn [check bind].
      destruct (other_in m H (lshape n m)) as [O1 _]. destruct (other_prog R half iszero v symmetrized_p n m (lshape n m)) as [p' ws'].
      cbn [fst snd] in *. subst p'. rewrite Z.eqb_refl. reflexivity.
Qed.
Lemma rc_good1 : Forall (goodw 0) (rc R n 1).
Proof.
  unfold rc, rc_tail. rewrite !Forall_app. split; [repeat constructor|].
  split; [|split; [|split; [|split; [|split; [|split]]]]].
  all: first [apply all_blk; intros j s J S0; apply in_zrange in J; cbn; split; [lia|exact S0]
    |apply all_blk; intros j s J S0; exact S0|apply all_prs; intros i j sl sr I J A B; apply in_zrange in I, J; cbn; repeat split; auto; lia].
Qed.
Theorem writes_in : 2 <= n -> forall m, 0 <= m < n -> Forall (fun w =>
  0 <= fst (fst w) < (if m =? 0 then 1 else lshape n m) /\ 0 <= snd (fst w) < (if m =? n - 1 then 1 else rshape n m) /\ goodw m (snd w)) (site_writes m).
Proof.
  intros N m H. unfold site_writes. destruct (Z.eqb_spec m 0) as [->|M0].
  - destruct (Z.eqb_spec 0 (n - 1)); [lia|]. apply all_place. intros k o K. apply znth_range' in K. destruct K as [K I].
    rewrite (rc_len R half iszero) in K by lia. unfold ixc. cbn [fst snd]. split; [lia|]. split; [unfold rshape; lia|].
    exact (proj1 (Forall_forall _ _) rc_good1 o I).
  - destruct (column_in m H) as [_ C]. unfold allw in C. destruct (Z.eqb_spec m (n - 1)) as [E|M1].
    + eapply Forall_impl; [|exact C]. intros w [A [B G]]. auto.
    + apply Forall_app. split.
      * eapply Forall_impl; [|exact C]. intros w [A [B G]]. split; [exact A|]. split; [unfold rshape; nia|exact G].
      * destruct (other_in m H (lshape n m)) as [_ O1]. eapply Forall_impl; [|exact O1]. intros w [A [B G]]. split; [exact A|]. split; [lia|exact G].
Qed.
End Layout.
