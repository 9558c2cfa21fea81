(** Every row and every column of the tables of QcModel is used; names on the two sides of a bond have opposite labels. *)
From Coq Require Import ZArith Bool List Lia.
From Verif Require Import SymModel DictLib IndexLib RingLib OptLib SiteModel QcModel QcProg QcCols QcLayout.
Import ListNotations.
Open Scope Z_scope.

Section Fill.
Variable R : CRing.
Variable half : R.
Variable iszero : R -> bool.
Variable v : Z -> Z -> Z -> Z -> Z -> Z -> R.
Variable symmetrized_p : bool.
Variable n : Z.
Notation fsym := (fsym R). Notation wr := (wr R). Notation prog := (prog R).
Notation sy := (sy R). Notation neg := (neg R). Notation mul := (mul R iszero).
Notation seq_ := (seq_ R). Notation set_ := (set_ R). Notation for_ := (for_ R). Notation step := (step R).
Notation still := (still R). Notation over_pairs := (over_pairs R).
Ltac stl := repeat first [apply still_set|apply still_for; intros|apply still_seq].

Definition hits (a : prog) (p : Z) (P : Z * Z -> Prop) : Prop := exists w, In w (snd (a p)) /\ P (fst w).
Lemma hit_l : forall a b p P, hits a p P -> hits (seq_ a b) p P.
Proof. intros a b p P [w [I H]]. exists w. split; [rewrite snd_seq; apply in_or_app; now left|exact H]. Qed.
Lemma hit_r : forall a b p P, hits b (fst (a p)) P -> hits (seq_ a b) p P.
Proof. intros a b p P [w [I H]]. exists w. split; [rewrite snd_seq; apply in_or_app; now right|exact H]. Qed.
Lemma hit_set : forall ix o p (P : Z * Z -> Prop), P (ix p) -> hits (set_ ix o) p P.
Proof. intros ix o p P H. exists (ix p, o). split; [now left|exact H]. Qed.
Lemma hit_for : forall A (l : list A) body p P x, (forall y, still (body y)) -> In x l -> hits (body x) p P -> hits (for_ l body) p P.
Proof.
  intros A l body p P x S I H. induction l as [|y l IH]; [destruct I|]. unfold QcModel.for_. cbn [fold_right]. destruct I as [->|I]; [now apply hit_l|].
  apply hit_r. rewrite S. now apply IH.
Qed.
Definition cols (a : prog) (p lo hi : Z) : Prop := forall c, lo <= c < hi -> hits a p (fun ix => snd ix = c).
Lemma cols_seq : forall a b p lo mid hi, cols a p lo mid -> cols b (fst (a p)) mid hi -> cols (seq_ a b) p lo hi.
Proof. intros a b p lo mid hi A B c C. destruct (Z_lt_dec c mid); [apply hit_l, A; lia|apply hit_r, B; lia]. Qed.
Lemma cols_l : forall a b p lo hi, cols a p lo hi -> cols (seq_ a b) p lo hi.
Proof. intros a b p lo hi A c C. now apply hit_l, A. Qed.
Lemma cols_r : forall a b p lo hi, cols b (fst (a p)) lo hi -> cols (seq_ a b) p lo hi.
Proof. intros a b p lo hi A c C. now apply hit_r, A. Qed.
Lemma cols_2 : forall body p lo mid hi, cols (body 0) p lo mid -> cols (body 1) (fst (body 0 p)) mid hi -> cols (for_ [0; 1] body) p lo hi.
Proof. intros body p lo mid hi A B. unfold QcModel.for_. cbn [fold_right]. eapply cols_seq; [exact A|]. apply cols_l, B. Qed.

Section Site.
Variable m : Z.
Hypothesis Hm : 0 <= m < n.
Lemma row_cols : forall (P : Z -> Z) (o : Z -> qop) s p,
  cols (seq_ (for_ (zrange m) (fun j => set_ (fun p => (P s + j, p + j)) (sy QI))) (seq_ (set_ (fun p => (pi, p + m)) (sy (o s))) (step (m + 1)))) p p (p + (m + 1)).
Proof.
  intros P o s p c C. destruct (Z.eq_dec c (p + m)) as [->|NE].
  - apply hit_r. rewrite (still_for R _ (zrange m)) by (intros; stl). apply hit_l, hit_set. reflexivity.
  - apply hit_l. apply (hit_for _ _ _ _ _ (c - p)); [intros; stl|apply in_zrange; lia|]. apply hit_set. cbn. lia.
Qed.
Lemma c_cols : forall p, cols (c_prog R m) p p (p + 4 * (m + 1)).
Proof.
  intros p. unfold c_prog.
  assert (F : forall (P : Z -> Z) (o : Z -> qop) s q, fst (seq_ (for_ (zrange m) (fun j => set_ (fun p => (P s + j, p + j)) (sy QI)))
        (seq_ (set_ (fun p => (pi, p + m)) (sy (o s))) (step (m + 1))) q) = q + (m + 1)).
  { intros P o s q. rewrite !fst_seq. unfold QcModel.step, QcModel.set_. cbn [fst]. rewrite !(still_for R _ (zrange m)) by (intros; stl). lia. }
  eapply cols_seq.
  - eapply cols_2; [apply (row_cols (pc m) (QC m) 0)|]. rewrite (F (pc m) (QC m) 0). apply (row_cols (pc m) (QC m) 1).
  - rewrite fst_for2, (F (pc m) (QC m) 0), (F (pc m) (QC m) 1). replace (p + 4 * (m + 1)) with (p + (m + 1) + (m + 1) + (m + 1) + (m + 1)) by lia.
    eapply cols_2; [apply (row_cols (pd m) (QD m) 0)|]. rewrite (F (pd m) (QD m) 0). apply (row_cols (pd m) (QD m) 1).
Qed.
Lemma body_hit : forall (body : Z -> prog) p i P, (forall i, still (body i)) -> m + 1 <= i < n -> hits (body i) p P ->
  hits (seq_ (for_ (range (m + 1) n) body) (step (n - (m + 1)))) p P.
Proof. intros body p i P S I H. apply hit_l. apply (hit_for _ _ _ _ _ i); [exact S|apply in_range; lia|exact H]. Qed.
Lemma bodies : forall (body : Z -> Z -> prog), (forall s i, still (body s i)) ->
  forall p, fst (seq_ (for_ (range (m + 1) n) (body 0)) (step (n - (m + 1))) p) = p + (n - (m + 1)).
Proof. intros body S p. rewrite fst_seq, (still_for R _ (range (m + 1) n)) by auto. reflexivity. Qed.
Lemma body_cols : forall (body : Z -> Z -> prog), (forall s i, still (body s i)) ->
  (forall s i p, hits (body s i) p (fun ix => snd ix = p + i - (m + 1))) ->
  forall p, cols (for_ [0; 1] (fun s => seq_ (for_ (range (m + 1) n) (body s)) (step (n - (m + 1))))) p p (p + 2 * (n - (m + 1))).
Proof.
  intros body S H p.
  assert (G : forall s q, cols (seq_ (for_ (range (m + 1) n) (body s)) (step (n - (m + 1)))) q q (q + (n - (m + 1)))).
  { intros s q c C. apply (body_hit _ _ (c - q + (m + 1))); [auto|lia|]. destruct (H s (c - q + (m + 1)) q) as [w [I E]]. exists w. split; [exact I|lia]. }
  eapply cols_2; [apply G|]. rewrite (bodies body S). replace (p + 2 * (n - (m + 1))) with (p + (n - (m + 1)) + (n - (m + 1))) by lia. apply G.
Qed.
Lemma rd_cols : forall p, cols (rd_prog R half iszero v symmetrized_p n m) p p (p + 2 * (n - (m + 1))).
Proof.
  intros p. unfold rd_prog. apply body_cols; [apply (still_rd R half iszero v symmetrized_p n m)|].
  intros s i q. unfold rd_body. apply hit_l, hit_set. reflexivity.
Qed.
Lemma r_cols : forall p, cols (r_prog R half iszero v symmetrized_p n m) p p (p + 2 * (n - (m + 1))).
Proof.
  intros p. unfold r_prog. apply body_cols; [apply (still_r R half iszero v symmetrized_p n m)|].
  intros s i q. unfold r_body. apply hit_l, hit_set. reflexivity.
Qed.
Lemma pair_cols : forall (P : Z -> Z -> Z) (o : Z -> Z -> qop) (r1 r2 : Z -> Z -> Z -> Z) (o1 o2 : Z -> Z -> option fsym) p,
  cols (over_pairs (fun sl sr =>
    seq_ (for_ (zrange m) (fun i => for_ (zrange m) (fun j => set_ (fun p => (P sl sr + i * m + j, p + i * (m + 1) + j)) (sy QI))))
    (seq_ (for_ (zrange m) (fun i => seq_ (set_ (fun p => (r1 sl sr i, p + i * (m + 1) + m)) (o1 sl sr)) (set_ (fun p => (r2 sl sr i, p + m * (m + 1) + i)) (o2 sl sr))))
    (seq_ (set_ (fun p => (pi, p + m * (m + 1) + m)) (sy (o sl sr))) (step ((m + 1) * (m + 1))))))) p p (p + 4 * ((m + 1) * (m + 1))).
Proof.
  intros P o r1 r2 o1 o2 p. unfold QcModel.over_pairs.
  set (body := fun sl sr => seq_ (for_ (zrange m) (fun i => for_ (zrange m) (fun j => set_ (fun p => (P sl sr + i * m + j, p + i * (m + 1) + j)) (sy QI))))
    (seq_ (for_ (zrange m) (fun i => seq_ (set_ (fun p => (r1 sl sr i, p + i * (m + 1) + m)) (o1 sl sr)) (set_ (fun p => (r2 sl sr i, p + m * (m + 1) + i)) (o2 sl sr))))
    (seq_ (set_ (fun p => (pi, p + m * (m + 1) + m)) (sy (o sl sr))) (step ((m + 1) * (m + 1)))))).
  set (d := (m + 1) * (m + 1)).
  assert (F : forall sl sr q, fst (body sl sr q) = q + d).
  { intros sl sr q. unfold body. rewrite !fst_seq. rewrite !(still_for R _ (zrange m)) by (intros; stl). reflexivity. }
  assert (C : forall sl sr q, cols (body sl sr) q q (q + d)).
  { intros sl sr q c C. set (i := (c - q) / (m + 1)). set (j := (c - q) mod (m + 1)).
    assert (E : c - q = (m + 1) * i + j) by (apply Z.div_mod; lia). assert (J : 0 <= j < m + 1) by (apply Z.mod_pos_bound; lia).
    assert (I : 0 <= i < m + 1) by (unfold d in C; nia). unfold body. destruct (Z.eq_dec i m) as [EI|NI].
    - apply hit_r. rewrite (still_for R _ (zrange m)) by (intros; stl). destruct (Z.eq_dec j m) as [EJ|NJ].
      + apply hit_r. rewrite (still_for R _ (zrange m)) by (intros; stl). apply hit_l, hit_set. cbn. lia.
      + apply hit_l. apply (hit_for _ _ _ _ _ j); [intros; stl|apply in_zrange; lia|]. apply hit_r. apply hit_set. cbn. lia.
    - destruct (Z.eq_dec j m) as [EJ|NJ].
      + apply hit_r. rewrite (still_for R _ (zrange m)) by (intros; stl).
        apply hit_l. apply (hit_for _ _ _ _ _ i); [intros; stl|apply in_zrange; lia|]. apply hit_l. apply hit_set. cbn. lia.
      + apply hit_l. apply (hit_for _ _ _ _ _ i); [intros; stl|apply in_zrange; lia|].
        apply (hit_for _ _ _ _ _ j); [intros; stl|apply in_zrange; lia|]. apply hit_set. cbn. lia. }
  change (cols (for_ [0; 1] (fun sr => for_ [0; 1] (fun sl => body sl sr))) p p (p + 4 * d)).
  clearbody body. replace (p + 4 * d) with (p + d + d + d + d) by lia.
  eapply cols_2.
  - eapply cols_2; [apply C|]. rewrite F. apply C.
  - rewrite fst_for2, !F. eapply cols_2; [apply C|]. rewrite F. apply C.
Qed.
Lemma a_cols : forall p, cols (a_prog R n m) p p (p + 4 * ((m + 1) * (m + 1))).
Proof. intros p. exact (pair_cols (pa n m) (QA m m) (fun sl sr i => pc m sl + i) (fun sl sr i => pc m sr + i) (fun sl sr => sy (QC m sr)) (fun sl sr => neg (sy (QC m sl))) p). Qed.
Lemma ad_cols : forall p, cols (ad_prog R n m) p p (p + 4 * ((m + 1) * (m + 1))).
Proof. intros p. exact (pair_cols (pad n m) (QAD m m) (fun sl sr i => pd m sl + i) (fun sl sr i => pd m sr + i) (fun sl sr => neg (sy (QD m sr))) (fun sl sr => sy (QD m sl)) p). Qed.
Lemma b_cols : forall p, cols (b_prog R n m) p p (p + 4 * ((m + 1) * (m + 1))).
Proof. intros p. exact (pair_cols (pb n m) (QB m m) (fun sl sr i => pc m sl + i) (fun sl sr i => pd m sr + i) (fun sl sr => sy (QD m sr)) (fun sl sr => neg (sy (QC m sl))) p). Qed.
Lemma other_cols : forall p, cols (other_prog R half iszero v symmetrized_p n m) p 1 (rshape n m).
Proof.
  intros p. unfold other_prog. eapply (cols_seq _ _ _ 1 2).
  - intros c C. apply hit_set. cbn. lia.
  - apply cols_r. cbn [QcModel.set_ QcModel.goto fst]. eapply cols_seq; [apply c_cols|].
    rewrite (proj1 (c_in R iszero v n m Hm _)). eapply cols_seq; [apply rd_cols|].
    rewrite (proj1 (rd_in R half iszero v symmetrized_p n m Hm _)). eapply cols_seq; [apply r_cols|].
    rewrite (proj1 (r_in R half iszero v symmetrized_p n m Hm _)). eapply cols_seq; [apply a_cols|].
    rewrite (proj1 (a_in R iszero v n m Hm _)). eapply cols_seq; [apply ad_cols|].
    rewrite (proj1 (ad_in R iszero v n m Hm _)). replace (rshape n m) with
      (2 + 4 * (m + 1) + 2 * (n - (m + 1)) + 2 * (n - (m + 1)) + 4 * ((m + 1) * (m + 1)) + 4 * ((m + 1) * (m + 1)) + 4 * ((m + 1) * (m + 1))) by (unfold rshape; lia).
    apply b_cols.
Qed.
Lemma rdr_rows : forall p r, 2 + 4 * m <= r < 2 + 4 * n -> (forall k, 0 <= k < 4 -> r <> 2 + 4 * m + k * (n - m)) ->
  hits (other_prog R half iszero v symmetrized_p n m) p (fun ix => fst ix = r).
Proof.
  intros p r C NE. unfold other_prog. apply hit_r, hit_r, hit_r. 
  assert (G : forall (body : Z -> Z -> prog) (P : Z -> Z) q s i, (forall s i, still (body s i)) -> (forall s i p, hits (body s i) p (fun ix => fst ix = P s + i)) ->
     is_spin s -> m + 1 <= i < n -> r = P s + i ->
     hits (for_ [0; 1] (fun s => seq_ (for_ (range (m + 1) n) (body s)) (step (n - (m + 1))))) q (fun ix => fst ix = r)).
  { intros body P q s i S H SS I E. unfold QcModel.for_ at 1. cbn [fold_right]. destruct SS as [-> | ->].
    - apply hit_l. apply (body_hit _ _ i); [auto|lia|]. subst r. apply H.
    - apply hit_r, hit_l. apply (body_hit _ _ i); [auto|lia|]. subst r. apply H. }
  assert (GD : forall q s i, is_spin s -> m + 1 <= i < n -> r = prd n m s + i -> hits (rd_prog R half iszero v symmetrized_p n m) q (fun ix => fst ix = r)).
  { intros q s i. apply G; [apply (still_rd R half iszero v symmetrized_p n m)|]. intros. unfold rd_body. apply hit_l, hit_set. reflexivity. }
  assert (GR : forall q s i, is_spin s -> m + 1 <= i < n -> r = pr n m s + i -> hits (r_prog R half iszero v symmetrized_p n m) q (fun ix => fst ix = r)).
  { intros q s i. apply G; [apply (still_r R half iszero v symmetrized_p n m)|]. intros. unfold r_body. apply hit_l, hit_set. reflexivity. }
  assert (S0 : is_spin 0) by now left. assert (S1 : is_spin 1) by now right.
  assert (N0 := NE 0 ltac:(lia)). assert (N1 := NE 1 ltac:(lia)). assert (N2 := NE 2 ltac:(lia)). assert (N3 := NE 3 ltac:(lia)).
  destruct (Z_lt_dec r (2 + 4 * m + 1 * (n - m))).
  - apply hit_l. apply (GD _ 0 (r - (2 + 3 * m)) S0); [lia|unfold prd, arr; cbn [Z.eqb Pos.eqb]; lia].
  - destruct (Z_lt_dec r (2 + 4 * m + 2 * (n - m))).
    + apply hit_l. apply (GD _ 1 (r - (2 + 2 * m + n)) S1); [lia|unfold prd, arr; cbn [Z.eqb Pos.eqb]; lia].
    + destruct (Z_lt_dec r (2 + 4 * m + 3 * (n - m))).
      * apply hit_r, hit_l. apply (GR _ 0 (r - (2 + m + 2 * n)) S0); [lia|unfold pr, arr; cbn [Z.eqb Pos.eqb]; lia].
      * apply hit_r, hit_l. apply (GR _ 1 (r - (2 + 3 * n)) S1); [lia|unfold pr, arr; cbn [Z.eqb Pos.eqb]; lia].
Qed.
End Site.
Lemma in_place : forall ix l p k, 0 <= k < zlen l -> exists o, In (ix (p + k), o) (place R ix p l).
Proof.
  intros ix l. induction l as [|o l IH]; intros p k H; [unfold zlen in H; cbn in H; lia|]. rewrite zlen_cons in H. cbn [place].
  destruct (Z.eq_dec k 0) as [->|NK]; [exists o; left; now rewrite Z.add_0_r|].
  destruct (IH (p + 1) (k - 1)) as [o' I]; [lia|]. exists o'. right. replace (p + k) with (p + 1 + (k - 1)) by lia. exact I.
Qed.
Notation site_writes := (site_writes R half iszero v symmetrized_p n).
Theorem rows_used : 2 <= n -> forall m, 0 <= m < n -> forall r, 0 <= r < (if m =? 0 then 1 else lshape n m) ->
  exists w, In w (site_writes m) /\ fst (fst w) = r.
Proof.
  intros N m H r Hr. unfold QcLayout.site_writes. destruct (Z.eqb_spec m 0) as [->|M0].
  - destruct (in_place ixc (rc R n 1) 0 0) as [o I]; [rewrite (rc_len R half iszero) by lia; lia|]. exists (ixc (0 + 0), o). split; [exact I|cbn; lia].
  - assert (C : (exists w, In w (snd (column_prog R half iszero n m 0)) /\ fst (fst w) = r) \/
       (2 + 4 * m <= r < 2 + 4 * n /\ forall k, 0 <= k < 4 -> r <> 2 + 4 * m + k * (n - m))).
    { rewrite column_eq by lia. cbn [snd]. destruct (col_len R half iszero v n m H) as [L1 L2].
      destruct (Z_lt_dec r (2 + 4 * m)).
      - left. destruct (in_place ixr (col_head R m) 0 r) as [o I]; [lia|]. exists (ixr (0 + r), o). split; [apply in_or_app; now left|reflexivity].
      - destruct (Z_lt_dec r (2 + 4 * n)) as [L|L].
        + destruct (Z.eq_dec r (2 + 4 * m)) as [E0|E0]; [left; eexists; split; [apply in_or_app; right; apply in_or_app; left; left; reflexivity|unfold ixr; cbn [fst snd]; lia]|].
          destruct (Z.eq_dec r (2 + 4 * m + (n - m))) as [E1|E1]; [left; eexists; split; [apply in_or_app; right; apply in_or_app; left; right; left; reflexivity|unfold ixr; cbn [fst snd]; lia]|].
          destruct (Z.eq_dec r (2 + 4 * m + 2 * (n - m))) as [E2|E2]; [left; eexists; split; [apply in_or_app; right; apply in_or_app; left; right; right; left; reflexivity|unfold ixr; cbn [fst snd]; lia]|].
          destruct (Z.eq_dec r (2 + 4 * m + 3 * (n - m))) as [E3|E3]; [left; eexists; split; [apply in_or_app; right; apply in_or_app; left; right; right; right; left; reflexivity|unfold ixr; cbn [fst snd]; lia]|].
          right. split; [lia|]. intros k K. assert (k = 0 \/ k = 1 \/ k = 2 \/ k = 3) as [->|[->|[->| ->]]] by lia; lia.
        + left. destruct (in_place ixr (col_tail R half iszero m) (2 + 4 * n) (r - (2 + 4 * n))) as [o I]; [unfold lshape in Hr; lia|].
          exists (ixr (2 + 4 * n + (r - (2 + 4 * n))), o). split; [apply in_or_app; right; apply in_or_app; now right|unfold ixr; cbn [fst]; lia]. }
    destruct (Z.eqb_spec m (n - 1)) as [E|M1].
    + destruct C as [C|[C1 C2]]; [exact C|exfalso].
      assert (r = 2 + 4 * m \/ r = 2 + 4 * m + 1 \/ r = 2 + 4 * m + 2 \/ r = 2 + 4 * m + 3) as [F|[F|[F|F]]] by lia.
      * apply (C2 0); lia. * apply (C2 1); lia. * apply (C2 2); lia. * apply (C2 3); lia.
    + destruct C as [[w [I E]]|[C1 C2]]; [exists w; split; [apply in_or_app; now left|exact E]|].
      destruct (rdr_rows m (lshape n m) r C1 C2) as [w [I E]]. exists w. split; [apply in_or_app; now right|exact E].
Qed.
Theorem cols_used : 2 <= n -> forall m, 0 <= m < n -> forall c, 0 <= c < (if m =? n - 1 then 1 else rshape n m) ->
  exists w, In w (site_writes m) /\ snd (fst w) = c.
Proof.
  intros N m H c Hc. unfold QcLayout.site_writes. destruct (Z.eqb_spec m 0) as [->|M0].
  - destruct (Z.eqb_spec 0 (n - 1)); [lia|].
    destruct (in_place ixc (rc R n 1) 0 c) as [o I]; [rewrite (rc_len R half iszero) by lia; unfold rshape in Hc; lia|].
    exists (ixc (0 + c), o). split; [exact I|cbn; lia].
  - assert (C0 : exists w, In w (snd (column_prog R half iszero n m 0)) /\ snd (fst w) = 0).
    { rewrite column_eq by lia. exists (ixr 0, sy QI). split; [now left|reflexivity]. }
    destruct (Z.eqb_spec m (n - 1)) as [E|M1]; [replace c with 0 by lia; exact C0|].
    destruct (Z.eq_dec c 0) as [->|NC].
    + destruct C0 as [w [I E]]. exists w. split; [apply in_or_app; now left|exact E].
    + destruct (other_cols m H (lshape n m) c ltac:(lia)) as [w [I E]]. exists w. split; [apply in_or_app; now right|exact E].
Qed.

(* the two sides of a bond *)
Variable osym : Z -> Z.
Definition opposite (a b : option fsym) : Prop := exists x o y o', a = Some (x, o) /\ b = Some (y, o') /\ q_label osym o' = sz_neg (q_label osym o).
Lemma F2_flat : forall A B (P : B -> B -> Prop) (f g : A -> list B) l, (forall x, Forall2 P (f x) (g x)) -> Forall2 P (flat_map f l) (flat_map g l).
Proof. intros A B P f g l H. induction l; [constructor|]. cbn. now apply Forall2_app. Qed.
Lemma F2_map : forall A B (P : B -> B -> Prop) (f g : A -> B) l, (forall x, P (f x) (g x)) -> Forall2 P (map f l) (map g l).
Proof. intros A B P f g l H. induction l; cbn; constructor; auto. Qed.
Lemma opp_blk : forall f g l, (forall j s, opposite (f j s) (g j s)) -> Forall2 opposite (blk R f l) (blk R g l).
Proof. intros f g l H. unfold blk. apply F2_flat. intros s. apply F2_map. auto. Qed.
Lemma opp_prs : forall f g l, (forall i j sl sr, opposite (f i j sl sr) (g i j sl sr)) -> Forall2 opposite (prs R f l) (prs R g l).
Proof. intros f g l H. unfold prs. apply F2_flat. intros sr. apply F2_flat. intros sl. apply F2_flat. intros i. apply F2_map. auto. Qed.
Theorem bond_opposite : iszero half = false -> forall m, Forall2 opposite (rc R n m) (lc R half iszero n m).
Proof.
  intros HZ m. unfold rc, lc, rc_tail, lc_tail.
  apply Forall2_app; [repeat constructor; repeat eexists; reflexivity|].
  apply Forall2_app; [apply opp_blk; intros; repeat eexists|].
  apply Forall2_app; [apply opp_blk; intros; repeat eexists; cbn; unfold sz_neg; cbn; f_equal; lia|].
  apply Forall2_app; [apply opp_blk; intros; repeat eexists|].
  apply Forall2_app; [apply opp_blk; intros; repeat eexists; cbn; unfold sz_neg; cbn; f_equal; lia|].
  apply Forall2_app; [apply opp_prs; intros; cbn [QcModel.mul QcModel.sy]; rewrite HZ; repeat eexists|].
  apply Forall2_app; [apply opp_prs; intros; cbn [QcModel.mul QcModel.sy]; rewrite HZ; repeat eexists; cbn; unfold sz_neg; cbn; f_equal; lia|].
  apply opp_prs; intros; repeat eexists.
Qed.
End Fill.
