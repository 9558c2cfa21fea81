(** The tables of QCSymbolicMPO satisfy what FullProofs asks of tables (proofs). *)
From Coq Require Import ZArith Bool List Lia Ring.
From Verif Require Import SymModel SymProofs DictLib IndexLib OptLib RingLib FuseModel MpsModel SiteModel SiteProofs SiteOps QcModel QcProg QcCols QcLayout QcFill QcAlg QcWords QcSite QcChain TosModel TosProofs FullModel FullOps FullChain FullProofs QfullModel QfullGrade.
Import ListNotations.
Open Scope Z_scope.

Lemma qop_eqb_spec : forall a b, reflect (a = b) (qop_eqb a b).
Proof.
  intros a b. destruct a, b; cbn [qop_eqb]; try (constructor; congruence);
    repeat match goal with |- context [?x =? ?y] => destruct (Z.eqb_spec x y); cbn [andb] end; constructor; congruence.
Qed.

Section Proofs.
Variable R : CRing.
Variable half : R.
Variable small : R -> bool.
Variable iszero : R -> bool.
Variable osym : Z -> Z.
Variable t : Z -> Z -> Z -> R.
Variable v : Z -> Z -> Z -> Z -> Z -> Z -> R.
Variable symmetrized_p : bool.
Variable n : Z.
Notation fsym := (fsym R). Notation wr := (wr R).
Notation op_at m := (get_op R half small osym t v m).
Notation lc := (lc R half iszero n). Notation rc := (rc R n).

(** *** operators *)
Lemma op_fit : forall m o x, op_at m (named o) = Some (Op R x) -> okf R (osym m) x /\ only R x (sym_par o).
Proof.
  intros m o x E.
  assert (Cc : forall s y, c_operator R (osym m) s = Some y -> okf R (osym m) y /\ only R y true) by (intros s y H; split; [exact (okf_c R _ _ _ H)|exact (only_c R _ _ _ H)]).
  assert (Dd : forall s y, d_operator R (osym m) s = Some y -> okf R (osym m) y /\ only R y true) by (intros s y H; split; [exact (okf_d R _ _ _ H)|exact (only_d R _ _ _ H)]).
  assert (MM : forall a b p q, okf R (osym m) a /\ only R a p -> okf R (osym m) b /\ only R b q -> okf R (osym m) (op_mm R a b) /\ only R (op_mm R a b) (xorb p q)).
  { intros a b p q [A B] [C D]. split; [now apply okf_mm|now apply only_mm]. }
  assert (PP : forall a b p, okf R (osym m) a /\ only R a p -> okf R (osym m) b /\ only R b p -> okf R (osym m) (op_plus R a b) /\ only R (op_plus R a b) p).
  { intros a b p [A B] [C D]. split; [now apply okf_plus|now apply only_plus]. }
  assert (SS : forall a c p, okf R (osym m) a /\ only R a p -> okf R (osym m) (op_scale R c a) /\ only R (op_scale R c a) p).
  { intros a c p [A B]. split; [now apply okf_scale|now apply only_scale]. }
  assert (Aa : forall s u y, a_operator R (osym m) s u = Some y -> okf R (osym m) y /\ only R y false).
  { intros s u y H. unfold a_operator in H. destruct (c_operator R (osym m) s) eqn:E1; cbn [bind] in H; [|discriminate]. destruct (c_operator R (osym m) u) eqn:E2; cbn [bind] in H; [|discriminate]. injection H as <-. exact (MM _ _ true true (Cc _ _ E1) (Cc _ _ E2)). }
  assert (Ad : forall s u y, ad_operator R (osym m) s u = Some y -> okf R (osym m) y /\ only R y false).
  { intros s u y H. unfold ad_operator in H. destruct (d_operator R (osym m) u) eqn:E1; cbn [bind] in H; [|discriminate]. destruct (d_operator R (osym m) s) eqn:E2; cbn [bind] in H; [|discriminate]. injection H as <-. exact (MM _ _ true true (Dd _ _ E1) (Dd _ _ E2)). }
  assert (Bb : forall s u y, b_operator R (osym m) s u = Some y -> okf R (osym m) y /\ only R y false).
  { intros s u y H. unfold b_operator in H. destruct (c_operator R (osym m) s) eqn:E1; cbn [bind] in H; [|discriminate]. destruct (d_operator R (osym m) u) eqn:E2; cbn [bind] in H; [|discriminate]. injection H as <-. exact (MM _ _ true true (Cc _ _ E1) (Dd _ _ E2)). }
  assert (BD : forall (o : option (fop R)) y, (do x <- o; Some (Op R x)) = Some (Op R y) -> o = Some y) by (intros [z|] y H; [injection H as <-; reflexivity|discriminate]).
  destruct o; cbn [named get_op sym_par] in *; try apply BD in E; eauto.
  - split; [exact (okf_i R _ _ E)|exact (only_i R _ _ E)].
  - split; [exact (okf_h R _ _ _ _ _ _ _ E)|exact (only_h R _ _ _ _ _ _ _ E)].
  - destruct (_ || _); [discriminate|]. destruct (d_operator R (osym m) s) eqn:E1; cbn [bind] in E; [|discriminate]. destruct (b_operator R (osym m) 0 0) eqn:E2; cbn [bind] in E; [|discriminate]. destruct (b_operator R (osym m) 1 1) eqn:E3; cbn [bind] in E; [|discriminate]. injection E as <-.
    apply PP; [apply SS; eauto|]. apply (MM _ _ false true); [|eauto]. apply PP; apply SS; eauto.
  - destruct (_ || _); [discriminate|]. destruct (c_operator R (osym m) s) eqn:E1; cbn [bind] in E; [|discriminate]. destruct (b_operator R (osym m) 0 0) eqn:E2; cbn [bind] in E; [|discriminate]. destruct (b_operator R (osym m) 1 1) eqn:E3; cbn [bind] in E; [|discriminate]. injection E as <-.
    apply PP; [apply SS; eauto|]. apply (MM _ _ true false); [eauto|]. apply PP; apply SS; eauto.
  - destruct (small _); [discriminate|]. destruct (ad_operator R (osym m) si sj) eqn:E1; cbn [bind] in E; [|discriminate]. injection E as <-. apply SS. eauto.
  - destruct (small _); [discriminate|]. destruct (a_operator R (osym m) si sj) eqn:E1; cbn [bind] in E; [|discriminate]. injection E as <-. apply SS. eauto.
  - destruct (si =? sj).
    + destruct (_ && _); [discriminate|]. destruct (b_operator R (osym m) sj si) eqn:E1; cbn [bind] in E; [|discriminate]. destruct (b_operator R (osym m) 0 0) eqn:E2; cbn [bind] in E; [|discriminate]. destruct (b_operator R (osym m) 1 1) eqn:E3; cbn [bind] in E; [|discriminate]. injection E as <-.
      apply PP; [apply SS; eauto|]. apply PP; apply SS; eauto.
    + destruct (small _); [discriminate|]. destruct (b_operator R (osym m) sj si) eqn:E1; cbn [bind] in E; [|discriminate]. injection E as <-. apply SS. eauto.
Qed.

(** *** parities along a bond *)
Definition parb (b : bool) (o : option fsym) : Prop := match o with Some (_, q) => sym_par q = b | None => True end.
Lemma three : forall (l1 l2 l3 : list (option fsym)), Forall (parb false) l1 -> Forall (parb true) l2 -> Forall (parb false) l3 -> zlen l1 = 2 -> zlen l2 = 4 * n ->
  forall k o, znth (l1 ++ l2 ++ l3) k = Some o -> parb (oddp n k) o.
Proof.
  intros l1 l2 l3 F1 F2 F3 L1 L2 k o E. pose proof (znth_range' _ _ _ _ E) as [K _]. unfold oddp.
  destruct (Z.ltb_spec k 2) as [A|A].
  - rewrite znth_app1 in E by lia. apply znth_range' in E. destruct E as [_ E]. replace (2 <=? k) with false by lia. exact (proj1 (Forall_forall _ _) F1 o E).
  - rewrite znth_app2 in E by lia. rewrite L1 in E. replace (2 <=? k) with true by lia. cbn [andb]. destruct (Z.ltb_spec k (2 + 4 * n)) as [B|B].
    + rewrite znth_app1 in E by lia. apply znth_range' in E. destruct E as [_ E]. exact (proj1 (Forall_forall _ _) F2 o E).
    + rewrite znth_app2 in E by lia. apply znth_range' in E. destruct E as [_ E]. exact (proj1 (Forall_forall _ _) F3 o E).
Qed.
Lemma parb_mul : forall b x q, sym_par q = b -> parb b (mul R iszero x (sy R q)).
Proof. intros b x q H. cbn. destruct (iszero x); [exact I|exact H]. Qed.
Ltac pieces := rewrite ?Forall_app; repeat match goal with |- _ /\ _ => split end;
  first [apply all_blk; intros; reflexivity|apply all_prs; intros; first [apply parb_mul|idtac]; reflexivity|repeat (apply Forall_cons; [reflexivity|]); apply Forall_nil].
Lemma lc_par : forall m, 0 <= m <= n -> forall k o, znth (lc m) k = Some o -> parb (oddp n k) o.
Proof.
  intros m H. unfold QcCols.lc, lc_tail. 
  match goal with |- forall k o, znth (?a ++ ?b ++ ?c ++ ?d ++ ?e ++ ?f) k = _ -> _ => replace (a ++ b ++ c ++ d ++ e ++ f) with (a ++ (b ++ c ++ d ++ e) ++ f) by (now rewrite <- !app_assoc) end.
  apply three; [pieces|pieces|pieces|reflexivity|]. rewrite !zlen_app, !blk_len, zlen_zrange, zlen_range by lia. lia.
Qed.
Lemma rc_par : forall m, 0 <= m <= n -> forall k o, znth (rc m) k = Some o -> parb (oddp n k) o.
Proof.
  intros m H. unfold QcCols.rc, rc_tail. 
  match goal with |- forall k o, znth (?a ++ ?b ++ ?c ++ ?d ++ ?e ++ ?f) k = _ -> _ => replace (a ++ b ++ c ++ d ++ e ++ f) with (a ++ (b ++ c ++ d ++ e) ++ f) by (now rewrite <- !app_assoc) end.
  apply three; [pieces|pieces|pieces|reflexivity|]. rewrite !zlen_app, !blk_len, zlen_zrange, zlen_range by lia. lia.
Qed.
(** *** parities of the entries *)
Lemma column_grade : forall m, 0 <= m < n -> Forall (pgraded R n) (snd (column_prog R half iszero n m 0)).
Proof.
  intros m H. rewrite column_eq by lia. cbn [snd]. assert (Z0 : oddp n 0 = false) by (apply odd_low; lia). rewrite !Forall_app. split; [|split].
  - apply (all_place R iszero v). intros k o K. unfold pgraded, ixr. cbn [fst snd]. rewrite Z0, xorb_false_r. pose proof (znth_range' _ _ _ _ K) as [Kr _].
    unfold col_head in K. assert (X := three [sy R QI; sy R QH] (blk R (fun j s => sy R (QR j s)) (zrange m) ++ blk R (fun j s => neg R (sy R (QRD j s))) (zrange m) ++ repeat None (Z.to_nat (4 * (n - m)))) []).
    assert (Y : forall k o, znth ([sy R QI; sy R QH] ++ (blk R (fun j s => sy R (QR j s)) (zrange m) ++ blk R (fun j s => neg R (sy R (QRD j s))) (zrange m) ++ repeat None (Z.to_nat (4 * (n - m)))) ++ []) k = Some o -> parb (oddp n k) o).
    { apply X; [repeat constructor| |constructor|reflexivity|].
      - rewrite !Forall_app. split; [apply all_blk; reflexivity|]. split; [apply all_blk; reflexivity|]. apply Forall_forall. intros x I. apply repeat_spec in I. subst x. exact Logic.I.
      - rewrite !zlen_app, !blk_len, zlen_zrange by lia. unfold zlen. rewrite repeat_length. lia. }
    specialize (Y k o). rewrite app_nil_r, (app_assoc (blk R (fun j s => sy R (QR j s)) (zrange m))), app_assoc in Y. rewrite znth_app1 in Y by (unfold col_head in Kr; lia). specialize (Y K).
    replace (0 + k) with k by lia. destruct o as [[f q]|]; [symmetry; exact Y|exact Logic.I].
  - unfold col_mid, ixr. assert (O : forall r, 2 <= r < 2 + 4 * n -> oddp n r = true) by (intros; now apply odd_yes). repeat (apply Forall_cons; [unfold pgraded; cbn [fst snd QcModel.sy]; rewrite Z0, O by nia; reflexivity|]). constructor.
  - apply (all_place R iszero v). intros k o K. apply znth_range' in K. destruct K as [K I]. unfold pgraded, ixr. cbn [fst snd]. rewrite Z0, odd_high by lia.
    assert (F : Forall (parb false) (col_tail R half iszero m)) by (unfold col_tail; pieces). pose proof (proj1 (Forall_forall _ _) F o I) as P. destruct o as [[f q]|]; [symmetry; exact P|exact Logic.I].
Qed.
Theorem writes_grade : 2 <= n -> forall m, 0 <= m < n -> Forall (pgraded R n) (site_writes R half iszero v symmetrized_p n m).
Proof.
  intros N m H. unfold site_writes. destruct (Z.eqb_spec m 0) as [->|M0].
  - apply (all_place R iszero v). intros k o K. apply rc_par in K; [|lia]. unfold pgraded, ixc. cbn [fst snd]. rewrite (odd_low n 0), xorb_false_l, Z.add_0_l by lia. destruct o as [[f q]|]; [symmetry; exact K|exact Logic.I].
  - destruct (m =? n - 1); [now apply column_grade|]. apply Forall_app. split; [now apply column_grade|]. apply (other_grade R half iszero v symmetrized_p n m H).
Qed.

(** *** operators of the symbols, deflate *)
Notation opdict := (dict qop (opval R)).
Notation get := (dget qop_eqb).
Lemma site_ops_ok : forall m cs d0, (forall f o, In (Some (f, o)) cs -> op_at m (named o) <> None) ->
  exists d, foldM (add_op R half small osym t v m) d0 cs = Some d /\
  (forall o x, get d o = Some x -> get d0 o = Some x \/ op_at m (named o) = Some x) /\
  (forall o, get d0 o <> None -> get d o <> None) /\ (forall f o, In (Some (f, o)) cs -> get d o <> None).
Proof using.
  clear. intros m cs. induction cs as [|c cs IH]; intros d0 H; cbn [foldM].
  - exists d0. repeat split; auto.
  - destruct c as [[f o]|]; cbn [add_op].
    + destruct (op_at m (named o)) as [x|] eqn:E; [|elim (H f o (or_introl eq_refl)); exact E]. cbn [bind].
      destruct (IH (dset qop_eqb d0 o x)) as (d & Ed & A & B & C); [intros g q I; apply (H g q); now right|]. exists d. split; [exact Ed|].
      assert (D : forall q, get (dset qop_eqb d0 o x) q = if qop_eqb o q then Some x else get d0 q) by (intros q; apply (dget_dset qop_eqb qop_eqb_spec)).
      split; [|split].
      * intros q y Y. destruct (A q y Y) as [Z0|Z0]; [|now right]. rewrite D in Z0. destruct (qop_eqb_spec o q) as [<-|]; [injection Z0 as <-; now right|now left].
      * intros q Q. apply B. rewrite D. destruct (qop_eqb o q); [discriminate|exact Q].
      * intros g q [E1|I]; [|now apply (C g)]. injection E1 as <- <-. apply B. rewrite D. destruct (qop_eqb_spec o o); [discriminate|congruence].
    + destruct (IH d0) as (d & Ed & A & B & C); [intros g q I; apply (H g q); now right|]. exists d. split; [exact Ed|]. split; [exact A|]. split; [exact B|]. intros g q [E1|I]; [discriminate|now apply (C g)].
Qed.
Definition eff (d : opdict) (o : qop) : option (opval R) := match get d o with Some x => if no_blocks R x then None else Some x | None => None end.
Definition keep (d : opdict) (c : option fsym) : option fsym := match c with Some (f, o) => match eff d o with Some _ => c | None => None end | None => None end.
Lemma get_del : forall (d : opdict) o q, get (ddel R d o) q = if qop_eqb o q then None else get d q.
Proof using.
  clear. intros d o q. induction d as [|[k x] d IH]; cbn [ddel filter dget fst]; [now destruct (qop_eqb o q)|]. fold (ddel R d o).
  destruct (qop_eqb_spec o k) as [->|N]; cbn [negb].
  - rewrite IH. destruct (qop_eqb k q); reflexivity.
  - cbn [dget]. rewrite IH. destruct (qop_eqb_spec k q) as [->|]; [|reflexivity]. destruct (qop_eqb_spec o q); [congruence|reflexivity].
Qed.
Lemma eff_del : forall d o x, get d o = Some x -> no_blocks R x = true -> forall q, eff (ddel R d o) q = eff d q.
Proof using.
  clear. intros d o x E N q. unfold eff. rewrite get_del. destruct (qop_eqb_spec o q) as [<-|]; [|reflexivity]. now rewrite E, N.
Qed.
Lemma keep_ext : forall d d' c, (forall q, eff d q = eff d' q) -> keep d c = keep d' c.
Proof using. clear. intros d d' [[f o]|] H; [|reflexivity]. cbn. now rewrite H. Qed.
Lemma deflate_ok : forall cs d, snd (deflate_cells R d cs) = map (keep d) cs /\ forall q, eff (fst (deflate_cells R d cs)) q = eff d q.
Proof using.
  clear. induction cs as [|c cs IH]; intros d; [cbn; auto|]. cbn [deflate_cells map].
  assert (G : forall d1 c1, (forall q, eff d1 q = eff d q) -> c1 = keep d c ->
    snd (let '(d2, cs2) := deflate_cells R d1 cs in (d2, c1 :: cs2)) = keep d c :: map (keep d) cs /\ forall q, eff (fst (let '(d2, cs2) := deflate_cells R d1 cs in (d2, c1 :: cs2))) q = eff d q).
  { intros d1 c1 E1 E2. destruct (IH d1) as [A B]. destruct (deflate_cells R d1 cs) as [d2 cs2]. cbn [fst snd] in *. split; [|intros q; now rewrite B, E1]. rewrite E2, A. f_equal. apply map_ext. intros x. now apply keep_ext. }
  destruct c as [[f o]|]; [|apply G; reflexivity]. destruct (get d o) as [x|] eqn:E; [|apply G; [reflexivity|]; cbn; unfold eff; now rewrite E].
  destruct (no_blocks R x) eqn:N; apply G; try reflexivity; [now apply (eff_del d o x)| |]; cbn; unfold eff; now rewrite E, N.
Qed.

(** *** labels *)
Definition bond (k : Z) : list (option fsym) := if (k =? 0) || (k =? n) then [sy R QH] else rc k.
Definition lab_of (c : option fsym) : SZ := match c with Some (_, o) => q_label osym o | None => sz_zero end.
Definition clab (k : Z) : list SZ := map lab_of (bond k).
Lemma labels_some : forall l, (forall c, In c l -> c <> None) -> labels_of R osym l = Some (map lab_of l).
Proof using.
  clear. induction l as [|[[f o]|] l IH]; intros H; [reflexivity| |elim (H None (or_introl eq_refl)); reflexivity].
  unfold labels_of in *. cbn [mapM option_map snd bind]. rewrite IH; [reflexivity|]. intros c I. apply H. now right.
Qed.
Hypothesis N2 : 2 <= n.
Hypothesis half_ok : iszero half = false.
Lemma opp_labs : forall k, map lab_of (lc k) = map sz_neg (map lab_of (rc k)) /\ (forall c, In c (lc k) -> c <> None) /\ (forall c, In c (rc k) -> c <> None).
Proof.
  intros k. pose proof (bond_opposite R half iszero v n osym half_ok k) as F. induction F as [|a b la lb (x & p & y & q & -> & -> & E) F IH]; [cbn; auto|].
  destruct IH as (A & B & C). cbn [map lab_of]. split; [now rewrite E, A|]. split; intros c [<-|I]; try discriminate; auto.
Qed.
Lemma site_labels : forall m, 0 <= m < n ->
  labels_of R osym (if m =? 0 then [sy R QH] else lc m) = Some (map sz_neg (clab m)) /\
  labels_of R osym (if m =? n - 1 then [sy R QH] else rc (m + 1)) = Some (clab (m + 1)).
Proof.
  intros m H. unfold clab, bond. split.
  - destruct (Z.eqb_spec m 0); [reflexivity|]. replace (m =? n) with false by lia. cbn [orb]. destruct (opp_labs m) as (A & B & _). rewrite labels_some by exact B. now rewrite A.
  - replace (m + 1 =? 0) with false by lia. replace (m + 1 =? n) with (m =? n - 1) by lia. cbn [orb]. destruct (m =? n - 1); [reflexivity|]. apply labels_some. apply (opp_labs (m + 1)).
Qed.
Lemma clab_len : forall k, 0 <= k <= n -> Z.of_nat (length (clab k)) = if (k =? 0) || (k =? n) then 1 else 2 + 4 * n + 12 * k * k.
Proof.
  intros k H. unfold clab, bond. rewrite map_length. destruct (_ || _); [reflexivity|]. apply (rc_len R half iszero n). lia.
Qed.
Lemma clab_par : forall k r, 0 <= k <= n -> (r < length (clab k))%nat -> sz_is_fermion (nth r (clab k) sz_zero) = oddp n (Z.of_nat r).
Proof.
  intros k r H Hr. unfold clab in *. rewrite map_length in Hr. change sz_zero with (lab_of None). rewrite map_nth.
  destruct (nth_error (bond k) r) as [c|] eqn:E; [|apply nth_error_None in E; lia]. rewrite (nth_error_nth _ _ _ E). unfold bond in E.
  destruct ((k =? 0) || (k =? n)) eqn:B.
  - destruct r as [|[|r]]; cbn in E; try discriminate. injection E as <-. symmetry. apply odd_low. cbn. lia.
  - destruct c as [[f o]|].
    + cbn [lab_of]. rewrite fer_label. apply (rc_par k H (Z.of_nat r) (Some (f, o))). unfold znth. replace (Z.of_nat r <? 0) with false by lia. now rewrite Nat2Z.id.
    + exfalso. apply nth_error_In in E. now apply (proj2 (proj2 (opp_labs k)) None).
Qed.

(** *** the table of a site *)
Definition tn (p : Z * Z) : nat * nat := (Z.to_nat (fst p), Z.to_nat (snd p)).
Lemma combine_maps : forall (A B C : Type) (f : A -> B) (g : A -> C) l, combine (map f l) (map g l) = map (fun x => (f x, g x)) l.
Proof using. clear. induction l as [|x l IH]; [reflexivity|]. cbn. now rewrite IH. Qed.
Definition kept (d : opdict) (ws : list wr) : list ((nat * nat) * fsym) := flat_map (present R qop) (combine (map tn (map fst ws)) (map (keep d) (map snd ws))).
Lemma in_kept : forall d ws c, In c (kept d ws) -> exists w f o x, In w ws /\ snd w = Some (f, o) /\ eff d o = Some x /\ c = (tn (fst w), (f, o)).
Proof using.
  clear. intros d ws c I. unfold kept in I. rewrite !map_map, combine_maps in I. apply in_flat_map in I. destruct I as (e & I & J). apply in_map_iff in I. destruct I as (w & <- & I). unfold present in J. cbn [fst snd] in J.
  destruct (snd w) as [[f o]|] eqn:E; cbn [keep] in J; [|destruct J]. destruct (eff d o) as [x|] eqn:Ex; [|destruct J]. destruct J as [<-|[]]. exists w, f, o, x. auto.
Qed.
Lemma kept_entries : forall m ws d d' es, deflate R half small osym t v m ws = Some es -> (forall w, In w ws -> 0 <= fst (fst w) /\ 0 <= snd (fst w)) ->
  (forall f o, In (Some (f, o)) (map snd ws) -> get d o = op_at m (named o)) -> (forall q, eff d' q = eff d q) ->
  flat_map (ent_of R qop qop_eqb d') (kept d ws) = es.
Proof using.
  clear. intros m ws d d' es E B G F. revert es E. induction ws as [|w ws IH]; intros es E; unfold deflate in *; cbn [mapM bind] in E; [injection E as <-; reflexivity|].
  destruct (deflate_one R half small osym t v m w) as [l|] eqn:E1; cbn [bind] in E; [|discriminate]. destruct (mapM (deflate_one R half small osym t v m) ws) as [ls|]; cbn [bind] in E; [|discriminate]. injection E as <-. cbn [concat].
  unfold kept. cbn [map combine flat_map]. fold (kept d ws). rewrite flat_map_app. f_equal.
  - destruct (B w (or_introl eq_refl)) as [B1 B2]. unfold deflate_one in E1. unfold present. cbn [fst snd]. destruct (snd w) as [[f o]|] eqn:Ew; cbn [keep]; [|injection E1 as <-; reflexivity].
    assert (Go : get d o = op_at m (named o)) by (apply (G f); cbn [map]; left; exact Ew). pose proof (F o) as Fo. unfold eff in Fo |- *. rewrite Go in Fo |- *. destruct (op_at m (named o)) as [[|x]|]; cbn [bind no_blocks] in *; [injection E1 as <-; reflexivity| |discriminate].
    destruct (Nat.eqb (length (f_odd R x) + length (f_even R x)) 0) eqn:Nb; injection E1 as <-; [reflexivity|]. cbn [flat_map]. rewrite app_nil_r. unfold ent_of. cbn [fst snd].
    destruct (get d' o) as [y|]; [|discriminate]. destruct (no_blocks R y); [discriminate|]. injection Fo as ->. unfold tn. cbn [fst snd]. rewrite !Z2Nat.id by assumption. destruct w as [[r c] ?]. reflexivity.
  - apply IH; [intros w' I; apply B; now right|intros f o I; apply (G f); cbn [map]; now right|reflexivity].
Qed.
Lemma fst_place : forall ix (l : list (option fsym)) k, map fst (QcProg.place R ix (Z.of_nat k) l) = map ix (map Z.of_nat (seq k (length l))).
Proof using.
  clear. intros ix. induction l as [|c l IH]; intros k; [reflexivity|]. cbn [QcProg.place map length seq fst]. f_equal. replace (Z.of_nat k + 1) with (Z.of_nat (S k)) by lia. apply IH.
Qed.
Lemma fst_place0 : forall ix (l : list (option fsym)), map fst (QcProg.place R ix 0 l) = map ix (map Z.of_nat (seq 0 (length l))).
Proof using. clear. intros ix l. exact (fst_place ix l 0). Qed.
Lemma len_place : forall ix (l : list (option fsym)), length (QcProg.place R ix 0 l) = length l.
Proof using. clear. intros ix l. transitivity (length (map fst (QcProg.place R ix 0 l))); [now rewrite map_length|]. rewrite fst_place0, !map_length. apply seq_length. Qed.
Lemma vec_row : forall (cs : list (option fsym)) k, map (fun p : nat * option fsym => ((0%nat, fst p), snd p)) (combine (seq k (length cs)) cs) = combine (map tn (map ixc (map Z.of_nat (seq k (length cs))))) cs.
Proof using.
  clear. induction cs as [|c cs IH]; intros k; [reflexivity|]. cbn [length seq combine map]. rewrite IH. f_equal. f_equal. unfold tn, ixc. cbn [fst snd]. now rewrite Nat2Z.id.
Qed.
Lemma vec_col : forall (cs : list (option fsym)) k, map (fun p : nat * option fsym => ((fst p, 0%nat), snd p)) (combine (seq k (length cs)) cs) = combine (map tn (map ixr (map Z.of_nat (seq k (length cs))))) cs.
Proof using.
  clear. induction cs as [|c cs IH]; intros k; [reflexivity|]. cbn [length seq combine map]. rewrite IH. f_equal. f_equal. unfold tn, ixr. cbn [fst snd]. now rewrite Nat2Z.id.
Qed.
Lemma mat_present : forall l : list ((nat * nat) * option fsym), flat_map (present R qop) (filter (fun e => match snd e with Some _ => true | None => false end) l) = flat_map (present R qop) l.
Proof using. clear. induction l as [|[p [c|]] l IH]; [reflexivity| |]; cbn; now rewrite IH. Qed.
Lemma shape_entries : forall m d, 0 <= m < n -> let ws := site_writes R half iszero v symmetrized_p n m in
  entries R qop (shape_mat R n m (map fst ws) (map (keep d) (map snd ws))) = kept d ws.
Proof.
  intros m d H ws. unfold shape_mat, kept. subst ws. destruct (Z.eqb_spec m 0) as [->|M0]; [|destruct (Z.eqb_spec m (n - 1)) as [M1|M1]].
  - unfold site_writes. cbn [Z.eqb]. cbn [entries]. f_equal. unfold numbered. rewrite vec_row. rewrite fst_place0, !map_length, len_place. reflexivity.
  - unfold site_writes. replace (m =? 0) with false by lia. replace (m =? n - 1) with true by lia. rewrite (last_column R half iszero v n) by lia. cbn [entries]. f_equal. unfold numbered. rewrite vec_col. rewrite fst_place0, !map_length, len_place. reflexivity.
  - cbn [entries]. apply mat_present.
Qed.
Lemma qc_site_eq : forall m, 0 <= m < n -> qc_site R half iszero v symmetrized_p n m = Some (mkSite R
     (if m =? 0 then 1 else lshape n m) (if m =? n - 1 then 1 else rshape n m) (site_writes R half iszero v symmetrized_p n m)
     (if m =? 0 then [sy R QH] else lc m) (if m =? n - 1 then [sy R QH] else rc (m + 1))).
Proof. intros k K. unfold qc_site. rewrite (site_mat_eq R half iszero v symmetrized_p n N2 k K), (site_lop_eq R half iszero n k K), (site_rop_eq R half iszero n k K). reflexivity. Qed.

Theorem site_tab : forall m es, 0 <= m < n -> tensor_of R half small iszero osym t v symmetrized_p n m = Some es ->
  exists y, qc_stab R half small iszero osym t v symmetrized_p n m = Some y /\ ents R qop qop_eqb y = es /\
  fit_tab R qop qop_eqb (osym m) y /\ yrows R qop y = map sz_neg (clab m) /\ ycols R qop y = clab (m + 1).
Proof.
  intros m es H E. unfold tensor_of in E. unfold qc_stab. rewrite (qc_site_eq m H) in E |- *. cbn [bind s_mat s_lop s_rop] in E |- *.
  set (ws := site_writes R half iszero v symmetrized_p n m) in *. destruct (site_labels m H) as [LL LR]. pose proof (writes_in R half iszero v symmetrized_p n N2 m H) as WI. pose proof (writes_grade N2 m H) as WG. fold ws in WI, WG. rewrite Forall_forall in WI, WG.
  assert (Av : forall f o, In (Some (f, o)) (map snd ws) -> op_at m (named o) <> None).
  { intros f o I X. unfold deflate in E. destruct (mapM (deflate_one R half small osym t v m) ws) as [l|] eqn:El; [|discriminate]. clear - I X El. revert l El. induction ws as [|w ws IH]; intros l El; [destruct I|]. cbn [mapM] in El.
    destruct (deflate_one R half small osym t v m w) as [a|] eqn:E1; cbn [bind] in El; [|discriminate]. destruct (mapM (deflate_one R half small osym t v m) ws) as [ls|] eqn:E2; cbn [bind] in El; [|discriminate]. cbn [map] in I. destruct I as [Ew|I]; [|exact (IH I ls eq_refl)]. unfold deflate_one in E1. rewrite Ew, X in E1. discriminate. }
  destruct (site_ops_ok m (map snd ws) [] Av) as (d & Ed & D1 & _ & D3). unfold site_ops. rewrite Ed. cbn [bind].
  assert (Gd : forall f o, In (Some (f, o)) (map snd ws) -> get d o = op_at m (named o)).
  { intros f o I. specialize (D3 f o I). destruct (get d o) as [x|] eqn:Ex; [|congruence]. destruct (D1 o x Ex) as [Y|Y]; [discriminate|now rewrite Y]. }
  destruct (deflate_ok (map snd ws) d) as [K1 K2]. destruct (deflate_cells R d (map snd ws)) as [d' cs]. cbn [fst snd] in K1, K2. subst cs. rewrite LL, LR. cbn [bind].
  eexists. split; [reflexivity|].
  assert (SE : entries R qop (shape_mat R n m (map fst ws) (map (keep d) (map snd ws))) = kept d ws) by (apply shape_entries; exact H).
  set (y := mkStab R qop (shape_mat R n m (map fst ws) (map (keep d) (map snd ws))) d' (map sz_neg (clab m)) (clab (m + 1))).
  assert (Yr : yrows R qop y = map sz_neg (clab m)).
  { unfold yrows, y. cbn [y_mat y_lop]. unfold shape_mat. destruct (Z.eqb_spec m 0) as [->|]; [reflexivity|]. destruct (m =? n - 1); reflexivity. }
  assert (Yc : ycols R qop y = clab (m + 1)).
  { unfold ycols, y. cbn [y_mat y_rop]. unfold shape_mat. destruct (Z.eqb_spec m 0) as [->|]; [reflexivity|]. destruct (Z.eqb_spec m (n - 1)) as [->|]; [|reflexivity]. cbn [cols]. unfold clab, bond. replace (n - 1 + 1) with n by lia. rewrite Z.eqb_refl, orb_true_r. reflexivity. }
  assert (Ye : yents R qop y = kept d ws) by exact SE.
  split; [|split; [|split; [exact Yr|exact Yc]]].
  - unfold ents. rewrite Ye. apply (kept_entries m ws d d' es E); [|exact Gd|exact K2]. intros w I. destruct (WI w I) as (A & B & _). lia.
  - intros c I. rewrite Ye in I. destruct (in_kept d ws c I) as (w & f & o & x & Iw & Sw & Ex & ->). cbn [fst snd]. rewrite Yr, Yc. destruct (WI w Iw) as (A & B & _). pose proof (WG w Iw) as G. unfold pgraded in G. rewrite Sw in G.
    assert (La : (fst (tn (fst w)) < length (clab m))%nat).
    { pose proof (clab_len m ltac:(lia)) as X. unfold tn. cbn [fst]. replace (m =? n) with false in X by lia. rewrite orb_false_r in X. unfold lshape in A. destruct (m =? 0); lia. }
    assert (Lb : (snd (tn (fst w)) < length (clab (m + 1)))%nat).
    { pose proof (clab_len (m + 1) ltac:(lia)) as X. unfold tn. cbn [snd]. replace (m + 1 =? 0) with false in X by lia. replace (m + 1 =? n) with (m =? n - 1) in X by lia. cbn [orb] in X. unfold rshape in B. destruct (m =? n - 1); lia. }
    rewrite map_length. split; [exact La|]. split; [exact Lb|]. exists x. assert (Ex' : eff d' o = Some x) by (now rewrite K2). unfold eff in Ex'. cbn [y_ops y]. destruct (get d' o) as [x1|]; [|discriminate]. destruct (no_blocks R x1) eqn:Nb; [discriminate|]. injection Ex' as ->. split; [reflexivity|].
    destruct x as [|z]; [discriminate|]. assert (Oz : op_at m (named o) = Some (Op R z)).
    { rewrite <- (Gd f o) by (rewrite <- Sw; now apply in_map). unfold eff in Ex. destruct (get d o) as [x2|]; [|discriminate]. destruct (no_blocks R x2); [discriminate|]. exact Ex. }
    destruct (op_fit m o z Oz) as [Ok On]. split; [exact Ok|]. intros odd Od.
    assert (Pr : sz_is_fermion (nth (fst (tn (fst w))) (map sz_neg (clab m)) sz_zero) = oddp n (fst (fst w))).
    { change sz_zero with (sz_neg sz_zero) at 1. rewrite map_nth. replace (sz_is_fermion (sz_neg (nth (fst (tn (fst w))) (clab m) sz_zero))) with (sz_is_fermion (nth (fst (tn (fst w))) (clab m) sz_zero)).
      - rewrite clab_par by (lia || exact La). unfold tn. cbn [fst]. now rewrite Z2Nat.id by lia.
      - destruct (nth (fst (tn (fst w))) (clab m) sz_zero) as [a b p]. unfold sz_neg, sz_is_fermion. cbn [sz_n]. clear. apply eq_true_iff_eq. rewrite !Z.eqb_eq. Z.div_mod_to_equations. lia. }
    assert (Pc : sz_is_fermion (nth (snd (tn (fst w))) (clab (m + 1)) sz_zero) = oddp n (snd (fst w))).
    { rewrite clab_par by (lia || exact Lb). unfold tn. cbn [snd]. now rewrite Z2Nat.id by lia. }
    transitivity (xorb (oddp n (fst (fst w))) (oddp n (snd (fst w)))); [exact (f_equal2 xorb Pr Pc)|]. rewrite G. unfold only in On. destruct (sym_par o), odd; try reflexivity; cbn [negb] in On; congruence.
Qed.

(** *** all sites *)
Lemma clab_ends : clab 0 = [sz_zero] /\ clab n = [sz_zero].
Proof. unfold clab, bond. split; [reflexivity|]. rewrite Z.eqb_refl, orb_true_r. reflexivity. Qed.
Lemma tabs_linked : forall k i ess, i + Z.of_nat k = n -> 0 <= i ->
  mapM (tensor_of R half small iszero osym t v symmetrized_p n) (map (fun j => i + Z.of_nat j) (seq 0 k)) = Some ess ->
  exists ys, mapM (qc_stab R half small iszero osym t v symmetrized_p n) (map (fun j => i + Z.of_nat j) (seq 0 k)) = Some ys /\
  map (ents R qop qop_eqb) ys = ess /\ linked R qop qop_eqb osym i (clab i) ys /\ map (ycols R qop) ys = map clab (map (fun j => i + 1 + Z.of_nat j) (seq 0 k)).
Proof.
  induction k as [|k IH]; intros i ess E I M.
  - cbn [seq map mapM] in *. injection M as <-. exists []. repeat split. cbn [linked]. replace i with n by lia. apply clab_ends.
  - cbn [seq map mapM] in M |- *. rewrite <- seq_shift, map_map in M |- *. replace (i + Z.of_nat 0) with i in M |- * by lia.
    assert (X : forall a, map (fun j => a + Z.of_nat (S j)) (seq 0 k) = map (fun j => a + 1 + Z.of_nat j) (seq 0 k)) by (intros a; apply map_ext; intros; lia). rewrite X in M |- *.
    destruct (tensor_of R half small iszero osym t v symmetrized_p n i) as [es|] eqn:Ei; cbn [bind] in M; [|discriminate].
    destruct (mapM (tensor_of R half small iszero osym t v symmetrized_p n) (map (fun j => i + 1 + Z.of_nat j) (seq 0 k))) as [es'|] eqn:Em; cbn [bind] in M; [|discriminate]. injection M as <-.
    destruct (IH (i + 1) es' ltac:(lia) ltac:(lia) Em) as (ys & Ey & En & Lk & Cl). destruct (site_tab i es ltac:(lia) Ei) as (y & Es & Ee & Fy & Yr & Yc).
    exists (y :: ys). rewrite Es, Ey. cbn [bind map]. split; [reflexivity|]. split; [now rewrite Ee, En|]. split; [|rewrite Yc, Cl; f_equal; [f_equal; lia|]; rewrite <- ?seq_shift, ?map_map; apply map_ext; intros; f_equal; lia].
    cbn [linked]. split; [exact Fy|]. split; [exact Yr|]. rewrite Yc. exact Lk.
Qed.
Theorem qc_linked : forall ess, qc_mpo R half small iszero osym t v symmetrized_p n = Some ess ->
  exists ys, mapM (qc_stab R half small iszero osym t v symmetrized_p n) (zrange n) = Some ys /\ length ys = Z.to_nat n /\
  map (ents R qop qop_eqb) ys = ess /\ linked R qop qop_eqb osym 0 [sz_zero] ys /\ map (ycols R qop) ys = map (fun k => clab (k + 1)) (zrange n).
Proof.
  intros ess E. assert (X : zrange n = map (fun j => 0 + Z.of_nat j) (seq 0 (Z.to_nat n))) by (unfold zrange; apply map_ext; intros; lia).
  unfold qc_mpo in E. rewrite X in E |- *. destruct (tabs_linked (Z.to_nat n) 0 ess ltac:(lia) ltac:(lia) E) as (ys & Ey & En & Lk & Cl). exists ys. split; [exact Ey|]. rewrite (proj1 clab_ends) in Lk.
  split; [|split; [exact En|split; [exact Lk|]]].
  - apply (f_equal (@length _)) in Cl. rewrite !map_length, seq_length in Cl. exact Cl.
  - rewrite Cl, !map_map. apply map_ext. intros. f_equal. lia.
Qed.
End Proofs.
