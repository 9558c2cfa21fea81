(** Trace of a fermion tensor: subscripts, single-operand einsum, elements of the result. *)
From Coq Require Import ZArith Bool List Lia Permutation Sorted Ring.
From Verif Require Import FermOpsModel FermOpsProofs SymModel SymProofs DictLib OptLib IndexLib RingLib BondModel FuseModel FuseProofs
  BlockModel BlockProofs SignModel SignProofs SignProps BlockProps FermTModel FermTProofs FermNetProofs.
Import ListNotations.
Open Scope Z_scope.

(* the letter of position x: the partner for the second leg of a pair *)
Fixpoint repl (P : list (Z * Z)) (x : Z) : Z :=
  match P with [] => x | (i, j) :: P' => if x =? j then i else repl P' x end.
Lemma repl_out : forall P x, ~ In x (map snd P) -> repl P x = x.
Proof.
  induction P as [|[i j] P IH]; intros x H; cbn in *; [reflexivity|]. destruct (Z.eqb_spec x j); [subst; tauto|]. apply IH. tauto.
Qed.
Lemma repl_in : forall P i j, NoDup (map snd P) -> In (i, j) P -> repl P j = i.
Proof.
  induction P as [|[i' j'] P IH]; intros i j N H; [destruct H|]. cbn in *. inversion N; subst. destruct H as [E|H].
  - injection E as <- <-. now rewrite Z.eqb_refl.
  - destruct (Z.eqb_spec j j'); [|auto]. subst. exfalso. apply (in_map snd) in H. auto.
Qed.
Lemma repl_cases : forall P x, repl P x = x \/ exists i, In (i, x) P /\ repl P x = i.
Proof.
  induction P as [|[i j] P IH]; intros x; cbn; [auto|]. destruct (Z.eqb_spec x j) as [->|N].
  - right. exists i. auto.
  - destruct (IH x) as [E|(i' & H & E)]; [auto|]. right. exists i'. auto.
Qed.
Lemma repl_snoc : forall P i j x, ~ In j (map snd P) -> ~ In j (map fst P) -> (if repl P x =? j then i else repl P x) = repl (P ++ [(i, j)]) x.
Proof.
  induction P as [|[i' j'] P IH]; intros i j x H H'; cbn in *; [reflexivity|]. destruct (Z.eqb_spec x j') as [->|N].
  - destruct (Z.eqb_spec i' j); [subst; tauto|reflexivity].
  - apply IH; tauto.
Qed.

Lemma filter_twice : forall A (f g : A -> bool) l, filter f (filter g l) = filter (fun x => g x && f x) l.
Proof. intros A f g. induction l as [|x l IH]; cbn; [reflexivity|]. destruct (g x); cbn; [destruct (f x); now rewrite IH|exact IH]. Qed.
Lemma combine_parts : forall (P : list (Z * Z)), combine (map fst P) (map snd P) = P.
Proof. induction P as [|[i j] P IH]; cbn; [reflexivity|]. now rewrite IH. Qed.

Lemma in_shape_map : forall (f x : Z -> Z) l, in_shape (map f l) (map x l) <-> forall c, In c l -> 0 <= x c < f c.
Proof.
  intros f x l. unfold in_shape. induction l as [|c l IH]; cbn [map]; [split; [intros _ ? []|constructor]|]. split.
  - intros H. inversion H; subst. intros d [<-|Hd]; [assumption|]. apply IH; assumption.
  - intros H. constructor; [apply H; now left|]. apply IH. intros d Hd. apply H. now right.
Qed.

Section Local.
Variable n : Z.
Variable P : list (Z * Z).
Hypothesis PL : forall i j, In (i, j) P -> 0 <= i < j /\ j < n.
Hypothesis NP : NoDup (names P).

Lemma names_nodup_parts : forall Q, NoDup (names Q) -> NoDup (map fst Q) /\ NoDup (map snd Q) /\ forall x, In x (map fst Q) -> ~ In x (map snd Q).
Proof.
  intros Q H. assert (N : NoDup (map fst Q ++ map snd Q)) by (eapply Permutation_NoDup; [apply names_perm2|exact H]).
  revert N. generalize (map fst Q) (map snd Q). induction l as [|x l IH]; intros l' N; cbn in *; [split; [constructor|split; [auto|tauto]]|].
  inversion N; subst. destruct (IH l' H3) as (A & B & C). rewrite in_app_iff in H2. split; [constructor; tauto|]. split; [auto|].
  intros y [<-|Hy]; [tauto|now apply C].
Qed.
Lemma trace_loop : forall Q1 Q2, P = Q1 ++ Q2 ->
  fold_left trace_step Q2 (map fst Q1, map snd Q1, map (repl Q1) (zrange n), without (names Q1) (zrange n), names Q1)
  = (map fst P, map snd P, map (repl P) (zrange n), without (names P) (zrange n), names P).
Proof.
  intros Q1 Q2. revert Q1. induction Q2 as [|[i j] Q2 IH]; intros Q1 E; cbn [fold_left]; [rewrite app_nil_r in E; now rewrite E|].
  rewrite <- (IH (Q1 ++ [(i, j)])) by (rewrite <- app_assoc; exact E). f_equal.
  destruct (PL i j) as [Hij Hj]; [rewrite E; apply in_or_app; right; now left|].
  assert (N1 : ~ In i (names Q1) /\ ~ In j (names Q1)).
  { rewrite E, names_app in NP. change (names ((i, j) :: Q2)) with (i :: j :: names Q2) in NP.
    split; intro F.
    - apply (NoDup_remove_2 _ _ _ NP). apply in_or_app. now left.
    - apply NoDup_remove_1 in NP. apply (NoDup_remove_2 _ _ _ NP). apply in_or_app. now left. }
  assert (F1 : forall x, In x (map fst Q1) -> In x (names Q1)) by (intros x H; apply in_map_iff in H; destruct H as (p & <- & H); apply in_names; exists p; auto).
  assert (S1 : forall x, In x (map snd Q1) -> In x (names Q1)) by (intros x H; apply in_map_iff in H; destruct H as (p & <- & H); apply in_names; exists p; auto).
  unfold trace_step. cbn [fst snd]. rewrite Z.min_l, Z.max_r by lia.
  rewrite !nth_zrange_map by lia. destruct N1 as [Ni Nj]. rewrite (repl_out Q1 i), (repl_out Q1 j) by auto.
  rewrite !map_app, names_app. cbn [map fst snd names flat_map app].
  assert (E1 : sub_replace j i (map (repl Q1) (zrange n)) = map (repl (Q1 ++ [(i, j)])) (zrange n)).
  { unfold sub_replace. rewrite map_map. apply map_ext. intros x. apply repl_snoc; auto. }
  assert (E2 : sub_remove j (sub_remove i (without (names Q1) (zrange n))) = without (names Q1 ++ [i; j]) (zrange n)).
  { unfold sub_remove, without. rewrite !filter_twice. apply filter_ext. intros x. unfold memZ. rewrite existsb_app. cbn [existsb].
    destruct (existsb (Z.eqb x) (names Q1)), (x =? i), (x =? j); reflexivity. }
  rewrite E1, E2. reflexivity.
Qed.
Lemma trace_pre : forall pat, trace_preprocess n pat (map fst P) (map snd P) =
  (map fst P, map snd P, map (repl P) (zrange n), without (names P) (zrange n), names P, without (names P) (zrange n), pick false (without (names P) (zrange n)) pat).
Proof.
  intros pat. unfold trace_preprocess. rewrite combine_parts. 
  pose proof (trace_loop [] P eq_refl) as T. cbn [map names flat_map app] in T. 
  assert (Z0 : map (repl []) (zrange n) = zrange n) by apply map_id. rewrite Z0 in T.
  assert (W0 : without [] (zrange n) = zrange n) by (unfold without; cbn; clear; induction (zrange n); cbn; congruence). rewrite W0 in T. rewrite T.
  assert (O : filter (fun ix => negb (memZ ix (map fst P ++ map snd P))) (zrange n) = without (names P) (zrange n)).
  { unfold without. apply filter_ext. intros x. f_equal. apply eq_iff_eq_true. rewrite !memZ_in. split; apply Permutation_in; [apply Permutation_sym|]; apply names_perm2. }
  rewrite O. reflexivity.
Qed.

(** *** einsum *)
Variable sh : list Z.
Hypothesis Lsh : Z.of_nat (length sh) = n.
Hypothesis Dsh : forall i j, In (i, j) P -> nth (Z.to_nat i) sh 0 = nth (Z.to_nat j) sh 0.
Notation dim := (fun c => nth (Z.to_nat c) sh 0).

Lemma letter_loop : forall m, 0 <= m <= n ->
  foldM (fun d e => match dget Z.eqb d (fst e) with
                    | Some s => if s =? snd e then Some d else None
                    | None => Some (dset Z.eqb d (fst e) (snd e))
                    end) [] (map (fun c => (repl P c, dim c)) (zrange m)) = Some (map (fun c => (c, dim c)) (without (map snd P) (zrange m))).
Proof.
  intros m Hm. destruct (names_nodup_parts P NP) as (NF & NS & FS).
  assert (G : forall k : nat, (Z.of_nat k <= n) -> foldM (fun d e => match dget Z.eqb d (fst e) with
                    | Some s => if s =? snd e then Some d else None
                    | None => Some (dset Z.eqb d (fst e) (snd e))
                    end) [] (map (fun c => (repl P c, dim c)) (zrange (Z.of_nat k))) = Some (map (fun c => (c, dim c)) (without (map snd P) (zrange (Z.of_nat k))))).
  2:{ specialize (G (Z.to_nat m)). rewrite Z2Nat.id in G by lia. apply G. lia. }
  induction k as [|k IH]; intros Hk; [reflexivity|].
  replace (Z.of_nat (S k)) with (Z.of_nat k + 1) by lia. rewrite zrange_succ by lia. rewrite map_app, foldM_app, IH by lia. cbn [bind map foldM fst snd].
  set (x := Z.of_nat k) in *.
  assert (W : without (map snd P) (zrange x ++ [x]) = without (map snd P) (zrange x) ++ (if memZ x (map snd P) then [] else [x])).
  { unfold without. rewrite filter_app. cbn [filter]. destruct (memZ x (map snd P)); reflexivity. }
  rewrite W, map_app.
  assert (ND : NoDup (keys (map (fun c => (c, dim c)) (without (map snd P) (zrange x))))).
  { unfold keys. rewrite map_map. cbn. rewrite map_id. apply NoDup_filter, zrange_nodup. }
  destruct (memZ x (map snd P)) eqn:M.
  - apply memZ_in in M. apply in_map_iff in M. destruct M as ([i j] & Ej & H). cbn in Ej. subst j. rewrite (repl_in P i x NS H).
    destruct (PL i x H) as [Hi _].
    rewrite (in_dget Z.eqb Z.eqb_spec _ i (dim i)); [|exact ND|].
    + rewrite (Dsh i x H), Z.eqb_refl. cbn [bind map]. now rewrite app_nil_r.
    + apply in_map_iff. exists i. split; [reflexivity|]. apply in_without. split; [apply in_zrange; lia|]. apply FS. now apply (in_map fst) in H.
  - assert (NM : ~ In x (map snd P)) by (rewrite <- memZ_in, M; discriminate). rewrite repl_out by auto.
    assert (NK : ~ In x (keys (map (fun c => (c, dim c)) (without (map snd P) (zrange x))))).
    { unfold keys. rewrite map_map. cbn. rewrite map_id. rewrite in_without, in_zrange. lia. }
    destruct (dget Z.eqb _ x) eqn:G.
    + exfalso. apply NK. apply (dget_in Z.eqb Z.eqb_spec) in G. now apply (in_map fst) in G.
    + cbn [bind map]. rewrite (dset_fresh Z.eqb Z.eqb_spec) by exact NK. reflexivity.
Qed.
Definition firsts : list Z := filter (fun c => negb (memZ c (without (names P) (zrange n)))) (without (map snd P) (zrange n)).
Lemma firsts_perm : Permutation firsts (map fst P).
Proof using PL NP.
  clear Dsh Lsh sh.
  destruct (names_nodup_parts P NP) as (NF & NS & FS).
  apply NoDup_Permutation; [apply NoDup_filter, NoDup_filter, zrange_nodup|exact NF|]. intros x. unfold firsts.
  change (filter (fun c => negb (memZ c ?w)) ?l) with (without w l). rewrite !in_without, in_zrange. split.
  - intros ((H1 & H2) & H3). destruct (in_dec Z.eq_dec x (names P)) as [K|K]; [|tauto]. apply in_names in K. destruct K as (p & K & [->| ->]).
    + now apply in_map.
    + exfalso. apply H2. now apply in_map.
  - intros H. pose proof H as H'. apply in_map_iff in H. destruct H as ([i j] & <- & H). destruct (PL i j H). cbn [fst] in *. split; [split; [lia|now apply FS]|].
    intros [_ K]. apply K. apply in_names. exists (i, j). auto.
Qed.
Lemma look_map : forall (f : Z -> Z) ls c, In c ls -> look ls (map f ls) c = f c.
Proof.
  intros f ls c H. unfold look. destruct (index_of c ls) as [k|] eqn:E.
  - apply index_of_some in E. rewrite (nth_indep _ 0 (f 0)) by (rewrite map_length; tauto). rewrite map_nth. f_equal. tauto.
  - apply index_of_none in E. tauto.
Qed.

Variable R : CRing.
Lemma einsum_ok : forall (a : nd R), nshape a = sh -> exists e, nd_einsum1 (map (repl P) (zrange n)) (without (names P) (zrange n)) a = Some e /\
  nshape e = map dim (without (names P) (zrange n)) /\
  forall P' x, Permutation P P' -> map fst P' = firsts ->
  nget e (map x (without (names P) (zrange n))) =
  bsum (all_idx (map dim (map fst P'))) (fun ys => nget a (map (updl x P' ys) (zrange n))).
Proof.
  intros a Ea. unfold nd_einsum1, letter_dims. rewrite Ea.
  assert (C : combine (map (repl P) (zrange n)) sh = map (fun c => (repl P c, dim c)) (zrange n)).
  { rewrite <- (pick_all Z 0 sh) at 1. rewrite Lsh. unfold pick. apply combine_map_map. }
  rewrite C, letter_loop by lia. cbn [bind]. rewrite map_map. cbn [fst]. rewrite map_id. fold firsts. eexists. split; [reflexivity|].
  set (K := without (names P) (zrange n)).
  destruct (names_nodup_parts P NP) as (NF & NS & FS).
  assert (DG : forall c, 0 <= c < n -> ~ In c (map snd P) ->
     dget Z.eqb (map (fun c0 => (c0, dim c0)) (without (map snd P) (zrange n))) c = Some (dim c)).
  { intros c Hc Hs. apply (in_dget Z.eqb Z.eqb_spec).
    - unfold keys. rewrite map_map. cbn. rewrite map_id. apply NoDup_filter, zrange_nodup.
    - apply in_map_iff. exists c. split; [reflexivity|]. apply in_without. rewrite in_zrange. auto. }
  assert (DK : forall l, (forall c, In c l -> 0 <= c < n /\ ~ In c (map snd P)) ->
    map (fun c => match dget Z.eqb (map (fun c0 => (c0, dim c0)) (without (map snd P) (zrange n))) c with Some s => s | None => 0 end) l = map dim l).
  { intros l H. apply map_ext_in. intros c Hc. destruct (H c Hc). now rewrite DG. }
  assert (HK : forall c, In c K -> 0 <= c < n /\ ~ In c (map snd P)).
  { intros c Hc. unfold K in Hc. rewrite in_without, in_zrange in Hc. split; [tauto|]. intro F. apply Hc. apply in_map_iff in F. destruct F as (p & <- & F).
    apply in_names. exists p. auto. }
  assert (HF : forall c, In c firsts -> 0 <= c < n /\ ~ In c (map snd P)).
  { intros c Hc. unfold firsts in Hc. apply filter_In in Hc. rewrite in_without, in_zrange in Hc. tauto. }
  rewrite (DK K HK), (DK firsts HF).
  split; [reflexivity|]. intros P' x PP EF. rewrite <- EF.
  assert (NP' : NoDup (names P')) by (eapply Permutation_NoDup; [apply names_perm; exact PP|exact NP]).
  assert (KN : forall c, In c K -> ~ In c (names P')).
  { intros c Hc F. unfold K in Hc. apply in_without in Hc. apply Hc. eapply Permutation_in; [apply Permutation_sym, names_perm; exact PP|exact F]. }
  assert (ARG : forall ys, length ys = length P' ->
    map (look (K ++ map fst P') (map x K ++ ys)) (map (repl P) (zrange n)) = map (updl x P' ys) (zrange n)).
  { intros ys Ly. destruct (updl_pair Z P' x ys NP' Ly) as [Y1 _]. set (x' := updl x P' ys) in *.
    assert (XK : map x K = map x' K) by (apply map_ext_in; intros c Hc; symmetry; apply updl_out; now apply KN).
    rewrite XK, <- Y1 at 1. rewrite <- map_app, map_map. apply map_ext_in. intros c Hc. apply in_zrange in Hc.
    destruct (in_dec Z.eq_dec c (map snd P)) as [S1|S1].
    - apply in_map_iff in S1. destruct S1 as ([i j] & Ej & H). cbn in Ej. subst j. rewrite (repl_in P i c NS H).
      rewrite look_map.
      + apply updl_same; auto. eapply Permutation_in; [exact PP|exact H].
      + apply in_or_app. right. rewrite EF. eapply Permutation_in; [apply Permutation_sym, firsts_perm|]. now apply (in_map fst) in H.
    - rewrite repl_out by auto. apply look_map. apply in_or_app. destruct (in_dec Z.eq_dec c (map fst P)) as [F1|F1].
      + right. rewrite EF. eapply Permutation_in; [apply Permutation_sym, firsts_perm|exact F1].
      + left. unfold K. rewrite in_without, in_zrange. split; [lia|]. intros F. apply in_names in F. destruct F as (p & F & [->| ->]);
          [apply F1; now apply in_map|apply S1; now apply in_map]. }
  unfold nget at 1. cbn [nshape nval].
  assert (SH : sh = map dim (zrange n)) by (rewrite <- Lsh; symmetry; apply (pick_all Z 0 sh)).
  destruct (in_shapeb (map dim K) (map x K)) eqn:IS.
  - apply bsum_ext. intros ys Hy. apply in_all_idx in Hy. assert (Ly : length ys = length P') by (apply in_shape_length in Hy; now rewrite !map_length in Hy).
    rewrite (ARG ys Ly). symmetry. apply nget_in. rewrite Ea, SH.
    apply in_shape_map. intros c Hc. apply in_shapeb_spec in IS. rewrite in_shape_map in IS.
    destruct (updl_pair Z P' x ys NP' Ly) as [Y1 Y2]. rewrite <- Y1 in Hy. rewrite in_shape_map in Hy.
    destruct (in_dec Z.eq_dec c (names P')) as [F|F].
    + apply in_names in F. destruct F as ([i j] & F & [->| ->]); cbn [fst snd].
      * apply Hy. now apply (in_map fst) in F.
      * rewrite <- (updl_same Z P' x ys i j NP' Ly F). rewrite <- (Dsh i j) by (eapply Permutation_in; [apply Permutation_sym; exact PP|exact F]).
        apply Hy. now apply (in_map fst) in F.
    + rewrite updl_out by auto. apply IS. unfold K. rewrite in_without. split; [auto|]. intro G. apply F. eapply Permutation_in; [apply names_perm; exact PP|exact G].
  - symmetry. apply bsum_zero. intros ys Hy. apply nget_out. intro F. rewrite Ea, SH in F. rewrite in_shape_map in F.
    assert (T : in_shapeb (map dim K) (map x K) = true); [|congruence]. apply in_shapeb_spec. apply in_shape_map. intros c Hc.
    rewrite <- (updl_out Z P' x ys c) by now apply KN. apply F. apply in_zrange. now apply HK.
Qed.
End Local.

Lemma map_eq_at : forall X Y (f g : X -> Y) l, map f l = map g l -> forall x, In x l -> f x = g x.
Proof. intros X Y f g. induction l as [|y l IH]; intros E x H; [destruct H|]. cbn in E. injection E as E1 E2. destruct H as [->|H]; auto. Qed.

Lemma map_named : forall A X (f : Z -> X), map f A = map (fun k => f (name A k)) (zrange (Z.of_nat (length A))).
Proof. intros A X f. rewrite <- (map_map (name A) f), map_name. reflexivity. Qed.

(** *** Charges *)
Section Charges.
Variable L : Label.
Lemma qadd_0_r : forall a : L, qadd L a (q0 L) = a.
Proof. intros. rewrite qadd_comm. apply qadd_0_l. Qed.
Lemma qadd_neg_r : forall a : L, qadd L a (qneg L a) = q0 L.
Proof. intros. rewrite qadd_comm. apply qadd_neg. Qed.
Lemma qsub_eq : forall a b : L, qadd L a (qneg L b) = q0 L -> a = b.
Proof. intros a b H. rewrite <- (qadd_0_r a), <- (qadd_neg L b), qadd_assoc, H. apply qadd_0_l. Qed.
Definition oriented (up : bool) (q : L) : L := if up then q else qneg L q.
Lemma lab_compute_sum : forall p qs, lab_compute L p qs = lsum L (map (fun e => oriented (snd e) (fst e)) (combine qs p)).
Proof.
  intros p qs. unfold lab_compute.
  assert (G : forall l a, fold_left (fun out (e : L * bool) => if snd e then qadd L out (fst e) else qsub L out (fst e)) l a = qadd L a (lsum L (map (fun e => oriented (snd e) (fst e)) l))).
  { induction l as [|[q b] l IH]; intros a; cbn [fold_left map fst snd]; [cbn; now rewrite qadd_0_r|]. rewrite IH. unfold lsum at 2. cbn [fold_right].
    rewrite qadd_assoc. unfold oriented. destruct b; [reflexivity|]. now rewrite qsub_def. }
  rewrite G. apply qadd_0_l.
Qed.
Lemma aligned_pair : forall u v (q q' : L), u = negb v -> qeqb L (lab_compute L [u; v] [q; q']) (q0 L) = true <-> q = q'.
Proof.
  intros u v q q' E. rewrite lab_compute_sum. unfold lsum, oriented. cbn [combine map fold_right fst snd]. rewrite qadd_0_r. rewrite E.
  destruct (qeqb_spec L (qadd L (if negb v then q else qneg L q) (if v then q' else qneg L q')) (q0 L)) as [F|F].
  - split; [intros _|reflexivity]. destruct v; cbn [negb] in F; [symmetry; apply qsub_eq; now rewrite qadd_comm|now apply qsub_eq].
  - split; [discriminate|]. intros ->. exfalso. apply F. destruct v; cbn [negb]; [apply qadd_neg|apply qadd_neg_r].
Qed.
Lemma paired_charge : forall (pat : Z -> bool) (s : Z -> L) P, (forall i j, In (i, j) P -> pat i = negb (pat j) /\ s i = s j) ->
  lsum L (map (fun x => oriented (pat x) (s x)) (names P)) = q0 L.
Proof.
  intros pat s. induction P as [|[i j] P IH]; intros H; [reflexivity|]. unfold lsum in *. cbn [names flat_map app map fold_right fst snd].
  change (flat_map (fun p : Z * Z => [fst p; snd p]) P) with (names P). rewrite IH by (intros; apply H; now right). rewrite qadd_0_r.
  destruct (H i j (or_introl eq_refl)) as [-> ->]. unfold oriented. destruct (pat j); cbn [negb]; [apply qadd_neg|apply qadd_neg_r].
Qed.
End Charges.

(** *** Trace in terms of names *)
Lemma updl_named : forall X A (s : Z -> X), NoDup A -> forall P qs k, (forall i j, In (i, j) P -> In i A /\ In j A) -> 0 <= k < Z.of_nat (length A) ->
  updl (fun k => s (name A k)) (map (fun p => (posn A (fst p), posn A (snd p))) P) qs k = updl s P qs (name A k).
Proof.
  intros X A s NA. intros P qs k H Hk.
  assert (G : forall P qs (s : Z -> X) sl, (forall i j, In (i, j) P -> In i A /\ In j A) -> sl k = s (name A k) ->
    updl sl (map (fun p => (posn A (fst p), posn A (snd p))) P) qs k = updl s P qs (name A k)).
  2:{ now apply G. }
  clear P qs s H. induction P as [|[i j] P IH]; intros qs s sl H E; cbn [map updl fst snd]; [exact E|]. destruct qs as [|q qs]; [exact E|].
  apply IH; [intros; apply H; now right|]. destruct (H i j (or_introl eq_refl)) as [Hi Hj].
  assert (Q : forall x, In x A -> (k =? posn A x) = (name A k =? x)).
  { intros x Hx. destruct (posn_spec A x Hx) as [Rx Ex]. destruct (Z.eqb_spec k (posn A x)) as [->|N].
    - rewrite Ex. symmetry. apply Z.eqb_refl.
    - symmetry. apply Z.eqb_neq. intro F. apply N. rewrite <- F. now rewrite posn_name. }
  unfold upd2. now rewrite (Q i Hi), (Q j Hj), E.
Qed.

Section Trace.
Variable R : CRing.
Variable L : Label.
Variable fermion : bool.
Add Ring rr4 : (rth R).
Variable dm : Z -> L -> Z.
Variable Lq : list L.
Variables (t r : ftensor R L) (A : list Z) (P : list (Z * Z)) (pat : Z -> bool).
Notation ll := (q0 L).
Hypothesis HL : NoDup Lq.
Hypothesis HS : StronglySorted Z.lt A.
Hypothesis PA : forall i j, In (i, j) P -> In i A /\ In j A /\ i < j.
Hypothesis NP : NoDup (names P).
Hypothesis PD : forall i j q, In (i, j) P -> dm i q = dm j q.
Hypothesis PT : snd t = map pat A.
Hypothesis PO : forall i j, In (i, j) P -> pat i = negb (pat j).
Hypothesis Wt : wfn R L dm A (fst t).
Hypothesis Lt : labs R L Lq (fst t).
Hypothesis Ne : fst t <> [].
Hypothesis Hom : forall b b', In b (fst t) -> In b' (fst t) -> lab_compute L (snd t) (fst b) = lab_compute L (snd t) (fst b').
Notation n := (Z.of_nat (length A)).
Definition pp (p : Z * Z) : Z * Z := (posn A (fst p), posn A (snd p)).
Definition keep1 : list Z := without (names P) A.

Lemma tr_nodup : NoDup A. Proof. now apply sorted_nodup. Qed.
Lemma tr_ndim : ndim R L (fst t) = n.
Proof. unfold ndim. destruct (fst t) as [|b l] eqn:E; [congruence|]. destruct (Wt b (or_introl eq_refl)) as [K S]. rewrite S. unfold shape_of. rewrite map_length, combine_length, zrange_length. lia. Qed.
Lemma tr_in : forall x, In x (names P) -> In x A.
Proof. intros x H. apply in_names in H. destruct H as ([i j] & H & [->| ->]); apply PA in H; tauto. Qed.
Lemma tr_names : names (map pp P) = map (posn A) (names P).
Proof. clear. induction P as [|p P' IH]; [reflexivity|]. cbn [map names flat_map app pp fst snd]. f_equal. f_equal. exact IH. Qed.
Lemma tr_pl : forall i j, In (i, j) (map pp P) -> 0 <= i < j /\ j < n.
Proof.
  intros i j H. apply in_map_iff in H. destruct H as ([u v] & E & H). unfold pp in E. cbn [fst snd] in E. injection E as <- <-.
  destruct (PA u v H) as (Hu & Hv & Huv). destruct (posn_spec A u Hu) as [R1 E1], (posn_spec A v Hv) as [R2 E2].
  split; [|lia]. split; [lia|]. apply Z.ltb_lt. rewrite <- (name_mono A) by auto. rewrite E1, E2. now apply Z.ltb_lt.
Qed.
Lemma tr_np : NoDup (names (map pp P)).
Proof. rewrite tr_names. apply posns_nodup; [exact NP|exact tr_in]. Qed.
Lemma tr_out : without (names (map pp P)) (zrange n) = others n (map (posn A) (names P)).
Proof. rewrite tr_names. reflexivity. Qed.
Lemma tr_keep : map (name A) (without (names (map pp P)) (zrange n)) = keep1.
Proof. rewrite tr_out. apply name_others; [exact tr_nodup|exact tr_in]. Qed.

(* label of block b at the leg named x *)
Definition lab (b : list L * nd R) (x : Z) : L := nth (Z.to_nat (posn A x)) (fst b) ll.
Lemma lab_at : forall b k, In b (fst t) -> 0 <= k < n -> lab b (name A k) = nth (Z.to_nat k) (fst b) ll.
Proof. intros b k Hb Hk. unfold lab. rewrite posn_name; [reflexivity|exact tr_nodup|exact Hk]. Qed.
Lemma lab_map : forall b, In b (fst t) -> fst b = map (lab b) A.
Proof.
  intros b Hb. destruct (Wt b Hb) as [K _]. rewrite <- (map_name A) at 1. rewrite map_map. transitivity (pick ll (zrange n) (fst b)).
  - rewrite <- K. symmetry. apply pick_all.
  - unfold pick. apply map_ext_in. intros k Hk. apply in_zrange in Hk. symmetry. now apply lab_at.
Qed.
Lemma lab_of_map : forall b (s : Z -> L) x, In b (fst t) -> fst b = map s A -> In x A -> lab b x = s x.
Proof.
  intros b s x Hb E Hx. unfold lab. rewrite E. destruct (posn_spec A x Hx) as [Rg Ex]. rewrite (nth_indep _ ll (s 0)) by (rewrite map_length; lia).
  rewrite map_nth. now rewrite Ex at 1.
Qed.
Lemma pick_keep : forall b, In b (fst t) -> pick ll (without (names (map pp P)) (zrange n)) (fst b) = map (lab b) keep1.
Proof.
  intros b Hb. rewrite <- tr_keep, map_map. unfold pick. apply map_ext_in. intros k Hk. apply in_without in Hk. rewrite in_zrange in Hk. symmetry. now apply lab_at.
Qed.
Lemma shape_map : forall b, In b (fst t) -> nshape (snd b) = map (fun k => dm (name A k) (lab b (name A k))) (zrange n).
Proof.
  intros b Hb. destruct (Wt b Hb) as [K E]. rewrite E. unfold shape_of. rewrite (lab_map b Hb) at 1. rewrite <- (map_name A) at 2. rewrite map_map.
  rewrite <- (map_id (zrange n)) at 1. rewrite combine_map_map, map_map. reflexivity.
Qed.
Lemma tr_aligned : forall b, In b (fst t) -> (aligned L (snd t) (fst b) (map pp P) = true <-> forall i j, In (i, j) P -> lab b i = lab b j).
Proof.
  intros b Hb. unfold aligned. rewrite forallb_forall. split.
  - intros H i j Hij. specialize (H (pp (i, j)) (in_map pp P (i, j) Hij)). unfold pick, pp in H. cbn [map fst snd] in H.
    destruct (PA i j Hij) as (Hi & Hj & _). apply aligned_pair in H; [exact H|]. rewrite PT.
    destruct (posn_spec A i Hi) as [Ri Ei], (posn_spec A j Hj) as [Rj Ej].
    rewrite !(nth_indep (map pat A) false (pat 0)) by (rewrite map_length; lia). rewrite !map_nth. unfold name in Ei, Ej. rewrite Ei, Ej. now apply PO.
  - intros H e He. apply in_map_iff in He. destruct He as ([i j] & <- & Hij). unfold pick, pp. cbn [map fst snd]. destruct (PA i j Hij) as (Hi & Hj & _).
    apply aligned_pair; [|now apply H]. rewrite PT. destruct (posn_spec A i Hi) as [Ri Ei], (posn_spec A j Hj) as [Rj Ej].
    rewrite !(nth_indep (map pat A) false (pat 0)) by (rewrite map_length; lia). rewrite !map_nth. unfold name in Ei, Ej. rewrite Ei, Ej. now apply PO.
Qed.
Definition traced : list (list L * nd R) := filter (fun b => aligned L (snd t) (fst b) (map pp P)) (fst t).
Definition esum (b : list L * nd R) : nd R :=
  match nd_einsum1 (map (repl (map pp P)) (zrange n)) (without (names (map pp P)) (zrange n)) (snd b) with Some e => e | None => snd b end.
Lemma firsts_P : exists P', Permutation P P' /\ firsts n (map pp P) = map fst (map pp P').
Proof.
  destruct (Permutation_map_inv fst (map pp P) (firsts_perm n (map pp P) tr_pl tr_np)) as (Pl & E & H).
  destruct (Permutation_map_inv pp P (Permutation_sym H)) as (P' & E' & H'). exists P'. split; [exact H'|]. now rewrite E, E'.
Qed.
Lemma esum_ok : forall b, In b traced ->
  nd_einsum1 (map (repl (map pp P)) (zrange n)) (without (names (map pp P)) (zrange n)) (snd b) = Some (esum b) /\
  nshape (esum b) = map (fun x => dm x (lab b x)) keep1 /\
  forall P' x, Permutation P P' -> firsts n (map pp P) = map fst (map pp P') ->
  nget (esum b) (map x keep1) = bsum (all_idx (map (fun p => dm (fst p) (lab b (fst p))) P')) (fun ys => nget (snd b) (map (updl x P' ys) A)).
Proof.
  intros b Hb. apply filter_In in Hb. destruct Hb as [Hb Al]. rewrite (tr_aligned b Hb) in Al. pose proof (shape_map b Hb) as Sh.
  assert (D1 : Z.of_nat (length (nshape (snd b))) = n) by (rewrite Sh, map_length, zrange_length; lia).
  assert (DN : forall x, In x A -> nth (Z.to_nat (posn A x)) (nshape (snd b)) 0 = dm x (lab b x)).
  { intros x Hx. destruct (posn_spec A x Hx) as [Rx Ex]. rewrite Sh, nth_zrange_map by exact Rx. now rewrite Ex. }
  assert (D2 : forall i j, In (i, j) (map pp P) -> nth (Z.to_nat i) (nshape (snd b)) 0 = nth (Z.to_nat j) (nshape (snd b)) 0).
  { intros i j H. apply in_map_iff in H. destruct H as ([u v] & E & H). unfold pp in E. cbn [fst snd] in E. injection E as <- <-.
    destruct (PA u v H) as (Hu & Hv & _). rewrite !DN by assumption. rewrite (Al u v H). now apply PD. }
  destruct (einsum_ok n (map pp P) tr_pl tr_np (nshape (snd b)) D1 D2 R (snd b) eq_refl) as (e & Ee & Se & Ge).
  assert (EE : esum b = e) by (unfold esum; now rewrite Ee). rewrite EE. split; [exact Ee|]. split.
  - rewrite Se, <- tr_keep, map_map. apply map_ext_in. intros k Hk. apply in_without in Hk. rewrite in_zrange in Hk. rewrite Sh, nth_zrange_map by tauto. reflexivity.
  - intros P' x HP HF. assert (HPl : Permutation (map pp P) (map pp P')) by now apply Permutation_map.
    rewrite <- tr_keep, map_map. rewrite (Ge (map pp P') (fun k => x (name A k)) HPl (eq_sym HF)).
    assert (PA' : forall i j, In (i, j) P' -> In i A /\ In j A).
    { intros i j H. destruct (PA i j) as (? & ? & _); [|auto]. eapply Permutation_in; [apply Permutation_sym; exact HP|exact H]. }
    assert (SE : map (fun c => nth (Z.to_nat c) (nshape (snd b)) 0) (map fst (map pp P')) = map (fun p => dm (fst p) (lab b (fst p))) P').
    { rewrite !map_map. apply map_ext_in. intros [i j] H. unfold pp. cbn [fst snd]. apply DN. now apply (PA' i j). }
    rewrite SE. apply bsum_ext. intros ys _. f_equal. rewrite <- (map_name A) at 2. rewrite map_map. apply map_ext_in. intros k Hk. apply in_zrange in Hk.
    unfold pp. apply updl_named; [exact tr_nodup|exact PA'|exact Hk].
Qed.
Definition tcontrib (b : list L * nd R) : list L * nd R :=
  (map (lab b) keep1, nd_phase R (lab_phase L fermion (fst b) (names (map pp P)) false) (esum b)).
Lemma tr_dq : exists q, ft_dq R L t = Some q /\ forall b, In b (fst t) -> lab_compute L (snd t) (fst b) = q.
Proof.
  unfold ft_dq. destruct (fst t) as [|b l] eqn:E; [congruence|]. eexists. split; [reflexivity|]. intros b' Hb. apply Hom; [exact Hb|now left].
Qed.
Definition emptied : bool := (Z.of_nat (length (names P)) =? n) && negb (qeqb L (odflt ll (ft_dq R L t)) ll).
Lemma ft_trace_eq : ft_trace R L fermion t (map (posn A) (map fst P)) (map (posn A) (map snd P)) =
  if emptied then Some ([], []) else
  Some (fold_left (put_with R L nd_add (fun x => x)) (map tcontrib traced) [], map pat keep1).
Proof.
  unfold ft_trace. rewrite tr_ndim.
  assert (F1 : map (posn A) (map fst P) = map fst (map pp P)) by (rewrite !map_map; reflexivity).
  assert (F2 : map (posn A) (map snd P) = map snd (map pp P)) by (rewrite !map_map; reflexivity).
  rewrite F1, F2, (trace_pre n (map pp P) tr_pl tr_np).
  assert (LN : length (map fst (map pp P) ++ map snd (map pp P)) = length (names P)).
  { rewrite (Permutation_length (names_perm2 P)), !app_length, !map_length. reflexivity. }
  rewrite LN. unfold emptied. destruct tr_dq as (dq & Edq & _). rewrite Edq. cbn [bind odflt].
  destruct ((Z.of_nat (length (names P)) =? n) && negb (qeqb L dq ll)); [reflexivity|].
  rewrite combine_parts. fold traced.
  assert (G : forall l m, (forall b, In b l -> In b traced) -> foldM (fun m b =>
     do e <- nd_einsum1 (map (repl (map pp P)) (zrange n)) (without (names (map pp P)) (zrange n)) (snd b);
     Some (acc_block R L m (pick ll (without (names (map pp P)) (zrange n)) (fst b)) (nd_phase R (lab_phase L fermion (fst b) (names (map pp P)) false) e))) m l
     = Some (fold_left (put_with R L nd_add (fun x => x)) (map tcontrib l) m)).
  { induction l as [|b l IH]; intros m H; [reflexivity|]. cbn [foldM map fold_left]. destruct (esum_ok b (H b (or_introl eq_refl))) as (-> & _ & _). cbn [bind].
    rewrite IH by (intros; apply H; now right). rewrite pick_keep; [reflexivity|]. specialize (H b (or_introl eq_refl)). apply filter_In in H. tauto. }
  rewrite G by auto. cbn [bind]. f_equal. f_equal. rewrite PT, <- tr_keep. unfold pick. rewrite map_map. apply map_ext_in. intros k Hk. apply in_without in Hk. rewrite in_zrange in Hk.
  rewrite (nth_indep _ false (pat 0)) by (rewrite map_length; lia). rewrite map_nth. reflexivity.
Qed.

(* the elements of the trace *)
Lemma tcontrib_wf : wfn R L dm keep1 (map tcontrib traced).
Proof.
  intros c Hc. apply in_map_iff in Hc. destruct Hc as (b & <- & Hb). destruct (esum_ok b Hb) as (_ & Sh & _). unfold tcontrib. cbn [fst snd].
  split; [now rewrite map_length|]. unfold nd_phase, nd_map. cbn [nshape]. rewrite Sh. unfold shape_of.
  rewrite (map_named keep1 _ (lab b)), (map_named keep1 _ (fun x => dm x (lab b x))).
  rewrite <- (map_id (zrange (Z.of_nat (length keep1)))) at 2. rewrite combine_map_map, map_map. reflexivity.
Qed.
Lemma tr_good : forall b, In b traced -> good (par L (lab b)) P.
Proof.
  intros b Hb i j H. apply filter_In in Hb. destruct Hb as [Hb Al]. rewrite (tr_aligned b Hb) in Al. split; [now apply PA|]. unfold par. f_equal. now apply Al.
Qed.
Lemma keep1_sorted : StronglySorted Z.lt keep1.
Proof. unfold keep1, without. now apply sorted_filter. Qed.
Lemma tr_phase : forall b, In b traced ->
  lab_phase L fermion (fst b) (names (map pp P)) false = if fermion && psign (par L (lab b)) P keep1 then -1 else 1.
Proof.
  intros b Hb. pose proof Hb as Hb'. apply filter_In in Hb'. destruct Hb' as [Hb' _]. destruct (Wt b Hb') as [K _].
  rewrite lab_phase_left.
  2:{ exact tr_np. }
  2:{ intros i Hi. rewrite tr_names in Hi. apply in_map_iff in Hi. destruct Hi as (x & <- & Hx). rewrite K. apply posn_spec. now apply tr_in. }
  rewrite K. rewrite (lab_map b Hb') at 1. rewrite (exchanged_named L); [|exact HS|].
  2:{ intros k Hk. apply in_app_or in Hk. destruct Hk as [Hk|Hk]; [|apply in_others in Hk; tauto]. rewrite tr_names in Hk. apply in_map_iff in Hk.
      destruct Hk as (x & <- & Hx). apply posn_spec. now apply tr_in. }
  rewrite map_app. rewrite tr_names, name_posns by exact tr_in. rewrite name_others by (auto using tr_nodup, tr_in). fold keep1.
  rewrite ex_trace.
  - rewrite (ex_sorted _ keep1 keep1_sorted), xorb_false_r. reflexivity.
  - now apply tr_good.
  - apply nodup_app_intro'; [exact NP|apply sorted_nodup, keep1_sorted|]. intros x H1 H2. apply in_without in H2. tauto.
Qed.
Lemma elem_fit : forall (s : Z -> L) (x : Z -> Z), elem R L (fst t) (map s A) (map x A) =
  bsum (fst t) (fun b => if tup_eqb L (fst b) (map s A) then nget (snd b) (map x A) else r0 R).
Proof. reflexivity. Qed.
Lemma trace_elem : ft_trace R L fermion t (map (posn A) (map fst P)) (map (posn A) (map snd P)) = Some r -> forall s x,
  elem R L (fst r) (map s keep1) (map x keep1) =
  sumP R L dm Lq P s x (fun s' x' => signed (fermion && psign (par L s') P keep1) (elem R L (fst t) (map s' A) (map x' A))).
Proof.
  intros E s x. rewrite ft_trace_eq in E. destruct emptied eqn:Em; injection E as <-.
  - (* everything traced, charge not zero: no element contributes *)
    cbn [fst]. unfold elem at 1. rewrite bsum_nil. symmetry.
    transitivity (sumP R L dm Lq P s x (fun _ _ => r0 R)).
    + apply sumP_ext; [exact NP|]. intros s' x' _ Sm.
      assert (Z0 : elem R L (fst t) (map s' A) (map x' A) = r0 R).
      { apply elem_absent. intro F. apply in_map_iff in F. destruct F as (b & Eb & Hb). unfold emptied in Em. apply andb_prop in Em. destruct Em as [E1 E2].
        destruct tr_dq as (dq & Edq & Hdq). rewrite Edq in E2. cbn [odflt] in E2. specialize (Hdq b Hb). rewrite Eb, PT, lab_compute_sum in Hdq.
        rewrite combine_map_map, map_map in Hdq. cbn [fst snd] in Hdq.
        assert (Pm : Permutation A (names P)).
        { apply Permutation_sym. apply NoDup_Permutation_bis; [exact NP| |intros y Hy; now apply tr_in]. apply Z.eqb_eq in E1. lia. }
        rewrite (lsum_perm L _ (map (fun y => oriented L (pat y) (s' y)) (names P))) in Hdq by now apply Permutation_map.
        rewrite paired_charge in Hdq by (intros i j H; split; [now apply PO|now apply Sm]). subst dq.
        destruct (qeqb_spec L ll ll); [discriminate|congruence]. }
      rewrite Z0. apply signed_0.
    + generalize s x. clear. induction P as [|[i j] P' IH]; intros s x; cbn [sumP]; [reflexivity|]. apply bsum_zero. intros q _. apply bsum_zero. intros v _. apply IH.
  - cbn [fst]. rewrite acc_plus_elem; [|constructor|cbn [app]; eapply wf_same_shapes; exact tcontrib_wf].
    unfold elem at 1. rewrite bsum_nil. unfold elem at 1. rewrite bsum_map. unfold traced at 1. rewrite bsum_filter.
    destruct firsts_P as (P' & PP & FP).
    assert (NP' : NoDup (names P')) by (eapply Permutation_NoDup; [apply names_perm; exact PP|exact NP]).
    assert (PA' : forall i j, In (i, j) P' -> In (i, j) P) by (intros i j; apply Permutation_in; now apply Permutation_sym).
    assert (KP' : forall y, In y keep1 -> ~ In y (names P')).
    { intros y Hy F. apply in_without in Hy. apply Hy. eapply Permutation_in; [apply Permutation_sym, names_perm; exact PP|exact F]. }
    rewrite (sumP_perm R L dm Lq P P'); [|exact PP|exact NP|].
    2:{ intros s1 s2 x1 x2 H1 H2. rewrite (map_ext s1 s2 H1), (map_ext x1 x2 H2). f_equal. f_equal. apply psign_ext. intros y _. unfold par. now rewrite H1. }
    rewrite <- sum_tuples.
    transitivity (bsum (fst t) (fun b => bsum (tuples L Lq (length P')) (fun qc => bsum (all_idx (map (fun e => dm (fst (fst e)) (snd e)) (combine P' qc)))
      (fun xc => signed (fermion && psign (par L (updl s P' qc)) P keep1) (if tup_eqb L (fst b) (map (updl s P' qc) A) then nget (snd b) (map (updl x P' xc) A) else r0 R))))).
    2:{ rewrite bsum_swap. apply bsum_ext. intros qc _. rewrite bsum_swap. apply bsum_ext. intros xc _. rewrite signed_sum. reflexivity. }
    transitivity (bsum (fst t) (fun b => if aligned L (snd t) (fst b) (map pp P) then
       if tup_eqb L (fst (tcontrib b)) (map s keep1) then nget (snd (tcontrib b)) (map x keep1) else r0 R else r0 R)); [ring|].
    apply bsum_ext. intros b Hb.
    set (qc0 := map (fun p => lab b (fst p)) P').
    (* a tuple that matches the block is the tuple of its labels *)
    assert (Uq : forall qc, length qc = length P' -> fst b = map (updl s P' qc) A -> qc = qc0 /\ (forall i j, In (i, j) P -> lab b i = lab b j) /\ map (lab b) keep1 = map s keep1).
    { intros qc Lc Eb. destruct (updl_pair L P' s qc NP' Lc) as [Y1 _].
      assert (LB : forall y, In y A -> lab b y = updl s P' qc y) by (intros y Hy; now apply lab_of_map).
      split; [|split].
      - unfold qc0. rewrite <- Y1 at 1. rewrite map_map. apply map_ext_in. intros [i j] Hp. cbn [fst]. symmetry. apply LB. now apply (PA i j), PA'.
      - intros i j H. destruct (PA i j H) as (Hi & Hj & _). rewrite !LB by assumption. apply updl_same; [exact NP'|exact Lc|]. eapply Permutation_in; [exact PP|exact H].
      - apply map_ext_in. intros y Hy. rewrite LB by (apply in_without in Hy; tauto). apply updl_out. now apply KP'. }
    assert (L0 : length qc0 = length P') by (unfold qc0; apply map_length).
    assert (Dead : (aligned L (snd t) (fst b) (map pp P) = false \/ map (lab b) keep1 <> map s keep1) ->
      bsum (tuples L Lq (length P')) (fun qc => bsum (all_idx (map (fun e => dm (fst (fst e)) (snd e)) (combine P' qc)))
      (fun xc => signed (fermion && psign (par L (updl s P' qc)) P keep1) (if tup_eqb L (fst b) (map (updl s P' qc) A) then nget (snd b) (map (updl x P' xc) A) else r0 R))) = r0 R).
    { intros Dd. apply bsum_zero. intros qc Hqc. apply bsum_zero. intros xc _. apply in_tuples in Hqc. destruct (tup_eqb_spec L (fst b) (map (updl s P' qc) A)) as [Eb|_].
      - exfalso. destruct (Uq qc (proj1 Hqc) Eb) as (_ & Al & Kp). rewrite <- (tr_aligned b Hb) in Al. destruct Dd as [Dd|Dd]; [congruence|now apply Dd].
      - apply signed_0. }
    destruct (aligned L (snd t) (fst b) (map pp P)) eqn:Al; [|now rewrite Dead by auto].
    assert (Tb : In b traced) by (apply filter_In; auto).
    unfold tcontrib. cbn [fst snd]. destruct (tup_eqb_spec L (map (lab b) keep1) (map s keep1)) as [Kp|Kp]; [|now rewrite Dead by auto]. clear Dead.
    rewrite (tr_aligned b Hb) in Al.
    assert (Eb : fst b = map (updl s P' qc0) A).
    { rewrite (lab_map b Hb) at 1. apply map_ext_in. intros y Hy. destruct (updl_pair L P' s qc0 NP' L0) as [Y1 Y2].
      destruct (in_dec Z.eq_dec y (names P')) as [F|F].
      - apply in_names in F. destruct F as ([i j] & F & Ey). cbn [fst snd] in Ey.
        assert (Ei : updl s P' qc0 i = lab b i).
        { unfold qc0 in Y1 at 2. rewrite map_map in Y1. exact (map_eq_at _ _ _ _ _ Y1 (i, j) F). }
        destruct Ey as [-> | ->]; [now symmetry|]. rewrite <- (updl_same L P' s qc0 i j NP' L0 F), Ei. symmetry. apply Al. now apply PA'.
      - rewrite updl_out by exact F. assert (Hk : In y keep1).
        { apply in_without. split; [exact Hy|]. intro G. apply F. eapply Permutation_in; [apply names_perm; exact PP|exact G]. }
        exact (map_eq_at _ _ _ _ _ Kp y Hk). }
    rewrite (bsum_single _ _ _ _ qc0).
    + destruct (esum_ok b Tb) as (_ & _ & Ge). rewrite tr_phase by exact Tb. rewrite nget_phase. rewrite (Ge P' x PP FP). rewrite <- signed_sum.
      assert (SE : map (fun e => dm (fst (fst e)) (snd e)) (combine P' qc0) = map (fun p => dm (fst p) (lab b (fst p))) P').
      { unfold qc0. rewrite <- (map_id P') at 1. rewrite combine_map_map, map_map. reflexivity. }
      rewrite SE. apply bsum_ext. intros xc _. rewrite <- Eb, teqb_refl. f_equal. f_equal. apply psign_ext. intros y Hy. unfold par. f_equal.
      apply lab_of_map; [exact Hb|exact Eb|]. apply in_app_or in Hy. destruct Hy as [Hy|Hy]; [now apply tr_in|apply in_without in Hy; tauto].
    + now apply tuples_nodup.
    + apply in_tuples. split; [exact L0|]. intros q Hq. apply in_map_iff in Hq. destruct Hq as ([i j] & <- & Hp). cbn [fst]. apply (Lt b); [exact Hb|].
      unfold lab. apply nth_In. destruct (Wt b Hb) as [K _]. destruct (PA i j (PA' i j Hp)) as (Hi & _). destruct (posn_spec A i Hi). lia.
    + intros qc Hqc N. apply in_tuples in Hqc. apply bsum_zero. intros xc _. destruct (tup_eqb_spec L (fst b) (map (updl s P' qc) A)) as [Eb'|_].
      * exfalso. apply N. now apply (Uq qc).
      * apply signed_0.
Qed.
Lemma trace_wf : ft_trace R L fermion t (map (posn A) (map fst P)) (map (posn A) (map snd P)) = Some r -> wfn R L dm keep1 (fst r).
Proof.
  intros E. rewrite ft_trace_eq in E. destruct emptied; injection E as <-; [intros ? []|]. cbn [fst]. unfold wfn. apply acc_wf; [intros; reflexivity|intros; reflexivity|intros ? []|exact tcontrib_wf].
Qed.
Lemma trace_keys : ft_trace R L fermion t (map (posn A) (map fst P)) (map (posn A) (map snd P)) = Some r -> NoDup (map fst (fst r)).
Proof.
  intros E. rewrite ft_trace_eq in E. destruct emptied; injection E as <-; [constructor|]. cbn [fst]. apply acc_keys. constructor.
Qed.
Lemma trace_labs : ft_trace R L fermion t (map (posn A) (map fst P)) (map (posn A) (map snd P)) = Some r -> labs R L Lq (fst r).
Proof.
  intros E. rewrite ft_trace_eq in E. destruct emptied; injection E as <-; [intros ? ? []|]. cbn [fst]. intros c q Hc Hq. apply (in_map fst) in Hc. apply acc_labels in Hc. destruct Hc as [[]|Hc].
  rewrite map_map in Hc. apply in_map_iff in Hc. destruct Hc as (b & Ec & Hb). rewrite <- Ec in Hq. unfold tcontrib in Hq. cbn [fst] in Hq. apply in_map_iff in Hq. destruct Hq as (y & <- & Hy).
  apply filter_In in Hb. destruct Hb as [Hb _]. apply (Lt b); [exact Hb|]. unfold lab. apply nth_In. apply in_without in Hy. destruct (posn_spec A y (proj1 Hy)). destruct (Wt b Hb). lia.
Qed.
Lemma trace_pattern : ft_trace R L fermion t (map (posn A) (map fst P)) (map (posn A) (map snd P)) = Some r -> fst r <> [] -> snd r = map pat keep1.
Proof. intros E H. rewrite ft_trace_eq in E. destruct emptied; injection E as <-; [now destruct H|reflexivity]. Qed.
End Trace.
