(** Proofs about GfitModel: the fitted orbitals, the running matrix in them, the fitted occupations. *)
From Coq Require Import ZArith Bool List Lia Permutation Ring.
From Verif Require Import CanonProofs DictLib IndexLib RingLib OptLib GaussModel GaussProofs GfitModel.
Import ListNotations.
Open Scope Z_scope.

Lemma set_nth_len : forall (A : Type) (l : list A) i x, length (set_nth i x l) = length l.
Proof. induction l as [|y l IH]; intros [|i] x; cbn; auto. Qed.
Lemma set_nth_same : forall (A : Type) (l : list A) i x d, (i < length l)%nat -> nth i (set_nth i x l) d = x.
Proof. induction l as [|y l IH]; intros [|i] x d H; cbn in *; try lia; auto. apply IH. lia. Qed.
Lemma set_nth_other : forall (A : Type) (l : list A) i j x d, i <> j -> nth j (set_nth i x l) d = nth j l d.
Proof. induction l as [|y l IH]; intros [|i] [|j] x d H; cbn; auto; try congruence. Qed.

Section Fit.
Variable R : CRing.
Add Ring Rring : (rth R).
Notation "a +' b" := (radd R a b) (at level 50, left associativity).
Notation "a *' b" := (rmul R a b) (at level 40, left associativity).
Notation mat := (nat -> nat -> R). Notation gt := (gt R).
Definition kd (i j : nat) : R := if Nat.eqb i j then r1 R else r0 R.
Definition eig_spec (n : nat) (A : mat) (xb : list R) (ub : mat) : Prop := length xb = n /\
  (forall p p', (p < n)%nat -> (p' < n)%nat -> bsum (seq 0 n) (fun q => ub q p *' ub q p') = kd p p') /\
  (forall q q', (q < n)%nat -> (q' < n)%nat -> bsum (seq 0 n) (fun p => ub q p *' ub q' p) = kd q q') /\
  (forall i p, (i < n)%nat -> (p < n)%nat -> bsum (seq 0 n) (fun j => A i j *' ub j p) = nth p xb (r0 R) *' ub i p).
Variable eigh : nat -> mat -> list R * mat.
Variable sz : nat -> Prop.
Hypothesis eigh_ok : forall n A, sz n -> (forall i j, (i < n)%nat -> (j < n)%nat -> A i j = A j i) -> eig_spec n A (fst (eigh n A)) (snd (eigh n A)).
Variable order : list R -> list nat.
Hypothesis order_ok : forall xb, Permutation (order xb) (seq 0 (length xb)).
Variable neg : nat -> mat -> bool.
Lemma sum_nth : forall (p : list nat) (f : nat -> R), bsum (seq 0 (length p)) (fun j => f (nth j p 0%nat)) = bsum p f.
Proof.
  intros p f. rewrite <- (bsum_map R _ _ (fun j => nth j p 0%nat)). f_equal. apply nth_ext with (d := 0%nat) (d' := 0%nat); [now rewrite map_length, seq_length|].
  intros j Hj. rewrite map_length, seq_length in Hj. rewrite (nth_indep _ 0%nat (nth 0 p 0%nat)) by (rewrite map_length, seq_length; lia). rewrite (map_nth (fun j => nth j p 0%nat)). now rewrite seq_nth.
Qed.
Lemma local_ok : forall n A, sz n -> (forall i j, (i < n)%nat -> (j < n)%nat -> A i j = A j i) -> eig_spec n A (fst (local_eig R eigh order neg n A)) (snd (local_eig R eigh order neg n A)).
Proof.
  intros n A Sn Sy. unfold local_eig. pose proof (eigh_ok n A Sn Sy) as (L & Co & Ro & Ei). destruct (eigh n A) as [xb ub]. cbn [fst snd] in *.
  pose proof (order_ok xb) as P. rewrite L in P. set (p := order xb) in *. pose proof (Permutation_length P) as Lp. rewrite seq_length in Lp.
  assert (Np : NoDup p) by (apply (Permutation_NoDup (Permutation_sym P)), seq_NoDup).
  assert (Hp : forall j, (j < n)%nat -> (nth j p 0%nat < n)%nat). { intros j Hj. assert (In (nth j p 0%nat) p) as Hi by (apply nth_In; lia). apply (Permutation_in _ P) in Hi. apply in_seq in Hi. lia. }
  assert (Ek : forall j j', (j < n)%nat -> (j' < n)%nat -> kd (nth j p 0%nat) (nth j' p 0%nat) = kd j j').
  { intros j j' Hj Hj'. unfold kd. destruct (Nat.eqb_spec (nth j p 0%nat) (nth j' p 0%nat)) as [E|E], (Nat.eqb_spec j j') as [E'|E']; auto; try congruence. apply (proj1 (NoDup_nth p 0%nat) Np) in E; [congruence|lia|lia]. }
  set (s := fun j : nat => if neg n (fun i j : nat => ub i (nth j p 0%nat)) then (if Nat.eqb j 0 then ropp R (r1 R) else r1 R) else r1 R).
  assert (Es : forall i j, (if neg n (fun i j : nat => ub i (nth j p 0%nat)) then fun i j : nat => if Nat.eqb j 0 then ropp R (ub i (nth j p 0%nat)) else ub i (nth j p 0%nat) else fun i j : nat => ub i (nth j p 0%nat)) i j = s j *' ub i (nth j p 0%nat)).
  { intros i j. unfold s. destruct (neg n _); [destruct (Nat.eqb j 0); ring|ring]. }
  assert (S1 : forall j, s j *' s j = r1 R) by (intros j; unfold s; destruct (neg n _); [destruct (Nat.eqb j 0); ring|ring]).
  set (vb := if neg n _ then _ else _) in *. clearbody vb s.
  split; [now rewrite map_length|]. split; [|split].
  - intros j j' Hj Hj'. rewrite (bsum_ext R _ _ _ (fun q => s j *' s j' *' (ub q (nth j p 0%nat) *' ub q (nth j' p 0%nat)))) by (intros q _; rewrite !Es; ring).
    rewrite bsum_mull, (Co _ _ (Hp j Hj) (Hp j' Hj')), (Ek j j' Hj Hj'). unfold kd. destruct (Nat.eqb_spec j j') as [<-|_]; [rewrite S1; ring|ring].
  - intros q q' Hq Hq'. rewrite (bsum_ext R _ _ _ (fun j => ub q (nth j p 0%nat) *' ub q' (nth j p 0%nat))).
    + rewrite <- Lp. rewrite (sum_nth p (fun j => ub q j *' ub q' j)). rewrite (bsum_perm R _ _ _ _ P). now apply Ro.
    + intros j _. rewrite !Es. transitivity (s j *' s j *' (ub q (nth j p 0%nat) *' ub q' (nth j p 0%nat))); [ring|]. rewrite S1. ring.
  - intros i j Hi Hj. rewrite (bsum_ext R _ _ _ (fun k => s j *' (A i k *' ub k (nth j p 0%nat)))) by (intros k _; rewrite Es; ring). rewrite bsum_mull, (Ei i _ Hi (Hp j Hj)), Es.
    rewrite (nth_indep (map (fun i => nth i xb (r0 R)) p) (r0 R) (nth 0 xb (r0 R))) by (rewrite map_length; lia). rewrite (map_nth (fun i => nth i xb (r0 R)) p 0%nat). ring.
Qed.

Variable N : nat.
Variable D : mat.
Hypothesis Dsym : forall a b, (a < N)%nat -> (b < N)%nat -> D a b = D b a.
Definition B (phi : Z -> nat -> R) (x y : Z) : R := bsum (seq 0 N) (fun a => bsum (seq 0 N) (fun b => phi x a *' D a b *' phi y b)).
Lemma B_sym : forall phi x y, B phi x y = B phi y x.
Proof. intros phi x y. unfold B. rewrite bsum_swap. apply bsum_ext. intros b Hb. apply bsum_ext. intros a Ha. apply in_seq in Ha, Hb. rewrite (Dsym a b) by lia. ring. Qed.
Definition follows (phi : Z -> nat -> R) (t : gt) : Prop := forall b, (b < N)%nat -> rotd R t (fun x => phi x b).
Lemma B_rot : forall phi t p y, follows phi t -> (p < length (g_u t))%nat -> B phi (nth p (g_u t) 0) y = bsum (seq 0 (length (g_u t))) (fun q => g_rot t q p *' B phi (nth q (g_d t) 0) y).
Proof.
  intros phi t p y F Hp. unfold B. rewrite (bsum_ext R _ _ _ (fun a => bsum (seq 0 (length (g_u t))) (fun q => g_rot t q p *' bsum (seq 0 N) (fun b => phi (nth q (g_d t) 0) a *' D a b *' phi y b)))).
  - rewrite bsum_swap. apply bsum_ext. intros q _. now rewrite bsum_mull.
  - intros a Ha. apply in_seq in Ha. rewrite (bsum_ext R _ (seq 0 (length (g_u t))) _ (fun q => bsum (seq 0 N) (fun b => g_rot t q p *' phi (nth q (g_d t) 0) a *' D a b *' phi y b))).
    + rewrite bsum_swap. apply bsum_ext. intros b _. rewrite (F a ltac:(lia) p Hp). rewrite !bsum_mulr. reflexivity.
    + intros q _. rewrite <- bsum_mull. apply bsum_ext. intros b _. ring.
Qed.
Variable I : list Z.
Definition units (phi : Z -> nat -> R) : Prop := forall a b, (a < N)%nat -> (b < N)%nat -> phi (nth a I 0) b = if Nat.eqb a b then r1 R else r0 R.
(* state after the tensors done *)
Definition stage (done : list gt) (m : dict Z nat) (dm : mat) : Prop :=
  NoDup (map fst m) /\ NoDup (map snd m) /\ (forall x, In x (map fst m) <-> (In x I \/ In x (Us R done)) /\ ~ In x (Ds R done)) /\
  forall phi, units phi -> (forall t, In t done -> follows phi t) -> forall x i y j, In (x, i) m -> In (y, j) m -> dm i j = B phi x y.
(* a rotation of the matrix *)
Lemma rot_stage : forall m (t : gt) eff dm phi, NoDup (map fst m) -> NoDup (map snd m) -> NoDup (g_d t) -> length (g_d t) = length (g_u t) ->
  mapM (dget Z.eqb m) (g_d t) = Some eff -> follows phi t -> (forall x i y j, In (x, i) m -> In (y, j) m -> dm i j = B phi x y) ->
  forall x i y j, In (x, i) m -> In (y, j) m ->
  rot_cols R eff (transp R (g_rot t)) (rot_rows R eff (transp R (g_rot t)) dm) i j = B phi (renf (g_d t) (g_u t) x) (renf (g_d t) (g_u t) y).
Proof.
  intros m t eff dm phi N1 N2 Nd Ld Ee F HB. destruct (mapM_nth _ _ _ Ee) as [Le Ge].
  assert (In_e : forall q, (q < length (g_d t))%nat -> In (nth q (g_d t) 0, nth q eff 0%nat) m) by (intros q Hq; apply (dget_nodup nat m _ _ N1); now apply Ge).
  assert (Pos : forall x i, In (x, i) m -> (exists p, (p < length (g_d t))%nat /\ x = nth p (g_d t) 0 /\ last_pos i eff = Some p) \/ (~ In x (g_d t) /\ last_pos i eff = None)).
  { intros x i Hx. destruct (in_dec Z.eq_dec x (g_d t)) as [H|H].
    - left. apply (In_nth _ _ 0) in H. destruct H as (p & Lp & <-). exists p. repeat split; auto.
      assert (E : i = nth p eff 0%nat) by (apply (dget_nodup nat m _ _ N1) in Hx; rewrite (Ge p Lp) in Hx; now injection Hx). subst i.
      apply last_pos_nth; [|lia]. apply (proj2 (NoDup_nth eff 0%nat)). intros a b Ha Hb Eq. rewrite Le in Ha, Hb. apply (proj1 (NoDup_nth (g_d t) 0) Nd a b Ha Hb).
      pose proof (in_map_inj' _ _ m _ _ N2 (In_e a Ha) (In_e b Hb) Eq) as Q. now injection Q.
    - right. split; [exact H|]. apply last_pos_none. intros C. apply (In_nth _ _ 0%nat) in C. destruct C as (q & Lq & Eq). rewrite Le in Lq. apply H.
      pose proof (in_map_inj' _ _ m _ _ N2 Hx (In_e q Lq) (eq_sym Eq)) as Q. injection Q as ->. now apply nth_In. }
  assert (St1 : forall x i y j, In (x, i) m -> In (y, j) m -> rot_rows R eff (transp R (g_rot t)) dm i j = B phi (renf (g_d t) (g_u t) x) y).
  { intros x i y j Hx Hy. unfold rot_rows. destruct (Pos x i Hx) as [(p & Lp & -> & ->)|[Hn ->]].
    - rewrite renf_in by (auto; lia). rewrite (B_rot phi t p y F) by lia. rewrite Le, Ld. apply bsum_ext. intros q Hq. apply in_seq in Hq. unfold transp. f_equal. apply HB; [apply In_e; lia|exact Hy].
    - rewrite renf_out by auto. now apply HB. }
  intros x i y j Hx Hy. unfold rot_cols. destruct (Pos y j Hy) as [(p & Lp & -> & ->)|[Hn ->]].
  - rewrite (renf_in (g_d t) (g_u t) p) by (auto; lia). rewrite B_sym, (B_rot phi t p _ F) by lia. rewrite Le, Ld. apply bsum_ext. intros q Hq. apply in_seq in Hq. unfold transp at 2.
    rewrite (St1 x i (nth q (g_d t) 0) (nth q eff 0%nat) Hx) by (apply In_e; lia). rewrite B_sym. ring.
  - rewrite (renf_out (g_d t) (g_u t) y) by auto. now apply St1.
Qed.

Definition legs_of (t : gt) : list Z * list Z * nat := (g_u t, g_d t, g_core t).
Definition rt (rnd : R -> R) (t : gt) : gt := GT R (g_u t) (g_d t) (g_core t) (g_rot t) (map rnd (g_occ t)).
Definition ortho (t : gt) : Prop :=
  (forall p p', (p < length (g_u t))%nat -> (p' < length (g_u t))%nat -> bsum (seq 0 (length (g_u t))) (fun q => g_rot t q p *' g_rot t q p') = kd p p') /\
  (forall q q', (q < length (g_u t))%nat -> (q' < length (g_u t))%nat -> bsum (seq 0 (length (g_u t))) (fun p => g_rot t q p *' g_rot t q' p) = kd q q').
Lemma id_ortho : forall n p p', (p < n)%nat -> (p' < n)%nat -> bsum (seq 0 n) (fun q => id_mat R q p *' id_mat R q p') = kd p p'.
Proof.
  intros n p p' Hp Hp'. rewrite (bsum_single R _ (seq 0 n) _ p (seq_NoDup _ _) ltac:(apply in_seq; lia)).
  - unfold id_mat, kd. rewrite Nat.eqb_refl. ring.
  - intros q _ Nq. unfold id_mat. destruct (Nat.eqb_spec q p); [congruence|ring].
Qed.
Lemma id_sum : forall n p (f : nat -> R), (p < n)%nat -> bsum (seq 0 n) (fun q => id_mat R q p *' f q) = f p.
Proof.
  intros n p f Hp. rewrite (bsum_single R _ (seq 0 n) _ p (seq_NoDup _ _) ltac:(apply in_seq; lia)).
  - unfold id_mat. rewrite Nat.eqb_refl. ring.
  - intros q _ Nq. unfold id_mat. destruct (Nat.eqb_spec q p); [congruence|ring].
Qed.
Lemma topo_legs : forall a b : list gt, map legs_of a = map legs_of b -> topo R a -> topo R b.
Proof.
  induction a as [|t a IH]; intros [|t' b] E T; try discriminate; [exact T|]. cbn [map] in E. injection E as E1 E2 E3 E4. destruct T as [T1 T2]. split; [|now apply IH].
  assert (EU : Us R (t' :: b) = Us R (t :: a)). { unfold Us. cbn [flat_map]. f_equal; [symmetry; exact E1|]. clear - E4. revert b E4. induction a as [|t a IH]; intros [|t' b] E; try discriminate; [reflexivity|]. cbn [map] in E. injection E as E1 E2 E3 E4. cbn [flat_map]. rewrite E1. f_equal. now apply IH. }
  rewrite EU, <- E2. exact T1.
Qed.
Lemma Us_legs : forall a b : list gt, map legs_of a = map legs_of b -> Us R a = Us R b /\ Ds R a = Ds R b.
Proof.
  induction a as [|t a IH]; intros [|t' b] E; try discriminate; [split; reflexivity|]. cbn [map] in E. injection E as E1 E2 E3 E4. destruct (IH b E4) as [A1 A2]. unfold Us, Ds in *. cbn [flat_map]. rewrite E1, E2, A1, A2. split; reflexivity.
Qed.
Section Loop.
Hypothesis LI : length I = N.
Hypothesis NI : NoDup I.
Variable fit_ent : bool.
Notation step rnd := (fit_step R eigh order neg rnd fit_ent).
Lemma stage_sym : forall done m dm, stage done m dm -> NoDup (Us R done) -> topo R done -> (forall t, In t done -> length (g_d t) = length (g_u t)) -> (forall x, In x I -> ~ In x (Us R done)) ->
  forall x i y j, In (x, i) m -> In (y, j) m -> dm i j = dm j i.
Proof.
  intros done m dm (_ & _ & _ & HB) NU TP W NIU x i y j Hx Hy.
  set (phi := fun (x : Z) (b : nat) => solve R done (fun x => if x =? nth b I 0 then r1 R else r0 R) x).
  assert (U : units phi).
  { intros a b Ha Hb. unfold phi. rewrite solve_out by (apply NIU; apply nth_In; lia). destruct (Z.eqb_spec (nth a I 0) (nth b I 0)) as [H|H].
    - apply (proj1 (NoDup_nth I 0) NI) in H; [|lia|lia]. subst. now rewrite Nat.eqb_refl.
    - destruct (Nat.eqb_spec a b); [subst; congruence|reflexivity]. }
  assert (F : forall t, In t done -> follows phi t) by (intros t Ht b Hb; apply (solve_rot R done _ NU TP W t Ht)).
  rewrite (HB phi U F x i y j Hx Hy), (HB phi U F y j x i Hy Hx). apply B_sym.
Qed.
Lemma step_ok : forall done (t : gt) num m dm, stage done m dm -> NoDup (Us R (done ++ [t])) -> NoDup (Ds R (done ++ [t])) -> topo R (done ++ [t]) ->
  (forall t', In t' (done ++ [t]) -> length (g_d t') = length (g_u t')) -> (g_core t <= length (g_u t))%nat -> sz (length (g_u t)) -> (forall x, In x I -> ~ In x (Us R (done ++ [t]))) ->
  (forall x, In x (g_d t) -> In x (map fst m)) ->
  exists t0 m' dm', (forall rnd ts, step rnd (m, dm, ts) (num, t) = Some (m', dm', set_nth num (rt rnd t0) ts)) /\
    legs_of t0 = legs_of t /\ length (g_occ t0) = g_core t /\ ortho t0 /\ stage (done ++ [t0]) m' dm' /\
    forall phi, units phi -> (forall t', In t' (done ++ [t0]) -> follows phi t') -> forall p, (p < g_core t)%nat -> B phi (nth p (g_u t) 0) (nth p (g_u t) 0) = nth p (g_occ t0) (r0 R).
Proof.
  intros done t num m dm St NU ND TP W Lc Sz NIU Hd. pose proof St as (N1 & N2 & K & HB).
  assert (Ht : In t (done ++ [t])) by (apply in_or_app; right; now left). pose proof (W t Ht) as Ld.
  rewrite (Us_app R) in NU. rewrite (Ds_app R) in ND. apply CanonProofs.nodup_app in NU. apply CanonProofs.nodup_app in ND. destruct NU as (NUd & Nu & NUx). destruct ND as (_ & Nd & NDx). change (Us R [t]) with (g_u t ++ []) in Nu, NUx. change (Ds R [t]) with (g_d t ++ []) in Nd, NDx. rewrite app_nil_r in *.
  assert (Sym : forall x i y j, In (x, i) m -> In (y, j) m -> dm i j = dm j i).
  { apply (stage_sym done m dm St NUd); [|intros t' H'; apply W; apply in_or_app; now left|intros x Hx C; apply (NIU x Hx); rewrite (Us_app R); apply in_or_app; now left].
    clear - TP. induction done as [|t0 d IH]; [exact Coq.Init.Logic.I|]. destruct TP as [T1 T2]. split; [|now apply IH]. intros x Hx C. apply (T1 x Hx). change (Us R ((t0 :: d) ++ [t])) with (Us R (t0 :: d ++ [t])). rewrite app_comm_cons. rewrite (Us_app R). apply in_or_app. now left. }
  assert (Uk : forall x, In x (g_u t) -> ~ In x (map fst m)).
  { intros x Hx C. apply K in C. destruct C as [[C|C] _]; [|exact (NUx x C Hx)]. apply (NIU x C). rewrite (Us_app R). apply in_or_app. right. cbn. now rewrite app_nil_r. }
  assert (TPt : forall x, In x (g_d t) -> ~ In x (g_u t)).
  { intros x Hx C. exact (Uk x C (Hd x Hx)). }
  (* the new map *)
  assert (Ren : forall x, In x (map fst m) -> (In x (g_d t) /\ In (renf (g_d t) (g_u t) x) (g_u t)) \/ (~ In x (g_d t) /\ renf (g_d t) (g_u t) x = x)).
  { intros x Hx. destruct (in_dec Z.eq_dec x (g_d t)) as [Hxu|Hxu]; [left|right].
    - split; [exact Hxu|]. apply (In_nth _ _ 0) in Hxu. destruct Hxu as (p & Lp & <-). rewrite renf_in by (auto; lia). apply nth_In. lia.
    - split; [exact Hxu|]. apply renf_out; auto. }
  assert (Nk : NoDup (map (fun e => renf (g_d t) (g_u t) (fst e)) m)).
  { rewrite <- (map_map fst (renf (g_d t) (g_u t))). apply nodup_map_on; [exact N1|]. intros x y Hx Hy E.
    destruct (Ren x Hx) as [[Ux Dx]|[Ux Rx]], (Ren y Hy) as [[Uy Dy]|[Uy Ry]].
    - apply (In_nth _ _ 0) in Ux. destruct Ux as (p & Lp & <-). apply (In_nth _ _ 0) in Uy. destruct Uy as (q & Lq & <-). rewrite !renf_in in E by (auto; lia). f_equal. apply (proj1 (NoDup_nth (g_u t) 0) Nu); auto; lia.
    - exfalso. apply (Uk y); [|exact Hy]. rewrite <- Ry, <- E. exact Dx.
    - exfalso. apply (Uk x); [|exact Hx]. rewrite <- Rx, E. exact Dy.
    - congruence. }
  assert (Er : retag (g_d t) (g_u t) m = ren_map (g_d t) (g_u t) m) by (unfold retag, ren_map; apply dict_nodup; rewrite map_map; exact Nk).
  assert (Fin : forall t0 dm', legs_of t0 = legs_of t ->
    (forall phi, units phi -> (forall t', In t' (done ++ [t0]) -> follows phi t') -> forall x i y j, In (x, i) m -> In (y, j) m -> dm' i j = B phi (renf (g_d t) (g_u t) x) (renf (g_d t) (g_u t) y)) ->
    stage (done ++ [t0]) (ren_map (g_d t) (g_u t) m) dm').
  { intros t0 dm' El HB'. unfold legs_of in El. injection El as E1 E2 _. split; [unfold ren_map; rewrite map_map; exact Nk|]. split; [unfold ren_map; rewrite map_map; exact N2|]. split.
    - intros x. rewrite (Us_app R), (Ds_app R), !in_app_iff. change (Us R [t0]) with (g_u t0 ++ []). change (Ds R [t0]) with (g_d t0 ++ []). rewrite !app_nil_r, E1, E2.
      unfold ren_map. rewrite map_map. cbn [fst]. rewrite <- (map_map fst (renf (g_d t) (g_u t))), in_map_iff. split.
      + intros (y & <- & Hy). destruct (Ren y Hy) as [[Uy Dy]|[Uy ->]].
        * split; [tauto|]. intros [C|C]; [|exact (TPt _ C Dy)].
          (* an up leg of t is not a down leg of an earlier tensor *)
          apply in_Ds in C. destruct C as (t' & Ht' & C). apply (topo_before R done [t] t' _ TP Ht' C). cbn. rewrite app_nil_r. exact Dy.
        * apply K in Hy. tauto.
      + intros [H1 H2]. destruct (in_dec Z.eq_dec x (g_u t)) as [Hu|Hu].
        * apply (In_nth _ _ 0) in Hu. destruct Hu as (p & Lp & <-). exists (nth p (g_d t) 0). split; [apply renf_in; auto; lia|]. apply Hd. apply nth_In. lia.
        * exists x. split; [apply renf_out; auto; tauto|]. apply K. tauto.
    - intros phi U F x i y j Hx Hy. unfold ren_map in Hx, Hy. apply in_map_iff in Hx. apply in_map_iff in Hy. destruct Hx as ([x' i'] & Ex & Hx). destruct Hy as ([y' j'] & Ey & Hy). cbn [fst snd] in Ex, Ey. injection Ex as <- <-. injection Ey as <- <-. exact (HB' phi U F _ _ _ _ Hx Hy). }
  unfold fit_step. cbn [snd fst]. destruct (fit_ent || (0 <? g_core t)%nat) eqn:Ef.
  - destruct (mapM_keys m (g_d t) Hd) as (eff & Ee). rewrite Ee. cbn [bind]. destruct (mapM_nth _ _ _ Ee) as [Le Ge].
    assert (In_e : forall q, (q < length (g_d t))%nat -> In (nth q (g_d t) 0, nth q eff 0%nat) m) by (intros q Hq; apply (dget_nodup nat m _ _ N1); now apply Ge).
    pose proof (local_ok (length eff) (fun i j => dm (nth i eff 0%nat) (nth j eff 0%nat)) ltac:(rewrite Le, Ld; exact Sz)) as Lo.
    destruct (local_eig R eigh order neg (length eff) (fun i j => dm (nth i eff 0%nat) (nth j eff 0%nat))) as [xb ub]. cbn [fst snd] in Lo.
    destruct Lo as (Lx & Co & Ro & Ei). { intros i j Hi Hj. apply (Sym (nth i (g_d t) 0) _ (nth j (g_d t) 0) _); apply In_e; lia. }
    rewrite Le, Ld in Lx, Co, Ro, Ei.
    exists (GT R (g_u t) (g_d t) (g_core t) ub (firstn (g_core t) xb)). do 2 eexists. split; [intros rnd ts; rewrite Er; reflexivity|].
    split; [reflexivity|]. split; [cbn [g_occ]; apply firstn_length_le; lia|]. split; [split; cbn [g_u g_rot]; assumption|].
    assert (Sf : forall phi, units phi -> (forall t', In t' (done ++ [GT R (g_u t) (g_d t) (g_core t) ub (firstn (g_core t) xb)]) -> follows phi t') -> forall x i y j, In (x, i) m -> In (y, j) m ->
      rot_cols R eff (transp R ub) (rot_rows R eff (transp R ub) dm) i j = B phi (renf (g_d t) (g_u t) x) (renf (g_d t) (g_u t) y)).
    { intros phi U F. apply (rot_stage m (GT R (g_u t) (g_d t) (g_core t) ub (firstn (g_core t) xb)) eff dm phi N1 N2 Nd Ld Ee).
      - apply F. apply in_or_app. right. now left.
      - intros x i y j Hx Hy. apply (HB phi U); auto. intros t' Ht'. apply F. apply in_or_app. now left. }
    split; [apply Fin; [reflexivity|exact Sf]|].
    intros phi U F p Hp. cbn [g_occ]. rewrite firstn_nth by exact Hp.
    assert (F1 : follows phi (GT R (g_u t) (g_d t) (g_core t) ub (firstn (g_core t) xb))) by (apply F; apply in_or_app; right; now left).
    assert (F2 : forall t', In t' done -> follows phi t') by (intros t' Ht'; apply F; apply in_or_app; now left).
    rewrite (B_rot phi _ p _ F1) by (cbn [g_u]; lia). cbn [g_u g_d g_rot].
    rewrite (bsum_ext R _ _ _ (fun q => nth p xb (r0 R) *' (ub q p *' ub q p))).
    + rewrite bsum_mull, (Co p p) by lia. unfold kd. rewrite Nat.eqb_refl. ring.
    + intros q Hq. apply in_seq in Hq. rewrite B_sym, (B_rot phi _ p _ F1) by (cbn [g_u]; lia). cbn [g_u g_d g_rot].
      rewrite (bsum_ext R _ _ _ (fun q' => dm (nth q eff 0%nat) (nth q' eff 0%nat) *' ub q' p)).
      * rewrite (Ei q p) by lia. ring.
      * intros q' Hq'. apply in_seq in Hq'. rewrite (HB phi U F2 (nth q (g_d t) 0) (nth q eff 0%nat) (nth q' (g_d t) 0) (nth q' eff 0%nat)) by (apply In_e; lia). rewrite B_sym. ring.
  - apply orb_false_iff in Ef. destruct Ef as [_ Ef]. apply Nat.ltb_ge in Ef.
    exists (GT R (g_u t) (g_d t) (g_core t) (id_mat R) []). do 2 eexists. split; [intros rnd ts; rewrite Er; reflexivity|].
    split; [reflexivity|]. split; [cbn; lia|]. split.
    { split; cbn [g_u g_rot]; intros p p' Hp Hp'; [now apply id_ortho|]. rewrite (bsum_ext R _ _ _ (fun q => id_mat R q p *' id_mat R q p')); [now apply id_ortho|]. intros q _. unfold id_mat. now rewrite (Nat.eqb_sym p), (Nat.eqb_sym p'). }
    split; [|intros phi U F p Hp; lia]. apply Fin; [reflexivity|]. intros phi U F x i y j Hx Hy.
    assert (F1 : follows phi (GT R (g_u t) (g_d t) (g_core t) (id_mat R) [])) by (apply F; apply in_or_app; right; now left).
    assert (F2 : forall t', In t' done -> follows phi t') by (intros t' Ht'; apply F; apply in_or_app; now left).
    assert (Bi : forall x y, In x (map fst m) -> B phi (renf (g_d t) (g_u t) x) y = B phi x y).
    { intros x0 y0 Hx0. destruct (in_dec Z.eq_dec x0 (g_d t)) as [H|H]; [|now rewrite renf_out by auto]. apply (In_nth _ _ 0) in H. destruct H as (p & Lp & <-). rewrite renf_in by (auto; lia).
      rewrite (B_rot phi _ p _ F1) by (cbn [g_u]; lia). cbn [g_u g_d g_rot]. apply (id_sum (length (g_u t)) p (fun q => B phi (nth q (g_d t) 0) y0)). lia. }
    assert (Hxk : In x (map fst m)) by (apply in_map_iff; exists (x, i); auto). assert (Hyk : In y (map fst m)) by (apply in_map_iff; exists (y, j); auto).
    rewrite (Bi x _ Hxk), B_sym, (Bi y _ Hyk), B_sym. exact (HB phi U F2 x i y j Hx Hy).
Qed.
Lemma legs_in : forall a b : list gt, map legs_of a = map legs_of b -> forall t, In t a -> exists t', In t' b /\ legs_of t' = legs_of t.
Proof. intros a b E t Ht. apply (in_map legs_of) in Ht. rewrite E in Ht. apply in_map_iff in Ht. destruct Ht as (t' & Q & H). eauto. Qed.
Lemma topo_prefix : forall a b : list gt, topo R (a ++ b) -> topo R a.
Proof.
  induction a as [|t a IH]; intros b T; [exact Coq.Init.Logic.I|]. destruct T as [T1 T2]. split; [|now apply (IH b)]. intros x Hx C. apply (T1 x Hx). change (Us R ((t :: a) ++ b)) with (Us R (t :: a ++ b)). rewrite app_comm_cons, (Us_app R). apply in_or_app. now left.
Qed.
Lemma loop_fit : forall l done od m dm, map legs_of done = map legs_of od -> stage done m dm ->
  NoDup (Us R (od ++ map snd l)) -> NoDup (Ds R (od ++ map snd l)) -> topo R (od ++ map snd l) ->
  (forall t, In t (od ++ map snd l) -> length (g_d t) = length (g_u t) /\ (g_core t <= length (g_u t))%nat /\ sz (length (g_u t))) ->
  (forall x, In x I <-> In x (Ds R (od ++ map snd l)) /\ ~ In x (Us R (od ++ map snd l))) ->
  exists L0 m' dm', (forall rnd ts, foldM (step rnd) (m, dm, ts) l = Some (m', dm', fold_left (fun ts e => set_nth (fst e) (rt rnd (snd e)) ts) L0 ts)) /\
    map fst L0 = map fst l /\ map legs_of (map snd L0) = map legs_of (map snd l) /\ (forall e, In e L0 -> length (g_occ (snd e)) = g_core (snd e) /\ ortho (snd e)) /\
    forall phi, units phi -> (forall t, In t (done ++ map snd L0) -> follows phi t) ->
      forall e p, In e L0 -> (p < g_core (snd e))%nat -> B phi (nth p (g_u (snd e)) 0) (nth p (g_u (snd e)) 0) = nth p (g_occ (snd e)) (r0 R).
Proof.
  induction l as [|[num t] l IH]; intros done od m dm El St NU ND TP W HI.
  - exists [], m, dm. split; [reflexivity|]. repeat split; auto; intros; contradiction.
  - cbn [map snd] in *. destruct (Us_legs done od El) as [EU ED].
    assert (Eq : forall x : list gt, od ++ t :: x = (od ++ [t]) ++ x) by (intros x; now rewrite <- app_assoc).
    assert (El1 : map legs_of (done ++ [t]) = map legs_of (od ++ [t])) by (rewrite !map_app, El; reflexivity).
    destruct (Us_legs _ _ El1) as [EU1 ED1].
    pose proof NU as NU0. pose proof ND as ND0. rewrite Eq, (Us_app R) in NU0. rewrite Eq, (Ds_app R) in ND0. apply CanonProofs.nodup_app in NU0. apply CanonProofs.nodup_app in ND0. destruct NU0 as (NU1 & _ & NU2), ND0 as (ND1 & _ & ND2).
    destruct (step_ok done t num m dm St) as (t0 & m1 & dm1 & E & Lg & Lo & Or & St' & HBv).
    + rewrite EU1. exact NU1.
    + rewrite ED1. exact ND1.
    + apply (topo_legs (od ++ [t])); [now symmetry|]. rewrite Eq in TP. exact (topo_prefix _ _ TP).
    + intros t' Ht'. destruct (legs_in _ _ El1 t' Ht') as (t2 & H2 & L2). unfold legs_of in L2. injection L2 as L2a L2b _. rewrite <- L2a, <- L2b. apply W. rewrite Eq. apply in_or_app. now left.
    + apply W. apply in_or_app. right. now left.
    + apply W. apply in_or_app. right. now left.
    + intros x Hx C. rewrite EU1 in C. apply HI in Hx. apply (proj2 Hx). rewrite Eq, (Us_app R). apply in_or_app. now left.
    + intros x Hx. destruct St as (_ & _ & K & _). apply K. rewrite EU, ED. split.
      * destruct (in_dec Z.eq_dec x (Us R (od ++ t :: map snd l))) as [H|H].
        -- right. rewrite (Us_app R) in H. apply in_app_or in H. destruct H as [H|H]; [exact H|]. exfalso. exact (proj1 (topo_suffix R _ _ TP) x Hx H).
        -- left. apply HI. split; [|exact H]. apply in_Ds. exists t. split; [apply in_or_app; right; now left|exact Hx].
      * intros C. rewrite (Ds_app R) in ND1. apply CanonProofs.nodup_app in ND1. destruct ND1 as (_ & _ & ND3). apply (ND3 x C). cbn. now rewrite app_nil_r.
    + destruct (IH (done ++ [t0]) (od ++ [t]) m1 dm1) as (L0 & m' & dm' & Ef & Fs & Lgs & Occ & HB').
      * rewrite !map_app. cbn [map]. now rewrite El, Lg.
      * exact St'.
      * now rewrite <- Eq.
      * now rewrite <- Eq.
      * now rewrite <- Eq.
      * now rewrite <- Eq.
      * now rewrite <- Eq.
      * exists ((num, t0) :: L0), m', dm'. split; [intros rnd ts; cbn [foldM]; rewrite E; cbn [bind]; apply Ef|]. unfold legs_of in Lg. injection Lg as G1 G2 G3.
        split; [cbn [map fst]; now rewrite Fs|]. split; [cbn [map snd]; rewrite Lgs; unfold legs_of at 1; rewrite G1, G2, G3; reflexivity|]. split.
        -- intros e [<-|He]; [cbn [snd]; rewrite G3; auto|now apply Occ].
        -- intros phi U F e p He Hp. rewrite <- app_assoc in HB'. cbn [app] in HB'. destruct He as [<-|He].
           ++ cbn [snd] in *. rewrite G1. rewrite G3 in Hp. apply (HBv phi U); [|exact Hp]. intros t' Ht'. apply F. cbn [map snd]. apply in_app_or in Ht'. apply in_or_app. destruct Ht' as [H|[<-|[]]]; [now left|right; now left].
           ++ exact (HB' phi U F e p He Hp).
Qed.
End Loop.
End Fit.
