(** C34: sweeps visit every window and follow the schedule (DMRG, Linear, GreensFunction, TDDMRG). *)
From Coq Require Import ZArith Bool List Lia Sorted Arith QArith Qcanon.
From Verif Require Import IndexLib RingLib OrdLib SweepModel SweepProofs.
Import ListNotations.
Open Scope nat_scope.

Section Spec.
Variable K : ORing.
Notation "0'" := (r0 K).
(** specification: entry k of a schedule, the last entry when the schedule is shorter *)
Definition entry {X} (l : list X) (k : nat) (d : X) : X := nth (Nat.min k (length l - 1)) l d.
Definition noise_of (noises : list K) (k : nat) : K := match noises with [] => 0' | _ => entry noises k 0' end.
(* given thresholds first; then 1E-10 or a tenth of tol for a sweep without noise, the noise otherwise, at least 1E-10 *)
Definition larger (a b c : K) : Prop := (c = a \/ c = b) /\ ole a c /\ ole b c.
Definition thrd_of (floor_thr tenth tol : K) (noises thrds : list K) (k : nat) (t : K) : Prop :=
  (k < length thrds -> t = nth k thrds 0') /\
  (length thrds <= k -> noise_of noises k = 0' -> tol = 0' -> t = floor_thr) /\
  (length thrds <= k -> noise_of noises k = 0' -> tol <> 0' -> larger (rmul K tol tenth) floor_thr t) /\
  (length thrds <= k -> noise_of noises k <> 0' -> larger (noise_of noises k) floor_thr t).
Definition ordered (fwd : bool) (l : list nat) : Prop := if fwd then StronglySorted lt l else StronglySorted gt l.

Variables (floor_thr tenth big : K) (St : Type).
Section Gen.
Variable E : Type.
Variable site : St -> call K -> St * E.
Variables (start : E) (better : E -> E -> Prop) (change : E -> E -> K) (dir : nat -> bool).
Variables (n_sites dot : nat) (init_site : option nat) (bdims : list Z) (noises thrds : list K) (n_sweeps : nat) (tol : K).
(* the stopping rule after sweep k *)
Definition stop_at (targets : list E) (k : nat) : Prop :=
  0 < k /\ olt (change (nth k targets start) (nth (k - 1) targets start)) tol /\ noise_of noises k = noise_of noises (n_sweeps + length noises).
(* a run: the calls with their values, grouped by sweep *)
Definition follows (st : St) (s : solved K St E) : Prop :=
  exists hist : list (list (call K * E)),
    r_trace _ _ _ (s_res _ _ _ s) = map fst (concat hist) /\
    runs K St E site st (concat hist) (r_state _ _ _ (s_res _ _ _ s)) /\
    length (r_targets _ _ _ (s_res _ _ _ s)) = length hist /\ length hist <= n_sweeps /\
    (forall k c v, k < length hist -> In (c, v) (nth k hist []) ->
       c_sweep K c = k /\ c_fwd K c = dir k /\ c_bdim K c = entry bdims k 0%Z /\ c_noise K c = noise_of noises k /\ thrd_of floor_thr tenth tol noises thrds k (c_thrd K c)) /\
    (forall k, k < length hist -> let sites := map (fun cv => c_site K (fst cv)) (nth k hist []) in
       ordered (dir k) sites /\ forall i, In i sites <-> i + dot <= n_sites /\ (forall s0, init_site = Some s0 -> dir k = true -> s0 <= i)) /\
    (forall k, k < length hist -> let t := nth k (r_targets _ _ _ (s_res _ _ _ s)) start in
       (t = start \/ In t (map snd (nth k hist []))) /\ forall v, v = start \/ In v (map snd (nth k hist [])) -> ~ better v t) /\
    (forall k, k + 1 < length hist -> ~ stop_at (r_targets _ _ _ (s_res _ _ _ s)) k) /\
    (length hist = n_sweeps \/ (0 < length hist /\ stop_at (r_targets _ _ _ (s_res _ _ _ s)) (length hist - 1))).
End Gen.

Lemma bdims_spec : forall n b bd k, pad_bdims n b = Some bd -> k < n -> nth k bd 0%Z = entry b k 0%Z.
Proof.
  intros n b bd k H Hk. unfold pad_bdims in H. destruct (Nat.ltb_spec (length b) n) as [L|L].
  - destruct b as [|x b]; [discriminate|]. assert (Eb : bd = (x :: b) ++ repeat (last (x :: b) 0%Z) (n - length (x :: b))) by congruence. rewrite Eb. apply pad_nth; [discriminate|lia].
  - injection H as <-. unfold entry. f_equal. lia.
Qed.
Lemma noises_spec : forall n l k, k < n -> nth k (pad_noises K n l) 0' = noise_of l k.
Proof. intros n [|x l] k Hk; unfold pad_noises, noise_of; [now apply nth_repeat_lt|]. apply pad_nth; [discriminate|lia]. Qed.
Lemma noises_last : forall n l, last (pad_noises K n l) 0' = noise_of l (n + length l).
Proof.
  intros n [|x l]; [apply last_repeat|]. unfold pad_noises, noise_of, entry. rewrite pad_last, last_as_nth. f_equal. cbn [length]. lia.
Qed.
Lemma kmax_spec : forall a b, larger a b (kmax K a b).
Proof.
  intros a b. unfold kmax, larger. destruct (oltb a b) eqn:L.
  - apply oltb_true in L. split; [now right|]. split; [now apply olt_ole|apply ole_refl].
  - apply oltb_false in L. split; [now left|]. split; [apply ole_refl|exact L].
Qed.
Lemma thrds_spec : forall n tol noises thrds k, k < n -> thrd_of floor_thr tenth tol noises thrds k (nth k (pad_thrds K floor_thr tenth n tol (pad_noises K n noises) thrds) 0').
Proof.
  intros n tol noises thrds k Hk. unfold thrd_of, pad_thrds. destruct (Nat.ltb_spec (length thrds) n) as [L|L].
  2: { split; [reflexivity|]. split; [intros; lia|]. split; intros; lia. }
  split; [intros; now rewrite app_nth1 by lia|].
  assert (G : length thrds <= k -> nth k (thrds ++ map (fun i => auto_thrd K floor_thr tenth tol (nth i (pad_noises K n noises) 0')) (seq (length thrds) (n - length thrds))) 0' = auto_thrd K floor_thr tenth tol (noise_of noises k)).
  { intros Hl. rewrite app_nth2 by lia. set (f := fun i => auto_thrd K floor_thr tenth tol (nth i (pad_noises K n noises) 0')). rewrite (nth_indep _ 0' (f 0)) by (rewrite map_length, seq_length; lia). rewrite map_nth, seq_nth by lia. unfold f. rewrite noises_spec by lia. do 2 f_equal. lia. }
  split; [|split]; intros Hl; rewrite (G Hl); unfold auto_thrd; destruct (oeqb_spec K (noise_of noises k) 0') as [Z|N]; intros; try contradiction; destruct (oeqb_spec K tol 0'); try contradiction; auto using kmax_spec.
Qed.
Lemma drive_follows : forall E site start upd change dirf dir n_sites dot init_site tol bdims noises thrds n_sweeps fwd st s (ltb : E -> E -> bool),
  (forall a b, upd a b = if ltb b a then b else a) -> (forall a b c, ltb a b = false -> ltb b c = false -> ltb a c = false) -> (forall a b, ltb a b = true -> ltb b a = false) -> (forall a, ltb a a = false) ->
  dirf 0 fwd = dir 0 -> (forall iw, dirf (S iw) (negb (dir iw)) = dir (S iw)) ->
  drive K floor_thr tenth St E site start upd change dirf n_sites dot init_site tol bdims noises thrds n_sweeps fwd st = Some s ->
  follows E site start (fun a b => ltb a b = true) change dir n_sites dot init_site bdims noises thrds n_sweeps tol st s.
Proof.
  intros E site start upd change dirf dir n_sites dot init_site tol bdims noises thrds n_sweeps fwd st s ltb Hu Ht Ha Hi D0 DS H. unfold drive in H.
  destruct (pad_bdims n_sweeps bdims) as [bd|] eqn:Eb; [|discriminate]. injection H as <-. unfold follows. cbn [s_res].
  destruct (sweeps_spec K St E site start upd change dirf n_sites dot init_site tol dir bd (pad_noises K n_sweeps noises) (pad_thrds K floor_thr tenth n_sweeps tol (pad_noises K n_sweeps noises) thrds) DS n_sweeps 0 fwd st [] [] D0 eq_refl) as (hist & H1 & H2 & H3 & H4 & H5 & H6 & H7).
  set (r := sweeps _ _ _ _ _ _ _ _ _ _ _ _ _ _ _ _ _ _ _ _ _) in *. cbn [app plus] in *.
  assert (SI : forall k, k < n_sweeps -> (stops K E start change tol (pad_noises K n_sweeps noises) (r_targets K St E r) k <-> stop_at E start change noises n_sweeps tol (r_targets K St E r) k)).
  { intros k Hk. unfold stops, stop_at. rewrite noises_spec, noises_last by exact Hk. tauto. }
  exists hist. split; [exact H1|]. split; [exact H2|]. split; [rewrite H3; apply map_length|]. split; [exact H4|]. split; [|split; [|split; [|split]]].
  - intros k c v Hk Hc. apply (in_map fst) in Hc. rewrite H5 in Hc by exact Hk. apply in_map_iff in Hc. destruct Hc as (i & Ec & _). change (Call K k (dir k) i (nth k bd 0%Z) (nth k (pad_noises K n_sweeps noises) 0') (nth k (pad_thrds K floor_thr tenth n_sweeps tol (pad_noises K n_sweeps noises) thrds) 0') = c) in Ec. rewrite <- Ec. cbn [fst c_sweep c_fwd c_bdim c_noise c_thrd].
    split; [reflexivity|]. split; [reflexivity|]. split; [apply (bdims_spec n_sweeps); [exact Eb|lia]|]. split; [apply noises_spec; lia|apply thrds_spec; lia].
  - intros k Hk. cbv zeta. assert (Es : map (fun cv => c_site K (fst cv)) (nth k hist []) = visited init_site (dir k) (windows n_sites dot (dir k))).
    { rewrite <- (map_map fst (c_site K)), H5 by exact Hk. rewrite map_map. cbn [c_site]. apply map_id. }
    rewrite Es. split.
    + unfold ordered, visited. pose proof (windows_sorted n_sites dot (dir k)) as W. destruct (dir k); now apply filter_sorted.
    + intros i. unfold visited. rewrite filter_In, windows_in, negb_true_iff. unfold skipped. destruct init_site as [s0|].
      * rewrite andb_false_iff, Nat.ltb_ge. split; intros [A B]; (split; [exact A|]).
        -- intros s1 E1. injection E1 as <-. intros D. destruct B; [congruence|assumption].
        -- destruct (dir k) eqn:D; [right; now apply (B s0)|now left].
      * split; intros [A B]; (split; [exact A|]); [discriminate|reflexivity].
  - intros k Hk. cbv zeta. rewrite H3. rewrite (nth_indep _ start (fold_left upd (map (@snd (call K) E) []) start)) by (rewrite map_length; exact Hk). rewrite (map_nth (fun h : list (call K * E) => fold_left upd (map snd h) start)).
    destruct (fold_min E ltb upd Hu Ht Ha Hi (map snd (nth k hist [])) start) as [M1 M2]. split; [exact M1|]. intros v Hv C. rewrite M2 in C by exact Hv. discriminate.
  - intros k Hk C. apply SI in C; [|lia]. exact (H6 k ltac:(lia) Hk C).
  - destruct H7 as [H7|[H7 H8]]; [now left|right]. split; [exact H7|]. apply SI; [lia|exact H8].
Qed.

Lemma lex_spec : forall a b, lex_lt K a b = true <-> exists i, (forall j, j < i -> j < length a /\ j < length b /\ nth j a 0' = nth j b 0') /\ i < length b /\ (length a <= i \/ olt (nth i a 0') (nth i b 0')).
Proof.
  induction a as [|x a IH]; intros b; destruct b as [|y b]; cbn [lex_lt].
  - split; [discriminate|]. intros (i & _ & H & _). cbn in H. lia.
  - split; [|reflexivity]. intros _. exists 0. split; [intros; lia|]. cbn. split; [lia|left; lia].
  - split; [discriminate|]. intros (i & _ & H & _). cbn in H. lia.
  - rewrite orb_true_iff, andb_true_iff, oltb_true, IH. split.
    + intros [H|[H (i & H1 & H2 & H3)]].
      * exists 0. split; [intros; lia|]. cbn. split; [lia|right; exact H].
      * exists (S i). destruct (oeqb_spec K x y) as [->|]; [|discriminate]. split; [|cbn; split; [lia|destruct H3; [left; lia|right; assumption]]].
        intros [|j] Hj; cbn; [split; [lia|split; [lia|reflexivity]]|]. destruct (H1 j ltac:(lia)) as (A & B & C). split; [lia|split; [lia|exact C]].
    + intros (i & H1 & H2 & H3). destruct i as [|i].
      * left. cbn in H3. destruct H3; [lia|assumption].
      * right. destruct (H1 0 ltac:(lia)) as (_ & _ & C). cbn in C. subst y. split; [apply oeqb_refl|]. exists i. split; [|cbn in H2, H3; split; [lia|destruct H3; [left; lia|right; assumption]]].
        intros j Hj. destruct (H1 (S j) ltac:(lia)) as (A & B & D). cbn in A, B, D. split; [lia|split; [lia|exact D]].
Qed.
(** C34 for DMRG: lists of roots are compared as tuples; the direction alternates starting with the argument *)
Theorem c34_dmrg : forall site nroots n_sites init_site bdims noises thrds n_sweeps tol dot fwd st s,
  dmrg_solve K floor_thr tenth big St site nroots n_sites init_site bdims noises thrds n_sweeps tol dot fwd st = Some s ->
  follows (list K) site (repeat big nroots)
    (fun a b => exists i, (forall j, j < i -> j < length a /\ j < length b /\ nth j a 0' = nth j b 0') /\ i < length b /\ (length a <= i \/ olt (nth i a 0') (nth i b 0')))
    (fun a b => kabs K (rsub K (nth 0 a 0') (nth 0 b 0'))) (fun k => xorb fwd (Nat.odd k)) n_sites dot init_site bdims noises thrds n_sweeps tol st s.
Proof.
  intros site nroots n_sites init_site bdims noises thrds n_sweeps tol dot fwd st s H.
  unfold dmrg_solve in H. apply (drive_follows (list K) _ _ _ _ _ (fun k => xorb fwd (Nat.odd k)) _ _ _ _ _ _ _ _ _ _ _ (lex_lt K)) in H; auto using lex_irr, lex_asym.
  - destruct H as (hist & H1 & H2 & H3 & H4 & H5 & H6 & H7 & H8 & H9). exists hist. split; [exact H1|]. split; [exact H2|]. split; [exact H3|]. split; [exact H4|]. split; [exact H5|]. split; [exact H6|]. split; [|split; [exact H8|exact H9]].
    intros k Hk. destruct (H7 k Hk) as [A B]. split; [exact A|]. intros v Hv C. apply (B v Hv). now apply lex_spec.
  - intros a b c. apply lex_trans_f.
  - destruct fwd; reflexivity.
  - intros iw. rewrite Nat.odd_succ, <- Nat.negb_odd. destruct fwd, (Nat.odd iw); reflexivity.
Qed.
(** C34 for the linear solver and the Green's function: even sweeps go forward *)
Theorem c34_linear : forall site n_sites bdims noises thrds n_sweeps tol dot st s,
  linear_solve K floor_thr tenth big St site n_sites bdims noises thrds n_sweeps tol dot st = Some s ->
  follows K site big (fun a b => olt a b) (fun a b => kabs K (rsub K a b)) Nat.even n_sites dot None bdims noises thrds n_sweeps tol st s.
Proof.
  intros site n_sites bdims noises thrds n_sweeps tol dot st s H. unfold linear_solve in H. apply (drive_follows K _ _ _ _ _ Nat.even _ _ _ _ _ _ _ _ _ _ _ oltb) in H; auto using oltb_irr, oltb_asym.
  - destruct H as (hist & H1 & H2 & H3 & H4 & H5 & H6 & H7 & H8 & H9). exists hist. split; [exact H1|]. split; [exact H2|]. split; [exact H3|]. split; [exact H4|]. split; [exact H5|]. split; [exact H6|]. split; [|split; [exact H8|exact H9]].
    intros k Hk. destruct (H7 k Hk) as [A B]. split; [exact A|]. intros v Hv C. apply (B v Hv). now apply oltb_true.
  - intros a b c. apply oltb_trans_f.
Qed.
Theorem c34_green : forall G gabs gbig site n_sites bdims noises thrds n_sweeps tol dot st s,
  green_solve K floor_thr tenth St G gabs gbig site n_sites bdims noises thrds n_sweeps tol dot st = Some s ->
  follows G site gbig (fun a b => olt (gabs a) (gabs b)) (fun a b => kabs K (rsub K (gabs a) (gabs b))) Nat.even n_sites dot None bdims noises thrds n_sweeps tol st s.
Proof.
  intros G gabs gbig site n_sites bdims noises thrds n_sweeps tol dot st s H. unfold green_solve in H. apply (drive_follows G _ _ _ _ _ Nat.even _ _ _ _ _ _ _ _ _ _ _ (fun a b => oltb (gabs a) (gabs b))) in H; auto using oltb_irr, oltb_asym.
  - destruct H as (hist & H1 & H2 & H3 & H4 & H5 & H6 & H7 & H8 & H9). exists hist. split; [exact H1|]. split; [exact H2|]. split; [exact H3|]. split; [exact H4|]. split; [exact H5|]. split; [exact H6|]. split; [|split; [exact H8|exact H9]].
    intros k Hk. destruct (H7 k Hk) as [A B]. split; [exact A|]. intros v Hv C. apply (B v Hv). now apply oltb_true.
  - intros a b c. apply oltb_trans_f.
Qed.
(** the drivers fail only on an empty list of bond dimensions *)
Theorem c34_defined : forall E site start upd change dirf n_sites dot init_site tol bdims noises thrds n_sweeps fwd st,
  drive K floor_thr tenth St E site start upd change dirf n_sites dot init_site tol bdims noises thrds n_sweeps fwd st = None <-> bdims = [] /\ 0 < n_sweeps.
Proof.
  intros. unfold drive, pad_bdims. destruct bdims as [|x b].
  - cbn [length]. destruct (Nat.ltb_spec 0 n_sweeps) as [L|L]; split; intros X; auto; try discriminate. destruct X. lia.
  - destruct (Nat.ltb (length (x :: b)) n_sweeps); (split; [discriminate|intros [X _]; discriminate]).
Qed.

(** *** time evolution *)
Section TD.
Variable E : Type.
Variable site : St -> tcall -> St * E.
Variable zero : E.
Variables (n_sites dot n_sub : nat).
Fixpoint truns (st : St) (h : list (tcall * E)) (st' : St) : Prop :=
  match h with [] => st = st' | (c, v) :: h' => exists s, site st c = (s, v) /\ truns s h' st' end.
Lemma truns_app : forall h1 h2 a b c, truns a h1 b -> truns b h2 c -> truns a (h1 ++ h2) c.
Proof. induction h1 as [|[cl v] h1 IH]; intros h2 a b c H1 H2; cbn in *; [now subst|]. destruct H1 as (s & E1 & H1). exists s. split; [exact E1|now apply (IH h2 s b c)]. Qed.
Definition tcall_at (iw isw : nat) (fwd : bool) (bd : Z) (i : nat) : tcall :=
  let ev := if fwd then Nat.eqb (i + dot) n_sites else Nat.eqb i 0 in TCall iw isw fwd i bd ev (Nat.eqb (isw + 1) n_sub && ev).
Lemma td_fold : forall iw isw (fwd : bool) bd l st e tr, exists h st',
  fold_left (fun acc i => let '(st, e, tr) := acc in
    let ev := if fwd then Nat.eqb (i + dot) n_sites else Nat.eqb i 0 in
    let c := TCall iw isw fwd i bd ev (Nat.eqb (isw + 1) n_sub && ev) in
    let '(st, v) := site st c in (st, v, tr ++ [c])) l (st, e, tr)
  = (st', last (map snd h) e, tr ++ map fst h) /\ truns st h st' /\ map fst h = map (tcall_at iw isw fwd bd) l.
Proof.
  intros iw isw fwd bd. induction l as [|i l IH]; intros st e tr.
  - exists [], st. cbn. rewrite app_nil_r. auto.
  - destruct (site st (tcall_at iw isw fwd bd i)) as [s v] eqn:Es. destruct (IH s v (tr ++ [tcall_at iw isw fwd bd i])) as (h & st' & Ef & R & M).
    exists ((tcall_at iw isw fwd bd i, v) :: h), st'. split; [|split; [exists s; auto|cbn [map fst]; f_equal; exact M]].
    etransitivity; [|etransitivity; [exact Ef|]].
    + cbn [fold_left]. unfold tcall_at in Es. cbv zeta in *. now rewrite Es.
    + cbn [map fst snd]. rewrite <- app_assoc. f_equal. f_equal. destruct h as [|[c1 v1] h]; [reflexivity|]. cbn [map snd]. clear. generalize (map snd h). intros l. revert v1. induction l as [|x l IHl]; intros v1; [reflexivity|]. exact (IHl x).
Qed.
Definition pair_at (j : nat) : nat * nat := (j / n_sub, j mod n_sub).
Lemma pairs_seq : 0 < n_sub -> forall n, flat_map (fun a => map (fun b => (a, b)) (seq 0 n_sub)) (seq 0 n) = map pair_at (seq 0 (n * n_sub)).
Proof.
  intros Hs. induction n as [|n IH]; [reflexivity|]. rewrite seq_S, flat_map_app, IH. cbn [flat_map plus]. rewrite app_nil_r. replace (S n * n_sub) with (n * n_sub + n_sub) by lia. rewrite seq_app, map_app. f_equal. cbn [plus].
  apply (nth_ext _ _ (0, 0) (0, 0)); [now rewrite !map_length, !seq_length|]. intros b Hb. rewrite map_length, seq_length in Hb.
  rewrite (nth_indep _ (0, 0) ((fun b => (n, b)) 0)) by (rewrite map_length, seq_length; exact Hb). rewrite (map_nth (fun b => (n, b))), seq_nth by exact Hb.
  rewrite (nth_indep _ (0, 0) (pair_at 0)) by (rewrite map_length, seq_length; exact Hb). rewrite map_nth, seq_nth by exact Hb. unfold pair_at. cbn [plus].
  rewrite (Nat.add_comm (n * n_sub)), Nat.div_add, Nat.mod_add by lia. rewrite Nat.div_small, Nat.mod_small by exact Hb. reflexivity.
Qed.
Lemma td_spec : forall bd fwd st, 0 < n_sub -> dot <= n_sites -> forall m, exists hist st' es,
  fold_left (td_step St E site zero n_sites dot n_sub bd) (map pair_at (seq 0 m)) (st, fwd, [], []) = (st', xorb fwd (Nat.odd m), es, map fst (concat hist)) /\
  truns st (concat hist) st' /\ length hist = m /\
  (forall j, j < m -> map fst (nth j hist []) = map (tcall_at (j / n_sub) (j mod n_sub) (xorb fwd (Nat.odd j)) (nth (j / n_sub) bd 0%Z)) (windows n_sites dot (xorb fwd (Nat.odd j)))) /\
  length es = (m + n_sub - 1) / n_sub /\
  (forall j, j < m -> (j + 1) mod n_sub = 0 -> nth (j / n_sub) es zero = last (map snd (nth j hist [])) zero).
Proof.
  intros bd fwd st Hs Hd. induction m as [|m IH].
  - exists [], st, []. cbn [seq map fold_left concat length]. rewrite xorb_false_r. split; [reflexivity|]. split; [reflexivity|]. split; [reflexivity|]. split; [intros; lia|]. split; [symmetry; apply Nat.div_small; lia|intros; lia].
  - destruct IH as (hist & s1 & es & E1 & R1 & L1 & B1 & Le & V1). rewrite seq_S, map_app, fold_left_app, E1. cbn [map fold_left plus]. set (f := xorb fwd (Nat.odd m)) in *. 
    set (es' := if Nat.eqb (m mod n_sub) 0 then es ++ [zero] else es).
    destruct (td_fold (m / n_sub) (m mod n_sub) f (nth (m / n_sub) bd 0%Z) (windows n_sites dot f) s1 (nth (m / n_sub) es' zero) []) as (h & s2 & E2 & R2 & M2). cbn [app] in E2.
    assert (E3 : td_step St E site zero n_sites dot n_sub bd (s1, f, es, map fst (concat hist)) (pair_at m) = (s2, negb f, firstn (m / n_sub) es' ++ last (map snd h) (nth (m / n_sub) es' zero) :: skipn (S (m / n_sub)) es', map fst (concat hist) ++ map fst h)).
    { unfold td_step, pair_at. fold es'. unfold td_sweep. rewrite E2. reflexivity. }
    rewrite E3. clear E3 E2.
    assert (Dm : m = n_sub * (m / n_sub) + m mod n_sub) by (apply Nat.div_mod; lia). pose proof (Nat.mod_upper_bound m n_sub ltac:(lia)) as Mb. set (q := m / n_sub) in *. set (r := m mod n_sub) in *.
    assert (Lq : length es' = q + 1).
    { unfold es'. destruct (Nat.eqb_spec r 0) as [Z|N].
      - rewrite app_length. cbn [length]. rewrite Le. f_equal. symmetry. apply (Nat.div_unique _ _ _ (n_sub - 1)); lia.
      - rewrite Le. symmetry. apply (Nat.div_unique _ _ _ (r - 1)); lia. }
    assert (Keep : forall k, k < q -> nth k es' zero = nth k es zero).
    { intros k Hk. unfold es' in *. destruct (Nat.eqb r 0); [|reflexivity]. rewrite app_length in Lq. cbn in Lq. apply app_nth1. lia. }
    exists (hist ++ [h]), s2, (firstn q es' ++ last (map snd h) (nth q es' zero) :: skipn (S q) es').
    assert (Hne : h <> []).
    { intros ->. cbn [map] in M2. assert (Hw : In (if f then 0 else 0) (windows n_sites dot f)) by (apply windows_in; destruct f; lia). apply (in_map (tcall_at q r f (nth q bd 0%Z))) in Hw. rewrite <- M2 in Hw. destruct Hw. }
    split; [|split; [|split; [|split; [|split]]]].
    + rewrite concat_app, map_app. cbn [concat]. rewrite app_nil_r. do 3 f_equal. rewrite Nat.odd_succ, <- Nat.negb_odd. unfold f. destruct fwd, (Nat.odd m); reflexivity.
    + rewrite concat_app. cbn [concat]. rewrite app_nil_r. now apply (truns_app _ _ _ s1).
    + rewrite app_length. cbn. lia.
    + intros j Hj. destruct (Nat.eq_dec j m) as [->|]; [rewrite app_nth2 by lia; rewrite L1, Nat.sub_diag; exact M2|rewrite app_nth1 by lia; apply B1; lia].
    + rewrite app_length, firstn_length. cbn [length]. rewrite skipn_length, Lq. replace (Nat.min q (q + 1)) with q by lia. replace (q + S (q + 1 - S q)) with (q + 1) by lia. apply (Nat.div_unique _ _ _ r); lia.
    + intros j Hj Hm. destruct (Nat.eq_dec j m) as [->|].
      * rewrite (app_nth2 hist) by lia. rewrite L1, Nat.sub_diag. cbn [nth]. fold q. rewrite app_nth2 by (rewrite firstn_length; lia). rewrite firstn_length. replace (q - Nat.min q (length es')) with 0 by lia. cbn [nth].
        destruct h as [|[c1 v1] h]; [contradiction|]. cbn [map snd]. clear. generalize (map snd h). intros l. revert v1. induction l as [|x l IHl]; intros v1; [reflexivity|]. exact (IHl x).
      * rewrite (app_nth1 hist) by lia. rewrite <- V1 by (lia || exact Hm).
        assert (Lt : j / n_sub < q).
        { pose proof (Nat.div_mod j n_sub ltac:(lia)) as Dj. pose proof (Nat.mod_upper_bound j n_sub ltac:(lia)) as Mj. pose proof (Nat.div_mod (j + 1) n_sub ltac:(lia)) as Dj1. rewrite Hm in Dj1. set (a := j / n_sub) in *. set (b := (j + 1) / n_sub) in *. 
          destruct (Nat.lt_ge_cases a q) as [|Ge]; [assumption|]. exfalso. assert (Ea : a = q) by (destruct (Nat.le_gt_cases a q); [lia|]; pose proof (Nat.mul_le_mono_l (q + 1) a n_sub ltac:(lia)); lia). clearbody a. subst a. destruct (Nat.le_gt_cases b q) as [Hb|Hb]; [pose proof (Nat.mul_le_mono_l b q n_sub Hb); lia|pose proof (Nat.mul_le_mono_l (q + 1) b n_sub ltac:(lia)); lia]. }
        rewrite app_nth1 by (rewrite firstn_length; lia). rewrite <- Keep by exact Lt. clear -Lt. revert q Lt. induction es' as [|x l IHl]; intros q Lt; [now rewrite firstn_nil|]. destruct q; [lia|]. destruct (j / n_sub) as [|k] eqn:Ek; [reflexivity|]. cbn. clear -Lt. revert k q Lt. induction l as [|y l IHl]; intros k q Lt; [now rewrite firstn_nil|]. destruct q; [lia|]. destruct k; [reflexivity|]. cbn. apply IHl. lia.
Qed.
End TD.
(** C34 for time evolution: every sweep has n_sub passes of alternating direction over all windows; the energy is
    evaluated at the last window of each pass and the state advances only at the last window of the last pass; the
    recorded energy is the one of that window *)
Theorem c34_time : forall E site zero n_sites dot n_sub bdims n_sweeps fwd st st' es tr, 0 < n_sub -> dot <= n_sites ->
  td_solve St E site zero n_sites dot n_sub bdims n_sweeps fwd st = Some (st', es, tr) ->
  exists hist, tr = map fst (concat hist) /\ truns E site st (concat hist) st' /\ length hist = n_sweeps * n_sub /\ length es = n_sweeps /\
  (forall j, j < length hist -> let block := nth j hist [] in let sites := map (fun cv => t_site (fst cv)) block in let d := xorb fwd (Nat.odd j) in
     ordered d sites /\ (forall i, In i sites <-> i + dot <= n_sites) /\
     forall c v, In (c, v) block -> t_sweep c = j / n_sub /\ t_sub c = j mod n_sub /\ t_fwd c = d /\ t_bdim c = entry bdims (j / n_sub) 0%Z /\
       (t_eval c = true <-> t_site c = last sites 0) /\ (t_advance c = true <-> t_site c = last sites 0 /\ (j + 1) mod n_sub = 0)) /\
  (forall k, k < n_sweeps -> nth k es zero = last (map snd (nth (k * n_sub + (n_sub - 1)) hist [])) zero).
Proof.
  intros E site zero n_sites dot n_sub bdims n_sweeps fwd st st' es tr Hs Hd H. unfold td_solve in H. destruct (pad_bdims n_sweeps bdims) as [bd|] eqn:Eb; [|discriminate]. rewrite (pairs_seq n_sub Hs) in H.
  destruct (td_spec E site zero n_sites dot n_sub bd fwd st Hs Hd (n_sweeps * n_sub)) as (hist & s1 & es1 & E1 & R1 & L1 & B1 & Le & V1). rewrite E1 in H. injection H as <- <- <-.
  exists hist. split; [reflexivity|]. split; [exact R1|]. split; [exact L1|]. split; [rewrite Le; symmetry; apply (Nat.div_unique _ _ _ (n_sub - 1)); lia|]. split.
  - intros j Hj. cbv zeta. rewrite L1 in Hj. set (d := xorb fwd (Nat.odd j)) in *. specialize (B1 j Hj). fold d in B1.
    assert (Es : map (fun cv => t_site (fst cv)) (nth j hist []) = windows n_sites dot d) by (rewrite <- (map_map fst t_site), B1, map_map; cbn [t_site tcall_at]; apply map_id).
    rewrite Es. split; [unfold ordered; pose proof (windows_sorted n_sites dot d) as W; destruct d; exact W|]. split; [intros; apply windows_in|].
    intros c v Hc. apply (in_map fst) in Hc. rewrite B1 in Hc. apply in_map_iff in Hc. destruct Hc as (i & Ec & Hi). cbn [fst] in Ec. rewrite <- Ec. apply windows_in in Hi. cbn [fst tcall_at t_sweep t_sub t_fwd t_bdim t_eval t_site t_advance].
    assert (Lst : last (windows n_sites dot d) 0 = if d then n_sites - dot else 0).
    { unfold windows. destruct d; [replace (n_sites + 1 - dot) with (S (n_sites - dot)) by lia; rewrite seq_S, last_last; reflexivity|]. replace (n_sites + 1 - dot) with (S (n_sites - dot)) by lia. cbn [seq rev]. apply last_last. }
    assert (Hq : j / n_sub < n_sweeps) by (apply Nat.div_lt_upper_bound; lia).
    assert (Ev : (if d then i + dot =? n_sites else i =? 0) = true <-> i = last (windows n_sites dot d) 0) by (rewrite Lst; destruct d; rewrite Nat.eqb_eq; lia).
    split; [reflexivity|]. split; [reflexivity|]. split; [reflexivity|]. split; [now apply (bdims_spec n_sweeps)|]. split; [exact Ev|]. rewrite andb_true_iff, Ev, Nat.eqb_eq.
    pose proof (Nat.mod_upper_bound j n_sub ltac:(lia)) as Mb. pose proof (Nat.div_mod j n_sub ltac:(lia)) as Dj.
    assert (Q : j mod n_sub + 1 = n_sub <-> (j + 1) mod n_sub = 0).
    { split; intros Q.
      - assert (X : j + 1 = (j / n_sub + 1) * n_sub) by nia. rewrite X. apply Nat.mod_mul. lia.
      - destruct (Nat.eq_dec (j mod n_sub + 1) n_sub) as [|N]; [assumption|]. exfalso. assert (X : (j + 1) mod n_sub = j mod n_sub + 1) by (symmetry; apply (Nat.mod_unique _ _ (j / n_sub)); lia). lia. }
    tauto.
  - intros k Hk. specialize (V1 (k * n_sub + (n_sub - 1)) ltac:(nia)). replace ((k * n_sub + (n_sub - 1)) / n_sub) with k in V1 by (apply (Nat.div_unique _ _ _ (n_sub - 1)); lia). apply V1. replace (k * n_sub + (n_sub - 1) + 1) with ((k + 1) * n_sub) by lia. apply Nat.mod_mul. lia.
Qed.
End Spec.

(** *** concrete runs over the integers: thresholds in units of 1E-10, a tenth of tol is tol itself *)
Definition show (s : option (solved Z_oring nat (list Z))) : option (list (list Z) * list (nat * bool * nat * Z * Z * Z)) :=
  match s with
  | Some s => Some (r_targets _ _ _ (s_res _ _ _ s), map (fun c => (c_sweep Z_oring c, c_fwd Z_oring c, c_site Z_oring c, c_bdim Z_oring c, c_noise Z_oring c, c_thrd Z_oring c)) (r_trace _ _ _ (s_res _ _ _ s)))
  | None => None
  end.
(* the energy falls by one with each of the first calls, then stays *)
Definition falling (limit : nat) (st : nat) (c : call Z_oring) : nat * list Z := (S st, [- Z.of_nat (Nat.min st limit)]%Z).
Definition zdmrg := dmrg_solve Z_oring 1%Z 1%Z 100%Z nat.
(* four sites, windows of two: sweeps 0 and 1 as scheduled, sweep 2 with the last entries; the energy has settled *)
Example c34_ex : show (zdmrg (falling 4) 1 4 None [10; 20]%Z [5; 0]%Z [] 9 2%Z 2 true 0)
  = Some ([[-2]; [-4]; [-4]]%Z,
     [(0, true, 0, 10%Z, 5%Z, 5%Z); (0, true, 1, 10%Z, 5%Z, 5%Z); (0, true, 2, 10%Z, 5%Z, 5%Z);
      (1, false, 2, 20%Z, 0%Z, 2%Z); (1, false, 1, 20%Z, 0%Z, 2%Z); (1, false, 0, 20%Z, 0%Z, 2%Z);
      (2, true, 0, 20%Z, 0%Z, 2%Z); (2, true, 1, 20%Z, 0%Z, 2%Z); (2, true, 2, 20%Z, 0%Z, 2%Z)]).
Proof. vm_compute. reflexivity. Qed.
Example c34_roots_ex : show (zdmrg (fun st c => (S st, [- Z.of_nat (st mod 2); Z.of_nat st]%Z)) 2 3 None [10]%Z [] [] 1 0%Z 1 false 0)
  = Some ([[-1; 1]]%Z, [(0, false, 2, 10%Z, 0%Z, 1%Z); (0, false, 1, 10%Z, 0%Z, 1%Z); (0, false, 0, 10%Z, 0%Z, 1%Z)]).
Proof. vm_compute. reflexivity. Qed.
Example c34_time_ex : td_solve nat nat (fun st c => (if t_advance c then S st else st, st)) 0 3 2 2 [7]%Z 2 true 0
  = Some (2, [0; 1], [TCall 0 0 true 0 7 false false; TCall 0 0 true 1 7 true false; TCall 0 1 false 1 7 false false; TCall 0 1 false 0 7 true true;
                      TCall 1 0 true 0 7 false false; TCall 1 0 true 1 7 true false; TCall 1 1 false 1 7 false false; TCall 1 1 false 0 7 true true]%Z).
Proof. vm_compute. reflexivity. Qed.
Lemma checked : forall (T : Type) (x : option T) (P : T -> bool), match x with Some s => P s | None => false end = true -> exists s, x = Some s /\ P s = true.
Proof. intros T [s|] P H; [exists s; now split|discriminate]. Qed.
Arguments checked {T}.
(** C34: with init_site the windows left of it are left out of every forward sweep, not only of the first *)
Theorem c34_init_site_refuted : exists site n_sites init_site bdims noises thrds n_sweeps tol dot st s,
  dmrg_solve Z_oring 1%Z 1%Z 100%Z nat site 1 n_sites init_site bdims noises thrds n_sweeps tol dot true st = Some s /\
  length (r_targets _ _ _ (s_res _ _ _ s)) = 3 /\ 0 + dot <= n_sites /\
  (forall c, In c (r_trace _ _ _ (s_res _ _ _ s)) -> c_sweep Z_oring c = 2 -> c_site Z_oring c <> 0) /\
  exists c, In c (r_trace _ _ _ (s_res _ _ _ s)) /\ c_sweep Z_oring c = 1 /\ c_site Z_oring c = 0.
Proof.
  exists (falling 100), 4, (Some 1), [10]%Z, [0]%Z, [1]%Z, 3, 0%Z, 2, 0.
  destruct (checked (dmrg_solve Z_oring 1%Z 1%Z 100%Z nat (falling 100) 1 4 (Some 1) [10]%Z [0]%Z [1]%Z 3 0%Z 2 true 0)
    (fun s => let tr := r_trace _ _ _ (s_res _ _ _ s) in Nat.eqb (length (r_targets _ _ _ (s_res _ _ _ s))) 3
      && forallb (fun c => negb (Nat.eqb (c_sweep Z_oring c) 2) || negb (Nat.eqb (c_site Z_oring c) 0)) tr
      && existsb (fun c => Nat.eqb (c_sweep Z_oring c) 1 && Nat.eqb (c_site Z_oring c) 0) tr)%bool) as (s & E & H); [vm_compute; reflexivity|].
  exists s. cbv zeta in H. apply andb_prop in H. destruct H as [H X]. apply andb_prop in H. destruct H as [L F].
  split; [exact E|]. split; [now apply Nat.eqb_eq|]. split; [lia|]. split.
  - intros c I Sw Si. apply (proj1 (forallb_forall _ _) F) in I. now rewrite Sw, Si in I.
  - apply existsb_exists in X. destruct X as (c & I & X). apply andb_prop in X. destruct X as [X1 X2]. exists c. split; [exact I|]. split; now apply Nat.eqb_eq.
Qed.
(** C34: the thresholds computed by one call of solve are kept: a second call with a smaller tol runs with the
    thresholds of the first, while a new solver with the same schedules and this tol would use smaller ones *)
Theorem c34_second_solve_refuted : exists site n_sites bdims noises thrds n_sweeps tol1 tol2 dot st s1 s2 s3,
  let solve b n t tol := dmrg_solve Z_oring 1%Z 1%Z 100%Z nat site 1 n_sites None b n t n_sweeps tol dot true st in
  solve bdims noises thrds tol1 = Some s1 /\ solve (s_bdims _ _ _ s1) (s_noises _ _ _ s1) (s_thrds _ _ _ s1) tol2 = Some s2 /\ solve bdims noises thrds tol2 = Some s3 /\
  (forall c, In c (r_trace _ _ _ (s_res _ _ _ s2)) -> c_thrd Z_oring c = 1000%Z) /\ (forall c, In c (r_trace _ _ _ (s_res _ _ _ s3)) -> c_thrd Z_oring c = 10%Z) /\
  r_trace _ _ _ (s_res _ _ _ s2) <> [] /\ r_trace _ _ _ (s_res _ _ _ s3) <> [].
Proof.
  exists (falling 100), 3, [10]%Z, [0]%Z, [], 1, 1000%Z, 10%Z, 2, 0.
  set (thr v s := (negb (Nat.eqb (length (r_trace _ _ _ (s_res Z_oring nat (list Z) s))) 0) && forallb (fun c => Z.eqb (c_thrd Z_oring c) v) (r_trace _ _ _ (s_res _ _ _ s)))%bool).
  destruct (checked (dmrg_solve Z_oring 1%Z 1%Z 100%Z nat (falling 100) 1 3 None [10]%Z [0]%Z [] 1 1000%Z 2 true 0)
    (fun s => match dmrg_solve Z_oring 1%Z 1%Z 100%Z nat (falling 100) 1 3 None (s_bdims _ _ _ s) (s_noises _ _ _ s) (s_thrds _ _ _ s) 1 10%Z 2 true 0 with Some s2 => thr 1000%Z s2 | None => false end)) as (s1 & E1 & H1); [vm_compute; reflexivity|].
  apply checked in H1. destruct H1 as (s2 & E2 & H2).
  destruct (checked (dmrg_solve Z_oring 1%Z 1%Z 100%Z nat (falling 100) 1 3 None [10]%Z [0]%Z [] 1 10%Z 2 true 0) (thr 10%Z)) as (s3 & E3 & H3); [vm_compute; reflexivity|].
  exists s1, s2, s3. cbv zeta. split; [exact E1|]. split; [exact E2|]. split; [exact E3|]. apply andb_prop in H2, H3. destruct H2 as [N2 F2], H3 as [N3 F3].
  split; [intros c I; apply (proj1 (forallb_forall _ _) F2) in I; now apply Z.eqb_eq|]. split; [intros c I; apply (proj1 (forallb_forall _ _) F3) in I; now apply Z.eqb_eq|].
  split; intros N; [apply (f_equal (@length _)) in N; change (length (r_trace _ _ _ (s_res Z_oring nat (list Z) s2)) = 0) in N; rewrite N in N2; discriminate|apply (f_equal (@length _)) in N; change (length (r_trace _ _ _ (s_res Z_oring nat (list Z) s3)) = 0) in N; rewrite N in N3; discriminate].
Qed.
Print Assumptions c34_dmrg. Print Assumptions c34_linear. Print Assumptions c34_green. Print Assumptions c34_defined. Print Assumptions c34_time. Print Assumptions c34_init_site_refuted. Print Assumptions c34_second_solve_refuted.
