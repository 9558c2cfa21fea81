(** C30, C57: the spin operators of pyblock3/heisenberg.py are the angular momentum matrices of every spin, and the Hamiltonian
    built from any bond list commutes with the total spin.  Numbers are exact reals. *)
From Coq Require Import ZArith Reals Bool List Lia Lra Ring FunctionalExtensionality.
From Verif Require Import SymModel SymProofs DictLib OptLib IndexLib RingLib SiteModel SiteOps HeisModel HeisProofs.
Import ListNotations.
Open Scope R_scope.

(** *** specification: spin n/2; states are twice the projection *)
Definition states (n : nat) : list Z := map (fun k => (2 * Z.of_nat k - Z.of_nat n)%Z) (seq 0 (S n)).
Definition spin (n : nat) (o : spin_name) (m' m : Z) : R :=
  let s := INR n / 2 in let x := IZR m / 2 in
  match o with
  | SP => if (m' =? m + 2)%Z then sqrt ((s - x) * (s + x + 1)) else 0
  | SM => if (m' =? m - 2)%Z then sqrt ((s + x) * (s - x + 1)) else 0
  | SZop => if (m' =? m)%Z then x else 0
  end.
Definition lab (m : Z) : SZ := mkSZ 0 m 0.
(* the number stored for the block with row label m' and column label m; absent blocks are zero *)
Definition entry (t : spt R_ring) (m' m : Z) : R := at_lab R_ring t (lab m', lab m).

Lemma states_projection : forall n m, In m (states n) <-> projection (Z.of_nat n) m.
Proof.
  intros n m. unfold states, projection. rewrite in_map_iff. split.
  - intros (k & E & H). apply in_seq in H. exists (Z.of_nat k). lia.
  - intros (k & H & E). exists (Z.to_nat k). rewrite in_seq. lia.
Qed.
Lemma states_nodup : forall n, NoDup (states n).
Proof. intros. unfold states. apply FinFun.Injective_map_NoDup; [intros a b; lia|apply seq_NoDup]. Qed.
Lemma zrange_seq : forall n, zrange (Z.of_nat n) = map Z.of_nat (seq 0 n).
Proof. intros. unfold zrange. now rewrite Nat2Z.id. Qed.

Theorem c30_basis : forall n, hz_basis (Z.of_nat n) = map lab (states n).
Proof.
  intros. unfold hz_basis, range2, states. replace ((Z.of_nat n + 1 - - Z.of_nat n + 1) / 2)%Z with (Z.of_nat (S n)) by
    (replace (Z.of_nat n + 1 - - Z.of_nat n + 1)%Z with (Z.of_nat (S n) * 2)%Z by lia; now rewrite Z.div_mul by lia).
  rewrite zrange_seq, !map_map. apply map_ext. intros k. unfold lab. f_equal. lia.
Qed.

(** the integer division in the ladder coefficients is exact *)
Theorem c30_exact : forall n m, In m (states n) ->
  (4 * ((Z.of_nat n - m) * (Z.of_nat n + m + 2) / 4) = (Z.of_nat n - m) * (Z.of_nat n + m + 2))%Z /\
  (4 * ((Z.of_nat n + m) * (Z.of_nat n - m + 2) / 4) = (Z.of_nat n + m) * (Z.of_nat n - m + 2))%Z.
Proof.
  intros n m H. apply states_projection in H. destruct H as (k & H & ->). split.
  - replace ((Z.of_nat n - (- Z.of_nat n + 2 * k)) * (Z.of_nat n + (- Z.of_nat n + 2 * k) + 2))%Z with ((Z.of_nat n - k) * (k + 1) * 4)%Z by ring.
    rewrite Z.div_mul by lia. ring.
  - replace ((Z.of_nat n + (- Z.of_nat n + 2 * k)) * (Z.of_nat n - (- Z.of_nat n + 2 * k) + 2))%Z with (k * (Z.of_nat n - k + 1) * 4)%Z by ring.
    rewrite Z.div_mul by lia. ring.
Qed.
Lemma coef_up : forall n m, In m (states n) -> IZR ((Z.of_nat n - m) * (Z.of_nat n + m + 2) / 4) = (INR n / 2 - IZR m / 2) * (INR n / 2 + IZR m / 2 + 1).
Proof.
  intros n m H. destruct (c30_exact n m H) as [E _]. apply (f_equal IZR) in E. rewrite mult_IZR in E.
  rewrite (mult_IZR (Z.of_nat n - m)), !plus_IZR, minus_IZR, <- INR_IZR_INZ in E. lra.
Qed.
Lemma coef_down : forall n m, In m (states n) -> IZR ((Z.of_nat n + m) * (Z.of_nat n - m + 2) / 4) = (INR n / 2 + IZR m / 2) * (INR n / 2 - IZR m / 2 + 1).
Proof.
  intros n m H. destruct (c30_exact n m H) as [_ E]. apply (f_equal IZR) in E. rewrite mult_IZR in E.
  rewrite (mult_IZR (Z.of_nat n + m)), !plus_IZR, minus_IZR, <- INR_IZR_INZ in E. lra.
Qed.
Lemma cond_filled : forall n d l (f : Z -> R) m' m, (forall x, In x l <-> projection (Z.of_nat n) x /\ projection (Z.of_nat n) (x + d)) -> In m' (states n) -> In m (states n) ->
  (if (m' =? m + d)%Z && existsb (Z.eqb m) l then f m else 0) = if (m' =? m + d)%Z then f m else 0.
Proof.
  intros n d l f m' m H H1 H2. destruct (Z.eqb_spec m' (m + d)) as [->|]; [|reflexivity]. cbn [andb].
  rewrite (proj2 (mem_eqb l m)); [reflexivity|]. apply H. now rewrite <- !states_projection.
Qed.
Lemma fill_spec : forall n d l (f : Z -> R), NoDup l -> (forall x, In x l <-> projection (Z.of_nat n) x /\ projection (Z.of_nat n) (x + d)) ->
  exists t, hz_fill (map (fun tm => (tm, f tm)) l) (hz_zeros (Z.of_nat n) (mkSZ 0 d 0)) = Some t /\ keys t = keys (hz_zeros (Z.of_nat n) (mkSZ 0 d 0)) /\
  forall m' m, In m' (states n) -> In m (states n) -> entry t m' m = if (m' =? m + d)%Z then f m else 0.
Proof.
  intros n d l f N H. destruct (fill_elements (Z.of_nat n) d l f ltac:(lia) N (fun m Hm => proj1 (H m) Hm)) as (t & E & K & A).
  exists t. split; [exact E|]. split; [exact K|]. intros m' m H1 H2. unfold entry, lab. rewrite (A m' m) by now apply states_projection.
  now apply (cond_filled n).
Qed.
Lemma in_all : forall n x, In x (range2 (- Z.of_nat n) (Z.of_nat n + 1)) <-> projection (Z.of_nat n) x /\ projection (Z.of_nat n) (x + 0).
Proof. intros. rewrite in_basis by lia. rewrite Z.add_0_r. tauto. Qed.

Definition shift (o : spin_name) : Z := match o with SP => 2 | SM => -2 | SZop => 0 end%Z.
Lemma op_elements : forall n o, exists t, hz_op (Z.of_nat n) o = Some t /\ keys t = keys (hz_zeros (Z.of_nat n) (mkSZ 0 (shift o) 0)) /\
  forall m' m, In m' (states n) -> In m (states n) -> entry t m' m = spin n o m' m.
Proof.
  intros n o. destruct o; cbn [hz_op shift].
  - destruct (fill_spec n 2 (range2 (- Z.of_nat n) (Z.of_nat n - 1)) (fun tm => sqrt (IZR ((Z.of_nat n - tm) * (Z.of_nat n + tm + 2) / 4))) (range2_nodup _ _) (fun x => in_up (Z.of_nat n) x (Nat2Z.is_nonneg n))) as (t & E & K & A).
    exists t. split; [exact E|]. split; [exact K|]. intros m' m H1 H2. rewrite (A m' m H1 H2), coef_up by assumption. reflexivity.
  - destruct (fill_spec n (-2) (range2 (- Z.of_nat n + 2) (Z.of_nat n + 1)) (fun tm => sqrt (IZR ((Z.of_nat n + tm) * (Z.of_nat n - tm + 2) / 4))) (range2_nodup _ _) (fun x => in_down (Z.of_nat n) x (Nat2Z.is_nonneg n))) as (t & E & K & A).
    exists t. split; [exact E|]. split; [exact K|]. intros m' m H1 H2. rewrite (A m' m H1 H2), coef_down by assumption. reflexivity.
  - destruct (fill_spec n 0 (range2 (- Z.of_nat n) (Z.of_nat n + 1)) (fun tm => IZR tm / 2) (range2_nodup _ _) (in_all n)) as (t & E & K & A).
    exists t. split; [exact E|]. split; [exact K|]. intros m' m H1 H2. rewrite (A m' m H1 H2), Z.add_0_r. reflexivity.
Qed.

(** every spin operator is defined and its stored numbers are the angular momentum matrix elements *)
Theorem c30_elements : forall n o, exists t, hz_op (Z.of_nat n) o = Some t /\
  (forall m' m, In m' (states n) -> In m (states n) -> entry t m' m = spin n o m' m) /\
  NoDup (keys t) /\ (forall p q, In (p, q) (keys t) <-> exists m, In m (states n) /\ In (m + shift o)%Z (states n) /\ p = lab (m + shift o) /\ q = lab m).
Proof.
  intros n o. destruct (op_elements n o) as (t & E & K & A). exists t. split; [exact E|]. split; [exact A|]. rewrite K. split; [apply zeros_nodup|].
  intros p q. rewrite in_zeros, c30_basis. split.
  - intros (Hp & Hq & E'). apply in_map_iff in Hq. destruct Hq as (m & <- & Hm). exists m. subst p. cbn [sz_twos lab] in *. apply in_map_iff in Hp. destruct Hp as (m2 & E2 & H2).
    injection E2 as ->. auto.
  - intros (m & H1 & H2 & -> & ->). split; [now apply in_map|]. split; [now apply in_map|reflexivity].
Qed.
Theorem c30_identity : forall n, exists t, hz_i (Z.of_nat n) = Some t /\
  forall m' m, In m' (states n) -> In m (states n) -> entry t m' m = if (m' =? m)%Z then 1 else 0.
Proof.
  intros n. destruct (fill_spec n 0 (range2 (- Z.of_nat n) (Z.of_nat n + 1)) (fun _ => 1) (range2_nodup _ _) (in_all n)) as (t & E & K & A).
  exists t. split; [exact E|]. intros m' m H1 H2. now rewrite (A m' m H1 H2), Z.add_0_r.
Qed.
(** the one-site Hamiltonian is zero *)
Theorem c30_onsite : forall n, exists t, hz_h (Z.of_nat n) = Some t /\ forall m' m, entry t m' m = 0.
Proof.
  intros n. exists (hz_zeros (Z.of_nat n) (mkSZ 0 0 0)). split; [reflexivity|]. intros m' m. apply zeros_at.
Qed.

(** *** the algebra on one site *)
Lemma state_bounds : forall n m, In m (states n) -> - INR n <= IZR m <= INR n.
Proof. intros n m H. apply states_projection in H. destruct H as (k & H & ->). rewrite INR_IZR_INZ, <- opp_IZR. split; apply IZR_le; lia. Qed.
Definition coef (n : nat) (o : spin_name) (m : Z) : R :=
  match o with SP => sqrt ((INR n / 2 - IZR m / 2) * (INR n / 2 + IZR m / 2 + 1)) | SM => sqrt ((INR n / 2 + IZR m / 2) * (INR n / 2 - IZR m / 2 + 1)) | SZop => IZR m / 2 end.
Lemma spin_coef : forall n o m' m, spin n o m' m = if (m' =? m + shift o)%Z then coef n o m else 0.
Proof. intros. destruct o; cbn [spin shift coef]; try reflexivity. now rewrite Z.add_0_r. Qed.
Lemma coef_edge : forall n o m, In m (states n) -> ~ In (m + shift o)%Z (states n) -> coef n o m = 0.
Proof.
  intros n o m H N. rewrite states_projection in H, N. destruct H as (k & H & ->). destruct o; cbn [shift coef] in *.
  - assert (k = Z.of_nat n) by (destruct (Z.eq_dec k (Z.of_nat n)); [assumption|exfalso; apply N; exists (k + 1)%Z; lia]). subst k.
    replace (- Z.of_nat n + 2 * Z.of_nat n)%Z with (Z.of_nat n) by lia. rewrite <- INR_IZR_INZ. replace (_ * _) with 0 by ring. apply sqrt_0.
  - assert (k = 0)%Z by (destruct (Z.eq_dec k 0); [assumption|exfalso; apply N; exists (k - 1)%Z; lia]). subst k.
    replace (- Z.of_nat n + 2 * 0)%Z with (- Z.of_nat n)%Z by lia. rewrite opp_IZR, <- INR_IZR_INZ. replace (_ * _) with 0 by field. apply sqrt_0.
  - exfalso. apply N. exists k. lia.
Qed.
Lemma prod_spin : forall n o1 o2 m' m, In m (states n) ->
  mul1 (states n) (spin n o1) (spin n o2) m' m = if (m' =? m + shift o1 + shift o2)%Z then coef n o1 (m + shift o2) * coef n o2 m else 0.
Proof.
  intros n o1 o2 m' m H. unfold mul1. destruct (in_dec Z.eq_dec (m + shift o2)%Z (states n)) as [I|N].
  - rewrite (sum_single (states n) _ (m + shift o2)%Z (states_nodup n) I).
    + rewrite !spin_coef, Z.eqb_refl. replace (m + shift o1 + shift o2)%Z with (m + shift o2 + shift o1)%Z by lia. destruct (m' =? _)%Z; ring.
    + intros y _ Ny. rewrite (spin_coef n o2). destruct (Z.eqb_spec y (m + shift o2)); [congruence|ring].
  - rewrite (coef_edge n o2 m H N), sum_zero; [destruct (m' =? _)%Z; ring|]. intros y Hy. rewrite (spin_coef n o2). destruct (Z.eqb_spec y (m + shift o2)); [congruence|ring].
Qed.
Lemma pm_coef : forall n m, In m (states n) -> coef n SP (m + -2) * coef n SM m = (INR n / 2 + IZR m / 2) * (INR n / 2 - IZR m / 2 + 1).
Proof.
  intros n m H. pose proof (state_bounds n m H). cbn [coef]. rewrite plus_IZR.
  replace ((INR n / 2 - (IZR m + -2) / 2) * (INR n / 2 + (IZR m + -2) / 2 + 1)) with ((INR n / 2 + IZR m / 2) * (INR n / 2 - IZR m / 2 + 1)) by field.
  apply sqrt_sqrt. apply Rmult_le_pos; lra.
Qed.
Lemma mp_coef : forall n m, In m (states n) -> coef n SM (m + 2) * coef n SP m = (INR n / 2 - IZR m / 2) * (INR n / 2 + IZR m / 2 + 1).
Proof.
  intros n m H. pose proof (state_bounds n m H). cbn [coef]. rewrite plus_IZR.
  replace ((INR n / 2 + (IZR m + 2) / 2) * (INR n / 2 - (IZR m + 2) / 2 + 1)) with ((INR n / 2 - IZR m / 2) * (INR n / 2 + IZR m / 2 + 1)) by field.
  apply sqrt_sqrt. apply Rmult_le_pos; lra.
Qed.
Lemma spin_algebra : forall n m' m, In m (states n) -> let P := mul1 (states n) in
  P (spin n SP) (spin n SM) m' m - P (spin n SM) (spin n SP) m' m = 2 * spin n SZop m' m /\
  P (spin n SZop) (spin n SP) m' m - P (spin n SP) (spin n SZop) m' m = spin n SP m' m /\
  P (spin n SZop) (spin n SM) m' m - P (spin n SM) (spin n SZop) m' m = - spin n SM m' m /\
  (P (spin n SP) (spin n SM) m' m + P (spin n SM) (spin n SP) m' m) / 2 + P (spin n SZop) (spin n SZop) m' m = if (m' =? m)%Z then INR n / 2 * (INR n / 2 + 1) else 0.
Proof.
  intros n m' m H P. unfold P. rewrite !(prod_spin n _ _ m' m H), !(spin_coef n _ m' m). cbn [shift].
  replace (m + 2 + -2)%Z with m by lia. replace (m + -2 + 2)%Z with m by lia. rewrite !Z.add_0_r.
  pose proof (pm_coef n m H) as PM. pose proof (mp_coef n m H) as MP. repeat split.
  - rewrite PM, MP. destruct (m' =? m)%Z; cbn [coef]; field.
  - destruct (m' =? m + 2)%Z; [|ring]. change (coef n SZop (m + 2)) with (IZR (m + 2) / 2). change (coef n SZop m) with (IZR m / 2). rewrite plus_IZR. field.
  - destruct (m' =? m + -2)%Z; [|ring]. change (coef n SZop (m + -2)) with (IZR (m + -2) / 2). change (coef n SZop m) with (IZR m / 2). rewrite plus_IZR. field.
  - rewrite PM, MP. destruct (m' =? m)%Z; cbn [coef]; field.
Qed.
(* an element of the model's product of two operators *)
Lemma mm_spin : forall n o1 o2 a b m' m, hz_op (Z.of_nat n) o1 = Some a -> hz_op (Z.of_nat n) o2 = Some b -> In m' (states n) -> In m (states n) ->
  entry (sp_mm R_ring a b) m' m = mul1 (states n) (spin n o1) (spin n o2) m' m.
Proof.
  intros n o1 o2 a b m' m Ea Eb H1 H2. destruct (op_elements n o1) as (a' & Ea' & Ka & Aa). destruct (op_elements n o2) as (b' & Eb' & Kb & Ab).
  rewrite Ea in Ea'. injection Ea' as <-. rewrite Eb in Eb'. injection Eb' as <-. unfold entry.
  rewrite (sp_mm_at R_ring (map lab (states n)) a b (lab m') (lab m)).
  - rewrite (bsum_map R_ring). apply sum_ext. intros y Hy. fold (entry a m' y) (entry b y m). now rewrite Aa, Ab.
  - apply FinFun.Injective_map_NoDup; [intros u v E; now injection E|apply states_nodup].
  - rewrite Ka. apply zeros_nodup.
  - rewrite Kb. apply zeros_nodup.
  - intros [p q] Hk. rewrite Ka in Hk. apply in_zeros in Hk. rewrite <- c30_basis. apply Hk.
Qed.

Theorem c30_algebra : forall n p q z, hz_sp (Z.of_nat n) = Some p -> hz_sm (Z.of_nat n) = Some q -> hz_sz (Z.of_nat n) = Some z ->
  forall m' m, In m' (states n) -> In m (states n) ->
  let prod a b := entry (sp_mm R_ring a b) m' m in
  prod p q - prod q p = 2 * entry z m' m /\
  prod z p - prod p z = entry p m' m /\
  prod z q - prod q z = - entry q m' m /\
  (prod p q + prod q p) / 2 + prod z z = if (m' =? m)%Z then INR n / 2 * (INR n / 2 + 1) else 0.
Proof.
  intros n p q z Ep Eq Ez m' m H1 H2 prod. unfold prod.
  rewrite (mm_spin n SP SM p q), (mm_spin n SM SP q p), (mm_spin n SZop SP z p), (mm_spin n SP SZop p z), (mm_spin n SZop SM z q), (mm_spin n SM SZop q z), (mm_spin n SZop SZop z z); try assumption.
  destruct (op_elements n SP) as (p' & Ep' & _ & Ap). destruct (op_elements n SM) as (q' & Eq' & _ & Aq). destruct (op_elements n SZop) as (z' & Ez' & _ & Az). cbn [hz_op] in *.
  rewrite Ep in Ep'. injection Ep' as <-. rewrite Eq in Eq'. injection Eq' as <-. rewrite Ez in Ez'. injection Ez' as <-.
  rewrite Ap, Aq, Az by assumption. now apply spin_algebra.
Qed.

(** *** the Hamiltonian on a chain of [len] spins *)
(* the matrix of a named operator *)
Definition stored (n : nat) (o : spin_name) (m' m : Z) : R := match hz_op (Z.of_nat n) o with Some t => entry t m' m | None => 0 end.
(* what a list of terms denotes: the sum of the products of one-site operators *)
Definition term_value (n len : nat) (t : R * list (spin_name * Z)) : amp :=
  scale (fst t) (fold_right (fun o a => mul (states n) len (emb (states n) len (Z.to_nat (snd o)) (stored n (fst o))) a) (one (states n) len) (snd t)).
Definition terms_value (n len : nat) (ts : list (R * list (spin_name * Z))) : amp := fold_right (fun t a => add (term_value n len t) a) zero ts.
(* the Heisenberg Hamiltonian: sum over bonds of v * S_i . S_j *)
Definition at_site (n len : nat) (i : Z) (o : spin_name) : amp := emb (states n) len (Z.to_nat i) (spin n o).
Definition heisenberg (n len : nat) (bonds : list (Z * Z * R)) : amp := fun s' s =>
  sum bonds (fun b => let '(i, j, v) := b in
    v * (/ 2 * mul (states n) len (at_site n len i SP) (at_site n len j SM) s' s + / 2 * mul (states n) len (at_site n len i SM) (at_site n len j SP) s' s
         + mul (states n) len (at_site n len i SZop) (at_site n len j SZop) s' s)).

Lemma stored_emb : forall n len i o, emb (states n) len i (stored n o) = emb (states n) len i (spin n o).
Proof.
  intros. apply emb_ext. intros x' x H1 H2. unfold stored. destruct (op_elements n o) as (t & E & _ & A). rewrite E. now apply A.
Qed.
Lemma pair_value : forall n len c o1 i o2 j s' s, term_value n len (c, [(o1, i); (o2, j)]) s' s = c * mul (states n) len (at_site n len i o1) (at_site n len j o2) s' s.
Proof.
  intros. unfold term_value, scale. cbn [fold_right fst snd]. rewrite !stored_emb. rewrite (emb_one (states n) (states_nodup n)). reflexivity.
Qed.
Lemma terms_app : forall n len a b s' s, terms_value n len (a ++ b) s' s = terms_value n len a s' s + terms_value n len b s' s.
Proof.
  induction a as [|x a IH]; intros b s' s; [change (terms_value n len [] s' s) with 0; cbn [app]; ring|]. cbn [app].
  change (term_value n len x s' s + terms_value n len (a ++ b) s' s = term_value n len x s' s + terms_value n len a s' s + terms_value n len b s' s). rewrite IH. ring.
Qed.

(** the terms exist exactly when no bond joins a site to itself, and they denote the Heisenberg Hamiltonian *)
Theorem c57_hamiltonian : forall n len bonds,
  ((forall i j v, In (i, j, v) bonds -> i <> j) -> exists ts, hz_terms bonds = Some ts /\ terms_value n len ts = heisenberg n len bonds) /\
  ((exists i v, In (i, i, v) bonds) -> hz_terms bonds = None).
Proof.
  intros n len bonds.
  assert (G : forall acc, ((forall i j v, In (i, j, v) bonds -> i <> j) -> exists ts,
     foldM (fun terms e => let '(i, j, v) := e in if (i =? j)%Z then None else Some (terms ++ [((/ 2 * v)%R, [(SP, i); (SM, j)]); ((/ 2 * v)%R, [(SM, i); (SP, j)]); (v, [(SZop, i); (SZop, j)])])) acc bonds = Some ts /\
     forall s' s, terms_value n len ts s' s = terms_value n len acc s' s + heisenberg n len bonds s' s) /\
     ((exists i v, In (i, i, v) bonds) -> foldM (fun terms e => let '(i, j, v) := e in if (i =? j)%Z then None else Some (terms ++ [((/ 2 * v)%R, [(SP, i); (SM, j)]); ((/ 2 * v)%R, [(SM, i); (SP, j)]); (v, [(SZop, i); (SZop, j)])])) acc bonds = None)).
  { induction bonds as [|[[i j] v] bonds IH]; intros acc.
    - split; [|intros (? & ? & [])]. intros _. exists acc. split; [reflexivity|]. intros. unfold heisenberg. cbn. ring.
    - cbn [foldM]. split.
      + intros H. destruct (Z.eqb_spec i j) as [E|_]; [exfalso; exact (H i j v (or_introl eq_refl) E)|]. cbn [bind].
        destruct (proj1 (IH (acc ++ [((/ 2 * v)%R, [(SP, i); (SM, j)]); ((/ 2 * v)%R, [(SM, i); (SP, j)]); (v, [(SZop, i); (SZop, j)])]))) as (ts & E & V); [intros; eapply H; right; eassumption|].
        exists ts. split; [exact E|]. intros s' s. rewrite V, terms_app. unfold heisenberg. rewrite sum_cons. cbn [terms_value fold_right]. unfold add, zero. rewrite !pair_value. ring.
      + intros (i' & v' & [Hh|Ht]).
        * injection Hh as <- <- _. now rewrite Z.eqb_refl.
        * destruct (i =? j)%Z; [reflexivity|]. cbn [bind]. apply IH. now exists i', v'. }
  destruct (G []) as [G1 G2]. split; [|exact G2]. intros H. destruct (G1 H) as (ts & E & V). exists ts. split; [exact E|].
  extensionality s'. extensionality s. rewrite V. cbn. unfold zero. ring.
Qed.

(* total spin operators *)
Definition total_spin (n len : nat) (o : spin_name) : amp := fun s' s => sum (map Z.of_nat (seq 0 len)) (fun i => at_site n len i o s' s).
Lemma total_spin_eq : forall n len o, total_spin n len o = total (states n) len len (spin n o).
Proof.
  intros n len o. extensionality s'. extensionality s. unfold total_spin. rewrite sum_map. unfold at_site.
  assert (G : forall k, sum (seq 0 k) (fun x => emb (states n) len (Z.to_nat (Z.of_nat x)) (spin n o) s' s) = total (states n) len k (spin n o) s' s); [|apply G].
  induction k as [|k IH]; [reflexivity|]. rewrite seq_S. unfold sum in *. rewrite (bsum_app R_ring), IH. cbn [total plus]. unfold add.
  rewrite (bsum_cons R_ring), (bsum_nil R_ring), Nat2Z.id. change (radd R_ring) with Rplus. change (r0 R_ring) with 0. f_equal. apply Rplus_0_r.
Qed.
(* [total o, o2 at site j] *)
Definition bracket (n : nat) (o o2 : spin_name) (m' m : Z) : R :=
  match o, o2 with
  | SP, SM => 2 * spin n SZop m' m | SM, SP => - 2 * spin n SZop m' m
  | SZop, SP => spin n SP m' m | SP, SZop => - spin n SP m' m
  | SZop, SM => - spin n SM m' m | SM, SZop => spin n SM m' m
  | _, _ => 0
  end.
Lemma bracket_eq : forall n o o2 m' m, In m (states n) -> 1 * mul1 (states n) (spin n o) (spin n o2) m' m + (-1) * mul1 (states n) (spin n o2) (spin n o) m' m = bracket n o o2 m' m.
Proof. intros n o o2 m' m H. destruct (spin_algebra n m' m H) as (A & B & C & _). destruct o, o2; cbn [bracket]; lra. Qed.
Lemma comm_total_spin : forall n len o o2 j, (Z.to_nat j < len)%nat -> comm (states n) len (total_spin n len o) (at_site n len j o2) = emb (states n) len (Z.to_nat j) (bracket n o o2).
Proof.
  intros n len o o2 j H. rewrite total_spin_eq. unfold at_site. rewrite (comm_total (states n) (states_nodup n)).
  destruct (Nat.ltb_spec (Z.to_nat j) len); [|lia]. apply emb_ext. intros x' x _ Hx. now apply bracket_eq.
Qed.
Definition lin2 (c : R) (M : Z -> Z -> R) : Z -> Z -> R := fun x' x => c * M x' x + 0 * M x' x.
Lemma emb_scaled : forall n len j c M N, (forall x' x, In x' (states n) -> In x (states n) -> M x' x = c * N x' x) -> emb (states n) len j M = scale c (emb (states n) len j N).
Proof.
  intros n len j c M N H. rewrite (emb_ext (states n) len j M (lin2 c N)) by (intros x' x H1 H2; unfold lin2; rewrite (H x' x H1 H2); ring).
  extensionality s'. extensionality s. unfold lin2. rewrite emb_lin. unfold scale. ring.
Qed.
Lemma emb_zeros : forall n len j, emb (states n) len j (fun _ _ => 0) = zero.
Proof.
  intros. rewrite (emb_scaled n len j 0 _ (spin n SZop)) by (intros; ring). extensionality s'. extensionality s. unfold scale, zero. ring.
Qed.
Lemma comm_at : forall n len o o2 j, (Z.to_nat j < len)%nat -> comm (states n) len (total_spin n len o) (at_site n len j o2) =
  match o, o2 with
  | SP, SM => scale 2 (at_site n len j SZop) | SM, SP => scale (-2) (at_site n len j SZop)
  | SZop, SP => scale 1 (at_site n len j SP) | SP, SZop => scale (-1) (at_site n len j SP)
  | SZop, SM => scale (-1) (at_site n len j SM) | SM, SZop => scale 1 (at_site n len j SM)
  | _, _ => zero
  end.
Proof.
  intros n len o o2 j H. rewrite comm_total_spin by assumption. unfold at_site.
  destruct o, o2; first [apply emb_zeros | apply emb_scaled; intros; cbn [bracket]; ring].
Qed.
Lemma bond_commutes : forall n len o i j s' s, i <> j -> (Z.to_nat i < len)%nat -> (Z.to_nat j < len)%nat ->
  let D := comm (states n) len (total_spin n len o) in let P := mul (states n) len in let a := at_site n len in
  / 2 * D (P (a i SP) (a j SM)) s' s + / 2 * D (P (a i SM) (a j SP)) s' s + D (P (a i SZop) (a j SZop)) s' s = 0.
Proof.
  intros n len o i j s' s N Hi Hj D P a. unfold D, P, a. rewrite !comm_mul, !comm_at by assumption.
  destruct o; rewrite ?mul_scale_l, ?mul_scale_r, ?mul_zero_l, ?mul_zero_r; unfold add, scale, zero; field.
Qed.

(** the Hamiltonian built from any bonds between distinct sites commutes with the total spin operators *)
Theorem c57_total_spin : forall n len bonds ts o, hz_terms bonds = Some ts ->
  (forall i j v, In (i, j, v) bonds -> (0 <= i < Z.of_nat len)%Z /\ (0 <= j < Z.of_nat len)%Z) ->
  mul (states n) len (total_spin n len o) (terms_value n len ts) = mul (states n) len (terms_value n len ts) (total_spin n len o).
Proof.
  intros n len bonds ts o Ht Hb.
  assert (Hn : forall i j v, In (i, j, v) bonds -> i <> j).
  { intros i j v Hi ->. destruct (c57_hamiltonian n len bonds) as [_ H2]. rewrite H2 in Ht; [discriminate|]. now exists j, v. }
  destruct (proj1 (c57_hamiltonian n len bonds) Hn) as (ts' & E' & V). rewrite Ht in E'. injection E' as <-. rewrite V. clear Ht V ts.
  assert (G : comm (states n) len (total_spin n len o) (heisenberg n len bonds) = zero).
  2: { extensionality s'. extensionality s. apply (f_equal (fun f => f s' s)) in G. unfold comm, add, scale, zero in G. lra. }
  induction bonds as [|[[i j] v] bonds IH].
  - replace (heisenberg n len []) with zero by reflexivity. unfold comm. rewrite mul_zero_l, mul_zero_r. extensionality s'. extensionality s. unfold add, scale, zero. ring.
  - destruct (Hb i j v (or_introl eq_refl)) as [Hi Hj].
    pose proof (fun s' s => bond_commutes n len o i j s' s (Hn i j v (or_introl eq_refl)) ltac:(lia) ltac:(lia)) as Bc. cbv zeta in Bc.
    specialize (IH (fun i j v H => Hb i j v (or_intror H)) (fun i j v H => Hn i j v (or_intror H))).
    set (A1 := mul (states n) len (at_site n len i SP) (at_site n len j SM)) in *. set (A2 := mul (states n) len (at_site n len i SM) (at_site n len j SP)) in *.
    set (A3 := mul (states n) len (at_site n len i SZop) (at_site n len j SZop)) in *.
    replace (heisenberg n len ((i, j, v) :: bonds)) with (add (scale v (add (scale 1 (add (scale (/ 2) A1) (scale (/ 2) A2))) (scale 1 A3))) (scale 1 (heisenberg n len bonds))).
    2: { extensionality s'. extensionality s. unfold heisenberg. rewrite sum_cons. fold A1 A2 A3. unfold add, scale. ring. }
    rewrite !comm_lin_r, IH. extensionality s'. extensionality s. specialize (Bc s' s). unfold add, scale, zero in *.
    replace (v * (1 * (/ 2 * comm (states n) len (total_spin n len o) A1 s' s + / 2 * comm (states n) len (total_spin n len o) A2 s' s) + 1 * comm (states n) len (total_spin n len o) A3 s' s) + 1 * 0)
      with (v * (/ 2 * comm (states n) len (total_spin n len o) A1 s' s + / 2 * comm (states n) len (total_spin n len o) A2 s' s + comm (states n) len (total_spin n len o) A3 s' s)) by ring.
    rewrite Bc. ring.
Qed.

(* concrete cases *)
Example c30_ex_spin1 : states 2 = [-2; 0; 2]%Z /\ spin 2 SP 2 0 = sqrt 2 /\ spin 2 SM (-2) 0 = sqrt 2 /\ spin 2 SZop 2 2 = 1.
Proof. repeat split; try (cbn; f_equal; lra). Qed.
Example c57_ex_terms : hz_terms [(0%Z, 1%Z, 1); (1%Z, 2%Z, 3)] =
  Some [(/ 2 * 1, [(SP, 0%Z); (SM, 1%Z)]); (/ 2 * 1, [(SM, 0%Z); (SP, 1%Z)]); (1, [(SZop, 0%Z); (SZop, 1%Z)]);
        (/ 2 * 3, [(SP, 1%Z); (SM, 2%Z)]); (/ 2 * 3, [(SM, 1%Z); (SP, 2%Z)]); (3, [(SZop, 1%Z); (SZop, 2%Z)])] /\ hz_terms [(1%Z, 1%Z, 1)] = None.
Proof. split; reflexivity. Qed.
(* spin one half: the exchange element of a single bond is 1/2, the diagonal ones are +- 1/4 *)
Example c57_ex_bond : heisenberg 1 2 [(0%Z, 1%Z, 1)] [1; -1]%Z [-1; 1]%Z = 1 / 2 /\ heisenberg 1 2 [(0%Z, 1%Z, 1)] [1; -1]%Z [1; -1]%Z = - / 4.
Proof.
  assert (S1 : sqrt ((1 / 2 - -1 / 2) * (1 / 2 + -1 / 2 + 1)) = 1) by (replace (_ * _) with 1 by lra; apply sqrt_1).
  assert (S2 : sqrt ((1 / 2 + 1 / 2) * (1 / 2 - 1 / 2 + 1)) = 1) by (replace (_ * _) with 1 by lra; apply sqrt_1).
  unfold heisenberg. rewrite !sum_cons. cbv beta iota. unfold at_site. change (Z.to_nat 0) with 0%nat. change (Z.to_nat 1) with 1%nat. unfold mul, sum. cbn. unfold cut, delta, spin. cbn. rewrite ?S1, ?S2. split; lra.
Qed.
Print Assumptions c30_basis.
Print Assumptions c30_exact.
Print Assumptions c30_elements.
Print Assumptions c30_identity.
Print Assumptions c30_onsite.
Print Assumptions c30_algebra.
Print Assumptions c57_hamiltonian.
Print Assumptions c57_total_spin.
