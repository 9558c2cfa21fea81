(** C83: exchange phases of get_exponential. *)
From Coq Require Import ZArith Bool List Lia.
From Verif Require Import DictLib IndexLib RingLib OptLib FermOpsModel FermOpsProofs PhaseModel.
Import ListNotations.
Open Scope Z_scope.

(* ============================================================ specification *)
Definition site (s : Z) : Prop := s = 0 \/ s = 1 \/ s = 2 \/ s = 3.
(* number of electrons of one spin: bit 0 = up, bit 1 = down *)
Fixpoint number (k : Z) (l : list Z) : Z := match l with [] => 0 | s :: l' => Z.b2z (Z.testbit s k) + number k l' end.
Definition conserving (n : nat) (st : list Z) : Prop :=
  number 0 (firstn (Nat.div2 n) st) = number 0 (skipn (Nat.div2 n) st) /\
  number 1 (firstn (Nat.div2 n) st) = number 1 (skipn (Nat.div2 n) st).
Definition sites (n : nat) (st : list Z) : Prop := length st = n /\ Forall site st.

(* ============================================================ proofs *)
Lemma site_iff : forall s, site s <-> in4 s.
Proof. intros s. unfold site, in4, all4. cbn. intuition. Qed.
Lemma sites_iff : forall n st, In st (states_of n) <-> sites n st.
Proof.
  unfold sites. induction n as [|n IH]; intros st.
  - cbn. split; [intros [<-|[]]; auto|]. intros [A _]. left. destruct st; [reflexivity|discriminate].
  - cbn [states_of]. rewrite in_flat_map. split.
    + intros [s [A B]]. apply in_map_iff in B. destruct B as [t [<- B]]. apply IH in B. cbn. destruct B. split; [lia|].
      constructor; [now apply site_iff|assumption].
    + intros [A B]. destruct st as [|s t]; [discriminate|]. inversion B as [|? ? B1 B2]; subst. exists s. split; [now apply site_iff|].
      apply in_map. apply IH. cbn in A. split; [lia|assumption].
Qed.
Lemma all_in4 : forall n st, sites n st -> Forall in4 st.
Proof. intros n st [_ A]. eapply Forall_impl; [|exact A]. intros s. apply site_iff. Qed.

Lemma filt_f : forall l, filter (fun c => negb c) l = repeat false (length (filter (fun c => negb c) l)).
Proof. induction l as [|[] l IH]; [reflexivity|exact IH|]. cbn. now rewrite IH at 1. Qed.
Lemma filt_t : forall l : list bool, filter (fun c => c) l = repeat true (length (filter (fun c => c) l)).
Proof. induction l as [|[] l IH]; [reflexivity| |exact IH]. cbn. now rewrite IH at 1. Qed.
Lemma sorted_f : forall l, filter (fun c => negb c) (sorted_letters l) = filter (fun c => negb c) l.
Proof.
  intros l. unfold sorted_letters. rewrite filter_app. rewrite (filt_t l). rewrite (filt_f l) at 1.
  induction (length (filter (fun c => negb c) l)) as [|k IH] eqn:E in l |- *.
  - cbn. rewrite (filt_f l), E. cbn. induction (length (filter (fun c : bool => c) l)) as [|m IHm]; [reflexivity|exact IHm].
  - rewrite (filt_f l), E. clear E IH. set (m := length _).
    assert (A : filter (fun c => negb c) (repeat false (S k)) = repeat false (S k)).
    { induction k as [|k IH]; [reflexivity|]. cbn in *. now rewrite IH. }
    rewrite A. assert (B : filter (fun c => negb c) (repeat true m) = []) by (clear; induction m as [|m IHm]; [reflexivity|exact IHm]).
    now rewrite B, app_nil_r.
Qed.
Lemma sorted_t : forall l, filter (fun c => c) (sorted_letters l) = filter (fun c => c) l.
Proof.
  intros l. unfold sorted_letters. rewrite filter_app. rewrite (filt_f l).
  assert (B : forall m, filter (fun c : bool => c) (repeat false m) = []) by (clear; induction m as [|m IHm]; [reflexivity|exact IHm]).
  rewrite B. cbn [app]. rewrite (filt_t l).
  induction (length (filter (fun c : bool => c) l)) as [|m IHm]; [reflexivity|]. cbn. now rewrite IHm.
Qed.
Lemma same_iff : forall a b, same_letters a b = true <->
  length (filter (fun c => negb c) a) = length (filter (fun c => negb c) b) /\ length (filter (fun c => c) a) = length (filter (fun c => c) b).
Proof.
  intros a b. unfold same_letters.
  destruct (list_eqb_spec bool Bool.eqb (fun x y => ltac:(destruct x, y; constructor; congruence)) (sorted_letters a) (sorted_letters b)) as [E|E].
  - split; [intros _|reflexivity]. split; [rewrite <- (sorted_f a), <- (sorted_f b), E|rewrite <- (sorted_t a), <- (sorted_t b), E]; reflexivity.
  - split; [discriminate|]. intros [A B]. exfalso. apply E. unfold sorted_letters. rewrite (filt_f a), (filt_t a), (filt_f b), (filt_t b), A, B. reflexivity.
Qed.
Lemma letters_number : forall l, Forall in4 l ->
  (Z.of_nat (length (filter (fun c => negb c) (concat (map cre_map l)))) = number 0 l /\ Z.of_nat (length (filter (fun c => c) (concat (map cre_map l)))) = number 1 l) /\
  (Z.of_nat (length (filter (fun c => negb c) (concat (map ann_map l)))) = number 0 l /\ Z.of_nat (length (filter (fun c => c) (concat (map ann_map l)))) = number 1 l).
Proof.
  intros l A. induction A as [|s l H A IH]; [cbn; auto|]. cbn [map concat number]. rewrite !filter_app, !app_length, !Nat2Z.inj_add.
  destruct IH as [[I1 I2] [I3 I4]]. rewrite I1, I2, I3, I4. four H; cbn; repeat split; lia.
Qed.
Lemma kept_iff : forall n st, Forall in4 st -> kept n st = true <-> conserving n st.
Proof.
  intros n st A. unfold kept, conserving. rewrite same_iff. rewrite <- (firstn_skipn (Nat.div2 n) st) in A. apply Forall_app in A. destruct A as [A B].
  destruct (letters_number _ A) as [[A1 A2] _]. destruct (letters_number _ B) as [_ [B1 B2]]. rewrite <- A1, <- A2, <- B1, <- B2.
  split; intros [X Y]; split; lia.
Qed.

Section Fill.
Variable order : nat -> bool.
Variable fermion : bool.
Variable y : symm.
Notation ph := (swap_phase order fermion).
Record inv (L : list (list Z)) (d : ften Z_ring) : Prop := mkInv {
  i_key : forall q b, dget key_eqb d q = Some b -> exists st, In st L /\ map (q_of y) st = q /\ b_dims _ b = map (dim_of y) st;
  i_in : forall st, In st L -> exists b, dget key_eqb d (map (q_of y) st) = Some b /\ b_at _ b (map (ix_of y) st) = ph st;
  i_out : forall st b, Forall in4 st -> ~ In st L -> dget key_eqb d (map (q_of y) st) = Some b -> b_at _ b (map (ix_of y) st) = 0 }.
Lemma inv_nil : inv [] [].
Proof. split; [discriminate|intros ? []|discriminate]. Qed.
Lemma put_inv : forall L d st, (forall s, In s L -> Forall in4 s) -> Forall in4 st -> inv L d ->
  exists d', put_phase order fermion y d st = Some d' /\ inv (L ++ [st]) d'.
Proof.
  intros L d st AL A [Ik Ii Io]. unfold put_phase.
  set (q := map (q_of y) st). set (b := match dget key_eqb d q with Some b => b | None => zeros Z_ring (map (dim_of y) st) end).
  assert (D : b_dims _ b = map (dim_of y) st).
  { unfold b. destruct (dget key_eqb d q) as [b0|] eqn:E; [|reflexivity]. destruct (Ik _ _ E) as [s [S1 [S2 S3]]]. rewrite S3.
    apply dims_ql; [now apply AL|exact A|exact S2]. }
  unfold put_at. rewrite D, in_shape_st by exact A. cbn [bind]. eexists. split; [reflexivity|].
  split.
  - intros q' b'. rewrite (dget_dset key_eqb key_eqb_spec). destruct (key_eqb_spec q q') as [<-|N]; intros E.
    + injection E as <-. exists st. split; [apply in_or_app; right; now left|]. split; reflexivity.
    + destruct (Ik _ _ E) as [s [S1 S2]]. exists s. split; [apply in_or_app; now left|exact S2].
  - intros s I. assert (As : Forall in4 s) by (apply in_app_or in I; destruct I as [I|[<-|[]]]; [now apply AL|exact A]).
    rewrite (dget_dset key_eqb key_eqb_spec). destruct (key_eqb_spec q (map (q_of y) s)) as [Q|N].
    + eexists. split; [reflexivity|]. cbn [b_at]. destruct (zlist_eqb_spec (map (ix_of y) s) (map (ix_of y) st)) as [X|X].
      * now rewrite (state_inj y s st As A (eq_sym Q) X).
      * apply in_app_or in I. destruct I as [I|[<-|[]]]; [|congruence]. destruct (Ii _ I) as [b0 [B1 B2]]. unfold b. rewrite Q, B1. exact B2.
    + apply in_app_or in I. destruct I as [I|[<-|[]]]; [|now destruct N]. exact (Ii _ I).
  - intros s b' As NI. rewrite (dget_dset key_eqb key_eqb_spec). destruct (key_eqb_spec q (map (q_of y) s)) as [Q|N]; intros E.
    + injection E as <-. cbn [b_at]. destruct (zlist_eqb_spec (map (ix_of y) s) (map (ix_of y) st)) as [X|X].
      * exfalso. apply NI. rewrite (state_inj y s st As A (eq_sym Q) X). apply in_or_app. right. now left.
      * unfold b. destruct (dget key_eqb d q) as [b0|] eqn:G; [|reflexivity]. rewrite Q in G. apply (Io s b0 As); [|exact G].
        intros J. apply NI. apply in_or_app. now left.
    + apply (Io s b' As); [|exact E]. intros J. apply NI. apply in_or_app. now left.
Qed.
Lemma fill_inv : forall n l L d, (forall s, In s L -> Forall in4 s) -> (forall s, In s l -> Forall in4 s) -> inv L d ->
  exists d', foldM (fun d st => if kept n st then put_phase order fermion y d st else Some d) d l = Some d' /\ inv (L ++ filter (kept n) l) d'.
Proof.
  intros n. induction l as [|s l IH]; intros L d AL Al I; [exists d; rewrite app_nil_r; split; [reflexivity|exact I]|].
  cbn [foldM filter]. destruct (kept n s).
  - destruct (put_inv L d s AL (Al s (or_introl eq_refl)) I) as [d1 [E1 I1]]. rewrite E1. cbn [bind].
    destruct (IH (L ++ [s]) d1) as [d2 [E2 I2]]; [| |exact I1|].
    + intros x J. apply in_app_or in J. destruct J as [J|[<-|[]]]; [now apply AL|]. apply Al. now left.
    + intros x J. apply Al. now right.
    + exists d2. split; [exact E2|]. now rewrite <- app_assoc in I2.
  - cbn [bind]. apply IH; [exact AL| |exact I]. intros x J. apply Al. now right.
Qed.
End Fill.

Lemma phase_pm : forall order fermion st, swap_phase order fermion st = 1 \/ swap_phase order fermion st = -1.
Proof.
  intros order fermion st. unfold swap_phase. destruct fermion; [|now left]. cbn [negb].
  set (c := map cre_map _). set (n := Nat.div2 _).
  assert (K : forall l x, snd x = 1 \/ snd x = -1 -> snd (fold_left (swap_step order n c) l x) = 1 \/ snd (fold_left (swap_step order n c) l x) = -1).
  { induction l as [|i l IH]; intros x H; [exact H|]. cbn [fold_left]. apply IH. destruct x as [f p]. cbn [snd] in H. unfold swap_step.
    destruct (fold_left _ _ _) as [[u v] o]. cbn [snd]. rewrite pow_psgn. unfold psgn. destruct (Z.even o), H; subst; auto. }
  apply K. now left.
Qed.

(* ============================================================ C83 *)
(* the phase of every combination of states with the same number of electrons of each spin on both sides is recorded;
   the other elements of the recorded blocks are 0; no other block is recorded *)
Theorem c83_phases : forall order fermion y n, exists d, make_phase_dict order fermion y n = Some d /\
  (forall st, sites n st -> conserving n st -> exists b, dget key_eqb d (map (q_of y) st) = Some b /\
    b_dims _ b = map (dim_of y) st /\ b_at _ b (map (ix_of y) st) = swap_phase order fermion st) /\
  (forall st b, sites n st -> ~ conserving n st -> dget key_eqb d (map (q_of y) st) = Some b -> b_at _ b (map (ix_of y) st) = 0) /\
  (forall q, (exists b, dget key_eqb d q = Some b) <-> exists st, sites n st /\ conserving n st /\ map (q_of y) st = q).
Proof.
  intros order fermion y n. destruct (fill_inv order fermion y n (states_of n) [] []) as [d [E [Ik Ii Io]]].
  - intros s [].
  - intros s I. apply sites_iff in I. now apply all_in4 in I.
  - apply inv_nil.
  - cbn [app] in Ik, Ii, Io. exists d. split; [exact E|].
    assert (M : forall st, In st (filter (kept n) (states_of n)) <-> sites n st /\ conserving n st).
    { intros st. rewrite filter_In, sites_iff. split; intros [A B]; split; try exact A; apply (kept_iff n st (all_in4 n st A)); exact B. }
    split; [|split].
    + intros st S C. destruct (Ii st) as [b [B1 B2]]; [now apply M|]. exists b. split; [exact B1|]. split; [|exact B2].
      destruct (Ik _ _ B1) as [s [S1 [S2 S3]]]. rewrite S3. apply M in S1. apply dims_ql; [now apply (all_in4 n)|now apply (all_in4 n)|exact S2].
    + intros st b S NC G. apply (Io st b (all_in4 n st S)); [|exact G]. intros J. apply M in J. now destruct J.
    + intros q. split.
      * intros [b B]. destruct (Ik _ _ B) as [s [S1 [S2 _]]]. apply M in S1. exists s. tauto.
      * intros [st [S [C <-]]]. destruct (Ii st) as [b [B1 _]]; [now apply M|]. now exists b.
Qed.
Print Assumptions c83_phases.

(* multiplying by the phase before and after changes no element between such states *)
Theorem c83_undone : forall order fermion y n d st b x, make_phase_dict order fermion y n = Some d -> sites n st -> conserving n st ->
  dget key_eqb d (map (q_of y) st) = Some b -> x * b_at _ b (map (ix_of y) st) * b_at _ b (map (ix_of y) st) = x.
Proof.
  intros order fermion y n d st b x E S C G. destruct (c83_phases order fermion y n) as [d' [E' [P _]]]. rewrite E in E'. injection E' as <-.
  destruct (P st S C) as [b' [B1 [_ B2]]]. rewrite G in B1. injection B1 as <-. rewrite B2. destruct (phase_pm order fermion st) as [-> | ->]; lia.
Qed.
Print Assumptions c83_undone.

(* U11: labels are (electrons, 2 Sz); every block allowed by the symmetry has its phases, none of them 0 *)
Definition total_label (l : list qlab) : qlab := fold_right (fun p s => (fst p + fst s, snd p + snd s)) (0, 0) l.
Lemma u11_total : forall l, Forall in4 l -> total_label (map (q_of SU11) l) = (number 0 l + number 1 l, number 0 l - number 1 l).
Proof.
  assert (Q : forall s, in4 s -> q_of SU11 s = (Z.b2z (Z.testbit s 0) + Z.b2z (Z.testbit s 1), Z.b2z (Z.testbit s 0) - Z.b2z (Z.testbit s 1))).
  { intros s H. four H; reflexivity. }
  intros l A. induction A as [|s l H A IH]; [reflexivity|]. cbn [map total_label fold_right]. fold (total_label (map (q_of SU11) l)).
  rewrite IH, (Q s H). cbn [fst snd number]. f_equal; lia.
Qed.
Theorem c83_u11 : forall order fermion n bra ket, sites n bra -> sites n ket ->
  total_label (map (q_of SU11) bra) = total_label (map (q_of SU11) ket) ->
  exists d b, make_phase_dict order fermion SU11 (n + n) = Some d /\ dget key_eqb d (map (q_of SU11) (bra ++ ket)) = Some b /\
    Z.abs (b_at _ b (map (ix_of SU11) (bra ++ ket))) = 1.
Proof.
  intros order fermion n bra ket B K T. destruct (c83_phases order fermion SU11 (n + n)) as [d [E [P _]]].
  assert (H : Nat.div2 (n + n) = n) by (replace (n + n)%nat with (2 * n)%nat by lia; apply Nat.div2_double).
  destruct (P (bra ++ ket)) as [b [B1 [_ B2]]].
  - destruct B, K. split; [rewrite app_length; lia|now apply Forall_app].
  - unfold conserving. rewrite H. destruct B as [LB AB]. rewrite firstn_exact, skipn_exact by exact LB.
    rewrite !u11_total in T; [injection T as T1 T2; lia|now apply (all_in4 n)|apply (all_in4 n); now split].
  - exists d, b. split; [exact E|]. split; [exact B1|]. rewrite B2. destruct (phase_pm order fermion (bra ++ ket)) as [-> | ->]; reflexivity.
Qed.
Print Assumptions c83_u11.

(* U1: a spin flip keeps the number of electrons, but all its elements are multiplied by 0, so the result is that of no term *)
Definition sx : block Z_ring := mkB Z_ring [2; 2] (fun j => if list_eqb Z.eqb j [0; 1] || list_eqb Z.eqb j [1; 0] then 1 else 0).
Theorem c83_flip_refuted : exists d b, make_phase_dict (fun _ => false) true SU1 2 = Some d /\ dget key_eqb d [(1, 0); (1, 0)] = Some b /\
  b_dims _ b = b_dims _ sx /\ b_at _ sx [0; 1] = 1 /\ forall j, b_at _ (weighted b sx) j = 0.
Proof.
  destruct (c83_phases (fun _ => false) true SU1 2) as [d [E [P [N _]]]].
  destruct (P [1; 1]) as [b [B1 [B2 _]]]; [split; [reflexivity|repeat (apply Forall_cons; [unfold site; auto|]); apply Forall_nil]|split; reflexivity|].
  exists d, b. split; [exact E|]. split; [exact B1|]. split; [exact B2|]. split; [reflexivity|].
  intros j. unfold weighted, sx. cbn [b_at]. destruct (zlist_eqb_spec j [0; 1]) as [->|]; cbn [orb].
  - change [0; 1] with (map (ix_of SU1) [1; 2]). rewrite (N [1; 2] b); [lia|split; [reflexivity|repeat (apply Forall_cons; [unfold site; auto|]); apply Forall_nil]|intros [X _]; discriminate X|exact B1].
  - destruct (zlist_eqb_spec j [1; 0]) as [->|]; [|reflexivity].
    change [1; 0] with (map (ix_of SU1) [2; 1]). rewrite (N [2; 1] b); [lia|split; [reflexivity|repeat (apply Forall_cons; [unfold site; auto|]); apply Forall_nil]|intros [X _]; discriminate X|exact B1].
Qed.
Print Assumptions c83_flip_refuted.
(* Z2: the same for a pair of electrons that is created *)
Theorem c83_pair_refuted : exists d b, make_phase_dict (fun _ => false) true SZ2 2 = Some d /\ dget key_eqb d [(0, 0); (0, 0)] = Some b /\
  map (q_of SZ2) [3; 0] = [(0, 0); (0, 0)] /\ b_at _ b (map (ix_of SZ2) [3; 0]) = 0.
Proof. eexists. eexists. split; [vm_compute; reflexivity|]. split; [reflexivity|]. split; reflexivity. Qed.
Print Assumptions c83_pair_refuted.
(* Z22 (parities of all and of down electrons): the block of two pairs has no phase, phase_dict raises KeyError *)
Theorem c83_missing_refuted : exists d, make_phase_dict (fun _ => false) true SZ22 4 = Some d /\
  fst (total_label (map (q_of SZ22) [3; 3])) mod 2 = fst (total_label (map (q_of SZ22) [0; 0])) mod 2 /\
  snd (total_label (map (q_of SZ22) [3; 3])) mod 2 = snd (total_label (map (q_of SZ22) [0; 0])) mod 2 /\
  dget key_eqb d (map (q_of SZ22) [3; 3; 0; 0]) = None.
Proof.
  destruct (c83_phases (fun _ => false) true SZ22 4) as [d [E [_ [_ K]]]]. exists d. split; [exact E|]. split; [reflexivity|]. split; [reflexivity|].
  clear E. destruct (dget key_eqb d (map (q_of SZ22) [3; 3; 0; 0])) as [b|] eqn:G; [|reflexivity]. exfalso.
  destruct (proj1 (K _) (ex_intro _ b G)) as [st [S [C Q]]].
  assert (X : st = [3; 3; 0; 0]).
  { apply (state_inj SZ22); [now apply (all_in4 4)|repeat (apply Forall_cons; [unfold in4, all4; cbn; auto|]); apply Forall_nil|exact Q|].
    destruct S as [L A]. destruct st as [|s1 [|s2 [|s3 [|s4 [|]]]]]; try discriminate. clear - A.
    assert (Z1 : forall s, site s -> ix_of SZ22 s = 0) by (intros s [->|[->|[->| ->]]]; reflexivity).
    inversion A as [|? ? A1 A']; subst. inversion A' as [|? ? A2 A'']; subst. inversion A'' as [|? ? A3 A3']; subst. inversion A3' as [|? ? A4 _]; subst.
    cbn [map]. rewrite (Z1 s1), (Z1 s2), (Z1 s3), (Z1 s4) by assumption. reflexivity. }
  subst st. destruct C as [C _]. discriminate C.
Qed.
Print Assumptions c83_missing_refuted.

(* two sites, U1: the block of one electron on each site and on each side; exchanging the two up electrons of [1; 1] gives -1 *)
Example c83_ex : option_map (fun d => (length d, option_map (fun b => (b_dims _ b,
    map (b_at _ b) [[0; 0; 0; 0]; [0; 1; 0; 1]; [0; 1; 1; 0]; [0; 1; 0; 0]])) (dget key_eqb d [(1, 0); (1, 0); (1, 0); (1, 0)])))
  (make_phase_dict (fun _ => false) true SU1 4) = Some (19%nat, Some ([2; 2; 2; 2], [-1; -1; 1; 0])).
Proof. vm_compute. reflexivity. Qed.
