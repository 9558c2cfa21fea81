(* Properties C26 (FCIDUMP round trip), C27 (distribution of integrals among
   processes) and C48 (symmetry of integrals read from a file). *)
From Coq Require Import List Ascii String ZArith QArith Qabs Lia Lqa Bool Arith Permutation.
From Verif Require Import DictLib IndexLib TruncModel TruncProofs StrLib StrProofs FcidumpModel FcidumpProofs FcidumpArrays.
Import ListNotations.
Local Open Scope Z_scope.
Local Open Scope list_scope.
Notation length := List.length.

(* ------------------------------------------------------------ specification *)
(* y is a multiple of 10^-16 at most half a unit away from x *)
Definition near16 (x y : Q) : Prop :=
  (exists z : Z, (y == z # 10000000000000000)%Q) /\ (Qabs (y - x) <= 1 # 20000000000000000)%Q.
Definition near_num (v w : num) : Prop := near16 (fst v) (fst w) /\ near16 (snd v) (snd w).
Definition sqmod (v : num) : Q := (fst v * fst v + snd v * snd v)%Q.
(* a value above the tolerance is stored to 16 decimals, any other becomes 0 *)
Definition stored (tol : Q) (v w : num) : Prop :=
  ((tol * tol < sqmod v)%Q -> near_num v w) /\
  ((sqmod v <= tol * tol)%Q -> (fst w == 0)%Q /\ (snd w == 0)%Q).

Definition in2 (n i j : Z) : Prop := 0 <= i < n /\ 0 <= j < n.
Definition in4 (n i j k l : Z) : Prop := 0 <= i < n /\ 0 <= j < n /\ 0 <= k < n /\ 0 <= l < n.

(* a real value, or a complex one whose imaginary part needs fewer than 20 characters *)
Definition value_ok (cpx : bool) (v : num) : Prop :=
  if cpx then (-(99 # 10) <= snd v <= 999 # 10)%Q else snd v = 0%Q.

Definition ints_ok (n : Z) (cpx : bool) (x : ints) : Prop :=
  match x with
  | Rhf h g => (forall i j, in2 n i j -> value_ok cpx (h i j)) /\ (forall i j k l, in4 n i j k l -> value_ok cpx (g i j k l))
  | Uhf ha hb gaa gab gbb =>
    (forall i j, in2 n i j -> value_ok cpx (ha i j) /\ value_ok cpx (hb i j)) /\
    (forall i j k l, in4 n i j k l -> value_ok cpx (gaa i j k l) /\ value_ok cpx (gab i j k l) /\ value_ok cpx (gbb i j k l))
  end.

(* attributes that can be written: a known point group, irreps of that group,
   fewer than 1000 orbitals *)
Definition attributes_ok (f : fci) : Prop :=
  0 <= f_n f < 1000 /\ Z.of_nat (length (f_orb f)) = f_n f /\
  (exists tab, In (f_pg f, tab) point_groups /\ In (f_ipg f) tab /\ forall x, In x (f_orb f) -> In x tab) /\
  value_ok (f_cpx f) (f_const f) /\ ints_ok (f_n f) (f_cpx f) (f_ints f).

Definition same_attributes (f f' : fci) : Prop :=
  f_pg f' = f_pg f /\ f_n f' = f_n f /\ f_elec f' = f_elec f /\ f_twos f' = f_twos f /\ f_ipg f' = f_ipg f /\
  f_general f' = f_general f /\ f_tgeneral f' = f_tgeneral f /\ f_orb f' = f_orb f /\ f_cpx f' = f_cpx f /\
  near_num (f_const f) (f_const f').

Definition symmetric2 (n : Z) (h : arr2) : Prop := forall i j, in2 n i j -> h i j = h j i.
Definition symmetric8 (n : Z) (g : arr4) : Prop := forall i j k l, in4 n i j k l ->
  g i j k l = g j i k l /\ g i j k l = g i j l k /\ g i j k l = g k l i j.

(* --------------------------------------------------------------- auxiliary *)
Transparent tens16.
Lemma dec16_near16 : forall x, near16 x (dec16 x).
Proof.
  intros x. split.
  - destruct (dec16_multiple x) as [z Z]. exists z. change (inject_Z tens16) with (10000000000000000 # 1)%Q in Z.
    rewrite <- (Qdiv_mult_l (dec16 x) (10000000000000000 # 1)) by discriminate. rewrite Z.
    unfold Qdiv. cbn [Qinv Qnum Qden]. unfold inject_Z, Qmult, Qeq. cbn. lia.
  - assert (N := dec16_near x). change (inject_Z tens16) with (10000000000000000 # 1)%Q in N.
    assert (E : ((1 # 20000000000000000) == (1 # 2) / (10000000000000000 # 1))%Q) by reflexivity.
    rewrite E. apply Qle_shift_div_l; [reflexivity|exact N].
Qed.
Lemma zero_near16 : near16 0 0.
Proof. split; [exists 0; reflexivity|]. rewrite Qabs_pos; cbn; discriminate. Qed.
Lemma printed_near : forall cpx v, value_ok cpx v -> near_num v (printed cpx v).
Proof.
  intros cpx v H. split; cbn [printed fst snd]; [apply dec16_near16|]. destruct cpx; [apply dec16_near16|].
  cbn in H. rewrite H. apply zero_near16.
Qed.
Lemma bigger_spec : forall tol v, (0 <= tol)%Q -> (bigger tol v = true <-> (tol * tol < sqmod v)%Q).
Proof.
  intros tol v H. unfold bigger, sqmod. destruct (Qlt_le_dec tol 0) as [L|L]; [lra|].
  destruct (Qlt_le_dec (tol * tol) (fst v * fst v + snd v * snd v)) as [M|M].
  - split; auto.
  - split; [discriminate|]. intros K. lra.
Qed.
Lemma readback_stored : forall cpx tol v w, (0 <= tol)%Q -> value_ok cpx v -> readback cpx tol v w -> stored tol v w.
Proof.
  intros cpx tol v w H V R. unfold readback in R. assert (B := bigger_spec tol v H).
  destruct (bigger tol v) eqn:E; split; intros K; subst w.
  - now apply printed_near.
  - assert (tol * tol < sqmod v)%Q by now apply B. lra.
  - apply B in K. discriminate.
  - split; reflexivity.
Qed.

Lemma str_nat_one : forall z k, 0 <= z < 10 ^ Z.of_nat (S k) -> (length (str_nat z) <= S k)%nat.
Proof. intros z k H. apply str_nat_length; [exact H|lia]. Qed.
Lemma units_bound : forall x b, (Qabs x <= b)%Q -> forall m, (b * inject_Z tens16 + (1 # 2) <= inject_Z m)%Q -> units x <= m.
Proof.
  intros x b H m M. assert (R := round_even_half (Qabs x * inject_Z tens16)). fold (units x) in R.
  apply Qabs_Qle_condition in R. destruct R as [_ R].
  rewrite Zle_Qle. assert (P : (0 < inject_Z tens16)%Q) by reflexivity.
  assert (K : (Qabs x * inject_Z tens16 <= b * inject_Z tens16)%Q) by (apply Qmult_le_compat_r; [exact H|lra]).
  lra.
Qed.
Lemma value_ok_narrow : forall cpx v, value_ok cpx v -> narrow cpx v.
Proof.
  intros cpx v H C. subst cpx. cbn in H. destruct H as [H1 H2].
  unfold core16. cbv zeta. assert (P := tens16_pos). assert (U := units_nonneg (snd v)).
  destruct (frac_digits (units (snd v)) U) as [_ [_ F]].
  destruct (Qlt_le_dec (snd v) 0) as [L|L].
  - assert (B : units (snd v) <= 99999999999999999).
    { apply (units_bound _ (99 # 10)); [rewrite Qabs_neg; lra|]. vm_compute. discriminate. }
    assert (D : 0 <= units (snd v) / tens16 < 10 ^ Z.of_nat 1).
    { split; [apply Z.div_pos; lia|]. apply Z.div_lt_upper_bound; [lia|]. change (tens16 * 10 ^ Z.of_nat 1) with 100000000000000000. lia. }
    apply str_nat_one in D. cbn [length]. rewrite app_length. cbn [length]. lia.
  - assert (B : units (snd v) <= 999999999999999999).
    { apply (units_bound _ (999 # 10)); [rewrite Qabs_pos; lra|]. vm_compute. discriminate. }
    assert (D : 0 <= units (snd v) / tens16 < 10 ^ Z.of_nat 2).
    { split; [apply Z.div_pos; lia|]. apply Z.div_lt_upper_bound; [lia|]. change (tens16 * 10 ^ Z.of_nat 2) with 1000000000000000000. lia. }
    apply str_nat_one in D. rewrite app_length. cbn [length]. lia.
Qed.
Opaque tens16.
Lemma zero_narrow : forall cpx, narrow cpx num0.
Proof.
  intros cpx. apply value_ok_narrow. destruct cpx; [|reflexivity]. cbn. split; discriminate.
Qed.

Lemma index_from_in : forall l x i, In x l -> exists r, index_from i l x = Some r.
Proof.
  induction l as [|a l IH]; intros x i H; [destruct H|]. cbn. destruct (a =? x) eqn:E; [eauto|].
  apply IH. destruct H as [->|H]; [lia|exact H].
Qed.
Lemma mapM_index_in : forall l xs, (forall x, In x xs -> In x l) -> exists r, mapM (index l) xs = Some r.
Proof.
  intros l. induction xs as [|x xs IH]; intros H; [eexists; reflexivity|]. cbn.
  destruct (index_from_in l x 0 (H x (or_introl eq_refl))) as [r E]. unfold index. rewrite E. cbn [bind].
  destruct IH as [rs E']; [intros; apply H; now right|]. unfold index in E'. rewrite E'. cbn. eauto.
Qed.
Lemma point_groups_get : forall pg tab, In (pg, tab) point_groups -> dget text_eqb point_groups pg = Some tab.
Proof.
  intros pg tab H. apply in_dget; [apply text_eqb_reflect| |exact H].
  unfold keys, point_groups. cbn [map fst].
  repeat (constructor; [cbn; intuition discriminate|]). constructor.
Qed.
Lemma write_header_some : forall f, attributes_ok f -> exists hd, write_header f = Some hd.
Proof.
  intros f [_ [_ [[tab [P [I O]]] _]]]. unfold write_header. rewrite (point_groups_get _ _ P). cbn [bind].
  destruct (mapM_index_in tab (f_orb f) O) as [idx ->]. cbn [bind].
  unfold index. destruct (index_from_in tab (f_ipg f) 0 I) as [r ->]. cbn [bind]. eauto.
Qed.

Lemma eri_recs_ok : forall gen n cpx tol g, 0 <= n < 1000 -> (forall i j k l, in4 n i j k l -> value_ok cpx (g i j k l)) ->
  Forall (rec_ok cpx) (eri_recs tol g (quads gen n)).
Proof.
  intros gen n cpx tol g H V. apply Forall_forall. intros r I. apply in_eri_recs in I.
  destruct I as [[[[a b] c] d] [I [_ ->]]]. apply in_quads_inr in I; [|lia]. unfold inr in I.
  cbn [rec_ok shift get4]. split; [apply value_ok_narrow, V; exact I|]. unfold small. lia.
Qed.
Lemma h_recs_ok : forall tg n cpx tol h, 0 <= n < 1000 -> (forall i j, in2 n i j -> value_ok cpx (h i j)) ->
  Forall (rec_ok cpx) (h_recs tol h (h_pairs n tg)).
Proof.
  intros tg n cpx tol h H V. apply Forall_forall. intros r I. apply in_h_recs in I.
  destruct I as [a [b [I [_ ->]]]]. apply in_h_pairs in I. cbn [rec_ok]. split.
  - apply value_ok_narrow, V. unfold in2. destruct tg; lia.
  - unfold small. destruct tg; lia.
Qed.
Lemma zrec_ok : forall cpx v, narrow cpx v -> rec_ok cpx (zrec v).
Proof. intros cpx v H. cbn. unfold small. split; [exact H|lia]. Qed.

(* ------------------------------------------------------------------ C26 *)
(* Restricted integrals; mu is the chemical potential of the reading object. *)
Theorem c26_restricted : forall tol f h g mu ce0,
  (0 <= tol)%Q -> attributes_ok f -> f_ints f = Rhf h g ->
  symmetric2 (f_n f) h -> (f_general f = false -> symmetric8 (f_n f) g) ->
  exists file f' h' g', write tol f = Some file /\ read (f_pg f) mu ce0 file = Some f' /\
    same_attributes f f' /\ f_ints f' = Rhf h' g' /\
    (forall i j, in2 (f_n f) i j -> exists w, stored tol (h i j) w /\
        (fst (h' i j) == fst w - (if i =? j then mu else 0))%Q /\ (snd (h' i j) == snd w)%Q) /\
    (forall i j k l, in4 (f_n f) i j k l -> stored tol (g i j k l) (g' i j k l)).
Proof.
  intros tol f h g mu ce0 Ht Hf E Yh Yg.
  destruct (write_header_some f Hf) as [hd HD].
  destruct Hf as [Hn [Ho [_ [Vc Vi]]]]. rewrite E in Vi. destruct Vi as [Vh Vg].
  assert (BD := write_body_rhf tol f h g E ltac:(lia)).
  set (rs := rhf_recs tol (f_n f) (f_general f) (f_tgeneral f) h g (f_const f)) in *.
  exists (hd ++ flat_map (rec_line (f_cpx f)) rs).
  assert (Fr : Forall (rec_ok (f_cpx f)) rs).
  { unfold rs, rhf_recs. apply Forall_app. split; [now apply eri_recs_ok|]. apply Forall_app.
    split; [now apply h_recs_ok|]. constructor; [|constructor]. now apply zrec_ok, value_ok_narrow. }
  assert (Nr : rs <> []).
  { unfold rs, rhf_recs. intros Q. apply app_eq_nil in Q. destruct Q as [_ Q]. apply app_eq_nil in Q. now destruct Q. }
  destruct (read_ints_rhf tol (f_n f) (f_general f) (f_tgeneral f) (f_cpx f) h g (f_const f) mu ce0) as [h' [g' [R [Ch Cg]]]].
  { lia. }
  { intros i j A B. apply Yh. now split. }
  { intros G i j k l A. unfold inr in A. destruct (Yg G i j k l A) as [A1 [A2 A3]]. auto. }
  pose proof (read_file f hd rs mu ce0 HD Ho Nr Fr) as RF. rewrite E in RF. cbn [is_uhf] in RF.
  unfold rs in RF at 2. rewrite R in RF. cbn [bind] in RF.
  eexists. eexists. eexists. split; [unfold write; rewrite HD, BD; reflexivity|].
  split; [exact RF|]. split; [|split; [reflexivity|split]].
  - unfold same_attributes. cbn. repeat (split; [reflexivity|]). now apply printed_near.
  - intros i j I. exists (h' i j). split; [|split].
    + apply readback_stored with (cpx := f_cpx f); [exact Ht|now apply Vh|]. apply Ch; apply I.
    + destruct (Qeq_bool mu 0) eqn:M.
      * apply Qeq_bool_iff in M. destruct (i =? j); rewrite ?M; lra.
      * cbn. reflexivity.
    + destruct (Qeq_bool mu 0); [reflexivity|]. cbn. lra.
  - intros i j k l I. apply readback_stored with (cpx := f_cpx f); [exact Ht|now apply Vg|]. apply Cg. exact I.
Qed.

(* Unrestricted integrals written without index symmetry (general). *)
Theorem c26_unrestricted : forall tol f ha hb gaa gab gbb ce0,
  (0 <= tol)%Q -> attributes_ok f -> f_ints f = Uhf ha hb gaa gab gbb -> f_general f = true ->
  (f_tgeneral f = false -> symmetric2 (f_n f) ha /\ symmetric2 (f_n f) hb) ->
  exists file f' ha' hb' gaa' gab' gbb', write tol f = Some file /\ read (f_pg f) 0 ce0 file = Some f' /\
    same_attributes f f' /\ f_ints f' = Uhf ha' hb' gaa' gab' gbb' /\
    (forall i j, in2 (f_n f) i j -> stored tol (ha i j) (ha' i j) /\ stored tol (hb i j) (hb' i j)) /\
    (forall i j k l, in4 (f_n f) i j k l ->
       stored tol (gaa i j k l) (gaa' i j k l) /\ stored tol (gab i j k l) (gab' i j k l) /\
       stored tol (gbb i j k l) (gbb' i j k l)).
Proof.
  intros tol f ha hb gaa gab gbb ce0 Ht Hf E G Y.
  destruct (write_header_some f Hf) as [hd HD].
  destruct Hf as [Hn [Ho [_ [Vc Vi]]]]. rewrite E in Vi. destruct Vi as [Vh Vg].
  assert (BD := write_body_uhf tol f ha hb gaa gab gbb E G).
  set (rs := uhf_recs tol (f_n f) (f_tgeneral f) ha hb gaa gab gbb (f_const f)) in *.
  exists (hd ++ flat_map (rec_line (f_cpx f)) rs).
  assert (Z0 : rec_ok (f_cpx f) (zrec num0)) by (apply zrec_ok, zero_narrow).
  assert (Fr : Forall (rec_ok (f_cpx f)) rs).
  { unfold rs, uhf_recs.
    apply Forall_app; split; [apply eri_recs_ok; [exact Hn|]; intros; now apply Vg|].
    apply Forall_app; split; [now constructor|].
    apply Forall_app; split; [apply eri_recs_ok; [exact Hn|]; intros; now apply Vg|].
    apply Forall_app; split; [now constructor|].
    apply Forall_app; split; [apply eri_recs_ok; [exact Hn|]; intros; now apply Vg|].
    apply Forall_app; split; [now constructor|].
    apply Forall_app; split; [apply h_recs_ok; [exact Hn|]; intros; now apply Vh|].
    apply Forall_app; split; [now constructor|].
    apply Forall_app; split; [apply h_recs_ok; [exact Hn|]; intros; now apply Vh|].
    apply Forall_app; split; [now constructor|].
    constructor; [|constructor]. now apply zrec_ok, value_ok_narrow. }
  assert (Nr : rs <> []).
  { unfold rs, uhf_recs. intros Q. apply app_eq_nil in Q. destruct Q as [_ Q]. discriminate. }
  destruct (read_ints_uhf tol (f_n f) (f_tgeneral f) (f_cpx f) ha hb gaa gab gbb (f_const f) 0 ce0)
    as [ha' [hb' [gaa' [gab' [gbb' [R [Ch Cg]]]]]]].
  { lia. }
  { intros TG. destruct (Y TG) as [Y1 Y2]. split; intros i j A B; [apply Y1|apply Y2]; now split. }
  pose proof (read_file f hd rs 0 ce0 HD Ho Nr Fr) as RF. rewrite E, G in RF. cbn [is_uhf] in RF.
  unfold rs in RF at 2. rewrite R in RF. cbn [Qeq_bool Qnum Qden Zeq_bool bind] in RF.
  eexists. exists ha', hb', gaa', gab', gbb'. split; [unfold write; rewrite HD, BD; reflexivity|].
  split; [exact RF|]. split; [|split; [reflexivity|split]].
  - unfold same_attributes. cbn. repeat (split; [reflexivity || now rewrite G|]). now apply printed_near.
  - intros i j I. destruct (Ch i j) as [C1 C2]; [apply I|apply I|]. destruct (Vh i j I) as [V1 V2].
    split; eapply readback_stored; eauto.
  - intros i j k l I. destruct (Cg i j k l I) as [C1 [C2 C3]]. destruct (Vg i j k l I) as [V1 [V2 V3]].
    split; [|split]; eapply readback_stored; eauto.
Qed.

(* Values with at most 16 decimals that exceed the tolerance, or are 0, are read back exactly. *)
Definition decimal16 (x : Q) : Prop := exists z : Z, (x == z # 10000000000000000)%Q.
Theorem c26_exact : forall tol v w, stored tol v w -> decimal16 (fst v) -> decimal16 (snd v) ->
  (tol * tol < sqmod v \/ sqmod v == 0)%Q -> (0 <= tol)%Q -> (fst w == fst v)%Q /\ (snd w == snd v)%Q.
Proof.
  intros tol v w [S1 S2] D1 D2 H Ht.
  assert (A : forall x y, near16 x y -> decimal16 x -> (y == x)%Q).
  { intros x y [[b B] N] [a A]. rewrite A, B in N.
    assert (N' : (Qabs ((b - a) # 10000000000000000) <= 1 # 20000000000000000)%Q).
    { rewrite <- (Qabs_wd (((b # 10000000000000000) - (a # 10000000000000000))%Q)); [exact N|].
      unfold Qminus, Qopp, Qplus, Qeq. cbn [Qnum Qden]. rewrite Pos2Z.inj_mul. ring. }
    unfold Qabs, Qle in N'. cbn [Qnum Qden] in N'.
    assert (b = a) by lia. subst b. now rewrite A, B. }
  destruct H as [H|H].
  - destruct (S1 H) as [N1 N2]. split; now apply A.
  - destruct (S2 ltac:(rewrite H; nra)) as [Z1 Z2]. unfold sqmod in H.
    assert ((fst v == 0)%Q /\ (snd v == 0)%Q) as [E1 E2] by (split; nra).
    now rewrite Z1, Z2, E1, E2.
Qed.

(* -------------------------------------------------- C26: where it fails *)
(* fold_eri returns nothing for fold = 4: unrestricted integrals with index
   symmetry cannot be written at all. *)
Theorem c26_unrestricted_folded_never_written : forall tol f ha hb gaa gab gbb,
  f_ints f = Uhf ha hb gaa gab gbb -> f_general f = false -> write tol f = None.
Proof.
  intros tol f ha hb gaa gab gbb E G. unfold write.
  destruct (write_header f) as [hd|]; [|reflexivity]. cbn [bind].
  unfold write_body. rewrite E, G. destruct (fold_eri (f_n f) gaa 8) as [e1|]; [|reflexivity]. cbn [bind].
  change (fold_eri (f_n f) gab 4) with (@Some (option eri) None). cbn [bind].
  destruct (fold_eri (f_n f) gbb 8) as [e2|]; [|reflexivity]. cbn [bind]. destruct e1; reflexivity.
Qed.
Definition tiny : Q := 1 # 10000000000000.
Definition re (q : Q) : num := (q, 0%Q).
Definition ex_uhf : fci :=
  mkFci (lit "c1") 1 1 1 0 false false [0] false (re 0)
    (Uhf (fun _ _ => re 1) (fun _ _ => re 1) (fun _ _ _ _ => re 1) (fun _ _ _ _ => re 1) (fun _ _ _ _ => re 1)).
Lemma ex_uhf_ok : attributes_ok ex_uhf.
Proof.
  unfold attributes_ok. cbn. split; [lia|]. split; [reflexivity|]. split.
  - exists [8; 0]. split; [do 7 right; now left|]. split; [right; now left|]. intros x [<-|[]]. right. now left.
  - split; [reflexivity|]. split; intros; repeat split; reflexivity.
Qed.
Theorem c26_unrestricted_folded_refuted : exists f, attributes_ok f /\
  (match f_ints f with Uhf ha hb gaa gab gbb => symmetric2 (f_n f) ha /\ symmetric2 (f_n f) hb /\
     symmetric8 (f_n f) gaa /\ symmetric8 (f_n f) gab /\ symmetric8 (f_n f) gbb | _ => False end) /\
  forall tol, write tol f = None.
Proof.
  exists ex_uhf. split; [apply ex_uhf_ok|]. split.
  - cbn. repeat split.
  - intros tol. eapply c26_unrestricted_folded_never_written; reflexivity.
Qed.

(* Reading unrestricted integrals with a chemical potential raises an exception. *)
Theorem c26_unrestricted_mu_refuted : forall tol f ha hb gaa gab gbb mu ce0 file,
  attributes_ok f -> f_ints f = Uhf ha hb gaa gab gbb -> f_general f = true ->
  (f_tgeneral f = false -> symmetric2 (f_n f) ha /\ symmetric2 (f_n f) hb) ->
  write tol f = Some file -> ~ (mu == 0)%Q -> read (f_pg f) mu ce0 file = None.
Proof.
  intros tol f ha hb gaa gab gbb mu ce0 file Hf E G Y W M.
  destruct (write_header_some f Hf) as [hd HD].
  destruct Hf as [Hn [Ho [_ [Vc Vi]]]]. rewrite E in Vi. destruct Vi as [Vh Vg].
  assert (BD := write_body_uhf tol f ha hb gaa gab gbb E G).
  unfold write in W. rewrite HD, BD in W. cbn [bind] in W. injection W as <-.
  destruct (read_ints_uhf tol (f_n f) (f_tgeneral f) (f_cpx f) ha hb gaa gab gbb (f_const f) mu ce0)
    as [ha' [hb' [gaa' [gab' [gbb' [R _]]]]]]; [lia| |].
  { intros TG. destruct (Y TG) as [Y1 Y2]. split; intros i j A B; [apply Y1|apply Y2]; now split. }
  assert (Z0 : rec_ok (f_cpx f) (zrec num0)) by (apply zrec_ok, zero_narrow).
  rewrite read_file; [|exact HD|exact Ho| |].
  - rewrite E, G. cbn [is_uhf]. rewrite R. destruct (Qeq_bool mu 0) eqn:B; [|reflexivity].
    apply Qeq_bool_iff in B. contradiction.
  - unfold uhf_recs. intros Q. apply app_eq_nil in Q. destruct Q as [_ Q]. discriminate.
  - unfold uhf_recs.
    apply Forall_app; split; [apply eri_recs_ok; [exact Hn|]; intros; now apply Vg|].
    apply Forall_app; split; [now constructor|].
    apply Forall_app; split; [apply eri_recs_ok; [exact Hn|]; intros; now apply Vg|].
    apply Forall_app; split; [now constructor|].
    apply Forall_app; split; [apply eri_recs_ok; [exact Hn|]; intros; now apply Vg|].
    apply Forall_app; split; [now constructor|].
    apply Forall_app; split; [apply h_recs_ok; [exact Hn|]; intros; now apply Vh|].
    apply Forall_app; split; [now constructor|].
    apply Forall_app; split; [apply h_recs_ok; [exact Hn|]; intros; now apply Vh|].
    apply Forall_app; split; [now constructor|].
    constructor; [|constructor]. now apply zrec_ok, value_ok_narrow.
Qed.

(* Restricted integrals with a one-electron matrix declared unsymmetric
   (tgeneral): the reader symmetrises it. *)
Definition ex_tgen : fci :=
  mkFci (lit "c1") 2 1 1 0 true true [0; 0] false (re 0)
    (Rhf (fun i j => re (inject_Z (3 * i + j))) (fun _ _ _ _ => num0)).
Definition h_of (o : option fci) (i j : Z) : option num :=
  match o with Some f => match f_ints f with Rhf h _ => Some (h i j) | _ => None end | None => None end.
Definition round_trip (tol : Q) (f : fci) : option fci :=
  match write tol f with Some t => read (f_pg f) 0 num0 t | None => None end.
Theorem c26_tgeneral_refuted : exists f h h', attributes_ok f /\ f_tgeneral f = true /\
  f_ints f = Rhf h (fun _ _ _ _ => num0) /\ (fst (h 0%Z 1%Z) == 1)%Q /\
  h_of (round_trip tiny f) 0 1 = Some h' /\ (fst h' == 3)%Q.
Proof.
  exists ex_tgen, (fun i j => re (inject_Z (3 * i + j))), (30000000000000000 # 10000000000000000, 0)%Q.
  split.
  { unfold attributes_ok. cbn. split; [lia|]. split; [reflexivity|]. split.
    - exists [8; 0]. split; [do 7 right; now left|]. split; [right; now left|]. intros x [<-|[<-|[]]]; right; now left.
    - split; [reflexivity|]. split; intros; reflexivity. }
  repeat split; vm_compute; reflexivity.
Qed.

(* A complex value whose imaginary part is -10 runs into the field before it. *)
Definition ex_imag : fci :=
  mkFci (lit "c1") 1 1 1 0 true false [0] true (re 0)
    (Rhf (fun _ _ => (1, - (10))%Q) (fun _ _ _ _ => num0)).
Theorem c26_imaginary_refuted : exists f, f_cpx f = true /\ f_n f = 1 /\
  write tiny f <> None /\ round_trip tiny f = None.
Proof.
  exists ex_imag. split; [reflexivity|]. split; [reflexivity|]. split; vm_compute; [discriminate|reflexivity].
Qed.

(* From orbital 1000 on, the first index runs into the value. *)
Lemma str_int_long : forall i, 1000 <= i -> (4 <= length (str_int i))%nat.
Proof.
  intros i H. unfold str_int. replace (i <? 0) with false by lia.
  destruct (str_nat_ok i ltac:(lia)) as [A [B _]]. apply dval_bound in A. rewrite B in A.
  destruct (le_lt_dec 4 (length (str_nat i))) as [L|L]; [exact L|].
  assert (10 ^ Z.of_nat (length (str_nat i)) <= 10 ^ 3) by (apply Z.pow_le_mono_r; lia). lia.
Qed.
Lemma wide_line : forall v i j k l, 1000 <= i -> small j -> small k -> small l ->
  read_line (line0 false v i j k l) = None.
Proof.
  intros v i j k l Hi Hj Hk Hl.
  assert (W : words ws (line0 false v i j k l) = [core16 (fst v) ++ str_int i; str_int j; str_int k; str_int l]).
  { unfold line0. rewrite fmt_f_core. unfold pad. rewrite <- app_assoc.
    assert (D : fmt_d 4 i = str_int i).
    { unfold fmt_d, pad. assert (L := str_int_long i Hi). replace (4 - length (str_int i))%nat with 0%nat by lia. reflexivity. }
    rewrite D. rewrite (app_assoc (core16 (fst v))). rewrite words_field.
    - f_equal. rewrite words_d; [|exact Hj|now apply head_d].
      rewrite words_d; [|exact Hk|rewrite <- (app_nil_r (fmt_d 4 l)); now apply head_d].
      rewrite <- (app_nil_r (fmt_d 4 l)). now rewrite words_d.
    - intros c I. apply in_app_iff in I. destruct I as [I|I]; [eapply core16_no_ws|eapply str_int_no_ws]; eauto.
    - intros Q. apply app_eq_nil in Q. destruct Q as [Q _]. now apply core16_nonempty in Q.
    - now apply head_d. }
  unfold read_line. destruct (core16 (fst v)) as [|c w] eqn:E; [now apply core16_nonempty in E|].
  cbn [app] in W. destruct (strip_first _ _ _ _ W) as [t T]. rewrite T.
  assert (C : Ascii.eqb c "!"%char = false).
  { apply Ascii.eqb_neq. intros ->. destruct (core16_chars (fst v) "!"%char) as [D|[D|D]]; try discriminate.
    rewrite E. now left. }
  rewrite C. unfold split_ws. rewrite <- T, words_strip, W. reflexivity.
Qed.
Lemma mapM_none : forall (A B : Type) (f : A -> option B) l x, In x l -> f x = None -> mapM f l = None.
Proof.
  intros A B f l x. induction l as [|a l IH]; intros I N; [destruct I|]. cbn. destruct I as [->|I]; [now rewrite N|].
  destruct (f a); [|reflexivity]. cbn. now rewrite IH.
Qed.
Lemma read_bad_line : forall f hd rs mu ce0 v i j k l, write_header f = Some hd ->
  Z.of_nat (length (f_orb f)) = f_n f -> In (v, (i, j, k, l)) rs ->
  read_line (line0 (f_cpx f) v i j k l) = None ->
  read (f_pg f) mu ce0 (hd ++ flat_map (rec_line (f_cpx f)) rs) = None.
Proof.
  intros f hd rs mu ce0 v i j k l H L I B.
  destruct (write_header_low f hd H L) as [tab [idx [isym [T [J [S LH]]]]]].
  unfold read. unfold lower in *. rewrite map_app, LH.
  assert (LB : map lower1 (flat_map (rec_line (f_cpx f)) rs) = flat_map (rec_line (f_cpx f)) rs).
  { rewrite <- (map_id (flat_map _ _)) at 2. apply map_ext_in. intros c K.
    apply flat_lines_plain in K. destruct K as [K| ->]; [now apply plain_lower|reflexivity]. }
  rewrite LB. rewrite <- !app_assoc. cbn [app].
  change ([newline] ++ flat_map (rec_line (f_cpx f)) rs) with (newline :: flat_map (rec_line (f_cpx f)) rs).
  set (X := low_header (f_n f) (f_elec f) (f_twos f) idx isym (is_uhf (f_ints f)) (f_general f) (f_tgeneral f)).
  set (body := newline :: flat_map (rec_line (f_cpx f)) rs).
  destruct (split_file X body (low_header_okc _ _ _ _ _ _ _ _)) as [A1 [A2 A3]].
  { intros c [<-|K]; [now right|]. eapply flat_lines_plain; eauto. }
  rewrite A1, A2, A3. cbn [bind].
  assert (RL : read_lines body = None).
  { unfold read_lines, body.
    change (newline :: flat_map (rec_line (f_cpx f)) rs) with ([] ++ newline :: flat_map (rec_line (f_cpx f)) rs).
    rewrite split_on_app, split_lines. erewrite mapM_none; [reflexivity| |exact B].
    apply in_or_app. right. apply in_or_app. left.
    apply in_map_iff. exists (v, (i, j, k, l)). split; [reflexivity|exact I]. }
  rewrite RL.
  destruct (read_header (lit " &fci " ++ X)) as [d|]; [|reflexivity]. cbn [bind].
  repeat match goal with |- bind ?x _ = None => destruct x; [cbn [bind]|reflexivity] end.
  reflexivity.
Qed.
(* more than 999 orbitals: any file with a one-electron element in a row from
   1000 on (and a column before) cannot be read back *)
Theorem c26_wide_index_unreadable : forall tol f h g file mu ce0 i j, f_cpx f = false -> f_ints f = Rhf h g ->
  Z.of_nat (length (f_orb f)) = f_n f -> 999 <= i < f_n f -> 0 <= j < 999 ->
  (0 <= tol)%Q -> (tol * tol < sqmod (h i j))%Q -> write tol f = Some file ->
  read (f_pg f) mu ce0 file = None.
Proof.
  intros tol f h g file mu ce0 i j C E L Hi Hj P B W.
  destruct (write_header f) as [hd|] eqn:HD; [|unfold write in W; rewrite HD in W; discriminate].
  assert (BD := write_body_rhf tol f h g E ltac:(lia)).
  unfold write in W. rewrite HD, BD in W. cbn [bind] in W. injection W as <-.
  eapply (read_bad_line f hd _ mu ce0 (h i j) (i + 1) (j + 1) 0 0 HD L).
  - unfold rhf_recs. apply in_or_app. right. apply in_or_app. left. apply in_h_recs.
    exists i, j. split; [apply in_h_pairs; destruct (f_tgeneral f); lia|]. split; [|reflexivity].
    unfold bigger. destruct (Qlt_le_dec tol 0); [reflexivity|].
    destruct (Qlt_le_dec (tol * tol) (fst (h i j) * fst (h i j) + snd (h i j) * snd (h i j))) as [A|A]; [reflexivity|].
    exfalso. unfold sqmod in B. now apply Qle_not_lt in A.
  - rewrite C. apply wide_line; unfold small; lia.
Qed.
Definition ex_wide : fci :=
  mkFci (lit "c1") 1000 1 1 0 true false (repeat 0 1000) false (re 0)
    (Rhf (fun i j => if i =? 999 then if j =? 0 then re 1 else num0 else num0) (fun _ _ _ _ => num0)).
Theorem c26_wide_index_refuted : exists f file, f_n f = 1000 /\ Z.of_nat (length (f_orb f)) = 1000 /\
  write tiny f = Some file /\ read (f_pg f) 0 num0 file = None.
Proof.
  assert (HD : write_header ex_wide <> None) by (vm_compute; discriminate).
  destruct (write_header ex_wide) as [hd|] eqn:E; [clear HD|congruence].
  assert (BD := write_body_rhf tiny ex_wide _ _ eq_refl ltac:(cbn; lia)).
  assert (W : write tiny ex_wide = Some (hd ++ flat_map (rec_line (f_cpx ex_wide))
     (rhf_recs tiny (f_n ex_wide) (f_general ex_wide) (f_tgeneral ex_wide)
       (fun i j => if i =? 999 then if j =? 0 then re 1 else num0 else num0) (fun _ _ _ _ => num0) (f_const ex_wide)))).
  { unfold write. rewrite E, BD. reflexivity. }
  exists ex_wide. eexists. split; [reflexivity|]. split; [vm_compute; reflexivity|]. split; [exact W|].
  eapply (c26_wide_index_unreadable tiny ex_wide _ _ _ 0 num0 999 0); try exact W; try reflexivity; cbn; try lia; vm_compute; congruence.
Qed.

(* a concrete file *)
Definition ex_h (i j : Z) : num := re (inject_Z (i * j) - (7 # 3)).
Definition ex_g (i j k l : Z) : num := re (inject_Z (i + j + k + l) * (1 # 2)).
Definition ex_rhf : fci := mkFci (lit "c2v") 2 3 1 2 false false [0; 3] false (re (- (101 # 10))) (Rhf ex_h ex_g).
Example c26_ex_file : option_map string_of_list_ascii (write tiny ex_rhf) = Some (String.concat (String newline EmptyString)
  [" &FCI NORB=   2,NELEC= 3,MS2=1,"; "  ORBSYM=1,3,"; "  ISYM=2,"; " &END";
   "  0.5000000000000000   2   1   1   1"; "  1.0000000000000000   2   1   2   1";
   "  1.0000000000000000   2   2   1   1"; "  1.5000000000000000   2   2   2   1";
   "  2.0000000000000000   2   2   2   2"; " -2.3333333333333333   1   1   0   0";
   " -2.3333333333333333   2   1   0   0"; " -1.3333333333333333   2   2   0   0";
   "-10.1000000000000000   0   0   0   0"; ""])%string.
Proof. vm_compute. reflexivity. Qed.
Example c26_ex_read : option_map (fun f => (f_n f, f_elec f, f_twos f, f_ipg f, f_orb f,
    Qred (fst (f_const f)), match f_ints f with Rhf h g => (Qred (fst (h 0 1)), Qred (fst (g 0 1 1 1))) | _ => (0, 0)%Q end))
    (round_trip tiny ex_rhf) = Some (2, 3, 1, 2, [0; 3], (-101 # 10)%Q, (-23333333333333333 # 10000000000000000, 3 # 2)%Q).
Proof. vm_compute. reflexivity. Qed.
Example c26_ex_uhf : option_map (fun f => match f_ints f with
    | Uhf ha hb gaa gab gbb => (Qred (fst (ha 0 1)), Qred (fst (hb 0 1)), Qred (fst (gaa 0 1 1 1)), Qred (fst (gab 0 1 1 1)), Qred (fst (gbb 0 1 1 1)))
    | _ => (0, 0, 0, 0, 0)%Q end)
    (round_trip tiny (mkFci (lit "c2v") 2 3 1 2 true false [0; 3] false (re 5)
       (Uhf ex_h (fun i j => re (inject_Z (i + j))) ex_g (fun i j k l => re (inject_Z (i + 2 * j))) (fun i j k l => re (inject_Z (- (l + 6)))))))
  = Some (-23333333333333333 # 10000000000000000, 1, 3 # 2, 2, - (7))%Q.
Proof. vm_compute. reflexivity. Qed.

(* ============================================================== C27 *)
Definition neq_num (v w : num) : Prop := (fst v == fst w)%Q /\ (snd v == snd w)%Q.
Definition nadd (v w : num) : num := ((fst v + fst w)%Q, (snd v + snd w)%Q).
(* sum over the processes 0 .. p-1 *)
Fixpoint over_ranks (p : nat) (x : Z -> num) : num :=
  match p with O => (0, 0)%Q | S p' => nadd (over_ranks p' x) (x (Z.of_nat p')) end.

Lemma over_ranks_one : forall p x r v, 0 <= r < Z.of_nat p ->
  (forall s, 0 <= s < Z.of_nat p -> neq_num (x s) (if s =? r then v else num0)) -> neq_num (over_ranks p x) v.
Proof.
  assert (Z0 : forall p x, (forall s, 0 <= s < Z.of_nat p -> neq_num (x s) num0) -> neq_num (over_ranks p x) num0).
  { induction p as [|p IH]; intros x H; [split; reflexivity|]. cbn [over_ranks].
    destruct (IH x) as [A B]; [intros s Hs; apply H; lia|].
    destruct (H (Z.of_nat p)) as [C D]; [lia|]. cbn in A, B, C, D. split; cbn [nadd fst snd num0]; rewrite ?A, ?B, ?C, ?D; reflexivity. }
  induction p as [|p IH]; intros x r v R H; [lia|]. cbn [over_ranks].
  destruct (Z.eq_dec r (Z.of_nat p)) as [->|N].
  - destruct (Z0 p x) as [A B].
    { intros s Hs. specialize (H s ltac:(lia)). now replace (s =? Z.of_nat p) with false in H by lia. }
    destruct (H (Z.of_nat p)) as [C D]; [lia|]. rewrite Z.eqb_refl in C, D.
    cbn in A, B. split; cbn [nadd fst snd]; rewrite ?A, ?B, ?C, ?D; ring.
  - destruct (IH x r v) as [A B]; [lia|intros s Hs; apply H; lia|].
    destruct (H (Z.of_nat p)) as [C D]; [lia|]. replace (Z.of_nat p =? r) with false in C, D by lia.
    cbn in C, D. split; cbn [nadd fst snd]; rewrite ?A, ?B, ?C, ?D; ring.
Qed.

Lemma zinsert_perm : forall a l, Permutation (a :: l) (zinsert a l).
Proof.
  intros a l. induction l as [|b l IH]; [reflexivity|]. cbn. destruct (a <=? b); [reflexivity|].
  rewrite perm_swap. now constructor.
Qed.
Lemma zsort_perm : forall l, Permutation l (zsort l).
Proof. induction l as [|a l IH]; [reflexivity|]. cbn. rewrite <- zinsert_perm. now constructor. Qed.
Inductive asc : list Z -> Prop :=
| asc_nil : asc []
| asc_cons : forall a l, (forall b, In b l -> a <= b) -> asc l -> asc (a :: l).
Lemma zinsert_asc : forall a l, asc l -> asc (zinsert a l).
Proof.
  intros a l. induction 1 as [|b l H A IH]; [repeat constructor; intros ? []|]. cbn. destruct (a <=? b) eqn:E.
  - constructor; [|now constructor]. intros c [<-|I]; [lia|]. specialize (H c I). lia.
  - constructor; [|exact IH]. intros c I. apply (Permutation_in _ (Permutation_sym (zinsert_perm a l))) in I.
    destruct I as [<-|I]; [lia|auto].
Qed.
Lemma zsort_asc : forall l, asc (zsort l).
Proof. induction l; [constructor|]. cbn. now apply zinsert_asc. Qed.
Lemma asc_unique : forall l m, asc l -> asc m -> Permutation l m -> l = m.
Proof.
  intros l m A. revert m. induction A as [|a l H A IH]; intros m B P.
  - apply Permutation_nil in P. now subst.
  - destruct B as [|b m G B]; [apply Permutation_sym, Permutation_nil in P; discriminate|].
    assert (a = b).
    { assert (I : In a (b :: m)) by (eapply Permutation_in; [exact P|now left]).
      assert (J : In b (a :: l)) by (eapply Permutation_in; [apply Permutation_sym, P|now left]).
      destruct I as [<-|I]; [reflexivity|]. destruct J as [<-|J]; [reflexivity|]. specialize (G a I). specialize (H b J). lia. }
    subst. f_equal. apply IH; [exact B|]. eapply Permutation_cons_inv; eauto.
Qed.

(* the process that keeps an integral: only the two smaller indices matter *)
Definition keeper (p a b c : Z) : Z := if b =? c then b mod p else (b * (b + 1) / 2 + a) mod p.
Lemma par_elem_keeper : forall mrank p i j k l v a b c d, Permutation [a; b; c; d] [i; j; k; l] -> a <= b -> b <= c -> c <= d ->
  neq_num (par_elem mrank p i j k l v) (if mrank =? keeper p a b c then v else num0).
Proof.
  intros mrank p i j k l v a b c d P A B C. unfold par_elem.
  destruct (is_zero v) eqn:Z0.
  { unfold is_zero in Z0. apply andb_true_iff in Z0. destruct Z0 as [Z1 Z2]. apply Qeq_bool_iff in Z1, Z2.
    destruct (mrank =? keeper p a b c); [split; reflexivity|]. split; assumption. }
  assert (E : zsort [i; j; k; l] = [a; b; c; d]).
  { apply asc_unique; [apply zsort_asc| |].
    - repeat constructor; cbn; intros; intuition lia.
    - rewrite P. symmetry. apply zsort_perm. }
  rewrite E. unfold keeper. destruct (b =? c).
  - destruct (mrank =? b mod p); split; reflexivity.
  - replace (a <=? b) with true by lia. destruct (mrank =? (b * (b + 1) / 2 + a) mod p); split; reflexivity.
Qed.

(* integrals of f as functions of spin and orbital indices *)
Definition spin (s : Z) : Prop := s = 0 \/ s = 1.

(* every two-electron integral has exactly one process that keeps it, and that
   process depends on the set of the four indices only *)
Theorem c27_two_electron : forall p, 0 < p -> exists owner : Z -> Z -> Z -> Z -> Z,
  (forall i j k l, 0 <= owner i j k l < p) /\
  (forall i j k l i' j' k' l', Permutation [i; j; k; l] [i'; j'; k'; l'] -> owner i j k l = owner i' j' k' l') /\
  (forall f r s s' i j k l, in4 (f_n f) i j k l -> spin s -> spin s' ->
     neq_num (get_v (parallelize true r p f) s s' i j k l)
             (if r =? owner i j k l then get_v f s s' i j k l else num0)).
Proof.
  intros p Hp.
  exists (fun i j k l => match zsort [i; j; k; l] with [a; b; c; _] => keeper p a b c | _ => 0 end).
  assert (S4 : forall i j k l, exists a b c d, zsort [i; j; k; l] = [a; b; c; d] /\
     Permutation [a; b; c; d] [i; j; k; l] /\ a <= b /\ b <= c /\ c <= d).
  { intros i j k l. assert (P := zsort_perm [i; j; k; l]). assert (A := zsort_asc [i; j; k; l]).
    assert (L := Permutation_length P).
    destruct (zsort [i; j; k; l]) as [|a [|b [|c [|d [|e m]]]]]; try discriminate.
    exists a, b, c, d. split; [reflexivity|]. split; [now symmetry|].
    inversion A as [|? ? A1 A2]; subst. inversion A2 as [|? ? A3 A4]; subst. inversion A4 as [|? ? A5 A6]; subst.
    split; [apply A1; now left|]. split; [apply A3; now left|apply A5; now left]. }
  split; [|split].
  - intros i j k l. destruct (S4 i j k l) as [a [b [c [d [-> _]]]]]. unfold keeper.
    destruct (b =? c); apply Z.mod_pos_bound; lia.
  - intros i j k l i' j' k' l' P.
    replace (zsort [i'; j'; k'; l']) with (zsort [i; j; k; l]); [reflexivity|].
    apply asc_unique; [apply zsort_asc..|]. rewrite <- !zsort_perm. exact P.
  - intros f r s s' i j k l [Hi [Hj [Hk Hl]]] Hs Hs'.
    assert (K : forall (g : arr4) i j k l, 0 <= i < f_n f -> 0 <= j < f_n f -> 0 <= k < f_n f -> 0 <= l < f_n f ->
      neq_num (par_g2e (f_n f) r p g i j k l)
        (if r =? (match zsort [i; j; k; l] with [a; b; c; _] => keeper p a b c | _ => 0 end) then g i j k l else num0)).
    { clear. intros g i j k l Hi Hj Hk Hl. unfold par_g2e.
      destruct (andb_true_intro (conj (proj2 (Z.leb_le 0 i) (proj1 Hi)) (proj2 (Z.ltb_lt i (f_n f)) (proj2 Hi)))).
      destruct (0 <=? i) eqn:E1, (i <? f_n f) eqn:E2, (0 <=? j) eqn:E3, (j <? f_n f) eqn:E4, (0 <=? k) eqn:E5,
        (k <? f_n f) eqn:E6, (0 <=? l) eqn:E7, (l <? f_n f) eqn:E8; try lia. cbn [andb].
      assert (P := zsort_perm [i; j; k; l]). assert (A := zsort_asc [i; j; k; l]). assert (L := Permutation_length P).
      destruct (zsort [i; j; k; l]) as [|a [|b [|c [|d [|e m]]]]]; try discriminate.
      inversion A as [|? ? A1 A2]; subst. inversion A2 as [|? ? A3 A4]; subst. inversion A4 as [|? ? A5 A6]; subst.
      eapply par_elem_keeper; [symmetry; exact P| | |]; [apply A1|apply A3|apply A5]; now left. }
    unfold get_v, parallelize. cbn [f_ints f_n].
    destruct (f_ints f) as [h g|ha hb gaa gab gbb]; [now apply K|].
    destruct (s =? s'); [destruct (s =? 0); now apply K|].
    destruct ((s =? 0) && (s' =? 1)); [now apply K|].
    replace (zsort [i; j; k; l]) with (zsort [k; l; i; j]); [now apply K|].
    apply asc_unique; [apply zsort_asc..|]. rewrite <- !zsort_perm.
    change [k; l; i; j] with ([k; l] ++ [i; j]). change [i; j; k; l] with ([i; j] ++ [k; l]). apply Permutation_app_comm.
Qed.

(* rows of the one-electron matrix are dealt out cyclically *)
Theorem c27_one_electron : forall f r p s i j, 0 < p -> in2 (f_n f) i j ->
  get_t (parallelize true r p f) s i j = if r =? i mod p then get_t f s i j else num0.
Proof.
  intros f r p s i j Hp [Hi Hj]. unfold get_t, parallelize. cbn [f_ints].
  assert (K : forall h, par_h1e (f_n f) r p h i j = if r =? i mod p then h i j else num0).
  { intros h. unfold par_h1e. replace (0 <=? i) with true by lia. replace (i <? f_n f) with true by lia.
    destruct (r =? i mod p); reflexivity. }
  destruct (f_ints f); [apply K|]. destruct (s =? 0); apply K.
Qed.

Theorem c27_nothing_lost : forall f p s s' i j k l, (0 < p)%nat -> in4 (f_n f) i j k l -> spin s -> spin s' ->
  neq_num (over_ranks p (fun r => get_v (parallelize true r (Z.of_nat p) f) s s' i j k l)) (get_v f s s' i j k l) /\
  neq_num (over_ranks p (fun r => get_t (parallelize true r (Z.of_nat p) f) s i j)) (get_t f s i j) /\
  neq_num (over_ranks p (fun r => f_const (parallelize true r (Z.of_nat p) f))) (f_const f).
Proof.
  intros f p s s' i j k l Hp I Hs Hs'. split; [|split].
  - destruct (c27_two_electron (Z.of_nat p) ltac:(lia)) as [ow [A [_ B]]].
    apply over_ranks_one with (r := ow i j k l); [apply A|]. intros q Hq. now apply B.
  - apply over_ranks_one with (r := i mod Z.of_nat p); [apply Z.mod_pos_bound; lia|].
    intros q Hq. rewrite c27_one_electron; [|lia|destruct I as [? [? _]]; now split]. destruct (q =? _); split; reflexivity.
  - apply over_ranks_one with (r := 0); [lia|]. intros q Hq. unfold parallelize. cbn [f_const].
    destruct (q =? 0); split; reflexivity.
Qed.

(* nothing else changes, and nothing at all without MPI *)
Theorem c27_frame : forall f r p, parallelize false r p f = f /\
  (let f' := parallelize true r p f in
   f_pg f' = f_pg f /\ f_n f' = f_n f /\ f_elec f' = f_elec f /\ f_twos f' = f_twos f /\ f_ipg f' = f_ipg f /\
   f_general f' = f_general f /\ f_tgeneral f' = f_tgeneral f /\ f_orb f' = f_orb f /\ f_cpx f' = f_cpx f).
Proof. intros. repeat split. Qed.

(* The load is what the comments say: the keeper of an integral with sorted
   indices a <= b <= c <= d. *)
Theorem c27_keeper : forall f r p s s' i j k l a b c d, 0 < p -> in4 (f_n f) i j k l -> spin s -> spin s' ->
  Permutation [a; b; c; d] [i; j; k; l] -> a <= b -> b <= c -> c <= d ->
  neq_num (get_v (parallelize true r p f) s s' i j k l)
    (if r =? (if b =? c then b else b * (b + 1) / 2 + a) mod p then get_v f s s' i j k l else num0).
Proof.
  intros f r p s s' i j k l a b c d Hp [Hi [Hj [Hk Hl]]] Hs Hs' P A B C.
  replace ((if b =? c then b else b * (b + 1) / 2 + a) mod p) with (keeper p a b c) by (unfold keeper; now destruct (b =? c)).
  assert (K : forall (g : arr4) i j k l, Permutation [a; b; c; d] [i; j; k; l] ->
     0 <= i < f_n f -> 0 <= j < f_n f -> 0 <= k < f_n f -> 0 <= l < f_n f ->
     neq_num (par_g2e (f_n f) r p g i j k l) (if r =? keeper p a b c then g i j k l else num0)).
  { clear - A B C. intros g i j k l P Hi Hj Hk Hl. unfold par_g2e.
    destruct (0 <=? i) eqn:E1, (i <? f_n f) eqn:E2, (0 <=? j) eqn:E3, (j <? f_n f) eqn:E4, (0 <=? k) eqn:E5,
        (k <? f_n f) eqn:E6, (0 <=? l) eqn:E7, (l <? f_n f) eqn:E8; try lia. cbn [andb].
    eapply par_elem_keeper; eauto. }
  unfold get_v, parallelize. cbn [f_ints f_n].
  destruct (f_ints f) as [h g|ha hb gaa gab gbb]; [now apply K|].
  destruct (s =? s'); [destruct (s =? 0); now apply K|].
  destruct ((s =? 0) && (s' =? 1)); [now apply K|].
  apply K; auto. rewrite P. change [k; l; i; j] with ([k; l] ++ [i; j]). change [i; j; k; l] with ([i; j] ++ [k; l]). apply Permutation_app_comm.
Qed.

(* The two images h_ij and h_ji of a one-electron integral end up with different
   processes. *)
Theorem c27_one_electron_symmetry_refuted : exists f r p i j, attributes_ok f /\ in2 (f_n f) i j /\ 0 <= r < p /\
  get_t f 0 i j = get_t f 0 j i /\ get_t (parallelize true r p f) 0 i j <> get_t (parallelize true r p f) 0 j i.
Proof.
  exists (mkFci (lit "c2v") 2 3 1 2 false false [0; 3] false (re (- (101 # 10))) (Rhf (fun _ _ => re 1) (fun _ _ _ _ => num0))), 0, 2, 0, 1.
  split.
  { unfold attributes_ok. cbn. split; [lia|]. split; [reflexivity|]. split.
    - exists [8; 0; 2; 3; 1]. split; [right; now left|]. split; [cbn; tauto|]. cbn. intros x [<-|[<-|[]]]; tauto.
    - split; [reflexivity|]. split; intros; reflexivity. }
  split; [unfold in2; cbn; lia|]. split; [lia|]. split; [reflexivity|]. vm_compute. discriminate.
Qed.

Example c27_ex : forall r, In r [0; 1; 2] ->
  get_v (parallelize true r 3 ex_rhf) 0 0 1 0 1 1 = if r =? 1 then re (3 # 2) else num0.
Proof. intros r [<-|[<-|[<-|[]]]]; vm_compute; reflexivity. Qed.

(* ============================================================== C48 *)
Definition res4 (n : Z) (q : quad) : option quad :=
  let '(i, j, k, l) := q in
  do i' <- np_index n i; do j' <- np_index n j; do k' <- np_index n k; do l' <- np_index n l; Some (i', j', k', l').
Lemma set_all_some : forall n qs g v g', set_all n g qs v = Some g' ->
  exists ps, mapM (res4 n) qs = Some ps /\ forall p, get4 g' p = if in_dec quad_eq_dec p ps then v else get4 g p.
Proof.
  intros n qs. induction qs as [|q qs IH]; intros g v g' H.
  - injection H as <-. exists []. split; reflexivity.
  - unfold set_all in H. cbn [foldM] in H. destruct (set4 n g q v) as [g1|] eqn:E; [|discriminate]. cbn [bind] in H.
    destruct (IH g1 v g' H) as [ps [P G]]. destruct q as [[[i j] k] l]. unfold set4 in E.
    destruct (np_index n i) as [i'|] eqn:E1; [|discriminate]. destruct (np_index n j) as [j'|] eqn:E2; [|discriminate].
    destruct (np_index n k) as [k'|] eqn:E3; [|discriminate]. destruct (np_index n l) as [l'|] eqn:E4; [|discriminate].
    cbn [bind] in E. injection E as <-.
    exists ((i', j', k', l') :: ps). split.
    + cbn [mapM res4]. rewrite E1, E2, E3, E4. cbn [bind]. now rewrite P.
    + intros p. rewrite G. destruct (in_dec quad_eq_dec p ps) as [I|I].
      * destruct (in_dec quad_eq_dec p ((i', j', k', l') :: ps)) as [J|J]; [reflexivity|]. exfalso. apply J. now right.
      * destruct p as [[[a b] c] d]. cbn [get4].
        destruct ((a =? i') && (b =? j') && (c =? k') && (d =? l')) eqn:Q.
        -- rewrite !andb_true_iff in Q. destruct (in_dec quad_eq_dec (a, b, c, d) ((i', j', k', l') :: ps)) as [J|J]; [reflexivity|].
           exfalso. apply J. left. repeat f_equal; lia.
        -- destruct (in_dec quad_eq_dec (a, b, c, d) ((i', j', k', l') :: ps)) as [J|J]; [|reflexivity].
           destruct J as [J|J]; [|tauto]. injection J as -> -> -> ->. rewrite !Z.eqb_refl in Q. discriminate.
Qed.
Definition all4 (g : arr4) : Prop := forall a b c d, g a b c d = g b a c d /\ g a b c d = g a b d c.
Definition all8 (g : arr4) : Prop := forall a b c d, g a b c d = g b a c d /\ g a b c d = g a b d c /\ g a b c d = g c d a b.
Lemma set_images4 : forall n g i j k l v g', all4 g ->
  set_all n g ((i - 1, j - 1, k - 1, l - 1) :: images4 i j k l) v = Some g' -> all4 g'.
Proof.
  intros n g i j k l v g' S H. apply set_all_some in H. destruct H as [ps [P G]].
  unfold images4 in P. cbn [mapM res4] in P.
  destruct (np_index n (i - 1)) as [i'|]; [|discriminate]. destruct (np_index n (j - 1)) as [j'|]; [|discriminate].
  destruct (np_index n (k - 1)) as [k'|]; [|discriminate]. destruct (np_index n (l - 1)) as [l'|]; [|discriminate].
  cbn [bind] in P. injection P as <-.
  intros a b c d. destruct (S a b c d) as [S1 S2].
  assert (Ga := G (a, b, c, d)). assert (Gb := G (b, a, c, d)). assert (Gc := G (a, b, d, c)). cbn [get4] in Ga, Gb, Gc.
  rewrite Ga, Gb, Gc. clear Ga Gb Gc G.
  split; (destruct (in_dec _ _ _) as [I|I]; destruct (in_dec _ _ _) as [J|J]; auto; exfalso;
    [apply J; cbn in I|apply I; cbn in J]; cbn;
    match goal with H : _ \/ _ |- _ => repeat (destruct H as [H|H]); try contradiction; injection H as -> -> -> -> end; tauto).
Qed.
Lemma set_images8 : forall n g i j k l v g', all8 g ->
  set_all n g ((i - 1, j - 1, k - 1, l - 1) :: images4 i j k l ++ images8 i j k l) v = Some g' -> all8 g'.
Proof.
  intros n g i j k l v g' S H. apply set_all_some in H. destruct H as [ps [P G]].
  unfold images4, images8 in P. cbn [mapM res4 app] in P.
  destruct (np_index n (i - 1)) as [i'|]; [|discriminate]. destruct (np_index n (j - 1)) as [j'|]; [|discriminate].
  destruct (np_index n (k - 1)) as [k'|]; [|discriminate]. destruct (np_index n (l - 1)) as [l'|]; [|discriminate].
  cbn [bind] in P. injection P as <-.
  intros a b c d. destruct (S a b c d) as [S1 [S2 S3]].
  assert (Ga := G (a, b, c, d)). assert (Gb := G (b, a, c, d)). assert (Gc := G (a, b, d, c)). assert (Gd := G (c, d, a, b)).
  cbn [get4] in Ga, Gb, Gc, Gd. rewrite Ga, Gb, Gc, Gd. clear Ga Gb Gc Gd G.
  split; [|split]; (destruct (in_dec _ _ _) as [I|I]; destruct (in_dec _ _ _) as [J|J]; auto; exfalso;
    [apply J; cbn in I|apply I; cbn in J]; cbn;
    match goal with H : _ \/ _ |- _ => repeat (destruct H as [H|H]); try contradiction; injection H as -> -> -> -> end; tauto).
Qed.
Definition all2 (h : arr2) : Prop := forall a b, h a b = h b a.
Lemma set2_both : forall n h i j v h1 h2, all2 h -> set2 n h i j v = Some h1 -> set2 n h1 j i v = Some h2 -> all2 h2.
Proof.
  intros n h i j v h1 h2 S A B. unfold set2 in A, B.
  destruct (np_index n i) as [i'|]; [|discriminate]. destruct (np_index n j) as [j'|]; [|discriminate].
  cbn [bind] in A, B. injection A as <-. injection B as <-. intros a b. specialize (S a b).
  destruct (Z.eqb_spec a i'), (Z.eqb_spec b j'), (Z.eqb_spec a j'), (Z.eqb_spec b i'); cbn; auto.
Qed.
Lemma foldM_inv : forall (A B : Type) (f : A -> B -> option A) (P : A -> Prop) l a a',
  (forall a x a', P a -> f a x = Some a' -> P a') -> P a -> foldM f a l = Some a' -> P a'.
Proof.
  intros A B f P l. induction l as [|x l IH]; intros a a' H Pa F; cbn in F; [now injection F as <-|].
  destruct (f a x) as [b|] eqn:E; [|discriminate]. cbn in F. exact (IH b a' H (H _ _ _ Pa E) F).
Qed.
Lemma rhf_step_inv : forall n gen st x st',
  (let '(h, g, _) := st in all2 h /\ (gen = false -> all8 g)) -> rhf_step n gen st x = Some st' ->
  (let '(h, g, _) := st' in all2 h /\ (gen = false -> all8 g)).
Proof.
  intros n gen [[h g] ce] [[[[i j] k] l] d] st' [A B] H. unfold rhf_step in H.
  destruct (i + j + k + l =? 0); [injection H as <-; auto|]. destruct (k + l =? 0).
  - destruct (set2 n h (i - 1) (j - 1) d) as [h1|] eqn:E1; [|discriminate]. cbn [bind] in H.
    destruct (set2 n h1 (j - 1) (i - 1) d) as [h2|] eqn:E2; [|discriminate]. cbn [bind] in H. injection H as <-.
    split; [|exact B]. eapply set2_both; eauto.
  - destruct (set_all n g _ d) as [g1|] eqn:E; [|discriminate]. cbn [bind] in H. injection H as <-. split; [exact A|].
    intros ->. eapply set_images8; eauto.
Qed.
Definition uhf_inv (gen tg : bool) (st : uhf_state) : Prop :=
  let '(ip, (ha, hb), (gaa, gab, gbb), _) := st in
  0 <= ip /\ (tg = false -> all2 ha /\ all2 hb) /\ (gen = false -> all8 gaa /\ all4 gab /\ all8 gbb).
Lemma uhf_step_inv : forall n gen tg st x st', uhf_inv gen tg st -> uhf_step n gen tg st x = Some st' -> uhf_inv gen tg st'.
Proof.
  intros n gen tg [[[ip [ha hb]] [[gaa gab] gbb]] ce] [[[[i j] k] l] d] st' [P [A B]] H. unfold uhf_step in H.
  destruct (i + j + k + l =? 0); [injection H as <-; split; [lia|auto]|]. destruct (k + l =? 0).
  - destruct ((ip =? 3) || (ip =? 4)); [|discriminate].
    destruct (set2 n (if ip =? 3 then ha else hb) (i - 1) (j - 1) d) as [h1|] eqn:E1; [|discriminate]. cbn [bind] in H.
    destruct (if tg then Some h1 else set2 n h1 (j - 1) (i - 1) d) as [h2|] eqn:E2; [|discriminate]. cbn [bind] in H.
    assert (K : tg = false -> all2 h2).
    { intros ->. destruct (A eq_refl). eapply set2_both; [|exact E1|exact E2]. destruct (ip =? 3); auto. }
    destruct (ip =? 3); injection H as <-; (split; [exact P|]); (split; [|exact B]); intros T; destruct (A T); auto.
  - destruct (Z_le_gt_dec ip 2) as [L|L].
    2:{ destruct (py_nth [0; 2; 1] ip) as [ig|] eqn:Q; [|discriminate]. exfalso. unfold py_nth in Q. cbn in Q.
        destruct (0 <=? ip) eqn:F; [|lia]. destruct (ip <? 3) eqn:F2; [lia|].
        repeat match type of Q with context [if ?b then _ else _] => destruct b eqn:?; try discriminate; try lia end.
        all: try (destruct (Z.to_nat ip) as [|[|[|x]]] eqn:?; cbn in Q; try lia; now destruct x). }
    assert (C : ip = 0 \/ ip = 1 \/ ip = 2) by lia. destruct C as [->|[->| ->]].
    + change (py_nth [0; 2; 1] 0) with (Some 0) in H. cbn [bind] in H. change (0 =? 0) with true in H. cbv iota in H.
      destruct (set_all n gaa _ d) as [g1|] eqn:E; [|discriminate]. cbn [bind] in H. injection H as <-.
      split; [lia|]. split; [exact A|]. intros ->. destruct (B eq_refl) as [B1 [B2 B3]]. split; [|auto].
      eapply set_images8; [exact B1|exact E].
    + change (py_nth [0; 2; 1] 1) with (Some 2) in H. cbn [bind] in H. change (2 =? 0) with false in H. change (2 =? 1) with false in H. cbv iota in H.
      destruct (set_all n gbb _ d) as [g1|] eqn:E; [|discriminate]. cbn [bind] in H. injection H as <-.
      split; [lia|]. split; [exact A|]. intros ->. destruct (B eq_refl) as [B1 [B2 B3]]. split; [exact B1|]. split; [exact B2|].
      eapply set_images8; [exact B3|exact E].
    + change (py_nth [0; 2; 1] 2) with (Some 1) in H. cbn [bind] in H. change (1 =? 0) with false in H. change (1 =? 1) with true in H. cbv iota in H.
      destruct (set_all n gab _ d) as [g1|] eqn:E; [|discriminate]. cbn [bind] in H. injection H as <-.
      split; [lia|]. split; [exact A|]. intros ->. destruct (B eq_refl) as [B1 [B2 B3]]. split; [exact B1|]. split; [|exact B3].
      eapply set_images4; [exact B2|]. rewrite <- E. f_equal. change (negb false && ((2 =? 0) || (2 =? 1))) with false. cbv iota. now rewrite app_nil_r.
Qed.

(* Whatever the file contains, in whatever order: integrals read from it are
   symmetric, unless it is declared general. *)
Theorem c48_symmetry : forall pg mu ce0 file f, read pg mu ce0 file = Some f ->
  (f_general f = false -> forall s s' i j k l, spin s -> spin s' ->
     get_v f s s' i j k l = get_v f s s' j i k l /\
     get_v f s s' i j k l = get_v f s s' i j l k /\
     get_v f s s' i j k l = get_v f s' s k l i j) /\
  ((is_uhf (f_ints f) = true -> f_tgeneral f = false) -> forall s i j, get_t f s i j = get_t f s j i).
Proof.
  intros pg mu ce0 file f R. unfold read in R.
  destruct (match _ with [a; b] => Some (a, b) | _ => None end) as [[pars body]|]; [|discriminate]. cbn [bind] in R.
  do 12 (match type of R with bind ?x _ = _ => destruct x; [cbn [bind] in R|discriminate R] end).
  destruct (read_lines body) as [[cpx data]|]; [|discriminate]. cbn [bind] in R.
  match type of R with bind (if ?u =? 0 then _ else _) _ = _ => destruct (u =? 0) end.
  - match type of R with context [foldM ?F ?a data] => destruct (foldM F a data) as [[[h g] ce]|] eqn:E; [|discriminate] end.
    cbn [bind] in R. injection R as <-. 
    match type of E with foldM (rhf_step _ ?gn) _ _ = _ =>
      apply foldM_inv with (P := fun st => let '(h, g, _) := st in all2 h /\ (gn = false -> all8 g)) in E end.
    + destruct E as [E1 E2]. cbn [f_general f_ints is_uhf f_tgeneral]. split.
      * intros G s s' i j k m _ _. unfold get_v. cbn [f_ints]. destruct (E2 G i j k m) as [A [B C]]. auto.
      * intros _ s i j. unfold get_t. cbn [f_ints]. destruct (Qeq_bool mu 0); [apply E1|]. rewrite (E1 i j). rewrite (Z.eqb_sym j i). reflexivity.
    + intros a x a' Pa F. eapply rhf_step_inv; eauto.
    + split; [intros ? ?; reflexivity|intros _ ? ? ? ?; auto].
  - match type of R with context [foldM ?F ?a data] => destruct (foldM F a data) as [[[[ip [ha hb]] [[gaa gab] gbb]] ce]|] eqn:E; [|discriminate] end.
    cbn [bind] in R. destruct (Qeq_bool mu 0); [|discriminate]. cbn [bind] in R. injection R as <-.
    match type of E with foldM (uhf_step _ ?g ?t) _ _ = _ => apply foldM_inv with (P := uhf_inv g t) in E end.
    + destruct E as [_ [E1 E2]]. cbn [f_general f_ints is_uhf f_tgeneral]. split.
      * intros G s s' i j k m Hs Hs'. unfold get_v. cbn [f_ints]. destruct (E2 G) as [A [B C]].
        destruct (A i j k m) as [A1 [A2 A3]]. destruct (C i j k m) as [C1 [C2 C3]]. destruct (B i j k m) as [B1 B2]. destruct (B k m i j) as [B3 B4].
        destruct Hs as [->| ->], Hs' as [->| ->]; cbn; auto.
      * intros T s i j. unfold get_t. cbn [f_ints]. destruct (E1 (T eq_refl)) as [A B]. destruct (s =? 0); auto.
    + intros a x a' Pa F. eapply uhf_step_inv; eauto.
    + split; [lia|]. split; [split; intros ? ?; reflexivity|]. intros _. split; [|split]; intros ? ? ? ?; auto.
Qed.

(* a hand-written unrestricted file: the spin blocks are read in the order
   aa, bb, ab, and one line of the ab block fills four entries only *)
Definition ex_text : text := lit (String.concat (String newline EmptyString)
  ["&FCI NORB=2, NELEC=2, MS2=0,"; "ORBSYM=1,1,"; "ISYM=1, IUHF=1,"; "&END";
   "0.5 2 1 1 1"; "0 0 0 0 0"; "0.25 2 1 1 1"; "0 0 0 0 0"; "0.75 2 1 1 1"; "0 0 0 0 0";
   "-1.5 1 2 0 0"; "0 0 0 0 0"; "-2.5 1 2 0 0"; "0 0 0 0 0"; "4.0 0 0 0 0"; ""])%string.
Example c48_ex : option_map (fun f => (map (fun q => let '(s, s', (i, j, k, l)) := q in Qred (fst (get_v f s s' i j k l)))
     [(0, 0, (0, 0, 0, 1)); (1, 1, (0, 0, 1, 0)); (0, 1, (0, 1, 0, 0)); (0, 1, (0, 0, 0, 1)); (1, 0, (0, 0, 1, 0))],
     Qred (fst (get_t f 0 1 0)), Qred (fst (get_t f 1 0 1)), Qred (fst (f_const f))))
     (read (lit "c1") 0 num0 ex_text) =
  Some ([1 # 2; 1 # 4; 3 # 4; 0; 3 # 4], - 3 # 2, - 5 # 2, 4)%Q.
Proof. vm_compute. reflexivity. Qed.

Print Assumptions c26_restricted.
Print Assumptions c26_unrestricted.
Print Assumptions c26_exact.
Print Assumptions c26_unrestricted_folded_refuted.
Print Assumptions c26_unrestricted_mu_refuted.
Print Assumptions c26_tgeneral_refuted.
Print Assumptions c26_imaginary_refuted.
Print Assumptions c26_wide_index_unreadable.
Print Assumptions c26_wide_index_refuted.
Print Assumptions c27_two_electron.
Print Assumptions c27_one_electron.
Print Assumptions c27_nothing_lost.
Print Assumptions c27_frame.
Print Assumptions c27_keeper.
Print Assumptions c27_one_electron_symmetry_refuted.
Print Assumptions c48_symmetry.
