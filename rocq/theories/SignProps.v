(** Properties C18-C21: fermionic signs and operator strings. *)
From Coq Require Import ZArith QArith Qcanon Bool List Lia Permutation Sorted.
From Verif Require Import DictLib IndexLib SignModel SignProofs.
Import ListNotations.
Open Scope Z_scope.

(** ** C18: transposition.  A transposition is a permutation of the legs 0..n-1; leg i of the result is leg axes[i]. *)
Definition legs (pl : list Z) : list Z := zrange (Z.of_nat (length pl)).

(* the sign is (-1)^(number of pairs of odd legs standing in exchanged order) *)
Theorem c18_sign_counts_odd_inversions :
  forall (plist axes : list Z), Permutation (legs plist) axes ->
  compute_phase true plist axes false = (if Z.even (odd_inversions (pget plist) axes) then 1 else -1).
Proof.
  intros pl axes H. rewrite compute_phase_left.
  - rewrite perm_rest_nil, app_nil_r by exact H. apply sgn_count.
  - eapply Permutation_NoDup; [exact H|apply zrange_nodup].
  - intros x Hx. apply in_zrange. eapply Permutation_in; [apply Permutation_sym; exact H|exact Hx].
Qed.
Print Assumptions c18_sign_counts_odd_inversions.

Lemma phase_perm : forall plist axes, Permutation (legs plist) axes ->
  compute_phase true plist axes false = sgn (pget plist) axes.
Proof. intros. rewrite sgn_count. now apply c18_sign_counts_odd_inversions. Qed.

Lemma pget_map : forall f l i, 0 <= i < Z.of_nat (length l) -> pget (map f l) i = f (pget l i).
Proof. intros. unfold pget. rewrite (nth_indep _ 0 (f 0)) by (rewrite map_length; lia). apply map_nth. Qed.
Lemma map_pget : forall l, map (pget l) (legs l) = l.
Proof.
  intros l. unfold legs, zrange. rewrite Nat2Z.id, map_map. apply nth_ext with (d := 0) (d' := 0); [now rewrite map_length, seq_length|].
  intros k Hk. rewrite map_length, seq_length in Hk.
  rewrite (nth_indep _ 0 (pget l (Z.of_nat 0))) by now rewrite map_length, seq_length.
  rewrite (map_nth (fun x => pget l (Z.of_nat x))). rewrite seq_nth by auto. unfold pget. cbn. now rewrite Nat2Z.id.
Qed.

(* transposing by p and then by q is transposing by the composite *)
Theorem c18_composition :
  forall (plist p q : list Z), Permutation (legs plist) p -> Permutation (legs plist) q ->
  compute_phase true plist (map (pget p) q) false
  = compute_phase true plist p false * compute_phase true (map (pget plist) p) q false.
Proof.
  intros pl p q Hp Hq.
  assert (Lp: length p = length pl) by (apply Permutation_length in Hp; unfold legs, zrange in Hp; rewrite map_length, seq_length in Hp; lia).
  assert (Zp: legs p = legs pl) by (unfold legs; now rewrite Lp).
  assert (Np: NoDup p) by (eapply Permutation_NoDup; [exact Hp|apply zrange_nodup]).
  assert (Hc: Permutation (legs pl) (map (pget p) q)).
  { etransitivity; [exact Hp|]. rewrite <- (map_pget p) at 1. apply Permutation_map. now rewrite Zp. }
  rewrite !phase_perm; auto.
  2:{ unfold legs. rewrite map_length, Lp. exact Hq. }
  rewrite (sgn_compose (pget pl) (Z.of_nat (length pl)) (pget p) q).
  - fold (legs pl). rewrite <- Zp, map_pget. f_equal. apply sgn_ext. intros x Hx.
    rewrite pget_map; [reflexivity|]. rewrite Lp. apply in_zrange. eapply Permutation_in; [apply Permutation_sym; exact Hq|exact Hx].
  - intros a b Ha Hb E. unfold pget in E. assert (Z.to_nat a = Z.to_nat b); [|lia].
    eapply (proj1 (NoDup_nth p 0) Np); try lia.
  - exact Hq.
Qed.
Print Assumptions c18_composition.

(* transposing back restores the sign *)
Theorem c18_inverse :
  forall (plist p q : list Z), Permutation (legs plist) p -> Permutation (legs plist) q -> map (pget p) q = legs plist ->
  compute_phase true plist p false * compute_phase true (map (pget plist) p) q false = 1.
Proof.
  intros pl p q Hp Hq E. rewrite <- c18_composition, E by auto. rewrite phase_perm by reflexivity.
  apply sgn_sorted, zrange_sorted.
Qed.
Print Assumptions c18_inverse.

(* exchanging two neighbours costs a sign exactly when both are odd *)
Theorem c18_neighbours :
  forall (plist : list Z) (l1 : list Z) (a b : Z) (l2 : list Z), Permutation (legs plist) (l1 ++ a :: b :: l2) ->
  compute_phase true plist (l1 ++ b :: a :: l2) false
  = compute_phase true plist (l1 ++ a :: b :: l2) false * (if Z.odd (pget plist a) && Z.odd (pget plist b) then -1 else 1).
Proof.
  intros pl l1 a b l2 H.
  assert (Hab: a <> b).
  { intro. subst. assert (N: NoDup (l1 ++ b :: b :: l2)) by (eapply Permutation_NoDup; [exact H|apply zrange_nodup]).
    apply NoDup_remove_2 in N. apply N. apply in_or_app. right. now left. }
  rewrite !phase_perm; auto.
  - rewrite (sgn_swap _ l1 a b l2 Hab), m1pow_mul. unfold oddb. now rewrite !Z.negb_even.
  - etransitivity; [exact H|]. apply Permutation_app_head. constructor.
Qed.
Print Assumptions c18_neighbours.

(* without fermions there is no sign *)
Theorem c18_bosonic : forall plist axes d, compute_phase false plist axes d = 1.
Proof. reflexivity. Qed.
Print Assumptions c18_bosonic.

Example c18_ex : compute_phase true [1; 0; 1; 1] [2; 1; 0; 3] false = -1
  /\ compute_phase true [1; 0; 1; 1] [3; 2; 1; 0] false = -1
  /\ compute_phase true [1; 0; 1; 1] [1; 0; 2; 3] false = 1
  /\ odd_inversions (pget [1; 0; 1; 1]) [3; 2; 1; 0] = 3.
Proof. vm_compute. auto. Qed.

(** ** C19: contraction *)
(* the legs that are not contracted, in ascending order *)
Definition kept (plist axes : list Z) : list Z := filter (fun i => negb (existsb (Z.eqb i) axes)) (legs plist).

Lemma kept_rest : forall pl axes, kept pl axes = rest_of (Z.of_nat (length pl)) axes.
Proof. reflexivity. Qed.

Theorem c19_left_tensor :
  forall (plist axes : list Z), NoDup axes -> (forall x, In x axes -> 0 <= x < Z.of_nat (length plist)) ->
  Permutation (legs plist) (kept plist axes ++ rev axes) /\
  compute_phase true plist axes true = compute_phase true plist (kept plist axes ++ rev axes) false.
Proof.
  intros pl axes Hn Hi. rewrite kept_rest. destruct (axes_split pl axes Hn Hi) as (A & B & C).
  assert (P: Permutation (legs pl) (rest_of (Z.of_nat (length pl)) axes ++ rev axes)).
  { apply NoDup_Permutation; [apply zrange_nodup| |].
    - eapply Permutation_NoDup; [|exact A]. cbn. etransitivity; [apply Permutation_app_comm|]. apply Permutation_app_head, Permutation_rev.
    - intros x. unfold legs. rewrite in_zrange, <- B. cbn. rewrite !in_app_iff, <- in_rev. tauto. }
  split; [exact P|]. rewrite (phase_perm pl _ P). now apply compute_phase_right.
Qed.
Print Assumptions c19_left_tensor.

Theorem c19_right_tensor :
  forall (plist axes : list Z), NoDup axes -> (forall x, In x axes -> 0 <= x < Z.of_nat (length plist)) ->
  Permutation (legs plist) (axes ++ kept plist axes) /\
  compute_phase true plist axes false = compute_phase true plist (axes ++ kept plist axes) false.
Proof.
  intros pl axes Hn Hi. rewrite kept_rest. destruct (axes_split pl axes Hn Hi) as (A & B & C).
  assert (P: Permutation (legs pl) (axes ++ rest_of (Z.of_nat (length pl)) axes)).
  { apply NoDup_Permutation; [apply zrange_nodup|exact A|]. intros x. unfold legs. rewrite in_zrange, <- B. reflexivity. }
  split; [exact P|]. rewrite (phase_perm pl _ P). now apply compute_phase_left.
Qed.
Print Assumptions c19_right_tensor.

(* the order in which the contracted pairs are listed does not matter *)
Theorem c19_pair_order_irrelevant :
  forall (pa pb : list Z) (pairs pairs' : list (Z * Z)), Permutation pairs pairs' ->
  NoDup (map fst pairs) -> NoDup (map snd pairs) ->
  (forall i j, In (i, j) pairs -> 0 <= i < Z.of_nat (length pa) /\ 0 <= j < Z.of_nat (length pb) /\ pget pa i = pget pb j) ->
  compute_phase true pa (map fst pairs) true * compute_phase true pb (map snd pairs) false =
  compute_phase true pa (map fst pairs') true * compute_phase true pb (map snd pairs') false.
Proof.
  intros pa pb l l' H Na Nb Hi. apply contraction_order; auto; intros [i j] Hp; cbn; apply (Hi i j Hp).
Qed.
Print Assumptions c19_pair_order_irrelevant.

Example c19_ex :
  compute_phase true [1; 1; 0; 1] [0; 3] true = 1 /\ compute_phase true [1; 1; 0; 1] [3; 0] true = -1
  /\ kept [1; 1; 0; 1] [3; 0] = [1; 2] /\ compute_phase true [1; 1; 0; 1] [1; 2; 0; 3] false = -1
  /\ compute_phase true [1; 1; 1] [2; 0] false = 1 /\ compute_phase true [1; 1; 1] [0; 2] false = -1.
Proof. vm_compute. repeat split. Qed.

(** ** C20: sorting operator strings *)
Theorem c20_fermionic_sort_same_operator :
  forall (G : OpAlg) (ev : opsym -> oA G) (s : opstring),
  (forall x y, site x <> site y -> omul G (ev x) (ev y) = oopp G (omul G (ev y) (ev x))) ->
  string_value G ev (string_sort true s) = string_value G ev s.
Proof. intros G ev s H. now apply string_sort_value. Qed.
Print Assumptions c20_fermionic_sort_same_operator.

Theorem c20_commuting_sort_same_operator :
  forall (G : OpAlg) (ev : opsym -> oA G) (s : opstring),
  (forall x y, site x <> site y -> omul G (ev x) (ev y) = omul G (ev y) (ev x)) ->
  string_value G ev (string_sort false s) = string_value G ev s.
Proof. intros G ev s H. now apply string_sort_value. Qed.
Print Assumptions c20_commuting_sort_same_operator.

(* sorted by site, same symbols, same order on each site; only the sign of the factor changes *)
Theorem c20_sorted_and_stable :
  forall (fermion : bool) (ops : list opsym) (f : Q) l f', string_sort fermion (ops, f) = (l, f') ->
  Permutation ops l /\
  StronglySorted (fun a b => tlt (site b) (site a) = false) l /\
  (forall s, filter (fun o => teq (site o) s) l = filter (fun o => teq (site o) s) ops) /\
  ((f' == f)%Q \/ (f' == - f)%Q).
Proof.
  intros fm ops f l f' E. unfold string_sort in E. injection E as El Ef. subst l. split; [|split; [|split]].
  - apply sort_perm.
  - pose proof (site_sort_sorted ops) as S. induction S as [|a l S IH F]; constructor; auto.
    rewrite Forall_forall in *. intros b Hb. destruct (F b Hb) as [K|K].
    + rewrite K. apply tlt_irrefl.
    + destruct (tlt (site b) (site a)) eqn:T; [|reflexivity]. pose proof (tlt_trans _ _ _ K T) as C. rewrite tlt_irrefl in C. discriminate.
  - intros s. apply filter_sort.
  - assert (G: forall l g, (sign_loop l g == g)%Q \/ (sign_loop l g == - g)%Q).
    { assert (H: forall x l g, (fold_left (fun h jx => if tlt (site jx) (site x) then Qopp h else h) l g == g)%Q
        \/ (fold_left (fun h jx => if tlt (site jx) (site x) then Qopp h else h) l g == - g)%Q).
      { induction l as [|y l IH]; intros g; cbn [fold_left]; [left; reflexivity|].
        destruct (tlt (site y) (site x)); [|apply IH]. destruct (IH (- g)%Q) as [K|K]; rewrite K; [right; reflexivity|left; ring]. }
      induction l as [|x l IH]; intros g; cbn [sign_loop]; [left; reflexivity|].
      destruct (IH (fold_left (fun h jx => if tlt (site jx) (site x) then Qopp h else h) l g)) as [K|K], (H x l g) as [J|J];
        rewrite K, J; [left|right|right|left]; ring. }
    destruct fm; [|left; now rewrite Ef]. rewrite <- Ef. apply G.
Qed.
Print Assumptions c20_sorted_and_stable.

Theorem c20_sum_sort_same_operator :
  forall (G : OpAlg) (ev : opsym -> oA G) (fermion : bool) (l : list opstring),
  (forall x y, site x <> site y -> omul G (ev x) (ev y) =
     if fermion then oopp G (omul G (ev y) (ev x)) else omul G (ev y) (ev x)) ->
  sum_value G ev (sum_sort fermion l) = sum_value G ev l.
Proof.
  intros G ev b l H. unfold sum_sort, sum_value. induction l as [|s l IH]; cbn [map fold_right]; [reflexivity|].
  rewrite IH. f_equal. apply string_sort_value. exact H.
Qed.
Print Assumptions c20_sum_sort_same_operator.

(* two by two matrices over the rationals *)
Definition M2 : Type := (Qc * Qc * Qc * Qc)%type.
Definition m2add (a b : M2) : M2 := let '(a1,a2,a3,a4) := a in let '(b1,b2,b3,b4) := b in (a1+b1, a2+b2, a3+b3, a4+b4)%Qc.
Definition m2opp (a : M2) : M2 := let '(a1,a2,a3,a4) := a in (-a1, -a2, -a3, -a4)%Qc.
Definition m2mul (a b : M2) : M2 := let '(a1,a2,a3,a4) := a in let '(b1,b2,b3,b4) := b in
  (a1*b1+a2*b3, a1*b2+a2*b4, a3*b1+a4*b3, a3*b2+a4*b4)%Qc.
Definition m2scal (q : Q) (a : M2) : M2 := let '(a1,a2,a3,a4) := a in let c := Q2Qc q in (c*a1, c*a2, c*a3, c*a4)%Qc.
Lemma quad_eq : forall (a b c d a' b' c' d' : Qc), a = a' -> b = b' -> c = c' -> d = d' -> (a,b,c,d) = (a',b',c',d').
Proof. congruence. Qed.
Definition M2_alg : OpAlg.
Proof.
  assert (Hm: forall p q, Q2Qc (p * q) = (Q2Qc p * Q2Qc q)%Qc).
  { intros. apply Qc_is_canon. change (Qred (p * q) == Qred (Qred p * Qred q))%Q. rewrite !Qred_correct. reflexivity. }
  assert (Ha: forall p q, Q2Qc (p + q) = (Q2Qc p + Q2Qc q)%Qc).
  { intros. apply Qc_is_canon. change (Qred (p + q) == Qred (Qred p + Qred q))%Q. rewrite !Qred_correct. reflexivity. }
  assert (H1: Q2Qc 1 = 1%Qc) by (now apply Qc_is_canon).
  refine {| oA := M2; oadd := m2add; ozero := (0,0,0,0)%Qc; oopp := m2opp; omul := m2mul; oone := (1,0,0,1)%Qc; oscal := m2scal |};
    try (intros [[[? ?] ?] ?] [[[? ?] ?] ?] [[[? ?] ?] ?]; cbn [m2add m2mul m2opp m2scal]; apply quad_eq; ring); try (intros [[[? ?] ?] ?] [[[? ?] ?] ?]; cbn [m2add m2mul m2opp m2scal]; apply quad_eq; ring);
    try (intros [[[? ?] ?] ?]; cbn [m2add m2mul m2opp m2scal]; apply quad_eq; ring).
  - intros p q [[[? ?] ?] ?] E. unfold m2scal, m2add. rewrite (Qc_is_canon (Q2Qc p) (Q2Qc q)); [reflexivity|].
    change (Qred p == Qred q)%Q. rewrite !Qred_correct. exact E.
  - intros p q [[[? ?] ?] ?]. unfold m2scal, m2add. rewrite Hm. apply quad_eq; ring.
  - intros p q [[[? ?] ?] ?]. unfold m2scal, m2add. rewrite Ha. apply quad_eq; ring.
  - intros p [[[? ?] ?] ?] [[[? ?] ?] ?]. cbn [m2add m2mul m2opp m2scal]. apply quad_eq; ring.
Defined.

(* FINDING: sort(fermion=True) flips the sign for every exchanged pair, so a string containing an operator that commutes
   with the other sites (here N_0, next to the fermionic C_1) is changed into its negative. *)
Definition fermionic (o : opsym) : bool := fst o <? 2.
Definition ev_mixed (o : opsym) : M2 :=
  if fermionic o then (if teq (site o) [0] then (0,1,1,0)%Qc else if teq (site o) [1] then (1,0,0,-(1))%Qc else (0,0,0,0)%Qc)
  else (1,0,0,1)%Qc.
Theorem c20_mixed_string_refuted :
  exists (G : OpAlg) (ev : opsym -> oA G) (s : opstring),
  (forall x y, fermionic x = true -> fermionic y = true -> site x <> site y -> omul G (ev x) (ev y) = oopp G (omul G (ev y) (ev x))) /\
  (forall x y, fermionic y = false -> site x <> site y -> omul G (ev x) (ev y) = omul G (ev y) (ev x)) /\
  string_value G ev (string_sort true s) <> string_value G ev s.
Proof.
  exists M2_alg, ev_mixed, ([(0, [1]); (5, [0])], 1%Q). split; [|split].
  - intros x y Fx Fy H. unfold ev_mixed. rewrite Fx, Fy. cbn [omul M2_alg oopp].
    destruct (teq (site x) [0]) eqn:A, (teq (site x) [1]) eqn:B, (teq (site y) [0]) eqn:C, (teq (site y) [1]) eqn:D;
      repeat match goal with K : teq _ _ = true |- _ => apply teq_spec in K end; try congruence;
      cbn [m2mul m2opp]; apply quad_eq; ring.
  - intros x y Fy H. unfold ev_mixed at 2 3. rewrite Fy. cbn [omul M2_alg]. destruct (ev_mixed x) as [[[? ?] ?] ?].
    cbn [m2mul]. apply quad_eq; ring.
  - intro E. apply (f_equal (fun m : M2 => this (fst (fst (fst m))))) in E. vm_compute in E. discriminate.
Qed.
Print Assumptions c20_mixed_string_refuted.

Example c20_ex : string_sort true ([(0, [2]); (1, [0]); (0, [1]); (1, [1])], 3%Q) = ([(1, [0]); (0, [1]); (1, [1]); (0, [2])], (-3)%Q).
Proof. reflexivity. Qed.

(** ** C21: simplifying a sum *)
(* |q| *)
Definition absq (q : Q) : Q := if Qle_bool 0 q then q else (- q)%Q.

Theorem c21_coefficients :
  forall (l : list opstring) (k : list opsym),
  ((absq (coef l k) <= tiny)%Q -> (coef (simplify l) k == 0)%Q) /\
  ((tiny < absq (coef l k))%Q -> (coef (simplify l) k == coef l k)%Q).
Proof.
  intros l k. pose proof (simplify_coef l k) as H. change Qabs' with absq in H. split; intros A.
  - apply Qle_bool_iff in A. rewrite A in H. exact H.
  - destruct (Qle_bool (absq (coef l k)) tiny) eqn:E; [|exact H]. apply Qle_bool_iff in E. exfalso. now apply (Qlt_not_le _ _ A).
Qed.
Print Assumptions c21_coefficients.

Theorem c21_distinct_and_nonzero :
  forall (l : list opstring), NoDup (map fst (simplify l)) /\ (forall s, In s (simplify l) -> (tiny < absq (snd s))%Q).
Proof.
  intros l. split.
  - apply filter_nodup_keys, collect_nodup.
  - intros s Hs. apply filter_In in Hs. destruct Hs as [_ H]. apply negb_true_iff in H. apply Qnot_le_lt. intro C.
    apply Qle_bool_iff in C. change absq with Qabs' in C. congruence.
Qed.
Print Assumptions c21_distinct_and_nonzero.

(* the operator is unchanged in every algebra when no merged factor is nonzero and at most 1e-12 *)
Theorem c21_same_operator :
  forall (G : OpAlg) (ev : opsym -> oA G) (l : list opstring),
  (forall k, (coef l k == 0)%Q \/ (tiny < absq (coef l k))%Q) ->
  sum_value G ev (simplify l) = sum_value G ev l.
Proof. intros G ev l H. now apply simplify_value. Qed.
Print Assumptions c21_same_operator.

(* in general it changes exactly by the dropped terms, each with a factor of at most 1e-12 *)
Theorem c21_change_is_dropped_terms :
  forall (l : list opstring), exists dropped : list opstring,
  (forall s, In s dropped -> (absq (snd s) <= tiny)%Q) /\ NoDup (map fst (simplify l ++ dropped)) /\
  forall (G : OpAlg) (ev : opsym -> oA G), sum_value G ev l = oadd G (sum_value G ev (simplify l)) (sum_value G ev dropped).
Proof.
  intros l. set (f := fun kv : opstring => negb (Qle_bool (Qabs' (snd kv)) tiny)).
  exists (filter (fun s => negb (f s)) (collect_strings l)). split; [|split].
  - intros s Hs. apply filter_In in Hs. destruct Hs as [_ H]. unfold f in H. rewrite negb_involutive in H. now apply Qle_bool_iff in H.
  - unfold simplify. fold f. eapply Permutation_NoDup; [|apply (collect_nodup l)]. apply Permutation_map.
    clear. induction (collect_strings l) as [|s d IH]; cbn [filter app]; [constructor|]. destruct (f s); cbn [negb app].
    + now constructor.
    + etransitivity; [apply perm_skip; exact IH|]. apply Permutation_middle.
  - intros G ev. rewrite <- (collect_value G ev l). unfold simplify. fold f.
    induction (collect_strings l) as [|s d IH]; [cbn; now rewrite oadd_0|]. cbn [filter].
    destruct (f s); cbn [negb sum_value fold_right]; fold (sum_value G ev d) (sum_value G ev (filter f d))
      (sum_value G ev (filter (fun s => negb (f s)) d)); rewrite IH.
    + now rewrite oadd_assoc.
    + rewrite !oadd_assoc. f_equal. apply oadd_comm.
Qed.
Print Assumptions c21_change_is_dropped_terms.

Example c21_ex : simplify [([(0,[1])], 2%Q); ([(1,[0])], 1%Q); ([(0,[1])], (-5)%Q); ([(1,[0])], (-1)%Q); ([(1,[3])], (1 # 10000000000000)%Q)]
  = [([(0,[1])], (-3)%Q)].
Proof. vm_compute. reflexivity. Qed.
