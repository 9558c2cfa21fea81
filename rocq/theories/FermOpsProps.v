(** C31, C41, C51, C52: exchange phase, local operators and two-site Hamiltonians of fermion_ops.py, grouping of labels. *)
From Coq Require Import ZArith Bool List Lia Ring Permutation Relation_Operators.
From Verif Require Import DictLib IndexLib RingLib OptLib FermOpsModel FermOpsProofs.
Import ListNotations.
Open Scope Z_scope.

(* ============================================================ specification *)
(* the four states of a site by occupation: bit 0 = up, bit 1 = down *)
Definition site_state (s : Z) : Prop := s = 0 \/ s = 1 \/ s = 2 \/ s = 3.
Definition bits (s : Z) : list bool := [Z.testbit s 0; Z.testbit s 1].
Fixpoint count (l : list bool) : Z := match l with [] => 0 | b :: l' => Z.b2z b + count l' end.
Definition sgn (n : Z) : Z := if Z.even n then 1 else -1.

(* Fock space over a list of modes: create (true) or annihilate (false) mode k, with the sign of the occupied modes before it *)
Definition apply1 (o : bool * nat) (x : option (Z * list bool)) : option (Z * list bool) :=
  match x with
  | None => None
  | Some (c, v) =>
    if Bool.eqb (nth (snd o) v false) (fst o) then None
    else Some (c * sgn (count (firstn (snd o) v)), firstn (snd o) v ++ fst o :: skipn (S (snd o)) v)
  end.
(* <bra| o1 o2 ... |ket> *)
Definition word (w : list (bool * nat)) (bra ket : list bool) : Z :=
  match fold_right apply1 (Some (1, ket)) w with
  | Some (c, v) => if list_eqb Bool.eqb v bra then c else 0
  | None => 0
  end.
(* modes of two sites: 0 = first up, 1 = first down, 2 = second up, 3 = second down *)
Definition hop_spec (bra ket : list bool) : Z :=
  word [(true, 0%nat); (false, 2%nat)] bra ket + word [(true, 2%nat); (false, 0%nat)] bra ket +
  word [(true, 1%nat); (false, 3%nat)] bra ket + word [(true, 3%nat); (false, 1%nat)] bra ket.
Definition number (m : nat) : list (bool * nat) := [(true, m); (false, m)].
Definition odd_site (s : Z) : bool := Z.odd (count (bits s)).
(* sign for writing the ket of the second site before that of the first *)
Definition reorder (c d : Z) : Z := if odd_site c && odd_site d then -1 else 1.

(* exponent of the exchange phase of bra s and ket t *)
Definition both (a b : list bool) : list bool := map (fun p => fst p && snd p) (combine a b).
Definition shr (s t : Z) : Z := count (both (bits s) (bits t)).
Definition phase_exponent (s t : list Z) : Z :=
  zsum (map (fun i =>
    let si := nth i s 0 in let ti := nth i t 0 in
    shr si ti * (zsum (map (fun j => count (bits (nth j s 0))) (seq (S i) (length s - S i)))
                 + zsum (map (fun j => count (bits (nth j t 0)) - shr (nth j s 0) (nth j t 0)) (seq 0 i)))
    + (if Z.testbit si 0 && Z.testbit ti 0 && xorb (Z.testbit si 1) (Z.testbit ti 1) then 1 else 0))
  (seq 0 (length s))).

(* labels of a symmetry: particle number, twice the spin projection, and their remainders *)
Definition charge_spec (y : symm) (s : Z) : qlab :=
  let n := count (bits s) in
  match y with
  | SU11 => (n, Z.b2z (Z.testbit s 0) - Z.b2z (Z.testbit s 1))
  | SU1 => (n, 0)
  | SZ4 => (n mod 4, 0)
  | SZ2 => (n mod 2, 0)
  | SZ22 => (n mod 2, Z.b2z (Z.testbit s 1))
  end.
(* difference of labels *)
Definition lab_sub (y : symm) (a b : qlab) : qlab :=
  match y with
  | SU11 | SU1 => (fst a - fst b, snd a - snd b)
  | SZ4 => ((fst a - fst b) mod 4, 0)
  | SZ2 => ((fst a - fst b) mod 2, 0)
  | SZ22 => ((fst a - fst b) mod 2, (snd a - snd b) mod 2)
  end.
(* number of states with a label *)
Definition multiplicity (y : symm) (q : qlab) : Z :=
  Z.of_nat (length (filter (fun s => qlab_eqb (q_of y s) q) [0; 1; 2; 3])).
(* distinct block labels, shapes that match the labels *)
Definition well_formed (R : CRing) (y : symm) (t : ften R) : Prop :=
  NoDup (map fst t) /\ forall q b, In (q, b) t -> b_dims R b = map (multiplicity y) q.

(* ============================================================ lemmas *)
Lemma site_in4 : forall s, site_state s <-> in4 s.
Proof. intros s. unfold site_state, in4. cbn. intuition. Qed.
Lemma sites_in4 : forall l, Forall site_state l <-> Forall in4 l.
Proof. intros l. rewrite !Forall_forall. split; intros H x I; apply site_in4; auto. Qed.
Lemma cnt_count : forall s, cnt s = count (bits s).
Proof. intros s. unfold cnt, up, dn, bits. cbn [count]. lia. Qed.
Lemma mtch_shr : forall x, mtch x = shr (fst x) (snd x).
Proof. intros [s t]. unfold mtch, shr, both, bits, up, dn. cbn [combine map fst snd count]. lia. Qed.
Lemma loc_if : forall x, Z.b2z (loc x) = if Z.testbit (fst x) 0 && Z.testbit (snd x) 0 && xorb (Z.testbit (fst x) 1) (Z.testbit (snd x) 1) then 1 else 0.
Proof. intros x. unfold loc, up, dn. destruct (_ && _ && _); reflexivity. Qed.

Lemma zsum_seq_shift : forall (f : nat -> Z) a n, zsum (map f (seq (S a) n)) = zsum (map (fun i => f (S i)) (seq a n)).
Proof. intros. now rewrite <- seq_shift, map_map. Qed.
Lemma zsum_add_const : forall (l : list nat) (f g : nat -> Z), zsum (map (fun i => f i + g i) l) = zsum (map f l) + zsum (map g l).
Proof. intros l f g. induction l as [|x l IH]; [reflexivity|]. cbn [map]. rewrite !zsum_cons, IH. lia. Qed.
Lemma zsum_nth : forall (s : list Z) (f : Z -> Z), zsum (map (fun j => f (nth j s 0)) (seq 0 (length s))) = zsum (map f s).
Proof.
  intros s f. induction s as [|a s IH]; [reflexivity|]. cbn [length seq map]. rewrite !zsum_cons, zsum_seq_shift. cbn [nth]. now rewrite IH.
Qed.
Lemma expo_sum : forall s t b, length s = length t -> expo b (combine s t) =
  phase_exponent s t + b * zsum (map (fun i => shr (nth i s 0) (nth i t 0)) (seq 0 (length s))).
Proof.
  induction s as [|a s IH]; intros [|c t] b L; try discriminate; [unfold phase_exponent; cbn; lia|].
  cbn [combine expo]. rewrite (IH t) by (now injection L). rewrite mtch_shr, cnt_count, loc_if. cbn [fst snd].
  unfold phase_exponent. cbn [length seq map]. rewrite !zsum_cons, !zsum_seq_shift. cbn [nth].
  replace (S (length s) - 1)%nat with (length s) by lia.
  assert (C : zsum (map (fun y : Z * Z => cnt (fst y)) (combine s t)) = zsum (map (fun j => count (bits (nth j (a :: s) 0))) (seq 1 (length s)))).
  { rewrite zsum_seq_shift. cbn [nth]. rewrite (zsum_nth s (fun z => count (bits z))).
    assert (F1 : map fst (combine s t) = s).
    { injection L as L. clear -L. revert t L. induction s as [|x s IHs]; intros [|z t] L; try reflexivity; try discriminate. cbn. f_equal. apply IHs. now injection L. }
    rewrite <- F1 at 2. rewrite map_map. apply zsum_map_ext. intros. apply cnt_count. }
  rewrite C.
  change (zsum (map (fun j => count (bits (nth j (c :: t) 0)) - shr (nth j (a :: s) 0) (nth j (c :: t) 0)) (seq 0 0))) with 0.
  set (A := shr a c). set (n := length s).
  set (P := zsum (map (fun j => count (bits (nth j (a :: s) 0))) (seq 1 n))).
  set (S0 := zsum (map (fun i => shr (nth i s 0) (nth i t 0)) (seq 0 n))).
  set (D := count (bits c) - A).
  match goal with |- _ + _ + (?X + _ * _) = _ + ?Y + _ => assert (E : Y = X + D * S0) end.
  { unfold S0. rewrite Z.mul_comm.
    assert (M : forall (l : list nat) (f : nat -> Z) d, zsum (map f l) * d = zsum (map (fun i => f i * d) l)).
    { intros l f d. induction l as [|x l IHl]; [reflexivity|]. cbn [map]. rewrite !zsum_cons, <- IHl. lia. }
    rewrite M, <- zsum_add_const. apply zsum_map_ext. intros i _. cbn zeta.
    cbn [seq map]. rewrite zsum_cons, !zsum_seq_shift. cbn [nth]. fold A. replace (S n - S (S i))%nat with (n - S i)%nat by lia. fold D. ring. }
  rewrite E. cbn zeta. unfold D.
  unfold P. rewrite zsum_seq_shift. cbn [nth]. change (zsum []) with 0. ring.
Qed.

(* ============================================================ C51 *)
Theorem c51_phase : forall (order : nat -> bool) s t, length s = length t -> Forall site_state s -> Forall site_state t ->
  swap_phase order true (s ++ t) = sgn (phase_exponent s t).
Proof.
  intros order s t L A B. rewrite swap_phase_expo; [|exact L|now apply sites_in4|now apply sites_in4].
  rewrite expo_sum by exact L. unfold psgn, sgn. now rewrite Z.mul_0_l, Z.add_0_r.
Qed.
Theorem c51_order_independent : forall (o1 o2 : nat -> bool) s t, length s = length t -> Forall site_state s -> Forall site_state t ->
  swap_phase o1 true (s ++ t) = swap_phase o2 true (s ++ t).
Proof. intros. now rewrite !c51_phase. Qed.
Theorem c51_bosons : forall order states, swap_phase order false states = 1.
Proof. reflexivity. Qed.
(* a diagonal element gets the sign of reversing its odd sites *)
Theorem c51_diagonal : forall order s, Forall site_state s ->
  let k := Z.of_nat (length (filter odd_site s)) in
  swap_phase order true (s ++ s) = sgn (k * (k - 1) / 2).
Proof.
  intros order s A k. rewrite swap_phase_expo; [|reflexivity|now apply sites_in4|now apply sites_in4].
  assert (K : forall s, Forall site_state s -> forall b, b = 0 ->
     Z.even (expo b (combine s s)) = Z.even (Z.of_nat (length (filter odd_site s)) * (Z.of_nat (length (filter odd_site s)) - 1) / 2)
     /\ Z.odd (zsum (map (fun y : Z * Z => cnt (fst y)) (combine s s))) = Z.odd (Z.of_nat (length (filter odd_site s)))).
  { clear. induction s as [|a s IH]; intros A b Hb; [split; reflexivity|]. inversion A as [|? ? A1 A2]; subst.
    assert (D : cnt a - mtch (a, a) = 0 /\ loc (a, a) = false) by (destruct A1 as [->|[->|[->| ->]]]; split; reflexivity).
    destruct D as [D1 D2]. destruct (IH A2 _ (f_equal2 Z.add (eq_refl 0) D1)) as [I1 I2]. clear IH.
    cbn [combine expo map fst snd]. rewrite D2, zsum_cons, Z.odd_add, I2. cbn [Z.b2z].
    rewrite Z.even_add, I1. clear I1. rewrite !Z.add_0_r, Z.even_mul.
    rewrite <- (Z.negb_odd (zsum _)), I2. clear I2.
    set (m := Z.of_nat (length (filter odd_site s))). cbn [filter].
    assert (M : mtch (a, a) = cnt a) by lia. rewrite M. assert (CA : Z.odd (cnt a) = odd_site a) by (unfold odd_site; now rewrite cnt_count).
    rewrite <- (Z.negb_odd (cnt a)), CA. destruct (odd_site a) eqn:O.
    - cbn [length]. rewrite Nat2Z.inj_succ. fold m. cbn [negb orb].
      assert (X : Z.succ m * (Z.succ m - 1) / 2 = m * (m - 1) / 2 + m).
      { replace (Z.succ m * (Z.succ m - 1)) with (m * (m - 1) + m * 2) by lia. rewrite Z.div_add by lia. reflexivity. }
      rewrite X, Z.even_add, Z.odd_succ, <- !Z.negb_odd. destruct (Z.odd m), (Z.odd (m * (m - 1) / 2)); split; reflexivity.
    - fold m. cbn [negb orb]. split; [destruct (Z.even (m * (m - 1) / 2)); reflexivity|destruct (Z.odd m); reflexivity]. }
  unfold psgn, sgn. now rewrite (proj1 (K s A 0 eq_refl)).
Qed.
(* three sites: <up, down, both| and |both, 0, up>; and a diagonal element with two odd sites *)
Example c51_ex : swap_phase (fun _ => false) true [1; 2; 3; 3; 0; 1] = 1 /\ phase_exponent [1; 2; 3] [3; 0; 1] = 6
  /\ swap_phase (fun _ => true) true [1; 2; 3; 1; 2; 3] = -1 /\ sgn (2 * (2 - 1) / 2) = -1.
Proof. vm_compute. auto. Qed.
Print Assumptions c51_phase.
Print Assumptions c51_order_independent.
Print Assumptions c51_bosons.
Print Assumptions c51_diagonal.

(* ============================================================ C52 *)
Section C52.
Variable R : CRing.
Add Ring Rr52 : (rth R).

Ltac fa := repeat (apply Forall_cons; [eassumption|]); apply Forall_nil.
Lemma good_wf : forall y t, good R y t -> well_formed R y t.
Proof.
  intros y t [N G]. split; [exact N|]. intros q b I. destruct (G q b I) as [st [A [-> ->]]]. rewrite map_map. apply map_ext_in.
  intros s J. rewrite Forall_forall in A. specialize (A s J). four A; destruct y; reflexivity.
Qed.
(* sum of the contributions to one element *)
Lemma accumL_spec : forall y l, (forall p, In p l -> Forall in4 (fst p)) -> exists t, accumL R y [] l = Some t /\ well_formed R y t /\
  forall st, Forall in4 st -> elem R y t st = bsum l (fun p => if list_eqb Z.eqb (fst p) st then snd p else r0 R).
Proof.
  intros y l A. destruct (accumL_ok R y l [] (good_nil R y) A) as [t [E [G H]]]. exists t. split; [exact E|]. split; [now apply good_wf|].
  intros st B. rewrite H by exact B. rewrite elem_nil. ring.
Qed.

Lemma creation_accumL : forall order y spin, creation R order true y spin =
  accumL R y [] (map (fun p : Z * Z => ([snd p; fst p], ofZ R (swap_phase order true [snd p; fst p])))
    (flat_map (fun s => map (fun o => (s, o)) (creation_map spin s)) all4)).
Proof. intros. unfold creation, accumL. rewrite foldM_map. reflexivity. Qed.

Definition create_spec (spin a b : Z) : Z :=
  if spin =? 2 then word [(true, 0%nat)] (bits a) (bits b) + word [(true, 1%nat)] (bits a) (bits b)
  else word [(true, Z.to_nat spin)] (bits a) (bits b).

Lemma bsum_pick : forall (X : Type) (l : list X) (k : X -> bool) (f : X -> Z),
  bsum l (fun x => if k x then ofZ R (f x) else r0 R) = ofZ R (zsum (map (fun x => if k x then f x else 0) l)).
Proof.
  intros X l k f. transitivity (rmul R (ofZ R (zsum (map (fun x => if k x then f x else 0) l))) (r1 R)); [|ring].
  rewrite <- bsum_ofZ. apply bsum_ext. intros x _. destruct (k x); [ring|]. cbn [ofZ]. ring.
Qed.
Lemma bsum_pickm : forall (X : Type) (l : list X) (k : X -> bool) (f : X -> Z) (v : R),
  bsum l (fun x => if k x then rmul R (ofZ R (f x)) v else r0 R) = rmul R (ofZ R (zsum (map (fun x => if k x then f x else 0) l))) v.
Proof.
  intros X l k f v. rewrite <- bsum_ofZ. apply bsum_ext. intros x _. destruct (k x); [reflexivity|]. cbn [ofZ]. ring.
Qed.

Theorem c52_creation : forall order y spin, spin = 0 \/ spin = 1 \/ spin = 2 -> exists t, creation R order true y spin = Some t /\
  well_formed R y t /\ forall a b, site_state a -> site_state b -> elem R y t [a; b] = ofZ R (create_spec spin a b).
Proof.
  intros order y spin HS. rewrite creation_accumL.
  destruct (accumL_spec y (map (fun p : Z * Z => ([snd p; fst p], ofZ R (swap_phase order true [snd p; fst p])))
    (flat_map (fun s => map (fun o => (s, o)) (creation_map spin s)) all4))) as [t [E [W H]]].
  - intros p I. apply in_map_iff in I. destruct I as [[u v] [<- I]]. cbn [fst snd].
    apply in_flat_map in I. destruct I as [x [X1 X2]]. apply in_map_iff in X2. destruct X2 as [o [X2 X3]]. injection X2 as <- <-.
    assert (O : in4 o). { destruct HS as [->|[->| ->]]; four X1; cbn in X3; unfold in4, all4; cbn; intuition (subst; auto). }
    fa.
  - exists t. split; [exact E|]. split; [exact W|]. intros a b A B. apply site_in4 in A, B. rewrite H by (fa).
    rewrite bsum_map. cbn [fst snd].
    rewrite (bsum_pick _ _ (fun x : Z * Z => list_eqb Z.eqb [snd x; fst x] [a; b]) (fun x => swap_phase order true [snd x; fst x])).
    f_equal. clear E W H t.
    transitivity (zsum (map (fun x : Z * Z => if list_eqb Z.eqb [snd x; fst x] [a; b] then psgn (expo 0 [(snd x, fst x)]) else 0)
       (flat_map (fun s => map (fun o => (s, o)) (creation_map spin s)) all4))).
    + apply zsum_map_ext. intros [u v] I. cbn [fst snd]. destruct (list_eqb Z.eqb [v; u] [a; b]) eqn:Q; [|reflexivity].
      destruct (zlist_eqb_spec [v; u] [a; b]) as [Q'|]; [|discriminate]. injection Q' as -> ->.
      apply (swap_phase_expo order [a] [b]); [reflexivity|fa|fa].
    + destruct HS as [->|[->| ->]]; four A; four B; reflexivity.
Qed.

Lemma hops_in4 : forall s1 s2 st, in4 s1 -> in4 s2 -> In st (hops s1 s2) -> Forall in4 st /\ length st = 4%nat.
Proof.
  intros s1 s2 st A B I. unfold hops in I. apply in_flat_map in I. destruct I as [s3 [I3 I]]. apply in_flat_map in I. destruct I as [s4 [I4 I]].
  assert (H : forall s x, In x (hop_map s) -> in4 x).
  { intros s x. unfold hop_map. destruct (s =? 0), (s =? 1), (s =? 2); cbn; unfold in4, all4; cbn; intuition. }
  destruct (same_letters _ _); [|destruct I]. destruct I as [<-|[]]. split; [|reflexivity]. assert (O3 := H _ _ I3). assert (O4 := H _ _ I4). fa.
Qed.
Definition hop_list : list (list Z) := flat_map (fun p : Z * Z => hops (fst p) (snd p)) (list_prod all4 all4).
Definition four_sites (a b c d : Z) : Prop := site_state a /\ site_state b /\ site_state c /\ site_state d.
Definition expo4 (st : list Z) : Z := psgn (expo 0 (combine (firstn 2 st) (skipn 2 st))).
Lemma phase4 : forall order a b c d, in4 a -> in4 b -> in4 c -> in4 d -> swap_phase order true [a; b; c; d] = expo4 [a; b; c; d].
Proof. intros. apply (swap_phase_expo order [a; b] [c; d]); [reflexivity|fa|fa]. Qed.

Definition all16 : list (Z * Z) := list_prod all4 all4.
Lemma in_all16 : forall a b, in4 a -> in4 b -> In (a, b) all16.
Proof. intros. now apply in_prod. Qed.
Definition hop_check : bool :=
  forallb (fun p : Z * Z => forallb (fun q : Z * Z =>
    zsum (map (fun x => if list_eqb Z.eqb x [fst p; snd p; fst q; snd q] then expo4 x else 0) hop_list)
    =? reorder (fst q) (snd q) * hop_spec (bits (fst p) ++ bits (snd p)) (bits (fst q) ++ bits (snd q))) all16) all16.
Lemma hop_check_ok : hop_check = true.
Proof. vm_compute. reflexivity. Qed.
Lemma hop_sum : forall order a b c d, in4 a -> in4 b -> in4 c -> in4 d ->
  zsum (map (fun x => if list_eqb Z.eqb x [a; b; c; d] then swap_phase order true x else 0) hop_list)
  = reorder c d * hop_spec (bits a ++ bits b) (bits c ++ bits d).
Proof.
  intros order a b c d A B C D.
  transitivity (zsum (map (fun x => if list_eqb Z.eqb x [a; b; c; d] then expo4 x else 0) hop_list)).
  - apply zsum_map_ext. intros x _. destruct (zlist_eqb_spec x [a; b; c; d]) as [->|]; [|reflexivity]. now apply phase4.
  - assert (K := hop_check_ok). unfold hop_check in K. rewrite forallb_forall in K. specialize (K (a, b) (in_all16 a b A B)).
    rewrite forallb_forall in K. specialize (K (c, d) (in_all16 c d C D)). apply Z.eqb_eq in K. exact K.
Qed.

(* hopping between two sites: h (c1+ c2 + c2+ c1) for both spins *)
Theorem c52_hopping : forall order y h, exists t, h1 R order true y h = Some t /\ well_formed R y t /\
  forall a b c d, four_sites a b c d -> elem R y t [a; b; c; d] =
    rmul R (ofZ R (reorder c d * hop_spec (bits a ++ bits b) (bits c ++ bits d))) h.
Proof.
  intros order y h.
  assert (X : h1 R order true y h = accumL R y [] (map (fun st => (st, rmul R (ofZ R (swap_phase order true st)) h)) hop_list)).
  { unfold h1, accumL. rewrite foldM_map. reflexivity. }
  rewrite X. destruct (accumL_spec y (map (fun st => (st, rmul R (ofZ R (swap_phase order true st)) h)) hop_list)) as [t [E [W H]]].
  - intros p I. apply in_map_iff in I. destruct I as [st [<- I]]. cbn [fst]. unfold hop_list in I. apply in_flat_map in I.
    destruct I as [[u v] [U I]]. apply in_prod_iff in U. destruct U as [U1 U2]. exact (proj1 (hops_in4 u v st U1 U2 I)).
  - exists t. split; [exact E|]. split; [exact W|]. intros a b c d [A [B [C D]]]. apply site_in4 in A, B, C, D.
    rewrite H by (fa). rewrite bsum_map. cbn [fst snd].
    rewrite (bsum_pickm _ _ (fun x => list_eqb Z.eqb x [a; b; c; d]) (swap_phase order true) h). now rewrite hop_sum.
Qed.

(* -t (c1+ c2 + c2+ c1) + sum over the two sites of fac (u n_up n_down + mu n) *)
Definition hubbard_spec (t u mu faca facb : R) (bra ket : list bool) : R :=
  let w l := ofZ R (word l bra ket) in
  let n m := w (number m) in
  radd R (rmul R (ropp R t) (ofZ R (hop_spec bra ket)))
    (radd R (rmul R faca (radd R (rmul R u (w (number 0 ++ number 1))) (rmul R mu (radd R (n 0%nat) (n 1%nat)))))
            (rmul R facb (radd R (rmul R u (w (number 2 ++ number 3))) (rmul R mu (radd R (n 2%nat) (n 3%nat)))))).

Lemma ofZ_mul_sign : forall z k, z = 1 \/ z = -1 -> ofZ R (z * k) = rmul R (ofZ R z) (ofZ R k).
Proof.
  intros z k [->| ->]; [rewrite Z.mul_1_l, ofZ_1; ring|]. replace (-1 * k) with (- k) by lia. replace (-1) with (- (1)) by lia.
  rewrite !ofZ_opp, ofZ_1. ring.
Qed.

Theorem c52_hubbard : forall order y t u mu faca facb, exists T, hubbard R order true y t u mu faca facb = Some T /\ well_formed R y T /\
  forall a b c d, four_sites a b c d -> elem R y T [a; b; c; d] =
    rmul R (ofZ R (reorder c d)) (hubbard_spec t u mu faca facb (bits a ++ bits b) (bits c ++ bits d)).
Proof.
  intros order y t u mu faca facb.
  set (val := fun p : Z * Z => radd R (site_term R faca u mu (fst p)) (site_term R facb u mu (snd p))).
  set (diag := fun p : Z * Z => ([fst p; snd p; fst p; snd p], rmul R (ofZ R (swap_phase order true [fst p; snd p; fst p; snd p])) (val p))).
  set (off := fun st => (st, rmul R (ofZ R (swap_phase order true st)) (ropp R t))).
  set (L := flat_map (fun p : Z * Z => diag p :: map off (hops (fst p) (snd p))) all16).
  assert (X : hubbard R order true y t u mu faca facb = accumL R y [] L).
  { unfold hubbard, accumL, L. rewrite foldM_flat_map. unfold all16. generalize (list_prod all4 all4) as l. generalize (@nil (list qlab * block R)) as d0.
    intros d0 l. revert d0. induction l as [|p l IH]; intros d0; [reflexivity|]. cbn [foldM]. unfold diag at 1, val at 1. cbn [fst snd].
    destruct (accum R y d0 _ _) as [d1|]; [|reflexivity]. cbn [bind]. rewrite foldM_map. unfold off at 1 2. cbn [fst snd].
    destruct (foldM _ d1 (hops (fst p) (snd p))) as [d2|]; [|reflexivity]. cbn [bind]. apply IH. }
  rewrite X. destruct (accumL_spec y L) as [T [E [W H]]].
  - intros p I. unfold L in I. apply in_flat_map in I. destruct I as [[u0 v0] [U I]]. apply in_prod_iff in U. destruct U as [U1 U2].
    destruct I as [<-|I]; [unfold diag; cbn [fst snd]; fa|].
    apply in_map_iff in I. destruct I as [st [<- I]]. unfold off. cbn [fst snd] in *. exact (proj1 (hops_in4 u0 v0 st U1 U2 I)).
  - exists T. split; [exact E|]. split; [exact W|]. intros a b c d [A [B [C D]]]. apply site_in4 in A, B, C, D.
    rewrite H by (fa). clear E W H T X. unfold L.
    set (K := fun p : list Z * R => if list_eqb Z.eqb (fst p) [a; b; c; d] then snd p else r0 R).
    assert (SP : bsum (flat_map (fun p : Z * Z => diag p :: map off (hops (fst p) (snd p))) all16) K =
       radd R (bsum all16 (fun p => K (diag p))) (bsum hop_list (fun st => K (off st)))).
    { rewrite bsum_flat_map. unfold hop_list. rewrite bsum_flat_map. rewrite <- bsum_add. apply bsum_ext. intros p _. rewrite bsum_cons, bsum_map. reflexivity. }
    rewrite SP. clear SP. unfold K at 2, off. cbn [fst snd].
    rewrite (bsum_pickm _ hop_list (fun x => list_eqb Z.eqb x [a; b; c; d]) (swap_phase order true) (ropp R t)). rewrite hop_sum by assumption.
    rewrite ofZ_mul_sign by (unfold reorder; destruct (_ && _); auto).
    assert (DG : bsum all16 (fun p => K (diag p)) = if (a =? c) && (b =? d) then rmul R (ofZ R (reorder c d)) (val (a, b)) else r0 R).
    { set (W := if (a =? c) && (b =? d) then rmul R (ofZ R (reorder c d)) (val (a, b)) else r0 R).
      transitivity (bsum all16 (fun p : Z * Z => if (fst p =? a) && (snd p =? b) then W else r0 R)); [apply bsum_ext|]; swap 1 2.
      - clearbody W. clear -A B W. four A; four B; unfold all16, all4; cbn [list_prod map app]; rewrite ?bsum_cons, ?bsum_nil; cbn [fst snd Z.eqb Pos.eqb andb]; ring.
      - intros [u0 v0] _. unfold W, K, diag. cbn [fst snd]. destruct (Z.eqb_spec u0 a) as [->|N]; cbn [andb].
        + destruct (Z.eqb_spec v0 b) as [->|N2].
          * destruct (zlist_eqb_spec [a; b; a; b] [a; b; c; d]) as [Q|Q].
            -- injection Q as <- <-. rewrite !Z.eqb_refl. cbn [andb]. f_equal. f_equal. rewrite phase4 by assumption.
               clear -A B. four A; four B; reflexivity.
            -- destruct (Z.eqb_spec a c), (Z.eqb_spec b d); subst; try reflexivity. congruence.
          * destruct (zlist_eqb_spec [a; v0; a; v0] [a; b; c; d]) as [Q|Q]; [congruence|reflexivity].
        + destruct (zlist_eqb_spec [u0; v0; u0; v0] [a; b; c; d]) as [Q|Q]; [congruence|reflexivity]. }
    rewrite DG. unfold hubbard_spec.
    set (hp := ofZ R (hop_spec (bits a ++ bits b) (bits c ++ bits d))). set (rr := ofZ R (reorder c d)).
    assert (DV : (if (a =? c) && (b =? d) then rmul R rr (val (a, b)) else r0 R) = rmul R rr
      (radd R (rmul R faca (radd R (rmul R u (ofZ R (word (number 0 ++ number 1) (bits a ++ bits b) (bits c ++ bits d)))) (rmul R mu (radd R (ofZ R (word (number 0) (bits a ++ bits b) (bits c ++ bits d))) (ofZ R (word (number 1) (bits a ++ bits b) (bits c ++ bits d)))))))
            (rmul R facb (radd R (rmul R u (ofZ R (word (number 2 ++ number 3) (bits a ++ bits b) (bits c ++ bits d)))) (rmul R mu (radd R (ofZ R (word (number 2) (bits a ++ bits b) (bits c ++ bits d))) (ofZ R (word (number 3) (bits a ++ bits b) (bits c ++ bits d))))))))).
    { clear -A B C D. clearbody rr. clear -A B C D rr u mu faca facb val.
      assert (V : forall s, in4 s -> forall fac, site_term R fac u mu s = rmul R fac (radd R (rmul R u (ofZ R (Z.b2z (s =? 3)))) (rmul R mu (radd R (ofZ R (Z.b2z (Z.testbit s 0))) (ofZ R (Z.b2z (Z.testbit s 1))))))).
      { intros s S0 fac. unfold site_term. four S0; cbn [pn_dict Z.eqb Pos.eqb Z.b2z Z.testbit Pos.testbit Z.odd negb]; rewrite ?ofZ_1; try replace (ofZ R 2) with (radd R (r1 R) (r1 R)) by (rewrite <- !ofZ_1, <- ofZ_add; reflexivity); cbn [ofZ]; rewrite ?ofZ_1; try ring. }
      assert (WW : forall w m, In (w, m) [(number 0 ++ number 1, Z.b2z (a =? 3)); (number 0, Z.b2z (Z.testbit a 0)); (number 1, Z.b2z (Z.testbit a 1));
            (number 2 ++ number 3, Z.b2z (b =? 3)); (number 2, Z.b2z (Z.testbit b 0)); (number 3, Z.b2z (Z.testbit b 1))] ->
          word w (bits a ++ bits b) (bits c ++ bits d) = if (a =? c) && (b =? d) then m else 0).
      { intros w m I. cbn in I. destruct I as [I|[I|[I|[I|[I|[I|[]]]]]]]; injection I as <- <-; clear -A B C D; four A; four B; four C; four D; reflexivity. }
      rewrite !(WW _ _ (or_introl eq_refl)), !(WW _ _ (or_intror (or_introl eq_refl))), !(WW _ _ (or_intror (or_intror (or_introl eq_refl)))),
        !(WW _ _ (or_intror (or_intror (or_intror (or_introl eq_refl))))), !(WW _ _ (or_intror (or_intror (or_intror (or_intror (or_introl eq_refl)))))),
        !(WW _ _ (or_intror (or_intror (or_intror (or_intror (or_intror (or_introl eq_refl))))))).
      unfold val. cbn [fst snd]. destruct ((a =? c) && (b =? d)).
      - rewrite (V a A), (V b B). reflexivity.
      - cbn [ofZ]. ring. }
    rewrite DV. ring.
Qed.
End C52.

Theorem c52_labels : forall y s, y <> SZ4 -> site_state s -> q_of y s = charge_spec y s.
Proof. intros y s N A. destruct y, A as [->|[->|[->| ->]]]; try reflexivity; congruence. Qed.
(* the label of the doubly occupied state in Z4 is 0, not 2 *)
Theorem c52_labels_refuted : exists y s, site_state s /\ q_of y s <> charge_spec y s.
Proof. exists SZ4, 3. split; [unfold site_state; auto|]. vm_compute. discriminate. Qed.
(* creation operators have a definite charge ... *)
Theorem c52_charge : forall (R : CRing) order y spin, y <> SZ4 -> spin = 0 \/ spin = 1 -> exists t, creation R order true y spin = Some t /\
  exists dq, forall q1 q2 b, In ([q1; q2], b) t -> lab_sub y q1 q2 = dq.
Proof.
  intros R order y spin N HS.
  set (L := flat_map (fun s => map (fun o => (s, o)) (creation_map spin s)) all4).
  assert (GEN : forall l (d : ften R), (forall p, In p l -> In p L) -> (forall q b, In (q, b) d -> In q (map (fun p : Z * Z => [q_of y (snd p); q_of y (fst p)]) L)) ->
    forall t, foldM (fun d (p : Z * Z) => accum R y d [snd p; fst p] (ofZ R (swap_phase order true [snd p; fst p]))) d l = Some t ->
    forall q b, In (q, b) t -> In q (map (fun p : Z * Z => [q_of y (snd p); q_of y (fst p)]) L)).
  { induction l as [|p l IH]; intros d HL HD t E; [injection E as <-; exact HD|]. cbn [foldM] in E.
    destruct (accum R y d [snd p; fst p] (ofZ R (swap_phase order true [snd p; fst p]))) as [d1|] eqn:E1; [|discriminate]. cbn [bind] in E.
    apply (IH d1); [intros; apply HL; now right| |exact E]. unfold accum in E1.
    destruct (add_at R _ _ _) as [b'|]; [|discriminate]. cbn [bind] in E1. injection E1 as <-. intros q b I.
    assert (I' : In q (keys (dset key_eqb d (map (q_of y) [snd p; fst p]) b'))) by (change q with (fst (q, b)); now apply in_map).
    apply (keys_dset_in _ key_eqb_spec) in I'. destruct I' as [I'| ->].
    - unfold keys in I'. apply in_map_iff in I'. destruct I' as [[q0 b0] [<- I']]. eapply HD; eauto.
    - apply in_map_iff. exists p. split; [reflexivity|]. apply HL. now left. }
  assert (HS' : spin = 0 \/ spin = 1 \/ spin = 2) by tauto.
  destruct (c52_creation R order y spin HS') as [t [E _]]. exists t. split; [exact E|].
  unfold creation in E. fold L in E. assert (K := GEN L [] (fun p H => H) (fun q b (H : In (q, b) []) => match H with end) t E). clear GEN E.
  exists (match L with p :: _ => lab_sub y (q_of y (snd p)) (q_of y (fst p)) | [] => (0, 0) end).
  intros q1 q2 b I. specialize (K _ _ I). clear I t. unfold L in *. clear L.
  destruct HS as [->| ->]; destruct y; try congruence; cbn in K; repeat (destruct K as [K|K]; [injection K as <- <-; reflexivity|]); destruct K.
Qed.
(* ... but not in Z4 *)
Theorem c52_charge_refuted : exists spin t, creation Z_ring (fun _ => false) true SZ4 spin = Some t /\
  exists q1 q2 b q3 q4 b', In ([q1; q2], b) t /\ In ([q3; q4], b') t /\ lab_sub SZ4 q1 q2 <> lab_sub SZ4 q3 q4.
Proof.
  exists 0. eexists. split; [vm_compute; reflexivity|]. do 6 eexists. split; [left; reflexivity|]. split; [right; left; reflexivity|].
  vm_compute. discriminate.
Qed.
(* U1 with t = 7, u = 100, mu = 1000 *)
Example c52_ex : option_map (fun T => (map (elem Z_ring SU1 T) [[1; 2; 3; 0]; [1; 2; 0; 3]; [2; 1; 3; 0]; [1; 2; 1; 2]; [3; 1; 3; 1]; [1; 0; 0; 1]; [1; 3; 3; 1]], length T))
  (hubbard Z_ring (fun _ => true) true SU1 7 100 1000 1 1) = Some ([-7; -7; 7; -2000; 3100; -7; 7], 17%nat).
Proof. vm_compute. reflexivity. Qed.
Example c52_ex_creation : option_map (fun T => (map (elem Z_ring SZ2 T) [[3; 1]; [2; 0]; [3; 2]], map fst T))
  (creation Z_ring (fun _ => true) true SZ2 1) = Some ([-1; 1; 0], [[(1, 0); (0, 0)]; [(0, 0); (1, 0)]]).
Proof. vm_compute. reflexivity. Qed.
Print Assumptions c52_creation.
Print Assumptions c52_hopping.
Print Assumptions c52_hubbard.
Print Assumptions c52_labels.
Print Assumptions c52_labels_refuted.
Print Assumptions c52_charge.
Print Assumptions c52_charge_refuted.

(* ============================================================ C41 *)
Section C41.
Variable R : CRing.
Add Ring Rr41 : (rth R).
(* the element as the sum of all blocks with the labels, which is what contractions use *)
Definition elem_total (y : symm) (t : ften R) (states : list Z) : R :=
  bsum t (fun p => if key_eqb (fst p) (map (q_of y) states) then b_at R (snd p) (map (ix_of y) states) else r0 R).
Definition diagonal (f : Z -> R) (a b : Z) : R := if a =? b then f a else r0 R.
Definition n_up (s : Z) : Z := Z.b2z (Z.testbit s 0).
Definition n_down (s : Z) : Z := Z.b2z (Z.testbit s 1).

Theorem c41_total : forall y, exists t, particle_number R y = Some t /\ well_formed R y t /\
  forall a b, site_state a -> site_state b -> elem R y t [a; b] = diagonal (fun s => ofZ R (n_up s + n_down s)) a b.
Proof.
  intros y.
  assert (X : particle_number R y = accumL R y [] (map (fun s => ([s; s], ofZ R (pn_dict s))) all4)) by (unfold particle_number, accumL; now rewrite foldM_map).
  rewrite X. destruct (accumL_spec R y (map (fun s => ([s; s], ofZ R (pn_dict s))) all4)) as [t [E [W H]]].
  - intros p I. apply in_map_iff in I. destruct I as [s [<- I]]. cbn [fst]. repeat (apply Forall_cons; [exact I|]). apply Forall_nil.
  - exists t. split; [exact E|]. split; [exact W|]. intros a b A B. apply site_in4 in A, B.
    rewrite H by (repeat (apply Forall_cons; [assumption|]); apply Forall_nil). rewrite bsum_map. cbn [fst snd]. unfold diagonal.
    assert (V : n_up a + n_down a = pn_dict a) by (clear -A; four A; reflexivity). rewrite V. clear V.
    unfold all4. rewrite !bsum_cons, bsum_nil. generalize pn_dict as pn. intros pn. four A; four B; cbn [list_eqb Z.eqb Pos.eqb andb]; ring.
Qed.

Lemma by_state_total : forall y f, exists t, by_state R y f = Some t /\
  forall a b, site_state a -> site_state b -> elem_total y t [a; b] = diagonal f a b.
Proof.
  intros y f. unfold by_state. 
  rewrite (mapM_total _ _ _ (fun s => ([q_of y s; q_of y s], mkB R [dim_of y s; dim_of y s]
     (fun j => if list_eqb Z.eqb j [ix_of y s; ix_of y s] then radd R (r0 R) (f s) else r0 R)))).
  - eexists. split; [reflexivity|]. intros a b A B. unfold elem_total. rewrite bsum_map. cbn [fst snd b_at]. unfold all4, diagonal. rewrite !bsum_cons, bsum_nil.
    destruct A as [->|[->|[->| ->]]], B as [->|[->|[->| ->]]], y; cbn [map key_eqb list_eqb qlab_eqb q_of ix_of state_map fst snd Z.eqb Pos.eqb andb]; ring.
  - intros s I. unfold add_at. cbn [zeros b_dims b_at]. assert (K := in_shape_st y [s; s]). cbn [map] in K.
    rewrite K by (repeat (apply Forall_cons; [exact I|]); apply Forall_nil). reflexivity.
Qed.
Theorem c41_spin_projection : forall y half, exists t, measure_sz R y half = Some t /\
  forall a b, site_state a -> site_state b -> elem_total y t [a; b] = diagonal (fun s => rmul R (ofZ R (n_up s - n_down s)) half) a b.
Proof.
  intros y half. destruct (by_state_total y (fun s => if s =? 1 then half else if s =? 2 then ropp R half else r0 R)) as [t [E H]].
  exists t. split; [exact E|]. intros a b A B. rewrite H by assumption. unfold diagonal. destruct (a =? b); [|reflexivity].
  destruct A as [->|[->|[->| ->]]]; cbn [Z.eqb Pos.eqb].
  - change (ofZ R (n_up 0 - n_down 0)) with (r0 R). ring.
  - change (n_up 1 - n_down 1) with 1. rewrite ofZ_1. ring.
  - change (n_up 2 - n_down 2) with (- (1)). rewrite ofZ_opp, ofZ_1. ring.
  - change (ofZ R (n_up 3 - n_down 3)) with (r0 R). ring.
Qed.
Theorem c41_repulsion : forall y u, exists t, onsite_u R y u = Some t /\
  forall a b, site_state a -> site_state b -> elem_total y t [a; b] = diagonal (fun s => rmul R (ofZ R (n_up s * n_down s)) u) a b.
Proof.
  intros y u. destruct (by_state_total y (fun s => if pn_dict s =? 2 then u else r0 R)) as [t [E H]].
  exists t. split; [exact E|]. intros a b A B. rewrite H by assumption. unfold diagonal. destruct (a =? b); [|reflexivity].
  destruct A as [->|[->|[->| ->]]]; cbn [Z.eqb Pos.eqb pn_dict].
  - change (ofZ R (n_up 0 * n_down 0)) with (r0 R). ring.
  - change (ofZ R (n_up 1 * n_down 1)) with (r0 R). ring.
  - change (ofZ R (n_up 2 * n_down 2)) with (r0 R). ring.
  - change (n_up 3 * n_down 3) with 1. rewrite ofZ_1. ring.
Qed.
(* numbers of up and down electrons, except for the doubly occupied state, which counts nothing *)
Theorem c41_spin_numbers_partial : forall y, exists ta tb, number_alpha R y = Some ta /\ number_beta R y = Some tb /\
  forall a b, site_state a -> site_state b ->
    elem_total y ta [a; b] = diagonal (fun s => if s =? 3 then r0 R else ofZ R (n_up s)) a b /\
    elem_total y tb [a; b] = diagonal (fun s => if s =? 3 then r0 R else ofZ R (n_down s)) a b.
Proof.
  intros y. destruct (by_state_total y (fun s => ofZ R (pna_dict s))) as [t [E H]], (by_state_total y (fun s => ofZ R (pnb_dict s))) as [t' [E' H']].
  exists t, t'. split; [exact E|]. split; [exact E'|]. intros a b A B. rewrite H, H' by assumption. unfold diagonal.
  destruct (a =? b); [|now split]. destruct A as [->|[->|[->| ->]]]; split; reflexivity.
Qed.
(* additivity in spin on states with at most one electron *)
Theorem c41_additive_partial : forall y, exists t ta tb, particle_number R y = Some t /\ number_alpha R y = Some ta /\ number_beta R y = Some tb /\
  forall a b, site_state a -> site_state b -> a <> 3 -> elem R y t [a; b] = radd R (elem_total y ta [a; b]) (elem_total y tb [a; b]).
Proof.
  intros y. destruct (c41_total y) as [t [E [_ H]]], (c41_spin_numbers_partial y) as [ta [tb [Ea [Eb H']]]].
  exists t, ta, tb. repeat (split; [assumption|]). intros a b A B N. rewrite H by assumption. destruct (H' a b A B) as [-> ->]. unfold diagonal.
  destruct (a =? b); [|ring]. destruct (Z.eqb_spec a 3); [contradiction|]. apply ofZ_add.
Qed.
End C41.
(* fails on the doubly occupied state for every symmetry *)
Theorem c41_additive_refuted : forall y, exists t ta tb, particle_number Z_ring y = Some t /\ number_alpha Z_ring y = Some ta /\ number_beta Z_ring y = Some tb /\
  elem Z_ring y t [3; 3] = 2 /\ elem_total Z_ring y ta [3; 3] = 0 /\ elem_total Z_ring y tb [3; 3] = 0.
Proof.
  intros y. destruct (c41_total Z_ring y) as [t [E [_ H]]], (c41_spin_numbers_partial Z_ring y) as [ta [tb [Ea [Eb H']]]].
  assert (S3 : site_state 3) by (unfold site_state; auto).
  exists t, ta, tb. split; [exact E|]. split; [exact Ea|]. split; [exact Eb|]. split; [now rewrite H|]. split; apply (H' 3 3 S3 S3).
Qed.
(* when a label has two states the operators built by state have two blocks with equal labels, and the dense form, which
   assigns block by block, loses one of them: the up state has spin projection 0 *)
Theorem c41_duplicate_blocks_refuted : forall y half, y = SU1 \/ y = SZ2 \/ y = SZ4 -> exists t, measure_sz Z_ring y half = Some t /\
  ~ NoDup (map fst t) /\ elem Z_ring y t [1; 1] = 0 /\ elem_total Z_ring y t [1; 1] = half.
Proof.
  intros y half Hy. destruct (c41_spin_projection Z_ring y half) as [t [E H]]. exists t. split; [exact E|].
  unfold measure_sz, by_state in E. destruct Hy as [->|[->| ->]]; cbn in E; injection E as <-.
  all: split; [cbn [map fst]; intros N; inversion N as [|? ? N1 N2]; try (apply N1; cbn; tauto); inversion N2 as [|? ? N3 N4]; apply N3; cbn; tauto|].
  all: split; [reflexivity|].
  all: rewrite H by (unfold site_state; auto); transitivity (rmul Z_ring (ofZ Z_ring 1) half); [reflexivity|]; rewrite ofZ_1; apply Z.mul_1_l.
Qed.
Example c41_ex : option_map (fun t => map (elem Z_ring SU11 t) [[0; 0]; [1; 1]; [2; 2]; [3; 3]; [1; 2]]) (particle_number Z_ring SU11) = Some [0; 1; 1; 2; 0]
  /\ option_map (fun t => map (elem Z_ring SU11 t) [[0; 0]; [1; 1]; [2; 2]; [3; 3]]) (number_alpha Z_ring SU11) = Some [0; 1; 0; 0]
  /\ option_map (fun t => map (elem_total Z_ring SU1 t) [[1; 1]; [2; 2]; [3; 3]; [1; 2]]) (measure_sz Z_ring SU1 5) = Some [5; -5; 0; 0].
Proof. vm_compute. auto. Qed.
Print Assumptions c41_total.
Print Assumptions c41_spin_projection.
Print Assumptions c41_repulsion.
Print Assumptions c41_spin_numbers_partial.
Print Assumptions c41_additive_partial.
Print Assumptions c41_additive_refuted.
Print Assumptions c41_duplicate_blocks_refuted.

(* ============================================================ C31 *)
Section C31.
Variable Q : Type.
Variable eqb : Q -> Q -> bool.
Hypothesis eqb_spec : forall a b, reflect (a = b) (eqb a b).
Definition is_label (E : list (Q * Q)) (q : Q) : Prop := exists x, In x E /\ (q = fst x \/ q = snd x).
(* connected by a chain of blocks *)
Definition connected (E : list (Q * Q)) : Q -> Q -> Prop := clos_refl_sym_trans Q (fun a b => In (a, b) E).
Lemma touched_label : forall E q, touched Q E q <-> is_label E q.
Proof.
  intros E q. split.
  - intros [a [b [I J]]]. exists (a, b). auto.
  - intros [[a b] [I J]]. exists a, b. auto.
Qed.
Lemma conn_connected : forall E a b, conn Q E a b <-> connected E a b.
Proof.
  intros E a b. split; intros C; induction C.
  - now apply rst_step.
  - apply rst_refl.
  - now apply rst_sym.
  - eapply rst_trans; eauto.
  - now apply conn_edge.
  - apply conn_refl.
  - now apply conn_sym.
  - eapply conn_trans; eauto.
Qed.

Theorem c31_components : forall (B : Type) (blocks : list (Q * Q * B)), exists g, group Q eqb B blocks = Some g /\
  (* exactly the labels of the blocks have a group *)
  (forall q, (exists p, dget eqb (top Q B g) q = Some p) <-> is_label (map fst blocks) q) /\
  (* same group iff connected *)
  (forall a b, is_label (map fst blocks) a -> is_label (map fst blocks) b ->
     (dget eqb (top Q B g) a = dget eqb (top Q B g) b <-> connected (map fst blocks) a b)) /\
  (* the groups with data are those of the representatives, and each holds exactly its blocks *)
  NoDup (map fst (dat Q B g)) /\
  (forall p, In p (map fst (dat Q B g)) <-> dget eqb (top Q B g) p = Some p) /\
  (forall q p, dget eqb (top Q B g) q = Some p -> In p (map fst (dat Q B g)) /\
     exists members, dget eqb (fromp Q B g) p = Some members /\ forall z, In z members <-> dget eqb (top Q B g) z = Some p) /\
  (forall p bs, In (p, bs) (dat Q B g) -> exists mine, Permutation bs (map snd mine) /\
     (forall x, In x mine <-> In x blocks /\ dget eqb (top Q B g) (fst (fst x)) = Some p /\ dget eqb (top Q B g) (snd (fst x)) = Some p)).
Proof.
  intros B blocks. destruct (group_ok Q eqb eqb_spec B blocks) as [g [G [I D]]]. exists g. split; [exact G|].
  assert (N := group_nodup Q eqb eqb_spec _ _ _ G).
  assert (KD : forall p, In p (map fst (dat Q B g)) <-> dget eqb (top Q B g) p = Some p).
  { intros p. rewrite <- (i_dat _ _ _ _ _ I p). split.
    - intros J. apply in_map_iff in J. destruct J as [[p' d] [<- J]]. exists d. now apply (in_dget _ eqb_spec).
    - intros [d J]. apply (dget_in _ eqb_spec) in J. change p with (fst (p, d)). now apply in_map. }
  split; [intros q; rewrite <- touched_label; apply I|]. split.
  { intros a b A A'. rewrite <- conn_connected. apply touched_label in A, A'. now apply (inv_conn Q eqb). }
  split; [exact N|]. split; [exact KD|]. split.
  - intros q p T. assert (P := proj1 (i_rep _ _ _ _ _ I q p T)). split; [now apply KD|]. now apply (i_from _ _ _ _ _ I).
  - intros p bs J. assert (T : dget eqb (top Q B g) p = Some p) by (apply KD; change p with (fst (p, bs)); now apply in_map).
    destruct (D p T) as [d [E P]]. apply (in_dget _ eqb_spec _ _ _ N) in J. rewrite E in J. injection J as ->.
    eexists. split; [exact P|]. intros x. rewrite filter_In. unfold at_rep. split.
    + intros [X1 X2]. split; [exact X1|]. assert (ED : In (fst x) (map fst blocks)) by now apply in_map.
      rewrite (surjective_pairing (fst x)) in ED. rewrite <- (i_edge _ _ _ _ _ I _ _ ED).
      destruct (dget eqb (top Q B g) (fst (fst x))) as [w|]; [|discriminate]. destruct (eqb_spec w p); [subst; auto|discriminate].
    + intros [X1 [X2 _]]. split; [exact X1|]. rewrite X2. destruct (eqb_spec p p); congruence.
Qed.
(* the exponential has a block for every ordered pair of connected labels that occur in some block, and no other *)
Theorem c31_exponential_labels : forall blocks, exists out, exp_labels Q eqb blocks = Some out /\ NoDup out /\
  forall a b, In (a, b) out <-> is_label blocks a /\ is_label blocks b /\ connected blocks a b.
Proof.
  intros blocks. destruct (exp_labels_ok Q eqb eqb_spec blocks) as [out [E [N H]]]. exists out. split; [exact E|]. split; [exact N|].
  intros a b. rewrite H, !touched_label, conn_connected. reflexivity.
Qed.
End C31.
(* labels of the two halves of the blocks of a two-site operator *)
Definition halves (t : ften Z_ring) : list (list qlab * list qlab) := map (fun p => (firstn 2 (fst p), skipn 2 (fst p))) t.
(* the exponential of the hopping operator has no block for the empty pair of sites, where the exponential is 1 *)
Theorem c31_exponential_refuted : exists t out, h1 Z_ring (fun _ => false) true SU11 1 = Some t /\
  exp_labels _ key_eqb (halves t) = Some out /\ ~ In ([(0, 0); (0, 0)], [(0, 0); (0, 0)]) out /\
  In ([(1, 1); (0, 0)], [(1, 1); (0, 0)]) out.
Proof.
  destruct (c52_hopping Z_ring (fun _ => false) SU11 1) as [t [E _]].
  destruct (c31_exponential_labels _ key_eqb key_eqb_spec (halves t)) as [out [E2 [_ H]]].
  exists t, out. split; [exact E|]. split; [exact E2|].
  let hv := eval vm_compute in (option_map halves (h1 Z_ring (fun _ => false) true SU11 1)) in
  assert (HV : option_map halves (h1 Z_ring (fun _ => false) true SU11 1) = hv) by (vm_compute; reflexivity).
  rewrite E in HV. cbn [option_map] in HV. injection HV as HV. split.
  - intros I. apply H in I. destruct I as [[x [I J]] _]. rewrite HV in I. clear -I J. cbn in I.
    repeat (destruct I as [<-|I]; [cbn in J; destruct J as [J|J]; discriminate J|]). destruct I.
  - apply H. split; [|split; [|apply rst_refl]]; rewrite HV; (eexists; split; [left; reflexivity|cbn; auto]).
Qed.
Example c31_ex : option_map (fun g => (top Z Z g, dat Z Z g)) (group Z Z.eqb Z [(1, 2, 10); (3, 4, 20); (5, 5, 30); (4, 2, 40); (2, 1, 50)])
  = Some ([(1, 3); (2, 3); (3, 3); (4, 3); (5, 5)], [(3, [20; 10; 40; 50]); (5, [30])]).
Proof. vm_compute. reflexivity. Qed.
Example c31_ex_exp : option_map (@length _) (exp_labels Z Z.eqb [(1, 2); (3, 4); (5, 5); (4, 2)]) = Some 17%nat.
Proof. vm_compute. reflexivity. Qed.
Print Assumptions c31_components.
Print Assumptions c31_exponential_labels.
Print Assumptions c31_exponential_refuted.
