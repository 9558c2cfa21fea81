(** build_mpo of BuildModel: the chain of tensors is the sum of the strings. *)
From Coq Require Import ZArith Bool List Lia Ring Sorted Permutation.
From Verif Require Import SymModel SymProofs DictLib IndexLib RingLib OptLib SiteModel SiteProofs SiteOps SiteProps QcAlg QcWords QcSite QcChain BuildModel BuildProofs BuildChain BuildSweep.
Import ListNotations.
Open Scope Z_scope.

Fixpoint sites_from (i : Z) (k : nat) : list Z := match k with O => [] | S k' => i :: sites_from (i + 1) k' end.
Lemma zrange_from : forall n, zrange (Z.of_nat n) = sites_from 0 n.
Proof.
  intros n. unfold zrange. rewrite Nat2Z.id. enough (H : forall k a, map Z.of_nat (seq a k) = sites_from (Z.of_nat a) k) by exact (H n 0%nat).
  induction k as [|k IH]; intros a; [reflexivity|]. cbn [seq map sites_from]. rewrite IH. do 2 f_equal. lia.
Qed.

Lemma idx_ltb_irrefl : forall a, idx_ltb a a = false. Proof. intros [a b]. unfold idx_ltb. cbn [fst snd]. rewrite Z.eqb_refl. lia. Qed.
Lemma idx_ltb_true : forall a b, idx_ltb a b = true <-> fst a < fst b \/ (fst a = fst b /\ snd a < snd b).
Proof. intros [a b] [c d]. unfold idx_ltb. cbn [fst snd]. destruct (Z.eqb_spec a c); lia. Qed.
Lemma idx_ltb_trans : forall a b c, idx_ltb a b = true -> idx_ltb b c = true -> idx_ltb a c = true.
Proof. intros a b c. rewrite !idx_ltb_true. lia. Qed.
Lemma idx_ltb_total : forall a b : Z * Z, a <> b -> idx_ltb a b = true \/ idx_ltb b a = true.
Proof. intros [a b] [c d] N. rewrite !idx_ltb_true. cbn [fst snd]. destruct (Z.eq_dec a c), (Z.eq_dec b d); subst; try lia. congruence. Qed.
Lemma pair_dec : forall a b : Z * Z, {a = b} + {a <> b}. Proof. decide equality; apply Z.eq_dec. Qed.
Lemma letters_sorted : forall l : list letter, StronglySorted (le_key idx_ltb snd) (sort_by idx_ltb snd l).
Proof. intros l. apply sort_sorted; [exact idx_ltb_trans|exact idx_ltb_total|exact pair_dec]. Qed.

Section Final.
Variable R : CRing.
Add Ring RR : (rth R).
Notation "0'" := (r0 R). Notation "1'" := (r1 R).
Infix "+'" := (radd R) (at level 50, left associativity).
Infix "*'" := (rmul R) (at level 40, left associativity).
Notation "-' a" := (ropp R a) (at level 35).
Notation expr := (expr R). Notation str := (R * list osym)%type.
Notation ev := (ev R). Notation cv := (cv R). Notation words := (words R). Notation epoly := (epoly R).
Notation phi := (phi R).
Variable orb : Z -> Z.

Definition pev (p : list (R * list QcAlg.letter)) (f : list QcAlg.letter -> R) : R := bsum p (fun t => fst t *' f (snd t)).
Definition cpoly (ops : dict msym expr) (c : R * msym) : list str :=
  match dget msym_eqb ops (snd c) with Some e => map (fun s => (fst c *' fst s, snd s)) (epoly e) | None => [] end.
Lemma cv_poly : forall ops c f, cv ops (Some c) f = bsum (cpoly ops c) (fun s => fst s *' f (snd s)).
Proof.
  intros ops [c o] f. unfold BuildProofs.cv, cpoly. cbn [fst snd]. destruct (dget msym_eqb ops o) as [e|]; [|reflexivity].
  rewrite ev_poly, bsum_map, <- bsum_mull. apply bsum_ext. intros. cbn [fst snd]. ring.
Qed.
Lemma cpoly_words : forall ops c s, In s (cpoly ops c) -> exists o e, In (o, e) ops /\ In (snd s) (words e).
Proof.
  intros ops [c o] s I. unfold cpoly in I. cbn [fst snd] in I. destruct (dget msym_eqb ops o) as [e|] eqn:D; [|destruct I]. apply dget_In in D. destruct D as [o' [J _]].
  apply in_map_iff in I. destruct I as [t [<- I]]. exists o', e. split; [exact J|]. cbn [snd]. now apply (in_map snd).
Qed.
Definition tab_here (i : Z) (ops : dict msym expr) : Prop := forall o e, In (o, e) ops -> forall w, In w (words e) -> Forall (here_sym i) w.
Lemma here_at : forall i w, 0 <= i -> Forall (here_sym i) w -> Forall (at_site (Z.to_nat i)) (erase w).
Proof.
  intros i w H F. induction F as [|[a|] w Ha F IH]; cbn; [constructor| |exact IH]. constructor; [|exact IH]. destruct Ha as [A B]. unfold site in A. split; [rewrite Z2Nat.id by exact H; exact A|exact B].
Qed.
Lemma at_okl : forall k u, Forall (at_site k) u -> Forall (okl (S k)) u.
Proof. intros k u F. eapply Forall_impl; [|exact F]. intros a [A B]. split; [lia|exact B]. Qed.
Lemma okl_S : forall k u, Forall (okl k) u -> Forall (okl (S k)) u.
Proof. intros k u F. eapply Forall_impl; [|exact F]. intros a [A B]. split; [lia|exact B]. Qed.

(* one more site *)
Lemma site_step : forall i t es acc (A : nat -> list (R * list QcAlg.letter)), 0 <= i -> tab_here i (t_ops R t) -> site_entries R orb i t = Some es ->
  (forall r a, In a (A r) -> Forall (okl (Z.to_nat i)) (snd a)) ->
  (forall r s' s, In s' (states (Z.to_nat i)) -> In s (states (Z.to_nat i)) -> value R (Z.of_nat r) acc s' s = pev (A r) (phi (Z.to_nat i) s' s)) ->
  forall k b' b, In b' (states (S (Z.to_nat i))) -> In b (states (S (Z.to_nat i))) ->
  value R (Z.of_nat k) (extend R orb acc (i, es)) b' b =
  bsum (t_mat R t) (fun e => if Nat.eqb (snd (fst e)) k then pev (A (fst (fst e))) (fun w => cv (t_ops R t) (Some (snd e)) (fun w2 => phi (S (Z.to_nat i)) b' b (w ++ erase w2))) else 0').
Proof.
  intros i t es acc A Hi T E OK V k b' b B' B. destruct (st_split _ _ B') as [x' [s' [-> [X' S']]]], (st_split _ _ B) as [x [s [-> [X Ss]]]]. rewrite value_extend.
  transitivity (bsum es (fun e => (if snd (fst e) =? Z.of_nat k then value R (fst (fst e)) acc s' s else 0') *' (fst (snd e) *' opel R (orb i) (snd (snd e)) s x' x))).
  { apply bsum_ext. intros e _. destruct (snd (fst e) =? Z.of_nat k); ring. }
  rewrite (entries_val R orb i t es) with (G := fun p => if snd p =? Z.of_nat k then value R (fst p) acc s' s else 0'); [| |exact E|exact X'|exact X].
  2:{ intros o e I w W. eapply Forall_impl; [|exact (T o e I w W)]. intros [a|] H; [apply H|constructor]. }
  apply bsum_ext. intros e _. cbn [fst snd]. destruct (Nat.eqb_spec (snd (fst e)) k) as [->|N].
  - rewrite Z.eqb_refl. rewrite V by assumption. unfold pev. rewrite <- bsum_mulr. apply bsum_ext. intros a Ia. rewrite !cv_poly.
    rewrite (bsum_ext R _ (cpoly (t_ops R t) (snd e)) (fun s0 => fst s0 *' phi (S (Z.to_nat i)) (x' :: s') (x :: s) (snd a ++ erase (snd s0))) (fun s0 => phi (Z.to_nat i) s' s (snd a) *' (fst s0 *' psi R s x' x (erase (snd s0))))).
    + rewrite bsum_mull. ring.
    + intros c Ic. destruct (cpoly_words _ _ _ Ic) as [o [x0 [Io Iw]]]. rewrite phi_split; [unfold psi; ring|eapply OK; exact Ia|apply here_at; [exact Hi|exact (T _ _ Io _ Iw)]|assumption..].
  - replace (Z.of_nat (snd (fst e)) =? Z.of_nat k) with false by lia. ring.
Qed.

Variable iszero tiny big : R -> bool.
Variable svd : nat -> nat -> (nat -> nat -> R) -> option (nat * (nat -> nat -> R) * (nat -> R) * (nat -> nat -> R)).
Hypothesis iszero_ok : forall x, iszero x = true -> x = 0'.
Hypothesis tiny_ok : forall x, tiny x = true -> x = 0'.
Hypothesis big_ok : forall x, big x = false -> x = 0'.
Hypothesis svd_ok : forall n m a k u s vh, svd n m a = Some (k, u, s, vh) ->
  forall i j, (i < n)%nat -> (j < m)%nat -> bsum (seq 0 k) (fun c => u i c *' s c *' vh c j) = a i j.
Notation right_svd := (right_svd R orb iszero tiny big svd). Notation sweep := (sweep R orb iszero tiny big svd).
Notation col_loc := (col_loc R). Notation tables := (fun p => site_entries R orb (fst p) (snd p)).

Lemma good_here : forall n i w, good n i w -> Z.of_nat n = i + 1 -> Forall (here_sym i) w.
Proof.
  intros n i w [|u F L _] N; [repeat constructor|]. apply Forall_map. clear - F L N. induction F as [|a u [A B] F IH]; [constructor|]. inversion L; subst. constructor; [|auto]. split; [|exact B]. assert (site a < Z.of_nat n) by exact (proj2 A). cbv beta in *. lia.
Qed.
Lemma pev_ext : forall p f g, (forall a, In a p -> f (snd a) = g (snd a)) -> pev p f = pev p g.
Proof. intros p f g H. apply bsum_ext. intros a I. now rewrite H. Qed.
Lemma pev_bsum : forall (X : Type) p (l : list X) (F : X -> list QcAlg.letter -> R), pev p (fun w => bsum l (fun x => F x w)) = bsum l (fun x => pev p (F x)).
Proof.
  intros X p l F. unfold pev. rewrite (bsum_ext R _ p _ (fun t => bsum l (fun x => fst t *' F x (snd t)))); [apply bsum_swap|]. intros. now rewrite bsum_mull.
Qed.
Lemma pev_zero : forall p, pev p (fun _ => 0') = 0'. Proof. intros. apply bsum_zero. intros. ring. Qed.
Lemma cv_ext : forall ops c f g, (forall w, f w = g w) -> cv ops c f = cv ops c g.
Proof. intros ops [[f0 o]|] f g H; unfold BuildProofs.cv; [|reflexivity]. destruct (dget msym_eqb ops o); [|reflexivity]. now rewrite (ev_ext R _ _ _ H). Qed.
Lemma cv_zero : forall ops c, cv ops c (fun _ => 0') = 0'.
Proof. intros ops [[f0 o]|]; unfold BuildProofs.cv; [|reflexivity]. destruct (dget msym_eqb ops o); [|reflexivity]. rewrite ev_zero. ring. Qed.
Lemma sweep_value : forall n k i c ts ess acc (A : nat -> list (R * list QcAlg.letter)), 0 <= i -> n = (Z.to_nat i + k + 1)%nat -> col_ok R c -> col_loc n i (c_ops R c) ->
  sweep k i c = Some ts -> mapM tables (combine (sites_from i (S k)) ts) = Some ess ->
  (forall r a, In a (A r) -> Forall (okl (Z.to_nat i)) (snd a)) ->
  (forall r s' s, In s' (states (Z.to_nat i)) -> In s (states (Z.to_nat i)) -> value R (Z.of_nat r) acc s' s = pev (A r) (phi (Z.to_nat i) s' s)) ->
  forall b' b, In b' (states n) -> In b (states n) ->
  value R 0 (fold_left (extend R orb) (combine (sites_from i (S k)) ess) acc) b' b =
  bsum (seq 0 (length (c_mat R c))) (fun r => pev (A r) (fun w => cv (c_ops R c) (nth r (c_mat R c) None) (fun w2 => phi n b' b (w ++ erase w2)))).
Proof.
  intros n. induction k as [|k IH]; intros i c ts ess acc A Hi Hn CO CL E EM OK V b' b B' B; cbn [BuildModel.sweep] in E.
  - injection E as <-. cbn [sites_from combine] in *. cbn [mapM] in EM. cbn [fst snd] in EM. match type of EM with bind (site_entries R orb i ?t) _ = _ => set (tb := t) in * end.
    destruct (site_entries R orb i tb) as [es|] eqn:Es; cbn [bind] in EM; [|discriminate]. injection EM as <-. cbn [combine fold_left].
    assert (Hn' : n = S (Z.to_nat i)) by lia. rewrite Hn' in B', B. change 0 with (Z.of_nat 0) at 1.
    rewrite (site_step i tb es acc A Hi) with (k := 0%nat); [|intros o e I w W; eapply good_here; [exact (CL o e I w W)|lia]|exact Es|exact OK|exact V|exact B'|exact B].
    subst tb. cbn [t_mat t_ops]. rewrite bsum_flat_map. rewrite (bsum_combine_seq R _ None). apply bsum_ext. intros r _. cbn [fst snd]. rewrite <- Hn'.
    destruct (nth r (c_mat R c) None) as [x|]; [|rewrite bsum_nil; symmetry; apply pev_zero]. rewrite bsum_cons, bsum_nil. cbn [fst snd Nat.eqb]. ring.
  - destruct (right_svd i c) as [[t c']|] eqn:ES; cbn [bind] in E; [|discriminate]. destruct (sweep k (i + 1) c') as [ts'|] eqn:ESw; cbn [bind] in E; [|discriminate]. injection E as <-.
    cbn [sites_from combine] in EM |- *. cbn [mapM] in EM. cbn [fst snd] in EM. destruct (site_entries R orb i t) as [es|] eqn:Es; cbn [bind] in EM; [|discriminate].
    match type of EM with bind ?m _ = _ => destruct m as [ess'|] eqn:EM'; cbn [bind] in EM; [|discriminate] end. injection EM as <-. cbn [combine fold_left].
    destruct (right_svd_loc R orb iszero tiny big svd iszero_ok tiny_ok svd_ok n i c t c' CL ES) as [TH [CL' [_ [RG [RL _]]]]].
    assert (TH' : tab_here i (t_ops R t)) by (intros o e I w W; exact (proj2 (TH o e I w W))).
    set (A' := fun k' => flat_map (fun e : (nat * nat) * (R * msym) => if Nat.eqb (snd (fst e)) k' then
        flat_map (fun a => map (fun p => (fst a *' fst p, snd a ++ erase (snd p))) (cpoly (t_ops R t) (snd e))) (A (fst (fst e))) else []) (t_mat R t)).
    assert (PA : forall k' f, pev (A' k') f = bsum (t_mat R t) (fun e => if Nat.eqb (snd (fst e)) k' then pev (A (fst (fst e))) (fun w => cv (t_ops R t) (Some (snd e)) (fun w2 => f (w ++ erase w2))) else 0')).
    { intros k' f. unfold pev at 1. unfold A'. rewrite bsum_flat_map. apply bsum_ext. intros e _. destruct (Nat.eqb (snd (fst e)) k'); [|apply bsum_nil]. rewrite bsum_flat_map. unfold pev. apply bsum_ext. intros a _.
      rewrite bsum_map, cv_poly, <- bsum_mull. apply bsum_ext. intros. cbn [fst snd]. ring. }
    assert (Hi1 : Z.to_nat (i + 1) = S (Z.to_nat i)) by lia.
    rewrite (IH (i + 1) c' ts' ess' (extend R orb acc (i, es)) A'); [|lia|lia|symmetry; eapply F2_len; exact RL|exact CL'|exact ESw|exact EM'| | |exact B'|exact B].
    + rewrite (bsum_ext R _ (seq 0 (length (c_mat R c'))) _ (fun r => bsum (t_mat R t) (fun e => if Nat.eqb (snd (fst e)) r then pev (A (fst (fst e))) (fun w => cv (t_ops R t) (Some (snd e)) (fun w1 => cv (c_ops R c') (nth r (c_mat R c') None) (fun w2 => phi n b' b (w ++ erase (w1 ++ w2))))) else 0'))).
      2:{ intros r _. rewrite PA. apply bsum_ext. intros e _. destruct (Nat.eqb (snd (fst e)) r); [|reflexivity]. apply pev_ext. intros a _. apply cv_ext. intros w1. apply cv_ext. intros w2. now rewrite erase_app, app_assoc. }
      rewrite bsum_swap.
      rewrite (bsum_ext R _ (t_mat R t) _ (fun e => bsum (seq 0 (length (c_mat R c))) (fun r => if Nat.eqb (fst (fst e)) r then pev (A r) (fun w => cv (t_ops R t) (Some (snd e)) (fun w1 => cv (c_ops R c') (nth (snd (fst e)) (c_mat R c') None) (fun w2 => phi n b' b (w ++ erase (w1 ++ w2))))) else 0'))).
      2:{ intros e I. rewrite Forall_forall in RG. destruct (RG e I) as [R1 R2].
          rewrite (bsum_seq_eq R (length (c_mat R c')) (snd (fst e)) (fun r => pev (A (fst (fst e))) (fun w => cv (t_ops R t) (Some (snd e)) (fun w1 => cv (c_ops R c') (nth r (c_mat R c') None) (fun w2 => phi n b' b (w ++ erase (w1 ++ w2)))))) R2).
          rewrite (bsum_seq_eq R (length (c_mat R c)) (fst (fst e)) (fun r => pev (A r) (fun w => cv (t_ops R t) (Some (snd e)) (fun w1 => cv (c_ops R c') (nth (snd (fst e)) (c_mat R c') None) (fun w2 => phi n b' b (w ++ erase (w1 ++ w2)))))) R1). reflexivity. }
      rewrite bsum_swap. apply bsum_ext. intros r Ir. apply in_seq in Ir.
      rewrite (pev_ext (A r) _ (fun w => bsum (t_mat R t) (fun e => if Nat.eqb (fst (fst e)) r then cv (t_ops R t) (Some (snd e)) (fun w1 => cv (c_ops R c') (nth (snd (fst e)) (c_mat R c') None) (fun w2 => phi n b' b (w ++ erase (w1 ++ w2)))) else 0'))).
      2:{ intros a _. symmetry. apply (right_svd_ok R iszero tiny big svd iszero_ok tiny_ok big_ok svd_ok orb i c t c' CO ES r (fun w2 => phi n b' b (snd a ++ erase w2))); [lia|]. intros w. now rewrite erase_parts. }
      rewrite pev_bsum. apply bsum_ext. intros e _. destruct (Nat.eqb (fst (fst e)) r); [reflexivity|symmetry; apply pev_zero].
    + intros r a I. rewrite Hi1. unfold A' in I. apply in_flat_map in I. destruct I as [e [_ I]]. destruct (Nat.eqb (snd (fst e)) r); [|destruct I]. apply in_flat_map in I. destruct I as [a0 [I0 I]].
      apply in_map_iff in I. destruct I as [p [<- I]]. cbn [snd]. apply Forall_app. split; [apply okl_S; eapply OK; exact I0|]. apply at_okl, here_at; [exact Hi|]. destruct (cpoly_words _ _ _ I) as [o [x [J W]]]. exact (TH' _ _ J _ W).
    + intros r s' s S' Ss. rewrite Hi1 in *. rewrite PA. apply (site_step i t es acc A Hi TH' Es OK V r s' s S' Ss).
Qed.

(* ---- sorting the letters of a term *)
Definition neg_if (b : bool) (x : R) : R := if b then -' x else x.
Fixpoint count_sign (x : letter) (l : list letter) : bool := match l with [] => false | y :: l' => xorb (idx_ltb (snd y) (snd x)) (count_sign x l') end.
Lemma fold_sign : forall x l f, fold_left (fun f y => if idx_ltb (snd y) (snd x) then -' f else f) l f = neg_if (count_sign x l) f.
Proof.
  intros x. induction l as [|y l IH]; intros f; [reflexivity|]. cbn [fold_left count_sign]. rewrite IH. unfold neg_if. destruct (idx_ltb (snd y) (snd x)), (count_sign x l); cbn [xorb]; ring.
Qed.
Lemma count_perm : forall x l l', Permutation l l' -> count_sign x l = count_sign x l'.
Proof. intros x l l' P. induction P; cbn [count_sign]; [reflexivity|congruence| |congruence]. destruct (idx_ltb (snd y) (snd x)), (idx_ltb (snd x0) (snd x)), (count_sign x l); reflexivity. Qed.
Definition anti (f : list letter -> R) : Prop := forall (w1 : list letter) (a b : letter) w2, snd a <> snd b -> f (w1 ++ a :: b :: w2) = -' f (w1 ++ b :: a :: w2).
Lemma car_anti : forall f, car R f -> anti f.
Proof. intros f C w1 a b w2 N. apply C. now apply conj_neq. Qed.
Lemma insert_car : forall f x l, anti f -> StronglySorted (le_key idx_ltb snd) l -> forall w, f (w ++ x :: l) = neg_if (count_sign x l) (f (w ++ insert_by idx_ltb snd x l)).
Proof.
  intros f x l C. induction l as [|y l IH]; intros S w; [reflexivity|]. inversion S as [|? ? S' H]; subst. cbn [insert_by count_sign]. destruct (idx_ltb (snd y) (snd x)) eqn:L.
  - rewrite (C w x y l). 2:{ intros Q. rewrite Q, idx_ltb_irrefl in L. discriminate. }
    replace (w ++ y :: x :: l) with ((w ++ [y]) ++ x :: l) by (now rewrite <- app_assoc). rewrite (IH S' (w ++ [y])). replace (w ++ y :: insert_by idx_ltb snd x l) with ((w ++ [y]) ++ insert_by idx_ltb snd x l) by (now rewrite <- app_assoc).
    unfold neg_if. destruct (count_sign x l); cbn [xorb]; ring.
  - assert (Z : count_sign x l = false).
    { clear - H L. induction H as [|z l Hz H IH]; [reflexivity|]. cbn [count_sign]. rewrite IH, xorb_false_r. destruct (idx_ltb (snd z) (snd x)) eqn:E; [|reflexivity]. exfalso. destruct Hz as [Q|Q]; [rewrite Q in L|rewrite (idx_ltb_trans _ _ _ Q E) in L]; congruence. }
    rewrite Z. reflexivity.
Qed.
Lemma sort_car : forall f, anti f -> forall l c w, swap_sign R l c *' f (w ++ sort_by idx_ltb snd l) = c *' f (w ++ l).
Proof.
  intros f C. induction l as [|x l IH]; intros c w; [reflexivity|]. cbn [swap_sign]. rewrite fold_sign. cbn [sort_by fold_right]. fold (sort_by idx_ltb snd l).
  assert (E : swap_sign R l (neg_if (count_sign x l) c) = neg_if (count_sign x l) (swap_sign R l c)).
  { assert (N : forall l c, swap_sign R l (-' c) = -' swap_sign R l c). { induction l0 as [|z l0 IHl]; intros c0; [reflexivity|]. cbn [swap_sign]. rewrite !fold_sign. unfold neg_if. destruct (count_sign z l0); now rewrite !IHl. }
    unfold neg_if. destruct (count_sign x l); [apply N|reflexivity]. }
  rewrite E. assert (I := insert_car f x (sort_by idx_ltb snd l) C (letters_sorted l) w).
  rewrite <- (count_perm x _ _ (sort_perm idx_ltb snd l)) in I.
  specialize (IH c (w ++ [x])). rewrite <- !app_assoc in IH. cbn [app] in IH. rewrite <- IH, I. unfold neg_if. destruct (count_sign x l); ring.
Qed.

(* ---- the whole chain *)
Definition spec_term (n : nat) (t : R * list letter) : Prop := Forall (okl n) (snd t).
Lemma start_loc : forall n terms, Forall (spec_term n) terms -> col_loc n 0 (c_ops R (start R orb terms)).
Proof.
  intros n terms F o e I w W. cbn in I. destruct I as [I|[]]. injection I as <- <-. unfold BuildChain.words in W. cbn [BuildChain.epoly] in W. rewrite map_map in W. apply in_map_iff in W. destruct W as [t [<- I]].
  unfold sort_term. cbn [snd]. rewrite Forall_forall in F. specialize (F t I). unfold spec_term in F.
  assert (F' : Forall (okl n) (sort_by idx_ltb snd (snd t))) by (eapply Permutation_Forall; [apply sort_perm|exact F]). constructor.
  - exact F'.
  - eapply Forall_impl; [|exact F']. intros a [A _]. exact (proj1 A).
  - assert (S := letters_sorted (snd t)). induction S as [|a l S IH H]; constructor; [apply IH; now inversion F'|]. eapply Forall_impl; [|exact H]. intros b [Q|Q]; unfold site; [rewrite Q; lia|]. apply idx_ltb_true in Q. lia.
Qed.
Theorem build_value : forall n terms ts, (n <> 0)%nat -> Forall (spec_term n) terms -> build_mpo R orb iszero tiny big svd n terms = Some ts ->
  forall b' b, In b' (states n) -> In b (states n) ->
  value R 0 (paths R orb (combine (zrange (Z.of_nat n)) ts)) b' b = bsum terms (fun t => fst t *' word R n (snd t) b' b).
Proof.
  intros n terms ess N F E b' b B' B. unfold build_mpo, symbolic_mpo in E. destruct (sweep (n - 1) 0 (start R orb terms)) as [ts|] eqn:ES; cbn [bind] in E; [|discriminate].
  rewrite zrange_from in *. assert (Hn : n = S (n - 1)) by lia. rewrite Hn in E at 1. unfold paths. rewrite Hn at 1.
  rewrite (sweep_value n (n - 1) 0 (start R orb terms) ts ess [(1', 0, [])] (fun r => if Nat.eqb r 0 then [(1', [])] else [])); [|lia|cbn; lia|reflexivity|now apply start_loc|exact ES|exact E| | |exact B'|exact B].
  - cbn [start c_mat length seq c_ops]. rewrite bsum_cons, bsum_nil. cbn [nth Nat.eqb]. unfold pev. rewrite bsum_cons, bsum_nil. cbn [fst snd]. unfold BuildProofs.cv. cbn [dget msym_eqb BuildProofs.ev]. rewrite bsum_map.
    transitivity (bsum terms (fun t => sev R (fun w2 => phi n b' b ([] ++ erase w2)) (sort_term R t))); [ring|]. apply bsum_ext. intros t I. unfold sev, sort_term. cbn [fst snd app]. rewrite erase_some.
    rewrite <- (phi_ok R n b' b (snd t)) by (rewrite Forall_forall in F; exact (F t I)). exact (sort_car _ (car_anti _ (phi_car R n b' b B')) (snd t) (fst t) []).
  - intros r a I. destruct (Nat.eqb r 0); [|destruct I]. destruct I as [<-|[]]. constructor.
  - intros r s' s S' Ss. unfold value. rewrite bsum_cons, bsum_nil. cbn [fst snd]. destruct (Nat.eqb_spec r 0) as [->|Nr].
    + unfold pev. rewrite bsum_cons, bsum_nil. cbn [fst snd]. cbn [Z.of_nat Z.eqb]. rewrite phi_ok by constructor. cbn [Z.to_nat] in S', Ss. apply in_states in S', Ss. destruct S' as [S' _], Ss as [Ss _]. destruct s'; [|discriminate]. destruct s; [|discriminate].
      change (1' *' (0' +' 1') +' 0' = 1' *' 1' +' 0'). ring.
    + replace (0 =? Z.of_nat r) with false by lia. unfold pev. rewrite bsum_nil. ring.
Qed.
End Final.
