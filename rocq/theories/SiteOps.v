(** Elements of the site operators of SiteModel. *)
From Coq Require Import ZArith Bool List Lia Ring.
From Verif Require Import SymModel SymProofs DictLib IndexLib RingLib OptLib SiteModel SiteProofs.
Import ListNotations.
Open Scope Z_scope.

Section Ops.
Variable R : CRing.
Add Ring RR : (rth R).
Notation "0'" := (r0 R). Notation "1'" := (r1 R).
Infix "+'" := (radd R) (at level 50, left associativity).
Infix "*'" := (rmul R) (at level 40, left associativity).
Notation "-' a" := (ropp R a) (at level 35).

Lemma lab_eqb_spec : forall a b, reflect (a = b) (lab_eqb a b).
Proof.
  intros [a1 a2] [b1 b2]. unfold lab_eqb. cbn [fst snd].
  destruct (sz_eqb_spec a1 b1), (sz_eqb_spec a2 b2); cbn; constructor; congruence.
Qed.
Lemma state_lab_eqb : forall g a b, In a st4 -> In b st4 -> sz_eqb (state_lab g a) (state_lab g b) = (a =? b).
Proof.
  intros g a b A B. cbn in A, B.
  destruct A as [<-|[<-|[<-|[<-|[]]]]], B as [<-|[<-|[<-|[<-|[]]]]]; unfold state_lab, sz_eqb; cbn -[Z.eqb];
    rewrite ?Z.eqb_refl; reflexivity.
Qed.
Lemma state_lab_inj : forall g a b, In a st4 -> In b st4 -> state_lab g a = state_lab g b -> a = b.
Proof.
  intros g a b A B E. assert (F := state_lab_eqb g a b A B). destruct (sz_eqb_spec (state_lab g a) (state_lab g b)); [|contradiction].
  symmetry in F. now apply Z.eqb_eq in F.
Qed.

(* --------------------------------------------- elements of sums and products *)
Definition labs (g : Z) : list SZ := map (state_lab g) st4.
Definition wf (g : Z) (t : spt R) : Prop :=
  NoDup (keys t) /\ (forall q, In q (keys t) -> In (fst q) (labs g) /\ In (snd q) (labs g)).
Definition wfo (g : Z) (o : fop R) : Prop := wf g (f_odd R o) /\ wf g (f_even R o).
Definition pick (q : SZ * SZ) (e : (SZ * SZ) * R) : R := if lab_eqb (fst e) q then snd e else 0'.

Lemma at_lab_bsum : forall t q, NoDup (keys t) -> at_lab R t q = bsum t (pick q).
Proof.
  induction t as [|[k v] t IH]; intros q N; [reflexivity|]. cbn [keys map fst] in N. inversion N as [|? ? A B]; subst.
  rewrite bsum_cons. unfold at_lab, pick at 1. cbn [dget fst snd].
  destruct (lab_eqb_spec k q) as [->|E].
  - destruct (lab_eqb_spec q q); [|contradiction].
    rewrite bsum_zero; [ring|]. intros [k' v'] I. unfold pick. cbn [fst snd]. destruct (lab_eqb_spec k' q) as [->|]; [|reflexivity].
    exfalso. apply A. change q with (fst (q, v')). now apply in_map.
  - destruct (lab_eqb_spec q k); [congruence|]. fold (at_lab R t q). rewrite IH by exact B. ring.
Qed.
Lemma at_lab_dset : forall t k v q, at_lab R (dset lab_eqb t k v) q = if lab_eqb k q then v else at_lab R t q.
Proof.
  intros t k v q. unfold at_lab. rewrite (dget_dset lab_eqb lab_eqb_spec).
  destruct (lab_eqb_spec q k), (lab_eqb_spec k q); congruence.
Qed.
(* one accumulation *)
Definition acc1 (m : spt R) (q : SZ * SZ) (v : R) : spt R :=
  match dget lab_eqb m q with Some w => dset lab_eqb m q (w +' v) | None => dset lab_eqb m q v end.
Lemma at_acc1 : forall m k v q, at_lab R (acc1 m k v) q = at_lab R m q +' (if lab_eqb k q then v else 0').
Proof.
  intros m k v q. unfold acc1. destruct (dget lab_eqb m k) as [w|] eqn:E; rewrite at_lab_dset;
    (destruct (lab_eqb_spec k q) as [->|N]; [|ring]); unfold at_lab; rewrite E; ring.
Qed.
Lemma wf_acc1 : forall g m k v, wf g m -> In (fst k) (labs g) -> In (snd k) (labs g) -> wf g (acc1 m k v).
Proof.
  intros g m k v [N F] A B. unfold acc1.
  destruct (dget lab_eqb m k); (split; [now apply (nodup_dset lab_eqb lab_eqb_spec)|]);
    intros q I; apply (keys_dset_in lab_eqb lab_eqb_spec) in I; destruct I as [I| ->]; auto.
Qed.

Lemma sp_plus_el : forall g a b, wf g a -> wf g b ->
  wf g (sp_plus R a b) /\ forall q, at_lab R (sp_plus R a b) q = at_lab R a q +' at_lab R b q.
Proof.
  intros g a b [Na Fa] [Nb Fb]. unfold sp_plus. rewrite (dict_of_nodup lab_eqb lab_eqb_spec) by exact Na.
  assert (K : forall l m, wf g m -> (forall q, In q (keys l) -> In (fst q) (labs g) /\ In (snd q) (labs g)) ->
     wf g (fold_left (fun m (y : (SZ * SZ) * R) => acc1 m (fst y) (snd y)) l m) /\
     forall q, at_lab R (fold_left (fun m (y : (SZ * SZ) * R) => acc1 m (fst y) (snd y)) l m) q = at_lab R m q +' bsum l (pick q)).
  { induction l as [|y l IH]; intros m W F.
    - split; [exact W|]. intros q. cbn [fold_left]. rewrite bsum_nil. ring.
    - cbn [fold_left]. assert (W' : wf g (acc1 m (fst y) (snd y))). { destruct (F (fst y)) as [A B]; [now left|]. now apply wf_acc1. }
      destruct (IH _ W') as [W2 E2]; [intros q I; apply F; now right|]. split; [exact W2|]. intros q.
      rewrite E2, at_acc1, bsum_cons. unfold pick at 2. ring. }
  destruct (K b a (conj Na Fa) Fb) as [W E]. split; [exact W|]. intros q. etransitivity; [exact (E q)|].
  now rewrite (at_lab_bsum b) by exact Nb.
Qed.

Lemma fold_inner : forall g (x : (SZ * SZ) * R) b m, wf g m -> In (fst (fst x)) (labs g) ->
  (forall q, In q (keys b) -> In (fst q) (labs g) /\ In (snd q) (labs g)) ->
  let f := fold_left (fun m (y : (SZ * SZ) * R) => if sz_eqb (snd (fst x)) (fst (fst y)) then acc1 m (fst (fst x), snd (fst y)) (snd x *' snd y) else m) b m in
  wf g f /\ forall q, at_lab R f q = at_lab R m q +' bsum b (fun y =>
    if sz_eqb (snd (fst x)) (fst (fst y)) && lab_eqb (fst (fst x), snd (fst y)) q then snd x *' snd y else 0').
Proof.
  intros g x. induction b as [|y b IH]; intros m W X F; cbn [fold_left].
  - split; [exact W|]. intros q. rewrite bsum_nil. ring.
  - destruct (F (fst y)) as [A B]; [now left|].
    destruct (sz_eqb (snd (fst x)) (fst (fst y))) eqn:E.
    + assert (W' : wf g (acc1 m (fst (fst x), snd (fst y)) (snd x *' snd y))) by now apply wf_acc1.
      destruct (IH _ W' X) as [W2 E2]; [intros q I; apply F; now right|]. split; [exact W2|]. intros q.
      rewrite E2, at_acc1, bsum_cons, E. cbn [andb]. ring.
    + destruct (IH m W X) as [W2 E2]; [intros q I; apply F; now right|]. split; [exact W2|]. intros q.
      rewrite E2, bsum_cons, E. cbn [andb]. ring.
Qed.

Lemma sp_mm_el : forall g a b, wf g a -> wf g b -> wf g (sp_mm R a b) /\
  forall x' x, In x' st4 -> In x st4 -> el R g (sp_mm R a b) x' x = bsum st4 (fun y => el R g a x' y *' el R g b y x).
Proof.
  intros g a b [Na Fa] [Nb Fb].
  assert (K : forall l m, wf g m -> (forall q, In q (keys l) -> In (fst q) (labs g) /\ In (snd q) (labs g)) ->
    let f := fold_left (fun m (x : (SZ * SZ) * R) => fold_left (fun m (y : (SZ * SZ) * R) =>
        if sz_eqb (snd (fst x)) (fst (fst y)) then acc1 m (fst (fst x), snd (fst y)) (snd x *' snd y) else m) b m) l m in
    wf g f /\ forall q, at_lab R f q = at_lab R m q +' bsum l (fun x => bsum b (fun y =>
      if sz_eqb (snd (fst x)) (fst (fst y)) && lab_eqb (fst (fst x), snd (fst y)) q then snd x *' snd y else 0'))).
  { induction l as [|x l IH]; intros m W F; cbn [fold_left].
    - split; [exact W|]. intros q. rewrite bsum_nil. ring.
    - destruct (F (fst x)) as [A B]; [now left|].
      destruct (fold_inner g x b m W A Fb) as [W1 E1].
      destruct (IH _ W1) as [W2 E2]; [intros q I; apply F; now right|]. split; [exact W2|]. intros q.
      rewrite E2, E1, bsum_cons. ring. }
  assert (W0 : wf g []). { split; [constructor|intros q []]. }
  destruct (K a [] W0 Fa) as [W E]. split; [exact W|]. intros x' x X' X.
  unfold el at 1. etransitivity; [exact (E _)|]. clear K W E W0. unfold at_lab at 1. cbn [dget].
  transitivity (bsum st4 (fun y => bsum a (fun e => bsum b (fun f => pick (state_lab g x', state_lab g y) e *' pick (state_lab g y, state_lab g x) f)))).
  2:{ apply bsum_ext. intros y _. unfold el. rewrite (at_lab_bsum a), (at_lab_bsum b) by assumption. symmetry. apply bsum_prod. }
  rewrite (bsum_swap R _ _ st4 a). transitivity (bsum a (fun e => bsum b (fun f =>
      if sz_eqb (snd (fst e)) (fst (fst f)) && lab_eqb (fst (fst e), snd (fst f)) (state_lab g x', state_lab g x) then snd e *' snd f else 0'))); [ring|].
  apply bsum_ext. intros [[e1 e2] v] Ie. rewrite (bsum_swap R _ _ st4 b). apply bsum_ext. intros [[f1 f2] w] If. cbn [fst snd].
  destruct (Fa (e1, e2)) as [_ Le]; [change (e1, e2) with (fst ((e1, e2), v)); now apply in_map|].
  cbn [snd] in Le. unfold labs in Le. apply in_map_iff in Le. destruct Le as [k [<- Hk]].
  rewrite (bsum_single R _ st4 _ k); [|repeat constructor; cbn; intuition discriminate|exact Hk|].
  - unfold pick, lab_eqb. cbn [fst snd]. rewrite state_lab_eqb by assumption. rewrite Z.eqb_refl.
    destruct (sz_eqb_spec (state_lab g k) f1), (sz_eqb_spec f1 (state_lab g k)); try congruence;
      destruct (sz_eqb e1 (state_lab g x')), (sz_eqb f2 (state_lab g x)); cbn; ring.
  - intros y Hy Ny. unfold pick, lab_eqb. cbn [fst snd]. rewrite state_lab_eqb by assumption.
    destruct (Z.eqb_spec k y); [congruence|]. rewrite andb_false_r. ring.
Qed.

Lemma sp_scale_el : forall g c a, wf g a -> wf g (sp_scale R c a) /\ forall q, at_lab R (sp_scale R c a) q = c *' at_lab R a q.
Proof.
  intros g c a [N F]. assert (K : keys (sp_scale R c a) = keys a). { unfold keys, sp_scale. rewrite map_map. reflexivity. }
  split; [split; rewrite K; assumption|]. intros q. rewrite !at_lab_bsum by (rewrite ?K; assumption).
  unfold sp_scale. rewrite bsum_map, <- bsum_mull. apply bsum_ext. intros e _. unfold pick. cbn [fst snd]. destruct (lab_eqb _ _); ring.
Qed.

(* a tensor represents a pair of matrices on the four states *)
Definition mat := Z -> Z -> R.
Definition mmul (a b : mat) : mat := fun x' x => bsum st4 (fun y => a x' y *' b y x).
Definition madd (a b : mat) : mat := fun x' x => a x' x +' b x' x.
Definition mscale (c : R) (a : mat) : mat := fun x' x => c *' a x' x.
Definition mzero : mat := fun _ _ => 0'.
Definition rep (g : Z) (o : fop R) (mo me : mat) : Prop :=
  wfo g o /\ forall x' x, In x' st4 -> In x st4 -> el R g (f_odd R o) x' x = mo x' x /\ el R g (f_even R o) x' x = me x' x.

Lemma rep_ext : forall g o a b a' b', rep g o a b ->
  (forall x' x, In x' st4 -> In x st4 -> a x' x = a' x' x /\ b x' x = b' x' x) -> rep g o a' b'.
Proof.
  intros g o a b a' b' [W E] H. split; [exact W|]. intros x' x X' X. destruct (E x' x X' X) as [-> ->]. now apply H.
Qed.
Lemma rep_mm : forall g o p a b c d, rep g o a b -> rep g p c d ->
  rep g (op_mm R o p) (madd (mmul a d) (mmul b c)) (madd (mmul a c) (mmul b d)).
Proof.
  intros g o p a b c d [[Wo We] E] [[Wo' We'] E'].
  destruct (sp_mm_el g (f_odd R o) (f_even R p) Wo We') as [W1 E1].
  destruct (sp_mm_el g (f_even R o) (f_odd R p) We Wo') as [W2 E2].
  destruct (sp_mm_el g (f_odd R o) (f_odd R p) Wo Wo') as [W3 E3].
  destruct (sp_mm_el g (f_even R o) (f_even R p) We We') as [W4 E4].
  destruct (sp_plus_el g _ _ W1 W2) as [W5 E5]. destruct (sp_plus_el g _ _ W3 W4) as [W6 E6].
  split; [split; assumption|]. intros x' x X' X. unfold op_mm. cbn [f_odd f_even]. unfold el at 1 2. rewrite E5, E6.
  fold (el R g (sp_mm R (f_odd R o) (f_even R p)) x' x). fold (el R g (sp_mm R (f_even R o) (f_odd R p)) x' x).
  fold (el R g (sp_mm R (f_odd R o) (f_odd R p)) x' x). fold (el R g (sp_mm R (f_even R o) (f_even R p)) x' x).
  rewrite E1, E2, E3, E4 by assumption. unfold madd, mmul.
  split; f_equal; apply bsum_ext; intros y Hy; 
    destruct (E x' y X' Hy) as [P1 P2]; rewrite ?P1, ?P2; destruct (E' y x Hy X) as [Q1 Q2]; rewrite ?Q1, ?Q2; reflexivity.
Qed.
Lemma rep_plus : forall g o p a b c d, rep g o a b -> rep g p c d -> rep g (op_plus R o p) (madd a c) (madd b d).
Proof.
  intros g o p a b c d [[Wo We] E] [[Wo' We'] E'].
  destruct (sp_plus_el g _ _ Wo Wo') as [W5 E5]. destruct (sp_plus_el g _ _ We We') as [W6 E6].
  split; [split; assumption|]. intros x' x X' X. unfold op_plus. cbn [f_odd f_even].
  destruct (E x' x X' X) as [A B], (E' x' x X' X) as [C D]. unfold el in *. rewrite E5, E6. unfold madd. now rewrite A, B, C, D.
Qed.
Lemma rep_scale : forall g o a b c, rep g o a b -> rep g (op_scale R c o) (mscale c a) (mscale c b).
Proof.
  intros g o a b c [[Wo We] E]. destruct (sp_scale_el g c _ Wo) as [W1 E1]. destruct (sp_scale_el g c _ We) as [W2 E2].
  split; [split; assumption|]. intros x' x X' X. unfold op_scale. cbn [f_odd f_even].
  destruct (E x' x X' X) as [A B]. unfold el in *. rewrite E1, E2. unfold mscale. now rewrite A, B.
Qed.

(* --------------------------------------------------------- explicit operators *)
Definition raw := list ((Z * Z) * R).
Definition of_raw (g : Z) (t : raw) : spt R := map (fun e : (Z * Z) * R => ((state_lab g (fst (fst e)), state_lab g (snd (fst e))), snd e)) t.
Fixpoint raw_el (t : raw) (x' x : Z) : R :=
  match t with [] => 0' | ((a, b), v) :: t' => if (a =? x') && (b =? x) then v else raw_el t' x' x end.
Definition raw_ok (t : raw) : Prop := NoDup (map fst t) /\ forall a b v, In ((a, b), v) t -> In a st4 /\ In b st4.
Lemma raw_el_ok : forall g t, raw_ok t -> forall x' x, In x' st4 -> In x st4 -> el R g (of_raw g t) x' x = raw_el t x' x.
Proof.
  intros g t [_ K] x' x X' X. unfold el, at_lab, of_raw. induction t as [|[[a b] v] t IH]; [reflexivity|].
  cbn [map fst snd dget raw_el]. destruct (K a b v) as [A B]; [now left|]. unfold lab_eqb at 1. cbn [fst snd].
  rewrite !state_lab_eqb by assumption. destruct ((a =? x') && (b =? x)); [reflexivity|]. apply IH. intros; eapply K; right; eauto.
Qed.
Lemma raw_wf : forall g t, raw_ok t -> wf g (of_raw g t).
Proof.
  intros g t [N K]. split.
  - unfold keys, of_raw. rewrite map_map. cbn [fst]. rewrite <- (map_map (@fst (Z*Z) R) (fun k : Z * Z => (state_lab g (fst k), state_lab g (snd k))) t).
    assert (K' : forall k, In k (map fst t) -> In (fst k) st4 /\ In (snd k) st4).
    { intros k I. apply in_map_iff in I. destruct I as [[[a b] v] [<- I]]. exact (K a b v I). }
    clear K. revert N K'. generalize (map fst t) as l. induction l as [|k l IH]; intros N K'; [constructor|].
    inversion N; subst. cbn [map]. constructor; [|apply IH; [assumption|intros; apply K'; now right]].
    intros I. apply in_map_iff in I. destruct I as [k2 [E I]]. destruct (K' k (or_introl eq_refl)), (K' k2 (or_intror I)).
    assert (k2 = k); [|subst; contradiction]. apply (f_equal fst) in E as E1. apply (f_equal snd) in E as E2. cbn [fst snd] in E1, E2.
    apply state_lab_inj in E1, E2; try assumption. destruct k, k2. cbn in *. congruence.
  - intros q I. unfold keys, of_raw in I. rewrite map_map in I. apply in_map_iff in I. destruct I as [[[a b] v] [<- I]].
    destruct (K a b v I). cbn [fst snd]. split; unfold labs; now apply in_map.
Qed.
Lemma rep_raw : forall g to te, raw_ok to -> raw_ok te -> rep g (mkF R (of_raw g to) (of_raw g te)) (raw_el to) (raw_el te).
Proof.
  intros g to te A B. split; [split; now apply raw_wf|]. intros x' x X' X. cbn [f_odd f_even]. now rewrite !raw_el_ok.
Qed.

Lemma filter_true : forall A (f : A -> bool) x l, f x = true -> filter f (x :: l) = x :: filter f l.
Proof. intros A f x l H. cbn. now rewrite H. Qed.
Lemma filter_false : forall A (f : A -> bool) x l, f x = false -> filter f (x :: l) = filter f l.
Proof. intros A f x l H. cbn. now rewrite H. Qed.
Ltac solve_pred := unfold sz_eqb, sz_sub, sz_neg, state_lab; cbn [fst snd sz_n sz_twos sz_pg Z.eqb Pos.eqb];
   rewrite ?Z.lxor_0_r, ?Z.lxor_0_l, ?Z.lxor_nilpotent, ?Z.eqb_refl; reflexivity.
Ltac solve_zero := unfold sp_zero, of_raw; cbn [site_basis list_prod map app];
   repeat first [rewrite filter_false by solve_pred | rewrite filter_true by solve_pred]; cbn [filter map]; reflexivity.

Lemma zero_0 : forall g, sp_zero R g (mkSZ 0 0 0) = of_raw g [((0, 0), 0'); ((2, 2), 0'); ((1, 1), 0'); ((3, 3), 0')].
Proof. intros g. solve_zero. Qed.
Lemma zero_c0 : forall g, sp_zero R g (mkSZ 1 1 g) = of_raw g [((1, 0), 0'); ((3, 2), 0')].
Proof. intros g. solve_zero. Qed.
Lemma zero_c1 : forall g, sp_zero R g (mkSZ 1 (-1) g) = of_raw g [((2, 0), 0'); ((3, 1), 0')].
Proof. intros g. solve_zero. Qed.
Lemma zero_d0 : forall g, sp_zero R g (mkSZ (-1) (-1) g) = of_raw g [((0, 1), 0'); ((2, 3), 0')].
Proof. intros g. solve_zero. Qed.
Lemma zero_d1 : forall g, sp_zero R g (mkSZ (-1) 1 g) = of_raw g [((0, 2), 0'); ((1, 3), 0')].
Proof. intros g. solve_zero. Qed.

Fixpoint raw_set (t : raw) (x : Z) (v : R) : option raw :=
  match t with
  | [] => None
  | ((a, b), w) :: t' => if b =? x then Some (((a, b), v) :: t') else do t'' <- raw_set t' x v; Some (((a, b), w) :: t'')
  end.
Lemma set_raw : forall g t x v, raw_ok t -> In x st4 ->
  set_at R (of_raw g t) (state_lab g x) v = do t' <- raw_set t x v; Some (of_raw g t').
Proof.
  intros g t x v [_ K] X. unfold of_raw. induction t as [|[[a b] w] t IH]; [reflexivity|]. cbn [map set_at raw_set fst snd].
  destruct (K a b w) as [A B]; [now left|]. rewrite state_lab_eqb by assumption. destruct (b =? x); [reflexivity|].
  rewrite IH by (intros; eapply K; right; eauto). destruct (raw_set t x v); reflexivity.
Qed.
Ltac raw_tac := split; [repeat constructor; cbn; intuition discriminate|]; intros ? ? ? I; cbn in I;
   repeat (destruct I as [I|I]; [injection I as <- <- _; cbn; tauto|]); destruct I.

Lemma i_eq : forall g, i_operator R g = Some (mkF R (of_raw g []) (of_raw g [((0, 0), 1'); ((2, 2), 1'); ((1, 1), 1'); ((3, 3), 1')])).
Proof.
  intros g. unfold i_operator, op_zeros. change (sz_is_fermion (mkSZ 0 0 0)) with false. cbv iota. rewrite zero_0.
  unfold set_even. cbn [f_even f_odd].
  change (mkSZ 0 0 0) with (state_lab g 0). change (mkSZ 1 (-1) g) with (state_lab g 2). change (mkSZ 1 1 g) with (state_lab g 1).
  change (mkSZ 2 0 0) with (state_lab g 3).
  repeat (rewrite set_raw; [cbn [raw_set Z.eqb Pos.eqb bind f_even f_odd]|raw_tac|cbn; tauto]). reflexivity.
Qed.
Lemma h_eq : forall half g t0 t1 v01 v10, h_operator R half g t0 t1 v01 v10 = Some (mkF R (of_raw g [])
  (of_raw g [((0, 0), 0'); ((2, 2), t1); ((1, 1), t0); ((3, 3), t0 +' t1 +' half *' (v01 +' v10))])).
Proof.
  intros half g t0 t1 v01 v10. unfold h_operator, op_zeros. change (sz_is_fermion (mkSZ 0 0 0)) with false. cbv iota. rewrite zero_0.
  unfold set_even. cbn [f_even f_odd].
  change (mkSZ 0 0 0) with (state_lab g 0). change (mkSZ 1 (-1) g) with (state_lab g 2). change (mkSZ 1 1 g) with (state_lab g 1).
  change (mkSZ 2 0 0) with (state_lab g 3).
  repeat (rewrite set_raw; [cbn [raw_set Z.eqb Pos.eqb bind f_even f_odd]|raw_tac|cbn; tauto]). reflexivity.
Qed.
Definition c_raw (s : Z) : raw := if s =? 0 then [((1, 0), 1'); ((3, 2), 1')] else [((2, 0), 1'); ((3, 1), -' 1')].
Definition d_raw (s : Z) : raw := if s =? 0 then [((0, 1), 1'); ((2, 3), 1')] else [((0, 2), 1'); ((1, 3), -' 1')].
Lemma c_eq : forall g s, In s spins -> c_operator R g s = Some (mkF R (of_raw g (c_raw s)) (of_raw g [])).
Proof.
  intros g s [<-|[<-|[]]]; unfold c_operator, op_zeros, szs; cbn [Z.eqb Z.opp];
    [change (sz_is_fermion (mkSZ 1 1 g)) with true | change (sz_is_fermion (mkSZ 1 (-1) g)) with true]; cbv iota;
    rewrite ?zero_c0, ?zero_c1; unfold set_odd; cbn [f_even f_odd];
    change (mkSZ 0 0 0) with (state_lab g 0); [change (mkSZ 1 (-1) g) with (state_lab g 2)|change (mkSZ 1 1 g) with (state_lab g 1)];
    repeat (rewrite set_raw; [cbn [raw_set Z.eqb Pos.eqb bind f_even f_odd]|raw_tac|cbn; tauto]); reflexivity.
Qed.
Lemma d_eq : forall g s, In s spins -> d_operator R g s = Some (mkF R (of_raw g (d_raw s)) (of_raw g [])).
Proof.
  intros g s [<-|[<-|[]]]; unfold d_operator, op_zeros, szs; cbn [Z.eqb Z.opp];
    [change (sz_is_fermion (mkSZ (-1) (-1) g)) with true | change (sz_is_fermion (mkSZ (-1) 1 g)) with true]; cbv iota;
    rewrite ?zero_d0, ?zero_d1; unfold set_odd; cbn [f_even f_odd];
    change (mkSZ 2 0 0) with (state_lab g 3); [change (mkSZ 1 1 g) with (state_lab g 1)|change (mkSZ 1 (-1) g) with (state_lab g 2)];
    repeat (rewrite set_raw; [cbn [raw_set Z.eqb Pos.eqb bind f_even f_odd]|raw_tac|cbn; tauto]); reflexivity.
Qed.
Lemma c_raw_ok : forall s, In s spins -> raw_ok (c_raw s). Proof. intros s [<-|[<-|[]]]; raw_tac. Qed.
Lemma d_raw_ok : forall s, In s spins -> raw_ok (d_raw s). Proof. intros s [<-|[<-|[]]]; raw_tac. Qed.
Lemma nil_ok : raw_ok []. Proof. split; [constructor|intros ? ? ? []]. Qed.
Lemma c_rep : forall g s, In s spins -> exists o, c_operator R g s = Some o /\ rep g o (raw_el (c_raw s)) mzero.
Proof. intros g s H. rewrite c_eq by exact H. eexists. split; [reflexivity|]. apply (rep_raw g (c_raw s) []); [now apply c_raw_ok|exact nil_ok]. Qed.
Lemma d_rep : forall g s, In s spins -> exists o, d_operator R g s = Some o /\ rep g o (raw_el (d_raw s)) mzero.
Proof. intros g s H. rewrite d_eq by exact H. eexists. split; [reflexivity|]. apply (rep_raw g (d_raw s) []); [now apply d_raw_ok|exact nil_ok]. Qed.
End Ops.
