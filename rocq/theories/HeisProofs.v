(** Elements of the spin operators, and operators on chains of spins. *)
From Coq Require Import ZArith Reals Bool List Lia Lra Ring FunctionalExtensionality.
From Verif Require Import SymModel SymProofs DictLib OptLib IndexLib RingLib SiteModel SiteOps HeisModel.
Import ListNotations.
Open Scope Z_scope.

(** *** elements of a product of operator tensors *)
Section Prod.
Variable R : CRing.
Add Ring rrh : (rth R).
Notation "0'" := (r0 R). Infix "+'" := (radd R) (at level 50, left associativity). Infix "*'" := (rmul R) (at level 40, left associativity).
Lemma keys_acc1 : forall m k v, NoDup (keys m) -> NoDup (keys (acc1 R m k v)).
Proof. intros m k v N. unfold acc1. destruct (dget lab_eqb m k); now apply (nodup_dset lab_eqb lab_eqb_spec). Qed.
Lemma mm_inner : forall (x : (SZ * SZ) * R) b m,
  let f := fold_left (fun m (y : (SZ * SZ) * R) => if sz_eqb (snd (fst x)) (fst (fst y)) then acc1 R m (fst (fst x), snd (fst y)) (snd x *' snd y) else m) b m in
  forall q, at_lab R f q = at_lab R m q +' bsum b (fun y =>
    if sz_eqb (snd (fst x)) (fst (fst y)) && lab_eqb (fst (fst x), snd (fst y)) q then snd x *' snd y else 0').
Proof.
  intros x. induction b as [|y b IH]; intros m f q; unfold f; cbn [fold_left].
  - rewrite bsum_nil. ring.
  - rewrite bsum_cons. destruct (sz_eqb (snd (fst x)) (fst (fst y))) eqn:E.
    + rewrite IH, at_acc1. cbn [andb]. ring.
    + rewrite IH. cbn [andb]. ring.
Qed.
Lemma sp_mm_at : forall (B : list SZ) a b p q, NoDup B -> NoDup (keys a) -> NoDup (keys b) -> (forall k, In k (keys a) -> In (snd k) B) ->
  at_lab R (sp_mm R a b) (p, q) = bsum B (fun y => at_lab R a (p, y) *' at_lab R b (y, q)).
Proof.
  intros B a b p q NB Na Nb F.
  assert (K : forall l m, let f := fold_left (fun m (x : (SZ * SZ) * R) => fold_left (fun m (y : (SZ * SZ) * R) =>
        if sz_eqb (snd (fst x)) (fst (fst y)) then acc1 R m (fst (fst x), snd (fst y)) (snd x *' snd y) else m) b m) l m in
    at_lab R f (p, q) = at_lab R m (p, q) +' bsum l (fun x => bsum b (fun y =>
      if sz_eqb (snd (fst x)) (fst (fst y)) && lab_eqb (fst (fst x), snd (fst y)) (p, q) then snd x *' snd y else 0'))).
  { induction l as [|x l IH]; intros m f; unfold f; cbn [fold_left]; [rewrite bsum_nil; ring|]. rewrite IH, mm_inner, bsum_cons. ring. }
  etransitivity; [exact (K a [])|]. clear K. unfold at_lab at 1. cbn [dget].
  transitivity (bsum B (fun y => bsum a (fun e => bsum b (fun f => pick R (p, y) e *' pick R (y, q) f)))).
  2:{ apply bsum_ext. intros y _. rewrite (at_lab_bsum R a), (at_lab_bsum R b) by assumption. symmetry. apply bsum_prod. }
  rewrite (bsum_swap R _ _ B a). transitivity (bsum a (fun e => bsum b (fun f =>
      if sz_eqb (snd (fst e)) (fst (fst f)) && lab_eqb (fst (fst e), snd (fst f)) (p, q) then snd e *' snd f else 0'))); [ring|].
  apply bsum_ext. intros [[e1 e2] v] Ie. rewrite (bsum_swap R _ _ B b). apply bsum_ext. intros [[f1 f2] w] If. cbn [fst snd].
  assert (Le : In e2 B) by (apply (F (e1, e2)); change (e1, e2) with (fst ((e1, e2), v)); now apply in_map).
  rewrite (bsum_single R _ B _ e2 NB Le).
  - unfold pick, lab_eqb. cbn [fst snd]. destruct (sz_eqb_spec e2 e2); [|contradiction]. destruct (sz_eqb_spec e2 f1), (sz_eqb_spec f1 e2); try congruence;
      destruct (sz_eqb e1 p), (sz_eqb f2 q); cbn; ring.
  - intros y Hy Ny. unfold pick, lab_eqb. cbn [fst snd]. destruct (sz_eqb_spec e2 y); [congruence|]. rewrite andb_false_r. ring.
Qed.
End Prod.

(** *** filling in the blocks *)
Notation RR := R_ring.
Lemma sz_eqb_iff : forall a b, sz_eqb a b = true <-> a = b.
Proof. intros a b. symmetry. apply Bool.reflect_iff, sz_eqb_spec. Qed.
Lemma set_at_some : forall t q v, (exists p, In (p, q) (keys t)) -> exists t', set_at RR t q v = Some t' /\ keys t' = keys t.
Proof.
  induction t as [|[lab x] t IH]; intros q v (p & H); [destruct H|]. cbn [set_at]. destruct (sz_eqb_spec (snd lab) q) as [E|E].
  - eexists. split; [reflexivity|reflexivity].
  - destruct H as [H|H]; [cbn in H; subst lab; cbn in E; congruence|]. destruct (IH q v) as (t' & E1 & E2); [now exists p|]. rewrite E1. cbn [bind]. eexists. split; [reflexivity|]. unfold keys in *. cbn [map fst]. now rewrite E2.
Qed.
Lemma set_at_at : forall t q v t', NoDup (map snd (keys t)) -> set_at RR t q v = Some t' ->
  forall p c, at_lab RR t' (p, c) = if sz_eqb c q && (if dget lab_eqb t (p, c) then true else false) then v else at_lab RR t (p, c).
Proof.
  induction t as [|[[a b] x] t IH]; intros q v t' N E p c; [discriminate|]. cbn [keys map fst snd] in N. apply NoDup_cons_iff in N. destruct N as [N1 N2]. cbn [set_at snd] in E.
  destruct (sz_eqb_spec b q) as [Eb|Eb].
  - injection E as <-. subst b. unfold at_lab. cbn [dget]. destruct (lab_eqb_spec (a, q) (p, c)) as [El|El].
    + injection El as E1 E2. subst p c. now rewrite (proj2 (sz_eqb_iff q q) eq_refl).
    + destruct (dget lab_eqb t (p, c)) as [w|] eqn:D; [|now rewrite andb_false_r]. destruct (sz_eqb_spec c q) as [Ec|Ec]; [|reflexivity]. exfalso. apply N1.
      apply (dget_in lab_eqb lab_eqb_spec) in D. apply (in_map (fun e : (SZ * SZ) * R => snd (fst e))) in D. cbn in D. subst c. rewrite map_map. exact D.
  - destruct (set_at RR t q v) as [t''|] eqn:S1; [|discriminate]. cbn [bind] in E. injection E as <-. unfold at_lab. cbn [dget]. destruct (lab_eqb_spec (a, b) (p, c)) as [El|El].
    + injection El as E1 E2. subst p c. destruct (sz_eqb_spec b q); [contradiction|reflexivity].
    + exact (IH q v t'' N2 S1 p c).
Qed.
Definition value_of (vals : list (Z * R)) (c : Z) : option R := dget Z.eqb vals c.
Lemma dget_keys : forall (t t' : spt RR) k, keys t = keys t' -> (if dget lab_eqb t k then true else false) = (if dget lab_eqb t' k then true else false).
Proof.
  intros t t' k E. destruct (dget lab_eqb t k) as [v|] eqn:D, (dget lab_eqb t' k) as [v'|] eqn:D'; auto; exfalso.
  - apply (dget_in lab_eqb lab_eqb_spec) in D. assert (I : In k (keys t)) by exact (in_map fst t (k, v) D). rewrite E in I.
    assert (N : ~ In k (keys t')) by (apply (dget_none lab_eqb lab_eqb_spec); exact D'). contradiction.
  - apply (dget_in lab_eqb lab_eqb_spec) in D'. assert (I : In k (keys t')) by exact (in_map fst t' (k, v') D'). rewrite <- E in I.
    assert (N : ~ In k (keys t)) by (apply (dget_none lab_eqb lab_eqb_spec); exact D). contradiction.
Qed.
Lemma fill_at : forall vals t, NoDup (map snd (keys t)) -> NoDup (map fst vals) -> (forall e, In e vals -> exists p, In (p, mkSZ 0 (fst e) 0) (keys t)) ->
  exists t', hz_fill vals t = Some t' /\ keys t' = keys t /\
  forall p c, at_lab RR t' (p, mkSZ 0 c 0) = match value_of vals c with
                                 | Some v => if dget lab_eqb t (p, mkSZ 0 c 0) then v else 0%R
                                 | None => at_lab RR t (p, mkSZ 0 c 0) end.
Proof.
  induction vals as [|[c0 v0] vals IH]; intros t N Nv F.
  - exists t. split; [reflexivity|]. split; [reflexivity|]. reflexivity.
  - cbn [map fst] in Nv. apply NoDup_cons_iff in Nv. destruct Nv as [Nv1 Nv2]. destruct (set_at_some t (mkSZ 0 c0 0) v0) as (t1 & E1 & K1); [exact (F (c0, v0) (or_introl eq_refl))|].
    destruct (IH t1) as (t2 & E2 & K2 & A2).
    + now rewrite K1.
    + exact Nv2.
    + intros e He. rewrite K1. apply F. now right.
    + exists t2. split; [unfold hz_fill; cbn [foldM fst snd]; rewrite E1; exact E2|]. split; [now rewrite K2|]. intros p c. rewrite A2. unfold value_of. cbn [dget].
      pose proof (set_at_at t (mkSZ 0 c0 0) v0 t1 N E1 p (mkSZ 0 c 0)) as H1. pose proof (dget_keys t1 t (p, mkSZ 0 c 0) K1) as H2.
      destruct (Z.eqb_spec c0 c) as [Ec|Ec].
      * subst c0. assert (D : dget Z.eqb vals c = None) by (apply (dget_none Z.eqb Z.eqb_spec); exact Nv1). rewrite D, H1. destruct (sz_eqb_spec (mkSZ 0 c 0) (mkSZ 0 c 0)); [|contradiction]. cbn [andb].
        unfold at_lab. now destruct (dget lab_eqb t (p, mkSZ 0 c 0)).
      * destruct (dget Z.eqb vals c) as [w|].
        -- destruct (dget lab_eqb t1 (p, mkSZ 0 c 0)), (dget lab_eqb t (p, mkSZ 0 c 0)); try discriminate; reflexivity.
        -- rewrite H1. destruct (sz_eqb_spec (mkSZ 0 c 0) (mkSZ 0 c0 0)) as [X|X]; [injection X as X; congruence|reflexivity].
Qed.

(** *** the skeleton of an operator *)
Definition projection (tj m : Z) : Prop := exists k, 0 <= k <= tj /\ m = - tj + 2 * k.
Lemma in_range2 : forall a b x, In x (range2 a b) <-> exists k, 0 <= k < (b - a + 1) / 2 /\ x = a + 2 * k.
Proof. intros a b x. unfold range2. rewrite in_map_iff. split; intros (k & H1 & H2); exists k; [apply in_zrange in H2|rewrite in_zrange]; auto. Qed.
Lemma range2_nodup : forall a b, NoDup (range2 a b).
Proof. intros. unfold range2. apply FinFun.Injective_map_NoDup; [intros u v; lia|apply zrange_nodup]. Qed.
Lemma in_basis : forall tj m, 0 <= tj -> (In m (range2 (- tj) (tj + 1)) <-> projection tj m).
Proof.
  intros tj m H. rewrite in_range2. replace ((tj + 1 - - tj + 1) / 2) with (tj + 1) by (replace (tj + 1 - - tj + 1) with ((tj + 1) * 2) by lia; now rewrite Z.div_mul by lia).
  split; intros (k & H1 & H2); exists k; (split; [lia|exact H2]).
Qed.
Lemma basis_nodup : forall tj, NoDup (hz_basis tj).
Proof. intros. unfold hz_basis. apply FinFun.Injective_map_NoDup; [|apply range2_nodup]. intros u v E. now injection E. Qed.
Lemma list_prod_nodup : forall (A B : Type) (l : list A) (m : list B), NoDup l -> NoDup m -> NoDup (list_prod l m).
Proof.
  intros A B l m Hl Hm. induction Hl as [|x l Hx Hl IH]; [constructor|]. cbn [list_prod].
  assert (G : forall l1 l2 : list (A * B), NoDup l1 -> NoDup l2 -> (forall y, In y l1 -> In y l2 -> False) -> NoDup (l1 ++ l2)).
  { induction 1 as [|y l1 Hy _ IH1]; intros H2 D; [exact H2|]. cbn. constructor; [rewrite in_app_iff; intros [H|H]; [contradiction|apply (D y); [now left|exact H]]|]. apply IH1; [exact H2|]. intros z Hz1 Hz2. apply (D z); [now right|exact Hz2]. }
  apply G; [apply FinFun.Injective_map_NoDup; [intros u v E; now injection E|exact Hm]|exact IH|].
  intros [u v] H1 H2. apply in_map_iff in H1. destruct H1 as (w & E & _). injection E as E1 E2. subst u. apply in_prod_iff in H2. tauto.
Qed.
Lemma in_zeros : forall tj d p c, In (p, c) (keys (hz_zeros tj (mkSZ 0 d 0))) <-> In p (hz_basis tj) /\ In c (hz_basis tj) /\ p = mkSZ 0 (sz_twos c + d) 0.
Proof.
  intros tj d p c. unfold keys, hz_zeros. rewrite map_map. cbn [fst]. rewrite map_id, filter_In, in_prod_iff. cbn [fst snd].
  assert (G : In c (hz_basis tj) -> sz_sub (mkSZ 0 d 0) (sz_neg c) = mkSZ 0 (sz_twos c + d) 0).
  { intros H. apply in_map_iff in H. destruct H as (j & <- & _). unfold sz_sub, sz_neg. cbn. f_equal. lia. }
  split.
  - intros ((H1 & H2) & H3). rewrite G in H3 by exact H2. split; [exact H1|]. split; [exact H2|]. now apply sz_eqb_iff.
  - intros (H1 & H2 & H3). split; [now split|]. rewrite G by exact H2. subst p. now apply sz_eqb_iff.
Qed.
Lemma zeros_nodup : forall tj d, NoDup (keys (hz_zeros tj (mkSZ 0 d 0))).
Proof. intros. unfold keys, hz_zeros. rewrite map_map. cbn [fst]. rewrite map_id. apply NoDup_filter. apply list_prod_nodup; apply basis_nodup. Qed.
Lemma snd_nodup : forall (l : list (SZ * SZ)) (f : SZ -> SZ), NoDup l -> (forall p c, In (p, c) l -> p = f c) -> NoDup (map snd l).
Proof.
  intros l f N H. induction N as [|[p c] l Hx N IH]; [constructor|]. cbn [map snd]. constructor.
  - intros F. apply in_map_iff in F. destruct F as ([p' c'] & E & I). cbn in E. subst c'. rewrite (H p c (or_introl eq_refl)) in Hx. rewrite (H p' c (or_intror I)) in I. contradiction.
  - apply IH. intros. apply H. now right.
Qed.
Lemma value_of_map : forall (f : Z -> R) l c, value_of (map (fun tm => (tm, f tm)) l) c = if existsb (Z.eqb c) l then Some (f c) else None.
Proof.
  intros f l c. unfold value_of. induction l as [|x l IH]; [reflexivity|]. cbn [map dget existsb]. rewrite IH, (Z.eqb_sym c x). destruct (Z.eqb_spec x c) as [->|]; reflexivity.
Qed.
Lemma zeros_at : forall tj d q, at_lab RR (hz_zeros tj (mkSZ 0 d 0)) q = 0%R.
Proof.
  intros. unfold at_lab. destruct (dget lab_eqb (hz_zeros tj (mkSZ 0 d 0)) q) as [v|] eqn:E; [|reflexivity]. apply (dget_in lab_eqb lab_eqb_spec) in E. unfold hz_zeros in E. apply in_map_iff in E.
  destruct E as (? & E & _). injection E as _ <-. reflexivity.
Qed.
Lemma fill_elements : forall tj d l f, 0 <= tj -> NoDup l -> (forall m, In m l -> projection tj m /\ projection tj (m + d)) ->
  exists t, hz_fill (map (fun tm => (tm, f tm)) l) (hz_zeros tj (mkSZ 0 d 0)) = Some t /\ keys t = keys (hz_zeros tj (mkSZ 0 d 0)) /\
  forall m' m, projection tj m' -> projection tj m -> at_lab RR t (mkSZ 0 m' 0, mkSZ 0 m 0) = if (m' =? m + d) && existsb (Z.eqb m) l then f m else 0%R.
Proof.
  intros tj d l f Ht Nl Hl.
  assert (Pb : forall m, projection tj m -> In (mkSZ 0 m 0) (hz_basis tj)) by (intros m H; apply (in_map (fun j => mkSZ 0 j 0)); now apply in_basis).
  destruct (fill_at (map (fun tm => (tm, f tm)) l) (hz_zeros tj (mkSZ 0 d 0))) as (t & E & K & A).
  - apply (snd_nodup _ (fun c => mkSZ 0 (sz_twos c + d) 0)); [apply zeros_nodup|]. intros p c H. now apply in_zeros in H.
  - rewrite map_map. cbn [fst]. now rewrite map_id.
  - intros e He. apply in_map_iff in He. destruct He as (m & <- & Hm). cbn [fst]. exists (mkSZ 0 (m + d) 0). apply in_zeros. destruct (Hl m Hm). split; [now apply Pb|]. split; [now apply Pb|]. reflexivity.
  - exists t. split; [exact E|]. split; [exact K|]. intros m' m H' H. rewrite A, value_of_map.
    destruct (existsb (Z.eqb m) l) eqn:X; [|rewrite andb_false_r; apply zeros_at]. rewrite andb_true_r.
    destruct (dget lab_eqb (hz_zeros tj (mkSZ 0 d 0)) (mkSZ 0 m' 0, mkSZ 0 m 0)) as [v|] eqn:D.
    + apply (dget_in lab_eqb lab_eqb_spec) in D. apply (in_map fst) in D. apply in_zeros in D. destruct D as (_ & _ & D). injection D as D. now rewrite D, Z.eqb_refl.
    + destruct (Z.eqb_spec m' (m + d)) as [->|]; [|reflexivity]. exfalso. assert (N : ~ In (mkSZ 0 (m + d) 0, mkSZ 0 m 0) (keys (hz_zeros tj (mkSZ 0 d 0)))) by (apply (dget_none lab_eqb lab_eqb_spec); exact D).
      apply N. apply in_zeros. split; [now apply Pb|]. split; [now apply Pb|]. reflexivity.
Qed.
Lemma mem_eqb : forall l m, existsb (Z.eqb m) l = true <-> In m l.
Proof. intros l m. rewrite existsb_exists. split; [intros (x & H & E); apply Z.eqb_eq in E; now subst|intros H; exists m; split; [exact H|apply Z.eqb_refl]]. Qed.
Lemma in_up : forall tj m, 0 <= tj -> (In m (range2 (- tj) (tj - 1)) <-> projection tj m /\ projection tj (m + 2)).
Proof.
  intros tj m H. rewrite in_range2. replace ((tj - 1 - - tj + 1) / 2) with tj by (replace (tj - 1 - - tj + 1) with (tj * 2) by lia; now rewrite Z.div_mul by lia).
  split.
  - intros (k & H1 & H2). split; [exists k; lia|exists (k + 1); lia].
  - intros ((k & H1 & H2) & (k' & H3 & H4)). exists k. lia.
Qed.
Lemma in_down : forall tj m, 0 <= tj -> (In m (range2 (- tj + 2) (tj + 1)) <-> projection tj m /\ projection tj (m + -2)).
Proof.
  intros tj m H. rewrite in_range2. replace ((tj + 1 - (- tj + 2) + 1) / 2) with tj by (replace (tj + 1 - (- tj + 2) + 1) with (tj * 2) by lia; now rewrite Z.div_mul by lia).
  split.
  - intros (k & H1 & H2). split; [exists (k + 1); lia|exists k; lia].
  - intros ((k & H1 & H2) & (k' & H3 & H4)). exists (k - 1). lia.
Qed.

(** *** operators on a chain of spins *)
Open Scope R_scope.
Definition amp := list Z -> list Z -> R.
Definition sum {X} (l : list X) (f : X -> R) : R := @bsum RR X l f.
Section Chain.
Variable B : list Z.
Hypothesis NB : NoDup B.
Fixpoint configs (n : nat) : list (list Z) := match n with O => [[]] | S n' => flat_map (fun x => map (cons x) (configs n')) B end.
Definition cut (M : Z -> Z -> R) : Z -> Z -> R := fun x' x => if existsb (Z.eqb x') B && existsb (Z.eqb x) B then M x' x else 0.
Definition delta : Z -> Z -> R := fun x' x => if Z.eqb x' x then 1 else 0.
Definition kron (M : Z -> Z -> R) (E : amp) : amp := fun s' s => match s', s with x' :: t', x :: t => M x' x * E t' t | _, _ => 0 end.
Fixpoint one (n : nat) : amp := match n with O => fun s' s => match s', s with [], [] => 1 | _, _ => 0 end | S n' => kron (cut delta) (one n') end.
Fixpoint emb (n i : nat) (M : Z -> Z -> R) : amp :=
  match n with
  | O => fun _ _ => 0
  | S n' => match i with O => kron (cut M) (one n') | S i' => kron (cut delta) (emb n' i' M) end
  end.
Definition mul (n : nat) (a b : amp) : amp := fun s' s => sum (configs n) (fun u => a s' u * b u s).
Definition mul1 (M N : Z -> Z -> R) : Z -> Z -> R := fun x' x => sum B (fun y => M x' y * N y x).
Definition add (a b : amp) : amp := fun s' s => a s' s + b s' s.
Definition scale (c : R) (a : amp) : amp := fun s' s => c * a s' s.
Definition zero : amp := fun _ _ => 0.

Lemma sum_ext : forall X (l : list X) f g, (forall x, In x l -> f x = g x) -> sum l f = sum l g.
Proof. intros. now apply (bsum_ext RR). Qed.
Lemma sum_cons : forall X (x : X) l f, sum (x :: l) f = f x + sum l f. Proof. reflexivity. Qed.
Lemma sum_add : forall X (l : list X) (f g : X -> R), sum l (fun x => f x + g x) = sum l f + sum l g.
Proof. intros. apply (bsum_add RR). Qed.
Lemma sum_mull : forall X (l : list X) (f : X -> R) c, sum l (fun x => c * f x) = c * sum l f.
Proof. intros. apply (bsum_mull RR). Qed.
Lemma sum_mulr : forall X (l : list X) (f : X -> R) c, sum l (fun x => f x * c) = sum l f * c.
Proof. intros. apply (bsum_mulr RR). Qed.
Lemma sum_swap : forall X Y (l : list X) (m : list Y) f, sum l (fun x => sum m (fun y => f x y)) = sum m (fun y => sum l (fun x => f x y)).
Proof. intros. apply (bsum_swap RR). Qed.
Lemma sum_zero : forall X (l : list X) f, (forall x, In x l -> f x = 0) -> sum l f = 0.
Proof. intros. now apply (bsum_zero RR). Qed.

Lemma sum_map : forall X Y (h : X -> Y) l (f : Y -> R), sum (map h l) f = sum l (fun x => f (h x)).
Proof. intros. apply (bsum_map RR). Qed.
Lemma sum_flat_map : forall X Y (h : X -> list Y) l (f : Y -> R), sum (flat_map h l) f = sum l (fun x => sum (h x) f).
Proof. intros. apply (bsum_flat_map RR). Qed.
Lemma sum_single : forall (l : list Z) (f : Z -> R) x, NoDup l -> In x l -> (forall y, In y l -> y <> x -> f y = 0) -> sum l f = f x.
Proof. intros l f x N I H. exact (bsum_single RR _ l f x N I H). Qed.

Lemma mul_assoc : forall n a b c, mul n (mul n a b) c = mul n a (mul n b c).
Proof.
  intros. extensionality s'. extensionality s. unfold mul.
  transitivity (sum (configs n) (fun u => sum (configs n) (fun v => a s' v * b v u * c u s))); [apply sum_ext; intros; symmetry; apply sum_mulr|].
  rewrite sum_swap. apply sum_ext. intros v _. rewrite <- sum_mull. apply sum_ext. intros. ring.
Qed.
Lemma mul_add_l : forall n a b c, mul n (add a b) c = add (mul n a c) (mul n b c).
Proof. intros. extensionality s'. extensionality s. unfold mul, add. rewrite <- sum_add. apply sum_ext. intros. ring. Qed.
Lemma mul_add_r : forall n a b c, mul n a (add b c) = add (mul n a b) (mul n a c).
Proof. intros. extensionality s'. extensionality s. unfold mul, add. rewrite <- sum_add. apply sum_ext. intros. ring. Qed.
Lemma mul_scale_l : forall n x a b, mul n (scale x a) b = scale x (mul n a b).
Proof. intros. extensionality s'. extensionality s. unfold mul, scale. rewrite <- sum_mull. apply sum_ext. intros. ring. Qed.
Lemma mul_scale_r : forall n x a b, mul n a (scale x b) = scale x (mul n a b).
Proof. intros. extensionality s'. extensionality s. unfold mul, scale. rewrite <- sum_mull. apply sum_ext. intros. ring. Qed.
Lemma mul_zero_l : forall n a, mul n zero a = zero.
Proof. intros. extensionality s'. extensionality s. unfold mul, zero. apply sum_zero. intros. ring. Qed.
Lemma mul_zero_r : forall n a, mul n a zero = zero.
Proof. intros. extensionality s'. extensionality s. unfold mul, zero. apply sum_zero. intros. ring. Qed.

Lemma kron_mul : forall n M N a b, mul (S n) (kron M a) (kron N b) = kron (mul1 M N) (mul n a b).
Proof.
  intros. extensionality s'. extensionality s. unfold mul at 1. cbn [configs].
  destruct s' as [|x' t']; [apply sum_zero; intros; cbn; ring|]. destruct s as [|x t]; [apply sum_zero; intros u _; destruct u; cbn; ring|].
  cbn [kron]. rewrite sum_flat_map. unfold mul1, mul. rewrite <- sum_mulr. apply sum_ext. intros y _. rewrite sum_map.
  rewrite <- sum_mull. apply sum_ext. intros u _. cbn [kron]. ring.
Qed.
Lemma mem_true : forall x, In x B -> existsb (Z.eqb x) B = true. Proof. intros. now apply mem_eqb. Qed.
Lemma cut_mul : forall M N, mul1 (cut M) (cut N) = cut (mul1 M N).
Proof.
  intros. extensionality x'. extensionality x. unfold mul1, cut. destruct (existsb (Z.eqb x') B), (existsb (Z.eqb x) B); cbn [andb];
    try (apply sum_zero; intros; rewrite ?andb_false_r; cbn [andb]; ring). apply sum_ext. intros y Hy. now rewrite mem_true.
Qed.
Lemma delta_l : forall M, mul1 (cut delta) (cut M) = cut M.
Proof.
  intros. rewrite cut_mul. extensionality x'. extensionality x. unfold cut, mul1. destruct (existsb (Z.eqb x') B) eqn:E; [|reflexivity]. cbn [andb]. destruct (existsb (Z.eqb x) B); [|reflexivity].
  apply mem_eqb in E. rewrite (sum_single B _ x' NB E).
  - cbn. unfold delta. rewrite Z.eqb_refl. ring.
  - intros y _ N. cbn. unfold delta. destruct (Z.eqb_spec x' y); [congruence|ring].
Qed.
Lemma delta_r : forall M, mul1 (cut M) (cut delta) = cut M.
Proof.
  intros. rewrite cut_mul. extensionality x'. extensionality x. unfold cut, mul1. destruct (existsb (Z.eqb x') B); [|reflexivity]. cbn [andb]. destruct (existsb (Z.eqb x) B) eqn:E; [|reflexivity].
  apply mem_eqb in E. rewrite (sum_single B _ x NB E).
  - cbn. unfold delta. rewrite Z.eqb_refl. ring.
  - intros y _ N. cbn. unfold delta. destruct (Z.eqb_spec y x); [congruence|ring].
Qed.
Lemma one_one : forall n, mul n (one n) (one n) = one n.
Proof.
  induction n as [|n IH].
  - extensionality s'. extensionality s. unfold mul. cbn [configs]. rewrite sum_cons. cbn. destruct s', s; cbn; ring.
  - cbn [one]. now rewrite kron_mul, IH, delta_l.
Qed.
Lemma one_emb : forall n i M, mul n (one n) (emb n i M) = emb n i M.
Proof.
  induction n as [|n IH]; intros i M; [apply mul_zero_r|]. destruct i as [|i]; cbn [one emb]; rewrite kron_mul.
  - now rewrite one_one, delta_l.
  - now rewrite IH, delta_l.
Qed.
Lemma emb_one : forall n i M, mul n (emb n i M) (one n) = emb n i M.
Proof.
  induction n as [|n IH]; intros i M; [apply mul_zero_l|]. destruct i as [|i]; cbn [one emb]; rewrite kron_mul.
  - now rewrite one_one, delta_r.
  - now rewrite IH, delta_l.
Qed.
Lemma emb_same : forall n i M N, mul n (emb n i M) (emb n i N) = emb n i (mul1 M N).
Proof.
  induction n as [|n IH]; intros i M N; [apply mul_zero_r|]. destruct i as [|i]; cbn [emb]; rewrite kron_mul.
  - now rewrite one_one, cut_mul.
  - now rewrite IH, delta_l.
Qed.
Lemma emb_comm : forall n i j M N, i <> j -> mul n (emb n i M) (emb n j N) = mul n (emb n j N) (emb n i M).
Proof.
  induction n as [|n IH]; intros i j M N H; [reflexivity|]. destruct i as [|i], j as [|j]; try congruence; cbn [emb]; rewrite !kron_mul.
  - now rewrite one_emb, emb_one, delta_l, delta_r.
  - now rewrite one_emb, emb_one, delta_l, delta_r.
  - rewrite (IH i j M N) by congruence. reflexivity.
Qed.
Lemma cut_ext : forall M N, (forall x' x, In x' B -> In x B -> M x' x = N x' x) -> cut M = cut N.
Proof.
  intros M N H. extensionality x'. extensionality x. unfold cut. destruct (existsb (Z.eqb x') B) eqn:E1; [|reflexivity]. destruct (existsb (Z.eqb x) B) eqn:E2; [|reflexivity].
  apply H; now apply mem_eqb.
Qed.
Lemma emb_ext : forall n i M N, (forall x' x, In x' B -> In x B -> M x' x = N x' x) -> emb n i M = emb n i N.
Proof. induction n as [|n IH]; intros i M N H; [reflexivity|]. destruct i as [|i]; cbn [emb]; [now rewrite (cut_ext M N H)|now rewrite (IH i M N H)]. Qed.
Lemma kron_lin : forall a b M N E s' s, kron (fun x' x => a * M x' x + b * N x' x) E s' s = a * kron M E s' s + b * kron N E s' s.
Proof. intros. destruct s', s; cbn; ring. Qed.
Lemma emb_lin : forall n i a b M N s' s, emb n i (fun x' x => a * M x' x + b * N x' x) s' s = a * emb n i M s' s + b * emb n i N s' s.
Proof.
  induction n as [|n IH]; intros i a b M N s' s; [cbn; ring|]. destruct i as [|i]; cbn [emb].
  - rewrite <- kron_lin. f_equal. extensionality x'. extensionality x. unfold cut. destruct (existsb _ B && existsb _ B); ring.
  - destruct s' as [|x' t']; [cbn; ring|]. destruct s as [|x t]; [cbn; ring|]. cbn [kron]. rewrite IH. ring.
Qed.

(* commutators *)
Definition comm (n : nat) (t a : amp) : amp := add (mul n t a) (scale (-1) (mul n a t)).
Lemma comm_mul : forall n t a b, comm n t (mul n a b) = add (mul n (comm n t a) b) (mul n a (comm n t b)).
Proof.
  intros. unfold comm. rewrite mul_add_l, mul_add_r, mul_scale_l, mul_scale_r, !mul_assoc. extensionality s'. extensionality s. unfold add, scale. ring.
Qed.
Lemma comm_lin_r : forall n t a b x y, comm n t (add (scale x a) (scale y b)) = add (scale x (comm n t a)) (scale y (comm n t b)).
Proof.
  intros. unfold comm. rewrite mul_add_r, mul_add_l, !mul_scale_l, !mul_scale_r. extensionality s'. extensionality s. unfold add, scale. ring.
Qed.
Lemma comm_add_l : forall n t t' a, comm n (add t t') a = add (comm n t a) (comm n t' a).
Proof. intros. unfold comm. rewrite mul_add_r, mul_add_l. extensionality s'. extensionality s. unfold add, scale. ring. Qed.
Lemma comm_zero_l : forall n a, comm n zero a = zero.
Proof. intros. unfold comm. rewrite mul_zero_l, mul_zero_r. extensionality s'. extensionality s. unfold add, scale, zero. ring. Qed.
Lemma comm_emb : forall n i j M N, comm n (emb n i M) (emb n j N) = if Nat.eqb i j then emb n j (fun x' x => 1 * mul1 M N x' x + (-1) * mul1 N M x' x) else zero.
Proof.
  intros. unfold comm. destruct (Nat.eqb_spec i j) as [->|Ne].
  - rewrite !emb_same. extensionality s'. extensionality s. rewrite emb_lin. unfold add, scale. ring.
  - rewrite (emb_comm n i j M N Ne). extensionality s'. extensionality s. unfold add, scale, zero. ring.
Qed.
(* the total of a one-site operator over sites 0 .. k-1 *)
Fixpoint total (n k : nat) (M : Z -> Z -> R) : amp := match k with O => zero | S k' => add (total n k' M) (emb n k' M) end.
Lemma comm_total : forall n k j M N, comm n (total n k M) (emb n j N) = if Nat.ltb j k then emb n j (fun x' x => 1 * mul1 M N x' x + (-1) * mul1 N M x' x) else zero.
Proof.
  induction k as [|k IH]; intros j M N; [apply comm_zero_l|]. cbn [total]. rewrite comm_add_l, IH, comm_emb. extensionality s'. extensionality s. unfold add.
  destruct (Nat.ltb_spec j k), (Nat.ltb_spec j (S k)), (Nat.eqb_spec k j); try lia; unfold zero; ring.
Qed.
End Chain.
