(** Site operators as tensors: their labels are states of the site, no block occurs twice, the odd part changes the parity. *)
From Coq Require Import ZArith Bool List Lia Ring FinFun.
From Verif Require Import SymModel SymProofs DictLib IndexLib OptLib RingLib FuseModel FuseProofs BlockProofs MpsModel SiteModel SiteProofs TosModel FullModel.
Import ListNotations.
Open Scope Z_scope.

Section Ops.
Variable R : CRing.
Add Ring Rr : (rth R).
Notation spt := (spt R). Notation fop := (fop R).
Notation fer := sz_is_fermion.
Definition okt (g : Z) (odd : bool) (t : spt) : Prop :=
  NoDup (keys t) /\ forall k, In k (keys t) -> In (fst k) (site_basis g) /\ In (snd k) (site_basis g) /\ xorb (fer (fst k)) (fer (snd k)) = odd.
Definition fpart (x : fop) (odd : bool) : spt := if odd then f_odd R x else f_even R x.
Definition okf (g : Z) (x : fop) : Prop := forall odd, okt g odd (fpart x odd).
Definition only (x : fop) (odd : bool) : Prop := fpart x (negb odd) = [].

Lemma lab_spec : forall a b, reflect (a = b) (lab_eqb a b).
Proof. intros [a b] [c d]. unfold lab_eqb. cbn [fst snd]. destruct (sz_eqb_spec a c), (sz_eqb_spec b d); cbn; constructor; congruence. Qed.
Lemma okt_nil : forall g odd, okt g odd [].
Proof. intros. split; [constructor|intros k []]. Qed.
Lemma okt_dset : forall g odd (t : spt) k v, okt g odd t -> In (fst k) (site_basis g) -> In (snd k) (site_basis g) -> xorb (fer (fst k)) (fer (snd k)) = odd -> okt g odd (dset lab_eqb t k v).
Proof.
  intros g odd t k v [N H] A B C. split; [now apply (nodup_dset _ lab_spec)|]. intros x I. apply (keys_dset_in _ lab_spec) in I. destruct I as [I| ->]; auto.
Qed.
Lemma okt_fold : forall (A : Type) (f : spt -> A -> spt) (P : spt -> Prop) l t, P t -> (forall t x, In x l -> P t -> P (f t x)) -> P (fold_left f l t).
Proof. intros A f P. induction l as [|x l IH]; intros t Pt H; cbn [fold_left]; [exact Pt|]. apply IH; [apply H; [now left|exact Pt]|]. intros t' y I. apply H. now right. Qed.
Lemma in_keys : forall (t : spt) x, In x t -> In (fst x) (keys t).
Proof. intros t x I. now apply in_map. Qed.
Lemma okt_mm : forall g oa ob a b, okt g oa a -> okt g ob b -> okt g (xorb oa ob) (sp_mm R a b).
Proof.
  intros g oa ob a b [_ Ha] [_ Hb]. unfold sp_mm. apply (okt_fold _ _ (okt g (xorb oa ob))); [apply okt_nil|]. intros t x Ix Ht. apply (okt_fold _ _ (okt g (xorb oa ob))); [exact Ht|]. intros t' y Iy Ht'.
  destruct (sz_eqb_spec (snd (fst x)) (fst (fst y))) as [E|N]; [|exact Ht']. apply in_keys in Ix, Iy. destruct (Ha _ Ix) as [A1 [A2 A3]], (Hb _ Iy) as [B1 [B2 B3]].
  assert (X : xorb (fer (fst (fst x))) (fer (snd (fst y))) = xorb oa ob). { rewrite <- A3, <- B3, E. rewrite xorb_assoc. f_equal. rewrite <- xorb_assoc, xorb_nilpotent. now rewrite xorb_false_l. }
  destruct (dget lab_eqb t' _); apply okt_dset; auto.
Qed.
Lemma okt_of : forall g odd t, okt g odd t -> dict_of lab_eqb t = t.
Proof. intros g odd t [N _]. now apply (dict_of_nodup _ lab_spec). Qed.
Lemma okt_plus : forall g odd a b, okt g odd a -> okt g odd b -> okt g odd (sp_plus R a b).
Proof.
  intros g odd a b Ha [_ Hb]. unfold sp_plus. rewrite (okt_of g odd) by exact Ha. apply (okt_fold _ _ (okt g odd)); [exact Ha|]. intros t y Iy Ht. apply in_keys in Iy. destruct (Hb _ Iy) as [B1 [B2 B3]].
  destruct (dget lab_eqb t (fst y)); apply okt_dset; auto.
Qed.
Lemma okt_scale : forall g odd x a, okt g odd a -> okt g odd (sp_scale R x a).
Proof. intros g odd x a [N H]. assert (E : keys (sp_scale R x a) = keys a) by (unfold sp_scale, keys; rewrite map_map; reflexivity). split; rewrite E; assumption. Qed.
Lemma okf_mm : forall g a b, okf g a -> okf g b -> okf g (op_mm R a b).
Proof. intros g a b A B []; unfold op_mm; cbn [fpart f_odd f_even]; apply okt_plus; (apply (okt_mm g true true); [apply (A true)|apply (B true)]) || (apply (okt_mm g true false); [apply (A true)|apply (B false)]) || (apply (okt_mm g false true); [apply (A false)|apply (B true)]) || (apply (okt_mm g false false); [apply (A false)|apply (B false)]). Qed.
Lemma okf_plus : forall g a b, okf g a -> okf g b -> okf g (op_plus R a b).
Proof. intros g a b A B []; cbn [fpart op_plus f_odd f_even]; apply okt_plus; first [apply (A true)|apply (A false)|apply (B true)|apply (B false)]. Qed.
Lemma okf_scale : forall g x a, okf g a -> okf g (op_scale R x a).
Proof. intros g x a A []; cbn [fpart op_scale f_odd f_even]; apply okt_scale; first [apply (A true)|apply (A false)]. Qed.
Lemma set_at_keys : forall t q v t', set_at R t q v = Some t' -> keys t' = keys t.
Proof.
  induction t as [|[lab x] t IH]; intros q v t' E; cbn [set_at] in E; [discriminate|]. destruct (sz_eqb (snd lab) q); [injection E as <-; reflexivity|].
  destruct (set_at R t q v) as [t''|] eqn:F; cbn [bind] in E; [|discriminate]. injection E as <-. cbn. f_equal. eauto.
Qed.
Lemma okt_keys : forall g odd (t t' : spt), keys t' = keys t -> okt g odd t -> okt g odd t'.
Proof. intros g odd t t' E [N H]. split; rewrite E; assumption. Qed.
Lemma set_odd_ok : forall g q v a b, okf g a -> set_odd R q v a = Some b -> okf g b.
Proof.
  intros g q v a b A E. unfold set_odd in E. destruct (set_at R (f_odd R a) q v) as [t|] eqn:F; cbn [bind] in E; [|discriminate]. injection E as <-. apply set_at_keys in F. intros []; cbn [fpart f_odd f_even]; [|apply (A false)]. eapply okt_keys; [exact F|apply (A true)].
Qed.
Lemma set_even_ok : forall g q v a b, okf g a -> set_even R q v a = Some b -> okf g b.
Proof.
  intros g q v a b A E. unfold set_even in E. destruct (set_at R (f_even R a) q v) as [t|] eqn:F; cbn [bind] in E; [|discriminate]. injection E as <-. apply set_at_keys in F. intros []; cbn [fpart f_odd f_even]; [apply (A true)|]. eapply okt_keys; [exact F|apply (A false)].
Qed.
Lemma basis_nodup : forall g, NoDup (site_basis g).
Proof. intros g. unfold site_basis. repeat constructor; cbn; intros H; repeat (destruct H as [H|H]; [discriminate|]); exact H. Qed.
Lemma prod_nodup : forall (A B : Type) (l : list A) (k : list B), NoDup l -> NoDup k -> NoDup (list_prod l k).
Proof.
  intros A B l k Hl Hk. induction Hl as [|x l N Hl IH]; [constructor|]. cbn [list_prod].
  assert (F : NoDup (map (fun y => (x, y)) k)) by (apply FinFun.Injective_map_NoDup; [intros a b E; congruence|exact Hk]).
  assert (D : forall p, In p (map (fun y => (x, y)) k) -> ~ In p (list_prod l k)). { intros p I J. apply in_map_iff in I. destruct I as [y [<- _]]. apply in_prod_iff in J. tauto. }
  revert D F. generalize (map (fun y => (x, y)) k). intros m D F. induction F as [|p m Np F IHG]; [exact IH|]. cbn. constructor; [|apply IHG; intros q I; apply D; now right].
  intros I. apply in_app_or in I. destruct I as [I|I]; [contradiction|]. apply (D p); [now left|exact I].
Qed.
Lemma okt_zero : forall g dq, okt g (fer dq) (sp_zero R g dq).
Proof.
  intros g dq. unfold sp_zero, okt, keys. rewrite map_map. cbn [fst]. rewrite map_id. split; [apply NoDup_filter, prod_nodup; apply basis_nodup|].
  intros [a b] I. apply filter_In in I. destruct I as [I E]. apply in_prod_iff in I. destruct I as [A B]. cbn [fst snd] in *. split; [exact A|]. split; [exact B|]. destruct (sz_eqb_spec a (sz_sub dq (sz_neg b))) as [->|]; [|discriminate].
  assert (P : fer (sz_sub dq (sz_neg b)) = xorb (fer dq) (fer b)).
  { replace (sz_sub dq (sz_neg b)) with (sz_add dq b). - apply (qpar_add SZ_label). - destruct dq, b. unfold sz_add, sz_sub, sz_neg. cbn. f_equal; lia. }
  rewrite P, xorb_assoc, xorb_nilpotent. apply xorb_false_r.
Qed.
Lemma okf_zeros : forall g dq, okf g (op_zeros R g dq).
Proof. intros g dq odd. assert (H := okt_zero g dq). unfold op_zeros. destruct (fer dq), odd; cbn [fpart f_odd f_even]; (exact H || apply okt_nil). Qed.
Ltac sets := repeat match goal with
  | H : bind ?e _ = Some _ |- _ => let E := fresh "E" in destruct e eqn:E; cbn [bind] in H; [|discriminate]
  | H : Some _ = Some _ |- _ => injection H as H; subst
  end; repeat match goal with
  | H : set_even R ?q ?v ?a = Some ?b |- okf _ ?b => apply (set_even_ok _ q v a b); [|exact H]
  | H : set_odd R ?q ?v ?a = Some ?b |- okf _ ?b => apply (set_odd_ok _ q v a b); [|exact H]
  end; try apply okf_zeros.
Lemma okf_i : forall g x, i_operator R g = Some x -> okf g x.
Proof. intros g x E. unfold i_operator in E. sets. Qed.
Lemma okf_h : forall half g a b c d x, h_operator R half g a b c d = Some x -> okf g x.
Proof. intros half g a b c d x E. unfold h_operator in E. sets. Qed.
Lemma okf_c : forall g s x, c_operator R g s = Some x -> okf g x.
Proof. intros g s x E. unfold c_operator in E. sets. Qed.
Lemma okf_d : forall g s x, d_operator R g s = Some x -> okf g x.
Proof. intros g s x E. unfold d_operator in E. sets. Qed.

(** *** one part *)
Lemma only_mm : forall a b oa ob, only a oa -> only b ob -> only (op_mm R a b) (xorb oa ob).
Proof.
  assert (N : forall t, sp_mm R t [] = []). { intros t. unfold sp_mm. cbn [fold_left]. induction t; auto. }
  intros a b [] [] A B; unfold only, fpart, op_mm in *; cbn [negb xorb f_odd f_even] in *; rewrite A, B; rewrite ?N; reflexivity.
Qed.
Lemma only_plus : forall a b odd, only a odd -> only b odd -> only (op_plus R a b) odd.
Proof. intros a b [] A B; unfold only, fpart, op_plus in *; cbn [negb f_odd f_even] in *; rewrite A, B; reflexivity. Qed.
Lemma only_scale : forall x a odd, only a odd -> only (op_scale R x a) odd.
Proof. intros x a [] A; unfold only, fpart, op_scale in *; cbn [negb f_odd f_even] in *; rewrite A; reflexivity. Qed.
Lemma only_set_odd : forall q v a b odd, set_odd R q v a = Some b -> only a odd -> only b odd.
Proof.
  intros q v a b odd E A. unfold set_odd in E. destruct (set_at R (f_odd R a) q v) as [t|] eqn:F; cbn [bind] in E; [|discriminate]. injection E as <-. destruct odd; unfold only, fpart in *; cbn [negb f_odd f_even] in *; [exact A|]. rewrite A in F. discriminate.
Qed.
Lemma only_set_even : forall q v a b odd, set_even R q v a = Some b -> only a odd -> only b odd.
Proof.
  intros q v a b odd E A. unfold set_even in E. destruct (set_at R (f_even R a) q v) as [t|] eqn:F; cbn [bind] in E; [|discriminate]. injection E as <-. destruct odd; unfold only, fpart in *; cbn [negb f_odd f_even] in *; [|exact A]. rewrite A in F. discriminate.
Qed.
Lemma only_zeros : forall g dq, only (op_zeros R g dq) (fer dq).
Proof. intros g dq. unfold only, op_zeros. destruct (fer dq); reflexivity. Qed.
Ltac onlys := repeat match goal with
  | H : bind ?e _ = Some _ |- _ => let E := fresh "E" in destruct e eqn:E; cbn [bind] in H; [|discriminate]
  end; repeat match goal with
  | H : set_even R ?q ?v ?a = Some ?b |- only ?b _ => apply (only_set_even q v a b _ H)
  | H : set_odd R ?q ?v ?a = Some ?b |- only ?b _ => apply (only_set_odd q v a b _ H)
  end; apply only_zeros.
Lemma only_i : forall g x, i_operator R g = Some x -> only x false.
Proof. intros g x E. unfold i_operator in E. change false with (fer (mkSZ 0 0 0)). onlys. Qed.
Lemma only_h : forall half g a b c d x, h_operator R half g a b c d = Some x -> only x false.
Proof. intros half g a b c d x E. unfold h_operator in E. change false with (fer (mkSZ 0 0 0)). onlys. Qed.
Lemma only_c : forall g s x, c_operator R g s = Some x -> only x true.
Proof. intros g s x E. unfold c_operator in E. change true with (fer (mkSZ 1 (szs s) g)). onlys. Qed.
Lemma only_d : forall g s x, d_operator R g s = Some x -> only x true.
Proof. intros g s x E. unfold d_operator in E. change true with (fer (mkSZ (-1) (- szs s) g)). onlys. Qed.

(** *** as tensors with blocks of one element *)
Notation L := SZ_label.
Notation blocks_of := (blocks_of R).
Lemma state_basis : forall g x, In (state_lab g x) (site_basis g).
Proof. intros g x. unfold state_lab, site_basis. destruct (x =? 0), (x =? 1), (x =? 2); cbn; auto. Qed.
Lemma state_fer : forall g x, fer (state_lab g x) = state_par x.
Proof. intros g x. unfold state_par, state_lab. destruct (x =? 0), (x =? 1), (x =? 2); reflexivity. Qed.
Lemma elem_blocks : forall g t x' x, NoDup (keys t) -> elem R L (blocks_of t) [state_lab g x'; state_lab g x] [0; 0] = el R g t x' x.
Proof.
  intros g t x' x. unfold el, at_lab. induction t as [|[[a b] v] t IH]; intros N; [reflexivity|]. inversion N as [|? ? Nk N']; subst. cbn [blocks_of map]. fold (blocks_of t). rewrite elem_cons. cbn [fst snd dget].
  destruct (lab_spec (a, b) (state_lab g x', state_lab g x)) as [E|E].
  - injection E as -> ->. match goal with |- context [tup_eqb L ?a ?b] => destruct (tup_eqb_spec L a b) as [_|X]; [|elim X; reflexivity] end. unfold nget. cbn.
    rewrite IH by exact N'. rewrite (proj2 (dget_none _ lab_spec t _)); [ring|exact Nk].
  - match goal with |- context [tup_eqb L ?a ?b] => destruct (tup_eqb_spec L a b) as [X|_] end; [injection X as -> ->; congruence|]. rewrite IH by exact N'. ring.
Qed.
End Ops.
