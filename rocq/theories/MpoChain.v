(** Lemmas for C32: the product of two chains, written with pairs of bond states, as a sum of products of the two chains. *)
From Coq Require Import ZArith Bool List Lia Permutation Ring.
From Verif Require Import SymModel SymProofs IndexLib OptLib RingLib BlockModel BlockProofs MpsModel MpsChain MpsProofs MpsDot MpoVert.
Import ListNotations.
Open Scope Z_scope.

Section PChain.
Variable R : CRing.
Add Ring Rr8 : (rth R).
Notation "0'" := (r0 R). Notation "1'" := (r1 R).
Infix "+'" := (radd R) (at level 50, left associativity).
Infix "*'" := (rmul R) (at level 40, left associativity).
Variables PA PB PC St St3 : Type.
Variable par : St -> bool.
Variable S_dec : forall a b : St, {a = b} + {a <> b}.
Variable S3_dec : forall a b : St3, {a = b} + {a <> b}.
Notation sgn := (sgn R).
(* one term of the product of two site tensors: parity of the operator, physical states of both factors, change of the
   parity of the bond of the second factor *)
Record term := Term { t_o : bool; t_a : PA; t_b : PB; t_m : bool }.
(* the sign collected by the terms ts; p is the parity on the left of the first site *)
Fixpoint jw (p : bool) (ts : list term) : bool :=
  match ts with [] => false | t :: ts' => xorb (t_o t && p) (jw (xorb p (t_m t)) ts') end.
Definition gstep (A : PA -> St -> St -> R) (B : PB -> St -> St -> R) (T : list term) (l l' r r' : St) : R :=
  bsum T (fun t => sgn (t_o t && par l') (A (t_a t) l r *' B (t_b t) l' r')).
Definition moves (B : PB -> St -> St -> R) (T : list term) : Prop := forall t l r, In t T -> B (t_b t) l r = 0' \/ xorb (par l) (par r) = t_m t.
Inductive prodrel : (St -> St -> St3) -> list (PA -> St -> St -> R) -> list (PB -> St -> St -> R) -> list (PC -> St3 -> St3 -> R) -> list PC -> list (list term) -> (St -> St -> St3) -> Prop :=
  | prod_one : forall kl kr A B C p T, (forall l l' r r', C p (kl l l') (kr r r') = gstep A B T l l' r r') -> moves B T -> prodrel kl [A] [B] [C] [p] [T] kr
  | prod_cons : forall kl kr kz ok A A' As B B' Bs C C' Cs p ps T Ts, (forall l l' r r', C p (kl l l') (kr r r') = gstep A B T l l' r r') -> moves B T ->
      (forall x x' y y', ok x x' = true -> ok y y' = true -> kr x x' = kr y y' -> x = y /\ x' = y') -> (forall m, (exists x x', ok x x' = true /\ kr x x' = m) \/ (forall s, C p s m = 0')) ->
      (forall s x x', ok x x' = false -> C p s (kr x x') = 0') ->
      prodrel kr (A' :: As) (B' :: Bs) (C' :: Cs) ps Ts kz -> prodrel kl (A :: A' :: As) (B :: B' :: Bs) (C :: C' :: Cs) (p :: ps) (T :: Ts) kz.

Notation chA := (chain R PA St). Notation chB := (chain R PB St). Notation chC := (chain R PC St3).
Lemma chain_prod : forall kl As Bs Cs ps Ts kz, prodrel kl As Bs Cs ps Ts kz -> forall Ba Bb Bc l l' r r', bonds_cover R PA St Ba As -> bonds_cover R PB St Bb Bs -> bonds_cover R PC St3 Bc Cs ->
  chC Bc Cs ps (kl l l') (kz r r') = bsum (choices Ts) (fun ts => sgn (jw (par l') ts) (chA Ba As (map t_a ts) l r *' chB Bb Bs (map t_b ts) l' r')).
Proof.
  induction 1 as [kl kr A B C p T F M|kl kr kz ok A A' As B B' Bs C C' Cs p ps T Ts F M Inj Z0 Zk P IH]; intros Ba Bb Bc l l' r r' Ca Cb Cc.
  - cbn [choices]. rewrite chain_one, F. rewrite bsum_flat_map. unfold gstep. apply bsum_ext. intros t _. rewrite bsum_map, bsum_cons, bsum_nil. cbn [map jw]. rewrite !chain_one, xorb_false_r. ring.
  - destruct Ba as [|B0 Ba]; [destruct Ca|]. destruct Bb as [|B1 Bb]; [destruct Cb|]. destruct Bc as [|B2 Bc]; [destruct Cc|]. destruct Ca as (Na & Za & Ca), Cb as (Nb & Zb & Cb), Cc as (Nc & Zc & Cc).
    rewrite chain_cons.
    set (f := fun m => C p (kl l l') m *' chC Bc (C' :: Cs) ps m (kz r r')).
    transitivity (bsum (map (fun xx => kr (fst xx) (snd xx)) (filter (fun xx => ok (fst xx) (snd xx)) (list_prod B0 B1))) f).
    { apply (bsum_cover R _ S3_dec).
      - exact Nc.
      - assert (Nl: NoDup (filter (fun xx => ok (fst xx) (snd xx)) (list_prod B0 B1))) by (apply NoDup_filter, NoDup_prod; auto).
        assert (Ok: forall xx, In xx (filter (fun xx => ok (fst xx) (snd xx)) (list_prod B0 B1)) -> ok (fst xx) (snd xx) = true) by (intros xx H; apply filter_In in H; tauto).
        revert Nl Ok. generalize (filter (fun xx => ok (fst xx) (snd xx)) (list_prod B0 B1)). induction 1 as [|[x x'] xs Hx Nx IHx]; intros Ok; cbn [map]; constructor.
        + intros H. apply in_map_iff in H. destruct H as ([y y'] & E & Hy). cbn [fst snd] in E. destruct (Inj y y' x x') as [-> ->]; auto; [exact (Ok _ (or_intror Hy))|exact (Ok _ (or_introl eq_refl))].
        + apply IHx. intros; apply Ok; now right.
      - intros m Hm. unfold f. rewrite Zc by auto. ring.
      - intros m Hm. unfold f. assert (E: C p (kl l l') m = 0'); [|rewrite E; ring]. destruct (Z0 m) as [(x & x' & Ho & Ek)|H]; [|apply H]. rewrite <- Ek, F.
        assert (Hn: ~ (In x B0 /\ In x' B1)). { intros [H1 H2]. apply Hm. apply in_map_iff. exists (x, x'). split; [exact Ek|]. apply filter_In. split; [now apply in_prod|exact Ho]. }
        unfold gstep. apply bsum_zero. intros t _. assert (E: A (t_a t) l x *' B (t_b t) l' x' = 0'); [|rewrite E; apply sgn_0].
        destruct (in_dec S_dec x B0) as [H1|H1]; [|rewrite Za by auto; ring]. destruct (in_dec S_dec x' B1) as [H2|H2]; [tauto|]. rewrite Zb by auto. ring. }
    rewrite bsum_map, bsum_filter.
    transitivity (bsum (list_prod B0 B1) (fun xx => f (kr (fst xx) (snd xx)))).
    { apply bsum_ext. intros [x x'] _. cbn [fst snd]. destruct (ok x x') eqn:O; [reflexivity|]. unfold f. rewrite Zk by auto. ring. }
    rewrite bsum_list_prod. cbn [fst snd]. unfold f. cbn [choices]. rewrite bsum_flat_map.
    transitivity (bsum B0 (fun x => bsum B1 (fun x' => bsum T (fun t => bsum (choices Ts) (fun ts => sgn (jw (par l') (t :: ts)) (A (t_a t) l x *' chA Ba (A' :: As) (map t_a ts) x r *' (B (t_b t) l' x' *' chB Bb (B' :: Bs) (map t_b ts) x' r'))))))).
    { apply bsum_ext. intros x _. apply bsum_ext. intros x' _. rewrite F, (IH Ba Bb Bc) by auto. unfold gstep. rewrite bsum_mul2. apply bsum_ext. intros t Ht. apply bsum_ext. intros ts _. cbn [jw]. rewrite sgn_xor.
      destruct (M t l' x' Ht) as [E|E].
      - rewrite E. destruct (t_o t && par l'), (jw (par x') ts), (jw (xorb (par l') (t_m t)) ts); cbn; ring.
      - rewrite <- E. replace (xorb (par l') (xorb (par l') (par x'))) with (par x') by (destruct (par l'), (par x'); reflexivity). destruct (t_o t && par l'), (jw (par x') ts); cbn; ring. }
    rewrite (bsum_ext R _ B0 _ (fun x => bsum T (fun t => bsum B1 (fun x' => bsum (choices Ts) (fun ts => sgn (jw (par l') (t :: ts)) (A (t_a t) l x *' chA Ba (A' :: As) (map t_a ts) x r *' (B (t_b t) l' x' *' chB Bb (B' :: Bs) (map t_b ts) x' r'))))))) by (intros x _; apply bsum_swap).
    rewrite bsum_swap. apply bsum_ext. intros t _. rewrite bsum_map.
    rewrite (bsum_ext R _ B0 _ (fun x => bsum (choices Ts) (fun ts => bsum B1 (fun x' => sgn (jw (par l') (t :: ts)) (A (t_a t) l x *' chA Ba (A' :: As) (map t_a ts) x r *' (B (t_b t) l' x' *' chB Bb (B' :: Bs) (map t_b ts) x' r')))))) by (intros x _; apply bsum_swap).
    rewrite bsum_swap. apply bsum_ext. intros ts _. cbn [map]. rewrite !chain_cons, bsum_mul2, sgn_bsum. apply bsum_ext. intros x _. rewrite sgn_bsum. reflexivity.
Qed.
End PChain.
Arguments Term {PA PB}. Arguments t_o {PA PB}. Arguments t_a {PA PB}. Arguments t_b {PA PB}. Arguments t_m {PA PB}. Arguments jw {PA PB}.

(** a product that vanishes at one site vanishes *)
Section PZero.
Variable R : CRing.
Add Ring Rr9 : (rth R).
Notation "0'" := (r0 R).
Infix "*'" := (rmul R) (at level 40, left associativity).
Variables PA PB St : Type.
Variable par : St -> bool.
Variable S_dec : forall a b : St, {a = b} + {a <> b}.
Notation term := (term PA PB).
Notation gstep := (gstep R PA PB St par).
Fixpoint gmats (As : list (PA -> St -> St -> R)) (Bs : list (PB -> St -> St -> R)) (Ts : list (list term)) : list (unit -> St * St -> St * St -> R) :=
  match As, Bs, Ts with
  | A :: As', B :: Bs', T :: Ts' => (fun _ l r => gstep A B T (fst l) (snd l) (fst r) (snd r)) :: gmats As' Bs' Ts'
  | _, _, _ => []
  end.
Lemma gmats_rel : forall As Bs Ts, As <> [] -> length As = length Bs -> Forall2 (moves R PA PB St par) Bs Ts -> prodrel R PA PB unit St (St * St) par pair As Bs (gmats As Bs Ts) (map (fun _ => tt) As) Ts pair.
Proof.
  induction As as [|A As IH]; intros Bs Ts Ne Ll F; [congruence|]. destruct Bs as [|B Bs]; [discriminate|]. inversion F as [|? T ? Ts' M F']; subst. destruct As as [|A' As].
  - destruct Bs; [|discriminate]. inversion F'; subst. cbn [gmats map]. constructor; [reflexivity|exact M].
  - destruct Bs as [|B' Bs]; [discriminate|]. specialize (IH (B' :: Bs) Ts' ltac:(discriminate) ltac:(cbn [length] in *; lia) F'). inversion F' as [|? T' ? Ts'' M' F'']; subst. cbn [gmats map] in *.
    apply (prod_cons R PA PB unit St (St * St) par pair pair pair (fun _ _ => true)); auto.
    + intros x x' y y' _ _ E. now injection E. + intros [x x']. left. exists x, x'. auto. + discriminate.
Qed.
Lemma gmats_cover : forall As Bs Ts Ba Bb, As <> [] -> length As = length Bs -> length Bs = length Ts -> bonds_cover R PA St Ba As -> bonds_cover R PB St Bb Bs ->
  exists Bc, bonds_cover R unit (St * St) Bc (gmats As Bs Ts).
Proof.
  induction As as [|A As IH]; intros Bs Ts Ba Bb Ne L1 L2 Ca Cb; [congruence|]. destruct Bs as [|B Bs]; [discriminate|]. destruct Ts as [|T Ts]; [discriminate|]. destruct As as [|A' As].
  - destruct Bs; [|discriminate]. destruct Ts; [|discriminate]. exists []. exact I.
  - destruct Bs as [|B' Bs]; [discriminate|]. destruct Ts as [|T' Ts]; [discriminate|]. destruct Ba as [|B0 Ba]; [destruct Ca|]. destruct Bb as [|B1 Bb]; [destruct Cb|]. destruct Ca as (N0 & Z0 & Ca), Cb as (N1 & Z1 & Cb).
    destruct (IH (B' :: Bs) (T' :: Ts) Ba Bb) as (Bc & Cc); auto; [discriminate|]. exists (list_prod B0 B1 :: Bc). split; [now apply NoDup_prod|]. split; [|exact Cc].
    intros _ [l l'] [m m'] Hm. cbn [fst snd]. apply bsum_zero. intros t _. rewrite in_prod_iff in Hm. assert (E: A (t_a t) l m *' B (t_b t) l' m' = 0'); [|rewrite E; apply sgn_0].
    destruct (in_dec S_dec m B0) as [H1|H1]; [|rewrite Z0 by auto; ring]. destruct (in_dec S_dec m' B1) as [H2|H2]; [tauto|]. rewrite Z1 by auto. ring.
Qed.
Definition pair_dec : forall a b : St * St, {a = b} + {a <> b}.
Proof. decide equality. Defined.
Lemma prod_zero : forall As Bs Ts Ba Bb l l' r r', As <> [] -> length As = length Bs -> Forall2 (moves R PA PB St par) Bs Ts -> bonds_cover R PA St Ba As -> bonds_cover R PB St Bb Bs ->
  (exists f, In f (gmats As Bs Ts) /\ forall p x y, f p x y = 0') ->
  bsum (choices Ts) (fun ts => sgn R (jw (par l') ts) (chain R PA St Ba As (map t_a ts) l r *' chain R PB St Bb Bs (map t_b ts) l' r')) = 0'.
Proof.
  intros As Bs Ts Ba Bb l l' r r' Ne Ll F Ca Cb Z. destruct (gmats_cover As Bs Ts Ba Bb Ne Ll (F2_length _ _ _ _ _ F) Ca Cb) as (Bc & Cc).
  rewrite <- (chain_prod R PA PB unit St (St * St) par S_dec pair_dec pair As Bs _ _ Ts pair (gmats_rel As Bs Ts Ne Ll F) Ba Bb Bc l l' r r' Ca Cb Cc). now apply chain_zero_site.
Qed.
End PZero.
