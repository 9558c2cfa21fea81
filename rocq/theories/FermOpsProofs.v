(** Proofs about the exchange phase, accumulation of blocks and grouping of labels. *)
From Coq Require Import ZArith Bool List Lia Ring Permutation.
From Verif Require Import DictLib IndexLib RingLib OptLib FermOpsModel.
Import ListNotations.
Open Scope Z_scope.

(* ---------------------------------------------------------- exchange phase *)
Definition ra (x : Z * Z) : list bool := filter (fun c => negb (has c (ann_map (snd x)))) (cre_map (fst x)).
Definition rb (x : Z * Z) : list bool := filter (fun c => negb (has c (cre_map (fst x)))) (ann_map (snd x)).
Definition up (s : Z) : bool := Z.testbit s 0.
Definition dn (s : Z) : bool := Z.testbit s 1.
Definition cnt (s : Z) : Z := Z.b2z (up s) + Z.b2z (dn s).
Definition mtch (x : Z * Z) : Z := Z.b2z (up (fst x) && up (snd x)) + Z.b2z (dn (fst x) && dn (snd x)).
Definition loc (x : Z * Z) : bool := up (fst x) && up (snd x) && xorb (dn (fst x)) (dn (snd x)).
Definition ok4 (x : Z * Z) : Prop := In (fst x) all4 /\ In (snd x) all4.
Definition psgn (e : Z) : Z := if Z.even e then 1 else -1.

Lemma psgn_add : forall a b, psgn (a + b) = psgn a * psgn b.
Proof. intros. unfold psgn. rewrite Z.even_add. destruct (Z.even a), (Z.even b); reflexivity. Qed.
Lemma pow_psgn : forall e, (-1) ^ (e mod 2) = psgn e.
Proof. intros e. unfold psgn. rewrite Zmod_even. destruct (Z.even e); reflexivity. Qed.

Definition loff (first : bool) (x : Z * Z) : Z :=
  snd (fold_left (cancel 0) (shared first (cre_map (fst x)) (ann_map (snd x))) (cre_map (fst x), ann_map (snd x), 0)).
Lemma cancel_site : forall first x c, ok4 x ->
  fold_left (cancel c) (shared first (cre_map (fst x)) (ann_map (snd x))) (cre_map (fst x), ann_map (snd x), 0)
  = (ra x, rb x, mtch x * c + loff first x).
Proof.
  intros first [s t] c [A B]. cbn [fst snd] in A, B. cbn in A, B.
  destruct A as [<-|[<-|[<-|[<-|[]]]]], B as [<-|[<-|[<-|[<-|[]]]]], first;
    (match goal with |- context [mtch ?x] => let m := eval vm_compute in (mtch x) in change (mtch x) with m end;
     match goal with |- context [loff ?f ?x] => let m := eval vm_compute in (loff f x) in change (loff f x) with m end;
     cbv [fold_left shared cancel filter has existsb Bool.eqb negb andb orb cre_map ann_map fst snd Z.eqb Pos.eqb index_of erase len length ra rb];
     f_equal; lia).
Qed.
Lemma loff_odd : forall first x, ok4 x -> Z.odd (loff first x) = loc x.
Proof.
  intros first [s t] [A B]. cbn [fst snd] in A, B. cbn in A, B.
  destruct A as [<-|[<-|[<-|[<-|[]]]]], B as [<-|[<-|[<-|[<-|[]]]]], first; reflexivity.
Qed.
Lemma len_cre : forall s, In s all4 -> len (cre_map s) = cnt s.
Proof. intros s A. cbn in A. destruct A as [<-|[<-|[<-|[<-|[]]]]]; reflexivity. Qed.
Lemma len_rb : forall x, ok4 x -> len (rb x) = cnt (snd x) - mtch x.
Proof.
  intros [s t] [A B]. cbn [fst snd] in A, B. cbn in A, B.
  destruct A as [<-|[<-|[<-|[<-|[]]]]], B as [<-|[<-|[<-|[<-|[]]]]]; reflexivity.
Qed.

(* exponent: for each site, matched letters times the letters still to be passed *)
Fixpoint expo (before : Z) (l : list (Z * Z)) : Z :=
  match l with
  | [] => 0
  | x :: l' => mtch x * (zsum (map (fun y => cnt (fst y)) l') + before) + Z.b2z (loc x)
               + expo (before + (cnt (snd x) - mtch x)) l'
  end.

Lemma set_nth_app : forall A (a : list A) x b y, set_nth (a ++ x :: b) (length a) y = a ++ y :: b.
Proof. induction a as [|z a IH]; intros; [reflexivity|]. cbn. now rewrite IH. Qed.
Lemma firstn_exact : forall A (a b : list A) n, length a = n -> firstn n (a ++ b) = a.
Proof. intros A a b n <-. rewrite firstn_app, Nat.sub_diag, firstn_all. cbn. now rewrite app_nil_r. Qed.
Lemma skipn_exact : forall A (a b : list A) n, length a = n -> skipn n (a ++ b) = b.
Proof. intros A a b n <-. rewrite skipn_app, Nat.sub_diag, skipn_all. reflexivity. Qed.

Lemma swap_fold : forall order T D p, Forall ok4 D -> Forall ok4 T ->
  let n := (length D + length T)%nat in
  let cre_string := map cre_map (map fst (D ++ T)) in
  snd (fold_left (swap_step order n cre_string) (seq (length D) (length T))
     (map ra D ++ map (fun x => cre_map (fst x)) T ++ map rb D ++ map (fun x => ann_map (snd x)) T, p))
  = p * psgn (expo (zsum (map (fun x => len (rb x)) D)) T).
Proof.
  intros order T. induction T as [|x T IH]; intros D p HD HT n cre_string.
  - cbn [length seq fold_left snd expo]. unfold psgn. cbn. lia.
  - inversion HT as [|? ? Hx HT']; subst. cbn [length seq fold_left].
    assert (E : swap_step order n cre_string
        (map ra D ++ map (fun x => cre_map (fst x)) (x :: T) ++ map rb D ++ map (fun x => ann_map (snd x)) (x :: T), p) (length D)
      = (map ra (D ++ [x]) ++ map (fun x => cre_map (fst x)) T ++ map rb (D ++ [x]) ++ map (fun x => ann_map (snd x)) T,
         p * psgn (mtch x * (zsum (map (fun y => cnt (fst y)) T) + zsum (map (fun x => len (rb x)) D)) + loff (order (length D)) x))).
    { unfold swap_step. cbn [map].
      assert (Ia : nth (length D) cre_string [] = cre_map (fst x)).
      { unfold cre_string. rewrite !map_app. cbn [map]. rewrite app_nth2 by (rewrite !map_length; lia). rewrite !map_length, Nat.sub_diag. reflexivity. }
      assert (Ib : nth (length D + n) (map ra D ++ (cre_map (fst x) :: map (fun x0 => cre_map (fst x0)) T) ++ map rb D ++ ann_map (snd x) :: map (fun x0 => ann_map (snd x0)) T) []
             = ann_map (snd x)).
      { rewrite !app_assoc. rewrite app_nth2 by (rewrite !app_length; cbn [length]; rewrite !map_length; unfold n; cbn [length]; lia).
        replace (length D + n - _)%nat with O; [reflexivity|]. rewrite !app_length. cbn [length]. rewrite !map_length. unfold n. cbn [length]. lia. }
      rewrite Ia, Ib. clear Ia Ib.
      assert (Ic : firstn (n - 1) (skipn (S (length D)) (map ra D ++ (cre_map (fst x) :: map (fun x0 => cre_map (fst x0)) T) ++ map rb D ++ ann_map (snd x) :: map (fun x0 => ann_map (snd x0)) T))
            = map (fun x0 => cre_map (fst x0)) T ++ map rb D).
      { replace (map ra D ++ (cre_map (fst x) :: map (fun x0 => cre_map (fst x0)) T) ++ map rb D ++ ann_map (snd x) :: map (fun x0 => ann_map (snd x0)) T)
          with ((map ra D ++ [cre_map (fst x)]) ++ ((map (fun x0 => cre_map (fst x0)) T ++ map rb D) ++ ann_map (snd x) :: map (fun x0 => ann_map (snd x0)) T))
          by (rewrite <- !app_assoc; reflexivity).
        rewrite skipn_exact by (rewrite app_length, map_length; cbn; lia).
        apply firstn_exact. rewrite app_length, !map_length. unfold n. cbn [length]. lia. }
      rewrite Ic. clear Ic.
      rewrite (cancel_site (order (length D)) x _ Hx). rewrite pow_psgn.
      f_equal.
      - cbn [app]. replace (length D) with (length (map ra D)) at 1 by apply map_length.
        rewrite set_nth_app. 
        replace (map ra D ++ ra x :: map (fun x0 => cre_map (fst x0)) T ++ map rb D ++ ann_map (snd x) :: map (fun x0 => ann_map (snd x0)) T)
          with ((map ra (D ++ [x]) ++ map (fun x0 => cre_map (fst x0)) T ++ map rb D) ++ ann_map (snd x) :: map (fun x0 => ann_map (snd x0)) T)
          by (rewrite map_app; cbn [map]; rewrite <- !app_assoc; reflexivity).
        replace (n + length D)%nat with (length (map ra (D ++ [x]) ++ map (fun x0 => cre_map (fst x0)) T ++ map rb D))
          by (rewrite !app_length, !map_length, app_length; unfold n; cbn [length]; lia).
        rewrite set_nth_app. rewrite !map_app. cbn [map]. rewrite <- !app_assoc. reflexivity.
      - f_equal. f_equal. f_equal. f_equal. rewrite map_app, zsum_app, !map_map. f_equal.
        apply zsum_map_ext. intros y Iy. apply len_cre. rewrite Forall_forall in HT'. apply HT'. exact Iy. }
    rewrite E. clear E.
    specialize (IH (D ++ [x]) (p * psgn (mtch x * (zsum (map (fun y => cnt (fst y)) T) + zsum (map (fun x => len (rb x)) D)) + loff (order (length D)) x))).
    cbv zeta in IH. replace (length (D ++ [x]) + length T)%nat with n in IH by (rewrite app_length; unfold n; cbn; lia).
    replace (length (D ++ [x])) with (S (length D)) in IH by (rewrite app_length; cbn; lia).
    replace ((D ++ [x]) ++ T) with (D ++ x :: T) in IH by (rewrite <- app_assoc; reflexivity).
    fold cre_string in IH. rewrite IH; [|apply Forall_app; split; [exact HD|constructor; [exact Hx|constructor]]|exact HT'].
    rewrite map_app, zsum_app. cbn [map]. rewrite zsum_cons. replace (zsum []) with 0 by reflexivity.
    rewrite (len_rb x Hx). cbn [expo]. rewrite !psgn_add. replace (psgn (Z.b2z (loc x))) with (psgn (loff (order (length D)) x)).
    + replace (zsum (map (fun x0 => len (rb x0)) D) + (cnt (snd x) - mtch x + 0)) with (zsum (map (fun x0 => len (rb x0)) D) + (cnt (snd x) - mtch x)) by lia. ring.
    + unfold psgn. rewrite <- !Z.negb_odd, (loff_odd _ _ Hx). destruct (loc x); reflexivity.
Qed.

Theorem swap_phase_expo : forall order s t, length s = length t -> Forall (fun z => In z all4) s -> Forall (fun z => In z all4) t ->
  swap_phase order true (s ++ t) = psgn (expo 0 (combine s t)).
Proof.
  intros order s t L Hs Ht. unfold swap_phase. cbn [negb].
  assert (N : Nat.div2 (length (s ++ t)) = length s). { rewrite app_length, <- L. replace (length s + length s)%nat with (2 * length s)%nat by lia. apply Nat.div2_double. }
  rewrite N. rewrite firstn_exact, skipn_exact by reflexivity.
  assert (F1 : map fst (combine s t) = s).
  { clear -L. revert t L. induction s as [|a s IH]; intros [|b t] L; try reflexivity; try discriminate. cbn. f_equal. apply IH. now injection L. }
  assert (F2 : map snd (combine s t) = t).
  { clear -L. revert t L. induction s as [|a s IH]; intros [|b t] L; try reflexivity; try discriminate. cbn. f_equal. apply IH. now injection L. }
  assert (LC : length (combine s t) = length s) by (rewrite combine_length; lia).
  assert (OK : Forall ok4 (combine s t)).
  { apply Forall_forall. intros [a b] I. rewrite Forall_forall in Hs, Ht. split; [apply Hs; apply in_combine_l in I; exact I|apply Ht; apply in_combine_r in I; exact I]. }
  assert (K := swap_fold order (combine s t) [] 1 (Forall_nil _) OK). cbn [length app map Nat.add] in K. rewrite LC, F1 in K.
  replace (zsum []) with 0 in K by reflexivity. rewrite Z.mul_1_l in K. rewrite <- K. f_equal. f_equal. f_equal. f_equal.
  - rewrite <- F1 at 1. now rewrite map_map.
  - rewrite <- F2 at 1. now rewrite map_map.
Qed.

(* ------------------------------------------------------------ grouping *)
Section Fuse.
Variable Q : Type.
Variable eqb : Q -> Q -> bool.
Hypothesis eqb_spec : forall a b, reflect (a = b) (eqb a b).
Variable B : Type.
Inductive conn (E : list (Q * Q)) : Q -> Q -> Prop :=
| conn_edge : forall a b, In (a, b) E -> conn E a b
| conn_refl : forall a, conn E a a
| conn_sym : forall a b, conn E a b -> conn E b a
| conn_trans : forall a b c, conn E a b -> conn E b c -> conn E a c.
Lemma conn_mono : forall E E' a b, (forall x, In x E -> In x E') -> conn E a b -> conn E' a b.
Proof. intros E E' a b H C. induction C; [apply conn_edge; auto|apply conn_refl|now apply conn_sym|eapply conn_trans; eauto]. Qed.
Definition touched (E : list (Q * Q)) (q : Q) : Prop := exists a b, In (a, b) E /\ (q = a \/ q = b).
Notation get := (dget eqb).

Record inv (g : grp Q B) (E : list (Q * Q)) : Prop := {
  i_top : forall q, (exists p, get (top Q B g) q = Some p) <-> touched E q;
  i_rep : forall q p, get (top Q B g) q = Some p -> get (top Q B g) p = Some p /\ conn E p q;
  i_from : forall p, get (top Q B g) p = Some p -> exists f, get (fromp Q B g) p = Some f /\
     (forall q, In q f <-> get (top Q B g) q = Some p);
  i_dat : forall p, (exists d, get (dat Q B g) p = Some d) <-> get (top Q B g) p = Some p;
  i_edge : forall a b, In (a, b) E -> get (top Q B g) a = get (top Q B g) b }.

Lemma get_set : forall (V : Type) (d : list (Q * V)) k v q, get (dset eqb d k v) q = if eqb q k then Some v else get d q.
Proof. intros. rewrite (dget_dset eqb eqb_spec); destruct (eqb_spec k q), (eqb_spec q k); congruence. Qed.
Lemma get_setall : forall (fb : list Q) (t : list (Q * Q)) p q, get (fold_left (fun t q => dset eqb t q p) fb t) q =
  if existsb (eqb q) fb then Some p else get t q.
Proof.
  induction fb as [|x fb IH]; intros t p q; [reflexivity|]. cbn [fold_left existsb]. rewrite IH, get_set.
  destruct (existsb (eqb q) fb), (eqb q x); reflexivity.
Qed.
Lemma get_del : forall (V : Type) (d : list (Q * V)) k q, get (ddel Q eqb d k) q = if eqb q k then None else get d q.
Proof.
  intros V d k q. unfold ddel. induction d as [|[a v] d IH]; [now destruct (eqb q k)|]. cbn [filter fst].
  destruct (eqb_spec a k) as [E|N]; cbn [negb].
  - rewrite IH. cbn [dget]. destruct (eqb_spec q k) as [E2|M]; [reflexivity|]. destruct (eqb_spec a q); [congruence|reflexivity].
  - cbn [dget]. rewrite IH. destruct (eqb_spec a q) as [E2|M]; [|reflexivity]. destruct (eqb_spec q k); [congruence|reflexivity].
Qed.
Lemma existsb_eqb : forall q l, existsb (eqb q) l = true <-> In q l.
Proof.
  intros q l. rewrite existsb_exists. split.
  - intros [x [I E]]. destruct (eqb_spec q x); [now subst|discriminate].
  - intros I. exists q. split; [exact I|]. destruct (eqb_spec q q); congruence.
Qed.

Ltac eqs := repeat match goal with
  | |- context [eqb ?a ?b] => destruct (eqb_spec a b); subst
  | H : context [eqb ?a ?b] |- _ => destruct (eqb_spec a b); subst
  end.

Lemma fuse_inv : forall g E l r, inv g E -> exists g' p, fuse_data_map Q eqb B g l r = Some (g', p) /\
  inv g' (E ++ [(l, r)]) /\ get (top Q B g') l = Some p /\ get (top Q B g') p = Some p.
Proof.
  intros g E l r I. destruct I as [It Ir If Id Ie].
  assert (MONO : forall a b, conn E a b -> conn (E ++ [(l, r)]) a b) by (intros a b; apply conn_mono; intros x Hx; apply in_or_app; auto).
  assert (NEW : conn (E ++ [(l, r)]) l r) by (apply conn_edge; apply in_or_app; right; now left).
  assert (TCH : forall q, touched (E ++ [(l, r)]) q <-> touched E q \/ q = l \/ q = r).
  { intros q. unfold touched. split.
    - intros [a [b [J K]]]. apply in_app_or in J. destruct J as [J|[J|[]]]; [left; eauto|]. injection J as <- <-. tauto.
    - intros [[a [b [J K]]]|K]; [exists a, b; split; [apply in_or_app; auto|auto]|]. exists l, r. split; [apply in_or_app; right; now left|tauto]. }
  unfold fuse_data_map. destruct (get (top Q B g) l) as [p|] eqn:El, (get (top Q B g) r) as [pb|] eqn:Er.
  - destruct (eqb_spec p pb) as [<-|N].
    + (* same group *)
      exists g, p. split; [reflexivity|]. split; [|split; [exact El|apply (Ir l); exact El]]. constructor.
      * intros q. rewrite It, TCH. split; [auto|]. intros [T|[->| ->]]; [exact T| |]; apply It; eauto.
      * intros q p0 H. destruct (Ir q p0 H). auto.
      * exact If.
      * exact Id.
      * intros a b J. apply in_app_or in J. destruct J as [J|[J|[]]]; [now apply Ie|]. injection J as <- <-. congruence.
    + (* merge *)
      destruct (Ir l p El) as [Pp Cp], (Ir r pb Er) as [Ppb Cpb].
      destruct (If p Pp) as [f [Ef Hf]], (If pb Ppb) as [fb [Efb Hfb]].
      destruct (proj2 (Id p) Pp) as [dp Edp], (proj2 (Id pb) Ppb) as [db Edb].
      rewrite Efb, Ef, Edp, Edb. cbn [bind].
      assert (TOP : forall q, get (fold_left (fun t q => dset eqb t q p) fb (top Q B g)) q =
        match get (top Q B g) q with Some x => Some (if eqb x pb then p else x) | None => None end).
      { intros q. rewrite get_setall. destruct (existsb (eqb q) fb) eqn:X.
        - apply existsb_eqb in X. apply Hfb in X. rewrite X. destruct (eqb_spec pb pb); congruence.
        - destruct (get (top Q B g) q) as [x|] eqn:Y; [|reflexivity]. destruct (eqb_spec x pb) as [->|]; [|reflexivity].
          apply Hfb in Y. apply existsb_eqb in Y. congruence. }
      assert (CC : conn (E ++ [(l, r)]) p pb).
      { eapply conn_trans; [apply MONO; exact Cp|]. eapply conn_trans; [exact NEW|]. apply conn_sym. apply MONO. exact Cpb. }
      eexists. exists p. split; [reflexivity|]. cbn [top fromp dat]. split; [|split].
      * constructor; cbn [top fromp dat].
        -- intros q. rewrite TCH. split.
           ++ intros [x H]. rewrite TOP in H. destruct (get (top Q B g) q) eqn:Y; [|discriminate]. left. apply It. eauto.
           ++ intros H. assert (H' : exists x, get (top Q B g) q = Some x) by (destruct H as [H|[->| ->]]; [now apply It| |]; eauto).
              destruct H' as [x X]. rewrite TOP, X. eauto.
        -- intros q x H. rewrite TOP in H. destruct (get (top Q B g) q) as [z|] eqn:Y; [|discriminate]. injection H as <-.
           destruct (Ir q z Y) as [Z1 Z2]. destruct (eqb_spec z pb) as [->|M].
           ++ split; [rewrite TOP, Pp; destruct (eqb_spec p pb); congruence|]. eapply conn_trans; [exact CC|]. now apply MONO.
           ++ split; [rewrite TOP, Z1; destruct (eqb_spec z pb); congruence|]. now apply MONO.
        -- intros x H. rewrite TOP in H. destruct (get (top Q B g) x) as [z|] eqn:Y; [|discriminate]. injection H as H.
           rewrite get_set. destruct (eqb_spec x p) as [->|M].
           ++ exists (f ++ fb). split; [reflexivity|]. intros q. rewrite in_app_iff, Hf, Hfb, TOP.
              destruct (get (top Q B g) q) as [w|]; [|intuition discriminate]. destruct (eqb_spec w pb) as [->|]; intuition congruence.
           ++ destruct (eqb_spec z pb) as [->|K]; [congruence|]. subst z. destruct (If x Y) as [fx [Efx Hfx]]. exists fx.
              split; [exact Efx|]. intros q. rewrite Hfx, TOP. destruct (get (top Q B g) q) as [w|]; [|intuition discriminate].
              destruct (eqb_spec w pb) as [->|]; intuition congruence.
        -- intros x. rewrite get_del, get_set, TOP. destruct (eqb_spec x pb) as [->|M].
           ++ split; [intros [d D]; discriminate|]. rewrite Ppb. destruct (eqb_spec pb pb); [|congruence]. intros K. congruence.
           ++ destruct (eqb_spec x p) as [->|M2].
              ** rewrite Pp. destruct (eqb_spec p pb); [congruence|]. split; [reflexivity|eauto].
              ** rewrite Id. destruct (get (top Q B g) x) as [w|]; [|reflexivity].
                 destruct (eqb_spec w pb) as [->|]; [|reflexivity]. split; intros K; congruence.
        -- intros a b J. rewrite !TOP. apply in_app_or in J. destruct J as [J|[J|[]]].
           ++ now rewrite (Ie a b J).
           ++ injection J as <- <-. rewrite El, Er. destruct (eqb_spec p pb); [congruence|]. destruct (eqb_spec pb pb); congruence.
      * rewrite TOP, El. destruct (eqb_spec p pb); congruence.
      * rewrite TOP, Pp. destruct (eqb_spec p pb); congruence.
  - (* r new *)
    destruct (Ir l p El) as [Pp Cp]. destruct (If p Pp) as [f [Ef Hf]]. rewrite Ef. cbn [bind].
    assert (RL : r <> l) by congruence. assert (RP : r <> p) by congruence.
    eexists. exists p. split; [reflexivity|]. cbn [top fromp dat].
    assert (TOP : forall q, get (dset eqb (top Q B g) r p) q = if eqb q r then Some p else get (top Q B g) q) by (intros; apply get_set).
    split; [|split].
    + constructor; cbn [top fromp dat].
      * intros q. rewrite TOP, TCH. destruct (eqb_spec q r) as [->|N]; [split; eauto|]. rewrite It. split; [auto|].
        intros [H|[->|H]]; [exact H| |contradiction]. apply It. eauto.
      * intros q x. rewrite !TOP. destruct (eqb_spec q r) as [->|N].
        -- intros H. injection H as <-. destruct (eqb_spec p r); [congruence|]. split; [exact Pp|]. eapply conn_trans; [apply MONO; exact Cp|exact NEW].
        -- intros H. destruct (Ir q x H) as [X1 X2]. destruct (eqb_spec x r); [congruence|]. auto.
      * intros x. rewrite TOP, get_set. destruct (eqb_spec x r) as [->|N]; [intros H; congruence|]. intros H.
        destruct (eqb_spec x p) as [->|M].
        -- exists (f ++ [r]). split; [reflexivity|]. intros q. rewrite in_app_iff, Hf, TOP. destruct (eqb_spec q r) as [->|K]; cbn; intuition congruence.
        -- destruct (If x H) as [fx [Efx Hfx]]. exists fx. split; [exact Efx|]. intros q. rewrite Hfx, TOP. destruct (eqb_spec q r) as [->|K]; intuition congruence.
      * intros x. rewrite TOP, Id. destruct (eqb_spec x r) as [->|N]; [|reflexivity]. split; intros H; congruence.
      * intros a b J. rewrite !TOP. apply in_app_or in J. destruct J as [J|[J|[]]].
        -- assert (T1 : exists x, get (top Q B g) a = Some x) by (apply It; exists a, b; auto).
           assert (T2 : exists x, get (top Q B g) b = Some x) by (apply It; exists a, b; auto).
           destruct T1, T2. destruct (eqb_spec a r); [congruence|]. destruct (eqb_spec b r); [congruence|]. now apply Ie.
        -- injection J as <- <-. destruct (eqb_spec l r); [congruence|]. destruct (eqb_spec r r); congruence.
    + rewrite TOP. destruct (eqb_spec l r); congruence.
    + rewrite TOP. destruct (eqb_spec p r); congruence.
  - (* l new *)
    destruct (Ir r pb Er) as [Pp Cp]. destruct (If pb Pp) as [f [Ef Hf]]. rewrite Ef. cbn [bind].
    assert (RL : l <> r) by congruence. assert (RP : l <> pb) by congruence.
    eexists. exists pb. split; [reflexivity|]. cbn [top fromp dat].
    assert (TOP : forall q, get (dset eqb (top Q B g) l pb) q = if eqb q l then Some pb else get (top Q B g) q) by (intros; apply get_set).
    split; [|split].
    + constructor; cbn [top fromp dat].
      * intros q. rewrite TOP, TCH. destruct (eqb_spec q l) as [->|N]; [split; eauto|]. rewrite It. split; [auto|].
        intros [H|[H| ->]]; [exact H|contradiction|]. apply It. eauto.
      * intros q x. rewrite !TOP. destruct (eqb_spec q l) as [->|N].
        -- intros H. injection H as <-. destruct (eqb_spec pb l); [congruence|]. split; [exact Pp|]. eapply conn_trans; [apply MONO; exact Cp|apply conn_sym; exact NEW].
        -- intros H. destruct (Ir q x H) as [X1 X2]. destruct (eqb_spec x l); [congruence|]. auto.
      * intros x. rewrite TOP, get_set. destruct (eqb_spec x l) as [->|N]; [intros H; congruence|]. intros H.
        destruct (eqb_spec x pb) as [->|M].
        -- exists (f ++ [l]). split; [reflexivity|]. intros q. rewrite in_app_iff, Hf, TOP. destruct (eqb_spec q l) as [->|K]; cbn; intuition congruence.
        -- destruct (If x H) as [fx [Efx Hfx]]. exists fx. split; [exact Efx|]. intros q. rewrite Hfx, TOP. destruct (eqb_spec q l) as [->|K]; intuition congruence.
      * intros x. rewrite TOP, Id. destruct (eqb_spec x l) as [->|N]; [|reflexivity]. split; intros H; congruence.
      * intros a b J. rewrite !TOP. apply in_app_or in J. destruct J as [J|[J|[]]].
        -- assert (T1 : exists x, get (top Q B g) a = Some x) by (apply It; exists a, b; auto).
           assert (T2 : exists x, get (top Q B g) b = Some x) by (apply It; exists a, b; auto).
           destruct T1, T2. destruct (eqb_spec a l); [congruence|]. destruct (eqb_spec b l); [congruence|]. now apply Ie.
        -- injection J as <- <-. destruct (eqb_spec l l); [|congruence]. destruct (eqb_spec r l); congruence.
    + rewrite TOP. destruct (eqb_spec l l); congruence.
    + rewrite TOP. destruct (eqb_spec pb l); congruence.
  - (* both new *)
    eexists. exists l. split; [reflexivity|]. cbn [top fromp dat].
    assert (TOP : forall q, get (dset eqb (dset eqb (top Q B g) l l) r l) q = if eqb q r || eqb q l then Some l else get (top Q B g) q).
    { intros. rewrite !get_set. destruct (eqb q r), (eqb q l); reflexivity. }
    assert (NX : forall q x, get (top Q B g) q = Some x -> x <> l /\ x <> r /\ q <> l /\ q <> r).
    { intros q x H. destruct (Ir q x H). repeat split; congruence. }
    split; [|split].
    + constructor; cbn [top fromp dat].
      * intros q. rewrite TOP, TCH. destruct (eqb_spec q r) as [->|N]; cbn [orb]; [split; eauto|].
        destruct (eqb_spec q l) as [->|M]; [split; eauto|]. rewrite It. intuition.
      * intros q x. rewrite !TOP. destruct (eqb_spec q r) as [->|N]; cbn [orb].
        -- intros H. injection H as <-. destruct (eqb_spec l r); cbn [orb]; (destruct (eqb_spec l l); [|congruence]); auto.
        -- destruct (eqb_spec q l) as [->|M].
           ++ intros H. injection H as <-. destruct (eqb_spec l r); cbn [orb]; (destruct (eqb_spec l l); [|congruence]); split; auto; apply conn_refl.
           ++ intros H. destruct (NX q x H) as [A [C _]]. destruct (Ir q x H) as [X1 X2].
              destruct (eqb_spec x r); [congruence|]. destruct (eqb_spec x l); [congruence|]. cbn. auto.
      * intros x. rewrite TOP, get_set. destruct (eqb_spec x l) as [->|N].
        -- intros _. eexists. split; [reflexivity|]. intros q. rewrite TOP.
           destruct (eqb_spec r l) as [->|M].
           ++ destruct (eqb_spec q l) as [->|K]; cbn; [intuition|]. split; [intuition congruence|]. intros H. destruct (NX q l H). congruence.
           ++ destruct (eqb_spec q r) as [->|K1]; cbn; [intuition|]. destruct (eqb_spec q l) as [->|K2]; [intuition|].
              split; [intuition congruence|]. intros H. destruct (NX q l H). congruence.
        -- destruct (eqb_spec x r) as [->|M]; cbn [orb]; [intros H; congruence|]. intros H. destruct (If x H) as [fx [Efx Hfx]]. exists fx.
           split; [exact Efx|]. intros q. rewrite Hfx, TOP. destruct (eqb_spec q r) as [->|K1]; cbn [orb]; [intuition congruence|].
           destruct (eqb_spec q l) as [->|K2]; intuition congruence.
      * intros x. rewrite TOP, get_set. destruct (eqb_spec x l) as [->|N].
        -- destruct (eqb_spec l r); cbn [orb]; split; eauto.
        -- rewrite Id. destruct (eqb_spec x r) as [->|M]; cbn [orb]; [|reflexivity]. split; intros H; congruence.
      * intros a b J. rewrite !TOP. apply in_app_or in J. destruct J as [J|[J|[]]].
        -- assert (T1 : exists x, get (top Q B g) a = Some x) by (apply It; exists a, b; auto).
           assert (T2 : exists x, get (top Q B g) b = Some x) by (apply It; exists a, b; auto).
           destruct T1 as [x1 X1], T2 as [x2 X2]. destruct (NX _ _ X1) as [_ [_ [A1 A2]]], (NX _ _ X2) as [_ [_ [B1 B2]]].
           destruct (eqb_spec a r); [congruence|]. destruct (eqb_spec a l); [congruence|].
           destruct (eqb_spec b r); [congruence|]. destruct (eqb_spec b l); [congruence|]. cbn. now apply Ie.
        -- injection J as <- <-. destruct (eqb_spec l l); [|congruence]. destruct (eqb_spec r r); [|congruence]. rewrite orb_true_r. reflexivity.
    + rewrite TOP. destruct (eqb_spec l l); [|congruence]. now rewrite orb_true_r.
    + rewrite TOP. destruct (eqb_spec l l); [|congruence]. now rewrite orb_true_r.
Qed.

Definition at_rep (t : list (Q * Q)) (p : Q) (x : Q * Q * B) : bool :=
  match get t (fst (fst x)) with Some z => eqb z p | None => false end.
Definition dinv (g : grp Q B) (bl : list (Q * Q * B)) : Prop :=
  forall p, get (top Q B g) p = Some p -> exists d, get (dat Q B g) p = Some d /\
    Permutation d (map snd (filter (at_rep (top Q B g) p) bl)).

Lemma filter_none : forall (A : Type) (f : A -> bool) l, (forall x, In x l -> f x = false) -> filter f l = [].
Proof. intros A f l. induction l as [|a l IH]; intros H; [reflexivity|]. cbn. rewrite (H a (or_introl eq_refl)). apply IH. intros x I. apply H. now right. Qed.
Lemma filter_split : forall (A : Type) (f f1 f2 : A -> bool) l, (forall x, In x l -> f x = f1 x || f2 x) -> (forall x, In x l -> f1 x && f2 x = false) ->
  Permutation (filter f l) (filter f1 l ++ filter f2 l).
Proof.
  intros A f f1 f2 l. induction l as [|a l IH]; intros H1 H2; [constructor|]. cbn [filter].
  rewrite (H1 a (or_introl eq_refl)). assert (K := H2 a (or_introl eq_refl)).
  assert (P : Permutation (filter f l) (filter f1 l ++ filter f2 l)) by (apply IH; intros; [apply H1|apply H2]; now right).
  destruct (f1 a), (f2 a); cbn in K |- *; try discriminate.
  - now constructor.
  - eapply Permutation_trans; [apply perm_skip; exact P|]. apply Permutation_middle.
  - exact P.
Qed.

Lemma fuse_dat : forall g bl l r g' p, inv g (map fst bl) -> dinv g bl -> fuse_data_map Q eqb B g l r = Some (g', p) -> dinv g' bl.
Proof.
  intros g bl l r g' p [It Ir If Id Ie] D H p' Hp'. unfold fuse_data_map in H.
  assert (TB : forall x, In x bl -> exists z, get (top Q B g) (fst (fst x)) = Some z).
  { intros x I. apply It. exists (fst (fst x)), (snd (fst x)). split; [|now left]. rewrite <- surjective_pairing. now apply in_map. }
  destruct (get (top Q B g) l) as [pa|] eqn:El, (get (top Q B g) r) as [pb|] eqn:Er.
  - destruct (eqb_spec pa pb) as [E|N].
    + injection H as <- <-. now apply D.
    + destruct (Ir l pa El) as [Pp Cp], (Ir r pb Er) as [Ppb Cpb].
      destruct (If pa Pp) as [f [Ef Hf]], (If pb Ppb) as [fb [Efb Hfb]].
      destruct (D pa Pp) as [dp [Edp Hdp]], (D pb Ppb) as [db [Edb Hdb]].
      rewrite Efb, Ef, Edp, Edb in H. cbn [bind] in H. injection H as <- <-. cbn [top dat] in *.
      assert (TOP : forall q, get (fold_left (fun t q => dset eqb t q pa) fb (top Q B g)) q =
        match get (top Q B g) q with Some x => Some (if eqb x pb then pa else x) | None => None end).
      { intros q. rewrite get_setall. destruct (existsb (eqb q) fb) eqn:X.
        - apply existsb_eqb in X. apply Hfb in X. rewrite X. destruct (eqb_spec pb pb); congruence.
        - destruct (get (top Q B g) q) as [x|] eqn:Y; [|reflexivity]. destruct (eqb_spec x pb) as [->|]; [|reflexivity].
          apply Hfb in Y. apply existsb_eqb in Y. congruence. }
      rewrite get_del, get_set. rewrite TOP in Hp'. destruct (get (top Q B g) p') as [w|] eqn:W; [|discriminate].
      destruct (eqb_spec p' pb) as [E|M].
      * exfalso. subst p'. rewrite Ppb in W. injection W as W. subst w. destruct (eqb_spec pb pb); congruence.
      * destruct (eqb_spec p' pa) as [E|M2].
        -- subst p'. exists (dp ++ db). split; [reflexivity|]. rewrite Hdp, Hdb, <- map_app. apply Permutation_map. symmetry.
           apply filter_split.
           ++ intros x I. unfold at_rep. rewrite TOP. destruct (TB x I) as [z Z]. rewrite Z.
              destruct (eqb_spec z pb) as [->|]; [|destruct (eqb_spec z pa); reflexivity].
              destruct (eqb_spec pa pa); [|congruence]. now rewrite orb_true_r.
           ++ intros x I. unfold at_rep. destruct (TB x I) as [z Z]. rewrite Z. destruct (eqb_spec z pa), (eqb_spec z pb); subst; try reflexivity. congruence.
        -- destruct (eqb_spec w pb) as [->|M3]; [congruence|]. injection Hp' as E; subst w. destruct (D p' W) as [d [Ed Hd]]. exists d.
           split; [exact Ed|]. rewrite Hd. apply Permutation_map. erewrite filter_ext_in; [reflexivity|]. intros x I. unfold at_rep. rewrite TOP.
           destruct (TB x I) as [z Z]. rewrite Z. destruct (eqb_spec z pb) as [->|]; [|reflexivity].
           destruct (eqb_spec pb p'), (eqb_spec pa p'); congruence.
  - destruct (Ir l pa El) as [Pp Cp]. destruct (If pa Pp) as [f [Ef Hf]]. rewrite Ef in H. cbn [bind] in H. injection H as <- <-. cbn [top dat] in *.
    rewrite get_set in Hp'. destruct (eqb_spec p' r) as [E|N]; [congruence|]. destruct (D p' Hp') as [d [Ed Hd]]. exists d. split; [exact Ed|].
    rewrite Hd. apply Permutation_map. erewrite filter_ext_in; [reflexivity|]. intros x I. unfold at_rep. rewrite get_set. destruct (TB x I) as [z Z].
    destruct (eqb_spec (fst (fst x)) r); [congruence|reflexivity].
  - destruct (Ir r pb Er) as [Pp Cp]. destruct (If pb Pp) as [f [Ef Hf]]. rewrite Ef in H. cbn [bind] in H. injection H as <- <-. cbn [top dat] in *.
    rewrite get_set in Hp'. destruct (eqb_spec p' l) as [E|N]; [congruence|]. destruct (D p' Hp') as [d [Ed Hd]]. exists d. split; [exact Ed|].
    rewrite Hd. apply Permutation_map. erewrite filter_ext_in; [reflexivity|]. intros x I. unfold at_rep. rewrite get_set. destruct (TB x I) as [z Z].
    destruct (eqb_spec (fst (fst x)) l); [congruence|reflexivity].
  - injection H as <- <-. cbn [top dat] in *. rewrite !get_set in Hp'. rewrite get_set.
    assert (AT : forall q x, In x bl -> at_rep (dset eqb (dset eqb (top Q B g) l l) r l) q x = at_rep (top Q B g) q x).
    { intros q x I. unfold at_rep. rewrite !get_set. destruct (TB x I) as [z Z].
      destruct (eqb_spec (fst (fst x)) r); [congruence|]. destruct (eqb_spec (fst (fst x)) l); [congruence|reflexivity]. }
    destruct (eqb_spec p' l) as [E|N].
    + subst p'. exists []. split; [reflexivity|]. rewrite filter_none; [constructor|]. intros x I. rewrite (AT l x I). unfold at_rep.
      destruct (TB x I) as [z Z]. rewrite Z. destruct (eqb_spec z l) as [->|]; [|reflexivity]. destruct (Ir _ _ Z). congruence.
    + destruct (eqb_spec p' r) as [E|M]; [congruence|]. destruct (D p' Hp') as [d [Ed Hd]]. exists d. split; [exact Ed|].
      rewrite Hd. apply Permutation_map. erewrite filter_ext_in; [reflexivity|]. intros x I. symmetry. now apply AT.
Qed.

Theorem group_ok : forall blocks, exists g, group Q eqb B blocks = Some g /\ inv g (map fst blocks) /\ dinv g blocks.
Proof.
  intros blocks. unfold group.
  assert (K : forall done todo g, inv g (map fst done) -> dinv g done -> exists g',
    foldM (fun g (x : Q * Q * B) => do (g', p) <- fuse_data_map Q eqb B g (fst (fst x)) (snd (fst x));
      do d <- dget eqb (dat Q B g') p; Some (mkGr Q B (fromp Q B g') (top Q B g') (dset eqb (dat Q B g') p (d ++ [snd x])))) g todo = Some g'
    /\ inv g' (map fst (done ++ todo)) /\ dinv g' (done ++ todo)).
  { intros done todo. revert done. induction todo as [|[[l r] b] todo IH]; intros done g I D.
    - exists g. rewrite app_nil_r. auto.
    - cbn [foldM fst snd]. destruct (fuse_inv g (map fst done) l r I) as [g' [p [F [I' [Tl Tp]]]]].
      assert (D' := fuse_dat g done l r g' p I D F). rewrite F. cbn [bind].
      destruct (D' p Tp) as [d [Ed Hd]]. rewrite Ed. cbn [bind].
      replace (done ++ (l, r, b) :: todo) with ((done ++ [(l, r, b)]) ++ todo) by (now rewrite <- app_assoc).
      apply IH.
      + rewrite map_app. cbn [map fst]. destruct I' as [A1 A2 A3 A4 A5]. constructor; cbn [top fromp dat]; auto.
        intros q. rewrite get_set. destruct (eqb_spec q p) as [->|N]; [split; eauto|apply A4].
      + intros q Hq. cbn [top dat] in *. rewrite get_set. rewrite filter_app, map_app. cbn [filter]. unfold at_rep at 2. cbn [fst]. rewrite Tl.
        destruct (eqb_spec q p) as [E|N].
        * subst q. exists (d ++ [b]). split; [reflexivity|]. rewrite Hd. destruct (eqb_spec p p); [|congruence]. cbn. reflexivity.
        * destruct (D' q Hq) as [dq [Edq Hdq]]. exists dq. split; [exact Edq|]. destruct (eqb_spec p q); [congruence|]. cbn. now rewrite app_nil_r. }
  destruct (K [] blocks (mkGr Q B [] [] [])) as [g' [G1 [G2 G3]]].
  - constructor; cbn; try (intros; discriminate); try (intros; contradiction).
    + intros q. split; [intros [p H]; discriminate|intros [a [b [[] _]]]].
    + intros p. split; [intros [d H]; discriminate|discriminate].
  - intros p H. discriminate H.
  - exists g'. auto.
Qed.

Lemma nodup_ddel : forall (V : Type) (d : list (Q * V)) k, NoDup (map fst d) -> NoDup (map fst (ddel Q eqb d k)).
Proof.
  intros V d k. unfold ddel. induction d as [|[a v] d IH]; intros N; [constructor|]. inversion N as [|? ? N1 N2]; subst. cbn [filter fst].
  destruct (negb (eqb a k)); [|now apply IH]. cbn [map fst]. constructor; [|now apply IH].
  intros I. apply N1. apply in_map_iff in I. destruct I as [x [X1 X2]]. apply filter_In in X2. rewrite <- X1. now apply in_map.
Qed.
Lemma fuse_nodup : forall g l r g' p, NoDup (map fst (dat Q B g)) -> fuse_data_map Q eqb B g l r = Some (g', p) -> NoDup (map fst (dat Q B g')).
Proof.
  intros g l r g' p N H. unfold fuse_data_map in H.
  destruct (get (top Q B g) l) as [pa|], (get (top Q B g) r) as [pb|].
  - destruct (eqb pa pb); [now injection H as <- <-|].
    destruct (get (fromp Q B g) pb); [|discriminate]. destruct (get (fromp Q B g) pa); [|discriminate].
    destruct (get (dat Q B g) pa); [|discriminate]. destruct (get (dat Q B g) pb); [|discriminate]. cbn [bind] in H. injection H as <- <-. cbn [dat].
    apply nodup_ddel. now apply (nodup_dset _ eqb_spec).
  - destruct (get (fromp Q B g) pa); [|discriminate]. now injection H as <- <-.
  - destruct (get (fromp Q B g) pb); [|discriminate]. now injection H as <- <-.
  - injection H as <- <-. cbn [dat]. now apply (nodup_dset _ eqb_spec).
Qed.
Lemma group_nodup : forall blocks g, group Q eqb B blocks = Some g -> NoDup (map fst (dat Q B g)).
Proof.
  intros blocks g. unfold group.
  assert (K : forall g0, NoDup (map fst (dat Q B g0)) -> foldM (fun g (x : Q * Q * B) => do (g', p) <- fuse_data_map Q eqb B g (fst (fst x)) (snd (fst x));
      do d <- dget eqb (dat Q B g') p; Some (mkGr Q B (fromp Q B g') (top Q B g') (dset eqb (dat Q B g') p (d ++ [snd x])))) g0 blocks = Some g ->
      NoDup (map fst (dat Q B g))).
  { induction blocks as [|x blocks IH]; intros g0 N H; [now injection H as <-|]. cbn [foldM] in H.
    destruct (fuse_data_map Q eqb B g0 (fst (fst x)) (snd (fst x))) as [[g1 p]|] eqn:F; [|discriminate]. cbn [bind] in H.
    destruct (get (dat Q B g1) p) as [d|] eqn:E; [|discriminate]. cbn [bind] in H.
    eapply IH; [|exact H]. cbn [dat]. apply (nodup_dset _ eqb_spec). eapply fuse_nodup; eauto. }
  apply K. constructor.
Qed.
Lemma qmem_in : forall q l, qmem Q eqb q l = true <-> In q l.
Proof. exact existsb_eqb. Qed.
Lemma row_labels_ok : forall ds, NoDup (row_labels Q eqb ds) /\ forall q, In q (row_labels Q eqb ds) <-> touched ds q.
Proof.
  intros ds. unfold row_labels.
  assert (ADD : forall m q, NoDup m -> NoDup (if qmem Q eqb q m then m else m ++ [q]) /\
     forall z, In z (if qmem Q eqb q m then m else m ++ [q]) <-> In z m \/ z = q).
  { intros m q N. destruct (qmem Q eqb q m) eqn:E.
    - apply qmem_in in E. split; [exact N|]. intros z. split; [auto|]. intros [I| ->]; assumption.
    - split.
      + apply Permutation_NoDup with (q :: m); [apply Permutation_cons_append|]. constructor; [|exact N]. intros I. apply qmem_in in I. congruence.
      + intros z. rewrite in_app_iff. cbn. intuition. }
  assert (K : forall ds m, NoDup m -> let f := fold_left (fun m x => let m := if qmem Q eqb (fst x) m then m else m ++ [fst x] in
                        if qmem Q eqb (snd x) m then m else m ++ [snd x]) ds m in
      NoDup f /\ forall q, In q f <-> In q m \/ touched ds q).
  { clear ds. induction ds as [|[a b] ds IH]; intros m N; cbn [fold_left].
    - split; [exact N|]. intros q. split; [auto|]. intros [I|[a [b [[] _]]]]. exact I.
    - cbn zeta. destruct (ADD m a N) as [N1 I1]. cbn [fst snd]. destruct (ADD _ b N1) as [N2 I2].
      destruct (IH _ N2) as [N3 I3]. split; [exact N3|]. intros q. rewrite I3, I2, I1. unfold touched. split.
      + intros [[[I|I]|I]|[x [y [J1 J2]]]]; [auto| | |].
        * right. exists a, b. split; [now left|now left].
        * right. exists a, b. split; [now left|now right].
        * right. exists x, y. split; [now right|exact J2].
      + intros [I|[x [y [[J1|J1] J2]]]]; [auto| |].
        * injection J1 as <- <-. tauto.
        * right. exists x, y. auto. }
  destruct (K ds [] (NoDup_nil _)) as [N I]. split; [exact N|]. intros q. rewrite I. cbn. tauto.
Qed.
End Fuse.

Section Exp.
Variable Q : Type.
Variable eqb : Q -> Q -> bool.
Hypothesis eqb_spec : forall a b, reflect (a = b) (eqb a b).
Lemma conn_touched : forall E a b, conn Q E a b -> a <> b -> touched Q E a.
Proof.
  intros E a b C. assert (K : a = b \/ (touched Q E a /\ touched Q E b)).
  { induction C as [a b I|a|a b C IH|a b c C1 IH1 C2 IH2]; [|now left| |].
    - right. split; exists a, b; auto.
    - intuition.
    - destruct IH1 as [->|[A1 A2]], IH2 as [->|[B1 B2]]; auto. }
  intros N. destruct K as [->|[K _]]; [congruence|exact K].
Qed.
Lemma inv_conn : forall B g E a b, inv Q eqb B g E -> touched Q E a -> touched Q E b ->
  (dget eqb (top Q B g) a = dget eqb (top Q B g) b <-> conn Q E a b).
Proof.
  intros B g E a b I A Bt. split.
  - intros H. destruct (proj2 (i_top _ _ _ _ _ I a) A) as [p P]. assert (P' := P). rewrite H in P'.
    eapply conn_trans; [apply conn_sym; eapply i_rep; eauto|eapply i_rep; eauto].
  - intros C. clear A Bt. induction C as [x y J|x|x y C IH|x y z C1 IH1 C2 IH2]; [now apply (i_edge _ _ _ _ _ I)|reflexivity|auto|congruence].
Qed.

Theorem exp_labels_ok : forall blocks, exists out, exp_labels Q eqb blocks = Some out /\ NoDup out /\
  forall a b, In (a, b) out <-> touched Q blocks a /\ touched Q blocks b /\ conn Q blocks a b.
Proof.
  intros blocks. unfold exp_labels.
  destruct (group_ok Q eqb eqb_spec (Q * Q) (map (fun x => (x, x)) blocks)) as [g [G [I D]]].
  rewrite map_map in I. cbn [fst] in I. replace (map (fun x : Q * Q => x) blocks) with blocks in I by (symmetry; apply map_id).
  rewrite G. cbn [bind]. eexists. split; [reflexivity|].
  assert (N := group_nodup Q eqb eqb_spec _ _ _ G).
  assert (SEL : forall p d, In (p, d) (dat Q (Q * Q) g) -> forall l r, In (l, r) d <-> In (l, r) blocks /\ dget eqb (top Q _ g) l = Some p).
  { intros p d J l r. apply (in_dget _ eqb_spec _ _ _ N) in J. assert (T : dget eqb (top Q _ g) p = Some p) by (apply (i_dat _ _ _ _ _ I); eauto).
    destruct (D p T) as [d' [E P]]. rewrite E in J. injection J as ->.
    assert (P' : In (l, r) d <-> In (l, r) (map snd (filter (at_rep Q eqb (Q * Q) (top Q (Q * Q) g) p) (map (fun x => (x, x)) blocks)))).
    { split; apply Permutation_in; [exact P|apply Permutation_sym; exact P]. }
    rewrite P', in_map_iff. split.
    - intros [[u v] [E1 E2]]. cbn in E1. subst v. apply filter_In in E2. destruct E2 as [E2 E3]. apply in_map_iff in E2. destruct E2 as [z [Z1 Z2]].
      injection Z1 as Z3 Z4. subst u z. split; [exact Z2|]. unfold at_rep in E3. cbn [fst] in E3. destruct (dget eqb (top Q (Q * Q) g) l) as [w|]; [|discriminate].
      destruct (eqb_spec w p); [now subst|discriminate].
    - intros [B1 B2]. exists (l, r, (l, r)). split; [reflexivity|]. apply filter_In. split; [apply in_map_iff; exists (l, r); auto|].
      unfold at_rep. cbn [fst]. rewrite B2. destruct (eqb_spec p p); congruence. }
  assert (ROW : forall p d, In (p, d) (dat Q (Q * Q) g) -> forall q, In q (row_labels Q eqb d) <-> dget eqb (top Q _ g) q = Some p).
  { intros p d J q. rewrite (proj2 (row_labels_ok Q eqb eqb_spec d) q). split.
    - intros [a [b [K1 K2]]]. apply (SEL p d J) in K1. destruct K1 as [K1 K3]. destruct K2 as [->| ->]; [exact K3|]. now rewrite <- (i_edge _ _ _ _ _ I a b K1).
    - intros T. assert (TT : touched Q blocks q) by (apply (i_top _ _ _ _ _ I); eauto). destruct TT as [a [b [K1 K2]]].
      exists a, b. split; [|exact K2]. apply (SEL p d J). split; [exact K1|]. destruct K2 as [->| ->]; [exact T|]. now rewrite (i_edge _ _ _ _ _ I a b K1). }
  split.
  - assert (K : forall L, (forall x, In x L -> In x (dat Q (Q * Q) g)) -> NoDup (map fst L) ->
      NoDup (flat_map (fun p => list_prod (row_labels Q eqb (snd p)) (row_labels Q eqb (snd p))) L)).
    { induction L as [|[p d] L IH]; intros S0 NL; [constructor|]. inversion NL as [|? ? N1 N2]; subst. cbn [flat_map snd].
      assert (ND : forall (l m : list Q), NoDup l -> NoDup m -> NoDup (list_prod l m)).
      { clear. induction l as [|x l IH]; intros m A B; [constructor|]. inversion A as [|? ? A1 A2]; subst. cbn [list_prod].
        assert (K : forall (u v : list (Q * Q)), NoDup u -> NoDup v -> (forall z, In z u -> In z v -> False) -> NoDup (u ++ v)).
        { clear. induction u as [|a u IHu]; intros v U V X; [exact V|]. inversion U as [|? ? U1 U2]; subst. cbn. constructor.
          - rewrite in_app_iff. intros [I|I]; [contradiction|]. apply (X a); [now left|exact I].
          - apply IHu; auto. intros z Z1 Z2. apply (X z); [now right|exact Z2]. }
        apply K; [|now apply IH|].
        - clear -B. induction B as [|y m B1 B2 IHm]; [constructor|]. cbn. constructor; [|exact IHm]. rewrite in_map_iff. intros [w [W1 W2]]. injection W1 as ->. contradiction.
        - intros [u v] I1 I2. apply in_map_iff in I1. destruct I1 as [w [W1 W2]]. injection W1 as <- <-. apply in_prod_iff in I2. tauto. }
      assert (K : forall (u v : list (Q * Q)), NoDup u -> NoDup v -> (forall z, In z u -> In z v -> False) -> NoDup (u ++ v)).
      { clear. induction u as [|a u IHu]; intros v U V X; [exact V|]. inversion U as [|? ? U1 U2]; subst. cbn. constructor.
        - rewrite in_app_iff. intros [I|I]; [contradiction|]. apply (X a); [now left|exact I].
        - apply IHu; auto. intros z Z1 Z2. apply (X z); [now right|exact Z2]. }
      apply K.
      - apply ND; apply row_labels_ok; exact eqb_spec.
      - apply IH; [intros x X; apply S0; now right|exact N2].
      - intros [u v] I1 I2. apply in_prod_iff in I1. destruct I1 as [I1 _]. apply (ROW p d (S0 _ (or_introl eq_refl))) in I1.
        apply in_flat_map in I2. destruct I2 as [[p' d'] [J1 J2]]. apply in_prod_iff in J2. destruct J2 as [J2 _].
        apply (ROW p' d' (S0 _ (or_intror J1))) in J2. rewrite I1 in J2. injection J2 as ->. apply N1. change p' with (fst (p', d')). now apply in_map. }
    apply K; [auto|exact N].
  - intros a b. rewrite in_flat_map. split.
    + intros [[p d] [J1 J2]]. cbn [snd] in J2. apply in_prod_iff in J2. destruct J2 as [Ja Jb].
      apply (ROW p d J1) in Ja, Jb. assert (Ta : touched Q blocks a) by (apply (i_top _ _ _ _ _ I); eauto).
      assert (Tb : touched Q blocks b) by (apply (i_top _ _ _ _ _ I); eauto). split; [exact Ta|]. split; [exact Tb|].
      apply (inv_conn _ g); auto. congruence.
    + intros [Ta [Tb C]]. apply (inv_conn _ g _ _ _ I Ta Tb) in C. destruct (proj2 (i_top _ _ _ _ _ I a) Ta) as [p P].
      assert (T := proj1 (i_rep _ _ _ _ _ I a p P)). destruct (D p T) as [d [E _]]. apply (dget_in _ eqb_spec) in E.
      exists (p, d). split; [exact E|]. cbn [snd]. apply in_prod; apply (ROW p d E); congruence.
Qed.
End Exp.

(* ------------------------------------------------------- accumulation *)
Definition in4 (s : Z) : Prop := In s all4.
Ltac four H := cbn in H; destruct H as [<-|[<-|[<-|[<-|[]]]]].

Lemma list_eqb_spec : forall (A : Type) (e : A -> A -> bool), (forall a b, reflect (a = b) (e a b)) ->
  forall a b, reflect (a = b) (list_eqb e a b).
Proof.
  intros A e He a. induction a as [|x a IH]; intros [|y b]; cbn; try (constructor; congruence).
  destruct (He x y) as [->|N]; cbn; [|constructor; congruence]. destruct (IH b) as [->|N]; constructor; congruence.
Qed.
Lemma qlab_eqb_spec : forall a b, reflect (a = b) (qlab_eqb a b).
Proof.
  intros [a1 a2] [b1 b2]. unfold qlab_eqb. cbn. destruct (Z.eqb_spec a1 b1), (Z.eqb_spec a2 b2); cbn; constructor; congruence.
Qed.
Lemma key_eqb_spec : forall a b, reflect (a = b) (key_eqb a b).
Proof. apply list_eqb_spec. exact qlab_eqb_spec. Qed.
Lemma zlist_eqb_spec : forall a b, reflect (a = b) (list_eqb Z.eqb a b).
Proof. apply list_eqb_spec. exact Z.eqb_spec. Qed.

Lemma dims_q : forall y a b, in4 a -> in4 b -> q_of y a = q_of y b -> dim_of y a = dim_of y b.
Proof. intros y a b A B. four A; four B; destruct y; cbn; congruence. Qed.
Lemma state_inj1 : forall y a b, in4 a -> in4 b -> q_of y a = q_of y b -> ix_of y a = ix_of y b -> a = b.
Proof. intros y a b A B. four A; four B; destruct y; cbn; congruence. Qed.
Lemma ix_range : forall y a, in4 a -> 0 <= ix_of y a < dim_of y a.
Proof. intros y a A. four A; destruct y; cbn; lia. Qed.
Lemma dims_ql : forall y s t, Forall in4 s -> Forall in4 t -> map (q_of y) s = map (q_of y) t -> map (dim_of y) s = map (dim_of y) t.
Proof.
  intros y s. induction s as [|a s IH]; intros [|b t] A B H; cbn in H; try discriminate; [reflexivity|].
  inversion A; inversion B; subst. injection H as Q1 Q2. cbn. f_equal; [now apply dims_q|now apply IH].
Qed.
Lemma state_inj : forall y s t, Forall in4 s -> Forall in4 t -> map (q_of y) s = map (q_of y) t -> map (ix_of y) s = map (ix_of y) t -> s = t.
Proof.
  intros y s. induction s as [|a s IH]; intros [|b t] A B H K; cbn in H, K; try discriminate; [reflexivity|].
  inversion A; inversion B; subst. injection H as Q1 Q2. injection K as K1 K2. f_equal; [now apply (state_inj1 y)|now apply IH].
Qed.
Lemma in_shape_st : forall y s, Forall in4 s -> in_shape (map (dim_of y) s) (map (ix_of y) s) = true.
Proof.
  intros y s A. unfold in_shape. rewrite !map_length, Nat.eqb_refl. cbn [andb]. induction A as [|a s H A IH]; [reflexivity|].
  cbn. rewrite IH, andb_true_r. assert (K := ix_range y a H). apply andb_true_intro. split; [apply Z.leb_le|apply Z.ltb_lt]; lia.
Qed.

Lemma foldM_app : forall (A X : Type) (f : A -> X -> option A) l1 l2 a, foldM f a (l1 ++ l2) = bind (foldM f a l1) (fun b => foldM f b l2).
Proof. intros A X f l1. induction l1 as [|x l1 IH]; intros l2 a; [reflexivity|]. cbn [app foldM]. destruct (f a x); cbn [bind]; [apply IH|reflexivity]. Qed.
Lemma foldM_flat_map : forall (A X Y : Type) (f : A -> X -> option A) (F : Y -> list X) l a,
  foldM f a (flat_map F l) = foldM (fun b z => foldM f b (F z)) a l.
Proof.
  intros A X Y f F l. induction l as [|z l IH]; intros a; [reflexivity|]. cbn [flat_map foldM]. rewrite foldM_app.
  destruct (foldM f a (F z)); cbn [bind]; [apply IH|reflexivity].
Qed.
Lemma foldM_map : forall (A X Y : Type) (f : A -> X -> option A) (F : Y -> X) l a, foldM f a (map F l) = foldM (fun b z => f b (F z)) a l.
Proof. intros A X Y f F l. induction l as [|z l IH]; intros a; [reflexivity|]. cbn [map foldM]. destruct (f a (F z)); cbn [bind]; [apply IH|reflexivity]. Qed.

Section Acc.
Variable R : CRing.
Add Ring Rr : (rth R).
Notation "a +! b" := (radd R a b) (at level 50, left associativity).
Notation "a *! b" := (rmul R a b) (at level 40, left associativity).

Lemma last_block_dget : forall (t : ften R) q, NoDup (map fst t) -> last_block R t q = dget key_eqb t q.
Proof.
  intros t q. unfold last_block.
  assert (K : forall (t : ften R) (o : option (block R)), NoDup (map fst t) -> fold_left (fun (r : option (block R)) (p : list qlab * block R) => if key_eqb (fst p) q then Some (snd p) else r) t o =
    match dget key_eqb t q with Some b => Some b | None => o end).
  { clear t. induction t as [|[k b] t IH]; intros o N; [reflexivity|]. inversion N as [|? ? N1 N2]; subst. cbn [fold_left fst snd dget]. rewrite IH by exact N2.
    destruct (key_eqb_spec k q) as [->|M]; [|reflexivity]. destruct (dget key_eqb t q) eqn:E; [|reflexivity].
    exfalso. apply N1. apply (dget_in _ key_eqb_spec) in E. change q with (fst (q, b0)). now apply in_map. }
  intros N. rewrite K by exact N. now destruct (dget key_eqb t q).
Qed.
(* block labels are distinct and each block has the shape its labels ask for *)
Definition good (y : symm) (d : ften R) : Prop := NoDup (map fst d) /\
  forall q b, In (q, b) d -> exists st, Forall in4 st /\ q = map (q_of y) st /\ b_dims R b = map (dim_of y) st.

Lemma accum_ok : forall y d st v, good y d -> Forall in4 st -> exists d', accum R y d st v = Some d' /\ good y d' /\
  forall st', Forall in4 st' -> elem R y d' st' = elem R y d st' +! (if list_eqb Z.eqb st st' then v else r0 R).
Proof.
  intros y d st v [N G] A. unfold accum.
  set (b := match dget key_eqb d (map (q_of y) st) with Some b => b | None => zeros R (map (dim_of y) st) end).
  assert (DB : b_dims R b = map (dim_of y) st).
  { unfold b. destruct (dget key_eqb d (map (q_of y) st)) as [b0|] eqn:E; [|reflexivity].
    apply (dget_in _ key_eqb_spec) in E. destruct (G _ _ E) as [s0 [S1 [S2 S3]]]. rewrite S3. symmetry. now apply dims_ql. }
  unfold add_at. rewrite DB, in_shape_st by exact A. cbn [bind].
  eexists. split; [reflexivity|].
  match goal with |- good y ?d0 /\ _ => assert (N' : NoDup (map fst d0)) by (apply (nodup_dset _ key_eqb_spec); exact N) end.
  split.
  - split; [exact N'|]. intros q b0 I. apply (in_dget _ key_eqb_spec _ _ _ N') in I. rewrite (dget_dset _ key_eqb_spec) in I.
    destruct (key_eqb_spec (map (q_of y) st) q) as [<-|M].
    + injection I as <-. exists st. auto.
    + apply (dget_in _ key_eqb_spec) in I. now apply G.
  - intros st' A'. unfold elem. rewrite !last_block_dget by assumption. rewrite (dget_dset _ key_eqb_spec).
    destruct (key_eqb_spec (map (q_of y) st) (map (q_of y) st')) as [E|M].
    + cbn [b_at]. unfold b. rewrite <- E. destruct (zlist_eqb_spec (map (ix_of y) st') (map (ix_of y) st)) as [E2|M2].
      * assert (X : st' = st) by (apply (state_inj y); auto). subst st'. destruct (zlist_eqb_spec st st); [|congruence].
        destruct (dget key_eqb d (map (q_of y) st)); cbn [zeros b_at]; ring.
      * destruct (zlist_eqb_spec st st') as [->|]; [congruence|]. destruct (dget key_eqb d (map (q_of y) st)); cbn [zeros b_at]; ring.
    + destruct (zlist_eqb_spec st st') as [->|]; [congruence|]. ring.
Qed.

Definition accumL (y : symm) (d : ften R) (l : list (list Z * R)) : option (ften R) := foldM (fun d p => accum R y d (fst p) (snd p)) d l.
Lemma accumL_ok : forall y l d, good y d -> (forall p, In p l -> Forall in4 (fst p)) -> exists d', accumL y d l = Some d' /\ good y d' /\
  forall st', Forall in4 st' -> elem R y d' st' = elem R y d st' +! bsum l (fun p => if list_eqb Z.eqb (fst p) st' then snd p else r0 R).
Proof.
  intros y l. induction l as [|[st v] l IH]; intros d G A.
  - exists d. split; [reflexivity|]. split; [exact G|]. intros. rewrite bsum_nil. ring.
  - destruct (accum_ok y d st v G (A _ (or_introl eq_refl))) as [d1 [E1 [G1 H1]]].
    destruct (IH d1 G1 (fun p I => A p (or_intror I))) as [d2 [E2 [G2 H2]]].
    exists d2. unfold accumL. cbn [foldM fst snd]. rewrite E1. cbn [bind]. split; [exact E2|]. split; [exact G2|].
    intros st' A'. rewrite H2, H1 by exact A'. rewrite bsum_cons. cbn [fst snd]. ring.
Qed.
Lemma good_nil : forall y, good y [].
Proof. intros y. split; [constructor|intros q b []]. Qed.
Lemma elem_nil : forall y st, elem R y [] st = r0 R.
Proof. reflexivity. Qed.

(* ---- integers in the ring *)
Lemma zr_add : forall a b, zr R (a + b) = zr R a +! zr R b.
Proof. induction a as [|a IH]; intros b; cbn [zr Nat.add]; [ring|]. rewrite IH. ring. Qed.
Lemma ofZ_nat : forall n, ofZ R (Z.of_nat n) = zr R n.
Proof. intros [|n]; [reflexivity|]. cbn [Z.of_nat ofZ]. now rewrite SuccNat2Pos.id_succ. Qed.
Lemma ofZ_opp : forall z, ofZ R (- z) = ropp R (ofZ R z).
Proof. intros [|p|p]; cbn [Z.opp ofZ]; ring. Qed.
Lemma ofZ_sub_nat : forall a b, ofZ R (Z.of_nat a - Z.of_nat b) = rsub R (zr R a) (zr R b).
Proof.
  intros a b. destruct (Nat.le_ge_cases a b) as [L|L].
  - replace (Z.of_nat a - Z.of_nat b) with (- Z.of_nat (b - a)) by lia. rewrite ofZ_opp, ofZ_nat.
    replace b with (a + (b - a))%nat at 2 by lia. rewrite zr_add. ring.
  - replace (Z.of_nat a - Z.of_nat b) with (Z.of_nat (a - b)) by lia. rewrite ofZ_nat.
    replace a with (b + (a - b))%nat at 2 by lia. rewrite zr_add. ring.
Qed.
Lemma ofZ_add : forall a b, ofZ R (a + b) = ofZ R a +! ofZ R b.
Proof.
  assert (D : forall z, exists m n, z = Z.of_nat m - Z.of_nat n) by (intros z; exists (Z.to_nat z), (Z.to_nat (- z)); lia).
  intros a b. destruct (D a) as [m [n ->]], (D b) as [m' [n' ->]].
  replace (Z.of_nat m - Z.of_nat n + (Z.of_nat m' - Z.of_nat n')) with (Z.of_nat (m + m') - Z.of_nat (n + n')) by lia.
  rewrite !ofZ_sub_nat, !zr_add. ring.
Qed.
Lemma ofZ_1 : ofZ R 1 = r1 R.
Proof. unfold ofZ. change (Pos.to_nat 1) with 1%nat. cbn [zr]. ring. Qed.
Lemma bsum_ofZ : forall (X : Type) (l : list X) (f : X -> Z) (v : R), bsum l (fun x => ofZ R (f x) *! v) = ofZ R (zsum (map f l)) *! v.
Proof.
  intros X l f v. induction l as [|x l IH]; [rewrite bsum_nil; change (zsum (map f [])) with 0; cbn [ofZ]; ring|]. rewrite bsum_cons, IH. cbn [map]. rewrite zsum_cons, ofZ_add. ring.
Qed.
End Acc.
