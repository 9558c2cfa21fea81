(** The tables of BuildModel as operators on a chain of sites: where the words live, what the tensors are, and that the
    chain of tables is the sum of the strings. *)
From Coq Require Import ZArith Bool List Lia Ring Sorted Permutation.
From Verif Require Import SymModel SymProofs DictLib IndexLib RingLib OptLib SiteModel SiteProofs SiteOps SiteProps QcAlg QcWords QcSite QcChain BuildModel BuildProofs.
Import ListNotations.
Open Scope Z_scope.

(* ---- words without the identity *)
Definition erase (w : list osym) : list QcAlg.letter := flat_map (fun o : osym => match o with Some a => [a] | None => [] end) w.
Lemma erase_app : forall a b, erase (a ++ b) = erase a ++ erase b. Proof. intros. apply flat_map_app. Qed.
Lemma erase_some : forall u, erase (map Some u) = u. Proof. induction u as [|a u IH]; [reflexivity|]. cbn. f_equal. exact IH. Qed.
Lemma prefix_le : forall i w, (prefix i w <= length w)%nat.
Proof. intros i. induction w as [|[[b [j s]]|] w IH]; cbn [prefix length]; try lia. destruct (j <=? i); lia. Qed.
Lemma erase_parts : forall i w, erase (left_part i w ++ right_part i w) = erase w.
Proof.
  intros i w. rewrite erase_app. unfold left_part, right_part. destruct (Nat.eqb_spec (prefix i w) 0) as [E|E]; destruct (Nat.eqb_spec (prefix i w) (length w)) as [L|L].
  - rewrite E in L. symmetry in L. apply length_zero_iff_nil in L. subst. reflexivity.
  - now rewrite E.
  - rewrite L, firstn_all. cbn. apply app_nil_r.
  - now rewrite <- erase_app, firstn_skipn.
Qed.
Definition site (a : letter) : Z := fst (snd a).
Inductive good (n : nat) (i : Z) : list osym -> Prop :=
  | good_one : good n i [None]
  | good_word : forall u : list letter, Forall (okl n) u -> Forall (fun a => i <= site a) u -> StronglySorted (fun a b => site a <= site b) u -> good n i (map Some u).
Definition here_sym (i : Z) (o : osym) : Prop := match o with Some a => site a = i /\ In (snd (snd a)) spins | None => True end.
Lemma prefix_split : forall i (u : list letter), Forall (fun a => i <= site a) u -> StronglySorted (fun a b => site a <= site b) u ->
  exists u1 u2, u = u1 ++ u2 /\ prefix i (map Some u) = length u1 /\ Forall (fun a => site a = i) u1 /\ Forall (fun a => i + 1 <= site a) u2.
Proof.
  intros i. induction u as [|[b [j s]] u IH]; intros F St; [exists [], []; repeat split; constructor|].
  inversion F as [|? ? Hj F']; subst. inversion St as [|? ? St' Ha]; subst. cbn [map prefix]. unfold site in Hj. cbn [fst snd] in Hj.
  destruct (Z.leb_spec j i) as [L|L].
  - destruct (IH F' St') as [u1 [u2 [-> [P [A B]]]]]. exists ((b, (j, s)) :: u1), u2. repeat split; [cbn [length]; f_equal; exact P| |exact B]. constructor; [unfold site; cbn; lia|exact A].
  - exists [], ((b, (j, s)) :: u). repeat split; [constructor|]. constructor; [unfold site; cbn; lia|]. eapply Forall_impl; [|exact Ha]. intros a. unfold site. cbn [fst snd]. lia.
Qed.
Lemma sorted_app : forall (P : letter -> letter -> Prop) a b, StronglySorted P (a ++ b) -> StronglySorted P b.
Proof. intros P. induction a as [|x a IH]; intros b H; [exact H|]. inversion H; subst. auto. Qed.
Lemma parts_good : forall n i w, good n i w -> (left_part i w <> [] /\ Forall (here_sym i) (left_part i w)) /\ good n (i + 1) (right_part i w) /\ right_part i w <> [].
Proof.
  intros n i w [|u F L St].
  - split; [split; [discriminate|repeat constructor]|split; [constructor|discriminate]].
  - destruct (prefix_split i u L St) as [u1 [u2 [-> [P [A B]]]]]. unfold left_part, right_part. rewrite P, map_length, app_length, map_app.
    apply Forall_app in F. destruct F as [F1 F2]. split.
    + destruct (Nat.eqb_spec (length u1) 0) as [E|E]; [split; [discriminate|repeat constructor]|].
      rewrite firstn_app, map_length, Nat.sub_diag. cbn [firstn]. rewrite app_nil_r. rewrite <- (map_length Some u1), firstn_all. split.
      * destruct u1; [contradiction|discriminate].
      * apply Forall_map. clear - A F1. induction u1 as [|a u1 IH]; [constructor|]. inversion A; subst. inversion F1 as [|? ? [X Y] Z]; subst. constructor; [split; (reflexivity || assumption)|auto].
    + destruct (Nat.eqb_spec (length u1) (length u1 + length u2)) as [E|E]; [split; [constructor|discriminate]|].
      rewrite <- (map_length Some u1) at 1 2. rewrite skipn_app, skipn_all, Nat.sub_diag. cbn [skipn app]. split.
      * constructor; [exact F2|exact B|]. eapply sorted_app, St.
      * destruct u2; [cbn in E; lia|discriminate].
Qed.

Lemma dget_mapM : forall (K A B : Type) (eqb : K -> K -> bool) (f : A -> option B) (d : list (K * A)) r k,
  mapM (fun kv => do x <- f (snd kv); Some (fst kv, x)) d = Some r ->
  match dget eqb r k with Some y => exists x, dget eqb d k = Some x /\ f x = Some y | None => dget eqb d k = None end.
Proof.
  intros K A B eqb f. induction d as [|[k0 x] d IH]; intros r k E; cbn [mapM] in E; [injection E as <-; reflexivity|]. cbn [fst snd] in E.
  destruct (f x) as [y|] eqn:Ey; cbn [bind] in E; [|discriminate]. match type of E with bind ?m _ = _ => destruct m as [r'|] eqn:Er; cbn [bind] in E; [|discriminate] end.
  injection E as <-. cbn [dget]. destruct (eqb k0 k); [exists x; auto|]. now apply IH.
Qed.

Section Chain.
Variable R : CRing.
Add Ring RR : (rth R).
Notation "0'" := (r0 R). Notation "1'" := (r1 R).
Infix "+'" := (radd R) (at level 50, left associativity).
Infix "*'" := (rmul R) (at level 40, left associativity).
Notation "-' a" := (ropp R a) (at level 35).
Notation expr := (expr R). Notation str := (R * list osym)%type.
Notation ev := (ev R). Notation cv := (cv R).

Definition epoly (e : expr) : list str := match e with Num0 _ => [] | Elem _ o => [(1', [o])] | Str _ s => [s] | Sum _ l => l end.
Lemma ev_poly : forall e phi, ev e phi = bsum (epoly e) (fun s => fst s *' phi (snd s)).
Proof. intros [|o|s|l] phi; cbn [BuildProofs.ev epoly]; unfold sev; rewrite ?bsum_cons, ?bsum_nil; cbn [fst snd]; ring. Qed.
Definition words (e : expr) : list (list osym) := map snd (epoly e).

(* ---- the tensor of an expression *)
Variable orb : Z -> Z.
Lemma sword_app : forall w1 w2 x' x, In x' st4 -> sword R (w1 ++ w2) x' x = mmul R (sword R w1) (sword R w2) x' x.
Proof.
  intros w1 w2. induction w1 as [|[a [j s]] w1 IH]; intros x' x X'; unfold mmul.
  - cbn [app sword]. rewrite (bsum_single R _ st4 _ x'); [unfold id1; rewrite Z.eqb_refl; ring|repeat constructor; cbn; intuition discriminate|exact X'|].
    intros y _ N. unfold id1. replace (x' =? y) with false by lia. ring.
  - cbn [app sword]. rewrite (bsum_ext R _ st4 _ (fun y => bsum st4 (fun z => elem R a s x' y *' (sword R w1 y z *' sword R w2 z x)))).
    + rewrite bsum_swap. apply bsum_ext. intros z _. rewrite <- bsum_mulr. apply bsum_ext. intros. ring.
    + intros y Y. rewrite IH by exact Y. unfold mmul. now rewrite bsum_mull.
Qed.
Definition repw (g : Z) (y : fop R) (w : list QcAlg.letter) : Prop :=
  rep R g y (if Nat.odd (length w) then sword R w else mzero R) (if Nat.odd (length w) then mzero R else sword R w).
Lemma mmul0l : forall b x' x, mmul R (mzero R) b x' x = 0'. Proof. intros. unfold mmul, mzero. apply bsum_zero. intros. ring. Qed.
Lemma mmul0r : forall a x' x, mmul R a (mzero R) x' x = 0'. Proof. intros. unfold mmul, mzero. apply bsum_zero. intros. ring. Qed.
Lemma repw_mm : forall g a b w1 w2, repw g a w1 -> repw g b w2 -> repw g (op_mm R a b) (w1 ++ w2).
Proof.
  intros g a b w1 w2 A B. unfold repw in *. eapply rep_ext; [exact (rep_mm R g a b _ _ _ _ A B)|]. intros x' x X' X. unfold madd.
  rewrite app_length, Nat.odd_add. destruct (Nat.odd (length w1)), (Nat.odd (length w2)); cbn [xorb]; rewrite ?mmul0l, ?mmul0r, ?sword_app by exact X'; unfold mzero; split; ring.
Qed.
Lemma letter_rep : forall m o y, here_sym m o \/ (match o with Some a => In (snd (snd a)) spins | None => True end) -> letter_op R orb m o = Some y -> repw (orb m) y (erase [o]).
Proof.
  intros m [[[|] [j s]]|] y H E; cbn [letter_op] in E; unfold repw; cbn [erase flat_map app length Nat.odd Nat.even negb].
  - assert (Hs : In s spins) by (destruct H as [H|H]; [apply H|exact H]). destruct (rd R (orb m) s Hs) as [o [Eo P]]. rewrite E in Eo. injection Eo as ->.
    eapply rep_ext; [exact P|]. intros x' x X' X. rewrite (sw1 R (fun _ _ _ => 0') (fun _ _ _ _ _ _ => 0')) by assumption. split; reflexivity.
  - assert (Hs : In s spins) by (destruct H as [H|H]; [apply H|exact H]). destruct (rc R (orb m) s Hs) as [o [Eo P]]. rewrite E in Eo. injection Eo as ->.
    eapply rep_ext; [exact P|]. intros x' x X' X. rewrite (sw1 R (fun _ _ _ => 0') (fun _ _ _ _ _ _ => 0')) by assumption. split; reflexivity.
  - assert (O := one_is_one R (orb m)). unfold one_of in O. rewrite E in O. rewrite i_eq in E. apply (f_equal (fun o => match o with Some x => x | None => y end)) in E. cbn beta iota in E. rewrite <- E in *. split; [split; [cbn [f_odd]; apply raw_wf, nil_ok|cbn [f_even]; apply raw_wf]|].
    + split; [repeat constructor; cbn; intuition discriminate|]. intros a b v I. cbn in I. repeat (destruct I as [I|I]; [injection I as <- <- <-; cbn; auto 10|]). destruct I.
    + intros x' x X' X. destruct (O x' x X' X) as [A B]. split; [exact B|exact A].
Qed.
Lemma letter_some : forall m o, (match o with Some a => In (snd (snd a)) spins | None => True end) -> exists y, letter_op R orb m o = Some y.
Proof.
  intros m [[[|] [j s]]|] H; cbn [letter_op].
  - destruct (rd R (orb m) s H) as [y [E _]]. eauto.
  - destruct (rc R (orb m) s H) as [y [E _]]. eauto.
  - rewrite i_eq. eauto.
Qed.
Definition spin_sym (o : osym) : Prop := match o with Some a => In (snd (snd a)) spins | None => True end.
Lemma fold_mm : forall m w l y w0, Forall spin_sym w -> repw (orb m) y w0 -> mapM (letter_op R orb m) w = Some l -> repw (orb m) (fold_left (op_mm R) l y) (w0 ++ erase w).
Proof.
  intros m. induction w as [|o w IH]; intros l y w0 F Y E; cbn [mapM] in E; [injection E as <-; cbn; now rewrite app_nil_r|].
  inversion F as [|? ? Fo Fw]; subst. destruct (letter_op R orb m o) as [z|] eqn:Ez; cbn [bind] in E; [|discriminate]. destruct (mapM (letter_op R orb m) w) as [l'|]; cbn [bind] in E; [|discriminate].
  injection E as <-. cbn [fold_left]. replace (w0 ++ erase (o :: w)) with ((w0 ++ erase [o]) ++ erase w) by (rewrite <- app_assoc; destruct o; reflexivity).
  apply IH; [exact Fw| |reflexivity]. apply repw_mm; [exact Y|]. eapply letter_rep; [right; exact Fo|exact Ez].
Qed.
(* an operator tensor is well formed and has the given elements on the chain *)
Definition is_op (g : Z) (y : fop R) (F : list Z -> Z -> Z -> R) : Prop :=
  (exists a b, rep R g y a b) /\ forall s x' x, In x' st4 -> In x st4 -> opel R g y s x' x = F s x' x.
Lemma is_plus : forall g y z F G, is_op g y F -> is_op g z G -> is_op g (op_plus R y z) (fun s x' x => F s x' x +' G s x' x).
Proof.
  intros g y z F G [[a [b A]] HF] [[c [d C]] HG]. assert (P := rep_plus R g y z _ _ _ _ A C). split; [eauto|]. intros s x' x X' X. rewrite <- HF, <- HG by assumption. unfold opel.
  destruct A as [_ A], C as [_ C], P as [_ P]. destruct (A x' x X' X) as [-> ->], (C x' x X' X) as [-> ->], (P x' x X' X) as [-> ->]. unfold madd. ring.
Qed.
Lemma is_repw : forall g y w c, repw g y w -> is_op g (op_scale R c y) (fun s x' x => c *' psi R s x' x w).
Proof.
  intros g y w c A. assert (P := rep_scale R g y _ _ c A). split; [eauto|]. intros s x' x X' X. unfold opel. destruct P as [_ P]. destruct (P x' x X' X) as [-> ->].
  unfold mscale, psi, pw, mzero. destruct (Nat.odd (length w)); ring.
Qed.
Lemma string_val : forall m s y, Forall spin_sym (snd s) -> string_op R orb m s = Some y -> is_op (orb m) y (fun t x' x => fst s *' psi R t x' x (erase (snd s))).
Proof.
  intros m [c w] y F E. unfold string_op in E. cbn [fst snd] in *. destruct (mapM (letter_op R orb m) w) as [l|] eqn:El; cbn [bind] in E; [|discriminate].
  destruct w as [|o w]; cbn [mapM] in El; [injection El as <-; discriminate|]. destruct (letter_op R orb m o) as [z|] eqn:Ez; cbn [bind] in El; [|discriminate].
  destruct (mapM (letter_op R orb m) w) as [l'|] eqn:El'; cbn [bind] in El; [|discriminate]. injection El as <-. injection E as <-. inversion F; subst.
  apply is_repw. replace (erase (o :: w)) with (erase [o] ++ erase w) by (destruct o; reflexivity). apply fold_mm; [assumption| |assumption]. eapply letter_rep; [right; eassumption|exact Ez].
Qed.
Lemma fold_plus : forall m l ys y F, Forall (fun s => Forall spin_sym (snd s)) l -> mapM (string_op R orb m) l = Some ys -> is_op (orb m) y F ->
  is_op (orb m) (fold_left (op_plus R) ys y) (fun t x' x => F t x' x +' bsum l (fun s => fst s *' psi R t x' x (erase (snd s)))).
Proof.
  intros m. induction l as [|s l IH]; intros ys y F L E Y; cbn [mapM] in E.
  - injection E as <-. destruct Y as [A B]. split; [exact A|]. intros. rewrite B, bsum_nil by assumption. ring.
  - inversion L as [|? ? Ls Ll]; subst. destruct (string_op R orb m s) as [z|] eqn:Ez; cbn [bind] in E; [|discriminate]. destruct (mapM (string_op R orb m) l) as [zs|]; cbn [bind] in E; [|discriminate].
    injection E as <-. cbn [fold_left]. destruct (IH zs _ _ Ll eq_refl (is_plus _ _ _ _ _ Y (string_val m s z Ls Ez))) as [A B]. split; [exact A|]. intros. rewrite B, bsum_cons by assumption. ring.
Qed.
Lemma expr_val : forall m e r, (forall w, In w (words e) -> Forall spin_sym w) -> expr_op R orb m e = Some r -> forall s x' x, In x' st4 -> In x st4 ->
  match r with Zero _ => 0' | Op _ y => opel R (orb m) y s x' x end = ev e (fun w => psi R s x' x (erase w)).
Proof.
  intros m e r H E s x' x X' X. rewrite ev_poly. destruct e as [|o|t|l]; cbn [expr_op] in E; cbn [epoly].
  - injection E as <-. reflexivity.
  - destruct (letter_op R orb m o) as [y|] eqn:Ey; cbn [bind] in E; [|discriminate]. injection E as <-. rewrite bsum_cons, bsum_nil. cbn [fst snd].
    assert (P : repw (orb m) y (erase [o])). { eapply letter_rep; [right|exact Ey]. specialize (H [o] (or_introl eq_refl)). now inversion H. }
    unfold opel. destruct P as [_ P]. destruct (P x' x X' X) as [-> ->]. unfold psi, pw, mzero. destruct (Nat.odd (length (erase [o]))); ring.
  - destruct (string_op R orb m t) as [y|] eqn:Ey; cbn [bind] in E; [|discriminate]. injection E as <-. rewrite bsum_cons, bsum_nil.
    destruct (string_val m t y (H (snd t) (or_introl eq_refl)) Ey) as [_ V]. rewrite V by assumption. ring.
  - destruct (mapM (string_op R orb m) l) as [ys|] eqn:Ey; cbn [bind] in E; [|discriminate].
    assert (L : Forall (fun s => Forall spin_sym (snd s)) l). { apply Forall_forall. intros t I. apply H. unfold words. cbn [epoly]. now apply in_map. }
    destruct l as [|t l]; cbn [mapM] in Ey; [injection Ey as <-; injection E as <-; reflexivity|].
    destruct (string_op R orb m t) as [z|] eqn:Ez; cbn [bind] in Ey; [|discriminate]. destruct (mapM (string_op R orb m) l) as [zs|] eqn:El; cbn [bind] in Ey; [|discriminate]. injection Ey as <-. injection E as <-.
    inversion L; subst. destruct (fold_plus m l zs z _ ltac:(assumption) El (string_val m t z ltac:(assumption) Ez)) as [_ V]. rewrite V, bsum_cons by assumption. reflexivity.
Qed.
Lemma expr_some : forall m e, (forall w, In w (words e) -> w <> [] /\ Forall spin_sym w) -> exists r, expr_op R orb m e = Some r.
Proof.
  intros m e H.
  assert (L : forall w, Forall spin_sym w -> exists l, mapM (letter_op R orb m) w = Some l /\ length l = length w).
  { induction w as [|o w IH]; intros F; [now exists []|]. inversion F as [|? ? Fo Fw]; subst. destruct (letter_some m o Fo) as [y Ey], (IH Fw) as [l [El Ll]]. exists (y :: l). cbn [mapM]. rewrite Ey, El. split; [reflexivity|cbn; congruence]. }
  assert (T : forall s, In s (epoly e) -> exists y, string_op R orb m s = Some y).
  { intros s I. destruct (H (snd s) (in_map snd _ _ I)) as [N F]. destruct (L _ F) as [l [El Ll]]. unfold string_op. rewrite El. cbn [bind]. destruct l; [|eauto]. destruct (snd s); [congruence|discriminate]. }
  destruct e as [|o|s|l]; cbn [expr_op].
  - eauto.
  - destruct (H [o] (or_introl eq_refl)) as [_ F]. inversion F as [|? ? Fo _]; subst. destruct (letter_some m o Fo) as [y ->]. cbn. eauto.
  - destruct (T s (or_introl eq_refl)) as [y ->]. cbn. eauto.
  - cbn [epoly] in T. assert (X : exists ys, mapM (string_op R orb m) l = Some ys).
    { clear - T. induction l as [|s l IH]; [now exists []|]. destruct (T s (or_introl eq_refl)) as [y Ey], (IH (fun s I => T s (or_intror I))) as [ys Eys]. exists (y :: ys). cbn [mapM]. now rewrite Ey, Eys. }
    destruct X as [ys ->]. cbn [bind]. destruct ys; eauto.
Qed.
Lemma entries_val : forall m t es, (forall o e, In (o, e) (t_ops R t) -> forall w, In w (words e) -> Forall spin_sym w) -> site_entries R orb m t = Some es ->
  forall (G : Z * Z -> R) s x' x, In x' st4 -> In x st4 ->
  bsum es (fun e => G (fst e) *' (fst (snd e) *' opel R (orb m) (snd (snd e)) s x' x)) =
  bsum (t_mat R t) (fun e => G (Z.of_nat (fst (fst e)), Z.of_nat (snd (fst e))) *' cv (t_ops R t) (Some (snd e)) (fun w => psi R s x' x (erase w))).
Proof.
  intros m t es H E G s x' x X' X. unfold site_entries in E.
  match type of E with bind ?m _ = _ => destruct m as [vs|] eqn:Ev; cbn [bind] in E; [|discriminate] end.
  match type of E with bind ?m _ = _ => destruct m as [l|] eqn:El; cbn [bind] in E; [|discriminate] end. injection E as <-. revert l El.
  induction (t_mat R t) as [|[[ip im] [f o]] es IH]; intros l El; cbn [mapM] in El; [injection El as <-; reflexivity|]. cbn [fst snd] in El.
  assert (D := dget_mapM _ _ _ msym_eqb (expr_op R orb m) (t_ops R t) vs o Ev).
  destruct (dget msym_eqb vs o) as [v|]; cbn [bind] in El; [|discriminate]. destruct D as [e [De Ve]].
  match type of El with bind ?m _ = _ => destruct m as [l'|] eqn:El'; cbn [bind] in El; [|discriminate] end. injection El as <-. cbn [concat]. rewrite bsum_app, bsum_cons, (IH _ eq_refl). f_equal.
  cbn [fst snd]. unfold BuildProofs.cv. rewrite De. destruct (dget_In _ _ _ _ _ _ De) as [o' [I _]].
  rewrite <- (expr_val m e v (H _ _ I) Ve s x' x X' X). destruct v as [|y]; rewrite ?bsum_cons, bsum_nil; cbn [fst snd]; ring.
Qed.
End Chain.
