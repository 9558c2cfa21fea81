(** right_svd of BuildModel keeps the operator: every row of the column is the row of the table times the new column. *)
From Coq Require Import ZArith Bool List Lia Ring.
From Verif Require Import SymModel DictLib IndexLib RingLib OptLib SiteModel BuildModel.
Import ListNotations.
Open Scope Z_scope.

Lemma letter_eqb_spec : forall a b, reflect (a = b) (letter_eqb a b).
Proof.
  intros [a [i s]] [b [j u]]. unfold letter_eqb. cbn [fst snd]. destruct (Bool.eqb_spec a b), (Z.eqb_spec i j), (Z.eqb_spec s u); cbn; constructor; congruence.
Qed.
Lemma osym_eqb_spec : forall a b, reflect (a = b) (osym_eqb a b).
Proof. intros [a|] [b|]; cbn; try (constructor; congruence). destruct (letter_eqb_spec a b); constructor; congruence. Qed.
Lemma osyms_eqb_spec : forall a b, reflect (a = b) (osyms_eqb a b).
Proof.
  induction a as [|x a IH]; intros [|y b]; cbn; try (constructor; congruence). destruct (osym_eqb_spec x y); cbn; [|constructor; congruence].
  destruct (IH b); constructor; congruence.
Qed.
Lemma msym_eqb_spec : forall a b, reflect (a = b) (msym_eqb a b).
Proof. intros [a| |a] [b| |b]; cbn; try (constructor; congruence). - destruct (osym_eqb_spec a b); constructor; congruence. - destruct (Nat.eqb_spec a b); constructor; congruence. Qed.
Lemma row_eqb_spec : forall a b, reflect (a = b) (row_eqb a b).
Proof. intros [i a] [j b]. unfold row_eqb. cbn [fst snd]. destruct (Nat.eqb_spec i j), (osyms_eqb_spec a b); cbn; constructor; congruence. Qed.

Lemma combine_seq_nth : forall (A : Type) (d : A) l a k x, In (k, x) (combine (seq a (length l)) l) -> (a <= k < a + length l)%nat /\ nth (k - a) l d = x.
Proof.
  intros A d. induction l as [|y l IH]; intros a k x I; cbn [length seq combine] in I; [destruct I|].
  destruct I as [E|I]; [injection E as <- <-; rewrite Nat.sub_diag; cbn; split; [lia|reflexivity]|].
  apply IH in I. destruct I as [I <-]. split; [cbn; lia|]. destruct (k - a)%nat as [|j] eqn:E; [lia|]. cbn. f_equal. lia.
Qed.

Lemma mapM_in : forall (A B : Type) (f : A -> option B) l r, mapM f l = Some r -> forall y, In y r -> exists x, In x l /\ f x = Some y.
Proof.
  intros A B f. induction l as [|x l IH]; intros r E y I; cbn [mapM] in E; [injection E as <-; destruct I|].
  destruct (f x) as [z|] eqn:Ez; cbn [bind] in E; [|discriminate]. destruct (mapM f l) as [r'|] eqn:Er; cbn [bind] in E; [|discriminate]. injection E as <-.
  destruct I as [<-|I]; [exists x; split; [now left|exact Ez]|]. destruct (IH _ eq_refl _ I) as [x' [I' E']]. exists x'. split; [now right|exact E'].
Qed.

Lemma position_some : forall (A : Type) (eqb : A -> A -> bool) d, (forall a b, reflect (a = b) (eqb a b)) -> forall x l k, position eqb x l = Some k -> (k < length l)%nat /\ nth k l d = x.
Proof.
  intros A eqb d S x. induction l as [|y l IH]; intros k E; cbn [position] in E; [discriminate|]. destruct (S y x) as [->|N]; [injection E as <-; split; [cbn; lia|reflexivity]|].
  destruct (position eqb x l) as [j|]; [|discriminate]. injection E as <-. destruct (IH j eq_refl). split; [cbn; lia|assumption].
Qed.
Lemma enter_ok : forall (A : Type) (eqb : A -> A -> bool) d, (forall a b, reflect (a = b) (eqb a b)) -> forall x l k l', enter eqb x l = (k, l') ->
  (k < length l')%nat /\ nth k l' d = x /\ exists e, l' = l ++ e /\ (forall y, In y l' -> In y l \/ y = x).
Proof.
  intros A eqb d S x l k l' E. unfold enter in E. destruct (position eqb x l) as [j|] eqn:P; injection E as <- <-.
  - destruct (position_some A eqb d S x l j P). repeat split; auto. exists []. split; [now rewrite app_nil_r|auto].
  - rewrite app_length. cbn [length]. split; [lia|]. split; [rewrite app_nth2, Nat.sub_diag by lia; reflexivity|]. exists [x]. split; [reflexivity|]. intros y I. apply in_app_or in I. destruct I as [I|[<-|[]]]; auto.
Qed.

Section Proofs.
Variable R : CRing.
Add Ring RR : (rth R).
Notation "0'" := (r0 R). Notation "1'" := (r1 R).
Infix "+'" := (radd R) (at level 50, left associativity).
Infix "*'" := (rmul R) (at level 40, left associativity).
Notation "-' a" := (ropp R a) (at level 35).
Variable iszero tiny big : R -> bool.
Variable svd : nat -> nat -> (nat -> nat -> R) -> option (nat * (nat -> nat -> R) * (nat -> R) * (nat -> nat -> R)).
Hypothesis iszero_ok : forall x, iszero x = true -> x = 0'.
Hypothesis tiny_ok : forall x, tiny x = true -> x = 0'.
Hypothesis big_ok : forall x, big x = false -> x = 0'.
Hypothesis svd_ok : forall n m a k u s vh, svd n m a = Some (k, u, s, vh) ->
  forall i j, (i < n)%nat -> (j < m)%nat -> bsum (seq 0 k) (fun c => u i c *' s c *' vh c j) = a i j.
Notation expr := (expr R). Notation str := (R * list osym)%type. Notation fn := (list osym -> R).
Notation scale := (scale R iszero tiny). Notation group := (group R).

(* the value of an expression under a linear functional on words *)
Definition sev (phi : fn) (s : str) : R := fst s *' phi (snd s).
Definition ev (e : expr) (phi : fn) : R :=
  match e with Num0 _ => 0' | Elem _ o => phi [o] | Str _ s => sev phi s | Sum _ l => bsum l (sev phi) end.
Definition poly (e : expr) : Prop := match e with Elem _ _ => False | _ => True end.
Lemma ev_ext : forall e f g, (forall w, f w = g w) -> ev e f = ev e g.
Proof. intros [|o|s|l] f g H; cbn [ev]; unfold sev; rewrite ?H; try reflexivity. apply bsum_ext. intros; now rewrite H. Qed.
Lemma ev_zero : forall e, ev e (fun _ => 0') = 0'.
Proof. intros [|o|s|l]; cbn [ev]; unfold sev; try reflexivity; [ring|]. apply bsum_zero. intros. ring. Qed.
Lemma ev_add : forall e f g, ev e (fun w => f w +' g w) = ev e f +' ev e g.
Proof. intros [|o|s|l] f g; cbn [ev]; unfold sev; try ring. rewrite <- bsum_add. apply bsum_ext. intros. ring. Qed.
Lemma ev_mul : forall e f c, ev e (fun w => c *' f w) = c *' ev e f.
Proof. intros [|o|s|l] f c; cbn [ev]; unfold sev; try ring. rewrite <- bsum_mull. apply bsum_ext. intros. ring. Qed.
Lemma ev_bsum : forall (A : Type) e (l : list A) (F : A -> fn), ev e (fun w => bsum l (fun x => F x w)) = bsum l (fun x => ev e (F x)).
Proof.
  intros A e l F. induction l as [|x l IH].
  - rewrite bsum_nil. rewrite (ev_ext _ _ (fun _ => 0')) by reflexivity. apply ev_zero.
  - rewrite bsum_cons, <- IH, <- ev_add. apply ev_ext. intros. now rewrite bsum_cons.
Qed.

Lemma scale_ev : forall f s phi, ev (of_scaled R (scale f s)) phi = f *' sev phi s.
Proof.
  intros f s phi. unfold BuildModel.scale, sev. destruct (iszero f) eqn:Z; cbn [of_scaled ev]; [apply iszero_ok in Z; rewrite Z; ring|].
  destruct (tiny (fst s *' f)) eqn:T; cbn [of_scaled ev]; unfold sev; cbn [fst snd]; [|ring].
  apply tiny_ok in T. transitivity (fst s *' f *' phi (snd s)); [rewrite T; ring|ring].
Qed.
Lemma scaled_poly : forall s, poly (of_scaled R s). Proof. now intros [s|]. Qed.
Lemma eadd_ok : forall a b, poly a -> poly b -> poly (eadd R a b) /\ forall phi, ev (eadd R a b) phi = ev a phi +' ev b phi.
Proof.
  intros [|o|s|l] [|o'|s'|l'] Pa Pb; try destruct Pa; try destruct Pb; (split; [exact I|]); intros phi; cbn [eadd ev]; rewrite ?bsum_app, ?bsum_cons, ?bsum_nil; ring.
Qed.
Lemma fold_eadd : forall l a, poly a -> Forall poly l -> poly (fold_left (eadd R) l a) /\ forall phi, ev (fold_left (eadd R) l a) phi = ev a phi +' bsum l (fun e => ev e phi).
Proof.
  induction l as [|x l IH]; intros a Pa F; [split; [exact Pa|intros; rewrite bsum_nil; cbn; ring]|].
  inversion F as [|? ? Px Fl]; subst. destruct (eadd_ok a x Pa Px) as [P E]. destruct (IH _ P Fl) as [P' E']. split; [exact P'|].
  intros phi. cbn [fold_left]. rewrite E', E, bsum_cons. ring.
Qed.
Lemma dot_ok : forall l, Forall poly l -> poly (dot R l) /\ forall phi, ev (dot R l) phi = bsum l (fun e => ev e phi).
Proof.
  intros [|x l] F; [split; [exact I|reflexivity]|]. inversion F; subst. destruct (fold_eadd l x ltac:(assumption) ltac:(assumption)) as [P E]. split; [exact P|]. intros. cbn [dot]. now rewrite E, bsum_cons.
Qed.
Lemma left_expr_ev : forall g ip f, poly (left_expr R iszero tiny g ip f) /\ forall phi, ev (left_expr R iszero tiny g ip f) phi =
  bsum (combine (seq 0 (length (g_l R g))) (g_l R g)) (fun p => if Nat.eqb (fst (snd p)) ip then f (fst p) *' phi (snd (snd p)) else 0').
Proof.
  intros g ip f. unfold left_expr. match goal with |- poly (dot R (map ?F ?L)) /\ _ => destruct (dot_ok (map F L)) as [P E] end.
  - apply Forall_forall. intros e I. apply in_map_iff in I. destruct I as [p [<- _]]. destruct (Nat.eqb (fst (snd p)) ip); [apply scaled_poly|exact I].
  - split; [exact P|]. intros phi. rewrite E, bsum_map. apply bsum_ext. intros p _. destruct (Nat.eqb (fst (snd p)) ip); [|reflexivity]. rewrite scale_ev. unfold sev. cbn [fst snd]. ring.
Qed.
Lemma right_expr_ev : forall g f, poly (right_expr R iszero tiny g f) /\ forall phi, ev (right_expr R iszero tiny g f) phi =
  bsum (combine (seq 0 (length (g_r R g))) (g_r R g)) (fun p => f (fst p) *' phi (snd p)).
Proof.
  intros g f. unfold right_expr. match goal with |- poly (dot R (map ?F ?L)) /\ _ => destruct (dot_ok (map F L)) as [P E] end.
  - apply Forall_forall. intros e I. apply in_map_iff in I. destruct I as [p [<- _]]. apply scaled_poly.
  - split; [exact P|]. intros phi. rewrite E, bsum_map. apply bsum_ext. intros p _. rewrite scale_ev. unfold sev. cbn [fst snd]. ring.
Qed.
Lemma terms_ev : forall f e ts phi, terms_of R iszero tiny f e = Some ts -> bsum ts (fun t => ev (of_scaled R t) phi) = f *' ev e phi.
Proof.
  intros f [|o|s|l] ts phi E; cbn [terms_of] in E; try discriminate.
  - injection E as <-. rewrite bsum_cons, bsum_nil, scale_ev. cbn [ev]. unfold sev. cbn [fst snd]. ring.
  - injection E as <-. rewrite bsum_cons, bsum_nil, scale_ev. cbn [ev]. ring.
  - destruct (iszero f) eqn:Z; [discriminate|]. injection E as <-. rewrite bsum_map. cbn [ev]. rewrite <- bsum_mull. apply bsum_ext. intros. apply scale_ev.
Qed.

(* ---- groups *)
Notation key := (nat * list osym)%type.
Definition gval (G : key -> list osym -> R) (g : group) : R := bsum (g_v R g) (fun e => snd e *' G (nth (fst (fst e)) (g_l R g) (0%nat, [])) (nth (snd (fst e)) (g_r R g) [])).
Definition gwf (g : group) : Prop := Forall (fun e => (fst (fst e) < length (g_l R g))%nat /\ (snd (fst e) < length (g_r R g))%nat) (g_v R g).
Definition total (G : key -> list osym -> R) (gs : dict (SZ * SZ) group) : R := bsum gs (fun kg => gval G (snd kg)).
Lemma bsum_dset : forall (K V : Type) (eqb : K -> K -> bool) (F : V -> R) d k v,
  bsum (dset eqb d k v) (fun x => F (snd x)) = bsum d (fun x => F (snd x)) +' F v +' -' (match dget eqb d k with Some o => F o | None => 0' end).
Proof.
  intros K V eqb F. induction d as [|[k' o] d IH]; intros k v; cbn [dset dget]; [rewrite bsum_cons, !bsum_nil; cbn [snd]; ring|].
  destruct (eqb k' k); rewrite !bsum_cons; cbn [snd]; [|rewrite IH]; ring.
Qed.
Definition gswf (gs : dict (SZ * SZ) group) : Prop := forall k g, In (k, g) gs -> gwf g.
Lemma dget_In : forall (K V : Type) (eqb : K -> K -> bool) (d : dict K V) k v, dget eqb d k = Some v -> exists k', In (k', v) d /\ eqb k' k = true.
Proof. intros K V eqb. induction d as [|[k' o] d IH]; intros k v E; cbn [dget] in E; [discriminate|]. destruct (eqb k' k) eqn:Q; [injection E as <-; exists k'; split; [now left|exact Q]|]. destruct (IH _ _ E) as [k2 [I Q2]]. exists k2. split; [now right|exact Q2]. Qed.
Lemma dset_In : forall (K V : Type) (eqb : K -> K -> bool) (d : dict K V) k v k' v', In (k', v') (dset eqb d k v) -> In (k', v') d \/ (v' = v /\ (k' = k \/ eqb k' k = true)).
Proof.
  intros K V eqb. induction d as [|[k2 o] d IH]; intros k v k' v' I; cbn [dset] in I; [destruct I as [E|[]]; injection E as <- <-; auto|].
  destruct (eqb k2 k) eqn:Q; destruct I as [E|I]; try (injection E as <- <-); auto.
  - left. now right.
  - left. now left.
  - destruct (IH _ _ _ _ I) as [H|H]; [left; now right|auto].
Qed.
Variable orb : Z -> Z.
Lemma add_term_ok : forall idx ip q gs t gs', gswf gs -> add_term R orb idx ip q gs t = Some gs' -> gswf gs' /\
  forall G, total G gs' = total G gs +' match t with None => 0' | Some (f, ops) => f *' G (ip, left_part idx ops) (right_part idx ops) end.
Proof.
  intros idx ip q gs [[f ops]|] gs' W E; unfold add_term in E; [|injection E as <-; split; [exact W|intros; ring]].
  match type of E with (if ?b then _ else _) = _ => destruct b; [discriminate|] end.
  set (k := (sz_add (sz_neg q) (lab_sum orb (left_part idx ops)), lab_sum orb (right_part idx ops))) in *.
  set (g := match dget qq_eqb gs k with Some g => g | None => mkGroup R [] [] [] end) in *.
  assert (Wg : gwf g). { unfold g. destruct (dget qq_eqb gs k) as [g0|] eqn:D; [|constructor]. apply dget_In in D. destruct D as [k' [I _]]. exact (W _ _ I). }
  destruct (enter row_eqb (ip, left_part idx ops) (g_l R g)) as [il ml] eqn:El. destruct (enter osyms_eqb (right_part idx ops) (g_r R g)) as [ir mr] eqn:Er.
  injection E as <-. apply (enter_ok _ _ (0%nat, []) row_eqb_spec) in El. apply (enter_ok _ _ [] osyms_eqb_spec) in Er.
  destruct El as [Ll [Nl [xl [-> _]]]], Er as [Lr [Nr [xr [-> _]]]].
  assert (W' : gwf (mkGroup R (g_l R g ++ xl) (g_r R g ++ xr) (g_v R g ++ [(il, ir, f)]))).
  { unfold gwf. cbn [g_v g_l g_r]. apply Forall_app. split; [|repeat constructor; assumption]. eapply Forall_impl; [|exact Wg]. intros e [A B]. rewrite !app_length. lia. }
  split.
  - intros k' g' I. apply dset_In in I. destruct I as [I|[-> _]]; [exact (W _ _ I)|exact W'].
  - intros G. unfold total. rewrite bsum_dset. replace (match dget qq_eqb gs k with Some o => gval G o | None => 0' end) with (gval G g).
    2:{ unfold g. destruct (dget qq_eqb gs k); [reflexivity|]. unfold gval. cbn [g_v]. now rewrite bsum_nil. }
    replace (gval G (mkGroup R (g_l R g ++ xl) (g_r R g ++ xr) (g_v R g ++ [(il, ir, f)]))) with (gval G g +' f *' G (ip, left_part idx ops) (right_part idx ops)); [ring|].
    unfold gval. cbn [g_v g_l g_r]. rewrite bsum_app, bsum_cons, bsum_nil. cbn [fst snd]. rewrite Nl, Nr.
    rewrite (bsum_ext R _ (g_v R g) (fun e => snd e *' G (nth (fst (fst e)) (g_l R g ++ xl) (0%nat, [])) (nth (snd (fst e)) (g_r R g ++ xr) []))
        (fun e => snd e *' G (nth (fst (fst e)) (g_l R g) (0%nat, [])) (nth (snd (fst e)) (g_r R g) []))); [ring|].
    intros e I. unfold gwf in Wg. rewrite Forall_forall in Wg. destruct (Wg e I). now rewrite !app_nth1.
Qed.
Lemma add_terms_ok : forall idx ip q ts gs gs', gswf gs -> foldM (add_term R orb idx ip q) gs ts = Some gs' -> gswf gs' /\
  forall G, total G gs' = total G gs +' bsum ts (fun t => ev (of_scaled R t) (fun ops => G (ip, left_part idx ops) (right_part idx ops))).
Proof.
  intros idx ip q. induction ts as [|t ts IH]; intros gs gs' W E; cbn [foldM] in E.
  - injection E as <-. split; [exact W|]. intros. rewrite bsum_nil. ring.
  - destruct (add_term R orb idx ip q gs t) as [g1|] eqn:E1; cbn [bind] in E; [|discriminate]. destruct (add_term_ok _ _ _ _ _ _ W E1) as [W1 T1].
    destruct (IH _ _ W1 E) as [W2 T2]. split; [exact W2|]. intros G. rewrite T2, T1, bsum_cons. destruct t as [[f ops]|]; cbn [of_scaled ev]; unfold sev; cbn [fst snd]; ring.
Qed.
(* the value of a cell *)
Definition cv (ops : dict msym expr) (c : option (R * msym)) (phi : fn) : R :=
  match c with None => 0' | Some (f, o) => match dget msym_eqb ops o with Some e => f *' ev e phi | None => 0' end end.
Notation row := (nat * (option (R * msym) * SZ))%type.
Lemma add_rows_ok : forall idx ops (rows : list row) gs gs', gswf gs -> foldM (add_row R orb iszero tiny idx ops) gs rows = Some gs' -> gswf gs' /\
  forall G, total G gs' = total G gs +' bsum rows (fun r => cv ops (fst (snd r)) (fun w => G (fst r, left_part idx w) (right_part idx w))).
Proof.
  intros idx ops. induction rows as [|[ip [c q]] rows IH]; intros gs gs' W E; cbn [foldM] in E.
  - injection E as <-. split; [exact W|]. intros. rewrite bsum_nil. ring.
  - destruct (add_row R orb iszero tiny idx ops gs (ip, (c, q))) as [g1|] eqn:E1; cbn [bind] in E; [|discriminate].
    assert (H : gswf g1 /\ forall G, total G g1 = total G gs +' cv ops c (fun w => G (ip, left_part idx w) (right_part idx w))).
    { unfold add_row in E1. cbn [fst snd] in E1. destruct c as [[f o]|]; [|injection E1 as <-; split; [exact W|intros; cbn [cv]; ring]].
      unfold cv. destruct (dget msym_eqb ops o) as [e|]; cbn [bind] in E1; [|discriminate]. destruct (terms_of R iszero tiny f e) as [ts|] eqn:T; cbn [bind] in E1; [|discriminate].
      destruct (add_terms_ok _ _ _ _ _ _ W E1) as [W1 T1]. split; [exact W1|]. intros G. rewrite T1. f_equal. now apply terms_ev. }
    destruct H as [W1 T1]. destruct (IH _ _ W1 E) as [W2 T2]. split; [exact W2|]. intros G. rewrite T2, T1, bsum_cons. cbn [fst snd]. ring.
Qed.

(* ---- factors *)
Lemma factors_ok : forall g fs, factors R big svd g = Some fs -> forall i j, (i < length (g_l R g))%nat -> (j < length (g_r R g))%nat ->
  bsum fs (fun f => fst f i *' snd f j) = mat_of R g i j.
Proof.
  intros g fs E i j I J. unfold factors in E. destruct (svd (length (g_l R g)) (length (g_r R g)) (mat_of R g)) as [[[[k u] s] vh]|] eqn:S; cbn [bind] in E; [|discriminate].
  injection E as <-. rewrite bsum_map. cbn [fst snd]. rewrite <- (svd_ok _ _ _ _ _ _ _ S i j I J). rewrite bsum_filter. apply bsum_ext. intros c _.
  destruct (big (s c)) eqn:B; [ring|]. rewrite (big_ok _ B). ring.
Qed.
Lemma bsum_seq_eq : forall n (i : nat) (F : nat -> R), (i < n)%nat -> bsum (seq 0 n) (fun k => if Nat.eqb i k then F k else 0') = F i.
Proof using.
  clear - R.
  intros n i F H. rewrite (bsum_single R _ (seq 0 n) _ i); [now rewrite Nat.eqb_refl|apply seq_NoDup|apply in_seq; lia|].
  intros k _ N. destruct (Nat.eqb_spec i k); [congruence|reflexivity].
Qed.
Lemma bsum_combine_seq : forall (A : Type) (d : A) l (F : nat * A -> R), bsum (combine (seq 0 (length l)) l) F = bsum (seq 0 (length l)) (fun k => F (k, nth k l d)).
Proof using.
  clear - R.
  intros A d. enough (H : forall l a (F : nat * A -> R), bsum (combine (seq a (length l)) l) F = bsum (seq a (length l)) (fun k => F (k, nth (k - a) l d))).
  { intros l F. rewrite H. apply bsum_ext. intros k _. now rewrite Nat.sub_0_r. }
  induction l as [|x l IH]; intros a F; [reflexivity|]. cbn [length seq combine]. rewrite !bsum_cons, Nat.sub_diag, IH. cbn [nth]. f_equal. apply bsum_ext.
  intros k I. apply in_seq in I. destruct (k - a)%nat as [|j] eqn:E; [lia|]. cbn [nth]. do 3 f_equal. lia.
Qed.
(* a group is its left words times its right words through the new bond *)
Lemma group_ok : forall g fs, gwf g -> factors R big svd g = Some fs -> forall G : key -> list osym -> R,
  gval G g = bsum fs (fun f => bsum (combine (seq 0 (length (g_l R g))) (g_l R g)) (fun p => fst f (fst p) *'
               bsum (combine (seq 0 (length (g_r R g))) (g_r R g)) (fun q => snd f (fst q) *' G (snd p) (snd q)))).
Proof.
  intros g fs W E G.
  transitivity (bsum (seq 0 (length (g_l R g))) (fun i => bsum (seq 0 (length (g_r R g))) (fun j => mat_of R g i j *' G (nth i (g_l R g) (0%nat, [])) (nth j (g_r R g) [])))).
  - unfold gval, mat_of. unfold gwf in W. symmetry.
    rewrite (bsum_ext R _ (seq 0 (length (g_l R g))) _ (fun i => bsum (seq 0 (length (g_r R g))) (fun j => bsum (g_v R g) (fun e =>
      (if Nat.eqb (fst (fst e)) i && Nat.eqb (snd (fst e)) j then snd e else 0') *' G (nth i (g_l R g) (0%nat, [])) (nth j (g_r R g) []))))).
    2:{ intros i _. apply bsum_ext. intros j _. now rewrite bsum_mulr. }
    rewrite (bsum_ext R _ (seq 0 (length (g_l R g))) _ (fun i => bsum (g_v R g) (fun e => bsum (seq 0 (length (g_r R g))) (fun j =>
      (if Nat.eqb (fst (fst e)) i && Nat.eqb (snd (fst e)) j then snd e else 0') *' G (nth i (g_l R g) (0%nat, [])) (nth j (g_r R g) []))))).
    2:{ intros i _. apply bsum_swap. }
    rewrite bsum_swap. apply bsum_ext. intros e I. rewrite Forall_forall in W. destruct (W e I) as [A B].
    rewrite <- (bsum_seq_eq (length (g_l R g)) (fst (fst e)) (fun i => snd e *' G (nth i (g_l R g) (0%nat, [])) (nth (snd (fst e)) (g_r R g) [])) A).
    apply bsum_ext. intros i _. destruct (Nat.eqb (fst (fst e)) i); cbn [andb]; [|apply bsum_zero; intros; ring].
    rewrite <- (bsum_seq_eq (length (g_r R g)) (snd (fst e)) (fun j => snd e *' G (nth i (g_l R g) (0%nat, [])) (nth j (g_r R g) [])) B).
    apply bsum_ext. intros j _. destruct (Nat.eqb (snd (fst e)) j); ring.
  - rewrite (bsum_ext R _ fs _ (fun f => bsum (seq 0 (length (g_l R g))) (fun i => bsum (seq 0 (length (g_r R g))) (fun j => fst f i *' snd f j *' G (nth i (g_l R g) (0%nat, [])) (nth j (g_r R g) []))))).
    + rewrite (bsum_swap R _ _ fs). apply bsum_ext. intros i I. rewrite (bsum_swap R _ _ fs). apply bsum_ext. intros j J. apply in_seq in I, J. rewrite bsum_mulr. f_equal. symmetry. apply factors_ok; [exact E|lia|lia].
    + intros f _. rewrite (bsum_combine_seq _ (0%nat, [])). apply bsum_ext. intros i _. rewrite (bsum_combine_seq _ []). cbn [fst snd]. rewrite <- bsum_mull. apply bsum_ext. intros. ring.
Qed.

(* ---- symbols for expressions *)
Definition ops_ok (k : nat) (ops : dict msym expr) : Prop :=
  (forall o e, dget msym_eqb ops (MB o) = Some e -> e = Elem R o) /\ (forall j e, dget msym_eqb ops (MX j) = Some e -> (j < k)%nat) /\ dget msym_eqb ops MH = None.
Definition grows (a b : dict msym expr) : Prop := forall o e, dget msym_eqb a o = Some e -> dget msym_eqb b o = Some e.
Lemma name_ok : forall k ops e k' ops' c, ops_ok k ops -> poly e -> name_expr R iszero k ops e = (k', ops', c) ->
  ops_ok k' ops' /\ grows ops ops' /\ (forall phi, cv ops' c phi = ev e phi) /\ (match c with Some (_, o) => exists e', dget msym_eqb ops' o = Some e' | None => True end) /\
  (forall o e', dget msym_eqb ops' o = Some e' -> dget msym_eqb ops o = Some e' \/ e' = e \/ exists o1 f, e' = Elem R o1 /\ e = Str R (f, [o1])).
Proof.
  intros k ops e k' ops' c [A [B C]] P E.
  assert (X : forall e0, poly e0 -> e0 <> Num0 R -> (S k, dset msym_eqb ops (MX k) e0, Some (1', MX k)) = (k', ops', c) -> e = e0 ->
    ops_ok k' ops' /\ grows ops ops' /\ (forall phi, cv ops' c phi = ev e phi) /\ (match c with Some (_, o) => exists e', dget msym_eqb ops' o = Some e' | None => True end) /\
    (forall o e', dget msym_eqb ops' o = Some e' -> dget msym_eqb ops o = Some e' \/ e' = e \/ exists o1 f, e' = Elem R o1 /\ e = Str R (f, [o1]))).
  { intros e0 P0 N0 Q Ee. subst e0. injection Q as <- <- <-. unfold cv. split; [|split; [|split; [|split]]].
    - split; [|split].
      + intros o x D. rewrite (dget_dset msym_eqb msym_eqb_spec) in D. destruct (msym_eqb_spec (MX k) (MB o)); [congruence|eauto].
      + intros j x D. rewrite (dget_dset msym_eqb msym_eqb_spec) in D. destruct (msym_eqb_spec (MX k) (MX j)) as [H|H]; [injection H as <-; lia|]. apply B in D. lia.
      + rewrite (dget_dset msym_eqb msym_eqb_spec). destruct (msym_eqb_spec (MX k) MH); [congruence|exact C].
    - intros o x D. rewrite (dget_dset msym_eqb msym_eqb_spec). destruct (msym_eqb_spec (MX k) o) as [<-|H]; [apply B in D; lia|exact D].
    - intros phi. rewrite (dget_dset msym_eqb msym_eqb_spec). destruct (msym_eqb_spec (MX k) (MX k)); [ring|congruence].
    - exists e. rewrite (dget_dset msym_eqb msym_eqb_spec). destruct (msym_eqb_spec (MX k) (MX k)); [reflexivity|congruence].
    - intros o e' D. rewrite (dget_dset msym_eqb msym_eqb_spec) in D. destruct (msym_eqb_spec (MX k) o); [injection D as <-; auto|auto]. }
  assert (Y : (k, ops, None) = (k', ops', c) -> (forall phi, ev e phi = 0') ->
    ops_ok k' ops' /\ grows ops ops' /\ (forall phi, cv ops' c phi = ev e phi) /\ (match c with Some (_, o) => exists e', dget msym_eqb ops' o = Some e' | None => True end) /\
    (forall o e', dget msym_eqb ops' o = Some e' -> dget msym_eqb ops o = Some e' \/ e' = e \/ exists o1 f, e' = Elem R o1 /\ e = Str R (f, [o1]))).
  { intros Q H. injection Q as <- <- <-. split; [exact (conj A (conj B C))|]. split; [intros o x D; exact D|]. split; [intros phi; cbn [cv]; now rewrite H|]. split; [exact I|]. intros o x D. now left. }
  destruct e as [|o|[f [|o [|o2 w]]]|l]; cbn [name_expr] in E.
  - apply Y; auto.
  - destruct P.
  - apply (X _ P ltac:(discriminate) E eq_refl).
  - destruct (iszero f) eqn:Z.
    + apply Y; [exact E|]. intros phi. cbn [ev]. unfold sev. cbn [fst]. rewrite (iszero_ok _ Z). ring.
    + injection E as <- <- <-. unfold cv. split; [|split; [|split; [|split]]].
      * split; [|split].
        -- intros o' x D. rewrite (dget_dset msym_eqb msym_eqb_spec) in D. destruct (msym_eqb_spec (MB o) (MB o')) as [H|H]; [injection H as <-; injection D as <-; reflexivity|eauto].
        -- intros j x D. rewrite (dget_dset msym_eqb msym_eqb_spec) in D. destruct (msym_eqb_spec (MB o) (MX j)); [congruence|eauto].
        -- rewrite (dget_dset msym_eqb msym_eqb_spec). destruct (msym_eqb_spec (MB o) MH); [congruence|exact C].
      * intros o' x D. rewrite (dget_dset msym_eqb msym_eqb_spec). destruct (msym_eqb_spec (MB o) o') as [<-|H]; [apply A in D; now subst|exact D].
      * intros phi. rewrite (dget_dset msym_eqb msym_eqb_spec). destruct (msym_eqb_spec (MB o) (MB o)); [reflexivity|congruence].
      * exists (Elem R o). rewrite (dget_dset msym_eqb msym_eqb_spec). destruct (msym_eqb_spec (MB o) (MB o)); [reflexivity|congruence].
      * intros o' e' D. rewrite (dget_dset msym_eqb msym_eqb_spec) in D. destruct (msym_eqb_spec (MB o) o'); [injection D as <-; right; right; exists o, f; auto|auto].
  - apply (X _ P ltac:(discriminate) E eq_refl).
  - apply (X _ P ltac:(discriminate) E eq_refl).
Qed.

Lemma cv_grows : forall a b c phi, grows a b -> (match c with Some (_, o) => exists e, dget msym_eqb a o = Some e | None => True end) -> cv b c phi = cv a c phi.
Proof. intros a b [[f o]|] phi G H; [|reflexivity]. destruct H as [e H]. unfold cv. now rewrite (G _ _ H), H. Qed.
Lemma entries_ok : forall ws k ops es k' ops' es', ops_ok k ops -> Forall (fun w => poly (snd w)) ws ->
  Forall (fun e => exists x, dget msym_eqb ops (snd (snd e)) = Some x) es -> fold_left (add_entry R iszero) ws (k, ops, es) = (k', ops', es') ->
  ops_ok k' ops' /\ Forall (fun e => exists x, dget msym_eqb ops' (snd (snd e)) = Some x) es' /\
  (forall W : nat * nat -> fn, bsum es' (fun e => cv ops' (Some (snd e)) (W (fst e))) = bsum es (fun e => cv ops (Some (snd e)) (W (fst e))) +' bsum ws (fun w => ev (snd w) (W (fst w)))) /\
  (forall e, In e es' -> In e es \/ exists w, In w ws /\ fst w = fst e) /\
  (forall o x, dget msym_eqb ops' o = Some x -> dget msym_eqb ops o = Some x \/ exists w, In w ws /\ (x = snd w \/ exists o1 f, x = Elem R o1 /\ snd w = Str R (f, [o1]))).
Proof.
  induction ws as [|w ws IH]; intros k ops es k' ops' es' O P F E; cbn [fold_left] in E.
  - injection E as <- <- <-. split; [exact O|]. split; [exact F|]. split; [intros; rewrite bsum_nil; ring|]. split; auto.
  - inversion P as [|? ? Pw Pws]; subst. unfold add_entry in E at 2. destruct (name_expr R iszero k ops (snd w)) as [[k1 ops1] c] eqn:N.
    destruct (name_ok _ _ _ _ _ _ O Pw N) as [O1 [G1 [V1 [L1 X1]]]].
    assert (F1 : Forall (fun e : (nat * nat) * (R * msym) => exists x, dget msym_eqb ops1 (snd (snd e)) = Some x) es).
    { eapply Forall_impl; [|exact F]. intros e [x H]. exists x. exact (G1 _ _ H). }
    assert (S1 : forall W : nat * nat -> fn, bsum es (fun e => cv ops1 (Some (snd e)) (W (fst e))) = bsum es (fun e => cv ops (Some (snd e)) (W (fst e)))).
    { intros W. apply bsum_ext. intros e I. apply cv_grows; [exact G1|]. rewrite Forall_forall in F. destruct (snd e) as [f o] eqn:Ee. destruct (F e I) as [x H]. rewrite Ee in H. exists x. exact H. }
    assert (T : Forall (fun e : (nat * nat) * (R * msym) => exists x, dget msym_eqb ops1 (snd (snd e)) = Some x) (match c with Some c => es ++ [(fst w, c)] | None => es end)).
    { destruct c as [[f o]|]; [|exact F1]. apply Forall_app. split; [exact F1|]. constructor; [exact L1|constructor]. }
    destruct (IH _ _ _ _ _ _ O1 Pws T E) as [O2 [F2 [S2 [M2 X2]]]]. split; [exact O2|]. split; [exact F2|]. split; [|split].
    + intros W. rewrite S2, bsum_cons, <- (V1 (W (fst w))). destruct c as [c|]; [rewrite bsum_app, bsum_cons, bsum_nil, S1; cbn [fst snd]; ring|rewrite S1; cbn [cv]; ring].
    + intros e I. apply M2 in I. destruct I as [I|[w' [I H]]]; [|right; exists w'; split; [now right|exact H]].
      destruct c as [c|]; [|now left]. apply in_app_or in I. destruct I as [I|[<-|[]]]; [now left|]. right. exists w. split; [now left|reflexivity].
    + intros o x D. apply X2 in D. destruct D as [D|[w' [I H]]]; [|right; exists w'; split; [now right|exact H]]. apply X1 in D. destruct D as [D|D]; [now left|]. right. exists w. split; [now left|exact D].
Qed.
Lemma cells_ok : forall xs k ops cs k' ops' cs', ops_ok k ops -> Forall poly xs ->
  Forall (fun c => match c with Some (_, o) => exists e, dget msym_eqb ops o = Some e | None => True end) cs -> fold_left (add_cell R iszero) xs (k, ops, cs) = (k', ops', cs') ->
  ops_ok k' ops' /\ grows ops ops' /\ Forall (fun c => match c with Some (_, o) => exists e, dget msym_eqb ops' o = Some e | None => True end) cs' /\
  length cs' = (length cs + length xs)%nat /\
  (forall i phi, cv ops' (nth i cs' None) phi = if (i <? length cs)%nat then cv ops (nth i cs None) phi else ev (nth (i - length cs) xs (Num0 R)) phi) /\
  (forall o x, dget msym_eqb ops' o = Some x -> dget msym_eqb ops o = Some x \/ exists w, In w xs /\ (x = w \/ exists o1 f, x = Elem R o1 /\ w = Str R (f, [o1]))).
Proof.
  induction xs as [|w xs IH]; intros k ops cs k' ops' cs' O P F E; cbn [fold_left] in E.
  - injection E as <- <- <-. split; [exact O|]. split; [intros o e H; exact H|]. split; [exact F|]. split; [cbn; lia|]. split; [|auto].
    intros i phi. destruct (Nat.ltb_spec i (length cs)) as [H|H]; [reflexivity|]. rewrite nth_overflow by lia. destruct (i - length cs)%nat; reflexivity.
  - inversion P as [|? ? Pw Pws]; subst. unfold add_cell in E at 2. destruct (name_expr R iszero k ops w) as [[k1 ops1] c] eqn:N.
    destruct (name_ok _ _ _ _ _ _ O Pw N) as [O1 [G1 [V1 [L1 X1]]]].
    assert (T : Forall (fun c => match c with Some (_, o) => exists e, dget msym_eqb ops1 o = Some e | None => True end) (cs ++ [c])).
    { apply Forall_app. split; [|repeat constructor; exact L1]. eapply Forall_impl; [|exact F]. intros [[f o]|]; [|auto]. intros [e H]. exists e. exact (G1 _ _ H). }
    destruct (IH _ _ _ _ _ _ O1 Pws T E) as [O2 [G2 [F2 [L2 [V2 X2]]]]]. rewrite app_length in *. cbn [length] in *.
    split; [exact O2|]. split; [intros o e H; auto|]. split; [exact F2|]. split; [lia|]. split.
    + intros i phi. rewrite V2. destruct (Nat.ltb_spec i (length cs + 1)) as [H|H]; destruct (Nat.ltb_spec i (length cs)) as [H1|H1]; try lia.
      * rewrite app_nth1 by lia. apply cv_grows; [exact G1|]. rewrite Forall_forall in F. apply F. apply nth_In. exact H1.
      * assert (i = length cs) as -> by lia. rewrite app_nth2, !Nat.sub_diag by lia. cbn [nth]. apply V1.
      * destruct (i - length cs)%nat as [|j] eqn:Ej; [lia|]. cbn [nth]. do 2 f_equal. lia.
    + intros o x D. apply X2 in D. destruct D as [D|[w' [I H]]]; [|right; exists w'; split; [now right|exact H]]. apply X1 in D. destruct D as [D|D]; [now left|]. right. exists w. split; [now left|exact D].
Qed.

(* ---- right_svd *)
Notation gf := (group * list ((nat -> R) * (nat -> R)))%type.
Lemma left_writes_poly : forall rows (gs : list gf) im, Forall (fun w => poly (snd w)) (left_writes R iszero tiny rows im gs).
Proof.
  intros rows. induction gs as [|[g fs] gs IH]; intros im; cbn [left_writes]; [constructor|]. apply Forall_app. split; [|apply IH].
  apply Forall_forall. intros w I. apply in_flat_map in I. destruct I as [ip [_ I]]. apply in_map_iff in I. destruct I as [p [<- _]]. cbn [snd]. apply left_expr_ev.
Qed.
Lemma right_writes_poly : forall (gs : list gf), Forall poly (right_writes R iszero tiny gs).
Proof. intros gs. apply Forall_forall. intros w I. apply in_flat_map in I. destruct I as [g [_ I]]. apply in_map_iff in I. destruct I as [f [<- _]]. apply right_expr_ev. Qed.
Lemma left_writes_shape : forall rows (gs : list gf) im w, In w (left_writes R iszero tiny rows im gs) ->
  (fst (fst w) < rows)%nat /\ (im <= snd (fst w) < im + length (right_writes R iszero tiny gs))%nat.
Proof using.
  clear.
  intros rows. induction gs as [|[g fs] gs IH]; intros im w I; cbn [left_writes] in I; [destruct I|]. unfold right_writes. cbn [flat_map]. fold (right_writes R iszero tiny gs). rewrite app_length, map_length. cbn [snd].
  apply in_app_or in I. destruct I as [I|I]; [|apply IH in I; lia]. apply in_flat_map in I. destruct I as [ip [Ip I]]. apply in_map_iff in I. destruct I as [[k f] [<- I]]. cbn [fst snd].
  apply in_combine_l in I. apply in_seq in I, Ip. lia.
Qed.
Lemma bsum_combine_at : forall (A : Type) (d : A) l a (F : nat * A -> R), bsum (combine (seq a (length l)) l) F = bsum (seq 0 (length l)) (fun k => F ((a + k)%nat, nth k l d)).
Proof using.
  clear - R.
  intros A d. induction l as [|x l IH]; intros a F; [reflexivity|]. cbn [length seq combine]. rewrite !bsum_cons, Nat.add_0_r, IH. cbn [nth]. f_equal.
  rewrite <- seq_shift, bsum_map. apply bsum_ext. intros k _. cbn [nth]. do 2 f_equal. lia.
Qed.
Definition row_of (G : list osym -> list osym -> R) (ip : nat) : key -> list osym -> R := fun p r => if Nat.eqb (fst p) ip then G (snd p) r else 0'.
(* all writes in row ip, each with the cell its column points to *)
Lemma writes_ok : forall rows ip phi (gs : list gf) xs im, (ip < rows)%nat ->
  (forall i, nth (im + i) xs (Num0 R) = nth i (right_writes R iszero tiny gs) (Num0 R)) ->
  bsum (left_writes R iszero tiny rows im gs) (fun w => if Nat.eqb (fst (fst w)) ip then ev (snd w) (fun w1 => ev (nth (snd (fst w)) xs (Num0 R)) (fun w2 => phi (w1 ++ w2))) else 0')
  = bsum gs (fun x => bsum (snd x) (fun f => bsum (combine (seq 0 (length (g_l R (fst x)))) (g_l R (fst x))) (fun p => fst f (fst p) *'
      bsum (combine (seq 0 (length (g_r R (fst x)))) (g_r R (fst x))) (fun q => snd f (fst q) *' row_of (fun l r => phi (l ++ r)) ip (snd p) (snd q))))).
Proof.
  intros rows ip phi gs xs. induction gs as [|[g fs] gs IH]; intros im Hip X; cbn [left_writes]; [reflexivity|].
  rewrite bsum_app, bsum_cons. cbn [fst snd]. f_equal.
  - rewrite bsum_flat_map.
    rewrite (bsum_ext R _ (seq 0 rows) _ (fun k => if Nat.eqb ip k then bsum (combine (seq im (length fs)) fs) (fun p => ev (left_expr R iszero tiny g ip (fst (snd p))) (fun w1 => ev (nth (fst p) xs (Num0 R)) (fun w2 => phi (w1 ++ w2)))) else 0')).
    2:{ intros k _. rewrite bsum_map. cbn [fst snd]. rewrite (Nat.eqb_sym ip k). destruct (Nat.eqb_spec k ip) as [->|N]; [reflexivity|apply bsum_zero; reflexivity]. }
    rewrite bsum_seq_eq by exact Hip. rewrite (bsum_combine_at _ ((fun _ => 0'), (fun _ => 0'))).
    transitivity (bsum (combine (seq 0 (length fs)) fs) (fun p => ev (left_expr R iszero tiny g ip (fst (snd p))) (fun w1 => ev (nth (im + fst p) xs (Num0 R)) (fun w2 => phi (w1 ++ w2))))).
    { rewrite (bsum_combine_seq _ ((fun _ => 0'), (fun _ => 0')) fs). reflexivity. }
    transitivity (bsum (map snd (combine (seq 0 (length fs)) fs)) (fun f => ev (left_expr R iszero tiny g ip (fst f)) (fun w1 => ev (right_expr R iszero tiny g (snd f)) (fun w2 => phi (w1 ++ w2))))).
    + rewrite bsum_map. apply bsum_ext. intros [k f] I. cbn [fst snd]. apply (combine_seq_nth _ ((fun _ => 0'), (fun _ => 0'))) in I. destruct I as [I N]. rewrite Nat.sub_0_r in N. cbn in I.
      rewrite X. unfold right_writes. cbn [flat_map fst snd]. rewrite app_nth1 by (rewrite map_length; lia).
      rewrite (nth_indep _ _ (right_expr R iszero tiny g (snd ((fun _ : nat => 0'), (fun _ : nat => 0'))))) by (rewrite map_length; lia). rewrite (map_nth (fun f => right_expr R iszero tiny g (snd f))), N. reflexivity.
    + replace (map snd (combine (seq 0 (length fs)) fs)) with fs by (clear; generalize 0%nat; induction fs; intros k; cbn; [reflexivity|f_equal; auto]).
      apply bsum_ext. intros f _. destruct (left_expr_ev g ip (fst f)) as [_ L]. rewrite L. apply bsum_ext. intros p _. unfold row_of. destruct (Nat.eqb (fst (snd p)) ip).
      * destruct (right_expr_ev g (snd f)) as [_ Q]. now rewrite Q.
      * rewrite bsum_zero; [ring|]. intros. ring.
  - apply IH; [exact Hip|]. intros i. rewrite <- Nat.add_assoc, X. unfold right_writes at 1. cbn [flat_map fst snd]. rewrite app_nth2 by (rewrite map_length; lia). rewrite map_length. do 1 f_equal. lia.
Qed.
Definition col_ok (c : column R) : Prop := length (c_lop R c) = length (c_mat R c).
(* a column is the table times the new column, row by row; phi does not see the identity *)
Lemma right_svd_ok : forall idx c t c', col_ok c -> right_svd R orb iszero tiny big svd idx c = Some (t, c') ->
  forall ip (phi : fn), (ip < length (c_mat R c))%nat -> (forall w, phi (left_part idx w ++ right_part idx w) = phi w) ->
  bsum (t_mat R t) (fun e => if Nat.eqb (fst (fst e)) ip then cv (t_ops R t) (Some (snd e)) (fun w1 => cv (c_ops R c') (nth (snd (fst e)) (c_mat R c') None) (fun w2 => phi (w1 ++ w2))) else 0')
  = cv (c_ops R c) (nth ip (c_mat R c) None) phi.
Proof.
  intros idx c t c' C E ip phi Hip Hphi. unfold right_svd in E. destruct (groups_of R orb iszero tiny idx c) as [gs|] eqn:EG; cbn [bind] in E; [|discriminate].
  match type of E with bind (mapM ?F gs) _ = _ => destruct (mapM F gs) as [fs|] eqn:EF; cbn [bind] in E; [|discriminate] end.
  destruct (fold_left (add_entry R iszero) (left_writes R iszero tiny (length (c_mat R c)) 0 (map snd fs)) (0%nat, [], [])) as [[k1 lops] es] eqn:EL.
  destruct (fold_left (add_cell R iszero) (right_writes R iszero tiny (map snd fs)) (0%nat, [], [])) as [[k2 rops] cs] eqn:ER.
  injection E as <- <-. cbn [t_mat t_ops c_ops c_mat].
  assert (O0 : ops_ok 0 []) by (repeat split; intros; discriminate).
  destruct (entries_ok _ _ _ _ _ _ _ O0 (left_writes_poly _ _ _) (Forall_nil _) EL) as [_ [_ [VL _]]].
  destruct (cells_ok _ _ _ _ _ _ _ O0 (right_writes_poly _) (Forall_nil _) ER) as [_ [_ [_ [_ [VR _]]]]].
  transitivity (bsum es (fun e => cv lops (Some (snd e)) (fun w1 => if Nat.eqb (fst (fst e)) ip then ev (nth (snd (fst e)) (right_writes R iszero tiny (map snd fs)) (Num0 R)) (fun w2 => phi (w1 ++ w2)) else 0'))).
  { apply bsum_ext. intros e _. assert (Z : forall x f g, (forall w, f w = g w) -> cv lops x f = cv lops x g).
    { intros [[f0 o]|] f g H; unfold cv; [|reflexivity]. destruct (dget msym_eqb lops o); [|reflexivity]. now rewrite (ev_ext _ _ _ H). }
    destruct (Nat.eqb (fst (fst e)) ip).
    - apply Z. intros w1. rewrite VR. cbn [length]. now rewrite Nat.sub_0_r.
    - destruct (snd e) as [f0 o]. unfold cv. destruct (dget msym_eqb lops o); [|reflexivity]. rewrite ev_zero. ring. }
  rewrite (VL (fun ij w1 => if Nat.eqb (fst ij) ip then ev (nth (snd ij) (right_writes R iszero tiny (map snd fs)) (Num0 R)) (fun w2 => phi (w1 ++ w2)) else 0')), bsum_nil.
  assert (GW : gswf gs) by (unfold groups_of in EG; eapply add_rows_ok in EG; [apply EG|intros ? ? []]).
  transitivity (total (row_of (fun l r => phi (l ++ r)) ip) gs).
  - transitivity (bsum (map snd fs) (fun x => gval (row_of (fun l r => phi (l ++ r)) ip) (fst x))).
    + transitivity (bsum (left_writes R iszero tiny (length (c_mat R c)) 0 (map snd fs)) (fun w => if Nat.eqb (fst (fst w)) ip then ev (snd w) (fun w1 => ev (nth (snd (fst w)) (right_writes R iszero tiny (map snd fs)) (Num0 R)) (fun w2 => phi (w1 ++ w2))) else 0')).
      { match goal with |- ?z +' ?a = ?b => transitivity a; [ring|] end. apply bsum_ext. intros w _. destruct (Nat.eqb (fst (fst w)) ip); [reflexivity|apply ev_zero]. }
      rewrite writes_ok; [|exact Hip|reflexivity]. apply bsum_ext. intros [g f] I. cbn [fst snd]. symmetry.
      apply in_map_iff in I. destruct I as [[k gf] [Ek I]]. cbn [snd] in Ek. subst gf. eapply mapM_in in I; [|exact EF]. destruct I as [[k' g'] [I Eb]]. cbn [fst snd] in Eb.
      destruct (factors R big svd g') as [f'|] eqn:Ef; cbn [bind] in Eb; [|discriminate]. injection Eb as <- <- <-. apply group_ok; [exact (GW _ _ I)|exact Ef].
    + unfold total. clear - EF. revert fs EF. induction gs as [|[k g] gs IH]; intros fs EF; cbn [mapM] in EF; [injection EF as <-; reflexivity|]. cbn [fst snd] in EF.
      destruct (factors R big svd g) as [f|]; cbn [bind] in EF; [|discriminate]. match type of EF with bind (mapM ?F gs) _ = _ => destruct (mapM F gs) as [fs'|] eqn:EF'; cbn [bind] in EF; [|discriminate] end.
      injection EF as <-. cbn [map]. rewrite !bsum_cons. cbn [fst snd]. f_equal. now apply IH.
  - unfold groups_of in EG. eapply add_rows_ok in EG; [|intros ? ? []]. destruct EG as [_ EG]. rewrite EG. unfold total at 1. rewrite bsum_nil.
    assert (LC : length (combine (c_mat R c) (c_lop R c)) = length (c_mat R c)) by (rewrite combine_length, C; apply Nat.min_id).
    rewrite <- LC at 1. rewrite (bsum_combine_seq _ (None, mkSZ 0 0 0)), LC.
    rewrite (bsum_ext R _ (seq 0 (length (c_mat R c))) _ (fun k => if Nat.eqb ip k then cv (c_ops R c) (nth k (c_mat R c) None) phi else 0')).
    + rewrite bsum_seq_eq by exact Hip. ring.
    + intros k I. cbn [fst snd]. rewrite combine_nth by (symmetry; exact C). cbn [fst snd]. unfold row_of, cv. cbn [fst snd]. rewrite (Nat.eqb_sym ip k). destruct (nth k (c_mat R c) None) as [[f o]|]; [|now destruct (Nat.eqb k ip)].
      destruct (dget msym_eqb (c_ops R c) o); [|now destruct (Nat.eqb k ip)]. destruct (Nat.eqb k ip); [|rewrite ev_zero; ring]. f_equal. apply ev_ext. exact Hphi.
Qed.
End Proofs.
