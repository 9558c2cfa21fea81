(** The sweep of BuildModel: letters stay on their sites, the chain of tables is the sum of the strings, and it exists. *)
From Coq Require Import ZArith Bool List Lia Ring Sorted Permutation.
From Verif Require Import SymModel SymProofs DictLib IndexLib RingLib OptLib SiteModel SiteProofs SiteOps SiteProps QcAlg QcWords QcSite QcChain BuildModel BuildProofs BuildChain.
Import ListNotations.
Open Scope Z_scope.

Lemma F2_impl : forall (A B : Type) (P Q : A -> B -> Prop) l k, (forall a b, P a b -> Q a b) -> Forall2 P l k -> Forall2 Q l k.
Proof. intros A B P Q l k H F. induction F; constructor; auto. Qed.

Section Sweep.
Variable R : CRing.
Add Ring RR : (rth R).
Notation "0'" := (r0 R). Notation "1'" := (r1 R).
Infix "+'" := (radd R) (at level 50, left associativity).
Infix "*'" := (rmul R) (at level 40, left associativity).
Notation "-' a" := (ropp R a) (at level 35).
Notation expr := (expr R). Notation str := (R * list osym)%type. Notation group := (group R).
Notation ev := (ev R). Notation cv := (cv R). Notation words := (words R). Notation epoly := (epoly R).
Variable orb : Z -> Z.
Variable iszero tiny big : R -> bool.
Variable svd : nat -> nat -> (nat -> nat -> R) -> option (nat * (nat -> nat -> R) * (nat -> R) * (nat -> nat -> R)).
Hypothesis iszero_ok : forall x, iszero x = true -> x = 0'.
Hypothesis tiny_ok : forall x, tiny x = true -> x = 0'.
Hypothesis big_ok : forall x, big x = false -> x = 0'.
Hypothesis svd_ok : forall n m a k u s vh, svd n m a = Some (k, u, s, vh) ->
  forall i j, (i < n)%nat -> (j < m)%nat -> bsum (seq 0 k) (fun c => u i c *' s c *' vh c j) = a i j.
Notation right_svd := (right_svd R orb iszero tiny big svd).
Notation scale := (scale R iszero tiny).

(* ---- words of the expressions that are built *)
Lemma words_scaled : forall f s w, In w (words (of_scaled R (scale f s))) -> w = snd s.
Proof. intros f s w I. unfold BuildModel.scale in I. destruct (iszero f); [destruct I|]. destruct (tiny (fst s *' f)); [destruct I|]. destruct I as [<-|[]]. reflexivity. Qed.
Lemma words_eadd : forall a b w, In w (words (eadd R a b)) -> In w (words a) \/ In w (words b).
Proof.
  intros [|o|s|l] [|o'|s'|l'] w I; cbn [eadd] in I; auto; unfold BuildChain.words in *; cbn [BuildChain.epoly map] in *; rewrite ?map_app in I; try (destruct I; fail);
    try (apply in_app_or in I); cbn in I |- *; intuition.
Qed.
Lemma words_dot : forall l w, In w (words (dot R l)) -> exists e, In e l /\ In w (words e).
Proof.
  intros [|x l] w I; [destruct I|]. cbn [dot] in I.
  assert (H : forall l a, In w (words (fold_left (eadd R) l a)) -> In w (words a) \/ exists e, In e l /\ In w (words e)).
  { induction l0 as [|y l0 IH]; intros a J; [now left|]. cbn [fold_left] in J. destruct (IH _ J) as [K|[e [K1 K2]]]; [|right; exists e; split; [now right|exact K2]].
    apply words_eadd in K. destruct K as [K|K]; [now left|]. right. exists y. split; [now left|exact K]. }
  destruct (H _ _ I) as [K|[e [K1 K2]]]; [exists x; split; [now left|exact K]|exists e; split; [now right|exact K2]].
Qed.
Lemma words_left : forall g ip f w, In w (words (left_expr R iszero tiny g ip f)) -> exists p, In p (g_l R g) /\ snd p = w.
Proof.
  intros g ip f w I. unfold left_expr in I. apply words_dot in I. destruct I as [e [I W]]. apply in_map_iff in I. destruct I as [[k p] [<- I]]. cbn [fst snd] in W.
  apply in_combine_r in I. destruct (Nat.eqb (fst p) ip); [|destruct W]. apply words_scaled in W. exists p. auto.
Qed.
Lemma words_right : forall g f w, In w (words (right_expr R iszero tiny g f)) -> In w (g_r R g).
Proof.
  intros g f w I. unfold right_expr in I. apply words_dot in I. destruct I as [e [I W]]. apply in_map_iff in I. destruct I as [[k p] [<- I]]. cbn [fst snd] in W.
  apply in_combine_r in I. apply words_scaled in W. cbn in W. now subst.
Qed.
(* symbols *)
Definition usable (f : R) (e : expr) : Prop := match e with Num0 _ => False | Sum _ _ => iszero f = false | _ => True end.
Definition named (ops : dict msym expr) (c : option (R * msym)) (e : expr) : Prop :=
  match c with None => True | Some (f, o) => exists e', dget msym_eqb ops o = Some e' /\ words e' = words e /\ (iszero 1' = false -> usable f e') end.
Lemma name_in : forall k ops e k' ops' c, poly R e -> name_expr R iszero k ops e = (k', ops', c) ->
  (forall o x, In (o, x) ops' -> In (o, x) ops \/ words x = words e) /\ named ops' c e.
Proof.
  intros k ops e k' ops' c P E.
  assert (X : forall e0 o f, e = e0 -> (S k, dset msym_eqb ops o e0, Some (f, o)) = (k', ops', c) -> (iszero 1' = false -> usable f e0) ->
     (forall o x, In (o, x) ops' -> In (o, x) ops \/ words x = words e) /\ named ops' c e).
  { intros e0 o f -> Q U. injection Q as <- <- <-. split; [intros o' x I; apply dset_In in I; destruct I as [I|[-> _]]; auto|]. cbn [named]. exists e0. rewrite (dget_dset msym_eqb msym_eqb_spec).
    destruct (msym_eqb_spec o o); [|congruence]. auto. }
  destruct e as [|o|[f [|o [|o2 w]]]|l]; cbn [name_expr] in E.
  - injection E as <- <- <-. split; [auto|exact I].
  - destruct P.
  - eapply X; [reflexivity|exact E|intros; exact I].
  - destruct (iszero f); injection E as <- <- <-; [split; [auto|exact I]|]. split.
    + intros o' x J. apply dset_In in J. destruct J as [J|[-> _]]; auto.
    + exists (Elem R o). rewrite (dget_dset msym_eqb msym_eqb_spec). destruct (msym_eqb_spec (MB o) (MB o)); [|congruence]. repeat split; auto.
  - eapply X; [reflexivity|exact E|intros; exact I].
  - eapply X; [reflexivity|exact E|intros H; exact H].
Qed.
Lemma fold_entry_in : forall ws st, Forall (fun w => poly R (snd w)) ws -> let '(_, ops', es') := fold_left (add_entry R iszero) ws st in
  (forall o x, In (o, x) ops' -> In (o, x) (snd (fst st)) \/ exists w, In w ws /\ words x = words (snd w)).
Proof.
  induction ws as [|w ws IH]; intros [[k ops] es] P; cbn [fold_left]; [auto|]. inversion P as [|? ? Pw Pws]; subst. unfold add_entry at 2.
  destruct (name_expr R iszero k ops (snd w)) as [[k1 ops1] c] eqn:N. destruct (name_in _ _ _ _ _ _ Pw N) as [A _].
  specialize (IH (k1, ops1, match c with Some c => es ++ [(fst w, c)] | None => es end) Pws). destruct (fold_left (add_entry R iszero) ws _) as [[k2 ops2] es2]. cbn [fst snd] in *.
  intros o x I. destruct (IH o x I) as [J|[w' [J H]]]; [|right; exists w'; split; [now right|exact H]]. destruct (A o x J) as [K|K]; [now left|]. right. exists w. split; [now left|exact K].
Qed.
Lemma fold_cell_in : forall xs k ops cs k' ops' cs' xs0, ops_ok R k ops -> Forall (poly R) xs -> fold_left (add_cell R iszero) xs (k, ops, cs) = (k', ops', cs') ->
  Forall2 (named ops) cs xs0 -> Forall2 (named ops') cs' (xs0 ++ xs) /\ (forall o x, In (o, x) ops' -> In (o, x) ops \/ exists w, In w xs /\ words x = words w).
Proof.
  induction xs as [|w xs IH]; intros k ops cs k' ops' cs' xs0 O P E N; cbn [fold_left] in E; [injection E as <- <- <-; rewrite app_nil_r; auto|].
  inversion P as [|? ? Pw Pws]; subst. unfold add_cell in E at 2. destruct (name_expr R iszero k ops w) as [[k1 ops1] c] eqn:Nm.
  destruct (name_in _ _ _ _ _ _ Pw Nm) as [A B]. destruct (name_ok R iszero svd iszero_ok svd_ok _ _ _ _ _ _ O Pw Nm) as [O1 [G _]].
  assert (N1 : Forall2 (named ops1) (cs ++ [c]) (xs0 ++ [w])).
  { apply Forall2_app; [|constructor; [exact B|constructor]]. eapply F2_impl; [|exact N]. intros [[f o]|] e; [|auto]. intros [e' [D H]]. exists e'. split; [exact (G _ _ D)|exact H]. }
  destruct (IH _ _ _ _ _ _ _ O1 Pws E N1) as [N2 A2]. rewrite <- app_assoc in N2. split; [exact N2|].
  intros o x I. destruct (A2 o x I) as [J|[w' [J H]]]; [|right; exists w'; split; [now right|exact H]]. destruct (A o x J) as [K|K]; [now left|]. right. exists w. split; [now left|exact K].
Qed.

(* ---- groups *)
Variable n : nat.
Definition gloc (i : Z) (gs : dict (SZ * SZ) group) : Prop := forall k g, In (k, g) gs ->
  (forall l, In l (g_l R g) -> snd l <> [] /\ Forall (here_sym i) (snd l)) /\ (forall r, In r (g_r R g) -> good n (i + 1) r /\ r <> [] /\ lab_sum orb r = snd k).
Lemma qq_eqb_spec : forall a b, reflect (a = b) (qq_eqb a b).
Proof. intros [a b] [c d]. unfold qq_eqb. cbn [fst snd]. destruct (sz_eqb_spec a c), (sz_eqb_spec b d); cbn; constructor; congruence. Qed.
Lemma add_term_loc : forall i ip q gs f ops gs', gloc i gs -> good n i ops -> add_term R orb i ip q gs (Some (f, ops)) = Some gs' -> gloc i gs'.
Proof.
  intros i ip q gs f ops gs' W G E. unfold add_term in E. match type of E with (if ?b then _ else _) = _ => destruct b; [discriminate|] end.
  set (k := (sz_add (sz_neg q) (lab_sum orb (left_part i ops)), lab_sum orb (right_part i ops))) in *.
  set (g := match dget qq_eqb gs k with Some g => g | None => mkGroup R [] [] [] end) in *.
  assert (Wg : (forall l, In l (g_l R g) -> snd l <> [] /\ Forall (here_sym i) (snd l)) /\ (forall r, In r (g_r R g) -> good n (i + 1) r /\ r <> [] /\ lab_sum orb r = snd k)).
  { unfold g. destruct (dget qq_eqb gs k) as [g0|] eqn:D; [|split; intros ? []]. apply dget_In in D. destruct D as [k' [I Q]]. destruct (qq_eqb_spec k' k); [|discriminate]. subst k'. exact (W _ _ I). }
  destruct (enter row_eqb (ip, left_part i ops) (g_l R g)) as [il ml] eqn:El. destruct (enter osyms_eqb (right_part i ops) (g_r R g)) as [ir mr] eqn:Er.
  injection E as <-. apply (enter_ok _ _ (0%nat, []) row_eqb_spec) in El. apply (enter_ok _ _ [] osyms_eqb_spec) in Er.
  destruct El as [_ [_ [xl [_ Hl]]]], Er as [_ [_ [xr [_ Hr]]]]. destruct (parts_good n i ops G) as [GL [GR GN]].
  intros k' g' I. apply dset_In in I. destruct I as [I|[-> Hk]]; [exact (W _ _ I)|]. cbn [g_l g_r].
  assert (k' = k) as -> by (destruct Hk as [->|Hk]; [reflexivity|destruct (qq_eqb_spec k' k); congruence]). split.
  - intros l I. destruct (Hl l I) as [I'| ->]; [now apply (proj1 Wg)|exact GL].
  - intros r I. destruct (Hr r I) as [I'| ->]; [now apply (proj2 Wg)|]. repeat split; assumption.
Qed.
Lemma terms_words : forall f e ts, terms_of R iszero tiny f e = Some ts -> forall g w, In (Some (g, w)) ts -> In w (words e).
Proof.
  intros f [|o|s|l] ts E g w I; cbn [terms_of] in E; try discriminate.
  - injection E as <-. destruct I as [I|[]]. unfold BuildModel.scale in I. destruct (iszero f); [discriminate|]. destruct (tiny _); [discriminate|]. injection I as <- <-. now left.
  - injection E as <-. destruct I as [I|[]]. unfold BuildModel.scale in I. destruct (iszero f); [discriminate|]. destruct (tiny _); [discriminate|]. injection I as <- <-. now left.
  - destruct (iszero f) eqn:Z; [discriminate|]. injection E as <-. apply in_map_iff in I. destruct I as [s [I Is]]. unfold BuildModel.scale in I. rewrite Z in I. destruct (tiny _); [discriminate|]. injection I as <- <-. now apply (in_map snd).
Qed.
Definition col_loc (i : Z) (ops : dict msym expr) : Prop := forall o e, In (o, e) ops -> forall w, In w (words e) -> good n i w.
Lemma add_terms_loc : forall i ip q ts gs gs', gloc i gs -> (forall g w, In (Some (g, w)) ts -> good n i w) -> foldM (add_term R orb i ip q) gs ts = Some gs' -> gloc i gs'.
Proof.
  intros i ip q. induction ts as [|t ts IH]; intros gs gs' W G E; cbn [foldM] in E; [injection E as <-; exact W|].
  destruct (add_term R orb i ip q gs t) as [g1|] eqn:E1; cbn [bind] in E; [|discriminate]. eapply IH; [|intros g w I; apply (G g w); now right|exact E].
  destruct t as [[f w]|]; [|injection E1 as <-; exact W]. eapply add_term_loc; [exact W| |exact E1]. apply (G f w). now left.
Qed.
Lemma add_rows_loc : forall i ops rows gs gs', col_loc i ops -> gloc i gs -> foldM (add_row R orb iszero tiny i ops) gs rows = Some gs' -> gloc i gs'.
Proof.
  intros i ops rows. induction rows as [|[ip [c q]] rows IH]; intros gs gs' C W E; cbn [foldM] in E; [injection E as <-; exact W|].
  destruct (add_row R orb iszero tiny i ops gs (ip, (c, q))) as [g1|] eqn:E1; cbn [bind] in E; [|discriminate]. apply (IH g1 gs' C); [|exact E].
  unfold add_row in E1. cbn [fst snd] in E1. destruct c as [[f o]|]; [|injection E1 as <-; exact W].
  destruct (dget msym_eqb ops o) as [e|] eqn:De; cbn [bind] in E1; [|discriminate]. destruct (terms_of R iszero tiny f e) as [ts|] eqn:T; cbn [bind] in E1; [|discriminate].
  eapply add_terms_loc; [exact W| |exact E1]. intros g w I. destruct (dget_In _ _ _ _ _ _ De) as [o' [J _]]. eapply C; [exact J|]. eapply terms_words; eassumption.
Qed.

Notation gf := (group * list ((nat -> R) * (nat -> R)))%type.
Lemma writes_words : forall rows (gs : list gf) im x, In x (left_writes R iszero tiny rows im gs) -> forall w, In w (words (snd x)) -> exists gfs p, In gfs gs /\ In p (g_l R (fst gfs)) /\ snd p = w.
Proof.
  intros rows. induction gs as [|[g fs] gs IH]; intros im x I w W; cbn [left_writes] in I; [destruct I|]. apply in_app_or in I. destruct I as [I|I].
  - apply in_flat_map in I. destruct I as [ip [_ I]]. apply in_map_iff in I. destruct I as [p [<- _]]. cbn [snd] in W. apply words_left in W. destruct W as [q [Q E]]. exists (g, fs), q. split; [now left|auto].
  - destruct (IH _ _ I _ W) as [a [p [A B]]]. exists a, p. split; [now right|exact B].
Qed.
Lemma F2_map_l : forall (A B C : Type) (P : A -> B -> Prop) (f : C -> A) l k, Forall2 (fun c b => P (f c) b) l k -> Forall2 P (map f l) k.
Proof. intros A B C P f l k H. induction H; constructor; auto. Qed.
(* right_svd: letters of the table are at the site, letters of the new column after it; labels of the rows *)
Definition row_lab (ops : dict msym expr) (c : option (R * msym)) (q : SZ) : Prop :=
  match c with None => True | Some (f, o) => exists e, dget msym_eqb ops o = Some e /\ (iszero 1' = false -> usable f e) /\ forall w, In w (words e) -> lab_sum orb w = q end.
Lemma right_svd_loc : forall i c t c', col_loc i (c_ops R c) -> right_svd i c = Some (t, c') ->
  (forall o e, In (o, e) (t_ops R t) -> forall w, In w (words e) -> w <> [] /\ Forall (here_sym i) w) /\
  col_loc (i + 1) (c_ops R c') /\ (forall o e, In (o, e) (c_ops R c') -> forall w, In w (words e) -> w <> []) /\
  Forall (fun e => (fst (fst e) < length (c_mat R c))%nat /\ (snd (fst e) < length (c_mat R c'))%nat) (t_mat R t) /\
  Forall2 (row_lab (c_ops R c')) (c_mat R c') (c_lop R c') /\ (forall e, In e (t_mat R t) -> exists x, dget msym_eqb (t_ops R t) (snd (snd e)) = Some x).
Proof.
  intros i c t c' C E. unfold BuildModel.right_svd in E. destruct (groups_of R orb iszero tiny i c) as [gs|] eqn:EG; cbn [bind] in E; [|discriminate].
  match type of E with bind (mapM ?F gs) _ = _ => destruct (mapM F gs) as [fs|] eqn:EF; cbn [bind] in E; [|discriminate] end.
  destruct (fold_left (add_entry R iszero) (left_writes R iszero tiny (length (c_mat R c)) 0 (map snd fs)) (0%nat, [], [])) as [[k1 lops] es] eqn:EL.
  destruct (fold_left (add_cell R iszero) (right_writes R iszero tiny (map snd fs)) (0%nat, [], [])) as [[k2 rops] cs] eqn:ER.
  injection E as <- <-. cbn [t_mat t_ops c_ops c_mat c_lop].
  assert (G : gloc i gs). { unfold groups_of in EG. eapply add_rows_loc; [exact C| |exact EG]. intros ? ? []. }
  assert (GF : forall k g f, In (k, (g, f)) fs -> In (k, g) gs).
  { intros k g f I. eapply mapM_in in I; [|exact EF]. destruct I as [[k' g'] [I Eb]]. cbn [fst snd] in Eb. destruct (factors R big svd g'); cbn [bind] in Eb; [|discriminate]. injection Eb as <- <- <-. exact I. }
  assert (O0 : ops_ok R 0 []) by (repeat split; intros; discriminate).
  assert (PL := left_writes_poly R iszero tiny iszero_ok tiny_ok (length (c_mat R c)) (map snd fs) 0). assert (PR := right_writes_poly R iszero tiny iszero_ok tiny_ok (map snd fs)).
  assert (EL' := fold_entry_in _ (0%nat, [], []) PL). rewrite EL in EL'. cbn [fst snd] in EL'.
  destruct (fold_cell_in _ _ _ _ _ _ _ [] O0 PR ER (Forall2_nil _)) as [NR IR]. cbn [app] in NR.
  destruct (entries_ok R iszero svd iszero_ok svd_ok _ _ _ _ _ _ _ O0 PL (Forall_nil _) EL) as [_ [FE [_ [ME _]]]].
  assert (GR : forall e, In e (right_writes R iszero tiny (map snd fs)) -> exists k g f, In (k, (g, f)) fs /\ forall w, In w (words e) -> In w (g_r R g)).
  { intros e I. unfold right_writes in I. apply in_flat_map in I. destruct I as [[g f] [I J]]. apply in_map_iff in I. destruct I as [[k gf] [Ek I]]. cbn [snd] in Ek. subst gf.
    apply in_map_iff in J. destruct J as [x [<- J]]. exists k, g, f. split; [exact I|]. intros w W. eapply words_right, W. }
  split; [|split; [|split; [|split; [|split]]]].
  - intros o e I w W. destruct (EL' o e I) as [[]|[x [Ix Ex]]]. rewrite Ex in W. destruct (writes_words _ _ _ _ Ix _ W) as [[g f] [p [A [B <-]]]]. apply in_map_iff in A. destruct A as [[k gf] [Ek A]]. cbn [snd] in Ek. subst gf.
    exact (proj1 (G k g (GF _ _ _ A)) p B).
  - intros o e I w W. destruct (IR o e I) as [[]|[x [Ix Ex]]]. rewrite Ex in W. destruct (GR x Ix) as [k [g [f [A B]]]]. exact (proj1 (proj2 (G k g (GF _ _ _ A)) w (B w W))).
  - intros o e I w W. destruct (IR o e I) as [[]|[x [Ix Ex]]]. rewrite Ex in W. destruct (GR x Ix) as [k [g [f [A B]]]]. exact (proj1 (proj2 (proj2 (G k g (GF _ _ _ A)) w (B w W)))).
  - apply Forall_forall. intros e I. destruct (ME e I) as [[]|[w [J Ew]]]. apply left_writes_shape in J. rewrite Ew in J. rewrite (F2_len _ _ _ _ _ NR). lia.
  - clear - NR G GF. assert (K : Forall2 (fun e q => forall w, In w (words e) -> lab_sum orb w = q) (right_writes R iszero tiny (map snd fs))
        (flat_map (fun kf : (SZ * SZ) * gf => map (fun _ => snd (fst kf)) (snd (snd kf))) fs)).
    { clear NR. assert (H : forall k g f, In (k, (g, f)) fs -> forall r, In r (g_r R g) -> lab_sum orb r = snd k) by (intros k g f I r J; exact (proj2 (proj2 (proj2 (G k g (GF _ _ _ I)) r J)))). clear G GF.
      induction fs as [|[k [g f]] fs IH]; [constructor|]. cbn [map flat_map]. unfold right_writes. cbn [flat_map]. fold (right_writes R iszero tiny (map snd fs)).
      apply Forall2_app; [|apply IH; intros; eapply H; [right|]; eassumption]. cbn [fst snd]. assert (Hg := H k g f (or_introl eq_refl)). clear - Hg.
      induction f as [|x f IHf]; [constructor|]. cbn [map]. constructor; [|exact IHf]. intros w W. apply Hg. eapply words_right, W. }
    revert K. generalize (flat_map (fun kf : (SZ * SZ) * gf => map (fun _ => snd (fst kf)) (snd (snd kf))) fs) as qs. revert NR. generalize (right_writes R iszero tiny (map snd fs)) as xs.
    intros xs NR. induction NR as [|c0 x cs xs Hc NR IH]; intros qs K; inversion K as [|? q ? qs' Hq Kq]; subst; constructor; auto.
    destruct c0 as [[f o]|]; [|exact I]. destruct Hc as [e' [D [W U]]]. exists e'. split; [exact D|]. split; [exact U|]. intros w J. apply Hq. now rewrite <- W.
  - intros e I. rewrite Forall_forall in FE. exact (FE e I).
Qed.
End Sweep.
