(** The tables of build_mpo satisfy what FullProofs asks of tables. *)
From Coq Require Import ZArith Bool List Lia Ring.
From Verif Require Import SymModel SymProofs SymProps DictLib IndexLib OptLib RingLib FuseModel FuseProofs BlockProofs MpsModel SiteModel SiteProofs SiteOps SiteProps QcAlg QcWords QcModel QcSite QcChain TosModel TosProofs TosProps BuildModel BuildProofs BuildChain BuildSweep BuildFinal BuildExists BuildLabels FullModel FullOps FullChain FullProofs.
Import ListNotations.
Open Scope Z_scope.

Lemma fer_add : forall a b, sz_is_fermion (sz_add a b) = xorb (sz_is_fermion a) (sz_is_fermion b).
Proof. exact (qpar_add L). Qed.
Definition letter_par (o : osym) : bool := match o with Some _ => true | None => false end.
Definition word_par (w : list osym) : bool := fold_right xorb false (map letter_par w).
Lemma fer_lab : forall orb o, sz_is_fermion (lab orb o) = letter_par o.
Proof. intros orb [[[] [i s]]|]; reflexivity. Qed.
Lemma fer_word : forall orb w, sz_is_fermion (lab_sum orb w) = word_par w.
Proof.
  intros orb w. rewrite lab_sum_eq. induction w as [|o w IH]; [reflexivity|]. cbn [lsum fold_right]. fold (lsum orb w). rewrite fer_add, fer_lab, IH. reflexivity.
Qed.

Section Build.
Variable R : CRing.
Add Ring Rr : (rth R).
Notation "0'" := (r0 R). Notation "1'" := (r1 R).
Infix "+'" := (radd R) (at level 50, left associativity).
Infix "*'" := (rmul R) (at level 40, left associativity).
Variable orb : Z -> Z.
Notation expr := (expr R). Notation words := (words R).
(** *** the operators of the entries *)
Lemma letter_fit : forall m o x, letter_op R orb m o = Some x -> okf R (orb m) x /\ only R x (letter_par o).
Proof.
  intros m [[[] [i s]]|] x E; cbn [letter_op] in E; split.
  - exact (okf_d R _ _ _ E). - exact (only_d R _ _ _ E). - exact (okf_c R _ _ _ E). - exact (only_c R _ _ _ E). - exact (okf_i R _ _ E). - exact (only_i R _ _ E).
Qed.
Lemma word_fit : forall m w l x p, mapM (letter_op R orb m) w = Some l -> okf R (orb m) x -> only R x p -> okf R (orb m) (fold_left (op_mm R) l x) /\ only R (fold_left (op_mm R) l x) (xorb p (word_par w)).
Proof.
  intros m. induction w as [|o w IH]; intros l x p E O P; cbn [mapM] in E.
  - injection E as <-. cbn. rewrite xorb_false_r. auto.
  - destruct (letter_op R orb m o) as [y|] eqn:Ey; cbn [bind] in E; [|discriminate]. destruct (mapM (letter_op R orb m) w) as [k|]; cbn [bind] in E; [|discriminate]. injection E as <-. destruct (letter_fit m o y Ey) as [Oy Py].
    cbn [fold_left]. unfold word_par. cbn [map fold_right]. fold (word_par w). rewrite <- xorb_assoc. apply IH; [reflexivity|now apply okf_mm|now apply only_mm].
Qed.
Lemma string_fit : forall m s x, string_op R orb m s = Some x -> okf R (orb m) x /\ only R x (word_par (snd s)).
Proof.
  intros m [f w] x E. unfold string_op in E. cbn [fst snd] in *. destruct (mapM (letter_op R orb m) w) as [l|] eqn:El; cbn [bind] in E; [|discriminate]. destruct w as [|o w]; cbn [mapM] in El; [injection El as <-; discriminate|].
  destruct (letter_op R orb m o) as [y|] eqn:Ey; cbn [bind] in El; [|discriminate]. destruct (mapM (letter_op R orb m) w) as [k|] eqn:Ek; cbn [bind] in El; [|discriminate]. injection El as <-. injection E as <-.
  destruct (letter_fit m o y Ey) as [Oy Py]. destruct (word_fit m w k y _ Ek Oy Py) as [A B]. split; [now apply okf_scale|]. apply only_scale. exact B.
Qed.
Lemma expr_fit : forall m e o q, words e <> [] -> (forall w, In w (words e) -> lab_sum orb w = q) -> expr_op R orb m e = Some o ->
  exists x, o = Op R x /\ okf R (orb m) x /\ only R x (sz_is_fermion q).
Proof.
  intros m e o q N W E. assert (Wp : forall w, In w (words e) -> word_par w = sz_is_fermion q) by (intros w I; rewrite <- (W w I); symmetry; apply fer_word). clear W.
  destruct e as [|a|s|l]; cbn [expr_op] in E.
  - elim N. reflexivity.
  - destruct (letter_op R orb m a) as [x|] eqn:Ex; cbn [bind] in E; [|discriminate]. injection E as <-. exists x. split; [reflexivity|]. rewrite <- (Wp [a] (or_introl eq_refl)). unfold word_par. cbn [map fold_right]. rewrite xorb_false_r. exact (letter_fit m a x Ex).
  - destruct (string_op R orb m s) as [x|] eqn:Ex; cbn [bind] in E; [|discriminate]. injection E as <-. exists x. split; [reflexivity|]. rewrite <- (Wp (snd s) (or_introl eq_refl)). exact (string_fit m s x Ex).
  - destruct (mapM (string_op R orb m) l) as [xs|] eqn:Ex; cbn [bind] in E; [|discriminate]. unfold BuildChain.words in *. cbn [BuildChain.epoly] in *. destruct l as [|s l]; [elim N; reflexivity|]. cbn [mapM] in Ex.
    destruct (string_op R orb m s) as [x|] eqn:Es; cbn [bind] in Ex; [|discriminate]. destruct (mapM (string_op R orb m) l) as [ys|] eqn:El; cbn [bind] in Ex; [|discriminate]. injection Ex as <-. injection E as <-. exists (fold_left (op_plus R) ys x). split; [reflexivity|].
    assert (H : okf R (orb m) x /\ only R x (sz_is_fermion q)). { rewrite <- (Wp (snd s) (or_introl eq_refl)). exact (string_fit m s x Es). }
    assert (Wl : forall s, In s l -> word_par (snd s) = sz_is_fermion q) by (intros t I; apply Wp; right; now apply in_map). clear - H Wl El. revert x ys H El. induction l as [|t l IH]; intros x ys [O P] El; cbn [mapM] in El.
    + injection El as <-. cbn. auto.
    + destruct (string_op R orb m t) as [y|] eqn:Ey; cbn [bind] in El; [|discriminate]. destruct (mapM (string_op R orb m) l) as [zs|] eqn:Ez; cbn [bind] in El; [|discriminate]. injection El as <-. destruct (string_fit m t y Ey) as [Oy Py]. rewrite (Wl t (or_introl eq_refl)) in Py.
      cbn [fold_left]. apply IH; [intros u I; apply Wl; now right| |reflexivity]. split; [now apply okf_plus|now apply only_plus].
Qed.

(** *** what the sweep leaves in its tables *)
Variable iszero tiny big : R -> bool.
Variable svd : nat -> nat -> (nat -> nat -> R) -> option (nat * (nat -> nat -> R) * (nat -> R) * (nat -> nat -> R)).
Hypothesis iszero_ok : forall x, iszero x = true -> x = 0'.
Hypothesis tiny_ok : forall x, tiny x = true -> x = 0'.
Hypothesis svd_ok : forall n m a k u s vh, svd n m a = Some (k, u, s, vh) ->
  forall i j, (i < n)%nat -> (j < m)%nat -> bsum (seq 0 k) (fun c => u i c *' s c *' vh c j) = a i j.
Notation right_svd := (right_svd R orb iszero tiny big svd). Notation sweep := (sweep R orb iszero tiny big svd).

(* an expression that is not the number 0 has strings *)
Definition solid (e : expr) : Prop := match e with Sum _ [] => False | _ => True end.
Lemma eadd_solid : forall a b, solid a -> solid b -> solid (eadd R a b).
Proof using. intros [|o|s|[|x l]] [|o'|s'|[|x' l']]; cbn; auto. Qed.
Lemma dot_solid : forall l, Forall solid l -> solid (dot R l).
Proof using.
  intros [|x l] F; [exact I|]. cbn [dot]. inversion F as [|? ? Fx Fl]; subst. clear F. revert x Fx. induction Fl as [|y l Fy Fl IH]; intros x Fx; [exact Fx|]. cbn [fold_left]. apply IH. now apply eadd_solid.
Qed.
Lemma scaled_solid : forall s, solid (of_scaled R s).
Proof using. intros [s|]; exact I. Qed.
Lemma left_solid : forall g ip f, solid (left_expr R iszero tiny g ip f).
Proof using. intros g ip f. apply dot_solid, Forall_forall. intros e I. apply in_map_iff in I. destruct I as (p & <- & _). destruct (Nat.eqb (fst (snd p)) ip); [apply scaled_solid|exact I]. Qed.
Lemma right_solid : forall g f, solid (right_expr R iszero tiny g f).
Proof using. intros g f. apply dot_solid, Forall_forall. intros e I. apply in_map_iff in I. destruct I as (p & <- & _). apply scaled_solid. Qed.
Definition nonempty (ops : dict msym expr) : Prop := forall o x, In (o, x) ops -> words x <> [].
Lemma name_words : forall k ops e k' ops' c, solid e -> nonempty ops -> name_expr R iszero k ops e = (k', ops', c) -> nonempty ops'.
Proof using.
  intros k ops e k' ops' c S N E.
  assert (X : forall o e0, words e0 <> [] -> nonempty (dset msym_eqb ops o e0)) by (intros o e0 H o' x I; apply dset_In in I; destruct I as [I|[-> _]]; [exact (N _ _ I)|exact H]).
  destruct e as [|a|[f [|o [|o2 w]]]|[|x l]]; cbn [name_expr] in E; try (destruct S; fail).
  - injection E as _ <- _. exact N.
  - injection E as _ <- _. apply X. discriminate.
  - injection E as _ <- _. apply X. discriminate.
  - destruct (iszero f); injection E as _ <- _; [exact N|]. apply X. discriminate.
  - injection E as _ <- _. apply X. discriminate.
  - injection E as _ <- _. apply X. discriminate.
Qed.
Lemma entry_words : forall ws st, Forall (fun w => solid (snd w)) ws -> nonempty (snd (fst st)) -> nonempty (snd (fst (fold_left (add_entry R iszero) ws st))).
Proof using.
  induction ws as [|w ws IH]; intros [[k ops] es] F N; [exact N|]. inversion F as [|? ? Fw Fs]; subst. cbn [fold_left]. apply IH; [exact Fs|]. unfold add_entry. destruct (name_expr R iszero k ops (snd w)) as [[k1 ops1] c] eqn:E. cbn [fst snd]. exact (name_words _ _ _ _ _ _ Fw N E).
Qed.
Lemma cell_words : forall ws st, Forall solid ws -> nonempty (snd (fst st)) -> nonempty (snd (fst (fold_left (add_cell R iszero) ws st))).
Proof using.
  induction ws as [|w ws IH]; intros [[k ops] es] F N; [exact N|]. inversion F as [|? ? Fw Fs]; subst. cbn [fold_left]. apply IH; [exact Fs|]. unfold add_cell. destruct (name_expr R iszero k ops w) as [[k1 ops1] c] eqn:E. cbn [fst snd]. exact (name_words _ _ _ _ _ _ Fw N E).
Qed.
Lemma lwrites_solid : forall rows gs im, Forall (fun w => solid (snd w)) (left_writes R iszero tiny rows im gs).
Proof using.
  intros rows. induction gs as [|[g fs] gs IH]; intros im; [constructor|]. cbn [left_writes]. apply Forall_app. split; [|apply IH]. apply Forall_forall. intros x I. apply in_flat_map in I. destruct I as (ip & _ & I). apply in_map_iff in I. destruct I as (p & <- & _). apply left_solid.
Qed.
Lemma rwrites_solid : forall gs, Forall solid (right_writes R iszero tiny gs).
Proof using. intros gs. apply Forall_forall. intros x I. apply in_flat_map in I. destruct I as (g & _ & I). apply in_map_iff in I. destruct I as (f & <- & _). apply right_solid. Qed.
Lemma right_svd_words : forall i c t c', right_svd i c = Some (t, c') -> nonempty (t_ops R t) /\ nonempty (c_ops R c').
Proof using.
  intros i c t c' E. unfold BuildModel.right_svd in E. destruct (groups_of R orb iszero tiny i c) as [gs|] eqn:EG; cbn [bind] in E; [|discriminate].
  match type of E with bind (mapM ?F gs) _ = _ => destruct (mapM F gs) as [fs|] eqn:EF; cbn [bind] in E; [|discriminate] end.
  pose proof (entry_words (left_writes R iszero tiny (length (c_mat R c)) 0 (map snd fs)) (0%nat, [], []) (lwrites_solid _ _ _) ltac:(intros ? ? [])) as A.
  pose proof (cell_words (right_writes R iszero tiny (map snd fs)) (0%nat, [], []) (rwrites_solid _) ltac:(intros ? ? [])) as B.
  destruct (fold_left (add_entry R iszero) (left_writes R iszero tiny (length (c_mat R c)) 0 (map snd fs)) (0%nat, [], [])) as [[k1 lops] es].
  destruct (fold_left (add_cell R iszero) (right_writes R iszero tiny (map snd fs)) (0%nat, [], [])) as [[k2 rops] cs].
  injection E as <- <-. split; [exact A|exact B].
Qed.
Definition of_cells (cs : list (option (R * msym))) : list ((nat * nat) * (R * msym)) :=
  flat_map (fun rc => match snd rc with Some x => [((fst rc, 0%nat), x)] | None => [] end) (combine (seq 0 (length cs)) cs).
Fixpoint facts (ts : list (table R)) : Prop :=
  match ts with
  | [] => True
  | t :: ts' => full R (t_ops R t) /\ nonempty (t_ops R t) /\ (ts' = [] -> exists cs, t_mat R t = of_cells cs /\ t_rows R t = length cs) /\ facts ts'
  end.
Lemma sweep_facts : forall n k i c ts, col_loc R n i (c_ops R c) ->
  (k = 0%nat -> nonempty (c_ops R c) /\ forall o e, In (o, e) (c_ops R c) -> forall w, In w (words e) -> w <> []) ->
  sweep k i c = Some ts -> facts ts.
Proof.
  intros n. induction k as [|k IH]; intros i c ts CL NE E; cbn [BuildModel.sweep] in E.
  - injection E as <-. destruct (NE eq_refl) as [N W]. cbn [facts t_ops t_mat t_rows]. split; [|split; [exact N|split; [|exact I]]].
    + intros o e I w J. split; [exact (W o e I w J)|]. eapply spins_good, (CL o e I w J).
    + intros _. exists (c_mat R c). split; reflexivity.
  - destruct (right_svd i c) as [[t c']|] eqn:ES; cbn [bind] in E; [|discriminate]. destruct (sweep k (i + 1) c') as [ts'|] eqn:ET; cbn [bind] in E; [|discriminate]. injection E as <-.
    destruct (right_svd_loc R orb iszero tiny big svd iszero_ok tiny_ok svd_ok n i c t c' CL ES) as (TH & CL' & NE' & _). destruct (right_svd_words i c t c' ES) as [N1 N2]. cbn [facts]. split; [|split; [exact N1|split]].
    + intros o e I w W. destruct (TH o e I w W) as [A B]. split; [exact A|]. eapply Forall_impl; [|exact B]. intros [a|] H; [apply H|exact Logic.I].
    + intros ->. destruct k; cbn [BuildModel.sweep] in ET; [discriminate|]. destruct (right_svd (i + 1) c') as [[? ?]|]; cbn [bind] in ET; [|discriminate]. destruct (sweep k (i + 1 + 1) _); discriminate.
    + refine (IH _ _ _ CL' _ ET). intros _. split; [exact N2|exact NE'].
Qed.

(** *** the tables with their operators *)
Lemma present_some : forall (l : list ((nat * nat) * (R * msym))), flat_map (present R msym) (map (fun e => (fst e, Some (snd e))) l) = l.
Proof using. clear. induction l as [|[a b] l IH]; [reflexivity|]. cbn. f_equal. exact IH. Qed.
Lemma nth_seq_all : forall (A : Type) (d : A) l, map (fun i => nth i l d) (seq 0 (length l)) = l.
Proof using.
  intros A d l. apply (nth_ext _ _ d d); [now rewrite map_length, seq_length|]. intros k H. rewrite map_length, seq_length in H. rewrite (nth_indep _ d (nth 0 l d)) by (rewrite map_length, seq_length; exact H). rewrite (map_nth (fun i => nth i l d)), seq_nth by exact H. reflexivity.
Qed.
Lemma fnone : forall cs a i, (i < a)%nat -> find (fun e : (nat * nat) * (R * msym) => Nat.eqb (fst (fst e)) i) (flat_map (fun rc => match snd rc with Some x => [((fst rc, 0%nat), x)] | None => [] end) (combine (seq a (length cs)) cs)) = None.
Proof using.
  clear. induction cs as [|c cs IH]; intros a i H; [reflexivity|]. cbn [length seq combine flat_map fst snd]. destruct c as [x|]; cbn [app find fst snd]; [|apply IH; lia]. destruct (Nat.eqb_spec a i); [lia|]. apply IH. lia.
Qed.
Lemma column_cells : forall t cs, t_mat R t = of_cells cs -> t_rows R t = length cs -> entries R msym (column_of R t) = t_mat R t.
Proof using.
  clear. intros t cs E Er. unfold column_of, entries. rewrite Er, E.
  assert (F : forall i, (i < length cs)%nat -> option_map snd (find (fun e : (nat * nat) * (R * msym) => Nat.eqb (fst (fst e)) i) (of_cells cs)) = nth i cs None).
  { clear. unfold of_cells. assert (G : forall a i, (a <= i)%nat -> option_map snd (find (fun e : (nat * nat) * (R * msym) => Nat.eqb (fst (fst e)) i) (flat_map (fun rc => match snd rc with Some x => [((fst rc, 0%nat), x)] | None => [] end) (combine (seq a (length cs)) cs))) = nth (i - a) cs None).
    { induction cs as [|c cs IH]; intros a i H; [destruct (i - a)%nat; reflexivity|]. cbn [length seq combine flat_map fst snd]. destruct (Nat.eqb_spec a i) as [->|N].
      - rewrite Nat.sub_diag. cbn [nth]. destruct c as [x|]; cbn [app find fst snd].
        + rewrite Nat.eqb_refl. reflexivity.
        + rewrite fnone by lia. reflexivity.
      - replace (i - a)%nat with (S (i - S a)) by lia. cbn [nth]. rewrite <- (IH (S a)) by lia. destruct c as [x|]; [|reflexivity]. cbn [app find fst snd]. destruct (Nat.eqb_spec a i); [contradiction|reflexivity]. }
    intros i _. rewrite (G 0%nat i) by lia. now rewrite Nat.sub_0_r. }
  assert (Em : map (fun i => option_map snd (find (fun e : (nat * nat) * (R * msym) => Nat.eqb (fst (fst e)) i) (of_cells cs))) (seq 0 (length cs)) = cs).
  { rewrite (map_ext_in _ (fun i => nth i cs None)) by (intros i I; apply in_seq in I; apply F; lia). clear. apply nth_seq_all. }
  rewrite Em. unfold numbered, of_cells. rewrite flat_map_concat_map, map_map, flat_map_concat_map. reflexivity.
Qed.

Notation stab := (stab R msym). Notation ents := (ents R msym msym_eqb).
Lemma stab_fit : forall last m t qr, fits R orb qr [t] \/ True -> length (t_lop R t) = t_rows R t -> length (t_rop R t) = t_cols R t -> Forall (entry_lab R orb t) (t_mat R t) ->
  full R (t_ops R t) -> nonempty (t_ops R t) -> (last = true -> t_rop R t = [zero_lab] /\ exists cs, t_mat R t = of_cells cs /\ t_rows R t = length cs) ->
  exists y es, stab_of R orb last m t = Some y /\ site_entries R orb m t = Some es /\ ents y = es /\ fit_tab R msym msym_eqb (orb m) y /\ yrows R msym y = t_lop R t /\ ycols R msym y = t_rop R t.
Proof using.
  clear - R. intros last m t qr _ Ll Lr EL F N La.
  destruct (site_some orb R m t F) as [es Ee].
  { intros e I. rewrite Forall_forall in EL. destruct (EL e I) as (qc & x & _ & D & _). eauto. }
  exists (match mapM (fun kv => do x <- expr_op R orb m (snd kv); Some (fst kv, x)) (t_ops R t) with Some vs => mkStab R msym (if last then column_of R t else matrix_of R t) vs (t_lop R t) (t_rop R t) | None => mkStab R msym (RowV R msym []) [] [] [] end), es.
  unfold stab_of. unfold site_entries in Ee |- *. destruct (mapM (fun kv => do x <- expr_op R orb m (snd kv); Some (fst kv, x)) (t_ops R t)) as [vs|] eqn:Ev; cbn [bind] in Ee |- *; [|discriminate].
  set (y := mkStab R msym (if last then column_of R t else matrix_of R t) vs (t_lop R t) (t_rop R t)).
  assert (En : yents R msym y = t_mat R t).
  { unfold yents. cbn [y y_mat]. destruct last; [|apply present_some]. destruct (La eq_refl) as (_ & cs & E1 & E2). exact (column_cells t cs E1 E2). }
  assert (Er : yrows R msym y = t_lop R t) by (unfold yrows; cbn [y y_mat y_lop]; destruct last; reflexivity).
  assert (Ec : ycols R msym y = t_rop R t) by (unfold ycols; cbn [y y_mat y_rop]; destruct last; [destruct (La eq_refl) as [-> _]; reflexivity|reflexivity]).
  split; [reflexivity|]. split; [exact Ee|]. split; [|split; [|split; [exact Er|exact Ec]]].
  - unfold FullChain.ents. rewrite En. cbn [y y_ops]. match type of Ee with bind ?m _ = _ => destruct m as [l|] eqn:El; cbn [bind] in Ee; [|discriminate] end. injection Ee as <-. clear - El. revert l El. induction (t_mat R t) as [|e k IH]; intros l El; cbn [mapM] in El; [injection El as <-; reflexivity|].
    destruct (dget msym_eqb vs (snd (snd e))) as [v|] eqn:D; cbn [bind] in El; [|discriminate]. match type of El with bind ?m _ = _ => destruct m as [l'|] eqn:El'; cbn [bind] in El; [|discriminate] end. injection El as <-. cbn [flat_map concat]. rewrite (IH l' eq_refl). f_equal. unfold ent_of. rewrite D. destruct v; reflexivity.
  - intros c I. rewrite En in I. rewrite Er, Ec. cbn [y y_ops y_mat]. rewrite Forall_forall in EL. destruct (EL c I) as (qc & x & Q1 & D & W). destruct (dget_In _ _ _ _ _ _ D) as (o' & Io & _). pose proof (N _ _ Io) as Nx.
    destruct (words x) as [|w0 ws] eqn:Ew; [congruence|]. destruct (W w0 (or_introl eq_refl)) as (q & Q2 & _).
    assert (B1 : (fst (fst c) < length (t_lop R t))%nat) by (apply nth_error_Some; congruence). assert (B2 : (snd (fst c) < length (t_rop R t))%nat) by (apply nth_error_Some; congruence). split; [exact B1|]. split; [exact B2|].
    pose proof (dget_mapM _ _ _ msym_eqb (expr_op R orb m) (t_ops R t) vs (snd (snd c)) Ev) as Dv. destruct (dget msym_eqb vs (snd (snd c))) as [v|]; [|congruence]. destruct Dv as (x' & Dx & Vx). rewrite D in Dx. injection Dx as <-.
    destruct (expr_fit m x v (sz_add q qc)) as (z & -> & Ok & On); [rewrite Ew; discriminate| |exact Vx|].
    { intros w Iw. rewrite Ew in Iw. destruct (W w Iw) as (q' & Q3 & ->). congruence. }
    exists (Op R z). split; [reflexivity|]. split; [exact Ok|]. intros odd No. transitivity (xorb (sz_is_fermion q) (sz_is_fermion qc)); [exact (f_equal2 (fun a b => xorb (sz_is_fermion a) (sz_is_fermion b)) (nth_error_nth _ _ sz_zero Q2) (nth_error_nth _ _ sz_zero Q1))|]. rewrite <- fer_add. unfold only in On. destruct (Bool.eqb_spec odd (sz_is_fermion (sz_add q qc))) as [E|E]; [symmetry; exact E|].
    elim No. replace odd with (negb (sz_is_fermion (sz_add q qc))); [exact On|]. destruct odd, (sz_is_fermion (sz_add q qc)); try reflexivity; elim E; reflexivity.
Qed.

Lemma sz_neg_of : forall a b, sz_add a b = zero_lab -> b = sz_neg a.
Proof using.
  clear. intros [a1 a2 a3] [b1 b2 b3] E. unfold sz_add, zero_lab in E. cbn [sz_n sz_twos sz_pg] in E. injection E as E1 E2 E3. unfold sz_neg. cbn [sz_n sz_twos sz_pg]. apply Z.lxor_eq in E3. f_equal; lia.
Qed.
Lemma neg_labels : forall a b, Forall2 (fun x y => sz_add x y = zero_lab) a b -> b = map sz_neg a.
Proof using. clear. intros a b F. induction F as [|x y a b H F IH]; [reflexivity|]. cbn [map]. f_equal; [now apply sz_neg_of|exact IH]. Qed.
Lemma tables_linked : forall ts lop i n, fits R orb lop ts -> facts ts -> i + Z.of_nat (length ts) = n ->
  exists ys ess, mapM (fun p => stab_of R orb (fst p =? n - 1) (fst p) (snd p)) (combine (sites_from i (length ts)) ts) = Some ys /\
    mapM (fun p => site_entries R orb (fst p) (snd p)) (combine (sites_from i (length ts)) ts) = Some ess /\ map ents ys = ess /\ map (ycols R msym) ys = map (t_rop R) ts /\
    linked R msym msym_eqb orb i (map sz_neg lop) ys.
Proof using.
  clear - R. induction ts as [|t ts IH]; intros lop i n F Fa Hn; [destruct F|]. cbn [fits] in F. destruct F as (F1 & F2 & F3 & F4 & F5). cbn [facts] in Fa. destruct Fa as (A1 & A2 & A3 & A4). cbn [length] in Hn.
  destruct (stab_fit (i =? n - 1) i t [] (or_intror I) F2 F3 F4 A1 A2) as (y & es & Ey & Ee & Ent & Fit & Er & Ec).
  { intros E. apply Z.eqb_eq in E. destruct ts as [|t' ts]; [|cbn [length] in Hn; lia]. split; [exact F5|]. exact (A3 eq_refl). }
  assert (Rows : yrows R msym y = map sz_neg (map sz_neg lop)).
  { rewrite Er, F1, map_map. symmetry. etransitivity; [|apply map_id]. apply map_ext. intros [a b c]. unfold sz_neg. cbn [sz_n sz_twos sz_pg]. f_equal; lia. }
  cbn [length sites_from combine mapM fst snd]. rewrite Ey, Ee. cbn [bind]. destruct ts as [|t' ts].
  - exists [y], [es]. cbn [length sites_from combine mapM map bind linked]. rewrite Ent, Ec. split; [reflexivity|]. split; [reflexivity|]. split; [reflexivity|]. split; [reflexivity|]. split; [exact Fit|]. split; [exact Rows|exact F5].
  - destruct F5 as [F5 F6]. destruct (IH (t_lop R t') (i + 1) n F6 A4) as (ys & ess & E1 & E2 & E3 & E4 & E5); [lia|]. exists (y :: ys), (es :: ess). rewrite E1, E2. cbn [bind map linked]. rewrite Ent, E3, Ec, E4. split; [reflexivity|]. split; [reflexivity|]. split; [reflexivity|]. split; [reflexivity|]. split; [exact Fit|]. split; [exact Rows|].
    rewrite (neg_labels _ _ F5) in E5. rewrite map_map in E5. replace (map (fun x => sz_neg (sz_neg x)) (t_rop R t)) with (t_rop R t) in E5; [exact E5|]. clear. symmetry. etransitivity; [|apply map_id]. apply map_ext. intros [a b c]. unfold sz_neg. cbn [sz_n sz_twos sz_pg]. f_equal; lia.
Qed.
Lemma build_linked : forall n terms ts, (2 <= n)%nat -> Forall (fun t => Forall (okl n) (snd t)) terms -> Forall (fun t => lsum orb (map Some (snd t)) = zero_lab) terms ->
  symbolic_mpo R orb iszero tiny big svd n terms = Some ts -> length ts = n ->
  exists ys ess, mapM (fun p => stab_of R orb (fst p =? Z.of_nat n - 1) (fst p) (snd p)) (combine (zrange (Z.of_nat n)) ts) = Some ys /\
    build_mpo R orb iszero tiny big svd n terms = Some ess /\ map ents ys = ess /\ map (ycols R msym) ys = map (t_rop R) ts /\ linked R msym msym_eqb orb 0 [sz_zero] ys /\ length ys = n.
Proof.
  intros n terms ts N F Nu E Ln. pose proof E as E0. unfold symbolic_mpo in E.
  assert (CL : col_loc R n 0 (c_ops R (start R orb terms))) by (apply (start_loc R orb svd svd_ok); exact F).
  assert (H : fits R orb [zero_lab] ts).
  { refine (sweep_lab R orb iszero tiny big svd iszero_ok tiny_ok svd_ok n (n - 1) 0 (start R orb terms) ts CL _ E).
    constructor; [|constructor]. eexists. split; [reflexivity|]. split; [intros H; exact H|]. intros w W. unfold BuildChain.words in W. cbn [BuildChain.epoly] in W. rewrite map_map in W. apply in_map_iff in W. destruct W as [t [<- I]].
    rewrite Forall_forall in Nu. rewrite lab_sum_eq. unfold sort_term. cbn [snd]. etransitivity; [|exact (Nu t I)]. apply lsum_perm, Permutation.Permutation_map, Permutation.Permutation_sym, sort_perm. }
  assert (Fa : facts ts) by (refine (sweep_facts n (n - 1) 0 (start R orb terms) ts CL _ E); intros K; lia).
  destruct (tables_linked ts [zero_lab] 0 (Z.of_nat n) H Fa) as (ys & ess & E1 & E2 & E3 & E4 & E5); [rewrite Ln; lia|]. exists ys, ess. rewrite zrange_from. rewrite Ln in E1, E2. unfold build_mpo. rewrite E0. cbn [bind]. rewrite zrange_from.
  split; [exact E1|]. split; [exact E2|]. split; [exact E3|]. split; [exact E4|]. split; [exact E5|]. rewrite <- (map_length (ycols R msym)), E4, map_length. exact Ln.
Qed.
End Build.
