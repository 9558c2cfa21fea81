(** Tables of site operators as block-sparse tensors: one site, then the chain. *)
From Coq Require Import ZArith Bool List Lia Ring.
From Verif Require Import SymModel SymProofs DictLib IndexLib OptLib RingLib FuseModel FuseProofs BlockProofs MpsModel MpsChain MpsProofs MpsDot MpoMul SiteModel SiteProofs QcModel QcSite QcChain TosModel TosProofs TosProps FullModel FullOps.
Import ListNotations.
Open Scope Z_scope.

Notation L := SZ_label.
Notation state := (SZ_label * Z)%type.
Section Chain.
Variable R : CRing.
Add Ring Rr : (rth R).
Notation "0'" := (r0 R). Notation "1'" := (r1 R).
Infix "+'" := (radd R) (at level 50, left associativity).
Infix "*'" := (rmul R) (at level 40, left associativity).
Variable K : Type.
Variable keqb : K -> K -> bool.
Notation stab := (stab R K).
Notation entry := (entry R).

Definition yrows (y : stab) : list L := rows R L K (y_mat R K y) (y_lop R K y).
Definition ycols (y : stab) : list L := cols R L K (y_mat R K y) (y_rop R K y).
Definition yents (y : stab) : list ((nat * nat) * (R * K)) := entries R K (y_mat R K y).
(* the entries of the table with their operators *)
Definition ent_of (ops : dict K (opval R)) (c : (nat * nat) * (R * K)) : list entry :=
  match dget keqb ops (snd (snd c)) with Some (Op _ x) => [((Z.of_nat (fst (fst c)), Z.of_nat (snd (fst c))), (fst (snd c), x))] | _ => [] end.
Definition ents (y : stab) : list entry := flat_map (ent_of (y_ops R K y)) (yents y).
(* entries lie in the table; their operators act on the site, and their parity is that of the labels of row and column *)
Definition fit_tab (g : Z) (y : stab) : Prop := forall c, In c (yents y) ->
  (fst (fst c) < length (yrows y))%nat /\ (snd (fst c) < length (ycols y))%nat /\
  exists o, dget keqb (y_ops R K y) (snd (snd c)) = Some o /\
  match o with
  | Zero _ => is_matrix R K (y_mat R K y) = false
  | Op _ x => okf R g x /\ forall odd, fpart R x odd <> [] -> xorb (sz_is_fermion (nth (fst (fst c)) (yrows y) sz_zero)) (sz_is_fermion (nth (snd (fst c)) (ycols y) sz_zero)) = odd
  end.
Definition pp (g : Z) (x' x : Z) : list state := [((state_lab g x' : L), 0); ((state_lab g x : L), 0)].
Definition one (q : L) : Z := 1.
Definition dim1 (_ : Z) (_ : L) : Z := 1.

Lemma dget_map_val : forall (A B : Type) (f : A -> B) (d : dict K A) k, dget keqb (map (fun kv => (fst kv, f (snd kv))) d) k = option_map f (dget keqb d k).
Proof. intros A B f d k. induction d as [|[a v] d IH]; [reflexivity|]. cbn [map dget fst snd]. destruct (keqb a k); [reflexivity|exact IH]. Qed.
Lemma opart_pten : forall x odd, opart R L (pten_of R (Op R x)) odd = blocks_of R (fpart R x odd).
Proof. intros x []; reflexivity. Qed.
Lemma fits_ops : forall g y, fit_tab g y -> operators_fit R L K keqb 4 dim1 (map (fun kv => (fst kv, pten_of R (snd kv))) (y_ops R K y)) (y_mat R K y) (y_lop R K y) (y_rop R K y).
Proof.
  intros g y F c I. destruct (F c I) as (A & B & o & E & H). split; [exact A|]. split; [exact B|]. exists (pten_of R o). rewrite dget_map_val, E. split; [reflexivity|]. split; [destruct o; [intros _; exact H|discriminate]|].
  intros odd. destruct o as [|x]; [split; intros b []|]. rewrite opart_pten. split; intros b Ib; unfold blocks_of in Ib; apply in_map_iff in Ib; destruct Ib as [kv [<- Ik]]; cbn [fst snd nshape].
  - split; reflexivity.
  - repeat constructor.
Qed.
Lemma opt_nil : forall x odd, fpart R x odd = [] \/ fpart R x odd <> [].
Proof. intros x odd. destruct (fpart R x odd); [now left|right; discriminate]. Qed.
Lemma site_sparse : forall g y dq, fit_tab g y -> charge_of L dq = sz_zero ->
  exists s, tab_sparse R K keqb dq y = Some s /\
  wf_site 4 (fun q : L => times L (sz_neg q) (yrows y)) dim1 (fun q : L => times L q (ycols y)) s /\ operator_site s /\
  (forall p x' x j k, (j < length (yrows y))%nat -> (k < length (ycols y))%nat -> forall sl, odd_par sl = p ->
     bsum [true; false] (fun o => signed (o && p) (selem s (o, pp g x' x) (row_state L sz_zero (yrows y) j) (col_state L (ycols y) k))) =
     bsum (ents y) (fun e => if (fst (fst e) =? Z.of_nat j) && (snd (fst e) =? Z.of_nat k) then fst (snd e) *' opel R g (snd (snd e)) sl x' x else 0')) /\
  (forall o ps l r, (forall j, (j < length (yrows y))%nat -> l <> row_state L sz_zero (yrows y) j) \/ (forall k, (k < length (ycols y))%nat -> r <> col_state L (ycols y) k) -> selem s (o, ps) l r = 0').
Proof.
  intros g y dq F D. pose proof (fits_ops g y F) as Fo.
  destruct (c62_to_sparse R L K keqb 4 dim1 _ _ _ _ dq ltac:(lia) Fo) as (od & ev & E & W & V & Z0).
  destruct (c62_graded R L K keqb 4 dim1 _ _ _ _ dq ltac:(lia) Fo) as (s' & E' & G).
  { intros c s odd b Ic Hs Ib. destruct (F c Ic) as (A & B & o & Eo & H). rewrite dget_map_val, Eo in Hs. injection Hs as <-. destruct o as [|x]; [destruct Ib|]. rewrite opart_pten in Ib.
    destruct H as [Ok Pa]. assert (N : fpart R x odd <> []) by (intros X; rewrite X in Ib; destruct Ib). specialize (Pa odd N). unfold blocks_of in Ib. apply in_map_iff in Ib. destruct Ib as [kv [<- Ik]]. cbn [fst].
    split; [|rewrite D; change (qpar L sz_zero) with false; rewrite xorb_false_l; exact Pa]. destruct (Ok odd) as [_ Hk]. destruct (Hk _ (in_keys R _ _ Ik)) as (_ & _ & X). cbn [parity fold_right]. change (qpar L) with sz_is_fermion. rewrite xorb_false_r. exact X. }
  rewrite E in E'. injection E' as <-. exists (FT od ev). split; [exact E|]. rewrite D in *. split; [|split; [exact G|split; [|exact Z0]]].
  - destruct W as [W1 W2]. split; [exact W1|]. intros odd. destruct (W2 odd) as (Wa & Wb & Wc). split; [|split; assumption]. intros b Ib. destruct (Wa b Ib) as [Lb Sb]. split; [exact Lb|]. rewrite Sb. unfold shape_of. apply map_ext. intros [i q]. cbn [fst snd]. unfold ldim. destruct (i =? 0); [|reflexivity].
    change (qsub L sz_zero q) with (sz_sub sz_zero q). replace (sz_sub sz_zero q) with (sz_neg q); [reflexivity|]. destruct q. unfold sz_sub, sz_neg, sz_zero. cbn. f_equal; lia.
  - intros p x' x j k Hj Hk sl Hp. rewrite !bsum_cons, bsum_nil. unfold yrows, ycols in *. rewrite !V by assumption. cbn [andb]. unfold ents. rewrite bsum_flat_map.
    transitivity (bsum (filter (fun c => Nat.eqb (fst (fst c)) j && Nat.eqb (snd (fst c)) k) (yents y)) (fun c => match dget keqb (y_ops R K y) (snd (snd c)) with Some (Op _ z) => fst (snd c) *' opel R g z sl x' x | _ => 0' end)).
    + fold (yents y). rewrite (bsum_ext R _ _ (fun c => match dget keqb (y_ops R K y) (snd (snd c)) with Some (Op _ z) => fst (snd c) *' opel R g z sl x' x | _ => 0' end)
        (fun c => (sg R p *' entry_value R L K keqb (map (fun kv => (fst kv, pten_of R (snd kv))) (y_ops R K y)) c true (pp g x' x)) +' entry_value R L K keqb (map (fun kv => (fst kv, pten_of R (snd kv))) (y_ops R K y)) c false (pp g x' x))).
      * rewrite bsum_add, bsum_mull. unfold signed, sg. destruct p; ring.
      * intros c Ic. apply filter_In in Ic. destruct Ic as [Ic _]. destruct (F c Ic) as (_ & _ & o & Eo & H). unfold entry_value. rewrite dget_map_val, Eo. cbn [option_map]. destruct o as [|z]; [cbn; ring|]. rewrite !opart_pten. destruct H as [Ok _]. cbn [pp map fst snd].
        rewrite !elem_blocks by (apply Ok). unfold opel. rewrite Hp. cbn [fpart]. ring.
    + rewrite bsum_filter. apply bsum_ext. intros c Ic. unfold ent_of. destruct (F c Ic) as (_ & _ & o & Eo & _). rewrite Eo. destruct o as [|z]; [rewrite bsum_nil; destruct (_ && _); reflexivity|]. rewrite bsum_cons, bsum_nil. cbn [fst snd].
      replace (Z.of_nat (fst (fst c)) =? Z.of_nat j) with (Nat.eqb (fst (fst c)) j) by (apply eq_true_iff_eq; rewrite Nat.eqb_eq, Z.eqb_eq; lia).
      replace (Z.of_nat (snd (fst c)) =? Z.of_nat k) with (Nat.eqb (snd (fst c)) k) by (apply eq_true_iff_eq; rewrite Nat.eqb_eq, Z.eqb_eq; lia).
      destruct (_ && _); [ring|ring].
Qed.

(** *** sums over choices, chains and crossings grow at the end *)
Lemma choices_snoc : forall (A : Type) (Ps : list (list A)) P (F : list A -> R), bsum (choices (Ps ++ [P])) F = bsum P (fun p => bsum (choices Ps) (fun ps => F (ps ++ [p]))).
Proof.
  intros A Ps P. induction Ps as [|Q Ps IH]; intros F.
  - cbn [app choices]. rewrite bsum_flat_map. apply bsum_ext. intros p _. cbn [map]. rewrite !bsum_cons, !bsum_nil. reflexivity.
  - cbn [app choices]. rewrite bsum_flat_map. rewrite (bsum_ext R _ P _ (fun p => bsum Q (fun q => bsum (choices Ps) (fun ps => F (q :: ps ++ [p]))))).
    + rewrite bsum_swap. apply bsum_ext. intros q _. rewrite bsum_map. apply IH.
    + intros p _. rewrite bsum_flat_map. apply bsum_ext. intros q _. now rewrite bsum_map.
Qed.
Lemma choices_len : forall (A : Type) (Ps : list (list A)) ps, In ps (choices Ps) -> length ps = length Ps.
Proof. intros A. induction Ps as [|P Ps IH]; intros ps I; cbn [choices] in I; [destruct I as [<-|[]]; reflexivity|]. apply in_flat_map in I. destruct I as [p [_ I]]. apply in_map_iff in I. destruct I as [q [<- I]]. cbn. f_equal. now apply IH. Qed.
Lemma crossings_snoc : forall ms p o m, crossings p (ms ++ [(o, m)]) = xorb (crossings p ms) (o && xorb p (fold_right xorb false (map snd ms))).
Proof.
  induction ms as [|[o' m'] ms IH]; intros p o m; cbn [app crossings map fold_right snd].
  - rewrite !xorb_false_r. destruct (o && p); reflexivity.
  - rewrite IH. now rewrite !xorb_assoc.
Qed.
Lemma combine_snoc : forall (A B : Type) (l : list A) (k : list B) a b, length l = length k -> combine (l ++ [a]) (k ++ [b]) = combine l k ++ [(a, b)].
Proof. intros A B. induction l as [|x l IH]; intros [|y k] a b H; try discriminate; [reflexivity|]. cbn. f_equal. apply IH. now injection H. Qed.
Notation fmat := (bool * list state -> state -> state -> R).
Notation st_dec := (MpsProofs.st_dec L).
(* a chain, also of no sites *)
Definition chn (Bs : list (list state)) (fs : list fmat) ps (l r : state) : R :=
  match fs with [] => if st_dec l r then 1' else 0' | _ => MpsChain.chain R (bool * list state) state Bs fs ps l r end.
Lemma chain_grow : forall fs f Bs B ps p l r, fs <> [] -> length fs = S (length Bs) -> length ps = length fs ->
  MpsChain.chain R (bool * list state) state (Bs ++ [B]) (fs ++ [f]) (ps ++ [p]) l r = bsum B (fun m => MpsChain.chain R (bool * list state) state Bs fs ps l m *' f p m r).
Proof.
  induction fs as [|g [|h fs] IH]; intros f Bs B ps p l r N LB LP; [congruence| |].
  - destruct Bs; [|cbn in LB; lia]. destruct ps as [|q [|q' ps]]; try (cbn in LP; lia). cbn [app]. rewrite chain_cons. apply bsum_ext. intros m _. now rewrite !chain_one.
  - destruct Bs as [|B0 Bs]; [cbn in LB; lia|]. destruct ps as [|q ps]; [cbn in LP; lia|]. cbn [app]. rewrite chain_cons.
    rewrite (bsum_ext R _ B _ (fun m => bsum B0 (fun m0 => g q l m0 *' (MpsChain.chain R (bool * list state) state Bs (h :: fs) ps m0 m *' f p m r)))).
    + rewrite bsum_swap. apply bsum_ext. intros m0 _. rewrite bsum_mull. f_equal. apply (IH f Bs B ps p m0 r); [discriminate|cbn in *; lia|cbn in *; lia].
    + intros m _. rewrite chain_cons, <- bsum_mulr. apply bsum_ext. intros m0 _. ring.
Qed.

(** *** the whole chain *)
Variable orb : Z -> Z.
Definition cstates (c : list L) : list state := map (col_state L c) (seq 0 (length c)).
Definition site_ok (g : Z) (y : stab) (s : MpsModel.site R L) : Prop :=
  wf_site 4 (fun q : L => times L (sz_neg q) (yrows y)) dim1 (fun q : L => times L q (ycols y)) s /\ operator_site s /\
  (forall x' x j k, (j < length (yrows y))%nat -> (k < length (ycols y))%nat -> forall sl,
     bsum [true; false] (fun o => signed (o && odd_par sl) (selem s (o, pp g x' x) (row_state L sz_zero (yrows y) j) (col_state L (ycols y) k))) =
     bsum (ents y) (fun e => if (fst (fst e) =? Z.of_nat j) && (snd (fst e) =? Z.of_nat k) then fst (snd e) *' opel R g (snd (snd e)) sl x' x else 0')) /\
  (forall o ps l r, (forall j, (j < length (yrows y))%nat -> l <> row_state L sz_zero (yrows y) j) \/ (forall k, (k < length (ycols y))%nat -> r <> col_state L (ycols y) k) -> selem s (o, ps) l r = 0').
(* the tables of sites 0, 1, ... with their tensors; c: labels of the columns of the last one *)
Inductive good : list (stab * MpsModel.site R L) -> list L -> Prop :=
  | good_nil : good [] [sz_zero]
  | good_snoc : forall zs c y s, good zs c -> fit_tab (orb (Z.of_nat (length zs))) y -> site_ok (orb (Z.of_nat (length zs))) y s -> yrows y = map sz_neg c -> good (zs ++ [(y, s)]) (ycols y).
Fixpoint pps (b' b : list Z) : list (list state) := match b', b with x' :: s', x :: s => pps s' s ++ [pp (orb (Z.of_nat (length s))) x' x] | _, _ => [] end.
Fixpoint pars (b : list Z) : list bool := match b with [] => [] | x :: s => pars s ++ [state_par x] end.
Definition bnds (zs : list (stab * MpsModel.site R L)) : list (list state) := removelast (map (fun z => cstates (ycols (fst z))) zs).
Definition ttabs (zs : list (stab * MpsModel.site R L)) : list (Z * list entry) := combine (zrange (Z.of_nat (length zs))) (map (fun z => ents (fst z)) zs).
Definition vst : state := ((sz_zero : L), 0).
Definition ssum (zs : list (stab * MpsModel.site R L)) (c : list L) (k : nat) (b' b : list Z) : R :=
  bsum (choices (repeat [true; false] (length zs))) (fun os => signed (crossings false (combine os (pars b))) (chn (bnds zs) (map (fun z => selem (snd z)) zs) (combine os (pps b' b)) vst (col_state L c k))).
Lemma row_col : forall c j, (j < length c)%nat -> row_state L sz_zero (map sz_neg c) j = col_state L c j.
Proof.
  intros c j H. unfold row_state, col_state. change (q0 L) with sz_zero. rewrite (nth_indep (map sz_neg c) sz_zero (sz_neg sz_zero)) by (rewrite map_length; exact H). rewrite map_nth.
  change (Q L) with SZ. f_equal. - destruct (nth j c sz_zero) as [a b p]. change (sz_sub sz_zero (sz_neg (mkSZ a b p)) = mkSZ a b p). unfold sz_sub, sz_neg, sz_zero. cbn [sz_n sz_twos sz_pg]. f_equal; first [lia|apply Z.lxor_0_l].
  - rewrite firstn_map. unfold times. f_equal. change (Q L) with SZ. generalize (nth j c sz_zero) (firstn j c). intros q l. induction l as [|x l IH]; [reflexivity|]. cbn [map filter].
    assert (E : qeqb L (sz_neg q) (sz_neg x) = qeqb L q x). { change (qeqb L) with sz_eqb. destruct (sz_eqb_spec q x) as [E0|N], (sz_eqb_spec (sz_neg q) (sz_neg x)) as [E|E]; try congruence. elim N. destruct q, x. unfold sz_neg in E. cbn in E. injection E as E1 E2 E3. f_equal; lia. }
    rewrite E. destruct (qeqb L q x); cbn [length]; now rewrite IH.
Qed.
Lemma pps_len : forall b' b, length b' = length b -> length (pps b' b) = length b.
Proof. induction b' as [|x' b' IH]; intros [|x b] H; try discriminate; [reflexivity|]. cbn [pps]. rewrite app_length, IH by (now injection H). cbn. lia. Qed.
Lemma pars_len : forall b, length (pars b) = length b.
Proof. induction b as [|x b IH]; [reflexivity|]. cbn [pars]. rewrite app_length, IH. cbn. lia. Qed.
Lemma pars_xor : forall b, fold_right xorb false (pars b) = odd_par b.
Proof.
  assert (A : forall l k, fold_right xorb false (l ++ k) = xorb (fold_right xorb false l) (fold_right xorb false k)). { induction l as [|x l IH]; intros k; cbn [app fold_right]; [now rewrite xorb_false_l|]. now rewrite IH, xorb_assoc. }
  induction b as [|x b IH]; [reflexivity|]. cbn [pars]. rewrite A, IH. cbn [fold_right]. rewrite xorb_false_r. unfold odd_par at 2. cbn [map fold_right]. apply xorb_comm.
Qed.
Lemma map_snd_combine : forall (A B : Type) (l : list A) (k : list B), length l = length k -> map snd (combine l k) = k.
Proof. intros A B. induction l as [|x l IH]; intros [|y k] H; try discriminate; [reflexivity|]. cbn. f_equal. apply IH. now injection H. Qed.
Lemma good_cols : forall zs c, good zs c -> zs <> [] -> map (fun z => cstates (ycols (fst z))) zs = bnds zs ++ [cstates c].
Proof. intros zs c G N. destruct G; [congruence|]. unfold bnds. rewrite map_app. cbn [map fst]. now rewrite removelast_last. Qed.
Lemma bnds_len : forall zs, zs <> [] -> length zs = S (length (bnds zs)).
Proof. intros zs N. unfold bnds. destruct (exists_last N) as (zs' & z & ->). rewrite map_app. cbn [map]. rewrite removelast_last, map_length, app_length. cbn. lia. Qed.
Lemma chn_snoc : forall zs c y s ps p r, good zs c -> length ps = length zs ->
  chn (bnds (zs ++ [(y, s)])) (map (fun z => selem (snd z)) (zs ++ [(y, s)])) (ps ++ [p]) vst r = bsum (cstates c) (fun m => chn (bnds zs) (map (fun z => selem (snd z)) zs) ps vst m *' selem s p m r).
Proof.
  intros zs c y s ps p r G H. assert (E : bnds (zs ++ [(y, s)]) = map (fun z => cstates (ycols (fst z))) zs) by (unfold bnds; rewrite map_app; cbn [map]; apply removelast_last). rewrite E. clear E.
  destruct zs as [|z zs].
  - inversion G as [E1 E2|zs' c' y' s' G' F' S' R' E1 E2]; [|destruct zs'; discriminate]. destruct ps; [|discriminate]. cbn [app map chn snd]. rewrite chain_one. unfold cstates. cbn [length seq map]. rewrite bsum_cons, bsum_nil. change (col_state L [sz_zero] 0) with vst. destruct (st_dec vst vst); [ring|congruence].
  - rewrite (good_cols _ _ G ltac:(discriminate)). rewrite map_app. cbn [map snd]. set (f := selem (snd z)). assert (X : forall t u, chn t ((f :: map (fun z => selem (snd z)) zs) ++ u) = MpsChain.chain R _ _ t ((f :: map (fun z => selem (snd z)) zs) ++ u)) by reflexivity.
    rewrite X. rewrite chain_grow; [reflexivity|discriminate| |].
    + cbn [length]. rewrite map_length. pose proof (bnds_len (z :: zs) ltac:(discriminate)) as B. cbn [length] in B. exact B.
    + cbn [length]. rewrite map_length. exact H.
Qed.
Lemma signed_xor : forall a b (x y : R), signed (xorb a b) (x *' y) = signed a x *' signed b y.
Proof. intros [] [] x y; cbn; ring. Qed.
Lemma signed_sum : forall (A : Type) a (l : list A) (f : A -> R), signed a (bsum l f) = bsum l (fun x => signed a (f x)).
Proof. intros A [] l f; cbn; [symmetry; apply bsum_opp|reflexivity]. Qed.
Lemma ttabs_snoc : forall zs z, ttabs (zs ++ [z]) = ttabs zs ++ [(Z.of_nat (length zs), ents (fst z))].
Proof.
  intros zs z. unfold ttabs. rewrite app_length, map_app. cbn [length map]. assert (E : zrange (Z.of_nat (length zs + 1)) = zrange (Z.of_nat (length zs)) ++ [Z.of_nat (length zs)]).
  { unfold zrange. rewrite !Nat2Z.id. rewrite Nat.add_1_r, seq_S, map_app. reflexivity. }
  rewrite E. apply combine_snoc. unfold zrange. rewrite !map_length, seq_length, Nat2Z.id. reflexivity.
Qed.
Theorem chain_value : forall zs c, good zs c -> forall b' b k, length b' = length zs -> length b = length zs -> (k < length c)%nat ->
  ssum zs c k b' b = value R (Z.of_nat k) (paths R orb (ttabs zs)) b' b.
Proof.
  intros zs c G. induction G as [|zs c y s G IH F Ok E]; intros b' b k L' Lb Hk.
  - destruct b', b; try discriminate. cbn [length] in Hk. assert (k = 0%nat) by lia. subst k. unfold ssum. cbn [length repeat choices]. rewrite bsum_cons, bsum_nil. cbn [combine crossings signed map chn]. change (col_state L [sz_zero] 0) with vst. destruct (st_dec vst vst); [|congruence].
    change (paths R orb (ttabs [])) with [((1', 0), @nil (Z * fop R))]. unfold value. rewrite bsum_cons, bsum_nil. cbn. unfold total. cbn. ring.
  - rewrite app_length in L', Lb. cbn [length] in L', Lb. destruct b' as [|x' s']; [cbn in L'; lia|]. destruct b as [|x sl]; [cbn in Lb; lia|]. cbn [length] in L', Lb.
    assert (L1 : length s' = length zs) by lia. assert (L2 : length sl = length zs) by lia. rewrite ttabs_snoc. unfold paths. rewrite fold_left_app. cbn [fold_left fst]. rewrite value_extend. fold (paths R orb (ttabs zs)).
    unfold ssum. rewrite app_length. cbn [length]. rewrite Nat.add_1_r. cbn [repeat]. rewrite repeat_cons, choices_snoc. cbn [pps pars]. rewrite L2. set (g := orb (Z.of_nat (length zs))) in *. destruct Ok as (_ & _ & V & _).
    transitivity (bsum (seq 0 (length c)) (fun j => ssum zs c j s' sl *' bsum [true; false] (fun o => signed (o && odd_par sl) (selem s (o, pp g x' x) (col_state L c j) (col_state L (ycols y) k))))).
    + unfold ssum. rewrite (bsum_ext R _ (seq 0 (length c)) _ (fun j => bsum [true; false] (fun o => bsum (choices (repeat [true; false] (length zs))) (fun os =>
        signed (crossings false (combine os (pars sl))) (chn (bnds zs) (map (fun z => selem (snd z)) zs) (combine os (pps s' sl)) vst (col_state L c j)) *' signed (o && odd_par sl) (selem s (o, pp g x' x) (col_state L c j) (col_state L (ycols y) k)))))).
      2:{ intros j _. rewrite <- bsum_mull. apply bsum_ext. intros o _. now rewrite <- bsum_mulr. }
      symmetry. rewrite (bsum_swap R). apply bsum_ext. intros o _. rewrite (bsum_swap R). apply bsum_ext. intros os Ios. symmetry. apply choices_len in Ios. rewrite repeat_length in Ios.
      rewrite !combine_snoc by (rewrite ?pars_len, ?pps_len by lia; lia). rewrite crossings_snoc, map_snd_combine by (rewrite pars_len; lia). rewrite pars_xor, xorb_false_l.
      rewrite (chn_snoc zs c y s) by (first [exact G|rewrite combine_length, pps_len by lia; lia]). rewrite signed_sum. unfold cstates. rewrite bsum_map. apply bsum_ext. intros j _. apply signed_xor.
    + assert (LR : length (yrows y) = length c) by (rewrite E; apply map_length).
      rewrite (bsum_ext R _ (seq 0 (length c)) _ (fun j => bsum (ents y) (fun e => if (fst (fst e) =? Z.of_nat j) && (snd (fst e) =? Z.of_nat k) then value R (Z.of_nat j) (paths R orb (ttabs zs)) s' sl *' (fst (snd e) *' opel R g (snd (snd e)) sl x' x) else 0'))).
      2:{ intros j Hj. apply in_seq in Hj. assert (Hj1 : (j < length c)%nat) by (exact (proj2 Hj)). assert (Hj2 : (j < length (yrows y))%nat) by (rewrite LR; exact Hj1). rewrite IH by assumption. rewrite <- (row_col c j) by exact Hj1. rewrite <- E. rewrite V by assumption. rewrite <- bsum_mull. apply bsum_ext. intros e _. destruct (_ && _); ring. }
      rewrite (bsum_swap R). apply bsum_ext. intros e Ie. cbn [fst snd]. unfold ents in Ie. apply in_flat_map in Ie. destruct Ie as (cc & Ic & Ie). destruct (F cc Ic) as (A & _). unfold ent_of in Ie. destruct (dget keqb (y_ops R K y) (snd (snd cc))) as [[|z]|]; [destruct Ie| |destruct Ie]. destruct Ie as [<-|[]]. cbn [fst snd].
      destruct (Z.of_nat (snd (fst cc)) =? Z.of_nat k); [|apply bsum_zero; intros j _; now rewrite andb_false_r].
      rewrite (bsum_single R _ _ _ (fst (fst cc))).
      * rewrite Z.eqb_refl. cbn [andb]. ring.
      * apply seq_NoDup.
      * apply in_seq. rewrite LR in A. split; [lia|exact A].
      * intros j _ Nj. destruct (Z.eqb_spec (Z.of_nat (fst (fst cc))) (Z.of_nat j)) as [X|_]; [apply Nat2Z.inj in X; congruence|reflexivity].
Qed.
End Chain.
