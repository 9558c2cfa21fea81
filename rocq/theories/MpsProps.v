(** C32: sums, scalar multiples, conjugates and overlaps of matrix product states (pyblock3/algebra/mps.py, MPS). *)
From Coq Require Import ZArith Bool List Lia Ring.
From Verif Require Import SymModel SymProofs DictLib IndexLib OptLib RingLib BondModel BlockModel BlockProofs BlockProps StructModel MpsModel MpsChain MpsProofs MpsDot.
Import ListNotations.
Open Scope Z_scope.

(** *** vocabulary
    [amplitude Bs ts ps l r] (MpsChain) is the number the tensors ts give to the physical states ps (one per site) between the
    boundary states l and r: the product of the site tensors, summed over the states Bs of the inner bonds.
    [bonds Bs ts]: Bs lists, without repetition, all states the bonds can take (any such Bs gives the same number).
    [wf_sites ds shp ts]: site i has blocks of fst (shp_i) legs, whose dimensions are functions of the labels: ds_i on the
    left, ds_(i+1) on the right, snd (shp_i) on the physical legs; all dimensions positive; no label tuple occurs twice. *)
Definition zf {A : Type} : A -> Z := fun _ => 0.
Definition first_site {R L} (ts : list (site R L)) : site R L := hd (SP []) ts.
Definition last_site {R L} (ts : list (site R L)) : site R L := last ts (SP []).
Definition same_kinds {R L} (a b : list (site R L)) : Prop := Forall2 (fun x y => kind x = kind y) a b.
Definition all_nonempty {R L} (ts : list (site R L)) : Prop := forall s, In s ts -> blocks s <> [].
(* equal dimensions at both ends *)
Definition same_ends {L : Label} (da db : list (L -> Z)) : Prop := forall q, hd zf da q = hd zf db q /\ last da zf q = last db zf q.
(* the labels at the two ends of b occur at the ends of a *)
Definition ends_in {R L} (b a : list (site R L)) : Prop := incl (firsts (first_site b)) (firsts (first_site a)) /\ incl (lasts (last_site b)) (lasts (last_site a)).

Theorem c32_bond_states :
  forall (R : CRing) (L : Label) (ts : list (site R L)) ds shp, ts <> [] -> wf_sites ds shp ts ->
  (exists Bs, bonds Bs ts) /\ forall Bs Bs' ps l r, bonds Bs ts -> bonds Bs' ts -> amplitude Bs ts ps l r = amplitude Bs' ts ps l r.
Proof.
  intros R L ts ds shp Ne W. split; [exists (bonds_of R L ds ts); eapply bonds_of_cover; eauto|].
  intros. apply (chain_cover_indep R _ _ (st_dec L)); assumption.
Qed.
Print Assumptions c32_bond_states.

(** *** sums *)
Theorem c32_sum :
  forall (R : CRing) (L : Label) (a b : mps R L) da db shp,
  m_tensors a <> [] -> wf_sites da shp (m_tensors a) -> wf_sites db shp (m_tensors b) -> same_kinds (m_tensors a) (m_tensors b) -> same_ends da db ->
  ((1 < length (m_tensors a))%nat -> all_nonempty (m_tensors a ++ m_tensors b) -> ends_in (m_tensors b) (m_tensors a)) -> m_opts a = None ->
  exists c dc, mps_add R L a b = Some c /\ m_const c = radd R (m_const a) (m_const b) /\ wf_sites dc shp (m_tensors c) /\ same_kinds (m_tensors a) (m_tensors c) /\ same_ends dc da /\
  forall Ba Bb Bc ps l r, bonds Ba (m_tensors a) -> bonds Bb (m_tensors b) -> bonds Bc (m_tensors c) -> length ps = length (m_tensors a) ->
  amplitude Bc (m_tensors c) ps l r = radd R (amplitude Ba (m_tensors a) ps l r) (amplitude Bb (m_tensors b) ps l r).
Proof.
  intros R L a b da db shp Ne Wa Wb K Se Ei Op.
  destruct (add_tensors_spec R L (m_tensors a) (m_tensors b) da db shp Ne Wa Wb K) as (cs & dc & E & Kc & Wc & H1 & H2 & H3).
  - intros q. apply Se. - intros q. apply Se. - intros H N. apply Ei; auto.
  - exists (Mps cs (radd R (m_const a) (m_const b)) None), dc. unfold mps_add. rewrite E, Op. cbn [bind m_tensors m_const]. split; [reflexivity|]. split; [reflexivity|]. split; [exact Wc|]. split; [exact Kc|]. split; [|exact H3].
    intros q. split; [apply H1|apply H2].
Qed.
Print Assumptions c32_sum.
(* with options the same sum is handed to the compression; the other fields do not depend on it *)
Theorem c32_sum_options :
  forall (R : CRing) (L : Label) (a b c : mps R L) compress, m_opts a = Some compress -> mps_add R L a b = Some c ->
  exists c', mps_add R L (Mps (m_tensors a) (m_const a) None) b = Some c' /\ compress (m_tensors c') = Some (m_tensors c) /\ m_const c = m_const c' /\ m_opts c = m_opts a.
Proof.
  intros R L a b c compress Op E. unfold mps_add in *. cbn [m_tensors m_const m_opts]. destruct (add_tensors R L (m_tensors a) (m_tensors b)) as [ts|]; [|discriminate]. cbn [bind] in *.
  rewrite Op in E. destruct (compress ts) as [ts'|] eqn:Ec; [|discriminate]. cbn [bind] in E. injection E as <-. eexists. split; [reflexivity|]. cbn [m_tensors m_const m_opts]. auto.
Qed.
Print Assumptions c32_sum_options.

(** *** scalar multiples, negation, differences, conjugation, numbers *)
Section Ops.
Variable R : CRing.
Add Ring Rr4 : (rth R).
Variable L : Label.
Theorem c32_scale :
  forall (c : R) (a : mps R L) da shp, m_tensors a <> [] -> wf_sites da shp (m_tensors a) ->
  exists r, mps_scale R L c a = Some r /\ m_const r = rmul R c (m_const a) /\ m_opts r = m_opts a /\ wf_sites da shp (m_tensors r) /\ same_kinds (m_tensors a) (m_tensors r) /\
  forall Bs ps l s, amplitude Bs (m_tensors r) ps l s = rmul R c (amplitude Bs (m_tensors a) ps l s).
Proof.
  intros c [ts k o] da shp Ne W. cbn [m_tensors m_const] in *. destruct ts as [|t ts]; [now destruct Ne|]. destruct shp as [|[n dp] shp]; [destruct W|]. destruct da as [|d0 da]; [destruct W|]. destruct W as [Wt W].
  destruct (site_map R L n _ _ _ (fun x => rmul R c x) t ltac:(cbv beta; ring) Wt) as (K & Wm & S). eexists. split; [reflexivity|]. cbn [m_tensors m_const m_opts]. split; [reflexivity|]. split; [reflexivity|]. split; [split; assumption|].
  split. { constructor; [now rewrite K|]. clear. induction ts; constructor; auto. }
  intros Bs ps l s. unfold amplitude. cbn [map]. now apply chain_first.
Qed.
Theorem c32_neg :
  forall (a : mps R L) da shp, m_tensors a <> [] -> wf_sites da shp (m_tensors a) ->
  exists r, mps_neg R L a = Some r /\ m_const r = ropp R (m_const a) /\ m_opts r = m_opts a /\ wf_sites da shp (m_tensors r) /\ same_kinds (m_tensors a) (m_tensors r) /\
  forall Bs ps l s, amplitude Bs (m_tensors r) ps l s = ropp R (amplitude Bs (m_tensors a) ps l s).
Proof.
  intros [ts k o] da shp Ne W. cbn [m_tensors m_const] in *. destruct ts as [|t ts]; [now destruct Ne|]. destruct shp as [|[n dp] shp]; [destruct W|]. destruct da as [|d0 da]; [destruct W|]. destruct W as [Wt W].
  destruct (site_map R L n _ _ _ (ropp R) t ltac:(cbv beta; ring) Wt) as (K & Wm & S). eexists. split; [reflexivity|]. cbn [m_tensors m_const m_opts]. split; [reflexivity|]. split; [reflexivity|]. split; [split; assumption|].
  split. { constructor; [now rewrite K|]. clear. induction ts; constructor; auto. }
  intros Bs ps l s. unfold amplitude. cbn [map]. transitivity (rmul R (ropp R (r1 R)) (chain R (bool * list (L * Z)) (L * Z) Bs (selem t :: map selem ts) ps l s)); [|ring].
  apply chain_first. intros. rewrite S. ring.
Qed.
Lemma kinds_blocks : forall f (s : site R L), firsts (s_map R L f s) = firsts s /\ lasts (s_map R L f s) = lasts s /\ (blocks (s_map R L f s) <> [] -> blocks s <> []).
Proof.
  intros f s. assert (E: blocks (s_map R L f s) = sp_map R L f (blocks s)) by (destruct s; unfold blocks; cbn; unfold sp_map; now rewrite ?map_app).
  unfold firsts, lasts. rewrite E. unfold sp_map. rewrite !map_map. cbn [fst]. split; [reflexivity|]. split; [reflexivity|]. intros H Z0. apply H. now rewrite Z0.
Qed.
Lemma bonds_first : forall (x y : site R L) ts Bs, (forall p l r, selem x p l r = r0 R -> selem y p l r = r0 R) -> bonds Bs (x :: ts) -> bonds Bs (y :: ts).
Proof. unfold bonds. intros x y [|t ts] Bs H C; [exact I|]. destruct Bs as [|B Bs]; [destruct C|]. destruct C as (N & Z0 & C). split; [exact N|]. split; [|exact C]. intros. apply H. now apply Z0. Qed.
Theorem c32_difference :
  forall (a b : mps R L) da db shp,
  m_tensors a <> [] -> wf_sites da shp (m_tensors a) -> wf_sites db shp (m_tensors b) -> same_kinds (m_tensors a) (m_tensors b) -> same_ends da db ->
  ((1 < length (m_tensors a))%nat -> all_nonempty (m_tensors a ++ m_tensors b) -> ends_in (m_tensors b) (m_tensors a)) -> m_opts a = None ->
  exists c dc, mps_sub R L a b = Some c /\ m_const c = rsub R (m_const a) (m_const b) /\ wf_sites dc shp (m_tensors c) /\
  forall Ba Bb Bc ps l r, bonds Ba (m_tensors a) -> bonds Bb (m_tensors b) -> bonds Bc (m_tensors c) -> length ps = length (m_tensors a) ->
  amplitude Bc (m_tensors c) ps l r = rsub R (amplitude Ba (m_tensors a) ps l r) (amplitude Bb (m_tensors b) ps l r).
Proof.
  intros a b da db shp Ne Wa Wb K Se Ei Op. assert (Nb: m_tensors b <> []) by (intro Z0; rewrite Z0 in K; inversion K; congruence).
  destruct (c32_neg b db shp Nb Wb) as (nb & En & Ec & _ & Wn & Kn & An). unfold mps_sub. rewrite En. cbn [bind].
  assert (Form: exists t ts, m_tensors b = t :: ts /\ m_tensors nb = s_map R L (ropp R) t :: ts).
  { destruct b as [[|t ts] k o]; [now destruct Nb|]. unfold mps_neg, on_first in En. cbn [m_tensors] in En. injection En as <-. exists t, ts. split; reflexivity. }
  destruct Form as (t & ts & E1 & E2). destruct (kinds_blocks (ropp R) t) as (Kf & Kl & Kb).
  destruct (c32_sum R L a nb da db shp Ne Wa Wn) as (c & dc & E & C & Wc & _ & _ & A); auto.
  - unfold same_kinds in *. clear - K Kn. revert Kn. generalize (m_tensors nb). induction K; intros l'' Kn; inversion Kn; subst; constructor; auto. congruence.
  - intros H N. destruct (Ei H) as [F1 F2].
    + intros s Hs. apply in_app_iff in Hs. destruct Hs as [Hs|Hs]; [apply N; apply in_app_iff; auto|]. rewrite E1 in Hs. destruct Hs as [<-|Hs].
      * apply Kb. apply N. apply in_app_iff. right. rewrite E2. now left.
      * apply N. apply in_app_iff. right. rewrite E2. now right.
    + rewrite E1 in F1, F2. rewrite E2. unfold ends_in, first_site, last_site in *. cbn [hd] in *. split; [now rewrite Kf|]. destruct ts; cbn [last] in *; [now rewrite Kl|exact F2].
  - exists c, dc. split; [exact E|]. split; [rewrite C, Ec; ring|]. split; [exact Wc|]. intros Ba Bb Bc ps l r Ca Cb Cc Lp. rewrite (A Ba Bb Bc), An; auto; [ring|].
    rewrite E1 in Cb. rewrite E2. apply (bonds_first t); [|exact Cb]. intros p l' r' Z0. rewrite E1 in Wb. destruct shp as [|[n dp] shp]; [destruct Wb|]. destruct db as [|d0 db]; [destruct Wb|]. destruct Wb as [Wt _].
    destruct (site_map R L n _ _ _ (ropp R) t ltac:(cbv beta; ring) Wt) as (_ & _ & S). rewrite S, Z0. ring.
Qed.
(* adding a number changes the constant term only *)
Theorem c32_add_number : forall (a : mps R L) c, m_tensors (mps_add_num R L a c) = m_tensors a /\ m_const (mps_add_num R L a c) = radd R (m_const a) c.
Proof. intros. split; reflexivity. Qed.
Theorem c32_conjugate :
  forall (cj : R -> R) (a : mps R L) da shp, (forall x y, cj (radd R x y) = radd R (cj x) (cj y)) -> (forall x y, cj (rmul R x y) = rmul R (cj x) (cj y)) ->
  wf_sites da shp (m_tensors a) ->
  m_const (mps_conj R L cj a) = cj (m_const a) /\ wf_sites da shp (m_tensors (mps_conj R L cj a)) /\
  forall Bs ps l s, amplitude Bs (m_tensors (mps_conj R L cj a)) ps l s = cj (amplitude Bs (m_tensors a) ps l s).
Proof.
  intros cj [ts k o] da shp Ha Hm W. cbn [m_tensors m_const mps_conj] in *. split; [reflexivity|].
  assert (H0: cj (r0 R) = r0 R). { assert (E: cj (r0 R) = radd R (cj (r0 R)) (cj (r0 R))) by (rewrite <- Ha; f_equal; ring). transitivity (rsub R (radd R (cj (r0 R)) (cj (r0 R))) (cj (r0 R))); [ring|rewrite <- E; ring]. }
  assert (Hs: forall X (B : list X) f, cj (bsum B f) = bsum B (fun x => cj (f x))) by (intros X B f; induction B as [|x B IH]; [exact H0|]; rewrite !bsum_cons, Ha, IH; reflexivity).
  revert da shp W. induction ts as [|t ts IH]; intros da shp W; cbn [map].
  - split; [exact W|]. intros. symmetry. exact H0.
  - destruct shp as [|[n dp] shp]; [destruct W|]. destruct da as [|d0 da]; [destruct W|]. destruct W as [Wt W]. destruct (site_map R L n _ _ _ cj t H0 Wt) as (_ & Wm & S). destruct (IH da shp W) as [Wr Ar].
    split; [split; assumption|]. intros Bs ps l s. unfold amplitude in *. destruct ts as [|t' ts].
    + cbn [map]. destruct ps as [|p [|q ps]]; [symmetry; exact H0|rewrite !chain_one; apply S|rewrite !chain_long; symmetry; exact H0].
    + cbn [map] in *. destruct ps as [|p ps]; [symmetry; exact H0|]. destruct Bs as [|B Bs]; [symmetry; exact H0|]. rewrite !chain_cons, Hs. apply bsum_ext. intros m _. now rewrite Hm, S, Ar.
Qed.
End Ops.
Print Assumptions c32_scale. Print Assumptions c32_neg. Print Assumptions c32_difference. Print Assumptions c32_add_number. Print Assumptions c32_conjugate.

(** *** overlaps
    [choices Ps]: one physical state per site; [phys shp Ps ts]: Ps lists, without repetition, all physical states of the
    sites; Bl and Br list those of the two ends. *)
Theorem c32_overlap :
  forall (R : CRing) (L : Label) (a b : mps R L) da db shp Ps Bl Br Ba Bb,
  m_tensors a <> [] -> wf_sites da shp (m_tensors a) -> wf_sites db shp (m_tensors b) -> same_ends da db ->
  (forall s, In s (m_tensors a ++ m_tensors b) -> kind s = false) -> all_nonempty (m_tensors a ++ m_tensors b) ->
  phys R L shp Ps (m_tensors a) -> bonds Ba (m_tensors a) -> bonds Bb (m_tensors b) ->
  NoDup Bl -> (forall p l r, ~ In l Bl -> selem (first_site (m_tensors a)) p l r = r0 R) -> NoDup Br -> (forall p l r, ~ In r Br -> selem (last_site (m_tensors a)) p l r = r0 R) ->
  mps_dot R L a b = Some (radd R (bsum Bl (fun l => bsum (choices Ps) (fun ps => bsum Br (fun r =>
    rmul R (amplitude Ba (m_tensors a) (map (pair false) ps) l r) (amplitude Bb (m_tensors b) (map (pair false) ps) l r))))) (rmul R (m_const a) (m_const b))).
Proof.
  intros R L a b da db shp Ps Bl Br Ba Bb Ne Wa Wb Se K N Ph Ca Cb N1 C1 N2 C2.
  assert (Sp: forall ts : list (site R L), (forall s, In s ts -> kind s = false) -> Forall (sparse R L) ts).
  { intros ts H. apply Forall_forall. intros s Hs. specialize (H s Hs). destruct s as [t|]; [exists t; reflexivity|discriminate]. }
  rewrite (mps_dot_spec R L a b da db shp Ps Bl Br Ba Bb); auto; try (intros q; apply Se); apply Sp; intros s Hs; apply K; apply in_app_iff; auto.
Qed.
Print Assumptions c32_overlap.

(** *** concrete cases *)
Definition U := U1_label.
Definition st (q x : Z) : U * Z := (q, x).
Definition blk (qs : list Z) (sh v : list Z) : list U * nd Z_ring := (qs, arr sh v).
Definition s_dump (s : site Z_ring U) : list (list Z * list Z * list Z) * list (list Z * list Z * list Z) := (dump (part s true), dump (part s false)).
(* two sites, one particle *)
Definition ex_a : mps Z_ring U := Mps [SP [blk [0; 0; 0] [1; 1; 1] [2]; blk [0; 1; 1] [1; 1; 1] [3] ]; SP [blk [0; 1; 1] [1; 1; 1] [5]; blk [1; 0; 1] [1; 1; 1] [7] ] ] 4 None.
Definition ex_b : mps Z_ring U := Mps [SP [blk [0; 1; 1] [1; 1; 2] [1; 2] ]; SP [blk [1; 0; 1] [2; 1; 1] [10; 100] ] ] (-1) None.
Definition occ (n : Z) : bool * list (U * Z) := (false, [st n 0]).
Example c32_sum_ex :
  option_map (fun c => (map s_dump (m_tensors c), m_const c)) (mps_add Z_ring U ex_a ex_b) =
    Some ([([], [([0; 0; 0], [1; 1; 1], [2]); ([0; 1; 1], [1; 1; 3], [3; 1; 2])]); ([], [([0; 1; 1], [1; 1; 1], [5]); ([1; 0; 1], [3; 1; 1], [7; 10; 100])])], 3)
  /\ (let Bs := [[st 0 0; st 1 0; st 1 1; st 1 2] ] in let one (ts : list (site Z_ring U)) := (amplitude Bs ts [occ 1; occ 0] (st 0 0) (st 1 0) : Z) in
      (one (m_tensors ex_a), one (m_tensors ex_b), option_map (fun c => one (m_tensors c)) (mps_add Z_ring U ex_a ex_b)) = (21, 210, Some 231))
  /\ mps_dot Z_ring U ex_a ex_b = Some (21 * 210 + 4 * -1)
  /\ option_map (fun c : mps Z_ring U => (amplitude [[st 0 0; st 1 0] ] (m_tensors c) [occ 1; occ 0] (st 0 0) (st 1 0) : Z, m_const c)) (mps_scale Z_ring U 10 ex_a) = Some (210, 40).
Proof. repeat split; vm_compute; reflexivity. Qed.

(** *** where the operations differ from linear algebra *)
Definition shapes (t : list (list U * nd Z_ring)) : list (list Z * list Z) := map (fun b => (fst b, nshape (snd b))) t.
Lemma no_room : forall (s : site Z_ring U) q, (forall odd k sh, In (k, sh) (shapes (part s odd)) -> last k 0 = q -> last sh 0 = 0) -> forall p l x, selem s p l (st q x) = 0.
Proof.
  intros s q H p l x. unfold selem. apply (elem_out Z_ring U). intros b Hb E X.
  assert (L0: last (nshape (snd b)) 0 = 0).
  { apply (H (fst p) (fst b)); [unfold shapes; apply in_map_iff; exists b; auto|]. rewrite E. change (fst l :: map fst (snd p) ++ [fst (st q x)]) with ((fst l :: map fst (snd p)) ++ [q]). apply last_last. }
  change (snd l :: map snd (snd p) ++ [snd (st q x)]) with ((snd l :: map snd (snd p)) ++ [x]) in X. apply Forall2_app_inv_r in X. destruct X as (s1 & s2 & _ & X2 & Es).
  inversion X2 as [|d y s2' l2 Xd Xn]; subst. inversion Xn; subst. rewrite Es, last_last in L0. lia.
Qed.
Ltac small_site := split; [lia|]; intros []; (split; [intros ? Hx; cbn in Hx; repeat (destruct Hx as [<-|Hx]; [split; reflexivity|]); destruct Hx
  |split; [intros ? Hx; cbn in Hx; repeat (destruct Hx as [<-|Hx]; [repeat constructor|]); destruct Hx|cbn; repeat constructor; cbn; intuition congruence] ]).
(* a label at the right end of b that a does not have: its contribution to the sum is lost, without an error *)
Definition ex_2 : mps Z_ring U := Mps [SP [blk [0; 1; 1] [1; 1; 1] [1] ]; SP [blk [1; 1; 2] [1; 1; 1] [10] ] ] 0 None.
Definition ex_dims : list (U -> Z) := [fun _ => 1; fun _ => 1; fun _ => 1].
Definition ex_shp : list (Z * (Z -> U -> Z)) := [(3, fun _ _ => 1); (3, fun _ _ => 1)].
Theorem c32_sum_ends_refuted :
  exists (a b c : mps Z_ring U) ds shp ps l r Bb, wf_sites ds shp (m_tensors a) /\ wf_sites ds shp (m_tensors b) /\ same_kinds (m_tensors a) (m_tensors b) /\ all_nonempty (m_tensors a ++ m_tensors b) /\
  bonds Bb (m_tensors b) /\ mps_add Z_ring U a b = Some c /\ amplitude Bb (m_tensors b) ps l r <> 0 /\ forall Bc, amplitude Bc (m_tensors c) ps l r = 0.
Proof.
  destruct (mps_add Z_ring U ex_a ex_2) as [c|] eqn:Ec; [|vm_compute in Ec; discriminate].
  assert (Wb: wf_sites ex_dims ex_shp (m_tensors ex_2)) by (split; [small_site|]; split; [small_site|]; split; reflexivity).
  exists ex_a, ex_2, c, ex_dims, ex_shp, [occ 1; occ 1], (st 0 0), (st 2 0), (bonds_of Z_ring U ex_dims (m_tensors ex_2)).
  split; [split; [small_site|]; split; [small_site|]; split; reflexivity|]. split; [exact Wb|]. split; [repeat constructor|].
  split; [intros s Hs; cbn in Hs; repeat (destruct Hs as [<-|Hs]; [discriminate|]); destruct Hs|].
  split; [apply (bonds_of_cover Z_ring U _ _ ex_shp); [discriminate|exact Wb]|]. split; [exact Ec|]. split; [vm_compute; discriminate|].
  assert (F: option_map (fun c => match m_tensors c with [_; s] => (shapes (part s true), shapes (part s false)) | _ => ([], []) end) (mps_add Z_ring U ex_a ex_2) =
    Some ([], [([0; 1; 1], [1; 1; 1]); ([1; 0; 1], [2; 1; 1]); ([1; 1; 2], [2; 1; 0])])) by (vm_compute; reflexivity).
  assert (N: option_map (fun c => length (m_tensors c)) (mps_add Z_ring U ex_a ex_2) = Some 2%nat) by (vm_compute; reflexivity).
  rewrite Ec in F, N. cbn [option_map] in F, N. destruct (m_tensors c) as [|c0 [|c1 [|]]] eqn:Et; try discriminate. injection F as F1 F2.
  intros Bc. unfold amplitude. cbn [map]. apply (chain_dead_end Z_ring _ _ [selem c0] (selem c1)). intros p m. apply no_room.
  intros [] k sh Hi; [rewrite F1 in Hi; destruct Hi|]. rewrite F2 in Hi. cbn in Hi. repeat (destruct Hi as [Hi|Hi]; [injection Hi as <- <-; cbn; lia|]). destruct Hi.
Qed.
Print Assumptions c32_sum_ends_refuted.
(* a site without blocks: the product of the constant terms is lost *)
Theorem c32_overlap_empty_refuted :
  exists (a b : mps Z_ring U) ds shp, wf_sites ds shp (m_tensors a) /\ wf_sites ds shp (m_tensors b) /\ (forall Bs ps l r, amplitude Bs (m_tensors b) ps l r = 0) /\
  (m_const a : Z) * m_const b <> 0 /\ mps_dot Z_ring U a b = Some 0.
Proof.
  exists ex_a, (Mps (R := Z_ring) [SP []; SP [] ] 3 None), ex_dims, ex_shp. split; [split; [small_site|]; split; [small_site|]; split; reflexivity|]. split; [split; [small_site|]; split; [small_site|]; split; reflexivity|].
  split; [|split; [vm_compute; discriminate|reflexivity] ]. intros. apply (amplitude_empty Z_ring U). exists (SP []). split; [now left|reflexivity].
Qed.
Print Assumptions c32_overlap_empty_refuted.
