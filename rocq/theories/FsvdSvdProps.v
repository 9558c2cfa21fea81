(** Property C71: the singular value decomposition of fermion tensors (fermion.py sparse_svd). *)
From Coq Require Import ZArith Bool List Lia Permutation Sorted Ring QArith Qcanon.
From Verif Require Import SymModel SymProofs DictLib OptLib IndexLib RingLib OrdLib BondModel FuseModel FuseProofs BlockModel BlockProofs BlockProps
  StructModel StructProofs SignModel SignProofs SignProps TruncModel TruncProofs TrimProofs TruncProps FermTModel FermTProofs FermNetProofs FermDaggerProofs FermTProps MpsModel CanonModel CanonProofs CanonProps FuseTProps
  CompressSvd FsvdModel FsvdProofs FsvdFact FsvdProps FsvdSvd FsvdTrim FsvdWhole FsvdForm.
Import ListNotations.
Open Scope Z_scope.

(** ** specification *)
(* T has the elements of t with the legs in the order left ++ rt *)
Definition transposed_values (R : CRing) (L : Label) (fermion : bool) (t : list (list L * nd R)) (n : Z) (left rt : list Z) (T : list L -> list Z -> R) : Prop :=
  forall qs xs, Z.of_nat (length qs) = n -> Z.of_nat (length xs) = n ->
  T (labels_at L left qs ++ labels_at L rt qs) (places_at left xs ++ places_at rt xs) = signed (fermion && exchanged (odd_legs L qs) (left ++ rt)) (elem R L t qs xs).
(* sum over all elements, the labels of the two groups of legs from Lr and Lc *)
Definition over_all (R : CRing) (L : Label) (dm : Z -> L -> Z) (left rt : list Z) (Lr Lc : list (list L)) (f : list L -> list Z -> R) : R :=
  bsum Lr (fun ql => bsum (all_idx (ranges L dm left ql)) (fun xl => bsum Lc (fun qr => bsum (all_idx (ranges L dm rt qr)) (fun xr => f (ql ++ qr) (xl ++ xr))))).
(* what the options promise about the values kept and the values trimmed *)
Definition trim_promise (K : ORing) (cutoff : K) (mode : Z) (max_bond : option Z) (kept trimmed : list K) : Prop :=
  let full := exists b, max_bond = Some b /\ 0 < b /\ Z.of_nat (length kept) = b in
  let w := fun x : K => if mode <=? 4 then rmul K x x else x in
  let target := if Z.even mode then rmul K cutoff (bsum (kept ++ trimmed) w) else cutoff in
  1 <= mode <= 6 /\
  (* the largest values of all blocks together are kept, at most max_bond of them *)
  (forall x y, In x kept -> In y trimmed -> ole y x) /\
  (forall b, max_bond = Some b -> 0 < b -> Z.of_nat (length kept) <= b) /\
  (* modes 1, 2: values above the cutoff, absolute or relative to the largest value *)
  (mode = 1 -> (forall x, In x kept -> olt cutoff x) /\ ((forall y, In y trimmed -> ole y cutoff) \/ full)) /\
  (mode = 2 -> exists m, In m (kept ++ trimmed) /\ (forall x, In x (kept ++ trimmed) -> ole x m) /\
    (forall x, In x kept -> olt (rmul K cutoff m) x) /\ ((forall y, In y trimmed -> ole y (rmul K cutoff m)) \/ full)) /\
  (* modes 3 to 6: the sum of what is trimmed is within the target, and would not be with one more value *)
  (3 <= mode -> (ole (bsum trimmed w) target \/ full) /\ forall x, In x kept -> olt target (radd K (bsum trimmed w) (w x))).

Lemma pick_onto : forall (A : Type) (d : A) n axes (l : list A), Permutation (zrange n) axes -> length l = length axes -> exists qs, Z.of_nat (length qs) = Z.of_nat (Z.to_nat n) /\ map (fun i => nth (Z.to_nat i) qs d) axes = l.
Proof.
  intros A d n axes l P E. assert (Nx : NoDup axes) by (eapply Permutation_NoDup; [exact P|apply zrange_nodup]).
  assert (G : exists f : Z -> A, map f axes = l).
  { clear P. revert l E. induction axes as [|a axes IH]; intros [|x l] E; try discriminate; [exists (fun _ => d); reflexivity|]. apply NoDup_cons_iff in Nx. destruct Nx as [N1 N2].
    destruct (IH N2 l) as [f Hf]; [cbn in E; lia|]. exists (fun i => if i =? a then x else f i). cbn [map]. rewrite Z.eqb_refl. f_equal. rewrite <- Hf. apply map_ext_in. intros i Hi. destruct (Z.eqb_spec i a); [congruence|reflexivity]. }
  destruct G as [f Hf]. exists (map f (zrange n)). split; [now rewrite map_length, zrange_length|]. rewrite <- Hf. apply map_ext_in. intros i Hi. apply (Permutation_in _ (Permutation_sym P)) in Hi. apply in_zrange in Hi. now rewrite nth_zrange_map.
Qed.

Section Statements.
Variable R : CRing.
Add Ring RRst : (rth R).
Variable L : Label.
Variable fermion : bool.
(* the field of the singular values in the field of the elements *)
Variable K : ORing.
Variable emb : K -> R.
Variable cj : R -> R.
Hypothesis cj_add : forall x y, cj (radd R x y) = radd R (cj x) (cj y).
Hypothesis cj_mul : forall x y, cj (rmul R x y) = rmul R (cj x) (cj y).
Hypothesis cj_emb : forall x, cj (emb x) = emb x.
Hypothesis emb_add : forall x y, emb (radd K x y) = radd R (emb x) (emb y).
Hypothesis emb_mul : forall x y, emb (rmul K x y) = rmul R (emb x) (emb y).
Variable sqrtK : K -> K.
Variable scr : K.
Hypothesis scr0 : ole (r0 K) scr.
Variable argsort : list K -> list Z.
Hypothesis argsort_perm : forall l, Permutation (argsort l) (zrange (Z.of_nat (length l))).
Hypothesis argsort_sorted : forall l, StronglySorted (fun a b => ole (nth (Z.to_nat a) l (r0 K)) (nth (Z.to_nat b) l (r0 K))) (argsort l).
Variable renorm_fac : K -> K -> nat -> K.
(* an exact SVD of every block, with the values in descending order *)
Variable svd : nd R -> option (nd R * list K * nd R).
Hypothesis HS : exact_svd R K emb cj svd.
Hypothesis svd_desc : forall a u s v, svd a = Some (u, s, v) -> StronglySorted (fun x y : K => ole y x) s.
(* a tensor with n legs and a partition of its legs *)
Variables (t : ftensor R L) (n : Z) (dm : Z -> L -> Z) (left rt : list Z) (right : option (list Z)).
Hypothesis W : wf_tensor R L n dm (fst t).
Hypothesis ND : NoDup (map fst (fst t)).
Hypothesis Pos : forall b, In b (fst t) -> Forall (fun s => 0 < s) (nshape (snd b)).
Hypothesis Lp : Z.of_nat (length (snd t)) = n.
Hypothesis Ne : fst t <> [].
Hypothesis Pm : Permutation (zrange n) (left ++ rt).
Hypothesis Hl : left <> [].
Hypothesis Hrt : rt <> [].
Hypothesis Right : right = Some rt \/ right = None /\ rt = rest n left.
Notation nt := (maybe_transpose R L fermion t left rt).
Notation dt := (dmt L dm left rt).
Notation k := (length left).
Let Wt' := Wt R L fermion t n dm left rt W ND Pos Ne Pm.
Let NDt' := NDt R L fermion t n dm left rt W ND Ne Pm.
Let Post' := Post R L fermion t n dm left rt W Pos Ne Pm.
Let Lpt' := Lpt R L fermion t n dm left rt W ND Pos Lp Ne Pm.
Let len' := s_len R L t n dm left rt W ND Pos Lp Ne Pm.
Let lt' := s_lt R L t n dm left rt right W ND Pos Lp Ne Pm Hrt Right.
Let cj0 := cj00 R cj cj_add.

Lemma T_values : forall T, transposed_values R L fermion (fst t) n left rt T -> forall ql qr xl xr, length ql = k -> Z.of_nat (length qr) = n - Z.of_nat k -> length xl = k -> Z.of_nat (length xr) = n - Z.of_nat k ->
  T (ql ++ qr) (xl ++ xr) = elem R L (fst nt) (ql ++ qr) (xl ++ xr).
Proof.
  intros T HT ql qr xl xr H1 H2 H3 H4. assert (n0 : 0 <= n) by lia.
  destruct (pick_onto _ (q0 L) n (left ++ rt) (ql ++ qr) Pm) as (qs & Lq & Eq); [rewrite !app_length; lia|]. destruct (pick_onto _ 0 n (left ++ rt) (xl ++ xr) Pm) as (xs & Lx & Ex); [rewrite !app_length; lia|].
  rewrite Z2Nat.id in Lq, Lx by exact n0. pose proof (HT qs xs Lq Lx) as A. pose proof (tr_elem R L fermion t n dm left rt W Ne Pm qs xs Lq Lx) as B. unfold labels_at, places_at in A. rewrite <- !map_app in A. rewrite Eq, Ex in A. unfold pick in B. rewrite Eq, Ex in B. now rewrite A, B.
Qed.
Lemma over_all_eq : forall Lr Lc (f : list L -> list Z -> R), (forall q, In q Lr -> length q = k) -> (forall q, In q Lc -> length q = length rt) -> 
  over_all R L dm left rt Lr Lc f = bsum Lr (fun ql => bsum (all_idx (rshape L k dt ql)) (fun xl => bsum Lc (fun qr => bsum (all_idx (cshape L k n dt qr)) (fun xr => f (ql ++ qr) (xl ++ xr))))).
Proof.
  intros Lr Lc f H1 H2. unfold over_all. apply bsum_ext. intros ql Hq. rewrite (dmt_rows R L t dm left rt ql (H1 ql Hq)). apply bsum_ext. intros xl _. apply bsum_ext. intros qr Hr.
  now rewrite (dmt_cols R L t n dm left rt W ND Pos Lp Ne Pm qr (H2 qr Hr)).
Qed.

(** Whenever sparse_svd returns u, s, v there are the singular values kept, trimmed (by the options) and screened (not above the fixed threshold):
    the blocks of u and v fit; the number of values on the new leg is the number of kept values; charges are as given by the partition of the charge;
    a factor that does not absorb the values is orthonormal; s is diagonal with the kept values;
    the product differs from the transposed tensor by exactly what was dropped, and by the change of the kept values when they are renormalised. *)
Theorem c71_svd : forall qpn absorb o u s v, ole (r0 K) (so_cutoff K o) ->
  sparse_svd R L fermion K emb sqrtK argsort renorm_fac scr svd t left right qpn absorb o = Some (u, s, v) ->
  exists bond Qs kept trimmed screened fac,
  (* the options *)
  trim_promise K (so_cutoff K o) (so_mode K o) (so_max K o) kept trimmed /\
  (forall x, In x (kept ++ trimmed) -> olt scr x) /\ (forall x, In x screened -> ole x scr) /\ kept <> [] /\
  (so_renorm K o = 0%nat \/ trimmed = [] -> fac = r1 K) /\
  (so_renorm K o <> 0%nat -> trimmed <> [] ->
    fac = renorm_fac (bsum kept (fun x => power K x (so_renorm K o))) (bsum trimmed (fun x => power K x (so_renorm K o))) (so_renorm K o)) /\
  (* the factors *)
  snd u = map (sign_of (snd t)) left ++ [false] /\ snd v = true :: map (sign_of (snd t)) rt /\ NoDup (map fst (fst u)) /\ NoDup (map fst (fst v)) /\
  wf_tensor R L (Z.of_nat (length left) + 1) (fun i c => if i <? Z.of_nat (length left) then dm (nth (Z.to_nat i) left 0) c else bond c) (fst u) /\
  wf_tensor R L (Z.of_nat (length rt) + 1) (fun i c => if i =? 0 then bond c else dm (nth (Z.to_nat (i - 1)) rt 0) c) (fst v) /\
  NoDup Qs /\ (forall b, In b (fst u) -> In (last (fst b) (q0 L)) Qs) /\ zsum (map bond Qs) = Z.of_nat (length kept) /\
  (* charges *)
  (forall dq, (forall b, In b (fst t) -> signed_total L (snd t) (fst b) = dq) ->
    let part := match qpn with Some ab => ab | None => match absorb with Some (-1) => (dq, q0 L) | _ => (q0 L, dq) end end in
    qadd L (fst part) (snd part) = dq /\ (forall b, In b (fst u) -> signed_total L (snd u) (fst b) = fst part) /\ (forall b, In b (fst v) -> signed_total L (snd v) (fst b) = snd part)) /\
  (* orthonormal factors *)
  (absorb = None \/ absorb = Some 1 -> forall Ls, covers R L (fst t) left Ls -> forall c c' a a',
    bsum Ls (fun ql => bsum (all_idx (ranges L dm left ql)) (fun xl => rmul R (cj (elem R L (fst u) (ql ++ [c]) (xl ++ [a]))) (elem R L (fst u) (ql ++ [c']) (xl ++ [a'])))) =
    if qeqb L c c' && (a =? a') && (0 <=? a) && (a <? bond c) then r1 R else r0 R) /\
  (absorb = None \/ absorb = Some (-1) -> (exists dq, forall b, In b (fst t) -> signed_total L (snd t) (fst b) = dq) -> forall Ls, covers R L (fst t) rt Ls -> forall c c' a a',
    bsum Ls (fun qr => bsum (all_idx (ranges L dm rt qr)) (fun xr => rmul R (cj (elem R L (fst v) (c :: qr) (a :: xr))) (elem R L (fst v) (c' :: qr) (a' :: xr)))) =
    if qeqb L c c' && (a =? a') && (0 <=? a) && (a <? bond c) then r1 R else r0 R) /\
  (* the values *)
  match s with
  | None => absorb <> None
  | Some sv => absorb = None /\ snd sv = [true; false] /\ NoDup (map fst (fst sv)) /\ wf_tensor R L 2 (fun _ => bond) (fst sv) /\
      (forall c c' a a', c <> c' \/ a <> a' -> elem R L (fst sv) [c; c'] [a; a'] = r0 R) /\
      flat_map (fun c => map (fun a => elem R L (fst sv) [c; c] [a; a]) (zrange (bond c))) Qs = map (fun x => emb (rmul K x fac)) kept
  end /\
  (* the product *)
  (((exists a, absorb = Some a /\ a <> -1 /\ a <> 1) -> forall x, In x kept -> rmul K (sqrtK (rmul K x fac)) (sqrtK (rmul K x fac)) = rmul K x fac) ->
    exists x, match s with None => ft_tensordot R L fermion u v [-1] [0] = Some x | Some sv => exists y, ft_tensordot R L fermion u sv [-1] [0] = Some y /\ ft_tensordot R L fermion y v [-1] [0] = Some x end /\
    snd x = map (sign_of (snd t)) (left ++ rt) /\ NoDup (map fst (fst x)) /\
    forall T Lr Lc, transposed_values R L fermion (fst t) n left rt T -> covers R L (fst t) left Lr -> covers R L (fst t) rt Lc ->
      over_all R L dm left rt Lr Lc (fun qs xs => let d := radd R (T qs xs) (ropp R (elem R L (fst x) qs xs)) in rmul R (cj d) d) =
        radd R (bsum kept (fun y => let d := radd K y (ropp K (rmul K y fac)) in emb (rmul K d d))) (bsum (trimmed ++ screened) (fun y => emb (rmul K y y))) /\
      over_all R L dm left rt Lr Lc (fun qs xs => rmul R (cj (elem R L (fst x) qs xs)) (elem R L (fst x) qs xs)) = bsum kept (fun y => emb (rmul K (rmul K y fac) (rmul K y fac))) /\
      over_all R L dm left rt Lr Lc (fun qs xs => rmul R (cj (T qs xs)) (T qs xs)) = bsum (kept ++ trimmed ++ screened) (fun y => emb (rmul K y y))).
Proof.
  intros qpn absorb o u s v C0 H. unfold sparse_svd in H. cbv zeta in H. rewrite (s_right R L t n dm left rt right W Ne Pm Hrt Right), (s_dq R L t n dm W ND Pos Ne) in H. cbn [bind] in H.
  destruct (Z.max _ _ =? _); [discriminate|]. set (dq0 := dq_of R L t) in *. destruct (partition_of L dq0 qpn absorb) as [qp|] eqn:Ep; [|discriminate]. cbn [bind] in H.
  destruct (decomposed R L K scr svd (sectors R L (snd nt) k (fst qp) (fst nt))) as [fs0|] eqn:Ed; [|discriminate]. cbn [bind] in H.
  destruct (truncated R L K argsort renorm_fac o fs0) as [gs|] eqn:Et; [|discriminate]. cbn [bind] in H.
  destruct (svd_form R L K emb sqrtK scr argsort renorm_fac svd cj cj_emb emb_add emb_mul HS svd_desc scr0 argsort_perm argsort_sorted (snd nt) k (fst qp) (fst nt) n dt Wt' NDt' lt' Post' o absorb C0 fs0 gs Ed Et)
    as (zs & fac & Zs & Zv & Eh & Es & Fa & Fb & TA).
  unfold hs in Eh, Es. rewrite Eh in H. set (fs := map (fz R L K emb sqrtK scr fac absorb) (filter (alive R L K scr) zs)) in *.
  assert (F' : forall f, In f fs -> fac_ok R L (snd nt) k (fst qp) (fst nt) n dt f) by exact (FsvdWhole.F R L K emb sqrtK scr svd cj cj_emb emb_add emb_mul HS (snd nt) k (fst qp) (fst nt) n dt Wt' NDt' lt' Post' zs fac absorb Zs Zv).
  assert (N' : NoDup (map (fun f => sc_q (fst f)) fs)) by exact (FsvdWhole.N R L K emb sqrtK scr (snd nt) k (fst qp) (fst nt) n dt Wt' NDt' lt' Post' zs fac absorb Zs).
  assert (Nl : filter (alive R L K scr) zs <> []). { intros E. unfold fs in H. rewrite E in H. discriminate. }
  assert (Hu : u = fst (assemble R L (snd nt) k fs) /\ v = snd (assemble R L (snd nt) k fs) /\ s = match absorb with None => Some (FsvdWhole.S R L K emb scr zs fac) | Some _ => None end).
  { destruct (fst (fst (assemble R L (snd nt) k fs))) eqn:E0; [discriminate|]. injection H as <- <- <-. split; [reflexivity|]. split; [reflexivity|]. destruct absorb; [reflexivity|]. rewrite Es by reflexivity. reflexivity. }
  clear H. destruct Hu as (-> & -> & ->).
  pose proof (f_pat R L fermion t n dm left rt W Lp Ne fs) as [P1 P2]. destruct (f_nodup R L fermion t n dm left rt (fst qp) fs F' N') as [N1 N2].
  destruct (f_wf R L fermion t n dm left rt right W ND Pos Lp Ne Pm Hrt Right (fst qp) fs F' N') as [W1 W2].
  exists (bond_dim R L fs), (map (fun f => sc_q (fst f)) fs), (kept R L K scr zs), (trimmed R L K scr zs), (screened R L K scr zs), fac.
  split; [exact TA|]. split; [exact (kept_scr R L K scr zs)|]. split; [exact (screened_scr R L K scr zs)|]. split; [exact (kept_some R L K emb sqrtK scr svd cj cj_emb emb_add emb_mul (snd nt) k zs fac Zv Nl)|]. split; [exact Fa|]. split; [exact Fb|].
  split; [exact P1|]. split; [exact P2|]. split; [exact N1|]. split; [exact N2|]. split; [exact W1|]. split; [exact W2|]. split; [exact N'|]. split.
  { intros b Hb. destruct (U_labels R L (snd nt) k (fst qp) (fst nt) n dt fs F' b Hb) as (f & Hf & ->). rewrite last_last. now apply (in_map (fun f => sc_q (fst f))). }
  split; [exact (bond_total R L K emb sqrtK scr svd cj cj_emb emb_add emb_mul HS (snd nt) k (fst qp) (fst nt) n dt Wt' NDt' lt' Post' Lpt' zs fac absorb Zs Zv)|].
  split; [|split; [|split; [|split]]].
  - intros dq Hd. cbv zeta. destruct (f_charge R L fermion t n dm left rt right W ND Pos Lp Ne Pm Hrt Right (fst qp) fs F' dq Hd) as [D1 D2].
    pose proof (s_dq_eq R L t n dm W ND Pos Ne dq Hd) as Eq. fold dq0 in Eq. rewrite Eq in Ep.
    assert (A0 : forall x : L, qadd L x (q0 L) = x) by exact (FermTraceProofs.qadd_0_r L).
    assert (G : qadd L (fst qp) (snd qp) = dq /\ qp = match qpn with Some ab => ab | None => match absorb with Some (-1) => (dq, q0 L) | _ => (q0 L, dq) end end).
    { unfold partition_of in Ep. destruct qpn as [[a b]|].
      - destruct (qeqb_spec L (qadd L a b) dq) as [E|]; [|discriminate]. injection Ep as <-. split; [exact E|reflexivity].
      - destruct absorb as [a|]; [destruct (Z.eqb_spec a (-1)) as [->|Na]|]; injection Ep as <-; cbn [fst snd]; split; auto; try (rewrite qadd_comm; apply A0).
        destruct a as [| |[]]; try reflexivity. now destruct Na. }
    destruct G as [G1 G2]. rewrite <- G2. split; [exact G1|]. split; [exact D1|]. intros b Hb. rewrite (D2 b Hb), qsub_def, <- G1. rewrite (qadd_comm L (fst qp) (snd qp)), <- qadd_assoc, (qadd_comm L (fst qp)), qadd_neg. apply A0.
  - intros Ha Ls C. apply (f_iso_l R L fermion t n dm left rt right W ND Pos Lp Ne Pm Hrt Right cj cj0 (fst qp) fs F' N'); [|exact C].
    exact (fz_iso_l R L K emb sqrtK scr svd cj cj_mul cj_emb emb_add emb_mul HS (snd nt) k (fst qp) (fst nt) n dt Wt' NDt' lt' Post' zs fac absorb Zs Zv Ha).
  - intros Ha Hd Ls C. apply (f_iso_r R L fermion t n dm left rt right W ND Pos Lp Ne Pm Hrt Right cj cj0 (fst qp) fs F' N'); [|exact Hd|exact C].
    exact (fz_iso_r R L K emb sqrtK scr svd cj cj_emb emb_add emb_mul HS (snd nt) k (fst qp) (fst nt) n dt Wt' NDt' lt' Post' zs fac absorb Zs Zv Ha).
  - destruct absorb as [a|] eqn:Ea; [discriminate|]. split; [reflexivity|]. split; [reflexivity|]. split; [|split; [|split]].
    + exact (S_nodup R L K emb scr (snd nt) k (fst qp) (fst nt) n dt Wt' NDt' lt' Post' zs fac Zs).
    + exact (S_wf R L K emb sqrtK scr svd cj cj_emb emb_add emb_mul HS (snd nt) k (fst qp) (fst nt) n dt Wt' NDt' lt' Post' Lpt' zs fac None Zs Zv).
    + exact (S_off R L K emb scr zs fac).
    + exact (S_list R L K emb sqrtK scr svd cj cj_emb emb_add emb_mul HS (snd nt) k (fst qp) (fst nt) n dt Wt' NDt' lt' Post' Lpt' zs fac None Zs Zv).
  - intros Rt.
    assert (Root : forall x, absorb = Some x -> x <> -1 -> x <> 1 -> forall z j, In z zs -> In j (pz R L K scr z) -> rmul K (sqrtK (rmul K (nth (Z.to_nat j) (sz R L K z) (r0 K)) fac)) (sqrtK (rmul K (nth (Z.to_nat j) (sz R L K z) (r0 K)) fac)) = rmul K (nth (Z.to_nat j) (sz R L K z) (r0 K)) fac).
    { intros x E1 E2 E3 z j Hz Hj. apply Rt; [now exists x|]. now apply kept_in. }
    assert (V : exists x, match match absorb with None => Some (FsvdWhole.S R L K emb scr zs fac) | Some _ => None end with None => ft_tensordot R L fermion (fst (assemble R L (snd nt) k fs)) (snd (assemble R L (snd nt) k fs)) [-1] [0] = Some x
        | Some sv => exists y, ft_tensordot R L fermion (fst (assemble R L (snd nt) k fs)) sv [-1] [0] = Some y /\ ft_tensordot R L fermion y (snd (assemble R L (snd nt) k fs)) [-1] [0] = Some x end /\ is_value R L K emb scr (snd nt) k n zs fac x).
    { destruct absorb as [a|] eqn:Ea.
      - destruct (value_some R L K emb sqrtK scr svd cj cj_emb emb_add emb_mul HS (snd nt) k (fst qp) (fst nt) n dt Wt' NDt' lt' Post' Lpt' zs fac (Some a) Zs Zv Root Nl fermion a eq_refl) as (x & E1 & E2). exists x. split; [exact E1|exact E2].
      - destruct (value_none R L K emb sqrtK scr svd cj cj_emb emb_add emb_mul HS (snd nt) k (fst qp) (fst nt) n dt Wt' NDt' lt' Post' Lpt' zs fac None Zs Zv Root Nl fermion eq_refl) as (y & x & E1 & E2 & E3). exists x. split; [exists y; split; [exact E1|exact E2]|exact E3]. }
    destruct V as (x & V1 & V2). exists x. split; [exact V1|]. pose proof V2 as (V3 & V4 & _). split; [rewrite V3; exact (Pt R L fermion t n dm left rt W Lp Ne)|]. split; [exact V4|].
    intros T Lr Lc HT Cr Cc. pose proof Cr as (Cr1 & Cr2 & Cr3). pose proof Cc as (Cc1 & Cc2 & Cc3).
    assert (Kc : forall q, In q Lc -> Z.of_nat (length q) = n - Z.of_nat k) by (intros q Hq; rewrite (Cc2 q Hq); lia).
    pose proof (cover_rows R L fermion t n dm left rt W Ne Lr Cr) as Hr. pose proof (cover_cols R L fermion t n dm left rt W Ne Lc Cc) as Hc.
    pose proof (grid_ext R L k n dt lt' Lr Lc Cr2 Kc) as GE.
    split; [|split]; rewrite (over_all_eq Lr Lc _ Cr2 Cc2); cbv zeta.
    + rewrite <- (d_norm R L K emb sqrtK scr svd cj cj_add cj_mul cj_emb emb_add emb_mul HS (snd nt) k (fst qp) (fst nt) n dt Wt' NDt' lt' Post' zs fac Zs Zv Lr Lc Cr1 Cc1 Cr2 Kc Hr Hc x V2).
      apply (GE (fun ql xl qr xr => _) (fun ql xl qr xr => _)). intros ql xl qr xr H1 H2 H3 H4. now rewrite (T_values T HT ql qr xl xr H1 H3 H2 H4).
    + exact (x_norm R L K emb scr svd cj cj_add cj_mul cj_emb emb_add emb_mul HS (snd nt) k (fst qp) (fst nt) n dt Wt' NDt' lt' Post' zs fac Zs Zv Lr Lc Cr1 Cc1 Cr2 Kc Hr Hc x V2).
    + rewrite <- (t_norm R L K emb sqrtK scr svd cj cj_add cj_mul cj_emb emb_add emb_mul HS (snd nt) k (fst qp) (fst nt) n dt Wt' NDt' lt' Post' zs fac Zs Zv Lr Lc Cr1 Cc1 Cr2 Kc Hr Hc).
      apply (GE (fun ql xl qr xr => _) (fun ql xl qr xr => _)). intros ql xl qr xr H1 H2 H3 H4. now rewrite (T_values T HT ql qr xl xr H1 H3 H2 H4).
Qed.
(** When it does not return: with legs on both sides, a charge partition that adds up, a known mode and a decomposition of every matrix,
    the only reason is that no singular value is left; then all of them, with the norm of the tensor, are trimmed or screened. *)
Theorem c71_fails : forall qpn absorb o, ole (r0 K) (so_cutoff K o) -> 1 <= so_mode K o <= 6 -> (forall a m c, nshape a = [m; c] -> 0 < m -> 0 < c -> svd a <> None) ->
  (forall a b, qpn = Some (a, b) -> forall blk, In blk (fst t) -> qadd L a b = signed_total L (snd t) (fst blk)) ->
  sparse_svd R L fermion K emb sqrtK argsort renorm_fac scr svd t left right qpn absorb o = None ->
  exists trimmed screened,
  (trimmed <> [] -> trim_promise K (so_cutoff K o) (so_mode K o) (so_max K o) [] trimmed) /\
  (forall x, In x trimmed -> olt scr x) /\ (forall x, In x screened -> ole x scr) /\
  forall T Lr Lc, transposed_values R L fermion (fst t) n left rt T -> covers R L (fst t) left Lr -> covers R L (fst t) rt Lc ->
    over_all R L dm left rt Lr Lc (fun qs xs => rmul R (cj (T qs xs)) (T qs xs)) = bsum (trimmed ++ screened) (fun y => emb (rmul K y y)).
Proof.
  intros qpn absorb o C0 Hm Hsv Hq H. unfold sparse_svd in H. cbv zeta in H. rewrite (s_right R L t n dm left rt right W Ne Pm Hrt Right), (s_dq R L t n dm W ND Pos Ne) in H. cbn [bind] in H.
  assert (Hmax : Z.max (Z.of_nat k) (Z.of_nat (length rt)) =? n = false).
  { apply Z.eqb_neq. pose proof len' as LL. destruct left, rt; try easy; cbn [length] in *; lia. }
  assert (En : ndim R L (fst t) = n) by exact (tr_ndim R L t n dm W Ne).
  rewrite En, Hmax in H. set (dq0 := dq_of R L t) in *.
  destruct (partition_of L dq0 qpn absorb) as [qp|] eqn:Ep.
  2: { exfalso. unfold partition_of in Ep. destruct qpn as [[a b]|]; [|destruct absorb as [a|]; [destruct (a =? -1)|]; discriminate].
       pose proof (s_dq_eq R L t n dm W ND Pos Ne (qadd L a b) (fun blk Hb => eq_sym (Hq a b eq_refl blk Hb))) as E. fold dq0 in E. rewrite E in Ep. destruct (qeqb_spec L (qadd L a b) (qadd L a b)); congruence. }
  cbn [bind] in H. set (secs := sectors R L (snd nt) k (fst qp) (fst nt)) in *.
  assert (SO : forall s, In s secs -> svd (sc_data s) <> None).
  { intros s Hs. pose proof (secs_ok R L (snd nt) k (fst qp) (fst nt) n dt Wt' NDt' lt' Post' s Hs) as O. destruct (ok_pos R L (snd nt) k (fst qp) (fst nt) n dt Wt' lt' Post' s O) as [X Y].
    apply (Hsv _ _ _ (ok_sh _ _ _ _ _ _ _ _ s O) X Y). }
  destruct (decomposed R L K scr svd secs) as [fs0|] eqn:Ed.
  2: { exfalso. unfold decomposed in Ed. destruct (mapM _ secs) as [l|] eqn:E; [discriminate|]. clear - E SO. induction secs as [|s l IH]; [discriminate|]. cbn in E. destruct (svd (sc_data s)) eqn:Es; [|exact (SO s (or_introl eq_refl) Es)].
       cbn in E. destruct (mapM _ l) eqn:El; [discriminate|]. apply IH; auto. intros s' Hs'. apply SO. now right. }
  cbn [bind] in H.
  assert (Fin : forall zs : list (sector R L * (nd R * list K * nd R) * nat), map (fun z => fst (fst z)) zs = secs -> (forall z, In z zs -> svd (sc_data (fst (fst z))) = Some (snd (fst z))) -> kept R L K scr zs = [] ->
    (trimmed R L K scr zs <> [] -> trim_promise K (so_cutoff K o) (so_mode K o) (so_max K o) [] (trimmed R L K scr zs)) ->
    exists trimmed screened,
  (trimmed <> [] -> trim_promise K (so_cutoff K o) (so_mode K o) (so_max K o) [] trimmed) /\
  (forall x, In x trimmed -> olt scr x) /\ (forall x, In x screened -> ole x scr) /\
  forall T Lr Lc, transposed_values R L fermion (fst t) n left rt T -> covers R L (fst t) left Lr -> covers R L (fst t) rt Lc ->
    over_all R L dm left rt Lr Lc (fun qs xs => rmul R (cj (T qs xs)) (T qs xs)) = bsum (trimmed ++ screened) (fun y => emb (rmul K y y))).
  { intros zs Zs Zv K0 TP. exists (trimmed R L K scr zs), (screened R L K scr zs). split; [exact TP|]. split; [intros x Hx; apply (kept_scr R L K scr zs); apply in_or_app; now right|]. split; [exact (screened_scr R L K scr zs)|].
    intros T Lr Lc HT Cr Cc. pose proof Cr as (Cr1 & Cr2 & Cr3). pose proof Cc as (Cc1 & Cc2 & Cc3).
    assert (Kc : forall q, In q Lc -> Z.of_nat (length q) = n - Z.of_nat k) by (intros q Hq'; rewrite (Cc2 q Hq'); pose proof len'; lia).
    pose proof (cover_rows R L fermion t n dm left rt W Ne Lr Cr) as Hr. pose proof (cover_cols R L fermion t n dm left rt W Ne Lc Cc) as Hc.
    pose proof (grid_ext R L k n dt lt' Lr Lc Cr2 Kc) as GE.
    rewrite (over_all_eq Lr Lc _ Cr2 Cc2).
    pose proof (t_norm R L K emb sqrtK scr svd cj cj_add cj_mul cj_emb emb_add emb_mul HS (snd nt) k (fst qp) (fst nt) n dt Wt' NDt' lt' Post' zs (r1 K) Zs Zv Lr Lc Cr1 Cc1 Cr2 Kc Hr Hc) as TN.
    rewrite K0 in TN. cbn [app] in TN. rewrite <- TN.
    apply (GE (fun ql xl qr xr => _) (fun ql xl qr xr => _)). intros ql xl qr xr H1 H2 H3 H4. now rewrite (T_values T HT ql qr xl xr H1 H3 H2 H4). }
  destruct (truncated R L K argsort renorm_fac o fs0) as [gs|] eqn:Et; cbn [bind] in H.
  - destruct (svd_form R L K emb sqrtK scr argsort renorm_fac svd cj cj_emb emb_add emb_mul HS svd_desc scr0 argsort_perm argsort_sorted (snd nt) k (fst qp) (fst nt) n dt Wt' NDt' lt' Post' o absorb C0 fs0 gs Ed Et)
      as (zs & fac & Zs & Zv & Eh & Es & Fa & Fb & TA).
    assert (F' : forall f, In f (map (fz R L K emb sqrtK scr fac absorb) (filter (alive R L K scr) zs)) -> fac_ok R L (snd nt) k (fst qp) (fst nt) n dt f) by exact (FsvdWhole.F R L K emb sqrtK scr svd cj cj_emb emb_add emb_mul HS (snd nt) k (fst qp) (fst nt) n dt Wt' NDt' lt' Post' zs fac absorb Zs Zv).
    unfold hs in Eh. rewrite Eh in H.
    assert (K0 : kept R L K scr zs = []).
    { destruct (filter (alive R L K scr) zs) as [|z l] eqn:El.
      - unfold kept. clear - El. induction zs as [|z zs IH]; [reflexivity|]. cbn in El. destruct (alive R L K scr z) eqn:Ea; [discriminate|]. cbn [flat_map]. rewrite (IH El), app_nil_r. unfold alive in Ea. destruct (pz R L K scr z); [reflexivity|discriminate].
      - exfalso. pose proof (U_some R L (snd nt) k (fst qp) (fst nt) n dt _ F' ltac:(discriminate)) as US. destruct (fst (fst (assemble R L (snd nt) k (map (fz R L K emb sqrtK scr fac absorb) (z :: l))))); [congruence|discriminate]. }
    rewrite K0 in TA. apply (Fin zs Zs Zv K0). intros _. exact TA.
  - unfold truncated in Et. cbv zeta in Et. destruct (trim _ _ _ _ _ _) eqn:Etr; [discriminate|]. apply c25_defined in Etr. destruct Etr as [Etr|[_ Etr]]; [lia|].
    destruct (decomposed_ok R L K scr svd secs fs0 Ed) as (ys & Y1 & Y2 & Y3).
    assert (V0 : forall y, In y ys -> spos K scr (sg R L K y) = []).
    { intros y Hy. destruct (spos K scr (sg R L K y)) eqn:Ey; [reflexivity|]. exfalso.
      assert (Hf : In (scd R L K scr y) fs0). { rewrite Y3. apply filter_In. split; [now apply in_map|]. unfold ne. rewrite scd_vals, Ey. reflexivity. }
      specialize (Etr _ (in_map (fun f => fst (snd f)) _ _ Hf)). cbv beta in Etr. rewrite scd_vals, Ey in Etr. discriminate. }
    assert (A0 : kept R L K scr (map (fun y => (y, 0%nat)) ys) = [] /\ trimmed R L K scr (map (fun y => (y, 0%nat)) ys) = []).
    { unfold kept, trimmed. clear - V0. induction ys as [|y ys IH]; [split; reflexivity|]. cbn [map flat_map snd skipn]. destruct (IH (fun y' Hy => V0 y' (or_intror Hy))) as [I1 I2]. rewrite I1, I2.
      change (sz R L K (y, 0%nat)) with (sg R L K y). rewrite (V0 y (or_introl eq_refl)). split; reflexivity. }
    destruct A0 as [A0 A1]. apply (Fin (map (fun y => (y, 0%nat)) ys)).
    + rewrite map_map. exact Y1.
    + intros z Hz. apply in_map_iff in Hz. destruct Hz as (y & <- & Hy). now apply Y2.
    + exact A0.
    + rewrite A1. congruence.
Qed.
End Statements.
Print Assumptions c71_svd. Print Assumptions c71_fails.

(** ** concrete cases: integers, the decomposition of 1 x 1 and diagonal 2 x 2 matrices *)
Definition unit_of (x : Z) : Z := if x <? 0 then -1 else 1.
Definition svd2 (a : nd Z_ring) : option (nd Z_ring * list Z_oring * nd Z_ring) :=
  match nshape a with
  | [1; 1] => Some (eye Z_ring 1, [Z.abs (nget a [0; 0])], @mkNd Z_ring [1; 1] (fun _ => unit_of (nget a [0; 0])))
  | [2; 2] => if (nget a [0; 1] =? 0) && (nget a [1; 0] =? 0) && (Z.abs (nget a [1; 1]) <=? Z.abs (nget a [0; 0]))
              then Some (eye Z_ring 2, [Z.abs (nget a [0; 0]); Z.abs (nget a [1; 1])],
                @mkNd Z_ring [2; 2] (fun xs => if nth 0 xs 0 =? nth 1 xs 0 then unit_of (nget a [nth 0 xs 0; nth 0 xs 0]) else 0)) else None
  | _ => None
  end.
Lemma unit_abs : forall x, Z.abs x * unit_of x = x. Proof. intros x. unfold unit_of. destruct (Z.ltb_spec x 0); lia. Qed.
Lemma unit_sq : forall x, unit_of x * unit_of x = 1. Proof. intros x. unfold unit_of. now destruct (x <? 0). Qed.
Lemma two : forall z, 0 <= z < 2 -> z = 0 \/ z = 1. Proof. lia. Qed.
Lemma svd2_exact : exact_svd Z_ring Z_oring (fun x => x) (fun x => x) svd2.
Proof.
  intros a m n u s v Es Hm Hn E. unfold svd2 in E. rewrite Es in E.
  assert (C : m = 1 /\ n = 1 \/ m = 2 /\ n = 2). { destruct m as [|[m|[m|m|]|]|]; try discriminate; destruct n as [|[n|[n|n|]|]|]; try discriminate; auto. }
  destruct C as [[-> ->]|[-> ->]].
  - injection E as <- <- <-. cbn [length Z.of_nat Pos.of_succ_nat]. cbv zeta. split; [lia|]. split; [reflexivity|]. split; [reflexivity|]. split; [|split].
    + intros i j Hi Hj. assert (i = 0) as -> by lia. assert (j = 0) as -> by lia. change (zrange 1) with [0]. rewrite bsum_cons, bsum_nil. rewrite nget_eye by lia. rewrite (nget_in Z_ring (@mkNd Z_ring [1; 1] _)) by (apply in_shape2; lia). cbn [nth Z.to_nat nval]. change (0 =? 0) with true. cbn -[nget Z.abs unit_of Z.mul Z.add].
      pose proof (unit_abs (nget a [0; 0])). cbn -[nget Z.abs unit_of Z.mul Z.add] in *. lia.
    + intros z z' Hz Hz'. assert (z = 0) as -> by lia. assert (z' = 0) as -> by lia. reflexivity.
    + intros z z' Hz Hz'. assert (z = 0) as -> by lia. assert (z' = 0) as -> by lia. change (zrange 1) with [0]. rewrite bsum_cons, bsum_nil. rewrite !(nget_in Z_ring (@mkNd Z_ring [1; 1] _)) by (apply in_shape2; lia). cbn [nval]. pose proof (unit_sq (nget a [0; 0])). cbn -[nget unit_of Z.mul Z.add] in *. lia.
  - destruct ((nget a [0; 1] =? 0) && (nget a [1; 0] =? 0)) eqn:E1; [|discriminate]. cbn [andb] in E. destruct (_ <=? _) in E; [|discriminate]. apply andb_true_iff in E1. destruct E1 as [E1 E2]. apply Z.eqb_eq in E1, E2.
    injection E as <- <- <-. cbn [length Z.of_nat Pos.of_succ_nat Pos.succ]. cbv zeta. split; [lia|]. split; [reflexivity|]. split; [reflexivity|].
    assert (V : forall z j, 0 <= z < 2 -> 0 <= j < 2 -> nget (@mkNd Z_ring [2; 2] (fun xs => if nth 0 xs 0 =? nth 1 xs 0 then unit_of (nget a [nth 0 xs 0; nth 0 xs 0]) else 0)) [z; j] = if z =? j then unit_of (nget a [z; z]) else 0).
    { intros z j Hz Hj. rewrite nget_in; [reflexivity|]. constructor; [lia|]. constructor; [lia|constructor]. }
    split; [|split].
    + intros i j Hi Hj. change (zrange 2) with [0; 1]. rewrite !bsum_cons, bsum_nil. rewrite !V by lia. rewrite !nget_eye by lia. pose proof (unit_abs (nget a [0; 0])) as U0. pose proof (unit_abs (nget a [1; 1])) as U1.
      revert U0 U1. generalize (Z.abs (nget a [0; 0])) (Z.abs (nget a [1; 1])) (unit_of (nget a [0; 0])) (unit_of (nget a [1; 1])). intros A0 A1 B0 B1 U0 U1.
      destruct (two i Hi) as [->| ->], (two j Hj) as [->| ->]; change (Z.to_nat 1) with 1%nat; cbn -[nget Z.mul Z.add] in *; lia.
    + intros z z' Hz Hz'. destruct (two z Hz) as [->| ->], (two z' Hz') as [->| ->]; reflexivity.
    + intros z z' Hz Hz'. change (zrange 2) with [0; 1]. rewrite !bsum_cons, bsum_nil. rewrite !V by lia. pose proof (unit_sq (nget a [0; 0])) as U0. pose proof (unit_sq (nget a [1; 1])) as U1.
      destruct (two z Hz) as [->| ->], (two z' Hz') as [->| ->]; cbn -[nget Z.abs unit_of Z.mul Z.add] in *; lia.
Qed.
Lemma svd2_desc : forall a u s v, svd2 a = Some (u, s, v) -> StronglySorted (fun x y : Z_oring => ole y x) s.
Proof.
  intros a u s v E. unfold svd2 in E. repeat match type of E with match ?x with _ => _ end = _ => destruct x eqn:?; try discriminate end; try discriminate; injection E as <- <- <-; repeat constructor.
  match goal with H : _ && _ = true |- _ => apply andb_true_iff in H; destruct H as [_ H]; exact H end.
Qed.
(* 3 legs; left_idx = [2]: the block of odd labels changes sign; singular values 9, 4 and 1 *)
Definition ex_s : ftensor Z_ring U1_label :=
  ([([0; 0; 0], @mkNd Z_ring [2; 1; 2] (fun xs => if nth 0 xs 0 =? nth 2 xs 0 then if nth 0 xs 0 =? 0 then 9 else -4 else 0)); ([1; 0; 1], @mkNd Z_ring [1; 1; 1] (fun _ => 1))], [true; true; false]).
Definition ex_dm (i c : Z) : Z := if i =? 1 then 1 else if c =? 0 then 2 else 1.
Definition zfd (t : ftensor Z_ring U1_label) : list (list Z * list Z * list Z) * list bool :=
  (map (fun b : list U1_label * nd Z_ring => (fst b, nshape (snd b), map (fun xs => nval (snd b) xs) (all_idx (nshape (snd b))))) (fst t), snd t).
Definition run_s (absorb : option Z) (cutoff mode : Z) (mx : option Z) :=
  sparse_svd Z_ring U1_label true Z_oring (fun x => x) Z.sqrt stable_argsort (fun _ _ _ => 1) 0 svd2 ex_s [2] None None absorb (Sopts Z_oring cutoff mode mx 0).
Definition dump_s (r : option (ftensor Z_ring U1_label * option (ftensor Z_ring U1_label) * ftensor Z_ring U1_label)) := option_map (fun e => (zfd (fst (fst e)), option_map zfd (snd (fst e)), zfd (snd e))) r.
Example c71_ex :
  (* no limit: all values, s as a tensor *)
  dump_s (run_s None 0 1 None) =
    Some (([([0; 0], [2; 2], [1; 0; 0; 1]); ([1; -1], [1; 1], [1])], [false; false]), Some ([([0; 0], [2; 2], [9; 0; 0; 4]); ([-1; -1], [1; 1], [1])], [true; false]),
          ([([0; 0; 0], [2; 2; 1], [1; 0; 0; -1]); ([-1; 1; 0], [1; 1; 1], [-1])], [true; true; true])) /\
  (* at most two values: the block of the third value is gone; the square roots go to both sides *)
  dump_s (run_s (Some 0) 0 1 (Some 2)) =
    Some (([([0; 0], [2; 2], [3; 0; 0; 2])], [false; false]), None, ([([0; 0; 0], [2; 2; 1], [3; 0; 0; -2])], [true; true; true])) /\
  (* only the value above 4 *)
  dump_s (run_s (Some (-1)) 4 1 None) = Some (([([0; 0], [2; 1], [9; 0])], [false; false]), None, ([([0; 0; 0], [1; 2; 1], [1; 0])], [true; true; true])) /\
  dump_s (run_s (Some 1) 4 1 None) = Some (([([0; 0], [2; 1], [1; 0])], [false; false]), None, ([([0; 0; 0], [1; 2; 1], [9; 0])], [true; true; true])) /\
  (* nothing left: an exception *)
  run_s None 9 1 None = None.
Proof. split; [|split; [|split; [|split]]]; vm_compute; reflexivity. Qed.
(* the hypotheses of the theorem hold *)
Lemma ex_s_wf : wf_tensor Z_ring U1_label 3 ex_dm (fst ex_s) /\ NoDup (map fst (fst ex_s)) /\ (forall b, In b (fst ex_s) -> Forall (fun s => 0 < s) (nshape (snd b))) /\ Permutation (zrange 3) ([2] ++ [0; 1]) /\ [0; 1] = rest 3 [2].
Proof.
  split; [intros b [<- |[<- |[] ] ]; split; reflexivity|]. split; [repeat constructor; cbn; intuition discriminate|]. split; [intros b [<- |[<- |[] ] ]; repeat constructor|].
  split; [change (zrange 3) with [0; 1; 2]; cbn [app]; apply NoDup_Permutation; [repeat constructor; cbn; intuition discriminate..|]; intros x; cbn; tauto|reflexivity].
Qed.
Example c71_ex_applies : forall absorb cutoff mode mx u s v, 0 <= cutoff -> run_s absorb cutoff mode mx = Some (u, s, v) ->
  exists kept trimmed : list Z_oring, trim_promise Z_oring cutoff mode mx kept trimmed /\ kept <> [] /\ snd u = [false; false] /\ snd v = [true; true; true].
Proof.
  intros absorb cutoff mode mx u s v Hc H. destruct ex_s_wf as (W & ND & Pos & Pm & Er). destruct stable_argsort_ok as [A1 A2].
  destruct (c71_svd Z_ring U1_label true Z_oring (fun x => x) (fun x => x) (fun _ _ => eq_refl) (fun _ _ => eq_refl) (fun _ => eq_refl) (fun _ _ => eq_refl) (fun _ _ => eq_refl) Z.sqrt 0 eq_refl stable_argsort A1 A2 (fun _ _ _ => 1) svd2 svd2_exact svd2_desc
    ex_s 3 ex_dm [2] [0; 1] None W ND Pos eq_refl ltac:(discriminate) Pm ltac:(discriminate) (or_intror (conj eq_refl Er)) None absorb (Sopts Z_oring cutoff mode mx 0) u s v) as (bond & Qs & kept & trimmed & screened & fac & P1 & _ & _ & P2 & _ & _ & P3 & P4 & _).
  - unfold ole. cbn. now apply Z.leb_le.
  - exact H.
  - exists kept, trimmed. auto.
Qed.
