(** Matrix product chains as functions: sums over bond states.  The specification vocabulary of C32 and C33, and the
    algebra of chains used in the proofs. *)
From Coq Require Import ZArith Bool List Lia Permutation Ring.
From Verif Require Import SymModel SymProofs DictLib IndexLib OptLib RingLib BondModel FuseModel BlockModel BlockProofs MpsModel.
Import ListNotations.
Open Scope Z_scope.

Section Chain.
Variable R : CRing.
Add Ring Rr : (rth R).
Notation "0'" := (r0 R). Notation "1'" := (r1 R).
Infix "+'" := (radd R) (at level 50, left associativity).
Infix "*'" := (rmul R) (at level 40, left associativity).
Variables P S : Type.
Notation mat := (P -> S -> S -> R).

(* Bs: the states of the bonds between neighbouring sites; ps: one physical state per site *)
Fixpoint chain (Bs : list (list S)) (fs : list mat) (ps : list P) (l r : S) {struct fs} : R :=
  match fs, ps with
  | [f], [p] => f p l r
  | f :: fs', p :: ps' =>
      match Bs with
      | B :: Bs' => bsum B (fun m => f p l m *' chain Bs' fs' ps' m r)
      | [] => 0'
      end
  | _, _ => 0'
  end.
Lemma chain_one : forall Bs f p l r, chain Bs [f] [p] l r = f p l r.
Proof. intros [|B Bs]; reflexivity. Qed.
Lemma chain_cons : forall B Bs f g fs p ps l r, chain (B :: Bs) (f :: g :: fs) (p :: ps) l r = bsum B (fun m => f p l m *' chain Bs (g :: fs) ps m r).
Proof. reflexivity. Qed.
Lemma chain_long : forall Bs f p q ps l r, chain Bs [f] (p :: q :: ps) l r = 0'.
Proof. intros [|B Bs]; intros; cbn; [reflexivity|]. apply bsum_zero. intros. ring. Qed.
(* every bond list has no repetition and contains all states that the tensor before it can lead to *)
Fixpoint bonds_cover (Bs : list (list S)) (fs : list mat) {struct fs} : Prop :=
  match fs with
  | [] => False
  | f :: fs' =>
      match fs' with
      | [] => True
      | _ => match Bs with [] => False | B :: Bs' => NoDup B /\ (forall p l m, ~ In m B -> f p l m = 0') /\ bonds_cover Bs' fs' end
      end
  end.

Variable S_dec : forall a b : S, {a = b} + {a <> b}.
Lemma bsum_cover : forall (B B' : list S) (g : S -> R), NoDup B -> NoDup B' -> (forall x, ~ In x B -> g x = 0') -> (forall x, ~ In x B' -> g x = 0') -> bsum B g = bsum B' g.
Proof.
  assert (H: forall (B B' : list S) (g : S -> R), NoDup B -> NoDup B' -> (forall x, ~ In x B' -> g x = 0') -> bsum B g = bsum (filter (fun x => if in_dec S_dec x B' then true else false) B) g).
  { intros B B' g N N' Z. rewrite bsum_filter. apply bsum_ext. intros x Hx. destruct (in_dec S_dec x B'); [reflexivity|now apply Z]. }
  intros B B' g N N' Z Z'. rewrite (H B B' g N N' Z'), (H B' B g N' N Z). apply bsum_perm. apply NoDup_Permutation; [now apply NoDup_filter|now apply NoDup_filter|].
  intros x. rewrite !filter_In. destruct (in_dec S_dec x B), (in_dec S_dec x B'); intuition congruence.
Qed.

(* a chain starting with a state the first tensor does not accept *)
Lemma chain_dead : forall f fs Bs ps l r, (forall p m, f p l m = 0') -> chain Bs (f :: fs) ps l r = 0'.
Proof.
  intros f [|g fs] Bs ps l r H.
  - destruct ps as [|p [|q ps]]; [reflexivity|rewrite chain_one; now apply H|apply chain_long].
  - destruct ps as [|p ps]; [reflexivity|]. destruct Bs as [|B Bs]; [reflexivity|]. rewrite chain_cons. apply bsum_zero. intros m _. rewrite H. ring.
Qed.

(** the choice of bond lists is irrelevant *)
Lemma chain_cover_indep : forall fs Bs Bs' ps l r, bonds_cover Bs fs -> bonds_cover Bs' fs -> chain Bs fs ps l r = chain Bs' fs ps l r.
Proof.
  induction fs as [|f [|g fs] IH]; intros Bs Bs' ps l r C C'; [destruct C| |].
  - destruct ps as [|p [|q ps]]; [reflexivity|now rewrite !chain_one|now rewrite !chain_long].
  - destruct ps as [|p ps]; [reflexivity|]. destruct Bs as [|B Bs]; [destruct C|]. destruct Bs' as [|B' Bs']; [destruct C'|].
    destruct C as (N & Z & C), C' as (N' & Z' & C'). rewrite !chain_cons.
    rewrite (bsum_ext R _ B _ (fun m => f p l m *' chain Bs' (g :: fs) ps m r)) by (intros; now rewrite (IH Bs Bs')).
    apply bsum_cover; auto; intros x Hx; [rewrite Z|rewrite Z']; auto; ring.
Qed.

(** direct sums: every tensor of c is the sum of that of a and that of b with shifted bond states *)
Inductive dsum : (S -> S) -> list mat -> list mat -> list mat -> (S -> S) -> Prop :=
  | dsum_one : forall h k fa fb fc, (forall p l r, fc p l r = fa p l r +' fb p (h l) (k r)) -> dsum h [fa] [fb] [fc] k
  | dsum_cons : forall h k j fa fb fc ga gb gc fas fbs fcs, (forall p l r, fc p l r = fa p l r +' fb p (h l) (k r)) ->
      dsum k (ga :: fas) (gb :: fbs) (gc :: fcs) j ->
      (forall m, ((forall p l, fb p l (k m) = 0') /\ (forall p r, gb p (k m) r = 0')) \/ ((forall p l, fa p l m = 0') /\ (forall p r, ga p m r = 0'))) ->
      (forall x y, k x = k y -> x = y) -> (forall y, exists x, k x = y) ->
      dsum h (fa :: ga :: fas) (fb :: gb :: fbs) (fc :: gc :: fcs) j.
Lemma chain_dsum : forall h k fas fbs fcs, dsum h fas fbs fcs k -> forall Ba Bb Bc ps l r, length ps = length fcs -> bonds_cover Ba fas -> bonds_cover Bb fbs -> bonds_cover Bc fcs ->
  chain Bc fcs ps l r = chain Ba fas ps l r +' chain Bb fbs ps (h l) (k r).
Proof.
  induction 1 as [h k fa fb fc Hs|h k j fa fb fc ga gb gc fas fbs fcs Hs D IH X Inj Sur]; intros Ba Bb Bc ps l r Lp Ca Cb Cc.
  - destruct ps as [|p [|]]; try discriminate. rewrite !chain_one. apply Hs.
  - destruct ps as [|p ps]; [discriminate|]. destruct Ba as [|Ba0 Ba]; [destruct Ca|]. destruct Bb as [|Bb0 Bb]; [destruct Cb|]. destruct Bc as [|Bc0 Bc]; [destruct Cc|].
    destruct Ca as (Na & Za & Ca), Cb as (Nb & Zb & Cb), Cc as (Nc & Zc & Cc). rewrite !chain_cons.
    rewrite (bsum_ext R _ Bc0 _ (fun m => fa p l m *' chain Ba (ga :: fas) ps m r +' fb p (h l) (k m) *' chain Bb (gb :: fbs) ps (k m) (j r))).
    2:{ intros m _. rewrite Hs. cbn [length] in Lp. rewrite (IH Ba Bb Bc ps m r) by (auto; cbn [length] in *; lia).
        destruct (X m) as [[Z1 Z2]|[Z1 Z2]]; rewrite Z1.
        - rewrite (chain_dead gb fbs Bb ps (k m)) by auto. ring.
        - rewrite (chain_dead ga fas Ba ps m) by auto. ring. }
    assert (Out: forall m, ~ In m Bc0 -> fa p l m = 0' /\ fb p (h l) (k m) = 0').
    { intros m Hm. pose proof (Zc p l m Hm) as E. rewrite Hs in E. destruct (X m) as [[Z1 _]|[Z1 _]]; rewrite Z1 in *; split; auto.
      - transitivity (fa p l m +' 0'); [ring|exact E].
      - transitivity (0' +' fb p (h l) (k m)); [ring|exact E]. }
    rewrite bsum_add. f_equal.
    + apply bsum_cover; auto; intros m Hm; [rewrite (proj1 (Out m Hm))|rewrite Za by auto]; ring.
    + transitivity (bsum (map k Bc0) (fun m => fb p (h l) m *' chain Bb (gb :: fbs) ps m (j r))); [now rewrite bsum_map|].
      apply bsum_cover; auto.
      * apply FinFun.Injective_map_NoDup; auto.
      * intros y Hy. destruct (Sur y) as (m & <-). rewrite (proj2 (Out m ltac:(intro; apply Hy; now apply in_map))). ring.
      * intros m Hm. rewrite Zb by auto. ring.
Qed.
(* scaling the first tensor *)
Lemma chain_first : forall c f g fs Bs ps l r, (forall p l r, g p l r = c *' f p l r) -> chain Bs (g :: fs) ps l r = c *' chain Bs (f :: fs) ps l r.
Proof.
  intros c f g [|h fs] Bs ps l r H.
  - destruct ps as [|p [|q ps]]; [cbn; ring|rewrite !chain_one; apply H|rewrite !chain_long; ring].
  - destruct ps as [|p ps]; [cbn; ring|]. destruct Bs as [|B Bs]; [cbn; ring|]. rewrite !chain_cons, <- bsum_mull. apply bsum_ext. intros. rewrite H. ring.
Qed.
(* a chain ending with a state the last tensor does not reach *)
Lemma chain_dead_end : forall fs f Bs ps l r, (forall p m, f p m r = 0') -> chain Bs (fs ++ [f]) ps l r = 0'.
Proof.
  induction fs as [|g fs IH]; intros f Bs ps l r H; cbn [app].
  - destruct ps as [|p [|q ps]]; [reflexivity|rewrite chain_one; now apply H|apply chain_long].
  - destruct ps as [|p ps]; [now destruct (fs ++ [f])|]. destruct (fs ++ [f]) as [|g' fs'] eqn:E; [now destruct fs|]. destruct Bs as [|B Bs]; [reflexivity|]. rewrite chain_cons.
    apply bsum_zero. intros m _. rewrite <- E, IH by auto. ring.
Qed.
Lemma chain_zero_site : forall fs, (exists f, In f fs /\ forall p l m, f p l m = 0') -> forall Bs ps l r, chain Bs fs ps l r = 0'.
Proof.
  induction fs as [|g fs IH]; intros (f & Hf & H) Bs ps l r; [destruct Hf|]. destruct Hf as [->|Hf]; [now apply chain_dead|].
  destruct ps as [|p ps]; [now destruct fs|]. destruct fs as [|g' fs']; [destruct Hf|]. destruct Bs as [|B Bs]; [reflexivity|]. rewrite chain_cons.
  apply bsum_zero. intros m _. rewrite IH by eauto. ring.
Qed.
Lemma chain_ext : forall fs gs, Forall2 (fun f g => forall p l r, f p l r = g p l r) fs gs -> forall Bs ps l r, chain Bs fs ps l r = chain Bs gs ps l r.
Proof.
  induction 1 as [|f g fs gs H F IH]; intros Bs ps l r; [reflexivity|]. destruct F as [|f' g' fs gs H' F].
  - destruct ps as [|p [|q ps]]; [reflexivity|rewrite !chain_one; apply H|now rewrite !chain_long].
  - destruct ps as [|p ps]; [reflexivity|]. destruct Bs as [|B Bs]; [reflexivity|]. rewrite !chain_cons. apply bsum_ext. intros m _. now rewrite H, IH.
Qed.
End Chain.

(** *** sites of an MPS as functions *)
Section Sites.
Variable R : CRing.
Variable L : Label.
Notation tensor := (list (list L * nd R)).
Notation site := (site R L).
Notation state := (L * Z)%type.
(* the odd (true) or even (false) part of a site; a SparseTensor has no odd part *)
Definition part (s : site) (odd : bool) : tensor :=
  match s, odd with SP t, false => t | SP _, true => [] | FT o _, true => o | FT _ e, false => e end.
(* element of a site: parity and physical state p, left and right bond states *)
Definition selem (s : site) (p : bool * list state) (l r : state) : R :=
  elem R L (part s (fst p)) (fst l :: map fst (snd p) ++ [fst r]) (snd l :: map snd (snd p) ++ [snd r]).
(* the amplitude of the tensors for the physical states ps and the boundary states l and r *)
Definition amplitude (Bs : list (list state)) (ts : list site) (ps : list (bool * list state)) (l r : state) : R :=
  chain R (bool * list state) state Bs (map selem ts) ps l r.
Definition bonds (Bs : list (list state)) (ts : list site) : Prop := bonds_cover R (bool * list state) state Bs (map selem ts).

(* a site with n legs: the dimensions of its labels on the left, physical and right legs *)
Definition ldim (n : Z) (dl : L -> Z) (dp : Z -> L -> Z) (dr : L -> Z) (i : Z) (q : L) : Z :=
  if i =? 0 then dl q else if i =? n - 1 then dr q else dp i q.
Definition wf_site (n : Z) (dl : L -> Z) (dp : Z -> L -> Z) (dr : L -> Z) (s : site) : Prop :=
  2 <= n /\ forall odd, wf_tensor R L n (ldim n dl dp dr) (part s odd) /\ (forall b, In b (part s odd) -> Forall (fun d => 0 < d) (nshape (snd b))) /\ NoDup (map fst (part s odd)).
(* the dimensions of neighbouring legs agree; ds lists the dimensions of the bonds, shp the number of legs and the
   physical dimensions of the sites *)
Fixpoint wf_sites (ds : list (L -> Z)) (shp : list (Z * (Z -> L -> Z))) (ts : list site) {struct ts} : Prop :=
  match ts with
  | [] => shp = [] /\ length ds = 1%nat
  | t :: ts' =>
    match shp, ds with
    | (n, dp) :: shp', dl :: ds' => wf_site n dl dp (hd (fun _ => 0) ds') t /\ wf_sites ds' shp' ts'
    | _, _ => False
    end
  end.
(* labels on the first and on the last leg *)
Definition blocks (s : site) : tensor := part s true ++ part s false.
Definition firsts (s : site) : list L := map (fun b => nth 0 (fst b) (q0 L)) (blocks s).
Definition lasts (s : site) : list L := map (fun b => last (fst b) (q0 L)) (blocks s).
Definition kind (s : site) : bool := match s with SP _ => false | FT _ _ => true end.
End Sites.
Arguments part {R L}. Arguments selem {R L}. Arguments amplitude {R L}. Arguments bonds {R L}. Arguments wf_site {R L}. Arguments wf_sites {R L}.
Arguments blocks {R L}. Arguments firsts {R L}. Arguments lasts {R L}. Arguments kind {R L}.
