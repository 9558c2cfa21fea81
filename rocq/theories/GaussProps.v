(** C72: initial and terminal indices, layers and the one-particle density matrix of a Gaussian tensor network
    (gaussian/core.py).  C73: two-particle density matrices and energies of RHF, UHF and GHF networks. *)
From Coq Require Import ZArith Bool List Lia Permutation Ring Sorted QArith Qcanon.
From Verif Require Import DictLib IndexLib RingLib OptLib GaussModel GaussProofs.
Import ListNotations.
Open Scope Z_scope.

Section Spec.
Variable R : CRing.
Add Ring Rr : (rth R).
Notation "a +' b" := (radd R a b) (at level 50, left associativity).
Notation "a *' b" := (rmul R a b) (at level 40, left associativity).
Notation gt := (gt R).
Definition ups (ts : list gt) : list Z := flat_map g_u ts.
Definition downs (ts : list gt) : list Z := flat_map g_d ts.
(* every leg is made once and used once; no tensor is above itself *)
Definition wired (ts : list gt) : Prop := NoDup (ups ts) /\ NoDup (downs ts) /\
  exists level : gt -> nat, forall t t' x, In t ts -> In t' ts -> In x (g_u t') -> In x (g_d t) -> (level t' < level t)%nat.
(* square tensors; the core legs (the first up legs) end there; one occupation for each *)
Definition shaped (ts : list gt) : Prop := forall t, In t ts -> length (g_d t) = length (g_u t) /\ length (g_occ t) = g_core t /\ (g_core t <= length (g_u t))%nat /\
  forall p, (p < g_core t)%nat -> ~ In (nth p (g_u t) 0) (downs ts).
(* orbitals on the legs: unit vectors on the initial legs; on the up legs of a tensor the rotated orbitals of its down legs *)
Definition orbitals (ts : list gt) (init : list Z) (phi : Z -> nat -> R) : Prop :=
  (forall a b, (a < length init)%nat -> (b < length init)%nat -> phi (nth a init 0) b = if Nat.eqb a b then r1 R else r0 R) /\
  (forall t p b, In t ts -> (p < length (g_u t))%nat -> (b < length init)%nat ->
     phi (nth p (g_u t) 0) b = bsum (seq 0 (length (g_u t))) (fun q => g_rot t q p *' phi (nth q (g_d t) 0) b)).
Definition core_sum (ts : list gt) (F : Z -> R -> R) : R := bsum ts (fun t => bsum (seq 0 (g_core t)) (fun p => F (nth p (g_u t) 0) (nth p (g_occ t) (r0 R)))).
Definition orthogonal (t : gt) : Prop := forall p p', (p < length (g_u t))%nat -> (p' < length (g_u t))%nat ->
  bsum (seq 0 (length (g_u t))) (fun q => g_rot t q p *' g_rot t q p') = if Nat.eqb p p' then r1 R else r0 R.

Theorem c72_indices : forall ts,
  (StronglySorted Z.lt (initial_indices R ts) /\ forall x, In x (initial_indices R ts) <-> In x (downs ts) /\ ~ In x (ups ts)) /\
  (StronglySorted Z.lt (terminal_indices R ts) /\ forall x, In x (terminal_indices R ts) <-> In x (ups ts) /\ ~ In x (downs ts)).
Proof.
  intros ts. split; (split; [|intros x]).
  - apply initial_sorted.
  - apply in_initial.
  - apply terminal_sorted.
  - apply in_terminal.
Qed.

(* every tensor is in one layer; its down legs are initial or made in earlier layers; except in the first layer, one was made just before *)
Theorem c72_layers : forall ts, wired ts -> exists ls, get_layers R ts = Some ls /\ Permutation (concat ls) (combine (seq 0 (length ts)) ts) /\
  (forall a la b e x, ls = a ++ la :: b -> In e la -> In x (g_d (snd e)) -> ~ In x (ups ts) \/ In x (ups (map snd (concat a)))) /\
  (forall a la lb b e, ls = a ++ la :: lb :: b -> In e lb -> exists x, In x (g_d (snd e)) /\ In x (ups (map snd la))).
Proof.
  intros ts (NU & ND & rk & RK). destruct (get_layers_ok R ts rk ND NU RK) as (ls & E & P & _ & L & D). exists ls. repeat split; auto.
  - intros a la b e x El He Hx. destruct (D a la b e x El He Hx) as [H|H]; [left|right; exact H]. apply in_initial in H. apply H.
  - intros a la lb b e -> He. clear E P D. induction a as [|a0 a IH]; cbn [app layered] in L.
    + destruct L as [L _]. exact (L e He).
    + apply IH. apply L.
Qed.
(* the number of passes allowed in get_layers is no restriction; what is returned does not depend on it *)
Theorem c72_passes : forall ts n ls, layers_upto R n ts = Some ls -> get_layers R ts = Some ls.
Proof.
  intros ts n ls H. unfold get_layers, layers_upto in *. apply loop_enough in H. now rewrite combine_length, seq_length, Nat.min_id in H.
Qed.

Lemma net_of : forall ts, wired ts -> shaped ts -> exists rk, net_ok R ts rk.
Proof.
  intros ts (NU & ND & rk & RK) S. exists rk. repeat split; auto; try (apply S; assumption). intros x Hx.
  destruct (S t H) as (_ & _ & Lc & C). apply (In_nth _ _ 0) in Hx. destruct Hx as (p & Lp & <-). rewrite firstn_length_le in Lp by exact Lc. rewrite firstn_nth by exact Lp. exact (C p Lp).
Qed.

Theorem c72_rdm1 : forall ts, wired ts -> shaped ts ->
  exists dm, make_rdm1 R ts = Some (length (initial_indices R ts), dm) /\
  exists phi, orbitals ts (initial_indices R ts) phi /\
  forall N, N = length (initial_indices R ts) ->
  (forall a b, (a < N)%nat -> (b < N)%nat -> dm a b = core_sum ts (fun x o => o *' phi x a *' phi x b)) /\
  ((forall t, In t ts -> orthogonal t) ->
     (forall x y, In x (ups ts) -> ~ In x (downs ts) -> In y (ups ts) -> ~ In y (downs ts) -> bsum (seq 0 N) (fun a => phi x a *' phi y a) = if x =? y then r1 R else r0 R) /\
     (forall t p a, In t ts -> (p < g_core t)%nat -> (a < N)%nat ->
        bsum (seq 0 N) (fun b => dm a b *' phi (nth p (g_u t) 0) b) = nth p (g_occ t) (r0 R) *' phi (nth p (g_u t) 0) a) /\
     (forall x a, In x (ups ts) -> ~ In x (downs ts) -> (forall t p, In t ts -> (p < g_core t)%nat -> nth p (g_u t) 0 <> x) -> (a < N)%nat ->
        bsum (seq 0 N) (fun b => dm a b *' phi x b) = r0 R) /\
     bsum (seq 0 N) (fun a => dm a a) = core_sum ts (fun _ o => o) /\
     (forall h, (forall t p, In t ts -> (p < g_core t)%nat -> nth p (g_occ t) (r0 R) *' nth p (g_occ t) (r0 R) = h *' nth p (g_occ t) (r0 R)) ->
        forall a c, (a < N)%nat -> (c < N)%nat -> bsum (seq 0 N) (fun b => dm a b *' dm b c) = h *' dm a c)).
Proof.
  intros ts Wi Sh. destruct (net_of ts Wi Sh) as (rk & Ne). destruct (rdm1_ok R ts rk Ne) as (dm & E & D). exists dm. split; [exact E|].
  destruct (orbs_exist R ts rk Ne) as (phi & O). exists phi. split; [destruct O as [O1 O2]; split; [exact O1|intros t p b Ht Hp Hb; exact (O2 t b Ht Hb p Hp)]|].
  intros N EN. subst N. specialize (D phi O). split; [intros a b Ha Hb; rewrite (D a b Ha Hb); reflexivity|]. intros C.
  assert (Or : forall x y, In x (ups ts) -> ~ In x (downs ts) -> In y (ups ts) -> ~ In y (downs ts) -> bsum (seq 0 (length (initial_indices R ts))) (fun a => phi x a *' phi y a) = if x =? y then r1 R else r0 R).
  { intros x y H1 H2 H3 H4. exact (terminal_orth R ts rk phi Ne O C x y (proj2 (in_terminal R ts x) (conj H1 H2)) (proj2 (in_terminal R ts y) (conj H3 H4))). }
  assert (Cu : forall t p, In t ts -> (p < g_core t)%nat -> In (nth p (g_u t) 0) (ups ts) /\ ~ In (nth p (g_u t) 0) (downs ts)).
  { intros t p Ht Hp. destruct (Sh t Ht) as (_ & _ & Lc & C'). split; [|exact (C' p Hp)]. apply in_flat_map. exists t. split; [exact Ht|]. apply nth_In. lia. }
  (* the density matrix on an orbital *)
  assert (Act : forall x a, In x (ups ts) -> ~ In x (downs ts) -> (a < length (initial_indices R ts))%nat ->
    bsum (seq 0 (length (initial_indices R ts))) (fun b => dm a b *' phi x b) = core_sum ts (fun y o => o *' phi y a *' (if y =? x then r1 R else r0 R))).
  { intros x a Hx Hx' Ha. rewrite (bsum_ext R _ _ _ (fun b => core_sum ts (fun y o => o *' phi y a *' (phi y b *' phi x b)))).
    - unfold core_sum. rewrite bsum_swap. apply bsum_ext. intros t Ht. rewrite bsum_swap. apply bsum_ext. intros p Hp. apply in_seq in Hp. rewrite bsum_mull. f_equal. destruct (Cu t p Ht ltac:(lia)). now apply Or.
    - intros b Hb. apply in_seq in Hb. rewrite (D a b Ha ltac:(lia)). unfold occsum, core_sum. rewrite <- bsum_mulr. apply bsum_ext. intros t _. rewrite <- bsum_mulr. apply bsum_ext. intros p _. ring. }
  assert (Uq : forall t t' p p', In t ts -> In t' ts -> (p < length (g_u t))%nat -> (p' < length (g_u t'))%nat -> nth p (g_u t) 0 = nth p' (g_u t') 0 -> t = t' /\ p = p').
  { destruct Wi as (NU & _). clear - NU. unfold ups in NU. intros t t' p p' Ht Ht' Hp Hp' Eq.
    assert (Et : t = t').
    { revert NU Ht Ht'. induction ts as [|t0 l IH]; intros NU Ht Ht'; [destruct Ht|]. cbn [flat_map] in NU. apply CanonProofs.nodup_app in NU. destruct NU as (N1 & N2 & N3).
      destruct Ht as [->|Ht], Ht' as [->|Ht']; auto; exfalso.
      - apply (N3 (nth p (g_u t) 0)); [now apply nth_In|]. rewrite Eq. apply in_flat_map. exists t'. split; [exact Ht'|now apply nth_In].
      - apply (N3 (nth p' (g_u t') 0)); [now apply nth_In|]. rewrite <- Eq. apply in_flat_map. exists t. split; [exact Ht|now apply nth_In]. }
    subst t'. split; [reflexivity|]. assert (Nt : NoDup (g_u t)).
    { clear Ht' Eq. revert NU Ht. induction ts as [|t0 l IH]; intros NU Ht; [destruct Ht|]. cbn [flat_map] in NU. apply CanonProofs.nodup_app in NU. destruct Ht as [->|Ht]; [tauto|apply IH; tauto]. }
    exact (proj1 (NoDup_nth (g_u t) 0) Nt p p' Hp Hp' Eq). }
  assert (Nts : forall t, In t ts -> (0 < g_core t)%nat -> exists a b, ts = a ++ t :: b /\ ~ In t a /\ ~ In t b).
  { destruct Wi as (NU & _). unfold ups in NU. intros t Ht Hc. destruct (in_split _ _ Ht) as (a & b & Eq). exists a, b. split; [exact Eq|].
    assert (Hp : In (nth 0 (g_u t) 0) (g_u t)) by (apply nth_In; destruct (Sh t Ht) as (_ & _ & Lc & _); lia). rewrite Eq, flat_map_app in NU. cbn [flat_map] in NU. apply CanonProofs.nodup_app in NU. destruct NU as (_ & NU & N3). apply CanonProofs.nodup_app in NU. destruct NU as (_ & _ & N4).
    split; intros H.
    - apply (N3 (nth 0 (g_u t) 0)); [apply in_flat_map; exists t; auto|apply in_or_app; now left].
    - apply (N4 (nth 0 (g_u t) 0)); [exact Hp|apply in_flat_map; exists t; auto]. }
  assert (Eig : forall t p a, In t ts -> (p < g_core t)%nat -> (a < length (initial_indices R ts))%nat ->
        bsum (seq 0 (length (initial_indices R ts))) (fun b => dm a b *' phi (nth p (g_u t) 0) b) = nth p (g_occ t) (r0 R) *' phi (nth p (g_u t) 0) a).
  { intros t p a Ht Hp Ha. destruct (Cu t p Ht Hp) as [C1 C2]. rewrite (Act _ a C1 C2 Ha). unfold core_sum.
    destruct (Nts t Ht ltac:(lia)) as (l1 & l2 & El & N1 & N2).
    assert (Z : forall l, incl l ts -> ~ In t l -> bsum l (fun t0 => bsum (seq 0 (g_core t0)) (fun p0 => nth p0 (g_occ t0) (r0 R) *' phi (nth p0 (g_u t0) 0) a *' (if nth p0 (g_u t0) 0 =? nth p (g_u t) 0 then r1 R else r0 R))) = r0 R).
    { intros l Hl Nl. apply bsum_zero. intros t' Ht'. apply bsum_zero. intros p' Hp'. apply in_seq in Hp'. destruct (Z.eqb_spec (nth p' (g_u t') 0) (nth p (g_u t) 0)) as [Eq|_]; [|ring]. exfalso. apply Nl.
      destruct (Sh t Ht) as (_ & _ & L1 & _). destruct (Sh t' (Hl t' Ht')) as (_ & _ & L2 & _). destruct (Uq t' t p' p (Hl t' Ht') Ht ltac:(lia) ltac:(lia) Eq) as [<- _]. exact Ht'. }
    rewrite El at 1. rewrite bsum_app, bsum_cons. rewrite (Z l1), (Z l2); auto; [|intros y Hy; rewrite El; apply in_or_app; right; now right|intros y Hy; rewrite El; apply in_or_app; now left].
    rewrite (bsum_single R _ (seq 0 (g_core t)) _ p (seq_NoDup _ _) ltac:(apply in_seq; lia)); [rewrite Z.eqb_refl; ring|].
    intros p' Hp' Np. apply in_seq in Hp'. destruct (Z.eqb_spec (nth p' (g_u t) 0) (nth p (g_u t) 0)) as [Eq|_]; [|ring]. exfalso. destruct (Sh t Ht) as (_ & _ & L1 & _). destruct (Uq t t p' p Ht Ht ltac:(lia) ltac:(lia) Eq). congruence. }
  split; [exact Or|]. split; [exact Eig|]. split; [|split].
  - intros x a Hx Hx' Hn Ha. rewrite (Act x a Hx Hx' Ha). unfold core_sum. apply bsum_zero. intros t Ht. apply bsum_zero. intros p Hp. apply in_seq in Hp. destruct (Z.eqb_spec (nth p (g_u t) 0) x) as [Eq|_]; [|ring]. elim (Hn t p Ht ltac:(lia) Eq).
  - rewrite (bsum_ext R _ _ _ (fun a => core_sum ts (fun y o => o *' (phi y a *' phi y a)))).
    + unfold core_sum. rewrite bsum_swap. apply bsum_ext. intros t Ht. rewrite bsum_swap. apply bsum_ext. intros p Hp. apply in_seq in Hp. rewrite bsum_mull. destruct (Cu t p Ht ltac:(lia)) as [C1 C2]. rewrite (Or _ _ C1 C2 C1 C2), Z.eqb_refl. ring.
    + intros a Ha. apply in_seq in Ha. rewrite (D a a ltac:(lia) ltac:(lia)). unfold occsum, core_sum. apply bsum_ext. intros t _. apply bsum_ext. intros p _. ring.
  - intros h Hh a c Ha Hc. rewrite (D a c Ha Hc). unfold occsum. rewrite <- bsum_mull.
    rewrite (bsum_ext R _ _ _ (fun b => core_sum ts (fun y o => o *' phi y c *' (dm a b *' phi y b)))).
    + unfold core_sum. rewrite bsum_swap. apply bsum_ext. intros t Ht. rewrite bsum_swap. rewrite <- bsum_mull. apply bsum_ext. intros p Hp. apply in_seq in Hp. rewrite bsum_mull, (Eig t p a Ht ltac:(lia) Ha).
      transitivity (nth p (g_occ t) (r0 R) *' nth p (g_occ t) (r0 R) *' phi (nth p (g_u t) 0) a *' phi (nth p (g_u t) 0) c); [ring|]. rewrite (Hh t p Ht ltac:(lia)). ring.
    + intros b Hb. apply in_seq in Hb. rewrite (D b c ltac:(lia) Hc). unfold occsum, core_sum. rewrite <- bsum_mull. apply bsum_ext. intros t _. rewrite <- bsum_mull. apply bsum_ext. intros p _. ring.
Qed.

(** ** C73 *)
Notation mat := (nat -> nat -> R). Notation ten := (nat -> nat -> nat -> nat -> R).
Variable half : R.
Hypothesis Hhalf : half +' half = r1 R.
Notation hlf := (fun x => rmul R x half). Notation qtr := (fun x => rmul R x (half *' half)).
Lemma sum4_swap : forall n (f : ten), sum4 R n (fun i j k l => f i k l j) = sum4 R n f.
Proof.
  intros n f. unfold sum4, sum2. apply bsum_ext. intros i _.
  (* sum over j k l of f i k l j *)
  transitivity (bsum (seq 0 n) (fun k => bsum (seq 0 n) (fun j => bsum (seq 0 n) (fun l => f i k l j)))); [apply bsum_swap|].
  apply bsum_ext. intros k _. apply bsum_swap.
Qed.
Lemma sum4_lin : forall n (f g : ten) (c : R), sum4 R n (fun i j k l => f i j k l +' c *' g i j k l) = sum4 R n f +' c *' sum4 R n g.
Proof.
  intros n f g c. unfold sum4, sum2. rewrite <- bsum_mull, <- bsum_add. apply bsum_ext. intros i _. rewrite <- bsum_mull, <- bsum_add. apply bsum_ext. intros j _.
  rewrite <- bsum_mull, <- bsum_add. apply bsum_ext. intros k _. rewrite <- bsum_mull, <- bsum_add. reflexivity.
Qed.
Lemma sum4_ext : forall n (f g : ten), (forall i j k l, f i j k l = g i j k l) -> sum4 R n f = sum4 R n g.
Proof. intros n f g H. unfold sum4, sum2. apply bsum_ext; intros i _. apply bsum_ext; intros j _. apply bsum_ext; intros k _. apply bsum_ext; intros l _. apply H. Qed.
Lemma sum4_zero : forall n, sum4 R n (fun _ _ _ _ => r0 R) = r0 R.
Proof. intros n. unfold sum4, sum2. apply bsum_zero; intros i _. apply bsum_zero; intros j _. apply bsum_zero; intros k _. apply bsum_zero; intros l _. reflexivity. Qed.
Lemma exch : forall n (d : mat) (g : ten), sum4 R n (fun i j k l => d i j *' d k l *' g i k l j) = sum4 R n (fun i j k l => d i l *' d j k *' g i j k l).
Proof. intros n d g. exact (sum4_swap n (fun i j k l => d i l *' d j k *' g i j k l)). Qed.

Theorem c73_rhf : forall n h g d, rhf_energy R hlf qtr n h (Some g) d (Some (rhf_rdm2 R hlf d)) = rhf_energy R hlf qtr n h (Some g) d None.
Proof.
  intros n h g d. unfold rhf_energy. rewrite (exch n d g).
  rewrite (sum4_ext n (fun i j k l => rmul R (rhf_rdm2 R hlf d i j k l) (g i j k l)) (fun i j k l => d i j *' d k l *' g i j k l +' ropp R half *' (d i l *' d j k *' g i j k l))).
  - rewrite sum4_lin. unfold sub. cbv beta. ring.
  - intros. unfold rhf_rdm2, sub. cbv beta. ring.
Qed.
Lemma ghf_contr : forall n (d : mat) (g : ten), sum4 R n (fun i j k l => rmul R (ghf_rdm2 R d i j k l) (g i j k l)) = sum4 R n (fun i j k l => d i j *' d k l *' g i j k l) +' ropp R (r1 R) *' sum4 R n (fun i j k l => d i l *' d j k *' g i j k l).
Proof.
  intros n d g. rewrite <- sum4_lin. apply sum4_ext. intros. unfold ghf_rdm2, sub. ring.
Qed.
Theorem c73_uhf : forall n h g d, uhf_energy R hlf n h (Some g) d (Some (uhf_rdm2 R d)) = uhf_energy R hlf n h (Some g) d None.
Proof.
  intros n h [[g0 g1] g2] d. unfold uhf_energy, uhf_rdm2. rewrite (exch n (fst d) g0), (exch n (snd d) g2), (ghf_contr n (fst d) g0), (ghf_contr n (snd d) g2). unfold sub. cbv beta. ring.
Qed.
(* both spins alike: the energy of the doubly occupied network *)
Theorem c73_spins : forall n h g d d1, (forall i j, d1 i j = d i j +' d i j) ->
  uhf_energy R hlf n (h, h) (option_map (fun g => (g, g, g)) g) (d, d) None = rhf_energy R hlf qtr n h g d1 None.
Proof.
  intros n h g d d1 Hd. unfold uhf_energy, rhf_energy. cbn [fst snd].
  assert (E1 : sum2 R n (fun i j => rmul R (d1 i j) (h i j)) = sum2 R n (fun i j => rmul R (d i j) (h i j)) +' sum2 R n (fun i j => rmul R (d i j) (h i j))).
  { unfold sum2. rewrite <- bsum_add. apply bsum_ext. intros i _. rewrite <- bsum_add. apply bsum_ext. intros j _. rewrite Hd. ring. }
  rewrite E1. destruct g as [g|]; cbn [option_map]; [|reflexivity].
  assert (E4 : forall f : ten, sum4 R n (fun i j k l => d1 i j *' d1 k l *' f i j k l) = (r1 R +' r1 R +' r1 R +' r1 R) *' sum4 R n (fun i j k l => d i j *' d k l *' f i j k l)).
  { intros f. transitivity (sum4 R n (fun i j k l => r0 R +' (r1 R +' r1 R +' r1 R +' r1 R) *' (d i j *' d k l *' f i j k l))); [apply sum4_ext; intros; rewrite !Hd; ring|].
    rewrite (sum4_lin n (fun _ _ _ _ => r0 R)). rewrite (sum4_zero n). ring. }
  rewrite (E4 g), (E4 (fun i j k l => g i k l j)). unfold sub. cbv beta.
  set (e := sum2 R n _). set (J := sum4 R n _). set (K := sum4 R n _).
  transitivity (e +' e +' (half +' half) *' J +' J +' ropp R ((half +' half) *' K)); [ring|].
  transitivity (e +' e +' (half +' half) *' (J +' J) +' ropp R ((half +' half) *' (half +' half) *' K)); [|ring]. rewrite Hhalf. ring.
Qed.
(* contracting one particle of the two-particle density matrix gives (number of particles - 1) times the density matrix, when
   the density matrix is that of a determinant: symmetric with dm . dm = dm (GHF), dm . dm = 2 dm (RHF) *)
Theorem c73_trace : forall n (d : mat) (h : R), (forall i j, (i < n)%nat -> (j < n)%nat -> d i j = d j i) ->
  (forall i j, (i < n)%nat -> (j < n)%nat -> bsum (seq 0 n) (fun k => d i k *' d k j) = h *' d i j) ->
  forall i j, (i < n)%nat -> (j < n)%nat ->
  bsum (seq 0 n) (fun k => ghf_rdm2 R d i j k k) = (bsum (seq 0 n) (fun k => d k k) +' ropp R h) *' d i j /\
  bsum (seq 0 n) (fun k => rhf_rdm2 R hlf d i j k k) = (bsum (seq 0 n) (fun k => d k k) +' ropp R (h *' half)) *' d i j.
Proof.
  intros n d h Sy Id i j Hi Hj.
  assert (X : bsum (seq 0 n) (fun k => d i k *' d j k) = h *' d i j) by (rewrite <- (Id i j Hi Hj); apply bsum_ext; intros k Hk; apply in_seq in Hk; rewrite (Sy j k) by lia; reflexivity).
  split.
  - transitivity (d i j *' bsum (seq 0 n) (fun k => d k k) +' ropp R (r1 R) *' bsum (seq 0 n) (fun k => d i k *' d j k)); [|rewrite X; ring].
    rewrite <- !bsum_mull, <- bsum_add. apply bsum_ext. intros k _. unfold ghf_rdm2, sub. ring.
  - transitivity (d i j *' bsum (seq 0 n) (fun k => d k k) +' ropp R half *' bsum (seq 0 n) (fun k => d i k *' d j k)); [|rewrite X; ring].
    rewrite <- !bsum_mull, <- bsum_add. apply bsum_ext. intros k _. unfold rhf_rdm2, sub. cbv beta. ring.
Qed.
(* what a GHF network returns differs from the energy of its own two-particle density matrix by a quarter of the exchange sum *)
Theorem c73_ghf : forall n h g d,
  rhf_energy R hlf qtr n h (Some g) d None = rhf_energy R hlf qtr n h (Some g) d (Some (ghf_rdm2 R d)) +' half *' half *' sum4 R n (fun i j k l => d i l *' d j k *' g i j k l).
Proof.
  intros n h g d. unfold rhf_energy. rewrite (exch n d g), (ghf_contr n d g). unfold sub. cbv beta.
  set (e := sum2 R n _). set (J := sum4 R n _). set (K := sum4 R n _).
  transitivity (e +' J *' half +' ropp R ((half +' half) *' half *' K) +' half *' half *' K); [ring|]. rewrite Hhalf. ring.
Qed.
End Spec.

(** *** Examples *)
Definition q (a : Z) (b : positive) : Qc := Q2Qc (a # b).
Definition rot345 (i j : nat) : Qc := match i, j with O, O => q 3 5 | O, _ => q 4 5 | _, O => q (-4) 5 | _, _ => q 3 5 end.
(* three sites; the second tensor of the list is the lower one: leg 4 goes from it to the first *)
Definition ex_top : gt Qc_ring := GT Qc_ring [5; 6] [4; 2] 2 rot345 [q 2 1; q 0 1].
Definition ex_low : gt Qc_ring := GT Qc_ring [3; 4] [0; 1] 1 rot345 [q 2 1].
Definition ex_net : list (gt Qc_ring) := [ex_top; ex_low].
Example ex_indices : initial_indices Qc_ring ex_net = [0; 1; 2] /\ terminal_indices Qc_ring ex_net = [3; 5; 6].
Proof. vm_compute. split; reflexivity. Qed.
Example ex_layers : option_map (map (map fst)) (get_layers Qc_ring ex_net) = Some [[1]; [0]]%nat.
Proof. vm_compute. reflexivity. Qed.
Example ex_rdm1 : option_map (fun r => (fst r, map (fun i => map (fun j => this (snd r i j)) (seq 0 3)) (seq 0 3))) (make_rdm1 Qc_ring ex_net)
  = Some (3%nat, [[738 # 625; -384 # 625; -96 # 125]; [-384 # 625; 962 # 625; -72 # 125]; [-96 # 125; -72 # 125; 32 # 25]])%Q.
Proof. vm_compute. reflexivity. Qed.
Lemma ex_wired : wired Qc_ring ex_net.
Proof.
  split; [|split].
  - cbn. repeat (constructor; [cbn; lia|]). constructor.
  - cbn. repeat (constructor; [cbn; lia|]). constructor.
  - exists (fun t => match g_d t with 0 :: _ => 0%nat | _ => 1%nat end).
    intros t t' x Ht Ht' Hu Hd. cbn in Ht, Ht'. destruct Ht as [<-|[<-|[]]], Ht' as [<-|[<-|[]]]; cbn in *; lia.
Qed.
Lemma ex_shaped : shaped Qc_ring ex_net.
Proof.
  intros t Ht. cbn in Ht. destruct Ht as [<-|[<-|[]]]; cbn [ex_top ex_low g_u g_d g_core g_occ length]; repeat split; try lia; intros p Hp; destruct p as [|[|p]]; try lia; cbn; lia.
Qed.
Lemma ex_orth : forall t, In t ex_net -> orthogonal Qc_ring t.
Proof.
  intros t Ht p p' Hp Hp'. cbn in Ht. destruct Ht as [<-|[<-|[]]]; cbn in Hp, Hp'; (destruct p as [|[|p]]; [| |lia]); (destruct p' as [|[|p']]; [| |lia]); apply Qc_is_canon; vm_compute; reflexivity.
Qed.
Example ex_trace : bsum (R := Qc_ring) (seq 0 3) (fun a => match make_rdm1 Qc_ring ex_net with Some (_, dm) => dm a a | None => q 0 1 end) = q 4 1.
Proof.
  destruct (c72_rdm1 Qc_ring ex_net ex_wired ex_shaped) as (dm & E & phi & _ & D). destruct (D _ eq_refl) as (_ & H). destruct (H ex_orth) as (_ & _ & _ & Tr & _). rewrite E.
  change (length (initial_indices Qc_ring ex_net)) with 3%nat in Tr. rewrite Tr. apply Qc_is_canon. vm_compute. reflexivity.
Qed.

(* tensors that feed each other: the loop of get_layers never ends *)
Definition loop_a : gt Qc_ring := GT Qc_ring [1; 2] [0; 3] 1 rot345 [q 0 1].
Definition loop_b : gt Qc_ring := GT Qc_ring [3; 5] [2; 4] 0 rot345 [].
Theorem c72_cycle_refuted : exists ts, NoDup (ups Qc_ring ts) /\ NoDup (downs Qc_ring ts) /\ shaped Qc_ring ts /\ forall n, layers_upto Qc_ring n ts = None.
Proof.
  exists [loop_a; loop_b]. split; [|split; [|split]].
  - cbn. repeat (constructor; [cbn; lia|]). constructor.
  - cbn. repeat (constructor; [cbn; lia|]). constructor.
  - intros t Ht. cbn in Ht. destruct Ht as [<-|[<-|[]]]; cbn [loop_a loop_b g_u g_d g_core g_occ length]; repeat split; try lia; intros p Hp; destruct p as [|p]; try lia; cbn; lia.
  - intros n. unfold layers_upto. apply stuck; [vm_compute; reflexivity|discriminate].
Qed.

(* one orbital, one particle: no interaction with itself; energy_tot of a GHF network without dm2 returns a quarter *)
Definition hq (x : Qc) : Qc := (x * q 1 2)%Qc. Definition qq (x : Qc) : Qc := (x * q 1 4)%Qc.
Theorem c73_ghf_refuted : exists n h g d, (forall i j, bsum (R := Qc_ring) (seq 0 n) (fun k => Qcmult (d i k) (d k j)) = d i j) /\
  rhf_energy Qc_ring hq qq n h (Some g) d (Some (ghf_rdm2 Qc_ring d)) = q 0 1 /\ rhf_energy Qc_ring hq qq n h (Some g) d None = q 1 4.
Proof.
  exists 1%nat, (fun _ _ => q 0 1), (fun _ _ _ _ => q 1 1), (fun _ _ => q 1 1). split; [intros i j|split]; apply Qc_is_canon; vm_compute; reflexivity.
Qed.
Example ex_half : Qcplus (q 1 2) (q 1 2) = r1 Qc_ring. Proof. apply Qc_is_canon. vm_compute. reflexivity. Qed.
Example ex_energy : let d := fun i j => match make_rdm1 Qc_ring ex_net with Some (_, dm) => dm i j | None => q 0 1 end in
  let h := fun i j => q (Z.of_nat (i * j)) 1 in let g := fun i j k l => q (Z.of_nat (i + 2 * j + 3 * k * l)) 1 in
  rhf_energy Qc_ring hq qq 3 h (Some g) d (Some (rhf_rdm2 Qc_ring hq d)) = rhf_energy Qc_ring hq qq 3 h (Some g) d None /\ rhf_energy Qc_ring hq qq 3 h (Some g) d None = q 380933 78125.
Proof. split; apply Qc_is_canon; vm_compute; reflexivity. Qed.

Print Assumptions c72_indices. Print Assumptions c72_layers. Print Assumptions c72_passes. Print Assumptions c72_rdm1. Print Assumptions c72_cycle_refuted.
Print Assumptions c73_rhf. Print Assumptions c73_uhf. Print Assumptions c73_spins. Print Assumptions c73_trace. Print Assumptions c73_ghf. Print Assumptions c73_ghf_refuted.
