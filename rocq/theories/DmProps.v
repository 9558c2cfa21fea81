(** C68: splitting a two-site state by its density matrix loses exactly the weight it reports, and no other choice loses less. *)
From Coq Require Import ZArith Bool List Lia Ring Sorted Permutation ZifyBool QArith Qcanon.
From Verif Require Import DictLib IndexLib RingLib OrdLib TruncModel TruncProofs TruncProps DmModel DmProofs.
Import ListNotations.
Local Open Scope nat_scope.

Section C68.
Variable K : ORing.
Add Ring KR : (rth K).
Notation "0'" := (r0 K). Notation "1'" := (r1 K).
Infix "+'" := (radd K) (at level 50, left associativity). Infix "*'" := (rmul K) (at level 40, left associativity).
Infix "-^" := (rsub K) (at level 50, left associativity).
Variable sqrtK : K -> K.
Variable svd : nat -> matrix K -> matrix K * list K * matrix K.
Variable pert : state K -> nat -> matrix K.
Variable one_over : nat -> K.
Variable N : nat.
Variables nr nc : nat -> nat.
Variable forward : bool.

(** ** Specification *)
(* the side of the bond that gets the isometry: rows (forward) or columns *)
Definition entry {X} (psi : nat -> nat -> nat -> X) (i a c : nat) : X := if forward then psi i a c else psi i c a.
Definition here (i : nat) : nat := if forward then nr i else nc i.
Definition there (i : nat) : nat := if forward then nc i else nr i.
(* the states with their weights; a single state has weight 1 *)
Definition weighted (x : input K) (weights : option (list K)) : list (K * state K) :=
  match x, weights with
  | Single _ psi, _ => [(1', psi)]
  | Several _ l, Some w => combine w l
  | Several _ l, None => map (fun psi => (one_over (length l), psi)) l
  end.
(* density matrix of sector i: sum over the states of weight times (real part of) psi* psi^T *)
Definition rho (ps : list (K * state K)) (i a b : nat) : K :=
  bsum ps (fun p => fst p *' bsum (seq 0 (there i)) (fun c => fst (entry (snd p) i a c) *' fst (entry (snd p) i b c) +' snd (entry (snd p) i a c) *' snd (entry (snd p) i b c))).
(* U s V is a singular value decomposition of the n times n matrix A *)
Definition is_svd (n : nat) (A : nat -> nat -> K) (x : (nat -> nat -> K) * list K * (nat -> nat -> K)) : Prop :=
  let '(U, s, V) := x in
  (forall a b, a < n -> b < n -> A a b = bsum (seq 0 (length s)) (fun j => U a j *' nth j s 0' *' V j b)) /\
  (forall j j', j < length s -> j' < length s -> bsum (seq 0 n) (fun a => U a j *' U a j') = if Nat.eqb j j' then 1' else 0') /\
  (forall j j', j < length s -> j' < length s -> bsum (seq 0 n) (fun a => V j a *' V j' a) = if Nat.eqb j j' then 1' else 0') /\
  (forall x, In x s -> ole 0' x).
(* squared length of z - y *)
Definition dist (z y : K * K) : K := (fst z -^ fst y) *' (fst z -^ fst y) +' (snd z -^ snd y) *' (snd z -^ snd y).
(* amplitude of the product of the two new tensors *)
Definition joined (iso : nat -> nat -> nat -> K) (dim : nat -> nat) (rest : nat -> nat -> nat -> K * K) (i a c : nat) : K * K :=
  (bsum (seq 0 (dim i)) (fun j => iso i a j *' fst (entry rest i j c)), bsum (seq 0 (dim i)) (fun j => iso i a j *' snd (entry rest i j c))).
(* weighted squared distance between the states and what replaces them *)
Definition loss (l : list ((K * state K) * (nat -> nat -> nat -> K * K))) : K :=
  bsum l (fun x => fst (fst x) *' bsum (seq 0 N) (fun i => bsum (seq 0 (here i)) (fun a => bsum (seq 0 (there i)) (fun c => dist (entry (snd (fst x)) i a c) (snd x i a c))))).
Definition lost (ps : list (K * state K)) (sp : split K) : K :=
  loss (combine ps (map (joined (sp_iso K sp) (sp_dim K sp)) (sp_rest K sp))).
(* orthonormal vectors e i 0 .. e i (d i - 1) in sector i, and the projection of a state on them *)
Definition orthonormal (e : nat -> nat -> nat -> K) (d : nat -> nat) : Prop :=
  forall i j j', i < N -> j < d i -> j' < d i -> bsum (seq 0 (here i)) (fun a => e i j a *' e i j' a) = if Nat.eqb j j' then 1' else 0'.
Definition projected (e : nat -> nat -> nat -> K) (d : nat -> nat) (psi : state K) (i a c : nat) : K * K :=
  (bsum (seq 0 (d i)) (fun j => e i j a *' bsum (seq 0 (here i)) (fun b => e i j b *' fst (entry psi i b c))),
   bsum (seq 0 (d i)) (fun j => e i j a *' bsum (seq 0 (here i)) (fun b => e i j b *' snd (entry psi i b c)))).
Definition bonds (d : nat -> nat) : nat := list_sum (map d (seq 0 N)).

(** ** the density matrix *)
Lemma dm_entry : forall psi i a b, dm_of K nr nc forward psi i a b =
  bsum (seq 0 (there i)) (fun c => fst (entry psi i a c) *' fst (entry psi i b c) +' snd (entry psi i a c) *' snd (entry psi i b c)).
Proof. intros. unfold dm_of, there, entry, re_prod. destruct forward; reflexivity. Qed.
Lemma noise_val : forall dm psi x i a b, add_dm_noise K pert dm psi x i a b = dm i a b +' x *' pert psi i a b.
Proof. intros. unfold add_dm_noise. destruct (oeqb_spec K x 0') as [->|]; [ring|reflexivity]. Qed.
Lemma sum_states : forall l dm i a b, fold_left (fun (dm : nat -> nat -> nat -> K) (p : state K * K) i a b => dm i a b +' snd p *' dm_of K nr nc forward (fst p) i a b) l dm i a b =
  dm i a b +' bsum l (fun p => snd p *' dm_of K nr nc forward (fst p) i a b).
Proof. induction l as [|p l IH]; intros; cbn [fold_left]; [rewrite bsum_nil; ring|]. rewrite IH, bsum_cons. ring. Qed.
Lemma sum_noise : forall noise l dm i a b, fold_left (fun dm (p : state K * K) => add_dm_noise K pert dm (fst p) (noise *' snd p)) l dm i a b =
  dm i a b +' bsum l (fun p => noise *' snd p *' pert (fst p) i a b).
Proof. intros noise. induction l as [|p l IH]; intros; cbn [fold_left]; [rewrite bsum_nil; ring|]. rewrite IH, bsum_cons, noise_val. ring. Qed.
Lemma combine_swap : forall (l : list (state K)) (w : list K) (f : state K * K -> K), bsum (combine l w) f = bsum (combine w l) (fun p => f (snd p, fst p)).
Proof. induction l as [|p l IH]; intros [|x w] f; try reflexivity. cbn [combine]. rewrite !bsum_cons, IH. reflexivity. Qed.
Lemma combine_repeat : forall (l : list (state K)) (c : K), combine (repeat c (length l)) l = map (fun psi => (c, psi)) l.
Proof. induction l as [|p l IH]; intros c; [reflexivity|]. cbn. now rewrite IH. Qed.
Lemma weights_spec : forall l w, combine (weights_of K one_over w (Several K l)) l = weighted (Several K l) w.
Proof. intros l [w|]; [reflexivity|]. cbn. apply combine_repeat. Qed.
Lemma density_val : forall x w noise dm, density K pert one_over nr nc forward x w noise = Some dm ->
  forall i a b, dm i a b = rho (weighted x w) i a b +' bsum (weighted x w) (fun p => noise *' fst p *' pert (snd p) i a b).
Proof.
  intros [psi|l] w noise dm E i a b.
  - cbn in E. injection E as <-. rewrite noise_val, dm_entry. unfold rho. cbn [weighted]. rewrite !bsum_cons, !bsum_nil. cbn [fst snd]. ring.
  - unfold rho. rewrite <- weights_spec. unfold density in E. destruct l as [|psi l]; [discriminate|]. destruct (weights_of K one_over w (Several K (psi :: l))) as [|w0 w']; [discriminate|]. injection E as <-.
    rewrite sum_noise, noise_val, sum_states, !(combine_swap l w'). cbn [combine]. rewrite !bsum_cons. cbn [fst snd]. rewrite dm_entry.
    rewrite (bsum_ext K _ (combine w' l) (fun p => fst p *' dm_of K nr nc forward (snd p) i a b) _ (fun p _ => f_equal (rmul K (fst p)) (dm_entry (snd p) i a b))). ring.
Qed.

(** ** Gram vectors *)
Notation ip := (ip K nat).
Definition vectors (ps : list (K * state K)) (i : nat) : list (K * (nat -> K)) :=
  flat_map (fun p => flat_map (fun c => [(fst p, fun a => fst (entry (snd p) i a c)); (fst p, fun a => snd (entry (snd p) i a c))]) (seq 0 (there i))) ps.
Lemma vectors_sum : forall ps i (F : K -> (nat -> K) -> K), bsum (vectors ps i) (fun g => F (fst g) (snd g)) =
  bsum ps (fun p => bsum (seq 0 (there i)) (fun c => F (fst p) (fun a => fst (entry (snd p) i a c)) +' F (fst p) (fun a => snd (entry (snd p) i a c)))).
Proof.
  intros. unfold vectors. rewrite bsum_flat_map. apply bsum_ext. intros p _. rewrite bsum_flat_map. apply bsum_ext. intros c _. rewrite !bsum_cons, bsum_nil. cbn [fst snd]. rewrite (Radd_comm (rth K) _ 0'), (Radd_0_l (rth K)). reflexivity.
Qed.
Lemma vectors_gram : forall ps i a b, gram K nat (vectors ps i) a b = rho ps i a b.
Proof.
  intros. unfold gram. rewrite (vectors_sum ps i (fun w x => w *' (x a *' x b))). unfold rho. apply bsum_ext. intros p _. rewrite <- bsum_mull. apply bsum_ext. intros c _. ring.
Qed.
Lemma vectors_pos : forall ps i g, (forall p, In p ps -> ole 0' (fst p)) -> In g (vectors ps i) -> ole 0' (fst g).
Proof.
  intros ps i g H I. unfold vectors in I. apply in_flat_map in I. destruct I as (p & Ip & I). apply in_flat_map in I. destruct I as (c & _ & [<-|[<-|[]]]); now apply H.
Qed.
Lemma vectors_lost : forall ps i l e (P : state K -> nat -> nat -> nat -> K * K),
  (forall p a c, In p ps -> P (snd p) i a c = (proj K nat (seq 0 (here i)) l e (fun a => fst (entry (snd p) i a c)) a, proj K nat (seq 0 (here i)) l e (fun a => snd (entry (snd p) i a c)) a)) ->
  lost_weight K nat (seq 0 (here i)) (vectors ps i) l e =
  bsum ps (fun p => fst p *' bsum (seq 0 (here i)) (fun a => bsum (seq 0 (there i)) (fun c => dist (entry (snd p) i a c) (P (snd p) i a c)))).
Proof.
  intros ps i l e P H. unfold lost_weight.
  rewrite (vectors_sum ps i (fun w x => w *' ip (seq 0 (here i)) (fun p => x p -^ proj K nat (seq 0 (here i)) l e x p) (fun p => x p -^ proj K nat (seq 0 (here i)) l e x p))).
  apply bsum_ext. intros p Ip. rewrite bsum_swap, <- bsum_mull. apply bsum_ext. intros c _. unfold DmProofs.ip. transitivity (fst p *' (bsum (seq 0 (here i)) (fun a => (fst (entry (snd p) i a c) -^ proj K nat (seq 0 (here i)) l e (fun a => fst (entry (snd p) i a c)) a) *' (fst (entry (snd p) i a c) -^ proj K nat (seq 0 (here i)) l e (fun a => fst (entry (snd p) i a c)) a)) +'
    bsum (seq 0 (here i)) (fun a => (snd (entry (snd p) i a c) -^ proj K nat (seq 0 (here i)) l e (fun a => snd (entry (snd p) i a c)) a) *' (snd (entry (snd p) i a c) -^ proj K nat (seq 0 (here i)) l e (fun a => snd (entry (snd p) i a c)) a)))); [ring|].
  f_equal. rewrite <- bsum_add. apply bsum_ext. intros a _. unfold dist. rewrite (H p a c Ip). cbn [fst snd]. reflexivity.
Qed.

(** ** the kept positions *)
Lemma kept_spec : forall gs (s : list (list K)), StronglySorted Z.lt (map fst gs) -> (forall i g, In (i, g) gs -> g <> [] /\ StronglySorted Z.lt g /\ forall j, In j g -> valid s i j) ->
  forall i, NoDup (kept_in gs i) /\ incl (kept_in gs i) (seq 0 (length (nth i s []))) /\ forall j, In j (kept_in gs i) <-> kept gs (Z.of_nat i) (Z.of_nat j).
Proof.
  intros gs s So F i. assert (M : forall j, In j (kept_in gs i) <-> kept gs (Z.of_nat i) (Z.of_nat j)).
  { intros j. unfold kept_in, kept. rewrite in_flat_map. split.
    - intros ([k g] & Ig & Ij). cbn in Ij. destruct (Z.eqb_spec k (Z.of_nat i)) as [->|]; [|destruct Ij]. apply in_map_iff in Ij. destruct Ij as (z & <- & Iz). exists g. split; [exact Ig|]. destruct (F _ _ Ig) as (_ & _ & V). destruct (V z Iz) as [_ [? _]]. now rewrite Z2Nat.id.
    - intros (g & Ig & Ij). exists (Z.of_nat i, g). split; [exact Ig|]. cbn. rewrite Z.eqb_refl. apply in_map_iff. exists (Z.of_nat j). split; [now rewrite Nat2Z.id|exact Ij]. }
  split; [|split; [|exact M]].
  - clear M. unfold kept_in. induction gs as [|[k g] gs IH]; [constructor|]. cbn [flat_map]. cbn [map] in So. inversion So as [|? ? S1 S2]; subst.
    assert (IH' := IH S1 (fun i g I => F i g (or_intror I))). cbn [fst snd]. destruct (Z.eqb_spec k (Z.of_nat i)) as [->|]; [|exact IH'].
    assert (E : flat_map (fun g0 : Z * list Z => if Z.eqb (fst g0) (Z.of_nat i) then map Z.to_nat (snd g0) else []) gs = []).
    { clear - S2. induction gs as [|[k g] gs IH]; [reflexivity|]. cbn [flat_map map] in *. inversion S2 as [|? ? A B]; subst. cbn [fst snd] in *. destruct (Z.eqb_spec k (Z.of_nat i)) as [->|]; [lia|]. now apply IH. }
    rewrite E, app_nil_r. destruct (F (Z.of_nat i) g (or_introl eq_refl)) as (_ & Sg & V). clear - Sg V. induction g as [|z g IH]; [constructor|]. cbn [map]. inversion Sg as [|? ? A B]; subst. constructor.
    + intros I. apply in_map_iff in I. destruct I as (y & E & Iy). rewrite Forall_forall in B. specialize (B y Iy). destruct (V z (or_introl eq_refl)) as [_ [? _]]. destruct (V y (or_intror Iy)) as [_ [? _]]. lia.
    + apply IH; [exact A|]. intros j Ij. apply V. now right.
  - intros j Ij. apply M in Ij. destruct Ij as (g & Ig & Ij). destruct (F _ _ Ig) as (_ & _ & V). destruct (V _ Ij) as [_ [_ H]]. rewrite Nat2Z.id in H. apply in_seq. lia.
Qed.
Lemma bsum_nth : forall (l : list nat) (f : nat -> K), bsum (seq 0 (length l)) (fun j => f (nth j l 0)) = bsum l f.
Proof.
  induction l as [|x l IH]; intros f; [reflexivity|]. cbn [length seq]. rewrite !bsum_cons. cbn [nth]. f_equal. rewrite <- seq_shift, bsum_map. now rewrite <- (IH f).
Qed.
Lemma total_kept : forall (s : list (list K)) gs, (forall i, NoDup (kept_in gs i) /\ incl (kept_in gs i) (seq 0 (length (nth i s []))) /\ forall j, In j (kept_in gs i) <-> kept gs (Z.of_nat i) (Z.of_nat j)) ->
  total s (fun i j => negb (keptB gs i j)) (wt K true) = bsum (seq 0 (length s)) (fun i => bsum (seq 0 (length (nth i s []))) (fun j => nth j (nth i s []) 0') -^ bsum (kept_in gs i) (fun j => nth j (nth i s []) 0')).
Proof.
  intros s gs H. unfold total, zrange. rewrite bsum_map, Nat2Z.id. apply bsum_ext. intros i _. destruct (H i) as (Nd & Inc & M). rewrite bsum_map, !Nat2Z.id.
  assert (E : bsum (kept_in gs i) (fun j => nth j (nth i s []) 0') = bsum (seq 0 (length (nth i s []))) (fun j => if keptB gs (Z.of_nat i) (Z.of_nat j) then nth j (nth i s []) 0' else 0')).
  { rewrite <- bsum_filter. apply bsum_perm. apply NoDup_Permutation; [exact Nd|apply NoDup_filter, seq_NoDup|]. intros j. rewrite filter_In. rewrite M. unfold kept. split.
    - intros (g & Ig & Ij). split; [apply Inc, M; now exists g|]. unfold keptB. apply existsb_exists. exists (Z.of_nat i, g). split; [exact Ig|]. cbn. rewrite Z.eqb_refl. apply existsb_exists. exists (Z.of_nat j). split; [exact Ij|apply Z.eqb_refl].
    - intros [_ Ke]. unfold keptB in Ke. apply existsb_exists in Ke. destruct Ke as ([k g] & Ig & Ke). cbn in Ke. apply andb_true_iff in Ke. destruct Ke as [K1 K2]. apply Z.eqb_eq in K1. subst k. apply existsb_exists in K2. destruct K2 as (z & Iz & Ez). apply Z.eqb_eq in Ez. subst z. now exists g. }
  rewrite E, <- bsum_sub. apply bsum_ext. intros j _. unfold wt, val. rewrite !Nat2Z.id. destruct (keptB gs (Z.of_nat i) (Z.of_nat j)); cbn; ring.
Qed.

(** ** one run *)
Lemma combine_states : forall x w (f : state K -> nat -> nat -> nat -> K * K) (F : (K * state K) * (nat -> nat -> nat -> K * K) -> K),
  bsum (combine (weighted x w) (map f (states_of K x))) F = bsum (weighted x w) (fun p => F (p, f (snd p))).
Proof.
  intros [psi|l] w f F; [reflexivity|]. destruct w as [w|]; cbn [weighted states_of].
  - revert w. induction l as [|psi l IH]; intros [|c w]; try reflexivity. cbn [combine map]. rewrite !bsum_cons, IH. reflexivity.
  - generalize (one_over (length l)). intros c. induction l as [|psi l IH]; [reflexivity|]. cbn [combine map]. rewrite !bsum_cons, IH. reflexivity.
Qed.
(* the matrix that is decomposed *)
Definition full_rho (ps : list (K * state K)) (noise : K) (i a b : nat) : K := rho ps i a b +' bsum ps (fun p => noise *' fst p *' pert (snd p) i a b).
Definition good_svd (ps : list (K * state K)) (noise : K) : Prop :=
  forall i A, i < N -> (forall a b, a < here i -> b < here i -> A a b = full_rho ps noise i a b) -> is_svd (here i) A (svd (here i) A).

Section Run.
Variables (x : input K) (weights : option (list K)) (noise : K) (bond_dim : Z) (cutoff : K) (sp : split K).
Notation ps := (weighted x weights).
Hypothesis run : decomp_two_site K sqrtK svd pert one_over N nr nc x forward noise bond_dim weights cutoff = Some sp.
Hypothesis Wpos : forall p, In p ps -> ole 0' (fst p).
Hypothesis Svd : good_svd ps noise.

Definition extra (Ng : nat -> list (K * (nat -> K))) : Prop := forall i, i < N ->
  (forall g, In g (Ng i) -> ole 0' (fst g)) /\ forall a b, a < here i -> b < here i -> bsum ps (fun p => noise *' fst p *' pert (snd p) i a b) = gram K nat (Ng i) a b.

Lemma core : exists (sv : nat -> list K) (E u : nat -> nat -> nat -> K) (kp : nat -> list nat),
  (forall i, i < N -> ortho K nat (seq 0 (here i)) (seq 0 (length (sv i))) (u i)) /\
  sp_error K sp = bsum (seq 0 N) (fun i => bsum (seq 0 (length (sv i))) (fun j => nth j (sv i) 0') -^ bsum (kp i) (fun j => nth j (sv i) 0')) /\
  (forall i, sp_dim K sp i = length (kp i)) /\ (forall i a j, sp_iso K sp i a j = E i (nth j (kp i) 0) a) /\
  (forall i, i < N -> NoDup (kp i) /\ incl (kp i) (seq 0 (length (sv i)))) /\
  (forall i j i' j', i < N -> i' < N -> In j (kp i) -> j' < length (sv i') -> ~ In j' (kp i') -> ole (nth j' (sv i') 0') (nth j (sv i) 0')) /\
  (forall i, i < N -> ortho K nat (seq 0 (here i)) (seq 0 (length (sv i))) (E i)) /\ (forall i, i < N -> forall j, In j (seq 0 (length (sv i))) -> ole 0' (nth j (sv i) 0')) /\
  ((0 <= bond_dim)%Z -> (Z.of_nat (bonds (fun i => length (kp i))) <= bond_dim)%Z) /\
  lost ps sp = bsum (seq 0 N) (fun i => lost_weight K nat (seq 0 (here i)) (vectors ps i) (kp i) (E i)) /\
  forall Ng, extra Ng -> forall i, i < N -> forall G, G = vectors ps i ++ Ng i ->
    lost_weight K nat (seq 0 (here i)) G (kp i) (E i) = bsum (seq 0 (length (sv i))) (fun j => nth j (sv i) 0') -^ bsum (kp i) (fun j => nth j (sv i) 0') /\
    forall l e, NoDup l -> ortho K nat (seq 0 (here i)) l e ->
      lost_weight K nat (seq 0 (here i)) G l e = bsum (seq 0 (length (sv i))) (fun j => nth j (sv i) 0') -^ bsum (seq 0 (length (sv i))) (fun j => nth j (sv i) 0' *' coef K nat (seq 0 (here i)) (u i) l e j).
Proof.
  unfold decomp_two_site in run. destruct (density K pert one_over nr nc forward x weights noise) as [dm|] eqn:Ed; [|discriminate].
  assert (Dm := density_val x weights noise dm Ed). cbv zeta in run.
  pose (lsr := fun i => svd (size nr nc forward i) (dm i)). pose (s := map (fun i => snd (fst (lsr i))) (seq 0 N)).
  destruct (truncate_svd K sqrtK true bond_dim cutoff 0' s) as [gs err] eqn:Et. unfold s, lsr in Et. rewrite Et in run. fold lsr in Et. change (truncate_svd K sqrtK true bond_dim cutoff 0' s = (gs, err)) in Et. injection run as <-. cbn [sp_error sp_dim sp_iso sp_rest].
  destruct (c24_form K sqrtK true bond_dim cutoff 0' s gs err Et) as [F1 F2]. assert (Ks := kept_spec gs s F1 F2).
  assert (Ls : length s = N) by (unfold s; now rewrite map_length, seq_length).
  assert (Ns : forall i, i < N -> nth i s [] = snd (fst (lsr i))).
  { intros i Hi. unfold s. rewrite (nth_indep _ [] (snd (fst (lsr 0)))) by (rewrite map_length, seq_length; exact Hi). rewrite (map_nth (fun i => snd (fst (lsr i)))), seq_nth by exact Hi. reflexivity. }
  set (sv := fun i => nth i s []). set (E := fun i p a => if forward then fst (fst (lsr i)) a p else snd (lsr i) p a).
  assert (SV : forall i, i < N -> is_svd (here i) (dm i) (fst (fst (lsr i)), sv i, snd (lsr i))).
  { intros i Hi. assert (X := Svd i (dm i) Hi (fun a b _ _ => Dm i a b)). unfold sv. rewrite (Ns i Hi). unfold lsr. change (size nr nc forward i) with (here i). destruct (svd (here i) (dm i)) as [[U q] V]. exact X. }
  exists sv, E, (fun i j a => fst (fst (lsr i)) a j), (kept_in gs). split; [intros i Hi j j' Ij Ij'; apply in_seq in Ij, Ij'; destruct (SV i Hi) as (_ & A & _); apply A; lia|]. split; [|split; [|split; [|split; [|split; [|split; [|split; [|split; [|split] ] ] ] ] ] ] ].
  - rewrite (c24_error K sqrtK true bond_dim cutoff 0' s gs err Et), (total_kept s gs Ks), Ls. reflexivity.
  - reflexivity.
  - intros i a j. unfold E. destruct forward; reflexivity.
  - intros i Hi. destruct (Ks i) as (A & B & _). now split.
  - intros i j i' j' Hi Hi' Ij Hj' Nj'. assert (X := c24_largest_kept K sqrtK true bond_dim cutoff 0' s gs err Et (Z.of_nat i) (Z.of_nat j) (Z.of_nat i') (Z.of_nat j')). unfold val in X. rewrite !Nat2Z.id in X. apply X.
    + now apply (Ks i).
    + unfold valid. rewrite Ls, Nat2Z.id. unfold sv in Hj'. lia.
    + intros C. apply Nj'. now apply (Ks i').
  - intros i Hi j j' Ij Ij'. apply in_seq in Ij, Ij'. destruct (SV i Hi) as (_ & A & B & _). unfold E, DmProofs.ip. destruct forward; [apply A|apply B]; lia.
  - intros i Hi j Ij. apply in_seq in Ij. destruct (SV i Hi) as (_ & _ & _ & P). apply P, nth_In. lia.
  - intros Hb. assert (X := c24_bond_limit K sqrtK true bond_dim cutoff 0' s gs err Et Hb). enough (Z.of_nat (bonds (fun i => length (kept_in gs i))) = number_kept gs)%Z by lia.
    assert (Hg : forall i g, In (i, g) gs -> (0 <= i < Z.of_nat N)%Z). { intros i g I. destruct (F2 i g I) as (Ne & _ & V). destruct g as [|z g]; [congruence|]. destruct (V z (or_introl eq_refl)) as [? _]. lia. }
    clear - Hg. unfold bonds, kept_in. induction gs as [|[k g] gs IH].
    + cbn. clear. induction (seq 0 N) as [|y l IH]; [reflexivity|]. cbn. exact IH.
    + unfold number_kept in *. cbn [map zsum fold_right]. cbn [flat_map fst snd].
      assert (IH' := IH (fun i g I => Hg i g (or_intror I))). assert (Hk := Hg k g (or_introl eq_refl)).
      assert (Sp : forall l, NoDup l -> Z.of_nat (list_sum (map (fun i => length ((if Z.eqb k (Z.of_nat i) then map Z.to_nat g else []) ++ flat_map (fun g0 => if Z.eqb (fst g0) (Z.of_nat i) then map Z.to_nat (snd g0) else []) gs)) l)) =
        ((if existsb (Nat.eqb (Z.to_nat k)) l then Z.of_nat (length g) else 0) + Z.of_nat (list_sum (map (fun i => length (flat_map (fun g0 => if Z.eqb (fst g0) (Z.of_nat i) then map Z.to_nat (snd g0) else []) gs)) l)))%Z).
      { induction l as [|y l IHl]; intros Nd; [reflexivity|]. inversion Nd; subst. cbn [map list_sum existsb]. rewrite app_length. specialize (IHl H2). unfold list_sum in *. cbn [fold_right].
        destruct (Nat.eqb_spec (Z.to_nat k) y) as [Ey|Ey].
        - destruct (Z.eqb_spec k (Z.of_nat y)) as [_|]; [|lia]. rewrite map_length. cbn [orb]. assert (X : existsb (Nat.eqb (Z.to_nat k)) l = false).
          { apply not_true_iff_false. intros X. apply existsb_exists in X. destruct X as (z & Iz & Ez). apply Nat.eqb_eq in Ez. congruence. }
          rewrite X in IHl. lia.
        - destruct (Z.eqb_spec k (Z.of_nat y)) as [|_]; [lia|]. cbn [orb length]. lia. }
      rewrite (Sp _ (seq_NoDup N 0)). assert (X : existsb (Nat.eqb (Z.to_nat k)) (seq 0 N) = true). { apply existsb_exists. exists (Z.to_nat k). split; [apply in_seq; lia|apply Nat.eqb_refl]. }
      rewrite X, IH'. reflexivity.
  - unfold lost, loss. cbn [sp_rest sp_iso sp_dim]. rewrite map_map. rewrite (combine_states x weights _ _). cbn [fst snd].
    transitivity (bsum ps (fun p => bsum (seq 0 N) (fun i => fst p *' bsum (seq 0 (here i)) (fun a => bsum (seq 0 (there i)) (fun c => dist (entry (snd p) i a c)
      (proj K nat (seq 0 (here i)) (kept_in gs i) (E i) (fun a => fst (entry (snd p) i a c)) a, proj K nat (seq 0 (here i)) (kept_in gs i) (E i) (fun a => snd (entry (snd p) i a c)) a)))))).
    + apply bsum_ext. intros p _. rewrite <- bsum_mull. apply bsum_ext. intros i _. f_equal. apply bsum_ext. intros a _. apply bsum_ext. intros c _. f_equal. unfold joined, proj. f_equal.
      * rewrite <- (bsum_nth (kept_in gs i) (fun j => E i j a *' ip (seq 0 (here i)) (E i j) (fun a0 => fst (entry (snd p) i a0 c)))). apply bsum_ext. intros j _. unfold E, entry, here, csum, cscale, DmProofs.ip. destruct forward; reflexivity.
      * rewrite <- (bsum_nth (kept_in gs i) (fun j => E i j a *' ip (seq 0 (here i)) (E i j) (fun a0 => snd (entry (snd p) i a0 c)))). apply bsum_ext. intros j _. unfold E, entry, here, csum, cscale, DmProofs.ip. destruct forward; reflexivity.
    + rewrite bsum_swap. apply bsum_ext. intros i _. symmetry. apply (vectors_lost ps i (kept_in gs i) (E i) (fun psi i a c => (proj K nat (seq 0 (here i)) (kept_in gs i) (E i) (fun a => fst (entry psi i a c)) a, proj K nat (seq 0 (here i)) (kept_in gs i) (E i) (fun a => snd (entry psi i a c)) a))). reflexivity.
  - intros Ng Ex i Hi G EG. destruct (SV i Hi) as (D & A & B & P). destruct (Ex i Hi) as [Np Ne]. destruct (Ks i) as (Nd & Inc & _).
    pose (u := fun j a => fst (fst (lsr i)) a j). pose (v := fun j a => snd (lsr i) j a).
    assert (Gp : forall g, In g G -> ole 0' (fst g)). { intros g I. rewrite EG in I. apply in_app_iff in I. destruct I as [I|I]; [exact (vectors_pos ps i g Wpos I)|now apply Np]. }
    assert (Ou : ortho K nat (seq 0 (here i)) (seq 0 (length (sv i))) u) by (intros j j' Ij Ij'; apply in_seq in Ij, Ij'; apply A; lia).
    assert (Ov : ortho K nat (seq 0 (here i)) (seq 0 (length (sv i))) v) by (intros j j' Ij Ij'; apply in_seq in Ij, Ij'; apply B; lia).
    assert (Sp : forall j, In j (seq 0 (length (sv i))) -> ole 0' (nth j (sv i) 0')) by (intros j Ij; apply in_seq in Ij; apply P, nth_In; lia).
    assert (De : forall p q, In p (seq 0 (here i)) -> In q (seq 0 (here i)) -> gram K nat G p q = bsum (seq 0 (length (sv i))) (fun j => u j p *' nth j (sv i) 0' *' v j q)).
    { intros p q Ip Iq. apply in_seq in Ip, Iq. unfold u, v. rewrite <- (D p q) by lia. rewrite (Dm i p q). rewrite EG. unfold gram. rewrite bsum_app. fold (gram K nat (vectors ps i) p q) (gram K nat (Ng i) p q). rewrite vectors_gram, (Ne p q) by lia. reflexivity. }
    split.
    + apply (lost_kept K nat (seq 0 (here i)) G Gp (seq 0 (length (sv i))) (seq_NoDup _ _) u v (fun j => nth j (sv i) 0') Ou Ov Sp De); [exact Nd|exact Inc|]. unfold E. destruct forward; [now left|now right].
    + intros l e Nl Oe. exact (lost_coef K nat (seq 0 (here i)) G Gp (seq 0 (length (sv i))) (seq_NoDup _ _) u v (fun j => nth j (sv i) 0') Ou Ov Sp De l e Nl Oe).
Qed.

(** ** C68: the new tensor on the side of the sweep has orthonormal bond states *)
Theorem c68_isometry : forall i j j', i < N -> j < sp_dim K sp i -> j' < sp_dim K sp i ->
  bsum (seq 0 (here i)) (fun a => sp_iso K sp i a j *' sp_iso K sp i a j') = if Nat.eqb j j' then 1' else 0'.
Proof.
  intros i j j' Hi Hj Hj'. destruct core as (sv & E & u & kp & _ & _ & Ed & Ei & Kp & _ & O & _). rewrite Ed in Hj, Hj'. destruct (Kp i Hi) as [Nd Inc].
  rewrite (bsum_ext K _ (seq 0 (here i)) _ (fun a => E i (nth j (kp i) 0) a *' E i (nth j' (kp i) 0) a)) by (intros; now rewrite !Ei).
  assert (X := O i Hi (nth j (kp i) 0) (nth j' (kp i) 0) (Inc _ (nth_In _ _ Hj)) (Inc _ (nth_In _ _ Hj'))). unfold DmProofs.ip in X. rewrite X.
  destruct (Nat.eqb_spec j j') as [->|D]; [now rewrite Nat.eqb_refl|]. destruct (Nat.eqb_spec (nth j (kp i) 0) (nth j' (kp i) 0)) as [F|]; [|reflexivity]. exfalso. apply D. exact (proj1 (NoDup_nth (kp i) 0) Nd j j' Hj Hj' F).
Qed.
(** ** C68: at most bond_dim bond states *)
Theorem c68_bond_dim : (0 <= bond_dim)%Z -> (Z.of_nat (bonds (sp_dim K sp)) <= bond_dim)%Z.
Proof.
  intros Hb. destruct core as (sv & E & u & kp & _ & _ & Ed & _ & _ & _ & _ & _ & B & _). specialize (B Hb). enough (bonds (sp_dim K sp) = bonds (fun i => length (kp i))) by lia.
  unfold bonds. f_equal. apply map_ext. intros i. apply Ed.
Qed.
(* sum of squares with non-negative weights *)
Definition gram_matrix (n : nat) (M : nat -> nat -> K) : Prop := exists l : list (K * (nat -> K)), (forall g, In g l -> ole 0' (fst g)) /\
  forall a b, a < n -> b < n -> M a b = bsum l (fun g => fst g *' (snd g a *' snd g b)).
Lemma extra_exists : ole 0' noise -> (forall p i, In p ps -> i < N -> gram_matrix (here i) (pert (snd p) i)) -> forall i, i < N -> exists Ng : list (K * (nat -> K)),
  (forall g, In g Ng -> ole 0' (fst g)) /\ forall a b, a < here i -> b < here i -> bsum ps (fun p => noise *' fst p *' pert (snd p) i a b) = gram K nat Ng a b.
Proof.
  intros Hn H i Hi. assert (W := Wpos). clear Svd run Wpos. induction ps as [|p l IH].
  - exists []. split; [intros g []|]. intros. reflexivity.
  - destruct IH as (Ng & P & E); [intros; apply H; [now right|assumption]|intros; apply W; now right|]. destruct (H p i (or_introl eq_refl) Hi) as (L & LP & LE).
    exists (map (fun g => (noise *' fst p *' fst g, snd g)) L ++ Ng). split.
    + intros g I. apply in_app_iff in I. destruct I as [I|I]; [|now apply P]. apply in_map_iff in I. destruct I as (g' & <- & I). cbn [fst]. apply oleb_mul; [apply oleb_mul; [exact Hn|apply W; now left]|now apply LP].
    + intros a b Ha Hb. rewrite bsum_cons, (E a b Ha Hb), (LE a b Ha Hb). unfold gram. rewrite bsum_app, bsum_map. f_equal. rewrite <- bsum_mull. apply bsum_ext. intros g _. cbn [fst snd]. ring.
Qed.
Lemma extra_all : forall P : nat -> list (K * (nat -> K)) -> Prop, (forall i, i < N -> exists l, P i l) -> exists f, forall i, i < N -> P i (f i).
Proof.
  intros P. clear. induction N as [|n IH]; intros H; [exists (fun _ => []); lia|]. destruct IH as (f & F); [intros; apply H; lia|]. destruct (H n) as (l & L); [lia|].
  exists (fun i => if Nat.eqb i n then l else f i). intros i Hi. destruct (Nat.eqb_spec i n) as [->|]; [exact L|]. apply F. lia.
Qed.
Lemma le_plus : forall a b : K, ole 0' b -> ole a (a +' b).
Proof. intros a b H. replace a with (a +' 0') at 1 by ring. now apply ole_add_l. Qed.
Lemma le_minus : forall a b c : K, ole b c -> ole (a -^ c) (a -^ b).
Proof. intros a b c H. apply (proj2 (ole_sub K _ _)). replace (rsub K (a -^ b) (a -^ c)) with (rsub K c b) by ring. now apply (proj1 (ole_sub K _ _)). Qed.
Lemma lost_app : forall pos (A B : list (K * (nat -> K))) l e, lost_weight K nat pos (A ++ B) l e = lost_weight K nat pos A l e +' lost_weight K nat pos B l e.
Proof. intros. apply bsum_app. Qed.
(** ** C68: with a perturbation that is a sum of squares, not more is lost than reported *)
Theorem c68_noise : ole 0' noise -> (forall p i, In p ps -> i < N -> gram_matrix (here i) (pert (snd p) i)) -> ole (lost ps sp) (sp_error K sp).
Proof.
  intros Hn H. destruct (extra_all _ (extra_exists Hn H)) as (Ng & Ex). destruct core as (sv & E & u & kp & _ & Ee & _ & _ & Kp & _ & _ & _ & _ & El & C). rewrite El, Ee. apply bsum_ole. intros i Ii. apply in_seq in Ii.
  destruct (C Ng Ex i ltac:(lia) _ eq_refl) as [X _]. rewrite <- X, lost_app. apply le_plus.
  apply bsum_ole0. intros g Ig. apply oleb_mul; [now apply (Ex i); [lia|]|apply ip_pos].
Qed.
(** ** C68: without noise the reported error is the weight lost *)
Theorem c68_loss : noise = 0' -> sp_error K sp = lost ps sp.
Proof.
  intros Hn. assert (Ex : extra (fun _ => [])). { intros i Hi. split; [intros g []|]. intros a b _ _. apply bsum_zero. intros p _. rewrite Hn. ring. }
  destruct core as (sv & E & u & kp & _ & Ee & _ & _ & Kp & _ & _ & _ & _ & El & C). rewrite El, Ee. apply bsum_ext. intros i Ii. apply in_seq in Ii.
  destruct (C _ Ex i ltac:(lia) _ eq_refl) as [X _]. now rewrite app_nil_r in X.
Qed.
(** ** C68: no orthonormal bond states of the same number lose less *)
Theorem c68_best : noise = 0' -> forall e d, orthonormal e d -> bonds d <= bonds (sp_dim K sp) ->
  ole (lost ps sp) (loss (map (fun p => (p, projected e d (snd p))) ps)).
Proof.
  intros Hn e d O Hd. rewrite <- (c68_loss Hn). assert (Ex : extra (fun _ => [])). { intros i Hi. split; [intros g []|]. intros a b _ _. apply bsum_zero. intros p _. rewrite Hn. ring. }
  destruct core as (sv & E & u & kp & Ou & Ee & Ed & _ & Kp & Lk & _ & Sp & _ & El & C).
  assert (Oe : forall i, i < N -> ortho K nat (seq 0 (here i)) (seq 0 (d i)) (e i)). { intros i Hi j j' Ij Ij'. apply in_seq in Ij, Ij'. apply O; lia. }
  assert (L : loss (map (fun p => (p, projected e d (snd p))) ps) = bsum (seq 0 N) (fun i => lost_weight K nat (seq 0 (here i)) (vectors ps i) (seq 0 (d i)) (e i))).
  { unfold loss. rewrite bsum_map. cbn [fst snd]. rewrite (bsum_ext K _ ps _ (fun p => bsum (seq 0 N) (fun i => fst p *' bsum (seq 0 (here i)) (fun a => bsum (seq 0 (there i)) (fun c => dist (entry (snd p) i a c) (projected e d (snd p) i a c)))))) by (intros; now rewrite bsum_mull).
    rewrite bsum_swap. apply bsum_ext. intros i _. symmetry. apply (vectors_lost ps i (seq 0 (d i)) (e i) (projected e d)). reflexivity. }
  rewrite L, Ee. clear L.
  rewrite (bsum_ext K _ (seq 0 N) (fun i => lost_weight K nat (seq 0 (here i)) (vectors ps i) (seq 0 (d i)) (e i)) (fun i => bsum (seq 0 (length (sv i))) (fun j => nth j (sv i) 0') -^ bsum (seq 0 (length (sv i))) (fun j => nth j (sv i) 0' *' coef K nat (seq 0 (here i)) (u i) (seq 0 (d i)) (e i) j))).
  2:{ intros i Ii. apply in_seq in Ii. destruct (C _ Ex i ltac:(lia) _ eq_refl) as [_ X]. rewrite app_nil_r in X. apply X; [apply seq_NoDup|apply Oe; lia]. }
  rewrite !bsum_sub. apply le_minus.
  (* all values of all sectors *)
  pose (all := flat_map (fun i => map (fun j => (i, j)) (seq 0 (length (sv i)))) (seq 0 N)). pose (keep := fun q : nat * nat => existsb (Nat.eqb (snd q)) (kp (fst q))).
  assert (Ia : forall q, In q all -> fst q < N /\ snd q < length (sv (fst q))). { intros q I. apply in_flat_map in I. destruct I as (i & Ii & I). apply in_map_iff in I. destruct I as (j & <- & Ij). apply in_seq in Ii, Ij. cbn. lia. }
  assert (Kk : forall i j, keep (i, j) = true <-> In j (kp i)). { intros i j. unfold keep. cbn. rewrite existsb_exists. split; [intros (z & Iz & Ez); apply Nat.eqb_eq in Ez; now subst|intros I; exists j; split; [exact I|apply Nat.eqb_refl] ]. }
  assert (Sk : forall F : nat * nat -> K, bsum (filter keep all) F = bsum (seq 0 N) (fun i => bsum (kp i) (fun j => F (i, j)))).
  { intros F. rewrite bsum_filter. unfold all. rewrite bsum_flat_map. apply bsum_ext. intros i Ii. apply in_seq in Ii. rewrite bsum_map, <- bsum_filter with (p := fun j => keep (i, j)). destruct (Kp i ltac:(lia)) as [Nd Inc]. apply bsum_perm. apply NoDup_Permutation; [apply NoDup_filter, seq_NoDup|exact Nd|]. intros j. rewrite filter_In, Kk. split; [tauto|]. intros I. split; [now apply Inc|exact I]. }
  assert (Sa : forall F : nat * nat -> K, bsum all F = bsum (seq 0 N) (fun i => bsum (seq 0 (length (sv i))) (fun j => F (i, j)))). { intros F. unfold all. rewrite bsum_flat_map. apply bsum_ext. intros i _. now rewrite bsum_map. }
  assert (Ga := Sa (fun q => nth (snd q) (sv (fst q)) 0' *' coef K nat (seq 0 (here (fst q))) (u (fst q)) (seq 0 (d (fst q))) (e (fst q)) (snd q))). assert (Gk := Sk (fun q => nth (snd q) (sv (fst q)) 0')). cbn [fst snd] in Ga, Gk. rewrite <- Ga, <- Gk. clear Ga Gk.
  apply (best K (nat * nat) all keep (fun q => nth (snd q) (sv (fst q)) 0') (fun q => coef K nat (seq 0 (here (fst q))) (u (fst q)) (seq 0 (d (fst q))) (e (fst q)) (snd q))).
  - intros q Iq. destruct (Ia q Iq). apply Sp; [assumption|apply in_seq; lia].
  - intros q Iq. apply coef_pos.
  - intros q Iq. destruct (Ia q Iq) as [A B]. apply (coef_le K nat (seq 0 (here (fst q))) (seq 0 (length (sv (fst q)))) (u (fst q)) (Ou _ A)); [apply seq_NoDup|now apply Oe|apply in_seq; lia].
  - intros [i j] [i' j'] I I' Kx Ky. destruct (Ia _ I) as [A _], (Ia _ I') as [A' B']. cbn [fst snd] in *. apply Lk; [assumption|assumption|now apply Kk|assumption|]. intros Z. apply Kk in Z. congruence.
  - rewrite Sa, Sk. cbn [fst snd]. apply ole_trans with (bsum (seq 0 N) (fun i => bsum (seq 0 (d i)) (fun _ => 1'))).
    + apply bsum_ole. intros i Ii. apply in_seq in Ii. exact (coef_sum K nat (seq 0 (here i)) (seq 0 (length (sv i))) (seq_NoDup _ _) (u i) (Ou i (proj2 Ii)) (seq 0 (d i)) (e i) (seq_NoDup _ _) (Oe i (proj2 Ii))).
    + assert (Cn : forall X (l : list X), bsum (R := K) l (fun _ => 1') = bsum (seq 0 (length l)) (fun _ => 1')). { intros X l. induction l as [|y l IH]; [reflexivity|]. cbn [length seq]. rewrite !bsum_cons, IH. f_equal. rewrite <- seq_shift, bsum_map. reflexivity. }
      assert (Cs : forall (c : nat -> nat) l, bsum l (fun i => bsum (seq 0 (c i)) (fun _ => 1')) = bsum (seq 0 (list_sum (map c l))) (fun _ => 1')).
      { intros c l. induction l as [|y l IH]; [reflexivity|]. rewrite bsum_cons, IH. cbn [map]. unfold list_sum. cbn [fold_right]. fold (list_sum (map c l)). rewrite seq_app, bsum_app. f_equal. rewrite (Cn _ (seq (0 + c y) _)), seq_length. reflexivity. }
      rewrite (bsum_ext K _ (seq 0 N) (fun i => bsum (kp i) (fun _ => 1')) (fun i => bsum (seq 0 (length (kp i))) (fun _ => 1'))) by (intros; apply Cn). rewrite (Cs d), (Cs (fun i => length (kp i))).
      assert (Hd' : bonds d <= list_sum (map (fun i => length (kp i)) (seq 0 N))). { replace (list_sum (map (fun i => length (kp i)) (seq 0 N))) with (bonds (sp_dim K sp)); [exact Hd|]. unfold bonds. f_equal. apply map_ext. intros i. apply Ed. }
      unfold bonds in Hd'. replace (list_sum (map (fun i => length (kp i)) (seq 0 N))) with (list_sum (map d (seq 0 N)) + (list_sum (map (fun i => length (kp i)) (seq 0 N)) - list_sum (map d (seq 0 N)))) by lia.
      rewrite seq_app, bsum_app. apply le_plus. apply bsum_ole0. intros. replace 1' with (1' *' 1') by ring. apply ole_sq.
Qed.
End Run.
(** ** C68: when the splitting is defined *)
Theorem c68_defined : forall x weights noise bond_dim cutoff, decomp_two_site K sqrtK svd pert one_over N nr nc x forward noise bond_dim weights cutoff = None <->
  exists l, x = Several K l /\ (l = [] \/ weights = Some []).
Proof.
  intros x weights noise bond_dim cutoff. unfold decomp_two_site. assert (E : forall dm, (let lsr i := svd (size nr nc forward i) (dm i) in
      let s := map (fun i => snd (fst (lsr i))) (seq 0 N) in
      let '(gs, error) := truncate_svd K sqrtK true bond_dim cutoff 0' s in
      let iso i a j := let p := nth j (kept_in gs i) O in if forward then fst (fst (lsr i)) a p else snd (lsr i) p a in
      let rest psi i := if forward
        then fun j c => csum K (seq 0 (nr i)) (fun a => cscale K (iso i a j) (psi i a c))
        else fun c j => csum K (seq 0 (nc i)) (fun a => cscale K (iso i a j) (psi i c a)) in
      Some (Split K iso (fun i => length (kept_in gs i)) (map rest (states_of K x)) error)) <> None).
  { intros dm. cbv zeta. destruct (truncate_svd _ _ _ _ _ _ _). discriminate. }
  destruct x as [psi|l].
  - cbn [density]. split; [intros H; now apply E in H|]. intros (l & H & _). discriminate.
  - unfold density. destruct l as [|psi l]; [split; [intros _; exists []; auto|reflexivity]|].
    destruct (weights_of K one_over weights (Several K (psi :: l))) as [|w0 w'] eqn:Ew.
    + split; [|reflexivity]. intros _. exists (psi :: l). split; [reflexivity|]. right. destruct weights as [w|]; [cbn in Ew; now subst|cbn in Ew; discriminate].
    + split; [intros H; now apply E in H|]. intros (l' & El & [->| ->]); [discriminate|]. cbn in Ew. discriminate.
Qed.
End C68.
(** ** Concrete cases *)
Definition c68_q (z : Z) (d : positive) : Qc := Q2Qc (z # d).
(* sector 0: rotation by (3/5, 4/5) times diag(2, 1); sector 1: one row, amplitudes 1 and i *)
Definition c68_psi (i a c : nat) : Qc * Qc :=
  match i, a, c with
  | 0, 0, 0 => (c68_q 6 5, 0%Qc) | 0, 0, 1 => (c68_q (-4) 5, 0%Qc) | 0, 1, 0 => (c68_q 8 5, 0%Qc) | 0, 1, 1 => (c68_q 3 5, 0%Qc)
  | 1, 0, 0 => (1%Qc, 0%Qc) | 1, 0, 1 => (0%Qc, 1%Qc) | _, _, _ => (0%Qc, 0%Qc)
  end.
Definition c68_rot (a j : nat) : Qc := match a, j with 0, 0 => c68_q 3 5 | 0, 1 => c68_q (-4) 5 | 1, 0 => c68_q 4 5 | 1, 1 => c68_q 3 5 | _, _ => 0%Qc end.
Definition c68_svd (n : nat) (_ : nat -> nat -> Qc) : (nat -> nat -> Qc) * list Qc * (nat -> nat -> Qc) :=
  match n with 2 => (c68_rot, [c68_q 4 1; c68_q 1 1], fun j a => c68_rot a j) | _ => (fun _ _ => 1%Qc, [c68_q 2 1], fun _ _ => 1%Qc) end.
Definition c68_rows (i : nat) : nat := match i with 0 => 2 | _ => 1 end.
Definition c68_run (bond_dim : Z) : option (split Qc_oring) :=
  decomp_two_site Qc_oring (fun x => x) c68_svd (fun _ _ _ _ => 0%Qc) (fun _ => 1%Qc) 2 c68_rows (fun _ => 2) (Single Qc_oring c68_psi) true (0%Qc : Qc_oring) bond_dim None (0%Qc : Qc_oring).
(* two states are kept, one in each sector; the error is the eigenvalue 1 *)
Example c68_ex : match c68_run 2 with
  | Some sp => (sp_dim _ sp 0, sp_dim _ sp 1, this (sp_error _ sp), this (sp_iso _ sp 0 0 0), this (sp_iso _ sp 0 1 0), map (fun r => map this [fst (r 0 0 0); fst (r 0 0 1); fst (r 1 0 0); snd (r 1 0 1)]) (sp_rest _ sp)) =
      (1%nat, 1%nat, 1%Q, (3 # 5)%Q, (4 # 5)%Q, [[2; 0; 1; 1]%Q])
  | None => False
  end.
Proof. vm_compute. reflexivity. Qed.
Lemma c68_good : good_svd Qc_oring c68_svd (fun _ _ _ _ => 0%Qc) 2 c68_rows (fun _ => 2) true (weighted Qc_oring (fun _ => 1%Qc) (Single Qc_oring c68_psi) None) 0%Qc.
Proof.
  intros i A Hi EA. assert (I : i = 0 \/ i = 1) by lia. destruct I as [->| ->]; cbn [here c68_rows c68_svd] in *.
  - split; [|split; [|split] ].
    + intros a b Ha Hb. rewrite EA by assumption. destruct a as [|[|]]; [| |lia]; (destruct b as [|[|]]; [| |lia]); apply Qc_is_canon; vm_compute; reflexivity.
    + cbn [length]. intros j j' Hj Hj'. destruct j as [|[|]]; [| |lia]; (destruct j' as [|[|]]; [| |lia]); apply Qc_is_canon; vm_compute; reflexivity.
    + cbn [length]. intros j j' Hj Hj'. destruct j as [|[|]]; [| |lia]; (destruct j' as [|[|]]; [| |lia]); apply Qc_is_canon; vm_compute; reflexivity.
    + intros x [<-|[<-|[] ] ]; reflexivity.
  - split; [|split; [|split] ].
    + intros a b Ha Hb. rewrite EA by assumption. destruct a; [|lia]. destruct b; [|lia]. apply Qc_is_canon; vm_compute; reflexivity.
    + cbn [length]. intros j j' Hj Hj'. destruct j; [|lia]. destruct j'; [|lia]. apply Qc_is_canon; vm_compute; reflexivity.
    + cbn [length]. intros j j' Hj Hj'. destruct j; [|lia]. destruct j'; [|lia]. apply Qc_is_canon; vm_compute; reflexivity.
    + intros x [<-|[] ]; reflexivity.
Qed.
Example c68_ex_applies : forall bond_dim sp, c68_run bond_dim = Some sp -> sp_error _ sp = lost Qc_oring 2 c68_rows (fun _ => 2) true (weighted Qc_oring (fun _ => 1%Qc) (Single Qc_oring c68_psi) None) sp.
Proof.
  intros bd sp R. apply (c68_loss Qc_oring (fun x => x) c68_svd (fun _ _ _ _ => 0%Qc) (fun _ => 1%Qc) 2 c68_rows (fun _ => 2) true (Single Qc_oring c68_psi) None 0%Qc bd 0%Qc sp R); [|exact c68_good|reflexivity].
  intros p [<-|[] ]. reflexivity.
Qed.
(** ** C68: random noise (a matrix of non-negative numbers of norm 1) is not a sum of squares: the weight lost can exceed the error reported *)
Definition c68_unit (i a c : nat) : Qc * Qc := if Nat.eqb a c then (1%Qc, 0%Qc) else (0%Qc, 0%Qc).
Definition c68_pert (a b : nat) : Qc := match a, b with 0, 0 => c68_q 28 325 | 0, 1 => c68_q 204 325 | 1, 0 => c68_q 204 325 | 1, 1 => c68_q 147 325 | _, _ => 0%Qc end.
Definition c68_svd2 (n : nat) (_ : nat -> nat -> Qc) : (nat -> nat -> Qc) * list Qc * (nat -> nat -> Qc) := (c68_rot, [c68_q 71 65; c68_q 25 26], fun j a => c68_rot a j).
Theorem c68_random_refuted : exists (svd : nat -> (nat -> nat -> Qc) -> (nat -> nat -> Qc) * list Qc * (nat -> nat -> Qc)) (pert : nat -> nat -> Qc) (psi : nat -> nat -> nat -> Qc * Qc) (noise : Qc) sp,
  let K := Qc_oring in let nr := fun _ : nat => 2 in let one := fun _ : nat => 1%Qc in
  good_svd K svd (fun _ _ => pert) 1 nr nr true (weighted K one (Single K psi) None) noise /\ olt (r0 K) noise /\
  (forall a b, a < 2 -> b < 2 -> ole (r0 K) (pert a b)) /\ bsum (seq 0 2) (fun a => bsum (seq 0 2) (fun b => rmul K (pert a b) (pert a b))) = r1 K /\
  decomp_two_site K (fun x => x) svd (fun _ _ => pert) one 1 nr nr (Single K psi) true noise 1 None (r0 K) = Some sp /\
  olt (sp_error K sp) (lost K 1 nr nr true (weighted K one (Single K psi) None) sp).
Proof.
  exists c68_svd2, c68_pert, c68_unit, (c68_q 1 10). eexists. cbv zeta. split; [|split; [reflexivity|split; [|split; [|split; [reflexivity|] ] ] ] ].
  - intros i A Hi EA. assert (i = 0) by lia. subst i. split; [|split; [|split] ].
    + intros a b Ha Hb. rewrite EA by assumption. cbn in Ha, Hb. destruct a as [|[|]]; [| |lia]; (destruct b as [|[|]]; [| |lia]); apply Qc_is_canon; vm_compute; reflexivity.
    + cbn [length]. intros j j' Hj Hj'. destruct j as [|[|]]; [| |lia]; (destruct j' as [|[|]]; [| |lia]); apply Qc_is_canon; vm_compute; reflexivity.
    + cbn [length]. intros j j' Hj Hj'. destruct j as [|[|]]; [| |lia]; (destruct j' as [|[|]]; [| |lia]); apply Qc_is_canon; vm_compute; reflexivity.
    + intros x [<-|[<-|[] ] ]; reflexivity.
  - intros a b Ha Hb. destruct a as [|[|]]; [| |lia]; (destruct b as [|[|]]; [| |lia]); reflexivity.
  - apply Qc_is_canon. vm_compute. reflexivity.
  - vm_compute. reflexivity.
Qed.
Print Assumptions c68_isometry. Print Assumptions c68_bond_dim. Print Assumptions c68_noise. Print Assumptions c68_loss. Print Assumptions c68_best. Print Assumptions c68_defined. Print Assumptions c68_random_refuted.
