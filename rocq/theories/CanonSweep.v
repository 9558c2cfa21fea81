(** Lemmas for C33: the sweeps of MPS.canonicalize. *)
From Coq Require Import ZArith Bool List Lia Permutation Ring.
From Verif Require Import SymModel SymProofs DictLib IndexLib OptLib RingLib BondModel FuseModel BlockModel BlockProofs StructModel StructProofs MpsModel MpsChain MpsProofs MpsDot CanonModel CanonProofs CanonSites CanonChain.
Import ListNotations.
Open Scope Z_scope.

Lemma foldM_cat : forall A B (f : B -> A -> option B) l l' b, foldM f b (l ++ l') = bind (foldM f b l) (fun b' => foldM f b' l').
Proof. intros A B f l l'. induction l as [|x l IH]; intros b; [reflexivity|]. cbn [app foldM bind]. destruct (f b x); [apply IH|reflexivity]. Qed.
Section Sweep.
Variable R : CRing.
Add Ring Rr25 : (rth R).
Variable L : Label.
Notation tensor := (list (list L * nd R)).
Notation tblock := (bool * (list L * nd R))%type.
Notation site := (site R L).
Notation "0'" := (r0 R). Notation "1'" := (r1 R).
Notation zf := (fun _ : L => 0).
Notation zs := (0, fun (_ : Z) (_ : L) => 0).
Notation lastq := (fun qs : list L => last qs (q0 L)).
Notation headq := (fun qs : list L => hd (q0 L) qs).
Notation st := (SP (R := R) (L := L) []).

Lemma last_determined_incl : forall s f : site, (forall o, incl (map fst (part f o)) (map fst (part s o))) -> last_determined R L s -> last_determined R L f.
Proof. intros s f I D o ks q q' H1 H2. apply (D o ks); now apply I. Qed.
Lemma first_determined_incl : forall s f : site, (forall o, incl (map fst (part f o)) (map fst (part s o))) -> first_determined R L s -> first_determined R L f.
Proof. intros s f I D o ks q q' H1 H2. apply (D o ks); now apply I. Qed.
Lemma keys_nil : forall s f : site, (forall o, incl (map fst (part f o)) (map fst (part s o))) -> blocks s = [] -> blocks f = [].
Proof.
  intros s f I E. apply app_eq_nil in E. destruct E as [E1 E2]. unfold blocks. pose proof (I true) as I1. pose proof (I false) as I2. rewrite E1 in I1. rewrite E2 in I2.
  destruct (part f true) as [|b l]; [|destruct (I1 (fst b) (or_introl eq_refl))]. destruct (part f false) as [|b l]; [reflexivity|destruct (I2 (fst b) (or_introl eq_refl))].
Qed.

(* what a sequence of steps keeps *)
Definition evolve (shp : list (Z * (Z -> L -> Z))) (ds ds' : list (L -> Z)) (ts ts' : list site) : Prop :=
  wf_sites ds' shp ts' /\ length ts' = length ts /\
  (forall Ba Bc ps l r, bonds Ba ts -> bonds Bc ts' -> amplitude Bc ts' ps l r = amplitude Ba ts ps l r) /\
  (forall j o, incl (map fst (part (nth j ts' st) o)) (map fst (part (nth j ts st) o))) /\
  (forall j, kind (nth j ts' st) = kind (nth j ts st) \/ blocks (nth j ts' st) = []) /\
  nth 0 ds' zf = nth 0 ds zf /\ nth (length ts) ds' zf = nth (length ts) ds zf.
Lemma evolve_refl : forall shp ds ts, wf_sites ds shp ts -> evolve shp ds ds ts ts.
Proof.
  intros shp ds ts W. repeat split; auto using incl_refl. intros Ba Bc ps l r HA HC. unfold amplitude, bonds in *. now apply (chain_cover_indep R _ _ (st_dec L)).
Qed.
Lemma evolve_trans : forall shp ds ds1 ds2 ts ts1 ts2, ts <> [] -> evolve shp ds ds1 ts ts1 -> evolve shp ds1 ds2 ts1 ts2 -> evolve shp ds ds2 ts ts2.
Proof.
  intros shp ds ds1 ds2 ts ts1 ts2 N (W1 & L1 & A1 & I1 & K1 & E1 & F1) (W2 & L2 & A2 & I2 & K2 & E2 & F2). split; [exact W2|]. split; [congruence|]. split; [|split; [|split; [|split]]].
  - intros Ba Bc ps l r HA HC. pose proof (bonds_of_cover R L ts1 ds1 shp ltac:(intros ->; destruct ts; [congruence|discriminate]) W1) as Co. rewrite (A2 (bonds_of R L ds1 ts1) Bc) by auto. now apply A1.
  - intros j o. eapply incl_tran; [apply I2|apply I1].
  - intros j. destruct (K2 j) as [K|K]; [|now right]. destruct (K1 j) as [K'|K']; [left; congruence|]. right. apply (keys_nil (nth j ts1 st)); [apply I2|exact K'].
  - congruence.
  - rewrite <- L1 in *. congruence.
Qed.

Variable cj : R -> R.
Variable fl : site -> site * tensor.
Variable fr : site -> tensor * site.
(* a bound on the new bond dimensions that may depend on the old ones *)
Variable bound : Z -> Z -> Prop.
Hypothesis bound_refl : forall x, bound x x.
Hypothesis bound_trans : forall x y z, bound y x -> bound z y -> bound z x.
Definition bounded (ds ds' : list (L -> Z)) : Prop := forall i q, bound (nth i ds' zf q) (nth i ds zf q).

Definition left_fac : Prop := forall n dl dp dr s, wf_site n dl dp dr s ->
  exists dn, split_left R L n dl dp dr dn s (fst (fl s)) (snd (fl s)) /\ kind (fst (fl s)) = kind s /\ (last_determined R L s -> left_iso R L cj dn (fst (fl s))) /\ forall q, bound (dn q) (dr q).
Definition right_fac : Prop := forall n dl dp dr s, wf_site n dl dp dr s ->
  exists dn, split_right R L n dl dp dr dn s (snd (fr s)) (fst (fr s)) /\ kind (snd (fr s)) = kind s /\ (first_determined R L s -> right_iso R L cj dn (snd (fr s))) /\ forall q, bound (dn q) (dl q).
Definition lstep (ts : list site) (i : nat) : option (list site) :=
  do t <- nth_error ts i; let '(q, r) := fl t in
  do u <- nth_error ts (S i); do u' <- gauge_left R L r u;
  Some (upd (S i) u' (upd i q ts)).
Definition rstep (ts : list site) (i : nat) : option (list site) :=
  do t <- nth_error ts i; let '(l, q) := fr t in
  do u <- nth_error ts (i - 1); do u' <- gauge_right R L u l;
  Some (upd (i - 1) u' (upd i q ts)).

Lemma lstep_ok : left_fac -> forall shp ds ts i, (S i < length ts)%nat -> wf_sites ds shp ts -> exists ts' d', lstep ts i = Some ts' /\ evolve shp ds (upd (S i) d' ds) ts ts' /\ bounded ds (upd (S i) d' ds) /\
  (last_determined R L (nth i ts st) -> left_iso R L cj d' (nth i ts' st)) /\ (forall j, j <> i -> j <> S i -> nth j ts' st = nth j ts st).
Proof.
  intros HF shp ds ts i Hi W. pose proof W as W0. apply wf_sites_nth in W0. destruct W0 as (A & Bl & C).
  destruct (HF _ _ _ _ _ (C i ltac:(lia))) as (dn & Sp & K & Iso & Bd). destruct (step_left R L ts ds shp i dn _ _ Hi W Sp) as (u' & Eu & Ku & Iu & Wn & Am).
  exists (upd (S i) u' (upd i (fst (fl (nth i ts st))) ts)), dn.
  assert (L1: length (upd i (fst (fl (nth i ts st))) ts) = length ts) by (apply upd_len; lia).
  assert (Nt: forall k, nth k (upd (S i) u' (upd i (fst (fl (nth i ts st))) ts)) st = if Nat.eqb k (S i) then u' else if Nat.eqb k i then fst (fl (nth i ts st)) else nth k ts st) by (intros k; rewrite nth_upd by lia; now rewrite nth_upd by lia).
  split; [|split; [|split; [|split]]].
  - unfold lstep. rewrite (nth_err _ ts i st) by lia. cbn [bind]. destruct (fl (nth i ts st)) as [q r] eqn:E. cbn [fst snd] in *. rewrite (nth_err _ ts (S i) st) by lia. cbn [bind]. rewrite Eu. reflexivity.
  - split; [exact Wn|]. split; [rewrite upd_len by lia; exact L1|]. split; [exact Am|]. split; [|split; [|split]].
    + intros j o. rewrite Nt. destruct (Nat.eqb_spec j (S i)) as [->|]; [apply Iu|]. destruct (Nat.eqb_spec j i) as [->|]; [apply Sp|apply incl_refl].
    + intros j. rewrite Nt. destruct (Nat.eqb_spec j (S i)) as [->|]; [exact Ku|]. destruct (Nat.eqb_spec j i) as [->|]; [left; exact K|now left].
    + rewrite nth_upd by lia. reflexivity.
    + rewrite nth_upd by lia. destruct (Nat.eqb_spec (length ts) (S i)); [lia|reflexivity].
  - intros k q. rewrite nth_upd by lia. destruct (Nat.eqb_spec k (S i)) as [->|]; [apply Bd|apply bound_refl].
  - intros D. rewrite Nt. destruct (Nat.eqb_spec i (S i)); [lia|]. rewrite Nat.eqb_refl. now apply Iso.
  - intros j N1 N2. rewrite Nt. destruct (Nat.eqb_spec j (S i)); [lia|]. destruct (Nat.eqb_spec j i); [lia|reflexivity].
Qed.
Lemma rstep_ok : right_fac -> forall shp ds ts i, (S i < length ts)%nat -> wf_sites ds shp ts -> exists ts' d', rstep ts (S i) = Some ts' /\ evolve shp ds (upd (S i) d' ds) ts ts' /\ bounded ds (upd (S i) d' ds) /\
  (first_determined R L (nth (S i) ts st) -> right_iso R L cj d' (nth (S i) ts' st)) /\ (forall j, j <> i -> j <> S i -> nth j ts' st = nth j ts st).
Proof.
  intros HF shp ds ts i Hi W. pose proof W as W0. apply wf_sites_nth in W0. destruct W0 as (A & Bl & C).
  destruct (HF _ _ _ _ _ (C (S i) Hi)) as (dn & Sp & K & Iso & Bd). destruct (step_right R L ts ds shp i dn _ _ Hi W Sp) as (u' & Eu & Ku & Iu & Wn & Am).
  exists (upd i u' (upd (S i) (snd (fr (nth (S i) ts st))) ts)), dn.
  assert (L1: length (upd (S i) (snd (fr (nth (S i) ts st))) ts) = length ts) by (apply upd_len; lia).
  assert (Nt: forall k, nth k (upd i u' (upd (S i) (snd (fr (nth (S i) ts st))) ts)) st = if Nat.eqb k i then u' else if Nat.eqb k (S i) then snd (fr (nth (S i) ts st)) else nth k ts st) by (intros k; rewrite nth_upd by lia; now rewrite nth_upd by lia).
  split; [|split; [|split; [|split]]].
  - unfold rstep. rewrite (nth_err _ ts (S i) st) by lia. cbn [bind]. destruct (fr (nth (S i) ts st)) as [l q] eqn:E. cbn [fst snd] in *. replace (S i - 1)%nat with i by lia. rewrite (nth_err _ ts i st) by lia. cbn [bind]. rewrite Eu. reflexivity.
  - split; [exact Wn|]. split; [rewrite upd_len by lia; exact L1|]. split; [exact Am|]. split; [|split; [|split]].
    + intros j o. rewrite Nt. destruct (Nat.eqb_spec j i) as [->|]; [apply Iu|]. destruct (Nat.eqb_spec j (S i)) as [->|]; [apply Sp|apply incl_refl].
    + intros j. rewrite Nt. destruct (Nat.eqb_spec j i) as [->|]; [exact Ku|]. destruct (Nat.eqb_spec j (S i)) as [->|]; [left; exact K|now left].
    + rewrite nth_upd by lia. reflexivity.
    + rewrite nth_upd by lia. destruct (Nat.eqb_spec (length ts) (S i)); [lia|reflexivity].
  - intros k q. rewrite nth_upd by lia. destruct (Nat.eqb_spec k (S i)) as [->|]; [apply Bd|apply bound_refl].
  - intros D. rewrite Nt. destruct (Nat.eqb_spec (S i) i); [lia|]. rewrite Nat.eqb_refl. now apply Iso.
  - intros j N1 N2. rewrite Nt. destruct (Nat.eqb_spec j i); [lia|]. destruct (Nat.eqb_spec j (S i)); [lia|reflexivity].
Qed.
Lemma left_sweep : left_fac -> forall shp c ds ts, (c < length ts)%nat -> wf_sites ds shp ts -> exists ts' ds', foldM lstep ts (seq 0 c) = Some ts' /\ evolve shp ds ds' ts ts' /\ bounded ds ds' /\
  (forall j, (j < c)%nat -> last_determined R L (nth j ts st) -> left_iso R L cj (nth (S j) ds' zf) (nth j ts' st)) /\
  (forall j, (c < j)%nat -> nth j ts' st = nth j ts st /\ nth j ds' zf = nth j ds zf).
Proof.
  intros HF shp. induction c as [|c IH]; intros ds ts Hc W.
  - exists ts, ds. split; [reflexivity|]. split; [now apply evolve_refl|]. split; [intros i q; apply bound_refl|]. split; [intros; lia|auto].
  - destruct (IH ds ts ltac:(lia) W) as (t1 & d1 & E1 & V1 & B1 & I1 & S1). pose proof V1 as (W1 & L1 & _ & K1 & _). destruct (lstep_ok HF shp d1 t1 c ltac:(lia) W1) as (t2 & d' & E2 & V2 & B2 & I2 & S2).
    assert (Ld: length d1 = S (length ts)) by (apply wf_sites_nth in W1; lia).
    exists t2, (upd (S c) d' d1). split; [rewrite seq_S, foldM_cat, E1; cbn [bind foldM Nat.add]; rewrite E2; reflexivity|]. split; [apply (evolve_trans shp ds d1 _ ts t1 t2); auto; intros ->; cbn in Hc; lia|]. split; [intros i q; eapply bound_trans; [apply B1|apply B2]|]. split.
    + intros j Hj D. rewrite nth_upd by lia. destruct (Nat.eq_dec j c) as [->|N].
      * rewrite Nat.eqb_refl. apply I2. apply (last_determined_incl (nth c ts st)); [apply K1|exact D].
      * destruct (Nat.eqb_spec (S j) (S c)); [lia|]. rewrite S2 by lia. apply I1; [lia|exact D].
    + intros j Hj. rewrite S2 by lia. rewrite nth_upd by lia. destruct (Nat.eqb_spec j (S c)); [lia|]. apply S1. lia.
Qed.
Lemma right_sweep : right_fac -> forall shp c m ds ts, (c + m < length ts)%nat -> wf_sites ds shp ts -> exists ts' ds', foldM rstep ts (rev (seq (S c) m)) = Some ts' /\ evolve shp ds ds' ts ts' /\ bounded ds ds' /\
  (forall j, (c < j <= c + m)%nat -> first_determined R L (nth j ts st) -> right_iso R L cj (nth j ds' zf) (nth j ts' st)) /\
  (forall j, (j < c \/ c + m < j)%nat -> nth j ts' st = nth j ts st) /\ (forall j, (j <= c \/ c + m < j)%nat -> nth j ds' zf = nth j ds zf).
Proof.
  intros HF shp c. induction m as [|m IH]; intros ds ts Hc W.
  - exists ts, ds. split; [reflexivity|]. split; [now apply evolve_refl|]. split; [intros i q; apply bound_refl|]. split; [intros; lia|auto].
  - destruct (rstep_ok HF shp ds ts (c + m) ltac:(lia) W) as (t1 & d' & E1 & V1 & B1 & I1 & S1). pose proof V1 as (W1 & L1 & _ & K1 & _). set (d1 := upd (S (c + m)) d' ds) in *.
    destruct (IH d1 t1 ltac:(lia) W1) as (t2 & d2 & E2 & V2 & B2 & I2 & S2 & S3).
    assert (Ld: length ds = S (length ts)) by (apply wf_sites_nth in W; lia).
    assert (Nd: forall j, nth j d1 zf = if Nat.eqb j (S (c + m)) then d' else nth j ds zf) by (intros j; unfold d1; apply nth_upd; lia).
    exists t2, d2. split; [rewrite seq_S, rev_app_distr; cbn [rev app foldM]; replace (S c + m)%nat with (S (c + m)) by lia; rewrite E1; exact E2|]. split; [apply (evolve_trans shp ds d1 _ ts t1 t2); auto; intros ->; cbn in Hc; lia|]. split; [intros i q; eapply bound_trans; [apply B1|apply B2]|]. split; [|split].
    + intros j Hj D. destruct (Nat.eq_dec j (S (c + m))) as [->|N].
      * rewrite S3 by lia. rewrite S2 by lia. rewrite Nd, Nat.eqb_refl. now apply I1.
      * apply I2; [lia|]. apply (first_determined_incl (nth j ts st)); [apply K1|exact D].
    + intros j Hj. rewrite S2 by lia. apply S1; lia.
    + intros j Hj. rewrite S3 by lia. rewrite Nd. destruct (Nat.eqb_spec j (S (c + m))); [lia|reflexivity].
Qed.
End Sweep.
