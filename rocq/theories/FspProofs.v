(** Lemmas for C64: the blocks of a tensor cut into operators. *)
From Coq Require Import ZArith Bool List Lia Ring.
From Verif Require Import SymModel SymProofs DictLib IndexLib OptLib RingLib BondModel BondProofs FuseModel FuseProofs BlockProofs MpsModel MpsChain MpsProofs MpsDot TosModel TosProofs TosProps FspModel.
Import ListNotations.
Open Scope Z_scope.

Section Fsp.
Variable R : CRing.
Add Ring Rr : (rth R).
Variable L : Label.
Notation tensor := (list (list L * nd R)).
Notation binfo := (dict L Z).
Notation state := (L * Z)%type.
Notation "0'" := (r0 R).
Infix "+'" := (radd R) (at level 50, left associativity).
Notation times := (times L).
Notation col_state := (col_state L).
Notation labels := (labels L).
Notation starts := (starts L).

(** *** numbering of the states *)
Lemma times_app : forall q a b, times q (a ++ b) = times q a + times q b.
Proof. intros. unfold TosProps.times. rewrite filter_app, app_length. lia. Qed.
Lemma times_repeat : forall q q' n, times q (repeat q' n) = if qeqb L q q' then Z.of_nat n else 0.
Proof.
  intros q q' n. unfold TosProps.times. induction n as [|n IH]; cbn [repeat filter]; [destruct (qeqb L q q'); reflexivity|].
  destruct (qeqb L q q'); cbn [length]; lia.
Qed.
Lemma labels_cons : forall k v info, labels ((k, v) :: info) = repeat k (Z.to_nat v) ++ labels info.
Proof. reflexivity. Qed.
Lemma times_labels : forall info q, wf L info -> times q (labels info) = bget L info q.
Proof.
  induction info as [|[k v] info IH]; intros q [N P]; [reflexivity|]. cbn [keys map fst] in N. inversion N as [|? ? N1 N2]; subst.
  rewrite labels_cons, times_app, times_repeat, IH by (split; [exact N2|intros p I; apply P; now right]). unfold bget. cbn [dget].
  assert (Pv := P _ (or_introl eq_refl)). cbn [snd] in Pv. destruct (qeqb_spec L q k) as [E1|Ne], (qeqb_spec L k q) as [E|E]; try congruence; [subst q|lia].
  destruct (dget (qeqb L) info k) eqn:D; [|lia]. apply (dget_some_key _ (qeqb_spec L)) in D. contradiction.
Qed.
Lemma starts_spec : forall info c q s i, NoDup (keys info) -> dget (qeqb L) (starts c info) q = Some s -> 0 <= i < bget L info q ->
  (c <= s)%nat /\ nth_error (labels info) (s - c + Z.to_nat i) = Some q /\ times q (firstn (s - c + Z.to_nat i) (labels info)) = i.
Proof.
  induction info as [|[k v] info IH]; intros c q s i N D B; [discriminate|]. cbn [starts dget] in D. unfold bget in B. cbn [dget] in B. cbn [keys map fst] in N. inversion N as [|? ? N1 N2]; subst. rewrite labels_cons.
  destruct (qeqb_spec L k q) as [->|Ne].
  - injection D as <-. split; [lia|]. rewrite Nat.sub_diag. cbn [Nat.add]. split.
    + rewrite nth_error_app1 by (rewrite repeat_length; lia). apply nth_error_repeat. lia.
    + rewrite firstn_app, times_app. replace (Z.to_nat i - length (repeat q (Z.to_nat v)))%nat with 0%nat by (rewrite repeat_length; lia). cbn [firstn]. replace (firstn (Z.to_nat i) (repeat q (Z.to_nat v))) with (repeat q (Z.to_nat i)).
      * rewrite times_repeat. destruct (qeqb_spec L q q); [|congruence]. unfold TosProps.times. cbn. lia.
      * replace (Z.to_nat v) with (Z.to_nat i + (Z.to_nat v - Z.to_nat i))%nat by lia. rewrite repeat_app, firstn_app, repeat_length, Nat.sub_diag. cbn [firstn]. rewrite app_nil_r. rewrite firstn_all2; [reflexivity|]. rewrite repeat_length. lia.
  - destruct (IH _ _ _ _ N2 D B) as (H1 & H2 & H3). split; [lia|]. assert (Lr : length (repeat k (Z.to_nat v)) = Z.to_nat v) by apply repeat_length. split.
    + rewrite nth_error_app2 by lia. rewrite Lr. replace (s - c + Z.to_nat i - Z.to_nat v)%nat with (s - (c + Z.to_nat v) + Z.to_nat i)%nat by lia. exact H2.
    + rewrite firstn_app, times_app, Lr. replace (s - c + Z.to_nat i - Z.to_nat v)%nat with (s - (c + Z.to_nat v) + Z.to_nat i)%nat by lia. rewrite H3. rewrite firstn_all2 by lia. rewrite times_repeat. destruct (qeqb_spec L q k); [congruence|lia].
Qed.
Lemma starts_some : forall info c q, 0 < bget L info q -> exists s, dget (qeqb L) (starts c info) q = Some s.
Proof.
  induction info as [|[k v] info IH]; intros c q B; unfold bget in B; cbn [dget] in B; [lia|]. cbn [starts dget]. destruct (qeqb L k q); [eauto|]. apply IH. exact B.
Qed.
Lemma starts_state : forall info q s i, wf L info -> dget (qeqb L) (starts 0 info) q = Some s -> 0 <= i < bget L info q ->
  (s + Z.to_nat i < length (labels info))%nat /\ col_state (labels info) (s + Z.to_nat i) = (q, i).
Proof.
  intros info q s i [N _] D B. destruct (starts_spec info 0 q s i N D B) as (_ & H2 & H3). rewrite Nat.sub_0_r in *. split; [apply nth_error_Some; congruence|].
  unfold TosProps.col_state. rewrite (nth_error_nth _ _ (q0 L) H2). now rewrite H3.
Qed.
Lemma row_state_map : forall d ls j, (j < length ls)%nat -> row_state L d (map (qsub L d) ls) j = col_state ls j.
Proof.
  intros d ls j H. unfold row_state, TosProps.col_state. rewrite (nth_indep _ _ (qsub L d (q0 L))) by (now rewrite map_length). rewrite map_nth, sub_sub. f_equal. rewrite firstn_map. unfold TosProps.times. f_equal.
  induction (firstn j ls) as [|x l IH]; [reflexivity|]. cbn [map filter]. destruct (qeqb_spec L (qsub L d (nth j ls (q0 L))) (qsub L d x)) as [E|N], (qeqb_spec L (nth j ls (q0 L)) x) as [E'|N']; cbn [length]; try (rewrite IH; reflexivity); [apply (sub_inj L) in E; congruence|subst; congruence].
Qed.

(** *** the dict of slices *)
Variable small : nd R -> bool.
Notation entry := ((nat * nat) * tensor)%type.
Notation put := (put R L small).
Lemma key_spec : forall a b, reflect (a = b) (key_eqb a b).
Proof. intros [a b] [c d]. unfold key_eqb. cbn [fst snd]. destruct (Nat.eqb_spec a c), (Nat.eqb_spec b d); cbn [andb]; constructor; congruence. Qed.
Lemma bsum_append : forall (F : nat * nat -> tensor -> R) (mb : list entry) k x, (forall j v w, F j (v ++ w) = F j v +' F j w) ->
  bsum (dset key_eqb mb k (match dget key_eqb mb k with Some v => v | None => [] end ++ [x])) (fun e => F (fst e) (snd e)) = bsum mb (fun e => F (fst e) (snd e)) +' F k [x].
Proof.
  intros F mb k x A. assert (A0 : forall j, F j [] = 0'). { intros j. assert (E := A j [] []). cbn [app] in E. replace 0' with (radd R (F j []) (ropp R (F j []))) by ring. transitivity (radd R (radd R (F j []) (F j [])) (ropp R (F j []))); [ring|]. rewrite <- E. reflexivity. }
  induction mb as [|[j v] mb IH]; cbn [dset dget]; [rewrite bsum_cons, !bsum_nil; cbn [fst snd app]; ring|].
  destruct (key_spec j k) as [->|N]; rewrite !bsum_cons; cbn [fst snd]; [rewrite A; ring|]. rewrite IH. ring.
Qed.
Definition inv (O : nat * nat -> list L * nd R -> Prop) (mb : list entry) : Prop :=
  NoDup (map fst mb) /\ forall k v, In (k, v) mb -> v <> [] /\ forall x, In x v -> O k x.
Lemma put_inv : forall O mb k x, inv O mb -> (small (snd x) = false -> O k x) -> inv O (put mb k x).
Proof.
  intros O mb k x [N I] H. unfold FspModel.put. destruct (small (snd x)); [split; assumption|]. split; [apply (nodup_dset _ key_spec), N|].
  intros k' v' Hin. assert (Nd : NoDup (keys (dset key_eqb mb k (match dget key_eqb mb k with Some v => v | None => [] end ++ [x])))) by (apply (nodup_dset _ key_spec), N).
  apply (in_dget _ key_spec _ _ _ Nd) in Hin. rewrite (dget_dset _ key_spec) in Hin. destruct (key_spec k k') as [<-|Ne].
  - injection Hin as <-. split; [destruct (match dget key_eqb mb k with Some v => v | None => [] end); discriminate|]. intros y Iy. apply in_app_iff in Iy. destruct Iy as [Iy|[<-|[]]]; [|now apply H].
    destruct (dget key_eqb mb k) as [v|] eqn:D; [|destruct Iy]. apply (dget_in _ key_spec) in D. now apply (I k v D).
  - apply (dget_in _ key_spec) in Hin. apply (I k' v' Hin).
Qed.
Lemma puts_ok : forall (X : Type) O (key : X -> nat * nat) (val : X -> list L * nd R) ps mb, inv O mb -> (forall p, In p ps -> small (snd (val p)) = false -> O (key p) (val p)) ->
  inv O (fold_left (fun mb p => put mb (key p) (val p)) ps mb) /\
  forall F : nat * nat -> tensor -> R, (forall j v w, F j (v ++ w) = F j v +' F j w) -> (forall p, In p ps -> small (snd (val p)) = true -> F (key p) [val p] = 0') ->
  bsum (fold_left (fun mb p => put mb (key p) (val p)) ps mb) (fun e => F (fst e) (snd e)) = bsum mb (fun e => F (fst e) (snd e)) +' bsum ps (fun p => F (key p) [val p]).
Proof.
  intros X O key val. induction ps as [|p ps IH]; intros mb Hi Ho; cbn [fold_left].
  - split; [exact Hi|]. intros. rewrite bsum_nil. ring.
  - destruct (IH (put mb (key p) (val p))) as [I1 I2]; [apply put_inv; [exact Hi|apply Ho; now left]|intros; apply Ho; [now right|assumption]|].
    split; [exact I1|]. intros F A S. rewrite I2 by (exact A || (intros; apply S; [now right|assumption])). rewrite bsum_cons. unfold FspModel.put at 1. destruct (small (snd (val p))) eqn:E; [rewrite S by (assumption || now left)|rewrite bsum_append by exact A]; ring.
Qed.

(** *** one part of a tensor *)
Hypothesis small_spec : forall x, small x = true <-> forall xs, nget x xs = 0'.
Variables (li ri : binfo).
Hypothesis Wl : wf L li.
Hypothesis Wr : wf L ri.
Definition block_ok (b : list L * nd R) : Prop := exists ql qm qr sm, fst b = ql :: qm ++ [qr] /\ nshape (snd b) = bget L li ql :: sm ++ [bget L ri qr] /\ 0 < bget L li ql /\ 0 < bget L ri qr.
(* where an operator comes from *)
Definition origin (t : tensor) (k : nat * nat) (x : list L * nd R) : Prop :=
  exists b ql qr sm il ir, In b t /\ fst b = ql :: fst x ++ [qr] /\ nshape (snd b) = bget L li ql :: sm ++ [bget L ri qr] /\ snd x = slice R (snd b) il ir /\ small (snd x) = false /\
  (fst k < length (labels li))%nat /\ (snd k < length (labels ri))%nat /\ 0 <= il < bget L li ql /\ 0 <= ir < bget L ri qr /\ col_state (labels li) (fst k) = (ql, il) /\ col_state (labels ri) (snd k) = (qr, ir).
Definition hit (l r : state) (k : nat * nat) : bool := (if st_dec L l (col_state (labels li) (fst k)) then true else false) && (if st_dec L r (col_state (labels ri) (snd k)) then true else false).
Definition contrib (l r : state) (qm : list L) (xm : list Z) (k : nat * nat) (v : tensor) : R := if hit l r k then elem R L v qm xm else 0'.
Lemma contrib_app : forall l r qm xm k v w, contrib l r qm xm k (v ++ w) = contrib l r qm xm k v +' contrib l r qm xm k w.
Proof. intros. unfold contrib. destruct (hit l r k); [apply elem_app|ring]. Qed.
Lemma slice_nget : forall (b : nd R) nl sm nr il ir xm, nshape b = nl :: sm ++ [nr] -> 0 <= il < nl -> 0 <= ir < nr -> nget (slice R b il ir) xm = nget b (il :: xm ++ [ir]).
Proof using.
  clear. intros b nl sm nr il ir xm E Bl Br. unfold nget, slice. cbn [nshape nval]. rewrite E, mid_cons. cbn [in_shapeb]. rewrite in_shape_app.
  replace ((0 <=? il) && (il <? nl)) with true by lia. replace ((0 <=? ir) && (ir <? nr)) with true by lia. now rewrite andb_true_r.
Qed.
Lemma split_one : forall (t : tensor) b mb, In b t -> block_ok b -> inv (origin t) mb -> exists mb', split_block R L small (starts 0 li) (starts 0 ri) mb b = Some mb' /\ inv (origin t) mb' /\
  forall l r qm xm, bsum mb' (fun e => contrib l r qm xm (fst e) (snd e)) = bsum mb (fun e => contrib l r qm xm (fst e) (snd e)) +' (if tup_eqb L (fst b) (fst l :: qm ++ [fst r]) then nget (snd b) (snd l :: xm ++ [snd r]) else 0').
Proof.
  intros t b mb Ib (ql & qm' & qr & sm & Eb & Sb & Pl & Pr) Hi. unfold split_block. rewrite Eb. assert (El : last (ql :: qm' ++ [qr]) (q0 L) = qr) by (change (ql :: qm' ++ [qr]) with ((ql :: qm') ++ [qr]); apply last_last). rewrite El.
  destruct (starts_some li 0 ql Pl) as [iil Dl]. destruct (starts_some ri 0 qr Pr) as [iir Dr]. rewrite Dl, Dr. cbn [bind]. rewrite Sb. cbn [hd]. assert (Es : last (bget L li ql :: sm ++ [bget L ri qr]) 0 = bget L ri qr) by (change (bget L li ql :: sm ++ [bget L ri qr]) with ((bget L li ql :: sm) ++ [bget L ri qr]); apply last_last). rewrite Es, mid_cons.
  set (ps := list_prod (zrange (bget L li ql)) (zrange (bget L ri qr))). assert (Hp : forall p, In p ps -> 0 <= fst p < bget L li ql /\ 0 <= snd p < bget L ri qr) by (intros [i j] I; apply in_prod_iff in I; rewrite !in_zrange in I; exact I).
  destruct (puts_ok (Z * Z) (origin t) (fun p => ((iil + Z.to_nat (fst p))%nat, (iir + Z.to_nat (snd p))%nat)) (fun p => (qm', slice R (snd b) (fst p) (snd p))) ps mb Hi) as [I1 I2].
  { intros p Ip Sp. destruct (Hp p Ip) as [Bl Br]. destruct (starts_state li ql iil (fst p) Wl Dl Bl) as [A1 A2]. destruct (starts_state ri qr iir (snd p) Wr Dr Br) as [A3 A4].
    exists b, ql, qr, sm, (fst p), (snd p). cbn [fst snd]. repeat (split; [assumption || reflexivity|]). exact A4. }
  eexists. split; [reflexivity|]. split; [exact I1|]. intros l r qm xm.
  rewrite (I2 (contrib l r qm xm)); [|intros; apply contrib_app|].
  2:{ intros p Ip Sp. cbn [snd] in Sp. unfold contrib. destruct (hit l r _); [|reflexivity]. rewrite elem_cons. cbn [fst snd]. rewrite (proj1 (small_spec _) Sp). unfold elem. rewrite bsum_nil. destruct (tup_eqb L qm' qm); ring. }
  f_equal. assert (Hh : forall p, In p ps -> hit l r ((iil + Z.to_nat (fst p))%nat, (iir + Z.to_nat (snd p))%nat) = true <-> l = (ql, fst p) /\ r = (qr, snd p)).
  { intros p Ip. destruct (Hp p Ip) as [Bl Br]. destruct (starts_state li ql iil (fst p) Wl Dl Bl) as [_ A2]. destruct (starts_state ri qr iir (snd p) Wr Dr Br) as [_ A4]. unfold hit. cbn [fst snd]. rewrite A2, A4. destruct (st_dec L l (ql, fst p)), (st_dec L r (qr, snd p)); cbn [andb]; intuition congruence. }
  assert (Hv : forall p, contrib l r qm xm ((iil + Z.to_nat (fst p))%nat, (iir + Z.to_nat (snd p))%nat) [(qm', slice R (snd b) (fst p) (snd p))] =
     if hit l r ((iil + Z.to_nat (fst p))%nat, (iir + Z.to_nat (snd p))%nat) then (if tup_eqb L qm' qm then nget (slice R (snd b) (fst p) (snd p)) xm else 0') else 0').
  { intros p. unfold contrib. destruct (hit l r _); [|reflexivity]. rewrite elem_cons. cbn [fst snd]. unfold elem. rewrite bsum_nil. ring. }
  destruct (tup_eqb_spec L (ql :: qm' ++ [qr]) (fst l :: qm ++ [fst r])) as [E|N].
  - apply (key_split L) in E. destruct E as (-> & -> & ->). destruct l as [ql l], r as [qr r]. cbn [fst snd] in *.
    assert (D : (0 <= l < bget L li ql /\ 0 <= r < bget L ri qr) \/ ~ (0 <= l < bget L li ql /\ 0 <= r < bget L ri qr)) by lia. destruct D as [[Bl Br]|D].
    + assert (Ip : In (l, r) ps) by (apply in_prod_iff; rewrite !in_zrange; auto).
      rewrite (bsum_single R _ ps _ (l, r)); [|apply NoDup_prod; apply zrange_nodup|exact Ip|].
      * rewrite Hv. rewrite (proj2 (Hh _ Ip)) by (split; reflexivity). cbn [fst snd]. destruct (tup_eqb_spec L qm qm); [|congruence]. apply (slice_nget _ _ _ _ _ _ _ Sb Bl Br).
      * intros p I Ne. rewrite Hv. destruct (hit _ _ _) eqn:Hx; [|reflexivity]. apply (Hh p I) in Hx. destruct Hx as [H1 H2]. elim Ne. destruct p. cbn [fst snd] in *. congruence.
    + rewrite nget_out. 2:{ rewrite Sb. intros B. apply in_shapeb_spec in B. cbn [in_shapeb] in B. rewrite in_shape_app in B. apply D. lia. }
      apply bsum_zero. intros p I. rewrite Hv. destruct (hit _ _ _) eqn:Hx; [|reflexivity]. apply (Hh p I) in Hx. destruct Hx as [H1 H2]. injection H1 as ->. injection H2 as ->. elim D. now apply Hp.
  - apply bsum_zero. intros p I. rewrite Hv. destruct (hit _ _ _) eqn:Hx; [|reflexivity]. apply (Hh p I) in Hx. destruct Hx as [-> ->]. cbn [fst] in N. destruct (tup_eqb_spec L qm' qm) as [->|]; [now elim N|reflexivity].
Qed.
Lemma split_all : forall (t bs : tensor) mb, (forall b, In b bs -> In b t /\ block_ok b) -> inv (origin t) mb -> exists mb', foldM (split_block R L small (starts 0 li) (starts 0 ri)) mb bs = Some mb' /\ inv (origin t) mb' /\
  forall l r qm xm, bsum mb' (fun e => contrib l r qm xm (fst e) (snd e)) = bsum mb (fun e => contrib l r qm xm (fst e) (snd e)) +' elem R L bs (fst l :: qm ++ [fst r]) (snd l :: xm ++ [snd r]).
Proof.
  intros t. induction bs as [|b bs IH]; intros mb H Hi; cbn [foldM].
  - exists mb. split; [reflexivity|]. split; [exact Hi|]. intros. unfold elem. rewrite bsum_nil. ring.
  - destruct (H b (or_introl eq_refl)) as [Ib Ob]. destruct (split_one t b mb Ib Ob Hi) as (m1 & E1 & I1 & V1). rewrite E1. cbn [bind].
    destruct (IH m1) as (m2 & E2 & I2 & V2); [intros; apply H; now right|exact I1|]. exists m2. split; [exact E2|]. split; [exact I2|]. intros. rewrite V2, V1, elem_cons. ring.
Qed.
Lemma split_ok : forall t, (forall b, In b t -> block_ok b) -> exists mb, split_blocks R L small li ri t = Some mb /\ inv (origin t) mb /\
  forall l r qm xm, bsum mb (fun e => contrib l r qm xm (fst e) (snd e)) = elem R L t (fst l :: qm ++ [fst r]) (snd l :: xm ++ [snd r]).
Proof.
  intros t H. destruct (split_all t t []) as (mb & E & I & V); [auto|split; [constructor|intros k v []]|]. exists mb. split; [exact E|]. split; [exact I|]. intros. rewrite V, bsum_nil. ring.
Qed.
End Fsp.
