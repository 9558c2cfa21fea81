(** C84: elementwise operations and norm of large fermion tensors. *)
From Coq Require Import ZArith Bool List Lia Ring.
From Verif Require Import RingLib OptLib LargeModel LargeProps LargeOpsModel.
Import ListNotations.

(* specification: a function applied to every element of the blocks; the place of a block *)
Definition on_block (K : CRing) (f : K -> K) (b : block K) : block K := mkB K (b_q K b) (b_sh K b) (fun ix => f (b_val K b ix)).
Definition place_of (K : CRing) (infos : list info) (b : block K) : list nat := map (fun p => below (snd p) (fst p)) (combine infos (b_q K b)).
Definition outside (K : CRing) (infos : list info) (bs : list (block K)) (ix : list nat) : Prop :=
  forall b j, In b bs -> Forall2 lt j (b_sh K b) -> ix <> plus (place_of K infos b) j.

Lemma slice_out : forall pidx sh ix, length sh = length pidx -> in_slice pidx sh ix = true -> Forall2 lt (minus ix pidx) sh /\ plus pidx (minus ix pidx) = ix.
Proof.
  intros pidx. induction pidx as [|p pidx IH]; intros [|e sh] [|x ix] L H; try discriminate; [split; [constructor|reflexivity]|].
  unfold in_slice in H. apply andb_true_iff in H as [H1 H2]. cbn [combine forallb] in H2. apply andb_true_iff in H2 as [H2 H3]. apply andb_true_iff in H2 as [H2 H4].
  apply Nat.leb_le in H2. apply Nat.ltb_lt in H4. destruct (IH sh ix) as [A B]; [now injection L| |].
  - unfold in_slice. cbn [length Nat.eqb] in H1. rewrite H1. exact H3.
  - split; [constructor; [cbn; lia|exact A]|]. unfold plus, minus in *. cbn [combine map fst snd]. rewrite B. f_equal. lia.
Qed.

(* the blocks of the result are the function of the blocks *)
Theorem c84_blocks : forall (K : CRing) (f : K -> K) shape infos bs, tensor_ok K shape infos bs -> exists t infos',
  from_flat K shape infos bs = Some (t, infos') /\ Forall2 (same K) (map (on_block K f) bs) (to_flat K (elementwise K f t)).
Proof.
  intros K f shape infos bs H. destruct (c81_roundtrip K shape infos bs H) as (t & i & E & S & _). exists t, i. split; [exact E|].
  assert (Q : to_flat K (elementwise K f t) = map (on_block K f) (to_flat K t)).
  { unfold to_flat, elementwise. cbn [l_blocks l_shape l_data]. rewrite map_map. apply map_ext. intros [[q sh] a]. reflexivity. }
  rewrite Q. clear - S. induction S as [|b c bs cs (A & B & C) S IH]; [constructor|]. cbn [map]. constructor; [|exact IH].
  split; [exact A|]. split; [exact B|]. intros ix Hx. cbn in *. now rewrite (C ix Hx).
Qed.
Print Assumptions c84_blocks.
Theorem c84_add : forall (K : CRing) (c : K) shape infos bs, tensor_ok K shape infos bs -> exists t infos',
  from_flat K shape infos bs = Some (t, infos') /\ Forall2 (same K) (map (on_block K (fun x => radd K x c)) bs) (to_flat K (add_number K c t)).
Proof. intros K c shape infos bs H. exact (c84_blocks K (fun x => radd K x c) shape infos bs H). Qed.
Print Assumptions c84_add.

(* the array of a converted tensor is 0 outside the blocks, and stays 0 there if the function is 0 at 0 *)
Theorem c84_padding : forall (K : CRing) (f : K -> K) shape infos bs, tensor_ok K shape infos bs -> f (r0 K) = r0 K -> exists t infos',
  from_flat K shape infos bs = Some (t, infos') /\ forall ix, outside K infos bs ix -> l_data K (elementwise K f t) ix = r0 K.
Proof.
  intros K f shape infos bs (F & B & N) F0. assert (Pl : forall b, In b bs -> placed K shape infos b) by (intros b I; apply ok_placed; [exact F|now apply B]).
  destruct (put_all K shape infos bs [] (fun _ => r0 K) Pl N) as (data & E & _ & O).
  exists (mkL K shape (map (entry K shape infos) bs) data), (map offsets infos). split; [unfold from_flat; rewrite E; reflexivity|].
  intros ix H. cbn [elementwise l_data]. rewrite O; [exact F0|]. intros b I. destruct (inb K infos b ix) eqn:X; [|reflexivity]. exfalso.
  destruct (Pl b I) as [_ P]. destruct (place_facts _ _ _ _ _ P) as (L & _ & _).
  destruct (slice_out (pos K infos b) (b_sh K b) ix) as [S1 S2]; [now symmetry|exact X|]. apply (H b (minus ix (pos K infos b)) I S1).
  assert (Q : place_of K infos b = pos K infos b).
  { unfold place_of. clear -P. induction P as [|i s q e o infos shape qs es os (N & D & T) I E P IH]; [reflexivity|]. cbn [combine map fst snd]. rewrite IH. f_equal. rewrite (offsets_below i q e N I) in E. now injection E. }
  now rewrite Q, S2.
Qed.
Print Assumptions c84_padding.

(* sums over the dense array *)
Section Zero.
Variable K : CRing.
Add Ring Rr84 : (rth K).
Lemma mul00 : rmul K (r0 K) (r0 K) = r0 K.
Proof. ring. Qed.
Lemma add0l : forall x, radd K (r0 K) x = x.
Proof. intros. ring. Qed.
Lemma add0r : forall x, radd K x (r0 K) = x.
Proof. intros. ring. Qed.
End Zero.
Lemma range_sum : forall (K : CRing) (h : nat -> K) p e n, (p + e <= n)%nat ->
  bsum (seq 0 n) (fun i => if (p <=? i)%nat && (i <? p + e)%nat then h (i - p)%nat else r0 K) = bsum (seq 0 e) h.
Proof.
  intros K h p e n H. replace n with (p + (e + (n - p - e)))%nat by lia. rewrite !seq_app, !bsum_app. cbn [Nat.add].
  rewrite (bsum_zero K _ (seq 0 p)), (bsum_zero K _ (seq (p + e) _)).
  - assert (S : forall e s, seq (p + s) e = map (Nat.add p) (seq s e)).
    { induction e0 as [|k IH]; intros s; [reflexivity|]. cbn [seq map]. f_equal. rewrite <- IH. f_equal. lia. }
    rewrite <- (Nat.add_0_r p) at 1. rewrite S, bsum_map. rewrite add0l, add0r.
    apply bsum_ext. intros i I. apply in_seq in I. destruct (Nat.leb_spec p (p + i)); [|lia]. destruct (Nat.ltb_spec (p + i) (p + e)); [|lia]. cbn [andb]. f_equal. lia.
  - intros i I. apply in_seq in I. destruct (Nat.ltb_spec i (p + e)); [lia|]. now rewrite andb_false_r.
  - intros i I. apply in_seq in I. destruct (Nat.leb_spec p i); [lia|]. reflexivity.
Qed.
Lemma slice_sum : forall (K : CRing) shape os sh (g : list nat -> K), length os = length sh -> length os = length shape -> fits shape os sh = true ->
  bsum (indices shape) (fun ix => if in_slice os sh ix then g (minus ix os) else r0 K) = bsum (indices sh) g.
Proof.
  intros K shape. induction shape as [|n shape IH]; intros [|p os] [|e sh] g L1 L2 F; try discriminate; [reflexivity|].
  unfold fits in F. cbn [combine forallb] in F. apply andb_true_iff in F as [F1 F2]. apply Nat.leb_le in F1.
  cbn [indices]. rewrite !bsum_flat_map.
  rewrite <- (range_sum K (fun k => bsum (map (cons k) (indices sh)) g) p e n F1). apply bsum_ext. intros i _. rewrite !bsum_map.
  destruct ((p <=? i)%nat && (i <? p + e)%nat) eqn:A.
  - rewrite <- (IH os sh (fun j => g ((i - p)%nat :: j))); [|now injection L1|now injection L2|exact F2].
    apply bsum_ext. intros ix _. rewrite in_slice_cons, A. reflexivity.
  - apply bsum_zero. intros ix _. rewrite in_slice_cons, A. reflexivity.
Qed.
Lemma pick_block : forall (K : CRing) shape infos (G : K) (F : block K -> K) ix bs, (forall b, In b bs -> placed K shape infos b) -> NoDup (map (b_q K) bs) ->
  (forall b, In b bs -> inb K infos b ix = true -> G = F b) -> ((forall b, In b bs -> inb K infos b ix = false) -> G = r0 K) ->
  G = bsum bs (fun b => if inb K infos b ix then F b else r0 K).
Proof.
  intros K shape infos G F ix bs. induction bs as [|b bs IH]; intros Pl N H0 H1; [apply H1; intros b []|].
  cbn [map] in N. apply NoDup_cons_iff in N as [Nb N]. rewrite bsum_cons. destruct (inb K infos b ix) eqn:X.
  - rewrite bsum_zero.
    + rewrite add0r. apply H0; [now left|exact X].
    + intros b' I. rewrite (apart K shape infos b b' ix); [reflexivity|apply Pl; now left|apply Pl; now right| |exact X].
      intros E. apply Nb. rewrite E. now apply in_map.
  - rewrite add0l. apply IH; [intros; apply Pl; now right|exact N|intros; apply H0; [now right|assumption]|].
    intros Z. apply H1. intros b' [<-|I]; [exact X|now apply Z].
Qed.
(* the norm is then that of the blocks *)
Theorem c84_norm : forall (K : CRing) (f : K -> K) shape infos bs, tensor_ok K shape infos bs -> f (r0 K) = r0 K -> exists t infos',
  from_flat K shape infos bs = Some (t, infos') /\ norm2 K (elementwise K f t) = flat_norm2 K (map (on_block K f) bs).
Proof.
  intros K f shape infos bs (F & B & N) F0. assert (Pl : forall b, In b bs -> placed K shape infos b) by (intros b I; apply ok_placed; [exact F|now apply B]).
  destruct (put_all K shape infos bs [] (fun _ => r0 K) Pl N) as (data & E & A & O).
  exists (mkL K shape (map (entry K shape infos) bs) data), (map offsets infos). split; [unfold from_flat; rewrite E; reflexivity|].
  change (bsum (indices shape) (fun ix => rmul K (f (data ix)) (f (data ix))) =
    bsum (map (on_block K f) bs) (fun b => bsum (indices (b_sh K b)) (fun ix => rmul K (b_val K b ix) (b_val K b ix)))).
  rewrite bsum_map. cbn [on_block b_sh b_val].
  transitivity (bsum (indices shape) (fun ix => bsum bs (fun b => if inb K infos b ix then rmul K (f (b_val K b (minus ix (pos K infos b)))) (f (b_val K b (minus ix (pos K infos b)))) else r0 K))).
  - apply bsum_ext. intros ix _.
    apply (pick_block K shape infos _ (fun b => rmul K (f (b_val K b (minus ix (pos K infos b)))) (f (b_val K b (minus ix (pos K infos b))))) ix bs Pl N).
    + intros b I X. now rewrite (A b ix I X).
    + intros Z. rewrite (O ix Z), F0. apply mul00.
  - rewrite bsum_swap. apply bsum_ext. intros b I. destruct (Pl b I) as [_ P]. destruct (place_facts _ _ _ _ _ P) as (L & Lt & Fi).
    apply (slice_sum K shape (pos K infos b) (b_sh K b) (fun j => rmul K (f (b_val K b j)) (f (b_val K b j)))); [exact L|clear - Lt; induction Lt; cbn; congruence|exact Fi].
Qed.
Print Assumptions c84_norm.

(* two diagonal blocks of one element 1: adding 1 also fills the two places outside the blocks, so the norm is not that of the blocks *)
Definition one (q : Z) : block Z_ring := mkB Z_ring [q; q] [1; 1]%nat (fun _ => 1%Z).
Definition two_infos : list info := [[(0%Z, 1%nat); (1%Z, 1%nat)]; [(0%Z, 1%nat); (1%Z, 1%nat)]].
Lemma two_ok : tensor_ok Z_ring [2; 2]%nat two_infos [one 0; one 1].
Proof.
  split; [|split].
  - constructor; [leg|constructor; [leg|constructor]].
  - intros b [<-|[<-|[]]]; (split; [reflexivity|]); cbn; repeat (constructor; [cbn; tauto|]); constructor.
  - repeat constructor; cbn; [intros [H|[]]; discriminate H|intros H; exact H].
Qed.
Theorem c84_norm_refuted : exists shape infos bs, tensor_ok Z_ring shape infos bs /\
  match from_flat Z_ring shape infos bs with
  | Some (t, _) => norm2 Z_ring t = flat_norm2 Z_ring bs /\
      norm2 Z_ring (add_number Z_ring 1%Z t) <> flat_norm2 Z_ring (map (on_block Z_ring (fun x => (x + 1)%Z)) bs)
  | None => False end.
Proof. exists [2; 2]%nat, two_infos, [one 0; one 1]. split; [exact two_ok|]. vm_compute. split; [reflexivity|discriminate]. Qed.
Print Assumptions c84_norm_refuted.

Example c84_ex : match from_flat Z_ring [3; 5]%nat ex_infos ex_bs with
  | Some (t, _) => let u := elementwise Z_ring (fun x => (3 * x)%Z) t in
      (l_data Z_ring u [1; 1]%nat, l_data Z_ring u [0; 4]%nat, l_data Z_ring u [0; 0]%nat) = (330%Z, 660%Z, 0%Z)
      /\ norm2 Z_ring u = (9 * flat_norm2 Z_ring ex_bs)%Z /\ flat_norm2 Z_ring ex_bs = 177122%Z
  | None => False end.
Proof. vm_compute. repeat split. Qed.
