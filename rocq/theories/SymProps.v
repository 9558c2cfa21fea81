(** Properties C01-C04: integer codes and arithmetic of quantum labels.
    [in_window], [sz_ok], [u1_ok], [u11_ok], [spec_total], [pair_total] (SymProofs.v) are the
    specification notions; the functions named sz_*, u1_*, u11_* are the model of the code. *)
From Coq Require Import ZArith Bool List Ascii Lia.
From Verif Require Import SymModel SymProofs.
Import ListNotations.
Open Scope Z_scope.

(** ** C01 *)
Theorem c01_sz_code_lossless :
  forall a b, sz_ok a -> sz_ok b ->
    sz_from_flat (sz_to_flat a) = a
    /\ (sz_to_flat a = sz_to_flat b -> a = b)
    /\ sz_ltb a b = (sz_to_flat a <? sz_to_flat b)
    /\ sz_is_flat_fermion (sz_to_flat a) = sz_is_fermion a
    /\ 0 <= sz_to_flat a < 2 ^ 31.
Proof.
  intros a b Ha Hb. repeat split.
  - now apply sz_roundtrip.
  - now apply sz_flat_inj.
  - now apply sz_flat_order.
  - now apply sz_flat_fermion.
  - now apply sz_code_range.
  - now apply sz_code_range.
Qed.
Print Assumptions c01_sz_code_lossless.

(* every 31-bit integer is the code of exactly one label of the window *)
Theorem c01_sz_code_onto :
  forall x, 0 <= x < 2 ^ 31 -> exists q, sz_ok q /\ sz_to_flat q = x /\ sz_from_flat x = q.
Proof.
  intros x Hx. exists (sz_from_flat x).
  destruct (sz_roundtrip_code x Hx). auto.
Qed.
Print Assumptions c01_sz_code_onto.

Theorem c01_u1_code_lossless :
  forall c a b, u1_ok c a -> u1_ok c b ->
    u1_from_flat c (u1_to_flat c a) = a
    /\ (u1_to_flat c a = u1_to_flat c b -> a = b)
    /\ u1_ltb a b = (u1_to_flat c a <? u1_to_flat c b).
Proof.
  intros c a b Ha Hb. repeat split.
  - now apply u1_roundtrip.
  - intros E. rewrite <- (u1_roundtrip c a Ha), <- (u1_roundtrip c b Hb). congruence.
  - now apply u1_flat_order.
Qed.
Print Assumptions c01_u1_code_lossless.

Theorem c01_u11_code_lossless :
  forall c a b, u11_ok c a -> u11_ok c b ->
    u11_from_flat c (u11_to_flat c a) = a
    /\ (u11_to_flat c a = u11_to_flat c b -> a = b)
    /\ u11_ltb a b = (u11_to_flat c a <? u11_to_flat c b).
Proof.
  intros c a b Ha Hb. repeat split.
  - now apply u11_roundtrip.
  - intros E. rewrite <- (u11_roundtrip c a Ha), <- (u11_roundtrip c b Hb). congruence.
  - now apply u11_flat_order.
Qed.
Print Assumptions c01_u11_code_lossless.

Example c01_ex : sz_ok (mkSZ (-8192) 8191 7) /\ sz_ok (mkSZ 3 (-1) 5)
  /\ sz_from_flat (sz_to_flat (mkSZ (-8192) 8191 7)) = mkSZ (-8192) 8191 7.
Proof. unfold sz_ok, in_window; cbn; repeat split; try lia. Qed.
Example c01_ex_u1 : u1_ok cU1 (-8192) /\ u1_ok cZ2 1 /\ u1_ok cZ4 3.
Proof. unfold u1_ok, in_window; lia. Qed.
Example c01_ex_u11 : u11_ok cU11 (-8192, 8191) /\ u11_ok cZ22 (1, 0).
Proof. unfold u11_ok, in_window; cbn; lia. Qed.

(* The window is sharp: outside it the code is not lossless. *)
Theorem c01_sz_window_sharp_refuted :
  sz_from_flat (sz_to_flat (mkSZ 8192 0 0)) <> mkSZ 8192 0 0
  /\ sz_from_flat (sz_to_flat (mkSZ 0 8192 0)) <> mkSZ 0 8192 0
  /\ sz_from_flat (sz_to_flat (mkSZ 0 0 8)) <> mkSZ 0 0 8
  /\ sz_from_flat (sz_to_flat (mkSZ (-8193) 0 0)) <> mkSZ (-8193) 0 0.
Proof. repeat split; vm_compute; congruence. Qed.
Print Assumptions c01_sz_window_sharp_refuted.

(** ** C02 *)
Theorem c02_sz_group :
  forall a b c,
    sz_add a (sz_add b c) = sz_add (sz_add a b) c
    /\ sz_add a b = sz_add b a
    /\ sz_add (mkSZ 0 0 0) a = a
    /\ sz_add (sz_neg a) a = mkSZ 0 0 0
    /\ sz_sub a b = sz_add a (sz_neg b)
    /\ sz_is_fermion (sz_add a b) = xorb (sz_is_fermion a) (sz_is_fermion b)
    /\ (sz_eqb a b = true <-> a = b).
Proof.
  intros a b c. pose (L := SZ_label).
  split; [apply (qadd_assoc L)|]. split; [apply (qadd_comm L)|]. split; [apply (qadd_0_l L)|].
  split; [apply (qadd_neg L)|]. split; [apply (qsub_def L)|]. split; [apply (qpar_add L)|].
  destruct (sz_eqb_spec a b); split; congruence.
Qed.
Print Assumptions c02_sz_group.

Theorem c02_sz_order :
  forall a b c,
    sz_ltb a a = false
    /\ (sz_ltb a b = true -> sz_ltb b c = true -> sz_ltb a c = true)
    /\ (a = b \/ sz_ltb a b = true \/ sz_ltb b a = true).
Proof.
  intros a b c. pose (L := SZ_label). repeat split.
  - apply (qltb_irrefl L).
  - apply (qltb_trans L).
  - destruct (sz_eqb_spec a b); [auto|right; now apply (qltb_total L)].
Qed.
Print Assumptions c02_sz_order.

(* U1, Z2, Z4: results are reduced labels again and the laws hold on labels *)
Theorem c02_u1_group :
  forall c a b d, u1_lab c a -> u1_lab c b -> u1_lab c d ->
    (u1_lab c (u1_add c a b) /\ u1_lab c (u1_sub c a b) /\ u1_lab c (u1_neg c a) /\ u1_lab c (u1_mk c a))
    /\ u1_add c a (u1_add c b d) = u1_add c (u1_add c a b) d
    /\ u1_add c a b = u1_add c b a
    /\ u1_add c 0 a = a
    /\ u1_add c (u1_neg c a) a = 0
    /\ u1_sub c a b = u1_add c a (u1_neg c b)
    /\ (u1_parity (u1_add c a b) =? 1) = xorb (u1_parity a =? 1) (u1_parity b =? 1).
Proof.
  intros c a b d Ha Hb Hd.
  destruct (u1_closed c a b) as (C1 & C2 & C3 & C4).
  destruct (u1_group c a b d Ha Hb Hd) as (G1 & G2 & G3 & G4 & G5).
  split; [auto|]. split; [exact G1|]. split; [exact G2|].
  split; [rewrite <- G3 at 2; f_equal; now destruct c|].
  split; [rewrite G4; now destruct c|]. split; [exact G5|].
  unfold u1_parity. rewrite <- mod2_add_par. unfold u1_add. f_equal.
  destruct c; unfold u1_mk; auto.
  - apply Zmod_mod.
  - rewrite <- Znumtheory.Zmod_div_mod; try lia. exists 2. lia.
Qed.
Print Assumptions c02_u1_group.

Theorem c02_u11_group :
  forall c a b d, u11_lab c a -> u11_lab c b -> u11_lab c d ->
    (u11_lab c (u11_add c a b) /\ u11_lab c (u11_sub c a b) /\ u11_lab c (u11_neg c a))
    /\ u11_add c a (u11_add c b d) = u11_add c (u11_add c a b) d
    /\ u11_add c a b = u11_add c b a
    /\ u11_add c (0, 0) a = a
    /\ u11_add c (u11_neg c a) a = (0, 0)
    /\ u11_sub c a b = u11_add c a (u11_neg c b)
    /\ (u11_parity (u11_add c a b) =? 1) = xorb (u11_parity a =? 1) (u11_parity b =? 1).
Proof.
  intros c a b d Ha Hb Hd.
  destruct (u11_closed c a b) as (C1 & C2 & C3 & C4).
  destruct (u11_group c a b d Ha Hb Hd) as (G1 & G2 & G3 & G4 & G5).
  split; [auto|]. split; [exact G1|]. split; [exact G2|].
  split; [rewrite <- G3 at 2; f_equal; now destruct c|].
  split; [rewrite G4; now destruct c|]. split; [exact G5|].
  unfold u11_parity. rewrite <- mod2_add_par. unfold u11_add. f_equal.
  destruct c; unfold u11_mk; cbn [fst snd]; auto. apply Zmod_mod.
Qed.
Print Assumptions c02_u11_group.

(* strict total order on U1-family and U11-family labels *)
Theorem c02_u_order :
  (forall a b c, u1_ltb a a = false
     /\ (u1_ltb a b = true -> u1_ltb b c = true -> u1_ltb a c = true)
     /\ (a = b \/ u1_ltb a b = true \/ u1_ltb b a = true))
  /\ (forall a b c, u11_ltb a a = false
     /\ (u11_ltb a b = true -> u11_ltb b c = true -> u11_ltb a c = true)
     /\ (a = b \/ u11_ltb a b = true \/ u11_ltb b a = true)).
Proof.
  split.
  - intros a b c. unfold u1_ltb. rewrite !Z.ltb_lt. split; [apply Z.ltb_irrefl|]. lia.
  - intros a b c. pose (L := U11_label). repeat split.
    + apply (qltb_irrefl L).
    + apply (qltb_trans L).
    + destruct (qeqb_spec L a b) as [E|E]; [left; exact E|right; now apply (qltb_total L)].
Qed.
Print Assumptions c02_u_order.

Example c02_ex : u1_lab cZ4 3 /\ u1_lab cZ4 2 /\ u1_add cZ4 3 2 = 1 /\ u11_lab cZ22 (1, 1)
  /\ sz_add (mkSZ 1 1 3) (mkSZ (-2) 1 5) = mkSZ (-1) 2 6.
Proof. unfold u1_lab, u11_lab; cbn; repeat split; lia. Qed.

(** ** C03 *)
Theorem c03_u1_flat_shortcuts :
  forall c a, u1_lab c a ->
    u1_flip_flat c (u1_to_flat c a) = u1_to_flat c (u1_neg c a)
    /\ u1_flat_to_parity c (u1_to_flat c a) = u1_parity a.
Proof. intros; split; [now apply u1_flip|now apply u1_flat_parity]. Qed.
Print Assumptions c03_u1_flat_shortcuts.

Theorem c03_u11_flat_shortcuts :
  forall c a, u11_ok c a ->
    u11_flip_flat c (u11_to_flat c a) = u11_to_flat c (u11_neg c a)
    /\ u11_flat_to_parity c (u11_to_flat c a) = u11_parity a.
Proof.
  intros c a H; split; [|now apply u11_flat_parity].
  apply u11_flip. destruct c; cbn in *; auto.
Qed.
Print Assumptions c03_u11_flat_shortcuts.

(* decoding the flipped code gives the negated label, when that label is in the window *)
Theorem c03_flip_decodes :
  (forall c a, u1_ok c a -> u1_ok c (u1_neg c a) ->
     u1_from_flat c (u1_flip_flat c (u1_to_flat c a)) = u1_neg c a)
  /\ (forall c a, u11_ok c a -> u11_ok c (u11_neg c a) ->
     u11_from_flat c (u11_flip_flat c (u11_to_flat c a)) = u11_neg c a).
Proof.
  split; intros c a H H'.
  - rewrite u1_flip; [now apply u1_roundtrip|]. destruct c; cbn in *; auto.
  - rewrite u11_flip; [now apply u11_roundtrip|]. destruct c; cbn in *; auto.
Qed.
Print Assumptions c03_flip_decodes.

Example c03_ex : u11_ok cU11 (-3, 5) /\ u11_ok cU11 (u11_neg cU11 (-3, 5))
  /\ u11_from_flat cU11 (u11_flip_flat cU11 (u11_to_flat cU11 (-3, 5))) = (3, -5).
Proof. split; [|split; [|reflexivity]]; unfold u11_ok, in_window; cbn; lia. Qed.

(* the edge of the window: -(-8192) is not representable, the flipped U11 code decodes to another label *)
Theorem c03_flip_edge_refuted :
  exists a, u11_ok cU11 a /\ u11_from_flat cU11 (u11_flip_flat cU11 (u11_to_flat cU11 a)) <> u11_neg cU11 a.
Proof. exists (-8192, 0). split; [unfold u11_ok, in_window; cbn; lia|vm_compute; congruence]. Qed.
Print Assumptions c03_flip_edge_refuted.

(** ** C04 *)
Definition off_pm {A} (o : option (ascii * A)) : Prop :=
  match o with None => True | Some (ix, _) => ix = "+"%char \/ ix = "-"%char end.
Definition off_all {A} (P : A -> Prop) (o : option (ascii * A)) : Prop :=
  match o with None => True | Some (_, d) => P d end.

Theorem c04_u1_compute :
  forall c pat qs off neg,
    qs <> [] -> length pat = length qs ->
    Forall (fun ch => ch = "+"%char \/ ch = "-"%char) pat -> off_pm off ->
    Forall (u1_lab c) qs -> off_all (u1_lab c) off ->
    u1_compute_obj c pat qs off neg = Some (u1_mk c (spec_total pat qs off neg))
    /\ u1_compute_row c pat (map (u1_to_flat c) qs) (off_map (u1_to_flat c) off) neg
       = Some (u1_to_flat c (u1_mk c (spec_total pat qs off neg)))
    /\ (u1_ok c (u1_mk c (spec_total pat qs off neg)) ->
        u1_from_flat c (u1_to_flat c (u1_mk c (spec_total pat qs off neg)))
        = u1_mk c (spec_total pat qs off neg)).
Proof.
  intros c pat qs off neg H1 H2 H3 H4 H5 H6. split; [|split].
  - apply u1_obj_spec; auto; destruct off as [[? ?]|]; auto.
  - apply u1_row_spec; auto; destruct off as [[? ?]|]; cbn in *; auto.
  - intros. now apply u1_roundtrip.
Qed.
Print Assumptions c04_u1_compute.

Theorem c04_u11_compute :
  forall c pat qs off neg,
    qs <> [] -> length pat = length qs ->
    Forall (fun ch => ch = "+"%char \/ ch = "-"%char) pat -> off_pm off ->
    Forall (u11_ok c) qs -> off_all (u11_ok c) off ->
    let r := u11_mk c (fst (pair_total pat qs off neg)) (snd (pair_total pat qs off neg)) in
    u11_compute_obj c pat qs off neg = Some r
    /\ u11_compute_row c pat (map (u11_to_flat c) qs) (off_map (u11_to_flat c) off) neg
       = Some (u11_to_flat c r)
    /\ (u11_ok c r -> u11_from_flat c (u11_to_flat c r) = r).
Proof.
  intros c pat qs off neg H1 H2 H3 H4 H5 H6 r. split; [|split].
  - apply u11_obj_spec; auto; destruct off as [[? ?]|]; auto.
  - apply u11_row_spec; auto; destruct off as [[? ?]|]; cbn in *; auto.
  - intros. now apply u11_roundtrip.
Qed.
Print Assumptions c04_u11_compute.

Example c04_ex :
  u11_compute_obj cU11 ["+"; "-"; "+"]%char [(3, 1); (1, -1); (2, 0)] (Some ("-"%char, (1, 1))) true
  = Some (-3, -1)
  /\ u11_compute_row cU11 ["+"; "-"; "+"]%char (map (u11_to_flat cU11) [(3, 1); (1, -1); (2, 0)])
       (Some ("-"%char, u11_to_flat cU11 (1, 1))) true
  = Some (u11_to_flat cU11 (-3, -1)).
Proof. split; vm_compute; reflexivity. Qed.
