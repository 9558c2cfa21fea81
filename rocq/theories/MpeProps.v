(** Properties C22, C23, C43: cached environments and the disk cache. *)
From Coq Require Import ZArith Bool List String Lia.
From Verif Require Import DictLib IndexLib MpeModel MpeProofs.
Import ListNotations.
Open Scope Z_scope.

(** ** C22: the disk cache *)
Definition empty_cache (V : Type) : cache V := mkCache V [] [].

(* what a load returns in general: the last save made while the name was not cached *)
Theorem c22_loads_see_uncached_saves :
  forall (V : Type) (maxsize : Z) (h : list (cop V)),
  option_map snd (crun V maxsize (empty_cache V) h)
  = naive V (fun _ => None) (without_noop_saves V maxsize (empty_cache V) h).
Proof.
  intros V m h. rewrite crun_naive.
  - reflexivity.
  - split; [constructor|intros ? ? []].
Qed.
Print Assumptions c22_loads_see_uncached_saves.

(* transparent when no name is saved again while it is still cached *)
Theorem c22_transparent_without_resaves :
  forall (V : Type) (maxsize : Z) (h : list (cop V)),
  without_noop_saves V maxsize (empty_cache V) h = h ->
  option_map snd (crun V maxsize (empty_cache V) h) = naive V (fun _ => None) h.
Proof. intros V m h H. now rewrite c22_loads_see_uncached_saves, H. Qed.
Print Assumptions c22_transparent_without_resaves.

(* in particular for capacity 0, whatever the history *)
Theorem c22_transparent_capacity_zero :
  forall (V : Type) (maxsize : Z) (h : list (cop V)) vs, maxsize <= 0 ->
  naive V (fun _ => None) h = Some vs -> option_map snd (crun V maxsize (empty_cache V) h) = Some vs.
Proof.
  intros V m h vs Hm Hv. rewrite c22_loads_see_uncached_saves. rewrite without_noop_small; auto. exists vs. exact Hv.
Qed.
Print Assumptions c22_transparent_capacity_zero.

(* FINDING: for every capacity of at least one entry some history makes a load return an old value *)
Theorem c22_transparent_refuted :
  forall maxsize, 1 <= maxsize -> exists h : list (cop Z),
    naive Z (fun _ => None) h = Some [2] /\ option_map snd (crun Z maxsize (empty_cache Z) h) = Some [1].
Proof.
  intros m Hm. exists [Save Z "a" 1; Save Z "a" 2; Load Z "a"]. split; [reflexivity|].
  assert (E: (1 >? m) = false) by (rewrite Z.gtb_ltb; apply Z.ltb_ge; lia).
  assert (S1: save_data Z m (empty_cache Z) "a" 1 = mkCache Z [("a"%string, 1, false)] []).
  { unfold save_data, evict. cbn -[Z.gtb]. now rewrite E. }
  cbn [crun]. rewrite S1. reflexivity.
Qed.
Print Assumptions c22_transparent_refuted.

Example c22_case :
  let h := [Save Z "a" 1; Save Z "b" 2; Save Z "c" 3; Load Z "a"; Load Z "c"; Save Z "b" 7; Load Z "b"] in
  without_noop_saves Z 1 (empty_cache Z) h = h /\
  option_map snd (crun Z 1 (empty_cache Z) h) = Some [1; 3; 7].
Proof. split; vm_compute; reflexivity. Qed.

(** ** A tensor network: site tensors, bond matrices, environments, and the laws canonicalisation obeys *)
Record Net := {
  T : Type; R : Type; E : Type; M : Type; G : Type;
  idL : E; idR : E;
  lcanon : T -> T * R; rcanon : T -> R * T; absl : R -> T -> T; absr : T -> R -> T;
  lstep : E -> M -> T -> T -> E; rstep : M -> E -> T -> T -> E;
  leftc : T -> Prop; rightc : T -> Prop;
  gm : G -> G -> G; ge : G; vT : T -> G; vR : R -> G;
  lcanon_left : forall t, leftc (fst (lcanon t));
  rcanon_right : forall t, rightc (snd (rcanon t));
  gm_assoc : forall a b c, gm a (gm b c) = gm (gm a b) c;
  gm_ge : forall a, gm a ge = a;
  lcanon_val : forall t, gm (vT (fst (lcanon t))) (vR (snd (lcanon t))) = vT t;
  rcanon_val : forall t, gm (vR (fst (rcanon t))) (vT (snd (rcanon t))) = vT t;
  absl_val : forall r t, vT (absl r t) = gm (vR r) (vT t);
  absr_val : forall r t, vT (absr t r) = gm (vT t) (vR r)
}.

Section Statements.
Variable net : Net.
Variable mpo : Z -> M net.
Variable n : Z.
Variable dc : bool.

Definition nrun := MpeModel.run (T net) (R net) (E net) (M net) (idL net) (idR net) mpo n dc
  (lcanon net) (rcanon net) (absl net) (absr net) (lstep net) (rstep net).
Definition neff := MpeModel.effective (T net) (R net) (E net) (M net) (idL net) (idR net) mpo n dc
  (lcanon net) (rcanon net) (absl net) (absr net) (lstep net) (rstep net).
Definition Lfresh := Lspec (T net) (E net) (M net) (idL net) mpo (lstep net).
Definition Rfresh := Rspec (T net) (E net) (M net) (idR net) mpo n (rstep net).
(* the vector a chain of n tensors stands for *)
Definition value (f : Z -> T net) : G net := chain (T net) (G net) (gm net) (ge net) (vT net) f (zrange n).

Definition valid (l r : Z) : Prop := 0 <= l /\ l < r /\ r <= n.

(* one action of an algorithm: read a window, write a window, or build-read-write (what the sweeps do) *)
Inductive act :=
| ARead (l r : Z)
| AWrite (l r : Z) (nk nb : Z -> T net) (me_same : bool)
| AVisit (l r : Z) (nk nb : Z -> T net) (me_same : bool).
Definition ops_of (a : act) : list (op (T net)) :=
  match a with
  | ARead l r => [Read (T net) l r]
  | AWrite l r nk nb ms => [Write (T net) l r nk nb ms]
  | AVisit l r nk nb ms => [Build (T net) l r; Read (T net) l r; Write (T net) l r nk nb ms]
  end.
Definition valid_act (a : act) : Prop :=
  match a with ARead l r => valid l r | AWrite l r _ _ _ => valid l r | AVisit l r _ _ _ => valid l r end.

Notation coherent' := (coherent (T net) (E net) (M net) (idL net) (idR net) mpo n dc (lstep net) (rstep net) (leftc net) (rightc net)).
Notation good' := (good (T net) (E net) (M net) (idL net) (idR net) mpo n dc (lstep net) (rstep net) (leftc net) (rightc net)).
Notation build' := (build_envs (T net) (R net) (E net) (M net) (idL net) (idR net) mpo n dc
  (lcanon net) (rcanon net) (absl net) (absr net) (lstep net) (rstep net)).
Notation equiv' := (equiv (T net) (E net) n (G net) (gm net) (ge net) (vT net)).

Lemma build_good' : forall s l r, valid l r -> good' s l r ->
  exists s', build' s l r = Some s' /\ good' s' l r /\ equiv' s s' /\
    (exists e, lenv _ _ s' (l - 1) = Some e) /\ (exists e, renv _ _ s' r = Some e).
Proof.
  intros s l r (A & B & C) H. eapply build_good; [apply (lcanon_left net)|apply (rcanon_right net)|apply (gm_assoc net)|apply (gm_ge net)|apply (lcanon_val net)|apply (rcanon_val net)|apply (absl_val net)|apply (absr_val net)|exact A|exact B|exact C|exact H].
Qed.
Lemma effective_facts : forall s l r, valid l r -> good' s l r ->
  exists c f, neff s l r = Some (c, f)
    /\ eL _ _ f = Some (Lfresh (eket _ _ f) (ebra _ _ f) (Z.to_nat l))
    /\ eR _ _ f = Some (Rfresh (eket _ _ f) (ebra _ _ f) (Z.to_nat (n - r)))
    /\ value (eket _ _ f) = value (ket _ _ s) /\ value (ebra _ _ f) = value (bra _ _ s)
    /\ (dc = true -> (forall i, 0 <= i < l -> leftc net (eket _ _ f i) /\ leftc net (ebra _ _ f i)) /\
                     (forall i, r <= i < n -> rightc net (eket _ _ f i) /\ rightc net (ebra _ _ f i))).
Proof.
  intros s l r Hv Hg.
  assert (Hc: good' (copy _ _ s) l r) by (destruct Hg; constructor; auto).
  destruct (build_good' _ l r Hv Hc) as (s' & E1 & [GL GR GdL GdR] & (Q1 & Q2 & _) & (el & El) & (er & Er)).
  destruct Hv as (V1 & V2 & V3).
  exists s', (mkEff _ _ (Some el) (Some er) (ket _ _ s') (bra _ _ s')). split.
  - unfold neff, effective. rewrite E1, El, Er. reflexivity.
  - cbn. split; [|split; [|split; [|split]]].
    + destruct (GL (l - 1) el) as [-> _]; [lia|exact El|]. replace (l - 1 + 1) with l by lia. reflexivity.
    + destruct (GR r er) as [-> _]; [lia|exact Er|]. reflexivity.
    + exact Q1.
    + exact Q2.
    + intros Hd. split; intros i Hi.
      * destruct (lenv _ _ s' i) as [e|] eqn:Ei.
        { destruct (GL i e) as [_ X]; [lia|exact Ei|]. apply X; auto; lia. }
        { exfalso. destruct (GdL (l - 1)) as [_ X]; [congruence|]. apply (X i); [lia|exact Ei]. }
      * destruct (renv _ _ s' i) as [e|] eqn:Ei.
        { destruct (GR i e) as [_ X]; [lia|exact Ei|]. apply X; auto; lia. }
        { exfalso. destruct (GdR r) as [_ X]; [congruence|]. apply (X i); [lia|exact Ei]. }
Qed.

Lemma acts_coherent : forall acts, Forall valid_act acts -> forall s, coherent' s ->
  exists s', nrun s (flat_map ops_of acts) = Some s' /\ coherent' s'.
Proof.
  induction 1 as [|a acts Ha _ IH]; intros s Hs; [exists s; split; [reflexivity|auto]|].
  cbn [flat_map]. unfold nrun, run. rewrite foldo_app.
  assert (St: exists s1, nrun s (ops_of a) = Some s1 /\ coherent' s1).
  { destruct a as [l r|l r nk nb ms|l r nk nb ms]; cbn [ops_of valid_act] in *.
    - destruct (effective_facts s l r Ha (coherent_good _ _ _ _ _ _ _ _ _ _ _ _ s l r Hs)) as (c & f & E1 & _).
      exists s. split; auto. unfold nrun, run. cbn [foldo step]. unfold neff in E1. rewrite E1. reflexivity.
    - destruct Ha as (V1 & V2 & V3).
      edestruct (embedded_coherent (T net) (R net) (E net) (M net)) as (s' & E1 & C1 & _);
        [apply (lcanon_left net)|apply (rcanon_right net)|apply (gm_assoc net)|apply (gm_ge net)|apply (lcanon_val net)|apply (rcanon_val net)|apply (absl_val net)|apply (absr_val net)|exact V1|exact V2|exact V3|apply coherent_good, Hs|].
      exists s'. split; [|exact C1]. unfold nrun, run. cbn [foldo step]. rewrite E1. reflexivity.
    - destruct (build_good' s l r Ha (coherent_good _ _ _ _ _ _ _ _ _ _ _ _ s l r Hs)) as (s1 & E1 & G1 & _).
      destruct (effective_facts s1 l r Ha G1) as (c & f & E2 & _). destruct Ha as (V1 & V2 & V3).
      edestruct (embedded_coherent (T net) (R net) (E net) (M net)) as (s' & E3 & C1 & _);
        [apply (lcanon_left net)|apply (rcanon_right net)|apply (gm_assoc net)|apply (gm_ge net)|apply (lcanon_val net)|apply (rcanon_val net)|apply (absl_val net)|apply (absr_val net)|exact V1|exact V2|exact V3|exact G1|].
      exists s'. split; [|exact C1]. unfold nrun, run. cbn [foldo step]. rewrite E1. unfold neff in E2. rewrite E2. rewrite E3. reflexivity. }
  destruct St as (s1 & E1 & C1). unfold nrun, run in E1. rewrite E1. apply IH. exact C1.
Qed.
End Statements.

(** ** C23: environments never go stale *)
Theorem c23_environments_never_stale :
  forall (net : Net) (mpo : Z -> M net) (n : Z) (dc : bool) (k b : Z -> T net) (sm : bool) (acts : list (act net)),
  Forall (valid_act net n) acts ->
  exists s, nrun net mpo n dc (init _ _ k b sm) (flat_map (ops_of net) acts) = Some s /\
    forall l r, valid n l r ->
    exists c f, neff net mpo n dc s l r = Some (c, f)
      /\ eL _ _ f = Some (Lfresh net mpo (eket _ _ f) (ebra _ _ f) (Z.to_nat l))
      /\ eR _ _ f = Some (Rfresh net mpo n (eket _ _ f) (ebra _ _ f) (Z.to_nat (n - r)))
      /\ value net n (eket _ _ f) = value net n (ket _ _ s)
      /\ value net n (ebra _ _ f) = value net n (bra _ _ s).
Proof.
  intros net mpo n dc k b sm acts Ha.
  destruct (acts_coherent net mpo n dc acts Ha (init _ _ k b sm) (init_coherent _ _ _ _ _ _ _ _ _ _ _ _ k b sm)) as (s & E1 & C1).
  exists s. split; auto. intros l r Hv.
  destruct (effective_facts net mpo n dc s l r Hv (coherent_good _ _ _ _ _ _ _ _ _ _ _ _ s l r C1)) as (c & f & A).
  exists c, f. intuition.
Qed.
Print Assumptions c23_environments_never_stale.

(* a write replaces exactly the window, in a chain standing for the same vectors as before *)
Theorem c23_write_replaces_window :
  forall (net : Net) (mpo : Z -> M net) (n : Z) (dc : bool) (k b : Z -> T net) (sm : bool) (acts : list (act net))
    l r nk nb ms, Forall (valid_act net n) acts -> valid n l r ->
  exists s s' k1 b1, nrun net mpo n dc (init _ _ k b sm) (flat_map (ops_of net) acts) = Some s /\
    nrun net mpo n dc s [Write _ l r nk nb ms] = Some s' /\
    value net n k1 = value net n (ket _ _ s) /\ value net n b1 = value net n (bra _ _ s) /\
    (forall j, j < l \/ r <= j -> ket _ _ s' j = k1 j /\ bra _ _ s' j = b1 j) /\
    (forall j, l <= j < r -> bra _ _ s' j = (if ms then nk j else nb j) /\
                             ket _ _ s' j = (if sm then bra _ _ s' j else nk j)).
Proof.
  intros net mpo n dc k b sm acts l r nk nb ms Ha Hv.
  destruct (acts_coherent net mpo n dc acts Ha (init _ _ k b sm) (init_coherent _ _ _ _ _ _ _ _ _ _ _ _ k b sm)) as (s & E1 & C1).
  destruct Hv as (V1 & V2 & V3).
  edestruct (embedded_coherent (T net) (R net) (E net) (M net)) as (s' & E3 & C2 & s1 & Eb & (Q1 & Q2 & _) & Es & Bd & Kd);
        [apply (lcanon_left net)|apply (rcanon_right net)|apply (gm_assoc net)|apply (gm_ge net)|apply (lcanon_val net)|apply (rcanon_val net)|apply (absl_val net)|apply (absr_val net)|exact V1|exact V2|exact V3|apply coherent_good, C1|].
  assert (Sm: same _ _ s = sm).
  { (* the alias flag never changes *)
    clear - E1. revert E1. assert (H: forall h s0 s, nrun net mpo n dc s0 h = Some s -> same _ _ s = same _ _ s0).
    { assert (Hc: forall cs t i, same _ _ (canon_both (T net) (E net) dc cs t i) = same _ _ t) by (intros; apply same_canon).
      assert (Hb: forall l r t t', build_envs (T net) (R net) (E net) (M net) (idL net) (idR net) mpo n dc
          (lcanon net) (rcanon net) (absl net) (absr net) (lstep net) (rstep net) t l r = Some t' -> same _ _ t' = same _ _ t).
      { intros l r t t'. unfold build_envs.
        assert (F: forall (A B : Type) (f : A -> B -> option A) (g : A -> bool), (forall a x a', f a x = Some a' -> g a' = g a) ->
                   forall l a a', foldo f l a = Some a' -> g a' = g a).
        { intros A B f g Hf. induction l0; cbn; intros a0 a' H0; [congruence|]. destruct (f a0 a) eqn:Ef; [|discriminate].
          rewrite (IHl0 _ _ H0). eauto. }
        match goal with |- match foldo ?f ?ls ?s0 with _ => _ end = _ -> _ => destruct (foldo f ls s0) as [t1|] eqn:F1; [|discriminate] end.
        intros F2. transitivity (same _ _ t1).
        - eapply (F _ _ _ (same _ _)); [|exact F2]. clear F1 F2.
          intros a x a'. unfold build_right1, right_contract_rotate. destruct (renv _ _ a x); [congruence|].
          destruct (x =? n); [intros [= <-]; reflexivity|]. destruct (renv _ _ a (x + 1)); [|discriminate]. intros [= <-]. cbn. apply Hc.
        - eapply (F _ _ _ (same _ _)) in F1; [exact F1|]. clear F1 F2.
          intros a x a'. unfold build_left1, left_contract_rotate. destruct (lenv _ _ a x); [congruence|].
          destruct (x =? -1); [intros [= <-]; reflexivity|]. destruct (lenv _ _ a (x - 1)); [|discriminate]. intros [= <-]. cbn. apply Hc. }
      unfold nrun, run. induction h as [|o h IH]; cbn [foldo]; intros s0 s1 H; [congruence|].
      destruct (step _ _ _ _ _ _ _ _ _ _ _ _ _ _ _ s0 o) as [s2|] eqn:Eo; [|discriminate]. rewrite (IH _ _ H).
      destruct o as [l r|l r nk nb ms|l r]; cbn [step] in Eo.
      - destruct (effective _ _ _ _ _ _ _ _ _ _ _ _ _ _ _ s0 l r); congruence.
      - unfold embedded in Eo. match type of Eo with context [build_envs ?a ?b ?c ?d ?e ?f ?g ?h ?i ?j ?k ?l ?m ?n ?o ?p ?q ?r] =>
          destruct (build_envs a b c d e f g h i j k l m n o p q r) as [s3|] eqn:E3; [|discriminate] end.
        injection Eo as <-. cbn. eapply Hb; eauto.
      - eapply Hb; eauto. }
    intros E1. apply H in E1. exact E1. }
  exists s, s', (ket _ _ s1), (bra _ _ s1). split; [exact E1|]. split.
  { unfold nrun, run. cbn [foldo step]. rewrite E3. reflexivity. }
  split; [exact Q1|]. split; [exact Q2|]. split.
  - intros j Hj. rewrite Bd, Kd. destruct (Z.leb_spec l j), (Z.ltb_spec j r); cbn; auto; lia.
  - intros j Hj. rewrite Kd, Bd. destruct (Z.leb_spec l j), (Z.ltb_spec j r); try lia. cbn. rewrite Sm. destruct sm, ms; auto.
Qed.
Print Assumptions c23_write_replaces_window.

(** ** C43: every effective problem is in mixed canonical form *)
Theorem c43_mixed_canonical_form :
  forall (net : Net) (mpo : Z -> M net) (n : Z) (k b : Z -> T net) (sm : bool) (acts : list (act net)),
  Forall (valid_act net n) acts ->
  exists s, nrun net mpo n true (init _ _ k b sm) (flat_map (ops_of net) acts) = Some s /\
    forall l r, valid n l r ->
    exists c f, neff net mpo n true s l r = Some (c, f)
      /\ (forall i, 0 <= i < l -> leftc net (eket _ _ f i) /\ leftc net (ebra _ _ f i))
      /\ (forall i, r <= i < n -> rightc net (eket _ _ f i) /\ rightc net (ebra _ _ f i)).
Proof.
  intros net mpo n k b sm acts Ha.
  destruct (acts_coherent net mpo n true acts Ha (init _ _ k b sm) (init_coherent _ _ _ _ _ _ _ _ _ _ _ _ k b sm)) as (s & E1 & C1).
  exists s. split; auto. intros l r Hv.
  destruct (effective_facts net mpo n true s l r Hv (coherent_good _ _ _ _ _ _ _ _ _ _ _ _ s l r C1)) as (c & f & A).
  exists c, f. intuition.
Qed.
Print Assumptions c43_mixed_canonical_form.

(** *** A concrete network: tensors are integers, a chain stands for its sum, environments record the tensors used *)
Definition sum_net : Net.
Proof.
  refine {| T := Z; R := Z; E := list Z; M := unit; G := Z; idL := []; idR := [];
    lcanon := fun t => (0, t); rcanon := fun t => (t, 0); absl := fun r t => r + t; absr := fun t r => t + r;
    lstep := fun e _ k b => e ++ [k; b]; rstep := fun _ e k b => k :: b :: e;
    leftc := fun t => t = 0; rightc := fun t => t = 0; gm := Z.add; ge := 0; vT := fun t => t; vR := fun r => r |};
  intros; cbn; lia.
Defined.

Example c23_case :
  let acts := [AVisit sum_net 0 2 (fun j => 10 + j) (fun j => 10 + j) true; ARead sum_net 2 4; AWrite sum_net 1 3 (fun j => 20 + j) (fun j => 30 + j) false] in
  Forall (valid_act sum_net 4) acts /\
  match nrun sum_net (fun _ => tt) 4 true (init _ _ (fun j => j) (fun j => 2 * j) false) (flat_map (ops_of sum_net) acts) with
  | Some s => match neff sum_net (fun _ => tt) 4 true s 2 3 with
              | Some (_, f) => (eL _ _ f, eR _ _ f, eket _ _ f 2, ebra _ _ f 2)
              | None => (None, None, 0, 0)
              end
  | None => (None, None, 0, 0)
  end = (Some [0; 0; 0; 0], Some [0; 0], 43, 63).
Proof.
  cbv zeta. split; [repeat constructor; cbn; lia|]. vm_compute. reflexivity.
Qed.

(* FINDING: build_envs is public; calling it at two windows without writing in between leaves a stale environment *)
Theorem c23_arbitrary_build_refuted :
  exists (k b : Z -> Z),
  match nrun sum_net (fun _ => tt) 2 true (init _ _ k b false) [Build _ 1 2; Build _ 0 1] with
  | Some s => match neff sum_net (fun _ => tt) 2 true s 1 2 with
              | Some (_, f) => eL _ _ f <> Some (Lfresh sum_net (fun _ => tt) (eket _ _ f) (ebra _ _ f) 1)
              | None => False
              end
  | None => False
  end.
Proof. exists (fun j => 1 + j), (fun j => 1 + j). vm_compute. discriminate. Qed.
Print Assumptions c23_arbitrary_build_refuted.

(** *** C22 seen from the outside: the cached object against the plain one on a standard two-site sweep *)
Definition sweep_net : Net.
Proof.
  refine {| T := Z; R := unit; E := list Z; M := unit; G := unit; idL := []; idR := [];
    lcanon := fun t => (t, tt); rcanon := fun t => (tt, t); absl := fun _ t => t; absr := fun t _ => t;
    lstep := fun e _ k b => e ++ [k; b]; rstep := fun _ e k b => k :: b :: e;
    leftc := fun t => True; rightc := fun t => True; gm := fun _ _ => tt; ge := tt; vT := fun t => tt; vR := fun r => tt |};
  intros; cbn; auto; destruct a; reflexivity.
Defined.
Definition cached_run (maxsize : Z) (n : Z) (h : list (op Z)) (l r : Z) : option (option (list Z) * option (list Z)) :=
  match crun_ops Z unit (list Z) unit [] [] (fun _ => tt) n true (lcanon sweep_net) (rcanon sweep_net) (absl sweep_net) (absr sweep_net)
          (lstep sweep_net) (rstep sweep_net) maxsize (cinit Z (list Z) (fun j => j) (fun j => j) true "MPE") h with
  | Some c => match ceffective Z unit (list Z) unit [] [] (fun _ => tt) n true (lcanon sweep_net) (rcanon sweep_net) (absl sweep_net) (absr sweep_net)
          (lstep sweep_net) (rstep sweep_net) maxsize c l r with Some (_, f) => Some (eL _ _ f, eR _ _ f) | None => None end
  | None => None
  end.
Definition plain_run (n : Z) (h : list (op Z)) (l r : Z) : option (option (list Z) * option (list Z)) :=
  match nrun sweep_net (fun _ => tt) n true (init _ _ (fun j => j) (fun j => j) true) h with
  | Some s => match neff sweep_net (fun _ => tt) n true s l r with Some (_, f) => Some (eL _ _ f, eR _ _ f) | None => None end
  | None => None
  end.
(* one forward and one backward two-site sweep over three sites, then the first step of the next forward sweep;
   the visit number v writes the tensors 10 v + site *)
Definition visit (v i : Z) : list (op Z) := ops_of sweep_net (AVisit sweep_net i (i + 2) (fun j => 10 * v + j) (fun j => 10 * v + j) true).
Definition sweeps3 : list (op Z) :=
  flat_map (fun p => visit (fst p) (snd p)) [(1, 0); (2, 1); (3, 1); (4, 0); (5, 0)] ++ [Build Z 1 3].
Theorem c22_three_site_sweep_stale_refuted :
  plain_run 3 sweeps3 1 3 = Some (Some [50; 50], Some []) /\
  cached_run 3 3 sweeps3 1 3 = Some (Some [10; 10], Some []).
Proof. split; vm_compute; reflexivity. Qed.
Print Assumptions c22_three_site_sweep_stale_refuted.
(* with capacity 0 the same sweep is right *)
Example c22_three_site_sweep_capacity_zero : cached_run 0 3 sweeps3 1 3 = plain_run 3 sweeps3 1 3.
Proof. vm_compute. reflexivity. Qed.
