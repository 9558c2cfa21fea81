(** Lemmas about vectors, conjugate gradients and the Davidson iteration. *)
From Coq Require Import ZArith Bool List Lia Ring Permutation.
From Verif Require Import IndexLib RingLib OrdLib LinalgModel.
Import ListNotations.

Section Vec.
Variable K : OField.
Add Ring KVR : (rth K).
Notation "0'" := (r0 K). Notation "1'" := (r1 K). Notation "-'" := (ropp K).
Infix "+'" := (radd K) (at level 50, left associativity). Infix "*'" := (rmul K) (at level 40, left associativity).
Notation vec := (list K). Notation dot := (dot K). Notation vadd := (vadd K). Notation vscale := (vscale K).

Lemma vadd_len : forall n u v, length u = n -> length v = n -> length (vadd u v) = n.
Proof. intros. unfold LinalgModel.vadd. rewrite map_length, combine_length. lia. Qed.
Lemma vscale_len : forall n c u, length u = n -> length (vscale c u) = n.
Proof. intros. unfold LinalgModel.vscale. now rewrite map_length. Qed.
Lemma dot_cons : forall x u y v, dot (x :: u) (y :: v) = x *' y +' dot u v. Proof. reflexivity. Qed.
Lemma dot_sym : forall u v, dot u v = dot v u.
Proof. induction u as [|x u IH]; intros [|y v]; try reflexivity. rewrite !dot_cons, IH. ring. Qed.
Lemma dot_add_l : forall u v w, length u = length v -> dot (vadd u v) w = dot u w +' dot v w.
Proof.
  induction u as [|x u IH]; intros [|y v] w L; try discriminate; [destruct w; cbn; ring|]. destruct w as [|z w]; [cbn; ring|].
  change (vadd (x :: u) (y :: v)) with ((x +' y) :: vadd u v). rewrite !dot_cons, IH by (cbn in L; lia). ring.
Qed.
Lemma dot_add_r : forall u v w, length u = length v -> dot w (vadd u v) = dot w u +' dot w v.
Proof. intros. rewrite (dot_sym w), dot_add_l by assumption. now rewrite (dot_sym u), (dot_sym v). Qed.
Lemma dot_scale_l : forall c u w, dot (vscale c u) w = c *' dot u w.
Proof. induction u as [|x u IH]; intros [|z w]; try (cbn; ring). change (vscale c (x :: u)) with (c *' x :: vscale c u). rewrite !dot_cons, IH. ring. Qed.
Lemma dot_scale_r : forall c u w, dot w (vscale c u) = c *' dot w u.
Proof. intros. now rewrite dot_sym, dot_scale_l, dot_sym. Qed.
Lemma vec_ext : forall u v : vec, length u = length v -> (forall i, i < length u -> nth i u 0' = nth i v 0')%nat -> u = v.
Proof.
  induction u as [|x u IH]; intros [|y v] L H; try discriminate; [reflexivity|]. f_equal; [exact (H 0%nat ltac:(cbn; lia))|].
  apply IH; [cbn in L; lia|]. intros i Hi. exact (H (S i) ltac:(cbn; lia)).
Qed.
Lemma nth_vadd : forall u v i, length u = length v -> nth i (vadd u v) 0' = nth i u 0' +' nth i v 0'.
Proof.
  induction u as [|x u IH]; intros [|y v] i L; try discriminate; [destruct i; cbn; ring|]. destruct i; [reflexivity|].
  change (vadd (x :: u) (y :: v)) with ((x +' y) :: vadd u v). cbn [nth]. apply IH. cbn in L. lia.
Qed.
Lemma nth_vscale : forall c u i, nth i (vscale c u) 0' = c *' nth i u 0'.
Proof. induction u as [|x u IH]; intros i; [destruct i; cbn; ring|]. destruct i; [reflexivity|apply IH]. Qed.

Definition linear (n : nat) (A : vec -> vec) : Prop :=
  (forall u, length u = n -> length (A u) = n) /\
  (forall u v, length u = n -> length v = n -> A (vadd u v) = vadd (A u) (A v)) /\
  (forall c u, length u = n -> A (vscale c u) = vscale c (A u)).
Definition symmetric (n : nat) (A : vec -> vec) : Prop := forall u v, length u = n -> length v = n -> dot (A u) v = dot u (A v).
Definition positive (n : nat) (A : vec -> vec) : Prop := forall u, length u = n -> (exists x, In x u /\ x <> 0') -> olt 0' (dot u (A u)).

(* b - A x *)
Definition residual (A : vec -> vec) (b x : vec) : vec := vadd b (vscale (-' 1') (A x)).
Lemma olt_irrefl : forall a : K, ~ olt a a.
Proof. intros a H. unfold olt in H. pose proof (ole_refl K a) as R. unfold ole in R. congruence. Qed.
Lemma kdiv_some : forall a b c, kdiv K a b = Some c -> b <> 0' /\ c *' b = a.
Proof.
  intros a b c H. unfold kdiv in H. destruct (oeqb_spec K b 0') as [|N]; [discriminate|]. injection H as <-. split; [exact N|].
  pose proof (finv_r K b N) as E. replace (a *' finv K b *' b) with (a *' (b *' finv K b)) by ring. rewrite E. ring.
Qed.
Lemma kdiv_def : forall a b, b <> 0' -> exists c, kdiv K a b = Some c.
Proof. intros a b N. unfold kdiv. destruct (oeqb_spec K b 0'); [congruence|eauto]. Qed.
Lemma mul_cancel : forall a b : K, a <> 0' -> a *' b = 0' -> b = 0'.
Proof.
  intros a b N E. pose proof (finv_r K a N) as I. replace b with (a *' finv K a *' b) by (rewrite I; ring). replace (a *' finv K a *' b) with (finv K a *' (a *' b)) by ring. rewrite E. ring.
Qed.

(** *** conjugate gradient: the residual *)
Lemma step_residual : forall n A b x p al, linear n A -> length b = n -> length x = n -> length p = n ->
  vadd (residual A b x) (vscale (-' al) (A p)) = residual A b (vadd x (vscale al p)).
Proof.
  intros n A b x p al (La & Aa & As) Lb Lx Lp. pose proof (La x Lx) as L1. pose proof (La p Lp) as L2. unfold residual. rewrite Aa, As by (auto using vscale_len).
  apply vec_ext.
  - rewrite !(vadd_len n); auto using vadd_len, vscale_len.
  - intros i _. rewrite !nth_vadd, !nth_vscale, !nth_vadd, !nth_vscale; try ring; rewrite ?(vadd_len n), ?(vscale_len n); auto using vadd_len, vscale_len.
Qed.
Definition prec_len (n : nat) (P : vec -> vec) : Prop := forall u, length u = n -> length (P u) = n.
Lemma cg_loop_sound : forall n A P b t, linear n A -> prec_len n P -> length b = n ->
  forall left xiter x p old f x' it, length x = n -> length p = n -> cg_loop K A P b t left xiter x (residual A b x) p old = Done (f, x', it) ->
  length x' = n /\ f = dot x' b /\ small K t (dot (P (residual A b x')) (residual A b x')) = true /\ (S (S xiter) <= it <= xiter + left)%nat.
Proof.
  intros n A P b t LA LP Lb. pose proof LA as (La & _ & _). induction left as [|left IH]; intros xiter x p old f x' it Lx Lp E; [discriminate|]. cbn [cg_loop] in E.
  destruct (kdiv K old (dot p (A p))) as [al|]; [|discriminate].
  rewrite (step_residual n) in E by assumption. set (y := vadd x (vscale al p)) in *.
  assert (Ly : length y = n) by (apply vadd_len; auto using vscale_len).
  assert (Lr : length (residual A b y) = n) by (apply vadd_len; auto using vscale_len).
  destruct (small K t (dot (P (residual A b y)) (residual A b y))) eqn:S1.
  - destruct (Nat.eqb_spec left 0); [discriminate|]. injection E as <- <- <-. repeat split; auto; lia.
  - destruct (kdiv K (dot (P (residual A b y)) (residual A b y)) old) as [be|]; [|discriminate].
    apply IH in E; [|assumption|apply vadd_len; auto using vscale_len]. destruct E as (H1 & H2 & H3 & H4). repeat split; auto; lia.
Qed.

(** *** n + 1 vectors of length n are linearly dependent *)
Definition lincomb (n : nat) (cs : list K) (vs : list vec) : vec := fold_right (fun p a => vadd (vscale (fst p) (snd p)) a) (repeat 0' n) (combine cs vs).
Lemma lincomb_len : forall n cs vs, (forall v, In v vs -> length v = n) -> length (lincomb n cs vs) = n.
Proof.
  intros n cs. induction cs as [|c cs IH]; intros vs H; [apply repeat_length|]. destruct vs as [|v vs]; [apply repeat_length|].
  unfold lincomb. cbn [combine fold_right fst snd]. apply vadd_len; [apply vscale_len; apply H; now left|]. apply IH. intros. apply H. now right.
Qed.
Lemma nth_zeros : forall n i, nth i (repeat 0' n) 0' = 0'.
Proof. induction n as [|n IH]; intros [|i]; cbn; auto. Qed.
Lemma nth_lincomb : forall n i cs vs, (forall v, In v vs -> length v = n) -> nth i (lincomb n cs vs) 0' = bsum (combine cs vs) (fun p => fst p *' nth i (snd p) 0').
Proof.
  intros n i cs. induction cs as [|c cs IH]; intros vs H; [apply nth_zeros|]. destruct vs as [|v vs]; [apply nth_zeros|].
  unfold lincomb. cbn [combine fold_right fst snd]. fold (lincomb n cs vs). rewrite nth_vadd.
  - rewrite nth_vscale, IH by (intros; apply H; now right). reflexivity.
  - rewrite (vscale_len n), lincomb_len; auto; intros; apply H; cbn; auto.
Qed.
Lemma zero_sum : forall (cs : list K) (vs : list vec) (f : vec -> K), (forall c, In c cs -> c = 0') -> bsum (combine cs vs) (fun p => fst p *' f (snd p)) = 0'.
Proof. intros cs vs f H. apply bsum_zero. intros [c v] I. apply in_combine_l in I. cbn. rewrite (H c I). ring. Qed.
(* coefficients attached to a list of vectors: a list of pairs, so that reordering is harmless *)
Definition dependent (n : nat) (vs : list vec) : Prop :=
  exists cv : list (K * vec), map snd cv = vs /\ (exists c, In c (map fst cv) /\ c <> 0') /\ forall i, (i < n)%nat -> bsum cv (fun p => fst p *' nth i (snd p) 0') = 0'.
Lemma pivot_or_zero : forall vs : list vec, (forall v, In v vs -> nth 0 v 0' = 0') \/ exists l1 v l2, vs = l1 ++ v :: l2 /\ nth 0 v 0' <> 0'.
Proof.
  induction vs as [|v vs IH]; [left; intros ? []|]. destruct (oeqb_spec K (nth 0 v 0') 0') as [E|N].
  - destruct IH as [H|(l1 & w & l2 & -> & N)]; [left; intros u [<-|I]; auto|right; exists (v :: l1), w, l2; auto].
  - right. exists [], v, vs. auto.
Qed.
Lemma dependence : forall n (vs : list vec), (forall v, In v vs -> length v = n) -> (n < length vs)%nat -> dependent n vs.
Proof.
  induction n as [|n IH]; intros vs H L.
  - exists (map (fun v => (1', v)) vs). rewrite !map_map. cbn. rewrite map_id. split; [reflexivity|]. split; [|intros; lia].
    exists 1'. split; [|apply (f10 K)]. destruct vs; [cbn in L; lia|now left].
  - destruct (pivot_or_zero vs) as [Z|(l1 & v & l2 & E & N)].
    + destruct vs as [|w vs]; [cbn in L; lia|]. destruct (IH (map (@tl K) (w :: vs))) as (cv & E1 & (c & Ic & Nc) & S1).
      * intros u I. apply in_map_iff in I. destruct I as (x & <- & I). specialize (H x I). destruct x; cbn in *; lia.
      * rewrite map_length. lia.
      * exists (combine (map fst cv) (w :: vs)).
        assert (Len : length (map fst cv) = length (w :: vs)) by (rewrite map_length, <- (map_length snd cv), E1, map_length; reflexivity).
        assert (Mf : map fst (combine (map fst cv) (w :: vs)) = map fst cv).
        { clear -Len. revert Len. generalize (map fst cv) (w :: vs). induction l as [|a l IHl]; intros [|b m] L0; try discriminate; [reflexivity|]. cbn. f_equal. apply IHl. cbn in L0. lia. }
        assert (Ms : map snd (combine (map fst cv) (w :: vs)) = w :: vs).
        { clear -Len. revert Len. generalize (map fst cv) (w :: vs). induction l as [|a l IHl]; intros [|b m] L0; try discriminate; [reflexivity|]. cbn. f_equal. apply IHl. cbn in L0. lia. }
        split; [exact Ms|]. split; [exists c; now rewrite Mf|]. intros [|i] Hi.
        -- apply bsum_zero. intros [x u] I. apply in_combine_r in I. cbn [fst snd]. rewrite (Z u I). ring.
        -- transitivity (bsum cv (fun p => fst p *' nth i (snd p) 0')); [|exact (S1 i ltac:(lia))]. assert (Ec : cv = map (fun p => (fst p, tl (snd p))) (combine (map fst cv) (w :: vs))).
           { clear -E1. revert E1. generalize (w :: vs). induction cv as [|[a b] cv IHc]; intros m E1; destruct m as [|u m]; try discriminate; [reflexivity|]. cbn in *. injection E1 as -> E2. f_equal. now apply IHc. }
           rewrite Ec at 2. rewrite bsum_map. cbn [fst snd]. apply bsum_ext. intros [x u] I. cbn [fst snd]. destruct u; [destruct i; reflexivity|reflexivity].
    + subst vs. set (f := fun w : vec => tl (vadd w (vscale (-' (nth 0 w 0' *' finv K (nth 0 v 0'))) v))).
      assert (Hv : length v = S n) by (apply H, in_elt).
      assert (Hl : forall w, In w (l1 ++ l2) -> length w = S n) by (intros w I; apply H; apply in_app_iff in I; apply in_app_iff; cbn; tauto).
      destruct (IH (map f (l1 ++ l2))) as (cv & E1 & (c & Ic & Nc) & S1).
      * intros u I. apply in_map_iff in I. destruct I as (x & <- & I). unfold f. specialize (Hl x I).
        assert (L1 : length (vadd x (vscale (-' (nth 0 x 0' *' finv K (nth 0 v 0'))) v)) = S n) by (apply vadd_len; auto using vscale_len).
        destruct (vadd x _); cbn in *; lia.
      * rewrite map_length, app_length. rewrite app_length in L. cbn in L. lia.
      * assert (G : forall l (cv : list (K * vec)), map snd cv = map f l -> exists cw, map snd cw = l /\ map fst cw = map fst cv /\ cv = map (fun p => (fst p, f (snd p))) cw).
        { induction l as [|w l IHl]; intros [|[a b] cv'] E; try discriminate; [exists []; auto|]. cbn in E. injection E as -> E. destruct (IHl cv' E) as (cw & E0 & E2 & E3). exists ((a, w) :: cw). cbn. rewrite E0, E2, <- E3. auto. }
        destruct (G _ _ E1) as (cw & Ew & Ef & ->). clear G.
        set (c0 := -' (bsum cw (fun p => fst p *' (nth 0 (snd p) 0' *' finv K (nth 0 v 0'))))).
        assert (exists a1 a2, cw = a1 ++ a2 /\ map snd a1 = l1 /\ map snd a2 = l2) as (a1 & a2 & -> & <- & <-).
        { exists (firstn (length l1) cw), (skipn (length l1) cw). rewrite firstn_skipn. rewrite <- firstn_map, <- skipn_map, Ew. rewrite firstn_app, firstn_all, Nat.sub_diag, firstn_O, app_nil_r. rewrite skipn_app, skipn_all, Nat.sub_diag. auto. }
        exists (a1 ++ (c0, v) :: a2). rewrite !map_app. cbn [map snd fst]. split; [reflexivity|]. split.
        { exists c. split; [|exact Nc]. rewrite <- Ef, map_app, in_app_iff in Ic. rewrite in_app_iff. cbn. tauto. }
        intros i Hi.
        assert (Sp : bsum (a1 ++ (c0, v) :: a2) (fun p => fst p *' nth i (snd p) 0') = bsum (a1 ++ a2) (fun p => fst p *' nth i (snd p) 0') +' c0 *' nth i v 0').
        { rewrite !bsum_app, bsum_cons. cbn [fst snd]. ring. }
        rewrite Sp. unfold c0.
        assert (Sq : bsum (a1 ++ a2) (fun p => fst p *' nth i (snd p) 0') +' -' (bsum (a1 ++ a2) (fun p => fst p *' (nth 0 (snd p) 0' *' finv K (nth 0 v 0')))) *' nth i v 0'
           = bsum (a1 ++ a2) (fun p => fst p *' nth i (vadd (snd p) (vscale (-' (nth 0 (snd p) 0' *' finv K (nth 0 v 0'))) v)) 0')).
        { transitivity (bsum (a1 ++ a2) (fun p => fst p *' nth i (snd p) 0') +' bsum (a1 ++ a2) (fun p => fst p *' (nth 0 (snd p) 0' *' finv K (nth 0 v 0')) *' (-' (nth i v 0')))).
          - rewrite bsum_mulr. ring.
          - rewrite <- bsum_add. apply bsum_ext. intros [x u] I. cbn [fst snd]. assert (Iu : length u = S n).
            { apply Hl. rewrite <- map_app. apply in_map_iff. exists (x, u). auto. }
            rewrite nth_vadd, nth_vscale; [ring|]. rewrite (vscale_len (S n)); auto. }
        rewrite Sq. destruct i as [|i].
        -- apply bsum_zero. intros [x u] I. cbn [fst snd]. assert (Iu : length u = S n) by (apply Hl; rewrite <- map_app; apply in_map_iff; exists (x, u); auto).
           rewrite nth_vadd, nth_vscale; [|rewrite (vscale_len (S n)); auto].
           pose proof (finv_r K _ N) as Iv. replace (x *' (nth 0 u 0' +' -' (nth 0 u 0' *' finv K (nth 0 v 0')) *' nth 0 v 0')) with (x *' (nth 0 u 0' +' -' (nth 0 u 0' *' (nth 0 v 0' *' finv K (nth 0 v 0'))))) by ring.
           rewrite Iv. ring.
        -- transitivity (bsum (map (fun p => (fst p, f (snd p))) (a1 ++ a2)) (fun p => fst p *' nth i (snd p) 0')); [|exact (S1 i ltac:(lia))]. rewrite bsum_map. apply bsum_ext. intros [x u] I. cbn [fst snd]. unfold f. destruct (vadd u _); [destruct i; reflexivity|reflexivity].
Qed.

Lemma dot_nth : forall n u v, length u = n -> length v = n -> dot u v = bsum (seq 0 n) (fun i => nth i u 0' *' nth i v 0').
Proof.
  induction n as [|n IH]; intros [|x u] [|y v] L1 L2; try discriminate; [reflexivity|]. rewrite dot_cons. cbn [seq]. rewrite bsum_cons. cbn [nth]. f_equal.
  rewrite <- seq_shift, bsum_map. cbn [nth]. apply IH; cbn in *; lia.
Qed.
Fixpoint conjugate (A : vec -> vec) (D : list vec) : Prop :=
  match D with [] => True | p :: D' => (forall q, In q D' -> dot q (A p) = 0') /\ conjugate A D' end.
Lemma conjugate_split : forall n A l1 u l2, symmetric n A -> (forall v, In v (l1 ++ u :: l2) -> length v = n) -> conjugate A (l1 ++ u :: l2) ->
  (forall v, In v l1 -> dot v (A u) = 0') /\ (forall v, In v l2 -> dot v (A u) = 0').
Proof.
  intros n A. induction l1 as [|w l1 IH]; intros u l2 Sy Ln H; cbn [app conjugate] in H.
  - split; [intros ? []|]. apply H.
  - destruct H as [H1 H2]. destruct (IH u l2 Sy (fun v I => Ln v (or_intror I)) H2) as [G1 G2]. split; [|exact G2].
    intros v [<-|I]; [|now apply G1]. rewrite <- Sy by (apply Ln; cbn; auto using in_elt). rewrite dot_sym. apply H1. apply in_elt.
Qed.
Lemma conjugate_bound : forall n A D, linear n A -> symmetric n A -> (forall v, In v D -> length v = n /\ dot v (A v) <> 0') -> conjugate A D -> (length D <= n)%nat.
Proof.
  intros n A D LA Sy Hd Cj. destruct (Nat.le_gt_cases (length D) n) as [L|L]; [exact L|exfalso].
  destruct (dependence n D (fun v I => proj1 (Hd v I)) L) as (cv & E & (c & Ic & Nc) & S0).
  apply in_map_iff in Ic. destruct Ic as ([c' u] & Ec & I). cbn in Ec. subst c'. apply in_split in I. destruct I as (a1 & a2 & ->).
  rewrite map_app in E. cbn [map snd] in E. subst D.
  destruct (conjugate_split n A _ u _ Sy (fun v I => proj1 (Hd v I)) Cj) as [G1 G2].
  destruct (Hd u ltac:(apply in_elt)) as [Lu Nu]. pose proof (proj1 LA u Lu) as LAu.
  assert (T : bsum (a1 ++ (c, u) :: a2) (fun p => fst p *' dot (snd p) (A u)) = 0').
  { transitivity (bsum (a1 ++ (c, u) :: a2) (fun p => bsum (seq 0 n) (fun i => fst p *' nth i (snd p) 0' *' nth i (A u) 0'))).
    - apply bsum_ext. intros [x v] I. cbn [fst snd]. rewrite (dot_nth n); [|apply Hd|exact LAu].
      + rewrite <- bsum_mull. apply bsum_ext. intros. ring.
      + change (u :: map snd a2) with (map snd ((c, u) :: a2)). rewrite <- map_app. apply in_map_iff. exists (x, v). auto.
    - rewrite bsum_swap. apply bsum_zero. intros i Hi. apply in_seq in Hi. rewrite bsum_mulr, S0 by lia. ring. }
  rewrite bsum_app, bsum_cons in T. cbn [fst snd] in T.
  rewrite (bsum_zero K _ a1) in T by (intros [x v] I; cbn [fst snd]; rewrite (G1 v) by (apply in_map_iff; exists (x, v); auto); ring).
  rewrite (bsum_zero K _ a2) in T by (intros [x v] I; cbn [fst snd]; rewrite (G2 v) by (apply in_map_iff; exists (x, v); auto); ring).
  apply Nu. apply (mul_cancel c); [exact Nc|]. rewrite <- T. ring.
Qed.

Section Conj.
Variables (n : nat) (A P : vec -> vec).
Hypothesis LA : linear n A.
Hypothesis SA : symmetric n A.
Hypothesis PA : positive n A.
Hypothesis LP : prec_len n P.
Hypothesis SP : symmetric n P.
Fixpoint cg_inv (r p : vec) (H : list (vec * vec)) : Prop :=
  length r = n /\ length p = n /\ dot (P r) r <> 0' /\ dot p r = dot (P r) r /\
  (forall q s, In (q, s) H -> dot q r = 0' /\ dot q (A p) = 0' /\ dot (P s) r = 0') /\
  match H with
  | [] => forall v, length v = n -> dot (P r) v = dot p v
  | (q, s) :: H' => (exists be, forall v, length v = n -> dot (P r) v = dot p v +' be *' dot q v) /\
                    (exists al, al <> 0' /\ forall v, length v = n -> al *' dot (A q) v = dot s v +' -' (dot r v)) /\ cg_inv s q H'
  end.
Lemma inv_len : forall H r p q s, cg_inv r p H -> In (q, s) ((p, r) :: H) -> length q = n /\ length s = n.
Proof.
  induction H as [|[q s] H IH]; intros r p q' s' I Hi; cbn [cg_inv] in I; destruct I as (L1 & L2 & _ & _ & _ & I); destruct Hi as [E|Hi].
  - injection E as <- <-. auto.
  - destruct Hi.
  - injection E as <- <-. auto.
  - destruct I as (_ & _ & I). now apply (IH s q).
Qed.
Lemma inv_nz : forall H r p q s, cg_inv r p H -> In (q, s) ((p, r) :: H) -> dot q s <> 0'.
Proof.
  induction H as [|[q s] H IH]; intros r p q' s' I Hi; cbn [cg_inv] in I; destruct I as (L1 & L2 & N & E0 & _ & I); destruct Hi as [E|Hi].
  - injection E as <- <-. congruence.
  - destruct Hi.
  - injection E as <- <-. congruence.
  - destruct I as (_ & _ & I). now apply (IH s q).
Qed.
Lemma inv_span : forall H r p v, cg_inv r p H -> length v = n -> (forall q s, In (q, s) ((p, r) :: H) -> dot q v = 0') ->
  forall q s, In (q, s) ((p, r) :: H) -> dot (P s) v = 0'.
Proof.
  induction H as [|[q s] H IH]; intros r p v I Lv Hz q' s' Hi; cbn [cg_inv] in I; destruct I as (L1 & L2 & _ & _ & _ & I).
  - destruct Hi as [E|[]]. injection E as <- <-. rewrite I by assumption. apply (Hz p r). now left.
  - destruct I as ((be & Hb) & _ & I). destruct Hi as [E|Hi].
    + injection E as <- <-. rewrite Hb by assumption. rewrite (Hz p r) by now left. rewrite (Hz q s) by (right; now left). ring.
    + apply (IH s q v I Lv) with (q := q'); [|exact Hi]. intros q1 s1 H1. apply (Hz q1 s1). now right.
Qed.
Lemma inv_chain : forall H r p, cg_inv r p H -> forall q s, In (q, s) H -> exists al s' q', al <> 0' /\ In (q', s') ((p, r) :: H) /\
  forall v, length v = n -> al *' dot (A q) v = dot s v +' -' (dot s' v).
Proof.
  induction H as [|[q s] H IH]; intros r p I q' s' Hi; [destruct Hi|]. cbn [cg_inv] in I. destruct I as (L1 & L2 & _ & _ & _ & (_ & (al & Na & Ha) & I)).
  destruct Hi as [E|Hi].
  - injection E as <- <-. exists al, r, p. split; [exact Na|]. split; [now left|exact Ha].
  - destruct (IH s q I q' s' Hi) as (al' & s1 & q1 & N1 & I1 & H1). exists al', s1, q1. split; [exact N1|]. split; [now right|exact H1].
Qed.
Lemma inv_conjugate : forall H r p, cg_inv r p H -> conjugate A (p :: map fst H).
Proof.
  induction H as [|[q s] H IH]; intros r p I; cbn [cg_inv] in I; destruct I as (L1 & L2 & _ & _ & Hc & I); cbn [map fst conjugate].
  - split; [intros ? []|exact Logic.I].
  - destruct I as (_ & _ & I). split; [|exact (IH s q I)]. intros q1 Hq. change (q :: map fst H) with (map fst ((q, s) :: H)) in Hq. apply in_map_iff in Hq. destruct Hq as ([q2 s2] & <- & Hi). apply (Hc q2 s2 Hi).
Qed.
Lemma dot_nz : forall u v : vec, dot u v <> 0' -> exists x, In x u /\ x <> 0'.
Proof.
  induction u as [|x u IH]; intros v N; [destruct v; exfalso; apply N; reflexivity|]. destruct v as [|y v]; [exfalso; apply N; reflexivity|]. destruct (oeqb_spec K x 0') as [->|Nx].
  - destruct (IH v) as (z & Hz & Nz); [|exists z; split; [now right|exact Nz]]. intros E. apply N. rewrite dot_cons, E. ring.
  - exists x. split; [now left|exact Nx].
Qed.
Lemma inv_bound : forall H r p, cg_inv r p H -> (S (length H) <= n)%nat.
Proof.
  intros H r p I. rewrite <- (map_length fst H). change (S (length (map fst H))) with (length (p :: map fst H)). apply (conjugate_bound n A); [exact LA|exact SA| |exact (inv_conjugate H r p I)].
  intros v Hv. change (p :: map fst H) with (map fst ((p, r) :: H)) in Hv. apply in_map_iff in Hv. destruct Hv as ([q s] & <- & Hi). cbn [fst].
  destruct (inv_len H r p q s I Hi) as [Lq _]. split; [exact Lq|]. intros E. apply (olt_irrefl 0'). rewrite <- E at 2. apply PA; [exact Lq|]. apply (dot_nz q s). exact (inv_nz H r p q s I Hi).
Qed.
Lemma inv_head : forall H r p, cg_inv r p H -> length r = n /\ length p = n /\ dot (P r) r <> 0' /\ dot p r = dot (P r) r /\ dot p (A p) <> 0'.
Proof.
  intros H r p I. assert (G : length r = n /\ length p = n /\ dot (P r) r <> 0' /\ dot p r = dot (P r) r).
  { destruct H as [|[q s] H]; cbn [cg_inv] in I; tauto. }
  destruct G as (L1 & L2 & N & E). repeat split; auto. intros Z. apply (olt_irrefl 0'). rewrite <- Z at 2. apply PA; [exact L2|]. apply (dot_nz p r). congruence.
Qed.
Lemma inv_cross : forall H r p, cg_inv r p H -> forall q s, In (q, s) H -> dot q r = 0' /\ dot q (A p) = 0' /\ dot (P s) r = 0'.
Proof. intros H r p I. destruct H as [|[q s] H]; cbn [cg_inv] in I; apply I. Qed.

(* one iteration *)
Lemma inv_step : forall H r p al be, cg_inv r p H -> al *' dot p (A p) = dot (P r) r ->
  let r' := vadd r (vscale (-' al) (A p)) in be *' dot (P r) r = dot (P r') r' -> dot (P r') r' <> 0' ->
  cg_inv r' (vadd (vscale be p) (P r')) ((p, r) :: H).
Proof.
  intros H r p al be I Eal r' Ebe N'. destruct (inv_head H r p I) as (Lr & Lp & Nr & Epr & Npp). pose proof (inv_cross H r p I) as Hx.
  pose proof (proj1 LA p Lp) as LAp.
  assert (Lr' : length r' = n) by (apply vadd_len; auto using vscale_len).
  pose proof (LP r' Lr') as LPr'.
  assert (Dr' : forall v, dot v r' = dot v r +' -' al *' dot v (A p)).
  { intros v. unfold r'. rewrite dot_add_r, dot_scale_r; [reflexivity|]. rewrite (vscale_len n); auto. }
  assert (Z : forall q s, In (q, s) ((p, r) :: H) -> dot q r' = 0').
  { intros q s [E|Hi].
    - injection E as <- <-. rewrite Dr', Epr. replace (-' al *' dot p (A p)) with (-' (al *' dot p (A p))) by ring. rewrite Eal. ring.
    - rewrite Dr'. destruct (Hx q s Hi) as (-> & -> & _). ring. }
  pose proof (inv_span H r p r' I Lr' Z) as ZP.
  assert (Nal : al <> 0') by (intros ->; apply Nr; rewrite <- Eal; ring).
  assert (Dp : forall v, dot (vadd (vscale be p) (P r')) v = be *' dot p v +' dot (P r') v) by (intros v; rewrite dot_add_l, dot_scale_l; [reflexivity|rewrite (vscale_len n); auto]).
  cbn [cg_inv]. repeat split.
  - exact Lr'.
  - apply vadd_len; auto using vscale_len.
  - exact N'.
  - rewrite Dp, (Z p r) by now left. ring.
  - match goal with H0 : In _ _ |- _ => exact (Z _ _ H0) end.
  - assert (LAd : forall q, dot q (A (vadd (vscale be p) (P r'))) = be *' dot q (A p) +' dot q (A (P r'))).
    { intros q0. destruct LA as (La & Aa & As). rewrite Aa, As by auto using vscale_len. rewrite dot_add_r, dot_scale_r; [reflexivity|]. rewrite (vscale_len n); auto. now rewrite La. }
    match goal with H0 : In (?q0, ?s0) _ |- _ => rename H0 into Hi; rename q0 into q; rename s0 into s end. rewrite LAd.
    destruct (inv_len H r p q s I Hi) as [Lq Ls]. rewrite <- (SA q (P r')) by assumption. destruct Hi as [E|Hi].
    + injection E as <- <-. apply (mul_cancel al); [exact Nal|].
      assert (X : al *' dot (A p) (P r') = dot r (P r') +' -' (dot r' (P r'))).
      { rewrite (dot_sym r' (P r')), Dr', (dot_sym (P r') r), (dot_sym (P r') (A p)). ring. }
      replace (al *' (be *' dot p (A p) +' dot (A p) (P r'))) with (be *' (al *' dot p (A p)) +' al *' dot (A p) (P r')) by ring.
      rewrite X, Eal, Ebe. rewrite <- (SP r r') by assumption. rewrite (ZP p r) by now left. rewrite (dot_sym r' (P r')). ring.
    + destruct (Hx q s Hi) as (_ & -> & _). destruct (inv_chain H r p I q s Hi) as (a & s1 & q1 & Na & I1 & C1).
      apply (mul_cancel a); [exact Na|]. destruct (inv_len H r p q1 s1 I I1) as [_ Ls1].
      replace (a *' (be *' 0' +' dot (A q) (P r'))) with (a *' dot (A q) (P r')) by ring. rewrite C1 by assumption.
      rewrite <- (SP s r'), <- (SP s1 r') by assumption. rewrite (ZP q s) by now right. rewrite (ZP q1 s1 I1). ring.
  - match goal with H0 : In (?q0, ?s0) _ |- _ => exact (ZP q0 s0 H0) end.
  - exists (-' be). intros v Lv. rewrite Dp. ring.
  - exists al. split; [exact Nal|]. intros v Lv. rewrite (dot_sym r' v), Dr', (dot_sym (A p) v), (dot_sym r v). ring.
  - exact I.
Qed.
Lemma small_false_nz : forall t e, olt 0' t -> small K t e = false -> e <> 0'.
Proof.
  intros t e Ht Hs ->. unfold small in Hs. unfold oltb in Hs. unfold olt in Ht. rewrite Ht in Hs. cbn [negb andb] in Hs.
  assert (Ka : kabs K 0' = 0') by (unfold kabs; destruct (oleb K 0' 0'); ring). rewrite Ka in Hs.
  rewrite (oltb_mul K t t Ht Ht) in Hs. discriminate.
Qed.
Lemma cg_loop_terminates : forall b t, olt 0' t -> forall left xiter x r p H, cg_inv r p H -> (n - length H < left)%nat -> length x = n -> length b = n ->
  exists f x' it, cg_loop K A P b t left xiter x r p (dot (P r) r) = Done (f, x', it) /\ (it <= xiter + 1 + (n - length H))%nat.
Proof.
  intros b t Ht. induction left as [|left IH]; intros xiter x r p H I L Lx Lb; [lia|]. cbn [cg_loop].
  destruct (inv_head H r p I) as (Lr & Lp & Nr & Epr & Npp). pose proof (inv_bound H r p I) as Bd.
  destruct (kdiv_def (dot (P r) r) (dot p (A p)) Npp) as (al & Eal). rewrite Eal. apply kdiv_some in Eal. destruct Eal as [_ Eal].
  set (r' := vadd r (vscale (-' al) (A p))). destruct (small K t (dot (P r') r')) eqn:S1.
  - destruct (Nat.eqb_spec left 0); [lia|]. eexists _, _, _. split; [reflexivity|lia].
  - pose proof (small_false_nz t _ Ht S1) as N'. destruct (kdiv_def (dot (P r') r') (dot (P r) r) Nr) as (be & Ebe). rewrite Ebe. apply kdiv_some in Ebe. destruct Ebe as [_ Ebe].
    pose proof (inv_step H r p al be I Eal Ebe N') as I'. fold r' in I'. pose proof (inv_bound _ _ _ I') as Bd'. cbn [length] in Bd'.
    destruct (IH (S xiter) (vadd x (vscale al p)) r' _ _ I') as (f & x' & it & E & B1); [cbn [length]; lia|apply vadd_len; auto using vscale_len|exact Lb|].
    exists f, x', it. split; [exact E|cbn [length] in B1; lia].
Qed.
End Conj.
End Vec.
