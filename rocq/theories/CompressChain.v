(** Lemmas for C33 and C59: inner products of matrix product chains and one truncated step, over functions. *)
From Coq Require Import ZArith Bool List Lia Permutation Ring.
From Verif Require Import SymModel SymProofs DictLib IndexLib OptLib RingLib BondModel FuseModel BlockModel BlockProofs StructModel StructProofs MpsModel MpsChain MpsProofs MpsDot CanonModel CanonProofs CanonSites CanonChain.
Import ListNotations.
Open Scope nat_scope.

Lemma last_cons : forall A (l : list A) a d, last (a :: l) d = last l a.
Proof. intros A l. induction l as [|b l IH]; intros a d; [reflexivity|]. transitivity (last (b :: l) d); [reflexivity|]. now rewrite !IH. Qed.
Lemma firstn_snoc : forall A (l : list A) i d, i < length l -> firstn (S i) l = firstn i l ++ [nth i l d].
Proof. intros A l. induction l as [|x l IH]; intros [|i] d H; cbn in H; try lia; [reflexivity|]. cbn [firstn app nth]. f_equal. apply IH. lia. Qed.
Lemma skipn_nth : forall A (l : list A) i d, i < length l -> skipn i l = nth i l d :: skipn (S i) l.
Proof. intros A l. induction l as [|x l IH]; intros [|i] d H; cbn in H; try lia; [reflexivity|]. cbn [skipn nth]. rewrite (IH i d) by lia. destruct l; reflexivity. Qed.
Lemma combine_snoc : forall A B (l : list A) (m : list B) a b, length l = length m -> combine (l ++ [a]) (m ++ [b]) = combine l m ++ [(a, b)].
Proof. intros A B l. induction l as [|x l IH]; intros [|y m] a b H; try discriminate; [reflexivity|]. cbn. f_equal. apply IH. now inversion H. Qed.
Lemma firstn_In : forall A (l : list A) i x, In x (firstn i l) -> In x l.
Proof. intros A l. induction l as [|y l IH]; intros [|i] x H; cbn in H; try contradiction. destruct H as [->|H]; [now left|right; eauto]. Qed.
Lemma firstn_upd : forall A (l : list A) i j x, i <= j -> j < length l -> firstn i (upd j x l) = firstn i l.
Proof. intros A l. induction l as [|y l IH]; intros [|i] [|j] x H H'; cbn [length] in H'; try reflexivity; try lia. rewrite upd_S. cbn [firstn]. f_equal. apply IH; lia. Qed.
Lemma skipn_upd_lt : forall A (l : list A) i j x, j < i -> j < length l -> skipn i (upd j x l) = skipn i l.
Proof. intros A l. induction l as [|y l IH]; intros [|i] [|j] x H H'; cbn [length] in H'; try reflexivity; try lia. rewrite upd_S. cbn [skipn]. apply IH; lia. Qed.

Section Env.
Variable R : CRing.
Add Ring Rr30 : (rth R).
Notation "0'" := (r0 R). Notation "1'" := (r1 R).
Infix "+'" := (radd R) (at level 50, left associativity).
Infix "-'" := (rsub R) (at level 50, left associativity).
Infix "*'" := (rmul R) (at level 40, left associativity).
Variables P T : Type.
Variable T_dec : forall a b : T, {a = b} + {a <> b}.
Variable cj : R -> R.
Hypothesis cj_add : forall x y, cj (x +' y) = cj x +' cj y.
Hypothesis cj_mul : forall x y, cj (x *' y) = cj x *' cj y.
Hypothesis cj_cj : forall x, cj (cj x) = x.
Notation mat := (P -> T -> T -> R).
Definition dlt (a b : T) : R := if T_dec a b then 1' else 0'.

Lemma cj_0 : cj 0' = 0'.
Proof. assert (E: cj 0' +' cj 0' = cj 0') by (rewrite <- cj_add; f_equal; ring). transitivity (cj 0' +' cj 0' -' cj 0'); [ring|]. rewrite E. ring. Qed.
Lemma cj_bsum : forall A (l : list A) f, cj (bsum l f) = bsum l (fun x => cj (f x)).
Proof. intros A l f. induction l as [|x l IH]; [rewrite !bsum_nil; apply cj_0|]. rewrite !bsum_cons, cj_add, IH. reflexivity. Qed.
Lemma dlt_sym : forall a b, dlt a b = dlt b a.
Proof. intros a b. unfold dlt. destruct (T_dec a b), (T_dec b a); congruence. Qed.
Lemma cj_1 : cj 1' = 1'.
Proof. assert (E1: cj 1' *' cj (cj 1') = cj (cj 1')) by (rewrite <- cj_mul; f_equal; ring). rewrite cj_cj in E1. rewrite <- E1 at 2. ring. Qed.
Lemma cj_dlt : forall a b, cj (dlt a b) = dlt a b.
Proof. intros a b. unfold dlt. destruct (T_dec a b); [apply cj_1|apply cj_0]. Qed.
Lemma dlt_sum : forall C (a : T) (f : T -> R), NoDup C -> In a C -> bsum C (fun k => dlt a k *' f k) = f a.
Proof.
  intros C a f N H. rewrite (bsum_single R _ C _ a N H); [unfold dlt; destruct (T_dec a a); [ring|congruence]|]. intros k _ Nk. unfold dlt. destruct (T_dec a k); [congruence|ring].
Qed.

(** *** orthonormal families *)
Definition ortho {X} (Xs : list X) (E : X -> T -> R) (B : list T) : Prop :=
  forall m m', In m B -> In m' B -> bsum Xs (fun x => cj (E x m) *' E x m') = dlt m m'.
Lemma parseval : forall X (Xs : list X) E C (a b : T -> R), NoDup C -> ortho Xs E C ->
  bsum Xs (fun x => cj (bsum C (fun k => a k *' E x k)) *' bsum C (fun k => b k *' E x k)) = bsum C (fun k => cj (a k) *' b k).
Proof.
  intros X Xs E C a b N O. transitivity (bsum Xs (fun x => bsum C (fun k => bsum C (fun k' => cj (a k) *' b k' *' (cj (E x k) *' E x k'))))).
  - apply bsum_ext. intros x _. rewrite cj_bsum, <- bsum_mulr. apply bsum_ext. intros k _. rewrite <- bsum_mull. apply bsum_ext. intros k' _. rewrite cj_mul. ring.
  - rewrite bsum_swap. apply bsum_ext. intros k Hk. rewrite bsum_swap. rewrite (bsum_ext R _ C _ (fun k' => dlt k k' *' (cj (a k) *' b k'))).
    + now apply dlt_sum.
    + intros k' Hk'. rewrite bsum_mull, O by auto. ring.
Qed.

Section Center.
Variables A X : Type.
Variables (As : list A) (EA : A -> T -> R) (B : list T) (Xs : list X) (EX : X -> T -> R) (C : list T) (Q : list P).
Hypothesis NB : NoDup B. Hypothesis NC : NoDup C.
Hypothesis OA : ortho As EA B. Hypothesis OX : ortho Xs EX C.
(* a centre site between two environments *)
Definition zip (t : mat) (a : A) (p : P) (x : X) : R := bsum C (fun k => bsum B (fun m => t p m k *' EA a m) *' EX x k).
Definition ip (f g : A -> P -> X -> R) : R := bsum As (fun a => bsum Q (fun p => bsum Xs (fun x => cj (f a p x) *' g a p x))).
Lemma zip_ip : forall t t', ip (zip t) (zip t') = bsum Q (fun p => bsum B (fun m => bsum C (fun k => cj (t p m k) *' t' p m k))).
Proof.
  intros t t'. unfold ip. rewrite bsum_swap. apply bsum_ext. intros p _.
  transitivity (bsum As (fun a => bsum C (fun k => cj (bsum B (fun m => t p m k *' EA a m)) *' bsum B (fun m => t' p m k *' EA a m)))).
  - apply bsum_ext. intros a _. unfold zip. now apply (parseval X Xs EX C).
  - rewrite bsum_swap. rewrite (bsum_ext R _ C _ (fun k => bsum B (fun m => cj (t p m k) *' t' p m k))) by (intros k _; now apply (parseval A As EA B)). apply bsum_swap.
Qed.
Lemma ip_sym : forall f g, ip f g = cj (ip g f).
Proof.
  intros f g. unfold ip. rewrite cj_bsum. apply bsum_ext. intros a _. rewrite cj_bsum. apply bsum_ext. intros p _. rewrite cj_bsum. apply bsum_ext. intros x _. rewrite cj_mul, cj_cj. ring.
Qed.
Lemma ip_add : forall f g h, ip f (fun a p x => g a p x +' h a p x) = ip f g +' ip f h.
Proof.
  intros f g h. unfold ip. rewrite <- bsum_add. apply bsum_ext. intros a _. rewrite <- bsum_add. apply bsum_ext. intros p _. rewrite <- bsum_add. apply bsum_ext. intros x _. ring.
Qed.
Lemma ip_ext : forall f f' g g', (forall a p x, f a p x = f' a p x) -> (forall a p x, g a p x = g' a p x) -> ip f g = ip f' g'.
Proof. intros f f' g g' H1 H2. unfold ip. apply bsum_ext. intros a _. apply bsum_ext. intros p _. apply bsum_ext. intros x _. now rewrite H1, H2. Qed.
Lemma pythagoras : forall f g, ip g f = 0' -> ip (fun a p x => f a p x +' g a p x) (fun a p x => f a p x +' g a p x) = ip f f +' ip g g.
Proof.
  intros f g E. rewrite ip_add. rewrite (ip_sym _ f), (ip_sym _ g), !ip_add, E. rewrite (ip_sym f g), E, cj_0. rewrite !cj_add, <- !ip_sym, cj_0. ring.
Qed.

Variables (t f : mat) (g : T -> T -> R) (B' : list T).
Definition residual : mat := fun p m k => t p m k -' bsum B' (fun z => g m z *' f p z k).
Hypothesis orth : forall z m, In z B' -> In m B -> bsum Q (fun p => bsum C (fun k => cj (f p z k) *' residual p m k)) = 0'.
Definition span (Y : A -> T -> R) (a : A) (p : P) (x : X) : R := bsum B' (fun z => Y a z *' bsum C (fun k => f p z k *' EX x k)).
Lemma span_zip : forall Y, ip (span Y) (zip residual) = 0'.
Proof.
  intros Y. unfold ip. apply bsum_zero. intros a _.
  transitivity (bsum Q (fun p => bsum B' (fun z => bsum B (fun m => cj (Y a z) *' EA a m *' bsum C (fun k => cj (f p z k) *' residual p m k))))).
  - apply bsum_ext. intros p _.
    transitivity (bsum C (fun k => cj (bsum B' (fun z => Y a z *' f p z k)) *' bsum B (fun m => residual p m k *' EA a m))).
    + rewrite <- (parseval X Xs EX C) by auto. apply bsum_ext. intros x _. unfold zip. f_equal. f_equal. unfold span.
      rewrite (bsum_ext R _ B' _ (fun z => bsum C (fun k => Y a z *' f p z k *' EX x k))) by (intros z _; rewrite <- bsum_mull; apply bsum_ext; intros; ring). rewrite bsum_swap. apply bsum_ext. intros k _. now rewrite bsum_mulr.
    + rewrite (bsum_ext R _ C _ (fun k => bsum B' (fun z => bsum B (fun m => cj (Y a z) *' EA a m *' (cj (f p z k) *' residual p m k))))).
      * rewrite bsum_swap. apply bsum_ext. intros z _. rewrite bsum_swap. apply bsum_ext. intros m _. now rewrite bsum_mull.
      * intros k _. rewrite cj_bsum, <- bsum_mulr. apply bsum_ext. intros z _. rewrite <- bsum_mull. apply bsum_ext. intros m _. rewrite cj_mul. ring.
  - rewrite bsum_swap. apply bsum_zero. intros z Hz. rewrite bsum_swap. apply bsum_zero. intros m Hm. rewrite bsum_mull, orth by auto. ring.
Qed.
Definition pushed (a : A) (z : T) : R := bsum B (fun m => g m z *' EA a m).
Lemma zip_split : forall a p x, zip t a p x = zip residual a p x +' span pushed a p x.
Proof.
  intros a p x. unfold zip, span.
  rewrite (bsum_ext R _ B' _ (fun z => bsum C (fun k => bsum B (fun m => g m z *' f p z k *' EA a m) *' EX x k))).
  2:{ intros z _. rewrite <- bsum_mull. apply bsum_ext. intros k _. unfold pushed. rewrite <- !bsum_mulr. apply bsum_ext. intros m _. ring. }
  rewrite bsum_swap, <- bsum_add. apply bsum_ext. intros k _. rewrite bsum_mulr.
  replace (bsum B' (fun z => bsum B (fun m => g m z *' f p z k *' EA a m))) with (bsum B (fun m => bsum B' (fun z => g m z *' f p z k) *' EA a m)).
  2:{ rewrite bsum_swap. apply bsum_ext. intros m _. now rewrite bsum_mulr. }
  replace (bsum B (fun m => t p m k *' EA a m)) with (bsum B (fun m => residual p m k *' EA a m) +' bsum B (fun m => bsum B' (fun z => g m z *' f p z k) *' EA a m)); [ring|].
  rewrite <- bsum_add. apply bsum_ext. intros m _. unfold residual. ring.
Qed.
(* any state spanned by the new rows on the right is as far from the old state as from the new one, plus the residual *)
Lemma center_step : forall Y, ip (fun a p x => zip t a p x -' span Y a p x) (fun a p x => zip t a p x -' span Y a p x)
  = bsum Q (fun p => bsum B (fun m => bsum C (fun k => cj (residual p m k) *' residual p m k))) +' ip (fun a p x => span pushed a p x -' span Y a p x) (fun a p x => span pushed a p x -' span Y a p x).
Proof.
  intros Y. rewrite <- zip_ip. set (h := fun a z => pushed a z -' Y a z).
  assert (E: forall a p x, span pushed a p x -' span Y a p x = span h a p x).
  { intros a p x. unfold span, h. transitivity (bsum B' (fun z => pushed a z *' bsum C (fun k => f p z k *' EX x k)) +' bsum B' (fun z => ropp R (Y a z *' bsum C (fun k => f p z k *' EX x k)))); [rewrite bsum_opp; ring|]. rewrite <- bsum_add. apply bsum_ext. intros z _. ring. }
  rewrite (ip_ext (fun a p x => span pushed a p x -' span Y a p x) (span h) (fun a p x => span pushed a p x -' span Y a p x) (span h)) by (intros; apply E).
  rewrite <- pythagoras by apply span_zip. apply ip_ext; intros a p x; rewrite <- E, zip_split; ring.
Qed.
End Center.

(** *** environments *)
Fixpoint env (ss : list (mat * list T)) (ps : list P) (r m : T) : R :=
  match ss, ps with
  | [], [] => dlt m r
  | s :: ss', p :: ps' => bsum (snd s) (fun k => fst s p m k *' env ss' ps' r k)
  | _, _ => 0'
  end.
Fixpoint isos (ss : list (mat * list T)) (Ps : list (list P)) (B Br : list T) : Prop :=
  match ss, Ps with
  | [], [] => incl B Br
  | s :: ss', Q :: Ps' => NoDup (snd s) /\ (forall m m', In m B -> In m' B -> bsum Q (fun p => bsum (snd s) (fun k => cj (fst s p m k) *' fst s p m' k)) = dlt m m') /\ isos ss' Ps' (snd s) Br
  | _, _ => False
  end.
Definition confs (Ps : list (list P)) (Br : list T) : list (list P * T) := list_prod (choices Ps) Br.
Lemma bsum_lprod : forall (A B : Type) (l : list A) (m : list B) (f : A * B -> R), bsum (list_prod l m) f = bsum l (fun a => bsum m (fun b => f (a, b))).
Proof. intros A B l m f. induction l as [|a l IH]; [reflexivity|]. cbn [list_prod]. rewrite bsum_app, bsum_map, bsum_cons, IH. reflexivity. Qed.
Lemma confs_cons : forall Q Ps Br (f : list P * T -> R), bsum (confs (Q :: Ps) Br) f = bsum Q (fun p => bsum (confs Ps Br) (fun x => f (p :: fst x, snd x))).
Proof.
  intros Q Ps Br f. unfold confs. rewrite bsum_lprod. cbn [choices]. rewrite bsum_flat_map. apply bsum_ext. intros p _. rewrite bsum_map, bsum_lprod. reflexivity.
Qed.
Lemma env_ortho : forall ss Ps B Br, NoDup Br -> isos ss Ps B Br -> ortho (confs Ps Br) (fun x => env ss (fst x) (snd x)) B.
Proof.
  induction ss as [|[f C] ss IH]; intros [|Q Ps] B Br N H; cbn [isos fst snd] in H; try contradiction; intros m m' Hm Hm'.
  - unfold confs. rewrite bsum_lprod. cbn [choices]. rewrite bsum_cons, bsum_nil. cbn [env fst snd]. rewrite (bsum_ext R _ Br _ (fun r => dlt m' r *' cj (dlt m r))) by (intros; ring). rewrite dlt_sum by auto. rewrite cj_dlt, (dlt_sym m m'). ring.
  - destruct H as (NC & I & H). rewrite confs_cons. rewrite (bsum_ext R _ Q _ (fun p => bsum C (fun k => cj (f p m k) *' f p m' k))); [now apply I|]. intros p _. cbn [fst snd env]. now apply (parseval _ (confs Ps Br) (fun x => env ss (fst x) (snd x)) C _ _ NC (IH Ps C Br N H)).
Qed.
Lemma chain_env : forall fs Bs Br ps l r, fs <> [] -> length fs = S (length Bs) -> NoDup Br -> In r Br -> chain R P T Bs fs ps l r = env (combine fs (Bs ++ [Br])) ps r l.
Proof.
  induction fs as [|f fs IH]; intros Bs Br ps l r Nf Ln N H; [congruence|]. destruct fs as [|g fs].
  - destruct Bs; [|discriminate]. cbn [combine app]. destruct ps as [|p [|q ps]]; cbn [env fst snd].
    + reflexivity.
    + rewrite chain_one. rewrite (bsum_ext R _ Br _ (fun k => dlt r k *' f p l k)) by (intros; rewrite dlt_sym; ring). now rewrite dlt_sum.
    + rewrite chain_long. symmetry. apply bsum_zero. intros. ring.
  - destruct Bs as [|B Bs]; [discriminate|]. destruct ps as [|p ps]; [reflexivity|]. rewrite chain_cons. cbn [app combine]. change ((g, ?x) :: ?y) with ((g, x) :: y). cbn [env fst snd]. apply bsum_ext. intros m _. f_equal. rewrite (IH Bs Br) by (auto; cbn [length] in *; try lia; discriminate). destruct Bs; reflexivity.
Qed.
(* sites to the left, nearest first, each with its left bond *)
Definition flip (u : mat) : mat := fun p l m => u p m l.
Definition flips (ls : list (mat * list T)) : list (mat * list T) := map (fun s => (flip (fst s), snd s)) ls.
Fixpoint fwd (ls : list (mat * list T)) (C : list T) (rest : list (mat * list T)) : list (mat * list T) :=
  match ls with [] => rest | s :: ls' => fwd ls' (snd s) ((fst s, C) :: rest) end.
Lemma env_fwd : forall ls C rest psL psR l r, length psL = length ls -> (forall s, In s ls -> NoDup (snd s)) -> NoDup C -> In l (last (map snd ls) C) ->
  env (fwd ls C rest) (rev psL ++ psR) r l = bsum C (fun m => env (flips ls) psL l m *' env rest psR r m).
Proof.
  induction ls as [|[u B0] ls IH]; intros C rest psL psR l r Lp Nd NC Hl.
  - destruct psL; [|discriminate]. cbn [fwd rev app flips map env last] in *. rewrite (bsum_ext R _ C _ (fun m => dlt l m *' env rest psR r m)) by (intros; rewrite dlt_sym; ring). now rewrite dlt_sum.
  - destruct psL as [|p psL]; [discriminate|]. cbn [fwd rev fst snd]. rewrite <- app_assoc. cbn [app]. rewrite IH; [|now inversion Lp|intros; apply Nd; now right|apply (Nd (u, B0)); now left|].
    + cbn [flips map env fst snd]. fold (flips ls). rewrite (bsum_ext R _ C _ (fun m => bsum B0 (fun k => u p k m *' env (flips ls) psL l k *' env rest psR r m))) by (intros; rewrite <- bsum_mulr; reflexivity).
      rewrite bsum_swap. apply bsum_ext. intros k _. rewrite <- bsum_mull. apply bsum_ext. intros m _. ring.
    + cbn [map snd] in Hl. now rewrite last_cons in Hl.
Qed.
(** *** chains given by a list of site functions and a list of bond lists *)
Notation fs_t := (list mat). Notation ds_t := (list (list T)).
Definition psi (fs : fs_t) (Ds : ds_t) (ps : list P) (l r : T) : R := env (combine fs (tl Ds)) ps r l.
Definition lefts (fs : fs_t) (Ds : ds_t) (i : nat) := rev (combine (firstn i fs) (firstn i Ds)).
Definition rights (fs : fs_t) (Ds : ds_t) (i : nat) := combine (skipn i fs) (skipn (S i) Ds).
Lemma lefts_len : forall fs Ds i, i <= length fs -> i <= length Ds -> length (lefts fs Ds i) = i.
Proof. intros. unfold lefts. rewrite rev_length, combine_length, !firstn_length. lia. Qed.
Lemma lefts_S : forall fs Ds i u0, i < length fs -> i < length Ds -> lefts fs Ds (S i) = (nth i fs u0, nth i Ds []) :: lefts fs Ds i.
Proof. intros fs Ds i u0 H H'. unfold lefts. rewrite (firstn_snoc _ fs i u0), (firstn_snoc _ Ds i []) by auto. rewrite combine_snoc by (rewrite !firstn_length; lia). now rewrite rev_app_distr. Qed.
Lemma rights_S : forall fs Ds i u0, i < length fs -> S i < length Ds -> rights fs Ds i = (nth i fs u0, nth (S i) Ds []) :: rights fs Ds (S i).
Proof. intros fs Ds i u0 H H'. unfold rights. rewrite (skipn_nth _ fs i u0), (skipn_nth _ Ds (S i) []) by auto. reflexivity. Qed.
Lemma fwd_split : forall fs Ds i, length Ds = S (length fs) -> i <= length fs -> fwd (lefts fs Ds i) (nth i Ds []) (rights fs Ds i) = combine fs (tl Ds).
Proof.
  intros fs Ds i Ln. induction i as [|i IH]; intros Hi.
  - cbn [lefts firstn combine rev fwd]. unfold rights. destruct Ds; reflexivity.
  - rewrite <- IH by lia. destruct fs as [|u0 fs']; [cbn in Hi; lia|]. set (fs := u0 :: fs') in *. rewrite (lefts_S fs Ds i u0), (rights_S fs Ds i u0) by lia. reflexivity.
Qed.
Lemma lefts_last : forall fs Ds i, length Ds = S (length fs) -> i <= length fs -> last (map snd (lefts fs Ds i)) (nth i Ds []) = nth 0 Ds [].
Proof.
  intros fs Ds i Ln. induction i as [|i IH]; intros Hi; [reflexivity|]. destruct fs as [|u0 fs']; [cbn in Hi; lia|]. rewrite (lefts_S _ Ds i u0) by lia. cbn [map snd]. rewrite last_cons. apply IH. lia.
Qed.
Lemma lefts_in : forall fs Ds i s, In s (lefts fs Ds i) -> In (snd s) Ds.
Proof. intros fs Ds i [u B] H. unfold lefts in H. apply in_rev, in_combine_r, firstn_In in H. exact H. Qed.
Lemma psi_split : forall fs Ds i psL psR l r, length Ds = S (length fs) -> i <= length fs -> length psL = i -> (forall B, In B Ds -> NoDup B) -> In l (nth 0 Ds []) ->
  psi fs Ds (rev psL ++ psR) l r = bsum (nth i Ds []) (fun m => env (flips (lefts fs Ds i)) psL l m *' env (rights fs Ds i) psR r m).
Proof.
  intros fs Ds i psL psR l r Ln Hi Lp N Hl. unfold psi. rewrite <- (fwd_split fs Ds i) by auto. apply env_fwd.
  - rewrite lefts_len; lia.
  - intros s Hs. apply N. eapply lefts_in. exact Hs.
  - apply N, nth_In. lia.
  - now rewrite lefts_last.
Qed.
(* the same state read from the other end *)
Lemma psi_rev : forall fs Ds ps l r, length Ds = S (length fs) -> length ps = length fs -> (forall B, In B Ds -> NoDup B) -> In l (nth 0 Ds []) -> In r (nth (length fs) Ds []) ->
  psi fs Ds ps l r = psi (rev (map flip fs)) (rev Ds) (rev ps) r l.
Proof.
  intros fs Ds ps l r Ln Lp N Hl Hr. rewrite <- (rev_involutive ps), <- (app_nil_r (rev (rev ps))). rewrite (psi_split fs Ds (length fs)) by (auto; rewrite rev_length; auto). rewrite app_nil_r, rev_involutive.
  unfold rights. rewrite skipn_all. cbn [combine env]. rewrite (bsum_ext R _ _ _ (fun m => dlt r m *' env (flips (lefts fs Ds (length fs))) (rev ps) l m)) by (intros; rewrite dlt_sym; ring).
  rewrite dlt_sum; [|apply N, nth_In; lia|auto]. unfold psi. f_equal. unfold lefts, flips. rewrite firstn_all. rewrite map_rev.
  destruct (exists_last (l := Ds)) as (Ds' & D & ->); [destruct Ds; [discriminate|congruence]|]. rewrite app_length in Ln. cbn in Ln. rewrite firstn_app, (firstn_all2 Ds') by lia. replace (length fs - length Ds') with 0 by lia. cbn [firstn]. rewrite app_nil_r, rev_app_distr. cbn [rev app tl].
  assert (E: length fs = length Ds') by lia. clear -E. revert Ds' E. induction fs as [|f fs IH]; intros [|D Ds] E; try discriminate; [reflexivity|]. cbn [combine map rev]. rewrite IH by (now inversion E). rewrite combine_snoc; [reflexivity|]. rewrite !rev_length, map_length. now inversion E.
Qed.
Lemma choices_app : forall (P1 P2 : list (list P)) (F : list P -> R), bsum (choices (P1 ++ P2)) F = bsum (choices P1) (fun a => bsum (choices P2) (fun b => F (a ++ b))).
Proof.
  induction P1 as [|Q P1 IH]; intros P2 F; cbn [app choices]; [rewrite bsum_cons, bsum_nil; cbn [app]; change (fun b : list P => F b) with F; ring|]. rewrite !bsum_flat_map. apply bsum_ext. intros p _. rewrite !bsum_map, IH. reflexivity.
Qed.
Lemma choices_rev : forall (Ps : list (list P)) (F : list P -> R), bsum (choices (rev Ps)) F = bsum (choices Ps) (fun a => F (rev a)).
Proof.
  induction Ps as [|Q Ps IH]; intros F; [reflexivity|]. cbn [rev]. rewrite choices_app, IH. cbn [choices]. rewrite bsum_flat_map.
  rewrite (bsum_ext R _ Q _ (fun p => bsum (choices Ps) (fun a => F (rev a ++ [p])))) by (intros p _; rewrite bsum_map; reflexivity). rewrite (bsum_swap R _ _ Q). apply bsum_ext. intros a _. rewrite bsum_flat_map. apply bsum_ext. intros p _. cbn [map]. rewrite bsum_cons, bsum_nil. ring.
Qed.
Lemma choices_length : forall (Ps : list (list P)) ps, In ps (choices Ps) -> length ps = length Ps.
Proof.
  induction Ps as [|Q Ps IH]; intros ps H; cbn [choices] in H; [destruct H as [<-|[]]; reflexivity|]. apply in_flat_map in H. destruct H as (p & _ & H). apply in_map_iff in H. destruct H as (q & <- & H). cbn. now rewrite (IH q).
Qed.
Definition total (Ps : list (list P)) (Bl Br : list T) (F : list P -> T -> T -> R) : R := bsum Bl (fun l => bsum (choices Ps) (fun ps => bsum Br (fun r => F ps l r))).
Lemma total_split : forall Ps Bl Br i F, i < length Ps -> total Ps Bl Br F
  = bsum (confs (rev (firstn i Ps)) Bl) (fun a => bsum (nth i Ps []) (fun p => bsum (confs (skipn (S i) Ps) Br) (fun x => F (rev (fst a) ++ p :: fst x) (snd a) (snd x)))).
Proof.
  intros Ps Bl Br i F Hi. unfold total, confs. rewrite bsum_lprod, choices_rev, bsum_swap.
  rewrite <- (firstn_skipn i Ps) at 1. rewrite choices_app. apply bsum_ext. intros a _. rewrite (skipn_nth _ Ps i []) by auto. cbn [choices]. rewrite bsum_flat_map.
  rewrite (bsum_ext R _ _ _ (fun p => bsum (choices (skipn (S i) Ps)) (fun b => bsum Bl (fun l => bsum Br (fun r => F (a ++ p :: b) l r))))) by (intros p _; rewrite bsum_map; reflexivity).
  rewrite (bsum_ext R _ Bl _ (fun l => bsum (nth i Ps []) (fun p => bsum (choices (skipn (S i) Ps)) (fun b => bsum Br (fun r => F (a ++ p :: b) l r))))).
  - rewrite (bsum_swap R _ _ Bl). apply bsum_ext. intros p _. rewrite (bsum_swap R _ _ Bl). reflexivity.
  - intros l _. apply bsum_ext. intros p _. rewrite bsum_lprod. cbn [fst snd]. rewrite rev_involutive. reflexivity.
Qed.
Lemma total_rev : forall Ps Bl Br F, total (rev Ps) Br Bl (fun ps r l => F (rev ps) l r) = total Ps Bl Br F.
Proof.
  intros Ps Bl Br F. unfold total. rewrite bsum_swap, choices_rev. rewrite (bsum_swap R _ _ Bl). apply bsum_ext. intros ps _. rewrite bsum_swap. rewrite rev_involutive. reflexivity.
Qed.
Lemma total_ext : forall Ps Bl Br F G, (forall ps l r, length ps = length Ps -> In l Bl -> In r Br -> F ps l r = G ps l r) -> total Ps Bl Br F = total Ps Bl Br G.
Proof. intros Ps Bl Br F G H. unfold total. apply bsum_ext. intros l Hl. apply bsum_ext. intros ps Hp. apply bsum_ext. intros r Hr. apply H; auto. now apply choices_length. Qed.

(** *** isometries at given positions *)
Definition liso (fs : fs_t) (Ds : ds_t) (Ps : list (list P)) (j : nat) : Prop :=
  forall u m m', nth_error fs j = Some u -> In m (nth (S j) Ds []) -> In m' (nth (S j) Ds []) ->
    bsum (nth j Ps []) (fun p => bsum (nth j Ds []) (fun k => cj (u p k m) *' u p k m')) = dlt m m'.
Definition riso (fs : fs_t) (Ds : ds_t) (Ps : list (list P)) (j : nat) : Prop :=
  forall u m m', nth_error fs j = Some u -> In m (nth j Ds []) -> In m' (nth j Ds []) ->
    bsum (nth j Ps []) (fun p => bsum (nth (S j) Ds []) (fun k => cj (u p m k) *' u p m' k)) = dlt m m'.
Section Shapes.
Variables (fs : fs_t) (Ds : ds_t) (Ps : list (list P)) (n : nat).
Hypothesis Lf : length fs = n. Hypothesis Ld : length Ds = S n. Hypothesis Lp : length Ps = n.
Hypothesis ND : forall B, In B Ds -> NoDup B.
Lemma lefts_isos : forall i, i <= n -> (forall j, j < i -> liso fs Ds Ps j) -> isos (flips (lefts fs Ds i)) (rev (firstn i Ps)) (nth i Ds []) (nth 0 Ds []).
Proof.
  induction i as [|i IH]; intros Hi H; [cbn; apply incl_refl|]. destruct fs as [|u0 fs'] eqn:Ef; [cbn in Lf; lia|]. rewrite <- Ef in *. rewrite (lefts_S fs Ds i u0), (firstn_snoc _ Ps i []) by lia. rewrite rev_app_distr. cbn [rev app flips map isos fst snd]. repeat split.
  - apply ND, nth_In. lia.
  - intros m m' Hm Hm'. apply (H i); auto. apply nth_error_nth'. lia.
  - apply IH; [lia|auto].
Qed.
Lemma rights_isos : forall k i, i + k = n -> (forall j, i <= j -> j < n -> riso fs Ds Ps j) -> isos (rights fs Ds i) (skipn i Ps) (nth i Ds []) (nth n Ds []).
Proof.
  induction k as [|k IH]; intros i Hi H.
  - unfold rights. rewrite (skipn_all2 fs), (skipn_all2 Ps) by lia. cbn. replace i with n by lia. apply incl_refl.
  - destruct fs as [|u0 fs'] eqn:Ef; [cbn in Lf; lia|]. rewrite <- Ef in *. rewrite (rights_S fs Ds i u0), (skipn_nth _ Ps i []) by lia. cbn [isos fst snd]. repeat split.
    + apply ND, nth_In. lia.
    + intros m m' Hm Hm'. apply (H i); auto; [lia|]. apply nth_error_nth'. lia.
    + apply IH; [lia|]. intros. apply H; lia.
Qed.
End Shapes.

Definition dist2 (Ps : list (list P)) (Bl Br : list T) (F G : list P -> T -> T -> R) : R := total Ps Bl Br (fun ps l r => cj (F ps l r -' G ps l r) *' (F ps l r -' G ps l r)).
Definition norm2 (Ps : list (list P)) (Bl Br : list T) (F : list P -> T -> T -> R) : R := total Ps Bl Br (fun ps l r => cj (F ps l r) *' F ps l r).

Section Step.
Variables (fs : fs_t) (Ds : ds_t) (Ps : list (list P)) (n i : nat).
Hypothesis Lf : length fs = n. Hypothesis Ld : length Ds = S n. Hypothesis Lp : length Ps = n.
Hypothesis ND : forall B, In B Ds -> NoDup B.
Hypothesis Hi : S i < n.
Variables (u t u' f : mat) (g : T -> T -> R) (B' : list T) (err : R).
Hypothesis Eu : nth_error fs i = Some u. Hypothesis Et : nth_error fs (S i) = Some t.
Hypothesis LI : forall j, j <= i -> liso fs Ds Ps j.
Hypothesis RI : forall j, S i < j -> j < n -> riso fs Ds Ps j.
Hypothesis NB' : NoDup B'.
Hypothesis push : forall p l z, In z B' -> In l (nth i Ds []) -> u' p l z = bsum (nth (S i) Ds []) (fun m => u p l m *' g m z).
Notation res := (residual t f g B').
Hypothesis orth : forall z m, In z B' -> In m (nth (S i) Ds []) -> bsum (nth (S i) Ps []) (fun p => bsum (nth (S (S i)) Ds []) (fun k => cj (f p z k) *' res p m k)) = 0'.
Hypothesis Herr : bsum (nth (S i) Ps []) (fun p => bsum (nth (S i) Ds []) (fun m => bsum (nth (S (S i)) Ds []) (fun k => cj (res p m k) *' res p m k))) = err.
Definition fs1 := upd i u' (upd (S i) f fs).
Definition ds1 := upd (S i) B' Ds.
Notation Bl := (nth 0 Ds []). Notation Br := (nth n Ds []).

Let EA := fun a : list P * T => env (flips (lefts fs Ds (S i))) (fst a) (snd a).
Let EX := fun x : list P * T => env (rights fs Ds (S (S i))) (fst x) (snd x).
Let As := confs (rev (firstn (S i) Ps)) Bl.
Let Xs := confs (skipn (S (S i)) Ps) Br.
Lemma As_in : forall a, In a As -> length (fst a) = S i /\ In (snd a) Bl.
Proof. intros [ps l] H. apply in_prod_iff in H. destruct H as [H H']. apply choices_length in H. rewrite rev_length, firstn_length in H. cbn [fst snd]. split; [lia|auto]. Qed.
Lemma old_zip : forall a p x, In a As -> psi fs Ds (rev (fst a) ++ p :: fst x) (snd a) (snd x) = zip _ _ EA (nth (S i) Ds []) EX (nth (S (S i)) Ds []) t a p x.
Proof.
  intros a p x Ha. destruct (As_in a Ha) as [La Hl]. rewrite (psi_split fs Ds (S i)) by (auto; lia). rewrite (rights_S fs Ds (S i) t) by lia. cbn [env fst snd]. rewrite (nth_error_nth _ _ t Et).
  unfold zip. rewrite (bsum_ext R _ (nth (S (S i)) Ds []) _ (fun k => bsum (nth (S i) Ds []) (fun m => t p m k *' EA a m *' EX x k))) by (intros; now rewrite bsum_mulr). rewrite bsum_swap. apply bsum_ext. intros m _. rewrite <- bsum_mull. apply bsum_ext. intros k _. unfold EA, EX. ring.
Qed.
Lemma span_of : forall gs Es a p x, length gs = n -> length Es = S n -> (forall B, In B Es -> NoDup B) -> nth 0 Es [] = Bl -> nth (S i) Es [] = B' -> skipn (S i) gs = f :: skipn (S (S i)) fs -> skipn (S (S i)) Es = skipn (S (S i)) Ds ->
  In a As -> psi gs Es (rev (fst a) ++ p :: fst x) (snd a) (snd x) = span _ _ EX (nth (S (S i)) Ds []) f B' (fun a z => env (flips (lefts gs Es (S i))) (fst a) (snd a) z) a p x.
Proof.
  intros gs Es a p x Lg Le Ne E0 EB Eg Ee Ha. destruct (As_in a Ha) as [La Hl]. rewrite (psi_split gs Es (S i)) by (auto; try lia; rewrite ?E0; auto). rewrite EB. unfold rights. rewrite Eg, Ee. rewrite (skipn_nth _ Ds (S (S i)) []) by lia. cbn [combine env fst snd]. reflexivity.
Qed.
Lemma nd1 : forall B, In B ds1 -> NoDup B.
Proof. intros B H. apply In_nth_error in H. destruct H as [j Hj]. unfold ds1 in Hj. rewrite nth_error_upd in Hj by lia. destruct (Nat.eqb j (S i)) eqn:E; [injection Hj as <-; auto|]. apply nth_error_In in Hj. auto. Qed.
Lemma new_span : forall a p x, In a As -> psi fs1 ds1 (rev (fst a) ++ p :: fst x) (snd a) (snd x) = span _ _ EX (nth (S (S i)) Ds []) f B' (pushed _ EA (nth (S i) Ds []) g) a p x.
Proof.
  intros a p x Ha. rewrite span_of; auto.
  - unfold span. apply bsum_ext. intros z Hz. f_equal. destruct a as [[|q ps] l]; [destruct (As_in _ Ha); discriminate|]. cbn [fst snd]. rewrite (lefts_S fs1 ds1 i u) by (unfold fs1, ds1; rewrite ?upd_len by (rewrite ?upd_len; lia); lia).
    unfold pushed, EA. rewrite (lefts_S fs Ds i u) by lia. cbn [flips map env fst snd flip]. unfold fs1, ds1. rewrite !nth_upd by (rewrite ?upd_len; lia). rewrite Nat.eqb_refl. replace (i =? S i) with false by (symmetry; apply Nat.eqb_neq; lia).
    rewrite (nth_error_nth _ _ u Eu).
    assert (E: lefts (upd i u' (upd (S i) f fs)) (upd (S i) B' Ds) i = lefts fs Ds i) by (unfold lefts; rewrite !firstn_upd by (rewrite ?upd_len; lia); reflexivity). rewrite E. clear E. fold (flips (lefts fs Ds i)).
    rewrite (bsum_ext R _ (nth (S i) Ds []) _ (fun m => bsum (nth i Ds []) (fun k => g m z *' (u q k m *' env (flips (lefts fs Ds i)) ps l k)))) by (intros; now rewrite bsum_mull). rewrite bsum_swap. apply bsum_ext. intros k Hk. rewrite push by auto. rewrite <- bsum_mulr. apply bsum_ext. intros m _. ring.
  - unfold fs1. rewrite !upd_len by (rewrite ?upd_len; lia). exact Lf.
  - unfold ds1. rewrite upd_len by lia. exact Ld.
  - apply nd1.
  - unfold ds1. rewrite nth_upd by lia. reflexivity.
  - unfold ds1. rewrite nth_upd, Nat.eqb_refl by lia. reflexivity.
  - unfold fs1. rewrite skipn_upd_lt by (rewrite ?upd_len; lia). rewrite (skipn_nth _ _ (S i) u) by (rewrite upd_len; lia). rewrite nth_upd, Nat.eqb_refl by lia. now rewrite skipn_upd_lt by lia.
  - unfold ds1. now rewrite skipn_upd_lt by lia.
Qed.
Lemma OAs : ortho As EA (nth (S i) Ds []).
Proof. apply env_ortho; [apply ND, nth_In; lia|]. apply (lefts_isos fs Ds Ps n); auto; [lia|]. intros j Hj. apply LI. lia. Qed.
Lemma OXs : ortho Xs EX (nth (S (S i)) Ds []).
Proof. apply env_ortho; [apply ND, nth_In; lia|]. apply (rights_isos fs Ds Ps n Lf Ld Lp ND (n - S (S i))); [lia|]. intros j Hj Hj'. apply RI; lia. Qed.
Lemma step_dist : forall gs Es, length gs = n -> length Es = S n -> (forall B, In B Es -> NoDup B) -> nth 0 Es [] = Bl -> nth (S i) Es [] = B' -> skipn (S i) gs = f :: skipn (S (S i)) fs -> skipn (S (S i)) Es = skipn (S (S i)) Ds ->
  dist2 Ps Bl Br (psi fs Ds) (psi gs Es) = err +' dist2 Ps Bl Br (psi fs1 ds1) (psi gs Es).
Proof.
  intros gs Es Lg Le Ne E0 EB Eg Ee. unfold dist2. rewrite !(total_split Ps Bl Br (S i)) by lia. fold As Xs.
  set (Y := fun (a : list P * T) z => env (flips (lefts gs Es (S i))) (fst a) (snd a) z).
  assert (NB: NoDup (nth (S i) Ds [])) by (apply ND, nth_In; lia). assert (NC: NoDup (nth (S (S i)) Ds [])) by (apply ND, nth_In; lia).
  pose proof (center_step _ _ As EA (nth (S i) Ds []) Xs EX (nth (S (S i)) Ds []) (nth (S i) Ps []) NB NC OAs OXs t f g B' orth Y) as C. rewrite Herr in C.
  etransitivity; [|etransitivity; [exact C|f_equal] ]; unfold ip; apply bsum_ext; intros a Ha; apply bsum_ext; intros p _; apply bsum_ext; intros x _; rewrite (span_of gs Es) by auto; [rewrite old_zip by auto|rewrite new_span by auto]; reflexivity.
Qed.
Lemma step_norm : norm2 Ps Bl Br (psi fs Ds) = err +' norm2 Ps Bl Br (psi fs1 ds1).
Proof.
  unfold norm2. rewrite !(total_split Ps Bl Br (S i)) by lia. fold As Xs. set (Y := fun (a : list P * T) (z : T) => 0').
  assert (NB: NoDup (nth (S i) Ds [])) by (apply ND, nth_In; lia). assert (NC: NoDup (nth (S (S i)) Ds [])) by (apply ND, nth_In; lia).
  pose proof (center_step _ _ As EA (nth (S i) Ds []) Xs EX (nth (S (S i)) Ds []) (nth (S i) Ps []) NB NC OAs OXs t f g B' orth Y) as C. rewrite Herr in C.
  assert (Z0: forall a p x, span _ _ EX (nth (S (S i)) Ds []) f B' Y a p x = 0') by (intros a p x; unfold span; apply bsum_zero; intros; unfold Y; ring).
  etransitivity; [|etransitivity; [exact C|f_equal] ]; unfold ip; apply bsum_ext; intros a Ha; apply bsum_ext; intros p _; apply bsum_ext; intros x _; rewrite Z0; [rewrite old_zip by auto|rewrite new_span by auto]; f_equal; [f_equal| |f_equal|]; ring.
Qed.
End Step.
End Env.
