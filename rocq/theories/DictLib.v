(** Python dictionaries as association lists in insertion order, and small list facts.
    [dset] overwrites in place when the key exists and appends otherwise, as a Python dict does. *)
From Coq Require Import List Bool ZArith Lia Permutation.
Import ListNotations.

Section Dict.
Context {K V : Type}.
Variable eqb : K -> K -> bool.

Definition dict := list (K * V).

Fixpoint dget (d : dict) (k : K) : option V :=
  match d with
  | [] => None
  | (k', v) :: d' => if eqb k' k then Some v else dget d' k
  end.

Definition dmem (d : dict) (k : K) : bool :=
  match dget d k with Some _ => true | None => false end.

Fixpoint dset (d : dict) (k : K) (v : V) : dict :=
  match d with
  | [] => [(k, v)]
  | (k', v') :: d' => if eqb k' k then (k', v) :: d' else (k', v') :: dset d' k v
  end.

(* dict(pairs) / dict comprehension: later pairs overwrite *)
Definition dict_of (l : list (K * V)) : dict :=
  fold_left (fun d p => dset d (fst p) (snd p)) l [].

Definition keys (d : dict) : list K := map fst d.

Hypothesis eqb_spec : forall a b, reflect (a = b) (eqb a b).

Lemma eqb_refl' : forall a, eqb a a = true.
Proof. intros a. destruct (eqb_spec a a); congruence. Qed.

Lemma dget_dset : forall d k v k',
  dget (dset d k v) k' = if eqb k k' then Some v else dget d k'.
Proof.
  induction d as [|[k0 v0] d IH]; intros k v k'; simpl.
  - reflexivity.
  - destruct (eqb_spec k0 k) as [->|N]; simpl.
    + destruct (eqb k k'); reflexivity.
    + rewrite IH. destruct (eqb_spec k0 k') as [->|]; [|reflexivity].
      destruct (eqb_spec k k'); congruence.
Qed.

Lemma keys_dset_in : forall d k v x, In x (keys (dset d k v)) <-> In x (keys d) \/ x = k.
Proof.
  induction d as [|[k0 v0] d IH]; intros k v x; simpl.
  - intuition.
  - destruct (eqb_spec k0 k) as [->|N]; simpl.
    + intuition.
    + rewrite IH. intuition.
Qed.

Lemma nodup_dset : forall d k v, NoDup (keys d) -> NoDup (keys (dset d k v)).
Proof.
  induction d as [|[k0 v0] d IH]; intros k v H; simpl in *.
  - constructor; [simpl; tauto|constructor].
  - inversion H; subst. destruct (eqb_spec k0 k) as [->|N]; simpl.
    + constructor; auto.
    + constructor; auto. rewrite keys_dset_in. intros [|]; congruence.
Qed.

Lemma dget_in : forall d k v, dget d k = Some v -> In (k, v) d.
Proof.
  induction d as [|[k0 v0] d IH]; intros k v; simpl; [discriminate|].
  destruct (eqb_spec k0 k) as [->|N]; [intros [= ->]; auto|auto].
Qed.

Lemma in_dget : forall d k v, NoDup (keys d) -> In (k, v) d -> dget d k = Some v.
Proof.
  induction d as [|[k0 v0] d IH]; intros k v Hn Hi; simpl in *; [tauto|].
  inversion Hn; subst. destruct Hi as [[= -> ->]|Hi].
  - now rewrite eqb_refl'.
  - destruct (eqb_spec k0 k) as [->|N]; [|auto].
    exfalso. apply H1. apply (in_map fst) in Hi. exact Hi.
Qed.

Lemma dget_none : forall d k, dget d k = None <-> ~ In k (keys d).
Proof.
  induction d as [|[k0 v0] d IH]; intros k; simpl; [tauto|].
  destruct (eqb_spec k0 k) as [->|N].
  - split; [discriminate|tauto].
  - rewrite IH. intuition.
Qed.

Lemma dget_some_key : forall d k v, dget d k = Some v -> In k (keys d).
Proof. intros d k v H. apply dget_in in H. apply (in_map fst) in H. exact H. Qed.

Lemma dmem_in : forall d k, dmem d k = true <-> In k (keys d).
Proof.
  intros d k. unfold dmem. destruct (dget d k) eqn:E.
  - split; [intros _; eapply dget_some_key; eauto|auto].
  - apply dget_none in E. split; [discriminate|tauto].
Qed.

Lemma dset_fresh : forall d k v, ~ In k (keys d) -> dset d k v = d ++ [(k, v)].
Proof.
  induction d as [|[k0 v0] d IH]; intros k v H; simpl in *; [reflexivity|].
  destruct (eqb_spec k0 k); [subst; tauto|]. rewrite IH; tauto.
Qed.

Lemma dget_app : forall d1 d2 k,
  dget (d1 ++ d2) k = match dget d1 k with Some v => Some v | None => dget d2 k end.
Proof.
  induction d1 as [|[k0 v0] d1 IH]; intros; simpl; [reflexivity|]. destruct (eqb k0 k); auto.
Qed.

Lemma dict_of_nodup_gen : forall l d, NoDup (keys (d ++ l)) ->
  fold_left (fun d p => dset d (fst p) (snd p)) l d = d ++ l.
Proof.
  induction l as [|[k v] l IH]; intros d H; simpl.
  - now rewrite app_nil_r.
  - unfold keys in *. rewrite map_app in H. simpl in H.
    pose proof (NoDup_remove_2 _ _ _ H) as N. rewrite in_app_iff in N.
    rewrite dset_fresh by tauto. rewrite IH.
    + now rewrite <- app_assoc.
    + rewrite <- app_assoc. simpl. rewrite map_app. exact H.
Qed.

Lemma dict_of_nodup : forall l, NoDup (keys l) -> dict_of l = l.
Proof. intros. unfold dict_of. now rewrite dict_of_nodup_gen. Qed.

Lemma nodup_dict_of_gen : forall l d, NoDup (keys d) ->
  NoDup (keys (fold_left (fun d p => dset d (fst p) (snd p)) l d)).
Proof. induction l; simpl; intros; auto. apply IHl. now apply nodup_dset. Qed.

Lemma nodup_dict_of : forall l, NoDup (keys (dict_of l)).
Proof. intros. apply nodup_dict_of_gen. constructor. Qed.

Lemma dget_perm : forall d d' k, NoDup (keys d) -> Permutation d d' -> dget d k = dget d' k.
Proof.
  intros d d' k Hn Hp.
  assert (Hn': NoDup (keys d')) by (eapply Permutation_NoDup; [apply Permutation_map; eauto|auto]).
  destruct (dget d k) eqn:E.
  - apply dget_in in E. symmetry. apply in_dget; auto. eapply Permutation_in; eauto.
  - symmetry. apply dget_none. apply dget_none in E. intro H. apply E.
    eapply Permutation_in; [apply Permutation_map; symmetry; eauto|exact H].
Qed.
End Dict.
Arguments dict : clear implicits.

(* sums over Z *)
Definition zsum (l : list Z) : Z := fold_right Z.add 0%Z l.
Lemma zsum_app : forall a b, zsum (a ++ b) = (zsum a + zsum b)%Z.
Proof. unfold zsum. induction a; intros; cbn [app fold_right]; [lia|]. rewrite IHa. lia. Qed.
Lemma zsum_cons : forall a l, zsum (a :: l) = (a + zsum l)%Z.
Proof. reflexivity. Qed.
Lemma zsum_perm : forall a b, Permutation a b -> zsum a = zsum b.
Proof. induction 1; rewrite ?zsum_cons; try lia. Qed.
Lemma zsum_map_add : forall (A : Type) (f g : A -> Z) l,
  zsum (map (fun x => (f x + g x)%Z) l) = (zsum (map f l) + zsum (map g l))%Z.
Proof. induction l; cbn [map]; rewrite ?zsum_cons; [reflexivity|]. lia. Qed.
Lemma zsum_map_mul : forall (A : Type) (c : Z) (f : A -> Z) l,
  zsum (map (fun x => (c * f x)%Z) l) = (c * zsum (map f l))%Z.
Proof. induction l; cbn [map]; rewrite ?zsum_cons; [cbn; lia|]. lia. Qed.
Lemma zsum_map_ext : forall (A : Type) (f g : A -> Z) l,
  (forall x, In x l -> f x = g x) -> zsum (map f l) = zsum (map g l).
Proof. intros. f_equal. now apply map_ext_in. Qed.
Lemma zsum_map_zero : forall (A : Type) (f : A -> Z) l,
  (forall x, In x l -> f x = 0%Z) -> zsum (map f l) = 0%Z.
Proof.
  induction l; cbn [map]; intros; rewrite ?zsum_cons; [reflexivity|].
  rewrite H by (left; auto). rewrite IHl; [reflexivity|]. intros; apply H; now right.
Qed.
Lemma zsum_swap : forall (A B : Type) (f : A -> B -> Z) la lb,
  zsum (map (fun a => zsum (map (fun b => f a b) lb)) la)
  = zsum (map (fun b => zsum (map (fun a => f a b) la)) lb).
Proof.
  induction la; intros lb; cbn [map].
  - rewrite zsum_map_zero; auto.
  - rewrite zsum_cons, IHla, <- zsum_map_add. reflexivity.
Qed.
Lemma zsum_nonneg : forall l, (forall x, In x l -> (0 <= x)%Z) -> (0 <= zsum l)%Z.
Proof.
  induction l; intros H; [cbn; lia|]. rewrite zsum_cons.
  pose proof (H a (or_introl eq_refl)). assert (0 <= zsum l)%Z by (apply IHl; intros; apply H; now right). lia.
Qed.
Lemma zsum_ge_in : forall l x, (forall x, In x l -> (0 <= x)%Z) -> In x l -> (x <= zsum l)%Z.
Proof.
  induction l; intros x H Hx; [destruct Hx|]. rewrite zsum_cons.
  pose proof (H a (or_introl eq_refl)).
  assert (0 <= zsum l)%Z by (apply zsum_nonneg; intros; apply H; now right).
  destruct Hx as [->|Hx]; [lia|]. specialize (IHl x (fun y Hy => H y (or_intror Hy)) Hx). lia.
Qed.
Lemma zsum_flat_map : forall (A : Type) (f : A -> list Z) l,
  zsum (flat_map f l) = zsum (map (fun a => zsum (f a)) l).
Proof. induction l; cbn [flat_map map]; [reflexivity|]. now rewrite zsum_app, zsum_cons, IHl. Qed.
