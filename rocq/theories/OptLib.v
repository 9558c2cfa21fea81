(** Computations that may raise an exception (None). *)
From Coq Require Import List.
Import ListNotations.

Definition bind {A B : Type} (x : option A) (f : A -> option B) : option B :=
  match x with Some a => f a | None => None end.
Notation "'do' x <- e ; b" := (bind e (fun x => b)) (at level 200, x pattern, e at level 100, b at level 200).

Fixpoint mapM {A B : Type} (f : A -> option B) (l : list A) : option (list B) :=
  match l with
  | [] => Some []
  | x :: l' => do y <- f x; do ys <- mapM f l'; Some (y :: ys)
  end.
Fixpoint foldM {A B : Type} (f : B -> A -> option B) (b : B) (l : list A) : option B :=
  match l with
  | [] => Some b
  | x :: l' => do b' <- f b x; foldM f b' l'
  end.

Lemma mapM_app : forall (A B : Type) (f : A -> option B) l m,
  mapM f (l ++ m) = do a <- mapM f l; do b <- mapM f m; Some (a ++ b).
Proof.
  intros A B f l m. induction l as [|x l IH]; cbn.
  - destruct (mapM f m); reflexivity.
  - destruct (f x); [|reflexivity]. cbn. rewrite IH. destruct (mapM f l); [|reflexivity]. cbn. destruct (mapM f m); reflexivity.
Qed.
Lemma mapM_total : forall (A B : Type) (f : A -> option B) (g : A -> B) l,
  (forall x, In x l -> f x = Some (g x)) -> mapM f l = Some (map g l).
Proof.
  intros A B f g l. induction l as [|x l IH]; intros H; [reflexivity|]. cbn. rewrite H by now left. cbn.
  rewrite IH; [reflexivity|]. intros; apply H; now right.
Qed.
