(** Model of GaussianMERA1D.__init__ (pyblock3/gaussian/core.py 824-909): the legs of the tensors (u_idx, d_idx, n_core).
    The three while loops run at most fuel times (None: not ended); cur_idx[a:b] with a <= b is firstn (b - a) (skipn a cur). *)
From Coq Require Import ZArith Bool List.
From Verif Require Import OptLib GaussModel.
Import ListNotations.
Open Scope Z_scope.

Notation legs := (list Z * list Z * nat)%type.
Notation zlen l := (Z.of_nat (length l)).
(* 104-105 *)
Definition width (u d : list Z) : nat := Nat.max (length u) (length d).
(* 843-859: disentanglers, not periodic; tensors, next_idx from here on, idx *)
Fixpoint open_loop (fuel : nat) (t : nat) (cur : list Z) (idx : Z) (i : nat) : option (list legs * list Z * Z) :=
  match fuel with
  | O => None
  | S f =>
      let d := Z.min (Z.of_nat t) (zlen cur - Z.of_nat i) in
      let dl := firstn (Z.to_nat d) (skipn i cur) in
      let ul := ints idx (Z.to_nat d) in
      let full := d =? Z.of_nat t in
      let new := if full then [(ul, dl, 0%nat)] else [] in
      let part := if full then ul else dl in
      let idx := if full then idx + d else idx in
      if Z.of_nat i + d =? zlen cur then Some (new, part, idx)
      else do (ts, nx, ix) <- open_loop f t cur idx (Z.to_nat (Z.of_nat i + d)); Some (new ++ ts, part ++ nx, ix)
  end.
(* 861-888: periodic; next is next_idx so far *)
Fixpoint ring_loop (fuel : nat) (t : nat) (cur : list Z) (idx : Z) (i : nat) (next : list Z) : option (list legs * list Z * Z) :=
  match fuel with
  | O => None
  | S f =>
      let h := Z.of_nat (t / 2) in
      let d := Z.min (Z.of_nat t) (zlen cur - Z.of_nat i + h) in
      let dl := firstn (Z.to_nat d) (skipn i cur) in
      let ul := ints idx (Z.to_nat d) in
      let over := Z.to_nat (Z.of_nat i + d - zlen cur) in
      let full := (d =? Z.of_nat t) && negb (d =? zlen cur) in
      let '(new, next, idx) :=
        if zlen cur <? Z.of_nat i + d then
          if full then ([(firstn (length dl) ul ++ skipn (length dl) ul, dl ++ firstn over cur, 0%nat)], skipn (length dl) ul ++ next ++ firstn (length dl) ul, idx + d)
          else ([], firstn over cur ++ next ++ dl, idx)
        else
          if full then ([(ul, dl, 0%nat)], next ++ ul, idx + d) else ([], next ++ dl, idx) in
      if Z.of_nat i + d =? zlen cur + h then Some (new, next, idx)
      else do (ts, nx, ix) <- ring_loop f t cur idx (Z.to_nat (Z.of_nat i + d)) next; Some (new ++ ts, nx, ix)
  end.
(* 890-903: isometries; na is n_act *)
Fixpoint iso_loop (fuel : nat) (t : nat) (na : Z) (cur : list Z) (idx : Z) (i : nat) : option (list legs * list Z * Z) :=
  match fuel with
  | O => None
  | S f =>
      let d := Z.min (Z.of_nat t) (zlen cur - Z.of_nat i) in
      let dl := firstn (Z.to_nat d) (skipn i cur) in
      let ul := ints idx (Z.to_nat d) in
      let nc := Z.to_nat (Z.max 0 (Z.of_nat (width ul dl) - na)) in
      if Z.of_nat i + d =? zlen cur then Some ([(ul, dl, nc)], skipn nc ul, idx + d)
      else do (ts, nx, ix) <- iso_loop f t na cur (idx + d) (Z.to_nat (Z.of_nat i + d)); Some ((ul, dl, nc) :: ts, skipn nc ul ++ nx, ix)
  end.
(* 904-905: the last tensor gets all its up legs as core legs *)
Fixpoint cap (ts : list legs) : list legs :=
  match ts with [] => [] | [(u, d, _)] => [(u, d, width u d)] | e :: ts' => e :: cap ts' end.
Definition last_width (ts : list legs) : nat := match last ts ([], [], 0%nat) with (u, d, _) => width u d end.
(* 840-907 *)
Fixpoint mera_loop (fuel inner : nat) (t c : nat) (dis per : bool) (cur : list Z) (idx : Z) : option (list legs) :=
  match fuel with
  | O => None
  | S f =>
      do (t1, cur, idx) <- (if dis then
          if per then ring_loop inner t cur idx (t / 2) []
          else do (ts, nx, ix) <- open_loop inner t cur idx (t / 2); Some (ts, firstn (t / 2) cur ++ nx, ix)
        else Some ([], cur, idx));
      do (t2, next, idx) <- iso_loop inner t (Z.of_nat t - Z.of_nat c) cur idx 0;
      if Nat.eqb (last_width t2) (length cur) then Some (t1 ++ cap t2)
      else do ts <- mera_loop f inner t c dis per next idx; Some (t1 ++ t2 ++ ts)
  end.
(* 835-838 *)
Definition mera1d (fuel n t c : nat) (dis per : bool) : option (list legs) :=
  if Nat.eqb c 0 then None else mera_loop fuel fuel t c dis per (ints 0 n) (Z.of_nat n).
