(** Model of my_logm in fit_rdm1 (pyblock3/gaussian/core.py 472-484, 632-644) over the real numbers.
    torch.linalg.eigh is a parameter (eigenvalues and eigenvectors); torch.arctan2(y, x) is the angle of the point (x, y) in
    (-pi, pi], 0 at the origin. *)
From Coq Require Import Bool List Reals.
From Verif Require Import RingLib HeisModel.
Import ListNotations.

Section Mat.
Variable K : CRing.
Notation mat := (nat -> nat -> K).
Definition mmul (n : nat) (A B : mat) : mat := fun i j => bsum (seq 0 n) (fun q => rmul K (A i q) (B q j)).
Definition mtr (A : mat) : mat := fun i j => A j i.
End Mat.

Definition arctan2 (y x : R) : R :=
  let r := sqrt (x * x + y * y) in
  if Req_EM_T r 0 then 0%R else if Rle_dec 0 y then acos (x / r) else Ropp (acos (x / r)).

Section Logm.
Notation mat := (nat -> nat -> R).
Variable eigh : nat -> mat -> list R * mat.
(* 473-474 *)
Definition log_basis (n : nat) (mrot : mat) : mat := snd (eigh n (fun i j => radd R_ring (mrot i j) (mrot j i))).
(* 475 *)
Definition log_rd (n : nat) (mrot : mat) : mat :=
  let rv := log_basis n mrot in mmul R_ring n (mmul R_ring n (mtr R_ring rv) mrot) rv.
(* 478-480 *)
Definition log_theta (rd : mat) (i : nat) : R :=
  let xcos := ((rd i i + rd (i + 1)%nat (i + 1)%nat) / 2)%R in
  let xsin := ((rd i (i + 1)%nat - rd (i + 1)%nat i) / 2)%R in
  arctan2 xsin xcos.
(* 476-482: i in range(0, n // 2 * 2, 2); ld[i, i + 1] = theta, ld[i + 1, i] = -theta *)
Definition log_ld (n : nat) (rd : mat) : mat := fun a b =>
  if (a / 2 =? b / 2)%nat && (a <? n / 2 * 2)%nat then
    if (b =? a + 1)%nat then log_theta rd a else if (a =? b + 1)%nat then Ropp (log_theta rd b) else 0%R
  else 0%R.
(* 483 *)
Definition my_logm (n : nat) (mrot : mat) : mat :=
  let rv := log_basis n mrot in mmul R_ring n (mmul R_ring n rv (log_ld n (log_rd n mrot))) (mtr R_ring rv).
End Logm.
