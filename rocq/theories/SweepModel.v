(** Model of the sweep drivers: DMRG.solve (algorithms/dmrg.py 56-162), Linear.solve (algorithms/linear.py 46-97),
    GreensFunction.solve (algorithms/green.py 54-115) and TDDMRG.solve (algorithms/tddmrg.py 51-126).
    The work on one window (build_envs, eigs/multiply/solve_gf/rk4, decomposition, write back) is the parameter [site]: it maps
    the state and the arguments the driver hands over to a new state and a target value.  Numbers are elements of an
    ordered ring; the literals 1E-10, 0.1 and 1E10 are the parameters floor_thr, tenth and big.  contract=True, no MPI;
    printing and timing are left out. *)
From Coq Require Import ZArith Bool List.
From Verif Require Import IndexLib RingLib OrdLib.
Import ListNotations.

Section Sweep.
Variable K : ORing.
Notation "0'" := (r0 K).
Infix "*'" := (rmul K) (at level 40, left associativity).
Variables (floor_thr tenth big : K).

(* what a window is given: sweep number, direction, position, bond dimension, noise, threshold *)
Record call := Call { c_sweep : nat; c_fwd : bool; c_site : nat; c_bdim : Z; c_noise : K; c_thrd : K }.

(* max(a, b) and min(a, b) of Python: the first unless the second is larger / smaller *)
Definition kmax (a b : K) : K := if oltb a b then b else a.
Definition kmin (a b : K) : K := if oltb b a then b else a.
Definition kabs (x : K) : K := if oleb K 0' x then x else ropp K x.

(* dmrg.py 60-61, linear.py 48-49, green.py 57-58, tddmrg.py 53-54; None: bdims[-1] of an empty list *)
Definition pad_bdims (n : nat) (bdims : list Z) : option (list Z) :=
  if Nat.ltb (length bdims) n then match bdims with [] => None | _ => Some (bdims ++ repeat (last bdims 0%Z) (n - length bdims)) end
  else Some bdims.
(* dmrg.py 62-65 *)
Definition pad_noises (n : nat) (noises : list K) : list K :=
  match noises with [] => repeat 0' n | _ => noises ++ repeat (last noises 0') (n - length noises) end.
(* dmrg.py 66-73: the missing thresholds come from the noise of the sweep or from tol *)
Definition auto_thrd (tol noise : K) : K :=
  if oeqb noise 0' then if oeqb tol 0' then floor_thr else kmax (tol *' tenth) floor_thr else kmax noise floor_thr.
Definition pad_thrds (n : nat) (tol : K) (noises thrds : list K) : list K :=
  if Nat.ltb (length thrds) n then thrds ++ map (fun i => auto_thrd tol (nth i noises 0')) (seq (length thrds) (n - length thrds)) else thrds.

(* range(0, n_sites - dot + 1)[::1 if forward else -1] *)
Definition windows (n_sites dot : nat) (fwd : bool) : list nat :=
  let r := seq 0 (n_sites + 1 - dot) in if fwd then r else rev r.

Variable St : Type.
Section Drive.
Variable E : Type.                                       (* target values: energies *)
Variable site : St -> call -> St * E.
Variable start : E.                                      (* 1E10 *)
Variable upd : E -> E -> E.                              (* how a window's value enters the sweep's value *)
Variable delta : E -> E -> K.                            (* change between two sweeps *)
Variable dirf : nat -> bool -> bool.                     (* direction of a sweep from its number and the running flag *)
Variables (n_sites dot : nat) (init_site : option nat) (tol : K).

(* dmrg.py 87-134, one sweep; the calls made are kept in order *)
Definition skipped (fwd : bool) (i : nat) : bool := match init_site with Some s => fwd && Nat.ltb i s | None => false end.
Definition one_sweep (iw : nat) (fwd : bool) (bd : Z) (nz th : K) (st : St) : St * E * list call :=
  fold_left (fun acc i =>
    let '(st, e, tr) := acc in
    if skipped fwd i then acc
    else let c := Call iw fwd i bd nz th in let '(st, v) := site st c in (st, upd e v, tr ++ [c]))
    (windows n_sites dot fwd) (st, start, []).

Record result := Result { r_state : St; r_targets : list E; r_trace : list call }.
(* dmrg.py 76-154; [left] = n_sweeps - iw *)
Fixpoint sweeps (bdims : list Z) (noises thrds : list K) (left iw : nat) (fwd : bool) (st : St) (es : list E) (tr : list call) : result :=
  match left with
  | O => Result st es tr
  | S left' =>
    let fwd := dirf iw fwd in
    let '(st, e, t) := one_sweep iw fwd (nth iw bdims 0%Z) (nth iw noises 0') (nth iw thrds 0') st in
    let de := match iw with O => 0' | S p => delta e (nth p es start) end in
    let es := es ++ [e] in
    let tr := tr ++ t in
    if Nat.ltb 0 iw && oltb de tol && oeqb (nth iw noises 0') (last noises 0') then Result st es tr
    else sweeps bdims noises thrds left' (S iw) (negb fwd) st es tr
  end.
(* what the solver object holds afterwards: the padded schedules and the result *)
Record solved := Solved { s_bdims : list Z; s_noises : list K; s_thrds : list K; s_res : result }.
Definition drive (bdims : list Z) (noises thrds : list K) (n_sweeps : nat) (fwd : bool) (st : St) : option solved :=
  match pad_bdims n_sweeps bdims with
  | None => None
  | Some bd =>
    let nz := pad_noises n_sweeps noises in
    let th := pad_thrds n_sweeps tol nz thrds in
    Some (Solved bd nz th (sweeps bd nz th n_sweeps 0 fwd st [] []))
  end.
End Drive.

(* tuple comparison a < b *)
Fixpoint lex_lt (a b : list K) : bool :=
  match a, b with
  | _, [] => false
  | [], _ :: _ => true
  | x :: a, y :: b => oltb x y || (oeqb x y && lex_lt a b)
  end.
(* dmrg.py 126-129: min of numbers for one root, of tuples for several; one number is a list of length one *)
Definition lex_min (a b : list K) : list K := if lex_lt b a then b else a.
(* dmrg.py 56-162 *)
Definition dmrg_solve (site : St -> call -> St * list K) (nroots n_sites : nat) (init_site : option nat)
    (bdims : list Z) (noises thrds : list K) (n_sweeps : nat) (tol : K) (dot : nat) (fwd : bool) (st : St) : option (solved (list K)) :=
  drive (list K) site (repeat big nroots) lex_min (fun a b => kabs (rsub K (nth 0 a 0') (nth 0 b 0'))) (fun _ f => f)
    n_sites dot init_site tol bdims noises thrds n_sweeps fwd st.
(* linear.py 46-97 *)
Definition linear_solve (site : St -> call -> St * K) (n_sites : nat)
    (bdims : list Z) (noises thrds : list K) (n_sweeps : nat) (tol : K) (dot : nat) (st : St) : option (solved K) :=
  drive K site big kmin (fun a b => kabs (rsub K a b)) (fun iw _ => Nat.even iw) n_sites dot None tol bdims noises thrds n_sweeps true st.
(* green.py 54-115; G = complex numbers, gabs their modulus *)
Definition green_solve (G : Type) (gabs : G -> K) (gbig : G) (site : St -> call -> St * G) (n_sites : nat)
    (bdims : list Z) (noises thrds : list K) (n_sweeps : nat) (tol : K) (dot : nat) (st : St) : option (solved G) :=
  drive G site gbig (fun a b => if oltb (gabs b) (gabs a) then b else a) (fun a b => kabs (rsub K (gabs a) (gabs b))) (fun iw _ => Nat.even iw)
    n_sites dot None tol bdims noises thrds n_sweeps true st.

(* tddmrg.py 51-126.  A window is given the sweep, the sub-sweep, direction, position, bond dimension and the flags
   eval_ener and advance *)
Record tcall := TCall { t_sweep : nat; t_sub : nat; t_fwd : bool; t_site : nat; t_bdim : Z; t_eval : bool; t_advance : bool }.
Section Time.
Variable E : Type.
Variable site : St -> tcall -> St * E.
Variable zero : E.
Variables (n_sites dot n_sub : nat).
(* 77-121 *)
Definition td_sweep (iw isw : nat) (fwd : bool) (bd : Z) (st : St) (e : E) : St * E * list tcall :=
  fold_left (fun acc i =>
    let '(st, e, tr) := acc in
    let ev := if fwd then Nat.eqb (i + dot) n_sites else Nat.eqb i 0 in
    let c := TCall iw isw fwd i bd ev (Nat.eqb (isw + 1) n_sub && ev) in
    let '(st, v) := site st c in (st, v, tr ++ [c]))
    (windows n_sites dot fwd) (st, e, []).
(* 58-62 and 125: one pass of the outer loop *)
Definition td_step (bdims : list Z) (acc : St * bool * list E * list tcall) (p : nat * nat) : St * bool * list E * list tcall :=
  let '(st, fwd, es, tr) := acc in
  let '(iw, isw) := p in
  let es := if Nat.eqb isw 0 then es ++ [zero] else es in
  let '(st, e, t) := td_sweep iw isw fwd (nth iw bdims 0%Z) st (nth iw es zero) in
  (st, negb fwd, firstn iw es ++ e :: skipn (S iw) es, tr ++ t).
Definition td_solve (bdims : list Z) (n_sweeps : nat) (fwd : bool) (st : St) : option (St * list E * list tcall) :=
  match pad_bdims n_sweeps bdims with
  | None => None
  | Some bd =>
    let '(st, _, es, tr) := fold_left (td_step bd) (flat_map (fun a => map (fun b => (a, b)) (seq 0 n_sub)) (seq 0 n_sweeps)) (st, fwd, [], []) in
    Some (st, es, tr)
  end.
End Time.
End Sweep.
