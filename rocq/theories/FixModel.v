(* Fixed-point iterations: ADOL-C/src/fixpoint.cpp (all of it).
   Simplifications: real numbers; the sub tape is represented by what its sweeps
   compute (value G, tangent Gt, adjoint Gr: C14 and C15 are about those sweeps)
   and by the point at which its kept values were taken; double_func is the same
   function G (the user supplies both versions); vectors are lists. *)
From Coq Require Import List Arith Lia ZArith Reals Bool.
Import ListNotations.
Open Scope R_scope.

Definition vec := list R.
Fixpoint vsub (a b : vec) : vec :=
  match a, b with x :: a', y :: b' => (x - y) :: vsub a' b' | _, _ => [] end.
Fixpoint vadd (a b : vec) : vec :=
  match a, b with x :: a', y :: b' => (x + y) :: vadd a' b' | _, _ => [] end.
Definition rlt (a b : R) : bool := if Rlt_dec a b then true else false.

(* fpi_data, fixpoint.cpp:30-41, with what the functions and the sub tape compute *)
Record fpi := mkFpi {
  G : vec -> vec -> vec;                   (* x, u *)
  Gt : vec -> vec -> vec -> vec -> vec;    (* x, u, x_dot, u_dot *)
  Gr : vec -> vec -> vec -> vec;           (* x, u, weights: x part then u part *)
  norm : vec -> R;
  normd : vec -> R;
  eps : R;
  epsd : R;
  nmax : nat;
  nmaxd : nat
}.

(* The body of the loops of iteration (fixpoint.cpp:52-67) and fp_zos_forward
   (89-103), with `left` passes to go; result: return value, the x part of xu,
   x_fix. *)
Fixpoint zloop (d : fpi) (u : vec) (left k : nat) (xu x_fix : vec) : Z * vec * vec :=
  match left with
  | O => ((-1)%Z, xu, x_fix)
  | S left' =>
      let xu1 := x_fix in
      let x_fix1 := G d xu1 u in
      let xu2 := vsub x_fix1 xu1 in
      if rlt (norm d xu2) (eps d) then (Z.of_nat k, xu2, x_fix1)
      else zloop d u left' (S k) xu2 x_fix1
  end.
(* fixpoint.cpp:45-69; for k = 1 .. N_max *)
Definition iteration (d : fpi) (x0 u : vec) : Z * vec * vec := zloop d u (nmax d) 1 x0 x0.
(* fixpoint.cpp:71-105, after the entry has been found *)
Definition fp_zos (d : fpi) (x0 u : vec) : Z * vec * vec := zloop d u (nmax d) 1 x0 x0.

(* The kept point of the sub tape: where fos_reverse on it linearises. *)
Record sub := mkSub { px : vec; pu : vec }.

(* fp_fos_forward, fixpoint.cpp:107-153; for k = 1; k < N_max_deriv or k < N_max *)
Fixpoint floop (d : fpi) (keep : bool) (u ud : vec) (left k : nat)
  (x X x_fix X_fix : vec) (s : sub) : Z * (vec * vec) * sub :=
  match left with
  | O => ((-1)%Z, (x_fix, X_fix), s)
  | S left' =>
      let x1 := if (1 <? k)%nat then x_fix else x in
      let X1 := if (1 <? k)%nat then X_fix else X in
      let x_fix1 := G d x1 u in
      let X_fix1 := Gt d x1 u X1 ud in
      let s1 := if keep then mkSub x1 u else s in
      let x2 := vsub x_fix1 x1 in
      let X2 := vsub X_fix1 X1 in
      if rlt (norm d x2) (eps d) && rlt (normd d X2) (epsd d)
      then (Z.of_nat k, (x_fix1, X_fix1), s1)
      else floop d keep u ud left' (S k) x2 X2 x_fix1 X_fix1 s1
  end.
Definition fp_fos (d : fpi) (keep : bool) (x0 u X0 ud xf Xf : vec) (s : sub) :=
  floop d keep u ud (Nat.max (nmaxd d) (nmax d) - 1) 1 x0 X0 xf Xf s.

(* fp_fos_reverse, fixpoint.cpp:155-209: U is not initialised, so its contents at
   the start are an argument; for k = 1; k < N_max_deriv. n: dim_x.  Result: the
   return value and what is added to the adjoints of u. *)
Fixpoint rloop (d : fpi) (s : sub) (n : nat) (xbar : vec) (left k : nat) (U : vec) : Z * vec :=
  match left with
  | O => ((-1)%Z, skipn n U)
  | S left' =>
      let xi := firstn n U in
      let U1 := Gr d (px s) (pu s) xi in
      let Ux := vadd (firstn n U1) xbar in
      let U2 := Ux ++ skipn n U1 in
      let xi2 := vsub Ux xi in
      if rlt (normd d xi2) (epsd d) then (Z.of_nat k, skipn n U2)
      else rloop d s n xbar left' (S k) U2
  end.
Definition fp_rev (d : fpi) (s : sub) (n : nat) (xbar U0 : vec) : Z * vec :=
  rloop d s n xbar (nmaxd d - 1) 1 U0.

(* ---- fp_iteration, fixpoint.cpp:211-307, and the table of iterations ---- *)
(* fpi_stack: one global list for all tapes, entries (index, data); the index is
   the number of external functions registered before on the same tape. *)
Record world := mkW {
  stack : list (nat * fpi);
  count : nat -> nat;          (* tape -> number of registered functions *)
  subs : nat -> sub            (* sub tape -> its kept point *)
}.
Definition setn {A} (f : nat -> A) (i : nat) (a : A) : nat -> A :=
  fun j => if (j =? i)%nat then a else f j.

(* the sub tape is recorded, with keep, at the fixed point found
   (fixpoint.cpp:260-296); returns k, x_fix *)
Definition fp_iteration (tape subt : nat) (d : fpi) (x0 u : vec) (w : world)
  : Z * vec * world :=
  let idx := count w tape in
  let st := stack w ++ [(idx, d)] in
  let '(k, _, xf) := iteration (snd (last st (idx, d))) x0 u in
  (k, xf, mkW st (setn (count w) tape (S idx)) (setn (subs w) subt (mkSub xf u))).

(* std::find_if on the index, fixpoint.cpp:79-81 and 118-120, 165-167 *)
Definition lookup (w : world) (idx : nat) : option fpi :=
  option_map snd (List.find (fun e => (fst e =? idx)%nat) (stack w)).
