(* Model of ADOL-C/src/fortutils.cpp: conversion between Fortran arrays (column
   order, one block) and C arrays of row pointers.

   A Fortran array x is a function from positions to numbers, the pointer x++ of
   the code a position that is advanced; X[i][j] is a function of two indices
   (disjointness of the rows: C28).  The loop bounds are C ints, so a negative
   bound gives no iterations.  fdouble = double (adolc/fortutils.h). *)
From Coq Require Import List ZArith Bool Lia.
Set Implicit Arguments.

Section Fort.
Variable V : Type.

Definition iters (m : Z) : nat := Z.to_nat m.     (* for (j = 0; j < m; j++) *)
Definition upd1 (X : nat -> V) (i : nat) (v : V) : nat -> V :=
  fun a => if Nat.eqb a i then v else X a.
Definition upd2 (X : nat -> nat -> V) (i j : nat) (v : V) : nat -> nat -> V :=
  fun a b => if Nat.eqb a i && Nat.eqb b j then v else X a b.
Definition upd3 (X : nat -> nat -> nat -> V) (i j k : nat) (v : V) : nat -> nat -> nat -> V :=
  fun a b c => if Nat.eqb a i && Nat.eqb b j && Nat.eqb c k then v else X a b c.

(* for (i = i0; i < i0+n; i++) body *)
Fixpoint loop (S : Type) (n i : nat) (body : nat -> S -> S) (s : S) : S :=
  match n with
  | O => s
  | Datatypes.S n' => loop n' (Datatypes.S i) body (body i s)
  end.

(* spread1, 24-28 *)
Definition spread1 (m : Z) (x X : nat -> V) : nat -> V :=
  snd (loop (iters m) 0 (fun j '(q, X) => (S q, upd1 X j (x q))) (0, X)).
(* pack1, 31-35 *)
Definition pack1 (m : Z) (X x : nat -> V) : nat -> V :=
  snd (loop (iters m) 0 (fun j '(q, x) => (S q, upd1 x q (X j))) (0, x)).
(* spread2, 38-43 *)
Definition spread2 (m n : Z) (x : nat -> V) (X : nat -> nat -> V) : nat -> nat -> V :=
  snd (loop (iters n) 0 (fun j =>
         loop (iters m) 0 (fun i '(q, X) => (S q, upd2 X i j (x q)))) (0, X)).
(* pack2, 46-51 *)
Definition pack2 (m n : Z) (X : nat -> nat -> V) (x : nat -> V) : nat -> V :=
  snd (loop (iters n) 0 (fun j =>
         loop (iters m) 0 (fun i '(q, x) => (S q, upd1 x q (X i j)))) (0, x)).
(* spread3, 54-60 *)
Definition spread3 (m n p : Z) (x : nat -> V) (X : nat -> nat -> nat -> V) : nat -> nat -> nat -> V :=
  snd (loop (iters p) 0 (fun k => loop (iters n) 0 (fun j =>
         loop (iters m) 0 (fun i '(q, X) => (S q, upd3 X i j k (x q))))) (0, X)).
(* pack3, 63-69 *)
Definition pack3 (m n p : Z) (X : nat -> nat -> nat -> V) (x : nat -> V) : nat -> V :=
  snd (loop (iters p) 0 (fun k => loop (iters n) 0 (fun j =>
         loop (iters m) 0 (fun i '(q, x) => (S q, upd1 x q (X i j k))))) (0, x)).
End Fort.
