(* Specification of the higher order forward mode (C21).                    *)
From Coq Require Import List Arith Lia Reals Lra.
From Coquelicot Require Import Coquelicot.
Local Open Scope R_scope.

(* a 0, .., a k are the Taylor coefficients of f at s0: f is k times
   differentiable around s0 and its i-th derivative at s0 is i! a_i. *)
Definition taylor (k : nat) (f : R -> R) (s0 : R) (a : nat -> R) : Prop :=
  locally s0 (fun s => forall i, (i <= k)%nat -> ex_derive_n f i s) /\
  forall i, (i <= k)%nat -> Derive_n f i s0 = INR (fact i) * a i.

(* hos_forward takes the point and the coefficients of degree 1 .. k apart *)
Definition joined (v : R) (c : nat -> R) (i : nat) : R :=
  match i with 0%nat => v | S j => c j end.
