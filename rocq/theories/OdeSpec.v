(* Specification of the ODE drivers (C45, C46).                               *)
From Coq Require Import List Arith Lia Reals.
From Coquelicot Require Import Coquelicot.
Local Open Scope R_scope.

Fixpoint total_of (n : nat) (f : nat -> R) : R :=
  match n with 0%nat => 0 | S m => total_of m f + f m end.

(* x solves x' = tau F(x) around 0; a state is a vector of n numbers, 0 beyond *)
Definition solves (n : nat) (tau : R) (F : (nat -> R) -> nat -> R) (X : R -> nat -> R) : Prop :=
  (forall s i, (n <= i)%nat -> X s i = 0) /\
  forall i, (i < n)%nat -> locally 0 (fun s => is_derive (fun s => X s i) s (tau * F (X s) i)).

(* the recurrence in the comment of accodec: B_k = tau/(k+1) (A_k + sum_{q<k} A_q B_{k-1-q}) *)
Definition total_jacobians (n : nat) (tau : R) (deg : nat) (A B : nat -> nat -> nat -> R) : Prop :=
  forall k i j, (k <= deg)%nat -> (i < n)%nat -> (j < n)%nat ->
    B i j k = tau / INR (S k) *
      (A i j k + total_of n (fun p => total_of k (fun q => A i p q * B p j (k - 1 - q)%nat))).

(* P is the fundamental matrix of the variational equation P' = tau J P, P(0) = 1 *)
Definition fundamental (n : nat) (tau : R) (J P : R -> nat -> nat -> R) : Prop :=
  (forall i j, (i < n)%nat -> (j < n)%nat -> P 0 i j = if (i =? j)%nat then 1 else 0) /\
  forall i j, (i < n)%nat -> (j < n)%nat ->
    locally 0 (fun s => is_derive (fun s => P s i j) s (tau * total_of n (fun p => J s i p * P s p j))).
