(** What the helpers of convolut.cpp should compute.  A power series truncated at
    degree dim - 1 is read from an array: the coefficient of t^i of the series stored
    at p in memory M is M (p + i). *)
From Coq Require Import List Arith Lia Reals.
Local Open Scope R_scope.

Definition series := nat -> R.
Definition at_ (M : nat -> R) (p : nat) : series := fun i => M (p + i)%nat.

(** coefficient i of the product of two power series *)
Definition mul (f g : series) (i : nat) : R := sum_f_R0 (fun j => f (i - j)%nat * g j) i.
(** two series agree up to (excluding) degree dim *)
Definition same (dim : nat) (f g : series) : Prop := forall i, (i < dim)%nat -> f i = g i.
Definition constant (x : R) : series := fun i => if (i =? 0)%nat then x else 0.

(** how two arrays of length dim may lie in memory *)
Definition apart (dim p q : nat) : Prop := (p + dim <= q \/ q + dim <= p)%nat.
Definition apart_or_same (dim p q : nat) : Prop := p = q \/ apart dim p q.
(** only the array at p changes *)
Definition only (dim p : nat) (M M' : nat -> R) : Prop :=
  forall q, (q < p \/ p + dim <= q)%nat -> M' q = M q.
