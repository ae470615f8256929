(** What the tensor storage scheme has to do, independently of the code. *)
From Coq Require Import List Arith.
Import ListNotations.

(** Pascal's triangle *)
Fixpoint C (n k : nat) : nat :=
  match n, k with
  | _, 0 => 1
  | 0, S _ => 0
  | S n', S k' => C n' k' + C n' (S k')
  end.

(** A derivative of degree at most d with respect to p variables: a list of d
    variable numbers between 0 and p, where 0 means "no differentiation", listed in
    non-increasing order.  Every such derivative has exactly one such list. *)
Fixpoint nonincreasing (j : list nat) : Prop :=
  match j with
  | [] => True
  | a :: r => match r with [] => True | b :: _ => b <= a /\ nonincreasing r end
  end.
Definition derivative (p d : nat) (j : list nat) : Prop :=
  length j = d /\ nonincreasing j /\ List.Forall (fun v => v <= p) j.

(** the C array holding the list *)
Definition array (j : list nat) : nat -> nat := fun i => nth i j 0.
