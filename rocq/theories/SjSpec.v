(* C57: what a sparse Jacobian is, and what is asked of the colouring. *)
From Coq Require Import List Arith Sorted Reals.
From Coquelicot Require Import Coquelicot.
Require Import Verif.SjModel.
Import ListNotations.
Set Implicit Arguments.
Unset Asymmetric Patterns.
Local Open Scope R_scope.

(* x with component j replaced by s *)
Definition put (x : nat -> R) (j : nat) (s : R) : nat -> R := fun k => if (k =? j)%nat then s else x k.

(* row by row, and by column within a row *)
Definition before (a b : nat * nat) : Prop :=
  (fst a < fst b)%nat \/ (fst a = fst b /\ (snd a < snd b)%nat).

(* The list has the partial derivative of output i with respect to x_j at every position
   (i, j) that occurs in it, no position twice, and the partial derivatives of all other
   positions are zero. *)
Definition lists_jacobian (F : (nat -> R) -> list R) (x : nat -> R) (m n : nat)
  (es : list (nat * nat * R)) : Prop :=
  StronglySorted before (map fst es) /\
  (forall i j v, In ((i, j), v) es -> (i < m)%nat /\ (j < n)%nat /\
     is_derive (fun s => nth i (F (put x j s)) 0) (x j) v) /\
  (forall i j, (i < m)%nat -> (j < n)%nat -> ~ In (i, j) (map fst es) ->
     is_derive (fun s => nth i (F (put x j s)) 0) (x j) 0).

(* Partial distance-2 colourings: columns that meet in a row (rows that meet in a column)
   have different colours. *)
Definition columns_coloured (rows : list (list nat)) (n p : nat) (c : nat -> nat) : Prop :=
  (forall j, (j < n)%nat -> (c j < p)%nat) /\
  (forall r j j', In r rows -> In j r -> In j' r -> c j = c j' -> j = j').
Definition rows_coloured (rows : list (list nat)) (m p : nat) (c : nat -> nat) : Prop :=
  (forall i, (i < m)%nat -> (c i < p)%nat) /\
  (forall i i' j, (i < m)%nat -> (i' < m)%nat -> In j (nth i rows []) -> In j (nth i' rows []) ->
     c i = c i' -> i = i').
(* ColPack delivers such colourings for every pattern of m rows with columns below n. *)
Definition colours_right (cp : colpack) : Prop :=
  forall rows m n, length rows = m -> (forall r j, In r rows -> In j r -> (j < n)%nat) ->
  columns_coloured rows n (fst (by_cols cp rows m n)) (snd (by_cols cp rows m n)) /\
  rows_coloured rows m (fst (by_rows cp rows m n)) (snd (by_rows cp rows m n)).
