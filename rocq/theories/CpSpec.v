(** What differentiating a time stepping loop means. *)
From Coq Require Import ZArith List.
Set Implicit Arguments.

Section Spec.
Variables D G A V : Type.
Variable fd : D * G -> D * G.        (* one time step *)
Variable back : D * G -> A -> A.     (* adjoint of one time step at a state *)
Variable tan : D * G -> V -> V.      (* tangent of one time step at a state *)

(** n steps from s *)
Fixpoint states (n : nat) (s : D * G) : D * G :=
  match n with O => s | S n => states n (fd s) end.
(** the adjoint of n steps from s: the last step is pulled back first *)
Fixpoint adjoint (n : nat) (s : D * G) (u : A) : A :=
  match n with O => u | S n => back s (adjoint n (fd s) u) end.
(** the tangent of n steps from s *)
Fixpoint tangent (n : nat) (s : D * G) (v : V) : V :=
  match n with O => v | S n => tangent n (fd s) (tan s v) end.
End Spec.

(** what the sweeps of the tape of one step are relied on to do (properties C11-C16) *)
Section Faithful.
Variables D G A V TP : Type.
Variable fd : D * G -> D * G.
Variable back : D * G -> A -> A.
Variable tan : D * G -> V -> V.
Variable trace : D * G -> TP * (D * G).
Variable zos : TP -> D -> option D.
Variable rev : TP -> D -> A -> A.
Variable fos : TP -> D -> V -> Z * D * V.
(** the active step function does what the double version does, and the reverse sweep of
    its tape, at the point where it was recorded, is the adjoint *)
Definition faithful : Prop := forall s,
  snd (trace s) = fd s /\ forall u, rev (fst (trace s)) (fst s) u = back s u.
(** when a tape is used at another point and the forward sweep does not report a change of
    the control flow, its reverse sweep is the adjoint there *)
Definition reusable : Prop := forall s d g d', zos (fst (trace s)) d = Some d' ->
  forall u, rev (fst (trace s)) d u = back (d, g) u.
(** the same for tangents *)
Definition faithful_tangent : Prop := forall s v, exists rc,
  fos (fst (trace s)) (fst s) v = (rc, fst (fd s), tan s v) /\ (0 <= rc)%Z.
Definition reusable_tangent : Prop := forall s d g v rc d' v', fos (fst (trace s)) d v = (rc, d', v') -> (0 <= rc)%Z ->
  d' = fst (fd (d, g)) /\ v' = tan (d, g) v.
End Faithful.
