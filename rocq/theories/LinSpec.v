(* Specification for C35. *)
From Coq Require Import List ZArith Bool Arith Reals.
Require Import Verif.LinModel.
Import ListNotations.
Local Open Scope R_scope.

Fixpoint total (n : nat) (f : nat -> R) : R :=
  match n with O => 0 | S n' => total n' f + f n' end.

(* A x = b, all n rows *)
Definition solves (n : nat) (A : nat -> nat -> R) (x b : nat -> R) : Prop :=
  forall r, (r < n)%nat -> total n (fun c => A r c * x c) = b r.
(* no x but 0 has A x = 0 *)
Definition nonsingular (n : nat) (A : nat -> nat -> R) : Prop :=
  forall x, solves n A x (fun _ => 0) -> forall c, (c < n)%nat -> x c = 0.

(* One call of jac_solv as the user sees it: the tape that was there (its sweeps, and
   the Jacobian of the function it holds), the arguments, what came back. *)
Record call := mkCall {
  c_sw : sweeps; c_jac : (nat -> R) -> nat -> nat -> R;
  c_n : nat; c_x : nat -> R; c_b : nat -> R; c_mode : nat;
  c_rc : Z; c_res : nat -> R
}.
(* the sweeps deliver the Jacobian unless they report an error *)
Definition reliable (n : nat) (sw : sweeps) (jac : (nat -> R) -> nat -> nat -> R) : Prop :=
  (forall x y, (forall i, (i < n)%nat -> x i = y i) -> jac x = jac y) /\
  forall x c1 c2 J, sw x = (c1, c2, J) -> (0 <= c1)%Z -> (0 <= c2)%Z ->
  forall i j, (i < n)%nat -> (j < n)%nat -> J i j = jac x i j.

(* Series of calls for one tag, oldest first, from the state s. *)
Inductive series : js -> list call -> js -> Prop :=
| series_nil s : series s [] s
| series_call s c cs s1 s2 gx z0 :
    jac_solv (c_sw c) (c_n c) (c_x c) (c_b c) (c_mode c) gx z0 s = (c_rc c, c_res c, s1) ->
    series s1 cs s2 -> series s (c :: cs) s2.

Definition same_point (c d : call) : Prop :=
  c_n c = c_n d /\ forall i, (i < c_n c)%nat -> c_x c i = c_x d i.
(* d may follow c: when d asks for mode 2 at the point of c, then c has computed a
   factorisation (mode 1 or 2, no error) and the tag has not been traced again. *)
Definition may_follow (c d : call) : Prop :=
  c_mode d = 2%nat -> same_point c d ->
  (c_mode c = 1%nat \/ c_mode c = 2%nat) /\ (0 <= c_rc c)%Z /\
  c_sw c = c_sw d /\ c_jac c = c_jac d.
Fixpoint in_order (cs : list call) : Prop :=
  match cs with
  | c :: ((d :: _) as r) => may_follow c d /\ in_order r
  | _ => True
  end.

(* A sends a vector with an entry 1 to a vector whose entries are all below 1e-15 *)
Definition nearly_singular (n : nat) (A : nat -> nat -> R) : Prop :=
  exists x c, (c < n)%nat /\ x c = 1 /\
    forall r, (r < n)%nat -> Rabs (total n (fun c => A r c * x c)) < / 10 ^ 15.
