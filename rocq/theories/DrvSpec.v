(** What the sweeps promise and what the drivers promise, in terms of the function F that
    was traced (m results of n arguments). *)
From Coq Require Import ZArith Reals List Lia.
From Coquelicot Require Import Coquelicot.
From Verif Require Import DrvModel.
Local Open Scope R_scope.

(** the straight line through x in direction v *)
Definition line (x v : vec) (t : R) : vec := fun k => x k + t * v k.
(** d is the derivative of h at x in direction v / with respect to argument i *)
Definition directional (h : vec -> R) (x v : vec) (d : R) : Prop := is_derive (fun t => h (line x v t)) 0 d.
Definition partial (h : vec -> R) (x : vec) (i : nat) (d : R) : Prop := directional h x (unitv i) d.
(** u . F *)
Fixpoint weighted (m : nat) (u : vec) (y : vec) : R := match m with O => 0 | S m => weighted m u y + u m * y m end.
(** d = (gradient of h in direction v)_i : for every function that is the i-th partial
    derivative of h on the line through x in direction v near x, d is its derivative *)
Definition second (h : vec -> R) (x v : vec) (i : nat) (d : R) : Prop :=
  forall g : vec -> R, (exists eps : posreal, forall t, Rabs t < eps -> partial h (line x v t) i (g (line x v t))) ->
    is_derive (fun t => g (line x v t)) 0 d.

(** the sweeps at the point x: whenever the return code is not negative *)
Record exact1 (F : vec -> vec) (s : sweeps) (x : vec) : Prop := {
  zos_ok : forall rc y, zos s x = (rc, y) -> (0 <= rc)%Z -> forall j, (j < deps s)%nat -> y j = F x j;
  fos_ok : forall v rc y yd, fos s x v = (rc, y, yd) -> (0 <= rc)%Z ->
    forall j, (j < deps s)%nat -> y j = F x j /\ directional (fun x => F x j) x v (yd j);
  fov_ok : forall p X rc y Y, fov s p x X = (rc, y, Y) -> (0 <= rc)%Z ->
    forall j, (j < deps s)%nat -> y j = F x j /\ forall l, (l < p)%nat -> directional (fun x => F x j) x (fun i => X i l) (Y j l);
  rev1_ok : forall u rc z, (0 <= fst (zos s x))%Z -> rev1 s x u = (rc, z) -> (0 <= rc)%Z ->
    forall i, (i < inds s)%nat -> partial (fun x => weighted (deps s) u (F x)) x i (z i);
  revv_ok : forall q U rc Z, (0 <= fst (zos s x))%Z -> revv s x q U = (rc, Z) -> (0 <= rc)%Z ->
    forall l i, (l < q)%nat -> (i < inds s)%nat -> partial (fun x => weighted (deps s) (U l) (F x)) x i (Z l i) }.
(** the second order sweeps *)
Record exact2 (F : vec -> vec) (s : sweeps) (x : vec) : Prop := {
  rev2_ok : forall v u rc Z, (0 <= fst (fst (fos s x v)))%Z -> rev2 s x v u = (rc, Z) -> (0 <= rc)%Z ->
    forall i, (i < inds s)%nat -> second (fun x => weighted (deps s) u (F x)) x v i (Z i 1%nat);
  revov_ok : forall q X U rc Z, revov s q x X U = (rc, Z) -> (0 <= rc)%Z -> (0 <= hov s q x X)%Z ->
    (forall j, U j 1%nat = 0) ->
    forall l i, (l < q)%nat -> (i < inds s)%nat -> second (fun x => weighted (deps s) (fun j => U j 0%nat) (F x)) x (fun i => X i l 0%nat) i (Z l i 1%nat) }.
