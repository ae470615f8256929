(* Specification of the Lie derivative drivers (C53), after the section "Lie Derivatives" of the
   manual (doc/adolc-manual.tex 2147-2290).                                                     *)
From Coq Require Import List Arith Lia Reals.
From Coquelicot Require Import Coquelicot.
Require Import Verif.OdeSpec Verif.DrvSpec.
Local Open Scope R_scope.

Definition state := nat -> R.

(* h is differentiable at y with the gradient g: the chain rule holds for every curve through y
   in the first n coordinates *)
Definition curve (n : nat) (y : state) (c : R -> state) (c' : nat -> R) : Prop :=
  c 0 = y /\ (forall s i, (n <= i)%nat -> c s i = y i) /\
  forall i, (i < n)%nat -> is_derive (fun s => c s i) 0 (c' i).
Definition gradient (n : nat) (h : state -> R) (y : state) (g : nat -> R) : Prop :=
  forall c c', curve n y c c' -> is_derive (fun s => h (c s)) 0 (total_of n (fun i => g i * c' i)).

(* no curve leaves O at once *)
Definition open_states (n : nat) (O : state -> Prop) : Prop :=
  forall y c c', O y -> curve n y c c' -> locally 0 (fun s => O (c s)).

Section Fields.
Variables (n d : nat) (O : state -> Prop) (f : state -> state).

(* L_f^0 h = h, L_f^{k+1} h = (d L_f^k h / dx) f, k < d, on O *)
Definition lie_scalars (h : state -> R) (L : nat -> state -> R) : Prop :=
  (forall y, O y -> L 0%nat y = h y) /\
  forall k y, (k < d)%nat -> O y -> exists g,
    gradient n (L k) y g /\ L (S k) y = total_of n (fun i => g i * f y i).

(* D k y is the gradient of L_f^k h at y, k <= d, with symmetric second derivatives for k < d *)
Definition lie_gradients (h : state -> R) (L : nat -> state -> R) (D : nat -> state -> state) : Prop :=
  lie_scalars h L /\
  (forall k y, (k <= d)%nat -> O y -> gradient n (L k) y (D k y)) /\
  (forall k y, (k < d)%nat -> O y -> exists H : nat -> nat -> R,
     (forall i, (i < n)%nat -> gradient n (fun y => D k y i) y (H i)) /\
     forall i j, (i < n)%nat -> (j < n)%nat -> H i j = H j i).

(* L_f^{k+1} w = (L_f^k w) f' + f^T (d (L_f^k w)^T / dx)^T *)
Definition lie_covectors (w : state -> state) (W : nat -> state -> state) : Prop :=
  (forall y i, O y -> (i < n)%nat -> W 0%nat y i = w y i) /\
  forall k y i, (k < d)%nat -> O y -> (i < n)%nat -> exists g J,
    gradient n (fun y => W k y i) y g /\
    (forall p, (p < n)%nat -> partial (fun y => f y p) y i (J p)) /\
    W (S k) y i = total_of n (fun p => W k y p * J p) + total_of n (fun p => f y p * g p).

(* ad_f^{k+1} v = (ad_f^k v)' f - f' (ad_f^k v) *)
Definition lie_brackets (v : state -> state) (G : nat -> state -> state) : Prop :=
  (forall y i, O y -> (i < n)%nat -> G 0%nat y i = v y i) /\
  forall k y i, (k < d)%nat -> O y -> (i < n)%nat -> exists g J,
    gradient n (fun y => G k y i) y g /\
    (forall p, (p < n)%nat -> partial (fun y => f y i) y p (J p)) /\
    G (S k) y i = total_of n (fun p => g p * f y p) - total_of n (fun p => J p * G k y p).
End Fields.
