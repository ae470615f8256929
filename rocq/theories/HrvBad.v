(* C43: the operations hos_reverse gets wrong, in double arithmetic. *)
From Coq Require Import List ZArith Bool Arith Lia.
From Flocq Require Import Core BinarySingleNaN.
Require Import Verif.AdModel Verif.AdRecord Verif.Binary64 Verif.HosModel Verif.HrvModel.
Import ListNotations.
Set Implicit Arguments.
Unset Asymmetric Patterns.

Lemma witness2 (A : Type) (r : option A) (P : A -> Prop) :
  match r with Some s => P s | None => False end -> exists s, r = Some s /\ P s.
Proof. destruct r; [eauto|tauto]. Qed.

(* the values of the C library that the examples need *)
Definition M0 : Libm := {| m_fn := fun _ v => v; m_pow := fun _ _ => bz; m_ceil := fun v => v; m_floor := fun v => v |}.
Definition K0 := binary64 M0.
Definition tiny : b64 := binary_normalize 53 1024 Hp He mode_NE 1 (-63) false.   (* about 10E-20 *)
Definition bits (r : nat -> V K0) (k : nat) := map (fun i => B2SF (r i : b64)) (seq 0 k).
Definition g1 : mem K0 := fun _ => bz.
Definition g2 : rows K0 := fun _ _ => bz.

(* y = x + pow(x, 3) *)
Definition pow_prog : prog K0 :=
  Do (CInd K0 0) (Do (CPow K0 (Fresh 1) 0 b3) (Do (CBin K0 BAdd (Fresh 2) 0 1) (Do (CDep K0 2) (Ret K0)))).
Theorem C43_pow_refuted : 
  exists s, @run K0 g1 (fun _ => bz) pow_prog (@start K0 (fun _ => bz) []) = Some s /\
  let t := finish 2 s in
  match @hos_forward_keep K0 1 g1 (fun _ => bz) (fun _ _ => b1) g1 g2 t with
  | Some st => match @hos_reverse K0 tiny 1 (fun _ => b1) 1 1 g2 g1 g2 g2 (hkk st) t with
     | Some r => bits (hrz r 0) 2 = map (@B2SF 53 1024) [bz; b2]
     | None => False end
  | None => False
  end.
Proof.
  apply (@witness2 _ (run g1 (fun _ => bz) pow_prog (@start K0 (fun _ => bz) []))).
  vm_compute. reflexivity.
Qed.

(* t = x*x; w = x + t; f = floor(std::move(t)), in the location of t; y = f*w at x = 1 along x(s) = 1 + s.
   floor is constant there, so dy/dx = 1 + 2x has the coefficients [3; 2]. *)
Definition b8 : b64 := bplus (bplus b3 b3) b2.
Definition floor_prog : prog K0 :=
  Do (CInd K0 0) (Do (CBin K0 BMul (Fresh 1) 0 0) (Do (CBin K0 BAdd (Fresh 2) 0 1)
  (Do (CUn K0 UFloor Temp 1) (Do (CBin K0 BMul (Fresh 3) 1 2) (Do (CDep K0 3) (Ret K0)))))).
Theorem C43_floor_refuted : 
  exists s, @run K0 g1 (fun _ => b1) floor_prog (@start K0 (fun _ => bz) []) = Some s /\
  let t := finish 3 s in
  match @hos_forward_keep K0 1 g1 (fun _ => b1) (fun _ _ => b1) g1 g2 t with
  | Some st => match @hos_reverse K0 tiny 1 (fun _ => b1) 1 1 g2 g1 g2 g2 (hkk st) t with
     | Some r => bits (hrz r 0) 2 = map (@B2SF 53 1024) [b3; b8]
     | None => False end
  | None => False
  end.
Proof.
  apply (@witness2 _ (run g1 (fun _ => b1) floor_prog (@start K0 (fun _ => bz) []))).
  vm_compute.
  reflexivity.
Qed.
