(* C52: the operations hov_reverse does not treat row by row, and vec_axpy in place. *)
From Coq Require Import List ZArith Bool Arith Lia.
From Flocq Require Import Core BinarySingleNaN.
Require Import Verif.AdModel Verif.AdRecord Verif.HosModel Verif.HrvModel Verif.HovModel Verif.HovProps
  Verif.HvrModel Verif.Binary64.
Import ListNotations.
Set Implicit Arguments.
Unset Asymmetric Patterns.

Section Double.
Variable M : Libm.
Let K := binary64 M.

Definition udir : nat -> nat -> V K := fun _ _ => bz.
Definition ones : nat -> nat -> V K := fun _ _ => b1.
(* hos_forward of degree 1, then hov_reverse with p rows of weights, all (1): the coefficients of
   degree 0, the gradients, with the flags in nonzero *)
Definition hov_gradients (p : nat) (eps : V K) (ps x : nat -> V K) (g : mem K) (gc : rows K) (gz : nat -> nat -> nat -> V K)
  (gnz : nat -> nat -> V K) (n : nat) (t : list (op K)) : option (list (list (SpecFloat.spec_float * SpecFloat.spec_float))) :=
  match @hos_forward_keep K 1 ps x udir g gc t with
  | Some h => match @hov_reverse K eps 1 p ones n 1 gz gnz (hkk h) t with
              | Some v => Some (map (fun l => map (fun i => (B2SF (hvz v l i 0%nat : b64), B2SF (hvnz v l i : b64))) (seq 0 n)) (seq 0 p))
              | None => None end
  | None => None
  end.

Let two : SpecFloat.spec_float := SpecFloat.S754_finite false 4503599627370496 (-51).
Let one_ : SpecFloat.spec_float := SpecFloat.S754_finite false 4503599627370496 (-52).
Let nul : SpecFloat.spec_float := SpecFloat.S754_zero false.

(* z = x0 * x1 + x2 through vec_axpy, the same weight in both rows: row 1 is not the gradient
   (1, 1, 1), it is 0, and its pattern is empty *)
Definition axpy2_prog : prog K :=
  Do (CInd K 0) (Do (CInd K 1) (Do (CInd K 2) (Do (CDefault K 3) (Do (CVecAxpy K 3 0 1 2 1) (Do (CDep K 3) (Ret K)))))).
Theorem C52_vec_axpy_refuted : forall (eps : V K) (ps : nat -> V K) (g : mem K) (gc : rows K) gz gnz,
  exists s, @run K ps (fun _ => b1) axpy2_prog (@start K (fun _ => bz) []) = Some s /\
  hov_gradients 2 eps ps (fun _ => b1) g gc gz gnz 3 (finish 3 s)
  = Some [[(one_, two); (one_, two); (one_, one_)]; [(nul, nul); (nul, nul); (nul, nul)]].
Proof.
  intros eps ps g gc gz gnz. apply (@hwitness _ (run ps (fun _ => b1) axpy2_prog (@start K (fun _ => bz) []))).
  vm_compute. auto.
Qed.

(* y = fabs(x0): two rows read behind the end of the arrays x and jj, one row does not *)
Definition abs_prog : prog K :=
  Do (CInd K 0) (Do (CUn K UAbs (Fresh 1) 0) (Do (CDep K 1) (Ret K))).
Theorem C52_fabs_refuted : forall (eps : V K) (ps : nat -> V K) (g : mem K) (gc : rows K) gz gnz,
  exists s, @run K ps (fun _ => b1) abs_prog (@start K (fun _ => bz) []) = Some s /\
  hov_gradients 1 eps ps (fun _ => b1) g gc gz gnz 1 (finish 1 s) = Some [[(one_, one_)]] /\
  hov_gradients 2 eps ps (fun _ => b1) g gc gz gnz 1 (finish 1 s) = None.
Proof.
  intros eps ps g gc gz gnz. apply (@hwitness _ (run ps (fun _ => b1) abs_prog (@start K (fun _ => bz) []))).
  vm_compute. auto.
Qed.

(* x2 = x0 * x1 + x2 in place: the result row of x2 is 1, but its flag says that it is 0 *)
Definition inplace_prog : prog K :=
  Do (CInd K 0) (Do (CInd K 1) (Do (CInd K 2) (Do (CVecAxpy K 2 0 1 2 1) (Do (CDep K 2) (Ret K))))).
Theorem C52_inplace_pattern_refuted : forall (eps : V K) (ps : nat -> V K) (g : mem K) (gc : rows K) gz gnz,
  exists s, @run K ps (fun _ => b1) inplace_prog (@start K (fun _ => bz) []) = Some s /\
  hov_gradients 1 eps ps (fun _ => b1) g gc gz gnz 3 (finish 2 s) = Some [[(one_, two); (one_, two); (one_, nul)]].
Proof.
  intros eps ps g gc gz gnz. apply (@hwitness _ (run ps (fun _ => b1) inplace_prog (@start K (fun _ => bz) []))).
  vm_compute. auto.
Qed.
(* y = x0; y = x0 * x1 + y in place: the gradient at (1, 1) is (2, 1), the sweep drops the adjoint
   of y because its flag is 0 *)
Definition dropped_prog : prog K :=
  Do (CInd K 0) (Do (CInd K 1) (Do (CCopy K 0 2) (Do (CVecAxpy K 2 0 1 2 1) (Do (CDep K 2) (Ret K))))).
Theorem C52_inplace_refuted : forall (eps : V K) (ps : nat -> V K) (g : mem K) (gc : rows K) gz gnz,
  exists s, @run K ps (fun _ => b1) dropped_prog (@start K (fun _ => bz) []) = Some s /\
  hov_gradients 1 eps ps (fun _ => b1) g gc gz gnz 2 (finish 2 s) = Some [[(one_, two); (one_, two)]].
Proof.
  intros eps ps g gc gz gnz. apply (@hwitness _ (run ps (fun _ => b1) dropped_prog (@start K (fun _ => bz) []))).
  vm_compute. auto.
Qed.
End Double.
