(* C51: the operations hos_ov_reverse does not treat direction by direction. *)
From Coq Require Import List ZArith Bool Arith Lia.
From Flocq Require Import Core BinarySingleNaN.
Require Import Verif.AdModel Verif.AdRecord Verif.HosModel Verif.HrvModel Verif.HovModel Verif.HovProps
  Verif.VrvModel Verif.Binary64.
Import ListNotations.
Set Implicit Arguments.
Unset Asymmetric Patterns.

Section Double.
Variable M : Libm.
Let K := binary64 M.

(* two directions, the unit vectors *)
Definition udirs : nat -> nat -> nat -> V K := fun i l _ => if Nat.eqb i l then b1 else bz.
Definition one_weight : nat -> nat -> V K := fun _ j => if Nat.eqb j 0 then b1 else bz.
(* hess_mat with the unit matrix of size n: the Hessian, one row for each direction *)
Definition ov_hessian (eps : V K) (ps x : nat -> V K) (g : mem K) (gc : rows K) (gz : nat -> nat -> nat -> V K)
  (n : nat) (t : list (op K)) : option (list (list SpecFloat.spec_float)) :=
  match @hov_wk_forward K n 1 ps x udirs g gc t with
  | Some w => match @hos_ov_reverse K eps 1 n one_weight n 1 gz (wkk w) t with
              | Some v => Some (map (fun l => map (fun i => B2SF (vrz v l i 1%nat : b64)) (seq 0 n)) (seq 0 n))
              | None => None end
  | None => None
  end.
(* the same Hessian, one direction at a time: hos_forward and hos_ti_reverse *)
Definition single_hessian (eps : V K) (ps x : nat -> V K) (g : mem K) (gc : rows K) (gz : nat -> nat -> nat -> V K)
  (n : nat) (t : list (op K)) : list (option (list SpecFloat.spec_float)) :=
  map (fun l =>
    match @hos_forward_keep K 1 ps x (fun i => udirs i l) g gc t with
    | Some h => match @hos_ti_reverse K eps 1 one_weight n 1 (fun _ _ => bz) (fun _ => bz) (fun _ _ => bz) (gz l) (hkk h) t with
                | Some r => Some (map (fun i => B2SF (hrz r i 1%nat : b64)) (seq 0 n))
                | None => None end
    | None => None end) (seq 0 n).

Let two : SpecFloat.spec_float := SpecFloat.S754_finite false 4503599627370496 (-51).
Let one_ : SpecFloat.spec_float := SpecFloat.S754_finite false 4503599627370496 (-52).
Let nul : SpecFloat.spec_float := SpecFloat.S754_zero false.

(* y = x0; z = y * y; y += x0 * x1, which nobody reads; z is the dependent.  At (1, 1) the
   Hessian of x0^2 is {{2, 0}, {0, 0}} *)
Definition dead_prog : prog K :=
  Do (CInd K 0) (Do (CInd K 1) (Do (CCopy K 0 2) (Do (CBin K BMul (Fresh 3) 2 2)
  (Do (CEqProd K false (Fresh 4) 0 1 2 true) (Do (CDep K 3) (Ret K)))))).
Theorem C51_dead_product_refuted : forall (eps : V K) (ps : nat -> V K) (g : mem K) (gc gc1 : rows K),
  exists s, @run K ps (fun _ => b1) dead_prog (@start K (fun _ => bz) []) = Some s /\
  let t := finish 4 s in
  ov_hessian eps ps (fun _ => b1) g gc (fun _ _ _ => bz) 2 t = Some [[nul; nul]; [two; nul]] /\
  single_hessian eps ps (fun _ => b1) g gc1 (fun _ _ _ => bz) 2 t = [Some [two; nul]; Some [nul; nul]].
Proof.
  intros eps ps g gc gc1. apply (@hwitness _ (run ps (fun _ => b1) dead_prog (@start K (fun _ => bz) []))).
  vm_compute. auto.
Qed.

(* z = x0 * x1 + x2 through vec_axpy: the loop over the directions is missing *)
Definition axpy_prog : prog K :=
  Do (CInd K 0) (Do (CInd K 1) (Do (CInd K 2) (Do (CDefault K 3) (Do (CVecAxpy K 3 0 1 2 1) (Do (CDep K 3) (Ret K)))))).
Theorem C51_vec_axpy_refuted : forall (eps : V K) (ps : nat -> V K) (g : mem K) (gc gc1 : rows K),
  exists s, @run K ps (fun _ => b1) axpy_prog (@start K (fun _ => bz) []) = Some s /\
  let t := finish 3 s in
  ov_hessian eps ps (fun _ => b1) g gc (fun _ _ _ => bz) 3 t = Some [[nul; one_; nul]; [nul; nul; nul]; [nul; nul; nul]] /\
  single_hessian eps ps (fun _ => b1) g gc1 (fun _ _ _ => bz) 3 t = [Some [nul; one_; nul]; Some [one_; nul; nul]; Some [nul; nul; nul]].
Proof.
  intros eps ps g gc gc1. apply (@hwitness _ (run ps (fun _ => b1) axpy_prog (@start K (fun _ => bz) []))).
  vm_compute. auto.
Qed.
End Double.
