(* C53: with d = 1 lie_gradientcv and lie_covector work on Taylor rows that were not moved. *)
From Coq Require Import List ZArith Bool Arith Lia.
From Flocq Require Import Core BinarySingleNaN.
Require Import Verif.AdModel Verif.AdRecord Verif.HosModel Verif.HrvModel Verif.HovModel Verif.HovProps
  Verif.HvrModel Verif.OdeModel Verif.LieModel Verif.Binary64.
Import ListNotations.
Set Implicit Arguments.
Unset Asymmetric Patterns.

Section Double.
Variable M : Libm.
Let K := binary64 M.

(* f(x) = - (x * x), as in LieEx *)
Definition bode_prog : prog K :=
  Do (CInd K 0) (Do (CBin K BMul (Fresh 1) 0 0) (Do (CUn K UNeg Temp 1) (Do (CDep K 1) (Ret K)))).
Let two : SpecFloat.spec_float := SpecFloat.S754_finite false 4503599627370496 (-51).
Let four : SpecFloat.spec_float := SpecFloat.S754_finite false 4503599627370496 (-50).
Let six : SpecFloat.spec_float := SpecFloat.S754_finite false 6755399441055744 (-50).

(* the first order results, at x0 = 1, by a call with d: the derivative of L_f h for h = f, and
   L_f of the covector f *)
Definition first_order (d : nat) (eps : V K) (F : tape K) (z0 : mem K) (Z0 r2 : rows K) (r3 : cube K)
  : option (SpecFloat.spec_float * SpecFloat.spec_float) :=
  match @lie_gradientcv K eps F F 1 1 (fun _ => b1) d z0 Z0 r3, @lie_covector K eps F F 1 (fun _ => b1) d z0 Z0 r2 with
  | Some D, Some W => Some (B2SF (D 0%nat 0%nat 1%nat : b64), B2SF (W 0%nat 1%nat : b64))
  | _, _ => None
  end.
(* by C53 they are 6 and 4, which a call with d = 2 returns; d = 1 returns 2 and 2 *)
Theorem C53_d1_refuted : forall (eps : V K) nmm (ps : nat -> V K) (g : nat -> mem K) (gc : nat -> rows K) z0 Z0 r2 r3,
  exists s, @run K ps (fun _ => b1) bode_prog (@start K (fun _ => bz) []) = Some s /\
  first_order 1 eps (mkTape nmm ps (finish 1 s) g gc) z0 Z0 r2 r3 = Some (two, two) /\
  first_order 2 eps (mkTape nmm ps (finish 1 s) g gc) z0 Z0 r2 r3 = Some (six, four).
Proof.
  intros eps nmm ps g gc z0 Z0 r2 r3. apply (@hwitness _ (run ps (fun _ => b1) bode_prog (@start K (fun _ => bz) []))).
  destruct nmm; vm_compute; auto.
Qed.
End Double.
