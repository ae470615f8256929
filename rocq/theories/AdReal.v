(* The arithmetic of the model instantiated with the real numbers: exact
   arithmetic, used for the statements about derivatives (C14, C15). *)
From Coq Require Import ZArith Reals Lra Bool List.
From Coquelicot Require Import Coquelicot.
Require Import Verif.AdModel Verif.AdRecord Verif.AdSpec.
Local Open Scope R_scope.

Definition Rltb (a b : R) : bool := if Rlt_dec a b then true else false.
Definition Rleb (a b : R) : bool := if Rle_dec a b then true else false.
Definition Reqb (a b : R) : bool := if Req_EM_T a b then true else false.

Definition Rcbrt (x : R) : R :=
  if Rlt_dec 0 x then Rpower x (/ 3)
  else if Rlt_dec x 0 then - Rpower (- x) (/ 3) else 0.
Definition Rasinh (x : R) : R := ln (x + sqrt (x * x + 1)).
Definition Racosh (x : R) : R := ln (x + sqrt (x * x - 1)).
Definition Ratanh (x : R) : R := ln ((1 + x) / (1 - x)) / 2.
Definition Rerf (x : R) : R :=
  2 / sqrt (acos (-1)) * RInt (fun t => exp (- t * t)) 0 x.
Definition Rerfc (x : R) : R := 1 - Rerf x.
Definition Rfloor (x : R) : R := IZR (Int_part x).
Definition Rceil (x : R) : R := - Rfloor (- x).
Definition Rvpow (x c : R) : R :=
  if Rlt_dec 0 x then Rpower x c
  else if Req_EM_T x 0 then (if Req_EM_T c 0 then 1 else 0)
  else if Req_EM_T c (Rfloor c) then powerRZ x (Int_part c) else 0.

Definition Rfn (f : fname) (x : R) : R :=
  match f with
  | Fexp => exp x | Flog => ln x | Fsqrt => sqrt x | Fcbrt => Rcbrt x
  | Fsin => sin x | Fcos => cos x | Fatan => atan x | Fasin => asin x
  | Facos => acos x | Fasinh => Rasinh x | Facosh => Racosh x
  | Fatanh => Ratanh x | Ferf => Rerf x | Ferfc => Rerfc x
  end.

Definition reals : Arith := {|
  V := R; zero := 0; one := 1; two := 2; three := 3; half := / 2;
  add := Rplus; sub := Rminus; mul := Rmult; dvd := Rdiv; neg := Ropp; vabs := Rabs;
  vceil := Rceil; vfloor := Rfloor; fn := Rfn; vpow := Rvpow;
  ltb := Rltb; leb := Rleb; eqb := Reqb;
  vnan := 0; vinf := 0;                    (* no such reals; never compared with *)
  ofnat := INR; tonat := fun x => Z.to_nat (Int_part (Rabs x))
|}.

Lemma Reqb_eq a b : Reqb a b = true <-> a = b.
Proof. unfold Reqb. destruct (Req_EM_T a b); split; congruence. Qed.
Lemma Rltb_lt a b : Rltb a b = true <-> a < b.
Proof. unfold Rltb. destruct (Rlt_dec a b); split; auto; discriminate. Qed.
Lemma Rleb_le a b : Rleb a b = true <-> a <= b.
Proof. unfold Rleb. destruct (Rle_dec a b); split; auto; discriminate. Qed.

Theorem reals_laws : Laws reals.
Proof.
  constructor; simpl; intros;
    try (now apply Reqb_eq); try lra;
    unfold Reqb; match goal with |- context [Req_EM_T ?a ?b] => destruct (Req_EM_T a b) end;
    auto; lra.
Qed.

Theorem reals_zero_laws : ZeroLaws reals.
Proof. constructor; simpl; intros; try ring. now apply Reqb_eq. Qed.

Theorem reals_ordered (v : R) : ordered reals v.
Proof.
  unfold ordered; simpl. unfold Rltb, Rleb, Reqb.
  destruct (Rlt_dec v 0), (Rle_dec v 0), (Req_EM_T v 0), (Rlt_dec 0 v), (Rle_dec 0 v);
    repeat split; try reflexivity; try discriminate; lra.
Qed.
