(* Specification for C30.  Nothing here mentions the sweeps of AnfModel.v. *)
From Coq Require Import List ZArith Bool Arith Reals.
Require Import Verif.AdModel Verif.AdReal Verif.AdTangent.
Import ListNotations.
Set Implicit Arguments.
Unset Asymmetric Patterns.
Local Open Scope R_scope.

(* The extended function of a recorded program: every |.| is cut open.  Its result
   is a new input w_q, its argument a new output z_q. *)
Fixpoint extended (ps x w : nat -> R) (t : list (op reals)) (i q : nat) (T : nat -> R)
  : list R * list R :=
  match t with
  | [] => ([], [])
  | o :: t' =>
      let b := @resolve reals T o in
      let i' := if is_ind b then S i else i in
      match b with
      | AbsVal _ arg res _ =>
          let (y, z) := extended ps x w t' i' (S q) (@upd reals T res (w q)) in
          (y, T arg :: z)
      | AssignDep _ res =>
          let (y, z) := extended ps x w t' i' q (@zval reals ps x i b T) in
          (T res :: y, z)
      | _ => extended ps x w t' i' q (@zval reals ps x i b T)
      end
  end.
Definition ext_y ps x w t g j := nth j (fst (extended ps x w t 0 0 g)) 0.
Definition ext_z ps x w t g j := nth j (snd (extended ps x w t 0 0 g)) 0.

(* |z_0|, |z_1|, ... *)
Definition abs_of (z : list R) (k : nat) : R := Rabs (nth k z 0).

(* Every operation but |.| is differentiable where the sweep at x evaluates it;
   |.| may be evaluated at 0. *)
Fixpoint smooth_but_abs (ps x : nat -> R) (t : list (op reals)) (i : nat) (T : nat -> R) : Prop :=
  match t with
  | [] => True
  | o :: t' =>
      let b := @resolve reals T o in
      let T' := @zval reals ps x i b T in
      match b with AbsVal _ _ _ _ => True | _ => smooth b T T' end /\
      smooth_but_abs ps x t' (if is_ind b then S i else i) T'
  end.

(* Piecewise linear programs: |.| and operations that are affine in the variables. *)
Definition linear_op (b : bop reals) : bool :=
  match b with
  | AssignA _ _ _ | AssignD _ _ _ | AssignP _ _ _ | AssignD0 _ _ | AssignD1 _ _
  | AssignInd _ _ | AssignDep _ _ | EqPlusD _ _ _ | EqPlusA _ _ _ | EqMinD _ _ _
  | EqMinA _ _ _ | EqMultD _ _ _ | Incr _ _ | Decr _ _ | PlusAA _ _ _ _
  | PlusDA _ _ _ _ | MinAA _ _ _ _ | MinDA _ _ _ _ | MultDA _ _ _ _ | PosSign _ _ _
  | NegSign _ _ _ | AbsVal _ _ _ _ | TakeStock _ _ _ _ | DeathNot _ _ _ => true
  | _ => false
  end.
Definition piecewise_linear (t : list (op reals)) : bool :=
  forallb (fun o => match o with Plain b => linear_op b | _ => false end) t.

(* sum_{k < n} a_k b_k *)
Fixpoint sum_to (n : nat) (f : nat -> R) : R :=
  match n with O => 0 | S n' => sum_to n' f + f n' end.
