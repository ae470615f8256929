(* Vocabulary of C19: the Hessian sparsity pattern is never too small. *)
From Coq Require Import List ZArith Bool Arith Lia Reals.
Require Import Verif.AdModel Verif.AdSpec Verif.AdReal Verif.SpSpec.
Import ListNotations.
Set Implicit Arguments.
Unset Asymmetric Patterns.

(* The piece of a piecewise smooth function that is used at a point: the decisions
   of SpSpec (branches, targets of subscripts, operand selected by fmin, step of
   ceil and floor) and the sign used by fabs. *)
Section Pieces.
Variable K : Arith.
Notation val := (V K).
Notation mem := (mem K).
Notation op := (op K).
Notation bop := (bop K).

Definition bsigns (b : bop) (T : mem) : list (choice K) :=
  match b with
  | AbsVal _ a _ _ => [Branch K (ltb K (T a) (zero K))]
  | _ => []
  end.
Definition opieces (o : op) (T : mem) : list (choice K) :=
  ochoices true o T ++ bsigns (resolve T o) T.
Fixpoint pieces (ps x : nat -> val) (t : list op) (s : fstate K)
  : list (choice K) :=
  match t with
  | [] => []
  | o :: t' =>
      opieces o (fT s) ++
      match zstep ps x o s with
      | inl s' => pieces ps x t' s'
      | inr _ => []
      end
  end.
Definition piece (ps x : nat -> val) (g : mem) (t : list op) : list (choice K) :=
  pieces ps x t (mkF g 0 [] 3%Z []).

(* Traces the pattern sweeps treat correctly: no short conditional assignment
   (its result may keep the old value, the sweep forgets that) and no reading of
   the helper location of sin and cos (see SpSpec.patternable). *)
Definition forgets (b : bop) : bool :=
  match b with
  | CondAssignS _ _ _ _ _ | CondEqAssignS _ _ _ _ _ => true
  | _ => false
  end.
Fixpoint hpatternable (bs : list bop) (h : list nat) : bool :=
  match bs with
  | [] => true
  | b :: bs' =>
      negb (forgets b) &&
      forallb (fun l => negb (mem_nat l h)) (breads b) &&
      match b with
      | SinOp _ a1 a2 _ | CosOp _ a1 a2 _ => negb (Nat.eqb a2 a1)
      | _ => true
      end &&
      hpatternable bs' (helpers b h)
  end.
End Pieces.

(* x with h added to component i *)
Definition move (x : nat -> R) (i : nat) (h : R) : nat -> R :=
  fun n => if Nat.eqb n i then (x n + h)%R else x n.

(* The value of the m-th dependent at x, when the sweep runs through. *)
Definition value_at (ps : nat -> R) (g : mem reals) (t : list (op reals)) (m : nat)
  (x : nat -> R) (y : R) : Prop :=
  exists e, @zos_forward reals ps x g t = Done e /\ (0 <= frc e)%Z /\
            nth_error (fy e) m = Some y.
