(** * Specification vocabulary for the tape streams (independent of buffers). *)
From Coq Require Import List Arith Bool.
From Verif Require Import TapeModel.
Import ListNotations.
Set Implicit Arguments.

Section Spec.
Variable V : Type.

(** A recorded operation: opcode, its locations, its constants. *)
Definition oper := (nat * list nat * list V)%type.

(** Effect of a recording action on the list of recorded operations. *)
Definition with_last (ops : list oper) (f : oper -> oper) : list oper :=
  match rev ops with [] => [] | o :: r => rev r ++ [f o] end.

(** "t = a + b ; y = t" becomes "y = a + b": the result location of the last
    operation is renamed if it is [temp]. *)
Definition rename_res (temp lhs : nat) (o : oper) : oper :=
  let '(opc, ls, vs) := o in
  match rev ls with
  | [] => o
  | l :: r => if l =? temp then (opc, rev r ++ [lhs], vs) else o
  end.

(** "t = a * b ; y += t" becomes "y += a * b", unless y is a or b. *)
Definition fuse_prod (temp lhs newop : nat) (o : oper) : oper :=
  match o with
  | (opc, [a; b; r], vs) =>
      if (opc =? mult_a_a) && (r =? temp) && negb (lhs =? a) && negb (lhs =? b)
      then (newop, [a; b; lhs], vs) else o
  | _ => o
  end.

Definition spec_act (ops : list oper) (a : act V) : list oper :=
  match a with
  | AOp opc _ locs vals => ops ++ [(opc, locs, vals)]
  | AUpd _ temp lhs => with_last ops (rename_res temp lhs)
  | AUpdInc _ temp lhs newop => with_last ops (fuse_prod temp lhs newop)
  end.

Definition spec_acts (ops : list oper) (l : list (act V)) := fold_left spec_act l ops.

(** opcodes that steer the readers and are never recorded by an operator *)
Definition special (opc : nat) : bool :=
  (opc =? end_of_tape) || (opc =? start_of_tape) || (opc =? end_of_op)
  || (opc =? end_of_int) || (opc =? end_of_val).

(** What the operators guarantee when they record: at most 8 locations beyond
    the announced reserve, at most 5 constants, the announced reserve fits into
    one location buffer; an operation is only patched if it has a result
    location (three of them and no more for mult_a_a). *)
Definition act_ok (capL : nat) (ops : list oper) (a : act V) : Prop :=
  match a with
  | AOp opc r locs vals =>
      special opc = false /\ length locs <= 8 + r /\ length vals <= 5 /\ 10 + r <= capL
      /\ (opc = mult_a_a -> length locs = 3)
  | AUpd _ _ _ => exists ops' opc ls l vs, ops = ops' ++ [(opc, ls ++ [l], vs)]
                     /\ (opc = mult_a_a -> length ls = 2)
  | AUpdInc _ _ _ newop => special newop = false /\ newop <> mult_a_a
  end.

Fixpoint acts_ok (capL : nat) (ops : list oper) (l : list (act V)) : Prop :=
  match l with
  | [] => True
  | a :: l' => act_ok capL ops a /\ acts_ok capL (spec_act ops a) l'
  end.

(** The reader [d] asks exactly for the given locations and constants, in the
    given order. *)
Fixpoint asks (d : dec) (ls : list nat) (vs : list V) : Prop :=
  match d with
  | DDone => ls = [] /\ vs = []
  | DLoc k => exists l ls', ls = l :: ls' /\ asks (k l) ls' vs
  | DVal k => exists v vs', vs = v :: vs' /\ asks k ls vs'
  end.

Definition reads_f (D : nat -> dec) (o : oper) : Prop :=
  let '(opc, ls, vs) := o in asks (D opc) ls vs.
Definition reads_r (D : nat -> dec) (o : oper) : Prop :=
  let '(opc, ls, vs) := o in asks (D opc) (rev ls) (rev vs).

(** the operations that take a stock of the live variables at trace_on: the
    stored array cut into consecutive non-empty pieces *)
Fixpoint stock_ops (loc : nat) (pieces : list (list V)) : list oper :=
  match pieces with
  | [] => []
  | p :: r => (take_stock_op, [length p; loc], p) :: stock_ops (loc + length p) r
  end.

End Spec.
