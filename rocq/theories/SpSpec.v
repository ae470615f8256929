(* Vocabulary of C18: the Jacobian sparsity pattern is never too small. *)
Require Import List ZArith Bool Arith Lia.
Require Import Verif.AdModel Verif.AdSpec.
Import ListNotations.
Set Implicit Arguments.

Section Spec.
Variable K : Arith.
Notation val := (V K).
Notation mem := (mem K).
Notation op := (op K).
Notation bop := (bop K).

(* The decisions a sweep over the trace takes: which branch of a conditional
   assignment is taken, which location a subscript leads to and, when the tight
   pattern is meant, which operand fmin selects and which step ceil and floor are
   on. *)
Inductive choice := Branch (b : bool) | Place (n : nat) | Step (v : val).

Definition bchoices (tight : bool) (b : bop) (T : mem) : list choice :=
  match b with
  | CondAssign _ arg _ _ _ _ | CondAssignS _ arg _ _ _ =>
      [Branch (ltb K (zero K) (T arg))]
  | CondEqAssign _ arg _ _ _ _ | CondEqAssignS _ arg _ _ _ =>
      [Branch (leb K (zero K) (T arg))]
  | MinOp _ a1 a2 _ _ => if tight then [Branch (ltb K (T a2) (T a1))] else []
  | CeilOp _ a _ _ => if tight then [Step (vceil K (T a))] else []
  | FloorOp _ a _ _ => if tight then [Step (vfloor K (T a))] else []
  | _ => []
  end.

Definition ochoices (tight : bool) (o : op) (T : mem) : list choice :=
  map (fun l => Place (tgt T l)) (pointer o) ++ bchoices tight (resolve T o) T.

(* decisions of zos_forward, in order *)
Fixpoint choices (tight : bool) (ps x : nat -> val) (t : list op)
  (s : fstate K) : list choice :=
  match t with
  | [] => []
  | o :: t' =>
      ochoices tight o (fT s) ++
      match zstep ps x o s with
      | inl s' => choices tight ps x t' s'
      | inr _ => []
      end
  end.
Definition decisions (tight : bool) (ps x : nat -> val) (g : mem)
  (t : list op) : list choice :=
  choices tight ps x t (mkF g 0 [] 3%Z []).

(* The operations with the locations they work on. *)
Fixpoint resolved (ps x : nat -> val) (t : list op) (s : fstate K)
  : list bop :=
  match t with
  | [] => []
  | o :: t' =>
      resolve (fT s) o ::
      match zstep ps x o s with
      | inl s' => resolved ps x t' s'
      | inr _ => []
      end
  end.
Definition operations (ps x : nat -> val) (g : mem) (t : list op) : list bop :=
  resolved ps x t (mkF g 0 [] 3%Z []).

(* Operations for which the pattern sweep forgets a dependence:
   - a binary operation whose result replaces its second operand,
   - vec_axpy into one of its vectors,
   - in tight mode the short conditional assignments (they leave the values used
     by the sweep unchanged). *)
Definition loses (tight : bool) (b : bop) : bool :=
  match b with
  | PlusAA _ a1 a2 res | MinAA _ a1 a2 res | MultAA _ a1 a2 res
  | DivAA _ a1 a2 res | MinOp _ a1 a2 res _ =>
      Nat.eqb a2 res && negb (Nat.eqb a1 a2)
  | CondAssign _ _ a1 a2 res _ | CondEqAssign _ _ a1 a2 res _ =>
      negb tight && Nat.eqb a2 res && negb (Nat.eqb a1 a2)
  | CondAssignS _ _ _ _ _ | CondEqAssignS _ _ _ _ _ => tight
  | VecAxpy _ _ a1 a2 n res =>
      negb (Nat.eqb n 0) && (Nat.eqb a1 res || Nat.eqb a2 res)
  | _ => false
  end.

(* sin and cos also store the cosine / sine in a helper location; the pattern of
   that location is not maintained, so nothing may read it before it is assigned
   again (the recorder uses a temporary that is destroyed at once).  h: helper
   locations not assigned since. *)
Definition mem_nat (l : nat) (s : list nat) : bool := existsb (Nat.eqb l) s.
Definition helpers (b : bop) (h : list nat) : list nat :=
  match b with
  | SinOp _ _ a2 res | CosOp _ _ a2 res =>
      filter (fun l => negb (Nat.eqb l res)) (a2 :: h)
  | TakeStock _ _ _ _ | SetRef _ _ _ => h
  | _ => filter (fun l => negb (mem_nat l (bwrites b))) h
  end.
Fixpoint patternable (tight : bool) (bs : list bop) (h : list nat) : bool :=
  match bs with
  | [] => true
  | b :: bs' =>
      negb (loses tight b) &&
      forallb (fun l => negb (mem_nat l h)) (breads b) &&
      match b with
      | SinOp _ a1 a2 _ | CosOp _ a1 a2 _ => negb (Nat.eqb a2 a1)
      | _ => true
      end &&
      patternable tight bs' (helpers b h)
  end.

End Spec.
