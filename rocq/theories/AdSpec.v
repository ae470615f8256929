(* Vocabulary of the replay properties (C11, C12, C13, C17, C27, C32). *)
Require Import List ZArith Bool Arith Lia.
Require Import Verif.AdModel Verif.AdRecord.
Import ListNotations.
Set Implicit Arguments.

Section Spec.
Variable K : Arith.
Notation val := (V K).
Notation mem := (mem K).
Notation op := (op K).
Notation bop := (bop K).

(* ------------------------------------------------------------------ *)
(* Locations an operation reads and writes.                             *)

Definition breads (b : bop) : list nat :=
  match b with
  | Cmp _ _ a => [a]
  | AssignA _ a _ => [a]
  | AssignD _ _ _ | AssignP _ _ _ | AssignD0 _ _ | AssignD1 _ _
  | AssignInd _ _ | SetRef _ _ _ | TakeStock _ _ _ _ | DeathNot _ _ _ => []
  | AssignDep _ r | EqPlusD _ r _ | EqMinD _ r _ | EqMultD _ r _
  | Incr _ r | Decr _ r => [r]
  | EqPlusA _ a r | EqMinA _ a r | EqMultA _ a r => [a; r]
  | PlusAA _ a1 a2 _ | MinAA _ a1 a2 _ | MultAA _ a1 a2 _ | DivAA _ a1 a2 _
  | MinOp _ a1 a2 _ _ => [a1; a2]
  | EqPlusProd _ a1 a2 r | EqMinProd _ a1 a2 r => [a1; a2; r]
  | PlusDA _ a _ _ | MinDA _ a _ _ | MultDA _ a _ _ | DivDA _ a _ _
  | PosSign _ a _ | NegSign _ a _ | ExpOp _ a _ | LogOp _ a _ | PowOp _ a _ _
  | SqrtOp _ a _ | CbrtOp _ a _ | AbsVal _ a _ _ | CeilOp _ a _ _
  | FloorOp _ a _ _ => [a]
  | SinOp _ a _ _ | CosOp _ a _ _ | HelpOp _ _ a _ _ | GenQuad _ a _ _ _ _ => [a]
  | CondAssign _ a a1 a2 _ _ | CondEqAssign _ a a1 a2 _ _ => [a; a1; a2]
  | CondAssignS _ a a1 r _ | CondEqAssignS _ a a1 r _ => [a; a1; r]
  | VecCopy _ a n _ => seq a n
  | VecDot _ a1 a2 n _ => seq a1 n ++ seq a2 n
  | VecAxpy _ a a1 a2 n _ => a :: seq a1 n ++ seq a2 n
  end.

Definition bwrites (b : bop) : list nat :=
  match b with
  | Cmp _ _ _ | AssignDep _ _ | DeathNot _ _ _ => []
  | AssignA _ _ r | AssignD _ r _ | AssignP _ _ r | AssignD0 _ r | AssignD1 _ r
  | AssignInd _ r | EqPlusD _ r _ | EqPlusA _ _ r | EqMinD _ r _ | EqMinA _ _ r
  | EqMultD _ r _ | EqMultA _ _ r | Incr _ r | Decr _ r
  | PlusAA _ _ _ r | PlusDA _ _ r _ | MinAA _ _ _ r | MinDA _ _ r _
  | MultAA _ _ _ r | EqPlusProd _ _ _ r | EqMinProd _ _ _ r | MultDA _ _ r _
  | DivAA _ _ _ r | DivDA _ _ r _ | PosSign _ _ r | NegSign _ _ r | ExpOp _ _ r
  | HelpOp _ _ _ _ r | LogOp _ _ r | PowOp _ _ r _ | SqrtOp _ _ r
  | CbrtOp _ _ r | GenQuad _ _ _ r _ _ | MinOp _ _ _ r _ | AbsVal _ _ r _
  | CeilOp _ _ r _ | FloorOp _ _ r _ | CondAssign _ _ _ _ r _
  | CondEqAssign _ _ _ _ r _ | CondAssignS _ _ _ r _ | CondEqAssignS _ _ _ r _
  | SetRef _ r _ | VecDot _ _ _ _ r => [r]
  | SinOp _ _ a2 r | CosOp _ _ a2 r => [a2; r]
  | VecCopy _ _ n r => seq r n
  | VecAxpy _ _ _ _ n r => seq r n
  | TakeStock _ n r _ => seq r n
  end.

(* The active variable that tells an advector operation where to go. *)
Definition pointer (o : op) : list nat :=
  match o with
  | Plain _ => []
  | Subscript _ a _ _ _ | SubscriptRef _ a _ _ _ | RefCopyout _ a _
  | RefIncr _ a | RefDecr _ a | RefAssignD _ a _ | RefAssignD0 _ a
  | RefAssignD1 _ a | RefAssignInd _ a | RefEqPlusD _ a _ | RefEqMinD _ a _
  | RefEqMultD _ a _ => [a]
  | RefAssignA _ _ l | RefEqPlusA _ _ l | RefEqMinA _ _ l | RefEqMultA _ _ l => [l]
  | RefCondAssign _ _ _ _ l _ | RefCondEqAssign _ _ _ _ l _
  | RefCondAssignS _ _ _ l _ | RefCondEqAssignS _ _ _ l _ => [l]
  end.

(* an operation stopped by a subscript out of range reads the subscript only *)
Definition oreads (T : mem) (o : op) : list nat :=
  pointer o ++ if oob T o then [] else breads (resolve T o).
Definition owrites (T : mem) (o : op) : list nat := bwrites (resolve T o).

(* ------------------------------------------------------------------ *)
(* Floating point facts used by the recorder's shortcuts.               *)

(* They hold for IEEE double (Binary64.v) and for the reals. *)
Record Laws : Prop := {
  l_addC : forall a b, add K a b = add K b a;
  l_mulC : forall a b, mul K a b = mul K b a;
  l_is1  : forall c, eqb K c (one K) = true -> c = one K;
  l_ism1 : forall c, eqb K c (neg K (one K)) = true -> c = neg K (one K);
  l_mul1 : forall a, mul K (one K) a = a;
  l_mulm1: forall a, mul K (neg K (one K)) a = neg K a;
  l_negadd : forall a b, add K (neg K b) a = sub K a b;
  l_one0 : eqb K (one K) (zero K) = false;
  l_mone0: eqb K (neg K (one K)) (zero K) = false
}.

(* These hold for the reals; for IEEE double they fail because of -0
   (Binary64.v), so programs that add, subtract or assign a constant zero are
   treated separately. *)
Record ZeroLaws : Prop := {
  l_is0  : forall c, eqb K c (zero K) = true -> c = zero K;
  l_add0 : forall a, add K (zero K) a = a;
  l_sub0 : forall a, sub K (zero K) a = neg K a
}.

(* A value that compares with zero like an ordinary number (for IEEE double:
   any value but NaN). *)
Definition ordered (v : val) : Prop :=
  leb K v (zero K) = ltb K v (zero K) || eqb K v (zero K) /\
  leb K (zero K) v = ltb K (zero K) v || eqb K v (zero K) /\
  (ltb K v (zero K), eqb K v (zero K), ltb K (zero K) v) <> (false, false, false) /\
  (ltb K v (zero K) && eqb K v (zero K)) = false /\
  (ltb K (zero K) v && eqb K v (zero K)) = false /\
  (ltb K (zero K) v && ltb K v (zero K)) = false.

(* ------------------------------------------------------------------ *)
(* Side conditions on the calls of a program.                           *)

(* T, i: values and number of independents when the call is made. *)
Definition callok (x : nat -> val) (i : nat) (T : mem) (c : call K) : Prop :=
  match c with
  | CConst _ _ c | CRefConst _ _ c =>
      eqb K c (zero K) = true -> c = zero K             (* not -0.0 *)
  | CDeclInd _ r => T r = x i
  | CEqProd _ _ k a b y _ => y <> kres k a
  | CCst _ KAdd k cv a => eqb K cv (zero K) = false \/ ZeroLaws
  | CCst _ KSub k cv a => eqb K cv (zero K) = false \/ ZeroLaws
  | CSin _ k a b | CCos _ k a b => b <> a /\ b <> kres k a
  | CMin _ (Fresh r) a b =>                 (* adouble.cpp:4707 *)
      a <> r /\ b <> r /\ (ltb K (T b) (T a) = true \/ T a = ofnat K a)
  | CSubscript _ _ _ _ n | CSubRef _ _ _ _ n => tonat K (ofnat K n) = n
  | _ => True
  end.

(* The program run at x with parameters ps never reads a location before it has
   got a value on the tape (D: the locations that have one), every comparison is
   of ordered values, and the calls satisfy their side conditions.  A location
   whose value the recorder computed without recording it (the product of a
   fused  y += a*b ) has no value on the tape afterwards. *)
Definition dnext (D : nat -> Prop) (p : prim K) (T : mem) : nat -> Prop :=
  fun l => (D l \/ exists o, In o (p_op p T) /\ In l (owrites T o))
           /\ ~ In l (p_lost p).

Fixpoint okprims (ps x : nat -> val) (l : list (prim K)) (s : rec K)
  (D : nat -> Prop) (k : rec K -> (nat -> Prop) -> Prop) : Prop :=
  match l with
  | [] => k s D
  | p :: l' =>
      (forall o l, In o (p_op p (sT s)) -> In l (oreads (sT s) o) -> D l) /\
      match rprim ps x p s with
      | Some s' => okprims ps x l' s' (dnext D p (sT s)) k
      | None => True
      end
  end.

Fixpoint okrun (ps x : nat -> val) (p : prog K) (s : rec K) (D : nat -> Prop)
  : Prop :=
  match p with
  | Ret _ => True
  | Do c p' =>
      callok x (si s) (sT s) c /\
      okprims ps x (prims c) s D (fun s' D' => okrun ps x p' s' D')
  | If r a pt pf =>
      D a /\ ordered (sT s a) /\
      (if rel_val K r (sT s a) then okrun ps x pt (rcmp r a s) D
       else okrun ps x pf (rcmp r a s) D)
  end.

(* Locations whose values take_stock puts on the tape. *)
Definition stocked (chunks : list nat) : nat -> Prop :=
  fun l => l < fold_right plus 0 chunks.

End Spec.
