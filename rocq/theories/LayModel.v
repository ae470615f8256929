(* Model of the layout of an operation on the three tape streams: which numbers
   the recording code puts for it, and which ones the sweeps take for it.

   Modelled code:
     ADOL-C/include/adolc/oplate.h:23-167   enum OPCODES
     ADOL-C/src/adouble.cpp, advector.cpp, pdouble.cpp
                                            put_op / put_loc / put_val calls of the
                                            operators (lines at the cases)
     ADOL-C/src/valuetape/valuetape.cpp:114-170   take_stock, keep_stock
     ADOL-C/src/uni5_for.cpp                get_locint_f / get_val_f calls of the
                                            forward sweeps
     ADOL-C/src/fo_rev.cpp, ho_rev.cpp      get_locint_r / get_val_r calls of the
                                            reverse sweeps

   The opcode list of uni5_for.cpp is one text for all forward sweeps; the
   variants zos, fos, fov, hos, hov, indopro safe/tight, nonl_ind safe/tight and
   int_forward safe read the same operands (checked by listing the calls per
   case for each set of macros); int_forward tight differs, see [rd_bits].

   Not modelled: ext_diff*, MPI, medipack operations, the *_a_a comparisons of
   ADOLC_ADVANCED_BRANCHING. *)
Require Import List ZArith Bool Arith Lia.
Require Verif.TapeModel.
Require Import Verif.AdModel.
Import ListNotations.
Set Implicit Arguments.

Section Lay.
Variable K : Arith.
Notation val := (V K).
Notation op := (op K).

(* ------------------------------------------------------------------ *)
(* The numbers of the operations: position in the enumeration, oplate.h:23-167 *)
Definition cmp_code (c : cmpop) : nat :=
  match c with
  | EqZero => 48 | NeqZero => 49 | LeZero => 50
  | GtZero => 51 | GeZero => 52 | LtZero => 53
  end.
Definition help_code (f : fname) : nat :=
  match f with
  | Fatan => 22 | Fasin => 25 | Facos => 26 | Fasinh => 28 | Facosh => 29
  | Fatanh => 30 | Ferf => 56 | Ferfc => 57
  | Fexp => 19 | Flog => 23 | Fsqrt => 27 | Fcbrt => 112 | Fsin => 21 | Fcos => 20
  end.

Definition code (o : op) : nat :=
  match o with
  | Plain b => match b with
    | DeathNot _ _ _ => 0
    | AssignInd _ _ => 1
    | AssignDep _ _ => 2
    | AssignA _ _ _ => 3
    | AssignD _ _ _ => 4
    | EqPlusD _ _ _ => 5
    | EqPlusA _ _ _ => 6
    | EqMinD _ _ _ => 7
    | EqMinA _ _ _ => 8
    | EqMultD _ _ _ => 9
    | EqMultA _ _ _ => 10
    | PlusAA _ _ _ _ => 11
    | PlusDA _ _ _ _ => 12
    | MinAA _ _ _ _ => 13
    | MinDA _ _ _ _ => 14
    | MultAA _ _ _ _ => 15
    | MultDA _ _ _ _ => 16
    | DivAA _ _ _ _ => 17
    | DivDA _ _ _ _ => 18
    | ExpOp _ _ _ => 19
    | CosOp _ _ _ _ => 20
    | SinOp _ _ _ _ => 21
    | HelpOp _ f _ _ _ => help_code f
    | LogOp _ _ _ => 23
    | PowOp _ _ _ _ => 24
    | SqrtOp _ _ _ => 27
    | GenQuad _ _ _ _ _ _ => 31
    | CondAssign _ _ _ _ _ _ => 37
    | CondAssignS _ _ _ _ _ => 38
    | TakeStock _ _ _ _ => 39
    | AssignD1 _ _ => 40
    | AssignD0 _ _ => 41
    | Incr _ _ => 42
    | Decr _ _ => 43
    | NegSign _ _ _ => 44
    | PosSign _ _ _ => 45
    | MinOp _ _ _ _ _ => 46
    | AbsVal _ _ _ _ => 47
    | Cmp _ c _ => cmp_code c
    | EqPlusProd _ _ _ _ => 54
    | EqMinProd _ _ _ _ => 55
    | CeilOp _ _ _ _ => 58
    | FloorOp _ _ _ _ => 59
    | CondEqAssign _ _ _ _ _ _ => 64
    | CondEqAssignS _ _ _ _ _ => 65
    | VecCopy _ _ _ _ => 84
    | VecDot _ _ _ _ _ => 85
    | VecAxpy _ _ _ _ _ _ => 86
    | AssignP _ _ _ => 89
    | CbrtOp _ _ _ => 112
    | SetRef _ _ _ => 200        (* not an operation of the tape *)
    end
  | Subscript _ _ _ _ _ => 66
  | SubscriptRef _ _ _ _ _ => 67
  | RefAssignD0 _ _ => 68
  | RefAssignD1 _ _ => 69
  | RefAssignD _ _ _ => 70
  | RefAssignA _ _ _ => 71
  | RefAssignInd _ _ => 72
  | RefIncr _ _ => 73
  | RefDecr _ _ => 74
  | RefEqPlusD _ _ _ => 75
  | RefEqMinD _ _ _ => 76
  | RefEqPlusA _ _ _ => 77
  | RefEqMinA _ _ _ => 78
  | RefEqMultD _ _ _ => 79
  | RefEqMultA _ _ _ => 80
  | RefCopyout _ _ _ => 81
  | RefCondAssign _ _ _ _ _ _ => 82
  | RefCondAssignS _ _ _ _ _ => 83
  | RefCondEqAssign _ _ _ _ _ _ => 87
  | RefCondEqAssignS _ _ _ _ _ => 88
  end.

(* ------------------------------------------------------------------ *)
(* The operands in the order of the put_loc / put_val calls. *)
Definition put (o : op) : list nat * list val :=
  match o with
  | Plain b => match b with
    | DeathNot _ a1 a2 => ([a1; a2], [])                 (* valuetape.cpp:163-165 *)
    | AssignInd _ r | AssignDep _ r => ([r], [])         (* adouble.cpp:777-850 *)
    | AssignA _ a r => ([a; r], [])                      (* 90-92, 175-177 *)
    | AssignD _ r c => ([r], [c])                        (* 60-62, 140-142 *)
    | AssignP _ p r => ([p; r], [])                      (* 210-212; pdouble.cpp *)
    | AssignD0 _ r | AssignD1 _ r => ([r], [])
    | EqPlusD _ r c | EqMinD _ r c | EqMultD _ r c => ([r], [c])      (* 231-596 *)
    | EqPlusA _ a r | EqMinA _ a r | EqMultA _ a r => ([a; r], [])
    | Incr _ r | Decr _ r => ([r], [])                   (* 600-769 *)
    | PlusAA _ a b r | MinAA _ a b r | MultAA _ a b r | DivAA _ a b r
    | EqPlusProd _ a b r | EqMinProd _ a b r => ([a; b; r], [])       (* 1633-2664 *)
    | PlusDA _ a r c | MinDA _ a r c | MultDA _ a r c | DivDA _ a r c
    | PowOp _ a r c => ([a; r], [c])                     (* 1793-2763, 4969-5068 *)
    | PosSign _ a r | NegSign _ a r | ExpOp _ a r | LogOp _ a r
    | SqrtOp _ a r | CbrtOp _ a r => ([a; r], [])        (* 1453-3151 *)
    | SinOp _ a b r | CosOp _ a b r => ([a; b; r], [])   (* 3153-3478 *)
    | HelpOp _ _ a b r => ([a; b; r], [])                (* 3480-4344 *)
    | GenQuad _ a b r x0 c => ([a; b; r], [x0; c])       (* myquad, 5070-5106 *)
    | MinOp _ a b r c => ([a; b; r], [c])                (* 4652-4967 *)
    | AbsVal _ a r c | CeilOp _ a r c | FloorOp _ a r c => ([a; r], [c])
                                                         (* 4346-4650 *)
    | CondAssign _ x a b r c | CondEqAssign _ x a b r c => ([x; a; b; r], [c])
                                                         (* 5108-5462 *)
    | CondAssignS _ x a r c | CondEqAssignS _ x a r c => ([x; a; r], [c])
                                                         (* 5237-5558 *)
    | VecCopy _ a n r => ([a; n; r], [])                 (* 5566-5569 *)
    | VecDot _ a b n r => ([a; b; n; r], [])             (* 5590-5594 *)
    | VecAxpy _ x a b n r => ([x; a; b; n; r], [])       (* 5624-5629 *)
    | TakeStock _ n r d => ([n; r], d)                   (* valuetape.cpp:125-145 *)
    | Cmp _ _ a => ([a], [])                             (* 1290-1448 *)
    | SetRef _ r l => ([r; l], [])
    end
  | Subscript _ a v r n | SubscriptRef _ a v r n => ([a; v; r], [n])
                                                         (* advector.cpp:446-495 *)
  | RefCopyout _ l r => ([l; r], [])                     (* 86-104 *)
  | RefIncr _ l | RefDecr _ l | RefAssignD0 _ l | RefAssignD1 _ l
  | RefAssignInd _ l => ([l], [])                        (* 39-63, 106-201, 310-349 *)
  | RefAssignD _ l c | RefEqPlusD _ l c | RefEqMinD _ l c | RefEqMultD _ l c
      => ([l], [c])                                      (* 39-63, 203-290 *)
  | RefAssignA _ a l | RefEqPlusA _ a l | RefEqMinA _ a l | RefEqMultA _ a l
      => ([a; l], [])                                    (* 65-84, 221-308 *)
  | RefCondAssign _ x a b l c | RefCondEqAssign _ x a b l c => ([x; a; b; l], [c])
                                                         (* 351-416 *)
  | RefCondAssignS _ x a l c | RefCondEqAssignS _ x a l c => ([x; a; l], [c])
                                                         (* 374-436 *)
  end.

(* ------------------------------------------------------------------ *)
(* A case of a sweep: the operands it takes, one after the other, and the
   operation it then performs. *)
Inductive rdr :=
| RDone (o : op)
| RLoc (k : nat -> rdr)
| RVal (k : val -> rdr).

Notation "'loc' x ; e" := (RLoc (fun x => e)) (at level 200, x name, right associativity).
Notation "'cst' x ; e" := (RVal (fun x => e)) (at level 200, x name, right associativity).
Notation run := RDone.

(* get_val_v_f(size) / get_val_v_r(size): size constants, delivered as an array
   in the order of the stream *)
Fixpoint block_f (n : nat) (acc : list val) (k : list val -> rdr) : rdr :=
  match n with O => k acc | S n' => RVal (fun v => block_f n' (acc ++ [v]) k) end.
Fixpoint block_r (n : nat) (acc : list val) (k : list val -> rdr) : rdr :=
  match n with O => k acc | S n' => RVal (fun v => block_r n' (v :: acc) k) end.

(* shapes that occur often, forward *)
Definition f_r (F : nat -> op) := loc res; run (F res).
Definition f_ar (F : nat -> nat -> op) := loc arg; loc res; run (F arg res).
Definition f_rc (F : nat -> val -> op) := loc res; cst c; run (F res c).
Definition f_arc (F : nat -> nat -> val -> op) :=
  loc arg; loc res; cst c; run (F arg res c).
Definition f_aar (F : nat -> nat -> nat -> op) :=
  loc arg1; loc arg2; loc res; run (F arg1 arg2 res).
Definition f_aarc (F : nat -> nat -> nat -> val -> op) :=
  loc arg1; loc arg2; loc res; cst c; run (F arg1 arg2 res c).
Definition f_aaarc (F : nat -> nat -> nat -> nat -> val -> op) :=
  loc arg; loc arg1; loc arg2; loc res; cst c; run (F arg arg1 arg2 res c).
(* subscript: the constant is taken first, uni5_for.cpp:4490-4498, 4533-4541 *)
Definition f_sub (F : nat -> nat -> nat -> val -> op) :=
  cst n; loc arg; loc vec; loc res; run (F arg vec res n).

(* reverse: result first, operands backwards, fo_rev.cpp / ho_rev.cpp *)
Definition r_r (F : nat -> op) := loc res; run (F res).
Definition r_ar (F : nat -> nat -> op) := loc res; loc arg; run (F arg res).
Definition r_rc (F : nat -> val -> op) := loc res; cst c; run (F res c).
Definition r_arc (F : nat -> nat -> val -> op) :=
  loc res; loc arg; cst c; run (F arg res c).
Definition r_aar (F : nat -> nat -> nat -> op) :=
  loc res; loc arg2; loc arg1; run (F arg1 arg2 res).
Definition r_aarc (F : nat -> nat -> nat -> val -> op) :=
  loc res; loc arg2; loc arg1; cst c; run (F arg1 arg2 res c).
Definition r_aaarc (F : nat -> nat -> nat -> nat -> val -> op) :=
  loc res; loc arg2; loc arg1; loc arg; cst c; run (F arg arg1 arg2 res c).
(* fo_rev.cpp:2001-2013, 2038-2050 *)
Definition r_sub (F : nat -> nat -> nat -> val -> op) :=
  cst n; loc res; loc vec; loc arg; run (F arg vec res n).

Definition Pl (F : nat -> bop K) := fun a => Plain (F a).
Definition Pl2 (F : nat -> nat -> bop K) := fun a b => Plain (F a b).
Definition Pl3 (F : nat -> nat -> nat -> bop K) := fun a b c => Plain (F a b c).
Definition Plc (F : nat -> val -> bop K) := fun a c => Plain (F a c).
Definition Pl2c (F : nat -> nat -> val -> bop K) := fun a b c => Plain (F a b c).
Definition Pl3c (F : nat -> nat -> nat -> val -> bop K) :=
  fun a b d c => Plain (F a b d c).
Definition Pl4c (F : nat -> nat -> nat -> nat -> val -> bop K) :=
  fun a b d e c => Plain (F a b d e c).

(* The opcode switch of the forward sweeps, uni5_for.cpp:1306-5525. *)
Definition rd_f (opc : nat) : option rdr :=
  match opc with
  | 0 => Some (loc a1; loc a2; run (Plain (DeathNot K a1 a2)))       (* 5503 *)
  | 1 => Some (f_r (Pl (AssignInd K)))                               (* 1571 *)
  | 2 => Some (f_r (Pl (AssignDep K)))                               (* 1635 *)
  | 3 => Some (f_ar (Pl2 (AssignA K)))                               (* 1403 *)
  | 4 => Some (f_rc (Plc (AssignD K)))                               (* 1441 *)
  | 5 => Some (f_rc (Plc (EqPlusD K)))
  | 6 => Some (f_ar (Pl2 (EqPlusA K)))
  | 7 => Some (f_rc (Plc (EqMinD K)))
  | 8 => Some (f_ar (Pl2 (EqMinA K)))
  | 9 => Some (f_rc (Plc (EqMultD K)))
  | 10 => Some (f_ar (Pl2 (EqMultA K)))
  | 11 => Some (f_aar (Pl3 (PlusAA K)))
  | 12 => Some (f_arc (Pl2c (PlusDA K)))
  | 13 => Some (f_aar (Pl3 (MinAA K)))
  | 14 => Some (f_arc (Pl2c (MinDA K)))
  | 15 => Some (f_aar (Pl3 (MultAA K)))
  | 16 => Some (f_arc (Pl2c (MultDA K)))
  | 17 => Some (f_aar (Pl3 (DivAA K)))
  | 18 => Some (f_arc (Pl2c (DivDA K)))
  | 19 => Some (f_ar (Pl2 (ExpOp K)))
  | 20 => Some (f_aar (Pl3 (CosOp K)))
  | 21 => Some (f_aar (Pl3 (SinOp K)))
  | 22 => Some (f_aar (Pl3 (HelpOp K Fatan)))
  | 23 => Some (f_ar (Pl2 (LogOp K)))
  | 24 => Some (f_arc (Pl2c (PowOp K)))
  | 25 => Some (f_aar (Pl3 (HelpOp K Fasin)))
  | 26 => Some (f_aar (Pl3 (HelpOp K Facos)))
  | 27 => Some (f_ar (Pl2 (SqrtOp K)))
  | 28 => Some (f_aar (Pl3 (HelpOp K Fasinh)))
  | 29 => Some (f_aar (Pl3 (HelpOp K Facosh)))
  | 30 => Some (f_aar (Pl3 (HelpOp K Fatanh)))
  | 31 => Some (loc a1; loc a2; loc r; cst x0; cst c; run (Plain (GenQuad K a1 a2 r x0 c)))
  | 37 => Some (f_aaarc (Pl4c (CondAssign K)))
  | 38 => Some (f_aarc (Pl3c (CondAssignS K)))
  | 39 => Some (loc size; loc res; block_f size [] (fun d => run (Plain (TakeStock K size res d))))
                                                                     (* 5478 *)
  | 40 => Some (f_r (Pl (AssignD1 K)))
  | 41 => Some (f_r (Pl (AssignD0 K)))
  | 42 => Some (f_r (Pl (Incr K)))
  | 43 => Some (f_r (Pl (Decr K)))
  | 44 => Some (f_ar (Pl2 (NegSign K)))
  | 45 => Some (f_ar (Pl2 (PosSign K)))
  | 46 => Some (f_aarc (Pl3c (MinOp K)))
  | 47 => Some (f_arc (Pl2c (AbsVal K)))
  | 48 => Some (f_r (Pl (Cmp K EqZero)))
  | 49 => Some (f_r (Pl (Cmp K NeqZero)))
  | 50 => Some (f_r (Pl (Cmp K LeZero)))
  | 51 => Some (f_r (Pl (Cmp K GtZero)))
  | 52 => Some (f_r (Pl (Cmp K GeZero)))
  | 53 => Some (f_r (Pl (Cmp K LtZero)))
  | 54 => Some (f_aar (Pl3 (EqPlusProd K)))
  | 55 => Some (f_aar (Pl3 (EqMinProd K)))
  | 56 => Some (f_aar (Pl3 (HelpOp K Ferf)))
  | 57 => Some (f_aar (Pl3 (HelpOp K Ferfc)))
  | 58 => Some (f_arc (Pl2c (CeilOp K)))
  | 59 => Some (f_arc (Pl2c (FloorOp K)))
  | 64 => Some (f_aaarc (Pl4c (CondEqAssign K)))
  | 65 => Some (f_aarc (Pl3c (CondEqAssignS K)))
  | 66 => Some (f_sub (Subscript K))
  | 67 => Some (f_sub (SubscriptRef K))
  | 68 => Some (f_r (RefAssignD0 K))
  | 69 => Some (f_r (RefAssignD1 K))
  | 70 => Some (f_rc (RefAssignD K))
  | 71 => Some (f_ar (RefAssignA K))
  | 72 => Some (f_r (RefAssignInd K))
  | 73 => Some (f_r (RefIncr K))
  | 74 => Some (f_r (RefDecr K))
  | 75 => Some (f_rc (RefEqPlusD K))
  | 76 => Some (f_rc (RefEqMinD K))
  | 77 => Some (f_ar (RefEqPlusA K))
  | 78 => Some (f_ar (RefEqMinA K))
  | 79 => Some (f_rc (RefEqMultD K))
  | 80 => Some (f_ar (RefEqMultA K))
  | 81 => Some (f_ar (RefCopyout K))
  | 82 => Some (f_aaarc (RefCondAssign K))
  | 83 => Some (f_aarc (RefCondAssignS K))
  | 84 => Some (loc arg; loc size; loc res; run (Plain (VecCopy K arg size res)))
  | 85 => Some (loc a1; loc a2; loc size; loc res; run (Plain (VecDot K a1 a2 size res)))
  | 86 => Some (loc arg; loc a1; loc a2; loc size; loc res;
                run (Plain (VecAxpy K arg a1 a2 size res)))
  | 87 => Some (f_aaarc (RefCondEqAssign K))
  | 88 => Some (f_aarc (RefCondEqAssignS K))
  | 89 => Some (f_ar (Pl2 (AssignP K)))
  | 112 => Some (f_ar (Pl2 (CbrtOp K)))
  | _ => None                     (* default: ADOLCError::fail *)
  end.

(* The opcode switch of the reverse sweeps, fo_rev.cpp:578-2650,
   ho_rev.cpp likewise. *)
Definition rd_r (opc : nat) : option rdr :=
  match opc with
  | 0 => Some (loc a2; loc a1; run (Plain (DeathNot K a1 a2)))
  | 1 => Some (r_r (Pl (AssignInd K)))
  | 2 => Some (r_r (Pl (AssignDep K)))
  | 3 => Some (r_ar (Pl2 (AssignA K)))
  | 4 => Some (r_rc (Plc (AssignD K)))
  | 5 => Some (r_rc (Plc (EqPlusD K)))
  | 6 => Some (r_ar (Pl2 (EqPlusA K)))
  | 7 => Some (r_rc (Plc (EqMinD K)))
  | 8 => Some (r_ar (Pl2 (EqMinA K)))
  | 9 => Some (r_rc (Plc (EqMultD K)))
  | 10 => Some (r_ar (Pl2 (EqMultA K)))
  | 11 => Some (r_aar (Pl3 (PlusAA K)))
  | 12 => Some (r_arc (Pl2c (PlusDA K)))
  | 13 => Some (r_aar (Pl3 (MinAA K)))
  | 14 => Some (r_arc (Pl2c (MinDA K)))
  | 15 => Some (r_aar (Pl3 (MultAA K)))
  | 16 => Some (r_arc (Pl2c (MultDA K)))
  | 17 => Some (r_aar (Pl3 (DivAA K)))
  | 18 => Some (r_arc (Pl2c (DivDA K)))
  | 19 => Some (r_ar (Pl2 (ExpOp K)))
  | 20 => Some (r_aar (Pl3 (CosOp K)))
  | 21 => Some (r_aar (Pl3 (SinOp K)))
  | 22 => Some (r_aar (Pl3 (HelpOp K Fatan)))
  | 23 => Some (r_ar (Pl2 (LogOp K)))
  | 24 => Some (r_arc (Pl2c (PowOp K)))
  | 25 => Some (r_aar (Pl3 (HelpOp K Fasin)))
  | 26 => Some (r_aar (Pl3 (HelpOp K Facos)))
  | 27 => Some (r_ar (Pl2 (SqrtOp K)))
  | 28 => Some (r_aar (Pl3 (HelpOp K Fasinh)))
  | 29 => Some (r_aar (Pl3 (HelpOp K Facosh)))
  | 30 => Some (r_aar (Pl3 (HelpOp K Fatanh)))
  | 31 => Some (loc r; loc a2; loc a1; cst c; cst x0; run (Plain (GenQuad K a1 a2 r x0 c)))
  | 37 => Some (r_aaarc (Pl4c (CondAssign K)))
  | 38 => Some (r_aarc (Pl3c (CondAssignS K)))
  | 39 => Some (loc res; loc size; block_r size [] (fun d => run (Plain (TakeStock K size res d))))
  | 40 => Some (r_r (Pl (AssignD1 K)))
  | 41 => Some (r_r (Pl (AssignD0 K)))
  | 42 => Some (r_r (Pl (Incr K)))
  | 43 => Some (r_r (Pl (Decr K)))
  | 44 => Some (r_ar (Pl2 (NegSign K)))
  | 45 => Some (r_ar (Pl2 (PosSign K)))
  | 46 => Some (r_aarc (Pl3c (MinOp K)))
  | 47 => Some (r_arc (Pl2c (AbsVal K)))
  | 48 => Some (r_r (Pl (Cmp K EqZero)))
  | 49 => Some (r_r (Pl (Cmp K NeqZero)))
  | 50 => Some (r_r (Pl (Cmp K LeZero)))
  | 51 => Some (r_r (Pl (Cmp K GtZero)))
  | 52 => Some (r_r (Pl (Cmp K GeZero)))
  | 53 => Some (r_r (Pl (Cmp K LtZero)))
  | 54 => Some (r_aar (Pl3 (EqPlusProd K)))
  | 55 => Some (r_aar (Pl3 (EqMinProd K)))
  | 56 => Some (r_aar (Pl3 (HelpOp K Ferf)))
  | 57 => Some (r_aar (Pl3 (HelpOp K Ferfc)))
  | 58 => Some (r_arc (Pl2c (CeilOp K)))
  | 59 => Some (r_arc (Pl2c (FloorOp K)))
  | 64 => Some (r_aaarc (Pl4c (CondEqAssign K)))
  | 65 => Some (r_aarc (Pl3c (CondEqAssignS K)))
  | 66 => Some (r_sub (Subscript K))
  | 67 => Some (r_sub (SubscriptRef K))
  | 68 => Some (r_r (RefAssignD0 K))
  | 69 => Some (r_r (RefAssignD1 K))
  | 70 => Some (r_rc (RefAssignD K))
  | 71 => Some (r_ar (RefAssignA K))
  | 72 => Some (r_r (RefAssignInd K))
  | 73 => Some (r_r (RefIncr K))
  | 74 => Some (r_r (RefDecr K))
  | 75 => Some (r_rc (RefEqPlusD K))
  | 76 => Some (r_rc (RefEqMinD K))
  | 77 => Some (r_ar (RefEqPlusA K))
  | 78 => Some (r_ar (RefEqMinA K))
  | 79 => Some (r_rc (RefEqMultD K))
  | 80 => Some (r_ar (RefEqMultA K))
  | 81 => Some (r_ar (RefCopyout K))
  | 82 => Some (r_aaarc (RefCondAssign K))
  | 83 => Some (r_aarc (RefCondAssignS K))
  | 84 => Some (loc res; loc size; loc arg; run (Plain (VecCopy K arg size res)))
  | 85 => Some (loc res; loc size; loc a2; loc a1; run (Plain (VecDot K a1 a2 size res)))
  | 86 => Some (loc res; loc size; loc a2; loc a1; loc arg;
                run (Plain (VecAxpy K arg a1 a2 size res)))
  | 87 => Some (r_aaarc (RefCondEqAssign K))
  | 88 => Some (r_aarc (RefCondEqAssignS K))
  | 89 => Some (r_ar (Pl2 (AssignP K)))
  | 112 => Some (r_ar (Pl2 (CbrtOp K)))
  | _ => None
  end.

(* int_forward in the tight version: the conditional assignments take a second
   constant, uni5_for.cpp:4142, 4249, 4323, 4384, 5202, 5301, 5375, 5435:
   "coval = tape.get_val_f();" in the _INT_FOR_ + _TIGHT_ section although the constant has been taken at the start of the case.  The
   second one is the value that is used. *)
Definition rd_bits (opc : nat) : option rdr :=
  let again3 (F : nat -> nat -> nat -> nat -> val -> op) :=
    loc arg; loc arg1; loc arg2; loc res; cst c0; cst c; run (F arg arg1 arg2 res c) in
  let again2 (F : nat -> nat -> nat -> val -> op) :=
    loc arg; loc arg1; loc res; cst c0; cst c; run (F arg arg1 res c) in
  match opc with
  | 37 => Some (again3 (Pl4c (CondAssign K)))
  | 38 => Some (again2 (Pl3c (CondAssignS K)))
  | 64 => Some (again3 (Pl4c (CondEqAssign K)))
  | 65 => Some (again2 (Pl3c (CondEqAssignS K)))
  | 82 => Some (again3 (RefCondAssign K))
  | 83 => Some (again2 (RefCondAssignS K))
  | 87 => Some (again3 (RefCondEqAssign K))
  | 88 => Some (again2 (RefCondEqAssignS K))
  | _ => rd_f opc
  end.

(* ------------------------------------------------------------------ *)
(* The calls of a case as a decision tree for the streams of TapeModel: no case
   looks at the constants to decide what to take next. *)
Fixpoint calls (r : rdr) : TapeModel.dec :=
  match r with
  | RDone _ => TapeModel.DDone
  | RLoc k => TapeModel.DLoc (fun l => calls (k l))
  | RVal k => TapeModel.DVal (calls (k (zero K)))
  end.
Definition switch (R : nat -> option rdr) (opc : nat) : TapeModel.dec :=
  match R opc with Some r => calls r | None => TapeModel.DDone end.

(* The operation that a case performs on the numbers it has taken (in the order
   in which it took them). *)
Fixpoint feed (r : rdr) (ls : list nat) (vs : list val) : option op :=
  match r with
  | RDone o => match ls, vs with [], [] => Some o | _, _ => None end
  | RLoc k => match ls with l :: ls' => feed (k l) ls' vs | [] => None end
  | RVal k => match vs with v :: vs' => feed (k v) ls vs' | [] => None end
  end.

(* TapeModel's loops give, for each operation, the numbers taken in the order
   of the stream; a reverse sweep has taken them in the opposite order. *)
Definition performed_f (R : nat -> option rdr) (x : nat * list nat * list val) : option op :=
  let '(opc, ls, vs) := x in
  match R opc with Some r => feed r ls vs | None => None end.
Definition performed_r (R : nat -> option rdr) (x : nat * list nat * list val) : option op :=
  let '(opc, ls, vs) := x in
  match R opc with Some r => feed r (rev ls) (rev vs) | None => None end.

(* The recording actions for an operation.  y += a*b is recorded as t = a*b and
   then patched (adouble.cpp:305-374, 450-518: upd_resloc_inc_prod). *)
Inductive acts_of : op -> list (TapeModel.act val) -> Prop :=
| acts_plain o :
    match o with
    | Plain (EqPlusProd _ _ _ _) | Plain (EqMinProd _ _ _ _) => False
    | _ => True end ->
    acts_of o [TapeModel.AOp (code o) 0 (fst (put o)) (snd (put o))]
| acts_plus_prod a b y t : y <> a -> y <> b ->
    acts_of (Plain (EqPlusProd K a b y))
      [TapeModel.AOp 15 0 [a; b; t] []; TapeModel.AUpdInc val t y 54]
| acts_min_prod a b y t : y <> a -> y <> b ->
    acts_of (Plain (EqMinProd K a b y))
      [TapeModel.AOp 15 0 [a; b; t] []; TapeModel.AUpdInc val t y 55].

(* operator+=(adouble&&) and -=(adouble&&) try the patch on any temporary; if the
   last operation is not such a product nothing happens (tapeinfos.h:340-355) and
   the operation recorded next is an ordinary one. *)
Definition no_prod (l : list op) (t y : nat) : Prop :=
  forall l' a b, l = l' ++ [Plain (MultAA K a b t)] -> y = a \/ y = b.

Inductive acts_of_all : list op -> list (TapeModel.act val) -> Prop :=
| aa_nil : acts_of_all [] []
| aa_op l A o a : acts_of_all l A -> acts_of o a -> acts_of_all (l ++ [o]) (A ++ a)
| aa_try l A t y (neg : bool) : acts_of_all l A -> no_prod l t y ->
    acts_of_all l (A ++ [TapeModel.AUpdInc val t y (if neg then 55 else 54)]).

End Lay.
