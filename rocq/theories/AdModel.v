(* Model of the operation set of a trace and of the first order sweeps.

   Modelled code:
     ADOL-C/include/adolc/oplate.h          the opcodes
     ADOL-C/src/uni5_for.cpp                zos_forward (_ZOS_) and fos_forward
                                            (_FOS_, with and without keep)
     ADOL-C/src/fo_rev.cpp                  fos_reverse (_FOS_)
     ADOL-C/include/adolc/internal/common.h MINDEC, MIN_ADOLC

   The sweeps read the operations from the three tape streams; that reading is
   the subject of TapeModel.v / TapeProps.v (C06, C07), here a trace is the list
   of operations with their locations and constants.

   Not modelled here: ext_diff* operations, MPI/medipack operations, abs-normal
   variants, the activity tracking build, the return code of the reverse
   sweep. *)
Require Import List ZArith Bool Arith Lia.
Import ListNotations.
Set Implicit Arguments.

(* ------------------------------------------------------------------ *)
(* Arithmetic of the machine: nothing is assumed about the operations.  *)

(* Unary functions computed by the C library. *)
Inductive fname :=
| Fexp | Flog | Fsqrt | Fcbrt | Fsin | Fcos
| Fatan | Fasin | Facos | Fasinh | Facosh | Fatanh | Ferf | Ferfc.

Record Arith := {
  V     : Type;
  zero  : V;  one : V;  two : V;  three : V; half : V;
  add   : V -> V -> V;
  sub   : V -> V -> V;
  mul   : V -> V -> V;
  dvd   : V -> V -> V;
  neg   : V -> V;
  vabs  : V -> V;               (* fabs *)
  vceil : V -> V;
  vfloor: V -> V;
  fn    : fname -> V -> V;
  vpow  : V -> V -> V;          (* pow *)
  ltb   : V -> V -> bool;       (* a < b *)
  leb   : V -> V -> bool;       (* a <= b *)
  eqb   : V -> V -> bool;       (* a == b *)
  vnan  : V;                    (* tape.make_nan() *)
  vinf  : V;                    (* tape.make_inf() *)
  ofnat : nat -> V;             (* to_double / static_cast<double>(size_t) *)
  tonat : V -> nat              (* (size_t)trunc(fabs(x)) *)
}.

(* The eight functions whose trace record carries the location of a helper
   variable holding the derivative (atan .. erfc). *)
Definition is_helper (f : fname) : bool :=
  match f with
  | Fatan | Fasin | Facos | Fasinh | Facosh | Fatanh | Ferf | Ferfc => true
  | _ => false
  end.

Section Model.
Variable K : Arith.
Notation val := (V K).
Definition mem := nat -> val.

Definition upd (T : mem) (i : nat) (v : val) : mem :=
  fun j => if Nat.eqb j i then v else T j.

(* --------------------------------------------------------------- *)
(* Operations. Locations in the order in which they are put on the tape
   (operands first, result last), constants last.  oplate.h:23-140.  *)

Inductive cmpop := EqZero | NeqZero | LeZero | GtZero | GeZero | LtZero.

(* Operations whose locations are fixed when the trace is recorded. *)
Inductive bop :=
| Cmp (c : cmpop) (arg : nat)
| AssignA (arg res : nat)
| AssignD (res : nat) (c : val)
| AssignP (arg res : nat)
| AssignD0 (res : nat)
| AssignD1 (res : nat)
| AssignInd (res : nat)
| AssignDep (res : nat)
| EqPlusD (res : nat) (c : val)
| EqPlusA (arg res : nat)
| EqMinD (res : nat) (c : val)
| EqMinA (arg res : nat)
| EqMultD (res : nat) (c : val)
| EqMultA (arg res : nat)
| Incr (res : nat)
| Decr (res : nat)
| PlusAA (a1 a2 res : nat)
| PlusDA (arg res : nat) (c : val)
| MinAA (a1 a2 res : nat)
| MinDA (arg res : nat) (c : val)
| MultAA (a1 a2 res : nat)
| EqPlusProd (a1 a2 res : nat)
| EqMinProd (a1 a2 res : nat)
| MultDA (arg res : nat) (c : val)
| DivAA (a1 a2 res : nat)
| DivDA (arg res : nat) (c : val)
| PosSign (arg res : nat)
| NegSign (arg res : nat)
| ExpOp (arg res : nat)
| SinOp (a1 a2 res : nat)
| CosOp (a1 a2 res : nat)
| HelpOp (f : fname) (a1 a2 res : nat)      (* atan .. erfc *)
| LogOp (arg res : nat)
| PowOp (arg res : nat) (c : val)
| SqrtOp (arg res : nat)
| CbrtOp (arg res : nat)
| GenQuad (a1 a2 res : nat) (x0 c : val)
| MinOp (a1 a2 res : nat) (c : val)
| AbsVal (arg res : nat) (c : val)
| CeilOp (arg res : nat) (c : val)
| FloorOp (arg res : nat) (c : val)
| CondAssign (arg a1 a2 res : nat) (c : val)
| CondEqAssign (arg a1 a2 res : nat) (c : val)
| CondAssignS (arg a1 res : nat) (c : val)
| CondEqAssignS (arg a1 res : nat) (c : val)
| SetRef (res : nat) (l : nat)              (* effect of subscript_ref *)
| VecCopy (arg size res : nat)
| VecDot (a1 a2 size res : nat)
| VecAxpy (arg a1 a2 size res : nat)
| TakeStock (size res : nat) (d : list val)
| DeathNot (a1 a2 : nat).

(* All operations: the ones above, and the ones that find a location in the
   value of an active variable (advector).  oplate.h:90-118. *)
Inductive op :=
| Plain (b : bop)
| Subscript (arg vec res : nat) (n : val)
| SubscriptRef (arg vec res : nat) (n : val)
| RefCopyout (arg res : nat)
| RefIncr (arg : nat)
| RefDecr (arg : nat)
| RefAssignD (arg : nat) (c : val)
| RefAssignD0 (arg : nat)
| RefAssignD1 (arg : nat)
| RefAssignA (arg res : nat)
| RefAssignInd (arg : nat)
| RefEqPlusD (arg : nat) (c : val)
| RefEqPlusA (arg arg1 : nat)
| RefEqMinD (arg : nat) (c : val)
| RefEqMinA (arg arg1 : nat)
| RefEqMultD (arg : nat) (c : val)
| RefEqMultA (arg arg1 : nat)
| RefCondAssign (arg a1 a2 ref : nat) (c : val)
| RefCondEqAssign (arg a1 a2 ref : nat) (c : val)
| RefCondAssignS (arg a1 ref : nat) (c : val)
| RefCondEqAssignS (arg a1 ref : nat) (c : val).

(* The target of a reference variable: (size_t)trunc(fabs(dp_T0[arg])),
   uni5_for.cpp:4567 and the other ref_ cases. *)
Definition tgt (T : mem) (l : nat) : nat := tonat K (T l).

(* A ref_ operation performs the statements of the plain operation on the
   location it finds (uni5_for.cpp:4490-4960, 5149-5461 compared with
   1430-1875 and 4076-4409; fo_rev.cpp:2001-2320, 2405-2590 likewise). *)
Definition resolve (T : mem) (o : op) : bop :=
  match o with
  | Plain b => b
  | Subscript arg vec res n => AssignA (vec + tgt T arg) res
  | SubscriptRef arg vec res n => SetRef res (vec + tgt T arg)
  | RefCopyout arg res => AssignA (tgt T arg) res
  | RefIncr arg => Incr (tgt T arg)
  | RefDecr arg => Decr (tgt T arg)
  | RefAssignD arg c => AssignD (tgt T arg) c
  | RefAssignD0 arg => AssignD0 (tgt T arg)
  | RefAssignD1 arg => AssignD1 (tgt T arg)
  | RefAssignA arg res => AssignA arg (tgt T res)
  | RefAssignInd arg => AssignInd (tgt T arg)
  | RefEqPlusD arg c => EqPlusD (tgt T arg) c
  | RefEqPlusA arg arg1 => EqPlusA arg (tgt T arg1)
  | RefEqMinD arg c => EqMinD (tgt T arg) c
  | RefEqMinA arg arg1 => EqMinA arg (tgt T arg1)
  | RefEqMultD arg c => EqMultD (tgt T arg) c
  | RefEqMultA arg arg1 => EqMultA arg (tgt T arg1)
  | RefCondAssign arg a1 a2 ref c => CondAssign arg a1 a2 (tgt T ref) c
  | RefCondEqAssign arg a1 a2 ref c => CondEqAssign arg a1 a2 (tgt T ref) c
  | RefCondAssignS arg a1 ref c => CondAssignS arg a1 (tgt T ref) c
  | RefCondEqAssignS arg a1 ref c => CondEqAssignS arg a1 (tgt T ref) c
  end.

(* Index out of bounds: ADOLCError::fail(ADUBREF_OOB), uni5_for.cpp:4505-4508,
   4549-4552.  numvar = (size_t)trunc(fabs(coval)). *)
Definition oob (T : mem) (o : op) : bool :=
  match o with
  | Subscript arg vec res n | SubscriptRef arg vec res n =>
      Nat.leb (tonat K n) (tgt T arg)
  | _ => false
  end.

(* --------------------------------------------------------------- *)
(* Forward sweep: values.                                            *)

(* Loop of vec_copy, uni5_for.cpp:4967-4970. *)
Fixpoint vcopy (n arg res q : nat) (T : mem) : mem :=
  match n with
  | 0 => T
  | S n' => vcopy n' arg res (S q) (upd T (res + q) (T (arg + q)))
  end.
(* Loop of vec_dot, uni5_for.cpp:5018-5077. *)
Fixpoint vdot (n a1 a2 res q : nat) (T : mem) : mem :=
  match n with
  | 0 => T
  | S n' => vdot n' a1 a2 res (S q)
              (upd T res (add K (T res) (mul K (T (a1 + q)) (T (a2 + q)))))
  end.
(* Loop of vec_axpy, uni5_for.cpp:5087-5146. *)
Fixpoint vaxpy (n arg a1 a2 res q : nat) (T : mem) : mem :=
  match n with
  | 0 => T
  | S n' => vaxpy n' arg a1 a2 res (S q)
              (upd T (res + q)
                   (add K (mul K (T arg) (T (a1 + q))) (T (a2 + q))))
  end.
(* Loop of take_stock_op, uni5_for.cpp:5476-5492. *)
Fixpoint stock (n res : nat) (d : list val) (T : mem) : mem :=
  match n with
  | 0 => T
  | S n' => stock n' (S res) (tl d) (upd T res (hd (zero K) d))
  end.

(* MIN_ADOLC(a,b) = (a > b ? b : a), common.h:145 *)
Definition vmin (a b : val) : val := if ltb K b a then b else a.

(* New contents of dp_T0. ps = tape.paramstore(), x = basepoint, i = indexi.
   uni5_for.cpp:1430-5507 (_ZOS_), one case per opcode. *)
Definition zval (ps x : nat -> val) (i : nat) (b : bop) (T : mem) : mem :=
  match b with
  | Cmp _ _ => T                                                 (* 1313-1423 *)
  | AssignA arg res => upd T res (T arg)                         (* 1438 *)
  | AssignD res c => upd T res c                                 (* 1470 *)
  | AssignP arg res => upd T res (ps arg)                        (* 1498-1504 *)
  | AssignD0 res => upd T res (zero K)                           (* 1534 *)
  | AssignD1 res => upd T res (one K)                            (* 1564 *)
  | AssignInd res => upd T res (x i)                             (* 1595 *)
  | AssignDep res => T                                           (* 1624-1665 *)
  | EqPlusD res c => upd T res (add K (T res) c)                 (* 1683 *)
  | EqPlusA arg res => upd T res (add K (T res) (T arg))         (* 1696 *)
  | EqMinD res c => upd T res (sub K (T res) c)                  (* 1735 *)
  | EqMinA arg res => upd T res (sub K (T res) (T arg))          (* 1748 *)
  | EqMultD res c => upd T res (mul K (T res) c)                 (* 1787 *)
  | EqMultA arg res => upd T res (mul K (T res) (T arg))         (* 1853 *)
  | Incr res => upd T res (add K (T res) (one K))                (* 1864 *)
  | Decr res => upd T res (sub K (T res) (one K))                (* 1875 *)
  | PlusAA a1 a2 res => upd T res (add K (T a1) (T a2))          (* 1892 *)
  | PlusDA arg res c => upd T res (add K (T arg) c)              (* 1933 *)
  | MinAA a1 a2 res => upd T res (sub K (T a1) (T a2))           (* 1963 *)
  | MinDA arg res c => upd T res (sub K c (T arg))               (* 2004 *)
  | MultAA a1 a2 res => upd T res (mul K (T a1) (T a2))          (* 2082 *)
  | EqPlusProd a1 a2 res =>
      upd T res (add K (T res) (mul K (T a1) (T a2)))            (* 2148 *)
  | EqMinProd a1 a2 res =>
      upd T res (sub K (T res) (mul K (T a1) (T a2)))            (* 2215 *)
  | MultDA arg res c => upd T res (mul K (T arg) c)              (* 2232 *)
  | DivAA a1 a2 res => upd T res (dvd K (T a1) (T a2))           (* 2270 *)
  | DivDA arg res c => upd T res (dvd K c (T arg))               (* 2338 *)
  | PosSign arg res => upd T res (T arg)                         (* 2398 *)
  | NegSign arg res => upd T res (neg K (T arg))                 (* 2426 *)
  | ExpOp arg res => upd T res (fn K Fexp (T arg))               (* 2462 *)
  | SinOp a1 a2 res =>                                           (* 2523-2524 *)
      let T1 := upd T a2 (fn K Fcos (T a1)) in
      upd T1 res (fn K Fsin (T1 a1))
  | CosOp a1 a2 res =>                                           (* 2595-2596 *)
      let T1 := upd T a2 (fn K Fsin (T a1)) in
      upd T1 res (fn K Fcos (T1 a1))
  | HelpOp f a1 a2 res => upd T res (fn K f (T a1))    (* 2666 2727 2827 2927
                                                2988 3073 3180 3238 *)
  | LogOp arg res => upd T res (fn K Flog (T arg))               (* 3348 *)
  | PowOp arg res c => upd T res (vpow K (T arg) c)              (* 3373 *)
  | SqrtOp arg res => upd T res (fn K Fsqrt (T arg))             (* 3501 *)
  | CbrtOp arg res => upd T res (fn K Fcbrt (T arg))             (* 3583 *)
  | GenQuad a1 a2 res x0 c => upd T res c                        (* 3670 *)
  | MinOp a1 a2 res c => upd T res (vmin (T a1) (T a2))          (* 3867 *)
  | AbsVal arg res c => upd T res (vabs K (T arg))               (* 3988 *)
  | CeilOp arg res c => upd T res (vceil K (T arg))              (* 4007 *)
  | FloorOp arg res c => upd T res (vfloor K (T arg))            (* 4045 *)
  | CondAssign arg a1 a2 res c =>                                (* 4172-4182 *)
      upd T res (if ltb K (zero K) (T arg) then T a1 else T a2)
  | CondEqAssign arg a1 a2 res c =>                              (* 4277-4285 *)
      upd T res (if leb K (zero K) (T arg) then T a1 else T a2)
  | CondAssignS arg a1 res c =>                                  (* 4342-4347 *)
      if ltb K (zero K) (T arg) then upd T res (T a1) else T
  | CondEqAssignS arg a1 res c =>                                (* 4402-4406 *)
      if leb K (zero K) (T arg) then upd T res (T a1) else T
  | SetRef res l => upd T res (ofnat K l)                        (* 4555 *)
  | VecCopy arg size res => vcopy size arg res 0 T               (* 4962-4990 *)
  | VecDot a1 a2 size res =>                                     (* 4992-5078 *)
      vdot size a1 a2 res 0 (upd T res (zero K))
  | VecAxpy arg a1 a2 size res => vaxpy size arg a1 a2 res 0 T   (* 5080-5147 *)
  | TakeStock size res d => stock size res d T                   (* 5468-5493 *)
  | DeathNot a1 a2 => T                                          (* 5496-5507 *)
  end.

(* Values pushed on the Taylor stack when keep is set (IF_KEEP_WRITE_TAYLOR,
   uni5_for.cpp:256-261), in the order in which they are pushed.  For vec_copy
   and vec_axpy the element is pushed just before it is overwritten, so when the
   ranges overlap a pushed value may already be a new one. *)
Fixpoint vcopy_push (n arg res q : nat) (T : mem) : list val :=
  match n with
  | 0 => []
  | S n' => T (res + q) ::
            vcopy_push n' arg res (S q) (upd T (res + q) (T (arg + q)))
  end.
Fixpoint vaxpy_push (n arg a1 a2 res q : nat) (T : mem) : list val :=
  match n with
  | 0 => []
  | S n' => T (res + q) ::
            vaxpy_push n' arg a1 a2 res (S q)
              (upd T (res + q)
                   (add K (mul K (T arg) (T (a1 + q))) (T (a2 + q))))
  end.

(* death_not pushes arg2, arg2-1, ..., arg1: do { .. } while (arg1 < arg2--),
   uni5_for.cpp:5501-5505. n = arg2 - arg1. *)
Fixpoint down (n a1 : nat) : list nat :=
  match n with 0 => [a1] | S n' => (a1 + n) :: down n' a1 end.

Definition pushes (b : bop) (T : mem) : list val :=
  match b with
  | Cmp _ _ | AssignDep _ | EqPlusProd _ _ _ | EqMinProd _ _ _
  | TakeStock _ _ _ => []
  | AssignA _ res | AssignD res _ | AssignP _ res | AssignD0 res | AssignD1 res
  | AssignInd res | EqPlusD res _ | EqPlusA _ res | EqMinD res _ | EqMinA _ res
  | EqMultD res _ | EqMultA _ res | Incr res | Decr res
  | PlusAA _ _ res | PlusDA _ res _ | MinAA _ _ res | MinDA _ res _
  | MultAA _ _ res | MultDA _ res _ | DivAA _ _ res | DivDA _ res _
  | PosSign _ res | NegSign _ res | ExpOp _ res | HelpOp _ _ _ res
  | LogOp _ res | PowOp _ res _ | SqrtOp _ res | CbrtOp _ res
  | GenQuad _ _ res _ _ | MinOp _ _ res _ | AbsVal _ res _ | CeilOp _ res _
  | FloorOp _ res _ | CondAssign _ _ _ res _ | CondEqAssign _ _ _ res _
  | CondAssignS _ _ res _ | CondEqAssignS _ _ res _ | SetRef res _
  | VecDot _ _ _ res => [T res]
  | SinOp _ a2 res | CosOp _ a2 res => [T a2; T res]   (* 2518-2519, 2590-2591 *)
  | VecCopy arg size res => vcopy_push size arg res 0 T
  | VecAxpy arg a1 a2 size res => vaxpy_push size arg a1 a2 res 0 T
  | DeathNot a1 a2 => map T (down (a2 - a1) a1)
  end.

(* --------------------------------------------------------------- *)
(* Forward sweep: return code.                                       *)

(* common.h:137  MINDEC(a,b): if (a > b) a = b *)
Definition mindec (a b : Z) : Z := if Z.ltb b a then b else a.

(* The comparison disagrees with the recorded one, uni5_for.cpp:1313-1423. *)
Definition cmp_bad (c : cmpop) (v : val) : bool :=
  match c with
  | EqZero => negb (eqb K v (zero K))
  | NeqZero => eqb K v (zero K)
  | LeZero => ltb K (zero K) v
  | GtZero => leb K v (zero K)
  | GeZero => ltb K v (zero K)
  | LtZero => leb K (zero K) v
  end.

(* Some code leaves the sweep: Some (-1) for a branch switch, Some (-2) for
   gen_quad (3653-3659). *)
Definition zabort (b : bop) (T : mem) : option Z :=
  match b with
  | Cmp c arg => if cmp_bad c (T arg) then Some (-1)%Z else None
  | GenQuad a1 a2 res x0 c => if eqb K x0 (T a1) then None else Some (-2)%Z
  | _ => None
  end.

(* New return code, in terms of the memory before the operation. *)
Definition zrc (b : bop) (T : mem) (rc : Z) : Z :=
  match b with
  | Cmp EqZero arg => 0%Z                                        (* 1327 *)
  | Cmp LeZero arg | Cmp GeZero arg =>                           (* 1364, 1402 *)
      if eqb K (T arg) (zero K) then 0%Z else rc
  | MinOp a1 a2 res c =>                                         (* 3729-3736 *)
      if ltb K (T a2) (T a1) then
        if eqb K c (zero K) then rc else mindec rc 2
      else if ltb K (T a1) (T a2) then
        if eqb K c (zero K) then mindec rc 2 else rc
      else if Nat.eqb a1 a2 then rc else mindec rc 1
  | AbsVal arg res c =>                                          (* 3886-3892 *)
      if ltb K (T arg) (zero K) then
        if eqb K c (zero K) then rc else mindec rc 2
      else if ltb K (zero K) (T arg) then
        if eqb K c (zero K) then mindec rc 2 else rc
      else rc
  | CeilOp arg res c =>                                          (* 4009-4010 *)
      if eqb K c (vceil K (T arg)) then rc else mindec rc 2
  | FloorOp arg res c =>                                         (* 4047-4048 *)
      if eqb K c (vfloor K (T arg)) then rc else mindec rc 2
  | CondAssign arg a1 a2 res c =>                                (* 4172-4181 *)
      if ltb K (zero K) (T arg) then
        if leb K c (zero K) then mindec rc 2 else rc
      else
        let rc1 := if ltb K (zero K) c then mindec rc 2 else rc in
        if eqb K (T arg) (zero K) then mindec rc1 0 else rc1
  | CondEqAssign arg a1 a2 res c =>                              (* 4277-4284 *)
      if leb K (zero K) (T arg) then
        if ltb K c (zero K) then mindec rc 2 else rc
      else if leb K (zero K) c then mindec rc 2 else rc
  | CondAssignS arg a1 res c =>                                  (* 4342-4347 *)
      if ltb K (zero K) (T arg) then
        if leb K c (zero K) then mindec rc 2 else rc
      else if eqb K (T arg) (zero K) then mindec rc 0 else rc
  | CondEqAssignS arg a1 res c =>                                (* 4402-4406 *)
      if leb K (zero K) (T arg) then
        if ltb K c (zero K) then mindec rc 2 else rc
      else rc
  | _ => rc
  end.

Definition is_ind (b : bop) : bool :=
  match b with AssignInd _ => true | _ => false end.

(* valuepoint[indexd] = dp_T0[res], 1624-1630 *)
Definition out_of (b : bop) (T : mem) : list val :=
  match b with AssignDep res => [T res] | _ => [] end.

(* --------------------------------------------------------------- *)
(* zos_forward                                                       *)

Record fstate := mkF {
  fT : mem;                (* dp_T0 *)
  fi : nat;                (* indexi *)
  fy : list val;           (* valuepoint[0 .. indexd-1] *)
  frc : Z;                 (* ret_c *)
  fk : list val            (* Taylor stack, top first *)
}.

Inductive outcome :=
| Done (s : fstate)        (* end of tape reached, or aborted with its code *)
| Failed.                  (* ADOLCError::fail *)

(* One pass of the loop 1279-5820; None: leave the loop with the code in frc. *)
Definition zstep (ps x : nat -> val) (o : op) (s : fstate) : fstate + outcome :=
  if oob (fT s) o then inr Failed else
  let b := resolve (fT s) o in
  match zabort b (fT s) with
  | Some c => inr (Done (mkF (fT s) (fi s) (fy s) c (fk s)))
  | None =>
      inl (mkF (zval ps x (fi s) b (fT s))
               (if is_ind b then S (fi s) else fi s)
               (fy s ++ out_of b (fT s))
               (zrc b (fT s) (frc s))
               (rev (pushes b (fT s)) ++ fk s))
  end.

Fixpoint zrun (ps x : nat -> val) (t : list op) (s : fstate) : outcome :=
  match t with
  | [] => Done s
  | o :: t' =>
      match zstep ps x o s with
      | inl s' => zrun ps x t' s'
      | inr r => r
      end
  end.

(* uni5_for.cpp:505-5904 (_ZOS_): ret_c starts at 3 (line 837); dp_T0 is
   malloc'ed and not initialised (1130), so its contents g are arbitrary. *)
Definition zos_forward (ps x : nat -> val) (g : mem) (t : list op) : outcome :=
  zrun ps x t (mkF g 0 [] 3%Z []).

(* --------------------------------------------------------------- *)
(* fos_forward: tangents dp_T.                                       *)

Definition gt0 v := ltb K (zero K) v.
Definition lt0 v := ltb K v (zero K).

(* asin 2754-2812, acos 2854-2912, acosh 3015-3058, atanh 3100-3165: values at
   +-1 are special; the test is on dp_T0[arg1] after dp_T0[res] was written. *)
Definition help_special (f : fname) (v d : val) : option val :=
  let pick p m := if gt0 d then p else if lt0 d then m else zero K in
  match f with
  | Fasin => if eqb K v (one K) then Some (pick (vnan K) (vinf K))
             else if eqb K v (neg K (one K)) then Some (pick (vinf K) (vnan K))
             else None
  | Facos => if eqb K v (one K) then Some (pick (vnan K) (neg K (vinf K)))
             else if eqb K v (neg K (one K))
                  then Some (pick (neg K (vinf K)) (vnan K))
             else None
  | Facosh => if eqb K v (one K) then Some (pick (vinf K) (vnan K)) else None
  | Fatanh => if eqb K v (one K) then Some (pick (vnan K) (vinf K))
              else if eqb K v (neg K (one K)) then Some (pick (vinf K) (vnan K))
              else None
  | _ => None
  end.

(* sqrt 3527-3569, cbrt 3609-3640: factor r0 *)
Definition root_factor (v d r : val) : val :=
  if eqb K v (zero K) then
    if gt0 d then vinf K else if lt0 d then vnan K else zero K
  else r.

Fixpoint tcopy (n arg res q : nat) (D : mem) : mem :=
  match n with
  | 0 => D
  | S n' => tcopy n' arg res (S q) (upd D (res + q) (D (arg + q)))
  end.
(* vec_dot: tangent and value are updated together, 5018-5077 *)
Fixpoint tdot (n a1 a2 res q : nat) (T D : mem) : mem :=
  match n with
  | 0 => D
  | S n' =>
      let D' := upd D res (add K (D res)
                  (add K (mul K (T (a1 + q)) (D (a2 + q)))
                         (mul K (D (a1 + q)) (T (a2 + q))))) in
      let T' := upd T res (add K (T res) (mul K (T (a1 + q)) (T (a2 + q)))) in
      tdot n' a1 a2 res (S q) T' D'
  end.
(* vec_axpy, 5087-5146 *)
Fixpoint taxpy (n arg a1 a2 res q : nat) (T D : mem) : mem :=
  match n with
  | 0 => D
  | S n' =>
      let D' := upd D (res + q)
                  (add K (add K (mul K (T arg) (D (a1 + q)))
                                (mul K (D arg) (T (a1 + q))))
                         (D (a2 + q))) in
      let T' := upd T (res + q)
                  (add K (mul K (T arg) (T (a1 + q))) (T (a2 + q))) in
      taxpy n' arg a1 a2 res (S q) T' D'
  end.
Fixpoint tzero (n res : nat) (D : mem) : mem :=
  match n with
  | 0 => D
  | S n' => tzero n' (S res) (upd D res (zero K))
  end.

(* New contents of dp_T from dp_T0 before the operation (T), after it (T'),
   and dp_T (D).  xd i = ARGUMENT(indexi,0,0).  uni5_for.cpp (_FOS_). *)
Definition tval (ps x xd : nat -> val) (i : nat) (b : bop) (T D : mem) : mem :=
  let T' := zval ps x i b T in
  match b with
  | Cmp _ _ | AssignDep _ | DeathNot _ _ => D
  | AssignA arg res => upd D res (D arg)                         (* 1453 *)
  | AssignD res _ | AssignP _ res | AssignD0 res | AssignD1 res =>
      upd D res (zero K)                                 (* 1487 1521 1551 1581 *)
  | AssignInd res => upd D res (xd i)                            (* 1616 *)
  | EqPlusD _ _ | EqMinD _ _ | Incr _ | Decr _ => D
  | EqPlusA arg res => upd D res (add K (D res) (D arg))         (* 1717 *)
  | EqMinA arg res => upd D res (sub K (D res) (D arg))          (* 1769 *)
  | EqMultD res c => upd D res (mul K (D res) c)                 (* 1796 *)
  | EqMultA arg res =>                                           (* 1838 *)
      upd D res (add K (mul K (T res) (D arg)) (mul K (D res) (T arg)))
  | PlusAA a1 a2 res => upd D res (add K (D a1) (D a2))          (* 1914 *)
  | PlusDA arg res _ => upd D res (D arg)                        (* 1948 *)
  | MinAA a1 a2 res => upd D res (sub K (D a1) (D a2))           (* 1985 *)
  | MinDA arg res _ => upd D res (neg K (D arg))                 (* 2022 *)
  | MultAA a1 a2 res =>                                          (* 2066 *)
      upd D res (add K (mul K (T a1) (D a2)) (mul K (D a1) (T a2)))
  | EqPlusProd a1 a2 res =>                                      (* 2133 *)
      upd D res (add K (D res)
                     (add K (mul K (T a1) (D a2)) (mul K (D a1) (T a2))))
  | EqMinProd a1 a2 res =>                                       (* 2199 *)
      upd D res (sub K (D res)
                     (add K (mul K (T a1) (D a2)) (mul K (D a1) (T a2))))
  | MultDA arg res c => upd D res (mul K (D arg) c)              (* 2250 *)
  | DivAA a1 a2 res =>                                           (* 2267, 2307 *)
      let divs := dvd K (one K) (T a2) in
      upd D res (add K (mul K (D a1) divs)
                       (mul K (T' res) (mul K (neg K (D a2)) divs)))
  | DivDA arg res c =>                                           (* 2335, 2371 *)
      let divs := dvd K (one K) (T arg) in
      upd D res (mul K (T' res) (mul K (neg K (D arg)) divs))
  | PosSign arg res => upd D res (D arg)                         (* 2413 *)
  | NegSign arg res => upd D res (neg K (D arg))                 (* 2444 *)
  | ExpOp arg res => upd D res (mul K (T' res) (D arg))          (* 2495 *)
  | SinOp a1 a2 res =>                                           (* 2562-2563 *)
      let D1 := upd D a2 (mul K (neg K (T' res)) (D a1)) in
      upd D1 res (mul K (T' a2) (D1 a1))
  | CosOp a1 a2 res =>                                           (* 2635-2636 *)
      let D1 := upd D a2 (mul K (T' res) (D a1)) in
      upd D1 res (mul K (neg K (T' a2)) (D1 a1))
  | HelpOp f a1 a2 res =>
      match help_special f (T' a1) (D a1) with
      | Some r0 => upd D res r0
      | None => upd D res (mul K (T' a2) (D a1))    (* 2700 2800 2900 2961 3046
                                                       3153 3211 3269 *)
      end
  | LogOp arg res =>                                             (* 3317-3331 *)
      let divs := if eqb K (T arg) (zero K) && lt0 (D arg)
                  then vnan K else dvd K (one K) (T arg) in
      upd D res (mul K (D arg) divs)
  | PowOp arg res c =>                                           (* 3399-3487 *)
      if eqb K (T arg) (zero K) then
        if leb K c (zero K) then upd D res (vnan K)
        else if negb (eqb K (sub K c (vfloor K (if eqb K c (zero K) then zero K
                                                else one K))) (zero K)) then
          (* 3404: "coval - floor(coval != 0.0) != 0" *)
          if ltb K (one K) c then upd D res (zero K)
          else if ltb K c (one K) && gt0 c then upd D res (vinf K)
          else if lt0 c then upd D res (vnan K) else D
        else if eqb K c (one K) then upd D res (D arg)           (* 3416 *)
        else D                           (* 3423-3460, empty for k = 1 *)
      else
        let r0 := dvd K (one K) (T arg) in
        upd D res (mul K (mul K (mul K (T' res) (D arg)) c) r0)  (* 3473 *)
  | SqrtOp arg res =>
      upd D res (mul K (root_factor (T' arg) (D arg)
                          (dvd K (half K) (T' res))) (D arg))    (* 3527-3554 *)
  | CbrtOp arg res =>
      upd D res (mul K (root_factor (T' arg) (D arg)
                          (dvd K (one K) (mul K (mul K (three K) (T' res))
                                                (T' res)))) (D arg))
                                                                 (* 3609-3633 *)
  | GenQuad a1 a2 res _ _ => upd D res (mul K (T' a2) (D a1))    (* 3695 *)
  | MinOp a1 a2 res _ =>                                         (* 3825-3857 *)
      upd D res
        (if ltb K (T a2) (T a1) then D a2
         else if ltb K (T a1) (T a2) then D a1
         else if ltb K (D a2) (D a1) then D a2 else D a1)
  | AbsVal arg res _ =>                                          (* 3970-3982 *)
      let x0 := if eqb K (T arg) (zero K) then zero K
                else if lt0 (T arg) then neg K (one K) else one K in
      let x1 := if eqb K x0 (zero K) && negb (eqb K (D arg) (zero K))
                then (if lt0 (D arg) then neg K (one K) else one K)
                else x0 in
      upd D res (mul K x1 (D arg))
  | CeilOp _ res _ | FloorOp _ res _ => upd D res (zero K)       (* 4028, 4066 *)
  | CondAssign arg a1 a2 res _ =>                                (* 4166-4169 *)
      upd D res (if ltb K (zero K) (T arg) then D a1 else D a2)
  | CondEqAssign arg a1 a2 res _ =>                              (* 4271-4274 *)
      upd D res (if leb K (zero K) (T arg) then D a1 else D a2)
  | CondAssignS arg a1 res _ =>                                  (* 4339-4340 *)
      if ltb K (zero K) (T arg) then upd D res (D a1) else D
  | CondEqAssignS arg a1 res _ =>                                (* 4399-4400 *)
      if leb K (zero K) (T arg) then upd D res (D a1) else D
  | SetRef _ _ => D
  | VecCopy arg size res => tcopy size arg res 0 D               (* 4967-4988 *)
  | VecDot a1 a2 size res =>                                     (* 4999-5077 *)
      tdot size a1 a2 res 0 (upd T res (zero K)) (upd D res (zero K))
  | VecAxpy arg a1 a2 size res => taxpy size arg a1 a2 res 0 T D (* 5087-5146 *)
  | TakeStock size res _ => tzero size res D                     (* 5476-5492 *)
  end.

Definition tout_of (b : bop) (D : mem) : list val :=
  match b with AssignDep res => [D res] | _ => [] end.           (* 1656 *)

Record tstate := mkT {
  tF : fstate;            (* values *)
  tD : mem;               (* dp_T *)
  tyd : list val          (* taylors[0 .. indexd-1] *)
}.

(* One pass of the loop of fos_forward. The value part is that of zos_forward
   (the _FOS_ build executes the same dp_T0 statements). The extra MINDEC of
   abs_val (3973-3979) concerns the code only and is left out of tF. *)
Definition tstep (ps x xd : nat -> val) (o : op) (s : tstate)
  : tstate + option tstate :=
  let f := tF s in
  let b := resolve (fT f) o in
  match zstep ps x o f with
  | inl f' => inl (mkT f' (tval ps x xd (fi f) b (fT f) (tD s))
                       (tyd s ++ tout_of b (tD s)))
  | inr (Done f') => inr (Some (mkT f' (tD s) (tyd s)))
  | inr Failed => inr None
  end.

Fixpoint trun (ps x xd : nat -> val) (t : list op) (s : tstate)
  : option tstate :=
  match t with
  | [] => Some s
  | o :: t' =>
      match tstep ps x xd o s with
      | inl s' => trun ps x xd t' s'
      | inr r => r
      end
  end.

(* uni5_for.cpp (_FOS_): dp_T0 and dp_T are malloc'ed and not initialised. *)
Definition fos_forward (ps x xd : nat -> val) (g gd : mem) (t : list op)
  : option tstate :=
  trun ps x xd t (mkT (mkF g 0 [] 3%Z []) gd []).

(* --------------------------------------------------------------- *)
(* fos_reverse                                                       *)

Record rstate := mkR {
  rT : mem;               (* rp_T *)
  rA : mem;               (* rp_A *)
  rk : list val;          (* Taylor stack, top first *)
  rz : nat -> val;        (* results[] *)
  rii : nat;              (* indexi + 1 *)
  rid : nat               (* indexd + 1 *)
}.

Definition pop (k : list val) : val * list val :=
  match k with [] => (zero K, []) | v :: k' => (v, k') end.

(* rp_T[res] = tape.get_taylor() *)
Definition restore (res : nat) (T : mem) (k : list val) : mem * list val :=
  let (v, k') := pop k in (upd T res v, k').

(* for (j = arg1; j <= arg2; j++) rp_T[j] = tape.get_taylor(), 2625-2626 *)
Fixpoint restore_up (n j : nat) (T : mem) (k : list val) : mem * list val :=
  match n with
  | 0 => (T, k)
  | S n' => let (T', k') := restore j T k in restore_up n' (S j) T' k'
  end.

(* revreal aTmp = *Ares; ARES = 0; AARG += f(aTmp), the common pattern *)
Definition adj1 (A : mem) (res arg : nat) (f : val -> val) : mem :=
  let a := A res in
  let A1 := upd A res (zero K) in
  upd A1 arg (add K (A1 arg) (f a)).

(* vec_copy 2326-2344: adjoint and value of each element in turn *)
Fixpoint rcopy (n arg res q : nat) (T A : mem) (k : list val)
  : mem * mem * list val :=
  match n with
  | 0 => (T, A, k)
  | S n' =>
      let A1 := upd A (arg + q) (add K (A (arg + q)) (A (res + q))) in
      let A2 := upd A1 (res + q) (zero K) in
      let (T', k') := restore (res + q) T k in
      rcopy n' arg res (S q) T' A2 k'
  end.
(* vec_dot 2353-2368: the adjoint of the result is not reset *)
Fixpoint rdot (n a1 a2 res q : nat) (T A : mem) : mem :=
  match n with
  | 0 => A
  | S n' =>
      let A1 := upd A (a2 + q) (add K (A (a2 + q)) (mul K (A res) (T (a1 + q)))) in
      let A2 := upd A1 (a1 + q)
                  (add K (A1 (a1 + q)) (mul K (A1 res) (T (a2 + q)))) in
      rdot n' a1 a2 res (S q) T A2
  end.
(* vec_axpy 2380-2402: the adjoints of the results are not reset *)
Fixpoint raxpy (n arg a1 a2 res q : nat) (T A : mem) (k : list val)
  : mem * mem * list val :=
  match n with
  | 0 => (T, A, k)
  | S n' =>
      let A1 := upd A (a2 + q) (add K (A (a2 + q)) (A (res + q))) in
      let A2 := upd A1 (a1 + q)
                  (add K (A1 (a1 + q)) (mul K (A1 (res + q)) (T arg))) in
      let A3 := upd A2 arg
                  (add K (A2 arg) (mul K (A2 (res + q)) (T (a1 + q)))) in
      let (T', k') := restore (res + q) T k in
      raxpy n' arg a1 a2 res (S q) T' A3 k'
  end.

(* Conditional assignment 1774-1806 etc.: if (res != arg1) { AARG1 += ARES;
   ARES = 0 } *)
Definition adjc (A : mem) (res arg : nat) : mem :=
  if Nat.eqb res arg then A
  else upd (upd A arg (add K (A arg) (A res))) res (zero K).

(* rp_T / rp_A / Taylor stack after one operation; fo_rev.cpp:587-2627 (_FOS_).
   Not for assign_ind / assign_dep, whose extra effects are in rstep. *)
Definition rval (b : bop) (T A : mem) (k : list val) : mem * mem * list val :=
  let after A' res := let (T', k') := restore res T k in (T', A', k') in
  match b with
  | Cmp _ _ => (T, A, k)                                         (* 587-611 *)
  | AssignA arg res =>                                           (* 618-638 *)
      after (upd (upd A arg (add K (A arg) (A res))) res (zero K)) res
  | AssignD res _ | AssignP _ res | AssignD0 res | AssignD1 res =>
      after (upd A res (zero K)) res                             (* 642-700 *)
  | AssignInd res => after A res                                 (* 704-730 *)
  | AssignDep res => (T, A, k)                                   (* 734-743 *)
  | EqPlusD res _ | EqMinD res _ | Incr res | Decr res => after A res
                                                      (* 751-757 783 859-864 *)
  | EqPlusA arg res => after (upd A arg (add K (A arg) (A res))) res  (* 774 *)
  | EqMinA arg res => after (upd A arg (sub K (A arg) (A res))) res   (* 806 *)
  | EqMultD res c => after (upd A res (mul K (A res) c)) res     (* 825 *)
  | EqMultA arg res =>                                           (* 840-853 *)
      let (T', k') := restore res T k in
      let a := A res in
      let A1 := upd A res (mul K a (T' arg)) in
      (T', upd A1 arg (add K (A1 arg) (mul K a (T' res))), k')
  | PlusAA a1 a2 res =>                                          (* 889-892 *)
      let a := A res in
      let A1 := adj1 A res a1 (fun a => a) in
      after (upd A1 a2 (add K (A1 a2) a)) res
  | PlusDA arg res _ => after (adj1 A res arg (fun a => a)) res  (* 919-921 *)
  | MinAA a1 a2 res =>                                           (* 948-951 *)
      let a := A res in
      let A1 := adj1 A res a1 (fun a => a) in
      after (upd A1 a2 (sub K (A1 a2) a)) res
  | MinDA arg res _ =>                                           (* 978-980 *)
      let a := A res in
      let A1 := upd A res (zero K) in
      after (upd A1 arg (sub K (A1 arg) a)) res
  | MultAA a1 a2 res =>                                          (* 996-1013 *)
      let (T', k') := restore res T k in
      let a := A res in
      let A1 := upd A res (zero K) in
      let A2 := upd A1 a2 (add K (A1 a2) (mul K a (T' a1))) in
      (T', upd A2 a1 (add K (A2 a1) (mul K a (T' a2))), k')
  | EqPlusProd a1 a2 res =>                                      (* 1032-1041 *)
      let T' := upd T res (sub K (T res) (mul K (T a1) (T a2))) in
      let A1 := upd A a2 (add K (A a2) (mul K (A res) (T' a1))) in
      (T', upd A1 a1 (add K (A1 a1) (mul K (A1 res) (T' a2))), k)
  | EqMinProd a1 a2 res =>                                       (* 1060-1069 *)
      let T' := upd T res (add K (T res) (mul K (T a1) (T a2))) in
      let A1 := upd A a2 (sub K (A a2) (mul K (A res) (T' a1))) in
      (T', upd A1 a1 (sub K (A1 a1) (mul K (A1 res) (T' a2))), k)
  | MultDA arg res c => after (adj1 A res arg (fun a => mul K c a)) res
                                                                 (* 1092-1094 *)
  | DivAA a1 a2 res =>                                           (* 1117-1133 *)
      let (T', k') := restore res T k in
      let r0 := dvd K (one K) (T' a2) in
      let r_0 := mul K (neg K (T res)) r0 in
      let a := A res in
      let A1 := adj1 A res a1 (fun a => mul K a r0) in
      (T', upd A1 a2 (add K (A1 a2) (mul K a r_0)), k')
  | DivDA arg res _ =>                                           (* 1153-1173 *)
      if Nat.eqb arg res then
        let (T', k') := restore res T k in
        let r0 := dvd K (neg K (T res)) (T' arg) in
        (T', adj1 A res arg (fun a => mul K a r0), k')
      else
        let r0 := dvd K (neg K (T res)) (T arg) in
        after (adj1 A res arg (fun a => mul K a r0)) res
  | PosSign arg res => after (adj1 A res arg (fun a => a)) res   (* 1195-1197 *)
  | NegSign arg res =>                                           (* 1220-1222 *)
      let a := A res in
      let A1 := upd A res (zero K) in
      after (upd A1 arg (sub K (A1 arg) a)) res
  | ExpOp arg res => after (adj1 A res arg (fun a => mul K a (T res))) res
                                                                 (* 1249-1251 *)
  | SinOp a1 a2 res =>                                           (* 1275-1283 *)
      let A' := adj1 A res a1 (fun a => mul K a (T a2)) in
      let (T1, k1) := restore res T k in
      let (T2, k2) := restore a2 T1 k1 in (T2, A', k2)
  | CosOp a1 a2 res =>                                           (* 1303-1311 *)
      let a := A res in
      let A1 := upd A res (zero K) in
      let A' := upd A1 a1 (sub K (A1 a1) (mul K a (T a2))) in
      let (T1, k1) := restore res T k in
      let (T2, k2) := restore a2 T1 k1 in (T2, A', k2)
  | HelpOp _ a1 a2 res =>                                        (* 1330-1344 *)
      let (T', k') := restore res T k in
      (T', adj1 A res a1 (fun a => mul K a (T' a2)), k')
  | LogOp arg res =>                                             (* 1356-1374 *)
      let (T', k') := restore res T k in
      let r0 := dvd K (one K) (T' arg) in
      (T', adj1 A res arg (fun a => mul K a r0), k')
  | PowOp arg res c =>                                           (* 1393-1416 *)
      let fac v := if eqb K v (zero K) then zero K
                   else mul K (T res) (dvd K c v) in
      if Nat.eqb arg res then
        let (T', k') := restore res T k in
        (T', adj1 A res arg (fun a => mul K a (fac (T' arg))), k')
      else after (adj1 A res arg (fun a => mul K a (fac (T arg)))) res
  | SqrtOp arg res =>                                            (* 1430-1448 *)
      let r0 := if eqb K (T res) (zero K) then zero K
                else dvd K (half K) (T res) in
      after (adj1 A res arg (fun a => mul K a r0)) res
  | CbrtOp arg res =>                                            (* 1462-1480 *)
      let r0 := if eqb K (T res) (zero K) then zero K
                else dvd K (one K) (mul K (mul K (three K) (T res)) (T res)) in
      after (adj1 A res arg (fun a => mul K a r0)) res
  | GenQuad a1 a2 res _ _ =>                                     (* 1503-1510 *)
      after (adj1 A res a1 (fun a => mul K a (T a2))) res
  | MinOp a1 a2 res _ =>                                         (* 1522-1582 *)
      let (T', k') := restore res T k in
      let a := A res in
      let A' :=
        if ltb K (T' a2) (T' a1) then adj1 A res a2 (fun a => a)
        else if ltb K (T' a1) (T' a2) then adj1 A res a1 (fun a => a)
        else
          let A1 := adj1 A res a2 (fun a => dvd K a (two K)) in
          upd A1 a1 (add K (A1 a1) (dvd K a (two K))) in
      (T', A', k')
  | AbsVal arg res _ =>                                          (* 1600-1682 *)
      let (T', k') := restore res T k in
      let a := A res in
      let A1 := upd A res (zero K) in
      let A' :=
        if ltb K (T' arg) (zero K) then upd A1 arg (sub K (A1 arg) a)
        else if ltb K (zero K) (T' arg) then upd A1 arg (add K (A1 arg) a)
        else A1 in
      (T', A', k')
  | CeilOp arg res _ | FloorOp arg res _ =>                      (* 1700-1749 *)
      after (upd A res (zero K)) res
  | CondAssign arg a1 a2 res _ =>                                (* 1765-1806 *)
      let (T', k') := restore res T k in
      (T', adjc A res (if ltb K (zero K) (T' arg) then a1 else a2), k')
  | CondEqAssign arg a1 a2 res _ =>                              (* 1829-1870 *)
      let (T', k') := restore res T k in
      (T', adjc A res (if leb K (zero K) (T' arg) then a1 else a2), k')
  | CondAssignS arg a1 res _ =>                                  (* 1893-1918 *)
      let (T', k') := restore res T k in
      (T', (if ltb K (zero K) (T' arg) then adjc A res a1 else A), k')
  | CondEqAssignS arg a1 res _ =>                                (* 1935-1959 *)
      let (T', k') := restore res T k in
      (T', (if leb K (zero K) (T' arg) then adjc A res a1 else A), k')
  | SetRef res _ => after A res                                  (* 2070 *)
  | VecCopy arg size res => rcopy size arg res 0 T A k           (* 2322-2344 *)
  | VecDot a1 a2 size res =>                                     (* 2348-2370 *)
      after (rdot size a1 a2 res 0 T A) res
  | VecAxpy arg a1 a2 size res => raxpy size arg a1 a2 res 0 T A k
                                                                 (* 2374-2402 *)
  | TakeStock size res _ => (T, tzero size res A, k)             (* 2604-2611 *)
  | DeathNot a1 a2 =>                                            (* 2619-2626 *)
      let (T', k') := restore_up (S a2 - a1) a1 T k in
      (T', tzero (S a2 - a1) a1 A, k')
  end.

(* One pass of the loop of fos_reverse.  u = lagrange. 721-730, 742-743.
   nestedReverseEval() is false for a user call. *)
Definition rstep (u : nat -> val) (o : op) (s : rstate) : rstate :=
  let b := resolve (rT s) o in
  let '(T', A', k') := rval b (rT s) (rA s) (rk s) in
  match b with
  | AssignInd res =>
      mkR T' A' k' (upd (rz s) (rii s - 1) (rA s res)) (rii s - 1) (rid s)
  | AssignDep res =>
      mkR T' (upd A' res (u (rid s - 1))) k' (rz s) (rii s) (rid s - 1)
  | _ => mkR T' A' k' (rz s) (rii s) (rid s)
  end.

Definition rrun (u : nat -> val) (t : list op) (s : rstate) : rstate :=
  fold_left (fun s o => rstep u o s) (rev t) s.

(* fo_rev.cpp (_FOS_): indexi = indep - 1, indexd = depen - 1; rp_A and rp_T are
   malloc'ed and not initialised (their contents gA, gT are arbitrary). *)
Definition fos_reverse (u : nat -> val) (n m : nat) (gT gA : mem)
  (gz : nat -> val) (k : list val) (t : list op) : rstate :=
  rrun u t (mkR gT gA k gz n m).

End Model.
