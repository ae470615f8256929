(* Model of the counters of a trace and of the checks they are used for.

   Modelled code:
     ADOL-C/src/adouble.cpp, advector.cpp, pdouble.cpp   increment_numInds, increment_numDeps,
         increment_num_eq_prod, add_num_eq_prod, increment_numSwitches, *_numTays_Tape
     ADOL-C/include/adolc/valuetape/valuetape.h:234-267  the counters
     ADOL-C/src/valuetape/valuetape.cpp   initTapeInfos_keep (19-54), initNewTape (58-87),
         openTape (91-111), keep_stock (153-173), start_trace (294-321), stop_trace (361-387),
         end_sweep (607-612)
     ADOL-C/src/tape_interface.cpp        trace_on (39-60), trace_off (91-109)
     ADOL-C/src/uni5_for.cpp:1095-1107, fo_rev.cpp:451-463   checks of the sweeps
   Not modelled here: the streams of the tape (TapeModel), the Taylor file (TayModel; after
   a recording with keep stop_trace corrects the doubled count, 379-383), the second overload
   of trace_on (MgrModel), tapes read back from files. *)
Require Import List ZArith Bool Arith Lia.
Require Import Verif.AdModel Verif.AdRecord.
Import ListNotations.
Set Implicit Arguments.

Section Stat.
Variable K : Arith.
Notation val := (V K).
Notation mem := (mem K).
Notation bop := (bop K).
Notation op := (op K).

(* tapeInfos_: numInds, numDeps, num_eq_prod, numSwitches, tayBuffer_.numOnTape *)
Record ctr := mkC { cInds : nat; cDeps : nat; cProds : nat; cSw : nat; cTays : nat }.
Definition zero_ctr : ctr := mkC 0 0 0 0 0.
Definition add_inds (n : nat) (c : ctr) := mkC (cInds c + n) (cDeps c) (cProds c) (cSw c) (cTays c).
Definition add_deps (n : nat) (c : ctr) := mkC (cInds c) (cDeps c + n) (cProds c) (cSw c) (cTays c).
Definition add_prods (n : nat) (c : ctr) := mkC (cInds c) (cDeps c) (cProds c + n) (cSw c) (cTays c).
Definition add_sw (n : nat) (c : ctr) := mkC (cInds c) (cDeps c) (cProds c) (cSw c + n) (cTays c).
Definition add_tays (n : nat) (c : ctr) := mkC (cInds c) (cDeps c) (cProds c) (cSw c) (cTays c + n).

(* valuetape.h:251: adds to numDeps *)
Definition add_num_eq_prod (n : nat) (c : ctr) : ctr := add_deps n c.

(* What the function that puts an operation on the tape does to the counters.
   nmm: no_min_max(). *)
Definition count_op (nmm : bool) (o : op) (c : ctr) : ctr :=
  match o with
  | Plain b =>
    match b with
    | Cmp _ _ _ | TakeStock _ _ _ _ => c            (* adouble.cpp:1290-1448, valuetape.cpp:115-146 *)
    | AssignInd _ _ => add_tays 1 (add_inds 1 c)    (* 780-784, 838-843 *)
    | AssignDep _ _ => add_deps 1 c                 (* 825, 877 *)
    | EqPlusProd _ _ _ _ | EqMinProd _ _ _ _ =>     (* 320-321, 464-465: the value counted for
                                                       the product (2121) is taken back *)
        add_prods 1 c
    | AbsVal _ _ _ _ =>                             (* 4562-4565, 4617-4620 *)
        if nmm then add_sw 1 (add_tays 1 c) else add_tays 1 c
    | SinOp _ _ _ _ | CosOp _ _ _ _ => add_tays 2 c (* 3173, 3252, 3334, 3416 *)
    | VecCopy _ _ n _ => add_tays n c               (* 5572 *)
    | VecDot _ _ _ n _ => add_tays 1 (add_num_eq_prod (2 * n) c)         (* 5601-5602 *)
    | VecAxpy _ _ _ _ n _ => add_tays n (add_num_eq_prod (2 * n - 1) c)  (* 5635-5638 *)
    | DeathNot _ a1 a2 => add_tays (S a2 - a1) c    (* valuetape.cpp:165; a1 = 0 *)
    | _ => add_tays 1 c
    end
  | RefAssignInd _ _ => add_tays 1 (add_inds 1 c)   (* advector.cpp:313-317, 332-336 *)
  | _ => add_tays 1 c
  end.
Definition counts (nmm : bool) (t : list op) (c : ctr) : ctr :=
  fold_left (fun c o => count_op nmm o c) t c.

(* ---------------------------------------------------------------- *)
(* A tape and the calls that use it                                   *)

Inductive wmode := NoMode | ReadAccess | WriteAccess.
Record tape := mkTp {
  tmode : wmode;           (* workMode *)
  tcode : list op;         (* the operations of the trace *)
  tcnt  : ctr;             (* counters *)
  tstat : ctr;             (* stats[NUM_INDEPENDENTS], ... of the last trace_off *)
  tnmm  : bool             (* stats[NO_MIN_MAX] *)
}.
Definition fresh (nmm : bool) : tape := mkTp NoMode [] zero_ctr zero_ctr nmm.

Inductive cmd :=
| TraceOn                       (* trace_on(tag, keep) *)
| Record_op (o : op)            (* any overloaded operation *)
| TraceOff (last : nat)         (* trace_off(); last = storeSize() - 1 *)
| Sweep (n m : nat).            (* a forward or reverse sweep called with n, m *)

(* false: ADOLCError::fail - an exception leaves the call where it stands *)
Definition step (c : cmd) (s : tape) : tape * bool :=
  match c with
  | TraceOn =>
      match tmode s with
      | NoMode => (mkTp WriteAccess [] zero_ctr (tstat s) (tnmm s), true)   (* 63-79, 294-321 *)
      | _ => (s, false)                                                     (* 63-66 *)
      end
  | Record_op o =>
      match tmode s with
      | WriteAccess => (mkTp WriteAccess (tcode s ++ [o]) (count_op (tnmm s) o (tcnt s)) (tstat s) (tnmm s), true)
      | _ => (s, true)
      end
  | TraceOff last =>
      match tmode s with
      | WriteAccess =>
          let d := Plain (DeathNot K 0 last) in
          let c := count_op (tnmm s) d (tcnt s) in
          (mkTp NoMode (tcode s ++ [d]) c c (tnmm s), true)                 (* 365-369 *)
      | _ => (s, false)
      end
  | Sweep n m =>
      match tmode s with
      | WriteAccess => (s, false)                                           (* openTape 95-98 *)
      | _ =>
          if Nat.eqb m (cDeps (tstat s)) && Nat.eqb n (cInds (tstat s))     (* uni5_for.cpp:1098 *)
          then (mkTp NoMode (tcode s) (tcnt s) (tstat s) (tnmm s), true)    (* end_sweep *)
          else (mkTp ReadAccess (tcode s) (tcnt s) (tstat s) (tnmm s), false)
      end
  end.

Fixpoint exec (h : list cmd) (s : tape) : tape * list bool :=
  match h with
  | [] => (s, [])
  | c :: h' => let (s1, b) := step c s in let (s2, bs) := exec h' s1 in (s2, b :: bs)
  end.
End Stat.
