(* Model of the bit pattern propagation of Jacobian sparsity patterns.

   Modelled code:
     include/adolc/sparse/sparsedrivers.h:36-575
         BvpData, resetInput, prepareSeedMatrix, setSeed, createSeed,
         extractCompressedRowStorage, prepareADCalls, ADCalls,
         bitVectorPropagation, bit_vector_propagation, jac_pat (BitPattern)
     src/sparse/sparsedrivers.cpp:32-91  (both versions of extract)
     src/uni5_for.cpp with _INT_FOR_: int_forward_safe (_NTIGHT_),
         int_forward_tight (_TIGHT_)
     src/fo_rev.cpp with _INT_REV_: int_reverse_safe (_NTIGHT_),
         int_reverse_tight (_TIGHT_)

   The operations are those of AdModel.v.  A row of words is a function of the
   word number; only the words below wordsPerBatch exist and are looked at.
   bitword_t has wb bits: 32 as the library is configured (CMakeLists.txt:188,
   common.h:32-37), 64 if ADOLC_BITWORD_BITS is set so; the rows of the sweeps are
   size_t, so nothing is cut off.  myalloc2_ulong uses calloc
   (adalloc.cpp:226-228), so all rows start at zero.
   Not modelled: the return code of a sweep that is not aborted, the deletion of
   the rows an extraction replaces, and the contents of the pattern after a sweep
   that was aborted by a comparison (BvCode). *)
Require Import List ZArith NArith Bool Arith Lia.
Require Import Verif.AdModel.
Import ListNotations.
Set Implicit Arguments.

(* ------------------------------------------------------------------ *)
(* One operation.  W: what a location carries (a row of words); wor: word by
   word |.                                                              *)
Section Pat.
Variable W : Type.
Variable wz : W.
Variable wor : W -> W -> W.

Definition pats := nat -> W.
Definition pset (P : pats) (l : nat) (r : W) : pats :=
  fun j => if Nat.eqb j l then r else P j.

(* vec_copy, uni5_for.cpp:4985 *)
Fixpoint pcopy (n arg res q : nat) (P : pats) : pats :=
  match n with
  | 0 => P
  | S n' => pcopy n' arg res (S q) (pset P (res + q) (P (arg + q)))
  end.
(* vec_dot, 5053 *)
Fixpoint pdot (n a1 a2 res q : nat) (P : pats) : pats :=
  match n with
  | 0 => P
  | S n' => pdot n' a1 a2 res (S q)
              (pset P res (wor (P res) (wor (P (a1 + q)) (P (a2 + q)))))
  end.
(* vec_axpy, 5123 *)
Fixpoint paxpy (n arg a1 a2 res q : nat) (P : pats) : pats :=
  match n with
  | 0 => P
  | S n' => paxpy n' arg a1 a2 res (S q)
              (pset P (res + q)
                 (wor (P (a2 + q)) (wor (P (a1 + q)) (P arg))))
  end.
(* take_stock_op 5484; fo_rev.cpp:2605-2611, 2619-2622 *)
Fixpoint pzero (n res : nat) (P : pats) : pats :=
  match n with 0 => P | S n' => pzero n' (S res) (pset P res wz) end.

(* fo_rev.cpp:2326-2339 *)
Fixpoint qcopy (n arg res q : nat) (A : pats) : pats :=
  match n with
  | 0 => A
  | S n' =>
      let A1 := pset A (arg + q) (wor (A (arg + q)) (A (res + q))) in
      qcopy n' arg res (S q) (pset A1 (res + q) wz)
  end.
(* 2353-2368 *)
Fixpoint qdot (n a1 a2 res q : nat) (A : pats) : pats :=
  match n with
  | 0 => A
  | S n' =>
      let A1 := pset A (a2 + q) (wor (A (a2 + q)) (A res)) in
      qdot n' a1 a2 res (S q) (pset A1 (a1 + q) (wor (A1 (a1 + q)) (A1 res)))
  end.
(* 2380-2402 *)
Fixpoint qaxpy (n arg a1 a2 res q : nat) (A : pats) : pats :=
  match n with
  | 0 => A
  | S n' =>
      let A1 := pset A arg (wor (A arg) (A (res + q))) in
      let A2 := pset A1 (a2 + q) (wor (A1 (a2 + q)) (A1 (res + q))) in
      qaxpy n' arg a1 a2 res (S q)
            (pset A2 (a1 + q) (wor (A2 (a1 + q)) (A2 (res + q))))
  end.

Variable K : Arith.
Notation mem := (mem K).
Notation bop := (bop K).

(* The two operations of the safe forward sweep that are not word by word
   copies or |:
     wmin r a b   row of the result of fmin, r its old row
     wcs r a      row of the result of a short conditional assignment *)
Variable wmin : W -> W -> W -> W.
Variable wcs : W -> W -> W.

(* int_forward_safe, one operation; seed = argument[indexi].
   Line numbers of uni5_for.cpp. *)
Definition fsafe (seed : W) (b : bop) (P : pats) : pats :=
  match b with
  | Cmp _ _ _ | AssignDep _ _ | DeathNot _ _ _ | SetRef _ _ _ => P
  | EqPlusD _ _ _ | EqMinD _ _ _ | EqMultD _ _ _ | Incr _ _ | Decr _ _ => P
  | AssignA _ arg res => pset P res (P arg)                      (* 1453 *)
  | AssignD _ res _ | AssignP _ _ res | AssignD0 _ res | AssignD1 _ res =>
      pset P res wz                                      (* 1487 1521 1551 1581 *)
  | AssignInd _ res => pset P res seed                           (* 1614 *)
  | EqPlusA _ arg res | EqMinA _ arg res | EqMultA _ arg res =>
      pset P res (wor (P res) (P arg))                   (* 1715 1767 1835 *)
  | PlusAA _ a1 a2 res | MinAA _ a1 a2 res | MultAA _ a1 a2 res
  | DivAA _ a1 a2 res => pset P res (wor (P a1) (P a2))  (* 1912 1983 2060 2298 *)
  | EqPlusProd _ a1 a2 res | EqMinProd _ a1 a2 res =>
      pset P res (wor (P res) (wor (P a1) (P a2)))               (* 2127 2193 *)
  | PlusDA _ arg res _ | MinDA _ arg res _ | MultDA _ arg res _
  | DivDA _ arg res _ | PosSign _ arg res | NegSign _ arg res
  | ExpOp _ arg res | LogOp _ arg res | PowOp _ arg res _ | SqrtOp _ arg res
  | CbrtOp _ arg res | AbsVal _ arg res _ => pset P res (P arg)
  | SinOp _ a1 a2 res | CosOp _ a1 a2 res =>                     (* 2549 2622 *)
      let P1 := pset P a2 (P a1) in pset P1 res (P1 a1)
  | HelpOp _ _ a1 _ res => pset P res (P a1)
  | GenQuad _ a1 _ res _ _ => pset P res (P a1)                  (* 3683 *)
  | MinOp _ a1 a2 res _ => pset P res (wmin (P res) (P a1) (P a2))    (* 3822 *)
  | CeilOp _ _ res _ | FloorOp _ _ res _ => pset P res wz        (* 4028 4066 *)
  | CondAssign _ _ a1 a2 res _ | CondEqAssign _ _ a1 a2 res _ =>
      pset P res (wor (P a1) (P a2))                             (* 4162 4267 *)
  | CondAssignS _ _ a1 res _ | CondEqAssignS _ _ a1 res _ =>
      pset P res (wcs (P res) (P a1))                            (* 4327 4388 *)
  | VecCopy _ arg n res => pcopy n arg res 0 P
  | VecDot _ a1 a2 n res => pdot n a1 a2 res 0 (pset P res wz)   (* 5015 *)
  | VecAxpy _ arg a1 a2 n res => paxpy n arg a1 a2 res 0 P
  | TakeStock _ n res _ => pzero n res P
  end.

(* Tight: the row fmin has at a tie. *)
Variable wtie : W -> W -> W.

(* int_forward_tight, one operation; T = dp_T0 before it. *)
Definition ftight (seed : W) (b : bop) (T : mem) (P : pats) : pats :=
  match b with
  | MinOp _ a1 a2 res _ =>                                       (* 3791-3817 *)
      pset P res (if ltb K (T a2) (T a1) then P a2
                  else if ltb K (T a1) (T a2) then P a1
                  else wtie (P a1) (P a2))
  | CondAssign _ arg a1 a2 res _ =>
      pset P res (P (if ltb K (zero K) (T arg) then a1 else a2))
  | CondEqAssign _ arg a1 a2 res _ =>
      pset P res (P (if leb K (zero K) (T arg) then a1 else a2))
  | CondAssignS _ arg a1 res _ =>
      if ltb K (zero K) (T arg) then pset P res (P a1) else P
  | CondEqAssignS _ arg a1 res _ =>
      if leb K (zero K) (T arg) then pset P res (P a1) else P
  | _ => fsafe seed b P
  end.

(* Reverse.  Line numbers of fo_rev.cpp. *)

(* aTmp = *Ares; ARES_INC = 0; AARG_INC |= aTmp *)
Definition qone (A : pats) (res arg : nat) : pats :=
  let A1 := pset A res wz in pset A1 arg (wor (A1 arg) (A res)).
(* ... AARG1_INC |= aTmp; AARG2_INC |= aTmp *)
Definition qtwo (A : pats) (res a1 a2 : nat) : pats :=
  let A1 := qone A res a1 in pset A1 a2 (wor (A1 a2) (A res)).
(* AARG_INC |= ARES_INC, the result keeps its row *)
Definition qadd (A : pats) (res arg : nat) : pats :=
  pset A arg (wor (A arg) (A res)).

(* wshort a r: row of arg1 after cond_assign_s, r the row of the result *)
Variable wshort : W -> W -> W.

(* int_reverse_safe, one operation; seed = lagrange[.][indexd]. *)
Definition qsafe (seed : W) (b : bop) (A : pats) : pats :=
  match b with
  | Cmp _ _ _ | AssignInd _ _ | SetRef _ _ _ => A
  | EqPlusD _ _ _ | EqMinD _ _ _ | EqMultD _ _ _ | Incr _ _ | Decr _ _ => A
  | AssignA _ arg res => pset (qadd A res arg) res wz            (* 626-627 *)
  | AssignD _ res _ | AssignP _ _ res | AssignD0 _ res | AssignD1 _ res =>
      pset A res wz                                              (* 642-700 *)
  | AssignDep _ res => pset A res seed                           (* 742 *)
  | EqPlusA _ arg res | EqMinA _ arg res | EqMultA _ arg res =>
      qadd A res arg                                             (* 772 804 842 *)
  | PlusAA _ a1 a2 res | MinAA _ a1 a2 res | MultAA _ a1 a2 res
  | DivAA _ a1 a2 res => qtwo A res a1 a2        (* 883-886 942-945 1003 1125 *)
  | EqPlusProd _ a1 a2 res | EqMinProd _ a1 a2 res =>            (* 1037 1065 *)
      qadd (qadd A res a2) res a1
  | PlusDA _ arg res _ | MinDA _ arg res _ | MultDA _ arg res _
  | DivDA _ arg res _ | PosSign _ arg res | NegSign _ arg res
  | ExpOp _ arg res | LogOp _ arg res | PowOp _ arg res _ | SqrtOp _ arg res
  | CbrtOp _ arg res | AbsVal _ arg res _ => qone A res arg
  | SinOp _ a1 _ res | CosOp _ a1 _ res | HelpOp _ _ a1 _ res
  | GenQuad _ a1 _ res _ _ => qone A res a1              (* 1269 1297 1336 1497 *)
  | MinOp _ a1 a2 res _ => qtwo A res a1 a2                      (* 1584-1589 *)
  | CeilOp _ _ res _ | FloorOp _ _ res _ => pset A res wz        (* 1715 1745 *)
  | CondAssign _ _ a1 a2 res _ | CondEqAssign _ _ a1 a2 res _ => (* 1808-1817 *)
      let A1 := if Nat.eqb res a1 then A else qadd A res a1 in
      let A2 := if Nat.eqb res a2 then A1 else qadd A1 res a2 in
      if Nat.eqb res a1 || Nat.eqb res a2 then A2 else pset A2 res wz
  | CondAssignS _ _ a1 res _ | CondEqAssignS _ _ a1 res _ =>     (* 1920-1924 *)
      if Nat.eqb res a1 then A
      else pset (pset A a1 (wshort (A a1) (A res))) res wz
  | VecCopy _ arg n res => qcopy n arg res 0 A
  | VecDot _ a1 a2 n res => qdot n a1 a2 res 0 A
  | VecAxpy _ arg a1 a2 n res => qaxpy n arg a1 a2 res 0 A
  | TakeStock _ n res _ => pzero n res A
  | DeathNot _ a1 a2 => pzero (S a2 - a1) a1 A
  end.

(* int_reverse_tight, one operation; T = rp_T with the value of the result
   restored (the values before the operation). *)
Definition qtight (seed : W) (b : bop) (T : mem) (A : pats) : pats :=
  match b with
  | MinOp _ a1 a2 res _ =>                                       (* 1522-1582 *)
      if ltb K (T a2) (T a1) then qone A res a2
      else if ltb K (T a1) (T a2) then qone A res a1
      else qtwo A res a2 a1
  | AbsVal _ arg res _ =>                                        (* 1637-1682 *)
      if ltb K (T arg) (zero K) || ltb K (zero K) (T arg) then qone A res arg
      else pset A res wz
  | CondAssign _ arg a1 a2 res _ =>                              (* 1774-1806 *)
      let a := if ltb K (zero K) (T arg) then a1 else a2 in
      if Nat.eqb res a then A else pset (qadd A res a) res wz
  | CondEqAssign _ arg a1 a2 res _ =>                            (* 1838-1870 *)
      let a := if leb K (zero K) (T arg) then a1 else a2 in
      if Nat.eqb res a then A else pset (qadd A res a) res wz
  | CondAssignS _ arg a1 res _ =>                                (* 1901-1918 *)
      if ltb K (zero K) (T arg)
      then if Nat.eqb res a1 then A else pset (qadd A res a1) res wz
      else A
  | CondEqAssignS _ arg a1 res _ =>                              (* 1943-1959 *)
      if leb K (zero K) (T arg)
      then if Nat.eqb res a1 then A else pset (qadd A res a1) res wz
      else A
  | _ => qsafe seed b A
  end.

(* ------------------------------------------------------------------ *)
(* Whole sweeps.                                                        *)

Inductive swres :=
| SwRows (rows : list W)       (* rows of the dependents, in order *)
| SwAbort (code : Z)           (* left with a negative return code *)
| SwFail                       (* ADOLCError::fail *)
| SwNot.                       (* not modelled *)

Definition prow (b : bop) (P : pats) : list W :=
  match b with AssignDep _ res => [P res] | _ => [] end.  (* 1652 *)

(* int_forward_safe; the advector operations end in ADOLCError::fail *)
Fixpoint fsrun (seed : nat -> W) (t : list (op K)) (i : nat) (P : pats)
  (rows : list W) : swres :=
  match t with
  | [] => SwRows rows
  | Plain b :: t' =>
      fsrun seed t' (if is_ind b then S i else i) (fsafe (seed i) b P)
            (rows ++ prow b P)
  | _ :: _ => SwFail
  end.

(* The conditional assignments of int_forward_tight read one constant more than
   was recorded (see LayModel.v): what follows is not modelled. *)
Definition is_cond (b : bop) : bool :=
  match b with
  | CondAssign _ _ _ _ _ _ | CondEqAssign _ _ _ _ _ _
  | CondAssignS _ _ _ _ _ | CondEqAssignS _ _ _ _ _ => true
  | _ => false
  end.

(* int_forward_tight; dp_T0 as in zos_forward *)
Fixpoint ftrun (ps x : nat -> V K) (seed : nat -> W) (t : list (op K))
  (i : nat) (T : mem) (P : pats) (rows : list W) : swres :=
  match t with
  | [] => SwRows rows
  | o :: t' =>
      if oob T o then SwFail else
      let b := resolve T o in
      if is_cond b then SwNot else
      match zabort b T with
      | Some c => SwAbort c
      | None => ftrun ps x seed t' (if is_ind b then S i else i)
                      (zval ps x i b T) (ftight (seed i) b T P)
                      (rows ++ prow b P)
      end
  end.

(* State of the reverse sweeps. *)
Record qstate := mkQ {
  qA : pats;               (* upp_A *)
  qz : nat -> W;           (* results[.][i], one row for each independent *)
  qi : nat;                (* indexi + 1 *)
  qd : nat                 (* indexd + 1 *)
}.

Definition qnext (b : bop) (A' : pats) (s : qstate) : qstate :=
  match b with
  | AssignInd _ res =>                                           (* 716, 730 *)
      mkQ A' (fun j => if Nat.eqb j (qi s - 1) then qA s res else qz s j)
          (qi s - 1) (qd s)
  | AssignDep _ res => mkQ A' (qz s) (qi s) (qd s - 1)           (* 742-743 *)
  | _ => mkQ A' (qz s) (qi s) (qd s)
  end.

(* int_reverse_safe; None: ADOLCError::fail (an advector operation) *)
Definition qsstep (seed : nat -> W) (o : op K) (s : qstate) : option qstate :=
  match o with
  | Plain b => Some (qnext b (qsafe (seed (qd s - 1)) b (qA s)) s)
  | _ => None
  end.
Fixpoint qsrun (seed : nat -> W) (t : list (op K)) (s : qstate)
  : option qstate :=            (* t in the order of recording *)
  match t with
  | [] => Some s
  | o :: t' =>
      match qsrun seed t' s with
      | Some s' => qsstep seed o s'
      | None => None
      end
  end.

(* int_reverse_tight: rp_T and the Taylor stack behave as in fos_reverse, but
   div_a_a does not take its value from the stack (1114-1120 are not compiled),
   div_d_a and pow_op only if arg != res (1172-1173, 1415-1416). *)
Definition skips (b : bop) : bool :=
  match b with
  | DivAA _ _ _ _ => true
  | DivDA _ arg res _ | PowOp _ arg res _ => Nat.eqb arg res
  | _ => false
  end.
Definition qtaylor (b : bop) (T : mem) (k : list (V K)) : mem * list (V K) :=
  if skips b then (T, k)
  else let '(T', _, k') := rval b T T k in (T', k').
Definition qtstep (seed : nat -> W) (o : op K)
  (s : qstate * mem * list (V K)) : qstate * mem * list (V K) :=
  let '(q, T, k) := s in
  let b := resolve T o in
  let (T', k') := qtaylor b T k in
  (qnext b (qtight (seed (qd q - 1)) b T' (qA q)) q, T', k').
Fixpoint qtrun (seed : nat -> W) (t : list (op K))
  (s : qstate * mem * list (V K)) : qstate * mem * list (V K) :=
  match t with
  | [] => s
  | o :: t' => qtstep seed o (qtrun seed t' s)
  end.

End Pat.
Arguments SwAbort {W}. Arguments SwFail {W}. Arguments SwNot {W}.

(* ------------------------------------------------------------------ *)
(* Rows of words.                                                       *)

Definition row := nat -> N.
Definition rzero : row := fun _ => 0%N.
Definition ror (a b : row) : row := fun w => N.lor (a w) (b w).
(* uni5_for.cpp:3822 TRES_INC = TARG1_INC | TARG2_INC, outside of any loop *)
Definition rmin (r a b : row) : row :=
  fun w => if Nat.eqb w 0 then N.lor (a w) (b w) else r w.
(* 4327, 4388: TRES_INC = TARG1_INC *)
Definition rcs (r a : row) : row := a.
(* 3799-3813: the numerically smaller word *)
Definition rtie (a b : row) : row :=
  fun w => if N.ltb (b w) (a w) then b w else a w.
(* fo_rev.cpp:1921-1924: AARG1 |= *Ares; ARES_INC = 0, p words *)
Definition rshort (p : nat) (a r : row) : row :=
  fun w => if Nat.eqb w 0
           then fold_left (fun v l => N.lor v (r l)) (seq 0 p) (a 0)
           else a w.

(* ------------------------------------------------------------------ *)
(* Drivers, sparsedrivers.h                                             *)

Section Words.
Variable wb : nat.                                 (* BITS_PER_WORD, 43 *)
Definition msb : N := N.shiftl 1 (N.of_nat (wb - 1)).            (* 44-45 *)
Definition stripmine_max : nat := 30.                            (* 36 *)

(* numWordsFullSeed, 103-107 *)
Definition words (n : nat) : nat :=
  n / wb + (if Nat.eqb (n mod wb) 0 then 0 else 1).
(* wordsPerBatch_ 109, bitsPerStrip_ 111, numStripmineBatches_ 112-116 *)
Definition words_per_batch (n : nat) : nat :=
  if Nat.leb (words n) stripmine_max then words n else stripmine_max.
Definition bits_per_strip (n : nat) : nat := words_per_batch n * wb.
Definition batches (n : nat) : nat :=
  if Nat.leb (words n) stripmine_max then 1
  else words n / stripmine_max
       + (if Nat.eqb (words n mod stripmine_max) 0 then 0 else 1).

(* resetOldSeed, createSeed 228-238 and setSeed 205-217: the row of variable idx
   in the seed matrix of strip s *)
Definition seed (n s idx : nat) : row :=
  let cur := s * bits_per_strip n in
  let nxt := S s * bits_per_strip n in
  let nxt := if Nat.ltb n nxt then n else nxt in
  if Nat.leb cur idx && Nat.ltb idx nxt then
    fun w => if Nat.eqb w ((idx - cur) / wb)
             then N.shiftr msb (N.of_nat ((idx - cur) mod wb))
             else 0%N
  else rzero.

(* compressedRowStorage: a null pointer or a row (row[0] is its length) *)
Definition crstore := nat -> option (list nat).
Definition cset (c : crstore) (k : nat) (r : list nat) : crstore :=
  fun j => if Nat.eqb j k then Some r else c j.

(* the loop 308-318: column numbers i, i+1, ... (todo of them) whose flag is set;
   idx, cb = currentBit *)
Fixpoint scan (todo i idx : nat) (cb : N) (r : row) : list nat :=
  match todo with
  | 0 => []
  | S todo' =>
      let (cb, idx) := if N.eqb cb 0 then (msb, S idx) else (cb, idx) in
      (if N.eqb (N.land cb (r idx)) 0 then [] else [i])
      ++ scan todo' (S i) idx (N.shiftr cb 1) r
  end.

(* extract, sparsedrivers.cpp:39-73; None: a null pointer is read *)
Definition extract_fwd (s cur k : nat) (nz : list nat) (c : crstore)
  : option crstore :=
  match nz with
  | [] => Some c
  | _ =>
      let new := map (fun i => cur + i) nz in
      if Nat.eqb s 0 then Some (cset c k new)
      else match c k with
           | Some old => Some (cset c k (old ++ new))
           | None => None
           end
  end.
(* extractCompressedRowStorage, forward, 305-322; wordIdx = k, k+1, ... *)
Fixpoint extract_rows (n s k : nat) (rows : list row) (c : crstore)
  : option crstore :=
  match rows with
  | [] => Some c
  | r :: rows' =>
      match extract_fwd s (s * bits_per_strip n) k
              (scan (bits_per_strip n) 0 0 msb r) c with
      | Some c' => extract_rows n s (S k) rows' c'
      | None => None
      end
  end.

(* extractCompressedRowStorage, reverse, 323-339 with extract,
   sparsedrivers.cpp:75-91; z i: the words of independent i *)
Fixpoint extract_cols (n todo wd idx : nat) (cb : N) (z : nat -> row)
  (c : crstore) : crstore :=
  match todo with
  | 0 => c
  | S todo' =>
      let (cb, idx) := if N.eqb cb 0 then (msb, S idx) else (cb, idx) in
      let r := filter (fun i => negb (N.eqb (N.land cb (z i idx)) 0)) (seq 0 n) in
      extract_cols n todo' (S wd) idx (N.shiftr cb 1) z (cset c wd r)
  end.

Inductive bvres :=
| BvRows (c : crstore)         (* compressedRowStorage[0 .. depen-1] *)
| BvCode (code : Z)            (* a sweep was left with this code *)
| BvFail                       (* ADOLCError::fail *)
| BvCrash                      (* a null pointer was dereferenced *)
| BvNot.                       (* not modelled *)

(* bitVectorPropagation, 416-431, forward; todo strips from s on *)
Fixpoint strips_fwd (sweep : (nat -> row) -> swres row) (n todo s : nat)
  (c : crstore) : bvres :=
  match todo with
  | 0 => BvRows c
  | S todo' =>
      match sweep (seed n s) with
      | SwRows rows =>
          match extract_rows n s 0 rows c with
          | Some c' => strips_fwd sweep n todo' (S s) c'
          | None => BvCrash
          end
      | SwAbort z => BvCode z
      | SwFail => BvFail
      | SwNot => BvNot
      end
  end.
(* reverse *)
Fixpoint strips_rev (sweep : (nat -> row) -> option (nat -> row))
  (n m todo s : nat) (c : crstore) : bvres :=
  match todo with
  | 0 => BvRows c
  | S todo' =>
      match sweep (seed m s) with
      | Some z =>
          let cur := s * bits_per_strip m in
          let nxt := S s * bits_per_strip m in
          let nxt := if Nat.ltb m nxt then m else nxt in
          strips_rev sweep n m todo' (S s)
            (extract_cols n (nxt - cur) cur 0 msb z c)
      | None => BvFail
      end
  end.

End Words.

Definition is_dep {K} (b : bop K) : bool :=
  match b with AssignDep _ _ => true | _ => false end.
Definition inds {K} (t : list (op K)) : nat :=
  length (filter (fun o => match o with Plain b => is_ind b
                                      | RefAssignInd _ _ => true
                                      | _ => false end) t).
Definition deps {K} (t : list (op K)) : nat :=
  length (filter (fun o => match o with Plain b => is_dep b | _ => false end) t).

(* resetInput, 158-162 *)
Definition cnull : crstore := fun _ => None.

Section Drv.
Variable wb : nat.
Variable K : Arith.

(* The sweeps first compare depen and indep with the tape (uni5_for.cpp:1098-1106,
   fo_rev.cpp:451-459): ADOLCError::fail *)
Definition counts_ok (n m : nat) (t : list (op K)) : bool :=
  Nat.eqb (inds t) n && Nat.eqb (deps t) m.

Definition fwd_safe (n m : nat) (t : list (op K)) : bvres :=
  if counts_ok n m t
  then strips_fwd wb (fun sd => fsrun rzero ror rmin rcs sd t 0 (fun _ => rzero) [])
                  n (batches wb n) 0 cnull
  else BvFail.

Definition fwd_tight (ps x : nat -> V K) (g : mem K) (n m : nat)
  (t : list (op K)) : bvres :=
  if counts_ok n m t
  then strips_fwd wb (fun sd => ftrun rzero ror rmin rcs rtie ps x sd t 0 g
                                   (fun _ => rzero) [])
                  n (batches wb n) 0 cnull
  else BvFail.

(* gz: results[][] before the sweep *)
Definition rev_safe (gz : nat -> row) (n m : nat) (t : list (op K)) : bvres :=
  if counts_ok n m t
  then strips_rev wb
         (fun sd => option_map (@qz row)
            (qsrun rzero ror (rshort (words_per_batch wb m)) sd t
                   (mkQ (fun _ => rzero) gz n m)))
         n m (batches wb m) 0 cnull
  else BvFail.

(* prepareADCalls 355-361: zos_forward with keep, once; then one reverse sweep
   for each strip, on the same Taylor stack (gT: rp_T is not initialised) *)
Definition rev_tight (ps x : nat -> V K) (g gT : mem K) (gz : nat -> row)
  (n m : nat) (t : list (op K)) : bvres :=
  if counts_ok n m t
  then match zos_forward ps x g t with
       | Done e =>
           if Z.ltb (frc e) 0 then BvCode (frc e) else
           strips_rev wb
             (fun sd => Some (qz (fst (fst
                (qtrun rzero ror (rshort (words_per_batch wb m)) sd t
                       (mkQ (fun _ => rzero) gz n m, gT, fk e))))))
             n m (batches wb m) 0 cnull
       | Failed _ => BvFail
       end
  else BvFail.

Inductive direction := Forward | Reverse | Auto.
(* bit_vector_propagation, 493-513 *)
Definition pick (d : direction) (n m : nat) : direction :=
  match d with
  | Auto => if Nat.leb (n / 2) m then Forward else Reverse
  | d => d
  end.
(* jac_pat<BitPattern, Safe, d> and <BitPattern, Tight, d> *)
Definition jac_pat_safe (d : direction) (gz : nat -> row) (n m : nat)
  (t : list (op K)) : bvres :=
  match pick d n m with
  | Reverse => rev_safe gz n m t
  | _ => fwd_safe n m t
  end.
Definition jac_pat_tight (d : direction) (ps x : nat -> V K) (g gT : mem K)
  (gz : nat -> row) (n m : nat) (t : list (op K)) : bvres :=
  match pick d n m with
  | Reverse => rev_tight ps x g gT gz n m t
  | _ => fwd_tight ps x g n m t
  end.
End Drv.
