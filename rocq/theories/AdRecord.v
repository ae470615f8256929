(* Model of the recorder: what the overloaded operators of adouble do while
   tracing (workMode WRITE_ACCESS).

   Modelled code:
     ADOL-C/src/adouble.cpp                all operators and functions that write
                                           to the tape (without the
                                           ADOLC_ADVANCED_BRANCHING and
                                           activity tracking sections)
     ADOL-C/src/pdouble.cpp                conversion of a parameter
     ADOL-C/src/advector.cpp               adubref, advector::operator[]
     ADOL-C/include/adolc/adtb_types.h     inline operators built on these
     ADOL-C/include/adolc/valuetape/tapeinfos.h  upd_resloc_inc_prod
     ADOL-C/src/valuetape/valuetape.cpp    take_stock, keep_stock

   A user program is a tree: operator calls with the locations of the variables
   involved, and branches on the result of a comparison.  Which location a
   variable gets is decided by the location manager (StoreProps.v: live
   variables have different locations); here the program carries them.
   Build option ADOLC_ADOUBLE_STDCZERO is on (the default).

   Each C++ function is a list of "records".  A record is: at most one operation
   put on the tape, the values written to the Taylor stack (when keep is set) and
   the assignment to the values of the variables. *)
Require Import List ZArith Bool Arith Lia.
Require Import Verif.AdModel.
Import ListNotations.
Set Implicit Arguments.

Section Record.
Variable K : Arith.
Notation val := (V K).
Notation mem := (mem K).
Notation op := (op K).
Notation bop := (bop K).

(* ------------------------------------------------------------------ *)
(* Records *)

Record prim := mkP {
  p_op   : mem -> list op;                   (* what is put on the tape *)
  p_val  : (nat -> val) -> (nat -> val) -> nat -> mem -> mem;
                                             (* parameters, inputs, index of the
                                                next input: new values *)
  p_keep : mem -> list val;                  (* write_scaylor, in order *)
  p_lost : list nat;                         (* locations whose new value is not
                                                on the tape *)
  p_ind  : bool;                             (* declares an independent *)
  p_dep  : mem -> list val;                  (* declares a dependent: its value *)
  p_fail : mem -> bool                       (* ADOLCError::fail *)
}.

(* the common form: operation o, old value of r kept, r := v *)
Definition wr (o : mem -> op) (r : nat) (v : mem -> val) : prim :=
  mkP (fun T => [o T]) (fun _ _ _ T => upd T r (v T)) (fun T => [T r]) [] false
      (fun _ => []) (fun _ => false).

(* result location of a const& overload (a new adouble) or of a && overload
   (the location of the temporary argument) *)
Inductive kind := Fresh (r : nat) | Temp.

Definition eq0 (c : val) := eqb K c (zero K).
Definition eq1 (c : val) := eqb K c (one K).

(* adouble::adouble(), adouble.cpp:23-47 *)
Definition p_dflt (r : nat) : prim :=
  wr (fun _ => Plain (AssignD0 K r)) r (fun _ => zero K).

(* adouble(double), operator=(double), operator>>(istream):
   adouble.cpp:49-80, 129-160, 892-925 *)
Definition p_const (r : nat) (c : val) : prim :=
  wr (fun _ => Plain (if eq0 c then AssignD0 K r
                      else if eq1 c then AssignD1 K r else AssignD K r c))
     r (fun _ => c).

(* ------------------------------------------------------------------ *)
(* Functions called by the user *)

Inductive unop := UPos | UNeg | UExp | ULog | USqrt | UCbrt | UCeil | UFloor | UAbs.
Inductive binop := BAdd | BSub | BMul | BDiv.
Inductive cstop := KAdd | KSub | KMul | KDiv.     (* c+a, c-a, c*a, c/a *)
Inductive eqop := EAdd | ESub | EMul.             (* +=, -=, *= *)

Inductive call :=
| CDefault (r : nat)                              (* adouble() *)
| CConst (r : nat) (c : val)                      (* adouble(c); r = c *)
| CCopy (a r : nat)                               (* adouble(const adouble&) *)
| CAssign (a r : nat)                             (* r = a *)
| CAssignP (p r : nat)                            (* r = pdouble *)
| CParam (p r : nat)                              (* pdouble::operator adouble *)
| CInd (r : nat)                                  (* r <<= x_i *)
| CDeclInd (r : nat)                              (* r.declareIndependent() *)
| CDep (r : nat)                                  (* r >>= y_j, declareDependent *)
| CEqD (e : eqop) (r : nat) (c : val)             (* r += c ... *)
| CEqA (e : eqop) (a r : nat)                     (* r += a ... *)
| CEqProd (neg : bool) (k : kind) (a b y : nat) (fuse : bool)
                                                  (* y += a*b, y -= a*b *)
| CInc (r : nat) | CDec (r : nat)
| CPostInc (a r : nat) | CPostDec (a r : nat)     (* r = a++ *)
| CUn (u : unop) (k : kind) (a : nat)
| CPow (k : kind) (a : nat) (c : val)             (* pow(a, c) *)
| CBin (b : binop) (k : kind) (a b : nat)         (* a op b, a of kind k *)
| CDivR (a b : nat)                               (* a / adouble&& b *)
| CSubR (a b : nat)                               (* a - adouble&& b *)
| CCst (c : cstop) (k : kind) (cv : val) (a : nat)
| CSin (k : kind) (a b : nat) | CCos (k : kind) (a b : nat)
| CHelp (f : fname) (k : kind) (a t : nat)        (* asin .. erfc *)
| CMin (k : kind) (a b : nat)                     (* fmin, a const or temporary *)
| CMinR (a b : nat)                               (* fmin(const&, &&) *)
| CCond (res cond a1 a2 : nat) | CCondS (res cond a : nat)
| CCondEq (res cond a1 a2 : nat) | CCondEqS (res cond a : nat)
| CVecCopy (dst src n : nat)
| CVecDot (r va vb n : nat)
| CVecAxpy (res a va vb n : nat)
| CSubscript (r idx vec n : nat)                  (* r = v[idx], const *)
| CSubRef (l idx vec n : nat)                     (* adubref at location l *)
| CRefOut (l r : nat)                             (* adubref::operator adouble *)
| CRefConst (l : nat) (c : val) | CRefAssign (a l : nat)
| CRefInc (l : nat) | CRefDec (l : nat)
| CRefInd (l : nat)
| CRefEqD (e : eqop) (l : nat) (c : val) | CRefEqA (e : eqop) (a l : nat)
| CRefCond (l cond a1 a2 : nat) | CRefCondS (l cond a : nat)
| CRefCondEq (l cond a1 a2 : nat) | CRefCondEqS (l cond a : nat)
| CFrexp (a : nat) (f : val -> val).              (* frexp(adouble&&) *)

Definition kres (k : kind) (a : nat) : nat :=
  match k with Fresh r => r | Temp => a end.
(* "adouble ret_adouble;" at the start of the const& overloads *)
Definition knew (k : kind) : list prim :=
  match k with Fresh r => [p_dflt r] | Temp => [] end.

(* 1453-1628, 2768-3151, 4346-4650 *)
Definition un_op (u : unop) (a r : nat) (T : mem) : bop :=
  match u with
  | UPos => PosSign K a r
  | UNeg => NegSign K a r
  | UExp => ExpOp K a r
  | ULog => LogOp K a r
  | USqrt => SqrtOp K a r
  | UCbrt => CbrtOp K a r
  | UCeil => CeilOp K a r (vceil K (T a))                        (* 4349, 4359 *)
  | UFloor => FloorOp K a r (vfloor K (T a))                     (* 4448, 4459 *)
  | UAbs => AbsVal K a r                                         (* 4549, 4560 *)
              (if eqb K (vabs K (T a)) (T a) then one K else zero K)
  end.
Definition un_val (u : unop) (v : val) : val :=
  match u with
  | UPos => v
  | UNeg => neg K v
  | UExp => fn K Fexp v
  | ULog => fn K Flog v
  | USqrt => fn K Fsqrt v
  | UCbrt => fn K Fcbrt v
  | UCeil => vceil K v
  | UFloor => vfloor K v
  | UAbs => vabs K v
  end.

(* 1633-1791, 1898-2055, 2163-2328, 2443-2596 *)
Definition bin_op (b : binop) (a1 a2 r : nat) : bop :=
  match b with
  | BAdd => PlusAA K a1 a2 r
  | BSub => MinAA K a1 a2 r
  | BMul => MultAA K a1 a2 r
  | BDiv => DivAA K a1 a2 r
  end.
Definition bin_val (b : binop) : val -> val -> val :=
  match b with
  | BAdd => add K | BSub => sub K | BMul => mul K | BDiv => dvd K
  end.

(* 1793-1896, 2057-2161, 2330-2441, 2666-2763 *)
Definition cst_op (c : cstop) (cv : val) (a r : nat) : bop :=
  match c with
  | KAdd => if eq0 cv then PosSign K a r else PlusDA K a r cv
  | KSub => if eq0 cv then NegSign K a r else MinDA K a r cv
  | KMul => if eq1 cv then PosSign K a r
            else if eqb K cv (neg K (one K)) then NegSign K a r
            else MultDA K a r cv
  | KDiv => DivDA K a r cv
  end.
Definition cst_val (c : cstop) (cv v : val) : val :=
  match c with
  | KAdd => add K cv v | KSub => sub K cv v | KMul => mul K cv v
  | KDiv => dvd K cv v
  end.

(* 231-303, 376-448, 520-596 *)
Definition eqd_op (e : eqop) (r : nat) (c : val) : bop :=
  match e with
  | EAdd => EqPlusD K r c | ESub => EqMinD K r c | EMul => EqMultD K r c
  end.
Definition eqa_op (e : eqop) (a r : nat) : bop :=
  match e with
  | EAdd => EqPlusA K a r | ESub => EqMinA K a r | EMul => EqMultA K a r
  end.
Definition eq_val (e : eqop) : val -> val -> val :=
  match e with EAdd => add K | ESub => sub K | EMul => mul K end.

Definition p_un (u : unop) (a r : nat) : prim :=
  wr (fun T => Plain (un_op u a r T)) r (fun T => un_val u (T a)).
Definition p_bin (b : binop) (a1 a2 r : nat) : prim :=
  wr (fun _ => Plain (bin_op b a1 a2 r)) r (fun T => bin_val b (T a1) (T a2)).
Definition p_cst (c : cstop) (cv : val) (a r : nat) : prim :=
  wr (fun _ => Plain (cst_op c cv a r)) r (fun T => cst_val c cv (T a)).
Definition p_copy (a r : nat) : prim :=
  wr (fun _ => Plain (AssignA K a r)) r (fun T => T a).

(* the derivative variable b of asin .. erfc, built by operators in a temporary
   at location t: 3484, 3596, 3705, 3813, 3920, 4027, 4134, 4243.  a*a is a new
   adouble, the further operators are the && overloads. *)
Definition help_prims (f : fname) (a t : nat) : list prim :=
  let one := one K in
  let m1 := neg K one in
  let sq := [p_dflt t; p_bin BMul a a t] in
  let s2pi := fn K Fsqrt (fn K Facos m1) in
  let gauss := [p_dflt t; p_un UNeg a t; p_bin BMul t a t; p_un UExp t t] in
  match f with
  | Fasin => sq ++ [p_cst KSub one t t; p_un USqrt t t; p_cst KDiv one t t]
  | Facos => sq ++ [p_cst KSub one t t; p_un USqrt t t; p_cst KDiv m1 t t]
  | Fatan => sq ++ [p_cst KAdd one t t; p_cst KDiv one t t]
  | Fasinh => sq ++ [p_cst KAdd one t t; p_un USqrt t t; p_cst KDiv one t t]
  | Facosh => sq ++ [p_cst KAdd m1 t t; p_un USqrt t t; p_cst KDiv one t t]
  | Fatanh => sq ++ [p_cst KSub one t t; p_cst KDiv one t t]
  | Ferf => gauss ++ [p_cst KMul (dvd K (two K) s2pi) t t]
  | Ferfc => gauss ++ [p_cst KMul (dvd K (neg K (two K)) s2pi) t t]
  | _ => []
  end.

Definition min_cov (T : mem) (a b : nat) : val :=
  if ltb K (T b) (T a) then zero K else one K.                   (* 4706 *)

(* values written by one-output functions to the target of a reference *)
Definition wref (o : mem -> op) (l : nat) (v : mem -> val) : prim :=
  mkP (fun T => [o T]) (fun _ _ _ T => upd T (tgt T l) (v T))
      (fun T => [T (tgt T l)]) [] false (fun _ => []) (fun _ => false).

Definition prims (c : call) : list prim :=
  match c with
  | CDefault r => [p_dflt r]
  | CConst r c => [p_const r c]
  | CCopy a r => [p_copy a r]                                    (* 82-124 *)
  | CAssign a r => if Nat.eqb a r then [] else [p_copy a r]      (* 162-205 *)
  | CAssignP p r =>                                              (* 207-226 *)
      [mkP (fun _ => [Plain (AssignP K p r)]) (fun ps _ _ T => upd T r (ps p))
           (fun T => [T r]) [] false (fun _ => []) (fun _ => false)]
  | CParam p r =>                                     (* pdouble.cpp:24-45 *)
      [p_dflt r;
       mkP (fun _ => [Plain (AssignP K p r)]) (fun ps _ _ T => upd T r (ps p))
           (fun T => [T r]) [] false (fun _ => []) (fun _ => false)]
  | CInd r =>                                                    (* 777-793 *)
      [mkP (fun _ => [Plain (AssignInd K r)]) (fun _ x i T => upd T r (x i))
           (fun T => [T r]) [] true (fun _ => []) (fun _ => false)]
  | CDeclInd r =>                                                (* 835-850 *)
      [mkP (fun _ => [Plain (AssignInd K r)]) (fun _ _ _ T => T)
           (fun T => [T r]) [] true (fun _ => []) (fun _ => false)]
  | CDep r =>                                                    (* 799-833 *)
      [mkP (fun _ => [Plain (AssignDep K r)]) (fun _ _ _ T => T)
           (fun _ => []) [] false (fun T => [T r]) (fun _ => false)]
  | CEqD e r c =>
      [wr (fun _ => Plain (eqd_op e r c)) r (fun T => eq_val e (T r) c)]
  | CEqA e a r =>
      [wr (fun _ => Plain (eqa_op e a r)) r (fun T => eq_val e (T r) (T a))]
  | CEqProd ng k a b y fuse =>
      (* t = a*b, then operator+=(adouble&&) / -=(adouble&&), 305-374, 450-518.
         fuse: upd_resloc_inc_prod finds the mult_a_a still in the buffers
         (tapeinfos.h:340-355); it is rewritten to eq_plus_prod and the value
         kept for t is removed again (delete_scaylor) *)
      let t := kres k a in
      let e := if ng then ESub else EAdd in
      knew k ++
      if fuse && negb (Nat.eqb y a) && negb (Nat.eqb y b) then
        [mkP (fun _ => [Plain (if ng then EqMinProd K a b y
                               else EqPlusProd K a b y)])
             (fun _ _ _ T =>
                let T1 := upd T t (mul K (T a) (T b)) in
                upd T1 y (eq_val e (T1 y) (T1 t)))
             (fun _ => []) [t] false (fun _ => []) (fun _ => false)]
      else
        [p_bin BMul a b t;
         wr (fun _ => Plain (eqa_op e t y)) y (fun T => eq_val e (T y) (T t))]
  | CInc r => [wr (fun _ => Plain (Incr K r)) r (fun T => add K (T r) (one K))]
                                                                 (* 730-748 *)
  | CDec r => [wr (fun _ => Plain (Decr K r)) r (fun T => sub K (T r) (one K))]
                                                                 (* 750-769 *)
  | CPostInc a r =>                                              (* 600-663 *)
      [p_dflt r; p_copy a r;
       wr (fun _ => Plain (Incr K a)) a (fun T => add K (T a) (one K))]
  | CPostDec a r =>                                              (* 665-728 *)
      [p_dflt r; p_copy a r;
       wr (fun _ => Plain (Decr K a)) a (fun T => sub K (T a) (one K))]
  | CUn u k a => knew k ++ [p_un u a (kres k a)]
  | CPow k a c =>                                                (* 4969-5068 *)
      knew k ++ [wr (fun _ => Plain (PowOp K a (kres k a) c)) (kres k a)
                    (fun T => vpow K (T a) c)]
  | CBin b k a1 a2 => knew k ++ [p_bin b a1 a2 (kres k a1)]
  | CDivR a b => [p_bin BDiv a b b]                              (* 2598-2664 *)
  | CSubR a b => [p_un UNeg b b; p_bin BAdd b a b]  (* adtb_types.h operator- *)
  | CCst c k cv a => knew k ++ [p_cst c cv a (kres k a)]
  | CSin k a b =>                                                (* 3153-3312 *)
      knew k ++ [p_dflt b;
        mkP (fun _ => [Plain (SinOp K a b (kres k a))])
            (fun _ _ _ T => upd (upd T (kres k a) (fn K Fsin (T a)))
                                b (fn K Fcos (T a)))
            (fun T => [T b; T (kres k a)]) [] false (fun _ => [])
            (fun _ => false)]
  | CCos k a b =>                                                (* 3314-3478 *)
      knew k ++ [p_dflt b;
        mkP (fun _ => [Plain (CosOp K a b (kres k a))])
            (fun _ _ _ T => upd (upd T (kres k a) (fn K Fcos (T a)))
                                b (fn K Fsin (T a)))
            (fun T => [T b; T (kres k a)]) [] false (fun _ => [])
            (fun _ => false)]
  | CHelp f k a t =>                                             (* 3480-4344 *)
      if is_helper f then
      knew k ++ help_prims f a t ++
      [wr (fun _ => Plain (HelpOp K f a t (kres k a))) (kres k a)
          (fun T => fn K f (T a))]
      else []
  | CMin (Fresh r) a b =>                                        (* 4652-4757 *)
      [p_dflt r;
       wr (fun T => Plain (MinOp K a b r (min_cov T a b))) r
          (fun T => if ltb K (T b) (T a) then T b
                    else ofnat K a)]       (* line 4707: to_double(a.loc()) *)
  | CMin Temp a b =>                                             (* 4759-4862 *)
      [wr (fun T => Plain (MinOp K a b a (min_cov T a b))) a
          (fun T => if ltb K (T b) (T a) then T b else T a)]
  | CMinR a b =>                                                 (* 4864-4967 *)
      [wr (fun T => Plain (MinOp K a b b (min_cov T a b))) b
          (fun T => if ltb K (T b) (T a) then T b else T a)]
  | CCond res cond a1 a2 =>                                      (* 5108-5235 *)
      [wr (fun T => Plain (CondAssign K cond a1 a2 res (T cond))) res
          (fun T => if ltb K (zero K) (T cond) then T a1 else T a2)]
  | CCondS res cond a =>                                         (* 5237-5331 *)
      [wr (fun T => Plain (CondAssignS K cond a res (T cond))) res
          (fun T => if ltb K (zero K) (T cond) then T a else T res)]
  | CCondEq res cond a1 a2 =>                                    (* 5333-5462 *)
      [wr (fun T => Plain (CondEqAssign K cond a1 a2 res (T cond))) res
          (fun T => if leb K (zero K) (T cond) then T a1 else T a2)]
  | CCondEqS res cond a =>                                       (* 5464-5558 *)
      [wr (fun T => Plain (CondEqAssignS K cond a res (T cond))) res
          (fun T => if leb K (zero K) (T cond) then T a else T res)]
  | CVecCopy dst src n =>                                        (* 5560-5581 *)
      [mkP (fun _ => [Plain (VecCopy K src n dst)])
           (fun _ _ _ T => vcopy n src dst 0 T)
           (fun T => repeat (T dst) n)              (* 5576: dest[0].value() *)
           [] false (fun _ => []) (fun _ => false)]
  | CVecDot r va vb n =>                                         (* 5584-5616 *)
      [p_dflt r;
       mkP (fun _ => [Plain (VecDot K va vb n r)])
           (fun _ _ _ T => vdot n va vb r 0 (upd T r (zero K)))
           (fun T => [T r]) [] false (fun _ => []) (fun _ => false)]
  | CVecAxpy res a va vb n =>                                    (* 5619-5648 *)
      [mkP (fun _ => [Plain (VecAxpy K a va vb n res)])
           (fun _ _ _ T => vaxpy n a va vb res 0 T)
           (fun T => map T (seq va n))                         (* 5641: vec_a[i] *)
           [] false (fun _ => []) (fun _ => false)]
  | CSubscript r idx vec n =>                         (* advector.cpp:446-470 *)
      [p_dflt r;
       mkP (fun _ => [Subscript K idx vec r (ofnat K n)])
           (fun _ _ _ T => upd T r (T (vec + tgt T idx)))
           (fun T => [T r]) [] false (fun _ => [])
           (fun T => Nat.leb n (tgt T idx))]
  | CSubRef l idx vec n =>                            (* advector.cpp:472-495 *)
      [mkP (fun _ => [SubscriptRef K idx vec l (ofnat K n)])
           (fun _ _ _ T => upd T l (ofnat K (vec + tgt T idx)))
           (fun T => [T l]) [] false (fun _ => [])
           (fun T => Nat.leb n (tgt T idx))]
  | CRefOut l r =>                                               (* 86-104 *)
      [p_dflt r; wr (fun _ => RefCopyout K l r) r (fun T => T (tgt T l))]
  | CRefConst l c =>                                             (* 39-63 *)
      [wref (fun _ => if eq0 c then RefAssignD0 K l
                      else if eq1 c then RefAssignD1 K l else RefAssignD K l c)
            l (fun _ => c)]
  | CRefAssign a l =>                                            (* 65-84 *)
      if Nat.eqb l a then [] else
      [wref (fun _ => RefAssignA K a l) l (fun T => T a)]
  | CRefInc l =>                                                 (* 170-184 *)
      [wref (fun _ => RefIncr K l) l (fun T => add K (T (tgt T l)) (one K))]
  | CRefDec l =>                                                 (* 186-201 *)
      [wref (fun _ => RefDecr K l) l (fun T => sub K (T (tgt T l)) (one K))]
  | CRefInd l =>                                                 (* 310-327 *)
      [mkP (fun _ => [RefAssignInd K l]) (fun _ x i T => upd T (tgt T l) (x i))
           (fun T => [T (tgt T l)]) [] true (fun _ => []) (fun _ => false)]
  | CRefEqD e l c =>                            (* 203-219, 238-254, 274-290 *)
      [wref (fun _ => match e with
                      | EAdd => RefEqPlusD K l c | ESub => RefEqMinD K l c
                      | EMul => RefEqMultD K l c end)
            l (fun T => eq_val e (T (tgt T l)) c)]
  | CRefEqA e a l =>                            (* 221-236, 256-272, 292-308 *)
      [wref (fun _ => match e with
                      | EAdd => RefEqPlusA K a l | ESub => RefEqMinA K a l
                      | EMul => RefEqMultA K a l end)
            l (fun T => eq_val e (T (tgt T l)) (T a))]
  | CRefCond l cond a1 a2 =>                                     (* 351-372 *)
      [wref (fun T => RefCondAssign K cond a1 a2 l (T cond)) l
            (fun T => if ltb K (zero K) (T cond) then T a1 else T a2)]
  | CRefCondS l cond a =>                                        (* 374-392 *)
      [wref (fun T => RefCondAssignS K cond a l (T cond)) l
            (fun T => if ltb K (zero K) (T cond) then T a else T (tgt T l))]
  | CRefCondEq l cond a1 a2 =>                                   (* 394-416 *)
      [wref (fun T => RefCondEqAssign K cond a1 a2 l (T cond)) l
            (fun T => if leb K (zero K) (T cond) then T a1 else T a2)]
  | CRefCondEqS l cond a =>                                      (* 418-436 *)
      [wref (fun T => RefCondEqAssignS K cond a l (T cond)) l
            (fun T => if leb K (zero K) (T cond) then T a else T (tgt T l))]
  | CFrexp a f =>
      (* adtb_types.h, inline adouble frexp(adouble &&a, int *exp): the value is
         replaced, nothing is put on the tape; f = std::frexp *)
      [mkP (fun _ => []) (fun _ _ _ T => upd T a (f (T a))) (fun _ => []) [a]
           false (fun _ => []) (fun _ => false)]
  end.

(* ------------------------------------------------------------------ *)
(* Comparison operators returning bool *)

Inductive relop := REq | RNe | RLe | RGe | RLt | RGt.

(* What the user's  a OP 0  yields, and what is put on the tape.
   adouble.cpp:1290-1448 *)
Definition rel_val (r : relop) (v : val) : bool :=
  match r with
  | REq => eqb K v (zero K)                                      (* 1331 *)
  | RNe => negb (eqb K v (zero K))                               (* 1305 *)
  | RLe => leb K v (zero K)                                      (* 1347 *)
  | RGe => leb K (zero K) v                                      (* 1374 *)
  | RLt => ltb K v (zero K)                                      (* 1401 *)
  | RGt => ltb K (zero K) v                                      (* 1428 *)
  end.
Definition rel_op (r : relop) (v : val) : cmpop :=
  match r with
  | REq | RNe => if eqb K v (zero K) then EqZero else NeqZero    (* 1299, 1325 *)
  | RLe => if leb K v (zero K) then LeZero else GtZero           (* 1352 *)
  | RGe => if leb K (zero K) v then GeZero else LtZero           (* 1379 *)
  | RLt => if ltb K v (zero K) then LtZero else GeZero           (* 1406 *)
  | RGt => if ltb K (zero K) v then GtZero else LeZero           (* 1433 *)
  end.

(* ------------------------------------------------------------------ *)
(* Programs *)

Inductive prog :=
| Ret
| Do (c : call) (p : prog)
| If (r : relop) (a : nat) (pt pf : prog).

(* a OP c with a constant c: c != 0 goes through (-c + a OP 0) with a temporary
   at location t (1293, 1319, 1345, 1372, 1399, 1426). *)
Definition IfConst (r : relop) (a : nat) (c : val) (t : nat) (pt pf : prog) :=
  if eq0 c then If r a pt pf
  else Do (CCst KAdd (Fresh t) (neg K c) a) (If r t pt pf).
(* a OP b: (a - b OP 0), adtb_types.h:736-754 *)
Definition IfCmp (r : relop) (a b t : nat) (pt pf : prog) :=
  Do (CBin BSub (Fresh t) a b) (If r t pt pf).

(* State of the program while it is traced *)
Record rec := mkRec {
  sT   : mem;            (* values of all locations *)
  si   : nat;            (* number of independents so far *)
  sops : list op;        (* operations recorded so far *)
  sk   : list val;       (* Taylor stack (keep), top first *)
  sy   : list val;       (* values given to the dependents *)
  sd   : list bool       (* outcomes of the comparisons so far *)
}.

Definition rprim (ps x : nat -> val) (p : prim) (s : rec) : option rec :=
  if p_fail p (sT s) then None else
  Some (mkRec (p_val p ps x (si s) (sT s))
              (if p_ind p then S (si s) else si s)
              (sops s ++ p_op p (sT s))
              (rev (p_keep p (sT s)) ++ sk s)
              (sy s ++ p_dep p (sT s))
              (sd s)).

Fixpoint rprims (ps x : nat -> val) (l : list prim) (s : rec) : option rec :=
  match l with
  | [] => Some s
  | p :: l' => match rprim ps x p s with
               | Some s' => rprims ps x l' s'
               | None => None
               end
  end.

Definition rcmp (r : relop) (a : nat) (s : rec) : rec :=
  mkRec (sT s) (si s) (sops s ++ [Plain (Cmp K (rel_op r (sT s a)) a)])
        (sk s) (sy s) (sd s ++ [rel_val r (sT s a)]).

(* Running the program with tracing on; None: it was stopped by an error. *)
Fixpoint run (ps x : nat -> val) (p : prog) (s : rec) : option rec :=
  match p with
  | Ret => Some s
  | Do c p' => match rprims ps x (prims c) s with
               | Some s' => run ps x p' s'
               | None => None
               end
  | If r a pt pf =>
      if rel_val r (sT s a) then run ps x pt (rcmp r a s)
      else run ps x pf (rcmp r a s)
  end.

(* trace_on: take_stock writes the values of all locations of the store when
   variables are alive (valuetape.cpp:114-147), in chunks that fit in the value
   buffer; the chunk sizes depend on the buffer. *)
Fixpoint stock_ops (T0 : mem) (chunks : list nat) (from : nat) : list op :=
  match chunks with
  | [] => []
  | n :: cs => Plain (TakeStock K n from (map T0 (seq from n)))
               :: stock_ops T0 cs (from + n)
  end.

Definition start (T0 : mem) (chunks : list nat) : rec :=
  mkRec T0 0 (stock_ops T0 chunks 0) [] [] [].

(* trace_off: keep_stock, valuetape.cpp:155-170 *)
Definition finish (last : nat) (s : rec) : list op :=
  sops s ++ [Plain (DeathNot K 0 last)].

(* The trace made by running p at x with parameters ps. *)
Definition record (T0 : mem) (chunks : list nat) (last : nat)
  (ps x : nat -> val) (p : prog) : option (list op) :=
  match run ps x p (start T0 chunks) with
  | Some s => Some (finish last s)
  | None => None
  end.

End Record.
