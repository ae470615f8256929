(* Model of the higher order reverse sweep in one direction.

   Modelled code: ADOL-C/src/ho_rev.cpp compiled with _HOS_ (hos_reverse and
   hos_ti_reverse), the helpers of ADOL-C/src/convolut.cpp it calls, and the part of
   ADOL-C/src/uni5_for.cpp (_HOS_ with _KEEP_: hos_forward_keep) that fills the Taylor
   stack.  k = degre + 1 is the number of coefficients.

   rpp_T[loc][i] is the coefficient of degree i of the variable at loc;
   rpp_A[loc][0] is a flag, rpp_A[loc][1 + i] the adjoint coefficient of degree i; the
   flags are kept in a memory of their own.  The scratch arrays are functions: they
   do not overlap with anything and are always written before they are read.

   Not modelled: the return code; ext_diff; cbrt (ADOLCError::fail) and ceil (a
   write through the pointer Aarg, which this case does not set, 1823-1831) stop the
   modelled sweep.  The Taylor stack is a list, top first (that the buffer is one is C08;
   get_taylors with a row that crosses a block boundary is there too). *)
Require Import List ZArith Bool Arith Lia.
Require Import Verif.AdModel Verif.HosModel.
Import ListNotations.
Set Implicit Arguments.
Set Asymmetric Patterns.

Section Model.
Variable K : Arith.
Notation val := (V K).
Notation vmem := (mem K).
Notation rows := (rows K).
Variable eps : val.               (* ADOLC_EPS, usrparms.h:47 *)

(* ------------------------------------------------------------------ *)
(* hos_forward with keep = k: what IF_KEEP_WRITE_TAYLOR pushes           *)

(* dp_T0[l], dpp_T[l][0 .. keep-2]: uni5_for.cpp:275-283 *)
Definition taken (k : nat) (T : vmem) (C : rows) (l : nat) : list val :=
  map (fun i => match i with 0 => T l | S j => C l j end) (seq 0 k).
(* vec_copy, vec_axpy: the element is pushed just before it is overwritten *)
Fixpoint hcopy_push (k n arg res q : nat) (T : vmem) (C : rows) : list val :=
  match n with
  | 0 => []
  | S n' => taken k T C (res + q) ++
            hcopy_push k n' arg res (S q) (upd T (res + q) (T (arg + q)))
              (row (k - 1) (res + q) (fun i C => C (arg + q) i) C)
  end.
Fixpoint haxpy_push (k n arg a1 a2 res q : nat) (T : vmem) (C : rows) : list val :=
  match n with
  | 0 => []
  | S n' => taken k T C (res + q) ++
            haxpy_push k n' arg a1 a2 res (S q)
              (upd T (res + q) (add K (mul K (T arg) (T (a1 + q))) (T (a2 + q))))
              (prow (add K) (k - 1) (res + q) arg (a1 + q)
                  (fun i C => add K (lin (T arg) (T (a1 + q)) arg (a1 + q) i C) (C (a2 + q) i)) C)
  end.
(* the same places as AdModel.pushes *)
Definition hpushes (k : nat) (b : bop K) (T : vmem) (C : rows) : list val :=
  match b with
  | Cmp _ _ | AssignDep _ | EqPlusProd _ _ _ | EqMinProd _ _ _
  | TakeStock _ _ _ => []
  | AssignA _ res | AssignD res _ | AssignP _ res | AssignD0 res | AssignD1 res
  | AssignInd res | EqPlusD res _ | EqPlusA _ res | EqMinD res _ | EqMinA _ res
  | EqMultD res _ | EqMultA _ res | Incr res | Decr res
  | PlusAA _ _ res | PlusDA _ res _ | MinAA _ _ res | MinDA _ res _
  | MultAA _ _ res | MultDA _ res _ | DivAA _ _ res | DivDA _ res _
  | PosSign _ res | NegSign _ res | ExpOp _ res | HelpOp _ _ _ res
  | LogOp _ res | PowOp _ res _ | SqrtOp _ res | CbrtOp _ res
  | GenQuad _ _ res _ _ | MinOp _ _ res _ | AbsVal _ res _ | CeilOp _ res _
  | FloorOp _ res _ | CondAssign _ _ _ res _ | CondEqAssign _ _ _ res _
  | CondAssignS _ _ res _ | CondEqAssignS _ _ res _ | SetRef res _
  | VecDot _ _ _ res => taken k T C res
  | SinOp _ a2 res | CosOp _ a2 res => taken k T C a2 ++ taken k T C res
                                                          (* 2518-2519, 2590-2591 *)
  | VecCopy arg size res => hcopy_push k size arg res 0 T C
  | VecAxpy arg a1 a2 size res => haxpy_push k size arg a1 a2 res 0 T C
  | DeathNot a1 a2 => flat_map (taken k T C) (down (a2 - a1) a1)
  end.

Record hkstate := mkHK {
  hkH : hstate K;            (* the sweep *)
  hkk : list val             (* Taylor stack, top first *)
}.
Definition hkstep (d : nat) (ps x : nat -> val) (xc : nat -> nat -> val) (o : op K) (s : hkstate)
  : hkstate + option hkstate :=
  let h := hkH s in
  let b := resolve (fT (hF h)) o in
  match hstep d ps x xc o h with
  | inl h' => inl (mkHK h' (rev (hpushes (S d) b (fT (hF h)) (hC h)) ++ hkk s))
  | inr (Some h') => inr (Some (mkHK h' (hkk s)))
  | inr None => inr None
  end.
Fixpoint hkrun (d : nat) (ps x : nat -> val) (xc : nat -> nat -> val) (t : list (op K)) (s : hkstate)
  : option hkstate :=
  match t with
  | [] => Some s
  | o :: t' =>
      match hkstep d ps x xc o s with
      | inl s' => hkrun d ps x xc t' s'
      | inr r => r
      end
  end.
(* hos_forward(tag, m, n, d, keep = d + 1, ..): uni5_for.cpp (_HOS_, _KEEP_) *)
Definition hos_forward_keep (d : nat) (ps x : nat -> val) (xc : nat -> nat -> val)
  (g : vmem) (gc : rows) (t : list (op K)) : option hkstate :=
  hkrun d ps x xc t (mkHK (mkH (mkF g 0 [] 3%Z []) gc []) []).

(* ------------------------------------------------------------------ *)
(* convolut.cpp                                                          *)

(* tmpVal = a[i] * b[0]; for (j = 1; j <= i; j++) tmpVal += a[i - j] * b[j], 27-31 *)
Definition mulsum (a b : nat -> val) (i : nat) : val :=
  up i (fun j acc => add K acc (mul K (a (i - S j)) (b (S j)))) (mul K (a i) (b 0)).
(* conv, conv0 25-45, into a scratch array *)
Definition conv_ (a b : nat -> val) : nat -> val := mulsum a b.
(* inconv 52-61, inconv1 81-90, deconv 97-106, deconv1 125-134; op is += or -=.
   src: the array a in the current memory *)
Definition inconv_ (op : val -> val -> val) (k : nat) (src : rows -> nat -> val) (b : rows -> nat -> val)
  (c : nat) (A : rows) : rows :=
  dn k (fun i A => put A c i (op (A c i) (mulsum (src A) (b A) i))) A.
(* inconv0 66-76, deconv0 111-121; rows a and c *)
Definition inconv0_ (op : val -> val -> val) (k a : nat) (b : nat -> val) (c : nat) (A : rows) : rows :=
  dn k (fun i A =>
          let tmp := mul K (A a i) (b 0) in
          let A := put A a i (zero K) in
          let tmp := up i (fun j acc => add K acc (mul K (A a (i - S j)) (b (S j)))) tmp in
          put A c i (op (A c i) tmp)) A.
(* divide 140-149 *)
Definition divide_ (k : nat) (a b : nat -> val) : nat -> val :=
  let rec := dvd K (one K) (b 0) in
  up k (fun i c => @putz K c i
          (mul K (up i (fun j acc => sub K acc (mul K (c j) (b (i - j)))) (a i)) rec))
     (fun _ => zero K).
(* recipr 152-162; the first pass of this loop is c[0] = a * rec *)
Definition recipr_ (k : nat) (a : val) (b : nat -> val) : nat -> val :=
  let rec := dvd K (one K) (b 0) in
  up (k - 1) (fun i c => @putz K c (S i)
          (mul K (up (S i) (fun j acc => sub K acc (mul K (c j) (b (S i - j)))) (zero K)) rec))
     (@putz K (fun _ => zero K) 0 (mul K a rec)).
(* copyAndZeroset 178-184, the second effect *)
Definition zerorow (k a : nat) (A : rows) : rows :=
  up k (fun i A => put A a i (zero K)) A.

(* ------------------------------------------------------------------ *)
(* hos_reverse                                                           *)

(* MAXDEC(F[l], v): common.h:119-124 *)
Definition maxdec (F : vmem) (l : nat) (v : val) : vmem :=
  if ltb K (F l) v then upd F l v else F.
Definition four : val := ofnat K 4.
Definition five : val := ofnat K 5.

Definition setrow (C : rows) (l : nat) (r : nat -> val) (k : nat) : rows :=
  fun l' i => if Nat.eqb l' l && Nat.ltb i k then r i else C l' i.
(* GET_TAYL: get_taylors pops k coefficients, the last one first, tapeinfos.cpp:142-157 *)
Definition gettayl (k res : nat) (T : rows) (st : list val) : rows * list val :=
  (setrow T res (fun i => nth (k - 1 - i) st (zero K)) k, skipn k st).
Fixpoint gettayl_up (k n j : nat) (T : rows) (st : list val) : rows * list val :=
  match n with
  | 0 => (T, st)
  | S n' => let (T', st') := gettayl k j T st in gettayl_up k n' (S j) T' st'
  end.

(* aTmp = ARES; ARES_INC = 0.0; AARG_INC op= aTmp *)
Definition mv1 (k res arg : nat) (g : val -> val -> val) (A : rows) : rows :=
  up k (fun i A => let a := A res i in
                   let A := put A res i (zero K) in
                   put A arg i (g (A arg i) a)) A.
Definition mv2 (k res a1 a2 : nat) (g1 g2 : val -> val -> val) (A : rows) : rows :=
  up k (fun i A => let a := A res i in
                   let A := put A res i (zero K) in
                   let A := put A a1 i (g1 (A a1 i) a) in
                   put A a2 i (g2 (A a2 i) a)) A.
(* "no temporary": AARG_INC += ARES; ARES_INC = 0.0 *)
Definition mv0 (k res arg : nat) (A : rows) : rows :=
  up k (fun i A => let A := put A arg i (add K (A arg i) (A res i)) in
                   put A res i (zero K)) A.

(* the flags in the common pattern: aTmp = ARES; ARES = 0.0; MAXDEC(AARG, aTmp);
   MAXDEC(AARG, c) *)
Definition fl1 (F : vmem) (res arg : nat) (c : option val) : vmem :=
  let a := F res in
  let F := maxdec (upd F res (zero K)) arg a in
  match c with Some c => maxdec F arg c | None => F end.
Definition fl2 (F : vmem) (res a1 a2 : nat) (a : val) : vmem :=
  maxdec (maxdec (upd F res (zero K)) a1 a) a2 a.
(* comp = (ARES > 2.0) ? ARES : 2.0 *)
Definition comp2 (v : val) : val := if ltb K (two K) v then v else two K.

(* pow_op at a base of modulus at most ADOLC_EPS, 1484-1528 *)
Definition powsmall (k arg res : nat) (c : val) (Targ : nat -> val) (A : rows) : rows :=
  if leb K c (zero K) then
    up k (fun i A => put (put A arg i (vnan K)) res i (zero K)) A
  else if negb (eqb K (sub K c (vfloor K c)) (zero K)) then
    up k (fun i A =>
      let d := sub K c (ofnat K i) in
      let A := if ltb K (one K) d then put (put A arg i (zero K)) res i (zero K) else A in
      let A := if ltb K d (one K) && ltb K (zero K) d
               then put (put A arg i (vinf K)) res i (zero K) else A in
      if ltb K d (zero K) then put (put A arg i (vnan K)) res i (zero K) else A) A
  else if eqb K c (one K) then mv0 k res arg A
  else
    let tmp := A res in
    let A := zerorow k res A in
    let A := inconv_ (add K) k (fun _ => tmp) (fun _ => Targ) arg A in
    let A := inconv_ (add K) k (fun _ => tmp) (fun _ => Targ) arg A in
    if eqb K c (three K) then
      let tmp := conv_ (A arg) Targ in
      up k (fun i A => put A arg i (mul K (two K) (tmp i))) A
    else A.

(* min_op 1636-1702: the operand and whether it was found in the coefficients *)
Definition minpick (k a1 a2 : nat) (T : rows) : option (nat * bool) :=
  if ltb K (T a2 0) (T a1 0) then Some (a2, false)
  else if ltb K (T a1 0) (T a2 0) then Some (a1, false)
  else (fix go n i := match n with
          | 0 => None
          | S n' => if ltb K (T a2 i) (T a1 i) then Some (a2, true)
                    else if ltb K (T a1 i) (T a2 i) then Some (a1, true) else go n' (S i)
          end) (k - 1) 1.

(* abs_val 1766-1778: x[0] and jj[0] *)
Definition abspick (k arg : nat) (T : rows) : val * nat :=
  up k (fun i (s : val * nat) =>
    let (x, j) := s in
    if eqb K x (zero K) && negb (eqb K (T arg i) (zero K))
    then ((if ltb K (T arg i) (zero K) then neg K (one K) else one K), i) else (x, j))
    (zero K, 0).

(* vec_copy 2438-2465 *)
Fixpoint hrcopy (k n arg res q : nat) (T : rows) (F : vmem) (A : rows) (st : list val)
  : rows * vmem * rows * list val :=
  match n with
  | 0 => (T, F, A, st)
  | S n' =>
      let '(F', A') :=
        if eqb K (F (res + q)) (zero K) then (F, A)
        else (upd (maxdec F (arg + q) (F (res + q))) (res + q) (zero K),
              mv0 k (res + q) (arg + q) A) in
      let (T', st') := gettayl k (res + q) T st in
      hrcopy k n' arg res (S q) T' F' A' st'
  end.
(* vec_dot 2468-2504: the adjoint of the result is not reset *)
Fixpoint hrdot (k n a1 a2 res q : nat) (T : rows) (F : vmem) (A : rows) : vmem * rows :=
  match n with
  | 0 => (F, A)
  | S n' =>
      let '(F', A') :=
        if eqb K (F res) (zero K) then (F, A)
        else let comp := comp2 (F res) in
             (maxdec (maxdec (upd F res comp) (a1 + q) comp) (a2 + q) comp,
              inconv_ (add K) k (fun A => A res) (fun _ => T (a2 + q)) (a1 + q)
                (inconv_ (add K) k (fun A => A res) (fun _ => T (a1 + q)) (a2 + q) A)) in
      hrdot k n' a1 a2 res (S q) T F' A'
  end.
(* vec_axpy 2507-2547: here the adjoints of the results are reset *)
Fixpoint hraxpy (k n arg a1 a2 res q : nat) (T : rows) (F : vmem) (A : rows) (st : list val)
  : rows * vmem * rows * list val :=
  match n with
  | 0 => (T, F, A, st)
  | S n' =>
      let '(F', A') :=
        if eqb K (F (res + q)) (zero K) then (F, A)
        else
          let comp := comp2 (F (res + q)) in
          let F1 := upd (maxdec F (a2 + q) (F (res + q))) (res + q) (zero K) in
          let tmp := A (res + q) in
          let A1 := zerorow k (res + q) A in
          let A2 := inconv_ (add K) k (fun _ => tmp) (fun _ => T (a1 + q)) arg A1 in
          let A3 := inconv_ (add K) k (fun _ => tmp) (fun _ => T arg) (a1 + q) A2 in
          (maxdec (maxdec F1 arg comp) (a1 + q) comp,
           up k (fun i A => put A (a2 + q) i (add K (A (a2 + q) i) (tmp i))) A3) in
      let (T', st') := gettayl k (res + q) T st in
      hraxpy k n' arg a1 a2 res (S q) T' F' A' st'
  end.
(* take_stock, death_not: rows of n variables and their flags set to zero *)
Fixpoint hrzero (k n j : nat) (F : vmem) (A : rows) : vmem * rows :=
  match n with
  | 0 => (F, A)
  | S n' => hrzero k n' (S j) (upd F j (zero K)) (zerorow k j A)
  end.

(* One operation: rpp_T, flags, rpp_A, Taylor stack.  Not for the further effects of
   assign_ind and assign_dep, which are in hrstep. *)
Definition hrval (k : nat) (b : bop K) (T : rows) (F : vmem) (A : rows) (st : list val)
  : option (rows * vmem * rows * list val) :=
  (* GET_TAYL(res, k, p) at the end / at the beginning *)
  let after res (F' : vmem) (A' : rows) := let (T', st') := gettayl k res T st in Some (T', F', A', st') in
  let skip res (F' : vmem) (A' : rows) :=
    if eqb K (F res) (zero K) then (F, A) else (F', A') in
  match b with
  | Cmp _ _ => Some (T, F, A, st)                                   (* 519-539 *)
  | AssignA arg res =>                                              (* 545-568 *)
      let (F', A') := skip res (upd (maxdec F arg (F res)) res (zero K)) (mv0 k res arg A) in
      after res F' A'
  | AssignD res _ | AssignP _ res | AssignD0 res | AssignD1 res =>  (* 571-606 *)
      after res (upd F res (zero K)) (zerorow k res A)
  | AssignInd res => after res F A                                  (* 609-627 *)
  | AssignDep res => Some (T, F, A, st)                             (* 630-649 *)
  | EqPlusD res _ | EqMinD res _ | Incr res | Decr res => after res F A
                                                         (* 656 689 774-779 *)
  | EqPlusA arg res =>                                              (* 665-686 *)
      let (F', A') := skip res (maxdec F arg (F res))
        (up k (fun i A => put A arg i (add K (A arg i) (A res i))) A) in
      after res F' A'
  | EqMinA arg res =>                                               (* 698-719 *)
      let (F', A') := skip res (maxdec F arg (F res))
        (up k (fun i A => put A arg i (sub K (A arg i) (A res i))) A) in
      after res F' A'
  | EqMultD res c =>                                                (* 722-734 *)
      let (F', A') := skip res F (up k (fun i A => put A res i (mul K (A res i) c)) A) in
      after res F' A'
  | EqMultA arg res =>                                              (* 737-771 *)
      let (T', st') := gettayl k res T st in
      let F1 := maxdec F res (two K) in
      let tmp := conv_ (A res) (T' arg) in
      let (F', A') := skip res (maxdec F1 arg (F1 res))
        (if Nat.eqb arg res
         then up k (fun i A => put A res i (mul K (two K) (tmp i))) A
         else up k (fun i A => put A res i (tmp i))
                (inconv_ (add K) k (fun A => A res) (fun _ => T' res) arg A)) in
      Some (T', F', A', st')
  | PlusAA a1 a2 res =>                                             (* 786-816 *)
      let (F', A') := skip res (fl2 F res a1 a2 (F res)) (mv2 k res a1 a2 (add K) (add K) A) in
      after res F' A'
  | PlusDA arg res _ | PosSign arg res =>                     (* 818-844 1214-1238 *)
      let (F', A') := skip res (fl1 F res arg None) (mv1 k res arg (add K) A) in
      after res F' A'
  | MinAA a1 a2 res =>                                              (* 847-878 *)
      let (F', A') := skip res (fl2 F res a1 a2 (F res)) (mv2 k res a1 a2 (add K) (sub K) A) in
      after res F' A'
  | MinDA arg res _ | NegSign arg res =>                      (* 881-907 1241-1265 *)
      let (F', A') := skip res (fl1 F res arg None) (mv1 k res arg (sub K) A) in
      after res F' A'
  | MultAA a1 a2 res =>                                             (* 910-976 *)
      let (T', st') := gettayl k res T st in
      let tmp := A res in
      let (F', A') := skip res (fl2 F res a1 a2 (comp2 (F res)))
        (inconv_ (add K) k (fun _ => tmp) (fun _ => T' a2) a1
          (inconv_ (add K) k (fun _ => tmp) (fun _ => T' a1) a2 (zerorow k res A))) in
      Some (T', F', A', st')
  | EqPlusProd a1 a2 res =>                                         (* 980-1025 *)
      let T' := inconv_ (sub K) k (fun T => T a1) (fun T => T a2) res T in
      let comp := comp2 (F res) in
      let (F', A') := skip res (maxdec (maxdec (upd F res comp) a1 comp) a2 comp)
        (inconv_ (add K) k (fun A => A res) (fun _ => T' a2) a1
          (inconv_ (add K) k (fun A => A res) (fun _ => T' a1) a2 A)) in
      Some (T', F', A', st)
  | EqMinProd a1 a2 res =>                                          (* 1029-1074 *)
      let T' := inconv_ (add K) k (fun T => T a1) (fun T => T a2) res T in
      let comp := comp2 (F res) in
      let (F', A') := skip res (maxdec (maxdec (upd F res comp) a1 comp) a2 comp)
        (inconv_ (sub K) k (fun A => A res) (fun _ => T' a2) a1
          (inconv_ (sub K) k (fun A => A res) (fun _ => T' a1) a2 A)) in
      Some (T', F', A', st)
  | MultDA arg res c =>                                             (* 1077-1103 *)
      let (F', A') := skip res (fl1 F res arg None)
        (mv1 k res arg (fun x a => add K x (mul K c a)) A) in
      after res F' A'
  | DivAA a1 a2 res =>                                              (* 1106-1159 *)
      let Tres := T res in
      let (T', st') := gettayl k res T st in
      let T2 := if Nat.eqb a2 res then T' a2 else T a2 in
      let rt := recipr_ k (one K) T2 in
      let at2 := conv_ rt Tres in
      let tmp := A res in
      let F1 := upd F res (zero K) in
      let F2 := maxdec (maxdec F1 a1 (three K)) a1 (F res) in
      let (F', A') := skip res (maxdec (maxdec F2 a2 (three K)) a2 (F res))
        (inconv_ (sub K) k (fun _ => tmp) (fun _ => at2) a2
          (inconv_ (add K) k (fun _ => tmp) (fun _ => rt) a1 (zerorow k res A))) in
      Some (T', F', A', st')
  | DivDA arg res _ =>                                              (* 1162-1206 *)
      let Tres := T res in
      let (T', st') := gettayl k res T st in
      let T1 := if Nat.eqb arg res then T' arg else T arg in
      let at1 := conv_ (recipr_ k (one K) T1) Tres in
      let (F', A') := skip res (fl1 F res arg (Some (three K)))
        (inconv0_ (sub K) k res at1 arg A) in
      Some (T', F', A', st')
  | ExpOp arg res =>                                                (* 1272-1301 *)
      let (F', A') := skip res (fl1 F res arg (Some four)) (inconv0_ (add K) k res (T res) arg A) in
      after res F' A'
  | SinOp a1 a2 res =>                                              (* 1304-1335 *)
      let (F', A') := skip res (fl1 F res a1 (Some four)) (inconv0_ (add K) k res (T a2) a1 A) in
      let (T1, st1) := gettayl k res T st in
      let (T2, st2) := gettayl k a2 T1 st1 in Some (T2, F', A', st2)
  | CosOp a1 a2 res =>                                              (* 1338-1369 *)
      let (F', A') := skip res (fl1 F res a1 (Some four)) (inconv0_ (sub K) k res (T a2) a1 A) in
      let (T1, st1) := gettayl k res T st in
      let (T2, st2) := gettayl k a2 T1 st1 in Some (T2, F', A', st2)
  | HelpOp _ a1 a2 res =>                                           (* 1372-1408 *)
      let (T', st') := gettayl k res T st in
      let (F', A') := skip res (fl1 F res a1 (Some four)) (inconv0_ (add K) k res (T' a2) a1 A) in
      Some (T', F', A', st')
  | LogOp arg res =>                                                (* 1411-1443 *)
      let (T', st') := gettayl k res T st in
      let (F', A') := skip res (fl1 F res arg (Some four))
        (inconv0_ (add K) k res (recipr_ k (one K) (T' arg)) arg A) in
      Some (T', F', A', st')
  | PowOp arg res c =>                                              (* 1446-1539 *)
      let Tres := T res in
      let (T', st') := gettayl k res T st in
      let Targ := if Nat.eqb arg res then T' arg else T arg in
      let (F', A') := skip res (fl1 F res arg (Some four))
        (if ltb K eps (vabs K (Targ 0))
         then inconv0_ (add K) k res (fun i => mul K (divide_ k Tres Targ i) c) arg A
         else powsmall k arg res c Targ A) in
      Some (T', F', A', st')
  | SqrtOp arg res =>                                               (* 1542-1573 *)
      let (F', A') := skip res (fl1 F res arg (Some four))
        (inconv0_ (add K) k res (recipr_ k (half K) (T res)) arg A) in
      after res F' A'
  | CbrtOp _ _ => None                                              (* 1576-1583 *)
  | GenQuad a1 a2 res _ _ =>                                        (* 1586-1616 *)
      let (F', A') := skip res (fl1 F res a1 (Some four)) (inconv0_ (add K) k res (T a2) a1 A) in
      after res F' A'
  | MinOp a1 a2 res _ =>                                            (* 1619-1751 *)
      let (T', st') := gettayl k res T st in
      let (F', A') :=
        match minpick k a1 a2 T' with
        | Some (a, late) =>
            skip res (let F1 := upd F res (zero K) in
                      if late then upd F1 a five else maxdec F1 a (F res))
                     (mv1 k res a (add K) A)
        | None =>
            skip res (fl2 F res a1 a2 (F res))
                     (mv2 k res a1 a2 (fun x a => add K x (dvd K a (two K)))
                                      (fun x a => add K x (dvd K a (two K))) A)
        end in
      Some (T', F', A', st')
  | AbsVal arg res _ =>                                             (* 1754-1811 *)
      let (T', st') := gettayl k res T st in
      let (x, jj) := abspick k arg T' in
      let (F', A') := skip res
        (if eqb K (T' arg 0) (zero K) then upd (upd F res (zero K)) arg five
         else fl1 F res arg None)
        (up (k - jj) (fun i A =>
           let i := jj + i in
           let a := A res i in
           let A := put A res i (zero K) in
           put A arg i (add K (A arg i) (mul K x a)))
         (zerorow jj res A)) in
      Some (T', F', A', st')
  | CeilOp arg res _ =>                                             (* 1814-1839 *)
      (* with a nonzero flag: AARG_INC = 5.0 with Aarg left over from another case *)
      if eqb K (F res) (zero K) then after res F A else None
  | FloorOp arg res _ =>                                            (* 1842-1868 *)
      (* ARES = 0.0 does not step over the flag, so that the loop clears the flag again and
         the coefficients 0 .. k-2 *)
      let (F', A') := skip res (upd (upd F res (zero K)) arg five) (zerorow (k - 1) res A) in
      (* the loop comes after AARG_INC = 5.0 *)
      let F' := if eqb K (F res) (zero K) then F' else upd F' res (zero K) in
      after res F' A'
  | CondAssign arg a1 a2 res _ =>                                   (* 1875-1958 *)
      let (T', st') := gettayl k res T st in
      let (F', A') :=
        if ltb K (zero K) (T' arg 0) then
          if Nat.eqb res a1 then (F, A)
          else skip res (upd (maxdec F a1 (F res)) res (zero K)) (mv0 k res a1 A)
        else if Nat.eqb res a2 then
          skip res (if eqb K (T' arg 0) (zero K) then upd (upd F a1 five) a2 five else F) A
        else skip res
               (upd (if eqb K (T' arg 0) (zero K) then upd (upd F a1 five) a2 five
                     else maxdec F a2 (F res)) res (zero K)) (mv0 k res a2 A) in
      Some (T', F', A', st')
  | CondEqAssign arg a1 a2 res _ =>                                 (* 1960-2031 *)
      let (T', st') := gettayl k res T st in
      let a := if leb K (zero K) (T' arg 0) then a1 else a2 in
      let (F', A') :=
        if Nat.eqb res a then (F, A)
        else skip res (upd (maxdec F a (F res)) res (zero K)) (mv0 k res a A) in
      Some (T', F', A', st')
  | CondAssignS arg a1 res _ =>                                     (* 2034-2081 *)
      let (T', st') := gettayl k res T st in
      let (F', A') :=
        if eqb K (T' arg 0) (zero K) then skip res (upd F a1 five) A
        else if ltb K (zero K) (T' arg 0) then
          if Nat.eqb res a1 then (F, A)
          else skip res (upd (maxdec F a1 (F res)) res (zero K)) (mv0 k res a1 A)
        else (F, A) in
      Some (T', F', A', st')
  | CondEqAssignS arg a1 res _ =>                                   (* 2082-2120 *)
      let (T', st') := gettayl k res T st in
      let (F', A') :=
        if leb K (zero K) (T' arg 0) then
          if Nat.eqb res a1 then (F, A)
          else skip res (upd (maxdec F a1 (F res)) res (zero K)) (mv0 k res a1 A)
        else (F, A) in
      Some (T', F', A', st')
  | SetRef res _ => after res F A                                   (* 2180-2208 *)
  | VecCopy arg size res => Some (hrcopy k size arg res 0 T F A st)
  | VecDot a1 a2 size res =>
      let (F', A') := hrdot k size a1 a2 res 0 T F A in after res F' A'
  | VecAxpy arg a1 a2 size res => Some (hraxpy k size arg a1 a2 res 0 T F A st)
  | TakeStock size res _ =>                                         (* 2817-2830 *)
      let (F', A') := hrzero k size res F A in Some (T, F', A', st)
  | DeathNot a1 a2 =>                                               (* 2833-2849 *)
      let (F', A') := hrzero k (S a2 - a1) a1 F A in
      let (T', st') := gettayl_up k (S a2 - a1) a1 T st in Some (T', F', A', st')
  end.

Record hrstate := mkHR {
  hrT : rows;               (* rpp_T *)
  hrF : vmem;               (* rpp_A[.][0] *)
  hrA : rows;               (* rpp_A[.][1 + i] *)
  hrk : list val;           (* Taylor stack, top first *)
  hrz : nat -> nat -> val;  (* results[i][0 .. k-1] *)
  hri : nat;                (* indexi + 1 *)
  hrd : nat                 (* indexd + 1 *)
}.

(* dc = the last i with LAGRANGE(l, indexd, i) != 0, 639-645 *)
Definition depflag (k : nat) (L : nat -> val) : val :=
  match up k (fun i (dc : option nat) => if eqb K (L i) (zero K) then dc else Some i) None with
  | None => zero K
  | Some 0 => one K
  | Some _ => two K
  end.

(* One pass of the loop 484-: L = lagrange.  The locations of the operations on
   references are those of the restored values, as in AdModel.rstep. *)
Definition hrstep (k : nat) (L : nat -> nat -> val) (o : op K) (s : hrstate) : option hrstate :=
  let b := resolve (fun l => hrT s l 0) o in
  match hrval k b (hrT s) (hrF s) (hrA s) (hrk s) with
  | None => None
  | Some (T', F', A', st') =>
      match b with
      | AssignInd res =>                                            (* 613-626 *)
          Some (mkHR T' F' A' st' (setrow (hrz s) (hri s - 1) (hrA s res) k) (hri s - 1) (hrd s))
      | AssignDep res =>                                            (* 634-648 *)
          Some (mkHR T' (upd F' res (depflag k (L (hrd s - 1))))
                     (setrow A' res (L (hrd s - 1)) k) st' (hrz s) (hri s) (hrd s - 1))
      | _ => Some (mkHR T' F' A' st' (hrz s) (hri s) (hrd s))
      end
  end.

(* the tape is read backwards *)
Definition hrrun (k : nat) (L : nat -> nat -> val) (t : list (op K)) (s : hrstate) : option hrstate :=
  fold_left (fun s o => match s with Some s => hrstep k L o s | None => None end) (rev t) (Some s).

(* hos_ti_reverse 244-: indexi = indep - 1, indexd = depen - 1; rpp_A and rpp_T come from
   myalloc2 and are not initialised *)
Definition hos_ti_reverse (degre : nat) (L : nat -> nat -> val) (n m : nat) (gT : rows) (gF : vmem)
  (gA : rows) (gz : nat -> nat -> val) (st : list val) (t : list (op K)) : option hrstate :=
  hrrun (S degre) L t (mkHR gT gF gA st gz n m).
(* hos_reverse 226-242 *)
Definition hos_reverse (degre : nat) (u : nat -> val) (n m : nat) (gT : rows) (gF : vmem)
  (gA : rows) (gz : nat -> nat -> val) (st : list val) (t : list (op K)) : option hrstate :=
  hos_ti_reverse degre (fun i j => match j with 0 => u i | S _ => zero K end) n m gT gF gA gz st t.

End Model.
