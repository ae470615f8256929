(* The meaning of a user program in plain double arithmetic, without any tape:
   the reference the replay properties are stated against (C11, C12, C13, C17,
   C27, C32).  Nothing here mentions operations, records or sweeps. *)
Require Import List ZArith Bool Arith Lia.
Require Import Verif.AdModel Verif.AdRecord Verif.AdSpec.
Import ListNotations.
Set Implicit Arguments.

Section Plain.
Variable K : Arith.
Notation val := (V K).
Notation mem := (mem K).

(* a OP 0 on doubles *)
Definition truth (r : relop) (v : val) : bool :=
  match r with
  | REq => eqb K v (zero K)
  | RNe => negb (eqb K v (zero K))
  | RLe => leb K v (zero K)
  | RGe => leb K (zero K) v
  | RLt => ltb K v (zero K)
  | RGt => ltb K (zero K) v
  end.

Definition in_range (a n l : nat) : bool := (a <=? l) && (l <? a + n).

(* What the C++ expression means for doubles.  T: values of the variables, by
   location; ps: parameters; x: inputs, i: how many of them were consumed.
   None: the program is stopped (subscript out of range). *)
Definition meaning (ps x : nat -> val) (i : nat) (T : mem) (c : call K)
  : option mem :=
  match c with
  | CDefault _ r => Some (upd T r (zero K))
  | CConst _ r c => Some (upd T r c)
  | CCopy _ a r | CAssign _ a r => Some (upd T r (T a))
  | CAssignP _ p r | CParam _ p r => Some (upd T r (ps p))
  | CInd _ r => Some (upd T r (x i))
  | CDeclInd _ r | CDep _ r => Some T
  | CEqD _ e r c => Some (upd T r (eq_val K e (T r) c))
  | CEqA _ e a r => Some (upd T r (eq_val K e (T r) (T a)))
  | CEqProd _ false _ a b y _ => Some (upd T y (add K (T y) (mul K (T a) (T b))))
  | CEqProd _ true _ a b y _ => Some (upd T y (sub K (T y) (mul K (T a) (T b))))
  | CInc _ r => Some (upd T r (add K (T r) (one K)))
  | CDec _ r => Some (upd T r (sub K (T r) (one K)))
  | CPostInc _ a r => Some (upd (upd T r (T a)) a (add K (T a) (one K)))
  | CPostDec _ a r => Some (upd (upd T r (T a)) a (sub K (T a) (one K)))
  | CUn _ u k a => Some (upd T (kres k a) (un_val K u (T a)))
  | CPow _ k a c => Some (upd T (kres k a) (vpow K (T a) c))
  | CBin _ o k a b => Some (upd T (kres k a) (bin_val K o (T a) (T b)))
  | CDivR _ a b => Some (upd T b (dvd K (T a) (T b)))
  | CSubR _ a b => Some (upd T b (sub K (T a) (T b)))
  | CCst _ o k c a => Some (upd T (kres k a) (cst_val K o c (T a)))
  | CSin _ k a _ => Some (upd T (kres k a) (fn K Fsin (T a)))
  | CCos _ k a _ => Some (upd T (kres k a) (fn K Fcos (T a)))
  | CHelp _ f k a _ => if is_helper f then Some (upd T (kres k a) (fn K f (T a)))
                       else Some T
  | CMin _ k a b => Some (upd T (kres k a) (if ltb K (T b) (T a) then T b else T a))
  | CMinR _ a b => Some (upd T b (if ltb K (T b) (T a) then T b else T a))
  | CCond _ res cond a1 a2 =>
      Some (upd T res (if ltb K (zero K) (T cond) then T a1 else T a2))
  | CCondS _ res cond a =>
      Some (if ltb K (zero K) (T cond) then upd T res (T a) else T)
  | CCondEq _ res cond a1 a2 =>
      Some (upd T res (if leb K (zero K) (T cond) then T a1 else T a2))
  | CCondEqS _ res cond a =>
      Some (if leb K (zero K) (T cond) then upd T res (T a) else T)
  | CVecCopy _ dst src n =>
      Some (fun l => if in_range dst n l then T (src + (l - dst)) else T l)
  | CVecDot _ r va vb n =>
      Some (upd T r (fold_left (fun s k => add K s (mul K (T (va + k)) (T (vb + k))))
                               (seq 0 n) (zero K)))
  | CVecAxpy _ res a va vb n =>
      Some (fun l => if in_range res n l
                     then add K (mul K (T a) (T (va + (l - res))))
                                (T (vb + (l - res)))
                     else T l)
  | CSubscript _ r idx vec n =>
      if n <=? tonat K (T idx) then None
      else Some (upd T r (T (vec + tonat K (T idx))))
  | CSubRef _ l idx vec n =>
      if n <=? tonat K (T idx) then None
      else Some (upd T l (ofnat K (vec + tonat K (T idx))))
  | CRefOut _ l r => Some (upd T r (T (tonat K (T l))))
  | CRefConst _ l c => Some (upd T (tonat K (T l)) c)
  | CRefAssign _ a l => Some (upd T (tonat K (T l)) (T a))
  | CRefInc _ l => let t := tonat K (T l) in Some (upd T t (add K (T t) (one K)))
  | CRefDec _ l => let t := tonat K (T l) in Some (upd T t (sub K (T t) (one K)))
  | CRefInd _ l => Some (upd T (tonat K (T l)) (x i))
  | CRefEqD _ e l c =>
      let t := tonat K (T l) in Some (upd T t (eq_val K e (T t) c))
  | CRefEqA _ e a l =>
      let t := tonat K (T l) in Some (upd T t (eq_val K e (T t) (T a)))
  | CRefCond _ l cond a1 a2 =>
      Some (upd T (tonat K (T l)) (if ltb K (zero K) (T cond) then T a1 else T a2))
  | CRefCondS _ l cond a =>
      Some (if ltb K (zero K) (T cond) then upd T (tonat K (T l)) (T a) else T)
  | CRefCondEq _ l cond a1 a2 =>
      Some (upd T (tonat K (T l)) (if leb K (zero K) (T cond) then T a1 else T a2))
  | CRefCondEqS _ l cond a =>
      Some (if leb K (zero K) (T cond) then upd T (tonat K (T l)) (T a) else T)
  | CFrexp _ a f => Some (upd T a (f (T a)))
  end.

Definition takes_input (c : call K) : bool :=
  match c with CInd _ _ | CDeclInd _ _ | CRefInd _ _ => true | _ => false end.

Definition gives_output (c : call K) (T : mem) : list val :=
  match c with CDep _ r => [T r] | _ => [] end.

(* Variables an expression reads, creates, assigns to, and the temporaries that
   are gone after it. *)
Definition newk (k : kind) : list nat := match k with Fresh r => [r] | Temp => [] end.

Definition creates (c : call K) : list nat :=
  match c with
  | CDefault _ r | CCopy _ _ r | CParam _ _ r | CPostInc _ _ r | CPostDec _ _ r => [r]
  | CEqProd _ _ k _ _ _ _ => newk k
  | CUn _ _ k _ | CPow _ k _ _ | CBin _ _ k _ _ | CCst _ _ k _ _ | CMin _ k _ _ => newk k
  | CSin _ k _ b | CCos _ k _ b => b :: newk k
  | CHelp _ _ k _ t => t :: newk k
  | CVecDot _ r _ _ _ | CSubscript _ r _ _ _ | CSubRef _ r _ _ _ | CRefOut _ _ r => [r]
  | _ => []
  end.

Definition reads (T : mem) (c : call K) : list nat :=
  match c with
  | CDefault _ _ | CConst _ _ _ | CAssignP _ _ _ | CParam _ _ _ | CInd _ _ => []
  | CCopy _ a _ | CAssign _ a _ => [a]
  | CDeclInd _ r | CDep _ r => [r]
  | CEqD _ _ r _ | CInc _ r | CDec _ r => [r]
  | CEqA _ _ a r => [a; r]
  | CEqProd _ _ _ a b y _ => [a; b; y]
  | CPostInc _ a _ | CPostDec _ a _ => [a]
  | CUn _ _ _ a | CPow _ _ a _ | CCst _ _ _ _ a => [a]
  | CBin _ _ _ a b | CDivR _ a b | CSubR _ a b | CMin _ _ a b | CMinR _ a b => [a; b]
  | CSin _ _ a _ | CCos _ _ a _ | CHelp _ _ _ a _ => [a]
  | CCond _ _ cond a1 a2 | CCondEq _ _ cond a1 a2 => [cond; a1; a2]
  | CCondS _ res cond a | CCondEqS _ res cond a => [cond; a; res]
  | CVecCopy _ _ src n => seq src n
  | CVecDot _ _ va vb n => seq va n ++ seq vb n
  | CVecAxpy _ _ a va vb n => a :: seq va n ++ seq vb n
  | CSubscript _ _ idx vec n => idx :: seq vec n
  | CSubRef _ _ idx vec n => [idx]
  | CRefOut _ l _ => [l; tonat K (T l)]
  | CRefConst _ l _ | CRefInd _ l => [l]
  | CRefAssign _ a l => [a; l]
  | CRefInc _ l | CRefDec _ l | CRefEqD _ _ l _ => [l; tonat K (T l)]
  | CRefEqA _ _ a l => [a; l; tonat K (T l)]
  | CRefCond _ l cond a1 a2 | CRefCondEq _ l cond a1 a2 => [cond; a1; a2; l]
  | CRefCondS _ l cond a | CRefCondEqS _ l cond a => [cond; a; l; tonat K (T l)]
  | CFrexp _ a _ => [a]
  end.

Definition assigns (T : mem) (c : call K) : list nat :=
  match c with
  | CDefault _ r | CConst _ r _ | CCopy _ _ r | CAssign _ _ r | CAssignP _ _ r
  | CParam _ _ r | CInd _ r | CEqD _ _ r _ | CEqA _ _ _ r | CInc _ r | CDec _ r => [r]
  | CDeclInd _ _ | CDep _ _ => []
  | CEqProd _ _ _ _ _ y _ => [y]
  | CPostInc _ a r | CPostDec _ a r => [r; a]
  | CUn _ _ k a | CPow _ k a _ | CBin _ _ k a _ | CCst _ _ k _ a | CSin _ k a _
  | CCos _ k a _ | CMin _ k a _ => [kres k a]
  | CHelp _ f k a _ => if is_helper f then [kres k a] else []
  | CDivR _ _ b | CSubR _ _ b | CMinR _ _ b => [b]
  | CCond _ res _ _ _ | CCondEq _ res _ _ _ | CCondS _ res _ _
  | CCondEqS _ res _ _ => [res]
  | CVecCopy _ dst _ n => seq dst n
  | CVecDot _ r _ _ _ => [r]
  | CVecAxpy _ res _ _ _ n => seq res n
  | CSubscript _ r _ _ _ | CSubRef _ r _ _ _ | CRefOut _ _ r => [r]
  | CRefConst _ l _ | CRefAssign _ _ l | CRefInc _ l | CRefDec _ l | CRefInd _ l
  | CRefEqD _ _ l _ | CRefEqA _ _ _ l | CRefCond _ l _ _ _ | CRefCondS _ l _ _
  | CRefCondEq _ l _ _ _ | CRefCondEqS _ l _ _ => [tonat K (T l)]
  | CFrexp _ a _ => []
  end.

Definition dies (c : call K) : list nat :=
  match c with
  | CEqProd _ _ k a _ _ _ => [kres k a]
  | CSin _ _ _ b | CCos _ _ _ b | CHelp _ _ _ _ b => [b]
  | CFrexp _ a _ => [a]
  | _ => []
  end.

Definition apart (a n b m : nat) : Prop := a + n <= b \/ b + m <= a.

(* Conditions under which the call does what it says (each names a defect of the
   code or a limit of the representation).  *)
Definition allowed (x : nat -> val) (i : nat) (T : mem) (c : call K) : Prop :=
  match c with
  | CConst _ _ c | CRefConst _ _ c =>                 (* the constant is not -0.0 *)
      eqb K c (zero K) = true -> c = zero K
  | CDeclInd _ r => T r = x i              (* the input given is the variable's *)
  | CEqProd _ _ k a _ y _ => y <> kres k a
  | CCst _ KAdd _ c _ | CCst _ KSub _ c _ =>   (* 0+a, 0-a: see Binary64.v *)
      eqb K c (zero K) = false \/ ZeroLaws K
  | CMin _ (Fresh r) a b =>                (* adouble.cpp:4707 *)
      ltb K (T b) (T a) = true \/ T a = ofnat K a
  | CRefAssign _ a l => a <> l
  | CSubR _ a b => a <> b
  | CVecCopy _ dst src n => apart dst n src n
  | CVecAxpy _ res a va vb n =>
      apart res n a 1 /\ (apart res n va n \/ res = va) /\
      (apart res n vb n \/ res = vb)
  | CSubscript _ _ _ _ n | CSubRef _ _ _ _ n => tonat K (ofnat K n) = n
  | _ => True
  end.

(* State of the plain program *)
Record pst := mkPst {
  pT : mem;                 (* values *)
  pi : nat;                 (* inputs consumed *)
  py : list val;            (* outputs produced *)
  pd : list bool;           (* outcomes of the comparisons *)
  pD : nat -> Prop          (* locations that hold the value of a variable *)
}.

Definition pnext (c : call K) (T' : mem) (q : pst) : pst :=
  mkPst T' (if takes_input c then S (pi q) else pi q)
        (py q ++ gives_output c (pT q)) (pd q)
        (fun l => (pD q l \/ In l (assigns (pT q) c)) /\ ~ In l (dies c)).

Definition pcmp (r : relop) (a : nat) (q : pst) : pst :=
  mkPst (pT q) (pi q) (py q) (pd q ++ [truth r (pT q a)]) (pD q).

Fixpoint plain (ps x : nat -> val) (p : prog K) (q : pst) : option pst :=
  match p with
  | Ret _ => Some q
  | Do c p' => match meaning ps x (pi q) (pT q) c with
               | Some T' => plain ps x p' (pnext c T' q)
               | None => None
               end
  | If r a pt pf =>
      if truth r (pT q a) then plain ps x pt (pcmp r a q)
      else plain ps x pf (pcmp r a q)
  end.

(* The program run at x uses variables only after they got a value, compares
   ordered values, new variables get locations not in use by the operands, and
   every call is allowed. *)
Fixpoint wellbehaved (ps x : nat -> val) (p : prog K) (q : pst) : Prop :=
  match p with
  | Ret _ => True
  | Do c p' =>
      (forall l, In l (reads (pT q) c) -> pD q l) /\
      (forall l, In l (creates c) -> ~ In l (reads (pT q) c)) /\
      NoDup (creates c) /\
      allowed x (pi q) (pT q) c /\
      match meaning ps x (pi q) (pT q) c with
      | Some T' => wellbehaved ps x p' (pnext c T' q)
      | None => True
      end
  | If r a pt pf =>
      pD q a /\ ordered K (pT q a) /\
      (if truth r (pT q a) then wellbehaved ps x pt (pcmp r a q)
       else wellbehaved ps x pf (pcmp r a q))
  end.

(* The program starts with the variables that were alive at trace_on. *)
Definition pstart (T0 : mem) (chunks : list nat) : pst :=
  mkPst T0 0 [] [] (stocked chunks).

End Plain.
