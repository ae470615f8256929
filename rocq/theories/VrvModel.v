(* Model of the second sweep pair of hess_mat and hessian2: hov_wk_forward and
   hos_ov_reverse, several directions, one weight.

   Modelled code: ADOL-C/src/uni5_for.cpp compiled with _HOV_WK_ and _KEEP_ (what
   hov_wk_forward with keep = degree + 1 puts on the Taylor stack; its coefficients are
   those of hov_forward, HovModel), TapeInfos::write_taylors and get_taylors_p
   (valuetape/tapeinfos.cpp:104-119, 159-183) and ADOL-C/src/ho_rev.cpp compiled
   with _HOS_OV_ (hos_ov_reverse).  k = degre + 1.

   rpp_T[loc] is a block of p * k numbers, direction l the k numbers from l*k;
   rpp_A[loc] a block of p * (k+1) numbers.  Both are modelled as one memory per
   direction (the pointers never leave the block of the variable; floor and ceil, which
   lose their place in it, stop the modelled sweep).  The loop over l in a case of
   the switch does in direction l what the same case does in hos_reverse (HrvModel), but
   the pointers Tres, Targ, Targ1, Targ2 move on only when the flag ARES is not 0, so that they
   stand in direction [live F res l] (971-974, 1152, 1199 and so on).

   myalloc2 is calloc (adalloc.cpp:21-33): rpp_A and rpp_T start with zeros.

   Not modelled: the return code; ext_diff; cbrt. *)
Require Import List ZArith Bool Arith Lia.
Require Import Verif.AdModel Verif.HosModel Verif.HovModel Verif.HrvModel.
Import ListNotations.
Set Implicit Arguments.
Set Asymmetric Patterns.

Section Model.
Variable K : Arith.
Notation val := (V K).
Notation vmem := (mem K).
Notation rows := (rows K).
Variable eps : val.               (* ADOLC_EPS, usrparms.h:47 *)

(* ------------------------------------------------------------------ *)
(* hov_wk_forward, keep = d + 1                                          *)

(* dp_T0[loc], then dpp_T[loc], d coefficients of every direction: uni5_for.cpp:231-241,
   tapeinfos.cpp:104-119 *)
Definition wtaken (p d : nat) (T : vmem) (C : rows) (loc : nat) : list val :=
  T loc :: map (C loc) (seq 0 (p * d)).
(* vec_copy 4967-4988, vec_axpy 5087-5146 *)
Fixpoint wcopy_push (p d n arg res q : nat) (T : vmem) (C : rows) : list val :=
  match n with
  | 0 => []
  | S n' => wtaken p d T C (res + q) ++
            wcopy_push p d n' arg res (S q) (upd T (res + q) (T (arg + q)))
              (wrow p d (res + q) (fun i C => C (arg + q) i) C)
  end.
Fixpoint waxpy_push (p d n arg a1 a2 res q : nat) (T : vmem) (C : rows) : list val :=
  match n with
  | 0 => []
  | S n' => wtaken p d T C (res + q) ++
            waxpy_push p d n' arg a1 a2 res (S q)
              (upd T (res + q) (add K (mul K (T arg) (T (a1 + q))) (T (a2 + q))))
              (wprow (add K) p d (res + q) arg (a1 + q)
                  (fun i C => add K (lin (T arg) (T (a1 + q)) arg (a1 + q) i C) (C (a2 + q) i)) C)
  end.
(* the places of IF_KEEP_WRITE_TAYLOR, as in HrvModel.hpushes *)
Definition wpushes (p d : nat) (b : bop K) (T : vmem) (C : rows) : list val :=
  match b with
  | Cmp _ _ | AssignDep _ | EqPlusProd _ _ _ | EqMinProd _ _ _
  | TakeStock _ _ _ => []
  | AssignA _ res | AssignD res _ | AssignP _ res | AssignD0 res | AssignD1 res
  | AssignInd res | EqPlusD res _ | EqPlusA _ res | EqMinD res _ | EqMinA _ res
  | EqMultD res _ | EqMultA _ res | Incr res | Decr res
  | PlusAA _ _ res | PlusDA _ res _ | MinAA _ _ res | MinDA _ res _
  | MultAA _ _ res | MultDA _ res _ | DivAA _ _ res | DivDA _ res _
  | PosSign _ res | NegSign _ res | ExpOp _ res | HelpOp _ _ _ res
  | LogOp _ res | PowOp _ res _ | SqrtOp _ res | CbrtOp _ res
  | GenQuad _ _ res _ _ | MinOp _ _ res _ | AbsVal _ res _ | CeilOp _ res _
  | FloorOp _ res _ | CondAssign _ _ _ res _ | CondEqAssign _ _ _ res _
  | CondAssignS _ _ res _ | CondEqAssignS _ _ res _ | SetRef res _
  | VecDot _ _ _ res => wtaken p d T C res
  | SinOp _ a2 res | CosOp _ a2 res => wtaken p d T C a2 ++ wtaken p d T C res
  | VecCopy arg size res => wcopy_push p d size arg res 0 T C
  | VecAxpy arg a1 a2 size res => waxpy_push p d size arg a1 a2 res 0 T C
  | DeathNot a1 a2 => flat_map (wtaken p d T C) (down (a2 - a1) a1)
  end.

Record wkstate := mkWK {
  wkW : wstate K;            (* the sweep *)
  wkk : list val             (* Taylor stack, top first *)
}.
Definition wkstep (p d : nat) (ps x : nat -> val) (xc : nat -> nat -> nat -> val) (o : op K)
  (s : wkstate) : wkstate + option wkstate :=
  let w := wkW s in
  let b := resolve (fT (wF w)) o in
  match wstep p d ps x xc o w with
  | inl w' => inl (mkWK w' (rev (wpushes p d b (fT (wF w)) (wC w)) ++ wkk s))
  | inr (Some w') => inr (Some (mkWK w' (wkk s)))
  | inr None => inr None
  end.
Fixpoint wkrun (p d : nat) (ps x : nat -> val) (xc : nat -> nat -> nat -> val) (t : list (op K))
  (s : wkstate) : option wkstate :=
  match t with
  | [] => Some s
  | o :: t' =>
      match wkstep p d ps x xc o s with
      | inl s' => wkrun p d ps x xc t' s'
      | inr r => r
      end
  end.
(* hov_wk_forward(tag, m, n, d, keep = d + 1, p, ..) *)
Definition hov_wk_forward (p d : nat) (ps x : nat -> val) (xc : nat -> nat -> nat -> val)
  (g : vmem) (gc : rows) (t : list (op K)) : option wkstate :=
  wkrun p d ps x xc t (mkWK (mkW (mkF g 0 [] 3%Z []) gc []) []).

(* ------------------------------------------------------------------ *)
(* hos_ov_reverse                                                        *)

(* how many GET_TAYL the case executes *)
Definition frames (b : bop K) : nat :=
  match b with
  | Cmp _ _ | AssignDep _ | EqPlusProd _ _ _ | EqMinProd _ _ _ | TakeStock _ _ _ => 0
  | SinOp _ _ _ | CosOp _ _ _ => 2
  | VecCopy _ size _ | VecAxpy _ _ _ size _ => size
  | DeathNot a1 a2 => S a2 - a1
  | _ => 1
  end.
(* What n calls of get_taylors_p (tapeinfos.cpp:159-183) take from the stack for direction
   l, top first.  One call takes the d = k - 1 coefficients of direction p-1, last one
   first, then those of p-2, .., and at last the base value, which goes to all directions. *)
Fixpoint vproj (p k l n : nat) (st : list val) : list val :=
  match n with
  | 0 => []
  | S n' => map (fun i => nth ((p - 1 - l) * (k - 1) + i) st (zero K)) (seq 0 (k - 1)) ++
            [nth (p * (k - 1)) st (zero K)] ++ vproj p k l n' (skipn (1 + p * (k - 1)) st)
  end.

Definition fam (A : Type) := nat -> A.        (* one per direction *)
Definition updd (A : Type) (f : fam A) (l : nat) (a : A) : fam A :=
  fun l' => if Nat.eqb l' l then a else f l'.

(* the direction in which the pointers into rpp_T stand when l directions are done *)
Definition live (F : fam vmem) (res l : nat) : nat :=
  length (filter (fun l' => negb (eqb K (F l' res) (zero K))) (seq 0 l)).
Definition vsrc (b : bop K) (F : fam vmem) (l : nat) : nat :=
  match b with
  | EqMultA _ res | MultAA _ _ res | DivAA _ _ res | DivDA _ res _ | ExpOp _ res
  | SinOp _ _ res | CosOp _ _ res | HelpOp _ _ _ res | LogOp _ res | PowOp _ res _
  | SqrtOp _ res | GenQuad _ _ res _ _ | VecDot _ _ _ res => live F res l
  (* *Targ, Targ1[0], Targ2[0]: the base value of direction 0 *)
  | MinOp _ _ _ _ | CondAssign _ _ _ _ _ | CondEqAssign _ _ _ _ _
  | CondAssignS _ _ _ _ | CondEqAssignS _ _ _ _ => 0
  (* abs_val 1777, 1809: the pointer moves in every direction; the other cases do not
     read rpp_T *)
  | _ => l
  end.

Definition oT (o : option (rows * vmem * rows * list val)) (d : rows) : rows :=
  match o with Some (T, _, _, _) => T | None => d end.
Definition oF (o : option (rows * vmem * rows * list val)) (d : vmem) : vmem :=
  match o with Some (_, F, _, _) => F | None => d end.
Definition oA (o : option (rows * vmem * rows * list val)) (d : rows) : rows :=
  match o with Some (_, _, A, _) => A | None => d end.
Definition some (A : Type) (o : option A) : bool := match o with Some _ => true | None => false end.

(* the loop over the directions in a case that reads its T rows after GET_TAYL or, with
   vsrc, before it *)
Definition vloop (p k : nat) (b : bop K) (T : fam rows) (F : fam vmem) (A : fam rows) (st : list val)
  : option (fam rows * fam vmem * fam rows) :=
  let own l := hrval eps k b (T l) (F l) (A l) (vproj p k l (frames b) st) in
  let adj l := hrval eps k b (T (vsrc b F l)) (F l) (A l) (vproj p k (vsrc b F l) (frames b) st) in
  if forallb (fun l => some (own l) && some (adj l)) (seq 0 p)
  then Some (fun l => if Nat.ltb l p then oT (own l) (T l) else T l,
             fun l => if Nat.ltb l p then oF (adj l) (F l) else F l,
             fun l => if Nat.ltb l p then oA (adj l) (A l) else A l)
  else None.
(* eq_plus_prod 998-1024, eq_min_prod 1047-1073: the recomputation of Tres is inside the
   loop, at the place where the pointers stand *)
Definition vprod (p k : nat) (b : bop K) (res : nat) (T : fam rows) (F : fam vmem) (A : fam rows)
  : fam rows * fam vmem * fam rows :=
  up p (fun l (s : fam rows * fam vmem * fam rows) =>
    let '(Tn, Fn, An) := s in
    let t := live F res l in
    let r := hrval eps k b (Tn t) (F l) (A l) [] in
    (updd Tn t (oT r (Tn t)), updd Fn l (oF r (F l)), updd An l (oA r (A l)))) (T, F, A).

Definition anyflag (p : nat) (F : fam vmem) (res : nat) : bool :=
  existsb (fun l => negb (eqb K (F l res) (zero K))) (seq 0 p).

(* One operation: rpp_T, flags, rpp_A, Taylor stack *)
Definition vrval (p k : nat) (b : bop K) (T : fam rows) (F : fam vmem) (A : fam rows) (st : list val)
  : option (fam rows * fam vmem * fam rows * list val) :=
  let st' := skipn (frames b * (1 + p * (k - 1))) st in
  let on r := match r with Some (T', F', A') => Some (T', F', A', st') | None => None end in
  match b with
  | EqPlusProd _ _ res | EqMinProd _ _ res => on (Some (vprod p k b res T F A))
  | VecAxpy _ _ _ _ _ =>
      (* 2513-2547: no loop over the directions, only direction 0 is treated *)
      match vloop p k b T F A st with
      | Some (T', F', A') => Some (T', updd F 0 (F' 0), updd A 0 (A' 0), st')
      | None => None
      end
  | FloorOp _ res _ =>
      (* 1854-1867: Ares is left one short in every direction with a nonzero flag *)
      if anyflag p F res then None else on (vloop p k b T F A st)
  | MinOp a1 a2 res _ =>
      (* 1668-1673: equal values: ADOLCError::fail, whatever the flags *)
      let T0 := fst (gettayl k res (T 0) (vproj p k 0 1 st)) in
      if ltb K (T0 a2 0) (T0 a1 0) || ltb K (T0 a1 0) (T0 a2 0)
      then on (vloop p k b T F A st) else None
  | _ => on (vloop p k b T F A st)
  end.

Record vrstate := mkVR {
  vrT : fam rows;                  (* rpp_T *)
  vrF : fam vmem;                  (* flags *)
  vrA : fam rows;                  (* rpp_A without the flags *)
  vrk : list val;                  (* Taylor stack, top first *)
  vrz : nat -> nat -> nat -> val;  (* results[l][i][0 .. k-1] *)
  vri : nat;                       (* indexi + 1 *)
  vrd : nat                        (* indexd + 1 *)
}.
(* One pass of the loop 484-.  The location of an operation on a reference is read from the
   base value of direction 0. *)
Definition vrstep (p k : nat) (L : nat -> nat -> val) (o : op K) (s : vrstate) : option vrstate :=
  let b := resolve (fun l => vrT s 0 l 0) o in
  match vrval p k b (vrT s) (vrF s) (vrA s) (vrk s) with
  | None => None
  | Some (T', F', A', st') =>
      match b with
      | AssignInd res =>                                            (* 613-626 *)
          Some (mkVR T' F' A' st'
                  (fun l => if Nat.ltb l p then @setrow K (vrz s l) (vri s - 1) (vrA s l res) k else vrz s l)
                  (vri s - 1) (vrd s))
      | AssignDep res =>                                            (* 634-648 *)
          Some (mkVR T'
                  (fun l => if Nat.ltb l p then upd (F' l) res (@depflag K k (L (vrd s - 1))) else F' l)
                  (fun l => if Nat.ltb l p then @setrow K (A' l) res (L (vrd s - 1)) k else A' l)
                  st' (vrz s) (vri s) (vrd s - 1))
      | _ => Some (mkVR T' F' A' st' (vrz s) (vri s) (vrd s))
      end
  end.
Definition vrrun (p k : nat) (L : nat -> nat -> val) (t : list (op K)) (s : vrstate) : option vrstate :=
  fold_left (fun s o => match s with Some s => vrstep p k L o s | None => None end) (rev t) (Some s).

(* hos_ov_reverse(tag, m, n, degre, p, lagrange[m][k], results[p][n][k]): ho_rev.cpp:256- *)
Definition hos_ov_reverse (degre p : nat) (L : nat -> nat -> val) (n m : nat)
  (gz : nat -> nat -> nat -> val) (st : list val) (t : list (op K)) : option vrstate :=
  vrrun p (S degre) L t
    (mkVR (fun _ _ _ => zero K) (fun _ _ => zero K) (fun _ _ _ => zero K) st gz n m).

End Model.
