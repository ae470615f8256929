(* Model of the Hessian sparsity pattern sweeps.

   Modelled code:
     ADOL-C/src/uni5_for.cpp  with _INDO_ and _NONLIND_
         nonl_ind_forward_safe   (_NTIGHT_), built by src/nonl_ind_forward_s.cpp
         nonl_ind_forward_tight  (_TIGHT_),  built by src/nonl_ind_forward_t.cpp
         traverse_crs (6052-6098), traverse_unary (6100-6117)
     ADOL-C/include/adolc/sparse/sparsedrivers.h:1142-1159
         hess_pat<Safe>, hess_pat<Tight>
     the counters NUM_EQ_PROD and NUM_DEPENDENTS of a recorded trace:
     include/adolc/valuetape/valuetape.h:250-256 and their callers
     src/adouble.cpp:321, 465, 5601, 5635.

   Cells of the array fod are written once, and their pointers lead to cells
   written before, so a cell is represented by the tree that can be reached from
   it.  Junk stands for memory that has not been initialised: an element of
   arg_index or a cell of fod (both are allocated with new[] and no initialiser,
   1194-1196).  Following a junk pointer, and writing behind the end of an array,
   is undefined behaviour.

   Line numbers refer to uni5_for.cpp.  Not modelled: free_tree (memory release),
   the return code of a sweep that is not aborted, the running time of the
   traversals, the _NONLIND_OLD_ variants. *)
Require Import List ZArith Bool Arith Lia.
Require Import Verif.AdModel Verif.AdSpec Verif.SpModel.
Import ListNotations.
Set Implicit Arguments.

(* struct IndexElement, 172-176 *)
Inductive tree :=
| Junk
| Nil                        (* entry = maxopind+2, no successors *)
| Leaf (e : nat)             (* entry = number of an independent *)
| Un (t : tree)              (* left only *)
| Bin (l r : tree).

(* Entries met by traverse_unary (and by traverse_crs) in the order they are met;
   None: an uninitialised pointer is followed. *)
Fixpoint leaves (t : tree) : option (list nat) :=
  match t with
  | Junk => None
  | Nil => Some []
  | Leaf e => Some [e]
  | Un l => leaves l
  | Bin l r =>
      match leaves l, leaves r with
      | Some a, Some b => Some (a ++ b)
      | _, _ => None
      end
  end.

(* hA = arg_index with the cell it leads to, hk = opind, hN = the cells attached
   to nonl_dom[e], as pairs (e, cell), oldest first. *)
Record hst := mkH { hA : nat -> tree; hk : nat; hN : list (nat * tree) }.
Definition aset (A : nat -> tree) (l : nat) (t : tree) : nat -> tree :=
  fun j => if Nat.eqb j l then t else A j.

Section Nl.
Variable K : Arith.
Notation val := (V K).
Notation mem := (mem K).
Notation op := (op K).
Notation bop := (bop K).

Variables (cap ninds : nat).       (* maxopind, indcheck *)

(* fod[opind++] = ... : a cell that no location refers to *)
Definition cell (s : hst) : option hst :=
  if Nat.ltb (hk s) cap then Some (mkH (hA s) (S (hk s)) (hN s)) else None.
(* arg_index[res] = arg_index[arg] *)
Definition point (res : nat) (t : tree) (s : hst) : hst :=
  mkH (aset (hA s) res t) (hk s) (hN s).
(* fod[opind] = t; arg_index[res] = opind++ *)
Definition fresh (res : nat) (t : tree) (s : hst) : option hst :=
  option_map (point res t) (cell s).
(* traverse_unary(t, nonl_dom, f, ..): 6100-6117 *)
Definition attach (t f : tree) (s : hst) : option hst :=
  match leaves t with
  | Some L => if forallb (fun e => Nat.ltb e ninds) L
              then Some (mkH (hA s) (hk s) (hN s ++ map (fun e => (e, f)) L))
              else None
  | None => None
  end.
Definition bind (o : option hst) (f : hst -> option hst) : option hst :=
  match o with Some s => f s | None => None end.
(* the unary functions: fod[opind] = {left = arg}; traverse_unary(&fod[opind],
   .., &fod[opind]) *)
Definition unary (res arg : nat) (s : hst) : option hst :=
  let t := Un (hA s arg) in
  bind (attach t t s) (fresh res t).

(* Loop of vec_copy 4967-4988 *)
Fixpoint hcopy (n arg res q : nat) (s : hst) : hst :=
  match n with
  | 0 => s
  | S n' => hcopy n' arg res (S q) (point (res + q) (hA s (arg + q)) s)
  end.
(* Loop of vec_dot 5018-5077 *)
Fixpoint hdot (n a1 a2 res q : nat) (s : hst) : option hst :=
  match n with
  | 0 => Some s
  | S n' =>
      let t1 := hA s (a1 + q) in let t2 := hA s (a2 + q) in
      let p := Bin t1 t2 in
      bind (bind (bind (bind (cell s) (attach t1 p)) (attach t2 p))
                 (fresh res (Bin (hA s res) p)))
           (hdot n' a1 a2 res (S q))
  end.
(* Loop of vec_axpy 5087-5146 *)
Fixpoint haxpy (n arg a1 a2 res q : nat) (s : hst) : option hst :=
  match n with
  | 0 => Some s
  | S n' =>
      let t1 := hA s arg in let t2 := hA s (a1 + q) in
      let p := Bin t1 t2 in
      bind (bind (bind (bind (cell s) (attach t1 p)) (attach t2 p))
                 (fresh (res + q) (Bin p (hA s (a2 + q)))))
           (haxpy n' arg a1 a2 res (S q))
  end.

(* One operation in safe mode; i = indexi. *)
Definition hsafe (i : nat) (b : bop) (s : hst) : option hst :=
  let A := hA s in
  match b with
  | Cmp _ _ _ | AssignDep _ _ | DeathNot _ _ _ => Some s
  | AssignA _ arg res | PlusDA _ arg res _ | MinDA _ arg res _
  | MultDA _ arg res _ | PosSign _ arg res | NegSign _ arg res
  | AbsVal _ arg res _ | CeilOp _ arg res _ | FloorOp _ arg res _ =>
      Some (point res (A arg) s)
      (* 1446 1941 2012 2240 2406 2434 3924 4022 4060 *)
  | AssignD _ res _ | AssignP _ _ res | AssignD0 _ res | AssignD1 _ res =>
      fresh res Nil s                       (* 1478-81 1512-15 1542-45 1572-75 *)
  | AssignInd _ res => fresh res (Leaf i) s                      (* 1604-1607 *)
  | EqPlusD _ _ _ | EqMinD _ _ _ | EqMultD _ _ _ | Incr _ _ | Decr _ _ => Some s
  | EqPlusA _ arg res | EqMinA _ arg res =>
      fresh res (Bin (A res) (A arg)) s              (* 1704-1707, 1756-1759 *)
  | EqMultA _ arg res =>                                         (* 1815-1822 *)
      bind (bind (attach (A res) (A arg) s) (attach (A arg) (A res)))
           (fresh res (Bin (A res) (A arg)))
  | PlusAA _ a1 a2 res | MinAA _ a1 a2 res =>
      fresh res (Bin (A a1) (A a2)) s                (* 1900-1903, 1971-1974 *)
  | MultAA _ a1 a2 res =>                                        (* 2041-2048 *)
      bind (bind (attach (A a1) (A a2) s) (attach (A a2) (A a1)))
           (fresh res (Bin (A a1) (A a2)))
  | EqPlusProd _ a1 a2 res =>                                    (* 2101-2115 *)
      let p := Bin (A a1) (A a2) in
      bind (bind (bind (cell s) (attach (A a1) (A a2))) (attach (A a2) (A a1)))
           (fresh res (Bin (A res) p))
  | EqMinProd _ a1 a2 res =>                                     (* 2167-2181 *)
      let p := Bin (A a1) (A a2) in
      bind (bind (bind (cell s) (attach (A a1) p)) (attach (A a2) p))
           (fresh res (Bin (A res) p))
  | DivAA _ a1 a2 res =>                                         (* 2278-2285 *)
      let p := Bin (A a1) (A a2) in
      bind (bind (attach (A a1) (A a2) s) (attach (A a2) p)) (fresh res p)
  | DivDA _ arg res _ | ExpOp _ arg res | LogOp _ arg res | PowOp _ arg res _
  | SqrtOp _ arg res | CbrtOp _ arg res => unary res arg s
      (* 2346-51 2470-75 3299-3304 3381-86 3509-14 3591-96 *)
  | SinOp _ a1 _ res | CosOp _ a1 _ res | HelpOp _ _ a1 _ res => unary res a1 s
      (* 2532-37 2604-09 2674-79 2735-40 2835-40 2935-40 2996-3001 3081-86
         3188-93 3246-51 *)
  | GenQuad _ _ _ _ _ _ => Some s                      (* aborted, 3674-3677 *)
  | MinOp _ a1 a2 res _ =>      (* 3776-3780: arg_index[res] = opind++ twice, the
                                   second cell is never written *)
      bind (fresh res (Bin (A a1) (A a2)) s) (fresh res Junk)
  | CondAssign _ _ _ _ res _ | CondEqAssign _ _ _ _ res _ =>
      fresh res Junk s                    (* 4130, 4237: the cell is not written *)
  | CondAssignS _ _ a1 res _ | CondEqAssignS _ _ a1 res _ =>
      Some (point res (A a1) s)                                  (* 4313, 4374 *)
  | SetRef _ _ _ => Some s
  | VecCopy _ arg n res => Some (hcopy n arg res 0 s)            (* 4978 *)
  | VecDot _ a1 a2 n res => bind (fresh res Nil s) (hdot n a1 a2 res 0)
  | VecAxpy _ arg a1 a2 n res => haxpy n arg a1 a2 res 0 s
  | TakeStock _ _ _ _ => Some s                                  (* 5476-5492 *)
  end.

(* Tight mode; T = dp_T0 before the operation, ref = the location was found
   through a reference (ref_cond_assign_s, ref_cond_eq_assign_s). *)
Definition htight (ref : bool) (i : nat) (b : bop) (T : mem) (s : hst)
  : option hst :=
  let A := hA s in
  match b with
  | MinOp _ a1 a2 res _ =>                                       (* 3756-3774 *)
      if ltb K (T a1) (T a2) then fresh res (Un (A a1)) s
      else if ltb K (T a2) (T a1) then fresh res (Un (A a2)) s
      else fresh res (Bin (A a1) (A a2)) s
  | CondAssign _ arg a1 a2 res _ =>                 (* 4113-4127, 5169-5193 *)
      Some (point res (A (if ltb K (zero K) (T arg) then a1 else a2)) s)
  | CondEqAssign _ arg a1 a2 res _ =>               (* 4222-4234, 5270-5292 *)
      Some (point res (A (if leb K (zero K) (T arg) then a1 else a2)) s)
  | CondAssignS _ arg a1 res _ =>                   (* 4313; 5360-5367 *)
      if ref && negb (ltb K (zero K) (T arg)) then Some s
      else Some (point res (A a1) s)
  | CondEqAssignS _ arg a1 res _ =>                 (* 4374; 5420-5427 *)
      if ref && negb (leb K (zero K) (T arg)) then Some s
      else Some (point res (A a1) s)
  | _ => hsafe i b s
  end.

(* traverse_crs: insertion into the list sod, 6064-6097 *)
Fixpoint ins (e : nat) (l : list nat) : list nat :=
  match l with
  | [] => [e]
  | y :: l' => if Nat.ltb y e then y :: ins e l'
               else if Nat.ltb e y then e :: y :: l' else y :: l'
  end.
(* crs[i], 5870-5882 *)
Fixpoint gather (i : nat) (N : list (nat * tree)) (acc : list nat)
  : option (list nat) :=
  match N with
  | [] => Some acc
  | (e, f) :: N' =>
      if Nat.eqb e i then
        match leaves f with
        | Some L => gather i N' (fold_left (fun a e => ins e a) L acc)
        | None => None
        end
      else gather i N' acc
  end.
Fixpoint all_rows (n i : nat) (N : list (nat * tree)) : option (list (list nat)) :=
  match n with
  | 0 => Some []
  | S n' => match gather i N [], all_rows n' (S i) N with
            | Some r, Some rs => Some (r :: rs)
            | _, _ => None
            end
  end.

Inductive hres :=
| HRows (rows : list (list nat))    (* crs[0], ..., crs[indcheck-1] *)
| HAbort (code : Z)                 (* negative return code *)
| HFail                             (* ADOLCError::fail *)
| HUndef.                           (* undefined behaviour *)
Definition finish (s : hst) : hres :=
  match all_rows ninds 0 (hN s) with Some r => HRows r | None => HUndef end.
Definition hinit : hst := mkH (fun _ => Junk) 0 [].

(* The advector operations end in ADOLCError::fail in safe mode, gen_quad in
   return -2 in both. *)
Fixpoint nsrun (t : list op) (i : nat) (s : hst) : hres :=
  match t with
  | [] => finish s
  | Plain b :: t' =>
      match b with
      | GenQuad _ _ _ _ _ _ => HAbort (-2)
      | _ => match hsafe i b s with
             | Some s' => nsrun t' (if is_ind b then S i else i) s'
             | None => HUndef
             end
      end
  | _ :: _ => HFail
  end.

Definition is_plain (o : op) : bool := match o with Plain _ => true | _ => false end.
Fixpoint ntrun (ps x : nat -> val) (t : list op) (i : nat) (T : mem) (s : hst)
  : hres :=
  match t with
  | [] => finish s
  | o :: t' =>
      if oob T o then HFail else
      let b := resolve T o in
      match b with
      | GenQuad _ _ _ _ _ _ => HAbort (-2)
      | _ =>
        match zabort b T with
        | Some c => HAbort c
        | None =>
            match htight (negb (is_plain o)) i b T s with
            | Some s' => ntrun ps x t' (if is_ind b then S i else i)
                               (zval_tight ps x i b T) s'
            | None => HUndef
            end
        end
      end
  end.
End Nl.

Section Driver.
Variable K : Arith.
Notation val := (V K).
Notation mem := (mem K).
Notation op := (op K).

(* statistics of the trace used here *)
Record nstats := mkNS { nOps : nat; nEqProd : nat; nInd : nat; nDep : nat }.

(* nonl_ind_forward_safe / _tight(tag, 1, indep, basepoint, crs), called by
   hess_pat.  1098-1107: counts must agree; 1192-1193: maxopind. *)
Definition counts_ok (st : nstats) (indep : nat) : bool :=
  Nat.eqb 1 (nDep st) && Nat.eqb indep (nInd st).
Definition hess_pat_safe (st : nstats) (indep : nat) (t : list op) : hres :=
  if counts_ok st indep
  then nsrun (nOps st + nEqProd st) indep t 0 hinit else HFail.
Definition hess_pat_tight (st : nstats) (indep : nat) (ps x : nat -> val)
  (g : mem) (t : list op) : hres :=
  if counts_ok st indep
  then ntrun (nOps st + nEqProd st) indep ps x t 0 g hinit else HFail.

(* The statistics of a recorded trace.  NUM_OPERATIONS counts every put_op, so
   also start_of_tape, end_of_tape and the block markers (marks of them).
   eq_plus_prod and eq_min_prod increment NUM_EQ_PROD (adouble.cpp:321, 465);
   vec_dot and vec_axpy call add_num_eq_prod (5601, 5635), which adds to numDeps
   (valuetape.h:251). *)
Definition eq_prods (o : op) : nat :=
  match o with
  | Plain (EqPlusProd _ _ _ _) | Plain (EqMinProd _ _ _ _) => 1
  | _ => 0
  end.
Definition ind_count (o : op) : nat :=
  match o with Plain (AssignInd _ _) | RefAssignInd _ _ => 1 | _ => 0 end.
Definition dep_count (o : op) : nat :=
  match o with
  | Plain (AssignDep _ _) => 1
  | Plain (VecDot _ _ _ n _) => 2 * n
  | Plain (VecAxpy _ _ _ _ n _) => 2 * n - 1
  | _ => 0
  end.
Definition total (f : op -> nat) (t : list op) : nat :=
  fold_right (fun o n => f o + n) 0 t.
Definition recorded_stats (marks : nat) (t : list op) : nstats :=
  mkNS (marks + length t) (total eq_prods t) (total ind_count t)
       (total dep_count t).
End Driver.
