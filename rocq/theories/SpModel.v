(* Model of the sparsity pattern sweeps.

   Modelled code:
     ADOL-C/src/uni5_for.cpp  with _INDO_ and _INDOPRO_
         indopro_forward_safe   (_NTIGHT_), built by src/indopro_forward_s.cpp
         indopro_forward_tight  (_TIGHT_),  built by src/indopro_forward_t.cpp
         copy_index_domain, merge_2_index_domains, combine_2_index_domains,
         merge_3_index_domains  (5963-6032)
     jac_pat of include/adolc/sparse/sparsedrivers.h:540-565 only dispatches to
     these two functions.

   The operations are those of AdModel.v.  Line numbers refer to uni5_for.cpp.
   Not modelled: the return code of a sweep that is not aborted. *)
Require Import List ZArith Bool Arith Lia.
Require Import Verif.AdModel Verif.AdSpec.
Import ListNotations.
Set Implicit Arguments.

(* ------------------------------------------------------------------ *)
(* Index domains: ind_dom[l][0] = length, ind_dom[l][1] = capacity,
   ind_dom[l][2..] the indices.                                         *)

Record dom := mkDom { dcap : nat; didx : list nat }.
Definition doms := nat -> dom.
Definition dset (D : doms) (l : nat) (d : dom) : doms :=
  fun j => if Nat.eqb j l then d else D j.

(* 5963-5974: a longer array of twice the length is taken if needed *)
Definition copy_dom (res arg : nat) (D : doms) : doms :=
  let a := didx (D arg) in
  let cap := if Nat.ltb (dcap (D res)) (length a) then 2 * length a
             else dcap (D res) in
  dset D res (mkDom cap a).

(* the three loops 5993-6022 *)
Fixpoint merge (a : list nat) : list nat -> list nat :=
  fix go (b : list nat) : list nat :=
    match a, b with
    | [], _ => b
    | _, [] => a
    | x :: a', y :: b' =>
        if Nat.ltb x y then x :: merge a' b
        else if Nat.eqb x y then y :: merge a' b'
        else y :: go b'
    end.

(* 5976-6028 *)
Definition merge_2 (res arg : nat) (D : doms) : doms :=
  if Nat.eqb (length (didx (D res))) 0 then copy_dom res arg D
  else if Nat.eqb res arg then D
  else
    let r := didx (D res) in let a := didx (D arg) in
    let cap := if Nat.ltb (dcap (D res)) (length a + length r)
               then length a + length r else dcap (D res) in
    dset D res (mkDom cap (merge r a)).

(* 6030-6037 *)
Definition combine_2 (res a1 a2 : nat) (D : doms) : doms :=
  merge_2 res a2 (if Nat.eqb res a1 then D else copy_dom res a1 D).

(* 6039-6043 *)
Definition merge_3 (res a1 a2 : nat) (D : doms) : doms :=
  merge_2 res a2 (merge_2 res a1 D).

(* ind_dom[res][0] = 0 *)
Definition clear (res : nat) (D : doms) : doms :=
  dset D res (mkDom (dcap (D res)) []).
(* ind_dom[res][0] = 1; ind_dom[res][2] = indexi *)
Definition single (res i : nat) (D : doms) : doms :=
  dset D res (mkDom (dcap (D res)) [i]).

(* ind_dom[i] = new uint[NUMNNZ + 2], 1182-1189; NUMNNZ = 20 (155) *)
Definition dinit : doms := fun _ => mkDom 20 [].

Section Sp.
Variable K : Arith.
Notation val := (V K).
Notation mem := (mem K).
Notation op := (op K).
Notation bop := (bop K).

(* Loops of vec_copy 4967-4988, vec_dot 5003-5077, vec_axpy 5087-5146. *)
Fixpoint dcopy (n arg res q : nat) (D : doms) : doms :=
  match n with
  | 0 => D
  | S n' => dcopy n' arg res (S q) (copy_dom (res + q) (arg + q) D)
  end.
Fixpoint ddot (n a1 a2 res q : nat) (D : doms) : doms :=
  match n with
  | 0 => D
  | S n' => ddot n' a1 a2 res (S q) (merge_3 res (a1 + q) (a2 + q) D)
  end.
Fixpoint daxpy (n arg a1 a2 res q : nat) (D : doms) : doms :=
  match n with
  | 0 => D
  | S n' => daxpy n' arg a1 a2 res (S q)
              (merge_2 (res + q) (a2 + q) (combine_2 (res + q) arg (a1 + q) D))
  end.

(* Index domains after an operation: safe mode.  i = indexi. *)
Definition dsafe (i : nat) (b : bop) (D : doms) : doms :=
  match b with
  | Cmp _ _ _ | AssignDep _ _ | DeathNot _ _ _ => D
  | AssignA _ arg res => copy_dom res arg D                      (* 1443 *)
  | AssignD _ res _ | AssignP _ _ res | AssignD0 _ res | AssignD1 _ res =>
      clear res D                                        (* 1475 1509 1539 1569 *)
  | AssignInd _ res => single res i D                            (* 1600-1601 *)
  | EqPlusD _ _ _ | EqMinD _ _ _ | EqMultD _ _ _ | Incr _ _ | Decr _ _ => D
  | EqPlusA _ arg res | EqMinA _ arg res | EqMultA _ arg res =>
      merge_2 res arg D                                  (* 1701 1753 1812 *)
  | PlusAA _ a1 a2 res | MinAA _ a1 a2 res | MultAA _ a1 a2 res
  | DivAA _ a1 a2 res => combine_2 res a1 a2 D           (* 1897 1968 2038 2275 *)
  | EqPlusProd _ a1 a2 res | EqMinProd _ a1 a2 res =>
      merge_3 res a1 a2 D                                        (* 2096 2162 *)
  | PlusDA _ arg res _ | MinDA _ arg res _ | MultDA _ arg res _
  | DivDA _ arg res _ | PosSign _ arg res | NegSign _ arg res
  | ExpOp _ arg res | LogOp _ arg res | PowOp _ arg res _ | SqrtOp _ arg res
  | CbrtOp _ arg res | AbsVal _ arg res _ | CeilOp _ arg res _
  | FloorOp _ arg res _ => copy_dom res arg D
      (* 1938 2009 2237 2343 2403 2431 2467 3296 3378 3506 3588 3920 4018 4056 *)
  | SinOp _ a1 _ res | CosOp _ a1 _ res | HelpOp _ _ a1 _ res =>
      copy_dom res a1 D      (* 2529 2601 2671 2732 2832 2932 2993 3078 3185 3243 *)
  | GenQuad _ _ _ _ _ _ => D                           (* aborted, 3674-3677 *)
  | MinOp _ a1 a2 res _ => combine_2 res a1 a2 D                 (* 3751 *)
  | CondAssign _ _ a1 a2 res _ | CondEqAssign _ _ a1 a2 res _ =>
      combine_2 res a1 a2 D                                      (* 4108 4217 *)
  | CondAssignS _ _ a1 res _ | CondEqAssignS _ _ a1 res _ =>
      merge_2 res a1 D                                           (* 4309 4370 *)
  | SetRef _ _ _ => D
  | VecCopy _ arg n res => dcopy n arg res 0 D                   (* 4975 *)
  | VecDot _ a1 a2 n res => ddot n a1 a2 res 0 (clear res D)     (* 5003 5021 *)
  | VecAxpy _ arg a1 a2 n res => daxpy n arg a1 a2 res 0 D       (* 5091-5092 *)
  | TakeStock _ _ _ _ => D                                       (* 5476-5492 *)
  end.

(* Tight mode; T = dp_T0 before the operation. *)
Definition dtight (i : nat) (b : bop) (T : mem) (D : doms) : doms :=
  match b with
  | MinOp _ a1 a2 res _ =>                                       (* 3741-3749 *)
      if ltb K (T a1) (T a2) then copy_dom res a1 D
      else if ltb K (T a2) (T a1) then copy_dom res a2 D
      else combine_2 res a1 a2 D
  | CeilOp _ _ res _ | FloorOp _ _ res _ => clear res D          (* 4016 4054 *)
  | CondAssign _ arg a1 a2 res _ =>                              (* 4091-4106 *)
      copy_dom res (if ltb K (zero K) (T arg) then a1 else a2) D
  | CondEqAssign _ arg a1 a2 res _ =>                            (* 4202-4215 *)
      copy_dom res (if leb K (zero K) (T arg) then a1 else a2) D
  | CondAssignS _ arg a1 res _ =>                                (* 4305-4306 *)
      if ltb K (zero K) (T arg) then copy_dom res a1 D else D
  | CondEqAssignS _ arg a1 res _ =>                              (* 4366-4367 *)
      if leb K (zero K) (T arg) then copy_dom res a1 D else D
  | _ => dsafe i b D
  end.

(* dp_T0 in tight mode: the statements of zos_forward, except that the _INDO_
   code of cond_assign_s and cond_eq_assign_s (4303-4313, 4364-4374, 5379-5400,
   5437-5458) does not assign dp_T0[res]. *)
Definition zval_tight (ps x : nat -> val) (i : nat) (b : bop) (T : mem) : mem :=
  match b with
  | CondAssignS _ _ _ _ _ | CondEqAssignS _ _ _ _ _ => T
  | _ => zval ps x i b T
  end.

Definition row_of (b : bop) (D : doms) : list (list nat) :=
  match b with AssignDep _ res => [didx (D res)] | _ => [] end. (* 1635-1644 *)

Inductive sres :=
| SRows (rows : list (list nat))    (* crs[0], crs[1], ... *)
| SAbort (code : Z)                 (* negative return code *)
| SFail.                            (* ADOLCError::fail *)

(* indopro_forward_safe.  The advector operations end in ADOLCError::fail
   (4528, 4557, 4586, ...), gen_quad in return -2 (3674-3677). *)
Fixpoint srun (t : list op) (i : nat) (D : doms) (rows : list (list nat))
  : sres :=
  match t with
  | [] => SRows rows
  | Plain b :: t' =>
      match b with
      | GenQuad _ _ _ _ _ _ => SAbort (-2)
      | _ => srun t' (if is_ind b then S i else i) (dsafe i b D)
                  (rows ++ row_of b D)
      end
  | _ :: _ => SFail
  end.
Definition indopro_safe (t : list op) : sres := srun t 0 dinit [].

(* indopro_forward_tight. *)
Fixpoint trow (ps x : nat -> val) (t : list op) (i : nat) (T : mem) (D : doms)
  (rows : list (list nat)) : sres :=
  match t with
  | [] => SRows rows
  | o :: t' =>
      if oob T o then SFail else
      let b := resolve T o in
      match b with
      | GenQuad _ _ _ _ _ _ => SAbort (-2)
      | _ =>
        match zabort b T with
        | Some c => SAbort c
        | None => trow ps x t' (if is_ind b then S i else i)
                       (zval_tight ps x i b T) (dtight i b T D)
                       (rows ++ row_of b D)
        end
      end
  end.
Definition indopro_tight (ps x : nat -> val) (g : mem) (t : list op) : sres :=
  trow ps x t 0 g dinit [].

End Sp.
