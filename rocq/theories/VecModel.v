(* Model of the first order vector sweeps: several directions in one sweep.

   Modelled code:
     ADOL-C/src/uni5_for.cpp   fov_forward  (_FOV_)
     ADOL-C/src/fo_rev.cpp     fov_reverse  (_FOV_)
   The value part (dp_T0, rp_T, Taylor stack, return code) is compiled from the same
   statements as in zos_forward and fos_reverse; it is shared with AdModel.

   dpp_T[loc][l] and rpp_A[loc][l]: the C code walks through the directions with
   pointers (TRES_INC = *Tres++ ...); here a loop body names the direction its pointers
   have reached.  Every opcode whose pointers do not move in step is written out
   ([vlog], [vsubscript]).
   Not modelled: ext_diff* operations, the return code of the reverse sweep and the extra
   MINDEC of abs_val (see AdModel). *)
Require Import List ZArith Bool Arith Lia.
Require Import Verif.AdModel.
Import ListNotations.
Set Implicit Arguments.

Section Vec.
Variable K : Arith.
Notation val := (V K).
Notation mem := (mem K).
Notation bop := (bop K).
Notation op := (op K).

(* dpp_T / rpp_A: location, direction *)
Definition vmem := nat -> nat -> val.
Definition vupd (D : vmem) (loc l : nat) (v : val) : vmem :=
  fun j m => if Nat.eqb j loc && Nat.eqb m l then v else D j m.

(* FOR_0_LE_l_LT_p / FOR_0_LE_l_LT_pk, uni5_for.cpp:421, 464; fo_rev.cpp:176 *)
Definition vfor (p : nat) (body : nat -> vmem -> vmem) (D : vmem) : vmem :=
  fold_left (fun D l => body l D) (seq 0 p) D.
(* FOR_p_GT_l_GE_0 with the pointers started at p-1 (INC_pk_1), uni5_for.cpp:422, 465 *)
Definition vdown (p : nat) (body : nat -> vmem -> vmem) (D : vmem) : vmem :=
  fold_left (fun D l => body l D) (rev (seq 0 p)) D.
(* FOR_0_LE_l_LT_pk TRES_INC = f *)
Definition vset (p loc : nat) (f : nat -> vmem -> val) (D : vmem) : vmem :=
  vfor p (fun l D => vupd D loc l (f l D)) D.
Definition vsetd (p loc : nat) (f : nat -> vmem -> val) (D : vmem) : vmem :=
  vdown p (fun l D => vupd D loc l (f l D)) D.

(* log_op, uni5_for.cpp:3317-3343: divs is set before the loop over the directions and
   overwritten with nan when a direction asks for it; it is not set back. *)
Definition vlog (p arg res : nat) (T : mem) (D : vmem) : vmem :=
  snd (fold_left
    (fun (s : val * vmem) l =>
       let (divs, D) := s in
       let divs' := if eqb K (T arg) (zero K) && @lt0 K (D arg l) then vnan K else divs in
       (divs', vupd D res l (mul K (D arg l) divs')))
    (seq 0 p) (dvd K (one K) (T arg), D)).

(* vec_copy 4967-4988 *)
Fixpoint vtcopy (p n arg res q : nat) (D : vmem) : vmem :=
  match n with
  | 0 => D
  | S n' => vtcopy p n' arg res (S q) (vset p (res + q) (fun l D => D (arg + q) l) D)
  end.
(* vec_dot 5018-5077 *)
Fixpoint vtdot (p n a1 a2 res q : nat) (T : mem) (D : vmem) : vmem :=
  match n with
  | 0 => D
  | S n' =>
      let D' := vsetd p res (fun l D => add K (D res l)
                  (add K (mul K (T (a1 + q)) (D (a2 + q) l))
                         (mul K (D (a1 + q) l) (T (a2 + q))))) D in
      let T' := @upd K T res (add K (T res) (mul K (T (a1 + q)) (T (a2 + q)))) in
      vtdot p n' a1 a2 res (S q) T' D'
  end.
(* vec_axpy 5087-5146 *)
Fixpoint vtaxpy (p n arg a1 a2 res q : nat) (T : mem) (D : vmem) : vmem :=
  match n with
  | 0 => D
  | S n' =>
      let D' := vsetd p (res + q)
                  (fun l D => add K (add K (mul K (T arg) (D (a1 + q) l))
                                (mul K (D arg l) (T (a1 + q))))
                         (D (a2 + q) l)) D in
      let T' := @upd K T (res + q)
                  (add K (mul K (T arg) (T (a1 + q))) (T (a2 + q))) in
      vtaxpy p n' arg a1 a2 res (S q) T' D'
  end.
(* zero one location after the other: take_stock_op 5476-5492; fo_rev.cpp:2604-2622 *)
Definition vzero (p : nat) (locs : list nat) (D : vmem) : vmem :=
  fold_left (fun D j => vset p j (fun _ _ => zero K) D) locs D.

(* dpp_T after one operation; T = dp_T0 before it, T' after it; X i l = argument[i][l].
   uni5_for.cpp (_FOV_). *)
Definition fval (p : nat) (ps x : nat -> val) (X : nat -> nat -> val) (i : nat) (b : bop) (T : mem) (D : vmem) : vmem :=
  let T' := @zval K ps x i b T in
  match b with
  | Cmp _ _ _ | AssignDep _ _ | DeathNot _ _ _ => D
  | AssignA _ arg res => vset p res (fun l D => D arg l) D                       (* 1453 *)
  | AssignD _ res _ | AssignP _ _ res | AssignD0 _ res | AssignD1 _ res =>
      vset p res (fun _ _ => zero K) D                            (* 1487 1521 1551 1581 *)
  | AssignInd _ res => vset p res (fun l _ => X i l) D                           (* 1616 *)
  | EqPlusD _ _ _ | EqMinD _ _ _ | Incr _ _ | Decr _ _ => D
  | EqPlusA _ arg res => vset p res (fun l D => add K (D res l) (D arg l)) D     (* 1717 *)
  | EqMinA _ arg res => vset p res (fun l D => sub K (D res l) (D arg l)) D      (* 1769 *)
  | EqMultD _ res c => vset p res (fun l D => mul K (D res l) c) D                 (* 1794-1796 *)
  | EqMultA _ arg res =>                                                         (* 1832-1848 *)
      vsetd p res (fun l D => add K (mul K (T res) (D arg l)) (mul K (D res l) (T arg))) D
  | PlusAA _ a1 a2 res => vset p res (fun l D => add K (D a1 l) (D a2 l)) D      (* 1914 *)
  | PlusDA _ arg res _ => vset p res (fun l D => D arg l) D                        (* 1948 *)
  | MinAA _ a1 a2 res => vset p res (fun l D => sub K (D a1 l) (D a2 l)) D       (* 1985 *)
  | MinDA _ arg res _ => vset p res (fun l D => neg K (D arg l)) D                 (* 2022 *)
  | MultAA _ a1 a2 res =>                                                        (* 2063-2077 *)
      vsetd p res (fun l D => add K (mul K (T a1) (D a2 l)) (mul K (D a1 l) (T a2))) D
  | EqPlusProd _ a1 a2 res =>                                                    (* 2130-2143 *)
      vsetd p res (fun l D => add K (D res l)
                     (add K (mul K (T a1) (D a2 l)) (mul K (D a1 l) (T a2)))) D
  | EqMinProd _ a1 a2 res =>                                                     (* 2196-2209 *)
      vsetd p res (fun l D => sub K (D res l)
                     (add K (mul K (T a1) (D a2 l)) (mul K (D a1 l) (T a2)))) D
  | MultDA _ arg res c => vset p res (fun l D => mul K (D arg l) c) D              (* 2250 *)
  | DivAA _ a1 a2 res =>                                                         (* 2267, 2300-2316 *)
      let divs := dvd K (one K) (T a2) in
      vset p res (fun l D => add K (mul K (D a1 l) divs)
                       (mul K (T' res) (mul K (neg K (D a2 l)) divs))) D
  | DivDA _ arg res c =>                                                           (* 2335, 2364-2380 *)
      let divs := dvd K (one K) (T arg) in
      vset p res (fun l D => mul K (T' res) (mul K (neg K (D arg l)) divs)) D
  | PosSign _ arg res => vset p res (fun l D => D arg l) D                       (* 2413 *)
  | NegSign _ arg res => vset p res (fun l D => neg K (D arg l)) D               (* 2444 *)
  | ExpOp _ arg res => vset p res (fun l D => mul K (T' res) (D arg l)) D        (* 2495 *)
  | SinOp _ a1 a2 res =>                                                         (* 2554-2578 *)
      vfor p (fun l D =>
        let D1 := vupd D a2 l (mul K (neg K (T' res)) (D a1 l)) in
        vupd D1 res l (mul K (T' a2) (D1 a1 l))) D
  | CosOp _ a1 a2 res =>                                                         (* 2627-2651 *)
      vfor p (fun l D =>
        let D1 := vupd D a2 l (mul K (T' res) (D a1 l)) in
        vupd D1 res l (mul K (neg K (T' a2)) (D1 a1 l))) D
  | HelpOp _ f a1 a2 res =>
      (* 2693 2754-2812 2854-2912 2954 3015-3058 3100-3165 3204 3262: the special cases
         are loops over the directions of their own *)
      vset p res (fun l D =>
        match @help_special K f (T' a1) (D a1 l) with
        | Some r0 => r0
        | None => mul K (T' a2) (D a1 l)
        end) D
  | LogOp _ arg res => vlog p arg res T D                                        (* 3317-3343 *)
  | PowOp _ arg res c =>                                                           (* 3399-3487 *)
      if eqb K (T arg) (zero K) then
        if leb K c (zero K) then vset p res (fun _ _ => vnan K) D
        else if negb (eqb K (sub K c (vfloor K (if eqb K c (zero K) then zero K
                                                else one K))) (zero K)) then
          if ltb K (one K) c then vset p res (fun _ _ => zero K) D
          else if ltb K c (one K) && @gt0 K c then vset p res (fun _ _ => vinf K) D
          else if @lt0 K c then vset p res (fun _ _ => vnan K) D else D
        else if eqb K c (one K) then vset p res (fun l D => D arg l) D           (* 3417 *)
        else D
      else
        let r0 := dvd K (one K) (T arg) in
        vset p res (fun l D => mul K (mul K (mul K (T' res) (D arg l)) c) r0) D  (* 3473 *)
  | SqrtOp _ arg res =>                                                          (* 3527-3569 *)
      vset p res (fun l D => mul K (@root_factor K (T' arg) (D arg l)
                          (dvd K (half K) (T' res))) (D arg l)) D
  | CbrtOp _ arg res =>                                                          (* 3609-3640 *)
      vset p res (fun l D => mul K (@root_factor K (T' arg) (D arg l)
                          (dvd K (one K) (mul K (mul K (three K) (T' res))
                                                (T' res)))) (D arg l)) D
  | GenQuad _ a1 a2 res _ _ => vset p res (fun l D => mul K (T' a2) (D a1 l)) D    (* 3695 *)
  | MinOp _ a1 a2 res _ =>                                                         (* 3825-3862 *)
      vset p res (fun l D =>
        if ltb K (T a2) (T a1) then D a2 l
        else if ltb K (T a1) (T a2) then D a1 l
        else if ltb K (D a2 l) (D a1 l) then D a2 l else D a1 l) D
  | AbsVal _ arg res _ =>                                                          (* 3970-3982 *)
      vset p res (fun l D =>
        let x0 := if eqb K (T arg) (zero K) then zero K
                  else if @lt0 K (T arg) then neg K (one K) else one K in
        let x1 := if eqb K x0 (zero K) && negb (eqb K (D arg l) (zero K))
                  then (if @lt0 K (D arg l) then neg K (one K) else one K)
                  else x0 in
        mul K x1 (D arg l)) D
  | CeilOp _ _ res _ | FloorOp _ _ res _ => vset p res (fun _ _ => zero K) D         (* 4028, 4066 *)
  | CondAssign _ arg a1 a2 res _ =>                                                (* 4166-4169 *)
      if ltb K (zero K) (T arg) then vset p res (fun l D => D a1 l) D
      else vset p res (fun l D => D a2 l) D
  | CondEqAssign _ arg a1 a2 res _ =>                                              (* 4271-4274 *)
      if leb K (zero K) (T arg) then vset p res (fun l D => D a1 l) D
      else vset p res (fun l D => D a2 l) D
  | CondAssignS _ arg a1 res _ =>                                                  (* 4339-4340 *)
      if ltb K (zero K) (T arg) then vset p res (fun l D => D a1 l) D else D
  | CondEqAssignS _ arg a1 res _ =>                                                (* 4399-4400 *)
      if leb K (zero K) (T arg) then vset p res (fun l D => D a1 l) D else D
  | SetRef _ _ _ => D
  | VecCopy _ arg size res => vtcopy p size arg res 0 D
  | VecDot _ a1 a2 size res =>                                                   (* 4999-5077 *)
      vtdot p size a1 a2 res 0 (@upd K T res (zero K)) (vset p res (fun _ _ => zero K) D)
  | VecAxpy _ arg a1 a2 size res => vtaxpy p size arg a1 a2 res 0 T D
  | TakeStock _ size res _ => vzero p (seq res size) D                             (* 5476-5492 *)
  end.

(* TAYLORS(indexd, l, 0) = TRES_INC, 1656: one row per dependent *)
Definition fout_of (b : bop) (D : vmem) : list (nat -> val) :=
  match b with AssignDep _ res => [D res] | _ => [] end.

Record vstate := mkV { vF : fstate K; vD : vmem; vyd : list (nat -> val) }.

Definition vstep (p : nat) (ps x : nat -> val) (X : nat -> nat -> val) (o : op) (s : vstate)
  : vstate + option vstate :=
  let f := vF s in
  let b := @resolve K (fT f) o in
  match @zstep K ps x o f with
  | inl f' => inl (mkV f' (fval p ps x X (fi f) b (fT f) (vD s)) (vyd s ++ fout_of b (vD s)))
  | inr (Done f') => inr (Some (mkV f' (vD s) (vyd s)))
  | inr (Failed _) => inr None
  end.

Fixpoint vrun (p : nat) (ps x : nat -> val) (X : nat -> nat -> val) (t : list op) (s : vstate)
  : option vstate :=
  match t with
  | [] => Some s
  | o :: t' =>
      match vstep p ps x X o s with
      | inl s' => vrun p ps x X t' s'
      | inr r => r
      end
  end.

(* fov_forward(tag, m, n, p, x, X, y, Y): dpp_T is malloc'ed (1221) and not initialised *)
Definition fov_forward (p : nat) (ps x : nat -> val) (X : nat -> nat -> val) (g : mem) (gd : vmem) (t : list op)
  : option vstate :=
  vrun p ps x X t (mkV (@mkF K g 0 [] 3%Z []) gd []).

(* ------------------------------------------------------------------ *)
(* fov_reverse                                                          *)

(* aTmp = *Ares; ARES_INC = 0; AARG_INC += f(aTmp) *)
Definition vadj1 (p : nat) (res arg : nat) (f : val -> val) (A : vmem) : vmem :=
  vfor p (fun l A =>
    let a := A res l in
    let A1 := vupd A res l (zero K) in
    vupd A1 arg l (add K (A1 arg l) (f a))) A.
Definition vadjm (p : nat) (res arg : nat) (f : val -> val) (A : vmem) : vmem :=
  vfor p (fun l A =>
    let a := A res l in
    let A1 := vupd A res l (zero K) in
    vupd A1 arg l (sub K (A1 arg l) (f a))) A.
(* AARG_INC += *Ares; ARES_INC = 0 *)
Definition vmove (p : nat) (res arg : nat) (A : vmem) : vmem :=
  vfor p (fun l A => vupd (vupd A arg l (add K (A arg l) (A res l))) res l (zero K)) A.
Definition vadjc (p : nat) (res arg : nat) (A : vmem) : vmem :=
  if Nat.eqb res arg then A else vmove p res arg A.

Fixpoint rvcopy (p n arg res q : nat) (T : mem) (A : vmem) (k : list val) : mem * vmem * list val :=
  match n with
  | 0 => (T, A, k)
  | S n' =>
      let A2 := vmove p (res + q) (arg + q) A in
      let (T', k') := @restore K (res + q) T k in
      rvcopy p n' arg res (S q) T' A2 k'
  end.
Fixpoint rvdot (p n a1 a2 res q : nat) (T : mem) (A : vmem) : vmem :=
  match n with
  | 0 => A
  | S n' =>
      rvdot p n' a1 a2 res (S q) T
        (vfor p (fun l A =>
           let A1 := vupd A (a2 + q) l (add K (A (a2 + q) l) (mul K (A res l) (T (a1 + q)))) in
           vupd A1 (a1 + q) l (add K (A1 (a1 + q) l) (mul K (A1 res l) (T (a2 + q))))) A)
  end.
Fixpoint rvaxpy (p n arg a1 a2 res q : nat) (T : mem) (A : vmem) (k : list val) : mem * vmem * list val :=
  match n with
  | 0 => (T, A, k)
  | S n' =>
      let A3 := vfor p (fun l A =>
        let A1 := vupd A (a2 + q) l (add K (A (a2 + q) l) (A (res + q) l)) in
        let A2 := vupd A1 (a1 + q) l (add K (A1 (a1 + q) l) (mul K (A1 (res + q) l) (T arg))) in
        vupd A2 arg l (add K (A2 arg l) (mul K (A2 (res + q) l) (T (a1 + q))))) A in
      let (T', k') := @restore K (res + q) T k in
      rvaxpy p n' arg a1 a2 res (S q) T' A3 k'
  end.

(* rp_T / rpp_A / Taylor stack after one operation; fo_rev.cpp:587-2627 (_FOV_) *)
Definition rvval (p : nat) (b : bop) (T : mem) (A : vmem) (k : list val) : mem * vmem * list val :=
  let after A' res := let (T', k') := @restore K res T k in (T', A', k') in
  match b with
  | Cmp _ _ _ => (T, A, k)
  | AssignA _ arg res => after (vmove p res arg A) res                           (* 626-634 *)
  | AssignD _ res _ | AssignP _ _ res | AssignD0 _ res | AssignD1 _ res =>
      after (vset p res (fun _ _ => zero K) A) res                               (* 651 673 691 *)
  | AssignInd _ res => after A res
  | AssignDep _ res => (T, A, k)
  | EqPlusD _ res _ | EqMinD _ res _ | Incr _ res | Decr _ res => after A res
  | EqPlusA _ arg res => after (vset p arg (fun l A => add K (A arg l) (A res l)) A) res   (* 774 *)
  | EqMinA _ arg res => after (vset p arg (fun l A => sub K (A arg l) (A res l)) A) res    (* 806 *)
  | EqMultD _ res c => after (vset p res (fun l A => mul K (A res l) c) A) res     (* 825 *)
  | EqMultA _ arg res =>                                                         (* 840-853 *)
      let (T', k') := @restore K res T k in
      (T', vfor p (fun l A =>
        let a := A res l in
        let A1 := vupd A res l (mul K a (T' arg)) in
        vupd A1 arg l (add K (A1 arg l) (mul K a (T' res)))) A, k')
  | PlusAA _ a1 a2 res =>                                                        (* 882-892 *)
      after (vfor p (fun l A =>
        let a := A res l in
        let A1 := vupd A res l (zero K) in
        let A2 := vupd A1 a1 l (add K (A1 a1 l) a) in
        vupd A2 a2 l (add K (A2 a2 l) a)) A) res
  | PlusDA _ arg res _ => after (vadj1 p res arg (fun a => a) A) res               (* 919-921 *)
  | MinAA _ a1 a2 res =>                                                         (* 948-951 *)
      after (vfor p (fun l A =>
        let a := A res l in
        let A1 := vupd A res l (zero K) in
        let A2 := vupd A1 a1 l (add K (A1 a1 l) a) in
        vupd A2 a2 l (sub K (A2 a2 l) a)) A) res
  | MinDA _ arg res _ => after (vadjm p res arg (fun a => a) A) res                (* 978-980 *)
  | MultAA _ a1 a2 res =>                                                        (* 996-1013 *)
      let (T', k') := @restore K res T k in
      (T', vfor p (fun l A =>
        let a := A res l in
        let A1 := vupd A res l (zero K) in
        let A2 := vupd A1 a2 l (add K (A1 a2 l) (mul K a (T' a1))) in
        vupd A2 a1 l (add K (A2 a1 l) (mul K a (T' a2)))) A, k')
  | EqPlusProd _ a1 a2 res =>                                                    (* 1032-1041 *)
      let T' := @upd K T res (sub K (T res) (mul K (T a1) (T a2))) in
      (T', vfor p (fun l A =>
        let A1 := vupd A a2 l (add K (A a2 l) (mul K (A res l) (T' a1))) in
        vupd A1 a1 l (add K (A1 a1 l) (mul K (A1 res l) (T' a2)))) A, k)
  | EqMinProd _ a1 a2 res =>                                                     (* 1060-1069 *)
      let T' := @upd K T res (add K (T res) (mul K (T a1) (T a2))) in
      (T', vfor p (fun l A =>
        let A1 := vupd A a2 l (sub K (A a2 l) (mul K (A res l) (T' a1))) in
        vupd A1 a1 l (sub K (A1 a1 l) (mul K (A1 res l) (T' a2)))) A, k)
  | MultDA _ arg res c => after (vadj1 p res arg (fun a => mul K c a) A) res       (* 1092-1094 *)
  | DivAA _ a1 a2 res =>                                                         (* 1117-1133 *)
      let (T', k') := @restore K res T k in
      let r0 := dvd K (one K) (T' a2) in
      let r_0 := mul K (neg K (T res)) r0 in
      (T', vfor p (fun l A =>
        let a := A res l in
        let A1 := vupd A res l (zero K) in
        let A2 := vupd A1 a1 l (add K (A1 a1 l) (mul K a r0)) in
        vupd A2 a2 l (add K (A2 a2 l) (mul K a r_0))) A, k')
  | DivDA _ arg res _ =>                                                           (* 1153-1173 *)
      if Nat.eqb arg res then
        let (T', k') := @restore K res T k in
        let r0 := dvd K (neg K (T res)) (T' arg) in
        (T', vadj1 p res arg (fun a => mul K a r0) A, k')
      else
        let r0 := dvd K (neg K (T res)) (T arg) in
        after (vadj1 p res arg (fun a => mul K a r0) A) res
  | PosSign _ arg res => after (vadj1 p res arg (fun a => a) A) res              (* 1195-1197 *)
  | NegSign _ arg res => after (vadjm p res arg (fun a => a) A) res              (* 1220-1222 *)
  | ExpOp _ arg res => after (vadj1 p res arg (fun a => mul K a (T res)) A) res  (* 1249-1251 *)
  | SinOp _ a1 a2 res =>                                                         (* 1275-1283 *)
      let A' := vadj1 p res a1 (fun a => mul K a (T a2)) A in
      let (T1, k1) := @restore K res T k in
      let (T2, k2) := @restore K a2 T1 k1 in (T2, A', k2)
  | CosOp _ a1 a2 res =>                                                         (* 1303-1311 *)
      let A' := vadjm p res a1 (fun a => mul K a (T a2)) A in
      let (T1, k1) := @restore K res T k in
      let (T2, k2) := @restore K a2 T1 k1 in (T2, A', k2)
  | HelpOp _ _ a1 a2 res =>                                                      (* 1330-1344 *)
      let (T', k') := @restore K res T k in
      (T', vadj1 p res a1 (fun a => mul K a (T' a2)) A, k')
  | LogOp _ arg res =>                                                           (* 1356-1374 *)
      let (T', k') := @restore K res T k in
      let r0 := dvd K (one K) (T' arg) in
      (T', vadj1 p res arg (fun a => mul K a r0) A, k')
  | PowOp _ arg res c =>                                                           (* 1393-1416 *)
      let fac v := if eqb K v (zero K) then zero K
                   else mul K (T res) (dvd K c v) in
      if Nat.eqb arg res then
        let (T', k') := @restore K res T k in
        (T', vadj1 p res arg (fun a => mul K a (fac (T' arg))) A, k')
      else after (vadj1 p res arg (fun a => mul K a (fac (T arg))) A) res
  | SqrtOp _ arg res =>                                                          (* 1430-1448 *)
      let r0 := if eqb K (T res) (zero K) then zero K
                else dvd K (half K) (T res) in
      after (vadj1 p res arg (fun a => mul K a r0) A) res
  | CbrtOp _ arg res =>                                                          (* 1462-1480 *)
      let r0 := if eqb K (T res) (zero K) then zero K
                else dvd K (one K) (mul K (mul K (three K) (T res)) (T res)) in
      after (vadj1 p res arg (fun a => mul K a r0) A) res
  | GenQuad _ a1 a2 res _ _ =>                                                     (* 1503-1510 *)
      after (vadj1 p res a1 (fun a => mul K a (T a2)) A) res
  | MinOp _ a1 a2 res _ =>                                                         (* 1522-1582 *)
      let (T', k') := @restore K res T k in
      let A' :=
        if ltb K (T' a2) (T' a1) then vadj1 p res a2 (fun a => a) A
        else if ltb K (T' a1) (T' a2) then vadj1 p res a1 (fun a => a) A
        else vfor p (fun l A =>
          let a := A res l in
          let A1 := vupd A res l (zero K) in
          let A2 := vupd A1 a2 l (add K (A1 a2 l) (dvd K a (two K))) in
          vupd A2 a1 l (add K (A2 a1 l) (dvd K a (two K)))) A in
      (T', A', k')
  | AbsVal _ arg res _ =>                                                          (* 1600-1682 *)
      let (T', k') := @restore K res T k in
      let A' :=
        if ltb K (T' arg) (zero K) then vadjm p res arg (fun a => a) A
        else if ltb K (zero K) (T' arg) then vadj1 p res arg (fun a => a) A
        else vset p res (fun _ _ => zero K) A in
      (T', A', k')
  | CeilOp _ arg res _ | FloorOp _ arg res _ =>                                      (* 1709-1747 *)
      after (vset p res (fun _ _ => zero K) A) res
  | CondAssign _ arg a1 a2 res _ =>                                                (* 1765-1806 *)
      let (T', k') := @restore K res T k in
      (T', vadjc p res (if ltb K (zero K) (T' arg) then a1 else a2) A, k')
  | CondEqAssign _ arg a1 a2 res _ =>                                              (* 1829-1870 *)
      let (T', k') := @restore K res T k in
      (T', vadjc p res (if leb K (zero K) (T' arg) then a1 else a2) A, k')
  | CondAssignS _ arg a1 res _ =>                                                  (* 1893-1918 *)
      let (T', k') := @restore K res T k in
      (T', (if ltb K (zero K) (T' arg) then vadjc p res a1 A else A), k')
  | CondEqAssignS _ arg a1 res _ =>                                                (* 1935-1959 *)
      let (T', k') := @restore K res T k in
      (T', (if leb K (zero K) (T' arg) then vadjc p res a1 A else A), k')
  | SetRef _ res _ => after A res
  | VecCopy _ arg size res => rvcopy p size arg res 0 T A k
  | VecDot _ a1 a2 size res => after (rvdot p size a1 a2 res 0 T A) res
  | VecAxpy _ arg a1 a2 size res => rvaxpy p size arg a1 a2 res 0 T A k
  | TakeStock _ size res _ => (T, vzero p (rev (seq res size)) A, k)               (* 2604-2611 *)
  | DeathNot _ a1 a2 =>                                                          (* 2619-2626 *)
      let (T', k') := @restore_up K (S a2 - a1) a1 T k in
      (T', vzero p (seq a1 (S a2 - a1)) A, k')
  end.

(* subscript, fo_rev.cpp:2022-2033:  AARG1_INC += *Ares; *Ares = 0.0;  - Ares stays at the
   first direction while Aarg1 moves on *)
Definition vsubscript (p res arg1 : nat) (A : vmem) : vmem :=
  vfor p (fun l A => vupd (vupd A arg1 l (add K (A arg1 l) (A res 0))) res 0 (zero K)) A.

Record rvstate := mkRV {
  rvT : mem; rvA : vmem; rvk : list val; rvz : nat -> nat -> val; rvi : nat; rvd : nat }.

(* One pass of the loop of fov_reverse.  U l d = lagrange[l][d], results[l][i]. *)
Definition rvstep (p : nat) (U : nat -> nat -> val) (o : op) (s : rvstate) : rvstate :=
  let b := @resolve K (rvT s) o in
  match o with
  | Subscript _ _ _ _ _ =>
      match b with
      | AssignA _ arg1 res =>
          let (T', k') := @restore K res (rvT s) (rvk s) in
          mkRV T' (vsubscript p res arg1 (rvA s)) k' (rvz s) (rvi s) (rvd s)
      | _ => s
      end
  | _ =>
  let '(T', A', k') := rvval p b (rvT s) (rvA s) (rvk s) in
  match b with
  | AssignInd _ res =>                                       (* 724: RESULTS(l, indexi) = ARES_INC *)
      mkRV T' A' k' (fold_left (fun z l => vupd z l (rvi s - 1) (rvA s res l)) (seq 0 p) (rvz s))
        (rvi s - 1) (rvd s)
  | AssignDep _ res =>                                       (* 742 *)
      mkRV T' (vset p res (fun l _ => U l (rvd s - 1)) A') k' (rvz s) (rvi s) (rvd s - 1)
  | _ => mkRV T' A' k' (rvz s) (rvi s) (rvd s)
  end
  end.

Definition rvrun (p : nat) (U : nat -> nat -> val) (t : list op) (s : rvstate) : rvstate :=
  fold_left (fun s o => rvstep p U o s) (rev t) s.

(* fov_reverse(tag, m, n, q, U, Z); rpp_A and rp_T are malloc'ed *)
Definition fov_reverse (p : nat) (U : nat -> nat -> val) (n m : nat) (gT : mem) (gA : vmem)
  (gz : nat -> nat -> val) (k : list val) (t : list op) : rvstate :=
  rvrun p U t (mkRV gT gA k gz n m).
End Vec.
