(** Model of the traceless (tape-less) forward mode, ADOL-C/include/adolc/adtl.h,
    namespace adtl.

    Simplifications (all of them):
    - double is the type R of real numbers; NaN and infinity are two fixed but
      arbitrary numbers [nan], [inf] (they are stored, never tested);
    - the array adval of an adouble object o is a row [M o] of the memory M; every
      object has its own array, which new leaves with arbitrary contents;
    - the Boost pool variant, reference counting, i/o and frexp (it returns a plain
      double) are not modelled; numDir ([nd]) does not change while objects exist;
    - C++ expressions are given in three address form: the object that receives the
      result of an operator is a new object (return value, constructed in place). *)
From Coq Require Import List Arith Bool Lia Reals.
From Verif Require Import AdReal.
Import ListNotations.
Local Open Scope R_scope.

Definition mem := nat -> nat -> R.
Definition upd (M : mem) (o i : nat) (v : R) : mem :=
  fun o' i' => if (o' =? o)%nat && (i' =? i)%nat then v else M o' i'.

(** PRIMAL_VALUE = v, line 279 *)
Definition prim (M : mem) (o : nat) (v : R) : mem := upd M o 0 v.
(** FOR_I_EQ_1_LTEQ_NUMDIR o.ADVAL_I = f, lines 277-278 *)
Definition dirs (nd : nat) (M : mem) (o : nat) (f : mem -> nat -> R) : mem :=
  fold_left (fun M i => upd M o i (f M i)) (seq 1 nd) M.
(** FOR_I_EQ_0_LTEQ_NUMDIR o.ADVAL_I = f, lines 276 and 278 *)
Definition alls (nd : nat) (M : mem) (o : nat) (f : mem -> nat -> R) : mem :=
  fold_left (fun M i => upd M o i (f M i)) (seq 0 (S nd)) M.

(** std::atan2, std::log10 on reals *)
Definition Ratan2 (y x : R) : R :=
  if Rlt_dec 0 x then atan (y / x)
  else if Rlt_dec x 0 then (if Rlt_dec y 0 then atan (y / x) - PI else atan (y / x) + PI)
  else if Rlt_dec 0 y then PI / 2 else if Rlt_dec y 0 then - (PI / 2) else 0.
Definition Rlog10 (x : R) : R := ln x / ln 10.

Inductive unary := Neg | Tan | Exp | Log | Sqrt | Cbrt | Sin | Cos | Asin | Acos | Atan
  | Log10 | Sinh | Cosh | Tanh | Asinh | Acosh | Atanh | Fabs | Ceil | Floor | Erf | Erfc.
Inductive binary := Add | Sub | Mul | Div | Atan2 | Pow | Fmax | Fmin.

Section Model.
Variables nan inf : R.
Variable nd : nat.  (* numDir *)

(** constructors and copy: 282-289 (the derivatives keep what was in memory), 291-300,
    302-311 (adv read at adv[_i - 1]), 313-321 and 342 *)
Definition ctor (M : mem) (t : nat) : mem := prim M t 0.
Definition ctor_d (M : mem) (t : nat) (v : R) : mem := dirs nd (prim M t v) t (fun _ _ => 0).
Definition ctor_dv (M : mem) (t : nat) (v : R) (adv : mem -> nat -> R) : mem :=
  dirs nd (prim M t v) t (fun M i => adv M (i - 1)%nat).
Definition ctor_copy (M : mem) (t a : nat) : mem := alls nd M t (fun M i => M a i).

(** sign of the derivative at a singularity, lines 484-485, 498-499, 512-513 *)
Definition sign_inf (d : R) : R := (if Rlt_dec d 0 then -1 else 1) * inf.

(** the operators and functions of one argument; t is the object tmp that is returned *)
Definition call1 (f : unary) (M : mem) (t a : nat) : mem :=
  match f with
  | Neg => alls nd (ctor M t) t (fun M i => - M a i)                              (* 335-340 *)
  | Tan =>                                                                         (* 459-468 *)
      let M := prim (ctor M t) t (tan (M a 0%nat)) in
      let tmp2 := cos (M a 0%nat) * cos (M a 0%nat) in
      dirs nd M t (fun M i => M a i / tmp2)
  | Exp => dirs nd (prim (ctor M t) t (exp (M a 0%nat))) t
                (fun M i => M t 0%nat * M a i)                                    (* 470-476 *)
  | Log => dirs nd (prim (ctor M t) t (ln (M a 0%nat))) t (fun M i =>              (* 478-490 *)
      if Rlt_dec 0 (M a 0%nat) then M a i / M a 0%nat
      else if Req_EM_T (M a 0%nat) 0 then
             (if Req_EM_T (M a i) 0 then nan else sign_inf (M a i)) else nan)
  | Sqrt => dirs nd (prim (ctor M t) t (sqrt (M a 0%nat))) t (fun M i =>           (* 492-504 *)
      if Rlt_dec 0 (M a 0%nat) then M a i / (M t 0%nat * 2)
      else if Req_EM_T (M a 0%nat) 0 then
             (if Req_EM_T (M a i) 0 then nan else sign_inf (M a i)) else nan)
  | Cbrt => dirs nd (prim (ctor M t) t (Rcbrt (M a 0%nat))) t (fun M i =>          (* 506-518 *)
      if Req_EM_T (M a 0%nat) 0 then
        (if Req_EM_T (M a i) 0 then nan else sign_inf (M a i))
      else M a i / (M t 0%nat * M t 0%nat * 3))
  | Sin => let M := prim (ctor M t) t (sin (M a 0%nat)) in
           let tmp2 := cos (M a 0%nat) in dirs nd M t (fun M i => tmp2 * M a i)    (* 520-528 *)
  | Cos => let M := prim (ctor M t) t (cos (M a 0%nat)) in
           let tmp2 := - sin (M a 0%nat) in dirs nd M t (fun M i => tmp2 * M a i)  (* 530-538 *)
  | Asin => let M := prim (ctor M t) t (asin (M a 0%nat)) in                       (* 540-547 *)
            let tmp2 := sqrt (1 - M a 0%nat * M a 0%nat) in
            dirs nd M t (fun M i => M a i / tmp2)
  | Acos => let M := prim (ctor M t) t (acos (M a 0%nat)) in                       (* 549-556 *)
            let tmp2 := - sqrt (1 - M a 0%nat * M a 0%nat) in
            dirs nd M t (fun M i => M a i / tmp2)
  | Atan => let M := prim (ctor M t) t (atan (M a 0%nat)) in                       (* 558-568 *)
            let tmp2 := 1 / (1 + M a 0%nat * M a 0%nat) in
            if Req_EM_T tmp2 0 then dirs nd M t (fun _ _ => 0)
            else dirs nd M t (fun M i => M a i * tmp2)
  | Log10 => let M := prim (ctor M t) t (Rlog10 (M a 0%nat)) in                    (* 613-620 *)
             let tmp2 := ln 10 * M a 0%nat in dirs nd M t (fun M i => M a i / tmp2)
  | Sinh => let M := prim (ctor M t) t (sinh (M a 0%nat)) in
            let tmp2 := cosh (M a 0%nat) in dirs nd M t (fun M i => M a i * tmp2)  (* 622-629 *)
  | Cosh => let M := prim (ctor M t) t (cosh (M a 0%nat)) in
            let tmp2 := sinh (M a 0%nat) in dirs nd M t (fun M i => M a i * tmp2)  (* 631-638 *)
  | Tanh => let M := prim (ctor M t) t (tanh (M a 0%nat)) in                       (* 640-648 *)
            let tmp2 := cosh (M a 0%nat) * cosh (M a 0%nat) in
            dirs nd M t (fun M i => M a i / tmp2)
  | Asinh => let M := prim (ctor M t) t (Rasinh (M a 0%nat)) in                    (* 650-657 *)
             let tmp2 := sqrt (M a 0%nat * M a 0%nat + 1) in
             dirs nd M t (fun M i => M a i / tmp2)
  | Acosh => let M := prim (ctor M t) t (Racosh (M a 0%nat)) in                    (* 659-666 *)
             let tmp2 := sqrt (M a 0%nat * M a 0%nat - 1) in
             dirs nd M t (fun M i => M a i / tmp2)
  | Atanh => let M := prim (ctor M t) t (Ratanh (M a 0%nat)) in                    (* 668-675 *)
             let tmp2 := 1 - M a 0%nat * M a 0%nat in
             dirs nd M t (fun M i => M a i / tmp2)
  | Fabs =>                                                                        (* 677-697 *)
      let M := prim (ctor M t) t (Rabs (M a 0%nat)) in
      if Rlt_dec 0 (M a 0%nat) then dirs nd M t (fun M i => M a i * 1)
      else if Rlt_dec (M a 0%nat) 0 then dirs nd M t (fun M i => M a i * -1)
      else dirs nd M t (fun M i =>
             M a i * (if Rlt_dec (M a i) 0 then -1 else if Rlt_dec 0 (M a i) then 1 else 0))
  | Ceil => dirs nd (prim (ctor M t) t (Rceil (M a 0%nat))) t (fun _ _ => 0)       (* 699-705 *)
  | Floor => dirs nd (prim (ctor M t) t (Rfloor (M a 0%nat))) t (fun _ _ => 0)     (* 707-713 *)
  | Erf => let M := prim (ctor M t) t (Rerf (M a 0%nat)) in                        (* 877-885 *)
           let tmp2 := 2 / sqrt (acos (-1)) * exp (- M a 0%nat * M a 0%nat) in
           dirs nd M t (fun M i => tmp2 * M a i)
  | Erfc => let M := prim (ctor M t) t (Rerfc (M a 0%nat)) in                      (* 887-895 *)
            let tmp2 := -2 / sqrt (acos (-1)) * exp (- M a 0%nat * M a 0%nat) in
            dirs nd M t (fun M i => tmp2 * M a i)
  end.

(** two adouble arguments *)
Definition call2 (g : binary) (M : mem) (t a b : nat) : mem :=
  match g with
  | Add => alls nd (ctor M t) t (fun M i => M a i + M b i)                         (* 350-355 *)
  | Sub => alls nd (ctor M t) t (fun M i => M a i - M b i)                         (* 368-373 *)
  | Mul => dirs nd (prim (ctor M t) t (M a 0%nat * M b 0%nat)) t
                (fun M i => M a i * M b 0%nat + M a 0%nat * M b i)                 (* 391-397 *)
  | Div => dirs nd (prim (ctor M t) t (M a 0%nat / M b 0%nat)) t (fun M i =>       (* 414-421 *)
             (M a i * M b 0%nat - M a 0%nat * M b i) / (M b 0%nat * M b 0%nat))
  | Atan2 =>                                                                       (* 570-582 *)
      let M := prim (ctor M t) t (Ratan2 (M a 0%nat) (M b 0%nat)) in
      let tmp2 := M a 0%nat * M a 0%nat in
      let tmp3 := M b 0%nat * M b 0%nat in
      let tmp4 := tmp3 / (tmp2 + tmp3) in
      if Req_EM_T tmp4 0 then dirs nd M t (fun _ _ => 0)
      else dirs nd M t (fun M i => (M a i * M b 0%nat - M a 0%nat * M b i) / tmp3 * tmp4)
  | Pow =>                                                                         (* 593-602 *)
      let M := prim (ctor M t) t (Rvpow (M a 0%nat) (M b 0%nat)) in
      let tmp2 := M b 0%nat * Rvpow (M a 0%nat) (M b 0%nat - 1) in
      let tmp3 := ln (M a 0%nat) * M t 0%nat in
      dirs nd M t (fun M i => tmp2 * M a i + tmp3 * M b i)
  | Fmax =>                                                                        (* 715-737 *)
      let tmp2 := M a 0%nat - M b 0%nat in
      if Rlt_dec tmp2 0 then dirs nd (prim (ctor M t) t (M b 0%nat)) t (fun M i => M b i)
      else
        let M := prim (ctor M t) t (M a 0%nat) in
        if Rlt_dec 0 tmp2 then dirs nd M t (fun M i => M a i)
        else dirs nd M t (fun M i => if Rlt_dec (M a i) (M b i) then M b i else M a i)
  | Fmin =>                                                                        (* 787-809 *)
      let tmp2 := M a 0%nat - M b 0%nat in
      if Rlt_dec tmp2 0 then dirs nd (prim (ctor M t) t (M a 0%nat)) t (fun M i => M a i)
      else
        let M := prim (ctor M t) t (M b 0%nat) in
        if Rlt_dec 0 tmp2 then dirs nd M t (fun M i => M b i)
        else dirs nd M t (fun M i => if Rlt_dec (M a i) (M b i) then M a i else M b i)
  end.

(** double on the left; atan2(double, adouble) does not exist in adtl.h: the double is
    converted by the constructor 291 (object h) *)
Definition call2l (g : binary) (M : mem) (t h : nat) (v : R) (a : nat) : mem :=
  match g with
  | Add => ctor_dv M t (v + M a 0%nat) (fun M i => M a (1 + i)%nat)                (* 357-360 *)
  | Sub => dirs nd (prim (ctor M t) t (v - M a 0%nat)) t (fun M i => - M a i)      (* 375-381 *)
  | Mul => alls nd (ctor M t) t (fun M i => v * M a i)                             (* 399-404 *)
  | Div => dirs nd (prim (ctor M t) t (v / M a 0%nat)) t
                (fun M i => (- v * M a i) / (M a 0%nat * M a 0%nat))               (* 423-429 *)
  | Atan2 => call2 Atan2 (ctor_d M h v) t h a
  | Pow => let M := prim (ctor M t) t (Rvpow v (M a 0%nat)) in                     (* 604-611 *)
           let tmp2 := M t 0%nat * ln v in dirs nd M t (fun M i => tmp2 * M a i)
  | Fmax =>                                                                        (* 739-761 *)
      let tmp2 := v - M a 0%nat in
      if Rlt_dec tmp2 0 then dirs nd (prim (ctor M t) t (M a 0%nat)) t (fun M i => M a i)
      else
        let M := prim (ctor M t) t v in
        if Rlt_dec 0 tmp2 then dirs nd M t (fun _ _ => 0)
        else dirs nd M t (fun M i => if Rlt_dec 0 (M a i) then M a i else 0)
  | Fmin =>                                                                        (* 811-833 *)
      let tmp2 := v - M a 0%nat in
      if Rlt_dec tmp2 0 then dirs nd (prim (ctor M t) t v) t (fun _ _ => 0)
      else
        let M := prim (ctor M t) t (M a 0%nat) in
        if Rlt_dec 0 tmp2 then dirs nd M t (fun M i => M a i)
        else dirs nd M t (fun M i => if Rlt_dec (M a i) 0 then M a i else 0)
  end.

(** double on the right *)
Definition call2r (g : binary) (M : mem) (t h : nat) (a : nat) (v : R) : mem :=
  match g with
  | Add => ctor_dv M t (M a 0%nat + v) (fun M i => M a (1 + i)%nat)                (* 345-348 *)
  | Sub => ctor_dv M t (M a 0%nat - v) (fun M i => M a (1 + i)%nat)                (* 363-366 *)
  | Mul => alls nd (ctor M t) t (fun M i => M a i * v)                             (* 384-389 *)
  | Div => alls nd (ctor M t) t (fun M i => M a i / v)                             (* 407-412 *)
  | Atan2 => call2 Atan2 (ctor_d M h v) t a h
  | Pow => let M := prim (ctor M t) t (Rvpow (M a 0%nat) v) in                     (* 584-591 *)
           let tmp2 := v * Rvpow (M a 0%nat) (v - 1) in
           dirs nd M t (fun M i => tmp2 * M a i)
  | Fmax =>                                                                        (* 763-785 *)
      let tmp2 := M a 0%nat - v in
      if Rlt_dec tmp2 0 then dirs nd (prim (ctor M t) t v) t (fun _ _ => 0)
      else
        let M := prim (ctor M t) t (M a 0%nat) in
        if Rlt_dec 0 tmp2 then dirs nd M t (fun M i => M a i)
        else dirs nd M t (fun M i => if Rlt_dec 0 (M a i) then M a i else 0)
  | Fmin =>                                                                        (* 835-857 *)
      let tmp2 := M a 0%nat - v in
      if Rlt_dec tmp2 0 then dirs nd (prim (ctor M t) t (M a 0%nat)) t (fun M i => M a i)
      else
        let M := prim (ctor M t) t v in
        if Rlt_dec 0 tmp2 then dirs nd M t (fun _ _ => 0)
        else dirs nd M t (fun M i => if Rlt_dec (M a i) 0 then M a i else 0)
  end.

(** assignments, 926-937 *)
Definition assign_d (M : mem) (x : nat) (v : R) : mem := dirs nd (prim M x v) x (fun _ _ => 0).
Definition assign (M : mem) (x a : nat) : mem := alls nd M x (fun M i => M a i).

(** += -= *= /= *)
Inductive arith := APlus | AMinus | ATimes | AOver.
Definition compound_d (op : arith) (M : mem) (x : nat) (v : R) : mem :=
  match op with
  | APlus => prim M x (M x 0%nat + v)                                              (* 939-942 *)
  | AMinus => prim M x (M x 0%nat - v)                                             (* 950-953 *)
  | ATimes => alls nd M x (fun M i => M x i * v)                                   (* 961-965 *)
  | AOver => alls nd M x (fun M i => M x i / v)                                    (* 974-978 *)
  end.
Definition compound (op : arith) (M : mem) (x a : nat) : mem :=
  match op with
  | APlus => alls nd M x (fun M i => M x i + M a i)                                (* 944-948 *)
  | AMinus => alls nd M x (fun M i => M x i - M a i)                               (* 955-959 *)
  | ATimes =>                                                                      (* 967-972 *)
      let M := dirs nd M x (fun M i => M x i * M a 0%nat + M x 0%nat * M a i) in
      prim M x (M x 0%nat * M a 0%nat)
  | AOver =>                                                                       (* 980-986 *)
      let M := dirs nd M x (fun M i =>
                 (M x i * M a 0%nat - M x 0%nat * M a i) / (M a 0%nat * M a 0%nat)) in
      prim M x (M x 0%nat / M a 0%nat)
  end.

(** ++x, --x (d = 1, -1), 432-435 and 445-448: t is the returned copy;
    x++, x--, 437-443 and 450-456 *)
Definition pre_inc (M : mem) (t x : nat) (d : R) : mem :=
  ctor_copy (prim M x (M x 0%nat + d)) t x.
Definition post_inc (M : mem) (t x : nat) (d : R) : mem :=
  let M1 := prim (ctor M t) t (M x 0%nat) in
  let M2 := prim M1 x (M1 x 0%nat + d) in
  dirs nd M2 t (fun M i => M x i).

(** comparisons with objects or doubles, 989-1062 *)
Inductive operand := Obj (o : nat) | Dbl (v : R).
Inductive cmp := Ceq | Cne | Cle | Cge | Clt | Cgt.
Definition compare (c : cmp) (x y : R) : bool :=
  match c with
  | Ceq => Reqb x y | Cne => negb (Reqb x y) | Cle => Rleb x y | Cge => Rleb y x
  | Clt => Rltb x y | Cgt => Rltb y x
  end.
Definition value (M : mem) (o : operand) : R :=
  match o with Obj o => M o 0%nat | Dbl v => v end.

(** A program: statements and branches.  t, h are new objects; x an existing one. *)
Inductive stmt :=
| New (t : nat) | NewD (t : nat) (v : R) | NewCopy (t a : nat)
| Call1 (f : unary) (t a : nat)
| Call2 (g : binary) (t a b : nat)
| Call2L (g : binary) (t h : nat) (v : R) (a : nat)
| Call2R (g : binary) (t h : nat) (a : nat) (v : R)
| AssignD (x : nat) (v : R) | Assign (x a : nat)
| CompD (op : arith) (x : nat) (v : R) | Comp (op : arith) (x a : nat)
| PreInc (t x : nat) (d : R) | PostInc (t x : nat) (d : R)
| CondAssign (x c a b : nat) | CondAssign1 (x c a : nat)
| CondEqAssign (x c a b : nat) | CondEqAssign1 (x c a : nat).
Inductive prog :=
| Done
| Do (s : stmt) (p : prog)
| If (c : cmp) (x y : operand) (p q : prog).

Definition step (s : stmt) (M : mem) : mem :=
  match s with
  | New t => ctor M t
  | NewD t v => ctor_d M t v
  | NewCopy t a => ctor_copy M t a
  | Call1 f t a => call1 f M t a
  | Call2 g t a b => call2 g M t a b
  | Call2L g t h v a => call2l g M t h v a
  | Call2R g t h a v => call2r g M t h a v
  | AssignD x v => assign_d M x v
  | Assign x a => assign M x a
  | CompD op x v => compound_d op M x v
  | Comp op x a => compound op M x a
  | PreInc t x d => pre_inc M t x d
  | PostInc t x d => post_inc M t x d
  | CondAssign x c a b => if Rlt_dec 0 (M c 0%nat) then assign M x a else assign M x b    (* 897-903 *)
  | CondAssign1 x c a => if Rlt_dec 0 (M c 0%nat) then assign M x a else M                (* 905-909 *)
  | CondEqAssign x c a b => if Rle_dec 0 (M c 0%nat) then assign M x a else assign M x b  (* 911-917 *)
  | CondEqAssign1 x c a => if Rle_dec 0 (M c 0%nat) then assign M x a else M              (* 919-923 *)
  end.
Fixpoint run (p : prog) (M : mem) : mem :=
  match p with
  | Done => M
  | Do s p => run p (step s M)
  | If c x y p q => if compare c (value M x) (value M y) then run p M else run q M
  end.

(** getters and setters, 1071-1098; None: the exception logic_error *)
Definition getValue (M : mem) (o : nat) : R := M o 0%nat.
Definition setValue (M : mem) (o : nat) (v : R) : mem := prim M o v.
Definition getADValue (M : mem) (o p : nat) : option R :=
  if (nd <=? p)%nat then None else Some (M o (p + 1)%nat).
Definition setADValue (M : mem) (o p : nat) (v : R) : option mem :=
  if (nd <=? p)%nat then None else Some (upd M o (p + 1) v).
Definition setADValues (M : mem) (o : nat) (v : nat -> R) : mem :=
  dirs nd M o (fun _ i => v (i - 1)%nat).
End Model.

(** ldexp, 859-871, is made of the operators above *)
Definition ldexp (t h : nat) (a b : nat) (p : prog) : prog :=
  Do (Call2L Pow h h 2 b) (Do (Call2 Mul t a h) p).
Definition ldexp_d (t : nat) (a : nat) (v : R) (p : prog) : prog :=
  Do (Call2R Mul t t a (Rvpow 2 v)) p.
Definition d_ldexp (t h : nat) (v : R) (a : nat) (p : prog) : prog :=
  Do (Call2L Pow h h 2 a) (Do (Call2L Mul t t v h) p).
