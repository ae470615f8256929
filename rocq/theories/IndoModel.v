(* Model of the traceless sparsity pattern type adtl_indo::adouble.

   Modelled code: ADOL-C/include/adolc/adtl_indo.h (all constructors, operators, functions and
   assignments), ADOL-C/src/adouble_tl_indo.cpp: ADOLC_Init_sparse_pattern, ADOLC_get_sparse_pattern.
   Simplifications: double is any type D with any functions and comparisons (dnum); objects are numbers;
   an operator builds its result tmp and returns it as a new object t (an assignment to an existing
   object is a separate call); i/o is left out; unsigned int does not wrap. *)
From Coq Require Import List Arith Bool Lia.
Import ListNotations.

(* ------------------------------------------------------------------ *)
(* std::list<unsigned int>: merge takes from the other list if its head is smaller; unique *)
Fixpoint merge (l1 l2 : list nat) : list nat :=
  let fix merge_aux l2 :=
    match l1, l2 with
    | [], _ => l2
    | _, [] => l1
    | a1 :: l1', a2 :: l2' => if a2 <? a1 then a2 :: merge_aux l2' else a1 :: merge l1' l2
    end in merge_aux l2.
Fixpoint unique (l : list nat) : list nat :=
  match l with
  | a :: ((b :: _) as l') => if a =? b then unique l' else a :: unique l'
  | _ => l
  end.
Fixpoint list_eqb (l1 l2 : list nat) : bool :=
  match l1, l2 with
  | [], [] => true
  | a :: l1, b :: l2 => (a =? b) && list_eqb l1 l2
  | _, _ => false
  end.
(* add_to_pattern 839-851 *)
Definition add_to_pattern (pattern v : list nat) : list nat :=
  if negb (list_eqb pattern v) then
    match v with [] => pattern | _ => unique (merge pattern v) end
  else pattern.

Inductive unary := Neg | Tan | Exp | Log | Sqrt | Cbrt | Sin | Cos | Asin | Acos | Atan
  | Log10 | Sinh | Cosh | Tanh | Asinh | Acosh | Atanh | Fabs | Ceil | Floor | Erf | Erfc.
Inductive binary := Add | Sub | Mul | Div | Atan2 | Pow.
Inductive rel := Ne | Eq | Le | Ge | Gt | Lt.
Record dnum := mkNum {
  D : Type; f1 : unary -> D -> D; f2 : binary -> D -> D -> D; test : rel -> D -> D -> bool;
  nil_ : D; one_ : D; two_ : D }.

Section Model.
Variable N : dnum.
Notation D := (D N).

Record obj := mkObj { val : D; pat : list nat }.
Definition mem := nat -> obj.
Definition set (M : mem) (o : nat) (b : obj) : mem := fun o' => if o' =? o then b else M o'.

(* an operand: an adtl_indo::adouble or a double *)
Inductive operand := Ob (o : nat) | Const (v : D).
Definition oval (M : mem) (x : operand) : D := match x with Ob o => val (M o) | Const v => v end.
Definition opat (M : mem) (x : operand) : list nat := match x with Ob o => pat (M o) | Const _ => [] end.
(* tmp.add_to_pattern(x.get_pattern()), for an object *)
Definition take (M : mem) (p : list nat) (x : operand) : list nat :=
  match x with Ob o => add_to_pattern p (pat (M o)) | Const _ => p end.

Inductive call :=
| Ctor (t : nat)                               (* 240-243 *)
| CtorD (t : nat) (v : D)                      (* 245-254 *)
| CtorCopy (t a : nat)                         (* 256-261, operator+ 280 *)
| Un (f : unary) (t a : nat)                   (* 273-278, 397-465, 497-563, 678-690 *)
| Bin (f : binary) (t : nat) (x y : operand)   (* 283-370, 467-495 *)
| PreStep (f : binary) (t a : nat)             (* 372-375, 384-387: ++, -- *)
| PostStep (f : binary) (t a : nat)            (* 377-382, 389-394 *)
| Fmax (t : nat) (x y : operand)               (* 565-609 *)
| Fmin (t : nat) (x y : operand)               (* 611-655 *)
| Ldexp (t : nat) (x y : operand)              (* 657-672 *)
| Condassign (r c a1 a2 : nat)                 (* 692-698 *)
| Condassign1 (r c a : nat)                    (* 700-703 *)
| Condeqassign (r c a1 a2 : nat)               (* 705-711 *)
| Condeqassign1 (r c a : nat)                  (* 713-717 *)
| AsgD (x : nat) (v : D)                       (* 720-725 *)
| Asg (x a : nat)                              (* 727-733 *)
| OpAsg (f : binary) (x : nat) (y : operand)   (* 735-777 *)
| SetValue (x : nat) (v : D).                  (* 828 *)

(* what was decided or rounded on the way, and the plain doubles read *)
Inductive decision := Branch (b : bool) | Plainly (v : D).

(* operator= 727-733: with x and a the same object the pattern is cleared before it is read *)
Definition assign (M : mem) (x a : nat) : mem :=
  let M := set M x (mkObj (val (M a)) (pat (M x))) in
  let M := set M x (mkObj (val (M x)) []) in
  set M x (mkObj (val (M x)) (add_to_pattern (pat (M x)) (pat (M a)))).

Definition pos (M : mem) (c : nat) : bool := test N Gt (val (M c)) (nil_ N).
Definition nonneg (M : mem) (c : nat) : bool := test N Ge (val (M c)) (nil_ N).

Definition exec (M : mem) (c : call) : mem * list decision :=
  match c with
  | Ctor t => (set M t (mkObj (nil_ N) []), [])
  | CtorD t v => (set M t (mkObj v []), [])
  | CtorCopy t a => (set M t (mkObj (val (M a)) (add_to_pattern [] (pat (M a)))), [])
  | Un f t a =>
      let v := f1 N f (val (M a)) in
      match f with
      | Ceil | Floor => (set M t (mkObj v []), [Plainly v])
      | _ => (set M t (mkObj v (add_to_pattern [] (pat (M a)))), [])
      end
  | Bin f t x y =>
      (set M t (mkObj (f2 N f (oval M x) (oval M y)) (take M (take M [] x) y)), [])
  | PreStep f t a =>
      let M := set M a (mkObj (f2 N f (val (M a)) (one_ N)) (pat (M a))) in
      (set M t (mkObj (val (M a)) (add_to_pattern [] (pat (M a)))), [])
  | PostStep f t a =>
      let old := val (M a) in
      let M := set M a (mkObj (f2 N f (val (M a)) (one_ N)) (pat (M a))) in
      (set M t (mkObj old (add_to_pattern [] (pat (M a)))), [])
  | Fmax t x y =>
      let tmp2 := f2 N Sub (oval M x) (oval M y) in
      if test N Lt tmp2 (nil_ N) then (set M t (mkObj (oval M y) (take M [] y)), [Branch true])
      else if test N Gt tmp2 (nil_ N) then (set M t (mkObj (oval M x) (take M [] x)), [Branch false; Branch true])
      else (set M t (mkObj (oval M x) (take M (take M [] x) y)), [Branch false; Branch false])
  | Fmin t x y =>
      let tmp2 := f2 N Sub (oval M x) (oval M y) in
      if test N Lt tmp2 (nil_ N) then (set M t (mkObj (oval M x) (take M [] x)), [Branch true])
      else if test N Gt tmp2 (nil_ N) then (set M t (mkObj (oval M y) (take M [] y)), [Branch false; Branch true])
      else (set M t (mkObj (oval M y) (take M (take M [] x) y)), [Branch false; Branch false])
  | Ldexp t x y =>
      let p := mkObj (f2 N Pow (two_ N) (oval M y)) (take M [] y) in
      let tmp := mkObj (f2 N Mul (oval M x) (val p)) (add_to_pattern (take M [] x) (pat p)) in
      (set M t (mkObj (val tmp) (take M (take M (pat tmp) x) y)), [])
  | Condassign r c a1 a2 =>
      if pos M c then (assign M r a1, [Branch true]) else (assign M r a2, [Branch false])
  | Condassign1 r c a => if pos M c then (assign M r a, [Branch true]) else (M, [Branch false])
  | Condeqassign r c a1 a2 =>
      if nonneg M c then (assign M r a1, [Branch true]) else (assign M r a2, [Branch false])
  | Condeqassign1 r c a => if nonneg M c then (assign M r a, [Branch true]) else (M, [Branch false])
  | AsgD x v => (set M x (mkObj v []), [])
  | Asg x a => (assign M x a, [])
  | OpAsg f x y =>
      (set M x (mkObj (f2 N f (val (M x)) (oval M y)) (take M (pat (M x)) y)), [])
  | SetValue x v => (set M x (mkObj v (pat (M x))), [])
  end.

(* a program: calls, comparisons 780-818 and plain reads (getValue, the conversions, frexp 674, 820-826) *)
Inductive prog :=
| Ret
| Do (c : call) (p : prog)
| If (r : rel) (x y : operand) (k : bool -> prog)
| Get (o : nat) (k : D -> prog).
Fixpoint run (p : prog) (M : mem) : mem * list decision :=
  match p with
  | Ret => (M, [])
  | Do c p => let (M1, l1) := exec M c in let (M2, l2) := run p M1 in (M2, l1 ++ l2)
  | If r x y k =>
      let b := test N r (oval M x) (oval M y) in
      let (M2, l2) := run (k b) M in (M2, Branch b :: l2)
  | Get o k => let v := val (M o) in let (M2, l2) := run (k v) M in (M2, Plainly v :: l2)
  end.

(* ADOLC_Init_sparse_pattern(a, n, start_cnt), adouble_tl_indo.cpp 39-45; a[i] is the object a + i *)
Definition init_pattern (M : mem) (a n start : nat) : mem :=
  fold_left (fun M i => set M (a + i) (mkObj (val (M (a + i))) [i + start])) (seq 0 n) M.
(* ADOLC_get_sparse_pattern: the array pat[i] for one object, 47-67 *)
Definition get_pattern (b : obj) : list nat :=
  match pat b with [] => [0] | p => length p :: p end.
End Model.
Arguments Ob {N}. Arguments Const {N}. Arguments Ctor {N}. Arguments CtorD {N}. Arguments CtorCopy {N}.
Arguments Un {N}. Arguments Bin {N}. Arguments PreStep {N}. Arguments PostStep {N}. Arguments Fmax {N}.
Arguments Fmin {N}. Arguments Ldexp {N}. Arguments Condassign {N}. Arguments Condassign1 {N}.
Arguments Condeqassign {N}. Arguments Condeqassign1 {N}. Arguments AsgD {N}. Arguments Asg {N}.
Arguments OpAsg {N}. Arguments SetValue {N}. Arguments Ret {N}. Arguments Do {N}. Arguments If {N}.
Arguments Get {N}. Arguments Branch {N}. Arguments Plainly {N}. Arguments mkObj {N}.
Arguments val {N}. Arguments pat {N}. Arguments run {N}. Arguments exec {N}. Arguments set {N}.
Arguments init_pattern {N}. Arguments get_pattern {N}. Arguments oval {N}. Arguments opat {N}. Arguments take {N}.
Arguments assign {N}.
