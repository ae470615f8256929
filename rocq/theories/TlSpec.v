(** What the traceless mode should compute: the same program on plain numbers, and the
    derivative of its results along a curve. *)
From Coq Require Import List Arith Bool Reals.
From Verif Require Import AdReal TlModel.
Local Open Scope R_scope.

Definition store := nat -> R.
Definition put (s : store) (o : nat) (v : R) : store := fun o' => if (o' =? o)%nat then v else s o'.

Definition plain1 (f : unary) (x : R) : R :=
  match f with
  | Neg => - x | Tan => tan x | Exp => exp x | Log => ln x | Sqrt => sqrt x | Cbrt => Rcbrt x
  | Sin => sin x | Cos => cos x | Asin => asin x | Acos => acos x | Atan => atan x
  | Log10 => Rlog10 x | Sinh => sinh x | Cosh => cosh x | Tanh => tanh x
  | Asinh => Rasinh x | Acosh => Racosh x | Atanh => Ratanh x | Fabs => Rabs x
  | Ceil => Rceil x | Floor => Rfloor x | Erf => Rerf x | Erfc => Rerfc x
  end.
Definition plain2 (g : binary) (x y : R) : R :=
  match g with
  | Add => x + y | Sub => x - y | Mul => x * y | Div => x / y | Atan2 => Ratan2 x y
  | Pow => Rvpow x y | Fmax => Rmax x y | Fmin => Rmin x y
  end.
Definition plain_arith (op : arith) (x y : R) : R :=
  match op with APlus => x + y | AMinus => x - y | ATimes => x * y | AOver => x / y end.

(** the program with double in place of adouble *)
Definition plain_step (s : stmt) (d : store) : store :=
  match s with
  | New t => put d t 0
  | NewD t v => put d t v
  | NewCopy t a => put d t (d a)
  | Call1 f t a => put d t (plain1 f (d a))
  | Call2 g t a b => put d t (plain2 g (d a) (d b))
  | Call2L g t h v a => put (match g with Atan2 => put d h v | _ => d end) t (plain2 g v (d a))
  | Call2R g t h a v => put (match g with Atan2 => put d h v | _ => d end) t (plain2 g (d a) v)
  | AssignD x v => put d x v
  | Assign x a => put d x (d a)
  | CompD op x v => put d x (plain_arith op (d x) v)
  | Comp op x a => put d x (plain_arith op (d x) (d a))
  | PreInc t x e => put (put d x (d x + e)) t (d x + e)
  | PostInc t x e => put (put d x (d x + e)) t (d x)
  | CondAssign x c a b => put d x (if Rlt_dec 0 (d c) then d a else d b)
  | CondAssign1 x c a => put d x (if Rlt_dec 0 (d c) then d a else d x)
  | CondEqAssign x c a b => put d x (if Rle_dec 0 (d c) then d a else d b)
  | CondEqAssign1 x c a => put d x (if Rle_dec 0 (d c) then d a else d x)
  end.
Definition plain_value (d : store) (o : operand) : R := match o with Obj o => d o | Dbl v => v end.
Fixpoint plain_run (p : prog) (d : store) : store :=
  match p with
  | Done => d
  | Do s p => plain_run p (plain_step s d)
  | If c x y p q => if compare c (plain_value d x) (plain_value d y) then plain_run p d else plain_run q d
  end.

(** the one-sided derivative at 0 (in the direction of increasing t) *)
Definition right_derivative (h : R -> R) (l : R) : Prop :=
  forall eps, 0 < eps -> exists delta, 0 < delta /\
    forall t, 0 < t < delta -> Rabs ((h t - h 0) / t - l) < eps.

(** where the operations are differentiable (fabs, fmax and fmin need no condition) *)
Definition smooth1 (f : unary) (x : R) : Prop :=
  match f with
  | Tan => cos x <> 0
  | Log | Sqrt | Log10 => 0 < x
  | Cbrt => x <> 0
  | Asin | Acos | Atanh => -1 < x < 1
  | Acosh => 1 < x
  | Ceil => x <> Rceil x
  | Floor => x <> Rfloor x
  | _ => True
  end.
Definition smooth2 (g : binary) (x y : R) : Prop :=
  match g with
  | Div => y <> 0
  | Atan2 => 0 < y \/ (y < 0 /\ x <> 0)
  | Pow => 0 < x
  | _ => True
  end.
(** x ^ v for a constant v: also negative x for integers v, and every x for v = 1, 2, .. *)
Definition smooth2r (g : binary) (x v : R) : Prop :=
  match g with
  | Pow => 0 < x \/ (x < 0 /\ v = Rfloor v) \/ exists n, v = INR (S n)
  | _ => smooth2 g x v
  end.
Definition smooth_arith (op : arith) (y : R) : Prop := match op with AOver => y <> 0 | _ => True end.

(** the program is legal (results of operators are new objects, only objects whose
    derivatives have been set are read) and every operation met at the point [d] is
    differentiable there; comparisons must not be at a tie *)
Definition good_step (s : stmt) (clean : nat -> Prop) (d : store) : Prop :=
  match s with
  | New t | NewD t _ => True
  | NewCopy t a => clean a /\ t <> a
  | Call1 f t a => clean a /\ t <> a /\ smooth1 f (d a)
  | Call2 g t a b => clean a /\ clean b /\ t <> a /\ t <> b /\ smooth2 g (d a) (d b)
  | Call2L g t h v a => clean a /\ t <> a /\ h <> a /\ (g = Atan2 -> h <> t) /\
                        smooth2 g v (d a)
  | Call2R g t h a v => clean a /\ t <> a /\ h <> a /\ (g = Atan2 -> h <> t) /\
                        smooth2r g (d a) v
  | AssignD x v => True
  | Assign x a => clean a
  | CompD op x v => clean x /\ smooth_arith op v
  | Comp op x a => clean x /\ clean a /\ smooth_arith op (d a)
  | PreInc t x _ | PostInc t x _ => clean x /\ t <> x
  | CondAssign x c a b | CondEqAssign x c a b => clean c /\ clean a /\ clean b /\ d c <> 0
  | CondAssign1 x c a | CondEqAssign1 x c a => clean x /\ clean c /\ clean a /\ d c <> 0
  end.
Definition clean_after (s : stmt) (clean : nat -> Prop) : nat -> Prop :=
  match s with
  | New t => fun o => clean o /\ o <> t
  | NewD t _ | NewCopy t _ | Call1 _ t _ | Call2 _ t _ _ => fun o => clean o \/ o = t
  | Call2L g t h _ _ | Call2R g t h _ _ => fun o => clean o \/ o = t \/ (g = Atan2 /\ o = h)
  | AssignD x _ | Assign x _ => fun o => clean o \/ o = x
  | PreInc t _ _ | PostInc t _ _ => fun o => clean o \/ o = t
  | CondAssign x _ _ _ | CondEqAssign x _ _ _ => fun o => clean o \/ o = x
  | _ => clean
  end.
Definition clean_operand (clean : nat -> Prop) (o : operand) : Prop :=
  match o with Obj o => clean o | Dbl _ => True end.
Fixpoint good (p : prog) (clean : nat -> Prop) (d : store) : Prop :=
  match p with
  | Done => True
  | Do s p => good_step s clean d /\ good p (clean_after s clean) (plain_step s d)
  | If c x y p q =>
      clean_operand clean x /\ clean_operand clean y /\ plain_value d x <> plain_value d y /\
      (if compare c (plain_value d x) (plain_value d y) then good p clean d else good q clean d)
  end.
Fixpoint cleans (p : prog) (clean : nat -> Prop) (d : store) : nat -> Prop :=
  match p with
  | Done => clean
  | Do s p => cleans p (clean_after s clean) (plain_step s d)
  | If c x y p q => if compare c (plain_value d x) (plain_value d y) then cleans p clean d else cleans q clean d
  end.

(** legal programs: the result of an operator is a new object *)
Definition legal_step (s : stmt) : Prop :=
  match s with
  | NewCopy t a => t <> a
  | Call1 _ t a => t <> a
  | Call2 _ t a b => t <> a /\ t <> b
  | Call2L g t h _ a | Call2R g t h a _ => t <> a /\ h <> a /\ (g = Atan2 -> h <> t)
  | PreInc t x _ | PostInc t x _ => t <> x
  | _ => True
  end.
Fixpoint legal (p : prog) : Prop :=
  match p with
  | Done => True
  | Do s p => legal_step s /\ legal p
  | If _ _ _ p q => legal p /\ legal q
  end.
