(* Model of the higher order forward sweep in several directions.

   Modelled code: ADOL-C/src/uni5_for.cpp compiled with _HIGHER_ORDER_,
   _ADOLC_VECTOR_ and _HOV_ (hov_forward): the loops over directions and
   coefficients of every operation.  dpp_T[loc] is one block of p * k numbers
   (1243); direction l has the indices l*k .. l*k+k-1.  The pointers Tres, Targ,
   Targ1, Targ2 are modelled by the index they have reached; where the code may
   leave them behind (pow_op at zero) the index is part of the loop state.  The
   scratch array dp_z and, in log_op, divs live across the directions, as in the
   code.  dp_T0 is the memory of zos_forward (AdModel.zval).

   Not modelled: hov_wk_forward (keep), the return code MINDEC(ret_c, 1) of
   abs_val (3974), external functions (5510-5800: _EXTERN_ is not defined for
   hov_forward). *)
Require Import List ZArith Bool Arith Lia.
Require Import Verif.AdModel Verif.HosModel.
Import ListNotations.
Set Implicit Arguments.
Set Asymmetric Patterns.

Section Model.
Variable K : Arith.
Notation val := (V K).
Notation vmem := (mem K).
Notation rows := (rows K).
Notation num := (@HosModel.num K).
Notation putz := (@HosModel.putz K).
Notation zrow := (nat -> val).

(* FOR_0_LE_l_LT_pk TRES_INC = g      uni5_for.cpp:454 *)
Definition wrow (p k res : nat) (g : nat -> rows -> val) (C : rows) : rows :=
  up (p * k) (fun q C => put C res q (g q C)) C.

(* FOR_p_GT_l_GE_0 FOR_k_GT_i_GE_0, the pointers starting at pk - 1 (INC_pk_1):
   1837-1848, 2065-2078, 2132-2143, 2198-2209, 4940-4951, 5058-5070, 5126-5139.
   Targ1OP = Targ1 - i + 1 is the first coefficient of the direction. *)
Definition wprow (op : val -> val -> val) (p k res a1 a2 : nat)
  (first : nat -> rows -> val) (C : rows) : rows :=
  dn p (fun l => dn k (fun i C =>
          put C res (l * k + i)
            (up i (fun j acc => op acc (mul K (C a1 (l * k + j)) (C a2 (l * k + (i - 1 - j)))))
                  (first (l * k + i) C)))) C.

(* FOR_0_LE_l_LT_p FOR_0_LE_i_LT_k with dp_z *)
Definition zdirs (p k : nat) (body : nat -> nat -> rows * zrow -> rows * zrow) (C : rows) : rows :=
  fst (up p (fun l s => up k (body (l * k)) s) (C, fun _ => zero K)).

(* div_a_a 2300-2316, div_d_a 2364-2380 *)
Definition wdiv (res den : nat) (divs : val) (first : nat -> rows -> val)
  (o i : nat) (s : rows * zrow) : rows * zrow :=
  let (C, z) := s in
  let z := putz z i (mul K (neg K (C den (o + i))) divs) in
  (put C res (o + i)
     (up i (fun j acc => add K acc (mul K (C res (o + j)) (z (i - 1 - j)))) (first (o + i) C)), z).

(* exp_op 2488-2505 *)
Definition wexp (arg res : nat) (v : val) (o i : nat) (s : rows * zrow) : rows * zrow :=
  let (C, z) := s in
  let z := putz z i (mul K (num i) (C arg (o + i))) in
  let a := mul K (mul K v (C arg (o + i))) (num i) in
  let a := up i (fun j acc => add K acc (mul K (C res (o + j)) (z (i - 1 - j)))) a in
  (put C res (o + i) (dvd K a (num i)), z).

(* sin_op 2554-2578, cos_op 2627-2651 *)
Definition wtrig (a1 a2 res : nat) (f2 fr : val -> val) (o2 o_r : val -> val -> val)
  (o i : nat) (s : rows * zrow) : rows * zrow :=
  let (C, z) := s in
  let z := putz z i (mul K (num i) (C a1 (o + i))) in
  let C := put C a2 (o + i) (f2 (C a1 (o + i))) in
  let C := put C res (o + i) (fr (C a1 (o + i))) in
  let C := put C res (o + i) (mul K (C res (o + i)) (num i)) in
  let C := put C a2 (o + i) (mul K (C a2 (o + i)) (num i)) in
  let C := up i (fun j C =>
             let C := put C res (o + i)
                        (o_r (C res (o + i)) (mul K (C a2 (o + j)) (z (i - 1 - j)))) in
             put C a2 (o + i) (o2 (C a2 (o + i)) (mul K (C res (o + j)) (z (i - 1 - j))))) C in
  let C := put C a2 (o + i) (dvd K (C a2 (o + i)) (num i)) in
  (put C res (o + i) (dvd K (C res (o + i)) (num i)), z).

(* atan 2693-2712, asin 2793-2812, acos 2893-2912, asinh 2954-2973, acosh
   3038-3058, atanh 3145-3165, erf 3204-3223, erfc 3262-3281, gen_quad 3687-3707;
   Targ2 moves with HOV_INC(Targ2, k) after each direction *)
Definition whelp (a1 a2 res : nat) (v2 : val) (o i : nat) (s : rows * zrow) : rows * zrow :=
  let (C, z) := s in
  let z := putz z i (mul K (num i) (C a1 (o + i))) in
  let a := mul K (mul K v2 (C a1 (o + i))) (num i) in
  let a := up i (fun j acc => add K acc (mul K (C a2 (o + j)) (z (i - 1 - j)))) a in
  (put C res (o + i) (dvd K a (num i)), z).

(* the first coefficient of the direction that is not zero decides: 2756-2769 *)
Definition wpick (k o arg : nat) (pl mi : val) (C : rows) : val :=
  (fix go n i := match n with
     | 0 => zero K
     | S n' => if gt0 K (C arg (o + i)) then pl else if lt0 K (C arg (o + i)) then mi
               else go n' (S i)
     end) k 0.

(* asin 2754-2791, acos 2854-2891: TRES = r0; VEC_INC(Tres, k).
   acosh 3015-3036, atanh 3100-3143: TRES_INC = r0; the others NaN. *)
Definition wspecial (p k : nat) (f : fname) (v : val) (a1 res : nat) (C : rows) : option rows :=
  let first pl mi := up p (fun l C => put C res (l * k) (wpick k (l * k) a1 pl mi C)) C in
  let all pl mi := up p (fun l C =>
    up (k - 1) (fun i C => put C res (l * k + S i) (vnan K))
       (put C res (l * k) (wpick k (l * k) a1 pl mi C))) C in
  match f with
  | Fasin => if eqb K v (one K) then Some (first (vnan K) (vinf K))
             else if eqb K v (neg K (one K)) then Some (first (vinf K) (vnan K)) else None
  | Facos => if eqb K v (one K) then Some (first (vnan K) (neg K (vinf K)))
             else if eqb K v (neg K (one K)) then Some (first (neg K (vinf K)) (vnan K))
             else None
  | Facosh => if eqb K v (one K) then Some (all (vinf K) (vnan K)) else None
  | Fatanh => if eqb K v (one K) then Some (all (vnan K) (vinf K))
              else if eqb K v (neg K (one K)) then Some (all (vinf K) (vnan K)) else None
  | _ => None
  end.

(* log_op 3317-3343: divs is set before the loop over the directions and only
   changed inside it *)
Definition wany_neg (k o arg : nat) (C : rows) : bool :=
  existsb (fun i => lt0 K (C arg (o + i))) (seq 0 k).
Definition wlogb (arg res : nat) (divs : val) (o i : nat) (s : rows * zrow) : rows * zrow :=
  let (C, z) := s in
  let y := mul K (C arg (o + i)) divs in
  let z := putz z i y in
  let a := up i (fun j acc =>
             sub K acc (mul K (mul K (z (i - 1 - j)) (C res (o + j))) (num j)))
             (mul K y (num i)) in
  (put C res (o + i) (dvd K a (num i)), z).
Definition wlog (p k arg res : nat) (v : val) (C : rows) : rows :=
  fst (snd (up p (fun l (s : val * (rows * zrow)) =>
    let (divs, s) := s in
    let divs := if eqb K v (zero K) && wany_neg k (l * k) arg (fst s) then vnan K else divs in
    (divs, up k (wlogb arg res divs (l * k)) s))
    (dvd K (one K) v, (C, fun _ => zero K)))).

(* pow_op at a nonzero argument, 3465-3486 *)
Definition wpow (arg res : nat) (v c r0 : val) (o i : nat) (s : rows * zrow) : rows * zrow :=
  let (C, z) := s in
  let z := putz z i (mul K (C arg (o + i)) r0) in
  let a := mul K (mul K (mul K (mul K v (C arg (o + i))) c) r0) (num i) in
  let y := sub K (mul K c (ofnat K i)) (one K) in
  let a := fst (up i (fun j (q : val * val) => let (acc, y) := q in
                   (add K acc (mul K (mul K (C res (o + j)) (z (i - 1 - j))) y),
                    sub K y (add K c (one K)))) (a, y)) in
  (put C res (o + i) (dvd K a (num i)), z).

(* pow_op at zero, 3405-3414: Tres moves only when one of the three tests holds,
   and is not set to the next direction afterwards *)
Definition wpowfrac (p k res : nat) (c : val) (C : rows) : rows :=
  fst (up p (fun _ => up k (fun i (s : rows * nat) =>
    let (C, q) := s in
    let d := sub K c (ofnat K i) in
    let (C, q) := if ltb K (one K) d then (put C res q (zero K), S q) else (C, q) in
    let (C, q) := if ltb K d (one K) && gt0 K d then (put C res q (vinf K), S q) else (C, q) in
    if lt0 K d then (put C res q (vnan K), S q) else (C, q))) (C, 0)).

(* pow_op at zero, exponent an integer > 1, 3423-3460: dp_z holds the row of the
   direction treated last (direction 0) when the second loop starts *)
Definition wpowint (p k arg res : nat) (c : val) (C : rows) : rows :=
  let s := dn p (fun l (s : rows * zrow) =>
             let (C, _) := s in
             let z := fun j => C arg (l * k + j) in
             (dn k (fun i C => put C res (l * k + i)
                (up i (fun j acc => add K acc (mul K (z j) (z (i - j - 1)))) (zero K))) C, z))
             (C, fun _ => zero K) in
  up (tonat K c - 2) (fun _ C =>
    dn p (fun l => dn k (fun i C => put C res (l * k + i)
      (up i (fun j acc => add K acc (mul K (C res (l * k + j)) (snd s (i - j - 1)))) (zero K)))) C)
    (fst s).

(* sqrt_op 3527-3569 *)
Definition wsqrt (p k arg res : nat) (v vr : val) (C : rows) : rows :=
  up p (fun l C =>
    let r0 := if eqb K v (zero K) then wpick k (l * k) arg (vinf K) (vnan K) C
              else dvd K (half K) vr in
    up k (fun i C =>
      let y := mul K r0 (C arg (l * k + i)) in
      let x := up (Nat.div2 i) (fun j acc =>
                 add K acc (mul K (C res (l * k + j)) (C res (l * k + (i - 1 - j))))) (zero K) in
      let x := mul K x (two K) in
      let x := if Nat.odd i
               then add K x (mul K (C res (l * k + Nat.div2 i)) (C res (l * k + Nat.div2 i)))
               else x in
      put C res (l * k + i) (sub K y (mul K r0 x))) C) C.

(* min_op 3825-3862: Tqo (values differ) or the first coefficient that differs *)
Definition wminarg (k o a1 a2 : nat) (T : vmem) (C : rows) : nat :=
  if ltb K (T a2) (T a1) then a2
  else if ltb K (T a1) (T a2) then a1
  else (fix go n i := match n with
          | 0 => a1
          | S n' => if ltb K (C a2 (o + i)) (C a1 (o + i)) then a2
                    else if ltb K (C a1 (o + i)) (C a2 (o + i)) then a1 else go n' (S i)
          end) k 0.
Definition wmin (p k a1 a2 res : nat) (T : vmem) (C : rows) : rows :=
  up p (fun l C =>
    let a := wminarg k (l * k) a1 a2 T C in
    up k (fun i C => put C res (l * k + i) (C a (l * k + i))) C) C.

(* abs_val 3970-3982 *)
Definition wabs (p k arg res : nat) (v : val) (C : rows) : rows :=
  up p (fun l C =>
    fst (up k (fun i (s : rows * val) =>
      let (C, x) := s in
      let x := if eqb K x (zero K) && negb (eqb K (C arg (l * k + i)) (zero K))
               then (if lt0 K (C arg (l * k + i)) then neg K (one K) else one K) else x in
      (put C res (l * k + i) (mul K x (C arg (l * k + i))), x))
      (C, if eqb K v (zero K) then zero K else if lt0 K v then neg K (one K) else one K))) C.

(* vec_copy 4967-4988 *)
Fixpoint wcopy (p k n arg res q : nat) (C : rows) : rows :=
  match n with
  | 0 => C
  | S n' => wcopy p k n' arg res (S q) (wrow p k (res + q) (fun i C => C (arg + q) i) C)
  end.
(* vec_dot 5018-5077 *)
Fixpoint wdot (p k n a1 a2 res q : nat) (T : vmem) (C : rows) : rows :=
  match n with
  | 0 => C
  | S n' =>
      let C' := wprow (add K) p k res (a1 + q) (a2 + q)
                  (fun i C => add K (C res i) (lin (T (a1 + q)) (T (a2 + q)) (a1 + q) (a2 + q) i C))
                  C in
      let T' := upd T res (add K (T res) (mul K (T (a1 + q)) (T (a2 + q)))) in
      wdot p k n' a1 a2 res (S q) T' C'
  end.
(* vec_axpy 5087-5146 *)
Fixpoint waxpy (p k n arg a1 a2 res q : nat) (T : vmem) (C : rows) : rows :=
  match n with
  | 0 => C
  | S n' =>
      let C' := wprow (add K) p k (res + q) arg (a1 + q)
                  (fun i C => add K (lin (T arg) (T (a1 + q)) arg (a1 + q) i C) (C (a2 + q) i))
                  C in
      let T' := upd T (res + q)
                  (add K (mul K (T arg) (T (a1 + q))) (T (a2 + q))) in
      waxpy p k n' arg a1 a2 res (S q) T' C'
  end.
(* take_stock_op 5476-5492 *)
Fixpoint wstock (p k n res : nat) (C : rows) : rows :=
  match n with
  | 0 => C
  | S n' => wstock p k n' (S res) (wrow p k res (fun _ _ => zero K) C)
  end.

(* New blocks from dp_T0 before the operation (T) and the blocks.
   xc j l i = argument[j][l][i].  uni5_for.cpp (_HOV_), one case per opcode. *)
Definition wval (p k : nat) (ps x : nat -> val) (xc : nat -> nat -> nat -> val) (n : nat)
  (b : bop K) (T : vmem) (C : rows) : rows :=
  let T' := zval ps x n b T in
  match b with
  | Cmp _ _ | AssignDep _ | DeathNot _ _ => C
  | AssignA arg res => wrow p k res (fun i C => C arg i) C               (* 1453 *)
  | AssignD res _ | AssignP _ res | AssignD0 res | AssignD1 res =>
      wrow p k res (fun _ _ => zero K) C                     (* 1487 1521 1551 1581 *)
  | AssignInd res =>                                                     (* 1616 *)
      up p (fun l => up k (fun i C => put C res (l * k + i) (xc n l i))) C
  | EqPlusD _ _ | EqMinD _ _ | Incr _ | Decr _ => C
  | EqPlusA arg res => wrow p k res (fun i C => add K (C res i) (C arg i)) C (* 1717 *)
  | EqMinA arg res => wrow p k res (fun i C => sub K (C res i) (C arg i)) C  (* 1769 *)
  | EqMultD res c => wrow p k res (fun i C => mul K (C res i) c) C       (* 1796 *)
  | EqMultA arg res =>                                              (* 1837-1848 *)
      wprow (add K) p k res res arg (lin (T res) (T arg) res arg) C
  | PlusAA a1 a2 res => wrow p k res (fun i C => add K (C a1 i) (C a2 i)) C  (* 1914 *)
  | PlusDA arg res _ => wrow p k res (fun i C => C arg i) C              (* 1948 *)
  | MinAA a1 a2 res => wrow p k res (fun i C => sub K (C a1 i) (C a2 i)) C   (* 1985 *)
  | MinDA arg res _ => wrow p k res (fun i C => neg K (C arg i)) C       (* 2022 *)
  | MultAA a1 a2 res =>                                             (* 2065-2078 *)
      wprow (add K) p k res a1 a2 (lin (T a1) (T a2) a1 a2) C
  | EqPlusProd a1 a2 res =>                                         (* 2132-2143 *)
      wprow (add K) p k res a1 a2
        (fun i C => add K (C res i) (lin (T a1) (T a2) a1 a2 i C)) C
  | EqMinProd a1 a2 res =>                                          (* 2198-2209 *)
      wprow (sub K) p k res a1 a2
        (fun i C => sub K (C res i) (lin (T a1) (T a2) a1 a2 i C)) C
  | MultDA arg res c => wrow p k res (fun i C => mul K (C arg i) c) C    (* 2250 *)
  | DivAA a1 a2 res =>                                              (* 2267-2316 *)
      let divs := dvd K (one K) (T a2) in
      zdirs p k (wdiv res a2 divs
        (fun i C => add K (mul K (C a1 i) divs)
                      (mul K (T' res) (mul K (neg K (C a2 i)) divs)))) C
  | DivDA arg res c =>                                              (* 2335-2380 *)
      let divs := dvd K (one K) (T arg) in
      zdirs p k (wdiv res arg divs
        (fun i C => mul K (T' res) (mul K (neg K (C arg i)) divs))) C
  | PosSign arg res => wrow p k res (fun i C => C arg i) C               (* 2413 *)
  | NegSign arg res => wrow p k res (fun i C => neg K (C arg i)) C       (* 2444 *)
  | ExpOp arg res => zdirs p k (wexp arg res (T' res)) C
  | SinOp a1 a2 res =>
      zdirs p k (wtrig a1 a2 res (fun v => mul K (neg K (T' res)) v)
        (fun v => mul K (T' a2) v) (sub K) (add K)) C
  | CosOp a1 a2 res =>
      zdirs p k (wtrig a1 a2 res (fun v => mul K (T' res) v)
        (fun v => mul K (neg K (T' a2)) v) (add K) (sub K)) C
  | HelpOp f a1 a2 res =>
      match wspecial p k f (T' a1) a1 res C with
      | Some C' => C'
      | None => zdirs p k (whelp a1 a2 res (T' a2)) C
      end
  | LogOp arg res => wlog p k arg res (T arg) C
  | PowOp arg res c =>
      if eqb K (T arg) (zero K) then
        if leb K c (zero K) then wrow p k res (fun _ _ => vnan K) C       (* 3400-3401 *)
        else if negb (eqb K (sub K c (vfloor K (if eqb K c (zero K) then zero K
                                                else one K))) (zero K))
             then wpowfrac p k res c C       (* 3404: "coval - floor(coval != 0.0) != 0" *)
        else if eqb K c (one K) then wrow p k res (fun i C => C arg i) C  (* 3416-3417 *)
        else wpowint p k arg res c C
      else zdirs p k (wpow arg res (T' res) c (dvd K (one K) (T arg))) C
  | SqrtOp arg res => wsqrt p k arg res (T' arg) (T' res) C
  | CbrtOp arg res => C                    (* ADOLCError::fail, see wfail *)
  | GenQuad a1 a2 res _ _ => zdirs p k (whelp a1 a2 res (T' a2)) C
  | MinOp a1 a2 res _ => wmin p k a1 a2 res T C
  | AbsVal arg res _ => wabs p k arg res (T arg) C
  | CeilOp _ res _ | FloorOp _ res _ => wrow p k res (fun _ _ => zero K) C (* 4028, 4066 *)
  | CondAssign arg a1 a2 res _ =>                                   (* 4166-4169 *)
      let a := if ltb K (zero K) (T arg) then a1 else a2 in
      wrow p k res (fun i C => C a i) C
  | CondEqAssign arg a1 a2 res _ =>                                 (* 4271-4274 *)
      let a := if leb K (zero K) (T arg) then a1 else a2 in
      wrow p k res (fun i C => C a i) C
  | CondAssignS arg a1 res _ =>                                     (* 4339-4340 *)
      if ltb K (zero K) (T arg) then wrow p k res (fun i C => C a1 i) C else C
  | CondEqAssignS arg a1 res _ =>                                   (* 4399-4400 *)
      if leb K (zero K) (T arg) then wrow p k res (fun i C => C a1 i) C else C
  | SetRef _ _ => C
  | VecCopy arg size res => wcopy p k size arg res 0 C
  | VecDot a1 a2 size res =>
      wdot p k size a1 a2 res 0 (upd T res (zero K)) (wrow p k res (fun _ _ => zero K) C)
  | VecAxpy arg a1 a2 size res => waxpy p k size arg a1 a2 res 0 T C
  | TakeStock size res _ => wstock p k size res C
  end.

(* cbrt: HO_OP_NOT_IMPLEMENTED as soon as there is a coefficient, 3609-3639 *)
Definition wfail (p k : nat) (b : bop K) : bool :=
  match b with CbrtOp _ _ => Nat.ltb 0 p && Nat.ltb 0 k | _ => false end.

(* TAYLORS(indexd, l, i) = TRES_INC, 1655-1656 *)
Definition wout_of (k : nat) (b : bop K) (C : rows) : list (nat -> nat -> val) :=
  match b with AssignDep res => [fun l i => C res (l * k + i)] | _ => [] end.

Record wstate := mkW {
  wF : fstate K;                    (* values *)
  wC : rows;                        (* dpp_T *)
  wY : list (nat -> nat -> val)     (* taylors[0 .. indexd-1][0 .. p-1][0 .. k-1] *)
}.

(* One pass of the loop 1279-5820. *)
Definition wstep (p k : nat) (ps x : nat -> val) (xc : nat -> nat -> nat -> val) (o : op K)
  (s : wstate) : wstate + option wstate :=
  let f := wF s in
  let b := resolve (fT f) o in
  match zstep ps x o f with
  | inl f' => if wfail p k b then inr None
              else inl (mkW f' (wval p k ps x xc (fi f) b (fT f) (wC s))
                            (wY s ++ wout_of k b (wC s)))
  | inr (Done f') => inr (Some (mkW f' (wC s) (wY s)))
  | inr (Failed) => inr None
  end.

Fixpoint wrun (p k : nat) (ps x : nat -> val) (xc : nat -> nat -> nat -> val) (t : list (op K))
  (s : wstate) : option wstate :=
  match t with
  | [] => Some s
  | o :: t' =>
      match wstep p k ps x xc o s with
      | inl s' => wrun p k ps x xc t' s'
      | inr r => r
      end
  end.

(* hov_forward(tag, m, n, d, p, basepoint, X, valuepoint, Y); dp_T0 and dpp_T are
   malloc'ed and not initialised *)
Definition hov_forward (p k : nat) (ps x : nat -> val) (xc : nat -> nat -> nat -> val)
  (g : vmem) (gc : rows) (t : list (op K)) : option wstate :=
  wrun p k ps x xc t (mkW (mkF g 0 [] 3%Z []) gc []).

End Model.
