(* Model of the higher order forward sweep in one direction.

   Modelled code: ADOL-C/src/uni5_for.cpp compiled with _HIGHER_ORDER_ and
   _HOS_ (hos_forward, without keep): the coefficient loops of every operation,
   in the order in which they run over the rows, so that operands and result
   may be the same variable.  The values dp_T0 are those of zos_forward
   (AdModel.zval), as the two builds run the same dp_T0 statements.

   Not modelled here: keep (hos_forward_keep), several directions
   (hov_forward), the return code MINDEC(ret_c, 1) of abs_val. *)
Require Import List ZArith Bool Arith Lia.
Require Import Verif.AdModel.
Import ListNotations.
Set Implicit Arguments.
Set Asymmetric Patterns.

(* for (i = 0; i < k; i++)    FOR_0_LE_i_LT_k, uni5_for.cpp:196-205 *)
Fixpoint up (A : Type) (k : nat) (body : nat -> A -> A) (s : A) : A :=
  match k with 0 => s | S k' => body k' (up k' body s) end.
(* for (i = k - 1; i >= 0; i--)   FOR_k_GT_i_GE_0, uni5_for.cpp:206-210 *)
Fixpoint dn (A : Type) (k : nat) (body : nat -> A -> A) (s : A) : A :=
  match k with 0 => s | S k' => dn k' body (body k' s) end.

Section Model.
Variable K : Arith.
Notation val := (V K).
Notation vmem := (mem K).

(* dpp_T[loc][i]: the coefficient of degree i + 1 of the variable at loc *)
Definition rows := nat -> nat -> val.
Definition put (C : rows) (l i : nat) (v : val) : rows :=
  fun l' i' => if Nat.eqb l' l && Nat.eqb i' i then v else C l' i'.
Definition putz (z : nat -> val) (i : nat) (v : val) : nat -> val :=
  fun j => if Nat.eqb j i then v else z j.
(* to_double(i + 1) *)
Definition num (i : nat) : val := ofnat K (S i).

(* FOR_0_LE_l_LT_pk TRES_INC = g *)
Definition row (k res : nat) (g : nat -> rows -> val) (C : rows) : rows :=
  up k (fun i C => put C res i (g i C)) C.

(* The descending loop of the products: *Tres = first; then
   for (j = 0; j < i; j++) *Tres op= a1[j] * a2[i-1-j].
   1837-1848, 2060-2078, 2127-2142, 2193-2209, 5058-5070, 5126-5139.
   The inner loop only changes *Tres, which it does not read otherwise. *)
Definition prow (op : val -> val -> val) (k res a1 a2 : nat)
  (first : nat -> rows -> val) (C : rows) : rows :=
  dn k (fun i C =>
          put C res i
            (up i (fun j acc => op acc (mul K (C a1 j) (C a2 (i - 1 - j)))) (first i C)))
     C.
(* dp_T0[a1] * TARG2 + TARG1 * dp_T0[a2] *)
Definition lin (v1 v2 : val) (a1 a2 i : nat) (C : rows) : val :=
  add K (mul K v1 (C a2 i)) (mul K (C a1 i) v2).

(* ascending loops with the scratch array dp_z *)
Definition zloop (k : nat) (body : nat -> rows * (nat -> val) -> rows * (nat -> val))
  (C : rows) : rows :=
  fst (up k body (C, fun _ => zero K)).

(* div_a_a, div_d_a 2288-2317, 2355-2384: quotients, first = the degree part *)
Definition divrow (k res : nat) (den : nat) (divs : val)
  (first : nat -> rows -> val) (C : rows) : rows :=
  zloop k (fun i s =>
    let (C, z) := s in
    let z := putz z i (mul K (neg K (C den i)) divs) in
    (put C res i
       (up i (fun j acc => add K acc (mul K (C res j) (z (i - 1 - j)))) (first i C)), z)) C.

(* exp_op 2487-2505 *)
Definition exprow (k arg res : nat) (v : val) (C : rows) : rows :=
  zloop k (fun i s =>
    let (C, z) := s in
    let z := putz z i (mul K (num i) (C arg i)) in
    let a := mul K (mul K v (C arg i)) (num i) in
    let a := up i (fun j acc => add K acc (mul K (C res j) (z (i - 1 - j)))) a in
    (put C res i (dvd K a (num i)), z)) C.

(* sin_op 2553-2579, cos_op 2626-2652.  vc, vr: new dp_T0[arg2], dp_T0[res];
   f2, fr: the first assignments; o2, o_r: the accumulating operators. *)
Definition trigrow (k a1 a2 res : nat) (f2 fr : val -> val)
  (o2 o_r : val -> val -> val) (C : rows) : rows :=
  zloop k (fun i s =>
    let (C, z) := s in
    let z := putz z i (mul K (num i) (C a1 i)) in
    let C := put C a2 i (f2 (C a1 i)) in
    let C := put C res i (fr (C a1 i)) in
    let C := put C res i (mul K (C res i) (num i)) in
    let C := put C a2 i (mul K (C a2 i) (num i)) in
    let C := up i (fun j C =>
               let C := put C res i (o_r (C res i) (mul K (C a2 j) (z (i - 1 - j)))) in
               put C a2 i (o2 (C a2 i) (mul K (C res j) (z (i - 1 - j))))) C in
    let C := put C a2 i (dvd K (C a2 i) (num i)) in
    (put C res i (dvd K (C res i) (num i)), z)) C.

(* atan .. erfc and gen_quad: 2690-2713 and the same text 2790-2812,
   2890-2912, 2951-2974, 3036-3058, 3143-3165, 3201-3224, 3259-3282, 3687-3707 *)
Definition helprow (k a1 a2 res : nat) (v2 : val) (C : rows) : rows :=
  zloop k (fun i s =>
    let (C, z) := s in
    let z := putz z i (mul K (num i) (C a1 i)) in
    let a := mul K (mul K v2 (C a1 i)) (num i) in
    let a := up i (fun j acc => add K acc (mul K (C a2 j) (z (i - 1 - j)))) a in
    (put C res i (dvd K a (num i)), z)) C.

(* the first coefficient that is not zero decides: 2755-2770 *)
Definition pick (k arg : nat) (p m : val) (C : rows) : val :=
  (fix go n i := match n with
     | 0 => zero K
     | S n' => if gt0 K (C arg i) then p else if lt0 K (C arg i) then m else go n' (S i)
     end) k 0.

(* asin 2754-2789, acos 2854-2889, acosh 3015-3035, atanh 3100-3142: at +-1 the
   first coefficient is r0; acosh and atanh set the others, asin and acos leave
   them as they are. *)
Definition hspecial (k : nat) (f : fname) (v : val) (a1 res : nat) (C : rows) : option rows :=
  let first p m := put C res 0 (pick k a1 p m C) in
  let all p m := up (k - 1) (fun i C => put C res (S i) (vnan K)) (first p m) in
  match f with
  | Fasin => if eqb K v (one K) then Some (first (vnan K) (vinf K))
             else if eqb K v (neg K (one K)) then Some (first (vinf K) (vnan K)) else None
  | Facos => if eqb K v (one K) then Some (first (vnan K) (neg K (vinf K)))
             else if eqb K v (neg K (one K)) then Some (first (neg K (vinf K)) (vnan K))
             else None
  | Facosh => if eqb K v (one K) then Some (all (vinf K) (vnan K)) else None
  | Fatanh => if eqb K v (one K) then Some (all (vnan K) (vinf K))
              else if eqb K v (neg K (one K)) then Some (all (vinf K) (vnan K)) else None
  | _ => None
  end.

(* log_op 3315-3343 *)
Definition any_neg (k arg : nat) (C : rows) : bool :=
  existsb (fun i => lt0 K (C arg i)) (seq 0 k).
Definition logrow (k arg res : nat) (divs : val) (C : rows) : rows :=
  zloop k (fun i s =>
    let (C, z) := s in
    let y := mul K (C arg i) divs in
    let z := putz z i y in
    let a := up i (fun j acc => sub K acc (mul K (mul K (z (i - 1 - j)) (C res j)) (num j)))
                (mul K y (num i)) in
    (put C res i (dvd K a (num i)), z)) C.

(* pow_op at a nonzero argument, 3464-3486 *)
Definition powrow (k arg res : nat) (v c r0 : val) (C : rows) : rows :=
  zloop k (fun i s =>
    let (C, z) := s in
    let z := putz z i (mul K (C arg i) r0) in
    let a := mul K (mul K (mul K (mul K v (C arg i)) c) r0) (num i) in
    let y := sub K (mul K c (ofnat K i)) (one K) in
    let a := fst (up i (fun j (p : val * val) => let (acc, y) := p in
                     (add K acc (mul K (mul K (C res j) (z (i - 1 - j))) y),
                      sub K y (add K c (one K)))) (a, y)) in
    (put C res i (dvd K a (num i)), z)) C.

(* pow_op at zero, exponent taken for fractional: 3405-3414.  The write pointer
   only moves when one of the three tests holds. *)
Definition powfrac (k res : nat) (c : val) (C : rows) : rows :=
  fst (up k (fun i (s : rows * nat) =>
    let (C, q) := s in
    let d := sub K c (ofnat K i) in
    let (C, q) := if ltb K (one K) d then (put C res q (zero K), S q) else (C, q) in
    let (C, q) := if ltb K d (one K) && gt0 K d then (put C res q (vinf K), S q) else (C, q) in
    if lt0 K d then (put C res q (vnan K), S q) else (C, q)) (C, 0)).

(* pow_op at zero, exponent an integer > 1: 3423-3460 *)
Definition powint (k arg res : nat) (c : val) (C : rows) : rows :=
  let z := C arg in
  let C := dn k (fun i C => put C res i
             (up i (fun j acc => add K acc (mul K (z j) (z (i - j - 1)))) (zero K))) C in
  up (tonat K c - 2) (fun _ C => dn k (fun i C => put C res i
             (up i (fun j acc => add K acc (mul K (C res j) (z (i - j - 1)))) (zero K))) C) C.

(* sqrt_op 3527-3569: r0 as computed there *)
Definition sqrtrow (k arg res : nat) (r0 : val) (C : rows) : rows :=
  up k (fun i C =>
    let y := mul K r0 (C arg i) in
    (* for (j = 1; 2 * j - 1 < i; j++) x += TresOP++ * TresOP2-- *)
    let x := up (Nat.div2 i) (fun j acc => add K acc (mul K (C res j) (C res (i - 1 - j))))
                (zero K) in
    let x := mul K x (two K) in
    (* i odd: the middle term *)
    let x := if Nat.odd i then add K x (mul K (C res (Nat.div2 i)) (C res (Nat.div2 i)))
             else x in
    put C res i (sub K y (mul K r0 x))) C.

(* min_op 3825-3857: which operand *)
Definition minarg (k a1 a2 : nat) (T : vmem) (C : rows) : nat :=
  if ltb K (T a2) (T a1) then a2
  else if ltb K (T a1) (T a2) then a1
  else (fix go n i := match n with
          | 0 => a1
          | S n' => if ltb K (C a2 i) (C a1 i) then a2
                    else if ltb K (C a1 i) (C a2 i) then a1 else go n' (S i)
          end) k 0.

(* abs_val 3970-3982 *)
Definition absrow (k arg res : nat) (v : val) (C : rows) : rows :=
  fst (up k (fun i (s : rows * val) =>
    let (C, x) := s in
    let x := if eqb K x (zero K) && negb (eqb K (C arg i) (zero K))
             then (if lt0 K (C arg i) then neg K (one K) else one K) else x in
    (put C res i (mul K x (C arg i)), x))
    (C, if eqb K v (zero K) then zero K else if lt0 K v then neg K (one K) else one K)).

(* vec_copy 4967-4988 *)
Fixpoint hcopy (k n arg res q : nat) (C : rows) : rows :=
  match n with
  | 0 => C
  | S n' => hcopy k n' arg res (S q) (row k (res + q) (fun i C => C (arg + q) i) C)
  end.
(* vec_dot 5018-5077 *)
Fixpoint hdot (k n a1 a2 res q : nat) (T : vmem) (C : rows) : rows :=
  match n with
  | 0 => C
  | S n' =>
      let C' := prow (add K) k res (a1 + q) (a2 + q)
                  (fun i C => add K (C res i) (lin (T (a1 + q)) (T (a2 + q)) (a1 + q) (a2 + q) i C))
                  C in
      let T' := upd T res (add K (T res) (mul K (T (a1 + q)) (T (a2 + q)))) in
      hdot k n' a1 a2 res (S q) T' C'
  end.
(* vec_axpy 5087-5146 *)
Fixpoint haxpy (k n arg a1 a2 res q : nat) (T : vmem) (C : rows) : rows :=
  match n with
  | 0 => C
  | S n' =>
      let C' := prow (add K) k (res + q) arg (a1 + q)
                  (fun i C => add K (lin (T arg) (T (a1 + q)) arg (a1 + q) i C) (C (a2 + q) i))
                  C in
      let T' := upd T (res + q)
                  (add K (mul K (T arg) (T (a1 + q))) (T (a2 + q))) in
      haxpy k n' arg a1 a2 res (S q) T' C'
  end.
(* take_stock_op 5476-5492 *)
Fixpoint hstock (k n res : nat) (C : rows) : rows :=
  match n with
  | 0 => C
  | S n' => hstock k n' (S res) (row k res (fun _ _ => zero K) C)
  end.

(* New rows from dp_T0 before the operation (T), after it (T'), and the rows.
   xc j i = ARGUMENT(j, 0, i).  uni5_for.cpp (_HOS_), one case per opcode. *)
Definition hval (k : nat) (ps x : nat -> val) (xc : nat -> nat -> val) (n : nat)
  (b : bop K) (T : vmem) (C : rows) : rows :=
  let T' := zval ps x n b T in
  match b with
  | Cmp _ _ | AssignDep _ | DeathNot _ _ => C
  | AssignA arg res => row k res (fun i C => C arg i) C               (* 1453 *)
  | AssignD res _ | AssignP _ res | AssignD0 res | AssignD1 res =>
      row k res (fun _ _ => zero K) C                     (* 1487 1521 1551 1581 *)
  | AssignInd res => row k res (fun i _ => xc n i) C                  (* 1616 *)
  | EqPlusD _ _ | EqMinD _ _ | Incr _ | Decr _ => C
  | EqPlusA arg res => row k res (fun i C => add K (C res i) (C arg i)) C
                                                                     (* 1717 *)
  | EqMinA arg res => row k res (fun i C => sub K (C res i) (C arg i)) C
                                                                     (* 1769 *)
  | EqMultD res c => row k res (fun i C => mul K (C res i) c) C       (* 1796 *)
  | EqMultA arg res =>                                          (* 1837-1848 *)
      prow (add K) k res res arg (lin (T res) (T arg) res arg) C
  | PlusAA a1 a2 res => row k res (fun i C => add K (C a1 i) (C a2 i)) C
                                                                     (* 1914 *)
  | PlusDA arg res _ => row k res (fun i C => C arg i) C              (* 1948 *)
  | MinAA a1 a2 res => row k res (fun i C => sub K (C a1 i) (C a2 i)) C
                                                                     (* 1985 *)
  | MinDA arg res _ => row k res (fun i C => neg K (C arg i)) C       (* 2022 *)
  | MultAA a1 a2 res =>                                         (* 2060-2078 *)
      prow (add K) k res a1 a2 (lin (T a1) (T a2) a1 a2) C
  | EqPlusProd a1 a2 res =>                                     (* 2127-2142 *)
      prow (add K) k res a1 a2
        (fun i C => add K (C res i) (lin (T a1) (T a2) a1 a2 i C)) C
  | EqMinProd a1 a2 res =>                                      (* 2193-2209 *)
      prow (sub K) k res a1 a2
        (fun i C => sub K (C res i) (lin (T a1) (T a2) a1 a2 i C)) C
  | MultDA arg res c => row k res (fun i C => mul K (C arg i) c) C    (* 2250 *)
  | DivAA a1 a2 res =>                                          (* 2267-2317 *)
      let divs := dvd K (one K) (T a2) in
      divrow k res a2 divs
        (fun i C => add K (mul K (C a1 i) divs)
                      (mul K (T' res) (mul K (neg K (C a2 i)) divs))) C
  | DivDA arg res c =>                                            (* 2335-2384 *)
      let divs := dvd K (one K) (T arg) in
      divrow k res arg divs
        (fun i C => mul K (T' res) (mul K (neg K (C arg i)) divs)) C
  | PosSign arg res => row k res (fun i C => C arg i) C             (* 2413 *)
  | NegSign arg res => row k res (fun i C => neg K (C arg i)) C     (* 2444 *)
  | ExpOp arg res => exprow k arg res (T' res) C
  | SinOp a1 a2 res =>
      trigrow k a1 a2 res (fun v => mul K (neg K (T' res)) v)
        (fun v => mul K (T' a2) v) (sub K) (add K) C
  | CosOp a1 a2 res =>
      trigrow k a1 a2 res (fun v => mul K (T' res) v)
        (fun v => mul K (neg K (T' a2)) v) (add K) (sub K) C
  | HelpOp f a1 a2 res =>
      match hspecial k f (T' a1) a1 res C with
      | Some C' => C'
      | None => helprow k a1 a2 res (T' a2) C
      end
  | LogOp arg res =>
      let divs := if eqb K (T arg) (zero K) && any_neg k arg C
                  then vnan K else dvd K (one K) (T arg) in
      logrow k arg res divs C
  | PowOp arg res c =>
      if eqb K (T arg) (zero K) then
        if leb K c (zero K) then row k res (fun _ _ => vnan K) C      (* 3400-3401 *)
        else if negb (eqb K (sub K c (vfloor K (if eqb K c (zero K) then zero K
                                                else one K))) (zero K))
             then powfrac k res c C      (* 3404: "coval - floor(coval != 0.0) != 0" *)
        else if eqb K c (one K) then row k res (fun i C => C arg i) C (* 3416-3417 *)
        else powint k arg res c C
      else powrow k arg res (T' res) c (dvd K (one K) (T arg)) C
  | SqrtOp arg res =>
      let r0 := if eqb K (T' arg) (zero K) then pick k arg (vinf K) (vnan K) C
                else dvd K (half K) (T' res) in
      sqrtrow k arg res r0 C
  | CbrtOp arg res => C                    (* ADOLCError::fail, see hfail *)
  | GenQuad a1 a2 res _ _ => helprow k a1 a2 res (T' a2) C
  | MinOp a1 a2 res _ =>
      let a := minarg k a1 a2 T C in row k res (fun i C => C a i) C
  | AbsVal arg res _ => absrow k arg res (T arg) C
  | CeilOp _ res _ | FloorOp _ res _ => row k res (fun _ _ => zero K) C
                                                                (* 4028, 4066 *)
  | CondAssign arg a1 a2 res _ =>                                 (* 4166-4169 *)
      let a := if ltb K (zero K) (T arg) then a1 else a2 in
      row k res (fun i C => C a i) C
  | CondEqAssign arg a1 a2 res _ =>                               (* 4271-4274 *)
      let a := if leb K (zero K) (T arg) then a1 else a2 in
      row k res (fun i C => C a i) C
  | CondAssignS arg a1 res _ =>                                   (* 4339-4340 *)
      if ltb K (zero K) (T arg) then row k res (fun i C => C a1 i) C else C
  | CondEqAssignS arg a1 res _ =>                                 (* 4399-4400 *)
      if leb K (zero K) (T arg) then row k res (fun i C => C a1 i) C else C
  | SetRef _ _ => C
  | VecCopy arg size res => hcopy k size arg res 0 C
  | VecDot a1 a2 size res =>
      hdot k size a1 a2 res 0 (upd T res (zero K)) (row k res (fun _ _ => zero K) C)
  | VecAxpy arg a1 a2 size res => haxpy k size arg a1 a2 res 0 T C
  | TakeStock size res _ => hstock k size res C
  end.

(* cbrt: HO_OP_NOT_IMPLEMENTED as soon as there is a coefficient, 3633-3638 *)
Definition hfail (k : nat) (b : bop K) : bool :=
  match b with CbrtOp _ _ => Nat.ltb 0 k | _ => false end.

(* TAYLORS(indexd, l, i) = TRES_INC, 1655-1656 *)
Definition hout_of (b : bop K) (C : rows) : list (nat -> val) :=
  match b with AssignDep res => [C res] | _ => [] end.

Record hstate := mkH {
  hF : fstate K;             (* values *)
  hC : rows;                 (* dpp_T *)
  hY : list (nat -> val)     (* taylors[0 .. indexd-1][0 .. k-1] *)
}.

(* One pass of the loop 1279-5820. *)
Definition hstep (k : nat) (ps x : nat -> val) (xc : nat -> nat -> val) (o : op K) (s : hstate)
  : hstate + option hstate :=
  let f := hF s in
  let b := resolve (fT f) o in
  match zstep ps x o f with
  | inl f' => if hfail k b then inr None
              else inl (mkH f' (hval k ps x xc (fi f) b (fT f) (hC s))
                            (hY s ++ hout_of b (hC s)))
  | inr (Done f') => inr (Some (mkH f' (hC s) (hY s)))
  | inr (Failed) => inr None
  end.

Fixpoint hrun (k : nat) (ps x : nat -> val) (xc : nat -> nat -> val) (t : list (op K)) (s : hstate)
  : option hstate :=
  match t with
  | [] => Some s
  | o :: t' =>
      match hstep k ps x xc o s with
      | inl s' => hrun k ps x xc t' s'
      | inr r => r
      end
  end.

(* uni5_for.cpp (_HOS_): dp_T0 and dpp_T are malloc'ed and not initialised. *)
Definition hos_forward (k : nat) (ps x : nat -> val) (xc : nat -> nat -> val)
  (g : vmem) (gc : rows) (t : list (op K)) : option hstate :=
  hrun k ps x xc t (mkH (mkF g 0 [] 3%Z []) gc []).

End Model.
