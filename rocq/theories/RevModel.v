(** Model of ADOL-C/src/revolve.cpp: the binomial checkpointing controller.

    Simplifications (all of them):
    - int is Z; every product and sum of the range computation is checked against the
      range of int, None stands for signed overflow (undefined behaviour); the three
      statistics counters (advances, takeshots, commands) and the bookkeeping
      variables check, capo, fine are not checked (they move by ones, or stay between
      other values);
    - None is also returned when ch is accessed outside its ADOLC_CHECKUP entries;
    - printing is left out, but the test that decides about the prediction
      (info > 0, lines 381-393) is kept with its possible error return. *)
From Coq Require Import ZArith List Bool.
Import ListNotations.
Local Open Scope Z_scope.

Definition MAXINT : Z := 2147483647.          (* revolve.cpp:189 *)
Definition ADOLC_CHECKUP : Z := 1000.         (* usrparms.h:62 *)
Definition ADOLC_REPSUP : Z := 1000.          (* usrparms.h:63 *)

(** enum revolve_action, revolve.h *)
Inductive action := advance | takeshot | restore | firsturn | youturn | terminate | error.

(** struct revolve_nums, revolve.h: one global object shared by all callers *)
Record nums := mk_nums {
  advances : Z; takeshots : Z; commands : Z; turn : Z; reps : Z; range : Z;
  ch : Z -> Z; oldsnaps : Z; oldfine : Z }.

(** the arguments of revolve that it changes *)
Record args := mk_args { check : Z; capo : Z; fine : Z; info : Z }.

(** an int result *)
Definition int (v : Z) : option Z := if (Z.abs v <=? MAXINT) then Some v else None.
Notation "'do' x <- e ; k" := (match e with Some x => k | None => None end) (at level 60, x name, e at level 59, k at level 60).
Definition slot (i : Z) : option unit := if (0 <=? i) && (i <? ADOLC_CHECKUP) then Some tt else None.
Definition put (f : Z -> Z) (i v : Z) : Z -> Z := fun j => if j =? i then v else f j.

(** while (range < l) { reps += 1; range = range * (reps + ds) / reps; },
    lines 205-208 and 413-416.  [fuel] bounds the recursion; it is never exhausted
    (RevProofs.expand_beta). *)
Fixpoint expand (fuel : nat) (l ds reps range : Z) : option (Z * Z) :=
  if range <? l then
    match fuel with
    | O => None
    | S fuel => do p <- int (range * (reps + 1 + ds)); expand fuel l ds (reps + 1) (Z.quot p (reps + 1))
    end
  else Some (reps, range).

(** numforw, lines 193-217 *)
Definition numforw (steps snaps : Z) : option Z :=
  if snaps <? 1 then Some (-1)
  else if snaps >? ADOLC_CHECKUP then Some (-1)
  else
    do e <- expand (Z.to_nat steps) steps snaps 0 1;
    let (r, rng) := e in
    if r >? ADOLC_REPSUP then Some (-1)
    else
      do p <- int (r * steps);
      do q <- int (rng * r);
      int (p - Z.quot q (snaps + 1)).

(** the split of the range (capo, fine), lines 413-470 without the two error returns in
    between: returns reps, range and the new capo *)
Definition bino (r rng ds capo fine : Z) : option Z :=
  do p1 <- int (rng * r);
  let bino1 := Z.quot p1 (ds + r) in
  do bino2 <- (if ds >? 1 then do p <- int (bino1 * ds); Some (Z.quot p (ds + r - 1)) else Some 1);
  do bino3 <- (if ds =? 1 then Some 0
               else if ds >? 2 then do p <- int (bino2 * (ds - 1)); Some (Z.quot p (ds + r - 2)) else Some 1);
  do p4 <- int (bino2 * (r - 1));
  let bino4 := Z.quot p4 ds in
  do bino5 <- (if ds <? 3 then Some 0
               else if ds >? 3 then do p <- int (bino3 * (ds - 2)); Some (Z.quot p r) else Some 1);
  do p6 <- int (bino1 * ds);
  let bino6 := Z.quot p6 r in
  do s13 <- int (bino1 + bino3);
  do s12 <- int (bino1 + bino2);
  do s125 <- int (bino1 + bino2 + bino5);
  Some (if fine - capo <=? s13 then capo + bino4
        else if fine - capo <? s12 then fine - bino2 - bino3
        else if fine - capo <=? s125 then capo + (bino1 - bino3)
        else fine - bino6).

Definition ret {A} (a : action) (s : args) (m : A) : option (action * args * A) := Some (a, s, m).

(** rev_num.commands += 1, line 297, and the initialisation, lines 302-306 *)
Definition count (m : nums) : nums :=
  mk_nums (advances m) (takeshots m) (commands m + 1) (turn m) (reps m) (range m) (ch m) (oldsnaps m) (oldfine m).
Definition prologue (s : args) (m : nums) : nums :=
  let m := count m in
  if (check s =? -1) && (capo s <? fine s)
  then mk_nums (advances m) (takeshots m) (commands m) 0 (reps m) (range m) (put (ch m) 0 (capo s - 1)) (oldsnaps m) (oldfine m)
  else m.
(** the switch, lines 307-476 *)
Definition body (snaps : Z) (s : args) (m : nums) : option (action * args * nums) :=
    let old f m := mk_nums (advances m) (takeshots m) (commands m) (turn m) (reps m) (range m) (ch m) (oldsnaps m) f in
    if fine s - capo s =? 0 then                                                                        (* 308-321 *)
      if (check s =? -1) || (capo s =? ch m 0)
      then ret terminate (mk_args (check s - 1) (capo s) (fine s) (info s)) m
      else do u <- slot (check s);
           ret restore (mk_args (check s) (ch m (check s)) (fine s) (info s)) (old (fine s) m)
    else if fine s - capo s =? 1 then                                                                   (* 322-334 *)
      let f := fine s - 1 in
      do c <- (if check s >=? 0 then do u <- slot (check s); Some (if ch m (check s) =? capo s then check s - 1 else check s)
               else Some (check s));
      if turn m =? 0
      then ret firsturn (mk_args c (capo s) f (info s))
             (mk_nums (advances m) (takeshots m) (commands m) 1 (reps m) (range m) (ch m) (oldsnaps m) f)
      else ret youturn (mk_args c (capo s) f (info s)) (old f m)
    else
      do shot <- (if check s =? -1 then Some true
                  else do u <- slot (check s); Some (negb (ch m (check s) =? capo s)));
      if shot then                                                                                      (* 336-377 *)
        let c := check s + 1 in
        if c >=? ADOLC_CHECKUP then ret error (mk_args c (capo s) (fine s) 10) m
        else if c + 1 >? snaps then ret error (mk_args c (capo s) (fine s) 11) m
        else
          let m := mk_nums (advances m) (takeshots m) (commands m) (turn m) (reps m) (range m) (put (ch m) c (capo s)) (oldsnaps m) (oldfine m) in
          let shoot m := ret takeshot (mk_args c (capo s) (fine s) (info s))
                (mk_nums (advances m) (takeshots m + 1) (commands m) (turn m) (reps m) (range m) (ch m) (oldsnaps m) (fine s)) in
          if c =? 0 then
            let m := mk_nums 0 0 1 (turn m) (reps m) (range m) (ch m) snaps (oldfine m) in
            if snaps >? ADOLC_CHECKUP then ret error (mk_args c (capo s) (fine s) 14) m
            else if info s >? 0 then
              do num <- numforw (fine s - capo s) snaps;
              if num =? -1 then ret error (mk_args c (capo s) (fine s) 12) m else shoot m
            else shoot m
          else shoot m
      else                                                                                              (* 378-475 *)
        if (oldfine m <? fine s) && (snaps =? check s + 1) then ret error (mk_args (check s) (capo s) (fine s) 13) m
        else
          let ds := snaps - check s in
          if ds <? 1 then ret error (mk_args (check s) (capo s) (fine s) 11) m
          else
            do e <- expand (Z.to_nat (fine s - capo s)) (fine s - capo s) ds 0 1;
            let (r, rng) := e in
            let m := mk_nums (advances m) (takeshots m) (commands m) (turn m) r rng (ch m) (oldsnaps m) (oldfine m) in
            if r >? ADOLC_REPSUP then ret error (mk_args (check s) (capo s) (fine s) 15) m
            else if negb (snaps =? oldsnaps m) && (snaps >? ADOLC_CHECKUP) then ret error (mk_args (check s) (capo s) (fine s) 14) m
            else
              do c1 <- bino r rng ds (capo s) (fine s);
              let c2 := if c1 =? capo s then capo s + 1 else c1 in
              ret advance (mk_args (check s) c2 (fine s) (info s))
                (mk_nums (advances m + c2 - capo s) (takeshots m) (commands m) (turn m) r rng (ch m) (oldsnaps m) (fine s)).

(** revolve, lines 290-477 *)
Definition revolve (snaps : Z) (s : args) (m : nums) : option (action * args * nums) :=
  if (check s <? -1) || (capo s >? fine s) then ret error (mk_args (check s) (capo s) (fine s) 9) (count m)  (* 298-301 *)
  else body snaps s (prologue s m).

(** maxrange, lines 239-255 (the double arithmetic is taken as exact) *)
Fixpoint maxrange_loop (n : nat) (ss i res : Z) : Z :=
  match n with
  | O => res
  | S n => let res := Z.quot (res * (ss + i)) i in
           if res >? MAXINT then MAXINT else maxrange_loop n ss (i + 1) res
  end.
Definition maxrange (ss tt : Z) : Z :=
  if (tt <? 0) || (ss <? 0) then -1 else maxrange_loop (Z.to_nat tt) ss 1 1.

(** a series of calls: what the caller sees after each one.  It stops when revolve
    terminates or fails; None: undefined behaviour. *)
Definition event : Type := action * args.
Fixpoint calls (n : nat) (snaps : Z) (s : args) (m : nums) : option (list event) :=
  match n with
  | O => Some []
  | S n =>
      do x <- revolve snaps s m;
      match x with
      | (a, s', m') =>
          match a with
          | terminate | error => Some [(a, s')]
          | _ => do l <- calls n snaps s' m'; Some ((a, s') :: l)
          end
      end
  end.
