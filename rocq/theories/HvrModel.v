(* Model of hov_ti_reverse and hov_reverse: one Taylor polynomial, several weights.

   Modelled code: ADOL-C/src/ho_rev.cpp compiled with _HOV_.  k = degre + 1, p = nrows.

   rpp_T[loc] holds k coefficients, shared by all rows (HOS_OV_INC is empty, 109); rpp_A[loc] is a
   block of p * (k+1) numbers, row l the k+1 numbers from l*(k+1): a flag and k adjoints, modelled as
   one memory of flags and one of adjoints per row.  In every case of the switch the loop over l
   moves Ares, Aarg.. by k+1 numbers per row and does in row l what the case does in
   hos_ti_reverse (HrvModel.hrval), with the exceptions in [hvval].  VEC_COMPUTED_CHECK is empty
   (184 tests _ADOLC_VECTOR, 100 defines _ADOLC_VECTOR_), so that nothing is shared between the rows
   of a case but rpp_T.

   myalloc2 is calloc (adalloc.cpp:21-33): rpp_A and rpp_T start with zeros.

   Not modelled: the return code; ext_diff; cbrt (throws); nonzero holds the flag itself, not its
   conversion to short. *)
Require Import List ZArith Bool Arith Lia.
Require Import Verif.AdModel Verif.HosModel Verif.HrvModel Verif.VrvModel.
Import ListNotations.
Set Implicit Arguments.
Set Asymmetric Patterns.

Section Model.
Variable K : Arith.
Notation val := (V K).
Notation vmem := (mem K).
Notation rows := (rows K).
Variable eps : val.               (* ADOLC_EPS, usrparms.h:47 *)

(* a case whose loop goes over all rows.  GET_TAYL and the recomputation of Tres (994-996, 1043-1045)
   are outside of the loop and do not read rpp_A: their effect is taken from row 0, whatever p is *)
Definition hvrows (p k : nat) (b : bop K) (T : rows) (F : fam vmem) (A : fam rows) (st : list val)
  : option (rows * fam vmem * fam rows * list val) :=
  let r l := hrval eps k b T (F l) (A l) st in
  match r 0 with
  | Some (T', _, _, st') =>
      if forallb (fun l => some (r l)) (seq 0 p)
      then Some (T', fun l => if Nat.ltb l p then oF (r l) (F l) else F l,
                     fun l => if Nat.ltb l p then oA (r l) (A l) else A l, st')
      else None
  | None => None
  end.

(* One operation: rpp_T, flags, rpp_A, Taylor stack *)
Definition hvval (p k : nat) (b : bop K) (T : rows) (F : fam vmem) (A : fam rows) (st : list val)
  : option (rows * fam vmem * fam rows * list val) :=
  match b with
  | VecAxpy _ _ _ _ _ =>
      (* 2513-2547: no loop over the rows, only row 0 is treated *)
      match hvrows p k b T F A st with
      | Some (T', F', A', st') => Some (T', updd F 0 (F' 0), updd A 0 (A' 0), st')
      | None => None
      end
  | FloorOp _ res _ | CeilOp _ res _ =>
      (* 1823-1838: Aarg is left over from another case; 1854-1867: Ares is left one short *)
      if anyflag p F res then None else hvrows p k b T F A st
  | AbsVal _ res _ =>
      (* 450-451: x and jj have q = 1 entries; 1796-1806 read x[l] and jj[l] in every row
         with a flag *)
      if existsb (fun l => negb (eqb K (F l res) (zero K))) (seq 1 (p - 1)) then None
      else hvrows p k b T F A st
  | _ => hvrows p k b T F A st
  end.

Record hvstate := mkHV {
  hvT : rows;                      (* rpp_T *)
  hvF : fam vmem;                  (* flags *)
  hvA : fam rows;                  (* rpp_A without the flags *)
  hvk : list val;                  (* Taylor stack, top first *)
  hvz : nat -> nat -> nat -> val;  (* results[l][i][0 .. k-1] *)
  hvnz : nat -> nat -> val;        (* nonzero[l][i] *)
  hvi : nat;                       (* indexi + 1 *)
  hvd : nat                        (* indexd + 1 *)
}.
(* One pass of the loop 484-.  L l: the weights of row l *)
Definition hvstep (p k : nat) (L : nat -> nat -> nat -> val) (o : op K) (s : hvstate) : option hvstate :=
  let b := resolve (fun l => hvT s l 0) o in
  match hvval p k b (hvT s) (hvF s) (hvA s) (hvk s) with
  | None => None
  | Some (T', F', A', st') =>
      match b with
      | AssignInd res =>                                            (* 613-626 *)
          Some (mkHV T' F' A' st'
                  (fun l => if Nat.ltb l p then @setrow K (hvz s l) (hvi s - 1) (hvA s l res) k else hvz s l)
                  (fun l i => if Nat.ltb l p && Nat.eqb i (hvi s - 1) then hvF s l res else hvnz s l i)
                  (hvi s - 1) (hvd s))
      | AssignDep res =>                                            (* 634-648 *)
          Some (mkHV T'
                  (fun l => if Nat.ltb l p then upd (F' l) res (@depflag K k (L l (hvd s - 1))) else F' l)
                  (fun l => if Nat.ltb l p then @setrow K (A' l) res (L l (hvd s - 1)) k else A' l)
                  st' (hvz s) (hvnz s) (hvi s) (hvd s - 1))
      | _ => Some (mkHV T' F' A' st' (hvz s) (hvnz s) (hvi s) (hvd s))
      end
  end.
Definition hvrun (p k : nat) (L : nat -> nat -> nat -> val) (t : list (op K)) (s : hvstate) : option hvstate :=
  fold_left (fun s o => match s with Some s => hvstep p k L o s | None => None end) (rev t) (Some s).

(* hov_ti_reverse(tag, m, n, degre, p, lagrange[p][m][k], results[p][n][k], nonzero[p][n]): 290- *)
Definition hov_ti_reverse (degre p : nat) (L : nat -> nat -> nat -> val) (n m : nat)
  (gz : nat -> nat -> nat -> val) (gnz : nat -> nat -> val) (st : list val) (t : list (op K)) : option hvstate :=
  hvrun p (S degre) L t
    (mkHV (fun _ _ => zero K) (fun _ _ => zero K) (fun _ _ _ => zero K) st gz gnz n m).
(* hov_reverse(tag, m, n, degre, p, lagrange[p][m], ..): 268-288 *)
Definition hov_reverse (degre p : nat) (U : nat -> nat -> val) (n m : nat)
  (gz : nat -> nat -> nat -> val) (gnz : nat -> nat -> val) (st : list val) (t : list (op K)) : option hvstate :=
  hov_ti_reverse degre p (fun l i j => match j with 0 => U l i | S _ => zero K end) n m gz gnz st t.
End Model.
