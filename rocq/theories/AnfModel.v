(* Model for C30: abs-normal form.
   Sources: ADOL-C/src/drivers/psdrivers.cpp, ADOL-C/src/fo_rev.cpp and
   ADOL-C/src/uni5_for.cpp compiled with _ABS_NORM_ (zos_pl_forward,
   fov_pl_reverse) and _ABS_NORM_SIG_ (fos_pl_sig_reverse),
   ADOL-C/include/adolc/drivers/absnormalform.h.
   Everything but the abs_val operation is as in zos_forward / fos_reverse (AdModel.v). *)
From Coq Require Import List ZArith Bool Arith.
Require Import Verif.AdModel.
Import ListNotations.
Set Implicit Arguments.
Unset Asymmetric Patterns.

Section Anf.
Variable K : Arith.
Notation val := (V K).
Notation mem := (nat -> V K).

(* NUM_SWITCHES: the abs_val operations recorded (adouble.cpp:4557, 4612, each
   followed by increment of the counter). *)
Definition switch_op (o : op K) : bool :=
  match o with Plain (AbsVal _ _ _ _) => true | _ => false end.
Definition num_switches (t : list (op K)) : nat := length (filter switch_op t).

(* swargs[switchnum] = dp_T0[arg], uni5_for.cpp:3895 *)
Definition sw_of (b : bop K) (T : mem) : list val :=
  match b with AbsVal _ arg _ _ => [T arg] | _ => [] end.

(* zos_pl_forward, uni5_for.cpp:500-503 and the loop: the values, return code and
   Taylor stack are those of zos_forward (3886-3892, 3987); besides, the arguments
   of abs_val are stored. *)
Fixpoint plz (ps x : nat -> val) (t : list (op K)) (s : fstate K) (z : list val)
  : outcome K * list val :=
  match t with
  | [] => (Done s, z)
  | o :: t' =>
      match zstep ps x o s with
      | inl s' => plz ps x t' s' (z ++ sw_of (resolve (fT s) o) (fT s))
      | inr r => (r, z)
      end
  end.
Definition zos_pl_forward (ps x : nat -> val) (g : mem) (t : list (op K))
  : outcome K * list val := plz ps x t (mkF g 0 [] 3%Z []) [].

(* One row of fov_pl_reverse.  plk = switchnum + 1. *)
Record plst := mkPL {
  plR : rstate K;
  plw : nat -> val;     (* resultsSwitch[row] *)
  plk : nat
}.

(* fo_rev.cpp:1595-1629 (_ABS_NORM_, _FOV_), one row; u = lagrange[row],
   v = lagrangeSwitch[row].  The rows are independent of each other. *)
Definition plstep (u v : nat -> val) (o : op K) (s : plst) : plst :=
  let r := plR s in
  match resolve (rT r) o with
  | AbsVal _ arg res _ =>
      let (T', k') := restore res (rT r) (rk r) in
      let A1 := upd (rA r) res (zero K) in
      mkPL (mkR T' (upd A1 arg (add K (A1 arg) (v (plk s - 1)))) k' (rz r) (rii r) (rid r))
           (upd (plw s) (plk s - 1) (rA r res)) (plk s - 1)
  | _ => mkPL (rstep u o r) (plw s) (plk s)
  end.

Definition plrun (u v : nat -> val) (t : list (op K)) (s : plst) : plst :=
  fold_left (fun s o => plstep u v o s) (rev t) s.

(* switchnum = swchk - 1, fo_rev.cpp:476 *)
Definition pl_reverse (u v : nat -> val) (n m s : nat) (gT gA : mem) (gz gw : nat -> val)
  (k : list val) (t : list (op K)) : plst :=
  plrun u v t (mkPL (mkR gT gA k gz n m) gw s).

(* The unit weights built by abs_normal, psdrivers.cpp:64-83. *)
Definition unit_weight (i : nat) : nat -> val :=
  fun k => if Nat.eqb k i then one K else zero K.
Definition no_weight : nat -> val := fun _ => zero K.

Record anf := mkAnf {
  an_y : list val; an_z : list val;
  an_Y : nat -> nat -> val; an_J : nat -> nat -> val;
  an_Z : nat -> nat -> val; an_L : nat -> nat -> val
}.

(* psdrivers.cpp:31-88.  None: ADOLCError::fail (swchk is not the number of
   switches).  The codes of the two sweeps are not looked at, 0 is returned.
   When the forward sweep stops early the reverse sweep works on the Taylor stack
   left by it; lost stands for whatever is there.
   nominmax: NO_MIN_MAX of the trace (enableMinMaxUsingAbs was called before
   recording); both sweeps fail without it (fo_rev.cpp:466-468).
   gA, gz, gw: contents of the uninitialised / user buffers of each row. *)
Definition abs_normal (nominmax : bool) (t : list (op K)) (ps x : nat -> val) (m n swchk : nat)
  (g gT : mem) (lost : list val) (gA : nat -> mem) (gz gw : nat -> nat -> val)
  : option (Z * anf) :=
  let s := num_switches t in
  if Nat.eqb s swchk && nominmax then
    let (f, z) := zos_pl_forward ps x g t in
    let (y, k) := match f with
                  | Done fs => (fy fs, if Z.ltb (frc fs) 0 then lost else fk fs)
                  | Failed _ => ([], lost) end in
    let row (i : nat) (u v : nat -> val) :=
      pl_reverse u v n m s gT (gA i) (gz i) (gw i) k t in
    Some (0%Z,
      mkAnf y z
        (fun i => rz (plR (row i (unit_weight i) no_weight)))
        (fun i => plw (row i (unit_weight i) no_weight))
        (fun i => rz (plR (row (m + i) no_weight (unit_weight i))))
        (fun i => plw (row (m + i) no_weight (unit_weight i))))
  else None.

(* cy = y - J|z|, cz = z - L|z|; absnormalform.h:118-135 *)
Fixpoint minus_abs (row : nat -> val) (z : list val) (col : nat) (c : val) : val :=
  match z with
  | [] => c
  | zk :: z' => minus_abs row z' (S col) (sub K c (mul K (row col) (vabs K zk)))
  end.
Definition updateCy (a : anf) (i : nat) : val :=
  minus_abs (an_J a i) (an_z a) 0 (nth i (an_y a) (zero K)).
Definition updateCz (a : anf) (i : nat) : val :=
  minus_abs (an_L a i) (an_z a) 0 (nth i (an_z a) (zero K)).

(* fos_pl_sig_reverse, fo_rev.cpp:1631-1634 (_ABS_NORM_SIG_, _FOS_): there ARES_INC
   is *Ares (line 118) and AARG_INC is *Aarg (line 119).  sg = siggrad. *)
Definition sigstep (sg : nat -> val) (u : nat -> val) (o : op K) (s : plst) : plst :=
  let r := plR s in
  match resolve (rT r) o with
  | AbsVal _ arg res _ =>
      let (T', k') := restore res (rT r) (rk r) in
      let A1 := upd (rA r) res (zero K) in
      mkPL (mkR T' (upd A1 arg (add K (A1 arg) (mul K (sg (plk s - 1)) (A1 res))))
              k' (rz r) (rii r) (rid r)) (plw s) (plk s - 1)
  | _ => mkPL (rstep u o r) (plw s) (plk s)
  end.
Definition sig_reverse (sg u : nat -> val) (n m s : nat) (gT gA : mem) (gz : nat -> val)
  (k : list val) (t : list (op K)) : rstate K :=
  plR (fold_left (fun st o => sigstep sg u o st) (rev t)
         (mkPL (mkR gT gA k gz n m) (fun _ => zero K) s)).

End Anf.
