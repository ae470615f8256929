(* Externally differentiated functions: reg_ext_fct/call_ext_fct
   (ADOL-C/src/externfcts.cpp:28-170, include/adolc/externfcts.h:110-245) and the
   ext_diff cases of the sweeps (src/uni5_for.cpp:5510-5550,
   src/fo_rev.cpp:2632-2710).
   Simplifications: values are real numbers.  The ordinary operations of a trace,
   modelled one by one in AdModel.v, are here generic elementals: one result cell,
   any number of argument cells, a value function and a gradient function.  A call
   takes n consecutive input cells and m consecutive output cells, which is what
   check_input (externfcts.cpp:48-57) enforces.  The array arguments of a callback
   are lists; it returns what it left in the arrays it may write. *)
From Coq Require Import List Arith Lia ZArith Reals Bool.
Import ListNotations.
Open Scope R_scope.

Definition mem := nat -> R.

(* the n cells from a on, as an array; and writing an array back *)
Definition rd (T : mem) (a n : nat) : list R := map T (seq a n).
Definition wr (T : mem) (a n : nat) (v : list R) : mem :=
  fun i => if (a <=? i)%nat && (i <? a + n)%nat then nth (i - a) v 0 else T i.
Definition put (T : mem) (i : nat) (v : R) : mem :=
  fun j => if (j =? i)%nat then v else T j.

(* an ordinary operation: res := val (args), with its partial derivatives *)
Record elem := mkE {
  eres : nat;
  eargs : list nat;
  eval_ : list R -> R;
  egrad : list R -> list R
}.

(* What the user of the library writes between trace_on and trace_off:
   an ordinary operation, or call_ext_fct(edf_e, n, xa, m, ya), where xa and ya
   are the locations of the first input and the first output. *)
Inductive stmt :=
| Op (e : elem)
| Call (e n xa m ya : nat).

(* The user's callbacks and settings of one registered function
   (externfcts.h:110-245).  cfun, czos: x, y before -> x, y after and the return
   code; cfos: x, X, y, Y -> the same four after; crev: u, z, x, y -> z, x, y
   after. ctrash: what the callback does to the values of the outer tape when it
   uses ADOL-C itself. *)
Record edf := mkEdf {
  cfun : list R -> list R -> list R * list R * Z;
  czos : list R -> list R -> list R * list R * Z;
  cfos : list R -> list R -> list R -> list R -> list R * list R * list R * list R;
  crev : list R -> list R -> list R -> list R -> list R * list R * list R;
  ctrash : mem -> mem;
  nested : bool;
  xchanges : bool;
  yprior : bool
}.

(* the two location fields of the registered structure
   (externfcts.h:124-125: firstIndLocation, firstDepLocation) *)
Record sites := mkS { find : nat; fdep : nat }.
Definition table := nat -> sites.
Definition tset (E : table) (e : nat) (s : sites) : table :=
  fun j => if (j =? e)%nat then s else E j.

(* what is on the tape: index, n, m (externfcts.cpp:66-71), no locations *)
Inductive top :=
| TOp (e : elem)
| TExt (e n m : nat).

Definition values (T : mem) (l : list nat) : list R := map T l.
Definition estep (e : elem) (T : mem) : mem :=
  put T (eres e) (eval_ e (values T (eargs e))).

(* MINDEC(ret_c, ext_retc), uni5_for.cpp:5547 *)
Definition mindec (a b : Z) : Z := if Z.ltb b a then b else a.

(* Kept values: the old result cell of an ordinary operation; for a call the
   inputs if dp_x_changes, then the outputs if dp_y_priorRequired
   (externfcts.cpp:93-101, uni5_for.cpp:5531-5545). The list has the youngest
   value first. *)
Definition kcall (f : edf) (T : mem) (xa n ya m : nat) (k : list R) : list R :=
  let k1 := if xchanges f then rev (rd T xa n) ++ k else k in
  if yprior f then rev (rd T ya m) ++ k1 else k1.

(* ---- recording: call_ext_fct, externfcts.cpp:116-143 ---- *)
Record rstate := mkR {
  rT : mem;             (* the values of the live variables *)
  rE : table;           (* the location fields of the registered structures *)
  rtape : list top;     (* what has been recorded, oldest first *)
  rk : list R           (* kept values *)
}.

Definition record1 (F : nat -> edf) (s : stmt) (r : rstate) : rstate :=
  match s with
  | Op e =>
      mkR (estep e (rT r)) (rE r) (rtape r ++ [TOp e]) (rT r (eres e) :: rk r)
  | Call e n xa m ya =>
      let f := F e in
      let T := rT r in
      let x := rd T xa n in
      let y := rd T ya m in
      let '(x', y', _) := cfun f x y in
      let T1 := if nested f then T else ctrash f T in
      let T2 := if xchanges f then wr T1 xa n x' else T1 in
      mkR (wr T2 ya m y') (tset (rE r) e (mkS xa ya)) (rtape r ++ [TExt e n m])
          (kcall f T xa n ya m (rk r))
  end.

Definition record (F : nat -> edf) (p : list stmt) (r : rstate) : rstate :=
  fold_left (fun r s => record1 F s r) p r.

(* ---- zos_forward, uni5_for.cpp:5510-5550 ---- *)
Record fstate := mkF { fT : mem; fk : list R; frc : Z }.

Definition zstep (F : nat -> edf) (E : table) (o : top) (s : fstate) : fstate :=
  match o with
  | TOp e => mkF (estep e (fT s)) (fT s (eres e) :: fk s) (frc s)
  | TExt e n m =>
      let f := F e in
      let xa := find (E e) in
      let ya := fdep (E e) in
      let T := fT s in
      let '(x', y', rc) := czos f (rd T xa n) (rd T ya m) in
      mkF (wr (wr T xa n x') ya m y') (kcall f T xa n ya m (fk s)) (mindec (frc s) rc)
  end.

Definition zos (F : nat -> edf) (E : table) (t : list top) (s : fstate) : fstate :=
  fold_left (fun s o => zstep F E o s) t s.

(* ---- fos_forward: values and tangents (same lines, _FOS_) ---- *)
Fixpoint lin (c : list R) (a : list nat) (D : mem) : R :=
  match c, a with
  | p :: c', i :: a' => p * D i + lin c' a' D
  | _, _ => 0
  end.

Definition fstep (F : nat -> edf) (E : table) (o : top) (s : mem * mem) : mem * mem :=
  let '(T, D) := s in
  match o with
  | TOp e => (estep e T, put D (eres e) (lin (egrad e (values T (eargs e))) (eargs e) D))
  | TExt e n m =>
      let f := F e in
      let xa := find (E e) in
      let ya := fdep (E e) in
      let '(x', X', y', Y') := cfos f (rd T xa n) (rd D xa n) (rd T ya m) (rd D ya m) in
      (wr (wr T xa n x') ya m y', wr (wr D xa n X') ya m Y')
  end.

Definition fos (F : nat -> edf) (E : table) (t : list top) (s : mem * mem) : mem * mem :=
  fold_left (fun s o => fstep F E o s) t s.

(* ---- fos_reverse, fo_rev.cpp:2632-2710 ---- *)
Fixpoint scatter (w : R) (c : list R) (a : list nat) (A : mem) : mem :=
  match c, a with
  | p :: c', i :: a' => scatter w c' a' (put A i (A i + p * w))
  | _, _ => A
  end.

(* reading n kept values back, last cell first (fo_rev.cpp:2693-2704) *)
Definition unkeep (b : bool) (T : mem) (a n : nat) (k : list R) : mem * list R :=
  if b then (wr T a n (rev (firstn n k)), skipn n k) else (T, k).

Record bstate := mkB { bT : mem; bA : mem; bk : list R }.

Definition bstep (F : nat -> edf) (E : table) (o : top) (s : bstate) : bstate :=
  match o with
  | TOp e =>
      let T := put (bT s) (eres e) (hd 0 (bk s)) in
      let w := bA s (eres e) in
      mkB T (scatter w (egrad e (values T (eargs e))) (eargs e) (put (bA s) (eres e) 0))
          (tl (bk s))
  | TExt e n m =>
      let f := F e in
      let xa := find (E e) in
      let ya := fdep (E e) in
      let u := rd (bA s) ya m in
      let z := rd (bA s) xa n in              (* ext_z_buffer: a copy *)
      let '(z', x', y') := crev f u z (rd (bT s) xa n) (rd (bT s) ya m) in
      let T0 := wr (wr (bT s) xa n x') ya m y' in
      let A0 := wr (bA s) ya m (repeat 0 m) in  (* set u to zero *)
      let A1 := wr A0 xa n z' in                (* copy the buffer back *)
      let '(T1, k1) := unkeep (yprior f) T0 ya m (bk s) in
      let '(T2, k2) := unkeep (xchanges f) T1 xa n k1 in
      mkB T2 A1 k2
  end.

Definition fosrev (F : nat -> edf) (E : table) (t : list top) (s : bstate) : bstate :=
  fold_left (fun s o => bstep F E o s) (rev t) s.

(* ext_diff_iArr, fo_rev.cpp:2711-2775: the callback works on the adjoint buffer
   itself (no copy), and the outputs are cleared afterwards.  Only what happens
   to the adjoints is modelled. *)
Definition bstep_iarr (f : edf) (xa n ya m : nat) (T A : mem) : mem :=
  let '(z', _, _) := crev f (rd A ya m) (rd A xa n) (rd T xa n) (rd T ya m) in
  wr (wr A xa n z') ya m (repeat 0 m).
