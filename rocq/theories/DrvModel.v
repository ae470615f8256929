(** Model of ADOL-C/src/drivers/drivers.cpp: the easy-to-use drivers, on top of the sweeps
    of one tape.

    Simplifications: the sweeps are parameters (what they compute is a hypothesis of the
    theorems; for the scalar first order sweeps it is what C12, C14 and C15 prove);
    vectors and matrices are functions of their indices, every block a driver or sweep
    writes is bounded explicitly, and a block that leaves the caller's array is undefined
    behaviour (None); heap allocation of work arrays does not fail and its release is left
    out.  None also stands for a thrown ADOLCError (wrong numbers of variables, reverse
    sweep without stored values). *)
From Coq Require Import ZArith Reals List Bool.
Import ListNotations.
Local Open Scope Z_scope.

Definition vec := nat -> R.
Definition mat := nat -> nat -> R.
Definition ten := nat -> nat -> nat -> R.

(** the sweeps of the tape with this tag: return code and results *)
Record sweeps := mk_sweeps {
  deps : nat; inds : nat;
  zos : vec -> Z * vec;                       (* zos_forward(tag, m, n, keep, x, y) *)
  fos : vec -> vec -> Z * vec * vec;          (* fos_forward(tag, m, n, keep, x, v, y, yd) *)
  fov : nat -> vec -> mat -> Z * vec * mat;   (* fov_forward(tag, m, n, p, x, X[n][p], y, Y[m][p]) *)
  rev1 : vec -> vec -> Z * vec;               (* fos_reverse at the stored point: u[m] |-> z[n] *)
  revv : vec -> nat -> mat -> Z * mat;        (* fov_reverse at the stored point: q, U[q][m] |-> Z[q][n] *)
  rev2 : vec -> vec -> vec -> Z * mat;        (* hos_reverse, degree 1, at the stored point and tangent: u[m] |-> Z[n][2] *)
  hov : nat -> vec -> ten -> Z;               (* hov_wk_forward, degree 1: q, x, X[n][q][1] *)
  revov : nat -> vec -> ten -> mat -> Z * ten (* hos_ov_reverse, degree 1, at what was stored: U[m][2] |-> Z[q][n][2] *) }.

(** what the tape has on its value stack *)
Inductive kept := nothing | point (x : vec) | tangent (x v : vec) | tangents (q : nat) (x : vec) (X : ten).

Section Drv.
Variable s : sweeps.
(** the test of the numbers of dependents and independents at the start of every sweep, e.g. uni5_for.cpp 1095-1105 *)
Definition shape (m n : nat) : bool := (m =? deps s)%nat && (n =? inds s)%nat.
(** MINDEC, common.h 137-142 *)
Definition mindec (a b : Z) : Z := if b <? a then b else a.

(** writing a block of rows x cols entries at column off *)
Definition window (J : mat) (rows cols off : nat) (Y : mat) : mat :=
  fun i j => if (i <? rows)%nat && (off <=? j)%nat && (j <? off + cols)%nat then Y i (j - off)%nat else J i j.
Definition fill (r : vec) (n : nat) (z : vec) : vec := fun i => if (i <? n)%nat then z i else r i.
(** myallocI2: the unit matrix *)
Definition unit_matrix : mat := fun i j => if (i =? j)%nat then 1%R else 0%R.

Definition run_zos (m n : nat) (keep : bool) (x : vec) (k : kept) : option (Z * vec * kept) :=
  if shape m n then let (rc, y) := zos s x in Some (rc, y, if keep then point x else nothing) else None.
Definition run_rev1 (m n : nat) (u : vec) (k : kept) : option (Z * vec) :=
  if shape m n then match k with point x => Some (rev1 s x u) | _ => None end else None.
Definition run_revv (m n q : nat) (U : mat) (k : kept) : option (Z * mat) :=
  if shape m n then match k with point x => Some (revv s x q U) | _ => None end else None.

(** function, lines 30-36 *)
Definition function (m n : nat) (x r : vec) (k : kept) : option (Z * vec * kept) :=
  match run_zos m n false x k with
  | Some (rc, y, k) => Some (rc, fill r m y, k)
  | None => None
  end.

(** gradient, lines 41-50: result has n entries and first receives the value *)
Definition gradient (n : nat) (x r : vec) (k : kept) : option (Z * vec * kept) :=
  match run_zos 1 n true x k with
  | None => None
  | Some (rc, y, k) =>
      if (n <? 1)%nat then None else
      let r := fill r 1 y in
      if rc <? 0 then Some (rc, r, k)
      else match run_rev1 1 n (fun _ => 1%R) k with
           | None => None
           | Some (rc', z) => Some (mindec rc rc', fill r n z, k)
           end
  end.

(** vec_jac, lines 55-70 *)
Definition vec_jac (m n : nat) (repeat : bool) (x u row : vec) (k : kept) : option (Z * vec * kept) :=
  match (if repeat then Some (-1, fun _ => 0%R, k) else run_zos m n true x k) with
  | None => None
  | Some (rc, _, k) =>
      if negb repeat && (rc <? 0) then Some (rc, row, k)
      else match run_rev1 m n u k with
           | None => None
           | Some (rc', z) => Some (mindec rc rc', fill row n z, k)
           end
  end.

(** jacobian, lines 76-99 *)
Definition jacobian (m n : nat) (x : vec) (J : mat) (k : kept) : option (Z * mat * kept) :=
  if (n / 2 <? m)%nat then
    if shape m n then
      match fov s n x unit_matrix with (rc, _, Y) => Some (rc, window J m n 0 Y, nothing) end
    else None
  else
    match run_zos m n true x k with
    | None => None
    | Some (rc, _, k) =>
        if rc <? 0 then Some (rc, J, k)
        else match run_revv m n m unit_matrix k with
             | None => None
             | Some (rc', Zz) => Some (mindec rc rc', window J m n 0 Zz, k)
             end
    end.

(** fov_offset_forward(tag, m, n, p, offset, x, I, y, J), uni5_for.cpp with _CHUNKED_:
    lines 98-100 read X[i][l + offset] and write J[i][l + offset] for l < p; both matrices
    have n columns.  A negative p is not covered (None). *)
Definition fov_offset (m n : nat) (p offset : Z) (x : vec) (J : mat) : option (Z * vec * mat) :=
  if negb (shape m n) then None
  else if (0 <=? p) && (0 <=? offset) && (offset + p <=? Z.of_nat n) then
    let off := Z.to_nat offset in
    match fov s (Z.to_nat p) x (fun i l => unit_matrix i (l + off)%nat) with
      (rc, y, Y) => Some (rc, y, window J m (Z.to_nat p) off Y)
    end
  else None.
(** large_jacobian, lines 105-127 *)
Fixpoint chunks (m n : nat) (todo : nat) (i dirs : Z) (x r : vec) (J : mat) : option (vec * mat) :=
  match todo with
  | O => Some (r, J)
  | S todo =>
      match fov_offset m n dirs (i * dirs) x J with
      | Some (_, y, J) => chunks m n todo (i + 1) dirs x (fill r m y) J
      | None => None
      end
  end.
Definition large_jacobian (m n : nat) (runns : Z) (x r : vec) (J : mat) (k : kept) : option (Z * vec * mat * kept) :=
  let N := Z.of_nat n in
  let runns := if runns >? N then N else runns in
  let runns := if runns <? 1 then 1 else runns in
  let dirs := Z.quot N runns in
  let dirs := if Z.rem N runns =? 0 then dirs else dirs + 1 in
  match chunks m n (Z.to_nat (runns - 1)) 0 dirs x r J with
  | None => None
  | Some (r, J) =>
      let dirs := N - (runns - 1) * dirs in
      match fov_offset m n dirs (N - dirs) x J with
      | Some (rc, y, J) => Some (rc, fill r m y, J, nothing)
      | None => None
      end
  end.

(** jac_vec, lines 132-143 *)
Definition jac_vec (m n : nat) (x v col : vec) (k : kept) : option (Z * vec * kept) :=
  if shape m n then match fos s x v with (rc, _, yd) => Some (rc, fill col m yd, nothing) end else None.

(** lagra_hess_vec, lines 266-294 *)
Definition lagra_hess_vec (m n : nat) (x v u w : vec) (k : kept) : option (Z * vec * kept) :=
  if shape m n then
    match fos s x v with (rc, _, _) =>
      let k := tangent x v in
      if rc <? 0 then Some (rc, w, k)
      else match rev2 s x v u with (rc', X) => Some (mindec rc rc', fill w n (fun i => X i 1%nat), k) end
    end
  else None.
(** hess_vec, lines 148-152 *)
Definition hess_vec (n : nat) (x v w : vec) (k : kept) : option (Z * vec * kept) :=
  lagra_hess_vec 1 n x v (fun _ => 1%R) w k.

(** hess_mat, lines 157-192: the case of a failing forward sweep, after which the reverse
    sweep is still called, is not covered (None) *)
Definition hess_mat (n q : nat) (x : vec) (V W : mat) (k : kept) : option (Z * mat * kept) :=
  if shape 1 n then
    let X : ten := fun i j _ => V i j in
    let rc := hov s q x X in
    if rc <? 0 then None
    else match revov s q x X (fun _ j => if (j =? 0)%nat then 1%R else 0%R) with
           (rc', Zz) => Some (mindec rc rc', (fun j i => if (j <? n)%nat && (i <? q)%nat then Zz i j 1%nat else W j i), tangents q x X)
         end
  else None.

(** hessian, lines 198-222: one row per call of hess_vec *)
Definition unitv (i : nat) : vec := fun j => if (j =? i)%nat then 1%R else 0%R.
Definition lower_row (H : mat) (i : nat) (w : vec) : mat := fun i' j => if (i' =? i)%nat && (j <=? i)%nat then w j else H i' j.
Fixpoint hessian_rows (n : nat) (todo i : nat) (rc : Z) (x : vec) (H : mat) (k : kept) : option (Z * mat * kept) :=
  match todo with
  | O => Some (rc, H, k)
  | S todo =>
      match hess_vec n x (unitv i) (fun _ => 0%R) k with
      | None => None
      | Some (rc', w, k) =>
          let rc := mindec rc rc' in
          if rc <? 0 then Some (rc, H, k)
          else hessian_rows n todo (S i) rc x (lower_row H i w) k
      end
  end.
Definition hessian (n : nat) (x : vec) (H : mat) (k : kept) : option (Z * mat * kept) := hessian_rows n n 0 3 x H k.

(** hessian2, lines 228-261 *)
Definition hessian2 (n : nat) (x : vec) (H : mat) (k : kept) : option (Z * mat * kept) :=
  if shape 1 n then
    let X : ten := fun i j _ => unit_matrix i j in
    let rc := hov s n x X in
    if rc <? 0 then None
    else match revov s n x X (fun _ j => if (j =? 0)%nat then 1%R else 0%R) with
           (rc', Zz) => Some (mindec rc rc', (fun i j => if (i <? n)%nat && (j <=? i)%nat then Zz i j 1%nat else H i j), tangents n x X)
         end
  else None.
End Drv.
