(* Model for C35: the linear solver behind jac_solv.
   Source: ADOL-C/src/drivers/taylor.cpp:360-520.
   Simplification: double is R. *)
From Coq Require Import List ZArith Bool Arith Reals.
Import ListNotations.
Local Open Scope R_scope.

Definition mat := nat -> nat -> R.
Definition vec := nat -> R.
Definition setm (J : mat) (r c : nat) (v : R) : mat :=
  fun r' c' => if (Nat.eqb r' r && Nat.eqb c' c)%bool then v else J r' c'.
Definition setv {A : Type} (b : nat -> A) (i : nat) (v : A) : nat -> A :=
  fun j => if Nat.eqb j i then v else b j.

(* #define ZERO 1.0E-15, taylor.cpp:362 *)
Definition ZERO : R := / 10 ^ 15.

(* x > y, x != y of the C code *)
Definition gtb (x y : R) : bool := if Rlt_dec y x then true else false.
Definition neb (x y : R) : bool := if Req_EM_T x y then false else true.

(* Pivotsearch, taylor.cpp:375-384; state (v, rIdx, cIdx) *)
Definition pivot_row (J : mat) (ri ci : nat -> nat) (k n i : nat) (s : R * nat * nat) : R * nat * nat :=
  fold_left (fun s j => let a := Rabs (J (ri i) (ci j)) in
                        if gtb a (fst (fst s)) then (a, i, j) else s) (seq k (n - k)) s.
Definition pivot (J : mat) (ri ci : nat -> nat) (k n : nat) : R * nat * nat :=
  fold_left (fun s i => pivot_row J ri ci k n i s) (seq k (n - k)) (0, O, O).

(* row and column change, taylor.cpp:391-400 *)
Definition exchange (p : nat -> nat) (k idx : nat) : nat -> nat :=
  if Nat.ltb k idx then setv (setv p k (p idx)) idx (p k) else p.

(* one row of the factorisation step, taylor.cpp:402-407 *)
Definition lu_row (ri ci : nat -> nat) (k n i : nat) (J : mat) : mat :=
  let J1 := setm J (ri i) (ci k) (J (ri i) (ci k) / J (ri k) (ci k)) in
  fold_left (fun J j => setm J (ri i) (ci j) (J (ri i) (ci j) - J (ri i) (ci k) * J (ri k) (ci j)))
    (seq (S k) (n - S k)) J1.
Definition lu_rows (ri ci : nat -> nat) (k n : nat) (J : mat) : mat :=
  fold_left (fun J i => lu_row ri ci k n i J) (seq (S k) (n - S k)) J.

(* what LUFactorization leaves: its code, J, RI, CI *)
Record lu := mkLU { lu_rc : Z; lu_J : mat; lu_ri : nat -> nat; lu_ci : nat -> nat }.

(* the loop over k, taylor.cpp:373-408; todo = n - k *)
Fixpoint lu_loop (todo k n : nat) (J : mat) (ri ci : nat -> nat) : lu :=
  match todo with
  | O => mkLU (Z.of_nat k) J ri ci
  | S todo' =>
      let '(v, r, c) := pivot J ri ci k n in
      if gtb ZERO v then mkLU (- Z.of_nat (S k)) J ri ci
      else
        let ri' := exchange ri k r in
        let ci' := exchange ci k c in
        lu_loop todo' (S k) n (lu_rows ri' ci' k n J) ri' ci'
  end.
(* taylor.cpp:365-410.  RI, CI are written from 0 to n-1 only; reading beyond is
   never done, so they start here as the identity. *)
Definition LUFactorization (J : mat) (n : nat) : lu :=
  lu_loop n O n J (fun i => i) (fun j => j).

(* taylor.cpp:413-431.  tmpZ is malloc'ed: z0 is its content. *)
Definition forw (J : mat) (ri ci : nat -> nat) (n : nat) (b z0 : vec) : vec :=
  fold_left (fun z i =>
     fold_left (fun z j => setv z i (z i - J (ri i) (ci j) * z j)) (seq 0 i) (setv z i (b (ri i))))
    (seq 0 n) z0.
Definition backw (J : mat) (ri ci : nat -> nat) (n : nat) (z b : vec) : vec :=
  fold_left (fun b i =>
     let b1 := fold_left (fun b j => setv b (ci i) (b (ci i) - J (ri i) (ci j) * b (ci j)))
                 (seq (S i) (n - S i)) (setv b (ci i) (z i)) in
     setv b1 (ci i) (b1 (ci i) / J (ri i) (ci i)))
    (rev (seq 0 n)) b.
Definition GauszSolve (J : mat) (n : nat) (ri ci : nat -> nat) (b z0 : vec) : vec :=
  backw J ri ci n (forw J ri ci n b z0) b.

(* The part of the tape's persistent data that jac_solv uses
   (valuetape/persistanttapeinfos.h); it survives a new trace_on with the same tag. *)
Record js := mkJS {
  nax : nat; modeold : nat; jJ : mat; jri : nat -> nat; jci : nat -> nat; jxold : vec
}.
Definition js0 : js := mkJS 0 0 (fun _ _ => 0) (fun i => i) (fun i => i) (fun _ => 0).

(* The two sweeps of the tape that is there when jac_solv is called: the codes of
   zos_forward and fov_reverse, and the matrix the latter leaves in J. *)
Definition sweeps := vec -> Z * Z * mat.

(* MINDEC, common.h:137 *)
Definition mindec (a b : Z) : Z := if Z.ltb b a then b else a.

(* taylor.cpp:433-506.  gx: content of a new xold (malloc'ed), z0: see GauszSolve.
   Result: return value, b, persistent data. *)
Definition jac_solv (sw : sweeps) (n : nat) (x b : vec) (mode : nat) (gx z0 : vec) (s : js)
  : Z * vec * js :=
  let s1 := if Nat.eqb n (nax s) then s
            else mkJS n 0 (fun _ _ => 0) (fun i => i) (fun i => i) gx in
  let newX := existsb (fun i => neb (x i) (jxold s1 i)) (seq 0 n) in
  let s2 := mkJS (nax s1) (modeold s1) (jJ s1) (jri s1) (jci s1)
              (fun i => if Nat.ltb i n then x i else jxold s1 i) in
  let '(c1, c2, J) := sw x in
  let rc := mindec (mindec 3 c1) c2 in
  let f := LUFactorization J n in
  let raw := mkJS (nax s2) (modeold s2) J (jri s2) (jci s2) (jxold s2) in
  let fac (m : nat) := mkJS (nax s2) m (lu_J f) (lu_ri f) (lu_ci f) (jxold s2) in
  match mode with
  | 0 => (rc, b, raw)
  | 1 => if Z.ltb (lu_rc f) 0 then ((-3)%Z, b, fac (modeold s2)) else (rc, b, fac 1%nat)
  | 2 => if (Nat.ltb (modeold s2) 1 || newX)%bool then
           if Z.ltb (lu_rc f) 0 then ((-3)%Z, b, fac (modeold s2))
           else (rc, GauszSolve (lu_J f) n (lu_ri f) (lu_ci f) b z0, fac 2%nat)
         else (3%Z, GauszSolve (jJ s2) n (jri s2) (jci s2) b z0,
               mkJS (nax s2) 2 (jJ s2) (jri s2) (jci s2) (jxold s2))
  | _ => (3%Z, b, s2)
  end.
