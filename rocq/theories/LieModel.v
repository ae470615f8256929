(* Model of the Lie derivative drivers.

   Modelled code: ADOL-C/src/lie/adolc_lie_c.cpp: accodeout, acccov, accadj, accbrac, lie_scalarcv,
   lie_scalarc, lie_gradientcv, lie_gradientc, lie_covector, lie_bracket, with the loops in their
   order.  The C++ drivers of adolc_lie.cpp only call these.
   Simplifications: myalloc1/2/3 are calloc (adalloc.cpp 26-30), the arrays start with zeros; arrays
   are functions of their indices, what lies outside of the rows handed to a sweep is read as 0 (view);
   a thrown ADOLCError and int overflow are None; an early return of forodec (negative return code)
   before hov_reverse is None.  The Taylor stack of Tape_F, which hov_reverse reads, is the one written
   by the last pass of forodec (odedrivers.cpp 84-86, keep = deg when j = deg - 1): a sweep of degree
   deg - 1 at x0 with the coefficients 1 .. deg - 1 that are then in X; for deg = 1 it is a zos_forward
   with keep = 1, which keeps the values only, as hos_forward_keep of degree 0 does.  The static unit
   matrices In, Im (290-299, 411-420, 494-499) have at least the size needed.  The return code of
   all drivers is -1, whatever happens (228, 253, 344, 372, 460, 527), and left out. *)
Require Import List ZArith Bool Arith Lia.
Require Import Verif.AdModel Verif.HosModel Verif.HrvModel Verif.HvrModel Verif.StatModel Verif.OdeModel.
Import ListNotations.
Set Implicit Arguments.
Set Asymmetric Patterns.

Section Model.
Variable K : Arith.
Notation val := (V K).
Notation vmem := (mem K).
Notation rows := (rows K).
Notation cube := (cube K).

Definition put3 (D : cube) (j i k : nat) (v : val) : cube :=
  fun j' i' k' => if Nat.eqb j' j && Nat.eqb i' i && Nat.eqb k' k then v else D j' i' k'.
Definition zcube : cube := fun _ _ _ => zero K.

(* ------------------------------------------------------------------ *)
(* the series 29-171                                                     *)

(* accodeout 29-51.  l runs from 1 to k here: l is the loop variable less one *)
Definition accodeout (p n deg : nat) (B C D : cube) : cube :=
  up (S deg) (fun k D =>
    let D := up p (fun j D => up n (fun i D => put3 D j i k (C j i k)) D) D in
    up k (fun l D => up p (fun jp D => up n (fun ip D =>
      let x := up n (fun kp x => add K x (mul K (C jp kp (k - S l)) (B kp ip l))) (zero K) in
      put3 D jp ip k (add K (D jp ip k) x)) D) D) D) D.

(* int Fak: INT_MAX; Fak = Fak * k, 69-72 and 146-149 *)
Definition int_max : Z := 2147483647.
Definition next_fak (k : nat) (Fak : Z) : option Z :=
  let v := match k with 0 => 1%Z | S _ => (Fak * Z.of_nat k)%Z end in
  if Z.leb v int_max then Some v else None.
Definition of_int (z : Z) : val := ofnat K (Z.to_nat z).

(* acccov 61-89 *)
Definition acccov (n d : nat) (B : cube) (C D : rows) : option rows :=
  option_map snd (up (S d) (fun k (s : option (Z * rows)) =>
    match s with
    | None => None
    | Some (Fak, D) =>
        match next_fak k Fak with
        | None => None
        | Some Fak =>
            let D := up n (fun i D => put D i k (mul K (of_int Fak) (C i k))) D in
            Some (Fak, up k (fun l D => up n (fun ip D =>
              let x := up n (fun kp x => add K x (mul K (C kp (k - S l)) (B kp ip l))) (zero K) in
              put D ip k (add K (D ip k) (mul K (of_int Fak) x))) D) D)
        end
    end) (Some (1%Z, D))).

(* accadj 101-128 *)
Definition accadj (n deg : nat) (A Bs : cube) : cube :=
  up (S deg) (fun k Bs =>
    let Bs := up n (fun j Bs => up n (fun i Bs =>
      put3 Bs j i k (dvd K (neg K (A i j k)) (ofnat K (S k)))) Bs) Bs in
    up k (fun l Bs => up n (fun jp Bs => up n (fun ip Bs =>
      let x := up n (fun kp x => add K x (mul K (A kp jp (k - S l)) (Bs kp ip l))) (zero K) in
      put3 Bs jp ip k (sub K (Bs jp ip k) (dvd K x (ofnat K (S k))))) Bs) Bs) Bs) Bs.

(* accbrac 138-171: everything is done once for each j *)
Definition accbrac (n d : nat) (Bs : cube) (b r : rows) : option rows :=
  option_map snd (up (S d) (fun k (s : option (Z * rows)) =>
    match s with
    | None => None
    | Some (Fak, r) =>
        match next_fak k Fak with
        | None => None
        | Some Fak =>
            Some (Fak, up n (fun _ r =>
              let r := up n (fun i r => put r i k (mul K (of_int Fak) (b i k))) r in
              up k (fun l r => up n (fun jp r =>
                let x := up n (fun kp x => add K x (mul K (Bs kp jp l) (b kp (k - S l)))) (zero K) in
                put r jp k (add K (r jp k) (mul K (of_int Fak) x))) r) r) r)
        end
    end) (Some (1%Z, r))).

(* result[i] = Fak * Y[i]; Fak = Fak * (i + 1), with a double Fak: 215-221, 322-330 *)
Definition with_fak (d : nat) (c : nat -> val) (write : nat -> val -> rows -> rows) (r : rows) : rows :=
  snd (up (S d) (fun i (s : val * rows) =>
    let (Fak, r) := s in (mul K Fak (ofnat K (S i)), write i (mul K Fak (c i)) r)) (one K, r)).
Definition with_fak3 (d l i : nat) (c : nat -> val) (r : cube) : cube :=
  snd (up (S d) (fun j (s : val * cube) =>
    let (Fak, r) := s in (mul K Fak (ofnat K (S j)), put3 r l i j (mul K Fak (c j)))) (one K, r)).

(* ------------------------------------------------------------------ *)
(* the drivers                                                           *)

(* a trace and what the sweeps find in memory that is not initialised, per call *)
Record tape := mkTape {
  tnmm : bool; tps : nat -> val; tops : list (op K); tg : nat -> vmem; tgc : nat -> rows }.
(* the test at the start of a sweep, uni5_for.cpp 1095-1105 *)
Definition sized (tp : tape) (m n : nat) : bool :=
  let c := counts (tnmm tp) (tops tp) zero_ctr in Nat.eqb m (cDeps c) && Nat.eqb n (cInds c).
Definition point (n : nat) (x : vmem) : nat -> val := fun i => if Nat.ltb i n then x i else zero K.

(* X[i][0] = x0[i], 190-192; forodec(Tape_F, n, 1.0, 0, d, X) *)
Definition trajectory (F : tape) (n : nat) (x0 : vmem) (d : nat) (z0 : vmem) (Z0 : rows) : option (Z * rows) :=
  @forodec K (tnmm F) (tps F) (tops F) (tg F) (tgc F) n (one K) 0 d z0 Z0
    (up n (fun i X => put X i 0 (x0 i)) (fun _ _ => zero K)).

(* hos_forward(Tape_H, m, n, d, .., x, X, y, Y) on arrays y, Y of zeros *)
Definition sweep (H : tape) (m n d : nat) (x : vmem) (X : rows) : option (vmem * rows) :=
  if sized H m n then
    match @hos_forward K d (tps H) (point n x) (view n X) (tg H d) (tgc H d) (tops H) with
    | None => None
    | Some st => Some (fun i => nth i (fy (hF st)) (zero K),
                       fun i k => if Nat.ltb k d then nth i (hY st) (fun _ => zero K) k else zero K)
    end
  else None.

(* hov_reverse(Tape, m, n, d, m, I, A, 0) after a forward sweep of degree d at x, X that kept all *)
Definition jacobians (eps : val) (H : tape) (m n d : nat) (x : vmem) (X : rows) : option cube :=
  if sized H m n then
    match @hos_forward_keep K d (tps H) (point n x) (view n X) (tg H d) (tgc H d) (tops H) with
    | None => None
    | Some st =>
        match @hov_reverse K eps d m (fun l i => if Nat.eqb l i then one K else zero K) n m
                zcube (fun _ _ => zero K) (hkk st) (tops H) with
        | None => None
        | Some v => Some (hvz v)
        end
    end
  else None.

(* lie_scalarcv 181-229 *)
Definition lie_scalarcv (F H : tape) (n m : nat) (x0 : vmem) (d : nat) (z0 : vmem) (Z0 r : rows) : option rows :=
  match trajectory F n x0 d z0 Z0 with
  | None => None
  | Some (_, X) =>
      let (x, X) := take_off n d X in                               (* 198-202 *)
      match sweep H m n d x X with
      | None => None
      | Some (y, Y) =>
          let Y := put_back m d y Y in                              (* 207-212 *)
          Some (up m (fun j r => with_fak d (Y j) (fun i v r => put r j i v) r) r)
      end
  end.
(* lie_scalarc 239-254 *)
Definition lie_scalarc (F H : tape) (n : nat) (x0 : vmem) (d : nat) (z0 : vmem) (Z0 : rows) (r : vmem) : option vmem :=
  match lie_scalarcv F H n 1 x0 d z0 Z0 (fun _ _ => zero K) with
  | None => None
  | Some T => Some (up (S d) (fun i r => upd r i (T 0 i)) r)
  end.

(* the part shared by lie_gradientcv (285-302) and lie_covector (406-423): X and A *)
Definition trajectory_jacobians (eps : val) (F : tape) (n : nat) (x0 : vmem) (d : nat) (z0 : vmem) (Z0 : rows)
  : option (rows * cube) :=
  match trajectory F n x0 d z0 Z0 with
  | None => None
  | Some (rc, X) =>
      if Z.ltb rc 0 then None else
      match jacobians eps F n n (d - 1) (fun i => X i 0) (fun i k => X i (S k)) with
      | None => None
      | Some A => Some (X, A)
      end
  end.
(* 306-315, 426-433: with d == 1 the rows are not moved *)
Definition take_off_1 (n d : nat) (X : rows) : vmem * rows :=
  if Nat.eqb d 1 then (fun i => X i 0, X) else take_off n d X.

(* lie_gradientcv 264-345 *)
Definition lie_gradientcv (eps : val) (F H : tape) (n m : nat) (x0 : vmem) (d : nat) (z0 : vmem) (Z0 : rows) (r : cube)
  : option cube :=
  match trajectory_jacobians eps F n x0 d z0 Z0 with
  | None => None
  | Some (X, A) =>
      let B := accodec_dense n (one K) (d - 1) 0 1 (fun a => if Nat.eqb a 0 then A else zcube) 1 in
      let (x, X) := take_off_1 n d X in
      match jacobians eps H m n d x X with
      | None => None
      | Some Pc =>
          let D := accodeout m n d B Pc zcube in
          Some (up m (fun l r => up n (fun i r => with_fak3 d l i (D l i) r) r) r)
      end
  end.
(* lie_gradientc 357-373 *)
Definition lie_gradientc (eps : val) (F H : tape) (n : nat) (x0 : vmem) (d : nat) (z0 : vmem) (Z0 r : rows) : option rows :=
  match lie_gradientcv eps F H n 1 x0 d z0 Z0 zcube with
  | None => None
  | Some T => Some (up n (fun i r => up (S d) (fun j r => put r i j (T 0 i j)) r) r)
  end.

(* lie_covector 386-461 *)
Definition lie_covector (eps : val) (F W : tape) (n : nat) (x0 : vmem) (d : nat) (z0 : vmem) (Z0 r : rows) : option rows :=
  match trajectory_jacobians eps F n x0 d z0 Z0 with
  | None => None
  | Some (X, A) =>
      let (x, X) := take_off_1 n d X in
      match sweep W n n d x X with
      | None => None
      | Some (y, Y) =>
          let Y := if Nat.eqb d 1                                   (* 438-445; yp is never set *)
                   then up n (fun i Y => put (put Y i 1 (zero K)) i 0 (y i)) Y
                   else put_back n d y Y in
          let B := accodec_dense n (one K) (d - 1) 0 1 (fun a => if Nat.eqb a 0 then A else zcube) 1 in
          acccov n d B Y r
      end
  end.

(* lie_bracket 472-528 *)
Definition lie_bracket (eps : val) (F G : tape) (n : nat) (x0 : vmem) (d : nat) (z0 : vmem) (Z0 r : rows) : option rows :=
  match trajectory_jacobians eps F n x0 (S d) z0 Z0 with
  | None => None
  | Some (X, A) =>
      let (_, X) := take_off n d X in                               (* k < d only *)
      match sweep G n n (S d) x0 X with
      | None => None
      | Some (y, Y) =>
          let Y := put_back n d y Y in
          accbrac n d (accadj n d A zcube) Y r
      end
  end.
End Model.
