(* Model of the ODE drivers.

   Modelled code: ADOL-C/src/drivers/odedrivers.cpp: forodec and accodec, statement by
   statement, with the loops in their order.
   Simplifications: the work arrays of the tape (forodec_y, forodec_z, forodec_Z) are large
   enough and their contents before the call arbitrary (z0, Z0); the C rows are functions of
   their indices, what lies outside the n rows handed to a sweep is read as 0 (view); a
   thrown ADOLCError is None; the Taylor stack kept in the last pass is left out. *)
Require Import List ZArith Bool Arith Lia.
Require Import Verif.AdModel Verif.HosModel Verif.StatModel.
Import ListNotations.
Set Implicit Arguments.
Set Asymmetric Patterns.

Section Model.
Variable K : Arith.
Notation val := (V K).
Notation vmem := (mem K).
Notation rows := (rows K).

(* ------------------------------------------------------------------ *)
(* forodec 33-104                                                        *)

Definition view (n : nat) (Y : rows) : rows := fun i k => if Nat.ltb i n then Y i k else zero K.
(* MINDEC, common.h 137-142 *)
Definition mindec (a b : Z) : Z := if Z.ltb b a then b else a.

(* 66-72: y[i] = Y[i][0]; for (k = 0; k < deg; ++k) Y[i][k] = Y[i][k + 1] *)
Definition take_off (n deg : nat) (Y : rows) : vmem * rows :=
  up n (fun i (s : vmem * rows) =>
          let (y, Y) := s in
          (upd y i (Y i 0), up deg (fun k Y => put Y i k (Y i (S k))) Y))
     (fun _ => zero K, Y).
(* 94-101: for (k = deg; k > 0; --k) Y[i][k] = Y[i][k - 1]; Y[i][0] = y[i] *)
Definition put_back (n deg : nat) (y : vmem) (Y : rows) : rows :=
  up n (fun i Y => put (dn deg (fun k Y => put Y i (S k) (Y i k)) Y) i 0 (y i)) Y.

Section Tape.
Variables (nmm : bool) (ps : nat -> val) (t : list (op K)).
(* what the sweeps find in dp_T0 and dpp_T, not initialised, per call *)
Variables (g : nat -> vmem) (gc : nat -> rows).

(* the test at the start of every sweep, uni5_for.cpp 1095-1105, with m = n *)
Definition square (n : nat) : bool :=
  let c := counts nmm t zero_ctr in Nat.eqb n (cDeps c) && Nat.eqb n (cInds c).

(* 83-92, j = dol .. deg - 1; todo passes are left.  The sweep sees y and Y[.][0 .. j-1] *)
Fixpoint higher (n : nat) (tau : val) (todo j : nat) (rc : Z) (y : vmem) (Y Zr : rows)
  : option (Z * rows) :=
  match todo with
  | 0 => Some (rc, put_back n j y Y)
  | S todo' =>
      if negb (square n) then None else
      match @hos_forward K j ps (fun i => if Nat.ltb i n then y i else zero K) (view n Y) (g j) (gc j) t with
      | None => None
      | Some st =>
          let rc := mindec rc (frc (hF st)) in
          let Zr := up n (fun i Zr => up j (fun k Zr => put Zr i k (nth i (hY st) (fun _ => zero K) k)) Zr) Zr in
          if Z.ltb rc 0 then Some (rc, Y)
          else
            let taut := dvd K tau (ofnat K (S j)) in
            let Y := up n (fun i Y => put Y i j (mul K taut (Zr i (j - 1)))) Y in
            higher n tau todo' (S j) rc y Y Zr
      end
  end.

Definition forodec (n : nat) (tau : val) (dol deg : nat) (z0 : vmem) (Z0 : rows) (Y : rows)
  : option (Z * rows) :=
  let (y, Y) := take_off n deg Y in
  match dol with
  | 0 =>                                                           (* 74-82 *)
      if negb (square n) then None else
      match @zos_forward K ps (fun i => if Nat.ltb i n then y i else zero K) (g 0) t with
      | Failed => None
      | Done m =>
          let rc := mindec 3 (frc m) in
          let z := up n (fun i z => upd z i (nth i (fy m) (zero K))) z0 in
          if Z.ltb rc 0 then Some (rc, Y)
          else
            let taut := dvd K tau (ofnat K 1) in
            let Y := up n (fun i Y => put Y i 0 (mul K taut (z i))) Y in
            (* with deg = 0 the loop 83 does not run and 94 copies nothing *)
            if Nat.eqb deg 0 then Some (rc, put_back n 0 y Y)
            else higher n tau (deg - 1) 1 rc y Y Z0
      end
  | S _ =>
      if Nat.leb deg dol then Some (3%Z, put_back n deg y Y)
      else higher n tau (deg - dol) dol 3 y Y Z0
  end.
End Tape.

(* ------------------------------------------------------------------ *)
(* accodec 107-221                                                       *)

(* the arrays of the caller; A is array a, B is array b, which may be the same *)
Definition cube := nat -> nat -> nat -> val.
Definition arrays := nat -> cube.
Definition wr (M : arrays) (b i j k : nat) (v : val) : arrays :=
  fun b' i' j' k' =>
    if Nat.eqb b' b && Nat.eqb i' i && Nat.eqb j' j && Nat.eqb k' k then v else M b' i' j' k'.

(* 211-219: the case without nonzero *)
Definition dense_entry (n : nat) (scale : val) (a b k i j : nat) (M : arrays) : arrays :=
  snd (up n (fun p (s : val * arrays) =>
       let (sum, M) := s in
       (* Aip = A[i][p], Bpj = B[p][j] + k - 1; for (m = k; m > 0; m--) sum += *(Aip++) * *Bpj-- *)
       let sum := up k (fun q sum => add K sum (mul K (M a i p q) (M b p j (k - 1 - q)))) sum in
       (sum, wr M b i j k (mul K sum scale)))
     (M a i j k, M)).
Definition accodec_dense (n : nat) (tau : val) (deg a b : nat) (M : arrays) : arrays :=
  up (S deg) (fun k M =>
    let scale := dvd K tau (ofnat K (S k)) in                      (* 1.0 + k *)
    up n (fun i M => up n (fun j M => dense_entry n scale a b k i j M) M) M) M.

(* 178-209: the case with nonzero; short nonzero[n][n] *)
Definition nz := nat -> nat -> Z.
Definition setnz (z : nz) (i j : nat) (v : Z) : nz :=
  fun i' j' => if Nat.eqb i' i && Nat.eqb j' j then v else z i' j'.
Definition sparse_entry (n : nat) (scale : val) (a b k i j : nat) (s : arrays * nz) : arrays * nz :=
  let (M, z) := s in
  if Z.ltb (Z.of_nat k) (- z i j) then (wr M b i j k (zero K), z)
  else
    let '(sum, isum) :=
      up n (fun p (s : val * bool) =>
        let (sum, isum) := s in
        let nzip := z i p in
        let nzpj := Z.min (z p j) 0 in
        if (Z.ltb 0 nzip && Z.ltb (- nzpj) (Z.of_nat k))%bool then
          let sum := add K sum (mul K (M a i p 0) (M b p j (k - 1))) in
          (* for (m = k - 1; m > -nzpj; m--) sum += *(++Aip) * *(--Bpj) *)
          let sum := if Z.ltb 1 nzip
                     then up (k - 1 - Z.to_nat (- nzpj))
                            (fun q sum => add K sum (mul K (M a i p (S q)) (M b p j (k - 1 - S q)))) sum
                     else sum in
          (sum, true)
        else (sum, isum))
      (M a i j k, Z.ltb 0 (z i j)) in
    if isum then (wr M b i j k (mul K sum scale), z)
    else (wr M b i j k (zero K), setnz z i j (z i j - 1)).
Definition accodec_sparse (n : nat) (tau : val) (deg a b : nat) (s : arrays * nz) : arrays * nz :=
  up (S deg) (fun k s =>
    let scale := dvd K tau (ofnat K (S k)) in
    up n (fun i s => up n (fun j s => sparse_entry n scale a b k i j s) s) s) s.

End Model.
