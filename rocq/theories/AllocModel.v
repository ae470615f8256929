(* Model of ADOL-C/src/adalloc.cpp: matrices and tensors of doubles allocated as
   one block with row pointers, and the compact identity matrix.

   The heap is byte addressed; all stored objects (double, double*, size_t) are 8
   bytes long.  A load or store is defined if the 8 bytes lie inside one live
   block, at a multiple of 8 from its start.  calloc / malloc are parameters
   ([grant]): they refuse (null pointer) or give a block that is disjoint from the
   live blocks, does not wrap around the address space and is not at address 0.
   size_t arithmetic is modulo 2^64.  Only the 64 bit data model. *)
From Coq Require Import List ZArith Bool Lia.
Import ListNotations.
Set Implicit Arguments.
Local Open Scope Z_scope.

Definition W := 2 ^ 64.
Definition wrap (z : Z) : Z := z mod W.

Section Alloc.
Variable V : Type.           (* doubles *)
Variables (dzero done : V).  (* 0.0 (all bytes zero) and 1.0 *)

(* contents of an 8 byte cell *)
Inductive cell := Num (v : V) | Ptr (a : Z) | Junk.
Record block := mkBlock { bbase : Z; bsize : Z }.
Record heap := mkHeap { blocks : list block; cells : Z -> cell }.

Definition inside (b : block) (a : Z) : Prop :=
  bbase b <= a /\ a + 8 <= bbase b + bsize b /\ (a - bbase b) mod 8 = 0.
Definition insideb (b : block) (a : Z) : bool :=
  (bbase b <=? a) && (a + 8 <=? bbase b + bsize b) && ((a - bbase b) mod 8 =? 0).
Definition valid (h : heap) (a : Z) : bool := existsb (fun b => insideb b a) (blocks h).

Definition load (h : heap) (a : Z) : option cell :=
  if valid h a then Some (cells h a) else None.
Definition store (h : heap) (a : Z) (c : cell) : option heap :=
  if valid h a then
    Some (mkHeap (blocks h) (fun a' => if a' =? a then c else cells h a'))
  else None.

(* What the allocator may do: [r] = 0 (refused) or the address of a block of
   [size] bytes away from all live blocks. *)
Definition disjoint (b b' : block) : Prop :=
  bbase b + bsize b <= bbase b' \/ bbase b' + bsize b' <= bbase b.
Definition grant (h : heap) (size r : Z) : Prop :=
  r = 0 \/
  (0 < r /\ r + size <= W /\ List.Forall (disjoint (mkBlock r size)) (blocks h)).

(* calloc / malloc of [size] bytes at address r; calloc(n,s) refuses if n*s does
   not fit in size_t (C11 7.22.3.2) *)
Definition new_block (h : heap) (size r : Z) (init : cell) : heap :=
  mkHeap (mkBlock r size :: blocks h)
         (fun a => if insideb (mkBlock r size) a then init else cells h a).

Inductive res (A : Type) :=
| Ok (a : A)      (* returned *)
| Fail            (* ADOLCError::fail *)
| Undef.          (* access outside every live block *)
Arguments Fail {A}.
Arguments Undef {A}.

(* pointer[0][i] = tmp2; tmp2 += m;   49-52, 69-72, 99-102; also 238-241.
   [p] address of the pointer array, [t] = tmp2, [step] = m * 8 bytes *)
Fixpoint fill (n : nat) (i p t step : Z) (h : heap) : option (heap * Z) :=
  match n with
  | O => Some (h, t)
  | S n' =>
      match store h (p + 8 * i) (Ptr t) with
      | Some h' => fill n' (i + 1) p (t + step) step h'
      | None => None
      end
  end.

(* populate_dpp, 38-55: returns the pointer (memory) and the end of the data *)
Definition populate_dpp (memory : Z) (n m : nat) (h : heap) : option (heap * Z) :=
  fill n 0 memory (memory + 8 * Z.of_nat n) (8 * Z.of_nat m) h.

(* inner loop of 76-80: for j < m: pointer[0][i][j] = tmp3; tmp3 += p *)
Definition row_ptr (h : heap) (p i : Z) : option Z :=
  match load h (p + 8 * i) with Some (Ptr a) => Some a | _ => None end.
Fixpoint fill_rows (n : nat) (i p : Z) (m : nat) (t step : Z) (h : heap)
  : option (heap * Z) :=
  match n with
  | O => Some (h, t)
  | S n' =>
      match row_ptr h p i with
      | None => None
      | Some r =>
          match fill m 0 r t step h with
          | Some (h', t') => fill_rows n' (i + 1) p m t' step h'
          | None => None
          end
      end
  end.
(* populate_dppp, 57-83 *)
Definition populate_dppp (memory : Z) (n m p : nat) (h : heap) : option (heap * Z) :=
  match fill n 0 memory (memory + 8 * Z.of_nat n) (8 * Z.of_nat m) h with
  | None => None
  | Some (h1, t) => fill_rows n 0 memory m t (8 * Z.of_nat p) h1
  end.

(* myalloc1, 106-116.  r = what calloc returns for the requested size *)
Definition myalloc1 (m : nat) (r : Z) (h : heap) : res (Z * heap) :=
  if Nat.ltb 0 m then
    if r =? 0 then Fail else Ok (r, new_block h (8 * Z.of_nat m) r (Num dzero))
  else Ok (0, h).

(* myalloc2, 119-133; the size m*n*sizeof(double) + m*sizeof(double star) wraps *)
Definition size2 (m n : nat) : Z := wrap (Z.of_nat m * Z.of_nat n * 8 + Z.of_nat m * 8).
Definition myalloc2 (m n : nat) (r : Z) (h : heap) : res (Z * heap) :=
  if Nat.ltb 0 m && Nat.ltb 0 n then
    if r =? 0 then Fail
    else match populate_dpp r m n (new_block h (size2 m n) r (Num dzero)) with
         | Some (h', _) => Ok (r, h')
         | None => Undef
         end
  else Ok (0, h).

(* myalloc3, 136-156 *)
Definition size3 (m n p : nat) : Z :=
  wrap (Z.of_nat m * Z.of_nat n * Z.of_nat p * 8 + Z.of_nat m * Z.of_nat n * 8
        + Z.of_nat m * 8).
Definition myalloc3 (m n p : nat) (r : Z) (h : heap) : res (Z * heap) :=
  if Nat.ltb 0 m && Nat.ltb 0 n && Nat.ltb 0 p then
    if r =? 0 then Fail
    else match populate_dppp r m n p (new_block h (size3 m n p) r (Num dzero)) with
         | Some (h', _) => Ok (r, h')
         | None => Undef
         end
  else Ok (0, h).

(* free(A): the block that starts at A is given back *)
Definition release (h : heap) (a : Z) : heap :=
  mkHeap (filter (fun b => negb (bbase b =? a)) (blocks h)) (cells h).
(* myfree1 / myfree2 / myfree3, 159-174 *)
Definition myfree (a : Z) (h : heap) : heap := if a =? 0 then h else release h a.

(* for (i = 1; i < n; i++) ++Idum and Idum[0] = 0.0   194-195 *)
Fixpoint zero_up (n : nat) (p : Z) (h : heap) : option (heap * Z) :=
  match n with
  | O => Some (h, p)
  | S n' => match store h (p + 8) (Num dzero) with
            | Some h' => zero_up n' (p + 8) h'
            | None => None
            end
  end.
(* for (i = 1; i < n; i++) { I[i] = --Idum; Idum[0] = 0.0; }   197-200 *)
Fixpoint rows_down (n : nat) (i I p : Z) (h : heap) : option heap :=
  match n with
  | O => Some h
  | S n' =>
      match store h (I + 8 * i) (Ptr (p - 8)) with
      | Some h1 =>
          match store h1 (p - 8) (Num dzero) with
          | Some h2 => rows_down n' (i + 1) I (p - 8) h2
          | None => None
          end
      | None => None
      end
  end.
(* myallocI2, 180-202: rd = calloc(2n-1, 8), ri = malloc(8n); n > 0 (for n = 0
   the first request is for 2^64-1 doubles and is refused) *)
Definition myallocI2 (n : nat) (rd ri : Z) (h : heap) : res (Z * heap) :=
  if (rd =? 0) || (ri =? 0) || Nat.eqb n 0 then Fail
  else
    let k := 8 * (Z.of_nat n - 1) in
    let h1 := new_block (new_block h (8 * (2 * Z.of_nat n - 1)) rd (Num dzero))
                        (8 * Z.of_nat n) ri Junk in
    match store h1 (ri + 8 * 0) (Ptr (rd + k)) with          (* I[0] = Idum *)
    | None => Undef
    | Some h2 =>
        match store h2 (rd + k) (Num done) with              (* Idum[0] = 1.0 *)
        | None => Undef
        | Some h3 =>
            match zero_up (n - 1) (rd + k) h3 with
            | None => Undef
            | Some (h4, p) =>
                match rows_down (n - 1) 1 ri (p - k) h4 with
                | Some h5 => Ok (ri, h5)
                | None => Undef
                end
            end
        end
    end.
(* myfreeI2, 205-208 *)
Definition myfreeI2 (n : nat) (I : Z) (h : heap) : option heap :=
  match row_ptr h I (Z.of_nat n - 1) with
  | Some a => Some (release (release h a) I)
  | None => None
  end.

(* The expressions A[i], A[i][j], A[i][j][k] of the user, as reads and writes. *)
Definition get1 (h : heap) (A i : Z) : option V :=
  match load h (A + 8 * i) with Some (Num v) => Some v | _ => None end.
Definition put1 (h : heap) (A i : Z) (v : V) : option heap := store h (A + 8 * i) (Num v).
Definition get2 (h : heap) (A i j : Z) : option V :=
  match row_ptr h A i with Some r => get1 h r j | None => None end.
Definition put2 (h : heap) (A i j : Z) (v : V) : option heap :=
  match row_ptr h A i with Some r => put1 h r j v | None => None end.
Definition get3 (h : heap) (A i j k : Z) : option V :=
  match row_ptr h A i with Some p => get2 h p j k | None => None end.
Definition put3 (h : heap) (A i j k : Z) (v : V) : option heap :=
  match row_ptr h A i with Some p => put2 h p j k v | None => None end.
End Alloc.
Arguments Fail {A}.
Arguments Undef {A}.
