(** Model of the storage scheme for derivative tensors,
    ADOL-C/src/drivers/taylor.cpp.

    Simplifications (all of them):
    - indices, degrees and dimensions are natural numbers (the C code uses int and
      size_t; arguments are nonnegative in every documented call);
    - [binomi] accumulates in long double: the model uses exact integer arithmetic
      (every intermediate quotient is an integer, see [TnProofs.binomi_loop]; long
      double represents it exactly as long as the products stay below 2^64);
    - integer arrays are total functions from positions;
    - the blocks malloc returns are numbered; malloc does not fail. *)
From Coq Require Import List Arith Bool Lia.
Import ListNotations.

Definition put (f : nat -> nat) (i v : nat) : nat -> nat :=
  fun j => if j =? i then v else f j.

(** binomi, taylor.cpp:117-129 *)
Definition binomi (n k : nat) : nat :=
  if n <? k then 0 else
  let k' := if n / 2 <? k then n - k else k in
  fold_left (fun accum i => accum * (n - k' + i) / i) (seq 1 k') 1.

(** the inner maximum, taylor.cpp:286-291 and 298-300 *)
Definition largest (d : nat) (my : nat -> nat) : nat :=
  fold_left (fun mx j => if mx <? my j then my j else mx) (seq 0 d) 0.

(** one turn of the loop taylor.cpp:293-303; the C variable ind is [room] - 1 *)
Definition pick (d : nat) (s : (nat -> nat) * nat * nat * (nat -> nat)) (i : nat) :=
  let '(my, mx, room, im) := s in
  if my i =? mx then
    let my' := put my i 0 in
    (my', largest d my', room - 1, put im (room - 1) (my i))
  else (my, mx, room, im).

Definition sorted_multi (d : nat) (multi : nat -> nat) : nat -> nat :=
  snd (fold_left (pick d) (seq 0 d) (multi, largest d multi, d, fun _ => 0)).

(** tensor_address, taylor.cpp:277-311 *)
Definition tensor_address (d : nat) (multi : nat -> nat) : nat :=
  let im := sorted_multi d multi in
  fold_left (fun add i => add + binomi (im i + i) (i + 1)) (seq 0 d) 0.

(** tensor_value, taylor.cpp:846-873: the position of [tensor] that it reads, and
    what it leaves in the caller's array [multi].  The loop 851-867 is the loop of
    tensor_address, but run on the caller's array itself. *)
Definition tensor_value (d : nat) (multi : nat -> nat) : nat * (nat -> nat) :=
  let '(my, _, _, im) :=
    fold_left (pick d) (seq 0 d) (multi, largest d multi, d, fun _ => 0) in
  (tensor_address d im, my).

(** the pointer structure built by tensorpoint: either a position of the caller's
    array of doubles, or a malloc'ed array (its number) of pointers *)
Inductive ptr := Cells (off : nat) | Ptrs (block : nat) (entries : list ptr).

(** tensorpoint, taylor.cpp:60-74; [glob] is tensoriglob (as a position in
    tensorig[i]), [next] the number of the next block.  d = 0 does not terminate in C
    and is not a legal argument. *)
Fixpoint tensorpoint (d : nat) (n glob next : nat) {struct d} : ptr * nat * nat :=
  match d with
  | 0 => (Cells glob, glob, next)
  | 1 => (Cells glob, glob + (n + 1), next)
  | S d' =>
      let '(es, g, nx) :=
        fold_left
          (fun s i => let '(es, g, nx) := s in
                      let '(t, g', nx') := tensorpoint d' i g nx in
                      (es ++ [t], g', nx'))
          (seq 0 (n + 1)) ([], glob, S next) in
      (Ptrs next es, g, nx)
  end.

(** the expression t[j1][j2]...[jd]: position of the double that is accessed *)
Fixpoint deref (t : ptr) (j : list nat) : option nat :=
  match t, j with
  | Cells off, [i] => Some (off + i)
  | Ptrs _ es, i :: j' =>
      match nth_error es i with Some t' => deref t' j' | None => None end
  | _, _ => None
  end.

(** free((char ) t): the block that is released; [None]: memory that malloc did not
    give to tensorpoint (the caller's array of doubles) *)
Definition release (t : ptr) : option nat :=
  match t with Cells _ => None | Ptrs b _ => Some b end.
(** freetensorpoint, taylor.cpp:91-101 and one turn of the loop in freetensor,
    104-113: the blocks released, in order *)
Fixpoint freetensorpoint (d : nat) (t : ptr) {struct d} : list (option nat) :=
  match d with
  | S ((S (S _)) as d') =>
      match t with
      | Ptrs _ es => flat_map (fun t' => freetensorpoint d' t' ++ [release t']) es
      | Cells _ => []
      end
  | _ => []
  end.
Definition freetensor (d : nat) (t : ptr) : list (option nat) :=
  freetensorpoint d t ++ [release t].

(** the address computed in coeff, taylor.cpp:220-236, for the exponents im[0..p-1]
    of total degree order_im *)
Definition coeff_address (p d order_im : nat) (im : nat -> nat) : nat :=
  fst (fold_left
    (fun s u => let '(address, j) := s in
       if im u =? 0 then (address, j)
       else
         let i := u + j in
         let n := im u in
         (address + ((j + n) * binomi (i + n) (j + n) - binomi i j * j) / (1 + i - j),
          j + n))
    (seq 0 p) (0, d - order_im + 1)).

(** convert, taylor.cpp:266-274 *)
Definition convert (d : nat) (im : nat -> nat) : nat -> nat :=
  fold_left (fun multi i => if im i =? 0 then multi
                            else put multi (im i - 1) (multi (im i - 1) + 1))
            (seq 0 d) (fun _ => 0).

(** the next multi-index in tensor_eval, taylor.cpp:812-817 (and 695-700), d >= 2 *)
Definition next_it (p d : nat) (it : nat -> nat) : nat -> nat :=
  let it1 := put it (d - 1) (it (d - 1) + 1) in
  let it2 := fold_left (fun a j => put a j (a j + a (j + 1) / (p + 1)))
                       (rev (seq 0 (d - 1))) it1 in
  fold_left (fun a j => if p <? a j then put a j (a (j - 1)) else a)
            (seq 1 (d - 1)) it2.

(** the next exponent vector in coeff, taylor.cpp:252-257 (and 243-248), for p >= 2
    and a vector whose last entry is not the whole degree *)
Definition next_jm (p : nat) (jm : nat -> nat) : nat -> nat :=
  let i := (fix down i := match i with
                          | 0 => 0
                          | S i' => if jm i =? 0 then down i' else i
                          end) (p - 2) in
  let jm1 := put jm i (jm i - 1) in
  let jm2 := put jm1 (i + 1) (jm1 (p - 1) + 1) in
  if i =? p - 2 then jm2 else put jm2 (p - 1) 0.
