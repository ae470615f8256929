(** * Model of the value stack ("Taylor stack") of a tape.

    Models  src/valuetape/tapeinfos.cpp:84-220 (write_taylor, write_taylors,
            write_scaylors, get_taylors, get_taylors_p, get_tay_block_r),
            include/adolc/valuetape/tapeinfos.h:87-104 (get_taylor, write_scaylor)
            and put_block 213-247,
            src/valuetape/valuetape.cpp:178-277 (taylor_begin, finish_tay_file,
            taylor_close, taylor_back),
            include/adolc/valuetape/valuetape.h:543-545 (delete_scaylor).

    Simplifications (all of them):
    - a stored number is an element of an arbitrary type [V];
    - the capacity of the buffer equals the recorded statistic TAY_BUFFER_SIZE
      (allocIfNull is called with exactly that value);
    - the chunks of ADOLC_IO_CHUNK_SIZE bytes that a block is written / read in
      are not visible: a block is written / read in one piece;
    - disk space does not run out; an fread that finds too few elements and an
      fseek/fread on a null handle are [None];
    - accesses outside the buffer are [None]; comparisons in size_t arithmetic
      are done modulo 2^64. *)
From Coq Require Import List Arith Lia ZArith Bool.
Import ListNotations.
Set Implicit Arguments.

Section Model.
Variable V : Type.
Variable cap : nat.   (* TAY_BUFFER_SIZE = capacity of tayBuffer_ *)

(** BufferState<double> tayBuffer_ (bufferstate.h:37-43): heap buffer, position,
    numOnTape, contents of the open file ([None]: null handle); nextBufferNumber
    (tapeinfos.h:65; size_t, the wrapped value of 0-1 is represented by -1) and
    lastTayBlockInCore (tapeinfos.h:68). *)
Record tay := mkTay {
  tbuf : nat -> V; tpos : nat; tnum : nat; tfile : option (list V);
  tnext : Z; tcore : bool }.

Definition set (b : nat -> V) (i : nat) (v : V) : nat -> V :=
  fun j => if j =? i then v else b j.
Definition prefix (n : nat) (b : nat -> V) : list V := map b (seq 0 n).

(** position(n), bufferstate.h:156-159 *)
Definition at_pos (s : tay) (p : nat) : tay :=
  mkTay (tbuf s) p (tnum s) (tfile s) (tnext s) (tcore s).
Definition with_buf (s : tay) (b : nat -> V) : tay :=
  mkTay b (tpos s) (tnum s) (tfile s) (tnext s) (tcore s).

(** operator[] as an assignment target, bufferstate.h:180-183 *)
Definition store (s : tay) (i : nat) (v : V) : option tay :=
  if i <? cap then Some (with_buf s (set (tbuf s) i v)) else None.

(** writeAndAdvance, bufferstate.h:186-198 *)
Definition push1 (s : tay) (v : V) : option tay :=
  match store s (tpos s) v with
  | Some s' => Some (at_pos s' (S (tpos s)))
  | None => None
  end.

(** put_block<TayInfo>, tapeinfos.h:213-247: openFile "w+b" if there is no
    handle, append the first [n] elements, count them, position 0 *)
Definition put_block (s : tay) (n : nat) : tay :=
  mkTay (tbuf s) 0 (tnum s + n)
    (Some (match tfile s with Some f => f | None => [] end ++ prefix n (tbuf s)))
    (tnext s) (tcore s).

(** write_scaylor, tapeinfos.h:99-104 *)
Definition write_scaylor (s : tay) (v : V) : option tay :=
  push1 (if tpos s =? cap then put_block s cap else s) v.

(** copying [n] elements from [p+o], p+o+1 ... into the buffer from [i] on:
    the loops tapeinfos.cpp:87-90, 96-99, 126-128, 136-138 *)
Fixpoint copy_in (s : tay) (i : nat) (p : nat -> V) (o n : nat) : option tay :=
  match n with
  | O => Some s
  | S n' => match store s i (p o) with
            | Some s' => copy_in s' (S i) p (S o) n'
            | None => None
            end
  end.

(** the test  position() > capacity() - keep  in size_t arithmetic,
    tapeinfos.cpp:86 and 123 *)
Definition over (s : tay) (keep : nat) : bool :=
  (Z.of_nat (tpos s) >? (Z.of_nat cap - Z.of_nat keep) mod 2 ^ 64)%Z.

(** the while loop and the tail of write_taylor (tapeinfos.cpp:84-101) and of
    write_scaylors (120-140); both functions have the same body up to the way
    the loops are written.  [fuel]: number of rounds of the while loop. *)
Fixpoint write_block (fuel : nat) (s : tay) (p : nat -> V) (o keep : nat) : option tay :=
  if over s keep then
    match fuel with
    | O => None
    | S fuel' =>
        let r := cap - tpos s in
        match copy_in s (tpos s) p o r with
        | Some s' => write_block fuel' (put_block s' cap) p (o + r) (keep - r)
        | None => None
        end
    end
  else
    match copy_in s (tpos s) p o keep with
    | Some s' => if tpos s + keep <=? cap then Some (at_pos s' (tpos s + keep)) else None
    | None => None
    end.
Definition write_taylor (s : tay) (p : nat -> V) (keep : nat) : option tay :=
  write_block (S keep) s p 0 keep.
Definition write_scaylors (s : tay) (p : nat -> V) (size : nat) : option tay :=
  write_block (S size) s p 0 size.

(** inner loop of write_taylors, tapeinfos.cpp:107-114 *)
Fixpoint write_dir (s : tay) (p : nat -> V) (o n : nat) : option tay :=
  match n with
  | O => Some s
  | S n' => match write_scaylor s (p o) with
            | Some s' => write_dir s' p (S o) n'
            | None => None
            end
  end.
(** write_taylors, tapeinfos.cpp:103-118 *)
Fixpoint write_dirs (s : tay) (p : nat -> V) (o keep degree numDir : nat) : option tay :=
  match numDir with
  | O => Some s
  | S j => match write_dir s p o keep with
           | Some s' =>
               write_dirs s' p (o + keep + (if keep <? degree then degree - keep else 0)) keep degree j
           | None => None
           end
  end.
Definition write_taylors (s : tay) (p : nat -> V) (keep degree numDir : nat) : option tay :=
  write_dirs s p 0 keep degree numDir.

(** retreatAndRead, bufferstate.h:211 (position 0 would wrap: undefined) *)
Definition pop1 (s : tay) : option (V * tay) :=
  match tpos s with
  | O => None
  | S p => if p <? cap then Some (tbuf s p, at_pos s p) else None
  end.
(** delete_scaylor, valuetape.h:543-545: the popped value goes to the store *)
Definition delete_scaylor (s : tay) : option (V * tay) := pop1 s.

(** get_tay_block_r, tapeinfos.cpp:191-220 *)
Definition get_tay_block_r (s : tay) : option tay :=
  match tfile s with
  | None => None
  | Some f =>
      if (tnext s <? 0)%Z then None
      else let a := Z.to_nat (tnext s) * cap in
           if a + cap <=? length f then
             Some (mkTay (fun i => nth i (skipn a f) (tbuf s i)) cap (tnum s) (tfile s)
                     (tnext s - 1) false)
           else None
  end.

(** get_taylor, tapeinfos.h:91-95 *)
Definition get_taylor (s : tay) : option (V * tay) :=
  if tpos s =? 0 then
    match get_tay_block_r s with Some s' => pop1 s' | None => None end
  else pop1 s.

(** get_taylors, tapeinfos.cpp:142-157.  [T] is the caller's array, [t] the index
    the pointer T stands at; [drain] is the span loop 146-148, with the
    post-decrement  *(T--) = *tay  of the code. *)
Fixpoint drain (b : nat -> V) (n : nat) (T : nat -> V) (t : nat) : (nat -> V) * nat :=
  match n with
  | O => (T, t)
  | S n' => drain b n' (set T t (b n')) (t - 1)
  end.
Fixpoint pop_into (s : tay) (T : nat -> V) (t n : nat) : option ((nat -> V) * tay) :=
  match n with
  | O => Some (T, s)
  | S n' => match pop1 s with
            | Some (v, s') => pop_into s' (set T (t - 1) v) (t - 1) n'
            | None => None
            end
  end.
Fixpoint get_loop (fuel : nat) (s : tay) (T : nat -> V) (t degree : nat) : option ((nat -> V) * tay) :=
  if tpos s <? degree then
    match fuel with
    | O => None
    | S fuel' =>
        let '(T', t') := drain (tbuf s) (tpos s) T t in
        match get_tay_block_r s with
        | Some s' => get_loop fuel' s' T' t' (degree - tpos s)
        | None => None
        end
    end
  else pop_into s T t degree.
Definition get_taylors (s : tay) (T : nat -> V) (degree : nat) : option ((nat -> V) * tay) :=
  get_loop (S (S degree)) s T degree degree.

(** get_taylors_p, tapeinfos.cpp:159-184 *)
Fixpoint get_dir (s : tay) (T : nat -> V) (t n : nat) : option ((nat -> V) * tay * nat) :=
  match n with
  | O => Some (T, s, t)
  | S n' => match get_taylor s with
            | Some (v, s') => get_dir s' (set T (t - 1) v) (t - 1) n'
            | None => None
            end
  end.
Fixpoint get_dirs (s : tay) (T : nat -> V) (t degree numDir : nat) : option ((nat -> V) * tay * nat) :=
  match numDir with
  | O => Some (T, s, t)
  | S j => match get_dir s T t (degree - 1) with
           | Some (T', s', t') => get_dirs s' T' (t' - 1) degree j
           | None => None
           end
  end.
Fixpoint spread (T : nat -> V) (t degree numDir : nat) (v : V) : nat -> V :=
  match numDir with
  | O => T
  | S j => spread (set T t v) (t + degree) degree j v
  end.
Definition get_taylors_p (s : tay) (T : nat -> V) (degree numDir : nat) : option ((nat -> V) * tay) :=
  match get_dirs s T (degree * numDir) degree numDir with
  | Some (T', s', t') =>
      match get_taylor s' with
      | Some (v, s'') => Some (spread T' t' degree numDir v, s'')
      | None => None
      end
  | None => None
  end.

(** taylor_begin + finish_tay_file, valuetape.cpp:178-215: an old file is closed
    and removed, position and counter are reset; the buffer keeps its (arbitrary)
    old contents *)
Definition taylor_begin (s : tay) : tay := mkTay (tbuf s) 0 0 None (tnext s) (tcore s).

(** taylor_close, valuetape.cpp:217-229 (keepTaylors set) *)
Definition taylor_close (s : tay) : tay :=
  let s' := match tfile s with
            | Some _ => put_block s (tpos s)
            | None => mkTay (tbuf s) (tpos s) (tpos s) None (tnext s) (tcore s)
            end in
  mkTay (tbuf s') (tpos s') (tnum s') (tfile s') (tnext s') true.

(** increment_numTays_Tape / add_numTays_Tape / decrement_numTays_Tape,
    valuetape.h:234-246: while a trace is recorded every operation also counts the
    values it puts on the stack, in the same counter that put_block advances *)
Definition count_up (s : tay) (n : nat) : tay :=
  mkTay (tbuf s) (tpos s) (tnum s + n) (tfile s) (tnext s) (tcore s).
Definition count_down (s : tay) : tay :=
  mkTay (tbuf s) (tpos s) (tnum s - 1) (tfile s) (tnext s) (tcore s).

(** the end of a recording with keep: taylor_close and the correction of the double
    count, stop_trace, valuetape.cpp:371-383 *)
Definition stop_tays (s : tay) : tay :=
  let s' := taylor_close s in
  match tfile s' with
  | Some _ => mkTay (tbuf s') (tpos s') (tnum s' / 2) (tfile s') (tnext s') (tcore s')
  | None => s'
  end.

(** taylor_back, valuetape.cpp:234-277 *)
Definition taylor_back (s : tay) : option tay :=
  let q := tnum s / cap in
  let r := tnum s mod cap in
  if tcore s then Some (mkTay (tbuf s) r (tnum s) (tfile s) (Z.of_nat q - 1) true)
  else match tfile s with
       | None => None
       | Some f =>
           if q * cap + r <=? length f then
             Some (mkTay (fun i => if i <? r then nth i (skipn (q * cap) f) (tbuf s i) else tbuf s i)
                     r (tnum s) (tfile s) (Z.of_nat q - 1) false)
           else None
       end.
End Model.
