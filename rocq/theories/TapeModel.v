(** * Model of the tape buffers: operation, location and value streams.

    Models  include/adolc/valuetape/bufferstate.h,
            include/adolc/valuetape/tapeinfos.h,
            src/valuetape/tapeinfos.cpp,
            include/adolc/valuetape/valuetape.h (prepare_for / prepare_rev ...),
            src/valuetape/valuetape.cpp (start_trace, take_stock, save_params,
            stop_trace, close_tape, discard_params_r) and the part of the sweep
            loops (uni5_for.cpp / fo_rev.cpp) that reads the tape.

    Simplifications (all of them):
    - a cell of the op / loc stream is a [nat], of the value stream a [V];
      locations are unbounded (size_t never overflows in a cell);
    - file access never fails for lack of disk space; a failing [fread]
      (too few elements) is modelled and yields [None];
    - every access outside a buffer is [None] (undefined behaviour in C++,
      an assertion in debug builds);
    - the comparison  position > capacity - 10 - reserve  is done in size_t
      arithmetic modulo 2^64, as in the code;
    - the header words that close_tape writes over the first cells of the
      location file are an arbitrary list [hdr]. *)
From Coq Require Import List Arith Lia ZArith Bool.
Import ListNotations.
Set Implicit Arguments.

(** ** Arrays *)
Fixpoint upd {T} (l : list T) (i : nat) (v : T) : list T :=
  match l, i with
  | [], _ => []
  | _ :: l', O => v :: l'
  | x :: l', S i' => x :: upd l' i' v
  end.

Definition slice {T} (l : list T) (a n : nat) : list T := firstn n (skipn a l).

(** overwrite [l] from index [a] with the elements of [s] (memcpy) *)
Definition blit {T} (l : list T) (a : nat) (s : list T) : list T :=
  firstn a l ++ s ++ skipn (a + length s) l.

(** ** BufferState  (bufferstate.h:37-212)
    [bdata] the heap buffer (its length is capacity_), [bpos] currentPos_,
    [bnum] numOnTape_, [bfile] the contents of the file the FILE handle refers
    to ([None]: no handle), [brd] the read offset of the handle. *)
Record buf (T : Type) := mkBuf {
  bdata : list T; bpos : nat; bnum : nat; bfile : option (list T); brd : nat }.
Arguments mkBuf {T}.

Definition bcap {T} (b : buf T) := length (bdata b).

Definition set_pos {T} (b : buf T) (p : nat) : buf T :=
  mkBuf (bdata b) p (bnum b) (bfile b) (brd b).
Definition set_num {T} (b : buf T) (n : nat) : buf T :=
  mkBuf (bdata b) (bpos b) n (bfile b) (brd b).
Definition set_data {T} (b : buf T) (d : list T) : buf T :=
  mkBuf d (bpos b) (bnum b) (bfile b) (brd b).

(** writeCurrent, bufferstate.h:171-174 *)
Definition write_cur {T} (b : buf T) (v : T) : option (buf T) :=
  if bpos b <? bcap b then Some (set_data b (upd (bdata b) (bpos b) v)) else None.

(** writeAndAdvance, bufferstate.h:177-180 *)
Definition write_adv {T} (b : buf T) (v : T) : option (buf T) :=
  if bpos b <? bcap b
  then Some (set_pos (set_data b (upd (bdata b) (bpos b) v)) (S (bpos b))) else None.

(** readAndAdvance, bufferstate.h:199 *)
Definition read_adv {T} (b : buf T) : option (T * buf T) :=
  match nth_error (bdata b) (bpos b) with
  | Some v => Some (v, set_pos b (S (bpos b)))
  | None => None
  end.

(** retreatAndRead, bufferstate.h:202 *)
Definition retreat_read {T} (b : buf T) : option (T * buf T) :=
  match bpos b with
  | O => None
  | S p => match nth_error (bdata b) p with
           | Some v => Some (v, set_pos b p)
           | None => None
           end
  end.

(** the chunk loop of put_block, tapeinfos.h:244-262:
    [chunks] full chunks and a remainder are appended to the file *)
Fixpoint write_chunks {T} (ch : nat) (d : list T) (n i : nat) (f : list T) : list T :=
  match n with
  | O => f
  | S n' => write_chunks ch d n' (S i) (f ++ slice d (i * ch) ch)
  end.

(** put_block, tapeinfos.h:233-266 (file opened lazily: openFile 188-211) *)
Definition put_block {T} (ch : nat) (b : buf T) (len : nat) : option (buf T) :=
  if len <=? bcap b then
    let f0 := match bfile b with Some f => f | None => [] end in
    let f1 := write_chunks ch (bdata b) (len / ch) 0 f0 in
    let f2 := f1 ++ slice (bdata b) ((len / ch) * ch) (len mod ch) in
    Some (mkBuf (bdata b) 0 (bnum b + len) (Some f2) (brd b))
  else None.

(** fread of [n] elements to buffer + [off]  (infotype.h:105-111) *)
Definition fread {T} (b : buf T) (off n : nat) : option (buf T) :=
  match bfile b with
  | None => None
  | Some f =>
      if (brd b + n <=? length f) && (off + n <=? bcap b)
      then Some (mkBuf (blit (bdata b) off (slice f (brd b) n))
                       (bpos b) (bnum b) (bfile b) (brd b + n))
      else None
  end.

Fixpoint read_chunks {T} (ch n i : nat) (b : buf T) : option (buf T) :=
  match n with
  | O => Some b
  | S n' => match fread b (i * ch) ch with
            | Some b' => read_chunks ch n' (S i) b'
            | None => None
            end
  end.

(** the chunked read used in get_*_block_f/r (tapeinfos.cpp:226-238 and others) *)
Definition read_n {T} (ch : nat) (b : buf T) (number : nat) : option (buf T) :=
  match read_chunks ch (number / ch) 0 b with
  | None => None
  | Some b' => if number mod ch =? 0 then Some b'
               else fread b' ((number / ch) * ch) (number mod ch)
  end.

(** readBloc + readRemaining, valuetape.h:612-651.  Note that readRemaining
    passes [lengthBlock], not [remain], to fread (valuetape.h:620). *)
Definition read_bloc {T} (ch : nat) (b : buf T) (number : nat) : option (buf T) :=
  match read_chunks ch (number / ch) 0 b with
  | None => None
  | Some b' => if number mod ch =? 0 then Some b'
               else fread b' ((number / ch) * ch) number
  end.

(** opcodes used by the buffer machinery, oplate.h:23-145 *)
Definition mult_a_a := 15.
Definition end_of_tape := 32.
Definition start_of_tape := 33.
Definition end_of_op := 34.
Definition end_of_int := 35.
Definition end_of_val := 36.
Definition take_stock_op := 39.
Definition eq_plus_prod := 54.
Definition eq_min_prod := 55.

(** dvlparms.h:44, tapeinfos.h:91 *)
Definition statSpace := 42.
Definition maxLocsPerOp := 10.

(** size_t subtraction *)
Definition sub64 (a b : nat) : Z := ((Z.of_nat a - Z.of_nat b) mod 2 ^ 64)%Z.
Definition gt64 (a : nat) (z : Z) : bool := (z <? Z.of_nat a)%Z.

Section Tape.
Variable V : Type.
Variable v0 : V.                        (* 0.0 *)
Variables chO chL chV : nat.            (* Info::chunkSize of the three streams *)

(** TapeInfos, restricted to the three streams (tapeinfos.h:50-54) *)
Record tape := mkTape { opb : buf nat; locb : buf nat; valb : buf V }.

(** statistics of a finished stream: NUM_*, *_FILE_ACCESS (tapeinfos.h:18-38) *)
Record stat := mkStat { s_num : nat; s_acc : bool; s_size : nat }.
Record stats := mkStats { st_op : stat; st_loc : stat; st_val : stat; n_param : nat }.

Definition set_op t b := mkTape b (locb t) (valb t).
Definition set_loc t b := mkTape (opb t) b (valb t).
Definition set_val t b := mkTape (opb t) (locb t) b.

Notation "'do' x <- e1 ; e2" := (match e1 with Some x => e2 | None => None end)
  (at level 60, x pattern, right associativity).

(** put_loc, tapeinfos.h:146;  put_val, valuetape.h *)
Definition put_loc (t : tape) (l : nat) : option tape :=
  do b <- write_adv (locb t) l; Some (set_loc t b).
Definition put_val (t : tape) (v : V) : option tape :=
  do b <- write_adv (valb t) v; Some (set_val t b).
Fixpoint put_locs (t : tape) (ls : list nat) : option tape :=
  match ls with [] => Some t | l :: ls' => do t' <- put_loc t l; put_locs t' ls' end.
(** put_vals_notWriteBlock, tapeinfos.h:272-276 *)
Fixpoint put_vals (t : tape) (vs : list V) : option tape :=
  match vs with [] => Some t | v :: vs' => do t' <- put_val t v; put_vals t' vs' end.

(** "every operation writes 1 opcode", tapeinfos.cpp:307-313, 325-331, 334-339 *)
Definition op_cell (t : tape) (opc : nat) : option tape :=
  do b1 <- (if bpos (opb t) =? bcap (opb t) - 1 then
      do b <- write_cur (opb t) end_of_op;
      do b' <- put_block chO b (bcap b);
      write_adv b' end_of_op
    else Some (opb t));
  do b2 <- write_adv b1 opc;
  Some (set_op t b2).

(** first part of put_op, tapeinfos.cpp:297-314 *)
Definition flush_loc (t : tape) (reserve : nat) : option tape :=
  let b := locb t in
  if gt64 (bpos b) (sub64 (bcap b) (maxLocsPerOp + reserve)) then
    let rem := bcap b - bpos b in
    let d1 := blit (bdata b) (bpos b) (repeat 0 (rem - 1)) in
    if 0 <? bcap b then
      do b' <- put_block chL (set_data b (upd d1 (bcap b - 1) rem)) (bcap b);
      op_cell (set_loc t b') end_of_int
    else None
  else Some t.

(** second part of put_op, tapeinfos.cpp:316-332 *)
Definition flush_val (t : tape) : option tape :=
  let b := valb t in
  if gt64 (bpos b) (sub64 (bcap b) 5) then
    let rem := bcap b - bpos b in
    do t1 <- put_loc t rem;
    do b' <- put_block chV (set_data b (blit (bdata b) (bpos b) (repeat v0 rem))) (bcap b);
    op_cell (set_val t1 b') end_of_val
  else Some t.

(** TapeInfos::put_op, tapeinfos.cpp:288-340 *)
Definition put_op (t : tape) (opc reserve : nat) : option tape :=
  do t1 <- flush_loc t reserve;
  do t2 <- flush_val t1;
  op_cell t2 opc.

(** get_val_space, tapeinfos.cpp:490-510 (here without clearing the tail) *)
Definition get_val_space (t : tape) : option (tape * nat) :=
  let b := valb t in
  do t' <- (if gt64 (bpos b) (sub64 (bcap b) 5) then
    do t1 <- put_loc t (bcap b - bpos b);
    do b' <- put_block chV b (bcap b);
    op_cell (set_val t1 b') end_of_val
  else Some t);
  Some (t', bcap (valb t') - bpos (valb t')).

(** put_vals_writeBlock, tapeinfos.cpp:406-424 *)
Definition put_vals_writeBlock (t : tape) (vs : list V) : option tape :=
  do t1 <- put_vals t vs;
  do t2 <- put_loc t1 (bcap (valb t1) - bpos (valb t1));
  do b' <- put_block chV (valb t2) (bcap (valb t2));
  op_cell (set_val t2 b') end_of_val.

(** take_stock, valuetape.cpp:118-150; [vals] the remaining values,
    [loc] the location of the first of them; the caller checks numLives > 0.
    [fuel] bounds the while loop (every round stores at least one value). *)
Fixpoint take_stock_loop (fuel : nat) (t : tape) (space loc : nat) (vals : list V)
  : option tape :=
  match fuel with
  | O => None
  | S fuel' =>
      if space <? length vals then
        do t1 <- put_op t take_stock_op 0;
        do t2 <- put_loc t1 space;
        do t3 <- put_loc t2 loc;
        do t4 <- put_vals_writeBlock t3 (firstn space vals);
        do (t5, space') <- get_val_space t4;
        take_stock_loop fuel' t5 space' (loc + space) (skipn space vals)
      else if 0 <? length vals then
        do t1 <- put_op t take_stock_op 0;
        do t2 <- put_loc t1 (length vals);
        do t3 <- put_loc t2 loc;
        put_vals t3 vals
      else Some t
  end.

Definition take_stock (t : tape) (numLives : nat) (store : list V) : option tape :=
  do (t1, space) <- get_val_space t;
  if 0 <? numLives then take_stock_loop (S (length store)) t1 space 0 store else Some t1.

(** start_trace, valuetape.cpp:293-321 with freshly allocated buffers
    (initTapeBuffers 280-284); [dO dL dV] are the uninitialised contents *)
Definition start_trace (dO dL : list nat) (dV : list V) : option tape :=
  do t <- put_op (mkTape (mkBuf dO 0 0 None 0) (mkBuf dL 0 0 None 0) (mkBuf dV 0 0 None 0))
            start_of_tape 0;
  put_locs t (repeat 0 statSpace).

(** upd_resloc, tapeinfos.h:306-317 *)
Definition upd_resloc (t : tape) (temp lhs : nat) : bool * tape :=
  let b := locb t in
  match bpos b with
  | O => (false, t)
  | S p => match nth_error (bdata b) p with
           | Some l => if l =? temp then (true, set_loc t (set_data b (upd (bdata b) p lhs)))
                       else (false, t)
           | None => (false, t)
           end
  end.

(** upd_resloc_inc_prod, tapeinfos.h:340-355 *)
Definition upd_resloc_inc_prod (t : tape) (temp newlhs newop : nat) : bool * tape :=
  let b := locb t in
  let o := opb t in
  if bpos b <? 3 then (false, t) else
  if bpos o <? 1 then (false, t) else
  match nth_error (bdata b) (bpos b - 1), nth_error (bdata b) (bpos b - 2),
        nth_error (bdata b) (bpos b - 3), nth_error (bdata o) (bpos o - 1) with
  | Some l1, Some l2, Some l3, Some oc =>
      if (temp =? l1) && (mult_a_a =? oc) && negb (newlhs =? l2) && negb (newlhs =? l3)
      then (true, mkTape (set_data o (upd (bdata o) (bpos o - 1) newop))
                         (set_data b (upd (bdata b) (bpos b - 1) newlhs)) (valb t))
      else (false, t)
  | _, _, _, _ => (false, t)
  end.

(** save_params, valuetape.cpp:323-360; the else branch writes whole blocks *)
Fixpoint save_params_loop (fuel : nat) (t : tape) (ps : list V) : option tape :=
  match fuel with
  | O => None
  | S fuel' =>
      if 0 <? length ps then
        let avail := bcap (valb t) - bpos (valb t) in
        let chunk := if avail <? length ps then avail else length ps in
        do t1 <- put_vals t (firstn chunk ps);
        let ps' := skipn chunk ps in
        do t2 <- (if 0 <? length ps' then
                    do b <- put_block chV (valb t1) (bcap (valb t1)); Some (set_val t1 b)
                  else Some t1);
        save_params_loop fuel' t2 ps'
      else Some t
  end.

Definition save_params (t : tape) (ps : list V) : option tape :=
  if (Z.of_nat (bpos (valb t)) <? sub64 (bcap (valb t)) (length ps))%Z
  then put_vals t ps
  else save_params_loop (S (length ps)) t ps.

(** close_tape, valuetape.cpp:391-441, for one stream: returns the stream
    (buffer deleted when a file is used) and its statistics.  With flag <> 0
    and an empty buffer no file is ever created, but *_FILE_ACCESS is 1. *)
Definition close_stream {T} (ch : nat) (flag : bool) (b : buf T) : option (buf T * stat) :=
  if flag || (match bfile b with Some _ => true | None => false end) then
    do b' <- (if 0 <? bpos b then put_block ch b (bpos b) else Some b);
    Some (mkBuf (bdata b') 0 (bnum b') (bfile b') 0, mkStat (bnum b') true (bcap b'))
  else Some (set_num b (bpos b), mkStat (bpos b) false (bcap b)).

(** fseek 0 and fwrite of ADOLC_ID and stats (valuetape.cpp:429-433) *)
Definition write_header (hdr : list nat) (b : buf nat) (s : stat) : buf nat :=
  if s_acc s then
    mkBuf (bdata b) (bpos b) (bnum b)
          (match bfile b with Some f => Some (blit f 0 hdr) | None => None end) (brd b)
  else b.

(** stop_trace + close_tape, valuetape.cpp:365-441 *)
Definition stop_trace (t : tape) (ps : list V) (flag : bool) (hdr : list nat)
  : option (tape * stats) :=
  do t1 <- put_op t end_of_tape 0;
  do t2 <- save_params t1 ps;
  do (o, so) <- close_stream chO flag (opb t2);
  do (v, sv) <- close_stream chV flag (valb t2);
  do (l, sl) <- close_stream chL flag (locb t2);
  Some (mkTape o (write_header hdr l sl) v, mkStats so sl sv (length ps)).

(** ** Recording: what the overloaded operators do with the tape *)
Inductive act :=
| AOp (opc reserve : nat) (locs : list nat) (vals : list V)
| AUpd (temp lhs : nat)
| AUpdInc (temp lhs newop : nat).

Definition do_act (t : tape) (a : act) : option tape :=
  match a with
  | AOp opc r locs vals =>
      do t1 <- put_op t opc r; do t2 <- put_locs t1 locs; put_vals t2 vals
  | AUpd temp lhs => Some (snd (upd_resloc t temp lhs))
  | AUpdInc temp lhs newop => Some (snd (upd_resloc_inc_prod t temp lhs newop))
  end.
Fixpoint do_acts (t : tape) (l : list act) : option tape :=
  match l with [] => Some t | a :: l' => do t' <- do_act t a; do_acts t' l' end.

Definition record (dO dL : list nat) (dV : list V) (numLives : nat) (store : list V)
    (acts : list act) (ps : list V) (flag : bool) (hdr : list nat) : option (tape * stats) :=
  do t <- start_trace dO dL dV;
  do t1 <- take_stock t numLives store;
  do t2 <- do_acts t1 acts;
  stop_trace t2 ps flag hdr.

(** ** Sweeps *)

(** openFile (a missing file gives a null handle: no file of that name is left
    over from an earlier run) and fseek (on a null handle: a crash);
    the buffer of a file-backed stream is (re)allocated with arbitrary contents
    in initTapeBuffers, here: any contents it has *)
Definition fopen {T} (b : buf T) : buf T := mkBuf (bdata b) (bpos b) (bnum b) (bfile b) 0.
Definition fseek {T} (b : buf T) (p : nat) : buf T :=
  mkBuf (bdata b) (bpos b) (bnum b) (bfile b) p.

(** get_loc_block_f, tapeinfos.cpp:219-242 *)
Definition get_loc_block_f (size : nat) (t : tape) : option tape :=
  let number := Nat.min size (bnum (locb t)) in
  do b <- read_n chL (locb t) number;
  Some (set_loc t (set_pos (set_num b (bnum b - number)) 0)).

(** get_loc_block_r, tapeinfos.cpp:247-275 *)
Definition get_loc_block_r (size : nat) (t : tape) : option tape :=
  if bnum (locb t) <? size then None else
  do b <- read_n chL (fseek (locb t) (bnum (locb t) - size)) size;
  do last <- nth_error (bdata b) (bcap b - 1);
  if bcap b <? last then None else
  Some (set_loc t (set_pos (set_num b (bnum b - size)) (bcap b - last))).

(** get_op_block_f, tapeinfos.cpp:345-366; numOnTape is reduced by [remain],
    not by [number] (line 364) *)
Definition get_op_block_f (size : nat) (t : tape) : option tape :=
  let number := Nat.min size (bnum (opb t)) in
  do b <- read_n chO (opb t) number;
  Some (set_op t (set_pos (set_num b (bnum b - number mod chO)) 0)).

(** get_op_block_r, tapeinfos.cpp:371-396 *)
Definition get_op_block_r (size : nat) (t : tape) : option tape :=
  if bnum (opb t) <? size then None else
  do b <- read_n chO (fseek (opb t) (bnum (opb t) - size)) size;
  Some (set_op t (set_pos (set_num b (bnum b - size)) size)).

(** get_val_block_f, tapeinfos.cpp:429-453 *)
Definition get_val_block_f (size : nat) (t : tape) : option tape :=
  let number := Nat.min size (bnum (valb t)) in
  do b <- read_n chV (valb t) number;
  if bpos (locb t) <? bcap (locb t) then
    Some (mkTape (opb t) (set_pos (locb t) (S (bpos (locb t))))
                 (set_pos (set_num b (bnum b - number)) 0))
  else None.

(** get_val_block_r, tapeinfos.cpp:458-484 *)
Definition get_val_block_r (size : nat) (t : tape) : option tape :=
  if bnum (valb t) <? size then None else
  do b <- read_n chV (fseek (valb t) (bnum (valb t) - size)) size;
  do (temp, lb) <- retreat_read (locb t);
  if bcap b <? temp then None else
  Some (mkTape (opb t) lb (set_pos (set_num b (bnum b - size)) (bcap b - temp))).

(** prepare_for, valuetape.h:676-701 *)
Definition prepare_for_gen {T} (ch : nat) (s : stat) (b : buf T) : option (buf T) :=
  do (b', len) <- (if s_acc s then
      let len := Nat.min (s_size s) (s_num s) in
      do b1 <- (if len =? 0 then Some (fopen b) else read_bloc ch (fopen b) len);
      Some (b1, s_num s - len)
    else Some (b, 0));
  Some (set_num b' len).

Fixpoint skip_stat (fuel size n : nat) (t : tape) : option tape :=
  match fuel with
  | O => None
  | S fuel' => if size <=? n then
                 do t' <- get_loc_block_f size t; skip_stat fuel' size (n - size) t'
               else Some (set_loc t (set_pos (locb t) n))
  end.

Definition prepare_for (st : stats) (t : tape) : option tape :=
  do o <- prepare_for_gen chO (st_op st) (opb t);
  do l <- prepare_for_gen chL (st_loc st) (locb t);
  do v <- prepare_for_gen chV (st_val st) (valb t);
  skip_stat (S statSpace) (s_size (st_loc st)) statSpace
    (mkTape (set_pos o 0) l (set_pos v 0)).

(** prepare_rev + setFilePosition, valuetape.h:715-752 *)
Definition prepare_rev_gen {T} (ch : nat) (s : stat) (b : buf T) : option (buf T) :=
  if s_acc s then
    let len := s_num s mod s_size s in
    do _ <- bfile b;
    do b1 <- (let b0 := fseek (fopen b) ((s_num s / s_size s) * s_size s) in
              if len =? 0 then Some b0 else read_bloc ch b0 len);
    Some (set_pos (set_num b1 (s_num s - len)) len)
  else Some (set_pos (set_num b 0) (s_num s)).

Definition prepare_rev (st : stats) (t : tape) : option tape :=
  do o <- prepare_rev_gen chO (st_op st) (opb t);
  do l <- prepare_rev_gen chL (st_loc st) (locb t);
  do v <- prepare_rev_gen chV (st_val st) (valb t);
  Some (mkTape o l v).

(** What a sweep reads for one operation: a decision tree of get_locint and
    get_val calls (get_val_v_f/r(size) is [size] such calls); it may depend on
    the locations read so far (e.g. take_stock_op, ext_diff_iArr). *)
Inductive dec :=
| DDone
| DLoc (k : nat -> dec)
| DVal (k : dec).

Fixpoint dvals (n : nat) (k : dec) : dec :=
  match n with O => k | S n' => DVal (dvals n' k) end.

Fixpoint run_f (d : dec) (t : tape) : option (list nat * list V * tape) :=
  match d with
  | DDone => Some ([], [], t)
  | DLoc k => do (l, b) <- read_adv (locb t);
              do (ls, vs, t') <- run_f (k l) (set_loc t b);
              Some (l :: ls, vs, t')
  | DVal k => do (v, b) <- read_adv (valb t);
              do (ls, vs, t') <- run_f k (set_val t b);
              Some (ls, v :: vs, t')
  end.

Fixpoint run_r (d : dec) (t : tape) : option (list nat * list V * tape) :=
  match d with
  | DDone => Some ([], [], t)
  | DLoc k => do (l, b) <- retreat_read (locb t);
              do (ls, vs, t') <- run_r (k l) (set_loc t b);
              Some (ls ++ [l], vs, t')
  | DVal k => do (v, b) <- retreat_read (valb t);
              do (ls, vs, t') <- run_r k (set_val t b);
              Some (ls, vs ++ [v], t')
  end.

(** the loop of a forward sweep, uni5_for.cpp:1275-1306 *)
Fixpoint loop_f (fuel : nat) (D : nat -> dec) (st : stats) (t : tape)
  : option (list (nat * list nat * list V) * tape) :=
  match fuel with
  | O => None
  | S fuel' =>
      do (opc, b) <- read_adv (opb t);
      let t1 := set_op t b in
      if opc =? end_of_tape then Some ([], t1)
      else if opc =? end_of_op then
        do t2 <- get_op_block_f (s_size (st_op st)) t1;
        do (_, b2) <- read_adv (opb t2);
        loop_f fuel' D st (set_op t2 b2)
      else if opc =? end_of_int then
        do t2 <- get_loc_block_f (s_size (st_loc st)) t1; loop_f fuel' D st t2
      else if opc =? end_of_val then
        do t2 <- get_val_block_f (s_size (st_val st)) t1; loop_f fuel' D st t2
      else if opc =? start_of_tape then loop_f fuel' D st t1
      else
        do (ls, vs, t2) <- run_f (D opc) t1;
        do (r, t3) <- loop_f fuel' D st t2;
        Some ((opc, ls, vs) :: r, t3)
  end.

Definition sweep_f (fuel : nat) (D : nat -> dec) (st : stats) (t : tape) :=
  do t1 <- prepare_for st t; loop_f fuel D st t1.

(** discard_params_r, valuetape.cpp:598-634.  The block that is re-read has the
    size of the *enumeration constant* VAL_BUFFER_SIZE (= 12), not of the
    statistics entry. *)
Definition VAL_BUFFER_SIZE_enum := 12.
Fixpoint discard_params (fuel ip : nat) (b : buf V) : option (buf V) :=
  match fuel with
  | O => None
  | S fuel' =>
      if ip =? 0 then Some b else
      let rsize := Nat.min (bpos b) ip in
      let b1 := set_pos b (bpos b - rsize) in
      let ip' := ip - rsize in
      if ip' =? 0 then Some b1 else
      if bnum b1 <? VAL_BUFFER_SIZE_enum then None else
      do b2 <- read_n chV (fseek b1 (bnum b1 - VAL_BUFFER_SIZE_enum)) VAL_BUFFER_SIZE_enum;
      discard_params fuel' ip'
        (set_pos (set_num b2 (bnum b2 - VAL_BUFFER_SIZE_enum)) (bcap b2))
  end.

(** the loop of a reverse sweep, fo_rev.cpp:545-581 *)
Fixpoint loop_r (fuel : nat) (D : nat -> dec) (st : stats) (t : tape)
  : option (list (nat * list nat * list V) * tape) :=
  match fuel with
  | O => None
  | S fuel' =>
      do (opc, b) <- retreat_read (opb t);
      let t1 := set_op t b in
      if opc =? start_of_tape then Some ([], t1)
      else if opc =? end_of_op then
        do t2 <- get_op_block_r (s_size (st_op st)) t1;
        do (_, b2) <- retreat_read (opb t2);
        loop_r fuel' D st (set_op t2 b2)
      else if opc =? end_of_int then
        do t2 <- get_loc_block_r (s_size (st_loc st)) t1; loop_r fuel' D st t2
      else if opc =? end_of_val then
        do t2 <- get_val_block_r (s_size (st_val st)) t1; loop_r fuel' D st t2
      else if opc =? end_of_tape then
        do vb <- discard_params (S (n_param st)) (n_param st) (valb t1);
        loop_r fuel' D st (set_val t1 vb)
      else
        do (ls, vs, t2) <- run_r (D opc) t1;
        do (r, t3) <- loop_r fuel' D st t2;
        Some ((opc, ls, vs) :: r, t3)
  end.

Definition sweep_r (fuel : nat) (D : nat -> dec) (st : stats) (t : tape) :=
  do t1 <- prepare_rev st t; loop_r fuel D st t1.

End Tape.
