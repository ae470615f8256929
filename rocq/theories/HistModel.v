(** * One tape over its whole life: several traces, sweeps and set_param_vec.

    Extends TapeModel (one trace and its sweeps) by what survives from one trace of a
    tape to the next:
    - the statistics: initTapeInfos_keep (valuetape.cpp:19-54) copies the old stats into
      the new TapeInfos; trace_on and close_tape (valuetape.cpp:391-441) overwrite the
      counts and the buffer sizes, but *_FILE_ACCESS is only ever set to 1, never to 0
      (valuetape.cpp:399, 413, 428);
    - the files on disk: put_block removes and recreates a file (tapeinfos.h:188-211)
      only when the new trace writes to it;
    - the parameter store (persistanttapeinfos.h:77).
    Not modelled: the Taylor stack (TayModel), the mode READ_ACCESS (a sweep resets it). *)
From Coq Require Import List Arith Bool.
From Verif Require Import TapeModel TapeSpec.
Import ListNotations.
Set Implicit Arguments.

Section Hist.
Variable V : Type.
Variable v0 : V.
Variables chO chL chV : nat.

Notation "'do' x <- e1 ; e2" := (match e1 with Some x => e2 | None => None end)
  (at level 60, x pattern, right associativity).

(** [o_keep]: keepTaylors() <> 0;  [o_wr]: workMode() == WRITE_ACCESS although no trace
    is being recorded (see [set_params]). *)
Record obj := mkObj {
  o_tape : tape V; o_stats : stats; o_params : list V; o_keep : bool; o_wr : bool }.

(** the input of one trace: the contents of the buffers on entry, the live variables,
    the recording actions, the parameters, trace_off's flag, the header words *)
Record input := mkIn {
  i_op : list nat; i_loc : list nat; i_val : list V; i_live : nat; i_store : list V;
  i_acts : list (act V); i_ps : list V; i_flag : bool; i_hdr : list nat; i_keep : bool }.

(** a tape on which nothing has been recorded: stats{} (tapeinfos.h:54) *)
Definition nobuf {T} : buf T := mkBuf [] 0 0 None 0.
Definition nostat : stat := mkStat 0 false 0.
Definition fresh : obj :=
  mkObj (mkTape nobuf nobuf nobuf) (mkStats nostat nostat nostat 0) [] false false.

(** a file of an earlier trace stays on disk when the new trace has not written one *)
Definition keep_file {T} (s_old : stat) (old new : buf T) : buf T :=
  match bfile new with
  | Some _ => new
  | None => if s_acc s_old then mkBuf (bdata new) (bpos new) (bnum new) (bfile old) (brd new) else new
  end.
(** *_FILE_ACCESS is never reset *)
Definition keep_acc (s_old s_new : stat) : stat :=
  mkStat (s_num s_new) (s_acc s_old || s_acc s_new) (s_size s_new).

(** trace_on(tag, keep) ... trace_off(flag) on a tape that may have been used before;
    initNewTape refuses a tape in WRITE_ACCESS (valuetape.cpp:63-66);
    save_params (valuetape.cpp:323-334) replaces the parameter store *)
Definition retrace (o : obj) (i : input) : option obj :=
  if o_wr o then None else
  do (t, st) <- record v0 chO chL chV (i_op i) (i_loc i) (i_val i) (i_live i) (i_store i)
                  (i_acts i) (i_ps i) (i_flag i) (i_hdr i);
  Some (mkObj
    (mkTape (keep_file (st_op (o_stats o)) (opb (o_tape o)) (opb t))
            (keep_file (st_loc (o_stats o)) (locb (o_tape o)) (locb t))
            (keep_file (st_val (o_stats o)) (valb (o_tape o)) (valb t)))
    (mkStats (keep_acc (st_op (o_stats o)) (st_op st))
             (keep_acc (st_loc (o_stats o)) (st_loc st))
             (keep_acc (st_val (o_stats o)) (st_val st)) (n_param st))
    (i_ps i) (i_keep i) false).

(** read_params, valuetape.cpp:446-515: the values are copied from the end of the file,
    block by block; [avail] are the cells before currVal, [nVT] their number before the
    block in the file, [got] the parameters found so far.  (The chunked fread calls read
    one contiguous piece.) *)
Fixpoint read_params_loop (fuel vbs : nat) (file : list V) (ip nVT : nat) (avail got : list V)
  : option (list V) :=
  match fuel with
  | O => None
  | S fuel' =>
      if ip =? 0 then Some got else
      let rsize := if length avail <? ip then length avail else ip in
      let got' := skipn (length avail - rsize) avail ++ got in
      let ip' := ip - rsize in
      if 0 <? ip' then
        if (nVT <? vbs) || (length file <? nVT) then None
        else read_params_loop fuel' vbs file ip' (nVT - vbs) (slice file (nVT - vbs) vbs) got'
      else read_params_loop fuel' vbs file ip' nVT avail got'
  end.
Definition read_params (file : list V) (nvals vbs np : nat) : option (list V) :=
  let off := (nvals / vbs) * vbs in
  let number := nvals mod vbs in
  if length file <? nvals then None
  else read_params_loop (S (S np)) vbs file np (nvals - number) (slice file off number) [].

(** openTape, valuetape.cpp:92-110, with read_tape_stats (valuetape.cpp:567-596): the
    statistics read from the file are stored into a temporary copy (tapestats() returns by
    value, valuetape.h:219) and have no effect; the parameters are read into the store *)
Definition all_files (st : stats) : bool :=
  s_acc (st_op st) && s_acc (st_loc st) && s_acc (st_val st).
Definition open_tape (o : obj) : option obj :=
  if o_wr o then None
  else if negb (o_keep o) && all_files (o_stats o) then
    if 0 <? n_param (o_stats o) then
      do f <- bfile (valb (o_tape o));
      do ps <- read_params f (s_num (st_val (o_stats o))) (s_size (st_val (o_stats o)))
                 (n_param (o_stats o));
      Some (mkObj (o_tape o) (o_stats o) ps (o_keep o) (o_wr o))
    else Some o
  else Some o.

(** what a user does with a finished trace *)
Inductive use :=
| Fwd (keep : bool)          (* zos_forward(tag, m, n, keep, ...) and friends *)
| Rev                        (* fos_reverse and friends *)
| SetPar (ps : list V).      (* set_param_vec *)
Inductive outc :=
| Swept (ops : list (oper V)) (ps : list V)   (* the operations and parameters the sweep used *)
| ParsSet
| Mismatch                   (* PARAM_COUNTS_MISMATCH *)
| Failed.                    (* any other reported error *)

(** One call.  set_param_vec (valuetape.cpp:523-552) switches to WRITE_ACCESS before it
    checks the number of parameters and throws without switching back. *)
Definition use_step (fuel : nat) (Df Dr : nat -> dec) (o : obj) (u : use) : obj * outc :=
  match open_tape o with
  | None => (o, Failed)
  | Some o1 =>
      match u with
      | Fwd keep =>
          match sweep_f chO chL chV fuel Df (o_stats o1) (o_tape o1) with
          | None => (o1, Failed)
          | Some (ops, t') =>
              (mkObj t' (o_stats o1) (o_params o1) (o_keep o1 || keep) false, Swept ops (o_params o1))
          end
      | Rev =>
          match sweep_r chO chL chV fuel Dr (o_stats o1) (o_tape o1) with
          | None => (o1, Failed)
          | Some (ops, t') =>
              (mkObj t' (o_stats o1) (o_params o1) (o_keep o1) false, Swept ops (o_params o1))
          end
      | SetPar ps =>
          if length ps =? n_param (o_stats o1)
          then (mkObj (o_tape o1) (o_stats o1) ps (o_keep o1) false, ParsSet)
          else (mkObj (o_tape o1) (o_stats o1) (o_params o1) (o_keep o1) true, Mismatch)
      end
  end.
Fixpoint uses (fuel : nat) (Df Dr : nat -> dec) (o : obj) (h : list use) : list outc :=
  match h with
  | [] => []
  | u :: h' => let '(o', r) := use_step fuel Df Dr o u in r :: uses fuel Df Dr o' h'
  end.
Fixpoint retraces (o : obj) (l : list input) : option obj :=
  match l with [] => Some o | i :: l' => do o' <- retrace o i; retraces o' l' end.

(** ** Specification: what the calls have to deliver for a trace with operations [ops]. *)
Fixpoint wanted (ops : list (oper V)) (ps : list V) (h : list use) : list outc :=
  match h with
  | [] => []
  | Fwd _ :: h' => Swept ops ps :: wanted ops ps h'
  | Rev :: h' => Swept (rev ops) ps :: wanted ops ps h'
  | SetPar ps' :: h' => ParsSet :: wanted ops ps' h'
  end.
Definition sets (h : list use) : Prop := exists ps, In (SetPar ps) h.
Definition sized (n : nat) (h : list use) : Prop := forall ps, In (SetPar ps) h -> length ps = n.
End Hist.
Arguments Fwd {V}. Arguments Rev {V}. Arguments ParsSet {V}. Arguments Mismatch {V}. Arguments Failed {V}.
