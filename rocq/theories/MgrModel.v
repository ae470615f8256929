(** * Model of the tape registry and of trace_on / trace_off.

    Models  include/adolc/tape_interface.h (tapeBuffer, currentTapeStack,
            findTapePtr_, findTapePtr, setCurrentTape, createNewTape),
            src/tape_interface.cpp:39-110 (trace_on twice, trace_off),
            src/valuetape/valuetape.cpp:58-87 (initNewTape), 97-110 (openTape),
            289-321 (start_trace), 361-387 (stop_trace).

    Simplifications:
    - what is recorded between trace_on and trace_off is a list of events of an
      arbitrary type; the stock operations at both ends, the statistics and the
      value stack are not in this model (see TapeModel.v, TayModel.v);
    - a pointer to a tape is its index in tapeBuffer() (tapes are never removed);
    - one thread (all of this state is thread_local);
    - a sweep is one atomic step that only looks at the access mode of the tape;
    - an exception leaves the state at the point of the throw; the client may
      catch it and go on ([Thrown]); undefined behaviour is [Ub]. *)
From Coq Require Import List ZArith Bool Lia.
Import ListNotations.
Set Implicit Arguments.

Section Model.
Variable E : Type.

(** TapeInfos::WORKMODES, tapeinfos.h *)
Inductive workmode := NoMode | ReadAccess | WriteAccess.
(** the four buffer sizes (op, loc, val, taylor) *)
Record sizes := mkSizes { obs : Z; lbs : Z; vbs : Z; tbs : Z }.

(** ValueTape: id, workMode, the events recorded so far, the last finished trace,
    whether the tape buffers are allocated, the buffer size statistics *)
Record vtape := mkTape {
  t_id : Z; t_mode : workmode; t_log : list E; t_done : option (list E);
  t_alloc : bool; t_sizes : sizes }.

(** tapeBuffer(), currentTapePtr(), currentTapeStack(), tapeIdCounter *)
Record mgr := mkMgr {
  tapes : list vtape; cur : option nat; stack : list (option nat); counter : Z }.

(** errors thrown (adolcerror.h) *)
Inductive err := NO_TAPE_ID | TAPING_TAPE_STILL_IN_USE | TAPING_NOT_ACTUALLY_TAPING.
Inductive outcome := Ret (r : Z) (s : mgr) | Res (tr : option (list E)) (s : mgr)
                   | Thrown (e : err) (s : mgr) | Ub.

Definition upd_tape (s : mgr) (k : nat) (f : vtape -> vtape) : mgr :=
  mkMgr (map (fun p => if fst p =? k then f (snd p) else snd p)%nat
           (combine (seq 0 (length (tapes s))) (tapes s))) (cur s) (stack s) (counter s).
Definition set_cur (s : mgr) (c : option nat) : mgr := mkMgr (tapes s) c (stack s) (counter s).
Definition set_stack (s : mgr) (l : list (option nat)) : mgr := mkMgr (tapes s) (cur s) l (counter s).

(** findTapePtr_, tape_interface.h: the first tape with that id *)
Fixpoint find_from (i : nat) (l : list vtape) (id : Z) : option nat :=
  match l with
  | [] => None
  | t :: r => if (t_id t =? id)%Z then Some i else find_from (S i) r id
  end.
Definition find_tape (s : mgr) (id : Z) : option nat := find_from 0 (tapes s) id.

(** conversion int -> short after the ++ of createNewTape *)
Definition to_short (z : Z) : Z := ((z + 32768) mod 65536 - 32768)%Z.

(** createNewTape: a new ValueTape(tapeIdCounter) at the end of the buffer; it
    becomes the current tape if there is none *)
Definition create_new_tape (dflt : sizes) (s : mgr) : outcome :=
  let id := counter s in
  let s1 := mkMgr (tapes s ++ [mkTape id NoMode [] None false dflt]) (cur s) (stack s) (counter s) in
  let s2 := match cur s1 with None => set_cur s1 (find_tape s1 id) | Some _ => s1 end in
  Ret id (mkMgr (tapes s2) (cur s2) (stack s2) (to_short (id + 1))).

(** initNewTape, valuetape.cpp:58-87; returns 0 *)
Definition init_new_tape (dflt : sizes) (s : mgr) (k : nat) : mgr + mgr :=
  match nth_error (tapes s) k with
  | None => inl s
  | Some t =>
      match t_mode t with
      | NoMode => inr (upd_tape s k (fun t => mkTape (t_id t) WriteAccess [] (t_done t) (t_alloc t) dflt))
      | _ => inl s
      end
  end.

(** start_trace + take_stock, valuetape.cpp:289-321 *)
Definition start_trace (s : mgr) (k : nat) : mgr :=
  upd_tape s k (fun t => mkTape (t_id t) (t_mode t) [] (t_done t) true (t_sizes t)).

(** trace_on(tapeId, keep), tape_interface.cpp:39-60 *)
Definition trace_on (dflt : sizes) (s : mgr) (id : Z) : outcome :=
  match find_tape s id with
  | None => Thrown NO_TAPE_ID s
  | Some k =>
      let s1 := set_cur (set_stack s (cur s :: stack s)) (Some k) in
      match init_new_tape dflt s1 k with
      | inl s2 => Thrown TAPING_TAPE_STILL_IN_USE s2
      | inr s2 => Ret 0 (start_trace s2 k)
      end
  end.

(** trace_on(tapeId, keep, obs, lbs, vbs, tbs, skip), tape_interface.cpp:62-91 *)
Definition trace_on_sizes (dflt : sizes) (s : mgr) (id : Z) (sz : sizes) : outcome :=
  match find_tape s id with
  | None => Thrown NO_TAPE_ID s
  | Some k =>
      let s1 := set_cur (set_stack s (cur s :: stack s)) (Some k) in
      match init_new_tape dflt s1 k with
      | inl s2 => Thrown TAPING_TAPE_STILL_IN_USE s2
      | inr s2 =>
          let retval := 0%Z in   (* initNewTape() *)
          if (retval =? 0)%Z then Ret (-1) s2
          else Ret retval
                 (start_trace (upd_tape s2 k (fun t => mkTape (t_id t) (t_mode t) (t_log t) (t_done t) false sz)) k)
      end
  end.

(** trace_off(flag), tape_interface.cpp:93-110; with flag != 0 close_tape releases the
    buffers (valuetape.cpp:394-401) *)
Definition trace_off (s : mgr) (flag : Z) : outcome :=
  match cur s with
  | None => Ub
  | Some k =>
      match nth_error (tapes s) k with
      | None => Ub
      | Some t =>
          match t_mode t with
          | WriteAccess =>
              if t_alloc t then
                let s1 := upd_tape s k (fun t =>
                  mkTape (t_id t) NoMode (t_log t) (Some (t_log t)) (flag =? 0)%Z (t_sizes t)) in
                match stack s1 with
                | [] => Ub
                | c :: r => Ret 0 (set_stack (set_cur s1 c) r)
                end
              else Ub
          | _ => Thrown TAPING_NOT_ACTUALLY_TAPING s
          end
      end
  end.

(** any overloaded operation: recorded iff currentTape().workMode() == WRITE_ACCESS
    (e.g. adouble.cpp:522-534); put_op into a null buffer is undefined *)
Definition event (s : mgr) (e : E) : outcome :=
  match cur s with
  | None => Ub
  | Some k =>
      match nth_error (tapes s) k with
      | None => Ub
      | Some t =>
          match t_mode t with
          | WriteAccess =>
              if t_alloc t then
                Ret 0 (upd_tape s k (fun t => mkTape (t_id t) (t_mode t) (t_log t ++ [e]) (t_done t) (t_alloc t) (t_sizes t)))
              else Ub
          | _ => Ret 0 s
          end
      end
  end.

(** a sweep over the tape: findTape, openTape (valuetape.cpp:97-110), the sweep reads
    the finished trace, end_sweep (616-621) *)
Definition sweep (s : mgr) (id : Z) : outcome :=
  match find_tape s id with
  | None => Thrown NO_TAPE_ID s
  | Some k =>
      match nth_error (tapes s) k with
      | None => Ub
      | Some t =>
          match t_mode t with
          | WriteAccess => Thrown TAPING_TAPE_STILL_IN_USE s
          | _ => Res (t_done t) (upd_tape s k (fun t => mkTape (t_id t) NoMode (t_log t) (t_done t) (t_alloc t) (t_sizes t)))
          end
      end
  end.

(** client calls *)
Inductive call := NewTape | TraceOn (id : Z) | TraceOnSizes (id : Z) (sz : sizes)
                | TraceOff (flag : Z) | Event (e : E) | Sweep (id : Z).
Definition step (dflt : sizes) (s : mgr) (c : call) : outcome :=
  match c with
  | NewTape => create_new_tape dflt s
  | TraceOn id => trace_on dflt s id
  | TraceOnSizes id sz => trace_on_sizes dflt s id sz
  | TraceOff f => trace_off s f
  | Event e => event s e
  | Sweep id => sweep s id
  end.
Definition init : mgr := mkMgr [] None [] 0.
End Model.
