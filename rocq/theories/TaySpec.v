(** * What a client of the value stack does and expects (C08).
    Uses nothing of the model except the interface functions themselves. *)
From Coq Require Import List Arith Lia ZArith Bool.
From Verif Require Import TayModel.
Import ListNotations.
Set Implicit Arguments.

Section Spec.
Variable V : Type.

(** Pushing calls of a recording / forward sweep with keep. *)
Inductive wr :=
| WS (v : V)                              (* write_scaylor(v) *)
| WT (p : nat -> V) (keep : nat)          (* write_taylor(p, keep) *)
| WSs (p : nat -> V) (size : nat)         (* write_scaylors(p, size) *)
| WTs (p : nat -> V) (keep degree numDir : nat)  (* write_taylors(p, keep, degree, numDir) *)
| WDel.                                   (* delete_scaylor *)

(** The stack after a call; the top is the last element. *)
Definition spec_wr (st : list V) (w : wr) : list V :=
  match w with
  | WS v => st ++ [v]
  | WT p n | WSs p n => st ++ map p (seq 0 n)
  | WTs p keep degree numDir =>
      st ++ flat_map (fun j => map (fun i => p (j * Nat.max keep degree + i)) (seq 0 keep)) (seq 0 numDir)
  | WDel => removelast st
  end.
Definition contents (ws : list wr) : list V := fold_left spec_wr ws [].

(** Legal histories: a block fits the buffer, delete_scaylor directly follows a
    write_scaylor (this is how the recorder uses it, adouble.cpp:313-321, 457-465). *)
Fixpoint legal (cap : nat) (prev : bool) (ws : list wr) : Prop :=
  match ws with
  | [] => True
  | WS _ :: r => legal cap true r
  | WT _ n :: r | WSs _ n :: r => n <= cap /\ legal cap false r
  | WTs _ _ _ _ :: r => legal cap false r
  | WDel :: r => prev = true /\ legal cap false r
  end.

(** Popping calls of a reverse sweep; [T] the caller's array before the call. *)
Inductive rd :=
| RS                                      (* get_taylor() *)
| RT (T : nat -> V) (degree : nat)        (* get_taylors(T, degree) *)
| RTp (T : nat -> V) (degree numDir : nat).  (* get_taylors_p(T, degree, numDir) *)
Inductive res := Val (v : V) | Arr (T : nat -> V).

(** number of stack elements a call takes *)
Definition takes (r : rd) : nat :=
  match r with RS => 1 | RT _ d => d | RTp _ d n => (d - 1) * n + 1 end.

(** [popped st r x st']: on the stack [st] the call [r] gives [x] and leaves [st']. *)
Inductive popped : list V -> rd -> res -> list V -> Prop :=
| p_s st v : popped (st ++ [v]) RS (Val v) st
| p_t st l T T' :
    (forall i, T' i = if i <? length l then nth i l (T i) else T i) ->
    popped (st ++ l) (RT T (length l)) (Arr T') st
| p_tp st b (L : list (list V)) d T T' :
    (forall l, In l L -> length l = d) ->
    (forall j, j < length L -> T' (j * S d) = b) ->
    (forall j i l, nth_error L j = Some l -> i < d -> T' (j * S d + S i) = nth i l (T 0)) ->
    (forall i, length L * S d <= i -> T' i = T i) ->
    popped (st ++ [b] ++ concat L) (RTp T (S d) (length L)) (Arr T') st.

(** one reverse sweep *)
Inductive sweep_spec : list V -> list rd -> list res -> Prop :=
| sw_nil st : sweep_spec st [] []
| sw_cons st r x st' rs xs : popped st r x st' -> sweep_spec st' rs xs -> sweep_spec st (r :: rs) (x :: xs).

(** A sweep never pops more than there is.  A block read by get_taylors lies
    inside one buffer; get_taylors_p is used with degree >= 1. *)
Fixpoint fits (cap h : nat) (rs : list rd) : Prop :=
  match rs with
  | [] => True
  | r :: rs' =>
      takes r <= h /\
      match r with
      | RS => True
      | RT _ d => d <= h mod cap \/ (h mod cap = 0 /\ d <= cap)
      | RTp _ d _ => 1 <= d
      end /\ fits cap (h - takes r) rs'
  end.

(** ** Running the client against the model *)
Variable cap : nat.
Definition do_wr (s : tay V) (w : wr) : option (tay V) :=
  match w with
  | WS v => write_scaylor cap s v
  | WT p n => write_taylor cap s p n
  | WSs p n => write_scaylors cap s p n
  | WTs p k d n => write_taylors cap s p k d n
  | WDel => match delete_scaylor cap s with Some (_, s') => Some s' | None => None end
  end.
Fixpoint do_wrs (s : tay V) (ws : list wr) : option (tay V) :=
  match ws with
  | [] => Some s
  | w :: r => match do_wr s w with Some s' => do_wrs s' r | None => None end
  end.
Definition do_rd (s : tay V) (r : rd) : option (res * tay V) :=
  match r with
  | RS => match get_taylor cap s with Some (v, s') => Some (Val v, s') | None => None end
  | RT T d => match get_taylors cap s T d with Some (T', s') => Some (Arr T', s') | None => None end
  | RTp T d n => match get_taylors_p cap s T d n with Some (T', s') => Some (Arr T', s') | None => None end
  end.
Fixpoint do_rds (s : tay V) (rs : list rd) : option (list res * tay V) :=
  match rs with
  | [] => Some ([], s)
  | r :: rs' => match do_rd s r with
                | Some (x, s') => match do_rds s' rs' with
                                  | Some (xs, s'') => Some (x :: xs, s'')
                                  | None => None
                                  end
                | None => None
                end
  end.
(** every reverse sweep starts with taylor_back *)
Fixpoint do_sweeps (s : tay V) (h : list (list rd)) : option (list (list res)) :=
  match h with
  | [] => Some []
  | rs :: h' => match taylor_back cap s with
                | Some s1 => match do_rds s1 rs with
                             | Some (xs, s2) => match do_sweeps s2 h' with
                                                | Some r => Some (xs :: r)
                                                | None => None
                                                end
                             | None => None
                             end
                | None => None
                end
  end.
(** a recording followed by reverse sweeps, from any earlier state of the tape *)
Definition session (s0 : tay V) (ws : list wr) (h : list (list rd)) : option (list (list res)) :=
  match do_wrs (taylor_begin s0) ws with
  | Some s => do_sweeps (taylor_close s) h
  | None => None
  end.

(** A recording (trace_on with keep ... trace_off): only single values are pushed,
    and every push is counted (e.g. adouble.cpp:528-532); delete_scaylor is followed
    by a decrement (adouble.cpp:317-320, 461-464). *)
Definition do_rec (s : tay V) (w : wr) : option (tay V) :=
  match w with
  | WS v => write_scaylor cap (count_up s 1) v
  | WDel => match delete_scaylor cap s with Some (_, s') => Some (count_down s') | None => None end
  | _ => None
  end.
Fixpoint do_recs (s : tay V) (ws : list wr) : option (tay V) :=
  match ws with
  | [] => Some s
  | w :: r => match do_rec s w with Some s' => do_recs s' r | None => None end
  end.
Definition single (w : wr) : Prop := match w with WS _ | WDel => True | _ => False end.
Definition rec_session (s0 : tay V) (ws : list wr) (h : list (list rd)) : option (list (list res)) :=
  match do_recs (taylor_begin s0) ws with
  | Some s => do_sweeps (stop_tays s) h
  | None => None
  end.
End Spec.
Arguments RS {V}.
Arguments WDel {V}.
