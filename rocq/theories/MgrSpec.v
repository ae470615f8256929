(** * Bracketed use of trace_on / trace_off, and what the client expects (C09). *)
From Coq Require Import List ZArith Bool Lia.
From Verif Require Import MgrModel.
Import ListNotations.
Set Implicit Arguments.

Section Spec.
Variable E : Type.

(** A client program: operations on active variables, sweeps, and sections
    trace_on(id) ... trace_off(flag), nested to any depth. *)
Inductive prog :=
| Done
| Ev (e : E) (p : prog)                          (* an overloaded operation *)
| Sw (id : Z) (p : prog)                         (* a sweep over tape id *)
| Block (id flag : Z) (body : prog) (p : prog).  (* trace_on(id); body; trace_off(flag); p *)

Fixpoint calls (p : prog) : list (call E) :=
  match p with
  | Done => []
  | Ev e p => Event e :: calls p
  | Sw id p => Sweep E id :: calls p
  | Block id f b p => TraceOn E id :: calls b ++ TraceOff E f :: calls p
  end.

(** The finished traces, by tape id; [d]: the operations of the section so far
    (not counting nested sections); [o]: what the sweeps have read. *)
Definition traces := Z -> option (list E).
Fixpoint meaning (p : prog) (env : traces) (d : list E) (o : list (option (list E)))
  : traces * list E * list (option (list E)) :=
  match p with
  | Done => (env, d, o)
  | Ev e p => meaning p env (d ++ [e]) o
  | Sw id p => meaning p env d (o ++ [env id])
  | Block id _ b p =>
      let '(env1, d1, o1) := meaning b env [] o in
      meaning p (fun i => if (i =? id)%Z then Some d1 else env1 i) d o1
  end.

(** Every id exists, and no section or sweep uses a tape that is open. *)
Fixpoint legal (ids : list Z) (open : list Z) (p : prog) : Prop :=
  match p with
  | Done => True
  | Ev _ p => legal ids open p
  | Sw id p => In id ids /\ ~ In id open /\ legal ids open p
  | Block id _ b p => In id ids /\ ~ In id open /\ legal ids (id :: open) b /\ legal ids open p
  end.

(** running client calls; [None]: some call threw or was undefined *)
Fixpoint run (dflt : sizes) (s : mgr E) (cs : list (call E)) (o : list (option (list E)))
  : option (mgr E * list (option (list E))) :=
  match cs with
  | [] => Some (s, o)
  | c :: r => match step dflt s c with
              | Ret _ s' => run dflt s' r o
              | Res tr s' => run dflt s' r (o ++ [tr])
              | _ => None
              end
  end.

(** the ids of the existing tapes *)
Definition ids (s : mgr E) : list Z := map (@t_id E) (tapes s).
(** a state in which nothing is being traced or swept *)
Definition idle (s : mgr E) : Prop := forall t, In t (tapes s) -> t_mode t = NoMode.
(** the finished trace of a tape *)
Definition finished (s : mgr E) : traces := fun id =>
  match find (fun t => (t_id t =? id)%Z) (tapes s) with Some t => t_done t | None => None end.
End Spec.
