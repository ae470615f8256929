(** What a checkpointing schedule must do, independent of how it is found. *)
From Coq Require Import ZArith List Bool Factorial.
From Verif Require Import RevModel.
Import ListNotations.
Local Open Scope Z_scope.

(** The caller of revolve: it holds at most one current state (numbered by its time
    step), [slots] for snapshots, and reverses steps from the end. *)
Record caller := mk_caller {
  now : option Z;            (* number of the state at hand, None: none *)
  slots : Z -> option Z;     (* number of the state stored in each slot *)
  left : Z;                  (* the steps 0 .. left-1 have not been reversed yet *)
  moved : Z;                 (* forward steps executed without recording *)
  finished : bool }.

(** one action; None: the action cannot be carried out (state not available, slot out of
    range, step reversed twice or out of order, ...) *)
Definition act (steps snaps : Z) (e : event) (u : caller) : option caller :=
  let (a, s) := e in
  if finished u then None else
  match a with
  | takeshot =>
      match now u with
      | Some t => if (t =? capo s) && (0 <=? check s) && (check s <? snaps)
                  then Some (mk_caller (now u) (fun i => if i =? check s then Some t else slots u i) (left u) (moved u) false)
                  else None
      | None => None
      end
  | advance =>
      match now u with
      | Some t => if (t <? capo s) && (capo s <? left u)
                  then Some (mk_caller (Some (capo s)) (slots u) (left u) (moved u + (capo s - t)) false)
                  else None
      | None => None
      end
  | restore =>
      match slots u (check s) with
      | Some t => if (t =? capo s) && (0 <=? check s) && (check s <? snaps)
                  then Some (mk_caller (Some t) (slots u) (left u) (moved u) false)
                  else None
      | None => None
      end
  | firsturn | youturn =>
      match now u with
      | Some t => if (t + 1 =? left u) && Bool.eqb (left u =? steps) (match a with firsturn => true | _ => false end)
                  then Some (mk_caller None (slots u) t (moved u) false)
                  else None
      | None => None
      end
  | terminate => if left u =? 0 then Some (mk_caller (now u) (slots u) (left u) (moved u) true) else None
  | error => None
  end.
Fixpoint acts (steps snaps : Z) (l : list event) (u : caller) : option caller :=
  match l with
  | [] => Some u
  | e :: l => match act steps snaps e u with Some u' => acts steps snaps l u' | None => None end
  end.
(** the caller starts with the initial state (number 0) and no snapshots *)
Definition fresh (steps : Z) : caller := mk_caller (Some 0) (fun _ => None) steps 0 false.
(** the first call: check = -1, capo = 0, fine = steps *)
Definition first (steps info : Z) : args := mk_args (-1) 0 steps info.

(** (c + r)! / (c! r!) *)
Definition is_binomial (c r b : Z) : Prop :=
  b * Z.of_nat (fact (Z.to_nat c) * fact (Z.to_nat r)) = Z.of_nat (fact (Z.to_nat c + Z.to_nat r)).
(** steps can be reversed with snaps checkpoints and at most reps repetitions *)
Definition within (steps snaps reps : Z) : Prop :=
  exists b, is_binomial snaps reps b /\ steps <= b.

(** the least number of forward steps needed to reverse l steps when the initial state is
    stored and c snapshots (that one included) may be held: choose where to put the next
    snapshot, reverse the rest with one slot less, then the first part with all slots *)
Inductive feasible : Z -> Z -> Z -> Prop :=
| feasible_one : forall c, 0 <= c -> feasible 1 c 0
| feasible_split : forall l c m v w, 1 <= c -> 1 <= m < l -> feasible (l - m) (c - 1) v -> feasible m c w ->
    feasible l c (m + v + w).
