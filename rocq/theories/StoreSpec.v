(** * Specification of a location manager, independent of its implementation.

    A history is the list of the requests made so far together with the
    answers, newest first.  Everything below is computed from histories only. *)
From Coq Require Import List Arith Bool.
Import ListNotations.
From Verif Require Import StoreModel.

Section Spec.
  Context {V : Type}.
  Definition event := (cmd V * out V)%type.
  Definition history := list event.

  (** the locations handed out and not yet given back *)
  Fixpoint live (h : history) : list nat :=
    match h with
    | [] => []
    | (CNext, OLoc l) :: r => l :: live r
    | (CFree l, _) :: r => remove Nat.eq_dec l (live r)
    | _ :: r => live r
    end.

  (** the value last written to location l since it was last handed out *)
  Fixpoint last_written (h : history) (l : nat) : option V :=
    match h with
    | [] => None
    | (CWrite l' v, _) :: r => if l' =? l then Some v else last_written r l
    | (CNext, OLoc l') :: r => if l' =? l then None else last_written r l
    | _ :: r => last_written r l
    end.

  (** the client only touches locations it owns *)
  Definition client_ok (h : history) (c : cmd V) : Prop :=
    match c with
    | CFree l | CWrite l _ | CRead l => In l (live h)
    | CNext | CEnsure _ => True
    end.

  (** all histories of a manager given by its initial state and step function *)
  Inductive exec {S : Type} (init : S) (step : S -> cmd V -> option (S * out V))
    : history -> S -> Prop :=
  | exec_nil : exec init step [] init
  | exec_cons h s c s' o :
      exec init step h s -> client_ok h c -> step s c = Some (s', o) ->
      exec init step ((c, o) :: h) s'.

  (** n construction requests in a row *)
  Fixpoint nexts {S : Type} (step : S -> cmd V -> option (S * out V)) (n : nat) (s : S)
    : option (S * list (out V)) :=
    match n with
    | 0 => Some (s, [])
    | S k => match step s CNext with
             | None => None
             | Some (s', o) =>
                 match nexts step k s' with
                 | None => None
                 | Some (s'', os) => Some (s'', o :: os)
                 end
             end
    end.
End Spec.
