(* What a user of external functions expects, stated without the tape: the
   program run as an ordinary program, each call working on its own variables. *)
From Coq Require Import List Arith Lia ZArith Reals Bool.
From Coquelicot Require Import Coquelicot.
From Verif Require Import ExtModel.
Import ListNotations.
Open Scope R_scope.

(* The plain program: an operation assigns its result; a call replaces its inputs
   and its outputs by what the function left in them. *)
Definition plain1 (F : nat -> edf) (T : mem) (s : stmt) : mem :=
  match s with
  | Op e => put T (eres e) (eval_ e (map T (eargs e)))
  | Call e n xa m ya =>
      let '(x', y', _) := cfun (F e) (rd T xa n) (rd T ya m) in
      wr (wr T xa n x') ya m y'
  end.
Definition plain (F : nat -> edf) (p : list stmt) (T : mem) : mem :=
  fold_left (plain1 F) p T.

(* Every registered function is called on one set of variables only. *)
Definition one_place (p : list stmt) : Prop :=
  forall e n xa m ya n' xa' m' ya',
    In (Call e n xa m ya) p -> In (Call e n' xa' m' ya') p -> xa = xa' /\ ya = ya'.

(* Input and output variables of a call are different variables. *)
Definition disjoint_call (s : stmt) : Prop :=
  match s with
  | Op _ => True
  | Call _ n xa m ya => (xa + n <= ya \/ ya + m <= xa)%nat
  end.

(* The user's side of the contract for one function, externfcts.h:160-241:
   zos_forward computes the same as function; x changes only if dp_x_changes;
   what the callback does to the outer tape's values is undone by nestedAdolc. *)
Definition contract (f : edf) : Prop :=
  (forall x y, czos f x y = cfun f x y) /\
  (xchanges f = false -> forall x y, fst (fst (cfun f x y)) = x) /\
  (nested f = false -> forall T, ctrash f T = T).

(* ... all return codes of the callbacks, in the order of the calls *)
Fixpoint codes (F : nat -> edf) (p : list stmt) (T : mem) : list Z :=
  match p with
  | [] => []
  | s :: p' =>
      match s with
      | Op _ => codes F p' (plain1 F T s)
      | Call e n xa m ya =>
          snd (cfun (F e) (rd T xa n) (rd T ya m)) :: codes F p' (plain1 F T s)
      end
  end.

(* A curve of arrays, and its derivative at s0, component by component. *)
Definition moves (c : R -> list R) (d : list R) (s0 : R) : Prop :=
  forall i, is_derive (fun s => nth i (c s) 0) s0 (nth i d 0).

(* fos_forward is the derivative of the function at x, y: along every curve
   through x, y the results move with the tangents it returns, and it returns the
   function's values. *)
Definition tangent_ok (f : edf) (x y : list R) : Prop :=
  forall (cx cy : R -> list R) (X Y : list R) (s0 : R),
    cx s0 = x -> cy s0 = y -> 
    (forall s, length (cx s) = length x) -> (forall s, length (cy s) = length y) ->
    length X = length x -> length Y = length y ->
    moves cx X s0 -> moves cy Y s0 ->
    let '(x', X', y', Y') := cfos f x X y Y in
    fst (cfun f x y) = (x', y') /\
    moves (fun s => fst (fst (cfun f (cx s) (cy s)))) X' s0 /\
    moves (fun s => snd (fst (cfun f (cx s) (cy s)))) Y' s0.

(* the same for an ordinary operation *)
Definition elem_ok (e : elem) (a : list R) : Prop :=
  forall (c : R -> list R) (d : list R) (s0 : R),
    c s0 = a -> (forall s, length (c s) = length a) -> length d = length a -> moves c d s0 ->
    is_derive (fun s => eval_ e (c s)) s0
      (fold_right Rplus 0 (map (fun q => fst q * snd q) (combine (egrad e a) d))).

Fixpoint smooth_run (F : nat -> edf) (p : list stmt) (T : mem) : Prop :=
  match p with
  | [] => True
  | s :: p' =>
      match s with
      | Op e => elem_ok e (map T (eargs e))
      | Call e n xa m ya => tangent_ok (F e) (rd T xa n) (rd T ya m)
      end /\ smooth_run F p' (plain1 F T s)
  end.

(* sum of products *)
Fixpoint dotl (a b : list R) : R :=
  match a, b with
  | x :: a', y :: b' => x * y + dotl a' b'
  | _, _ => 0
  end.
Definition dot (N : nat) (A D : mem) : R := dotl (map A (seq 0 N)) (map D (seq 0 N)).

(* fos_reverse is the transpose of fos_forward at x, y: for all weights u of the
   outputs and z of the inputs after the call, and all tangents. *)
Definition adjoint_ok (f : edf) (x y : list R) : Prop :=
  forall u z X Y, length u = length y -> length z = length x ->
    length X = length x -> length Y = length y ->
    let '(x', X', y', Y') := cfos f x X y Y in
    fst (cfun f x y) = (x', y') /\
    let '(z', xr, yr) := crev f u z x' y' in
    length x' = length x /\ length y' = length y /\
    length X' = length x /\ length Y' = length y /\ length z' = length x /\
    (xchanges f = true \/ xr = x) /\
    dotl u Y' + dotl z X' = dotl z' X.

Fixpoint adjoint_run (F : nat -> edf) (N : nat) (p : list stmt) (T : mem) : Prop :=
  match p with
  | [] => True
  | s :: p' =>
      match s with
      | Op e => (eres e < N)%nat /\ List.Forall (fun i => (i < N)%nat) (eargs e)
      | Call e n xa m ya => (xa + n <= N)%nat /\ (ya + m <= N)%nat /\
          yprior (F e) = true /\ adjoint_ok (F e) (rd T xa n) (rd T ya m)
      end /\ adjoint_run F N p' (plain1 F T s)
  end.
