(** Model of ADOL-C/src/checkpointing.cpp: time stepping loops whose reverse sweep
    recomputes states from snapshots, under the control of revolve (RevModel.v).

    D is the type of the dim doubles of one state, G the type of everything else the
    user's step function reads and changes (what saveNonAdoubles/restoreNonAdoubles
    save), A the type of adjoints (a vector for fos_reverse, a family of vectors for
    fov_reverse), V that of tangents, TP that of recorded tapes.

    Simplifications: the tape of one step is abstract, only what its sweeps return is
    used ([trace], [zos], [rev], [fos]); copying of the argument vectors between the
    caller, the buffers and the sweeps is by value; allocation does not fail.  None
    stands for a thrown ADOLCError and for undefined behaviour.  The two loops have no
    static bound; they carry fuel, and the theorems show that a bound exists. *)
From Coq Require Import ZArith List Bool.
From Verif Require Import RevModel.
Import ListNotations.
Local Open Scope Z_scope.
Set Implicit Arguments.

Section Cp.
Variables D G A V TP : Type.
Variable fd : D * G -> D * G.                 (* function_double *)
Variable trace : D * G -> TP * (D * G).       (* Infos::tapeStep between trace_on and trace_off: the tape of function at a state, and the new state *)
Variable zos : TP -> D -> option D.           (* ::zos_forward of a tape at a point; None: negative return code *)
Variable rev : TP -> D -> A -> A.             (* ::fos_reverse / ::fov_reverse of a tape whose values were kept at a point *)
Variable fos : TP -> D -> V -> Z * D * V.     (* ::fos_forward / ::fov_forward of a tape: return code, value, tangent *)

(** struct Infos, adolc/checkpointing.h; [sub] is the tape cpTapeId: its contents and the
    point whose intermediate values are on its value stack.  [peak] is a ghost: the largest
    number of snapshots held so far. *)
Record infos := mk_infos {
  steps : Z; checkpoints : Z; retaping : Z; hooks : bool;
  ctl : args; currentCP : Z; stack : list (D * option G); sub : option (TP * option D); peak : nat }.
Record mach := mk_mach { inf : infos; num : nums; buf : D; glob : G }.

Definition iter (n : nat) (s : D * G) : D * G := Nat.iter n fd s.
Definition set_ctl (i : infos) (c : args) : infos :=
  mk_infos (steps i) (checkpoints i) (retaping i) (hooks i) c (currentCP i) (stack i) (sub i) (peak i).
Definition set_cp (i : infos) (c : Z) : infos :=
  mk_infos (steps i) (checkpoints i) (retaping i) (hooks i) (ctl i) c (stack i) (sub i) (peak i).
Definition set_stack (i : infos) (l : list (D * option G)) : infos :=
  mk_infos (steps i) (checkpoints i) (retaping i) (hooks i) (ctl i) (currentCP i) l (sub i) (Nat.max (peak i) (length l)).
Definition set_sub (i : infos) (t : TP) (k : option D) : infos :=
  mk_infos (steps i) (checkpoints i) (retaping i) (hooks i) (ctl i) (currentCP i) (stack i) (Some (t, k)) (peak i).

(** Infos::takeSnapshot, lines 533-543 *)
Definition takeSnapshot (c : mach) : mach :=
  mk_mach (set_stack (inf c) ((buf c, if hooks (inf c) then Some (glob c) else None) :: stack (inf c))) (num c) (buf c) (glob c).
(** Infos::restore, lines 545-558 *)
Definition restore_ (c : mach) : option mach :=
  match stack (inf c) with
  | [] => None
  | (d, g) :: _ => Some (mk_mach (inf c) (num c) d (match g with Some g => g | None => glob c end))
  end.
(** Infos::release, lines 560-569 *)
Definition release (c : mach) : mach :=
  mk_mach (set_stack (inf c) (tl (stack (inf c)))) (num c) (buf c) (glob c).
(** Infos::tapeStep, lines 76-89 *)
Definition tapeStep (keep : bool) (c : mach) : mach :=
  let (t, s) := trace (buf c, glob c) in
  mk_mach (set_sub (inf c) t (if keep then Some (buf c) else None)) (num c) (fst s) (snd s).
(** revolveError, lines 94-120: does it throw? *)
Definition revolveError (info : Z) : bool := (10 <=? info) && (info <=? 15).
(** the call of revolve, lines 132 and 353 *)
Definition call (c : mach) : option (action * mach) :=
  match revolve (checkpoints (inf c)) (ctl (inf c)) (num c) with
  | Some (a, s, m) => Some (a, mk_mach (set_ctl (inf c) s) m (buf c) (glob c))
  | None => None
  end.
(** revolve_takeshot, lines 135-138 and 359-362 *)
Definition on_takeshot (c : mach) : mach :=
  let c := takeSnapshot c in
  mk_mach (set_cp (inf c) (capo (ctl (inf c)))) (num c) (buf c) (glob c).
(** revolve_advance, lines 140-144 and 364-367 *)
Definition on_advance (c : mach) : mach :=
  let s := iter (Z.to_nat (capo (ctl (inf c)) - currentCP (inf c))) (buf c, glob c) in
  mk_mach (inf c) (num c) (fst s) (snd s).

(** the loop of Infos::revolveForward, lines 131-159 *)
Fixpoint forward_loop (fuel : nat) (keep : bool) (c : mach) : option mach :=
  match fuel with
  | O => None
  | S fuel =>
      match call c with
      | None => None
      | Some (takeshot, c) => forward_loop fuel keep (on_takeshot c)
      | Some (advance, c) => forward_loop fuel keep (on_advance c)
      | Some (firsturn, c) => Some (tapeStep keep c)
      | Some (error, c) => if revolveError (info (ctl (inf c))) then None else Some c
      | Some (_, _) => None
      end
  end.
(** Infos::revolveForward, lines 122-160 *)
Definition revolveForward (fuel : nat) (keep : bool) (c : mach) : option mach :=
  forward_loop fuel keep (mk_mach (set_ctl (inf c) (mk_args (-1) 0 (steps (inf c)) 0)) (num c) (buf c) (glob c)).

(** zos_forward, lines 208-225: new machine and y *)
Definition zos_forward (fuel : nat) (keep : bool) (x : D) (c : mach) : option (mach * D) :=
  match revolveForward fuel keep (mk_mach (inf c) (num c) x (glob c)) with
  | Some c' => Some (c', buf c')
  | None => None
  end.

(** checkpointing, lines 663-690: the loop is executed while the outer tape is recorded *)
Definition checkpointing (fuel : nat) (keepTaylors : bool) (x : D) (c : mach) : option (mach * D) :=
  if keepTaylors then zos_forward fuel true x c
  else let s := iter (Z.to_nat (steps (inf c))) (x, glob c) in
       Some (mk_mach (inf c) (num c) (fst s) (snd s), fst s).

(** ::fos_reverse on the tape cpTapeId; fails unless values were kept *)
Definition sub_reverse (a : A) (c : mach) : option A :=
  match sub (inf c) with
  | Some (t, Some d) => Some (rev t d a)
  | _ => None
  end.
(** revolve_youturn up to the reverse step, lines 369-380 *)
Definition on_youturn (c : mach) : option mach :=
  if negb (retaping (inf c) =? 0) then Some (tapeStep true c)
  else match sub (inf c) with
       | None => None
       | Some (t, _) =>
           match zos t (buf c) with
           | Some d => Some (mk_mach (set_sub (inf c) t (Some (buf c))) (num c) d (glob c))
           | None => Some (tapeStep true c)
           end
       end.
(** revolve_restore, lines 386-391 *)
Definition on_restore (c : mach) : option mach :=
  let c1 := if negb (capo (ctl (inf c)) =? currentCP (inf c)) then release c else c in
  restore_ (mk_mach (set_cp (inf c1) (capo (ctl (inf c1)))) (num c1) (buf c1) (glob c1)).

(** the loop of fos_reverse, lines 352-403 *)
Fixpoint reverse_loop (fuel : nat) (a : A) (c : mach) : option (mach * A) :=
  match fuel with
  | O => None
  | S fuel =>
      match call c with
      | None => None
      | Some (terminate, c) => Some (c, a)
      | Some (takeshot, c) => reverse_loop fuel a (on_takeshot c)
      | Some (advance, c) => reverse_loop fuel a (on_advance c)
      | Some (youturn, c) =>
          match on_youturn c with
          | Some c => match sub_reverse a c with Some a => reverse_loop fuel a c | None => None end
          | None => None
          end
      | Some (restore, c) => match on_restore c with Some c => reverse_loop fuel a c | None => None end
      | Some (error, c) => if revolveError (info (ctl (inf c))) then None else Some (c, a)
      | Some (firsturn, _) => None
      end
  end.
(** fos_reverse, lines 330-411, and fov_reverse, lines 413-502, which differs only in the
    number of adjoints: new machine, z and the return code *)
Definition fos_reverse (fuel : nat) (u : A) (x : D) (c : mach) : option (mach * A * Z) :=
  let c := mk_mach (inf c) (num c) x (glob c) in
  match sub_reverse u c with
  | None => None
  | Some a =>
      match reverse_loop fuel a c with
      | Some (c, a) => Some (release c, a, 0)
      | None => None
      end
  end.

(** tapeStep of the anonymous namespace, lines 61-66: records without touching the state *)
Definition tapeCopy (d : D) (c : mach) : mach :=
  let (t, s) := trace (d, glob c) in
  mk_mach (set_sub (inf c) t None) (num c) (buf c) (snd s).
Definition run_fos (d : D) (v : V) (c : mach) : option (Z * D * V) :=
  match sub (inf c) with Some (t, _) => Some (fos t d v) | None => None end.
(** MINDEC, interfaces: (a) = the smaller one *)
Definition mindec (a b : Z) : Z := if b <? a then b else a.
(** the loop of fos_forward, lines 241-258 (fov_forward, lines 285-307, differs only in the
    number of tangents): [n] steps are left, [zero]: this is step 0 *)
Fixpoint fos_loop (n : nat) (zero : bool) (d : D) (v : V) (ret_c : Z) (c : mach) : option (mach * D * V * Z) :=
  match n with
  | O => Some (c, d, v, ret_c)
  | S n =>
      let c := if zero || negb (retaping (inf c) =? 0) then tapeCopy d c else c in
      match run_fos d v c with
      | None => None
      | Some (rc, d', v') =>
          if (rc <? 0) && (retaping (inf c) =? 0) then
            let c := tapeCopy d c in
            match run_fos d v c with
            | None => None
            | Some (rc, d', v') => fos_loop n false d' v' (mindec ret_c rc) c
            end
          else fos_loop n false d' v' (mindec ret_c rc) c
      end
  end.
(** fos_forward, lines 227-263 *)
Definition fos_forward (x : D) (X : V) (c : mach) : option (mach * D * V * Z) :=
  fos_loop (Z.to_nat (steps (inf c))) true x X 3 c.
End Cp.
