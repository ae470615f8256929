(* sparse_jac: pattern, colouring, compressed Jacobian, recovery, and the data
   that are kept in the tape for later calls. *)
From Coq Require Import List ZArith Bool Arith.
Require Import Verif.AdModel Verif.AdRecord Verif.SpModel Verif.VecModel.
Import ListNotations.
Set Implicit Arguments.
Unset Asymmetric Patterns.

(* sparse_options.h: CompressionMode *)
Inductive compression := Column | Row.

(* ColPack (not part of the repository): number of colours and the colour of every
   column (COLUMN_PARTIAL_DISTANCE_TWO) or row (ROW_PARTIAL_DISTANCE_TWO) of a pattern
   with the given numbers of rows and columns. *)
Record colpack := mkC {
  by_cols : list (list nat) -> nat -> nat -> nat * (nat -> nat);
  by_rows : list (list nat) -> nat -> nat -> nat * (nat -> nat) }.

Section Sj.
Variable K : Arith.
Notation val := (V K).

(* sparseinfos.h: SparseJacInfos.  jp: JP_, None is a null pointer; seed: Seed_, None is
   nullptr; lcol, rcol: the colours kept in ColPack's graph object g_, None: an empty
   vector.  y_ and B_ are reallocated by every call and are not state. *)
Record infos := mkI {
  jp : list (option (list nat));
  seed : option (nat -> nat -> val);
  seedRows : nat; seedClms : nat;
  lcol : option (nat -> nat); rcol : option (nat -> nat);
  nnzIn : nat }.
Definition fresh : infos := mkI [] None 0 0 None None 0.

(* what a call does: it returns a code, it throws, or it reads through a null pointer
   or behind the end of a vector *)
Definition entry := (nat * nat * val)%type.
Inductive result :=
| Returns (code : Z) (st : infos) (out : list entry)
| Threw (st : infos)
| Undefined.

(* sparsedrivers.h:552-566 jac_pat with SparseMethod::IndexDomains *)
Definition pattern_of (tight : bool) (t : list (op K)) (ps x : nat -> val) (g : mem K) : sres :=
  if tight then @indopro_tight K ps x g t else @indopro_safe K t.

(* ColPack's GenerateSeedJacobian: column compression, one row per column of the Jacobian *)
Definition col_seed (c : nat -> nat) : nat -> nat -> val :=
  fun j l => if Nat.eqb (c j) l then one K else zero K.
(* row compression: one row per colour *)
Definition row_seed (c : nat -> nat) : nat -> nat -> val :=
  fun l i => if Nat.eqb (c i) l then one K else zero K.

(* sparsedrivers.h:680-716 buildJacPatternAndSeed.  setJP (686, sparseinfos.h:51) frees the
   old rows and puts null pointers; the other fields stay when jac_pat fails (691-694).
   Simplified: when jac_pat gives up, all rows are null; in the code the rows of the
   dependents declared before the point of failure are there. *)
Definition build (cp : colpack) (cm : compression) (pat : sres) (depen indep : nat) (st : infos)
  : result :=
  let nulls := mkI (repeat None depen) (seed st) (seedRows st) (seedClms st) (lcol st) (rcol st) (nnzIn st) in
  match pat with
  | SFail => Threw nulls
  | SAbort c => Returns c nulls []
  | SRows rows =>
      let nnz := fold_right (fun r s => length r + s) 0 rows in
      match cm with
      | Row => let (p, c) := by_rows cp rows depen indep in
          Returns (Z.of_nat p) (mkI (map Some rows) (Some (row_seed c)) p indep (Some c) None nnz) []
      | Column => let (p, c) := by_cols cp rows depen indep in
          Returns (Z.of_nat p) (mkI (map Some rows) (Some (col_seed c)) depen p None (Some c) nnz) []
      end
  end.

(* sparsedrivers.h:759-768 ensureSparseJacCacheInitialized *)
Definition cache_ok (st : infos) : bool :=
  match seed st with
  | None => false
  | Some _ => negb (Nat.eqb (seedRows st) 0) && negb (Nat.eqb (seedClms st) 0)
  end.

(* sparseinfos.cpp:115-169 recoverRowFormatUserMem, recoverColFormatUserMem: the loops
   over the rows of the pattern and the entries of a row *)
Fixpoint recover_rows (value : nat -> nat -> val) (i : nat) (rows : list (option (list nat)))
  : option (list entry) :=
  match rows with
  | [] => Some []
  | None :: _ => None
  | Some r :: rows' =>
      match recover_rows value (S i) rows' with
      | Some es => Some (map (fun j => (i, j, value i j)) r ++ es)
      | None => None
      end
  end.
Definition recover (cm : compression) (st : infos) (B : nat -> nat -> val) : option (list entry) :=
  match cm with
  | Row => match lcol st with
           | Some c => recover_rows (fun i j => B (c i) j) 0 (jp st)    (* 132: B_[colour][column] *)
           | None => None end
  | Column => match rcol st with
           | Some c => recover_rows (fun i j => B i (c j)) 0 (jp st)    (* 161: B_[row][colour] *)
           | None => None end
  end.

(* sparsedrivers.h:894-916 computeSparseJac.  g, gd, gT, gA, gz: memory that is not
   initialised.  fov_reverse returns 3 whenever it returns (C39), so MINDEC keeps the
   code of zos_forward. *)
Definition compute (cm : compression) (t : list (op K)) (ps x : nat -> val) (depen indep : nat)
  (g : mem K) (gd : vmem K) (gT : mem K) (gA : vmem K) (gz : nat -> nat -> val)
  (st : infos) (out : list entry) : result :=
  match seed st with
  | None => Undefined
  | Some sd =>
    match cm with
    | Row =>
        match @zos_forward K ps x g t with
        | Failed _ => Threw st
        | Done m =>
            if Z.ltb (frc m) 0 then Returns (frc m) st out else
            let r := @fov_reverse K (seedRows st) sd indep depen gT gA gz (fk m) t in
            match recover cm st (rvz r) with
            | Some es => Returns (frc m) st es
            | None => Undefined
            end
        end
    | Column =>
        match @fov_forward K (seedClms st) ps x sd g gd t with
        | None => Threw st
        | Some v =>
            match recover cm st (fun i => nth i (vyd v) (fun _ => zero K)) with
            | Some es => Returns (frc (vF v)) st es
            | None => Undefined
            end
        end
    end
  end.

(* sparsedrivers.h:1020-1045 sparse_jac.  first: repeat == 0; manual: MemoryHandler::Manual;
   out: the content of the SparseMatrix (validateManualStorage, 770-780, compares its size). *)
Definition sparse_jac (cp : colpack) (cm : compression) (tight manual : bool)
  (t : list (op K)) (ps x : nat -> val) (depen indep : nat) (first : bool)
  (g : mem K) (gd : vmem K) (gT : mem K) (gA : vmem K) (gz : nat -> nat -> val)
  (st : infos) (out : list entry) : result :=
  let go (st : infos) :=
    if manual && negb (Nat.eqb (length out) (nnzIn st)) then Returns (-3) st out
    else compute cm t ps x depen indep g gd gT gA gz st out in
  if first then
    match build cp cm (pattern_of tight t ps x g) depen indep st with
    | Returns c st' _ => if Z.ltb c 0 then Returns c st' out else go st'
    | r => r
    end
  else if cache_ok st then go st else Returns (-3) st out.

(* States that any sequence of calls for this trace with the same compression mode and
   the safe pattern leaves, at any points, also after failures and exceptions. *)
Inductive reached (cp : colpack) (cm : compression) (t : list (op K)) (depen indep : nat)
  : infos -> Prop :=
| reached_fresh : reached cp cm t depen indep fresh
| reached_ret st manual ps x first g gd gT gA gz out c st' out' :
    reached cp cm t depen indep st ->
    sparse_jac cp cm false manual t ps x depen indep first g gd gT gA gz st out = Returns c st' out' ->
    reached cp cm t depen indep st'
| reached_threw st manual ps x first g gd gT gA gz out st' :
    reached cp cm t depen indep st ->
    sparse_jac cp cm false manual t ps x depen indep first g gd gT gA gz st out = Threw st' ->
    reached cp cm t depen indep st'.

End Sj.
