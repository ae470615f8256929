(* Vocabulary of C47, C48: Jacobian sparsity by bit pattern propagation. *)
Require Import List ZArith NArith Bool Arith Lia.
Require Import Verif.AdModel Verif.AdSpec Verif.SpSpec Verif.BvModel.
Import ListNotations.
Set Implicit Arguments.

(* A null pointer stands for an empty row. *)
Definition columns (r : option (list nat)) : list nat :=
  match r with Some l => l | None => [] end.

Section Spec.
Variable K : Arith.
Notation val := (V K).
Notation mem := (mem K).
Notation op := (op K).
Notation bop := (bop K).

(* If x and x' agree on the columns of row k, result k is the same. *)
Definition covers (m : nat) (c : crstore) (x x' : nat -> val) (y y' : list val)
  : Prop :=
  length y = m /\ length y' = m /\
  forall k, k < m -> (forall j, In j (columns (c k)) -> x j = x' j) ->
    nth_error y k = nth_error y' k.

(* Rows in increasing order, all columns below n. *)
Fixpoint increasing (l : list nat) : Prop :=
  match l with
  | a :: (b :: _) as r => a < b /\ increasing r
  | _ => True
  end.
Definition well_formed (n m : nat) (c : crstore) : Prop :=
  forall k, k < m -> increasing (columns (c k)) /\
                     (forall j, In j (columns (c k)) -> j < n).

(* The decisions of a sweep, as in SpSpec.v, but ceil and floor count as steps in
   the safe mode too: the bit pattern of their result is empty in both modes. *)
Definition bvchoices (tight : bool) (b : bop) (T : mem) : list (choice K) :=
  match b with
  | CeilOp _ a _ _ => [Step K (vceil K (T a))]
  | FloorOp _ a _ _ => [Step K (vfloor K (T a))]
  | _ => bchoices tight b T
  end.
Definition ovchoices (tight : bool) (o : op) (T : mem) : list (choice K) :=
  map (fun l => Place K (tgt T l)) (pointer o) ++ bvchoices tight (resolve T o) T.
Fixpoint vchoices (tight : bool) (ps x : nat -> val) (t : list op)
  (s : fstate K) : list (choice K) :=
  match t with
  | [] => []
  | o :: t' =>
      ovchoices tight o (fT s) ++
      match zstep ps x o s with
      | inl s' => vchoices tight ps x t' s'
      | inr _ => []
      end
  end.
Definition bvdecisions (tight : bool) (ps x : nat -> val) (g : mem)
  (t : list op) : list (choice K) :=
  vchoices tight ps x t (mkF g 0 [] 3%Z []).

(* Forward sweep: operations that lose a dependence.
   wide: more than one word for each variable. *)
Definition fwd_loses (wide : bool) (b : bop) : bool :=
  match b with
  | MinOp _ _ _ _ _ => wide
  | CondAssignS _ _ _ _ _ | CondEqAssignS _ _ _ _ _ => true
  | _ => false
  end.
Definition fwd_keeps (wide : bool) (t : list op) : bool :=
  forallb (fun o => match o with Plain b => negb (fwd_loses wide b)
                               | _ => true end) t.

(* Tight forward sweep: fmin of two different variables with equal values. *)
Fixpoint no_tie (ps x : nat -> val) (t : list op) (s : fstate K) : bool :=
  match t with
  | [] => true
  | o :: t' =>
      match resolve (fT s) o with
      | MinOp _ a1 a2 _ _ =>
          Nat.eqb a1 a2 || ltb K (fT s a2) (fT s a1) || ltb K (fT s a1) (fT s a2)
      | _ => true
      end &&
      match zstep ps x o s with
      | inl s' => no_tie ps x t' s'
      | inr _ => true
      end
  end.

(* Reverse sweep: operations that lose a dependence.
   - the assignment of a variable to itself,
   - vec_copy into an overlapping range, vec_axpy into a range that contains the
     factor or overlaps a vector without being that vector,
   - short conditional assignments (safe mode only). *)
Definition apart (a n b m : nat) : bool := Nat.leb (a + n) b || Nat.leb (b + m) a.
Definition rev_loses (tight : bool) (b : bop) : bool :=
  match b with
  | AssignA _ a r => Nat.eqb a r
  | VecCopy _ a n r => negb (apart a n r n)
  | VecAxpy _ a a1 a2 n r =>
      negb (apart a 1 r n && (Nat.eqb a1 r || apart a1 n r n)
            && (Nat.eqb a2 r || apart a2 n r n))
  | CondAssignS _ _ _ _ _ | CondEqAssignS _ _ _ _ _ => negb tight
  | _ => false
  end.
(* Locations that must not be read before they are assigned again: a dependent
   after its declaration, the helper of sin and cos, destroyed variables. *)
Definition stale (b : bop) (h : list nat) : list nat :=
  match b with
  | AssignDep _ r => r :: h
  | DeathNot _ a1 a2 => seq a1 (S a2 - a1) ++ h
  | SinOp _ _ a2 res | CosOp _ _ a2 res =>
      filter (fun l => negb (Nat.eqb l res)) (a2 :: h)
  | TakeStock _ _ _ _ | SetRef _ _ _ => h
  | _ => filter (fun l => negb (mem_nat l (bwrites b))) h
  end.
Fixpoint rev_keeps (tight : bool) (bs : list bop) (h : list nat) : bool :=
  match bs with
  | [] => true
  | b :: bs' =>
      negb (rev_loses tight b) &&
      forallb (fun l => negb (mem_nat l h)) (breads b) &&
      rev_keeps tight bs' (stale b h)
  end.

(* The operations of a tape without advector operations. *)
Definition plains (t : list op) : list bop :=
  flat_map (fun o => match o with Plain b => [b] | _ => [] end) t.
Definition is_plain (o : op) : bool :=
  match o with Plain _ => true | _ => false end.

(* Chains of operations: the variable at location l is used, directly or not, for
   dependent k (counted from here on); kill: a location written is not the same
   variable any more.  (SetRef, the index stored by an advector, leaves the row
   of its location alone.) *)
Definition overwrites (b : bop) : list nat :=
  match b with SetRef _ _ _ => [] | _ => bwrites b end.
Fixpoint flows (kill : bool) (bs : list bop) (l k : nat) : Prop :=
  match bs with
  | [] => False
  | AssignDep _ r :: bs' => (k = 0 /\ l = r) \/ (0 < k /\ flows kill bs' l (k - 1))
  | b :: bs' =>
      ((kill = true -> ~ In l (overwrites b)) /\ flows kill bs' l k) \/
      (In l (breads b) /\ exists r, In r (bwrites b) /\ flows kill bs' r k)
  end.
(* independent j is used, directly or not, for dependent k *)
Fixpoint feeds (kill : bool) (bs : list bop) (j k : nat) : Prop :=
  match bs with
  | [] => False
  | AssignInd _ r :: bs' =>
      match j with 0 => flows kill bs' r k | S j' => feeds kill bs' j' k end
  | AssignDep _ _ :: bs' => 0 < k /\ feeds kill bs' j (k - 1)
  | _ :: bs' => feeds kill bs' j k
  end.
End Spec.
Arguments is_plain {K} o.

(* Tight reverse sweep: the values that tell which operand an operation passes its
   row to.  They must be the values of the forward sweep when the reverse sweep
   gets there: every operation takes its value back from the Taylor stack (not
   div_a_a, nor x = c / x and x = pow(x, c) in place) and the needed values are
   among those restored (AdRestore.badset); the argument of fabs is not zero. *)
Require Import Verif.AdRestore.
Section Tight.
Variable K : Arith.
Notation val := (V K).
Notation mem := (mem K).
Definition needs (b : bop K) : list nat :=
  match b with
  | MinOp _ a1 a2 _ _ => [a1; a2]
  | AbsVal _ a _ _ => [a]
  | CondAssign _ a _ _ _ _ | CondEqAssign _ a _ _ _ _
  | CondAssignS _ a _ _ _ | CondEqAssignS _ a _ _ _ => [a]
  | _ => []
  end.
Definition smooth (b : bop K) (T : mem) : bool :=
  match b with
  | AbsVal _ a _ _ => ltb K (T a) (zero K) || ltb K (zero K) (T a)
  | _ => true
  end.
Fixpoint tight_ok (ex : bool) (ps x : nat -> val) (t : list (op K)) (i : nat)
  (T : mem) : Prop :=
  match t with
  | [] => True
  | o :: t' =>
      let b := resolve T o in
      skips b = false /\ smooth b T = true /\
      none_in (badset ex ps x t i T) (needs b) = true /\
      tight_ok ex ps x t' (if is_ind b then S i else i) (zval ps x i b T)
  end.
End Tight.
