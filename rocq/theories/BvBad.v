(* C47, C48: tapes the bit pattern sweeps get wrong, and tapes that meet the
   hypotheses of BvProps.v, in double arithmetic. *)
From Coq Require Import List ZArith NArith Bool Arith Lia SpecFloat.
From Flocq Require Import Core BinarySingleNaN.
Require Import Verif.AdModel Verif.AdRecord Verif.AdSpec Verif.SpSpec Verif.AdRestore Verif.Binary64
  Verif.BvModel Verif.BvSpec Verif.BvProps.
Import ListNotations.
Set Implicit Arguments.
Unset Asymmetric Patterns.
Open Scope nat_scope.

Definition M0 : Libm := {| m_fn := fun _ v => v; m_pow := fun _ _ => bz; m_ceil := fun v => v; m_floor := fun v => v |}.
Definition K0 := binary64 M0.
Definition bm1 : b64 := Bopp b1.
Definition g0 : mem K0 := fun _ => bz.
Definition pt (l : list b64) : nat -> V K0 := fun i => nth i l bz.
Definition no_ps : nat -> V K0 := fun _ => bz.

(* jac_pat returned rows that do not cover result k between x and x' *)
Definition loses (m : nat) (r : bvres) (tight : bool) (x x' : nat -> V K0) (t : list (op K0)) : Prop :=
  exists c e e', r = BvRows c /\
    zos_forward no_ps x g0 t = Done e /\ zos_forward no_ps x' g0 t = Done e' /\
    (0 <= frc e)%Z /\ (0 <= frc e')%Z /\
    bvdecisions tight no_ps x g0 t = bvdecisions tight no_ps x' g0 t /\
    ~ @covers K0 m c x x' (fy e) (fy e').

(* a Boolean test for that *)
Definition sf_eqb (a b : spec_float) : bool :=
  match a, b with
  | S754_zero s, S754_zero s' => Bool.eqb s s'
  | S754_finite s m e, S754_finite s' m' e' => Bool.eqb s s' && Pos.eqb m m' && Z.eqb e e'
  | S754_infinity s, S754_infinity s' => Bool.eqb s s'
  | S754_nan, S754_nan => true
  | _, _ => false
  end.
Lemma sf_eqb_refl a : sf_eqb a a = true.
Proof. destruct a; cbn; rewrite ?eqb_reflx, ?Pos.eqb_refl, ?Z.eqb_refl; reflexivity. Qed.
Fixpoint branches (l l' : list (choice K0)) : bool :=
  match l, l' with
  | [], [] => true
  | Branch _ b :: r, Branch _ b' :: r' => Bool.eqb b b' && branches r r'
  | _, _ => false
  end.
Lemma branches_eq l : forall l', branches l l' = true -> l = l'.
Proof.
  induction l as [|[b|p|v] l IH]; intros [|[b'|p'|v'] l'] H; cbn in H; try discriminate; auto.
  apply andb_true_iff in H. destruct H as [H1 H2]. apply eqb_prop in H1. subst. f_equal. auto.
Qed.
Fixpoint nats (l l' : list nat) : bool :=
  match l, l' with
  | [], [] => true
  | a :: r, b :: r' => Nat.eqb a b && nats r r'
  | _, _ => false
  end.
Lemma nats_eq l : forall l', nats l l' = true -> l = l'.
Proof.
  induction l as [|b l IH]; intros [|b' l'] H; cbn in H; try discriminate; auto.
  apply andb_true_iff in H. destruct H as [H1 H2]. apply Nat.eqb_eq in H1. subst. f_equal. auto.
Qed.
Definition test (r : bvres) (tight : bool) (x x' : nat -> V K0) (t : list (op K0)) (k : nat) (cols : list nat) : bool :=
  match r, zos_forward no_ps x g0 t, zos_forward no_ps x' g0 t with
  | BvRows c, Done e, Done e' =>
      nats (columns (c k)) cols && (0 <=? frc e)%Z && (0 <=? frc e')%Z &&
      match nth_error (fy e) k, nth_error (fy e') k with
      | Some v, Some v' => negb (sf_eqb (@B2SF 53 1024 v) (@B2SF 53 1024 v'))
      | _, _ => false
      end && branches (bvdecisions tight no_ps x g0 t) (bvdecisions tight no_ps x' g0 t)
  | _, _, _ => false
  end.
Lemma loses_intro m (r : list (op K0) -> bvres) tight x x' (o : option (list (op K0))) k cols :
  match o with Some t => test (r t) tight x x' t k cols | None => false end = true ->
  k < m -> (forall j, In j cols -> x j = x' j) ->
  exists t, o = Some t /\ loses m (r t) tight x x' t.
Proof.
  intros H Hk A. destruct o as [t|]; [|discriminate H]. exists t. split; auto. unfold test in H.
  destruct (r t) as [c| | | |]; try discriminate H.
  destruct (zos_forward no_ps x g0 t) as [e|] eqn:Z; try discriminate H.
  destruct (zos_forward no_ps x' g0 t) as [e'|] eqn:Z'; try discriminate H.
  rewrite !andb_true_iff in H. destruct H as ((((C & F) & F') & Y) & D). exists c, e, e'.
  do 3 (split; [auto|]). apply Z.leb_le in F. apply Z.leb_le in F'.
  apply branches_eq in D. apply nats_eq in C.
  do 3 (split; [auto|]). intros (_ & _ & Q). specialize (Q k Hk).
  rewrite C in Q. specialize (Q A). rewrite Q in Y.
  destruct (nth_error (fy e') k); try discriminate Y. now rewrite sf_eqb_refl in Y.
Qed.
Lemma recorded (o : option (list (op K0))) (P : list (op K0) -> Prop) :
  match o with Some t => P t | None => False end -> exists t, o = Some t /\ P t.
Proof. destruct o; [eauto|tauto]. Qed.
Notation rec n x p := (@record K0 g0 [] n no_ps x p).

Ltac by_cases := intros j Hj; cbn in Hj;
  repeat match type of Hj with _ \/ _ => destruct Hj as [<-|Hj] end; try reflexivity; try contradiction.

(* A constant result: the row stays a null pointer (sparsedrivers.cpp:39-73). *)
Definition const_prog : prog K0 :=
  Do (CInd K0 0) (Do (CConst K0 1 b1) (Do (CDep K0 1) (Ret K0))).
Theorem C47_constant_row_null_refuted :
  exists t, rec 1 (pt [b1]) const_prog = Some t /\
  exists c, fwd_safe 32 1 1 t = BvRows c /\ c 0 = None.
Proof.
  apply recorded.
  assert (Q : match rec 1 (pt [b1]) const_prog with
    Some t => match fwd_safe 32 1 1 t with BvRows c => match c 0 with None => true | _ => false end
              | _ => false end | None => false end = true) by (vm_compute; reflexivity).
  destruct (rec 1 (pt [b1]) const_prog) as [t|]; [|discriminate Q].
  destruct (fwd_safe 32 1 1 t) as [c| | | |]; try discriminate Q. exists c. split; auto.
  destruct (c 0); [discriminate Q|reflexivity].
Qed.

(* 961 independents (32 bit words): y = x[960].  The first strip finds nothing in
   row 0 and does not allocate it; the second strip reads row[0] of a null pointer. *)
Fixpoint many (k i : nat) (p : prog K0) : prog K0 :=
  match k with 0 => p | S k' => Do (CInd K0 i) (many k' (S i) p) end.
Definition crash_prog : prog K0 := many 961 0 (Do (CDep K0 960) (Ret K0)).
Theorem C47_many_independents_crash_refuted :
  exists t, rec 960 (pt []) crash_prog = Some t /\ fwd_safe 32 961 1 t = BvCrash.
Proof.
  apply recorded.
  assert (Q : match rec 960 (pt []) crash_prog with
    Some t => match fwd_safe 32 961 1 t with BvCrash => true | _ => false end
    | None => false end = true) by (vm_compute; reflexivity).
  destruct (rec 960 (pt []) crash_prog) as [t|]; [|discriminate Q].
  destruct (fwd_safe 32 961 1 t); try discriminate Q. reflexivity.
Qed.

(* y = fmin(x[0], x[32]), 33 independents: column 32 is in the second word. *)
Definition fmin_prog : prog K0 := many 33 0
  (Do (CMin K0 (Fresh 33) 0 32) (Do (CDep K0 33) (Ret K0))).
Definition at32 (v : b64) : nat -> V K0 := fun i => if Nat.eqb i 32 then v else b1.
Theorem C47_fmin_wide_refuted :
  exists t, rec 33 (at32 bz) fmin_prog = Some t /\
  loses 1 (fwd_safe 32 33 1 t) false (at32 bz) (at32 bm1) t.
Proof.
  refine (@loses_intro _ (fun t => _) _ _ _ _ 0 [0] _ _ _); [vm_compute; reflexivity|lia|by_cases].
Qed.

(* condassign(y, x0, x2) with y = x1 before, x0 < 0 *)
Definition short_prog : prog K0 :=
  Do (CInd K0 0) (Do (CInd K0 1) (Do (CInd K0 2) (Do (CCopy K0 1 3)
  (Do (CCondS K0 3 0 2) (Do (CDep K0 3) (Ret K0)))))).
Theorem C47_short_condassign_refuted :
  exists t, rec 3 (pt [bm1; bz; bz]) short_prog = Some t /\
  loses 1 (fwd_safe 32 3 1 t) false (pt [bm1; bz; bz]) (pt [bm1; b1; bz]) t.
Proof.
  refine (@loses_intro _ (fun t => _) _ _ _ _ 0 [2] _ _ _); [vm_compute; reflexivity|lia|by_cases].
Qed.
Theorem C48_short_condassign_refuted :
  exists t, rec 3 (pt [bm1; bz; bz]) short_prog = Some t /\
  loses 1 (rev_safe 32 (fun _ => rzero) 3 1 t) false (pt [bm1; bz; bz]) (pt [bm1; b1; bz]) t.
Proof.
  refine (@loses_intro _ (fun t => _) _ _ _ _ 0 [2] _ _ _); [vm_compute; reflexivity|lia|by_cases].
Qed.

(* y = x0; y >>= d0; z = y; z >>= d1: the second row of the reverse sweep is empty *)
Definition reuse_prog : prog K0 :=
  Do (CInd K0 0) (Do (CCopy K0 0 1) (Do (CDep K0 1) (Do (CCopy K0 1 2) (Do (CDep K0 2) (Ret K0))))).
Theorem C48_dependent_reused_refuted :
  exists t, rec 2 (pt [b1]) reuse_prog = Some t /\
  loses 2 (rev_safe 32 (fun _ => rzero) 1 2 t) false (pt [bz]) (pt [b1]) t.
Proof.
  refine (@loses_intro _ (fun t => _) _ _ _ _ 1 [] _ _ _); [vm_compute; reflexivity|lia|by_cases].
Qed.

(* fabs at 0, tight, reverse: row empty *)
Definition abs_prog : prog K0 :=
  Do (CInd K0 0) (Do (CUn K0 UAbs (Fresh 1) 0) (Do (CDep K0 1) (Ret K0))).
Theorem C48_fabs_at_zero_refuted :
  exists t, rec 1 (pt [bz]) abs_prog = Some t /\
  loses 1 (rev_tight 32 no_ps (pt [bz]) g0 g0 (fun _ => rzero) 1 1 t) true (pt [bz]) (pt [b1]) t.
Proof.
  refine (@loses_intro _ (fun t => _) _ _ _ _ 0 [] _ _ _); [vm_compute; reflexivity|lia|by_cases].
Qed.

(* a = x0; condassign(y, a, x1, x2); a = std::move(a) / x3, in place:
   the reverse sweep does not undo the division and takes the other branch. *)
Definition div_prog : prog K0 :=
  Do (CInd K0 0) (Do (CInd K0 1) (Do (CInd K0 2) (Do (CInd K0 3) (Do (CCopy K0 0 4)
  (Do (CDefault K0 5) (Do (CCond K0 5 4 1 2) (Do (CBin K0 BDiv Temp 4 3)
  (Do (CDep K0 5) (Ret K0))))))))).
Theorem C48_division_wrong_branch_refuted :
  exists t, rec 5 (pt [b1; bz; bz; bm1]) div_prog = Some t /\
  loses 1 (rev_tight 32 no_ps (pt [b1; bz; bz; bm1]) g0 g0 (fun _ => rzero) 4 1 t) true
    (pt [b1; bz; bz; bm1]) (pt [b1; b1; bz; bm1]) t.
Proof.
  refine (@loses_intro _ (fun t => _) _ _ _ _ 0 [2] _ _ _); [vm_compute; reflexivity|lia|by_cases].
Qed.

(* The hypotheses of C47 and C48 can be met:
   y0 = sin(x0*x1) + x2; condassign(y1, x0, x0*x1, x2). *)
Definition ex_tape (K : Arith) (c : V K) : list (op K) :=
  [Plain (AssignInd K 0); Plain (AssignInd K 1); Plain (AssignInd K 2); Plain (MultAA K 0 1 3);
   Plain (SinOp K 3 4 5); Plain (PlusAA K 5 2 6); Plain (CondAssign K 0 3 2 7 c);
   Plain (AssignDep K 6); Plain (AssignDep K 7); Plain (DeathNot K 0 7)].
Lemma rows_of (r : bvres) (l l' : list nat) :
  match r with BvRows c => nats (columns (c 0)) l && nats (columns (c 1)) l' | _ => false end = true ->
  exists c, r = BvRows c /\ columns (c 0) = l /\ columns (c 1) = l'.
Proof.
  destruct r as [c| | | |]; try discriminate. intros H. apply andb_true_iff in H. destruct H as [H1 H2].
  exists c. auto using nats_eq.
Qed.
Theorem C47_C48_safe_example (K : Arith) (c : V K) (gz : nat -> row) :
  fwd_keeps (Nat.ltb 1 (words 32 3)) (ex_tape K c) = true /\
  rev_keeps false (plains (ex_tape K c)) [] = true /\
  (exists r, fwd_safe 32 3 2 (ex_tape K c) = BvRows r /\ columns (r 0) = [0; 1; 2] /\ columns (r 1) = [0; 1; 2]) /\
  (exists r, rev_safe 32 gz 3 2 (ex_tape K c) = BvRows r /\ columns (r 0) = [0; 1; 2] /\ columns (r 1) = [0; 1; 2]).
Proof.
  split; [reflexivity|]. split; [reflexivity|]. split; apply rows_of; vm_compute; reflexivity.
Qed.
Lemma ex_traceable K ps x g c : traceable false ps x (ex_tape K c) 0 g.
Proof. repeat split; cbn; auto; lia. Qed.
Lemma ex_tight_ok K ps x g c : tight_ok false ps x (ex_tape K c) 0 g.
Proof. repeat split. Qed.
Lemma ended (o : outcome K0) :
  match o with Done e => (0 <=? frc e)%Z | _ => false end = true ->
  exists e, o = Done e /\ (0 <= frc e)%Z.
Proof. destruct o as [e|]; [|discriminate]. intros H. apply Z.leb_le in H. eauto. Qed.
(* at x0 > 0 the second row of the tight pattern is without x2 *)
Theorem C48_tight_example (gT : mem K0) (gz : nat -> row) :
  let x := pt [b1; b2; b1] in
  (exists e, zos_forward no_ps x g0 (ex_tape K0 b1) = Done e /\ (0 <= frc e)%Z) /\
  traceable false no_ps x (ex_tape K0 b1) 0 g0 /\ tight_ok false no_ps x (ex_tape K0 b1) 0 g0 /\
  rev_keeps true (operations no_ps x g0 (ex_tape K0 b1)) [] = true /\
  (exists r, rev_tight 32 no_ps x g0 gT gz 3 2 (ex_tape K0 b1) = BvRows r /\
     columns (r 0) = [0; 1; 2] /\ columns (r 1) = [0; 1]).
Proof.
  split; [apply ended; vm_compute; reflexivity|].
  split; [apply ex_traceable|]. split; [apply ex_tight_ok|].
  split; [vm_compute; reflexivity|].
  apply rows_of. vm_compute. reflexivity.
Qed.
(* y0 = sin(x0*x1) + x2; y1 = fmin(x0*x1, x2) *)
Definition ex2_tape (K : Arith) (c : V K) : list (op K) :=
  [Plain (AssignInd K 0); Plain (AssignInd K 1); Plain (AssignInd K 2); Plain (MultAA K 0 1 3);
   Plain (SinOp K 3 4 5); Plain (PlusAA K 5 2 6); Plain (MinOp K 3 2 7 c);
   Plain (AssignDep K 6); Plain (AssignDep K 7); Plain (DeathNot K 0 7)].
Theorem C47_tight_example :
  let x := pt [b1; b2; b1] in
  (exists e, zos_forward no_ps x g0 (ex2_tape K0 b1) = Done e /\ (0 <= frc e)%Z) /\
  no_tie no_ps x (ex2_tape K0 b1) (mkF g0 0 [] 3%Z []) = true /\
  (exists r, fwd_tight 32 no_ps x g0 3 2 (ex2_tape K0 b1) = BvRows r /\
     columns (r 0) = [0; 1; 2] /\ columns (r 1) = [2]).
Proof.
  split; [apply ended; vm_compute; reflexivity|].
  split; [vm_compute; reflexivity|].
  apply rows_of. vm_compute. reflexivity.
Qed.
