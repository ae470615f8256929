(* C54: programs of plain arithmetic make no decisions, so that the pattern is right at every point. *)
From Coq Require Import List Arith Bool Lia Reals.
From Coquelicot Require Import Coquelicot.
Require Import Verif.IndoModel Verif.IndoProps.
Import ListNotations.
Local Open Scope nat_scope.

(* constructors, + - * /, atan2, pow, ldexp, ++, --, every unary function except ceil and floor,
   assignments; no comparison, no condassign, no fmax or fmin, no plain read *)
Definition smooth_call {N} (c : call N) : Prop :=
  match c with
  | Un Ceil _ _ | Un Floor _ _ => False
  | Fmax _ _ _ | Fmin _ _ _ => False
  | Condassign _ _ _ _ | Condassign1 _ _ _ | Condeqassign _ _ _ _ | Condeqassign1 _ _ _ => False
  | _ => True
  end.
Fixpoint straight {N} (p : prog N) : Prop :=
  match p with
  | Ret => True
  | Do c p => smooth_call c /\ straight p
  | If _ _ _ _ | Get _ _ => False
  end.

Lemma straight_quiet {N} (p : prog N) : forall M, straight p -> snd (run p M) = [].
Proof.
  induction p as [|c p IH|r x y k IH|o k IH]; intros M S; cbn [run straight] in *; [reflexivity| |tauto|tauto].
  destruct S as [Sc Sp].
  assert (E : snd (exec M c) = []) by (destruct c as [| | |f ? ?| | | | | | | | | | | | | |]; try reflexivity; try contradiction; destruct f; try reflexivity; contradiction).
  destruct (exec M c) as [M1 l1]. cbn [snd] in E. specialize (IH M1 Sp). destruct (run p M1) as [M2 l2].
  cbn [snd] in *. now subst.
Qed.

(* For such programs the pattern of every object is the same at all points, and the value of the object
   depends on no independent variable that is not in it. *)
Theorem C54_straight {N} (p : prog N) (M1 M2 : mem N) a n start o :
  legal p -> straight p -> (forall o', ~ (a <= o' < a + n) -> M1 o' = M2 o') ->
  let b1 := fst (run p (init_pattern M1 a n start)) o in
  let b2 := fst (run p (init_pattern M2 a n start)) o in
  pat b1 = pat b2 /\
  ((forall i, i < n -> In (i + start) (pat b1) -> val (M1 (a + i)) = val (M2 (a + i))) -> val b1 = val b2).
Proof.
  intros Lp Sp Eo. apply C54_pattern; [exact Lp|exact Eo|]. now rewrite !straight_quiet.
Qed.

(* over the reals: a nonzero partial derivative is in the pattern, with no condition on the point *)
Section Reals.
Variables (g1 : unary -> R -> R) (g2 : binary -> R -> R -> R) (gt : rel -> R -> R -> bool) (c0 c1 c2 : R).
Let N := mkNum R g1 g2 gt c0 c1 c2.
Theorem C54_straight_jacobian (p : prog N) (M : mem N) a n start o k (d : R) :
  legal p -> straight p -> k < n ->
  is_derive (fun s => val (fst (run p (init_pattern (moved g1 g2 gt c0 c1 c2 M (a + k) s) a n start)) o) : R)
    (val (M (a + k)) : R) d -> d <> 0%R ->
  In (k + start) (pat (fst (run p (init_pattern M a n start)) o)).
Proof.
  intros Lp Sp Hk Hd Hn. eapply C54_jacobian; eauto.
  apply filter_forall. intros s. now rewrite !straight_quiet.
Qed.
End Reals.

(* the programs are not trivial: y = fabs(x0) * sin(x1); ++y is one of them *)
Lemma C54_straight_met {N} : exists p : prog N, legal p /\ straight p /\ forall M : mem N,
  pat (fst (run p (init_pattern M 0 3 0)) 6) = [0; 1].
Proof.
  exists (Do (Un Fabs 3 0) (Do (Un Sin 4 1) (Do (Bin Mul 5 (Ob 3) (Ob 4)) (Do (PreStep Add 6 5) Ret)))).
  split; [cbn; tauto|]. split; [cbn; tauto|]. intros M. reflexivity.
Qed.
