(* Linearisation of one operation, its transpose, and the bookkeeping of a
   reverse sweep.  Specification side of C15 / C16: nothing here is a model of
   code except where it says so. *)
From Coq Require Import List ZArith Bool Arith Lia Reals Lra.
Require Import Verif.AdModel Verif.AdRecord Verif.AdSpec Verif.AdReplay Verif.AdRestore
  Verif.AdReal.
Import ListNotations.
Set Implicit Arguments.
Unset Asymmetric Patterns.
Local Open Scope R_scope.

Notation rmem := (nat -> R).
Definition rupd (T : rmem) (i : nat) (v : R) : rmem := @upd reals T i v.

(* inner product over the locations 0 .. N-1 *)
Fixpoint dot (N : nat) (A D : rmem) : R :=
  match N with O => 0 | S n => dot n A D + A n * D n end.

Lemma dot_ext N A A' D D' : (forall l, (l < N)%nat -> A l * D l = A' l * D' l) ->
  dot N A D = dot N A' D'.
Proof.
  induction N as [|N IH]; intros H; cbn; auto.
  rewrite (H N) by lia. rewrite IH; auto.
Qed.
Lemma dot_zero N A D : (forall l, (l < N)%nat -> A l = 0) -> dot N A D = 0.
Proof.
  induction N as [|N IH]; intros H; cbn; auto.
  rewrite (H N) by lia. rewrite IH by auto. ring.
Qed.
Lemma rupd_eq T i v : rupd T i v i = v.
Proof. unfold rupd, upd. now rewrite Nat.eqb_refl. Qed.
Lemma rupd_neq T i j v : j <> i -> rupd T i v j = T j.
Proof. intros H. unfold rupd, upd. apply Nat.eqb_neq in H. now rewrite H. Qed.
Lemma dot_updA N A D l v : (l < N)%nat ->
  dot N (rupd A l v) D = dot N A D + (v - A l) * D l.
Proof.
  induction N as [|N IH]; intros H; [lia|]. cbn.
  destruct (Nat.eq_dec l N) as [->|Hn].
  - rewrite rupd_eq.
    rewrite (@dot_ext N (rupd A N v) A D D); [ring|].
    intros k Hk. rewrite rupd_neq by lia. ring.
  - rewrite IH by lia. rewrite rupd_neq by lia. ring.
Qed.
Lemma dot_updD N A D l v : (l < N)%nat ->
  dot N A (rupd D l v) = dot N A D + A l * (v - D l).
Proof.
  induction N as [|N IH]; intros H; [lia|]. cbn.
  destruct (Nat.eq_dec l N) as [->|Hn].
  - rewrite rupd_eq.
    rewrite (@dot_ext N A A (rupd D N v) D); [ring|].
    intros k Hk. rewrite rupd_neq by lia. ring.
  - rewrite IH by lia. rewrite rupd_neq by lia. ring.
Qed.

(* One assignment: the tangent of res becomes sum c_i * tangent(arg_i).  *)
Definition lin (ts : list (R * nat)) (D : rmem) : R :=
  fold_right (fun (t : R * nat) (s : R) => fst t * D (snd t) + s) 0 ts.
(* Its transpose: the adjoint of res is taken out and distributed.        *)
Definition scatter (a : R) (ts : list (R * nat)) (A : rmem) : rmem :=
  fold_left (fun A t => rupd A (snd t) (A (snd t) + fst t * a)) ts A.
Definition adjlin (res : nat) (ts : list (R * nat)) (A : rmem) : rmem :=
  scatter (A res) ts (rupd A res 0).

Lemma scatter_dot N a ts : forall A D, (forall t, In t ts -> (snd t < N)%nat) ->
  dot N (scatter a ts A) D = dot N A D + a * lin ts D.
Proof.
  induction ts as [|[c l] ts IH]; intros A D H.
  - cbn. ring.
  - change (scatter a ((c, l) :: ts) A) with (scatter a ts (rupd A l (A l + c * a))).
    rewrite IH by (intros; apply H; cbn; auto).
    rewrite dot_updA by (apply (H (c, l)); cbn; auto).
    change (lin ((c, l) :: ts) D) with (c * D l + lin ts D). ring.
Qed.
Lemma adjlin_dot N res ts A D : (res < N)%nat -> (forall t, In t ts -> (snd t < N)%nat) ->
  dot N (adjlin res ts A) D = dot N A (rupd D res (lin ts D)).
Proof.
  intros Hr Ht. unfold adjlin. rewrite scatter_dot by auto.
  rewrite dot_updA, dot_updD by auto. ring.
Qed.

(* ------------------------------------------------------------------ *)
(* The linearised operations. T / T': values before / after.            *)

Definition deriv_terms (b : bop reals) (T T' : rmem) : option (nat * list (R * nat)) :=
  match b with
  | AssignA _ arg res => Some (res, [(1, arg)])
  | AssignD _ res _ | AssignP _ _ res | AssignD0 _ res | AssignD1 _ res => Some (res, [])
  | EqPlusA _ arg res => Some (res, [(1, res); (1, arg)])
  | EqMinA _ arg res => Some (res, [(1, res); (-1, arg)])
  | EqMultD _ res c => Some (res, [(c, res)])
  | EqMultA _ arg res => Some (res, [(T arg, res); (T res, arg)])
  | PlusAA _ a1 a2 res => Some (res, [(1, a1); (1, a2)])
  | PlusDA _ arg res _ | PosSign _ arg res => Some (res, [(1, arg)])
  | MinAA _ a1 a2 res => Some (res, [(1, a1); (-1, a2)])
  | MinDA _ arg res _ | NegSign _ arg res => Some (res, [(-1, arg)])
  | MultAA _ a1 a2 res => Some (res, [(T a2, a1); (T a1, a2)])
  | EqPlusProd _ a1 a2 res => Some (res, [(1, res); (T a2, a1); (T a1, a2)])
  | EqMinProd _ a1 a2 res => Some (res, [(1, res); (- T a2, a1); (- T a1, a2)])
  | MultDA _ arg res c => Some (res, [(c, arg)])
  | DivAA _ a1 a2 res => Some (res, [(/ T a2, a1); (- T' res * / T a2, a2)])
  | DivDA _ arg res _ => Some (res, [(- T' res * / T arg, arg)])
  | ExpOp _ arg res => Some (res, [(T' res, arg)])
  | SinOp _ a1 a2 res => Some (res, [(T' a2, a1)])
  | CosOp _ a1 a2 res => Some (res, [(- T' a2, a1)])
  | HelpOp _ _ a1 a2 res => Some (res, [(T a2, a1)])
  | LogOp _ arg res => Some (res, [(/ T arg, arg)])
  | PowOp _ arg res c =>
      Some (res, [(if Reqb (T arg) 0 then 0 else T' res * c / T arg, arg)])
  | SqrtOp _ arg res => Some (res, [(/ 2 / T' res, arg)])
  | CbrtOp _ arg res => Some (res, [(1 / (3 * T' res * T' res), arg)])
  | GenQuad _ a1 a2 res _ _ => Some (res, [(T' a2, a1)])
  | MinOp _ a1 a2 res _ => Some (res, [(1, if Rltb (T a2) (T a1) then a2 else a1)])
  | AbsVal _ arg res _ => Some (res, [(if Rltb (T arg) 0 then -1 else 1, arg)])
  | CeilOp _ arg res _ | FloorOp _ arg res _ => Some (res, [])
  | CondAssign _ arg a1 a2 res _ => Some (res, [(1, if Rltb 0 (T arg) then a1 else a2)])
  | CondEqAssign _ arg a1 a2 res _ => Some (res, [(1, if Rleb 0 (T arg) then a1 else a2)])
  | CondAssignS _ arg a1 res _ => Some (res, [(1, if Rltb 0 (T arg) then a1 else res)])
  | CondEqAssignS _ arg a1 res _ => Some (res, [(1, if Rleb 0 (T arg) then a1 else res)])
  | VecDot _ a1 a2 n res =>
      Some (res, flat_map (fun q => [(T (a1 + q)%nat, (a2 + q)%nat);
                                     (T (a2 + q)%nat, (a1 + q)%nat)]) (seq 0 n))
  | _ => None
  end.

(* Where forward and reverse mode both are linear: away from kinks and poles. *)
Definition regular (b : bop reals) (T T' : rmem) : Prop :=
  match b with
  | HelpOp _ f a1 a2 res => forall d, help_special reals f (T' a1) d = None
  | LogOp _ arg res => T arg <> 0
  | PowOp _ arg res c => T arg <> 0 \/ 1 < c
  | SqrtOp _ arg res | CbrtOp _ arg res => T' arg <> 0 /\ T' res <> 0
  | MinOp _ a1 a2 res _ => T a1 <> T a2 \/ a1 = a2
  | AbsVal _ arg res _ => T arg <> 0
  | _ => True
  end.

(* ------------------------------------------------------------------ *)
(* Bookkeeping, from the end of the trace to its start.
   dirt: locations whose adjoint may be anything,
   used: locations that may have a non-zero adjoint.                     *)
Record sets := mkS { dirt : nat -> bool; used : nat -> bool }.
Definition below (N : nat) (s : list nat) : bool := forallb (fun l => Nat.ltb l N) s.
Definition apartb (a n b m : nat) : bool := Nat.leb (a + n) b || Nat.leb (b + m) a.

(* Operations with one result: result, arguments that get an adjoint, values
   needed as they are after / before the operation, further conditions. *)
Definition shape (b : bop reals) : option (nat * list nat * list nat * list nat * bool) :=
  match b with
  | AssignA _ arg res => Some (res, [arg], [], [], negb (arg =? res)%nat)
  | EqPlusA _ arg res | EqMinA _ arg res => Some (res, [res; arg], [], [], true)
  | EqMultD _ res _ => Some (res, [res], [], [], true)
  | EqMultA _ arg res => Some (res, [res; arg], [], [arg; res], true)
  | PlusAA _ a1 a2 res | MinAA _ a1 a2 res => Some (res, [a1; a2], [], [], true)
  | PlusDA _ arg res _ | PosSign _ arg res | MinDA _ arg res _ | NegSign _ arg res
  | MultDA _ arg res _ => Some (res, [arg], [], [], true)
  | MultAA _ a1 a2 res => Some (res, [a1; a2], [], [a1; a2], true)
  | DivAA _ a1 a2 res => Some (res, [a1; a2], [res], [a2], true)
  | DivDA _ arg res _ => Some (res, [arg], [res], [arg], true)
  | ExpOp _ arg res => Some (res, [arg], [res], [], true)
  | HelpOp _ _ a1 a2 res => Some (res, [a1], [], [a2], negb (a2 =? res)%nat)
  | LogOp _ arg res => Some (res, [arg], [], [arg], true)
  | PowOp _ arg res _ => Some (res, [arg], [res], [arg], true)
  | SqrtOp _ arg res | CbrtOp _ arg res => Some (res, [arg], [res], [], true)
  | GenQuad _ a1 a2 res _ _ => Some (res, [a1], [a2], [], true)
  | MinOp _ a1 a2 res _ => Some (res, [a1; a2], [], [a1; a2], true)
  | AbsVal _ arg res _ => Some (res, [arg], [], [arg], true)
  | CondAssign _ arg a1 a2 res _ | CondEqAssign _ arg a1 a2 res _ =>
      Some (res, [a1; a2], [], [arg], true)
  | CondAssignS _ arg a1 res _ | CondEqAssignS _ arg a1 res _ =>
      Some (res, [a1; res], [], [arg], true)
  | _ => None
  end.

Definition upd_used (f : nat -> bool) (res : nat) (args : list nat) : nat -> bool :=
  if f res then sadd (sdel f [res]) args else sdel f [res].

(* bad: locations whose value may be wrong after b.
   None: the reverse sweep may go wrong here. *)
Definition aback (N : nat) (b : bop reals) (bad : nat -> bool) (s : sets) : option sets :=
  match b with
  | Cmp _ _ _ | EqPlusD _ _ _ | EqMinD _ _ _ | Incr _ _ | Decr _ _ | SetRef _ _ _ => Some s
  | AssignD _ res _ | AssignP _ _ res | AssignD0 _ res | AssignD1 _ res
  | CeilOp _ _ res _ | FloorOp _ _ res _ =>
      if below N [res]
      then Some (mkS (sdel (dirt s) [res]) (sdel (used s) [res]))
      else None
  | AssignInd _ res =>
      if below N [res] && none_in (dirt s) [res]
      then Some (mkS (sadd (dirt s) [res]) (sdel (used s) [res]))
      else None
  | AssignDep _ res =>
      if below N [res] && none_in (used s) [res]
      then Some (mkS (sdel (dirt s) [res]) (sadd (used s) [res]))
      else None
  | EqPlusProd _ a1 a2 res | EqMinProd _ a1 a2 res =>
      if below N [a1; a2; res] && none_in (dirt s) [res] && none_in bad [a1; a2]
         && negb (a1 =? res)%nat && negb (a2 =? res)%nat
      then Some (mkS (dirt s) (upd_used (used s) res [res; a1; a2]))
      else None
  | SinOp _ a1 a2 res | CosOp _ a1 a2 res =>
      if below N [a1; a2; res] && none_in (dirt s) [res] && none_in bad [a2]
         && none_in (used s) [a2] && negb (a2 =? res)%nat && negb (a2 =? a1)%nat
      then Some (mkS (dirt s) (upd_used (used s) res [a1]))
      else None
  | VecDot _ a1 a2 n res =>
      if below N (res :: seq a1 n ++ seq a2 n) && none_in (dirt s) [res]
         && none_in bad (seq a1 n ++ seq a2 n)
         && negb (sin res (seq a1 n ++ seq a2 n))
      then Some (mkS (sadd (dirt s) [res]) (upd_used (used s) res (seq a1 n ++ seq a2 n)))
      else None
  | VecCopy _ arg n res =>
      if below N (seq arg n ++ seq res n) && apartb arg n res n
         && none_in (dirt s) (seq res n)
      then Some (mkS (dirt s) (sadd (sdel (used s) (seq res n)) (seq arg n)))
      else None
  | VecAxpy _ arg a1 a2 n res =>
      if below N (arg :: seq a1 n ++ seq a2 n ++ seq res n)
         && apartb arg 1 res n && apartb a1 n res n && apartb a2 n res n
         && none_in (dirt s) (seq res n) && none_in bad (arg :: seq a1 n)
      then Some (mkS (sadd (dirt s) (seq res n))
                     (sadd (sdel (used s) (seq res n)) (arg :: seq a1 n ++ seq a2 n)))
      else None
  | TakeStock _ n res _ =>
      if below N (seq res n)
      then Some (mkS (sdel (dirt s) (seq res n)) (sdel (used s) (seq res n)))
      else None
  | DeathNot _ a1 a2 =>
      if none_in (used s) (seq a1 (S a2 - a1))
      then Some (mkS (sdel (dirt s) (seq a1 (S a2 - a1))) (used s))
      else None
  | _ =>
      match shape b with
      | Some (res, args, na, nb, ok) =>
          if ok && below N (res :: args) && none_in (dirt s) [res]
             && none_in bad na && none_in (sdel bad [res]) nb
          then Some (mkS (dirt s) (upd_used (used s) res args))
          else None
      | None => None
      end
  end.

(* ------------------------------------------------------------------ *)
(* Operations with one result                                           *)

Lemma scatter_in a ts : forall A l, ~ In l (map snd ts) -> scatter a ts A l = A l.
Proof.
  induction ts as [|[c k] ts IH]; intros A l H; auto.
  change (scatter a ((c, k) :: ts) A) with (scatter a ts (rupd A k (A k + c * a))).
  cbn in H. rewrite IH by tauto. apply rupd_neq. intuition congruence.
Qed.
Lemma scatter_zero ts : forall A l, scatter 0 ts A l = A l.
Proof.
  induction ts as [|[c k] ts IH]; intros A l; auto.
  change (scatter 0 ((c, k) :: ts) A) with (scatter 0 ts (rupd A k (A k + c * 0))).
  rewrite IH. destruct (Nat.eq_dec l k) as [->|N].
  - rewrite rupd_eq. ring.
  - now apply rupd_neq.
Qed.
Lemma scatter_agree a ts : forall A A' l, A l = A' l -> scatter a ts A l = scatter a ts A' l.
Proof.
  induction ts as [|[c k] ts IH]; intros A A' l H; auto.
  change (scatter a ((c, k) :: ts) A) with (scatter a ts (rupd A k (A k + c * a))).
  change (scatter a ((c, k) :: ts) A') with (scatter a ts (rupd A' k (A' k + c * a))).
  apply IH. destruct (Nat.eq_dec l k) as [->|N].
  - rewrite !rupd_eq. now rewrite H.
  - rewrite !rupd_neq by auto. exact H.
Qed.
Lemma adjlin_agree res ts A A' l : A res = A' res -> A l = A' l ->
  adjlin res ts A l = adjlin res ts A' l.
Proof.
  intros H1 H2. unfold adjlin. rewrite H1. apply scatter_agree.
  destruct (Nat.eq_dec l res) as [->|N].
  - now rewrite !rupd_eq.
  - now rewrite !rupd_neq by auto.
Qed.
Lemma adjlin_used res ts args A f : (forall k, In k (map snd ts) -> In k args) ->
  (forall l, f l = false -> A l = 0) ->
  forall l, upd_used f res args l = false -> adjlin res ts A l = 0.
Proof.
  intros S H l Hl. unfold upd_used in Hl. unfold adjlin. destruct (f res) eqn:F.
  - apply sadd_false in Hl as [N Hl]. rewrite scatter_in by auto.
    apply sdel_false in Hl. destruct (Nat.eq_dec l res) as [->|Ne]; [apply rupd_eq|].
    rewrite rupd_neq by auto. cbn in Hl. apply H. intuition congruence.
  - rewrite (H res F), scatter_zero.
    apply sdel_false in Hl. destruct (Nat.eq_dec l res) as [->|Ne]; [apply rupd_eq|].
    rewrite rupd_neq by auto. cbn in Hl. apply H. intuition congruence.
Qed.

Ltac dec_eq := repeat match goal with
  | |- context [Nat.eqb ?e1 ?e2] => destruct (Nat.eqb_spec e1 e2); subst; try congruence
  | H : context [Nat.eqb ?e1 ?e2] |- _ => destruct (Nat.eqb_spec e1 e2); subst; try congruence
  end.

Definition coefs (res : nat) (b : bop reals) (T T' : rmem) : list (R * nat) :=
  match deriv_terms b T T' with Some (_, ts) => ts | None => [] end.

Lemma shape_deriv b T T' res args na nb ok : shape b = Some (res, args, na, nb, ok) ->
  exists ts : list (R * nat), deriv_terms b T T' = Some (res, ts) /\
  (forall k, In k (map snd ts) -> In k args).
Proof.
  intros H; destruct b; try discriminate H; injection H; intros; subst; cbn;
    eexists; (split; [reflexivity|]); cbn; try tauto.
  - destruct (Rltb (T a2) (T a1)); tauto.
  - destruct (Rltb 0 (T arg)); tauto.
  - destruct (Rleb 0 (T arg)); tauto.
  - destruct (Rltb 0 (T arg)); tauto.
  - destruct (Rleb 0 (T arg)); tauto.
Qed.

Lemma shape_writes b res args na nb ok : shape b = Some (res, args, na, nb, ok) ->
  bwrites b = [res] /\ forall T, pushes b T = [T res].
Proof. intros H; destruct b; try discriminate H; injection H; intros; subst; auto. Qed.

Ltac rb :=
  repeat match goal with
  | |- context [Rltb ?a ?c] => unfold Rltb at 1; destruct (Rlt_dec a c)
  | |- context [Rleb ?a ?c] => unfold Rleb at 1; destruct (Rle_dec a c)
  | |- context [Reqb ?a ?c] => unfold Reqb at 1; destruct (Req_EM_T a c)
  end.

Lemma upd_val (D : rmem) r (v1 v2 : R) l : v1 = v2 ->
  @upd reals D r v1 l = @upd reals D r v2 l.
Proof. now intros ->. Qed.
Lemma Rfloor1 : Rfloor 1 = 1.
Proof.
  unfold Rfloor. f_equal.
  symmetry. unfold Int_part. apply Z.add_move_r. cbn. apply tech_up; lra.
Qed.

(* forward: the tangent of the result is the linear form, nothing else changes *)
Lemma tval_lin (b : bop reals) ps x xd i (T D : rmem) res ts : let T' := zval ps x i b T in
  regular b T T' -> deriv_terms b T T' = Some (res, ts) ->
  forall args na nb, shape b = Some (res, args, na, nb, true) ->
  forall l, tval ps x xd i b T D l = rupd D res (lin ts D) l.
Proof.
  intros T' G H args na nb Sh l.
  destruct b; try discriminate Sh; cbn [deriv_terms] in H; injection H as <- <-;
    subst T'; cbn [shape] in Sh; cbn [regular] in G;
    unfold tval, lin, rupd; cbn [fold_right fst snd reals add sub mul dvd neg zero one two half
      three eqb ltb leb V]; try (apply upd_val; try unfold Rdiv; ring).
  - (* helper *)
    specialize (G (D a1)). cbv zeta. rewrite G. apply upd_val.
    injection Sh as _ _ _ Sh. apply negb_true_iff, Nat.eqb_neq in Sh.
    change (zval ps x i (HelpOp reals f a1 a2 res0) T)
      with (@upd reals T res0 (Rfn f (T a1))).
    unfold upd. apply Nat.eqb_neq in Sh. rewrite Sh. ring.
  - (* log *) apply upd_val. unfold Reqb. destruct (Req_EM_T (T arg) 0); [contradiction|].
    cbn. unfold Rdiv. ring.
  - (* pow *)
    destruct (Reqb (T arg) 0) eqn:E.
    + apply Reqb_eq in E. destruct G as [G|G]; [contradiction|].
      unfold Rleb. destruct (Rle_dec c 0); [lra|].
      unfold Reqb at 2. destruct (Req_EM_T c 0); [lra|].
      change (vfloor reals) with Rfloor. rewrite Rfloor1.
      unfold Reqb at 1. destruct (Req_EM_T (c - 1) 0); [lra|].
      cbn [negb]. unfold Rltb at 1. destruct (Rlt_dec 1 c); [|lra].
      apply upd_val. ring.
    + apply upd_val. unfold Rdiv. ring.
  - (* sqrt *) apply upd_val. unfold root_factor. cbn [reals eqb zero].
    unfold Reqb. destruct (Req_EM_T _ 0); [tauto|]. ring.
  - apply upd_val. unfold root_factor. cbn [reals eqb zero].
    unfold Reqb. destruct (Req_EM_T _ 0); [tauto|]. ring.
  - (* min *) apply upd_val. unfold Rltb.
    destruct (Rlt_dec (T a2) (T a1)), (Rlt_dec (T a1) (T a2)); try lra.
    destruct G as [G|<-]; [lra|]. destruct (Rlt_dec (D a1) (D a1)); lra.
  - (* abs *) apply upd_val. unfold Reqb, lt0. cbn [reals ltb zero].
    destruct (Req_EM_T (T arg) 0); [contradiction|].
    unfold Rltb. destruct (Rlt_dec (T arg) 0).
    + destruct (Req_EM_T (- (1)) 0); [lra|]. cbn [andb]. ring.
    + destruct (Req_EM_T 1 0); [lra|]. cbn [andb]. ring.
  - apply upd_val. unfold Rltb. destruct (Rlt_dec 0 (T arg)); ring.
  - apply upd_val. unfold Rleb. destruct (Rle_dec 0 (T arg)); ring.
  - unfold Rltb. destruct (Rlt_dec 0 (T arg)).
    + apply upd_val. ring.
    + unfold upd. destruct (Nat.eqb_spec l res0); subst; [ring|auto].
  - unfold Rleb. destruct (Rle_dec 0 (T arg)).
    + apply upd_val. ring.
    + unfold upd. destruct (Nat.eqb_spec l res0); subst; [ring|auto].
Qed.

(* reverse: the transpose *)
Lemma rval_adj (b : bop reals) ps x i (T : rmem) res ts : let T' := zval ps x i b T in
  regular b T T' -> deriv_terms b T T' = Some (res, ts) ->
  forall args na nb, shape b = Some (res, args, na, nb, true) ->
  forall (Tr A : rmem) k, (forall l, In l na -> Tr l = T' l) ->
    (forall l, In l nb -> rupd Tr res (T res) l = T l) ->
    forall l, snd (fst (rval b Tr A (T res :: k))) l = adjlin res ts A l.
Proof.
  intros T' G H args na nb Sh Tr A k Ha Hb l.
  assert (Fr : forall l, ~ In l (bwrites b) -> T' l = T l).
  { intros l0 Hl. subst T'. now apply zval_frame. }
  clearbody T'.
  destruct b; try discriminate Sh; cbn [deriv_terms] in H; injection H as <- <-;
    cbn [shape] in Sh; injection Sh; intros; subst; cbn [regular] in G;
    cbn [In] in Ha, Hb; unfold adjlin, scatter, rupd in *; cbn [fold_left fst snd];
    cbn [rval]; unfold adj1, adjc, restore, pop;
    cbn [fst snd reals add sub mul dvd neg zero one two half three eqb ltb leb V];
    repeat match goal with
    | |- context [@upd reals Tr ?r (T ?r) ?l0] => rewrite (Hb l0) by tauto
    | |- context [Tr ?l0] => rewrite (Ha l0) by tauto
    end; try (unfold upd, Rdiv; dec_eq; ring).
  - (* assign_a *) injection Sh as E. apply negb_true_iff, Nat.eqb_neq in E.
    unfold upd. dec_eq; ring.
  - (* div_d_a *) destruct (Nat.eqb_spec arg res0) as [->|N]; cbn [fst snd].
    + unfold upd, Rdiv. dec_eq; ring.
    + specialize (Hb arg (or_introl eq_refl)). rewrite upd_neq in Hb by auto.
      rewrite Hb. unfold upd, Rdiv. dec_eq; ring.
  - (* pow *) destruct (Nat.eqb_spec arg res0) as [->|N]; cbn [fst snd].
    + destruct (Reqb (T res0) 0); unfold upd, Rdiv; dec_eq; ring.
    + specialize (Hb arg (or_introl eq_refl)). rewrite upd_neq in Hb by auto.
      rewrite Hb. destruct (Reqb (T arg) 0); unfold upd, Rdiv; dec_eq; ring.
  - (* sqrt *) unfold Reqb. destruct (Req_EM_T (T' res0) 0); [tauto|].
    unfold upd, Rdiv. dec_eq; ring.
  - unfold Reqb. destruct (Req_EM_T (T' res0) 0); [tauto|].
    unfold upd, Rdiv. dec_eq; ring.
  - (* min *) unfold Rltb.
    destruct (Rlt_dec (T a2) (T a1)), (Rlt_dec (T a1) (T a2)); try lra;
      try (unfold upd, Rdiv; dec_eq; ring).
    destruct G as [G|<-]; [lra|]. unfold upd. dec_eq; field.
  - (* abs *) unfold Rltb.
    destruct (Rlt_dec (T arg) 0), (Rlt_dec 0 (T arg)); try lra;
      try (unfold upd, Rdiv; dec_eq; ring).
  - unfold Rltb. destruct (Rlt_dec 0 (T arg)); unfold upd; dec_eq; ring.
  - unfold Rleb. destruct (Rle_dec 0 (T arg)); unfold upd; dec_eq; ring.
Qed.
