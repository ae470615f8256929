(* When the reverse sweep is safe: a check that reads the recorded operations in
   the order in which the program made them.  Specification side of C15 (the
   definitions), and the proof that the check suffices. *)
From Coq Require Import List ZArith Bool Arith Lia Reals Lra FunctionalExtensionality.
Require Import Verif.AdModel Verif.AdRecord Verif.AdSpec Verif.AdReplay Verif.AdRestore
  Verif.AdReal Verif.AdLin Verif.AdReverse.
Import ListNotations.
Set Implicit Arguments.
Unset Asymmetric Patterns.

(* D: variables that have a value on the tape and have not been given out as
      dependents since,
   W: variables whose last assignment on the tape is not a constant.
   N: number of locations restored at the end of the sweep.

   The operation is refused (None) when
   - it reads a variable not in D: not initialised, or already declared dependent
     (fo_rev.cpp:742 overwrites the adjoint of a dependent),
   - it declares independent, or computes by vec_dot, a variable in W (the sweep does
     not reset its adjoint, fo_rev.cpp:721-730, 2353-2368),
   - it copies a variable to itself (fo_rev.cpp:618-638 loses the adjoint),
   - it is vec_copy or vec_axpy (pushed and popped in the same order). *)
Definition extra (b : bop reals) : list nat :=
  match b with HelpOp _ _ _ a2 _ => [a2] | GenQuad _ _ a2 _ _ _ => [a2] | _ => [] end.

Definition tidy_op (N : nat) (b : bop reals) (D W : nat -> bool)
  : option ((nat -> bool) * (nat -> bool)) :=
  if below N (breads b ++ bwrites b ++ extra b) && forallb D (breads b) then
  match b with
  | Cmp _ _ _ | EqPlusD _ _ _ | EqMinD _ _ _ | Incr _ _ | Decr _ _ => Some (D, W)
  | AssignD _ res _ | AssignP _ _ res | AssignD0 _ res | AssignD1 _ res
  | CeilOp _ _ res _ | FloorOp _ _ res _ => Some (sadd D [res], sdel W [res])
  | AssignInd _ res =>
      if W res then None else Some (sadd D [res], sadd W [res])
  | AssignDep _ res => Some (sdel D [res], W)
  | EqPlusProd _ a1 a2 res | EqMinProd _ a1 a2 res =>
      if (a1 =? res) || (a2 =? res) then None else Some (D, sadd W [res])
  | SinOp _ a1 a2 res | CosOp _ a1 a2 res =>
      if (a2 =? res) || (a2 =? a1) then None
      else Some (sdel (sadd D [res]) [a2], sadd W [res])
  | VecDot _ a1 a2 n res =>
      if W res || sin res (seq a1 n ++ seq a2 n) then None
      else Some (sadd D [res], sadd W [res])
  | _ =>
      match shape b with
      | Some (res, args, na, nb, ok) =>
          if ok then Some (sadd D [res], sadd W [res]) else None
      | None => None
      end
  end
  else None.

Fixpoint tidy (N : nat) (bs : list (bop reals)) (D W : nat -> bool) : bool :=
  match bs with
  | [] => true
  | b :: bs' =>
      match tidy_op N b D W with
      | Some (D', W') => tidy N bs' D' W'
      | None => false
      end
  end.

(* ------------------------------------------------------------------ *)

Definition sub_set (f g : nat -> bool) : Prop := forall l, f l = true -> g l = true.
Definition apart_set (N : nat) (f g : nat -> bool) : Prop :=
  forall l, l < N -> g l = true -> f l = false.

Lemma sadd_true f s l : sadd f s l = true <-> In l s \/ f l = true.
Proof. unfold sadd. rewrite orb_true_iff, sin_iff. tauto. Qed.
Lemma sdel_true f s l : sdel f s l = true <-> ~ In l s /\ f l = true.
Proof. unfold sdel. rewrite andb_true_iff, negb_true_iff, sin_false. tauto. Qed.
Lemma upd_used_true f res args l : upd_used f res args l = true ->
  In l args \/ (l <> res /\ f l = true).
Proof.
  unfold upd_used. destruct (f res).
  - rewrite sadd_true, sdel_true. cbn. intuition.
  - rewrite sdel_true. cbn. intuition.
Qed.

Lemma shape_reads b res args na nb ok : shape b = Some (res, args, na, nb, ok) ->
  (forall l, In l args -> In l (breads b)) /\
  (forall l, In l na \/ In l nb -> In l (breads b ++ bwrites b ++ extra b)).
Proof.
  intros H; destruct b; try discriminate H; injection H; intros; subst; cbn; split; intros;
    intuition.
Qed.

Lemma tidy_step N b D W D' W' bad st :
  tidy_op N b D W = Some (D', W') ->
  (forall l, l < N -> bad l = false) ->
  apart_set N (dirt st) W' -> sub_set (used st) D' ->
  exists st', aback N b bad st = Some st' /\
    apart_set N (dirt st') W /\ sub_set (used st') D /\
    (forall l, l < N -> vback true b bad l = false).
Proof.
  intros T Hb Hd Hu. unfold tidy_op in T.
  destruct (below N (breads b ++ bwrites b ++ extra b)) eqn:B; [|discriminate].
  destruct (forallb D (breads b)) eqn:R; [|discriminate]. cbn [andb] in T.
  rewrite below_iff in B. rewrite forallb_forall in R.
  assert (Vb : forall l, l < N -> sdel bad (bwrites b) l = false).
  { intros l Hl. apply sdel_false. right. auto. }
  assert (SH : forall res args na nb ok, shape b = Some (res, args, na, nb, ok) ->
    (if ok then Some (sadd D [res], sadd W [res]) else None) = Some (D', W') ->
    exists st',
    (if ok && below N (res :: args) && none_in (dirt st) [res]
        && none_in bad na && none_in (sdel bad [res]) nb
     then Some (mkS (dirt st) (upd_used (used st) res args)) else None) = Some st' /\
    apart_set N (dirt st') W /\ sub_set (used st') D).
  { clear T. intros res args na nb ok Sh T. destruct ok; [|discriminate].
    injection T as <- <-. destruct (shape_writes b Sh) as [Hw _].
    destruct (shape_reads b Sh) as [S1 S2]. rewrite Hw in *.
    assert (Hr : res < N) by (apply B; rewrite !in_app_iff; cbn; auto).
    eexists. split.
    - replace (below N (res :: args)) with true.
      2:{ symmetry. apply below_iff. intros l [<-|Hl]; auto. apply B.
          apply in_or_app. left. auto. }
      replace (none_in (dirt st) [res]) with true.
      2:{ symmetry. apply none_in_iff. intros l [<-|[]]. apply Hd; auto.
          apply sadd_true. cbn; auto. }
      replace (none_in bad na) with true.
      2:{ symmetry. apply none_in_iff. intros l Hl. apply Hb, B. auto. }
      replace (none_in (sdel bad [res]) nb) with true.
      2:{ symmetry. apply none_in_iff. intros l Hl. apply sdel_false. right. apply Hb, B. auto. }
      reflexivity.
    - cbn [dirt used]. split.
      + intros l Hl Wl. apply Hd; auto. apply sadd_true. auto.
      + intros l Ul. apply upd_used_true in Ul as [Ul|[N1 Ul]].
        * apply R, S1, Ul.
        * apply Hu in Ul. apply sadd_true in Ul. cbn in Ul. intuition congruence. }
  destruct b; try discriminate T;
    try (destruct (SH _ _ _ _ _ eq_refl T) as (st' & E1 & E2 & E3);
         exists st'; split; [exact E1|split; [exact E2|split; [exact E3|exact Vb]]]);
    clear SH;
    cbn [breads bwrites extra app] in *; cbn [aback vback];
    (* nothing happens *)
    try (injection T as <- <-; exists st; split; [reflexivity|split; [exact Hd|split; [exact Hu|
           first [exact Vb|exact Hb]]]]; fail);
    (* constants *)
    try (injection T as <- <-;
         match goal with |- context [below N [?r]] => replace (below N [r]) with true;
           [|symmetry; apply below_iff; intros l [<-|[]]; apply B; cbn; auto] end;
         eexists; split; [reflexivity|]; cbn [dirt used]; split; [|split; [|exact Vb]];
         [intros l Hl Wl; apply sdel_false;
          match goal with |- In l [?r] \/ _ =>
            destruct (Nat.eq_dec l r) as [->|Ne]; [left; cbn; auto|right];
            apply Hd; auto; apply sdel_true; cbn; intuition end
         |intros l Ul; apply sdel_true in Ul as [N1 Ul]; apply Hu in Ul;
          apply sadd_true in Ul; cbn in *; intuition]; fail).
  - (* independent *)
    destruct (W res) eqn:Wr; [discriminate|]. injection T as <- <-.
    replace (below N [res]) with true.
    2:{ symmetry; apply below_iff; intros l [<-|[]]; apply B; cbn; auto. }
    replace (none_in (dirt st) [res]) with true.
    2:{ symmetry. apply none_in_iff. intros l [<-|[]]. apply Hd; [apply B; cbn; auto|].
        apply sadd_true. cbn; auto. }
    eexists. split; [reflexivity|]. cbn [dirt used]. split; [|split; [|exact Vb]].
    + intros l Hl Wl. apply sadd_false. split; [cbn; intros [<-|[]]; congruence|].
      apply Hd; auto. apply sadd_true. auto.
    + intros l Ul. apply sdel_true in Ul as [N1 Ul]. apply Hu in Ul.
      apply sadd_true in Ul; cbn in *; intuition.
  - (* dependent *)
    injection T as <- <-.
    replace (below N [res]) with true.
    2:{ symmetry; apply below_iff; intros l [<-|[]]; apply B; cbn; auto. }
    replace (none_in (used st) [res]) with true.
    2:{ symmetry. apply none_in_iff. intros l [<-|[]].
        destruct (used st res) eqn:U; auto. apply Hu in U. apply sdel_true in U.
        cbn in U. intuition. }
    eexists. split; [reflexivity|]. cbn [dirt used]. split; [|split; [|exact Hb]].
    + intros l Hl Wl. apply sdel_false. right. apply Hd; auto.
    + intros l Ul. apply sadd_true in Ul as [Ul|Ul].
      * apply R. exact Ul.
      * apply Hu in Ul. apply sdel_true in Ul. tauto.
  - (* eq_plus_prod *)
    destruct ((a1 =? res) || (a2 =? res)) eqn:E; [discriminate|]. injection T as <- <-.
    apply orb_false_iff in E as [E1 E2]. rewrite E1, E2. cbn [negb].
    replace (below N [a1; a2; res]) with true.
    2:{ symmetry; apply below_iff. intros l Hl; apply B; cbn in *; tauto. }
    replace (none_in (dirt st) [res]) with true.
    2:{ symmetry. apply none_in_iff. intros l [<-|[]]. apply Hd; [apply B; cbn; auto|].
        apply sadd_true. cbn; auto. }
    replace (none_in bad [a1; a2]) with true.
    2:{ symmetry. apply none_in_iff. intros l Hl. apply Hb, B. cbn in *; tauto. }
    eexists. split; [reflexivity|]. cbn [dirt used]. split; [|split; [|exact Hb]].
    + intros l Hl Wl. apply Hd; auto. apply sadd_true; auto.
    + intros l Ul. apply upd_used_true in Ul as [Ul|[N1 Ul]]; [|auto].
      apply R. cbn in *; tauto.
  - (* eq_min_prod *)
    destruct ((a1 =? res) || (a2 =? res)) eqn:E; [discriminate|]. injection T as <- <-.
    apply orb_false_iff in E as [E1 E2]. rewrite E1, E2. cbn [negb].
    replace (below N [a1; a2; res]) with true.
    2:{ symmetry; apply below_iff. intros l Hl; apply B; cbn in *; tauto. }
    replace (none_in (dirt st) [res]) with true.
    2:{ symmetry. apply none_in_iff. intros l [<-|[]]. apply Hd; [apply B; cbn; auto|].
        apply sadd_true. cbn; auto. }
    replace (none_in bad [a1; a2]) with true.
    2:{ symmetry. apply none_in_iff. intros l Hl. apply Hb, B. cbn in *; tauto. }
    eexists. split; [reflexivity|]. cbn [dirt used]. split; [|split; [|exact Hb]].
    + intros l Hl Wl. apply Hd; auto. apply sadd_true; auto.
    + intros l Ul. apply upd_used_true in Ul as [Ul|[N1 Ul]]; [|auto].
      apply R. cbn in *; tauto.
  - (* sin *)
    destruct ((a2 =? res) || (a2 =? a1)) eqn:E; [discriminate|]. injection T as <- <-.
    apply orb_false_iff in E as [E1 E2]. rewrite E1, E2. cbn [negb].
    replace (below N [a1; a2; res]) with true.
    2:{ symmetry; apply below_iff. intros l Hl; apply B; cbn in *; tauto. }
    replace (none_in (dirt st) [res]) with true.
    2:{ symmetry. apply none_in_iff. intros l [<-|[]]. apply Hd; [apply B; cbn; auto|].
        apply sadd_true. cbn; auto. }
    replace (none_in bad [a2]) with true.
    2:{ symmetry. apply none_in_iff. intros l Hl. apply Hb, B. cbn in *; tauto. }
    replace (none_in (used st) [a2]) with true.
    2:{ symmetry. apply none_in_iff. intros l [<-|[]].
        destruct (used st a2) eqn:U; auto. apply Hu in U. apply sdel_true in U.
        cbn in U. intuition. }
    eexists. split; [reflexivity|]. cbn [dirt used]. split; [|split; [|exact Vb]].
    + intros l Hl Wl. apply Hd; auto. apply sadd_true; auto.
    + intros l Ul. apply upd_used_true in Ul as [Ul|[N1 Ul]].
      * apply R. cbn in *; tauto.
      * apply Hu in Ul. apply sdel_true in Ul as [_ Ul]. apply sadd_true in Ul.
        cbn in Ul. intuition congruence.
  - (* cos *)
    destruct ((a2 =? res) || (a2 =? a1)) eqn:E; [discriminate|]. injection T as <- <-.
    apply orb_false_iff in E as [E1 E2]. rewrite E1, E2. cbn [negb].
    replace (below N [a1; a2; res]) with true.
    2:{ symmetry; apply below_iff. intros l Hl; apply B; cbn in *; tauto. }
    replace (none_in (dirt st) [res]) with true.
    2:{ symmetry. apply none_in_iff. intros l [<-|[]]. apply Hd; [apply B; cbn; auto|].
        apply sadd_true. cbn; auto. }
    replace (none_in bad [a2]) with true.
    2:{ symmetry. apply none_in_iff. intros l Hl. apply Hb, B. cbn in *; tauto. }
    replace (none_in (used st) [a2]) with true.
    2:{ symmetry. apply none_in_iff. intros l [<-|[]].
        destruct (used st a2) eqn:U; auto. apply Hu in U. apply sdel_true in U.
        cbn in U. intuition. }
    eexists. split; [reflexivity|]. cbn [dirt used]. split; [|split; [|exact Vb]].
    + intros l Hl Wl. apply Hd; auto. apply sadd_true; auto.
    + intros l Ul. apply upd_used_true in Ul as [Ul|[N1 Ul]].
      * apply R. cbn in *; tauto.
      * apply Hu in Ul. apply sdel_true in Ul as [_ Ul]. apply sadd_true in Ul.
        cbn in Ul. intuition congruence.
  - (* vec_dot *)
    destruct (W res) eqn:Wr; [discriminate|]. cbn [orb] in T.
    destruct (sin res (seq a1 size ++ seq a2 size)) eqn:E; [discriminate|].
    injection T as <- <-. cbn [negb].
    replace (below N (res :: seq a1 size ++ seq a2 size)) with true.
    2:{ symmetry; apply below_iff. intros l Hl; apply B. apply in_or_app. cbn in *. tauto. }
    replace (none_in (dirt st) [res]) with true.
    2:{ symmetry. apply none_in_iff. intros l [<-|[]]. apply Hd; [apply B|].
        - apply in_or_app; cbn; auto.
        - apply sadd_true. cbn; auto. }
    replace (none_in bad (seq a1 size ++ seq a2 size)) with true.
    2:{ symmetry. apply none_in_iff. intros l Hl. apply Hb, B. apply in_or_app; auto. }
    eexists. split; [reflexivity|]. cbn [dirt used]. split; [|split; [|exact Vb]].
    + intros l Hl Wl. apply sadd_false. split; [cbn; intros [<-|[]]; congruence|].
      apply Hd; auto. apply sadd_true. auto.
    + intros l Ul. apply upd_used_true in Ul as [Ul|[N1 Ul]].
      * apply R. exact Ul.
      * apply Hu in Ul. apply sadd_true in Ul. cbn in Ul. intuition congruence.
Qed.

(* the whole body, followed by trace_off *)
Lemma tidy_guard last ps x bs : forall i (T : rmem) D W, let N := S last in
  tidy N bs D W = true ->
  let t := map (@Plain reals) bs ++ [Plain (DeathNot reals 0 last)] in
  exists st, aguard N ps x t i T = Some st /\
    apart_set N (dirt st) W /\ sub_set (used st) D /\
    (forall l, l < N -> @badset reals true ps x t i T l = false) /\
    @traceable reals true ps x t i T.
Proof.
  induction bs as [|b bs IH]; intros i T D W N H; cbv zeta.
  - cbn [map app aguard badset traceable resolve aback vback dirt used is_ind zval okop pointer].
    replace (S last - 0) with N by (unfold N; lia).
    replace (none_in (fun _ : nat => false) (seq 0 N)) with true
      by (symmetry; now apply none_in_iff).
    eexists. split; [reflexivity|]. cbn [dirt used].
    split; [|split; [|split]].
    + intros l Hl _. apply sdel_false. left. apply in_seq. lia.
    + intros l Hl. discriminate.
    + intros l Hl. apply sdel_false. left. apply in_seq. lia.
    + repeat split; auto. lia.
  - cbn [tidy] in H. destruct (tidy_op N b D W) as [[D' W']|] eqn:E; [|discriminate].
    cbn [map app aguard badset traceable resolve pointer].
    specialize (IH (if is_ind b then S i else i) (@zval reals ps x i b T) D' W' H).
    cbv zeta in IH. destruct IH as (st & E1 & E2 & E3 & E4 & E5).
    fold N in E1. rewrite E1.
    destruct (@tidy_step N b D W D' W' _ st E E4 E2 E3) as (st' & F1 & F2 & F3 & F4).
    exists st'. split; [exact F1|]. split; [exact F2|]. split; [exact F3|].
    split; [exact F4|]. repeat split; auto.
    destruct b; cbn; auto. exfalso. unfold tidy_op in E. cbn in E.
    destruct (true && true); discriminate.
Qed.

(* ... and preceded by take_stock *)
Lemma stock_guard last ps x T0 (t : list (op reals)) chunks :
  forall from i (T : rmem), from + fold_right plus 0 chunks <= S last ->
  (forall (T' : rmem), exists st, aguard (S last) ps x t i T' = Some st /\
     (forall l, used st l = true -> l < from + fold_right plus 0 chunks) /\
     @traceable reals true ps x t i T') ->
  exists st, aguard (S last) ps x (stock_ops T0 chunks from ++ t) i T = Some st /\
    (forall l, used st l = true -> l < from) /\
    @traceable reals true ps x (stock_ops T0 chunks from ++ t) i T.
Proof.
  induction chunks as [|n cs IH]; intros from i T Hb Ht; cbn [stock_ops app].
  - cbn in Ht. destruct (Ht T) as (st & A & B & C). exists st.
    split; [exact A|]. split; [|exact C]. intros l Hl. apply B in Hl. lia.
  - cbn [fold_right] in *. cbn [aguard resolve is_ind traceable okop pointer].
    set (T1 := @zval reals ps x i (TakeStock reals n from (map T0 (seq from n))) T).
    destruct (IH (from + n) i T1) as (st & A & B & C).
    + lia.
    + intros T'. destruct (Ht T') as (st & A & B & C). exists st. repeat split; auto.
      intros l Hl. apply B in Hl. lia.
    + rewrite A. cbn [aback].
      replace (below (S last) (seq from n)) with true.
      2:{ symmetry. apply below_iff. intros l Hl. apply in_seq in Hl. lia. }
      eexists. split; [reflexivity|]. cbn [used]. split.
      * intros l Hl. apply sdel_true in Hl as [N1 Hl]. apply B in Hl. rewrite in_seq in N1. lia.
      * repeat split; auto.
Qed.
