(* C30: the tangents of the extended function are its derivatives; programs lead to
   traces that satisfy the guards; the affine case.  Statements are in AnfProps.v. *)
From Coq Require Import List ZArith Bool Arith Lia Reals Lra FunctionalExtensionality.
From Coquelicot Require Import Coquelicot.
Require Import Verif.AdModel Verif.AdRecord Verif.AdSpec Verif.AdReplay Verif.AdRestore
  Verif.AdReal Verif.AdLin Verif.AdReverse Verif.AdTidy Verif.AdTidyCalls
  Verif.AdPlain Verif.AdPlainRun Verif.AdProps Verif.AdReverseProps Verif.AdDeriv Verif.AdTangent Verif.AdDerivProps
  Verif.AnfModel Verif.AnfSpec Verif.AnfProofs.
Import ListNotations.
Set Implicit Arguments.
Unset Asymmetric Patterns.
Local Open Scope R_scope.

(* ------------------------------------------------------------------ *)
(* The extended function, one operation at a time *)

Definition xval (ps x w : nat -> R) (i q : nat) (b : bop reals) (T : rmem) : rmem :=
  match b with AbsVal _ _ res _ => @upd reals T res (w q) | _ => @zval reals ps x i b T end.

Lemma extended_cons ps x w o t i q (T : rmem) : let b := @resolve reals T o in
  extended ps x w (o :: t) i q T =
  (out_of b T ++ fst (extended ps x w t (inc (is_ind b) i) (inc (is_abs b) q) (xval ps x w i q b T)),
   @sw_of reals b T ++ snd (extended ps x w t (inc (is_ind b) i) (inc (is_abs b) q) (xval ps x w i q b T))).
Proof.
  cbv zeta. cbn [extended]. set (b := @resolve reals T o).
  change (if is_ind b then S i else i) with (inc (is_ind b) i).
  destruct b; cbn [is_ind is_abs inc out_of sw_of app xval];
  match goal with |- context [extended ps x w t ?i ?q ?T] => destruct (extended ps x w t i q T) end; reflexivity.
Qed.

(* the inputs w are the absolute values of the switching variables of the sweep *)
Fixpoint matched (ps x w : nat -> R) (t : list (op reals)) (i q : nat) (T : rmem) : Prop :=
  match t with
  | [] => True
  | o :: t' =>
      let b := @resolve reals T o in
      xval ps x w i q b T = @zval reals ps x i b T /\
      matched ps x w t' (inc (is_ind b) i) (inc (is_abs b) q) (@zval reals ps x i b T)
  end.
Lemma psw_matched ps x w t : forall i q T,
  (forall k, (k < nsw ps x t i T)%nat -> w (q + k)%nat = Rabs (nth k (psw ps x t i T) 0)) ->
  matched ps x w t i q T.
Proof.
  induction t as [|o t IH]; intros i q T H; cbn [matched nsw psw] in *; auto.
  set (b := @resolve reals T o) in *. split.
  - destruct b; cbn [xval zval is_abs inc sw_of app] in *; auto.
    specialize (H 0%nat). cbn [nth] in H. rewrite Nat.add_0_r in H. rewrite H by lia. reflexivity.
  - apply IH. intros k Hk.
    destruct (is_abs b) eqn:E.
    + destruct b; try discriminate E. cbn [is_abs inc sw_of app is_ind] in *.
      specialize (H (S k)). cbn [nth] in H. replace (S q + k)%nat with (q + S k)%nat by lia.
      apply H. lia.
    + cbn [inc] in *. replace (@sw_of reals b T) with (@nil R) in H by (destruct b; auto; discriminate E).
      now apply H.
Qed.
Fixpoint xvouts (ps x : nat -> R) (t : list (op reals)) (i : nat) (T : rmem) : list R :=
  match t with
  | [] => []
  | o :: t' => let b := @resolve reals T o in
      out_of b T ++ xvouts ps x t' (inc (is_ind b) i) (@zval reals ps x i b T)
  end.
Lemma matched_extended ps x w t : forall i q T, matched ps x w t i q T ->
  extended ps x w t i q T = (xvouts ps x t i T, psw ps x t i T).
Proof.
  induction t as [|o t IH]; intros i q T H; auto.
  rewrite extended_cons. cbn [matched xvouts psw] in *. destruct H as [E H].
  rewrite E, IH by exact H. reflexivity.
Qed.
Lemma exec_outs ps x t : forall (s m : fstate reals), zexec ps x t s = inl m ->
  fy m = fy s ++ xvouts ps x t (fi s) (fT s).
Proof.
  induction t as [|o t IH]; intros s m H; cbn [zexec xvouts] in *.
  - injection H as <-. now rewrite app_nil_r.
  - unfold zstep in *. destruct (oob (fT s) o); [discriminate|].
    destruct (zabort (resolve (fT s) o) (fT s)); [discriminate|].
    rewrite (IH _ _ H). cbn [fi fT fy]. now rewrite <- app_assoc.
Qed.

(* ------------------------------------------------------------------ *)
Section Trace.
Variables (s0 : R) (X W : R -> nat -> R) (xd wd ps : nat -> R).
Hypothesis HX : forall i, is_derive (fun s => X s i) s0 (xd i).
Hypothesis HW : forall i, is_derive (fun s => W s i) s0 (wd i).

Definition xgood (bs : list (bop reals)) (i q : nat) (Tm : R -> rmem) : Prop :=
  let t := map (@Plain reals) bs in
  forall (D : nat -> Prop) (Dm : rmem), follows s0 D Tm Dm -> freads bs D ->
  smooth_but_abs ps (X s0) t i (Tm s0) -> matched ps (X s0) (W s0) t i q (Tm s0) ->
  (forall j, is_derive (fun s => nth j (fst (extended ps (X s) (W s) t i q (Tm s))) 0) s0
               (nth j (xtouts ps (X s0) xd wd t i q (Tm s0) Dm) 0)) /\
  (forall j, is_derive (fun s => nth j (snd (extended ps (X s) (W s) t i q (Tm s))) 0) s0
               (nth j (xtsw ps (X s0) xd wd t i q (Tm s0) Dm) 0)).

Lemma der_app (f1 : R -> list R) (d1 : list R) (f2 : R -> list R) (d2 : list R) :
  (forall s, length (f1 s) = length d1) ->
  (forall j, is_derive (fun s => nth j (f1 s) 0) s0 (nth j d1 0)) ->
  (forall j, is_derive (fun s => nth j (f2 s) 0) s0 (nth j d2 0)) ->
  forall j, is_derive (fun s => nth j (f1 s ++ f2 s) 0) s0 (nth j (d1 ++ d2) 0).
Proof.
  intros L H1 H2 j. destruct (Nat.lt_ge_cases j (length d1)) as [G|G].
  - apply (is_derive_ext (fun s => nth j (f1 s) 0)).
    { intros s. symmetry. apply app_nth1. now rewrite L. }
    rewrite app_nth1 by auto. apply H1.
  - apply (is_derive_ext (fun s => nth (j - length d1) (f2 s) 0)).
    { intros s. symmetry. rewrite app_nth2, L; auto. now rewrite L. }
    rewrite app_nth2 by auto. apply H2.
Qed.

Lemma xgood_cons b bs i q Tm : apart b -> helper_ok b -> helper_val b (Tm s0) ->
  (xval ps (X s0) (W s0) i q b (Tm s0) = @zval reals ps (X s0) i b (Tm s0) ->
   xgood bs (inc (is_ind b) i) (inc (is_abs b) q) (fun s => xval ps (X s) (W s) i q b (Tm s))) ->
  xgood (b :: bs) i q Tm.
Proof.
  intros Ha Ho Hv G. unfold xgood. cbv zeta. intros D Dm F [HR HR'] Sm M.
  cbn [map] in *. cbn [smooth_but_abs resolve] in Sm. destruct Sm as [Sm Sm'].
  cbn [matched resolve] in M. destruct M as [E M].
  assert (F' : follows s0 (plusset D (bwrites b)) (fun s => xval ps (X s) (W s) i q b (Tm s))
                 (xtval ps (X s0) xd wd i q b (Tm s0) Dm)).
  { destruct b; try exact (@op_deriv s0 X xd HX ps i _ D Tm Dm F HR Ho Hv Ha Sm).
    cbn [xval xtval bwrites]. apply follows_upd; auto. }
  specialize (G E). unfold xgood in G. cbv zeta in G.
  destruct (G _ _ F' HR') as [G1 G2].
  { rewrite E. exact Sm'. }
  { rewrite E. exact M. }
  rewrite E in G1, G2.
  assert (O : forall s, length (out_of b (Tm s)) = length (tout_of b Dm)) by now destruct b.
  assert (O2 : forall s, length (@sw_of reals b (Tm s)) = length (@sw_of reals b Dm)) by now destruct b.
  assert (Ex : forall s, extended ps (X s) (W s) (Plain b :: map (@Plain reals) bs) i q (Tm s) = _)
    by (intros s; apply extended_cons).
  cbn [xtouts xtsw resolve]. split; intros j.
  - eapply is_derive_ext; [intros s; rewrite Ex; reflexivity|]. cbn [fst resolve].
    apply (@der_app (fun s => out_of b (Tm s)) (tout_of b Dm)); auto.
    intros k. destruct b; cbn [out_of tout_of]; try (destruct k; apply d_const).
    destruct k as [|[|k]]; cbn [nth]; try apply d_const. apply F, HR. now left.
  - eapply is_derive_ext; [intros s; rewrite Ex; reflexivity|]. cbn [snd resolve].
    apply (@der_app (fun s => @sw_of reals b (Tm s)) (@sw_of reals b Dm)); auto.
    intros k. destruct b; cbn [sw_of]; try (destruct k; apply d_const).
    destruct k as [|[|k]]; cbn [nth]; try apply d_const. apply F, HR. now left.
Qed.

Lemma xgood_pre pre : List.Forall (fun b => neat b /\ is_ind b = false) pre -> forall bs i q Tm,
  (forall q' Tm', Tm' s0 = vals ps (X s0) i pre (Tm s0) -> xgood bs i q' Tm') ->
  xgood (pre ++ bs) i q Tm.
Proof.
  induction 1 as [|b pre [[Ha Hb] Hi] _ IH]; intros bs i q Tm G; cbn [app vals] in *; auto.
  apply xgood_cons; auto; try (now destruct b).
  intros E. rewrite Hi. cbn [inc]. apply IH. intros q' Tm' E'. apply G. rewrite E', E. reflexivity.
Qed.

Theorem trace_xgood bs : helped bs -> forall i q Tm, xgood bs i q Tm.
Proof.
  induction 1 as [|b bs [Ha Hb] _ IH|f a1 a2 r pre bs Hp Hf Hn Hv _ IH]; intros i q Tm.
  - unfold xgood. cbv zeta. intros D Dm F _ _ _. split; intros j; cbn; destruct j; apply d_const.
  - apply xgood_cons; auto; now destruct b.
  - apply xgood_pre; auto. intros q' Tm' E. apply xgood_cons; auto.
    cbn. rewrite E. destruct (Hv ps (X s0) i (Tm s0)) as [-> ->]. reflexivity.
Qed.
End Trace.

(* z_j does not depend on w_k, k >= j *)
Lemma extended_prefix ps x w w' t : forall j i q T,
  (forall k, (q <= k < q + j)%nat -> w k = w' k) ->
  nth j (snd (extended ps x w t i q T)) 0 = nth j (snd (extended ps x w' t i q T)) 0.
Proof.
  induction t as [|o t IH]; intros j i q T H; auto.
  rewrite !extended_cons. cbn [snd]. set (b := @resolve reals T o).
  destruct (is_abs b) eqn:E.
  - destruct b; try discriminate E. cbn [sw_of app inc is_ind].
    destruct j as [|j]; auto. cbn [nth]. cbn [xval]. rewrite (H q) by lia.
    apply IH. intros k Hk. apply H. lia.
  - replace (@sw_of reals b T) with (@nil R) by (destruct b; auto; discriminate E). cbn [app inc].
    replace (xval ps x w i q b T) with (xval ps x w' i q b T) by (destruct b; auto; discriminate E).
    now apply IH.
Qed.

(* ------------------------------------------------------------------ *)
(* From programs to guards *)

Lemma ptidy_step N b D W D' W' bad st :
  tidy_op N b D W = Some (D', W') ->
  (forall l, (l < N)%nat -> bad l = false) ->
  apart_set N (dirt st) W' -> sub_set (used st) D' ->
  exists st', pback N b bad st = Some st' /\
    apart_set N (dirt st') W /\ sub_set (used st') D /\
    (forall l, (l < N)%nat -> @vback reals true b bad l = false).
Proof.
  intros T Hb Hd Hu.
  destruct (is_abs b) eqn:E.
  2:{ destruct (@tidy_step N b D W D' W' bad st T Hb Hd Hu) as (st' & A & B).
      exists st'. split; auto. rewrite <- A. destruct b; auto; discriminate E. }
  destruct b; try discriminate E. unfold tidy_op in T. cbn [breads bwrites extra shape] in T.
  match type of T with (if ?c then _ else _) = _ => destruct c eqn:C; [|discriminate] end.
  injection T as <- <-. apply andb_prop in C as [B R].
  rewrite below_iff in B. rewrite forallb_forall in R. cbn [pback].
  replace (below N [res; arg]) with true.
  2:{ symmetry. apply below_iff. intros l Hl. apply B. cbn in *. tauto. }
  replace (none_in (dirt st) [res]) with true.
  2:{ symmetry. apply none_in_iff. intros l [<-|[]]. apply Hd; [apply B; cbn; auto|].
      apply sadd_true. cbn; auto. }
  eexists. split; [reflexivity|]. cbn [dirt used]. split; [|split].
  - intros l Hl Wl. apply Hd; auto. apply sadd_true. auto.
  - intros l Ul. apply sadd_true in Ul as [Ul|Ul]; [apply R, Ul|].
    apply sdel_true in Ul as [N1 Ul]. apply Hu in Ul. apply sadd_true in Ul.
    cbn in *. intuition.
  - intros l Hl. cbn [vback bwrites]. apply sdel_false. right. auto.
Qed.

Lemma ptidy_guard last ps x bs : forall i (T : rmem) D W, let N := S last in
  tidy N bs D W = true ->
  let t := map (@Plain reals) bs ++ [Plain (DeathNot reals 0 last)] in
  exists st, pguard N ps x t i T = Some st /\
    apart_set N (dirt st) W /\ sub_set (used st) D /\
    (forall l, (l < N)%nat -> @badset reals true ps x t i T l = false).
Proof.
  induction bs as [|b bs IH]; intros i T D W N H; cbv zeta.
  - cbn [map app pguard badset resolve pback aback vback dirt used is_ind zval].
    replace (S last - 0)%nat with N by (unfold N; lia).
    replace (none_in (fun _ : nat => false) (seq 0 N)) with true
      by (symmetry; now apply none_in_iff).
    eexists. split; [reflexivity|]. cbn [dirt used].
    split; [|split].
    + intros l Hl _. apply sdel_false. left. apply in_seq. lia.
    + intros l Hl. discriminate.
    + intros l Hl. apply sdel_false. left. apply in_seq. lia.
  - cbn [tidy] in H. destruct (tidy_op N b D W) as [[D' W']|] eqn:E; [|discriminate].
    cbn [map app pguard badset resolve].
    specialize (IH (if is_ind b then S i else i) (@zval reals ps x i b T) D' W' H).
    cbv zeta in IH. destruct IH as (st & E1 & E2 & E3 & E4).
    fold N in E1. rewrite E1.
    apply (@ptidy_step N b D W D' W' _ st E E4 E2 E3).
Qed.

Lemma pstock_guard last ps x T0 (t : list (op reals)) chunks :
  forall from i (T : rmem), (from + fold_right Nat.add 0 chunks <= S last)%nat ->
  (forall (T' : rmem), exists st, pguard (S last) ps x t i T' = Some st /\
     (forall l, used st l = true -> (l < from + fold_right Nat.add 0 chunks)%nat)) ->
  exists st, pguard (S last) ps x (stock_ops T0 chunks from ++ t) i T = Some st /\
    (forall l, used st l = true -> (l < from)%nat).
Proof.
  induction chunks as [|n cs IH]; intros from i T Hb Ht; cbn [stock_ops app].
  - cbn in Ht. destruct (Ht T) as (st & A & B). exists st.
    split; [exact A|]. intros l Hl. apply B in Hl. lia.
  - cbn [fold_right] in *. cbn [pguard resolve is_ind].
    set (T1 := @zval reals ps x i (TakeStock reals n from (map T0 (seq from n))) T).
    destruct (IH (from + n)%nat i T1) as (st & A & B).
    + lia.
    + intros T'. destruct (Ht T') as (st & A & B). exists st. split; auto.
      intros l Hl. apply B in Hl. lia.
    + rewrite A. cbn [pback aback].
      replace (below (S last) (seq from n)) with true.
      2:{ symmetry. apply below_iff. intros l Hl. apply in_seq in Hl. lia. }
      eexists. split; [reflexivity|]. cbn [used].
      intros l Hl. apply sdel_true in Hl as [N1 Hl]. apply B in Hl. rewrite in_seq in N1. lia.
Qed.

Lemma smooth_pregular ps x t : forall i T, smooth_but_abs ps x t i T -> pregular ps x t i T.
Proof.
  induction t as [|o t IH]; intros i T; cbn [smooth_but_abs pregular]; auto.
  intros [A B]. split; auto. intros E. apply smooth_regular; auto.
  destruct (@resolve reals T o); auto. discriminate E.
Qed.

(* everything about the trace of a program *)
Definition traced (T0 : rmem) (chunks : list nat) (last : nat) (p : prog reals) (t : list (op reals)) : Prop :=
  exists bs, t = map (@Plain reals) bs /\ helped bs /\ freads bs (fun _ => False) /\
  (forall ps x g, exists st, pguard (S last) ps x t 0 g = Some st /\ (forall l, used st l = false) /\
     @traceable reals true ps x t 0 g).

Lemma program_traced T0 chunks last ps1 x1 p s1 :
  @wellbehaved reals ps1 x1 p (pstart T0 chunks) -> fprog p = true ->
  (total chunks <= S last)%nat ->
  prog_ok (S last) p (fun l => l <? total chunks)%nat (fun _ => false) = true ->
  @run reals ps1 x1 p (start T0 chunks) = Some s1 ->
  traced T0 chunks last p (finish last s1).
Proof.
  intros Wb Fp Hl Ok0 R.
  destruct (@plain_run reals reals_laws ps1 x1 p (pstart T0 chunks) (start T0 chunks)
              (stocked chunks) Wb) as [Ok _]; auto.
  { intros l _. reflexivity. }
  destruct (@run_trace ps1 x1 p _ _ _ Fp Ok R) as (bs & Eo & Fr & Hh).
  destruct (@stock_trace T0 chunks 0%nat (fun _ => False)) as (b0 & E0 & F0 & H0 & G0).
  exists (b0 ++ bs ++ [DeathNot reals 0 last]).
  assert (Et : finish last s1 = map (@Plain reals) (b0 ++ bs ++ [DeathNot reals 0 last])).
  { unfold finish. rewrite Eo. cbn [start sops]. rewrite E0, !map_app, app_assoc. reflexivity. }
  split; [exact Et|]. split; [|split].
  - apply helped_app; auto. apply helped_app; auto. constructor; [split; cbn; auto|constructor].
  - apply freads_app; auto. apply freads_app.
    + eapply freads_mono; [|exact Fr]. intros l Hl'. apply G0. right. unfold stocked in Hl'.
      unfold total. lia.
    + cbn. split; auto. intros l [].
  - intros ps x g.
    destruct (@run_tidy (S last) p ps1 x1 _ _ _ _ Ok0 R) as (bs' & O & Ti).
    clear Et. unfold finish in *. rewrite O. cbn [start sops] in *. rewrite <- app_assoc.
    set (t2 := map (@Plain reals) bs' ++ [Plain (DeathNot reals 0 last)]) in *.
    destruct (@pstock_guard last ps x T0 t2 chunks 0%nat 0%nat g Hl) as (st & A & B).
    { intros T'. destruct (@ptidy_guard last ps x bs' 0%nat T' _ _ Ti) as (st & G1 & _ & G3 & _).
      exists st. split; [exact G1|]. intros l Hu. apply G3 in Hu. apply Nat.ltb_lt in Hu. exact Hu. }
    exists st. split; [exact A|]. split.
    + intros l. destruct (used st l) eqn:Q; auto. apply B in Q. lia.
    + destruct (@stock_guard last ps x T0 t2 chunks 0%nat 0%nat g Hl) as (_ & _ & _ & C); auto.
      intros T'.
      destruct (@tidy_guard last ps x bs' 0%nat T' _ _ Ti) as (st' & G1 & _ & G3 & _ & G5).
      exists st'. split; [exact G1|]. split; [|exact G5].
      intros l Hu. apply G3 in Hu. apply Nat.ltb_lt in Hu. exact Hu.
Qed.
