(* C15: the reverse sweep computes the transpose of the forward tangent map.
   C16: the reverse sweep restores the values of the program.            *)
From Coq Require Import List ZArith Bool Arith Lia Reals Lra.
Require Import Verif.AdModel Verif.AdRecord Verif.AdSpec Verif.AdReplay Verif.AdRestore
  Verif.AdReal Verif.AdLin Verif.AdReverse Verif.AdTidy Verif.AdTidyCalls.
Import ListNotations.
Set Implicit Arguments.
Unset Asymmetric Patterns.
Local Open Scope R_scope.

Lemma run_tidy N p ps x : forall D W s s',
  prog_ok N p D W = true -> run ps x p s = Some s' ->
  exists bs, sops s' = sops s ++ map (@Plain reals) bs /\ tidy N bs D W = true.
Proof.
  induction p as [|c p IH|r a pt IHt pf IHf]; intros D W s s' H Hr; cbn [prog_ok run] in *.
  - injection Hr as <-. exists []. now rewrite app_nil_r.
  - destruct (call_ok N c D W) as [[D' W']|] eqn:C; [|discriminate].
    destruct (rprims ps x (prims c) s) as [s1|] eqn:E; [|discriminate].
    destruct (@call_tidy N c D W D' W' ps x s s1 C E) as (bs & D'' & W'' & O & F & S1 & S2).
    destruct (IH D' W' s1 s' H Hr) as (bs' & O' & F').
    exists (bs ++ bs'). split.
    + rewrite O', O, map_app, app_assoc. reflexivity.
    + rewrite (@tidy_app N bs bs' _ _ _ _ F). eapply tidy_mono; eauto.
  - apply andb_prop in H as [H Hf]. apply andb_prop in H as [H Ht]. apply andb_prop in H as [B Da].
    assert (C : exists bs, sops s' = sops (rcmp r a s) ++ map (@Plain reals) bs /\
                           tidy N bs D W = true).
    { destruct (rel_val reals r (sT s a)); eauto. }
    destruct C as (bs & O & F).
    exists (Cmp reals (rel_op reals r (sT s a)) a :: bs). split.
    + rewrite O. cbn. now rewrite <- app_assoc.
    + cbn [tidy]. unfold tidy_op at 1.
      change (breads (Cmp reals (rel_op reals r (sT s a)) a) ++ bwrites (Cmp reals (rel_op reals r (sT s a)) a)
        ++ extra (Cmp reals (rel_op reals r (sT s a)) a)) with [a].
      rewrite B. cbn [breads forallb]. rewrite Da. exact F.
Qed.

Lemma trun_touts ps x xd t : forall (s : tstate reals) td m,
  trun ps x xd t s = Some td -> zexec ps x t (tF s) = inl m ->
  tF td = m /\ tyd td = tyd s ++ touts ps x xd t (fi (tF s)) (fT (tF s)) (tD s).
Proof.
  induction t as [|o t IH]; intros s td m H Z; cbn [trun zexec touts] in *.
  - injection H as <-. injection Z as <-. now rewrite app_nil_r.
  - unfold tstep in H. destruct (zstep ps x o (tF s)) as [f1|] eqn:E; [|discriminate].
    unfold zstep in E. destruct (oob (fT (tF s)) o); [discriminate|].
    destruct (zabort (resolve (fT (tF s)) o) (fT (tF s))); [discriminate|].
    injection E as <-.
    destruct (IH _ _ _ H Z) as [Q1 Q2]. split; auto.
    rewrite Q2. cbn [tF tyd tD fT fi]. now rewrite <- app_assoc.
Qed.

(* ------------------------------------------------------------------ *)
(* C15                                                                  *)

(* trace level *)
Theorem C15_trace last ps x xd u (t : list (op reals)) (g gd gT gA : rmem) gz m td st :
  @zos_forward reals ps x g t = Done m -> (0 <= frc m)%Z ->
  @fos_forward reals ps x xd g gd t = Some td ->
  regular_run ps x t 0 g ->
  @traceable reals true ps x t 0 g ->
  aguard (S last) ps x t 0 g = Some st -> (forall l, used st l = false) ->
  let r := @fos_reverse reals u (fi m) (length (fy m)) gT gA gz (fk m) t in
  wsum u 0 (tyd td) = isum (rz r) xd 0 (fi m).
Proof.
  intros Hz Hc Hf Hr Ht Ha Hu. cbv zeta.
  pose proof (@zrun_path reals ps x t _ _ Hz Hc) as E. pose proof (@zexec_path reals ps x t _ _ E) as P.
  cbn [fT fi fy fk length] in P.
  destruct (@adj_path (S last) ps x xd t _ _ u gT gA gz gd st P Ht Hr Ha)
    as (A & _ & A0 & W).
  cbn [vi vT vy vk] in W. rewrite dot_zero in W by auto. rewrite Nat.sub_0_r, Rplus_0_l in W.
  unfold fos_reverse. rewrite <- W. f_equal.
  destruct (@trun_touts ps x xd t _ td m Hf E) as [_ Q]. exact Q.
Qed.

Definition total (chunks : list nat) : nat := fold_right plus 0%nat chunks.

(* A program of supported calls (prog_ok) is recorded at x1; the trace is swept
   at any x whose sweep does not change branch (code >= 0) and is differentiable
   there; u: weights, xd: direction; gd, gT, gA, gz: whatever is in the buffers
   the sweeps do not initialise. *)
Theorem C15_adjoint T0 chunks last ps1 x1 p t
  ps x xd u (g gd gT gA : rmem) gz m td :
  @record reals T0 chunks last ps1 x1 p = Some t ->
  (total chunks <= S last)%nat ->
  prog_ok (S last) p (fun l => l <? total chunks)%nat (fun _ => false) = true ->
  @zos_forward reals ps x g t = Done m -> (0 <= frc m)%Z ->
  regular_run ps x t 0 g ->
  @fos_forward reals ps x xd g gd t = Some td ->
  let r := @fos_reverse reals u (fi m) (length (fy m)) gT gA gz (fk m) t in
  wsum u 0 (tyd td) = isum (rz r) xd 0 (fi m).
Proof.
  unfold record. destruct (run ps1 x1 p (start T0 chunks)) as [s|] eqn:E; [|discriminate].
  intros H Hl Ok Hz Hc Hr Hf. injection H as <-.
  destruct (@run_tidy (S last) p ps1 x1 _ _ _ _ Ok E) as (bs & O & Ti).
  unfold finish in *. rewrite O in *. cbn [start sops] in *. rewrite <- app_assoc in *.
  set (t2 := map (@Plain reals) bs ++ [Plain (DeathNot reals 0 last)]) in *.
  assert (G : exists st, aguard (S last) ps x (stock_ops T0 chunks 0 ++ t2) 0 g = Some st /\
     (forall l, used st l = true -> l < 0)%nat /\
     @traceable reals true ps x (stock_ops T0 chunks 0 ++ t2) 0 g).
  { apply stock_guard; [exact Hl|]. intros T'.
    destruct (@tidy_guard last ps x bs 0%nat T' _ _ Ti) as (st & G1 & _ & G3 & _ & G5).
    exists st. split; [exact G1|]. split; [|exact G5].
    intros l Hu. apply G3 in Hu. apply Nat.ltb_lt in Hu. exact Hu. }
  destruct G as (st & G1 & G2 & G3).
  eapply C15_trace; eauto.
  intros l. destruct (used st l) eqn:Q; auto. apply G2 in Q. lia.
Qed.

(* ------------------------------------------------------------------ *)
(* Non-vacuity: y = x1 * sin(x0); y += x0 * x1 (fused); y >>= .            *)

(* sweeps that cannot stop *)
Definition nostop (b : bop reals) : Prop := forall T, zabort b T = None.
Fixpoint pure_run (ps x xd : nat -> R) (bs : list (bop reals)) (s : tstate reals) : tstate reals :=
  match bs with
  | [] => s
  | b :: bs' =>
      let f := tF s in
      pure_run ps x xd bs'
       (mkT (mkF (@zval reals ps x (fi f) b (fT f)) (if is_ind b then S (fi f) else fi f)
                 (fy f ++ out_of b (fT f)) (zrc b (fT f) (frc f)) (rev (pushes b (fT f)) ++ fk f))
            (@tval reals ps x xd (fi f) b (fT f) (tD s)) (tyd s ++ tout_of b (tD s)))
  end.
Lemma pure_ok ps x xd bs : Forall nostop bs -> forall s,
  zrun ps x (map (@Plain reals) bs) (tF s) = Done (tF (pure_run ps x xd bs s)) /\
  trun ps x xd (map (@Plain reals) bs) s = Some (pure_run ps x xd bs s).
Proof.
  induction 1 as [|b bs Hb _ IH]; intros s; cbn [map zrun trun pure_run]; auto.
  unfold tstep, zstep. cbn [oob resolve]. rewrite Hb.
  match goal with |- context [trun _ _ _ _ ?s1 = _] => exact (IH s1) end.
Qed.

Lemma regular_all ps x bs : Forall (fun b => forall T T', regular b T T') bs ->
  forall i T, regular_run ps x (map (@Plain reals) bs) i T.
Proof.
  induction 1 as [|b bs Hb _ IH]; intros i T; cbn [map regular_run]; auto.
Qed.

Definition ex15 : prog reals :=
  Do (CInd reals 0) (Do (CInd reals 1) (Do (CSin reals (Fresh 2) 0 3)
  (Do (CBin reals BMul (Fresh 4) 1 2) (Do (CEqProd reals false (Fresh 5) 0 1 4 true)
  (Do (CDep reals 4) (Ret reals)))))).
Definition ex15_ops (T0 : rmem) : list (bop reals) :=
  [TakeStock reals 6 0 (map T0 (seq 0 6)); AssignInd reals 0; AssignInd reals 1;
   AssignD0 reals 2; AssignD0 reals 3; SinOp reals 0 3 2; AssignD0 reals 4;
   MultAA reals 1 2 4; AssignD0 reals 5; EqPlusProd reals 0 1 4; AssignDep reals 4;
   DeathNot reals 0 5].
Local Opaque Rtrigo_def.sin Rtrigo_def.cos Rplus Rmult Ropp Rinv IZR.
Example ex15_ok (T0 g gd : rmem) (ps ps1 x1 x xd : nat -> R) : exists t m td,
  @record reals T0 [6%nat] 5 ps1 x1 ex15 = Some t /\
  (total [6%nat] <= 6)%nat /\
  prog_ok 6 ex15 (fun l => l <? total [6%nat])%nat (fun _ => false) = true /\
  @zos_forward reals ps x g t = Done m /\ (0 <= frc m)%Z /\ fi m = 2%nat /\
  regular_run ps x t 0 g /\
  @fos_forward reals ps x xd g gd t = Some td /\
  tyd td = [(xd 1%nat * Rtrigo_def.sin (x 0%nat) + x 1%nat * (Rtrigo_def.cos (x 0%nat) * xd 0%nat))
            + (x 0%nat * xd 1%nat + x 1%nat * xd 0%nat)].
Proof.
  set (s0 := mkT (@mkF reals g 0 [] 3%Z []) gd []).
  exists (map (@Plain reals) (ex15_ops T0)), (tF (pure_run ps x xd (ex15_ops T0) s0)),
    (pure_run ps x xd (ex15_ops T0) s0).
  assert (F : Forall nostop (ex15_ops T0)) by (repeat constructor).
  destruct (pure_ok ps x xd F s0) as [Z1 Z2].
  split; [reflexivity|]. split; [cbn; lia|]. split; [reflexivity|].
  split; [exact Z1|]. clear F Z1.
  split. { match goal with |- (0 <= ?a)%Z => replace a with 3%Z by reflexivity end; lia. }
  split; [reflexivity|].
  split; [apply regular_all; repeat constructor|]. split; [exact Z2|]. lazy. f_equal. ring.
Qed.

(* ------------------------------------------------------------------ *)
(* Where the transpose property fails.                                   *)

(* One variable declared independent twice ( a <<= x0; a <<= x1; ): the adjoint is
   not set to zero by assign_ind (fo_rev.cpp:721-730), so the first input gets the
   derivative of the second. *)
Definition two_inputs : prog reals :=
  Do (CInd reals 0) (Do (CInd reals 0) (Do (CCopy reals 0 1) (Do (CDep reals 1) (Ret reals)))).
Theorem C15_redeclared_independent_refuted (T0 g gd gT gA : rmem) (gz ps x u xd : nat -> R) :
  u 0%nat * xd 0%nat <> 0 ->
  exists t m td,
  @record reals T0 [] 1 ps x two_inputs = Some t /\
  @zos_forward reals ps x g t = Done m /\ (0 <= frc m)%Z /\ regular_run ps x t 0 g /\
  @fos_forward reals ps x xd g gd t = Some td /\
  let r := @fos_reverse reals u (fi m) (length (fy m)) gT gA gz (fk m) t in
  tyd td = [xd 1%nat] /\ rz r 0%nat = u 0%nat /\
  wsum u 0 (tyd td) <> isum (rz r) xd 0 (fi m).
Proof.
  intros H. set (s0 := mkT (@mkF reals g 0 [] 3%Z []) gd []).
  set (bs := [AssignInd reals 0; AssignInd reals 0; AssignA reals 0 1; AssignDep reals 1;
              DeathNot reals 0 1]).
  exists (map (@Plain reals) bs), (tF (pure_run ps x xd bs s0)), (pure_run ps x xd bs s0).
  assert (F : Forall nostop bs) by (repeat constructor).
  destruct (pure_ok ps x xd F s0) as [Z1 Z2].
  split; [reflexivity|]. split; [exact Z1|].
  split. { match goal with |- (0 <= ?a)%Z => replace a with 3%Z by reflexivity end; lia. }
  split; [apply regular_all; repeat constructor|]. split; [exact Z2|].
  cbv zeta. clear Z1 Z2 F. split; [reflexivity|].
  split; lazy; lra.
Qed.

(* One variable declared dependent twice ( y >>= d0; y >>= d1; ): assign_dep sets the
   adjoint (fo_rev.cpp:742-743) instead of adding to it, so the weight of the
   later output is lost. *)
Definition two_outputs : prog reals :=
  Do (CInd reals 0) (Do (CCopy reals 0 1) (Do (CDep reals 1) (Do (CDep reals 1) (Ret reals)))).
Theorem C15_redeclared_dependent_refuted (T0 g gd gT gA : rmem) (gz ps x u xd : nat -> R) :
  u 1%nat * xd 0%nat <> 0 ->
  exists t m td,
  @record reals T0 [] 1 ps x two_outputs = Some t /\
  @zos_forward reals ps x g t = Done m /\ (0 <= frc m)%Z /\ regular_run ps x t 0 g /\
  @fos_forward reals ps x xd g gd t = Some td /\
  let r := @fos_reverse reals u (fi m) (length (fy m)) gT gA gz (fk m) t in
  tyd td = [xd 0%nat; xd 0%nat] /\ rz r 0%nat = u 0%nat /\
  wsum u 0 (tyd td) <> isum (rz r) xd 0 (fi m).
Proof.
  intros H. set (s0 := mkT (@mkF reals g 0 [] 3%Z []) gd []).
  set (bs := [AssignInd reals 0; AssignA reals 0 1; AssignDep reals 1; AssignDep reals 1;
              DeathNot reals 0 1]).
  exists (map (@Plain reals) bs), (tF (pure_run ps x xd bs s0)), (pure_run ps x xd bs s0).
  assert (F : Forall nostop bs) by (repeat constructor).
  destruct (pure_ok ps x xd F s0) as [Z1 Z2].
  split; [reflexivity|]. split; [exact Z1|].
  split. { match goal with |- (0 <= ?a)%Z => replace a with 3%Z by reflexivity end; lia. }
  split; [apply regular_all; repeat constructor|]. split; [exact Z2|].
  cbv zeta. clear Z1 Z2 F. split; [reflexivity|].
  split; lazy; lra.
Qed.

(* The value of an output is used after its declaration ( y = x; y >>= d; z = 2*y;
   z >>= e; ): the weight of e never reaches x. *)
Definition read_after_output : prog reals :=
  Do (CInd reals 0) (Do (CCopy reals 0 1) (Do (CDep reals 1)
  (Do (CBin reals BAdd (Fresh 2) 1 1) (Do (CDep reals 2) (Ret reals))))).
Theorem C15_used_dependent_refuted (T0 g gd gT gA : rmem) (gz ps x u xd : nat -> R) :
  u 1%nat * xd 0%nat <> 0 ->
  exists t m td,
  @record reals T0 [] 2 ps x read_after_output = Some t /\
  @zos_forward reals ps x g t = Done m /\ (0 <= frc m)%Z /\ regular_run ps x t 0 g /\
  @fos_forward reals ps x xd g gd t = Some td /\
  let r := @fos_reverse reals u (fi m) (length (fy m)) gT gA gz (fk m) t in
  tyd td = [xd 0%nat; xd 0%nat + xd 0%nat] /\ rz r 0%nat = u 0%nat /\
  wsum u 0 (tyd td) <> isum (rz r) xd 0 (fi m).
Proof.
  intros H. set (s0 := mkT (@mkF reals g 0 [] 3%Z []) gd []).
  set (bs := [AssignInd reals 0; AssignA reals 0 1; AssignDep reals 1; AssignD0 reals 2;
              PlusAA reals 1 1 2; AssignDep reals 2; DeathNot reals 0 2]).
  exists (map (@Plain reals) bs), (tF (pure_run ps x xd bs s0)), (pure_run ps x xd bs s0).
  assert (F : Forall nostop bs) by (repeat constructor).
  destruct (pure_ok ps x xd F s0) as [Z1 Z2].
  split; [reflexivity|]. split; [exact Z1|].
  split. { match goal with |- (0 <= ?a)%Z => replace a with 3%Z by reflexivity end; lia. }
  split; [apply regular_all; repeat constructor|]. split; [exact Z2|].
  cbv zeta. clear Z1 Z2 F. split; [reflexivity|].
  split; lazy; lra.
Qed.

(* vec_copy: the old values are pushed in ascending order and popped in ascending
   order (uni5_for.cpp:4955-4990, fo_rev.cpp:2330-2346), so they are exchanged. *)
Theorem C16_vec_copy_refuted (T0 g gT gA : rmem) ps u gz (x : nat -> R) :
  let p := Do (CInd reals 2) (Do (CInd reals 3) (Ret reals)) in
  let q := Do (CVecCopy reals 2 0 2) (Ret reals) in
  exists s s2 t2 m m1,
  @run reals ps x p (@start reals T0 []) = Some s /\
  @run reals ps x q s = Some s2 /\ sops s2 = sops s ++ t2 /\
  @zos_forward reals ps x g (finish 3 s2) = Done m /\ (0 <= frc m)%Z /\
  @zos_forward reals ps x g (sops s) = Done m1 /\
  let r := @fos_reverse reals u (fi m) (length (fy m)) gT gA gz (fk m)
             (t2 ++ [Plain (DeathNot reals 0 3)]) in
  fT m1 2%nat = x 0%nat /\ rT r 2%nat = x 1%nat.
Proof.
  cbv zeta.
  set (s := @mkRec reals (rupd (rupd T0 2 (x 0%nat)) 3 (x 1%nat)) 2
    [Plain (AssignInd reals 2); Plain (AssignInd reals 3)] [T0 3%nat; T0 2%nat] [] []).
  destruct (@run reals ps x (Do (CVecCopy reals 2 0 2) (Ret reals)) s) as [s2|] eqn:E;
    [|discriminate E].
  assert (O : sops s2 = sops s ++ [Plain (VecCopy reals 0 2 2)])
    by (injection E as <-; reflexivity).
  set (s0 := mkT (@mkF reals g 0 [] 3%Z []) g []).
  set (b1 := [AssignInd reals 2; AssignInd reals 3]).
  set (bs := [AssignInd reals 2; AssignInd reals 3; VecCopy reals 0 2 2; DeathNot reals 0 3]).
  assert (F : Forall nostop bs) by (repeat constructor).
  assert (F1 : Forall nostop b1) by (repeat constructor).
  destruct (pure_ok ps x x F s0) as [Z1 _]. destruct (pure_ok ps x x F1 s0) as [Z2 _].
  exists s, s2, [Plain (VecCopy reals 0 2 2)], (tF (pure_run ps x x bs s0)),
    (tF (pure_run ps x x b1 s0)).
  split; [reflexivity|]. split; [exact E|]. split; [exact O|].
  split. { unfold finish. rewrite O. exact Z1. }
  split. { match goal with |- (0 <= ?a)%Z => replace a with 3%Z by reflexivity end; lia. }
  split; [exact Z2|]. clear. split; lazy; reflexivity.
Qed.
