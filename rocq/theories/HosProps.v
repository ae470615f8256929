(* C21: hos_forward computes the Taylor coefficients of the recorded function along
   the curve given by the input coefficients.                               *)
From Coq Require Import List ZArith Bool Arith Lia Reals Lra.
From Coquelicot Require Import Coquelicot.
Require Import Verif.AdModel Verif.AdRecord Verif.AdSpec Verif.AdReplay Verif.AdRestore
  Verif.AdTidyCalls Verif.AdPlain Verif.AdPlainRun Verif.AdProps
  Verif.AdReal Verif.AdLin Verif.AdReverse Verif.AdReverseProps Verif.AdDeriv Verif.AdTangent
  Verif.AdDerivProps
  Verif.HosModel Verif.HosSpec Verif.HosTay Verif.HosFun Verif.HosLoops Verif.HosProofs.
Import ListNotations.
Set Implicit Arguments.
Unset Asymmetric Patterns.
Local Open Scope R_scope.

Fixpoint houts (k : nat) (ps x : nat -> R) (xc : rrows) (bs : list (bop reals)) (i : nat)
  (T : rmem) (C : rrows) : list (nat -> R) :=
  match bs with
  | [] => []
  | b :: bs' => @hout_of reals b C ++ houts k ps x xc bs' (next_i b i) (@zval reals ps x i b T)
                                 (@hval reals k ps x xc i b T C)
  end.
Definition nofail (k : nat) (bs : list (bop reals)) : Prop :=
  List.Forall (fun b => hfail k b = false) bs.
Definition norow : nat -> R := fun _ => 0.

Section Trace.
Variables (k : nat) (s0 : R) (X : R -> nat -> R) (xc : rrows) (ps : nat -> R).
Hypothesis Hk : (0 < k)%nat.
Hypothesis HX : forall i, tay k (fun s => X s i) s0 (joined (X s0 i) (xc i)).

Definition tgood (A : list nat) (bs : list (bop reals)) (i : nat) (Tm : R -> rmem) : Prop :=
  forall (D : nat -> Prop) (C : rrows), tfollows k s0 D Tm C -> (forall l, In l A -> D l) ->
  freads bs D -> bsmooth ps (X s0) bs i (Tm s0) -> nofail k bs ->
  (forall j, tay k (fun s => nth j (vouts ps (X s) bs i (Tm s)) 0) s0
       (joined (nth j (vouts ps (X s0) bs i (Tm s0)) 0) (nth j (houts k ps (X s0) xc bs i (Tm s0) C) norow))) /\
  (noabort ps (X s0) bs i (Tm s0) -> locally s0 (fun s => noabort ps (X s) bs i (Tm s))).

Lemma tf_follows (D : nat -> Prop) Tm C : tfollows k s0 D Tm C -> follows s0 D Tm (fun l => C l 0%nat).
Proof. intros F l Hl. apply (@tay_d k s0 Hk (fun s => Tm s l) _ (F l Hl)). Qed.

Lemma tgood_cons A b bs i Tm : apart b -> helper_ok b -> (forall s, helper_val b (Tm s)) ->
  match b with HelpOp _ _ _ a2 _ => In a2 A | _ => True end ->
  tgood (A ++ bwrites b) bs (next_i b i) (fun s => @zval reals ps (X s) i b (Tm s)) -> tgood A (b :: bs) i Tm.
Proof.
  intros Ha Ho Hv HA G D C F HD [HR HR'] [Sm Sm'] Hn. inversion Hn as [|? ? N1 N2]; subst.
  assert (F' : tfollows k s0 (plusset D (bwrites b)) (fun s => @zval reals ps (X s) i b (Tm s))
          (@hval reals k ps (X s0) xc i b (Tm s0) C)).
  { apply (@op_tay k s0 X xc Hk HX); auto.
    - apply filter_forall. auto.
    - destruct b; auto. }
  destruct (G _ _ F') as [G1 G2]; auto.
  { intros l Hl. apply in_app_or in Hl. destruct Hl as [Hl|Hl]; [left; auto|now right]. }
  split.
  - intros j. cbn [vouts houts].
    assert (O : forall s, length (out_of b (Tm s)) = length (@hout_of reals b C)) by now destruct b.
    destruct (Nat.lt_ge_cases j (length (@hout_of reals b C))) as [L|L].
    + apply (@tay_ext k (fun s => nth j (out_of b (Tm s)) 0)).
      { intros s. symmetry. apply app_nth1. now rewrite O. }
      rewrite !app_nth1 by (rewrite ?O; auto).
      destruct b; cbn in L; try lia. destruct j; cbn in L; [|lia]. cbn [out_of hout_of nth].
      apply F, HR. now left.
    + apply (@tay_ext k (fun s => nth (j - length (@hout_of reals b C))
          (vouts ps (X s) bs (next_i b i) (@zval reals ps (X s) i b (Tm s))) 0)).
      { intros s. symmetry. rewrite app_nth2, O; auto. now rewrite O. }
      rewrite !app_nth2 by (rewrite ?O; auto). rewrite O. apply G1.
  - cbn [noabort]. intros [M1 M2]. apply filter_and; [|now apply G2].
    eapply abort_loc; eauto. apply tf_follows. exact F.
Qed.

Lemma tgood_pre pre : List.Forall (fun b => neat b /\ is_ind b = false) pre -> forall A bs i Tm,
  (tgood (A ++ concat (map (@bwrites reals) pre)) bs i (fun s => vals ps (X s) i pre (Tm s))) ->
  tgood A (pre ++ bs) i Tm.
Proof.
  induction 1 as [|b pre [[Ha Hb] Hi] _ IH]; intros A bs i Tm G; cbn [app vals map concat] in *.
  - now rewrite app_nil_r in G.
  - apply tgood_cons; auto; try (now destruct b).
    unfold next_i. rewrite Hi. apply IH. now rewrite <- app_assoc.
Qed.

Lemma hder_moves f : is_helper f = true -> exists v, hder f v <> v.
Proof.
  assert (Q : 0 < sqrt (acos (-1))).
  { apply sqrt_lt_R0. replace (-1) with (- (1)) by ring. rewrite acos_opp, acos_1.
    pose proof PI_RGT_0. lra. }
  intros H. destruct f; try discriminate H; cbn [hder].
  - exists 0. replace (1 + 0 * 0) with 1 by ring. lra.
  - exists 0. replace (1 - 0 * 0) with 1 by ring. rewrite sqrt_1. lra.
  - exists 0. replace (1 - 0 * 0) with 1 by ring. rewrite sqrt_1. lra.
  - exists 0. replace (0 * 0 + 1) with 1 by ring. rewrite sqrt_1. lra.
  - exists 2. assert (P : 1 < sqrt (2 * 2 - 1)).
    { rewrite <- sqrt_1 at 1. apply sqrt_lt_1_alt. lra. }
    assert (Q2 : / sqrt (2 * 2 - 1) < 1).
    { pose proof (Rinv_lt_contravar 1 (sqrt (2 * 2 - 1)) ltac:(lra) P) as I1. rewrite Rinv_1 in I1. exact I1. }
    intros E. lra.
  - exists 0. replace (1 - 0 * 0) with 1 by ring. lra.
  - exists 0. replace (- 0 * 0) with 0 by ring. rewrite exp_0.
    pose proof (Rinv_0_lt_compat _ Q). unfold Rdiv. lra.
  - exists 0. replace (- 0 * 0) with 0 by ring. rewrite exp_0.
    pose proof (Rinv_0_lt_compat _ Q). unfold Rdiv. lra.
Qed.

Lemma vals_frame x i l : forall pre T, ~ In l (concat (map (@bwrites reals) pre)) -> vals ps x i pre T l = T l.
Proof.
  induction pre as [|b pre IH]; intros T H; cbn [vals map concat] in *; auto.
  rewrite IH; [apply (@zval_frame reals)|]; intros Q; apply H, in_or_app; auto.
Qed.
Lemma helper_written f a1 a2 pre : is_helper f = true ->
  (forall ps x i T, vals ps x i pre T a2 = hder f (T a1) /\ vals ps x i pre T a1 = T a1) ->
  In a2 (concat (map (@bwrites reals) pre)).
Proof.
  intros Hf Hv. destruct (in_dec Nat.eq_dec a2 (concat (map (@bwrites reals) pre))) as [H|H]; auto.
  exfalso. destruct (@hder_moves f Hf) as [v Mv].
  set (T := fun l => if (l =? a1)%nat then v else hder f v + 1).
  destruct (Hv ps (X s0) 0%nat T) as [E1 _]. rewrite (@vals_frame (X s0) 0%nat a2 pre T H) in E1.
  unfold T in E1. rewrite Nat.eqb_refl in E1. destruct (a2 =? a1)%nat; lra.
Qed.

Theorem trace_tgood bs : helped bs -> forall A i Tm, tgood A bs i Tm.
Proof.
  induction 1 as [|b bs [Ha Hb] _ IH|f a1 a2 r pre bs Hp Hf Hn Hv _ IH]; intros A i Tm.
  - intros D C F _ _ _ _. split.
    + intros j. cbn [vouts houts]. eapply tay_ext; [|eapply tay_coef; [|apply (@tay_const' k s0 0)]].
      * intros s. now destruct j.
      * intros [|q] _; cbn [joined]; now destruct j.
    + intros _. apply filter_forall. intros; exact I.
  - apply tgood_cons; auto; now destruct b.
  - apply tgood_pre; auto. apply tgood_cons; auto.
    + intros s. cbn. destruct (Hv ps (X s) i (Tm s)) as [-> ->]. reflexivity.
    + apply in_or_app. right. eapply helper_written; eauto.
Qed.
End Trace.

(* ------------------------------------------------------------------ *)
(* The sweep                                                            *)

Lemma hrun_houts k ps x xc bs : forall (s : hstate reals) st m,
  @hrun reals k ps x xc (map (@Plain reals) bs) s = Some st ->
  @zexec reals ps x (map (@Plain reals) bs) (hF s) = inl m ->
  nofail k bs /\ hF st = m /\
  hY st = hY s ++ houts k ps x xc bs (fi (hF s)) (fT (hF s)) (hC s).
Proof.
  induction bs as [|b bs IH]; intros s st m H E; cbn [map hrun zexec houts] in *.
  - injection H as <-. injection E as <-. rewrite app_nil_r. repeat split. constructor.
  - unfold hstep in H. unfold zstep in H, E. cbn [oob resolve] in H, E.
    destruct (zabort b (fT (hF s))) eqn:Ab; [discriminate|].
    destruct (hfail k b) eqn:Hf; [discriminate|].
    destruct (IH _ _ _ H E) as (N & Q1 & Q2). cbn [hF hC hY fi fT] in Q2.
    split; [constructor; auto|]. split; auto.
    rewrite Q2, <- app_assoc. reflexivity.
Qed.

Lemma houts_length k ps x xc bs : forall i T C,
  length (houts k ps x xc bs i T C) = length (vouts ps x bs i T).
Proof.
  induction bs as [|b bs IH]; intros i T C; cbn [houts vouts]; auto.
  rewrite !app_length, IH. f_equal. now destruct b.
Qed.

Theorem C21_trace k s0 (X : R -> nat -> R) xc ps bs (g : rmem) (gc : rrows) m st :
  (0 < k)%nat ->
  (forall i, taylor k (fun s => X s i) s0 (joined (X s0 i) (xc i))) ->
  let t := map (@Plain reals) bs in
  helped bs -> freads bs (fun _ => False) ->
  smooth_run ps (X s0) t 0 g ->
  @zos_forward reals ps (X s0) g t = Done m -> (0 <= frc m)%Z ->
  @hos_forward reals k ps (X s0) xc g gc t = Some st ->
  hF st = m /\ length (hY st) = length (fy m) /\
  forall j, taylor k (fun s => nth j (outputs ps (X s) g t) 0) s0
                     (joined (nth j (fy m) 0) (nth j (hY st) norow)).
Proof.
  intros Hk HX t Hh Hr Hs Hz Hc Hf.
  assert (HX' : forall i, tay k (fun s => X s i) s0 (joined (X s0 i) (xc i))).
  { intros i. apply taylor_tay, HX. }
  pose proof (@zrun_path reals ps (X s0) t _ _ Hz Hc) as E.
  pose proof (@exec_noabort ps (X s0) bs _ _ E) as N. cbn [fi fT] in N.
  destruct (@hrun_houts k ps (X s0) xc bs _ st m Hf E) as (Nf & Q0 & Q). cbn [hY hF hC fi fT app] in Q.
  destruct (@trace_tgood k s0 X xc ps Hk HX' bs Hh [] 0%nat (fun _ => g) (fun _ => False) gc) as [G1 G2]; auto.
  { intros l []. }
  { now apply smooth_b. }
  assert (Y0 : fy m = vouts ps (X s0) bs 0 g).
  { destruct (@noabort_exec ps (X s0) bs (@mkF reals g 0 [] 3%Z []) N) as (m' & E' & Y).
    fold t in E'. rewrite E in E'. injection E' as <-. rewrite Y. reflexivity. }
  split; auto. split.
  - rewrite Q, Y0. apply houts_length.
  - intros j. rewrite Q, Y0. apply tay_taylor.
    eapply tay_ext_loc; [|apply G1].
    eapply filter_imp; [|exact (G2 N)]. cbv beta. intros s Ns.
    destruct (@noabort_exec ps (X s) bs (@mkF reals g 0 [] 3%Z []) Ns) as (m' & E' & Y).
    unfold outputs, zos_forward. rewrite zrun_exec. fold t in E'. rewrite E', Y. reflexivity.
Qed.

(* A program is recorded at x1; at X s0 the sweep over its trace does not change
   branch and every operation is smooth there.  X is a curve whose components have
   the coefficients X s0 i, xc i 0, .., xc i (k-1) at s0.  If hos_forward returns,
   the coefficients it stores for dependent j are those of the j-th output of the
   recorded function along the curve.  g, gc: contents of the uninitialised buffers. *)
Theorem C21_taylor T0 chunks last ps1 x1 p s1 k
  ps s0 (X : R -> nat -> R) xc (g : rmem) (gc : rrows) m st :
  @wellbehaved reals ps1 x1 p (pstart T0 chunks) -> fprog p = true ->
  @run reals ps1 x1 p (start T0 chunks) = Some s1 ->
  let t := finish last s1 in
  (0 < k)%nat ->
  (forall i, taylor k (fun s => X s i) s0 (joined (X s0 i) (xc i))) ->
  smooth_run ps (X s0) t 0 g ->
  @zos_forward reals ps (X s0) g t = Done m -> (0 <= frc m)%Z ->
  @hos_forward reals k ps (X s0) xc g gc t = Some st ->
  hF st = m /\ length (hY st) = length (fy m) /\
  forall j, taylor k (fun s => nth j (outputs ps (X s) g t) 0) s0
                     (joined (nth j (fy m) 0) (nth j (hY st) norow)).
Proof.
  intros W Fp R t Hk HX Sm Hz Hc Hf.
  destruct (@plain_run reals reals_laws ps1 x1 p (pstart T0 chunks) (start T0 chunks)
              (stocked chunks) W) as [Ok _]; auto.
  { intros l _. reflexivity. }
  destruct (@run_trace ps1 x1 p _ _ _ Fp Ok R) as (bs & Eo & Fr & Hh).
  destruct (@stock_trace T0 chunks 0%nat (fun _ => False)) as (b0 & E0 & F0 & H0 & G0).
  assert (Et : t = map (@Plain reals) (b0 ++ bs ++ [DeathNot reals 0 last])).
  { unfold t, finish. rewrite Eo. cbn [start sops]. rewrite E0, !map_app, app_assoc. reflexivity. }
  rewrite Et in *. eapply C21_trace; eauto.
  - apply helped_app; auto. apply helped_app; auto. constructor; [split; cbn; auto|constructor].
  - apply freads_app; auto. apply freads_app.
    + eapply freads_mono; [|exact Fr]. intros l Hl. apply G0. right. unfold stocked in Hl.
      unfold total. lia.
    + cbn. split; auto. intros l [].
Qed.

(* The same about the program itself. *)
Theorem C21_program T0 chunks last x1 p s1 k
  ps s0 (X : R -> nat -> R) xc (g : rmem) (gc : rrows) st (q : R -> pst reals) :
  @wellbehaved reals ps x1 p (pstart T0 chunks) -> fprog p = true ->
  @run reals ps x1 p (start T0 chunks) = Some s1 ->
  let t := finish last s1 in
  (0 < k)%nat ->
  (forall i, taylor k (fun s => X s i) s0 (joined (X s0 i) (xc i))) ->
  smooth_run ps (X s0) t 0 g ->
  locally s0 (fun s => @wellbehaved reals ps (X s) p (pstart T0 chunks) /\
                       @plain reals ps (X s) p (pstart T0 chunks) = Some (q s) /\ sd s1 = pd (q s)) ->
  @hos_forward reals k ps (X s0) xc g gc t = Some st ->
  forall j, taylor k (fun s => nth j (py (q s)) 0) s0
                     (joined (nth j (py (q s0)) 0) (nth j (hY st) norow)).
Proof.
  intros W Fp R t Hk HX Sm L Hf j.
  assert (P : forall s, (@wellbehaved reals ps (X s) p (pstart T0 chunks) /\
                       @plain reals ps (X s) p (pstart T0 chunks) = Some (q s) /\ sd s1 = pd (q s)) ->
     exists m, @zos_forward reals ps (X s) g t = Done m /\ (0 <= frc m)%Z /\ fy m = py (q s)).
  { intros s (A & B & C). eapply C12_replay_completes; eauto. apply reals_laws. }
  destruct (P s0 (locally_singleton _ _ L)) as (m & Hz & Hc & Y).
  destruct (@C21_taylor T0 chunks last ps x1 p s1 k ps s0 X xc g gc m st) as (_ & _ & G); auto.
  rewrite Y in G. specialize (G j). apply taylor_tay in G. apply tay_taylor.
  eapply tay_ext_loc; [|exact G]. eapply filter_imp; [|exact L]. intros s Hs. cbv beta.
  destruct (P s Hs) as (m2 & Hz2 & _ & Y2). unfold outputs. unfold t in Hz2. rewrite Hz2, Y2. reflexivity.
Qed.
