(* C43: hos_reverse after hos_forward with keep computes the Taylor coefficients of the
   gradient of the weighted outputs along the curve. *)
From Coq Require Import List ZArith Bool Arith Lia Reals Lra FunctionalExtensionality.
From Coquelicot Require Import Coquelicot.
Require Import Verif.AdModel Verif.AdRecord Verif.AdSpec Verif.AdReplay Verif.AdRestore
  Verif.AdReal Verif.AdLin Verif.AdReverse Verif.AdTidy Verif.AdDeriv Verif.AdTangent
  Verif.AdTidyCalls Verif.AdPlain Verif.AdPlainRun Verif.AdProps Verif.AdReverseProps Verif.AdDerivProps
  Verif.AdDerivEx
  Verif.HosModel Verif.HosSpec Verif.HosTay Verif.HosFun Verif.HosLoops Verif.HosProofs Verif.HosProps
  Verif.HrvModel Verif.HrvLoops Verif.HrvOp Verif.HrvRow Verif.HrvTay Verif.HrvFos Verif.HrvMain
  Verif.DrvModel Verif.DrvSpec Verif.DrvProps Verif.DrvTrace.
Import ListNotations.
Set Implicit Arguments.
Unset Asymmetric Patterns.
Local Open Scope R_scope.

(* Every operation of the trace, swept at x, is one that hos_reverse differentiates: no
   cbrt (the sweep stops), no ceil and floor (see the refutations below), and the base of
   a power is larger than ADOLC_EPS in modulus. *)
Fixpoint reverse_ok (eps : R) (ps x : nat -> R) (t : list (op reals)) (i : nat) (T : rmem) : Prop :=
  match t with
  | [] => True
  | o :: t' =>
      let b := @resolve reals T o in
      rok eps b T /\ reverse_ok eps ps x t' (if is_ind b then S i else i) (@zval reals ps x i b T)
  end.

Lemma reverse_b eps s0 X ps bs : forall i T, reverse_ok eps ps (X s0) (map (@Plain reals) bs) i T -> brok eps s0 X ps bs i T.
Proof. induction bs as [|b bs IH]; intros i T; cbn [map reverse_ok brok resolve]; auto. intros [A B]. split; auto. Qed.
Lemma b_smooth ps x bs : forall i T, bsmooth ps x bs i T -> smooth_run ps x (map (@Plain reals) bs) i T.
Proof. induction bs as [|b bs IH]; intros i T; cbn [map smooth_run bsmooth resolve]; auto. intros [A B]. split; auto. Qed.

Definition stocky (b : bop reals) : Prop := exists n f vs, b = TakeStock reals n f vs.
Lemma stock_stocky T0 chunks : forall from, exists bs, stock_ops T0 chunks from = map (@Plain reals) bs /\ List.Forall stocky bs.
Proof.
  induction chunks as [|n cs IH]; intros from; cbn [stock_ops].
  - exists []. auto.
  - destruct (IH (from + n)%nat) as (bs & E & F). exists (TakeStock reals n from (map T0 (seq from n)) :: bs).
    split; [cbn; now rewrite E|]. constructor; auto. unfold stocky. eauto.
Qed.
Lemma plain_inj (a : list (bop reals)) : forall b, map (@Plain reals) a = map (@Plain reals) b -> a = b.
Proof. induction a as [|x a IH]; intros [|y b] H; try discriminate; auto. injection H as H1 H2. f_equal; auto. Qed.

Lemma stock_vpath ps x b0 : List.Forall stocky b0 -> forall t2 (s s' : vst reals),
  @vpath reals ps x (map (@Plain reals) b0 ++ t2) s s' ->
  @vpath reals ps x t2 (@mkV reals (vals ps x (vi s) b0 (vT s)) (vi s) (vy s) (vk s)) s'.
Proof.
  induction 1 as [|b b0 (n & f & vs & ->) _ IH]; intros t2 s s' P; cbn [map app vals] in *.
  - destruct s; exact P.
  - inversion P as [|o' t' p0 p0' pk Kp P']; subst. cbn [resolve keeps] in Kp. cbn in Kp. subst pk.
    apply IH in P'. cbn [vnext resolve vi vT vy vk is_ind out_of length rev app] in P'. rewrite Nat.add_0_r in P'. exact P'.
Qed.
Lemma stock_regular ps x b0 : List.Forall stocky b0 -> forall bs i T,
  regular_run ps x (map (@Plain reals) (b0 ++ bs)) i T -> regular_run ps x (map (@Plain reals) bs) i (vals ps x i b0 T).
Proof. induction 1 as [|b b0 (n & f & vs & ->) _ IH]; intros bs i T Q; cbn [map app vals regular_run resolve] in *; auto. destruct Q as [_ Q]. now apply IH. Qed.
Lemma regular_app ps x a : forall b i T, regular_run ps x (a ++ b) i T -> regular_run ps x a i T.
Proof. induction a as [|o a IH]; intros b i T; cbn [app regular_run]; auto. intros [A Q]. split; eauto. Qed.
Lemma stock_rz u b0 : List.Forall stocky b0 -> forall t2 (s : rstate reals),
  rz (@rrun reals u (map (@Plain reals) b0 ++ t2) s) = rz (@rrun reals u t2 s).
Proof.
  induction 1 as [|b b0 (n & f & vs & ->) _ IH]; intros t2 s; cbn [map app]; auto.
  rewrite rrun_cons, <- (IH t2 s). unfold rstep. cbn [resolve rval]. reflexivity.
Qed.
Lemma stock_hrz eps k L b0 : List.Forall stocky b0 -> forall t2 (s r : hrstate reals),
  @hrrun reals eps k L t2 s = Some r ->
  exists r', @hrrun reals eps k L (map (@Plain reals) b0 ++ t2) s = Some r' /\ hrz r' = hrz r /\ hrk r' = hrk r.
Proof.
  induction 1 as [|b b0 (n & f & vs & ->) _ IH]; intros t2 s r E; cbn [map app]; [eauto|].
  destruct (IH t2 s r E) as (r1 & E1 & Z1 & K1). rewrite hrrun_cons, E1. unfold hrstep. cbn [resolve hrval].
  destruct (hrzero _ _ _ _ _) as [F' A']. eexists. split; [reflexivity|]. auto.
Qed.

Lemma iend_app a : forall b i, iend (a ++ b) i = iend b (iend a i).
Proof. induction a as [|x a IH]; intros b i; cbn [app iend]; auto. Qed.
Lemma jend_app a : forall b i, jend (a ++ b) i = jend b (jend a i).
Proof. induction a as [|x a IH]; intros b i; cbn [app jend]; auto. Qed.
Lemma stock_iend b0 : List.Forall stocky b0 -> forall i, iend b0 i = i /\ jend b0 i = i.
Proof. induction 1 as [|b b0 (n & f & vs & ->) _ IH]; intros i; cbn [iend jend]; auto. unfold next_i, nout. cbn [is_ind out_of length]. rewrite Nat.add_0_r. apply IH. Qed.
Lemma exec_counts ps x bs : forall m m', @zexec reals ps x (map (@Plain reals) bs) m = inl m' ->
  fi m' = iend bs (fi m) /\ length (fy m') = jend bs (length (fy m)) /\ ((0 <= frc m)%Z -> (0 <= frc m')%Z).
Proof.
  induction bs as [|b bs IH]; intros m m' H; cbn [map zexec iend jend] in *.
  - injection H as <-. auto.
  - unfold zstep in H. cbn [oob resolve] in H. destruct (zabort b (fT m)); [discriminate|].
    destruct (IH _ _ H) as (A & B & C). cbn [fi fy frc] in A, B, C. rewrite app_length, nout_of in B.
    split; [exact A|]. split; [exact B|]. intros Q. apply C. now apply zrc_ok.
Qed.
Lemma hkrun_stk d ps x xc bs : forall (s st : hkstate reals) m,
  @hkrun reals d ps x xc (map (@Plain reals) bs) s = Some st ->
  @zexec reals ps x (map (@Plain reals) bs) (hF (hkH s)) = inl m ->
  @hrun reals d ps x xc (map (@Plain reals) bs) (hkH s) = Some (hkH st) /\
  hkk st = hstk d xc ps x bs (fi (hF (hkH s))) (fT (hF (hkH s))) (hC (hkH s)) (hkk s).
Proof.
  induction bs as [|b bs IH]; intros s st m H E; cbn [map hkrun hrun zexec hstk] in *.
  - injection H as <-. auto.
  - unfold hkstep in H. unfold hstep in *. unfold zstep in *. cbn [oob resolve] in *.
    destruct (zabort b (fT (hF (hkH s)))) eqn:Ab; [discriminate|].
    destruct (hfail d b) eqn:Hf; [discriminate|].
    destruct (IH _ _ _ H E) as (Q1 & Q2). cbn [hkH hF hC hkk fi fT] in *. split; [exact Q1|exact Q2].
Qed.
Lemma hstk_app d xc ps x a : forall b i T C st, exists T' C', 
  hstk d xc ps x (a ++ b) i T C st = hstk d xc ps x b (iend a i) T' C' (hstk d xc ps x a i T C st).
Proof. induction a as [|o a IH]; intros b i T C st; cbn [app hstk iend]; [eauto|]. apply IH. Qed.
Lemma hstk_stock d xc ps x b0 : List.Forall stocky b0 -> forall bs i T C st,
  hstk d xc ps x (b0 ++ bs) i T C st = hstk d xc ps x bs i (vals ps x i b0 T) (hvals d xc ps x i b0 T C) st.
Proof. induction 1 as [|b b0 (n & f & vs & ->) _ IH]; intros bs i T C st; cbn [app hstk vals hvals hpushes rev]; auto. Qed.

Lemma tracks_front eps d s0 X xc ps a b : forall i D Tm C, tracks eps d s0 X xc ps (a ++ b) i D Tm C -> tracks eps d s0 X xc ps a i D Tm C.
Proof.
  induction a as [|o a IH]; intros i D Tm C; cbn [app tracks].
  - destruct b; cbn [tracks]; [auto|]. intros [A _]. exact A.
  - intros (A1 & A2 & A3 & A0 & A4 & A5 & A6 & A7 & A8). repeat (split; [assumption|]). apply IH, A8.
Qed.

Section Trace.
Variables (T0 : mem reals) (chunks : list nat) (last : nat) (ps1 x1 : nat -> R) (p : prog reals) (s1 : rec reals).
Hypothesis W : @wellbehaved reals ps1 x1 p (pstart T0 chunks).
Hypothesis Fp : fprog p = true.
Hypothesis Hl : (total chunks <= S last)%nat.
Hypothesis Ok : prog_ok (S last) p (fun l => l <? total chunks)%nat (fun _ => false) = true.
Hypothesis Rn : @run reals ps1 x1 p (start T0 chunks) = Some s1.
Let t := finish last s1.

Lemma fos_gradient ps (g gT gA : rmem) gz x u m i :
  smooth_run ps x t 0 g -> @zos_forward reals ps x g t = Done m -> (0 <= frc m)%Z -> (i < fi m)%nat ->
  partial (fun x => weighted (length (fy m)) u (traced ps g t x)) x i
    (rz (@fos_reverse reals u (fi m) (length (fy m)) gT gA gz (fk m) t) i).
Proof.
  intros Sm Z C I.
  assert (E : @zexec reals ps x t (@mkF reals g 0 [] 3%Z []) = inl m) by now apply zrun_path.
  destruct (@trun_some ps x (AdDerivProps.unitv i) t (mkT (@mkF reals g 0 [] 3%Z []) (fun _ => 0) []) m E) as [td Hf].
  destruct (@C14_directional_derivative T0 chunks last ps1 x1 p s1 ps 0 (line x (DrvModel.unitv i)) (AdDerivProps.unitv i) g
            (fun _ => 0) m td) as [Len G]; auto.
  { intros k. unfold line. auto_derive; [exact Logic.I|]. unfold DrvModel.unitv, AdDerivProps.unitv. ring. }
  all: try (replace (line x (DrvModel.unitv i) 0) with x
    by (apply functional_extensionality; intros k; unfold line; ring); assumption).
  assert (D : wsum u 0 (tyd td) = rz (@fos_reverse reals u (fi m) (length (fy m)) gT gA gz (fk m) t) i).
  { erewrite (@C15_adjoint T0 chunks last ps1 x1 p t ps x (AdDerivProps.unitv i) u g (fun _ => 0) gT gA gz m td); auto.
    - apply DrvTrace.isum_unit. lia.
    - unfold record. rewrite Rn. reflexivity.
    - now apply smooth_regular_run. }
  assert (Len' : @length R (tyd td) = length (fy m)) by exact Len.
  rewrite <- D, wsum_at, Len'. unfold partial, directional.
  apply (@weighted_der (length (fy m)) (fun i0 => u (0 + i0)%nat) (fun s0 => traced ps g t (line x (DrvModel.unitv i) s0)) (at_ (tyd td)) 0).
  intros j _. exact (G j).
Qed.

(* the operations of the trace *)
Lemma trace_ops : exists b0 bs, t = map (@Plain reals) (b0 ++ bs ++ [DeathNot reals 0 last]) /\
  List.Forall stocky b0 /\ tidy (S last) bs (fun l => l <? total chunks)%nat (fun _ => false) = true /\
  helped (b0 ++ bs ++ [DeathNot reals 0 last]) /\ freads (b0 ++ bs ++ [DeathNot reals 0 last]) (fun _ => False).
Proof.
  destruct (@plain_run reals reals_laws ps1 x1 p (pstart T0 chunks) (start T0 chunks)
              (stocked chunks) W) as [Ok' _]; auto.
  { intros l _. reflexivity. }
  destruct (@run_trace ps1 x1 p _ _ _ Fp Ok' Rn) as (bs & Eo & Fr & Hh).
  destruct (@stock_trace T0 chunks 0%nat (fun _ => False)) as (b0 & E0 & F0 & H0 & G0).
  destruct (@run_tidy (S last) p ps1 x1 _ _ _ _ Ok Rn) as (bs' & O & Ti).
  destruct (@stock_stocky T0 chunks 0%nat) as (b0' & E0' & S0).
  assert (bs' = bs) as -> by (apply plain_inj; rewrite Eo in O; now apply app_inv_head in O).
  assert (b0' = b0) as -> by (apply plain_inj; now rewrite <- E0, E0').
  exists b0, bs. split.
  { unfold t, finish. rewrite Eo. cbn [start sops]. rewrite E0, !map_app, app_assoc. reflexivity. }
  split; [exact S0|]. split; [exact Ti|]. split.
  - apply helped_app; auto. apply helped_app; auto. constructor; [split; cbn; auto|constructor].
  - apply freads_app; auto. apply freads_app.
    + eapply freads_mono; [|exact Fr]. intros l Hl'. apply G0. right. unfold stocked in Hl'. unfold total. lia.
    + cbn. split; auto. intros l [].
Qed.

(* fos_reverse at a point where the sweep runs through *)
Lemma fos_adjrev b0 bs ps (g gT gA : rmem) gz x u m :
  t = map (@Plain reals) (b0 ++ bs ++ [DeathNot reals 0 last]) -> List.Forall stocky b0 ->
  tidy (S last) bs (fun l => l <? total chunks)%nat (fun _ => false) = true ->
  smooth_run ps x t 0 g -> @zos_forward reals ps x g t = Done m -> (0 <= frc m)%Z ->
  forall i, rz (@fos_reverse reals u (fi m) (length (fy m)) gT gA gz (fk m) t) i =
            snd (adjrev u ps x bs 0 0 (vals ps x 0 b0 g) gz) i.
Proof.
  intros Et S0 Ti Sm Z C i.
  assert (E : @zexec reals ps x t (@mkF reals g 0 [] 3%Z []) = inl m) by now apply zrun_path.
  pose proof (@zexec_path reals ps x t _ _ E) as P. cbn [fT fi fy fk length] in P.
  pose proof (smooth_regular_run _ _ _ _ _ Sm) as Rg. rewrite Et in *.
  rewrite map_app in P. pose proof (@stock_vpath ps x b0 S0 _ _ _ P) as P2. cbn [vi vT vy vk] in P2.
  apply (@stock_regular ps x b0 S0) in Rg. rewrite map_app in P2, Rg. apply regular_app in Rg.
  destruct (@fos_ref last ps x u bs _ _ _ _ gT gA gz Ti P2 Rg) as [_ Q]. cbn [vi vT vy vk] in Q.
  rewrite <- Q. unfold fos_reverse. rewrite map_app, (@stock_rz u b0 S0), map_app. reflexivity.
Qed.

(* The program p is recorded at x1; t is its trace.  Through X s0 goes a curve with the
   Taylor coefficients X s0 i, xc i 0, .., xc i (d-1); u is a curve of weights with the
   Taylor coefficients L q.  At X s0 the sweep keeps the recorded branches and every
   operation is smooth and differentiated by hos_reverse.  g, gc, gT, gF, gA, gz: contents of the
   buffers that are not initialised.  Then the result row of independent i holds the Taylor
   coefficients, up to degree d, of the i-th partial derivative of u . F along the curve. *)
Theorem C43_hos_ti_reverse d eps ps s0 (X : R -> nat -> R) xc (u : R -> nat -> R) L
    (g : rmem) (gc gT : rrows) (gF : rmem) (gA : rrows) (gz : nat -> nat -> R) m st :
  (0 < d)%nat -> 0 <= eps ->
  (forall i, taylor d (fun s => X s i) s0 (joined (X s0 i) (xc i))) ->
  (forall q, taylor d (fun s => u s q) s0 (L q)) ->
  smooth_run ps (X s0) t 0 g -> reverse_ok eps ps (X s0) t 0 g ->
  @zos_forward reals ps (X s0) g t = Done m -> (0 <= frc m)%Z ->
  @hos_forward_keep reals d ps (X s0) xc g gc t = Some st ->
  exists r, @hos_ti_reverse reals eps d L (fi m) (length (fy m)) gT gF gA gz (hkk st) t = Some r /\
  (forall i, (i < fi m)%nat -> exists G : R -> R,
     locally s0 (fun s => partial (fun x => weighted (length (fy m)) (u s) (traced ps g t x)) (X s) i (G s)) /\
     taylor d G s0 (hrz r i)) /\
  (forall i, (fi m <= i)%nat -> hrz r i = gz i) /\
  @hos_forward reals d ps (X s0) xc g gc t = Some (hkH st) /\ hrk r = [].
Proof.
  intros Hd He HX HL Sm Rk Z C K.
  assert (HX' : forall i, tay d (fun s => X s i) s0 (joined (X s0 i) (xc i))) by (intros i; apply taylor_tay, HX).
  assert (HL' : forall q, tay d (fun s => u s q) s0 (L q)) by (intros i; apply taylor_tay, HL).
  destruct trace_ops as (b0 & bs & Et & S0 & Ti & Hh & Hr).
  assert (E : @zexec reals ps (X s0) t (@mkF reals g 0 [] 3%Z []) = inl m) by now apply zrun_path.
  set (all := b0 ++ bs ++ [DeathNot reals 0 last]) in *.
  assert (Sb : bsmooth ps (X s0) all 0 g) by (apply smooth_b; rewrite <- Et; exact Sm).
  assert (Rb : brok eps s0 X ps all 0 g) by (apply reverse_b; rewrite <- Et; exact Rk).
  unfold hos_forward_keep in K. rewrite Et in E, K. fold all in E, K.
  destruct (@hkrun_stk d ps (X s0) xc all _ _ _ K E) as [Hfw Hst]. cbn [hkH hF hC hkk fi fT] in Hfw, Hst.
  destruct (@hrun_houts d ps (X s0) xc all _ _ _ Hfw E) as (Nf & _ & _).
  pose proof (@exec_noabort ps (X s0) all _ _ E) as Na. cbn [fi fT] in Na.
  assert (Tf : tfollows d s0 (fun _ => False) (fun _ : R => g) gc) by (intros l []).
  pose proof (@trace_tracked eps d s0 X xc ps Hd HX' all Hh [] 0%nat (fun _ => g) (fun _ => False) gc Tf
     ltac:(intros l []) Hr Sb Nf Rb) as Tr.
  destruct (@trace_tgood d s0 X xc ps Hd HX' all Hh [] 0%nat (fun _ => g) (fun _ => False) gc Tf
     ltac:(intros l []) Hr Sb Nf) as [_ G2]. specialize (G2 Na).
  pose proof (@tracks_smooth eps d s0 X xc ps all _ _ _ _ Tr) as Ls.
  assert (Ni : List.Forall (fun b => is_ind b = false) b0).
  { eapply List.Forall_impl; [|exact S0]. intros b (n & f & vs & ->). reflexivity. }
  destruct (@tracks_pre eps d s0 X xc ps b0 Ni _ _ _ _ _ Tr) as (D1 & Tr1).
  assert (Tr2 : exists D2, tracks eps d s0 X xc ps bs 0 D2 (fun s => vals ps (X s) 0 b0 g) (hvals d xc ps (X s0) 0 b0 g gc)).
  { exists D1. eapply tracks_front. exact Tr1. }
  destruct Tr2 as (D2 & Tr2).
  destruct (@exec_counts ps (X s0) all _ _ E) as (Ci & Cy & _). cbn [fi fy length] in Ci, Cy.
  destruct (@stock_iend b0 S0 0%nat) as [I0 J0].
  unfold all in Ci, Cy. rewrite !iend_app, I0 in Ci. rewrite !jend_app, J0 in Cy. cbn [iend jend] in Ci, Cy.
  unfold next_i, nout in Ci, Cy. cbn [is_ind out_of length] in Ci, Cy. rewrite Nat.add_0_r in Cy.
  destruct (@hos_ref eps d s0 X xc ps Hd He last u L gT gF gA gz (fun _ => 0) HL' bs 0%nat 0%nat _ _ D2 _ _ [] Ti Tr2)
    as (r & Er & Ek & _ & _ & _ & _ & _ & _ & Hz & Hz').
  unfold all in Hst. rewrite (@hstk_stock d xc ps (X s0) b0 S0) in Hst.
  destruct (@stock_hrz eps (S d) L b0 S0 _ _ _ Er) as (r' & Er' & Zr & Kr).
  exists r'. split.
  { unfold hos_ti_reverse. rewrite Et. unfold all. rewrite !map_app. cbn [map]. rewrite Hst, Ci, Cy. exact Er'. }
  split; [|split; [|split]].
  - intros i Hi. rewrite Ci in Hi. exists (fun s => snd (adjrev (u s) ps (X s) bs 0 0 (vals ps (X s) 0 b0 g) (fun _ => 0)) i).
    split.
    + eapply filter_imp; [|exact (filter_and _ _ G2 Ls)]. cbv beta. intros s [Ns Ss].
      destruct (@noabort_exec ps (X s) all (@mkF reals g 0 [] 3%Z []) Ns) as (m' & E' & _).
      assert (Zs : @zos_forward reals ps (X s) g t = Done m').
      { unfold zos_forward. rewrite zrun_exec, Et. fold all. rewrite E'. reflexivity. }
      destruct (@exec_counts ps (X s) all _ _ E') as (Ci' & Cy' & Cr'). cbn [fi fy length frc] in Ci', Cy', Cr'.
      unfold all in Ci', Cy'. rewrite !iend_app, I0 in Ci'. rewrite !jend_app, J0 in Cy'. cbn [iend jend] in Ci', Cy'.
      unfold next_i, nout in Ci', Cy'. cbn [is_ind out_of length] in Ci', Cy'. rewrite Nat.add_0_r in Cy'.
      assert (Cp : (0 <= frc m')%Z) by (apply Cr'; lia).
      assert (Ss' : smooth_run ps (X s) t 0 g) by (rewrite Et; apply b_smooth; exact Ss).
      rewrite <- (@fos_adjrev b0 bs ps g g g (fun _ => 0) (X s) (u s) m' Et S0 Ti Ss' Zs Cp i).
      replace (length (fy m)) with (length (fy m')) by (rewrite Cy, Cy'; reflexivity).
      apply fos_gradient; auto. rewrite Ci'. exact Hi.
    + apply tay_taylor. rewrite Zr. apply Hz. lia.
  - intros i Hi. rewrite Zr. apply Hz'. rewrite <- Ci. exact Hi.
  - unfold hos_forward. rewrite Et. exact Hfw.
  - rewrite Kr. exact Ek.
Qed.
End Trace.

(* the forward sweep runs through *)
Theorem C43_forward_completes d eps ps x xc (g : rmem) (gc : rrows) bs m :
  let t := map (@Plain reals) bs in
  reverse_ok eps ps x t 0 g -> @zos_forward reals ps x g t = Done m -> (0 <= frc m)%Z ->
  exists st, @hos_forward_keep reals d ps x xc g gc t = Some st.
Proof.
  intros t Rk Z C. assert (E : @zexec reals ps x t (@mkF reals g 0 [] 3%Z []) = inl m) by now apply zrun_path.
  unfold hos_forward_keep.
  assert (G : forall bs (s : hkstate reals) m, reverse_ok eps ps x (map (@Plain reals) bs) (fi (hF (hkH s))) (fT (hF (hkH s))) ->
     @zexec reals ps x (map (@Plain reals) bs) (hF (hkH s)) = inl m ->
     exists st, @hkrun reals d ps x xc (map (@Plain reals) bs) s = Some st).
  { clear. induction bs as [|b bs IH]; intros s m Rk E; cbn [map hkrun zexec reverse_ok] in *; [eauto|].
    unfold hkstep, hstep. unfold zstep in *. cbn [oob resolve] in *. destruct Rk as [R1 R2].
    destruct (zabort b (fT (hF (hkH s)))) eqn:Ab; [discriminate|].
    destruct (hfail d b) eqn:Hf; [destruct b; try discriminate Hf; contradiction|].
    match goal with |- exists st, hkrun _ _ _ _ _ ?s1 = _ => apply (IH s1 m R2 E) end. }
  match goal with |- exists st, hkrun _ _ _ _ _ ?s1 = _ => apply (G bs s1 m Rk E) end.
Qed.

(* G is Taylor to degree at least one: coefficient 1 is the derivative *)
Lemma taylor_value d G s0 a : taylor d G s0 a -> G s0 = a 0%nat.
Proof. intros [_ H]. specialize (H 0%nat ltac:(lia)). cbn in H. rewrite H. ring. Qed.
Lemma taylor_deriv d G s0 a : (0 < d)%nat -> taylor d G s0 a -> is_derive G s0 (a 1%nat).
Proof. intros Hd H. apply taylor_tay in H. apply (@tay_d d s0 Hd G a H). Qed.
