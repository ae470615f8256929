(* C52: one Taylor polynomial, several weights, over the real numbers. *)
From Coq Require Import List ZArith Bool Arith Lia Reals Lra FunctionalExtensionality.
From Coquelicot Require Import Coquelicot.
Require Import Verif.AdModel Verif.AdRecord Verif.AdSpec Verif.AdReplay Verif.AdRestore
  Verif.AdReal Verif.AdLin Verif.AdReverse Verif.AdTidy Verif.AdDeriv Verif.AdTangent
  Verif.AdTidyCalls Verif.AdPlain Verif.AdPlainRun Verif.AdProps Verif.AdReverseProps Verif.AdDerivProps
  Verif.AdDerivEx
  Verif.HosModel Verif.HosSpec Verif.HosTay Verif.HosFun Verif.HosLoops Verif.HosProofs Verif.HosProps Verif.HosEx
  Verif.HrvModel Verif.HrvLoops Verif.HrvOp Verif.HrvRow Verif.HrvTay Verif.HrvFos Verif.HrvMain Verif.HrvProps
  Verif.StatModel Verif.StatProps
  Verif.DrvModel Verif.DrvSpec Verif.DrvProps Verif.DrvTrace Verif.HrvHess Verif.HrvEx
  Verif.HovModel Verif.HovProofs Verif.HovProps Verif.VrvModel Verif.VrvProofs Verif.VrvRun Verif.VrvProps
  Verif.HvrModel Verif.HvrProps Verif.HvrQuiet.
Import ListNotations.
Set Implicit Arguments.
Unset Asymmetric Patterns.
Local Open Scope R_scope.
Notation rrows := (HosModel.rows reals).


Section Trace.
Variables (T0 : rmem) (chunks : list nat) (last : nat) (ps1 x1 : nat -> R) (q : prog reals) (s1 : rec reals).
Hypothesis W : @wellbehaved reals ps1 x1 q (@pstart reals T0 chunks).
Hypothesis Fp : fprog q = true.
Hypothesis Hl : (total chunks <= S last)%nat.
Hypothesis Ok : prog_ok (S last) q (fun l => l <? total chunks)%nat (fun _ => false) = true.
Hypothesis Rn : @run reals ps1 x1 q (@start reals T0 chunks) = Some s1.
Let t := finish last s1.

(* X: a curve with the Taylor coefficients X s0, xc; u l: p curves of weights with the Taylor
   coefficients L l.  Row l of the results of one hov_ti_reverse after one hos_forward holds the
   Taylor coefficients of the partial derivatives of u l . F along the curve. *)
Theorem C52_taylor p d eps ps s0 (X : R -> nat -> R) xc (u : nat -> R -> nat -> R) (L : nat -> nat -> nat -> R)
    (g : rmem) (gc : rrows) (gz : nat -> nat -> nat -> R) (gnz : nat -> nat -> R) m st :
  (0 < p)%nat -> (0 < d)%nat -> 0 <= eps ->
  (forall i, taylor d (fun s => X s i) s0 (joined (X s0 i) (xc i))) ->
  (forall l j, (l < p)%nat -> taylor d (fun s => u l s j) s0 (L l j)) ->
  smooth_run ps (X s0) t 0 g -> reverse_ok eps ps (X s0) t 0 g ->
  @zos_forward reals ps (X s0) g t = Done m -> (0 <= frc m)%Z ->
  @hos_forward_keep reals d ps (X s0) xc g gc t = Some st ->
  (forall l, (l < p)%nat -> @row_fine reals eps l d (L l) (fi m) (length (fy m)) (gz l) (hkk st) t) ->
  exists v, @hov_ti_reverse reals eps d p L (fi m) (length (fy m)) gz gnz (hkk st) t = Some v /\
  forall l, (l < p)%nat ->
   (forall i, (i < fi m)%nat -> exists G : R -> R,
     locally s0 (fun s => partial (fun x => weighted (length (fy m)) (u l s) (traced ps g t x)) (X s) i (G s)) /\
     taylor d G s0 (hvz v l i)) /\
   (forall i, (fi m <= i)%nat -> hvz v l i = gz l i).
Proof.
  intros Hp Hd He HX HL Sm Rk Z C Kp Rf.
  pose proof (@C52_rows reals eps p d L (fi m) (length (fy m)) gz gnz (hkk st) t Hp Rf) as Q.
  assert (One : forall l, (l < p)%nat -> exists r,
    @hos_ti_reverse reals eps d (L l) (fi m) (length (fy m)) (@zrows reals) (fun _ => zero reals) (@zrows reals) (gz l) (hkk st) t = Some r /\
    (forall i, (i < fi m)%nat -> exists G : R -> R,
     locally s0 (fun s => partial (fun x => weighted (length (fy m)) (u l s) (traced ps g t x)) (X s) i (G s)) /\
     taylor d G s0 (hrz r i)) /\
    (forall i, (fi m <= i)%nat -> hrz r i = gz l i)).
  { intros l Hl'. destruct (@C43_hos_ti_reverse T0 chunks last ps1 x1 q s1 W Fp Hl Ok Rn d eps ps s0 X xc (u l) (L l)
      g gc (@zrows reals) (fun _ => zero reals) (@zrows reals) (gz l) m st) as (r & R1 & R2 & R3 & _); auto.
    exists r. auto. }
  destruct (@hov_ti_reverse reals eps d p L (fi m) (length (fy m)) gz gnz (hkk st) t) as [v|].
  - exists v. split; auto. intros l Hl'. destruct (Q l Hl') as (r & E & ->). destruct (One l Hl') as (r' & E' & P).
    rewrite E in E'. injection E' as <-. exact P.
  - destruct (One 0%nat Hp) as (r & E & _). rewrite (Q 0%nat Hp) in E. discriminate.
Qed.

(* hov_reverse: the weights are p constant vectors *)
Theorem C52_hov_reverse p d eps ps s0 (X : R -> nat -> R) xc (U : nat -> nat -> R)
    (g : rmem) (gc : rrows) (gz : nat -> nat -> nat -> R) (gnz : nat -> nat -> R) m st :
  (0 < p)%nat -> (0 < d)%nat -> 0 <= eps ->
  (forall i, taylor d (fun s => X s i) s0 (joined (X s0 i) (xc i))) ->
  smooth_run ps (X s0) t 0 g -> reverse_ok eps ps (X s0) t 0 g ->
  @zos_forward reals ps (X s0) g t = Done m -> (0 <= frc m)%Z ->
  @hos_forward_keep reals d ps (X s0) xc g gc t = Some st ->
  (forall l, (l < p)%nat -> @row_fine reals eps l d (fun i j => match j with 0%nat => U l i | S _ => 0 end)
     (fi m) (length (fy m)) (gz l) (hkk st) t) ->
  exists v, @hov_reverse reals eps d p U (fi m) (length (fy m)) gz gnz (hkk st) t = Some v /\
  forall l, (l < p)%nat -> forall i, (i < fi m)%nat -> exists G : R -> R,
     locally s0 (fun s => partial (fun x => weighted (length (fy m)) (U l) (traced ps g t x)) (X s) i (G s)) /\
     taylor d G s0 (hvz v l i).
Proof.
  intros Hp Hd He HX Sm Rk Z C Kp Rf.
  destruct (@C52_taylor p d eps ps s0 X xc (fun l _ => U l) (fun l i j => match j with 0%nat => U l i | S _ => 0 end)
    g gc gz gnz m st) as (v & E & P); auto.
  { intros l j _. apply tay_taylor, tay_const. }
  exists v. split; [exact E|]. intros l Hl'. apply (P l Hl').
Qed.

End Trace.

(* z = atan(x1 * sin(x0)) *)
Theorem C52_met (T0 g : rmem) (ps ps1 x1 x : nat -> R) eps : exists s1 m,
  @wellbehaved reals ps1 x1 ex14 (@pstart reals T0 [2%nat]) /\ fprog ex14 = true /\
  (total [2%nat] <= 7)%nat /\
  prog_ok 7 ex14 (fun l => l <? total [2%nat])%nat (fun _ => false) = true /\
  @run reals ps1 x1 ex14 (@start reals T0 [2%nat]) = Some s1 /\
  smooth_run ps x (finish 6 s1) 0 g /\ reverse_ok eps ps x (finish 6 s1) 0 g /\
  @zos_forward reals ps x g (finish 6 s1) = Done m /\ (0 <= frc m)%Z /\ fi m = 2%nat /\
  nindeps (finish 6 s1) = 2%nat /\ List.Forall (fun o => ~ inplace o) (finish 6 s1) /\
  (forall l d L n k gz st, @row_fine reals eps l d L n k gz st (finish 6 s1)) /\
  forall d xc gc, exists st, @hos_forward_keep reals d ps x xc g gc (finish 6 s1) = Some st.
Proof.
  destruct (@C43_met T0 g ps ps1 x1 x eps) as (s1 & m & A1 & A2 & A3 & A4 & A5 & A6 & A7 & A8 & A9 & A10 & A11).
  exists s1, m.
  assert (Et : finish 6 s1 = map (@Plain reals) (ex14_ops T0)).
  { destruct (ex14_rec T0 ps1 x1) as (s1' & R1 & E). rewrite R1 in A5. injection A5 as <-. exact E. }
  repeat (split; [assumption|]). repeat split.
  - rewrite Et. unfold ex14_ops. rewrite cst1. reflexivity.
  - rewrite Et. unfold ex14_ops. rewrite cst1. repeat constructor; intros [].
  - intros. apply rowwise_fine. rewrite Et. unfold ex14_ops. rewrite cst1. repeat constructor.
  - exact A11.
Qed.
