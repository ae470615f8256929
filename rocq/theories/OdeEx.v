(* C45: a program that meets the hypotheses: x' = -(x*x), x(0) = 1, whose solution is 1/(1+s). *)
From Coq Require Import List ZArith Bool Arith Lia Reals Lra FunctionalExtensionality.
From Coquelicot Require Import Coquelicot.
Require Import Verif.AdModel Verif.AdRecord Verif.AdSpec Verif.AdReplay Verif.AdRestore
  Verif.AdTidyCalls Verif.AdPlain Verif.AdPlainRun Verif.AdProps Verif.AdSelect
  Verif.AdReal Verif.AdLin Verif.AdReverse Verif.AdReverseProps Verif.AdDeriv Verif.AdTangent
  Verif.AdDerivProps Verif.AdDerivEx Verif.StatModel Verif.StatProps
  Verif.HosModel Verif.HosSpec Verif.HosTay Verif.HosFun Verif.HosLoops Verif.HosProofs Verif.HosProps Verif.HosEx
  Verif.DrvModel Verif.DrvSpec Verif.DrvProps Verif.DrvTrace
  Verif.OdeModel Verif.OdeSpec Verif.OdeAcc Verif.OdeFor.
Import ListNotations.
Set Implicit Arguments.
Unset Asymmetric Patterns.
Local Open Scope R_scope.

Definition ode_prog : prog reals :=
  Do (CInd reals 0) (Do (CBin reals BMul (Fresh 1) 0 0) (Do (CUn reals UNeg Temp 1) (Do (CDep reals 1) (Ret reals)))).
Definition ode_ops (T0 : rmem) : list (bop reals) :=
  [TakeStock reals 1 0 (map T0 (seq 0 1)); AssignInd reals 0; AssignD0 reals 1; MultAA reals 0 0 1; NegSign reals 1 1;
   AssignDep reals 1; DeathNot reals 0 1].
Definition sol (s : R) (i : nat) : R := match i with 0%nat => / (1 + s) | _ => 0 end.

Local Opaque Rplus Rmult Ropp Rinv IZR.
Lemma ode_rec0 (T0 : rmem) (ps1 x1 : nat -> R) :
  @record reals T0 [1%nat] 1 ps1 x1 ode_prog = Some (map (@Plain reals) (ode_ops T0)).
Proof. reflexivity. Qed.
Lemma ode_wb (T0 : rmem) (ps x : nat -> R) : @wellbehaved reals ps x ode_prog (@pstart reals T0 [1%nat]).
Proof. unfold ode_prog. repeat wb_step. Qed.

Theorem C45_met (T0 : mem reals) (ps x1 : nat -> R) (g : nat -> rmem) (gc : nat -> rrows) : exists s1 bs,
  recorded T0 [1%nat] 1 x1 ode_prog s1 ps /\ si s1 = 1%nat /\ length (sy s1) = 1%nat /\
  solves 1 1 (computed T0 [1%nat] ode_prog ps) sol /\ same_branches_on T0 [1%nat] ode_prog s1 ps sol /\
  (forall j, smooth_run ps (sol 0) (finish 1 s1) 0 (g j)) /\
  finish 1 s1 = map (@Plain reals) bs /\ (forall k, nofail k bs) /\
  (forall y, computed T0 [1%nat] ode_prog ps y 0%nat = - (y 0%nat * y 0%nat)).
Proof.
  destruct (@record_some T0 [1%nat] 1 ps x1 ode_prog _ (ode_rec0 T0 ps x1)) as (s1 & A & E).
  exists s1, (ode_ops T0).
  assert (Q : forall y, exists q, @plain reals ps y ode_prog (@pstart reals T0 [1%nat]) = Some q /\ pd q = [] /\
    py q = [- (y 0%nat * y 0%nat)]).
  { intros y. eexists. split; [cbn; reflexivity|]. split; cbn; reflexivity. }
  assert (D : sd s1 = [] /\ si s1 = 1%nat /\ length (sy s1) = 1%nat).
  { assert (E' : option_map (fun s => (sd s, si s, length (sy s))) (@run reals ps x1 ode_prog (@start reals T0 [1%nat]))
        = Some ([], 1%nat, 1%nat)) by reflexivity.
    rewrite A in E'. cbn [option_map] in E'. injection E' as E1 E2 E3. auto. }
  destruct D as (D1 & D2 & D3).
  assert (C : forall y, computed T0 [1%nat] ode_prog ps y 0%nat = - (y 0%nat * y 0%nat)).
  { intros y. unfold computed. destruct (Q y) as (q & -> & _ & ->). reflexivity. }
  split; [|split; [exact D2|split; [exact D3|split; [|split; [|split; [|split; [exact E|split; [|exact C]]]]]]]].
  - split; [apply ode_wb|]. split; [reflexivity|]. split; [cbn; tauto|]. split; [cbn; lia|]. split; [reflexivity|exact A].
  - split; [intros s [|i] H; [lia|reflexivity]|]. intros i Hi. replace i with 0%nat by lia.
    exists (mkposreal (1/2) ltac:(lra)). intros s Hs. change (Rabs (s - 0) < 1/2) in Hs. apply Rabs_def2 in Hs. cbn [sol].
    rewrite C. cbn [sol]. auto_derive; [lra|]. field. lra.
  - unfold same_branches_on. apply filter_forall. intros s. destruct (Q (sol s)) as (q & B1 & B2 & _). exists q.
    split; [apply ode_wb|]. split; [exact B1|]. now rewrite D1, B2.
  - intros j. rewrite E. unfold ode_ops. cbn [map].
    do 7 (apply smooth_skip; [intros ? ?; exact Logic.I|]; intros ? _; cbn [is_ind]). exact Logic.I.
  - intros k. unfold ode_ops. repeat (apply List.Forall_cons; [reflexivity|]). apply List.Forall_nil.
Qed.
(* so that forode returns 1, -1, 1, -1, .. *)
Theorem C45_met_run (T0 : mem reals) (ps x1 : nat -> R) nmm (g : nat -> rmem) (gc : nat -> rrows) deg z0 Z0 (Y : rrows) : Y 0%nat 0%nat = 1 ->
  exists s1 rc Y', @run reals ps x1 ode_prog (@start reals T0 [1%nat]) = Some s1 /\
  @forodec reals nmm ps (finish 1 s1) g gc 1 1 0 deg z0 Z0 Y = Some (rc, Y') /\ (0 <= rc)%Z /\
  taylor deg (fun s => / (1 + s)) 0 (Y' 0%nat).
Proof.
  intros H. destruct (@C45_met T0 ps x1 g gc) as (s1 & bs & Rd & A1 & A2 & A3 & A4 & A5 & A6 & A7 & _).
  assert (HY : forall i, (i < 1)%nat -> Y i 0%nat = sol 0 i) by (intros i Hi; replace i with 0%nat by lia; rewrite H; cbn [sol]; lra).
  destruct (@C45_completes T0 [1%nat] 1 x1 ode_prog s1 nmm ps g gc 1 1 sol Rd A1 A2 A3 A4 bs 0 deg z0 Z0 Y A6 A7 HY) as (rc & Y' & E).
  destruct (@C45_forode T0 [1%nat] 1 x1 ode_prog s1 nmm ps g gc 1 1 sol Rd A1 A2 A3 A4 A5 0 deg z0 Z0 Y rc Y' ltac:(lia)) as (B1 & B2 & _).
  - intros i Hi. apply tay_taylor. split; [|exact Logic.I]. symmetry. now apply HY.
  - exact E.
  - exists s1, rc, Y'. split; [apply Rd|]. split; [exact E|]. split; [exact B1|]. exact (B2 0%nat ltac:(lia)).
Qed.
