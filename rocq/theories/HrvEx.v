(* C43, C44: a program that meets the hypotheses, and the operations hos_reverse gets wrong. *)
From Coq Require Import List ZArith Bool Arith Lia Reals Lra FunctionalExtensionality.
From Coquelicot Require Import Coquelicot.
From Flocq Require Import Core BinarySingleNaN.
Require Import Verif.AdModel Verif.AdRecord Verif.AdSpec Verif.AdReplay Verif.AdRestore
  Verif.AdReal Verif.AdLin Verif.AdReverse Verif.AdTidy Verif.AdDeriv Verif.AdTangent
  Verif.AdTidyCalls Verif.AdPlain Verif.AdPlainRun Verif.AdProps Verif.AdReverseProps Verif.AdDerivProps
  Verif.AdDerivEx
  Verif.HosModel Verif.HosSpec Verif.HrvModel Verif.HrvRow Verif.HrvProps Verif.HrvHess
  Verif.DrvModel Verif.DrvSpec Verif.DrvProps Verif.DrvTrace Verif.Binary64.
Import ListNotations.
Set Implicit Arguments.
Unset Asymmetric Patterns.
Local Open Scope R_scope.

(* y = atan(x1 * sin(x0)) at every point, for every degree and curve *)
Lemma rok_all eps ps x bs : List.Forall (fun b => forall T, rok eps b T) bs ->
  forall i T, reverse_ok eps ps x (map (@Plain reals) bs) i T.
Proof. induction 1 as [|b bs Hb _ IH]; intros i T; cbn [map reverse_ok resolve]; auto. Qed.
Theorem C43_met (T0 g : rmem) (ps ps1 x1 x : nat -> R) eps : exists s1 m,
  @wellbehaved reals ps1 x1 ex14 (@pstart reals T0 [2%nat]) /\ fprog ex14 = true /\
  (total [2%nat] <= 7)%nat /\
  prog_ok 7 ex14 (fun l => l <? total [2%nat])%nat (fun _ => false) = true /\
  @run reals ps1 x1 ex14 (@start reals T0 [2%nat]) = Some s1 /\
  smooth_run ps x (finish 6 s1) 0 g /\ reverse_ok eps ps x (finish 6 s1) 0 g /\
  @zos_forward reals ps x g (finish 6 s1) = Done m /\ (0 <= frc m)%Z /\ fi m = 2%nat /\
  forall d xc gc, exists st, @hos_forward_keep reals d ps x xc g gc (finish 6 s1) = Some st.
Proof.
  destruct (@ex14_ok T0 g (fun _ => 0) ps ps1 x1 x (fun _ => 0)) as (s1 & m & td & A1 & A2 & A3 & A4 & A5 & A6 & A7 & A8 & A9 & _).
  exists s1, m.
  assert (Et : finish 6 s1 = map (@Plain reals) (ex14_ops T0)).
  { destruct (ex14_rec T0 ps1 x1) as (s1' & R & E). rewrite R in A5. injection A5 as <-. exact E. }
  assert (Rk : reverse_ok eps ps x (finish 6 s1) 0 g).
  { rewrite Et. apply rok_all. unfold ex14_ops. rewrite cst1. repeat constructor. }
  repeat (split; [assumption|]). intros d xc gc. rewrite Et in *. eapply C43_forward_completes; eauto.
Qed.
Theorem C44_met (T0 : mem reals) (ps x1 x : nat -> R) (b : buffers) eps : exists s1,
  recorded T0 [2%nat] 6 x1 ex14 s1 ps /\ (forall v, same_branches_along T0 [2%nat] ex14 s1 ps x v) /\
  smooth_run ps x (finish 6 s1) 0 (g0 b) /\ reverse_ok eps ps x (finish 6 s1) 0 (g0 b) /\
  length (sy s1) = 1%nat /\ si s1 = 2%nat /\
  forall y, computed T0 [2%nat] ex14 ps y 0%nat = atan (y 1%nat * Rtrigo_def.sin (y 0%nat)).
Proof.
  destruct (@C43_met T0 (g0 b) ps ps x1 x eps) as (s1 & m & A1 & A2 & A3 & A4 & A5 & A6 & A7 & _).
  destruct (@C26_recorded_met T0 ps x1 x b) as (s1' & B1 & B2 & B3 & B4 & B5 & B6).
  assert (s1' = s1) as ->. { destruct B1 as (_ & _ & _ & _ & _ & Q). rewrite A5 in Q. now injection Q as <-. }
  exists s1. split; [exact B1|]. split; [|auto].
  intros v. unfold same_branches_along. apply filter_forall. intros a.
  destruct (@C26_recorded_met T0 ps x1 (line x v a) b) as (s2 & D1 & D2 & _).
  assert (s2 = s1) as ->. { destruct D1 as (_ & _ & _ & _ & _ & Q). rewrite A5 in Q. now injection Q as <-. }
  exact D2.
Qed.
