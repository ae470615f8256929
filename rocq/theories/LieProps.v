(* C53: the Lie derivative drivers on traces. *)
From Coq Require Import List ZArith Bool Arith Lia Reals Lra FunctionalExtensionality.
From Coquelicot Require Import Coquelicot.
Require Import Verif.AdModel Verif.AdRecord Verif.AdSpec Verif.AdReplay Verif.AdRestore
  Verif.AdTidyCalls Verif.AdPlain Verif.AdPlainRun Verif.AdProps Verif.AdSelect
  Verif.AdReal Verif.AdLin Verif.AdReverse Verif.AdReverseProps Verif.AdDeriv Verif.AdTangent
  Verif.AdDerivProps Verif.AdDerivEx Verif.StatModel Verif.StatProps
  Verif.HosModel Verif.HosSpec Verif.HosTay Verif.HosFun Verif.HosLoops Verif.HosProofs Verif.HosProps Verif.HosEx
  Verif.HrvModel Verif.HrvMain Verif.HrvProps
  Verif.DrvModel Verif.DrvSpec Verif.DrvProps Verif.DrvTrace
  Verif.OdeModel Verif.OdeSpec Verif.OdeAcc Verif.OdeFund Verif.OdeFor
  Verif.VrvModel Verif.HvrModel Verif.HvrProps Verif.HvrReal
  Verif.LieModel Verif.LieSpec Verif.LieCore Verif.LieLoops.
Import ListNotations.
Set Implicit Arguments.
Unset Asymmetric Patterns.
Local Open Scope R_scope.
Notation rtape := (tape reals).

(* H is the trace of a program p that computes h, with n inputs and m outputs: recorded at x1, it takes
   the recorded branches on all of O, and is smooth at x0 *)
Definition tape_of (H : rtape) (n m : nat) (O : state -> Prop) (x0 : state) (h : state -> state) : Prop :=
  exists T0 chunks last x1 p s1 bs,
  recorded T0 chunks last x1 p s1 (tps H) /\ tops H = finish last s1 /\ si s1 = n /\ length (sy s1) = m /\
  h = computed T0 chunks p (tps H) /\
  (forall y, O y -> exists q, @wellbehaved reals (tps H) y p (pstart T0 chunks) /\
     @plain reals (tps H) y p (pstart T0 chunks) = Some q /\ sd s1 = pd q) /\
  (forall j, smooth_run (tps H) x0 (tops H) 0 (tg H j)) /\
  tops H = map (@Plain reals) bs /\ (forall k, nofail k bs).
(* its reverse sweeps at x0 are in the domain of C43 and C52 *)
Definition reversible (eps : R) (H : rtape) (x0 : state) : Prop :=
  List.Forall (@rowwise reals) (tops H) /\ forall j, reverse_ok eps (tps H) x0 (tops H) 0 (tg H j).

(* a curve through x0 in O *)
Definition through (n : nat) (O : state -> Prop) (x0 : state) (X : R -> state) : Prop :=
  X 0 = x0 /\ (forall s i, (n <= i)%nat -> X s i = 0) /\ locally 0 (fun s => O (X s)).

Section Tape.
Variables (H : rtape) (n m : nat) (O : state -> Prop) (x0 : state) (h : state -> state).
Hypothesis TH : tape_of H n m O x0 h.
Variable X : R -> state.
Hypothesis TX : through n O x0 X.

Lemma sized_ok : sized H m n = true.
Proof.
  destruct TH as (T0 & chunks & last & x1 & p & s1 & bs & Rd & Et & Di & Dd & _).
  destruct Rd as (_ & _ & Nv & _ & _ & Rn).
  destruct (@C40_recording reals (tnmm H) T0 chunks last (tps H) x1 p s1 Nv Rn) as (Ci & Cd & _ & _ & _).
  unfold sized. rewrite Et. cbv zeta. rewrite Ci, Cd, Di, Dd, !Nat.eqb_refl. reflexivity.
Qed.
Lemma zos_on j y : O y -> exists r, @zos_forward reals (tps H) y (tg H j) (tops H) = Done r /\ (0 <= frc r)%Z /\
  (forall i, nth i (outputs (tps H) y (tg H j) (tops H)) 0 = h y i) /\ (forall i, nth i (fy r) 0 = h y i) /\ fi r = n /\ length (fy r) = m.
Proof.
  intros Oy. destruct TH as (T0 & chunks & last & x1 & p & s1 & bs & Rd & Et & Di & Dd & Eh & Br & _).
  destruct (Br y Oy) as (q & A & B & C). 
  set (b := mkB (tg H j) (fun _ => 0) (fun _ _ => 0) (fun _ => 0) (fun _ => 0) (fun _ _ => 0) (fun _ => 0) (fun _ _ => 0) 0%Z).
  destruct (@replay T0 chunks last x1 p s1 (tps H) b y q Rd A B C) as (r & Z & N & Q).
  pose proof Rd as (_ & _ & Nv & _ & _ & Rn). rewrite <- Et in Z, Q.
  destruct (@C12_replay_completes reals reals_laws T0 chunks last (tps H) x1 y p s1 q (tg H j) Rn A B C) as (r' & Z' & _ & Y).
  rewrite <- Et in Z'. change (g0 b) with (tg H j) in *. rewrite Z in Z'. injection Z' as <-.
  exists r. split; [exact Z|]. split; [exact N|]. split; [intros i; rewrite Eh; apply Q|].
  split; [intros i; rewrite Eh; unfold computed; rewrite B, Y; reflexivity|].
  destruct (@C40_recording reals (tnmm H) T0 chunks last (tps H) x1 p s1 Nv Rn) as (Ci & Cd & _ & _ & _).
  destruct (@cnt_m T0 chunks last (tps H) x1 p s1 Nv Rn (tnmm H) (tps H) b (fun _ _ _ => (0%Z, fun _ _ => 0)) (fun _ _ _ => 0%Z) (fun _ _ _ _ => (0%Z, fun _ _ _ => 0)) y r) as [N1 N2].
  - rewrite <- Et. exact Z.
  - exact N.
  - unfold trace_sweeps in N1, N2. cbn [inds deps] in N1, N2. rewrite Ci in N1. rewrite Cd in N2. split; [now rewrite N1|now rewrite N2].
Qed.

Lemma here : O x0.
Proof. destruct TX as (<- & _ & L). exact (locally_singleton _ _ L). Qed.
Lemma point_x0 (x : state) : (forall i, (i < n)%nat -> x i = x0 i) -> @point reals n x = x0.
Proof.
  intros Hx. apply functional_extensionality. intros i. unfold point. destruct (Nat.ltb_spec i n); [now apply Hx|].
  destruct TX as (<- & B & _). symmetry. now apply B.
Qed.
Lemma view_tay j (x : state) (Xs : HosModel.rows reals) : (forall i, (i < n)%nat -> tay j (fun s => X s i) 0 (joined (x i) (Xs i))) ->
  forall i, tay j (fun s => X s i) 0 (joined (X 0 i) (@view reals n Xs i)).
Proof.
  intros HX i. unfold view. destruct (Nat.ltb_spec i n) as [Hi|Hi].
  - pose proof (HX i Hi) as Q. eapply tay_coef; [|exact Q]. intros [|k] _; cbn [joined]; [|reflexivity]. symmetry. exact (tay_val Q).
  - destruct TX as (_ & B & _). eapply tay_ext; [|eapply tay_coef; [|apply (tay_const j 0 0)]].
    + intros s. symmetry. now apply B.
    + intros [|k] _; cbn [joined]; [symmetry; now apply B|reflexivity].
Qed.
Lemma value_x0 j (x : state) (Xs : HosModel.rows reals) : (forall i, (i < n)%nat -> tay j (fun s => X s i) 0 (joined (x i) (Xs i))) ->
  @point reals n x = x0.
Proof. intros HX. apply point_x0. intros i Hi. destruct TX as (<- & _). symmetry. exact (tay_val (HX i Hi)). Qed.

(* a sweep of degree e whose coefficients are those of X up to degree j *)
Lemma tape_sweep j e x Xs : (0 < j)%nat -> (j <= e)%nat ->
  (forall i, (i < n)%nat -> tay j (fun s => X s i) 0 (joined (x i) (Xs i))) ->
  exists y Y, @sweep reals H m n e x Xs = Some (y, Y) /\
  forall i, tay j (fun s => h (X s) i) 0 (joined (y i) (Y i)).
Proof.
  intros Hj He HX. unfold sweep. rewrite sized_ok, (@value_x0 _ _ _ HX).
  destruct (zos_on e here) as (r & Z & N & Q1 & Q2 & Q3 & Q4).
  destruct TH as (T0 & chunks & last & x1 & p & s1 & bs & Rd & Et & Di & Dd & Eh & Br & Sm & Eb & Nf).
  destruct (@hos_some e (tps H) x0 (@view reals n Xs) bs (tg H e) (tgc H e) r (Nf e)) as [st Hst]; [rewrite <- Eb; exact Z|exact N|].
  destruct (@hos_some j (tps H) x0 (@view reals n Xs) bs (tg H e) (tgc H e) r (Nf j)) as [sj Hsj]; [rewrite <- Eb; exact Z|exact N|].
  rewrite <- Eb in Hst, Hsj. rewrite Hst. eexists _, _. split; [reflexivity|].
  destruct Rd as (W & Fp & _ & _ & _ & Rn).
  set (Z0 := path e x0 (@view reals n Xs)).
  assert (E0 : Z0 0 = x0) by apply path_0.
  assert (TZ : forall i, taylor e (fun s => Z0 s i) 0 (joined (Z0 0 i) (@view reals n Xs i))) by (intros i; apply path_taylor).
  pose proof (Sm e) as Sme. rewrite Et in Hst, Hsj, Z, Sme, Q1.
  assert (Out : forall (Y0 : R -> nat -> R) k su, (0 < k)%nat -> Y0 0 = x0 -> (forall i, taylor k (fun s => Y0 s i) 0 (joined (Y0 0 i) (@view reals n Xs i))) ->
     @hos_forward reals k (tps H) x0 (@view reals n Xs) (tg H e) (tgc H e) (finish last s1) = Some su ->
     hF su = r /\ forall i, tay k (fun s => nth i (outputs (tps H) (Y0 s) (tg H e) (finish last s1)) 0) 0 (joined (nth i (fy r) 0) (nth i (hY su) norow))).
  { intros Y0 k su Hk E1 HY Hsu. destruct (@C21_taylor T0 chunks last (tps H) x1 p s1 k (tps H) 0 Y0 (@view reals n Xs) (tg H e) (tgc H e) r su W Fp Rn Hk HY) as (F1 & _ & F2).
    - rewrite E1. exact Sme.
    - rewrite E1. exact Z.
    - exact N.
    - rewrite E1. exact Hsu.
    - split; [exact F1|]. intros i. apply taylor_tay, F2. }
  destruct (Out Z0 e st ltac:(lia) E0 TZ Hst) as [F1 A1].
  destruct (Out Z0 j sj Hj E0 (fun i => @tay_taylor _ _ _ _ (@tay_le e j _ _ _ He (taylor_tay (TZ i)))) Hsj) as [_ A2].
  destruct TX as (X0 & Xz & LX).
  destruct (Out X j sj Hj X0 (fun i => @tay_taylor _ _ _ _ (@view_tay _ _ _ HX i)) Hsj) as [_ A3].
  intros i. rewrite F1. change (zero reals) with 0. change (fun _ : nat => zero reals) with norow.
  eapply tay_ext_loc; [|eapply tay_coef; [|exact (A3 i)]].
  - eapply filter_imp; [|exact LX]. cbv beta. intros s Os. destruct (zos_on e Os) as (r' & _ & _ & Q' & _). rewrite Et in Q'. apply Q'.
  - intros [|k] Hk; [reflexivity|]. pose proof (@tay_unique j _ _ _ _ (A2 i) (@tay_le e j _ _ _ He (A1 i)) (S k) Hk) as U.
    cbn [joined] in *. rewrite U. destruct (Nat.ltb_spec k e); [reflexivity|lia].
Qed.

(* the partial derivatives of output l along X *)
Definition jac (s : R) (l i : nat) : R := Derive (fun c => h (line (X s) (DrvModel.unitv i) c) l) 0.
Hypothesis Om : open_states n O.
Lemma unit_curve y i : (i < n)%nat -> curve n y (line y (DrvModel.unitv i)) (DrvModel.unitv i).
Proof.
  intros Hi. split; [apply line0|]. split.
  - intros s k Hk. unfold line, DrvModel.unitv. destruct (Nat.eqb_spec k i); [lia|]. try ring.
  - intros k Hk. unfold line. auto_derive; [exact Logic.I|ring].
Qed.

Variable eps : R.
Hypothesis He : 0 <= eps.
Hypothesis Rv : reversible eps H x0.
Lemma tape_jac j x Xs : (0 < j)%nat -> (0 < m)%nat ->
  (forall i, (i < n)%nat -> tay j (fun s => X s i) 0 (joined (x i) (Xs i))) ->
  exists A, @jacobians reals eps H m n j x Xs = Some A /\
  forall l i, (l < m)%nat -> (i < n)%nat ->
    locally 0 (fun s => partial (fun y => h y l) (X s) i (jac s l i)) /\ tay j (fun s => jac s l i) 0 (A l i).
Proof.
  intros Hj Hm HX. unfold jacobians. rewrite sized_ok, (@value_x0 _ _ _ HX).
  destruct (zos_on j here) as (r & Z & N & Q1 & Q2 & Q3 & Q4).
  destruct TH as (T0 & chunks & last & x1 & p & s1 & bs & Rd & Et & Di & Dd & Eh & Br & Sm & Eb & Nf).
  destruct Rv as [Rw Rk].
  destruct (@C43_forward_completes j eps (tps H) x0 (@view reals n Xs) (tg H j) (tgc H j) bs r) as [st Hst].
  { rewrite <- Eb. apply Rk. } { rewrite <- Eb. exact Z. } { exact N. }
  rewrite <- Eb in Hst. rewrite Hst.
  destruct Rd as (W & Fp & _ & Hl & Ok & Rn). destruct TX as (X0 & Xz & LX).
  set (U := fun l i : nat => if (l =? i)%nat then one reals else zero reals).
  destruct (@C52_hov_reverse T0 chunks last (tps H) x1 p s1 W Fp Hl Ok Rn m j eps (tps H) 0 X (@view reals n Xs) U
     (tg H j) (tgc H j) (@zcube reals) (fun _ _ => 0) r st) as (v & Ev & Pv); auto.
  { intros i. apply tay_taylor, (@view_tay _ _ _ HX). }
  { rewrite X0, <- Et. apply Sm. }
  { rewrite X0, <- Et. apply Rk. }
  { rewrite X0, <- Et. exact Z. }
  { rewrite X0, <- Et. exact Hst. }
  { intros l _. apply rowwise_fine. rewrite <- Et. exact Rw. }
  rewrite Q3, Q4, <- Et in Ev. fold U. change (zero reals) with 0. change (V reals) with R in *. rewrite Ev. exists (hvz v). split; [reflexivity|].
  intros l i Il Ii. destruct (Pv l Il i) as (G & G1 & G2); [now rewrite Q3|].
  assert (P : locally 0 (fun s => partial (fun y => h y l) (X s) i (G s))).
  { eapply filter_imp; [|exact (filter_and _ _ G1 LX)]. cbv beta. intros s [P Os]. unfold partial, directional in *.
    eapply is_derive_ext_loc; [|exact P].
    eapply filter_imp; [|exact (Om Os (unit_curve (X s) Ii))]. cbv beta. intros c Oc.
    destruct (zos_on j Oc) as (_ & _ & _ & Q' & _). rewrite Q4.
    assert (Wt : forall k y, (k <= m)%nat -> weighted k (U l) y = if (l <? k)%nat then y l else 0).
    { induction k as [|k IH]; intros y Hk; [reflexivity|]. cbn [weighted]. rewrite IH by lia. unfold U.
      destruct (Nat.eqb_spec l k) as [->|Nk].
      - destruct (Nat.ltb_spec k k); [lia|]. destruct (Nat.ltb_spec k (S k)); [|lia]. cbn [one reals]. ring.
      - destruct (Nat.ltb_spec l k), (Nat.ltb_spec l (S k)); try lia; cbn [zero reals]; ring. }
    rewrite Wt by lia. destruct (Nat.ltb_spec l m); [|lia]. unfold traced. rewrite <- Et. apply Q'. }
  assert (E : locally 0 (fun s => G s = jac s l i)).
  { eapply filter_imp; [|exact P]. cbv beta. intros s Ps. symmetry. apply is_derive_unique. exact Ps. }
  split.
  - eapply filter_imp; [|exact (filter_and _ _ P E)]. cbv beta. intros s [P1 <-]. exact P1.
  - eapply tay_ext_loc; [exact E|]. apply taylor_tay, G2.
Qed.
End Tape.
