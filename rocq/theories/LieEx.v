(* C53: traces that meet the hypotheses, x' = -(x*x) with x(0) = 1, and what d = 1 returns. *)
From Coq Require Import List ZArith Bool Arith Lia Reals Lra FunctionalExtensionality.
From Coquelicot Require Import Coquelicot.
Require Import Verif.AdModel Verif.AdRecord Verif.AdSpec Verif.AdReplay Verif.AdRestore
  Verif.AdTidyCalls Verif.AdPlain Verif.AdPlainRun Verif.AdProps Verif.AdSelect
  Verif.AdReal Verif.AdLin Verif.AdReverse Verif.AdReverseProps Verif.AdDeriv Verif.AdTangent
  Verif.AdDerivProps Verif.AdDerivEx Verif.StatModel Verif.StatProps
  Verif.HosModel Verif.HosSpec Verif.HosTay Verif.HosFun Verif.HosLoops Verif.HosProofs Verif.HosProps Verif.HosEx
  Verif.HrvModel Verif.HrvMain Verif.HrvProps Verif.HrvEx
  Verif.DrvModel Verif.DrvSpec Verif.DrvProps Verif.DrvTrace
  Verif.OdeModel Verif.OdeSpec Verif.OdeAcc Verif.OdeFund Verif.OdeFor Verif.OdeEx
  Verif.VrvModel Verif.HvrModel Verif.HvrProps Verif.HvrReal
  Verif.LieModel Verif.LieSpec Verif.LieCore Verif.LieLoops Verif.LieProps Verif.LieDrv.
Import ListNotations.
Set Implicit Arguments.
Unset Asymmetric Patterns.
Local Open Scope R_scope.

Definition cube_prog : prog reals :=
  Do (CInd reals 0) (Do (CBin reals BMul (Fresh 1) 0 0) (Do (CBin reals BMul Temp 1 0) (Do (CDep reals 1) (Ret reals)))).
Definition cube_ops (T0 : rmem) : list (bop reals) :=
  [TakeStock reals 1 0 (map T0 (seq 0 1)); AssignInd reals 0; AssignD0 reals 1; MultAA reals 0 0 1; MultAA reals 1 0 1;
   AssignDep reals 1; DeathNot reals 0 1].
Local Opaque Rplus Rmult Ropp Rinv IZR.
Lemma cube_rec0 (T0 : rmem) (ps1 x1 : nat -> R) :
  @record reals T0 [1%nat] 1 ps1 x1 cube_prog = Some (map (@Plain reals) (cube_ops T0)).
Proof. reflexivity. Qed.
Lemma cube_wb (T0 : rmem) (ps x : nat -> R) : @wellbehaved reals ps x cube_prog (@pstart reals T0 [1%nat]).
Proof. unfold cube_prog. repeat wb_step. Qed.

Definition anywhere : state -> Prop := fun _ => True.
Lemma open_anywhere n : open_states n anywhere.
Proof. intros y c c' _ _. apply filter_forall. intros; exact Logic.I. Qed.

(* f(x) = - x^2 and v(x) = x^3, n = 1 *)
Definition ode_fun (T0 : rmem) (ps : nat -> R) : state -> state := computed T0 [1%nat] ode_prog ps.
Definition cube_fun (T0 : rmem) (ps : nat -> R) : state -> state := computed T0 [1%nat] cube_prog ps.

Lemma ode_tape (T0 : rmem) nmm ps (x1 : nat -> R) g gc eps (x0 : state) : exists t,
  tape_of (mkTape nmm ps t g gc) 1 1 anywhere x0 (ode_fun T0 ps) /\
  reversible eps (mkTape nmm ps t g gc) x0 /\
  forall y, ode_fun T0 ps y 0%nat = - (y 0%nat * y 0%nat).
Proof.
  destruct (@C45_met T0 ps x1 g gc) as (s1 & bs & Rd & A1 & A2 & _ & _ & _ & _ & _ & C).
  destruct (@record_some T0 [1%nat] 1 ps x1 ode_prog _ (ode_rec0 T0 ps x1)) as (s1' & A & E).
  assert (s1' = s1) as ->. { destruct Rd as (_ & _ & _ & _ & _ & Q). rewrite A in Q. now injection Q as <-. }
  exists (finish 1 s1). split; [|split; [|exact C]].
  - exists T0, [1%nat], 1%nat, x1, ode_prog, s1, (ode_ops T0). cbn [tps tops tg].
    split; [exact Rd|]. split; [reflexivity|]. split; [exact A1|]. split; [exact A2|]. split; [reflexivity|].
    split; [|split; [|split; [exact E|]]].
    + intros y _. eexists. split; [apply ode_wb|]. split; [cbn; reflexivity|]. cbn [pd].
      assert (E' : option_map (fun s => sd s) (@run reals ps x1 ode_prog (@start reals T0 [1%nat])) = Some []) by reflexivity.
      rewrite A in E'. cbn [option_map] in E'. now injection E' as ->.
    + intros j. rewrite E. unfold ode_ops. cbn [map].
      do 7 (apply smooth_skip; [intros ? ?; exact Logic.I|]; intros ? _; cbn [is_ind]). exact Logic.I.
    + intros k. unfold ode_ops. repeat (apply List.Forall_cons; [reflexivity|]). apply List.Forall_nil.
  - split; cbn [tps tops tg]; rewrite E.
    + unfold ode_ops. cbn [map]. repeat constructor.
    + intros j. apply rok_all. unfold ode_ops. repeat constructor.
Qed.
Lemma cube_tape (T0 : rmem) nmm ps (x1 : nat -> R) g gc (x0 : state) : exists t,
  tape_of (mkTape nmm ps t g gc) 1 1 anywhere x0 (cube_fun T0 ps) /\
  forall y, cube_fun T0 ps y 0%nat = y 0%nat * y 0%nat * y 0%nat.
Proof.
  destruct (@record_some T0 [1%nat] 1 ps x1 cube_prog _ (cube_rec0 T0 ps x1)) as (s1 & A & E).
  assert (D : sd s1 = [] /\ si s1 = 1%nat /\ length (sy s1) = 1%nat).
  { assert (E' : option_map (fun s => (sd s, si s, length (sy s))) (@run reals ps x1 cube_prog (@start reals T0 [1%nat]))
        = Some ([], 1%nat, 1%nat)) by reflexivity.
    rewrite A in E'. cbn [option_map] in E'. injection E' as E1 E2 E3. auto. }
  destruct D as (D1 & D2 & D3).
  exists (finish 1 s1). split.
  - exists T0, [1%nat], 1%nat, x1, cube_prog, s1, (cube_ops T0). cbn [tps tops tg].
    split; [|split; [reflexivity|split; [exact D2|split; [exact D3|split; [reflexivity|split; [|split; [|split; [exact E|]]]]]]]].
    + split; [apply cube_wb|]. split; [reflexivity|]. split; [cbn; tauto|]. split; [cbn; lia|]. split; [reflexivity|exact A].
    + intros y _. eexists. split; [apply cube_wb|]. split; [cbn; reflexivity|]. cbn [pd]. exact D1.
    + intros j. rewrite E. unfold cube_ops. cbn [map].
      do 7 (apply smooth_skip; [intros ? ?; exact Logic.I|]; intros ? _; cbn [is_ind]). exact Logic.I.
    + intros k. unfold cube_ops. repeat (apply List.Forall_cons; [reflexivity|]). apply List.Forall_nil.
  - intros y. reflexivity.
Qed.

(* powers *)
Lemma power_gradient a e (y : state) : gradient 1 (fun y => a * y 0%nat ^ S e) y (fun _ => a * (INR (S e) * y 0%nat ^ e)).
Proof.
  intros c c' (C0 & _ & C1). specialize (C1 0%nat ltac:(lia)). cbn [total_of].
  pose proof (is_derive_pow (fun s => c s 0%nat) (S e) 0 (c' 0%nat) C1) as Q. cbv beta in Q.
  pose proof (is_derive_scal (fun s => c s 0%nat ^ S e) 0 a _ Q) as Q2. cbv beta in Q2. rewrite C0 in Q2.
  refine (eq_rect _ (fun v => is_derive (fun s => a * c s 0%nat ^ S e) 0 v) Q2 _ _). cbn [Init.Nat.pred].
  match goal with |- ?u = ?v => change (@eq R u v) end. ring.
Qed.
Lemma gradient_ext n (h1 h2 : state -> R) y g1 g2 : (forall y, h1 y = h2 y) -> (forall i, (i < n)%nat -> g1 i = g2 i) ->
  gradient n h1 y g1 -> gradient n h2 y g2.
Proof.
  intros E1 E2 G c c' Cc. rewrite <- (@total_ext n (fun i => g1 i * c' i)) by (intros i Hi; now rewrite E2).
  eapply is_derive_ext; [|exact (G c c' Cc)]. intros s. apply E1.
Qed.
Lemma quad_partial (k : state -> R) y : (forall y, k y = - (y 0%nat * y 0%nat)) -> partial k y 0 (- (2 * y 0%nat)).
Proof.
  intros E. unfold partial, directional. eapply is_derive_ext; [intros s; symmetry; apply E|].
  unfold line, DrvModel.unitv. cbn. auto_derive; [exact Logic.I|]. ring.
Qed.

(* L_f^k (- x^2) = a k x^(k+2), L_f^k of the covector - x^2 = w k x^(k+2), ad_f^k x^3 = b k x^(k+3) *)
Fixpoint a (k : nat) : R := match k with O => -1 | S k => - a k * INR (k + 2) end.
Fixpoint w (k : nat) : R := match k with O => -1 | S k => - w k * INR (k + 4) end.
Fixpoint b (k : nat) : R := match k with O => 1 | S k => - b k * INR (k + 1) end.

Section Towers.
Variables (T0 : rmem) (ps : nat -> R) (d : nat).
Hypothesis Ef : forall y, ode_fun T0 ps y 0%nat = - (y 0%nat * y 0%nat).
Hypothesis Ev : forall y, cube_fun T0 ps y 0%nat = y 0%nat * y 0%nat * y 0%nat.
Definition Lp (k : nat) (y : state) : R := a k * y 0%nat ^ (k + 2).
Definition Dp (k : nat) (y : state) : state := fun _ => a k * (INR (k + 2) * y 0%nat ^ (k + 1)).
Definition Wp (k : nat) (y : state) : state := fun _ => w k * y 0%nat ^ (k + 2).
Definition Gp (k : nat) (y : state) : state := fun _ => b k * y 0%nat ^ (k + 3).

Lemma Lp_gradient k y : gradient 1 (Lp k) y (Dp k y).
Proof.
  unfold Lp, Dp. replace (k + 2)%nat with (S (k + 1)) by lia. apply power_gradient.
Qed.
Lemma towers_scalars : lie_scalars 1 d anywhere (ode_fun T0 ps) (fun y => ode_fun T0 ps y 0%nat) Lp.
Proof.
  split.
  - intros y _. rewrite Ef. unfold Lp. cbn. ring.
  - intros k y _ _. exists (Dp k y). split; [apply Lp_gradient|]. cbn [total_of]. rewrite Ef.
    unfold Lp, Dp. cbn [a]. replace (S k + 2)%nat with (k + 1 + 2)%nat by lia. rewrite (pow_add _ (k + 1) 2). cbn [pow]. ring.
Qed.
Lemma towers_gradients : lie_gradients 1 d anywhere (ode_fun T0 ps) (fun y => ode_fun T0 ps y 0%nat) Lp Dp.
Proof.
  split; [apply towers_scalars|]. split.
  - intros k y _ _. apply Lp_gradient.
  - intros k y _ _. exists (fun _ _ => a k * INR (k + 2) * (INR (S k) * y 0%nat ^ k)). split; [|reflexivity].
    intros i _. eapply gradient_ext; [| |apply (@power_gradient (a k * INR (k + 2)) k)]; [|reflexivity].
    intros y'. unfold Dp. cbn beta. replace (k + 1)%nat with (S k) by lia. ring.
Qed.
Lemma towers_covectors : lie_covectors 1 d anywhere (ode_fun T0 ps) (ode_fun T0 ps) Wp.
Proof.
  split.
  - intros y i _ Hi. replace i with 0%nat by lia. rewrite Ef. unfold Wp. cbn. ring.
  - intros k y i _ _ Hi. replace i with 0%nat by lia.
    exists (fun _ => w k * (INR (S (k + 1)) * y 0%nat ^ (k + 1))), (fun _ => - (2 * y 0%nat)). split; [|split].
    + unfold Wp. replace (k + 2)%nat with (S (k + 1)) by lia. apply power_gradient.
    + intros p Hp. replace p with 0%nat by lia. now apply quad_partial.
    + cbn [total_of]. rewrite Ef. unfold Wp. cbn [w]. replace (S k + 2)%nat with (k + 1 + 2)%nat by lia.
      replace (k + 2)%nat with (k + 1 + 1)%nat by lia. rewrite !(pow_add _ (k + 1)). cbn [pow].
      replace (INR (S (k + 1))) with (INR (k + 4) - 2) by (rewrite S_INR, !plus_INR; cbn; ring). ring.
Qed.
Lemma towers_brackets : lie_brackets 1 d anywhere (ode_fun T0 ps) (cube_fun T0 ps) Gp.
Proof.
  split.
  - intros y i _ Hi. replace i with 0%nat by lia. rewrite Ev. unfold Gp. cbn. ring.
  - intros k y i _ _ Hi. replace i with 0%nat by lia.
    exists (fun _ => b k * (INR (S (k + 2)) * y 0%nat ^ (k + 2))), (fun _ => - (2 * y 0%nat)). split; [|split].
    + unfold Gp. replace (k + 3)%nat with (S (k + 2)) by lia. apply power_gradient.
    + intros p Hp. replace p with 0%nat by lia. now apply quad_partial.
    + cbn [total_of]. rewrite Ef. unfold Gp. cbn [b]. replace (S k + 3)%nat with (k + 2 + 2)%nat by lia.
      replace (k + 3)%nat with (k + 2 + 1)%nat by lia. rewrite !(pow_add _ (k + 2)). cbn [pow].
      replace (INR (S (k + 2))) with (INR (k + 1) + 2) by (rewrite S_INR, !plus_INR; cbn; ring). ring.
Qed.
End Towers.

(* all the hypotheses of C53 hold together, for F = H = W the trace of - x^2 and G that of x^3 *)
Theorem C53_met (T0 : rmem) nmm ps (x1 : nat -> R) g gc eps d : exists tf tg,
  let F := mkTape nmm ps tf g gc in let G := mkTape nmm ps tg g gc in
  open_states 1 anywhere /\ anywhere (sol 0) /\ tape_of F 1 1 anywhere (sol 0) (ode_fun T0 ps) /\
  solves 1 1 (ode_fun T0 ps) sol /\ reversible eps F (sol 0) /\
  lie_gradients 1 d anywhere (ode_fun T0 ps) (fun y => ode_fun T0 ps y 0%nat) Lp Dp /\
  lie_covectors 1 d anywhere (ode_fun T0 ps) (ode_fun T0 ps) Wp /\
  tape_of G 1 1 anywhere (sol 0) (cube_fun T0 ps) /\
  lie_brackets 1 d anywhere (ode_fun T0 ps) (cube_fun T0 ps) Gp.
Proof.
  destruct (@ode_tape T0 nmm ps x1 g gc eps (sol 0)) as (tf & A1 & A2 & A3).
  destruct (@cube_tape T0 nmm ps x1 g gc (sol 0)) as (tg & B1 & B2).
  destruct (@C45_met T0 ps x1 g gc) as (s1 & bs & _ & _ & _ & So & _).
  exists tf, tg. cbv zeta. split; [apply open_anywhere|]. split; [exact Logic.I|]. split; [exact A1|]. split; [exact So|].
  split; [exact A2|]. split; [now apply towers_gradients|]. split; [now apply towers_covectors|]. split; [exact B1|].
  now apply towers_brackets.
Qed.
(* so that the drivers return, at x0 = 1, d = 2: -1, 2, -6; -2, 6, -24; -1, 4, -20; 1, -1, 2 *)
Theorem C53_met_run (T0 : rmem) nmm ps (x1 : nat -> R) g gc eps z0 Z0 (r1 : rmem) (r2 : rrows) (xa : state) :
  0 <= eps -> xa 0%nat = 1 -> exists tf tg,
  let F := mkTape nmm ps tf g gc in let G := mkTape nmm ps tg g gc in
  exists a1 a2 a3 a4,
  @lie_scalarc reals F F 1 xa 2 z0 Z0 r1 = Some a1 /\ @lie_gradientc reals eps F F 1 xa 2 z0 Z0 r2 = Some a2 /\
  @lie_covector reals eps F F 1 xa 2 z0 Z0 r2 = Some a3 /\ @lie_bracket reals eps F G 1 xa 2 z0 Z0 r2 = Some a4 /\
  map a1 (seq 0 3) = [-1; 2; -6] /\ map (a2 0%nat) (seq 0 3) = [-2; 6; -24] /\
  map (a3 0%nat) (seq 0 3) = [-1; 4; -20] /\ map (a4 0%nat) (seq 0 3) = [1; -1; 2].
Proof.
  intros He Hx. destruct (@C53_met T0 nmm ps x1 g gc eps 2) as (tf & tg & P1 & P2 & P3 & P4 & P5 & P6 & P7 & P8 & P9).
  exists tf, tg. cbv zeta.
  assert (S0 : sol 0 0%nat = 1) by (cbn [sol]; lra).
  assert (St : forall i, (i < 1)%nat -> xa i = sol 0 i) by (intros i Hi; replace i with 0%nat by lia; now rewrite S0).
  set (F := mkTape nmm ps tf g gc) in *. set (G := mkTape nmm ps tg g gc) in *.
  destruct (@C53_scalarc 1 anywhere (ode_fun T0 ps) F sol xa P1 P2 P3 P4 St 2 F (ode_fun T0 ps) Lp z0 Z0 r1 P3 (proj1 P6) ltac:(lia)) as (a1 & E1 & V1 & _).
  destruct (@C53_gradientc 1 anywhere (ode_fun T0 ps) F sol xa P1 P2 P3 P4 St eps He P5 2 F (ode_fun T0 ps) Lp Dp z0 Z0 r2 P3 P5 P6 ltac:(lia) ltac:(lia)) as (a2 & E2 & V2 & _).
  destruct (@C53_covector 1 anywhere (ode_fun T0 ps) F sol xa P1 P2 P3 P4 St eps He P5 2 F (ode_fun T0 ps) Wp P3 P7 z0 Z0 r2 ltac:(lia) ltac:(lia) ltac:(lia)) as (a3 & E3 & V3 & _).
  destruct (@C53_bracket 1 anywhere (ode_fun T0 ps) F sol xa P1 P2 P3 P4 St eps He P5 2 G (cube_fun T0 ps) Gp P8 P9 z0 Z0 r2 ltac:(lia) ltac:(lia) ltac:(lia)) as (a4 & E4 & V4 & _).
  exists a1, a2, a3, a4. repeat (split; [assumption|]). cbn [map seq].
  rewrite !V1, !V2, !V3, !V4 by lia. unfold Lp, Dp, Wp, Gp. rewrite S0. cbn [a w b Nat.add INR pow].
  repeat split; repeat (f_equal; try ring).
Qed.
