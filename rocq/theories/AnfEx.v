(* C30: a program that meets the hypotheses, and where the property fails. *)
From Coq Require Import List ZArith Bool Arith Lia Reals Lra.
From Coquelicot Require Import Coquelicot.
Require Import Verif.AdModel Verif.AdRecord Verif.AdSpec Verif.AdReplay Verif.AdRestore
  Verif.AdTidyCalls Verif.AdPlain Verif.AdPlainRun Verif.AdProps
  Verif.AdReal Verif.AdLin Verif.AdReverse Verif.AdReverseProps Verif.AdDeriv Verif.AdTangent
  Verif.AdDerivProps Verif.AdDerivEx Verif.AnfModel Verif.AnfSpec Verif.AnfProofs Verif.AnfDeriv Verif.AnfProps.
Import ListNotations.
Set Implicit Arguments.
Unset Asymmetric Patterns.
Local Open Scope R_scope.

(* y = | x0 - |x1| | + x1 *)
Definition ex30 : prog reals :=
  Do (CInd reals 0) (Do (CInd reals 1) (Do (CUn reals UAbs (Fresh 2) 1)
  (Do (CBin reals BSub (Fresh 3) 0 2) (Do (CUn reals UAbs (Fresh 4) 3)
  (Do (CBin reals BAdd (Fresh 5) 4 1) (Do (CDep reals 5) (Ret reals))))))).
Definition abs_rec (v : R) : R := if Reqb (Rabs v) v then 1 else 0.
Definition ex30_ops (T0 : rmem) (x1 : nat -> R) : list (bop reals) :=
  [TakeStock reals 2 0 (map T0 (seq 0 2)); AssignInd reals 0; AssignInd reals 1;
   AssignD0 reals 2; AbsVal reals 1 2 (abs_rec (x1 1%nat)); AssignD0 reals 3; MinAA reals 0 2 3;
   AssignD0 reals 4; AbsVal reals 3 4 (abs_rec (x1 0%nat - Rabs (x1 1%nat)));
   AssignD0 reals 5; PlusAA reals 4 1 5; AssignDep reals 5; DeathNot reals 0 5].

Local Opaque Rplus Rmult Ropp Rinv Rminus IZR Rabs Reqb.
Lemma ex30_wb (T0 : rmem) (ps x : nat -> R) : @wellbehaved reals ps x ex30 (@pstart reals T0 [2%nat]).
Proof. unfold ex30. repeat wb_step. Qed.
Lemma ex30_rec (T0 : rmem) (ps1 x1 : nat -> R) :
  @record reals T0 [2%nat] 5 ps1 x1 ex30 = Some (map (@Plain reals) (ex30_ops T0 x1)).
Proof. reflexivity. Qed.
Lemma ex30_nostop (T0 : rmem) x1 : List.Forall nostop (ex30_ops T0 x1).
Proof. repeat constructor. Qed.
Lemma ex30_recorded T0 ps1 x1 : recorded T0 [2%nat] 5 ps1 x1 ex30 (map (@Plain reals) (ex30_ops T0 x1)).
Proof.
  split; [apply ex30_wb|]. split; [reflexivity|]. split; [cbn; lia|]. split; [reflexivity|].
  apply ex30_rec.
Qed.
Lemma linear_rc bs : forallb linear_op bs = true -> forall ps x xd s,
  (0 <= frc (tF s) -> 0 <= frc (tF (pure_run ps x xd bs s)))%Z.
Proof.
  induction bs as [|b bs IH]; intros L ps x xd s; cbn [pure_run]; auto.
  cbn [forallb] in L. apply andb_prop in L as [Lb L]. intros H. apply IH; auto. cbn [tF frc].
  destruct b; try discriminate Lb; cbn [zrc]; auto.
  unfold mindec. repeat match goal with |- context [if ?c then _ else _] => destruct c end; lia.
Qed.

Lemma call_defined t ps x m n (g gT : rmem) lost (gA : nat -> rmem) gz gw fs :
  @zos_forward reals ps x g t = Done fs -> (0 <= frc fs)%Z ->
  exists a, @abs_normal reals true t ps x m n (num_switches t) g gT lost gA gz gw = Some (0%Z, a) /\
  an_z a = psw ps x t 0 g /\
  (forall i, an_Y a i = rz (plR (@pl_reverse reals (unit_weight reals i) (no_weight reals) n m (num_switches t) gT (gA i) (gz i) (gw i) (fk fs) t))) /\
  (forall i, an_J a i = plw (@pl_reverse reals (unit_weight reals i) (no_weight reals) n m (num_switches t) gT (gA i) (gz i) (gw i) (fk fs) t)) /\
  (forall i, an_Z a i = rz (plR (@pl_reverse reals (no_weight reals) (unit_weight reals i) n m (num_switches t) gT (gA (m + i)%nat) (gz (m + i)%nat) (gw (m + i)%nat) (fk fs) t))) /\
  (forall i, an_L a i = plw (@pl_reverse reals (no_weight reals) (unit_weight reals i) n m (num_switches t) gT (gA (m + i)%nat) (gz (m + i)%nat) (gw (m + i)%nat) (fk fs) t)).
Proof.
  intros Z C. unfold abs_normal. rewrite Nat.eqb_refl. cbn [andb].
  unfold zos_pl_forward. rewrite (plz_exec _ _ _ _ _ (@zrun_path reals ps x t _ _ Z C)).
  replace (frc fs <? 0)%Z with false by (symmetry; apply Z.ltb_ge; lia).
  eexists. split; [reflexivity|]. cbn [an_z an_Y an_J an_Z an_L app fi fT]. auto 6.
Qed.

(* Recorded at any point, evaluated at any point; the matrices do not depend on it.
   At (0,0) both arguments of |.| vanish. *)
Example ex30_ok (T0 g gT : rmem) (ps ps1 x1 x : nat -> R) lost (gA : nat -> rmem) gz gw :
  let t := map (@Plain reals) (ex30_ops T0 x1) in exists fs a,
  recorded T0 [2%nat] 5 ps1 x1 ex30 t /\ piecewise_linear t = true /\
  smooth_but_abs ps x t 0 g /\
  @zos_forward reals ps x g t = Done fs /\ (0 <= frc fs)%Z /\ length (fy fs) = 1%nat /\ fi fs = 2%nat /\
  @abs_normal reals true t ps x 1 2 2 g gT lost gA gz gw = Some (0%Z, a) /\
  fy fs = [Rabs (x 0%nat - Rabs (x 1%nat)) + x 1%nat] /\
  an_z a = [x 1%nat; x 0%nat - Rabs (x 1%nat)] /\
  (an_Y a 0%nat 0%nat = 0 /\ an_Y a 0%nat 1%nat = 1) /\ (an_J a 0%nat 0%nat = 0 /\ an_J a 0%nat 1%nat = 1) /\
  (an_Z a 0%nat 0%nat = 0 /\ an_Z a 0%nat 1%nat = 1) /\ (an_Z a 1%nat 0%nat = 1 /\ an_Z a 1%nat 1%nat = 0) /\
  (an_L a 0%nat 0%nat = 0 /\ an_L a 0%nat 1%nat = 0) /\ (an_L a 1%nat 0%nat = -1 /\ an_L a 1%nat 1%nat = 0).
Proof.
  intros t. pose proof (ex30_nostop T0 x1) as F.
  set (xd := fun _ : nat => 0). set (s0 := mkT (@mkF reals g 0 [] 3%Z []) (fun _ => 0) []).
  destruct (pure_ok ps x xd F s0) as [Z1 _].
  assert (Rc : (0 <= frc (tF (pure_run ps x xd (ex30_ops T0 x1) s0)))%Z).
  { apply linear_rc; [reflexivity|]. cbn. lia. }
  destruct (@call_defined t ps x 1 2 g gT lost gA gz gw _ Z1 Rc) as (a & Ca & Ez & EY & EJ & EZ & EL).
  exists (tF (pure_run ps x xd (ex30_ops T0 x1) s0)), a.
  split; [apply ex30_recorded|]. split; [reflexivity|]. split; [now apply linear_smooth|].
  split; [exact Z1|]. split; [exact Rc|]. split; [reflexivity|]. split; [reflexivity|].
  split; [exact Ca|]. split; [reflexivity|]. split; [rewrite Ez; reflexivity|].
  clear Ca Z1 F Rc. rewrite !EY, !EJ, !EZ, !EL.
  repeat split; lazy; ring.
Qed.

(* ------------------------------------------------------------------ *)
(* Where the property fails. *)

(* fos_pl_sig_reverse clears the adjoint of |z| before it is passed on
   (fo_rev.cpp:1631-1632): the gradient of y = |x0| is 0 for every choice of
   signature gradient, at every point. *)
Definition just_abs : prog reals :=
  Do (CInd reals 0) (Do (CUn reals UAbs (Fresh 1) 0) (Do (CDep reals 1) (Ret reals))).
Theorem C30_signature_gradient_refuted (T0 g gT gA : rmem) (gz ps ps1 x1 x u sg : nat -> R) :
  exists t fs, recorded T0 [1%nat] 1 ps1 x1 just_abs t /\
  @zos_forward reals ps x g t = Done fs /\ (0 <= frc fs)%Z /\
  (fi fs, length (fy fs), num_switches t) = (1, 1, 1)%nat /\
  fy fs = [Rabs (x 0%nat)] /\
  rz (@sig_reverse reals sg u 1 1 1 gT gA gz (fk fs) t) 0%nat = 0.
Proof.
  set (bs := [TakeStock reals 1 0 (map T0 (seq 0 1)); AssignInd reals 0; AssignD0 reals 1;
     AbsVal reals 0 1 (abs_rec (x1 0%nat)); AssignDep reals 1; DeathNot reals 0 1]).
  assert (F : List.Forall nostop bs) by repeat constructor.
  set (xd := fun _ : nat => 0). set (s0 := mkT (@mkF reals g 0 [] 3%Z []) (fun _ => 0) []).
  destruct (pure_ok ps x xd F s0) as [Z1 _].
  exists (map (@Plain reals) bs), (tF (pure_run ps x xd bs s0)).
  split.
  { split; [unfold just_abs; repeat wb_step|]. split; [reflexivity|]. split; [cbn; lia|].
    split; reflexivity. }
  split; [exact Z1|]. split; [apply linear_rc; [reflexivity|cbn; lia]|].
  split; [reflexivity|]. split; [reflexivity|]. lazy. ring.
Qed.

(* The code returned does not tell that the point lies on another branch than the
   recorded one (psdrivers.cpp:64-88 drops both codes): y is not written at all. *)
Definition branchy (K : Arith) : prog K :=
  Do (CInd K 0) (If RGt 0
    (Do (CUn K UAbs (Fresh 1) 0) (Do (CDep K 1) (Ret K)))
    (Do (CUn K UNeg (Fresh 1) 0) (Do (CDep K 1) (Ret K)))).
Definition branchy_ops (K : Arith) (T0 : nat -> V K) (x1 : nat -> V K) : list (bop K) :=
  [TakeStock K 1 0 [T0 0%nat]; AssignInd K 0; Cmp K GtZero 0; AssignD0 K 1;
   AbsVal K 0 1 (if eqb K (vabs K (x1 0%nat)) (x1 0%nat) then one K else zero K);
   AssignDep K 1; DeathNot K 0 1].
Lemma branchy_record (K : Arith) T0 ps1 x1 : ltb K (zero K) (x1 0%nat) = true ->
  record T0 [1%nat] 1 ps1 x1 (branchy K) = Some (map (@Plain K) (branchy_ops K T0 x1)).
Proof.
  intros E. unfold record, branchy. cbn. rewrite E. cbn. reflexivity.
Qed.
Lemma branchy_sweep (K : Arith) T0 x1 ps x g : leb K (x 0%nat) (zero K) = true ->
  exists fs, zos_forward ps x g (map (@Plain K) (branchy_ops K T0 x1)) = Done fs /\ frc fs = (-1)%Z /\ fy fs = [].
Proof.
  intros E. unfold zos_forward. cbn. unfold zstep. cbn. rewrite E.
  eexists. split; [reflexivity|]. split; reflexivity.
Qed.
Theorem C30_branch_switch_unreported_refuted (T0 g gT : rmem) (ps ps1 x1 x : nat -> R)
  lost (gA : nat -> rmem) gz gw :
  0 < x1 0%nat -> x 0%nat < 0 ->
  exists t fs a, @record reals T0 [1%nat] 1 ps1 x1 (branchy reals) = Some t /\
  @zos_forward reals ps x g t = Done fs /\ frc fs = (-1)%Z /\
  @abs_normal reals true t ps x 1 1 1 g gT lost gA gz gw = Some (0%Z, a) /\ an_y a = [].
Proof.
  intros H1 H2.
  assert (E : ltb reals 0 (x1 0%nat) = true) by (cbn; unfold Rltb; destruct (Rlt_dec _ _); auto; lra).
  assert (E2 : leb reals (x 0%nat) 0 = true) by (cbn; unfold Rleb; destruct (Rle_dec _ _); auto; lra).
  destruct (@branchy_sweep reals T0 x1 ps x g E2) as (fs & Z & Z1 & Z2).
  exists (map (@Plain reals) (branchy_ops reals T0 x1)), fs. unfold abs_normal.
  replace (num_switches (map (@Plain reals) (branchy_ops reals T0 x1))) with 1%nat by reflexivity.
  cbn [Nat.eqb andb].
  assert (Z' : fst (@zos_pl_forward reals ps x g (map (@Plain reals) (branchy_ops reals T0 x1))) = Done fs).
  { unfold zos_pl_forward. rewrite plz_zrun. exact Z. }
  destruct (@zos_pl_forward reals ps x g (map (@Plain reals) (branchy_ops reals T0 x1))) as [f z].
  cbn [fst] in Z'. subst f.
  eexists. split; [now apply branchy_record|split; [exact Z|split; [exact Z1|split; [reflexivity|exact Z2]]]].
Qed.
