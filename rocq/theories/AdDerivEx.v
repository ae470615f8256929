(* C14: a program that meets the hypotheses, and one the property fails for. *)
From Coq Require Import List ZArith Bool Arith Lia Reals Lra.
From Coquelicot Require Import Coquelicot.
Require Import Verif.AdModel Verif.AdRecord Verif.AdSpec Verif.AdReplay Verif.AdRestore
  Verif.AdTidyCalls Verif.AdPlain Verif.AdPlainRun Verif.AdProps
  Verif.AdReal Verif.AdLin Verif.AdReverse Verif.AdReverseProps Verif.AdDeriv Verif.AdTangent
  Verif.AdDerivProps.
Import ListNotations.
Set Implicit Arguments.
Unset Asymmetric Patterns.
Local Open Scope R_scope.

(* y = atan(x1 * sin(x0)) *)
Definition ex14 : prog reals :=
  Do (CInd reals 0) (Do (CInd reals 1) (Do (CSin reals (Fresh 2) 0 3)
  (Do (CBin reals BMul (Fresh 4) 1 2) (Do (CHelp reals Fatan (Fresh 5) 4 6)
  (Do (CDep reals 5) (Ret reals)))))).
Definition ex14_ops (T0 : rmem) : list (bop reals) :=
  [TakeStock reals 2 0 (map T0 (seq 0 2)); AssignInd reals 0; AssignInd reals 1;
   AssignD0 reals 2; AssignD0 reals 3; SinOp reals 0 3 2; AssignD0 reals 4; MultAA reals 1 2 4;
   AssignD0 reals 5; AssignD0 reals 6; MultAA reals 4 4 6; cst_op reals KAdd 1 6 6;
   DivDA reals 6 6 1; HelpOp reals Fatan 4 6 5; AssignDep reals 5; DeathNot reals 0 6].

Lemma ex14_wb (T0 : rmem) (ps x : nat -> R) : @wellbehaved reals ps x ex14 (@pstart reals T0 [2%nat]).
Proof. unfold ex14. repeat wb_step. Qed.

Lemma smooth_step ps x b t i T : smooth b T (@zval reals ps x i b T) ->
  (forall T', T' = @zval reals ps x i b T -> smooth_run ps x t (if is_ind b then S i else i) T') ->
  smooth_run ps x (Plain b :: t) i T.
Proof. intros H1 H2. cbn [smooth_run resolve]. auto. Qed.
Lemma smooth_skip ps x b t i T : (forall T T', smooth b T T') ->
  (forall T', T' = @zval reals ps x i b T -> smooth_run ps x t (if is_ind b then S i else i) T') ->
  smooth_run ps x (Plain b :: t) i T.
Proof. intros H1 H2. now apply smooth_step. Qed.
Lemma cst1 : cst_op reals KAdd 1 6 6 = PlusDA reals 6 6 1.
Proof.
  cbn [cst_op]. unfold eq0. cbn [eqb zero reals]. unfold Reqb.
  destruct (Req_EM_T 1 0); [lra|reflexivity].
Qed.

Lemma pure_rc ps x xd bs : List.Forall (fun b : bop reals => forall T rc, zrc b T rc = rc) bs ->
  forall s, frc (tF (pure_run ps x xd bs s)) = frc (tF s).
Proof.
  induction 1 as [|b bs H _ IH]; intros s; cbn [pure_run]; auto. rewrite IH. cbn [tF frc]. apply H.
Qed.
Lemma pure_fi ps x xd bs : forall s,
  fi (tF (pure_run ps x xd bs s)) = (fi (tF s) + length (filter (@is_ind reals) bs))%nat.
Proof.
  induction bs as [|b bs IH]; intros s; cbn [pure_run filter length]; [lia|].
  rewrite IH. cbn [tF fi]. destruct (is_ind b); cbn [length]; lia.
Qed.

Local Opaque Rtrigo_def.sin Rtrigo_def.cos Rplus Rmult Ropp Rinv IZR atan.
Lemma record_some (T0 : rmem) sizes d ps1 x1 p t : @record reals T0 sizes d ps1 x1 p = Some t ->
  exists s1, @run reals ps1 x1 p (@start reals T0 sizes) = Some s1 /\ finish d s1 = t.
Proof.
  unfold record. destruct (@run reals ps1 x1 p (@start reals T0 sizes)) as [s1|]; [|discriminate].
  intros Q. injection Q as Q. exists s1. auto.
Qed.
Lemma ex14_rec0 (T0 : rmem) (ps1 x1 : nat -> R) :
  @record reals T0 [2%nat] 6 ps1 x1 ex14 = Some (map (@Plain reals) (ex14_ops T0)).
Proof. reflexivity. Qed.
Lemma ex14_rec (T0 : rmem) (ps1 x1 : nat -> R) :
  exists s1, @run reals ps1 x1 ex14 (@start reals T0 [2%nat]) = Some s1 /\
     finish 6 s1 = map (@Plain reals) (ex14_ops T0).
Proof. exact (@record_some T0 [2%nat] 6 ps1 x1 ex14 _ (ex14_rec0 T0 ps1 x1)). Qed.
Lemma ex14_nostop (T0 : rmem) : List.Forall nostop (ex14_ops T0).
Proof. unfold ex14_ops. rewrite cst1. repeat constructor. Qed.
Lemma ex14_zrc (T0 : rmem) : List.Forall (fun b : bop reals => forall T rc, zrc b T rc = rc) (ex14_ops T0).
Proof. unfold ex14_ops. rewrite cst1. repeat constructor. Qed.
Lemma ex14_inds (T0 : rmem) : length (filter (@is_ind reals) (ex14_ops T0)) = 2%nat.
Proof. unfold ex14_ops. rewrite cst1. reflexivity. Qed.
Lemma ex14_smooth (T0 g : rmem) (ps x : nat -> R) : smooth_run ps x (map (@Plain reals) (ex14_ops T0)) 0 g.
Proof.
  unfold ex14_ops. rewrite cst1. cbn [map].
  do 10 (apply smooth_skip; [intros ? ?; exact I|]; intros ? _; cbn [is_ind]).
  apply smooth_skip; [intros ? ?; exact I|]. intros T1 E1. cbn [is_ind].
  apply smooth_skip; [intros ? ?; exact I|]. intros T2 E2. cbn [is_ind].
  apply smooth_step.
  { cbn [smooth]. subst T2 T1. cbn [zval]. rewrite !(@upd_eq reals).
    cbn [add mul reals]. nra. }
  intros T3 _. apply smooth_step; [split; [exact I|]; intros d; reflexivity|].
  intros T4 _. do 2 (apply smooth_skip; [intros ? ?; exact I|]; intros ? _; cbn [is_ind]). exact I.
Qed.
Example ex14_ok (T0 g gd : rmem) (ps ps1 x1 x xd : nat -> R) : exists s1 m td,
  @wellbehaved reals ps1 x1 ex14 (@pstart reals T0 [2%nat]) /\ fprog ex14 = true /\
  (total [2%nat] <= 7)%nat /\
  prog_ok 7 ex14 (fun l => l <? total [2%nat])%nat (fun _ => false) = true /\
  @run reals ps1 x1 ex14 (@start reals T0 [2%nat]) = Some s1 /\
  smooth_run ps x (finish 6 s1) 0 g /\
  @zos_forward reals ps x g (finish 6 s1) = Done m /\ (0 <= frc m)%Z /\ fi m = 2%nat /\
  @fos_forward reals ps x xd g gd (finish 6 s1) = Some td.
Proof.
  destruct (ex14_rec T0 ps1 x1) as (s1 & R & E). exists s1.
  destruct (pure_ok ps x xd (ex14_nostop T0) (mkT (@mkF reals g 0 [] 3%Z []) gd [])) as [Z1 Z2].
  pose proof (pure_rc ps x xd (ex14_zrc T0) (mkT (@mkF reals g 0 [] 3%Z []) gd [])) as Hrc.
  pose proof (pure_fi ps x xd (ex14_ops T0) (mkT (@mkF reals g 0 [] 3%Z []) gd [])) as Hfi.
  rewrite ex14_inds in Hfi. cbn [tF frc fi] in Hrc, Hfi.
  remember (pure_run ps x xd (ex14_ops T0) (mkT (@mkF reals g 0 [] 3%Z []) gd [])) as s' eqn:Es. clear Es.
  exists (tF s'), s'. rewrite E.
  split; [apply ex14_wb|]. split; [reflexivity|]. split; [cbn; lia|]. split; [reflexivity|].
  split; [exact R|]. split; [apply ex14_smooth|].
  split; [exact Z1|]. split; [rewrite Hrc; lia|]. split; [exact Hfi|exact Z2].
Qed.
