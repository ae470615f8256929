(* C38, C39: fov_forward and fov_reverse propagate several directions (weights) at once;
   each of them comes out as the scalar sweep, and so as the derivative. *)
From Coq Require Import List ZArith Bool Arith Lia Reals Lra.
From Coquelicot Require Import Coquelicot.
From Flocq Require Import IEEE754.BinarySingleNaN.
Require Import Verif.AdModel Verif.AdRecord Verif.AdSpec Verif.AdReplay Verif.AdRestore
  Verif.AdTidyCalls Verif.AdPlain Verif.AdPlainRun Verif.AdProps Verif.AdSelect
  Verif.AdReal Verif.AdLin Verif.AdReverse Verif.AdReverseProps Verif.AdDeriv Verif.AdTangent
  Verif.AdDerivProps Verif.AdDerivEx Verif.Binary64 Verif.VecModel Verif.VecProofs.
Import ListNotations.
Set Implicit Arguments.
Unset Asymmetric Patterns.
Local Open Scope R_scope.

(* ------------------------------------------------------------------ *)
(* The columns of fov_forward, for any arithmetic                        *)

Section Columns.
Variable K : Arith.

(* The sweep with p directions succeeds exactly when the scalar sweep with direction l
   does, with the same return code, outputs and final values, and the tangents it returns
   for direction l are the tangents of the scalar sweep - provided no logarithm is
   evaluated at 0.  gd: contents of the tangent buffer, which is not initialised. *)
Theorem C38_columns p ps x (X : nat -> nat -> V K) (g : mem K) (gd : vmem K) t l :
  (l < p)%nat -> @logs_fine K ps x t (@mkF K g 0 [] 3%Z []) ->
  match @fov_forward K p ps x X g gd t, @fos_forward K ps x (fun i => X i l) g (fun j => gd j l) t with
  | Some v, Some s => map (fun row => row l) (vyd v) = tyd s /\ vF v = tF s
  | None, None => True
  | _, _ => False
  end.
Proof.
  intros H L. pose proof (@vrun_col K p ps x X l H t (mkV (@mkF K g 0 [] 3%Z []) gd []) L) as E.
  unfold fov_forward, fos_forward. unfold colstate at 2 in E. cbn [vF vD vyd map] in E.
  unfold col in E. rewrite <- E. destruct (vrun _ _ _ _ _ _) as [v|]; cbn [option_map]; [|exact I].
  split; reflexivity.
Qed.

(* the first direction, without the proviso *)
Theorem C38_first_column p ps x (X : nat -> nat -> V K) (g : mem K) (gd : vmem K) t :
  (0 < p)%nat ->
  match @fov_forward K p ps x X g gd t, @fos_forward K ps x (fun i => X i 0%nat) g (fun j => gd j 0%nat) t with
  | Some v, Some s => map (fun row => row 0%nat) (vyd v) = tyd s /\ vF v = tF s
  | None, None => True
  | _, _ => False
  end.
Proof.
  intros H. pose proof (@vrun_col0 K p ps x X H t (mkV (@mkF K g 0 [] 3%Z []) gd [])) as E.
  unfold fov_forward, fos_forward. unfold colstate at 2 in E. cbn [vF vD vyd map] in E.
  unfold col in E. rewrite <- E. destruct (vrun _ _ _ _ _ _) as [v|]; cbn [option_map]; [|exact I].
  split; reflexivity.
Qed.

(* Row l of the result of fov_reverse is the result of fos_reverse with weights U[l];
   traces without reads through an advector. *)
Theorem C39_rows p U n m gT (gA : vmem K) gz k t l : (l < p)%nat -> List.Forall (@no_subscript K) t ->
  rvz (@fov_reverse K p U n m gT gA gz k t) l =
  rz (@fos_reverse K (U l) n m gT (fun j => gA j l) (gz l) k t).
Proof.
  intros H N. pose proof (@rvrun_col K p U l H t (mkRV gT gA k gz n m) N) as E.
  apply (f_equal (@rz K)) in E. exact E.
Qed.
(* one weight vector: any trace *)
Theorem C39_single_row U n m gT (gA : vmem K) gz k t :
  rvz (@fov_reverse K 1 U n m gT gA gz k t) 0%nat =
  rz (@fos_reverse K (U 0%nat) n m gT (fun j => gA j 0%nat) (gz 0%nat) k t).
Proof.
  assert (G : forall t s, colrstate 0 (fold_left (fun s o => rvstep 1 U o s) t s)
     = fold_left (fun s o => rstep (U 0%nat) o s) t (colrstate (K := K) 0 s)).
  { induction t0 as [|o t0 IH]; intros s; [reflexivity|]. cbn [fold_left]. rewrite IH. f_equal.
    apply rvstep_one. }
  specialize (G (rev t) (mkRV gT gA k gz n m)). apply (f_equal (@rz K)) in G. exact G.
Qed.
End Columns.

(* ------------------------------------------------------------------ *)
(* The Jacobian, over the reals                                         *)

(* x + s v *)
Definition along (x v : nat -> R) (s : R) : nat -> R := fun i => x i + s * v i.
Lemma along_der x v s i : is_derive (fun s => along x v s i) s (v i).
Proof. unfold along. auto_derive; auto. ring. Qed.
Lemma along0 x v : along x v 0 = x.
Proof. apply FunctionalExtensionality.functional_extensionality. intros i. unfold along. ring. Qed.

Lemma smooth_logs ps x t : forall (f : fstate reals), smooth_run ps x t (fi f) (fT f) ->
  @logs_fine reals ps x t f.
Proof.
  induction t as [|o t IH]; intros f; cbn [smooth_run logs_fine]; auto.
  intros [A B]. split.
  - destruct (@resolve reals (fT f) o); cbn [log_fine]; auto. cbn [smooth] in A.
    cbn. unfold Reqb. destruct (Req_EM_T (fT f arg) 0); [lra|reflexivity].
  - unfold zstep. destruct (oob (fT f) o); auto.
    destruct (zabort (resolve (fT f) o) (fT f)); auto.
Qed.

Theorem C38_jacobian_product T0 chunks last ps1 x1 q s1
  ps x p (X : nat -> nat -> R) (g : rmem) (gd : vmem reals) m td :
  @wellbehaved reals ps1 x1 q (pstart T0 chunks) -> fprog q = true ->
  @run reals ps1 x1 q (start T0 chunks) = Some s1 ->
  let t := finish last s1 in
  smooth_run ps x t 0 g ->
  @zos_forward reals ps x g t = Done m -> (0 <= frc m)%Z ->
  @fov_forward reals p ps x X g gd t = Some td ->
  fy (vF td) = fy m /\ length (vyd td) = length (fy m) /\
  forall l j, (l < p)%nat ->
  is_derive (fun s => nth j (outputs ps (along x (fun i => X i l) s) g t) 0) 0
            (nth j (vyd td) (fun _ => 0) l).
Proof.
  intros W Fp Hr t Sm Hz Hc Hf.
  assert (Z : vF td = m).
  { clear -Hz Hc Hf. unfold fov_forward in Hf. unfold zos_forward in Hz.
    assert (G : forall t (s : vstate reals), @vrun reals p ps x X t s = Some td -> @zrun reals ps x t (vF s) = Done (vF td)).
    { induction t0 as [|o t0 IH]; intros s H; cbn [vrun zrun] in *.
      - now injection H as <-.
      - unfold vstep in H. destruct (@zstep reals ps x o (vF s)) as [f|[f|]]; [|injection H as <-; reflexivity|discriminate].
        apply IH in H. exact H. }
    apply G in Hf. cbn [vF] in Hf. rewrite Hz in Hf. now injection Hf. }
  split; [now rewrite Z|].
  assert (C : forall l, (l < p)%nat -> exists s, @fos_forward reals ps x (fun i => X i l) g (fun j => gd j l) t = Some s /\
     map (fun row => row l) (vyd td) = tyd s).
  { intros l Hl. pose proof (@C38_columns reals p ps x X g gd t l Hl (@smooth_logs ps x t (@mkF reals g 0 [] 3%Z []) Sm)) as E.
    rewrite Hf in E. destruct (fos_forward _ _ _ _ _ _) as [s|]; [|destruct E]. exists s. tauto. }
  split.
  - unfold fov_forward in Hf.
    assert (G : forall t (s : vstate reals), @vrun reals p ps x X t s = Some td -> length (vyd s) = length (fy (vF s)) ->
       (@zrun reals ps x t (vF s) = Done m) -> length (vyd td) = length (fy (vF td))).
    { clear -Hc. induction t as [|o t IH]; intros s H Q R; cbn [vrun zrun] in *.
      - now injection H as <-.
      - unfold vstep in H. destruct (@zstep reals ps x o (vF s)) as [f|[f|]] eqn:E.
        + eapply IH; [exact H| |exact R]. cbn [vyd vF]. rewrite app_length, Q.
          unfold zstep in E. destruct (oob _ _); [discriminate|].
          destruct (zabort _ _); [discriminate|]. injection E as <-. cbn [fy]. rewrite app_length. f_equal.
          destruct (resolve (fT (vF s)) o); reflexivity.
        + injection H as <-. cbn [vyd vF]. injection R as <-. exfalso.
          unfold zstep in E. destruct (oob _ _); [discriminate|].
          destruct (zabort _ _) eqn:Za; [|discriminate]. injection E as <-. cbn in Hc.
          clear -Za Hc. destruct (resolve (fT (vF s)) o); cbn [zabort] in Za; try discriminate;
              repeat match type of Za with context [if ?e then _ else _] => destruct e end;
              try discriminate; injection Za as <-; lia.
        + discriminate. }
    rewrite <- Z. eapply G; [exact Hf|reflexivity|exact Hz].
  - intros l j Hl. destruct (C l Hl) as (s & Hs & Es).
    destruct (@C14_directional_derivative T0 chunks last ps1 x1 q s1 ps 0 (along x (fun i => X i l))
      (fun i => X i l) g (fun j => gd j l) m s) as [_ G]; auto.
    { intros i. apply (@along_der x (fun i => X i l) 0 i). }
    { rewrite along0. exact Sm. }
    { rewrite along0. exact Hz. }
    { rewrite along0. exact Hs. }
    specialize (G j). rewrite <- Es in G.
    change 0 with ((fun row : nat -> R => row l) (fun _ => 0)) in G at 3. rewrite map_nth in G. exact G.
Qed.

(* ------------------------------------------------------------------ *)
(* reverse                                                              *)

Lemma plain_no_subscript bs : List.Forall (@no_subscript reals) (map (@Plain reals) bs).
Proof. apply Forall_forall. intros o Ho. apply in_map_iff in Ho. destruct Ho as (b & <- & _). exact I. Qed.

(* a program without advector elements has no subscript on its trace *)
Lemma fprog_no_subscript T0 chunks last ps1 x1 q s1 :
  @wellbehaved reals ps1 x1 q (pstart T0 chunks) -> fprog q = true ->
  @run reals ps1 x1 q (start T0 chunks) = Some s1 ->
  List.Forall (@no_subscript reals) (finish last s1).
Proof.
  intros W Fp Hr.
  destruct (@plain_run reals reals_laws ps1 x1 q (pstart T0 chunks) (start T0 chunks)
              (stocked chunks) W) as [Ok _]; auto.
  { intros l _. reflexivity. }
  destruct (@run_trace ps1 x1 q _ _ _ Fp Ok Hr) as (bs & Eo & _ & _).
  destruct (@stock_trace T0 chunks 0%nat (fun _ => False)) as (b0 & E0 & _ & _ & _).
  unfold finish. rewrite Eo. cbn [start sops]. rewrite E0.
  apply Forall_app. split; [apply Forall_app; split; apply plain_no_subscript|].
  constructor; [exact I|constructor].
Qed.

(* Z[l] . xd = U[l] . (J xd) for every weight vector U[l] and every direction xd *)
Theorem C39_adjoint T0 chunks last ps1 x1 q s1
  ps x p (U : nat -> nat -> R) xd (g gd gT : rmem) (gA : vmem reals) gz m td :
  @wellbehaved reals ps1 x1 q (pstart T0 chunks) -> fprog q = true ->
  (total chunks <= S last)%nat ->
  prog_ok (S last) q (fun l => l <? total chunks)%nat (fun _ => false) = true ->
  @run reals ps1 x1 q (start T0 chunks) = Some s1 ->
  let t := finish last s1 in
  @zos_forward reals ps x g t = Done m -> (0 <= frc m)%Z ->
  regular_run ps x t 0 g ->
  @fos_forward reals ps x xd g gd t = Some td ->
  let r := @fov_reverse reals p U (fi m) (length (fy m)) gT gA gz (fk m) t in
  forall l, (l < p)%nat -> wsum (U l) 0 (tyd td) = isum (rvz r l) xd 0 (fi m).
Proof.
  intros W Fp Hl Ok Hr t Hz Hc Rg Hf r l H. unfold r.
  rewrite C39_rows by (auto; eapply fprog_no_subscript; eauto).
  eapply C15_adjoint; eauto. unfold record. rewrite Hr. reflexivity.
Qed.

(* With the unit vectors as weights - what jacobian() does - Z is the Jacobian. *)
Theorem C39_jacobian T0 chunks last ps1 x1 q s1 ps x p (g gT : rmem) (gA : vmem reals) gz m :
  @wellbehaved reals ps1 x1 q (pstart T0 chunks) -> fprog q = true ->
  (total chunks <= S last)%nat ->
  prog_ok (S last) q (fun l => l <? total chunks)%nat (fun _ => false) = true ->
  @run reals ps1 x1 q (start T0 chunks) = Some s1 ->
  let t := finish last s1 in
  @zos_forward reals ps x g t = Done m -> (0 <= frc m)%Z ->
  smooth_run ps x t 0 g ->
  let r := @fov_reverse reals p unitv (fi m) (length (fy m)) gT gA gz (fk m) t in
  forall i j, (i < fi m)%nat -> (j < p)%nat ->
  is_derive (fun s => nth j (outputs ps (setx x i s) g t) 0) (x i) (rvz r j i).
Proof.
  intros W Fp Hl Ok Hr t Hz Hc Sm r i j Hi Hj. unfold r.
  rewrite C39_rows by (auto; eapply fprog_no_subscript; eauto).
  eapply C15_gradient; eauto.
Qed.

(* ------------------------------------------------------------------ *)
(* Where the columns (rows) of the vector sweeps are wrong               *)

Section Double.
Variable M : Libm.
Let K := binary64 M.

(* y = log(x0) at x0 = 0 with the directions -1, +1.  The scalar sweep with direction +1
   gives +inf; the vector sweep gives NaN because direction 0 was -1. *)
Definition log_prog : prog K :=
  Do (CInd K 0) (Do (CUn K ULog (Fresh 1) 0) (Do (CDep K 1) (Ret K))).
Definition logdirs : nat -> nat -> V K := fun _ l => if Nat.eqb l 0 then bneg b1 else b1.
Lemma witness1 (A : Type) (r : option A) (P : A -> Prop) :
  match r with Some s => P s | None => False end -> exists s, r = Some s /\ P s.
Proof. destruct r; [eauto|tauto]. Qed.
Theorem C38_log_at_zero_refuted : forall (ps : nat -> V K) (g gd1 : mem K) (gd : vmem K),
  exists s, @run K ps (fun _ => bz) log_prog (@start K (fun _ => bz) []) = Some s /\
  let t := finish 1 s in
  match @fov_forward K 2 ps (fun _ => bz) logdirs g gd t,
        @fos_forward K ps (fun _ => bz) (fun i => logdirs i 1) g gd1 t with
  | Some v, Some u =>
      map (fun row => B2SF (row 1%nat : b64)) (vyd v) = [SpecFloat.S754_nan] /\
      map (@B2SF 53 1024) (tyd u) = [SpecFloat.S754_infinity false]
  | _, _ => False
  end.
Proof.
  intros ps g gd1 gd. apply (@witness1 _ (run ps (fun _ => bz) log_prog (@start K (fun _ => bz) []))).
  vm_compute. auto.
Qed.

(* y0 = v[1], y1 = v[1] * 2 with v = (x0, x1), weights: the two unit vectors.
   dy1/dx1 = 2; fov_reverse returns 0 there. *)
Definition sub_prog : prog K :=
  Do (CInd K 0) (Do (CInd K 1) (Do (CConst K 2 b1) (Do (CSubscript K 3 2 0 2)
  (Do (CCst K KMul (Fresh 4) b2 3) (Do (CDep K 3) (Do (CDep K 4) (Ret K))))))).
Definition weights : nat -> nat -> V K := fun l d => if Nat.eqb l d then b1 else bz.
Theorem C39_subscript_refuted : forall (ps : nat -> V K) (g gT gA1 : mem K) (gA : vmem K) gz1 gz,
  exists s m, @run K ps (fun _ => b1) sub_prog (@start K (fun _ => bz) []) = Some s /\
  @zos_forward K ps (fun _ => b1) g (finish 4 s) = Done m /\
  let t := finish 4 s in
  let v := @fov_reverse K 2 weights (fi m) (length (fy m)) gT gA gz (fk m) t in
  let u := @fos_reverse K (weights 1) (fi m) (length (fy m)) gT gA1 gz1 (fk m) t in
  B2SF (rvz v 1%nat 1%nat : b64) = B2SF bz /\ B2SF (rz u 1%nat : b64) = B2SF b2.
Proof.
  intros ps g gT gA1 gA gz1 gz.
  apply (@witness K (run ps (fun _ => b1) sub_prog (@start K (fun _ => bz) []))
    (fun s => zos_forward ps (fun _ => b1) g (finish 4 s))
    (fun s m => let t := finish 4 s in
  let v := @fov_reverse K 2 weights (fi m) (length (fy m)) gT gA gz (fk m) t in
  let u := @fos_reverse K (weights 1) (fi m) (length (fy m)) gT gA1 gz1 (fk m) t in
  B2SF (rvz v 1%nat 1%nat : b64) = B2SF bz /\ B2SF (rz u 1%nat : b64) = B2SF b2)).
  vm_compute. auto.
Qed.
End Double.

(* The hypotheses are met: y = atan(x1 * sin(x0)), three directions. *)
Lemma C38_C39_met (T0 g : rmem) (gd : vmem reals) (ps ps1 x1 x : nat -> R) (X : nat -> nat -> R) : exists s1 m td,
  @wellbehaved reals ps1 x1 ex14 (@pstart reals T0 [2%nat]) /\ fprog ex14 = true /\
  (total [2%nat] <= 7)%nat /\
  prog_ok 7 ex14 (fun l => l <? total [2%nat])%nat (fun _ => false) = true /\
  @run reals ps1 x1 ex14 (@start reals T0 [2%nat]) = Some s1 /\
  smooth_run ps x (finish 6 s1) 0 g /\
  @zos_forward reals ps x g (finish 6 s1) = Done m /\ (0 <= frc m)%Z /\ fi m = 2%nat /\
  @fov_forward reals 3 ps x X g gd (finish 6 s1) = Some td.
Proof.
  destruct (ex14_ok T0 g (fun j => gd j 0%nat) ps ps1 x1 x (fun i => X i 0%nat))
    as (s1 & m & td & A1 & A2 & A3 & A4 & A5 & A6 & A7 & A8 & A9 & A10).
  pose proof (@C38_first_column reals 3 ps x X g gd (finish 6 s1) ltac:(lia)) as E.
  rewrite A10 in E. destruct (fov_forward _ _ _ _ _ _ _) as [v|] eqn:V; [|destruct E].
  exists s1, m, v. tauto.
Qed.
