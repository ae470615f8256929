(* C56: an iteration meeting the hypotheses, and where the guards are needed. *)
From Coq Require Import List Arith Lia ZArith Reals Lra Bool.
From Coquelicot Require Import Coquelicot.
From Verif Require Import FixModel FixProps.
From Verif Require ExtModel ExtSpec.
Import ListNotations.
Open Scope R_scope.

(* x := x/2 + u^2, fixed point 2 u^2, derivative 4 u *)
Definition h1 (v : vec) : R := nth 0 v 0.
Definition nabs (v : vec) : R := Rabs (h1 v).
Definition exd (e ed : R) (N Nd : nat) : fpi := mkFpi
  (fun x u => [h1 x / 2 + h1 u * h1 u])
  (fun x u X ud => [h1 X / 2 + 2 * h1 u * h1 ud])
  (fun x u z => [h1 z / 2; 2 * h1 u * h1 z])
  nabs nabs e ed N Nd.
Definition one (v : vec) : Prop := length v = 1%nat.

Lemma one_form v : one v -> v = [h1 v].
Proof. unfold one. destruct v as [|a [|]]; try discriminate; reflexivity. Qed.

Lemma nabs_dist a b : one a -> one b -> dist nabs a b = Rabs (h1 a - h1 b).
Proof. intros Ha Hb. rewrite (one_form a Ha), (one_form b Hb). reflexivity. Qed.

Lemma nabs_metric : metric nabs 1.
Proof.
  intros a b c Ha Hb Hc. rewrite !nabs_dist by assumption. repeat split.
  - apply Rabs_pos.
  - rewrite <- Rabs_Ropp. f_equal. ring.
  - replace (h1 a - h1 c) with ((h1 a - h1 b) + (h1 b - h1 c)) by ring. apply Rabs_triang.
Qed.

Lemma half_contracts c : contracts nabs 1 one (fun x => [h1 x / 2 + c]) (1 / 2).
Proof.
  repeat split; try lra; auto. intros x y Hx Hy. rewrite !nabs_dist by (auto; reflexivity).
  change (Rabs (h1 x / 2 + c - (h1 y / 2 + c)) <= 1 / 2 * Rabs (h1 x - h1 y)).
  replace (h1 x / 2 + c - (h1 y / 2 + c)) with ((h1 x - h1 y) * / 2) by field.
  rewrite Rabs_mult, (Rabs_pos_eq (/ 2)) by lra. lra.
Qed.

Example ex56_value e ed N Nd x0 v :
  metric (norm (exd e ed N Nd)) 1 /\
  contracts (norm (exd e ed N Nd)) 1 one (fun x => G (exd e ed N Nd) x [v]) (1 / 2) /\
  one [x0] /\ one [2 * (v * v)] /\ [2 * (v * v)] = G (exd e ed N Nd) [2 * (v * v)] [v].
Proof.
  split; [apply nabs_metric|]. split; [apply half_contracts|]. repeat split; auto. cbn.
  unfold h1. cbn. f_equal. field.
Qed.

(* a run that ends: tolerance 1/100, at most 20 steps, from x0 with |x0 - 2v^2| <= 100 *)
Example ex56_ends ed Nd x0 v : Rabs (x0 - 2 * (v * v)) <= 100 ->
  (0 < fst (fst (iteration (exd (1/100) ed 20 Nd) [x0] [v])))%Z.
Proof.
  intros H. apply (C56_converges (exd (1/100) ed 20 Nd) 1 one (1 / 2));
    [apply nabs_metric|exact (half_contracts (v * v))|reflexivity|cbn; lia|].
  cbn [norm exd]. rewrite nabs_dist by reflexivity. unfold h1. cbn [G exd nth].
  unfold h1. cbn [nth eps exd nmax].
  replace (x0 / 2 + v * v - x0) with (- / 2 * (x0 - 2 * (v * v))) by field.
  rewrite Rabs_mult, Rabs_Ropp, (Rabs_pos_eq (/ 2)) by lra.
  cbn [Nat.sub pow]. lra.
Qed.

(* the curve of fixed points over u(t) = t: all hypotheses of C56_tangent, L = 0 *)
Example ex56_tangent e ed N Nd v x0 X0 xf Xf s k x1 X1 s1 :
  fp_fos (exd e ed N Nd) true [x0] [v] [X0] [1] xf Xf s = (k, (x1, X1), s1) -> (0 < k)%Z ->
  Rabs (h1 x1 - 2 * (v * v)) <= e /\ Rabs (h1 X1 - 4 * v) <= ed.
Proof.
  intros E K. set (d := exd e ed N Nd) in *.
  assert (L1 : one x1 /\ one X1).
  { unfold fp_fos in E. destruct (floop_run _ _ _ _ _ _ _ _ _ _ _ _ E (le_n 1) K) as (j & _ & _ & J).
    cbv zeta in J. destruct J as (J & _). cbn [fst snd] in J. unfold fmap in J. injection J as -> ->.
    split; reflexivity. }
  destruct (C56_tangent d 1 one one (1/2) 0 true [x0] [X0] xf Xf s (fun t => [t]) [1]
              (fun t => [2 * (t * t)]) [4 * v] v k x1 X1 s1) as [B1 B2];
    try apply nabs_metric; try apply half_contracts; try reflexivity; try assumption; try lra.
  - intros x Hx. apply half_contracts.
  - intros x Hx. cbn [normd d exd]. rewrite nabs_dist by reflexivity. unfold d. cbn [Gt exd].
    rewrite Rminus_eq_0, Rabs_R0. lra.
  - intros t. unfold d. cbn [G exd]. unfold h1. cbn [nth]. f_equal. field.
  - intros [|i]; cbn [nth].
    + auto_derive; [trivial|ring].
    + destruct i; apply @is_derive_const.
  - intros [|i]; unfold d; cbn [nth G Gt exd]; unfold h1; cbn [nth].
    + auto_derive; [trivial|]. field.
    + destruct i; apply @is_derive_const.
  - destruct L1 as [O1 O2]. cbn [norm normd d exd eps epsd] in B1, B2.
    rewrite nabs_dist in B1 by (auto; reflexivity). rewrite nabs_dist in B2 by (auto; reflexivity).
    unfold h1 at 2 in B1. unfold h1 at 2 in B2. cbn [nth] in B1, B2.
    split; [eapply Rle_trans; [exact B1|]|eapply Rle_trans; [exact B2|]]; right; field.
Qed.

(* the reverse: the adjoint of u is 4 v times the weight, up to the tolerance *)
Lemma ex56_reverse_at e ed N Nd v x w U0 k ub : (length U0 >= 1)%nat ->
  fp_rev (exd e ed N Nd) (mkSub [x] [v]) 1 [w] U0 = (k, ub) -> (0 < k)%Z ->
  Rabs (ExtSpec.dotl ub [1] - 4 * v * w) <= 2 * Rabs v * (2 * ed).
Proof.
  intros LU E K. set (d := exd e ed N Nd) in *. set (s := mkSub [x] [v]) in *.
  assert (C : contracts (normd d) 1 one (rmap d s 1 [w]) (1 / 2)) by exact (half_contracts w).
  assert (L0 : one (firstn 1 U0)) by (unfold one; rewrite firstn_length; lia).
  pose proof (C56_reverse d 1 one (1/2) (2 * Rabs v) s [w] U0 [2 * w] [1] [4 * v] k ub
    nabs_metric C) as Q.
  assert (P : ExtSpec.dotl [w] [4 * v] = 4 * v * w) by (cbn; ring).
  rewrite P in Q. replace (2 * ed) with (epsd d / (1 - 1 / 2)) by (cbn; field).
  apply Q; try reflexivity; try assumption.
  - intros z. cbn. lia.
  - unfold rmap, s, d. cbn [Gr exd px pu firstn vadd]. unfold h1. cbn [nth]. f_equal. field.
  - intros z Hz. cbn [normd d exd]. rewrite nabs_dist by (auto; reflexivity).
    unfold s, d. cbn [Gr exd px pu skipn ExtSpec.dotl]. unfold h1. cbn [nth].
    replace (2 * v * nth 0 z 0 * 1 + 0 - (2 * v * (2 * w) * 1 + 0)) with (2 * v * (nth 0 z 0 - 2 * w)) by ring.
    rewrite !Rabs_mult, (Rabs_pos_eq 2) by lra. lra.
  - pose proof (Rabs_pos v). lra.
  - intros z X Hz HX. rewrite (one_form z Hz), (one_form X HX). unfold d, s.
    cbn [Gt Gr exd px pu firstn skipn ExtSpec.dotl]. unfold h1. cbn [nth]. field.
  - unfold d, s. cbn [Gt exd px pu]. unfold h1. cbn [nth]. f_equal. field.
Qed.

(* ---- where it fails ---- *)
(* Recorded at u = 1, swept with zos_forward at u = 3, then reversed: the sub tape
   still linearises at the recording, so the adjoint is 4 instead of 12. *)
Theorem C56_stale_refuted tape subt x0 w k xf w' k2 xu2 xf2 U0 k3 ub N Nd :
  let d := exd (1/100) (1/100) N Nd in
  fp_iteration tape subt d [x0] [1] w = (k, xf, w') -> (0 < k)%Z ->
  fp_zos d [x0] [3] = (k2, xu2, xf2) -> (0 < k2)%Z ->
  (length U0 >= 1)%nat ->
  fp_rev d (subs w' subt) 1 [1] U0 = (k3, ub) -> (0 < k3)%Z ->
  Rabs (h1 xf2 - 18) <= 1 / 50 /\ Rabs (ExtSpec.dotl ub [1] - 4) <= 1 / 20 /\
  is_derive (fun t => 2 * (t * t)) 3 12.
Proof.
  intros d E1 K1 E2 K2 LU E3 K3.
  assert (S1 : subs w' subt = mkSub xf [1]).
  { unfold fp_iteration in E1. rewrite last_last in E1. cbn [snd] in E1.
    destruct (iteration d [x0] [1]) as [[a b] c]. injection E1 as _ <- <-.
    cbn [subs]. unfold setn. now rewrite Nat.eqb_refl. }
  assert (Xf : exists x, xf = [x]).
  { unfold fp_iteration in E1. rewrite last_last in E1. cbn [snd] in E1.
    destruct (iteration d [x0] [1]) as [[a b] c] eqn:Ei. injection E1 as <- <- <-.
    unfold iteration in Ei. destruct (zloop_run _ _ _ _ _ _ _ Ei) as [(j & _ & _ & J & _)|(J & _)];
      cbn [fst snd] in J; [|lia]. rewrite J. cbn [iterate G d exd]. eexists. reflexivity. }
  destruct Xf as [x ->]. rewrite S1 in E3.
  split; [|split].
  - rewrite C56_zos in E2.
    destruct (C56_value d 1 one (1/2) [x0] [3] [18] k2 xu2 xf2) as [(j & J0 & _ & Q1 & Q2 & _)|(Q & _)];
      try apply nabs_metric; try apply half_contracts; try reflexivity; try assumption; try lia.
    + unfold d. cbn [G exd]. unfold h1. cbn [nth]. f_equal. field.
    + destruct j as [|j]; cbn [norm d exd eps] in Q2.
      * lia.
      * rewrite Q1 in *. cbn [iterate G d exd] in *. rewrite nabs_dist in Q2 by reflexivity.
        unfold h1 at 2 in Q2. cbn [nth] in Q2.
        replace (1 / 2 / (1 - 1 / 2) * (1 / 100)) with (1 / 100) in Q2 by field. 
        eapply Rle_trans; [exact Q2|lra].
  - pose proof (ex56_reverse_at _ _ _ _ _ _ _ _ _ _ LU E3 K3) as Q.
    rewrite Rabs_R1 in Q. replace (4 * 1 * 1) with 4 in Q by ring. lra.
  - auto_derive; [trivial|ring].
Qed.

(* the hypotheses of C56_stale_refuted are met, e.g. from x0 = 0 with 20 steps *)
Example stale_met tape subt w :
  let d := exd (1/100) (1/100) 20 20 in
  (0 < fst (fst (fp_iteration tape subt d [0%R] [1%R] w)))%Z /\
  (0 < fst (fst (fp_zos d [0%R] [3%R])))%Z /\
  (0 < fst (fp_rev d (mkSub [2%R] [1%R]) 1%nat [1%R] [0%R; 0%R]))%Z.
Proof.
  cbv zeta. split; [|split].
  - unfold fp_iteration. rewrite last_last. cbn [snd].
    destruct (iteration _ _ _) as [[k xu] xf] eqn:E. cbn [fst].
    pose proof (ex56_ends (1/100) 20 0 1) as Q. rewrite E in Q. cbn [fst] in Q. apply Q.
    replace (0 - 2 * (1 * 1)) with (- (2)) by ring. rewrite Rabs_Ropp, Rabs_pos_eq; lra.
  - rewrite C56_zos. apply ex56_ends. replace (0 - 2 * (3 * 3)) with (- (18)) by ring.
    rewrite Rabs_Ropp, Rabs_pos_eq; lra.
  - apply (C56_reverse_converges _ 1 one (1 / 2)); try apply nabs_metric; try exact (half_contracts 1);
      try reflexivity.
    + intros z. cbn. lia.
    + cbn. lia.
    + cbn. lia.
    + cbn [normd exd]. rewrite nabs_dist by reflexivity.
      unfold rmap. cbn [Gr exd px pu firstn vadd nmaxd epsd]. unfold h1. cbn [nth Nat.sub pow].
      replace (0 / 2 + 1 - 0) with 1 by field. rewrite Rabs_R1. lra.
Qed.

(* Two tapes: each numbers its external functions from 0, the table is common, so
   the second tape's sweeps run the first tape's iteration. *)
Theorem C56_two_tapes_refuted d1 d2 x1 u1 x2 u2 s1 s2 k1 xf1 w1 k2 xf2 w2 sb :
  fp_iteration 0 s1 d1 x1 u1 (mkW [] (fun _ => 0%nat) sb) = (k1, xf1, w1) ->
  fp_iteration 1 s2 d2 x2 u2 w1 = (k2, xf2, w2) ->
  count w1 1 = 0%nat /\ lookup w2 (count w1 1) = Some d1.
Proof.
  unfold fp_iteration. intros E1 E2. rewrite last_last in E1, E2. cbn [snd] in *.
  destruct (iteration d1 x1 u1) as [[a b] c]. injection E1 as _ _ <-.
  destruct (iteration d2 x2 u2) as [[a2 b2] c2]. injection E2 as _ _ <-. cbn. auto.
Qed.

(* N_max_deriv = 0 or 1: what uninitialised memory contained is added to the
   adjoints of u. *)
Theorem C56_uninitialised_refuted d s n xbar U0 : (nmaxd d <= 1)%nat ->
  fp_rev d s n xbar U0 = ((-1)%Z, skipn n U0).
Proof. intros H. unfold fp_rev. replace (nmaxd d - 1)%nat with 0%nat by lia. reflexivity. Qed.

(* An iteration that starts at its fixed point returns 1, and the outer sweep,
   which takes the minimum with its own code 3, then reports 1 ("a tie") for a
   smooth function. *)
Theorem C56_code_refuted e ed N Nd v : 0 < e -> (1 <= N)%nat ->
  fst (fst (fp_zos (exd e ed N Nd) [2 * (v * v)] [v])) = 1%Z /\ ExtModel.mindec 3 1 = 1%Z.
Proof.
  intros He HN. split; [|reflexivity]. unfold fp_zos. cbn [nmax exd]. destruct N as [|N]; [lia|].
  cbn [zloop G exd vsub norm eps]. unfold nabs, h1. cbn [nth].
  replace (2 * (v * v) / 2 + v * v - 2 * (v * v)) with 0 by field. rewrite Rabs_R0. unfold rlt.
  destruct (Rlt_dec 0 e); [reflexivity|lra].
Qed.

Print Assumptions C56_value.
Print Assumptions C56_converges.
Print Assumptions C56_zos.
Print Assumptions C56_tangent.
Print Assumptions C56_reverse.
Print Assumptions C56_reverse_converges.
Print Assumptions C56_registered.
Print Assumptions C56_kept_entry.
Print Assumptions C56_stale_refuted.
Print Assumptions C56_two_tapes_refuted.
Print Assumptions C56_uninitialised_refuted.
Print Assumptions C56_code_refuted.
