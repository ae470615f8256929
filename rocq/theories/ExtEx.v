(* C55: a program meeting the hypotheses, and where the guards are needed. *)
From Coq Require Import List Arith Lia ZArith Reals Lra Bool FunctionalExtensionality.
From Coquelicot Require Import Coquelicot.
From Verif Require Import ExtModel ExtSpec ExtProps.
Import ListNotations.
Open Scope R_scope.

(* y = x^2, with a function that uses ADOL-C inside and spoils the outer values *)
Definition sqf : edf := mkEdf
  (fun x y => (x, [nth 0 x 0 * nth 0 x 0], 0%Z))
  (fun x y => (x, [nth 0 x 0 * nth 0 x 0], 0%Z))
  (fun x X y Y => (x, X, [nth 0 x 0 * nth 0 x 0], [2 * nth 0 x 0 * nth 0 X 0]))
  (fun u z x y => ([nth 0 z 0 + 2 * nth 0 x 0 * nth 0 u 0], x, [77]))
  (fun _ _ => 13) true true true.

Lemma sqf_contract : contract sqf.
Proof. repeat split; cbn; intros; congruence. Qed.

Definition mulE (r a b : nat) : elem := mkE r [a; b]
  (fun v => nth 0 v 0 * nth 1 v 0) (fun v => [nth 1 v 0; nth 0 v 0]).

Lemma mulE_ok r a b (v : list R) : length v = 2%nat -> elem_ok (mulE r a b) v.
Proof.
  intros L c d s0 Hc _ Ld M. subst v. rewrite L in Ld.
  destruct d as [|d0 [|d1 [|]]]; try discriminate. cbn -[nth].
  change (fst (nth 1 (c s0) 0, d0)) with (nth 1 (c s0) 0).
  eapply (fun P Q => eq_ind _ (fun z => is_derive _ s0 z) P _ Q).
  - apply (@is_derive_mult R_AbsRing _ _ s0 d0 d1 (M 0%nat) (M 1%nat)). intros. apply Rmult_comm.
  - change (@eq R (d0 * nth 1 (c s0) 0 + nth 0 (c s0) 0 * d1)
                  (nth 1 (c s0) 0 * d0 + (nth 0 (c s0) 0 * d1 + 0))). ring.
Qed.

(* x in cell 0: b := x*x; y := ext(b); b := y*b; y := ext(b)   (y = x^12) *)
Definition exP : list stmt :=
  [Op (mulE 1 0 0); Call 0 1 1 1 2; Op (mulE 1 2 1); Call 0 1 1 1 2].
Definition exF : nat -> edf := fun _ => sqf.

Lemma sqf_tangent a b : tangent_ok sqf [a] [b].
Proof.
  intros cx cy X Y s0 Hx Hy Lx Ly LX LY MX MY. cbn [cfos cfun sqf].
  destruct X as [|X0 [|]]; try discriminate.
  split; [reflexivity|]. split; cbn [fst snd].
  - exact MX.
  - intros [|i].
    + cbn [nth]. eapply (fun P Q => eq_ind _ (fun z => is_derive _ s0 z) P _ Q).
      * apply (@is_derive_mult R_AbsRing _ _ s0 X0 X0 (MX 0%nat) (MX 0%nat)). intros. apply Rmult_comm.
      * rewrite Hx. change (@eq R (X0 * a + a * X0) (2 * a * X0)). ring.
    + destruct i; cbn [nth]; apply @is_derive_const.
Qed.

Lemma sqf_adjoint a b : adjoint_ok sqf [a] [b].
Proof.
  intros u z X Y Lu Lz LX LY. cbn [cfos cfun crev sqf].
  destruct u as [|u0 [|]]; try discriminate. destruct z as [|z0 [|]]; try discriminate.
  destruct X as [|X0 [|]]; try discriminate.
  cbn. repeat split; auto. ring.
Qed.

Lemma sqf_at T a b : tangent_ok sqf (rd T a 1) (rd T b 1).
Proof. exact (sqf_tangent (T a) (T b)). Qed.
Lemma sqf_back T a b : adjoint_ok sqf (rd T a 1) (rd T b 1).
Proof. exact (sqf_adjoint (T a) (T b)). Qed.

Example exP_meets T :
  (forall e, contract (exF e)) /\ one_place exP /\ List.Forall disjoint_call exP /\
  smooth_run exF exP T /\ adjoint_run exF 3 exP T /\
  plain exF exP T 2%nat = T 0%nat ^ 12.
Proof.
  split; [intros; apply sqf_contract|]. split.
  { intros e n xa m ya n' xa' m' ya' H H'. cbn in H, H'.
    repeat match goal with
    | H : _ \/ _ |- _ => destruct H
    | H : Op _ = _ |- _ => discriminate
    | H : Call _ _ _ _ _ = _ |- _ => injection H; clear H; intros; subst
    | H : False |- _ => destruct H
    end; auto. }
  split; [repeat constructor; cbn; lia|]. split; [|split].
  - cbn [smooth_run exP].
    split; [apply mulE_ok; reflexivity|]. split; [apply sqf_at|].
    split; [apply mulE_ok; reflexivity|]. split; [apply sqf_at|exact I].
  - cbn [adjoint_run exP].
    split; [split; [cbn; lia|repeat constructor; cbn; lia]|].
    split; [do 3 (split; [cbn; lia || reflexivity|]); apply sqf_back|].
    split; [split; [cbn; lia|repeat constructor; cbn; lia]|].
    split; [do 3 (split; [cbn; lia || reflexivity|]); apply sqf_back|exact I].
  - cbn [plain fold_left exP plain1 exF sqf cfun mulE eres eargs eval_ map nth rd seq].
    unfold wr, put. cbn. ring.
Qed.

(* the gradient x^12 -> 12 x^11, through C55_gradient, for any recording point *)
Example exP_gradient T0 E0 k0 k (x : R) :
  let T := fun i => if (i =? 0)%nat then x else 5 in
  let A := fun i => if (i =? 2)%nat then 1 else 0 in
  let r := record exF exP (mkR T0 E0 [] k0) in
  let s := zos exF (rE r) (rtape r) (mkF T k 3%Z) in
  let b := fosrev exF (rE r) (rtape r) (mkB (fT s) A (fk s)) in
  bA b 0%nat = 12 * x ^ 11.
Proof. cbv zeta. cbn. unfold wr, put, unkeep, kcall, estep, put, values, rd, wr. cbn. ring. Qed.

(* ---- one function called on two sets of variables ---- *)
Definition twoP : list stmt := [Call 0 1 0 1 2; Call 0 1 1 1 3].

(* The program computes cells 2 and 3 from cells 0 and 1. The replay computes
   cell 3 twice and never cell 2, and the derivative of cell 2 is lost. *)
Theorem C55_two_places_refuted :
  (forall e, contract (exF e)) /\ List.Forall disjoint_call twoP /\
  forall T0 E0 k0 T k (A : mem),
    let r := record exF twoP (mkR T0 E0 [] k0) in
    let s := zos exF (rE r) (rtape r) (mkF T k 3%Z) in
    let b := fosrev exF (rE r) (rtape r) (mkB (fT s) A (fk s)) in
    plain exF twoP T 2%nat = T 0%nat * T 0%nat /\
    fT s 2%nat = T 2%nat /\
    bA b 0%nat = A 0%nat.
Proof.
  split; [intros; apply sqf_contract|]. split; [repeat constructor; cbn; lia|].
  intros. cbv zeta. split; [|split]; reflexivity.
Qed.

(* ---- inputs and outputs in the same variables ---- *)
(* y = 2 x *)
Definition doubles (f : edf) : Prop :=
  (forall x y, cfun f x y = (x, map (Rmult 2) x, 0%Z)) /\
  (forall x X y Y, cfos f x X y Y = (x, X, map (Rmult 2) x, map (Rmult 2) X)).

(* the weight on cell 0 that the reverse sweep should produce, by the dot-product
   identity for tangents of cell 0 *)
Definition reverse_right (f : edf) (s : stmt) (T A : mem) (N : nat) : Prop :=
  let E := fun _ => match s with Call _ _ xa _ ya => mkS xa ya | Op _ => mkS 0 0 end in
  let F := fun _ => f in
  let z := zos F E [erase1 s] (mkF T [] 3%Z) in
  let b := fosrev F E [erase1 s] (mkB (fT z) A (fk z)) in
  forall D, dot N (bA b) D = dot N A (snd (fos F E [erase1 s] (T, D))).

(* No reverse callback that goes by the values of its arguments serves both
   call_ext_fct(edf, 1, &a, 1, &b) and the in-place call_ext_fct(edf, 1, &a, 1, &a). *)
Theorem C55_in_place_refuted f : doubles f -> (forall x y, czos f x y = cfun f x y) ->
  ~ ((forall T A, reverse_right f (Call 0 1 0 1 1) T A 2) /\
     (forall T A, reverse_right f (Call 0 1 0 1 0) T A 1)).
Proof.
  intros [Hf Ht] Hz [S I].
  set (Z0 := fun _ : nat => 0). 
  specialize (S Z0 (fun _ => 1) (fun i => if (i =? 0)%nat then 1 else 0)).
  specialize (I Z0 (fun _ => 1) (fun _ => 1)).
  unfold fosrev, zos, fos, dot in S, I.
  cbn [erase1 rev app fold_left zstep fT fk frc find fdep bstep bT bA bk fstep] in S, I.
  rewrite Hz, Hf, Ht in S, I.
  cbn [rd seq map] in S, I. unfold Z0 in S, I. 
  assert (Q1 : forall T' v, (if (1 <=? 0)%nat && (0 <? 1 + 1)%nat then v else T') = T' :> R) by reflexivity.
  cbn [fT fk bT bA bk] in S, I.
  unfold wr at 1 in I. 
  repeat (unfold wr, rd in S, I; cbn in S, I).
  replace (2 * 0) with 0 in S, I by ring.
  destruct (crev f [1] [1] [0] [0]) as [[z xr] yr].
  destruct (unkeep (yprior f) _ 1 1 _) as [T1 k1] in S.
  destruct (unkeep (xchanges f) T1 0 1 k1) as [T2 k2] in S.
  destruct (unkeep (yprior f) _ 0 1 _) as [T3 k3] in I.
  destruct (unkeep (xchanges f) T3 0 1 k3) as [T4 k4] in I.
  cbn in S, I. lra.
Qed.

(* ... and with the integer-array interface an in-place call returns the zero
   adjoint whatever the callback does. *)
Theorem C55_iarr_in_place_refuted f xa n T A i : (xa <= i < xa + n)%nat ->
  bstep_iarr f xa n xa n T A i = 0.
Proof.
  intros H. unfold bstep_iarr. destruct (crev f _ _ _ _) as [[z xr] yr].
  rewrite wr_in by assumption. apply nth_zeros.
Qed.

(* A callback that computes z = u^T J, as the header says (externfcts.h:197-199),
   instead of adding to z, loses what later operations contributed to x. *)
Definition owf : edf := mkEdf (cfun sqf) (czos sqf) (cfos sqf)
  (fun u z x y => ([2 * nth 0 x 0 * nth 0 u 0], x, y)) (ctrash sqf) true true true.

Theorem C55_overwriting_refuted : contract owf /\
  forall T0 E0 k0 k (x : R),
  let p := [Call 0 1 0 1 1; Op (mulE 1 1 0)] in   (* x * x^2 *)
  let F := fun _ : nat => owf in
  let T := fun i => if (i =? 0)%nat then x else 5 in
  let A := fun i => if (i =? 1)%nat then 1 else 0 in
  let r := record F p (mkR T0 E0 [] k0) in
  let s := zos F (rE r) (rtape r) (mkF T k 3%Z) in
  let b := fosrev F (rE r) (rtape r) (mkB (fT s) A (fk s)) in
  plain F p T 1%nat = x ^ 3 /\ bA b 0%nat = 2 * x ^ 2.
Proof.
  split; [repeat split; cbn; intros; congruence|]. intros. split.
  - cbn. unfold put, rd, wr. cbn. ring.
  - unfold b, s, r, A, T, F, p. cbn. unfold wr, put, unkeep, kcall, estep, put, values, rd, wr. cbn. ring.
Qed.

Print Assumptions C55_recording.
Print Assumptions C55_replay.
Print Assumptions C55_tangent.
Print Assumptions C55_reverse.
Print Assumptions C55_gradient.
Print Assumptions C55_two_places_refuted.
Print Assumptions C55_in_place_refuted.
Print Assumptions C55_iarr_in_place_refuted.
Print Assumptions C55_overwriting_refuted.
