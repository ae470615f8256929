(* C14: one operation of fos_forward computes the derivative of what zos_forward
   computes.                                                              *)
From Coq Require Import List ZArith Bool Arith Lia Reals Lra.
From Coquelicot Require Import Coquelicot.
Require Import Verif.AdModel Verif.AdRecord Verif.AdSpec Verif.AdReplay Verif.AdRestore
  Verif.AdReal Verif.AdLin Verif.AdDeriv.
Import ListNotations.
Set Implicit Arguments.
Unset Asymmetric Patterns.
Local Open Scope R_scope.

(* ------------------------------------------------------------------ *)
(* Specification: where an operation is differentiable.                  *)

(* the open domain of the functions atan .. erfc, and their derivative *)
Definition hdom (f : fname) (v : R) : Prop :=
  match f with
  | Fasin | Facos | Fatanh => -1 < v < 1
  | Facosh => 1 < v
  | _ => True
  end.
Definition hder (f : fname) (v : R) : R :=
  match f with
  | Fatan => / (1 + v * v)
  | Fasin => / sqrt (1 - v * v)
  | Facos => - / sqrt (1 - v * v)
  | Fasinh => / sqrt (v * v + 1)
  | Facosh => / sqrt (v * v - 1)
  | Fatanh => / (1 - v * v)
  | Ferf => 2 / sqrt (acos (-1)) * exp (- v * v)
  | Ferfc => - (2 / sqrt (acos (-1)) * exp (- v * v))
  | _ => 0
  end.

(* T / T': values before and after the operation.  No comparison with zero at
   zero, no kink, no pole, no tie. *)
Definition smooth (b : bop reals) (T T' : rmem) : Prop :=
  match b with
  | Cmp _ _ a => T a <> 0
  | DivAA _ _ a2 _ => T a2 <> 0
  | DivDA _ a _ _ => T a <> 0
  | LogOp _ a _ | SqrtOp _ a _ => 0 < T a
  | PowOp _ a _ c => 0 < T a \/ (T a < 0 /\ c = Rfloor c)
  | CbrtOp _ a _ => T a <> 0
  | HelpOp _ f a1 _ _ => hdom f (T a1) /\ forall d, help_special reals f (T' a1) d = None
  | GenQuad _ _ _ _ _ _ | SetRef _ _ _ => False
  | MinOp _ a1 a2 _ _ => T a1 <> T a2 \/ a1 = a2
  | AbsVal _ a _ _ => T a <> 0
  | CeilOp _ a _ _ => T a <> Rceil (T a)
  | FloorOp _ a _ _ => T a <> Rfloor (T a)
  | CondAssign _ a _ _ _ _ | CondEqAssign _ a _ _ _ _
  | CondAssignS _ a _ _ _ | CondEqAssignS _ a _ _ _ => T a <> 0
  | _ => True
  end.

(* ------------------------------------------------------------------ *)

Section Op.
Variables (s0 : R) (X : R -> nat -> R) (xd : nat -> R).
Hypothesis HX : forall i, is_derive (fun s => X s i) s0 (xd i).

Definition follows (D : nat -> Prop) (Tm : R -> rmem) (Dm : rmem) : Prop :=
  forall l, D l -> is_derive (fun s => Tm s l) s0 (Dm l).
Definition plusset (D : nat -> Prop) (s : list nat) : nat -> Prop := fun l => D l \/ In l s.

Lemma follows_sub (D D' : nat -> Prop) Tm Dm : (forall l, D' l -> D l) ->
  follows D Tm Dm -> follows D' Tm Dm.
Proof. intros H F l Hl. apply F, H, Hl. Qed.

Lemma follows_upd D Tm Dm r (v : R -> R) (d : R) :
  follows D Tm Dm -> is_derive v s0 d ->
  follows (plusset D [r]) (fun s => @upd reals (Tm s) r (v s)) (@upd reals Dm r d).
Proof.
  intros F H l [Hl|[->|[]]]; unfold upd.
  - destruct (l =? r)%nat eqn:E; auto.
  - rewrite Nat.eqb_refl. auto.
Qed.

Lemma follows_keep D Tm Dm r (v : R -> R) :
  follows D Tm Dm -> is_derive v s0 (Dm r) ->
  follows (plusset D [r]) (fun s => @upd reals (Tm s) r (v s)) Dm.
Proof.
  intros F H l [Hl|[->|[]]]; unfold upd.
  - destruct (l =? r)%nat eqn:E; auto. apply Nat.eqb_eq in E. now subst.
  - rewrite Nat.eqb_refl. auto.
Qed.
Lemma follows_ext D Tm Tm' Dm : (forall s l, Tm s l = Tm' s l) ->
  follows D Tm' Dm -> follows D Tm Dm.
Proof.
  intros E F l Hl. eapply is_derive_ext; [|apply F, Hl]. intros t. now rewrite E.
Qed.
Lemma follows_if (c : R -> bool) D (T1 T2 : R -> rmem) D1 D2 :
  locally s0 (fun s => c s = c s0) -> follows D T1 D1 -> follows D T2 D2 ->
  follows D (fun s => if c s then T1 s else T2 s) (if c s0 then D1 else D2).
Proof.
  intros L A B l Hl. eapply der_loc with (g := fun s => if c s0 then T1 s l else T2 s l).
  - eapply filter_imp; [|exact L]. intros s ->. now destruct (c s0).
  - destruct (c s0); [now apply A|now apply B].
Qed.

Lemma vcopy_follows n : forall arg res q D Tm Dm,
  follows D Tm Dm -> (forall k, (k < n)%nat -> D (arg + q + k)%nat) ->
  follows (plusset D (seq (res + q) n)) (fun s => @vcopy reals n arg res q (Tm s))
          (@tcopy reals n arg res q Dm).
Proof.
  induction n as [|n IH]; intros arg res q D Tm Dm F H; cbn [vcopy tcopy seq].
  - intros l [Hl|[]]; auto.
  - eapply follows_sub; [|apply IH with (D := plusset D [(res + q)%nat])].
    + intros l [Hl|[->|Hl]]; [left; now left|left; right; now left|].
      right. now replace (res + S q)%nat with (S (res + q)) by lia.
    + apply follows_upd with (v := fun s => Tm s (arg + q)%nat); auto.
      apply F. specialize (H 0%nat). rewrite Nat.add_0_r in H. apply H. lia.
    + intros k Hk. left. replace (arg + S q + k)%nat with (arg + q + S k)%nat by lia. apply H. lia.
Qed.

Lemma vdot_follows n : forall a1 a2 res q D Tm Dm T,
  follows D Tm Dm -> (forall l, Tm s0 l = T l) -> D res ->
  (forall k, (k < n)%nat -> D (a1 + q + k)%nat /\ D (a2 + q + k)%nat) ->
  follows D (fun s => @vdot reals n a1 a2 res q (Tm s)) (@tdot reals n a1 a2 res q T Dm).
Proof.
  induction n as [|n IH]; intros a1 a2 res q D Tm Dm T F ET Hr H; cbn [vdot tdot].
  - auto.
  - destruct (H 0%nat) as [H1 H2]; [lia|]. rewrite Nat.add_0_r in H1, H2.
    apply IH.
    + eapply follows_sub; [|apply follows_upd with (D := D)]; [intros l Hl; now left|auto|].
      eapply der_eq.
      { apply d_plus; [apply F, Hr|]. apply d_mult; [apply F, H1|apply F, H2]. }
      cbn. rewrite !ET. ring.
    + intros l. unfold upd. rewrite !ET. reflexivity.
    + auto.
    + intros k Hk. replace (a1 + S q + k)%nat with (a1 + q + S k)%nat by lia.
      replace (a2 + S q + k)%nat with (a2 + q + S k)%nat by lia. apply H. lia.
Qed.

Lemma vaxpy_follows n : forall arg a1 a2 res q D Tm Dm T,
  follows D Tm Dm -> (forall l, Tm s0 l = T l) -> D arg ->
  (forall k, (k < n)%nat -> D (a1 + q + k)%nat /\ D (a2 + q + k)%nat) ->
  follows (plusset D (seq (res + q) n)) (fun s => @vaxpy reals n arg a1 a2 res q (Tm s))
          (@taxpy reals n arg a1 a2 res q T Dm).
Proof.
  induction n as [|n IH]; intros arg a1 a2 res q D Tm Dm T F ET Hr H; cbn [vaxpy taxpy seq].
  - intros l [Hl|[]]; auto.
  - destruct (H 0%nat) as [H1 H2]; [lia|]. rewrite Nat.add_0_r in H1, H2.
    eapply follows_sub; [|apply IH with (D := plusset D [(res + q)%nat])].
    + intros l [Hl|[->|Hl]]; [left; now left|left; right; now left|].
      right. now replace (res + S q)%nat with (S (res + q)) by lia.
    + apply follows_upd; auto.
      eapply der_eq.
      { apply d_plus; [|apply F, H2]. apply d_mult; [apply F, Hr|apply F, H1]. }
      cbn. rewrite !ET. ring.
    + intros l. unfold upd. rewrite !ET. reflexivity.
    + now left.
    + intros k Hk. replace (a1 + S q + k)%nat with (a1 + q + S k)%nat by lia.
      replace (a2 + S q + k)%nat with (a2 + q + S k)%nat by lia.
      destruct (H (S k)) as [A B]; [lia|]. split; now left.
Qed.

Lemma stock_follows n : forall res d D Tm Dm,
  follows D Tm Dm ->
  follows (plusset D (seq res n)) (fun s => @stock reals n res d (Tm s)) (@tzero reals n res Dm).
Proof.
  induction n as [|n IH]; intros res d D Tm Dm F; cbn [stock tzero seq].
  - intros l [Hl|[]]; auto.
  - eapply follows_sub; [|apply IH with (D := plusset D [res])].
    + intros l [Hl|[->|Hl]]; [left; now left|left; right; now left|now right].
    + apply follows_upd; auto. apply d_const.
Qed.

(* the sign of a continuous quantity is kept nearby *)
Lemma loc_pos (f : R -> R) (d : R) : is_derive f s0 d -> 0 < f s0 -> locally s0 (fun s => 0 < f s).
Proof.
  intros Hd Hp. assert (C : continuous f s0) by (apply (@ex_derive_continuous R_AbsRing R_NormedModule); eexists; exact Hd).
  apply (C (fun y => 0 < y)). now apply loc_gt.
Qed.
Lemma loc_neg (f : R -> R) (d : R) : is_derive f s0 d -> f s0 < 0 -> locally s0 (fun s => f s < 0).
Proof.
  intros Hd Hp. assert (C : continuous f s0) by (apply (@ex_derive_continuous R_AbsRing R_NormedModule); eexists; exact Hd).
  apply (C (fun y => y < 0)). now apply loc_lt.
Qed.
Lemma d_if (c : R -> bool) (f g : R -> R) (a b : R) :
  locally s0 (fun s => c s = c s0) -> is_derive f s0 a -> is_derive g s0 b ->
  is_derive (fun s => if c s then f s else g s) s0 (if c s0 then a else b).
Proof.
  intros L A B. eapply der_loc with (g := fun s => if c s0 then f s else g s).
  - eapply filter_imp; [|exact L]. intros s ->. reflexivity.
  - destruct (c s0); auto.
Qed.
Lemma loc_gtb (f : R -> R) d : is_derive f s0 d -> f s0 <> 0 ->
  locally s0 (fun s => Rltb 0 (f s) = Rltb 0 (f s0)).
Proof.
  intros Hd Hn. destruct (Rtotal_order (f s0) 0) as [L|[L|L]]; [|contradiction|].
  - eapply filter_imp; [|apply (@loc_neg f d Hd L)]. intros s Hs. unfold Rltb.
    destruct (Rlt_dec 0 (f s)), (Rlt_dec 0 (f s0)); auto; lra.
  - eapply filter_imp; [|apply (@loc_pos f d Hd L)]. intros s Hs. unfold Rltb.
    destruct (Rlt_dec 0 (f s)), (Rlt_dec 0 (f s0)); auto; lra.
Qed.
Lemma loc_geb (f : R -> R) d : is_derive f s0 d -> f s0 <> 0 ->
  locally s0 (fun s => Rleb 0 (f s) = Rleb 0 (f s0)).
Proof.
  intros Hd Hn. destruct (Rtotal_order (f s0) 0) as [L|[L|L]]; [|contradiction|].
  - eapply filter_imp; [|apply (@loc_neg f d Hd L)]. intros s Hs. unfold Rleb.
    destruct (Rle_dec 0 (f s)), (Rle_dec 0 (f s0)); auto; lra.
  - eapply filter_imp; [|apply (@loc_pos f d Hd L)]. intros s Hs. unfold Rleb.
    destruct (Rle_dec 0 (f s)), (Rle_dec 0 (f s0)); auto; lra.
Qed.

Lemma help_der f v : is_helper f = true -> hdom f v -> is_derive (Rfn f) v (hder f v).
Proof.
  intros H Hd; destruct f; try discriminate; cbn [hdom hder] in *.
  - apply der_atan. - now apply der_asin. - now apply der_acos. - apply der_asinh.
  - now apply der_acosh. - now apply der_atanh. - apply der_erf. - apply der_erfc.
Qed.

Lemma Req_no a : a <> 0 -> Reqb a 0 = false.
Proof. intros H. unfold Reqb. destruct (Req_EM_T a 0); auto; contradiction. Qed.

Lemma cbrt_nz v : v <> 0 -> Rcbrt v <> 0.
Proof.
  intros H. unfold Rcbrt. destruct (Rlt_dec 0 v); [|destruct (Rlt_dec v 0); [|lra]].
  - apply Rgt_not_eq, exp_pos.
  - pose proof (exp_pos (/ 3 * ln (- v))). unfold Rpower. lra.
Qed.

(* helper functions are functions of is_helper names *)
Definition helper_ok (b : bop reals) : Prop :=
  match b with HelpOp _ f _ _ _ => is_helper f = true | _ => True end.
(* the helper variable holds the derivative *)
Definition helper_val (b : bop reals) (T : rmem) : Prop :=
  match b with HelpOp _ f a1 a2 _ => T a2 = hder f (T a1) | _ => True end.
Definition apart (b : bop reals) : Prop :=
  match b with SinOp _ a1 a2 r | CosOp _ a1 a2 r => a2 <> a1 /\ a2 <> r
             | HelpOp _ f a1 a2 r => a2 <> r | _ => True end.

Ltac rd F R := apply F; apply R; cbn [In]; auto 6.
Ltac dd F R := lazymatch goal with
  | |- is_derive (fun s => @?a s + @?b s) _ _ => apply (@d_plus a b)
  | |- is_derive (fun s => @?a s - @?b s) _ _ => apply (@d_minus a b)
  | |- is_derive (fun s => @?a s * @?b s) _ _ => apply (@d_mult a b)
  | |- is_derive (fun s => - @?a s) _ _ => apply (@d_opp a)
  | |- is_derive (fun s => X s ?a) _ _ => apply HX
  | |- is_derive (fun s => ?Tm s ?a) _ _ => rd F R
  | |- is_derive (fun s => ?c) _ _ => apply d_const
  end.

Lemma op_deriv ps i (b : bop reals) D Tm Dm :
  follows D Tm Dm -> (forall l, In l (breads b) -> D l) ->
  helper_ok b -> helper_val b (Tm s0) -> apart b ->
  smooth b (Tm s0) (@zval reals ps (X s0) i b (Tm s0)) ->
  follows (plusset D (bwrites b)) (fun s => @zval reals ps (X s) i b (Tm s))
          (@tval reals ps (X s0) xd i b (Tm s0) Dm).
Proof.
  intros F HR Ho Hv Ha Sm.
  destruct b; cbn [breads bwrites smooth helper_ok helper_val apart] in HR, Ho, Hv, Ha, Sm;
    cbn [bwrites zval tval]; try contradiction.
  all: try (eapply follows_sub; [|exact F]; intros l [Hl|[]]; exact Hl).
  all: try (apply follows_upd; [exact F|]).
  all: cbn [zero one two three half add sub mul dvd neg vabs vceil vfloor fn vpow eqb ltb leb reals].
  1-6,8,10-12,15-22,25-26: (eapply der_eq; [repeat dd F HR | first [reflexivity| ring]]).
  1-4: (eapply follows_keep; [exact F|]; eapply der_eq; [repeat dd F HR | ring]).
  - (* a1 / a2 *) rewrite upd_eq.
    eapply der_eq; [apply d_div; [rd F HR|rd F HR|exact Sm]|]. cbv beta. field. exact Sm.
  - rewrite upd_eq.
    eapply der_eq; [apply d_div; [apply d_const|rd F HR|exact Sm]|]. cbv beta. field. exact Sm.
  - (* exp *) rewrite upd_eq.
    eapply der_eq; [apply (@d_comp exp); [rd F HR|apply der_exp]|]. reflexivity.
  - (* sin *) destruct Ha as [Na Nr].
    rewrite (@upd_eq reals), (@upd_neq reals _ _ _ _ Nr), (@upd_eq reals), !(@upd_neq reals _ a2 a1) by auto.
    cbn [Rfn].
    apply (@follows_sub (plusset (plusset D [a2]) [res])).
    { intros l [Hl|[Hl|Hl]]; [left; now left|left; right; now left|now right]. }
    eapply follows_ext; [intros s l; rewrite (@upd_neq reals _ a2 a1) by auto; reflexivity|].
    apply follows_upd; [apply follows_upd; [exact F|]|].
    + eapply der_eq; [apply (@d_comp cos); [rd F HR|apply der_cos]|]. reflexivity.
    + eapply der_eq; [apply (@d_comp Rtrigo_def.sin); [rd F HR|apply der_sin]|]. reflexivity.
  - destruct Ha as [Na Nr].
    rewrite (@upd_eq reals), (@upd_neq reals _ _ _ _ Nr), (@upd_eq reals), !(@upd_neq reals _ a2 a1) by auto.
    cbn [Rfn].
    apply (@follows_sub (plusset (plusset D [a2]) [res])).
    { intros l [Hl|[Hl|Hl]]; [left; now left|left; right; now left|now right]. }
    eapply follows_ext; [intros s l; rewrite (@upd_neq reals _ a2 a1) by auto; reflexivity|].
    apply follows_upd; [apply follows_upd; [exact F|]|].
    + eapply der_eq; [apply (@d_comp Rtrigo_def.sin); [rd F HR|apply der_sin]|]. reflexivity.
    + eapply der_eq; [apply (@d_comp cos); [rd F HR|apply der_cos]|]. reflexivity.
  - (* helper functions *) destruct Sm as [Hd Hs]. cbn [zval fn reals] in Hs. rewrite Hs.
    apply follows_upd; [exact F|]. rewrite (@upd_neq reals) by auto.
    eapply der_eq; [apply (@d_comp (Rfn f)); [rd F HR|apply help_der; eauto]|]. cbn. now rewrite Hv.
  - (* log *) rewrite Req_no by lra. cbn [andb].
    eapply der_eq; [apply (@d_comp ln); [rd F HR|now apply der_ln]|]. field. lra.
  - (* pow *) rewrite Req_no by (destruct Sm; lra).
    apply follows_upd; [exact F|]. rewrite (@upd_eq reals).
    eapply der_eq; [apply (@d_comp (fun t => Rvpow t c)); [rd F HR|now apply der_vpow]|].
    field. destruct Sm; lra.
  - (* sqrt *) unfold root_factor. cbn [eqb reals zero mul].
    assert (P : 0 < sqrt (Tm s0 arg)) by now apply sqrt_lt_R0.
    rewrite (@upd_eq reals).
    rewrite Req_no by (unfold upd; destruct (arg =? res)%nat; cbn; lra).
    eapply der_eq; [apply (@d_comp sqrt); [rd F HR|now apply der_sqrt]|].
    cbn. field. lra.
  - (* cbrt *) unfold root_factor. cbn [eqb reals zero mul].
    pose proof (cbrt_nz Sm) as P.
    rewrite !(@upd_eq reals).
    rewrite Req_no by (unfold upd; destruct (arg =? res)%nat; cbn; auto).
    eapply der_eq; [apply (@d_comp Rcbrt); [rd F HR|now apply der_cbrt]|].
    reflexivity.
  - (* min *) unfold vmin. cbn [ltb reals].
    destruct Sm as [Sm| <-].
    + eapply der_loc with (g := fun s => if Rltb 0 (Tm s a1 - Tm s a2) then Tm s a2 else Tm s a1).
      { apply filter_forall. intros s. unfold Rltb.
        destruct (Rlt_dec 0 (Tm s a1 - Tm s a2)), (Rlt_dec (Tm s a2) (Tm s a1)); auto; lra. }
      eapply der_eq.
      { apply d_if; [|rd F HR|rd F HR].
        apply (@loc_gtb (fun s => Tm s a1 - Tm s a2) (Dm a1 - Dm a2)).
        - apply d_minus; rd F HR.
        - intros E. apply Sm. lra. }
      cbv beta. unfold Rltb.
      destruct (Rlt_dec 0 (Tm s0 a1 - Tm s0 a2)), (Rlt_dec (Tm s0 a2) (Tm s0 a1)),
        (Rlt_dec (Tm s0 a1) (Tm s0 a2)); auto; lra.
    + eapply der_loc with (g := fun s => Tm s a1).
      { apply filter_forall. intros s. now destruct (Rltb (Tm s a1) (Tm s a1)). }
      eapply der_eq; [rd F HR|].
      destruct (Rltb (Tm s0 a1) (Tm s0 a1)), (Rltb (Dm a1) (Dm a1)); auto.
  - (* abs *) rewrite !(@Req_no (Tm s0 arg) Sm). unfold lt0. cbn [ltb reals zero].
    eapply der_eq; [apply (@d_comp Rabs); [rd F HR|now apply der_abs]|].
    unfold Rltb. destruct (Rlt_dec (Tm s0 arg) 0); rewrite Req_no by lra; reflexivity.
  - eapply der_eq; [apply (@d_comp Rceil); [rd F HR|now apply der_ceil]|]. ring.
  - eapply der_eq; [apply (@d_comp Rfloor); [rd F HR|now apply der_floor]|]. ring.
  - apply (@d_if (fun s => Rltb 0 (Tm s arg))); [|rd F HR|rd F HR].
    apply (@loc_gtb (fun s => Tm s arg) (Dm arg)); auto. rd F HR.
  - apply (@d_if (fun s => Rleb 0 (Tm s arg))); [|rd F HR|rd F HR].
    apply (@loc_geb (fun s => Tm s arg) (Dm arg)); auto. rd F HR.
  - apply (@follows_if (fun s => Rltb 0 (Tm s arg))).
    + apply (@loc_gtb (fun s => Tm s arg) (Dm arg)); auto. rd F HR.
    + apply follows_upd; [exact F|rd F HR].
    + eapply follows_sub; [|exact F]. intros l [Hl|[->|[]]]; auto. apply HR. cbn; auto.
  - apply (@follows_if (fun s => Rleb 0 (Tm s arg))).
    + apply (@loc_geb (fun s => Tm s arg) (Dm arg)); auto. rd F HR.
    + apply follows_upd; [exact F|rd F HR].
    + eapply follows_sub; [|exact F]. intros l [Hl|[->|[]]]; auto. apply HR. cbn; auto.
  - replace res with (res + 0)%nat at 1 by lia. apply vcopy_follows; auto.
    intros k Hk. apply HR, in_seq. lia.
  - eapply follows_sub; [|apply vdot_follows with (D := plusset D [res])].
    + auto.
    + apply follows_upd; [exact F|apply d_const].
    + reflexivity.
    + right. now left.
    + intros k Hk. split; left; apply HR, in_or_app; [left|right]; apply in_seq; lia.
  - replace res with (res + 0)%nat at 1 by lia. apply vaxpy_follows; auto.
    + apply HR. now left.
    + intros k Hk. split; apply HR; right; apply in_or_app; [left|right]; apply in_seq; lia.
  - now apply stock_follows.
Qed.
End Op.
