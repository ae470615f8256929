(* C21: one operation of hos_forward computes the Taylor coefficients of what
   zos_forward computes along a curve.                                     *)
From Coq Require Import List ZArith Bool Arith Lia Reals Lra.
From Coquelicot Require Import Coquelicot.
Require Import Verif.AdModel Verif.AdRecord Verif.AdSpec Verif.AdReplay Verif.AdRestore
  Verif.AdReal Verif.AdLin Verif.AdDeriv Verif.AdTangent
  Verif.HosModel Verif.HosSpec Verif.HosTay Verif.HosFun Verif.HosLoops.
Import ListNotations.
Set Implicit Arguments.
Unset Asymmetric Patterns.
Local Open Scope R_scope.

(* ------------------------------------------------------------------ *)
(* convolutions of joined rows *)
Lemma conv_joined u a v b i : conv (joined u a) (joined v b) (S i) =
  u * b i + a i * v + rsum i (fun j => a j * b (i - 1 - j)%nat).
Proof.
  rewrite conv_first. cbn [joined]. cbn [rsum]. rewrite Nat.sub_diag. cbn [joined].
  rewrite (@rsum_ext i (fun j => a j * joined v b (S i - S j)) (fun j => a j * b (i - 1 - j)%nat)); [ring|].
  intros j Hj. replace (S i - S j)%nat with (S (i - 1 - j)) by lia. reflexivity.
Qed.
Lemma conv_dj u a v b i : conv (dcoef (joined u a)) (joined v b) i =
  rnum i * a i * v + rsum i (fun j => rnum j * a j * b (i - 1 - j)%nat).
Proof.
  rewrite conv_last. unfold dcoef at 2. cbn [joined].
  rewrite (@rsum_ext i _ (fun j => rnum j * a j * b (i - 1 - j)%nat)).
  { unfold rnum. ring. }
  intros j Hj. unfold dcoef. replace (i - j)%nat with (S (i - 1 - j)) by lia. reflexivity.
Qed.
Lemma conv_dj' u a v b i : conv (dcoef (joined u a)) (joined v b) i =
  rnum i * a i * v + rsum i (fun j => b j * (rnum (i - 1 - j) * a (i - 1 - j)%nat)).
Proof.
  rewrite conv_dj. f_equal. rewrite rsum_rev. apply rsum_ext. intros j Hj.
  replace (i - 1 - (i - 1 - j))%nat with j by lia. ring.
Qed.
Lemma dcoef_joined u a i : dcoef (joined u a) i = rnum i * a i.
Proof. reflexivity. Qed.

(* ------------------------------------------------------------------ *)
(* Curves                                                               *)

Section Op.
Variables (k : nat) (s0 : R) (X : R -> nat -> R) (xc : nat -> nat -> R).
Hypothesis Hk : (0 < k)%nat.
Hypothesis HX : forall i, tay k (fun s => X s i) s0 (joined (X s0 i) (xc i)).

Lemma tay_d f a : tay k f s0 a -> is_derive f s0 (a 1%nat).
Proof. clear HX. destruct k; [lia|]. apply tay_der. Qed.
Lemma tay_c f a : tay k f s0 a -> continuous f s0.
Proof. clear HX. destruct k; [lia|]. apply tay_cont. Qed.

Definition tfollows (D : nat -> Prop) (Tm : R -> rmem) (C : rrows) : Prop :=
  forall l, D l -> tay k (fun s => Tm s l) s0 (joined (Tm s0 l) (C l)).

Lemma tf_sub (D D' : nat -> Prop) Tm C : (forall l, D' l -> D l) -> tfollows D Tm C -> tfollows D' Tm C.
Proof. intros H F l Hl. apply F, H, Hl. Qed.

Lemma tf_new D Tm (C C' : rrows) r (v : R -> R) :
  tfollows D Tm C -> (forall l j, l <> r -> C' l j = C l j) ->
  tay k v s0 (joined (v s0) (C' r)) ->
  tfollows (plusset D [r]) (fun s => @upd reals (Tm s) r (v s)) C'.
Proof.
  intros F N H l Hl. destruct (Nat.eq_dec l r) as [->|E].
  - eapply tay_ext; [|eapply tay_coef; [|exact H]].
    + intros s. cbv beta. now rewrite (@upd_eq reals).
    + intros i _. now rewrite (@upd_eq reals).
  - destruct Hl as [Hl|[->|[]]]; [|contradiction].
    eapply tay_ext; [|eapply tay_coef; [|apply (F l Hl)]].
    + intros s. cbv beta. now rewrite (@upd_neq reals).
    + intros [|i] _; cbn [joined]; [now rewrite (@upd_neq reals)|]. now rewrite N.
Qed.
Lemma tf_row D Tm (C C' : rrows) r y (v : R -> R) :
  tfollows D Tm C -> newrow k r C C' y -> tay k v s0 (joined (v s0) y) ->
  tfollows (plusset D [r]) (fun s => @upd reals (Tm s) r (v s)) C'.
Proof.
  intros F (A & B & E) H. eapply tf_new; eauto. eapply tay_coef; [|exact H].
  intros [|i] Hi; cbn [joined]; auto. now rewrite E.
Qed.
Lemma tf_keep D Tm (C : rrows) r (v : R -> R) :
  tfollows D Tm C -> tay k v s0 (joined (v s0) (C r)) ->
  tfollows (plusset D [r]) (fun s => @upd reals (Tm s) r (v s)) C.
Proof. intros F H. eapply tf_new; eauto. Qed.
Lemma tf_ext D Tm Tm' C : (forall s l, Tm s l = Tm' s l) -> tfollows D Tm' C -> tfollows D Tm C.
Proof.
  intros E F l Hl. eapply tay_ext; [|eapply tay_coef; [|apply F, Hl]].
  - intros s. symmetry. apply E.
  - intros [|i] _; cbn [joined]; auto.
Qed.
Lemma tf_if (c : R -> bool) D (T1 T2 : R -> rmem) C1 C2 :
  locally s0 (fun s => c s = c s0) -> tfollows D T1 C1 -> tfollows D T2 C2 ->
  tfollows D (fun s => if c s then T1 s else T2 s) (if c s0 then C1 else C2).
Proof.
  intros L A B l Hl. eapply tay_ext_loc with (f := fun s => if c s0 then T1 s l else T2 s l).
  - eapply filter_imp; [|exact L]. intros s ->. now destruct (c s0).
  - destruct (c s0); [now apply A|now apply B].
Qed.
Lemma tay_if (c : R -> bool) (f g : R -> R) a :
  locally s0 (fun s => c s = c s0) -> tay k (if c s0 then f else g) s0 a ->
  tay k (fun s => if c s then f s else g s) s0 a.
Proof.
  intros L A. eapply tay_ext_loc; [|exact A].
  eapply filter_imp; [|exact L]. intros s ->. now destruct (c s0).
Qed.
Lemma tay_const' (c : R) : tay k (fun _ => c) s0 (joined c (fun _ => 0)).
Proof. eapply tay_coef; [|apply tay_const]. now intros [|i] _. Qed.

Lemma tay_prod f g u a v b : tay k f s0 (joined u a) -> tay k g s0 (joined v b) ->
  tay k (fun s => f s * g s) s0
    (joined (u * v) (fun i => u * b i + a i * v + rsum i (fun j => a j * b (i - 1 - j)%nat))).
Proof.
  intros A B. eapply tay_coef; [|apply (@tay_mult k _ _ _ _ _ A B)]. intros [|i] _.
  - unfold conv. cbn. ring.
  - now rewrite conv_joined.
Qed.

(* vec_copy, vec_dot, vec_axpy, take_stock *)
Lemma hcopy_tf n : forall arg res q D Tm C,
  tfollows D Tm C -> (forall k, (k < n)%nat -> D (arg + q + k)%nat) ->
  tfollows (plusset D (seq (res + q) n)) (fun s => @vcopy reals n arg res q (Tm s))
          (@hcopy reals k n arg res q C).
Proof.
  induction n as [|n IH]; intros arg res q D Tm C F H; cbn [vcopy hcopy seq].
  - intros l [Hl|[]]; auto.
  - eapply tf_sub; [|apply IH with (D := plusset D [(res + q)%nat])].
    + intros l [Hl|[->|Hl]]; [left; now left|left; right; now left|].
      right. now replace (res + S q)%nat with (S (res + q)) by lia.
    + eapply tf_row; [exact F|apply row_spec|].
      * intros i C1 Hi E. apply E.
      * cbv beta. apply (F (arg + q)%nat). specialize (H 0%nat). rewrite Nat.add_0_r in H. apply H. lia.
    + intros j Hj. left. replace (arg + S q + j)%nat with (arg + q + S j)%nat by lia. apply H. lia.
Qed.
Lemma hdot_tf n : forall a1 a2 res q D Tm C T,
  tfollows D Tm C -> (forall l, Tm s0 l = T l) -> D res ->
  (forall k, (k < n)%nat -> D (a1 + q + k)%nat /\ D (a2 + q + k)%nat) ->
  tfollows D (fun s => @vdot reals n a1 a2 res q (Tm s)) (@hdot reals k n a1 a2 res q T C).
Proof.
  induction n as [|n IH]; intros a1 a2 res q D Tm C T F ET Hr H; cbn [vdot hdot].
  - auto.
  - destruct (H 0%nat) as [H1 H2]; [lia|]. rewrite Nat.add_0_r in H1, H2.
    apply IH.
    + eapply tf_sub; [|eapply tf_row with (D := D)]; [intros l Hl; now left|exact F|apply prow_add|].
      * intros i C1 Hi E. unfold lin. now rewrite !E.
      * cbv beta. eapply tay_coef; [|apply tay_plus; [apply F, Hr|apply tay_prod; [apply F, H1|apply F, H2]]].
        intros [|i] Hi; cbn [joined]; cbn; [ring|]. unfold lin. cbn. rewrite !ET. ring.
    + intros l. unfold upd. rewrite !ET. reflexivity.
    + auto.
    + intros j Hj. replace (a1 + S q + j)%nat with (a1 + q + S j)%nat by lia.
      replace (a2 + S q + j)%nat with (a2 + q + S j)%nat by lia. apply H. lia.
Qed.
Lemma haxpy_tf n : forall arg a1 a2 res q D Tm C T,
  tfollows D Tm C -> (forall l, Tm s0 l = T l) -> D arg ->
  (forall k, (k < n)%nat -> D (a1 + q + k)%nat /\ D (a2 + q + k)%nat) ->
  tfollows (plusset D (seq (res + q) n)) (fun s => @vaxpy reals n arg a1 a2 res q (Tm s))
          (@haxpy reals k n arg a1 a2 res q T C).
Proof.
  induction n as [|n IH]; intros arg a1 a2 res q D Tm C T F ET Hr H; cbn [vaxpy haxpy seq].
  - intros l [Hl|[]]; auto.
  - destruct (H 0%nat) as [H1 H2]; [lia|]. rewrite Nat.add_0_r in H1, H2.
    eapply tf_sub; [|apply IH with (D := plusset D [(res + q)%nat])].
    + intros l [Hl|[->|Hl]]; [left; now left|left; right; now left|].
      right. now replace (res + S q)%nat with (S (res + q)) by lia.
    + eapply tf_row; [exact F|apply prow_add|].
      * intros i C1 Hi E. unfold lin. now rewrite !E.
      * cbv beta. eapply tay_coef; [|apply tay_plus; [apply tay_prod; [apply F, Hr|apply F, H1]|apply F, H2]].
        intros [|i] Hi; cbn [joined]; cbn; [ring|]. unfold lin. cbn. rewrite !ET. ring.
    + intros l. unfold upd. rewrite !ET. reflexivity.
    + now left.
    + intros j Hj. replace (a1 + S q + j)%nat with (a1 + q + S j)%nat by lia.
      replace (a2 + S q + j)%nat with (a2 + q + S j)%nat by lia.
      destruct (H (S j)) as [A B]; [lia|]. split; now left.
Qed.
Lemma hstock_tf n : forall res d D Tm C,
  tfollows D Tm C ->
  tfollows (plusset D (seq res n)) (fun s => @stock reals n res d (Tm s)) (@hstock reals k n res C).
Proof.
  induction n as [|n IH]; intros res d D Tm C F; cbn [stock hstock seq].
  - intros l [Hl|[]]; auto.
  - eapply tf_sub; [|apply IH with (D := plusset D [res])].
    + intros l [Hl|[->|Hl]]; [left; now left|left; right; now left|now right].
    + eapply tf_row; [exact F|apply row_spec; reflexivity|]. apply tay_const'.
Qed.

Lemma hdom_loc f (x : R -> R) a : tay k x s0 a -> hdom f (x s0) -> locally s0 (fun s => hdom f (x s)).
Proof.
  intros H Hd. pose proof (@tay_c _ _ H) as C.
  destruct f; cbn [hdom] in *; try (apply filter_forall; auto; fail);
    try (apply (C (fun y => -1 < y < 1)); apply filter_and; [apply loc_gt|apply loc_lt]; lra).
  apply (C (fun y => 1 < y)). now apply loc_gt.
Qed.
Lemma floor_loc x : x <> Rfloor x -> locally x (fun t => Rfloor x = Rfloor t).
Proof.
  intros H. pose proof (floor_spec x) as [A B].
  apply (filter_imp (fun t => Rfloor x < t /\ t < Rfloor x + 1)).
  - intros t Ht. unfold Rfloor in *. f_equal. symmetry. apply floor_unique. lra.
  - apply filter_and; [apply loc_gt|apply loc_lt]; lra.
Qed.
Lemma ceil_loc x : x <> Rceil x -> locally x (fun t => Rceil x = Rceil t).
Proof.
  intros H. unfold Rceil in *. assert (N : - x <> Rfloor (- x)) by lra.
  pose proof (@floor_loc (- x) N) as L.
  assert (Ct : continuous Ropp x).
  { apply (@ex_derive_continuous R_AbsRing R_NormedModule). exists (-1).
    eapply der_eq; [apply (@d_opp (fun t => t)), d_id|ring]. }
  pose proof (Ct _ L) as L2. unfold filtermap in L2. revert L2.
  apply filter_imp. intros t Ht. now rewrite Ht.
Qed.
Lemma hspecial_none f v a1 res (C : rrows) : (forall d, help_special reals f v d = None) ->
  @hspecial reals k f v a1 res C = None.
Proof.
  intros H. specialize (H 0). destruct f; cbn in *; auto;
    repeat match goal with |- context [if ?e then _ else _] => destruct e end; auto; discriminate.
Qed.

Ltac trd F R := apply F; apply R; cbn [In]; auto 6.
Ltac tt F R := lazymatch goal with
  | |- tay _ (fun s => @?a s + @?b s) _ _ => apply (@tay_plus k a b)
  | |- tay _ (fun s => @?a s - @?b s) _ _ => apply (@tay_minus k a b)
  | |- tay _ (fun s => @?a s * @?b s) _ _ => apply (@tay_prod a b)
  | |- tay _ (fun s => - @?a s) _ _ => apply (@tay_opp k a)
  | |- tay _ (fun s => X s ?a) _ _ => apply HX
  | |- tay _ (fun s => ?Tm s ?a) _ _ => trd F R
  | |- tay _ (fun s => ?c) _ _ => apply tay_const'
  end.
(* rows of linear and product operations *)
Lemma rsum_0l i (f : nat -> R) : rsum i (fun j => 0 * f j) = 0.
Proof. apply rsum_zero. intros; ring. Qed.
Lemma rsum_0r i (f : nat -> R) : rsum i (fun j => f j * 0) = 0.
Proof. apply rsum_zero. intros; ring. Qed.
Ltac same := intros ? ? ? E; unfold lin; cbn; rewrite ?E; reflexivity.
Ltac lins F R :=
  cbv beta; eapply tay_coef; [|repeat tt F R];
  intros [|i'] Hi'; cbn [joined]; unfold lin; cbn [add sub mul neg zero one reals];
  rewrite ?rsum_0l, ?rsum_0r; first [reflexivity|ring].

Lemma op_tay ps i (b : bop reals) D Tm C :
  tfollows D Tm C -> (forall l, In l (breads b) -> D l) ->
  helper_ok b -> locally s0 (fun s => helper_val b (Tm s)) ->
  match b with HelpOp _ _ _ a2 _ => D a2 | _ => True end -> apart b ->
  smooth b (Tm s0) (@zval reals ps (X s0) i b (Tm s0)) -> hfail k b = false ->
  tfollows (plusset D (bwrites b)) (fun s => @zval reals ps (X s) i b (Tm s))
          (@hval reals k ps (X s0) xc i b (Tm s0) C).
Proof.
  intros F HR Ho Hv HD2 Ha Sm Hfail.
  destruct b; cbn [breads bwrites smooth helper_ok helper_val apart] in HR, Ho, Hv, HD2, Ha, Sm;
    cbn [bwrites zval hval]; try contradiction.
  all: try (eapply tf_sub; [|exact F]; intros l [Hl|[]]; exact Hl).
  all: cbn [zero one two three half add sub mul dvd neg vabs vceil vfloor fn vpow eqb ltb leb reals].
  all: try (eapply tf_row; [exact F|apply row_spec; same|]; lins F HR).
  all: try (apply tf_keep; [exact F|]; lins F HR).
  all: try (eapply tf_row; [exact F|apply prow_add; same|]; lins F HR).
  all: try (eapply tf_row; [exact F|apply prow_sub; same|]; lins F HR).
  - (* a1 / a2 *) pose proof (F a1 (HR a1 ltac:(cbn; auto))) as F1.
    pose proof (F a2 (HR a2 ltac:(cbn; auto))) as F2. rewrite (@upd_eq reals).
    match goal with |- context [@divrow reals k res a2 ?d ?f C] =>
      destruct (@divrow_spec k res a2 d f C) as (E1 & E2 & E3) end; [same|].
    eapply tf_new; [exact F|exact E1|]. cbv beta.
    eapply (@tay_div k (fun s => Tm s a1) (fun s => Tm s a2)); [exact F1|exact F2|exact Sm|].
    intros [|j] Hj; [unfold conv; cbn; field; exact Sm|].
    rewrite conv_joined. cbn [joined]. rewrite E3 at 1 by lia. cbv beta.
    rewrite (@rsum_ext j (fun j0 => _ * (- C a2 (j - 1 - j0)%nat * (1 / Tm s0 a2)))
      (fun j0 => - (1 / Tm s0 a2) * (@divrow reals k res a2 (1 / Tm s0 a2)
      (fun (i : nat) (C : rows reals) =>
       C a1 i * (1 / Tm s0 a2) +
       Tm s0 a1 / Tm s0 a2 * (- C a2 i * (1 / Tm s0 a2))) C res j0 * C a2 (j - 1 - j0)%nat)))
      by (intros; cbn; ring).
    rewrite rsum_scal. cbn. field. exact Sm.
  - pose proof (F arg (HR arg ltac:(cbn; auto))) as F2. rewrite (@upd_eq reals).
    match goal with |- context [@divrow reals k res arg ?d ?f C] =>
      destruct (@divrow_spec k res arg d f C) as (E1 & E2 & E3) end; [same|].
    eapply tf_new; [exact F|exact E1|]. cbv beta.
    eapply (@tay_div k (fun s => c) (fun s => Tm s arg)); [apply tay_const'|exact F2|exact Sm|].
    intros [|j] Hj; [unfold conv; cbn; field; exact Sm|].
    rewrite conv_joined. cbn [joined]. rewrite E3 at 1 by lia. cbv beta.
    rewrite (@rsum_ext j (fun j0 => _ * (- C arg (j - 1 - j0)%nat * (1 / Tm s0 arg)))
      (fun j0 => - (1 / Tm s0 arg) * (@divrow reals k res arg (1 / Tm s0 arg)
      (fun (i : nat) (C : rows reals) =>
       c / Tm s0 arg * (- C arg i * (1 / Tm s0 arg))) C res j0 * C arg (j - 1 - j0)%nat)))
      by (intros; cbn; ring).
    rewrite rsum_scal. cbn. field. exact Sm.
  - (* exp *) pose proof (F arg (HR arg ltac:(cbn; auto))) as F1. rewrite (@upd_eq reals). cbn [Rfn].
    match goal with |- context [@exprow reals k arg res ?v C] =>
      destruct (@exprow_spec k arg res v C) as (E1 & E2 & E3) end.
    eapply tf_new; [exact F|exact E1|]. cbv beta.
    apply (@tay_exp k (fun s => Tm s arg) s0 _ _ F1); [reflexivity|].
    intros j Hj. rewrite conv_dj', dcoef_joined. rewrite E3 at 1 by lia. cbn.
    pose proof (rnum_nz j). field; auto.
  - (* sin *) destruct Ha as [Na Nr]. pose proof (F a1 (HR a1 ltac:(cbn; auto))) as F1.
    rewrite (@upd_eq reals), (@upd_neq reals _ _ _ _ Nr), (@upd_eq reals), !(@upd_neq reals _ a2 a1) by auto.
    cbn [Rfn].
    apply (@tf_sub (plusset (plusset D [a2]) [res])).
    { intros l [Hl|[Hl|Hl]]; [left; now left|left; right; now left|now right]. }
    eapply tf_ext; [intros s l; rewrite (@upd_neq reals _ a2 a1) by auto; reflexivity|].
    match goal with |- context [@trigrow reals k a1 a2 res ?f ?g ?o ?p C] =>
      destruct (@trigrow_spec k a1 a2 res (- Rtrigo_def.sin (Tm s0 a1)) (cos (Tm s0 a1)) (-1) 1 f g o p C) as [E1 E3];
        [intros; reflexivity|intros; reflexivity|intros; ring|intros; ring|exact Na|exact Nr|];
      set (C' := @trigrow reals k a1 a2 res f g o p C) in * end.
    destruct (@tay_sincos k (fun s => Tm s a1) s0 _ (joined (Rtrigo_def.sin (Tm s0 a1)) (C' res))
               (joined (cos (Tm s0 a1)) (C' a2)) F1) as [S1 S2]; try reflexivity.
    { intros j Hj. rewrite conv_dj', dcoef_joined. destruct (E3 j Hj) as [-> _].
      pose proof (rnum_nz j). field; auto. }
    { intros j Hj. rewrite conv_dj', dcoef_joined. destruct (E3 j Hj) as [_ ->].
      pose proof (rnum_nz j). field; auto. }
    eapply (@tf_new _ _ (fun l j => if (l =? res)%nat then C l j else C' l j));
      [eapply tf_new; [exact F| |]| |].
    + intros l j N. destruct (Nat.eqb_spec l res) as [->|N2]; auto.
    + apply Nat.eqb_neq in Nr. rewrite Nr. exact S2.
    + intros l j N. apply Nat.eqb_neq in N. now rewrite N.
    + exact S1.
  - (* cos *) destruct Ha as [Na Nr]. pose proof (F a1 (HR a1 ltac:(cbn; auto))) as F1.
    rewrite (@upd_eq reals), (@upd_neq reals _ _ _ _ Nr), (@upd_eq reals), !(@upd_neq reals _ a2 a1) by auto.
    cbn [Rfn].
    apply (@tf_sub (plusset (plusset D [a2]) [res])).
    { intros l [Hl|[Hl|Hl]]; [left; now left|left; right; now left|now right]. }
    eapply tf_ext; [intros s l; rewrite (@upd_neq reals _ a2 a1) by auto; reflexivity|].
    match goal with |- context [@trigrow reals k a1 a2 res ?f ?g ?o ?p C] =>
      destruct (@trigrow_spec k a1 a2 res (cos (Tm s0 a1)) (- Rtrigo_def.sin (Tm s0 a1)) 1 (-1) f g o p C) as [E1 E3];
        [intros; reflexivity|intros; reflexivity|intros; ring|intros; ring|exact Na|exact Nr|];
      set (C' := @trigrow reals k a1 a2 res f g o p C) in * end.
    destruct (@tay_sincos k (fun s => Tm s a1) s0 _ (joined (Rtrigo_def.sin (Tm s0 a1)) (C' a2))
               (joined (cos (Tm s0 a1)) (C' res)) F1) as [S1 S2]; try reflexivity.
    { intros j Hj. rewrite conv_dj', dcoef_joined. destruct (E3 j Hj) as [_ ->].
      pose proof (rnum_nz j). field; auto. }
    { intros j Hj. rewrite conv_dj', dcoef_joined. destruct (E3 j Hj) as [-> _].
      pose proof (rnum_nz j). field; auto. }
    eapply (@tf_new _ _ (fun l j => if (l =? res)%nat then C l j else C' l j));
      [eapply tf_new; [exact F| |]| |].
    + intros l j N. destruct (Nat.eqb_spec l res) as [->|N2]; auto.
    + apply Nat.eqb_neq in Nr. rewrite Nr. exact S1.
    + intros l j N. apply Nat.eqb_neq in N. now rewrite N.
    + exact S2.
  - (* helper functions *) destruct Sm as [Hd Hs]. cbn [zval fn reals] in Hs.
    rewrite (@hspecial_none f _ a1 res C Hs).
    pose proof (F a1 (HR a1 ltac:(cbn; auto))) as F1. pose proof (F a2 HD2) as F2.
    rewrite (@upd_neq reals) by auto.
    match goal with |- context [@helprow reals k a1 a2 res ?v C] =>
      destruct (@helprow_spec k a1 a2 res v C Ha) as (E1 & E2 & E3) end.
    eapply tf_new; [exact F|exact E1|]. cbv beta.
    eapply (@tay_prim k (Rfn f) (fun s => Tm s a1) (fun s => Tm s a2) s0 _ _ _ F1).
    + intros n En. eapply tay_le; [|exact F2]. lia.
    + intros _. generalize (filter_and _ _ Hv (@hdom_loc f _ _ F1 Hd)). apply filter_imp.
      intros s [Q1 Q2]. rewrite Q1. now apply help_der.
    + reflexivity.
    + intros j Hj. rewrite conv_dj', dcoef_joined. rewrite E3 at 1 by lia. cbn.
      pose proof (rnum_nz j). field; auto.
  - (* log *) pose proof (F arg (HR arg ltac:(cbn; auto))) as F1. rewrite Req_no by lra. cbn [andb Rfn].
    match goal with |- context [@logrow reals k arg res ?v C] =>
      destruct (@logrow_spec k arg res v C) as (E1 & E2 & E3) end.
    eapply tf_new; [exact F|exact E1|]. cbv beta.
    apply (@tay_log k (fun s => Tm s arg) s0 _ _ F1); [exact Sm|reflexivity|].
    intros j Hj. rewrite conv_dj, dcoef_joined. rewrite E3 at 1 by lia.
    rewrite (@rsum_ext j (fun j0 => C arg (j - 1 - j0)%nat * _ * _ * _)
      (fun j0 => 1 / Tm s0 arg * (rnum j0 * @logrow reals k arg res (1 / Tm s0 arg) C res j0 * C arg (j - 1 - j0)%nat)))
      by (intros; cbn; ring).
    rewrite rsum_scal. cbn. pose proof (rnum_nz j). field. split; auto. lra.
  - (* pow *) pose proof (F arg (HR arg ltac:(cbn; auto))) as F1.
    assert (N0 : Tm s0 arg <> 0) by (destruct Sm; lra).
    rewrite Req_no by auto. rewrite (@upd_eq reals).
    match goal with |- context [@powrow reals k arg res ?v c ?r C] =>
      destruct (@powrow_spec k arg res v c r C) as (E1 & E2 & E3) end.
    eapply tf_new; [exact F|exact E1|]. cbv beta.
    apply (@tay_pow k (fun s => Tm s arg) s0 c _ _ F1); [exact Sm|reflexivity|].
    intros j Hj. rewrite conv_dj, conv_dj'. rewrite E3 at 1 by lia.
    match goal with |- context [@powrow reals k arg res ?v c ?r C] =>
      set (C' := @powrow reals k arg res v c r C) in * end.
    rewrite (@rsum_ext j (fun j0 => C' res j0 * _ * _)
      (fun j0 => 1 / Tm s0 arg * (c * (C' res j0 * (rnum (j - 1 - j0) * C arg (j - 1 - j0)%nat))
                + (-1) * (rnum j0 * C' res j0 * C arg (j - 1 - j0)%nat)))).
    2:{ intros j0 Hj0. unfold rnum. replace (S (j - 1 - j0)) with (j - j0)%nat by lia.
        rewrite minus_INR, (S_INR j0) by lia. ring. }
    rewrite rsum_scal, rsum_plus, !rsum_scal. pose proof (rnum_nz j). field. split; auto.
  - (* sqrt *) pose proof (F arg (HR arg ltac:(cbn; auto))) as F1. cbn [Rfn].
    assert (P : 0 < sqrt (Tm s0 arg)) by now apply sqrt_lt_R0.
    rewrite Req_no by (unfold upd; destruct (arg =? res)%nat; cbn; lra). rewrite (@upd_eq reals).
    match goal with |- context [@sqrtrow reals k arg res ?v C] =>
      destruct (@sqrtrow_spec k arg res v C) as (E1 & E2 & E3) end.
    eapply tf_new; [exact F|exact E1|]. cbv beta.
    apply (@tay_sqrt k (fun s => Tm s arg) s0 _ _ F1); [exact Sm|reflexivity|].
    intros [|j] Hj; [unfold conv; cbn; rewrite Rplus_0_l; apply sqrt_def; lra|].
    rewrite conv_joined. cbn [joined]. rewrite (E3 j) by lia.
    set (w := sqrt (Tm s0 arg)) in *. field. lra.
  - (* cbrt *) cbn in Hfail. destruct k; [lia|discriminate].
  - (* min *) eapply tf_row; [exact F|apply row_spec; intros ? ? ? E; apply E|]. cbv beta.
    unfold vmin, minarg. cbn [ltb reals].
    destruct Sm as [Sm| <-].
    + eapply tay_ext with (f := fun s => if Rltb 0 (Tm s a1 - Tm s a2) then Tm s a2 else Tm s a1).
      { intros s. unfold Rltb.
        destruct (Rlt_dec 0 (Tm s a1 - Tm s a2)), (Rlt_dec (Tm s a2) (Tm s a1)); auto; lra. }
      apply tay_if.
      { assert (Hd : is_derive (fun s => Tm s a1 - Tm s a2) s0 (C a1 0%nat - C a2 0%nat)).
        { apply d_minus; [apply (@tay_d (fun s => Tm s a1) _ (F a1 (HR a1 ltac:(cbn; auto))))
                         |apply (@tay_d (fun s => Tm s a2) _ (F a2 (HR a2 ltac:(cbn; auto))))]. }
        apply (@loc_gtb s0 (fun s => Tm s a1 - Tm s a2) _ Hd). intros E. apply Sm. lra. }
      unfold Rltb.
      destruct (Rlt_dec 0 (Tm s0 a1 - Tm s0 a2)), (Rlt_dec (Tm s0 a2) (Tm s0 a1)),
        (Rlt_dec (Tm s0 a1) (Tm s0 a2)); try lra; trd F HR.
    + assert (Q : forall s, (if Rltb (Tm s a1) (Tm s a1) then Tm s a1 else Tm s a1) = Tm s a1).
      { intros s. now destruct (Rltb (Tm s a1) (Tm s a1)). }
      rewrite Q. eapply tay_ext; [intros s; symmetry; apply Q|].
      eapply tay_coef; [|apply (F a1), HR; cbn; auto].
      intros [|j] Hj; cbn [joined]; auto.
      assert (Z : forall n q, (fix go n i0 : nat := match n with
          | 0%nat => a1
          | S n' => if Rltb (C a1 i0) (C a1 i0) then a1
                    else if Rltb (C a1 i0) (C a1 i0) then a1 else go n' (S i0)
          end) n q = a1).
      { induction n; intros q; auto. destruct (Rltb (C a1 q) (C a1 q)); auto. }
      rewrite Z. now destruct (Rltb (Tm s0 a1) (Tm s0 a1)).
  - (* abs *) pose proof (F arg (HR arg ltac:(cbn; auto))) as F1.
    eapply tf_row; [exact F|now apply absrow_spec|]. cbv beta.
    assert (Hd := @tay_d (fun s => Tm s arg) _ F1). unfold Rltb.
    destruct (Rlt_dec (Tm s0 arg) 0) as [L|L].
    + eapply tay_ext_loc with (f := fun s => (-1) * Tm s arg).
      * generalize (@loc_neg s0 (fun s => Tm s arg) _ Hd L). apply filter_imp. intros s Hs.
        cbv beta in Hs. rewrite Rabs_left by auto. ring.
      * eapply tay_coef; [|apply tay_scal, F1]. intros [|j] _; cbn [joined]; auto.
        rewrite Rabs_left by auto. ring.
    + eapply tay_ext_loc with (f := fun s => Tm s arg).
      * assert (L' : 0 < Tm s0 arg) by lra.
        generalize (@loc_pos s0 (fun s => Tm s arg) _ Hd L'). apply filter_imp. intros s Hs.
        cbv beta in Hs. rewrite Rabs_right by lra. ring.
      * eapply tay_coef; [|exact F1]. intros [|j] _; cbn [joined]; [|ring].
        rewrite Rabs_right by lra. ring.
  - (* ceil *) pose proof (F arg (HR arg ltac:(cbn; auto))) as F1.
    eapply tf_row; [exact F|apply row_spec; reflexivity|]. cbv beta.
    eapply tay_ext_loc with (f := fun s => Rceil (Tm s0 arg)); [|apply tay_const'].
    pose proof (@tay_c _ _ F1) as Ct. apply (Ct (fun y => Rceil (Tm s0 arg) = Rceil y)).
    now apply ceil_loc.
  - (* floor *) pose proof (F arg (HR arg ltac:(cbn; auto))) as F1.
    eapply tf_row; [exact F|apply row_spec; reflexivity|]. cbv beta.
    eapply tay_ext_loc with (f := fun s => Rfloor (Tm s0 arg)); [|apply tay_const'].
    pose proof (@tay_c _ _ F1) as Ct. apply (Ct (fun y => Rfloor (Tm s0 arg) = Rfloor y)).
    now apply floor_loc.
  - (* condassign *)
    eapply tf_row; [exact F|apply row_spec; intros ? ? ? E; apply E|]. cbv beta.
    apply (@tay_if (fun s => Rltb 0 (Tm s arg))).
    { eapply (@loc_gtb s0 (fun s => Tm s arg)); [|exact Sm].
      apply (@tay_d (fun s => Tm s arg) _ (F arg (HR arg ltac:(cbn; auto)))). }
    destruct (Rltb 0 (Tm s0 arg)); trd F HR.
  - eapply tf_row; [exact F|apply row_spec; intros ? ? ? E; apply E|]. cbv beta.
    apply (@tay_if (fun s => Rleb 0 (Tm s arg))).
    { eapply (@loc_geb s0 (fun s => Tm s arg)); [|exact Sm].
      apply (@tay_d (fun s => Tm s arg) _ (F arg (HR arg ltac:(cbn; auto)))). }
    destruct (Rleb 0 (Tm s0 arg)); trd F HR.
  - apply (@tf_if (fun s => Rltb 0 (Tm s arg))).
    + eapply (@loc_gtb s0 (fun s => Tm s arg)); [|exact Sm].
      apply (@tay_d (fun s => Tm s arg) _ (F arg (HR arg ltac:(cbn; auto)))).
    + eapply tf_row; [exact F|apply row_spec; same|]. lins F HR.
    + eapply tf_sub; [|exact F]. intros l [Hl|[->|[]]]; auto. apply HR. cbn; auto.
  - apply (@tf_if (fun s => Rleb 0 (Tm s arg))).
    + eapply (@loc_geb s0 (fun s => Tm s arg)); [|exact Sm].
      apply (@tay_d (fun s => Tm s arg) _ (F arg (HR arg ltac:(cbn; auto)))).
    + eapply tf_row; [exact F|apply row_spec; same|]. lins F HR.
    + eapply tf_sub; [|exact F]. intros l [Hl|[->|[]]]; auto. apply HR. cbn; auto.
  - replace res with (res + 0)%nat at 1 by lia. apply hcopy_tf; auto.
    intros j Hj. apply HR, in_seq. lia.
  - eapply tf_sub; [|apply hdot_tf with (D := plusset D [res])].
    + auto.
    + eapply tf_row; [exact F|apply row_spec; reflexivity|apply tay_const'].
    + reflexivity.
    + right. now left.
    + intros j Hj. split; left; apply HR, in_or_app; [left|right]; apply in_seq; lia.
  - replace res with (res + 0)%nat at 1 by lia. apply haxpy_tf; auto.
    + apply HR. now left.
    + intros j Hj. split; apply HR; right; apply in_or_app; [left|right]; apply in_seq; lia.
  - now apply hstock_tf.
Qed.
End Op.
