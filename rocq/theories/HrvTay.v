(* C43: the adjoint rows are Taylor coefficients of the adjoints along the curve. *)
From Coq Require Import List ZArith Bool Arith Lia Reals Lra FunctionalExtensionality.
From Coquelicot Require Import Coquelicot.
Require Import Verif.AdModel Verif.AdRecord Verif.AdSpec Verif.AdReplay Verif.AdRestore
  Verif.AdReal Verif.AdLin Verif.AdReverse Verif.AdTidy Verif.AdDeriv Verif.AdTangent
  Verif.HosModel Verif.HosSpec Verif.HosTay Verif.HosFun Verif.HosLoops Verif.HosProofs
  Verif.HrvModel Verif.HrvLoops Verif.HrvOp Verif.HrvRow.
Import ListNotations.
Set Implicit Arguments.
Unset Asymmetric Patterns.
Local Open Scope R_scope.

Section Tay.
Variables (eps : R) (d : nat) (s0 : R).
Hypothesis Hd : (0 < d)%nat.
Hypothesis He : 0 <= eps.

Definition goodw (t : (nat -> R) * nat) (w : (R -> R) * nat) : Prop :=
  snd t = snd w /\ tay d (fst w) s0 (fst t).
Definition wat (s : R) (w : (R -> R) * nat) : R * nat := (fst w s, snd w).

Lemma tay_cst c : tay d (fun _ => c) s0 (cst c).
Proof. apply tay_const. Qed.

Lemma fterms_tay b D (Tm Tm' : R -> rmem) (C C' : rrows) :
  tfollows d s0 D Tm C -> tfollows d s0 (plusset D (bwrites b)) Tm' C' ->
  (forall l, In l (breads b) -> D l) ->
  match b with HelpOp _ _ _ a2 _ => D a2 | _ => True end ->
  smooth b (Tm s0) (Tm' s0) -> rok eps b (Tm s0) ->
  (forall a r, b = SqrtOp reals a r -> 0 < Tm' s0 r) ->
  match rterms (S d) b (jr (Tm s0) C) (jr (Tm' s0) C') with
  | None => forall s, fterms b (Tm s) (Tm' s) = None
  | Some (res, ts) => exists ws, Forall2 goodw ts ws /\
      locally s0 (fun s => fterms b (Tm s) (Tm' s) = Some (res, map (wat s) ws))
  end.
Proof.
  intros F F' HR HA Sm Rk Sq.
  assert (V : forall a, In a (breads b) -> tay d (fun s => Tm s a) s0 (jr (Tm s0) C a)) by (intros a Ha; apply F; auto).
  assert (V' : forall a, In a (bwrites b) -> tay d (fun s => Tm' s a) s0 (jr (Tm' s0) C' a)) by (intros a Ha; apply F'; right; auto).
  assert (INV : forall c a, In a (breads b) -> Tm s0 a <> 0 -> tay d (fun s => c / Tm s a) s0 (@recipr_ reals (S d) c (jr (Tm s0) C a))).
  { intros c a Ha Nz. eapply tay_div; [apply tay_cst|apply V; exact Ha|exact Nz|].
    intros i Hi. apply recipr_conv; [exact Nz|lia]. }
  destruct b; cbn [rterms fterms deriv_terms]; auto; cbn [rok] in Rk; try contradiction; cbn [smooth] in Sm; try contradiction;
    cbn [breads bwrites] in *.
  all: try (exists []; split; [constructor|apply filter_forall; reflexivity]; fail).
  (* constant weights and values *)
  Ltac gw V V' := repeat constructor; cbn [fst snd]; first [reflexivity | apply tay_cst | apply V; cbn; auto; fail | apply V'; cbn; auto; fail | apply tay_opp; apply V; cbn; auto; fail | apply tay_opp; apply V'; cbn; auto; fail].
  all: try (match goal with |- exists ws, Forall2 _ [(cst ?c1, ?a1)] _ /\ locally _ (fun s => Some (_, [_]) = _) =>
     exists [((fun _ => c1), a1)]; split; [gw V V'|apply filter_forall; reflexivity] end; fail).
  all: try (match goal with |- exists ws, Forall2 _ [(cst ?c1, ?a1); (cst ?c2, ?a2)] _ /\ _ =>
     exists [((fun _ => c1), a1); ((fun _ => c2), a2)]; split; [gw V V'|apply filter_forall; reflexivity] end; fail).
  - exists [((fun s => Tm s arg), res); ((fun s => Tm s res), arg)]; split; [gw V V'|apply filter_forall; reflexivity].
  - exists [((fun s => Tm s a2), a1); ((fun s => Tm s a1), a2)]; split; [gw V V'|apply filter_forall; reflexivity].
  - exists [((fun s => 1), res); ((fun s => Tm s a2), a1); ((fun s => Tm s a1), a2)]; split; [gw V V'|apply filter_forall; reflexivity].
  - exists [((fun s => 1), res); ((fun s => - Tm s a2), a1); ((fun s => - Tm s a1), a2)]; split; [gw V V'|apply filter_forall; reflexivity].
  - exists [((fun s => / Tm s a2), a1); ((fun s => - Tm' s res * / Tm s a2), a2)]; split; [|apply filter_forall; reflexivity].
    assert (I1 : tay d (fun s => / Tm s a2) s0 (@recipr_ reals (S d) 1 (jr (Tm s0) C a2))).
    { eapply tay_ext; [|apply INV; [cbn; auto|exact Sm]]. intros s. cbv beta. unfold Rdiv. ring. }
    repeat constructor; cbn [fst snd]; [exact I1|].
    eapply tay_ext with (f := fun s => - (/ Tm s a2 * Tm' s res)); [intros s; ring|].
    apply tay_opp. apply tay_mult; [exact I1|apply V'; cbn; auto].
  - exists [((fun s => - Tm' s res * / Tm s arg), arg)]; split; [|apply filter_forall; reflexivity].
    assert (I1 : tay d (fun s => / Tm s arg) s0 (@recipr_ reals (S d) 1 (jr (Tm s0) C arg))).
    { eapply tay_ext; [|apply INV; [cbn; auto|exact Sm]]. intros s. cbv beta. unfold Rdiv. ring. }
    repeat constructor; cbn [fst snd].
    eapply tay_ext with (f := fun s => - (/ Tm s arg * Tm' s res)); [intros s; ring|].
    apply tay_opp. apply tay_mult; [exact I1|apply V'; cbn; auto].
  - exists [((fun s => Tm' s res), arg)]; split; [gw V V'|apply filter_forall; reflexivity].
  - exists [((fun s => Tm' s a2), a1)]; split; [gw V V'|apply filter_forall; reflexivity].
  - exists [((fun s => - Tm' s a2), a1)]; split; [gw V V'|apply filter_forall; reflexivity].
  - exists [((fun s => Tm s a2), a1)]; split; [|apply filter_forall; reflexivity].
    repeat constructor; cbn [fst snd]. apply F; exact HA.
  - exists [((fun s => / Tm s arg), arg)]; split; [|apply filter_forall; reflexivity].
    repeat constructor; cbn [fst snd]. eapply tay_ext; [|apply INV; [cbn; auto|lra]]. intros s. cbv beta. unfold Rdiv. ring.
  - assert (Nz : Tm s0 arg <> 0).
    { intros E. rewrite E, Rabs_R0 in Rk. lra. }
    exists [((fun s => Tm' s res / Tm s arg * c), arg)]; split.
    + repeat constructor; cbn [fst snd].
      eapply tay_ext with (f := fun s => c * (Tm' s res / Tm s arg)); [intros s; ring|].
      eapply tay_coef; [|apply tay_scal]. { intros i _. cbv beta. apply Rmult_comm. }
      eapply tay_div; [apply V'; cbn; auto|apply V; cbn; auto|exact Nz|].
      intros i Hi. apply divide_conv; [exact Nz|lia].
    + pose proof (@tay_d d s0 Hd _ _ (V arg ltac:(cbn; auto))) as Dv.
      assert (L : locally s0 (fun s => Tm s arg <> 0)).
      { destruct (Rlt_dec 0 (Tm s0 arg)) as [P|P].
        - eapply filter_imp; [|exact (@loc_pos s0 (fun s => Tm s arg) _ Dv P)]. intros s Hs; cbv beta in Hs; lra.
        - eapply filter_imp; [|apply (@loc_neg s0 (fun s => Tm s arg) _ Dv)]; [intros s Hs; cbv beta in Hs; lra|lra]. }
      eapply filter_imp; [|exact L]. intros s Hs. cbv beta in Hs. cbn [map wat fst snd]. unfold wat. cbn [fst snd].
      unfold Reqb. destruct (Req_EM_T (Tm s arg) 0); [contradiction|]. f_equal. f_equal. f_equal. f_equal. unfold Rdiv. ring.
  - exists [((fun s => / 2 / Tm' s res), arg)]; split; [|apply filter_forall; reflexivity].
    repeat constructor; cbn [fst snd]. pose proof (Sq arg res eq_refl) as P.
    eapply tay_div; [apply tay_cst|apply V'; cbn; auto|lra|].
    intros i Hi. apply recipr_conv; [cbn; lra|lia].
  - change (jr (Tm s0) C a2 0%nat) with (Tm s0 a2). change (jr (Tm s0) C a1 0%nat) with (Tm s0 a1).
    exists [((fun s => 1), if Rltb (Tm s0 a2) (Tm s0 a1) then a2 else a1)]; split; [gw V V'|].
    destruct Sm as [Ne|<-]; [|apply filter_forall; intros s; cbn; unfold wat; cbn; repeat f_equal;
      repeat match goal with |- context [if ?e then _ else _] => destruct e end; reflexivity].
    pose proof (@tay_d d s0 Hd _ _ (@tay_minus d _ _ s0 _ _ (V a1 ltac:(cbn; auto)) (V a2 ltac:(cbn; auto)))) as Dv.
    pose proof (@loc_gtb s0 (fun s => Tm s a1 - Tm s a2) _ Dv ltac:(cbv beta; lra)) as L.
    eapply filter_imp; [|exact L]. intros s Hs. cbv beta in Hs. cbn [map]. unfold wat. cbn [fst snd].
    assert (Q : forall a b, Rltb 0 (a - b) = Rltb b a).
    { intros a b. unfold Rltb. destruct (Rlt_dec 0 (a - b)), (Rlt_dec b a); auto; lra. }
    rewrite !Q in Hs. now rewrite Hs.
  - change (jr (Tm s0) C arg 0%nat) with (Tm s0 arg).
    exists [((fun s => if Rltb (Tm s0 arg) 0 then -1 else 1), arg)]; split; [gw V V'|].
    pose proof (@tay_d d s0 Hd _ _ (@tay_opp d _ s0 _ (V arg ltac:(cbn; auto)))) as Dv.
    pose proof (@loc_gtb s0 (fun s => - Tm s arg) _ Dv ltac:(cbv beta; lra)) as L.
    eapply filter_imp; [|exact L]. intros s Hs. cbv beta in Hs. cbn [map]. unfold wat. cbn [fst snd].
    assert (Q : forall a, Rltb 0 (- a) = Rltb a 0).
    { intros a. unfold Rltb. destruct (Rlt_dec 0 (- a)), (Rlt_dec a 0); auto; lra. }
    rewrite !Q in Hs. now rewrite Hs.
  - change (jr (Tm s0) C arg 0%nat) with (Tm s0 arg).
    exists [((fun s => 1), if Rltb 0 (Tm s0 arg) then a1 else a2)]; split; [gw V V'|].
    pose proof (@tay_d d s0 Hd _ _ (V arg ltac:(cbn; auto))) as Dv.
    eapply filter_imp; [|exact (@loc_gtb s0 (fun s => Tm s arg) _ Dv Sm)]. intros s Hs. cbv beta in Hs. rewrite Hs. reflexivity.
  - change (jr (Tm s0) C arg 0%nat) with (Tm s0 arg).
    exists [((fun s => 1), if Rleb 0 (Tm s0 arg) then a1 else a2)]; split; [gw V V'|].
    pose proof (@tay_d d s0 Hd _ _ (V arg ltac:(cbn; auto))) as Dv.
    eapply filter_imp; [|exact (@loc_geb s0 (fun s => Tm s arg) _ Dv Sm)]. intros s Hs. cbv beta in Hs. rewrite Hs. reflexivity.
  - change (jr (Tm s0) C arg 0%nat) with (Tm s0 arg).
    exists [((fun s => 1), if Rltb 0 (Tm s0 arg) then a1 else res)]; split; [gw V V'|].
    pose proof (@tay_d d s0 Hd _ _ (V arg ltac:(cbn; auto))) as Dv.
    eapply filter_imp; [|exact (@loc_gtb s0 (fun s => Tm s arg) _ Dv Sm)]. intros s Hs. cbv beta in Hs. rewrite Hs. reflexivity.
  - change (jr (Tm s0) C arg 0%nat) with (Tm s0 arg).
    exists [((fun s => 1), if Rleb 0 (Tm s0 arg) then a1 else res)]; split; [gw V V'|].
    pose proof (@tay_d d s0 Hd _ _ (V arg ltac:(cbn; auto))) as Dv.
    eapply filter_imp; [|exact (@loc_geb s0 (fun s => Tm s arg) _ Dv Sm)]. intros s Hs. cbv beta in Hs. rewrite Hs. reflexivity.
  - exists (((fun s => 1), res) :: flat_map (fun q => [((fun s => Tm s (a1 + q)%nat), (a2 + q)%nat); ((fun s => Tm s (a2 + q)%nat), (a1 + q)%nat)]) (seq 0 size)).
    split.
    + constructor; [split; [reflexivity|exact (tay_cst 1)]|].
      assert (Q : forall n q, (forall j, (q <= j < q + n)%nat -> In (a1 + j)%nat (seq a1 size ++ seq a2 size) /\ In (a2 + j)%nat (seq a1 size ++ seq a2 size)) ->
        Forall2 goodw (flat_map (fun q => [(jr (Tm s0) C (a1 + q)%nat, (a2 + q)%nat); (jr (Tm s0) C (a2 + q)%nat, (a1 + q)%nat)]) (seq q n))
          (flat_map (fun q => [((fun s => Tm s (a1 + q)%nat), (a2 + q)%nat); ((fun s => Tm s (a2 + q)%nat), (a1 + q)%nat)]) (seq q n))).
      { induction n as [|n IH]; intros q Hq; cbn [seq flat_map app]; [constructor|].
        destruct (Hq q ltac:(lia)) as [I1 I2].
        constructor; [split; [reflexivity|apply V; exact I1]|]. constructor; [split; [reflexivity|apply V; exact I2]|].
        apply IH. intros j Hj. apply Hq. lia. }
      apply Q. intros j Hj. split; apply in_or_app; [left|right]; apply in_seq; lia.
    + apply filter_forall. intros s. repeat f_equal. cbn [map]. f_equal.
      induction (seq 0 size) as [|q qs IH]; auto. cbn [flat_map app map]. rewrite IH. reflexivity.
Qed.

(* distributing an adjoint keeps Taylor rows *)
Lemma scatter_tay N (a : R -> R) (ar : nat -> R) : tay d a s0 ar -> forall ts ws, Forall2 goodw ts ws ->
  forall (A : R -> rmem) (Ar : rrows), (forall l, (l < N)%nat -> tay d (fun s => A s l) s0 (Ar l)) ->
  forall l, (l < N)%nat -> tay d (fun s => scatter (a s) (map (wat s) ws) (A s) l) s0 (rscat ar ts Ar l).
Proof.
  intros Ha ts ws H. induction H as [|[w r] [f r'] ts ws [E1 E2] _ IH]; intros A Ar HA l Hl.
  - exact (HA l Hl).
  - cbn [fst snd] in *. subst r'. unfold scatter, rscat. cbn [map fold_left fst snd wat].
    apply (IH (fun s => rupd (A s) r (A s r + f s * a s)) (fun l i => if (l =? r)%nat then Ar l i + conv w ar i else Ar l i)); auto.
    intros l' Hl'. unfold rupd, upd. destruct (Nat.eqb_spec l' r) as [->|Ne]; [|now apply HA].
    apply (@tay_plus d (fun s => A s r) (fun s => f s * a s)); [now apply HA|now apply tay_mult].
Qed.
Lemma adjlin_tay N res ts ws (A : R -> rmem) (Ar : rrows) : Forall2 goodw ts ws -> (res < N)%nat ->
  (forall l, (l < N)%nat -> tay d (fun s => A s l) s0 (Ar l)) ->
  forall l, (l < N)%nat -> tay d (fun s => adjlin res (map (wat s) ws) (A s) l) s0 (adjrow res ts Ar l).
Proof.
  intros H Hr HA l Hl. unfold adjlin, adjrow. apply (@scatter_tay N (fun s => A s res)); auto.
  intros l' Hl'. unfold rupd, upd. destruct (Nat.eqb_spec l' res) as [->|Ne].
  - eapply tay_coef; [|apply (tay_cst 0)]. intros [|i] _; reflexivity.
  - now apply HA.
Qed.

(* one operation: the rows of hos_reverse against the adjoints of fos_reverse *)
Lemma adj_tay N b D (Tm Tm' : R -> rmem) (C C' : rrows) (F F1 : rmem) (Ar A1 : rrows) (A : R -> rmem) :
  tfollows d s0 D Tm C -> tfollows d s0 (plusset D (bwrites b)) Tm' C' ->
  (forall l, In l (breads b) -> D l) ->
  match b with HelpOp _ _ _ a2 _ => D a2 | _ => True end ->
  smooth b (Tm s0) (Tm' s0) -> rok eps b (Tm s0) ->
  (forall a r, b = SqrtOp reals a r -> 0 < Tm' s0 r) ->
  (forall l, In l (bwrites b) -> (l < N)%nat) ->
  match rterms (S d) b (jr (Tm s0) C) (jr (Tm' s0) C') with
  | Some (res, ts) => rstep_ok N (S d) F Ar res ts F1 A1
  | None => F1 = F /\ A1 = Ar
  end ->
  (forall l, (l < N)%nat -> 0 <= F l) ->
  (forall l, (l < N)%nat -> F l = 0 -> forall i, (i < S d)%nat -> Ar l i = 0) ->
  (forall l, (l < N)%nat -> tay d (fun s => A s l) s0 (Ar l)) ->
  (forall l, (l < N)%nat -> 0 <= F1 l) /\
  (forall l, (l < N)%nat -> F1 l = 0 -> forall i, (i < S d)%nat -> A1 l i = 0) /\
  (forall l, (l < N)%nat -> tay d (fun s => fadj b (Tm s) (Tm' s) (A s) l) s0 (A1 l)).
Proof.
  intros Hf Hf' HR HA Sm Rk Sq HW Hs F0 FZ HT.
  pose proof (@fterms_tay b D Tm Tm' C C' Hf Hf' HR HA Sm Rk Sq) as Ht.
  destruct (rterms (S d) b (jr (Tm s0) C) (jr (Tm' s0) C')) as [[res ts]|] eqn:Er.
  - destruct Ht as (ws & W & L).
    assert (Hres : (res < N)%nat).
    { apply HW. destruct b; cbn in Er; try discriminate Er; injection Er; intros; subst; cbn; auto. }
    assert (AT : forall l, (l < N)%nat -> tay d (fun s => fadj b (Tm s) (Tm' s) (A s) l) s0 (adjrow res ts Ar l)).
    { intros l Hl. eapply tay_ext_loc; [|apply (@adjlin_tay N res ts ws A Ar W Hres HT l Hl)].
      eapply filter_imp; [|exact L]. intros s Hs'. cbv beta. unfold fadj. now rewrite Hs'. }
    destruct Hs as [(Z & -> & ->)|(HA1 & FL)].
    + split; [exact F0|]. split; [exact FZ|]. intros l Hl. eapply tay_coef; [|exact (AT l Hl)].
      intros i Hi. cbv beta.
      (* the row of the result is zero *)
      assert (G : forall ts0 (B : rrows), (forall l i, (i < S d)%nat -> (l < N)%nat -> B l i = Ar l i) ->
        forall l i, (i < S d)%nat -> (l < N)%nat -> rscat (Ar res) ts0 B l i = Ar l i).
      { induction ts0 as [|[w r] ts0 IH]; intros B HB l1 i1 H1 H2; [apply HB; auto|].
        unfold rscat. cbn [fold_left fst snd]. apply IH; auto. intros l2 i2 H3 H4.
        destruct (l2 =? r)%nat; [|auto]. rewrite (@conv_zero w (Ar res) (S d)) by (auto; intros; apply FZ; auto).
        rewrite HB by auto. ring. }
      unfold adjrow. apply G; [|lia|auto]. intros l1 i1 H1 H2.
      destruct (Nat.eqb_spec l1 res) as [->|]; auto. symmetry. apply FZ; auto.
    + destruct FL as (FL1 & FL2 & FL3). split; [exact FL1|]. split.
      * intros l Hl Fz i Hi. rewrite HA1 by auto.
        assert (NI : ~ In l (map snd ts)) by (intros Q; apply FL2 in Q; lra).
        assert (G : forall ts0 (B : rrows), ~ In l (map snd ts0) -> rscat (Ar res) ts0 B l i = B l i).
        { induction ts0 as [|[w r] ts0 IH]; intros B HB; auto.
          unfold rscat. cbn [fold_left fst snd]. cbn [map snd In] in HB. etransitivity; [apply IH; tauto|]. cbv beta.
          destruct (Nat.eqb_spec l r); auto. exfalso. apply HB. auto. }
        unfold adjrow. rewrite G by auto. destruct (Nat.eqb_spec l res) as [|Ne]; auto.
        rewrite FL3 in Fz by auto. apply FZ; auto.
      * intros l Hl. eapply tay_coef; [|exact (AT l Hl)]. intros i Hi. symmetry. apply HA1. lia.
  - destruct Hs as [-> ->]. split; [exact F0|]. split; [exact FZ|].
    intros l Hl. eapply tay_ext; [|exact (HT l Hl)]. intros s. cbv beta. unfold fadj. now rewrite Ht.
Qed.
End Tay.
