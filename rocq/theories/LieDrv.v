(* C53: the Lie derivative drivers return the Lie derivatives. *)
From Coq Require Import List ZArith Bool Arith Lia Reals Lra FunctionalExtensionality.
From Coquelicot Require Import Coquelicot.
Require Import Verif.AdModel Verif.AdRecord Verif.AdSpec Verif.AdReplay Verif.AdRestore
  Verif.AdTidyCalls Verif.AdPlain Verif.AdPlainRun Verif.AdProps Verif.AdSelect
  Verif.AdReal Verif.AdLin Verif.AdReverse Verif.AdReverseProps Verif.AdDeriv Verif.AdTangent
  Verif.AdDerivProps Verif.AdDerivEx Verif.StatModel Verif.StatProps
  Verif.HosModel Verif.HosSpec Verif.HosTay Verif.HosFun Verif.HosLoops Verif.HosProofs Verif.HosProps Verif.HosEx
  Verif.HrvModel Verif.HrvMain Verif.HrvProps
  Verif.DrvModel Verif.DrvSpec Verif.DrvProps Verif.DrvTrace
  Verif.OdeModel Verif.OdeSpec Verif.OdeAcc Verif.OdeFund Verif.OdeFor
  Verif.VrvModel Verif.HvrModel Verif.HvrProps Verif.HvrReal
  Verif.LieModel Verif.LieSpec Verif.LieCore Verif.LieLoops Verif.LieProps.
Import ListNotations.
Set Implicit Arguments.
Unset Asymmetric Patterns.
Local Open Scope R_scope.

(* double Fak *)
Lemma with_fak_ok d j (c : nat -> R) (r : rrows) : forall j' k,
  @with_fak reals d c (fun i v r => put r j i v) r j' k =
  if ((j' =? j) && (k <=? d))%nat then INR (fact k) * c k else r j' k.
Proof.
  unfold with_fak.
  assert (Q : forall e, let s := up e (fun i (s : R * rrows) => let (Fak, r) := s in
      (Fak * INR (S i), put r j i (Fak * c i))) (1, r) in
    fst s = INR (fact e) /\ forall j' k, snd s j' k = if ((j' =? j) && (k <? e))%nat then INR (fact k) * c k else r j' k).
  { induction e as [|e IH]; intros s.
    - split; [reflexivity|]. intros. now rewrite andb_false_r.
    - unfold s. cbn [up]. cbv zeta in IH. destruct (up e _ (1, r)) as [Fak r1]. cbn [fst snd] in *. destruct IH as [-> IH]. split.
      + change (fact (S e)) with (S e * fact e)%nat. rewrite mult_INR. ring.
      + intros j' k. destruct (Nat.eqb_spec j' j) as [->|N]; cbn [andb].
        * destruct (Nat.eq_dec k e) as [->|Nk].
          -- rewrite put_at. destruct (Nat.ltb_spec e (S e)); [reflexivity|lia].
          -- rewrite put_off by tauto. rewrite IH, Nat.eqb_refl. cbn [andb]. destruct (Nat.ltb_spec k e), (Nat.ltb_spec k (S e)); try lia; reflexivity.
        * rewrite put_off by tauto. rewrite IH. destruct (Nat.eqb_spec j' j); [tauto|]. reflexivity. }
  intros j' k. etransitivity; [exact (proj2 (Q (S d)) j' k)|]. destruct (Nat.ltb_spec k (S d)), (Nat.leb_spec k d); try lia; reflexivity.
Qed.
Lemma with_fak3_ok d l i (c : nat -> R) (r : rcube) : forall l' i' k,
  @with_fak3 reals d l i c r l' i' k =
  if ((l' =? l) && (i' =? i) && (k <=? d))%nat then INR (fact k) * c k else r l' i' k.
Proof.
  unfold with_fak3.
  assert (Q : forall e, let s := up e (fun j (s : R * rcube) => let (Fak, r) := s in
      (Fak * INR (S j), @put3 reals r l i j (Fak * c j))) (1, r) in
    fst s = INR (fact e) /\ forall l' i' k, snd s l' i' k = if ((l' =? l) && (i' =? i) && (k <? e))%nat then INR (fact k) * c k else r l' i' k).
  { induction e as [|e IH]; intros s.
    - split; [reflexivity|]. intros. now rewrite andb_false_r.
    - unfold s. cbn [up]. cbv zeta in IH. destruct (up e _ (1, r)) as [Fak r1]. cbn [fst snd] in *. destruct IH as [-> IH]. split.
      + change (fact (S e)) with (S e * fact e)%nat. rewrite mult_INR. ring.
      + intros l' i' k. destruct (Nat.eqb_spec l' l) as [->|N]; [destruct (Nat.eqb_spec i' i) as [->|Ni]|]; cbn [andb].
        * destruct (Nat.eq_dec k e) as [->|Nk].
          -- rewrite put3_at. destruct (Nat.ltb_spec e (S e)); [reflexivity|lia].
          -- rewrite put3_off by tauto. rewrite IH, !Nat.eqb_refl. cbn [andb]. destruct (Nat.ltb_spec k e), (Nat.ltb_spec k (S e)); try lia; reflexivity.
        * rewrite put3_off by tauto. rewrite IH, Nat.eqb_refl. destruct (Nat.eqb_spec i' i); [tauto|]. reflexivity.
        * rewrite put3_off by tauto. rewrite IH. destruct (Nat.eqb_spec l' l); [tauto|]. reflexivity. }
  intros l' i' k. etransitivity; [exact (proj2 (Q (S d)) l' i' k)|]. destruct (Nat.ltb_spec k (S d)), (Nat.leb_spec k d); try lia; reflexivity.
Qed.

Lemma scal1 (k : R -> R) s (v : R) : is_derive k s (scal 1 v) -> is_derive k s v.
Proof. intros Q. replace v with (scal 1 v); [exact Q|]. unfold scal; cbn; unfold mult; cbn. ring. Qed.

Section Trajectory.
Variables (n : nat) (O : state -> Prop) (f : state -> state) (F : rtape) (X : R -> state) (xa : state).
Hypothesis Om : open_states n O.
Hypothesis OX : O (X 0).
Hypothesis TF : tape_of F n n O (X 0) f.
Hypothesis So : solves n 1 f X.
Hypothesis St : forall i, (i < n)%nat -> xa i = X 0 i.

Lemma sol_through : through n O (X 0) X.
Proof.
  split; [reflexivity|]. split; [apply So|]. destruct So as [Z0 D].
  apply (Om OX (c := X) (c' := fun i => 1 * f (X 0) i)). split; [reflexivity|]. split.
  - intros s i Hi. now rewrite !Z0.
  - intros i Hi. exact (locally_singleton _ _ (D i Hi)).
Qed.
(* the chain rule along the trajectory *)
Lemma along : locally 0 (fun s => forall (k : state -> R) g, gradient n k (X s) g ->
  is_derive (fun u => k (X u)) s (total_of n (fun i => g i * f (X s) i))).
Proof.
  destruct So as [Z0 D]. eapply filter_imp; [|exact (@locally_all n 0 _ D)]. cbv beta. intros s Ds k g G.
  assert (C : curve n (X s) (fun u => X (s + u)) (f (X s))).
  { split; [now rewrite Rplus_0_r|]. split; [intros u i Hi; now rewrite !Z0|]. intros i Hi.
    pose proof (Ds i Hi) as Q. rewrite Rmult_1_l in Q.
    rewrite <- (Rplus_0_r s) in Q.
    pose proof (is_derive_comp (fun u => X u i) (fun u => s + u) 0 _ 1 Q) as P.
    assert (E : is_derive (fun u : R => s + u) 0 1) by (auto_derive; [exact Logic.I|ring]).
    specialize (P E). apply scal1 in P. rewrite Rplus_0_r in P. exact P. }
  specialize (G _ _ C). cbv beta in G.
  assert (G' : is_derive (fun u => k (X (s + u))) (- s + s) (total_of n (fun i => g i * f (X s) i))) by (rewrite Rplus_opp_l; exact G).
  pose proof (is_derive_comp (fun u => k (X (s + u))) (fun u => - s + u) s _ 1 G') as P.
  assert (E : is_derive (fun u : R => - s + u) s 1) by (auto_derive; [exact Logic.I|ring]).
  specialize (P E). apply scal1 in P. eapply is_derive_ext; [|exact P]. intros u. cbv beta. do 2 f_equal. ring.
Qed.

Lemma traj_ok d z0 Z0 : exists rc Xs, @trajectory reals F n xa d z0 Z0 = Some (rc, Xs) /\ (0 <= rc)%Z /\
  forall i, (i < n)%nat -> tay d (fun s => X s i) 0 (Xs i).
Proof.
  pose proof sol_through as (_ & Xz & LX).
  destruct TF as (T0 & chunks & last & x1 & p & s1 & bs & Rd & Et & Di & Dd & Eh & Br & Sm & Eb & Nf).
  assert (Sb : same_branches_on T0 chunks p s1 (tps F) X).
  { unfold same_branches_on. eapply filter_imp; [|exact LX]. intros s Os. destruct (Br _ Os) as (q & A). exists q. exact A. }
  assert (So' : solves n 1 (computed T0 chunks p (tps F)) X) by (rewrite <- Eh; exact So).
  unfold trajectory. set (Y := up n _ _).
  assert (HY : forall i, (i < n)%nat -> Y i 0%nat = X 0 i).
  { intros i Hi. unfold Y. rewrite (@set_col reals n 0 (fun i _ => xa i)) by reflexivity. destruct (Nat.ltb_spec i n); [|lia]. cbn. now apply St. }
  assert (Et' : finish last s1 = map (@Plain reals) bs) by congruence.
  rewrite Et in Sm. rewrite Et.
  destruct (@C45_completes T0 chunks last x1 p s1 (tnmm F) (tps F) (tg F) (tgc F) n 1 X Rd Di Dd So' Sb bs 0 d z0 Z0 Y Et' Nf HY) as (rc & Xs & E).
  destruct (@C45_forode T0 chunks last x1 p s1 (tnmm F) (tps F) (tg F) (tgc F) n 1 X Rd Di Dd So' Sb Sm 0 d z0 Z0 Y rc Xs ltac:(lia)) as (B1 & B2 & _).
  - intros i Hi. apply tay_taylor. split; [|exact Logic.I]. symmetry. now apply HY.
  - exact E.
  - exists rc, Xs. split; [exact E|]. split; [exact B1|]. intros i Hi. apply taylor_tay. now apply B2.
Qed.

(* ------------------------------------------------------------------ *)
Section Scalar.
Variables (m d : nat) (H : rtape) (h : state -> state) (L : nat -> nat -> state -> R).
Hypothesis TH : tape_of H n m O (X 0) h.
Hypothesis HL : forall j, (j < m)%nat -> lie_scalars n d O f (fun y => h y j) (L j).

Theorem C53_scalarcv z0 Z0 (r : rrows) : (0 < d)%nat -> exists r',
  @lie_scalarcv reals F H n m xa d z0 Z0 r = Some r' /\
  (forall j k, (j < m)%nat -> (k <= d)%nat -> r' j k = L j k (X 0)) /\
  (forall j k, (m <= j)%nat \/ (d < k)%nat -> r' j k = r j k).
Proof.
  intros Hd. unfold lie_scalarcv. destruct (traj_ok d z0 Z0) as (rc & Xs & E & _ & HX). rewrite E.
  pose proof (@take_off_ok reals n d Xs) as TO. destruct (@take_off reals n d Xs) as [x X1]. destruct TO as [T1 T2].
  assert (HX1 : forall i, (i < n)%nat -> tay d (fun s => X s i) 0 (joined (x i) (X1 i))).
  { intros i Hi. eapply tay_coef; [|exact (HX i Hi)]. intros [|k] Hk; cbn [joined]; [now rewrite T1|]. rewrite T2.
    destruct (Nat.ltb_spec i n), (Nat.ltb_spec k d); try lia; reflexivity. }
  destruct (@tape_sweep H n m O (X 0) h TH X sol_through d d x X1 Hd (le_n d) HX1) as (y & Y & Es & Ht). rewrite Es.
  eexists. split; [reflexivity|]. 
  set (Y1 := @put_back reals m d y Y).
  assert (Q : forall j k, up m (fun j r => @with_fak reals d (Y1 j) (fun i v r => put r j i v) r) r j k =
    if ((j <? m) && (k <=? d))%nat then INR (fact k) * Y1 j k else r j k).
  { apply (@up_inv rrows (fun m' r' => forall j k, r' j k = if ((j <? m') && (k <=? d))%nat then INR (fact k) * Y1 j k else r j k)); [reflexivity|].
    intros j r1 Hj A j' k. rewrite with_fak_ok. rewrite A. destruct (Nat.eqb_spec j' j) as [->|N]; cbn [andb].
    - destruct (Nat.ltb_spec j (S j)); [|lia]. cbn [andb]. destruct (Nat.leb_spec k d); [reflexivity|]. now rewrite andb_false_r.
    - destruct (Nat.ltb_spec j' j), (Nat.ltb_spec j' (S j)); try lia; reflexivity. }
  split.
  - intros j k Hj Hk. rewrite Q. destruct (Nat.ltb_spec j m); [|lia]. destruct (Nat.leb_spec k d); [|lia]. cbn [andb].
    destruct (HL Hj) as [HL0 HL1]. destruct sol_through as (_ & _ & LX).
    pose proof (@lie_series 1 d (fun _ _ _ => 0) (fun k s _ => L j k (X s)) (fun _ _ _ => 0) (fun _ _ _ => 0) (fun _ => Y1 j)) as S0.
    cbv beta in S0. rewrite S0 with (k := k) (i := 0%nat).
    + cbn [total_of]. rewrite (@total_zero k); [change (V reals) with R; ring|]. intros; ring.
    + intros _ _ _ _. eapply tay_coef; [|apply (tay_const (d - 1) 0 0)]. intros [|i] _; reflexivity.
    + intros k' i' j' _ _ _. cbn [total_of]. rewrite total_zero; [unfold Rdiv; ring|]. intros; ring.
    + intros _ _. eapply tay_ext_loc; [|eapply tay_coef; [|exact (Ht j)]].
      * eapply filter_imp; [|exact LX]. cbv beta. intros s Os. symmetry. now apply HL0.
      * intros k' Hk'. unfold Y1. rewrite put_back_ok. destruct (Nat.ltb_spec j m); [|lia]. destruct (Nat.leb_spec k' d); [|lia]. cbn [andb]. destruct k'; reflexivity.
    + intros k' i' Hk' _. eapply filter_imp; [|exact (filter_and _ _ LX along)]. cbv beta. intros s [Os As].
      destruct (HL1 k' (X s) Hk' Os) as (g & G1 & G2). cbn [total_of]. rewrite G2.
      eapply is_derive_ext; [reflexivity|]. replace (total_of n (fun i => g i * f (X s) i) - (0 + L j k' (X s) * 0)) with (total_of n (fun i => g i * f (X s) i)) by ring.
      now apply As.
    + exact Hk.
    + lia.
  - intros j k Hjk. rewrite Q. destruct (Nat.ltb_spec j m), (Nat.leb_spec k d); try lia; reflexivity.
Qed.
End Scalar.

(* ------------------------------------------------------------------ *)
Variable eps : R.
Hypothesis He : 0 <= eps.
Hypothesis RF : reversible eps F (X 0).
Notation JF := (jac f X).

Lemma traj_jac_ok d z0 Z0 : (1 < d)%nat -> (0 < n)%nat -> exists Xs A,
  @trajectory_jacobians reals eps F n xa d z0 Z0 = Some (Xs, A) /\
  (forall i, (i < n)%nat -> tay d (fun s => X s i) 0 (Xs i)) /\
  forall l i, (l < n)%nat -> (i < n)%nat ->
    locally 0 (fun s => partial (fun y => f y l) (X s) i (JF s l i)) /\ tay (d - 1) (fun s => JF s l i) 0 (A l i).
Proof.
  intros Hd Hn. unfold trajectory_jacobians. destruct (traj_ok d z0 Z0) as (rc & Xs & E & Hrc & HX). rewrite E.
  destruct (Z.ltb_spec rc 0); [lia|].
  destruct (@tape_jac F n n O (X 0) f TF X sol_through Om eps He RF (d - 1) (fun i => Xs i 0%nat) (fun i k => Xs i (S k))) as (A & EA & PA); auto; [lia| |].
  { intros i Hi. apply (@tay_le d); [lia|]. eapply tay_coef; [|exact (HX i Hi)]. intros [|k] _; reflexivity. }
  change (V reals) with R in *. rewrite EA. exists Xs, A. auto.
Qed.
Lemma shifted d (Xs : rrows) : (1 < d)%nat -> (forall i, (i < n)%nat -> tay d (fun s => X s i) 0 (Xs i)) ->
  let (x, X1) := @take_off_1 reals n d Xs in forall i, (i < n)%nat -> tay d (fun s => X s i) 0 (joined (x i) (X1 i)).
Proof.
  intros Hd HX. unfold take_off_1. destruct (Nat.eqb_spec d 1); [lia|].
  pose proof (@take_off_ok reals n d Xs) as TO. destruct (@take_off reals n d Xs) as [x X1]. destruct TO as [T1 T2].
  intros i Hi. eapply tay_coef; [|exact (HX i Hi)]. intros [|k] Hk; cbn [joined]; [now rewrite T1|]. rewrite T2.
  destruct (Nat.ltb_spec i n), (Nat.ltb_spec k d); try lia; reflexivity.
Qed.
Lemma partial_unique (k : state -> R) y i a b : partial k y i a -> partial k y i b -> a = b.
Proof. apply der_unique. Qed.

Section Covector.
Variables (d : nat) (W : rtape) (w : state -> state) (Wk : nat -> state -> state).
Hypothesis TW : tape_of W n n O (X 0) w.
Hypothesis HW : lie_covectors n d O f w Wk.

Theorem C53_covector z0 Z0 (r : rrows) : (1 < d)%nat -> (d <= 12)%nat -> (0 < n)%nat -> exists r',
  @lie_covector reals eps F W n xa d z0 Z0 r = Some r' /\
  (forall i k, (i < n)%nat -> (k <= d)%nat -> r' i k = Wk k (X 0) i) /\
  (forall i k, (n <= i)%nat \/ (d < k)%nat -> r' i k = r i k).
Proof.
  intros Hd Hd2 Hn. unfold lie_covector. destruct (@traj_jac_ok d z0 Z0 Hd Hn) as (Xs & A & E & HX & HA). rewrite E.
  pose proof (@shifted d Xs Hd HX) as HX1. destruct (@take_off_1 reals n d Xs) as [x X1].
  destruct (@tape_sweep W n n O (X 0) w TW X sol_through d d x X1 ltac:(lia) (le_n d) HX1) as (y & Y & Es & Ht). rewrite Es.
  destruct (Nat.eqb_spec d 1); [lia|].
  set (M := fun a => if (a =? 0)%nat then A else @zcube reals).
  destruct (@C46_accode n 1 (d - 1) 0 1 M ltac:(lia)) as [HB _]. cbn [one reals]. set (B := @accodec_dense reals n 1 (d - 1) 0 1 M 1%nat) in *.
  change (M 0%nat) with A in HB.
  destruct (@acccov_ok n d B (@put_back reals n d y Y) r Hd2) as (r' & Er & R1 & R2). exists r'. split; [exact Er|]. split; [|exact R2].
  intros i k Hi Hk. rewrite R1 by assumption. symmetry.
  destruct sol_through as (_ & _ & LX).
  apply (@lie_series n d JF (fun k s i => Wk k (X s) i) A B (@put_back reals n d y Y)); auto.
  - intros l i' Hl Hi'. apply HA; assumption.
  - intros j Hj. eapply tay_ext_loc; [|eapply tay_coef; [|exact (Ht j)]].
    + eapply filter_imp; [|exact LX]. cbv beta. intros s Os. symmetry. apply HW; assumption.
    + intros k' Hk'. rewrite put_back_ok. destruct (Nat.ltb_spec j n); [|lia]. destruct (Nat.leb_spec k' d); [|lia]. cbn [andb]. destruct k'; reflexivity.
  - intros k' i' Hk' Hi'.
    pose proof (@locally_all n 0 _ (fun p Hp => proj1 (HA p i' Hp Hi'))) as LP.
    eapply filter_imp; [|exact (filter_and _ _ LP (filter_and _ _ LX along))]. cbv beta. intros s (Ps & Os & As).
    destruct (proj2 HW k' (X s) i' Hk' Os Hi') as (g & J & G1 & G2 & G3). rewrite G3.
    replace (_ + _ - _) with (total_of n (fun p => g p * f (X s) p)); [exact (As _ _ G1)|].
    rewrite (@total_ext n (fun p => Wk k' (X s) p * JF s p i') (fun p => Wk k' (X s) p * J p)).
    2:{ intros p Hp. f_equal. exact (partial_unique (Ps p Hp) (G2 p Hp)). }
    rewrite (@total_ext n (fun p => f (X s) p * g p) (fun p => g p * f (X s) p)) by (intros; apply Rmult_comm). ring.
Qed.
End Covector.

Section Bracket.
Variables (d : nat) (G : rtape) (v : state -> state) (Gk : nat -> state -> state).
Hypothesis TG : tape_of G n n O (X 0) v.
Hypothesis HG : lie_brackets n d O f v Gk.

Theorem C53_bracket z0 Z0 (r : rrows) : (0 < d)%nat -> (d <= 12)%nat -> (0 < n)%nat -> exists r',
  @lie_bracket reals eps F G n xa d z0 Z0 r = Some r' /\
  (forall i k, (i < n)%nat -> (k <= d)%nat -> r' i k = Gk k (X 0) i) /\
  (forall i k, (n <= i)%nat \/ (d < k)%nat -> r' i k = r i k).
Proof.
  intros Hd Hd2 Hn. unfold lie_bracket. destruct (@traj_jac_ok (S d) z0 Z0 ltac:(lia) Hn) as (Xs & A & E & HX & HA). rewrite E.
  pose proof (@take_off_ok reals n d Xs) as TO. destruct (@take_off reals n d Xs) as [x X1]. destruct TO as [T1 T2].
  assert (HX1 : forall i, (i < n)%nat -> tay d (fun s => X s i) 0 (joined (xa i) (X1 i))).
  { intros i Hi. apply (@tay_coef d _ _ (Xs i)); [|apply (@tay_le (S d)); [lia|exact (HX i Hi)]].
    intros [|k] Hk; cbn [joined]; [rewrite St by exact Hi; symmetry; exact (tay_val (HX i Hi))|]. rewrite T2.
    destruct (Nat.ltb_spec i n), (Nat.ltb_spec k d); try lia; reflexivity. }
  destruct (@tape_sweep G n n O (X 0) v TG X sol_through d (S d) xa X1 Hd (le_S _ _ (le_n d)) HX1) as (y & Y & Es & Ht). rewrite Es.
  pose proof (@accadj_ok n d A (@zcube reals)) as HB. set (Bs := @accadj reals n d A (@zcube reals)) in *.
  destruct (@accbrac_ok n d Bs (@put_back reals n d y Y) r Hd2) as (r' & Er & R1 & R2). exists r'. split; [exact Er|]. split; [|exact R2].
  intros i k Hi Hk. rewrite R1 by assumption. symmetry.
  destruct sol_through as (_ & _ & LX).
  apply (@lie_series n d (fun s i j => - JF s j i) (fun k s i => Gk k (X s) i) (fun i j k => - A j i k) Bs (@put_back reals n d y Y)); auto.
  - intros l i' Hl Hi'. apply tay_opp. apply (@tay_le (S d - 1)); [lia|]. apply HA; assumption.
  - intros k' i' j' Hk' Hi' Hj'. apply HB; auto. lia.
  - intros j Hj. eapply tay_ext_loc; [|eapply tay_coef; [|exact (Ht j)]].
    + eapply filter_imp; [|exact LX]. cbv beta. intros s Os. symmetry. apply HG; assumption.
    + intros k' Hk'. rewrite put_back_ok. destruct (Nat.ltb_spec j n); [|lia]. destruct (Nat.leb_spec k' d); [|lia]. cbn [andb]. destruct k'; reflexivity.
  - intros k' i' Hk' Hi'.
    pose proof (@locally_all n 0 _ (fun p Hp => proj1 (HA i' p Hi' Hp))) as LP.
    eapply filter_imp; [|exact (filter_and _ _ LP (filter_and _ _ LX along))]. cbv beta. intros s (Ps & Os & As).
    destruct (proj2 HG k' (X s) i' Hk' Os Hi') as (g & J & G1 & G2 & G3). rewrite G3.
    replace (_ - _ - _) with (total_of n (fun p => g p * f (X s) p)); [exact (As _ _ G1)|].
    rewrite (@total_ext n (fun p => Gk k' (X s) p * - JF s i' p) (fun p => -1 * (J p * Gk k' (X s) p))).
    2:{ intros p Hp. rewrite (partial_unique (Ps p Hp) (G2 p Hp)). ring. }
    rewrite total_scal. ring.
Qed.
End Bracket.

Section Gradient.
Variables (m d : nat) (H : rtape) (h : state -> state) (L : nat -> nat -> state -> R) (D : nat -> nat -> state -> state).
Hypothesis TH : tape_of H n m O (X 0) h.
Hypothesis RH : reversible eps H (X 0).
Hypothesis HL : forall j, (j < m)%nat -> lie_gradients n d O f (fun y => h y j) (L j) (D j).

Lemma gradient_partial (k : state -> R) y g i : (i < n)%nat -> gradient n k y g -> partial k y i (g i).
Proof.
  intros Hi Gk. pose proof (Gk _ _ (unit_curve y Hi)) as Q. unfold partial, directional.
  rewrite <- (@total_delta n g i Hi). exact Q.
Qed.
Lemma gradient_step j k y i J : (j < m)%nat -> (k < d)%nat -> (i < n)%nat -> O y ->
  (forall p, (p < n)%nat -> partial (fun y => f y p) y i (J p)) -> exists g,
  gradient n (fun y => D j k y i) y g /\
  D j (S k) y i = total_of n (fun p => g p * f y p) + total_of n (fun p => D j k y p * J p).
Proof.
  intros Hj Hk Hi Oy HJ. destruct (HL Hj) as ([_ S1] & S2 & S3).
  destruct (S3 k y Hk Oy) as (Hs & H1 & H2). exists (Hs i). split; [now apply H1|].
  pose proof (gradient_partial Hi (S2 (S k) y ltac:(lia) Oy)) as P1.
  assert (P2 : partial (L j (S k)) y i (total_of n (fun p => Hs p i * f y p + D j k y p * J p))).
  { unfold partial, directional.
    apply is_derive_ext_loc with (f := fun c => total_of n (fun p => D j k (line y (DrvModel.unitv i) c) p * f (line y (DrvModel.unitv i) c) p)).
    - eapply filter_imp; [|exact (Om Oy (unit_curve y Hi))]. cbv beta. intros c Oc.
      destruct (S1 k _ Hk Oc) as (g & G1 & G2). rewrite G2. apply total_ext. intros p Hp. f_equal.
      exact (partial_unique (gradient_partial Hp (S2 k _ (Nat.lt_le_incl _ _ Hk) Oc)) (gradient_partial Hp G1)).
    - pose proof (@d_total n (fun p c => D j k (line y (DrvModel.unitv i) c) p * f (line y (DrvModel.unitv i) c) p)
        (fun p c => Hs p i * f (line y (DrvModel.unitv i) c) p + D j k (line y (DrvModel.unitv i) c) p * J p) 0) as Q. cbv beta in Q.
      rewrite !line0 in Q. apply Q. intros p Hp.
      pose proof (@d_mult (fun c => D j k (line y (DrvModel.unitv i) c) p) (fun c => f (line y (DrvModel.unitv i) c) p) 0 _ _
        (gradient_partial Hi (H1 p Hp)) (HJ p Hp)) as Q2. cbv beta in Q2. rewrite !line0 in Q2. exact Q2. }
  rewrite (partial_unique P1 P2). rewrite total_add. f_equal. apply total_ext. intros p Hp. f_equal. now apply H2.
Qed.

Theorem C53_gradientcv z0 Z0 (r : rcube) : (1 < d)%nat -> (0 < n)%nat -> (0 < m)%nat -> exists r',
  @lie_gradientcv reals eps F H n m xa d z0 Z0 r = Some r' /\
  (forall j i k, (j < m)%nat -> (i < n)%nat -> (k <= d)%nat -> r' j i k = D j k (X 0) i) /\
  (forall j i k, (m <= j)%nat \/ (n <= i)%nat \/ (d < k)%nat -> r' j i k = r j i k).
Proof.
  intros Hd Hn Hm. unfold lie_gradientcv. destruct (@traj_jac_ok d z0 Z0 Hd Hn) as (Xs & A & E & HX & HA). rewrite E.
  set (M := fun a => if (a =? 0)%nat then A else @zcube reals).
  destruct (@C46_accode n 1 (d - 1) 0 1 M ltac:(lia)) as [HB _]. cbn [one reals]. set (B := @accodec_dense reals n 1 (d - 1) 0 1 M 1%nat) in *.
  change (M 0%nat) with A in HB.
  pose proof (@shifted d Xs Hd HX) as HX1. destruct (@take_off_1 reals n d Xs) as [x X1].
  destruct (@tape_jac H n m O (X 0) h TH X sol_through Om eps He RH d x X1 ltac:(lia) Hm HX1) as (Pc & EP & HP).
  change (V reals) with R in *. rewrite EP.
  eexists. split; [reflexivity|].
  set (Dm := @accodeout reals m n d B Pc (@zcube reals)).
  assert (Q : forall j i k, up m (fun l r => up n (fun i r => @with_fak3 reals d l i (Dm l i) r) r) r j i k =
    if ((j <? m) && (i <? n) && (k <=? d))%nat then INR (fact k) * Dm j i k else r j i k).
  { apply (@up_inv rcube (fun m' r' => forall j i k, r' j i k = if ((j <? m') && (i <? n) && (k <=? d))%nat then INR (fact k) * Dm j i k else r j i k)); [reflexivity|].
    intros j r1 Hj A1.
    assert (Q1 : forall j' i k, up n (fun i r => @with_fak3 reals d j i (Dm j i) r) r1 j' i k =
      if ((j' =? j) && (i <? n) && (k <=? d))%nat then INR (fact k) * Dm j i k else r1 j' i k).
    { apply (@up_inv rcube (fun n' r' => forall j' i k, r' j' i k = if ((j' =? j) && (i <? n') && (k <=? d))%nat then INR (fact k) * Dm j i k else r1 j' i k)).
      - intros. now rewrite andb_false_r.
      - intros i r2 Hi A2 j' i' k. rewrite with_fak3_ok, A2. destruct (Nat.eqb_spec j' j); cbn [andb]; [|reflexivity].
        destruct (Nat.eqb_spec i' i) as [->|N]; cbn [andb].
        + destruct (Nat.ltb_spec i i); [lia|]. destruct (Nat.ltb_spec i (S i)); [|lia]. reflexivity.
        + destruct (Nat.ltb_spec i' i), (Nat.ltb_spec i' (S i)); try lia; reflexivity. }
    intros j' i k. rewrite Q1, A1. destruct (Nat.eqb_spec j' j) as [->|N]; cbn [andb].
    - destruct (Nat.ltb_spec j j); [lia|]. destruct (Nat.ltb_spec j (S j)); [|lia]. reflexivity.
    - destruct (Nat.ltb_spec j' j), (Nat.ltb_spec j' (S j)); try lia; reflexivity. }
  split.
  - intros j i k Hj Hi Hk. rewrite Q. destruct (Nat.ltb_spec j m); [|lia]. destruct (Nat.ltb_spec i n); [|lia]. destruct (Nat.leb_spec k d); [|lia]. cbn [andb].
    unfold Dm. rewrite accodeout_ok by assumption. symmetry.
    destruct sol_through as (_ & _ & LX).
    apply (@lie_series n d JF (fun k s i => D j k (X s) i) A B (Pc j)); auto.
    + intros l i' Hl Hi'. apply HA; assumption.
    + intros i' Hi'. destruct (HP j i' Hj Hi') as [P1 P2]. eapply tay_ext_loc; [|exact P2].
      eapply filter_imp; [|exact (filter_and _ _ P1 LX)]. cbv beta. intros s [P3 Os].
      destruct (HL Hj) as ([S0 _] & S2 & _).
      pose proof (gradient_partial Hi' (S2 0%nat (X s) ltac:(lia) Os)) as P4.
      apply (partial_unique P3). unfold partial, directional in *. eapply is_derive_ext_loc; [|exact P4].
      eapply filter_imp; [|exact (Om Os (unit_curve (X s) Hi'))]. cbv beta. intros c Oc. now apply S0.
    + intros k' i' Hk' Hi'.
      pose proof (@locally_all n 0 _ (fun p Hp => proj1 (HA p i' Hp Hi'))) as LP.
      eapply filter_imp; [|exact (filter_and _ _ LP (filter_and _ _ LX along))]. cbv beta. intros s (Ps & Os & As).
      destruct (@gradient_step j k' (X s) i' (fun p => JF s p i') Hj Hk' Hi' Os Ps) as (g & G1 & G2). rewrite G2.
      replace (_ + _ - _) with (total_of n (fun p => g p * f (X s) p)) by ring. exact (As _ _ G1).
  - intros j i k Hjk. rewrite Q. destruct (Nat.ltb_spec j m), (Nat.ltb_spec i n), (Nat.leb_spec k d); try lia; reflexivity.
Qed.
End Gradient.

(* lie_scalar and lie_gradient of one function *)
Theorem C53_scalarc d (H : rtape) (h : state -> state) (L : nat -> state -> R) z0 Z0 (r : rmem) :
  tape_of H n 1 O (X 0) h -> lie_scalars n d O f (fun y => h y 0%nat) L -> (0 < d)%nat -> exists r',
  @lie_scalarc reals F H n xa d z0 Z0 r = Some r' /\
  (forall k, (k <= d)%nat -> r' k = L k (X 0)) /\ (forall k, (d < k)%nat -> r' k = r k).
Proof.
  intros TH HL Hd. unfold lie_scalarc.
  destruct (@C53_scalarcv 1 d H h (fun _ => L) TH) with (z0 := z0) (Z0 := Z0) (r := fun _ _ : nat => zero reals) as (T & E & HT & _); [|exact Hd|].
  { intros j Hj. now replace j with 0%nat by lia. }
  rewrite E. eexists. split; [reflexivity|].
  assert (Q : forall k, up (S d) (fun i r => upd r i (T 0%nat i)) r k = if (k <? S d)%nat then T 0%nat k else r k).
  { apply (@up_inv rmem (fun e r' => forall k, r' k = if (k <? e)%nat then T 0%nat k else r k)); [reflexivity|].
    intros i r1 Hi A k. unfold upd. destruct (Nat.eqb_spec k i) as [->|N].
    - destruct (Nat.ltb_spec i (S i)); [reflexivity|lia].
    - rewrite A. destruct (Nat.ltb_spec k i), (Nat.ltb_spec k (S i)); try lia; reflexivity. }
  split; intros k Hk; rewrite Q; destruct (Nat.ltb_spec k (S d)); try lia; [|reflexivity].
  now apply HT; [lia|].
Qed.
Theorem C53_gradientc d (H : rtape) (h : state -> state) (L : nat -> state -> R) (D : nat -> state -> state) z0 Z0 (r : rrows) :
  tape_of H n 1 O (X 0) h -> reversible eps H (X 0) -> lie_gradients n d O f (fun y => h y 0%nat) L D ->
  (1 < d)%nat -> (0 < n)%nat -> exists r',
  @lie_gradientc reals eps F H n xa d z0 Z0 r = Some r' /\
  (forall i k, (i < n)%nat -> (k <= d)%nat -> r' i k = D k (X 0) i) /\
  (forall i k, (n <= i)%nat \/ (d < k)%nat -> r' i k = r i k).
Proof.
  intros TH RH HL Hd Hn. unfold lie_gradientc.
  destruct (@C53_gradientcv 1 d H h (fun _ => L) (fun _ => D) TH RH) with (z0 := z0) (Z0 := Z0) (r := @zcube reals) as (T & E & HT & _); [|exact Hd|exact Hn|lia|].
  { intros j Hj. now replace j with 0%nat by lia. }
  rewrite E. eexists. split; [reflexivity|].
  assert (Q : forall i k, up n (fun i r => up (S d) (fun j r => put r i j (T 0%nat i j)) r) r i k =
    if ((i <? n) && (k <? S d))%nat then T 0%nat i k else r i k).
  { apply (@up_inv rrows (fun n' r' => forall i k, r' i k = if ((i <? n') && (k <? S d))%nat then T 0%nat i k else r i k)); [reflexivity|].
    intros i r1 Hi A.
    assert (Q1 : forall i' k, up (S d) (fun j r => put r i j (T 0%nat i j)) r1 i' k =
      if ((i' =? i) && (k <? S d))%nat then T 0%nat i k else r1 i' k).
    { apply (@up_inv rrows (fun e r' => forall i' k, r' i' k = if ((i' =? i) && (k <? e))%nat then T 0%nat i k else r1 i' k)).
      - intros. now rewrite andb_false_r.
      - intros j r2 Hj A2 i' k. destruct (Nat.eqb_spec i' i) as [->|N]; cbn [andb].
        + destruct (Nat.eq_dec k j) as [->|Nk].
          * rewrite put_at. destruct (Nat.ltb_spec j (S j)); [reflexivity|lia].
          * rewrite put_off by tauto. rewrite A2, Nat.eqb_refl. cbn [andb]. destruct (Nat.ltb_spec k j), (Nat.ltb_spec k (S j)); try lia; reflexivity.
        + rewrite put_off by tauto. rewrite A2. destruct (Nat.eqb_spec i' i); [tauto|]. reflexivity. }
    intros i' k. rewrite Q1, A. destruct (Nat.eqb_spec i' i) as [->|N]; cbn [andb].
    - destruct (Nat.ltb_spec i i); [lia|]. destruct (Nat.ltb_spec i (S i)); [|lia]. reflexivity.
    - destruct (Nat.ltb_spec i' i), (Nat.ltb_spec i' (S i)); try lia; reflexivity. }
  split; intros i k Hik; [intros Hk|]; rewrite Q; destruct (Nat.ltb_spec i n), (Nat.ltb_spec k (S d)); try lia; try reflexivity.
  cbn [andb]. apply HT; lia.
Qed.
End Trajectory.

(* for d > 12 the factorial overflows: neither driver ever returns, whatever the traces *)
Theorem C53_overflow_refuted (eps : R) (F W : rtape) n (x0 : state) d z0 Z0 (r : rrows) : (12 < d)%nat ->
  @lie_covector reals eps F W n x0 d z0 Z0 r = None /\ @lie_bracket reals eps F W n x0 d z0 Z0 r = None.
Proof.
  intros Hd. split.
  - unfold lie_covector. destruct (trajectory_jacobians _ _ _ _ _ _ _) as [[X A]|]; [|reflexivity].
    destruct (take_off_1 n d X) as [x X1]. destruct (sweep _ _ _ _ _ _) as [[y Y]|]; [|reflexivity].
    now apply acccov_overflow.
  - unfold lie_bracket. destruct (trajectory_jacobians _ _ _ _ _ _ _) as [[X A]|]; [|reflexivity].
    destruct (take_off n d X) as [x X1]. destruct (sweep _ _ _ _ _ _) as [[y Y]|]; [|reflexivity].
    now apply accbrac_overflow.
Qed.
