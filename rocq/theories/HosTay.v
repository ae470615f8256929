(* Taylor coefficients of sums, products, solutions of differential
   equations.  Used by C21.                                               *)
From Coq Require Import List Arith Lia Reals Lra.
From Coquelicot Require Import Coquelicot.
Require Import Verif.AdModel Verif.AdReal Verif.AdDeriv Verif.HosSpec.
Set Implicit Arguments.
Unset Asymmetric Patterns.
Local Open Scope R_scope.

(* ------------------------------------------------------------------ *)
(* finite sums                                                          *)

Fixpoint rsum (n : nat) (f : nat -> R) : R :=
  match n with 0%nat => 0 | S n' => rsum n' f + f n' end.

Lemma rsum_ext n f g : (forall i, (i < n)%nat -> f i = g i) -> rsum n f = rsum n g.
Proof. induction n; cbn; intros H; auto. rewrite IHn, H by (auto with arith). reflexivity. Qed.
Lemma rsum_plus n f g : rsum n (fun i => f i + g i) = rsum n f + rsum n g.
Proof. induction n; cbn; rewrite ?IHn; ring. Qed.
Lemma rsum_scal n c f : rsum n (fun i => c * f i) = c * rsum n f.
Proof. induction n; cbn; rewrite ?IHn; ring. Qed.
Lemma rsum_shift n f : rsum (S n) f = f 0%nat + rsum n (fun i => f (S i)).
Proof. induction n; [cbn; ring|]. cbn [rsum] in *. rewrite IHn. ring. Qed.
Lemma rsum_rev n : forall f, rsum n f = rsum n (fun i => f (n - 1 - i)%nat).
Proof.
  induction n; intros f; [reflexivity|]. rewrite (rsum_shift n (fun i => f (S n - 1 - i)%nat)).
  cbn [rsum]. rewrite IHn. replace (S n - 1 - 0)%nat with n by lia.
  rewrite (@rsum_ext n (fun i => f (S n - 1 - S i)%nat) (fun i => f (n - 1 - i)%nat));
    [ring|intros i Hi; f_equal; lia].
Qed.
Lemma rsum_zero n f : (forall i, (i < n)%nat -> f i = 0) -> rsum n f = 0.
Proof. induction n; cbn; intros H; auto. rewrite IHn, H by auto. ring. Qed.

Definition conv (a b : nat -> R) (n : nat) : R := rsum (S n) (fun i => a i * b (n - i)%nat).
Definition dcoef (a : nat -> R) (i : nat) : R := INR (S i) * a (S i).

Lemma conv_comm a b n : conv a b n = conv b a n.
Proof.
  unfold conv. rewrite rsum_rev. apply rsum_ext. intros i Hi.
  replace (S n - 1 - i)%nat with (n - i)%nat by lia.
  replace (n - (n - i))%nat with i by lia. ring.
Qed.
Lemma conv_ext a a' b b' n : (forall i, (i <= n)%nat -> a i = a' i) ->
  (forall i, (i <= n)%nat -> b i = b' i) -> conv a b n = conv a' b' n.
Proof. intros A B. apply rsum_ext. intros i Hi. rewrite A, B by lia. reflexivity. Qed.

(* (fg)' = f'g + fg' for the coefficients *)
Lemma conv_dcoef a b n : dcoef (conv a b) n = conv (dcoef a) b n + conv a (dcoef b) n.
Proof.
  unfold dcoef at 1. unfold conv at 1. rewrite <- rsum_scal.
  rewrite (@rsum_ext (S (S n)) _ (fun i => INR i * a i * b (S n - i)%nat
      + a i * (INR (S n - i) * b (S n - i)%nat))).
  2:{ intros i Hi. rewrite minus_INR by lia. ring. }
  rewrite rsum_plus. f_equal.
  - rewrite rsum_shift. unfold conv. replace (INR 0) with 0 by reflexivity.
    rewrite Rmult_0_l, Rmult_0_l, Rplus_0_l. apply rsum_ext. intros i Hi. unfold dcoef.
    replace (S n - S i)%nat with (n - i)%nat by lia. ring.
  - cbn [rsum]. replace (S n - S n)%nat with 0%nat by lia. change (INR 0) with 0.
    rewrite Rmult_0_l, Rmult_0_r, Rplus_0_r. unfold conv. cbn [rsum].
    f_equal; [apply rsum_ext; intros i Hi|].
    + unfold dcoef. replace (S n - i)%nat with (S (n - i)) by lia. reflexivity.
    + unfold dcoef. replace (S n - n)%nat with 1%nat by lia. replace (n - n)%nat with 0%nat by lia. ring.
Qed.

(* ------------------------------------------------------------------ *)
(* inductive form of "are the Taylor coefficients"                      *)

Fixpoint tay (k : nat) (f : R -> R) (s0 : R) (a : nat -> R) : Prop :=
  f s0 = a 0%nat /\
  match k with
  | 0%nat => True
  | S k' => exists f', locally s0 (fun s => is_derive f s (f' s)) /\ tay k' f' s0 (dcoef a)
  end.

Lemma tay_val k f s0 a : tay k f s0 a -> f s0 = a 0%nat.
Proof. destruct k; intros H; apply H. Qed.
Lemma tay_der k f s0 a : tay (S k) f s0 a -> is_derive f s0 (a 1%nat).
Proof.
  intros [_ (f' & L & H)]. apply tay_val in H. apply locally_singleton in L.
  eapply der_eq; [exact L|]. rewrite H. unfold dcoef. cbn. ring.
Qed.

Lemma tay_ext_loc k : forall f g s0 a, locally s0 (fun s => f s = g s) -> tay k f s0 a -> tay k g s0 a.
Proof.
  destruct k; intros f g s0 a L [H T]; (split; [rewrite <- H; symmetry; now apply locally_singleton in L|]); auto.
  destruct T as (f' & D & T). exists f'. split; auto.
  pose proof (locally_locally _ _ L) as LL.
  generalize (filter_and _ _ LL D). apply filter_imp. intros s [A B].
  eapply der_loc; [|exact B]. exact A.
Qed.
Lemma tay_ext k f g s0 a : (forall s, f s = g s) -> tay k f s0 a -> tay k g s0 a.
Proof. intros E. apply tay_ext_loc. now apply filter_forall. Qed.
Lemma tay_coef k : forall f s0 a b, (forall i, (i <= k)%nat -> a i = b i) -> tay k f s0 a -> tay k f s0 b.
Proof.
  induction k; intros f s0 a b E [H T]; (split; [rewrite H; apply E; lia|]); auto.
  destruct T as (f' & D & T). exists f'. split; auto. eapply IHk; [|exact T].
  intros i Hi. unfold dcoef. rewrite E by lia. reflexivity.
Qed.
Lemma tay_mono k : forall f s0 a, tay (S k) f s0 a -> tay k f s0 a.
Proof.
  induction k; intros f s0 a [H T]; (split; [exact H|]); auto.
  destruct T as (f' & D & T). exists f'. split; auto.
Qed.
Lemma tay_le k k' f s0 a : (k' <= k)%nat -> tay k f s0 a -> tay k' f s0 a.
Proof. induction 1; auto. intros H1. apply IHle. now apply tay_mono. Qed.

Lemma tay_const k c s0 : tay k (fun _ => c) s0 (fun i => match i with 0%nat => c | _ => 0 end).
Proof.
  revert c. induction k; intros c; (split; [reflexivity|]); auto.
  exists (fun _ => 0). split.
  - apply filter_forall. intros s. apply d_const.
  - eapply tay_coef; [|apply IHk]. intros i _. unfold dcoef. destruct i; cbn; ring.
Qed.
Lemma tay_plus k : forall f g s0 a b, tay k f s0 a -> tay k g s0 b ->
  tay k (fun s => f s + g s) s0 (fun i => a i + b i).
Proof.
  induction k; intros f g s0 a b [H T] [H2 T2]; (split; [now rewrite H, H2|]); auto.
  destruct T as (f' & D & T), T2 as (g' & D2 & T2). exists (fun s => f' s + g' s). split.
  - generalize (filter_and _ _ D D2). apply filter_imp. intros s [A B]. now apply d_plus.
  - eapply tay_coef; [|apply IHk; eauto]. intros i _. unfold dcoef. cbv beta. ring.
Qed.
Lemma tay_scal k c : forall f s0 a, tay k f s0 a -> tay k (fun s => c * f s) s0 (fun i => c * a i).
Proof.
  induction k; intros f s0 a [H T]; (split; [now rewrite H|]); auto.
  destruct T as (f' & D & T). exists (fun s => c * f' s). split.
  - revert D. apply filter_imp. intros s A. eapply der_eq; [apply d_mult; [apply d_const|exact A]|].
    cbv beta. ring.
  - eapply tay_coef; [|apply IHk; eauto]. intros i _. unfold dcoef. cbv beta. ring.
Qed.
Lemma tay_opp k f s0 a : tay k f s0 a -> tay k (fun s => - f s) s0 (fun i => - a i).
Proof.
  intros H. eapply tay_ext; [|eapply tay_coef; [|apply (@tay_scal k (-1) _ _ _ H)]];
    intros; cbv beta; ring.
Qed.
Lemma tay_minus k f g s0 a b : tay k f s0 a -> tay k g s0 b ->
  tay k (fun s => f s - g s) s0 (fun i => a i - b i).
Proof. intros A B. apply (@tay_plus k f (fun s => - g s)); auto. now apply tay_opp. Qed.
Lemma tay_mult k : forall f g s0 a b, tay k f s0 a -> tay k g s0 b ->
  tay k (fun s => f s * g s) s0 (conv a b).
Proof.
  induction k; intros f g s0 a b Hf Hg.
  - destruct Hf as [H _], Hg as [H2 _]. split; auto. rewrite H, H2. unfold conv. cbn. ring.
  - pose proof (tay_mono Hf) as Mf. pose proof (tay_mono Hg) as Mg.
    destruct Hf as [H (f' & D & T)], Hg as [H2 (g' & D2 & T2)]. split.
    { rewrite H, H2. unfold conv. cbn. ring. }
    exists (fun s => f' s * g s + f s * g' s). split.
    + generalize (filter_and _ _ D D2). apply filter_imp. intros s [A B]. now apply d_mult.
    + eapply tay_coef; [|apply tay_plus; apply IHk; eauto].
      intros i _. cbv beta. symmetry. apply conv_dcoef.
Qed.

Lemma tay_unique k : forall f s0 a b, tay k f s0 a -> tay k f s0 b ->
  forall i, (i <= k)%nat -> a i = b i.
Proof.
  induction k; intros f s0 a b Ha Hb i Hi.
  - destruct Ha as [A _], Hb as [B _]. replace i with 0%nat by lia. congruence.
  - destruct i as [|i]; [apply tay_val in Ha; apply tay_val in Hb; congruence|].
    destruct Ha as [_ (f' & D & T)], Hb as [_ (g' & D2 & T2)].
    assert (T' : tay k f' s0 (dcoef b)).
    { eapply tay_ext_loc; [|exact T2]. generalize (filter_and _ _ D D2). apply filter_imp.
      intros s [A B]. apply is_derive_unique in A. apply is_derive_unique in B. congruence. }
    pose proof (@IHk _ _ _ _ T T' i ltac:(lia)) as E. unfold dcoef in E.
    apply Rmult_eq_reg_l in E; auto. apply not_0_INR. lia.
Qed.

(* integration *)
Lemma tay_int k f h s0 a c : locally s0 (fun s => is_derive f s (h s)) -> tay k h s0 c ->
  f s0 = a 0%nat -> (forall i, (i <= k)%nat -> dcoef a i = c i) -> tay (S k) f s0 a.
Proof.
  intros D T H E. split; auto. exists h. split; auto. eapply tay_coef; [|exact T].
  intros i Hi. now rewrite E.
Qed.

(* f is k times differentiable around s0 *)
Definition nice (k : nat) (f : R -> R) (s0 : R) : Prop := exists a, tay k f s0 a.
Lemma nice_mult k f g s0 : nice k f s0 -> nice k g s0 -> nice k (fun s => f s * g s) s0.
Proof. intros [a A] [b B]. eexists. apply tay_mult; eassumption. Qed.
Lemma nice_scal k c f s0 : nice k f s0 -> nice k (fun s => c * f s) s0.
Proof. intros [a A]. eexists. apply tay_scal; eassumption. Qed.
Lemma nice_int k f h s0 : locally s0 (fun s => is_derive f s (h s)) -> nice k h s0 -> nice (S k) f s0.
Proof.
  intros D [c T].
  exists (fun i => match i with 0%nat => f s0 | S j => c j / INR (S j) end).
  eapply tay_int; eauto. intros i _. unfold dcoef. field. apply not_0_INR. lia.
Qed.
Lemma nice_0 f s0 : nice 0 f s0.
Proof. exists (fun _ => f s0). split; auto. Qed.

Lemma tay_cont k f s0 a : tay (S k) f s0 a -> continuous f s0.
Proof.
  intros H. apply tay_der in H. apply (@ex_derive_continuous R_AbsRing R_NormedModule). eexists; exact H.
Qed.

(* y' = x' P(y) : the coefficients follow the recurrence *)
Lemma tay_ode k (y x x' G : R -> R) s0 b :
  locally s0 (fun s => is_derive x s (x' s)) ->
  locally s0 (fun s => is_derive y s (x' s * G s)) ->
  y s0 = b 0%nat ->
  (forall n, (n < k)%nat -> tay n y s0 b -> exists c, tay n (fun s => x' s * G s) s0 c /\
     forall i, (i <= n)%nat -> dcoef b i = c i) ->
  tay k y s0 b.
Proof.
  intros Dx D H E. induction k as [|k IH].
  - split; auto.
  - assert (T : tay k y s0 b) by (apply IH; auto).
    destruct (E k ltac:(lia) T) as (c & Tc & Ec). exact (@tay_int k y _ s0 b c D Tc H Ec).
Qed.

(* 1/x *)
Lemma inv_nice k x s0 a : tay k x s0 a -> x s0 <> 0 -> nice k (fun s => / x s) s0.
Proof.
  revert x a. induction k; intros x a H N; [apply nice_0|].
  pose proof (tay_cont H) as C. pose proof (tay_mono H) as M.
  pose proof (@IHk x a M N) as I.
  destruct H as [_ (x' & D & T)].
  apply nice_int with (h := fun s => (-1) * (x' s * (/ x s * / x s))).
  - assert (L : locally s0 (fun s => x s <> 0)).
    { apply (C (fun v => v <> 0)). now apply open_neq. }
    generalize (filter_and _ _ D L). apply filter_imp. intros s [A B].
    eapply der_eq; [apply is_derive_inv; eauto|]. field. auto.
  - apply nice_scal, nice_mult; [eexists; eauto|now apply nice_mult].
Qed.

(* the two forms agree *)
Lemma tay_taylor k : forall f s0 a, tay k f s0 a -> taylor k f s0 a.
Proof.
  induction k; intros f s0 a H.
  - destruct H as [H _]. split.
    + apply filter_forall. intros s i Hi. replace i with 0%nat by lia. exact I.
    + intros i Hi. replace i with 0%nat by lia. cbn. rewrite H. ring.
  - destruct H as [H (f' & D & T)]. destruct (IHk _ _ _ T) as [P Q].
    pose proof (locally_locally _ _ D) as DD.
    assert (X : forall s, locally s (fun s => is_derive f s (f' s)) -> forall i, Derive_n f (S i) s = Derive_n f' i s).
    { intros s L i. rewrite <- (Nat.add_1_r i), <- (Derive_n_comp f i 1 s).
      apply Derive_n_ext_loc. revert L. apply filter_imp. intros t Ht. now apply is_derive_unique. }
    assert (XX : forall s, locally s (fun s => is_derive f s (f' s)) -> forall i, ex_derive_n f' i s -> ex_derive_n f (S i) s).
    { intros s L i E. destruct i as [|i].
      - cbn. exists (f' s). now apply locally_singleton in L.
      - cbn in E |- *. eapply ex_derive_ext_loc; [|exact E].
        pose proof (locally_locally _ _ L) as LL. revert LL. apply filter_imp. intros t Ht.
        symmetry. now apply X. }
    split.
    + generalize (filter_and _ _ P DD). apply filter_imp. intros s [A B] i Hi.
      destruct i as [|i]; [exact I|]. apply XX; auto. apply A. lia.
    + intros i Hi. destruct i as [|i]; [cbn; rewrite H; ring|].
      rewrite X, Q by (auto; lia). unfold dcoef. rewrite fact_simpl, mult_INR. ring.
Qed.

Lemma taylor_tay k : forall f s0 a, taylor k f s0 a -> tay k f s0 a.
Proof.
  induction k; intros f s0 a [P Q].
  - split; auto. specialize (Q 0%nat (le_n _)). cbn in Q. rewrite Q. ring.
  - assert (X : forall i s, Derive_n (Derive f) i s = Derive_n f (S i) s).
    { intros i s. rewrite <- (Nat.add_1_r i), <- (Derive_n_comp f i 1 s). reflexivity. }
    split. { specialize (Q 0%nat ltac:(lia)). cbn in Q. rewrite Q. ring. }
    exists (Derive f). split.
    + revert P. apply filter_imp. intros s Hs. apply Derive_correct. exact (Hs 1%nat ltac:(lia)).
    + apply IHk. split.
      * revert P. apply filter_imp. intros s Hs i Hi. destruct i as [|i]; [exact I|].
        cbn. eapply ex_derive_ext; [|exact (Hs (S (S i)) ltac:(lia))]. intros t. cbv beta. now rewrite X.
      * intros i Hi. rewrite X, Q by lia. unfold dcoef. rewrite fact_simpl, mult_INR. ring.
Qed.

Arguments tay_val {k f s0 a} _.
Arguments tay_der {k f s0 a} _.
Arguments tay_mono {k f s0 a} _.
Arguments tay_cont {k f s0 a} _ _.
