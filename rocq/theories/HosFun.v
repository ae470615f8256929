(* Taylor coefficients of the elementary functions, characterised by the
   recurrences hos_forward evaluates.  Used by C21.                        *)
From Coq Require Import List ZArith Arith Lia Reals Lra.
From Coquelicot Require Import Coquelicot.
Require Import Verif.AdModel Verif.AdReal Verif.AdDeriv Verif.AdTangent Verif.HosSpec Verif.HosTay.
Set Implicit Arguments.
Unset Asymmetric Patterns.
Local Open Scope R_scope.

Lemma conv_last a b n : conv a b n = rsum n (fun i => a i * b (n - i)%nat) + a n * b 0%nat.
Proof. unfold conv. cbn [rsum]. rewrite Nat.sub_diag. reflexivity. Qed.
Lemma conv_first a b n : conv a b n = a 0%nat * b n + rsum n (fun i => a (S i) * b (n - S i)%nat).
Proof. unfold conv. rewrite rsum_shift. now rewrite Nat.sub_0_r. Qed.

(* exp *)
Lemma tay_exp k x s0 a b : tay k x s0 a -> b 0%nat = exp (a 0%nat) ->
  (forall i, (i < k)%nat -> dcoef b i = conv (dcoef a) b i) ->
  tay k (fun s => exp (x s)) s0 b.
Proof.
  intros H B E. pose proof (tay_val H) as V. destruct k as [|k]; [split; auto; cbv beta; now rewrite V, B|].
  destruct H as [_ (x' & D & T)].
  eapply (@tay_ode (S k) (fun s => exp (x s)) x x' (fun s => exp (x s))); auto.
  - revert D. apply filter_imp. intros s Hs. eapply der_eq; [apply (@d_comp exp); [exact Hs|apply der_exp]|]. ring.
  - rewrite V; auto.
  - intros n Hn Tn. exists (conv (dcoef a) b). split.
    + apply tay_mult; auto. eapply tay_le; [|exact T]. lia.
    + intros i Hi. apply E. lia.
Qed.

(* sin and cos together *)
Lemma tay_sincos k x s0 a bs bc : tay k x s0 a ->
  bs 0%nat = sin (a 0%nat) -> bc 0%nat = cos (a 0%nat) ->
  (forall i, (i < k)%nat -> dcoef bs i = conv (dcoef a) bc i) ->
  (forall i, (i < k)%nat -> dcoef bc i = - conv (dcoef a) bs i) ->
  tay k (fun s => sin (x s)) s0 bs /\ tay k (fun s => cos (x s)) s0 bc.
Proof.
  intros H B1 B2 E1 E2. pose proof (tay_val H) as V.
  assert (Z : tay 0 (fun s => sin (x s)) s0 bs /\ tay 0 (fun s => cos (x s)) s0 bc).
  { split; split; auto; cbv beta; now rewrite V. }
  destruct k as [|k]; auto. destruct H as [_ (x' & D & T)].
  assert (P : forall n, (n <= S k)%nat -> tay n (fun s => sin (x s)) s0 bs /\ tay n (fun s => cos (x s)) s0 bc).
  2:{ now apply P. }
  induction n as [|n IH]; intros Hn; auto.
  destruct IH as [S C]; [lia|].
  assert (Tn : tay n x' s0 (dcoef a)) by (eapply tay_le; [|exact T]; lia).
  split.
  - eapply (@tay_int n _ (fun s => x' s * cos (x s)) s0 bs (conv (dcoef a) bc)).
    + revert D. apply filter_imp. intros s Hs. eapply der_eq; [apply (@d_comp sin); [exact Hs|apply der_sin]|]. ring.
    + now apply tay_mult.
    + rewrite V; auto.
    + intros i Hi. apply E1. lia.
  - eapply (@tay_int n _ (fun s => - (x' s * sin (x s))) s0 bc (fun i => - conv (dcoef a) bs i)).
    + revert D. apply filter_imp. intros s Hs. eapply der_eq; [apply (@d_comp cos); [exact Hs|apply der_cos]|]. ring.
    + apply tay_opp. now apply tay_mult.
    + rewrite V; auto.
    + intros i Hi. apply E2. lia.
Qed.

(* a function whose derivative is at hand *)
Lemma tay_prim k (F : R -> R) x z s0 a c b : tay k x s0 a ->
  (forall n, k = S n -> tay n z s0 c) ->
  (0 < k -> locally s0 (fun s => is_derive F (x s) (z s)))%nat ->
  b 0%nat = F (a 0%nat) ->
  (forall i, (i < k)%nat -> dcoef b i = conv (dcoef a) c i) ->
  tay k (fun s => F (x s)) s0 b.
Proof.
  intros H Z DF B E. pose proof (tay_val H) as V. destruct k as [|k]; [split; auto; cbv beta; now rewrite V|].
  destruct H as [_ (x' & D & T)].
  eapply (@tay_int k _ (fun s => x' s * z s) s0 b (conv (dcoef a) c)).
  - generalize (filter_and _ _ D (DF ltac:(lia))). apply filter_imp. intros s [A C].
    eapply der_eq; [apply (@d_comp F); [exact A|exact C]|]. ring.
  - apply tay_mult; auto.
  - rewrite V; auto.
  - intros i Hi. apply E. lia.
Qed.

(* triangular systems *)
Lemma conv_tri k b b' c : c 0%nat <> 0 ->
  (forall i, (i <= k)%nat -> conv b c i = conv b' c i) -> forall i, (i <= k)%nat -> b i = b' i.
Proof.
  intros N E i. induction i as [i IH] using lt_wf_ind. intros Hi.
  pose proof (E i Hi) as Ei. rewrite !conv_last in Ei.
  rewrite (@rsum_ext i (fun j => b j * c (i - j)%nat) (fun j => b' j * c (i - j)%nat)) in Ei.
  - apply Rplus_eq_reg_l in Ei. now apply Rmult_eq_reg_r in Ei.
  - intros j Hj. rewrite IH by lia. reflexivity.
Qed.
Lemma conv_sq k b b' : b 0%nat <> 0 -> b 0%nat = b' 0%nat ->
  (forall i, (i <= k)%nat -> conv b b i = conv b' b' i) -> forall i, (i <= k)%nat -> b i = b' i.
Proof.
  intros N E0 E i. induction i as [i IH] using lt_wf_ind. intros Hi.
  destruct i as [|i]; auto.
  pose proof (E (S i) Hi) as Ei. rewrite !conv_last, !rsum_shift, !Nat.sub_0_r in Ei.
  rewrite (@rsum_ext i (fun j => b (S j) * b (S i - S j)%nat) (fun j => b' (S j) * b' (S i - S j)%nat)) in Ei.
  - rewrite E0 in Ei, N. assert (X : 2 * b' 0%nat * b (S i) = 2 * b' 0%nat * b' (S i)) by nra.
    apply Rmult_eq_reg_l in X; [exact X|]. apply Rmult_integral_contrapositive_currified; [lra|exact N].
  - intros j Hj. rewrite !IH by lia. reflexivity.
Qed.

Lemma tay_quot k y v s0 u b c : nice k y s0 -> tay k v s0 c -> c 0%nat <> 0 ->
  tay k (fun s => y s * v s) s0 u -> (forall i, (i <= k)%nat -> conv b c i = u i) -> tay k y s0 b.
Proof.
  intros [d Td] Tv N Tu E. eapply tay_coef; [|exact Td].
  apply (@conv_tri k d b c N). intros i Hi. rewrite (E i Hi).
  apply (@tay_unique k (fun s => y s * v s) s0 (conv d c) u); auto. now apply tay_mult.
Qed.

Lemma loc_nz k x s0 a : tay (S k) x s0 a -> x s0 <> 0 -> locally s0 (fun s => x s <> 0).
Proof. intros H N. apply (tay_cont H (fun v => v <> 0)). now apply open_neq. Qed.
Lemma loc_gt0 k x s0 a : tay (S k) x s0 a -> 0 < x s0 -> locally s0 (fun s => 0 < x s).
Proof. intros H N. apply (tay_cont H (fun v => 0 < v)). now apply open_gt. Qed.
Lemma loc_lt0 k x s0 a : tay (S k) x s0 a -> x s0 < 0 -> locally s0 (fun s => x s < 0).
Proof. intros H N. apply (tay_cont H (fun v => v < 0)). now apply open_lt. Qed.

Arguments loc_nz {k x s0 a} _ _.
Arguments loc_gt0 {k x s0 a} _ _.
Arguments loc_lt0 {k x s0 a} _ _.

(* quotient *)
Lemma tay_div k u v s0 a c b : tay k u s0 a -> tay k v s0 c -> v s0 <> 0 ->
  (forall i, (i <= k)%nat -> conv b c i = a i) -> tay k (fun s => u s / v s) s0 b.
Proof.
  intros Hu Hv N E. pose proof (tay_val Hv) as V. pose proof (tay_val Hu) as Vu.
  destruct k as [|k].
  - split; auto. rewrite <- (E 0%nat) in Vu by lia. unfold conv in Vu. cbn in Vu. rewrite V in *. rewrite Vu.
    field. auto.
  - eapply (@tay_quot (S k) _ v s0 a b c).
    + apply nice_mult; [eexists; eauto|eapply inv_nice; eauto].
    + auto.
    + now rewrite <- V.
    + eapply tay_ext_loc; [|exact Hu]. generalize (loc_nz Hv N). apply filter_imp.
      intros s Hs. field. auto.
    + auto.
Qed.

(* logarithm *)
Lemma tay_log k x s0 a b : tay k x s0 a -> 0 < x s0 -> b 0%nat = ln (a 0%nat) ->
  (forall i, (i < k)%nat -> conv (dcoef b) a i = dcoef a i) -> tay k (fun s => ln (x s)) s0 b.
Proof.
  intros H P B E. pose proof (tay_val H) as V. destruct k as [|k]; [split; auto; cbv beta; now rewrite V|].
  pose proof (tay_mono H) as M. pose proof (loc_gt0 H P) as L.
  destruct H as [_ (x' & D & T)].
  assert (Q : tay k (fun s => x' s / x s) s0 (dcoef b)).
  { eapply tay_div; eauto; [lra|]. intros i Hi. apply E. lia. }
  eapply (@tay_int k _ _ s0 b _ _ Q); auto.
  - rewrite V; auto.
  - Unshelve. generalize (filter_and _ _ D L). apply filter_imp. intros s [A C].
    eapply der_eq; [apply (@d_comp ln); [exact A|now apply der_ln]|]. field. lra.
Qed.

(* power *)
Lemma tay_pow k x s0 c a b : tay k x s0 a -> (0 < x s0 \/ (x s0 < 0 /\ c = Rfloor c)) ->
  b 0%nat = Rvpow (a 0%nat) c ->
  (forall i, (i < k)%nat -> conv (dcoef b) a i = c * conv (dcoef a) b i) ->
  tay k (fun s => Rvpow (x s) c) s0 b.
Proof.
  intros H P B E. pose proof (tay_val H) as V. destruct k as [|k]; [split; auto; cbv beta; now rewrite V|].
  assert (N : x s0 <> 0) by (destruct P as [P|[P _]]; lra).
  pose proof (loc_nz H N) as LN.
  assert (L : locally s0 (fun s => 0 < x s \/ (x s < 0 /\ c = Rfloor c))).
  { destruct P as [P|[P P2]].
    - generalize (loc_gt0 H P). apply filter_imp. auto.
    - generalize (loc_lt0 H P). apply filter_imp. auto. }
  pose proof H as H0. destruct H as [_ (x' & D & T)].
  assert (DD : locally s0 (fun s => is_derive (fun s => Rvpow (x s) c) s (x' s * (c * (Rvpow (x s) c * / x s))))).
  { generalize (filter_and _ _ D L). apply filter_imp. intros s [A C].
    eapply der_eq; [apply (@d_comp (fun v => Rvpow v c)); [exact A|now apply der_vpow]|]. unfold Rdiv. ring. }
  eapply (@tay_ode (S k) _ x x' _ s0 b D DD); [rewrite V; auto|].
  intros n Hn Tn.
  assert (Tx : tay n x s0 a) by (apply (@tay_le (S k)); [lia|exact H0]).
  assert (Tx' : tay n x' s0 (dcoef a)) by (apply (@tay_le k); [lia|exact T]).
  exists (dcoef b). split; auto.
  eapply (@tay_quot n _ x s0 (fun i => c * conv (dcoef a) b i) (dcoef b) a); auto.
  - apply nice_mult; [eexists; eauto|]. apply nice_scal, nice_mult; [eexists; eauto|].
    eapply inv_nice; eauto.
  - now rewrite <- V.
  - eapply tay_ext_loc; [|apply tay_scal, tay_mult; [exact Tx'|exact Tn]].
    revert LN. apply filter_imp. intros s Hs. cbv beta. field. auto.
  - intros i Hi. apply E. lia.
Qed.

(* square root *)
Lemma sqrt_nice k x s0 a : tay k x s0 a -> 0 < x s0 -> nice k (fun s => sqrt (x s)) s0.
Proof.
  revert x a. induction k; intros x a H P; [apply nice_0|].
  pose proof (tay_mono H) as M. pose proof (loc_gt0 H P) as L.
  pose proof (@IHk x a M P) as I.
  destruct H as [_ (x' & D & T)].
  apply nice_int with (h := fun s => / 2 * (x' s * (sqrt (x s) * / x s))).
  - generalize (filter_and _ _ D L). apply filter_imp. intros s [A B].
    eapply der_eq; [apply (@d_comp sqrt); [exact A|now apply der_sqrt]|].
    pose proof (sqrt_lt_R0 _ B) as S. rewrite <- (sqrt_def (x s)) at 3 by lra. field. lra.
  - apply nice_scal, nice_mult; [eexists; eauto|]. apply nice_mult; auto. eapply inv_nice; eauto. lra.
Qed.
Arguments sqrt_nice {k x s0 a} _ _.
Lemma tay_sqrt k x s0 a b : tay k x s0 a -> 0 < x s0 -> b 0%nat = sqrt (a 0%nat) ->
  (forall i, (i <= k)%nat -> conv b b i = a i) -> tay k (fun s => sqrt (x s)) s0 b.
Proof.
  intros H P B E. pose proof (tay_val H) as V.
  assert (SP : 0 < sqrt (a 0%nat)) by (apply sqrt_lt_R0; now rewrite <- V).
  destruct k as [|k]; [split; auto; cbv beta; now rewrite V|].
  destruct (sqrt_nice H P) as [d Td]. eapply tay_coef; [|exact Td].
  intros i Hi. symmetry. revert i Hi. apply conv_sq.
  - rewrite B. lra.
  - rewrite B. apply tay_val in Td. cbv beta in Td. now rewrite <- Td, V.
  - intros i Hi. rewrite (E i Hi).
    apply (@tay_unique (S k) (fun s => sqrt (x s) * sqrt (x s)) s0 a (conv d d)); auto.
    + eapply tay_ext_loc; [|exact H]. generalize (loc_gt0 H P). apply filter_imp.
      intros s Hs. rewrite sqrt_def; lra.
    + now apply tay_mult.
Qed.
