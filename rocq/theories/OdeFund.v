(* C46: what accodec computes are the Taylor coefficients of the fundamental matrix. *)
From Coq Require Import List ZArith Bool Arith Lia Reals Lra.
From Coquelicot Require Import Coquelicot.
Require Import Verif.AdModel Verif.AdReal Verif.HosModel Verif.HosSpec Verif.HosTay Verif.OdeModel Verif.OdeSpec Verif.OdeAcc.
Import ListNotations.
Set Implicit Arguments.
Unset Asymmetric Patterns.
Local Open Scope R_scope.

Lemma tay_total k s0 n (f : nat -> R -> R) (c : nat -> nat -> R) : (forall p, (p < n)%nat -> tay k (f p) s0 (c p)) ->
  tay k (fun s => total_of n (fun p => f p s)) s0 (fun i => total_of n (fun p => c p i)).
Proof.
  induction n as [|n IH]; intros H; cbn [total_of].
  - eapply tay_coef; [|apply (tay_const k 0)]. intros [|i] _; reflexivity.
  - apply tay_plus; auto.
Qed.
Lemma total_delta n (f : nat -> R) j : (j < n)%nat -> total_of n (fun p => f p * (if (p =? j)%nat then 1 else 0)) = f j.
Proof.
  intros H. induction n as [|n IH]; [lia|]. cbn [total_of]. destruct (Nat.eqb_spec n j) as [->|N].
  - rewrite (@total_zero j); [ring|]. intros i Hi. destruct (Nat.eqb_spec i j); [lia|ring].
  - rewrite IH by lia. ring.
Qed.
Lemma total_add n f g : total_of n (fun p => f p + g p) = total_of n f + total_of n g.
Proof. induction n as [|n IH]; cbn [total_of]; [ring|]. rewrite IH. ring. Qed.

Theorem C46_fundamental n tau deg (J P : R -> nat -> nat -> R) (A B : nat -> nat -> nat -> R) :
  fundamental n tau J P ->
  (forall i j, (i < n)%nat -> (j < n)%nat -> taylor deg (fun s => J s i j) 0 (A i j)) ->
  total_jacobians n tau deg A B ->
  forall i j, (i < n)%nat -> (j < n)%nat ->
    taylor (S deg) (fun s => P s i j) 0 (joined (if (i =? j)%nat then 1 else 0) (B i j)).
Proof.
  intros [P0 PD] HJ Rec.
  assert (Q : forall d, (d <= S deg)%nat -> forall i j, (i < n)%nat -> (j < n)%nat -> tay d (fun s => P s i j) 0 (joined (if (i =? j)%nat then 1 else 0) (B i j))).
  { induction d as [|d IH]; intros Hd i j Hi Hj.
    - split; [cbn [joined]; now apply P0|exact Logic.I].
    - eapply (@tay_int d _ _ 0 _ _ (PD i j Hi Hj)).
      + apply tay_scal. apply tay_total. intros p Hp. apply tay_mult.
        * apply (@tay_le deg d); [lia|]. apply taylor_tay. now apply HJ.
        * apply IH; auto; lia.
      + cbn [joined]. now apply P0.
      + intros m Hm. cbv beta. unfold dcoef. cbn [joined]. rewrite (Rec m i j) by (auto; lia).
        assert (S0 : INR (S m) <> 0) by (apply not_0_INR; lia).
        replace (INR (S m) * (tau / INR (S m) * (A i j m + total_of n (fun p => total_of m (fun q => A i p q * B p j (m - 1 - q)%nat)))))
          with (tau * (A i j m + total_of n (fun p => total_of m (fun q => A i p q * B p j (m - 1 - q)%nat)))) by (field; exact S0).
        f_equal. rewrite <- (@total_delta n (fun p => A i p m) j Hj). rewrite <- total_add. apply total_ext. intros p Hp.
        unfold conv. cbn [rsum]. rewrite Nat.sub_diag. cbn [joined]. rewrite Rplus_comm. f_equal.
        refine (@total_ext m _ _ _). intros q Hq. replace (m - q)%nat with (S (m - 1 - q)) by lia. reflexivity. }
  intros i j Hi Hj. apply tay_taylor. apply Q; auto.
Qed.

(* end to end *)
Theorem C46_accode_fundamental n tau deg a b (M : arrays reals) (J P : R -> nat -> nat -> R) : a <> b ->
  fundamental n tau J P -> 
  (forall i j, (i < n)%nat -> (j < n)%nat -> taylor deg (fun s => J s i j) 0 (M a i j)) ->
  forall i j, (i < n)%nat -> (j < n)%nat ->
    taylor (S deg) (fun s => P s i j) 0 (joined (if (i =? j)%nat then 1 else 0) (@accodec_dense reals n tau deg a b M b i j)).
Proof. intros Ab F HJ i j Hi Hj. destruct (@C46_accode n tau deg a b M Ab) as [Q _]. eapply C46_fundamental; eauto. Qed.
Theorem C46_accode_sparse_fundamental n tau deg a b (M : arrays reals) z (J P : R -> nat -> nat -> R) : a <> b ->
  describes n z (M a) -> (forall i j, (i < n)%nat -> (j < n)%nat -> (0 <= z i j)%Z) -> fundamental n tau J P -> 
  (forall i j, (i < n)%nat -> (j < n)%nat -> taylor deg (fun s => J s i j) 0 (M a i j)) ->
  forall i j, (i < n)%nat -> (j < n)%nat ->
    taylor (S deg) (fun s => P s i j) 0 (joined (if (i =? j)%nat then 1 else 0) (fst (@accodec_sparse reals n tau deg a b (M, z)) b i j)).
Proof.
  intros Ab De Po F HJ i j Hi Hj. pose proof (@C46_accode_sparse n a b Ab tau deg M z De Po) as Q.
  destruct (@accodec_sparse reals n tau deg a b (M, z)) as [M2 z2]. destruct Q as [Q _]. eapply C46_fundamental; eauto.
Qed.

(* the hypotheses are met: x' = x, P = exp *)
Lemma exp_taylor deg : taylor deg exp 0 (fun k => / INR (fact k)).
Proof.
  apply tay_taylor. induction deg as [|d IH]; [split; [rewrite exp_0; cbn; lra|exact Logic.I]|].
  eapply (@tay_int d _ _ 0 _ _ ltac:(apply filter_forall; intros; apply is_derive_exp) IH).
  - rewrite exp_0. cbn. lra.
  - intros i _. unfold dcoef. rewrite fact_simpl, mult_INR. field. split; [apply INR_fact_neq_0|apply not_0_INR; lia].
Qed.
Theorem C46_met deg : exists (M : arrays reals) z (J P : R -> nat -> nat -> R),
  describes 1 z (M 0%nat) /\ (0 <= z 0%nat 0%nat)%Z /\ fundamental 1 1 J P /\ taylor deg (fun s => J s 0%nat 0%nat) 0 (M 0%nat 0%nat 0%nat) /\
  forall k, (k <= deg)%nat -> @accodec_dense reals 1 1 deg 0 1 M 1%nat 0%nat 0%nat k = / INR (fact (S k)).
Proof.
  set (M := (fun _ _ _ k => match k with 0%nat => 1 | _ => 0 end) : arrays reals).
  assert (F : fundamental 1 1 (fun _ _ _ => 1) (fun s _ _ => exp s)).
  { split.
    - intros i j Hi Hj. replace i with 0%nat by lia. replace j with 0%nat by lia. exact exp_0.
    - intros i j Hi Hj. apply filter_forall. intros s. cbn [total_of]. replace (1 * (0 + 1 * exp s)) with (exp s) by ring. apply is_derive_exp. }
  assert (T : taylor deg (fun _ : R => 1) 0 (M 0%nat 0%nat 0%nat)) by (apply tay_taylor, (tay_const deg 1 0)).
  exists M, (fun _ _ => 1%Z), (fun _ _ _ => 1), (fun s _ _ => exp s). split; [|split; [lia|split; [exact F|split; [exact T|]]]].
  - intros i j [|k] _ _ [H|[_ H]]; [lia|lia|lia|reflexivity].
  - intros k Hk. pose proof (@C46_accode_fundamental 1 1 deg 0 1 M (fun _ _ _ => 1) (fun s _ _ => exp s) ltac:(lia) F) as Q.
    assert (Q' : taylor (S deg) (fun s => exp s) 0 (joined 1 (@accodec_dense reals 1 1 deg 0 1 M 1%nat 0%nat 0%nat))).
    { apply (Q) with (i := 0%nat) (j := 0%nat); [|lia|lia]. intros i j Hi Hj. replace i with 0%nat by lia. replace j with 0%nat by lia. exact T. }
    apply taylor_tay in Q'. exact (@tay_unique (S deg) _ _ _ _ Q' (taylor_tay (exp_taylor (S deg))) (S k) ltac:(lia)).
Qed.

(* The comment says that A and B may be the same array: not so. *)
Theorem C46_in_place_refuted : exists (M : arrays reals),
  @accodec_dense reals 1 1 2 0 1 M 1%nat 0%nat 0%nat 2%nat = 1 / 6 /\
  @accodec_dense reals 1 1 2 0 0 M 0%nat 0%nat 0%nat 2%nat = 1 / 3.
Proof.
  exists (fun _ _ _ k => match k with 0%nat => 1 | _ => 0 end). 
  split; unfold accodec_dense, dense_entry, wr; cbn -[INR Rdiv]; cbn [INR]; lra.
Qed.
(* "nonzero <= 0 implies A = 0 for all k" is not enough: a negative entry suppresses
   coefficients.  A_0 = ((0,1),(0,0)) + unit matrix, entry (0,1) of B_1 through (0,1)... *)
Theorem C46_negative_entry_refuted : exists (M : arrays reals) (z : nz),
  describes 3 z (M 0%nat) /\
  ~ total_jacobians 3 1 1 (M 0%nat) (fst (@accodec_sparse reals 3 1 1 0 1 (M, z)) 1%nat).
Proof.
  (* A_0 has the entries (0,1) and (1,2) only *)
  exists (fun _ i j k => if ((k =? 0) && ((i =? 0) && (j =? 1) || (i =? 1) && (j =? 2)))%nat then 1 else 0),
         (fun i j => if ((i =? 0) && (j =? 1) || (i =? 1) && (j =? 2))%nat then 1%Z else (-2)%Z).
  split.
  - intros i j k _ _ H. destruct ((i =? 0)%nat && (j =? 1)%nat || (i =? 1)%nat && (j =? 2)%nat) eqn:E.
    + destruct H as [H|[_ H]]; [lia|]. destruct k; [lia|]. reflexivity.
    + now rewrite andb_false_r.
  - intros H. specialize (H 1%nat 0%nat 2%nat ltac:(lia) ltac:(lia) ltac:(lia)). revert H.
    unfold accodec_sparse, sparse_entry, wr. cbn -[INR Rdiv]. cbn [INR]. lra.
Qed.
(* On return "k <= -nonzero implies B = 0" holds with < only. *)
Theorem C46_exit_bound_refuted : exists (M : arrays reals) (z : nz),
  describes 3 z (M 0%nat) /\ (forall i j, (0 <= z i j)%Z) /\
  let (M', z') := @accodec_sparse reals 3 1 1 0 1 (M, z) in
  (Z.of_nat 1 <= - z' 0%nat 2%nat)%Z /\ M' 1%nat 0%nat 2%nat 1%nat <> 0.
Proof.
  exists (fun _ i j k => if ((k =? 0) && ((i =? 0) && (j =? 1) || (i =? 1) && (j =? 2)))%nat then 1 else 0),
         (fun i j => if ((i =? 0) && (j =? 1) || (i =? 1) && (j =? 2))%nat then 1%Z else 0%Z).
  split; [|split].
  - intros i j k _ _ H. destruct ((i =? 0)%nat && (j =? 1)%nat || (i =? 1)%nat && (j =? 2)%nat) eqn:E.
    + destruct H as [H|[_ H]]; [lia|]. destruct k; [lia|]. reflexivity.
    + now rewrite andb_false_r.
  - intros i j. destruct ((i =? 0)%nat && (j =? 1)%nat || (i =? 1)%nat && (j =? 2)%nat); lia.
  - unfold accodec_sparse, sparse_entry, wr, setnz. cbn -[INR Rdiv]. split; [lia|]. cbn [INR]. lra.
Qed.
