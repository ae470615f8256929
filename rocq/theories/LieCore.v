(* C53: the series of the Lie derivatives along a trajectory. *)
From Coq Require Import List ZArith Bool Arith Lia Reals Lra.
From Coquelicot Require Import Coquelicot.
Require Import Verif.AdModel Verif.AdReal Verif.HosModel Verif.HosSpec Verif.HosTay Verif.HosProofs Verif.HosProps Verif.HosEx Verif.AdDeriv
  Verif.OdeModel Verif.OdeSpec Verif.OdeAcc Verif.OdeFund Verif.DrvModel Verif.DrvSpec Verif.LieSpec.
Import ListNotations.
Set Implicit Arguments.
Unset Asymmetric Patterns.
Local Open Scope R_scope.

Lemma total_scal n c f : total_of n (fun p => c * f p) = c * total_of n f.
Proof. induction n as [|n IH]; cbn [total_of]; [ring|]. rewrite IH. ring. Qed.
Lemma total_scalr n c f : total_of n (fun p => f p * c) = total_of n f * c.
Proof. induction n as [|n IH]; cbn [total_of]; [ring|]. rewrite IH. ring. Qed.
Lemma total_swap n m (f : nat -> nat -> R) : total_of n (fun p => total_of m (f p)) = total_of m (fun q => total_of n (fun p => f p q)).
Proof.
  induction n as [|n IH]; cbn [total_of].
  - rewrite total_zero; [reflexivity|]. reflexivity.
  - rewrite IH, <- total_add. reflexivity.
Qed.
Lemma total_minus n f g : total_of n (fun p => f p - g p) = total_of n f - total_of n g.
Proof. induction n as [|n IH]; cbn [total_of]; [ring|]. rewrite IH. ring. Qed.

Lemma d_total n (f f' : nat -> R -> R) s : (forall p, (p < n)%nat -> is_derive (f p) s (f' p s)) ->
  is_derive (fun s => total_of n (fun p => f p s)) s (total_of n (fun p => f' p s)).
Proof.
  induction n as [|n IH]; intros H; cbn [total_of].
  - apply (is_derive_const 0 s).
  - apply (@is_derive_plus R_AbsRing R_NormedModule); [apply IH; intros; apply H; lia|apply H; lia].
Qed.

Lemma locally_all n s0 (P : nat -> R -> Prop) : (forall p, (p < n)%nat -> locally s0 (P p)) -> locally s0 (fun s => forall p, (p < n)%nat -> P p s).
Proof.
  induction n as [|n IH]; intros H.
  - apply filter_forall. intros; lia.
  - assert (Q : locally s0 (fun s => (forall p, (p < n)%nat -> P p s) /\ P n s)).
    { apply filter_and; [apply IH; intros; apply H; lia|apply H; lia]. }
    eapply filter_imp; [|exact Q]. cbv beta. intros s [A B] p Hp. destruct (Nat.eq_dec p n) as [->|]; [exact B|apply A; lia].
Qed.

Lemma der_unique (f : R -> R) s (a b : R) : is_derive f s a -> is_derive f s b -> a = b.
Proof. intros H1 H2. rewrite <- (is_derive_unique f s a H1). now apply is_derive_unique. Qed.
Lemma nice_plus k f g s0 : nice k f s0 -> nice k g s0 -> nice k (fun s => f s + g s) s0.
Proof. intros [a A] [b B]. exists (fun i => a i + b i). now apply tay_plus. Qed.
Lemma nice_total k s0 n (f : nat -> R -> R) : (forall p, (p < n)%nat -> nice k (f p) s0) -> nice k (fun s => total_of n (fun p => f p s)) s0.
Proof.
  induction n as [|n IH]; intros H; cbn [total_of]; [eexists; apply tay_const|]. apply nice_plus; [apply IH; intros; apply H; lia|apply H; lia].
Qed.

Section Series.
Variables (n d : nat) (J : R -> nat -> nat -> R) (w : nat -> R -> nat -> R).
Variables (A B : nat -> nat -> nat -> R) (C : nat -> nat -> R).
Hypothesis HJ : forall i j, (i < n)%nat -> (j < n)%nat -> tay (d - 1) (fun s => J s i j) 0 (A i j).
Hypothesis HB : total_jacobians n 1 (d - 1) A B.
Hypothesis HC : forall i, (i < n)%nat -> tay d (fun s => w 0%nat s i) 0 (C i).
Hypothesis Hw : forall k i, (k < d)%nat -> (i < n)%nat ->
  locally 0 (fun s => is_derive (fun s => w k s i) s (w (S k) s i - total_of n (fun p => w k s p * J s p i))).


Lemma w_nice k : (k <= d)%nat -> forall i, (i < n)%nat -> nice (d - k) (fun s => w k s i) 0.
Proof.
  induction k as [|k IH]; intros Hk i Hi.
  - exists (C i). rewrite Nat.sub_0_r. now apply HC.
  - destruct (IH ltac:(lia) i Hi) as [a Ha]. replace (d - k)%nat with (S (d - S k)) in Ha by lia.
    destruct Ha as (_ & w' & D & T).
    assert (Q : nice (d - S k) (fun s => w' s + total_of n (fun p => w k s p * J s p i)) 0).
    { apply nice_plus; [exists (dcoef a); exact T|]. apply nice_total. intros p Hp. apply nice_mult.
      - destruct (IH ltac:(lia) p Hp) as [b Hb]. exists b. apply (@tay_le (d - k)); [lia|exact Hb].
      - exists (A p i). apply (@tay_le (d - 1)); [lia|]. now apply HJ. }
    destruct Q as [c Q]. exists c. eapply tay_ext_loc; [|exact Q].
    eapply filter_imp; [|exact (filter_and _ _ D (Hw (k := k) ltac:(lia) Hi))]. cbv beta. intros s [E1 E2].
    rewrite (der_unique E1 E2). ring.
Qed.

(* the columns of the fundamental matrix, cut after degree d *)
Let P (s : R) (p i : nat) : R := path d (fun p => if (p =? i)%nat then 1 else 0) (fun p => B p i) s p.
Lemma P_tay p i : tay d (fun s => P s p i) 0 (joined (if (p =? i)%nat then 1 else 0) (B p i)).
Proof. apply taylor_tay. pose proof (path_taylor d (fun p => if (p =? i)%nat then 1 else 0) (fun p => B p i) p) as Q. rewrite path_0 in Q. exact Q. Qed.

Lemma defect q i : (q < n)%nat -> (i < n)%nat -> (0 < d)%nat -> exists P',
  locally 0 (fun s => is_derive (fun s => P s q i) s (P' s)) /\
  tay (d - 1) (fun s => total_of n (fun p => J s q p * P s p i) - P' s) 0 (fun _ => 0).
Proof.
  intros Hq Hi Hd. pose proof (P_tay q i) as T. replace d with (S (d - 1)) in T at 1 by lia.
  destruct T as (_ & P' & D & T). exists P'. split; [exact D|].
  eapply tay_coef; [|apply tay_minus; [apply tay_total; intros p Hp; apply tay_mult; [exact (HJ Hq Hp)|apply (@tay_le d (d - 1)); [lia|exact (P_tay p i)]]|exact T]].
  intros k Hk. cbv beta. unfold dcoef. cbn [joined]. rewrite (HB (k := k) Hk Hq Hi).
  assert (E : total_of n (fun p => conv (A q p) (joined (if (p =? i)%nat then 1 else 0) (B p i)) k) =
    A q i k + total_of n (fun p => total_of k (fun m => A q p m * B p i (k - 1 - m)%nat))).
  { transitivity (total_of n (fun p => A q p k * (if (p =? i)%nat then 1 else 0) + total_of k (fun m => A q p m * B p i (k - 1 - m)%nat))).
    - apply total_ext. intros p Hp. unfold conv. cbn [rsum]. rewrite Nat.sub_diag. cbn [joined]. rewrite Rplus_comm. f_equal.
      symmetry; etransitivity; [apply total_total|]; symmetry; apply rsum_ext. intros m Hm. replace (k - m)%nat with (S (k - 1 - m)) by lia. reflexivity.
    - rewrite total_add. f_equal. exact (@total_delta n (fun p => A q p k) i Hi). }
  rewrite E. field. apply not_0_INR. lia.
Qed.

Let a0 (i : nat) (k : nat) : R := total_of n (fun p => conv (C p) (joined (if (p =? i)%nat then 1 else 0) (B p i)) k).
Fixpoint dn_coef (k : nat) (a : nat -> R) : nat -> R := match k with 0%nat => a | S k => dcoef (dn_coef k a) end.
Lemma dn_coef_at k a : forall m, INR (fact m) * dn_coef k a m = INR (fact (m + k)) * a (m + k)%nat.
Proof.
  induction k as [|k IH]; intros m; cbn [dn_coef]; [now rewrite Nat.add_0_r|].
  unfold dcoef. replace (m + S k)%nat with (S m + k)%nat by lia. rewrite <- IH. cbn [fact]. change (fact m + m * fact m)%nat with (S m * fact m)%nat.
  rewrite mult_INR. ring.
Qed.

Lemma series k i : (k <= d)%nat -> (i < n)%nat -> tay (d - k) (fun s => total_of n (fun p => w k s p * P s p i)) 0 (dn_coef k (a0 i)).
Proof.
  intros Hk Hi. revert Hk. induction k as [|k IH]; intros Hk.
  - rewrite Nat.sub_0_r. cbn [dn_coef]. apply tay_total. intros p Hp. apply tay_mult; [now apply HC|apply P_tay].
  - specialize (IH ltac:(lia)). replace (d - k)%nat with (S (d - S k)) in IH by lia. destruct IH as (_ & f' & D & T).
    cbn [dn_coef].
    assert (Df : forall m, (m <= n)%nat -> exists P', (forall q, (q < m)%nat -> locally 0 (fun s => is_derive (fun s => P s q i) s (P' q s)) /\
       tay (d - 1) (fun s => total_of n (fun p => J s q p * P s p i) - P' q s) 0 (fun _ => 0))).
    { induction m as [|m IHm]; intros Hm; [exists (fun _ _ => 0); intros; lia|]. destruct IHm as [P' HP]; [lia|].
      destruct (@defect m i ltac:(lia) Hi ltac:(lia)) as (P1 & Q1 & Q2). exists (fun q => if (q =? m)%nat then P1 else P' q).
      intros q Hq. destruct (Nat.eqb_spec q m) as [->|N]; [auto|apply HP; lia]. }
    destruct (Df n (le_n n)) as [P' HP].
    assert (R0 : tay (d - S k) (fun s => total_of n (fun q => w k s q * (total_of n (fun p => J s q p * P s p i) - P' q s))) 0 (fun _ => 0)).
    { destruct (Nat.eq_dec n 0) as [->|Nn]; [lia|].
      assert (Wn : forall m, (m <= n)%nat -> exists b, forall q, (q < m)%nat -> tay (d - S k) (fun s => w k s q) 0 (b q)).
      { induction m as [|m IHm]; intros Hm; [exists (fun _ _ => 0); intros; lia|]. destruct IHm as [b Hb]; [lia|].
        destruct (@w_nice k ltac:(lia) m ltac:(lia)) as [c Hc]. exists (fun q => if (q =? m)%nat then c else b q).
        intros q Hq. destruct (Nat.eqb_spec q m) as [->|N]; [apply (@tay_le (d - k)); [lia|exact Hc]|apply Hb; lia]. }
      destruct (Wn n (le_n n)) as [b Hb].
      eapply tay_coef; [|apply tay_total; intros q Hq; apply tay_mult; [exact (Hb q Hq)|apply (@tay_le (d - 1)); [lia|exact (proj2 (HP q Hq))]]].
      intros m _. cbv beta. apply total_zero. intros q _. unfold conv. apply rsum_zero. intros. ring. }
    eapply tay_ext_loc; [|eapply tay_coef; [|apply tay_plus; [exact T|exact R0]]]; [|intros; cbv beta; apply Rplus_0_r].
    assert (L1 := @locally_all n 0 _ (fun p Hp => Hw (k := k) ltac:(lia) Hp)).
    assert (L2 := @locally_all n 0 _ (fun p Hp => proj1 (HP p Hp))).
    eapply filter_imp; [|exact (filter_and _ _ D (filter_and _ _ L1 L2))]. cbv beta. intros s (E0 & E1 & E2).
    assert (E3 : is_derive (fun s => total_of n (fun p => w k s p * P s p i)) s
      (total_of n (fun p => (w (S k) s p - total_of n (fun q => w k s q * J s q p)) * P s p i + w k s p * P' p s))).
    { apply (@d_total n (fun p s => w k s p * P s p i) (fun p s => (w (S k) s p - total_of n (fun q => w k s q * J s q p)) * P s p i + w k s p * P' p s)).
      intros p Hp. apply (@d_mult (fun s => w k s p) (fun s => P s p i)); [now apply E1|now apply E2]. }
    rewrite (der_unique E0 E3). rewrite total_add.
    rewrite (@total_ext n (fun p => (w (S k) s p - total_of n (fun q => w k s q * J s q p)) * P s p i)
       (fun p => w (S k) s p * P s p i - total_of n (fun q => w k s q * J s q p * P s p i))).
    2:{ intros p _. rewrite total_scalr. ring. }
    rewrite total_minus, total_swap.
    rewrite (@total_ext n (fun q => w k s q * (_ - _)) (fun q => total_of n (fun p => w k s q * J s q p * P s p i) - w k s q * P' q s)).
    2:{ intros q _. rewrite Rmult_minus_distr_l, <- total_scal. f_equal. apply total_ext. intros; ring. }
    rewrite total_minus. ring.
Qed.

Theorem lie_series k i : (k <= d)%nat -> (i < n)%nat ->
  w k 0 i = INR (fact k) * (C i k + total_of k (fun l => total_of n (fun p => C p (k - 1 - l)%nat * B p i l))).
Proof.
  intros Hk Hi. pose proof (tay_val (series Hk Hi)) as Q. cbv beta in Q.
  assert (E : total_of n (fun p => w k 0 p * P 0 p i) = w k 0 i).
  { unfold P. rewrite <- (@total_delta n (fun p => w k 0 p) i Hi). apply total_ext. intros p _. now rewrite path_0. }
  rewrite E in Q. rewrite Q. pose proof (@dn_coef_at k (a0 i) 0) as F. cbn [fact] in F. change (INR 1) with 1 in F. rewrite Rmult_1_l in F.
  rewrite F. cbn [plus]. f_equal. unfold a0. rewrite (total_swap k n (fun l p => C p (k - 1 - l)%nat * B p i l)).
  transitivity (total_of n (fun p => C p k * (if (p =? i)%nat then 1 else 0) + total_of k (fun l => C p (k - 1 - l)%nat * B p i l))).
  - apply total_ext. intros p _. rewrite conv_comm. unfold conv. rewrite rsum_shift. rewrite Nat.sub_0_r. cbn [joined]. rewrite (Rmult_comm (C p k)). f_equal.
    symmetry; etransitivity; [apply total_total|]; symmetry; apply rsum_ext. intros l Hl. replace (k - S l)%nat with (k - 1 - l)%nat by lia. cbn [joined]. replace (0 + k - S l)%nat with (k - 1 - l)%nat by lia. ring.
  - rewrite total_add. f_equal. exact (@total_delta n (fun p => C p k) i Hi).
Qed.
End Series.
