(* What the coefficient loops of hos_reverse leave in the rows, over the reals.
   Used by C43.                                                            *)
From Coq Require Import List ZArith Bool Arith Lia Reals Lra FunctionalExtensionality.
From Coquelicot Require Import Coquelicot.
Require Import Verif.AdModel Verif.AdReal Verif.HosModel Verif.HosSpec Verif.HosTay Verif.HosFun
  Verif.HosLoops Verif.HrvModel.
Import ListNotations.
Set Implicit Arguments.
Unset Asymmetric Patterns.
Local Open Scope R_scope.

(* ------------------------------------------------------------------ *)
(* columnwise loops *)

Definition colbody (body : nat -> rrows -> rrows) : Prop :=
  (forall i A l j, j <> i -> body i A l j = A l j) /\
  (forall i A A1, (forall l j, (j <= i)%nat -> A l j = A1 l j) -> forall l, body i A l i = body i A1 l i).
Definition colbody1 (body : nat -> rrows -> rrows) : Prop :=
  (forall i A l j, j <> i -> body i A l j = A l j) /\
  (forall i A A1, (forall l, A l i = A1 l i) -> forall l, body i A l i = body i A1 l i).

Lemma dn_cols (body : nat -> rrows -> rrows) : colbody body -> forall k A l i,
  dn k body A l i = if (i <? k)%nat then body i A l i else A l i.
Proof.
  intros [H1 H2]. induction k as [|k IH]; intros A l i; cbn [dn].
  - reflexivity.
  - rewrite IH. destruct (Nat.ltb_spec i k) as [L|L].
    + replace (i <? S k)%nat with true by (symmetry; apply Nat.ltb_lt; lia).
      apply H2. intros l' j Hj. apply H1. lia.
    + destruct (Nat.ltb_spec i (S k)) as [M|M].
      * replace k with i by lia. reflexivity.
      * apply H1. lia.
Qed.
Lemma up_cols (body : nat -> rrows -> rrows) : colbody1 body -> forall k A l i,
  up k body A l i = if (i <? k)%nat then body i A l i else A l i.
Proof.
  intros [H1 H2]. induction k as [|k IH]; intros A l i; cbn [up].
  - reflexivity.
  - destruct (Nat.eq_dec i k) as [->|N].
    + replace (k <? S k)%nat with true by (symmetry; apply Nat.ltb_lt; lia).
      apply H2. intros l'. rewrite IH. now rewrite Nat.ltb_irrefl.
    + rewrite H1 by auto. rewrite IH. destruct (Nat.ltb_spec i k), (Nat.ltb_spec i (S k)); auto; lia.
Qed.

(* ------------------------------------------------------------------ *)
(* rows *)

Definition cst (c : R) : nat -> R := fun i => match i with 0%nat => c | S _ => 0 end.

Lemma conv_cst c a i : conv (cst c) a i = c * a i.
Proof.
  rewrite conv_first. cbn [cst]. rewrite rsum_zero; [ring|]. intros. ring.
Qed.
Lemma conv_opp w a i : conv (fun j => - w j) a i = - conv w a i.
Proof.
  unfold conv. rewrite (@rsum_ext (S i) _ (fun j => (-1) * (w j * a (i - j)%nat))) by (intros; ring).
  rewrite rsum_scal. ring.
Qed.
Lemma conv_zero w a k i : (i < k)%nat -> (forall j, (j < k)%nat -> a j = 0) -> conv w a i = 0.
Proof. intros Hi H. apply rsum_zero. intros j Hj. rewrite H by lia. ring. Qed.
Lemma conv_scal w a c i : conv (fun j => w j * c) a i = c * conv w a i.
Proof. unfold conv. rewrite <- rsum_scal. apply rsum_ext. intros; ring. Qed.

Lemma up_plus n (g : nat -> R) v : up n (fun j acc => acc + g j) v = v + rsum n g.
Proof. induction n; cbn; [ring|]. rewrite IHn. ring. Qed.
Lemma up_minus n (g : nat -> R) v : up n (fun j acc => acc - g j) v = v - rsum n g.
Proof. induction n; cbn; [ring|]. rewrite IHn. ring. Qed.

Lemma mulsum_conv a b i : @mulsum reals a b i = conv a b i.
Proof.
  unfold mulsum. cbn [add mul reals]. rewrite up_plus.
  rewrite conv_comm, conv_first. rewrite (Rmult_comm (a i)). f_equal.
  apply rsum_ext. intros j Hj. ring.
Qed.

(* equality of the first k entries, below N *)
Definition rsame (N k : nat) (A B : rrows) : Prop := forall l i, (l < N)%nat -> (i < k)%nat -> A l i = B l i.

Lemma inconv_spec (op : R -> R -> R) k (src b : rrows -> nat -> R) c A l i :
  (forall i A A1, (forall l j, (j <= i)%nat -> A l j = A1 l j) -> forall j, (j <= i)%nat -> src A j = src A1 j) ->
  (forall i A A1, (forall l j, (j <= i)%nat -> A l j = A1 l j) -> forall j, (j <= i)%nat -> b A j = b A1 j) ->
  @inconv_ reals op k src b c A l i =
    if (l =? c)%nat && (i <? k)%nat then op (A c i) (conv (src A) (b A) i) else A l i.
Proof.
  intros Hs Hb. unfold inconv_. rewrite dn_cols.
  - destruct (Nat.ltb_spec i k); [|now rewrite andb_false_r].
    rewrite andb_true_r. unfold put. rewrite Nat.eqb_refl, andb_true_r, mulsum_conv.
    destruct (Nat.eqb_spec l c) as [->|N]; auto.
  - split.
    + intros i0 A0 l0 j H. now apply put_idx.
    + intros i0 A0 A1 H l0. unfold put. rewrite Nat.eqb_refl, andb_true_r, !mulsum_conv.
      destruct (l0 =? c)%nat; [|auto]. rewrite (H c i0) by lia. f_equal.
      apply conv_ext; intros j Hj; [eapply Hs|eapply Hb]; eauto.
Qed.
Lemma inconv0_spec (op : R -> R -> R) k a (b : nat -> R) c A l i :
  @inconv0_ reals op k a b c A l i =
    if (i <? k)%nat then
      if (l =? c)%nat then op (if (c =? a)%nat then 0 else A c i) (conv (A a) b i)
      else if (l =? a)%nat then 0 else A l i
    else A l i.
Proof.
  unfold inconv0_.
  match goal with |- context [dn k ?b0 _] => set (body := b0) end.
  assert (B : forall i A l j, body i A l j =
    if (j =? i)%nat then
      if (l =? c)%nat then op (if (c =? a)%nat then 0 else A c i) (conv (A a) b i)
      else if (l =? a)%nat then 0 else A l i
    else A l j).
  { intros i0 A0 l0 j. unfold body. cbn [add mul zero reals].
    assert (E : up i0 (fun (j0 : nat) (acc : V reals) =>
              acc + rput A0 a i0 0 a (i0 - S j0)%nat * b (S j0)) (A0 a i0 * b 0%nat) = conv (A0 a) b i0).
    { rewrite up_plus. rewrite conv_comm, conv_first, (Rmult_comm (A0 a i0)). f_equal.
      apply rsum_ext. intros j0 Hj. rewrite put_idx by lia. ring. }
    rewrite E. unfold put at 1. destruct (Nat.eqb_spec j i0) as [->|N].
    - rewrite andb_true_r. destruct (Nat.eqb_spec l0 c) as [->|Nc].
      + unfold put. rewrite Nat.eqb_refl, andb_true_r. reflexivity.
      + unfold put. rewrite Nat.eqb_refl, andb_true_r. reflexivity.
    - rewrite andb_false_r. apply put_idx. auto. }
  rewrite dn_cols.
  - destruct (Nat.ltb_spec i k); auto. rewrite B, Nat.eqb_refl. reflexivity.
  - split.
    + intros i0 A0 l0 j H. rewrite B. apply Nat.eqb_neq in H. now rewrite H.
    + intros i0 A0 A1 H l0. rewrite !B, Nat.eqb_refl.
      rewrite (H c i0), (H l0 i0) by lia. rewrite (@conv_ext (A0 a) (A1 a) b b i0); auto.
Qed.

(* ------------------------------------------------------------------ *)
(* reciprocal and quotient rows *)

Lemma up_eq (A : Type) n (f g : nat -> A -> A) s : (forall i a, (i < n)%nat -> f i a = g i a) -> up n f s = up n g s.
Proof. apply up_ext. Qed.

Lemma recipr_ext k a (b b' : nat -> R) : (0 < k)%nat -> (forall i, (i < k)%nat -> b i = b' i) ->
  @recipr_ reals k a b = @recipr_ reals k a b'.
Proof.
  intros Hk H. unfold recipr_. rewrite (H 0%nat) by lia. apply up_eq. intros i c Hi. f_equal. f_equal.
  apply up_eq. intros j acc Hj. rewrite H by lia. reflexivity.
Qed.
Lemma divide_ext k (a a' b b' : nat -> R) : (0 < k)%nat -> (forall i, (i < k)%nat -> a i = a' i) ->
  (forall i, (i < k)%nat -> b i = b' i) -> @divide_ reals k a b = @divide_ reals k a' b'.
Proof.
  intros Hk Ha H. unfold divide_. rewrite (H 0%nat) by lia. apply up_eq. intros i c Hi. f_equal. f_equal.
  rewrite Ha by lia. apply up_eq. intros j acc Hj. rewrite H by lia. reflexivity.
Qed.

Section Fill.
Variables (g : nat -> (nat -> R) -> R).
Hypothesis Hg : forall i c c', (forall j, (j < i)%nat -> c j = c' j) -> g i c = g i c'.
Lemma fill_spec k c0 : let c := up k (fun i c => @putz reals c i (g i c)) c0 in
  forall i, (i < k)%nat -> c i = g i c.
Proof.
  cbv zeta. induction k as [|k IH]; intros i Hi; [lia|]. cbn [up]. unfold putz at 1.
  set (c1 := up k (fun i c => @putz reals c i (g i c)) c0) in *.
  destruct (Nat.eqb_spec i k) as [->|N].
  - apply Hg. intros j Hj. unfold putz. replace (j =? k)%nat with false; auto. symmetry. apply Nat.eqb_neq. lia.
  - rewrite IH by lia. apply Hg. intros j Hj. unfold putz.
    replace (j =? k)%nat with false; auto. symmetry. apply Nat.eqb_neq. lia.
Qed.
End Fill.

Lemma divide_conv k a b : b 0%nat <> 0 -> forall i, (i < k)%nat -> conv (@divide_ reals k a b) b i = a i.
Proof.
  intros N i Hi. unfold divide_.
  pose proof (@fill_spec (fun i c => @mul reals (up i (fun j acc => @sub reals acc (@mul reals (c j) (b (i - j)%nat))) (a i))
      (dvd reals (one reals) (b 0%nat)))) as Q. cbv beta in Q. specialize (Q).
  assert (G : forall (i : nat) (c c' : nat -> R), (forall j : nat, (j < i)%nat -> c j = c' j) ->
     @mul reals (up i (fun j acc => @sub reals acc (@mul reals (c j) (b (i - j)%nat))) (a i)) (dvd reals (one reals) (b 0%nat)) =
     @mul reals (up i (fun j acc => @sub reals acc (@mul reals (c' j) (b (i - j)%nat))) (a i)) (dvd reals (one reals) (b 0%nat))).
  { intros i0 c c' H. f_equal. apply up_eq. intros j acc Hj. now rewrite H. }
  specialize (Q G k (fun _ => zero reals) i Hi). cbv zeta in Q.
  match type of Q with ?c i = _ => set (cc := c) in * end.
  rewrite conv_last, Q. cbn [mul sub dvd one reals]. rewrite up_minus. field. exact N.
Qed.
Lemma recipr_conv k a b : b 0%nat <> 0 -> forall i, (i < k)%nat -> conv (@recipr_ reals k a b) b i = cst a i.
Proof.
  intros N i Hi.
  (* the same as dividing the constant row *)
  assert (E : forall n, up n (fun i c => @putz reals c (S i)
          (mul reals (up (S i) (fun j acc => sub reals acc (mul reals (c j) (b (S i - j)%nat))) (zero reals)) (dvd reals (one reals) (b 0%nat))))
     (@putz reals (fun _ => zero reals) 0 (mul reals a (dvd reals (one reals) (b 0%nat)))) =
     up (S n) (fun i c => @putz reals c i
          (mul reals (up i (fun j acc => sub reals acc (mul reals (c j) (b (i - j)%nat))) (cst a i)) (dvd reals (one reals) (b 0%nat))))
     (fun _ => zero reals)).
  { induction n as [|n IH]; [reflexivity|]. cbn [up] in IH |- *. rewrite IH. reflexivity. }
  unfold recipr_. rewrite E. replace (S (k - 1)) with k by lia.
  change (conv (@divide_ reals k (cst a) b) b i = cst a i). now apply divide_conv.
Qed.

(* ------------------------------------------------------------------ *)
(* the other loops *)

Ltac puts := unfold put; repeat match goal with
  | |- context [(?a =? ?b)%nat] => destruct (Nat.eqb_spec a b); subst; cbn [andb]; try congruence; try lia end.

Lemma zerorow_spec k a A l i : @zerorow reals k a A l i = if (l =? a)%nat && (i <? k)%nat then 0 else A l i.
Proof.
  unfold zerorow. rewrite up_cols.
  - destruct (Nat.ltb_spec i k); [|now rewrite andb_false_r]. rewrite andb_true_r. unfold put.
    rewrite Nat.eqb_refl, andb_true_r. reflexivity.
  - split; [intros; now apply put_idx|]. intros i0 A0 A1 H l0. unfold put. rewrite H. reflexivity.
Qed.
Lemma mv0_spec k res arg A l i : @mv0 reals k res arg A l i =
  if (i <? k)%nat then if (l =? res)%nat then 0 else if (l =? arg)%nat then A arg i + A res i else A l i
  else A l i.
Proof.
  unfold mv0. rewrite up_cols.
  - destruct (Nat.ltb_spec i k); auto. cbn [add zero reals]. puts; auto.
  - split.
    + intros. rewrite !put_idx; auto.
    + intros i0 A0 A1 H l0. unfold put. rewrite !H. reflexivity.
Qed.
Lemma mv1_spec k res arg (g : R -> R -> R) A l i : @mv1 reals k res arg g A l i =
  if (i <? k)%nat then if (l =? arg)%nat then g (if (arg =? res)%nat then 0 else A arg i) (A res i)
                       else if (l =? res)%nat then 0 else A l i
  else A l i.
Proof.
  unfold mv1. rewrite up_cols.
  - destruct (Nat.ltb_spec i k); auto. cbn [zero reals]. puts; auto.
  - split.
    + intros. rewrite !put_idx; auto.
    + intros i0 A0 A1 H l0. unfold put. rewrite !H. reflexivity.
Qed.
Lemma mv2_spec k res a1 a2 (g1 g2 : R -> R -> R) A l i : @mv2 reals k res a1 a2 g1 g2 A l i =
  if (i <? k)%nat then
    let a := A res i in
    let z l := if (l =? res)%nat then 0 else A l i in
    let y l := if (l =? a1)%nat then g1 (z a1) a else z l in
    if (l =? a2)%nat then g2 (y a2) a else y l
  else A l i.
Proof.
  unfold mv2. rewrite up_cols.
  - destruct (Nat.ltb_spec i k); auto. cbn [zero reals]. puts; auto.
  - split.
    + intros. rewrite !put_idx; auto.
    + intros i0 A0 A1 H l0. unfold put. rewrite !H. reflexivity.
Qed.
(* rows written from themselves *)
Lemma uprow_spec k c (g : nat -> rrows -> R) A l i :
  (forall i A A1, (forall l, A l i = A1 l i) -> g i A = g i A1) ->
  up k (fun i A => rput A c i (g i A)) A l i = if (l =? c)%nat && (i <? k)%nat then g i A else A l i.
Proof.
  intros H. rewrite up_cols.
  - destruct (Nat.ltb_spec i k); [|now rewrite andb_false_r]. rewrite andb_true_r. unfold put.
    rewrite Nat.eqb_refl, andb_true_r. reflexivity.
  - split; [intros; now apply put_idx|]. intros i0 A0 A1 E l0. unfold put. rewrite E.
    rewrite (H i0 A0 A1 E). reflexivity.
Qed.

(* gettayl *)
Lemma gettayl_spec k res (T : rrows) (r : nat -> R) st : let (T', st') := @gettayl reals k res T (rev (map r (seq 0 k)) ++ st) in
  st' = st /\ forall l i, T' l i = if (l =? res)%nat && (i <? k)%nat then r i else T l i.
Proof.
  unfold gettayl. split.
  - rewrite skipn_app, skipn_all2 by (rewrite rev_length, map_length, seq_length; lia).
    rewrite rev_length, map_length, seq_length, Nat.sub_diag. reflexivity.
  - intros l i. unfold setrow. destruct (l =? res)%nat; cbn [andb]; auto.
    destruct (Nat.ltb_spec i k) as [H|H]; auto.
    rewrite app_nth1 by (rewrite rev_length, map_length, seq_length; lia).
    rewrite rev_nth by (rewrite map_length, seq_length; lia).
    rewrite map_length, seq_length.
    replace (k - S (k - 1 - i))%nat with i by lia.
    rewrite nth_indep with (d' := r 0%nat) by (rewrite map_length, seq_length; lia).
    rewrite map_nth, seq_nth by lia. reflexivity.
Qed.
