(** C25: the helpers of convolut.cpp multiply and divide truncated power series. *)
From Coq Require Import List Arith Bool Lia Reals Lra.
From Verif Require Import ConvModel ConvSpec ConvProofs.
Import ListNotations.
Local Open Scope R_scope.

(** conv, conv0: the array c receives the product of a and b; c may be a or b itself *)
Theorem C25_conv : forall dim a b c M, apart_or_same dim a c -> apart_or_same dim b c ->
  same dim (at_ (conv dim a b c M) c) (mul (at_ M a) (at_ M b)) /\ only dim c M (conv dim a b c M) /\
  conv0 dim a b c M = conv dim a b c M.
Proof.
  intros dim a b c M Ha Hb. unfold conv.
  pose proof (plain_effect dim a b c Ha Hb (fun _ x => x) M) as E. cbv beta in E.
  split; [|split; [|reflexivity]].
  - intros i I. unfold at_ at 1. rewrite E, range_true by assumption. f_equal. lia.
  - intros q Q. rewrite E, range_false by assumption. reflexivity.
Qed.
(** inconv, inconv1: c is incremented by the product *)
Theorem C25_inconv : forall dim a b c M, apart_or_same dim a c -> apart_or_same dim b c ->
  same dim (at_ (inconv dim a b c M) c) (fun i => at_ M c i + mul (at_ M a) (at_ M b) i) /\
  only dim c M (inconv dim a b c M) /\ inconv1 dim a b c M = inconv dim a b c M.
Proof.
  intros dim a b c M Ha Hb. unfold inconv.
  pose proof (plain_effect dim a b c Ha Hb (fun y x => y + x) M) as E. cbv beta in E.
  split; [|split; [|reflexivity]].
  - intros i I. unfold at_ at 1. rewrite E, range_true by assumption. unfold at_ at 1. f_equal. f_equal. lia.
  - intros q Q. rewrite E, range_false by assumption. reflexivity.
Qed.
(** deconv, deconv1: c is decremented by the product *)
Theorem C25_deconv : forall dim a b c M, apart_or_same dim a c -> apart_or_same dim b c ->
  same dim (at_ (deconv dim a b c M) c) (fun i => at_ M c i - mul (at_ M a) (at_ M b) i) /\
  only dim c M (deconv dim a b c M) /\ deconv1 dim a b c M = deconv dim a b c M.
Proof.
  intros dim a b c M Ha Hb. unfold deconv.
  pose proof (plain_effect dim a b c Ha Hb (fun y x => y - x) M) as E. cbv beta in E.
  split; [|split; [|reflexivity]].
  - intros i I. unfold at_ at 1. rewrite E, range_true by assumption. unfold at_ at 1. f_equal. f_equal. lia.
  - intros q Q. rewrite E, range_false by assumption. reflexivity.
Qed.
(** inconv0, deconv0: the same, and a becomes zero *)
Theorem C25_inconv0 : forall dim a b c M, apart dim a b -> apart dim a c -> apart_or_same dim b c ->
  same dim (at_ (inconv0 dim a b c M) c) (fun i => at_ M c i + mul (at_ M a) (at_ M b) i) /\
  same dim (at_ (inconv0 dim a b c M) a) (constant 0) /\
  (forall q, (q < a \/ a + dim <= q)%nat -> (q < c \/ c + dim <= q)%nat -> inconv0 dim a b c M q = M q).
Proof.
  intros dim a b c M Hab Hac Hbc. unfold inconv0.
  destruct (zero_effect a b c (fun y x => y + x) dim M Hab Hac Hbc) as (P & Q & K).
  split; [|split].
  - intros i I. unfold at_ at 1. now rewrite Q.
  - intros i I. unfold at_, constant. rewrite P by assumption. now destruct (i =? 0)%nat.
  - exact K.
Qed.
Theorem C25_deconv0 : forall dim a b c M, apart dim a b -> apart dim a c -> apart_or_same dim b c ->
  same dim (at_ (deconv0 dim a b c M) c) (fun i => at_ M c i - mul (at_ M a) (at_ M b) i) /\
  same dim (at_ (deconv0 dim a b c M) a) (constant 0) /\
  (forall q, (q < a \/ a + dim <= q)%nat -> (q < c \/ c + dim <= q)%nat -> deconv0 dim a b c M q = M q).
Proof.
  intros dim a b c M Hab Hac Hbc. unfold deconv0.
  destruct (zero_effect a b c (fun y x => y - x) dim M Hab Hac Hbc) as (P & Q & K).
  split; [|split].
  - intros i I. unfold at_ at 1. now rewrite Q.
  - intros i I. unfold at_, constant. rewrite P by assumption. now destruct (i =? 0)%nat.
  - exact K.
Qed.
(** divide: the product of b and the result is a; a may be c itself *)
Theorem C25_divide : forall dim a b c M, M b <> 0 -> apart dim b c -> apart_or_same dim a c ->
  same dim (mul (at_ (divide dim a b c M) b) (at_ (divide dim a b c M) c)) (at_ M a) /\
  same dim (at_ (divide dim a b c M) b) (at_ M b) /\ only dim c M (divide dim a b c M).
Proof.
  intros dim a b c M B Hb Ha. unfold divide.
  destruct (quotient_loop b c (fun M i => M (a + i)%nat) (at_ M a) (1 / M b) 0 dim M M B eq_refl) as (O & E).
  - exact Hb.
  - reflexivity.
  - intros. lia.
  - intros M' i I Out. unfold at_. apply Out. unfold apart_or_same, apart in *. lia.
  - cbn [Nat.add] in *. split; [|split].
    + intros i I. now apply E.
    + intros i I. unfold at_. apply O. unfold apart in Hb. lia.
    + intros q Q. apply O. lia.
Qed.
(** recipr: the product of b and the result is the constant x *)
Theorem C25_recipr : forall dim x b c M, (0 < dim)%nat -> M b <> 0 -> apart dim b c ->
  same dim (mul (at_ (recipr dim x b c M) b) (at_ (recipr dim x b c M) c)) (constant x) /\
  same dim (at_ (recipr dim x b c M) b) (at_ M b) /\ only dim c M (recipr dim x b c M).
Proof.
  intros dim x b c M D B Hb. unfold recipr.
  destruct (quotient_loop b c (fun _ _ => 0) (constant x) (1 / M b) 1 (dim - 1) M (upd M c (x * (1 / M b))) B eq_refl) as (O & E).
  - now replace (1 + (dim - 1))%nat with dim by lia.
  - intros q Q. apply upd_other. lia.
  - intros i I. assert (i = 0)%nat as -> by lia. unfold mul, at_, constant. cbn [sum_f_R0 Nat.sub Nat.eqb].
    rewrite !Nat.add_0_r, upd_same, upd_other by (unfold apart in Hb; lia). field. exact B.
  - intros M' i I Out. unfold constant. destruct (Nat.eqb_spec i 0); [lia|reflexivity].
  - replace (1 + (dim - 1))%nat with dim in * by lia. split; [|split].
    + intros i I. now apply E.
    + intros i I. unfold at_. apply O. unfold apart in Hb. lia.
    + intros q Q. apply O. lia.
Qed.
(** the quotient is determined by these equations *)
Theorem C25_quotient_unique : forall dim (b f g : series), b 0%nat <> 0 ->
  same dim (mul b f) (mul b g) -> same dim f g.
Proof.
  intros dim b f g B H i. induction i as [i IH] using (well_founded_induction lt_wf). intros I.
  pose proof (H i I) as E. pose proof (lower_sum f b i) as A. pose proof (lower_sum g b i) as C.
  assert (fold_left (fun t j => t + f j * b (i - j)%nat) (seq 0 i) 0 = fold_left (fun t j => t + g j * b (i - j)%nat) (seq 0 i) 0) as F.
  { assert (forall l t, (forall j, In j l -> (j < i)%nat) ->
      fold_left (fun t j => t + f j * b (i - j)%nat) l t = fold_left (fun t j => t + g j * b (i - j)%nat) l t) as G.
    { induction l; intros t L; [reflexivity|]. cbn [fold_left]. assert (a < i)%nat by (apply L; now left).
      rewrite (IH a) by lia. apply IHl. intros. apply L. now right. }
    apply G. intros j J. apply in_seq in J. lia. }
  apply (Rmult_eq_reg_l (b 0%nat)); [|exact B]. lra.
Qed.
(** zeroset, copyAndZeroset *)
Theorem C25_zeroset : forall dim a M,
  same dim (at_ (zeroset dim a M) a) (constant 0) /\ only dim a M (zeroset dim a M).
Proof.
  intros dim a M. unfold zeroset, upto. induction dim.
  - split; [intros i I; lia|intros q Q; reflexivity].
  - rewrite seq_S, fold_left_app. cbn [fold_left Nat.add]. destruct IHdim as [P Q]. split.
    + intros i I. unfold at_ in *. destruct (Nat.eq_dec i dim) as [->|].
      * rewrite upd_same. unfold constant. now destruct (dim =? 0)%nat.
      * rewrite upd_other by lia. apply P. lia.
    + intros q R. rewrite upd_other by lia. apply Q. lia.
Qed.
Theorem C25_copyAndZeroset : forall dim a tmp M, apart dim a tmp ->
  same dim (at_ (copyAndZeroset dim a tmp M) a) (constant 0) /\
  same dim (at_ (copyAndZeroset dim a tmp M) tmp) (at_ M a) /\
  (forall q, (q < a \/ a + dim <= q)%nat -> (q < tmp \/ tmp + dim <= q)%nat -> copyAndZeroset dim a tmp M q = M q).
Proof.
  intros dim a tmp M. unfold copyAndZeroset, upto. induction dim; intros H.
  - split; [intros i I; lia|]. split; [intros i I; lia|]. reflexivity.
  - rewrite seq_S, fold_left_app. cbn [fold_left Nat.add].
    destruct IHdim as (P & Q & K); [unfold apart in *; lia|]. unfold apart in H.
    set (N := fold_left _ (seq 0 dim) M) in *. split; [|split].
    + intros i I. unfold at_ in *. destruct (Nat.eq_dec i dim) as [->|].
      * rewrite upd_same. unfold constant. now destruct (dim =? 0)%nat.
      * rewrite !upd_other by lia. apply P. lia.
    + intros i I. unfold at_ in *. destruct (Nat.eq_dec i dim) as [->|].
      * rewrite upd_other by lia. rewrite upd_same. apply K; lia.
      * rewrite !upd_other by lia. apply Q. lia.
    + intros q A C. rewrite !upd_other by lia. apply K; lia.
Qed.

(** Where the aliasing conditions are needed: inconv0 of an array with itself does not
    add the square (the entry a[i] is cleared before it is used as b[i]). *)
Theorem C25_inconv0_square_refuted : exists M,
  at_ (inconv0 2 0 0 2 M) 2 1%nat <> at_ M 2 1%nat + mul (at_ M 0) (at_ M 0) 1.
Proof.
  exists (fun _ => 1). unfold inconv0, tail_sum, mul, at_, upd. cbn. lra.
Qed.
(** and divide in place of the denominator does not divide *)
Theorem C25_divide_in_place_refuted : exists M, M 3%nat <> 0 /\
  ~ same 3 (mul (at_ M 3) (at_ (divide 3 0 3 3 M) 3)) (at_ M 0).
Proof.
  exists (fun q => if (q <? 3)%nat then 2 else 1). split; [cbn; lra|]. intros H.
  specialize (H 1%nat ltac:(lia)). revert H. unfold divide, sub_lower, upto, mul, at_, upd. cbn. lra.
Qed.
(** recipr writes c[0] even for dim = 0 *)
Theorem C25_recipr_dim0_refuted : exists x b c M, ~ only 0 c M (recipr 0 x b c M).
Proof.
  exists 1, 0%nat, 1%nat, (fun q => if (q =? 0)%nat then 1 else 0). intros H. specialize (H 1%nat ltac:(lia)).
  revert H. unfold recipr, upto, upd. cbn. lra.
Qed.

(** the theorems are not vacuous: (1 + t)(1 - t) = 1 - t^2, and dividing by it *)
Example C25_nontrivial :
  let M := fun q => nth q [1; 1; 0; 1; -1; 0] 0 in
  apart_or_same 3 0 6 /\ apart_or_same 3 3 6 /\ M 3%nat <> 0 /\ apart 3 3 6 /\
  at_ (conv 3 0 3 6 M) 6 2%nat = -1 /\ at_ (divide 3 0 3 6 M) 6 2%nat = 2.
Proof.
  cbv zeta. split; [|split; [|split; [|split; [|split]]]].
  - right. unfold apart. lia.
  - right. unfold apart. lia.
  - cbn. lra.
  - unfold apart. lia.
  - unfold conv, tail_sum, at_, upd. cbn. lra.
  - unfold divide, sub_lower, upto, at_, upd. cbn. lra.
Qed.
