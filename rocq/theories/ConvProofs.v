From Coq Require Import List Arith Bool Lia Reals Lra.
From Verif Require Import ConvModel ConvSpec.
Import ListNotations.
Local Open Scope R_scope.

Lemma upd_same : forall M p v, upd M p v p = v.
Proof. intros. unfold upd. now rewrite Nat.eqb_refl. Qed.
Lemma upd_other : forall M p v q, q <> p -> upd M p v q = M q.
Proof. intros M p v q H. unfold upd. now rewrite (proj2 (Nat.eqb_neq q p) H). Qed.

(** ** Sums *)
Lemma fold_add_acc : forall (f : nat -> R) l x, fold_left (fun t j => t + f j) l x = x + fold_left (fun t j => t + f j) l 0.
Proof. induction l; intros; cbn [fold_left]; [lra|]. rewrite IHl, (IHl (0 + f a)). lra. Qed.
Lemma fold_seq_sum : forall (f : nat -> R) i x, fold_left (fun t j => t + f j) (seq 1 i) x = x + sum_f_R0 f i - f 0%nat.
Proof.
  induction i; intros; [cbn; lra|]. rewrite seq_S, fold_left_app, IHi. cbn [fold_left sum_f_R0 Nat.add]. lra.
Qed.
Lemma tail_sum_mul : forall M a b i, tail_sum M a b i (M (a + i)%nat * M b) = mul (at_ M a) (at_ M b) i.
Proof.
  intros. unfold tail_sum, mul, at_. rewrite (fold_seq_sum (fun j => M (a + (i - j))%nat * M (b + j)%nat)).
  rewrite Nat.sub_0_r, Nat.add_0_r. lra.
Qed.
Lemma tail_sum_ext : forall M M' a b i t, 
  (forall j, (1 <= j <= i)%nat -> M' (a + (i - j))%nat = M (a + (i - j))%nat /\ M' (b + j)%nat = M (b + j)%nat) ->
  tail_sum M' a b i t = tail_sum M a b i t.
Proof.
  intros M M' a b i t H. unfold tail_sum.
  assert (forall l t, (forall j, In j l -> (1 <= j <= i)%nat) ->
    fold_left (fun tmp j => tmp + M' (a + (i - j))%nat * M' (b + j)%nat) l t
    = fold_left (fun tmp j => tmp + M (a + (i - j))%nat * M (b + j)%nat) l t) as G.
  { induction l; intros t0 L; [reflexivity|]. cbn [fold_left]. destruct (H a0) as [-> ->]; [apply L; now left|].
    apply IHl. intros. apply L. now right. }
  apply G. intros j I. apply in_seq in I. lia.
Qed.
Lemma mul_ext : forall f f' g g' i, (forall j, (j <= i)%nat -> f j = f' j) -> (forall j, (j <= i)%nat -> g j = g' j) -> mul f g i = mul f' g' i.
Proof. intros. unfold mul. apply sum_eq. intros. rewrite H, H0 by lia. reflexivity. Qed.

(** ** Descending loops: each turn writes position c+i from a function of what is below *)
Section Down.
Variable (c : nat) (F : mem -> nat -> R) (Dep : nat -> nat -> Prop).
(** F M i depends on positions q with Dep i q only *)
Hypothesis F_dep : forall M M' i, (forall q, Dep i q -> M q = M' q) -> F M i = F M' i.
Hypothesis not_above : forall i k q, Dep i q -> (i < k)%nat -> q <> (c + k)%nat.
Lemma down_effect : forall dim M q,
  downto dim (fun i M => upd M (c + i) (F M i)) M q
  = if ((c <=? q) && (q <? c + dim))%nat then F M (q - c)%nat else M q.
Proof.
  induction dim; intros M q; cbn [downto].
  - destruct (Nat.leb_spec c q), (Nat.ltb_spec q (c + 0)); cbn; try reflexivity; lia.
  - rewrite IHdim. destruct (Nat.leb_spec c q) as [L|L]; cbn [andb].
    + destruct (Nat.ltb_spec q (c + dim)) as [A|A].
      * destruct (Nat.ltb_spec q (c + S dim)); [|lia]. apply F_dep. intros q' D. apply upd_other.
        apply (not_above (q - c) dim q' D). lia.
      * destruct (Nat.ltb_spec q (c + S dim)).
        -- assert (q = (c + dim)%nat) as -> by lia. rewrite upd_same. f_equal. lia.
        -- apply upd_other. lia.
    + apply upd_other. lia.
Qed.
End Down.

Definition dep3 (a b c : nat) (i q : nat) := (a <= q <= a + i \/ b <= q <= b + i \/ q = c + i)%nat.
Lemma dep3_not_above : forall dim a b c i k q, apart_or_same dim a c -> apart_or_same dim b c ->
  (k < dim)%nat -> dep3 a b c i q -> (i < k)%nat -> q <> (c + k)%nat.
Proof. unfold dep3, apart_or_same, apart. intros. lia. Qed.

(* bounded version of down_effect *)
Lemma down_effect' : forall c F Dep dim,
  (forall M M' i, (i < dim)%nat -> (forall q, Dep i q -> M q = M' q) -> F M i = F M' i) ->
  (forall i k q, (k < dim)%nat -> Dep i q -> (i < k)%nat -> q <> (c + k)%nat) ->
  forall M q,
  downto dim (fun i M => upd M (c + i) (F M i)) M q
  = if ((c <=? q) && (q <? c + dim))%nat then F M (q - c)%nat else M q.
Proof.
  intros c F Dep dim. induction dim; intros HF HD M q; cbn [downto].
  - destruct (Nat.leb_spec c q), (Nat.ltb_spec q (c + 0)); cbn; try reflexivity; lia.
  - rewrite IHdim; [|intros; apply HF; [lia|assumption]|intros; apply (HD i); try assumption; lia].
    destruct (Nat.leb_spec c q) as [L|L]; cbn [andb].
    + destruct (Nat.ltb_spec q (c + dim)) as [A|A].
      * destruct (Nat.ltb_spec q (c + S dim)); [|lia]. apply HF; [lia|]. intros q' D. apply upd_other.
        apply (HD (q - c)%nat dim q'); [lia|assumption|lia].
      * destruct (Nat.ltb_spec q (c + S dim)).
        -- assert (q = (c + dim)%nat) as -> by lia. rewrite upd_same. f_equal. lia.
        -- apply upd_other. lia.
    + apply upd_other. lia.
Qed.

Lemma range_true : forall c i dim, (i < dim)%nat -> ((c <=? c + i) && (c + i <? c + dim))%nat = true.
Proof. intros. apply andb_true_intro. split; [apply Nat.leb_le|apply Nat.ltb_lt]; lia. Qed.
Lemma range_false : forall c q dim, (q < c \/ c + dim <= q)%nat -> ((c <=? q) && (q <? c + dim))%nat = false.
Proof. intros. destruct (Nat.leb_spec c q), (Nat.ltb_spec q (c + dim)); cbn; try reflexivity; lia. Qed.

Section Plain.
Variables (dim a b c : nat).
Hypothesis Ha : apart_or_same dim a c.
Hypothesis Hb : apart_or_same dim b c.
Variable (comb : R -> R -> R).
Let F (M : mem) (i : nat) : R := comb (M (c + i)%nat) (tail_sum M a b i (M (a + i)%nat * M b)).
Lemma plain_effect : forall M q,
  downto dim (fun i M => upd M (c + i) (F M i)) M q
  = if ((c <=? q) && (q <? c + dim))%nat then comb (M q) (mul (at_ M a) (at_ M b) (q - c)) else M q.
Proof.
  intros M q. rewrite (down_effect' c F (dep3 a b c) dim).
  - destruct (Nat.leb_spec c q), (Nat.ltb_spec q (c + dim)); cbn [andb]; try reflexivity.
    unfold F. rewrite tail_sum_mul. f_equal. f_equal. lia.
  - intros M1 M2 i I E. unfold F. rewrite (E (c + i)%nat), (E (a + i)%nat), (E b) by (unfold dep3; lia).
    f_equal. apply tail_sum_ext. intros j J. split; apply E; unfold dep3; lia.
  - intros i k q0 K D L. apply (dep3_not_above dim a b c i k q0 Ha Hb K D L).
Qed.
End Plain.

(** ** The variants that clear a *)
Section Zero.
Variables (a b c : nat) (comb : R -> R -> R).
Let body (i : nat) (M : mem) : mem :=
    let tmp := M (a + i)%nat * M b in
    let M1 := upd M (a + i) 0 in
    upd M1 (c + i) (comb (M1 (c + i)%nat) (tail_sum M1 a b i tmp)).
Lemma zero_effect : forall dim M, apart dim a b -> apart dim a c -> apart_or_same dim b c ->
  let M' := downto dim body M in
  (forall i, (i < dim)%nat -> M' (a + i)%nat = 0) /\
  (forall i, (i < dim)%nat -> M' (c + i)%nat = comb (M (c + i)%nat) (mul (at_ M a) (at_ M b) i)) /\
  (forall q, (q < a \/ a + dim <= q)%nat -> (q < c \/ c + dim <= q)%nat -> M' q = M q).
Proof.
  induction dim; intros M Ab Ac Bc; cbn [downto].
  - repeat split; intros; try lia; reflexivity.
  - assert (apart dim a b /\ apart dim a c /\ apart_or_same dim b c) as (X & Y & Z)
      by (unfold apart_or_same, apart in *; lia).
    destruct (IHdim (body dim M) X Y Z) as (P & Q & K). unfold apart_or_same in *; unfold apart in *.
    assert (forall q, q <> (a + dim)%nat -> q <> (c + dim)%nat -> body dim M q = M q) as Bo.
    { intros q A B. unfold body. rewrite !upd_other by lia. reflexivity. }
    assert (body dim M (a + dim)%nat = 0) as Ba.
    { unfold body. rewrite upd_other by lia. apply upd_same. }
    assert (body dim M (c + dim)%nat = comb (M (c + dim)%nat) (mul (at_ M a) (at_ M b) dim)) as Bcd.
    { unfold body. rewrite upd_same. rewrite upd_other by lia. f_equal.
      rewrite <- tail_sum_mul. apply tail_sum_ext. intros j J. split; apply upd_other; lia. }
    split; [|split].
    + intros i I. destruct (Nat.eq_dec i dim) as [->|].
      * rewrite K by lia. exact Ba.
      * apply P. lia.
    + intros i I. destruct (Nat.eq_dec i dim) as [->|].
      * rewrite K by lia. exact Bcd.
      * rewrite Q by lia. rewrite Bo by lia. f_equal. apply mul_ext; intros j J; unfold at_; apply Bo; lia.
    + intros q A C. rewrite K by lia. apply Bo; lia.
Qed.
End Zero.

(** ** Division *)
Lemma sub_lower_effect : forall b c i M, (forall j, (1 <= j <= i)%nat -> (b + j <> c + i)%nat) ->
  forall q, sub_lower b c i M q
  = if (q =? c + i)%nat then M (c + i)%nat - fold_left (fun t j => t + M (c + j)%nat * M (b + (i - j))%nat) (seq 0 i) 0 else M q.
Proof.
  intros b c i M H. unfold sub_lower, upto.
  assert (forall l M', (forall j, In j l -> (j < i)%nat) -> (forall q, q <> (c + i)%nat -> M' q = M q) ->
    forall q, fold_left (fun M j => upd M (c + i) (M (c + i)%nat - M (c + j)%nat * M (b + (i - j))%nat)) l M' q
    = if (q =? c + i)%nat then M' (c + i)%nat - fold_left (fun t j => t + M (c + j)%nat * M (b + (i - j))%nat) l 0 else M q) as G.
  { induction l as [|j l IH]; intros M' L E q; cbn [fold_left].
    - destruct (Nat.eqb_spec q (c + i)) as [->|]; [lra|now apply E].
    - rewrite IH.
      + rewrite upd_same. assert (j < i)%nat by (apply L; now left).
        rewrite (E (c + j)%nat) by lia. rewrite (E (b + (i - j))%nat) by (apply H; lia).
        rewrite (fold_add_acc _ l (0 + _)). destruct (q =? c + i)%nat; [lra|reflexivity].
      + intros. apply L. now right.
      + intros q0 Q. rewrite upd_other by assumption. now apply E. }
  intros q. rewrite (G (seq 0 i) M); [reflexivity| |reflexivity]. intros j I. apply in_seq in I. lia.
Qed.

(** the sum of the code, as the product without its last term *)
Lemma lower_sum : forall (f g : series) i,
  fold_left (fun t j => t + f j * g (i - j)%nat) (seq 0 i) 0 = mul g f i - g 0%nat * f i.
Proof.
  intros f g i. unfold mul.
  assert (forall k, (k <= i)%nat -> fold_left (fun t j => t + f j * g (i - j)%nat) (seq 0 k) 0 + f k * g (i - k)%nat = sum_f_R0 (fun j => g (i - j)%nat * f j) k) as G.
  { induction k; intros K; [cbn; lra|]. rewrite seq_S, fold_left_app. cbn [fold_left Nat.add sum_f_R0].
    rewrite <- IHk by lia. lra. }
  rewrite <- (G i) by lia. rewrite Nat.sub_diag. lra.
Qed.

(** one turn of divide / recipr, given the right value [num] in c[i] *)
Lemma quotient_step : forall b c i M M' num rec, M b <> 0 -> rec = 1 / M b ->
  (forall j, (0 <= j <= i)%nat -> (b + j <> c + i)%nat) ->
  M' = (let M1 := sub_lower b c i (upd M (c + i) num) in upd M1 (c + i) (M1 (c + i)%nat * rec)) ->
  (forall q, q <> (c + i)%nat -> M' q = M q) /\ mul (at_ M' b) (at_ M' c) i = num.
Proof.
  intros b c i M M' num rec B R Dj ->. cbv zeta. split.
  - intros q Q. rewrite upd_other by assumption. rewrite sub_lower_effect by (intros; apply Dj; lia).
    rewrite (proj2 (Nat.eqb_neq _ _) Q). now apply upd_other.
  - set (M1 := sub_lower b c i _). 
    assert (forall q, q <> (c + i)%nat -> M1 q = M q) as O.
    { intros q Q. unfold M1. rewrite sub_lower_effect by (intros; apply Dj; lia).
      rewrite (proj2 (Nat.eqb_neq _ _) Q). now apply upd_other. }
    assert (M1 (c + i)%nat = num - fold_left (fun t j => t + at_ M c j * at_ M b (i - j)%nat) (seq 0 i) 0) as E.
    { unfold M1. rewrite sub_lower_effect by (intros; apply Dj; lia). rewrite Nat.eqb_refl, upd_same. f_equal.
      assert (forall l t, (forall j, In j l -> (j < i)%nat) ->
        fold_left (fun t j => t + upd M (c + i) num (c + j)%nat * upd M (c + i) num (b + (i - j))%nat) l t
        = fold_left (fun t j => t + at_ M c j * at_ M b (i - j)%nat) l t) as G.
      { induction l; intros t L; [reflexivity|]. cbn [fold_left]. assert (a < i)%nat by (apply L; now left).
        rewrite !upd_other; [|apply Dj; lia|lia]. apply IHl. intros. apply L. now right. }
      apply G. intros j J. apply in_seq in J. lia. }
    set (N := upd M1 (c + i) (M1 (c + i)%nat * rec)).
    assert (forall j, (j <= i)%nat -> at_ N b j = at_ M b j) as Nb.
    { intros j J. unfold at_, N. rewrite upd_other by (apply Dj; lia). apply O. apply Dj; lia. }
    assert (forall j, (j < i)%nat -> at_ N c j = at_ M c j) as Nc.
    { intros j J. unfold at_, N. rewrite upd_other by lia. apply O. lia. }
    assert (mul (at_ N b) (at_ N c) i = fold_left (fun t j => t + at_ M c j * at_ M b (i - j)%nat) (seq 0 i) 0 + at_ M b 0%nat * at_ N c i) as ->.
    { replace (mul (at_ N b) (at_ N c) i) with ((mul (at_ N b) (at_ N c) i - at_ N b 0%nat * at_ N c i) + at_ N b 0%nat * at_ N c i) by lra.
      rewrite <- lower_sum. rewrite (Nb 0%nat) by lia. f_equal.
      assert (forall l t, (forall j, In j l -> (j < i)%nat) ->
        fold_left (fun t j => t + at_ N c j * at_ N b (i - j)%nat) l t
        = fold_left (fun t j => t + at_ M c j * at_ M b (i - j)%nat) l t) as G.
      { induction l; intros t L; [reflexivity|]. cbn [fold_left]. assert (a < i)%nat by (apply L; now left).
        rewrite Nc, Nb by lia. apply IHl. intros. apply L. now right. }
      apply G. intros j J. apply in_seq in J. lia. }
    assert (at_ N c i = (num - fold_left (fun t j => t + at_ M c j * at_ M b (i - j)%nat) (seq 0 i) 0) * rec) as ->.
    { unfold at_ at 1, N. rewrite upd_same, E. reflexivity. }
    unfold at_ at 3. rewrite Nat.add_0_r, R. field. exact B.
Qed.

(** the whole loop, from [start] on; [rd M i] is what the loop reads as numerator *)
Lemma quotient_loop : forall b c (rd : mem -> nat -> R) num rec start n M0 M,
  M0 b <> 0 -> rec = 1 / M0 b ->
  apart (start + n) b c ->
  (forall q, (q < c \/ c + start <= q)%nat -> M q = M0 q) ->
  (forall i, (i < start)%nat -> mul (at_ M b) (at_ M c) i = num i) ->
  (forall M' i, (start <= i < start + n)%nat -> (forall q, (q < c \/ c + i <= q)%nat -> M' q = M0 q) -> rd M' i = num i) ->
  let M' := upto (seq start n) (fun i M =>
    let M1 := sub_lower b c i (upd M (c + i) (rd M i)) in
    upd M1 (c + i) (M1 (c + i)%nat * rec)) M in
  (forall q, (q < c \/ c + (start + n) <= q)%nat -> M' q = M0 q) /\
  (forall i, (i < start + n)%nat -> mul (at_ M' b) (at_ M' c) i = num i).
Proof.
  intros b c rd num rec start n M0 M B R. induction n as [|n IH]; intros Ap Out Old Rd.
  - cbn. rewrite Nat.add_0_r. split; assumption.
  - cbv zeta. rewrite seq_S. unfold upto in *. rewrite fold_left_app. cbn [fold_left].
    set (body := fun (M : mem) (i : nat) => upd (sub_lower b c i (upd M (c + i) (rd M i))) (c + i)
           (sub_lower b c i (upd M (c + i) (rd M i)) (c + i)%nat * rec)) in *.
    set (N := fold_left body (seq start n) M) in *.
    destruct IH as (O & E); [unfold apart in *; lia|assumption|assumption|intros; apply Rd; [lia|assumption]|].
    assert (N b = M0 b) as Nb by (apply O; unfold apart in Ap; lia).
    set (M1 := body N (start + n)%nat).
    destruct (quotient_step b c (start + n) N M1 (rd N (start + n)%nat) rec) as (O1 & E1).
    { now rewrite Nb. } { now rewrite Nb. }
    { intros j J. unfold apart in Ap. lia. }
    { reflexivity. }
    split.
    + intros q Q. transitivity (N q); [apply O1; lia|]. apply O. lia.
    + intros i I. destruct (Nat.eq_dec i (start + n)) as [->|].
      * transitivity (rd N (start + n)%nat); [exact E1|]. apply Rd; [lia|exact O].
      * rewrite <- (E i) by lia. apply mul_ext; intros j J; unfold at_; apply O1; unfold apart in Ap; lia.
Qed.
