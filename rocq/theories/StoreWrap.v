(** * Growth of the location store in real [size_t] arithmetic (modulo 2^64). *)
From Coq Require Import Arith NArith Lia.
Local Open Scope N_scope.

Definition W : N := 2 ^ 64.

(** storemanager.cpp:413-417  maxsize = initialSize  /  maxsize *= 2 *)
Definition wstart (old : N) : N := if old =? 0 then 4 else (2 * old) mod W.

(** storemanager.cpp:420  loop condition  maxsize - oldMaxsize < minGrow
    (unsigned subtraction) *)
Definition wcond (m old mg : N) : bool := ((m + W - old) mod W) <? mg.

(** storemanager.cpp:421  maxsize *= 2 *)
Definition wbody (m : N) : N := (2 * m) mod W.

(** the value of maxsize after k executions of the loop body *)
Definition witer (k : nat) (m : N) : N := Nat.iter k wbody m.

(** storemanager.cpp:425  the check that is meant to raise SM_MAX_LIVES:
    maxsize > std::numeric_limits<size_t>::max() *)
Definition wcheck (m : N) : bool := (W - 1) <? m.

Lemma witer_pow (k : nat) : witer k 4 = (2 ^ (N.of_nat k + 2)) mod W.
Proof.
  induction k as [|k IH].
  - reflexivity.
  - change (witer (S k) 4) with (wbody (witer k 4)). rewrite IH. unfold wbody.
    rewrite N.mul_mod_idemp_r by discriminate. f_equal.
    rewrite Nat2N.inj_succ. replace (N.succ (N.of_nat k) + 2) with (N.succ (N.of_nat k + 2)) by lia.
    rewrite N.pow_succ_r'. reflexivity.
Qed.

Lemma witer_bound (k : nat) : witer k 4 <= 2 ^ 63.
Proof.
  rewrite witer_pow. destruct (N.le_gt_cases (N.of_nat k + 2) 63) as [H|H].
  - rewrite N.mod_small.
    + apply N.pow_le_mono_r; lia.
    + unfold W. apply N.pow_lt_mono_r; lia.
  - replace (N.of_nat k + 2) with (64 + (N.of_nat k + 2 - 64)) by lia.
    rewrite N.pow_add_r. fold W. rewrite N.mul_comm, N.mod_mul by discriminate. lia.
Qed.

Lemma wrap_diverges (mg : N) : 2 ^ 63 < mg -> mg < W ->
  forall k, wcond (witer k (wstart 0)) 0 mg = true.
Proof.
  intros H H1 k. unfold wstart. cbn [N.eqb]. unfold wcond. rewrite N.sub_0_r.
  pose proof (witer_bound k) as B.
  replace (witer k 4 + W) with (witer k 4 + 1 * W) by lia.
  rewrite N.mod_add by discriminate. rewrite N.mod_small.
  - apply N.ltb_lt. lia.
  - assert (2 ^ 63 < W) by reflexivity. lia.
Qed.

Lemma wcheck_dead m : m < W -> wcheck m = false.
Proof. intros H. unfold wcheck. apply N.ltb_ge. lia. Qed.

(** ** Which requests are served.  The sizes the store can have are 0 and the
    powers of two from 4 on ([store_size]). *)
Definition store_size (old : N) : Prop := old = 0 \/ exists j, 2 <= j <= 63 /\ old = 2 ^ j.

(** storemanager.cpp:411-423 in machine arithmetic: [grows old mg m] - the loop
    ends, with [maxsize] = m. *)
Definition grows (old mg m : N) : Prop :=
  exists k, m = witer k (wstart old) /\
    (mg = 0 /\ k = O \/ 0 < mg /\ wcond m old mg = false /\
     forall i, (i < k)%nat -> wcond (witer i (wstart old)) old mg = true).

Lemma witer_pow_gen (k : nat) (e : N) : witer k ((2 ^ e) mod W) = (2 ^ (e + N.of_nat k)) mod W.
Proof.
  induction k as [|k IH].
  - cbn [witer Nat.iter]. change (N.of_nat 0) with 0. rewrite N.add_0_r. reflexivity.
  - change (witer (S k) ((2 ^ e) mod W)) with (wbody (witer k ((2 ^ e) mod W))). rewrite IH. unfold wbody.
    rewrite N.mul_mod_idemp_r by discriminate. f_equal.
    rewrite Nat2N.inj_succ. replace (e + N.succ (N.of_nat k)) with (N.succ (e + N.of_nat k)) by lia.
    rewrite N.pow_succ_r'. reflexivity.
Qed.

Lemma store_exp old : store_size old -> exists e, 2 <= e <= 64 /\
  wstart old = (2 ^ e) mod W /\ (old = 0 /\ e = 2 \/ old <> 0 /\ 3 <= e /\ old = 2 ^ (e - 1)).
Proof.
  intros [->|(j & Hj & ->)].
  - exists 2. split; [lia|]. split; [reflexivity|]. left. split; reflexivity.
  - exists (j + 1). split; [lia|]. assert (2 ^ j <> 0) by (apply N.pow_nonzero; lia).
    split.
    + unfold wstart. rewrite (proj2 (N.eqb_neq _ _)) by assumption.
      rewrite <- N.pow_succ_r', N.add_1_r. reflexivity.
    + right. repeat split; try lia; auto. f_equal. lia.
Qed.

Lemma pow64 e : 64 <= e -> (2 ^ e) mod W = 0.
Proof.
  intros H. replace e with (64 + (e - 64)) by lia.
  rewrite N.pow_add_r. fold W. now rewrite N.mul_comm, N.mod_mul by discriminate.
Qed.

Lemma pow63 e : e <= 63 -> (2 ^ e) mod W = 2 ^ e /\ 2 ^ e <= 2 ^ 63.
Proof.
  intros H. assert (2 ^ e <= 2 ^ 63) by (apply N.pow_le_mono_r; lia).
  split; [|assumption]. apply N.mod_small. assert (2 ^ 63 < W) by reflexivity. lia.
Qed.

Lemma wcond_big m old mg : old <= m -> m < W -> wcond m old mg = (m - old <? mg).
Proof.
  intros H H1. unfold wcond. replace (m + W - old) with (m - old + 1 * W) by lia.
  rewrite N.mod_add by discriminate. rewrite N.mod_small by lia. reflexivity.
Qed.
Lemma wcond_zero old mg : 0 < old -> old < W -> wcond 0 old mg = (W - old <? mg).
Proof. intros H H1. unfold wcond. rewrite N.mod_small by lia. reflexivity. Qed.

Lemma mono e e' : e <= e' -> 2 ^ e <= 2 ^ e'.
Proof. intros H. apply N.pow_le_mono_r; lia. Qed.

Lemma two_sum e : 1 <= e -> 2 ^ e = 2 ^ (e - 1) + 2 ^ (e - 1).
Proof. intros H. replace e with (N.succ (e - 1)) at 1 by lia. rewrite N.pow_succ_r'. lia. Qed.

(** A request that fits below 2^63 is served: the loop ends with a legal size
    that has room for the request and at least doubles the store. *)
Lemma grows_fits old mg : store_size old -> old + mg <= 2 ^ 63 -> (old = 2 ^ 63 -> False) ->
  exists m, grows old mg m /\ store_size m /\ old < m /\ mg <= m - old /\ 2 * old <= m /\ 4 <= m /\
    (m = N.max 4 (2 * old) \/ m / 2 < old + mg).
Proof.
  intros Sz F NB. destruct (store_exp _ Sz) as (e & He & E & D).
  assert (HW : 2 ^ 63 < W) by reflexivity.
  assert (He63 : e <= 63).
  { destruct D as [[_ ->]|(_ & _ & ->)]; [lia|].
    assert (e <> 64) by (intros ->; apply NB; reflexivity). lia. }
  assert (Old : old < 2 ^ e).
  { destruct D as [[-> _]|(_ & _ & ->)]; [apply N.neq_0_lt_0, N.pow_nonzero; lia|].
    apply N.pow_lt_mono_r; lia. }
  assert (Hm : forall i, e + N.of_nat i <= 63 -> witer i (wstart old) = 2 ^ (e + N.of_nat i)).
  { intros i Hi. rewrite E, witer_pow_gen. now apply pow63. }
  assert (Hc : forall i, e + N.of_nat i <= 63 ->
     wcond (witer i (wstart old)) old mg = (2 ^ (e + N.of_nat i) - old <? mg)).
  { intros i Hi. rewrite Hm by assumption.
    pose proof (pow63 _ Hi). pose proof (mono e (e + N.of_nat i)). apply wcond_big; lia. }
  assert (Max : N.max 4 (2 * old) = 2 ^ e).
  { destruct D as [[-> ->]|(_ & H3 & ->)]; [reflexivity|].
    assert (4 <= 2 ^ (e - 1)) by (change 4 with (2 ^ 2); apply mono; lia).
    rewrite <- N.pow_succ_r'. replace (N.succ (e - 1)) with e by lia.
    pose proof (mono (e - 1) e). lia. }
  assert (P : exists k, e + N.of_nat k <= 63 /\ mg <= 2 ^ (e + N.of_nat k) - old /\
     forall i, (i < k)%nat -> 2 ^ (e + N.of_nat i) - old < mg).
  { assert (G : forall d j, (N.of_nat j + e + N.of_nat d = 63) ->
       (forall i, (i < j)%nat -> 2 ^ (e + N.of_nat i) - old < mg) ->
       exists k, e + N.of_nat k <= 63 /\ mg <= 2 ^ (e + N.of_nat k) - old /\
         forall i, (i < k)%nat -> 2 ^ (e + N.of_nat i) - old < mg).
    { induction d as [|d IH]; intros j Hj Hi.
      - exists j. split; [lia|]. split; [|exact Hi].
        replace (e + N.of_nat j) with 63 by lia. lia.
      - destruct (N.le_gt_cases mg (2 ^ (e + N.of_nat j) - old)) as [L|L].
        + exists j. split; [lia|]. now split.
        + apply (IH (S j)); [lia|]. intros i Hi'. destruct (Nat.eq_dec i j) as [->|Ne]; [exact L|].
          apply Hi. lia. }
    apply (G (N.to_nat (63 - e)) O); [lia|]. intros i Hi. lia. }
  destruct P as (k & Hk & Hge & Hlt).
  assert (Le : 2 ^ e <= 2 ^ (e + N.of_nat k)) by (apply mono; lia).
  assert (F4 : 4 <= 2 ^ (e + N.of_nat k)) by (change 4 with (2 ^ 2); apply mono; lia).
  exists (2 ^ (e + N.of_nat k)). split.
  - exists k. split; [symmetry; now apply Hm|].
    destruct (N.eq_dec mg 0) as [->|Nz].
    + left. split; [reflexivity|]. destruct k; [reflexivity|]. specialize (Hlt O ltac:(lia)). lia.
    + right. split; [lia|]. split.
      * rewrite <- (Hm k Hk), Hc by assumption. apply N.ltb_ge. exact Hge.
      * intros i Hi. rewrite Hc by lia. apply N.ltb_lt. now apply Hlt.
  - split; [right; exists (e + N.of_nat k); split; [lia|reflexivity]|].
    assert (2 * old <= 2 ^ e) by (rewrite <- Max; lia).
    repeat split; try lia.
    destruct k as [|k].
    + left. rewrite Max. change (N.of_nat 0) with 0. now rewrite N.add_0_r.
    + right. specialize (Hlt k ltac:(lia)).
      rewrite (two_sum (e + N.of_nat (S k))) by lia.
      replace (e + N.of_nat (S k) - 1) with (e + N.of_nat k) by lia.
      replace (2 ^ (e + N.of_nat k) + 2 ^ (e + N.of_nat k)) with (2 ^ (e + N.of_nat k) * 2) by lia.
      rewrite N.div_mul by lia. lia.
Qed.

(** Any other request ends with a store of size 0 (the next write is outside of
    it) or does not end. *)
Lemma grows_too_big old mg : store_size old -> 2 ^ 63 < old + mg \/ old = 2 ^ 63 -> mg < W ->
  forall m, grows old mg m -> m = 0 /\ old <> 0.
Proof.
  intros Sz B Mw m (k & -> & G). destruct (store_exp _ Sz) as (e & He & E & D).
  assert (HW : 2 ^ 63 < W) by reflexivity.
  assert (HWs : 2 ^ 64 = W) by reflexivity.
  assert (Old : old <= 2 ^ 63).
  { destruct D as [[-> _]|(_ & _ & ->)]; [lia|]. apply mono. lia. }
  assert (Big : forall i, e + N.of_nat i <= 63 -> wcond (witer i (wstart old)) old mg = false -> mg = 0).
  { intros i Hi. rewrite E, witer_pow_gen. destruct (pow63 _ Hi) as [-> Hp].
    assert (old <= 2 ^ (e + N.of_nat i)).
    { destruct D as [[-> _]|(_ & _ & ->)]; [lia|]. apply mono. lia. }
    rewrite wcond_big by lia. intros L. apply N.ltb_ge in L.
    destruct B as [B| ->]; [lia|].
    destruct D as [[C _]|(_ & _ & C)]; [discriminate|].
    apply N.pow_inj_r in C; lia. }
  destruct (N.le_gt_cases (e + N.of_nat k) 63) as [L|L].
  - exfalso. destruct G as [[-> ->]|(Mp & C & _)].
    + destruct B as [B|B]; [lia|]. subst old.
      destruct D as [[C _]|(_ & _ & C)]; [discriminate|]. apply N.pow_inj_r in C; lia.
    + apply Big in C; lia.
  - assert (Z : witer k (wstart old) = 0) by (rewrite E, witer_pow_gen; apply pow64; lia).
    split; [exact Z|]. intros ->. destruct G as [[-> ->]|(Mp & C & _)].
    + destruct B as [B|B]; [lia|discriminate].
    + rewrite Z in C. unfold wcond in C. rewrite N.sub_0_r in C. change ((0 + W) mod W) with 0 in C.
      apply N.ltb_ge in C. lia.
Qed.

(** The loop has at most one result. *)
Lemma grows_unique old mg m m' : grows old mg m -> grows old mg m' -> m = m'.
Proof.
  intros (k & -> & G) (k' & -> & G').
  destruct G as [[-> ->]|(P & C & H)]; destruct G' as [[P' ->]|(P' & C' & H')]; try lia; auto.
  destruct (Nat.lt_trichotomy k k') as [L|[->|L]]; [|reflexivity|].
  - rewrite H' in C by assumption. discriminate.
  - rewrite H in C' by assumption. discriminate.
Qed.

(** The growth computed in unbounded arithmetic (StoreModel.new_max, used for
    C01-C05) is the machine's for every request that fits. *)
Require Import Verif.StoreModel.

Lemma grow_loop_iter fuel m old mg : (old < m)%nat -> (mg <= m - old + fuel)%nat -> exists k,
  grow_loop (S fuel) m old mg = (2 ^ k * m)%nat /\ (mg <= 2 ^ k * m - old)%nat /\
  forall i, (i < k)%nat -> (2 ^ i * m - old < mg)%nat.
Proof.
  revert m. induction fuel as [|f IH]; intros m Hm Hf.
  - exists O. cbn [grow_loop Nat.pow]. destruct (Nat.ltb_spec (m - old) mg); [lia|].
    split; [lia|]. split; [lia|]. intros i Hi. lia.
  - cbn [grow_loop]. destruct (Nat.ltb_spec (m - old) mg) as [L|L].
    + destruct (IH (2 * m)%nat ltac:(lia) ltac:(lia)) as (k & E & G & H).
      exists (S k). cbn [grow_loop] in E. rewrite E.
      assert (P : (2 ^ S k = 2 * 2 ^ k)%nat) by reflexivity.
      split; [rewrite P; lia|]. split; [rewrite P; lia|].
      intros i Hi. destruct i as [|i]; [cbn [Nat.pow]; lia|].
      specialize (H i ltac:(lia)). assert (P' : (2 ^ S i = 2 * 2 ^ i)%nat) by reflexivity.
      rewrite P'. lia.
    + exists O. cbn [Nat.pow]. split; [lia|]. split; [lia|]. intros i Hi. lia.
Qed.

Lemma new_max_machine old mg :
  store_size (N.of_nat old) -> N.of_nat old <> 2 ^ 63 -> N.of_nat old + N.of_nat mg <= 2 ^ 63 ->
  grows (N.of_nat old) (N.of_nat mg) (N.of_nat (new_max old mg)).
Proof.
  intros Sz NB F. destruct (grows_fits _ _ Sz F NB) as (m & G & Sm & _).
  replace (N.of_nat (new_max old mg)) with m; [exact G|].
  destruct (store_exp _ Sz) as (e & He & E & D).
  set (st := if Nat.eqb old 0 then initialSize else (2 * old)%nat).
  assert (HW : 2 ^ 63 < W) by reflexivity.
  assert (Est : wstart (N.of_nat old) = N.of_nat st).
  { unfold wstart, st, initialSize. destruct old as [|o]; [reflexivity|].
    cbn [Nat.eqb]. rewrite (proj2 (N.eqb_neq _ _)) by lia. rewrite N.mod_small.
    - lia.
    - destruct D as [[C _]|(_ & H3 & C)]; [lia|].
      assert (e <> 64) by (intros ->; apply NB; exact C).
      rewrite C, <- N.pow_succ_r'. replace (N.succ (e - 1)) with e by lia.
      pose proof (mono e 63). lia. }
  assert (Hst : (old < st)%nat) by (unfold st, initialSize; destruct old; cbn [Nat.eqb]; lia).
  destruct (grow_loop_iter mg st old mg Hst ltac:(lia)) as (k & Ek & Gk & Hk).
  assert (P : forall i, N.of_nat (2 ^ i * st) < W -> witer i (N.of_nat st) = N.of_nat (2 ^ i * st)).
  { induction i as [|i IH]; intros Hi.
    - rewrite Nat.pow_0_r, Nat.mul_1_l. reflexivity.
    - assert (Q : (2 ^ S i = 2 * 2 ^ i)%nat) by reflexivity. rewrite Q in *.
      change (witer (S i) (N.of_nat st)) with (wbody (witer i (N.of_nat st))).
      rewrite IH by lia. unfold wbody. rewrite N.mod_small; lia. }
  assert (Sm63 : forall j, (j <= k)%nat -> N.of_nat (2 ^ j * st) < W).
  { intros j Hj. destruct j as [|j].
    - cbn [Nat.pow]. rewrite Nat.mul_1_l, <- Est, E. apply N.mod_upper_bound. discriminate.
    - specialize (Hk j ltac:(lia)). assert (Q : (2 ^ S j = 2 * 2 ^ j)%nat) by reflexivity. rewrite Q.
      rewrite <- Nat.mul_assoc. generalize dependent (2 ^ j * st)%nat. intros q Hq.
      assert (N.of_nat q < 2 ^ 63) by lia. change W with (2 * 2 ^ 63). lia. }
  assert (Mn : new_max old mg = (2 ^ k * st)%nat) by exact Ek.
  apply (grows_unique _ _ _ _ G). rewrite Mn.
  exists k. rewrite Est. split; [symmetry; apply P, Sm63; lia|].
  destruct mg as [|g].
  - left. split; [reflexivity|]. destruct k; [reflexivity|]. specialize (Hk O ltac:(lia)). lia.
  - right. split; [lia|].
    assert (B : forall j, (old <= 2 ^ j * st)%nat).
    { intros j. pose proof (Nat.pow_nonzero 2 j ltac:(lia)). nia. }
    split.
    + rewrite wcond_big; [apply N.ltb_ge|pose proof (B k); lia|apply Sm63; lia].
      lia.
    + intros i Hi. rewrite P by (apply Sm63; lia).
      rewrite wcond_big; [apply N.ltb_lt|pose proof (B i); lia|apply Sm63; lia].
      specialize (Hk i Hi). lia.
Qed.
